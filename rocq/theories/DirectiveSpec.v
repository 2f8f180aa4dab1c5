(** What the directives of a comment are. *)
From Coq Require Import Strings.String Init.Byte.
From Verif Require Import Base GoStr.
Import StringSyntax.

(** [parts_of sep s l]: [s] is the parts [l], none of which contains [sep], with [sep]
    between them. *)
Inductive parts_of (sep : byte) : bytes -> list bytes -> Prop :=
| po_last p : ~ In sep p -> parts_of sep p [p]
| po_more p s l : ~ In sep p -> parts_of sep s l -> parts_of sep (p ++ sep :: s) (p :: l).

(** The names in a line: those of the comma separated parts after //prutalgen: that are not
    blank, without the white space around them. *)
Inductive names_in : list bytes -> list bytes -> Prop :=
| ni_nil : names_in [] []
| ni_blank p l ns : TrimSpace p = [] -> names_in l ns -> names_in (p :: l) ns
| ni_name p l ns : TrimSpace p <> [] -> names_in l ns -> names_in (p :: l) (TrimSpace p :: ns).
Inductive line_directives (line : bytes) : list bytes -> Prop :=
| ld_other : (forall t, TrimSpace line <> bs "//prutalgen:" ++ t) -> line_directives line []
| ld_names t ps ns : TrimSpace line = bs "//prutalgen:" ++ t -> parts_of x2c t ps -> names_in ps ns ->
    line_directives line ns.
(** The directives of a comment: those of its lines, in order. *)
Inductive comment_directives (comment : bytes) : list bytes -> Prop :=
| cd_lines ls dd : parts_of x0a comment ls -> Forall2 line_directives ls dd -> comment_directives comment (concat dd).
