(** What the code writer of prutalgen is to produce, in terms of the calls made to it.
    Independent of its buffer and map. *)
From Coq Require Import Strings.String Init.Byte.
From Verif Require Import Base GoStr GenImport ImportSpec.
Import StringSyntax.
Open Scope N_scope.

(** The order of the bytes of two strings. *)
Definition lex_lt (p q : bytes) : Prop :=
  (exists d r, q = p ++ d :: r) \/
  exists c x y p' q', p = c ++ x :: p' /\ q = c ++ y :: q' /\ b2n x < b2n y.
(** Imports are ordered by the weights of their groups, and by their paths in a group. *)
Definition before (g : bytes -> Z) (p q : bytes) : Prop :=
  (g p < g q)%Z \/ (g p = g q /\ lex_lt p q).
Definition line (s : bytes) : bytes := if beqb (last s x00) x0a then s else s ++ [x0a].
(** A header with an empty line after it, the package clause, the imports, and the rest. *)
Definition layout (header pkg imports body : bytes) : bytes :=
  (match header with [] => [] | _ => line header ++ [x0a] end) ++
  bs "package " ++ pkg ++ [x0a; x0a] ++ imports ++ [x0a; x0a] ++ body.
Definition contains (s p : bytes) : Prop := exists a b, s = a ++ p ++ b.

(** The text that calls add to a file: what is written, line by line. *)
Inductive pieces : list call -> bytes -> Prop :=
| pc_nil : pieces [] []
| pc_write s cs b : pieces cs b -> pieces (Call_Write s :: cs) (s ++ b)
| pc_line f t cs b : f <> [] -> t <> [] -> pieces cs b -> pieces (Call_F f t :: cs) (line t ++ b)
| pc_empty t cs b : pieces cs b -> pieces (Call_F [] t :: cs) ([x0a] ++ b)
| pc_use p a cs b : pieces cs b -> pieces (Call_UsePkg p a :: cs) b
| pc_group g cs b : pieces cs b -> pieces (Call_Grouping g :: cs) b.
(** The package [q] was asked for with alias [a], and not again. *)
Definition asked (cs : list call) (q a : bytes) : Prop :=
  exists u v, cs = u ++ Call_UsePkg q a :: v /\ forall a', ~ In (Call_UsePkg q a') v.
(** The name an import is given: none if no alias was asked for, or the one it has anyway. *)
Definition import_name (q a : bytes) (n : option bytes) : Prop :=
  (n = None /\ (a = [] \/ path_Base q = a)) \/ (n = Some a /\ a <> [] /\ path_Base q <> a).
Fixpoint last_grouping (g : bytes -> Z) (cs : list call) : bytes -> Z :=
  match cs with [] => g | Call_Grouping g' :: r => last_grouping g' r | _ :: r => last_grouping g r end.
