(** The characters of a file, and comments and words in plain terms. *)
From Coq Require Import List ZArith Init.Byte.
From Verif Require Import Base StrLitSpec LexSpec.
Import ListNotations.
Open Scope Z_scope.

(** The bytes of a file are read as UTF-8; a byte at which no character begins
    is read as U+FFFD. *)
Inductive decoded : bytes -> LexSpec.text -> Prop :=
| dec_end : decoded [] []
| dec_char c u s t : utf8 c u -> decoded s t -> decoded (u ++ s) (Z.of_N c :: t)
| dec_bad b s t : (forall c u r, utf8 c u -> b :: s <> u ++ r) ->
    decoded s t -> decoded (b :: s) (65533 :: t).

(** [x] has no [y] in it. *)
Definition without (y x : LexSpec.text) : Prop := forall a b, x <> a ++ y ++ b.

(** "/*", any text, and the first "*/" behind it *)
Definition is_block_comment (t : LexSpec.text) : Prop :=
  exists x, t = [slash; star] ++ x ++ [star; slash] /\ is_text x /\
    without [star; slash] (x ++ [star]).
(** "//" and what follows up to the end of the line *)
Definition is_line_comment (t : LexSpec.text) : Prop :=
  exists x, t = [slash; slash] ++ x /\ is_text x /\ ~ In newline x /\ ~ In creturn x.
(** A letter or underscore, then letters, digits and underscores *)
Definition is_word (t : LexSpec.text) : Prop :=
  exists c x, t = c :: x /\ in_ranges letter_ranges c = true /\
    Forall (fun c => is_word_char c = true) x.
