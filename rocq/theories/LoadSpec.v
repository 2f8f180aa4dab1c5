(** Import graphs, independent of the loader. *)
From Verif Require Import Base.
Open Scope nat_scope.

Inductive reaches (imports : nat -> list nat) : nat -> nat -> Prop :=
| reaches_self x : reaches imports x x
| reaches_via x y z : In y (imports x) -> reaches imports y z -> reaches imports x z.
(** Some file that [f] needs imports itself, through others or not. *)
Definition cyclic (imports : nat -> list nat) (f : nat) : Prop :=
  exists x y, reaches imports f x /\ In y (imports x) /\ reaches imports y x.
(** [x] stands before [y]. *)
Definition before (l : list nat) (x y : nat) : Prop := exists a b c, l = a ++ x :: b ++ y :: c.
(** All files that could be met. *)
Definition universe (imports : nat -> list nat) (U : list nat) (f : nat) : Prop :=
  In f U /\ forall x y, In x U -> In y (imports x) -> In y U.
