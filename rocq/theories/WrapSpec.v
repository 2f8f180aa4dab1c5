(** Where the wrappers of oneofs are, by themselves: places in the value that ProtoReflect returns. *)
From Coq Require Import List Arith Strings.String.
From Verif Require Import Base GoStr WrapSearch.
Import ListNotations StringSyntax.
Open Scope nat_scope.

(** Following pointers and interfaces from [v] ends at [w] *)
Inductive leads (h : heap) : gval -> gval -> Prop :=
| leads_nil : leads h (WRef None) WOther
| leads_ref a w : leads h (h a) w -> leads h (WRef (Some a)) w
| leads_struct fs : leads h (WStruct fs) (WStruct fs)
| leads_wraps l : leads h (WWraps l) (WWraps l)
| leads_other : leads h WOther WOther.
Definition wrappers_field : bytes := bs "OneofWrappers".
(** A struct has a field OneofWrappers *)
Definition has_wrappers (fs : list (bytes * gval)) : Prop := In wrappers_field (map fst fs).
(** The value at a place: a list of indices of fields, through structs without a field OneofWrappers *)
Inductive at_place (h : heap) : gval -> list nat -> gval -> Prop :=
| at_here v : at_place h v [] v
| at_below v fs i s f p w : leads h v (WStruct fs) -> ~ has_wrappers fs -> nth_error fs i = Some (s, f) -> at_place h f p w -> at_place h v (i :: p) w.
(** At place [p] is a struct with the wrappers [l] *)
Definition holds (h : heap) (v : gval) (p : list nat) (l : option (list nat)) : Prop :=
  exists w fs, at_place h v p w /\ leads h w (WStruct fs) /\ has_wrappers fs /\
    exists a b, fs = a ++ (wrappers_field, WWraps l) :: b /\ ~ has_wrappers a.
(** The order of places *)
Inductive before : list nat -> list nat -> Prop :=
| before_here i j p q : i < j -> before (i :: p) (j :: q)
| before_below i p q : before p q -> before (i :: p) (i :: q).
(** Every field OneofWrappers in the first [d] levels is a slice *)
Definition slices (h : heap) (v : gval) (d : nat) : Prop :=
  forall p w fs, length p < d -> at_place h v p w -> leads h w (WStruct fs) -> has_wrappers fs -> exists l, holds h v p l.
(** No pointer chain in the first [d] levels is endless *)
Definition ends (h : heap) (v : gval) (d : nat) : Prop :=
  forall p w, length p < d -> at_place h v p w -> exists u, leads h w u.
(** [l] is what the first place with a list holds *)
Definition first_at (h : heap) (v : gval) (d : nat) (l : list nat) : Prop :=
  exists p, length p < d /\ holds h v p (Some l) /\ forall q k, length q < d -> holds h v q (Some k) -> q = p \/ before p q.
