(** What a user may assume about the memory of a message around Unmarshal.
    [reads] and [owns]: OwnSpec.v. *)
From Verif Require Import Base Value HMem OwnSpec.
Open Scope nat_scope.

(** The location holds the value [v] (which may share memory with anything). *)
Definition holds (h : mem) (L : loc) (v : val) : Prop :=
  exists x, hload h L = Some x /\ reads h (fun _ => True) x v.

(** The message at [L] is [v].  Its maps, the arrays of its lists and its unknown bytes are
    the objects [W], all different and not used by anything else in the message; what it
    refers to otherwise is in [A].  Nothing in the message refers to the variable that
    contains it. *)
Record message_at (h : mem) (A : nat -> Prop) (W : list nat) (L : loc) (v : val) : Prop := {
  m_holds : exists x, hload h L = Some x /\ owns h A W x v;
  m_nodup : NoDup W;
  m_W : forall o, In o W -> ~ A o /\ o < next h /\ o <> l_obj L;
  m_A : forall o, A o -> o < next h /\ o <> l_obj L;
  m_L : l_obj L < next h
}.

(** The input is a slice of bytes that the message does not own. *)
Record input_at (h : mem) (W : list nat) (L : loc) (b : slice) : Prop := {
  i_alloc : s_arr b < next h;
  i_range : s_off b + s_len b <= length (bytes_of h (s_arr b));
  i_apart : ~ In (s_arr b) (l_obj L :: W)
}.

(** Two locations without a common part *)
Fixpoint diverge (p q : list nat) : Prop :=
  match p, q with
  | i :: p', j :: q' => i <> j \/ i = j /\ diverge p' q'
  | _, _ => False
  end.
Definition apart (L L' : loc) : Prop :=
  l_obj L <> l_obj L' \/ l_idx L <> l_idx L' \/ diverge (l_path L) (l_path L').

(** The message became [v']: from [h] to [h'] nothing that existed has changed but what the
    message owned and its own location; what it owns now it owned before or is new; what it
    refers to now it referred to or owned before, or is new. *)
Definition became (h : mem) (A : nat -> Prop) (W : list nat) (L : loc) (h' : mem) (A' : nat -> Prop) (W' : list nat) (v' : val) : Prop :=
  message_at h' A' W' L v' /\ next h <= next h' /\
  (forall o, o < next h -> ~ In o (l_obj L :: W) -> objs h' o = objs h o) /\
  (forall L', l_obj L' = l_obj L -> apart L L' -> hload h' L' = hload h L') /\
  (forall o, In o W' -> In o W \/ next h <= o) /\
  (forall o, A' o -> A o \/ In o W \/ next h <= o).
