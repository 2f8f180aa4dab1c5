(** When a struct type is valid, and when a descriptor is the right one; independent of the
    caches. *)
From Verif Require Import Base Wire Coder MapTables Value Desc GoStr TagParse Parse Hist.
Open Scope nat_scope.

(** The struct types in a type *)
Fixpoint ids (t : gotype) : list nat :=
  match t with
  | TStruct i => [i]
  | TPtr t | TSlice t => ids t
  | TMap k v => ids k ++ ids v
  | _ => []
  end.

(** The keys of maps contain no struct types. *)
Fixpoint keys_plain (t : gotype) : bool :=
  match t with
  | TPtr t | TSlice t => keys_plain t
  | TMap k v => match ids k with [] => true | _ => false end && keys_plain v
  | _ => true
  end.

Section Spec.
Variable D : nat -> godecl.

(** The struct types that a struct type needs: itself, and those in the types of the fields
    of those it needs.  ([describe], of Parse.v, says whether a declaration is valid by
    itself, and what its descriptor is.) *)
Inductive needs : nat -> nat -> Prop :=
| needs_self i : needs i i
| needs_field i j sd f k : needs i j -> describe (D j) = POk sd -> In f (sd_fields sd) -> In k (ids (f_T f)) -> needs i k.
(** A struct type is valid if all it needs are valid by themselves. *)
Definition valid (i : nat) : Prop := forall j, needs i j -> exists sd, describe (D j) = POk sd.

(** Everything that can be reached from the descriptor [s] in the heap is as declared.  (The
    types of keys are only looked at, they have no descriptors.) *)
Definition faithful (h : heap) (s i : nat) : Prop :=
  exists (RS : nat -> nat -> Prop) (RT : nat -> gotype -> Prop), RS s i /\
    (forall s i, RS s i -> exists sd, describe (D i) = POk sd /\
       map (fun f => pf_desc (of_p f)) (so_fields (h_structs h s)) = sd_fields sd /\
       Forall (fun f => RT (of_T f) (f_T (pf_desc (of_p f)))) (so_fields (h_structs h s))) /\
    (forall o t, RT o t -> to_rt (h_types h o) = t /\
       match t with
       | TPtr t' | TSlice t' => exists v, to_V (h_types h o) = Some v /\ RT v t'
       | TMap kt vt => exists k v, to_K (h_types h o) = Some k /\ to_rt (h_types h k) = kt /\
                         to_V (h_types h o) = Some v /\ RT v vt
       | TStruct j => exists x, to_S (h_types h o) = Some x /\ RS x j
       | _ => True
       end).

(** What may have happened before: any calls, each to its end. *)
Inductive history : heap -> Prop :=
| hist_empty : history empty
| hist_call h fuel t h' r : history h -> GetOrParse D fuel h t = (h', r) -> r <> RFuel -> history h'.
(** Without failures. *)
Inductive successes : heap -> Prop :=
| succ_empty : successes empty
| succ_call h fuel t h' s : successes h -> GetOrParse D fuel h t = (h', ROk s) -> successes h'.

(** A finite set of types that contains what [i] needs. *)
Definition enough (U : list gotype) (i : nat) : Prop :=
  In (TStruct i) U /\ In TOther U /\
  forall t, In t U ->
    match t with
    | TPtr t' | TSlice t' => In t' U
    | TMap k v => In k U /\ In v U
    | TStruct j => forall sd f, describe (D j) = POk sd -> In f (sd_fields sd) -> In (f_T f) U
    | _ => True
    end.
End Spec.
