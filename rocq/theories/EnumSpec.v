(** What the Go declarations of an enum should mean. *)
From Coq Require Import Strings.String Init.Byte.
From Verif Require Import Base GoStr GenField GenEnum.
Import StringSyntax.
Open Scope N_scope.

(** [s] is the name of the first value with the number [x]. *)
Definition first_name (l : list evalue) (x : Z) (s : bytes) : Prop :=
  exists l1 f l2, l = l1 ++ f :: l2 /\ ev_value f = x /\ ev_name f = s /\ Forall (fun g => ev_value g <> x) l1.
Definition has_number (l : list evalue) (x : Z) : Prop := exists f, In f l /\ ev_value f = x.

(** Decimal notation: digits without leading zeros, after a minus if negative. *)
Definition digits_of (s : bytes) (n : N) : Prop :=
  s <> [] /\ Forall (fun c => is_digit c = true) s /\ dec_value 0 s = n /\ (n <> 0 -> hd_error s <> Some x30) /\ (n = 0 -> s = [x30]).
Definition decimal (s : bytes) (x : Z) : Prop :=
  ((0 <= x)%Z /\ digits_of s (Z.to_N x)) \/ ((x < 0)%Z /\ exists t, s = x2d :: t /\ digits_of t (Z.to_N (- x))).

Definition int32 (x : Z) : Prop := (-2^31 <= x < 2^31)%Z.

(** The effective (last) setting of an option. *)
Definition set_to (oo : options) (n v : bytes) : Prop :=
  exists before after, oo = before ++ (n, v) :: after /\ ~ In n (map fst after).
(** The user asks for a constant without a prefix: by the directive on the value, the enum or
    the file, by the enum's option, or by the file's if the enum does not say. *)
Definition asks_no_prefix (e : genum) (f : evalue) : Prop :=
  In (bs "no_enum_prefix") (ev_dirs f) \/ In (bs "no_enum_prefix") (en_dirs e) \/ In (bs "no_enum_prefix") (en_pdirs e) \/
  set_to (en_opts e) (bs "(gogoproto.goproto_enum_prefix)") (bs "false") \/
  (~ In (bs "(gogoproto.goproto_enum_prefix)") (map fst (en_opts e)) /\
   set_to (en_popts e) (bs "(gogoproto.goproto_enum_prefix_all)") (bs "false")).
(** The user asks for no maps and no String. *)
Definition asks_no_mapping (e : genum) : Prop :=
  In (bs "no_enum_mapping") (en_dirs e) \/ In (bs "no_enum_mapping") (en_pdirs e).
