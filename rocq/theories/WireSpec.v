(** Independent specification of the protobuf wire format (no reference to the
    model).  Source: the protobuf encoding document. *)
From Verif Require Import Base.
Open Scope N_scope.

(** ** Varints *)

(** Value of a base-128 little-endian digit string. *)
Fixpoint varint_value (bs : bytes) : N :=
  match bs with
  | [] => 0
  | b :: r => b2n b mod 128 + 128 * varint_value r
  end.

(** Every byte but the last has its continuation bit set. *)
Fixpoint is_varint (bs : bytes) : bool :=
  match bs with
  | [] => false
  | [b] => b2n b <? 128
  | b :: r => (128 <=? b2n b) && is_varint r
  end.

(** No superfluous trailing zero digit. *)
Fixpoint minimal (bs : bytes) : bool :=
  match bs with
  | [] => true
  | [b] => true
  | [_; b] => negb (b2n b =? 0)
  | _ :: r => minimal r
  end.

(** A varint a decoder must accept: at most ten bytes, value fits in 64 bits. *)
Definition valid_varint (bs : bytes) (v : N) : Prop :=
  is_varint bs = true /\ (length bs <= 10)%nat /\ varint_value bs = v /\ v < 2^64.

(** The canonical (shortest) varint of [v]. *)
Definition canonical_varint (v : N) (bs : bytes) : Prop :=
  is_varint bs = true /\ varint_value bs = v /\ minimal bs = true.

(** The same as a function; [canonical_varint_varint] and
    [canonical_varint_unique] (WireProofs) tie the two. *)
Fixpoint varint_digits (fuel : nat) (v : N) : bytes :=
  match fuel with
  | O => []
  | S f => if v <? 128 then [n2b v] else n2b (v mod 128 + 128) :: varint_digits f (v / 128)
  end.
Definition varint (v : N) : bytes := varint_digits (S (N.size_nat v)) v.

(** ** Signed views *)
Definition int32_of (n : N) : Z :=
  if n <? 2^31 then Z.of_N n else (Z.of_N n - 2^32)%Z.
Definition int64_of (n : N) : Z :=
  if n <? 2^63 then Z.of_N n else (Z.of_N n - 2^64)%Z.
(** 64-bit two's complement *)
Definition u64_of (z : Z) : N := Z.to_N (z mod 2^64).
Definition u32_of (z : Z) : N := Z.to_N (z mod 2^32).

(** ZigZag: 0,-1,1,-2,2,... -> 0,1,2,3,4,... *)
Definition zigzag (z : Z) : N :=
  Z.to_N (if (0 <=? z)%Z then 2 * z else -2 * z - 1)%Z.

(** ** Fixed width, little endian *)
Fixpoint le_value (bs : bytes) : N :=
  match bs with [] => 0 | b :: r => b2n b + 256 * le_value r end.
Fixpoint le_bytes (k : nat) (v : N) : bytes :=
  match k with O => [] | S k' => n2b v :: le_bytes k' (v / 256) end.

(** ** Length-delimited *)
Definition lendelim (s : bytes) : bytes := varint (N.of_nat (length s)) ++ s.

(** ** Tags *)
Definition tag (num typ : N) : bytes := varint (8 * num + typ).

(** ** Records.  A payload of wire type [typ] for a field [num]; groups are
    delimited by an end-group tag with the same number and nest arbitrarily;
    [depth] is the nesting depth of groups inside the payload. *)
Inductive payload : N -> N -> bytes -> nat -> Prop :=
| PVarint num bs v : valid_varint bs v -> payload num 0 bs 0
| PFixed64 num bs : length bs = 8%nat -> payload num 1 bs 0
| PBytes num l s v : valid_varint l v -> v = N.of_nat (length s) -> payload num 2 (l ++ s) 0
| PGroup num body d : group_body num body d -> payload num 3 body (S d)
| PFixed32 num bs : length bs = 4%nat -> payload num 5 bs 0
with group_body : N -> bytes -> nat -> Prop :=
| GEnd num t v :
    valid_varint t v -> v = 8 * num + 4 -> 1 <= num < 2^31 -> group_body num t 0
| GField num t v num2 typ p rest d1 d2 :
    valid_varint t v -> v = 8 * num2 + typ -> typ < 8 -> 1 <= num2 < 2^31 ->
    payload num2 typ p d1 -> group_body num rest d2 ->
    group_body num (t ++ p ++ rest) (Nat.max d1 d2).

(** A complete record: tag then payload. *)
Definition is_record (num typ : N) (bs : bytes) (d : nat) : Prop :=
  exists t v p, bs = t ++ p /\ valid_varint t v /\ v = 8 * num + typ /\ typ < 8 /\
    1 <= num < 2^31 /\ payload num typ p d.
