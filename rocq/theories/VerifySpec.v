(** What legal field numbers, enum values and reserved ranges are. *)
From Coq Require Import Strings.String Init.Byte.
From Verif Require Import Base GoStr GenField GenSpec Verify.
Import StringSyntax.
Open Scope N_scope.

(** ** Integer literals: INT_LIT of Protobuf.g4:572-588, with their values *)

Inductive digit_of : N -> byte -> N -> Prop :=
| dg_num base c : 48 <= b2n c <= 57 -> b2n c - 48 < base -> digit_of base c (b2n c - 48)
| dg_low base c : 97 <= b2n c <= 102 -> b2n c - 87 < base -> digit_of base c (b2n c - 87)
| dg_upp base c : 65 <= b2n c <= 70 -> b2n c - 55 < base -> digit_of base c (b2n c - 55).
(** A string of digits; the last digit is the least significant one. *)
Inductive digits_of (base : N) : bytes -> N -> Prop :=
| ds_none : digits_of base [] 0
| ds_more s n c d : digits_of base s n -> digit_of base c d -> digits_of base (s ++ [c]) (n * base + d).
Inductive int_lit : bytes -> N -> Prop :=
| il_dec s n : digits_of 10 s n -> (exists c r, s = c :: r /\ c <> x30) -> int_lit s n
| il_oct s n : digits_of 8 s n -> int_lit (x30 :: s) n
| il_hex x s n : x = x78 \/ x = x58 -> digits_of 16 s n -> s <> [] -> int_lit (x30 :: x :: s) n.
Definition decimal (s : bytes) : Prop := (exists c r, s = c :: r /\ c <> x30) \/ s = [x30].

(** ** Legal messages and enums *)

(** What a range of the source covers. *)
Definition covers (r : src_range) (v : Z) : Prop :=
  exists a, int_lit (fst r) a /\
  match snd r with
  | ToSame => v = Z.of_N a
  | ToMax => (Z.of_N a <= v)%Z
  | ToLit s => exists b, int_lit s b /\ (Z.of_N a <= v <= Z.of_N b)%Z
  end.
(** Its literals are integer literals that fit in 32 bits. *)
Definition small (s : bytes) : Prop := exists n, int_lit s n /\ n < 2^31.
Definition range_ok (r : src_range) : Prop :=
  small (fst r) /\ match snd r with ToLit s => small s | _ => True end.
Definition range_literal (r : src_range) : Prop :=
  (exists n, int_lit (fst r) n) /\ match snd r with ToLit s => exists n, int_lit s n | _ => True end.
Definition range_decimal (r : src_range) : Prop :=
  decimal (fst r) /\ match snd r with ToLit s => decimal s | _ => True end.

(** [value_of l v]: the literal, with its sign, stands for [v]. *)
Definition value_of (neg : bool) (s : bytes) (v : Z) : Prop :=
  exists n, int_lit s n /\ v = (if neg then - Z.of_N n else Z.of_N n)%Z.

(** Numbers 19000 to 19999 are reserved for the implementation of protobuf. *)
Definition implementation_number (v : Z) : Prop := (19000 <= v <= 19999)%Z.

(** The numbers [vs] of the fields of a message are legal. *)
Definition fields_ok (fs : list (bytes * bytes)) (rs : list src_range) : Prop :=
  Forall range_ok rs /\
  exists vs, Forall2 (fun f v => value_of false (snd f) v /\ (v < 2^31)%Z) fs vs /\
    NoDup vs /\
    forall v, In v vs -> ~ implementation_number v /\ forall r, In r rs -> ~ covers r v.
(** The values of an enum: the reserved ranges of the enum only; with allow_alias, values
    may be equal. *)
Definition enum_ok (e : src_enum) : Prop :=
  Forall range_ok (se_reserved e) /\
  exists vs, Forall2 (fun f v => value_of (snd (fst f)) (snd f) v /\ (- 2^31 <= v < 2^31)%Z) (se_fields e) vs /\
    (NoDup vs \/ given (se_options e) (bs "allow_alias") (bs "true")) /\
    forall v, In v vs -> forall r, In r (se_reserved e) -> ~ covers r v.
Inductive message_ok : src_msg -> Prop :=
| mok fs rs es ms : fields_ok fs rs -> Forall enum_ok es -> Forall message_ok ms -> message_ok (SM fs rs es ms).

(** ** The messages a theorem is about *)
Inductive everywhere (F : list (bytes * bytes) -> Prop) (R : list src_range -> Prop) (E : src_enum -> Prop) : src_msg -> Prop :=
| ev fs rs es ms : F fs -> R rs -> Forall E es -> Forall (everywhere F R E) ms -> everywhere F R E (SM fs rs es ms).

(** The grammar only lets integer literals through. *)
Definition enum_grammar (e : src_enum) : Prop :=
  Forall (fun f => exists n, int_lit (snd f) n) (se_fields e) /\ Forall range_literal (se_reserved e) /\
  NoDup (map fst (se_options e)).
Definition fields_grammar (fs : list (bytes * bytes)) : Prop := Forall (fun f => exists n, int_lit (snd f) n) fs.
Definition grammatical : src_msg -> Prop := everywhere fields_grammar (Forall range_literal) enum_grammar.

(** Reserved ranges are written in decimal; no enum value is -2^31 or in the range that is
    reserved for messages. *)
Definition enum_plain (e : src_enum) : Prop :=
  Forall range_decimal (se_reserved e) /\
  forall f v, In f (se_fields e) -> value_of (snd (fst f)) (snd f) v -> ~ implementation_number v /\ v <> (- 2^31)%Z.
Definition msg_plain : src_msg -> Prop := everywhere (fun _ => True) (Forall range_decimal) enum_plain.
