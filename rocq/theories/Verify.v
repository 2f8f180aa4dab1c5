(** Model of how prutalgen reads field numbers, enum values and reserved ranges
    (prutalgen/pkg/prutalgen/reserved.go, field.go:305-308, enum.go:187-196, utils.go:69-75)
    and verifies them (message.go:202-224, enum.go:119-131). *)
From Coq Require Import Strings.String Init.Byte.
From Verif Require Import Base GoStr GenField.
Import StringSyntax.
Open Scope N_scope.

(** ** strconv.ParseInt *)

(** The value of a digit in bases up to 16, 36 if it is none. *)
Definition digit_val (c : byte) : N :=
  let n := b2n c in
  if (48 <=? n) && (n <=? 57) then n - 48
  else if (97 <=? n) && (n <=? 102) then n - 87
  else if (65 <=? n) && (n <=? 70) then n - 55
  else 36.
(** strconv.ParseUint of the digits of a number without sign and prefix: [None]: a digit
    that is none in this base, or no digit at all.  Go stops at an overflow; the outcome, an
    error, is the same. *)
Fixpoint base_value (base acc : N) (s : bytes) : option N :=
  match s with
  | [] => Some acc
  | c :: r => if digit_val c <? base then base_value base (base * acc + digit_val c) r else None
  end.
(** strconv.ParseInt(s, base, 32) of a string without sign; [None]: an error. *)
Definition parse_digits (base : N) (s : bytes) : option Z :=
  match s with
  | [] => None
  | _ => match base_value base 0 s with
         | Some n => if n <? 2^31 then Some (Z.of_N n) else None
         | None => None
         end
  end.
(** parseI32, utils.go:69-75: always in base 10 *)
Definition parseI32 (s : bytes) : option Z := parse_digits 10 s.
(** text.UnmarshalI32, internal/protobuf/text/decode_number.go:214-221, of an INT_LIT token:
    parseNumber (lines 73-204) finds its kind, and Token.Int32 (decode_token.go:282-290) calls
    strconv.ParseInt with base 0, that is with the base its prefix asks for.  Simplified:
    tokens of the grammar only, see [int_lit] in VerifySpec.v; those have no sign, no
    fraction, no exponent and no blanks. *)
Definition UnmarshalI32 (s : bytes) : option Z :=
  match s with
  | x30 :: x :: r =>
      if beqb x x78 || beqb x x58 then parse_digits 16 r else parse_digits 8 (x :: r)
  | _ => parse_digits 10 s
  end.

(** ** What the parser sees *)

(** oneRange of Protobuf.g4:135-137: a literal; "to" a literal, or "to max" *)
Inductive src_to := ToSame | ToMax | ToLit (s : bytes).
Definition src_range := (bytes * src_to)%type.
(** A field: name and number; an enum value: name, MINUS and number. *)
Record src_enum := mkSE { se_fields : list (bytes * bool * bytes); se_reserved : list src_range; se_options : options }.
Inductive src_msg := SM (fields : list (bytes * bytes)) (reserved : list src_range)
                        (enums : list src_enum) (msgs : list src_msg).

(** ** What the listeners build *)

(** reservedRange, reserved.go:31-34 *)
Definition range := (Z * Z)%type.
Record enum := mkE { e_fields : list (bytes * Z); e_reserved : list range; e_options : options }.
Inductive msg := M (fields : list (bytes * Z)) (reserved : list range) (enums : list enum) (msgs : list msg).

(** [None]: Fatalf *)
Definition all {A B} (f : A -> option B) : list A -> option (list B) :=
  fix go l :=
    match l with
    | [] => Some []
    | x :: r => match f x with
                | Some y => match go r with Some ys => Some (y :: ys) | None => None end
                | None => None
                end
    end.

(** One round of the loop of ExitReserved, reserved.go:57-74 *)
Definition read_range (r : src_range) : option range :=
  match parseI32 (fst r) with
  | None => None
  | Some i =>
      match snd r with
      | ToSame => Some (i, i)
      | ToMax => Some (i, (2^31 - 1)%Z)
      | ToLit s => match parseI32 s with Some j => Some (i, j) | None => None end
      end
  end.
(** -f.Value of an int32 *)
Definition negate (n : Z) : Z := (- n)%Z.
(** ExitEnumField, enum.go:180-196 *)
Definition read_enum_field (f : bytes * bool * bytes) : option (bytes * Z) :=
  match UnmarshalI32 (snd f) with
  | Some n => Some (fst (fst f), if snd (fst f) then negate n else n)
  | None => None
  end.
Definition read_enum (e : src_enum) : option enum :=
  match all read_enum_field (se_fields e), all read_range (se_reserved e) with
  | Some fs, Some rs => Some (mkE fs rs (se_options e))
  | _, _ => None
  end.
(** newField, field.go:304-309 *)
Definition read_field (f : bytes * bytes) : option (bytes * Z) :=
  match UnmarshalI32 (snd f) with Some n => Some (fst f, n) | None => None end.
Fixpoint read_msg (m : src_msg) : option msg :=
  match m with
  | SM fs rs es ms =>
      match all read_field fs, all read_range rs, all read_enum es, all read_msg ms with
      | Some fs', Some rs', Some es', Some ms' => Some (M fs' rs' es' ms')
      | _, _, _, _ => None
      end
  end.

(** ** Verification *)

(** protobufReservedMin, protobufReservedMax, reserved.go:25-29 *)
Definition protobufReservedMin : Z := 19000.
Definition protobufReservedMax : Z := 19999.
(** reservedRanges.In, reserved.go:38-48 *)
Fixpoint in_ranges (rr : list range) (v : Z) : bool :=
  match rr with
  | [] => false
  | (a, b) :: r => if (a <=? v)%Z && (v <=? b)%Z then true else in_ranges r v
  end.
Definition In_reserved (rr : list range) (v : Z) : bool :=
  if (protobufReservedMin <=? v)%Z && (v <=? protobufReservedMax)%Z then true else in_ranges rr v.

(** An error of verify: which number, and why *)
Inductive verr := Reserved (name : bytes) (n : Z) | Duplicated (name : bytes) (n : Z).
Definition seen (l : list Z) (n : Z) : bool := existsb (Z.eqb n) l.

(** The loops of Message.verify, message.go:214-222, and Enum.verify, enum.go:121-129;
    [exists_] are the keys of the map. *)
Fixpoint verify_fields (rr : list range) (exists_ : list Z) (l : list (bytes * Z)) : list verr :=
  match l with
  | [] => []
  | (name, n) :: r =>
      (if In_reserved rr n then [Reserved name n] else if seen exists_ n then [Duplicated name n] else [])
      ++ verify_fields rr (n :: exists_) r
  end.
Fixpoint verify_values (rr : list range) (alias : bool) (m : list Z) (l : list (bytes * Z)) : list verr :=
  match l with
  | [] => []
  | (name, n) :: r =>
      (if In_reserved rr n then [Reserved name n]
       else if seen m n && negb alias then [Duplicated name n] else [])
      ++ verify_values rr alias (n :: m) r
  end.
(** Enum.allowAlias, enum.go:89-92 *)
Definition allowAlias (e : enum) : bool :=
  match opt_get (e_options e) (bs "allow_alias") with Some v => istrue v | None => false end.
(** Enum.verify, enum.go:119-131 *)
Definition enum_verify (e : enum) : list verr := verify_values (e_reserved e) (allowAlias e) [] (e_fields e).
(** Message.verify, message.go:202-224.  Simplified: the errors of nested types are listed
    without the wrapping; errors.Join is nil exactly if there are none. *)
Fixpoint msg_verify (m : msg) : list verr :=
  match m with
  | M fs rs es ms =>
      concat (map enum_verify es) ++ concat (map msg_verify ms) ++ verify_fields rs [] fs
  end.

(** Whether a message of the source is accepted: no Fatalf and no error. *)
Definition accepted (m : src_msg) : bool :=
  match read_msg m with
  | Some v => match msg_verify v with [] => true | _ => false end
  | None => false
  end.
Definition enum_accepted (e : src_enum) : bool :=
  match read_enum e with
  | Some v => match enum_verify v with [] => true | _ => false end
  | None => false
  end.
