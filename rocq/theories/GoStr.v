(** Go strings and the functions of strings, strconv and reflect the code calls. *)
From Coq Require Import Strings.String Init.Byte.
From Verif Require Import Base.
Import StringSyntax.
Open Scope N_scope.

(** Bytes of a literal. *)
Definition bs (s : string) : bytes := list_byte_of_string s.
Arguments bs s%string.

Definition beqb (a b : byte) : bool := b2n a =? b2n b.

Fixpoint str_eqb (a b : bytes) : bool :=
  match a, b with
  | [], [] => true
  | x :: a', y :: b' => beqb x y && str_eqb a' b'
  | _, _ => false
  end.

(** strings.Split(s, sep) for a one byte separator *)
Fixpoint Split (sep : byte) (s : bytes) : list bytes :=
  match s with
  | [] => [[]]
  | c :: r =>
      if beqb c sep then [] :: Split sep r
      else match Split sep r with h :: t => (c :: h) :: t | [] => [[c]] end
  end.

(** strings.Cut(s, sep) for a one byte separator: before, after *)
Fixpoint Cut (sep : byte) (s : bytes) : bytes * bytes :=
  match s with
  | [] => ([], [])
  | c :: r => if beqb c sep then ([], r) else let (h, t) := Cut sep r in (c :: h, t)
  end.

Fixpoint HasPrefix (s p : bytes) : bool :=
  match p, s with
  | [], _ => true
  | c :: p', d :: s' => beqb c d && HasPrefix s' p'
  | _, [] => false
  end.

(** Length of the white space rune (unicode.IsSpace) a string starts with, 0 if none.
    These are the UTF-8 encodings of U+0009-000D, U+0020, U+0085, U+00A0, U+1680,
    U+2000-200A, U+2028, U+2029, U+202F, U+205F and U+3000. *)
Definition space3 (a b c : N) : bool :=
  ((a =? 225) && (b =? 154) && (c =? 128)) ||
  ((a =? 226) && (b =? 128) && (((128 <=? c) && (c <=? 138)) || (c =? 168) || (c =? 169) || (c =? 175))) ||
  ((a =? 226) && (b =? 129) && (c =? 159)) ||
  ((a =? 227) && (b =? 128) && (c =? 128)).
Definition space2 (a b : N) : bool := (a =? 194) && ((b =? 133) || (b =? 160)).
Definition space1 (a : N) : bool := ((9 <=? a) && (a <=? 13)) || (a =? 32).

Definition space_left (s : bytes) : nat :=
  match s with
  | [] => 0
  | a :: r =>
      if space1 (b2n a) then 1
      else match r with
           | [] => 0
           | b :: r' =>
               if space2 (b2n a) (b2n b) then 2
               else match r' with
                    | [] => 0
                    | c :: _ => if space3 (b2n a) (b2n b) (b2n c) then 3 else 0
                    end
           end
  end.
(** The same for the rune a string ends with; the string is given reversed. *)
Definition space_right (s : bytes) : nat :=
  match s with
  | [] => 0
  | a :: r =>
      if space1 (b2n a) then 1
      else match r with
           | [] => 0
           | b :: r' =>
               if space2 (b2n b) (b2n a) then 2
               else match r' with
                    | [] => 0
                    | c :: _ => if space3 (b2n c) (b2n b) (b2n a) then 3 else 0
                    end
           end
  end.

Fixpoint strip (sp : bytes -> nat) (fuel : nat) (s : bytes) : bytes :=
  match fuel with
  | O => s
  | S k => match sp s with O => s | n => strip sp k (skipn n s) end
  end.

(** strings.TrimSpace *)
Definition TrimSpace (s : bytes) : bytes :=
  let l := strip space_left (length s) s in
  rev (strip space_right (length l) (rev l)).

Fixpoint drop_while (p : byte -> bool) (s : bytes) : bytes :=
  match s with [] => [] | c :: r => if p c then drop_while p r else s end.
(** strings.Trim(s, cutset) *)
Definition Trim (p : byte -> bool) (s : bytes) : bytes := rev (drop_while p (rev (drop_while p s))).

Definition is_digit (c : byte) : bool := (48 <=? b2n c) && (b2n c <=? 57).
Definition is_lower (c : byte) : bool := (97 <=? b2n c) && (b2n c <=? 122).
Definition is_upper (c : byte) : bool := (65 <=? b2n c) && (b2n c <=? 90).

Fixpoint dec_value (acc : N) (s : bytes) : N :=
  match s with [] => acc | c :: r => dec_value (10 * acc + (b2n c - 48)) r end.
(** strconv.ParseUint(s, 10, 32) of a string of digits: [None] is ErrRange.  Go checks
    the range digit by digit; the outcome is the same. *)
Definition ParseUint32 (s : bytes) : option N :=
  let n := dec_value 0 s in if n <? 2^32 then Some n else None.

(** int32(n) *)
Definition to_int32 (n : N) : Z :=
  let m := n mod 2^32 in if m <? 2^31 then Z.of_N m else (Z.of_N m - 2^32)%Z.

(** strconv.AppendInt(nil, n, 10) of a number n >= 0: the digits of n. *)
Fixpoint digits (fuel : nat) (n : N) : bytes :=
  match fuel with
  | O => []
  | S k => if n <? 10 then [n2b (48 + n)] else digits k (n / 10) ++ [n2b (48 + n mod 10)]
  end.
Definition FormatUint (n : N) : bytes := digits 20 n.
(** strconv.AppendInt(nil, int64(n), 10) of an int32 *)
Definition FormatInt (n : Z) : bytes :=
  if (n <? 0)%Z then n2b 45 :: FormatUint (Z.to_N (- n)) else FormatUint (Z.to_N n).

(** ** reflect.StructTag.Lookup and Get *)
Section Lookup.
(** strconv.Unquote of a double quoted string, given without its quotes *)
Variable Unquote : bytes -> option bytes.

Definition quote : byte := x22.
Definition key_char (c : byte) : bool :=
  (32 <? b2n c) && negb (beqb c x3a) && negb (beqb c quote) && negb (b2n c =? 127).

Fixpoint span_key (s : bytes) : bytes * bytes :=
  match s with
  | [] => ([], [])
  | c :: r => if key_char c then let (k, t) := span_key r in (c :: k, t) else ([], s)
  end.
(** The body of a quoted string and what follows its closing quote. *)
Fixpoint span_quoted (s : bytes) : option (bytes * bytes) :=
  match s with
  | [] => None
  | c :: r =>
      if beqb c quote then Some ([], r)
      else if beqb c x5c then
        match r with
        | [] => None
        | d :: r' => match span_quoted r' with Some (b, t) => Some (c :: d :: b, t) | None => None end
        end
      else match span_quoted r with Some (b, t) => Some (c :: b, t) | None => None end
  end.

Fixpoint Lookup_go (fuel : nat) (tag key : bytes) : option bytes :=
  match fuel with
  | O => None
  | S k =>
      let (name, t) := span_key (drop_while (fun c => beqb c x20) tag) in
      match name, t with
      | _ :: _, c :: q :: t' =>
          if beqb c x3a && beqb q quote then
            match span_quoted t' with
            | None => None
            | Some (body, rest) => if str_eqb key name then Unquote body else Lookup_go k rest key
            end
          else None
      | _, _ => None
      end
  end.
(** StructTag.Get: the empty string when there is no such key *)
Definition Get (tag key : bytes) : bytes :=
  match Lookup_go (S (length tag)) tag key with Some v => v | None => [] end.
End Lookup.
