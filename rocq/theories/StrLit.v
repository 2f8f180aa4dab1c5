(** Model of string literals of .proto files: parseString and UnmarshalString
    (prutalgen/internal/protobuf/text/decode_string.go:49-167) and unmarshalConst
    (prutalgen/pkg/prutalgen/utils.go:43-48).
    Simplified: errors are [None] and carry no text; utf8.DecodeRune, string(rune),
    utf16.DecodeRune and strconv.ParseUint of the Go standard library are written out. *)
From Coq Require Import Strings.String Init.Byte.
From Verif Require Import Base GoStr.
Import StringSyntax.
Open Scope N_scope.

Definition in_range (lo n hi : N) : bool := (lo <=? n) && (n <=? hi).

(** utf8.DecodeRune: the rune and its width; [None] is (RuneError, 1) *)
Definition cont (c : byte) : bool := in_range 128 (b2n c) 191.
Definition DecodeRune (s : bytes) : option (N * nat) :=
  match s with
  | [] => None
  | a :: r =>
      let x := b2n a in
      if x <? 128 then Some (x, 1%nat)
      else if in_range 194 x 223 then
        match r with
        | b :: _ => if cont b then Some ((x - 192) * 64 + (b2n b - 128), 2%nat) else None
        | _ => None
        end
      else if in_range 224 x 239 then
        match r with
        | b :: c :: _ =>
            if in_range (if x =? 224 then 160 else 128) (b2n b) (if x =? 237 then 159 else 191) && cont c
            then Some (((x - 224) * 64 + (b2n b - 128)) * 64 + (b2n c - 128), 3%nat) else None
        | _ => None
        end
      else if in_range 240 x 244 then
        match r with
        | b :: c :: d :: _ =>
            if in_range (if x =? 240 then 144 else 128) (b2n b) (if x =? 244 then 143 else 191) && cont c && cont d
            then Some ((((x - 240) * 64 + (b2n b - 128)) * 64 + (b2n c - 128)) * 64 + (b2n d - 128), 4%nat) else None
        | _ => None
        end
      else None
  end.
(** string(r) for a valid rune r *)
Definition EncodeRune (r : N) : bytes :=
  if r <? 128 then [n2b r]
  else if r <? 2048 then [n2b (192 + r / 64); n2b (128 + r mod 64)]
  else if r <? 65536 then [n2b (224 + r / 4096); n2b (128 + r / 64 mod 64); n2b (128 + r mod 64)]
  else [n2b (240 + r / 262144); n2b (128 + r / 4096 mod 64); n2b (128 + r / 64 mod 64); n2b (128 + r mod 64)].

(** strconv.ParseUint for bases 8 and 16; [None] is an error *)
Definition digit_value (c : byte) : option N :=
  let x := b2n c in
  if in_range 48 x 57 then Some (x - 48)
  else if in_range 97 x 102 then Some (x - 87)
  else if in_range 65 x 70 then Some (x - 55)
  else None.
Fixpoint digits_value (base acc : N) (s : bytes) : option N :=
  match s with
  | [] => Some acc
  | c :: r => match digit_value c with
              | Some d => if d <? base then digits_value base (acc * base + d) r else None
              | None => None
              end
  end.
Definition ParseUint (base bits : N) (s : bytes) : option N :=
  match s with
  | [] => None
  | _ => match digits_value base 0 s with
         | Some v => if v <? 2 ^ bits then Some v else None
         | None => None
         end
  end.
(** len(s) - len(bytes.TrimLeft(s, digits)), at most [max] *)
Fixpoint count_digits (base : N) (max : nat) (s : bytes) : nat :=
  match max, s with
  | S m, c :: r => match digit_value c with
                   | Some d => if d <? base then S (count_digits base m r) else O
                   | None => O
                   end
  | _, _ => O
  end.

(** utf16.IsSurrogate, utf16.DecodeRune; [None] is RuneError *)
Definition IsSurrogate (r : N) : bool := in_range 0xD800 r 0xDFFF.
Definition DecodeSurrogates (a b : N) : option N :=
  if in_range 0xD800 a 0xDBFF && in_range 0xDC00 b 0xDFFF then Some ((a - 0xD800) * 1024 + (b - 0xDC00) + 0x10000) else None.

(** indexNeedEscapeInString, decode_string.go:152-159 *)
Definition need_escape (c : byte) : bool :=
  let x := b2n c in (x <? 32) || (x =? 34) || (x =? 39) || (x =? 92) || (127 <=? x).
Fixpoint indexNeedEscape (s : bytes) : nat :=
  match s with [] => O | c :: r => if need_escape c then O else S (indexNeedEscape r) end.

(** The escapes, decode_string.go:76-140: [s] is what follows the backslash; the result is what
    is appended and what is left.  [None]: an error. *)
Definition escape (s : bytes) : option (bytes * bytes) :=
  match s with
  | [] => None
  | r :: t =>
      if existsb (beqb r) [x22; x27; x5c; x3f] then Some ([r], t)
      else if beqb r x61 then Some ([x07], t)
      else if beqb r x62 then Some ([x08], t)
      else if beqb r x6e then Some ([x0a], t)
      else if beqb r x72 then Some ([x0d], t)
      else if beqb r x74 then Some ([x09], t)
      else if beqb r x76 then Some ([x0b], t)
      else if beqb r x66 then Some ([x0c], t)
      else if in_range 48 (b2n r) 55 then
        let n := count_digits 8 3 s in
        match ParseUint 8 8 (firstn n s) with Some v => Some ([n2b v], skipn n s) | None => None end
      else if beqb r x78 then
        let n := count_digits 16 2 t in
        match ParseUint 16 8 (firstn n t) with Some v => Some ([n2b v], skipn n t) | None => None end
      else if beqb r x75 || beqb r x55 then
        let n := if beqb r x55 then 8%nat else 4%nat in
        if (length t <? n)%nat then None
        else match ParseUint 16 32 (firstn n t) with
        | None => None
        | Some v =>
            if 0x10FFFF <? v then None
            else let t := skipn n t in
            if IsSurrogate v then
              match t with
              | a :: b :: u =>
                  if (length u <? 4)%nat then None
                  else match ParseUint 16 16 (firstn 4 u) with
                  | None => None
                  | Some w =>
                      match DecodeSurrogates v w with
                      | None => None
                      | Some r => if beqb a x5c && beqb b x75 then Some (EncodeRune r, skipn 4 u) else None
                      end
                  end
              | _ => None
              end
            else Some (EncodeRune v, t)
        end
      else None
  end.

(** The loop, decode_string.go:58-146.  [fuel] bounds the rounds; each takes a byte. *)
Fixpoint string_loop (fuel : nat) (quote : byte) (s out : bytes) : option bytes :=
  match fuel with
  | O => None
  | S fuel =>
      match s with
      | [] => None
      | _ =>
          match DecodeRune s with
          | None => None
          | Some (r, n) =>
              if (r =? 0) || (r =? 10) then None
              else if r =? b2n quote then Some out
              else if r =? 92 then
                match escape (skipn 1 s) with
                | Some (o, t) => string_loop fuel quote t (out ++ o)
                | None => None
                end
              else
                let i := indexNeedEscape (skipn n s) in
                string_loop fuel quote (skipn (n + i) s) (out ++ firstn (n + i) s)
          end
      end
  end.
(** parseString, decode_string.go:49-147, and UnmarshalString, decode_string.go:164-167 *)
Definition UnmarshalString (s : bytes) : option bytes :=
  match s with
  | [] => None
  | quote :: t =>
      let i := indexNeedEscape t in
      string_loop (S (length t)) quote (skipn i t) (firstn i t)
  end.
(** unmarshalConst, utils.go:43-48 *)
Definition unmarshalConst (s : bytes) : option bytes :=
  match s with
  | c :: _ => if beqb c x27 || beqb c x22 then UnmarshalString s else Some s
  | [] => Some s
  end.

(** STR_LIT_SINGLE between its quotes, Protobuf.g4:529-551: zero or more CHAR_VALUE, the shortest
    match, so that none of them is the quote itself.  The lexer sees code points, and GetText gives
    them back in UTF-8. *)
Inductive lexed (q : byte) : bytes -> Prop :=
| lx_nil : lexed q []
| lx_char c s : c < 0x110000 -> IsSurrogate c = false -> c <> 0 -> c <> 10 -> c <> 92 -> c <> b2n q -> lexed q s -> lexed q (EncodeRune c ++ s)
| lx_hex x d e s : x = x78 \/ x = x58 -> count_digits 16 2 [d; e] = 2%nat -> lexed q s -> lexed q (x5c :: x :: d :: e :: s)
| lx_oct d e f s : count_digits 8 3 [d; e; f] = 3%nat -> lexed q s -> lexed q (x5c :: d :: e :: f :: s)
| lx_escape c s : In c [x61; x62; x66; x6e; x72; x74; x76; x5c; x27; x22] -> lexed q s -> lexed q (x5c :: c :: s).
