(** The value of a string literal, following the lexical elements of the protobuf language
    specification (protobuf.dev/reference/protobuf/proto3-spec) and RFC 3629. *)
From Coq Require Import Strings.String Init.Byte.
From Verif Require Import Base GoStr.
Import StringSyntax.
Open Scope N_scope.

(** UTF-8: the encoding of a code point that is not a surrogate *)
Definition surrogate (c : N) : Prop := 0xD800 <= c < 0xE000.
Inductive utf8 : N -> bytes -> Prop :=
| utf8_1 a : a < 128 -> utf8 a [n2b a]
| utf8_2 a b c : a < 32 -> b < 64 -> c = a * 64 + b -> 128 <= c -> utf8 c [n2b (192 + a); n2b (128 + b)]
| utf8_3 a b d c : a < 16 -> b < 64 -> d < 64 -> c = a * 4096 + b * 64 + d -> 2048 <= c -> ~ surrogate c ->
    utf8 c [n2b (224 + a); n2b (128 + b); n2b (128 + d)]
| utf8_4 a b d e c : a < 8 -> b < 64 -> d < 64 -> e < 64 -> c = a * 262144 + b * 4096 + d * 64 + e ->
    65536 <= c < 0x110000 -> utf8 c [n2b (240 + a); n2b (128 + b); n2b (128 + d); n2b (128 + e)].

(** Digits *)
Inductive digit : N -> byte -> Prop :=
| dg_dec d : d < 10 -> digit d (n2b (48 + d))
| dg_lower d : 10 <= d < 16 -> digit d (n2b (97 + (d - 10)))
| dg_upper d : 10 <= d < 16 -> digit d (n2b (65 + (d - 10))).
Definition digit_below (base : N) (c : byte) : Prop := exists d, d < base /\ digit d c.
(** [number base s v]: the digits [s] stand for [v] *)
Inductive number (base : N) : bytes -> N -> Prop :=
| nb_nil : number base [] 0
| nb_snoc s v c d : number base s v -> d < base -> digit d c -> number base (s ++ [c]) (v * base + d).

(** charEscape, and \? as in C *)
Definition simple_escapes : list (byte * byte) :=
  [(x61, x07); (x62, x08); (x66, x0c); (x6e, x0a); (x72, x0d); (x74, x09); (x76, x0b);
   (x5c, x5c); (x27, x27); (x22, x22); (x3f, x3f)].

(** [text X q s v]: the characters [s] between quotes [q] stand for the string [v].  Escapes take
    as many digits as they can.  [X]: the escape \X is admitted, too. *)
Definition maximal (base : N) (max : nat) (ds s : bytes) : Prop :=
  (1 <= length ds <= max)%nat /\ (length ds = max \/ forall c r, s = c :: r -> ~ digit_below base c).
Inductive text (X : bool) (q : byte) : bytes -> bytes -> Prop :=
| tx_nil : text X q [] []
| tx_char c u s v : utf8 c u -> c <> 0 -> c <> 10 -> c <> 92 -> c <> b2n q -> text X q s v -> text X q (u ++ s) (u ++ v)
| tx_escape e c s v : In (e, c) simple_escapes -> text X q s v -> text X q (x5c :: e :: s) (c :: v)
| tx_octal ds n s v : maximal 8 3 ds s -> number 8 ds n -> n < 256 -> text X q s v -> text X q (x5c :: ds ++ s) (n2b n :: v)
| tx_hex x ds n s v : x = x78 \/ (X = true /\ x = x58) -> maximal 16 2 ds s -> number 16 ds n -> text X q s v ->
    text X q (x5c :: x :: ds ++ s) (n2b n :: v)
| tx_unicode x ds c u s v : (x = x75 /\ length ds = 4%nat) \/ (x = x55 /\ length ds = 8%nat) ->
    number 16 ds c -> utf8 c u -> text X q s v -> text X q (x5c :: x :: ds ++ s) (u ++ v)
(** a character beyond U+FFFF as two surrogates *)
| tx_surrogates x ds hi es lo u s v : (x = x75 /\ length ds = 4%nat) \/ (x = x55 /\ length ds = 8%nat) ->
    number 16 ds (0xD800 + hi) -> hi < 1024 -> length es = 4%nat -> number 16 es (0xDC00 + lo) -> lo < 1024 ->
    utf8 (0x10000 + hi * 1024 + lo) u -> text X q s v -> text X q (x5c :: x :: ds ++ x5c :: x75 :: es ++ s) (u ++ v).

(** A string constant: one or more literals one after the other (white space between them is gone
    when the code sees it), which are concatenated. *)
Definition quote (q : byte) : Prop := q = x22 \/ q = x27.
Inductive string_constant : bytes -> bytes -> Prop :=
| sc_one q s v : quote q -> text true q s v -> string_constant (q :: s ++ [q]) v
| sc_more q s v r w : quote q -> text true q s v -> string_constant r w -> string_constant (q :: s ++ [q] ++ r) (v ++ w).

(** [s] may stand between two quotes [q] and the literal ends there: no quote and no backslash in
    it, except after a backslash. *)
Inductive enclosed (q : byte) : bytes -> Prop :=
| en_nil : enclosed q []
| en_char c s : c <> q -> c <> x5c -> enclosed q s -> enclosed q (c :: s)
| en_escape c s : enclosed q s -> enclosed q (x5c :: c :: s).
