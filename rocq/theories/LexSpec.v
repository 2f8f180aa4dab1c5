(** What the tokens of a .proto file are, independently of the lexer's table.

    A text is a list of code points.  The token kinds and what their texts look
    like are those of the lexical part of prutalgen/internal/Protobuf.g4
    (lines 315-622), written as regular expressions.  The two "shortest match"
    loops of the grammar ([*?] in string literals and in block comments) are
    written out: a string literal ends at the first quote of its kind that is
    not part of an escape, a block comment at the first "*/". *)
From Coq Require Import List ZArith Bool Ascii String.
Import ListNotations.
Open Scope Z_scope.

Definition text := list Z.

(* the code points of an ASCII string *)
Definition code (a : ascii) : Z := Z.of_N (N_of_ascii a).
Fixpoint str (s : string) : text :=
  match s with
  | EmptyString => []
  | String a r => code a :: str r
  end.

(* a code point *)
Definition is_char (c : Z) : Prop := 0 <= c <= 1114111.
Definition is_text (s : text) : Prop := Forall is_char s.

(* ---------- regular expressions ---------- *)

Definition ranges := list (Z * Z).      (* inclusive *)
Definition in_ranges (l : ranges) (c : Z) : bool :=
  existsb (fun r => (fst r <=? c) && (c <=? snd r)) l.

Inductive re :=
| Nothing                               (* no text *)
| Empty                                 (* the empty text *)
| OneOf (l : ranges)                    (* one character in the ranges *)
| NoneOf (l : ranges)                   (* one character outside them *)
| Seq (r s : re)
| Or (r s : re)
| Many (r : re).                        (* zero or more *)

Inductive matches : re -> text -> Prop :=
| m_empty : matches Empty []
| m_one l c : in_ranges l c = true -> matches (OneOf l) [c]
| m_none l c : is_char c -> in_ranges l c = false -> matches (NoneOf l) [c]
| m_seq r s x y : matches r x -> matches s y -> matches (Seq r s) (x ++ y)
| m_left r s x : matches r x -> matches (Or r s) x
| m_right r s x : matches s x -> matches (Or r s) x
| m_done r : matches (Many r) []
| m_more r x y : matches r x -> matches (Many r) y -> matches (Many r) (x ++ y).

(* ---------- the lexical grammar ---------- *)

Definition chr (c : Z) : re := OneOf [(c, c)].
Fixpoint lit_codes (s : text) : re :=
  match s with
  | [] => Empty
  | [c] => chr c
  | c :: r => Seq (chr c) (lit_codes r)
  end.
(* exactly this text *)
Definition lit (s : string) : re := lit_codes (str s).
(* one of these characters *)
Definition any (s : string) : re := OneOf (map (fun c => (c, c)) (str s)).
Definition range (a b : string) : Z * Z :=
  match str a, str b with [x], [y] => (x, y) | _, _ => (1, 0) end.
Definition opt (r : re) : re := Or r Empty.
Definition some (r : re) : re := Seq r (Many r).      (* one or more *)
Fixpoint seqs (l : list re) : re :=
  match l with [] => Empty | [r] => r | r :: l' => Seq r (seqs l') end.
Fixpoint ors (l : list re) : re :=
  match l with [] => Nothing | [r] => r | r :: l' => Or r (ors l') end.

Definition backslash : Z := 92.
Definition dquote : Z := 34.
Definition squote : Z := 39.
Definition newline : Z := 10.
Definition creturn : Z := 13.

Definition digit : re := OneOf [range "0" "9"].
Definition octal_digit : re := OneOf [range "0" "7"].
Definition hex_digit : re := OneOf [range "0" "9"; range "A" "F"; range "a" "f"].
Definition letter_ranges : ranges := [range "A" "Z"; (95, 95); range "a" "z"].
Definition letter : re := OneOf letter_ranges.
Definition letter_digit : re := OneOf (letter_ranges ++ [range "0" "9"]).

(* \xHH, \NNN, and a backslash before one of a b f n r t v, a backslash or a
   quote *)
Definition escape : re :=
  ors [ seqs [chr backslash; any "xX"; hex_digit; hex_digit];
        seqs [chr backslash; octal_digit; octal_digit; octal_digit];
        Seq (chr backslash)
            (OneOf (map (fun c => (c, c))
               (str "abfnrtv" ++ [backslash; squote; dquote]))) ].
(* between the quotes: an escape, or any character but NUL, newline, backslash
   and the quote itself *)
Definition quoted (q : Z) : re :=
  seqs [ chr q;
         Many (Or escape (NoneOf [(0, 0); (newline, newline);
                                  (backslash, backslash); (q, q)]));
         chr q ].
Definition string_lit : re := Or (quoted squote) (quoted dquote).

Definition bool_lit : re := Or (lit "true") (lit "false").

Definition decimals : re := some digit.
Definition exponent : re := seqs [any "eE"; opt (any "+-"); decimals].
Definition float_lit : re :=
  ors [ seqs [decimals; lit "."; opt decimals; opt exponent];
        seqs [decimals; exponent];
        seqs [lit "."; decimals; opt exponent];
        lit "inf"; lit "nan" ].

Definition int_lit : re :=
  ors [ Seq (OneOf [range "1" "9"]) (Many digit);
        Seq (lit "0") (Many octal_digit);
        seqs [lit "0"; any "xX"; some hex_digit] ].

Definition identifier : re := Seq letter (Many letter_digit).

(* blank, tab, carriage return, newline, form feed *)
Definition space_ranges : ranges := [(9, 10); (12, 13); (32, 32)].
Definition whitespace : re := some (OneOf space_ranges).

Definition line_comment : re :=
  Seq (lit "//") (Many (NoneOf [(newline, newline); (creturn, creturn)])).

(* "/*", then stretches without a star and runs of stars not followed by a
   slash, then stars and a slash *)
Definition star : Z := 42.
Definition slash : Z := 47.
Definition block_comment : re :=
  seqs [ lit "/*";
         Many (Or (NoneOf [(star, star)])
                  (seqs [some (chr star); NoneOf [(star, star); (slash, slash)]]));
         some (chr star); chr slash ].

(** The kinds of tokens: the token type of the lexer and the texts of that
    kind, in the order of the grammar. *)
Definition kinds : list (Z * re) := [
  (1, lit "syntax"); (2, lit "edition"); (3, lit "import"); (4, lit "weak");
  (5, lit "public"); (6, lit "package"); (7, lit "option");
  (8, lit "optional"); (9, lit "required"); (10, lit "repeated");
  (11, lit "oneof"); (12, lit "map"); (13, lit "int32"); (14, lit "int64");
  (15, lit "uint32"); (16, lit "uint64"); (17, lit "sint32");
  (18, lit "sint64"); (19, lit "fixed32"); (20, lit "fixed64");
  (21, lit "sfixed32"); (22, lit "sfixed64"); (23, lit "bool");
  (24, lit "string"); (25, lit "double"); (26, lit "float"); (27, lit "bytes");
  (28, lit "reserved"); (29, lit "extensions"); (30, lit "to");
  (31, lit "max"); (32, lit "enum"); (33, lit "message"); (34, lit "service");
  (35, lit "extend"); (36, lit "rpc"); (37, lit "stream");
  (38, lit "returns");
  (39, lit ";"); (40, lit "="); (41, lit "("); (42, lit ")"); (43, lit "[");
  (44, lit "]"); (45, lit "{"); (46, lit "}"); (47, lit "<"); (48, lit ">");
  (49, lit "."); (50, lit ","); (51, lit ":"); (52, lit "+"); (53, lit "-");
  (54, string_lit); (55, bool_lit); (56, float_lit); (57, int_lit);
  (58, identifier); (59, whitespace); (60, line_comment); (61, block_comment)
].

(** The channel of a kind: whitespace goes to channel 2, comments go to channel
    3, everything else is for the parser (channel 0). *)
Definition channel_of (k : Z) : Z :=
  if k =? 59 then 2 else if (k =? 60) || (k =? 61) then 3 else 0.

(* ---------- the tokens of a text ---------- *)

(** [t] is a text of the kind [k]. *)
Definition of_kind (k : Z) (t : text) : Prop :=
  exists r, In (k, r) kinds /\ matches r t.

(** [t] is a text of the kind [k] and of no kind that comes before it. *)
Definition first_kind (k : Z) (t : text) : Prop :=
  of_kind k t /\ forall k', k' < k -> ~ of_kind k' t.

(** The token at the front of the text [t ++ rest]: it is not empty, no longer
    prefix of the text is a token of any kind, and its kind is the first that
    has its text. *)
Definition front_token (k : Z) (t rest : text) : Prop :=
  t <> [] /\ first_kind k t /\
  forall x y k', rest = x ++ y -> x <> [] -> ~ of_kind k' (t ++ x).

(** A text is cut into tokens from the left. *)
Inductive tokenized : text -> list (Z * text) -> Prop :=
| tok_end : tokenized [] []
| tok_cons k t rest l :
    front_token k t rest -> tokenized rest l ->
    tokenized (t ++ rest) ((k, t) :: l).

(** What the parser sees. *)
Definition visible (l : list (Z * text)) : list (Z * text) :=
  filter (fun p => channel_of (fst p) =? 0) l.

(* ---------- layout ---------- *)

Definition is_space (c : Z) : bool := in_ranges space_ranges c.
Definition is_digit (c : Z) : bool := in_ranges [range "0" "9"] c.
Definition is_word_char (c : Z) : bool :=
  in_ranges (letter_ranges ++ [range "0" "9"]) c.

(** Text between tokens: blanks, line ends and comments, in any order and
    number.  A "//" comment goes to the end of its line, and the line end is
    there. *)
Inductive layout : text -> Prop :=
| lay_nil : layout []
| lay_space c s : is_space c = true -> layout s -> layout (c :: s)
| lay_block b s : matches block_comment b -> layout s -> layout (b ++ s)
| lay_line b s : matches line_comment b -> layout s -> layout (b ++ newline :: s).

(** A token of the kind [k] that is directly followed by the character [c] may
    be a different token.  Words and numbers may be continued by letters, digits
    and dots, a dot by a digit; string literals and the other symbols end by
    themselves. *)
Definition glues (k c : Z) : bool :=
  if k =? 59 then is_space c
  else if k =? 60 then negb ((c =? newline) || (c =? creturn))
  else if k =? 49 then is_digit c
  else if (39 <=? k) && (k <=? 54) || (k =? 61) then false
  else is_word_char c || (c =? 46).

(** A .proto file written with these tokens: layout before, between and after
    them, none where the two tokens cannot be taken for something else. *)
Definition apart (k : Z) (rest : text) : Prop :=
  match rest with [] => True | c :: _ => glues k c = false end.
Inductive written : list (Z * text) -> text -> Prop :=
| w_end s : layout s -> written [] s
| w_end_line s b : layout s -> matches line_comment b -> written [] (s ++ b)
| w_token s k t l rest :
    layout s -> channel_of k = 0 -> first_kind k t -> apart k rest ->
    written l rest -> written ((k, t) :: l) (s ++ t ++ rest).
