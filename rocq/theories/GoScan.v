(** How Go cuts a source text into tokens: "Lexical elements" of the Go language specification
    (comments, automatic semicolons, identifiers, keywords, operators, literals).  This is a
    specification and models no file of the repository.  Simplified: bytes from 128 on are
    letters, the only numbers are decimal integers, there are no rune literals, and carriage
    returns in raw strings are kept. *)
From Coq Require Import List Bool NArith Strings.String Init.Byte.
From Verif Require Import Base GoStr.
Import ListNotations StringSyntax.
Open Scope N_scope.

Inductive tok :=
| TWord (s : bytes)      (* an identifier or a keyword *)
| TNum (s : bytes)       (* a decimal integer *)
| TStr (s : bytes)       (* what is between the double quotes *)
| TRaw (s : bytes)       (* what is between the back quotes *)
| TOp (s : bytes)        (* an operator or a delimiter, semicolons included *)
| TBad.                  (* no token of Go *)

Definition between (a b : N) (c : byte) : bool := (a <=? b2n c) && (b2n c <=? b).
Definition digit (c : byte) : bool := between 48 57 c.
Definition letter (c : byte) : bool := between 65 90 c || between 97 122 c || (b2n c =? 95) || (128 <=? b2n c).
Definition word_char (c : byte) : bool := letter c || digit c.

Definition keywords : list bytes :=
  [bs "break"; bs "default"; bs "func"; bs "interface"; bs "select"; bs "case"; bs "defer"; bs "go"; bs "map"; bs "struct";
   bs "chan"; bs "else"; bs "goto"; bs "package"; bs "switch"; bs "const"; bs "fallthrough"; bs "if"; bs "range"; bs "type";
   bs "continue"; bs "for"; bs "import"; bs "return"; bs "var"].
Definition is_in (l : list bytes) (s : bytes) : bool := existsb (fun x => str_eqb x s) l.
(** Whether a semicolon is inserted between this token and the end of its line *)
Definition word_ends (s : bytes) : bool :=
  negb (is_in keywords s) || is_in [bs "break"; bs "continue"; bs "fallthrough"; bs "return"] s.
Definition op_ends (s : bytes) : bool := is_in [bs ")"; bs "]"; bs "}"; bs "++"; bs "--"] s.

(** The operators of one byte, and those of more with the beginning of the dots *)
Definition op_chars : bytes := bs "+-*/%&|^<>=!()[]{},;.:~".
Definition is_op (c : byte) : bool := existsb (beqb c) op_chars.
Definition long_ops : list bytes :=
  [bs "<<"; bs ">>"; bs "&^"; bs "+="; bs "-="; bs "*="; bs "/="; bs "%="; bs "&="; bs "|="; bs "^="; bs "<<="; bs ">>="; bs "&^=";
   bs "&&"; bs "||"; bs "<-"; bs "++"; bs "--"; bs "=="; bs "!="; bs "<="; bs ">="; bs ":="; bs ".."; bs "..."].

(** What is being read *)
Inductive mode :=
| Start
| InWord (s : bytes) | InNum (s : bytes) | InOp (s : bytes)
| InStr (s : bytes) (escaped : bool) | InRaw (s : bytes)
| InLine                         (* a comment that starts with two slashes *)
| InBlock (star line : bool).    (* a comment in slash and star: after a star; with a newline in it *)

Definition semicolon (ends : bool) : list tok := if ends then [TOp [x3b]] else [].
(** [ends]: the last token of the line asks for a semicolon *)
Definition begin (ends : bool) (c : byte) : list tok * mode * bool :=
  if beqb c x0a then (semicolon ends, Start, false)
  else if beqb c x20 || beqb c x09 || beqb c x0d then ([], Start, ends)
  else if letter c then ([], InWord [c], ends)
  else if digit c then ([], InNum [c], ends)
  else if beqb c x22 then ([], InStr [] false, ends)
  else if beqb c x60 then ([], InRaw [], ends)
  else if is_op c then ([], InOp [c], ends)
  else ([TBad], Start, ends).
Definition then_ (t : tok) (r : list tok * mode * bool) : list tok * mode * bool :=
  let '(o, m, e) := r in (t :: o, m, e).
Definition step (m : mode) (ends : bool) (c : byte) : list tok * mode * bool :=
  match m with
  | Start => begin ends c
  | InWord s => if word_char c then ([], InWord (s ++ [c]), ends) else then_ (TWord s) (begin (word_ends s) c)
  | InNum s => if digit c then ([], InNum (s ++ [c]), ends)
               else if letter c || beqb c x2e then ([TBad], Start, ends)
               else then_ (TNum s) (begin true c)
  | InOp s =>
      if str_eqb s (bs "/") && beqb c x2f then ([], InLine, ends)
      else if str_eqb s (bs "/") && beqb c x2a then ([], InBlock false false, ends)
      else if is_in long_ops (s ++ [c]) then ([], InOp (s ++ [c]), ends)
      else then_ (TOp s) (begin (op_ends s) c)
  | InStr s true => ([], InStr (s ++ [c]) false, ends)
  | InStr s false =>
      if beqb c x22 then ([TStr s], Start, true)
      else if beqb c x0a then ([TBad], Start, false)
      else ([], InStr (s ++ [c]) (beqb c x5c), ends)
  | InRaw s => if beqb c x60 then ([TRaw s], Start, true) else ([], InRaw (s ++ [c]), ends)
  | InLine => if beqb c x0a then (semicolon ends, Start, false) else ([], InLine, ends)
  | InBlock star line =>
      if star && beqb c x2f then (if line then (semicolon ends, Start, false) else ([], Start, ends))
      else ([], InBlock (beqb c x2a) (line || beqb c x0a), ends)
  end.
(** The end of the text *)
Definition finish (m : mode) (ends : bool) : list tok :=
  match m with
  | Start | InLine => semicolon ends
  | InWord s => TWord s :: semicolon (word_ends s)
  | InNum s => TNum s :: semicolon true
  | InOp s => TOp s :: semicolon (op_ends s)
  | InStr _ _ | InRaw _ | InBlock _ _ => [TBad]
  end.
Fixpoint scan (m : mode) (ends : bool) (s : bytes) : list tok :=
  match s with
  | [] => finish m ends
  | c :: r => let '(o, m', e') := step m ends c in o ++ scan m' e' r
  end.
Definition go_tokens (s : bytes) : list tok := scan Start false s.
