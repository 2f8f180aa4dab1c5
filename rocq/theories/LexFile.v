(** The way from the bytes of a .proto file to the tokens the parser reads and
    to what parseInput does with an error (prutalgen/internal/antlr/file_stream.go:21-66,
    input_stream.go:23-57 and 125-134, recognizer.go:44-49, error_listener.go:60-62,
    lexer.go:166-178; prutalgen/pkg/prutalgen/prutalgen.go:236-250). *)
From Coq Require Import List ZArith NArith Bool.
From Verif Require Import Base StrLit AtnTable Atn.
Import ListNotations.
Open Scope Z_scope.

(* The loop over bufio.Reader.ReadRune, input_stream.go:36-42 and
   file_stream.go:51-57: a byte that does not begin a character in UTF-8 is read
   as U+FFFD.  Every step takes a byte. *)
Definition rune_error : Z := 65533.
Fixpoint read_runes (fuel : nat) (data : bytes) : list Z :=
  match fuel, data with
  | S fuel', _ :: _ =>
      match DecodeRune data with
      | Some (r, n) => Z.of_N r :: read_runes fuel' (skipn n data)
      | None => rune_error :: read_runes fuel' (skipn 1 data)
      end
  | _, _ => []
  end.
Definition ReadRunes (data : bytes) : list Z := read_runes (length data) data.

(* string(data[start:stop+1]) of []rune, input_stream.go:133 *)
Definition GetText (t : list Z) : bytes := flat_map (fun c => EncodeRune (Z.to_N c)) t.

(* The lexer of prutalgen over a text: the tokens and the errors, in order,
   protobuf_lexer.go:37-384 (the table is read once) and lexer.go:181-235. *)
Definition lex (inp : list Z) : option (list item) :=
  match deserialize serialized_lexer with
  | Some a => lex_with a inp
  | None => None
  end.
Definition lex_file (data : bytes) : option (list item) := lex (ReadRunes data).

(* What goes into the token stream, common_token_stream.go:127-147 (every token,
   of every channel), and what the parser reads from it (channel 0,
   common_token_stream.go:404-430 LT). *)
Definition stream (l : list item) : list (Z * Z * list Z) :=
  flat_map (fun i => match i with ITok k ch t => [(k, ch, t)] | IErr _ => [] end) l.
Definition parser_input (l : list item) : list (Z * list Z) :=
  flat_map (fun i => match i with
                     | ITok k ch t => if ch =? 0 then [(k, t)] else []
                     | IErr _ => []
                     end) l.

(* parseInput, prutalgen.go:236-250: the parser's listeners are replaced by one
   that counts, the lexer keeps ConsoleErrorListener (recognizer.go:47), which
   prints a line to stderr.  [parse] stands for any parser together with
   everything that follows: from the token stream it makes a result and the
   number of its errors.  The result is [None] if the run is ended by Fatalf
   (prutalgen.go:248-250), and the lines on stderr. *)
Definition parseInput {T : Type} (parse : list (Z * Z * list Z) -> T * nat) (data : bytes)
  : option (option T * list (list Z)) :=
  match lex_file data with
  | None => None
  | Some l =>
      let (r, errors) := parse (stream l) in
      Some (match errors with O => Some r | S _ => None end,
            flat_map (fun i => match i with IErr t => [t] | _ => [] end) l)
  end.
