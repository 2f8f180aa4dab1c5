(** The comments of a file from its bytes: the tokens of the lexer as comment.go sees them, and the calls of
    the listeners with the tokens of their contexts.
    (prutalgen/pkg/prutalgen/prutalgen.go:236-274, comment.go; prutalgen/internal/antlr/token_source.go and
    common_token_stream.go; the listeners of message.go, enum.go, field.go and service.go) *)
From Coq Require Import List Arith Bool ZArith Init.Byte.
From Verif Require Import Base GoStr Comments Atn LexFile ParserNames Parser Listen Walk.
Import ListNotations.
Open Scope nat_scope.

(* parser.ProtobufParserWS, LINE_COMMENT and COMMENT, protobuf_parser.go:395-397; comment.go:41-49 *)
Definition tkind_of (k : Z) : tkind :=
  if (k =? 59)%Z then TWs else if (k =? 60)%Z then TLine else if (k =? 61)%Z then TBlock else TCode.
(* The tokens of the stream with their texts: GetTokenType and GetText, token.go:62-120 (the text of EOF,
   which is not asked for, is left empty) *)
Definition file_stream (l : list item) : list token :=
  map (fun x => Comments.mkTok (tkind_of (fst (fst x))) (GetText (snd x))) (stream l).

(* GetTokenIndex, token.go:70-72, common_token_stream.go:127-147: the tokens in the tree of the model have the
   offset of their first character (Parser.v), from which their index in the stream is found here.  [start]:
   the offset of the next item, [i]: the index of the next token *)
Fixpoint index_at (start i off : nat) (l : list item) : nat :=
  match l with
  | [] => i
  | ITok _ _ t :: l' => if off <=? start then i else index_at (start + length t) (S i) off l'
  | IErr t :: l' => index_at (start + length t) i off l'
  end.

(* c.GetStart() and c.GetStop() of a context, antlr/parser.go:454 and 470: the first and the last of its tokens *)
Definition span (l : list tree) : nat * nat :=
  let s := flat_map get_starts l in (hd 0 s, last s 0).
(* The calls of the listeners (Walk.v), each with the tokens of its context *)
Definition here (l : list tree) (es : option (list event)) : option (list (event * (nat * nat))) :=
  option_map (map (fun e => (e, span l))) es.
Definition join {A} (a b : option (list A)) : option (list A) :=
  match a, b with Some a, Some b => Some (a ++ b) | _, _ => None end.
Fixpoint calls (p : nat) (x : tree) : option (list (event * (nat * nat))) :=
  match x with
  | Leaf _ => Some []
  | Node r l => join (here l (enter p r l)) (join (fold_right (fun y => join (calls r y)) (Some []) l) (here l (exit p r l)))
  end.
(* Which listeners ask for comments: message.go:228-229, enum.go:157 and 183, field.go:293 (and 323-326: not for
   the fields of an extend block), service.go:78 and 93 *)
Definition asks (e : event) : bool :=
  match e with
  | EnterMessageDef _ _ | EnterEnumDef _ _ | ExitEnumField _ _ _ _ | ExitOneofField _ | ExitMapField _ _
  | EnterServiceDef _ | EnterRpc _ => true
  | ExitField p _ _ => match p with RExtend => false | _ => true end
  | _ => false
  end.
Definition asking (cs : list (event * (nat * nat))) : list (event * (nat * nat)) := filter (fun c => asks (fst c)) cs.
Definition def_at (items : list item) (s : nat * nat) : def :=
  mkDef (index_at 0 0 (fst s) items) (index_at 0 0 (snd s) items).

(* parseInput, prutalgen.go:236-255: each call that asks for comments with those it gets, and the comment of the file *)
Definition file_comments_of (o : oracle) (data : bytes) : option (list (event * comments) * bytes) :=
  match lex_file data, parse_file o data with
  | Some items, OK (x :: _) _ =>
      match calls r_proto x with
      | Some cs =>
          let ds := map (fun c => def_at items (snd c)) (asking cs) in
          let '(got, fc) := file_comments (file_stream items) ds (d_start (def_at items (span [x]))) in
          Some (combine (map fst (asking cs)) got, fc)
      | None => None
      end
  | _, _ => None
  end.
