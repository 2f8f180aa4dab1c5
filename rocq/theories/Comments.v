(** The comments of a file and the definitions they are given to.
    prutalgen/pkg/prutalgen/comment.go and its callers in message.go, enum.go, field.go,
    service.go and prutalgen.go; what code.go prints of them. *)
From Coq Require Import List Arith Bool Strings.String Init.Byte.
From Coq Require Strings.Byte.
From Verif Require Import Base GoStr Directive.
Import ListNotations StringSyntax.
Open Scope nat_scope.

(** The kinds of tokens, internal/parser/Protobuf.g4: white space (channel 2), line and block
    comments (channel 3), and everything else, the end of the file included (channel 0). *)
Inductive tkind := TWs | TLine | TBlock | TCode.
Record token := mkTok { tk_kind : tkind; tk_text : bytes }.
Definition hidden (t : token) : bool := match tk_kind t with TCode => false | _ => true end.
Definition is_comment (t : token) : bool := match tk_kind t with TLine | TBlock => true | _ => false end.

(** The tokens with their indices *)
Definition indexed (ts : list token) : list (nat * token) := combine (seq 0 (length ts)) ts.
Fixpoint take_hidden (l : list (nat * token)) : list (nat * token) :=
  match l with [] => [] | (i, t) :: r => if hidden t then (i, t) :: take_hidden r else [] end.
(** CommonTokenStream.GetHiddenTokensToLeft(i, -1), internal/antlr/common_token_stream.go: the
    tokens between the one at [i] and the token of channel 0 before it, here from right to left *)
Definition hidden_left (ts : list token) (i : nat) : list (nat * token) :=
  take_hidden (rev (firstn i (indexed ts))).
(** GetHiddenTokensToRight(i, -1): those up to the next token of channel 0 (which the Go function
    includes, and filterCommentOrWhitespace drops) *)
Definition hidden_right (ts : list token) (i : nat) : list (nat * token) :=
  take_hidden (skipn (S i) (indexed ts)).
(** filterCommentOrWhitespace, comment.go:39-56: all hidden tokens are comments or white space,
    so only its answer about comments is left *)
Definition has_comment (l : list (nat * token)) : bool := existsb (fun p => is_comment (snd p)) l.

(** strings.Count(s, "\n") *)
Definition newlines (s : bytes) : nat := count_occ Strings.Byte.byte_eq_dec s x0a.
(** The keys of commentConsumed, comment.go:31-34 *)
Definition was_consumed (used : list nat) (i : nat) : bool := existsb (Nat.eqb i) used.

(** The loop of consumeHeadComment, comment.go:66-88, over the tokens from right to left; [ss]
    is kept in the order of the file, which comment.go gets by reversing at the end (92-95) *)
Fixpoint head_loop (l : list (nat * token)) (used : list nat) (ss : list bytes) : list bytes * list nat :=
  match l with
  | [] => (ss, used)
  | (i, t) :: r =>
      if was_consumed used i then (ss, used)
      else if match tk_kind t with TWs => Nat.ltb 1 (newlines (tk_text t)) | _ => false end then (ss, used)
      else let s := TrimSpace (tk_text t) in
           head_loop r (i :: used) (match s with [] => ss | _ => s :: ss end)
  end.
(** strings.Join(ss, "\n") *)
Fixpoint join_lines (ss : list bytes) : bytes :=
  match ss with [] => [] | [s] => s | s :: r => s ++ x0a :: join_lines r end.
(** consumeHeadComment, comment.go:58-95; [i] is the index of the first token of the rule *)
Definition consumeHeadComment (ts : list token) (used : list nat) (i : nat) : bytes * list nat :=
  let l := hidden_left ts i in
  if has_comment l then let '(ss, used') := head_loop l used [] in (join_lines ss, used')
  else ([], used).

(** The loop of consumeInlineComment, comment.go:104-122 *)
Fixpoint inline_loop (l : list (nat * token)) (used : list nat) : bytes * list nat :=
  match l with
  | [] => ([], used)
  | (i, t) :: r =>
      if was_consumed used i then ([], used)
      else match tk_kind t with
           | TWs => if Nat.ltb 0 (newlines (tk_text t)) then ([], used) else inline_loop r used
           | _ => (TrimSpace (tk_text t), i :: used)
           end
  end.
(** consumeInlineComment, comment.go:97-123; [j] is the index of the last token of the rule *)
Definition consumeInlineComment (ts : list token) (used : list nat) (j : nat) : bytes * list nat :=
  let l := hidden_right ts j in
  if has_comment l then inline_loop l used else ([], used).

(** A definition: the indices of its first and of its last token *)
Record def := mkDef { d_start : nat; d_stop : nat }.
Record comments := mkComments { c_head : bytes; c_inline : bytes }.
(** What a message, an enum, a value of an enum, a field, a service or a method does when the
    walk gets to it: message.go:228-230, enum.go:157-159 and 183-185, field.go:293-299,
    service.go:78-82 and 93-97 *)
Definition def_comments (ts : list token) (used : list nat) (d : def) : comments * list nat :=
  let '(h, used1) := consumeHeadComment ts used (d_start d) in
  let '(c, used2) := consumeInlineComment ts used1 (d_stop d) in
  (mkComments h c, used2).
Fixpoint walk (ts : list token) (used : list nat) (ds : list def) : list comments * list nat :=
  match ds with
  | [] => ([], used)
  | d :: r => let '(c, used1) := def_comments ts used d in
              let '(cs, used2) := walk ts used1 r in (c :: cs, used2)
  end.
(** The comments of the definitions [ds] of a file, in the order of the walk, and that of the file
    itself, whose first token has index [f]: prutalgen.go:244-255 *)
Definition file_comments (ts : list token) (ds : list def) (f : nat) : list comments * bytes :=
  let '(cs, used) := walk ts [] ds in (cs, fst (consumeHeadComment ts used f)).
(** The directives of a definition and of a file: message.go:230 and its likes, prutalgen.go:255 *)
Definition def_directives (c : comments) : list bytes := DirectivesParse [c_head c; c_inline c].
Definition file_directives (c : bytes) : list bytes := DirectivesParse [c].

(** ** What is printed *)
(** fmt.Sprintf(format, arg) for a format made of text, %s and %%; of the other verbs only what
    is printed when no argument is left, and of flags and widths only a star directly behind the
    percent sign. *)
Fixpoint Sprintf1 (format : bytes) (arg : option bytes) : bytes :=
  match format with
  | [] => []
  | c :: r =>
      if beqb c x25 then
        match r with
        | [] => bs "%!(NOVERB)"
        | v :: r' =>
            if beqb v x25 then x25 :: Sprintf1 r' arg
            else match arg with
                 | Some a => a ++ Sprintf1 r' None
                 | None =>
                     if beqb v x2a then
                       bs "%!(BADWIDTH)" ++
                       match r' with
                       | [] => bs "%!(NOVERB)"
                       | v' :: r'' => if beqb v' x25 then x25 :: Sprintf1 r'' None
                                      else bs "%!" ++ v' :: bs "(MISSING)" ++ Sprintf1 r'' None
                       end
                     else bs "%!" ++ v :: bs "(MISSING)" ++ Sprintf1 r' None
                 end
        end
      else c :: Sprintf1 r arg
  end.
(** The line of the type of an enum, code.go:137, of the end of a message, code.go:215 *)
Definition enum_type_line (name inline : bytes) : bytes := Sprintf1 (bs "type %s int32" ++ inline) (Some name).
Definition message_end_line (inline : bytes) : bytes := Sprintf1 (bs "} %s") (Some inline).
