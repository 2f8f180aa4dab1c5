(** Which comments belong to a definition, in terms of the positions in the file. *)
From Coq Require Import List Arith Bool Init.Byte.
From Coq Require Strings.Byte.
From Verif Require Import Base GoStr Comments.
Import ListNotations.
Open Scope nat_scope.

Section Spec.
  Variable ts : list token.
  Definition code_at (i : nat) : Prop := exists t, nth_error ts i = Some t /\ tk_kind t = TCode.
  Definition comment_at (i : nat) : Prop := exists t, nth_error ts i = Some t /\ (tk_kind t = TLine \/ tk_kind t = TBlock).
  (** White space that has [n] line feeds *)
  Definition space_at (i n : nat) : Prop :=
    exists t, nth_error ts i = Some t /\ tk_kind t = TWs /\ count_occ Strings.Byte.byte_eq_dec (tk_text t) x0a = n.

  (** [p] is the comment that follows the token [j] on its line: between them is nothing but
      white space without a line feed. *)
  Definition follows (j p : nat) : Prop :=
    j < p /\ comment_at p /\ forall q, j < q < p -> space_at q 0.
  (** [p] is a comment before the token [i]: between them are only comments and white space, and
      no empty line. *)
  Definition precedes (p i : nat) : Prop :=
    p < i /\ comment_at p /\
    forall q, p < q < i -> comment_at q \/ exists n, n <= 1 /\ space_at q n.

  (** The text of the comments at the positions [ps], one below the other *)
  Definition texts (ps : list nat) : bytes :=
    match map (fun p => match nth_error ts p with Some t => TrimSpace (tk_text t) | None => [] end) ps with
    | [] => []
    | s :: r => s ++ concat (map (cons x0a) r)
    end.
  (** [s] is the text of the comments with the property [P], in the order of the file *)
  Definition text_of (P : nat -> Prop) (s : bytes) : Prop :=
    exists ps, (forall p, In p ps <-> P p) /\ (forall a b c x y, ps = a ++ x :: b ++ y :: c -> x < y) /\ s = texts ps.

  Variable ds : list def.
  (** A comment that follows a definition on its line *)
  Definition taken (p : nat) : Prop := exists d, In d ds /\ follows (d_stop d) p.

  (** What a definition gets: its head comment is made of the comments before it that do not
      follow another definition on its line, its inline comment is the one that follows it. *)
  Definition own_comments (d : def) (c : comments) : Prop :=
    text_of (fun p => precedes p (d_start d) /\ ~ taken p) (c_head c) /\
    text_of (follows (d_stop d)) (c_inline c).
End Spec.

(** The definitions in the order of the walk: of two definitions, the later one begins after the
    end of the earlier one or lies inside it. *)
Definition doc_order (ds : list def) : Prop :=
  forall a b c d e, ds = a ++ d :: b ++ e :: c ->
    d_stop d < d_start e \/ (d_start d < d_start e /\ d_stop e < d_stop d).
(** The first and the last token of a definition are tokens of the grammar. *)
Definition well_placed (ts : list token) (ds : list def) : Prop :=
  forall d, In d ds -> d_start d <= d_stop d /\ code_at ts (d_start d) /\ code_at ts (d_stop d).
(** Tokens as the lexer makes them: white space is not empty and consists of blanks, tabs, form
    feeds and line ends; a comment begins with two slashes or with a slash and a star. (Protobuf.g4: WS, LINE_COMMENT, COMMENT) *)
Definition lexed_token (t : token) : Prop :=
  match tk_kind t with
  | TWs => tk_text t <> [] /\ forall c, In c (tk_text t) -> In c [x20; x09; x0d; x0a; x0c]
  | TLine | TBlock => exists c r, tk_text t = x2f :: c :: r /\ (c = x2f \/ c = x2a)
  | TCode => True
  end.
