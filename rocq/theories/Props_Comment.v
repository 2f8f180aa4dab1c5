(** C71: comments go to the definitions they stand at. *)
From Coq Require Import List Arith Bool Lia Strings.String Init.Byte.
From Verif Require Import Base GoStr StrFacts Directive DirectiveSpec DirectiveProofs Comments CommentSpec CommentProofs Props_Directive.
Import ListNotations StringSyntax.
Open Scope nat_scope.

(** A file: its tokens, its definitions in the order of the walk and its first token *)
Definition file_ok (ts : list token) (ds : list def) (f : nat) : Prop :=
  Forall lexed_token ts /\ doc_order ds /\ well_placed ts ds /\ code_at ts f /\ (forall i, i < f -> ~ code_at ts i).

(** Every definition gets exactly its own comments, and the file those above its first token, unless a
    definition begins there. *)
Theorem C71_comments : forall ts ds f cs fc, file_ok ts ds f -> file_comments ts ds f = (cs, fc) ->
  Forall2 (own_comments ts ds) ds cs /\
  text_of ts (fun p => precedes ts p f /\ ~ exists d, In d ds /\ d_start d = f) fc.
Proof.
  intros ts ds f cs fc (LX & DO & WP & CF & FI) E. unfold file_comments in E.
  pose proof (walk_all ts LX ds DO WP) as W. destruct (walk ts [] ds) as [cs' used]. injection E as <- <-.
  destruct W as (A & B). split; [exact A|]. apply (file_spec ts LX ds WP); auto.
  intros i L. destruct (nth_error ts i) as [t|] eqn:T.
  - exists t. split; [exact T|]. intro K. apply (FI i L). exists t. auto.
  - exfalso. apply nth_error_None in T. pose proof (code_le ts f CF). lia.
Qed.
Print Assumptions C71_comments.

(** The text that a property of comments determines is unique: the statement above leaves no choice. *)
Lemma asc_cons_inv : forall p ps, asc (p :: ps) -> asc ps /\ forall q, In q ps -> p < q.
Proof.
  intros p ps A. split.
  - intros a b c x y Q. apply (A (p :: a) b c x y). now rewrite Q.
  - intros q I. apply in_split in I. destruct I as (a & b & ->). apply (A [] a b p q). reflexivity.
Qed.
Lemma asc_unique : forall l k, asc l -> asc k -> (forall p : nat, In p l <-> In p k) -> l = k.
Proof.
  induction l as [|x l IH]; intros k A B E.
  - destruct k as [|y k]; [reflexivity|]. exfalso. apply (E y). now left.
  - destruct k as [|y k]; [exfalso; apply (E x); now left|].
    apply asc_cons_inv in A, B. destruct A as (A1 & A2), B as (B1 & B2).
    assert (x = y) as <-.
    { destruct (proj1 (E x) (or_introl eq_refl)) as [Q|I]; [auto|].
      destruct (proj2 (E y) (or_introl eq_refl)) as [Q|J]; [auto|]. apply B2 in I. apply A2 in J. lia. }
    f_equal. apply IH; auto. intro p. split; intro I.
    + destruct (proj1 (E p) (or_intror I)) as [Q|J]; [|exact J]. subst p. apply A2 in I. lia.
    + destruct (proj2 (E p) (or_intror I)) as [Q|J]; [|exact J]. subst p. apply B2 in I. lia.
Qed.
Theorem C71_unique : forall ts P s s', text_of ts P s -> text_of ts P s' -> s = s'.
Proof.
  intros ts P s s' (l & A & B & ->) (k & C & D & ->). f_equal. apply asc_unique; auto. intro p. now rewrite A, C.
Qed.
Print Assumptions C71_unique.

(** No comment is given to two definitions, or twice to one. *)
Definition gets (ts : list token) (ds : list def) (d : def) (p : nat) : Prop :=
  (precedes ts p (d_start d) /\ ~ taken ts ds p) \/ follows ts (d_stop d) p.
Theorem C71_once : forall ts ds f a d b e c p, file_ok ts ds f -> ds = a ++ d :: b ++ e :: c ->
  gets ts ds d p -> gets ts ds e p -> False.
Proof.
  intros ts ds f a d b e c p (LX & DO & WP & _) E G H.
  assert (Id : In d ds) by (rewrite E; apply in_or_app; right; now left).
  assert (Ie : In e ds) by (rewrite E; apply in_or_app; right; right; apply in_or_app; right; now left).
  specialize (DO _ _ _ _ _ E). destruct (WP d Id) as (L1 & C1 & C2), (WP e Ie) as (L2 & C3 & C4).
  destruct G as [(G & NG)|G], H as [(H & NH)|H].
  - apply precedes_gap in G, H. pose proof (gapL_unique _ _ _ _ G H C1 C3). lia.
  - apply NG. exists e. auto.
  - apply NH. exists d. auto.
  - apply follows_gap in G, H. pose proof (gapR_unique _ _ _ _ G H C2 C4). lia.
Qed.
Print Assumptions C71_once.
Theorem C71_not_both : forall ts ds f d p, file_ok ts ds f -> In d ds ->
  precedes ts p (d_start d) -> follows ts (d_stop d) p -> False.
Proof. intros ts ds f d p (_ & _ & WP & _) I (A & _) (B & _). destruct (WP d I) as (L & _). lia. Qed.
Print Assumptions C71_not_both.

(** The directives of a definition are those of its head comment and then those of its inline comment. *)
Theorem C71_directives : forall c d1 d2, comment_directives (c_head c) d1 -> comment_directives (c_inline c) d2 ->
  def_directives c = d1 ++ d2.
Proof.
  intros c d1 d2 A B. unfold def_directives. rewrite (C51_comments [c_head c; c_inline c] [d1; d2]).
  - cbn. now rewrite app_nil_r.
  - auto.
Qed.
Print Assumptions C71_directives.

(** ** A concrete file *)
Definition ws (s : string) := mkTok TWs (bs s).
Definition lc (s : string) := mkTok TLine (bs s).
Definition bc (s : string) := mkTok TBlock (bs s).
Definition kw (s : string) := mkTok TCode (bs s).
Definition nlt := mkTok TWs [x0a].
Definition nl2 := mkTok TWs [x0a; x0a].
Arguments ws s%string. Arguments lc s%string. Arguments bc s%string. Arguments kw s%string.
(**
<<
// file
syntax;

// lost

/* M */
// more of M
message{
  // a
  x; // a too
  // b
  y;
} // end
>> *)
Definition ts1 : list token :=
  [lc "// file"; nlt; kw "syntax"; kw ";"; nl2;
   lc "// lost"; nl2; bc "/* M */"; nlt; lc "// more of M"; nlt; kw "message"; kw "{"; nlt;
   lc "// a"; nlt; kw "x"; kw ";"; ws " "; lc "// a too "; nlt; lc "// b"; nlt; kw "y"; kw ";"; nlt;
   kw "}"; ws " "; lc "// end"; nlt; kw ""].
Definition ds1 : list def := [mkDef 11 26; mkDef 16 17; mkDef 23 24].
Fixpoint orderb (ds : list def) : bool :=
  match ds with
  | [] => true
  | d :: r => forallb (fun e => Nat.ltb (d_stop d) (d_start e) || Nat.ltb (d_start d) (d_start e) && Nat.ltb (d_stop e) (d_stop d)) r && orderb r
  end.
Lemma orderb_doc : forall ds, orderb ds = true -> doc_order ds.
Proof.
  induction ds as [|x ds IH]; intros B a b c d e Q; [destruct a; discriminate|].
  cbn [orderb] in B. apply andb_prop in B. destruct B as (B1 & B2). destruct a as [|y a]; cbn in Q; injection Q as -> Q.
  - rewrite forallb_forall in B1. specialize (B1 e). rewrite Q in B1. specialize (B1 ltac:(apply in_or_app; right; now left)).
    apply orb_prop in B1. destruct B1 as [B1|B1]; [left; now apply Nat.ltb_lt|right].
    apply andb_prop in B1. destruct B1 as (X & Y). split; now apply Nat.ltb_lt.
  - exact (IH B2 _ _ _ _ _ Q).
Qed.
Ltac lexed := repeat (apply Forall_cons; [first [exact Logic.I | split; [discriminate|cbn; tauto] | (do 2 eexists; split; [reflexivity|auto])]|]); apply Forall_nil.
Ltac placed := intros d I; cbn in I; repeat (destruct I as [<-|I]; [split; [cbn; lia|split; eexists; split; reflexivity]|]); destruct I.
Ltac first_code := intros i L (t & T & K); destruct i as [|[|i]]; [try lia| try lia| lia]; cbn in T; injection T as <-; discriminate.
Example C71_file : file_ok ts1 ds1 2.
Proof.
  split; [lexed|]. split; [now apply orderb_doc|]. split; [placed|]. split; [eexists; split; reflexivity|first_code].
Qed.
Example C71_file_comments : file_comments ts1 ds1 2 =
  ([mkComments (bs "/* M */" ++ x0a :: bs "// more of M") (bs "// end");
    mkComments (bs "// a") (bs "// a too"); mkComments (bs "// b") []], bs "// file").
Proof. vm_compute. reflexivity. Qed.
Example C71_file_gets : gets ts1 ds1 (mkDef 16 17) 14 /\ gets ts1 ds1 (mkDef 16 17) 19.
Proof.
  split.
  - left. split.
    + split; [cbn; lia|]. split; [eexists; split; [reflexivity|auto]|]. intros q Q. right. exists 1. split; [lia|].
      assert (q = 15) as -> by (cbn in Q; lia). eexists. repeat split.
    + intros (d & I & J & _ & F). cbn in I.
      destruct I as [<-|[<-|[<-|[]]]]; cbn in J; lia.
  - right. split; [cbn; lia|]. split; [eexists; split; [reflexivity|auto]|]. intros q Q.
    assert (q = 18) as -> by (cbn in Q; lia). eexists. repeat split.
Qed.

(** The comment on the line of another statement, or behind the brace that opens a block, is given
    to the definition on the next line, with its directives:
<<
package; //prutalgen:no_pointer
message{ //prutalgen:no_enum_prefix
x;
}
>> *)
Definition ts2 : list token :=
  [kw "package"; kw ";"; ws " "; lc "//prutalgen:no_pointer"; nlt; kw "message"; kw "{"; ws " ";
   lc "//prutalgen:no_enum_prefix"; nlt; kw "x"; kw ";"; nlt; kw "}"; nlt; kw ""].
Definition ds2 : list def := [mkDef 5 13; mkDef 10 11].
Theorem C71_refuted : exists ts ds f cs fc, file_ok ts ds f /\ file_comments ts ds f = (cs, fc) /\
  (exists d c j p t, In (d, c) (combine ds cs) /\ code_at ts j /\ j < d_start d /\ ~ (exists e, In e ds /\ (d_start e <= j <= d_stop e)) /\
     follows ts j p /\ nth_error ts p = Some t /\ c_head c = tk_text t /\ def_directives c = [bs "no_pointer"]) /\
  (exists d e c j p t, In e ds /\ In (d, c) (combine ds cs) /\ code_at ts j /\ d_start e < j < d_start d /\ d_start d < d_stop e /\
     follows ts j p /\ nth_error ts p = Some t /\ c_head c = tk_text t /\ def_directives c = [bs "no_enum_prefix"]).
Proof.
  exists ts2, ds2, 0. do 2 eexists. split; [|split; [vm_compute; reflexivity|split]].
  - split; [lexed|]. split; [now apply orderb_doc|]. split; [placed|]. split; [eexists; split; reflexivity|]. intros i L; lia.
  - exists (mkDef 5 13). eexists. exists 1, 3. eexists. split; [left; reflexivity|]. split; [eexists; split; reflexivity|].
    split; [cbn; lia|]. split; [|split; [|split; [reflexivity|split; vm_compute; reflexivity]]].
    + intros (e & I & J). cbn in I. destruct I as [<-|[<-|[]]]; cbn in J; lia.
    + split; [lia|]. split; [eexists; split; [reflexivity|auto]|]. intros q Q.
      assert (q = 2) as -> by lia. eexists. repeat split.
  - exists (mkDef 10 11), (mkDef 5 13). eexists. exists 6, 8. eexists. split; [left; reflexivity|].
    split; [right; left; reflexivity|]. split; [eexists; split; reflexivity|].
    split; [cbn; lia|]. split; [cbn; lia|]. split; [|split; [reflexivity|split; vm_compute; reflexivity]].
    split; [lia|]. split; [eexists; split; [reflexivity|auto]|]. intros q Q.
    assert (q = 7) as -> by lia. eexists. repeat split.
Qed.
Print Assumptions C71_refuted.

(** ** What is printed *)
Lemma Sprintf1_app : forall s r a, ~ In x25 s -> Sprintf1 (s ++ r) a = s ++ Sprintf1 r a.
Proof.
  induction s as [|c s IH]; intros r a N; [reflexivity|]. cbn [Sprintf1 app].
  destruct (beqb_spec c x25) as [E|E].
  - exfalso. apply N. now left.
  - f_equal. apply IH. intro I. apply N. now right.
Qed.
Lemma Sprintf1_text : forall s a, ~ In x25 s -> Sprintf1 s a = s.
Proof. intros s a N. rewrite <- (app_nil_r s) at 1. rewrite Sprintf1_app by exact N. apply app_nil_r. Qed.
Ltac no_percent := let H := fresh in intro H; cbn in H; repeat (destruct H as [H|H]; [discriminate H|]); destruct H.
Theorem C71_message_end : forall c, message_end_line c = bs "} " ++ c.
Proof.
  intro c. unfold message_end_line. change (bs "} %s") with (bs "} " ++ bs "%s"). rewrite Sprintf1_app by no_percent.
  f_equal. change (c ++ [] = c). apply app_nil_r.
Qed.
Print Assumptions C71_message_end.
Theorem C71_enum_line_partial : forall n c, ~ In x25 c -> enum_type_line n c = bs "type " ++ n ++ bs " int32" ++ c.
Proof.
  intros n c N. unfold enum_type_line. change (bs "type %s int32" ++ c) with (bs "type " ++ bs "%s" ++ bs " int32" ++ c).
  rewrite Sprintf1_app by no_percent. f_equal. change (n ++ Sprintf1 (bs " int32" ++ c) None = n ++ bs " int32" ++ c). f_equal.
  rewrite Sprintf1_app by no_percent. f_equal. now apply Sprintf1_text.
Qed.
Print Assumptions C71_enum_line_partial.
Theorem C71_enum_line_refuted : ~ forall n c, enum_type_line n c = bs "type " ++ n ++ bs " int32" ++ c.
Proof. intro H. specialize (H (bs "E") (bs "// 50%% off")). vm_compute in H. discriminate H. Qed.
Print Assumptions C71_enum_line_refuted.
