(** Proofs for C80: the kinds of words, and other words in the place of identifiers. *)
From Coq Require Import List ZArith Bool Arith Lia.
From Coq Require Import String.
From Verif Require Import Base GoStr Atn LexSpec LexFileSpec LexFile LexDfa LexProofs LexFileProofs Props_Lex.
From Verif Require Import ParserNames Parser ParserSpec ParserProofs ParserFull ParserPredict Props_Parser.
Import ListNotations.
Import StringSyntax.
Local Open Scope string_scope.
Local Open Scope list_scope.
Open Scope Z_scope.

(* ---------- the kind of a word ---------- *)
(** the characters with which the texts of [r] can begin *)
Fixpoint begin (r : re) : ranges :=
  match r with
  | Nothing | Empty => []
  | OneOf l => l
  | NoneOf _ => [(0, 1114111)]
  | Seq a b => begin a ++ (if nullable a then begin b else [])
  | Or a b => begin a ++ begin b
  | Many a => begin a
  end.
Lemma in_ranges_app a b c : in_ranges (a ++ b) c = in_ranges a c || in_ranges b c.
Proof. apply existsb_app. Qed.
Lemma begin_ok r t : matches r t -> forall c x, t = c :: x -> in_ranges (begin r) c = true.
Proof.
  induction 1 as [|l c H|l c Hc H|r s x y A IHA B IHB|r s x A IHA|r s x A IHA|r|r x y A IHA B IHB];
    intros c0 x0 E; cbn [begin]; rewrite ?in_ranges_app.
  - discriminate.
  - injection E as <- <-. exact H.
  - injection E as <- <-. unfold is_char in Hc. cbn. rewrite orb_false_r. lia.
  - destruct x as [|c x].
    + assert (N : nullable r = true) by now apply nullable_ok. rewrite N. rewrite (IHB _ _ E). apply orb_true_r.
    + injection E as <- _. now rewrite (IHA _ _ eq_refl).
  - now rewrite (IHA _ _ E).
  - rewrite (IHA _ _ E). apply orb_true_r.
  - discriminate.
  - destruct x as [|c x]; [now apply IHB in E|]. injection E as <- _. exact (IHA _ _ eq_refl).
Qed.
Definition apart_ranges (a b : ranges) : bool :=
  forallb (fun x => forallb (fun y => (snd x <? fst y) || (snd y <? fst x)) b) a.
Lemma apart_ranges_ok a b c : apart_ranges a b = true -> in_ranges a c = true -> in_ranges b c = true -> False.
Proof.
  unfold apart_ranges, in_ranges. rewrite forallb_forall, !existsb_exists. intros H (x & Ix & Hx) (y & Iy & Hy).
  specialize (H _ Ix). rewrite forallb_forall in H. specialize (H _ Iy). lia.
Qed.
Lemma lit_inv l t : matches (lit_codes l) t -> t = l.
Proof.
  revert t. induction l as [|c l IH]; intros t M.
  - inversion M. reflexivity.
  - destruct l as [|d l].
    + now apply chr_inv.
    + apply seq_inv in M. destruct M as (x & y & -> & A & B). apply chr_inv in A. apply IH in B. now subst.
Qed.
(** what a token that looks like a word can be *)
Definition name_kinds : list Z := IDENTIFIER :: keyword_tokens.
Definition other_kinds : list (Z * re) :=
  filter (fun p => negb (mem (fst p) (REQUIRED :: FLOAT_LIT :: name_kinds))) kinds.
Lemma other_apart : forallb (fun p => apart_ranges (begin (snd p)) letter_ranges) other_kinds = true.
Proof. vm_compute. reflexivity. Qed.
Definition number_lit : re :=
  ors [ seqs [decimals; lit "."; LexSpec.opt decimals; LexSpec.opt exponent];
        seqs [decimals; exponent];
        seqs [lit "."; decimals; LexSpec.opt exponent] ].
Lemma number_apart : apart_ranges (begin number_lit) letter_ranges = true.
Proof. vm_compute. reflexivity. Qed.
Lemma or_inv r s t : matches (Or r s) t -> matches r t \/ matches s t.
Proof. intros M. inversion M; auto. Qed.
Lemma float_inv t : matches float_lit t -> matches number_lit t \/ t = str "inf" \/ t = str "nan".
Proof.
  unfold float_lit, number_lit. cbn [ors]. intros M.
  apply or_inv in M. destruct M as [M|M]; [left; now apply m_left|].
  apply or_inv in M. destruct M as [M|M]; [left; now apply m_right, m_left|].
  apply or_inv in M. destruct M as [M|M]; [left; now apply m_right, m_right|].
  apply or_inv in M. destruct M as [M|M]; apply lit_inv in M; auto.
Qed.
Lemma word_kind n k r : is_word n -> In (k, r) kinds -> matches r n ->
  In k name_kinds \/ (k = REQUIRED /\ n = str "required") \/ (k = FLOAT_LIT /\ (n = str "inf" \/ n = str "nan")).
Proof.
  intros (c & x & -> & Lc & _) I M. destruct (mem k (REQUIRED :: FLOAT_LIT :: name_kinds)) eqn:E.
  - apply mem_In in E. destruct E as [<-|[<-|E]]; [| |auto]; right.
    + left. split; [reflexivity|]. kind_re I. change (matches (lit_codes (str "required")) (c :: x)) in M. now apply lit_inv in M.
    + right. split; [reflexivity|]. kind_re I. change (matches float_lit (c :: x)) in M.
      apply float_inv in M. destruct M as [M|M]; [|exact M]. exfalso.
      eapply apart_ranges_ok; [exact number_apart| |exact Lc]. eapply begin_ok; [exact M|reflexivity].
  - exfalso. pose proof other_apart as A. rewrite forallb_forall in A.
    assert (J : In (k, r) other_kinds) by (apply filter_In; split; [exact I|cbn [fst]; now rewrite E]).
    eapply apart_ranges_ok; [exact (A _ J)| |exact Lc]. eapply begin_ok; [exact M|reflexivity].
Qed.
Lemma word_has_kind n : is_word n -> exists k, first_kind k n.
Proof.
  intros W. destruct (vaccept (dvecs kinds n)) as [k|] eqn:E; [exists k; now apply kind_check|].
  exfalso. apply (vaccept_none _ E 58). apply dvecs_ok. rewrite app_nil_r. apply of_kind_vmatches.
  now apply C75_plain.
Qed.

(* ---------- other names ---------- *)
(** [y] can be in the place of [x] *)
Definition renames (x y : tok) : Prop := t_kind y = t_kind x \/ (t_kind x = IDENTIFIER /\ In (t_kind y) name_kinds).
Fixpoint plain (s : sym) : bool :=
  match s with
  | T ks => negb (mem IDENTIFIER ks)
  | N _ => true
  | Opt b | Star b | Plus b => forallb plain b
  | Alt bs => forallb (forallb plain) bs
  end.
Lemma plain_rules : forallb (fun q => Nat.eqb q r_ident || forallb plain (rule q)) (seq 0 53) = true.
Proof. vm_compute. reflexivity. Qed.
Lemma plain_rule q : q <> r_ident -> forallb plain (rule q) = true.
Proof.
  intros Nq. destruct (Nat.lt_ge_cases q 53) as [L|G].
  - pose proof plain_rules as A. rewrite forallb_forall in A. specialize (A q).
    rewrite in_seq in A. specialize (A ltac:(lia)). apply orb_true_iff in A as [A|A]; [|exact A].
    apply Nat.eqb_eq in A. contradiction.
  - unfold rule. now rewrite nth_overflow.
Qed.
Lemma rename_ident w f w' : derives (rule r_ident) w f -> Forall2 renames w w' -> exists f', derives (rule r_ident) w' f'.
Proof.
  change (rule r_ident) with [Alt [[t IDENTIFIER]; [N r_keywords]]]. intros D R.
  assert (G : exists x, w = [x] /\ In (t_kind x) name_kinds).
  { inversion D as [| | | | | | | |b bs l w0 f0 I Db]; subst. rewrite app_nil_r in Db. destruct I as [<-|[<-|[]]].
    - inversion Db as [|ks l y w1 f1 K D1| | | | | | |]; subst. inversion D1; subst. exists y. split; [reflexivity|].
      destruct K as [K|[]]. left. exact K.
    - inversion Db as [| |r l w1 f1 w2 f2 D1 D2| | | | | |]; subst. inversion D2; subst.
      change (rule r_keywords) with [T keyword_tokens] in D1.
      inversion D1 as [|ks l y w1' f1' K D3| | | | | | |]; subst. inversion D3; subst. exists y. split; [reflexivity|].
      right. exact K. }
  destruct G as (x & -> & Kx). inversion R as [|? y ? l' Rxy R']; subst. inversion R'; subst.
  assert (Ky : In (t_kind y) name_kinds) by (destruct Rxy as [E|[_ E]]; [rewrite E|]; auto).
  destruct Ky as [Ky|Ky].
  - eexists. eapply d_alt; [left; reflexivity|]. cbn [app]. constructor; [|constructor]. left. exact Ky.
  - eexists. eapply d_alt; [right; left; reflexivity|]. cbn [app]. rewrite <- (app_nil_r [y]).
    constructor; [|constructor]. change (rule r_keywords) with [T keyword_tokens]. constructor; [exact Ky|constructor].
Qed.
Lemma rename_ok l w f : derives l w f -> forallb plain l = true -> forall w', Forall2 renames w w' ->
  exists f', derives l w' f'.
Proof.
  induction 1; intros P w' R; cbn [forallb] in P.
  - inversion R; subst. eexists. constructor.
  - apply andb_true_iff in P as [P1 P]. inversion R as [|? y ? v Rxy R']; subst.
    destruct (IHderives P _ R') as [f' D']. eexists. constructor; [|exact D'].
    destruct Rxy as [->|[E _]]; [exact H|]. exfalso. cbn in P1. rewrite E in H. apply mem_In in H.
    rewrite H in P1. discriminate.
  - apply andb_true_iff in P as [_ P]. apply Forall2_app_inv_l in R. destruct R as (v1 & v2 & R1 & R2 & ->).
    destruct (IHderives2 P _ R2) as [f2' D2].
    assert (G : exists f1', derives (rule r) v1 f1').
    { destruct (Nat.eq_dec r r_ident) as [->|Nq]; [eapply rename_ident; eauto|].
      apply IHderives1; [now apply plain_rule|exact R1]. }
    destruct G as [f1' D1]. eexists. constructor; eassumption.
  - apply andb_true_iff in P as [_ P]. destruct (IHderives P _ R) as [f' D]. eexists. apply d_opt_no. exact D.
  - apply andb_true_iff in P as [P1 P]. cbn in P1. destruct (IHderives) with (w' := w') as [f' D]; auto.
    { now rewrite forallb_app, P1. } eexists. apply d_opt. exact D.
  - apply andb_true_iff in P as [_ P]. destruct (IHderives P _ R) as [f' D]. eexists. apply d_star_end. exact D.
  - pose proof P as P0. apply andb_true_iff in P as [P1 P]. cbn in P1. destruct (IHderives) with (w' := w') as [f' D]; auto.
    { now rewrite forallb_app, P1. } eexists. apply d_star. exact D.
  - pose proof P as P0. apply andb_true_iff in P as [P1 P]. cbn in P1. destruct (IHderives) with (w' := w') as [f' D]; auto.
    { now rewrite forallb_app, P1. } eexists. apply d_plus. exact D.
  - apply andb_true_iff in P as [P1 P]. cbn [plain] in P1. rewrite forallb_forall in P1.
    destruct (IHderives) with (w' := w') as [f' D]; auto.
    { now rewrite forallb_app, (P1 _ H). } eexists. eapply d_alt; eauto.
Qed.
Lemma rename_sentence w w' : sentence w -> Forall2 renames w w' -> sentence w'.
Proof.
  intros (x & D) R. unfold file_tree in D. destruct (rename_ok _ _ _ D eq_refl _ R) as [f' D'].
  inversion D' as [| |? ? w1 f1 w2 f2 D1 D2| | | | | |]; subst. inversion D2; subst. eexists. exact D'.
Qed.
