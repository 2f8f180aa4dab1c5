(** Proofs about the comments of definitions. *)
From Coq Require Import List Arith Bool Lia Init.Byte.
From Coq Require Strings.Byte.
From Verif Require Import Base GoStr StrFacts Comments CommentSpec.
Import ListNotations.
Open Scope nat_scope.

Lemma beqb_In_nat : forall l i, was_consumed l i = true <-> In i l.
Proof.
  intros l i. unfold was_consumed. rewrite existsb_exists. split.
  - intros (x & I & E). apply Nat.eqb_eq in E. now subst.
  - intro I. exists i. split; [exact I|apply Nat.eqb_refl].
Qed.
Lemma not_consumed : forall l i, was_consumed l i = false <-> ~ In i l.
Proof. intros l i. rewrite <- beqb_In_nat. destruct (was_consumed l i); split; intro H; congruence. Qed.

(** ** TrimSpace on the texts of tokens *)
Lemma strip_ws : forall n s, length s <= n -> (forall c, In c s -> In c [x20; x09; x0d; x0a; x0c]) ->
  strip space_left n s = [].
Proof.
  induction n as [|n IH]; intros s L W.
  - destruct s; [reflexivity|cbn in L; lia].
  - destruct s as [|c s]; [reflexivity|]. cbn [strip].
    assert (Q : space_left (c :: s) = 1).
    { specialize (W c (or_introl eq_refl)). cbn in W.
      destruct W as [<-|[<-|[<-|[<-|[<-|[]]]]]]; reflexivity. }
    rewrite Q. cbn [skipn]. apply IH; [cbn in L; lia|]. intros d I. apply W. now right.
Qed.
Lemma trim_ws : forall s, (forall c, In c s -> In c [x20; x09; x0d; x0a; x0c]) -> TrimSpace s = [].
Proof. intros s W. unfold TrimSpace. rewrite strip_ws by (auto with arith). reflexivity. Qed.
Lemma trim_comment : forall c r, c = x2f \/ c = x2a -> TrimSpace (x2f :: c :: r) <> [].
Proof.
  intros c r C Q. destruct (TrimSpace_prefix x2f [] c r) as (y & E).
  - vm_compute; auto.
  - destruct C as [->| ->]; vm_compute; auto.
  - cbn [app] in E. rewrite E in Q. discriminate.
Qed.

Section Gaps.
  Variable ts : list token.
  Hypothesis LX : Forall lexed_token ts.
  Notation "'code' i" := (code_at ts i) (at level 10).
  Definition hid (i : nat) : Prop := exists t, nth_error ts i = Some t /\ tk_kind t <> TCode.
  Definition blank (i : nat) : Prop := exists n, 1 < n /\ space_at ts i n.
  Definition gapL (q i : nat) : Prop := q < i /\ forall r, q <= r < i -> hid r.
  Definition gapR (j q : nat) : Prop := j < q /\ forall r, j < r <= q -> hid r.
  Definition free (used : list nat) (r : nat) : Prop := hid r /\ ~ blank r /\ ~ In r used.

  Lemma hid_code : forall i, hid i -> code i -> False.
  Proof. intros i (t & A & B) (u & C & D). rewrite A in C. injection C as <-. contradiction. Qed.
  Lemma comment_hid : forall i, comment_at ts i -> hid i.
  Proof. intros i (t & A & B). exists t. split; [exact A|]. destruct B as [B|B]; rewrite B; discriminate. Qed.
  Lemma space_hid : forall i n, space_at ts i n -> hid i.
  Proof. intros i n (t & A & B & _). exists t. split; [exact A|]. rewrite B; discriminate. Qed.
  Lemma comment_space : forall i n, comment_at ts i -> space_at ts i n -> False.
  Proof. intros i n (t & A & B) (u & C & D & _). rewrite A in C. injection C as <-. destruct B; congruence. Qed.
  Lemma comment_not_blank : forall i, comment_at ts i -> ~ blank i.
  Proof. intros i C (n & _ & B). eapply comment_space; eauto. Qed.

  Lemma nth_combine_seq : forall (l : list token) s i t, nth_error l i = Some t ->
    nth_error (combine (seq s (length l)) l) i = Some (s + i, t).
  Proof.
    induction l as [|x l IH]; intros s i t H; [destruct i; discriminate|].
    destruct i as [|i]; cbn in *.
    - injection H as ->. now rewrite Nat.add_0_r.
    - rewrite (IH _ _ _ H). f_equal. f_equal. lia.
  Qed.
  Lemma nth_indexed : forall i t, nth_error ts i = Some t -> nth_error (indexed ts) i = Some (i, t).
  Proof. intros i t H. unfold indexed. now rewrite (nth_combine_seq _ _ _ _ H). Qed.
  Lemma indexed_length : length (indexed ts) = length ts.
  Proof. unfold indexed. rewrite combine_length, seq_length. lia. Qed.

  Lemma firstn_snoc : forall {A} (l : list A) k x, nth_error l k = Some x -> firstn (S k) l = firstn k l ++ [x].
  Proof.
    induction l as [|y l IH]; intros k x H; [destruct k; discriminate|].
    destruct k as [|k]; cbn in *; [now injection H as ->|]. f_equal. now apply IH.
  Qed.
  Lemma skipn_nth : forall {A} (l : list A) k x, nth_error l k = Some x -> skipn k l = x :: skipn (S k) l.
  Proof.
    induction l as [|y l IH]; intros k x H; [destruct k; discriminate|].
    destruct k as [|k]; cbn [nth_error skipn] in *; [now injection H as ->|]. exact (IH _ _ H).
  Qed.
  Lemma hidden_left_S : forall k t, nth_error ts k = Some t ->
    hidden_left ts (S k) = if hidden t then (k, t) :: hidden_left ts k else [].
  Proof.
    intros k t H. unfold hidden_left. rewrite (firstn_snoc _ _ _ (nth_indexed _ _ H)), rev_app_distr. reflexivity.
  Qed.
  Lemma hidden_right_S : forall k t, nth_error ts (S k) = Some t ->
    hidden_right ts k = if hidden t then (S k, t) :: hidden_right ts (S k) else [].
  Proof.
    intros k t H. unfold hidden_right. rewrite (skipn_nth _ _ _ (nth_indexed _ _ H)). reflexivity.
  Qed.
  Lemma hidden_right_end : forall k, length ts <= S k -> hidden_right ts k = [].
  Proof. intros k H. unfold hidden_right. now rewrite skipn_all2 by (rewrite indexed_length; exact H). Qed.

  Lemma hidden_hid : forall k t, nth_error ts k = Some t -> (hidden t = true <-> hid k).
  Proof.
    intros k t H. unfold hidden. split.
    - intro E. exists t. split; [exact H|]. intro Q. rewrite Q in E. discriminate.
    - intros (u & A & B). rewrite H in A. injection A as <-. destruct (tk_kind t); congruence.
  Qed.

  Definition txt (p : nat) : bytes := match nth_error ts p with Some t => TrimSpace (tk_text t) | None => [] end.

  Definition asc (ps : list nat) : Prop := forall a b c x y, ps = a ++ x :: b ++ y :: c -> x < y.
  Lemma asc_nil : asc [].
  Proof. intros a b c x y Q. destruct a; discriminate. Qed.
  Lemma asc_snoc : forall ps k, asc ps -> (forall p, In p ps -> p < k) -> asc (ps ++ [k]).
  Proof.
    intros ps k A B a b c x y Q.
    destruct (@exists_last _ (y :: c)) as (c' & z & E); [discriminate|].
    rewrite E in Q.
    assert (Q' : ps ++ [k] = (a ++ x :: b ++ c') ++ [z]).
    { rewrite Q. rewrite <- app_assoc. cbn. now rewrite <- app_assoc. }
    apply app_inj_tail in Q'. destruct Q' as [Q1 <-].
    destruct c' as [|y' c'].
    - cbn in E. injection E as -> ->. apply B. rewrite Q1. apply in_or_app. right. now left.
    - cbn in E. injection E as <- ->. eapply A. exact Q1.
  Qed.
  Lemma asc_one : forall p, asc [p].
  Proof. intro p. apply (asc_snoc [] p asc_nil). intros q []. Qed.

  (** The run of free tokens before [i] *)
  Definition run (used : list nat) (i p : nat) : Prop := p < i /\ forall r, p <= r < i -> free used r.
  Lemma run_S : forall used k p, free used k -> (run used (S k) p <-> p = k \/ run used k p).
  Proof.
    intros used k p F. unfold run. split.
    - intros (A & B). destruct (Nat.eq_dec p k) as [E|E]; [now left|right].
      split; [lia|]. intros r R. apply B. lia.
    - intros [->|(A & B)].
      + split; [lia|]. intros r R. assert (r = k) as -> by lia. exact F.
      + split; [lia|]. intros r R. destruct (Nat.eq_dec r k) as [->|E]; [exact F|]. apply B. lia.
  Qed.
  Lemma run_not : forall used k p, ~ free used k -> ~ run used (S k) p.
  Proof. intros used k p F (A & B). apply F. apply B. lia. Qed.
  Lemma run_cons : forall used k p, run (k :: used) k p <-> run used k p.
  Proof.
    intros used k p. unfold run, free. split; intros (A & B); split; auto; intros r R; destruct (B r R) as (X & Y & Z);
      repeat split; auto.
    - intro I. apply Z. now right.
    - intros [E|I]; [lia|auto].
  Qed.

  Lemma nth_lexed : forall k t, nth_error ts k = Some t -> lexed_token t.
  Proof. intros k t H. rewrite Forall_forall in LX. apply LX. eapply nth_error_In; eauto. Qed.

  Lemma head_loop_spec : forall i used ss, i <= length ts ->
    exists ps, fst (head_loop (hidden_left ts i) used ss) = map txt ps ++ ss /\ asc ps /\
      (forall p, In p ps <-> comment_at ts p /\ run used i p) /\
      (forall q, In q (snd (head_loop (hidden_left ts i) used ss)) <-> In q used \/ run used i q).
  Proof.
    induction i as [|k IH]; intros used ss L.
    - exists []. cbn. repeat split; auto using asc_nil; try tauto.
      + intros (_ & A & _). lia.
      + intros [I|(A & _)]; [exact I|lia].
    - destruct (nth_error ts k) as [t|] eqn:T.
      2:{ apply nth_error_None in T. lia. }
      rewrite (hidden_left_S _ _ T).
      assert (STOP : ~ free used k -> exists ps, ss = map txt ps ++ ss /\ asc ps /\
        (forall p, In p ps <-> comment_at ts p /\ run used (S k) p) /\
        (forall q, In q used <-> In q used \/ run used (S k) q)).
      { intro F. exists []. cbn. pose proof (run_not used k) as N. repeat split; auto using asc_nil; try tauto.
        - intros (_ & R). exact (N _ F R).
        - intros [I|R]; [exact I|destruct (N _ F R)]. }
      destruct (hidden t) eqn:HT.
      2:{ apply STOP. intros (A & _). apply (hidden_hid _ _ T) in A. congruence. }
      cbn [head_loop]. destruct (was_consumed used k) eqn:U.
      { apply STOP. intros (_ & _ & A). apply beqb_In_nat in U. contradiction. }
      apply not_consumed in U.
      assert (FR : ~ blank k -> free used k). { intro B. split; [now apply (hidden_hid _ _ T)|]. now split. }
      assert (NWS : tk_kind t <> TWs -> ~ blank k).
      { intros K (n & _ & u & A & B & _). rewrite T in A. injection A as <-. contradiction. }
      assert (GO : forall ss', free used k -> ss' = (if is_comment t then [txt k] else []) ++ ss ->
        exists ps, fst (head_loop (hidden_left ts k) (k :: used) ss') = map txt ps ++ ss /\ asc ps /\
        (forall p, In p ps <-> comment_at ts p /\ run used (S k) p) /\
        (forall q, In q (snd (head_loop (hidden_left ts k) (k :: used) ss')) <-> In q used \/ run used (S k) q)).
      { intros ss' F ->. destruct (IH (k :: used) ((if is_comment t then [txt k] else []) ++ ss) ltac:(lia))
          as (ps & A & B & C & D).
        assert (CK : is_comment t = true <-> comment_at ts k).
        { unfold is_comment. split.
          - intro E. exists t. split; [exact T|]. destruct (tk_kind t); try discriminate; auto.
          - intros (u & X & Y). rewrite T in X. injection X as <-. destruct Y as [-> | ->]; reflexivity. }
        exists (ps ++ if is_comment t then [k] else []). split; [|split; [|split]].
        - rewrite A. destruct (is_comment t); cbn; [rewrite map_app; cbn|rewrite app_nil_r]; [|reflexivity].
          now rewrite <- app_assoc.
        - destruct (is_comment t); [|now rewrite app_nil_r]. apply asc_snoc; [exact B|].
          intros p I. apply C in I. destruct I as (_ & I & _). exact I.
        - intro p. rewrite in_app_iff, C, run_cons, (run_S _ _ _ F). split.
          + intros [(X & Y)|I]; [auto|]. destruct (is_comment t); [|destruct I].
            destruct I as [<-|[]]. split; [now apply CK|now left].
          + intros (X & [->|Y]); [right|now left]. apply CK in X. rewrite X. now left.
        - intro q. rewrite D, run_cons, (run_S _ _ _ F). cbn [In]. split; intuition congruence. }
      pose proof (nth_lexed _ _ T) as LT. unfold lexed_token in LT.
      assert (TX : txt k = TrimSpace (tk_text t)) by (unfold txt; now rewrite T).
      destruct (tk_kind t) eqn:K.
      + destruct (Nat.ltb 1 (newlines (tk_text t))) eqn:B.
        * apply STOP. intros (_ & X & _). apply X. apply Nat.ltb_lt in B.
          exists (newlines (tk_text t)). split; [exact B|]. exists t. auto.
        * apply Nat.ltb_ge in B. apply GO.
          -- apply FR. intros (n & X & u & Y & _ & V). rewrite T in Y. injection Y as <-.
             unfold newlines in B. lia.
          -- rewrite trim_ws by apply LT. unfold is_comment. now rewrite K.
      + cbn. destruct LT as (c & r & E & C). apply GO; [apply FR, NWS; congruence|].
        unfold is_comment. rewrite K, TX. pose proof (trim_comment c r C) as NE. rewrite <- E in NE.
        destruct (TrimSpace (tk_text t)); [congruence|reflexivity].
      + cbn. destruct LT as (c & r & E & C). apply GO; [apply FR, NWS; congruence|].
        unfold is_comment. rewrite K, TX. pose proof (trim_comment c r C) as NE. rewrite <- E in NE.
        destruct (TrimSpace (tk_text t)); [congruence|reflexivity].
      + unfold hidden in HT. rewrite K in HT. discriminate.
  Qed.

  Lemma join_texts : forall ps, join_lines (map txt ps) = texts ts ps.
  Proof.
    intro ps. unfold texts, txt. set (f := fun p => match nth_error ts p with Some t => TrimSpace (tk_text t) | None => [] end).
    destruct ps as [|p ps]; [reflexivity|]. cbn [map]. generalize (f p) as s. induction ps as [|q ps IH]; intro s.
    - cbn. now rewrite app_nil_r.
    - change (join_lines (s :: map f (q :: ps))) with (s ++ x0a :: join_lines (f q :: map f ps)). rewrite IH. reflexivity.
  Qed.

  Lemma has_comment_left : forall i, i <= length ts ->
    (has_comment (hidden_left ts i) = true <-> exists p, comment_at ts p /\ gapL p i).
  Proof.
    induction i as [|k IH]; intro L.
    - cbn. split; [discriminate|]. intros (p & _ & A & _). lia.
    - destruct (nth_error ts k) as [t|] eqn:T.
      2:{ apply nth_error_None in T. lia. }
      rewrite (hidden_left_S _ _ T). destruct (hidden t) eqn:HT.
      + apply (hidden_hid _ _ T) in HT. cbn. rewrite orb_true_iff. fold (has_comment (hidden_left ts k)).
        rewrite IH by lia. split.
        * intros [C|(p & C & A & B)].
          -- exists k. split; [|split; [lia|]].
             ++ exists t. split; [exact T|]. unfold is_comment in C. destruct (tk_kind t); try discriminate; auto.
             ++ intros r R. assert (r = k) as -> by lia. exact HT.
          -- exists p. split; [exact C|]. split; [lia|]. intros r R. destruct (Nat.eq_dec r k) as [->|E]; [exact HT|].
             apply B. lia.
        * intros (p & C & A & B). destruct (Nat.eq_dec p k) as [->|E].
          -- left. destruct C as (u & X & Y). rewrite T in X. injection X as <-. unfold is_comment. destruct Y as [-> | ->]; reflexivity.
          -- right. exists p. split; [exact C|]. split; [lia|]. intros r R. apply B. lia.
      + cbn. split; [discriminate|]. intros (p & C & A & B). exfalso.
        assert (hid k) as H by (apply B; lia). apply (hidden_hid _ _ T) in H. congruence.
  Qed.

  Lemma run_gap : forall used i p, run used i p -> gapL p i.
  Proof. intros used i p (A & B). split; [exact A|]. intros r R. apply (B r R). Qed.

  (** What consumeHeadComment does *)
  Lemma head_spec : forall used i, i <= length ts -> 
    let '(s, used') := consumeHeadComment ts used i in
    text_of ts (fun p => comment_at ts p /\ run used i p) s /\
    (forall q, In q used -> In q used') /\
    (forall q, In q used' -> In q used \/ gapL q i) /\
    (forall p, precedes ts p i -> In (i - 1) used').
  Proof.
    intros used i L. unfold consumeHeadComment.
    destruct (has_comment (hidden_left ts i)) eqn:HC.
    - destruct (head_loop_spec i used [] L) as (ps & A & B & C & D).
      destruct (head_loop (hidden_left ts i) used []) as [ss used'] eqn:E. cbn in A, D.
      rewrite app_nil_r in A. subst ss. split; [|split; [|split]].
      + exists ps. split; [exact C|]. split; [exact B|]. apply join_texts.
      + intros q I. apply D. now left.
      + intros q I. apply D in I. destruct I as [I|R]; [now left|right]. eapply run_gap; eauto.
      + intros p (X & Y & Z). apply D. destruct (in_dec Nat.eq_dec (i - 1) used) as [I|I]; [now left|right].
        split; [lia|]. intros r R. assert (r = i - 1) as -> by lia.
        destruct (Nat.eq_dec p (i - 1)) as [->|NE].
        * split; [now apply comment_hid|]. split; [now apply comment_not_blank|exact I].
        * destruct (Z (i - 1) ltac:(lia)) as [W|(n & N & W)].
          -- split; [now apply comment_hid|]. split; [now apply comment_not_blank|exact I].
          -- split; [eapply space_hid; eauto|]. split; [|exact I]. intros (m & M & V).
             destruct W as (t & W1 & _ & W2), V as (u & V1 & _ & V2). rewrite W1 in V1. injection V1 as <-. lia.
    - assert (NC : ~ exists p, comment_at ts p /\ gapL p i).
      { rewrite <- (has_comment_left _ L). congruence. }
      split; [|split; [|split]]; auto.
      + exists []. split; [|split; [apply asc_nil|reflexivity]]. intro p. split; [intros []|].
        intros (C & R). apply NC. exists p. split; [exact C|]. eapply run_gap; eauto.
      + intros p (A & B & C). exfalso. apply NC. exists p. split; [exact B|]. split; [exact A|].
        intros r R. destruct (Nat.eq_dec r p) as [->|NE]; [now apply comment_hid|].
        destruct (C r ltac:(lia)) as [W|(n & N & W)]; [now apply comment_hid|eapply space_hid; eauto].
  Qed.

  Lemma follows_gap : forall j p, follows ts j p -> gapR j p.
  Proof.
    intros j p (A & B & C). split; [exact A|]. intros r R. destruct (Nat.eq_dec r p) as [->|NE]; [now apply comment_hid|].
    eapply space_hid. apply C. lia.
  Qed.
  Lemma follows_unique : forall j p q, follows ts j p -> follows ts j q -> p = q.
  Proof.
    intros j p q (A & B & C) (D & E & F). destruct (Nat.lt_trichotomy p q) as [H|[H|H]]; [|exact H|]; exfalso.
    - eapply comment_space; [exact B|apply F; lia].
    - eapply comment_space; [exact E|apply C; lia].
  Qed.

  Lemma inline_loop_spec : forall n j used, length ts - j <= n -> (forall q, gapR j q -> ~ In q used) ->
    (exists p, follows ts j p /\ inline_loop (hidden_right ts j) used = (txt p, p :: used)) \/
    ((forall p, ~ follows ts j p) /\ inline_loop (hidden_right ts j) used = ([], used)).
  Proof.
    induction n as [|n IH]; intros j used L U.
    - right. rewrite hidden_right_end by lia. split; [|reflexivity]. intros p (A & (t & B & _) & _).
      assert (nth_error ts p <> None) by congruence. apply nth_error_Some in H. lia.
    - destruct (nth_error ts (S j)) as [t|] eqn:T.
      2:{ apply nth_error_None in T. right. rewrite hidden_right_end by lia. split; [|reflexivity].
          intros p (A & (t & B & _) & _). assert (nth_error ts p <> None) by congruence. apply nth_error_Some in H. lia. }
      rewrite (hidden_right_S _ _ T). destruct (hidden t) eqn:HT.
      2:{ right. split; [|reflexivity]. intros p F. apply follows_gap in F. destruct F as (A & F).
          assert (hid (S j)) as H by (apply F; lia). apply (hidden_hid _ _ T) in H. congruence. }
      apply (hidden_hid _ _ T) in HT as HH. 
      cbn [inline_loop].
      assert (N : ~ In (S j) used).
      { apply U. split; [lia|]. intros r R. assert (r = S j) as -> by lia. exact HH. }
      apply not_consumed in N. rewrite N. 
      assert (CM : tk_kind t = TLine \/ tk_kind t = TBlock ->
        exists p, follows ts j p /\ (TrimSpace (tk_text t), S j :: used) = (txt p, p :: used)).
      { intro K. exists (S j). split; [|unfold txt; now rewrite T]. split; [lia|]. split; [exists t; auto|]. intros q Q. lia. }
      destruct (tk_kind t) eqn:K; [|left; now apply CM; auto|left; now apply CM; auto|unfold hidden in HT; rewrite K in HT; discriminate].
      destruct (Nat.ltb 0 (newlines (tk_text t))) eqn:B.
      + right. split; [|reflexivity]. apply Nat.ltb_lt in B. intros p (X & Y & Z).
        destruct (Nat.eq_dec p (S j)) as [->|NE].
        * eapply comment_space; [exact Y|]. exists t. split; [exact T|]. split; [exact K|reflexivity].
        * destruct (Z (S j) ltac:(lia)) as (u & V1 & _ & V2). rewrite T in V1. injection V1 as <-.
          unfold newlines in B. lia.
      + apply Nat.ltb_ge in B.
        assert (SP : space_at ts (S j) 0). { exists t. split; [exact T|]. split; [exact K|]. unfold newlines in B. lia. }
        destruct (IH (S j) used ltac:(lia)) as [(p & F & E)|(F & E)].
        * intros q (X & Y). apply U. split; [lia|]. intros r R. destruct (Nat.eq_dec r (S j)) as [->|NE]; [exact HH|]. apply Y. lia.
        * left. exists p. split; [|exact E]. destruct F as (X & Y & Z). split; [lia|]. split; [exact Y|].
          intros q Q. destruct (Nat.eq_dec q (S j)) as [->|NE]; [exact SP|]. apply Z. lia.
        * right. split; [|exact E]. intros p (X & Y & Z). apply (F p).
          destruct (Nat.eq_dec p (S j)) as [->|NE]; [destruct (comment_space _ _ Y SP)|].
          split; [lia|]. split; [exact Y|]. intros q Q. apply Z. lia.
  Qed.
  Lemma has_comment_right : forall n j p, length ts - j <= n -> comment_at ts p -> gapR j p -> has_comment (hidden_right ts j) = true.
  Proof.
    induction n as [|n IH]; intros j p L C (A & B).
    - destruct C as (t & C & _). assert (nth_error ts p <> None) by congruence. apply nth_error_Some in H. lia.
    - destruct (B (S j) ltac:(lia)) as (t & T & K). rewrite (hidden_right_S _ _ T).
      assert (HT : hidden t = true). { apply (hidden_hid _ _ T). exists t. auto. }
      rewrite HT. cbn. apply orb_true_iff. destruct (Nat.eq_dec p (S j)) as [->|NE].
      + left. destruct C as (u & X & Y). rewrite T in X. injection X as <-. unfold is_comment. destruct Y as [-> | ->]; reflexivity.
      + right. apply (IH (S j) p); [lia|exact C|]. split; [lia|]. intros r R. apply B. lia.
  Qed.
  (** What consumeInlineComment does *)
  Lemma inline_spec : forall j used, (forall q, gapR j q -> ~ In q used) ->
    let '(s, used') := consumeInlineComment ts used j in
    text_of ts (follows ts j) s /\ (forall q, In q used' <-> In q used \/ follows ts j q).
  Proof.
    intros j used U. unfold consumeInlineComment.
    assert (NONE : (forall p, ~ follows ts j p) ->
      text_of ts (follows ts j) [] /\ (forall q, In q used <-> In q used \/ follows ts j q)).
    { intro F. split.
      - exists []. split; [|split; [apply asc_nil|reflexivity]]. intro p. split; [intros []|]. intro H. exact (F _ H).
      - intro q. split; [auto|]. intros [I|H]; [exact I|destruct (F _ H)]. }
    destruct (has_comment (hidden_right ts j)) eqn:HC.
    - destruct (inline_loop_spec _ j used (le_n _) U) as [(p & F & E)|(F & E)]; rewrite E; [|now apply NONE].
      split.
      + exists [p]. split; [|split; [apply asc_one|]].
        * intro q. split; [intros [<-|[]]; exact F|]. intro G. left. eapply follows_unique; eauto.
        * rewrite <- join_texts. reflexivity.
      + intro q. cbn [In]. split; [intros [<-|I]; auto|]. intros [I|G]; [auto|]. left. eapply follows_unique; eauto.
    - apply NONE. intros p F. pose proof (follows_gap _ _ F) as G. destruct F as (_ & C & _).
      rewrite (has_comment_right _ j p (le_n _) C G) in HC. discriminate.
  Qed.

  Lemma gapL_unique : forall q i k, gapL q i -> gapL q k -> code i -> code k -> i = k.
  Proof.
    intros q i k (A & B) (C & D) E F. destruct (Nat.lt_trichotomy i k) as [H|[H|H]]; [|exact H|]; exfalso.
    - apply (hid_code i); [apply D; lia|exact E].
    - apply (hid_code k); [apply B; lia|exact F].
  Qed.
  Lemma gapR_unique : forall q i k, gapR i q -> gapR k q -> code i -> code k -> i = k.
  Proof.
    intros q i k (A & B) (C & D) E F. destruct (Nat.lt_trichotomy i k) as [H|[H|H]]; [|exact H|]; exfalso.
    - apply (hid_code k); [apply B; lia|exact F].
    - apply (hid_code i); [apply D; lia|exact E].
  Qed.
  Lemma precedes_gap : forall p i, precedes ts p i -> gapL p i.
  Proof.
    intros p i (A & B & C). split; [exact A|]. intros r R. destruct (Nat.eq_dec r p) as [->|NE]; [now apply comment_hid|].
    destruct (C r ltac:(lia)) as [W|(n & N & W)]; [now apply comment_hid|eapply space_hid; eauto].
  Qed.
  Lemma precedes_not_blank : forall p i r, precedes ts p i -> p <= r < i -> ~ blank r.
  Proof.
    intros p i r (A & B & C) R. destruct (Nat.eq_dec r p) as [->|NE]; [now apply comment_not_blank|].
    destruct (C r ltac:(lia)) as [W|(n & N & W)]; [now apply comment_not_blank|].
    intros (m & M & V). destruct W as (t & W1 & _ & W2), V as (u & V1 & _ & V2). rewrite W1 in V1. injection V1 as <-. lia.
  Qed.
  Lemma run_precedes : forall used i p, comment_at ts p -> run used i p -> precedes ts p i.
  Proof.
    intros used i p C (A & B). split; [exact A|]. split; [exact C|]. intros q Q.
    destruct (B q ltac:(lia)) as ((t & T & K) & NB & _).
    destruct (tk_kind t) eqn:E; [right|left; exists t; auto|left; exists t; auto|congruence].
    exists (newlines (tk_text t)). assert (SP : space_at ts q (newlines (tk_text t))) by (exists t; auto).
    split; [|exact SP]. destruct (le_lt_dec (newlines (tk_text t)) 1) as [L|L]; [exact L|]. exfalso. apply NB. eexists; eauto.
  Qed.

  Lemma text_of_iff : forall P Q s, (forall p, P p <-> Q p) -> text_of ts P s -> text_of ts Q s.
  Proof. intros P Q s E (ps & A & B & C). exists ps. split; [|auto]. intro p. now rewrite A, E. Qed.

  Section Walk.
    Variable ds : list def.
    Hypothesis DO : doc_order ds.
    Hypothesis WP : well_placed ts ds.

    Definition inv (done : list def) (used : list nat) : Prop :=
      (forall q, In q used -> exists d, In d done /\ (gapL q (d_start d) \/ follows ts (d_stop d) q)) /\
      (forall d q, In d done -> follows ts (d_stop d) q -> In q used) /\
      (forall d p, In d done -> precedes ts p (d_start d) -> In (d_start d - 1) used).

    Lemma code_le : forall i, code i -> i <= length ts.
    Proof.
      intros i (t & A & _). assert (nth_error ts i <> None) by congruence. apply nth_error_Some in H. lia.
    Qed.

    (** What a definition gets: DO and WP are about all definitions of the file *)
    Lemma def_step : forall done d rest used, ds = done ++ d :: rest -> inv done used ->
      let '(c, used') := def_comments ts used d in own_comments ts ds d c /\ inv (done ++ [d]) used'.
    Proof.
      intros done d rest used E (I1 & I2 & I3).
      assert (Id : In d ds) by (rewrite E; apply in_or_app; right; now left).
      destruct (WP d Id) as (LE & C1 & C2).
      assert (BEF : forall d', In d' done -> In d' ds /\
        (d_stop d' < d_start d \/ (d_start d' < d_start d /\ d_stop d < d_stop d'))).
      { intros d' I. split; [rewrite E; apply in_or_app; now left|].
        apply in_split in I. destruct I as (a & b & ->). rewrite <- app_assoc in E. cbn in E. exact (DO _ _ _ _ _ E). }
      assert (AFT : forall d', In d' rest -> In d' ds /\
        (d_stop d < d_start d' \/ (d_start d < d_start d' /\ d_stop d' < d_stop d))).
      { intros d' I. split; [rewrite E; apply in_or_app; right; now right|].
        apply in_split in I. destruct I as (a & b & ->). exact (DO _ _ _ _ _ E). }
      unfold def_comments.
      pose proof (head_spec used (d_start d) (code_le _ C1)) as HS.
      destruct (consumeHeadComment ts used (d_start d)) as [h used1]. destruct HS as (H1 & H2 & H3 & H4).
      assert (U : forall q, gapR (d_stop d) q -> ~ In q used1).
      { intros q G I. apply H3 in I. destruct I as [I|I].
        - apply I1 in I. destruct I as (d' & I & J). destruct (BEF d' I) as (Id' & B). destruct (WP d' Id') as (LE' & C1' & C2').
          destruct J as [J|J].
          + destruct J as (J & _), G as (G & _). lia.
          + apply follows_gap in J. pose proof (gapR_unique _ _ _ G J C2 C2'). lia.
        - destruct I as (I & _), G as (G & _). lia. }
      pose proof (inline_spec (d_stop d) used1 U) as IS.
      destruct (consumeInlineComment ts used1 (d_stop d)) as [c used2]. destruct IS as (S1 & S2).
      split.
      - split; cbn [c_head c_inline]; [|exact S1]. revert H1. apply text_of_iff. intro p. split.
        + intros (CP & R). pose proof (run_precedes _ _ _ CP R) as P. split; [exact P|].
          intros (d' & Id' & F). destruct R as (R1 & R2). destruct (R2 p ltac:(lia)) as (_ & _ & NU). apply NU.
          rewrite E in Id'. apply in_app_iff in Id'. destruct Id' as [Id'|[<-|Id']].
          * exact (I2 _ _ Id' F).
          * destruct F as (F & _). lia.
          * destruct (AFT d' Id') as (J & B). destruct (WP d' J) as (LE' & _). destruct F as (F & _). lia.
        + intros (P & NT). pose proof P as (P1 & P2 & P3). split; [exact P2|]. split; [exact P1|]. intros r R.
          pose proof (precedes_gap _ _ P) as (_ & G). split; [apply G; lia|]. split; [eapply precedes_not_blank; eauto|].
          intro IU. apply I1 in IU. destruct IU as (d' & Id' & J). destruct (BEF d' Id') as (J' & B).
          destruct (WP d' J') as (LE' & C1' & C2'). destruct J as [J|J].
          * assert (gapL r (d_start d)) as GR. { split; [lia|]. intros x X. apply G. lia. }
            pose proof (gapL_unique _ _ _ J GR C1' C1). lia.
          * destruct (Nat.eq_dec r p) as [->|NE]; [apply NT; exists d'; auto|].
            destruct J as (J1 & J2 & J3). destruct (le_lt_dec p (d_stop d')) as [L|L].
            -- apply (hid_code (d_stop d')); [apply G; lia|exact C2'].
            -- eapply comment_space; [exact P2|apply J3; lia].
      - split; [|split].
        + intros q I. apply S2 in I. destruct I as [I|I].
          * apply H3 in I. destruct I as [I|I].
            -- destruct (I1 _ I) as (d' & J & K). exists d'. split; [apply in_or_app; now left|exact K].
            -- exists d. split; [apply in_or_app; right; now left|now left].
          * exists d. split; [apply in_or_app; right; now left|now right].
        + intros d' q I F. apply S2. apply in_app_iff in I. destruct I as [I|[<-|[]]]; [left; apply H2; eauto|now right].
        + intros d' p I P. apply S2. left. apply in_app_iff in I. destruct I as [I|[<-|[]]]; [apply H2; eauto|eauto].
    Qed.

    Lemma walk_spec : forall rest done used, ds = done ++ rest -> inv done used ->
      let '(cs, used') := walk ts used rest in Forall2 (own_comments ts ds) rest cs /\ inv ds used'.
    Proof.
      induction rest as [|d rest IH]; intros done used E I; cbn [walk].
      - rewrite app_nil_r in E. subst done. split; [constructor|exact I].
      - pose proof (def_step done d rest used E I) as DS. destruct (def_comments ts used d) as [c used1].
        destruct DS as (O & I'). specialize (IH (done ++ [d]) used1). rewrite <- app_assoc in IH. specialize (IH E I').
        destruct (walk ts used1 rest) as [cs used2]. destruct IH as (A & B). split; [now constructor|exact B].
    Qed.
    Lemma walk_all : let '(cs, used') := walk ts [] ds in Forall2 (own_comments ts ds) ds cs /\ inv ds used'.
    Proof. apply (walk_spec ds [] []); [reflexivity|]. split; [intros q []|split; [intros d q []|intros d p []]]. Qed.

    (** The comment of the file *)
    Lemma file_spec : forall used f, inv ds used -> code f -> (forall i, i < f -> hid i) ->
      text_of ts (fun p => precedes ts p f /\ ~ exists d, In d ds /\ d_start d = f) (fst (consumeHeadComment ts used f)).
    Proof.
      intros used f (I1 & I2 & I3) CF FI. pose proof (head_spec used f (code_le _ CF)) as HS.
      destruct (consumeHeadComment ts used f) as [s used']. cbn [fst]. destruct HS as (H1 & _). revert H1.
      apply text_of_iff. intro p. split.
      - intros (CP & R). pose proof (run_precedes _ _ _ CP R) as P. split; [exact P|]. intros (d & Id & <-).
        destruct R as (R1 & R2). destruct (R2 (d_start d - 1) ltac:(lia)) as (_ & _ & N). apply N. eauto.
      - intros (P & ND). pose proof P as (P1 & P2 & P3). split; [exact P2|]. split; [exact P1|]. intros r R.
        split; [apply FI; lia|]. split; [eapply precedes_not_blank; eauto|]. intro I. apply I1 in I.
        destruct I as (d & Id & J). destruct (WP d Id) as (LE & C1 & C2). destruct J as [J|J].
        + apply ND. exists d. split; [exact Id|]. apply (gapL_unique r); [exact J| |exact C1|exact CF].
          split; [lia|]. intros x X. apply FI. lia.
        + destruct J as (J & _). apply (hid_code (d_stop d)); [apply FI; lia|exact C2].
    Qed.
  End Walk.
End Gaps.
