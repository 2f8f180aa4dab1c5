(** Proofs about the parsing of directives. *)
From Coq Require Import Strings.String Init.Byte Lia.
From Verif Require Import Base GoStr StrFacts GenField Directive DirectiveSpec.
Import StringSyntax.
Open Scope nat_scope.

Lemma Cut_cases : forall c s,
  (~ In c s /\ Cut c s = (s, [])) \/
  (exists a b, s = a ++ c :: b /\ ~ In c a /\ Cut c s = (a, b)).
Proof.
  intros c. induction s as [|x s IH]; cbn [Cut].
  - left. split; [intros []|reflexivity].
  - destruct (beqb_spec x c) as [->|N].
    + right. exists [], s. split; [reflexivity|]. split; [intros []|reflexivity].
    + destruct IH as [[NI ->]|(a & b & -> & NI & ->)].
      * left. split; [intros [Q|I]; auto|reflexivity].
      * right. exists (x :: a), b. split; [reflexivity|]. split; [intros [Q|I]; auto|reflexivity].
Qed.
Lemma HasPrefix_spec : forall p s, HasPrefix s p = true <-> exists t, s = p ++ t.
Proof.
  induction p as [|c p IH]; intros s.
  - split; [intros _; exists s; reflexivity|destruct s; reflexivity].
  - destruct s as [|d s]; [split; [discriminate|intros (t & Q); discriminate]|].
    cbn [HasPrefix]. destruct (beqb_spec c d) as [->|N]; cbn [andb].
    + rewrite IH. split; intros (t & Q); exists t; [now rewrite Q|now injection Q].
    + split; [discriminate|]. intros (t & Q). injection Q as -> _. congruence.
Qed.

Lemma parse_names_spec : forall fuel s, length s <= fuel -> exists ps, parts_of x2c s ps /\ names_in ps (parse_names fuel s).
Proof.
  induction fuel as [|k IH]; intros s L.
  - destruct s; [|cbn in L; lia]. exists [[]]. split; [constructor; intros []|]. apply ni_blank; [reflexivity|constructor].
  - cbn [parse_names]. destruct s as [|x s'].
    + exists [[]]. split; [constructor; intros []|]. apply ni_blank; [reflexivity|constructor].
    + set (s := x :: s' : bytes) in *. destruct (Cut_cases x2c s) as [[NI ->]|(a & b & Q & NI & ->)].
      * exists [s]. split; [now constructor|]. replace (parse_names k []) with (@nil bytes) by (destruct k; reflexivity).
        rewrite app_nil_r. destruct (TrimSpace s) as [|y t] eqn:T.
        -- apply ni_blank; [exact T|constructor].
        -- rewrite <- T. apply ni_name; [congruence|constructor].
      * rewrite Q in *. destruct (IH b) as (ps & P & N).
        { rewrite app_length in L. cbn in L. lia. }
        exists (a :: ps). split; [now constructor|]. destruct (TrimSpace a) as [|y t] eqn:T; cbn [app].
        -- now apply ni_blank.
        -- rewrite <- T. apply ni_name; [congruence|exact N].
Qed.
Lemma line_spec : forall s,
  line_directives s (if HasPrefix (TrimSpace s) prutalDirectivePrefix
           then let t := skipn (length prutalDirectivePrefix) (TrimSpace s) in parse_names (length t) t
           else []).
Proof.
  intros s. destruct (HasPrefix (TrimSpace s) prutalDirectivePrefix) eqn:H.
  - apply HasPrefix_spec in H as (t & Q). rewrite Q. rewrite skipn_app.
    replace (length prutalDirectivePrefix - length prutalDirectivePrefix) with 0 by lia.
    rewrite skipn_all. cbn [app skipn]. destruct (parse_names_spec (length t) t (Nat.le_refl _)) as (ps & P & N).
    eapply ld_names; eassumption.
  - apply ld_other. intros t Q. assert (X : HasPrefix (TrimSpace s) prutalDirectivePrefix = true); [|congruence].
    apply HasPrefix_spec. eauto.
Qed.
Lemma blank_line : line_directives [] [].
Proof. apply ld_other. intros t Q. discriminate. Qed.
Lemma parse_lines_spec : forall fuel s, length s <= fuel ->
  exists ls dd, parts_of x0a s ls /\ Forall2 line_directives ls dd /\ parse_lines fuel s = concat dd.
Proof.
  assert (Z : exists ls dd, parts_of x0a [] ls /\ Forall2 line_directives ls dd /\ [] = concat dd).
  { exists [[]], [[]]. split; [constructor; intros []|]. split; [constructor; [apply blank_line|constructor]|reflexivity]. }
  induction fuel as [|k IH]; intros s L.
  - destruct s; [|cbn in L; lia]. exact Z.
  - cbn [parse_lines]. destruct s as [|x s']; [exact Z|].
    set (s := x :: s' : bytes) in *. destruct (Cut_cases x0a s) as [[NI ->]|(a & b & Q & NI & ->)].
    + exists [s], [if HasPrefix (TrimSpace s) prutalDirectivePrefix
           then let t := skipn (length prutalDirectivePrefix) (TrimSpace s) in parse_names (length t) t
           else []].
      split; [now constructor|]. split; [constructor; [apply line_spec|constructor]|].
      replace (parse_lines k []) with (@nil bytes) by (destruct k; reflexivity). reflexivity.
    + rewrite Q in *. destruct (IH b) as (ls & dd & P & F & ->).
      { rewrite app_length in L. cbn in L. lia. }
      exists (a :: ls), ((if HasPrefix (TrimSpace a) prutalDirectivePrefix
           then let t := skipn (length prutalDirectivePrefix) (TrimSpace a) in parse_names (length t) t
           else []) :: dd).
      split; [now constructor|]. split; [constructor; [apply line_spec|exact F]|reflexivity].
Qed.

(** The specification determines the directives. *)
Lemma parts_of_fun : forall sep s l l', parts_of sep s l -> parts_of sep s l' -> l = l'.
Proof.
  intros sep s l l' H. revert l'. induction H as [p NI|p s l NI H IH]; intros l' H'.
  - inversion H' as [q NI'|q s' m NI' H'' Q]; subst; [reflexivity|]. exfalso. apply NI. rewrite in_app_iff. right. now left.
  - inversion H' as [q NI' Q|q s' m NI' H'' Q].
    + subst. exfalso. apply NI'. rewrite in_app_iff. right. now left.
    + assert (X : q = p /\ s' = s).
      { clear -NI NI' Q. revert q NI' Q. induction p as [|x p IH]; intros [|y q] NI' Q; cbn in Q.
        - injection Q as ->. auto.
        - injection Q as Q1 Q2. subst. exfalso. apply NI'. now left.
        - injection Q as Q1 Q2. subst. exfalso. apply NI. now left.
        - injection Q as Q1 Q2. subst. destruct (IH (fun I => NI (or_intror I)) q (fun I => NI' (or_intror I)) Q2) as [-> ->]. auto. }
      destruct X as [-> ->]. f_equal. now apply IH.
Qed.
Lemma names_in_fun : forall l n m, names_in l n -> names_in l m -> n = m.
Proof.
  intros l n m H. revert m. induction H as [|p l ns T H IH|p l ns T H IH]; intros m H'; inversion H'; subst; try congruence; auto.
  f_equal. auto.
Qed.
Lemma line_directives_fun : forall s n m, line_directives s n -> line_directives s m -> n = m.
Proof.
  intros s n m [N|t ps ns T P N] [N'|t' ps' ns' T' P' N']; try reflexivity.
  - now destruct (N t').
  - now destruct (N' t).
  - rewrite T in T'. apply app_inv_head in T'. subst t'. rewrite (parts_of_fun _ _ _ _ P' P) in N'. eapply names_in_fun; eassumption.
Qed.
Lemma comment_directives_fun : forall s n m, comment_directives s n -> comment_directives s m -> n = m.
Proof.
  intros s n m [ls dd P F] [ls' dd' P' F']. rewrite (parts_of_fun _ _ _ _ P' P) in F'. f_equal. clear -F F'.
  revert dd' F'. induction F as [|l d ls dd H F IH]; intros dd' F'; inversion F'; subst; [reflexivity|].
  f_equal; [eapply line_directives_fun; eassumption|auto].
Qed.
Lemma dir_parse_spec : forall s dd, comment_directives s dd <-> dir_parse s = dd.
Proof.
  intros s dd. destruct (parse_lines_spec (length s) s (Nat.le_refl _)) as (ls & ds & P & F & Q).
  assert (C : comment_directives s (dir_parse s)) by (unfold dir_parse; rewrite Q; econstructor; eassumption).
  split; [intro H; eapply comment_directives_fun; eassumption|now intros <-].
Qed.

(** ** Options *)
Lemma opt_get_last : forall oo n v, opt_get oo n = Some v <-> exists a b, oo = a ++ (n, v) :: b /\ ~ In n (map fst b).
Proof.
  induction oo as [|[m w] r IH]; intros n v; cbn [opt_get].
  - split; [discriminate|]. intros (a & b & Q & _). destruct a; discriminate.
  - split.
    + destruct (opt_get r n) as [u|] eqn:G.
      * intros [= ->]. apply IH in G as (a & b & -> & NI). exists ((m, w) :: a), b. auto.
      * destruct (str_eqb_spec m n) as [->|]; [|discriminate]. intros [= ->]. exists [], r. split; [reflexivity|].
        intro I. apply in_map_iff in I as ([x y] & Q & I). cbn in Q. subst x.
        assert (K : exists u, opt_get r n = Some u).
        { clear -I. induction r as [|[m w] r IH]; [destruct I|]. cbn [opt_get]. destruct I as [[= -> ->]|I].
          - destruct (opt_get r n); [eauto|]. rewrite str_eqb_refl. eauto.
          - destruct (IH I) as (u & ->). eauto. }
        destruct K as (u & K). congruence.
    + intros ([|[x y] a] & b & Q & NI).
      * injection Q as -> -> ->. assert (G : opt_get b n = None).
        { clear IH. induction b as [|[m w] r IH]; [reflexivity|]. cbn [opt_get map fst In] in *. rewrite IH by tauto.
          rewrite str_eqb_ne; [reflexivity|]. intros ->. apply NI. now left. }
        rewrite G, str_eqb_refl. reflexivity.
      * injection Q as -> -> ->. destruct (IH n v) as [_ IH']. rewrite IH'; [reflexivity|]. eauto.
Qed.
Lemma opt_get_absent : forall oo n, opt_get oo n = None <-> ~ In n (map fst oo).
Proof.
  induction oo as [|[m w] r IH]; intros n; cbn [opt_get map fst In]; [tauto|].
  specialize (IH n). destruct (opt_get r n) as [u|].
  - split; [discriminate|]. intro H. exfalso. destruct IH as [_ IH]. specialize (IH (fun I => H (or_intror I))). discriminate.
  - destruct (str_eqb_spec m n) as [->|NE]; [|tauto]. split; [discriminate|tauto].
Qed.
