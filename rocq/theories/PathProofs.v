(** Proofs about paths, the command line and the files that are read and written. *)
From Coq Require Import Strings.String Init.Byte Lia.
From Verif Require Import Base GoStr StrFacts GenEnum GenImport Paths PathSpec.
Import StringSyntax.
Open Scope N_scope.

(** ** The specification as functions *)
Lemma Split_elements : forall p, elements p (Split x2f p).
Proof.
  induction p as [|c p IH]; cbn [Split]; [apply el_one; intros []|]. destruct (beqb_spec c x2f) as [->|N].
  - change (x2f :: p) with ([] ++ [x2f] ++ p). apply el_more; [intros []|exact IH].
  - remember (Split x2f p) as sp eqn:SP. clear SP. destruct IH as [e NE|e p' es NE E].
    + apply el_one. intros [Q|Q]; [now apply N|contradiction].
    + change (c :: e ++ [x2f] ++ p') with ((c :: e) ++ [x2f] ++ p'). apply el_more; [|exact E]. intros [Q|Q]; [now apply N|contradiction].
Qed.
Lemma elements_Split : forall p es, elements p es -> es = Split x2f p.
Proof.
  intros p es H. induction H as [e N|e p es N H IH]; [now rewrite Split_none|]. cbn [app]. rewrite Split_app, Split_none by exact N. now rewrite IH.
Qed.
Definition go (d : list bytes) (e : bytes) : list bytes :=
  if str_eqb e [] || str_eqb e (bs ".") then d else if str_eqb e (bs "..") then removelast d else d ++ [e].
Definition walk (d : list bytes) (es : list bytes) : list bytes := fold_left go es d.
Lemma step_go : forall d e d', step d e d' <-> d' = go d e.
Proof.
  intros d e d'. split.
  - intro H. destruct H as [d|d|d n| |d n N1 N2 N3]; unfold go; try reflexivity.
    + cbn. now rewrite removelast_last.
    + rewrite !str_eqb_ne by assumption. reflexivity.
  - intros ->. unfold go. destruct (str_eqb_spec e []) as [->|N1]; [constructor|]. destruct (str_eqb_spec e (bs ".")) as [->|N2]; [constructor|]. cbn [orb].
    destruct (str_eqb_spec e (bs "..")) as [->|N3]; [|now constructor]. destruct d as [|x d] using rev_ind; [constructor|]. rewrite removelast_last. constructor.
Qed.
Lemma steps_walk : forall es d d', steps d es d' <-> d' = walk d es.
Proof.
  induction es as [|e es IH]; intros d d'; split.
  - intro H. now inversion H.
  - intros ->. constructor.
  - intro H. inversion H as [|? ? d1 ? ? S1 S2]; subst. apply step_go in S1. subst. now apply IH.
  - intros ->. econstructor; [apply step_go; reflexivity|]. now apply IH.
Qed.
Lemma leads_walk : forall d p d', leads d p d' <-> d' = walk d (Split x2f p).
Proof.
  intros. split.
  - intros (es & E & S). apply elements_Split in E. subst. now apply steps_walk.
  - intros ->. exists (Split x2f p). split; [apply Split_elements|now apply steps_walk].
Qed.
Definition loc (cwd : list bytes) (p : bytes) : list bytes := walk (if rooted p then [] else cwd) (Split x2f p).
Lemma rooted_spec : forall p, rooted p = true <-> exists q, p = x2f :: q.
Proof.
  intros [|c p]; cbn; [split; [discriminate|intros (q & Q); discriminate]|]. unfold is_slash. destruct (beqb_spec c x2f) as [->|N].
  - split; [eauto|reflexivity].
  - split; [discriminate|]. intros (q & Q). injection Q as -> _. congruence.
Qed.
Lemma names_loc : forall cwd p d, names cwd p d <-> d = loc cwd p.
Proof.
  intros cwd p d. unfold names, loc. destruct (rooted p) eqn:R.
  - apply rooted_spec in R. destruct R as (q & ->). rewrite <- leads_walk. split.
    + intros [(q' & _ & L)|(N & _)]; [exact L|]. exfalso. now apply (N q).
    + intro L. left. eauto.
  - assert (NR : forall q, p <> x2f :: q) by (intros q ->; cbn in R; discriminate). rewrite <- leads_walk. split.
    + intros [(q & Q & _)|(_ & L)]; [now apply NR in Q|exact L].
    + intro L. right. auto.
Qed.
Lemma walk_app : forall a b d, walk d (a ++ b) = walk (walk d a) b.
Proof. intros. apply fold_left_app. Qed.

(** ** Clean *)
Definition elem (e : bytes) : Prop := e <> [] /\ e <> bs "." /\ ~ In x2f e.
Definition name (e : bytes) : Prop := elem e /\ e <> bs "..".
Lemma go_name : forall d e, name e -> go d e = d ++ [e].
Proof. intros d e ((A & B & C) & D). unfold go. now rewrite !str_eqb_ne. Qed.
Lemma clean_step_elem : forall r st e, Forall elem st -> ~ In x2f e -> Forall elem (clean_step r st e).
Proof.
  intros r st e F N. unfold clean_step. destruct (str_eqb_spec e []); [exact F|]. destruct (str_eqb_spec e (bs ".")); [exact F|]. cbn [orb].
  assert (DD : elem (bs "..")) by (split; [discriminate|split; [discriminate|cbn; intros [Q|[Q|[]]]; discriminate]]).
  destruct (str_eqb_spec e (bs "..")) as [->|ND].
  - destruct st as [|t st]; [destruct r; auto|]. destruct (str_eqb t (bs "..")); [auto|]. now inversion F.
  - constructor; [split; auto|exact F].
Qed.
Lemma clean_step_walk : forall r st e d, Forall elem st -> (r = true -> d = []) ->
  walk d (rev (clean_step r st e)) = go (walk d (rev st)) e.
Proof.
  intros r st e d F R. unfold clean_step. destruct (str_eqb_spec e []) as [->|N1]; [reflexivity|]. destruct (str_eqb_spec e (bs ".")) as [->|N2]; [reflexivity|]. cbn [orb].
  destruct (str_eqb_spec e (bs "..")) as [->|N3].
  - destruct st as [|t st].
    + destruct r; [rewrite (R eq_refl)|]; reflexivity.
    + destruct (str_eqb_spec t (bs "..")) as [->|NT].
      * cbn [rev]. now rewrite !walk_app.
      * cbn [rev]. rewrite walk_app. inversion F as [|? ? T _]; subst. change (walk (walk d (rev st)) [t]) with (go (walk d (rev st)) t).
        rewrite (go_name _ t) by (split; assumption). unfold go. cbn. now rewrite removelast_last.
  - cbn [rev]. now rewrite walk_app.
Qed.
Lemma clean_fold : forall r es st d, Forall elem st -> Forall (fun e => ~ In x2f e) es -> (r = true -> d = []) ->
  Forall elem (fold_left (clean_step r) es st) /\ walk d (rev (fold_left (clean_step r) es st)) = walk (walk d (rev st)) es.
Proof.
  induction es as [|e es IH]; intros st d F N R; cbn [fold_left]; [auto|]. inversion N; subst.
  destruct (IH (clean_step r st e) d) as [A B]; auto using clean_step_elem. split; [exact A|]. rewrite B, clean_step_walk by assumption. reflexivity.
Qed.
Lemma Split_noslash : forall s, Forall (fun e => ~ In x2f e) (Split x2f s).
Proof.
  intro s. pose proof (Split_elements s) as H. induction H; repeat (constructor; [assumption|]); [constructor|assumption].
Qed.
Lemma Split_join' : forall l, l <> [] -> Forall (fun s => ~ In x2f s) l -> Split x2f (join x2f l) = l.
Proof.
  intros l N F. destruct l as [|x l] using rev_ind; [congruence|]. apply Forall_app in F. destruct F as [F X]. inversion X; subst.
  rewrite Split_join by exact F. now rewrite Split_none.
Qed.
Lemma join_head : forall l, Forall elem l -> rooted (join x2f l) = false.
Proof.
  intros l F. destruct F as [|e l (A & B & C) F]; [reflexivity|]. destruct e as [|c e]; [congruence|].
  assert (NC : beqb c x2f = false) by (destruct (beqb_spec c x2f) as [->|]; [exfalso; apply C; now left|reflexivity]).
  destruct l; cbn; exact NC.
Qed.
Lemma elem_noslash : forall l, Forall elem l -> Forall (fun s => ~ In x2f s) l.
Proof. intros l F. eapply Forall_impl; [|exact F]. intros e H. apply H. Qed.
Lemma rev_nil : forall A (l : list A), rev l = [] -> l = [].
Proof. intros A l H. apply (f_equal (@rev A)) in H. now rewrite rev_involutive in H. Qed.
Lemma Forall_rev' : forall A (P : A -> Prop) l, Forall P l -> Forall P (rev l).
Proof. intros. now apply Forall_rev. Qed.
Lemma Clean_rooted : forall s, rooted (Clean s) = rooted s.
Proof.
  intro s. unfold Clean. destruct (rooted s) eqn:R; [reflexivity|].
  destruct (clean_fold false (Split x2f s) [] []) as [F _]; [constructor|apply Split_noslash|discriminate|].
  set (st := fold_left _ _ _) in *. pose proof (join_head (rev st) (Forall_rev' _ _ _ F)) as J. destruct (rev st); [reflexivity|exact J].
Qed.
Lemma walk_nil : forall d, walk d [[]] = d.
Proof. reflexivity. Qed.
Theorem Clean_loc : forall cwd s, loc cwd (Clean s) = loc cwd s.
Proof.
  intros cwd s. unfold loc. rewrite Clean_rooted. unfold Clean. set (d := if rooted s then [] else cwd).
  destruct (clean_fold (rooted s) (Split x2f s) [] d) as [F W]; [constructor|apply Split_noslash|unfold d; now intros ->|].
  set (st := fold_left _ _ _) in *. cbn [rev] in W. change (walk d []) with d in W. rewrite <- W. clear W.
  pose proof (Forall_rev' _ _ _ F) as FR. destruct (rooted s).
  - cbn [Split]. change (beqb x2f x2f) with true. cbv iota. change (walk d ([] :: Split x2f (join x2f (rev st)))) with (walk d (Split x2f (join x2f (rev st)))).
    destruct (rev st) as [|x l] eqn:E; [reflexivity|]. rewrite Split_join'; [reflexivity|discriminate|now apply elem_noslash].
  - destruct (rev st) as [|x l] eqn:E; [reflexivity|]. rewrite Split_join'; [reflexivity|discriminate|now apply elem_noslash].
Qed.
Lemma walk_names : forall es, Forall (fun e => ~ In x2f e) es -> forall d, Forall name d -> Forall name (walk d es).
Proof.
  intros es N. induction N as [|e es H N IH]; intros d F; [exact F|]. cbn. apply IH. unfold go.
  destruct (str_eqb_spec e []); [exact F|]. destruct (str_eqb_spec e (bs ".")); [exact F|]. cbn [orb]. destruct (str_eqb_spec e (bs "..")).
  - destruct d as [|x d] using rev_ind; [constructor|]. rewrite removelast_last. apply Forall_app in F. apply F.
  - apply Forall_app. split; [exact F|]. constructor; [|constructor]. repeat split; assumption.
Qed.
Lemma walk_all_names : forall l, Forall name l -> forall d, walk d l = d ++ l.
Proof.
  intros l F. induction F as [|e l H F IH]; intro d; [now rewrite app_nil_r|]. cbn. rewrite go_name by exact H. fold (walk (d ++ [e]) l). rewrite IH, <- app_assoc. reflexivity.
Qed.
Lemma clean_root_names : forall es st, Forall name st -> Forall (fun e => ~ In x2f e) es -> Forall name (fold_left (clean_step true) es st).
Proof.
  induction es as [|e es IH]; intros st F N; [exact F|]. inversion N; subst. cbn. apply IH; [|assumption]. unfold clean_step.
  destruct (str_eqb_spec e []); [exact F|]. destruct (str_eqb_spec e (bs ".")); [exact F|]. cbn [orb]. destruct (str_eqb_spec e (bs "..")).
  - destruct F as [|t st T F]; [constructor|]. destruct (str_eqb_spec t (bs "..")) as [->|]; [destruct T; congruence|exact F].
  - constructor; [repeat split; assumption|exact F].
Qed.
Lemma Clean_abs : forall s, rooted s = true -> Clean s = abs_path (loc [] s).
Proof.
  intros s R. unfold Clean, abs_path. rewrite R. f_equal. f_equal.
  destruct (clean_fold true (Split x2f s) [] []) as [F W]; [constructor|apply Split_noslash|reflexivity|].
  pose proof (clean_root_names (Split x2f s) [] (Forall_nil _) (Split_noslash s)) as FN. set (st := fold_left _ _ _) in *.
  unfold loc. rewrite R. cbn [rev] in W. change (walk [] []) with (@nil bytes) in W. rewrite <- W. rewrite walk_all_names by (now apply Forall_rev'). reflexivity.
Qed.
Lemma loc_names : forall s cwd, Forall name cwd -> Forall name (loc cwd s).
Proof. intros s cwd F. unfold loc. apply walk_names; [apply Split_noslash|]. destruct (rooted s); [constructor|exact F]. Qed.
Lemma name_noslash : forall l, Forall name l -> Forall (fun s => ~ In x2f s) l.
Proof. intros l F. eapply Forall_impl; [|exact F]. intros e H. apply H. Qed.
Lemma loc_abs : forall cwd d, Forall name d -> loc cwd (abs_path d) = d.
Proof.
  intros cwd d F. unfold loc, abs_path. change (rooted (x2f :: join x2f d)) with true. cbv iota. cbn [Split]. change (beqb x2f x2f) with true. cbv iota.
  change (walk [] ([] :: Split x2f (join x2f d))) with (walk [] (Split x2f (join x2f d))).
  destruct d as [|x d]; [reflexivity|]. rewrite Split_join' by (try discriminate; now apply name_noslash). now rewrite walk_all_names.
Qed.

(** ** Join and Abs *)
Lemma Join_loc : forall cwd a b, a <> [] -> loc cwd (Join a b) = walk (loc cwd a) (Split x2f b).
Proof.
  intros cwd a b N. destruct a as [|c a]; [congruence|]. unfold Join. destruct b as [|x b]; [now rewrite Clean_loc|].
  rewrite Clean_loc. unfold loc. rewrite Split_app, walk_app. reflexivity.
Qed.
Lemma Join_rooted : forall a b, a <> [] -> rooted (Join a b) = rooted a.
Proof. intros a b N. destruct a as [|c a]; [congruence|]. unfold Join. destruct b; now rewrite Clean_rooted. Qed.
Lemma Abs_abs : forall wd s, rooted wd = true -> Abs wd s = abs_path (loc (loc [] wd) s).
Proof.
  intros wd s R. unfold Abs. destruct (rooted s) eqn:RS.
  - rewrite Clean_abs by exact RS. f_equal. unfold loc. now rewrite RS.
  - assert (N : wd <> []) by (intros ->; discriminate).
    assert (J : exists t, Join wd s = Clean t /\ rooted t = true).
    { destruct wd as [|c wd]; [congruence|]. unfold Join. destruct s; eexists; (split; [reflexivity|exact R]). }
    destruct J as (t & J & RT). rewrite J, Clean_abs by exact RT.
    assert (L : loc [] t = loc [] (Join wd s)) by (rewrite J, Clean_loc; reflexivity). rewrite L, Join_loc by exact N.
    f_equal. unfold loc at 2. now rewrite RS.
Qed.

(** ** The last element of a path *)
Lemma HasPrefix_app : forall p s, HasPrefix s p = true <-> exists r, s = p ++ r.
Proof.
  induction p as [|c p IH]; intros s.
  - split; [exists s; reflexivity|]. intros _. destruct s; reflexivity.
  - destruct s as [|d s]; [split; [discriminate|intros (r & R); discriminate]|].
    cbn [HasPrefix]. destruct (beqb_spec c d) as [->|N]; cbn [andb].
    + rewrite IH. split; intros (r & R); exists r; [rewrite R; reflexivity|injection R; auto].
    + split; [discriminate|]. intros (r & R). injection R as R _. congruence.
Qed.
Lemma TrimSuffix_yes : forall a suf, TrimSuffix (a ++ suf) suf = a.
Proof.
  intros a suf. unfold TrimSuffix. rewrite (proj2 (HasPrefix_app _ _)) by (exists (rev a); now rewrite rev_app_distr).
  rewrite rev_app_distr. rewrite <- (rev_length suf), skipn_app, skipn_all, Nat.sub_diag. cbn. apply rev_involutive.
Qed.
Lemma TrimSuffix_no : forall s suf, (forall a, s <> a ++ suf) -> TrimSuffix s suf = s.
Proof.
  intros s suf N. unfold TrimSuffix. destruct (HasPrefix (rev s) (rev suf)) eqn:H; [|reflexivity]. exfalso. apply HasPrefix_app in H. destruct H as (r & R).
  apply (N (rev r)). apply (f_equal (@rev byte)) in R. now rewrite rev_involutive, rev_app_distr, rev_involutive in R.
Qed.
Lemma suffix_dec : forall s suf : bytes, (exists a, s = a ++ suf) \/ forall a, s <> a ++ suf.
Proof.
  intros s suf. destruct (HasPrefix (rev s) (rev suf)) eqn:H.
  - left. apply HasPrefix_app in H. destruct H as (r & R). exists (rev r). apply (f_equal (@rev byte)) in R. now rewrite rev_involutive, rev_app_distr, rev_involutive in R.
  - right. intros a ->. rewrite (proj2 (HasPrefix_app _ _)) in H; [discriminate|]. exists (rev a). now rewrite rev_app_distr.
Qed.
Lemma join_last : forall (d : list bytes) (n : bytes), d <> [] -> join x2f (d ++ [n]) = join x2f d ++ x2f :: n.
Proof.
  induction d as [|x d IH]; intros n N; [congruence|]. destruct d as [|y d]; [reflexivity|].
  change (join x2f ((x :: y :: d) ++ [n])) with (x ++ x2f :: join x2f ((y :: d) ++ [n])). rewrite IH by discriminate.
  change (join x2f (x :: y :: d)) with (x ++ x2f :: join x2f (y :: d)). now rewrite <- app_assoc.
Qed.
Lemma abs_last : forall (d : list bytes) (n : bytes), exists p : bytes, abs_path (d ++ [n]) = p ++ x2f :: n /\ forall m, abs_path (d ++ [m]) = p ++ x2f :: m.
Proof.
  intros d n. destruct d as [|x d].
  - exists []. split; [|intro m]; reflexivity.
  - exists (abs_path (x :: d)). unfold abs_path. split; [|intro m]; now rewrite join_last by discriminate.
Qed.
Lemma Base_abs : forall (d : list bytes) (n : bytes), n <> [] -> ~ In x2f n -> path_Base (abs_path (d ++ [n])) = n.
Proof.
  intros d n N NS. destruct (abs_last d n) as (p & E & _). rewrite E. clear E d. unfold path_Base.
  destruct (p ++ x2f :: n) as [|c r] eqn:Q; [destruct p; discriminate|]. rewrite <- Q. clear Q c r.
  rewrite rev_app_distr. cbn [rev]. rewrite <- app_assoc. cbn [app].
  assert (NR : forall x, In x (rev n) -> is_slash x = false).
  { intros x I. apply in_rev in I. unfold is_slash. destruct (beqb_spec x x2f) as [->|]; [contradiction|reflexivity]. }
  assert (NE : rev n <> []) by (intro Q; apply N; now apply rev_nil).
  destruct (rev n) as [|x l] eqn:RN; [congruence|]. cbn [app drop_while]. rewrite (NR x) by now left.
  rewrite <- (rev_involutive n), RN. f_equal. clear NE RN N NS n.
  change (x :: l ++ x2f :: rev p) with ((x :: l) ++ x2f :: rev p). induction (x :: l) as [|y k IH]; [reflexivity|].
  cbn. rewrite (NR y) by now left. cbn. f_equal. apply IH. intros z I. apply NR. now right.
Qed.

(** ** Clean gives one path for each place *)
Lemma clean_rel : forall es j n, Forall name n -> Forall (fun e => ~ In x2f e) es ->
  exists j' n', Forall name n' /\ fold_left (clean_step false) es (rev n ++ repeat (bs "..") j) = rev n' ++ repeat (bs "..") j'.
Proof.
  induction es as [|e es IH]; intros j n F N; [exists j, n; split; [exact F|reflexivity]|]. inversion N as [|? ? NE N']; subst. cbn [fold_left].
  unfold clean_step at 2. destruct (str_eqb_spec e []) as [->|N1]; [now apply IH|]. destruct (str_eqb_spec e (bs ".")) as [->|N2]; [now apply IH|]. cbn [orb].
  destruct (str_eqb_spec e (bs "..")) as [->|N3].
  - destruct n as [|x n _] using rev_ind.
    + cbn [rev app]. destruct j as [|j]; cbn [repeat].
      * apply (IH 1%nat []); [constructor|exact N'].
      * rewrite str_eqb_refl. apply (IH (Datatypes.S (Datatypes.S j)) []); [constructor|exact N'].
    + rewrite rev_app_distr. cbn [rev app]. apply Forall_app in F. destruct F as [F X]. inversion X as [|? ? (_ & XN) _]; subst.
      rewrite str_eqb_ne by exact XN. now apply IH.
  - specialize (IH j (n ++ [e])). rewrite rev_app_distr in IH. apply IH; [|exact N']. apply Forall_app. split; [exact F|]. constructor; [|constructor]. repeat split; assumption.
Qed.
Definition up (j : nat) (d : list bytes) : list bytes := firstn (length d - j) d.
Lemma walk_up : forall j d, walk d (repeat (bs "..") j) = up j d.
Proof.
  induction j as [|j IH]; intro d; unfold up; cbn [repeat].
  - rewrite Nat.sub_0_r, firstn_all. reflexivity.
  - change (walk d (bs ".." :: repeat (bs "..") j)) with (walk (removelast d) (repeat (bs "..") j)). rewrite IH. unfold up.
    destruct d as [|x d _] using rev_ind; [now destruct j|]. rewrite removelast_last, app_length. cbn [length].
    replace (length d + 1 - Datatypes.S j)%nat with (length d - j)%nat by lia. rewrite firstn_app.
    replace (length d - j - length d)%nat with O by lia. cbn. now rewrite app_nil_r.
Qed.
Lemma rel_form : forall s, rooted s = false -> exists j n, Forall name n /\
  Clean s = match repeat (bs "..") j ++ n with [] => bs "." | l => join x2f l end /\ forall d, loc d s = up j d ++ n.
Proof.
  intros s R. destruct (clean_rel (Split x2f s) O [] (Forall_nil _) (Split_noslash s)) as (j & n & F & E). cbn [rev repeat app] in E.
  assert (RR : rev (rev n ++ repeat (bs "..") j) = repeat (bs "..") j ++ n).
  { rewrite rev_app_distr, rev_involutive. f_equal. clear. induction j as [|j IH]; [reflexivity|]. cbn [repeat rev]. rewrite IH.
    clear. induction j as [|j IH]; [reflexivity|]. cbn [repeat app]. now rewrite IH. }
  exists j, n. split; [exact F|]. split.
  - unfold Clean. rewrite R, E, RR. now destruct (repeat (bs "..") j ++ n).
  - intro d. destruct (clean_fold false (Split x2f s) [] d) as [_ W]; [constructor|apply Split_noslash|discriminate|]. cbn [rev] in W. change (walk d []) with d in W.
    unfold loc. rewrite R. rewrite <- W, E, RR, walk_app, walk_up. now rewrite walk_all_names.
Qed.
Lemma up_length : forall j d, length (up j d) = (length d - j)%nat.
Proof. intros. unfold up. rewrite firstn_length. lia. Qed.
Lemma firstn_repeat : forall A (x : A) k L, (k <= L)%nat -> firstn k (repeat x L) = repeat x k.
Proof. induction k as [|k IH]; intros L H; [reflexivity|]. destruct L as [|L]; [lia|]. cbn. now rewrite IH by lia. Qed.
Definition longest (l : list bytes) : nat := fold_right (fun s n => Nat.max (length s) n) O l.
Lemma longest_le : forall l s, In s l -> (length s <= longest l)%nat.
Proof. unfold longest. induction l as [|x l IH]; intros s H; [destruct H|]. cbn [fold_right]. destruct H as [<-|H]; [lia|]. apply IH in H. lia. Qed.
Lemma repeat_prefix : forall (x : bytes) a b n m, ~ In x n -> ~ In x m -> repeat x a ++ n = repeat x b ++ m -> a = b /\ n = m.
Proof.
  intros x a. induction a as [|a IH]; intros [|b] n m N M E; cbn in E.
  - auto.
  - subst. exfalso. apply N. now left.
  - subst. exfalso. apply M. now left.
  - injection E as E. destruct (IH b n m N M E) as [-> ->]. auto.
Qed.
Lemma long_name : forall k, exists x, name x /\ (length x > k)%nat.
Proof.
  intro k. exists (repeat x61 (3 + k)). rewrite repeat_length. split; [|lia]. split; [split; [discriminate|split; [discriminate|]]|discriminate].
  intro H. apply repeat_spec in H. discriminate.
Qed.
Theorem Clean_same : forall s t, Clean s = Clean t <-> forall d, Forall name d -> loc d s = loc d t.
Proof.
  intros s t. split.
  - intros E d _. rewrite <- (Clean_loc d s), <- (Clean_loc d t). now rewrite E.
  - intro H. destruct (rooted s) eqn:RS, (rooted t) eqn:RT.
    + rewrite (Clean_abs s RS), (Clean_abs t RT). now rewrite (H [] (Forall_nil _)).
    + exfalso. destruct (rel_form t RT) as (j & n & F & _ & L). destruct (long_name O) as (x & NX & _).
      set (k := (j + length (loc [] s) + 1)%nat).
      assert (FX : Forall name (repeat x k)) by (apply Forall_forall; intros y I; apply repeat_spec in I; now subst).
      specialize (H _ FX). rewrite L in H. apply (f_equal (@length bytes)) in H. rewrite app_length, up_length, repeat_length in H.
      assert (LR : loc (repeat x k) s = loc [] s) by (unfold loc; now rewrite RS). rewrite LR in H. unfold k in H. lia.
    + exfalso. destruct (rel_form s RS) as (j & n & F & _ & L). destruct (long_name O) as (x & NX & _).
      set (k := (j + length (loc [] t) + 1)%nat).
      assert (FX : Forall name (repeat x k)) by (apply Forall_forall; intros y I; apply repeat_spec in I; now subst).
      specialize (H _ FX). rewrite L in H. apply (f_equal (@length bytes)) in H. rewrite app_length, up_length, repeat_length in H.
      assert (LR : loc (repeat x k) t = loc [] t) by (unfold loc; now rewrite RT). rewrite LR in H. unfold k in H. lia.
    + destruct (rel_form s RS) as (j & n & F & C & L). destruct (rel_form t RT) as (j' & n' & F' & C' & L').
      destruct (long_name (longest n + longest n')) as (x & NX & LX). set (k := (j + j')%nat).
      assert (FX : Forall name (repeat x k)) by (apply Forall_forall; intros y I; apply repeat_spec in I; now subst).
      specialize (H _ FX). rewrite L, L' in H. unfold up in H. rewrite repeat_length in H. rewrite !firstn_repeat in H by (unfold k; lia).
      apply repeat_prefix in H.
      * destruct H as [J ->]. assert (j = j') by (unfold k in J; lia). subst j'. rewrite C, C'. reflexivity.
      * intro I. apply longest_le in I. lia.
      * intro I. apply longest_le in I. lia.
Qed.
