(** Proofs about the search for the wrappers of oneofs. *)
From Coq Require Import List Arith Bool NArith ZArith Lia Strings.String Sorting.Permutation.
From Verif Require Import Base Value Desc GoStr StrFacts Parse ParseProofs WrapSearch WrapSpec.
Import ListNotations StringSyntax.
Open Scope nat_scope.

Lemma field_none s fs : field_by_name s fs = None <-> ~ In s (map fst fs).
Proof.
  induction fs as [|[n v] r IH]; cbn; [tauto|]. destruct (str_eqb_spec n s) as [->|N].
  - split; [discriminate|]. intros H. destruct H. now left.
  - rewrite IH. split; [intros H [Q|Q]; auto|intros H Q; apply H; now right].
Qed.
Lemma field_some s fs v : field_by_name s fs = Some v <-> exists a b, fs = a ++ (s, v) :: b /\ ~ In s (map fst a).
Proof.
  induction fs as [|[n w] r IH]; cbn.
  - split; [discriminate|]. intros (a & b & Q & _). destruct a; discriminate.
  - destruct (str_eqb_spec n s) as [->|N].
    + split; [intro H; injection H as ->; exists [], r; auto|]. intros (a & b & Q & Na). destruct a as [|[m u] a]; [injection Q as -> ->; reflexivity|].
      injection Q as -> -> _. destruct Na. now left.
    + rewrite IH. split.
      * intros (a & b & -> & Na). exists ((n, w) :: a), b. split; [reflexivity|]. intros [Q|Q]; auto.
      * intros (a & b & Q & Na). destruct a as [|[m u] a]; [injection Q as -> _ _; now destruct N|]. injection Q as -> -> ->.
        exists a, b. split; [reflexivity|]. intros K. apply Na. now right.
Qed.
Lemma elem_leads h : forall n v w, elem h n v = Some w -> leads h v w.
Proof.
  induction n as [|n IH]; intros v w; destruct v as [[a|]|fs|l|]; cbn; intro H; try discriminate; try (injection H as <-; constructor).
  constructor. now apply IH.
Qed.
Lemma leads_one h v w : leads h v w -> forall u, leads h v u -> u = w.
Proof. induction 1; intros u U; inversion U; subst; auto. Qed.
Lemma leads_elem h v w : leads h v w -> exists N, forall n, N <= n -> elem h n v = Some w.
Proof.
  induction 1 as [|a w L (N & IH)|fs|l|]; try (exists 0; intros n _; destruct n; reflexivity).
  exists (S N). intros [|n] B; [lia|]. cbn. apply IH. lia.
Qed.

Definition loop (h : heap) (n d : nat) := fix loop (l : list (bytes * gval)) : wres :=
  match l with
  | [] => RGot None
  | (_, f) :: r => match searchField h n d f with RGot None => loop r | x => x end
  end.
Lemma search_S h n d v : searchField h n (S d) v =
  match elem h n v with
  | None => RMore
  | Some (WStruct fs) => match field_by_name fieldOneofWrappers fs with Some (WWraps l) => RGot l | Some _ => RBad | None => loop h n d fs end
  | Some _ => RGot None
  end.
Proof. reflexivity. Qed.

(** Places below a struct *)
Lemma holds_below h v fs i s f p l : leads h v (WStruct fs) -> ~ has_wrappers fs -> nth_error fs i = Some (s, f) -> holds h f p l -> holds h v (i :: p) l.
Proof. intros L N E (w & gs & A & B & C). exists w, gs. split; [econstructor; eauto|]. auto. Qed.
Lemma holds_inv h v fs p l : leads h v (WStruct fs) -> ~ has_wrappers fs -> holds h v p l ->
  exists i s f q, p = i :: q /\ nth_error fs i = Some (s, f) /\ holds h f q l.
Proof.
  intros L N (w & gs & A & B & C & D). destruct A as [v|v fs' i s f p w L' N' E A].
  - pose proof (leads_one _ _ _ L _ B) as Q. injection Q as ->. now destruct N.
  - pose proof (leads_one _ _ _ L _ L') as Q. injection Q as ->. exists i, s, f, p. split; [reflexivity|]. split; [exact E|]. exists w, gs. auto.
Qed.
Lemma holds_here h v fs p l : leads h v (WStruct fs) -> has_wrappers fs -> holds h v p l -> p = [].
Proof.
  intros L N (w & gs & A & _). destruct A as [v|v fs' i s f p w L' N' E A]; [reflexivity|]. pose proof (leads_one _ _ _ L _ L') as Q. injection Q as ->. now destruct N'.
Qed.
Lemma holds_struct h v p l : holds h v p l -> exists fs, leads h v (WStruct fs).
Proof. intros (w & gs & A & B & _). destruct A; eauto. Qed.
Lemma slices_below h v d fs i s f : slices h v (S d) -> leads h v (WStruct fs) -> ~ has_wrappers fs -> nth_error fs i = Some (s, f) -> slices h f d.
Proof.
  intros Sl L N E p w gs B A Lw Hw. destruct (Sl (i :: p) w gs) as (l & Hl); [cbn; lia|econstructor; eauto|exact Lw|exact Hw|].
  destruct (holds_inv _ _ _ _ _ L N Hl) as (i' & s' & f' & q & Q & E' & H). injection Q as <- <-. rewrite E in E'. injection E' as <- <-. eauto.
Qed.

Definition answer (h : heap) (v : gval) (d : nat) (r : wres) : Prop :=
  match r with
  | RMore => True
  | RBad => False
  | RGot (Some l) => first_at h v d l
  | RGot None => forall p l, length p < d -> ~ holds h v p (Some l)
  end.
Lemma search_ok h n : forall d v, slices h v d -> answer h v d (searchField h n d v).
Proof.
  induction d as [|d IH]; intros v Sl; [intros p l B; lia|]. rewrite search_S. destruct (elem h n v) as [w|] eqn:Ev; [|exact Logic.I].
  apply elem_leads in Ev. destruct w as [a|fs|l0|]; try (intros p l B H; apply holds_struct in H as (fs & L); pose proof (leads_one _ _ _ Ev _ L) as Q; discriminate Q).
  destruct (field_by_name fieldOneofWrappers fs) as [w|] eqn:Ef.
  - assert (Hw : has_wrappers fs). { destruct (in_dec (list_eq_dec Byte.byte_eq_dec) fieldOneofWrappers (map fst fs)) as [H|H]; [exact H|]. apply field_none in H. congruence. }
    destruct (Sl [] v fs) as (l & Hl); [cbn; lia|constructor|exact Ev|exact Hw|].
    assert (Here : forall k, holds h v [] k -> w = WWraps k).
    { intros k (u & gs & A & B & _ & a & b & Eg & Na). inversion A; subst u. pose proof (leads_one _ _ _ Ev _ B) as Q. injection Q as ->.
      assert (X : field_by_name fieldOneofWrappers fs = Some (WWraps k)) by (apply field_some; eauto). congruence. }
    rewrite (Here _ Hl). destruct l as [l|].
    + exists []. split; [cbn; lia|]. split; [exact Hl|]. intros q k _ Hq. left. exact (holds_here _ _ _ _ _ Ev Hw Hq).
    + intros p k B H. pose proof (holds_here _ _ _ _ _ Ev Hw H) as ->. pose proof (Here _ H) as Q. rewrite (Here _ Hl) in Q. discriminate Q.
  - assert (Nw : ~ has_wrappers fs) by (now apply field_none).
    assert (G : forall pre l, fs = pre ++ l -> (forall i s f, nth_error pre i = Some (s, f) -> forall q k, length q < d -> ~ holds h f q (Some k)) ->
      answer h v (S d) (loop h n d l)).
    { intros pre l. revert pre. induction l as [|[s f] l IHl]; intros pre Efs Pre.
      - cbn [loop]. intros p k B H. destruct (holds_inv _ _ _ _ _ Ev Nw H) as (i & s & f & q & -> & E & Hq). cbn in B. rewrite Efs, app_nil_r in E. apply (Pre i s f E q k); [lia|exact Hq].
      - cbn [loop]. assert (Ei : nth_error fs (length pre) = Some (s, f)) by (rewrite Efs, nth_error_app2, Nat.sub_diag by lia; reflexivity).
        pose proof (IH f (slices_below _ _ _ _ _ _ _ Sl Ev Nw Ei)) as A. destruct (searchField h n d f) as [| |[k|]]; cbn [answer] in A |- *; [exact Logic.I|exact A| |].
        + destruct A as (p & B & H & Fi). exists (length pre :: p). split; [cbn; lia|]. split; [eapply holds_below; eauto|].
          intros q k' B' H'. destruct (holds_inv _ _ _ _ _ Ev Nw H') as (i & s' & f' & q' & -> & E' & Hq'). cbn in B'.
          destruct (Nat.lt_trichotomy i (length pre)) as [Lt|[->|Gt]].
          * exfalso. rewrite Efs, nth_error_app1 in E' by exact Lt. apply (Pre i s' f' E' q' k'); [lia|exact Hq'].
          * rewrite Ei in E'. injection E' as <- <-. destruct (Fi q' k') as [->|Bf]; [lia|exact Hq'|now left|right; now constructor].
          * right. now constructor.
        + apply (IHl (pre ++ [(s, f)])); [rewrite <- app_assoc; exact Efs|]. intros i s' f' E q k B H. destruct (Nat.lt_ge_cases i (length pre)) as [Lt|Ge].
          * rewrite nth_error_app1 in E by exact Lt. exact (Pre i s' f' E q k B H).
          * rewrite nth_error_app2 in E by exact Ge. destruct (i - length pre) as [|j]; [|destruct j; discriminate]. injection E as <- <-. exact (A q k B H). }
    apply (G [] fs eq_refl). intros [|i] s f E; discriminate.
Qed.
Lemma ends_below h v d fs i s f : ends h v (S d) -> leads h v (WStruct fs) -> ~ has_wrappers fs -> nth_error fs i = Some (s, f) -> ends h f d.
Proof. intros Sl L N E p w B A. apply (Sl (i :: p) w); [cbn; lia|econstructor; eauto]. Qed.
Lemma search_ends h : forall d v, ends h v d -> exists N r, r <> RMore /\ forall n, N <= n -> searchField h n d v = r.
Proof.
  induction d as [|d IH]; intros v En; [exists 0, (RGot None); split; [discriminate|reflexivity]|].
  destruct (En [] v) as (w & L); [cbn; lia|constructor|]. destruct (leads_elem _ _ _ L) as (N & HN).
  destruct w as [a|fs|l|]; try (exists N, (RGot None); split; [discriminate|]; intros n B; rewrite search_S, (HN n B); reflexivity).
  destruct (field_by_name fieldOneofWrappers fs) as [w|] eqn:Ef.
  - destruct w as [| |l|]; try (exists N, RBad; split; [discriminate|]; intros n B; rewrite search_S, (HN n B), Ef; reflexivity).
    exists N, (RGot l). split; [discriminate|]. intros n B. rewrite search_S, (HN n B), Ef. reflexivity.
  - assert (Nw : ~ has_wrappers fs) by (now apply field_none).
    assert (G : forall l pre, fs = pre ++ l -> exists M r, r <> RMore /\ forall n, M <= n -> loop h n d l = r).
    { induction l as [|[s f] l IHl]; intros pre Efs; [exists 0, (RGot None); split; [discriminate|reflexivity]|].
      assert (Ei : nth_error fs (length pre) = Some (s, f)) by (rewrite Efs, nth_error_app2, Nat.sub_diag by lia; reflexivity).
      destruct (IH f (ends_below _ _ _ _ _ _ _ En L Nw Ei)) as (M & r & Nr & Hr). destruct (IHl (pre ++ [(s, f)])) as (M' & r' & Nr' & Hr'); [rewrite <- app_assoc; exact Efs|].
      exists (M + M'), (match r with RGot None => r' | x => x end). split; [destruct r as [| |[|]]; auto|]. intros n B. cbn [loop]. rewrite (Hr n ltac:(lia)), (Hr' n ltac:(lia)). destruct r as [| |[|]]; reflexivity. }
    destruct (G fs [] eq_refl) as (M & r & Nr & Hr). exists (N + M), r. split; [exact Nr|]. intros n B. rewrite search_S, (HN n ltac:(lia)), Ef. apply Hr. lia.
Qed.

(* ---------- the descriptor ---------- *)
Lemma wrappers_in os : forall l fs, parse_wrappers os l = POk fs -> forall w g j, In (w, g) l -> find_oneof w os = POk (Some j) ->
  exists pf, In pf fs /\ f_oneof (pf_desc pf) = Some w /\ f_slot (pf_desc pf) = j.
Proof.
  induction l as [|[w0 g0] l IH]; intros fs H w g j J Fo; [destruct J|]. cbn [parse_wrappers] in H.
  destruct (parse_wrapper os w0 g0) as [a| |] eqn:Pw; cbn [pbind] in H; try discriminate.
  destruct (parse_wrappers os l) as [b| |]; cbn [pbind] in H; try discriminate. injection H as <-. destruct J as [Q|J].
  - injection Q as -> ->. unfold parse_wrapper in Pw. rewrite Fo in Pw. destruct g as [|x [|]]; try discriminate. destruct (str_eqb (gf_tag x) []); [discriminate|].
    destruct (parse_pfield j (Some w) x) as [pf|] eqn:Pp; [|discriminate]. injection Pw as <-. apply parse_pfield_spec in Pp as (p & _ & _ & ->).
    eexists. split; [now left|]. split; reflexivity.
  - destruct (IH b eq_refl w g j J Fo) as (pf & I1 & I2). exists pf. split; [apply in_or_app; now right|exact I2].
Qed.
Lemma describe_members d s : describe d = POk s ->
  (forall y w, In y (sd_fields s) -> f_oneof y = Some w -> In w (map fst (d_wrappers d))) /\
  (forall fs os w g j, parse_fields 0 (d_fields d) = Some (fs, os) -> In (w, g) (d_wrappers d) -> find_oneof w os = POk (Some j) ->
     exists y, In y (sd_fields s) /\ f_oneof y = Some w /\ f_slot y = j).
Proof.
  intros H. unfold describe in H. destruct (parse_struct d) as [l| |] eqn:Ps; cbn [pbind] in H; try discriminate.
  destruct (finalize_fields l) as [fl|] eqn:Ff; [|discriminate]. injection H as <-. cbn [sd_fields]. apply finalize_fields_spec in Ff. split.
  - intros y w J O. destruct (parse_struct_spec _ _ Ps) as (_ & _ & Fo).
    assert (X : exists pf, In pf l /\ finalize_field (pf_key pf) (pf_val pf) (pf_desc pf) = Some y).
    { clear - Ff J. induction Ff as [|a b l l' H R IH]; [destruct J|]. destruct J as [<-|J]; [exists a; split; [now left|exact H]|]. destruct (IH J) as (pf & A & B). exists pf. split; [now right|exact B]. }
    destruct X as (pf & Jp & Fy). apply finalize_field_spec in Fy as (_ & _ & _ & Q & _). rewrite O in Q.
    destruct (Fo pf Jp) as [j g N T P|j g w' h alts N T E I A P]; apply parse_pfield_spec in P as (p & _ & _ & ->); cbn [pf_desc f_oneof] in Q; [discriminate|].
    injection Q as <-. now apply (in_map fst) in I.
  - intros fs os w g j Pf J Fo. unfold parse_struct in Ps. rewrite Pf in Ps. destruct os as [|o os]; [discriminate Fo|].
    destruct (parse_wrappers (o :: os) (d_wrappers d)) as [fs'| |] eqn:Pw; cbn [pbind] in Ps; try discriminate.
    destruct (wrappers_in _ _ _ Pw w g j J Fo) as (pf & Jp & Op & Sp).
    assert (Jl : In pf l).
    { assert (Z : In pf (sort_pfields (fs ++ fs'))) by (eapply Permutation_in; [apply sort_pfields_perm|apply in_or_app; now right]).
      destruct (sort_pfields (fs ++ fs')) as [|f r]; [destruct Z|]. destruct (_ <? _)%Z; [discriminate|]. destruct (build_tables _); [|discriminate]. injection Ps as <-. exact Z. }
    clear - Ff Jl Op Sp. induction Ff as [|a b l l' H R IH]; [destruct Jl|]. destruct Jl as [->|Jl].
    + exists b. split; [now left|]. apply finalize_field_spec in H as (_ & S1 & _ & S2 & _). split; congruence.
    + destruct (IH Jl) as (y & A & B). exists y. split; [now right|exact B].
Qed.
