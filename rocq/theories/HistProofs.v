(** Proofs about descriptor parsing with its caches. *)
From Coq Require Import Bool Lia.
From Verif Require Import Base Wire Coder MapTables Value Desc GoStr TagParse Parse StrFacts Hist HistSpec.
Open Scope nat_scope.

(** * Types as keys *)
Fixpoint gotype_ind' (P : gotype -> Prop) (Ps : forall k, P (TScalar k)) (P1 : P TString) (P2 : P TBytes) (P3 : forall i, P (TStruct i))
  (P4 : forall t, P t -> P (TPtr t)) (P5 : forall t, P t -> P (TSlice t)) (P6 : forall k v, P k -> P v -> P (TMap k v))
  (P7 : forall l, Forall (fun x => P (snd x)) l -> P (TIface l)) (P8 : P TOther) (t : gotype) : P t :=
  let rec := gotype_ind' P Ps P1 P2 P3 P4 P5 P6 P7 P8 in
  match t with
  | TScalar k => Ps k | TString => P1 | TBytes => P2 | TStruct i => P3 i
  | TPtr t => P4 t (rec t) | TSlice t => P5 t (rec t) | TMap k v => P6 k v (rec k) (rec v)
  | TIface l => P7 l ((fix go l : Forall (fun x => P (snd x)) l := match l with [] => Forall_nil _ | (i, x) :: r => Forall_cons (i, x) (rec x) (go r) end) l)
  | TOther => P8
  end.
Lemma gotype_eqb_iff : forall a b, gotype_eqb a b = true <-> a = b.
Proof.
  induction a as [k| | |i|t IH|t IH|k v IHk IHv|l IH|] using gotype_ind'; intros b; destruct b; cbn; try (split; congruence).
  - destruct k, k0; cbn; split; congruence.
  - rewrite Nat.eqb_eq. split; congruence.
  - rewrite IH. split; congruence.
  - rewrite IH. split; congruence.
  - rewrite andb_true_iff, IHk, IHv. split; [intros [-> ->]; reflexivity|intros [= -> ->]; auto].
  - transitivity (l = alts); [|split; congruence]. revert alts.
    induction IH as [|[i x] l Hx _ IHl]; intros [|[j y] m]; try (split; congruence).
    cbn in Hx. rewrite !andb_true_iff, Nat.eqb_eq, Hx, IHl. split; [intros [[-> ->] ->]; reflexivity|intros [= -> -> ->]; auto].
Qed.
Lemma gotype_eqb_refl : forall a, gotype_eqb a a = true.
Proof. intros a. now apply gotype_eqb_iff. Qed.
Lemma gotype_eqb_spec : forall a b, reflect (a = b) (gotype_eqb a b).
Proof. intros a b. apply iff_reflect. symmetry. apply gotype_eqb_iff. Qed.

(** * parse_struct by steps *)
Definition raw_field (slot : nat) (w : option nat) (g : gofield) : option pfield :=
  match parseStructTag (gf_tag g) with
  | None => None
  | Some p => Some (mkP (mkF (p_id p) slot (p_tag p) (p_rep p) (p_packed p) TagNone TagNone (gf_type g) w) (gf_key g) (gf_val g))
  end.
Fixpoint raw (l : list step) : pres (list pfield) :=
  match l with
  | [] => POk []
  | SErr :: _ => PErr
  | SPanic :: _ => PPanic
  | SField slot w g :: r =>
      match raw_field slot w g with
      | None => PErr
      | Some f => match raw r with POk fs => POk (f :: fs) | e => e end
      end
  end.
Definition tables (l : list pfield) : pres (list pfield) :=
  match l with
  | [] => POk []
  | f :: _ => if (f_id (pf_desc f) <? 0)%Z then PPanic
              else match build_tables (map pf_desc l) with Some _ => POk l | None => PErr end
  end.
Definition raw_struct (d : godecl) : pres (list pfield) :=
  pbind (raw (steps d)) (fun l => tables (sort_pfields l)).

Definition types_ok (l : list pfield) : Prop := Forall (fun f => type_ok (f_T (pf_desc f)) = true) l.

Lemma parse_pfield_raw : forall slot w g f, parse_pfield slot w g = Some f <->
  raw_field slot w g = Some f /\ type_ok (f_T (pf_desc f)) = true.
Proof.
  intros slot w g f. unfold parse_pfield, parse_field, raw_field. destruct (parseStructTag (gf_tag g)) as [p|]; [|split; [discriminate|intros [H _]; discriminate]].
  destruct (type_ok (gf_type g)) eqn:T.
  - split; [injection 1 as <-; split; [reflexivity|exact T]|intros [[= <-] _]; reflexivity].
  - split; [discriminate|]. intros [[= <-] H]. cbn in H. congruence.
Qed.

Lemma raw_app : forall a b, raw (a ++ b) = match raw a with POk x => match raw b with POk y => POk (x ++ y) | e => e end | e => e end.
Proof.
  induction a as [|s a IH]; intros b; cbn; [destruct (raw b); reflexivity|]. destruct s as [slot w g| |]; [|reflexivity|reflexivity].
  destruct (raw_field slot w g); [|reflexivity]. rewrite IH. destruct (raw a); [|reflexivity|reflexivity].
  destruct (raw b); reflexivity.
Qed.
Lemma own_raw : forall l i fs os, parse_fields i l = Some (fs, os) <->
  snd (own_steps i l) = os /\ raw (fst (own_steps i l)) = POk fs /\ types_ok fs.
Proof.
  induction l as [|g l IH]; intros i fs os; cbn [parse_fields own_steps].
  - cbn. split; [injection 1 as <- <-; repeat split; constructor|intros (<- & [= <-] & _); reflexivity].
  - specialize (IH (S i)). destruct (own_steps (S i) l) as [ss os0] eqn:O. cbn [fst snd] in IH.
    destruct (str_eqb (gf_tag g) []).
    + cbn [fst snd]. destruct (parse_fields (S i) l) as [[fs1 os1]|] eqn:E.
      * destruct (proj1 (IH fs1 os1) eq_refl) as (<- & R & T). split.
        -- injection 1 as <- <-. auto.
        -- intros (<- & R' & _). rewrite R in R'. injection R' as <-. reflexivity.
      * split; [discriminate|]. intros (_ & R & T). assert (None = Some (fs, os0)) by (apply IH; auto). discriminate.
    + cbn [fst snd raw]. destruct (parse_pfield i None g) as [f|] eqn:P.
      * apply parse_pfield_raw in P as (P & TF). rewrite P. destruct (parse_fields (S i) l) as [[fs1 os1]|] eqn:E.
        -- destruct (proj1 (IH fs1 os1) eq_refl) as (<- & R & T). rewrite R. split.
           ++ injection 1 as <- <-. repeat split. constructor; assumption.
           ++ intros (<- & [= <-] & _). reflexivity.
        -- split; [discriminate|]. intros (<- & R & T). destruct (raw ss) as [x| |] eqn:RS; try discriminate. injection R as <-.
           inversion T; subst. assert (None = Some (x, os0)) by (apply IH; auto). discriminate.
      * split; [discriminate|]. intros (_ & R & T). destruct (raw_field i None g) as [f|] eqn:RF; [|discriminate].
        destruct (raw ss) as [x| |]; try discriminate. injection R as <-. inversion T; subst.
        assert (None = Some f) by (rewrite <- P; apply parse_pfield_raw; auto). discriminate.
Qed.
Lemma wrappers_raw : forall os l fs, parse_wrappers os l = POk fs <-> raw (flat_map (wrapper_steps os) l) = POk fs /\ types_ok fs.
Proof.
  intros os. induction l as [|[w fields] l IH]; intros fs; cbn [parse_wrappers flat_map].
  - cbn. split; [injection 1 as <-; split; [reflexivity|constructor]|intros [[= <-] _]; reflexivity].
  - rewrite raw_app. unfold parse_wrapper, wrapper_steps. cbn [fst snd].
    assert (TA : forall a b, types_ok (a ++ b) <-> types_ok a /\ types_ok b) by (intros a b; apply Forall_app).
    assert (K : forall x y : list pfield, (match parse_wrappers os l with POk z => POk (x ++ z) | PErr => PErr | PPanic => PPanic end = POk y) <->
        (match raw (flat_map (wrapper_steps os) l) with POk z => POk (x ++ z) | e => e end = POk y /\ exists z, y = x ++ z /\ types_ok z)).
    { intros x y. destruct (parse_wrappers os l) as [z| |] eqn:E.
      - destruct (proj1 (IH z) eq_refl) as (-> & T). split.
        + injection 1 as <-. split; [reflexivity|]. now exists z.
        + now intros (H & _).
      - split; [discriminate|]. intros (R & z & -> & T). destruct (raw _) as [z'| |] eqn:RW; try discriminate. injection R as R. apply app_inv_head in R as ->.
        assert (PErr = POk z) by (apply IH; auto). discriminate.
      - split; [discriminate|]. intros (R & z & -> & T). destruct (raw _) as [z'| |] eqn:RW; try discriminate. injection R as R. apply app_inv_head in R as ->.
        assert (PPanic = POk z) by (apply IH; auto). discriminate. }
    destruct (find_oneof w os) as [[slot|]| |]; cbn [raw pbind].
    + destruct fields as [|g [|g' fields]]; cbn [raw pbind]; try (split; [discriminate|intros (H & _); discriminate]).
      destruct (str_eqb (gf_tag g) []); cbn [raw pbind]; [split; [discriminate|intros (H & _); discriminate]|].
      destruct (parse_pfield slot (Some w) g) as [f|] eqn:P; cbn [pbind].
      * apply parse_pfield_raw in P as (-> & TF). specialize (K [f] fs). unfold pbind. rewrite K. split.
        -- intros (R & z & -> & T). split; [exact R|]. now constructor.
        -- intros (R & T). split; [exact R|]. destruct (raw _) as [z| |]; try discriminate. injection R as <-. inversion T; subst. now exists z.
      * split; [discriminate|]. intros (R & T). destruct (raw_field slot (Some w) g) as [f|] eqn:RF; [|discriminate]. cbn in R.
        destruct (raw _) as [z| |]; try discriminate. injection R as <-. inversion T; subst.
        assert (None = Some f) by (rewrite <- P; apply parse_pfield_raw; auto). discriminate.
    + specialize (K [] fs). unfold pbind. cbn [app] in *. rewrite K. split.
      * intros (R & z & -> & T). auto.
      * intros (R & T). split; [exact R|]. now exists fs.
    + split; [discriminate|intros (H & _); discriminate].
    + split; [discriminate|intros (H & _); discriminate].
Qed.
Lemma sort_types_ok : forall l, types_ok (sort_pfields l) <-> types_ok l.
Proof.
  assert (I : forall f l, types_ok (insert_pfield f l) <-> type_ok (f_T (pf_desc f)) = true /\ types_ok l).
  { intros f l. unfold types_ok. induction l as [|g l IH]; cbn; [rewrite Forall_cons_iff; reflexivity|].
    destruct (f_id (pf_desc g) <? f_id (pf_desc f))%Z; rewrite !Forall_cons_iff; [rewrite IH|]; rewrite ?Forall_cons_iff; tauto. }
  induction l as [|f l IH]; cbn; [reflexivity|]. rewrite I, IH. unfold types_ok. now rewrite Forall_cons_iff.
Qed.
Lemma parse_struct_raw : forall d l, parse_struct d = POk l <-> raw_struct d = POk l /\ types_ok l.
Proof.
  intros d l. unfold parse_struct, raw_struct, steps.
  destruct (own_steps 0 (d_fields d)) as [ss os] eqn:O.
  assert (OWN : forall fs, parse_fields 0 (d_fields d) = Some (fs, os) <-> raw ss = POk fs /\ types_ok fs).
  { intros fs. rewrite own_raw, O. cbn. tauto. }
  assert (OS : forall fs os', parse_fields 0 (d_fields d) = Some (fs, os') -> os' = os).
  { intros fs os' H. apply own_raw in H as (<- & _). now rewrite O. }
  assert (TAB : forall x y, tables x = POk y -> x = y).
  { intros [|f x] y; cbn; [now injection 1|]. destruct (f_id (pf_desc f) <? 0)%Z; [discriminate|]. destruct (build_tables _); [now injection 1|discriminate]. }
  set (W := match os with [] => POk [] | _ => parse_wrappers os (d_wrappers d) end).
  set (WS := match os with [] => [] | _ => flat_map (wrapper_steps os) (d_wrappers d) end).
  assert (WR : forall fs, W = POk fs <-> raw WS = POk fs /\ types_ok fs).
  { intros fs. unfold W, WS. destruct os; [|apply wrappers_raw]. cbn. split; [injection 1 as <-; split; [reflexivity|constructor]|intros [[= <-] _]; reflexivity]. }
  rewrite raw_app.
  destruct (parse_fields 0 (d_fields d)) as [[fs os']|] eqn:PF.
  - assert (os' = os) as -> by (now apply (OS fs)). destruct (proj1 (OWN fs) eq_refl) as (-> & T1). fold W. split.
    + intros H. destruct W as [fs'| |] eqn:EW; try discriminate. cbn [pbind] in H. destruct (proj1 (WR fs') eq_refl) as (-> & T2).
      cbn [pbind]. change (tables (sort_pfields (fs ++ fs')) = POk l) in H. split; [exact H|]. apply TAB in H as <-. apply sort_types_ok. now apply Forall_app.
    + intros (H & T). destruct (raw WS) as [fs'| |] eqn:ER; try discriminate. cbn [pbind] in H.
      assert (T2 := T). rewrite <- (TAB _ _ H) in T2. apply (proj1 (sort_types_ok _)) in T2. apply Forall_app in T2 as (_ & T2).
      assert (EW : W = POk fs') by (apply WR; auto). rewrite EW. cbn [pbind]. exact H.
  - split; [discriminate|]. intros (H & T). exfalso. destruct (raw ss) as [fs| |] eqn:ES; try discriminate.
    destruct (raw WS) as [fs'| |] eqn:ER; try discriminate. cbn [pbind] in H. rewrite <- (TAB _ _ H) in T. apply (proj1 (sort_types_ok _)) in T.
    apply Forall_app in T as (T & _). assert (None = Some (fs, os)) by (apply OWN; auto). discriminate.
Qed.
