(** Consequences of the encoder and sizer specifications. *)
From Verif Require Import Base Wire WireSpec WireProofs WireConsume WireFacts Coder MapTables Value WireVal Desc MsgSpec ValFacts Writes Encoder Sizer ScalarProofs EncProofs SizeProofs.
From Coq Require Import Lia ZifyBool ZifyNat ZifyN Init.Byte Sorting.Permutation.
Open Scope N_scope.

(** A pointer argument of the API whose message is a value of its type. *)
Definition arg_ok (E : env) (a : arg) : Prop :=
  match a with APtr id p => wtp E id p | _ => True end.

Lemma wtp_optP : forall E id p, wtp E id p -> optP (wtg E (fun _ _ => True) false (TStruct id)) p.
Proof. intros E id [v|] H; exact H. Qed.

Lemma MarshalAppend_prefix : forall E, wf_env E -> forall a, arg_ok E a -> forall b,
  MarshalAppend E b a = match Marshal E a with Ok s => Ok (b ++ s) | r => r end.
Proof.
  intros E WF a Ha b. destruct a as [| |id p]; try reflexivity.
  unfold Marshal, MarshalAppend. cbn in Ha.
  destruct (struct_body E (fun _ _ => True) WF defaultRecursionMaxDepth id p (wtp_optP _ _ _ Ha)) as [W _].
  destruct (msg E false defaultRecursionMaxDepth id p) as [m|]; cbn [option_map writes] in W.
  - destruct W as (s & W & _). rewrite !W. reflexivity.
  - rewrite !W. reflexivity.
Qed.

Lemma Marshal_wire : forall E, wf_env E -> forall id p, wtp E id p ->
  match msg E false 1000 id p with
  | Some m => exists s, Marshal E (APtr id p) = Ok s /\ (small s \/ small (wire m) -> s = wire m)
  | None => Marshal E (APtr id p) = Err EMaxDepth
  end.
Proof.
  intros E WF id p Hp. unfold Marshal, MarshalAppend.
  destruct (struct_body E (fun _ _ => True) WF 1000 id p (wtp_optP _ _ _ Hp)) as [W _].
  unfold defaultRecursionMaxDepth. destruct (msg E false 1000 id p) as [m|]; cbn [option_map writes] in W.
  - destruct W as (s & W & H). exists s. split; [apply W|tauto].
  - apply W.
Qed.

Lemma Marshal_no_panic : forall E, wf_env E -> forall a, arg_ok E a ->
  exists r, Marshal E a = r /\ (exists s, r = Ok s) \/ Marshal E a = Err EMaxDepth \/ Marshal E a = Err ENotPointer.
Proof.
  intros E WF a Ha. destruct a as [| |id p]; [exists (Ok []); auto|exists (Ok []); auto|].
  pose proof (Marshal_wire E WF id p Ha) as M. destruct (msg E false 1000 id p).
  - destruct M as (s & M & _). exists (Ok s). left. eauto.
  - exists (Ok []). auto.
Qed.

(** ** Size *)
Lemma Size_wire : forall E, wf_env E -> forall id v, wt E (TStruct id) v ->
  match msg E false 1000 id (Some v) with
  | Some m => exists n, Size E (APtr id (Some v)) = Ok n /\ (n < 2^63 \/ small (wire m) -> n = blen (wire m))
  | None => Size E (APtr id (Some v)) = Err EMaxDepth
  end.
Proof.
  intros E WF id v Hv. unfold Size.
  pose proof (struct_size E (fun _ _ => True) WF 1000 id (Some v) Hv) as S. unfold defaultRecursionMaxDepth.
  destruct (msg E false 1000 id (Some v)) as [m|]; cbn [option_map sizes] in S.
  - destruct S as (n & S & H). exists n. split; [assumption|tauto].
  - assumption.
Qed.

(** ** Map orders *)
Section Perm.
Variable E : env.

Lemma vsame_raw_zero : forall v v', vsame v v' -> raw_zero v = raw_zero v'.
Proof.
  induction v as [|n|s|s|p IH|e sp IH1 IH2|m IH|l u IH|i IH] using val_ind'; intros v' H; inversion H as
   [|x x' HX|e1 e' sp1 sp' He Hsp|m1 m2 m' HP HF|l1 l' u1 HL|w x x' HX]; subst; try reflexivity.
  - cbn. destruct He as [|x y e e' Hx He]; [|reflexivity]. destruct Hsp; reflexivity.
  - cbn. f_equal. clear H. induction HL; [reflexivity|]. inversion IH; subst. cbn. f_equal; auto.
Qed.

Lemma vsame_wt : forall Q v v', vsame v v' -> forall u t, wtg E Q u t v -> wtg E Q u t v'.
Proof.
  intros Q. induction v as [|n|s|s|p IH|e sp IH1 IH2|m IH|l un IH|i IH] using val_ind'; intros v' H u t W;
    inversion H as [|x x' HX|e1 e' sp1 sp' He Hsp|m0 m1 m' HP HF|l1 l' u1 HL|w x x' HX]; subst; try exact W.
  - destruct t; try easy. cbn in *. eauto.
  - destruct t as [| | | | |t| | |]; try easy. apply wtg_slice in W as [W1 W2]. apply wtg_slice. split.
    + clear - IH1 He W1. induction He; [constructor|]. inversion IH1; inversion W1; subst. constructor; eauto.
    + clear - IH2 Hsp W2. induction Hsp; [constructor|]. inversion IH2; inversion W2; subst. constructor; eauto.
  - destruct t as [| | | | | |kt vt| |]; try easy. apply wtg_map in W as [W1 W2]. apply wtg_map.
    cbn [optP] in IH.
    assert (IH' : Forall (fun kv => forall v', vsame (snd kv) v' -> forall u t, wtg E Q u t (snd kv) -> wtg E Q u t v') m1).
    { eapply Permutation_Forall; [exact HP|]. eapply Forall_impl; [|exact IH]. intros [k x] [_ X]. exact X. }
    assert (W1' : Forall (fun kv => wtg E Q u kt (fst kv) /\ wtg E Q u vt (snd kv)) m1).
    { eapply Permutation_Forall; eauto. }
    assert (W2' : NoDup (map fst m1)).
    { eapply Permutation_NoDup; [apply Permutation_map, HP|exact W2]. }
    assert (K : map fst m1 = map fst m').
    { clear - HF. induction HF as [|a b la lb [X _] F IHF]; [reflexivity|]. cbn. congruence. }
    rewrite K in W2'. split; [|exact W2'].
    clear - IH' HF W1'. induction HF as [|a b la lb [X Y] F IHF]; [constructor|].
    inversion IH' as [|? ? I1 I2]; inversion W1' as [|? ? [J1 J1'] J2]; subst. constructor; [|auto]. rewrite <- X. split; eauto.
  - destruct t as [| | |id| | | | |]; try easy. apply wtg_struct in W as [W1 W2]. apply wtg_struct. split; [|exact W2].
    clear - IH HL W1. revert l' HL. induction W1; intros l0' HL; inversion HL; subst; constructor; inversion IH; subst; eauto.
  - destruct t; try easy. cbn in *. destruct (lookup_alt w alts); [|easy]. eauto.
Qed.

(** Related optional results. *)
Definition orel {A} (R : A -> A -> Prop) (a b : option A) : Prop :=
  match a, b with Some x, Some y => R x y | None, None => True | _, _ => False end.

Lemma omap_rel : forall {A B} (R : B -> B -> Prop) (S : A -> A -> Prop) (f : A -> option B) l l',
  Forall2 S l l' -> (forall x y, In x l -> S x y -> orel R (f x) (f y)) -> orel (Forall2 R) (omap f l) (omap f l').
Proof.
  intros A B R S f l l' F. induction F as [|x y l l' Hxy F IH]; intro H; [constructor|].
  cbn [omap]. pose proof (H x y (or_introl eq_refl) Hxy) as H0.
  assert (H1 : orel (Forall2 R) (omap f l) (omap f l')) by (apply IH; intros; apply H; [now right|assumption]).
  destruct (f x), (f y); cbn in H0; try contradiction; destruct (omap f l), (omap f l'); cbn in *; try contradiction; auto.
Qed.

Lemma omap_perm : forall {A B} (f : A -> option B) l l', Permutation l l' ->
  orel (@Permutation B) (omap f l) (omap f l').
Proof.
  intros A B f l l' P. induction P as [|x l l' P IH|x y l|l l' l'' P1 IH1 P2 IH2].
  - constructor.
  - cbn [omap]. destruct (f x); [|exact I]. destruct (omap f l), (omap f l'); cbn in *; try contradiction; auto.
  - cbn [omap]. destruct (f x), (f y); try exact I; destruct (omap f l); try exact I. cbn. apply perm_swap.
  - destruct (omap f l), (omap f l'), (omap f l''); cbn in *; try contradiction; auto. now transitivity l1.
Qed.

(** Record lists equal up to the order among equal numbers. *)
Definition frel (fs fs' : list (N * pval)) : Prop :=
  (exists fs1, Permutation fs fs1 /\ Forall2 (fun a b => fst a = fst b /\ pequiv (snd a) (snd b)) fs1 fs') /\
  map fst fs = map fst fs'.

Lemma frel_refl : forall fs, frel fs fs.
Proof.
  intro fs. split; [|reflexivity]. exists fs. split; [reflexivity|].
  induction fs; constructor; auto. split; [reflexivity|apply pe_refl].
Qed.
Lemma frel_app : forall a a' b b', frel a a' -> frel b b' -> frel (a ++ b) (a' ++ b').
Proof.
  intros a a' b b' ((a1 & P & F) & M) ((b1 & P' & F') & M'). split.
  - exists (a1 ++ b1). split; [now apply Permutation_app|now apply Forall2_app].
  - rewrite !map_app. congruence.
Qed.
Lemma frel_concat : forall l l', Forall2 frel l l' -> frel (concat l) (concat l').
Proof. intros l l' F. induction F; [apply frel_refl|]. cbn. now apply frel_app. Qed.

Lemma Forall2_map_num : forall (num : N) l l', Forall2 pequiv l l' ->
  Forall2 (fun a b => fst a = fst b /\ pequiv (snd a) (snd b)) (map (fun p => (num, p)) l) (map (fun p => (num, p)) l').
Proof. intros num l l' F. induction F; constructor; auto. Qed.
Lemma map_fst_num : forall (num : N) (l l' : list pval), length l = length l' ->
  map fst (map (fun p => (num, p)) l) = map fst (map (fun p => (num, p)) l').
Proof.
  intros num l. induction l as [|x l IH]; intros [|y l'] H; try discriminate; [reflexivity|].
  cbn in *. f_equal. apply IH. lia.
Qed.

Lemma Forall2_pequiv_refl : forall l, Forall2 pequiv l l.
Proof. induction l; constructor; auto. apply pe_refl. Qed.

Section Rec.
Variable two : bool.
Variables rec recm : nat -> option val -> option pval.
Hypothesis Hrec : forall id v v', vsame v v' -> orel pequiv (rec id (Some v)) (rec id (Some v')).
Hypothesis Hrecm : forall id v v', vsame v v' -> orel pequiv (recm id (Some v)) (recm id (Some v')).

Lemma orel_refl : forall o, orel pequiv o o.
Proof. intros [p|]; [apply pe_refl|exact I]. Qed.

Lemma value_same : forall r, (forall id v v', vsame v v' -> orel pequiv (r id (Some v)) (r id (Some v'))) ->
  forall tag t v v', vsame v v' -> orel pequiv (value_den r tag t v) (value_den r tag t v').
Proof.
  intros r Hr tag t v v' S. destruct t as [k| | |id|t'| | | |]; try (inversion S; subst; solve [exact I|apply orel_refl]).
  - replace (value_den r tag (TStruct id) v) with (r id (Some v)) by (destruct v; reflexivity).
    replace (value_den r tag (TStruct id) v') with (r id (Some v')) by (destruct v'; reflexivity). now apply Hr.
  - destruct t'; try (inversion S; subst; solve [exact I|apply orel_refl]).
    inversion S; subst; try exact I; [apply orel_refl|]. cbn [value_den]. now apply Hr.
Qed.

Lemma scalar_same : forall r tag t v v', (match t with TScalar _ | TString => True | _ => False end) ->
  vsame v v' -> value_den r tag t v = value_den r tag t v'.
Proof. intros r tag t v v' H S. destruct t; try contradiction; inversion S; subst; reflexivity. Qed.

Lemma Forall2_length' : forall {A B} (R : A -> B -> Prop) l l', Forall2 R l l' -> length l = length l'.
Proof. intros A B R l l' F. induction F; cbn; auto. Qed.

Lemma entry_same : forall f kt vt kv kv', key_ok (f_ktag f) kt = true -> fst kv = fst kv' -> vsame (snd kv) (snd kv') ->
  orel pequiv (entry_den rec recm f kt vt kv) (entry_den rec recm f kt vt kv').
Proof.
  intros f kt vt [k v] [k' v'] HK Hk Hv. cbn in Hk, Hv. subst k'. unfold entry_den. cbn [fst snd].
  destruct (value_den rec (f_ktag f) kt k); [|exact I].
  pose proof (value_same recm Hrecm (f_vtag f) vt v v' Hv) as V.
  destruct (value_den recm (f_vtag f) vt v), (value_den recm (f_vtag f) vt v'); cbn in V; try contradiction; [|exact I].
  cbn. apply (pe_msg _ [(1, p); (2, p0)]); [reflexivity| |reflexivity].
  repeat constructor; cbn; auto.
Qed.

Lemma single_same : forall f v v' t, vsame v v' -> omitted E t v = omitted E t v' ->
    orel frel (if omitted E t v then Some [] else option_map (fun p => [(field_num f, p)]) (value_den rec (f_tag f) t v))
      (if omitted E t v' then Some [] else option_map (fun p => [(field_num f, p)]) (value_den rec (f_tag f) t v')).
Proof.
  intros f v v' t S Ho. rewrite <- Ho. destruct (omitted E t v); [apply frel_refl|].
  pose proof (value_same rec Hrec (f_tag f) t v v' S) as V.
  destruct (value_den rec (f_tag f) t v), (value_den rec (f_tag f) t v'); cbn in V; try contradiction; [|exact I].
  cbn. split; [|reflexivity]. exists [(field_num f, p)]. split; [reflexivity|]. repeat constructor. exact V.
Qed.

Lemma orel_frel_refl : forall o, orel frel o o.
Proof. intros [p|]; [apply frel_refl|exact I]. Qed.

Lemma data_same : forall f v v', supported f = true -> vsame v v' ->
  orel frel (data_den E rec recm f v) (data_den E rec recm f v').
Proof.
  intros f v v' Sup S.
  assert (Hst : forall id, omitted E (TStruct id) v = omitted E (TStruct id) v')
    by (intro; cbn; now rewrite (vsame_raw_zero _ _ S)).
  pose proof (fun t => single_same f v v' t S) as Single.
  unfold data_den, supported in *.
  inversion S as [|x x' HX|e1 e' sp1 sp' He Hsp|m0 m1 m' HP HF|l1 l' u1 HL|w x x' HX]; subst; [apply orel_frel_refl| | | | |];
    destruct (f_T f) as [k| | |id|t|t|kt vt|alts|] eqn:HT; try (apply Single; (reflexivity || apply Hst)); try discriminate Sup.
  - pose proof (value_same rec Hrec (f_tag f) t x x' HX) as V.
    destruct (value_den rec (f_tag f) t x), (value_den rec (f_tag f) t x'); cbn in V; try contradiction; [|exact I].
    cbn. split; [|reflexivity]. exists [(field_num f, p)]. split; [reflexivity|]. repeat constructor. exact V.
  - pose proof (omap_rel pequiv vsame (value_den rec (f_tag f) t) e1 e' He (fun x y _ Hxy => value_same rec Hrec _ _ _ _ Hxy)) as V.
    destruct (f_packed f) eqn:Hp.
    + rewrite andb_comm in Sup. destruct t; try discriminate Sup.
      replace (omap (value_den rec (f_tag f) (TScalar k)) e') with (omap (value_den rec (f_tag f) (TScalar k)) e1).
      * apply orel_frel_refl.
      * clear - He. induction He; [reflexivity|]. cbn [omap]. rewrite IHHe.
        now rewrite (scalar_same rec (f_tag f) (TScalar k) x y I H).
    + destruct (omap _ e1) as [l|], (omap _ e') as [l'|]; cbn in V; try contradiction; [|exact I].
      cbn [orel]. split; [|apply map_fst_num; eapply Forall2_length'; eassumption].
      eexists. split; [reflexivity|]. now apply Forall2_map_num.
  - repeat (apply andb_prop in Sup as [Sup ?]).
    pose proof (omap_perm (entry_den rec recm f kt vt) _ _ HP) as P1.
    pose proof (omap_rel pequiv _ (entry_den rec recm f kt vt) m1 m' HF
      (fun x y _ Hxy => entry_same f kt vt x y ltac:(assumption) (proj1 Hxy) (proj2 Hxy))) as V.
    destruct (omap _ m0) as [l0|], (omap _ m1) as [l1|]; cbn in P1; try contradiction;
      destruct (omap _ m') as [l'|]; cbn in V; try contradiction; [|exact I].
    cbn. split.
    + eexists. split; [apply Permutation_map; exact P1|]. now apply Forall2_map_num.
    + apply map_fst_num. rewrite (Permutation_length P1). eapply Forall2_length'; eassumption.
Qed.

Lemma field_same : forall f v v', supported f = true -> vsame v v' ->
  orel frel (field_den E rec recm f v) (field_den E rec recm f v').
Proof.
  intros f v v' Sup S. unfold field_den. destruct (f_oneof f) as [w|]; [|now apply data_same].
  inversion S as [|x x' HX|e1 e' sp1 sp' He Hsp|m0 m1 m' HP HF|l1 l' u1 HL|w0 x x' HX]; subst; try apply frel_refl.
  - apply orel_frel_refl.
  - destruct (Nat.eqb w0 w); [|apply frel_refl]. now apply data_same.
Qed.

Lemma fields_same : forall fs l l', (forall f, In f fs -> supported f = true) -> Forall2 vsame l l' ->
  orel frel (fields_den E rec recm fs l) (fields_den E rec recm fs l').
Proof.
  intros fs l l' Sup F. unfold fields_den.
  set (g := fun l f => match nth_error l (f_slot f) with Some slot => field_den E rec recm f slot | None => None end).
  assert (A : orel (Forall2 frel) (omap (g l) fs) (omap (g l') fs)).
  { induction fs as [|f fs IH]; [constructor|]. cbn [omap].
    assert (G : orel frel (g l f) (g l' f)).
    { unfold g. clear - F Sup Hrec Hrecm. generalize (f_slot f). induction F as [|x y l l' Hxy F IHF]; intros [|n]; cbn; try exact I; auto.
      apply field_same; [apply Sup; now left|assumption]. }
    assert (IH' : orel (Forall2 frel) (omap (g l) fs) (omap (g l') fs)) by (apply IH; intros; apply Sup; now right).
    destruct (g l f), (g l' f); cbn in G; try contradiction; [|exact I].
    destruct (omap (g l) fs), (omap (g l') fs); cbn in IH'; try contradiction; [|exact I].
    constructor; assumption. }
  fold (g l) (g l'). destruct (omap (g l) fs), (omap (g l') fs); cbn in *; try contradiction; [|exact I].
  now apply frel_concat.
Qed.
End Rec.

Hypothesis WF : wf_env E.

Lemma msg_same : forall two n d id v v', (d <= n)%nat -> vsame v v' ->
  orel pequiv (msg E two d id (Some v)) (msg E two d id (Some v')).
Proof.
  intros two. induction n as [|n IH]; intros d id v v' Hd S; destruct d as [|d]; try exact I; [lia|].
  cbn [msg].
  set (recm := if two then match d with O => fun _ _ => None | S d'' => msg E two d'' end else msg E two d).
  assert (Hm : forall id v v', vsame v v' -> orel pequiv (recm id (Some v)) (recm id (Some v'))).
  { intros. unfold recm. destruct two; [|apply IH; [lia|assumption]].
    destruct d; [exact I|]. apply IH; [lia|assumption]. }
  inversion S as [|x x' HX|e1 e' sp1 sp' He Hsp|m0 m1 m' HP HF|l1 l' u1 HL|w0 x x' HX]; subst; try exact I.
  - destruct v'; try exact I. destruct (fields_den _ _ _ _ _); [|exact I]. apply pe_refl.
  - pose proof (fields_same (msg E two d) recm (fun id v v' => IH d id v v' ltac:(lia)) Hm (sd_fields (E id)) l1 l'
      (fun f I => proj1 (proj2 (wf_fields _ _ (WF id) f I))) HL) as FS.
    destruct (fields_den E (msg E two d) recm (sd_fields (E id)) l1),
      (fields_den E (msg E two d) recm (sd_fields (E id)) l'); cbn in FS; try contradiction; [|exact I].
    destruct FS as ((fs1 & P & F) & M). cbn. eapply pe_msg; eassumption.
Qed.
End Perm.

(** Equivalent messages have encodings of equal length. *)
Section PvalInd.
Variable P : pval -> Prop.
Hypothesis HI : forall n, P (QInt n).
Hypothesis H32 : forall n, P (Q32 n).
Hypothesis H64 : forall n, P (Q64 n).
Hypothesis HS : forall s, P (QStr s).
Hypothesis HP : forall l, Forall P l -> P (QPacked l).
Hypothesis HM : forall fs u, Forall (fun r => P (snd r)) fs -> P (QMsg fs u).
Fixpoint pval_ind' (p : pval) : P p :=
  match p with
  | QInt n => HI n
  | Q32 n => H32 n
  | Q64 n => H64 n
  | QStr s => HS s
  | QPacked l => HP l ((fix go (l : list pval) : Forall P l :=
      match l with [] => Forall_nil _ | x :: r => Forall_cons x (pval_ind' x) (go r) end) l)
  | QMsg fs u => HM fs u ((fix go (l : list (N * pval)) : Forall (fun r => P (snd r)) l :=
      match l with [] => Forall_nil _ | x :: r => Forall_cons x (pval_ind' (snd x)) (go r) end) fs)
  end.
End PvalInd.

Lemma wire_fields_payload : forall fs u,
  payload_of (QMsg fs u) = lendelim (wire_fields fs ++ u).
Proof.
  intros. cbn [payload_of]. unfold wire_fields. do 3 f_equal. apply map_ext. intros [n p]. reflexivity.
Qed.

Lemma lendelim_len : forall a b, length a = length b -> length (lendelim a) = length (lendelim b).
Proof. intros a b H. unfold lendelim. rewrite !app_length, H. reflexivity. Qed.

Lemma pequiv_len : forall p p', pequiv p p' ->
  length (payload_of p) = length (payload_of p') /\ wtype p = wtype p' /\ length (wire p) = length (wire p').
Proof.
  induction p as [n|n|n|s|l IH|fs u IH] using pval_ind'; intros p' H;
    inversion H as [|? fs1 fs' u1 HP HF HM]; subst; auto.
  assert (IH1 : Forall (fun r => forall p', pequiv (snd r) p' ->
    length (payload_of (snd r)) = length (payload_of p') /\ wtype (snd r) = wtype p' /\ length (wire (snd r)) = length (wire p')) fs1).
  { eapply Permutation_Forall; eassumption. }
  assert (W : length (wire_fields fs) = length (wire_fields fs')).
  { transitivity (length (wire_fields fs1)).
    - unfold wire_fields. clear - HP. induction HP; cbn [map concat]; rewrite ?app_length in *; lia.
    - clear - HF IH1. induction HF as [|a b la lb [X Y] F IHF]; [reflexivity|].
      inversion IH1 as [|? ? J1 J2]; subst. unfold wire_fields in *. cbn [map concat]. rewrite !app_length, IHF by assumption.
      unfold record_of. rewrite !app_length. destruct (J1 _ Y) as (A & B & _). rewrite X, A, B. reflexivity. }
  repeat split.
  - rewrite !wire_fields_payload. apply lendelim_len. rewrite !app_length. lia.
  - cbn [wire]. rewrite !app_length. lia.
Qed.

(** ** Depth *)
Section Depth.
Variable E : env.
Hypothesis WF : wf_env E.

Lemma omap_none : forall {A B} (f : A -> option B) l, omap f l = None <-> exists x, In x l /\ f x = None.
Proof.
  intros A B f l. induction l as [|x l IH]; cbn [omap].
  - split; [discriminate|]. intros (x & [] & _).
  - split.
    + intro H. destruct (f x) eqn:Fx; [|exists x; split; [now left|assumption]].
      destruct (omap f l); [discriminate|]. destruct IH as [IH _]. destruct (IH eq_refl) as (y & I & Fy). exists y. split; [now right|assumption].
    + intros (y & [->|I] & Fy); [now rewrite Fy|]. destruct (f x); [|reflexivity].
      destruct IH as [_ IH]. rewrite IH by eauto. reflexivity.
Qed.

Lemma option_map_none : forall {A B} (h : A -> B) o, option_map h o = None <-> o = None.
Proof. intros A B h [a|]; cbn; split; congruence. Qed.

Section Rec.
Variable rec : nat -> option val -> option pval.

Lemma leaf_some : forall tag t v, leaf_ok tag t = true -> wt E t v -> forall r, value_den r tag t v <> None.
Proof.
  intros tag t v H W r. destruct t as [k| | | | | | | |]; try discriminate H.
  - apply wt_scalar_inv in W as (n & -> & _). discriminate.
  - apply wt_string_inv in W as (n & ->). discriminate.
  - apply wt_bytes_inv in W as (n & ->). discriminate.
Qed.

Lemma elem_none : forall tag t v, elem_ok tag t = true -> wt E t v ->
  (value_den rec tag t v = None <-> exists id p, elem_msg t v id p /\ rec id p = None).
Proof.
  intros tag t v H W. apply elem_ok_cases in H as [H|(-> & id & H)].
  - split; [intro X; now apply leaf_some in X|]. intros (id & p & M & _).
    destruct M; destruct tag; discriminate H.
  - destruct H as [-> | ->].
    + replace (value_den rec TagBytes (TStruct id) v) with (rec id (Some v)) by (destruct v; reflexivity).
      split; [intro; exists id, (Some v); split; [constructor|assumption]|].
      intros (id' & p & M & R). inversion M; subst. assumption.
    + apply wt_ptr_inv in W as (p & -> & _). cbn [value_den].
      split; [intro; exists id, p; split; [constructor|assumption]|].
      intros (id' & p' & M & R). inversion M; subst. assumption.
Qed.

Lemma data_none : forall f v, supported f = true -> wt E (f_T f) v ->
  (data_den E rec rec f v = None <-> exists id p, holds_msg E f v id p /\ rec id p = None).
Proof.
  intros f v Sup W.
  assert (Leaf : forall t, f_T f = t -> leaf_ok (f_tag f) t = true ->
    ((if omitted E t v then Some [] else option_map (fun p => [(field_num f, p)]) (value_den rec (f_tag f) t v)) = None <->
      exists id p, holds_msg E f v id p /\ rec id p = None)).
  { intros t HT HL. rewrite HT in W. split.
    - destruct (omitted E t v); [discriminate|]. rewrite option_map_none. intro X. now apply leaf_some in X.
    - intros (id & p & M & _). destruct M as [id v H|id x H|t0 e sp x id p H|kt t0 m k x id p H]; rewrite HT in H; rewrite H in HL; destruct (f_tag f); discriminate HL. }
  unfold data_den. unfold supported in Sup.
  destruct (f_T f) as [k| | |id|t|t|kt vt|alts|] eqn:HT; try discriminate Sup; repeat (apply andb_prop in Sup as [Sup ?]).
  - specialize (Leaf _ eq_refl H). destruct v; exact Leaf.
  - specialize (Leaf _ eq_refl H). destruct v; exact Leaf.
  - specialize (Leaf _ eq_refl H). destruct v; exact Leaf.
  - replace (match v with | _ => if omitted E (TStruct id) v then Some [] else option_map (fun p => [(field_num f, p)]) (value_den rec (f_tag f) (TStruct id) v) end)
      with (if omitted E (TStruct id) v then Some [] else option_map (fun p => [(field_num f, p)]) (rec id (Some v))) by (destruct v; reflexivity).
    split.
    + destruct (omitted E (TStruct id) v) eqn:O; [discriminate|]. rewrite option_map_none. intro X. exists id, (Some v).
      split; [now constructor|assumption].
    + intros (id' & p & M & R). destruct M as [id' v T O|id' x T|t0 e sp x id' p T|kt t0 m k x id' p T]; rewrite HT in T; try discriminate.
      injection T as <-. rewrite O, R. reflexivity.
  - apply wt_ptr_inv in W as (p & -> & Wp). destruct p as [x|].
    + rewrite option_map_none.
      destruct (value_ok_elem _ _ H) as [Ho [Hl|(id & -> & Ht)]].
      * split; [intro X; now apply leaf_some in X|].
        intros (id & p & M & _). inversion M as [id0 v T O|id0 x0 T|t0 e sp x0 id0 p0 T|kt t0 m k x0 id0 p0 T]; subst; rewrite HT in T; try discriminate.
        injection T as ->. discriminate Hl.
      * replace (value_den rec (f_tag f) (TStruct id) x) with (rec id (Some x)) by (destruct x; reflexivity).
        split; [intro; exists id, (Some x); split; [now constructor|assumption]|].
        intros (id' & p & M & R). inversion M as [id0 v T O|id0 x0 T|t0 e sp x0 id0 p0 T|kt t0 m k x0 id0 p0 T]; subst; rewrite HT in T; try discriminate.
        injection T as <-. assumption.
    + split; [discriminate|]. intros (id & p & M & _).
      inversion M as [id0 v T O|id0 x0 T|t0 e sp x0 id0 p0 T|kt t0 m k x0 id0 p0 T]; subst; rewrite HT in T; discriminate.
  - apply wt_slice_inv in W as (e & sp & -> & We & _). rewrite Forall_forall in We.
    destruct (omap (value_den rec (f_tag f) t) e) as [l|] eqn:O.
    + split; [destruct (f_packed f); discriminate|]. intros (id & p & M & R).
      inversion M as [id0 v T O'|id0 x0 T|t0 e0 sp0 x0 id0 p0 T I EM|kt t0 m k x0 id0 p0 T]; subst; rewrite HT in T; try discriminate.
      injection T as <-. exfalso. assert (X : omap (value_den rec (f_tag f) t) e = None); [|congruence].
      apply omap_none. exists x0. split; [assumption|]. apply elem_none; [assumption|now apply We|eauto].
    + split; [|reflexivity]. intros _. apply omap_none in O as (x & I & N). apply elem_none in N as (id & p & M & R); [|assumption|now apply We].
      exists id, p. split; [|assumption]. econstructor; eassumption.
  - apply wt_map_inv in W as (mo & -> & Wm). rewrite option_map_none. split.
    + intro O. apply omap_none in O as ([k x] & I & N). destruct mo as [m|]; [|destruct I].
      destruct Wm as [Wm _]. rewrite Forall_forall in Wm. destruct (Wm _ I) as [Wk Wx]. cbn [fst snd] in *.
      unfold entry_den in N. cbn [fst snd] in N.
      destruct (value_den rec (f_ktag f) kt k) eqn:K; [|now apply leaf_some in K; [|apply key_ok_leaf|]].
      destruct (value_den rec (f_vtag f) vt x) eqn:V; [discriminate|].
      apply elem_none in V as (id & p' & M & R); [|assumption|exact Wx]. exists id, p'. split; [|assumption]. econstructor; eassumption.
    + intros (id & p & M & R).
      inversion M as [id0 v T O'|id0 x0 T|t0 e0 sp0 x0 id0 p0 T|kt0 t0 m k x0 id0 p0 T I EM]; subst; rewrite HT in T; try discriminate.
      injection T as <- <-. destruct Wm as [Wm _]. rewrite Forall_forall in Wm. destruct (Wm _ I) as [Wk Wx]. cbn [fst snd] in *.
      apply omap_none. exists (k, x0). split; [assumption|]. unfold entry_den. cbn [fst snd].
      destruct (value_den rec (f_ktag f) kt k); [|reflexivity].
      replace (value_den rec (f_vtag f) vt x0) with (@None pval); [reflexivity|].
      symmetry. apply elem_none; [assumption|exact Wx|eauto].
  - discriminate H.
  - discriminate H.
Qed.
End Rec.

Lemma msg_none : forall d id p, wtp E id p -> (msg E false d id p = None <-> nested E (S d) id p).
Proof.
  induction d as [|d IH]; intros id p W.
  - split; [intros _; constructor|reflexivity].
  - cbn [msg]. apply wtp_optP in W. apply (wtp_base E _ WF) in W.
    apply wt_struct_inv in W as (slots & unk & Hv & Ws & Wu).
    assert (Sub : forall f, In f (sd_fields (E id)) ->
      (match nth_error slots (f_slot f) with Some slot => field_den E (msg E false d) (msg E false d) f slot | None => None end = None
       <-> exists slot v id' p', nth_error slots (f_slot f) = Some slot /\
             match f_oneof f with None => v = slot | Some w => slot = VIface (Some (w, Some v)) end /\
             holds_msg E f v id' p' /\ msg E false d id' p' = None)).
    { intros f I. destruct (wf_fields _ _ (WF id) f I) as (Hid & Sup & Hslot). unfold field_den.
      destruct (f_oneof f) as [w|].
      - destruct Hslot as (alts & Hn & Ha). destruct (Forall2_nth_error _ _ _ _ _ Ws Hn) as (slot & Hs & Wslot). rewrite Hs.
        apply wt_iface_inv in Wslot as [->|[(w' & t' & -> & Hl)|(w' & x & t' & -> & Hl & Wx)]]; [| | |reflexivity].
        + split; [discriminate|]. intros (s & v & id' & p' & X & Y & _). congruence.
        + split; [discriminate|]. intros (s & v & id' & p' & X & Y & _). congruence.
        + destruct (Nat.eqb w' w) eqn:Ew.
          * apply Nat.eqb_eq in Ew. subst w'. rewrite Ha in Hl. injection Hl as <-.
            rewrite (data_none _ f x Sup Wx). split.
            -- intros (id' & p' & M & R). exists (VIface (Some (w, Some x))), x, id', p'. auto.
            -- intros (s & v & id' & p' & X & Y & M & R). injection X as <-. injection Y as <-. eauto.
          * split; [discriminate|]. intros (s & v & id' & p' & X & Y & _). subst s. injection X as -> _.
            rewrite Nat.eqb_refl in Ew. discriminate.
      - destruct (Forall2_nth_error _ _ _ _ _ Ws Hslot) as (slot & Hs & Wslot). rewrite Hs.
        rewrite (data_none _ f slot Sup Wslot). split.
        + intros (id' & p' & M & R). exists slot, slot, id', p'. auto.
        + intros (s & v & id' & p' & X & -> & M & R). injection X as <-. eauto. }
    assert (WS : forall f slot v id' p', In f (sd_fields (E id)) -> nth_error slots (f_slot f) = Some slot ->
       match f_oneof f with None => v = slot | Some w => slot = VIface (Some (w, Some v)) end ->
       holds_msg E f v id' p' -> wtp E id' p').
    { intros f slot v id' p' I Hn Ho M. destruct (wf_fields _ _ (WF id) f I) as (Hid & Sup & Hslot).
      assert (Wv : wt E (f_T f) v).
      { destruct (f_oneof f) as [w|].
        - destruct Hslot as (alts & Hn' & Ha). destruct (Forall2_nth_error _ _ _ _ _ Ws Hn') as (s' & Hs & Wslot).
          subst slot. rewrite Hs in Hn. injection Hn as ->. cbn in Wslot. rewrite Ha in Wslot. exact Wslot.
        - subst v. destruct (Forall2_nth_error _ _ _ _ _ Ws Hslot) as (s' & Hs & Wslot). rewrite Hs in Hn; injection Hn as <-; exact Wslot. }
      destruct M as [id' v T O'|id' x T|t0 e0 sp0 x id' q T I' EM|kt0 t0 m k x id' q T I' EM]; rewrite T in Wv.
      - exact Wv.
      - exact Wv.
      - apply wtg_slice in Wv as [Wv _]. rewrite Forall_forall in Wv. apply Wv in I'.
        destruct EM as [id' v|id' q]; [exact I'|]. destruct q; [exact I'|exact Logic.I].
      - apply wtg_map in Wv as [Wv _]. rewrite Forall_forall in Wv. apply Wv in I' as [_ I']. cbn in I'.
        destruct EM as [id' v|id' q]; [exact I'|]. destruct q; [exact I'|exact Logic.I]. }
    rewrite Hv. rewrite option_map_none. unfold fields_den. rewrite option_map_none, omap_none. split.
    + intros (f & I & N). apply Sub in N as (slot & v & id' & p' & Hn & Ho & M & R); [|assumption].
      eapply nest_in with (id' := id') (p' := p'); [exists slots, unk, f, slot, v; auto|].
      apply IH; [|assumption]. eapply WS; eassumption.
    + intro N. inversion N as [|n id0 p0 id' p' S N']; subst.
      destruct S as (slots' & unk' & f & slot & v & Hb & I & Hn & Ho & M).
      rewrite Hv in Hb. injection Hb as <- <-.
      exists f. split; [assumption|]. apply Sub; [assumption|]. exists slot, v, id', p'.
      repeat split; try assumption. apply IH; [|assumption]. eapply WS; eassumption.
Qed.
End Depth.

(** ** Combined statements *)
Lemma blen_length : forall {A} (a b : list A), length a = length b -> blen a = blen b.
Proof. intros A a b H. unfold blen. now rewrite H. Qed.

(** C02 *)
Lemma Size_Marshal : forall E, wf_env E -> forall id v v', wt E (TStruct id) v -> vsame v v' ->
  (forall s, Marshal E (APtr id (Some v)) = Ok s -> blen s < 2^63 ->
     Size E (APtr id (Some v')) = Ok (blen s)) /\
  (forall e, Marshal E (APtr id (Some v)) = Err e <-> Size E (APtr id (Some v')) = Err e).
Proof.
  intros E WF id v v' Hv S.
  assert (Hv' : wt E (TStruct id) v') by (eapply vsame_wt; eassumption).
  pose proof (Marshal_wire E WF id (Some v) Hv) as M.
  pose proof (Size_wire E WF id v' Hv') as Z.
  pose proof (msg_same E WF false 1000 1000 id v v' (le_n _) S) as P.
  destruct (msg E false 1000 id (Some v)) as [m|], (msg E false 1000 id (Some v')) as [m'|];
    cbn in P; try contradiction.
  - destruct M as (s & M & Hs), Z as (n & Z & Hn). apply pequiv_len in P as (_ & _ & P). split.
    + intros s0 H Hl. rewrite M in H. injection H as <-. rewrite Z. f_equal.
      assert (s = wire m) as -> by (apply Hs; left; exact Hl).
      rewrite Hn; [symmetry; apply blen_length; exact P|]. right. unfold small. rewrite <- (blen_length _ _ P). exact Hl.
    + intro e. rewrite M, Z. split; discriminate.
  - split; [intros s H; rewrite M in H; discriminate|]. intro e. rewrite M, Z. split; congruence.
Qed.

(** C34: the encodings of one value under two iteration orders. *)
Lemma Marshal_orders : forall E, wf_env E -> forall id v v', wt E (TStruct id) v -> vsame v v' ->
  match Marshal E (APtr id (Some v)), Marshal E (APtr id (Some v')) with
  | Ok s, Ok s' => blen s < 2^63 -> length s = length s' /\
      exists m m', s = wire m /\ s' = wire m' /\ pequiv m m'
  | Err e, Err e' => e = e'
  | _, _ => False
  end.
Proof.
  intros E WF id v v' Hv S.
  assert (Hv' : wt E (TStruct id) v') by (eapply vsame_wt; eassumption).
  pose proof (Marshal_wire E WF id (Some v) Hv) as M.
  pose proof (Marshal_wire E WF id (Some v') Hv') as M'.
  pose proof (msg_same E WF false 1000 1000 id v v' (le_n _) S) as P.
  destruct (msg E false 1000 id (Some v)) as [m|], (msg E false 1000 id (Some v')) as [m'|];
    cbn in P; try contradiction.
  - destruct M as (s & M & Hs), M' as (s' & M' & Hs'). rewrite M, M'. intro Hl.
    pose proof (Hs (or_introl Hl)) as Es. subst s. pose proof (pequiv_len _ _ P) as (_ & _ & L).
    assert (Es' : s' = wire m') by (apply Hs'; right; unfold small; rewrite <- (blen_length _ _ L); exact Hl).
    subst s'. split; [exact L|]. eauto.
  - rewrite M, M'. reflexivity.
Qed.

(** C07 *)
Lemma Marshal_depth : forall E, wf_env E -> forall id v, wt E (TStruct id) v ->
  (nested E 1001 id (Some v) ->
     Marshal E (APtr id (Some v)) = Err EMaxDepth /\ Size E (APtr id (Some v)) = Err EMaxDepth) /\
  (~ nested E 1001 id (Some v) ->
     exists s n, Marshal E (APtr id (Some v)) = Ok s /\ Size E (APtr id (Some v)) = Ok n).
Proof.
  intros E WF id v Hv.
  pose proof (Marshal_wire E WF id (Some v) Hv) as M.
  pose proof (Size_wire E WF id v Hv) as Z.
  pose proof (msg_none E WF 1000 id (Some v) Hv) as N.
  destruct (msg E false 1000 id (Some v)) as [m|].
  - destruct M as (s & M & _), Z as (n & Z & _). split; [|eauto].
    intro X. apply N in X. discriminate.
  - split; [auto|]. intro X. exfalso. apply X, N. reflexivity.
Qed.

(** C31, C40 *)
Definition no_value_messages (E : env) (id : nat) : Prop :=
  forall f, In f (sd_fields (E id)) -> forall id', f_T f <> TStruct id'.

Lemma zero_data_den : forall E rec recm f, supported f = true -> (forall id', f_T f <> TStruct id') ->
  data_den E rec recm f (zero_of E (f_T f)) = Some [].
Proof.
  intros E rec recm f Sup NV. unfold data_den, supported in *.
  destruct (f_T f) as [k| | |id|t|t|kt vt|alts|] eqn:HT; cbn [zero_of]; try reflexivity; try discriminate;
    repeat (apply andb_prop in Sup as [Sup ?]); try discriminate.
  - now destruct (NV id).
  - destruct (f_packed f); reflexivity.
Qed.

Lemma nil_msg : forall E, wf_env E -> forall two d id, no_value_messages E id ->
  msg E two (S d) id None = Some (QMsg [] []).
Proof.
  intros E WF two d id NV. cbn [msg]. rewrite (wf_zero _ _ (WF id)).
  set (recm := if two then _ else _). clearbody recm.
  replace (fields_den _ _ _ _ _) with (Some (@nil (N * pval))); [reflexivity|]. symmetry.
  unfold fields_den.
  assert (G : forall fs, (forall f, In f fs -> In f (sd_fields (E id))) ->
    exists k, omap (fun f => match nth_error (map (zero_of E) (sd_slots (E id))) (f_slot f) with
      | Some slot => field_den E (msg E two d) recm f slot | None => None end) fs = Some (repeat [] k)).
  { induction fs as [|f fs IH]; intro Hin; [now exists O|].
    destruct IH as [k IH]; [intros; apply Hin; now right|]. exists (S k). cbn [omap repeat]. rewrite IH.
    specialize (Hin f (or_introl eq_refl)). destruct (wf_fields _ _ (WF id) f Hin) as (Hid & Sup & Hslot).
    unfold field_den. destruct (f_oneof f) as [w|].
    - destruct Hslot as (alts & Hn & Ha). rewrite (map_nth_error _ _ _ Hn). reflexivity.
    - rewrite (map_nth_error _ _ _ Hslot). rewrite zero_data_den; auto. }
  destruct (G (sd_fields (E id)) (fun f H => H)) as [k Hk].
  unfold bytes in *. rewrite Hk. cbn [option_map]. f_equal. clear. induction k; cbn; auto.
Qed.

Lemma nil_agree : forall E, wf_env E -> forall id, no_value_messages E id ->
  Marshal E (APtr id None) = Ok [] /\ Size E (APtr id None) = Ok 0.
Proof.
  intros E WF id NV. split; [|reflexivity].
  pose proof (Marshal_wire E WF id None I) as M. rewrite (nil_msg E WF false 999 id NV) in M.
  destruct M as (s & M & H). rewrite M. f_equal. apply H. right. reflexivity.
Qed.

Lemma nil_is_zero : forall E two d id, msg E two d id None = msg E two d id (Some (sd_zero (E id))).
Proof. intros E two [|d] id; reflexivity. Qed.

(** Replace nil elements by pointers to zero structs. *)
Definition fill_elem (E : env) (id : nat) (v : val) : val :=
  match v with VPtr None => VPtr (Some (sd_zero (E id))) | _ => v end.
Definition fill_slot (E : env) (t : gotype) (v : val) : val :=
  match t, v with
  | TSlice (TPtr (TStruct id)), VSlice e sp => VSlice (map (fill_elem E id) e) sp
  | TMap _ (TPtr (TStruct id)), VMap (Some m) => VMap (Some (map (fun kv => (fst kv, fill_elem E id (snd kv))) m))
  | _, _ => v
  end.
Definition fill_nils (E : env) (id : nat) (v : val) : val :=
  match v with
  | VStruct slots u =>
      VStruct (map (fun ts => fill_slot E (fst ts) (snd ts)) (combine (sd_slots (E id)) slots)) u
  | _ => v
  end.

Section Fill.
Variable E : env.
Hypothesis WF : wf_env E.

Lemma fill_elem_den : forall (r : nat -> option val -> option pval) id tag v,
  (forall id, r id None = r id (Some (sd_zero (E id)))) ->
  value_den r tag (TPtr (TStruct id)) (fill_elem E id v) = value_den r tag (TPtr (TStruct id)) v.
Proof. intros r id tag v H. destruct v as [| | | |[x|]| | | |]; try reflexivity. cbn. symmetry. apply H. Qed.

Lemma omap_map : forall {A B C} (f : B -> option C) (g : A -> B) l, omap f (map g l) = omap (fun x => f (g x)) l.
Proof. intros. induction l as [|x l IH]; [reflexivity|]. cbn. now rewrite IH. Qed.

Lemma fill_slot_den : forall rec recm f v,
  (forall id, rec id None = rec id (Some (sd_zero (E id)))) ->
  (forall id, recm id None = recm id (Some (sd_zero (E id)))) ->
  data_den E rec recm f (fill_slot E (f_T f) v) = data_den E rec recm f v.
Proof.
  intros rec recm f v H1 H2. unfold data_den.
  destruct (f_T f) as [k| | |id|t|t|kt vt|alts|] eqn:HT; try reflexivity.
  - destruct t as [| | | |[| | |id| | | | |]| | | |]; try reflexivity. destruct v; try reflexivity. cbn [fill_slot].
    rewrite omap_map. rewrite (omap_ext_in (fun x => value_den rec (f_tag f) (TPtr (TStruct id)) (fill_elem E id x)) (value_den rec (f_tag f) (TPtr (TStruct id)))); [reflexivity|].
    intros. now apply fill_elem_den.
  - destruct vt as [| | | |[| | |id| | | | |]| | | |]; try reflexivity.
    destruct v as [| | | | | |[m|]| |]; try reflexivity. cbn [fill_slot].
    rewrite omap_map. f_equal. apply omap_ext_in. intros [k x] _. unfold entry_den. cbn [fst snd].
    now rewrite fill_elem_den.
Qed.

Lemma wt_fill : forall id v, wt E (TStruct id) v -> wt E (TStruct id) (fill_nils E id v).
Proof.
  intros id v W. unfold wt in *. destruct v as [| | | | | | |slots u|]; try exact W. cbn [fill_nils].
  apply wtg_struct in W as [W Wu]. apply wtg_struct. split; [|exact Wu].
  induction W as [|t x ts l Hx W IH]; [constructor|]. cbn [combine map fst snd]. constructor; [|assumption].
  clear - Hx WF.
  assert (FE : forall id' y, wtg E (fun _ _ => True) false (TPtr (TStruct id')) y -> wtg E (fun _ _ => True) false (TPtr (TStruct id')) (fill_elem E id' y)).
  { intros id' y Hy. destruct y as [| | | |[y|]| | | |]; try exact Hy. cbn. now apply wt_zero_struct. }
  destruct t as [| | | | |t|kt vt| |]; try exact Hx.
  - destruct t as [| | | |[| | |id'| | | | |]| | | |]; try exact Hx. destruct x; try exact Hx. cbn [fill_slot].
    apply wtg_slice in Hx as [H1 H2]. apply wtg_slice. split; [|assumption]. apply Forall_map.
    eapply Forall_impl; [|exact H1]. apply FE.
  - destruct vt as [| | | |[| | |id'| | | | |]| | | |]; try exact Hx. destruct x as [| | | | | |[m|]| |]; try exact Hx. cbn [fill_slot].
    apply wtg_map in Hx as [H1 H2]. apply wtg_map. split.
    + apply Forall_map. eapply Forall_impl; [|exact H1]. intros [k y] [A B]. split; [exact A|]. apply FE, B.
    + rewrite map_map. exact H2.
Qed.

Lemma msg_fill : forall two d id v, wt E (TStruct id) v -> msg E two d id (Some (fill_nils E id v)) = msg E two d id (Some v).
Proof.
  intros two [|d] id v W; [reflexivity|]. destruct v as [| | | | | | |slots u|]; try reflexivity.
  cbn [msg fill_nils]. set (recm := if two then _ else _). f_equal. unfold fields_den. f_equal. apply omap_ext_in.
  intros f I. destruct (wf_fields _ _ (WF id) f I) as (Hid & Sup & Hslot).
  apply wtg_struct in W as [W _].
  assert (Hc : forall t, nth_error (sd_slots (E id)) (f_slot f) = Some t ->
    nth_error (map (fun ts => fill_slot E (fst ts) (snd ts)) (combine (sd_slots (E id)) slots)) (f_slot f) =
    option_map (fill_slot E t) (nth_error slots (f_slot f))).
  { clear - W. generalize (f_slot f). induction W as [|t x ts l Hx W IH]; intros n t0 Hn; destruct n; cbn in *; try discriminate; auto.
    now injection Hn as <-. }
  unfold field_den. destruct (f_oneof f) as [w|].
  - destruct Hslot as (alts & Hn & Ha). rewrite (Hc _ Hn). destruct (nth_error slots (f_slot f)); reflexivity.
  - rewrite (Hc _ Hslot). destruct (nth_error slots (f_slot f)); [|reflexivity]. cbn [option_map].
    apply fill_slot_den; intro; [apply nil_is_zero|].
    unfold recm. destruct two; [destruct d; [reflexivity|apply nil_is_zero]|apply nil_is_zero].
Qed.

Lemma Marshal_fill : forall id v, wt E (TStruct id) v ->
  match Marshal E (APtr id (Some v)) with
  | Ok s => blen s < 2^63 -> Marshal E (APtr id (Some (fill_nils E id v))) = Ok s
  | r => Marshal E (APtr id (Some (fill_nils E id v))) = r
  end.
Proof.
  intros id v W. pose proof (Marshal_wire E WF id (Some v) W) as M.
  pose proof (Marshal_wire E WF id (Some _) (wt_fill _ _ W)) as M'. rewrite (msg_fill _ _ _ _ W) in M'.
  destruct (msg E false 1000 id (Some v)) as [m|].
  - destruct M as (s & M & H), M' as (s' & M' & H'). rewrite M, M'. intro Hs. pose proof (H (or_introl Hs)) as Es. subst s.
    f_equal. apply H'. right. exact Hs.
  - rewrite M, M'. reflexivity.
Qed.
End Fill.

(** C06 *)
(** The places of a message where an int32 (or enum) can be stored. *)
Inductive int32_position (n : N) : fdesc -> val -> bytes -> Prop :=
| pos_singular id slot w : n <> 0 -> let f := mkF id slot TagVarint false false TagNone TagNone (TScalar Int32) w in
    int32_position n f (VNum n) (tag (Z.to_N id) 0 ++ varint (u64_of (int32_of n)))
| pos_optional id slot w : let f := mkF id slot TagVarint false false TagNone TagNone (TPtr (TScalar Int32)) w in
    int32_position n f (VPtr (Some (VNum n))) (tag (Z.to_N id) 0 ++ varint (u64_of (int32_of n)))
| pos_list id slot sp : let f := mkF id slot TagVarint true false TagNone TagNone (TSlice (TScalar Int32)) None in
    int32_position n f (VSlice [VNum n] sp) (tag (Z.to_N id) 0 ++ varint (u64_of (int32_of n)))
| pos_packed id slot sp : let f := mkF id slot TagVarint true true TagNone TagNone (TSlice (TScalar Int32)) None in
    int32_position n f (VSlice [VNum n] sp) (tag (Z.to_N id) 2 ++ lendelim (varint (u64_of (int32_of n))))
| pos_key id slot : let f := mkF id slot TagBytes true false TagVarint TagBytes (TMap (TScalar Int32) TString) None in
    int32_position n f (VMap (Some [(VNum n, VStr [])]))
      (tag (Z.to_N id) 2 ++ lendelim (tag 1 0 ++ varint (u64_of (int32_of n)) ++ tag 2 2 ++ varint 0))
| pos_value id slot : let f := mkF id slot TagBytes true false TagBytes TagVarint (TMap TString (TScalar Int32)) None in
    int32_position n f (VMap (Some [(VStr [], VNum n)]))
      (tag (Z.to_N id) 2 ++ lendelim (tag 1 2 ++ varint 0 ++ tag 2 0 ++ varint (u64_of (int32_of n))))
| pos_map_both id slot m : n < 2^32 -> m < 2^32 ->
    let f := mkF id slot TagBytes true false TagVarint TagVarint (TMap (TScalar Int32) (TScalar Int32)) None in
    int32_position n f (VMap (Some [(VNum n, VNum m)]))
      (tag (Z.to_N id) 2 ++ lendelim (tag 1 0 ++ varint (u64_of (int32_of n)) ++ tag 2 0 ++ varint (u64_of (int32_of m)))).

Lemma int32_everywhere : forall E id f n v out, wf_env E -> n < 2^32 -> int32_position n f v out ->
  sd_fields (E id) = [f] -> f_oneof f = None -> sd_slots (E id) = [f_T f] ->
  wt E (TStruct id) (VStruct [v] None) -> small out ->
  Marshal E (APtr id (Some (VStruct [v] None))) = Ok out.
Proof.
  intros E id f n v out WF Hn P HF Ho HS W Hout.
  assert (Hslot : f_slot f = O).
  { assert (HIn : In f (sd_fields (E id))) by (rewrite HF; now left).
    destruct (wf_fields _ _ (WF id) f HIn) as (_ & _ & X).
    rewrite Ho in X. rewrite HS in X. destruct (f_slot f) as [|[|k]]; [reflexivity|discriminate X|discriminate X]. }
  pose proof (Marshal_wire E WF id (Some (VStruct [v] None)) W) as M.
  assert (U : forall d, msg E false (S d) id (Some (VStruct [v] None)) =
    option_map (fun fs => QMsg fs []) (fields_den E (msg E false d) (msg E false d) (sd_fields (E id)) [v])) by reflexivity.
  rewrite U in M. clear U.
  rewrite HF in M. unfold fields_den in M. cbn [omap] in M. rewrite Hslot in M. cbn [nth_error] in M.
  unfold field_den in M. rewrite Ho in M.
  assert (D : exists fs, data_den E (msg E false 999) (msg E false 999) f v = Some fs /\ wire_fields fs = out).
  { clear - P. generalize (msg E false 999). intro rec. destruct P; try subst f; cbn -[N.eqb tag varint lendelim]; try (eexists; split; [reflexivity|]).
    - destruct (n =? 0) eqn:Z; [apply N.eqb_eq in Z; contradiction|]. eexists. split; [reflexivity|].
      unfold wire_fields, record_of; cbn -[tag varint]. now rewrite app_nil_r.
    - unfold wire_fields, record_of; cbn -[tag varint]. now rewrite app_nil_r.
    - unfold wire_fields, record_of; cbn -[tag varint]. now rewrite app_nil_r.
    - unfold wire_fields, record_of; cbn -[tag varint]. now rewrite !app_nil_r.
    - unfold wire_fields, record_of; cbn -[tag varint lendelim]. rewrite !app_nil_r, <- !app_assoc. reflexivity.
    - unfold wire_fields, record_of; cbn -[tag varint lendelim]. rewrite !app_nil_r, <- !app_assoc. reflexivity.
    - unfold wire_fields, record_of; cbn -[tag varint lendelim]. rewrite !app_nil_r, <- !app_assoc. reflexivity. }
  destruct D as (fs & D & Hw). rewrite D in M. cbn [omap option_map concat] in M. rewrite app_nil_r in M.
  destruct M as (s & M & H). rewrite M. f_equal. cbn [wire] in H. rewrite app_nil_r, Hw in H. apply H. now right.
Qed.

(** C04: the records of a message come in ascending order of field numbers. *)
Lemma data_den_num : forall E rec recm f v fs, data_den E rec recm f v = Some fs -> Forall (fun r => fst r = field_num f) fs.
Proof.
  intros E rec recm f v fs H.
  assert (M : forall l : list pval, Forall (fun r => fst r = field_num f) (map (fun p => (field_num f, p)) l)).
  { induction l; constructor; auto. }
  assert (O : forall o, option_map (fun p => [(field_num f, p)]) o = Some fs -> Forall (fun r : N * pval => fst r = field_num f) fs).
  { intros [p|] X; [|discriminate]. injection X as <-. repeat constructor. }
  assert (S : forall t, (if omitted E t v then Some [] else option_map (fun p => [(field_num f, p)]) (value_den rec (f_tag f) t v)) = Some fs ->
     Forall (fun r : N * pval => fst r = field_num f) fs).
  { intros t X. destruct (omitted E t v); [injection X as <-; constructor|eauto]. }
  unfold data_den in H. destruct (f_T f) as [| | | |t|t|kt vt| |]; try (apply S in H; exact H).
  - destruct v as [| | | |[x|]| | | |]; try (apply S in H; exact H); [apply O in H; exact H|injection H as <-; constructor].
  - destruct v; try (apply S in H; exact H). destruct (omap _ _) as [l|]; [|discriminate]. injection H as <-.
    destruct (f_packed f); [|apply M]. destruct l; repeat constructor.
  - destruct v; try (apply S in H; exact H). destruct (omap _ _) as [l|]; [|discriminate]. injection H as <-. apply M.
Qed.

Lemma field_den_num : forall E rec recm f v fs, field_den E rec recm f v = Some fs -> Forall (fun r => fst r = field_num f) fs.
Proof.
  intros E rec recm f v fs H. unfold field_den in H. destruct (f_oneof f) as [w|]; [|eapply data_den_num; eassumption].
  destruct v as [| | | | | | | |[[w' [x|]]|]]; try (injection H as <-; constructor).
  destruct (Nat.eqb w' w); [eapply data_den_num; eassumption|injection H as <-; constructor].
Qed.

Lemma msg_sorted : forall E, wf_env E -> forall two d id p fs u, msg E two d id p = Some (QMsg fs u) ->
  Sorted.StronglySorted N.le (map fst fs) /\
  Forall (fun r => exists f, In f (sd_fields (E id)) /\ fst r = field_num f) fs.
Proof.
  intros E WF two [|d] id p fs u H; [discriminate|]. cbn [msg] in H.
  destruct (match p with Some v => v | None => sd_zero (E id) end) as [| | | | | | |slots unk|]; try discriminate.
  set (recm := if two then _ else _) in H. clearbody recm.
  destruct (fields_den _ _ _ _ _) as [fs0|] eqn:F; [|discriminate]. injection H as <- _. unfold fields_den in F.
  pose proof (wf_sorted _ _ (WF id)) as Srt. pose proof (wf_fields _ _ (WF id)) as Wf.
  assert (G : forall l fs, (forall f, In f l -> (1 <= f_id f)%Z) -> Sorted.StronglySorted (fun f g => (f_id f < f_id g)%Z) l ->
    option_map (@concat _) (omap (fun f => match nth_error slots (f_slot f) with
       | Some slot => field_den E (msg E two d) recm f slot | None => None end) l) = Some fs ->
    Sorted.StronglySorted N.le (map fst fs) /\ Forall (fun r => exists f, In f l /\ fst r = field_num f) fs).
  { clear. induction l as [|f l IH]; intros fs Hid Srt H.
    - injection H as <-. split; constructor.
    - cbn [omap] in H. destruct (match nth_error slots (f_slot f) with Some slot => field_den E (msg E two d) recm f slot | None => None end) as [a|] eqn:A; [|discriminate].
      destruct (omap _ l) as [r|]; [|discriminate]. injection H as <-. cbn [concat].
      inversion Srt as [|? ? S1 S2]; subst.
      destruct (IH (concat r) (fun g I => Hid g (or_intror I)) S1 eq_refl) as [I1 I2].
      assert (Ha : Forall (fun x => fst x = field_num f) a).
      { destruct (nth_error slots (f_slot f)); [|discriminate]. eapply field_den_num. eassumption. }
      assert (Hr : Forall (fun x => field_num f <= fst x) (concat r)).
      { eapply Forall_impl; [|exact I2]. intros x (g & Ig & ->). rewrite Forall_forall in S2. specialize (S2 g Ig).
        specialize (Hid f (or_introl eq_refl)). unfold field_num. lia. }
      split.
      + rewrite map_app. clear - Ha Hr I1. induction Ha as [|x a Hx Ha IHa]; [exact I1|]. cbn. constructor; [exact IHa|].
        apply Forall_app. split.
        * clear - Hx Ha. rewrite Forall_map. eapply Forall_impl; [|exact Ha]. intros y Hy. cbn in *. rewrite Hx, Hy. reflexivity.
        * rewrite Forall_map. eapply Forall_impl; [|exact Hr]. intros y Hy. cbn. now rewrite Hx.
      + apply Forall_app. split.
        * eapply Forall_impl; [|exact Ha]. intros x Hx. exists f. split; [now left|exact Hx].
        * eapply Forall_impl; [|exact I2]. intros x (g & Ig & Hg). exists g. split; [now right|exact Hg]. }
  apply G; auto. intros f I. destruct (Wf f I) as [X _]. lia.
Qed.
