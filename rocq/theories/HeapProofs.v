(** Encoding a value in memory is encoding the tree seen from it. *)
From Coq Require Import Lia.
From Verif Require Import Base Wire Coder MapTables Value WireVal Desc Encoder Sizer MsgSpec ValFacts Heap EncoderH SizerH.
Open Scope N_scope.

(** ** The functions of internal/wire read one level *)
Definition sl (v w : val) : Prop := as_num v = as_num w /\ as_bytes v = as_bytes w.
Definition rl {A} (R : A -> A -> Prop) (x y : res (list A)) : Prop :=
  match x, y with Ok a, Ok b => Forall2 R a b | Panic, Panic => True | _, _ => False end.
Definition sl1 (v w : val) : Prop :=
  sl v w /\ rl sl (as_elems v) (as_elems w) /\ rl (fun a b => sl (fst a) (fst b) /\ sl (snd a) (snd b)) (as_entries v) (as_entries w).

Lemma mapM_ext2 : forall {A B} (f : A -> res B) (R : A -> A -> Prop) l l', (forall a b, R a b -> f a = f b) -> Forall2 R l l' -> mapM f l = mapM f l'.
Proof. intros A B f R l l' H F. induction F; cbn; [reflexivity|]. now rewrite (H _ _ H0), IHF. Qed.
Lemma F2_length : forall {A B} (Q : A -> B -> Prop) l l', Forall2 Q l l' -> length l = length l'.
Proof. intros A B Q l l' F. induction F; cbn; congruence. Qed.
Lemma elems_mapM : forall {B} (f : val -> res B) v w, (forall a b, sl a b -> f a = f b) -> sl1 v w ->
  forall {C} (k : list B -> res C), bind (as_elems v) (fun e => bind (mapM f e) k) = bind (as_elems w) (fun e => bind (mapM f e) k).
Proof.
  intros B f v w H (_ & L & _) C k. unfold rl in L. destruct (as_elems v), (as_elems w); try contradiction; [|reflexivity]. cbn [bind].
  now rewrite (mapM_ext2 f sl _ _ H L).
Qed.
Lemma num_sl : forall a b, sl a b -> as_num a = as_num b. Proof. now intros a b []. Qed.
Lemma bytes_sl : forall a b, sl a b -> as_bytes a = as_bytes b. Proof. now intros a b []. Qed.

Lemma appendFuncs_sl : forall c g, appendFuncs c = Some g -> forall b v w, sl v w -> g b v = g b w.
Proof.
  intros c g H b v w [N S]. destruct c; cbn in H; try discriminate; injection H as <-; unfold num_fn, bytes_fn; rewrite ?N, ?S; reflexivity.
Qed.
Lemma packed_sl : forall c g, appendPackedFuncs c = Some g -> forall b v w, sl1 v w -> g b v = g b w.
Proof.
  intros c g H b v w S.
  destruct c; cbn in H; try discriminate; injection H as <-;
    unfold UnsafeAppendPackedVarintU32, UnsafeAppendPackedVarintI32, UnsafeAppendPackedVarintU64, UnsafeAppendPackedZigZag32, UnsafeAppendPackedZigZag64,
      UnsafeAppendPackedFixed32, UnsafeAppendPackedFixed64, UnsafeAppendPackedBool, packed_lenpack; exact (elems_mapM as_num v w num_sl S _).
Qed.
Lemma GetAppend_sl : forall c p g, GetAppendFunc c p = Some g -> forall b v w, sl1 v w -> g b v = g b w.
Proof.
  intros c p g H b v w S. destruct p; cbn in H; [exact (packed_sl c g H b v w S)|exact (appendFuncs_sl c g H b v w (proj1 S))].
Qed.
Lemma list_sl : forall c g, appendListFuncs c = Some g -> forall b t v w, sl1 v w -> g b t v = g b t w.
Proof.
  intros c g H b t v w S. destruct c; cbn in H; try discriminate; injection H as <-; unfold num_list, bytes_list;
    first [exact (elems_mapM as_num v w num_sl S _)|exact (elems_mapM as_bytes v w bytes_sl S _)].
Qed.
Lemma payload_sl : forall m b v w, sl v w -> mapenc_payload m b v = mapenc_payload m b w.
Proof. intros m b v w [N S]. destruct m; cbn; rewrite ?N, ?S; reflexivity. Qed.
Lemma AppendMap_sl : forall row b t v w, sl1 v w -> AppendMap row b t v = AppendMap row b t w.
Proof.
  intros row b t v w (_ & _ & M). unfold AppendMap. unfold rl in M. destruct (as_entries v) as [l| | |], (as_entries w) as [l'| | |]; try contradiction; [|reflexivity]. cbn [bind].
  revert b. induction M as [|[k x] [k' x'] l l' [K X] M IH]; intro b; [reflexivity|]. cbn [append_map_entries]. cbn [fst snd] in K, X.
  unfold appendMapKey, appendMapValue. rewrite (payload_sl _ _ _ _ K). destruct (mapenc_payload (fst row) _ k'); cbn [bind]; [|reflexivity..].
  rewrite (payload_sl _ _ _ _ X). destruct (mapenc_payload (snd row) _ x'); cbn [bind]; [|reflexivity..]. apply IH.
Qed.
Lemma size_sl : forall c g, sizeFuncs c = Some g -> forall v w, sl v w -> g v = g w.
Proof. intros c g H v w [N S]. destruct c; cbn in H; try discriminate; injection H as <-; unfold num_sz, bytes_sz; rewrite ?N, ?S; reflexivity. Qed.
Lemma mapsz_sl : forall s v w, sl v w -> mapsz_fn s v = mapsz_fn s w.
Proof. intros s v w [N S]. destruct s; cbn; unfold num_sz; rewrite ?N, ?S; reflexivity. Qed.
Lemma SizeMap_sl : forall row v w n, sl1 v w -> SizeMap row v n = SizeMap row w n.
Proof.
  intros row v w n (_ & _ & M). unfold SizeMap. unfold rl in M. destruct (as_entries v) as [l| | |], (as_entries w) as [l'| | |]; try contradiction; [|reflexivity]. cbn [bind].
  induction M as [|[k x] [k' x'] l l' [K X] M IH]; [reflexivity|]. cbn [size_map_entries]. cbn [fst snd] in K, X.
  rewrite (mapsz_sl _ _ _ K), (mapsz_sl _ _ _ X), IH. reflexivity.
Qed.

(** ** Trees seen from memory *)
Section HvInd.
Variable P : hv -> Prop.
Hypothesis Hu : P HUninit. Hypothesis Hn : forall n, P (HNum n). Hypothesis Hs : forall s, P (HStr s). Hypothesis Hb : forall s, P (HBytes s).
Hypothesis Hp : forall p, P (HPtr p). Hypothesis Hl : forall a o l c, P (HSlice a o l c). Hypothesis Hm : forall m, P (HMap m).
Hypothesis Hst : forall l u, Forall P l -> P (HStruct l u). Hypothesis Hi : forall i, P (HIface i).
Fixpoint hv_ind' (x : hv) : P x :=
  match x with
  | HUninit => Hu | HNum n => Hn n | HStr s => Hs s | HBytes s => Hb s | HPtr p => Hp p
  | HSlice a o l c => Hl a o l c | HMap m => Hm m
  | HStruct l u => Hst l u ((fix go l : Forall P l := match l with [] => Forall_nil P | x :: r => Forall_cons x (hv_ind' x) (go r) end) l)
  | HIface i => Hi i
  end.
End HvInd.

Section H.
Variable h : heap.
Notation U := (unroll h).

Lemma unroll_struct : forall n l u, U n (HStruct l u) = VStruct (map (U n) l) u.
Proof. intros n l u. destruct n; reflexivity. Qed.

Lemma unroll_sl : forall n m x, sl (U n x) (U m x).
Proof. intros n m x. unfold sl. destruct x, n, m; now split. Qed.
Lemma unroll_sl1 : forall n m x, sl1 (U (S n) x) (U (S m) x).
Proof.
  intros n m x. split; [apply unroll_sl|]. destruct x as [| | | |p|a o l c|[a|]| |]; cbn; (split; [|try exact I]); try exact I.
  - induction (elems h a o l); cbn; constructor; [apply unroll_sl|assumption].
  - induction (entries (h a)); cbn; constructor; [split; apply unroll_sl|assumption].
  - constructor.
Qed.
Lemma unroll_zero : forall n m x, raw_zero (U (S n) x) = raw_zero (U (S m) x).
Proof.
  intros n m x. induction x as [| | | |p|a o l c|[a|]|l u F|[[w p]|]] using hv_ind'; try reflexivity.
  - destruct p; reflexivity.
  - cbn. destruct (elems h a o l); cbn; [|reflexivity]. destruct (spares h a o l c); reflexivity.
  - rewrite !unroll_struct. cbn [raw_zero]. f_equal. induction F as [|y l Y F IH]; [reflexivity|]. cbn [map forallb]. now rewrite Y, IH.
Qed.
Lemma unroll_len : forall n m x, slice_len (U (S n) x) = slice_len (U (S m) x).
Proof. intros n m x. destruct x; try reflexivity. cbn. now rewrite !map_length. Qed.

(** [v] is the tree seen from [x] at distance at least [K]. *)
Definition R (K : nat) (v : val) (x : hv) : Prop := exists N, (K <= N)%nat /\ v = U N x.
Definition oR (K : nat) (p : option val) (q : option hv) : Prop :=
  match p, q with Some v, Some x => R K v x | None, None => True | _, _ => False end.
Lemma R_mono : forall K K' v x, (K' <= K)%nat -> R K v x -> R K' v x.
Proof. intros K K' v x L (N & H & ->). exists N. split; [lia|reflexivity]. Qed.
Lemma oR_mono : forall K K' v x, (K' <= K)%nat -> oR K v x -> oR K' v x.
Proof. intros K K' [v|] [x|] L H; cbn in *; try assumption. now apply (R_mono K). Qed.
Lemma R_sl1 : forall v x, R 1 v x -> sl1 v (view h x).
Proof. intros v x (N & H & ->). destruct N; [lia|]. apply unroll_sl1. Qed.
Lemma R_sl : forall K v x, R K v x -> sl v (view h x).
Proof. intros K v x (N & H & ->). apply unroll_sl. Qed.

Lemma oneof_R : forall K f v x, R (S K) v x ->
  match oneof_data f v, oneof_dataH h f x with
  | Ok (Some v'), Ok (Some x') => R K v' x' | Ok None, Ok None => True | Panic, Panic => True | _, _ => False
  end.
Proof.
  intros K f v x (N & H & ->). unfold oneof_data, oneof_dataH. destruct (f_oneof f) as [w|].
  - destruct N; [lia|]. destruct x as [| | | | | | | |[[w' [p|]]|]]; cbn; try exact I. destruct (Nat.eqb w' w); [|exact I]. exists N. split; [lia|reflexivity].
  - exists N. split; [lia|reflexivity].
Qed.
Lemma deref_R : forall K t v x, R (S K) v x ->
  match deref t v, derefH h t x with
  | Ok (t1, p1), Ok (t2, p2) => t1 = t2 /\ oR K p1 p2 | Panic, Panic => True | _, _ => False
  end.
Proof.
  intros K t v x (N & H & ->). unfold deref, derefH.
  destruct t; try (split; [reflexivity|]; exists N; split; [lia|reflexivity]).
  destruct N; [lia|]. destruct x as [| | | |[p|]| | | |]; cbn; try exact I; (split; [reflexivity|]); [|exact I]. exists N. split; [lia|reflexivity].
Qed.
Lemma struct_elem_R : forall K t v x, R (S K) v x ->
  match struct_elem t v, struct_elemH h t x with
  | Ok (t1, p1), Ok (t2, p2) => t1 = t2 /\ oR K p1 p2 | Panic, Panic => True | _, _ => False
  end.
Proof.
  intros K t v x (N & H & ->). unfold struct_elem, struct_elemH.
  destruct t as [| | |id|t| | | |]; try exact I; [split; [reflexivity|]; exists N; split; [lia|reflexivity]|].
  destruct t; try exact I.
  destruct N; [lia|]. destruct x as [| | | |[p|]| | | |]; cbn; try exact I; (split; [reflexivity|]); [|exact I]. exists N. split; [lia|reflexivity].
Qed.
Lemma elems_R : forall K v x, R (S K) v x ->
  match as_elems v, elemsH h x with Ok l, Ok l' => Forall2 (R K) l l' | Panic, Panic => True | _, _ => False end.
Proof.
  intros K v x (N & H & ->). destruct N; [lia|]. destruct x as [| | | | |a o l c| | |]; cbn; try exact I.
  induction (elems h a o l); cbn; constructor; [|assumption]. exists N. split; [lia|reflexivity].
Qed.
Lemma entries_R : forall K v x, R (S K) v x ->
  match as_entries v, entriesH h x with
  | Ok l, Ok l' => Forall2 (fun a b => R K (fst a) (fst b) /\ R K (snd a) (snd b)) l l' | Panic, Panic => True | _, _ => False end.
Proof.
  intros K v x (N & H & ->). destruct N; [lia|]. destruct x as [| | | | | |[a|]| |]; cbn; try exact I; [|constructor].
  induction (entries (h a)); cbn; constructor; [|assumption]. split; exists N; (split; [lia|reflexivity]).
Qed.
Lemma must_R : forall K p q, oR K p q ->
  match must p, mustH q with Ok v, Ok x => R K v x | Panic, Panic => True | _, _ => False end.
Proof. intros K [v|] [x|] H; cbn in *; assumption. Qed.

(** Values without references *)
Fixpoint noref (v : val) : Prop :=
  match v with
  | VPtr p => p = None | VSlice e s => e = [] /\ s = [] | VMap m => m = None | VIface i => i = None
  | VStruct l _ => (fix go l := match l with [] => True | x :: r => noref x /\ go r end) l
  | _ => True
  end.
Lemma embed_unroll : forall v, noref v -> forall n, U n (embed v) = v.
Proof.
  fix IH 1. intros [|k|s|s|p|e s|m|l u|i] H n; cbn [noref] in H; try (destruct n; reflexivity).
  - subst p. destruct n; reflexivity.
  - destruct H as [-> ->]. destruct n; reflexivity.
  - subst m. destruct n; reflexivity.
  - cbn [embed]. rewrite unroll_struct. f_equal. induction l as [|x l IHl]; [reflexivity|]. destruct H as [X L]. cbn [map]. f_equal; [apply IH, X|apply IHl, L].
  - subst i. destruct n; reflexivity.
Qed.
End H.

Lemma zero_noref : forall E, wf_env E -> forall id, noref (sd_zero (E id)).
Proof.
  intros E W. assert (A : forall v, forall id, sd_zero (E id) = v -> noref v).
  { induction v as [|n|s|s|p _|e sp _ _|m _|l u F|i _] using val_ind'; intros id Z; cbn; rewrite (wf_zero _ _ (W id)) in Z; try discriminate.
    injection Z as Z _. revert l F Z. induction (sd_slots (E id)) as [|t ts IHt]; intros [|x l] F Z; try discriminate; [exact I|].
    injection Z as X L. inversion F as [|? ? FX FL]. subst x0 l0. split; [|now apply IHt].
    destruct t; cbn in X; try (rewrite <- X; cbn; auto). rewrite X. exact (FX id0 X). }
  intro id. exact (A _ id eq_refl).
Qed.

(** ** The encoder *)
Section Enc.
Variable E : env.
Variable h : heap.
Hypothesis W : wf_env E.
Notation R := (R h).
Notation oR := (oR h).

Lemma skip_R : forall t v x, R 1 v x -> skipzero E t v = skipzeroH E h t x.
Proof.
  intros t v x (N & H & ->). destruct N; [lia|]. unfold skipzeroH, skipzero, view. now rewrite (unroll_zero h N 0 x), (unroll_len h N 0 x).
Qed.
Lemma leaf_R : forall c p g, GetAppendFunc c p = Some g -> forall b v x, R 1 v x -> g b v = leaf h g b x.
Proof. intros c p g H b v x X. exact (GetAppend_sl c p g H b v _ (R_sl1 h v x X)). Qed.

Section Rec.
Variables (rec : nat -> bytes -> option val -> res bytes) (recH : nat -> bytes -> option hv -> res bytes).
Variable K : nat.
Hypothesis HK : (1 <= K)%nat.
Hypothesis HR : forall id b p q, oR K p q -> rec id b p = recH id b q.

Lemma struct_elems_R : forall t tag l l', Forall2 (R (S K)) l l' -> forall b,
  append_struct_elems rec t tag b l = append_struct_elemsH h recH t tag b l'.
Proof.
  intros t tag l l' F. induction F as [|v x l l' X F IH]; intro b; [reflexivity|]. cbn [append_struct_elems append_struct_elemsH].
  pose proof (struct_elem_R h K t v x X) as S. destruct (struct_elem t v) as [[id p]| | |], (struct_elemH h t x) as [[id' q]| | |]; try contradiction; [|reflexivity].
  destruct S as [<- O]. cbn [bind]. rewrite (HR _ _ _ _ O). destruct (recH id _ q); cbn [bind]; [apply IH|reflexivity..].
Qed.
Lemma list_R : forall f b v x, R (S (S K)) v x -> AppendListField rec f b v = AppendListFieldH h recH f b x.
Proof.
  intros f b v x X. unfold AppendListField, AppendListFieldH. destruct (f_T f); try reflexivity.
  pose proof (elems_R h _ v x X) as S. destruct (as_elems v), (elemsH h x); try contradiction; [|reflexivity]. cbn [bind]. now apply struct_elems_R.
Qed.
Lemma map_loop_R : forall f kf kfH vf vfH, (forall b v x, R (S K) v x -> kf b v = kfH b x) -> (forall b v x, R (S K) v x -> vf b v = vfH b x) ->
  forall m m', Forall2 (fun a b => R (S K) (fst a) (fst b) /\ R (S K) (snd a) (snd b)) m m' -> forall b,
  append_map_loop f kf vf b m = append_map_loopH f kfH vfH b m'.
Proof.
  intros f kf kfH vf vfH HKF HVF m m' F. induction F as [|[k v] [k' v'] m m' [A B] F IH]; intro b; [reflexivity|]. cbn [fst snd] in A, B.
  cbn [append_map_loop append_map_loopH]. unfold append_map_entry, append_map_entryH. rewrite (HKF _ _ _ A).
  destruct (kfH _ k'); cbn [bind]; [|reflexivity..]. rewrite (HVF _ _ _ B). destruct (vfH _ v'); cbn [bind]; [apply IH|reflexivity..].
Qed.
Lemma key_R : forall c b v x, R (S K) v x -> opt_fn (GetAppendFunc c false) b v = leaf h (opt_fn (GetAppendFunc c false)) b x.
Proof.
  intros c b v x X. destruct (GetAppendFunc c false) as [g|] eqn:G; [|reflexivity]. apply (leaf_R c false g G). apply (R_mono h (S K)); [lia|exact X].
Qed.
Lemma val_R : forall t b v x, R (S K) v x -> append_struct_value rec t b v = append_struct_valueH h recH t b x.
Proof.
  intros t b v x X. unfold append_struct_value, append_struct_valueH.
  pose proof (struct_elem_R h K t v x X) as S. destruct (struct_elem t v) as [[id p]| | |], (struct_elemH h t x) as [[id' q]| | |]; try contradiction; [|reflexivity].
  destruct S as [<- O]. cbn [bind]. now apply HR.
Qed.
Lemma str_R : forall b v x, R (S K) v x ->
  bytes_fn (fun b k => AppendVarint b (blen k) ++ k) b v = leaf h (bytes_fn (fun b k => AppendVarint b (blen k) ++ k)) b x.
Proof. intros b v x X. unfold leaf, bytes_fn. now rewrite (bytes_sl _ _ (R_sl h _ v x X)). Qed.
Lemma map_R_with : forall f v x kf kfH vf vfH b, R (S (S K)) v x ->
  (forall b v x, R (S K) v x -> kf b v = kfH b x) -> (forall b v x, R (S K) v x -> vf b v = vfH b x) ->
  (do m <- as_entries v; append_map_loop f kf vf b m) = (do m <- entriesH h x; append_map_loopH f kfH vfH b m).
Proof.
  intros f v x kf kfH vf vfH b X A B. pose proof (entries_R h _ v x X) as S. destruct (as_entries v), (entriesH h x); try contradiction; [|reflexivity].
  cbn [bind]. now apply map_loop_R.
Qed.
Lemma map_generic_R : forall f b v x, R (S (S K)) v x -> AppendMapGeneric rec f b v = AppendMapGenericH h recH f b x.
Proof.
  intros f b v x X. unfold AppendMapGeneric, AppendMapGenericH. destruct (f_T f); try reflexivity.
  apply map_R_with; [exact X|apply key_R|]. destruct (GetAppendFunc (valCoder f) false) as [g|] eqn:G; [|apply val_R].
  intros b' v' x' X'. apply (leaf_R _ _ g G). apply (R_mono h (S K)); [lia|exact X'].
Qed.
Lemma map_R : forall f b v x, R (S (S K)) v x -> AppendMapField rec f b v = AppendMapFieldH h recH f b x.
Proof.
  intros f b v x X. pose proof (map_generic_R f b v x X) as G. unfold AppendMapField, AppendMapFieldH. destruct (f_T f) as [| | | | | |kt vt| |]; try reflexivity. cbv zeta.
  destruct (GetAppendFunc (valCoder f) false); [exact G|]. destruct (IsPointer vt); [|exact G].
  destruct (kindOf kt) as [[]| | | | | | | |]; try exact G; (apply map_R_with; [exact X|first [apply key_R|apply str_R]|apply val_R]).
Qed.
Lemma field_R : forall f b v x, R (S (S (S (S K)))) v x -> append_field E rec f b v = append_fieldH E h recH f b x.
Proof.
  intros f b v x X. unfold append_field, append_fieldH.
  pose proof (oneof_R h _ f v x X) as O. destruct (oneof_data f v) as [[v'|]| | |], (oneof_dataH h f x) as [[x'|]| | |]; try contradiction; [|reflexivity..].
  cbn [bind]. cbv zeta. rewrite (skip_R (f_T f) v' x') by (apply (R_mono h (S (S (S K)))); [lia|exact O]).
  destruct (skipzeroH E h (f_T f) x') as [[]| | |]; cbn [bind]; try reflexivity.
  pose proof (deref_R h _ (f_T f) v' x' O) as D. destruct (deref (f_T f) v') as [[t p]| | |], (derefH h (f_T f) x') as [[t' q]| | |]; try contradiction; [|reflexivity].
  destruct D as [<- P]. cbn [bind].
  assert (LF : forall c pk g, GetAppendFunc c pk = Some g -> forall b, (do y <- must p; g b y) = (do y <- mustH q; leaf h g b y)).
  { intros c pk g G b'. pose proof (must_R h _ p q P) as M. destruct (must p), (mustH q); try contradiction; [|reflexivity]. cbn [bind].
    apply (leaf_R c pk g G). apply (R_mono h (S (S K))); [lia|exact M]. }
  assert (LL : forall c g, appendListFuncs c = Some g -> (do y <- must p; g b (WireTag f) y) = (do y <- mustH q; g b (WireTag f) (view h y))).
  { intros c g G. pose proof (must_R h _ p q P) as M. destruct (must p), (mustH q); try contradiction; [|reflexivity]. cbn [bind].
    apply (list_sl c g G). apply R_sl1. apply (R_mono h (S (S K))); [lia|exact M]. }
  assert (LM : forall row, (do y <- must p; AppendMap row b (WireTag f) y) = (do y <- mustH q; AppendMap row b (WireTag f) (view h y))).
  { intros row. pose proof (must_R h _ p q P) as M. destruct (must p), (mustH q); try contradiction; [|reflexivity]. cbn [bind].
    apply AppendMap_sl. apply R_sl1. apply (R_mono h (S (S K))); [lia|exact M]. }
  assert (L1 : (do y <- must p; AppendListField rec f b y) = (do y <- mustH q; AppendListFieldH h recH f b y)).
  { pose proof (must_R h _ p q P) as M. destruct (must p), (mustH q); try contradiction; [|reflexivity]. cbn [bind]. now apply list_R. }
  assert (L2 : (do y <- must p; AppendMapField rec f b y) = (do y <- mustH q; AppendMapFieldH h recH f b y)).
  { pose proof (must_R h _ p q P) as M. destruct (must p), (mustH q); try contradiction; [|reflexivity]. cbn [bind]. now apply map_R. }
  assert (L3 : match t with TStruct id => rec id (AppendVarintSmall b (WireTag f)) p | _ => Panic end =
               match t with TStruct id => recH id (AppendVarintSmall b (WireTag f)) q | _ => Panic end).
  { destruct t; try reflexivity. apply HR. apply (oR_mono h (S (S K))); [lia|exact P]. }
  destruct (GetAppendFunc (fieldCoder f) (f_packed f)) as [g|] eqn:G; destruct (f_rep f); try (exact (LF _ _ g G _));
    (destruct (IsList f); [destruct (f_packed f); [first [exact (LF _ _ g G _)|reflexivity]|
      destruct (appendListFuncs (fieldCoder f)) as [g'|] eqn:G'; [exact (LL _ _ G')|exact L1]]|
     destruct (IsMap f); [destruct (getAppendMapFunc f); [apply LM|exact L2]|exact L3]]).
Qed.
Lemma fields_R : forall fs N slots b, (4 + K <= N)%nat ->
  append_fields E rec fs b (map (unroll h N) slots) = append_fieldsH E h recH fs b slots.
Proof.
  intros fs N slots b L. revert b. induction fs as [|f fs IH]; intro b; [reflexivity|]. cbn [append_fields append_fieldsH]. rewrite nth_error_map.
  destruct (nth_error slots (f_slot f)) as [x|]; cbn [option_map]; [|reflexivity].
  rewrite (field_R f b (unroll h N x) x) by (exists N; split; [lia|reflexivity]).
  destruct (append_fieldH E h recH f b x); cbn [bind]; [apply IH|reflexivity..].
Qed.
End Rec.

Lemma zero_embed : forall id N, unroll h N (embed (sd_zero (E id))) = sd_zero (E id).
Proof. intros id N. apply embed_unroll. now apply zero_noref. Qed.

Lemma struct_R : forall d id b p q el, oR (4 * d + 1) p q -> AppendStruct E d id b p el = AppendStructH E h d id b q el.
Proof.
  induction d as [|d IH]; intros id b p q el O; [reflexivity|]. cbn [AppendStruct AppendStructH].
  assert (A : exists N x, (4 * S d + 1 <= N)%nat /\ match p with Some v => v | None => sd_zero (E id) end = unroll h N x /\
                match q with Some x => x | None => embed (sd_zero (E id)) end = x).
  { destruct p as [v|], q as [x|]; try contradiction.
    - destruct O as (N & L & ->). eauto.
    - exists (4 * S d + 1)%nat, (embed (sd_zero (E id))). rewrite zero_embed. auto. }
  destruct A as (N & x & L & -> & ->). destruct x as [| | | | | | |slots unk|]; try (destruct N; reflexivity).
  rewrite unroll_struct. cbv zeta.
  rewrite (fields_R (fun id b base => AppendStruct E d id b base true) (fun id b base => AppendStructH E h d id b base true) (4 * d + 1)) by (first [lia|intros; now apply IH]).
  reflexivity.
Qed.

(** ** The sizer *)
Lemma sum_ext2 : forall {A B} (f : A -> res N) (g : B -> res N) (Q : A -> B -> Prop) l l', (forall a b, Q a b -> f a = g b) -> Forall2 Q l l' -> sum_res f l = sum_res g l'.
Proof. intros A B f g Q l l' H F. induction F; cbn; [reflexivity|]. now rewrite (H _ _ H0), IHF. Qed.
Lemma leafsz_R : forall K c g, sizeFuncs c = Some g -> forall v x, R K v x -> g v = leafsz h g x.
Proof. intros K c g H v x X. exact (size_sl c g H v _ (R_sl h K v x X)). Qed.

Section RecS.
Variables (rec : nat -> option val -> res N) (recH : nat -> option hv -> res N).
Variable K : nat.
Hypothesis HK : (1 <= K)%nat.
Hypothesis HR : forall id p q, oR K p q -> rec id p = recH id q.

Lemma size_elem_R : forall t v x, R (S K) v x -> size_elem rec t v = size_elemH h recH t x.
Proof.
  intros t v x X. unfold size_elem, size_elemH.
  pose proof (struct_elem_R h K t v x X) as S. destruct (struct_elem t v) as [[id p]| | |], (struct_elemH h t x) as [[id' q]| | |]; try contradiction; [|reflexivity].
  destruct S as [<- O]. cbn [bind]. now rewrite (HR _ _ _ O).
Qed.
Lemma opt_sz_R : forall n c v x, R n v x -> opt_sz (sizeFuncs c) v = leafsz h (opt_sz (sizeFuncs c)) x.
Proof. intros n c v x X. destruct (sizeFuncs c) as [g|] eqn:G; [|reflexivity]. exact (leafsz_R n c g G v x X). Qed.
Lemma size_list_R : forall f t v x, R (S (S K)) v x -> sizeListField rec f t v = sizeListFieldH h recH f t x.
Proof.
  intros f t v x X. unfold sizeListField, sizeListFieldH. destruct t; try reflexivity.
  pose proof (elems_R h _ v x X) as S. destruct (as_elems v), (elemsH h x); try contradiction; [|reflexivity]. cbn [bind].
  rewrite (F2_length _ _ _ S). destruct (Nat.eqb (length a0) 0); [reflexivity|]. destruct (f_packed f).
  - now rewrite (sum_ext2 (opt_sz (sizeFuncs (fieldCoder f))) (leafsz h (opt_sz (sizeFuncs (fieldCoder f)))) _ _ _ (opt_sz_R _ _) S).
  - destruct (sizeFuncs (fieldCoder f)) as [g|] eqn:G; apply (sum_ext2 _ _ _ _ _) with (2 := S); intros a1 b1 Q.
    + now rewrite (leafsz_R _ _ g G a1 b1 Q).
    + now rewrite (size_elem_R _ a1 b1 Q).
Qed.
Lemma size_loop_R : forall f kf kfH vf vfH, (forall v x, R (S K) v x -> kf v = kfH x) -> (forall v x, R (S K) v x -> vf v = vfH x) ->
  forall v x, R (S (S K)) v x -> (do m <- as_entries v; size_map_loop f kf vf m) = (do m <- entriesH h x; size_map_loopH f kfH vfH m).
Proof.
  intros f kf kfH vf vfH A B v x X. pose proof (entries_R h _ v x X) as S. destruct (as_entries v), (entriesH h x); try contradiction; [|reflexivity].
  cbn [bind]. unfold size_map_loop, size_map_loopH. apply (sum_ext2 _ _ _ _ _) with (2 := S). intros [k y] [k' y'] [P Q]. cbn [fst snd] in *. now rewrite (A _ _ P), (B _ _ Q).
Qed.
Lemma num_R : forall n (g : N -> N) v x, R n v x -> num_sz g v = leafsz h (num_sz g) x.
Proof. intros n g v x X. unfold leafsz, num_sz. now rewrite (num_sl _ _ (R_sl h n v x X)). Qed.
Lemma strsz_R : forall n v x, R n v x -> (do s <- as_bytes v; Ok (SizeBytes (blen s))) = leafsz h (fun k => do s <- as_bytes k; Ok (SizeBytes (blen s))) x.
Proof. intros n v x X. unfold leafsz. now rewrite (bytes_sl _ _ (R_sl h n v x X)). Qed.
Lemma size_generic_R : forall f v x, R (S (S K)) v x -> sizeMapGeneric rec f v = sizeMapGenericH h recH f x.
Proof.
  intros f v x X. unfold sizeMapGeneric, sizeMapGenericH. destruct (f_T f); try reflexivity. apply size_loop_R; [intros; now apply (opt_sz_R (S K))| |exact X].
  destruct (sizeFuncs (valCoder f)) as [g|] eqn:G; intros v' x' X'; [exact (leafsz_R _ _ g G v' x' X')|now apply size_elem_R].
Qed.
Lemma size_map_R : forall f v x, R (S (S K)) v x -> sizeMapField rec f v = sizeMapFieldH h recH f x.
Proof.
  intros f v x X. pose proof (size_generic_R f v x X) as G. unfold sizeMapField, sizeMapFieldH. destruct (f_T f) as [| | | | | |kt vt| |]; try reflexivity.
  destruct (getSizeMapFunc f). { apply SizeMap_sl. apply R_sl1. apply (R_mono h (S (S K))); [lia|exact X]. }
  destruct (sizeFuncs (valCoder f)); [exact G|]. destruct (IsPointer vt); [|exact G].
  destruct (kindOf kt) as [[]| | | | | | | |]; try exact G;
    (apply size_loop_R; [first [intros; now apply (num_R (S K))|intros; now apply (strsz_R (S K))]|intros; now apply size_elem_R|exact X]).
Qed.
Lemma size_field_R : forall f v x, R (S (S (S (S K)))) v x -> size_field E rec f v = size_fieldH E h recH f x.
Proof.
  intros f v x X. unfold size_field, size_fieldH.
  pose proof (oneof_R h _ f v x X) as O. destruct (oneof_data f v) as [[v'|]| | |], (oneof_dataH h f x) as [[x'|]| | |]; try contradiction; [|reflexivity..].
  cbn [bind]. cbv zeta. rewrite (skip_R (f_T f) v' x') by (apply (R_mono h (S (S (S K)))); [lia|exact O]).
  destruct (skipzeroH E h (f_T f) x') as [[]| | |]; cbn [bind]; try reflexivity.
  pose proof (deref_R h _ (f_T f) v' x' O) as D. destruct (deref (f_T f) v') as [[t p]| | |], (derefH h (f_T f) x') as [[t' q]| | |]; try contradiction; [|reflexivity].
  destruct D as [<- P]. cbn [bind]. pose proof (must_R h _ p q P) as M.
  assert (L0 : (if IsList f then do y <- must p; sizeListField rec f t y
                else if IsMap f then do y <- must p; sizeMapField rec f y
                else match t with TStruct id => do sz <- rec id p; Ok (WireTagSize f + SizeBytes sz) | _ => Panic end) =
               (if IsList f then do y <- mustH q; sizeListFieldH h recH f t y
                else if IsMap f then do y <- mustH q; sizeMapFieldH h recH f y
                else match t with TStruct id => do sz <- recH id q; Ok (WireTagSize f + SizeBytes sz) | _ => Panic end)).
  { destruct (IsList f); [|destruct (IsMap f)].
    - destruct (must p), (mustH q); try contradiction; [|reflexivity]. cbn [bind]. now apply size_list_R.
    - destruct (must p), (mustH q); try contradiction; [|reflexivity]. cbn [bind]. now apply size_map_R.
    - destruct t; try reflexivity. rewrite (HR id p q); [reflexivity|]. apply (oR_mono h (S (S K))); [lia|exact P]. }
  destruct (f_rep f), (sizeFuncs (fieldCoder f)) as [g|] eqn:G; try exact L0.
  destruct (must p), (mustH q); try contradiction; [|reflexivity]. cbn [bind]. now rewrite (leafsz_R _ _ g G _ _ M).
Qed.
Lemma size_fields_R : forall fs N slots, (4 + K <= N)%nat ->
  size_fields E rec fs (map (unroll h N) slots) = size_fieldsH E h recH fs slots.
Proof.
  intros fs N slots L. unfold size_fields, size_fieldsH. induction fs as [|f fs IH]; [reflexivity|]. cbn [sum_res]. rewrite IH, nth_error_map.
  destruct (nth_error slots (f_slot f)) as [x|]; cbn [option_map]; [|reflexivity].
  now rewrite (size_field_R f (unroll h N x) x) by (exists N; split; [lia|reflexivity]).
Qed.
End RecS.

Lemma size_struct_R : forall d id p q, oR (4 * d + 1) p q -> SizeStruct E d id p = SizeStructH E h d id q.
Proof.
  induction d as [|d IH]; intros id p q O; [reflexivity|]. cbn [SizeStruct SizeStructH].
  assert (A : exists N x, (4 * S d + 1 <= N)%nat /\ match p with Some v => v | None => sd_zero (E id) end = unroll h N x /\
                match q with Some x => x | None => embed (sd_zero (E id)) end = x).
  { destruct p as [v|], q as [x|]; try contradiction.
    - destruct O as (N & L & ->). eauto.
    - exists (4 * S d + 1)%nat, (embed (sd_zero (E id))). rewrite zero_embed. auto. }
  destruct A as (N & x & L & -> & ->). destruct x as [| | | | | | |slots unk|]; try (destruct N; reflexivity).
  rewrite unroll_struct. cbv zeta.
  rewrite (size_fields_R (fun id base => SizeStruct E d id base) (fun id base => SizeStructH E h d id base) (4 * d + 1)) by (first [lia|intros; now apply IH]).
  reflexivity.
Qed.
End Enc.
