(** Calls on their own scratch objects do what Encoder.v, Sizer.v and Decoder.v say. *)
From Coq Require Import Lia.
From Verif Require Import Base Wire WireSpec WireProofs Coder MapTables Value WireVal Desc MsgSpec ValFacts ScalarProofs Encoder EncProofs EncFacts Sizer Decoder DescProofs DecSpec DecScalar DecMap DecProofs PoolProofs Pools PoolSys PoolCalls.
Open Scope N_scope.

Definition has (st : list (option content)) (i : nat) : Prop := exists c, nth_error st i = Some (Some c).
(** Nothing that was there changes, except the object [X]. *)
Definition frame (X : option nat) (st st' : list (option content)) : Prop :=
  (length st <= length st')%nat /\ forall i, (i < length st)%nat -> X <> Some i -> nth_error st' i = nth_error st i.

Lemma frame_refl : forall X st, frame X st st.
Proof. intros X st. split; auto. Qed.
Lemma frame_trans : forall X a b c, frame X a b -> frame X b c -> frame X a c.
Proof. intros X a b c [L1 F1] [L2 F2]. split; [lia|]. intros i L N. rewrite F2 by (auto; lia). now apply F1. Qed.
Lemma frame_has : forall X st st' i, frame X st st' -> X <> Some i -> has st i -> has st' i.
Proof. intros X st st' i [L F] N [c H]. exists c. rewrite F; [exact H| |exact N]. now apply nth_error_lt in H. Qed.
Lemma frame_none : forall X st st', frame None st st' -> frame X st st'.
Proof. intros X st st' [L F]. split; [exact L|]. intros i H _. now apply F. Qed.
Lemma frame_app : forall X st c, frame X st (st ++ [c]).
Proof. intros X st c. split; [rewrite app_length; lia|]. intros i L _. now rewrite nth_error_app1. Qed.
Lemma frame_set : forall i c st, frame (Some i) st (set_nth i c st).
Proof. intros i c st. split; [now rewrite set_nth_length|]. intros j L N. apply set_nth_other. congruence. Qed.
Lemma has_app : forall st c, has (st ++ [Some c]) (length st).
Proof. intros st c. exists c. rewrite nth_error_app2, Nat.sub_diag; auto. Qed.
Lemma has_set : forall st i c, has st i -> nth_error (set_nth i (Some c) st) i = Some (Some c).
Proof. intros st i c [c0 H]. apply set_nth_same. now apply nth_error_lt in H. Qed.
Lemma has_set_other : forall st i j c, i <> j -> has st j -> has (set_nth i c st) j.
Proof. intros st i j c N [c0 H]. exists c0. now rewrite set_nth_other. Qed.
Lemma has_lt : forall st i, has st i -> (i < length st)%nat.
Proof. intros st i [c H]. now apply nth_error_lt in H. Qed.
(** The object [length st0] that was taken on top of [st0] may change. *)
Lemma frame_cut : forall X st c st', frame X (st ++ [c]) st' -> frame X st st'.
Proof. intros X st c st' H. eapply frame_trans; [apply frame_app|exact H]. Qed.
Lemma frame_drop : forall X st c st', frame (Some (length st)) (st ++ [c]) st' -> frame X st st'.
Proof.
  intros X st c st' [L F]. rewrite app_length in *. cbn in *. split; [lia|]. intros i H _. rewrite F; [|lia|injection 1; lia]. now rewrite nth_error_app1.
Qed.

Section Wp.
Variable X : option nat.
(** What a call with the result [r] leaves: it may have changed the object [X], but has it. *)
Definition post {A} (st : list (option content)) (r : A) : list (option content) -> A -> Prop :=
  fun st' r' => r' = r /\ frame X st st' /\ (forall i, X = Some i -> has st i -> has st' i).

Lemma post_ret : forall {A} st (r : A), wp st (Ret r) (post st r).
Proof. intros. cbn. split; [reflexivity|]. split; [apply frame_refl|auto]. Qed.
Lemma post_has : forall {A} st (r : A) st' r' i, post st r st' r' -> has st i -> has st' i.
Proof.
  intros A st r st' r' i (_ & F & H) Hi. destruct X as [j|] eqn:EX.
  - destruct (Nat.eq_dec j i) as [->|N]; [now apply H|]. eapply frame_has; [exact F|congruence|exact Hi].
  - eapply frame_has; [exact F|discriminate|exact Hi].
Qed.
Lemma post_trans : forall {A B} st (r : A) st' r' (q : B) st'' q', post st r st' r' -> post st' q st'' q' -> post st q st'' q'.
Proof.
  intros A B st r st' r' q st'' q' (_ & F1 & H1) (-> & F2 & H2). split; [reflexivity|]. split; [eapply frame_trans; eauto|]. eauto.
Qed.
Lemma wp_rbind : forall {A B} st (p : prog (res A)) (f : A -> prog (res B)) r g,
  wp st p (post st r) -> (forall a st' r', r = Ok a -> post st r st' r' -> wp st' (f a) (post st' (g a))) ->
  wp st (rbind p f) (post st (bind r g)).
Proof.
  intros A B st p f r g W H. unfold rbind. apply wp_bind. eapply wp_mono; [|exact W]. intros st' r' P.
  assert (Y := P). destruct Y as [-> _]. destruct r as [a|e| |]; cbn [bind].
  - eapply wp_mono; [|apply (H a st' _ eq_refl P)]. intros st'' q Y. eapply post_trans; eauto.
  - cbn. split; [reflexivity|apply P].
  - cbn. split; [reflexivity|apply P].
  - cbn. split; [reflexivity|apply P].
Qed.
Lemma wp_ok : forall {A B} st (r : res A) (f : A -> prog (res B)) g,
  (forall a, r = Ok a -> wp st (f a) (post st (g a))) -> wp st (rbind (ok r) f) (post st (bind r g)).
Proof.
  intros A B st r f g H. destruct r as [a|e| |]; cbn; try (split; [reflexivity|split; [apply frame_refl|auto]]). now apply H.
Qed.
End Wp.

(** Programs that do the same whatever the objects contain. *)
Section Enc.
Variable E : env.
Variable e : nat.
Notation postE := (post (Some e)).

Lemma struct_elem_wt : forall t v id base, wt E t v -> struct_elem t v = Ok (id, base) -> wtp E id base.
Proof.
  intros t v id base W H. destruct t; cbn in H; try discriminate.
  - injection H as <- <-. exact W.
  - destruct t; try discriminate. destruct v; try discriminate. injection H as <- <-. unfold wt in W. cbn in W. exact W.
Qed.

Section Rec.
Variable recS : nat -> bytes -> option val -> prog (res bytes).
Variable rec : nat -> bytes -> option val -> res bytes.
Hypothesis REC : forall st id b base, has st e -> wtp E id base -> wp st (recS id b base) (postE st (rec id b base)).

Lemma elems_run : forall t tag l st b, has st e -> Forall (wt E t) l ->
  wp st (append_struct_elemsS recS t tag b l) (postE st (append_struct_elems rec t tag b l)).
Proof.
  intros t tag l. induction l as [|v r IH]; intros st b H F; [apply post_ret|]. inversion F; subst.
  cbn [append_struct_elemsS append_struct_elems]. apply wp_ok. intros [id base] SE.
  apply wp_rbind; [apply REC; [exact H|eapply struct_elem_wt; eauto]|]. intros b1 st' r' _ P. apply IH; [|assumption]. eapply post_has; eauto.
Qed.
Lemma list_run : forall f v st b, has st e -> wt E (f_T f) v ->
  wp st (AppendListFieldS recS f b v) (postE st (AppendListField rec f b v)).
Proof.
  intros f v st b H W. unfold AppendListFieldS, AppendListField. destruct (f_T f); try apply post_ret.
  apply wp_ok. intros l L. apply elems_run; [exact H|]. destruct v; try discriminate. injection L as <-. apply wtg_slice in W. apply W.
Qed.

Lemma struct_value_run : forall vt v st b, has st e -> wt E vt v ->
  wp st (struct_valueS recS vt b v) (postE st (append_struct_value rec vt b v)).
Proof.
  intros vt v st b H W. unfold struct_valueS, append_struct_value. apply wp_ok. intros [id base] SE. apply REC; [exact H|]. eapply struct_elem_wt; eauto.
Qed.
Lemma value_run : forall f vt v st b, has st e -> wt E vt v ->
  wp st (valueS recS f vt b v) (postE st ((match GetAppendFunc (valCoder f) false with Some g => g | None => append_struct_value rec vt end) b v)).
Proof.
  intros f vt v st b H W. unfold valueS. destruct (GetAppendFunc (valCoder f) false); [apply post_ret|now apply struct_value_run].
Qed.

Lemma loop_run : forall f keyfn valfnS valfn kt vt m st b, has st e ->
  (forall st b v, has st e -> wt E vt v -> wp st (valfnS b v) (postE st (valfn b v))) ->
  Forall (fun kv => wt E kt (fst kv) /\ wt E vt (snd kv)) m ->
  wp st (map_loopS f keyfn valfnS b m) (postE st (append_map_loop f keyfn valfn b m)).
Proof.
  intros f keyfn valfnS valfn kt vt m. induction m as [|[k v] m IH]; intros st b H HV F; [apply post_ret|].
  inversion F as [|? ? [Fk Fv] F']; subst. cbn [fst snd] in *. cbn [map_loopS append_map_loop]. unfold append_map_entry.
  set (b0 := LenReserve (AppendVarintSmall b (WireTag f))).
  replace (do b1 <- _; append_map_loop f keyfn valfn b1 m) with
    (do b1 <- keyfn (AppendKeyTag b0 (wireTypes (f_ktag f))) k;
     do b2 <- valfn (AppendValTag b1 (wireTypes (f_vtag f))) v;
     append_map_loop f keyfn valfn (LenPack b2 (length b2 - length b0)) m).
  2:{ destruct (keyfn _ k); try reflexivity. cbn [bind]. destruct (valfn _ v); reflexivity. }
  apply wp_ok. intros b1 _. apply wp_rbind; [now apply HV|]. intros b2 st' r' _ P. apply IH; [eapply post_has; eauto|exact HV|assumption].
Qed.

Lemma mem_rt : forall w n tmp, n < 2 ^ (8 * N.of_nat w) -> mem_get w (mem_put w n tmp) = VNum n.
Proof.
  intros w n tmp L. unfold mem_get, mem_put. rewrite firstn_app, le_bytes_length, Nat.sub_diag, firstn_O, app_nil_r.
  rewrite firstn_all2 by (rewrite le_bytes_length; lia). f_equal. apply le_value_le_bytes. replace (256 ^ N.of_nat w) with (2 ^ (8 * N.of_nat w)); [exact L|].
  rewrite N.pow_mul_r. reflexivity.
Qed.
Lemma tmp_loop_run : forall w f keyfn valfnS valfn vt m st b, has st e -> coder_width (keyCoder f) = Some w ->
  (forall st b v, has st e -> wt E vt v -> wp st (valfnS b v) (postE st (valfn b v))) ->
  Forall (fun kv => (exists n, fst kv = VNum n /\ n < 2 ^ (8 * N.of_nat w)) /\ wt E vt (snd kv)) m ->
  wp st (map_loop_tmpS e w f keyfn valfnS b m) (postE st (append_map_loop f keyfn valfn b m)).
Proof.
  intros w f keyfn valfnS valfn vt m. induction m as [|[k v] m IH]; intros st b H CW HV F; [apply post_ret|].
  inversion F as [|? ? [(n & Ek & Ln) Fv] F']; subst. cbn [fst snd] in *. subst k. cbn [map_loop_tmpS append_map_loop]. unfold append_map_entry.
  set (b0 := LenReserve (AppendVarintSmall b (WireTag f))).
  replace (do b1 <- _; append_map_loop f keyfn valfn b1 m) with
    (do b1 <- keyfn (AppendKeyTag b0 (wireTypes (f_ktag f))) (VNum n);
     do b2 <- valfn (AppendValTag b1 (wireTypes (f_vtag f))) v;
     append_map_loop f keyfn valfn (LenPack b2 (length b2 - length b0)) m).
  2:{ destruct (keyfn _ (VNum n)); try reflexivity. cbn [bind]. destruct (valfn _ v); reflexivity. }
  cbn [wp]. destruct H as [c Hc]. exists c. split; [exact Hc|]. split; [eauto|].
  set (c1 := mkCt (mem_put w n (c_tmp c)) (c_k c) (c_v c)). exists c1. assert (H1 : nth_error (set_nth e (Some c1) st) e = Some (Some c1)) by (apply has_set; exists c; exact Hc).
  split; [exact H1|]. rewrite CW. cbn [c1 c_tmp]. rewrite mem_rt by exact Ln.
  assert (H1' : has (set_nth e (Some c1) st) e) by (exists c1; exact H1).
  eapply wp_mono; [|apply (wp_ok (Some e) (set_nth e (Some c1) st)); intros b1 _; apply (wp_rbind (Some e)); [now apply HV|]; intros b2 st' r' _ P; apply IH; [eapply post_has; eauto|exact CW|exact HV|assumption]].
  intros st' r (-> & Fr & Hh). split; [reflexivity|]. split; [eapply frame_trans; [apply frame_set|exact Fr]|]. intros i Ei _. injection Ei as <-. now apply Hh.
Qed.

Lemma put_run : forall {A} st c (p : prog (res A)) r, has st e ->
  wp (st ++ [Some c]) p (postE (st ++ [Some c]) r) ->
  wp (st ++ [Some c]) (bindP p (fun r => match r with Ok _ | Err _ => Put (length st) (Ret r) | _ => Ret r end)) (postE st r).
Proof.
  intros A st c p r H W. assert (He := has_lt _ _ H). apply wp_bind. eapply wp_mono; [|exact W]. intros st' r' P. assert (P' := P). destruct P' as (-> & Fr & Hh).
  assert (Hi : has st' (length st)) by (eapply post_has; [exact P|apply has_app]).
  assert (HE : has st' e) by (apply Hh; [reflexivity|]; destruct H as [c0 H]; exists c0; now rewrite nth_error_app1).
  assert (Fc : frame (Some e) st st') by (eapply frame_cut; exact Fr).
  assert (Fd : frame (Some e) st (set_nth (length st) None st')).
  { destruct Fc as [L F]. split; [now rewrite set_nth_length|]. intros i Li Ni. rewrite set_nth_other by lia. now apply F. }
  assert (HE' : has (set_nth (length st) None st') e) by (apply has_set_other; [lia|exact HE]).
  assert (Q1 : postE st r st' r) by (split; [reflexivity|split; [exact Fc|intros i Ei _; injection Ei as <-; exact HE]]).
  assert (Q2 : postE st r (set_nth (length st) None st') r) by (split; [reflexivity|split; [exact Fd|intros i Ei _; injection Ei as <-; exact HE']]).
  destruct r; cbn [wp]; try (split; [exact Hi|]); assumption.
Qed.

Lemma map_run : forall f kt vt v st b, f_T f = TMap kt vt -> key_ok (f_ktag f) kt = true -> has st e -> wt E (TMap kt vt) v ->
  wp st (AppendMapFieldS recS e f b v) (postE st (AppendMapField rec f b v)).
Proof.
  intros f kt vt v st b HT HK H W.
  assert (EN : forall m, as_entries v = Ok m -> Forall (fun kv => wt E kt (fst kv) /\ wt E vt (snd kv)) m).
  { intros m Hm. destruct v as [| | | | | |[m'|]| |]; try discriminate; injection Hm as <-; [|constructor]. apply wtg_map in W. apply W. }
  assert (G : wp st (AppendMapGenericS recS f b v) (postE st (AppendMapGeneric rec f b v))).
  { unfold AppendMapGenericS, AppendMapGeneric. rewrite HT. cbn [wp]. intro c. apply put_run; [exact H|].
    assert (Ha : has (st ++ [Some c]) e) by (destruct H as [c0 H]; exists c0; rewrite nth_error_app1; [exact H|now apply nth_error_lt in H]).
    apply wp_ok. intros m Hm. apply (loop_run _ _ _ _ kt vt); [exact Ha| |now apply EN].
    intros st' b' v' H' W'. now apply value_run. }
  assert (T : forall w, coder_width (keyCoder f) = Some w -> (forall k, wt E kt k -> exists n, k = VNum n /\ n < 2 ^ (8 * N.of_nat w)) ->
     wp st (rbind (ok (as_entries v)) (fun m => map_loop_tmpS e w f (opt_fn (GetAppendFunc (keyCoder f) false)) (struct_valueS recS vt) b m))
       (postE st (do m <- as_entries v; append_map_loop f (opt_fn (GetAppendFunc (keyCoder f) false)) (append_struct_value rec vt) b m))).
  { intros w CW KR. apply wp_ok. intros m Hm. apply (tmp_loop_run w f _ _ _ vt); [exact H|exact CW| |].
    - intros st' b' v' H' W'. now apply struct_value_run.
    - specialize (EN m Hm). eapply Forall_impl; [|exact EN]. intros kv [A B]. split; [now apply KR|exact B]. }
  unfold AppendMapFieldS, AppendMapField. rewrite HT. cbn zeta. destruct (GetAppendFunc (valCoder f) false) eqn:VF; [exact G|].
  destruct (IsPointer vt); [|exact G].
  assert (KC : keyCoder f = getCoderType (f_ktag f) (RealKind kt)) by (unfold keyCoder; now rewrite HT).
  assert (KN : forall k, kt = TScalar k -> forall x, wt E kt x -> exists n, x = VNum n /\ n < 2 ^ (8 * skind_size k)).
  { intros k -> x Wx. destruct x; cbn in Wx; try contradiction; [destruct Wx; discriminate|exists n; split; [reflexivity|apply Wx]|discriminate Wx|discriminate Wx]. }
  destruct kt as [[]| | | | | | | |]; cbn [kindOf]; try exact G; try discriminate HK.
  - apply T; [rewrite KC; cbn in *; destruct (f_ktag f); try discriminate HK; reflexivity|intros k Wk; apply (KN Int32 eq_refl k Wk)].
  - apply T; [rewrite KC; cbn in *; destruct (f_ktag f); try discriminate HK; reflexivity|intros k Wk; apply (KN Uint32 eq_refl k Wk)].
  - apply T; [rewrite KC; cbn in *; destruct (f_ktag f); try discriminate HK; reflexivity|intros k Wk; apply (KN Int64 eq_refl k Wk)].
  - apply T; [rewrite KC; cbn in *; destruct (f_ktag f); try discriminate HK; reflexivity|intros k Wk; apply (KN Uint64 eq_refl k Wk)].
  - apply wp_ok. intros m Hm. apply (loop_run _ _ _ _ TString vt); [exact H| |now apply EN]. intros st' b' v' H' W'. now apply struct_value_run.
Qed.

Lemma oneof_wt : forall s f slot v, wf_field s f -> (forall t, nth_error (sd_slots s) (f_slot f) = Some t -> wt E t slot) ->
  oneof_data f slot = Ok (Some v) -> wt E (f_T f) v.
Proof.
  intros s f slot v (_ & _ & HF) W H. unfold oneof_data in H. destruct (f_oneof f) as [w|].
  - destruct HF as (alts & N & LA). specialize (W _ N). destruct slot as [| | | | | | | |[[w' [x|]]|]]; try discriminate. injection H as H. destruct (Nat.eqb_spec w' w); [|discriminate]. injection H as <-. subst w'.
    unfold wt in W. cbn in W. rewrite LA in W. exact W.
  - injection H as <-. now apply W.
Qed.
Lemma deref_wt : forall t v t' p, wt E t v -> deref t v = Ok (t', p) ->
  (t = TPtr t' /\ forall x, p = Some x -> wt E t' x) \/ (t = t' /\ p = Some v).
Proof.
  intros t v t' p W H. destruct t; cbn in H; try (injection H as <- <-; right; auto).
  destruct v; try discriminate. injection H as <- <-. left. split; [reflexivity|]. intros x ->. exact W.
Qed.

Lemma field_run : forall s f slot st b, wf_field s f -> has st e ->
  (forall t, nth_error (sd_slots s) (f_slot f) = Some t -> wt E t slot) ->
  wp st (append_fieldS E recS e f b slot) (postE st (append_field E rec f b slot)).
Proof.
  intros s f slot st b WFf H W. unfold append_fieldS, append_field. apply wp_ok. intros [v|] OD; [|apply post_ret].
  assert (Wv := oneof_wt s f slot v WFf W OD). apply wp_ok. intros [|] _; [apply post_ret|]. apply wp_ok. intros [t' p] DR.
  destruct (deref_wt _ _ _ _ Wv DR) as [[ET Wp]|[ET ->]].
  - assert (SP := proj1 (proj2 WFf)). unfold supported in SP. rewrite ET in SP. rewrite !andb_true_iff in SP. destruct SP as [[R P] V].
    rewrite negb_true_iff in R, P. rewrite R. unfold IsList, IsMap. rewrite ET. cbn [IsSlice]. rewrite ?andb_false_r.
    destruct (GetAppendFunc (fieldCoder f) (f_packed f)); [apply post_ret|]. rewrite R. cbn [andb].
    destruct t'; try apply post_ret. apply REC; [exact H|]. destruct p as [x|]; cbn; [now apply Wp|exact Logic.I].
  - destruct (f_rep f) eqn:R.
    + destruct (IsList f).
      * destruct (f_packed f); [destruct (GetAppendFunc (fieldCoder f) true); apply post_ret|].
        destruct (appendListFuncs (fieldCoder f)); [apply post_ret|]. apply wp_ok. intros x HX. injection HX as <-. now apply list_run.
      * destruct (IsMap f).
        -- destruct (getAppendMapFunc f); [apply post_ret|]. apply wp_ok. intros x HX. injection HX as <-.
           destruct (f_T f) as [| | | | | |kt vt| |] eqn:HT; try (unfold AppendMapFieldS, AppendMapField; rewrite HT; apply post_ret).
           apply (map_run f kt vt); try assumption. assert (SP := proj1 (proj2 WFf)). unfold supported in SP. rewrite HT in SP. rewrite !andb_true_iff in SP. apply SP.
        -- destruct t'; try apply post_ret. apply REC; [exact H|]. change (wt E (TStruct id) v). rewrite <- ET. exact Wv.
    + destruct (GetAppendFunc (fieldCoder f) (f_packed f)) eqn:GA; [apply post_ret|].
      assert (SP := proj1 (proj2 WFf)). unfold supported in SP.
      unfold IsList, IsMap in *. rewrite R. destruct (f_T f) eqn:HT; rewrite ?R in SP; cbn [andb IsSlice] in *; try discriminate SP; subst t'; try apply post_ret.
      all: try (apply REC; [exact H|exact Wv]).
      all: cbn in SP; rewrite ?andb_false_r in SP; discriminate SP.
Qed.
Lemma fields_run : forall s fs slots st b, (forall f, In f fs -> wf_field s f) -> has st e -> Forall2 (wt E) (sd_slots s) slots ->
  wp st (append_fieldsS E recS e fs b slots) (postE st (append_fields E rec fs b slots)).
Proof.
  intros s fs slots. induction fs as [|f r IH]; intros st b WFf H F; [apply post_ret|]. cbn [append_fieldsS append_fields].
  destruct (nth_error slots (f_slot f)) as [slot|] eqn:NS; [|apply post_ret].
  apply wp_rbind.
  - apply (field_run s); [apply WFf; now left|exact H|]. intros t NT. clear -F NS NT. revert NS NT. generalize (f_slot f). induction F as [|t0 v0 ts vs W F IHF]; intros [|i] NS NT; cbn in *; try discriminate; [congruence|eauto].
  - intros b1 st' r' _ P. apply IH; [intros f0 I0; apply WFf; now right|eapply post_has; eauto|exact F].
Qed.
End Rec.

Hypothesis WF : wf_env E.
Lemma struct_run : forall d id b base l st, has st e -> wtp E id base ->
  wp st (AppendStructS E d e id b base l) (postE st (AppendStruct E d id b base l)).
Proof.
  induction d as [|d IH]; intros id b base l st H W; [apply post_ret|]. cbn [AppendStructS AppendStruct].
  assert (WB : wt E (TStruct id) (match base with Some v => v | None => sd_zero (E id) end)) by (apply wtp_base; [exact WF|destruct base; exact W]).
  destruct (match base with Some v => v | None => sd_zero (E id) end) as [| | | | | | |slots unk|] eqn:EB; try apply post_ret.
  apply wtg_struct in WB. destruct WB as [WB _].
  apply wp_rbind; [|intros b1 st' r' _ _; apply post_ret].
  apply (fields_run _ (fun id b base => AppendStruct E d id b base true)) with (s := E id); [|apply (wf_fields _ _ (WF id))|exact H|exact WB].
  intros st' id' b' base' H' W'. now apply IH.
Qed.
End Enc.

Lemma marshal_run : forall E, wf_env E -> forall b a, arg_ok E a ->
  wp [] (MarshalAppendS E b a) (fun _ r => r = MarshalAppend E b a).
Proof.
  intros E WF b [| |id p] W; try reflexivity. unfold MarshalAppendS, MarshalAppend. cbn [wp]. intro c. cbn [length app].
  apply wp_bind. eapply wp_mono; [|apply (struct_run E 0%nat WF); [exists c; reflexivity|exact W]].
  intros st' r P. assert (Hh := post_has _ _ _ _ _ 0%nat P (ex_intro _ c eq_refl)). destruct P as [-> _].
  destruct (AppendStruct E defaultRecursionMaxDepth id b p false); cbn [wp]; try (split; [exact Hh|]); reflexivity.
Qed.

(** ** Sizer *)
Section Siz.
Variable E : env.
Notation postS := (post None).
Section Rec.
Variable recS : nat -> option val -> prog (res N).
Variable rec : nat -> option val -> res N.
Hypothesis REC : forall st id base, wp st (recS id base) (postS st (rec id base)).

Lemma sum_run : forall {A} (g : A -> prog (res N)) h l st, (forall st a, wp st (g a) (postS st (h a))) ->
  wp st (sumS g l) (postS st (sum_res h l)).
Proof.
  intros A g h l. induction l as [|a r IH]; intros st H; [apply post_ret|]. cbn [sumS sum_res]. apply wp_rbind; [apply H|]. intros x st' r' _ _.
  apply wp_rbind; [now apply IH|]. intros y st'' r'' _ _. apply post_ret.
Qed.
Lemma size_elem_run : forall t v st, wp st (size_elemS recS t v) (postS st (size_elem rec t v)).
Proof. intros t v st. unfold size_elemS, size_elem. apply wp_ok. intros [id base] _. apply wp_rbind; [apply REC|]. intros. apply post_ret. Qed.
Lemma size_list_run : forall f t v st, wp st (sizeListFieldS recS f t v) (postS st (sizeListField rec f t v)).
Proof.
  intros f t v st. unfold sizeListFieldS, sizeListField. destruct t; try apply post_ret. apply wp_ok. intros l _. destruct (Nat.eqb (length l) 0); [apply post_ret|].
  destruct (f_packed f); [apply post_ret|]. destruct (sizeFuncs (fieldCoder f)); [apply post_ret|].
  apply sum_run. intros st' a. apply wp_rbind; [apply size_elem_run|]. intros. apply post_ret.
Qed.
Lemma size_loop_run : forall f keysz valszS valsz m st, (forall st x, wp st (valszS x) (postS st (valsz x))) ->
  wp st (size_map_loopS f keysz valszS m) (postS st (size_map_loop f keysz valsz m)).
Proof.
  intros f keysz valszS valsz m st H. unfold size_map_loopS, size_map_loop. apply sum_run. intros st' kv. apply wp_ok. intros k _. apply wp_rbind; [apply H|]. intros. apply post_ret.
Qed.
Lemma size_put_run : forall {A} st c (p : prog (res A)) r,
  wp (st ++ [Some c]) p (postS (st ++ [Some c]) r) ->
  wp (st ++ [Some c]) (bindP p (fun r => match r with Ok _ | Err _ => Put (length st) (Ret r) | _ => Ret r end)) (postS st r).
Proof.
  intros A st c p r W. apply wp_bind. eapply wp_mono; [|exact W]. intros st' r' P. assert (P' := P). destruct P' as (-> & Fr & Hh).
  assert (Hi : has st' (length st)) by (eapply post_has; [exact P|apply has_app]).
  assert (Fc : frame None st st') by (eapply frame_cut; exact Fr).
  assert (Fd : frame None st (set_nth (length st) None st')).
  { destruct Fc as [L F]. split; [now rewrite set_nth_length|]. intros i Li Ni. rewrite set_nth_other by lia. now apply F. }
  assert (Q1 : postS st r st' r) by (split; [reflexivity|split; [exact Fc|discriminate]]).
  assert (Q2 : postS st r (set_nth (length st) None st') r) by (split; [reflexivity|split; [exact Fd|discriminate]]).
  destruct r; cbn [wp]; try (split; [exact Hi|]); assumption.
Qed.
Lemma size_generic_run : forall f v st, wp st (sizeMapGenericS recS f v) (postS st (sizeMapGeneric rec f v)).
Proof.
  intros f v st. unfold sizeMapGenericS, sizeMapGeneric. destruct (f_T f); try apply post_ret. cbn [wp]. intro c. apply size_put_run. apply wp_ok. intros m _.
  apply size_loop_run. intros st' x. destruct (sizeFuncs (valCoder f)); [apply post_ret|apply size_elem_run].
Qed.
Lemma size_map_run : forall f v st, wp st (sizeMapFieldS recS f v) (postS st (sizeMapField rec f v)).
Proof.
  intros f v st. unfold sizeMapFieldS, sizeMapField. destruct (f_T f) as [| | | | | |kt vt| |] eqn:HT; try apply post_ret. destruct (getSizeMapFunc f); [apply post_ret|].
  destruct (sizeFuncs (valCoder f)); [apply size_generic_run|]. destruct (IsPointer vt); [|apply size_generic_run].
  destruct (kindOf kt) as [[]| | | | | | | |]; try apply size_generic_run; apply wp_ok; intros m _; apply size_loop_run; intros; apply size_elem_run.
Qed.
Lemma size_field_run : forall f slot st, wp st (size_fieldS E recS f slot) (postS st (size_field E rec f slot)).
Proof.
  intros f slot st. unfold size_fieldS, size_field. apply wp_ok. intros [v|] _; [|apply post_ret]. apply wp_ok. intros [|] _; [apply post_ret|]. apply wp_ok. intros [t p] _.
  assert (G : wp st (if IsList f then rbind (ok (must p)) (fun x => sizeListFieldS recS f t x)
            else if IsMap f then rbind (ok (must p)) (fun x => sizeMapFieldS recS f x)
            else match t with TStruct id => rbind (recS id p) (fun sz => Ret (Ok (WireTagSize f + SizeBytes sz))) | _ => Ret Panic end)
          (postS st (if IsList f then do x <- must p; sizeListField rec f t x
            else if IsMap f then do x <- must p; sizeMapField rec f x
            else match t with TStruct id => do sz <- rec id p; Ok (WireTagSize f + SizeBytes sz) | _ => Panic end))).
  { destruct (IsList f); [apply wp_ok; intros; apply size_list_run|]. destruct (IsMap f); [apply wp_ok; intros; apply size_map_run|].
    destruct t; try apply post_ret. apply wp_rbind; [apply REC|]. intros. apply post_ret. }
  destruct (f_rep f); [destruct (sizeFuncs (fieldCoder f)); exact G|]. destruct (sizeFuncs (fieldCoder f)); [apply post_ret|exact G].
Qed.
End Rec.
Lemma size_struct_run : forall d id base st, wp st (SizeStructS E d id base) (postS st (SizeStruct E d id base)).
Proof.
  induction d as [|d IH]; intros id base st; [apply post_ret|]. cbn [SizeStructS SizeStruct].
  destruct (match base with Some v => v | None => sd_zero (E id) end); try apply post_ret.
  apply wp_rbind; [|intros; apply post_ret]. unfold size_fieldsS, size_fields. apply sum_run. intros st' f. destruct (nth_error slots (f_slot f)); [|apply post_ret].
  apply size_field_run. intros. apply IH.
Qed.
Lemma size_run : forall a, wp [] (SizeS E a) (fun _ r => r = Size E a).
Proof.
  intros [| |id [v|]]; try reflexivity. unfold SizeS, Size. eapply wp_mono; [|apply size_struct_run]. intros st r P. apply P.
Qed.
End Siz.

(** ** Decoder *)
Section Dec.
Variable E : env.
Hypothesis WF : wf_env E.

(** The same result, except for the temporaries. *)
Definition same {A} (r : dres (option nat * nat)) (r' : dres (A * nat)) : Prop :=
  match r, r' with
  | DOk v (_, n), DOk v' (_, n') => v = v' /\ n = n'
  | DErr v x, DErr v' x' => v = v' /\ x = x'
  | DPanic, DPanic | DFuel, DFuel => True
  | _, _ => False
  end.
(** What decoding one field leaves: the temporaries are those it had or new ones. *)
Definition postD {A} (tmv : option nat) st (r' : dres (A * nat)) : list (option content) -> dres (option nat * nat) -> Prop :=
  fun st' r => same r r' /\ frame tmv st st' /\
    forall v t n, r = DOk v (t, n) -> (t = tmv \/ exists i, t = Some i /\ tmv = None /\ (length st <= i)%nat) /\ forall i, t = Some i -> has st' i.

Section Rec.
Variable recS : nat -> Z -> bytes -> val -> prog (dres unit).
Variable rec : nat -> Z -> bytes -> val -> dres unit.
Hypothesis REC : forall st id D b v, wp st (recS id D b v) (post None st (rec id D b v)).

Lemma wp_dbind : forall {A B} st v (r : res A) (f : A -> prog (dres B)) g,
  (forall a, r = Ok a -> wp st (f a) (post None st (g a))) -> wp st (dbindS v r f) (post None st (dbind v r g)).
Proof. intros A B st v r f g H. destruct r; cbn; try (now apply H); (split; [reflexivity|split; [apply frame_refl|discriminate]]). Qed.
Lemma wp_dmap : forall {A} st put (p : prog (dres A)) r, wp st p (post None st r) -> wp st (dmapS put p) (post None st (dmap put r)).
Proof. intros A st put p r W. unfold dmapS. apply wp_bind. eapply wp_mono; [|exact W]. intros st' r' (-> & P). cbn. split; [reflexivity|exact P]. Qed.

Lemma value_dec_run : forall f vt D b v st, wp st (DecodeMapValueS E recS f vt D b v) (post None st (DecodeMapValue E rec f vt D b v)).
Proof.
  intros f vt D b v st. unfold DecodeMapValueS, DecodeMapValue. destruct (ConsumeKVTag b) as [[n typ]|]; [|apply post_ret].
  destruct n as [|[[]|[|[]|]|]]; try apply post_ret.
  destruct (mallocIfPointer E vt v) as [[t p] put]. apply wp_dbind. intros b1 _.
  destruct (dec_scalar (f_vtag f) t typ b1 p); [apply wp_dbind; intros [p' m] _; apply post_ret|].
  destruct (typ =? WBytes); [|apply post_ret]. apply wp_dbind. intros [fb m] _. destruct t; try apply post_ret. apply wp_dmap, REC.
Qed.

Lemma pair_run : forall f kt vt D b p i st c, nth_error st i = Some (Some c) ->
  wp st (DecodeMapPairS E recS f kt vt D b p i) (fun st' r => frame (Some i) st st' /\ has st' i /\
    match DecodeMapPair E rec f kt vt D b p (c_k c, c_v c) with
    | DOk p' _ => r = DOk p' tt | DErr p' x => r = DErr p' x | DPanic => r = DPanic | DFuel => r = DFuel end).
Proof.
  intros f kt vt D b p i st c Hc. unfold DecodeMapPairS, DecodeMapPair. cbn [wp]. exists c. split; [exact Hc|]. split; [eauto|].
  set (c1 := match vt with TStruct id => _ | _ => c end). set (st1 := set_nth i (Some c1) st).
  assert (H1 : nth_error st1 i = Some (Some c1)) by (apply has_set; exists c; exact Hc).
  assert (F1 : frame (Some i) st st1) by apply frame_set.
  assert (R1 : tmp_reset E vt (c_k c, c_v c) = (c_k c1, c_v c1)) by (unfold c1; destruct vt; reflexivity). rewrite R1. cbn [fst snd].
  destruct p as [| | | | | |m| |]; try (cbn [wp]; split; [exact F1|split; [exists c1; exact H1|reflexivity]]).
  cbn [wp]. exists c1. split; [exact H1|].
  destruct (DecodeMapKey f kt b (c_k c1)) as [[k n]|x| |]; cbn [dbindS dbind wp]; try (split; [exact F1|split; [exists c1; exact H1|reflexivity]]).
  split; [eauto|]. set (c2 := mkCt (c_tmp c1) k (c_v c1)). set (st2 := set_nth i (Some c2) st1).
  assert (H2 : nth_error st2 i = Some (Some c2)) by (apply has_set; exists c1; exact H1).
  assert (F2 : frame (Some i) st st2) by (eapply frame_trans; [exact F1|apply frame_set]).
  destruct (slice_from b n) as [b1|x| |]; cbn [dbindS dbind wp]; try (split; [exact F2|split; [exists c2; exact H2|reflexivity]]).
  exists c2. split; [exact H2|]. apply wp_bind. eapply wp_mono; [|apply value_dec_run]. cbn [c_v c2].
  intros st3 r (-> & F3 & _). assert (F13 : frame (Some i) st st3) by (eapply frame_trans; [exact F2|now apply frame_none]).
  assert (H3 : nth_error st3 i = Some (Some c2)). { rewrite (proj2 F3); [exact H2| |discriminate]. now apply nth_error_lt in H2. }
  assert (FS : forall c', frame (Some i) st (set_nth i (Some c') st3)) by (intro c'; eapply frame_trans; [exact F13|apply frame_set]).
  assert (HS : forall c', nth_error (set_nth i (Some c') st3) i = Some (Some c')) by (intro c'; apply has_set; exists c2; exact H3).
  destruct (DecodeMapValue E rec f vt D b1 (c_v c1)) as [v u|v x| |]; cbn [wp].
  - exists c2. split; [exact H3|]. split; [eauto|]. eexists. split; [apply HS|]. cbn [c_k c_v c2]. split; [apply FS|]. split; [eexists; apply HS|]. reflexivity.
  - exists c2. split; [exact H3|]. split; [eauto|]. split; [apply FS|]. split; [eexists; apply HS|reflexivity].
  - split; [exact F13|]. split; [eauto|reflexivity]. exists c2; exact H3.
  - split; [exact F13|]. split; [exists c2; exact H3|reflexivity].
Qed.

Definition tmv_ok (tmv : option nat) (st : list (option content)) : Prop := forall i, tmv = Some i -> has st i.
Lemma postD_ret : forall {A} tmv st v (a : A) n, tmv_ok tmv st -> wp st (Ret (DOk v (tmv, n))) (postD tmv st (DOk v (a, n))).
Proof.
  intros A tmv st v a n H. cbn. split; [split; reflexivity|]. split; [apply frame_refl|]. intros v0 t n0 X. injection X as <- <- <-. split; [now left|exact H].
Qed.
Lemma postD_stop : forall {A} tmv st r (r' : dres (A * nat)), same r r' -> (forall v a, r <> DOk v a) -> wp st (Ret r) (postD tmv st r').
Proof. intros A tmv st r r' S N. cbn. split; [exact S|]. split; [apply frame_refl|]. intros v t n ->. now destruct (N v (t, n)). Qed.
Ltac stopD := apply postD_stop; [cbn; auto|discriminate].
Lemma wp_dbindD : forall {A B} tmv st v (r : res A) (f : A -> prog (dres (option nat * nat))) (g : A -> dres (B * nat)),
  (forall a, r = Ok a -> wp st (f a) (postD tmv st (g a))) -> wp st (dbindS v r f) (postD tmv st (dbind v r g)).
Proof. intros A B tmv st v r f g H. destruct r; cbn [dbindS dbind]; [now apply H|stopD|stopD|stopD]. Qed.
Lemma wp_dmapD : forall {A} tmv st put p (r : dres (A * nat)), wp st p (postD tmv st r) -> wp st (dmapS put p) (postD tmv st (dmap put r)).
Proof.
  intros A tmv st put p r W. unfold dmapS. apply wp_bind. eapply wp_mono; [|exact W]. intros st' r' (S & F & K). cbn.
  split; [|split; [exact F|]].
  - destruct r' as [v [t n]|v x| |], r as [v' [t' n']|v' x'| |]; cbn in *; try contradiction; try exact S; destruct S; subst; auto.
  - intros v t n X. destruct r' as [v' [t' n']|v' x'| |]; cbn in X; try discriminate. injection X as _ <- <-. eapply K. reflexivity.
Qed.

Lemma dec_value_run : forall f ty typ D b g tv tmv p st, supported f = true -> tmv_ok tmv st ->
  wp st (dec_valueS E recS f ty typ D b tmv p) (postD tmv st (dec_value E rec f ty typ D b g tv p)).
Proof.
  intros f ty typ D b g tv tmv p st SP TO. unfold dec_valueS, dec_value.
  destruct (dec_scalar (f_tag f) ty typ b p); [apply wp_dbindD; intros [p' n] _; now apply postD_ret|].
  destruct (typ =? WBytes); [|stopD]. apply wp_dbindD. intros [fb n] _.
  destruct ty; try stopD; try (now apply postD_ret).
  - apply wp_bind. eapply wp_mono; [|apply REC]. intros st' r (-> & F & _). destruct (rec id (D - 1)%Z fb p) as [p' u|p' x| |]; cbn [wp].
    + split; [cbn; auto|]. split; [now apply frame_none|]. intros v t m X. injection X as <- <- <-. split; [now left|]. intros i Ei. eapply frame_has; [exact F|discriminate|now apply TO].
    + split; [cbn; auto|]. split; [now apply frame_none|discriminate].
    + split; [cbn; auto|]. split; [now apply frame_none|discriminate].
    + split; [cbn; auto|]. split; [now apply frame_none|discriminate].
  - destruct (f_T f) as [| | | | | |kt vt| |] eqn:HT; try stopD. destruct (getMapDecodeFunc f) as [row|].
    + destruct p; try stopD. apply wp_dbindD. intros [k v] _. now apply postD_ret.
    + unfold supported in SP. rewrite HT in SP. rewrite !andb_true_iff in SP. destruct SP as [[[[[_ _] _] _] HK] HV].
      assert (P : forall i st0 c, nth_error st0 i = Some (Some c) -> wp st0 (bindP (DecodeMapPairS E recS f kt vt (D - 1)%Z fb p i) (fun r =>
                      match r with DOk p' _ => Ret (DOk p' (Some i, n)) | DErr p' e => Ret (DErr p' e) | DPanic => Ret DPanic | DFuel => Ret DFuel end))
            (fun st' r => frame (Some i) st0 st' /\ has st' i /\ (forall v t m, r = DOk v (t, m) -> t = Some i) /\ same r (match DecodeMapPair E rec f kt vt (D - 1)%Z fb p (match tv with Some x => x | None => g end) with
                    | DOk p' tmp => DOk p' (Some tmp, n) | DErr p' e => DErr p' e | DPanic => DPanic | DFuel => DFuel end))).
      { intros i st0 c Hc. apply wp_bind. eapply wp_mono; [|apply (pair_run f kt vt (D - 1)%Z fb p i st0 c Hc)]. cbn beta. intros st' r (F & Hh & Er).
        rewrite (DecodeMapPair_indep E rec rec (fun _ _ _ _ => eq_refl) f kt vt (D - 1)%Z fb p (match tv with Some x => x | None => g end) (c_k c, c_v c) HK HV).
        destruct (DecodeMapPair E rec f kt vt (D - 1)%Z fb p (c_k c, c_v c)) as [p' tmp|p' x| |]; subst r; cbn [wp]; (split; [exact F|]; split; [exact Hh|]; split; [|cbn; auto]); try discriminate.
        intros v t m X. now injection X. }
      destruct tmv as [i|].
      * destruct (TO i eq_refl) as [c Hc]. eapply wp_mono; [|exact (P i st c Hc)]. cbn beta. intros st' r (F & Hh & T & S). split; [exact S|]. split; [exact F|].
        intros v t m ->. rewrite (T v t m eq_refl). split; [now left|]. intros j Ej. injection Ej as <-. exact Hh.
      * cbn [wp]. intro c. eapply wp_mono; [|apply (P (length st) (st ++ [Some c]) c)].
        -- cbn beta. intros st' r (F & Hh & T & S). split; [exact S|]. split; [eapply frame_drop; exact F|].
           intros v t m ->. rewrite (T v t m eq_refl). split; [right; eauto|]. intros j Ej. injection Ej as <-. exact Hh.
        -- rewrite nth_error_app2, Nat.sub_diag; auto.
Qed.

Lemma dec_field_run : forall f typ D b g tv tmv slot st, supported f = true -> tmv_ok tmv st ->
  wp st (dec_fieldS E recS f typ D b tmv slot) (postD tmv st (dec_field E rec f typ D b g tv slot)).
Proof.
  intros f typ D b g tv tmv slot st SP TO. unfold dec_fieldS, dec_field.
  destruct (match f_oneof f with Some w => _ | None => _ end) as [p put0].
  destruct (mallocIfPointer E (f_T f) p) as [[t p1] put1]. apply wp_dmapD.
  destruct (f_rep f); [|now apply dec_value_run].
  destruct t; try (now apply dec_value_run).
  destruct ((typ =? WBytes) && f_packed f).
  - destruct (packedDecoderFuncs (packedCoder f)) as [pf|]; [|stopD].
    apply wp_dbindD. intros [fb n] _. apply wp_dbindD. intros l _. now apply postD_ret.
  - destruct p1; try stopD. destruct (grow E t elems spare) as [|e0 sp]; [stopD|].
    destruct (mallocIfPointer E t e0) as [[t' p'] put2]. apply wp_dmapD. now apply dec_value_run.
Qed.

Definition postL (tmv : option nat) st (r' : dres unit) : list (option content) -> dres unit -> Prop :=
  fun st' r => r = r' /\ frame tmv st st'.
Lemma wp_dbindL : forall {A} tmv st v (r : res A) (f : A -> prog (dres unit)) (g : A -> dres unit),
  (forall a, r = Ok a -> wp st (f a) (postL tmv st (g a))) -> wp st (dbindS v r f) (postL tmv st (dbind v r g)).
Proof. intros A tmv st v r f g H. destruct r; cbn [dbindS dbind]; [now apply H| | |]; (cbn; split; [reflexivity|apply frame_refl]). Qed.
Lemma postL_ret : forall tmv st r, wp st (Ret r) (postL tmv st r).
Proof. intros. cbn. split; [reflexivity|apply frame_refl]. Qed.
Lemma put_back_run : forall tmv st p r, tmv_ok tmv st -> (forall st', wp st' p (postL None st' r)) -> wp st (put_back tmv p) (postL tmv st r).
Proof.
  intros tmv st p r TO H. destruct tmv as [i|]; cbn [put_back wp].
  - split; [apply TO; reflexivity|]. eapply wp_mono; [|apply H]. intros st' r' [-> F]. split; [reflexivity|]. eapply frame_trans; [apply (frame_set i None)|apply frame_none; exact F].
  - apply H.
Qed.

Lemma loop_dec_run : forall fuel id D g f tv tmv slots unk b st, (forall f0, f = Some f0 -> In f0 (sd_fields (E id))) -> tmv_ok tmv st ->
  wp st (decode_loopS E recS fuel (E id) D f tmv slots unk b) (postL tmv st (decode_loop E (fun _ => rec) fuel (E id) D g f tv slots unk b)).
Proof.
  induction fuel as [|fuel IH]; intros id D g f tv tmv slots unk b st HF TO.
  { destruct b; cbn [decode_loopS decode_loop]; [|apply postL_ret]. apply put_back_run; [exact TO|]. intro. apply postL_ret. }
  cbn [decode_loopS decode_loop]. destruct b as [|c b]; [apply put_back_run; [exact TO|]; intro; apply postL_ret|].
  apply wp_dbindL. intros [[num typ] n] _. apply wp_dbindL. intros b1 _.
  set (cached := match f with Some f0 => if (f_id f0 =? Z.of_N num)%Z then Some f0 else None | None => None end).
  assert (K : forall f' tmv' tv' st', In f' (sd_fields (E id)) -> tmv_ok tmv' st' ->
    wp st' (match nth_error slots (f_slot f') with
            | None => Ret DPanic
            | Some slot =>
                bindP (dec_fieldS E recS f' typ D b1 tmv' slot) (fun r =>
                match r with
                | DOk slot' (tmv', m) =>
                    let slots' := upd_nth (f_slot f') slot' slots in
                    dbindS (VStruct slots' unk) (slice_from b1 m) (fun b2 =>
                    decode_loopS E recS fuel (E id) D (Some f') tmv' slots' unk b2)
                | DErr slot' e => Ret (DErr (VStruct (upd_nth (f_slot f') slot' slots) unk) e)
                | DPanic => Ret DPanic
                | DFuel => Ret DFuel
                end)
            end)
      (postL tmv' st' (match nth_error slots (f_slot f') with
              | None => DPanic
              | Some slot =>
                  match dec_field E rec f' typ D b1 (g (c :: b) f') tv' slot with
                  | DOk slot' (tmv', m) =>
                      let slots' := upd_nth (f_slot f') slot' slots in
                      dlet b2 <- slice_from b1 m at VStruct slots' unk;
                      decode_loop E (fun _ => rec) fuel (E id) D g (Some f') tmv' slots' unk b2
                  | DErr slot' e => DErr (VStruct (upd_nth (f_slot f') slot' slots) unk) e
                  | DPanic => DPanic
                  | DFuel => DFuel
                  end
              end))).
  { intros f' tmv' tv' st' HI TO'. destruct (nth_error slots (f_slot f')) as [slot|]; [|apply postL_ret].
    apply wp_bind. eapply wp_mono; [|apply (dec_field_run f' typ D b1 (g (c :: b) f') tv' tmv' slot st' (wf_supported E WF id f' HI) TO')].
    intros st1 r (S & F & T). destruct r as [v [t m]|v x| |], (dec_field E rec f' typ D b1 (g (c :: b) f') tv' slot) as [v' [t' m']|v' x'| |]; cbn in S; try contradiction; try (destruct S; subst); try (cbn; split; [reflexivity|exact F]).
    destruct (T v' t m' eq_refl) as [Tt Th].
    eapply wp_mono; [|apply wp_dbindL; intros b2 _; apply IH; [intros f0 X; injection X as <-; exact HI|exact Th]].
    intros st2 r2 [-> F2]. split; [reflexivity|]. destruct Tt as [->|(i & -> & -> & Li)]; [eapply frame_trans; eauto|].
    destruct F as [L1 F], F2 as [L2 F2]. split; [lia|]. intros j Lj _. rewrite F2; [|lia|injection 1; lia]. apply F; [exact Lj|discriminate]. }
  destruct cached as [f'|] eqn:EC.
  - apply (K f' tmv tv st); [|exact TO]. subst cached. destruct f as [f0|]; [|discriminate]. destruct (f_id f0 =? Z.of_N num)%Z; [|discriminate]. injection EC as <-. now apply HF.
  - cbn beta iota zeta. apply put_back_run; [exact TO|]. intro st'. rewrite (wf_GetField E (fun _ _ => True) WF). destruct (declared (sd_fields (E id)) (Z.of_N num)) as [f'|] eqn:DF.
    + apply (K f' None None st'); [|discriminate]. apply declared_iff in DF; [apply DF|]. apply sorted_nodup. apply (wf_sorted _ _ (WF id)).
    + apply wp_dbindL. intros m _. apply wp_dbindL. intros b2 _. apply wp_dbindL. intros raw _. apply IH; [discriminate|discriminate].
Qed.
End Rec.

Lemma struct_dec_run : forall fuel id D b v st P path, wp st (DecodeStructS E fuel id D b v) (post None st (DecodeStruct E fuel path P id D b v)).
Proof.
  induction fuel as [|fuel IH]; intros id D b v st P path; [apply post_ret|]. cbn [DecodeStructS DecodeStruct].
  destruct (D =? 0)%Z; [apply post_ret|]. destruct v; try apply post_ret.
  rewrite (loop_indep E WF (fun rest => DecodeStruct E fuel (rest :: path) P) (fun _ => DecodeStruct E fuel path P)
    (fun r id' D' b' v' => DecodeStruct_indep E WF fuel (r :: path) path P P id' D' b' v') (length b) id D _ (fun rest f => P (rest :: path) f) None None None slots _ b) by discriminate.
  eapply wp_mono; [|apply (loop_dec_run (DecodeStructS E fuel) (DecodeStruct E fuel path P)); [intros; apply IH|discriminate|discriminate]].
  intros st' r [-> F]. split; [reflexivity|]. split; [exact F|discriminate].
Qed.
Lemma unmarshal_run : forall P b a, wp [] (UnmarshalS E b a) (fun _ r => r = Unmarshal E P b a).
Proof.
  intros P b [| |id [v|]]; try reflexivity; [|cbn; reflexivity]. unfold UnmarshalS, Unmarshal. cbn [wp]. intro c. cbn [app].
  apply wp_bind. eapply wp_mono; [|apply (struct_dec_run (S (length b)) id _ b v _ P [])].
  intros st' r Q. assert (Hh := post_has _ _ _ _ _ 0%nat Q (ex_intro _ c eq_refl)). destruct Q as [-> _].
  destruct (DecodeStruct E (S (length b)) [] P id _ b v); cbn [wp]; try (split; [exact Hh|]); reflexivity.
Qed.
End Dec.
