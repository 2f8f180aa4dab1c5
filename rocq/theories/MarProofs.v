(** The encoder on memory writes what the encoder on values returns, and only to the spare
    capacity of its buffer. *)
From Coq Require Import Lia Init.Byte.
From Verif Require Import Base Wire WireProofs Coder MapTables Value WireVal Desc MsgSpec ValFacts Encoder HMem HDecoder HEncoder OwnSpec OwnMem MarSpec MarMem.
Open Scope nat_scope.

(** ** Appending functions append *)
Definition appends {X} (g : bytes -> X -> bytes) : Prop := forall b n, g b n = b ++ g [] n.
Lemma varint_appends : forall b v, AppendVarint b v = b ++ AppendVarint [] v.
Proof. intros. now rewrite !AppendVarint_spec. Qed.
Lemma small_appends : forall b v, AppendVarintSmall b v = b ++ AppendVarintSmall [] v.
Proof. intros. now rewrite !AppendVarintSmall_spec. Qed.
Lemma switch64_appends : forall b v, varint_switch64 b v = b ++ varint_switch64 [] v.
Proof. intros. unfold varint_switch64. repeat (match goal with |- context [if ?c then _ else _] => destruct c end; [reflexivity|]). reflexivity. Qed.
Lemma switch32_appends : forall b v, varint_switch32 b v = b ++ varint_switch32 [] v.
Proof. intros. unfold varint_switch32. repeat (match goal with |- context [if ?c then _ else _] => destruct c end; [reflexivity|]). reflexivity. Qed.
Lemma switch64_length : forall v, 0 < length (varint_switch64 [] v) <= 10.
Proof. intros. unfold varint_switch64. repeat (match goal with |- context [if ?c then _ else _] => destruct c end; [cbn; lia|]). cbn. lia. Qed.
Lemma zz32_appends : forall b v, UnsafeAppendZigZag32 b v = b ++ UnsafeAppendZigZag32 [] v.
Proof. intros. unfold UnsafeAppendZigZag32. repeat (match goal with |- context [if ?c then _ else _] => destruct c end; [reflexivity|]). reflexivity. Qed.
Lemma i32_appends : forall b v, UnsafeAppendVarintI32 b v = b ++ UnsafeAppendVarintI32 [] v.
Proof. intros. unfold UnsafeAppendVarintI32. destruct (v <? 2 ^ 31)%N; [apply switch32_appends|reflexivity]. Qed.
Lemma upd_splice : forall {X} (l : list X) k x, k < length l -> upd_nth k x l = splice k [x] l.
Proof.
  intros X l k x H. destruct (cut3 l k 1 ltac:(lia)) as (a & w & c & -> & <- & Hw).
  destruct w as [|y [|]]; try discriminate Hw. cbn [app]. rewrite upd_nth_app. symmetry. now apply (splice_mid a [x] [y] c).
Qed.

Section Mar.
Variable E : env.
Variable capf : nat -> nat.

(** ** LenPack *)
Lemma lenpack_spec : forall lo h b sz, ready lo h b -> lo + 1 + sz <= s_len b ->
  wrote lo h b (fst (hLenPack capf h b sz)) (snd (hLenPack capf h b sz)) /\
  rd (fst (hLenPack capf h b sz)) (snd (hLenPack capf h b sz)) = LenPack (rd h b) sz.
Proof.
  intros lo h b sz R L. pose proof (buffer_rd _ _ (proj1 R)) as Lr. unfold hLenPack, LenPack.
  destruct (N.ltb_spec (N.of_nat sz) 128) as [Hs|Hs]; cbn [fst snd].
  { destruct (write_in lo h b (s_len b - 1 - sz) [n2b (N.of_nat sz)] R ltac:(lia) ltac:(cbn; lia) ltac:(cbn; lia)) as [W K].
    split; [exact W|]. rewrite K, Lr. now rewrite upd_splice by lia. }
  unfold lenPackSlow. set (m := N.to_nat (SizeVarint (N.of_nat sz))).
  assert (Pm : 1 <= m).
  { unfold m, SizeVarint. pose proof (N.div_le_mono 64 (9 * N.size (N.of_nat sz) + 64) 64 ltac:(lia) ltac:(lia)).
    change (64 / 64)%N with 1%N in H. lia. }
  clearbody m. set (z := repeat x00 (m - 1)). assert (Lz : length z = m - 1) by apply repeat_length. clearbody z.
  destruct (put_spec capf lo h b z R) as (W1 & K1 & L1). destruct (put capf h b z) as [h1 b1]. cbn [fst snd] in *.
  pose proof (ready_wrote _ _ _ _ _ R W1) as R1. pose proof (buffer_rd _ _ (proj1 R1)) as Lr1.
  rewrite <- K1. rewrite Lr1. set (pos := s_len b1 - sz - m). set (n := Nat.min (s_len b1 - (pos + m)) (s_len b1 - (pos + 1))).
  assert (Hp : pos = s_len b - 1 - sz) by lia. assert (Hn : n = sz) by lia. clearbody pos n. subst n.
  set (w1 := firstn sz (skipn (pos + 1) (rd h1 b1))).
  assert (Lw1 : length w1 = sz) by (unfold w1; rewrite firstn_length, skipn_length; lia). 
  destruct (write_in lo h1 b1 (pos + m) w1 R1 ltac:(lia) ltac:(lia) ltac:(lia)) as [W2 K2].
  set (h2 := write_bytes h1 (s_arr b1) (s_off b1 + (pos + m)) w1) in *. clearbody h2.
  pose proof (ready_wrote _ _ _ _ _ R1 W2) as R2.
  pose proof (switch64_length (N.of_nat sz)) as Lv. change (varint_switch64 [] (N.of_nat sz)) with (pw_AppendVarint [] (N.of_nat sz)) in Lv.
  set (w2 := pw_AppendVarint [] (N.of_nat sz)) in *. clearbody w2.
  destruct (write_in lo h2 b1 pos w2 R2 ltac:(lia) ltac:(lia) ltac:(lia)) as [W3 K3].
  split.
  - eapply wrote_trans; [apply R|exact W1|]. eapply wrote_trans; [apply R1|exact W2|exact W3].
  - rewrite K3, K2. unfold splice. rewrite Lw1. reflexivity.
Qed.

(** ** The relation between the two encoders *)
Definition esim (lo : nat) (h : mem) (b : slice) (r : hres slice) (q : res bytes) : Prop :=
  match r, q with
  | HOk h' b', Ok out => wrote lo h b h' b' /\ rd h' b' = out
  | HErr h' e, Err e' => e' = e /\ exists b', wrote lo h b h' b'
  | HPanic, Panic => True
  | _, _ => False
  end.
Definition seen (lo : nat) (h : mem) (b : slice) (x : mv) (v : val) : Prop := sees h (clear h lo b) x v.
Definition seen_all (lo : nat) (h : mem) (b : slice) (xs : list mv) (vs : list val) : Prop := sees_all h (clear h lo b) xs vs.
Definition seen_entries (lo : nat) (h : mem) (b : slice) (xs : list (mv * mv)) (vs : list (val * val)) : Prop := sees_entries h (clear h lo b) xs vs.
Definition seen_opt (lo : nat) (h : mem) (b : slice) (x : option mv) (v : option val) : Prop :=
  match x, v with Some x, Some v => seen lo h b x v | None, None => True | _, _ => False end.
Definition fsim (hg : hfn) (g : bytes -> val -> res bytes) : Prop := forall lo h b x v,
  ready lo h b -> seen lo h b x v -> esim lo h b (hg h b x) (g (rd h b) v).

Lemma esim_mono : forall lo h b h1 b1 r q, ready lo h b -> wrote lo h b h1 b1 -> esim lo h1 b1 r q -> esim lo h b r q.
Proof.
  intros lo h b h1 b1 r q R W H. destruct r as [h' b'|h' e| |], q as [o|e'| |]; cbn in *; auto.
  - destruct H as [V ->]. split; [|reflexivity]. eapply wrote_trans; [apply R|exact W|exact V].
  - destruct H as (-> & b' & V). split; [reflexivity|]. exists b'. eapply wrote_trans; [apply R|exact W|exact V].
Qed.
Lemma esim_ok : forall lo h b h' b' out, wrote lo h b h' b' -> rd h' b' = out -> esim lo h b (HOk h' b') (Ok out).
Proof. intros. now split. Qed.
Lemma esim_same : forall lo h b, ready lo h b -> esim lo h b (HOk h b) (Ok (rd h b)).
Proof. intros lo h b R. split; [apply wrote_refl, R|reflexivity]. Qed.
Lemma esim_seq : forall lo h b r q k kq, ready lo h b -> esim lo h b r q ->
  (forall h1 b1, wrote lo h b h1 b1 -> ready lo h1 b1 -> esim lo h1 b1 (k h1 b1) (kq (rd h1 b1))) ->
  esim lo h b (hseq r k) (bind q kq).
Proof.
  intros lo h b r q k kq R H K. destruct r as [h' b'|h' e| |], q as [o|e'| |]; cbn in *; try contradiction; auto.
  destruct H as [W <-]. eapply esim_mono; [exact R|exact W|]. apply K; [exact W|]. eapply ready_wrote; eauto.
Qed.
Lemma esim_put : forall lo h b raw (k : mem -> slice -> hres slice) q, ready lo h b ->
  (forall h1 b1, wrote lo h b h1 b1 -> ready lo h1 b1 -> rd h1 b1 = rd h b ++ raw -> s_len b1 = s_len b + length raw ->
     esim lo h1 b1 (k h1 b1) q) ->
  esim lo h b (let '(h, b) := put capf h b raw in k h b) q.
Proof.
  intros lo h b raw k q R K. destruct (put_spec capf lo h b raw R) as (W & V & L). destruct (put capf h b raw) as [h1 b1]. cbn [fst snd] in *.
  eapply esim_mono; [exact R|exact W|]. apply K; auto. eapply ready_wrote; eauto.
Qed.
Lemma esim_ret_put : forall lo h b raw, ready lo h b -> esim lo h b (hret (put capf h b raw)) (Ok (rd h b ++ raw)).
Proof. intros lo h b raw R. destruct (put_spec capf lo h b raw R) as (W & V & L). unfold hret. now split. Qed.
Lemma esim_lenpack : forall lo h b b0 (c0 : bytes), ready lo h b -> lo + 1 <= s_len b0 -> s_len b0 <= s_len b -> length c0 = s_len b0 ->
  esim lo h b (hret (hLenPack capf h b (s_len b - s_len b0))) (Ok (LenPack (rd h b) (length (rd h b) - length c0))).
Proof.
  intros lo h b b0 c0 R L1 L2 Lc. rewrite Lc, (buffer_rd _ _ (proj1 R)).
  destruct (lenpack_spec lo h b (s_len b - s_len b0) R ltac:(lia)) as [W K]. unfold hret. now split.
Qed.

Lemma seen_wrote : forall lo h b h' b' x v, wrote lo h b h' b' -> ready lo h b -> seen lo h b x v -> seen lo h' b' x v.
Proof. intros lo h b h' b' x v W R. apply (wrote_sees_all lo h b h' b' (proj1 R) W). Qed.
Lemma seen_all_wrote : forall lo h b h' b' x v, wrote lo h b h' b' -> ready lo h b -> seen_all lo h b x v -> seen_all lo h' b' x v.
Proof. intros lo h b h' b' x v W R. apply (wrote_sees_all lo h b h' b' (proj1 R) W). Qed.
Lemma seen_entries_wrote : forall lo h b h' b' x v, wrote lo h b h' b' -> ready lo h b -> seen_entries lo h b x v -> seen_entries lo h' b' x v.
Proof. intros lo h b h' b' x v W R. apply (wrote_sees_all lo h b h' b' (proj1 R) W). Qed.
Lemma seen_opt_wrote : forall lo h b h' b' x v, wrote lo h b h' b' -> ready lo h b -> seen_opt lo h b x v -> seen_opt lo h' b' x v.
Proof. intros lo h b h' b' [x|] [v|] W R; cbn; auto. now apply seen_wrote. Qed.
Lemma clear_length : forall h lo b s, clear h lo b s -> length (rd h s) = s_len s.
Proof.
  intros h lo b s [Z|(A & V & _)]; unfold rd; [now rewrite Z|]. rewrite firstn_length, skipn_length. lia.
Qed.

(** ** Numbers and bytes *)
Lemma num_sim : forall g, appends g -> fsim (hnum capf g) (num_fn g).
Proof.
  intros g G lo h b x v R S. unfold hnum, num_fn, as_num. destruct S; cbn [bind]; try exact I. rewrite (G (rd h b)). now apply esim_ret_put.
Qed.
Lemma str_sim : fsim (hstr capf) (bytes_fn (fun b k => AppendVarint b (blen k) ++ k)).
Proof.
  assert (K : forall lo h b s, ready lo h b -> clear h lo b s ->
    esim lo h b (let '(h, b) := put capf h b (AppendVarint [] (N.of_nat (s_len s))) in hret (put capf h b (rd h s)))
      (Ok (AppendVarint (rd h b) (blen (rd h s)) ++ rd h s))).
  { intros lo h b s R C. pose proof (clear_length _ _ _ _ C) as L. apply esim_put; [exact R|]. intros h1 b1 W R1 V _.
    destruct (wrote_clear _ _ _ _ _ s (proj1 R) W C) as [_ E1]. rewrite <- E1. rewrite varint_appends. unfold blen. rewrite E1, L, <- V.
    rewrite <- E1. now apply esim_ret_put. }
  intros lo h b x v R S. unfold hstr, bytes_fn, as_bytes. destruct S; cbn [bind hbytes]; try exact I.
  - now apply K.
  - change (@nil byte) with (rd h nil_slice). apply K; [exact R|now left].
  - now apply K.
Qed.

(** ** Loops *)
Fixpoint vloop (pre : bytes) (g : bytes -> val -> res bytes) (b : bytes) (l : list val) : res bytes :=
  match l with [] => Ok b | v :: r => do b1 <- g (b ++ pre) v; vloop pre g b1 r end.
Lemma loop_sim : forall pre hg g, fsim hg g -> forall xs vs lo h b, ready lo h b -> seen_all lo h b xs vs ->
  esim lo h b (hloop capf pre hg h b xs) (vloop pre g (rd h b) vs).
Proof.
  intros pre hg g G. induction xs as [|x xs IH]; intros vs lo h b R S; inversion S; subst; cbn [hloop vloop].
  - now apply esim_same.
  - apply esim_put; [exact R|]. intros h1 b1 W R1 V _. rewrite <- V. apply esim_seq; [exact R1| |].
    + apply G; [exact R1|]. eapply seen_wrote; eauto.
    + intros h2 b2 W2 R2. apply IH; [exact R2|]. eapply seen_all_wrote; [exact W2|exact R1|]. eapply seen_all_wrote; eauto.
Qed.
Lemma fold_nil : forall {X} (g : bytes -> X -> bytes) l b, fold_left g l b = fold_left (fun b x => g (b ++ []) x) l b.
Proof. intros X g. induction l as [|x l IH]; intro b; cbn [fold_left]; [reflexivity|]. rewrite app_nil_r. apply IH. Qed.
Lemma vloop_num : forall pre g l b, (do n <- mapM as_num l; Ok (fold_left (fun b x => g (b ++ pre) x) n b)) = vloop pre (num_fn g) b l.
Proof.
  intros pre g. induction l as [|v l IH]; intro b; [reflexivity|]. cbn [mapM vloop]. unfold num_fn at 1.
  destruct (as_num v) as [n|e| |] eqn:X; cbn [bind]; try reflexivity. rewrite <- IH. destruct (mapM as_num l); reflexivity.
Qed.
Lemma vloop_bytes : forall pre g l b, (do n <- mapM as_bytes l; Ok (fold_left (fun b x => g (b ++ pre) x) n b)) = vloop pre (bytes_fn g) b l.
Proof.
  intros pre g. induction l as [|v l IH]; intro b; [reflexivity|]. cbn [mapM vloop]. unfold bytes_fn at 1.
  destruct (as_bytes v) as [n|e| |] eqn:X; cbn [bind]; try reflexivity. rewrite <- IH. destruct (mapM as_bytes l); reflexivity.
Qed.
Lemma elems_seen : forall lo h b x v, seen lo h b x v ->
  match helems h x, as_elems v with Ok xs, Ok vs => seen_all lo h b xs vs | Panic, Panic => True | _, _ => False end.
Proof.
  intros lo h b x v S. destruct S; cbn; try exact I.
  - unfold elems_of. rewrite H. constructor.
  - destruct H1 as (p & q & Hc & K1 & K2 & K3). unfold elems_of. rewrite Hc, skipn_app, skipn_all2 by lia. cbn. replace (s_off s - length p) with 0 by lia. cbn [skipn].
    rewrite firstn_exact by lia. exact H2.
Qed.
Lemma entries_seen : forall lo h b x v, seen lo h b x v ->
  match hentries h x, as_entries v with Ok xs, Ok vs => seen_entries lo h b xs vs | Panic, Panic => True | _, _ => False end.
Proof.
  intros lo h b x v S. destruct S; cbn; try exact I.
  - constructor.
  - unfold map_of. rewrite H0. exact H1.
Qed.
Lemma bind_elems : forall lo h b x v hk k, ready lo h b -> seen lo h b x v ->
  (forall xs vs, seen_all lo h b xs vs -> esim lo h b (hk xs) (k vs)) ->
  esim lo h b (hbind h (helems h x) hk) (bind (as_elems v) k).
Proof.
  intros lo h b x v hk k R S K. apply elems_seen in S.
  destruct (helems h x) as [xs|e| |], (as_elems v) as [vs|e'| |]; cbn [hbind bind]; try contradiction; [now apply K|exact I].
Qed.
Lemma bind_entries : forall lo h b x v hk k, ready lo h b -> seen lo h b x v ->
  (forall xs vs, seen_entries lo h b xs vs -> esim lo h b (hk xs) (k vs)) ->
  esim lo h b (hbind h (hentries h x) hk) (bind (as_entries v) k).
Proof.
  intros lo h b x v hk k R S K. apply entries_seen in S.
  destruct (hentries h x) as [xs|e| |], (as_entries v) as [vs|e'| |]; cbn [hbind bind]; try contradiction; [now apply K|exact I].
Qed.
Lemma seen_all_length : forall lo h b xs vs, seen_all lo h b xs vs -> length xs = length vs.
Proof. unfold seen_all. intros lo h b. induction xs as [|x xs IH]; intros vs S; inversion S; subst; cbn; auto. Qed.

(** ** Packed and unpacked lists *)
Lemma packed_lenpack_sim : forall g, fsim (hpacked_lenpack capf g) (packed_lenpack g).
Proof.
  intros g lo h b x v R S. unfold hpacked_lenpack, packed_lenpack. apply bind_elems; [exact R|exact S|]. intros xs vs SA.
  assert (Q : forall c0 (k : bytes -> res bytes), (do l <- mapM as_num vs; k (append_elems (fun b n => AppendVarint b (g n)) c0 l)) =
    bind (vloop [] (num_fn (fun b n => AppendVarint b (g n))) c0 vs) k).
  { intros c0 k. rewrite <- (vloop_num [] (fun b n => AppendVarint b (g n))). destruct (mapM as_num vs) as [l| | |]; cbn; try reflexivity.
    f_equal. apply fold_nil. }
  rewrite (Q (LenReserve (rd h b)) (fun b1 => Ok (LenPack b1 (length b1 - length (LenReserve (rd h b)))))).
  apply esim_put; [exact R|]. intros h1 b1 W R1 V L1. cbn in L1. unfold LenReserve. rewrite <- V. apply esim_seq; [exact R1| |].
  - apply loop_sim; [|exact R1|eapply seen_all_wrote; eauto]. apply num_sim. intros c n. apply varint_appends.
  - intros h2 b2 W2 R2. apply esim_lenpack; [exact R2| |apply (w_len _ _ _ _ _ W2)|apply buffer_rd, R1].
    destruct R as [_ R]. lia.
Qed.
Lemma packed_fixed_sim : forall w g, appends g ->
  fsim (hpacked_fixed capf w g) (fun b v => do e <- as_elems v; do l <- mapM as_num e; Ok (append_elems g (AppendVarint b (w * blen l)) l)).
Proof.
  intros w g G lo h b x v R S. unfold hpacked_fixed. apply bind_elems; [exact R|exact S|]. intros xs vs SA.
  assert (Q : forall c0, (do l <- mapM as_num vs; Ok (append_elems g (AppendVarint c0 (w * blen l)) l)) =
    vloop [] (num_fn g) (AppendVarint c0 (w * blen xs)) vs).
  { intros c0. rewrite <- (vloop_num [] g). assert (LL : forall l n, mapM as_num l = Ok n -> length n = length l).
    { induction l as [|a l IH]; intros n M; cbn in M; [injection M as <-; reflexivity|].
      destruct (as_num a); try discriminate M. cbn in M. destruct (mapM as_num l); try discriminate M. injection M as <-. cbn. f_equal. now apply IH. }
    specialize (LL vs). destruct (mapM as_num vs) as [l| | |]; cbn [bind]; try reflexivity. specialize (LL l eq_refl).
    apply seen_all_length in SA. unfold blen. replace (length xs) with (length l) by lia. f_equal.
    apply fold_nil. }
  rewrite Q. apply esim_put; [exact R|]. intros h1 b1 W R1 V _. rewrite varint_appends, <- V.
  apply loop_sim; [now apply num_sim|exact R1|eapply seen_all_wrote; eauto].
Qed.

Definition osim (o : option hfn) (q : option AppendFunc) : Prop :=
  match o, q with Some hg, Some g => fsim hg g | None, None => True | _, _ => False end.
Ltac app_tac := intros ? ?; first [apply varint_appends|apply switch64_appends|apply switch32_appends|apply zz32_appends|apply i32_appends|reflexivity].
Lemma append_sim : forall c, osim (happendFuncs capf c) (appendFuncs c).
Proof. intros []; cbn [happendFuncs appendFuncs osim]; try exact I; try exact str_sim; apply num_sim; app_tac. Qed.
Lemma packed_sim : forall c, osim (happendPackedFuncs capf c) (appendPackedFuncs c).
Proof.
  intros []; cbn [happendPackedFuncs appendPackedFuncs osim]; try exact I; try apply packed_lenpack_sim.
  - apply (packed_fixed_sim 4); app_tac.
  - apply (packed_fixed_sim 8); app_tac.
  - pose proof (packed_fixed_sim 1 (fun b n => b ++ [n2b n]) ltac:(app_tac)) as P. intros lo h b x v R S. specialize (P lo h b x v R S). revert P.
    unfold UnsafeAppendPackedBool. destruct (as_elems v) as [e| | |]; try (intro P; exact P). cbn [bind]. destruct (mapM as_num e) as [l| | |]; try (intro P; exact P).
    cbn [bind]. now rewrite N.mul_1_l.
Qed.
Lemma get_sim : forall c p, osim (hGetAppendFunc capf c p) (GetAppendFunc c p).
Proof. intros c []; [apply packed_sim|apply append_sim]. Qed.

Definition lsim (hg : mem -> slice -> N -> mv -> hres slice) (g : bytes -> N -> val -> res bytes) : Prop := forall tag lo h b x v,
  ready lo h b -> seen lo h b x v -> esim lo h b (hg h b tag x) (g (rd h b) tag v).
Lemma num_list_sim : forall g, appends g -> lsim (hlist capf (hnum capf g)) (num_list g).
Proof.
  intros g G tag lo h b x v R S. unfold hlist, num_list. apply bind_elems; [exact R|exact S|]. intros xs vs SA.
  pose proof (loop_sim (AppendVarintSmall [] tag) _ _ (num_sim g G) xs vs lo h b R SA) as P. rewrite <- vloop_num in P.
  destruct (mapM as_num vs) as [l| | |]; try exact P. cbn [bind] in *. unfold append_list.
  replace (fold_left (fun b0 x0 => g (AppendVarintSmall b0 tag) x0) l (rd h b)) with (fold_left (fun b0 x0 => g (b0 ++ AppendVarintSmall [] tag) x0) l (rd h b)); [exact P|].
  clear. generalize (rd h b). induction l as [|y l IH]; intro c; cbn; [reflexivity|]. now rewrite <- small_appends.
Qed.
Lemma bytes_list_sim : lsim (hlist capf (hstr capf)) (bytes_list (fun b v => AppendVarint b (blen v) ++ v)).
Proof.
  intros tag lo h b x v R S. unfold hlist, bytes_list. apply bind_elems; [exact R|exact S|]. intros xs vs SA.
  pose proof (loop_sim (AppendVarintSmall [] tag) _ _ str_sim xs vs lo h b R SA) as P. rewrite <- vloop_bytes in P.
  destruct (mapM as_bytes vs) as [l| | |]; try exact P. cbn [bind] in *. unfold append_list.
  match type of P with esim _ _ _ _ (Ok ?a) => match goal with |- esim _ _ _ _ (Ok ?c) => replace c with a; [exact P|] end end.
  clear. generalize (rd h b). induction l as [|y l IH]; intro c; cbn; [reflexivity|]. now rewrite <- small_appends.
Qed.
Lemma list_sim : forall c, match happendListFuncs capf c, appendListFuncs c with Some hg, Some g => lsim hg g | None, None => True | _, _ => False end.
Proof. intros []; cbn [happendListFuncs appendListFuncs]; try exact I; try exact bytes_list_sim; apply num_list_sim; app_tac. Qed.

(** ** Maps *)
Lemma map_payload_sim : forall m, fsim (hmap_payload capf m) (mapenc_payload m).
Proof.
  intros []; cbn [hmap_payload]; try exact str_sim; apply num_sim; app_tac.
Qed.
Lemma tagged_sim : forall raw hg g, fsim hg g -> fsim (htagged capf raw hg) (fun b v => g (b ++ raw) v).
Proof.
  intros raw hg g G lo h b x v R S. unfold htagged. apply esim_put; [exact R|]. intros h1 b1 W R1 V _. rewrite <- V.
  apply G; [exact R1|]. eapply seen_wrote; eauto.
Qed.
Definition vmap_entry (tag : N) (kf vf : bytes -> val -> res bytes) (b : bytes) (k v : val) : res bytes :=
  let b0 := LenReserve (AppendVarintSmall b tag) in
  do b1 <- kf b0 k; do b2 <- vf b1 v; Ok (LenPack b2 (length b2 - length b0)).
Fixpoint vmap_loop (tag : N) (kf vf : bytes -> val -> res bytes) (b : bytes) (m : list (val * val)) : res bytes :=
  match m with [] => Ok b | (k, v) :: r => do b1 <- vmap_entry tag kf vf b k v; vmap_loop tag kf vf b1 r end.
Lemma map_entry_sim : forall tag hk hv kf vf, fsim hk kf -> fsim hv vf -> forall lo h b k k' x v,
  ready lo h b -> seen lo h b k k' -> seen lo h b x v -> esim lo h b (hmap_entry capf tag hk hv h b k x) (vmap_entry tag kf vf (rd h b) k' v).
Proof.
  intros tag hk hv kf vf K V lo h b k k' x v R Sk Sv. unfold hmap_entry, vmap_entry. apply esim_put; [exact R|]. intros h1 b1 W1 R1 V1 _.
  apply esim_put; [exact R1|]. intros h2 b2 W2 R2 V2 L2. unfold LenReserve. rewrite small_appends, <- V1, <- V2. cbn in L2.
  assert (Sk2 : seen lo h2 b2 k k') by (eapply seen_wrote; [exact W2|exact R1|]; eapply seen_wrote; eauto).
  assert (Sv2 : seen lo h2 b2 x v) by (eapply seen_wrote; [exact W2|exact R1|]; eapply seen_wrote; eauto).
  apply esim_seq; [exact R2|now apply K|]. intros h3 b3 W3 R3. apply esim_seq; [exact R3|apply V; [exact R3|eapply seen_wrote; eauto]|].
  intros h4 b4 W4 R4. pose proof (w_len _ _ _ _ _ W3). pose proof (w_len _ _ _ _ _ W4). pose proof (proj2 R1). apply esim_lenpack; [exact R4|lia|lia|apply buffer_rd, R2].
Qed.
Lemma map_loop_sim : forall tag hk hv kf vf, fsim hk kf -> fsim hv vf -> forall xs vs lo h b,
  ready lo h b -> seen_entries lo h b xs vs -> esim lo h b (hmap_loop capf tag hk hv h b xs) (vmap_loop tag kf vf (rd h b) vs).
Proof.
  intros tag hk hv kf vf K V. induction xs as [|[k x] xs IH]; intros vs lo h b R S; inversion S; subst; cbn [hmap_loop vmap_loop].
  - now apply esim_same.
  - apply esim_seq; [exact R|apply (map_entry_sim tag hk hv kf vf K V lo h b k k' x v R); assumption|]. intros h1 b1 W R1.
    apply IH; [exact R1|]. eapply seen_entries_wrote; eauto.
Qed.
Lemma vmap_loop_rows : forall row tag m b, append_map_entries row b tag m = vmap_loop tag (appendMapKey (fst row)) (appendMapValue (snd row)) b m.
Proof.
  intros row tag. induction m as [|[k v] m IH]; intro b; [reflexivity|]. cbn [append_map_entries vmap_loop]. unfold vmap_entry.
  destruct (appendMapKey (fst row) _ k) as [b1| | |]; cbn [bind]; try reflexivity.
  destruct (appendMapValue (snd row) b1 v) as [b2| | |]; cbn [bind]; try reflexivity. apply IH.
Qed.
Lemma AppendMap_sim : forall row, lsim (hAppendMap capf row) (AppendMap row).
Proof.
  intros row tag lo h b x v R S. unfold hAppendMap, AppendMap. apply bind_entries; [exact R|exact S|]. intros xs vs SA. rewrite vmap_loop_rows.
  apply map_loop_sim; [| |exact R|exact SA].
  - apply (tagged_sim [n2b (N.lor (N.shiftl 1 3) (mapenc_wt (fst row)))] _ _ (map_payload_sim (fst row))).
  - apply (tagged_sim [n2b (N.lor (N.shiftl 2 3) (mapenc_wt (snd row)))] _ _ (map_payload_sim (snd row))).
Qed.
Lemma vmap_loop_field : forall f kf vf m b, append_map_loop f kf vf b m =
  vmap_loop (WireTag f) (fun b v => kf (AppendKeyTag b (wireTypes (f_ktag f))) v) (fun b v => vf (AppendValTag b (wireTypes (f_vtag f))) v) b m.
Proof.
  intros f kf vf. induction m as [|[k v] m IH]; intro b; [reflexivity|]. cbn [append_map_loop vmap_loop].
  change (append_map_entry f kf vf b k v) with (vmap_entry (WireTag f) (fun b v => kf (AppendKeyTag b (wireTypes (f_ktag f))) v)
    (fun b v => vf (AppendValTag b (wireTypes (f_vtag f))) v) b k v).
  destruct vmap_entry; cbn [bind]; auto.
Qed.
Lemma map_with_sim : forall f hk hv kf vf, fsim hk kf -> fsim hv vf ->
  fsim (hmap_with capf f hk hv) (fun b v => do m <- as_entries v; append_map_loop f kf vf b m).
Proof.
  intros f hk hv kf vf K V lo h b x v R S. unfold hmap_with. apply bind_entries; [exact R|exact S|]. intros xs vs SA. rewrite vmap_loop_field.
  apply map_loop_sim; [| |exact R|exact SA]; apply tagged_sim; assumption.
Qed.

(** ** Fields *)
Lemma seen_zero : forall lo h b x v, seen lo h b x v -> hraw_zero x = raw_zero v.
Proof.
  intros lo h b x v S. unfold seen in S.
  assert (P : (forall x v, sees h (clear h lo b) x v -> hraw_zero x = raw_zero v) /\
              (forall xs vs, sees_all h (clear h lo b) xs vs -> forallb hraw_zero xs = forallb raw_zero vs) /\
              (forall xs vs, sees_entries h (clear h lo b) xs vs -> True)).
  { apply sees_mutind; intros; cbn; try reflexivity; try exact I.
    - apply clear_length in H. destruct (rd h s); cbn in H; rewrite <- H; reflexivity.
    - now rewrite H, H0.
    - destruct H1 as (p & q & _ & _ & K2 & K3).
      assert (Le : forall xs vs, sees_all h (clear h lo b) xs vs -> length xs = length vs) by (intros; eapply seen_all_length; eassumption).
      pose proof (Le _ _ H2). pose proof (Le _ _ H4). destruct (Nat.eqb_spec (s_len s) 0), (Nat.eqb_spec (s_cap s) 0); cbn;
        destruct es, sp; cbn in *; try reflexivity; lia.
    - rewrite H0. destruct H1; reflexivity.
    - now rewrite H0, H2. }
  now apply P.
Qed.
Lemma seen_len : forall lo h b x v, seen lo h b x v -> hslice_len x = slice_len v.
Proof.
  intros lo h b x v S. destruct S; cbn; try reflexivity.
  - now rewrite (clear_length _ _ _ _ H).
  - now rewrite (clear_length _ _ _ _ H).
  - now rewrite H.
  - destruct H1 as (p & q & _ & _ & K2 & _). f_equal. rewrite <- K2. eapply seen_all_length. exact H2.
Qed.
Lemma skipzero_sim : forall lo h b t x v, seen lo h b x v -> hskipzero E t x = skipzero E t v.
Proof. intros lo h b t x v S. unfold hskipzero, skipzero. now rewrite (seen_zero _ _ _ _ _ S), (seen_len _ _ _ _ _ S). Qed.
Lemma skipzero_no_err : forall t v e, skipzero E t v <> Err e.
Proof. intros t v e. unfold skipzero. destruct (_ || _)%bool; [discriminate|]. destruct (SliceLike t); [|discriminate]. destruct (slice_len v); discriminate. Qed.
Lemma skipzero_no_fuel : forall t v, skipzero E t v <> OutOfFuel.
Proof. intros t v. unfold skipzero. destruct (_ || _)%bool; [discriminate|]. destruct (SliceLike t); [|discriminate]. destruct (slice_len v); discriminate. Qed.
Lemma pointee_sim : forall lo h b x v, seen lo h b x v ->
  match hpointee h x, v with Ok y, VPtr p => seen_opt lo h b y p | Panic, VPtr _ => False | Panic, _ => True | _, _ => False end.
Proof. intros lo h b x v S. destruct S; cbn; try exact I. rewrite H0. exact S. Qed.
Lemma deref_sim : forall lo h b t x v, seen lo h b x v ->
  match hderef h t x, deref t v with Ok (t1, y), Ok (t2, p) => t1 = t2 /\ seen_opt lo h b y p | Panic, Panic => True | _, _ => False end.
Proof.
  intros lo h b t x v S. unfold hderef, deref. destruct t; try (split; [reflexivity|exact S]).
  apply pointee_sim in S. destruct (hpointee h x) as [y|e| |]; cbn [bind]; try contradiction; destruct v; try contradiction; auto.
Qed.
Lemma elem_sim : forall lo h b t x v, seen lo h b x v ->
  match hstruct_elem h t x, struct_elem t v with Ok (t1, y), Ok (t2, p) => t1 = t2 /\ seen_opt lo h b y p | Panic, Panic => True | _, _ => False end.
Proof.
  intros lo h b t x v S. unfold hstruct_elem, struct_elem. destruct t; try exact I; [now split|]. destruct t; try exact I.
  apply pointee_sim in S. destruct (hpointee h x) as [y|e| |]; cbn [bind]; try contradiction; destruct v; try contradiction; auto.
Qed.
Lemma oneof_sim : forall lo h b f x v, seen lo h b x v ->
  match honeof_data h f x, oneof_data f v with Ok y, Ok p => seen_opt lo h b y p | Panic, Panic => True | _, _ => False end.
Proof.
  intros lo h b f x v S. unfold honeof_data, oneof_data. destruct (f_oneof f) as [w|]; [|exact S].
  destruct S; try exact I. rewrite H0. destruct (w0 =? w); [exact S|exact I].
Qed.

Section Rec.
Variable hrec : nat -> mem -> slice -> option mv -> hres slice.
Variable rec : nat -> bytes -> option val -> res bytes.
Hypothesis Rec : forall id lo h b x v, ready lo h b -> seen_opt lo h b x v -> esim lo h b (hrec id h b x) (rec id (rd h b) v).

Lemma struct_value_sim : forall vt, fsim (hstruct_value hrec vt) (append_struct_value rec vt).
Proof.
  intros vt lo h b x v R S. unfold hstruct_value, append_struct_value. pose proof (elem_sim lo h b vt x v S) as P.
  destruct (hstruct_elem h vt x) as [[i y]|e| |], (struct_elem vt v) as [[j p]|e'| |]; cbn [hbind bind]; try contradiction; [|exact I].
  destruct P as [-> P]. now apply Rec.
Qed.
Lemma vloop_struct : forall vt tag l b, append_struct_elems rec vt tag b l = vloop (AppendVarintSmall [] tag) (append_struct_value rec vt) b l.
Proof.
  intros vt tag. induction l as [|v l IH]; intro b; [reflexivity|]. cbn [append_struct_elems vloop]. unfold append_struct_value at 1.
  rewrite <- small_appends. destruct (struct_elem vt v) as [[id p]| | |]; cbn [bind]; try reflexivity.
  destruct (rec id (AppendVarintSmall b tag) p); cbn [bind]; auto.
Qed.
Lemma ListField_sim : forall f, fsim (hAppendListField capf hrec f) (AppendListField rec f).
Proof.
  intros f lo h b x v R S. unfold hAppendListField, AppendListField. destruct (f_T f); try exact I. apply bind_elems; [exact R|exact S|].
  intros xs vs SA. rewrite vloop_struct. apply loop_sim; [apply struct_value_sim|exact R|exact SA].
Qed.
Lemma opt_sim : forall o q, osim o q -> fsim (hopt_fn o) (opt_fn q).
Proof. intros [hg|] [g|] O; cbn in *; try contradiction; [exact O|]. intros lo h b x v _ _. exact I. Qed.
Lemma MapGeneric_sim : forall f, fsim (hAppendMapGeneric capf hrec f) (AppendMapGeneric rec f).
Proof.
  intros f lo h b x v R S. unfold hAppendMapGeneric, AppendMapGeneric. destruct (f_T f) as [| | | | | |kt vt| |]; try exact I.
  apply (map_with_sim f _ _ _ _); [apply opt_sim, get_sim| |exact R|exact S]. pose proof (get_sim (valCoder f) false) as G.
  destruct hGetAppendFunc, GetAppendFunc; try contradiction; [exact G|apply struct_value_sim].
Qed.
Lemma MapField_sim : forall f, fsim (hAppendMapField capf hrec f) (AppendMapField rec f).
Proof.
  intros f lo h b x v R S. pose proof (MapGeneric_sim f lo h b x v R S) as MG. unfold hAppendMapField, AppendMapField.
  destruct (f_T f) as [| | | | | |kt vt| |] eqn:T; try exact I.
  pose proof (get_sim (valCoder f) false) as G. destruct (hGetAppendFunc capf (valCoder f) false), (GetAppendFunc (valCoder f) false); try contradiction; [exact MG|].
  destruct (IsPointer vt); [|exact MG]. destruct (kindOf kt) as [[]| | | | | | | |]; try exact MG;
    (apply (map_with_sim f); [|apply struct_value_sim|exact R|exact S]; first [apply opt_sim, get_sim|exact str_sim]).
Qed.
Lemma must_sim : forall lo h b p q hk k, seen_opt lo h b p q ->
  (forall x v, seen lo h b x v -> esim lo h b (hk x) (k v)) -> esim lo h b (hbind h (hmust p) hk) (bind (must q) k).
Proof. intros lo h b [x|] [v|] hk k S K; cbn in *; try contradiction; [now apply K|exact I]. Qed.

Lemma field_sim : forall f, fsim (happend_field E capf hrec f) (append_field E rec f).
Proof.
  intros f lo h b x v R S. unfold happend_field, append_field. pose proof (oneof_sim lo h b f x v S) as PO.
  destruct (honeof_data h f x) as [y|e| |], (oneof_data f v) as [q|e'| |]; cbn [hbind bind]; try contradiction; [|exact I].
  destruct y as [y|], q as [q|]; cbn [seen_opt] in PO; try contradiction; [|now apply esim_same].
  rewrite (skipzero_sim lo h b (f_T f) y q PO). destruct (skipzero E (f_T f) q) as [[]|e| |] eqn:SK; cbn [hbind bind].
  - now apply esim_same.
  - pose proof (deref_sim lo h b (f_T f) y q PO) as PD.
    destruct (hderef h (f_T f) y) as [[t1 p1]|e| |], (deref (f_T f) q) as [[t2 p2]|e'| |]; cbn [hbind bind]; try contradiction; [|exact I].
    destruct PD as [-> PD]. pose proof (get_sim (fieldCoder f) (f_packed f)) as G.
    assert (Tg : forall hg g, fsim hg g -> esim lo h b (hbind h (hmust p1) (fun x => htagged capf (AppendVarintSmall [] (WireTag f)) hg h b x))
      (bind (must p2) (fun x => g (AppendVarintSmall (rd h b) (WireTag f)) x))).
    { intros hg g Hg. apply must_sim; [exact PD|]. intros x0 v0 S0. rewrite (small_appends (rd h b)). now apply (tagged_sim _ hg g Hg). }
    assert (Rest : esim lo h b
      (if IsList f then
              if f_packed f then
                match hGetAppendFunc capf (fieldCoder f) (f_packed f) with
                | Some g => hlet x <- hmust p1 at h; htagged capf (AppendVarintSmall [] (WireTag f)) g h b x
                | None => HPanic
                end
              else
                match happendListFuncs capf (fieldCoder f) with
                | Some g => hlet x <- hmust p1 at h; g h b (WireTag f) x
                | None => hlet x <- hmust p1 at h; hAppendListField capf hrec f h b x
                end
            else if IsMap f then
              match getAppendMapFunc f with
              | Some row => hlet x <- hmust p1 at h; hAppendMap capf row h b (WireTag f) x
              | None => hlet x <- hmust p1 at h; hAppendMapField capf hrec f h b x
              end
            else
              match t2 with
              | TStruct id => let '(h, b) := put capf h b (AppendVarintSmall [] (WireTag f)) in hrec id h b p1
              | _ => HPanic
              end)
      (if IsList f then
              if f_packed f then
                match GetAppendFunc (fieldCoder f) (f_packed f) with
                | Some g => do x <- must p2; g (AppendVarintSmall (rd h b) (WireTag f)) x
                | None => Panic
                end
              else
                match appendListFuncs (fieldCoder f) with
                | Some g => do x <- must p2; g (rd h b) (WireTag f) x
                | None => do x <- must p2; AppendListField rec f (rd h b) x
                end
            else if IsMap f then
              match getAppendMapFunc f with
              | Some row => do x <- must p2; AppendMap row (rd h b) (WireTag f) x
              | None => do x <- must p2; AppendMapField rec f (rd h b) x
              end
            else
              match t2 with
              | TStruct id => rec id (AppendVarintSmall (rd h b) (WireTag f)) p2
              | _ => Panic
              end)).
    { destruct (IsList f); [|destruct (IsMap f)].
      - destruct (f_packed f).
        + destruct hGetAppendFunc, GetAppendFunc; try contradiction; [now apply Tg|exact I].
        + pose proof (list_sim (fieldCoder f)) as LS. destruct happendListFuncs, appendListFuncs; try contradiction; (apply must_sim; [exact PD|]); intros x0 v0 S0.
          * now apply LS.
          * now apply ListField_sim.
      - destruct (getAppendMapFunc f); (apply must_sim; [exact PD|]); intros x0 v0 S0.
        + now apply AppendMap_sim.
        + now apply MapField_sim.
      - destruct t2; try exact I. apply esim_put; [exact R|]. intros h1 b1 W R1 V _. rewrite small_appends, <- V. apply Rec; [exact R1|].
        eapply seen_opt_wrote; eauto. }
    destruct (f_rep f); [exact Rest|].
    destruct (hGetAppendFunc capf (fieldCoder f) (f_packed f)), (GetAppendFunc (fieldCoder f) (f_packed f)); try contradiction; [now apply Tg|exact Rest].
  - exact (False_ind _ (skipzero_no_err _ _ _ SK)).
  - exact I.
  - exact (False_ind _ (skipzero_no_fuel _ _ SK)).
Qed.
Lemma seen_nth : forall i xs vs lo h b, seen_all lo h b xs vs -> seen_opt lo h b (nth_error xs i) (nth_error vs i).
Proof. induction i as [|i IH]; intros xs vs lo h b S; inversion S; subst; cbn; auto. Qed.
Lemma fields_sim : forall fs xs vs lo h b, ready lo h b -> seen_all lo h b xs vs ->
  esim lo h b (happend_fields E capf hrec fs h b xs) (append_fields E rec fs (rd h b) vs).
Proof.
  induction fs as [|f fs IH]; intros xs vs lo h b R S; cbn [happend_fields append_fields]; [now apply esim_same|].
  pose proof (seen_nth (f_slot f) xs vs lo h b S) as P. destruct (nth_error xs (f_slot f)), (nth_error vs (f_slot f)); cbn in P; try contradiction; [|exact I].
  apply esim_seq; [exact R|now apply field_sim|]. intros h1 b1 W R1. apply IH; [exact R1|]. eapply seen_all_wrote; eauto.
Qed.
End Rec.

(** ** Structs *)
Hypothesis WF : wf_env E.
Lemma zero_seen : forall v t, zero_of E t = v -> forall lo h b, seen lo h b (embed v) v.
Proof.
  assert (St : forall id w, sd_zero (E id) = w -> w = VStruct (map (zero_of E) (sd_slots (E id))) None).
  { intros id w <-. apply (wf_zero _ _ (WF id)). }
  intro v. induction v as [|n|s|s|p IH|e sp IH1 IH2|m IH|l u IH|i IH] using val_ind'; intros t Ht lo h b; cbn [embed]; unfold seen;
    destruct t as [k| | |id|t'|t'|k' v'|alts|]; cbn [zero_of] in Ht; try discriminate Ht; try (apply St in Ht; discriminate Ht).
  - injection Ht as <-. constructor.
  - injection Ht as <-. constructor.
  - injection Ht as <-. replace (VStr []) with (VStr (rd h nil_slice)) by reflexivity. constructor. now left.
  - injection Ht as <-. constructor.
  - injection Ht as <-. constructor.
  - injection Ht as <- <-. apply sees_noslice; reflexivity.
  - injection Ht as <-. apply sees_nomap.
  - apply St in Ht. injection Ht as -> ->. apply sees_struct; [|constructor].
    induction (sd_slots (E id)) as [|t ts IHt]; cbn [map]; [constructor|]. cbn [map] in IH. inversion IH; subst.
    constructor; [|now apply IHt]. now apply (H1 t).
  - injection Ht as <-. constructor.
Qed.
Lemma struct_sim : forall d id el lo h b x v, ready lo h b -> seen_opt lo h b x v ->
  esim lo h b (hAppendStruct E capf d id h b x el) (AppendStruct E d id (rd h b) v el).
Proof.
  induction d as [|d IH]; intros id el lo h b x v R S; cbn [hAppendStruct AppendStruct].
  { split; [reflexivity|]. exists b. apply wrote_refl, R. }
  assert (SB : seen lo h b (match x with Some x => x | None => embed (sd_zero (E id)) end) (match v with Some v => v | None => sd_zero (E id) end)).
  { destruct x, v; cbn in S; try contradiction; [exact S|]. apply (zero_seen _ (TStruct id) eq_refl). }
  generalize dependent (match x with Some x => x | None => embed (sd_zero (E id)) end).
  generalize dependent (match v with Some v => v | None => sd_zero (E id) end). intros v' x' SB. clear x v S.
  destruct SB as [| | | | | | | | | | |xs vs u ub SA SU| | |]; try exact I.
  assert (Body : forall h0 b0, wrote lo h b h0 b0 -> ready lo h0 b0 -> s_len b0 = s_len b + (if el then 1 else 0) ->
    esim lo h0 b0
      (hseq (happend_fields E capf (fun id h b base => hAppendStruct E capf d id h b base true) (sd_fields (E id)) h0 b0 xs) (fun h b1 =>
          let '(h, b2) := if sd_unknown (E id) then hAppendUnknown capf h b1 u else (h, b1) in
          hret (if el then hLenPack capf h b2 (s_len b2 - s_len b0) else (h, b2))))
      (do b1 <- append_fields E (fun id b base => AppendStruct E d id b base true) (sd_fields (E id)) (rd h0 b0) vs;
          let b2 := if sd_unknown (E id) then appendUnknownFields b1 ub else b1 in
          Ok (if el then LenPack b2 (length b2 - length (rd h0 b0)) else b2))).
  { intros h0 b0 W R0 L0. apply esim_seq; [exact R0| |].
    - apply fields_sim; [|exact R0|eapply seen_all_wrote; eauto]. intros. now apply IH.
    - intros h1 b1 W1 R1.
      assert (Fin : forall h2 b2, wrote lo h1 b1 h2 b2 -> ready lo h2 b2 ->
        esim lo h2 b2 (hret (if el then hLenPack capf h2 b2 (s_len b2 - s_len b0) else (h2, b2)))
          (Ok (if el then LenPack (rd h2 b2) (length (rd h2 b2) - length (rd h0 b0)) else rd h2 b2))).
      { intros h2 b2 W2 R2. destruct el; [|now apply esim_same].
        pose proof (w_len _ _ _ _ _ W1). pose proof (w_len _ _ _ _ _ W2). pose proof (proj2 R).
        apply esim_lenpack; [exact R2|lia|lia|apply buffer_rd, R0]. }
      destruct (sd_unknown (E id)); [|apply Fin; [apply wrote_refl, R1|exact R1]].
      unfold hAppendUnknown, appendUnknownFields. destruct SU as [|u Pu]; [apply Fin; [apply wrote_refl, R1|exact R1]|].
      destruct (wrote_clear _ _ _ _ _ u (proj1 R) W Pu) as [P0 E0]. destruct (wrote_clear _ _ _ _ _ u (proj1 R0) W1 P0) as [P1 E1].
      rewrite <- E0, <- E1. apply esim_put; [exact R1|]. intros h2 b2 W2 R2 V2 _. rewrite <- V2. now apply Fin. }
  destruct el.
  - apply esim_put; [exact R|]. intros h0 b0 W R0 V0 L0. unfold LenReserve. rewrite <- V0. apply Body; assumption.
  - apply Body; [apply wrote_refl, R|exact R|lia].
Qed.
End Mar.
