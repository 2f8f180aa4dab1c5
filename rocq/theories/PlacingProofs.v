(** The objects that the calls of the listeners make. *)
From Coq Require Import List Arith Bool ZArith Lia Init.Byte.
From Verif Require Import Base GoStr Comments Verify StrLit Listen ListenProofs Walk FileComments Placing PlacingSpec.
Import ListNotations.
Open Scope nat_scope.

(* ---------- tables: names, each with a list of names and numbers ---------- *)
Definition key := (bytes * option Z)%type.
Definition tab := list (bytes * list key).
Definition pos := (nat * option nat)%type.
Definition get (t : tab) (c : pos) : option key :=
  match nth_error t (fst c) with
  | None => None
  | Some (n, l) => match snd c with None => Some (n, None) | Some k => nth_error l k end
  end.
Definition before (d c : pos) : Prop :=
  match snd d, snd c with
  | None, None => fst d < fst c
  | Some k, Some l => fst d = fst c -> k < l
  | _, _ => True
  end.
Definition adds (t t' : tab) (c : pos) (x : key) : Prop :=
  get t c = None /\ get t' c = Some x /\ (forall d, d <> c -> get t' d = get t d) /\ (forall d, get t d <> None -> before d c).
Lemma adds_outer t n : adds t (t ++ [(n, [])]) (length t, None) (n, None).
Proof.
  unfold adds, get; cbn [fst snd]. repeat split.
  - now rewrite (proj2 (nth_error_None t (length t)) (le_n _)).
  - now rewrite nth_error_snoc.
  - intros [i k] D. cbn [fst snd]. destruct (lt_eq_lt_dec i (length t)) as [[L|E]|L].
    + now rewrite nth_error_app1.
    + subst i. rewrite nth_error_snoc, (proj2 (nth_error_None t (length t)) (le_n _)). destruct k as [[|k]|]; [reflexivity|reflexivity|now destruct D].
    + rewrite (proj2 (nth_error_None t i)) by lia. rewrite (proj2 (nth_error_None (t ++ _) i)); [reflexivity|]. rewrite app_length; cbn; lia.
  - intros [i k] D. cbn [fst snd] in *. unfold before; cbn [fst snd]. destruct k; [exact Logic.I|].
    apply nth_error_Some. intro E. rewrite E in D. now apply D.
Qed.
Lemma adds_inner t i n l x : nth_error t i = Some (n, l) -> adds t (upd_nth i (n, l ++ [x]) t) (i, Some (length l)) x.
Proof.
  intro E. unfold adds, get; cbn [fst snd]. repeat split.
  - rewrite E. apply nth_error_None. lia.
  - rewrite (upd_nth_same _ _ _ _ E). apply nth_error_snoc.
  - intros [j k] D. cbn [fst snd]. destruct (Nat.eq_dec i j) as [<-|N]; [|now rewrite upd_nth_other].
    rewrite (upd_nth_same _ _ _ _ E), E. destruct k as [k|]; [|reflexivity].
    destruct (lt_eq_lt_dec k (length l)) as [[L|Q]|L]; [now rewrite nth_error_app1|subst; now destruct D|].
    rewrite (proj2 (nth_error_None l k)) by lia. apply nth_error_None. rewrite app_length; cbn; lia.
  - intros [j k] D. unfold before; cbn [fst snd] in *. destruct k as [k|]; [|exact Logic.I]. intros ->. rewrite E in D. now apply nth_error_Some.
Qed.

(* ---------- the tables of a state ---------- *)
Definition fkey (f : field) : key := (fl_name f, Some (fl_num f)).
Definition vkey (f : enumfield) : key := (ef_name f, Some (ef_value f)).
Definition mkey (m : method) : key := (me_name m, None).
Definition mrow (m : mrec) := (mr_name m, map fkey (mr_fields m)).
Definition erow (e : erec) := (er_name e, map vkey (er_fields e)).
Definition srow (s : service) := (sv_name s, map mkey (sv_methods s)).
Definition mtab st : tab := map mrow (l_msgs st).
Definition etab st : tab := map erow (l_enums st).
Definition stab st : tab := map srow (p_services st).
Inductive which := Wm | We | Ws.
Definition where_ (s : slot) : which * pos :=
  match s with
  | SMsg i => (Wm, (i, None)) | SField i k => (Wm, (i, Some k))
  | SEnum i => (We, (i, None)) | SValue i k => (We, (i, Some k))
  | SService i => (Ws, (i, None)) | SMethod i k => (Ws, (i, Some k))
  end.
Lemma where_inj a b : where_ a = where_ b -> a = b.
Proof. destruct a, b; cbn; congruence. Qed.
Definition tab_of st (w : which) : tab := match w with Wm => mtab st | We => etab st | Ws => stab st end.
Lemma object_get st s : object st s = get (tab_of st (fst (where_ s))) (snd (where_ s)).
Proof.
  destruct s; cbn [where_ fst snd tab_of object]; unfold get, mtab, etab, stab; cbn [fst snd]; rewrite nth_error_map;
    match goal with |- context [nth_error ?l ?i] => destruct (nth_error l i) end; cbn [option_map mrow erow srow]; try reflexivity;
    now rewrite nth_error_map.
Qed.
Lemma follows_before a b : fst (where_ a) = fst (where_ b) -> before (snd (where_ a)) (snd (where_ b)) -> follows a b.
Proof. destruct a, b; cbn; try discriminate; auto. Qed.
Lemma follows_other a b : fst (where_ a) <> fst (where_ b) -> follows a b.
Proof. destruct a, b; cbn; auto; congruence. Qed.

Definition unchanged (st st1 : state) : Prop := mtab st1 = mtab st /\ etab st1 = etab st /\ stab st1 = stab st.
Definition makes (st st1 : state) (s : slot) (x : key) : Prop :=
  object st s = None /\ object st1 s = Some x /\ (forall d, d <> s -> object st1 d = object st d) /\ (forall d, object st d <> None -> follows d s).
Lemma unchanged_same st st1 : unchanged st st1 -> forall s, object st1 s = object st s.
Proof. intros (A & B & C) s. rewrite !object_get. destruct s; cbn [where_ fst snd tab_of]; now rewrite ?A, ?B, ?C. Qed.
Lemma makes_adds st st1 s x : (forall w, w <> fst (where_ s) -> tab_of st1 w = tab_of st w) ->
  adds (tab_of st (fst (where_ s))) (tab_of st1 (fst (where_ s))) (snd (where_ s)) x -> makes st st1 s x.
Proof.
  intros O (A & B & C & D). unfold makes. rewrite !object_get. repeat split; auto.
  - intros d N. rewrite !object_get. assert (Dw : {fst (where_ d) = fst (where_ s)} + {fst (where_ d) <> fst (where_ s)}) by decide equality.
    destruct Dw as [E|E]; [|now rewrite (O _ E)]. rewrite E. apply C. intro Q. apply N, where_inj.
    rewrite (surjective_pairing (where_ d)), (surjective_pairing (where_ s)). congruence.
  - intros d. rewrite object_get. assert (Dw : {fst (where_ d) = fst (where_ s)} + {fst (where_ d) <> fst (where_ s)}) by decide equality.
    destruct Dw as [E|E]; [|intros _; now apply follows_other]. rewrite E. intro N. now apply follows_before, D.
Qed.

(* ---------- one call ---------- *)
Lemma map_upd {A B} (f : A -> B) i x l : map f (upd_nth i x l) = upd_nth i (f x) (map f l).
Proof. revert i; induction l as [|a l IH]; intros [|i]; cbn; auto. now rewrite IH. Qed.
Lemma on_last_inv {A} (k : A -> option A) l l' : on_last k l = Some l' -> exists a x y, l = a ++ [x] /\ l' = a ++ [y] /\ k x = Some y.
Proof.
  destruct l as [|b l0] using rev_ind; [discriminate|]. rewrite on_last_snoc. destruct (k b) as [y|] eqn:E; [|discriminate].
  intro H. exists l0, b, y. repeat split; congruence.
Qed.
Lemma upd_last {A} (a : list A) x y : upd_nth (length a) y (a ++ [x]) = a ++ [y].
Proof. induction a; cbn; auto. now f_equal. Qed.
Lemma with_msg_inv st k st1 : with_msg st k = LOk st1 -> exists i r m m', l_stack st = i :: r /\ nth_error (l_msgs st) i = Some m /\ k m = Some m' /\
  st1 = set_msgs st (upd_nth i m' (l_msgs st)).
Proof.
  unfold with_msg. destruct (l_stack st) as [|i r] eqn:E; [discriminate|]. destruct (nth_error (l_msgs st) i) as [m|] eqn:En; [|discriminate].
  destruct (k m) as [m'|] eqn:Ek; [|discriminate]. intro H. exists i, r, m, m'. repeat split; congruence.
Qed.
Lemma with_enum_inv st k st1 : with_enum st k = LOk st1 -> exists i e, l_enum st = Some i /\ nth_error (l_enums st) i = Some e /\
  st1 = set_enums st (upd_nth i (k e) (l_enums st)).
Proof.
  unfold with_enum. destruct (l_enum st) as [i|] eqn:E; [|discriminate]. destruct (nth_error (l_enums st) i) as [m|] eqn:En; [|discriminate].
  intro H. exists i, m. repeat split; congruence.
Qed.
Lemma msg_frame st k st1 : with_msg st k = LOk st1 -> (forall m m', k m = Some m' -> mrow m' = mrow m) -> unchanged st st1.
Proof.
  intros H K. destruct (with_msg_inv _ _ _ H) as (i & r & m & m' & _ & En & Ek & ->). repeat split. unfold mtab; cbn [l_msgs set_msgs].
  rewrite map_upd, (K _ _ Ek). apply upd_nth_self. now rewrite nth_error_map, En.
Qed.
Lemma enum_frame st k st1 : with_enum st k = LOk st1 -> (forall m, erow (k m) = erow m) -> unchanged st st1.
Proof.
  intros H K. destruct (with_enum_inv _ _ _ H) as (i & m & _ & En & ->). repeat split. unfold etab; cbn [l_enums set_enums].
  rewrite map_upd, K. apply upd_nth_self. now rewrite nth_error_map, En.
Qed.
Lemma serv_frame st k sv : on_last k (p_services st) = Some sv -> (forall m m', k m = Some m' -> srow m' = srow m) -> unchanged st (set_services st sv).
Proof.
  intros H K. apply on_last_inv in H as (a & x & y & E & -> & Ek). repeat split. unfold stab; cbn [p_services set_services set_proto].
  rewrite E, !map_app. cbn [map]. now rewrite (K _ _ Ek).
Qed.
Lemma meth_frame k (s s' : service) :
  match on_last k (sv_methods s) with Some ms => Some (mkSv (sv_name s) ms (sv_options s)) | None => None end = Some s' ->
  (forall m m', k m = Some m' -> mkey m' = mkey m) -> srow s' = srow s.
Proof.
  destruct (on_last k (sv_methods s)) as [ms|] eqn:E; [|discriminate]. intros H K. injection H as <-.
  apply on_last_inv in E as (a & x & y & E & -> & Ek). unfold srow; cbn [sv_name sv_methods]. rewrite E, !map_app. cbn [map]. now rewrite (K _ _ Ek).
Qed.
Lemma field_made st k st1 x : with_msg st k = LOk st1 -> (forall m m', k m = Some m' -> mr_name m' = mr_name m /\ map fkey (mr_fields m') = map fkey (mr_fields m) ++ [x]) ->
  exists i r k0, l_stack st = i :: r /\ fields_so_far st = Some (SField i k0) /\ makes st st1 (SField i k0) x.
Proof.
  intros H K. destruct (with_msg_inv _ _ _ H) as (i & r & m & m' & Es & En & Ek & ->). destruct (K _ _ Ek) as [K1 K2].
  exists i, r, (length (mr_fields m)). split; [assumption|]. unfold fields_so_far. rewrite Es, En. split; [reflexivity|].
  apply makes_adds.
  - intros [] N; try reflexivity. now destruct N.
  - cbn [where_ fst snd tab_of]. unfold mtab; cbn [l_msgs set_msgs]. rewrite map_upd. unfold mrow at 2. rewrite K1, K2.
    rewrite <- (map_length fkey (mr_fields m)). apply adds_inner. now rewrite nth_error_map, En.
Qed.
Definition known (e : event) (s : slot) (st : state) : Prop :=
  match s with
  | SField i _ => exists r, l_stack st = i :: r
  | SValue j _ => l_enum st = Some j
  | SMethod i _ => length (p_services st) = S i
  | _ => True
  end.
Lemma newField_key x s f : newField x s = Some f -> Some (sf_name x, UnmarshalI32 (sf_num x)) = Some (fkey f).
Proof. intro E. apply newField_some in E as (E1 & _ & _ & _ & E2 & _). unfold fkey. now rewrite E1, E2. Qed.
Lemma makes_unchanged st st1 st2 s x : unchanged st st1 -> makes st1 st2 s x -> makes st st2 s x.
Proof.
  intros U (A & B & C & D). pose proof (unchanged_same _ _ U) as Q. repeat split; auto.
  - now rewrite <- Q.
  - intros d N. now rewrite <- Q, C.
  - intros d N. apply D. now rewrite Q.
Qed.
Definition step_ok st e st1 : Prop :=
  match slot_of st e with
  | None => asks e = false /\ forall s, object st1 s = object st s
  | Some s => asks e = true /\ becomes e s /\ known e s st /\ exists x, written e = Some x /\ makes st st1 s x
  end.
Lemma quiet st e st1 : slot_of st e = None -> asks e = false -> unchanged st st1 -> step_ok st e st1.
Proof. intros A B C. unfold step_ok. rewrite A. split; [assumption|]. now apply unchanged_same. Qed.
Lemma msg_made st st0 n p j stk st1 : unchanged st st0 -> length (l_msgs st0) = length (l_msgs st) -> st1 = set_stack (set_msgs st0 (l_msgs st0 ++ [mkMR n p [] [] [] [] [] []])) stk ->
  j = length (l_msgs st) -> makes st st1 (SMsg j) (n, None).
Proof.
  intros U L -> ->. apply (makes_unchanged _ _ _ _ _ U). apply makes_adds.
  - intros [] N; try reflexivity. now destruct N.
  - cbn [where_ fst snd tab_of]. unfold mtab; cbn [l_msgs set_msgs set_stack]. rewrite map_app. cbn [map]. rewrite <- L, <- (map_length mrow (l_msgs st0)). apply adds_outer.
Qed.
Lemma enum_made st st0 n p j stk st1 : unchanged st st0 -> length (l_enums st0) = length (l_enums st) -> st1 = set_enum (set_enums st0 (l_enums st0 ++ [mkER n p [] [] []])) stk ->
  j = length (l_enums st) -> makes st st1 (SEnum j) (n, None).
Proof.
  intros U L -> ->. apply (makes_unchanged _ _ _ _ _ U). apply makes_adds.
  - intros [] N; try reflexivity. now destruct N.
  - cbn [where_ fst snd tab_of]. unfold etab; cbn [l_enums set_enums set_enum]. rewrite map_app. cbn [map]. rewrite <- L, <- (map_length erow (l_enums st0)). apply adds_outer.
Qed.
Lemma field_ok st e k st1 x : slot_of st e = fields_so_far st -> asks e = true -> (forall i k, becomes e (SField i k)) -> written e = Some x ->
  with_msg st k = LOk st1 -> (forall m m', k m = Some m' -> mr_name m' = mr_name m /\ map fkey (mr_fields m') = map fkey (mr_fields m) ++ [x]) -> step_ok st e st1.
Proof.
  intros A B C D H K. destruct (field_made _ _ _ _ H K) as (i & r & k0 & Es & Ef & M). unfold step_ok. rewrite A, Ef.
  repeat split; auto; [exists r; exact Es|]. exists x. now split.
Qed.
Lemma step_slot st e st1 : step st e = LOk st1 -> step_ok st e st1.
Proof.
  destruct e; cbn [step].
  - (* message *)
    intro H. unfold step_ok; cbn [slot_of asks becomes known written]. repeat split. exists (n, None). split; [reflexivity|].
    destruct p; try discriminate H.
    + injection H as <-. set (st0 := set_proto st (p_edition st) (p_package st) (p_options st) (p_imports st) (p_msgs st ++ [length (l_msgs st)]) (p_enums st) (p_services st)).
      apply (msg_made st st0 n None _ (length (l_msgs st) :: l_stack st)); auto; [now repeat split].
    + destruct (l_stack st) as [|j r] eqn:Es; [discriminate H|]. destruct (with_msg st _) as [st0| |] eqn:W; try discriminate H. injection H as <-.
      apply (msg_made st st0 n (Some j) _ (length (l_msgs st) :: l_stack st0)); auto.
      * apply (msg_frame _ _ _ W). intros m m' Q. injection Q as <-. reflexivity.
      * destruct (with_msg_inv _ _ _ W) as (? & ? & ? & ? & _ & _ & _ & ->). apply upd_nth_length.
  - (* end of a message *)
    intro H. destruct (l_stack st) eqn:Es; [discriminate H|]. injection H as <-. now apply quiet.
  - (* enum *)
    intro H. unfold step_ok; cbn [slot_of asks becomes known written]. repeat split. exists (n, None). split; [reflexivity|].
    destruct p; try discriminate H.
    + injection H as <-. set (st0 := set_proto st (p_edition st) (p_package st) (p_options st) (p_imports st) (p_msgs st) (p_enums st ++ [length (l_enums st)]) (p_services st)).
      apply (enum_made st st0 n None _ (Some (length (l_enums st)))); auto; [now repeat split].
    + destruct (l_stack st) as [|j r] eqn:Es; [discriminate H|]. destruct (with_msg st _) as [st0| |] eqn:W; try discriminate H. injection H as <-.
      apply (enum_made st st0 n (Some j) _ (Some (length (l_enums st)))); auto.
      * apply (msg_frame _ _ _ W). intros m m' Q. injection Q as <-. reflexivity.
      * destruct (with_msg_inv _ _ _ W) as (? & ? & ? & ? & _ & _ & _ & ->). reflexivity.
  - intro H. injection H as <-. now apply quiet.
  - (* value *)
    unfold read_enum_field; cbn [fst snd]. destruct (UnmarshalI32 lit) as [v|] eqn:Ev; [|discriminate]. destruct (read_options oo) as [oo'|]; [|discriminate].
    intro H. destruct (with_enum_inv _ _ _ H) as (i & m & Ee & En & ->). unfold step_ok; cbn [slot_of asks becomes written]. rewrite Ee, En. cbn [known]. repeat split; auto.
    eexists. rewrite Ev. cbn [option_map]. split; [reflexivity|]. apply makes_adds.
    + intros [] N; try reflexivity. now destruct N.
    + cbn [where_ fst snd tab_of]. unfold etab; cbn [l_enums set_enums]. rewrite map_upd. unfold erow at 2. cbn [er_name er_fields]. rewrite map_app.
      rewrite <- (map_length vkey (er_fields m)). cbn [map]. apply adds_inner. now rewrite nth_error_map, En.
  - (* field *)
    destruct p; try (destruct (newField f None) as [x|] eqn:Ef; [|discriminate]; apply newField_key in Ef; destruct l as [[]|]);
      try (destruct (str_eqb (p_edition st) editionProto2); [|discriminate]);
      try (intro H; eapply (field_ok st _ _ st1 (fkey x)); [reflexivity|reflexivity|intros; exact Logic.I|exact Ef|exact H|];
           intros m m' Q; injection Q as <-; cbn; rewrite map_app; now split).
    intro H. injection H as <-. apply quiet; now repeat split.
  - destruct (newField f None) as [x|] eqn:Ef; [|discriminate]. apply newField_key in Ef.
    intro H; eapply (field_ok st _ _ st1 (fkey x)); [reflexivity|reflexivity|intros; exact Logic.I|exact Ef|exact H|].
    intros m m' Q. cbv beta zeta in Q. destruct (on_last _ _) in Q; [|discriminate Q]. injection Q as <-; cbn; rewrite map_app; now split.
  - destruct (newField f (Some k)) as [x|] eqn:Ef; [|discriminate]. apply newField_key in Ef.
    intro H; eapply (field_ok st _ _ st1 (fkey x)); [reflexivity|reflexivity|intros; exact Logic.I|exact Ef|exact H|].
    intros m m' Q. injection Q as <-; cbn; rewrite map_app; now split.
  - intro H. apply quiet; try reflexivity. apply (msg_frame _ _ _ H). intros m m' Q. injection Q as <-. reflexivity.
  - (* option *)
    destruct (unmarshalConst c) as [v|]; [|discriminate]. destruct (verifyOption n v); [|discriminate]. intro H. apply quiet; try reflexivity.
    destruct p; try (injection H as <-; now repeat split).
    + apply (msg_frame _ _ _ H). intros m m' Q. injection Q as <-. reflexivity.
    + apply (msg_frame _ _ _ H). intros m m' Q. destruct (on_last _ _) in Q; [|discriminate Q]. injection Q as <-. reflexivity.
    + apply (enum_frame _ _ _ H). reflexivity.
    + destruct (on_last _ (p_services st)) eqn:E in H; [|discriminate H]. injection H as <-. apply (serv_frame _ _ _ E). intros m m' Q. injection Q as <-. reflexivity.
    + destruct (on_last _ (p_services st)) eqn:E in H; [|discriminate H]. injection H as <-. apply (serv_frame _ _ _ E). intros m m' Q.
      eapply meth_frame; [exact Q|]. intros a b R. injection R as <-. reflexivity.
  - (* reserved *)
    destruct (all read_range rr) as [ranges|]; [|discriminate]. intro H. apply quiet; try reflexivity. destruct p; try (injection H as <-; now repeat split).
    + apply (msg_frame _ _ _ H). intros m m' Q. injection Q as <-. reflexivity.
    + apply (enum_frame _ _ _ H). reflexivity.
  - (* service *)
    intro H. injection H as <-. unfold step_ok; cbn [slot_of asks becomes known written]. repeat split. exists (n, None). split; [reflexivity|]. apply makes_adds.
    + intros [] N; try reflexivity. now destruct N.
    + cbn [where_ fst snd tab_of]. unfold stab; cbn [p_services set_services set_proto]. rewrite map_app. cbn [map]. rewrite <- (map_length srow (p_services st)). apply adds_outer.
  - (* method *)
    intro H. destruct (on_last _ (p_services st)) eqn:E in H; [|discriminate H]. injection H as <-. apply on_last_inv in E as (a & x & y & E & -> & Q). injection Q as <-.
    unfold step_ok; cbn [slot_of asks becomes written]. rewrite E, rev_app_distr, app_length. cbn [rev app length]. replace (length a + 1 - 1) with (length a) by lia.
    repeat split; [cbn [known]; rewrite E, app_length; cbn; lia|]. exists (n, None). split; [reflexivity|]. apply makes_adds.
    + intros [] N; try reflexivity. now destruct N.
    + cbn [where_ fst snd tab_of]. unfold stab; cbn [p_services set_services set_proto]. rewrite E, !map_app. cbn [map]. unfold srow at 4. cbn [sv_name sv_methods]. rewrite map_app.
      cbn [map].
      pose proof (adds_inner (map srow a ++ [srow x]) (length (map srow a)) (sv_name x) (map mkey (sv_methods x)) (n, None) (nth_error_snoc _ _)) as Q.
      rewrite upd_last, !map_length in Q. exact Q.
  - intro H. destruct (on_last _ (p_services st)) eqn:E in H; [|discriminate H]. injection H as <-. apply quiet; try reflexivity. apply (serv_frame _ _ _ E). intros m m' Q.
    eapply meth_frame; [exact Q|]. intros a b R. cbv beta in R. destruct (stream_flags _ _ _ _ _) in R. injection R as <-. reflexivity.
  - destruct (UnmarshalString lit); [|discriminate]. destruct (known_edition _); [|discriminate]. intro H. injection H as <-. now apply quiet.
  - destruct (p_package st); [|discriminate]. intro H. injection H as <-. now apply quiet.
  - destruct (UnmarshalString lit); [|discriminate]. intro H. injection H as <-. now apply quiet.
Qed.

(* ---------- all the calls ---------- *)
Definition is_msg (e : event) : bool := match e with EnterMessageDef _ _ => true | _ => false end.
Record frame (pre : list event) (st : state) : Prop := {
  fr_stack : l_stack st = opened_messages 0 [] pre;
  fr_msgs : length (l_msgs st) = started is_msg pre;
  fr_enums : length (l_enums st) = started is_enum pre;
  fr_enum : forall j, l_enum st = Some j -> length (l_enums st) = S j;
  fr_services : length (p_services st) = started is_service pre
}.
Lemma started_snoc b a e : started b (a ++ [e]) = started b a + if b e then 1 else 0.
Proof. unfold started. rewrite filter_app, app_length. cbn. now destruct (b e). Qed.
Lemma opened_snoc e a : forall n open, opened_messages n open (a ++ [e]) =
  match e with
  | EnterMessageDef _ _ => (n + started is_msg a) :: opened_messages n open a
  | ExitMessageDef => tl (opened_messages n open a)
  | _ => opened_messages n open a
  end.
Proof.
  induction a as [|d a IH]; intros n open.
  - cbn [app opened_messages]. unfold started; cbn. rewrite Nat.add_0_r. now destruct e.
  - cbn [app]. unfold started; cbn [filter]. fold (started is_msg a).
    destruct d; cbn [opened_messages is_msg]; rewrite IH; try reflexivity.
    destruct e; try reflexivity. f_equal. unfold started. cbn [length]. lia.
Qed.
Lemma frame_step pre st e st1 : frame pre st -> step st e = LOk st1 -> frame (pre ++ [e]) st1.
Proof.
  intros [A B C D E] H.
  assert (OL : forall k (l l' : list service), on_last k l = Some l' -> length l' = length l).
  { intros k l l' Q. apply on_last_inv in Q as (a & x & y & -> & -> & _). now rewrite !app_length. }
  assert (WM : forall k s s1, with_msg s k = LOk s1 -> l_stack s1 = l_stack s /\ length (l_msgs s1) = length (l_msgs s) /\ l_enums s1 = l_enums s /\ l_enum s1 = l_enum s /\ p_services s1 = p_services s).
  { intros k s s1 Q. destruct (with_msg_inv _ _ _ Q) as (? & ? & ? & ? & _ & _ & _ & ->). repeat split. apply upd_nth_length. }
  assert (WE : forall k s s1, with_enum s k = LOk s1 -> l_stack s1 = l_stack s /\ l_msgs s1 = l_msgs s /\ length (l_enums s1) = length (l_enums s) /\ l_enum s1 = l_enum s /\ p_services s1 = p_services s).
  { intros k s s1 Q. destruct (with_enum_inv _ _ _ Q) as (? & ? & _ & _ & ->). repeat split. apply upd_nth_length. }
  assert (KM : forall k, with_msg st k = LOk st1 -> (forall n open, opened_messages n open (pre ++ [e]) = opened_messages n open pre) -> is_msg e = false -> is_enum e = false -> is_service e = false -> frame (pre ++ [e]) st1).
  { intros k Q O0 O1 O2 O3. destruct (WM _ _ _ Q) as (Q1 & Q2 & Q3 & Q4 & Q5). constructor; rewrite ?started_snoc, ?O0, ?O1, ?O2, ?O3, ?Nat.add_0_r, ?Q1, ?Q2, ?Q3, ?Q4, ?Q5; auto. }
  assert (KE : forall k, with_enum st k = LOk st1 -> (forall n open, opened_messages n open (pre ++ [e]) = opened_messages n open pre) -> is_msg e = false -> is_enum e = false -> is_service e = false -> frame (pre ++ [e]) st1).
  { intros k Q O0 O1 O2 O3. destruct (WE _ _ _ Q) as (Q1 & Q2 & Q3 & Q4 & Q5). constructor; rewrite ?started_snoc, ?O0, ?O1, ?O2, ?O3, ?Nat.add_0_r, ?Q1, ?Q2, ?Q3, ?Q4, ?Q5; auto. }
  assert (KS : forall k sv, on_last k (p_services st) = Some sv -> st1 = set_services st sv -> (forall n open, opened_messages n open (pre ++ [e]) = opened_messages n open pre) -> is_msg e = false -> is_enum e = false -> is_service e = false -> frame (pre ++ [e]) st1).
  { intros k sv Q -> O0 O1 O2 O3. constructor; rewrite ?started_snoc, ?O0, ?O1, ?O2, ?O3, ?Nat.add_0_r; cbn; auto. now rewrite (OL _ _ _ Q). }
  assert (KP : l_stack st1 = l_stack st -> l_msgs st1 = l_msgs st -> l_enums st1 = l_enums st -> l_enum st1 = l_enum st -> p_services st1 = p_services st -> (forall n open, opened_messages n open (pre ++ [e]) = opened_messages n open pre) -> is_msg e = false -> is_enum e = false -> is_service e = false -> frame (pre ++ [e]) st1).
  { intros Q1 Q2 Q3 Q4 Q5 O0 O1 O2 O3. constructor; rewrite ?started_snoc, ?O0, ?O1, ?O2, ?O3, ?Nat.add_0_r, ?Q1, ?Q2, ?Q3, ?Q4, ?Q5; auto. }
  destruct e; cbn [step] in H.
  - clear KM KE KS KP. assert (G : l_stack st1 = length (l_msgs st) :: l_stack st /\ length (l_msgs st1) = length (l_msgs st) + 1 /\ l_enums st1 = l_enums st /\ l_enum st1 = l_enum st /\ p_services st1 = p_services st).
    { destruct p; try discriminate H.
      - injection H as <-. cbn. rewrite app_length. now repeat split.
      - destruct (l_stack st) as [|j r] eqn:Es; [discriminate H|]. destruct (with_msg st _) as [st0| |] eqn:W; try discriminate H. injection H as <-.
        destruct (WM _ _ _ W) as (Q1 & Q2 & Q3 & Q4 & Q5). cbn. rewrite app_length, Q1, Q2, Q3, Q4, Q5, Es. now repeat split. }
    destruct G as (G1 & G2 & G3 & G4 & G5). constructor; rewrite ?opened_snoc, ?started_snoc, ?G1, ?G2, ?G3, ?G4, ?G5; cbn [is_msg is_enum is_service]; rewrite ?Nat.add_0_r; auto.
    now rewrite A, B.
  - destruct (l_stack st) eqn:Es; [discriminate H|]. injection H as <-. constructor; rewrite ?opened_snoc, ?started_snoc; cbn; rewrite ?Nat.add_0_r; auto. now rewrite <- A.
  - clear KM KE KS KP. assert (G : l_stack st1 = l_stack st /\ length (l_msgs st1) = length (l_msgs st) /\ length (l_enums st1) = length (l_enums st) + 1 /\ l_enum st1 = Some (length (l_enums st)) /\ p_services st1 = p_services st).
    { destruct p; try discriminate H.
      - injection H as <-. cbn. rewrite app_length. now repeat split.
      - destruct (l_stack st) as [|j r] eqn:Es; [discriminate H|]. destruct (with_msg st _) as [st0| |] eqn:W; try discriminate H. injection H as <-.
        destruct (WM _ _ _ W) as (Q1 & Q2 & Q3 & Q4 & Q5). cbn. rewrite app_length, Q1, Q2, Q3, Q5, Es. now repeat split. }
    destruct G as (G1 & G2 & G3 & G4 & G5). constructor; rewrite ?opened_snoc, ?started_snoc, ?G1, ?G2, ?G3, ?G4, ?G5; cbn [is_msg is_enum is_service]; rewrite ?Nat.add_0_r; auto.
    intros j Q. injection Q as <-. lia.
  - injection H as <-. constructor; rewrite ?opened_snoc, ?started_snoc; cbn; rewrite ?Nat.add_0_r; auto. discriminate.
  - destruct (read_enum_field _) as [[]|]; [|discriminate]. destruct (read_options oo); [|discriminate]. apply (KE _ H); auto. intros; apply opened_snoc.
  - destruct p; try (injection H as <-; apply KP; auto; intros; apply opened_snoc);
      (destruct (newField f None); [|discriminate]; destruct l as [[]|]; try (destruct (str_eqb (p_edition st) editionProto2); [|discriminate]); apply (KM _ H); auto; intros; apply opened_snoc).
  - destruct (newField f None); [|discriminate]; apply (KM _ H); auto; intros; apply opened_snoc.
  - destruct (newField f (Some k)); [|discriminate]; apply (KM _ H); auto; intros; apply opened_snoc.
  - apply (KM _ H); auto; intros; apply opened_snoc.
  - destruct (unmarshalConst c); [|discriminate]. destruct (verifyOption _ _); [|discriminate].
    destruct p; try (injection H as <-; apply KP; auto; intros; apply opened_snoc); try (apply (KM _ H); auto; intros; apply opened_snoc); try (apply (KE _ H); auto; intros; apply opened_snoc);
    (destruct (on_last _ (p_services st)) eqn:Q in H; [|discriminate H]; injection H as <-; apply (KS _ _ Q); auto; intros; apply opened_snoc).
  - destruct (all read_range rr); [|discriminate].
    destruct p; try (injection H as <-; apply KP; auto; intros; apply opened_snoc); try (apply (KM _ H); auto; intros; apply opened_snoc); try (apply (KE _ H); auto; intros; apply opened_snoc).
  - injection H as <-. constructor; rewrite ?opened_snoc, ?started_snoc; cbn; rewrite ?Nat.add_0_r, ?app_length; auto.
  - destruct (on_last _ (p_services st)) eqn:Q in H; [|discriminate H]; injection H as <-; apply (KS _ _ Q); auto; intros; apply opened_snoc.
  - destruct (on_last _ (p_services st)) eqn:Q in H; [|discriminate H]; injection H as <-; apply (KS _ _ Q); auto; intros; apply opened_snoc.
  - destruct (UnmarshalString lit); [|discriminate]. destruct (known_edition _); [|discriminate]. injection H as <-. apply KP; auto; intros; apply opened_snoc.
  - destruct (p_package st); [|discriminate]. injection H as <-. apply KP; auto; intros; apply opened_snoc.
  - destruct (UnmarshalString lit); [|discriminate]. injection H as <-. apply KP; auto; intros; apply opened_snoc.
Qed.
Lemma known_belongs pre st e s : frame pre st -> known e s st -> belongs pre s.
Proof.
  intros [A B C D E] K. destruct s; cbn [known belongs] in *; auto.
  - destruct K as [r K]. exists r. now rewrite <- A.
  - rewrite <- C. now apply D.
  - now rewrite <- E.
Qed.
(** What the calls behind [pre] make *)
Lemma slots_ok evs : forall pre st st1, frame pre st -> run st evs = LOk st1 ->
  length (slots st evs) = started asks evs /\
  NoDup (slots st evs) /\ ForallOrdPairs follows (slots st evs) /\
  (forall s, In s (slots st evs) -> object st s = None) /\
  (forall s, object st s <> None -> object st1 s = object st s /\ forall d, In d (slots st evs) -> follows s d) /\
  (forall s, object st1 s <> None <-> object st s <> None \/ In s (slots st evs)) /\
  (forall a e b, evs = a ++ e :: b -> asks e = true -> exists s, nth_error (slots st evs) (started asks a) = Some s /\
     becomes e s /\ belongs (pre ++ a) s /\ object st1 s = written e /\ written e <> None).
Proof.
  induction evs as [|e evs IH]; intros pre st st1 Fr H.
  - cbn in H. injection H as <-. cbn [slots]. split; [reflexivity|]. split; [constructor|]. split; [constructor|]. split; [intros s []|].
    split; [intros s _; split; [reflexivity|intros d []]|]. split; [intro s; split; [now left|intros [Q|[]]; exact Q]|].
    intros a d b Q. destruct a; discriminate.
  - cbn [run] in H. destruct (step st e) as [st2| |] eqn:Es; try discriminate H.
    pose proof (frame_step _ _ _ _ Fr Es) as Fr2. pose proof (step_slot _ _ _ Es) as K. unfold step_ok in K.
    specialize (IH _ _ _ Fr2 H) as (L & ND & FO & Nw & Old & Ex & Pl). cbn [slots]. rewrite Es.
    destruct (slot_of st e) as [s0|] eqn:E0; cbn [app].
    + destruct K as (Ka & Kb & Kk & x & Kw & M1 & M2 & M3 & M4).
      assert (M2' : object st2 s0 <> None) by congruence.
      assert (N0 : ~ In s0 (slots st2 evs)) by (intro Q; apply M2'; now apply Nw).
      repeat split.
      * cbn [length]. unfold started; cbn [filter]. rewrite Ka. cbn [length]. f_equal. exact L.
      * now constructor.
      * constructor; [|exact FO]. apply Forall_forall. intros d Q. now apply (Old s0 M2').
      * intros s [<-|Q]; [exact M1|]. rewrite <- M3; [now apply Nw|]. intros ->. now apply N0.
      * assert (D : s <> s0) by (intros ->; now apply H0). destruct (Old s) as [O1 _]; [now rewrite (M3 _ D)|]. now rewrite O1, (M3 _ D).
      * assert (D : s <> s0) by (intros ->; now apply H0). destruct (Old s) as [_ O2]; [now rewrite (M3 _ D)|].
        intros d [<-|Q]; [now apply M4|now apply O2].
      * intro Q. apply Ex in Q as [Q|Q]; [|right; now right]. destruct (object st s) eqn:Eo; [left; congruence|].
        right. left. symmetry. destruct (object st2 s) eqn:E2; [|now destruct Q].
        assert (Dd : {s = s0} + {s <> s0}) by (repeat decide equality). destruct Dd as [Dd|Dd]; [exact Dd|]. rewrite (M3 _ Dd) in E2. congruence.
      * intro Q. apply Ex. destruct Q as [Q|[<-|Q]]; [left|now left|now right]. rewrite M3; [exact Q|]. intros ->. now apply Q.
      * intros a d b Ea As. destruct a as [|a0 a]; cbn [app] in Ea; injection Ea as <- Ea.
        -- exists s0. unfold started; cbn [filter length nth_error]. split; [reflexivity|]. split; [exact Kb|]. rewrite app_nil_r.
           split; [now apply (known_belongs _ st e)|]. destruct (Old s0 M2') as [-> _]. rewrite M2, Kw. split; [reflexivity|discriminate].
        -- destruct (Pl a d b Ea As) as (s & P1 & P2 & P3 & P4). exists s. rewrite <- app_assoc in P3. cbn [app] in P3.
           split; [|split; [exact P2|split; [exact P3|exact P4]]]. unfold started; cbn [filter]. rewrite Ka. exact P1.
    + destruct K as (Ka & Kq). repeat split; auto.
      * unfold started; cbn [filter]. rewrite Ka. exact L.
      * intros s Q. rewrite <- Kq. now apply Nw.
      * rewrite <- Kq. apply Old. now rewrite Kq.
      * apply Old. now rewrite Kq.
      * intro Q. apply Ex in Q. now rewrite Kq in Q.
      * intro Q. apply Ex. now rewrite Kq.
      * intros a d b Ea As. destruct a as [|a0 a]; cbn [app] in Ea; injection Ea as <- Ea; [congruence|].
        destruct (Pl a d b Ea As) as (s & P1 & P2 & P3 & P4). exists s. rewrite <- app_assoc in P3. cbn [app] in P3.
        split; [|split; [exact P2|split; [exact P3|exact P4]]]. unfold started; cbn [filter]. rewrite Ka. exact P1.
Qed.
Lemma frame0 : frame [] state0.
Proof. constructor; try reflexivity. discriminate. Qed.
