(** Every message of an accepted file is legal for the generator. *)
From Coq Require Import List Arith Bool ZArith Lia Strings.String Init.Byte.
From Coq Require Arith.Cantor.
From Verif Require Import Base GoStr StrFacts GenField GenNames GenSpec NameSpec Scope Verify StrLit Listen ListenSpec ListenProofs.
From Verif Require Import VerifySpec VerifyProofs Props_Verify.
From Verif Require Import LexFile ParserNames Parser ParserSpec SpellSpec Walk WalkProofs WalkFile Props_Listen Props_Parser WalkDefs Props_Walk Compile CompileSpec CompileProofs.
Import ListNotations StringSyntax.
Local Open Scope string_scope.
Local Open Scope list_scope.
Open Scope nat_scope.
#[local] Opaque lex_file parse load_tree events parser_tokens rule.

Lemma Forall2_l {A B} (P : A -> B -> Prop) l m x : Forall2 P l m -> In x l -> exists y, In y m /\ P x y.
Proof. induction 1 as [|a b l m H R IH]; [intros []|]. intros [<-|J]; [exists b; cbn; auto|]. destruct (IH J) as (y & Iy & Hy). exists y. cbn. auto. Qed.
Lemma Forall2_r {A B} (P : A -> B -> Prop) l m y : Forall2 P l m -> In y m -> exists x, In x l /\ P x y.
Proof. induction 1 as [|a b l m H R IH]; [intros []|]. intros [<-|J]; [exists a; cbn; auto|]. destruct (IH J) as (x & Ix & Hx). exists x. cbn. auto. Qed.
Lemma Forall2_len {A B} (P : A -> B -> Prop) l m : Forall2 P l m -> length l = length m.
Proof. induction 1; cbn; congruence. Qed.
Lemma lexed_l a b : lexed (a ++ b) -> lexed a.
Proof. intros H. now apply Forall_app in H. Qed.
Lemma lexed_r a b : lexed (a ++ b) -> lexed b.
Proof. intros H. now apply Forall_app in H. Qed.

(* ---------- the text of a part of a file ---------- *)
Lemma several_in {A} (P : A -> list tok -> Prop) l w x : several P l w -> lexed w -> In x l -> exists v, P x v /\ lexed v.
Proof.
  induction 1 as [|y l a b H R IH]; intros L; [intros []|]. intros [<-|J]; [exists a; split; [exact H|eapply lexed_l, L]|].
  apply IH; [eapply lexed_r, L|exact J].
Qed.
Lemma things_in {A} (P : A -> list tok -> Prop) l w x : things P l w -> lexed w -> In x l -> exists v, P x v /\ lexed v.
Proof.
  induction 1 as [|y l a b H R IH|l a b H R IH]; intros L; [intros []| |].
  - intros [<-|J]; [exists a; split; [exact H|eapply lexed_l, L]|]. apply IH; [eapply lexed_r, L|exact J].
  - intros J. apply IH; [eapply lexed_r, L|exact J].
Qed.
Lemma elems_in l : forall w x, elems_are l w -> lexed w -> In x l -> exists v, elem_is x v /\ lexed v.
Proof.
  induction l as [|y l IH]; intros w x H L J; [destruct J|]. inversion H as [|? ? a b He Hr]; subst.
  destruct J as [<-|J]; [exists a; split; [exact He|eapply lexed_l, L]|]. eapply IH; [exact Hr|eapply lexed_r, L|exact J].
Qed.
Lemma file_msgs_in d n l : In (n, l) (file_msgs d) -> In (StMsg n l) d.
Proof. unfold file_msgs. rewrite in_flat_map. intros (x & J & H). destruct x; cbn in H; first [destruct H as [H|[]]; injection H as <- <-; exact J|destruct H]. Qed.
Lemma msg_msgs_in d n l : In (n, l) (msg_msgs d) -> In (SmMsg n l) d.
Proof. unfold msg_msgs. rewrite in_flat_map. intros (x & J & H). destruct x; cbn in H; first [destruct H as [H|[]]; injection H as <- <-; exact J|destruct H]. Qed.

Definition written (st : state) (i : nat) : Prop :=
  exists p n l t w, proto_name n /\ shows_msg st p i t /\ msg_means (p_edition st) (n, l) t /\ elems_are l w /\ lexed w.
Lemma reached_written st f t w i : file_is f w -> lexed w -> file_means f t -> shows_file st t -> reached st i -> written st i.
Proof.
  intros Ff L (_ & _ & _ & _ & Mm & _) (Ee & _ & _ & _ & Sm & _) R. rewrite <- Ee in Mm. induction R as [i J|j m i R IH Ej J].
  - destruct (Forall2_l _ _ _ _ Sm J) as (tm & Itm & Sh). destruct (Forall2_r _ _ _ _ Mm Itm) as ((n & l) & Il & Me).
    apply file_msgs_in in Il. unfold file_is in Ff. cbn [spell] in Ff. destruct Ff as (a1 & b1 & -> & _ & a2 & b2 & -> & Sv & _).
    destruct (several_in _ _ _ _ Sv (lexed_l _ _ (lexed_r _ _ L)) Il) as (v & Hv & Lv). cbn [top_is spell] in Hv.
    destruct Hv as (c1 & d1 & -> & _ & c2 & d2 & -> & Hn & c3 & d3 & -> & _ & c4 & d4 & -> & El & _).
    exists None, n, l, tm, c4. split; [eapply (name_proto r_messageName); [with_strategy transparent [rule] reflexivity|exact Hn|]; exact (lexed_l _ _ (lexed_r _ _ Lv))|].
    split; [exact Sh|]. split; [exact Me|]. split; [exact El|].
    exact (lexed_l _ _ (lexed_r _ _ (lexed_r _ _ (lexed_r _ _ Lv)))).
  - destruct IH as (p & n & l & tm & v & _ & Sh & Me & El & Lv). inversion Sh as [p' i' n' fs os es ms oo rr ei mi En Se Sm' E1 E2 E3]; subst.
    rewrite En in Ej. injection Ej as <-. cbn [mr_msgs] in J. inversion Me as [n0 l0 fs0 os0 es0 ms0 oo0 rr0 M1 M2 M3 M4 M5 M6]; subst.
    destruct (Forall2_l _ _ _ _ Sm' J) as (tm & Itm & Sh'). destruct (Forall2_r _ _ _ _ M4 Itm) as ((n1 & l1) & Il & Me').
    apply msg_msgs_in in Il. destruct (elems_in _ _ _ El Lv Il) as (u & Hu & Lu).
    inversion Hu as [| | | |n2 l2 a b c d e K1 K2 K3 K4 K5| | | | | |]; subst.
    exists (Some j), n1, l1, tm, d.
    split; [eapply (name_proto r_messageName); [with_strategy transparent [rule] reflexivity|exact K2|]; exact (lexed_l _ _ (lexed_r _ _ Lu))|].
    split; [exact Sh'|]. split; [exact Me'|]. split; [exact K4|].
    exact (lexed_l _ _ (lexed_r _ _ (lexed_r _ _ (lexed_r _ _ Lu)))).
Qed.

(* ---------- the fields of a message ---------- *)
Lemma end_name f w : field_end f w -> lexed w -> proto_name (sf_name f).
Proof.
  unfold field_end. cbn [spell]. intros (a & b & -> & H & _) L. eapply (name_proto r_fieldName); [with_strategy transparent [rule] reflexivity|exact H|eapply lexed_l, L].
Qed.
Lemma field_name x w : field_is x w -> lexed w -> proto_name (sf_name (snd x)).
Proof.
  unfold field_is. cbn [spell]. intros (a & b & -> & _ & c & d & -> & _ & e & g & -> & H & ->) L.
  eapply end_name; [exact H|]. rewrite app_nil_r in L. exact (lexed_r _ _ (lexed_r _ _ L)).
Qed.
Lemma oneof_fields_in i o lb key j f : In (lb, key, j, f) (oneof_fields i o) -> lb = None /\ key = None /\ j = Some i /\ In (SoField f) o.
Proof.
  unfold oneof_fields. rewrite in_flat_map. intros (x & J & H). destruct x; cbn in H; [destruct H|]. destruct H as [H|[]]. injection H as <- <- <- <-. auto.
Qed.
Lemma fields_written l : forall k w lb key j f, elems_are l w -> lexed w -> In (lb, key, j, f) (msg_fields k l) ->
  proto_name (sf_name f) /\
  (forall s, key = Some s -> (exists x, scalar_of s = Some x /\ map_key x) /\ lb = None /\ j = None) /\
  (forall o, j = Some o -> lb = None /\ o < k + length (msg_oneofs k l)).
Proof.
  induction l as [|e l IH]; intros k w lb key j f H L J; [destruct J|]. inversion H as [|x l' a b He Hr]; subst.
  pose proof (lexed_l _ _ L) as La. pose proof (lexed_r _ _ L) as Lb.
  assert (Rest : In (lb, key, j, f) (msg_fields k l) -> length (msg_oneofs k (e :: l)) = length (msg_oneofs k l) ->
    proto_name (sf_name f) /\ (forall s, key = Some s -> (exists x, scalar_of s = Some x /\ map_key x) /\ lb = None /\ j = None) /\
    (forall o, j = Some o -> lb = None /\ o < k + length (msg_oneofs k (e :: l)))).
  { intros J' E. rewrite E. eapply IH; [exact Hr|exact Lb|exact J']. }
  destruct e as [lb' f'|key' f'|n o|e'|n l'|l'|n c|rr|]; cbn [msg_fields] in J; try (apply Rest; [exact J|reflexivity]).
  - destruct J as [J|J]; [|apply Rest; [exact J|reflexivity]]. injection J as <- <- <- <-. inversion He as [lb0 f0 w0 Hf| | | | | | | | | |]; subst.
    split; [exact (field_name _ _ Hf La)|]. split; intros ? E; discriminate E.
  - destruct J as [J|J]; [|apply Rest; [exact J|reflexivity]]. injection J as <- <- <- <-. inversion He as [|k0 f0 w0 Hf| | | | | | | | |]; subst.
    unfold map_is in Hf. cbn [spell] in Hf. destruct Hf as (a1 & b1 & -> & _ & a2 & b2 & -> & _ & a3 & b3 & -> & Hk & a4 & b4 & -> & _ & a5 & b5 & -> & _ & a6 & b6 & -> & _ & a7 & b7 & -> & Hf & ->).
    rewrite app_nil_r in La. pose proof (lexed_r _ _ (lexed_r _ _ La)) as L3. split; [|split].
    + eapply end_name; [exact Hf|]. exact (lexed_r _ _ (lexed_r _ _ (lexed_r _ _ (lexed_r _ _ L3)))).
    + intros s E. injection E as <-. split; [|split; reflexivity]. eapply key_ok; [exact Hk|eapply lexed_l, L3].
    + intros ? E. discriminate E.
  - cbn [msg_oneofs length]. apply in_app_or in J as [J|J].
    + apply oneof_fields_in in J as (-> & -> & -> & J). inversion He as [| |n0 o0 w0 Ho| | | | | | | |]; subst.
      unfold oneof_is in Ho. cbn [spell] in Ho. destruct Ho as (a1 & b1 & -> & _ & a2 & b2 & -> & _ & a3 & b3 & -> & _ & a4 & b4 & -> & Ht & _).
      destruct (things_in _ _ _ _ Ht (lexed_l _ _ (lexed_r _ _ (lexed_r _ _ (lexed_r _ _ La)))) J) as (v & Hv & Lv).
      split; [exact (field_name _ _ Hv Lv)|]. split; [intros s E; discriminate E|]. intros o' E. injection E as <-. split; [reflexivity|lia].
    + destruct (IH _ _ _ _ _ _ Hr Lb J) as (A & B & C). split; [exact A|]. split; [exact B|]. intros o' E. destruct (C _ E). split; [assumption|lia].
Qed.
Lemma oneofs_written l : forall k w n o i, elems_are l w -> lexed w -> In (i, n, o) (msg_oneofs k l) -> proto_name n.
Proof.
  induction l as [|e l IH]; intros k w n o i H L J; [destruct J|]. inversion H as [|x l' a b He Hr]; subst.
  pose proof (lexed_l _ _ L) as La. pose proof (lexed_r _ _ L) as Lb.
  destruct e as [lb' f'|key' f'|n' o'|e'|n' l'|l'|n' c|rr|]; cbn [msg_oneofs] in J; try (eapply IH; [exact Hr|exact Lb|exact J]).
  destruct J as [J|J]; [|eapply IH; [exact Hr|exact Lb|exact J]]. injection J as <- <- <-. inversion He as [| |n0 o0 w0 Ho| | | | | | | |]; subst.
  unfold oneof_is in Ho. cbn [spell] in Ho. destruct Ho as (a1 & b1 & -> & _ & a2 & b2 & -> & Hn & _).
  eapply (name_proto r_oneofName); [with_strategy transparent [rule] reflexivity|exact Hn|]. exact (lexed_l _ _ (lexed_r _ _ La)).
Qed.

(** What is known of a message object of a loaded file *)
Record sound_msg (ed : bytes) (m : mrec) : Prop := {
  sm_name : proto_name (mr_name m);
  sm_names : forall x, In x (mr_fields m) -> proto_name (fl_name x);
  sm_keys : forall x s, In x (mr_fields m) -> fl_key x = Some s ->
    (exists k, scalar_of s = Some k /\ map_key k) /\ fl_rep x = false /\ fl_req x = false /\ fl_opt x = false /\ fl_oneof x = None;
  sm_ones : forall x o, In x (mr_fields m) -> fl_oneof x = Some o ->
    fl_rep x = false /\ fl_req x = false /\ fl_opt x = false /\ o < length (mr_oneofs m);
  sm_label : forall x, In x (mr_fields m) ->
    (fl_rep x = true -> fl_req x = false /\ fl_opt x = false) /\ (fl_req x = true -> fl_opt x = false);
  sm_req : forall x, In x (mr_fields m) -> fl_req x = true -> ed = bs "proto2";
  sm_oneofs : Forall proto_name (map on_name (mr_oneofs m))
}.
Lemma not_label b (lb : option label) l : (b = true <-> lb = Some l) -> lb <> Some l -> b = false.
Proof. intros H N. destruct b; [|reflexivity]. destruct N. now apply H. Qed.
Lemma written_sound st i m : written st i -> nth_error (l_msgs st) i = Some m -> sound_msg (p_edition st) m.
Proof.
  intros (p & n & l & t & w & Pn & Sh & Me & El & L) E. inversion Sh as [p' i' n' fs os es ms oo rr ei mi En Se Sm' E1 E2 E3]; subst.
  rewrite En in E. injection E as <-. inversion Me as [n0 l0 fs0 os0 es0 ms0 oo0 rr0 M1 M2 M3 M4 M5 M6]; subst.
  assert (X : forall x, In x fs -> exists lb key j f, In (lb, key, j, f) (msg_fields 0 l) /\ field_means (p_edition st) (lb, key, j, f) x).
  { intros x J. destruct (Forall2_r _ _ _ _ M1 J) as ((((lb & key) & j) & f) & Jf & Hf). now exists lb, key, j, f. }
  pose proof (Forall2_len _ _ _ M2) as Lo.
  split; cbn [mr_name mr_fields mr_oneofs].
  - exact Pn.
  - intros x J. destruct (X x J) as (lb & key & j & f & Jf & Hn & _). destruct (fields_written _ _ _ _ _ _ _ El L Jf) as (A & _). now rewrite Hn.
  - intros x s J K. destruct (X x J) as (lb & key & j & f & Jf & _ & _ & Hk & Ho & _ & _ & R1 & R2 & R3 & _).
    destruct (fields_written _ _ _ _ _ _ _ El L Jf) as (_ & B & _). rewrite K in Hk. destruct (B s (eq_sym Hk)) as (S & -> & Ej). rewrite Ho.
    split; [exact S|]. split; [eapply not_label; [exact R1|discriminate]|]. split; [eapply not_label; [exact R2|discriminate]|].
    split; [eapply not_label; [exact R3|discriminate]|exact Ej].
  - intros x o J K. destruct (X x J) as (lb & key & j & f & Jf & _ & _ & _ & Ho & _ & _ & R1 & R2 & R3 & _).
    destruct (fields_written _ _ _ _ _ _ _ El L Jf) as (_ & _ & C). rewrite K in Ho. destruct (C o (eq_sym Ho)) as [-> B].
    split; [eapply not_label; [exact R1|discriminate]|]. split; [eapply not_label; [exact R2|discriminate]|].
    split; [eapply not_label; [exact R3|discriminate]|]. rewrite <- Lo. exact B.
  - intros x J. destruct (X x J) as (lb & key & j & f & Jf & _ & _ & _ & _ & _ & _ & R1 & R2 & R3 & _). split.
    + intros T. apply R1 in T. rewrite T in R2, R3. split; [eapply not_label; [exact R2|discriminate]|eapply not_label; [exact R3|discriminate]].
    + intros T. apply R2 in T. rewrite T in R3. eapply not_label; [exact R3|discriminate].
  - intros x J T. destruct (X x J) as (lb & key & j & f & Jf & _ & _ & _ & _ & _ & _ & R1 & R2 & R3 & R4). apply R4, R2, T.
  - apply Forall_forall. intros y J. apply in_map_iff in J as (o & <- & J). destruct (Forall2_r _ _ _ _ M2 J) as (((k & n1) & lo) & Jo & Hn & _).
    rewrite Hn. eapply oneofs_written; [exact El|exact L|exact Jo].
Qed.

(** What is known of a loaded file *)
Lemma loaded o data st : load_file o data = Some (LOk st) ->
  (exists f, load f = LOk st) /\
  (forall i m, nth_error (l_msgs st) i = Some m -> sound_msg (p_edition st) m) /\
  Forall option_allowed (p_options st) /\
  (p_edition st = bs "proto2" \/ p_edition st = bs "proto3" \/ p_edition st = bs "2023").
Proof.
  destruct (file_tokens data) as (items & El & EL & Lx & WT & IO). unfold load_file, parse_file. rewrite El.
  destruct (parse o (parser_tokens 0 items)) as [fo rest| |] eqn:Ep; [|intros H; discriminate H|intros H; discriminate H].
  destruct (parse_all _ _ _ _ EL Ep) as (_ & x & -> & Dx). destruct (file_of _ _ Dx Lx) as (f & Ff & Ev).
  intros H. assert (Er : load_tree x = LOk st) by (injection H as H; exact H). rewrite (load_walk _ _ Ev) in Er.
  pose proof (C72_mirror f (spelled_parsed _ _ Ff IO WT)) as M. rewrite Er in M. destruct M as (t & Mt & St).
  split; [now exists f|]. split; [|split].
  - intros i m E. eapply written_sound; [|exact E]. eapply reached_written; [exact Ff|exact Lx|exact Mt|exact St|].
    destruct (load_reached _ _ Er) as [R _]. apply R. now apply nth_error_lt in E.
  - destruct St as (_ & _ & -> & _). destruct Mt as (_ & _ & Mo & _). apply Forall_forall. intros y J.
    destruct (Forall2_r _ _ _ _ Mo J) as (z & _ & _ & A). exact A.
  - destruct St as (-> & _). destruct Mt as (Me & _). unfold edition_means in Me. destruct (sfl_edition f) as [lit|]; [apply Me|now left].
Qed.

(* ---------- what the generator is given ---------- *)
Lemma all_found {A B} (f : A -> option B) l : (forall x, In x l -> f x <> None) -> all f l <> None.
Proof.
  induction l as [|x l IH]; intros H; [discriminate|]. cbn [all]. destruct (f x) eqn:E; [|destruct (H x); [now left|exact E]].
  destruct (all f l) eqn:Ea; [discriminate|]. apply IH. intros y J. apply H. now right.
Qed.
Lemma no_errors_in {A} (f : A -> list verr) l x : no_errors f l = true -> In x l -> f x = [].
Proof. unfold no_errors. rewrite forallb_forall. intros H J. specialize (H _ J). destruct (f x); [reflexivity|discriminate]. Qed.
Lemma verified_nums m : verify_mrec m = [] -> NoDup (map fl_num (mr_fields m)) /\
  Forall (fun x => ~ (implementation_number (fl_num x) \/ exists a b, In (a, b) (mr_reserved m) /\ (a <= fl_num x <= b)%Z)) (mr_fields m).
Proof.
  intros V. unfold verify_mrec in V. destruct (C49_errors (mr_reserved m) (map (fun x => (fl_name x, fl_num x)) (mr_fields m))) as [A B].
  rewrite V in A, B.
  assert (N : Forall (fun x => ~ (implementation_number (fl_num x) \/ exists a b, In (a, b) (mr_reserved m) /\ (a <= fl_num x <= b)%Z)) (mr_fields m)).
  { apply Forall_forall. intros x J R. apply (A (fl_name x) (fl_num x)). split; [|exact R]. apply in_map_iff. now exists x. }
  split; [|exact N]. clear A V.
  assert (G : forall pre post, mr_fields m = pre ++ post -> NoDup (map fl_num pre)).
  { intros pre. induction pre as [|x pre IH] using rev_ind; intros post E; [constructor|]. rewrite map_app.
    apply NoDup_Add with (a := fl_num x) (l := map fl_num pre).
    - rewrite <- (app_nil_r (map fl_num pre)) at 1. apply Add_app.
    - rewrite <- app_assoc in E. split; [exact (IH _ E)|]. intros J. apply (B (fl_name x) (fl_num x)). split.
      + rewrite Forall_forall in N. apply N. rewrite E. apply in_app_iff. right. now left.
      + exists (map (fun x => (fl_name x, fl_num x)) pre), (map (fun x => (fl_name x, fl_num x)) post).
        rewrite E, map_app. split; [reflexivity|]. rewrite map_map. exact J. }
  apply (G (mr_fields m) []). now rewrite app_nil_r.
Qed.

Section Files.
Variables (o : nat -> oracle) (data : nat -> bytes) (F : nat -> state) (imports : nat -> list (bool * nat)) (fuel : nat).
Variables (fd : nat -> list bytes) (md : nat -> nat -> list bytes) (xd : nat -> nat -> field -> list bytes).
Hypothesis Ld : forall p, load_file (o p) (data p) = Some (LOk (F p)).
Hypothesis Rs : forall p, resolves F imports fuel p = true.
Hypothesis Vf : forall p, verifies F p = true.
Notation field_of := (field_of F imports fuel xd).
Notation msg_of := (msg_of F imports fuel xd).
Notation struct_of := (struct_of F imports fuel fd md xd).
Lemma nth_combine_seq {A} (l : list A) i m : nth_error l i = Some m -> In (i, m) (combine (seq 0 (length l)) l).
Proof.
  enough (G : forall k, nth_error l i = Some m -> In (k + i, m) (combine (seq k (length l)) l)) by (intros E; exact (G 0 E)).
  revert i. induction l as [|x l IH]; intros [|i] k E; try discriminate; cbn.
  - injection E as ->. left. f_equal. lia.
  - right. replace (k + S i) with (S k + i) by lia. now apply IH.
Qed.
Lemma field_found p i m x : nth_error (l_msgs (F p)) i = Some m -> In x (mr_fields m) ->
  exists t k, field_of p i x = Some (mkPF (fl_name x) k t (fl_num x) (fl_rep x) (fl_req x) (fl_opt x) (fl_options x) (xd p i x) (fl_oneof x)) /\
    key_of (fl_key x) = Some k.
Proof.
  intros E J. destruct (loaded _ _ _ (Ld p)) as (_ & Sd & _). pose proof (Rs p) as R. unfold resolves in R. apply andb_true_iff in R as [R _].
  rewrite forallb_forall in R. specialize (R _ (nth_combine_seq _ _ _ E)). cbn [fst snd] in R. rewrite forallb_forall in R. specialize (R _ J).
  unfold Compile.field_of. destruct (resolve_type F imports fuel true p (Some i) (fl_type x)) as [s|ob|]; [| |discriminate R];
    (assert (K : exists k, key_of (fl_key x) = Some k);
     [unfold key_of; destruct (fl_key x) as [s0|] eqn:Ek; [destruct (sm_keys _ _ (Sd _ _ E) x s0 J Ek) as ((k & -> & _) & _); eauto|eauto]|destruct K as (k & K)]);
    rewrite K; cbn [ptype_of].
  - eauto.
  - destruct ob; eauto.
Qed.
Lemma msg_found p i m : nth_error (l_msgs (F p)) i = Some m -> exists fs, msg_of p i m = Some (mkPM fs (map on_name (mr_oneofs m))) /\
  Forall2 (fun x f => field_of p i x = Some f) (mr_fields m) fs.
Proof.
  intros E. unfold Compile.msg_of. destruct (all (field_of p i) (mr_fields m)) as [fs|] eqn:Ea.
  - exists fs. split; [reflexivity|]. now apply all_some.
  - exfalso. revert Ea. apply all_found. intros x J Q. destruct (field_found _ _ _ _ E J) as (t & k & H & _). congruence.
Qed.
Hypothesis Lg : forall p, legal_decls (F p).
Lemma field_legal p i m x f : nth_error (l_msgs (F p)) i = Some m -> In x (mr_fields m) -> field_of p i x = Some f ->
  legal_field (ctx_of F fd md p i m) f.
Proof.
  intros E J Hf. destruct (field_found _ _ _ _ E J) as (t & k & H & K). rewrite H in Hf. injection Hf as <-.
  destruct (loaded _ _ _ (Ld p)) as (_ & Sd & Oa & _). specialize (Sd _ _ E). destruct (Lg p) as [No Ld']. specialize (Ld' _ _ _ E J).
  rewrite Forall_forall in Oa.
  split; cbn [pf_name pf_kt pf_ty pf_num pf_rep pf_req pf_opt pf_opts pf_dirs pf_one ctx_of c_options].
  - apply proto_ident. exact (sm_names _ _ Sd _ J).
  - exact (ld_num _ Ld').
  - exact (sm_label _ _ Sd _ J).
  - intros k' ->. unfold key_of in K. destruct (fl_key x) as [s|] eqn:Ek; [|discriminate].
    destruct (sm_keys _ _ Sd _ _ J Ek) as ((k0 & Es & Mk) & R). rewrite Es in K. injection K as ->. split; [exact Mk|exact R].
  - intros o' Eo. destruct (sm_ones _ _ Sd _ _ J Eo) as (A & B & C & _). auto.
  - split; [exact (ld_once _ Ld')|exact No].
  - exact (ld_packed _ Ld').
  - intros v [G|G]; [exact (ld_encoding _ Ld' v G)|]. destruct (Oa _ G) as [A _]. destruct (A eq_refl); auto.
  - exact (ld_presence _ Ld').
  - intros v G. destruct (Oa _ G) as (_ & A & _). exact (A eq_refl).
Qed.
Lemma msg_legal p i m : nth_error (l_msgs (F p)) i = Some m -> exists x, msg_of p i m = Some x /\ legal_message (ctx_of F fd md p i m) x.
Proof.
  intros E. destruct (msg_found _ _ _ E) as (fs & Em & Ef). eexists. split; [exact Em|].
  destruct (loaded _ _ _ (Ld p)) as (_ & Sd & _). specialize (Sd _ _ E).
  split; cbn [pm_fields pm_oneofs].
  - apply Forall_forall. intros f J. destruct (Forall2_r _ _ _ _ Ef J) as (x & Jx & Hx). eapply field_legal; eauto.
  - assert (Hn : map pf_num fs = map fl_num (mr_fields m)).
    { assert (Q : forall l fs, (forall x, In x l -> In x (mr_fields m)) -> Forall2 (fun x f => field_of p i x = Some f) l fs -> map pf_num fs = map fl_num l).
      { clear fs Em Ef. intros l fs Hl. induction 1 as [|x f l fs H R IH]; [reflexivity|]. cbn. f_equal; [|apply IH; intros; apply Hl; now right].
        destruct (field_found _ _ _ _ E (Hl x (or_introl eq_refl))) as (t & k & H' & _). rewrite H' in H. injection H as <-. reflexivity. }
      apply Q; auto. }
    rewrite Hn. apply verified_nums. pose proof (Vf p) as V. unfold verifies in V. apply andb_true_iff in V as [_ V].
    eapply no_errors_in; [exact V|]. eapply nth_error_In, E.
  - intros f o' J Eo. destruct (Forall2_r _ _ _ _ Ef J) as (x & Jx & Hx). destruct (field_found _ _ _ _ E Jx) as (t & k & H' & _). rewrite H' in Hx.
    injection Hx as <-. cbn in Eo. rewrite map_length. apply (sm_ones _ _ Sd _ _ Jx Eo).
  - eapply Forall_impl; [exact proto_ident|exact (sm_oneofs _ _ Sd)].
Qed.
Lemma struct_legal id : legal_message (fst (struct_of id)) (snd (struct_of id)).
Proof.
  unfold Compile.struct_of. destruct (Cantor.of_nat id) as [p i]. destruct (nth_error (l_msgs (F p)) i) as [m|] eqn:E.
  - destruct (msg_legal _ _ _ E) as (x & -> & L). exact L.
  - split; cbn; try constructor. intros f o' [].
Qed.
End Files.
