(** Property C82: the table inside the generated parser and the numbers in its functions
    say what the grammar and the functions say. *)
From Coq Require Import List ZArith Bool Arith Lia.
From Verif Require Import Base Atn ParserNames ParserTable Parser ParserSpec ParserProofs Sll Patn PatnSpec PatnProofs.
Import ListNotations.
Open Scope Z_scope.
Local Opaque net the_labels rule body set_states decision_table.

Lemma below q : (q < 53)%nat -> In q (seq 0 53).
Proof. intros L. apply in_seq. lia. Qed.

(** ** The table can be read (the parser does not panic when it is set up). *)
Theorem C82_table : deserialize_parser serialized_parser = Some net.
Proof. with_strategy transparent [net] (vm_compute; reflexivity). Qed.
Print Assumptions C82_table.

(** ** From the start of a rule to its end, the network reads what the grammar derives. *)
Theorem C82_rules : forall q s, nth_error (p_starts net) q = Some s ->
  forall w, reads_out net q s w <-> viable (rule q) w.
Proof.
  intros q s E w.
  assert (L : (q < 53)%nat).
  { assert (Ln : length (p_starts net) = 53%nat) by (with_strategy transparent [net] (vm_compute; reflexivity)).
    rewrite <- Ln. apply nth_error_Some. congruence. }
  pose proof (proj1 (forallb_forall _ _) starts_ok q (below q L)) as H. cbn beta in H.
  rewrite (nth_error_nth _ _ (-1) E) in H. apply andb_prop in H as [A B]. apply label_is in A. apply Z.eqb_eq in B.
  rewrite (state_reads s _ q A B). apply viable_norm.
Qed.
Print Assumptions C82_rules.
Theorem C82_file : forall s, nth_error (p_starts net) r_proto = Some s ->
  forall w, reads_out net r_proto s w <-> sentence w.
Proof.
  intros s E w. rewrite (C82_rules _ _ E). split.
  - intros [f D]. exists (Node r_proto f). unfold file_tree. rewrite <- (app_nil_r w). constructor; [exact D|constructor].
  - intros [x D]. unfold file_tree in D. inversion D as [| |? ? w1 f1 w2 f2 D1 D2| | | | | |]; subst. inversion D2; subst.
    rewrite app_nil_r. now exists f1.
Qed.
Print Assumptions C82_file.

(** ** At each place of a function, the state that it names is where the network expects
    what the function expects.  A Sync there reports an error, and a call there calls
    the same rule and comes back to the rest of the function. *)
Definition named (q : nat) (m : Z * at_state) (p : at_state * list sym) : Prop :=
  snd m = fst p /\ (forall w, reads_out net q (fst m) w <-> viable (snd p) w) /\
  match fst p with
  | AtSync => sync_reports (p_type net (fst m))
  | AtCall q' => exists start follow rest, p_trans net (fst m) = [TRule start follow] /\
      nth_error (p_starts net) q' = Some start /\ snd p = N q' :: rest /\
      forall w, reads_out net q follow w <-> viable rest w
  | _ => True
  end.
Lemma place_named q m p : (match fst p with AtCall q' => match snd p with N r :: _ => r = q' /\ (q' < 53)%nat | _ => False end | _ => True end) ->
  place_ok q m p = true -> named q m p.
Proof.
  intros C E. unfold place_ok in E. apply andb_prop in E as [E E4]. apply andb_prop in E as [E E3]. apply andb_prop in E as [E1 E2].
  apply at_eqb_is in E1. apply label_is in E2. apply Z.eqb_eq in E3. split; [exact E1|]. split.
  - intros w. rewrite (state_reads _ _ q E2 E3). apply viable_norm.
  - destruct (fst p) as [t| |q'|]; auto.
    + destruct (p_trans net (fst m)) as [|[| |st f| | | | |] [|? ?]]; try discriminate E4.
      destruct (snd p) as [|[|r| | | |] rest]; try discriminate E4. destruct C as [-> C].
      apply andb_prop in E4 as [A B]. apply Z.eqb_eq in A. apply goes_is in B as [B1 B2].
      exists st, f, rest. split; [reflexivity|]. split; [|split; [reflexivity|]].
      * subst st. apply nth_error_nth'.
        assert (Ln : length (p_starts net) = 53%nat) by (with_strategy transparent [net] (vm_compute; reflexivity)). lia.
      * intros w. rewrite (state_reads f _ q B1) by congruence. apply viable_norm.
    + apply existsb_exists in E4 as (x & Ix & E4). apply Z.eqb_eq in E4. now subst x.
Qed.
Definition call_place (p : at_state * list sym) : bool :=
  match fst p with AtCall q' => match snd p with N r :: _ => Nat.eqb r q' && Nat.ltb q' 53 | _ => false end | _ => true end.
Theorem C82_states : forall q, (q < 53)%nat -> Forall2 (named q) (nth q set_states []) (places_seq (body q) []).
Proof.
  intros q L. pose proof (proj1 (forallb_forall _ _) places_ok q (below q L)) as H. apply all2_is in H.
  assert (C : forallb (fun q => forallb call_place (places_seq (body q) [])) (seq 0 53) = true)
    by (with_strategy transparent [body] (vm_compute; reflexivity)).
  pose proof (proj1 (forallb_forall _ _) C q (below q L)) as Cq. cbn beta in Cq. clear C.
  induction H as [|m p ms ps H F IH]; [constructor|]. cbn [forallb] in Cq. apply andb_prop in Cq as [Cp Cq].
  constructor; [|now apply IH]. apply place_named; [|exact H]. unfold call_place in Cp.
  destruct (fst p); auto. destruct (snd p) as [|[|r| | | |] rest]; try discriminate Cp.
  apply andb_prop in Cp as [A B]. split; [now apply Nat.eqb_eq|now apply Nat.ltb_lt].
Qed.
Print Assumptions C82_states.

(** ** The tokens that Sync looks up in the network at such a place are those that the
    model of the parser takes from the rest of the function. *)
Theorem C82_sync : forall q, (q < 53)%nat -> Forall2 (fun m p => fst p = AtSync ->
  forall la, net_sync net (fst m) la = Some (sync (snd p) la)) (nth q set_states []) (places_seq (body q) []).
Proof.
  intros q L. pose proof (proj1 (forallb_forall _ _) syncs_ok q (below q L)) as H. apply all2_is in H.
  induction H as [|m p ms ps H F IH]; constructor; auto. now apply sync_same.
Qed.
Print Assumptions C82_sync.

(** ** The decisions that are left to AdaptivePredict: the alternatives of the network are
    those of the function, in the same order. *)
Lemma alts_read q ts ls : Forall2 (fun tr l => alt_ok q tr l = true) ts ls ->
  Forall2 (fun tr l => exists t, tr = TEps t /\ forall w, reads_out net q t w <-> viable l w) ts ls.
Proof.
  induction 1 as [|tr l ts ls H F IH]; constructor; auto.
  unfold alt_ok in H. apply andb_prop in H as [H C]. apply andb_prop in H as [A B]. destruct tr as [t| | | | | | |]; try discriminate A.
  exists t. split; [reflexivity|]. apply label_is in B. apply Z.eqb_eq in C. cbn [target] in B, C. intros w.
  rewrite (state_reads t _ q B C). apply viable_norm.
Qed.
Theorem C82_decisions : forall d q ls, In (d, (q, ls)) decision_table ->
  exists s, nth_error (p_decisions net) d = Some s /\
    Forall2 (fun tr l => exists t, tr = TEps t /\ forall w, reads_out net q t w <-> viable l w) (p_trans net s) ls.
Proof.
  intros d q ls I. pose proof (proj1 (forallb_forall _ _) decisions_ok _ I) as H. unfold decision_ok_b in H. cbn [fst snd] in H.
  destruct (nth_error (p_decisions net) d) as [s|]; [|discriminate]. exists s. split; [reflexivity|].
  apply andb_prop in H as [H _]. apply all2_is in H. now apply alts_read.
Qed.
Print Assumptions C82_decisions.

(** *** Examples *)
Local Transparent net rule body set_states decision_table.
(** the start of the rules proto and field, the places of the function Field *)
Example C82_ex_starts : nth_error (p_starts net) r_proto = Some 0 /\ nth_error (p_starts net) r_field = Some 14.
Proof. vm_compute. auto. Qed.
Example C82_ex_places : map fst (nth r_field set_states []) = [156; 155; 158; 159; 160; 161; 166; 162; 163; 164; 168].
Proof. vm_compute. reflexivity. Qed.
(** the decisions of AdaptivePredict; 27 is at a state of MessageElement with ten
    alternatives *)
Example C82_ex_decisions : map fst decision_table = [6; 9; 13; 22; 27; 32; 33; 39; 45; 47]%nat /\
  nth_error (p_decisions net) 27 = Some 362 /\ length (p_trans net 362) = 10%nat.
Proof. vm_compute. auto. Qed.
(** The rule intLit, between its states 499 and 97, reads one number. *)
Definition kinds (l : list Z) : list tok := map (fun k => mkTok k 0 []) l.
Example C82_ex_reads : reads_out net r_intLit 499 (kinds [INT_LIT]) /\ ~ reads_out net r_intLit 499 (kinds [STR_LIT_SINGLE]).
Proof.
  split.
  - exists 97. split; [vm_compute; reflexivity|]. split; [vm_compute; reflexivity|].
    eapply reads_token; [vm_compute; left; reflexivity|reflexivity|]. eapply reads_free; [vm_compute; left; reflexivity|]. constructor.
  - intros H. assert (R : viable [T [INT_LIT]] (kinds [STR_LIT_SINGLE])).
    { assert (A : res 499 = Some [T [INT_LIT]]) by (vm_compute; reflexivity).
      assert (B : p_rule net 499 = Z.of_nat r_intLit) by (vm_compute; reflexivity). now apply (state_reads 499 _ _ A B). }
    destruct R as [f R]. inversion R as [|? ? ? ? ? K| | | | | | |]; subst. destruct K as [K|[]]. discriminate K.
Qed.
