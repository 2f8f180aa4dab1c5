(** Combinators for reasoning about append-style writers. *)
From Verif Require Import Base Wire WireSpec WireProofs WireConsume Value Desc MsgSpec Encoder.
From Coq Require Import Lia ZifyBool ZifyNat ZifyN Init.Byte.
Open Scope N_scope.

(** Every Go slice is shorter than 2^63 bytes. *)
Definition small (s : bytes) : Prop := blen s < 2^63.

(** [w] appends the same bytes to every buffer: the given ones, if those fit in memory
    ([None]: it fails with the depth error). *)
Definition writes (w : bytes -> res bytes) (o : option bytes) : Prop :=
  match o with
  | Some s => exists s', (forall b, w b = Ok (b ++ s')) /\ (small s \/ small s' -> s' = s)
  | None => forall b, w b = Err EMaxDepth
  end.

Definition oapp (a b : option bytes) : option bytes :=
  match a, b with Some x, Some y => Some (x ++ y) | _, _ => None end.

Lemma small_app_l : forall a b, small (a ++ b) -> small a.
Proof. unfold small, blen. intros a b. rewrite app_length. lia. Qed.
Lemma small_app_r : forall a b, small (a ++ b) -> small b.
Proof. unfold small, blen. intros a b. rewrite app_length. lia. Qed.
Lemma small_lendelim : forall s, small (lendelim s) -> small s.
Proof. intros s. apply small_app_r. Qed.

Lemma writes_ext : forall w w' o, (forall b, w b = w' b) -> writes w o -> writes w' o.
Proof.
  intros w w' [s|] H W; cbn in *.
  - destruct W as (s' & W & S). exists s'. split; [|exact S]. intro b. rewrite <- H. apply W.
  - intro b. rewrite <- H. apply W.
Qed.

Lemma writes_pure : forall w s, (forall b, w b = Ok (b ++ s)) -> writes w (Some s).
Proof. intros w s H. exists s. auto. Qed.

Lemma writes_seq : forall w1 w2 o1 o2, writes w1 o1 -> writes w2 o2 ->
  writes (fun b => bind (w1 b) w2) (oapp o1 o2).
Proof.
  intros w1 w2 o1 o2 W1 W2. destruct o1 as [s1|]; cbn [oapp].
  - destruct W1 as (t1 & W1 & H1). destruct o2 as [s2|].
    + destruct W2 as (t2 & W2 & H2). exists (t1 ++ t2). split.
      * intro b. rewrite W1. cbn [bind]. rewrite W2. now rewrite app_assoc.
      * intro S. rewrite H2, H1; [reflexivity| |];
          (destruct S as [S|S]; [left|right]; (now apply small_app_l in S) || now apply small_app_r in S).
    + intro b. rewrite W1. apply W2.
  - intro b. now rewrite W1.
Qed.

Lemma writes_after : forall w pre o, writes w o -> forall g, (forall b, g b = b ++ pre) ->
  writes (fun b => w (g b)) (oapp (Some pre) o).
Proof.
  intros w pre o W g Hg. eapply writes_ext; [|apply (writes_seq (fun b => Ok (g b)) w (Some pre) o)].
  - reflexivity.
  - apply writes_pure. intro. now rewrite Hg.
  - exact W.
Qed.

(** Back-patching never touches what precedes the reserved byte. *)
Lemma LenPack_frame : forall pre body,
  LenPack (LenReserve pre ++ body) (length body) = pre ++ LenPack (LenReserve [] ++ body) (length body).
Proof.
  intros pre body. unfold LenPack, LenReserve. destruct (N.of_nat (length body) <? 128).
  - rewrite !app_length. cbn [app length].
    replace (length pre + 1 + length body - 1 - length body)%nat with (length pre) by lia.
    replace (0 + 1 + length body - 1 - length body)%nat with O by lia.
    rewrite <- app_assoc. cbn [app upd_nth]. apply upd_nth_app.
  - unfold lenPackSlow. cbv zeta. set (m := N.to_nat (SizeVarint (N.of_nat (length body)))).
    assert (Hm : (1 <= m)%nat).
    { unfold m, SizeVarint. assert (1 <= (9 * N.size (N.of_nat (length body)) + 64) / 64).
      { apply N.div_le_lower_bound; lia. } lia. }
    set (z := repeat x00 (m - 1)). assert (Lz : length z = (m - 1)%nat) by apply repeat_length.
    set (w := pw_AppendVarint [] (N.of_nat (length body))).
    rewrite !app_length, Lz. cbn [length app].
    replace (length pre + 1 + length body + (m - 1) - length body - m)%nat with (length pre) by lia.
    replace (0 + 1 + length body + (m - 1) - length body - m)%nat with O by lia.
    set (B := x00 :: body ++ z).
    replace (((pre ++ [x00]) ++ body) ++ z) with (pre ++ B) by (unfold B; rewrite <- !app_assoc; reflexivity).
    replace (Nat.min (length pre + 1 + length body + (m - 1) - (length pre + m))
               (length pre + 1 + length body + (m - 1) - (length pre + 1)))
      with (Nat.min (0 + 1 + length body + (m - 1) - (0 + m)) (0 + 1 + length body + (m - 1) - (0 + 1))) by lia.
    set (n := Nat.min (0 + 1 + length body + (m - 1) - (0 + m)) (0 + 1 + length body + (m - 1) - (0 + 1))).
    assert (F : forall k, firstn (length pre + k) (pre ++ B) = pre ++ firstn k B) by (intro; apply firstn_app_2).
    assert (S : forall k l, skipn (length pre + k) (pre ++ l) = skipn k l).
    { intros k l. rewrite skipn_app. rewrite skipn_all2 by lia. cbn [app]. f_equal. lia. }
    rewrite F, !S. rewrite <- (Nat.add_assoc (length pre) m n), S. rewrite <- !app_assoc.
    replace (length pre) with (length pre + 0)%nat at 1 by lia.
    rewrite firstn_app_2. rewrite S. cbn [firstn app Nat.add]. now rewrite <- app_assoc.
Qed.

Lemma upd_nth_length : forall {A} (x : A) l n, length (upd_nth n x l) = length l.
Proof. induction l as [|a l IH]; intros [|n]; cbn; auto. Qed.

Lemma LenPack_length : forall body, (length body <= length (LenPack (LenReserve [] ++ body) (length body)))%nat.
Proof.
  intros body. unfold LenPack, LenReserve. destruct (N.of_nat (length body) <? 128).
  - rewrite upd_nth_length. cbn. lia.
  - unfold lenPackSlow. cbv zeta. set (m := N.to_nat (SizeVarint (N.of_nat (length body)))).
    set (w := pw_AppendVarint [] (N.of_nat (length body))).
    set (B := ([] ++ [x00]) ++ body ++ repeat x00 (m - 1)).
    replace ((([] ++ [x00]) ++ body) ++ repeat x00 (m - 1)) with B by (unfold B; now rewrite app_assoc).
    assert (LB : (length body <= length B)%nat) by (unfold B; rewrite !app_length; lia).
    set (pos := (length B - length body - m)%nat). 
    set (n := Nat.min (length B - (pos + m)) (length B - (pos + 1))).
    rewrite !app_length, skipn_length, firstn_length, !app_length, !firstn_length, !skipn_length. lia.
Qed.

Lemma writes_len : forall w o, writes w o ->
  writes (fun b => bind (w (LenReserve b)) (fun b2 => Ok (LenPack b2 (length b2 - length (LenReserve b)))))
    (option_map lendelim o).
Proof.
  intros w o W. destruct o as [s|]; cbn [option_map].
  - destruct W as (t & W & H). exists (LenPack (LenReserve [] ++ t) (length t)). split.
    + intro b. rewrite W. cbn [bind].
      rewrite app_length, Nat.add_comm, Nat.add_sub. f_equal. apply LenPack_frame.
    + intro S. assert (S' : small s \/ small t).
      { destruct S as [S|S]; [left; now apply small_lendelim in S|right].
        unfold small, blen in *. pose proof (LenPack_length t). lia. }
      specialize (H S'). subst t. assert (small s) by tauto.
      rewrite LenPack_spec by (unfold small in *; lia). reflexivity.
  - intro b. now rewrite W.
Qed.

Lemma writes_fold : forall {A} (loop : bytes -> list A -> res bytes) (step : bytes -> A -> res bytes) (g : A -> option bytes),
  (forall b, loop b [] = Ok b) -> (forall b x l, loop b (x :: l) = bind (step b x) (fun b1 => loop b1 l)) ->
  forall l, (forall x, In x l -> writes (fun b => step b x) (g x)) ->
  writes (fun b => loop b l) (option_map (@concat _) (omap g l)).
Proof.
  intros A loop step g H0 H1. induction l as [|x l IH]; intros H.
  - apply writes_pure. intro b. now rewrite H0, app_nil_r.
  - eapply writes_ext; [intro b; symmetry; apply H1|].
    replace (option_map (@concat _) (omap g (x :: l))) with
      (oapp (g x) (option_map (@concat _) (omap g l))).
    + apply writes_seq; [apply H; now left|apply IH; intros; apply H; now right].
    + cbn [omap]. destruct (g x); [|reflexivity]. destruct (omap g l); reflexivity.
Qed.
