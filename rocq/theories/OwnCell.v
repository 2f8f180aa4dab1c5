(** Facts about single steps of the decoder on memory, used for both of its properties (C70, C73). *)
From Coq Require Import Lia.
From Verif Require Import Base Wire Coder MapTables Value WireVal Desc Encoder Decoder MsgSpec WireConsume ValFacts DescProofs
  HMem HDecoder OwnSpec OwnMem OwnPost.
Open Scope nat_scope.

(** The temporaries of map fields: two variables *)
Definition held (h : mem) (tmv : option htmp) (T : list nat) : Prop :=
  match tmv with
  | None => T = []
  | Some (k, v) => T = [k; v] /\ k <> v /\ (exists x, objs h k = OCells [x]) /\ (exists x, objs h v = OCells [x])
  end.
Lemma held_frame : forall h h' tmv T, held h tmv T -> (forall o, In o T -> objs h' o = objs h o) -> held h' tmv T.
Proof.
  intros h h' [[k v]|] T H F; [|exact H]. destruct H as (-> & D & K & V). cbn.
  rewrite (F k), (F v) by (cbn; auto). auto.
Qed.
Lemma hload_cell : forall h o x, objs h o = OCells [x] -> hload h (cell o) = Some x.
Proof. intros h o x H. unfold hload, cells_of. cbn. now rewrite H. Qed.
Lemma hstore_cell : forall h o x y, objs h o = OCells [x] -> objs (hstore h (cell o) y) o = OCells [y].
Proof.
  intros h o x y H. rewrite (hstore_self h (cell o)); [|now rewrite (hload_cell _ _ _ H)].
  unfold cells_of. cbn. now rewrite H.
Qed.
Lemma has_cells_lengths : forall h s xs ys, has_cells h s xs ys -> length xs = s_len s /\ length xs + length ys = s_cap s.
Proof. intros h s xs ys (a & b & _ & _ & H1 & H2). auto. Qed.
Lemma scalar_num_bytes : forall t typ b, match scalar_num TagBytes t typ b with Some (Err _) | None => True | _ => False end.
Proof.
  intros. unfold scalar_num. cbn [is_varint_tag tag_eqb negb].
  destruct (typ =? WVarint)%N; [exact Logic.I|]. destruct (typ =? WFixed32)%N; [exact Logic.I|].
  destruct (typ =? WFixed64)%N; exact Logic.I.
Qed.
Lemma scalar_num_stores : forall tag k typ b o n, scalar_ok tag k = true ->
  scalar_num tag (TScalar k) typ b = Some (Ok (o, n)) -> exists m, o = Some m.
Proof.
  intros tag k typ b o n S. unfold scalar_num. cbn [kindOf].
  destruct (typ =? WVarint)%N.
  { destruct tag; cbn [is_varint_tag negb]; try discriminate; destruct (ConsumeVarint b) as [[u c]| | |]; cbn [bind]; try discriminate;
    intros [= <- _]; destruct k; try discriminate S; cbn; eauto. }
  destruct (typ =? WFixed32)%N.
  { destruct tag; cbn [tag_eqb negb]; try discriminate; destruct (ConsumeFixed32 b) as [[u c]| | |]; cbn [bind]; try discriminate;
    intros [= <- _]; destruct k; try discriminate S; cbn; eauto. }
  destruct (typ =? WFixed64)%N; [|discriminate].
  destruct tag; cbn [tag_eqb negb]; try discriminate; destruct (ConsumeFixed64 b) as [[u c]| | |]; cbn [bind]; try discriminate;
    intros [= <- _]; destruct k; try discriminate S; cbn; eauto.
Qed.
Lemma DecodeMapKV_nums : forall row b k v, DecodeMapKV row b = Ok (k, v) -> exists a c, k = VNum a /\ v = VNum c.
Proof.
  intros [[dk ck] [dv cv]] b k v. unfold DecodeMapKV.
  destruct (decodeMap dk b 1) as [[k0 n]| | |]; cbn [bind]; try discriminate.
  destruct (slice_from b n) as [b1| | |]; cbn [bind]; try discriminate.
  destruct (decodeMap dv b1 2) as [[v0 n1]| | |]; cbn [bind]; try discriminate. intros [= <- <-]. eauto.
Qed.
Lemma GetField_In : forall E, wf_env E -> forall id num, exists o, GetField (E id) (Z.of_N num) = Some o /\ forall f, o = Some f -> In f (sd_fields (E id)).
Proof.
  intros E WF id num. eexists. split.
  - apply GetField_sorted; [apply (wf_sorted _ _ (WF id))| |lia].
    apply Forall_forall. intros f Hf. apply (wf_fields _ _ (WF id)) in Hf as (Hf & _). lia.
  - intros f Hf. apply declared_iff in Hf; [tauto|]. apply sorted_nodup, (wf_sorted _ _ (WF id)).
Qed.
