(** Facts about memory (HMem.v) and about what locations hold (OwnSpec.v). *)
From Coq Require Import Lia.
From Verif Require Import Base Value HMem OwnSpec.
Open Scope nat_scope.

(** ** Objects *)
Lemma set_obj_same : forall h o x, objs (set_obj h o x) o = x.
Proof. intros. cbn. now rewrite Nat.eqb_refl. Qed.
Lemma set_obj_other : forall h o x o', o' <> o -> objs (set_obj h o x) o' = objs h o'.
Proof. intros h o x o' D. cbn. apply Nat.eqb_neq in D. now rewrite D. Qed.
Lemma halloc_eq : forall h x, halloc h x = (fst (halloc h x), next h).
Proof. reflexivity. Qed.
Lemma halloc_new : forall h x, objs (fst (halloc h x)) (next h) = x.
Proof. intros. cbn. now rewrite Nat.eqb_refl. Qed.
Lemma halloc_old : forall h x o, o < next h -> objs (fst (halloc h x)) o = objs h o.
Proof. intros h x o D. cbn. assert (E : (o =? next h) = false) by (apply Nat.eqb_neq; lia). now rewrite E. Qed.
Lemma halloc_next : forall h x, next (fst (halloc h x)) = S (next h).
Proof. reflexivity. Qed.

(** ** Lists *)
Lemma upd_nth_length : forall {X} (l : list X) n x, length (upd_nth n x l) = length l.
Proof. induction l as [|a l IH]; destruct n; intro x; cbn; congruence. Qed.
Lemma upd_nth_same : forall {X} (l : list X) n x y, nth_error l n = Some y -> nth_error (upd_nth n x l) n = Some x.
Proof. induction l as [|a l IH]; destruct n; intros x y H; try discriminate; [reflexivity|]. cbn in *. eauto. Qed.
Lemma upd_nth_twice : forall {X} (l : list X) n x y, upd_nth n y (upd_nth n x l) = upd_nth n y l.
Proof. induction l as [|a l IH]; destruct n; intros x y; cbn; try reflexivity. now rewrite IH. Qed.
Lemma upd_nth_app : forall {X} (a b : list X) x y, upd_nth (length a) y (a ++ x :: b) = a ++ y :: b.
Proof. induction a as [|c a IH]; intros; cbn; [reflexivity|]. now rewrite IH. Qed.
Lemma nth_error_mid : forall {X} (a b : list X) x, nth_error (a ++ x :: b) (length a) = Some x.
Proof. induction a as [|c a IH]; intros; cbn; [reflexivity|]. apply IH. Qed.
Lemma upd_nth_split : forall {X} (l : list X) n x, nth_error l n = Some x ->
  exists a b, l = a ++ x :: b /\ length a = n.
Proof. intros. now apply nth_error_split. Qed.

(** ** Paths *)
Lemma get_path_app : forall p i x,
  get_path (p ++ [i]) x = match get_path p x with
                          | Some (MStruct xs _) => nth_error xs i
                          | _ => None
                          end.
Proof.
  induction p as [|j p IH]; intros i x; cbn.
  - destruct x; try reflexivity. destruct (nth_error slots i); reflexivity.
  - destruct x; try reflexivity. destruct (nth_error slots j); [apply IH|reflexivity].
Qed.
Lemma get_put : forall p x y z, get_path p x = Some y -> get_path p (put_path p z x) = Some z.
Proof.
  induction p as [|j p IH]; intros x y z H; cbn in *; [reflexivity|].
  destruct x; try discriminate. destruct (nth_error slots j) as [w|] eqn:Ej; [|discriminate].
  rewrite (upd_nth_same _ _ _ _ Ej). eapply IH, H.
Qed.
Lemma put_path_app : forall p i x y xs u, get_path p x = Some (MStruct xs u) -> nth_error xs i <> None ->
  put_path (p ++ [i]) y x = put_path p (MStruct (upd_nth i y xs) u) x.
Proof.
  induction p as [|j p IH]; intros i x y xs u H D; cbn in *.
  - injection H as ->. destruct (nth_error xs i); [reflexivity|congruence].
  - destruct x; try discriminate. destruct (nth_error slots j) as [w|] eqn:Ej; [|discriminate].
    now rewrite (IH _ _ _ _ _ H D).
Qed.
Lemma put_put : forall p x y z, get_path p x <> None -> put_path p z (put_path p y x) = put_path p z x.
Proof.
  induction p as [|j p IH]; intros x y z H; cbn in *; [reflexivity|].
  destruct x; try congruence. destruct (nth_error slots j) as [w|] eqn:Ej; [|congruence].
  rewrite (upd_nth_same _ _ _ _ Ej), IH by assumption. now rewrite upd_nth_twice.
Qed.

(** ** Loads and stores *)
Lemma hload_ext : forall h h' L, objs h' (l_obj L) = objs h (l_obj L) -> hload h' L = hload h L.
Proof. intros h h' L H. unfold hload, cells_of. now rewrite H. Qed.
Lemma hstore_next : forall h L x, next (hstore h L x) = next h.
Proof. intros. unfold hstore. destruct nth_error; reflexivity. Qed.
Lemma hstore_other : forall h L x o, o <> l_obj L -> objs (hstore h L x) o = objs h o.
Proof. intros h L x o D. unfold hstore. destruct nth_error; [now apply set_obj_other|reflexivity]. Qed.
Lemma hstore_ext : forall h h' L x, objs h' (l_obj L) = objs h (l_obj L) ->
  objs (hstore h' L x) (l_obj L) = objs (hstore h L x) (l_obj L).
Proof.
  intros h h' L x H. unfold hstore, cells_of. rewrite H. destruct nth_error; [|exact H].
  now rewrite !set_obj_same.
Qed.
Lemma hstore_self : forall h L x, hload h L <> None ->
  objs (hstore h L x) (l_obj L) =
  OCells (upd_nth (l_idx L) (match nth_error (cells_of h (l_obj L)) (l_idx L) with
                             | Some c => put_path (l_path L) x c | None => x end) (cells_of h (l_obj L))).
Proof.
  intros h L x H. unfold hstore, hload in *. destruct nth_error; [|congruence]. now rewrite set_obj_same.
Qed.
Lemma hload_hstore : forall h L x, hload h L <> None -> hload (hstore h L x) L = Some x.
Proof.
  intros h L x H. unfold hload at 1. unfold cells_of. rewrite hstore_self by exact H.
  unfold hload in H. destruct (nth_error (cells_of h (l_obj L)) (l_idx L)) as [c|] eqn:Ec; [|congruence].
  rewrite (upd_nth_same _ _ _ _ Ec). destruct (get_path (l_path L) c) eqn:Eg; [|congruence]. eapply get_put, Eg.
Qed.
Lemma hstore_hstore : forall h L x y, hload h L <> None ->
  objs (hstore (hstore h L x) L y) (l_obj L) = objs (hstore h L y) (l_obj L).
Proof.
  intros h L x y H. rewrite hstore_self; [|rewrite hload_hstore by exact H; discriminate].
  rewrite (hstore_self h L y) by exact H. unfold cells_of at 1 2. rewrite hstore_self by exact H.
  unfold hload in H. destruct (nth_error (cells_of h (l_obj L)) (l_idx L)) as [c|] eqn:Ec; [|congruence].
  rewrite (upd_nth_same _ _ _ _ Ec), upd_nth_twice, put_put by exact H. reflexivity.
Qed.
Lemma hload_slot : forall h L i xs u, hload h L = Some (MStruct xs u) -> hload h (slot L i) = nth_error xs i.
Proof.
  intros h L i xs u H. unfold hload, slot in *. cbn [l_obj l_idx l_path].
  destruct nth_error as [c|]; [|discriminate]. now rewrite get_path_app, H.
Qed.
Lemma hstore_slot : forall h L i xs u y, hload h L = Some (MStruct xs u) -> nth_error xs i <> None ->
  hstore h (slot L i) y = hstore h L (MStruct (upd_nth i y xs) u).
Proof.
  intros h L i xs u y H D. unfold hload, hstore, slot in *. cbn [l_obj l_idx l_path].
  destruct nth_error as [c|]; [|discriminate]. now rewrite (put_path_app _ _ _ _ _ _ H D).
Qed.

(** ** Reading slices of bytes *)
Definition valid_in (h : mem) (b : slice) : Prop := s_off b + s_len b <= length (bytes_of h (s_arr b)).
Lemma rd_ext : forall h h' s, s_len s = 0 \/ objs h' (s_arr s) = objs h (s_arr s) -> rd h' s = rd h s.
Proof. intros h h' s [H|H]; unfold rd, bytes_of; [rewrite H; reflexivity|now rewrite H]. Qed.
Lemma rd_length : forall h s, valid_in h s -> length (rd h s) = s_len s.
Proof. intros h s H. unfold rd, valid_in in *. rewrite firstn_length, skipn_length. lia. Qed.
Lemma skipn_skipn' : forall {X} (l : list X) a b, skipn a (skipn b l) = skipn (b + a) l.
Proof. induction l as [|x l IH]; intros a b; [now rewrite !skipn_nil|]. destruct b; cbn; [reflexivity|apply IH]. Qed.
Lemma rd_sub : forall h s k n, k + n <= s_len s -> rd h (sub s k n) = firstn n (skipn k (rd h s)).
Proof.
  intros h s k n H. unfold rd, sub. cbn. rewrite skipn_firstn_comm, firstn_firstn, skipn_skipn'.
  f_equal. lia.
Qed.
Lemma valid_sub : forall h s k n, valid_in h s -> k + n <= s_len s -> valid_in h (sub s k n).
Proof. intros h s k n H K. unfold valid_in, sub in *. cbn. lia. Qed.

(** ** What holds keeps holding *)
Definition same_on (A : nat -> Prop) (h h' : mem) : Prop := forall o, A o -> objs h' o = objs h o.
Definition incl_p (A A' : nat -> Prop) : Prop := forall o, A o -> A' o.

Lemma in_bytes_frame : forall h A h' A' s, same_on A h h' -> incl_p A A' -> in_bytes h A s -> in_bytes h' A' s.
Proof. intros h A h' A' s F H [K|[K V]]; [now left|right]. split; [now apply H|]. unfold bytes_of in *. now rewrite (F _ K). Qed.
Lemma in_bytes_rd : forall A h h' s, same_on A h h' -> in_bytes h A s -> rd h' s = rd h s.
Proof. intros A h h' s H [K|[K _]]; apply rd_ext; [now left|right; now apply H]. Qed.
Lemma has_cells_ext : forall h h' s xs ys, objs h' (s_arr s) = objs h (s_arr s) -> has_cells h s xs ys -> has_cells h' s xs ys.
Proof. intros h h' s xs ys H (p & q & K). exists p, q. unfold cells_of in *. now rewrite H. Qed.

Lemma reads_frame_all : forall h A h' A', same_on A h h' -> incl_p A A' ->
  (forall x v, reads h A x v -> reads h' A' x v) /\
  (forall xs vs, reads_all h A xs vs -> reads_all h' A' xs vs) /\
  (forall xs vs, reads_entries h A xs vs -> reads_entries h' A' xs vs).
Proof.
  intros h A h' A' F I.
  apply reads_mutind; intros.
  - constructor.
  - constructor.
  - rewrite <- (in_bytes_rd A h h' s F) by assumption. constructor. eapply in_bytes_frame; eauto.
  - constructor.
  - rewrite <- (in_bytes_rd A h h' s F) by assumption. constructor. eapply in_bytes_frame; eauto.
  - constructor.
  - econstructor; [now apply I| |eassumption]. rewrite (hload_ext h h' L); [assumption|now apply F].
  - now constructor.
  - econstructor; try eassumption; [now apply I|]. eapply has_cells_ext; [|eassumption]. now apply F.
  - constructor.
  - econstructor; [now apply I| |eassumption]. rewrite F by assumption. assumption.
  - constructor; [assumption|]. match goal with H : reads_unknown _ _ _ _ |- _ => destruct H as [|s Hs] end.
    + constructor.
    + rewrite <- (in_bytes_rd A h h' s F) by assumption. constructor. eapply in_bytes_frame; eauto.
  - constructor.
  - constructor.
  - econstructor; [now apply I| |eassumption]. rewrite (hload_ext h h' L); [assumption|now apply F].
  - constructor.
  - now constructor.
  - constructor.
  - now constructor.
Qed.
Definition reads_frame h A h' A' F I := proj1 (reads_frame_all h A h' A' F I).
Definition reads_all_frame h A h' A' F I := proj1 (proj2 (reads_frame_all h A h' A' F I)).
Definition reads_entries_frame h A h' A' F I := proj2 (proj2 (reads_frame_all h A h' A' F I)).

Lemma owns_frame_all : forall h A h' A', same_on A h h' -> incl_p A A' ->
  (forall W x v, owns h A W x v -> same_on (fun o => In o W) h h' -> owns h' A' W x v) /\
  (forall W xs vs, owns_all h A W xs vs -> same_on (fun o => In o W) h h' -> owns_all h' A' W xs vs).
Proof.
  intros h A h' A' F I.
  apply owns_mutind; intros.
  - constructor; [assumption|]. now apply (reads_frame h A h' A' F I).
  - now constructor.
  - econstructor; try eassumption.
    + eapply has_cells_ext; [|eassumption]. match goal with H : same_on _ _ _ |- _ => apply H; now left end.
    + now apply (reads_all_frame h A h' A' F I).
    + match goal with H : _ -> owns_all _ _ _ _ _ |- _ => apply H end.
      intros o Ho. match goal with H : same_on (fun o => In o (_ :: _)) _ _ |- _ => apply H; now right end.
  - apply owns_nomap.
  - eapply owns_map; [|eapply (reads_entries_frame h A h' A' F I); eassumption].
    match goal with H : same_on (fun o => In o [_]) _ _ |- _ => rewrite H; [assumption|now left] end.
  - match goal with H : same_on (fun o => In o (_ ++ _)) _ _ |- _ => rename H into HW end.
    constructor.
    + match goal with H : _ -> owns_all _ _ _ _ _ |- _ => apply H end. intros o Ho. apply HW, in_or_app. now left.
    + match goal with H : owns_unknown _ _ _ _ |- _ => destruct H as [|s Z0 Z1|s Z0 Z1 Z2] end.
      * constructor.
      * now constructor.
      * assert (Es : objs h' (s_arr s) = objs h (s_arr s)) by (apply HW, in_or_app; right; now left).
        rewrite <- (rd_ext h h' s) by now right.
        constructor; try assumption. unfold bytes_of. now rewrite Es.
  - constructor.
  - match goal with H : same_on (fun o => In o (_ ++ _)) _ _ |- _ => rename H into HW end.
    constructor.
    + match goal with H : _ -> owns _ _ _ _ _ |- _ => apply H end. intros o Ho. apply HW, in_or_app. now left.
    + match goal with H : _ -> owns_all _ _ _ _ _ |- _ => apply H end. intros o Ho. apply HW, in_or_app. now right.
Qed.
Definition owns_frame h A h' A' F I := proj1 (owns_frame_all h A h' A' F I).
Definition owns_all_frame h A h' A' F I := proj2 (owns_frame_all h A h' A' F I).

(** What is owned is readable *)
Lemma reads_incl : forall h A A' x v, incl_p A A' -> reads h A x v -> reads h A' x v.
Proof. intros h A A' x v I. apply reads_frame; [now intros o _|exact I]. Qed.
Lemma reads_all_incl : forall h A A' x v, incl_p A A' -> reads_all h A x v -> reads_all h A' x v.
Proof. intros h A A' x v I. apply reads_all_frame; [now intros o _|exact I]. Qed.
Lemma reads_entries_incl : forall h A A' x v, incl_p A A' -> reads_entries h A x v -> reads_entries h A' x v.
Proof. intros h A A' x v I. apply reads_entries_frame; [now intros o _|exact I]. Qed.
Lemma owns_reads_all : forall h A A', incl_p A A' ->
  (forall W x v, owns h A W x v -> (forall o, In o W -> A' o) -> reads h A' x v) /\
  (forall W xs vs, owns_all h A W xs vs -> (forall o, In o W -> A' o) -> reads_all h A' xs vs).
Proof.
  intros h A A' I. apply owns_mutind; intros.
  - eapply reads_incl; eauto.
  - now constructor.
  - econstructor; try eassumption.
    + match goal with H : forall o, In o _ -> _ |- _ => apply H; now left end.
    + eapply reads_all_incl; eauto.
    + match goal with H : _ -> reads_all _ _ _ _ |- _ => apply H end. intros o Ho.
      match goal with H : forall o, In o (_ :: _) -> _ |- _ => apply H; now right end.
  - constructor.
  - econstructor; [|eassumption|eapply reads_entries_incl; eassumption].
    match goal with H : forall o, In o _ -> _ |- _ => apply H; now left end.
  - match goal with H : forall o, In o (_ ++ _) -> _ |- _ => rename H into HW end.
    constructor.
    + match goal with H : _ -> reads_all _ _ _ _ |- _ => apply H end. intros o Ho. apply HW, in_or_app. now left.
    + match goal with H : owns_unknown _ _ _ _ |- _ => destruct H as [|s Z0 Z1|s Z0 Z1 Z2] end.
      * constructor.
      * replace (@nil Byte.byte) with (rd h s) by (unfold rd; rewrite Z0; reflexivity). constructor. now left.
      * constructor. right. split; [|lia]. apply HW, in_or_app. right. now left.
  - constructor.
  - match goal with H : forall o, In o (_ ++ _) -> _ |- _ => rename H into HW end.
    constructor.
    + match goal with H : _ -> reads _ _ _ _ |- _ => apply H end. intros o Ho. apply HW, in_or_app. now left.
    + match goal with H : _ -> reads_all _ _ _ _ |- _ => apply H end. intros o Ho. apply HW, in_or_app. now right.
Qed.
Definition owns_reads h A A' I := proj1 (owns_reads_all h A A' I).

(** Lists *)
Lemma reads_all_app : forall h A xs vs, reads_all h A xs vs -> forall ys ws, reads_all h A ys ws -> reads_all h A (xs ++ ys) (vs ++ ws).
Proof. intros h A xs vs H. induction H; intros; cbn; [assumption|constructor; auto]. Qed.
Lemma reads_all_length : forall h A xs vs, reads_all h A xs vs -> length xs = length vs.
Proof. intros h A xs vs H. induction H; cbn; congruence. Qed.
Lemma owns_all_length : forall h A W xs vs, owns_all h A W xs vs -> length xs = length vs.
Proof. intros h A W xs vs H. induction H; cbn; congruence. Qed.
Lemma owns_all_app : forall h A W1 xs vs, owns_all h A W1 xs vs ->
  forall W2 ys ws, owns_all h A W2 ys ws -> owns_all h A (W1 ++ W2) (xs ++ ys) (vs ++ ws).
Proof. intros h A W1 xs vs H. induction H; intros; cbn; [assumption|]. rewrite <- app_assoc. constructor; auto. Qed.
Lemma owns_all_nth : forall h A W xs vs, owns_all h A W xs vs -> forall i x, nth_error xs i = Some x ->
  exists v xa xb va vb Wa Wi Wb, nth_error vs i = Some v /\ xs = xa ++ x :: xb /\ vs = va ++ v :: vb /\
    length xa = i /\ length va = i /\ W = Wa ++ Wi ++ Wb /\
    owns h A Wi x v /\ owns_all h A Wa xa va /\ owns_all h A Wb xb vb.
Proof.
  intros h A W xs vs H. induction H as [|x v xs vs W1 W2 H1 H2 IH]; intros i y Hy.
  - now destruct i.
  - destruct i as [|i]; cbn in Hy.
    + injection Hy as ->. exists v, [], xs, [], vs, [], W1, W2. cbn. repeat split; try assumption. constructor.
    + destruct (IH i y Hy) as (v' & xa & xb & va & vb & Wa & Wi & Wb & E1 & -> & -> & <- & E2 & -> & O1 & O2 & O3).
      exists v', (x :: xa), xb, (v :: va), vb, (W1 ++ Wa), Wi, Wb. cbn. rewrite E2. repeat split; try assumption.
      * now rewrite <- app_assoc.
      * now constructor.
Qed.
Lemma owns_all_nth_none : forall h A W xs vs, owns_all h A W xs vs -> forall i, nth_error xs i = None -> nth_error vs i = None.
Proof. intros h A W xs vs H i K. apply nth_error_None. apply nth_error_None in K. now rewrite <- (owns_all_length _ _ _ _ _ H). Qed.
Lemma reads_all_nums : forall h A l, reads_all h A (map MNum l) (map VNum l).
Proof. intros. induction l; cbn; constructor; [constructor|assumption]. Qed.
