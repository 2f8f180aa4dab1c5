(** Property theorems about field numbers, enum values and reserved ranges. *)
From Coq Require Import Strings.String Init.Byte Lia.
From Verif Require Import Base GoStr GenField GenSpec Verify VerifySpec VerifyProofs.
Import StringSyntax.
Open Scope N_scope.

(** C49.  [accepted m]: the message of the source, with all that is nested in it, is read and
    verified without an error.  [message_ok m] (VerifySpec.v): no number is reserved or, in
    enums without allow_alias and in messages, used twice, and all fit in 32 bits. *)

Lemma dg : forall base c d, 48 <= b2n c <= 57 -> d = b2n c - 48 -> d < base -> digit_of base c d.
Proof. intros base c d A -> B. now constructor. Qed.
Lemma ds1 : forall base c d, digit_of base c d -> digits_of base [c] d.
Proof. intros. change [c] with ([] ++ [c]). replace d with (0 * base + d) by lia. now constructor; [constructor|]. Qed.
Ltac dec_lit := apply il_dec; [|eexists _, _; split; [reflexivity|discriminate]].

Definition octal_reserved : src_msg := SM [(bs "a", bs "8")] [(bs "010", ToSame)] [] [].
Definition hex_reserved : src_msg := SM [(bs "a", bs "1")] [(bs "0x2", ToSame)] [] [].
Definition enum_19000 : src_msg := SM [] [] [mkSE [(bs "A", false, bs "19000")] [] []] [].
Definition enum_min : src_msg := SM [] [] [mkSE [(bs "A", true, bs "2147483648")] [] []] [].

Lemma oct8 : int_lit (bs "010") 8.
Proof.
  apply (il_oct (bs "10")). change (bs "10") with ([x31] ++ [x30]). change 8 with (1 * 8 + 0). constructor.
  - apply ds1. apply dg; vm_compute; split || reflexivity; discriminate.
  - apply dg; vm_compute; split || reflexivity; discriminate.
Qed.

Fixpoint dec_digits (s : bytes) : bool := match s with [] => true | c :: r => (48 <=? b2n c) && (b2n c <=? 57) && dec_digits r end.
Lemma dec_digits_of : forall s, dec_digits s = true -> forall p n, digits_of 10 p n ->
  digits_of 10 (p ++ s) (fold_left (fun a c => a * 10 + (b2n c - 48)) s n).
Proof.
  induction s as [|c s IH]; intros H p n D; cbn [fold_left dec_digits] in *; [now rewrite app_nil_r|].
  apply andb_prop in H as [H1 H2]. apply andb_prop in H1 as [H0 H1]. apply N.leb_le in H0, H1.
  change (p ++ c :: s) with (p ++ [c] ++ s). rewrite app_assoc. apply IH; [exact H2|].
  constructor; [exact D|]. apply dg; [lia|reflexivity|lia].
Qed.
Lemma dec_lit_of : forall c s, c <> x30 -> dec_digits (c :: s) = true ->
  int_lit (c :: s) (fold_left (fun a c => a * 10 + (b2n c - 48)) (c :: s) 0).
Proof.
  intros c s NZ H. apply il_dec; [|eauto]. apply (dec_digits_of (c :: s) H []). constructor.
Qed.
Lemma lit8 : int_lit (bs "8") 8.
Proof. apply (dec_lit_of x38 []); [discriminate|reflexivity]. Qed.
Lemma lit1 : int_lit (bs "1") 1.
Proof. apply (dec_lit_of x31 []); [discriminate|reflexivity]. Qed.
Lemma lit19000 : int_lit (bs "19000") 19000.
Proof. apply (dec_lit_of x31 (bs "9000")); [discriminate|reflexivity]. Qed.
Lemma lit_min : int_lit (bs "2147483648") 2147483648.
Proof. apply (dec_lit_of x32 (bs "147483648")); [discriminate|reflexivity]. Qed.
Lemma hex2 : int_lit (bs "0x2") 2.
Proof.
  apply (il_hex x78 (bs "2")); [now left| |discriminate]. apply ds1. apply dg; vm_compute; split || reflexivity; discriminate.
Qed.

(** False of the code in both directions: reserved ranges are always read as decimal, so that
    "reserved 010" reserves 10 and not 8, and "reserved 0x2" is an error; enum values from
    19000 to 19999 and the value -2147483648 are refused. *)
Theorem C49_refuted :
  (accepted octal_reserved = true /\ ~ message_ok octal_reserved) /\
  (accepted hex_reserved = false /\ message_ok hex_reserved) /\
  (accepted enum_19000 = false /\ message_ok enum_19000) /\
  (accepted enum_min = false /\ message_ok enum_min).
Proof.
  split; [|split; [|split]]; (split; [reflexivity|]).
  - intro H. unfold octal_reserved in H. inversion H as [? ? ? ? F F1 F2]; subst. destruct F as (_ & vs & V & _ & N).
    inversion V as [|? v ? ? W V']; subst. destruct W as [(n & L & Q) _]. cbn [snd] in L. rewrite (int_lit_fun _ _ _ L lit8) in Q. subst v.
    destruct (N 8%Z) as [_ C]; [now left|]. apply (C (bs "010", ToSame)); [now left|]. exists 8. split; [exact oct8|reflexivity].
  - constructor; [|constructor|constructor]. split.
    + constructor; [|constructor]. split; [exists 2; split; [exact hex2|reflexivity]|exact Logic.I].
    + exists [1%Z]. split; [constructor; [|constructor]; split; [exists 1; split; [exact lit1|reflexivity]|reflexivity]|].
      split; [repeat constructor; intros []|]. intros v [<-|[]]. split; [unfold implementation_number; lia|].
      intros r [<-|[]] (a & L & Q). cbn [fst snd] in *. rewrite (int_lit_fun _ _ _ L hex2) in Q. discriminate.
  - constructor; [|constructor; [|constructor]|constructor].
    + split; [constructor|]. exists []. split; [constructor|]. split; [constructor|intros v []].
    + split; [constructor|]. exists [19000%Z]. split; [constructor; [|constructor]; split; [exists 19000; split; [exact lit19000|reflexivity]|cbn; lia]|].
      split; [left; repeat constructor; intros []|]. intros v _ r [].
  - constructor; [|constructor; [|constructor]|constructor].
    + split; [constructor|]. exists []. split; [constructor|]. split; [constructor|intros v []].
    + split; [constructor|]. exists [(-2147483648)%Z]. split; [constructor; [|constructor]; split; [exists 2147483648; split; [exact lit_min|reflexivity]|cbn; lia]|].
      split; [left; repeat constructor; intros []|]. intros v _ r [].
Qed.
Print Assumptions C49_refuted.
(** Apart from these, exactly the legal messages are accepted. *)
Theorem C49_verified_partial : forall m, grammatical m -> msg_plain m -> (accepted m = true <-> message_ok m).
Proof. intros m G P. symmetry. now apply message_ok_spec. Qed.
Print Assumptions C49_verified_partial.

(** Every wrong number is reported, and nothing else. *)
Theorem C49_errors : forall rr fs,
  (forall name n, In (Reserved name n) (verify_fields rr [] fs) <->
     In (name, n) fs /\ (implementation_number n \/ exists a b, In (a, b) rr /\ (a <= n <= b)%Z)) /\
  (forall name n, In (Duplicated name n) (verify_fields rr [] fs) <->
     ~ (implementation_number n \/ exists a b, In (a, b) rr /\ (a <= n <= b)%Z) /\
     exists before after, fs = before ++ (name, n) :: after /\ In n (map snd before)).
Proof.
  intros rr fs. destruct (verify_fields_errors rr fs []) as [A B]. split; intros name n.
  - rewrite A, In_reserved_spec, in_ranges_spec. reflexivity.
  - rewrite B. rewrite <- in_ranges_spec, <- In_reserved_spec. rewrite not_true_iff_false. split.
    + intros (Q & a & b & E & [[]|I]). eauto.
    + intros (Q & a & b & E & I). split; [exact Q|]. exists a, b. auto.
Qed.
Print Assumptions C49_errors.

Definition ex_verify : src_msg :=
  SM [(bs "a", bs "1"); (bs "b", bs "0x10"); (bs "c", bs "017")] [(bs "2", ToLit (bs "9")); (bs "100", ToMax)]
     [mkSE [(bs "A", false, bs "0"); (bs "B", true, bs "1"); (bs "C", false, bs "0")] [] [(bs "allow_alias", bs "true")]]
     [SM [(bs "x", bs "7")] [] [] []].
Example C49_ex : accepted ex_verify = true /\
  accepted (SM [(bs "a", bs "9")] [(bs "2", ToLit (bs "9"))] [] []) = false /\
  accepted (SM [(bs "a", bs "19000")] [] [] []) = false /\
  accepted (SM [] [] [] [SM [(bs "a", bs "15"); (bs "b", bs "017")] [] [] []]) = false.
Proof. repeat split; vm_compute; reflexivity. Qed.
Example C49_hyp_ex : let m := SM [(bs "a", bs "8")] [(bs "19000", ToMax)] [mkSE [(bs "B", true, bs "1")] [] []] [] in
  grammatical m /\ msg_plain m.
Proof.
  cbn zeta. split; constructor.
  - constructor; [exists 8; exact lit8|constructor].
  - constructor; [|constructor]. split; [exists 19000; exact lit19000|exact Logic.I].
  - constructor; [|constructor]. split; [constructor; [exists 1; exact lit1|constructor]|]. split; constructor.
  - constructor.
  - exact Logic.I.
  - constructor; [|constructor]. split; [|exact Logic.I]. left. eexists _, _. split; [reflexivity|discriminate].
  - constructor; [|constructor]. split; [constructor|].
    intros f v [<-|[]] (n & L & ->). cbn [fst snd] in *. rewrite (int_lit_fun _ _ _ L lit1).
    unfold implementation_number. split; [lia|discriminate].
  - constructor.
Qed.

(** C61.  Literals of every base are read as the number they stand for, and refused if it
    does not fit in 32 bits. *)
Theorem C61_literals : forall s n, int_lit s n ->
  (n < 2^31 -> UnmarshalI32 s = Some (Z.of_N n)) /\ (2^31 <= n -> UnmarshalI32 s = None).
Proof.
  intros s n L. destruct (lit_value_spec _ _ L) as [_ ->]. unfold fits.
  split; intro H; [replace (n <? 2^31) with true|replace (n <? 2^31) with false]; try reflexivity; symmetry;
    [now apply N.ltb_lt|now apply N.ltb_ge].
Qed.
Print Assumptions C61_literals.
(** False of the code: numbers that no protobuf field can have, 0 and 2^29, are accepted. *)
Theorem C61_range_refuted :
  accepted (SM [(bs "a", bs "0")] [] [] []) = true /\
  accepted (SM [(bs "a", bs "536870912")] [] [] []) = true /\ int_lit (bs "536870912") (2^29).
Proof.
  split; [reflexivity|]. split; [reflexivity|]. apply (dec_lit_of x35 (bs "36870912")); [discriminate|reflexivity].
Qed.
Print Assumptions C61_range_refuted.
Example C61_ex : map UnmarshalI32 [bs "0"; bs "017"; bs "0X1f"; bs "2147483647"; bs "2147483648"; bs "0xffffffff"] =
  [Some 0; Some 15; Some 31; Some 2147483647; None; None]%Z.
Proof. vm_compute. reflexivity. Qed.
