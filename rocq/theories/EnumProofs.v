(** Proofs about the Go declarations of enums. *)
From Coq Require Import Strings.String Init.Byte Lia ZArith.
From Verif Require Import Base WireProofs GoStr StrFacts GenField GenNames NameSpec Verify GenEnum EnumSpec DirectiveProofs.
Import StringSyntax.
Open Scope N_scope.

Lemma seen_spec : forall l n, Verify.seen l n = true <-> In n l.
Proof.
  intros l n. unfold Verify.seen. rewrite existsb_exists. split; [intros (x & H & E)|intros H; exists n; split; [exact H|]]; [apply Z.eqb_eq in E; now subst|apply Z.eqb_refl].
Qed.

Lemma lookup_names : forall vs l x, ~ In x l ->
  match lookup Z.eqb (name_entries l vs) x with
  | Some s => first_name vs x s
  | None => ~ has_number vs x
  end.
Proof.
  induction vs as [|f vs IH]; intros l x H; cbn; [intros (f & [] & _)|].
  destruct (Verify.seen l (ev_value f)) eqn:E.
  - specialize (IH l x H). assert (N : ev_value f <> x) by (intros Ef; apply seen_spec in E; rewrite Ef in E; contradiction).
    destruct (lookup _ _ x).
    + destruct IH as (l1 & g & l2 & -> & A & B & C). exists (f :: l1), g, l2. cbn. auto.
    + intros (g & [->|Hg] & Eg); [contradiction|]. apply IH. now exists g.
  - cbn. destruct (Z.eqb_spec (ev_value f) x) as [Ex|Ne].
    + exists [], f, vs. auto.
    + assert (H' : ~ In x (ev_value f :: l)) by (intros [|]; contradiction). specialize (IH _ x H'). destruct (lookup _ _ x).
      * destruct IH as (l1 & g & l2 & -> & A & B & C). exists (f :: l1), g, l2. cbn. auto.
      * intros (g & [->|Hg] & Eg); [contradiction|]. apply IH. now exists g.
Qed.

Lemma name_entries_fst : forall vs l x, In x (map fst (name_entries l vs)) -> ~ In x l.
Proof.
  induction vs as [|f vs IH]; intros l x; cbn; [intros []|]. destruct (Verify.seen l (ev_value f)) eqn:E; [apply IH|]. cbn. intros [<-|H].
  - intros H. apply seen_spec in H. congruence.
  - intros H'. apply (IH _ _ H). now right.
Qed.
Lemma name_entries_NoDup : forall vs l, NoDup (map fst (name_entries l vs)).
Proof.
  induction vs as [|f vs IH]; intros l; cbn; [constructor|]. destruct (Verify.seen l (ev_value f)); [apply IH|]. cbn. constructor; [|apply IH].
  intros H. apply name_entries_fst in H. apply H. now left.
Qed.

Lemma lookup_values : forall vs, NoDup (map ev_name vs) -> forall n x,
  lookup str_eqb (value_entries vs) n = Some x <-> exists f, In f vs /\ ev_name f = n /\ ev_value f = x.
Proof.
  induction vs as [|f vs IH]; intros ND n x; cbn; [split; [discriminate|intros (f & [] & _)]|]. inversion ND as [|? ? NI ND']; subst.
  destruct (str_eqb (ev_name f) n) eqn:E.
  - destruct (str_eqb_spec (ev_name f) n) as [E1|]; [|discriminate]. clear E. rename E1 into E. split; [intros [= <-]; exists f; auto|]. intros (g & [->|Hg] & Eg & <-); [reflexivity|].
    destruct NI. rewrite E, <- Eg. now apply in_map.
  - rewrite (IH ND'). split; [intros (g & H & A); exists g; auto|]. intros (g & [->|Hg] & Eg & Ex); [|eauto]. rewrite <- Eg, str_eqb_refl in E. discriminate.
Qed.
Lemma value_entries_fst : forall vs, map fst (value_entries vs) = map ev_name vs.
Proof. intros vs. unfold value_entries. now rewrite map_map. Qed.

(** * Decimal *)
Lemma digits_head : forall k n, n < 10 ^ N.of_nat k -> n <> 0 -> hd_error (digits k n) <> Some x30.
Proof.
  induction k as [|k IH]; intros n L NZ; [discriminate|]. cbn [digits]. destruct (N.ltb_spec n 10) as [Lt|Ge].
  - cbn. intros [= E]. apply (f_equal b2n) in E. rewrite b2n_n2b in E. change (b2n x30) with 48 in E. rewrite N.mod_small in E by lia. lia.
  - rewrite Nnat.Nat2N.inj_succ, N.pow_succ_r' in L.
    assert (L' : n / 10 < 10 ^ N.of_nat k) by (apply N.div_lt_upper_bound; lia).
    assert (NZ' : n / 10 <> 0) by (intros E; apply N.div_small_iff in E; lia).
    specialize (IH _ L' NZ'). destruct (digits k (n / 10)) as [|c r] eqn:E; [|exact IH].
    exfalso. pose proof (digits_value k (n / 10) L') as V. rewrite E in V. cbn in V. lia.
Qed.
Lemma FormatUint_digits : forall n, n < 2^32 -> digits_of (FormatUint n) n.
Proof.
  intros n L. assert (L' : n < 10 ^ N.of_nat 20) by (eapply N.lt_trans; [exact L|reflexivity]). repeat split.
  - apply FormatUint_ne.
  - apply Forall_forall. intros c Hc. pose proof (FormatUint_digit n) as F. rewrite forallb_forall in F. auto.
  - now apply digits_value.
  - now apply digits_head.
  - intros ->. reflexivity.
Qed.
Lemma FormatInt_decimal : forall x, int32 x -> decimal (FormatInt x) x.
Proof.
  intros x (A & B). unfold FormatInt, decimal. destruct (Z.ltb_spec x 0) as [L|L].
  - right. split; [exact L|]. eexists. split; [reflexivity|]. apply FormatUint_digits. lia.
  - left. split; [exact L|]. apply FormatUint_digits. lia.
Qed.

(** * The declarations *)
Lemma first_decl_skip : forall A (f : edecl -> option A) l r, (forall d, In d l -> f d = None) -> first_decl f (l ++ r) = first_decl f r.
Proof. intros A f. induction l as [|d l IH]; intros r H; cbn; [reflexivity|]. rewrite (H d (or_introl eq_refl)). apply IH. intros; apply H; now right. Qed.

Lemma string_call : forall e x, genMapping e = true ->
  call_String (EnumGen e) (enum_GoName e) x =
  Some (match lookup Z.eqb (name_entries [] (en_values e)) x with Some s => s | None => FormatInt x end).
Proof.
  intros e x M. unfold call_String, EnumGen. rewrite M. cbn [first_decl].
  rewrite first_decl_skip by (intros d Hd; apply in_map_iff in Hd as (f & <- & _); reflexivity). cbn. rewrite str_eqb_refl.
  rewrite first_decl_skip by (intros d Hd; apply in_map_iff in Hd as (f & <- & _); reflexivity). cbn. now rewrite str_eqb_refl.
Qed.
Lemma values_read : forall e, genMapping e = true ->
  read_values (EnumGen e) (enum_GoName e ++ bs "_value") = Some (value_entries (en_values e)).
Proof.
  intros e M. unfold read_values, EnumGen. rewrite M. cbn [first_decl].
  rewrite first_decl_skip by (intros d Hd; apply in_map_iff in Hd as (f & <- & _); reflexivity). cbn. now rewrite str_eqb_refl.
Qed.

Lemma strings : forall e x, genMapping e = true -> int32 x -> exists s, call_String (EnumGen e) (enum_GoName e) x = Some s /\
  (has_number (en_values e) x -> first_name (en_values e) x s) /\ (~ has_number (en_values e) x -> decimal s x).
Proof.
  intros e x M I. rewrite (string_call e x M). eexists. split; [reflexivity|]. pose proof (lookup_names (en_values e) [] x (fun H => H)) as L.
  destruct (lookup _ _ x) as [s|].
  - split; [auto|]. intros N. destruct N. destruct L as (l1 & f & l2 & -> & A & B & C). exists f. split; [apply in_or_app; right; now left|exact A].
  - split; [contradiction|]. intros _. now apply FormatInt_decimal.
Qed.
Lemma inverse : forall e x, genMapping e = true -> NoDup (map ev_name (en_values e)) -> int32 x -> has_number (en_values e) x ->
  exists s, call_String (EnumGen e) (enum_GoName e) x = Some s /\ lookup str_eqb (value_entries (en_values e)) s = Some x.
Proof.
  intros e x M ND I H. destruct (strings e x M I) as (s & E & A & _). exists s. split; [exact E|]. apply (lookup_values _ ND).
  destruct (A H) as (l1 & f & l2 & -> & X & Y & _). exists f. split; [apply in_or_app; right; now left|auto].
Qed.

Lemma app_ne : forall (a b : bytes), b <> [] -> a ++ b <> a.
Proof. intros a b N E. apply (f_equal (@length byte)) in E. rewrite app_length in E. destruct b; [easy|cbn in E; lia]. Qed.

Lemma compile : forall e, NoDup (map ev_name (en_values e)) -> (forall f, In f (en_values e) -> genNoPrefix e f = false) ->
  (forall f, In f (en_values e) -> ~ In (value_GoName e f) [enum_GoName e; enum_GoName e ++ bs "_name"; enum_GoName e ++ bs "_value"]) ->
  compiles (EnumGen e).
Proof.
  intros e ND NP C. split.
  - unfold EnumGen. set (n := enum_GoName e) in *. cbn [flat_map edecl_names app].
    rewrite flat_map_app. rewrite flat_map_concat_map, map_map. cbn [edecl_names].
    assert (EC : concat (map (fun f => [value_GoName e f]) (en_values e)) = map (value_GoName e) (en_values e)).
    { clear. induction (en_values e) as [|f l IH]; [reflexivity|]. cbn. now rewrite IH. }
    rewrite EC.
    assert (NC : NoDup (map (value_GoName e) (en_values e))).
    { assert (INJ : forall f g, In f (en_values e) -> In g (en_values e) -> value_GoName e f = value_GoName e g -> ev_name f = ev_name g).
      { intros f g Hf Hg E. unfold value_GoName in E. rewrite (NP f Hf), (NP g Hg) in E. destruct (en_msg e); do 2 apply app_inv_head in E; exact E. }
      clear - ND INJ. induction (en_values e) as [|f l IH]; cbn in *; [constructor|]. inversion ND as [|? ? NI ND']; subst. constructor.
      - intros H. apply in_map_iff in H as (g & E & Hg). apply NI. rewrite (INJ f g); auto. now apply in_map.
      - apply IH; auto. }
    set (tl := if genMapping e then _ else _).
    assert (T : flat_map edecl_names tl = [] \/ flat_map edecl_names tl = [n ++ bs "_name"; n ++ bs "_value"]) by (unfold tl; destruct (genMapping e); auto).
    assert (NT : NoDup (flat_map edecl_names tl) /\ incl (flat_map edecl_names tl) [n ++ bs "_name"; n ++ bs "_value"]).
    { destruct T as [-> | ->]; (split; [|try apply incl_refl; intros x []]); [constructor|].
      constructor; [|repeat constructor; intros []]. intros [E|[]]. apply app_inv_head in E. discriminate. }
    destruct NT as (NT & IT). constructor.
    + intros H. apply in_app_or in H as [H|H].
      * apply in_map_iff in H as (f & E & Hf). apply (C f Hf). rewrite E. now left.
      * apply IT in H as [E|[E|[]]]; apply app_ne in E; auto; discriminate.
    + clear T EC. revert NC NT. generalize (flat_map edecl_names tl) IT. intros l Hl NC NT.
      assert (DJ : forall x, In x (map (value_GoName e) (en_values e)) -> ~ In x l).
      { intros x Hx Hxl. apply in_map_iff in Hx as (f & E & Hf). apply (C f Hf). rewrite E. right. apply Hl, Hxl. }
      induction (map (value_GoName e) (en_values e)) as [|x vs IH]; cbn; [exact NT|]. inversion NC as [|? ? NI NC']; subst. constructor.
      * intros H. apply in_app_or in H as [H|H]; [contradiction|]. apply (DJ x); [now left|exact H].
      * apply IH; auto. intros y Hy. apply DJ. now right.
  - unfold EnumGen. constructor; [exact I|]. apply Forall_app. split; [apply Forall_forall; intros d H; apply in_map_iff in H as (f & <- & _); exact I|].
    destruct (genMapping e); [|constructor]. constructor; [apply name_entries_NoDup|]. constructor; [now rewrite value_entries_fst|]. constructor; [exact I|constructor].
Qed.

(** ** Names and switches *)
Lemma has_in : forall dd d, dir_has dd d = true <-> In d dd.
Proof.
  intros dd d. unfold dir_has. rewrite existsb_exists. split.
  - intros (x & Hx & E). destruct (str_eqb_spec x d); [now subst|discriminate].
  - intro H. exists d. split; [exact H|apply str_eqb_refl].
Qed.
Lemma has_notin : forall dd d, dir_has dd d = false <-> ~ In d dd.
Proof. intros dd d. rewrite <- has_in. destruct (dir_has dd d); split; congruence. Qed.
Lemma set_to_get : forall oo n v, set_to oo n v <-> opt_get oo n = Some v.
Proof. intros oo n v. symmetry. apply opt_get_last. Qed.
Lemma isfalse_iff : forall v, isfalse v = true <-> v = bs "false".
Proof. intro v. unfold isfalse. destruct (str_eqb_spec v (bs "false")); split; congruence. Qed.
Lemma genNoPrefix_asked : forall e f, genNoPrefix e f = true <-> asks_no_prefix e f.
Proof.
  intros e f. unfold genNoPrefix, asks_no_prefix, enum_genNoPrefix. rewrite !set_to_get, <- opt_get_absent, <- !has_in.
  destruct (dir_has (ev_dirs f) _); [tauto|]. destruct (dir_has (en_dirs e) _); [tauto|]. destruct (dir_has (en_pdirs e) _); [tauto|].
  destruct (opt_get (en_opts e) _) as [v|].
  - rewrite isfalse_iff. split.
    + intros ->. auto.
    + intros [H|[H|[H|[H|[H _]]]]]; congruence.
  - destruct (opt_get (en_popts e) _) as [v|].
    + rewrite isfalse_iff. split.
      * intros ->. auto 7.
      * intros [H|[H|[H|[H|[_ H]]]]]; congruence.
    + split; [discriminate|]. intros [H|[H|[H|[H|[_ H]]]]]; congruence.
Qed.
Lemma genMapping_asked : forall e, genMapping e = false <-> asks_no_mapping e.
Proof.
  intro e. unfold genMapping, asks_no_mapping. rewrite <- !has_in. destruct (dir_has (en_dirs e) _); [tauto|]. destruct (dir_has (en_pdirs e) _); [tauto|]. split; [discriminate|]. intros [H|H]; discriminate.
Qed.
