(** C68.  The command line of prutalgen: which file is read for an argument, and where the Go file
    is written. *)
From Coq Require Import Strings.String Init.Byte Lia.
From Coq Require Strings.Byte.
From Verif Require Import Base GoStr StrFacts GenEnum GenImport Paths PathSpec PathProofs.
Import StringSyntax.
Open Scope N_scope.

(** ** Reading *)

Lemma under_abs : forall wd W i f, rooted wd = true -> W = loc [] wd -> forall d, under W i f d <-> Abs wd (fullFilename i f) = abs_path d /\ d = loc W (Join i f).
Proof.
  intros wd W i f R -> d. unfold fullFilename. rewrite (Abs_abs wd _ R). unfold under.
  assert (P : d = loc (loc [] wd) (Join i f) <-> abs_path (loc (loc [] wd) (Join i f)) = abs_path d /\ d = loc (loc [] wd) (Join i f)).
  { split; [intros ->; auto|tauto]. }
  rewrite <- P. clear P. destruct i as [|c i].
  - assert (E : loc (loc [] wd) (Join [] f) = loc (loc [] wd) f) by (destruct f; [reflexivity|apply Clean_loc]). rewrite E. split.
    + intros [(_ & N)|(N & _)]; [now apply names_loc|congruence].
    + intros ->. left. split; [reflexivity|now apply names_loc].
  - rewrite Join_loc by discriminate. split.
    + intros [(N & _)|(_ & I & N & L)]; [discriminate|]. apply names_loc in N. subst. now apply leads_walk.
    + intros ->. right. split; [discriminate|]. exists (loc (loc [] wd) (c :: i)). split; [now apply names_loc|now apply leads_walk].
Qed.
Lemma Join_names : forall wd i f, rooted wd = true -> Forall name (loc (loc [] wd) (Join i f)).
Proof. intros. apply loc_names, loc_names. constructor. Qed.
(** The first directory counts that contains the file, and after all of them the working
    directory.  [stat] looks at places ([ex]). *)
Theorem C68_search : forall wd W stat ex incls file p, rooted wd = true -> names [] wd W ->
  (forall s d, names [] s d -> stat s = ex d) ->
  (searchProtoFile wd stat incls file = Some p <-> exists d, found W ex (incls ++ [[]]) file d /\ p = abs_path d).
Proof.
  intros wd W stat ex incls file p R NW ST. apply names_loc in NW. unfold searchProtoFile. generalize (incls ++ [[]]) as l. intro l.
  assert (SX : forall i, stat (Abs wd (fullFilename i file)) = ex (loc W (Join i file))).
  { intro i. apply ST. apply names_loc. unfold fullFilename. rewrite (Abs_abs wd _ R), <- NW, loc_abs; [reflexivity|]. subst W. now apply Join_names. }
  induction l as [|i l IH]; cbn [search].
  - split; [discriminate|]. intros (d & F & _). inversion F.
  - rewrite SX. destruct (ex (loc W (Join i file))) eqn:E.
    + split.
      * intro H. injection H as <-. exists (loc W (Join i file)). split; [|].
        -- apply fd_here; [|exact E]. apply (under_abs wd W i file R NW). split; [|reflexivity]. unfold fullFilename. now rewrite (Abs_abs wd _ R), <- NW.
        -- unfold fullFilename. now rewrite (Abs_abs wd _ R), <- NW.
      * intros (d & F & ->). inversion F as [? ? ? ? U X|? ? ? ? d' U X F']; subst; apply (under_abs wd _ i file R eq_refl) in U; destruct U as [U1 U2]; subst.
        -- now rewrite U1.
        -- congruence.
    + rewrite IH. split; intros (d & F & EQ); exists d; (split; [|exact EQ]).
      * apply fd_next with (d' := loc W (Join i file)); [|exact E|exact F]. apply (under_abs wd W i file R NW). split; [|reflexivity]. unfold fullFilename. now rewrite (Abs_abs wd _ R), <- NW.
      * inversion F as [? ? ? ? U X|? ? ? ? d' U X F']; subst; [|exact F']. apply (under_abs wd _ i file R eq_refl) in U; destruct U as [U1 U2]; subst. congruence.
Qed.
Print Assumptions C68_search.

(** ** Writing *)

Lemma search_abs : forall wd stat l file p, rooted wd = true -> search wd stat l file = Some p -> exists d, Forall name d /\ p = abs_path d.
Proof.
  intros wd stat l file p R. induction l as [|i l IH]; cbn [search]; [discriminate|].
  destruct (stat (Abs wd (fullFilename i file))); [|exact IH]. intro H. injection H as <-. unfold fullFilename. rewrite (Abs_abs wd _ R).
  eexists. split; [|reflexivity]. now apply Join_names.
Qed.
Lemma go_file_fun : forall n m, go_file n m <-> m = TrimSuffix n (bs ".proto") ++ bs ".pb.go".
Proof.
  intros n m. destruct (suffix_dec n (bs ".proto")) as [(b & ->)|N].
  - rewrite TrimSuffix_yes. split.
    + intro H. inversion H as [b' E|n' H' E]; subst; [now apply app_inv_tail in E; subst|]. exfalso. now apply (H' b).
    + intros ->. constructor.
  - rewrite TrimSuffix_no by exact N. split.
    + intro H. inversion H as [b' E|n' H' E]; subst; [|reflexivity]. exfalso. now apply (N b').
    + intros ->. now constructor.
Qed.
Lemma TrimSuffix_noslash : forall n suf, ~ In x2f n -> ~ In x2f (TrimSuffix n suf).
Proof.
  intros n suf N. destruct (suffix_dec n suf) as [(b & ->)|H]; [rewrite TrimSuffix_yes; intro I; apply N, in_or_app; now left|now rewrite TrimSuffix_no].
Qed.
Lemma pbgo_name : forall b, ~ In x2f b -> name (b ++ bs ".pb.go").
Proof.
  intros b N. assert (L : (length (b ++ bs ".pb.go") >= 6)%nat) by (rewrite app_length; cbn; lia).
  split; [split; [|split]|]; try (intro Q; rewrite Q in L; cbn in L; lia).
  intro I. apply in_app_or in I. destruct I as [I|I]; [contradiction|]. cbn in I. repeat (destruct I as [I|I]; [discriminate|]). destruct I.
Qed.
Lemma below_fun : forall O imp D m, name m -> below O imp D -> walk O (Split x2f (Join imp m)) = D ++ [m].
Proof.
  intros O imp D m NM B. assert (SM : Split x2f m = [m]) by (apply Split_none; apply NM).
  destruct imp as [|c imp].
  - assert (CM : Clean m = m).
    { unfold Clean. assert (RM : rooted m = false). { destruct m as [|x m]; [reflexivity|]. cbn. unfold is_slash. destruct (beqb_spec x x2f) as [->|]; [|reflexivity]. exfalso. destruct NM as ((_ & _ & NM) & _). apply NM. now left. }
      rewrite RM, SM. cbn [fold_left]. unfold clean_step. destruct NM as ((A & A' & _) & A''). rewrite !str_eqb_ne by assumption. reflexivity. }
    unfold Join. destruct m as [|x m]; [destruct NM as ((A & _) & _); congruence|]. rewrite CM, SM. cbn. rewrite go_name by exact NM.
    destruct B as [(_ & L)|(q & r & Q & _)]; [|discriminate]. apply leads_walk in L. subst. reflexivity.
  - assert (JE : Join (c :: imp) m = Clean ((c :: imp) ++ x2f :: m)).
    { destruct m; [destruct NM as ((A & _) & _); congruence|reflexivity]. }
    destruct B as [(NR & L)|(q & r & Q & N & ->)].
    + assert (RF : rooted (c :: imp) = false). { destruct (rooted (c :: imp)) eqn:R; [|reflexivity]. apply rooted_spec in R. destruct R as (q & Q). exfalso. now apply (NR q). }
      assert (E : walk O (Split x2f (Join (c :: imp) m)) = loc O (Join (c :: imp) m)) by (unfold loc; now rewrite Join_rooted, RF by discriminate).
      rewrite E, Join_loc by discriminate. rewrite SM. unfold loc. rewrite RF. apply leads_walk in L. subst. cbn. now rewrite go_name.
    + injection Q as -> ->. apply names_loc in N.
      assert (RJ : rooted ((x2f :: q) ++ x2f :: m) = true) by reflexivity.
      rewrite JE, (Clean_abs _ RJ). rewrite <- (Clean_loc [] ((x2f :: q) ++ x2f :: m)), <- JE, Join_loc by discriminate. rewrite <- N, SM. cbn [walk fold_left]. rewrite go_name by exact NM.
      assert (FN : Forall name (r ++ [m])). { apply Forall_app. split; [subst r; apply loc_names; constructor|]. constructor; [exact NM|constructor]. }
      unfold abs_path. cbn [Split]. change (beqb x2f x2f) with true. cbv iota.
      change (walk O ([] :: Split x2f (join x2f (r ++ [m])))) with (walk O (Split x2f (join x2f (r ++ [m])))).
      rewrite Split_join'; [|destruct r; discriminate|now apply name_noslash]. rewrite walk_all_names by exact FN. now rewrite app_assoc.
Qed.
Definition go_import (cl : cmdline) (gopkg_option : bytes -> option bytes) (a p : bytes) : bytes :=
  gp_import (go_package (lookup str_eqb (Proto2pkg (cl_opt cl)) (Clean a)) (gopkg_option p)).
Lemma gen_one_inv : forall wd stat opt cl a p fn, rooted wd = true -> gen_one wd stat opt cl a = Some (p, fn) ->
  (exists d, Forall name d /\ p = abs_path d) /\
  fn = SourcePath p (go_import cl opt a p) (GenPathType (cl_opt cl)) (out_dir cl) (bs ".pb.go").
Proof.
  intros wd stat opt cl a p fn R H. unfold gen_one in H. destruct (searchProtoFile _ _ _ _) as [p'|] eqn:S; [|discriminate].
  destruct (package_not_set _); [discriminate|]. injection H as <- <-. split; [|reflexivity]. eapply search_abs; [exact R|exact S].
Qed.
Lemma out_ne : forall cl, out_dir cl <> [].
Proof. intro cl. unfold out_dir. destruct (cl_out cl); discriminate. Qed.

(** paths=import: the file is in the directory of the import path in the output directory, under
    the name of the .proto file. *)
Theorem C68_import : forall wd W stat opt cl a p fn dir n m O D, rooted wd = true -> names [] wd W ->
  gen_one wd stat opt cl a = Some (p, fn) -> GenPathType (cl_opt cl) = GenByImport ->
  names [] p (dir ++ [n]) -> go_file n m -> names W (out_dir cl) O -> below O (go_import cl opt a p) D ->
  names W fn (D ++ [m]).
Proof.
  intros wd W stat opt cl a p fn dir n m O D R NW H GT NP GF NO B. destruct (gen_one_inv _ _ _ _ _ _ _ R H) as ((d & FD & ->) & ->).
  apply names_loc in NP. rewrite loc_abs in NP by exact FD. subst d. apply Forall_app in FD. destruct FD as [FD FN]. inversion FN as [|? ? ((N1 & _ & N2) & _) _]; subst.
  apply go_file_fun in GF. rewrite GT. unfold SourcePath. rewrite Base_abs by assumption. rewrite <- GF.
  apply names_loc. apply names_loc in NO. subst O. symmetry. rewrite Join_loc by apply out_ne. unfold fullFilename. apply below_fun; [|exact B].
  subst m. apply pbgo_name. now apply TrimSuffix_noslash.
Qed.
Print Assumptions C68_import.

(** It is inside the output directory, unless the import path goes up. *)
Theorem C68_inside : forall wd W stat opt cl a p fn dir n m O, rooted wd = true -> names [] wd W ->
  gen_one wd stat opt cl a = Some (p, fn) -> GenPathType (cl_opt cl) = GenByImport ->
  names [] p (dir ++ [n]) -> go_file n m -> names W (out_dir cl) O ->
  (forall es, elements (go_import cl opt a p) es -> ~ In (bs "..") es) ->
  exists sub, names W fn (O ++ sub ++ [m]).
Proof.
  intros wd W stat opt cl a p fn dir n m O R NW H GT NP GF NO NU. set (imp := go_import cl opt a p) in *.
  assert (W' : forall es d, ~ In (bs "..") es -> exists sub, walk d es = d ++ sub).
  { induction es as [|e es IH]; intros d ND; [exists []; now rewrite app_nil_r|]. cbn.
    assert (GO : exists s1, go d e = d ++ s1).
    { unfold go. destruct (str_eqb e [] || str_eqb e (bs ".")); [exists []; now rewrite app_nil_r|]. rewrite str_eqb_ne by (intros ->; apply ND; now left). eauto. }
    destruct GO as (s1 & ->). destruct (IH (d ++ s1)) as (s2 & E); [intro I; apply ND; now right|]. exists (s1 ++ s2). fold (walk (d ++ s1) es). now rewrite E, app_assoc. }
  specialize (NU _ (Split_elements imp)).
  assert (B : exists sub, below O imp (O ++ sub)).
  { destruct (rooted imp) eqn:RI.
    - apply rooted_spec in RI. destruct RI as (q & Q). exists (loc [] imp). right. exists q, (loc [] imp). split; [exact Q|]. split; [now apply names_loc|reflexivity].
    - destruct (W' _ O NU) as (sub & E). exists sub. left. split; [intros q ->; discriminate|]. apply leads_walk. now rewrite <- E. }
  destruct B as (sub & B). exists sub. rewrite app_assoc. eapply C68_import; eauto.
Qed.
Print Assumptions C68_inside.

(** paths=source_relative: the file is next to the .proto file. *)
Theorem C68_source : forall wd stat opt cl a p fn dir n m, rooted wd = true ->
  gen_one wd stat opt cl a = Some (p, fn) -> GenPathType (cl_opt cl) = GenBySourceRelative ->
  names [] p (dir ++ [n]) -> go_file n m -> fn = abs_path (dir ++ [m]) /\ forall W, names W fn (dir ++ [m]).
Proof.
  intros wd stat opt cl a p fn dir n m R H GT NP GF. destruct (gen_one_inv _ _ _ _ _ _ _ R H) as ((d & FD & ->) & ->).
  apply names_loc in NP. rewrite loc_abs in NP by exact FD. subst d. apply Forall_app in FD. destruct FD as [FD FN]. inversion FN as [|? ? ((N1 & _ & N2) & _) _]; subst.
  rewrite GT. unfold SourcePath. assert (E : TrimSuffix (abs_path (dir ++ [n])) (bs ".proto") ++ bs ".pb.go" = abs_path (dir ++ [m])).
  { apply go_file_fun in GF. subst m. destruct (abs_last dir n) as (q & -> & EM). rewrite EM. destruct (suffix_dec n (bs ".proto")) as [(b & ->)|NS].
    - rewrite TrimSuffix_yes. change (q ++ x2f :: b ++ bs ".proto") with (q ++ (x2f :: b) ++ bs ".proto"). rewrite app_assoc, TrimSuffix_yes. now rewrite <- app_assoc.
    - rewrite (TrimSuffix_no n) by exact NS. rewrite TrimSuffix_no; [now rewrite <- app_assoc|]. intros b Q.
      (* a suffix without slash is inside the last element *)
      assert (G : forall (q b : bytes) (n s : bytes), ~ In x2f s -> q ++ x2f :: n = b ++ s -> exists c, n = c ++ s).
      { clear. induction q as [|x q IH]; intros b n s NS E.
        - destruct b as [|y b]; cbn in E; [exfalso; apply NS; rewrite <- E; now left|]. injection E as _ E. eauto.
        - destruct b as [|y b]; cbn in E; [exfalso; apply NS; rewrite <- E; right; apply in_or_app; right; now left|]. injection E as _ E. eapply IH; eauto. }
      destruct (G q b n (bs ".proto")) as (c & C); [|exact Q|now apply (NS c)].
      cbn. intro I. repeat (destruct I as [I|I]; [discriminate|]). destruct I. }
  rewrite E. split; [reflexivity|]. intro W. apply names_loc. symmetry. apply loc_abs. apply Forall_app. split; [exact FD|].
  constructor; [|constructor]. apply go_file_fun in GF. subst m. apply pbgo_name. now apply TrimSuffix_noslash.
Qed.
Print Assumptions C68_source.

(** protoc puts the file sub/n of the include directory I at sub/m of the output directory O. *)
Definition protoc_place (I O : list bytes) (p f : list bytes) : Prop :=
  exists sub n m, p = I ++ sub ++ [n] /\ go_file n m /\ f = O ++ sub ++ [m].
(** So does the code if the output directory is the include directory. *)
Theorem C68_source_partial : forall wd stat opt cl a p fn I sub n, rooted wd = true ->
  gen_one wd stat opt cl a = Some (p, fn) -> GenPathType (cl_opt cl) = GenBySourceRelative ->
  names [] p (I ++ sub ++ [n]) -> exists f, names [] fn f /\ protoc_place I I (I ++ sub ++ [n]) f.
Proof.
  intros wd stat opt cl a p fn I sub n R H GT NP. rewrite app_assoc in NP.
  destruct (C68_source wd stat opt cl a p fn (I ++ sub) n (TrimSuffix n (bs ".proto") ++ bs ".pb.go") R H GT NP) as [_ NF]; [now apply go_file_fun|].
  eexists. split; [apply NF|]. exists sub, n, (TrimSuffix n (bs ".proto") ++ bs ".pb.go"). split; [reflexivity|]. split; [now apply go_file_fun|]. now rewrite <- app_assoc.
Qed.
Print Assumptions C68_source_partial.

(** ** Two files *)

(** paths=import: the same file is written for two arguments iff the import paths lead to the same
    directory and the Go files have the same name. *)
Theorem C68_distinct_import : forall wd W stat opt cl a1 p1 fn1 dir1 n1 m1 D1 a2 p2 fn2 dir2 n2 m2 D2 O, rooted wd = true -> names [] wd W ->
  GenPathType (cl_opt cl) = GenByImport -> names W (out_dir cl) O ->
  gen_one wd stat opt cl a1 = Some (p1, fn1) -> names [] p1 (dir1 ++ [n1]) -> go_file n1 m1 -> below O (go_import cl opt a1 p1) D1 ->
  gen_one wd stat opt cl a2 = Some (p2, fn2) -> names [] p2 (dir2 ++ [n2]) -> go_file n2 m2 -> below O (go_import cl opt a2 p2) D2 ->
  ((exists x, names W fn1 x /\ names W fn2 x) <-> D1 = D2 /\ m1 = m2).
Proof.
  intros wd W stat opt cl a1 p1 fn1 dir1 n1 m1 D1 a2 p2 fn2 dir2 n2 m2 D2 O R NW GT NO G1 N1 F1 B1 G2 N2 F2 B2.
  pose proof (C68_import _ _ _ _ _ _ _ _ _ _ _ _ _ R NW G1 GT N1 F1 NO B1) as A1.
  pose proof (C68_import _ _ _ _ _ _ _ _ _ _ _ _ _ R NW G2 GT N2 F2 NO B2) as A2. split.
  - intros (x & X1 & X2). apply names_loc in A1, A2, X1, X2. rewrite <- X1 in A1. rewrite <- X2 in A2. rewrite <- A2 in A1. apply app_inj_tail in A1. tauto.
  - intros [-> ->]. eauto.
Qed.
Print Assumptions C68_distinct_import.
(** paths=source_relative: files that end in .proto never share their Go file. *)
Theorem C68_distinct_source : forall wd W stat opt cl a1 p1 fn1 dir1 b1 a2 p2 fn2 dir2 b2 x, rooted wd = true ->
  GenPathType (cl_opt cl) = GenBySourceRelative ->
  gen_one wd stat opt cl a1 = Some (p1, fn1) -> names [] p1 (dir1 ++ [b1 ++ bs ".proto"]) ->
  gen_one wd stat opt cl a2 = Some (p2, fn2) -> names [] p2 (dir2 ++ [b2 ++ bs ".proto"]) ->
  names W fn1 x -> names W fn2 x -> p1 = p2.
Proof.
  intros wd W stat opt cl a1 p1 fn1 dir1 b1 a2 p2 fn2 dir2 b2 x R GT G1 N1 G2 N2 X1 X2.
  destruct (C68_source _ _ _ _ _ _ _ _ _ _ R G1 GT N1 (gf_proto b1)) as [_ A1]. destruct (C68_source _ _ _ _ _ _ _ _ _ _ R G2 GT N2 (gf_proto b2)) as [_ A2].
  specialize (A1 W). specialize (A2 W). apply names_loc in A1, A2, X1, X2. rewrite <- X1 in A1. rewrite <- X2 in A2. rewrite <- A2 in A1. apply app_inj_tail in A1. destruct A1 as [-> A].
  apply app_inv_tail in A. subst b2. destruct (gen_one_inv _ _ _ _ _ _ _ R G1) as ((d1 & FD1 & ->) & _). destruct (gen_one_inv _ _ _ _ _ _ _ R G2) as ((d2 & FD2 & ->) & _).
  apply names_loc in N1, N2. rewrite loc_abs in N1, N2 by assumption. congruence.
Qed.
Print Assumptions C68_distinct_source.

(** ** The whole run *)

(** what is at a place after the writes l *)
Definition written (W : list bytes) (l : list (bytes * bytes)) (x : list bytes) (c : bytes) : Prop :=
  exists l1 fn l2, l = l1 ++ (fn, c) :: l2 /\ names W fn x /\ forall fn' c', In (fn', c') l2 -> ~ names W fn' x.
(** If the run reaches its end, there is a Go file for every argument, and it is the one generated
    for the argument if no other .proto file has its Go file at the same place. *)
Theorem C68_run : forall wd W stat opt gen cl l, main wd stat opt gen cl = (l, true) ->
  (forall fn c, In (fn, c) l <-> exists a p, In a (cl_args cl) /\ gen_one wd stat opt cl a = Some (p, fn) /\ c = gen p) /\
  forall a, In a (cl_args cl) -> exists p fn x, gen_one wd stat opt cl a = Some (p, fn) /\ names W fn x /\
    (exists a' p' fn', In a' (cl_args cl) /\ gen_one wd stat opt cl a' = Some (p', fn') /\ names W fn' x /\ written W l x (gen p')) /\
    ((forall a' p' fn', In a' (cl_args cl) -> gen_one wd stat opt cl a' = Some (p', fn') -> names W fn' x -> p' = p) -> written W l x (gen p)).
Proof.
  intros wd W stat opt gen cl l H. unfold main in H. generalize dependent l. induction (cl_args cl) as [|a args IH]; intros l H; cbn [run] in H.
  - injection H as <-. split; [|intros a []]. intros fn c. split; [intros []|]. intros (a & p & [] & _).
  - destruct (gen_one wd stat opt cl a) as [[p fn]|] eqn:G; [|discriminate]. destruct (run wd stat opt gen cl args) as [l' ok] eqn:RR. injection H as <- ->.
    destruct (IH l' eq_refl) as [IN EV]. clear IH. assert (IN' : forall fn0 c, In (fn0, c) ((fn, gen p) :: l') <-> exists a0 p0, In a0 (a :: args) /\ gen_one wd stat opt cl a0 = Some (p0, fn0) /\ c = gen p0).
    { intros fn0 c. split.
      - intros [Q|I]; [injection Q as <- <-; exists a, p; split; [now left|auto]|]. apply IN in I. destruct I as (a0 & p0 & I & E). exists a0, p0. split; [now right|exact E].
      - intros (a0 & p0 & [<-|I] & E & ->); [rewrite G in E; injection E as <- <-; now left|]. right. apply IN. eauto. }
    split; [exact IN'|]. intros a0 I0.
    assert (LAST : forall x, (exists fn0 c, In (fn0, c) ((fn, gen p) :: l') /\ names W fn0 x) -> exists fn0 c, In (fn0, c) ((fn, gen p) :: l') /\ names W fn0 x /\ written W ((fn, gen p) :: l') x c).
    { intro x. generalize ((fn, gen p) :: l') as ws. clear. induction ws as [|[f c] ws IH] using rev_ind; intros (fn0 & c0 & I & N); [destruct I|].
      assert (D : names W f x \/ ~ names W f x). { destruct (list_eq_dec (list_eq_dec Strings.Byte.byte_eq_dec) x (loc W f)) as [E|E]; [left|right]; now rewrite names_loc. }
      destruct D as [Y|Y].
      - exists f, c. split; [apply in_or_app; right; now left|]. split; [exact Y|]. exists ws, f, []. split; [reflexivity|]. split; [exact Y|intros ? ? []].
      - apply in_app_or in I. destruct I as [I|[Q|[]]]; [|injection Q as -> ->; contradiction]. destruct IH as (f1 & c1 & I1 & N1 & l1 & f2 & l2 & E & N2 & NL); [eauto|].
        exists f1, c1. split; [apply in_or_app; now left|]. split; [exact N1|]. exists l1, f2, (l2 ++ [(f, c)]). split; [subst ws; now rewrite <- app_assoc|]. split; [exact N2|].
        intros f' c' I'. apply in_app_or in I'. destruct I' as [I'|[Q|[]]]; [now apply (NL f' c')|]. injection Q as -> ->. exact Y. }
    assert (EX : exists p0 fn0, gen_one wd stat opt cl a0 = Some (p0, fn0)).
    { destruct I0 as [<-|I0]; [eauto|]. destruct (EV a0 I0) as (p0 & fn0 & _ & E & _). eauto. }
    destruct EX as (p0 & fn0 & G0). exists p0, fn0, (loc W fn0). split; [exact G0|]. split; [now apply names_loc|].
    destruct (LAST (loc W fn0)) as (f1 & c1 & I1 & N1 & WR).
    { exists fn0, (gen p0). split; [apply IN'; eauto|now apply names_loc]. }
    apply IN' in I1. destruct I1 as (a1 & p1 & I1 & G1 & ->). split; [exists a1, p1, f1; auto|].
    intro U. now rewrite <- (U a1 p1 f1 I1 G1 N1).
Qed.
Print Assumptions C68_run.
(** If not, it stopped at an argument for which no file is found or whose Go package is not set. *)
Theorem C68_stopped : forall wd stat opt gen cl l, main wd stat opt gen cl = (l, false) ->
  exists before a after, cl_args cl = before ++ a :: after /\ gen_one wd stat opt cl a = None /\
    forall fn c, In (fn, c) l <-> exists a' p, In a' before /\ gen_one wd stat opt cl a' = Some (p, fn) /\ c = gen p.
Proof.
  intros wd stat opt gen cl l H. unfold main in H. generalize dependent l. induction (cl_args cl) as [|a args IH]; intros l H; cbn [run] in H; [discriminate|].
  destruct (gen_one wd stat opt cl a) as [[p fn]|] eqn:G.
  - destruct (run wd stat opt gen cl args) as [l' ok] eqn:RR. injection H as <- ->. destruct (IH l' eq_refl) as (b & a' & af & -> & N & IN).
    exists (a :: b), a', af. split; [reflexivity|]. split; [exact N|]. intros fn0 c. split.
    + intros [Q|I]; [injection Q as <- <-; exists a, p; split; [now left|auto]|]. apply IN in I. destruct I as (a0 & p0 & I & E). exists a0, p0. split; [now right|exact E].
    + intros (a0 & p0 & [<-|I] & E & ->); [rewrite G in E; injection E as <- <-; now left|]. right. apply IN. eauto.
  - injection H as <-. exists [], a, args. split; [reflexivity|]. split; [exact G|]. intros fn c. split; [intros []|]. intros (a' & p & [] & _).
Qed.
Print Assumptions C68_stopped.

(** ** Options *)

(** the last paths option counts *)
Inductive chosen : list bytes -> pathtype -> Prop :=
| ch_none opts : ~ In (bs "paths=import") opts -> ~ In (bs "paths=source_relative") opts -> chosen opts GenByImport
| ch_import a b : ~ In (bs "paths=import") b -> ~ In (bs "paths=source_relative") b -> chosen (a ++ bs "paths=import" :: b) GenByImport
| ch_source a b : ~ In (bs "paths=import") b -> ~ In (bs "paths=source_relative") b -> chosen (a ++ bs "paths=source_relative" :: b) GenBySourceRelative.
Theorem C68_paths : forall opts, chosen opts (GenPathType opts).
Proof.
  intro opts. unfold GenPathType. induction opts as [|o opts IH] using rev_ind; [apply ch_none; intros []|]. rewrite fold_left_app. cbn [fold_left].
  destruct (str_eqb_spec o (bs "paths=import")) as [->|N1]; [apply ch_import; intros []|].
  destruct (str_eqb_spec o (bs "paths=source_relative")) as [->|N2]; [apply ch_source; intros []|].
  assert (A : forall x l, o <> x -> ~ In x l -> ~ In x (l ++ [o])) by (intros x l NX NI I; apply in_app_or in I; destruct I as [I|[I|[]]]; auto).
  inversion IH as [os H1 H2 E1 E2|a b H1 H2 E1 E2|a b H1 H2 E1 E2]; subst.
  - apply ch_none; apply A; assumption.
  - rewrite <- app_assoc. cbn [app]. apply ch_import; apply A; assumption.
  - rewrite <- app_assoc. cbn [app]. apply ch_source; apply A; assumption.
Qed.
Print Assumptions C68_paths.

(** [maps o f v]: the option o says that the file f has the Go package v *)
Definition maps (o f v : bytes) : Prop := exists k, o = bs "M" ++ k ++ bs "=" ++ v /\ ~ In x3d k /\ Clean k = Clean f.
Lemma Cut_app : forall c k v, ~ In c k -> Cut c (k ++ c :: v) = (k, v).
Proof.
  intros c k v N. induction k as [|x k IH]; cbn; [now rewrite beqb_refl|]. destruct (beqb_spec x c) as [->|]; [exfalso; apply N; now left|].
  rewrite IH; [reflexivity|]. intro I. apply N. now right.
Qed.
Lemma Contains_cut : forall c s, Contains c s = true -> exists k v, s = k ++ c :: v /\ ~ In c k.
Proof.
  intros c. induction s as [|x s IH]; cbn; [discriminate|]. destruct (beqb_spec c x) as [->|N]; cbn [orb].
  - intros _. exists [], s. split; [reflexivity|intros []].
  - intro H. destruct (IH H) as (k & v & -> & NK). exists (x :: k), v. split; [reflexivity|]. intros [Q|Q]; [congruence|contradiction].
Qed.
Lemma Proto2pkg_snoc : forall opts o, Proto2pkg (opts ++ [o]) =
  match o with c :: s => if beqb c x4d then if Contains x3d s then (Clean (fst (Cut x3d s)), snd (Cut x3d s)) :: Proto2pkg opts else Proto2pkg opts else Proto2pkg opts | [] => Proto2pkg opts end.
Proof. intros. unfold Proto2pkg. rewrite fold_left_app. reflexivity. Qed.
Lemma lookup_cons : forall (k : bytes) (w : bytes) m x, lookup str_eqb ((k, w) :: m) x = if str_eqb k x then Some w else lookup str_eqb m x.
Proof. reflexivity. Qed.
(** an M option counts for the files that it names, however they are written, unless a later one
    does *)
Theorem C68_M : forall opts a v, lookup str_eqb (Proto2pkg opts) (Clean a) = Some v <->
  exists l1 o l2, opts = l1 ++ o :: l2 /\ maps o a v /\ forall o' v', In o' l2 -> ~ maps o' a v'.
Proof.
  intros opts a v. induction opts as [|o opts IH] using rev_ind.
  - split; [discriminate|]. intros (l1 & o & l2 & E & _). destruct l1; discriminate.
  - rewrite Proto2pkg_snoc. set (m := Proto2pkg opts) in *.
    (* what the last option says *)
    assert (O : (exists k w, o = bs "M" ++ k ++ bs "=" ++ w /\ ~ In x3d k) \/ (forall k w, ~ In x3d k -> o <> bs "M" ++ k ++ bs "=" ++ w)).
    { destruct o as [|c s]; [right; intros; discriminate|]. destruct (beqb_spec c x4d) as [->|N].
      - destruct (Contains x3d s) eqn:C.
        + apply Contains_cut in C. destruct C as (k & w & -> & NK). left. exists k, w. auto.
        + right. intros k w _ Q. injection Q as ->. assert (Y : Contains x3d (k ++ x3d :: w) = true) by (unfold Contains; rewrite existsb_app; cbn; apply orb_true_r). change (Contains x3d (k ++ x3d :: w) = false) in C. congruence.
      - right. intros k w _ Q. injection Q as -> _. congruence. }
    destruct O as [(k & w & -> & NK)|NO].
    + assert (E : (match bs "M" ++ k ++ bs "=" ++ w with c :: s => if beqb c x4d then if Contains x3d s then (Clean (fst (Cut x3d s)), snd (Cut x3d s)) :: m else m else m | [] => m end) = (Clean k, w) :: m).
      { cbn [bs list_byte_of_string app]. change (bs "M" ++ k ++ bs "=" ++ w) with (x4d :: (k ++ x3d :: w)). cbv iota. change (beqb x4d x4d) with true. cbv iota.
        assert (Y : Contains x3d (k ++ x3d :: w) = true) by (unfold Contains; rewrite existsb_app; cbn; apply orb_true_r). rewrite Y, Cut_app by exact NK. reflexivity. }
      rewrite E. clear E. rewrite lookup_cons. destruct (str_eqb_spec (Clean k) (Clean a)) as [Q|Q].
      * split.
        -- intro H. injection H as <-. exists opts, (bs "M" ++ k ++ bs "=" ++ w), []. split; [reflexivity|]. split; [exists k; auto|intros ? ? []].
        -- intros (l1 & o & l2 & E & (k' & -> & NK' & _) & NL). destruct l2 as [|z l2] using rev_ind.
           ++ apply app_inj_tail in E. destruct E as [_ E]. change (x4d :: (k ++ x3d :: w) = x4d :: (k' ++ x3d :: v)) in E. injection E as E.
              pose proof (Cut_app x3d k w NK) as C1. rewrite E, Cut_app in C1 by exact NK'. injection C1 as _ ->. reflexivity.
           ++ exfalso. change (l1 ++ (bs "M" ++ k' ++ bs "=" ++ v) :: l2 ++ [z]) with (l1 ++ ((bs "M" ++ k' ++ bs "=" ++ v) :: l2) ++ [z]) in E. rewrite (app_assoc l1) in E. apply app_inj_tail in E. destruct E as [_ <-].
              apply (NL (bs "M" ++ k ++ bs "=" ++ w) w); [apply in_or_app; right; now left|]. exists k. auto.
      * rewrite IH. split.
        -- intros (l1 & o & l2 & -> & M & NL). exists l1, o, (l2 ++ [bs "M" ++ k ++ bs "=" ++ w]). split; [now rewrite <- app_assoc|]. split; [exact M|].
           intros o' v' I. apply in_app_or in I. destruct I as [I|[<-|[]]]; [now apply NL|]. intros (k' & E & NK' & CK).
           change (x4d :: (k ++ x3d :: w) = x4d :: (k' ++ x3d :: v')) in E. injection E as E.
           pose proof (Cut_app x3d k w NK) as C1. rewrite E, Cut_app in C1 by exact NK'. injection C1 as -> _. contradiction.
        -- intros (l1 & o & l2 & E & M & NL). destruct l2 as [|z l2 _] using rev_ind.
           ++ apply app_inj_tail in E. destruct E as [_ <-]. exfalso. destruct M as (k' & E & NK' & CK). change (x4d :: (k ++ x3d :: w) = x4d :: (k' ++ x3d :: v)) in E. injection E as E.
              pose proof (Cut_app x3d k w NK) as C1. rewrite E, Cut_app in C1 by exact NK'. injection C1 as -> _. contradiction.
           ++ change (l1 ++ o :: l2 ++ [z]) with (l1 ++ (o :: l2) ++ [z]) in E. rewrite (app_assoc l1) in E. apply app_inj_tail in E. destruct E as [-> _].
              exists l1, o, l2. split; [reflexivity|]. split; [exact M|]. intros o' v' I. apply NL. apply in_or_app. now left.
    + assert (E : (match o with c :: s => if beqb c x4d then if Contains x3d s then (Clean (fst (Cut x3d s)), snd (Cut x3d s)) :: m else m else m | [] => m end) = m).
      { destruct o as [|c s]; [reflexivity|]. destruct (beqb_spec c x4d) as [->|N]; [|reflexivity]. destruct (Contains x3d s) eqn:C; [|reflexivity].
        exfalso. apply Contains_cut in C. destruct C as (k & w & -> & NK). now apply (NO k w NK). }
      rewrite E, IH. clear E. split.
      * intros (l1 & o1 & l2 & -> & M & NL). exists l1, o1, (l2 ++ [o]). split; [now rewrite <- app_assoc|]. split; [exact M|].
        intros o' v' I. apply in_app_or in I. destruct I as [I|[<-|[]]]; [now apply NL|]. intros (k' & E & NK' & _). now apply (NO k' v').
      * intros (l1 & o1 & l2 & E & M & NL). destruct l2 as [|z l2 _] using rev_ind.
        -- apply app_inj_tail in E. destruct E as [_ <-]. exfalso. destruct M as (k' & E & NK' & _). now apply (NO k' v).
        -- change (l1 ++ o1 :: l2 ++ [z]) with (l1 ++ (o1 :: l2) ++ [z]) in E. rewrite (app_assoc l1) in E. apply app_inj_tail in E. destruct E as [-> _].
           exists l1, o1, l2. split; [reflexivity|]. split; [exact M|]. intros o' v' I. apply NL. apply in_or_app. now left.
Qed.
Print Assumptions C68_M.
(** where "names the same file" means: in every directory *)
Theorem C68_clean : forall s t, Clean s = Clean t <-> forall d x, Forall name d -> (names d s x <-> names d t x).
Proof.
  intros s t. rewrite Clean_same. split; intros H d.
  - intros x F. rewrite !names_loc, (H d F). reflexivity.
  - intro F. specialize (H d (loc d s) F). rewrite !names_loc in H. now apply H.
Qed.
Print Assumptions C68_clean.

(** ** Where the code differs from protoc *)
Definition ex_wd : bytes := bs "/w".
Definition ex_W : list bytes := [bs "w"].
Definition ex_files : list (list bytes) := [[bs "w"; bs "a.proto"]; [bs "w"; bs "a"; bs "x.proto"]; [bs "w"; bs "b"; bs "x.proto"]].
Definition ex_ex (d : list bytes) : bool := existsb (fun f => if list_eq_dec (list_eq_dec Strings.Byte.byte_eq_dec) f d then true else false) ex_files.
Definition ex_stat (s : bytes) : bool := ex_ex (loc [] s).
Definition ex_option (p : bytes) : option bytes := Some (bs "example.com/t").
Definition cl_source : cmdline := mkCL [] (bs "gen") [bs "paths=source_relative"] [bs "a.proto"].
Definition cl_two : cmdline := mkCL [] (bs "gen") [] [bs "a/x.proto"; bs "b/x.proto"].
Lemma ex_stat_ok : forall s d, names [] s d -> ex_stat s = ex_ex d.
Proof. intros s d N. apply names_loc in N. subst. reflexivity. Qed.

Theorem C68_refuted :
  (* paths=source_relative: the output directory is ignored *)
  (exists p fn, gen_one ex_wd ex_stat ex_option cl_source (bs "a.proto") = Some (p, fn) /\ names [] p (ex_W ++ [bs "a.proto"]) /\
    forall f, protoc_place ex_W (ex_W ++ [bs "gen"]) (ex_W ++ [bs "a.proto"]) f -> ~ names ex_W fn f) /\
  (* paths=import: the Go file of b/x.proto replaces that of a/x.proto, without an error *)
  (forall gen, exists l, main ex_wd ex_stat ex_option gen cl_two = (l, true) /\
    gen_one ex_wd ex_stat ex_option cl_two (bs "a/x.proto") = Some (bs "/w/a/x.proto", bs "gen/example.com/t/x.pb.go") /\
    gen_one ex_wd ex_stat ex_option cl_two (bs "b/x.proto") = Some (bs "/w/b/x.proto", bs "gen/example.com/t/x.pb.go") /\
    forall x c, written ex_W l x c -> c = gen (bs "/w/b/x.proto")) /\
  (* options separated by commas are ignored *)
  (each_option [bs "paths=source_relative,Ma.proto=x"] (bs "paths=source_relative") /\
   GenPathType [bs "paths=source_relative,Ma.proto=x"] = GenByImport) /\
  (* and so are unknown values *)
  GenPathType [bs "paths=source-relative"] = GenByImport.
Proof.
  split; [|split; [|split; [split; [exists (bs "paths=source_relative,Ma.proto=x"); split; [now left|vm_compute; now left]|vm_compute; reflexivity]|vm_compute; reflexivity]]].
  - exists (bs "/w/a.proto"), (bs "/w/a.pb.go"). split; [vm_compute; reflexivity|]. split; [apply names_loc; vm_compute; reflexivity|].
    intros f (sub & n & m & P & GF & ->) N. apply names_loc in N. change (loc ex_W (bs "/w/a.pb.go")) with [bs "w"; bs "a.pb.go"] in N.
    destruct sub as [|? [|? ?]]; discriminate N.
  - intro gen. exists [(bs "gen/example.com/t/x.pb.go", gen (bs "/w/a/x.proto")); (bs "gen/example.com/t/x.pb.go", gen (bs "/w/b/x.proto"))].
    split; [|split; [vm_compute; reflexivity|split; [vm_compute; reflexivity|]]].
    + unfold main. cbn [cl_args cl_two run].
      assert (G1 : gen_one ex_wd ex_stat ex_option cl_two (bs "a/x.proto") = Some (bs "/w/a/x.proto", bs "gen/example.com/t/x.pb.go")) by (vm_compute; reflexivity).
      assert (G2 : gen_one ex_wd ex_stat ex_option cl_two (bs "b/x.proto") = Some (bs "/w/b/x.proto", bs "gen/example.com/t/x.pb.go")) by (vm_compute; reflexivity).
      rewrite G1, G2. reflexivity.
    + intros x c (l1 & fn & l2 & E & N & NL). destruct l1 as [|y l1].
      * injection E as <- <- <-. exfalso. apply (NL (bs "gen/example.com/t/x.pb.go") (gen (bs "/w/b/x.proto"))); [now left|exact N].
      * injection E as _ E. destruct l1 as [|z l1]; [injection E as _ <- _; reflexivity|]. destruct l1; discriminate.
Qed.
Print Assumptions C68_refuted.

(** Cases for the theorems above: an argument that is not clean, in an include directory, with an
    output directory, an M option and an import path of several elements. *)
Definition cl_ex : cmdline := mkCL [bs "nowhere"; bs "./b/.."] (bs "../w/gen/") [bs "paths=source_relative"; bs "Ma//x.proto=ex.org/q;q"; bs "paths=import"] [bs "a/../a/x.proto"].
Example C68_ex :
  rooted ex_wd = true /\ names [] ex_wd ex_W /\
  found ex_W ex_ex (cl_path cl_ex ++ [[]]) (bs "a/x.proto") [bs "w"; bs "a"; bs "x.proto"] /\
  gen_one ex_wd ex_stat (fun _ => None) cl_ex (bs "a/../a/x.proto") = Some (bs "/w/a/x.proto", bs "../w/gen/ex.org/q/x.pb.go") /\
  GenPathType (cl_opt cl_ex) = GenByImport /\
  names [] (bs "/w/a/x.proto") ([bs "w"; bs "a"] ++ [bs "x.proto"]) /\ go_file (bs "x.proto") (bs "x.pb.go") /\
  names ex_W (out_dir cl_ex) [bs "w"; bs "gen"] /\
  below [bs "w"; bs "gen"] (go_import cl_ex (fun _ => None) (bs "a/../a/x.proto") (bs "/w/a/x.proto")) [bs "w"; bs "gen"; bs "ex.org"; bs "q"] /\
  names ex_W (bs "../w/gen/ex.org/q/x.pb.go") [bs "w"; bs "gen"; bs "ex.org"; bs "q"; bs "x.pb.go"].
Proof.
  split; [reflexivity|]. split; [apply names_loc; vm_compute; reflexivity|]. split.
  { apply fd_next with (d' := [bs "w"; bs "nowhere"; bs "a"; bs "x.proto"]); [|vm_compute; reflexivity|].
    - right. split; [discriminate|]. exists [bs "w"; bs "nowhere"]. split; [apply names_loc|apply leads_walk]; vm_compute; reflexivity.
    - apply fd_here; [|vm_compute; reflexivity]. right. split; [discriminate|]. exists [bs "w"]. split; [apply names_loc|apply leads_walk]; vm_compute; reflexivity. }
  split; [vm_compute; reflexivity|]. split; [vm_compute; reflexivity|]. split; [apply names_loc; vm_compute; reflexivity|].
  split; [apply (gf_proto (bs "x"))|]. split; [apply names_loc; vm_compute; reflexivity|]. split.
  - left. split; [intros q Q; vm_compute in Q; discriminate|]. apply leads_walk. vm_compute. reflexivity.
  - apply names_loc. vm_compute. reflexivity.
Qed.
Example C68_ex_source : gen_one ex_wd ex_stat ex_option cl_source (bs "a.proto") = Some (bs "/w/a.proto", bs "/w/a.pb.go") /\
  GenPathType (cl_opt cl_source) = GenBySourceRelative /\ names [] (bs "/w/a.proto") (ex_W ++ [] ++ [bs "a.proto"]) /\
  maps (bs "Ma//x.proto=ex.org/q;q") (bs "./a/x.proto") (bs "ex.org/q;q").
Proof.
  split; [vm_compute; reflexivity|]. split; [vm_compute; reflexivity|]. split; [apply names_loc; vm_compute; reflexivity|].
  exists (bs "a//x.proto"). split; [reflexivity|]. split; [|vm_compute; reflexivity]. cbn. intro I. repeat (destruct I as [I|I]; [discriminate|]). destruct I.
Qed.
