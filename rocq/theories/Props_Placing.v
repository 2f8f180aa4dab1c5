(** C89: the comments and directives of a file go to the objects that its definitions become. *)
From Coq Require Import List Arith Bool ZArith Lia Strings.String Init.Byte.
From Verif Require Import Base GoStr Comments Directive Atn LexFile ParserNames Parser ParserSpec SpellSpec Listen Walk WalkFile Props_Lex Props_Parser Props_Walk FileComments FileCommentSpec
  FileCommentProofs Props_FileComment Props_Compile CompileText CompileTextSpec Placing PlacingSpec PlacingProofs Props_CompileText.
Import ListNotations StringSyntax.
Open Scope nat_scope.
Local Opaque lex_file parse ParserSpec.rule events calls parser_tokens walk_file file_stream slots run.

Lemma slot_eqb_ok a b : slot_eqb a b = true <-> a = b.
Proof.
  destruct a, b; cbn; try (split; congruence); rewrite ?andb_true_iff, ?Nat.eqb_eq; try (split; [intros [-> ->]; reflexivity|intro H; injection H as -> ->; now split]);
    (split; [now intros ->|congruence]).
Qed.
Lemma comment_at_in l s c : NoDup (map fst l) -> In (s, c) l -> comment_at l s = c.
Proof.
  unfold comment_at. induction l as [|[a d] l IH]; [intros _ []|]. cbn [map fst find]. intros ND [J|J].
  - injection J as -> ->. now rewrite (proj2 (slot_eqb_ok s s) eq_refl).
  - inversion ND as [|x y Nx Ny]; subst. destruct (slot_eqb a s) eqn:E; [|now apply IH].
    apply slot_eqb_ok in E. subst a. destruct Nx. change s with (fst (s, c)). now apply in_map.
Qed.
Lemma same_filter (b : event -> bool) : (forall e, b e = true <-> documented e) -> forall l, filter b l = filter asks l.
Proof.
  intro H. induction l as [|e l IH]; [reflexivity|]. cbn. rewrite IH. pose proof (H e) as A. pose proof (asks_documented e) as B.
  destruct (b e), (asks e); try reflexivity; exfalso; intuition discriminate.
Qed.
Lemma nth_combine {A B} (a : list A) : forall (b : list B) k x y, nth_error a k = Some x -> nth_error b k = Some y -> nth_error (combine a b) k = Some (x, y).
Proof. induction a as [|z a IH]; intros [|w b] [|k] x y; cbn; try discriminate; [congruence|apply IH]. Qed.
Lemma filter_map_fst {A} (b : event -> bool) (l : list (event * A)) : map fst (filter (fun c => b (fst c)) l) = filter b (map fst l).
Proof. induction l as [|[e x] l IH]; [reflexivity|]. cbn. destruct (b e); cbn; now rewrite IH. Qed.
Lemma nth_filter (b : event -> bool) a e c : b e = true -> nth_error (filter b (a ++ e :: c)) (started b a) = Some e.
Proof.
  intro H. unfold started. rewrite filter_app. cbn [filter]. rewrite H. rewrite nth_error_app2, Nat.sub_diag by lia. reflexivity.
Qed.

Lemma walk_length ts ds : forall u, List.length (fst (walk ts u ds)) = List.length ds.
Proof.
  induction ds as [|d ds IH]; intro u; [reflexivity|]. cbn [walk]. destruct (def_comments ts u d) as [c u1].
  specialize (IH u1). destruct (walk ts u1 ds). cbn in *. now rewrite IH.
Qed.
Lemma got_events o data x got fc evs : parse_file o data = OK [x] [] -> file_comments_of o data = Some (got, fc) -> events r_proto x = Some evs ->
  map fst got = filter asks evs.
Proof.
  intros Ep Eg Ev. unfold file_comments_of in Eg. rewrite Ep in Eg. destruct (lex_file data) as [items|]; [|discriminate Eg].
  pose proof (calls_events x r_proto) as Ce. rewrite Ev in Ce. destruct (calls r_proto x) as [cs|]; [|discriminate Ce]. cbn [option_map] in Ce.
  injection Ce as Ce. cbv zeta in Eg. unfold file_comments in Eg. set (ds := map (fun c => def_at items (snd c)) (asking cs)) in Eg.
  pose proof (walk_length (file_stream items) ds []) as W. destruct (walk (file_stream items) [] ds) as [gs u]. injection Eg as <- _. cbn [fst] in W.
  unfold ds in W. rewrite map_length in W.
  destruct (combine_fst (map fst (asking cs)) gs) as [-> _]; [now rewrite map_length|]. unfold asking. rewrite filter_map_fst. now rewrite Ce.
Qed.
Lemma load_run o data x st evs : parse_file o data = OK [x] [] -> events r_proto x = Some evs -> load_file o data = Some (LOk st) -> run state0 evs = LOk st.
Proof. intros Ep Ev H. unfold load_file in H. rewrite Ep in H. unfold load_tree in H. rewrite Ev in H. injection H as H. exact H. Qed.
Lemma parsed o data r : load_file o data = Some r -> exists items x f got fc, lex_file data = Some items /\ parse_file o data = OK [x] [] /\ file_is f (parser_tokens 0 items) /\ file_comments_of o data = Some (got, fc) /\ events r_proto x = Some (walk_file f).
Proof.
  intro H. destruct (C85_file _ _ _ H) as (items & x & _ & got & fc & _ & El & Ep & _ & Eg & _).
  destruct (file_items data) as (l0 & El' & G). destruct (parser_tokens_ok l0 0 G) as (EL & Lx & _ & _). rewrite El in El'. injection El' as ->.
  pose proof Ep as Ep'. unfold parse_file in Ep'. rewrite El in Ep'. destruct (parse_all _ _ _ _ EL Ep') as (_ & x' & Ex & Dx). injection Ex as <-.
  destruct (C81_walk _ _ Dx Lx) as (f & Fi & Ev). exists (l0 ++ [eof_token]), x, f, got, fc. now repeat split.
Qed.

(** Of a loaded file, every object is listed once, with comments, and nothing else is.  [pre], [e] and [post]: the
    definition [e] in the text of the file, between other things.  It becomes an object of its kind with the name and
    number that are written in it, in the message, enum or service that it is written in, and the comments of the
    object are those of the definition (C85).  Of two messages, or of two fields of a message, and so on, the first
    in the text is the first in the schema. *)
Theorem C89_placed : forall o data st, load_file o data = Some (LOk st) ->
  exists items f got fc l, lex_file data = Some items /\ file_is f (parser_tokens 0 items) /\
    file_comments_of o data = Some (got, fc) /\ placed o data = Some (l, fc) /\
    map snd l = map snd got /\ NoDup (map fst l) /\ (forall s, In s (map fst l) <-> object st s <> None) /\ ForallOrdPairs follows (map fst l) /\
    forall b, (forall e, b e = true <-> documented e) ->
    map fst got = filter b (walk_file f) /\
    forall pre e post, walk_file f = pre ++ e :: post -> documented e ->
    exists s c, nth_error got (started b pre) = Some (e, c) /\ nth_error l (started b pre) = Some (s, c) /\ comment_at l s = c /\
      becomes e s /\ belongs pre s /\ object st s = written e.
Proof.
  intros o data st H. destruct (parsed _ _ _ H) as (items & x & f & got & fc & El & Ep & Fi & Eg & Ev).
  pose proof (load_run _ _ _ _ _ Ep Ev H) as R.
  destruct (slots_ok _ _ _ _ frame0 R) as (L & ND & FO & _ & _ & Exi & Pl).
  pose proof (got_events _ _ _ _ _ _ Ep Eg Ev) as Gf.
  assert (Ln : List.length (slots state0 (walk_file f)) = List.length (map snd got)).
  { rewrite L. unfold started. rewrite <- Gf. now rewrite !map_length. }
  destruct (combine_fst _ _ Ln) as (Cf & Cs).
  exists items, f, got, fc, (combine (slots state0 (walk_file f)) (map snd got)).
  split; [exact El|]. split; [exact Fi|]. split; [exact Eg|].
  split; [unfold placed; now rewrite Ep, Eg, Ev|]. rewrite Cf, Cs. split; [reflexivity|]. split; [exact ND|]. split; [|split; [exact FO|]].
  - intro s. rewrite Exi. split; [now right|]. intros [Q|Q]; [|exact Q]. destruct Q. destruct s as [i|i k|i|i k|i|i k]; destruct i; reflexivity.
  - intros b Hb. rewrite (same_filter _ Hb). split; [exact Gf|]. intros pre e post E De. apply asks_documented in De.
    destruct (Pl pre e post E De) as (s & P1 & P2 & P3 & P4 & _).
    assert (Sb : started b pre = started asks pre) by (unfold started; now rewrite (same_filter _ Hb)). rewrite Sb.
    pose proof (nth_filter asks pre e post De) as Ne. rewrite <- E, <- Gf, nth_error_map in Ne.
    destruct (nth_error got (started asks pre)) as [[e' c]|] eqn:Ng; [|discriminate Ne]. cbn in Ne. injection Ne as ->.
    assert (Nl : nth_error (combine (slots state0 (walk_file f)) (map snd got)) (started asks pre) = Some (s, c)).
    { apply nth_combine; [exact P1|]. now rewrite nth_error_map, Ng. }
    exists s, c. split; [reflexivity|]. split; [exact Nl|]. split; [|now repeat split].
    apply comment_at_in; [now rewrite Cf|]. eapply nth_error_In, Nl.
Qed.
Print Assumptions C89_placed.

(** The other way round: every object comes from a definition, whose comments it has. *)
Theorem C89_object : forall o data st s, load_file o data = Some (LOk st) -> object st s <> None ->
  exists got fc l e c, file_comments_of o data = Some (got, fc) /\ placed o data = Some (l, fc) /\ In (e, c) got /\ comment_at l s = c /\
    becomes e s /\ object st s = written e.
Proof.
  intros o data st s H N. destruct (C89_placed _ _ _ H) as (items & f & got & fc & l & _ & _ & Eg & Epl & Sn & ND & Ex & _ & Pl).
  destruct (Pl asks asks_documented) as (Gf & Pl'). clear Pl. apply Ex in N. apply in_map_iff in N as ([s' c] & Q & J). cbn in Q. subst s'.
  apply In_nth_error in J as (k & Nk).
  assert (Split : forall (evs : list event) k, k < started asks evs -> exists pre e post, evs = pre ++ e :: post /\ asks e = true /\ started asks pre = k).
  { clear. induction evs as [|e evs IH]; intros k L; [now inversion L|]. unfold started in L; cbn [filter] in L. destruct (asks e) eqn:A.
    - destruct k as [|k]; [exists [], e, evs; now repeat split|]. cbn [List.length] in L. destruct (IH k) as (pre & d & post & -> & D & S0); [unfold started; lia|].
      exists (e :: pre), d, post. repeat split; auto. unfold started in *; cbn [filter]. rewrite A. cbn. now rewrite S0.
    - destruct (IH k L) as (pre & d & post & -> & D & S0). exists (e :: pre), d, post. repeat split; auto. unfold started in *; cbn [filter]. now rewrite A. }
  assert (Lk : k < started asks (walk_file f)).
  { unfold started. rewrite <- Gf, map_length. apply nth_error_Some. intro Q.
    assert (Kl : k < List.length l) by (apply nth_error_Some; congruence).
    assert (LL : List.length l <= List.length got).
    { rewrite <- (map_length snd l), Sn, map_length. lia. }
    apply nth_error_None in Q. lia. }
  destruct (Split _ _ Lk) as (pre & e & post & E & A & <-). apply asks_documented in A.
  destruct (Pl' pre e post E A) as (s2 & c2 & P1 & P2 & P3 & P4 & P5 & P6). rewrite Nk in P2. injection P2 as <- <-.
  exists got, fc, l, e, c. repeat split; auto. eapply nth_error_In, P1.
Qed.
Print Assumptions C89_object.

(** The comments and directives that the generator finds in the objects are those of the definitions: for them the
    theorems of C86 hold. *)
Theorem C89_given : forall o data imports fuel F, accepted o data imports fuel F ->
  (forall p got fc q n c, file_comments_of (o p) (data p) = Some (got, fc) -> In (EnterEnumDef q n, c) got -> ~ In x25 (c_inline c)) ->
  comments_given o data (extras_of o data F).
Proof.
  intros o data imports fuel F Ac NP.
  assert (Ld : forall p, load_file (o p) (data p) = Some (LOk (F p))) by (intro p; apply Ac).
  assert (K : forall p s, comments_at o data p s = mkComments [] [] \/
    exists got fc e, file_comments_of (o p) (data p) = Some (got, fc) /\ In (e, comments_at o data p s) got /\ becomes e s).
  { intros p s. destruct (object (F p) s) as [k|] eqn:Eo.
    - right. destruct (C89_object _ _ _ s (Ld p)) as (got & fc & l & e & c & Eg & Epl & J & Ec & B & _); [congruence|].
      exists got, fc, e. unfold comments_at. rewrite Epl, Ec. split; [exact Eg|]. split; [exact J|exact B].
    - left. destruct (C89_placed _ _ _ (Ld p)) as (_ & _ & _ & fc & l & _ & _ & _ & Epl & _ & _ & Ex & _). unfold comments_at. rewrite Epl. unfold comment_at.
      destruct (find _ l) as [[s' c]|] eqn:Ef; [|reflexivity]. apply find_some in Ef as (J & Q). cbn in Q. apply slot_eqb_ok in Q. subst s'.
      exfalso. apply (proj1 (Ex s)); [|exact Eo]. change s with (fst (s, c)). now apply in_map. }
  assert (W : forall p s, of_file (o p) (data p) (comments_at o data p s)).
  { intros p s. destruct (K p s) as [Q|(got & fc & e & Eg & J & _)]; [left; exact Q|right; exists got, fc, e; split; [exact Eg|exact J]]. }
  split; intros; cbn [extras_of x_msg x_field x_enum x_value]; try apply W. split; [apply W|].
  destruct (K p (SEnum j)) as [->|(got & fc & e & Eg & J & B)]; [intros []|]. destruct e; try destruct B. exact (NP _ _ _ _ _ _ Eg J).
Qed.
Print Assumptions C89_given.

(** The directives of an object are read from its own comments. *)
Lemma index_of : forall l k x, nth_error l k = Some x -> NoDup (map fl_num l) -> field_index (fl_num x) l = k.
Proof.
  induction l as [|y l IH]; intros [|k] x E ND; cbn in *; try discriminate.
  - injection E as ->. now rewrite Z.eqb_refl.
  - inversion ND as [|a b Na Nb]; subst. destruct (fl_num y =? fl_num x)%Z eqn:Q; [|f_equal; now apply IH].
    apply Z.eqb_eq in Q. destruct Na. rewrite Q. apply in_map. eapply nth_error_In, E.
Qed.
Theorem C89_directives : forall o data imports fuel F, accepted o data imports fuel F ->
  let E := extras_of o data F in
  forall p, (exists got fc, file_comments_of (o p) (data p) = Some (got, fc) /\ x_file_dirs E p = file_directives fc) /\
    (forall i, x_msg_dirs E p i = def_directives (x_msg E p i)) /\
    (forall i m k x, nth_error (l_msgs (F p)) i = Some m -> nth_error (mr_fields m) k = Some x -> NoDup (map fl_num (mr_fields m)) ->
       x_field_dirs E p i x = def_directives (x_field E p i k)) /\
    (forall j, x_enum_dirs E p j = def_directives (x_enum E p j)) /\
    (forall j k, x_value_dirs E p j k = def_directives (x_value E p j k)).
Proof.
  intros o data imports fuel F Ac E p. destruct (C89_placed _ _ _ (ac_loads _ _ _ _ _ Ac p)) as (_ & _ & got & fc & l & _ & _ & Eg & Epl & _).
  split; [exists got, fc; split; [exact Eg|]; cbn; now rewrite Epl|]. repeat split.
  intros i m k x Em Ex ND. cbn [E extras_of x_field_dirs x_field]. rewrite Em. now rewrite (index_of _ _ _ Ex ND).
Qed.
Print Assumptions C89_directives.

(** ** Example: a field behind a nested message, an enum, a service *)
Definition pl_data : bytes :=
  bs "syntax='proto3';message M{" ++ x0a :: bs "//n" ++ x0a :: bs "message N{bool c=1;//c" ++ x0a :: bs "}" ++ x0a :: bs "//d" ++ x0a :: bs "bool d=2;}" ++
  x0a :: bs "//e" ++ x0a :: bs "enum E{A=0;//a" ++ x0a :: bs "}service S{" ++ x0a :: bs "//r" ++ x0a :: bs "rpc R(M)returns(M);}".
Definition placed_quick (data : bytes) : option (list (slot * comments) * bytes) :=
  match quick data with
  | Some items =>
      match parse predict (parser_tokens 0 items), comments_quick data with
      | OK (x :: _) _, Some (got, fc) =>
          match events r_proto x with Some evs => Some (combine (slots state0 evs) (map snd got), fc) | None => None end
      | _, _ => None
      end
  | None => None
  end.
Lemma placed_quick_ok data : placed_quick data = placed predict data.
Proof.
  unfold placed_quick, placed. rewrite comments_quick_ok. unfold parse_file. rewrite lex_file_quick. destruct (quick data) as [items|]; [|reflexivity].
  destruct (parse predict (parser_tokens 0 items)) as [[|x l] rest| |]; reflexivity.
Qed.
Example C89_ex : (exists st, load_file predict pl_data = Some (LOk st) /\ object st (SField 0 0) = Some (bs "d", Some 2%Z) /\ object st (SField 1 0) = Some (bs "c", Some 1%Z)) /\
  placed predict pl_data = Some
    ([(SMsg 0, mkComments [] []); (SMsg 1, mkComments (bs "//n") []); (SField 1 0, mkComments [] (bs "//c")); (SField 0 0, mkComments (bs "//d") []);
      (SEnum 0, mkComments (bs "//e") []); (SValue 0 0, mkComments [] (bs "//a")); (SService 0, mkComments [] []); (SMethod 0 0, mkComments (bs "//r") [])], []).
Proof.
  split.
  - eexists. split; [rewrite <- Props_Walk.loaded_quick_ok; with_strategy transparent [parse load_tree events parser_tokens lex_file run] (vm_compute; reflexivity)|].
    split; reflexivity.
  - rewrite <- placed_quick_ok. vm_compute. reflexivity.
Qed.
(** C89_given on the files of C86_ex *)
Example C89_ex_given : comments_given (fun _ => predict) ct_data (extras_of (fun _ => predict) ct_data ct_st).
Proof.
  apply (C89_given _ _ _ _ _ ct_accepted). intros p got fc q n c Eg J.
  assert (K : Forall (fun x => c_inline (snd x) = []) got).
  { destruct p as [|p]; rewrite <- comments_quick_ok in Eg; vm_compute in Eg; injection Eg as <- <-; repeat constructor. }
  rewrite Forall_forall in K. specialize (K _ J). cbn [snd] in K. rewrite K. intros [].
Qed.
