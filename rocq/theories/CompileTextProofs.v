(** What ProtoGen is given for an accepted file is well-formed. *)
From Coq Require Import List Arith Bool ZArith Lia Strings.String Init.Byte.
From Verif Require Import Base Value GoStr StrFacts GenField GenNames GenSpec NameSpec NameProofs ConflictProofs Scope Verify StrLit Listen ListenSpec ListenProofs.
From Verif Require Import VerifySpec VerifyProofs ScopeProofs Props_Verify.
From Verif Require Import LexFile ParserNames Parser ParserSpec SpellSpec Walk WalkProofs WalkFile Props_Listen Props_Parser WalkDefs Props_Walk Compile CompileSpec CompileProofs CompileMsgs.
From Verif Require Import GenEnum GenGetter GenImport ImportSpec Comments GenText GoScan GoSyntax TextSpec GoScanProofs GenTextProofs CompileText CompileTextSpec Props_Compile.
Import ListNotations StringSyntax.
Local Open Scope string_scope.
Local Open Scope list_scope.
Open Scope nat_scope.
#[local] Opaque lex_file parse load_tree events parser_tokens rule.

(* ---------- words ---------- *)
Lemma char_word c : ident_char c -> word_char c = true.
Proof.
  assert (G : forall c, ident_charb c = true -> word_char c = true) by (clear; intros c; destruct c; intros H; first [reflexivity|discriminate H]).
  intros H. apply G. unfold ident_charb. destruct H as [H|[H|[H|H]]]; rewrite ?H; rewrite ?orb_true_r; try reflexivity.
Qed.
Lemma chars_word s : Forall ident_char s -> forallb word_char s = true.
Proof. intros H. apply forallb_forall. rewrite Forall_forall in H. intros c J. now apply char_word, H. Qed.
Lemma proto_word s : proto_name s -> forallb word_char s = true.
Proof. intros H. apply chars_word. now apply proto_ident. Qed.
Lemma upper_keyword s : (exists c r, s = c :: r /\ is_upper c = true) -> is_in keywords s = false.
Proof.
  intros (c & r & -> & U). destruct (is_in keywords (c :: r)) eqn:E; [|reflexivity]. exfalso. unfold is_in in E. apply existsb_exists in E as (k & K & E).
  assert (W : forallb (fun k => match k with c :: _ => negb (is_upper c) | [] => true end) keywords = true) by (vm_compute; reflexivity).
  rewrite forallb_forall in W. specialize (W _ K). destruct (str_eqb_spec (c :: r) k) as [<-|]; [|destruct (str_eqb_spec k (c :: r)) as [->|]; [|discriminate E]];
    cbn in W; rewrite U in W; discriminate W.
Qed.
Lemma upper_letter c : is_upper c = true -> GoScan.letter c = true.
Proof. destruct c; intros H; first [reflexivity|discriminate H]. Qed.
Lemma exported_word s : exported s -> go_word s = true.
Proof.
  intros (c & r & -> & U & R). unfold go_word. rewrite (upper_letter _ U). cbn [andb]. rewrite (upper_keyword (c :: r)) by eauto.
  rewrite chars_word; [reflexivity|]. constructor; [|exact R]. unfold ident_char. auto.
Qed.
Lemma exported_app s t : exported s -> Forall ident_char t -> exported (s ++ t).
Proof. intros (c & r & -> & U & R) H. exists c, (r ++ t). split; [reflexivity|]. split; [exact U|]. apply Forall_app. auto. Qed.
Lemma exported_chars s : exported s -> Forall ident_char s.
Proof. intros (c & r & -> & U & R). constructor; [|exact R]. unfold ident_char. auto. Qed.
Lemma underscore_char : ident_char x5f.
Proof. unfold ident_char. auto. Qed.
Lemma underscores k : Forall ident_char (repeat x5f k).
Proof. apply Forall_forall. intros c J. apply repeat_spec in J as ->. exact underscore_char. Qed.
Lemma underscored_exported s t : exported s -> underscored s t -> exported t.
Proof. intros H [k ->]. apply exported_app; [exact H|apply underscores]. Qed.
Lemma camel_name s : proto_name s -> exported (GoCamelCase s).
Proof. intros H. apply camel_exported. exists [s]. split; [discriminate|]. split; [now constructor|reflexivity]. Qed.
Lemma joined_exported a b : exported a -> Forall ident_char b -> exported (a ++ bs "_" ++ b).
Proof. intros A B. apply exported_app; [exact A|]. change (bs "_" ++ b) with (x5f :: b). constructor; [exact underscore_char|exact B]. Qed.

(* ---------- the objects of a file ---------- *)
Lemma opened o data st : load_file o data = Some (LOk st) -> exists f t w, load f = LOk st /\ SpellSpec.file_is f w /\ lexed w /\ file_means f t /\ shows_file st t.
Proof.
  destruct (file_tokens data) as (items & El & EL & Lx & WT & IO). unfold load_file, parse_file. rewrite El.
  destruct (parse o (parser_tokens 0 items)) as [fo rest| |] eqn:Ep; [|intros H; discriminate H|intros H; discriminate H].
  destruct (parse_all _ _ _ _ EL Ep) as (_ & x & -> & Dx). destruct (file_of _ _ Dx Lx) as (f & Ff & Ev).
  intros H. assert (Er : load_tree x = LOk st) by (injection H as H; exact H). rewrite (load_walk _ _ Ev) in Er.
  pose proof (C72_mirror f (spelled_parsed _ _ Ff IO WT)) as M. rewrite Er in M. destruct M as (t & Mt & St).
  exists f, t, (parser_tokens 0 items). split; [exact Er|]. split; [exact Ff|]. split; [exact Lx|]. split; [exact Mt|exact St].
Qed.
(** The parents *)
Record parents (st : state) : Prop := {
  pa_top : forall i, In i (p_msgs st) -> exists m, nth_error (l_msgs st) i = Some m /\ mr_parent m = None;
  pa_top_enum : forall j, In j (p_enums st) -> exists e, nth_error (l_enums st) j = Some e /\ er_parent e = None;
  pa_in : forall i m k, nth_error (l_msgs st) i = Some m -> In k (mr_msgs m) -> exists n, nth_error (l_msgs st) k = Some n /\ mr_parent n = Some i;
  pa_in_enum : forall i m j, nth_error (l_msgs st) i = Some m -> In j (mr_enums m) -> exists e, nth_error (l_enums st) j = Some e /\ er_parent e = Some i
}.
Lemma loaded_parents o data st : load_file o data = Some (LOk st) -> parents st.
Proof.
  intros H. destruct (opened _ _ _ H) as (f & t & w & Lf & Ff & L & Mt & St). destruct (load_reached _ _ Lf) as [Rm _].
  assert (W : forall i m, nth_error (l_msgs st) i = Some m -> written st i).
  { intros i m E. eapply reached_written; [exact Ff|exact L|exact Mt|exact St|]. apply Rm. now apply nth_error_lt in E. }
  destruct St as (_ & _ & _ & _ & Sm & Se & _). split.
  - intros i J. destruct (Forall2_l _ _ _ _ Sm J) as (u & _ & Sh). inversion Sh; subst. eauto.
  - intros j J. destruct (Forall2_l _ _ _ _ Se J) as (u & _ & Sh). unfold shows_enum in Sh. eauto.
  - intros i m k E J. destruct (W _ _ E) as (p & n & l & u & v & _ & Sh & _). inversion Sh as [p' i' n' fs os es ms oo rr ei mi En Se' Sm']; subst.
    rewrite En in E. injection E as <-. cbn [mr_msgs] in J. destruct (Forall2_l _ _ _ _ Sm' J) as (u & _ & Sh'). inversion Sh'; subst. eauto.
  - intros i m k E J. destruct (W _ _ E) as (p & n & l & u & v & _ & Sh & _). inversion Sh as [p' i' n' fs os es ms oo rr ei mi En Se' Sm']; subst.
    rewrite En in E. injection E as <-. cbn [mr_enums] in J. destruct (Forall2_l _ _ _ _ Se' J) as (u & _ & Sh'). unfold shows_enum in Sh'. eauto.
Qed.

(** The enums *)
Record sound_enum (e : erec) : Prop := {
  se_name : proto_name (er_name e);
  se_values : Forall (fun x => proto_name (ef_name x) /\ (- 2^31 <= ef_value x < 2^31)%Z) (er_fields e)
}.
Lemma int_range lit v : UnmarshalI32 lit = Some v -> (0 <= v < 2^31)%Z.
Proof.
  assert (P : forall b s, parse_digits b s = Some v -> (0 <= v < 2^31)%Z).
  { intros b s. unfold parse_digits. destruct s; [discriminate|]. destruct (base_value b 0 (_ :: _)) as [n|]; [|discriminate].
    destruct (N.ltb_spec n (2^31)); [|discriminate]. intro E. injection E as <-. lia. }
  unfold UnmarshalI32. intro H. destruct lit as [|c [|x r]]; try (eapply P; exact H).
  - destruct c; eapply P; exact H.
  - destruct c; try (eapply P; exact H). destruct (beqb x x78 || beqb x x58); eapply P; exact H.
Qed.
Lemma enum_sound s t w st p j e : enum_is s w -> lexed w -> enum_means s t -> shows_enum st p j t -> nth_error (l_enums st) j = Some e -> sound_enum e.
Proof.
  intros Hs L (Mn & Mf & _) Sh E. unfold shows_enum in Sh. rewrite Sh in E. injection E as <-.
  unfold enum_is in Hs. cbn [spell] in Hs. destruct Hs as (a1 & b1 & -> & _ & a2 & b2 & -> & Hn & a3 & b3 & -> & _ & a4 & b4 & -> & Sv & _).
  split; cbn [er_name er_fields].
  - rewrite Mn. eapply (name_proto r_enumName); [with_strategy transparent [rule] reflexivity|exact Hn|]. exact (lexed_l _ _ (lexed_r _ _ L)).
  - apply Forall_forall. intros x J. destruct (Forall2_r _ _ _ _ Mf J) as ((((n & neg) & lit) & oo) & Jx & Mx).
    cbn [enumfield_means] in Mx. destruct Mx as (-> & (v & Ev & Vx) & _).
    unfold enum_fields in Jx. apply in_flat_map in Jx as (y & Jy & Hy). destruct y as [?|n' neg' lit' oo'|?|]; cbn in Hy; try (destruct Hy; fail).
    destruct Hy as [Hy|[]]. injection Hy as -> -> -> ->.
    destruct (several_in _ _ _ _ Sv (lexed_l _ _ (lexed_r _ _ (lexed_r _ _ (lexed_r _ _ L)))) Jy) as (u & Hu & Lu).
    cbn [enum_elem_is spell] in Hu. destruct Hu as (c1 & d1 & -> & Hi & _). split; [eapply named_proto; [exact Hi|eapply lexed_l, Lu]|].
    pose proof (int_range _ _ Ev) as B. rewrite Vx. destruct neg; lia.
Qed.
Lemma msg_enums_in d e : In e (msg_enums d) -> In (SmEnum e) d.
Proof. unfold msg_enums. rewrite in_flat_map. intros (x & J & H). destruct x; cbn in H; first [destruct H as [H|[]]; subst; exact J|destruct H]. Qed.
Lemma file_enums_in d e : In e (file_enums d) -> In (StEnum e) d.
Proof. unfold file_enums. rewrite in_flat_map. intros (x & J & H). destruct x; cbn in H; first [destruct H as [H|[]]; subst; exact J|destruct H]. Qed.
Lemma loaded_enums o data st j e : load_file o data = Some (LOk st) -> nth_error (l_enums st) j = Some e -> sound_enum e.
Proof.
  intros H E. destruct (opened _ _ _ H) as (f & t & w & Lf & Ff & L & Mt & St). destruct (load_reached _ _ Lf) as [_ Re].
  destruct (Re j (nth_error_lt _ _ _ E)) as [J|(i & m & R & Em & J)].
  - destruct Mt as (_ & _ & _ & _ & _ & Me & _). destruct St as (_ & _ & _ & _ & _ & Se & _).
    destruct (Forall2_l _ _ _ _ Se J) as (u & Iu & Sh). destruct (Forall2_r _ _ _ _ Me Iu) as (s & Is & Ms). apply file_enums_in in Is.
    unfold file_is in Ff. cbn [spell] in Ff. destruct Ff as (a1 & b1 & -> & _ & a2 & b2 & -> & Sv & _).
    destruct (several_in _ _ _ _ Sv (lexed_l _ _ (lexed_r _ _ L)) Is) as (v & Hv & Lv). eapply enum_sound; eauto.
  - destruct (reached_written _ _ _ _ _ Ff L Mt St R) as (p & n & l & u & v & _ & Sh & Me & El & Lv).
    inversion Sh as [p' i' n' fs os es ms oo rr ei mi En Se Sm E1 E2 E3]; subst. rewrite En in Em. injection Em as <-. cbn [mr_enums] in J.
    inversion Me as [n0 l0 fs0 os0 es0 ms0 oo0 rr0 M1 M2 M3 M4 M5 M6]; subst.
    destruct (Forall2_l _ _ _ _ Se J) as (y & Iy & Sy). destruct (Forall2_r _ _ _ _ M3 Iy) as (s & Is & Ms). apply msg_enums_in in Is.
    destruct (elems_in _ _ _ El Lv Is) as (z & Hz & Lz). inversion Hz as [| | |e0 w0 He| | | | | | |]; subst. eapply enum_sound; eauto.
Qed.

(* ---------- what the generator is given ---------- *)
Lemma all_build {A B} (f : A -> option B) (P : A -> B -> Prop) l : (forall x, In x l -> exists y, f x = Some y /\ P x y) ->
  exists r, Verify.all f l = Some r /\ Forall2 P l r.
Proof.
  induction l as [|x l IH]; intros H; [exists []; split; [reflexivity|constructor]|]. cbn [Verify.all].
  destruct (H x (or_introl eq_refl)) as (y & -> & Py). destruct IH as (r & -> & Fr); [intros z J; apply H; now right|]. exists (y :: r). split; [reflexivity|now constructor].
Qed.
Lemma map_combine_snd {A B} (f : A -> B) (l : list A) : forall k, map (fun kx => f (snd kx)) (combine (seq k (length l)) l) = map f l.
Proof. induction l as [|x l IH]; intros k; [reflexivity|]. cbn. now rewrite IH. Qed.

Section Given.
Variables (o : nat -> oracle) (data : nat -> bytes) (F : nat -> state) (imports : nat -> list (bool * nat)) (fuel : nat).
Variable E : extras.
Variable go_import : nat -> bytes.
Hypothesis Ac : accepted o data imports fuel F.
Let Ld p : load_file (o p) (data p) = Some (LOk (F p)) := ac_loads _ _ _ _ _ Ac p.
Let Pa p : parents (F p) := loaded_parents _ _ _ (Ld p).
Lemma later p : in_lists_later (F p).
Proof. destruct (loaded _ _ _ (Ld p)) as ((f & L) & _). exact (load_later _ _ L). Qed.
Lemma reached_all p i m : nth_error (l_msgs (F p)) i = Some m -> reached (F p) i.
Proof. intros H. destruct (C83_reached _ _ _ (Ld p)) as [R _]. apply R. now apply nth_error_lt in H. Qed.
Lemma msg_sound p i m : nth_error (l_msgs (F p)) i = Some m -> sound_msg (p_edition (F p)) m.
Proof. intros H. destruct (loaded _ _ _ (Ld p)) as (_ & S & _). exact (S _ _ H). Qed.
Lemma path_at p i m : nth_error (l_msgs (F p)) i = Some m -> exists q,
  obj_at p (F p) (OMsg p i) q /\ q <> [] /\ Forall proto_name q /\ forall k, i < k -> msg_path F k p i = q.
Proof.
  intros H. pose proof (reached_all _ _ _ H) as R. revert m H. induction R as [i J|j n i R IH En J]; intros m H.
  - destruct (pa_top _ (Pa p) _ J) as (m' & E' & Pm). rewrite E' in H. injection H as ->. exists [mr_name m]. split; [now apply oa_msg|]. split; [discriminate|].
    split; [constructor; [exact (sm_name _ _ (msg_sound _ _ _ E'))|constructor]|]. intros [|k] K; [lia|]. cbn [msg_path]. now rewrite E', Pm.
  - destruct (IH _ En) as (q & Oq & Nq & Fq & Kq). destruct (pa_in _ (Pa p) _ _ _ En J) as (m' & E' & Pm). rewrite E' in H. injection H as ->.
    exists (q ++ [mr_name m]). split; [eapply oa_sub; eauto|]. split; [now destruct q|].
    split; [apply Forall_app; split; [exact Fq|]; constructor; [exact (sm_name _ _ (msg_sound _ _ _ E'))|constructor]|].
    intros [|k] K; [lia|]. cbn [msg_path]. rewrite E', Pm. f_equal. apply Kq. pose proof (later p _ _ En) as L. rewrite Forall_forall in L. specialize (L _ J). lia.
Qed.
Lemma path_of_at p i m : nth_error (l_msgs (F p)) i = Some m ->
  obj_at p (F p) (OMsg p i) (path_of F p i) /\ path_of F p i <> [] /\ Forall proto_name (path_of F p i).
Proof. intros H. destruct (path_at _ _ _ H) as (q & A & B & C & D). unfold path_of. rewrite D; [auto|]. now apply nth_error_lt in H. Qed.
Lemma go_msg_named p i m : nth_error (l_msgs (F p)) i = Some m -> go_named F (OMsg p i) (go_msg F p i).
Proof. intros H. destruct (path_of_at _ _ _ H) as (A & _). exists (path_of F p i). split; [exact A|reflexivity]. Qed.
Lemma go_msg_exported p i m : nth_error (l_msgs (F p)) i = Some m -> exported (go_msg F p i).
Proof. intros H. destruct (path_of_at _ _ _ H) as (_ & B & C). apply camel_exported. exists (path_of F p i). auto. Qed.
Lemma one_name p ob s t : go_named F ob s -> go_named F ob t -> file_of_obj ob = p -> s = t.
Proof.
  intros (q & A & ->) (r & B & ->) <-. f_equal. f_equal. exact (C83_one_path _ _ _ _ (Ld (file_of_obj ob)) _ _ _ A B).
Qed.

(** Enums *)
Lemma enum_parent p j e : nth_error (l_enums (F p)) j = Some e ->
  (In j (p_enums (F p)) /\ er_parent e = None) \/ exists i m, nth_error (l_msgs (F p)) i = Some m /\ In j (mr_enums m) /\ er_parent e = Some i.
Proof.
  intros H. destruct (C83_reached _ _ _ (Ld p)) as [_ R]. destruct (R j (nth_error_lt _ _ _ H)) as [J|(i & m & _ & Em & J)].
  - left. split; [exact J|]. destruct (pa_top_enum _ (Pa p) _ J) as (e' & E' & P). congruence.
  - right. exists i, m. split; [exact Em|]. split; [exact J|]. destruct (pa_in_enum _ (Pa p) _ _ _ Em J) as (e' & E' & P). congruence.
Qed.
Lemma enum_at p j e : nth_error (l_enums (F p)) j = Some e ->
  obj_at p (F p) (OEnum p j) (en_path (enum_of F E p j e)) /\ Forall proto_name (en_path (enum_of F E p j e)).
Proof.
  intros H. pose proof (se_name _ (loaded_enums _ _ _ _ _ (Ld p) H)) as Pn. cbn [enum_of en_path].
  destruct (enum_parent _ _ _ H) as [[J ->]|(i & m & Em & J & ->)].
  - split; [now apply oa_enum|]. cbn [app]. now constructor.
  - destruct (path_of_at _ _ _ Em) as (A & _ & C). split; [eapply oa_sub_enum; eauto|]. apply Forall_app. split; [exact C|now constructor].
Qed.
Lemma enum_named_go p j e : nth_error (l_enums (F p)) j = Some e -> go_named F (OEnum p j) (enum_GoName (enum_of F E p j e)).
Proof. intros H. exists (en_path (enum_of F E p j e)). split; [exact (proj1 (enum_at _ _ _ H))|reflexivity]. Qed.
Lemma enum_exported p j e : nth_error (l_enums (F p)) j = Some e -> exported (enum_GoName (enum_of F E p j e)).
Proof.
  intros H. destruct (enum_at _ _ _ H) as (_ & B). apply camel_exported. exists (en_path (enum_of F E p j e)). split; [|split; [exact B|reflexivity]].
  cbn [enum_of en_path]. destruct (er_parent e); [destruct (path_of F p n)|]; discriminate.
Qed.
Lemma value_in p j e v : In v (values_of E p j e) -> exists x, In x (er_fields e) /\ ev_name v = ef_name x /\ ev_value v = ef_value x.
Proof. unfold values_of. intros H. apply in_map_iff in H as ([k x] & <- & J). apply in_combine_r in J. exists x. auto. Qed.
Lemma value_exported p j e v : nth_error (l_enums (F p)) j = Some e -> In v (values_of E p j e) ->
  exported (value_GoName (enum_of F E p j e) v) /\ proto_name (ev_name v) /\ (- 2^31 <= ev_value v < 2^31)%Z.
Proof.
  intros H J. destruct (value_in _ _ _ _ J) as (x & Jx & En & Ev). pose proof (se_values _ (loaded_enums _ _ _ _ _ (Ld p) H)) as S.
  rewrite Forall_forall in S. destruct (S _ Jx) as [Pn B]. rewrite Ev. rewrite <- En in Pn. split; [|split; [exact Pn|exact B]].
  unfold value_GoName. destruct (genNoPrefix _ v); [now apply camel_name|]. cbn [enum_of en_msg].
  assert (Pc : Forall ident_char (ev_name v)) by now apply proto_ident.
  destruct (enum_parent _ _ _ H) as [[_ ->]|(i & m & Em & _ & ->)]; cbn [option_map]; apply joined_exported; try exact Pc.
  - now apply enum_exported.
  - eapply go_msg_exported, Em.
Qed.
Lemma values_are_of p j e : values_are (values_of E p j e) e.
Proof. unfold values_are, values_of. rewrite map_map. cbn [ev_name ev_value]. apply (map_combine_snd (fun x => (ef_name x, ef_value x))). Qed.

Hypothesis Cg : comments_given o data E.
Hypothesis printed : forall p c, of_file (o p) (data p) c -> comments_ok (both c).
Lemma etext_given p j e : nth_error (l_enums (F p)) j = Some e -> exists t, etext_of F E p j = Some t /\ enum_ok t /\ enum_for F E p j t.
Proof.
  intros H. unfold etext_of. rewrite H. eexists. split; [reflexivity|]. destruct (cg_enum _ _ _ Cg p j) as [Ce Np]. split; split; cbn [et_enum et_head et_inline et_values].
  - now apply exported_word, enum_exported.
  - cbn [enum_of en_values]. apply Forall_forall. intros v J. destruct (value_exported _ _ _ _ H J) as (A & B & C). split; [now apply exported_word|]. split; [now apply proto_word|exact C].
  - exact (printed _ _ Ce).
  - exact Np.
  - intros i. exact (printed _ _ (cg_value _ _ _ Cg p j i)).
  - exists e. split; [exact H|apply values_are_of].
  - now apply enum_named_go.
  - intros i m Em J. destruct (pa_in_enum _ (Pa p) _ _ _ Em J) as (e' & E' & P). rewrite E' in H. injection H as ->. cbn [enum_of en_msg]. rewrite P.
    exists (go_msg F p i). split; [reflexivity|eapply go_msg_named, Em].
  - split; reflexivity.
Qed.

(** Types *)
Hypothesis Im : forall p, Forall path_char (go_import p) /\ go_word (path_Base (go_import p)) = true.
Lemma import_ok p i s : match import_of F imports fuel go_import p i s with Some q => Forall path_char q /\ go_word (path_Base q) = true | None => True end.
Proof.
  unfold import_of. destruct (type_name s) as [dot name]. destruct (if dot then None else _); [exact Logic.I|].
  destruct (find _ _) as [y|]; [|exact Logic.I]. destruct (str_eqb _ _); [exact Logic.I|apply Im].
Qed.
Lemma get_msg_file p name : forall i ob, get_msg F p name i = Some ob -> file_of_obj ob = p.
Proof.
  induction name as [|n rest IH]; intros i ob; [discriminate|]. cbn [get_msg]. destruct (nth_error (l_msgs (F p)) i) as [m|]; [|discriminate].
  destruct (str_eqb (mr_name m) n); [|discriminate]. destruct rest as [|n' rest]; [intro H; now injection H as <-|].
  destruct (enum_named F p (n' :: rest) (mr_enums m)) as [o'|] eqn:Q.
  - intro H. injection H as <-. unfold enum_named in Q. destruct rest; [|discriminate]. apply first_some_sound in Q as (j & _ & Q).
    destruct (nth_error (l_enums (F p)) j); [|discriminate]. destruct (str_eqb _ _); [|discriminate]. now injection Q as <-.
  - intro H. apply first_some_sound in H as (k & _ & H). now apply IH in H.
Qed.
Lemma enum_named_file p name js ob : enum_named F p name js = Some ob -> file_of_obj ob = p.
Proof.
  intros Q. unfold enum_named in Q. destruct name as [|n [|? ?]]; try discriminate. apply first_some_sound in Q as (j & _ & Q).
  destruct (nth_error (l_enums (F p)) j); [|discriminate]. destruct (str_eqb _ _); [|discriminate]. now injection Q as <-.
Qed.
Lemma around_file p name : forall k i ob, search_around F k p i name = Some ob -> file_of_obj ob = p.
Proof.
  induction k as [|k IH]; intros i ob; [discriminate|]. cbn [search_around]. destruct (nth_error (l_msgs (F p)) i) as [m|]; [|discriminate].
  destruct (get_msg F p name i) eqn:A; [intro H; injection H as <-; now apply get_msg_file in A|].
  destruct (enum_named F p name (mr_enums m)) eqn:B; [intro H; injection H as <-; now apply enum_named_file in B|].
  destruct (first_some (get_msg F p name) (mr_msgs m)) eqn:D; [intro H; injection H as <-; apply first_some_sound in D as (j & _ & D); now apply get_msg_file in D|].
  destruct (mr_parent m); [apply IH|discriminate].
Qed.
Lemma file_file p : (forall z, In (true, z) (imports p) -> False) -> forall k name ob, get_file F imports k p name = Some ob -> file_of_obj ob = p.
Proof.
  intros NP. induction k as [|k IH]; intros name ob; [discriminate|]. cbn [get_file].
  destruct (first_some (get_msg F p name) (p_msgs (F p))) eqn:A; [intro H; injection H as <-; apply first_some_sound in A as (i & _ & A); now apply get_msg_file in A|].
  destruct (enum_named F p name (p_enums (F p))) eqn:B; [intro H; injection H as <-; now apply enum_named_file in B|].
  destruct (first_some _ (imports p)) eqn:D.
  { apply first_some_sound in D as ([b q] & J & D). cbn [fst snd] in D. destruct b; [|discriminate]. destruct (NP _ J). }
  destruct (trimPathPrefix name (package F p)); [apply IH|discriminate].
Qed.
Lemma find_first {A B} (f : A -> option B) l y : first_some f l = Some y -> exists x, find (fun x => match f x with Some _ => true | None => false end) l = Some x /\ f x = Some y /\ In x l.
Proof.
  induction l as [|x l IH]; [discriminate|]. cbn [first_some find]. destruct (f x) as [z|] eqn:Ef.
  - intro H. injection H as ->. exists x. split; [reflexivity|]. split; [exact Ef|now left].
  - intro H. destruct (IH H) as (u & A1 & A2 & A3). exists u. split; [exact A1|]. split; [exact A2|now right].
Qed.
Lemma import_found p i s ob : resolve_type F imports fuel true p (Some i) s = FObj ob ->
  (forall y z, y = p \/ In y (map snd (imports p)) -> In (true, z) (imports y) -> False) ->
  (go_import (file_of_obj ob) = go_import p -> import_of F imports fuel go_import p i s = None) /\
  (go_import (file_of_obj ob) <> go_import p -> import_of F imports fuel go_import p i s = Some (go_import (file_of_obj ob))).
Proof.
  intros H NP. unfold resolve_type in H. destruct (scalar_of s); [discriminate|]. unfold import_of. destruct (type_name s) as [dot name].
  destruct (if dot then None else search_around F (length (l_msgs (F p))) p i name) as [o'|] eqn:A.
  - injection H as ->. assert (Ef : file_of_obj ob = p) by (destruct dot; [discriminate|now apply around_file in A]). rewrite Ef. split; [reflexivity|intros N; now destruct N].
  - destruct (first_some (fun x => get_file F imports fuel x name) (searched F imports p dot name)) as [o'|] eqn:D; [|discriminate]. injection H as ->.
    apply find_first in D as (y & Fy & Gy & Iy). rewrite Fy.
    assert (Y : y = p \/ In y (map snd (imports p))).
    { unfold searched in Iy. destruct Iy as [<-|Iy]; [now left|right]. apply in_app_or in Iy as [Iy|Iy].
      - apply in_map_iff in Iy as (z & <- & J). apply filter_In in J as [J _]. now apply in_map.
      - destruct dot; [destruct Iy|]. apply in_map_iff in Iy as (z & <- & J). apply filter_In in J as [J _]. now apply in_map. }
    rewrite (file_file y (fun z J => NP y z Y J) _ _ _ Gy). destruct (str_eqb_spec (go_import y) (go_import p)) as [Ey|Ny]; split; intros Z; congruence.
Qed.
Lemma tyinfo_named p i s ob : resolve_type F imports fuel true p (Some i) s = FObj ob ->
  go_named F ob (ti_name (tyinfo_of F imports fuel E go_import p i s)) /\ exported (ti_name (tyinfo_of F imports fuel E go_import p i s)) /\
  ti_import (tyinfo_of F imports fuel E go_import p i s) = import_of F imports fuel go_import p i s /\
  Forall (fun v => go_word (fst v) = true) (ti_values (tyinfo_of F imports fuel E go_import p i s)) /\
  (forall q j e, ob = OEnum q j -> nth_error (l_enums (F q)) j = Some e -> map snd (ti_values (tyinfo_of F imports fuel E go_import p i s)) = map ef_value (er_fields e)) /\
  (forall q j t, ob = OEnum q j -> etext_of F E q j = Some t -> ti_values (tyinfo_of F imports fuel E go_import p i s) = map (fun v => (value_GoName (et_enum t) v, ev_value v)) (en_values (et_enum t))).
Proof.
  intros H. pose proof (found_valid _ _ _ _ _ _ _ _ H) as V. unfold tyinfo_of. rewrite H. destruct ob as [q j|q j]; cbn [valid] in V.
  - destruct V as (m & Em). cbn [ti_name ti_import ti_values]. split; [eapply go_msg_named, Em|]. split; [eapply go_msg_exported, Em|]. split; [reflexivity|]. split; [constructor|]. split; intros ? ? ? Q; discriminate Q.
  - destruct V as (e & Ee). rewrite Ee. cbn [ti_name ti_import ti_values]. split; [now apply enum_named_go|]. split; [now apply enum_exported|]. split; [reflexivity|]. split.
    + apply Forall_forall. intros y J. apply in_map_iff in J as (v & <- & J). cbn [fst]. apply exported_word. now apply value_exported.
    + split.
      * intros q' j' e' Q Ee'. injection Q as <- <-. rewrite Ee in Ee'. injection Ee' as <-. rewrite map_map. cbn [snd]. unfold values_of. rewrite map_map. cbn [ev_value]. apply (map_combine_snd ef_value).
      * intros q' j' t Q Et. injection Q as <- <-. unfold etext_of in Et. rewrite Ee in Et. injection Et as <-. reflexivity.
Qed.
Lemma tyinfo_import p i s b : ti_import (tyinfo_of F imports fuel E go_import p i s) = Some b -> exists q, b = go_import q.
Proof.
  assert (I : import_of F imports fuel go_import p i s = Some b -> exists q, b = go_import q).
  { unfold import_of. destruct (type_name s) as [dot name]. destruct (if dot then None else _); [discriminate|]. destruct (find _ _) as [y|]; [|discriminate].
    destruct (str_eqb _ _); [discriminate|]. intro H. injection H as <-. eauto. }
  unfold tyinfo_of. destruct (resolve_type _ _ _ _ _ _ _) as [|[q j|q j]|]; try discriminate; [exact I|]. destruct (nth_error _ _); [exact I|discriminate].
Qed.
Notation fd := (x_file_dirs E).
Notation md := (x_msg_dirs E).
Notation xd := (x_field_dirs E).
Lemma field_type p i x f : field_of F imports fuel xd p i x = Some f ->
  pf_name f = fl_name x /\ pf_num f = fl_num x /\ ptype_of (resolve_type F imports fuel true p (Some i) (fl_type x)) = Some (pf_ty f).
Proof. unfold field_of. destruct (ptype_of _) as [t|]; [|discriminate]. destruct (key_of (fl_key x)); [|discriminate]. intro H. injection H as <-. auto. Qed.
Lemma type_given p i x f : field_of F imports fuel xd p i x = Some f -> type_ok (pf_ty f) (tyinfo_of F imports fuel E go_import p i (fl_type x)).
Proof.
  intros H. destruct (field_type _ _ _ _ H) as (_ & _ & T).
  destruct (resolve_type F imports fuel true p (Some i) (fl_type x)) as [s|ob|] eqn:R; cbn [ptype_of] in T; [injection T as <-; exact Logic.I| |discriminate].
  destruct (tyinfo_named _ _ _ _ R) as (_ & X & Ei & Vs & _). pose proof (import_ok p i (fl_type x)) as Io. rewrite <- Ei in Io.
  destruct ob; injection T as <-; (split; [now apply exported_word|split; [exact Io|exact Vs]]).
Qed.
Lemma nested_msg p i m j s : nth_error (l_msgs (F p)) i = Some m -> In j (mr_msgs m) -> go_named F (OMsg p j) s -> In s (nested_names F E p m).
Proof.
  intros Em J G. destruct (pa_in _ (Pa p) _ _ _ Em J) as (n & En & _). apply in_app_iff. left. apply in_map_iff. exists j. split; [|exact J].
  exact (one_name p _ _ _ (go_msg_named _ _ _ En) G eq_refl).
Qed.
Lemma nested_enum p i m j s : nth_error (l_msgs (F p)) i = Some m -> In j (mr_enums m) -> go_named F (OEnum p j) s -> In s (nested_names F E p m).
Proof.
  intros Em J G. destruct (pa_in_enum _ (Pa p) _ _ _ Em J) as (e & Ee & _). apply in_app_iff. right. apply in_flat_map. exists j. split; [exact J|].
  rewrite Ee. left. exact (one_name p _ _ _ (enum_named_go _ _ _ Ee) G eq_refl).
Qed.
Lemma oneof_go_in names k : oneof_GoName names k = [] \/ exists n, In n names /\ rf_oneof n = Some (k, oneof_GoName names k).
Proof.
  induction names as [|n names IH]; [now left|]. cbn [oneof_GoName]. destruct (rf_oneof n) as [[k' g]|] eqn:En.
  - destruct (Nat.eqb_spec k' k) as [->|N]; [right; exists n; split; [now left|exact En]|]. destruct IH as [->|(y & J & Ey)]; [now left|right; exists y; split; [now right|exact Ey]].
  - destruct IH as [->|(y & J & Ey)]; [now left|right; exists y; split; [now right|exact Ey]].
Qed.
Lemma oneof_go_some names k n g : In n names -> rf_oneof n = Some (k, g) -> exists n' g', In n' names /\ rf_oneof n' = Some (k, g') /\ oneof_GoName names k = g'.
Proof.
  induction names as [|y names IH]; intros J En; [destruct J|]. cbn [oneof_GoName]. destruct (rf_oneof y) as [[k' g']|] eqn:Ey.
  - destruct (Nat.eqb_spec k' k) as [->|N]; [exists y, g'; split; [now left|split; [exact Ey|reflexivity]]|].
    destruct J as [->|J]; [rewrite Ey in En; injection En as <- <-; now destruct N|]. destruct (IH J En) as (a & b & A & B & C). exists a, b. split; [now right|auto].
  - destruct J as [->|J]; [congruence|]. destruct (IH J En) as (a & b & A & B & C). exists a, b. split; [now right|auto].
Qed.
Lemma minfo_given p i m : nth_error (l_msgs (F p)) i = Some m ->
  exists x, minfo_of F imports fuel E go_import p i m = Some x /\ info_ok x /\ info_for F imports fuel E go_import p i m x.
Proof.
  intros Em. pose proof (ac_loads _ _ _ _ _ Ac) as Al. pose proof (ac_resolves _ _ _ _ _ Ac) as Ar. pose proof (ac_verifies _ _ _ _ _ Ac) as Av. pose proof (ac_legal _ _ _ _ _ Ac) as Ag.
  destruct (msg_found o data F imports fuel fd md xd Al Ar Av p i m Em) as (fs & Eq & Ff).
  pose proof (msg_legal o data F imports fuel fd md xd Al Ar Av Ag p i m Em) as (y & Ey & Lg). rewrite Eq in Ey. injection Ey as <-.
  pose proof (msg_sound _ _ _ Em) as Sm. pose proof (go_msg_exported _ _ _ Em) as Xg.
  assert (On : forall k, k < length (mr_oneofs m) -> proto_name (nth k (map on_name (mr_oneofs m)) [])).
  { intros k K. pose proof (sm_oneofs _ _ Sm) as S. rewrite Forall_forall in S. apply S, nth_In. now rewrite map_length. }
  destruct (resolve_fields_spec fs GenNames.reserved_names [] (map on_name (mr_oneofs m))) as (names & En & Rd).
  unfold minfo_of. rewrite Eq. unfold resolveFieldConflicts. cbn [pm_fields pm_oneofs]. rewrite En. eexists. split; [reflexivity|].
  pose proof (resolved_names _ _ _ _ _ Rd) as Rn. destruct (resolved_oneofs _ _ _ _ _ Rd) as [Ro Rg].
  assert (Xn : Forall (fun n => exported (rf_go n)) names).
  { apply Forall_forall. intros n J. destruct (Forall2_r _ _ _ _ Rn J) as (f & Jf & U). destruct (Forall2_r _ _ _ _ Ff Jf) as (z & Jz & Fz).
    destruct (field_type _ _ _ _ Fz) as (Nz & _). eapply underscored_exported; [|exact U]. rewrite Nz. apply camel_name. exact (sm_names _ _ Sm _ Jz). }
  assert (One : forall f k, In f fs -> pf_one f = Some k -> k < length (mr_oneofs m)).
  { intros f k J P. pose proof (lm_oneofs _ _ Lg f k J P) as B. cbn [pm_oneofs] in B. now rewrite map_length in B. }
  assert (Xo : forall n k g, In n names -> rf_oneof n = Some (k, g) -> k < length (mr_oneofs m) -> exported g).
  { intros n k g J G K. eapply underscored_exported; [|exact (Rg _ _ _ J G)]. now apply camel_name, On. }
  assert (Wr : forall k n, nth_error names k = Some n -> exists d, wrapper_name (nested_names F E p m) (go_msg F p i) (rf_go n) = Some (go_msg F p i ++ bs "_" ++ rf_go n ++ repeat x5f d) /\
     ~ In (go_msg F p i ++ bs "_" ++ rf_go n ++ repeat x5f d) (nested_names F E p m)).
  { intros k n N. destruct (wrapper_name_spec (nested_names F E p m) (go_msg F p i) (rf_go n)) as (d & A & B & _). eauto. }
  assert (Nn : forall k n, nth_error names k = Some n -> nth k names (mkRF [] None) = n) by (intros k n N; now apply nth_error_nth).
  split; split; cbn [mi_ctx mi_msg mi_go mi_names mi_ti mi_wrap mi_fcom mi_head mi_inline pm_fields pm_oneofs].
  - now apply exported_word.
  - symmetry. exact (Forall2_len _ _ _ Rn).
  - eapply Forall_impl; [|exact Xn]. intros n X. now apply exported_word.
  - intros f k J P. pose proof (One f k J P) as K. rewrite map_length. split; [exact K|]. apply exported_word. unfold oneof_name. cbn [mi_names].
    destruct (Ro f k J P) as [[]|(g & Jg)]. destruct (oneof_go_some names k _ _ Jg eq_refl) as (n' & g' & J' & G' & ->). exact (Xo _ _ _ J' G' K).
  - apply Forall_forall. intros n J. pose proof (sm_oneofs _ _ Sm) as S. rewrite Forall_forall in S. now apply proto_word, S.
  - intros k K. rewrite map_length in K. unfold oneof_field_name, oneof_name. cbn [mi_names mi_msg pm_oneofs].
    destruct (oneof_go_in names k) as [->|(n & J & G)]; [now apply exported_word, camel_name, On|].
    destruct (oneof_GoName names k) as [|c g] eqn:Eg; [now apply exported_word, camel_name, On|]. apply exported_word. exact (Xo _ _ _ J G K).
  - intros k f N. assert (X : exists z, nth_error (mr_fields m) k = Some z /\ field_of F imports fuel xd p i z = Some f).
    { clear - Ff N. revert k N. induction Ff as [|a b l l' H R IH]; intros [|k] N; try discriminate; cbn in *; [injection N as ->; eauto|now apply IH]. }
    destruct X as (z & Nz & Fz). destruct (field_type _ _ _ _ Fz) as (Nm & Nu & _).
    assert (Y : exists n, nth_error names k = Some n).
    { destruct (nth_error names k) eqn:Q; [eauto|]. exfalso. apply nth_error_None in Q. pose proof (nth_error_lt _ _ _ N). rewrite (Forall2_len _ _ _ Rn) in *. lia. }
    destruct Y as (n & Nk). destruct (Wr _ _ Nk) as (d & Ew & _). pose proof (proj1 (Forall_forall _ _) Xn _ (nth_error_In _ _ Nk)) as Xk. cbn beta in Xk.
    split; [rewrite Nm; apply proto_word; exact (sm_names _ _ Sm _ (nth_error_In _ _ Nz))|]. split.
    + pose proof (lm_fields _ _ Lg) as Lf. rewrite Forall_forall in Lf. pose proof (lf_num _ _ (Lf f (nth_error_In _ _ N))) as B. lia.
    + split; [rewrite Nz; now apply type_given|]. rewrite (Nn _ _ Nk), Ew. apply exported_word.
      apply joined_exported; [exact Xg|]. apply Forall_app. split; [now apply exported_chars|apply underscores].
  - exact (printed _ _ (cg_msg _ _ _ Cg p i)).
  - intros k. exact (printed _ _ (cg_field _ _ _ Cg p i k)).
  - unfold struct_of, id_of. rewrite Cantor.cancel_of_to, Em, Eq. reflexivity.
  - eapply go_msg_named, Em.
  - exact En.
  - intros k f ob Nf R. rewrite Nf. destruct (tyinfo_named _ _ _ _ R) as (A & _ & B & _ & C). split; [exact A|]. split; [|exact C]. rewrite B. now apply import_found.
  - intros k b. destruct (nth_error (mr_fields m) k); [apply tyinfo_import|discriminate].
  - intros k n Nk. destruct (Wr _ _ Nk) as (d & Ew & Nw). rewrite (Nn _ _ Nk), Ew. split; [|split].
    + exists d. now rewrite <- !app_assoc.
    + intros j s J G Q. apply Nw. rewrite Q. eapply nested_msg; eauto.
    + intros j s J G Q. apply Nw. rewrite Q. eapply nested_enum; eauto.
  - split; reflexivity.
Qed.
Lemma mtext_given p : forall k i m, nth_error (l_msgs (F p)) i = Some m -> length (l_msgs (F p)) <= i + k ->
  exists t, mtext_of F imports fuel E go_import k p i = Some t /\ message_ok t /\ message_for F imports fuel E go_import p i t.
Proof.
  induction k as [|k IH]; intros i m Em B; [apply nth_error_lt in Em; lia|]. cbn [mtext_of]. rewrite Em.
  destruct (minfo_given _ _ _ Em) as (x & -> & Ok & For).
  destruct (all_build (mtext_of F imports fuel E go_import k p) (fun j t => message_ok t /\ message_for F imports fuel E go_import p j t) (mr_msgs m)) as (l & -> & Fl).
  { intros j J. destruct (pa_in _ (Pa p) _ _ _ Em J) as (n & En & _). pose proof (later p _ _ Em) as L. rewrite Forall_forall in L. specialize (L _ J).
    destruct (IH j n En ltac:(lia)) as (t & A & C). exists t. auto. }
  exists (MTx x l). split; [reflexivity|]. split.
  - constructor; [exact Ok|]. apply Forall_forall. intros t J. destruct (Forall2_r _ _ _ _ Fl J) as (j & _ & A & _). exact A.
  - econstructor; [exact Em|exact For|]. clear - Fl. induction Fl as [|? ? ? ? [_ H] ? IH]; constructor; auto.
Qed.
Lemma text_given p : exists enums msgs, file_text F imports fuel E go_import p = Some (enums, msgs) /\
  Forall enum_ok enums /\ Forall (fun m => Forall enum_ok (fst m) /\ message_ok (snd m)) msgs /\ file_for F imports fuel E go_import p enums msgs.
Proof.
  unfold file_text.
  destruct (all_build (etext_of F E p) (fun j t => enum_ok t /\ enum_for F E p j t) (p_enums (F p))) as (es & -> & Fe).
  { intros j J. destruct (pa_top_enum _ (Pa p) _ J) as (e & Ee & _). destruct (etext_given _ _ _ Ee) as (t & A & B). exists t. auto. }
  match goal with |- context [Verify.all ?f (p_msgs (F p))] => destruct (all_build f (fun i x => (Forall enum_ok (fst x) /\ message_ok (snd x)) /\
    (exists m, nth_error (l_msgs (F p)) i = Some m /\ Forall2 (enum_for F E p) (mr_enums m) (fst x)) /\ message_for F imports fuel E go_import p i (snd x)) (p_msgs (F p))) as (ms & -> & Fm) end.
  { intros i J. destruct (pa_top _ (Pa p) _ J) as (m & Em & _). rewrite Em.
    destruct (all_build (etext_of F E p) (fun j t => enum_ok t /\ enum_for F E p j t) (mr_enums m)) as (l & -> & Fl).
    { intros j Jj. destruct (pa_in_enum _ (Pa p) _ _ _ Em Jj) as (e & Ee & _). destruct (etext_given _ _ _ Ee) as (t & A & B). exists t. auto. }
    destruct (mtext_given p (length (l_msgs (F p))) i m Em ltac:(lia)) as (t & -> & A & B). exists (l, t). split; [reflexivity|]. cbn [fst snd]. split.
    - split; [|exact A]. apply Forall_forall. intros y Jy. destruct (Forall2_r _ _ _ _ Fl Jy) as (j & _ & H & _). exact H.
    - split; [|exact B]. exists m. split; [reflexivity|]. clear - Fl. induction Fl as [|? ? ? ? [_ H] ? IH]; constructor; auto. }
  exists es, ms. split; [reflexivity|]. split; [|split; [|split]].
  - apply Forall_forall. intros y Jy. destruct (Forall2_r _ _ _ _ Fe Jy) as (j & _ & H & _). exact H.
  - apply Forall_forall. intros y Jy. destruct (Forall2_r _ _ _ _ Fm Jy) as (j & _ & H & _). exact H.
  - clear - Fe. induction Fe as [|? ? ? ? [_ H] ? IH]; constructor; auto.
  - clear - Fm. induction Fm as [|? ? ? ? [_ H] ? IH]; constructor; auto.
Qed.
End Given.
