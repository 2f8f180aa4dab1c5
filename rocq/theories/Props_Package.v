(** Property theorems about Go packages that are generated from accepted files. *)
From Coq Require Import List Arith Bool NArith ZArith Lia Strings.String Init.Byte.
From Verif Require Import Base Value Desc GoStr Parse GenField GenNames GenSpec NameSpec GenEnum GenGetter GenImport ImportSpec Scope Listen Compile CompileSpec CompileMsgs
  Parser Comments GenText GoScan GoSyntax TextSpec Props_Text Props_Compile CompileText CompileTextSpec CompileTextProofs Props_CompileText PackageSpec PackageProofs.
Import ListNotations StringSyntax.
Open Scope nat_scope.

(** The declarations of the Go file of a message, with the message: as C86_message, keeping the place *)
Lemma message_placed o data imports fuel F E go_import : accepted o data imports fuel F -> comments_given o data E ->
  (forall p, Forall path_char (go_import p) /\ go_word (path_Base (go_import p)) = true) ->
  forall p i m, nth_error (l_msgs (F p)) i = Some m ->
  exists enums msgs mm x, file_text F imports fuel E go_import p = Some (enums, msgs) /\ In mm msgs /\ In x (infos (snd mm)) /\ info_ok x /\
    info_for F imports fuel E go_import p i m x.
Proof.
  intros Ac Cg Im p i m Em.
  destruct (text_given o data F imports fuel E go_import Ac Cg (printed_of o data) Im p) as (enums & msgs & A & B & C & _ & D).
  destruct (C83_reached _ _ _ (ac_loads _ _ _ _ _ Ac p)) as [R _]. specialize (R i (ListenProofs.nth_error_lt _ _ _ Em)).
  destruct (reached_below F p i R) as (j & J & Bj). destruct (CompileMsgs.Forall2_l _ _ _ _ D J) as (mm & Imm & _ & Mf).
  destruct (below_covered F imports fuel E go_import p j i Bj _ Mf) as (t & T & It). destruct (covered F imports fuel E go_import p i t T) as (x & m' & Ix & Em' & For & _).
  rewrite Em in Em'. injection Em' as <-. specialize (It _ Ix). exists enums, msgs, mm, x. split; [exact A|]. split; [exact Imm|]. split; [exact It|]. split; [|exact For].
  rewrite Forall_forall in C. destruct (C _ Imm) as [_ Mo]. exact (infos_ok _ Mo _ It).
Qed.

(** ** The types of the fields *)
(** For files that LoadProto accepts, without public imports and without enums in messages that are in messages:
    in a Go package in which each type name is declared once ([go_scope], PackageSpec.v), the declarations of every
    message mean a struct in which prutal finds every field of the message, with its number and the encoding
    of its type, and no other field.  The names in the types of the fields mean the messages and enums that the
    type names of the .proto file resolve to. *)
Theorem C86_package : forall o data imports fuel F E go_import, accepted o data imports fuel F -> comments_given o data E ->
  (forall p, Forall path_char (go_import p) /\ go_word (path_Base (go_import p)) = true) ->
  no_public imports -> no_deep_enum F ->
  forall p sc, go_scope F imports fuel E go_import p sc ->
  forall i m, nth_error (l_msgs (F p)) i = Some m ->
  exists enums msgs x, file_text F imports fuel E go_import p = Some (enums, msgs) /\ info_for F imports fuel E go_import p i m x /\
    (forall k f ob, nth_error (mr_fields m) k = Some f -> resolve_type F imports fuel true p (Some i) (fl_type f) = FObj ob ->
       sc (option_map path_Base (ti_import (mi_ti x k))) (ti_name (mi_ti x k)) =
         Some (match ob with OMsg q j => TStruct (id_of q j) | OEnum _ _ => TScalar Int32 end)) /\
    forall g U En size, unquotes U ->
      exists d s, message_is sc U (file_decls g enums msgs) x d /\ describe d = POk s /\
        (forall f, In f (mr_fields m) -> exists y, In y (sd_fields s) /\ generated_for imports fuel F p i f y) /\
        (forall y, In y (sd_fields s) -> exists f, In f (mr_fields m) /\ generated_for imports fuel F p i f y) /\
        d = MessageGen U En size (mi_ctx x) (mi_msg x).
Proof.
  intros o data imports fuel F E gi Ac Cg Im NP ND p sc Sc i m Em.
  destruct (message_placed o data imports fuel F E gi Ac Cg Im p i m Em) as (enums & msgs & mm & x & A & Imm & Ix & Ok & For).
  pose proof (info_scope o data F imports fuel E gi Ac p i m x sc enums msgs mm NP ND Sc Em For Ok A Imm Ix) as So.
  exists enums, msgs, x. split; [exact A|]. split; [exact For|]. split.
  - intros k f ob Nf R.
    pose proof (ac_loads _ _ _ _ _ Ac) as Al. pose proof (ac_resolves _ _ _ _ _ Ac) as Ar. pose proof (ac_verifies _ _ _ _ _ Ac) as Av.
    destruct (msg_found o data F imports fuel (x_file_dirs E) (x_msg_dirs E) (x_field_dirs E) Al Ar Av p i m Em) as (fs & Eq & Ff).
    assert (Mx : mi_msg x = mkPM fs (map on_name (mr_oneofs m))).
    { pose proof (if_struct _ _ _ _ _ _ _ _ _ For) as St. unfold struct_of, id_of in St. rewrite Cantor.cancel_of_to, Em, Eq in St. now injection St. }
    assert (X : exists z, nth_error fs k = Some z /\ field_of F imports fuel (x_field_dirs E) p i f = Some z).
    { clear - Ff Nf. revert k Nf. induction Ff as [|a b l l' H R IH]; intros [|k] N; try discriminate; cbn in *; [injection N as ->; eauto|now apply IH]. }
    destruct X as (z & Nz & Fz). destruct (field_type F imports fuel E _ _ _ _ Fz) as (_ & _ & Ty). rewrite R in Ty. cbn [ptype_of] in Ty.
    rewrite (so_types _ _ So k z); [|rewrite Mx; exact Nz|destruct ob; injection Ty as <-; exact Logic.I]. destruct ob; injection Ty as <-; reflexivity.
  - intros g U En size HU. pose proof (if_struct _ _ _ _ _ _ _ _ _ For) as St.
    destruct (C83_fields o data imports fuel F (x_file_dirs E) (x_msg_dirs E) (x_field_dirs E) Ac p i m Em U En size HU) as (s & Ds & _ & F1 & F2).
    rewrite <- St in Ds. cbn [fst snd] in Ds. eexists _, s. split; [exact (C84_message sc U En size g enums msgs mm x Imm Ix Ok So)|]. split; [exact Ds|]. split; [exact F1|]. split; [exact F2|reflexivity].
Qed.
Print Assumptions C86_package.

(** ** The names that have a meaning are declared *)
Definition declared_as (n : bytes) (t : gotype) (d : gdecl) : Prop :=
  match t with
  | TStruct _ => exists fs, d = YStruct n fs
  | TIface _ => d = YIface n n
  | _ => d = YDefined n (name (bs "int32"))
  end.
(** A name that has a meaning in the Go file of [p] is declared in the Go file of a file of the same Go package, or,
    with a package in front, of a file of that package that [p] imports: messages as structs, enums as int32
    and oneofs as interfaces. *)
Theorem C86_declared : forall o data imports fuel F E go_import, accepted o data imports fuel F -> comments_given o data E ->
  (forall p, Forall path_char (go_import p) /\ go_word (path_Base (go_import p)) = true) ->
  forall p b n t, means F imports fuel E go_import p b n t ->
  exists q enums msgs, visible imports go_import p q /\ qualifier go_import p q b /\ file_text F imports fuel E go_import q = Some (enums, msgs) /\
    forall g, exists d, In d (file_decls g enums msgs) /\ declared_as n t d.
Proof.
  intros o data imports fuel F E gi Ac Cg Im p b n t M. destruct M as [q i b n V Q G|q j b n V Q De G|q enums msgs m x k Eq Ft Im' Ix K].
  - pose proof G as (qa & A & _). cbn [file_of_obj] in A. assert (Vm : exists m, nth_error (l_msgs (F q)) i = Some m) by (inversion A; eauto). destruct Vm as (m & Em).
    destruct (message_placed o data imports fuel F E gi Ac Cg Im q i m Em) as (enums & msgs & mm & x & Ft & Imm & Ix & Ok & For).
    exists q, enums, msgs. split; [exact V|]. split; [exact Q|]. split; [exact Ft|]. intros g. eexists. split.
    + unfold file_decls. apply in_app_iff. right. apply in_app_iff. right. apply in_concat. exists (message_decls g (snd mm)).
      split; [now apply (in_map (fun m => message_decls g (snd m)))|]. apply (own_in g (snd mm) x Ix). left. reflexivity.
    + rewrite (one_name o data F imports fuel Ac q _ _ _ G (if_name _ _ _ _ _ _ _ _ _ For) eq_refl). eexists. reflexivity.
  - destruct (text_given o data F imports fuel E gi Ac Cg (printed_of o data) Im q) as (enums & msgs & Ft & _ & _ & D1 & D2).
    exists q, enums, msgs. split; [exact V|]. split; [exact Q|]. split; [exact Ft|]. intros g. exists (YDefined n (name (bs "int32"))). split; [|reflexivity].
    assert (Y : forall e, enum_for F E q j e -> In (YDefined n (name (bs "int32"))) (enum_decls (et_enum e))).
    { intros e Fe. left. now rewrite (one_name o data F imports fuel Ac q _ _ _ G (en_name _ _ _ _ _ Fe) eq_refl). }
    unfold file_decls. apply in_app_iff. destruct De as [J|(i & m & J & Em & Jm)].
    + left. destruct (CompileMsgs.Forall2_l _ _ _ _ D1 J) as (e & Ie & Fe). apply in_concat. exists (enum_decls (et_enum e)). split; [now apply (in_map (fun e => enum_decls (et_enum e)))|auto].
    + right. apply in_app_iff. left. destruct (CompileMsgs.Forall2_l _ _ _ _ D2 J) as (mm & Imm & (m' & Em' & Fm) & _). rewrite Em in Em'. injection Em' as <-.
      destruct (CompileMsgs.Forall2_l _ _ _ _ Fm Jm) as (e & Ie & Fe). apply in_concat. eexists. split; [exact (in_map (fun m => concat (map (fun e => enum_decls (et_enum e)) (fst m))) _ _ Imm)|].
      apply in_concat. exists (enum_decls (et_enum e)). split; [now apply (in_map (fun e => enum_decls (et_enum e)))|auto].
  - exists q, enums, msgs. split; [now left|]. split; [now left|]. split; [exact Ft|]. intros g. exists (YIface (oneof_type_name x k) (oneof_type_name x k)). split; [|reflexivity].
    unfold file_decls. apply in_app_iff. right. apply in_app_iff. right. apply in_concat. exists (message_decls g (snd m)).
    split; [now apply (in_map (fun m => message_decls g (snd m)))|]. apply (own_in g (snd m) x Ix). unfold own_decls. right. right.
    apply in_app_iff. right. apply in_app_iff. right. apply in_app_iff. right. apply in_concat. exists (oneof_decls x k). split; [apply in_map, in_seq; lia|now left].
Qed.
Print Assumptions C86_declared.

(** ** Example: two files in two packages; a nested message and an enum, a oneof. *)
Definition pk_data (p : nat) : bytes :=
  match p with
  | 0 => bs "syntax='proto3';package a;import 'b';message M{b.K k=1;oneof o{N n=2;}message N{}enum E{A=0;}E e=3;}"
  | _ => bs "syntax='proto3';package b;enum K{X=0;}"
  end.
Definition pk_n := mkF (bs "n") None (bs "N") 2 false false false [] (Some 0).
Definition pk_st (p : nat) : state :=
  match p with
  | 0 => mkSt
      [mkMR (bs "M") None [0] [1] [mkF (bs "k") None (bs "b.K") 1 false false false [] None; pk_n; mkF (bs "e") None (bs "E") 3 false false false [] None] [mkO (bs "o") [] [pk_n]] [] [];
       mkMR (bs "N") (Some 0) [] [] [] [] [] []]
      [mkER (bs "E") (Some 0) [mkEF (bs "A") 0 []] [] []] [] None (bs "proto3") (bs "a") [] [(bs "b", false)] [0] [] []
  | _ => mkSt [] [mkER (bs "K") None [mkEF (bs "X") 0 []] [] []] [] None (bs "proto3") (bs "b") [] [] [] [0] []
  end.
Definition pk_extras : extras :=
  mkX (fun _ => []) (fun _ _ => []) (fun _ _ _ => []) (fun _ _ => []) (fun _ _ _ => [])
      (fun _ _ => mkComments [] []) (fun _ _ _ => mkComments [] []) (fun _ _ => mkComments [] []) (fun _ _ _ => mkComments [] []).
Lemma pk_accepted : accepted (fun _ => predict) pk_data ct_imports 5 pk_st.
Proof.
  split.
  - intros [|p]; rewrite <- Props_Walk.loaded_quick_ok; with_strategy transparent [parse Walk.load_tree Walk.events parser_tokens LexFile.lex_file] (vm_compute; reflexivity).
  - intros [|p]; vm_compute; reflexivity.
  - intros [|p]; vm_compute; reflexivity.
  - intros [|p]; (split; [constructor|]); intros [|[|i]] m x E J; cbn in E; try discriminate E; try (destruct i; discriminate E); injection E as <-; cbn in J;
      repeat (destruct J as [<-|J]; [split; cbn; [lia|constructor|intros v []|intros v []|intros v []]|]); destruct J.
Qed.
Lemma pk_comments : comments_given (fun _ => predict) pk_data pk_extras.
Proof. split; intros; try (now left). split; [now left|intros []]. Qed.
Definition pk_text (p : nat) : list etext * list (list etext * mtext) :=
  match file_text pk_st ct_imports 5 pk_extras ct_path p with Some r => r | None => ([], []) end.
Lemma pk_text_ok p : file_text pk_st ct_imports 5 pk_extras ct_path p = Some (pk_text p).
Proof.
  destruct (C86_file_partial _ _ _ _ _ pk_extras ct_path pk_accepted pk_comments ct_paths p) as (es & ms & H & _). unfold pk_text. now rewrite H.
Qed.
Definition pk_info : minfo :=
  match snd (pk_text 0) with (_, MTx x _) :: _ => x | _ => ct_info end.
Definition pk_scope (b : option bytes) (n : bytes) : option gotype :=
  match b with
  | None =>
      if str_eqb n (bs "M") then Some (TStruct (id_of 0 0)) else if str_eqb n (bs "M_N") then Some (TStruct (id_of 0 1))
      else if str_eqb n (bs "M_E") then Some (TScalar Int32)
      else if str_eqb n (bs "isM_O") then Some (oneof_type (mi_ctx pk_info) (mi_msg pk_info) 0) else None
  | Some b => if str_eqb b (bs "b") && str_eqb n (bs "K") then Some (TScalar Int32) else None
  end.
Lemma pk_shape : exists e x y, snd (pk_text 0) = [([e], MTx x [MTx y []])] /\ length (pm_oneofs (mi_msg x)) = 1 /\ oneof_type_name x 0 = bs "isM_O" /\ pm_oneofs (mi_msg y) = [].
Proof.
  assert (G : match snd (pk_text 0) with [([e], MTx x [MTx y []])] => length (pm_oneofs (mi_msg x)) = 1 /\ oneof_type_name x 0 = bs "isM_O" /\ pm_oneofs (mi_msg y) = [] | _ => False end)
    by (vm_compute; repeat split; reflexivity).
  destruct (snd (pk_text 0)) as [|[[|e [|]] [x [|[y [|]] [|]]]] [|]]; try destruct G. exists e, x, y. split; [reflexivity|]. tauto.
Qed.
Lemma pk_visible q : visible ct_imports ct_path 0 q -> q = 0 \/ q = 1.
Proof. intros [V|[V|[]]]; [destruct q as [|q]; [now left|discriminate V]|right; now symmetry]. Qed.
Lemma pk_msg q i n : q = 0 \/ q = 1 -> go_named pk_st (OMsg q i) n -> q = 0 /\ ((i = 0 /\ n = bs "M") \/ (i = 1 /\ n = bs "M_N")).
Proof.
  intros Q G. pose proof G as (r & A & _). cbn [file_of_obj] in A.
  assert (V : exists m, nth_error (l_msgs (pk_st q)) i = Some m) by (inversion A; eauto). destruct V as (m & Em).
  pose proof (one_name _ _ _ _ _ pk_accepted q _ _ _ G (go_msg_named _ _ _ _ _ ct_path pk_accepted q i m Em) eq_refl) as ->.
  destruct Q as [->| ->]; [|destruct i; discriminate Em]. split; [reflexivity|]. destruct i as [|[|i]]; [left|right|destruct i; discriminate Em]; (split; [reflexivity|vm_compute; reflexivity]).
Qed.
Lemma pk_enum q j n : q = 0 \/ q = 1 -> go_named pk_st (OEnum q j) n -> j = 0 /\ ((q = 0 /\ n = bs "M_E") \/ (q = 1 /\ n = bs "K")).
Proof.
  intros Q G. pose proof G as (r & A & _). cbn [file_of_obj] in A.
  assert (V : exists e, nth_error (l_enums (pk_st q)) j = Some e) by (inversion A; eauto). destruct V as (e & Ee).
  pose proof (one_name _ _ _ _ _ pk_accepted q _ _ _ G (enum_named_go _ _ _ _ _ pk_extras ct_path pk_accepted q j e Ee) eq_refl) as ->.
  destruct Q as [->| ->]; (destruct j as [|j]; [|destruct j; discriminate Ee]); injection Ee as <-; (split; [reflexivity|]); [left|right]; (split; [reflexivity|vm_compute; reflexivity]).
Qed.
Example C86_ex_package : accepted (fun _ => predict) pk_data ct_imports 5 pk_st /\ comments_given (fun _ => predict) pk_data pk_extras /\
  (forall p, Forall path_char (ct_path p) /\ go_word (path_Base (ct_path p)) = true) /\
  no_public ct_imports /\ no_deep_enum pk_st /\ go_scope pk_st ct_imports 5 pk_extras ct_path 0 pk_scope.
Proof.
  split; [exact pk_accepted|]. split; [exact pk_comments|]. split; [exact ct_paths|].
  split; [intros [|p] q J; [destruct J as [J|[]]; discriminate J|destruct J]|].
  split.
  { intros [|p] [|[|i]] m Em Pm; cbn in Em; try (injection Em as <-); try reflexivity; try (now destruct Pm); try discriminate Em; destruct i; discriminate Em. }
  destruct pk_shape as (e & x & y & Sh & L & Nm & Ly).
  assert (Xi : pk_info = x) by (unfold pk_info; now rewrite Sh).
  intros b n t. split.
  - unfold pk_scope. destruct b as [b|].
    + destruct (StrFacts.str_eqb_spec b (bs "b")) as [->|]; [|discriminate]. destruct (StrFacts.str_eqb_spec n (bs "K")) as [->|]; [|discriminate]. intro H. injection H as <-.
      apply (means_enum _ _ _ _ _ 0 1 0); [right; now left|right; split; [discriminate|reflexivity]|left; now left|].
      exact (enum_named_go _ _ _ _ _ pk_extras ct_path pk_accepted 1 0 _ eq_refl).
    + destruct (StrFacts.str_eqb_spec n (bs "M")) as [->|_].
      { intro H. injection H as <-. apply (means_message _ _ _ _ _ 0 0 0); [now left|now left|]. exact (go_msg_named _ _ _ _ _ ct_path pk_accepted 0 0 _ eq_refl). }
      destruct (StrFacts.str_eqb_spec n (bs "M_N")) as [->|_].
      { intro H. injection H as <-. apply (means_message _ _ _ _ _ 0 0 1); [now left|now left|]. exact (go_msg_named _ _ _ _ _ ct_path pk_accepted 0 1 _ eq_refl). }
      destruct (StrFacts.str_eqb_spec n (bs "M_E")) as [->|_].
      { intro H. injection H as <-. apply (means_enum _ _ _ _ _ 0 0 0); [now left|now left|right; exists 0; eexists; split; [now left|split; [reflexivity|now left]]|].
        exact (enum_named_go _ _ _ _ _ pk_extras ct_path pk_accepted 0 0 _ eq_refl). }
      destruct (StrFacts.str_eqb_spec n (bs "isM_O")) as [->|_]; [|discriminate].
      intro H. assert (Ht : t = oneof_type (mi_ctx pk_info) (mi_msg pk_info) 0) by congruence. rewrite Ht, Xi, <- Nm. clear H Ht. eapply (means_oneof _ _ _ _ _ 0 0 _ _ ([e], MTx x [MTx y []]) x 0); [reflexivity| | | |rewrite L; lia].
      * rewrite pk_text_ok. f_equal. apply surjective_pairing.
      * rewrite Sh. now left.
      * now left.
  - intros M. destruct M as [q i b n V Q G|q j b n V Q De G|q enums msgs m z k Eq Ft Im Iz K].
    + pose proof (pk_visible _ V) as Vq. destruct (pk_msg _ _ _ Vq G) as [-> [[-> ->]|[-> ->]]]; (destruct Q as [[_ ->]|[Q _]]; [reflexivity|now destruct Q]).
    + pose proof (pk_visible _ V) as Vq. destruct (pk_enum _ _ _ Vq G) as [-> [[-> ->]|[-> ->]]].
      * destruct Q as [[_ ->]|[Q _]]; [reflexivity|now destruct Q].
      * destruct Q as [[Q _]|[_ ->]]; [discriminate Q|reflexivity].
    + destruct q as [|q]; [|discriminate Eq]. rewrite pk_text_ok in Ft. assert (Ft' : pk_text 0 = (enums, msgs)) by congruence. assert (Em : msgs = snd (pk_text 0)) by now rewrite Ft'. rewrite Em, Sh in Im.
      destruct Im as [<-|[]]. cbn [snd infos map concat app] in Iz. destruct Iz as [<-|[<-|[]]].
      * rewrite L in K. assert (k = 0) by lia. subst k. rewrite Nm. unfold pk_scope. rewrite Xi. reflexivity.
      * rewrite Ly in K. cbn in K. lia.
Qed.
