(** Property theorems about the Go text that is written for the files that LoadProto accepts. *)
From Coq Require Import List Arith Bool NArith ZArith Lia Strings.String Init.Byte Sorting.Permutation.
From Coq Require Arith.Cantor.
From Verif Require Import Base Value Desc GoStr Parse GenField GenNames GenSpec NameSpec GenEnum GenGetter GenImport ImportSpec WriterSpec Scope Listen Walk Compile CompileSpec CompileProofs CompileMsgs
  ImportProofs WriterProofs Props_Import Parser Comments FileComments GenText GoScan GoSyntax TextSpec Props_Text Props_FileComment Props_Compile CompileText CompileTextSpec CompileTextProofs.
Import ListNotations StringSyntax.
Open Scope nat_scope.

Lemma printed_of (o : nat -> oracle) (data : nat -> bytes) p c : of_file (o p) (data p) c -> comments_ok (both c).
Proof.
  intros [->|(got & fc & e & H & J)]; [exact no_comment|]. destruct (C85_printed _ _ _ _ H) as [A _]. rewrite Forall_forall in A. exact (A _ J).
Qed.
Lemma infos_ok : forall t, message_ok t -> forall x, In x (infos t) -> info_ok x.
Proof.
  fix IH 1. intros [y ms] H x I. assert (G : info_ok y /\ Forall message_ok ms) by (inversion H; auto). destruct G as [Hy Hm]. cbn [infos] in I.
  destruct I as [<-|I]; [exact Hy|]. clear H Hy. induction ms as [|t ms IHl]; [destruct I|]. cbn [map concat] in I. apply in_app_iff in I as [I|I].
  - apply (IH t); [exact (Forall_inv Hm)|exact I].
  - exact (IHl I (Forall_inv_tail Hm)).
Qed.

(** ** Every accepted file *)
(** For the files that LoadProto accepts, with the comments that their definitions get: ProtoGen is given every
    message of a file with its fields, types and names ([file_for], CompileTextSpec.v), and from the Go file that
    is written Go reads the package clause, one import of each package that is referred to, and the
    declarations of these enums and messages.
    _partial: as in C84_file_partial, the inline comments of enums have no percent sign and the bodies of functions
    are tokens; the import paths of the files are taken to be well-formed; and the enums in messages that
    are in messages are not among the enums (C59, C86_refuted). *)
Theorem C86_file_partial : forall o data imports fuel F E go_import, accepted o data imports fuel F -> comments_given o data E ->
  (forall p, Forall path_char (go_import p) /\ go_word (path_Base (go_import p)) = true) ->
  forall p, exists enums msgs, file_text F imports fuel E go_import p = Some (enums, msgs) /\ file_for F imports fuel E go_import p enums msgs /\
  forall h0 p0 pre h pkg g, a_comment h -> package_name pkg -> ~ contains h importPlaceHolder ->
    let wr := do_calls (NewCodeWriter h0 p0) (pre ++ Call_Reset h pkg :: ProtoGen_calls g enums msgs) in
    exists imps, NoDup imps /\ (forall n q, In (n, q) imps <-> n = [] /\ refers_to g enums msgs q) /\
      forall srt m, is_sort srt -> Permutation (w_pkgs wr) m ->
        go_reads (Bytes srt wr m) = Some (mkGo pkg imps (file_decls g enums msgs)).
Proof.
  intros o data imports fuel F E gi Ac Cg Im p.
  destruct (text_given o data F imports fuel E gi Ac Cg (printed_of o data) Im p) as (enums & msgs & A & B & C & D).
  exists enums, msgs. split; [exact A|]. split; [exact D|]. intros h0 p0 pre h pkg g H P N. exact (C84_file_partial h0 p0 pre h pkg g enums msgs H P N B C).
Qed.
Print Assumptions C86_file_partial.

(** The header is the comment of the file. *)
Theorem C86_header : forall o data got fc, file_comments_of o data = Some (got, fc) -> a_comment fc.
Proof. intros o data got fc H. exact (proj2 (C85_printed _ _ _ _ H)). Qed.
Print Assumptions C86_header.

(** ** Every message *)
Section Message.
Variables (F : nat -> state) (imports : nat -> list (bool * nat)) (fuel : nat) (E : extras) (go_import : nat -> bytes) (p : nat).
Inductive below : nat -> nat -> Prop :=
| below_self i : below i i
| below_in i j m k : below i j -> nth_error (l_msgs (F p)) j = Some m -> In k (mr_msgs m) -> below i k.
Lemma covered : forall i t, message_for F imports fuel E go_import p i t -> exists x m, In x (infos t) /\ nth_error (l_msgs (F p)) i = Some m /\
  info_for F imports fuel E go_import p i m x /\ forall k, In k (mr_msgs m) -> exists t', message_for F imports fuel E go_import p k t' /\ forall y, In y (infos t') -> In y (infos t).
Proof.
  intros i t [m x l Em For Fl]. exists x, m. split; [now left|]. split; [exact Em|]. split; [exact For|]. intros k J.
  destruct (Forall2_l _ _ _ _ Fl J) as (t' & J' & M'). exists t'. split; [exact M'|]. intros y Y. cbn [infos]. right. apply in_concat. exists (infos t'). split; [now apply in_map|exact Y].
Qed.
Lemma below_covered i j : below i j -> forall t, message_for F imports fuel E go_import p i t -> exists t', message_for F imports fuel E go_import p j t' /\ forall y, In y (infos t') -> In y (infos t).
Proof.
  induction 1 as [i|i j m k B IH Em J]; intros t T; [exists t; auto|]. destruct (IH t T) as (t' & T' & I').
  destruct (covered _ _ T') as (x & m' & _ & Em' & _ & C). rewrite Em in Em'. injection Em' as <-. destruct (C k J) as (t'' & T'' & I''). exists t''. auto.
Qed.
Lemma reached_below i : reached (F p) i -> exists j, In j (p_msgs (F p)) /\ below j i.
Proof. induction 1 as [i J|j m i R (a & A & B) Em J]; [exists i; split; [exact J|constructor]|]. exists a. split; [exact A|]. econstructor; eauto. Qed.
End Message.
(** Every message of an accepted file, nested or not, is among the declarations of its Go file, under the name of
    its path in camel case.  Where the names in the Go file mean the types that they are generated for
    ([scope_ok], TextSpec.v), its declarations mean a struct in which prutal finds every field that is
    declared in the .proto file, with its number and the encoding of its type, and no other field. *)
Theorem C86_message : forall o data imports fuel F E go_import, accepted o data imports fuel F -> comments_given o data E ->
  (forall p, Forall path_char (go_import p) /\ go_word (path_Base (go_import p)) = true) ->
  forall p i m, nth_error (l_msgs (F p)) i = Some m ->
  exists enums msgs x, file_text F imports fuel E go_import p = Some (enums, msgs) /\ info_for F imports fuel E go_import p i m x /\
    forall g, (exists fs, In (YStruct (mi_go x) fs) (file_decls g enums msgs)) /\
    forall sc U En size, scope_ok sc x -> unquotes U ->
      exists d s, message_is sc U (file_decls g enums msgs) x d /\ describe d = POk s /\
        (forall f, In f (mr_fields m) -> exists y, In y (sd_fields s) /\ generated_for imports fuel F p i f y) /\
        (forall y, In y (sd_fields s) -> exists f, In f (mr_fields m) /\ generated_for imports fuel F p i f y) /\
        d = MessageGen U En size (mi_ctx x) (mi_msg x).
Proof.
  intros o data imports fuel F E gi Ac Cg Im p i m Em.
  destruct (text_given o data F imports fuel E gi Ac Cg (printed_of o data) Im p) as (enums & msgs & A & B & C & _ & D).
  destruct (C83_reached _ _ _ (ac_loads _ _ _ _ _ Ac p)) as [R _]. specialize (R i (ListenProofs.nth_error_lt _ _ _ Em)).
  destruct (reached_below F p i R) as (j & J & Bj). destruct (Forall2_l _ _ _ _ D J) as (mm & Imm & _ & Mf).
  destruct (below_covered F imports fuel E gi p j i Bj _ Mf) as (t & T & It). destruct (covered F imports fuel E gi p i t T) as (x & m' & Ix & Em' & For & _).
  rewrite Em in Em'. injection Em' as <-. exists enums, msgs, x. split; [exact A|]. split; [exact For|]. intros g. specialize (It _ Ix).
  assert (Ok : info_ok x).
  { rewrite Forall_forall in C. destruct (C _ Imm) as [_ Mo]. exact (infos_ok _ Mo _ It). }
  split.
  - exists (field_decls x [] 0 (pm_fields (mi_msg x)) ++ (if genUnknownFields (mi_ctx x) then [(bs "unknownFields", YSlice (name (bs "byte")), Some (bs "json:" ++ dq ++ bs "-" ++ dq))] else [])).
    unfold file_decls. apply in_app_iff. right. apply in_app_iff. right. apply in_concat. exists (message_decls g (snd mm)).
    split; [now apply (in_map (fun m => message_decls g (snd m)))|]. apply (own_in g (snd mm) x It). now left.
  - intros sc U En size Sc HU. pose proof (if_struct _ _ _ _ _ _ _ _ _ For) as St.
    destruct (C83_fields o data imports fuel F (x_file_dirs E) (x_msg_dirs E) (x_field_dirs E) Ac p i m Em U En size HU) as (s & Ds & _ & F1 & F2).
    rewrite <- St in Ds. cbn [fst snd] in Ds. eexists _, s. split; [exact (C84_message sc U En size g enums msgs mm x Imm It Ok Sc)|]. split; [exact Ds|]. split; [exact F1|]. split; [exact F2|reflexivity].
Qed.
Print Assumptions C86_message.

(** ** Example: two files, one importing the other; a oneof, a nested message, an enum in it, a comment. *)
Definition ct_data (p : nat) : bytes :=
  match p with
  | 0 => bs "syntax='proto3';package a;import 'b';message M{b.K k=1;oneof o{N n=2;}message N{enum E{A=0;}E e=1;}}"
  | _ => bs "syntax='proto3';package b;" ++ x0a :: bs "// doc" ++ x0a :: bs "enum K{X=0;}"
  end.
Definition ct_n := mkF (bs "n") None (bs "N") 2 false false false [] (Some 0).
Definition ct_st (p : nat) : state :=
  match p with
  | 0 => mkSt
      [mkMR (bs "M") None [] [1] [mkF (bs "k") None (bs "b.K") 1 false false false [] None; ct_n] [mkO (bs "o") [] [ct_n]] [] [];
       mkMR (bs "N") (Some 0) [0] [] [mkF (bs "e") None (bs "E") 1 false false false [] None] [] [] []]
      [mkER (bs "E") (Some 1) [mkEF (bs "A") 0 []] [] []] [] None (bs "proto3") (bs "a") [] [(bs "b", false)] [0] [] []
  | _ => mkSt [] [mkER (bs "K") None [mkEF (bs "X") 0 []] [] []] [] None (bs "proto3") (bs "b") [] [] [] [0] []
  end.
Definition ct_imports (p : nat) : list (bool * nat) := match p with 0 => [(false, 1)] | _ => [] end.
Definition ct_path (p : nat) : bytes := match p with 0 => bs "x.io/a" | _ => bs "x.io/b" end.
(** The comment is that of K *)
Definition ct_extras : extras :=
  mkX (fun _ => []) (fun _ _ => []) (fun _ _ _ => []) (fun _ _ => []) (fun _ _ _ => [])
      (fun _ _ => mkComments [] []) (fun _ _ _ => mkComments [] [])
      (fun p j => match p, j with 1, 0 => mkComments (bs "// doc") [] | _, _ => mkComments [] [] end) (fun _ _ _ => mkComments [] []).
Lemma ct_accepted : accepted (fun _ => predict) ct_data ct_imports 5 ct_st.
Proof.
  split.
  - intros [|p]; rewrite <- Props_Walk.loaded_quick_ok; with_strategy transparent [parse load_tree events parser_tokens lex_file] (vm_compute; reflexivity).
  - intros [|p]; vm_compute; reflexivity.
  - intros [|p]; vm_compute; reflexivity.
  - intros [|p]; (split; [constructor|]); intros [|[|i]] m x E J; cbn in E; try discriminate E; try (destruct i; discriminate E); injection E as <-; cbn in J;
      repeat (destruct J as [<-|J]; [split; cbn; [lia|constructor|intros v []|intros v []|intros v []]|]); destruct J.
Qed.
Lemma ct_comments : comments_given (fun _ => predict) ct_data ct_extras.
Proof.
  split; intros; try (now left). split.
  - destruct p as [|[|p]], j as [|j]; try (now left). right. eexists _, _, _. split; [rewrite <- comments_quick_ok; vm_compute; reflexivity|left; reflexivity].
  - destruct p as [|[|p]], j as [|j]; intros [].
Qed.
Definition ct_text (p : nat) : list etext * list (list etext * mtext) :=
  match file_text ct_st ct_imports 5 ct_extras ct_path p with Some r => r | None => ([], []) end.
Lemma ct_paths p : Forall path_char (ct_path p) /\ go_word (path_Base (ct_path p)) = true.
Proof. destruct p as [|p]; (split; [|reflexivity]); repeat (apply Forall_cons; [unfold path_char, ident_char; vm_compute; auto 10|]); apply Forall_nil. Qed.
Lemma ct_text_ok p : file_text ct_st ct_imports 5 ct_extras ct_path p = Some (ct_text p).
Proof.
  destruct (C86_file_partial _ _ _ _ _ ct_extras ct_path ct_accepted ct_comments ct_paths p) as (es & ms & H & _). unfold ct_text. now rewrite H.
Qed.
Example C86_ex : accepted (fun _ => predict) ct_data ct_imports 5 ct_st /\ comments_given (fun _ => predict) ct_data ct_extras /\
  (forall p, Forall path_char (ct_path p) /\ go_word (path_Base (ct_path p)) = true) /\
  match ct_text 0 with
  | ([], [([], MTx x [MTx y []])]) =>
     mi_go x = bs "M" /\ mi_go y = bs "M_N" /\ map (go_name x) [0; 1] = [bs "K"; bs "N"] /\ oneof_name x 0 = bs "O" /\
     mi_ti x 0 = mkTI (Some (bs "x.io/b")) (bs "K") [(bs "K_X", 0%Z)] /\ ti_name (mi_ti x 1) = bs "M_N" /\ mi_wrap x 1 = bs "M_N_" /\
     ti_name (mi_ti y 0) = bs "M_N_E"
  | _ => False
  end /\
  match ct_text 1 with ([e], []) => enum_GoName (et_enum e) = bs "K" /\ et_head e = bs "// doc" | _ => False end.
Proof.
  split; [exact ct_accepted|]. split; [exact ct_comments|]. split; [exact ct_paths|]. split; vm_compute; repeat split; reflexivity.
Qed.
(** The scope of M in the example: C86_message applies to it. *)
Definition ct_scope (x : minfo) (q : option bytes) (n : bytes) : option gotype :=
  match q with
  | None => if str_eqb n (bs "M_N") then Some (TStruct (id_of 0 1)) else if str_eqb n (bs "isM_O") then Some (oneof_type (mi_ctx x) (mi_msg x) 0) else None
  | Some _ => Some (TScalar Int32)
  end.
Definition ct_info : minfo :=
  match snd (ct_text 0) with (_, MTx x _) :: _ => x | _ => mkMI (mkC Proto3 [] [] [] []) (mkPM [] []) [] [] (fun _ => mkTI None [] []) (fun _ => []) (fun _ => ([], [])) [] [] end.
Example C86_ex_scope : scope_ok (ct_scope ct_info) ct_info /\ mi_go ct_info = bs "M".
Proof.
  assert (P : pm_fields (mi_msg ct_info) = [mkPF (bs "k") None PEnum 1 false false false [] [] None; mkPF (bs "n") None (PMsg (id_of 0 1)) 2 false false false [] [] (Some 0)]) by (vm_compute; reflexivity).
  split; [|vm_compute; reflexivity]. split.
  - intros s. destruct s; reflexivity.
  - reflexivity.
  - intros i f N T. rewrite P in N. destruct i as [|[|i]]; [injection N as <-; vm_compute; reflexivity..|destruct i; discriminate N].
  - intros f k J Q. rewrite P in J. destruct J as [<-|[<-|[]]]; [discriminate Q|]. injection Q as <-. vm_compute. reflexivity.
Qed.

(** ** Not every type that is named is declared *)
Definition declares (n : bytes) (d : gdecl) : Prop :=
  match d with YStruct m _ | YIface m _ | YDefined m _ => m = n | _ => False end.
(** An accepted file for which the Go file has a struct with a field of a type of the same package that
    is not declared, nor predeclared by Go: an enum in a message that is itself in a message (C59). *)
Theorem C86_refuted : exists o data imports fuel F E go_import, accepted o data imports fuel F /\ comments_given o data E /\
  (forall p, p <> 0 -> go_import p <> go_import 0) /\
  forall g, exists enums msgs n fs f t tag, file_text F imports fuel E go_import 0 = Some (enums, msgs) /\
    In (YStruct n fs) (file_decls g enums msgs) /\ In (f, name t, tag) fs /\ (forall d, In d (file_decls g enums msgs) -> ~ declares t d) /\
    t = bs "M_N_E".
Proof.
  exists (fun _ => predict), ct_data, ct_imports, 5, ct_st, ct_extras, ct_path. split; [exact ct_accepted|]. split; [exact ct_comments|].
  split; [intros [|p] P K; [now destruct P|discriminate K]|]. intros g.
  set (tag := Some (bs "protobuf:" ++ dq ++ bs "varint,1,opt,name=e" ++ dq ++ bs " json:" ++ dq ++ bs "e,omitempty" ++ dq)).
  exists (fst (ct_text 0)), (snd (ct_text 0)), (bs "M_N"), [(bs "E", name (bs "M_N_E"), tag)], (bs "E"), (bs "M_N_E"), tag.
  split; [rewrite ct_text_ok; f_equal; apply surjective_pairing|].
  destruct g as [[|] [|]]; (split; [vm_compute; do 20 (try (left; reflexivity); right)|]); (split; [now left|]);
    (split; [intros d J; vm_compute in J; repeat (destruct J as [<-|J]; [vm_compute; intros K; first [exact K|discriminate K]|]); destruct J|reflexivity]).
Qed.
Print Assumptions C86_refuted.
