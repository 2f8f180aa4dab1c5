(** Property theorems about the Go text that is written. *)
From Coq Require Import List Bool NArith ZArith Strings.String Init.Byte Lia Sorting.Permutation Sorting.Sorted.
From Verif Require Import Base Value GoStr StrFacts Parse GenField GenSpec GenNames GenEnum GenGetter GenImport ImportSpec WriterSpec ImportProofs WriterProofs
  Props_Import Comments GenText GoScan GoSyntax TextSpec GoScanProofs GoReadProofs GenTextProofs GenTextFile GenTextImport.
Import ListNotations StringSyntax.
Open Scope nat_scope.

Lemma no_import_spells ds : no_import (spells ds).
Proof. destruct ds as [|d ds]; [exact Logic.I|]. rewrite spells_cons. destruct d as [n l|n m|n t|l|n k v l|rv n ps r b]; reflexivity. Qed.
Lemma asked_in cs q : (forall a, In (Call_UsePkg q a) cs -> a = []) -> (exists a, In (Call_UsePkg q a) cs) -> asked cs q [].
Proof.
  induction cs as [|c cs IH]; intros A [a H]; [destruct H|].
  destruct (in_dec (list_eq_dec Byte.byte_eq_dec) q (uses cs)) as [I|N].
  - destruct IH as (u & v & -> & L); [intros b B; apply A; now right|now apply uses_iff|]. now exists (c :: u), v.
  - destruct H as [->|H]; [|destruct N; apply uses_iff; now exists a]. rewrite (A a (or_introl eq_refl)). exists [], cs. split; [reflexivity|].
    intros a' I. apply N, uses_iff. now exists a'.
Qed.
Lemma layout_scan h p text body : a_comment h -> go_word p = true ->
  scan Start false (layout h p text body) = w "package" :: TWord p :: o ";" :: scan Start false (text ++ x0a :: x0a :: body).
Proof.
  intros H P. unfold layout.
  assert (R : scan Start false (bs "package " ++ p ++ [x0a; x0a] ++ text ++ [x0a; x0a] ++ body) =
    w "package" :: TWord p :: o ";" :: scan Start false (text ++ x0a :: x0a :: body)).
  { rewrite scan_app. change (run Start false (bs "package ")) with ([w "package"], Start, false). cbv iota beta. cbn [app]. f_equal.
    rewrite (start_word p) by (exact P || reflexivity). reflexivity. }
  destruct h as [|c h]; [exact R|]. destruct (a_comment_last _ H) as [E|E]; [discriminate E|].
  unfold line. replace (beqb (last (c :: h) x00) x0a) with false.
  2:{ destruct (beqb_spec (last (c :: h) x00) x0a); congruence. }
  rewrite <- !app_assoc. change ([x0a] ++ [x0a] ++ bs "package " ++ p ++ [x0a; x0a] ++ text ++ [x0a; x0a] ++ body) with
    (x0a :: x0a :: bs "package " ++ p ++ [x0a; x0a] ++ text ++ [x0a; x0a] ++ body).
  rewrite (start_head _ _ H). exact R.
Qed.

(** A file as it is written: whatever was written by the writer before, Go reads from it the package
    clause, one import of each package that the declarations refer to, and the declarations of the enums
    and messages.  _partial: the names and comments are taken to be well-formed, the text of an enum's comment
    to have no percent sign (see C84_refuted), and the bodies of functions are tokens. *)
Theorem C84_file_partial : forall h0 p0 pre h p g enums msgs,
  a_comment h -> package_name p -> ~ contains h importPlaceHolder ->
  Forall enum_ok enums -> Forall (fun m => Forall enum_ok (fst m) /\ message_ok (snd m)) msgs ->
  let wr := do_calls (NewCodeWriter h0 p0) (pre ++ Call_Reset h p :: ProtoGen_calls g enums msgs) in
  exists imports, NoDup imports /\ (forall n q, In (n, q) imports <-> n = [] /\ refers_to g enums msgs q) /\
    forall srt m, is_sort srt -> Permutation (w_pkgs wr) m ->
      go_reads (Bytes srt wr m) = Some (mkGo p imports (file_decls g enums msgs)).
Proof.
  intros h0 p0 pre h p g enums msgs H P NC HE HM wr.
  destruct (ProtoGen_reads g enums msgs HE HM) as [CO SC]. set (cs := ProtoGen_calls g enums msgs) in *.
  rewrite Forall_forall in CO.
  assert (UQ : forall q a, In (Call_UsePkg q a) cs -> q <> [] /\ Forall path_char q /\ a = []) by (intros q a I; exact (CO _ I)).
  destruct (C67_writer_partial h0 p0 pre h p cs (calls_text cs) P NC (calls_pieces cs (proj2 (Forall_forall _ _) CO))) as (text & l & D & L & S & B).
  { intros q a I. destruct (UQ q a I) as (_ & A & E). split; [exact A|now left]. }
  assert (LN : forall n q, In (n, q) l <-> n = None /\ refers_to g enums msgs q).
  { intros n q. rewrite L. rewrite <- (uses_file g enums msgs q HM). fold cs. split.
    - intros (a & Q & (u & v & E & _) & N). assert (I : In (Call_UsePkg q a) cs) by (rewrite E; apply in_app_iff; right; now left).
      destruct (UQ q a I) as (_ & _ & ->). split; [destruct N as [[N _]|(_ & N & _)]; [exact N|easy]|]. apply uses_iff. now exists [].
    - intros (-> & I). exists []. apply uses_iff in I. destruct I as [a I]. split; [exact (proj1 (UQ q a I))|]. split; [|left; split; [reflexivity|now left]].
      apply asked_in; [|now exists a]. intros b J. exact (proj2 (proj2 (UQ q b J))). }
  exists (map as_go l). split; [|split].
  - assert (ND : NoDup (map snd l)).
    { revert S. generalize (last_grouping defaultGroupingFunc (pre ++ cs)). intro gr. generalize (map snd l). intros ps S.
      induction S as [|q qs S IH F]; constructor; [|exact IH]. intro I. rewrite Forall_forall in F. specialize (F q I).
      destruct F as [F|[_ [(d & r & E)|(c & x & y & p' & q' & E1 & E2 & F)]]]; [lia| |].
      - apply (f_equal (@length byte)) in E. rewrite app_length in E. cbn in E. lia.
      - rewrite E2 in E1. apply app_inv_head in E1. injection E1 as -> _. lia. }
    apply (NoDup_map_inv snd). rewrite map_map. exact ND.
  - intros n q. rewrite in_map_iff. split.
    + intros ([n' q'] & E & I). unfold as_go in E. cbn [fst snd] in E. injection E as <- <-. apply LN in I as [-> R]. now split.
    + intros [-> R]. exists (None, q). split; [reflexivity|]. apply LN. now split.
  - intros srt m SO PM. subst wr. rewrite (B srt m SO PM). unfold go_reads, go_tokens. rewrite (layout_scan h p text _ H (package_word p P)).
    destruct (decl_scan text l D) as (ts & TS & RI). rewrite TS. cbn [scan step]. change (begin false x0a) with (@nil tok, Start, false). cbv iota beta. cbn [app].
    pose proof (SC []) as SE. rewrite app_nil_r in SE. change (scan Start false []) with (@nil tok) in SE. rewrite app_nil_r in SE. rewrite SE.
    unfold read_file. change (kw (bs "package") (w "package")) with true. cbv iota. cbn [read_name name_of].
    destruct (go_word_inv p (package_word p P)) as (_ & _ & _ & _ & _ & K). rewrite K. cbn [expect]. change (op (bs ";") (o ";")) with true. cbv iota.
    rewrite (RI (spells (file_decls g enums msgs)) (no_import_spells _)).
    rewrite (read_decls_ok (file_decls g enums msgs) _ (file_decls_ok g enums msgs HE HM) (le_n _)). reflexivity.
Qed.
Print Assumptions C84_file_partial.

(** ** What the declarations mean *)
Section Meaning.
Variable sc : option bytes -> bytes -> option gotype.
Variable Unquote : bytes -> option bytes.
Variable x : minfo.
Hypothesis SO : scope_ok sc x.
Lemma scalar_denotes s : denotes sc (scalar_gty (scalar2GoTypes s)) (scalar2GoTypes s).
Proof. pose proof (so_scalar sc x SO s) as H. destruct s; cbn [scalar2GoTypes scalar_gty] in *; try (now constructor). constructor. exact (so_byte sc x SO). Qed.
Lemma type_denotes i f : nth_error (pm_fields (mi_msg x)) i = Some f -> denotes sc (type_gty (pf_ty f) (mi_ti x i)) (type_go (pf_ty f)).
Proof.
  intro N. pose proof (so_types sc x SO i f N) as H. destruct (pf_ty f); cbn [type_gty]; [apply scalar_denotes|..]; (apply dn_name; apply H; exact Logic.I).
Qed.
Lemma field_denotes i f : nth_error (pm_fields (mi_msg x)) i = Some f -> denotes sc (field_gty (mi_ctx x) f (mi_ti x i)) (GoTypeName (mi_ctx x) f).
Proof.
  intro N. pose proof (type_denotes i f N) as T.
  assert (E : denotes sc (elem_gty (pf_ty f) (mi_ti x i) (genNoPointer (mi_ctx x) f)) (goTypeName (pf_ty f) (genNoPointer (mi_ctx x) f))).
  { unfold elem_gty, goTypeName. destruct (pf_ty f); [exact T|exact T|]. destruct (genNoPointer (mi_ctx x) f); [exact T|]. now apply dn_ptr. }
  unfold field_gty, GoTypeName. cbv zeta. destruct (pf_kt f) as [k|]; [apply dn_map; [apply scalar_denotes|exact E]|].
  destruct (pf_rep f); [now apply dn_slice|]. destruct (pf_is_pointer (mi_ctx x) f); [now apply dn_ptr|exact T].
Qed.
Lemma field_decl_is i f : nth_error (pm_fields (mi_msg x)) i = Some f -> field_is sc Unquote (field_decl x i f) (FieldGen Unquote (mi_ctx x) f).
Proof. intro N. eexists _, _, _. split; [reflexivity|]. split; [now apply field_denotes|reflexivity]. Qed.
Lemma field_decls_are : forall l i seen, (forall j f, nth_error l j = Some f -> nth_error (pm_fields (mi_msg x)) (i + j) = Some f) ->
  Forall2 (field_is sc Unquote) (field_decls x seen i l) (struct_fields Unquote (mi_ctx x) (mi_msg x) seen l).
Proof.
  induction l as [|f l IH]; intros i seen H; [constructor|].
  assert (H0 : nth_error (pm_fields (mi_msg x)) i = Some f) by (specialize (H 0 f eq_refl); now rewrite Nat.add_0_r in H).
  assert (HS : forall j g, nth_error l j = Some g -> nth_error (pm_fields (mi_msg x)) (S i + j) = Some g).
  { intros j g N. replace (S i + j) with (i + S j) by lia. now apply H. }
  cbn [field_decls struct_fields]. destruct (pf_one f) as [k|] eqn:P.
  - destruct (existsb (Nat.eqb k) seen); [now apply IH|]. constructor; [|now apply IH]. eexists _, _, _. split; [reflexivity|]. split; [|reflexivity].
    apply dn_name. exact (so_oneofs sc x SO f k (nth_error_In _ _ H0) P).
  - constructor; [now apply field_decl_is|now apply IH].
Qed.
End Meaning.
Lemma own_in g : forall m x, In x (infos m) -> forall d, In d (own_decls g x) -> In d (message_decls g m).
Proof.
  fix IH 1. intros [y ms] x I d D. cbn [infos message_decls] in *. apply in_app_iff. destruct I as [<-|I]; [now left|right].
  induction ms as [|m ms IHl]; [destruct I|]. cbn [map concat] in *. apply in_app_iff in I as [I|I]; apply in_app_iff; [left; now apply (IH m x)|right; now apply IHl].
Qed.
(** The declarations in the file mean the structs of GenField.v, about which the properties of generated
    messages are proved (C56, C83). *)
Theorem C84_message : forall sc Unquote E size g enums msgs m x, In m msgs -> In x (infos (snd m)) -> info_ok x -> scope_ok sc x ->
  message_is sc Unquote (file_decls g enums msgs) x (MessageGen Unquote E size (mi_ctx x) (mi_msg x)).
Proof.
  intros sc Unquote E size g enums msgs m x M X OK SO.
  assert (IN : forall d, In d (own_decls g x) -> In d (file_decls g enums msgs)).
  { intros d D. unfold file_decls. apply in_app_iff. right. apply in_app_iff. right. apply in_concat. exists (message_decls g (snd m)).
    split; [now apply (in_map (fun m => message_decls g (snd m)))|]. now apply (own_in g (snd m) x). }
  assert (ON : forall k d, k < length (pm_oneofs (mi_msg x)) -> In d (oneof_decls x k) -> In d (file_decls g enums msgs)).
  { intros k d K D. apply IN. unfold own_decls. cbv zeta. do 2 right. apply in_app_iff. right. apply in_app_iff. right. apply in_app_iff. right.
    apply in_concat. exists (oneof_decls x k). split; [|exact D]. apply in_map. apply in_seq. lia. }
  constructor.
  - exists (field_decls x [] 0 (pm_fields (mi_msg x))). split; [exact (field_decls_are sc Unquote x SO _ 0 [] (fun j f H => H))|]. apply IN. now left.
  - intros i l I. cbn [MessageGen d_wrappers] in I. unfold wrappers in I. apply in_concat in I as (u & U & I). apply in_map_iff in U as (k & <- & K).
    apply in_map_iff in I as ([j f] & J & I). cbn [fst snd] in J. injection J as -> <-. pose proof I as I'. apply members_iff in I as (_ & N & P). rewrite Nat.sub_0_r in N.
    exists (field_decl x i f), (FieldGen Unquote (mi_ctx x) f). split; [reflexivity|]. split; [now apply field_decl_is|].
    apply in_seq in K. apply (ON k); [lia|]. right. apply in_concat. eexists. split; [apply in_map_iff; exists (i, f); split; [reflexivity|exact I']|]. now left.
  - intros f i k N P. destruct (io_oneofs x OK f k (nth_error_In _ _ N) P) as [KL _]. split; [apply (ON k _ KL); now left|]. apply (ON k _ KL).
    right. apply in_concat. eexists. split; [apply in_map_iff; exists (i, f); split; [reflexivity|]|right; now left].
    apply members_iff. rewrite Nat.sub_0_r. split; [lia|now split].
  - cbn [MessageGen d_wrappers]. unfold wrappers. intro NE. apply IN. unfold own_decls. cbv zeta. do 2 right. apply in_app_iff. right. apply in_app_iff. right. apply in_app_iff. left.
    destruct (pm_oneofs (mi_msg x)) as [|a l] eqn:O; [easy|]. left. f_equal. f_equal. f_equal.
    generalize (seq 0 (length (a :: l))). intro s. induction s as [|k s IH]; [reflexivity|]. cbn [map concat]. rewrite map_app, concat_app, <- IH. f_equal.
    rewrite map_map. reflexivity.
Qed.
Print Assumptions C84_message.

Section Getters.
Variable sc : option bytes -> bytes -> option gotype.
Variable x : minfo.
Hypothesis SO : scope_ok sc x.
Lemma getter_type i f : nth_error (pm_fields (mi_msg x)) i = Some f -> pf_is_msg f = false ->
  match strip_star (GoTypeName (mi_ctx x) f) with
  | Some t => denotes sc (match field_gty (mi_ctx x) f (mi_ti x i) with YPtr t' => t' | t' => t' end) t
  | None => denotes sc (match field_gty (mi_ctx x) f (mi_ti x i) with YPtr t' => t' | t' => t' end) (GoTypeName (mi_ctx x) f)
  end.
Proof.
  intros N M. pose proof (field_denotes sc x SO i f N) as F. pose proof (type_denotes sc x SO i f N) as T.
  revert F. unfold field_gty, GoTypeName. cbv zeta. unfold pf_is_msg, pf_is_map in M. destruct (pf_kt f) as [k|]; [intro F; exact F|]. destruct (pf_rep f); [intro F; exact F|].
  destruct (pf_is_pointer (mi_ctx x) f); [intros _; exact T|]. intro F. cbn [negb andb] in M.
  destruct (pf_ty f) as [s| |id]; [|exact F|discriminate M]. destruct s; exact F.
Qed.
Lemma getters_are : forall l i seen names, (forall j f, nth_error l j = Some f -> nth_error (pm_fields (mi_msg x)) (i + j) = Some f) -> length names = length l ->
  Forall2 (method_is sc x)
    (map (getter_decl x) (combine (getters (mi_ctx x) (mi_msg x) (mi_ti x) (mi_names x) seen i l names) (getter_types x seen i l)))
    (getters (mi_ctx x) (mi_msg x) (mi_ti x) (mi_names x) seen i l names).
Proof.
  induction l as [|f l IH]; intros i seen names H L; destruct names as [|n names]; try discriminate L; [constructor|]. injection L as L.
  assert (H0 : nth_error (pm_fields (mi_msg x)) i = Some f) by (specialize (H 0 f eq_refl); now rewrite Nat.add_0_r in H).
  assert (HS : forall j g, nth_error l j = Some g -> nth_error (pm_fields (mi_msg x)) (S i + j) = Some g).
  { intros j g N. replace (S i + j) with (i + S j) by lia. now apply H. }
  cbn [getters getter_types]. cbv zeta. destruct (pf_one f) as [k|] eqn:P.
  - assert (F : method_is sc x (getter_decl x (member_getter (mi_ctx x) f (mi_ti x i) (rf_go n) i (oneof_GoName (mi_names x) k), field_gty (mi_ctx x) f (mi_ti x i)))
      (member_getter (mi_ctx x) f (mi_ti x i) (rf_go n) i (oneof_GoName (mi_names x) k))).
    { eexists. split; [reflexivity|]. now apply field_denotes. }
    destruct (existsb (Nat.eqb k) seen); cbn [app combine map].
    + constructor; [exact F|now apply IH].
    + constructor; [|constructor; [exact F|now apply IH]]. eexists. split; [reflexivity|]. apply dn_name. exact (so_oneofs sc x SO f k (nth_error_In _ _ H0) P).
  - cbn [combine map]. constructor; [|now apply IH]. eexists. split; [reflexivity|].
    pose proof (getter_type i f H0) as G. unfold field_getter. destruct (pf_is_msg f); [now apply field_denotes|].
    specialize (G eq_refl). cbn [snd]. destruct (strip_star (GoTypeName (mi_ctx x) f)); destruct (field_gty (mi_ctx x) f (mi_ti x i)); exact G.
Qed.
End Getters.
(** So are the getters those of GenGetter.v (C65), if they are asked for. *)
Theorem C84_getters : forall sc g enums msgs m x, In m msgs -> In x (infos (snd m)) -> info_ok x -> scope_ok sc x -> g_getter g = true ->
  exists ds, (forall d, In d ds -> In d (file_decls g enums msgs)) /\
    Forall2 (method_is sc x) ds (message_getters (mi_ctx x) (mi_msg x) (mi_ti x) (mi_names x)).
Proof.
  intros sc g enums msgs m x M X OK SO G. exists (getter_decls x). split.
  - intros d D. unfold file_decls. apply in_app_iff. right. apply in_app_iff. right. apply in_concat. exists (message_decls g (snd m)).
    split; [now apply (in_map (fun m => message_decls g (snd m)))|]. apply (own_in g (snd m) x X). unfold own_decls. cbv zeta. rewrite G.
    do 2 right. apply in_app_iff. right. apply in_app_iff. now left.
  - exact (getters_are sc x SO _ 0 [] (mi_names x) (fun j f H => H) (io_length x OK)).
Qed.
Print Assumptions C84_getters.

(** ** Examples *)
(** enum Color { RED = 0; // x
                 BLUE = -1; }
    message M { string a = 1; map<string, M> b = 2; repeated color.Kind c = 3; oneof o { int32 d = 4; M e = 5; } } *)
Definition tx_enum : etext :=
  mkET (mkEN [bs "Color"] None [mkEV (bs "RED") 0 []; mkEV (bs "BLUE") (-1) []] [] [] [] [])
       (bs "// of things") (bs "/* all */") (fun i => if Nat.eqb i 0 then ([], bs "// x") else ([], [])).
Definition tx_msg : pmsg :=
  mkPM [mkPF (bs "a") None (PScalar PString) 1 false false false [] [] None;
        mkPF (bs "b") (Some PString) (PMsg 0) 2 false false false [] [] None;
        mkPF (bs "c") None PEnum 3 true false false [] [] None;
        mkPF (bs "d") None (PScalar PInt32) 4 false false false [] [] (Some 0);
        mkPF (bs "e") None (PMsg 0) 5 false false false [] [] (Some 0)] [bs "o"].
Definition tx_info : minfo :=
  mkMI (mkC Proto3 [] [] [] [bs "unknown_fields"]) tx_msg (bs "M") (match resolveFieldConflicts tx_msg with Some l => l | None => [] end)
    (fun i => if Nat.eqb i 2 then mkTI (Some (bs "example.com/color")) (bs "Kind") [(bs "Kind_A", 0%Z)] else mkTI None (bs "M") [])
    (fun i => if Nat.eqb i 3 then bs "M_D" else bs "M_E") (fun i => if Nat.eqb i 1 then (bs "// two", bs "// b") else ([], [])) [] [].
Definition tx_m : mtext := MTx tx_info [].
Definition tx_scope (q : option bytes) (n : bytes) : option gotype :=
  match q with
  | None => if str_eqb n (bs "M") then Some (TStruct 0) else if str_eqb n (bs "isM_O") then Some (oneof_type (mi_ctx tx_info) tx_msg 0) else None
  | Some p => if str_eqb p (bs "color") && str_eqb n (bs "Kind") then Some (TScalar Int32) else None
  end.
Lemma no_comment : comments_ok ([], []).
Proof. split; [exists []; split; [constructor|reflexivity]|now left]. Qed.
Lemma line_comment t : ~ In x0a t -> comments_ok ([], bs "//" ++ t) /\ a_comment (bs "//" ++ t).
Proof.
  intro H. pose proof (oc_line t H) as C. split; [split; [apply no_comment|now right]|]. exists [bs "//" ++ t]. split; [now repeat constructor|reflexivity].
Qed.
Lemma tx_enum_ok : enum_ok tx_enum.
Proof.
  assert (NL : forall t, forallb (fun c => negb (beqb c x0a)) t = true -> ~ In x0a t).
  { intros t H I. rewrite forallb_forall in H. specialize (H _ I). discriminate H. }
  constructor.
  - reflexivity.
  - repeat constructor; cbn; lia.
  - split; [exact (proj2 (line_comment (bs " of things") (NL (bs " of things") eq_refl)))|]. right. refine (oc_block (bs " all ") _).
    intros a b E. do 6 (destruct a as [|? a]; [discriminate E|]; try (injection E as _ E)). discriminate E.
  - intro I. cbn in I. repeat (destruct I as [I|I]; [discriminate I|]). exact I.
  - intros [|i]; cbn [tx_enum et_values Nat.eqb]; [exact (proj1 (line_comment (bs " x") (NL (bs " x") eq_refl)))|exact no_comment].
Qed.
Lemma tx_info_ok : info_ok tx_info.
Proof.
  constructor.
  - reflexivity.
  - reflexivity.
  - vm_compute. repeat constructor.
  - intros f k I P. cbn in I. destruct I as [<-|[<-|[<-|[<-|[<-|[]]]]]]; try discriminate P; injection P as <-; (split; [cbn; lia|vm_compute; reflexivity]).
  - repeat constructor.
  - intros k K. cbn in K. assert (k = 0) as -> by lia. vm_compute. reflexivity.
  - assert (TR : forall i, i <> 2 -> type_ok (PMsg 0) (mi_ti tx_info i)).
    { intros i NE. apply Nat.eqb_neq in NE. cbn [mi_ti tx_info]. rewrite NE. split; [reflexivity|]. split; [exact Logic.I|constructor]. }
    intros i f N. destruct i as [|[|[|[|[|i]]]]]; [injection N as <-; (split; [reflexivity|]); (split; [cbn [pf_num]; lia|]); (split; [|reflexivity])..|now destruct i];
      cbn [pf_ty]; try exact Logic.I; try (apply TR; discriminate).
    split; [reflexivity|]. split; [|repeat constructor]. split; [|reflexivity].
    repeat (apply Forall_cons; [unfold path_char, ident_char; vm_compute; auto 10|]); apply Forall_nil.
  - exact no_comment.
  - intros i. cbn [mi_fcom tx_info]. destruct (Nat.eqb i 1); [|exact no_comment].
    assert (NL : forall t, forallb (fun c => negb (beqb c x0a)) t = true -> ~ In x0a t).
    { intros t H I. rewrite forallb_forall in H. specialize (H _ I). discriminate H. }
    split; [exact (proj2 (line_comment (bs " two") (NL (bs " two") eq_refl)))|right; exact (oc_line (bs " b") (NL (bs " b") eq_refl))].
Qed.
Example C84_ex : enum_ok tx_enum /\ message_ok tx_m /\ scope_ok tx_scope tx_info /\
  refers_to (mkG true true) [tx_enum] [([], tx_m)] (bs "example.com/color") /\ refers_to (mkG true true) [tx_enum] [([], tx_m)] (bs "strconv") /\
  In (YStruct (bs "M")
        [(bs "A", name (bs "string"), Some (bs "protobuf:""bytes,1,opt,name=a"" json:""a,omitempty"""));
         (bs "B", YMap (name (bs "string")) (YPtr (name (bs "M"))),
          Some (bs "protobuf:""bytes,2,rep,name=b"" json:""b,omitempty"" protobuf_key:""bytes,1,opt,name=key"" protobuf_val:""bytes,2,opt,name=value"""));
         (bs "C", YSlice (YName (Some (bs "color")) (bs "Kind")), Some (bs "protobuf:""varint,3,rep,packed,name=c"" json:""c,omitempty"""));
         (bs "O", name (bs "isM_O"), Some (bs "protobuf_oneof:""o"""));
         (bs "unknownFields", YSlice (name (bs "byte")), Some (bs "json:""-"""))])
     (file_decls (mkG true true) [tx_enum] [([], tx_m)]).
Proof.
  split; [exact tx_enum_ok|]. split; [exact (message_ok_intro tx_info [] tx_info_ok (Forall_nil _))|]. split.
  { constructor; [intros []; reflexivity|reflexivity| |].
    - intros i f N S. destruct i as [|[|[|[|[|i]]]]]; [injection N as <-; first [destruct S; fail|reflexivity]..|now destruct i].
    - intros f k I P. cbn in I. destruct I as [<-|[<-|[<-|[<-|[<-|[]]]]]]; try discriminate P; injection P as <-; vm_compute; reflexivity. }
  split. { apply (rt_type _ _ _ ([], tx_m) tx_info 2 (nth 2 (pm_fields tx_msg) (mkPF [] None PEnum 0 false false false [] [] None))); [now left|now left|reflexivity|exact Logic.I|reflexivity]. }
  split; [apply (rt_string _ _ _ tx_enum); [now left|reflexivity]|].
  unfold file_decls. apply in_app_iff. right. left. vm_compute. reflexivity.
Qed.

(** An enum whose comment has a percent sign: the comment is part of a format. *)
Theorem C84_refuted : exists p e, package_name p /\ go_word (enum_GoName (et_enum e)) = true /\
  Forall (fun f => go_word (value_GoName (et_enum e) f) = true) (en_values (et_enum e)) /\
  comments_ok (et_head e, et_inline e) /\ (forall i, comments_ok (et_values e i)) /\
  forall srt, let wr := do_calls (NewCodeWriter [] p) (ProtoGen_calls (mkG true true) [e] []) in
  go_reads (Bytes srt wr (w_pkgs wr)) = None.
Proof.
  exists (bs "a"), (mkET (mkEN [bs "E"] None [mkEV (bs "A") 0 []] [bs "no_enum_mapping"] [] [] []) [] (bs "/*%*/") (fun _ => ([], []))).
  split; [pkg_name|]. split; [reflexivity|]. split; [repeat constructor|]. split.
  { split; [apply no_comment|]. right. refine (oc_block (bs "%") _). intros a b E. do 2 (destruct a as [|? a]; [discriminate E|]; try (injection E as _ E)). discriminate E. }
  split; [intro i; exact no_comment|]. intro srt. vm_compute. reflexivity.
Qed.
Print Assumptions C84_refuted.
