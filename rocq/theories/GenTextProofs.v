(** Proofs about the Go text that is written (GenText.v): its tokens are those of the declarations of TextSpec.v. *)
From Coq Require Import List Bool NArith ZArith Strings.String Init.Byte Lia.
From Verif Require Import Base Value GoStr StrFacts GenField GenNames GenEnum GenGetter GenImport ImportSpec WriterSpec Comments
  Props_Comment GenText GoScan GoSyntax TextSpec GoScanProofs GoReadProofs.
Import ListNotations StringSyntax.
Open Scope nat_scope.

(** ** The text of calls *)
Definition call_text (c : call) : bytes :=
  match c with Call_F [] _ => [x0a] | Call_F _ t => line t | Call_Write s => s | _ => [] end.
Definition calls_text (cs : list call) : bytes := concat (map call_text cs).
Definition call_ok (c : call) : Prop :=
  match c with Call_F [] _ => True | Call_F _ t => t <> [] | Call_Reset _ _ => False
  | Call_UsePkg q a => q <> [] /\ Forall path_char q /\ a = [] | Call_Grouping _ => False | _ => True end.
Lemma calls_pieces : forall cs, Forall call_ok cs -> pieces cs (calls_text cs).
Proof.
  induction cs as [|c cs IH]; intro H; [constructor|]. inversion H as [|c' cs' A B]; subst. specialize (IH B).
  unfold calls_text. cbn [map concat]. fold (calls_text cs). destruct c as [h p|p a|g|s|f t]; cbn [call_text call_ok] in *; try contradiction;
    try (now constructor). destruct f as [|c f]; [now constructor|]. constructor; [discriminate|exact A|exact IH].
Qed.

Definition reads (cs : list call) (ts : list tok) : Prop :=
  Forall call_ok cs /\ forall r, scan Start false (calls_text cs ++ r) = ts ++ scan Start false r.
Lemma reads_nil : reads [] [].
Proof. split; [constructor|reflexivity]. Qed.
Lemma reads_app a b s t : reads a s -> reads b t -> reads (a ++ b) (s ++ t).
Proof.
  intros [HA HB] [HC HD]. split; [now apply Forall_app|]. intro r. unfold calls_text. rewrite map_app, concat_app, <- app_assoc.
  fold (calls_text a) (calls_text b). now rewrite HB, HD, app_assoc.
Qed.
Lemma reads_silent a b t : reads a [] -> reads b t -> reads (a ++ b) t.
Proof. apply (reads_app a b [] t). Qed.
Lemma reads_cons c b s t : reads [c] s -> reads b t -> reads (c :: b) (s ++ t).
Proof. apply (reads_app [c] b). Qed.
Lemma reads_eq cs s t : reads cs s -> s = t -> reads cs t.
Proof. now intros H <-. Qed.
Lemma reads_gap : reads [gap] [].
Proof. split; [repeat constructor|reflexivity]. Qed.
Lemma reads_use p : p <> [] -> Forall path_char p -> reads [Call_UsePkg p []] [].
Proof. intros N H. split; [now repeat constructor|reflexivity]. Qed.
Ltac path_chars := repeat (apply Forall_cons; [vm_compute; tauto|]); apply Forall_nil.
Lemma reads_out t ts : t <> [] -> last t x00 <> x0a -> (forall r, scan Start false (t ++ x0a :: r) = ts ++ scan Start false r) -> reads [out t] ts.
Proof.
  intros N L H. split; [now repeat constructor|]. intro r. change (calls_text [out t]) with (line t ++ []). unfold line.
  destruct (beqb (last t x00) x0a) eqn:E; [exfalso; apply L; destruct (last t x00); try discriminate E; reflexivity|].
  rewrite app_nil_r, <- app_assoc. apply H.
Qed.
Lemma reads_map {A} (f : A -> list call) (g : A -> list tok) : forall l, Forall (fun x => reads (f x) (g x)) l ->
  reads (concat (map f l)) (concat (map g l)).
Proof. induction 1 as [|x l H _ IH]; [apply reads_nil|]. cbn [map concat]. now apply reads_app. Qed.
Lemma reads_map1 {A} (f : A -> call) (g : A -> list tok) : forall l, Forall (fun x => reads [f x] (g x)) l ->
  reads (map f l) (concat (map g l)).
Proof. induction 1 as [|x l H _ IH]; [apply reads_nil|]. cbn [map concat]. now apply reads_cons. Qed.

(** ** The end of a line *)
Lemma last_r : forall (a b : bytes), b <> [] -> last (a ++ b) x00 = last b x00.
Proof.
  induction a as [|c a IH]; intros b N; [reflexivity|]. cbn [app last]. rewrite (IH b N). destruct (a ++ b) eqn:E; [|reflexivity].
  apply app_eq_nil in E as [_ E]. contradiction.
Qed.
Lemma word_last n : forallb word_char n = true -> last n x00 <> x0a.
Proof.
  induction n as [|c n IH]; [discriminate|]. cbn [forallb last]. intro H. apply andb_prop in H as [C H]. destruct n as [|d n]; [|exact (IH H)].
  intros ->. discriminate C.
Qed.
Lemma go_word_last n : go_word n = true -> last n x00 <> x0a.
Proof. intro H. apply go_word_inv in H as (c & r & E & _ & W & _). now apply word_last. Qed.
Lemma go_word_ne n : go_word n = true -> n <> [].
Proof. intro H. apply go_word_inv in H as (c & r & -> & _). discriminate. Qed.
Lemma inline_last a s : a <> [] -> last a x00 <> x0a -> s = [] \/ one_comment s -> last (a ++ s) x00 <> x0a.
Proof. intros N L [->|H]; [now rewrite app_nil_r|]. apply one_comment_last in H as [M H]. now rewrite last_r. Qed.
Lemma line_word n e s : go_word n = true -> scan InLine e (n ++ s) = scan InLine e s.
Proof.
  intro H. apply go_word_inv in H as (c & r & _ & _ & W & _). clear c r. induction n as [|c n IH]; [reflexivity|].
  cbn [forallb] in W. apply andb_prop in W as [C W]. cbn [app scan step].
  replace (beqb c x0a) with false by (destruct c; cbn in C |- *; try reflexivity; discriminate C). cbn [app]. now apply IH.
Qed.

(** ** Cutting a line *)
Ltac lit :=
  match goal with
  | |- context[scan ?m ?e (bs ?s ++ ?r)] =>
      rewrite (scan_app (bs s) m e r); let v := eval vm_compute in (run m e (bs s)) in change (run m e (bs s)) with v; cbv iota beta; cbn [app]
  | |- context[scan ?m ?e (dq ++ ?r)] =>
      rewrite (scan_app dq m e r); let v := eval vm_compute in (run m e dq) in change (run m e dq) with v; cbv iota beta; cbn [app]
  | |- context[scan ?m ?e (?c :: bs ?s ++ ?r)] =>
      change (scan m e (c :: bs s ++ r)) with (scan m e ([c] ++ bs s ++ r)); rewrite (scan_app [c] m e (bs s ++ r));
      let v := eval vm_compute in (run m e [c]) in change (run m e [c]) with v; cbv iota beta; cbn [app]
  | |- context[scan ?m ?e ([?c] ++ ?r)] =>
      rewrite (scan_app [c] m e r); let v := eval vm_compute in (run m e [c]) in change (run m e [c]) with v; cbv iota beta; cbn [app]
  end.
Ltac word := first [rewrite start_word by (first [assumption|reflexivity]) | rewrite op_word by assumption | rewrite line_word by assumption].
Ltac cut := intro; rewrite <- ?app_assoc; repeat first [lit | progress word]; try reflexivity.
Ltac ne := first [discriminate | apply go_word_ne; assumption | let E := fresh in intro E; apply app_eq_nil in E as [_ E]; revert E; ne].
Ltac ends := rewrite ?last_r by ne; try discriminate; try (apply go_word_last; assumption).
Ltac out_line := apply reads_out; [ne | ends | cut].

Ltac inline_ends CI := rewrite ?app_assoc; apply inline_last;
  [let E := fresh in intro E; apply app_eq_nil in E as [_ E]; discriminate E | rewrite last_r by discriminate; discriminate | exact CI].

Lemma reads_comment s : a_comment s -> reads (comment s) [].
Proof.
  intro H. destruct (a_comment_last s H) as [->|L]; [apply reads_nil|]. destruct s as [|c s]; [apply reads_nil|]. unfold comment.
  apply reads_out; [discriminate|exact L|]. intro r. now rewrite (start_head _ r H).
Qed.

(** ** Enums *)
Lemma word_app n s : go_word n = true -> forallb word_char s = true -> is_in keywords (n ++ s) = false -> go_word (n ++ s) = true.
Proof.
  intros H S K. apply go_word_inv in H as (c & r & -> & L & W & _). unfold go_word. rewrite K, forallb_app, W, S. cbn [app]. now rewrite L.
Qed.
Lemma no_underscore_keyword a b : is_in keywords (a ++ x5f :: b) = false.
Proof.
  destruct (is_in keywords (a ++ x5f :: b)) eqn:E; [|reflexivity]. exfalso. apply is_in_In in E.
  assert (F : Forall (fun k => existsb (beqb x5f) k = false) keywords) by (repeat constructor). rewrite Forall_forall in F. specialize (F _ E). cbn beta in F.
  rewrite existsb_app in F. cbn [existsb] in F. change (beqb x5f x5f) with true in F. cbn [orb] in F. rewrite orb_true_r in F. discriminate.
Qed.
Lemma word_name n s : go_word n = true -> forallb word_char s = true -> go_word (n ++ x5f :: s) = true.
Proof. intros H S. apply word_app; [exact H| cbn [forallb]; now rewrite S|apply no_underscore_keyword]. Qed.

Lemma const_reads x : enum_ok x -> forall l i, Forall (fun f => go_word (value_GoName (et_enum x) f) = true) l ->
  reads (const_calls x i l) (concat (map const_toks (map (fun f => (value_GoName (et_enum x) f, name (enum_GoName (et_enum x)), signed (ev_value f))) l))).
Proof.
  intros OK. induction l as [|f l IH]; intros i W; [apply reads_nil|]. inversion W as [|f' l' A B]; subst. specialize (IH (S i) B).
  cbn [const_calls map concat]. pose proof (eo_vcomments x OK i) as [H1 H2]. destruct (et_values x i) as [head inline]. cbn [fst snd] in H1, H2.
  pose proof (eo_name x OK) as EN.
  apply reads_silent.
  - destruct head as [|c head]; [apply reads_nil|]. apply reads_silent; [destruct (Nat.eqb i 0); [apply reads_nil|apply reads_gap]|].
    exact (reads_comment (c :: head) H1).
  - apply reads_cons; [|exact IH]. set (v := value_GoName (et_enum x) f) in *. set (n := enum_GoName (et_enum x)) in *. clearbody v n.
    apply reads_out.
    + intro E. apply app_eq_nil in E as [E _]. subst v. discriminate A.
    + rewrite !app_assoc. apply inline_last; [|rewrite last_r by discriminate; discriminate|exact H2]. intro E. apply app_eq_nil in E as [_ E]. discriminate E.
    + cut. rewrite start_int by reflexivity. lit. rewrite (start_inline inline true r H2). unfold const_toks, num_toks, minus_toks. cbn [fst snd].
      destruct (fst (signed (ev_value f))); reflexivity.
Qed.
(** A comment directly behind a word *)
Lemma word_inline n e s r : forallb word_char n = true -> word_ends n = true -> s = [] \/ one_comment s -> 
  scan (InWord n) e (s ++ x0a :: r) = TWord n :: o ";" :: scan Start false r.
Proof.
  intros W E H. assert (ST : stops (s ++ x0a :: r) = true) by (destruct H as [->|[t H|t H]]; reflexivity).
  pose proof (in_word [] n e (s ++ x0a :: r) eq_refl ST) as Q. cbn [app] in Q. rewrite app_nil_r in Q. rewrite Q, E, (start_inline s true r H). reflexivity.
Qed.
Lemma int_toks z : num_toks z = minus_toks (fst (signed z)) ++ [TNum (snd (signed z))].
Proof. reflexivity. Qed.
Lemma name_entries_in : forall l seen z s, In (z, s) (name_entries seen l) -> exists f, In f l /\ ev_value f = z /\ ev_name f = s.
Proof.
  induction l as [|f l IH]; intros seen z s I; [destruct I|]. cbn [name_entries] in I. destruct (Verify.seen seen (ev_value f)).
  - destruct (IH _ _ _ I) as (g & G & H). exists g. split; [now right|exact H].
  - destruct I as [I|I]; [injection I as <- <-; exists f; repeat split; now left|]. destruct (IH _ _ _ I) as (g & G & H). exists g. split; [now right|exact H].
Qed.
Lemma int_ne z : FormatInt z <> [].
Proof. unfold FormatInt. destruct (z <? 0)%Z; [discriminate|]. pose proof (FormatUint_ok (Z.to_N z)). now destruct (FormatUint (Z.to_N z)). Qed.

Lemma EnumGen_reads x : enum_ok x -> reads (EnumGen_calls x) (spells (enum_decls (et_enum x))).
Proof.
  intro OK. pose proof (eo_name x OK) as EN. pose proof (eo_comments x OK) as [CH CI]. cbn [fst snd] in CH, CI. pose proof (eo_percent x OK) as PC.
  pose proof (eo_values x OK) as EV. unfold EnumGen_calls, enum_decls. cbv zeta. rewrite (C71_enum_line_partial _ _ PC).
  set (n := enum_GoName (et_enum x)) in *.
  rewrite spells_cons. apply reads_silent; [now apply reads_comment|].
  rewrite (app_assoc (spell _)). apply reads_app.
  { apply (reads_eq _ ((spell (YDefined n (name (bs "int32"))) ++ [o ";"]) ++ [])); [|now rewrite app_nil_r].
    apply (reads_cons _ [gap]); [|apply reads_gap]. apply reads_out; [discriminate|inline_ends CI|].
    cut. rewrite word_inline; [reflexivity|reflexivity|reflexivity|exact CI]. }
  rewrite spells_app. apply reads_app.
  - destruct (en_values (et_enum x)) as [|f l] eqn:EL; [apply reads_nil|]. rewrite <- EL in *. clear f l EL.
    rewrite spells_one. cbn [spell].
    rewrite <- !app_assoc. apply reads_app; [out_line|]. apply reads_app; [|out_line].
    apply const_reads; [exact OK|]. eapply Forall_impl; [|exact EV]. now intros f [H _].
  - destruct (genMapping (et_enum x)); [|apply reads_nil].
    assert (WN : go_word (n ++ bs "_name") = true) by (apply (word_name n (bs "name")); [exact EN|reflexivity]).
    assert (WV : go_word (n ++ bs "_value") = true) by (apply (word_name n (bs "value")); [exact EN|reflexivity]).
    change (bs "_name = map[int32]string {") with (bs "_name" ++ bs " = map[int32]string {").
    change (bs "_value = map[string]int32 {") with (bs "_value" ++ bs " = map[string]int32 {").
    change (bs "_name[int32(x)]") with (bs "_name" ++ bs "[int32(x)]"). rewrite !(app_assoc n).
    set (nn := n ++ bs "_name") in *. set (nv := n ++ bs "_value") in *. clearbody nn nv.
    set (NE := map (fun v => out (FormatInt (fst v) ++ bs ": " ++ Quote (snd v) ++ bs ",")) (name_entries [] (en_values (et_enum x)))).
    set (VE := map (fun v => out (Quote (fst v) ++ bs ": " ++ FormatInt (snd v) ++ bs ",")) (value_entries (en_values (et_enum x)))).
    set (S3 := [Call_UsePkg (bs "strconv") []; out (bs "func (x " ++ n ++ bs ") String() string {"); out (bs "s, ok := " ++ nn ++ bs "[int32(x)]");
      out (bs "if ok { return s }"); out (bs "return strconv.Itoa(int(x))"); out (bs "}")]).
    set (S1 := [out ([x0a] ++ bs "// Enum value maps for " ++ n ++ bs "."); out (bs "var " ++ nn ++ bs " = map[int32]string {")]).
    set (S2 := [out (bs "}"); gap; out (bs "var " ++ nv ++ bs " = map[string]int32 {")]).
    change [out (bs "}"); Call_UsePkg (bs "strconv") []; out (bs "func (x " ++ n ++ bs ") String() string {"); out (bs "s, ok := " ++ nn ++ bs "[int32(x)]");
      out (bs "if ok { return s }"); out (bs "return strconv.Itoa(int(x))"); out (bs "}")] with ([out (bs "}")] ++ S3).
    rewrite !spells_cons. change (spells []) with (@nil tok). rewrite app_nil_r.
    assert (QE : forall s, forallb word_char s = true -> last (Quote s ++ bs ",") x00 <> x0a) by (intros s _; rewrite last_r by discriminate; discriminate).
    assert (RN : reads NE (concat (map entry_toks (map (fun v => (TNum (snd (signed (fst v))), fst (signed (fst v)), (TStr (snd v), false)))
      (name_entries [] (en_values (et_enum x))))))).
    { unfold NE. rewrite map_map. apply reads_map1. apply Forall_forall. intros [z s] I. apply name_entries_in in I as (f & I & _ & <-).
      rewrite Forall_forall in EV. destruct (EV f I) as (_ & W & _). cbn [fst snd].
      apply reads_out; [intro E; apply app_eq_nil in E as [E _]; now apply int_ne in E|ends|]. intro r. rewrite <- !app_assoc.
      rewrite start_int by reflexivity. lit. rewrite start_quote by exact W. lit. rewrite int_toks, <- app_assoc. unfold entry_toks. cbn [fst snd].
      destruct (fst (signed z)); reflexivity. }
    assert (RV : reads VE (concat (map entry_toks (map (fun v => (TStr (fst v), false, (TNum (snd (signed (snd v))), fst (signed (snd v)))))
      (value_entries (en_values (et_enum x))))))).
    { unfold VE. rewrite map_map. apply reads_map1. apply Forall_forall. intros [s z] I. apply in_map_iff in I as (f & E & I). injection E as <- <-.
      rewrite Forall_forall in EV. destruct (EV f I) as (_ & W & _). cbn [fst snd].
      apply reads_out; [discriminate|ends|].
      intro r. rewrite <- !app_assoc. rewrite start_quote by exact W. lit. rewrite start_int by reflexivity. lit. rewrite int_toks, <- app_assoc. unfold entry_toks. cbn [fst snd].
      destruct (fst (signed (ev_value f))); reflexivity. }
    set (NT := concat (map entry_toks (map (fun v => (TNum (snd (signed (fst v))), fst (signed (fst v)), (TStr (snd v), false))) _))) in *.
    set (VT := concat (map entry_toks (map (fun v => (TStr (fst v), false, (TNum (snd (signed (snd v))), fst (signed (snd v))))) _))) in *.
    apply (reads_eq _ ([w "var"; TWord nn; o "="; w "map"; o "["; w "int32"; o "]"; w "string"; o "{"] ++ NT ++
      [o "}"; o ";"; w "var"; TWord nv; o "="; w "map"; o "["; w "string"; o "]"; w "int32"; o "{"] ++ VT ++ [o "}"; o ";"] ++
      [w "func"; o "("; w "x"; TWord n; o ")"; w "String"; o "("; o ")"; w "string"; o "{";
       w "s"; o ","; w "ok"; o ":="; TWord nn; o "["; w "int32"; o "("; w "x"; o ")"; o "]"; o ";";
       w "if"; w "ok"; o "{"; w "return"; w "s"; o "}"; o ";";
       w "return"; w "strconv"; o "."; w "Itoa"; o "("; w "int"; o "("; w "x"; o ")"; o ")"; o ";"; o "}"; o ";"])).
    2:{ cbn [spell ty_toks name]. fold NT VT. cbn [app]. rewrite <- ?app_assoc. cbn [app]. rewrite <- ?app_assoc. reflexivity. }
    apply reads_app.
    { apply reads_silent with (a := [_]); out_line. }
    apply reads_app; [exact RN|]. apply reads_app.
    { apply (reads_cons _ _ [o "}"; o ";"]); [out_line|]. apply reads_silent with (a := [gap]); [apply reads_gap|out_line]. }
    apply reads_app; [exact RV|]. apply (reads_app [_]); [out_line|]. unfold S3.
    apply reads_silent with (a := [_]); [apply reads_use; [discriminate|path_chars]|].
    apply (reads_cons _ _ [w "func"; o "("; w "x"; TWord n; o ")"; w "String"; o "("; o ")"; w "string"; o "{"]); [out_line|].
    apply (reads_cons _ _ [w "s"; o ","; w "ok"; o ":="; TWord nn; o "["; w "int32"; o "("; w "x"; o ")"; o "]"; o ";"]); [out_line|].
    apply (reads_cons _ _ [w "if"; w "ok"; o "{"; w "return"; w "s"; o "}"; o ";"]); [out_line|].
    apply (reads_cons _ _ [w "return"; w "strconv"; o "."; w "Itoa"; o "("; w "int"; o "("; w "x"; o ")"; o ")"; o ";"] [o "}"; o ";"]); out_line.
Qed.

(** ** Types *)
Definition tscan (T : bytes) (y : gty) : Prop :=
  forall e s, stops s = true -> scan Start e (T ++ s) = ty_toks y ++ scan Start true s.
Definition op_before (T : bytes) : Prop :=
  forall e s op, op = bs "*" \/ op = bs "]" -> scan (InOp op) e (T ++ s) = TOp op :: scan Start (op_ends op) (T ++ s).
Lemma qualified_scan q n : match q with Some p => Forall path_char p /\ go_word (path_Base p) = true | None => True end -> go_word n = true ->
  tscan (qualified q n) (YName (option_map path_Base q) n) /\ op_before (qualified q n).
Proof.
  intros Q N. destruct q as [p|]; cbn [qualified option_map].
  - destruct Q as [_ Q]. set (b := path_Base p) in *. clearbody b. split.
    + intros e s S. rewrite <- !app_assoc. rewrite start_word by (first [assumption|reflexivity]). lit. rewrite op_word by assumption. rewrite start_word by assumption. reflexivity.
    + intros e s op _. rewrite <- !app_assoc. now apply op_word.
  - split.
    + intros e s S. rewrite start_word by assumption. reflexivity.
    + intros e s op _. now apply op_word.
Qed.
Lemma scalar_scan s : tscan (go_text (scalar2GoTypes s)) (scalar_gty (scalar2GoTypes s)) /\ op_before (go_text (scalar2GoTypes s)).
Proof.
  assert (B : tscan (bs "[]byte") (YSlice (name (bs "byte")))).
  { intros e r S. change (bs "[]byte") with (bs "[]" ++ bs "byte"). rewrite <- app_assoc. lit. rewrite op_word by reflexivity. rewrite start_word by (try reflexivity; assumption). reflexivity. }
  assert (W : forall n, go_word n = true -> tscan n (name n) /\ op_before n) by (intros n H; exact (qualified_scan None n Logic.I H)).
  destruct s; cbn [scalar2GoTypes scalar_gty go_text]; try (apply W; reflexivity).
  split; [exact B|]. intros e r op [->| ->]; reflexivity.
Qed.
Lemma type_scan t ti : type_ok t ti -> tscan (type_text t ti) (type_gty t ti) /\ op_before (type_text t ti).
Proof.
  intro H. destruct t as [s| |id]; cbn [type_ok] in H.
  - apply scalar_scan.
  - destruct H as (N & P & _). now apply qualified_scan.
  - destruct H as (N & P & _). now apply qualified_scan.
Qed.
Lemma star_scan T y : tscan T y -> op_before T -> tscan (bs "*" ++ T) (YPtr y) /\ op_before (bs "*" ++ T).
Proof.
  intros H OB. split.
  - intros e s S. rewrite <- app_assoc. lit. rewrite OB by now left. rewrite H by exact S. reflexivity.
  - intros e s op [->| ->]; reflexivity.
Qed.
Lemma elem_scan t ti b : type_ok t ti -> tscan (goTypeName_text t ti b) (elem_gty t ti b) /\ op_before (goTypeName_text t ti b).
Proof.
  intro H. pose proof (type_scan t ti H) as [A B]. destruct t as [s| |id]; cbn [goTypeName_text elem_gty]; try (now split).
  destruct b; [now split|now apply star_scan].
Qed.
Lemma field_scan c f ti : type_ok (pf_ty f) ti -> tscan (GoTypeName_text c f ti) (field_gty c f ti).
Proof.
  intro H. unfold GoTypeName_text, field_gty. cbv zeta. pose proof (elem_scan _ _ (genNoPointer c f) H) as [A B]. pose proof (type_scan _ _ H) as [TA TB].
  destruct (pf_kt f) as [k|].
  - pose proof (scalar_scan k) as [KA KB]. intros e s S. rewrite <- !app_assoc. lit.
    assert (KO : forall e s, scan (InOp (bs "[")) e (go_text (scalar2GoTypes k) ++ s) = TOp (bs "[") :: scan Start (op_ends (bs "[")) (go_text (scalar2GoTypes k) ++ s)).
    { intros e' s'. destruct k; cbn [scalar2GoTypes go_text]; try (apply op_word; reflexivity); reflexivity. }
    change [x5b] with (bs "["). rewrite KO. rewrite KA by reflexivity. lit. change [x5d] with (bs "]"). rewrite B by now right. rewrite A by exact S.
    cbn [ty_toks app]. rewrite <- ?app_assoc. reflexivity.
  - destruct (pf_rep f).
    + intros e s S. rewrite <- app_assoc. lit. change [x5d] with (bs "]"). rewrite B by now right. rewrite A by exact S. reflexivity.
    + destruct (pf_is_pointer c f); [now apply star_scan|exact TA].
Qed.

(** ** Tags *)
Definition no_bq (s : bytes) : bool := forallb (fun c => negb (beqb c x60)) s.
Lemma no_bq_in s : no_bq s = true -> ~ In x60 s.
Proof. unfold no_bq. rewrite forallb_forall. intros H I. specialize (H _ I). discriminate H. Qed.
Lemma no_bq_app a b : no_bq a = true -> no_bq b = true -> no_bq (a ++ b) = true.
Proof. unfold no_bq. intros A B. now rewrite forallb_app, A, B. Qed.
Lemma no_bq_word s : forallb word_char s = true -> no_bq s = true.
Proof.
  unfold no_bq. induction s as [|c s IH]; [reflexivity|]. cbn [forallb]. intro H. apply andb_prop in H as [C H]. rewrite (IH H).
  destruct c; cbn in C |- *; try reflexivity; discriminate C.
Qed.
Lemma no_bq_int z : no_bq (FormatInt z) = true.
Proof.
  unfold FormatInt. assert (D : forall n, no_bq (FormatUint n) = true).
  { intro n. apply no_bq_word. pose proof (digits_digit 20 n) as H. unfold FormatUint. induction (digits 20 n) as [|c l IH]; [reflexivity|].
    cbn [forallb] in *. apply andb_prop in H as [C H]. rewrite (IH H). unfold word_char. rewrite C, orb_true_r. reflexivity. }
  destruct (z <? 0)%Z; [|apply D]. change (no_bq (n2b 45 :: FormatUint (Z.to_N (- z)))) with (no_bq (FormatUint (Z.to_N (- z)))). apply D.
Qed.
Lemma tag_no_bq c f : forallb word_char (pf_name f) = true -> ~ In x60 (FieldStructTag c f).
Proof.
  intro H. apply no_bq_in. apply no_bq_word in H. unfold FieldStructTag.
  assert (EN : no_bq (EncodingType (pf_ty f)) = true) by (destruct (pf_ty f) as [[]| |]; reflexivity).
  repeat (apply no_bq_app); try reflexivity; try exact H; try apply no_bq_int; try exact EN.
  - destruct (pf_is_map f); [reflexivity|exact EN].
  - destruct (pf_rep f || pf_is_map f); [destruct (IsPackedEncoding c f)|destruct (pf_req f)]; reflexivity.
  - destruct (pf_kt f) as [k|]; [|reflexivity]. repeat (apply no_bq_app); try reflexivity; try exact EN. destruct k; reflexivity.
Qed.

(** ** Fields *)
(** Tokens that close [k] blocks more than they open *)
Definition closes (k : nat) (ts : list tok) : Prop :=
  forall d r, block (k + d) (ts ++ r) = match block d r with Some (l, r') => Some (ts ++ l, r') | None => None end.
Lemma closes_nil : closes 0 [].
Proof. intros d r. cbn [app Nat.add]. now destruct (block d r) as [[? ?]|]. Qed.
Lemma closes_tok k t ts : op (bs "}") t = false -> op (bs "{") t = false -> closes k ts -> closes k (t :: ts).
Proof. intros A B H d r. cbn [app block]. rewrite A, B, H. now destruct (block d r) as [[? ?]|]. Qed.
Lemma closes_open k ts : closes (S k) ts -> closes k (o "{" :: ts).
Proof.
  intros H d r. cbn [app block]. change (op (bs "}") (o "{")) with false. change (op (bs "{") (o "{")) with true. cbv iota.
  change (S (k + d)) with (S k + d). rewrite H. now destruct (block d r) as [[? ?]|].
Qed.
Lemma closes_close k ts : closes k ts -> closes (S k) (o "}" :: ts).
Proof. intros H d r. cbn [app block Nat.add]. change (op (bs "}") (o "}")) with true. cbv iota. rewrite H. now destruct (block d r) as [[? ?]|]. Qed.
Lemma closes_app k a ts : balanced a -> closes k ts -> closes k (a ++ ts).
Proof. intros A H d r. rewrite <- app_assoc, A, H. destruct (block d r) as [[l r']|]; [now rewrite app_assoc|reflexivity]. Qed.
Ltac bal := cbn [app stmt_toks];
  match goal with |- balanced ?t => change (closes 0 t) end;
  repeat match goal with
         | |- closes 0 [] => exact closes_nil
         | |- closes _ (o "{" :: _) => refine (closes_open _ _ _)
         | |- closes (S _) (o "}" :: _) => refine (closes_close _ _ _)
         | |- closes ?k (TOp [x7b] :: ?r) => change (closes k (o "{" :: r))
         | |- closes ?k (TOp [x7d] :: ?r) => change (closes k (o "}" :: r))
         | |- closes _ (_ :: _) => apply closes_tok; [reflexivity|reflexivity|]
         end.
Section Message.
Variable x : minfo.
Hypothesis OK : info_ok x.

Lemma go_name_word i f : nth_error (pm_fields (mi_msg x)) i = Some f -> go_word (go_name x i) = true.
Proof.
  intro H. unfold go_name. pose proof (io_names x OK) as W. rewrite Forall_forall in W. apply W. apply nth_In. rewrite (io_length x OK).
  apply nth_error_Some. congruence.
Qed.
Lemma oneof_type_word k : go_word (oneof_field_name x k) = true -> go_word (oneof_type_name x k) = true.
Proof.
  intro H. unfold oneof_type_name. rewrite app_assoc. change (bs "_" ++ oneof_field_name x k) with (x5f :: oneof_field_name x k).
  pose proof (io_name x OK) as G. apply go_word_inv in G as (c & r & _ & _ & W & _). 
  assert (WN : forallb word_char (oneof_field_name x k) = true) by (now apply go_word_inv in H as (c' & r' & _ & _ & W' & _)).
  unfold go_word. rewrite no_underscore_keyword. rewrite !forallb_app. cbn [forallb]. rewrite W, WN. reflexivity.
Qed.
Lemma FieldGen_reads i f : nth_error (pm_fields (mi_msg x)) i = Some f -> reads (FieldGen_calls x i f) (field_toks (field_decl x i f)).
Proof.
  intro NE. pose proof (go_name_word i f NE) as GN. destruct (io_fields x OK i f NE) as (FN & _ & FT & _). pose proof (io_fcomments x OK i) as [H1 H2].
  unfold FieldGen_calls. destruct (mi_fcom x i) as [head inline]. cbn [fst snd] in H1, H2. apply reads_silent; [now apply reads_comment|].
  apply (reads_eq _ (field_toks (field_decl x i f) ++ [])); [|apply app_nil_r].
  apply reads_cons.
  - unfold field_toks, field_decl. cbn [fst snd]. set (n := go_name x i) in *. clearbody n. apply reads_out.
    + intro E. apply app_eq_nil in E as [E _]. subst n. discriminate GN.
    + inline_ends H2.
    + intro r. rewrite <- !app_assoc. rewrite start_word by (first [assumption|reflexivity]). lit.
      rewrite (field_scan (mi_ctx x) f (mi_ti x i) FT) by reflexivity. lit.
      change (bs "` " ++ inline ++ x0a :: r) with (x60 :: bs " " ++ inline ++ x0a :: r). rewrite in_raw by now apply tag_no_bq. lit.
      rewrite (start_inline inline true r H2). cbn [app]. rewrite <- ?app_assoc. reflexivity.
  - assert (U : forall p, Forall path_char p /\ go_word (path_Base p) = true -> reads [Call_UsePkg p []] []).
    { intros p [P W]. apply reads_use; [|exact P]. intros ->. discriminate W. }
    destruct (pf_ty f); [apply reads_nil| |]; destruct FT as (_ & FT & _); (destruct (ti_import (mi_ti x i)); [now apply U|apply reads_nil]).
Qed.
Lemma members_in : forall l k i j f, In (j, f) (oneof_fields k i l) -> i <= j /\ nth_error l (j - i) = Some f /\ pf_one f = Some k.
Proof.
  induction l as [|g l IH]; intros k i j f I; [destruct I|]. cbn [oneof_fields] in I.
  assert (R : In (j, f) (oneof_fields k (S i) l) -> i <= j /\ nth_error (g :: l) (j - i) = Some f /\ pf_one f = Some k).
  { intro J. destruct (IH _ _ _ _ J) as (L & N & P). split; [lia|]. split; [|exact P]. replace (j - i) with (S (j - S i)) by lia. exact N. }
  destruct (pf_one g) as [k'|] eqn:E; [|now apply R]. destruct (Nat.eqb k' k) eqn:Q; [|now apply R].
  destruct I as [I|I]; [|now apply R]. injection I as <- <-. apply Nat.eqb_eq in Q. subst k'. rewrite Nat.sub_diag. split; [lia|]. now split.
Qed.
Lemma member_nth k j f : In (j, f) (members x k) -> nth_error (pm_fields (mi_msg x)) j = Some f /\ pf_one f = Some k.
Proof. intro I. destruct (members_in _ _ _ _ _ I) as (_ & N & P). rewrite Nat.sub_0_r in N. now split. Qed.

Lemma struct_reads : forall l i seen, (forall j f, nth_error l j = Some f -> nth_error (pm_fields (mi_msg x)) (i + j) = Some f) ->
  reads (struct_calls x seen i l) (concat (map field_toks (field_decls x seen i l))).
Proof.
  induction l as [|f l IH]; intros i seen H; [apply reads_nil|].
  assert (H0 : nth_error (pm_fields (mi_msg x)) i = Some f) by (specialize (H 0 f eq_refl); now rewrite Nat.add_0_r in H).
  assert (HS : forall j g, nth_error l j = Some g -> nth_error (pm_fields (mi_msg x)) (S i + j) = Some g).
  { intros j g N. replace (S i + j) with (i + S j) by lia. now apply H. }
  cbn [struct_calls field_decls]. destruct (pf_one f) as [k|] eqn:PO.
  - destruct (existsb (Nat.eqb k) seen); [now apply IH|].
    destruct (io_oneofs x OK f k (nth_error_In _ _ H0) PO) as [KL KW]. pose proof (oneof_type_word k (io_oneof_types x OK k KL)) as TW.
    pose proof (io_name x OK) as MW.
    assert (NW : forallb word_char (nth k (pm_oneofs (mi_msg x)) []) = true).
    { pose proof (io_oneof_names x OK) as W. rewrite Forall_forall in W. apply W. now apply nth_In. }
    set (nm := nth k (pm_oneofs (mi_msg x)) []) in *. clearbody nm.
    apply reads_silent.
    { apply (reads_silent [_]); out_line. }
    apply reads_silent.
    { apply (reads_eq _ (concat (map (fun _ => []) (members x k)))).
      - apply reads_map1. apply Forall_forall. intros [j g] I. apply member_nth in I as [I _]. pose proof (go_name_word j g I) as GW. cbn [fst]. out_line.
      - induction (members x k) as [|p q IHq]; [reflexivity|exact IHq]. }
    cbn [map concat]. apply reads_cons; [|now apply IH]. unfold field_toks. cbn [fst snd ty_toks name].
    set (on := oneof_name x k) in *. set (ot := oneof_type_name x k) in *. clearbody on ot. apply reads_out; [ne|ends|].
    intro r. rewrite <- !app_assoc. rewrite start_word by (first [assumption|reflexivity]). lit. rewrite start_word by (first [assumption|reflexivity]).
    change (bs " `protobuf_oneof:" ++ dq ++ nm ++ dq ++ bs "`" ++ x0a :: r) with (bs " `" ++ (bs "protobuf_oneof:" ++ dq) ++ nm ++ dq ++ x60 :: x0a :: r).
    lit. rewrite (app_assoc nm), (app_assoc _ (nm ++ dq)). rewrite in_raw.
    2:{ apply no_bq_in. repeat apply no_bq_app; try reflexivity. now apply no_bq_word. }
    rewrite <- !app_assoc. reflexivity.
  - apply reads_silent.
    { destruct i; [apply reads_nil|]. destruct (fst (mi_fcom x (S i))); [apply reads_nil|apply reads_gap]. }
    cbn [map concat]. apply reads_app; [now apply FieldGen_reads|now apply IH].
Qed.

(** ** Getters *)
Lemma get_word n e s : forallb word_char n = true -> stops s = true -> scan (InWord [x47; x65; x74]) e (n ++ s) = TWord (Getter n) :: scan Start true s.
Proof. intros W ST. rewrite in_word by assumption. reflexivity. Qed.
Lemma word_chars n : go_word n = true -> forallb word_char n = true.
Proof. intro H. now apply go_word_inv in H as (c & r & _ & _ & W & _). Qed.
Lemma getter_reads n T y B b : go_word n = true -> tscan T y -> reads B b ->
  reads (getter_head x n T :: B ++ [out (bs "}")]) (spell (YFunc [w "x"; o "*"; TWord (mi_go x)] (Getter n) [] (ResOne y) b) ++ [o ";"]).
Proof.
  intros W HT HB. pose proof (io_name x OK) as MW.
  apply (reads_eq _ (([w "func"; o "("; w "x"; o "*"; TWord (mi_go x); o ")"; TWord (Getter n); o "("; o ")"] ++ ty_toks y ++ [o "{"]) ++ b ++ [o "}"; o ";"])).
  2:{ cbn [spell result_toks app]. rewrite <- ?app_assoc. cbn [app]. rewrite <- ?app_assoc. reflexivity. }
  apply reads_cons.
  - unfold getter_head. apply reads_out; [discriminate| |].
    + ends.
    + intro r. rewrite <- !app_assoc. lit. rewrite op_word by assumption. rewrite start_word by (first [assumption|reflexivity]). lit.
      rewrite get_word by (first [now apply word_chars|reflexivity]). lit. rewrite HT by reflexivity. lit. cbn [app]. rewrite <- ?app_assoc. reflexivity.
  - apply reads_app; [exact HB|out_line].
Qed.
(** What GoZero returns *)
Lemma zero_forms c f ti : type_ok (pf_ty f) ti ->
  In (GoZero c f ti) [bs "nil"; bs "0"; bs "false"; dq ++ dq] \/
  exists q n b, GoZero c f ti = qualified q n ++ b /\ match q with Some p => Forall path_char p /\ go_word (path_Base p) = true | None => True end /\ go_word n = true /\ (b = [] \/ b = bs "{}").
Proof.
  intro H. unfold GoZero. destruct (pf_is_map f || pf_rep f); [left; now left|].
  assert (D : forall ft : bytes, (forall id, pf_ty f = PMsg id -> exists q n, ft = qualified q n /\ match q with Some p => Forall path_char p /\ go_word (path_Base p) = true | None => True end /\ go_word n = true) ->
    let z := if existsb (str_eqb ft) [bs "float32"; bs "float64"; bs "int32"; bs "int64"; bs "uint32"; bs "uint64"] then bs "0"
      else if str_eqb ft (bs "bool") then bs "false" else if str_eqb ft (bs "string") then dq ++ dq
      else if str_eqb ft (bs "[]byte") then bs "nil" else if pf_is_msg f && genNoPointer c f then ft ++ bs "{}" else bs "nil" in
    In z [bs "nil"; bs "0"; bs "false"; dq ++ dq] \/
    exists q n b, z = qualified q n ++ b /\ match q with Some p => Forall path_char p /\ go_word (path_Base p) = true | None => True end /\ go_word n = true /\ (b = [] \/ b = bs "{}")).
  { intros ft Q z. unfold z. clear z.
    destruct (existsb (str_eqb ft) _); [left; right; now left|].
    destruct (str_eqb ft (bs "bool")); [left; right; right; now left|].
    destruct (str_eqb ft (bs "string")); [left; right; right; right; now left|].
    destruct (str_eqb ft (bs "[]byte")); [left; now left|].
    destruct (pf_is_msg f && genNoPointer c f) eqn:M; [|left; now left]. apply andb_prop in M as [M _]. unfold pf_is_msg in M. apply andb_prop in M as [_ M].
    destruct (pf_ty f) as [s| |id] eqn:T; try discriminate M. destruct (Q id eq_refl) as (q & n & -> & P & N). right. exists q, n, (bs "{}"). auto. }
  destruct (pf_ty f) as [s| |id] eqn:T; cbn [type_ok] in H.
  - apply (D (type_text (PScalar s) ti)). discriminate.
  - destruct H as (N & P & V). destruct (find (fun v => Z.eqb (snd v) 0) (ti_values ti)) as [[zero z]|] eqn:F; [|left; right; now left].
    right. exists (ti_import ti), zero, []. rewrite app_nil_r. split; [reflexivity|]. split; [exact P|]. split; [|now left].
    apply find_some in F as [I _]. rewrite Forall_forall in V. exact (V _ I).
  - apply (D (type_text (PMsg id) ti)). intros id' _. destruct H as (N & P & V). now exists (ti_import ti), (ti_name ti).
Qed.
Lemma balanced_nil : balanced [].
Proof. intros d r. cbn [app]. now destruct (block d r) as [[? ?]|]. Qed.
Lemma balanced_app a b : balanced a -> balanced b -> balanced (a ++ b).
Proof. intros A B d r. rewrite <- app_assoc, A, B. destruct (block d r) as [[l r']|]; [now rewrite app_assoc|reflexivity]. Qed.
Lemma zero_reads c f ti : type_ok (pf_ty f) ti ->
  reads [out (bs "return " ++ GoZero c f ti)] (w "return" :: go_tokens (GoZero c f ti)) /\ balanced (w "return" :: go_tokens (GoZero c f ti)).
Proof.
  intro H. destruct (zero_forms c f ti H) as [I|(q & n & b & E & P & N & B)].
  - destruct I as [<-|[<-|[<-|[<-|[]]]]]; (split; [apply reads_out; [discriminate|discriminate|intro r; reflexivity]|]);
      match goal with |- balanced ?t => let v := eval vm_compute in t in change t with v end; bal.
  - rewrite E. pose proof (qualified_scan q n P N) as [QS _].
    assert (QN : qualified q n <> []) by (destruct q; cbn [qualified]; [ne|now apply go_word_ne]).
    assert (QL : last (qualified q n) x00 <> x0a) by (destruct q; cbn [qualified]; [rewrite app_assoc, last_r by (now apply go_word_ne); now apply go_word_last|now apply go_word_last]).
    destruct B as [-> | ->].
    + rewrite app_nil_r. assert (G : go_tokens (qualified q n) = ty_toks (YName (option_map path_Base q) n) ++ [o ";"]).
      { unfold go_tokens. rewrite <- (app_nil_r (qualified q n)) at 1. rewrite (QS false [] eq_refl). reflexivity. }
      rewrite G. split.
      * apply reads_out; [discriminate| |].
        -- rewrite last_r by exact QN. exact QL.
        -- intro r. rewrite <- app_assoc. lit. rewrite QS by reflexivity. cbn [app]. rewrite <- app_assoc. reflexivity.
      * destruct q; cbn [option_map ty_toks app]; bal.
    + assert (G : go_tokens (qualified q n ++ bs "{}") = ty_toks (YName (option_map path_Base q) n) ++ [o "{"; o "}"; o ";"]).
      { unfold go_tokens. rewrite (QS false (bs "{}") eq_refl). reflexivity. }
      rewrite G. split.
      * apply reads_out; [discriminate| |].
        -- rewrite app_assoc, last_r by discriminate. discriminate.
        -- intro r. rewrite <- !app_assoc. lit. rewrite QS by reflexivity. lit. cbn [app]. rewrite <- app_assoc. reflexivity.
      * destruct q; cbn [option_map ty_toks app]; bal.
Qed.

Definition getter_decl (y : method * gty) : gdecl :=
  YFunc [w "x"; o "*"; TWord (mi_go x)] (me_name (fst y)) [] (ResOne (snd y)) (concat (map (stmt_toks x) (me_body (fst y)))).
Lemma text_star c f ti : type_ok (pf_ty f) ti -> pf_is_msg f = false ->
  (exists e T y, GoTypeName c f = TPtr e /\ GoTypeName_text c f ti = bs "*" ++ T /\ field_gty c f ti = YPtr y /\ tscan T y) \/
  (strip_star (GoTypeName c f) = None /\ is_star (GoTypeName_text c f ti) = false /\ forall y, field_gty c f ti <> YPtr y).
Proof.
  intros H M. unfold GoTypeName, GoTypeName_text, field_gty. cbv zeta. destruct (pf_kt f) as [k|] eqn:K; [right; repeat split; discriminate|].
  destruct (pf_rep f); [right; repeat split; discriminate|].
  destruct (pf_is_pointer c f).
  - left. exists (type_go (pf_ty f)), (type_text (pf_ty f) ti), (type_gty (pf_ty f) ti). repeat split. now apply type_scan.
  - right. destruct (pf_ty f) as [s| |id] eqn:T.
    + destruct s; repeat split; discriminate.
    + cbn [type_ok] in H. destruct H as (N & P & _). split; [reflexivity|]. split; [|discriminate]. cbn [type_text]. unfold qualified.
      assert (L : forall b r, go_word b = true -> is_star (b ++ r) = false).
      { intros b r B. apply go_word_inv in B as (c0 & q & -> & L & _). cbn [app is_star]. destruct c0; try reflexivity; discriminate L. }
      destruct (ti_import ti); [now apply L|]. rewrite <- (app_nil_r (ti_name ti)). now apply L.
    + unfold pf_is_msg, pf_is_map in M. rewrite K, T in M. discriminate M.
Qed.
Lemma skipn_nth : forall A (l : list A) i n r d, skipn i l = n :: r -> nth i l d = n /\ skipn (S i) l = r.
Proof.
  induction l as [|a l IH]; intros i n r d E; [destruct i; discriminate E|]. destruct i as [|i]; [cbn in E; injection E as <- <-; now split|].
  cbn [skipn] in E. destruct (IH i n r d E) as [P Q]. split; [exact P|exact Q].
Qed.
Lemma getters_reads : forall l i seen names, (forall j f, nth_error l j = Some f -> nth_error (pm_fields (mi_msg x)) (i + j) = Some f) ->
  skipn i (mi_names x) = names -> length names = length l ->
  reads (getter_calls x seen i l)
    (spells (map getter_decl (combine (getters (mi_ctx x) (mi_msg x) (mi_ti x) (mi_names x) seen i l names) (getter_types x seen i l)))).
Proof.
  induction l as [|f l IH]; intros i seen names H SK LE; [apply reads_nil|]. destruct names as [|n names]; [discriminate LE|].
  assert (H0 : nth_error (pm_fields (mi_msg x)) i = Some f) by (specialize (H 0 f eq_refl); now rewrite Nat.add_0_r in H).
  assert (HS : forall j g, nth_error l j = Some g -> nth_error (pm_fields (mi_msg x)) (S i + j) = Some g).
  { intros j g N. replace (S i + j) with (i + S j) by lia. now apply H. }
  destruct (skipn_nth _ _ _ _ _ (mkRF [] None) SK) as [NN SS]. injection LE as LE.
  assert (GN : rf_go n = go_name x i) by (unfold go_name; now rewrite NN).
  pose proof (go_name_word i f H0) as GW. destruct (io_fields x OK i f H0) as (_ & _ & TO & WW). pose proof (io_name x OK) as MW.
  pose proof (field_scan (mi_ctx x) f (mi_ti x i) TO) as FS. destruct (zero_reads (mi_ctx x) f (mi_ti x i) TO) as [ZR _].
  cbn [getter_calls getters getter_types]. cbv zeta. rewrite GN. set (zz := out (bs "return " ++ GoZero (mi_ctx x) f (mi_ti x i))) in *.
  apply (reads_silent [gap]); [apply reads_gap|].
  destruct (pf_one f) as [k|] eqn:PO.
  - specialize (IH (S i) (k :: seen) names HS SS LE).
    destruct (io_oneofs x OK f k (nth_error_In _ _ H0) PO) as [KL KW]. pose proof (oneof_type_word k (io_oneof_types x OK k KL)) as TW.
    fold (oneof_name x k).
    assert (R1 : reads [getter_head x (oneof_name x k) (oneof_type_name x k); out (bs "if x != nil { return x." ++ oneof_name x k ++ bs " }"); out (bs "return nil"); out (bs "}")]
      (spells [getter_decl (oneof_getter (mi_ctx x) (mi_msg x) k (oneof_name x k), name (oneof_type_name x k))])).
    { rewrite spells_one. unfold getter_decl. cbn [fst snd oneof_getter me_name me_body].
      apply (getter_reads (oneof_name x k) _ (name (oneof_type_name x k)) [_; _]); [exact KW|now apply (qualified_scan None)|].
      cbn [map concat]. apply reads_cons; [unfold stmt_toks; out_line|]. rewrite app_nil_r. split; [now repeat constructor|intro r; reflexivity]. }
    assert (R2 : reads [getter_head x (go_name x i) (GoTypeName_text (mi_ctx x) f (mi_ti x i));
        out (bs "if p, ok := x.Get" ++ oneof_name x k ++ bs "().(*" ++ mi_wrap x i ++ bs "); ok {"); out (bs "return p." ++ go_name x i); out (bs "}"); zz; out (bs "}")]
      (spells [getter_decl (member_getter (mi_ctx x) f (mi_ti x i) (go_name x i) i (oneof_name x k), field_gty (mi_ctx x) f (mi_ti x i))])).
    { rewrite spells_one. unfold getter_decl. cbn [fst snd member_getter me_name me_body].
      apply (getter_reads (go_name x i) _ _ [_; _; _; _]); [exact GW|exact FS|].
      cbn [map concat]. rewrite app_nil_r.
      apply (reads_app [_; _; _] [_]); [|exact ZR]. unfold stmt_toks.
      apply (reads_cons _ _ [w "if"; w "p"; o ","; w "ok"; o ":="; w "x"; o "."; TWord (Getter (oneof_name x k)); o "("; o ")"; o "."; o "("; o "*";
                        TWord (mi_wrap x i); o ")"; o ";"; w "ok"; o "{"]).
      - apply reads_out; [discriminate|ends|]. intro r. rewrite <- !app_assoc. lit. rewrite get_word by (first [now apply word_chars|reflexivity]). lit.
        rewrite op_word by assumption. rewrite start_word by (first [assumption|reflexivity]). lit. reflexivity.
      - apply (reads_cons _ _ [w "return"; w "p"; o "."; TWord (go_name x i); o ";"]); out_line. }
    destruct (existsb (Nat.eqb k) seen); cbn [app combine map].
    + change (map getter_decl ?l) with (map getter_decl l). rewrite <- (app_nil_l (_ :: _)). cbn [app].
      match goal with |- reads _ (spells (?d :: ?ds)) => change (d :: ds) with ([d] ++ ds) end. rewrite spells_app.
      exact (reads_app _ _ _ _ R2 IH).
    + match goal with |- reads _ (spells (?d :: ?e :: ?ds)) => change (d :: e :: ds) with ([d] ++ [e] ++ ds) end. rewrite !spells_app.
      exact (reads_app _ _ _ _ R1 (reads_app _ _ _ _ R2 IH)).
  - specialize (IH (S i) seen names HS SS LE). cbn [combine map].
    match goal with |- reads _ (spells (?d :: ?ds)) => change (d :: ds) with ([d] ++ ds) end. rewrite spells_app, app_assoc. apply reads_app; [|exact IH]. clear IH.
    rewrite spells_one. unfold field_getter, getter_decl. cbn [fst snd].
    assert (D : forall B, reads B (stmt_toks x (SField (go_name x i))) ->
      reads ((getter_head x (go_name x i) (GoTypeName_text (mi_ctx x) f (mi_ti x i)) :: B) ++ [zz; out (bs "}")])
      (spell (YFunc [w "x"; o "*"; TWord (mi_go x)] (Getter (go_name x i)) [] (ResOne (field_gty (mi_ctx x) f (mi_ti x i)))
         (concat (map (stmt_toks x) [SField (go_name x i); SReturn (GoZero (mi_ctx x) f (mi_ti x i))]))) ++ [o ";"])).
    { intros B HB. change ([zz; out (bs "}")]) with ([zz] ++ [out (bs "}")]). rewrite <- app_comm_cons, app_assoc.
      apply getter_reads; [exact GW|exact FS|]. cbn [map concat]. rewrite app_nil_r. now apply reads_app. }
    destruct (pf_is_msg f) eqn:PM.
    + cbn [negb andb me_name me_body]. apply (D [_]). unfold stmt_toks. out_line.
    + destruct (text_star (mi_ctx x) f (mi_ti x i) TO PM) as [(e & T & y & -> & E2 & E3 & TS)|(E1 & E2 & E3)].
      * rewrite E3, E2. change (is_star (bs "*" ++ T)) with true. change (tl (bs "*" ++ T)) with T. cbn [negb andb strip_star me_name me_body].
        apply (getter_reads (go_name x i) T y [_; _]); [exact GW|exact TS|]. cbn [map concat]. rewrite app_nil_r.
        apply reads_cons; [|exact ZR]. unfold stmt_toks. out_line.
      * rewrite E1, E2. cbn [negb andb me_name me_body].
        replace (match field_gty (mi_ctx x) f (mi_ti x i) with YPtr t' => t' | _ => field_gty (mi_ctx x) f (mi_ti x i) end) with (field_gty (mi_ctx x) f (mi_ti x i))
          by (destruct (field_gty (mi_ctx x) f (mi_ti x i)) as [? ?|t|?|? ?|] eqn:FG; try reflexivity; exfalso; exact (E3 t eq_refl)).
        apply (D [_]). unfold stmt_toks. out_line.
Qed.

(** ** Oneofs *)
Lemma OneofGen_reads k : k < length (pm_oneofs (mi_msg x)) -> reads (OneofGen_calls x k) (spells (oneof_decls x k)).
Proof.
  intro KL. pose proof (oneof_type_word k (io_oneof_types x OK k KL)) as TW.
  unfold OneofGen_calls, oneof_decls. cbv zeta. rewrite spells_cons, (app_assoc (spell _)). apply reads_app.
  - set (t := oneof_type_name x k) in *. clearbody t. cbn [spell app].
    apply (reads_cons _ _ [w "type"; TWord t; w "interface"; o "{"]); [out_line|].
    apply (reads_cons _ _ [TWord t; o "("; o ")"; o ";"]); out_line.
  - rewrite spells_concat. apply reads_map. apply Forall_forall. intros [j f] I. apply member_nth in I as [NE PO]. cbn [fst snd].
    destruct (io_fields x OK j f NE) as (_ & _ & _ & WW). set (t := oneof_type_name x k) in *. clearbody t.
    apply (reads_silent [gap]); [apply reads_gap|].
    pose proof (FieldGen_reads j f NE) as FR. set (wr := mi_wrap x j) in *. clearbody wr.
    rewrite spells_cons, spells_one.
    apply (reads_eq _ ([w "type"; TWord wr; w "struct"; o "{"] ++ field_toks (field_decl x j f) ++ [o "}"; o ";"] ++
      [w "func"; o "("; o "*"; TWord wr; o ")"; TWord t; o "("; o ")"; o "{"; o "}"; o ";"])).
    2:{ cbn [spell result_toks map concat]. rewrite app_nil_r. cbn [app]. rewrite <- ?app_assoc. reflexivity. }
    apply (reads_app [_]); [out_line|]. apply reads_app; [exact FR|].
    apply (reads_app [_]); [out_line|]. apply (reads_silent [gap]); [apply reads_gap|]. out_line.
Qed.

(** ** A message *)
Lemma message_reads g : reads (message_calls g x) (spells (own_decls g x)).
Proof.
  pose proof (io_name x OK) as MW. pose proof (io_comments x OK) as [CH CI]. cbn [fst snd] in CH, CI.
  unfold message_calls, own_decls. cbv zeta. rewrite C71_message_end. set (n := mi_go x) in *.
  apply reads_silent; [now apply reads_comment|].
  pose proof (struct_reads (pm_fields (mi_msg x)) 0 [] (fun j f H => H)) as SR.
  set (SC := struct_calls x [] 0 (pm_fields (mi_msg x))) in *. set (FD := field_decls x [] 0 (pm_fields (mi_msg x))) in *.
  rewrite !spells_cons.
  assert (R1 : reads ([out (bs "type " ++ n ++ bs " struct {")] ++ SC ++
    (if genUnknownFields (mi_ctx x) then [out (bs "unknownFields []byte `json:" ++ dq ++ bs "-" ++ dq ++ bs "`")] else []) ++ [out (bs "} " ++ mi_inline x)])
    (spell (YStruct n (FD ++ (if genUnknownFields (mi_ctx x) then [(bs "unknownFields", YSlice (name (bs "byte")), Some (bs "json:" ++ dq ++ bs "-" ++ dq))] else []))) ++ [o ";"])).
  { cbn [spell]. rewrite map_app, concat_app, <- !app_assoc. apply (reads_app [_]); [out_line|]. apply reads_app; [exact SR|]. apply reads_app.
    - destruct (genUnknownFields (mi_ctx x)); [|apply reads_nil]. cbn [map concat]. rewrite app_nil_r. unfold field_toks. cbn [fst snd ty_toks name]. out_line.
    - apply reads_out; [discriminate| |].
      + apply inline_last; [discriminate|discriminate|exact CI].
      + intro r. rewrite <- app_assoc. lit. rewrite (start_inline _ _ _ CI). reflexivity. }
  assert (R2 : reads [out ([x0a] ++ bs "func (x *" ++ n ++ bs ") Reset() { *x = " ++ n ++ bs "{} }")]
    (spell (YFunc [w "x"; o "*"; TWord n] (bs "Reset") [] ResNone [o "*"; w "x"; o "="; TWord n; o "{"; o "}"]) ++ [o ";"])) by out_line.
  assert (R3 : reads (if g_kitex g then
     [Call_UsePkg (bs "github.com/cloudwego/prutal") [];
      out ([x0a] ++ bs "func (x *" ++ n ++ bs ") Marshal(in []byte) ([]byte, error) { return prutal.MarshalAppend(in, x) }");
      out ([x0a] ++ bs "func (x *" ++ n ++ bs ") Unmarshal(in []byte) error { return prutal.Unmarshal(in, x) }")] else [])
    (spells (if g_kitex g then
     [YFunc [w "x"; o "*"; TWord n] (bs "Marshal") [w "in"; o "["; o "]"; w "byte"] (ResMany [YSlice (name (bs "byte")); name (bs "error")])
        [w "return"; w "prutal"; o "."; w "MarshalAppend"; o "("; w "in"; o ","; w "x"; o ")"];
      YFunc [w "x"; o "*"; TWord n] (bs "Unmarshal") [w "in"; o "["; o "]"; w "byte"] (ResOne (name (bs "error")))
        [w "return"; w "prutal"; o "."; w "Unmarshal"; o "("; w "in"; o ","; w "x"; o ")"]] else []))).
  { destruct (g_kitex g); [|apply reads_nil]. apply (reads_silent [_]); [apply reads_use; [discriminate|path_chars]|]. rewrite spells_cons, (app_assoc (spell _)), spells_one. apply reads_cons; out_line. }
  assert (R4 : reads (if g_getter g then getter_calls x [] 0 (pm_fields (mi_msg x)) else []) (spells (if g_getter g then getter_decls x else []))).
  { destruct (g_getter g); [|apply reads_nil]. exact (getters_reads (pm_fields (mi_msg x)) 0 [] (mi_names x) (fun j f H => H) eq_refl (io_length x OK)). }
  set (oo := seq 0 (length (pm_oneofs (mi_msg x)))) in *.
  assert (OO : forall k, In k oo -> k < length (pm_oneofs (mi_msg x))) by (intros k I; unfold oo in I; apply in_seq in I; lia).
  assert (R6 : reads (concat (map (fun k => gap :: OneofGen_calls x k) oo)) (spells (concat (map (oneof_decls x) oo)))).
  { rewrite spells_concat. apply reads_map. apply Forall_forall. intros k I. apply (reads_silent [gap]); [apply reads_gap|]. now apply OneofGen_reads, OO. }
  assert (R5 : reads (match pm_oneofs (mi_msg x) with
   | [] => []
   | _ => [out (bs "// XXX_OneofWrappers is for the internal use of the prutal package.");
           out (bs "func (*" ++ n ++ bs ") XXX_OneofWrappers() []interface{} {");
           out (bs "return []interface{}{")] ++
          concat (map (fun o => map (fun p => out (bs "(*" ++ mi_wrap x (fst p) ++ bs ")(nil),")) (members x o)) oo) ++
          [out (bs "}}")]
   end)
   (spells match pm_oneofs (mi_msg x) with
   | [] => []
   | _ => [YFunc [o "*"; TWord n] (bs "XXX_OneofWrappers") [] (ResOne (YSlice YAny))
             ([w "return"; o "["; o "]"; w "interface"; o "{"; o "}"; o "{"] ++
              concat (map (fun k => concat (map (fun p => [o "("; o "*"; TWord (mi_wrap x (fst p)); o ")"; o "("; w "nil"; o ")"; o ","]) (members x k))) oo) ++
              [o "}"])]
   end)).
  { destruct (pm_oneofs (mi_msg x)) as [|a l]; [apply reads_nil|]. rewrite spells_one.
    set (MT := concat (map (fun k => concat _) oo)).
    apply (reads_eq _ ([w "func"; o "("; o "*"; TWord n; o ")"; w "XXX_OneofWrappers"; o "("; o ")"; o "["; o "]"; w "interface"; o "{"; o "}"; o "{";
      w "return"; o "["; o "]"; w "interface"; o "{"; o "}"; o "{"] ++ MT ++ [o "}"; o "}"; o ";"])).
    2:{ cbn [spell result_toks ty_toks app]. rewrite <- ?app_assoc. reflexivity. }
    apply reads_app.
    - apply (reads_silent [_]); [out_line|].
      apply (reads_cons _ _ [w "func"; o "("; o "*"; TWord n; o ")"; w "XXX_OneofWrappers"; o "("; o ")"; o "["; o "]"; w "interface"; o "{"; o "}"; o "{"]); out_line.
    - apply reads_app; [|out_line]. unfold MT. apply reads_map. apply Forall_forall. intros k _. apply reads_map1. apply Forall_forall. intros [j f] I.
      apply member_nth in I as [NE _]. destruct (io_fields x OK j f NE) as (_ & _ & _ & WW). cbn [fst]. out_line. }
  rewrite !spells_app. rewrite (app_assoc _ [o ";"]), (app_assoc (spell _) [o ";"]).
  pose proof (reads_app _ _ _ _ R1 (reads_app _ _ _ _ R2 (reads_app _ _ _ _ R3 (reads_app _ _ _ _ R4 (reads_app _ _ _ _ R5 R6))))) as R.
  rewrite <- !app_assoc in R. rewrite <- !app_assoc. exact R.
Qed.
End Message.
Lemma MessageGen_reads g : forall m, message_ok m -> reads (MessageGen_calls g m) (spells (message_decls g m)).
Proof.
  fix IH 1. intros [x ms] H. inversion H as [x' ms' HX HM E1]; subst. cbn [MessageGen_calls message_decls]. rewrite spells_app.
  apply reads_app; [now apply message_reads|]. rewrite spells_concat. clear H HX. induction ms as [|m ms IHl]; [apply reads_nil|].
  inversion HM as [|m' ms' A B]; subst. cbn [map concat]. apply (reads_app (gap :: _)); [|now apply IHl].
  apply (reads_silent [gap]); [apply reads_gap|]. now apply IH.
Qed.
Lemma ProtoGen_reads g enums msgs : Forall enum_ok enums -> Forall (fun m => Forall enum_ok (fst m) /\ message_ok (snd m)) msgs ->
  reads (ProtoGen_calls g enums msgs) (spells (file_decls g enums msgs)).
Proof.
  intros HE HM. unfold ProtoGen_calls, file_decls. rewrite !spells_app.
  assert (R : forall l, Forall enum_ok l -> reads (concat (map (fun e => gap :: EnumGen_calls e) l)) (spells (concat (map (fun e => enum_decls (et_enum e)) l)))).
  { intros l H. rewrite spells_concat. apply reads_map. eapply Forall_impl; [|exact H]. intros e OK. apply (reads_silent [gap]); [apply reads_gap|]. now apply EnumGen_reads. }
  apply reads_app; [now apply R|]. apply reads_app.
  - rewrite spells_concat. apply reads_map. eapply Forall_impl; [|exact HM]. intros m [H _]. now apply R.
  - rewrite spells_concat. apply reads_map. eapply Forall_impl; [|exact HM]. intros m [_ H]. apply (reads_silent [gap]); [apply reads_gap|]. now apply MessageGen_reads.
Qed.
