(** Proofs about the Go text that is written: the imports, and the package clause. *)
From Coq Require Import List Bool NArith ZArith Strings.String Init.Byte Lia.
From Verif Require Import Base Value GoStr StrFacts GenField GenSpec GenNames GenEnum GenGetter GenImport ImportSpec WriterSpec Comments
  GenText GoScan GoSyntax TextSpec GoScanProofs GoReadProofs GenTextProofs.
Import ListNotations StringSyntax.
Open Scope nat_scope.

(** ** Tokens *)
Lemma start_blank : forall a e s, blank a -> scan Start e (a ++ s) = scan Start e s.
Proof.
  induction a as [|c a IH]; intros e s H; [reflexivity|]. inversion H as [|c' a' A B]; subst. cbn [app scan step].
  replace (begin e c) with (@nil tok, Start, e) by (destruct A as [->| ->]; reflexivity). cbn [app]. now apply IH.
Qed.
Lemma in_path : forall t a e s, Forall path_char t -> scan (InStr a false) e (t ++ x22 :: s) = TStr (a ++ t) :: scan Start true s.
Proof.
  induction t as [|c t IH]; intros a e s H; cbn [app scan step].
  - rewrite app_nil_r. reflexivity.
  - inversion H as [|c' t' A B]; subst.
    assert (P : beqb c x22 = false /\ beqb c x0a = false /\ beqb c x5c = false).
    { destruct A as [[A|[A|[A|A]]]|A]; [destruct c; try discriminate A; repeat split; reflexivity..|subst c; repeat split; reflexivity|].
      cbn in A. destruct A as [<-|[<-|[<-|[<-|[<-|[<-|[]]]]]]]; repeat split; reflexivity. }
    destruct P as (P1 & P2 & P3). rewrite P1, P2, P3. cbn [app]. rewrite IH by exact B. now rewrite <- app_assoc.
Qed.
Lemma start_path t e s : Forall path_char t -> scan Start e ([x22] ++ t ++ [x22] ++ s) = TStr t :: scan Start true s.
Proof. intro H. cbn [app]. change (scan Start e (x22 :: t ++ x22 :: s)) with (scan (InStr [] false) e (t ++ x22 :: s)). now rewrite (in_path t [] e s H). Qed.
Lemma package_word n : package_name n -> go_word n = true.
Proof.
  intros ((c & r & -> & C & R) & K & _). unfold go_word.
  assert (WC : forall d, ident_char d -> word_char d = true).
  { intros d [A|[A|[A|A]]]; [destruct d; try discriminate A; reflexivity..|now subst d]. }
  assert (L : letter c = true) by (destruct C as [C|C]; [destruct c; try discriminate C; reflexivity|now subst c]).
  rewrite L. cbn [forallb]. rewrite (letter_word c L). replace (forallb word_char r) with true.
  2:{ symmetry. apply forallb_forall. intros d D. rewrite Forall_forall in R. apply WC. now apply R. }
  destruct (is_in keywords (c :: r)) eqn:E; [|reflexivity]. apply is_in_In in E. now destruct (K E).
Qed.

(** ** The imports *)
Definition spec_toks (i : import) : list tok := match fst i with Some n => [TWord n] | None => [] end ++ [TStr (snd i)].
Definition as_go (i : import) : bytes * bytes := (match fst i with Some n => n | None => [] end, snd i).
Definition spec_ok (i : import) : Prop := match fst i with Some n => package_name n | None => True end.
Lemma spec_scan t i r : import_spec t i -> spec_ok i /\ scan Start false (t ++ x0a :: r) = spec_toks i ++ o ";" :: scan Start false r.
Proof.
  intros [a b p A B P C|a n b c p A N B NB C P PC].
  - split; [exact Logic.I|]. rewrite <- !app_assoc, (start_blank a) by exact A. rewrite (start_path p) by exact C.
    rewrite (start_blank b) by exact B. reflexivity.
  - split; [exact N|]. rewrite <- !app_assoc, (start_blank a) by exact A. rewrite (start_word n).
    2:{ now apply package_word. }
    2:{ destruct b as [|d b]; [easy|]. inversion B as [|d' b' D _]; subst. destruct D as [->| ->]; reflexivity. }
    rewrite (start_blank b) by exact B. rewrite (start_path p) by exact PC. rewrite (start_blank c) by exact C. reflexivity.
Qed.
Definition body_toks (l : list import) : list tok := concat (map (fun i => spec_toks i ++ [o ";"]) l).
Lemma body_scan s l r : import_body s l -> Forall spec_ok l /\ scan Start false (s ++ x29 :: r) = body_toks l ++ scan Start false (x29 :: r).
Proof.
  induction 1 as [a A|a s l A B IH|t i s l A B IH].
  - split; [constructor|]. now rewrite (start_blank a) by exact A.
  - destruct IH as [F IH]. split; [exact F|]. rewrite <- !app_assoc, (start_blank a) by exact A. cbn [app]. exact IH.
  - destruct IH as [F IH]. destruct (spec_scan t i (s ++ x29 :: r) A) as [S1 S2]. split; [now constructor|].
    rewrite <- !app_assoc. cbn [app]. rewrite S2, IH. unfold body_toks. cbn [map concat]. rewrite <- !app_assoc. reflexivity.
Qed.
Lemma after_paren c e s : scan (InOp [x28]) e (c :: s) = o "(" :: scan Start false (c :: s).
Proof.
  assert (E : step (InOp [x28]) e c = then_ (TOp [x28]) (begin false c)).
  { unfold step. replace (is_in long_ops ([x28] ++ [c])) with false by (destruct c; reflexivity). reflexivity. }
  unfold scan; fold scan. rewrite E. change (step Start false c) with (begin false c). unfold then_.
  destruct (begin false c) as [[o2 m'] e']. reflexivity.
Qed.
Lemma read_import_ok i r : spec_ok i -> read_import (spec_toks i ++ r) = Some (as_go i, r).
Proof.
  unfold spec_ok, spec_toks, as_go. destruct i as [[n|] p]; cbn [fst snd app]; [|reflexivity].
  intro H. apply package_word, go_word_inv in H as (_ & _ & _ & _ & _ & K). cbn [read_import name_of]. now rewrite K.
Qed.
Lemma read_group_ok : forall l fuel r, Forall spec_ok l -> length l < fuel ->
  read_import_group fuel (body_toks l ++ o ")" :: r) = Some (map as_go l, r).
Proof.
  induction l as [|i l IH]; intros fuel r F L; (destruct fuel as [|fuel]; [cbn in L; lia|]).
  - reflexivity.
  - inversion F as [|i' l' A B]; subst. pose proof (read_import_ok i (o ";" :: body_toks l ++ o ")" :: r) A) as R.
    unfold body_toks. cbn [map concat]. fold (body_toks l). rewrite <- !app_assoc. cbn [app].
    assert (X : exists x q, spec_toks i ++ o ";" :: body_toks l ++ o ")" :: r = x :: q /\ op (bs ")") x = false).
    { unfold spec_toks. destruct (fst i); cbn [app]; eexists _, _; split; reflexivity. }
    destruct X as (x & q & E & X). rewrite E in R |- *. cbn [read_import_group map]. rewrite X, R. destruct (as_go i) as [n p].
    cbn [expect]. change (op (bs ";") (o ";")) with true. cbv iota. rewrite IH by (exact B || cbn in L; lia). reflexivity.
Qed.
Definition no_import (ts : list tok) : Prop := match ts with x :: _ => kw (bs "import") x = false | [] => True end.
Lemma decl_scan text l : import_decl text l -> exists ts,
  (forall r, scan Start false (text ++ x0a :: r) = ts ++ scan Start false r) /\
  forall rest, no_import rest -> read_imports (ts ++ rest) = Some (map as_go l, rest).
Proof.
  intros [|a i A|a s l' A B].
  - exists []. split; [reflexivity|]. intros [|x r] N; [reflexivity|]. unfold no_import in N. cbn [app read_imports]. now rewrite N.
  - destruct (spec_scan a i [] A) as [S1 _]. exists (w "import" :: spec_toks i ++ [o ";"]). split.
    + intro r. replace ((bs "import" ++ [x20] ++ a) ++ x0a :: r) with ((bs "import" ++ [x20]) ++ a ++ x0a :: r) by now rewrite <- !app_assoc. rewrite scan_app. change (run Start false (bs "import" ++ [x20])) with ([w "import"], Start, false).
      cbv iota beta. destruct (spec_scan a i r A) as [_ S2]. rewrite S2. cbn [app]. f_equal. now rewrite <- app_assoc.
    + intros rest _. pose proof (read_import_ok i (o ";" :: rest) S1) as R. cbn [app]. rewrite <- app_assoc. cbn [app].
      assert (X : exists x q, spec_toks i ++ o ";" :: rest = x :: q /\ op (bs "(") x = false).
      { unfold spec_toks. destruct (fst i); cbn [app]; eexists _, _; split; reflexivity. }
      destruct X as (x & q & E & X). rewrite E in R |- *. unfold read_imports. change (kw (bs "import") (w "import")) with true. cbv iota. rewrite X, R. cbn [map].
      destruct (as_go i) as [n p]. cbn [expect]. change (op (bs ";") (o ";")) with true. reflexivity.
  - destruct (body_scan s l' [] B) as [F _]. exists (w "import" :: o "(" :: body_toks l' ++ [o ")"; o ";"]). split.
    + intro r. rewrite <- !app_assoc.
      assert (IW : forall q, stops q = true -> scan Start false (bs "import" ++ q) = w "import" :: scan Start false q).
      { intros q ST. change (scan Start false (bs "import" ++ q)) with (scan (InWord [x69]) false (bs "mport" ++ q)).
        rewrite (in_word (bs "mport") [x69] false q eq_refl ST). reflexivity. }
      rewrite IW. 2:{ destruct a as [|d a]; [reflexivity|]. inversion A as [|d' a' D _]; subst. destruct D as [->| ->]; reflexivity. }
      rewrite (start_blank a) by exact A. cbn [app]. f_equal.
      change (bs "(" ++ s ++ bs ")" ++ x0a :: r) with (x28 :: s ++ x29 :: x0a :: r).
      change (scan Start false (x28 :: s ++ x29 :: x0a :: r)) with (scan (InOp [x28]) false (s ++ x29 :: x0a :: r)).
      destruct (body_scan s l' (x0a :: r) B) as [_ S2].
      assert (X : exists c q, s ++ x29 :: x0a :: r = c :: q) by (destruct s; cbn [app]; eauto). destruct X as (c & q & X).
      rewrite X, after_paren, <- X, S2. f_equal. rewrite <- app_assoc. f_equal.
    + intros rest _. cbn [app]. unfold read_imports. change (kw (bs "import") (w "import")) with true. cbv iota.
      change (op (bs "(") (o "(")) with true. cbv iota. rewrite <- app_assoc. cbn [app].
      rewrite (read_group_ok l' _ (o ";" :: rest) F).
      * cbn [expect]. change (op (bs ";") (o ";")) with true. reflexivity.
      * rewrite app_length. cbn [length]. enough (length l' <= length (body_toks l')) by lia. clear. rename l' into l. unfold body_toks.
        induction l as [|i l IH]; [apply le_n|]. cbn [map concat length]. rewrite app_length, app_length. cbn [length]. lia.
Qed.

(** ** The packages that are used *)
Definition uses (cs : list call) : list bytes := concat (map (fun c => match c with Call_UsePkg p _ => [p] | _ => [] end) cs).
Lemma uses_app a b : uses (a ++ b) = uses a ++ uses b.
Proof. unfold uses. now rewrite map_app, concat_app. Qed.
Lemma uses_gap cs : uses (gap :: cs) = uses cs.
Proof. reflexivity. Qed.
Lemma uses_out s cs : uses (out s :: cs) = uses cs.
Proof. reflexivity. Qed.
Lemma uses_pkg q a cs : uses (Call_UsePkg q a :: cs) = q :: uses cs.
Proof. reflexivity. Qed.
Lemma uses_outs {A} (f : A -> bytes) l : uses (map (fun v => out (f v)) l) = [].
Proof. induction l as [|v l IH]; [reflexivity|exact IH]. Qed.
Lemma uses_comment s : uses (comment s) = [].
Proof. now destruct s. Qed.
Lemma uses_concat {A} (f : A -> list call) l : uses (concat (map f l)) = concat (map (fun v => uses (f v)) l).
Proof. induction l as [|v l IH]; [reflexivity|]. cbn [map concat]. now rewrite uses_app, IH. Qed.
Lemma uses_iff cs q : In q (uses cs) <-> exists a, In (Call_UsePkg q a) cs.
Proof.
  unfold uses. rewrite in_concat. split.
  - intros (x & X & Q). apply in_map_iff in X as (c & <- & C). destruct c as [h p|p a|g|s|f t]; cbn in Q; try easy. destruct Q as [->|[]]. now exists a.
  - intros (a & A). exists [q]. split; [|now left]. apply in_map_iff. now exists (Call_UsePkg q a).
Qed.
Lemma uses_consts e : forall l i, uses (const_calls e i l) = [].
Proof.
  induction l as [|f l IH]; intro i; [reflexivity|]. cbn [const_calls]. destruct (et_values e i) as [h n]. rewrite uses_app, uses_out, IH, app_nil_r.
  destruct h; [reflexivity|]. destruct (Nat.eqb i 0); reflexivity.
Qed.
Lemma uses_enum e : uses (EnumGen_calls e) = if genMapping (et_enum e) then [bs "strconv"] else [].
Proof.
  unfold EnumGen_calls. cbv zeta. rewrite !uses_app, uses_comment. cbn [app]. rewrite uses_out, uses_gap.
  change (uses []) with (@nil bytes). cbn [app].
  match goal with |- uses ?t ++ _ = _ => assert (Z : uses t = []) end.
  { destruct (en_values (et_enum e)) as [|v l]; [reflexivity|]. now rewrite uses_out, uses_app, uses_consts. }
  rewrite Z. cbn [app].
  destruct (genMapping (et_enum e)); [|reflexivity].
  repeat first [rewrite uses_out|rewrite uses_gap|rewrite uses_app|rewrite uses_outs]. reflexivity.
Qed.
(** The package of the type of a field *)
Definition field_uses (x : minfo) (i : nat) (f : pfd) (q : bytes) : Prop :=
  match pf_ty f with PScalar _ => False | _ => True end /\ ti_import (mi_ti x i) = Some q.
Lemma uses_field x i f q : In q (uses (FieldGen_calls x i f)) <-> field_uses x i f q.
Proof.
  unfold FieldGen_calls, field_uses. destruct (mi_fcom x i) as [h n]. rewrite uses_app, uses_comment, uses_out. cbn [app].
  destruct (pf_ty f); [split; [intros []|intros [[] _]]|..].
  all: destruct (ti_import (mi_ti x i)) as [p|]; cbn; split; [intros [->|[]]; now split|intros [_ E]; injection E as ->; now left|intros []|intros [_ E]; discriminate E].
Qed.
Lemma uses_struct x q : forall l i seen, In q (uses (struct_calls x seen i l)) <-> exists j f, nth_error l j = Some f /\ pf_one f = None /\ field_uses x (i + j) f q.
Proof.
  induction l as [|f l IH]; intros i seen.
  { split; [intros []|]. intros ([|j] & f & E & _); discriminate E. }
  assert (ST : (exists j g, nth_error l j = Some g /\ pf_one g = None /\ field_uses x (S i + j) g q) <-> exists j g, nth_error (f :: l) (S j) = Some g /\ pf_one g = None /\ field_uses x (i + S j) g q).
  { split; intros (j & g & A & B & C); exists j, g; (split; [exact A|]); (split; [exact B|]); [replace (i + S j) with (S i + j) by lia|replace (S i + j) with (i + S j) by lia]; exact C. }
  cbn [struct_calls]. destruct (pf_one f) as [k|] eqn:P.
  - transitivity (exists j g, nth_error l j = Some g /\ pf_one g = None /\ field_uses x (S i + j) g q).
    + destruct (existsb (Nat.eqb k) seen); [apply IH|]. rewrite uses_app, uses_app, (uses_outs (fun p => bs "//" ++ [x09] ++ bs "*" ++ mi_go x ++ bs "_" ++ go_name x (fst p))).
      rewrite uses_out. apply IH.
    + rewrite ST. split; [intros (j & g & H); now exists (S j), g|]. intros ([|j] & g & A & B & C); [|now exists j, g].
      cbn in A. injection A as ->. congruence.
  - rewrite !uses_app, !in_app_iff, uses_field, IH, ST. split.
    + intros [H|[H|(j & g & H)]]; [|exists 0, f; rewrite Nat.add_0_r; now split|now exists (S j), g].
      exfalso. destruct i; [exact H|]. destruct (fst (mi_fcom x (S i))); exact H.
    + intros ([|j] & g & A & B & C); right; [left|right; now exists j, g]. cbn in A. injection A as ->. now rewrite Nat.add_0_r in C.
Qed.
Lemma uses_getters x : forall l i seen, uses (getter_calls x seen i l) = [].
Proof.
  induction l as [|f l IH]; intros i seen; [reflexivity|]. cbn [getter_calls]. cbv zeta. rewrite uses_gap. destruct (pf_one f) as [k|].
  - rewrite !uses_app, IH. destruct (existsb (Nat.eqb k) seen); reflexivity.
  - rewrite !uses_app, IH. destruct (negb (pf_is_msg f) && is_star (GoTypeName_text (mi_ctx x) f (mi_ti x i))); reflexivity.
Qed.
Lemma uses_oneof x k q : In q (uses (OneofGen_calls x k)) <-> exists p, In p (members x k) /\ field_uses x (fst p) (snd p) q.
Proof.
  unfold OneofGen_calls. cbv zeta. rewrite uses_app, uses_concat, in_app_iff, in_concat. split.
  - intros [[]|(u & U & Q)]. apply in_map_iff in U as (p & <- & I). exists p. split; [exact I|]. apply uses_field.
    rewrite !uses_app, !in_app_iff in Q. destruct Q as [[]|[Q|[]]]. exact Q.
  - intros (p & I & F). right. eexists. split; [apply in_map_iff; exists p; split; [reflexivity|exact I]|]. rewrite !uses_app, !in_app_iff. right. left. now apply uses_field.
Qed.
Lemma members_iff : forall l k i j f, In (j, f) (oneof_fields k i l) <-> i <= j /\ nth_error l (j - i) = Some f /\ pf_one f = Some k.
Proof.
  induction l as [|g l IH]; intros k i j f.
  { split; [intros []|]. intros (_ & E & _). destruct (j - i); discriminate E. }
  assert (ST : i <= j -> (S i <= j /\ nth_error l (j - S i) = Some f /\ pf_one f = Some k) <-> j <> i /\ nth_error (g :: l) (j - i) = Some f /\ pf_one f = Some k).
  { intro L. destruct (Nat.eq_dec j i) as [->|N]; [split; [lia|tauto]|]. replace (j - i) with (S (j - S i)) by lia. cbn [nth_error]. split; intros (A & B & C); (split; [lia|now split]). }
  cbn [oneof_fields].
  assert (R : In (j, f) (oneof_fields k (S i) l) -> i <= j /\ nth_error (g :: l) (j - i) = Some f /\ pf_one f = Some k).
  { intro H. apply IH in H. assert (L : i <= j) by lia. split; [exact L|]. now apply ST. }
  destruct (pf_one g) as [k'|] eqn:P; [destruct (Nat.eqb_spec k' k) as [->|N]|].
  - cbn [In]. split.
    + intros [E|H]; [|now apply R]. injection E as -> ->. rewrite Nat.sub_diag. split; [lia|]. now split.
    + intros (L & A & B). destruct (Nat.eq_dec j i) as [->|NE]; [left; rewrite Nat.sub_diag in A; cbn in A; injection A as ->; reflexivity|].
      right. apply IH. apply ST; [exact L|]. now split.
  - split; [exact R|]. intros (L & A & B). destruct (Nat.eq_dec j i) as [->|NE]; [rewrite Nat.sub_diag in A; cbn in A; injection A as ->; congruence|].
    apply IH. apply ST; [exact L|]. now split.
  - split; [exact R|]. intros (L & A & B). destruct (Nat.eq_dec j i) as [->|NE]; [rewrite Nat.sub_diag in A; cbn in A; injection A as ->; congruence|].
    apply IH. apply ST; [exact L|]. now split.
Qed.
Lemma uses_message g x q : info_ok x -> In q (uses (message_calls g x)) <->
  (g_kitex g = true /\ q = bs "github.com/cloudwego/prutal") \/ exists i f, nth_error (pm_fields (mi_msg x)) i = Some f /\ field_uses x i f q.
Proof.
  intro OK. unfold message_calls. cbv zeta. rewrite !uses_app, uses_comment, !in_app_iff.
  rewrite (uses_struct x q _ 0 []).
  replace (uses (if genUnknownFields (mi_ctx x) then _ else [])) with (@nil bytes) by now destruct (genUnknownFields (mi_ctx x)).
  replace (uses (if g_getter g then _ else [])) with (@nil bytes) by (destruct (g_getter g); [now rewrite uses_getters|reflexivity]).
  assert (ZZ : uses (match pm_oneofs (mi_msg x) with
   | [] => []
   | _ => [out (bs "// XXX_OneofWrappers is for the internal use of the prutal package.");
           out (bs "func (*" ++ mi_go x ++ bs ") XXX_OneofWrappers() []interface{} {");
           out (bs "return []interface{}{")] ++
          concat (map (fun o => map (fun p => out (bs "(*" ++ mi_wrap x (fst p) ++ bs ")(nil),")) (members x o)) (seq 0 (length (pm_oneofs (mi_msg x))))) ++
          [out (bs "}}")]
   end) = []).
  { destruct (pm_oneofs (mi_msg x)) as [|a l]; [reflexivity|]. rewrite !uses_app, uses_concat.
      match goal with |- _ ++ concat (map ?F ?L) ++ _ = _ => assert (Z : concat (map F L) = []) end.
      { generalize (seq 0 (length (a :: l))). intro s. induction s as [|k s IH]; [reflexivity|]. cbn [map concat].
        now rewrite (uses_outs (fun p => bs "(*" ++ mi_wrap x (fst p) ++ bs ")(nil),")). }
      now rewrite Z. }
  rewrite ZZ.
  rewrite uses_concat. 
  assert (OO : In q (concat (map (fun k => uses (gap :: OneofGen_calls x k)) (seq 0 (length (pm_oneofs (mi_msg x)))))) <->
    exists i f, nth_error (pm_fields (mi_msg x)) i = Some f /\ pf_one f <> None /\ field_uses x i f q).
  { rewrite in_concat. split.
    - intros (u & U & Q). apply in_map_iff in U as (k & <- & K). rewrite uses_gap in Q. apply uses_oneof in Q as ([j f] & I & F).
      unfold members in I. apply members_iff in I as (_ & N & P). rewrite Nat.sub_0_r in N. exists j, f. split; [exact N|]. split; [congruence|exact F].
    - intros (i & f & N & P & F). destruct (pf_one f) as [k|] eqn:PK; [|easy]. destruct (io_oneofs x OK f k (nth_error_In _ _ N) PK) as [KL _].
      eexists. split; [apply in_map_iff; exists k; split; [reflexivity|apply in_seq; lia]|]. rewrite uses_gap. apply uses_oneof. exists (i, f).
      split; [|exact F]. apply members_iff. rewrite Nat.sub_0_r. split; [lia|now split]. }
  rewrite OO.
  assert (KX : In q (uses (if g_kitex g then [Call_UsePkg (bs "github.com/cloudwego/prutal") [];
      out ([x0a] ++ bs "func (x *" ++ mi_go x ++ bs ") Marshal(in []byte) ([]byte, error) { return prutal.MarshalAppend(in, x) }");
      out ([x0a] ++ bs "func (x *" ++ mi_go x ++ bs ") Unmarshal(in []byte) error { return prutal.Unmarshal(in, x) }")] else [])) <->
    g_kitex g = true /\ q = bs "github.com/cloudwego/prutal").
  { destruct (g_kitex g); [|split; [intros []|intros [E _]; discriminate E]]. rewrite uses_pkg, !uses_out. cbn [uses map concat]. split; [intros [<-|[]]; now split|intros [_ ->]; now left]. }
  rewrite KX. rewrite !uses_out. cbn [uses map concat In]. split.
  - intros [[]|[[]|[(j & f & A & B & C)|[[]|[[]|[H|[[]|[[]|(j & f & A & B & C)]]]]]]]]; [right; now exists j, f|now left|right; now exists j, f].
  - intros [H|(j & f & A & C)]; [tauto|]. destruct (pf_one f) eqn:P.
    + do 8 right. exists j, f. split; [exact A|]. split; [congruence|exact C].
    + do 2 right. left. exists j, f. now split.
Qed.
Lemma uses_nested g : forall m, message_ok m -> forall q, In q (uses (MessageGen_calls g m)) <->
  exists x, In x (infos m) /\ ((g_kitex g = true /\ q = bs "github.com/cloudwego/prutal") \/ exists i f, nth_error (pm_fields (mi_msg x)) i = Some f /\ field_uses x i f q).
Proof.
  fix IH 1. intros [x ms] H q. inversion H as [x' ms' HX HM E1]; subst. cbn [MessageGen_calls infos]. rewrite uses_app, in_app_iff, (uses_message g x q HX).
  assert (R : In q (uses (concat (map (fun y => gap :: MessageGen_calls g y) ms))) <-> exists y, In y (concat (map infos ms)) /\
    ((g_kitex g = true /\ q = bs "github.com/cloudwego/prutal") \/ exists i f, nth_error (pm_fields (mi_msg y)) i = Some f /\ field_uses y i f q)).
  { clear H HX. induction ms as [|m ms IHl]; [split; [intros []|intros (y & [] & _)]|]. inversion HM as [|m' ms' A B]; subst. cbn [map concat].
    rewrite uses_app, in_app_iff, uses_gap, (IH m A q), (IHl B). split.
    - intros [(y & I & F)|(y & I & F)]; exists y; (split; [apply in_app_iff; tauto|exact F]).
    - intros (y & I & F). apply in_app_iff in I as [I|I]; [left|right]; now exists y. }
  rewrite R. cbn [In]. split.
  - intros [F|(y & I & F)]; [exists x; split; [now left|exact F]|exists y; split; [now right|exact F]].
  - intros (y & [<-|I] & F); [now left|right; now exists y].
Qed.
Lemma uses_file g enums msgs q : Forall (fun m => Forall enum_ok (fst m) /\ message_ok (snd m)) msgs ->
  In q (uses (ProtoGen_calls g enums msgs)) <-> refers_to g enums msgs q.
Proof.
  intro HM. unfold ProtoGen_calls. rewrite !uses_app, !in_app_iff.
  assert (EN : forall l, In q (uses (concat (map (fun e => gap :: EnumGen_calls e) l))) <-> q = bs "strconv" /\ exists e, In e l /\ genMapping (et_enum e) = true).
  { intro l. rewrite uses_concat, in_concat. split.
    - intros (u & U & Q). apply in_map_iff in U as (e & <- & I). rewrite uses_gap, uses_enum in Q. destruct (genMapping (et_enum e)) eqn:G; [|destruct Q].
      destruct Q as [<-|[]]. split; [reflexivity|]. now exists e.
    - intros (-> & e & I & G). eexists. split; [apply in_map_iff; exists e; split; [reflexivity|exact I]|]. rewrite uses_gap, uses_enum, G. now left. }
  assert (EM : In q (uses (concat (map (fun m => concat (map (fun e => gap :: EnumGen_calls e) (fst m))) msgs))) <->
    q = bs "strconv" /\ exists e, In e (concat (map fst msgs)) /\ genMapping (et_enum e) = true).
  { rewrite uses_concat, in_concat. split.
    - intros (u & U & Q). apply in_map_iff in U as (m & <- & I). apply EN in Q as (-> & e & E & G). split; [reflexivity|]. exists e. split; [|exact G].
      apply in_concat. exists (fst m). split; [now apply in_map|exact E].
    - intros (Q & e & I & G). apply in_concat in I as (u & U & E). apply in_map_iff in U as (m & <- & I). eexists.
      split; [apply in_map_iff; exists m; split; [reflexivity|exact I]|]. apply EN. split; [exact Q|]. now exists e. }
  assert (MM : In q (uses (concat (map (fun m => gap :: MessageGen_calls g (snd m)) msgs))) <->
    exists m x, In m msgs /\ In x (infos (snd m)) /\
    ((g_kitex g = true /\ q = bs "github.com/cloudwego/prutal") \/ exists i f, nth_error (pm_fields (mi_msg x)) i = Some f /\ field_uses x i f q)).
  { rewrite uses_concat, in_concat. rewrite Forall_forall in HM. split.
    - intros (u & U & Q). apply in_map_iff in U as (m & <- & I). rewrite uses_gap in Q. destruct (HM m I) as [_ MO].
      apply (uses_nested g _ MO) in Q as (x & X & F). now exists m, x.
    - intros (m & x & I & X & F). eexists. split; [apply in_map_iff; exists m; split; [reflexivity|exact I]|]. rewrite uses_gap. destruct (HM m I) as [_ MO].
      apply (uses_nested g _ MO). now exists x. }
  rewrite EN, EM, MM. split.
  - intros [(-> & e & I & G)|[(-> & e & I & G)|(m & x & I & X & [[K ->]|(i & f & N & (S & T))])]].
    + apply (rt_string _ _ _ e); [apply in_app_iff; now left|exact G].
    + apply (rt_string _ _ _ e); [apply in_app_iff; now right|exact G].
    + now apply (rt_marshal _ _ _ m).
    + now apply (rt_type _ _ _ m x i f).
  - intros [e I G|m I K|m x i f q' I X N S T].
    + apply in_app_iff in I as [I|I]; [left|right; left]; (split; [reflexivity|now exists e]).
    + right. right. destruct (snd m) as [x ms] eqn:E. exists m, x. rewrite E. split; [exact I|]. split; [now left|]. left. now split.
    + right. right. exists m, x. split; [exact I|]. split; [exact X|]. right. exists i, f. split; [exact N|]. now split.
Qed.
