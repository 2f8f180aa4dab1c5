(** Proofs about the tokens of Go (GoScan.v): how the pieces of a generated line are cut into tokens. *)
From Coq Require Import List Bool NArith ZArith Strings.String Init.Byte Lia.
From Verif Require Import Base GoStr StrFacts WireProofs GenImport GoScan Comments TextSpec.
Import ListNotations StringSyntax.
Open Scope nat_scope.

(** ** Reading a part of a text *)
Fixpoint run (m : mode) (e : bool) (s : bytes) : list tok * mode * bool :=
  match s with
  | [] => ([], m, e)
  | c :: r => let '(o, m', e') := step m e c in let '(o2, m2, e2) := run m' e' r in (o ++ o2, m2, e2)
  end.
Lemma scan_app : forall s m e r, scan m e (s ++ r) = let '(o, m', e') := run m e s in o ++ scan m' e' r.
Proof.
  induction s as [|c s IH]; intros m e r; cbn [app scan run]; [reflexivity|].
  destruct (step m e c) as [[o m'] e']. rewrite IH. destruct (run m' e' s) as [[o2 m2] e2]. now rewrite app_assoc.
Qed.

(** ** Words *)
Lemma word_char_begin c : word_char c = true -> forall s e, step (InWord s) e c = ([], InWord (s ++ [c]), e).
Proof. intros H s e. cbn [step]. now rewrite H. Qed.
Lemma letter_begin c e : letter c = true -> begin e c = ([], InWord [c], e).
Proof. intro H. destruct c; cbn in H |- *; try reflexivity; discriminate H. Qed.
Lemma letter_word c : letter c = true -> word_char c = true.
Proof. intro H. unfold word_char. now rewrite H. Qed.
Definition stops (s : bytes) : bool := match s with c :: _ => negb (word_char c) | [] => true end.
Lemma in_word : forall w a e s, forallb word_char w = true -> stops s = true ->
  scan (InWord a) e (w ++ s) = TWord (a ++ w) :: scan Start (word_ends (a ++ w)) s.
Proof.
  induction w as [|c w IH]; intros a e s W ST.
  - rewrite app_nil_r. destruct s as [|c s]; cbn [app scan].
    + reflexivity.
    + cbn in ST. apply negb_true_iff in ST. cbn [step]. rewrite ST. unfold then_. destruct (begin (word_ends a) c) as [[o m'] e']. reflexivity.
  - cbn in W. apply andb_prop in W as [C W]. cbn [app scan]. rewrite (word_char_begin c C). cbn [app]. rewrite (IH (a ++ [c]) e s W ST).
    now rewrite <- app_assoc.
Qed.
Lemma go_word_inv n : go_word n = true -> exists c r, n = c :: r /\ letter c = true /\ forallb word_char n = true /\ is_in keywords n = false.
Proof.
  unfold go_word. destruct n as [|c r]; [discriminate|]. intro H. apply andb_prop in H as [H K]. apply andb_prop in H as [L A].
  apply negb_true_iff in K. now exists c, r.
Qed.
Lemma go_word_ends n : go_word n = true -> word_ends n = true.
Proof. intro H. apply go_word_inv in H as (c & r & _ & _ & _ & K). unfold word_ends. now rewrite K. Qed.
Lemma start_word n e s : go_word n = true -> stops s = true -> scan Start e (n ++ s) = TWord n :: scan Start true s.
Proof.
  intros H ST. pose proof (go_word_ends n H) as E. apply go_word_inv in H as (c & r & -> & L & A & _).
  cbn [app scan step]. rewrite (letter_begin c e L). cbn [app]. cbn in A. apply andb_prop in A as [_ A].
  rewrite (in_word r [c] e s A ST). cbn [app]. now rewrite E.
Qed.

(** An operator ends before a word *)
Lemma is_in_In l s : is_in l s = true -> In s l.
Proof. unfold is_in. rewrite existsb_exists. intros (x & I & E). destruct (str_eqb_spec x s) as [->|]; [exact I|discriminate]. Qed.
Lemma ops_no_letter c o : letter c = true \/ c = x0a \/ c = x20 \/ c = x60 \/ c = x22 \/ digit c = true -> is_in long_ops (o ++ [c]) = false.
Proof.
  intro H. destruct (is_in long_ops (o ++ [c])) eqn:E; [|reflexivity]. exfalso. apply is_in_In in E.
  assert (L : Forall (fun x => existsb (beqb (last x x00)) op_chars = true) long_ops) by (repeat constructor).
  rewrite Forall_forall in L. specialize (L _ E). cbn beta in L. rewrite last_last in L.
  destruct H as [H|[H|[H|[H|[H|H]]]]]; [|subst; discriminate L..|]; destruct c; cbn in H, L; discriminate.
Qed.
Lemma op_stop c o e s : letter c = true \/ c = x0a \/ c = x20 \/ c = x60 \/ c = x22 \/ digit c = true ->
  scan (InOp o) e (c :: s) = TOp o :: scan Start (op_ends o) (c :: s).
Proof.
  intro H. assert (E : step (InOp o) e c = then_ (TOp o) (begin (op_ends o) c)).
  { unfold step. rewrite (ops_no_letter c o H).
    replace (beqb c x2f) with false by (symmetry; destruct H as [H|[H|[H|[H|[H|H]]]]]; [|subst; reflexivity..|]; destruct c; try reflexivity; discriminate H).
    replace (beqb c x2a) with false by (symmetry; destruct H as [H|[H|[H|[H|[H|H]]]]]; [|subst; reflexivity..|]; destruct c; try reflexivity; discriminate H).
    rewrite !andb_false_r. reflexivity. }
  unfold scan; fold scan. rewrite E. change (step Start (op_ends o) c) with (begin (op_ends o) c). unfold then_.
  destruct (begin (op_ends o) c) as [[o2 m'] e']. reflexivity.
Qed.
Lemma op_word n o e s : go_word n = true -> scan (InOp o) e (n ++ s) = TOp o :: scan Start (op_ends o) (n ++ s).
Proof. intro H. apply go_word_inv in H as (c & r & -> & L & _). apply (op_stop c o e (r ++ s)). now left. Qed.

(** ** Numbers *)
Definition digits_ok (d : bytes) : bool := match d with [] => false | _ => forallb digit d end.
Definition num_stops (s : bytes) : bool := match s with c :: _ => negb (word_char c || beqb c x2e) | [] => true end.
Lemma in_num : forall d a e s, forallb digit d = true -> num_stops s = true ->
  scan (InNum a) e (d ++ s) = TNum (a ++ d) :: scan Start true s.
Proof.
  induction d as [|c d IH]; intros a e s D ST.
  - rewrite app_nil_r. destruct s as [|c s]; cbn [app scan]; [reflexivity|].
    cbn in ST. apply negb_true_iff in ST. apply orb_false_iff in ST as [ST P]. unfold word_char in ST. apply orb_false_iff in ST as [L G].
    cbn [step]. rewrite G, L, P. cbn [orb]. unfold then_. destruct (begin true c) as [[o m'] e']. reflexivity.
  - cbn in D. apply andb_prop in D as [C D]. cbn [app scan step]. rewrite C. cbn [app]. rewrite (IH (a ++ [c]) e s D ST). now rewrite <- app_assoc.
Qed.
Lemma digit_begin c e : digit c = true -> begin e c = ([], InNum [c], e).
Proof. intro H. destruct c; cbn in H |- *; try reflexivity; discriminate H. Qed.
Lemma start_num d e s : digits_ok d = true -> num_stops s = true -> scan Start e (d ++ s) = TNum d :: scan Start true s.
Proof.
  destruct d as [|c d]; [discriminate|]. cbn [digits_ok forallb]. intros D ST. apply andb_prop in D as [C D].
  cbn [app scan step]. rewrite (digit_begin c e C). cbn [app]. now rewrite (in_num d [c] e s D ST).
Qed.
Lemma digits_digit : forall fuel n, forallb digit (digits fuel n) = true.
Proof.
  assert (D : forall k, (k < 10)%N -> digit (n2b (48 + k)) = true).
  { intros k K. unfold digit, between. rewrite b2n_n2b, N.mod_small by lia. apply andb_true_intro. split; apply N.leb_le; lia. }
  induction fuel as [|fuel IH]; intro n; cbn [digits]; [reflexivity|].
  destruct (n <? 10)%N eqn:Q.
  - apply N.ltb_lt in Q. cbn [forallb]. now rewrite (D n Q).
  - rewrite forallb_app, IH. cbn [forallb]. rewrite (D (n mod 10)%N); [reflexivity|]. apply N.mod_lt. lia.
Qed.
Lemma digits_ne fuel n : digits (S fuel) n <> [].
Proof. cbn [digits]. destruct (n <? 10)%N; [discriminate|]. now destruct (digits fuel (n / 10)). Qed.
Lemma FormatUint_ok n : digits_ok (FormatUint n) = true.
Proof. unfold FormatUint. pose proof (digits_ne 19 n). pose proof (digits_digit 20 n). destruct (digits 20 n); [contradiction|assumption]. Qed.
(** The tokens of a decimal number *)
Definition num_toks (z : Z) : list tok := (if fst (signed z) then [TOp (bs "-")] else []) ++ [TNum (snd (signed z))].
Lemma start_int z e s : num_stops s = true -> scan Start e (FormatInt z ++ s) = num_toks z ++ scan Start true s.
Proof.
  intro ST. unfold FormatInt, num_toks, signed. cbn [fst snd]. destruct (z <? 0)%Z eqn:Q.
  - apply Z.ltb_lt in Q. replace (Z.abs z) with (- z)%Z by lia. pose proof (FormatUint_ok (Z.to_N (- z))) as F.
    set (d := FormatUint (Z.to_N (- z))) in *. clearbody d. change (n2b 45) with x2d. cbn [app].
    destruct d as [|c d]; [discriminate F|]. pose proof F as F'. cbn [digits_ok forallb] in F. apply andb_prop in F as [C F].
    change (scan Start e (x2d :: (c :: d) ++ s)) with (scan (InOp [x2d]) e ((c :: d) ++ s)).
    transitivity (TOp [x2d] :: scan Start false ((c :: d) ++ s)); [|now rewrite (start_num (c :: d) false s F' ST)].
    apply (op_stop c [x2d] e (d ++ s)). auto 10.
  - apply Z.ltb_ge in Q. replace (Z.abs z) with z by lia. apply start_num; [apply FormatUint_ok|exact ST].
Qed.

(** ** Strings *)
Lemma in_raw : forall t a e s, ~ In x60 t -> scan (InRaw a) e (t ++ x60 :: s) = TRaw (a ++ t) :: scan Start true s.
Proof.
  induction t as [|c t IH]; intros a e s H; cbn [app scan step].
  - rewrite app_nil_r. reflexivity.
  - replace (beqb c x60) with false by (symmetry; destruct c; try reflexivity; exfalso; apply H; now left).
    cbn [app]. rewrite IH by (intro; apply H; now right). now rewrite <- app_assoc.
Qed.
Lemma in_str : forall t a e s, forallb word_char t = true -> scan (InStr a false) e (t ++ x22 :: s) = TStr (a ++ t) :: scan Start true s.
Proof.
  induction t as [|c t IH]; intros a e s H; cbn [app scan step].
  - rewrite app_nil_r. reflexivity.
  - cbn [forallb] in H. apply andb_prop in H as [C H].
    replace (beqb c x22) with false by (destruct c; cbn in C |- *; try reflexivity; discriminate C).
    replace (beqb c x0a) with false by (destruct c; cbn in C |- *; try reflexivity; discriminate C).
    replace (beqb c x5c) with false by (destruct c; cbn in C |- *; try reflexivity; discriminate C).
    cbn [app]. rewrite IH by exact H. now rewrite <- app_assoc.
Qed.
Lemma quote_word t : forallb word_char t = true -> Quote t = x22 :: t ++ [x22].
Proof.
  intro H. unfold Quote. cbn [app]. f_equal. f_equal. induction t as [|c t IH]; [reflexivity|].
  cbn [forallb] in H. apply andb_prop in H as [C H]. cbn [quote_body]. rewrite (IH H).
  replace (beqb c x22 || beqb c x5c) with false by (destruct c; cbn in C |- *; try reflexivity; discriminate C). reflexivity.
Qed.
Lemma start_quote t e s : forallb word_char t = true -> scan Start e (Quote t ++ s) = TStr t :: scan Start true s.
Proof.
  intro H. rewrite (quote_word t H). rewrite <- app_comm_cons, <- app_assoc. cbn [app].
  change (scan Start e (x22 :: t ++ x22 :: s)) with (scan (InStr [] false) e (t ++ x22 :: s)). now rewrite (in_str t [] e s H).
Qed.

(** ** Comments *)
Lemma in_line : forall t e r, ~ In x0a t -> scan InLine e (t ++ x0a :: r) = semicolon e ++ scan Start false r.
Proof.
  induction t as [|c t IH]; intros e r H; cbn [app scan step].
  - reflexivity.
  - replace (beqb c x0a) with false by (symmetry; destruct c; try reflexivity; exfalso; apply H; now left).
    cbn [app]. apply IH. intro; apply H; now right.
Qed.
(** [star]: a star was just read *)
Lemma in_block : forall t star line e r, (forall a b, t <> a ++ bs "*/" ++ b) -> (star = true -> hd x00 t <> x2f) ->
  scan (InBlock star line) e (t ++ bs "*/" ++ x0a :: r) = semicolon e ++ scan Start false r.
Proof.
  induction t as [|c t IH]; intros star line e r NB NS.
  - change (bs "*/") with [x2a; x2f]. cbn [app scan step].
    change (beqb x2a x2f) with false. rewrite andb_false_r. cbn [app]. change (beqb x2a x2a) with true. change (beqb x2a x0a) with false.
    change (beqb x2f x2f) with true. cbn [andb]. rewrite orb_false_r. destruct line; [|cbn [app]]; reflexivity.
  - cbn [app scan step].
    replace (star && beqb c x2f) with false.
    2:{ symmetry. destruct star; [|reflexivity]. cbn [andb]. specialize (NS eq_refl). cbn [hd] in NS. destruct c; try reflexivity. contradiction. }
    cbn [app]. apply IH.
    + intros a b E. apply (NB (c :: a) b). cbn [app]. now rewrite E.
    + intros B E. destruct t as [|d t]; [discriminate E|]. cbn [hd] in E. subst d.
      assert (c = x2a) as -> by (destruct c; cbn in B; try discriminate B; reflexivity). apply (NB [] t). reflexivity.
Qed.
Lemma start_comment s e r : one_comment s -> scan Start e (s ++ x0a :: r) = semicolon e ++ scan Start false r.
Proof.
  intro H. destruct H as [t H|t H].
  - rewrite <- app_assoc. change (scan Start e (bs "//" ++ t ++ x0a :: r)) with (scan InLine e (t ++ x0a :: r)). now apply in_line.
  - rewrite <- !app_assoc. change (scan Start e (bs "/*" ++ t ++ bs "*/" ++ x0a :: r)) with (scan (InBlock false false) e (t ++ bs "*/" ++ x0a :: r)).
    apply in_block; [exact H|discriminate].
Qed.
Lemma start_inline s e r : s = [] \/ one_comment s -> scan Start e (s ++ x0a :: r) = semicolon e ++ scan Start false r.
Proof. intros [->|H]; [reflexivity|now apply start_comment]. Qed.
(** Comments between lines leave no token *)
Lemma start_head s r : a_comment s -> scan Start false (s ++ x0a :: r) = scan Start false r.
Proof.
  intros (l & H & ->). revert r. induction l as [|s l IH]; intro r; [reflexivity|].
  inversion H as [|s' l' A B]; subst. destruct l as [|s2 l]; [exact (start_comment s false r A)|].
  change (join_lines (s :: s2 :: l)) with (s ++ x0a :: join_lines (s2 :: l)). rewrite <- app_assoc. cbn [app].
  rewrite (start_comment s false _ A). cbn [semicolon app]. now apply IH.
Qed.
Lemma one_comment_last s : one_comment s -> s <> [] /\ last s x00 <> x0a.
Proof.
  intro H. destruct H as [t H|t H].
  - split; [discriminate|]. change (bs "//") with [x2f; x2f]. cbn [app]. intro E. destruct t as [|c t]; [discriminate E|].
    apply H. rewrite <- E. cbn [last]. change (match t with [] => c | _ :: _ => last t x00 end) with (last (c :: t) x00).
    clear. revert c. induction t as [|d t IH]; intro c; [now left|right; apply IH].
  - split; [discriminate|]. change (bs "*/") with ([x2a] ++ [x2f]). rewrite !app_assoc, last_last. discriminate.
Qed.
Lemma a_comment_last s : a_comment s -> s = [] \/ last s x00 <> x0a.
Proof.
  intros (l & H & ->). destruct l as [|s l]; [now left|]. right. revert s H. induction l as [|s2 l IH]; intros s H.
  - inversion H; subst. now apply one_comment_last.
  - inversion H as [|s' l' A B]; subst. specialize (IH s2 B). change (join_lines (s :: s2 :: l)) with (s ++ x0a :: join_lines (s2 :: l)).
    assert (N : join_lines (s2 :: l) <> []).
    { inversion B as [|q q' C D]; subst. apply one_comment_last in C as [C _]. destruct s2; [contradiction|]. now destruct l. }
    destruct (join_lines (s2 :: l)) as [|c t]; [contradiction|]. clear - IH. induction s as [|d s IHs]; [exact IH|].
    cbn [app last]. destruct (s ++ x0a :: c :: t) eqn:E; [now destruct s|exact IHs].
Qed.
