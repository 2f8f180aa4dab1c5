(** Proofs about the code writer of prutalgen. *)
From Coq Require Import Lia Sorting.Permutation Sorting.Sorted Strings.String Init.Byte.
From Verif Require Import Base GoStr StrFacts GenField GenSpec GenNames NameSpec GenImport ImportSpec WriterSpec ImportProofs.
Import StringSyntax.
Open Scope N_scope.

Definition name_of (a : bytes) : option bytes := match a with [] => None | _ => Some a end.
Definition alias_ok (a : bytes) : Prop := a = [] \/ package_name a.

Lemma spec_text_gen : forall p a, path_ok p -> alias_ok a -> import_spec (a ++ bs " " ++ Quote p) (name_of a, p).
Proof.
  intros p a OK [->|A]; [now apply spec_text|].
  destruct a as [|c a]; [destruct A as ((? & ? & E & _) & _); discriminate|]. destruct OK as [N H]. rewrite (Quote_plain p H).
  pose proof (is_named [] (c :: a) (bs " ") [] p blank_nil A blank_sp ltac:(discriminate) blank_nil N H) as K.
  cbn [name_of]. exact K.
Qed.
Lemma import_lines_body_gen : forall m pp prev, (forall w p, In (w, p) pp -> path_ok p /\ alias_ok (alias_of m p)) ->
  import_body (import_lines m prev pp) (map (fun x => (name_of (alias_of m (snd x)), snd x)) pp).
Proof.
  intros m pp. induction pp as [|[w p] pp IH]; intros prev H; cbn [import_lines map snd].
  - apply ib_nil, blank_nil.
  - destruct (H w p (or_introl eq_refl)) as [OK AL].
    assert (B : import_body (alias_of m p ++ bs " " ++ Quote p ++ nl ++ import_lines m (Some w) pp)
       ((name_of (alias_of m p), p) :: map (fun x => (name_of (alias_of m (snd x)), snd x)) pp)).
    { assert (EQ : alias_of m p ++ bs " " ++ Quote p ++ nl ++ import_lines m (Some w) pp = (alias_of m p ++ bs " " ++ Quote p) ++ [x0a] ++ import_lines m (Some w) pp)
        by (now rewrite <- !app_assoc).
      rewrite EQ. apply ib_spec; [now apply spec_text_gen|]. apply IH. intros w' p' I. apply (H w'). now right. }
    destruct prev as [v|]; [|exact B]. destruct (v =? w)%Z; [exact B|].
    exact (ib_empty [] _ _ blank_nil B).
Qed.
Lemma str_ltb_lex : forall a b, str_ltb a b = true -> lex_lt a b.
Proof.
  induction a as [|x a IH]; intros [|y b] H; cbn in H; try discriminate.
  - left. now exists y, b.
  - destruct (beqb_spec x y) as [->|N].
    + destruct (IH b H) as [(d & r & ->)|(c & x0 & y0 & p' & q' & -> & -> & L)].
      * left. now exists d, r.
      * right. now exists (y :: c), x0, y0, p', q'.
    + right. exists [], x, y, a, b. repeat split; auto. now apply N.ltb_lt.
Qed.
Lemma less_before : forall g p q, import_less (g p, p) (g q, q) = true -> before g p q.
Proof.
  intros g p q. unfold import_less. cbn. destruct (Z.eqb_spec (g p) (g q)) as [E|E]; intro H.
  - right. split; [exact E|now apply str_ltb_lex].
  - left. now apply Z.ltb_lt.
Qed.
Lemma alias_in : forall m p a, NoDup (map fst m) -> In (p, a) m -> alias_of m p = a.
Proof.
  induction m as [|[q b] m IH]; intros p a ND I; [destruct I|]. inversion ND; subst. unfold alias_of in *. cbn [find fst].
  destruct (str_eqb_spec q p) as [->|N].
  - destruct I as [E|I]; [now injection E|]. exfalso. apply H1. apply in_map_iff. now exists (p, a).
  - destruct I as [E|I]; [congruence|]. now apply IH.
Qed.
Lemma sorted_from_nth : forall (R : bytes -> bytes -> Prop) l,
  (forall i j a b, (i < j)%nat -> nth_error l i = Some a -> nth_error l j = Some b -> R a b) -> StronglySorted R l.
Proof.
  intros R. induction l as [|x l IH]; intro H; constructor.
  - apply IH. intros i j a b L A B. apply (H (Datatypes.S i) (Datatypes.S j)); cbn; auto; lia.
  - apply Forall_forall. intros y I. apply In_nth_error in I as (j & J). apply (H O (Datatypes.S j)); cbn; auto; lia.
Qed.
Lemma genImports_gen : forall srt g m, is_sort srt -> NoDup (map fst m) -> (forall p a, In (p, a) m -> path_ok p /\ alias_ok a) ->
  exists l, import_decl (genImports srt g m) l /\ Permutation l (map (fun x => (name_of (snd x), fst x)) m) /\
    StronglySorted (before g) (map snd l).
Proof.
  intros srt g m SRT ND OK. destruct m as [|[p a] [|y m]].
  - exists []. split; [constructor|]. split; [reflexivity|constructor].
  - destruct (OK p a (or_introl eq_refl)) as [PO AO]. exists [(name_of a, p)]. split; [|split; [reflexivity|repeat constructor]].
    cbn [genImports]. assert (E : bs "import " ++ a ++ bs " " ++ Quote p = bs "import" ++ [x20] ++ (a ++ bs " " ++ Quote p)) by reflexivity.
    rewrite E. now apply id_one, spec_text_gen.
  - rewrite genImports_many. remember ((p, a) :: y :: m) as M eqn:EM.
    destruct (SRT import_less (map (fun x => (g (fst x), fst x)) M)) as [P S].
    specialize (S less_irr less_trans less_total).
    set (pp := srt import_less _) in *. exists (map (fun x => (name_of (alias_of M (snd x)), snd x)) pp).
    assert (INP : forall w q, In (w, q) pp -> w = g q /\ exists b, In (q, b) M).
    { intros w q I. apply (Permutation_in _ P) in I. apply in_map_iff in I as ([q' b] & E1 & I). injection E1 as <- <-. split; [reflexivity|now exists b]. }
    split; [|split].
    + assert (E : bs "import (" ++ nl ++ import_lines M None pp ++ bs ")" = bs "import" ++ bs " " ++ bs "(" ++ (nl ++ import_lines M None pp) ++ bs ")")
        by (rewrite <- !app_assoc; reflexivity).
      rewrite E. apply id_group; [apply blank_sp|]. apply (ib_empty [] _ _ blank_nil). apply import_lines_body_gen.
      intros w q I. destruct (INP w q I) as [_ (b & J)]. rewrite (alias_in M q b ND J). now apply OK.
    + apply (Permutation_map (fun x : Z * bytes => (name_of (alias_of M (snd x)), snd x))) in P. rewrite P, map_map. cbn [snd].
      apply Permutation_refl'. apply map_ext_in. intros [q b] I. cbn. now rewrite (alias_in M q b ND I).
    + rewrite map_map. cbn [snd]. apply sorted_from_nth. intros i j q r L A B.
      rewrite nth_error_map in A, B. destruct (nth_error pp i) as [[w q']|] eqn:A1; [|discriminate]. destruct (nth_error pp j) as [[v r']|] eqn:B1; [|discriminate].
      cbn in A, B. injection A as ->. injection B as ->.
      destruct (INP w q (nth_error_In _ _ A1)) as [-> _]. destruct (INP v r (nth_error_In _ _ B1)) as [-> _].
      apply less_before. destruct (import_less (g q, q) (g r, r)) eqn:E; [reflexivity|]. exfalso.
      pose proof (S i j _ _ L A1 B1) as E2. pose proof (less_total _ _ E E2) as EQ. injection EQ as _ ->.
      assert (NP : NoDup pp).
      { apply (Permutation_NoDup (Permutation_sym P)).
        apply (NoDup_map_inv snd). rewrite map_map. cbn [snd]. exact ND. }
      rewrite NoDup_nth_error in NP. assert (i = j); [|lia]. apply NP; [|congruence]. apply nth_error_Some. congruence.
Qed.
(** The sorting algorithm does not matter either *)
Lemma genImports_sort : forall srt srt' g m, is_sort srt -> is_sort srt' -> genImports srt g m = genImports srt' g m.
Proof.
  intros srt srt' g m S S'. destruct m as [|[p a] [|y m]]; try reflexivity. rewrite !genImports_many. do 4 f_equal.
  set (M := map _ _). destruct (S import_less M) as [P1 S1]. destruct (S' import_less M) as [P2 S2].
  apply (sorted_unique import_less less_total).
  - now rewrite P1, P2.
  - apply S1; [exact less_irr|exact less_trans|exact less_total].
  - apply S2; [exact less_irr|exact less_trans|exact less_total].
Qed.

(** * The map of packages *)
Lemma set_pkg_in : forall m p a q b, NoDup (map fst m) -> In (q, b) (set_pkg m p a) <-> (q = p /\ b = a) \/ (q <> p /\ In (q, b) m).
Proof.
  induction m as [|[x c] m IH]; intros p a q b ND; cbn.
  - split; [intros [E|[]]; injection E; auto|]. intros [[-> ->]|[_ []]]. now left.
  - inversion ND; subst. destruct (str_eqb_spec x p) as [->|N]; cbn.
    + split.
      * intros [E|I]; [injection E; auto|]. right. split; [|now right]. intros ->. apply H1. apply in_map_iff. now exists (p, b).
      * intros [[-> ->]|[NE [E|I]]]; [now left|congruence|now right].
    + rewrite IH by assumption. split.
      * intros [E|[E|[NE I]]]; [injection E as <- <-; auto|auto|auto].
      * intros [E|[NE [E|I]]]; auto.
Qed.
Definition stored (p a : bytes) : bytes := if str_eqb (path_Base p) a then [] else a.
Lemma UsePkg_in : forall m p a q b, NoDup (map fst m) ->
  In (q, b) (UsePkg m p a) <-> (p <> [] /\ q = p /\ b = stored p a) \/ ((p = [] \/ q <> p) /\ In (q, b) m).
Proof.
  intros m [|c p] a q b ND; cbn [UsePkg].
  - intuition.
  - assert (E : (if str_eqb (path_Base (c :: p)) a then set_pkg m (c :: p) [] else set_pkg m (c :: p) a) = set_pkg m (c :: p) (stored (c :: p) a))
      by (unfold stored; now destruct (str_eqb _ a)).
    rewrite E, set_pkg_in by exact ND. assert (c :: p <> []) by discriminate. intuition congruence.
Qed.
Definition is_reset (c : call) : Prop := match c with Call_Reset _ _ => True | _ => False end.
Lemma do_calls_app : forall cs cs' w, do_calls w (cs ++ cs') = do_calls (do_calls w cs) cs'.
Proof. intros. unfold do_calls. apply fold_left_app. Qed.
Lemma asked_snoc : forall cs c p a, asked (cs ++ [c]) p a <-> c = Call_UsePkg p a \/ ((forall a', c <> Call_UsePkg p a') /\ asked cs p a).
Proof.
  intros cs c p a. split.
  - intros (u & v & E & NI). destruct v as [|x v] using rev_ind.
    + apply app_inj_tail in E as [_ ->]. now left.
    + clear IHv. rewrite app_comm_cons, app_assoc in E. apply app_inj_tail in E as [-> ->]. right. split.
      * intros a' ->. apply (NI a'). apply in_or_app. right. now left.
      * exists u, v. split; [reflexivity|]. intros a' I. apply (NI a'). apply in_or_app. now left.
  - intros [->|(N & u & v & -> & NI)].
    + now exists cs, [].
    + exists u, (v ++ [c]). split; [now rewrite <- app_assoc|]. intros a' I. apply in_app_or in I as [I|[E|[]]]; [exact (NI a' I)|exact (N a' E)].
Qed.
Lemma pkgs_asked : forall cs w, w_pkgs w = [] -> Forall (fun c => ~ is_reset c) cs ->
  NoDup (map fst (w_pkgs (do_calls w cs))) /\
  forall q b, In (q, b) (w_pkgs (do_calls w cs)) <-> exists a, q <> [] /\ asked cs q a /\ b = stored q a.
Proof.
  intros cs w W. induction cs as [|c cs IH] using rev_ind; intro NR.
  - unfold do_calls. cbn. rewrite W. split; [constructor|]. intros q b. split; [intros []|]. intros (a & _ & (u & v & E & _) & _). destruct u; discriminate.
  - apply Forall_app in NR as [NR NC]. destruct (IH NR) as [ND IN]. rewrite do_calls_app. set (w1 := do_calls w cs) in *. inversion NC as [|? ? C _]; subst.
    assert (OTHER : (forall p a, c <> Call_UsePkg p a) -> w_pkgs (do_calls w1 [c]) = w_pkgs w1).
    { intro N. destruct c; cbn; try reflexivity; [exfalso; exact (C I)|exfalso; exact (N _ _ eq_refl)]. }
    destruct c as [h p|p a|g|s|f t]; [destruct (C Logic.I)| | | |].
    + cbn [do_calls fold_left do_call w_pkgs]. split; [now apply UsePkg_nodup|]. intros q b. rewrite UsePkg_in by exact ND. split.
      * intros [(N & -> & ->)|[D K]].
        -- exists a. split; [exact N|]. split; [apply asked_snoc; now left|reflexivity].
        -- apply IN in K as (a' & N & G & ->). exists a'. split; [exact N|]. split; [|reflexivity]. apply asked_snoc. right. split; [|exact G].
           intros a'' E. injection E as -> _. destruct D; congruence.
      * intros (a' & N & G & ->). apply asked_snoc in G as [E|[D G]].
        -- injection E as -> ->. left. auto.
        -- right. split; [|apply IN; now exists a']. right. intros ->. exact (D a eq_refl).
    + rewrite OTHER by discriminate. split; [exact ND|]. intros q b. rewrite IN. split; intros (a & N & G & ->); exists a; (split; [exact N|split; [|reflexivity]]).
      * apply asked_snoc. right. split; [discriminate|exact G].
      * apply asked_snoc in G as [E|[_ G]]; [discriminate|exact G].
    + rewrite OTHER by discriminate. split; [exact ND|]. intros q b. rewrite IN. split; intros (a & N & G & ->); exists a; (split; [exact N|split; [|reflexivity]]).
      * apply asked_snoc. right. split; [discriminate|exact G].
      * apply asked_snoc in G as [E|[_ G]]; [discriminate|exact G].
    + rewrite OTHER by discriminate. split; [exact ND|]. intros q b. rewrite IN. split; intros (a & N & G & ->); exists a; (split; [exact N|split; [|reflexivity]]).
      * apply asked_snoc. right. split; [discriminate|exact G].
      * apply asked_snoc in G as [E|[_ G]]; [discriminate|exact G].
Qed.

(** * The buffer *)
Lemma last_app_ne : forall (a b : bytes) d, b <> [] -> last (a ++ b) d = last b d.
Proof.
  induction a as [|x a IH]; intros b d N; [reflexivity|]. cbn [app]. destruct (a ++ b) as [|y r] eqn:E.
  - apply app_eq_nil in E as [_ ->]. congruence.
  - change (last (x :: y :: r) d) with (last (y :: r) d). rewrite <- E. now apply IH.
Qed.
Lemma F_line : forall buf f t, f <> [] -> t <> [] -> F buf f t = buf ++ line t.
Proof.
  intros buf f t N T. unfold F, line, nl. destruct f; [congruence|]. rewrite last_app_ne by exact T.
  destruct (beqb (last t x00) x0a); [reflexivity|now rewrite app_assoc].
Qed.
Lemma buf_pieces : forall cs b, pieces cs b -> forall w, w_buf (do_calls w cs) = w_buf w ++ b.
Proof.
  induction 1; intros w; cbn [do_calls fold_left do_call]; fold (do_calls) in *.
  - now rewrite app_nil_r.
  - change (fold_left do_call cs ?x) with (do_calls x cs). rewrite IHpieces. cbn [w_buf]. now rewrite app_assoc.
  - change (fold_left do_call cs ?x) with (do_calls x cs). rewrite IHpieces. cbn [w_buf]. rewrite F_line by assumption. now rewrite app_assoc.
  - change (fold_left do_call cs ?x) with (do_calls x cs). rewrite IHpieces. cbn [w_buf F]. unfold nl. now rewrite <- app_assoc.
  - change (fold_left do_call cs ?x) with (do_calls x cs). rewrite IHpieces. reflexivity.
  - change (fold_left do_call cs ?x) with (do_calls x cs). rewrite IHpieces. reflexivity.
Qed.
Lemma pieces_no_reset : forall cs b, pieces cs b -> Forall (fun c => ~ is_reset c) cs.
Proof. induction 1; constructor; auto. Qed.
Lemma line_ident : forall s c, ident_char c -> last s x00 = c -> line s = s ++ [x0a].
Proof.
  intros s c I L. unfold line. rewrite L. destruct (beqb_spec c x0a) as [->|]; [|reflexivity]. apply ident_cases in I. tauto.
Qed.
Lemma package_name_ident : forall p, package_name p -> p <> [] /\ Forall ident_char p.
Proof.
  intros p ((c & r & -> & C & R) & _). split; [discriminate|]. constructor; [|exact R]. destruct C as [C| ->]; [right; left; exact C|right; right; right; reflexivity].
Qed.
Lemma last_in : forall (l : bytes) d, l <> [] -> In (last l d) l.
Proof.
  induction l as [|x l IH]; intros d N; [congruence|]. destruct l as [|y l]; [now left|]. right. apply (IH d). discriminate.
Qed.
Lemma reset_buf : forall header pkg w, package_name pkg -> w_buf (writer_Reset header pkg w) = layout header pkg importPlaceHolder [].
Proof.
  intros header pkg w P. apply package_name_ident in P as [N I].
  assert (LP : line (bs "package " ++ pkg) = bs "package " ++ pkg ++ [x0a]).
  { rewrite (line_ident _ (last pkg x00)); [now rewrite <- app_assoc| |now apply last_app_ne].
    rewrite Forall_forall in I. apply I. now apply last_in. }
  unfold writer_Reset, layout. cbn [w_buf].
  assert (PH : line importPlaceHolder = importPlaceHolder ++ [x0a]) by reflexivity.
  set (b := match header with [] => [] | _ => F (F [] (bs "%s") header) [] [] end).
  assert (B : b = match header with [] => [] | _ => line header ++ [x0a] end).
  { unfold b. destruct header; [reflexivity|]. cbn [F]. rewrite F_line by discriminate. reflexivity. }
  rewrite (F_line b) by discriminate. rewrite LP. rewrite (F_line _ importPlaceHolder) by discriminate. rewrite PH, B. cbn [F]. unfold nl.
  rewrite <- !app_assoc. reflexivity.
Qed.

(** * The place of the imports *)
Lemma HasPrefix_app : forall p s, HasPrefix s p = true -> exists b, s = p ++ b.
Proof.
  induction p as [|c p IH]; intros s H; [now exists s|]. destruct s as [|d s]; cbn in H; [discriminate|].
  apply Bool.andb_true_iff in H as [H1 H2]. destruct (beqb_spec c d) as [->|NE]; [|discriminate]. destruct (IH s H2) as (b & ->). now exists b.
Qed.
Lemma prefix_split : forall (p a b c : bytes) x, p ++ b = a ++ x :: c -> ~ In x p -> exists d, a = p ++ d.
Proof.
  induction p as [|y p IH]; intros a b c x E N; [now exists a|]. destruct a as [|z a]; cbn in E; injection E as E1 E2.
  - exfalso. apply N. now left.
  - subst z. destruct (IH a b c x E2) as (d & ->); [intro I; apply N; now right|]. now exists d.
Qed.
Lemma no_early : forall header pkg body, package_name pkg -> ~ contains header importPlaceHolder ->
  let pre := (match header with [] => [] | _ => line header ++ [x0a] end) ++ bs "package " ++ pkg ++ [x0a; x0a] in
  forall i, (i < length pre)%nat -> HasPrefix (skipn i (pre ++ importPlaceHolder ++ body)) importPlaceHolder = false.
Proof.
  intros header pkg body P NC pre i L. destruct (HasPrefix _ _) eqn:E; [|reflexivity]. exfalso.
  apply HasPrefix_app in E as (b & E).
  assert (SK : skipn i (pre ++ importPlaceHolder ++ body) = skipn i pre ++ importPlaceHolder ++ body).
  { rewrite skipn_app. replace (i - length pre)%nat with O by lia. reflexivity. }
  rewrite SK in E. apply package_name_ident in P as [_ ID].
  assert (NB : forall c, In c (bs "package " ++ pkg ++ [x0a; x0a]) -> c <> x7b).
  { intros c I ->. apply in_app_or in I as [I|I].
    - repeat (destruct I as [I|I]; [discriminate I|]). exact I.
    - apply in_app_or in I as [I|[I|[I|[]]]]; try discriminate. rewrite Forall_forall in ID. apply ID in I. destruct I as [I|[I|[I|I]]]; discriminate. }
  assert (NN : ~ In x0a importPlaceHolder) by (intro I; repeat (destruct I as [I|I]; [discriminate I|]); exact I).
  assert (HD : exists r, skipn i pre = x7b :: r).
  { destruct (skipn i pre) as [|c r] eqn:SE.
    - apply (f_equal (@length byte)) in SE. rewrite skipn_length in SE. cbn in SE. lia.
    - injection E as -> _. now exists r. }
  destruct HD as (r & HD).
  set (h := match header with [] => [] | _ => line header ++ [x0a] end) in *.
  destruct (Nat.lt_ge_cases i (length h)) as [LI|GE].
  - (* in the header *)
    assert (HL : exists k, h = header ++ x0a :: k).
    { unfold h. destruct header as [|c header]; [cbn in LI; lia|]. unfold line. destruct (beqb _ _); [now exists []|]. exists [x0a]. now rewrite <- app_assoc. }
    destruct HL as (k & HL). unfold pre in E. rewrite skipn_app in E. replace (i - length h)%nat with O in E by lia. cbn [skipn] in E.
    rewrite HL in E. destruct (Nat.lt_ge_cases i (length header)) as [LH|GH].
    + rewrite skipn_app in E. replace (i - length header)%nat with O in E by lia. cbn [skipn] in E.
      rewrite <- !app_assoc in E. cbn [app] in E. symmetry in E. apply prefix_split in E as (d & E); [|exact NN].
      apply NC. exists (firstn i header), d. rewrite <- E. now rewrite firstn_skipn.
    + unfold pre in HD. rewrite skipn_app in HD. replace (i - length h)%nat with O in HD by lia. cbn [skipn] in HD.
      assert (IN : In x7b (x0a :: k)).
      { assert (I2 : In x7b (skipn i h)).
        { destruct (skipn i h) as [|z zs] eqn:SZ; [apply (f_equal (@length byte)) in SZ; rewrite skipn_length in SZ; cbn in SZ; lia|]. injection HD as -> _. now left. }
        rewrite HL, skipn_app, skipn_all2 in I2 by lia. cbn [app] in I2.
        rewrite <- (firstn_skipn (i - length header) (x0a :: k)). apply in_or_app. now right. }
      assert (KN : k = [] \/ k = [x0a]).
      { revert HL. unfold h. destruct header as [|c header]; [discriminate|]. unfold line. destruct (beqb _ _); intro HL.
        - apply app_inv_head in HL. injection HL as <-. now left.
        - rewrite <- app_assoc in HL. apply app_inv_head in HL. injection HL as <-. now right. }
      destruct KN as [->| ->]; repeat (destruct IN as [IN|IN]; [discriminate IN|]); exact IN.
  - assert (I2 : In x7b (skipn (i - length h) (bs "package " ++ pkg ++ [x0a; x0a]))).
    { unfold pre in HD. rewrite skipn_app, skipn_all2 in HD by lia. cbn [app] in HD. rewrite HD. now left. }
    apply (NB x7b); [|reflexivity]. rewrite <- (firstn_skipn (i - length h) (bs "package " ++ pkg ++ [x0a; x0a])). apply in_or_app. now right.
Qed.
Lemma place_imports : forall header pkg body imports, package_name pkg -> ~ contains header importPlaceHolder ->
  Replace1 (layout header pkg importPlaceHolder [] ++ body) importPlaceHolder imports = layout header pkg imports body.
Proof.
  intros header pkg body imports P NC. unfold layout.
  set (h := match header with [] => [] | _ => line header ++ [x0a] end) in *.
  assert (E1 : (h ++ bs "package " ++ pkg ++ [x0a; x0a] ++ importPlaceHolder ++ [x0a; x0a] ++ []) ++ body =
    (h ++ bs "package " ++ pkg ++ [x0a; x0a]) ++ importPlaceHolder ++ ([x0a; x0a] ++ body)) by (rewrite <- !app_assoc; reflexivity).
  rewrite E1, Replace1_first; [|discriminate|].
  - rewrite <- !app_assoc. reflexivity.
  - intros i L. exact (no_early header pkg ([x0a; x0a] ++ body) P NC i L).
Qed.

(** * A sorting algorithm *)
Fixpoint insert (less : Z * bytes -> Z * bytes -> bool) (x : Z * bytes) (l : list (Z * bytes)) : list (Z * bytes) :=
  match l with [] => [x] | y :: r => if less y x then y :: insert less x r else x :: l end.
Definition srt0 (less : Z * bytes -> Z * bytes -> bool) (l : list (Z * bytes)) : list (Z * bytes) := fold_right (insert less) [] l.
Lemma insert_perm : forall less x l, Permutation (insert less x l) (x :: l).
Proof.
  intros less x. induction l as [|y l IH]; [reflexivity|]. cbn. destruct (less y x); [|reflexivity]. rewrite IH. apply perm_swap.
Qed.
Lemma sorted_nth : forall (T : Type) (R : T -> T -> Prop) l, StronglySorted R l ->
  forall i j a b, (i < j)%nat -> nth_error l i = Some a -> nth_error l j = Some b -> R a b.
Proof.
  induction 1 as [|x l S IH F]; intros i j a b L A B; [destruct i; discriminate|].
  destruct j as [|j]; [lia|]. cbn in B. destruct i as [|i]; cbn in A.
  - injection A as <-. rewrite Forall_forall in F. apply F. now apply nth_error_In in B.
  - apply (IH i j); auto. lia.
Qed.
Lemma srt0_sorts : is_sort srt0.
Proof.
  intros less l. split.
  - unfold srt0. induction l as [|x l IH]; cbn; [reflexivity|]. now rewrite insert_perm, IH.
  - intros IR TR TOT. apply (sorted_nth _ (fun a b => less b a = false)).
    unfold srt0. induction l as [|x l IH]; cbn; [constructor|]. revert IH. generalize (fold_right (insert less) [] l). clear l.
    induction l as [|y l IH2]; intro S; cbn; [repeat constructor|]. inversion S as [|? ? S1 F]; subst. destruct (less y x) eqn:E.
    + constructor; [now apply IH2|]. rewrite insert_perm. constructor; [|exact F].
      destruct (less x y) eqn:E2; [|reflexivity]. rewrite <- E2 in E. pose proof (TR x y x E2) as K. rewrite E, E2 in K. specialize (K eq_refl). now rewrite IR in K.
    + constructor; [exact S|]. constructor; [exact E|]. rewrite Forall_forall in *. intros z I. specialize (F z I).
      destruct (less z x) eqn:ZX; [|reflexivity]. exfalso. destruct (less x y) eqn:XY.
      * pose proof (TR z x y ZX XY). congruence.
      * rewrite (TOT x y XY E) in ZX. congruence.
Qed.
