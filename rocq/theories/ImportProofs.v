(** Proofs about imports and references. *)
From Coq Require Import Lia Sorting.Permutation Sorting.Sorted Strings.String Init.Byte.
From Verif Require Import Base GoStr StrFacts GenField GenSpec GenNames NameSpec NameProofs GenEnum GenPkg Scope ScopeSpec ScopeProofs GenImport ImportSpec.
Import StringSyntax.
Open Scope N_scope.

(** * Order *)
Lemma str_ltb_irr : forall a, str_ltb a a = false.
Proof. induction a; cbn; [reflexivity|]. now rewrite beqb_refl. Qed.
Lemma str_ltb_trans : forall a b c, str_ltb a b = true -> str_ltb b c = true -> str_ltb a c = true.
Proof.
  induction a as [|x a IH]; destruct b as [|y b], c as [|z c]; cbn; intros H1 H2; try discriminate; try reflexivity.
  destruct (beqb_spec x y) as [->|N1], (beqb_spec y z) as [->|N2].
  - now apply (IH b).
  - exact H2.
  - destruct (beqb_spec x z); [congruence|exact H1].
  - apply N.ltb_lt in H1, H2. destruct (beqb_spec x z) as [->|_]; [lia|]. apply N.ltb_lt. lia.
Qed.
Lemma b2n_inj' : forall x y : byte, b2n x = b2n y -> x = y.
Proof. intros x y H. destruct (beqb_spec x y) as [E|N]; [exact E|]. unfold beqb in N. pose proof (beqb_spec x y) as K. unfold beqb in K. rewrite H, N.eqb_refl in K. now inversion K. Qed.
Lemma str_ltb_total : forall a b, str_ltb a b = false -> str_ltb b a = false -> a = b.
Proof.
  induction a as [|x a IH]; destruct b as [|y b]; cbn; intros H1 H2; try discriminate; [reflexivity|].
  destruct (beqb_spec x y) as [->|N]; [rewrite beqb_refl in H2; now rewrite (IH b)|].
  destruct (beqb_spec y x); [congruence|]. apply N.ltb_ge in H1, H2. exfalso. apply N. apply b2n_inj'. lia.
Qed.

(** The order of imports, a strict total order *)
Lemma less_irr : forall a, import_less a a = false.
Proof. intros [w p]. unfold import_less. cbn. rewrite Z.eqb_refl. apply str_ltb_irr. Qed.
Lemma less_trans : forall a b c, import_less a b = true -> import_less b c = true -> import_less a c = true.
Proof.
  intros [u p] [v q] [w r]. unfold import_less. cbn.
  destruct (Z.eqb_spec u v), (Z.eqb_spec v w), (Z.eqb_spec u w); subst; try lia; try (intros; discriminate); try tauto; intros H1 H2;
    try (apply Z.ltb_lt in H1); try (apply Z.ltb_lt in H2); try lia; try (apply Z.ltb_lt; lia). exact (str_ltb_trans _ _ _ H1 H2).
Qed.
Lemma less_total : forall a b, import_less a b = false -> import_less b a = false -> a = b.
Proof.
  intros [u p] [v q]. unfold import_less. cbn. destruct (Z.eqb_spec u v) as [->|N].
  - rewrite Z.eqb_refl. intros. f_equal. now apply str_ltb_total.
  - destruct (Z.eqb_spec v u); [congruence|]. intros H1 H2. apply Z.ltb_ge in H1, H2. lia.
Qed.

(** What sort.Slice promises. *)
Definition is_sort (srt : (Z * bytes -> Z * bytes -> bool) -> list (Z * bytes) -> list (Z * bytes)) : Prop :=
  forall less l, Permutation (srt less l) l /\
    ((forall a, less a a = false) -> (forall a b c, less a b = true -> less b c = true -> less a c = true) ->
     (forall a b, less a b = false -> less b a = false -> a = b) ->
     forall i j a b, (i < j)%nat -> nth_error (srt less l) i = Some a -> nth_error (srt less l) j = Some b -> less b a = false).

Lemma sorted_unique : forall less : Z * bytes -> Z * bytes -> bool,
  (forall a b, less a b = false -> less b a = false -> a = b) ->
  forall l l', Permutation l l' ->
  (forall i j a b, (i < j)%nat -> nth_error l i = Some a -> nth_error l j = Some b -> less b a = false) ->
  (forall i j a b, (i < j)%nat -> nth_error l' i = Some a -> nth_error l' j = Some b -> less b a = false) -> l = l'.
Proof.
  intros less T. induction l as [|x l IH]; intros l' P S S'.
  - now apply Permutation_nil in P.
  - destruct l' as [|y l']; [now apply Permutation_sym, Permutation_nil in P|].
    assert (E : x = y).
    { assert (I1 : In x (y :: l')) by (apply (Permutation_in _ P); now left).
      assert (I2 : In y (x :: l)) by (apply (Permutation_in _ (Permutation_sym P)); now left).
      destruct I1 as [E|I1]; [congruence|]. destruct I2 as [E|I2]; [congruence|].
      apply In_nth_error in I1 as (i & I1). apply In_nth_error in I2 as (j & I2). apply T.
      - apply (S' O (Datatypes.S i)); cbn; auto; lia.
      - apply (S O (Datatypes.S j)); cbn; auto; lia. }
    subst y. f_equal. apply IH; [now apply Permutation_cons_inv in P| |].
    + intros i j a b L A B. apply (S (Datatypes.S i) (Datatypes.S j)); cbn; auto; lia.
    + intros i j a b L A B. apply (S' (Datatypes.S i) (Datatypes.S j)); cbn; auto; lia.
Qed.

Lemma find_perm : forall (m m' : pkgmap) p, Permutation m m' -> NoDup (map fst m) ->
  find (fun x => str_eqb (fst x) p) m = find (fun x => str_eqb (fst x) p) m'.
Proof.
  intros m m' p P. induction P as [|x l l' P IH|x y l|l l' l'' P1 IH1 P2 IH2]; cbn [find map]; intros ND.
  - reflexivity.
  - inversion ND; subst. destruct (str_eqb (fst x) p); [reflexivity|]. now apply IH.
  - inversion ND as [|? ? N1 N2]; subst. destruct (str_eqb_spec (fst x) p) as [E1|], (str_eqb_spec (fst y) p) as [E2|]; try reflexivity.
    exfalso. apply N1. left. congruence.
  - rewrite IH1 by exact ND. apply IH2. exact (Permutation_NoDup (Permutation_map fst P1) ND).
Qed.

Lemma import_lines_alias : forall m m' pp prev, (forall p, alias_of m p = alias_of m' p) ->
  import_lines m prev pp = import_lines m' prev pp.
Proof. intros m m' pp. induction pp as [|[w p] pp IH]; intros prev H; cbn [import_lines]; [reflexivity|]. now rewrite H, IH. Qed.

Lemma genImports_many : forall srt g x y m, genImports srt g (x :: y :: m) = bs "import (" ++ nl ++
  import_lines (x :: y :: m) None (srt import_less (map (fun x => (g (fst x), fst x)) (x :: y :: m))) ++ bs ")".
Proof. intros srt g [p a] y m. reflexivity. Qed.

Lemma genImports_order : forall srt grouping m m', is_sort srt -> NoDup (map fst m) -> Permutation m m' ->
  genImports srt grouping m = genImports srt grouping m'.
Proof.
  intros srt g m m' SRT ND P. pose proof (Permutation_length P) as L.
  destruct m as [|[p a] [|y m]], m' as [|[p' a'] [|y' m']]; cbn in L; try discriminate; [reflexivity| |].
  - apply Permutation_length_1 in P. injection P as -> ->. reflexivity.
  - rewrite !genImports_many. remember ((p, a) :: y :: m) as M eqn:EM. remember ((p', a') :: y' :: m') as M' eqn:EM'.
    do 3 f_equal.
    assert (AL : forall q, alias_of M q = alias_of M' q) by (intro q; unfold alias_of; now rewrite (find_perm M M' q P ND)).
    rewrite (import_lines_alias M M' _ _ AL). f_equal.
    destruct (SRT import_less (map (fun x => (g (fst x), fst x)) M)) as [P1 S1].
    destruct (SRT import_less (map (fun x => (g (fst x), fst x)) M')) as [P2 S2].
    apply (sorted_unique import_less less_total).
    + rewrite P1, P2. now apply Permutation_map.
    + apply S1; [exact less_irr|exact less_trans|exact less_total].
    + apply S2; [exact less_irr|exact less_trans|exact less_total].
Qed.

(** * The map of packages *)
Lemma set_pkg_keys : forall m p a q, In q (map fst (set_pkg m p a)) <-> q = p \/ In q (map fst m).
Proof.
  induction m as [|[x b] m IH]; intros p a q; cbn.
  - intuition.
  - destruct (str_eqb_spec x p) as [->|N]; cbn; [intuition|]. rewrite IH. intuition.
Qed.
Lemma set_pkg_nodup : forall m p a, NoDup (map fst m) -> NoDup (map fst (set_pkg m p a)).
Proof.
  induction m as [|[x b] m IH]; intros p a ND; cbn.
  - repeat constructor. intros [].
  - inversion ND; subst. destruct (str_eqb_spec x p) as [->|N]; cbn; [now constructor|]. constructor; [|now apply IH].
    rewrite set_pkg_keys. intros [->|K]; congruence.
Qed.
Lemma UsePkg_nodup : forall m p a, NoDup (map fst m) -> NoDup (map fst (UsePkg m p a)).
Proof. intros m [|c p] a ND; cbn; [exact ND|]. destruct (str_eqb _ a); now apply set_pkg_nodup. Qed.
(** an alias that is not the base name, and is given last, is the one used *)
Lemma set_pkg_find : forall m p a, find (fun x => str_eqb (fst x) p) (set_pkg m p a) = Some (p, a).
Proof.
  induction m as [|[x b] m IH]; intros p a; cbn; [now rewrite str_eqb_refl|].
  destruct (str_eqb_spec x p) as [->|N]; cbn; [now rewrite str_eqb_refl|]. now rewrite (str_eqb_ne x p N), IH.
Qed.

Definition no_alias (m : pkgmap) : Prop := Forall (fun x => snd x = []) m.
Lemma set_no_alias : forall m p, no_alias m -> no_alias (set_pkg m p []).
Proof.
  unfold no_alias. induction m as [|[x b] m IH]; intros p H; cbn; [repeat constructor|].
  inversion H; subst. destruct (str_eqb x p); constructor; auto.
Qed.
Lemma UsePkg_nil : forall m p, UsePkg m p [] = match p with [] => m | _ => set_pkg m p [] end.
Proof. intros m [|c p]; [reflexivity|]. unfold UsePkg. destruct (str_eqb _ _); reflexivity. Qed.

Section Files.
Variable F : nat -> pfile.
Variable G : nat -> gopkg.
Variable fuel p : nat.

Definition use_path (u : use) : list bytes :=
  match u with
  | UseStrconv => [bs "strconv"]
  | UsePrutal => [bs "github.com/cloudwego/prutal"]
  | UseRef r => match type_p F G fuel p r with Some x => match gp_import (G x) with [] => [] | _ => [gp_import (G x)] end | None => [] end
  end.
Lemma do_use_keys : forall m u q, In q (map fst (do_use F G fuel p m u)) <-> In q (use_path u) \/ In q (map fst m).
Proof.
  intros m u q. destruct u as [| |r]; cbn [do_use use_path].
  - change (UsePkg m (bs "strconv") []) with (set_pkg m (bs "strconv") []). rewrite set_pkg_keys. cbn [In]. intuition.
  - change (UsePkg m (bs "github.com/cloudwego/prutal") []) with (set_pkg m (bs "github.com/cloudwego/prutal") []). rewrite set_pkg_keys. cbn [In]. intuition.
  - destruct (type_p F G fuel p r) as [x|]; [|cbn; intuition]. rewrite UsePkg_nil.
    destruct (gp_import (G x)); [cbn; intuition|]. rewrite set_pkg_keys. cbn [In]. intuition.
Qed.
Lemma file_keys_gen : forall us m q, In q (map fst (fold_left (do_use F G fuel p) us m)) <->
  (exists u, In u us /\ In q (use_path u)) \/ In q (map fst m).
Proof.
  induction us as [|u us IH]; intros m q; cbn [fold_left].
  - split; [auto|]. intros [(u & [] & _)|H]; exact H.
  - rewrite IH, do_use_keys. split.
    + intros [(u' & I & H)|[H|H]]; [left; exists u'; split; [now right|exact H]|left; exists u; split; [now left|exact H]|now right].
    + intros [(u' & [<-|I] & H)|H]; [tauto|left; now exists u'|tauto].
Qed.
Lemma file_keys : forall us q, In q (map fst (file_pkgs F G fuel p us)) <-> exists u, In u us /\ In q (use_path u).
Proof. intros us q. unfold file_pkgs. rewrite file_keys_gen. cbn. intuition. Qed.
Lemma do_use_ok : forall m u, NoDup (map fst m) /\ no_alias m -> NoDup (map fst (do_use F G fuel p m u)) /\ no_alias (do_use F G fuel p m u).
Proof.
  intros m u [ND NA]. destruct u as [| |r]; cbn [do_use].
  - split; [now apply UsePkg_nodup|]. change (UsePkg m (bs "strconv") []) with (set_pkg m (bs "strconv") []). now apply set_no_alias.
  - split; [now apply UsePkg_nodup|]. change (UsePkg m (bs "github.com/cloudwego/prutal") []) with (set_pkg m (bs "github.com/cloudwego/prutal") []). now apply set_no_alias.
  - destruct (type_p F G fuel p r) as [x|]; [|auto]. split; [now apply UsePkg_nodup|]. rewrite UsePkg_nil.
    destruct (gp_import (G x)); [exact NA|now apply set_no_alias].
Qed.
Lemma file_ok : forall us, NoDup (map fst (file_pkgs F G fuel p us)) /\ no_alias (file_pkgs F G fuel p us).
Proof.
  intros us. unfold file_pkgs. assert (K : forall us m, NoDup (map fst m) /\ no_alias m -> NoDup (map fst (fold_left (do_use F G fuel p) us m)) /\ no_alias (fold_left (do_use F G fuel p) us m)).
  { induction us0 as [|u us0 IH]; intros m H; [exact H|]. apply IH, do_use_ok, H. }
  apply K. split; constructor.
Qed.
End Files.

(** * The text of the imports *)
Lemma path_char_plain : forall c, path_char c -> beqb c x22 || beqb c x5c = false.
Proof.
  intros c H. apply Bool.orb_false_iff.
  assert (K : forall d, d = x22 \/ d = x5c -> ~ path_char d).
  { intros d D [I|I].
    - destruct D as [->| ->]; destruct I as [I|[I|[I|I]]]; discriminate.
    - destruct D as [->| ->]; repeat (destruct I as [I|I]; [discriminate|]); exact I. }
  split.
  - destruct (beqb_spec c x22) as [->|_]; [|reflexivity]. exfalso. exact (K x22 (or_introl eq_refl) H).
  - destruct (beqb_spec c x5c) as [->|_]; [|reflexivity]. exfalso. exact (K x5c (or_intror eq_refl) H).
Qed.
Lemma Quote_plain : forall s, Forall path_char s -> Quote s = [x22] ++ s ++ [x22].
Proof.
  intros s H. unfold Quote. f_equal. f_equal. induction H as [|c s H _ IH]; cbn [quote_body]; [reflexivity|].
  now rewrite (path_char_plain c H), IH.
Qed.
Lemma blank_nil : blank []. Proof. constructor. Qed.
Lemma blank_sp : blank (bs " "). Proof. repeat constructor. Qed.

Definition path_ok (p : bytes) : Prop := p <> [] /\ Forall path_char p.
Lemma spec_text : forall p, path_ok p -> import_spec (bs " " ++ Quote p) (None, p).
Proof.
  intros p [N H]. rewrite (Quote_plain p H).
  assert (E : bs " " ++ [x22] ++ p ++ [x22] = bs " " ++ [x22] ++ p ++ [x22] ++ []) by reflexivity.
  rewrite E. apply is_plain; [apply blank_sp|apply blank_nil|exact N|exact H].
Qed.
Lemma import_lines_body : forall m pp prev, (forall w p, In (w, p) pp -> path_ok p /\ alias_of m p = []) ->
  import_body (import_lines m prev pp) (map (fun x => (None, snd x)) pp).
Proof.
  intros m pp. induction pp as [|[w p] pp IH]; intros prev H; cbn [import_lines map snd].
  - apply ib_nil, blank_nil.
  - destruct (H w p (or_introl eq_refl)) as [OK AL]. rewrite AL. cbn [app].
    assert (B : import_body (bs " " ++ Quote p ++ nl ++ import_lines m (Some w) pp) ((None, p) :: map (fun x => (None, snd x)) pp)).
    { assert (EQ : bs " " ++ Quote p ++ nl ++ import_lines m (Some w) pp = (bs " " ++ Quote p) ++ [x0a] ++ import_lines m (Some w) pp)
        by (now rewrite <- app_assoc).
      rewrite EQ. apply ib_spec; [now apply spec_text|]. apply IH. intros w' p' I. apply (H w'). now right. }
    destruct prev as [v|]; [|exact B]. destruct (v =? w)%Z; [exact B|].
    exact (ib_empty [] _ _ blank_nil B).
Qed.
Lemma alias_none : forall m p, no_alias m -> alias_of m p = [].
Proof.
  intros m p H. unfold alias_of. destruct (find _ m) as [[q a]|] eqn:E; [|reflexivity].
  apply find_some in E as [I _]. unfold no_alias in H. rewrite Forall_forall in H. exact (H _ I).
Qed.
Lemma genImports_decl : forall srt g m, is_sort srt -> no_alias m -> Forall path_ok (map fst m) ->
  exists l, import_decl (genImports srt g m) l /\ Permutation l (map (fun p => (None, p)) (map fst m)).
Proof.
  intros srt g m SRT NA OK. destruct m as [|[p a] [|y m]].
  - exists []. split; [constructor|reflexivity].
  - inversion NA as [|? ? A _]; subst. cbn in A. subst a. inversion OK as [|? ? PO _]; subst. cbn in PO.
    exists [(None, p)]. split; [|reflexivity]. cbn [genImports app].
    assert (E : bs "import " ++ bs " " ++ Quote p = bs "import" ++ [x20] ++ (bs " " ++ Quote p)) by reflexivity.
    rewrite E. apply id_one, spec_text, PO.
  - rewrite genImports_many. remember ((p, a) :: y :: m) as M eqn:EM.
    destruct (SRT import_less (map (fun x => (g (fst x), fst x)) M)) as [P _].
    set (pp := srt import_less _) in *. exists (map (fun x => (None, snd x)) pp). split.
    + assert (E : bs "import (" ++ nl ++ import_lines M None pp ++ bs ")" = bs "import" ++ bs " " ++ bs "(" ++ (nl ++ import_lines M None pp) ++ bs ")")
        by (rewrite <- !app_assoc; reflexivity).
      rewrite E. apply id_group; [apply blank_sp|]. apply (ib_empty [] _ _ blank_nil). apply import_lines_body.
      intros w q I. split; [|now apply alias_none].
      apply (Permutation_in _ P) in I. apply in_map_iff in I as (x & E1 & I). injection E1 as _ <-.
      rewrite Forall_forall in OK. apply OK. now apply in_map.
    + apply (Permutation_map (fun x : Z * bytes => (@None bytes, snd x))) in P. rewrite map_map in P. cbn [snd] in P. rewrite map_map. exact P.
Qed.

(** * References *)
Section Refs.
Variable F : nat -> pfile.

Lemma getType_sound : forall k p n y t, proto_getType F k p n = Some (y, t) -> pub F p y /\ declares (F y) t.
Proof.
  induction k as [|k IH]; [discriminate|]. intros p n y t H. rewrite proto_getType_eq in H.
  destruct (match first_some _ (f_msgs (F p)) with Some r => Some r | None => _ end) as [r|] eqn:O.
  { injection H as <- <-. apply file_own in O as (-> & D). split; [apply pub_refl|exact D]. }
  destruct (first_some _ (f_imports (F p))) as [z|] eqn:FI.
  { injection H as ->. apply first_some_sound in FI as ((b & i) & I & K). cbn [fst snd] in K.
    destruct b; [|discriminate]. apply IH in K as (P & D). split; [now apply (pub_step F p i y)|exact D]. }
  destruct (trimPathPrefix n (f_pkg (F p))) as [rest|] eqn:T; [|discriminate]. exact (IH _ _ _ _ H).
Qed.
Lemma search_sound : forall es top chain n d, nested top chain -> search_messages chain n = Some d -> decl es top d.
Proof.
  intros es top chain n d NE. induction chain as [|[q [x es' ms]] l IH]; intros H; [discriminate|].
  destruct (nested_reach es _ _ _ _ _ _ NE) as (e0 & m0 & RQ & IM).
  assert (RX : reach es top (q ++ [x]) es' ms) by (eapply reach_snoc; eassumption).
  assert (NL : nested top l) by (inversion NE; subst; [apply nested_none|assumption]).
  cbn [search_messages] in H. destruct (msg_getType (MT x es' ms) n) as [t|] eqn:GT.
  { injection H as <-. apply msg_getType_iff in GT as (-> & GT). apply (reach_decl _ _ _ _ _ _ RQ). unfold decl. rewrite in_scope_iff. left. exists (MT x es' ms). auto. }
  assert (HIT : decl es' ms n -> decl es top (q ++ x :: n)).
  { intros D. change (x :: n) with ([x] ++ n). rewrite app_assoc. apply (reach_decl _ _ _ _ _ _ RX), D. }
  destruct (find_enum es' n) as [t|] eqn:FE.
  { injection H as <-. apply find_enum_iff in FE as (-> & e & I & E). apply HIT. unfold decl. rewrite in_scope_iff. right. now exists e. }
  destruct (first_some _ ms) as [t|] eqn:FM.
  { injection H as <-. apply first_some_sound in FM as (m & I & K). apply msg_getType_iff in K as (-> & K). apply HIT.
    unfold decl. rewrite in_scope_iff. left. now exists m. }
  exact (IH NL H).
Qed.

(** [resolve] and [type_p] look at the same file. *)
Lemma resolve_type_p : forall G fuel p r y t, nested (f_msgs (F p)) (r_chain r) ->
  resolve F fuel true p (r_chain r) (r_dot r) (r_name r) = RType y t ->
  declares (F y) t /\
  ((type_p F G fuel p r = None /\ y = p) \/
   exists x, In x (search_files F p (r_dot r) (r_name r)) /\ pub F x y /\
     type_p F G fuel p r = if str_eqb (gp_import (G x)) (gp_import (G p)) then None else Some x).
Proof.
  intros G fuel p [chain dot n] y t NE H. unfold resolve in H. cbn [r_chain r_dot r_name] in *.
  destruct (true && negb dot && _); [discriminate|]. unfold type_p. cbn [r_chain r_dot r_name].
  destruct (if dot then None else search_messages chain n) as [d|] eqn:SM.
  { injection H as <- <-. destruct dot; [discriminate|]. split; [|left; auto].
    exact (search_sound (f_enums (F p)) _ _ _ _ NE SM). }
  destruct (first_some (fun x => proto_getType F fuel x n) (search_files F p dot n)) as [[x0 t0]|] eqn:FS; [|discriminate].
  injection H as -> ->.
  assert (K : exists x, In x (search_files F p dot n) /\ proto_getType F fuel x n = Some (y, t) /\
     first_some (fun x => match proto_getType F fuel x n with Some _ => Some x | None => None end) (search_files F p dot n) = Some x).
  { revert FS. generalize (search_files F p dot n). induction l as [|a l IH]; cbn; [discriminate|].
    destruct (proto_getType F fuel a n) as [z|] eqn:E.
    - intros [= ->]. exists a. auto.
    - intros H. destruct (IH H) as (x & I & A & B). exists x. auto. }
  destruct K as (x & I & A & B). rewrite B. apply getType_sound in A as [P D]. split; [exact D|]. right. exists x. auto.
Qed.
End Refs.

Lemma exported_ident : forall s, exported s -> ident s.
Proof.
  intros s (c & r & -> & U & R). split; [discriminate|]. constructor; [|exact R]. right. right. now left.
Qed.

(** * Bytes *)
Lemma Replace1_first : forall a b old new, old <> [] ->
  (forall i, (i < length a)%nat -> HasPrefix (skipn i (a ++ old ++ b)) old = false) ->
  Replace1 (a ++ old ++ b) old new = a ++ new ++ b.
Proof.
  induction a as [|c a IH]; intros b old new N H.
  - assert (P : forall o b, HasPrefix (o ++ b) o = true).
    { induction o as [|x o IH]; intros b'; cbn; [destruct b'; reflexivity|]. now rewrite beqb_refl, IH. }
    assert (S : forall (o b : bytes), skipn (length o) (o ++ b) = b) by (induction o; cbn; auto).
    cbn [app]. destruct old as [|x old]; [congruence|]. specialize (P (x :: old) b). specialize (S (x :: old) b).
    cbn [app] in *. unfold Replace1. rewrite P, S. reflexivity.
  - cbn [app Replace1]. pose proof (H O) as H0. cbn [skipn app length] in H0. rewrite H0 by lia. f_equal. apply IH; [exact N|].
    intros i L. apply (H (Datatypes.S i)). cbn. lia.
Qed.

(** * An import declaration has one reading *)
Lemma prefix_unique : forall (P : byte -> Prop) a a' c c' r r', Forall P a -> Forall P a' -> ~ P c -> ~ P c' ->
  a ++ c :: r = a' ++ c' :: r' -> a = a' /\ c = c' /\ r = r'.
Proof.
  intros P. induction a as [|x a IH]; intros [|x' a'] c c' r r' A A' C C' E; cbn in E; injection E as E1 E2.
  - auto.
  - subst. inversion A'; contradiction.
  - subst. inversion A; contradiction.
  - subst x'. inversion A; inversion A'; subst. destruct (IH a' c c' r r') as (-> & -> & ->); auto.
Qed.
Definition is_blank (c : byte) : Prop := c = x20 \/ c = x09.
Lemma quote_not_blank : ~ is_blank x22. Proof. intros [H|H]; discriminate. Qed.
Lemma nl_not_blank : ~ is_blank x0a. Proof. intros [H|H]; discriminate. Qed.
Lemma par_not_blank : ~ is_blank x28. Proof. intros [H|H]; discriminate. Qed.
Lemma ident_cases : forall c, ident_char c -> ~ is_blank c /\ c <> x22 /\ c <> x0a /\ c <> x28.
Proof.
  intros c H. split; [intros [->| ->]|split; [intros ->|split; intros ->]]; destruct H as [H|[H|[H|H]]]; discriminate.
Qed.
Lemma path_no_quote : forall p, Forall path_char p -> Forall (fun c => c <> x22) p.
Proof.
  intros p H. eapply Forall_impl; [|exact H]. intros c C ->. apply path_char_plain in C. discriminate.
Qed.
(** The first character of a spec that is not blank *)
Lemma spec_head : forall t i, import_spec t i -> exists a c r, t = a ++ c :: r /\ blank a /\ ~ is_blank c /\ c <> x0a /\ c <> x28.
Proof.
  intros t i H. inversion H; subst.
  - exists a, x22. eexists. split; [reflexivity|]. split; [assumption|]. split; [apply quote_not_blank|]. split; discriminate.
  - match goal with N : package_name n |- _ => destruct N as ((c0 & r0 & -> & C & _) & _) end.
    exists a, c0. eexists. split; [reflexivity|]. split; [assumption|].
    assert (I : ident_char c0) by (destruct C as [C| ->]; [right; left; exact C|right; right; right; reflexivity]).
    destruct (ident_cases c0 I) as (X1 & _ & X2 & X3). auto.
Qed.
Lemma spec_unique : forall t i t' i' s s', import_spec t i -> import_spec t' i' -> t ++ x0a :: s = t' ++ x0a :: s' -> i = i' /\ s = s'.
Proof.
  assert (TAIL : forall p p' b b' s s', Forall path_char p -> Forall path_char p' -> blank b -> blank b' ->
     (p ++ [x22] ++ b) ++ x0a :: s = (p' ++ [x22] ++ b') ++ x0a :: s' -> p = p' /\ s = s').
  { intros p p' b b' s s' P P' B B' E. rewrite <- !app_assoc in E. cbn [app] in E.
    apply (prefix_unique (fun c => c <> x22)) in E as (-> & _ & E); [|now apply path_no_quote|now apply path_no_quote|congruence|congruence].
    apply (prefix_unique is_blank) in E as (-> & _ & ->); [auto|exact B|exact B'|apply nl_not_blank|apply nl_not_blank]. }
  assert (MIX : forall a b p a' n b' c p' s s', blank a -> package_name n -> blank a' ->
     (a ++ [x22] ++ p ++ [x22] ++ b) ++ x0a :: s <> (a' ++ n ++ b' ++ [x22] ++ p' ++ [x22] ++ c) ++ x0a :: s').
  { intros a b p a' n b' c p' s s' A ((c0 & r0 & -> & C & _) & _) A' E. rewrite <- !app_assoc in E. cbn [app] in E.
    assert (I : ident_char c0) by (destruct C as [C| ->]; [right; left; exact C|right; right; right; reflexivity]).
    destruct (ident_cases c0 I) as (X1 & X2 & _).
    apply (prefix_unique is_blank) in E as (_ & E & _); [congruence|exact A|exact A'|apply quote_not_blank|exact X1]. }
  intros t i t' i' s s' H H' E. inversion H as [a b p A B N P|a n b c p A NM B NB C N P]; subst; inversion H' as [a' b' p' A' B' N' P'|a' n' b' c' p' A' NM' B' NB' C' N' P']; subst.
  - rewrite <- !(app_assoc a), <- !(app_assoc a') in E. cbn [app] in E.
    apply (prefix_unique is_blank) in E as (_ & _ & E); [|exact A|exact A'|apply quote_not_blank|apply quote_not_blank].
    destruct (TAIL p p' b b' s s' P P' B B' E) as [-> ->]. auto.
  - exfalso. exact (MIX _ _ _ _ _ _ _ _ _ _ A NM' A' E).
  - exfalso. exact (MIX _ _ _ _ _ _ _ _ _ _ A' NM A (eq_sym E)).
  - assert (I : forall n, package_name n -> Forall ident_char n).
    { intros m ((c0 & r0 & -> & C0 & R) & _). constructor; [|exact R]. destruct C0 as [C0| ->]; [right; left; exact C0|right; right; right; reflexivity]. }
    assert (HD : forall m b p c s, package_name m -> exists c0 r0, m = c0 :: r0 /\ ~ is_blank c0 /\
       (m ++ b ++ [x22] ++ p ++ [x22] ++ c) ++ x0a :: s = c0 :: (r0 ++ b ++ [x22] ++ p ++ [x22] ++ c) ++ x0a :: s).
    { intros m b0 p0 c0 s0 M. pose proof (I m M) as IM. destruct M as ((d & r0 & -> & _) & _). exists d, r0. split; [reflexivity|]. split; [|reflexivity].
      inversion IM; subst. now apply ident_cases. }
    rewrite <- (app_assoc a), <- (app_assoc a') in E.
    destruct (HD n b p c s NM) as (d & r0 & En & D & E1). destruct (HD n' b' p' c' s' NM') as (d' & r0' & En' & D' & E1').
    rewrite E1, E1' in E.
    apply (prefix_unique is_blank) in E as (_ & Ed & E); [|exact A|exact A'|exact D|exact D']. subst d'.
    assert (E2 : n ++ b ++ [x22] ++ p ++ [x22] ++ c ++ x0a :: s = n' ++ b' ++ [x22] ++ p' ++ [x22] ++ c' ++ x0a :: s').
    { rewrite En, En'. cbn [app]. f_equal. rewrite <- !app_assoc in E. cbn [app] in E. exact E. }
    clear E E1 E1' En En'. destruct b as [|b0 b]; [congruence|]. destruct b' as [|b0' b']; [congruence|].
    assert (NB0 : forall x l, blank (x :: l) -> ~ ident_char x).
    { intros x l BL K. inversion BL; subst. destruct (ident_cases x K) as (Z & _). apply Z. assumption. }
    cbn [app] in E2. apply (prefix_unique ident_char) in E2 as (-> & -> & E2); [|now apply I|now apply I|now apply (NB0 b0 b)|now apply (NB0 b0' b')].
    inversion B; inversion B'; subst.
    apply (prefix_unique is_blank) in E2 as (_ & _ & E2); [|assumption|assumption|apply quote_not_blank|apply quote_not_blank].
    destruct (TAIL p p' c c' s s' P P' C C') as [-> ->]; [rewrite <- !app_assoc; exact E2|auto].
Qed.
Lemma body_unique : forall s l, import_body s l -> forall l', import_body s l' -> l = l'.
Proof.
  assert (NE : forall t i s a, import_spec t i -> blank a -> t ++ x0a :: s <> a).
  { intros t i s a H A E. destruct (spec_head t i H) as (b & c & r & -> & B & C & _). subst a.
    rewrite <- app_assoc in A. apply Forall_app in A as [_ A]. inversion A. contradiction. }
  assert (NN : forall t i s a s', import_spec t i -> blank a -> t ++ x0a :: s <> a ++ x0a :: s').
  { intros t i s a s' H A E. destruct (spec_head t i H) as (b & c & r & -> & B & C & C2 & _). rewrite <- app_assoc in E. cbn [app] in E.
    apply (prefix_unique is_blank) in E as (_ & E & _); [congruence|exact B|exact A|exact C|apply nl_not_blank]. }
  assert (NB : forall a b s, blank a -> blank b -> a ++ x0a :: s <> b).
  { intros a b s A B E. subst b. apply Forall_app in B as [_ B]. inversion B as [|? ? K]. destruct K; discriminate. }
  intros s l H. induction H as [a A|a s l A H IH|t i s l T H IH]; intros l' H'; inversion H' as [a' A'|a' s' l1 A' K E|t' i' s' l1 T' K E]; subst.
  - reflexivity.
  - exfalso. exact (NB a' _ s' A' A eq_refl).
  - exfalso. exact (NE t' i' s' _ T' A eq_refl).
  - exfalso. exact (NB a _ s A A' eq_refl).
  - cbn [app] in E. apply (prefix_unique is_blank) in E as (_ & _ & ->); [|exact A'|exact A|apply nl_not_blank|apply nl_not_blank]. now apply IH.
  - exfalso. exact (NN t' i' s' a s T' A E).
  - exfalso. exact (NE t i s _ T A' eq_refl).
  - exfalso. exact (NN t i s a' s' T A' (eq_sym E)).
  - destruct (spec_unique _ _ _ _ _ _ T' T E) as [-> ->]. f_equal. now apply IH.
Qed.
Lemma decl_unique : forall s l l', import_decl s l -> import_decl s l' -> l = l'.
Proof.
  assert (X : forall t i a s, import_spec t i -> blank a -> bs "import" ++ [x20] ++ t <> bs "import" ++ a ++ bs "(" ++ s ++ bs ")").
  { intros t i a s H A E. apply app_inv_head in E. destruct (spec_head t i H) as (b & c & r & -> & B & C & _ & C3).
    assert (BB : blank (x20 :: b)) by (constructor; [now left|exact B]).
    change ([x20] ++ b ++ c :: r) with ((x20 :: b) ++ c :: r) in E. change (bs "(" ++ s ++ bs ")") with (x28 :: s ++ bs ")") in E.
    apply (prefix_unique is_blank) in E as (_ & E & _); [congruence|exact BB|exact A|exact C|apply par_not_blank]. }
  intros s l l' H H'. destruct H as [|a i T|a b l0 A B].
  all: match type of H' with import_decl ?s _ => remember s as w eqn:E end; destruct H' as [|a' i' T'|a' b' l0' A' B']; try discriminate E.
  - reflexivity.
  - injection E as ->. destruct (spec_unique a i a i' [] [] T T' eq_refl) as [-> _]. reflexivity.
  - exfalso. exact (X _ _ _ _ T A' (eq_sym E)).
  - exfalso. exact (X _ _ _ _ T' A E).
  - symmetry in E. apply app_inv_head in E. change (bs "(" ++ b ++ bs ")") with (x28 :: b ++ bs ")") in E. change (bs "(" ++ b' ++ bs ")") with (x28 :: b' ++ bs ")") in E.
    apply (prefix_unique is_blank) in E as (_ & _ & E); [|exact A|exact A'|apply par_not_blank|apply par_not_blank].
    apply app_inv_tail in E. subst b'. now apply (body_unique b).
Qed.
