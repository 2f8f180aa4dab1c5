(** C85: the comments of the definitions of a file, from the bytes of the file. *)
From Coq Require Import List Arith Bool ZArith NArith Lia Sorting.Sorted Strings.String Init.Byte.
From Verif Require Import Base GoStr StrFacts StrLit Comments CommentSpec Props_Comment Atn LexFile LexSpec LexFileSpec LexFileProofs Props_Lex Listen ParserNames Parser Walk
  ParserSpec SpellSpec WalkProofs WalkFile Props_Parser Props_Walk FileComments FileCommentSpec FileCommentProofs FileCommentTokens GenText TextSpec Props_Listen.
Import ListNotations StringSyntax.
Open Scope nat_scope.
Lemma file_items data : exists l, lex_file data = Some (l ++ [eof_token]) /\ Forall good_item l.
Proof.
  assert (Ht : is_text (ReadRunes data)) by (eapply decoded_text, ReadRunes_decoded).
  destruct (LexProofs.lex_spec _ Ht) as (items & E & _). destruct (tokens_good _ _ _ _ Ht E) as (l & El & G).
  exists l. split; [|exact G]. unfold lex_file. rewrite lex_lexer. rewrite <- El. exact E.
Qed.
Local Opaque lex_file parse rule.

(* ---------- the tokens and nodes of the tree ---------- *)
Lemma derives_yield l w f : derives l w f -> flat_map yield f = w.
Proof.
  induction 1; cbn [flat_map yield]; auto.
  - cbn. now rewrite IHderives.
  - now rewrite IHderives1, IHderives2.
Qed.
Lemma node_derives l w f : derives l w f -> forall y p q r g, In y f -> node_in p y q r g ->
  exists u v w', w = u ++ w' ++ v /\ derives (rule r) w' g.
Proof.
  induction 1 as [|ks l x w f Hx D IH|s l w1 f1 w2 f2 D1 IH1 D2 IH2|b l w f D IH|b l w f D IH|b l w f D IH|b l w f D IH|b l w f D IH|b bs l w f Hb D IH];
    intros y p q r g I N; try (now apply (IH y p q r g)).
  - destruct I.
  - destruct I as [<-|I]; [inversion N|]. destruct (IH _ _ _ _ _ I N) as (u & v & w' & -> & E). exists (x :: u), v, w'. now split.
  - destruct I as [<-|I].
    + inversion N; subst.
      * exists [], w2, w1. now split.
      * match goal with H : In ?z f1, K : node_in s ?z _ _ _ |- _ => destruct (IH1 _ _ _ _ _ H K) as (u & v & w' & -> & E) end.
        exists u, (v ++ w2), w'. split; [now rewrite <- !app_assoc|exact E].
    + destruct (IH2 _ _ _ _ _ I N) as (u & v & w' & -> & E). exists (w1 ++ u), v, w'. split; [now rewrite <- app_assoc|exact E].
Qed.
Lemma calls_nodes x : forall p cs c, calls p x = Some cs -> In c cs ->
  exists q r f es, node_in p x q r f /\ (enter q r f = Some es \/ exit q r f = Some es) /\ In (fst c) es /\ snd c = span f.
Proof.
  induction x as [t|r l IH] using tree_rect'; intros p cs c H I.
  - injection H as <-. destruct I.
  - cbn [calls] in H. apply join_some in H as (a & b & Ea & H & ->). apply join_some in H as (m & c' & Em & Ec & ->).
    apply in_app_iff in I as [I|I]; [|apply in_app_iff in I as [I|I]].
    + unfold here in Ea. destruct (enter p r l) as [es|] eqn:E; [|discriminate]. injection Ea as <-. apply in_map_iff in I as (e & <- & I).
      exists p, r, l, es. split; [constructor|]. auto.
    + assert (X : exists y cs, In y l /\ calls r y = Some cs /\ In c cs).
      { clear - Em I. revert m Em I. induction l as [|y l IHl]; intros m Em I; [injection Em as <-; destruct I|].
        cbn [fold_right] in Em. apply join_some in Em as (u & v & Eu & Ev & ->). apply in_app_iff in I as [I|I]; [exists y, u; repeat split; auto; now left|].
        destruct (IHl _ Ev I) as (z & cs & J & E & K). exists z, cs. repeat split; auto. now right. }
      destruct X as (y & cs & J & E & K). rewrite Forall_forall in IH. destruct (IH y J _ _ _ E K) as (q & s & f & es & N & R).
      exists q, s, f, es. split; [now apply (ni_below p r l y)|exact R].
    + unfold here in Ec. destruct (exit p r l) as [es|] eqn:E; [|discriminate]. injection Ec as <-. apply in_map_iff in I as (e & <- & I).
      exists p, r, l, es. split; [constructor|]. auto.
Qed.
Lemma asked_node q r f es e : (enter q r f = Some es \/ exit q r f = Some es) -> In e es -> asks e = true -> opener r = true \/ closer q r = true.
Proof.
  intros [H|H] I A.
  - pose proof (enter_asks q r f es (0, 0) H) as E. destruct (opener r); [now left|]. exfalso. apply map_eq_nil in E.
    assert (J : In (e, (0, 0)) (asking (map (fun e => (e, (0, 0))) es))) by (apply filter_In; split; [apply in_map_iff; eauto|exact A]). rewrite E in J. destruct J.
  - pose proof (exit_asks q r f es (0, 0) H) as E. destruct (closer q r); [now right|]. exfalso. apply map_eq_nil in E.
    assert (J : In (e, (0, 0)) (asking (map (fun e => (e, (0, 0))) es))) by (apply filter_In; split; [apply in_map_iff; eauto|exact A]). rewrite E in J. destruct J.
Qed.
Lemma index_stands l : forall start i x, Forall good_item l -> In x (parser_tokens start (l ++ [eof_token])) ->
  exists a b, l ++ [eof_token] = a ++ ITok (t_kind x) 0%Z (t_text x) :: b /\
    index_at start i (t_start x) (l ++ [eof_token]) = i + List.length (filter is_token a) /\ t_start x = start + List.length (List.concat (map text_of_item a)).
Proof.
  induction l as [|[k ch t|t] l IH]; intros start i x G I; cbn [app] in *.
  - cbn in I. destruct I as [<-|[]]. exists [], []. cbn [index_at t_start eof_token app]. rewrite Nat.leb_refl. cbn. repeat split; lia.
  - apply Forall_cons_iff in G as [(_ & NE & _ & _) G]. cbn [parser_tokens] in I. cbn [index_at]. apply in_app_iff in I as [I|I].
    + destruct (Z.eqb_spec ch 0) as [->|]; [|destruct I]. destruct I as [<-|[]]. cbn [t_start]. rewrite Nat.leb_refl. exists [], (l ++ [eof_token]). cbn. repeat split; lia.
    + assert (L : 0 < List.length t) by (destruct t; [congruence|cbn; lia]). pose proof (tokens_from _ _ _ I) as B.
      rewrite (proj2 (Nat.leb_gt _ _)) by lia. destruct (IH _ (S i) _ G I) as (a & b & E & N & S). exists (ITok k ch t :: a), b. rewrite E in *.
      split; [reflexivity|]. cbn [filter is_token map text_of_item List.concat List.length]. rewrite app_length. split; [rewrite N|]; lia.
  - apply Forall_cons_iff in G as [_ G]. cbn [parser_tokens] in I. cbn [index_at]. destruct (IH _ i _ G I) as (a & b & E & N & S).
    exists (IErr t :: a), b. rewrite E in *. split; [reflexivity|]. cbn [filter is_token map text_of_item List.concat]. rewrite app_length. split; [rewrite N|]; lia.
Qed.
Lemma hd_yield w (a : tok) u : w = a :: u -> hd 0 (starts w) = t_start a.
Proof. now intros ->. Qed.
Lemma last_yield w v (b : tok) : w = v ++ [b] -> last (starts w) 0 = t_start b.
Proof. intros ->. unfold starts. rewrite map_app. apply last_last. Qed.
Lemma nonempty_ends (w : list tok) : w <> [] -> exists a u v b, w = a :: u /\ w = v ++ [b].
Proof.
  intros NE. destruct w as [|a u]; [congruence|]. destruct (exists_last NE) as (v & b & E). exists a, u, v, b. now split.
Qed.
Lemma code_of l x : Forall good_item l -> In x (parser_tokens 0 (l ++ [eof_token])) -> code_at (file_stream (l ++ [eof_token])) (index_at 0 0 (t_start x) (l ++ [eof_token])).
Proof.
  intros G I. destruct (index_spec l 0 0 x G I) as (n & -> & N). cbn [Nat.add]. unfold code_at, file_stream. rewrite nth_error_map, N. cbn [option_map fst snd].
  eexists. split; [reflexivity|]. cbn [tk_kind]. apply tkind_code. clear - G I.
  assert (X : forall i, In x (parser_tokens i (l ++ [eof_token])) -> channel_of (t_kind x) = 0%Z); [|now apply (X 0)]. clear I.
  induction G as [|[k ch t|t] l Gi G IH]; intros i I; cbn [app parser_tokens] in I.
  - cbn in I. destruct I as [<-|[]]. reflexivity.
  - destruct Gi as (_ & _ & -> & _). apply in_app_iff in I as [I|I]; [|now apply IH in I]. destruct (Z.eqb_spec (channel_of k) 0) as [C|]; [|destruct I].
    destruct I as [<-|[]]. exact C.
  - now apply IH in I.
Qed.
(* everything about the places of the definitions *)
Lemma file_placed o data x cs l : lex_file data = Some (l ++ [eof_token]) -> Forall good_item l -> parse_file o data = OK [x] [] -> calls r_proto x = Some cs ->
  let items := l ++ [eof_token] in let ds := map (fun c => def_at items (snd c)) (asking cs) in
  file_ok (file_stream items) ds (d_start (def_at items (span [x]))) /\ Forall2 (place items x) (map fst (asking cs)) ds /\
  exists a u, parser_tokens 0 items = a :: u /\ stands_at items (d_start (def_at items (span [x]))) a.
Proof.
  intros El G Ep Ec items ds.
  unfold parse_file in Ep. rewrite El in Ep. fold items in Ep. destruct (parser_tokens_ok l 0 G) as (EL & _ & _ & IO). fold items in EL, IO.
  destruct (parse_all _ _ _ _ EL Ep) as (_ & x' & [= <-] & Dx). unfold file_tree in Dx.
  pose proof (derives_yield _ _ _ Dx) as Yx. cbn [flat_map] in Yx. rewrite app_nil_r in Yx.
  pose proof (defs_within _ _ _ Dx IO r_proto) as W. pose proof (defs_order _ _ _ Dx IO r_proto) as O. cbn [flat_map] in W, O. rewrite app_nil_r in W, O.
  pose proof (calls_defs _ _ _ Ec) as Cd. rewrite <- Cd in W, O.
  assert (Lt : forall s s', In s (starts (parser_tokens 0 items)) -> In s' (starts (parser_tokens 0 items)) -> s < s' -> index_at 0 0 s items < index_at 0 0 s' items).
  { intros s s' I J. apply in_map_iff in I as (y & <- & I). apply in_map_iff in J as (y' & <- & J). now apply (index_lt l). }
  assert (Le : forall s s', In s (starts (parser_tokens 0 items)) -> In s' (starts (parser_tokens 0 items)) -> s <= s' -> index_at 0 0 s items <= index_at 0 0 s' items).
  { intros s s' I J H. destruct (Nat.eq_dec s s') as [->|]; [lia|]. apply Nat.lt_le_incl, Lt; auto. lia. }
  assert (Cc : forall s, In s (starts (parser_tokens 0 items)) -> code_at (file_stream items) (index_at 0 0 s items)).
  { intros s I. apply in_map_iff in I as (y & <- & I). now apply code_of. }
  assert (Eds : ds = map (def_at items) (map snd (asking cs))) by (unfold ds; now rewrite map_map).
  assert (NE : parser_tokens 0 items <> []).
  { intros E. destruct (tree_eof _ _ Dx) as (u & e & Q & _). rewrite E in Q. destruct u; discriminate. }
  destruct (nonempty_ends _ NE) as (a & u & _ & _ & Ew & _).
  assert (F : d_start (def_at items (span [x])) = index_at 0 0 (t_start a) items).
  { rewrite (span_derives _ _ _ Dx). cbn [def_at d_start fst]. now rewrite (hd_yield _ _ _ Ew). }
  split; [split; [|split; [|split; [|split]]]|split].
  - exact (stream_lexed l G).
  - rewrite Eds. clear - O W Lt. induction O as [|d dd O IH F]; [intros a b c e h E; destruct a; discriminate|].
    apply Forall_cons_iff in W as [Wd W]. intros a b c e h E. cbn [map] in E. destruct a as [|y a].
    + injection E as <- E. assert (I : In h (map (def_at items) dd)) by (rewrite E; apply in_app_iff; right; now left).
      apply in_map_iff in I as (g & <- & I). rewrite Forall_forall in F, W. specialize (F g I). specialize (W g I).
      destruct Wd as (_ & W1 & W2), W as (_ & W3 & W4). unfold def_at. cbn [d_start d_stop]. destruct F as [F|[F1 F2]]; [left; now apply Lt|right; split; now apply Lt].
    + injection E as _ E. exact (IH W a b c e h E).
  - intros d I. rewrite Eds in I. apply in_map_iff in I as (s & <- & I). rewrite Forall_forall in W. destruct (W s I) as (W1 & W2 & W3).
    unfold def_at. cbn [d_start d_stop]. auto.
  - rewrite F. apply Cc. rewrite Ew. now left.
  - intros i Hi (tk & N & K). rewrite F in Hi. destruct (index_first l 0 0 a u G Ew) as (n & En & H). fold items in En, H. rewrite En in Hi. cbn in Hi.
    destruct (H i Hi) as (k & ch & t & Nt & -> & NC). unfold file_stream in N. rewrite nth_error_map, Nt in N. injection N as <-. cbn [tk_kind fst] in K.
    apply tkind_code in K. contradiction.
  - unfold ds.
    assert (X : forall c, In c (asking cs) -> place items x (fst c) (def_at items (snd c))).
    { intros c I. apply filter_In in I as [I A]. destruct (calls_nodes _ _ _ _ Ec I) as (q & r & f & es & N & H & J & S). rewrite S.
      destruct (node_derives _ _ _ Dx x r_proto q r f (or_introl eq_refl) N) as (u' & v' & w' & Q & D').
      assert (NE' : w' <> []).
      { destruct (asked_node _ _ _ _ _ H J A) as [B|B]; [|exact (closer_begins _ _ _ _ B D')].
        destruct (opener_begins r B) as (ks & l' & R & _). rewrite R in D'. apply i_T in D' as (z & w1 & f1 & -> & _). discriminate. }
      destruct (nonempty_ends _ NE') as (a' & u1 & v1 & b' & E1 & E2). pose proof (derives_yield _ _ _ D') as Y.
      assert (Ia : In a' (parser_tokens 0 items)) by (rewrite Q, E1; apply in_app_iff; right; now left).
      assert (Ib : In b' (parser_tokens 0 items)) by (rewrite Q, E2; rewrite !in_app_iff; right; left; right; now left).
      exists q, r, f, es, a', b', u1, v1. rewrite Y. repeat split; auto.
      - rewrite (span_derives _ _ _ D'). cbn [def_at d_start fst]. rewrite (hd_yield _ _ _ E1).
        destruct (index_stands l 0 0 a' G Ia) as (p1 & p2 & P1 & P2 & P3). exists p1, p2. auto.
      - rewrite (span_derives _ _ _ D'). cbn [def_at d_stop snd]. rewrite (last_yield _ _ _ E2).
        destruct (index_stands l 0 0 b' G Ib) as (p1 & p2 & P1 & P2 & P3). exists p1, p2. auto. }
    clear - X. induction (asking cs) as [|c r IH]; cbn [map]; [constructor|]. constructor; [apply X; now left|apply IH; intros; apply X; now right].
  - exists a, u. split; [exact Ew|]. rewrite F. destruct (index_stands l 0 0 a G) as (p1 & p2 & P1 & P2 & P3); [fold items; rewrite Ew; now left|]. exists p1, p2. auto.
Qed.

(** ** Where the comments of a file go *)
Lemma asks_documented e : asks e = true <-> documented e.
Proof.
  split.
  - destruct e; intros H; try discriminate H; try (now constructor). constructor. intros ->. discriminate H.
  - destruct 1 as [| | | | | | |p m f NE]; try reflexivity. cbn [asks]. destruct p; try reflexivity. now destruct NE.
Qed.
Lemma asking_events cs : map fst (asking cs) = filter asks (map fst cs).
Proof. unfold asking. induction cs as [|[e s] cs IH]; [reflexivity|]. cbn. destruct (asks e); cbn; now rewrite IH. Qed.
Lemma combine_fst {A B} (a : list A) : forall b : list B, List.length a = List.length b -> map fst (combine a b) = a /\ map snd (combine a b) = b.
Proof. induction a as [|x a IH]; intros [|y b] L; try discriminate; [auto|]. injection L as L. destruct (IH b L) as [E1 E2]. cbn. now rewrite E1, E2. Qed.

Lemma forall2_len {A B} (P : A -> B -> Prop) a b : Forall2 P a b -> List.length a = List.length b.
Proof. induction 1; cbn; congruence. Qed.

(** For every file that the parser reads as [x], the calls of [got] are those for the definitions of the file,
    in its order, the places [ds] are those of the nodes of the calls, and each gets the comments of its place:
    the ones above it that are not behind another definition, and the one behind it on its line.  The
    file gets the comments above its first token [a], unless they belong to a definition that begins there. *)
Theorem C85_file : forall o data r, load_file o data = Some r ->
  exists items x f got fc ds, lex_file data = Some items /\ parse_file o data = OK [x] [] /\ file_is f (parser_tokens 0 items) /\
    file_comments_of o data = Some (got, fc) /\
    (forall b, (forall e, b e = true <-> documented e) -> map fst got = filter b (walk_file f)) /\
    Forall2 (place items x) (map fst got) ds /\ doc_order ds /\
    Forall2 (own_comments (file_stream items) ds) ds (map snd got) /\
    (forall a d b e c p, ds = a ++ d :: b ++ e :: c -> gets (file_stream items) ds d p -> gets (file_stream items) ds e p -> False) /\
    exists a u i, parser_tokens 0 items = a :: u /\ stands_at items i a /\
      text_of (file_stream items) (fun p => precedes (file_stream items) p i /\ ~ exists d, In d ds /\ d_start d = i) fc.
Proof.
  intros o data r H. destruct (file_items data) as (l & El & G). destruct (parser_tokens_ok l 0 G) as (EL & Lx & _ & _).
  unfold load_file in H. destruct (parse_file o data) as [fo rest| |] eqn:Ep; try discriminate H. pose proof Ep as Ep'.
  unfold parse_file in Ep'. rewrite El in Ep'. destruct (parse_all _ _ _ _ EL Ep') as (-> & x & -> & Dx). clear H Ep'.
  destruct (C81_walk _ _ Dx Lx) as (f & F & Ev). rewrite <- calls_events in Ev. destruct (calls r_proto x) as [cs|] eqn:Ec; [|discriminate Ev].
  cbn [option_map] in Ev. assert (Ev' : map fst cs = walk_file f) by congruence. clear Ev.
  destruct (file_placed o data x cs l El G Ep Ec) as (OK & PL & a & u & Ea & Sa).
  set (items := l ++ [eof_token]) in *. set (ds := map (fun c => def_at items (snd c)) (asking cs)) in *.
  destruct (file_comments (file_stream items) ds (d_start (def_at items (span [x])))) as [got fc] eqn:Eg.
  destruct (C71_comments _ _ _ _ _ OK Eg) as (Own & Fc).
  assert (Len : List.length (map fst (asking cs)) = List.length got).
  { rewrite <- (forall2_len _ _ _ Own). unfold ds. now rewrite !map_length. }
  destruct (combine_fst _ _ Len) as (Cf & Cs).
  exists items, x, f, (combine (map fst (asking cs)) got), fc, ds.
  split; [exact El|]. split; [reflexivity|]. split; [exact F|].
  split; [unfold file_comments_of; rewrite El, Ep, Ec; fold items; fold ds; now rewrite Eg|].
  rewrite Cf, Cs. split.
  { intros b B. rewrite asking_events, Ev'. apply filter_ext. intros e. apply eq_true_iff_eq. rewrite (B e). apply asks_documented. }
  split; [exact PL|]. split; [exact (proj1 (proj2 OK))|]. split; [exact Own|].
  split; [intros *; exact (C71_once _ _ _ _ _ _ _ _ _ OK)|]. exists a, u, (d_start (def_at items (span [x]))). auto.
Qed.
Print Assumptions C85_file.

(** ** The comments are comments of Go *)
Lemma strip_in sp k : forall s c, In c (strip sp k s) -> In c s.
Proof.
  induction k as [|k IH]; intros s c H; [exact H|]. cbn [strip] in H. destruct (sp s) as [|n]; [exact H|].
  apply IH in H. rewrite <- (firstn_skipn (S n) s). apply in_app_iff. now right.
Qed.
Lemma TrimSpace_in s c : In c (TrimSpace s) -> In c s.
Proof. unfold TrimSpace. intros H. apply in_rev in H. apply strip_in in H. apply in_rev in H. now apply strip_in in H. Qed.
Lemma slash_plain : plain_char x2f.
Proof. unfold plain_char. change (b2n x2f) with 47%N. lia. Qed.
Lemma TrimSpace_slashes t : TrimSpace (x2f :: t ++ [x2f]) = x2f :: t ++ [x2f].
Proof.
  unfold TrimSpace. rewrite (strip_zero space_left) by (apply space_left_plain, slash_plain).
  change (x2f :: t ++ [x2f]) with ((x2f :: t) ++ [x2f]). rewrite rev_app_distr. cbn [rev app].
  rewrite strip_zero by (apply space_right_plain, slash_plain). cbn [rev]. now rewrite rev_app_distr, rev_involutive.
Qed.
Lemma comment_printed k ch t : good_item (ITok k ch t) -> tkind_of k = TLine \/ tkind_of k = TBlock -> one_comment (TrimSpace (GetText t)).
Proof.
  intros ((K & _) & _) H. assert (Q : k = 60%Z \/ k = 61%Z).
  { unfold tkind_of in H. destruct (Z.eqb_spec k 59); [destruct H; discriminate|]. destruct (Z.eqb_spec k 60); [auto|]. destruct (Z.eqb_spec k 61); [auto|]. destruct H; discriminate. }
  clear H. destruct Q as [->| ->].
  - apply (C75_plain t) in K as (x & -> & Tx & N & _). change (GetText ([slash; slash] ++ x)) with (x2f :: [] ++ x2f :: GetText x).
    destruct (TrimSpace_prefix x2f [] x2f (GetText x) slash_plain slash_plain) as (y & Ey). rewrite Ey. apply oc_line. intros I.
    assert (J : In x0a (TrimSpace (x2f :: [] ++ x2f :: GetText x))) by (rewrite Ey; right; right; exact I).
    apply TrimSpace_in in J. destruct J as [J|[J|J]]; try discriminate J. apply (GetText_in x0a x) in J; [exact (N J)|reflexivity|exact Tx].
  - apply (C75_plain t) in K as (x & -> & Tx & W). rewrite !GetText_app.
    change (GetText [slash; star]) with (bs "/*"). change (GetText [star; slash]) with (bs "*/").
    replace (bs "/*" ++ GetText x ++ bs "*/") with (x2f :: (x2a :: GetText x ++ [x2a]) ++ [x2f]) by (cbn; now rewrite <- app_assoc).
    rewrite TrimSpace_slashes. replace (x2f :: (x2a :: GetText x ++ [x2a]) ++ [x2f]) with (bs "/*" ++ GetText x ++ bs "*/") by (cbn; now rewrite <- app_assoc).
    apply oc_block. intros a b E. destruct (GetText_at x2a eq_refl x a (x2f :: b) Tx E) as (x1 & x2 & -> & _ & E2).
    apply Forall_app in Tx as [_ Tx]. apply Forall_cons_iff in Tx as [_ Tx]. destruct (GetText_at x2f eq_refl x2 [] b Tx E2) as (x3 & x4 & -> & E3 & _).
    assert (x3 = []) as ->. { destruct x3 as [|c x3]; [reflexivity|]. exfalso. revert E3. now apply GetText_not_empty. }
    apply (W x1 (x4 ++ [star])). cbn. now rewrite <- app_assoc.
Qed.
Lemma stream_items l t : Forall good_item l -> In t (file_stream (l ++ [eof_token])) -> tk_kind t = TLine \/ tk_kind t = TBlock -> one_comment (TrimSpace (tk_text t)).
Proof.
  intros G. unfold file_stream. induction G as [|[k ch x|x] l Gi G IH]; cbn [app].
  - cbn. intros [<-|[]] [H|H]; discriminate H.
  - rewrite stream_cons. cbn [map fst snd]. intros [<-|I] H; [|now apply IH]. cbn [tk_kind tk_text] in *. exact (comment_printed _ _ _ Gi H).
  - intros I. apply IH. exact I.
Qed.
Lemma texts_lines ts ps : texts ts ps = join_lines (map (fun p => match nth_error ts p with Some t => TrimSpace (tk_text t) | None => [] end) ps).
Proof.
  unfold texts. destruct (map _ ps) as [|s r]; [reflexivity|]. revert s. induction r as [|t r IH]; intros s; [apply app_nil_r|].
  cbn [map List.concat]. change (join_lines (s :: t :: r)) with (s ++ x0a :: join_lines (t :: r)). rewrite <- IH. reflexivity.
Qed.
Lemma texts_comments l ps : Forall good_item l -> (forall p, In p ps -> comment_at (file_stream (l ++ [eof_token])) p) -> a_comment (texts (file_stream (l ++ [eof_token])) ps).
Proof.
  intros G H. rewrite texts_lines. eexists. split; [|reflexivity]. apply Forall_forall. intros s I. apply in_map_iff in I as (p & <- & I).
  destruct (H p I) as (t & N & K). rewrite N. apply (stream_items l); auto. now apply nth_error_In in N.
Qed.
(** What the generator prints above and behind a declaration (C84) is the text of comments: line comments
    without a line feed in them and block comments that end where they end in the file. *)
Theorem C85_printed : forall o data got fc, file_comments_of o data = Some (got, fc) ->
  Forall (fun ec => comments_ok (c_head (snd ec), c_inline (snd ec))) got /\ a_comment fc.
Proof.
  intros o data got fc H. destruct (file_items data) as (l & El & G).
  assert (L : exists r, load_file o data = Some r).
  { unfold file_comments_of in H. rewrite El in H. unfold load_file. destruct (parse_file o data) as [[|x f] rest| |]; try discriminate H. eauto. }
  destruct L as (r & L). destruct (C85_file o data r L) as (items & x & f & got' & fc' & ds & El' & _ & _ & E & _ & _ & _ & Own & _ & a & u & i & _ & _ & Fc).
  assert (Q : got' = got /\ fc' = fc) by (rewrite E in H; injection H; auto). destruct Q as [-> ->]. clear H E.
  assert (items = l ++ [eof_token]) as -> by congruence. split.
  - assert (X : Forall (fun c => comments_ok (c_head c, c_inline c)) (map snd got)).
    { remember ds as ds' in Own at 2. clear Heqds'. induction Own as [|d c ds0 cs (H1 & H2) _ IH]; constructor; [|exact IH]. split; cbn [fst snd].
      - destruct H1 as (ps & P & _ & ->). apply texts_comments; [exact G|]. intros p I. apply P in I as [(_ & C & _) _]. exact C.
      - destruct H2 as (ps & P & A & ->). destruct ps as [|p [|q ps]].
        + now left.
        + right. cbn. rewrite app_nil_r. destruct (proj1 (P p) (or_introl eq_refl)) as (_ & (t & N & K) & _). rewrite N.
          apply (stream_items l); auto. now apply nth_error_In in N.
        + exfalso. pose proof (A [] [] ps p q eq_refl) as Lt. destruct (proj1 (P p) (or_introl eq_refl)) as (L1 & (t & N & K) & _).
          destruct (proj1 (P q) (or_intror (or_introl eq_refl))) as (_ & _ & B). destruct (B p (conj L1 Lt)) as (t' & N' & K' & _).
          rewrite N in N'. injection N' as <-. destruct K; congruence. }
    clear - X. induction got as [|[e c] got IH]; [constructor|]. cbn [map snd] in X. apply Forall_cons_iff in X as [X1 X2]. constructor; auto.
  - destruct Fc as (ps & P & _ & ->). apply texts_comments; [exact G|]. intros p I. apply P in I as [(_ & C & _) _]. exact C.
Qed.
Print Assumptions C85_printed.
(** Every file that is loaded has such comments, and only these. *)
Theorem C85_total : forall o data, file_comments_of o data = None <-> load_file o data = None.
Proof.
  intros o data. split.
  - intros H. destruct (load_file o data) as [r|] eqn:E; [|reflexivity]. destruct (C85_file _ _ _ E) as (? & ? & ? & ? & ? & ? & _ & _ & _ & E' & _). congruence.
  - unfold load_file, file_comments_of. destruct (file_items data) as (l & El & _). rewrite El. destruct (parse_file o data) as [[|x f] rest| |]; try reflexivity. discriminate.
Qed.
Print Assumptions C85_total.

(** ** A file *)
Definition noted_file : bytes := bs "import 'a';// a" ++ x0a :: bs "/*M*/message M{" ++ x0a :: bs "bool b=1; //b" ++ x0a :: bs "}".
Definition comments_quick (data : bytes) : option (list (event * comments) * bytes) :=
  match quick data with
  | Some items =>
      match parse predict (parser_tokens 0 items) with
      | OK (x :: _) _ =>
          match calls r_proto x with
          | Some cs =>
              let ds := map (fun c => def_at items (snd c)) (asking cs) in
              let '(got, fc) := file_comments (file_stream items) ds (d_start (def_at items (span [x]))) in
              Some (combine (map fst (asking cs)) got, fc)
          | None => None
          end
      | _ => None
      end
  | None => None
  end.
Lemma comments_quick_ok data : comments_quick data = file_comments_of predict data.
Proof. unfold comments_quick, file_comments_of, parse_file. rewrite lex_file_quick. destruct (quick data); reflexivity. Qed.
(** The comment behind the import goes to the message: an import does not ask for comments. *)
Example C85_ex : file_comments_of predict noted_file =
  Some ([(EnterMessageDef RTopLevel (bs "M"), mkComments (bs "// a" ++ x0a :: bs "/*M*/") []);
         (ExitField RMessage None (Props_Listen.fld (bs "bool") (bs "b") (bs "1") []), mkComments [] (bs "//b"))], []).
Proof. rewrite <- comments_quick_ok. vm_compute. reflexivity. Qed.
