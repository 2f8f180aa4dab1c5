(** Proofs: the tokens of a file as comment.go sees them, and their indices. *)
From Coq Require Import List Arith Bool ZArith NArith Lia Sorting.Sorted Strings.String Init.Byte.
From Verif Require Import Base GoStr StrFacts StrLit StrLitProofs Comments CommentSpec Atn LexFile LexSpec LexFileSpec LexLayout LexFileProofs Listen ParserNames Parser Walk ParserSpec
  WalkProofs WalkFile FileComments Props_Lex.
Import ListNotations.
Open Scope nat_scope.

(* ---------- indices ---------- *)
Lemma stream_cons k ch t l : stream (ITok k ch t :: l) = (k, ch, t) :: stream l.
Proof. reflexivity. Qed.
Lemma stream_err t l : stream (IErr t :: l) = stream l.
Proof. reflexivity. Qed.
Lemma index_ge l : forall start i off, i <= index_at start i off l.
Proof.
  induction l as [|[k ch t|t] l IH]; intros start i off; cbn [index_at]; [lia| |apply IH].
  destruct (off <=? start); [lia|]. specialize (IH (start + length t) (S i) off). lia.
Qed.
Lemma tokens_from l start x : In x (parser_tokens start l) -> start <= t_start x.
Proof. intros I. pose proof (parser_tokens_after l start) as F. rewrite Forall_forall in F. now apply F. Qed.
Lemma index_spec l : forall start i x, Forall good_item l -> In x (parser_tokens start (l ++ [eof_token])) ->
  exists n, index_at start i (t_start x) (l ++ [eof_token]) = i + n /\ nth_error (stream (l ++ [eof_token])) n = Some (t_kind x, 0%Z, t_text x).
Proof.
  induction l as [|[k ch t|t] l IH]; intros start i x G I; cbn [app] in *.
  - cbn in I. destruct I as [<-|[]]. cbn [index_at t_start eof_token app]. rewrite Nat.leb_refl. exists 0. split; [lia|reflexivity].
  - apply Forall_cons_iff in G as [(_ & NE & _ & _) G]. cbn [parser_tokens] in I. cbn [index_at]. rewrite stream_cons. apply in_app_iff in I as [I|I].
    + destruct (Z.eqb_spec ch 0) as [->|]; [|destruct I]. destruct I as [<-|[]]. cbn [t_start]. rewrite Nat.leb_refl. exists 0. split; [lia|reflexivity].
    + assert (L : 0 < length t) by (destruct t; [congruence|cbn; lia]). pose proof (tokens_from _ _ _ I) as B.
      rewrite (proj2 (Nat.leb_gt _ _)) by lia. destruct (IH _ (S i) _ G I) as (n & E & N). exists (S n). split; [rewrite E; lia|exact N].
  - apply Forall_cons_iff in G as [_ G]. cbn [parser_tokens] in I. cbn [index_at]. rewrite stream_err. now apply IH.
Qed.
Lemma index_lt l : forall start i x y, Forall good_item l -> In x (parser_tokens start (l ++ [eof_token])) -> In y (parser_tokens start (l ++ [eof_token])) ->
  t_start x < t_start y -> index_at start i (t_start x) (l ++ [eof_token]) < index_at start i (t_start y) (l ++ [eof_token]).
Proof.
  induction l as [|[k ch t|t] l IH]; intros start i x y G I J L; cbn [app] in *.
  - cbn in I, J. destruct I as [<-|[]], J as [<-|[]]. lia.
  - apply Forall_cons_iff in G as [(_ & NE & _ & _) G]. assert (P : 0 < length t) by (destruct t; [congruence|cbn; lia]). cbn [parser_tokens] in I, J. cbn [index_at].
    apply in_app_iff in J as [J|J].
    { destruct (Z.eqb_spec ch 0) as [->|]; [|destruct J]. destruct J as [<-|[]]. cbn [t_start] in L. exfalso.
      apply in_app_iff in I as [[<-|[]]|I]; [cbn in L; lia|]. apply tokens_from in I. lia. }
    pose proof (tokens_from _ _ _ J) as By. rewrite (proj2 (Nat.leb_gt (t_start y) start)) by lia. apply in_app_iff in I as [I|I].
    + destruct (Z.eqb_spec ch 0) as [->|]; [|destruct I]. destruct I as [<-|[]]. cbn [t_start]. rewrite Nat.leb_refl.
      pose proof (index_ge (l ++ [eof_token]) (start + length t) (S i) (t_start y)). lia.
    + pose proof (tokens_from _ _ _ I) as Bx. rewrite (proj2 (Nat.leb_gt (t_start x) start)) by lia. now apply IH.
  - apply Forall_cons_iff in G as [_ G]. cbn [parser_tokens] in I, J. cbn [index_at]. now apply IH.
Qed.
Lemma index_first l : forall start i x r, Forall good_item l -> parser_tokens start (l ++ [eof_token]) = x :: r ->
  exists n, index_at start i (t_start x) (l ++ [eof_token]) = i + n /\
    forall j, j < n -> exists k ch t, nth_error (stream (l ++ [eof_token])) j = Some (k, ch, t) /\ ch = channel_of k /\ ch <> 0%Z.
Proof.
  induction l as [|[k ch t|t] l IH]; intros start i x r G E; cbn [app] in *.
  - cbn in E. injection E as <- <-. exists 0. cbn [index_at t_start eof_token]. rewrite Nat.leb_refl. split; [lia|]. intros j H. lia.
  - apply Forall_cons_iff in G as [(_ & NE & Ec & _) G]. cbn [parser_tokens] in E. cbn [index_at]. rewrite stream_cons. destruct (Z.eqb_spec ch 0) as [->|NC].
    + cbn [app] in E. injection E as <- <-. cbn [t_start]. rewrite Nat.leb_refl. exists 0. split; [lia|]. intros j H. lia.
    + cbn [app] in E. assert (P : 0 < length t) by (destruct t; [congruence|cbn; lia]).
      assert (B : start + length t <= t_start x) by (apply (tokens_from (l ++ [eof_token])); rewrite E; now left).
      rewrite (proj2 (Nat.leb_gt _ _)) by lia. destruct (IH _ (S i) _ _ G E) as (n & En & H). exists (S n). split; [rewrite En; lia|].
      intros [|j] Hj; [exists k, ch, t; now split|]. cbn [nth_error]. apply H. lia.
  - apply Forall_cons_iff in G as [_ G]. cbn [parser_tokens] in E. cbn [index_at]. rewrite stream_err. now apply (IH _ _ _ r).
Qed.

(* ---------- texts ---------- *)
Lemma n2b_small n : (n < 256)%N -> b2n (n2b n) = n.
Proof. exact (StrLitProofs.b2n_small n). Qed.
Lemma encode_bytes c b : (c < 0x110000)%N -> In b (EncodeRune c) -> (b2n b < 128)%N -> EncodeRune c = [b] /\ c = b2n b.
Proof.
  intros H I L. unfold EncodeRune in *. destruct (N.ltb_spec c 128) as [C|C].
  - destruct I as [<-|[]]. split; [reflexivity|]. rewrite n2b_small; lia.
  - exfalso. pose proof (N.mod_lt c 64). pose proof (N.mod_lt (c / 64) 64). pose proof (N.mod_lt (c / 4096) 64).
    destruct (N.ltb_spec c 2048); [|destruct (N.ltb_spec c 65536)].
    + assert (c / 64 < 32)%N by (apply N.div_lt_upper_bound; lia). cbn [In] in I. destruct I as [<-|[<-|[]]]; rewrite n2b_small in L; lia.
    + assert (c / 4096 < 16)%N by (apply N.div_lt_upper_bound; lia). cbn [In] in I. destruct I as [<-|[<-|[<-|[]]]]; rewrite n2b_small in L; lia.
    + assert (c / 262144 < 5)%N by (apply N.div_lt_upper_bound; lia). cbn [In] in I. destruct I as [<-|[<-|[<-|[<-|[]]]]]; rewrite n2b_small in L; lia.
Qed.
Lemma char_bound c : is_char c -> (Z.to_N c < 0x110000)%N.
Proof. unfold is_char. lia. Qed.
Lemma GetText_cons c x : GetText (c :: x) = EncodeRune (Z.to_N c) ++ GetText x.
Proof. reflexivity. Qed.
Lemma GetText_at b : (b2n b < 128)%N -> forall x a r, is_text x -> GetText x = a ++ b :: r ->
  exists x1 x2, x = x1 ++ Z.of_N (b2n b) :: x2 /\ GetText x1 = a /\ GetText x2 = r.
Proof.
  intros L. induction x as [|c x IH]; intros a r Ht E.
  - destruct a; discriminate.
  - apply Forall_cons_iff in Ht as [Hc Hx]. rewrite GetText_cons in E. apply app_eq_app in E as (l & [[E1 E2]|[E1 E2]]).
    + destruct l as [|d l].
      * rewrite app_nil_r in E1. cbn in E2. destruct (IH [] r Hx (eq_sym E2)) as (x1 & x2 & -> & G1 & G2). exists (c :: x1), x2. split; [reflexivity|].
        split; [|exact G2]. rewrite GetText_cons, G1, app_nil_r. exact E1.
      * injection E2 as <- E2. destruct (encode_bytes _ b (char_bound _ Hc)) as [Q1 Q2]; [rewrite E1; apply in_app_iff; right; now left|exact L|].
        rewrite Q1 in E1. destruct a as [|? [|? ?]]; try discriminate. injection E1 as <-. cbn in E2. exists [], x. subst r. split; [|split; reflexivity].
        cbn. f_equal. rewrite <- Q2. unfold is_char in Hc. lia.
    + destruct (IH l r Hx E2) as (x1 & x2 & -> & G1 & G2). exists (c :: x1), x2. split; [reflexivity|]. split; [|exact G2]. now rewrite GetText_cons, G1, <- E1.
Qed.
Lemma GetText_in b x : (b2n b < 128)%N -> is_text x -> In b (GetText x) -> In (Z.of_N (b2n b)) x.
Proof.
  intros L Ht I. apply in_split in I as (a & r & E). destruct (GetText_at b L x a r Ht E) as (x1 & x2 & -> & _). apply in_app_iff. right. now left.
Qed.
Lemma space_char c : is_space c = true -> exists b, EncodeRune (Z.to_N c) = [b] /\ In b [x20; x09; x0d; x0a; x0c].
Proof.
  unfold is_space, space_ranges, in_ranges. cbn [existsb fst snd]. intros H.
  assert (K : (c = 9 \/ c = 10 \/ c = 12 \/ c = 13 \/ c = 32)%Z) by lia.
  destruct K as [->|[->|[->|[->| ->]]]]; eexists; (split; [reflexivity|cbn; tauto]).
Qed.
Lemma space_text x : all_space x -> forall b, In b (GetText x) -> In b [x20; x09; x0d; x0a; x0c].
Proof.
  intros A b I. unfold GetText in I. apply in_flat_map in I as (c & J & I). unfold all_space in A. rewrite Forall_forall in A.
  destruct (space_char c (A c J)) as (d & E & K). rewrite E in I. destruct I as [<-|[]]. exact K.
Qed.
Lemma good_lexed k ch t : good_item (ITok k ch t) -> lexed_token (Comments.mkTok (tkind_of k) (GetText t)).
Proof.
  intros ((K & _) & NE & _). unfold lexed_token, tkind_of. cbn [tk_kind tk_text].
  destruct (Z.eqb_spec k 59) as [->|]; [|destruct (Z.eqb_spec k 60) as [->|]; [|destruct (Z.eqb_spec k 61) as [->|]; [|exact Logic.I]]].
  - apply space_of_kind in K as [_ A]. split; [now apply GetText_not_empty|now apply space_text].
  - apply (C75_plain t) in K as (x & -> & _). exists x2f, (GetText x). split; [reflexivity|now left].
  - apply (C75_plain t) in K as (x & -> & _). exists x2a, (GetText (x ++ [star; slash])). split; [reflexivity|now right].
Qed.
Lemma tkind_code k : tkind_of k = TCode <-> channel_of k = 0%Z.
Proof.
  unfold tkind_of, channel_of. destruct (Z.eqb_spec k 59); [split; discriminate|]. destruct (Z.eqb_spec k 60); [split; discriminate|].
  destruct (Z.eqb_spec k 61); [split; discriminate|]. now split.
Qed.
Lemma stream_lexed l : Forall good_item l -> Forall lexed_token (file_stream (l ++ [eof_token])).
Proof.
  unfold file_stream. induction 1 as [|[k ch t|t] l G F IH]; [repeat constructor| |exact IH].
  cbn [app]. rewrite stream_cons. cbn [map fst snd]. constructor; [exact (good_lexed _ _ _ G)|exact IH].
Qed.
