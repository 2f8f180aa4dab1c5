(** Proofs for C81, continued: the definitions of a file. *)
From Coq Require Import List Arith Bool ZArith Lia Strings.String Init.Byte.
From Verif Require Import Base GoStr GenField Verify StrLit Listen Atn LexSpec LexFile ParserNames Parser Walk ParserSpec SpellSpec.
From Verif Require Import ParserProofs WalkProofs WalkNodes.
Import ListNotations StringSyntax.
Open Scope nat_scope.
Local Opaque rule GetText get_text.
#[local] Hint Resolve spell_nil kw_intro rule_part rule_named : core.

Lemma quiet_cons r q g f w : derives (rule q) w g -> loud q = false -> evs r (Node q g :: f) = evs r f.
Proof.
  intros D Q. rewrite evs_cons. rewrite (quiet_node _ _ _ _ D) by now apply quiet_rule.
  destruct (quiet_calls r q g Q) as [-> ->]. now rewrite !cat_nil_l.
Qed.
Lemma lexed_pieces b ps : pieces b ps -> lexed (concat (map fst ps)) -> Forall (fun p => derives b (fst p) (snd p) /\ lexed (fst p)) ps.
Proof.
  induction 1 as [|[w f] ps D P IH]; intros L; constructor; cbn [map concat fst snd] in *; apply lexed_app in L as [L1 L2]; auto.
Qed.
Lemma semi_of r w f : derives (rule r_emptyStatement) w f -> kw SEMI w /\ evs r [Node r_emptyStatement f] = Some [].
Proof.
  intros D. rewrite (quiet_cons _ _ _ _ _ D eq_refl). split; [|reflexivity]. unrule D. inv D. inv D. kind K. now apply kw_intro.
Qed.
Ltac pick I := repeat (destruct I as [<-|I]; [|]); [..|destruct I].
Lemma evs_one r y : evs r [y] = events r y.
Proof. rewrite evs_cons. apply cat_nil_r. Qed.

(* ---------- oneof ---------- *)
Lemma oneof_of_rule p w f : derives (rule r_oneof) w f ->
  exists n l, oneof_is n l w /\ events p (Node r_oneof f) = Some (EnterOneof n :: flat_map walk_oneof_elem l).
Proof.
  intros D. rewrite events_node. unrule D. inv D. inv D. inv D. inv D. inv D. inv D. kind K. kind K0. kind K1.
  destruct (things_of oneof_elem_is walk_oneof_elem r_oneof ps) as (l & Th & E).
  { eapply Forall_impl; [|exact P]. intros [wp fp] Dp. cbn [fst snd] in *. inv Dp. destruct I as [<-|[<-|[<-|[]]]]; cbn [app] in Dp; inv Dp; inv Dp; rewrite !app_nil_r.
    - left. destruct (option_of_rule r_oneof ROneof _ _ A0 eq_refl) as (n & c & S & Ev). exists (SoOption n c). rewrite evs_one. auto.
    - left. destruct (oneofField_of_rule r_oneof _ _ A0) as (sf & S & Ev). exists (SoField sf). rewrite evs_one. auto.
    - right. apply semi_of with (1 := A0). }
  exists (get_text (Node r_oneofName g)), l. split.
  - unfold oneof_is. cbn [app]. apply spell_kw; [auto|]. apply spell_cons; [auto|]. apply spell_kw; [auto|]. apply spell_cons; [exact Th|]. apply spell_kw; auto.
  - rewrite evs_leaf. change 43 with r_oneofName. rewrite (quiet_cons _ _ _ _ _ A eq_refl), evs_leaf, evs_app, E. cbn. rewrite ?app_nil_r. reflexivity.
Qed.

(* ---------- reserved ---------- *)
Lemma token_yes k x f : t_kind x = k -> has_token k (Leaf x :: f) = true.
Proof. intros <-. unfold has_token, tokens. cbn [flat_map]. now rewrite Z.eqb_refl. Qed.
Lemma token_skip k x f : t_kind x <> k -> has_token k (Leaf x :: f) = has_token k f.
Proof. intros N. unfold has_token, tokens. cbn [flat_map]. apply Z.eqb_neq in N. now rewrite N. Qed.
Lemma token_node k q g f : has_token k (Node q g :: f) = has_token k f.
Proof. reflexivity. Qed.
Lemma range_of_rule w f : derives (rule r_oneRange) w f -> exists x, range_is x w /\ range_of f = Some x.
Proof.
  intros D. unrule D. inv D. inv D.
  - inv D. exists (get_text (Node r_intLit g), ToSame). split; [|reflexivity]. unfold range_is. cbn [fst snd]. rewrite app_nil_r. auto.
  - inv D. kind K. inv D. destruct I as [<-|[<-|[]]]; cbn [app] in D; inv D; inv D.
    + exists (get_text (Node r_intLit g), ToLit (get_text (Node r_intLit g0))). split.
      * unfold range_is. cbn [fst snd app]. apply spell_cons; [auto|]. apply spell_kw; [auto|]. apply spell_cons; auto.
      * unfold range_of, bind. rewrite !token_node, (token_yes TO), (token_skip MAX) by (rewrite K; auto; discriminate). reflexivity.
    + kind K0. exists (get_text (Node r_intLit g), ToMax). split.
      * unfold range_is. cbn [fst snd app]. apply spell_cons; [auto|]. apply spell_kw; [auto|]. apply spell_kw; auto.
      * unfold range_of, bind. rewrite !token_node, (token_yes TO), (token_skip MAX), (token_yes MAX) by (rewrite ?K; auto; discriminate). reflexivity.
Qed.
Lemma reserved_of_rule p P w f : derives (rule r_reserved) w f -> parent p = Some P ->
  (exists rr, reserved_is rr w /\ events p (Node r_reserved f) = Some [ExitReserved P rr]) \/
  (reserved_names w /\ events p (Node r_reserved f) = Some []).
Proof.
  intros D Pp. rewrite (quiet_node _ _ _ _ D) by reflexivity. unrule D. inv D. kind K. inv D.
  destruct I as [<-|[<-|[]]]; cbn [app] in D; inv D; inv D; inv D; kind K0.
  - left. destruct (commas_of r_oneRange range_is (fun y => range_of (children y)) _ _ range_of_rule A) as (x1 & l & C & E).
    exists (x1 :: l). split.
    + unfold reserved_is. cbn [app]. apply spell_kw; [auto|]. apply spell_cons; [exact C|]. apply spell_kw; auto.
    + unfold enter, exit. cbn [Nat.eqb r_reserved r_field r_oneofField r_mapField r_optionStatement r_messageDef r_enumDef r_oneof r_serviceDef r_rpc r_enumField].
      rewrite cat_nil_l. change (context r_ranges 0 (Leaf x :: Node 18 g :: [Leaf x0])) with (Some (Node r_ranges g)). cbv beta iota.
      unfold bind. rewrite Pp. cbn [children]. now rewrite E.
  - right. split; [|reflexivity]. unfold reserved_names. cbn [app]. apply spell_kw; [auto|]. apply spell_cons; [eauto|]. apply spell_kw; auto.
Qed.

(* ---------- enum ---------- *)
Lemma enum_tail w f : derives [N r_intLit; Opt [N r_enumValueOptions]; T [SEMI]] w f -> exists lit oo,
  spell [named r_intLit lit; brackets oo; kw SEMI] w /\ text_at r_intLit 0 f = Some lit /\
  options_of r_enumValueOption (context r_enumValueOptions 0 f) = Some oo /\ has_token MINUS f = false.
Proof.
  intros D. assert (NM : has_token MINUS f = false) by (unfold has_token; now rewrite (no_tokens MINUS _ _ _ D eq_refl)).
  inv D. inv D.
  - inv D. inv D. kind K. exists (get_text (Node r_intLit g)), []. repeat split; auto.
    apply spell_cons; [auto|]. apply spell_none; [reflexivity|]. apply spell_kw; auto.
  - inv D. inv D. inv D. kind K.
    change (rule r_enumValueOptions) with (T [LB] :: [N r_enumValueOption; Star [T [COMMA]; N r_enumValueOption]] ++ [T [RB]]) in A0.
    inv A0. kind K0. destruct (derives_split _ _ _ A0 _ _ eq_refl) as (w1 & w2 & f1 & f2 & -> & -> & D1 & D2).
    inv D2. inv D2. kind K1.
    destruct (commas_of r_enumValueOption assignment (fun y => option_of (children y)) _ _ (fun w f => assign_of r_enumValueOption w f eq_refl) D1) as (o & l & C & E).
    exists (get_text (Node r_intLit g)), (o :: l). split; [|split; [reflexivity|split; [|exact NM]]].
    + apply spell_cons; [auto|]. apply spell_cons; [|apply spell_kw; auto]. cbn [brackets app].
      apply spell_kw; [auto|]. apply spell_cons; [exact C|]. apply spell_kw; auto.
    + match goal with |- options_of _ ?c = _ => change c with (Some (Node r_enumValueOptions (Leaf x0 :: f1 ++ [Leaf x1]))) end.
      unfold options_of. cbn [children].
      change (contexts r_enumValueOption (Leaf x0 :: f1 ++ [Leaf x1])) with (contexts r_enumValueOption (f1 ++ [Leaf x1])).
      rewrite contexts_app. cbn [contexts filter]. rewrite app_nil_r. exact E.
Qed.
Lemma enumField_of_rule p w f : derives (rule r_enumField) w f ->
  exists n neg lit oo, enum_elem_is (SeField n neg lit oo) w /\ events p (Node r_enumField f) = Some [ExitEnumField n neg lit oo].
Proof.
  intros D. rewrite (quiet_node _ _ _ _ D) by reflexivity. unrule D. inv D. inv D. kind K.
  unfold enter, exit. cbn [Nat.eqb r_messageDef r_enumDef r_oneof r_serviceDef r_rpc r_enumField]. rewrite cat_nil_l. inv D.
  - destruct (enum_tail _ _ D) as (lit & oo & S & E1 & E2 & E3). exists (get_text (Node r_ident g)), false, lit, oo. split.
    + unfold enum_elem_is. cbn [app]. apply spell_cons; [auto|]. apply spell_kw; [auto|]. apply spell_none; [reflexivity|]. exact S.
    + match goal with |- context [Node 38 g :: Leaf x :: ?a] =>
        change (text_at r_ident 0 (Node 38 g :: Leaf x :: a)) with (Some (get_text (Node r_ident g)));
        change (text_at r_intLit 0 (Node 38 g :: Leaf x :: a)) with (text_at r_intLit 0 a);
        change (context r_enumValueOptions 0 (Node 38 g :: Leaf x :: a)) with (context r_enumValueOptions 0 a) end.
      unfold bind. rewrite E1, E2, token_node, token_skip, E3 by (rewrite K; discriminate). reflexivity.
  - inv D. kind K0. destruct (enum_tail _ _ D) as (lit & oo & S & E1 & E2 & E3). exists (get_text (Node r_ident g)), true, lit, oo. split.
    + unfold enum_elem_is. cbn [app]. apply spell_cons; [auto|]. apply spell_kw; [auto|]. apply spell_kw; [auto|]. exact S.
    + match goal with |- context [Node 38 g :: Leaf x :: Leaf x0 :: ?a] =>
        change (text_at r_ident 0 (Node 38 g :: Leaf x :: Leaf x0 :: a)) with (Some (get_text (Node r_ident g)));
        change (text_at r_intLit 0 (Node 38 g :: Leaf x :: Leaf x0 :: a)) with (text_at r_intLit 0 a);
        change (context r_enumValueOptions 0 (Node 38 g :: Leaf x :: Leaf x0 :: a)) with (context r_enumValueOptions 0 a) end.
      unfold bind. rewrite E1, E2, token_node, token_skip, token_yes by (rewrite ?K; auto; discriminate). reflexivity.
Qed.
Lemma enum_elem_of w f : derives [N r_enumElement] w f -> exists e, enum_elem_is e w /\ evs r_enumBody f = Some (walk_enum_elem e).
Proof.
  intros D. inv D. inv D. rewrite app_nil_r, evs_one, events_node. unrule A. inv A.
  change (enter r_enumBody 24 g) with (Some (@nil event)). change (exit r_enumBody 24 g) with (Some (@nil event)). rewrite cat_nil_l, cat_nil_r.
  destruct I as [<-|[<-|[<-|[<-|[]]]]]; cbn [app] in A; inv A; inv A; rewrite !app_nil_r, ?evs_one.
  - destruct (option_of_rule r_enumElement REnum _ _ A0 eq_refl) as (n & c & S & E). exists (SeOption n c). auto.
  - destruct (enumField_of_rule r_enumElement _ _ A0) as (n & neg & lit & oo & S & E). exists (SeField n neg lit oo). auto.
  - destruct (reserved_of_rule r_enumElement REnum _ _ A0 eq_refl) as [(rr & S & E)|[S E]].
    + exists (SeReserved rr). auto.
    + exists SeOther. cbn [enum_elem_is]. auto.
  - destruct (semi_of r_enumElement _ _ A0) as [S E]. rewrite evs_one in E. exists SeOther. cbn [enum_elem_is]. auto.
Qed.
Lemma enum_of_rule p P w f : derives (rule r_enumDef) w f -> parent p = Some P ->
  exists e, enum_is e w /\ events p (Node r_enumDef f) = Some (walk_enum P e).
Proof.
  intros D Pp. rewrite events_node. unrule D. inv D. inv D. inv D. inv D. kind K. unrule A0. inv A0. inv A0. inv A0. inv A0. kind K0. kind K1.
  destruct (several_of enum_elem_is walk_enum_elem r_enumBody ps) as (l & S & E).
  { eapply Forall_impl; [|exact P0]. intros [wp fp] Dp. now apply enum_elem_of. }
  exists (mkSEn (get_text (Node r_enumName g)) l). split.
  - unfold enum_is. cbn [app sen_name sen_elems]. apply spell_kw; [auto|]. apply spell_cons; [auto|].
    rewrite app_nil_r. apply spell_kw; [auto|]. apply spell_cons; [exact S|]. apply spell_kw; auto.
  - unfold enter, exit. cbn [Nat.eqb r_messageDef r_enumDef]. unfold bind. rewrite Pp.
    match goal with |- context [text_at r_enumName 0 ?a] => change (text_at r_enumName 0 a) with (Some (get_text (Node r_enumName g))) end.
    rewrite evs_leaf. change 41 with r_enumName. rewrite (quiet_cons _ _ _ _ _ A eq_refl), evs_one, events_node.
    change 23 with r_enumBody. rewrite evs_leaf, evs_app, E. cbn. rewrite ?app_nil_r. reflexivity.
Qed.

(* ---------- extend ---------- *)
Lemma extend_of_rule p w f : derives (rule r_extendDef) w f -> lexed w ->
  exists l, extend_is l w /\ events p (Node r_extendDef f) = Some (map (fun x => ExitField RExtend (fst x) (snd x)) l).
Proof.
  intros D L. rewrite events_node. unrule D. inv D. inv D. inv D. inv D. inv D. inv D. kind K. kind K0. kind K1.
  destruct (things_of field_is (fun x => [ExitField RExtend (fst x) (snd x)]) r_extendDef ps) as (l & Th & E).
  { apply lexed_app in L as [_ L]. apply lexed_app in L as [_ L]. apply lexed_app in L as [_ L]. apply lexed_app in L as [L _].
    eapply Forall_impl; [|exact (lexed_pieces _ _ P L)]. intros [wp fp] [Dp Lp]. cbn [fst snd] in *. inv Dp.
    destruct I as [<-|[<-|[]]]; cbn [app] in Dp; inv Dp; inv Dp; rewrite !app_nil_r in *.
    - left. destruct (field_of_rule r_extendDef RExtend _ _ A0 Lp eq_refl) as (lb & sf & S & Ev). exists (lb, sf). rewrite evs_one. auto.
    - right. now apply semi_of. }
  exists l. split.
  - unfold extend_is. cbn [app]. apply spell_kw; [auto|]. apply spell_cons; [eauto|]. apply spell_kw; [auto|]. apply spell_cons; [exact Th|]. apply spell_kw; auto.
  - rewrite evs_leaf. change 46 with r_messageType. rewrite (quiet_cons _ _ _ _ _ A eq_refl), evs_leaf, evs_app, E.
    change (enter p r_extendDef _) with (Some (@nil event)).
    match goal with |- context [exit p r_extendDef ?a] => change (exit p r_extendDef a) with (Some (@nil event)) end.
    cbn. rewrite !app_nil_r. rewrite flat_map_concat_map. f_equal. clear. induction l as [|y l IH]; [reflexivity|]. cbn [map concat]. now rewrite IH.
Qed.

(* ---------- message ---------- *)
Lemma elems_of n : forall ps, (forall w f, List.length w < n -> lexed w -> derives [N r_messageElement] w f ->
    exists e, elem_is e w /\ evs r_messageBody f = Some (walk_elem e)) ->
  List.length (concat (map fst ps)) < n -> lexed (concat (map fst ps)) -> pieces [N r_messageElement] ps ->
  exists l, elems_are l (concat (map fst ps)) /\ evs r_messageBody (concat (map snd ps)) = Some (flat_map walk_elem l).
Proof.
  intros ps H. induction ps as [|[w f] ps IH]; intros Ln L P; [exists []; split; constructor|].
  apply Forall_cons_iff in P as [D P]. cbn [map concat fst snd] in *. apply lexed_app in L as [L1 L2]. rewrite app_length in Ln.
  destruct (H w f ltac:(lia) L1 D) as (e & S & E). destruct (IH ltac:(lia) L2 P) as (l & S' & E').
  exists (e :: l). split; [now constructor|]. now rewrite evs_app, E, E'.
Qed.
Lemma msg_of_rule p P w f : derives (rule r_messageDef) w f -> lexed w -> parent p = Some P ->
  (forall v g, List.length v < List.length w -> lexed v -> derives [N r_messageElement] v g ->
    exists e, elem_is e v /\ evs r_messageBody g = Some (walk_elem e)) ->
  exists n l a b c d e, w = a ++ b ++ c ++ d ++ e /\ kw MESSAGE a /\ named r_messageName n b /\ kw LC c /\ elems_are l d /\ kw RC e /\
    events p (Node r_messageDef f) = Some (EnterMessageDef P n :: flat_map walk_elem l ++ [ExitMessageDef]).
Proof.
  intros D L Pp H. rewrite events_node. unrule D. inv D. inv D. inv D. inv D. kind K. unrule A0. inv A0. inv A0. inv A0. inv A0. kind K0. kind K1.
  rewrite !app_nil_r in *.
  destruct (elems_of (List.length ([x] ++ v ++ [x0] ++ concat (map fst ps) ++ [x1])) ps H) as (l & S & E).
  { rewrite !app_length. cbn. lia. }
  { apply lexed_app in L as [_ L]. apply lexed_app in L as [_ L]. apply lexed_app in L as [_ L]. now apply lexed_app in L as [L _]. }
  { exact P0. }
  exists (get_text (Node r_messageName g)), l, [x], v, [x0], (concat (map fst ps)), [x1]. repeat split; auto; eauto.
  - now apply rule_named.
  - unfold enter, exit. cbn [Nat.eqb r_messageDef r_enumDef]. unfold bind. rewrite Pp.
    match goal with |- context [text_at r_messageName 0 ?a] => change (text_at r_messageName 0 a) with (Some (get_text (Node r_messageName g))) end.
    rewrite evs_leaf. change 40 with r_messageName. rewrite (quiet_cons _ _ _ _ _ A eq_refl), evs_one, events_node.
    change 29 with r_messageBody. rewrite evs_leaf, evs_app, E. change (enter r_messageDef r_messageBody _) with (Some (@nil event)).
    match goal with |- context [exit r_messageDef r_messageBody ?a] => change (exit r_messageDef r_messageBody a) with (Some (@nil event)) end.
    cbn. rewrite !app_nil_r. reflexivity.
Qed.
Lemma elem_of n : forall w f, List.length w < n -> lexed w -> derives [N r_messageElement] w f ->
  exists e, elem_is e w /\ evs r_messageBody f = Some (walk_elem e).
Proof.
  induction n as [|n IH]; intros w f Ln L D; [lia|].
  inv D. inv D. rewrite app_nil_r in *. rewrite evs_one, events_node. unrule A. inv A.
  change (enter r_messageBody 30 g) with (Some (@nil event)). change (exit r_messageBody 30 g) with (Some (@nil event)). rewrite cat_nil_l, cat_nil_r.
  repeat (destruct I as [<-|I]; [cbn [app] in A; inv A; inv A; rewrite !app_nil_r, ?evs_one in *|]); [..|destruct I].
  - destruct (field_of_rule r_messageElement RMessage _ _ A0 L eq_refl) as (lb & sf & S & E). exists (SmField lb sf). split; [now constructor|exact E].
  - destruct (enum_of_rule r_messageElement RMessage _ _ A0 eq_refl) as (e & S & E). exists (SmEnum e). split; [now constructor|exact E].
  - destruct (msg_of_rule r_messageElement RMessage _ _ A0 L eq_refl) as (m & l & a & b & c & d & e & -> & S1 & S2 & S3 & S4 & S5 & E).
    { intros v1 g1 Lv. apply IH. lia. }
    exists (SmMsg m l). split; [now constructor|exact E].
  - destruct (extend_of_rule r_messageElement _ _ A0 L) as (l & S & E). exists (SmExtend l). split; [now constructor|exact E].
  - destruct (option_of_rule r_messageElement RMessage _ _ A0 eq_refl) as (m & c & S & E). exists (SmOption m c). split; [now constructor|exact E].
  - destruct (oneof_of_rule r_messageElement _ _ A0) as (m & l & S & E). exists (SmOneof m l). split; [now constructor|exact E].
  - destruct (mapField_of_rule r_messageElement _ _ A0) as (k & sf & S & E). exists (SmMap k sf). split; [now constructor|exact E].
  - destruct (reserved_of_rule r_messageElement RMessage _ _ A0 eq_refl) as [(rr & S & E)|[S E]].
    + exists (SmReserved rr). split; [now constructor|exact E].
    + exists SmOther. split; [now apply ei_names|exact E].
  - exists SmOther. split; [apply ei_extensions; unfold extensions_are; eauto|]. rewrite <- evs_one. now rewrite (quiet_cons _ _ _ _ _ A0 eq_refl).
  - destruct (semi_of r_messageElement _ _ A0) as [S E]. rewrite evs_one in E. exists SmOther. split; [now apply ei_empty|exact E].
Qed.

(* ---------- service ---------- *)
Lemma not_empty q w f : derives (rule q) w f -> snd (look (rule q)) = false -> exists y r, w = y :: r.
Proof.
  intros D E. apply derives_first in D. destruct w as [|y r]; [|eauto]. cbn in D. congruence.
Qed.
Lemma type_of w f : derives (rule r_messageType) w f ->
  exists p, type_is (get_text (Node r_messageType f), p) w /\ get_start (Node r_messageType f) = Some p.
Proof.
  intros D. destruct (not_empty _ _ _ D) as (y & r & ->); [vm_compute; reflexivity|]. exists (t_start y). split.
  - split; [now apply rule_named|]. eauto.
  - unfold get_start. cbn [get_starts]. now rewrite (derives_starts _ _ _ D).
Qed.
Lemma rpc_end_of w f : derives [Alt [[T [LC]; Star [Alt [[N r_optionStatement]; [N r_emptyStatement]]]; T [RC]]; [T [SEMI]]]] w f ->
  exists oo, rpc_end oo w /\ evs r_rpc f = Some (map (fun o => ExitOptionStatement RRpc (fst o) (snd o)) oo).
Proof.
  intros D. inv D. destruct I as [<-|[<-|[]]]; cbn [app] in D.
  - inv D. inv D. inv D. inv D. kind K. kind K0.
    destruct (things_of option_statement (fun o => [ExitOptionStatement RRpc (fst o) (snd o)]) r_rpc ps) as (l & Th & E).
    { eapply Forall_impl; [|exact P]. intros [wp fp] Dp. cbn [fst snd] in *. inv Dp.
      destruct I as [<-|[<-|[]]]; cbn [app] in Dp; inv Dp; inv Dp; rewrite !app_nil_r.
      - left. destruct (option_of_rule r_rpc RRpc _ _ A eq_refl) as (n & c & S & Ev). exists (n, c). rewrite evs_one. auto.
      - right. now apply semi_of. }
    exists l. split.
    + left. cbn [app]. apply spell_kw; [auto|]. apply spell_cons; [exact Th|]. apply spell_kw; auto.
    + rewrite evs_leaf, evs_app, E. cbn. rewrite app_nil_r. rewrite flat_map_concat_map. f_equal. clear.
      induction l as [|y l IH]; [reflexivity|]. cbn [map concat]. now rewrite IH.
  - inv D. inv D. kind K. exists []. split; [|reflexivity]. right. split; [reflexivity|]. now apply kw_intro.
Qed.
(** a stream token, or none *)
Lemma stream_of l w f : derives (Opt [T [STREAM]] :: l) w f ->
  exists s ws fs w' f', w = ws ++ w' /\ f = fs ++ f' /\ stream_is s ws /\ derives l w' f' /\
    map t_start (tokens STREAM fs) = match s with Some p => [p] | None => [] end /\
    (forall q, contexts q fs = []) /\ (forall r g, evs r (fs ++ g) = evs r g).
Proof.
  intros D. inv D.
  - exists None, [], [], w, f. repeat split; auto.
  - inv D. kind K. exists (Some (t_start x)), [x], [Leaf x], w0, f0. repeat split; auto.
    + cbn [stream_is]. eauto.
    + cbn [tokens flat_map]. rewrite K. reflexivity.
    + intros r g. cbn [app]. now rewrite evs_leaf.
Qed.
Lemma rpc_of_rule p w f : derives (rule r_rpc) w f -> exists r, rpc_is r w /\ events p (Node r_rpc f) = Some (walk_rpc r).
Proof.
  intros D. rewrite events_node. unrule D. inv D. kind K. inv D. inv D. kind K0.
  apply stream_of in D. destruct D as (s1 & ws1 & fs1 & w1 & f1' & -> & -> & S1 & D & T1 & C1 & V1).
  inv D. inv D. kind K1. inv D. kind K2. inv D. kind K3.
  apply stream_of in D. destruct D as (s2 & ws2 & fs2 & w4' & f4' & -> & -> & S2 & D & T2 & C2 & V2).
  inv D. inv D. kind K4.
  pose proof (no_contexts r_messageType _ _ _ D eq_refl) as NC. pose proof (no_contexts r_rpcName _ _ _ D eq_refl) as NR.
  pose proof (no_tokens STREAM _ _ _ D eq_refl) as NT.
  destruct (rpc_end_of _ _ D) as (oo & Se & Ee).
  destruct (type_of _ _ A0) as (p0 & Ty0 & G0). destruct (type_of _ _ A1) as (p1 & Ty1 & G1).
  exists (mkSRpc (get_text (Node r_rpcName g)) s1 (get_text (Node r_messageType g0), p0) s2 (get_text (Node r_messageType g1), p1) oo). split.
  - unfold rpc_is. cbn [app sr_name sr_sreq sr_req sr_sret sr_ret sr_options].
    apply spell_kw; [auto|]. apply spell_cons; [auto|]. apply spell_kw; [auto|]. apply spell_cons; [exact S1|]. apply spell_cons; [exact Ty0|].
    apply spell_kw; [auto|]. apply spell_kw; [auto|]. apply spell_kw; [auto|]. apply spell_cons; [exact S2|]. apply spell_cons; [exact Ty1|].
    apply spell_kw; [auto|]. apply spell_last. exact Se.
  - set (F := _ :: _). 
    assert (Ev : evs r_rpc F = Some (map (fun o => ExitOptionStatement RRpc (fst o) (snd o)) oo)).
    { unfold F. rewrite evs_leaf. change 45 with r_rpcName. rewrite (quiet_cons _ _ _ _ _ A eq_refl), evs_leaf, V1.
      change 46 with r_messageType. rewrite (quiet_cons _ _ _ _ _ A0 eq_refl), !evs_leaf, V2.
      rewrite (quiet_cons _ _ _ _ _ A1 eq_refl), !evs_leaf. exact Ee. }
    assert (Mt : contexts r_messageType F = [Node r_messageType g0; Node r_messageType g1]).
    { unfold F.
      match goal with |- context [Leaf x :: Node 45 g :: Leaf x0 :: ?a] =>
        change (contexts r_messageType (Leaf x :: Node 45 g :: Leaf x0 :: a)) with (contexts r_messageType a) end.
      rewrite contexts_app, C1.
      match goal with |- context [Node 46 g0 :: Leaf x1 :: Leaf x2 :: Leaf x3 :: ?a] =>
        change (contexts r_messageType (Node 46 g0 :: Leaf x1 :: Leaf x2 :: Leaf x3 :: a)) with (Node 46 g0 :: contexts r_messageType a) end.
      rewrite contexts_app, C2.
      match goal with |- context [Node 46 g1 :: Leaf x4 :: ?a] =>
        change (contexts r_messageType (Node 46 g1 :: Leaf x4 :: a)) with (Node 46 g1 :: contexts r_messageType a) end.
      now rewrite NC. }
    assert (Tk : forall x f, t_kind x <> STREAM -> tokens STREAM (Leaf x :: f) = tokens STREAM f).
    { intros y h Hy. cbn [tokens flat_map]. apply Z.eqb_neq in Hy. now rewrite Hy. }
    assert (Tn : forall q h f, tokens STREAM (Node q h :: f) = tokens STREAM f) by reflexivity.
    assert (St : map t_start (tokens STREAM F) = stream_tokens (mkSRpc (get_text (Node r_rpcName g)) s1 (get_text (Node r_messageType g0), p0) s2 (get_text (Node r_messageType g1), p1) oo)).
    { unfold F. rewrite Tk, Tn, Tk, tokens_app, Tn, !Tk, tokens_app, Tn, Tk, NT, app_nil_r by (rewrite ?K, ?K0, ?K1, ?K2, ?K3, ?K4; discriminate).
      rewrite map_app, T1, T2. reflexivity. }
    unfold enter, exit. cbn [Nat.eqb r_messageDef r_enumDef r_oneof r_serviceDef r_rpc r_enumField r_field r_oneofField r_mapField r_optionStatement r_reserved].
    change (text_at r_rpcName 0 F) with (Some (get_text (Node r_rpcName g))). unfold bind, context. rewrite Mt. cbn [nth_error]. rewrite G0, G1, St.
    rewrite Ev. reflexivity.
Qed.
Lemma service_elem_of w f : derives [N r_serviceElement] w f -> exists e, service_elem_is e w /\ evs r_serviceDef f = Some (walk_service_elem e).
Proof.
  intros D. inv D. inv D. rewrite app_nil_r, evs_one, events_node. unrule A. inv A.
  change (enter r_serviceDef 33 g) with (Some (@nil event)). change (exit r_serviceDef 33 g) with (Some (@nil event)). rewrite cat_nil_l, cat_nil_r.
  destruct I as [<-|[<-|[<-|[]]]]; cbn [app] in A; inv A; inv A; rewrite !app_nil_r, ?evs_one.
  - destruct (option_of_rule r_serviceElement RService _ _ A0 eq_refl) as (n & c & S & E). exists (SsOption n c). auto.
  - destruct (rpc_of_rule r_serviceElement _ _ A0) as (r & S & E). exists (SsRpc r). auto.
  - destruct (semi_of r_serviceElement _ _ A0) as [S E]. rewrite evs_one in E. exists SsOther. auto.
Qed.
Lemma service_of_rule p w f : derives (rule r_serviceDef) w f ->
  exists n l, service_is n l w /\ events p (Node r_serviceDef f) = Some (EnterServiceDef n :: flat_map walk_service_elem l).
Proof.
  intros D. rewrite events_node. unrule D. inv D. inv D. inv D. inv D. inv D. inv D. kind K. kind K0. kind K1.
  destruct (several_of service_elem_is walk_service_elem r_serviceDef ps) as (l & S & E).
  { eapply Forall_impl; [|exact P]. intros [wp fp] Dp. now apply service_elem_of. }
  exists (get_text (Node r_serviceName g)), l. split.
  - unfold service_is. cbn [app]. apply spell_kw; [auto|]. apply spell_cons; [auto|]. apply spell_kw; [auto|]. apply spell_cons; [exact S|]. apply spell_kw; auto.
  - rewrite evs_leaf. change 44 with r_serviceName. rewrite (quiet_cons _ _ _ _ _ A eq_refl), evs_leaf, evs_app, E. cbn. rewrite ?app_nil_r. reflexivity.
Qed.

(* ---------- the file ---------- *)
Lemma top_of w f : lexed w -> derives [Alt [[N r_importStatement]; [N r_packageStatement]; [N r_optionStatement]; [N r_topLevelDef]; [N r_emptyStatement]]] w f ->
  exists d, top_is d w /\ evs r_proto f = Some (walk_top d).
Proof.
  intros L D. inv D. repeat (destruct I as [<-|I]; [cbn [app] in D; inv D; inv D; rewrite ?app_nil_r, ?evs_one in *|]); [..|destruct I].
  - rewrite (quiet_node _ _ _ _ A) by reflexivity. unrule A. inv A. kind K. inv A.
    + inv A. inv A. inv A. kind K0. match goal with H : derives (rule 49) ?a ?b |- _ => rename a into vs, b into gs end. exists (StImport false (get_text (Node r_strLit gs))). split.
      * cbn [top_is app]. apply spell_kw; [auto|]. apply spell_none; [now left|]. apply spell_cons; [auto|]. apply spell_kw; auto.
      * unfold enter, exit. cbn [Nat.eqb r_messageDef r_enumDef r_oneof r_serviceDef r_rpc r_enumField r_field r_oneofField r_mapField r_optionStatement r_reserved r_edition r_packageStatement r_importStatement].
        rewrite token_skip, token_node, token_skip by (rewrite ?K, ?K0; discriminate). reflexivity.
    + inv A. inv A. inv A. inv A. kind K1. match goal with H : derives (rule 49) ?a ?b |- _ => rename a into vs, b into gs end. destruct K0 as [K0|[K0|[]]]; symmetry in K0.
      * exists (StImport false (get_text (Node r_strLit gs))). split.
        -- cbn [top_is app]. apply spell_kw; [auto|]. change (x0 :: vs ++ [x1]) with ([x0] ++ vs ++ [x1]). apply spell_cons; [right; auto|]. apply spell_cons; [auto|]. apply spell_kw; auto.
        -- unfold enter, exit. cbn [Nat.eqb r_messageDef r_enumDef r_oneof r_serviceDef r_rpc r_enumField r_field r_oneofField r_mapField r_optionStatement r_reserved r_edition r_packageStatement r_importStatement].
           rewrite !token_skip, token_node, token_skip by (rewrite ?K, ?K0, ?K1; discriminate). reflexivity.
      * exists (StImport true (get_text (Node r_strLit gs))). split.
        -- cbn [top_is app]. apply spell_kw; [auto|]. apply spell_kw; [auto|]. apply spell_cons; [auto|]. apply spell_kw; auto.
        -- unfold enter, exit. cbn [Nat.eqb r_messageDef r_enumDef r_oneof r_serviceDef r_rpc r_enumField r_field r_oneofField r_mapField r_optionStatement r_reserved r_edition r_packageStatement r_importStatement].
           rewrite token_skip, token_yes by (rewrite ?K; auto; discriminate). reflexivity.
  - rewrite (quiet_node _ _ _ _ A) by reflexivity. unrule A. inv A. inv A. inv A. inv A. kind K. kind K0. match goal with H : derives (rule 39) ?a ?b |- _ => rename a into vs, b into gs end. exists (StPackage (get_text (Node r_fullIdent gs))). split.
    + cbn [top_is app]. apply spell_kw; [auto|]. apply spell_cons; [auto|]. apply spell_kw; auto.
    + reflexivity.
  - destruct (option_of_rule r_proto RProto _ _ A eq_refl) as (n & c & S & E). exists (StOption n c). auto.
  - rewrite events_node. unrule A. inv A.
    change (enter r_proto 21 g) with (Some (@nil event)). change (exit r_proto 21 g) with (Some (@nil event)). rewrite cat_nil_l, cat_nil_r.
    repeat (destruct I as [<-|I]; [cbn [app] in A; inv A; inv A; rewrite ?app_nil_r, ?evs_one in *|]); [..|destruct I].
    + destruct (msg_of_rule r_topLevelDef RTopLevel _ _ A0 L eq_refl) as (m & l & a & b & c & d & e & -> & S1 & S2 & S3 & S4 & S5 & E).
      { intros v1 g1 Lv. apply (elem_of (S (List.length v1))). lia. }
      exists (StMsg m l). split; [|exact E]. cbn [top_is].
      apply spell_cons; [auto|]. apply spell_cons; [auto|]. apply spell_cons; [auto|]. apply spell_cons; [exact S4|]. apply spell_last; auto.
    + destruct (enum_of_rule r_topLevelDef RTopLevel _ _ A0 eq_refl) as (e & S & E). exists (StEnum e). auto.
    + destruct (extend_of_rule r_topLevelDef _ _ A0 L) as (l & S & E). exists (StExtend l). auto.
    + destruct (service_of_rule r_topLevelDef _ _ A0) as (n & l & S & E). exists (StService n l). auto.
  - destruct (semi_of r_proto _ _ A) as [S E]. rewrite evs_one in E. exists StOther. auto.
Qed.
Lemma defs_of w f : lexed w ->
  derives [Star [Alt [[N r_importStatement]; [N r_packageStatement]; [N r_optionStatement]; [N r_topLevelDef]; [N r_emptyStatement]]]; T [EOF]] w f ->
  exists l, spell [several top_is l; kw EOF] w /\ evs r_proto f = Some (flat_map walk_top l).
Proof.
  intros L D. inv D. inv D. inv D. kind K. apply lexed_app in L as [L _].
  destruct (several_of top_is walk_top r_proto ps) as (l & S & E).
  { eapply Forall_impl; [|exact (lexed_pieces _ _ P L)]. intros [wp fp] [Dp Lp]. now apply top_of. }
  exists l. split.
  - apply spell_cons; [exact S|]. cbn [app]. apply spell_kw; auto.
  - rewrite evs_app, E. cbn. now rewrite app_nil_r.
Qed.
Lemma edition_of w f : derives (rule r_edition) w f ->
  exists lit, edition_is (Some lit) w /\ evs r_proto [Node r_edition f] = Some [ExitEdition lit].
Proof.
  intros D. rewrite evs_one, (quiet_node _ _ _ _ D) by reflexivity. unrule D. inv D. inv D. inv D. inv D. inv D. kind K0. kind K1.
  exists (get_text (Node r_strLit g)). split; [|reflexivity]. cbn [edition_is].
  apply spell_cons; [destruct K as [K|[K|[]]]; [left|right]; auto|]. cbn [app]. apply spell_kw; [auto|]. apply spell_cons; [auto|]. apply spell_kw; auto.
Qed.
Theorem file_of w x : file_tree w x -> lexed w -> exists f, file_is f w /\ events r_proto x = Some (walk_file f).
Proof.
  unfold file_tree. intros D L. apply i_N in D. destruct D as (w1 & f1 & w2 & f2 & -> & E & A & D). injection E as -> <-.
  apply i_nil in D as [-> _]. rewrite app_nil_r in *.
  rewrite events_node. change (enter r_proto r_proto f1) with (Some (@nil event)). change (exit r_proto r_proto f1) with (Some (@nil event)).
  rewrite cat_nil_l, cat_nil_r. unrule A. inv A.
  - destruct (defs_of _ _ L A) as (l & S & E). exists (mkSFile None l). split; [|exact E].
    unfold file_is. cbn [sfl_edition sfl_defs]. apply spell_none; [reflexivity|]. exact S.
  - inv A. apply lexed_app in L as [_ L]. destruct (edition_of _ _ A0) as (lit & S0 & E0). destruct (defs_of _ _ L A) as (l & S & E).
    exists (mkSFile (Some lit) l). split.
    + unfold file_is. cbn [sfl_edition sfl_defs]. apply spell_cons; [exact S0|]. exact S.
    + change (Node 1 g :: f) with ([Node r_edition g] ++ f). rewrite evs_app, E0, E. reflexivity.
Qed.
