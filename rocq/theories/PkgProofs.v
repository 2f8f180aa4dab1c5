(** Proof that the identifiers of a file in the usual style differ. *)
From Coq Require Import Strings.String Init.Byte Lia ZifyBool ZifyN.
From Verif Require Import Base WireProofs GoStr StrFacts GenField GenNames NameSpec NameProofs GenEnum GenPkg PkgSpec.
Import StringSyntax.
Open Scope N_scope.

Lemma beq_eq : forall a b, beqb a b = true -> a = b.
Proof. intros a b E. destruct (beqb_spec a b); [assumption|discriminate]. Qed.
(** * Parts between underscores *)
Fixpoint parts (s : bytes) : list bytes :=
  match s with
  | [] => [[]]
  | c :: r => if beqb c x5f then [] :: parts r
              else match parts r with [] => [[c]] | h :: t => (c :: h) :: t end
  end.
Lemma parts_ne : forall s, parts s <> [].
Proof. intros [|c r]; cbn; [discriminate|]. destruct (beqb c x5f); [discriminate|]. destruct (parts r); discriminate. Qed.
Lemma parts_app : forall a b, parts (a ++ x5f :: b) = parts a ++ parts b.
Proof.
  induction a as [|c a IH]; intros b; cbn; [reflexivity|]. rewrite IH. destruct (beqb c x5f); [reflexivity|].
  pose proof (parts_ne a). destruct (parts a); [contradiction|reflexivity].
Qed.
Lemma parts_no : forall s, ~ In x5f s -> parts s = [s].
Proof.
  induction s as [|c r IH]; intros H; cbn; [reflexivity|]. replace (beqb c x5f) with false.
  - rewrite IH; [reflexivity|]. intros X. apply H. now right.
  - symmetry. destruct (beqb c x5f) eqn:E; [|reflexivity]. destruct H. left. now apply beq_eq in E.
Qed.
Lemma parts_under : forall k f, ~ In x5f f -> parts (f ++ repeat x5f k) = f :: repeat [] k.
Proof.
  induction k as [|k IH]; intros f H; cbn [repeat]; [rewrite app_nil_r; now apply parts_no|].
  rewrite parts_app, parts_no by exact H. cbn [app]. f_equal. change (repeat x5f k) with ([] ++ repeat x5f k). rewrite IH by easy. reflexivity.
Qed.
Lemma parts_in : forall s q c, In q (parts s) -> In c q -> In c s.
Proof.
  induction s as [|d s IH]; intros q c Hq Hc; cbn in *; [destruct Hq as [<-|[]]; exact Hc|].
  destruct (beqb d x5f); [destruct Hq as [<-|Hq]; [destruct Hc|right; eauto]|].
  destruct (parts s) as [|h t] eqn:E.
  - destruct Hq as [<-|[]]. destruct Hc as [<-|[]]. now left.
  - destruct Hq as [<-|Hq]; [destruct Hc as [<-|Hc]; [now left|right; apply (IH h); [now left|exact Hc]]|right; apply (IH q); [now right|exact Hc]].
Qed.
Lemma parts_blank : forall s k, parts s = repeat [] k -> forall c, In c s -> c = x5f.
Proof.
  induction s as [|d s IH]; intros k E c Hc; [destruct Hc|]. cbn in E. destruct (beqb d x5f) eqn:B.
  - apply beq_eq in B. destruct Hc as [<-|Hc]; [exact B|]. destruct k; [discriminate|]. injection E as E. eauto.
  - pose proof (parts_ne s). destruct (parts s); [contradiction|]. destruct k; discriminate.
Qed.

(** * Names *)
Definition low (s : bytes) : bool := existsb is_lower s.
Lemma tail_no : forall s d, camel_tail d s -> ~ In x5f s.
Proof.
  induction s as [|c s IH]; intros d H X; [destruct X|]. cbn in H. destruct X as [->|X].
  - destruct H as [(H & _)|[(H & _)|(H & _)]]; discriminate.
  - destruct H as [(_ & H)|[(_ & H)|(_ & _ & H)]]; eapply IH; eauto.
Qed.
Lemma type_no : forall s, type_style s -> ~ In x5f s.
Proof. intros s ((c & r & -> & U & T) & _) [->|X]; [discriminate|]. eapply tail_no; eauto. Qed.
Lemma type_low : forall s, type_style s -> low s = true.
Proof. intros s (_ & H). apply existsb_exists. exact H. Qed.
Lemma camel_tail_keeps : forall s d p w r, camel_tail d s -> (d = true \/ w = true) -> next_lower r = false -> 
  exists p' w', camel p w (s ++ r) = s ++ camel p' w' r.
Proof.
  induction s as [|c s IH]; intros d p w r H W NL; [now exists p, w|]. cbn [camel_tail] in H. cbn [app camel].
  destruct H as [(H & T)|[(H & T)|(H & E & T)]].
  - destruct (digit_not c H) as (L & U & D & S). rewrite L, D, S, H, Bool.andb_false_r. cbn [andb].
    destruct (IH true (Some c) false r T (or_introl eq_refl) NL) as (p' & w' & ->). now exists p', w'.
  - pose proof (upper_not_lower c H) as L. pose proof (upper_not_digit c H) as Dg. destruct (upper_not c H) as (D & S). rewrite L, D, S, Dg, Bool.andb_false_r. cbn [andb].
    destruct (IH false (Some c) true r T (or_intror eq_refl) NL) as (p' & w' & ->). now exists p', w'.
  - destruct W as [W|W]; [congruence|]. rewrite W, H. cbn [andb].
    destruct (IH false (Some c) true r T (or_intror eq_refl) NL) as (p' & w' & ->). now exists p', w'.
Qed.
Lemma next_type : forall s r, type_style s -> next_lower (s ++ r) = false.
Proof. intros s r ((c & t & -> & U & _) & _). now apply upper_not_lower. Qed.
Lemma camel_types : forall l p w, Forall type_style l -> camel p w (dotted l) = snake l.
Proof.
  induction l as [|s l IH]; intros p w F; [reflexivity|]. inversion F as [|? ? T F']; subst.
  assert (H : forall r, next_lower r = false -> exists p' w', camel p w (s ++ r) = s ++ camel p' w' r).
  { intros r NL. destruct T as ((c & t & -> & U & T) & _). cbn [app camel].
    pose proof (upper_not_lower c U) as L. pose proof (upper_not_digit c U) as Dg. destruct (upper_not c U) as (D & S). rewrite L, D, S, Dg, Bool.andb_false_r. cbn [andb].
    destruct (camel_tail_keeps t false (Some c) true r T (or_intror eq_refl) NL) as (p' & w' & ->). now exists p', w'. }
  destruct l as [|s2 l].
  - cbn [dotted snake]. destruct (H [] eq_refl) as (p' & w' & E). rewrite app_nil_r in E. rewrite E. cbn. apply app_nil_r.
  - change (dotted (s :: s2 :: l)) with (s ++ x2e :: dotted (s2 :: l)). change (snake (s :: s2 :: l)) with (s ++ x5f :: snake (s2 :: l)).
    destruct (H (x2e :: dotted (s2 :: l)) eq_refl) as (p' & w' & ->). f_equal. cbn [camel].
    assert (NL : next_lower (dotted (s2 :: l)) = false).
    { inversion F'; subst. destruct l; cbn [dotted]; [rewrite <- (app_nil_r s2)|]; now apply next_type. }
    rewrite NL. change (is_lower x2e) with false. change (beqb x2e x2e) with true. rewrite Bool.andb_false_r. cbn [andb]. f_equal. now apply IH.
Qed.
Lemma go_path_snake : forall p, Forall type_style p -> go_path p = snake p.
Proof. intros. now apply camel_types. Qed.
Lemma parts_snake : forall p, p <> [] -> Forall type_style p -> parts (snake p) = p.
Proof.
  induction p as [|s p IH]; intros N F; [contradiction|]. inversion F as [|? ? T F']; subst. destruct p as [|s2 p]; [now apply parts_no, type_no|].
  change (snake (s :: s2 :: p)) with (s ++ x5f :: snake (s2 :: p)). rewrite parts_app, IH by easy. now rewrite parts_no by now apply type_no.
Qed.

(** * Keys *)
Inductive key := KType (p : list bytes) | KConst (q : list bytes) (v : bytes) | KMap (p : list bytes) (names : bool) | KWrap (p : list bytes) (w : bytes).
Definition map_part (n : bool) : bytes := if n then bs "name" else bs "value".
Definition render (k : key) : bytes :=
  match k with
  | KType p => go_path p
  | KConst q v => go_path q ++ bs "_" ++ v
  | KMap p n => go_path p ++ x5f :: map_part n
  | KWrap _ w => w
  end.
Definition good_path (p : list bytes) : Prop := p <> [] /\ Forall type_style p.
Definition good (paths : list (list bytes)) (k : key) : Prop :=
  match k with
  | KType p => good_path p /\ In p paths
  | KConst q v => good_path q /\ value_style v
  | KMap p _ => good_path p
  | KWrap p w => good_path p /\ wrapper_style paths p w
  end.
Definition keep (l : list bytes) : list bytes := filter low l.
Lemma keep_types : forall p, Forall type_style p -> keep p = p.
Proof. induction p as [|s p IH]; intros F; [reflexivity|]. inversion F; subst. unfold keep in *. cbn. rewrite type_low by assumption. now rewrite IH. Qed.
Lemma keep_app : forall a b, keep (a ++ b) = keep a ++ keep b.
Proof. intros. apply filter_app. Qed.
Lemma keep_nil : forall v, (forall c, In c v -> is_lower c = false) -> keep (parts v) = [].
Proof.
  intros v H. assert (A : forall l, (forall q c, In q l -> In c q -> is_lower c = false) -> keep l = []).
  { induction l as [|q l IH]; intros Hl; [reflexivity|]. cbn. destruct (low q) eqn:E; [|apply IH; intros q' c' A B; apply (Hl q' c'); [now right|exact B]].
    apply existsb_exists in E as (c & Hc & L). rewrite (Hl q c) in L; [discriminate|now left|exact Hc]. }
  apply A. intros q c Hq Hc. apply H. eapply parts_in; eauto.
Qed.
Lemma keep_blank : forall k, keep (repeat [] k) = [].
Proof. induction k; [reflexivity|exact IHk]. Qed.

(** the parts of an identifier: [p], then the rest *)
Inductive shape : key -> list bytes -> Prop :=
| sh_type p : shape (KType p) p
| sh_const q v : shape (KConst q v) (q ++ parts v)
| sh_map p n : shape (KMap p n) (p ++ [map_part n])
| sh_wrap p w f k : field_style f -> w = go_path p ++ x5f :: f ++ repeat x5f k -> shape (KWrap p w) (p ++ f :: repeat [] k).
Lemma shape_of : forall paths k, good paths k -> shape k (parts (render k)).
Proof.
  intros paths [p|q v|p n|p w]; cbn [good render].
  - intros ((N & F) & _). rewrite go_path_snake, parts_snake by assumption. constructor.
  - intros ((N & F) & _). cbn [bs app]. rewrite go_path_snake by assumption. change (bs "_" ++ v) with (x5f :: v). rewrite parts_app, parts_snake by assumption. constructor.
  - intros (N & F). rewrite go_path_snake, parts_app, parts_snake by assumption. rewrite (parts_no (map_part n)) by (destruct n; cbn; intuition discriminate). constructor.
  - intros ((N & F) & (f & S & (k & E)) & _). assert (E' : w = go_path p ++ x5f :: f ++ repeat x5f k) by (rewrite E; change (bs "_" ++ f) with (x5f :: f); rewrite <- app_assoc; reflexivity).
    replace (parts w) with (p ++ f :: repeat [] k); [now constructor|]. rewrite E', go_path_snake, parts_app, parts_snake, parts_under by (try assumption; apply S). reflexivity.
Qed.
Definition kept (k : key) (f : bytes) : list bytes :=
  match k with KType p => p | KConst q _ => q | KMap p n => p ++ [map_part n] | KWrap p _ => p ++ [f] end.
Lemma field_low : forall f, field_style f -> low f = true.
Proof. intros f (_ & H & _). apply existsb_exists. exact H. Qed.
Lemma app_one : forall A (a b : list A) x y, a ++ [x] = b ++ [y] -> a = b /\ x = y.
Proof. intros. now apply app_inj_tail. Qed.
Lemma in_last : forall A (a : list A) x, In x (a ++ [x]).
Proof. intros. apply in_or_app. right. now left. Qed.
Lemma map_part_not_type : forall n, ~ type_style (map_part n).
Proof. intros [] ((c & r & E & U & _) & _); injection E as <- _; discriminate. Qed.
Lemma map_part_not_field : forall n f, field_style f -> f <> map_part n.
Proof. intros [] f ((c & r & -> & U) & _) E; injection E as -> _; discriminate. Qed.
Lemma blank_not : forall v k, value_style v -> parts v <> repeat [] k.
Proof. intros v k ((c & Hc & U) & _) E. rewrite (parts_blank _ _ E c Hc) in U. discriminate. Qed.
Lemma map_not_good : forall p n q, Forall type_style q -> q <> p ++ [map_part n].
Proof. intros p n q F E. rewrite E in F. apply Forall_app in F as (_ & F). inversion F; subst. eapply map_part_not_type; eauto. Qed.

Lemma keeps_type : forall p, Forall type_style p -> keep p = p.
Proof. exact keep_types. Qed.
Lemma keeps_const : forall q v, Forall type_style q -> value_style v -> keep (q ++ parts v) = q.
Proof. intros q v F (_ & V). rewrite keep_app, keep_nil, app_nil_r by exact V. now apply keep_types. Qed.
Lemma keeps_map : forall p n, Forall type_style p -> keep (p ++ [map_part n]) = p ++ [map_part n].
Proof. intros p n F. rewrite keep_app, keep_types by exact F. f_equal. now destruct n. Qed.
Lemma keeps_wrap : forall p f k, Forall type_style p -> field_style f -> keep (p ++ f :: repeat [] k) = p ++ [f].
Proof. intros p f k F S. rewrite keep_app, keep_types by exact F. cbn. rewrite field_low by exact S. now rewrite keep_blank. Qed.

Ltac destruct_shape H := match type of H with shape ?k ?l => generalize dependent l; let l0 := fresh "l0" in intros l0 H; inversion H; reflexivity end.
Lemma p_type : forall paths p, good paths (KType p) -> parts (render (KType p)) = p.
Proof. intros paths p G. pose proof (shape_of _ _ G) as Sh. destruct_shape Sh. Qed.
Lemma p_const : forall paths q v, good paths (KConst q v) -> parts (render (KConst q v)) = q ++ parts v.
Proof. intros paths q v G. pose proof (shape_of _ _ G) as Sh. destruct_shape Sh. Qed.
Lemma p_map : forall paths p n, good paths (KMap p n) -> parts (render (KMap p n)) = p ++ [map_part n].
Proof. intros paths p n G. pose proof (shape_of _ _ G) as Sh. destruct_shape Sh. Qed.
Lemma p_wrap : forall paths p w, good paths (KWrap p w) -> exists f k, field_style f /\ parts (render (KWrap p w)) = p ++ f :: repeat [] k.
Proof. intros paths p w G. pose proof (shape_of _ _ G) as Sh. inversion Sh as [| | |p0 w0 f k S Ew]. exists f, k. auto. Qed.

Lemma render_inj : forall paths a b, good paths a -> good paths b -> render a = render b -> a = b.
Proof.
  intros paths.
  assert (W : forall p w p', good paths (KWrap p w) -> good paths (KType p') -> render (KWrap p w) <> render (KType p')).
  { intros p w p' G G' E. destruct (p_wrap _ _ _ G) as (f & k & S & P). pose proof (p_type _ _ G') as P'. rewrite E, P' in P.
    destruct G as ((N & F) & _ & X). destruct G' as ((N' & F') & In').
    assert (Q : keep p' = p ++ [f]) by (rewrite P at 1; now apply keeps_wrap). rewrite keep_types in Q by exact F'. rewrite Q in In'.
    apply (X f In'). cbn [render] in E. now rewrite <- Q. }
  assert (CT : forall q v p, good paths (KConst q v) -> good paths (KType p) -> render (KConst q v) <> render (KType p)).
  { intros q v p G G' E. pose proof (p_const _ _ _ G) as P. pose proof (p_type _ _ G') as P'. rewrite E, P' in P.
    destruct G as ((N & F) & V). destruct G' as ((N' & F') & _).
    assert (Q : keep p = q) by (rewrite P; now apply keeps_const). rewrite keep_types in Q by exact F'.
    apply (parts_ne v). apply (app_inv_head p). rewrite app_nil_r. congruence. }
  assert (MT : forall p n p', good paths (KMap p n) -> good paths (KType p') -> render (KMap p n) <> render (KType p')).
  { intros p n p' G G' E. pose proof (p_map _ _ _ G) as P. pose proof (p_type _ _ G') as P'. rewrite E, P' in P.
    destruct G' as ((N' & F') & _). exact (map_not_good p n p' F' P). }
  assert (CM : forall q v p n, good paths (KConst q v) -> good paths (KMap p n) -> render (KConst q v) <> render (KMap p n)).
  { intros q v p n G G' E. pose proof (p_const _ _ _ G) as P. pose proof (p_map _ _ _ G') as P'. rewrite E, P' in P.
    destruct G as ((N & F) & V). destruct G' as (N' & F'). apply (map_not_good p n q F). rewrite <- (keeps_map p n F'), P. symmetry. now apply keeps_const. }
  assert (CW : forall q v p w, good paths (KConst q v) -> good paths (KWrap p w) -> render (KConst q v) <> render (KWrap p w)).
  { intros q v p w G G' E. pose proof (p_const _ _ _ G) as P. destruct (p_wrap _ _ _ G') as (f & k & S & P'). rewrite E, P' in P.
    destruct G as ((N & F) & V). destruct G' as ((N' & F') & _).
    assert (Q : p ++ [f] = q) by (rewrite <- (keeps_wrap p f k F' S), P; now apply keeps_const). rewrite <- Q in P.
    rewrite <- app_assoc in P. apply app_inv_head in P. injection P as P. apply (blank_not v k V). now symmetry. }
  assert (MW : forall q n p w, good paths (KMap q n) -> good paths (KWrap p w) -> render (KMap q n) <> render (KWrap p w)).
  { intros q n p w G G' E. pose proof (p_map _ _ _ G) as P. destruct (p_wrap _ _ _ G') as (f & k & S & P'). rewrite E, P' in P.
    destruct G as (N & F). destruct G' as ((N' & F') & _).
    assert (Q : p ++ [f] = q ++ [map_part n]) by (rewrite <- (keeps_wrap p f k F' S), P; now apply keeps_map). apply app_one in Q as (_ & Q).
    exact (map_part_not_field _ _ S Q). }
  intros a b Ga Gb E. destruct a as [p|q v|p n|p w], b as [p'|q' v'|p' n'|p' w'].
  - f_equal. rewrite <- (p_type _ _ Ga), <- (p_type _ _ Gb). now rewrite E.
  - destruct (CT _ _ _ Gb Ga). now symmetry.
  - destruct (MT _ _ _ Gb Ga). now symmetry.
  - destruct (W _ _ _ Gb Ga). now symmetry.
  - destruct (CT _ _ _ Ga Gb). exact E.
  - pose proof (p_const _ _ _ Ga) as P. pose proof (p_const _ _ _ Gb) as P'. rewrite E, P' in P. destruct Ga as ((N & F) & V), Gb as ((N' & F') & V').
    assert (Q : q' = q) by (rewrite <- (keeps_const q' v' F' V'), P; now apply keeps_const). subst q'. f_equal.
    cbn [render] in E. now do 2 apply app_inv_head in E.
  - destruct (CM _ _ _ _ Ga Gb). exact E.
  - destruct (CW _ _ _ _ Ga Gb). exact E.
  - destruct (MT _ _ _ Ga Gb). exact E.
  - destruct (CM _ _ _ _ Gb Ga). now symmetry.
  - pose proof (p_map _ _ _ Ga) as P. pose proof (p_map _ _ _ Gb) as P'. rewrite E, P' in P. apply app_one in P as (-> & P). f_equal. now destruct n, n'.
  - destruct (MW _ _ _ _ Ga Gb). exact E.
  - destruct (W _ _ _ Ga Gb). exact E.
  - destruct (CW _ _ _ _ Gb Ga). now symmetry.
  - destruct (MW _ _ _ _ Gb Ga). now symmetry.
  - destruct (p_wrap _ _ _ Ga) as (f & k & S & P). destruct (p_wrap _ _ _ Gb) as (f' & k' & S' & P'). rewrite E, P' in P. destruct Ga as ((N & F) & _), Gb as ((N' & F') & _).
    assert (Q : p' ++ [f'] = p ++ [f]) by (rewrite <- (keeps_wrap p' f' k' F' S'), P; now apply keeps_wrap). apply app_one in Q as (-> & _). cbn [render] in E. now rewrite E.
Qed.

(** * The keys of a file *)
Definition const_path (e : genum) : list bytes := match en_path e with [n] => [n] | p => removelast p end.
Definition keys (d : fdecl) : list key :=
  match d with
  | FMsg p ws => KType p :: map (KWrap p) ws
  | FEnum e => KType (en_path e) :: map (fun v => KConst (const_path e) (ev_name v)) (en_values e) ++
      (if genMapping e then [KMap (en_path e) true; KMap (en_path e) false] else [])
  end.
Lemma idents_keys : forall paths d, decl_style paths d -> idents d = map render (keys d).
Proof.
  intros paths [p ws|e] (N & F & H); cbn [idents keys map path_of] in *.
  - f_equal. rewrite map_map. cbn. now rewrite map_id.
  - destruct H as (HV & HM). unfold EnumGen. cbn [flat_map edecl_names app]. rewrite flat_map_app, map_app, map_map. cbn [render]. change (go_path (en_path e)) with (enum_GoName e). f_equal. f_equal.
    + rewrite flat_map_concat_map, map_map. cbn [edecl_names].
      induction HV as [|v vs (V & NP) HV IH]; [reflexivity|]. cbn. f_equal; [|exact IH]. unfold value_GoName. rewrite NP, HM. unfold const_path, enum_GoName, go_path.
      destruct (en_path e) as [|a [|b l]]; [contradiction|reflexivity|reflexivity].
    + destruct (genMapping e); [|reflexivity]. reflexivity.
Qed.
Lemma removelast_good : forall p, length p <> 1%nat -> good_path p -> good_path (removelast p).
Proof.
  intros p L (N & F). split.
  - destruct p as [|a [|b p]]; [contradiction|cbn in L; lia|discriminate].
  - pose proof (app_removelast_last [] N) as E. rewrite E in F. now apply Forall_app in F as (F & _).
Qed.
Lemma const_good : forall e, good_path (en_path e) -> good_path (const_path e).
Proof.
  intros e G. unfold const_path. destruct (en_path e) as [|a [|b p]] eqn:E; [destruct G as (N & _); contradiction|exact G|].
  apply removelast_good; [cbn; lia|exact G].
Qed.
Lemma keys_good : forall paths d, decl_style paths d -> In (path_of d) paths -> Forall (good paths) (keys d).
Proof.
  intros paths [p ws|e] (N & F & H) IP; cbn [keys path_of] in *.
  - constructor; [split; [split; assumption|exact IP]|]. destruct H as (_ & H). apply Forall_map. eapply Forall_impl; [|exact H]. intros w Hw. split; [split; assumption|exact Hw].
  - destruct H as (HV & _). constructor; [split; [split; assumption|exact IP]|]. apply Forall_app. split.
    + apply Forall_map. eapply Forall_impl; [|exact HV]. intros v (V & _). split; [apply const_good; split; assumption|exact V].
    + destruct (genMapping e); repeat constructor; assumption.
Qed.
Lemma NoDup_map_inj : forall A B (f : A -> B) (P : A -> Prop) l, Forall P l -> (forall a b, P a -> P b -> f a = f b -> a = b) -> NoDup l -> NoDup (map f l).
Proof.
  intros A B f P l F Inj ND. induction ND as [|a l NI ND IH]; cbn; [constructor|]. inversion F as [|? ? Pa F']; subst. constructor; [|auto].
  intros H. apply in_map_iff in H as (b & E & Hb). apply NI. rewrite (Inj a b); auto. rewrite Forall_forall in F'. auto.
Qed.

(** Full names that keys come from *)
Definition top (d : fdecl) (k : key) : Prop :=
  match k, d with
  | KConst q v, FEnum e => length (en_path e) = 1%nat /\ q = en_path e
  | _, _ => False
  end.
Lemma keys_own : forall d k, In k (keys d) ->
  match k with
  | KType p | KMap p _ => p = path_of d
  | KWrap p w => p = path_of d /\ exists ws, d = FMsg p ws
  | KConst q v => exists e, d = FEnum e /\ q = const_path e /\ In v (map ev_name (en_values e))
  end.
Proof.
  intros [p ws|e] k H; cbn [keys] in H.
  - destruct H as [<-|H]; [reflexivity|]. apply in_map_iff in H as (w & <- & _). split; [reflexivity|]. now exists ws.
  - destruct H as [<-|H]; [reflexivity|]. apply in_app_or in H as [H|H].
    + apply in_map_iff in H as (v & <- & Hv). exists e. split; [reflexivity|]. split; [reflexivity|now apply in_map].
    + destruct (genMapping e); [|destruct H]. destruct H as [<-|[<-|[]]]; reflexivity.
Qed.
Lemma path_full : forall d, In (path_of d) (full_names d).
Proof. intros [p ws|e]; now left. Qed.
Lemma value_full : forall e v, In v (map ev_name (en_values e)) -> In (removelast (en_path e) ++ [v]) (full_names (FEnum e)).
Proof. intros e v H. right. apply in_map_iff in H as (x & <- & Hx). apply in_map_iff. now exists x. Qed.
Lemma keys_NoDup : forall paths d, decl_style paths d -> NoDup (full_names d) -> NoDup (keys d).
Proof.
  intros paths [p ws|e] (N & F & H) ND; cbn [keys full_names] in *.
  - destruct H as (NW & _). constructor; [intros X; apply in_map_iff in X as (w & E & _); discriminate|]. apply (NoDup_map_inj _ _ _ (fun _ => True)); [now apply Forall_forall|congruence|exact NW].
  - constructor.
    + intros X. apply in_app_or in X as [X|X]; [apply in_map_iff in X as (w & E & _); discriminate|]. destruct (genMapping e); [|destruct X]. destruct X as [X|[X|[]]]; discriminate.
    + inversion ND as [|? ? _ ND']; subst.
      assert (NV : NoDup (map ev_name (en_values e))).
      { clear - ND'. induction (en_values e) as [|v l IH]; cbn in *; [constructor|]. inversion ND' as [|? ? NI ND]; subst. constructor; [|auto].
        intros X. apply NI. apply in_map_iff in X as (x & E & Hx). apply in_map_iff. exists x. now rewrite E. }
      assert (NC : NoDup (map (fun v => KConst (const_path e) (ev_name v)) (en_values e))).
      { rewrite <- (map_map ev_name (KConst (const_path e))). apply (NoDup_map_inj _ _ _ (fun _ => True)); [now apply Forall_forall|congruence|exact NV]. }
      clear -NC. induction (en_values e) as [|v l IH]; cbn [map app] in *.
      * destruct (genMapping e); repeat constructor; cbn; intuition discriminate.
      * inversion NC as [|? ? NI ND]; subst. constructor; [|auto]. intros X. apply in_app_or in X as [X|X]; [contradiction|].
        destruct (genMapping e); [|destruct X]. destruct X as [X|[X|[]]]; discriminate.
Qed.

Definition parents_declared (ds : list fdecl) : Prop :=
  forall d, In d ds -> length (path_of d) = 1%nat \/ exists ws, In (FMsg (removelast (path_of d)) ws) ds.

Lemma NoDup_flat_map_in : forall A B (f : A -> list B) l, (forall a, In a l -> NoDup (f a)) -> 
  (forall l1 a l2 b l3 x, l = l1 ++ a :: l2 ++ b :: l3 -> In x (f a) -> In x (f b) -> False) -> NoDup (flat_map f l).
Proof.
  intros A B f. induction l as [|a l IH]; intros H D; cbn; [constructor|].
  assert (X : forall x, In x (f a) -> ~ In x (flat_map f l)).
  { intros x Hx Hy. apply in_flat_map in Hy as (b & Hb & Hxb). apply in_split in Hb as (l2 & l3 & ->). exact (D [] a l2 b l3 x eq_refl Hx Hxb). }
  assert (Y : NoDup (flat_map f l)).
  { apply IH; [intros; apply H; now right|]. intros l1 a' l2 b l3 x E. apply (D (a :: l1) a' l2 b l3 x). now rewrite E. }
  specialize (H a (or_introl eq_refl)). clear IH D. induction (f a) as [|x r IHr]; cbn; [exact Y|]. inversion H as [|? ? NI ND]; subst. constructor.
  - intros Z. apply in_app_or in Z as [Z|Z]; [contradiction|]. apply (X x); [now left|exact Z].
  - apply IHr; [exact ND|intros y Hy; apply X; now right].
Qed.
Lemma NoDup_flat_split : forall A B (f : A -> list B) l1 a l2 b l3 x, NoDup (flat_map f (l1 ++ a :: l2 ++ b :: l3)) -> In x (f a) -> In x (f b) -> False.
Proof.
  intros A B f l1 a l2 b l3 x ND Ha Hb. rewrite flat_map_app in ND. cbn [flat_map] in ND. rewrite flat_map_app in ND. cbn [flat_map] in ND.
  assert (G : forall (u v : list B), NoDup (u ++ v) -> In x u -> In x v -> False).
  { induction u as [|y u IH]; intros v N Hu Hv; [destruct Hu|]. cbn in N. inversion N as [|? ? NI N']; subst. destruct Hu as [->|Hu]; [apply NI, in_or_app; now right|eauto]. }
  assert (ND2 : NoDup (f a ++ flat_map f l2 ++ f b ++ flat_map f l3)).
  { clear -ND. induction (flat_map f l1) as [|y u IH]; [exact ND|]. cbn in ND. inversion ND; subst. auto. }
  apply (G _ _ ND2 Ha). apply in_or_app. right. apply in_or_app. now left.
Qed.

Lemma file_idents : forall ds, (forall d, In d ds -> decl_style (map path_of ds) d) -> parents_declared ds -> NoDup (flat_map full_names ds) ->
  NoDup (flat_map idents ds).
Proof.
  intros ds St Pa ND.
  assert (E : flat_map idents ds = map render (flat_map keys ds)).
  { assert (G : forall l, (forall d, In d l -> decl_style (map path_of ds) d) -> flat_map idents l = map render (flat_map keys l)).
    { induction l as [|d l IH]; intros H; [reflexivity|]. cbn. rewrite map_app, <- IH by (intros; apply H; now right). f_equal. eapply idents_keys. apply H. now left. }
    now apply G. }
  rewrite E. apply (NoDup_map_inj _ _ _ (good (map path_of ds))); [|apply render_inj|].
  - apply Forall_forall. intros k Hk. apply in_flat_map in Hk as (d & Hd & Hk). pose proof (keys_good _ d (St d Hd) (in_map _ _ _ Hd)) as G. rewrite Forall_forall in G. auto.
  - apply NoDup_flat_map_in.
    + intros d Hd. eapply keys_NoDup; [now apply St|]. apply in_split in Hd as (l1 & l2 & ->). rewrite flat_map_app in ND. cbn in ND.
      clear -ND. induction (flat_map full_names l1); [|inversion ND; subst; auto]. cbn in ND. revert ND. generalize (flat_map full_names l2). intros v ND.
      induction (full_names d) as [|y u IH]; [constructor|]. cbn in ND. inversion ND as [|? ? NI N']; subst. constructor; [|auto]. intros X. apply NI, in_or_app. now left.
    + intros l1 a l2 b l3 k El Ka Kb. subst ds.
      assert (Ia : In a (l1 ++ a :: l2 ++ b :: l3)) by (apply in_or_app; right; now left).
      assert (Ib : In b (l1 ++ a :: l2 ++ b :: l3)) by (apply in_or_app; right; right; apply in_or_app; right; now left).
      assert (CL : forall x, In x (full_names a) -> In x (full_names b) -> False) by (intros x; apply (NoDup_flat_split _ _ full_names l1 a l2 b l3 x ND)).
      assert (PP : path_of a <> path_of b) by (intros Q; apply (CL (path_of a)); [apply path_full|rewrite Q; apply path_full]).
      assert (MM : forall e ws, In (FEnum e) (l1 ++ a :: l2 ++ b :: l3) -> In (FMsg (en_path e) ws) (l1 ++ a :: l2 ++ b :: l3) -> False).
      { intros e ws He Hm. apply in_split in He as (u & v & Es). rewrite Es in *. apply in_app_or in Hm as [Hm|[Hm|Hm]]; [|discriminate|].
        - apply in_split in Hm as (u1 & u2 & ->). rewrite <- app_assoc in ND. cbn [app] in ND. eapply (NoDup_flat_split _ _ full_names); [exact ND|now left|now left].
        - apply in_split in Hm as (u1 & u2 & ->). eapply (NoDup_flat_split _ _ full_names); [exact ND|now left|now left]. }
      pose proof (keys_own a k Ka) as Oa. pose proof (keys_own b k Kb) as Ob. destruct k as [p|q v|p n|p w].
      * congruence.
      * destruct Oa as (e & -> & Qa & Va), Ob as (e' & -> & Qb & Vb).
        destruct (Pa _ Ia) as [La|(wa & Ma)], (Pa _ Ib) as [Lb|(wb & Mb)]; cbn [path_of] in *.
        -- apply PP. unfold const_path in *. destruct (en_path e) as [|x [|y t]]; try discriminate. destruct (en_path e') as [|x' [|y' t']]; try discriminate. congruence.
        -- destruct (length (en_path e')) as [|[|m]] eqn:Lb; [| |].
           ++ destruct (en_path e') eqn:Ee; [|discriminate]. destruct (St _ Ib) as (X & _). cbn [path_of] in X. now rewrite Ee in X.
           ++ apply PP. unfold const_path in *. destruct (en_path e) as [|x [|y t]]; try discriminate. destruct (en_path e') as [|x' [|y' t']]; try discriminate. congruence.
           ++ apply (MM e wb Ia). replace (en_path e) with (removelast (en_path e')); [exact Mb|]. unfold const_path in *.
              destruct (en_path e) as [|x [|y t]]; try discriminate. destruct (en_path e') as [|x' [|y' t']]; try discriminate. congruence.
        -- destruct (length (en_path e)) as [|[|m]] eqn:La; [| |].
           ++ destruct (en_path e) eqn:Ee; [|discriminate]. destruct (St _ Ia) as (X & _). cbn [path_of] in X. now rewrite Ee in X.
           ++ apply PP. unfold const_path in *. destruct (en_path e) as [|x [|y t]]; try discriminate. destruct (en_path e') as [|x' [|y' t']]; try discriminate. congruence.
           ++ apply (MM e' wa Ib). replace (en_path e') with (removelast (en_path e)); [exact Ma|]. unfold const_path in *.
              destruct (en_path e') as [|x [|y t]]; try discriminate. destruct (en_path e) as [|x' [|y' t']]; try discriminate. congruence.
        -- destruct (en_path e) as [|x [|y t]] eqn:Ee; [destruct (St _ Ia) as (X & _); cbn [path_of] in X; now rewrite Ee in X| |].
           { cbn in Ma. destruct (St _ Ma) as (X & _). now cbn in X. }
           destruct (en_path e') as [|x' [|y' t']] eqn:Ee'; [destruct (St _ Ib) as (X & _); cbn [path_of] in X; now rewrite Ee' in X| |].
           { cbn in Mb. destruct (St _ Mb) as (X & _). now cbn in X. }
           assert (R : removelast (en_path e) = removelast (en_path e')) by (unfold const_path in Qa, Qb; rewrite Ee in Qa; rewrite Ee' in Qb; rewrite Ee, Ee'; congruence).
           apply (CL (removelast (en_path e) ++ [v])); [now apply value_full|rewrite R; now apply value_full].
      * congruence.
      * destruct Oa as (Oa & _), Ob as (Ob & _). congruence.
Qed.
