(** Property theorems about where the members of oneofs of a Go struct are found. *)
From Coq Require Import List Arith Bool NArith ZArith Lia Strings.String.
From Verif Require Import Base Value Desc GoStr StrFacts Parse ParseProofs WrapSearch WrapSpec WrapProofs.
Import ListNotations StringSyntax.
Open Scope nat_scope.

(** ** The search *)
(** A struct with a method ProtoReflect: the wrappers are those in the field OneofWrappers of the first struct, in
    the order of the fields, that has them among the first five levels of the value that ProtoReflect
    returns; nil if there is none.  XXX_OneofWrappers is not looked at. *)
Theorem C87_reflect : forall n h v x, slices h v 5 ->
  match searchOneofWrappers n (mkMs (Some (h, v)) x) with
  | RMore => True
  | RBad => False
  | RGot (Some l) => first_at h v 5 l
  | RGot None => forall p l, length p < 5 -> ~ holds h v p (Some l)
  end.
Proof. intros n h v x Sl. exact (search_ok h n 5 v Sl). Qed.
Print Assumptions C87_reflect.
(** The first one is one. *)
Theorem C87_unique : forall h v d l k, first_at h v d l -> first_at h v d k -> l = k.
Proof.
  assert (As : forall p q, before p q -> before q p -> False).
  { intros p q B. induction B as [i j p q L|i p q B IH]; intros C; inversion C; subst; try lia; auto. }
  assert (Ir : forall p, ~ before p p) by (intros p B; exact (As p p B B)).
  assert (At : forall h v p w, at_place h v p w -> forall u, at_place h v p u -> u = w).
  { intros h v p w A. induction A as [v|v fs i s f p w L N E A IH]; intros u U; inversion U as [|v' fs' i' s' f' p' u' L' N' E' U']; subst; [reflexivity|].
    pose proof (leads_one _ _ _ L _ L') as Q. injection Q as ->. rewrite E in E'. injection E' as <- <-. now apply IH. }
  intros h v d l k (p & Bp & (w & fs & A1 & L1 & _ & a & b & E1 & N1) & Fp) (q & Bq & Hq & Fq). pose proof Hq as (u & gs & A2 & L2 & _ & a' & b' & E2 & N2).
  assert (p = q).
  { destruct (Fp q k Bq Hq) as [->|B]; [reflexivity|]. destruct (Fq p l Bp) as [->|B'].
    - exists w, fs. split; [exact A1|]. split; [exact L1|]. split; [|eauto]. unfold has_wrappers. rewrite E1, map_app. apply in_or_app. right. now left.
    - reflexivity.
    - destruct (As _ _ B B'). }
  subst q. rewrite (At _ _ _ _ A1 _ A2) in L2. pose proof (leads_one _ _ _ L1 _ L2) as Q. injection Q as ->.
  assert (X : field_by_name fieldOneofWrappers fs = Some (WWraps (Some l))) by (apply field_some; eauto).
  assert (Y : field_by_name fieldOneofWrappers fs = Some (WWraps (Some k))) by (apply field_some; eauto). congruence.
Qed.
Print Assumptions C87_unique.
(** It ends, if every chain of pointers in these levels does. *)
Theorem C87_total : forall h v x, ends h v 5 -> exists N r, r <> RMore /\ forall n, N <= n -> searchOneofWrappers n (mkMs (Some (h, v)) x) = r.
Proof. intros h v x En. exact (search_ends h 5 v En). Qed.
Print Assumptions C87_total.
(** Without ProtoReflect: what XXX_OneofWrappers returns. *)
Theorem C87_method : forall n l, searchOneofWrappers n (mkMs None (Some l)) = RGot l /\ searchOneofWrappers n (mkMs None None) = RGot None.
Proof. intros n l. split; reflexivity. Qed.
Print Assumptions C87_method.

(** ** The members of the oneofs *)
(** A field of the struct that is a oneof with wrapper [w] among its members *)
Definition in_oneof (s : gostruct) (j w : nat) : Prop :=
  exists g alts, nth_error (gs_fields s) j = Some g /\ gf_tag g = [] /\ gf_oneof g <> [] /\ gf_type g = TIface alts /\ In w (map fst alts).
Definition oneofs_are_interfaces (s : gostruct) : Prop :=
  forall g, In g (gs_fields s) -> gf_tag g = [] -> gf_oneof g <> [] -> exists alts, gf_type g = TIface alts.
Lemma has_alt_in w alts : In w (map fst alts) <-> has_alt w alts = true.
Proof.
  induction alts as [|[x t] r IH]; cbn; [split; [tauto|discriminate]|]. rewrite orb_true_iff, Nat.eqb_eq, IH. reflexivity.
Qed.
Lemma oneof_found w : forall os, (forall s t, In (s, t) os -> exists alts, t = TIface alts) ->
  (exists s alts, In (s, TIface alts) os /\ has_alt w alts = true) -> exists j, find_oneof w os = POk (Some j).
Proof.
  induction os as [|[s t] os IH]; intros Al (s' & alts & J & A); [destruct J|]. destruct (Al s t (or_introl eq_refl)) as (al & ->). cbn [find_oneof].
  destruct (has_alt w al) eqn:Ha; [eauto|]. destruct J as [Q|J]; [injection Q as -> ->; congruence|]. apply IH; [intros; eapply Al; right; eauto|eauto].
Qed.
(** A struct type that is accepted has a field for each wrapper that is found and is a member of one of its oneofs,
    and none for any other wrapper.
    _partial: the wrappers of XXX_OneofWrappers are not found if there is a method ProtoReflect (C87_refuted). *)
Theorem C87_members_partial : forall n s sd, oneofs_are_interfaces s -> describe_struct n s = Some (POk sd) ->
  (forall l j w, searchOneofWrappers n (gs_methods s) = RGot (Some l) -> In w l -> in_oneof s j w ->
     exists y j', In y (sd_fields sd) /\ f_oneof y = Some w /\ f_slot y = j' /\ in_oneof s j' w) /\
  (forall y w, In y (sd_fields sd) -> f_oneof y = Some w -> exists l, searchOneofWrappers n (gs_methods s) = RGot (Some l) /\ In w l).
Proof.
  intros n s sd Oi D. unfold describe_struct in D. split.
  - intros l j w Fo J (g & alts & N & T & O & E & A).
    assert (Ho : has_oneof s = true).
    { apply existsb_exists. exists g. split; [eapply nth_error_In, N|]. rewrite T. destruct (str_eqb_spec (gf_oneof g) []) as [Q|_]; [now destruct O|reflexivity]. }
    rewrite Ho, Fo in D. injection D as D. destruct (describe_members _ _ D) as [_ M].
    destruct (parse_fields 0 (gs_fields s)) as [[fs os]|] eqn:Pf; [|unfold describe, parse_struct in D; cbn [decl_with d_fields] in D; rewrite Pf in D; discriminate D].
    destruct (parse_fields_spec _ _ _ _ Pf) as [_ B].
    destruct (oneof_found w os) as (j' & Fj).
    + intros s' t J'. apply B in J' as (i & g' & N' & T' & O' & _ & ->). exact (Oi g' (nth_error_In _ _ N') T' O').
    + exists j, alts. split; [|now apply has_alt_in]. apply B. exists j, g. repeat (split; [assumption || reflexivity|]). symmetry. exact E.
    + destruct (M fs os w (gs_wrapper s w) j' Pf) as (y & Jy & Oy & Sy); [cbn [decl_with d_wrappers]; now apply (in_map (fun w => (w, gs_wrapper s w)))|exact Fj|].
      exists y, j'. repeat (split; [assumption|]). destruct (find_oneof_spec _ _ _ Fj) as (al & Jo & Ha). apply B in Jo as (i & g' & N' & T' & O' & Ei & Et). cbn in Ei. subst i.
      exists g', al. repeat (split; [assumption || now symmetry|]). now apply has_alt_in.
  - intros y w J O. destruct (has_oneof s).
    + destruct (searchOneofWrappers n (gs_methods s)) as [| |r] eqn:Fo; try discriminate D. injection D as D. destruct (describe_members _ _ D) as [M _].
      specialize (M y w J O). cbn [decl_with d_wrappers] in M. rewrite map_map in M. cbn [fst] in M. rewrite map_id in M. destruct r as [l|]; [eauto|destruct M].
    + injection D as D. destruct (describe_members _ _ D) as [M _]. destruct (M y w J O).
Qed.
Print Assumptions C87_members_partial.

(** ** Example: the message info of protobuf-go, behind an interface and a pointer *)
Definition wr_heap (a : nat) : gval :=
  match a with
  | 0 => WStruct [(bs "p", WStruct [(bs "p", WOther)]); (bs "mi", WRef (Some 1))]
  | 1 => WStruct [(bs "GoReflectType", WRef None); (bs "OneofWrappers", WWraps (Some [7]))]
  | 2 => WRef (Some 0)
  | _ => WOther
  end.
Definition wr_struct (m : methods) : gostruct :=
  mkGs [mkGF (TIface [(7, TScalar Int32)]) [] [] [] (bs "o")] m (fun _ => [mkGF (TScalar Int32) (bs "varint,1,opt,name=x") [] [] []]) false 16 (VStruct [VIface None] None).
Lemma wr_places p w : at_place wr_heap (WRef (Some 2)) p w ->
  (p = [] /\ w = WRef (Some 2)) \/ (p = [0] /\ w = WStruct [(bs "p", WOther)]) \/ (p = [0; 0] /\ w = WOther) \/ (p = [1] /\ w = WRef (Some 1)).
Proof.
  intros A. inversion A as [|v fs i s f q u L N E B]; subst; [auto|].
  assert (L0 : leads wr_heap (WRef (Some 2)) (WStruct [(bs "p", WStruct [(bs "p", WOther)]); (bs "mi", WRef (Some 1))])) by (do 2 constructor; constructor).
  pose proof (leads_one _ _ _ L0 _ L) as Q. injection Q as ->. destruct i as [|[|i]]; [| |destruct i; discriminate E]; injection E as <- <-.
  - inversion B as [|v fs i s f q' u L' N' E B']; subst; [auto|]. inversion L'; subst. destruct i as [|i]; [|destruct i; discriminate E]. injection E as <- <-.
    inversion B' as [|v fs i s f q'' u L'' N'' E B'']; subst; [auto 6|]. inversion L''.
  - inversion B as [|v fs i s f q' u L' N' E B']; subst; [auto 8|]. inversion L' as [|a x L''| | |]; subst. inversion L''; subst. destruct N'. right. now left.
Qed.
Example C87_ex : slices wr_heap (WRef (Some 2)) 5 /\ ends wr_heap (WRef (Some 2)) 5 /\
  searchOneofWrappers 5 (mkMs (Some (wr_heap, WRef (Some 2))) None) = RGot (Some [7]) /\
  oneofs_are_interfaces (wr_struct (mkMs (Some (wr_heap, WRef (Some 2))) None)) /\ in_oneof (wr_struct (mkMs (Some (wr_heap, WRef (Some 2))) None)) 0 7 /\
  exists sd, describe_struct 5 (wr_struct (mkMs (Some (wr_heap, WRef (Some 2))) None)) = Some (POk sd) /\ map f_oneof (sd_fields sd) = [Some 7].
Proof.
  split.
  { intros p w fs B A L H. destruct (wr_places _ _ A) as [[-> ->]|[[-> ->]|[[-> ->]|[-> ->]]]].
    - exfalso. inversion L as [|a x L'| | |]; subst. inversion L' as [|a x L''| | |]; subst. inversion L''; subst. destruct H as [H|[H|[]]]; discriminate H.
    - exfalso. inversion L; subst. destruct H as [H|[]]; discriminate H.
    - inversion L.
    - exists (Some [7]). exists (WRef (Some 1)), fs. split; [exact A|]. split; [exact L|]. split; [exact H|]. inversion L as [|a x L'| | |]; subst. inversion L'; subst.
      exists [(bs "GoReflectType", WRef None)], []. split; [reflexivity|]. intros [Q|[]]. discriminate Q. }
  split.
  { intros p w B A. destruct (wr_places _ _ A) as [[-> ->]|[[-> ->]|[[-> ->]|[-> ->]]]]; eexists; repeat constructor. }
  split; [vm_compute; reflexivity|]. split.
  { intros g [<-|[]] _ _. eexists. reflexivity. }
  split; [eexists _, _; split; [reflexivity|]; repeat (split; [reflexivity || discriminate|]); now left|].
  eexists. split; vm_compute; reflexivity.
Qed.

(** ** What is not found *)
(** A struct type whose method XXX_OneofWrappers lists the only member of its oneof, and that is accepted without
    a field for it, so that the member is neither written nor read: the type also has a method ProtoReflect,
    and what that returns has no field OneofWrappers. *)
Theorem C87_refuted : exists s sd, oneofs_are_interfaces s /\ ms_wrappers (gs_methods s) = Some (Some [7]) /\ in_oneof s 0 7 /\
  slices wr_heap WOther 5 /\ ms_reflect (gs_methods s) = Some (wr_heap, WOther) /\
  (forall n, describe_struct n s = Some (POk sd)) /\ sd_fields sd = [].
Proof.
  exists (wr_struct (mkMs (Some (wr_heap, WOther)) (Some (Some [7])))). eexists. split; [intros g [<-|[]] _ _; eexists; reflexivity|]. split; [reflexivity|].
  split; [eexists _, _; split; [reflexivity|]; repeat (split; [reflexivity || discriminate|]); now left|].
  split; [intros p w fs B A L; inversion A as [|v gs i x f q u L' N E B']; subst; [inversion L|inversion L']|]. split; [reflexivity|].
  split; [intros n; destruct n; vm_compute; reflexivity|reflexivity].
Qed.
Print Assumptions C87_refuted.
(** A pointer that leads to itself: the search does not end. *)
Theorem C87_endless : exists h v, forall n, searchOneofWrappers n (mkMs (Some (h, v)) None) = RMore.
Proof.
  exists (fun _ => WRef (Some 0)), (WRef (Some 0)). intros n. cbn [searchOneofWrappers ms_reflect]. rewrite search_S.
  assert (E : elem (fun _ => WRef (Some 0)) n (WRef (Some 0)) = None) by (induction n as [|n IH]; [reflexivity|exact IH]). now rewrite E.
Qed.
Print Assumptions C87_endless.
(** The sixth level is not looked at. *)
Fixpoint nested (k : nat) : gval := match k with O => WStruct [(bs "OneofWrappers", WWraps (Some [7]))] | S k => WStruct [(bs "a", nested k)] end.
Theorem C87_deep : forall n k h, searchOneofWrappers n (mkMs (Some (h, nested k)) None) = RGot (if k <? 5 then Some [7] else None).
Proof. intros n k h. do 5 (destruct k as [|k]; [destruct n; reflexivity|]). destruct n; reflexivity. Qed.
Print Assumptions C87_deep.
