(** The names in a generated Go file mean the types that they are written for. *)
From Coq Require Import List Arith Bool ZArith Lia Strings.String Init.Byte.
From Verif Require Import Base Value Desc GoStr StrFacts GenField GenNames GenSpec NameSpec GenImport Scope Verify Listen ListenProofs.
From Verif Require Import ScopeProofs LexFile ParserNames Parser Walk Compile CompileSpec CompileProofs CompileMsgs.
From Verif Require Import GenEnum GenGetter Comments GenText GoScan GoSyntax TextSpec CompileText CompileTextSpec Props_Compile PackageSpec CompileTextProofs.
Import ListNotations StringSyntax.
Local Open Scope string_scope.
Local Open Scope list_scope.
Open Scope nat_scope.

Lemma scalar_low s : exists c r, go_text (scalar2GoTypes s) = c :: r /\ is_upper c = false /\ (forall t, c :: r <> bs "is" ++ t).
Proof. destruct s; eexists _, _; (split; [vm_compute; reflexivity|]); (split; [reflexivity|]); intros t Q; discriminate Q. Qed.

Section Package.
Variables (o : nat -> oracle) (data : nat -> bytes) (F : nat -> state) (imports : nat -> list (bool * nat)) (fuel : nat).
Variable E : extras.
Variable go_import : nat -> bytes.
Hypothesis Ac : accepted o data imports fuel F.
Lemma obj_file p st ob q : obj_at p st ob q -> file_of_obj ob = p.
Proof. destruct 1; reflexivity. Qed.
Lemma named_exported ob n : go_named F ob n -> exported n.
Proof.
  intros G. pose proof G as (q & A & _). destruct ob as [p i|p j]; cbn [file_of_obj] in A.
  - assert (V : exists m, nth_error (l_msgs (F p)) i = Some m) by (inversion A; eauto). destruct V as (m & Em).
    rewrite (one_name o data F imports fuel Ac p _ _ _ G (go_msg_named o data F imports fuel go_import Ac p i m Em) eq_refl).
    exact (go_msg_exported o data F imports fuel go_import Ac p i m Em).
  - assert (V : exists e, nth_error (l_enums (F p)) j = Some e) by (inversion A; eauto). destruct V as (e & Ee).
    rewrite (one_name o data F imports fuel Ac p _ _ _ G (enum_named_go o data F imports fuel E go_import Ac p j e Ee) eq_refl).
    exact (enum_exported o data F imports fuel E go_import Ac p j e Ee).
Qed.
Lemma meaning_name p b n t : means F imports fuel E go_import p b n t -> exported n \/ exists s, n = bs "is" ++ s.
Proof. intros [? ? ? ? _ _ G|? ? ? ? _ _ _ G|]; [left; now apply named_exported in G..|right; eexists; reflexivity]. Qed.

Lemma found_visible p i s ob : no_public imports -> resolve_type F imports fuel true p (Some i) s = FObj ob -> file_of_obj ob = p \/ In (file_of_obj ob) (map snd (imports p)).
Proof.
  intros NP H. unfold resolve_type in H. destruct (scalar_of s); [discriminate|]. destruct (type_name s) as [dot name].
  destruct (if dot then None else search_around F (length (l_msgs (F p))) p i name) as [o'|] eqn:A.
  - injection H as ->. left. destruct dot; [discriminate|now apply around_file in A].
  - destruct (first_some (fun x => get_file F imports fuel x name) (searched F imports p dot name)) as [o'|] eqn:D; [|discriminate]. injection H as ->.
    apply find_first in D as (y & _ & Gy & Iy). rewrite (file_file F imports y (fun z J => NP y z J) _ _ _ Gy).
    unfold searched in Iy. destruct Iy as [<-|Iy]; [now left|right]. apply in_app_or in Iy as [Iy|Iy].
    + apply in_map_iff in Iy as (z & <- & J). apply filter_In in J as [J _]. now apply in_map.
    + destruct dot; [destruct Iy|]. apply in_map_iff in Iy as (z & <- & J). apply filter_In in J as [J _]. now apply in_map.
Qed.
Lemma enum_declared q j e : no_deep_enum F -> nth_error (l_enums (F q)) j = Some e -> declared_enum F q j.
Proof.
  intros ND H. destruct (enum_parent o data F imports fuel Ac q j e H) as [[J _]|(i & m & Em & J & _)]; [now left|right].
  destruct (mr_parent m) as [k|] eqn:Pm; [exfalso; rewrite (ND q i m Em) in J; [destruct J|congruence]|].
  exists i, m. split; [|auto]. pose proof (reached_all o data F imports fuel Ac q i m Em) as R. destruct R as [i I|k n i R En I]; [exact I|].
  destruct (pa_in _ (loaded_parents _ _ _ (ac_loads _ _ _ _ _ Ac q)) _ _ _ En I) as (m' & E' & P'). congruence.
Qed.

Lemma info_scope p i m x sc enums msgs mm : no_public imports -> no_deep_enum F -> go_scope F imports fuel E go_import p sc ->
  nth_error (l_msgs (F p)) i = Some m -> info_for F imports fuel E go_import p i m x -> info_ok x ->
  file_text F imports fuel E go_import p = Some (enums, msgs) -> In mm msgs -> In x (infos (snd mm)) -> scope_ok sc x.
Proof.
  intros NP ND Sc Em For Ok Ft Imm Ix.
  assert (None_ : forall n, ~ exported n -> (forall s, n <> bs "is" ++ s) -> sc None n = None).
  { intros n X Y. destruct (sc None n) as [t|] eqn:Q; [|reflexivity]. exfalso. apply Sc, meaning_name in Q as [Q|(s & Q)]; [now apply X|now apply (Y s)]. }
  pose proof (ac_loads _ _ _ _ _ Ac) as Al. pose proof (ac_resolves _ _ _ _ _ Ac) as Ar. pose proof (ac_verifies _ _ _ _ _ Ac) as Av.
  destruct (msg_found o data F imports fuel (x_file_dirs E) (x_msg_dirs E) (x_field_dirs E) Al Ar Av p i m Em) as (fs & Eq & Ff).
  assert (Mx : mi_msg x = mkPM fs (map on_name (mr_oneofs m))).
  { pose proof (if_struct _ _ _ _ _ _ _ _ _ For) as St. unfold struct_of, id_of in St. rewrite Cantor.cancel_of_to, Em, Eq in St. now injection St. }
  split.
  - intros s. destruct (scalar_low s) as (c & r & -> & U & Ns). apply None_; [|exact Ns]. intros (c' & r' & Q & U' & _). injection Q as <- <-. congruence.
  - apply None_; [|intros s Q; discriminate Q]. intros (c & r & Q & U & _). injection Q as <- <-. discriminate U.
  - intros k f N T. rewrite Mx in N. cbn [pm_fields] in N.
    assert (X : exists z, nth_error (mr_fields m) k = Some z /\ field_of F imports fuel (x_field_dirs E) p i z = Some f).
    { clear - Ff N. revert k N. induction Ff as [|a b l l' H R IH]; intros [|k] N; try discriminate; cbn in *; [injection N as ->; eauto|now apply IH]. }
    destruct X as (z & Nz & Fz). destruct (field_type F imports fuel E _ _ _ _ Fz) as (_ & _ & Ty).
    destruct (resolve_type F imports fuel true p (Some i) (fl_type z)) as [s|ob|] eqn:R; cbn [ptype_of] in Ty; [injection Ty as Ty; rewrite <- Ty in T; destruct T| |discriminate].
    destruct (if_types _ _ _ _ _ _ _ _ _ For k z ob Nz R) as (G & Im & _). destruct Im as [I1 I2]; [intros y w _ J; now apply NP in J|].
    pose proof (found_visible _ _ _ _ NP R) as V.
    assert (Vq : visible imports go_import p (file_of_obj ob)) by (destruct V as [V|V]; [left; now rewrite V|now right]).
    assert (Qq : qualifier go_import p (file_of_obj ob) (option_map path_Base (ti_import (mi_ti x k)))).
    { destruct (str_eqb_spec (go_import (file_of_obj ob)) (go_import p)) as [Y|Y]; [left; rewrite (I1 Y); auto|right; rewrite (I2 Y); auto]. }
    apply Sc. pose proof (found_valid _ _ _ _ _ _ _ _ R) as Va. destruct ob as [q j|q j]; cbn [file_of_obj valid] in *; injection Ty as <-; cbn [type_go].
    + eapply means_message; eauto.
    + destruct Va as (e & Ee). eapply means_enum; eauto. exact (enum_declared _ _ _ ND Ee).
  - intros f k J P. apply Sc. destruct (io_oneofs _ Ok f k J P) as [B _]. eapply means_oneof; eauto.
Qed.
End Package.
