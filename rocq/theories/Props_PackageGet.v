(** Property theorems about the getters in Go packages that are generated from accepted files. *)
From Coq Require Import List Arith Bool NArith ZArith Lia Strings.String Init.Byte.
From Verif Require Import Base Value Desc MsgSpec GoStr Parse GenField GenNames GenSpec NameSpec GenEnum GenGetter GenImport ImportSpec Scope Verify VerifyProofs Listen Compile CompileSpec CompileMsgs
  Parser Comments GenText GoScan GoSyntax TextSpec GetterSpec Props_Getter Props_Text Props_Compile CompileText CompileTextSpec CompileTextProofs Props_CompileText PackageSpec PackageProofs Props_Package.
Import ListNotations StringSyntax.
Open Scope nat_scope.

Section Known.
Variables (o : nat -> oracle) (data : nat -> bytes) (F : nat -> state) (imports : nat -> list (bool * nat)) (fuel : nat).
Variable E : extras.
Variable go_import : nat -> bytes.
Hypothesis Ac : accepted o data imports fuel F.
Hypothesis Cg : comments_given o data E.
Hypothesis Im : forall p, Forall path_char (go_import p) /\ go_word (path_Base (go_import p)) = true.

(** The enums that the Go file declares are written *)
Lemma declared_written q j t : declared_enum F q j -> etext_of F E q j = Some t -> written_enum F imports fuel E go_import q t.
Proof.
  intros De Et. destruct (text_given o data F imports fuel E go_import Ac Cg (printed_of o data) Im q) as (enums & msgs & Ft & _).
  exists enums, msgs. split; [exact Ft|]. unfold file_text in Ft.
  destruct (all (etext_of F E q) (p_enums (F q))) as [es|] eqn:Ee; [|discriminate]. match type of Ft with context [all ?f (p_msgs (F q))] => destruct (all f (p_msgs (F q))) as [ms|] eqn:Em; [|discriminate] end.
  injection Ft as -> ->. rewrite all_some in Ee. rewrite all_some in Em. destruct De as [J|(i & m & J & Nm & Jm)].
  - left. destruct (CompileMsgs.Forall2_l _ _ _ _ Ee J) as (t' & It & Q). congruence.
  - right. destruct (CompileMsgs.Forall2_l _ _ _ _ Em J) as (mm & Imm & Q). rewrite Nm in Q.
    destruct (all (etext_of F E q) (mr_enums m)) as [l|] eqn:El; [|discriminate]. destruct (mtext_of _ _ _ _ _ _ _ _); [|discriminate]. injection Q as <-.
    eexists. split; [exact Imm|]. cbn [fst]. rewrite all_some in El. destruct (CompileMsgs.Forall2_l _ _ _ _ El Jm) as (t' & It & Q). congruence.
Qed.

Lemma info_known p i m x es : no_public imports -> no_deep_enum F ->
  (forall q, ident (path_Base (go_import q))) -> expr_scope F imports fuel E go_import p es ->
  nth_error (l_msgs (F p)) i = Some m -> info_for F imports fuel E go_import p i m x ->
  forall k z, nth_error (pm_fields (mi_msg x)) k = Some z -> type_known es (pf_ty z) (mi_ti x k).
Proof.
  intros NP ND Id Sc Em For k f N.
  pose proof (ac_loads _ _ _ _ _ Ac) as Al. pose proof (ac_resolves _ _ _ _ _ Ac) as Ar. pose proof (ac_verifies _ _ _ _ _ Ac) as Av.
  destruct (msg_found o data F imports fuel (x_file_dirs E) (x_msg_dirs E) (x_field_dirs E) Al Ar Av p i m Em) as (fs & Eq & Ff).
  assert (Mx : mi_msg x = mkPM fs (map on_name (mr_oneofs m))).
  { pose proof (if_struct _ _ _ _ _ _ _ _ _ For) as St. unfold struct_of, id_of in St. rewrite Cantor.cancel_of_to, Em, Eq in St. now injection St. }
  rewrite Mx in N. cbn [pm_fields] in N.
  assert (X : exists z, nth_error (mr_fields m) k = Some z /\ field_of F imports fuel (x_field_dirs E) p i z = Some f).
  { clear - Ff N. revert k N. induction Ff as [|a b l l' H R IH]; intros [|k] N; try discriminate; cbn in *; [injection N as ->; eauto|now apply IH]. }
  destruct X as (z & Nz & Fz). destruct (field_type F imports fuel E _ _ _ _ Fz) as (_ & _ & Ty).
  assert (Ti : forall b, ti_import (mi_ti x k) = Some b -> ident (path_Base b)).
  { intros b B. destruct (if_imports _ _ _ _ _ _ _ _ _ For k b B) as (q & ->). apply Id. }
  destruct (resolve_type F imports fuel true p (Some i) (fl_type z)) as [s|ob|] eqn:R; cbn [ptype_of] in Ty.
  { injection Ty as <-. split; [discriminate|discriminate|exact Ti]. }
  2: discriminate.
  destruct (if_types _ _ _ _ _ _ _ _ _ For k z ob Nz R) as (G & Ip & _ & Vs). destruct Ip as [I1 I2]; [intros y w _ J; now apply NP in J|].
  pose proof (found_visible _ _ _ _ _ _ _ NP R) as V.
  assert (Vq : PackageSpec.visible imports go_import p (file_of_obj ob)) by (destruct V as [V|V]; [left; now rewrite V|now right]).
  assert (Qq : qualifier go_import p (file_of_obj ob) (option_map path_Base (ti_import (mi_ti x k)))).
  { destruct (StrFacts.str_eqb_spec (go_import (file_of_obj ob)) (go_import p)) as [Y|Y]; [left; rewrite (I1 Y); auto|right; rewrite (I2 Y); auto]. }
  assert (Look : forall n y, stands F imports fuel E go_import p (option_map path_Base (ti_import (mi_ti x k))) n y -> GetterSpec.visible es (ti_import (mi_ti x k)) n = Some y).
  { intros n y H. apply Sc in H. unfold GetterSpec.visible. destruct (ti_import (mi_ti x k)); exact H. }
  pose proof (found_valid _ _ _ _ _ _ _ _ R) as Va. destruct ob as [q j|q j]; cbn [file_of_obj valid] in *; injection Ty as <-.
  - split; [discriminate| |exact Ti]. intros id Q. injection Q as <-. split; [exact (named_exported o data F imports fuel E go_import Ac _ _ G)|].
    apply Look. eapply stands_type; eauto.
  - destruct Va as (e & Ee). split; [|discriminate|exact Ti]. intros _ n v J.
    assert (Et : etext_of F E q j = Some (mkET (enum_of F E q j e) (c_head (x_enum E q j)) (c_inline (x_enum E q j)) (fun k => both (x_value E q j k)))) by (unfold etext_of; now rewrite Ee).
    rewrite (Vs q j _ eq_refl Et) in J. apply in_map_iff in J as (ev & Qv & Jv). injection Qv as <- <-. cbn [et_enum] in *. split.
    + apply (value_exported o data F imports fuel E go_import Ac q j e ev Ee). exact Jv.
    + apply Look. exact (stands_value _ _ _ _ _ p q _ ev _ Vq Qq (declared_written q j _ (enum_declared o data F imports fuel Ac q j e ND Ee) Et) Jv).
Qed.
End Known.

(** ** The getters *)
(** For files as in C86_package: the getters of every field of every message are among the declarations of the Go
    file, if they are asked for.  In a Go package in which each name is declared once ([go_scope],
    [expr_scope], PackageSpec.v) the getter of a field returns the value of the field, if it is set,
    and the zero value of its type otherwise, also for a nil receiver.  It panics only for a nil wrapper of the field
    in a oneof. *)
Theorem C86_getters : forall o data imports fuel F E go_import, accepted o data imports fuel F -> comments_given o data E ->
  (forall p, Forall path_char (go_import p) /\ go_word (path_Base (go_import p)) = true) ->
  (forall p, ident (path_Base (go_import p)) /\ path_Base (go_import p) <> bs "x") ->
  no_public imports -> no_deep_enum F ->
  forall p sc es, go_scope F imports fuel E go_import p sc -> expr_scope F imports fuel E go_import p es ->
  forall i m, nth_error (l_msgs (F p)) i = Some m ->
  exists enums msgs x, file_text F imports fuel E go_import p = Some (enums, msgs) /\ info_for F imports fuel E go_import p i m x /\
    forall g, g_getter g = true ->
    exists ds, (forall d, In d ds -> In d (file_decls g enums msgs)) /\
      let ms := message_getters (mi_ctx x) (mi_msg x) (mi_ti x) (mi_names x) in
      Forall2 (method_is sc x) ds ms /\
      forall k f, nth_error (mr_fields m) k = Some f ->
      exists z n, nth_error (pm_fields (mi_msg x)) k = Some z /\ field_of F imports fuel (x_field_dirs E) p i f = Some z /\ nth_error (mi_names x) k = Some n /\
        forall Env U,
        let fields := struct_names (pm_fields (mi_msg x)) (mi_names x) in
        let get y := GenGetter.call es Env fields y ms 2 (bs "Get" ++ rf_go n) in
        exists me, find_method ms (bs "Get" ++ rf_go n) = Some me /\
          GetterSpec.getter_type z (GoTypeName (mi_ctx x) z) (me_type me) /\
          get None = Gret (zero_of Env (me_type me)) /\
          forall vs, Forall2 (fun h v => wt Env (gf_type h) v) (struct_fields U (mi_ctx x) (mi_msg x) [] (pm_fields (mi_msg x))) vs ->
            exists s, field_val fields vs (match pf_one z with Some oo => oneof_GoName (mi_names x) oo | None => rf_go n end) = Some s /\
              (forall v, set_value z k s v -> get (Some vs) = Gret v) /\
              (not_set z k s -> get (Some vs) = Gret (zero_of Env (me_type me))) /\
              (s = VIface (Some (k, None)) -> get (Some vs) = Gpanic) /\
              ((exists v, set_value z k s v) \/ not_set z k s \/ s = VIface (Some (k, None))).
Proof.
  intros o data imports fuel F E gi Ac Cg Im Id NP ND p sc es Sc Es i m Em.
  destruct (message_placed o data imports fuel F E gi Ac Cg Im p i m Em) as (enums & msgs & mm & x & A & Imm & Ix & Ok & For).
  pose proof (info_scope o data F imports fuel E gi Ac p i m x sc enums msgs mm NP ND Sc Em For Ok A Imm Ix) as So.
  pose proof (info_known o data F imports fuel E gi Ac Cg Im p i m x es NP ND (fun q => proj1 (Id q)) Es Em For) as Kn.
  exists enums, msgs, x. split; [exact A|]. split; [exact For|]. intros g Gg.
  destruct (C84_getters sc g enums msgs mm x Imm Ix Ok So Gg) as (ds & D1 & D2). exists ds. split; [exact D1|]. cbv zeta. split; [exact D2|].
  intros k f Nf.
  pose proof (ac_loads _ _ _ _ _ Ac) as Al. pose proof (ac_resolves _ _ _ _ _ Ac) as Ar. pose proof (ac_verifies _ _ _ _ _ Ac) as Av.
  destruct (msg_found o data F imports fuel (x_file_dirs E) (x_msg_dirs E) (x_field_dirs E) Al Ar Av p i m Em) as (fs & Eq & Ff).
  pose proof (if_struct _ _ _ _ _ _ _ _ _ For) as St.
  assert (Mx : mi_msg x = mkPM fs (map on_name (mr_oneofs m))).
  { pose proof St as St'. unfold struct_of, id_of in St'. rewrite Cantor.cancel_of_to, Em, Eq in St'. now injection St'. }
  assert (X : exists z, nth_error fs k = Some z /\ field_of F imports fuel (x_field_dirs E) p i f = Some z).
  { clear - Ff Nf. revert k Nf. induction Ff as [|a b l l' H R IH]; intros [|k] N; try discriminate; cbn in *; [injection N as ->; eauto|now apply IH]. }
  destruct X as (z & Nz & Fz). assert (Nx : nth_error (pm_fields (mi_msg x)) k = Some z) by (rewrite Mx; exact Nz).
  assert (Y : exists n, nth_error (mi_names x) k = Some n).
  { destruct (nth_error (mi_names x) k) eqn:Q; [eauto|]. exfalso. apply nth_error_None in Q. pose proof (ListenProofs.nth_error_lt _ _ _ Nx). pose proof (io_length x Ok). lia. }
  destruct Y as (n & Nn). exists z, n. split; [exact Nx|]. split; [exact Fz|]. split; [exact Nn|]. intros Env U.
  assert (Lg : legal_message (mi_ctx x) (mi_msg x)).
  { pose proof (C83_legal o data imports fuel F (x_file_dirs E) (x_msg_dirs E) (x_field_dirs E) Ac (id_of p i)) as L. rewrite <- St in L. exact L. }
  apply (C65_getters es Env U (mi_ctx x) (mi_msg x) (mi_names x) (mi_ti x) Lg (if_names _ _ _ _ _ _ _ _ _ For) Kn); [|exact Nx|exact Nn].
  intros j b B. destruct (if_imports _ _ _ _ _ _ _ _ _ For j b B) as (q & ->). apply Id.
Qed.
Print Assumptions C86_getters.

(** A name that stands for a type or constant in the Go file of [p] is declared in the Go file of a file of the same
    Go package, or, with a package in front, of a file of that package that [p] imports. *)
Theorem C86_stands : forall o data imports fuel F E go_import, accepted o data imports fuel F -> comments_given o data E ->
  (forall p, Forall path_char (go_import p) /\ go_word (path_Base (go_import p)) = true) ->
  forall p b n y, stands F imports fuel E go_import p b n y ->
  exists q enums msgs, PackageSpec.visible imports go_import p q /\ qualifier go_import p q b /\ file_text F imports fuel E go_import q = Some (enums, msgs) /\
    forall g, exists d, In d (file_decls g enums msgs) /\
      match y with
      | EType _ => exists fs, d = YStruct n fs
      | EConst v => exists cs ty, d = YConsts cs /\ In (n, ty, signed v) cs
      end.
Proof.
  intros o data imports fuel F E gi Ac Cg Im p b n y St. destruct St as [q i b n V Q G|q t v b V Q W J].
  - destruct (C86_declared o data imports fuel F E gi Ac Cg Im p b n _ (means_message _ _ _ _ _ p q i b n V Q G)) as (q' & enums & msgs & A & B & C & D).
    exists q', enums, msgs. auto.
  - destruct W as (enums & msgs & Ft & W). exists q, enums, msgs. split; [exact V|]. split; [exact Q|]. split; [exact Ft|]. intros g.
    eexists. split; [|eexists _, (name (enum_GoName (et_enum t))); split; [reflexivity|exact (in_map (fun f => (value_GoName (et_enum t) f, name (enum_GoName (et_enum t)), signed (ev_value f))) _ _ J)]].
    assert (Y : In (YConsts (map (fun f => (value_GoName (et_enum t) f, name (enum_GoName (et_enum t)), signed (ev_value f))) (en_values (et_enum t)))) (enum_decls (et_enum t))).
    { unfold enum_decls. cbv zeta. right. apply in_app_iff. left. destruct (en_values (et_enum t)); [destruct J|now left]. }
    unfold file_decls. apply in_app_iff. destruct W as [W|(m & Jm & W)].
    + left. apply in_concat. exists (enum_decls (et_enum t)). split; [now apply (in_map (fun e => enum_decls (et_enum e)))|exact Y].
    + right. apply in_app_iff. left. apply in_concat. eexists. split; [exact (in_map (fun m => concat (map (fun e => enum_decls (et_enum e)) (fst m))) _ _ Jm)|].
      apply in_concat. exists (enum_decls (et_enum t)). split; [now apply (in_map (fun e => enum_decls (et_enum e)))|exact Y].
Qed.
Print Assumptions C86_stands.

(** ** Example: the files of C86_ex_package *)
Definition pk_entities : scope :=
  mkSc (fun n => if str_eqb n (bs "M") then Some (EType (id_of 0 0)) else if str_eqb n (bs "M_N") then Some (EType (id_of 0 1))
                 else if str_eqb n (bs "M_A") then Some (EConst 0) else None)
       (fun b => if str_eqb b (bs "b") then Some (fun n => if str_eqb n (bs "K_X") then Some (EConst 0) else None) else None).
Lemma pk_written q t : written_enum pk_st ct_imports 5 pk_extras ct_path q t -> q = 0 \/ q = 1 ->
  map (fun v => (value_GoName (et_enum t) v, ev_value v)) (en_values (et_enum t)) = [(match q with 0 => bs "M_A" | _ => bs "K_X" end, 0%Z)].
Proof.
  intros (enums & msgs & Ft & W) Q. rewrite pk_text_ok in Ft. assert (P : pk_text q = (enums, msgs)) by congruence.
  assert (G : match q with
              | 0 => match pk_text q with ([], [([e], _)]) => map (fun v => (value_GoName (et_enum e) v, ev_value v)) (en_values (et_enum e)) = [(bs "M_A", 0%Z)] | _ => False end
              | _ => match pk_text q with ([e], []) => map (fun v => (value_GoName (et_enum e) v, ev_value v)) (en_values (et_enum e)) = [(bs "K_X", 0%Z)] | _ => False end
              end) by (destruct Q as [->| ->]; vm_compute; reflexivity).
  rewrite P in G. destruct Q as [->| ->].
  - destruct enums; [|contradiction]. destruct msgs as [|[[|e [|]] mt] [|]]; try contradiction. destruct W as [[]|(m & [<-|[]] & [<-|[]])]. exact G.
  - destruct enums as [|e [|]]; try contradiction; destruct msgs; try contradiction. destruct W as [[<-|[]]|(m & [] & _)]. exact G.
Qed.
Lemma pk_values q : q = 0 \/ q = 1 -> exists t v, written_enum pk_st ct_imports 5 pk_extras ct_path q t /\ In v (en_values (et_enum t)) /\
  value_GoName (et_enum t) v = match q with 0 => bs "M_A" | _ => bs "K_X" end /\ ev_value v = 0%Z.
Proof.
  intros Q. assert (W : exists t, written_enum pk_st ct_imports 5 pk_extras ct_path q t).
  { assert (D : declared_enum pk_st q 0). { destruct Q as [->| ->]; [right; exists 0; eexists; split; [now left|split; [reflexivity|now left]]|left; now left]. }
    assert (X : exists t, etext_of pk_st pk_extras q 0 = Some t) by (destruct Q as [->| ->]; eexists; reflexivity). destruct X as (t & X).
    exists t. exact (declared_written _ _ _ _ _ _ _ pk_accepted pk_comments ct_paths _ _ _ D X). }
  destruct W as (t & W). pose proof (pk_written _ _ W Q) as P. destruct (en_values (et_enum t)) as [|v [|]] eqn:V; try discriminate P.
  exists t, v. split; [exact W|]. rewrite V. split; [now left|]. cbn [map] in P. split; congruence.
Qed.
Example C86_ex_getters :
  (forall p, ident (path_Base (ct_path p)) /\ path_Base (ct_path p) <> bs "x") /\ expr_scope pk_st ct_imports 5 pk_extras ct_path 0 pk_entities /\
  GenGetter.call pk_entities no_structs [bs "K"] None (message_getters (mi_ctx pk_info) (mi_msg pk_info) (mi_ti pk_info) (mi_names pk_info)) 2 (bs "GetK") = Gret (VNum 0).
Proof.
  split; [intros [|p]; (split; [split; [discriminate|vm_compute; constructor; [right; left; reflexivity|constructor]]|discriminate])|]. split; [|vm_compute; reflexivity].
  intros b n y. split.
  - destruct b as [b|]; cbn [entity_of pk_entities sc_own sc_import].
    + destruct (StrFacts.str_eqb_spec b (bs "b")) as [->|]; [|discriminate]. destruct (StrFacts.str_eqb_spec n (bs "K_X")) as [->|]; [|discriminate]. intro H. injection H as <-.
      destruct (pk_values 1 (or_intror eq_refl)) as (t & v & W & J & N & V). rewrite <- V. cbn iota in N. rewrite <- N.
      apply (stands_value _ _ _ _ _ 0 1); [right; now left|right; split; [discriminate|reflexivity]|exact W|exact J].
    + destruct (StrFacts.str_eqb_spec n (bs "M")) as [->|_].
      { intro H. injection H as <-. apply (stands_type _ _ _ _ _ 0 0 0); [now left|now left|]. exact (go_msg_named _ _ _ _ _ ct_path pk_accepted 0 0 _ eq_refl). }
      destruct (StrFacts.str_eqb_spec n (bs "M_N")) as [->|_].
      { intro H. injection H as <-. apply (stands_type _ _ _ _ _ 0 0 1); [now left|now left|]. exact (go_msg_named _ _ _ _ _ ct_path pk_accepted 0 1 _ eq_refl). }
      destruct (StrFacts.str_eqb_spec n (bs "M_A")) as [->|_]; [|discriminate]. intro H. injection H as <-.
      destruct (pk_values 0 (or_introl eq_refl)) as (t & v & W & J & N & V). rewrite <- V. cbn iota in N. rewrite <- N.
      apply (stands_value _ _ _ _ _ 0 0); [now left|now left|exact W|exact J].
  - intros M. destruct M as [q i b n V Q G|q t v b V Q W J].
    + pose proof (pk_visible _ V) as Vq. destruct (pk_msg _ _ _ Vq G) as [-> [[-> ->]|[-> ->]]]; (destruct Q as [[_ ->]|[Q _]]; [reflexivity|now destruct Q]).
    + pose proof (pk_visible _ V) as Vq. pose proof (pk_written _ _ W Vq) as P. pose proof (in_map (fun v => (value_GoName (et_enum t) v, ev_value v)) _ _ J) as J'. rewrite P in J'.
      destruct J' as [J'|[]]. injection J' as <- <-. destruct Vq as [->| ->].
      * destruct Q as [[_ ->]|[Q _]]; [reflexivity|now destruct Q].
      * destruct Q as [[Q _]|[_ ->]]; [discriminate Q|reflexivity].
Qed.
