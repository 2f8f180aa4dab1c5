(** Property C83: from the bytes of .proto files to the messages of a program. *)
From Coq Require Import List Arith Bool NArith ZArith Lia Strings.String Init.Byte.
From Coq Require Arith.Cantor.
From Verif Require Import Base Wire Value Desc GoStr StrFacts TagSpec GenField GenNames GenSpec Parse GenFieldProofs GenMsgProofs Props_Gen.
From Verif Require Import Encoder Sizer Decoder MsgSpec RoundSpec Props_Round.
From Verif Require Import Scope Verify Listen LexFile Parser ParserPredict Walk Props_Walk Compile CompileSpec CompileProofs CompileMsgs CompileScope.
From Verif Require Import NameSpec ScopeSpec ScopeProofs ScopeCheck Props_Scope ListenSpec.
Import ListNotations StringSyntax.
Local Open Scope string_scope.
Local Open Scope list_scope.
Open Scope nat_scope.
#[local] Opaque lex_file parse load_tree events parser_tokens.

(** The lists of a loaded file reach all of its messages and enums: the checks, which go over the
    objects, see what the code sees, which follows the lists. *)
Theorem C83_reached : forall o data st, load_file o data = Some (LOk st) ->
  (forall i, i < length (l_msgs st) -> reached st i) /\ (forall j, j < length (l_enums st) -> reached_enum st j).
Proof. intros o data st H. destruct (loaded _ _ _ H) as ((f & L) & _). exact (load_reached _ _ L). Qed.
Print Assumptions C83_reached.

(** [accepted F …]: LoadProto accepts the files with the bytes [data], and [F] is what is loaded from them.
    [legal_decls] (CompileSpec.v) is what protobuf asks beyond that. *)
Record accepted (o : nat -> oracle) (data : nat -> bytes) (imports : nat -> list (bool * nat)) (fuel : nat) (F : nat -> state) : Prop := {
  ac_loads : forall p, load_file (o p) (data p) = Some (LOk (F p));
  ac_resolves : forall p, resolves F imports fuel p = true;
  ac_verifies : forall p, verifies F p = true;
  ac_legal : forall p, legal_decls (F p)
}.
Section Accepted.
Variables (o : nat -> oracle) (data : nat -> bytes) (imports : nat -> list (bool * nat)) (fuel : nat) (F : nat -> state).
(** Directives of files, messages and fields *)
Variables (fd : nat -> list bytes) (md : nat -> nat -> list bytes) (xd : nat -> nat -> field -> list bytes).
Notation "'ctx' id" := (fst (struct_of F imports fuel fd md xd id)) (at level 10, id at level 9).
Notation "'msg' id" := (snd (struct_of F imports fuel fd md xd id)) (at level 10, id at level 9).

(** Every message of the files is one the generator can take. *)
Theorem C83_legal : accepted o data imports fuel F -> forall id, legal_message (ctx id) (msg id).
Proof. intros [A B C D] id. now apply (struct_legal o data). Qed.

(** Every field that is declared is generated with its number and the encoding of its type, and
    no other field is generated.  [ty]: the type its name refers to. *)
Definition generated_for (p i : nat) (x : field) (d : fdesc) : Prop :=
  f_id d = fl_num x /\
  exists ty, ptype_of (resolve_type F imports fuel true p (Some i) (fl_type x)) = Some ty /\
    (fl_key x = None -> f_tag d = wire_encoding ty) /\
    (forall s, fl_key x = Some s -> exists k, scalar_of s = Some k /\ f_tag d = TagBytes /\
       f_ktag d = wire_encoding (PScalar k) /\ f_vtag d = wire_encoding ty) /\
    (f_rep d = true <-> fl_rep x = true \/ fl_key x <> None) /\
    (f_oneof d <> None <-> fl_oneof x <> None).
Theorem C83_fields : accepted o data imports fuel F ->
  forall p i m, nth_error (l_msgs (F p)) i = Some m -> forall U E size, unquotes U ->
  exists s, describe (MessageGen U E size (ctx (id_of p i)) (msg (id_of p i))) = POk s /\ wf_sdesc E s /\
    (forall x, In x (mr_fields m) -> exists d, In d (sd_fields s) /\ generated_for p i x d) /\
    (forall d, In d (sd_fields s) -> exists x, In x (mr_fields m) /\ generated_for p i x d).
Proof.
  intros [A B C D] p i m E U En size HU. unfold id_of, struct_of. rewrite Cantor.cancel_of_to, E. cbn [fst snd].
  destruct (msg_found o data F imports fuel fd md xd A B C p i m E) as (fs & Em & Ef).
  destruct (msg_legal o data F imports fuel fd md xd A B C D p i m E) as (x & Ex & L). rewrite Em in *. injection Ex as <-.
  destruct (C56_accepted U En size _ _ HU L) as (s & Ds & W & G1 & G2). exists s. split; [exact Ds|]. split; [exact W|].
  cbn [pm_fields] in G1, G2. cbn zeta in G1, G2.
  assert (T : forall x f k d, In x (mr_fields m) -> field_of F imports fuel xd p i x = Some f ->
    f_id d = pf_num f /\
    f_tag d = match pf_kt f with Some _ => TagBytes | None => wire_encoding (pf_ty f) end /\
    (f_rep d = true <-> pf_rep f = true \/ is_map_field f) /\
    (forall k, pf_kt f = Some k -> f_ktag d = wire_encoding (PScalar k) /\ f_vtag d = wire_encoding (pf_ty f)) /\
    f_oneof d = match pf_one f with Some _ => Some k | None => None end -> generated_for p i x d).
  { intros x f k d J Hf (E1 & E2 & E3 & E4 & E5). destruct (field_found o data F imports fuel fd md xd A B C p i m x E J) as (t & kk & H & K).
    assert (Ht : ptype_of (resolve_type F imports fuel true p (Some i) (fl_type x)) = Some t).
    { unfold field_of in H. rewrite K in H. destruct (ptype_of _); [|discriminate]. injection H as ->. reflexivity. }
    rewrite H in Hf. injection Hf as <-. cbn [pf_num pf_kt pf_ty pf_rep pf_one] in *. unfold is_map_field in E3. cbn [pf_kt] in E3.
    split; [exact E1|]. exists t. split; [exact Ht|]. unfold key_of in K. split; [|split; [|split]].
    - intros N. rewrite N in K. injection K as <-. exact E2.
    - intros s0 N. rewrite N in K. destruct (scalar_of s0) as [k0|]; [|discriminate]. injection K as <-. exists k0. split; [reflexivity|]. split; [exact E2|]. now apply E4.
    - rewrite E3. destruct (fl_key x) as [s0|]; [destruct (scalar_of s0); [|discriminate]|]; injection K as <-; split; intros [Q|Q]; auto; right; congruence.
    - rewrite E5. destruct (fl_oneof x); split; intros Q; congruence. }
  split.
  - intros x J. destruct (Forall2_l _ _ _ _ Ef J) as (f & Jf & Hf). apply In_nth_error in Jf as (k & Nk). destruct (G2 _ _ Nk) as (d & Jd & E1 & E2 & E3 & _ & E4 & _ & E5).
    exists d. split; [exact Jd|]. eapply T; [exact J|exact Hf|]. repeat split; try eassumption; try apply E3; try (eapply E4; eassumption).
  - intros d J. destruct (G1 _ J) as (k & f & Nk & E1 & E2 & E3 & _ & E4 & _ & E5). apply nth_error_In in Nk. destruct (Forall2_r _ _ _ _ Ef Nk) as (x & Jx & Hx).
    exists x. split; [exact Jx|]. eapply T; [exact Jx|exact Hx|]. repeat split; try eassumption; try apply E3; try (eapply E4; eassumption).
Qed.
End Accepted.
Print Assumptions C83_legal.
Print Assumptions C83_fields.

(** ** The types of fields and methods *)
(** The type a name in a file is resolved to is the one the search of C52 finds, for the files with the
    declarations and packages that are in the text ([shows_file]: C81) and for the messages around the field:
    what is proved of that search holds of the files. *)
Theorem C83_types : forall o data imports F T,
  (forall p, load_file (o p) (data p) = Some (LOk (F p))) -> (forall p, shows_file (F p) (T p)) ->
  let P p := pfile_of (T p) (imports p) in
  forall fuel allow p s,
  (forall i, i < length (l_msgs (F p)) -> exists chain,
     nested (f_msgs (P p)) chain /\
     (exists q n es ms r, chain = (q, MT n es ms) :: r /\ obj_at p (F p) (OMsg p i) (q ++ [n])) /\
     same_result F (resolve_type F imports fuel allow p (Some i) s) (Scope.resolve P fuel allow p chain (fst (type_name s)) (snd (type_name s)))) /\
  same_result F (resolve_type F imports fuel allow p None s) (Scope.resolve P fuel allow p [] (fst (type_name s)) (snd (type_name s))).
Proof.
  intros o data imports F T Ld Sh P fuel allow p s.
  assert (Lt : forall p, in_lists_later (F p)) by (intros x; destruct (loaded _ _ _ (Ld x)) as ((f & L) & _); exact (load_later _ _ L)).
  split; [|exact (resolve_method F imports T Sh fuel allow p s)].
  intros i Hi. apply (resolve_agree F imports T Sh Lt). apply (C83_reached _ _ _ (Ld p)). exact Hi.
Qed.
Print Assumptions C83_types.
(** An object is declared with one path: what is found is not only some object of that name. *)
Theorem C83_one_path : forall o data st p, load_file o data = Some (LOk st) ->
  forall ob q q', obj_at p st ob q -> obj_at p st ob q' -> q = q'.
Proof. intros o data st p H. destruct (loaded _ _ _ H) as ((f & L) & _). exact (one_path p st (load_once _ _ L)). Qed.
Print Assumptions C83_one_path.

(** With C52: where the names are unique and not mixed up with those of packages, the type found for a name
    without a leading dot is the one it means in the scope of the message it is in; and where none is found it
    means none. *)
Theorem C83_means_partial : forall o data imports F T rank fuel p i s,
  (forall p, load_file (o p) (data p) = Some (LOk (F p))) -> (forall p, shows_file (F p) (T p)) ->
  let P p := pfile_of (T p) (imports p) in
  let n := snd (type_name s) in
  i < length (l_msgs (F p)) -> fst (type_name s) = false -> n <> [] -> ~ scalar n ->
  public_ok P rank -> (forall x, visible P p x -> rank x + length n < fuel) ->
  unique_names P p -> no_package_name P p -> package_once P p n -> local_or_full P p n ->
  (forall chain, nested (f_msgs (P p)) chain -> no_own_name P p chain) ->
  exists chain, nested (f_msgs (P p)) chain /\
    (exists q a es ms r, chain = (q, MT a es ms) :: r /\ obj_at p (F p) (OMsg p i) (q ++ [a])) /\
    match resolve_type F imports fuel true p (Some i) s with
    | FObj ob => exists q, obj_at (file_of_obj ob) (F (file_of_obj ob)) ob q /\ visible P p (file_of_obj ob) /\
                 means P p (scope_of P p chain) n (full P (file_of_obj ob) q)
    | FNone => forall d, ~ means P p (scope_of P p chain) n d
    | FScalar _ => False
    end.
Proof.
  intros o data imports F T rank fuel p i s Ld Sh P n Hi D Ne Ns Po Fu Un Np Pk Lf No.
  destruct (C83_types o data imports F T Ld Sh fuel true p s) as [H _]. destruct (H i Hi) as (chain & C1 & C2 & C3).
  exists chain. split; [exact C1|]. split; [exact C2|].
  pose proof (C52_resolve_partial P rank fuel true p chain n Po Fu Un C1 (No _ C1) Np Pk Lf Ne (fun _ => Ns)) as K.
  fold P in C3. rewrite D in C3. fold n in C3. unfold same_result in C3. clear H.
  destruct (resolve_type F imports fuel true p (Some i) s) as [b|ob|], (Scope.resolve P fuel true p chain false n) as [|x q|]; try exact K; try (destruct C3; fail).
  destruct C3 as [<- C3]. destruct K as (V & _ & Mn). exists q. auto.
Qed.
Print Assumptions C83_means_partial.

(** ** What the generator is given *)
Lemma scalar_of_spelled s k : scalar_of s = Some k -> scalar_spelled s k.
Proof.
  unfold scalar_of. intro H. apply first_some_sound in H as ([n c] & J & H). cbn [fst snd] in H. destruct (str_eqb_spec n s) as [->|]; [|discriminate].
  injection H as ->. cbn in J. repeat (destruct J as [J|J]; [injection J as <- <-; reflexivity|]). destruct J.
Qed.
Section Valid.
Variables (F : nat -> state) (imports : nat -> list (bool * nat)).
Definition valid (ob : obj) : Prop :=
  match ob with OMsg q j => exists m, nth_error (l_msgs (F q)) j = Some m | OEnum q j => exists e, nth_error (l_enums (F q)) j = Some e end.
Lemma enum_valid p name js ob : enum_named F p name js = Some ob -> valid ob.
Proof.
  unfold enum_named. destruct name as [|n [|? ?]]; try discriminate. intro H. apply first_some_sound in H as (j & _ & H).
  destruct (nth_error (l_enums (F p)) j) as [e|] eqn:E; [|discriminate]. destruct (str_eqb (er_name e) n); [|discriminate]. injection H as <-. now exists e.
Qed.
Lemma msg_valid p : forall name i ob, get_msg F p name i = Some ob -> valid ob.
Proof.
  induction name as [|n rest IH]; intros i ob; [discriminate|]. cbn [get_msg]. destruct (nth_error (l_msgs (F p)) i) as [m|] eqn:E; [|discriminate].
  destruct (str_eqb (mr_name m) n); [|discriminate]. destruct rest as [|n' rest]; [intro H; injection H as <-; now exists m|].
  destruct (enum_named F p (n' :: rest) (mr_enums m)) as [o'|] eqn:Q; [intro H; injection H as <-; now apply enum_valid in Q|].
  intro H. apply first_some_sound in H as (k & _ & H). now apply IH in H.
Qed.
Lemma file_valid : forall k p name ob, get_file F imports k p name = Some ob -> valid ob.
Proof.
  induction k as [|k IH]; intros p name ob; [discriminate|]. cbn [get_file].
  destruct (first_some (get_msg F p name) (p_msgs (F p))) eqn:A; [intro H; injection H as <-; apply first_some_sound in A as (i & _ & A); now apply msg_valid in A|].
  destruct (enum_named F p name (p_enums (F p))) eqn:B; [intro H; injection H as <-; now apply enum_valid in B|].
  destruct (first_some _ (imports p)) eqn:D.
  { intro H. injection H as <-. apply first_some_sound in D as ([b q] & _ & D). cbn [fst snd] in D. destruct b; [|discriminate]. now apply IH in D. }
  destruct (trimPathPrefix name (package F p)); [apply IH|discriminate].
Qed.
Lemma around_valid p name : forall k i ob, search_around F k p i name = Some ob -> valid ob.
Proof.
  induction k as [|k IH]; intros i ob; [discriminate|]. cbn [search_around]. destruct (nth_error (l_msgs (F p)) i) as [m|]; [|discriminate].
  destruct (get_msg F p name i) eqn:A; [intro H; injection H as <-; now apply msg_valid in A|].
  destruct (enum_named F p name (mr_enums m)) eqn:B; [intro H; injection H as <-; now apply enum_valid in B|].
  destruct (first_some (get_msg F p name) (mr_msgs m)) eqn:D; [intro H; injection H as <-; apply first_some_sound in D as (j & _ & D); now apply msg_valid in D|].
  destruct (mr_parent m); [apply IH|discriminate].
Qed.
Lemma found_valid fuel b p a s ob : resolve_type F imports fuel b p a s = FObj ob -> valid ob.
Proof.
  unfold resolve_type. destruct (if b then scalar_of s else None); [discriminate|]. destruct (type_name s) as [dot name].
  destruct (if dot then None else _) as [o'|] eqn:A.
  - intro H. injection H as <-. destruct dot; [discriminate|]. destruct a as [i|]; [|discriminate]. now apply around_valid in A.
  - destruct (first_some _ (searched F imports p dot name)) as [o'|] eqn:D; [|discriminate]. intro H. injection H as <-.
    apply first_some_sound in D as (q & _ & D). now apply file_valid in D.
Qed.
End Valid.
(** Every message is generated once, from its declaration: with the edition and options of its file and its own
    options, and with its fields, the types of which are those that were found: scalars by their names, enums,
    and messages as the structs that are generated for them.  The types of methods are messages or enums of the files. *)
Theorem C83_typed : forall o data imports fuel F fd md xd, accepted o data imports fuel F ->
  exists id : nat -> nat -> nat, (forall p i p' i', id p i = id p' i' -> p = p' /\ i = i') /\
  (forall p i m, nth_error (l_msgs (F p)) i = Some m ->
     let c := fst (struct_of F imports fuel fd md xd (id p i)) in
     let g := snd (struct_of F imports fuel fd md xd (id p i)) in
     (p_edition (F p) = bs "proto2" -> c_edition c = Proto2) /\ (p_edition (F p) = bs "proto3" -> c_edition c = Proto3) /\
     (p_edition (F p) = bs "2023" -> c_edition c = Edition2023) /\
     c_options c = p_options (F p) /\ c_msgoptions c = mr_options m /\ c_dirs c = fd p /\ c_msgdirs c = md p i /\
     pm_oneofs g = map on_name (mr_oneofs m) /\
     Forall2 (fun x f => field_for F id (resolve_type F imports fuel true p (Some i) (fl_type x)) (xd p i x) x f) (mr_fields m) (pm_fields g)) /\
  (forall p s me, In s (p_services (F p)) -> In me (sv_methods s) ->
     exists a b, resolve_type F imports fuel false p None (me_req me) = FObj a /\ valid F a /\
                 resolve_type F imports fuel false p None (me_ret me) = FObj b /\ valid F b).
Proof.
  intros o data imports fuel F fd md xd [A B C D]. exists id_of. split; [|split].
  - intros p i p' i' H. unfold id_of in H. apply (f_equal Cantor.of_nat) in H. rewrite !Cantor.cancel_of_to in H. injection H as -> ->. now split.
  - intros p i m E. unfold id_of, struct_of. rewrite Cantor.cancel_of_to, E. cbn [fst snd].
    destruct (msg_found o data F imports fuel fd md xd A B C p i m E) as (fs & Em & Ef). rewrite Em. cbn [ctx_of c_edition c_options c_msgoptions c_dirs c_msgdirs pm_oneofs pm_fields].
    split; [intros ->; reflexivity|]. split; [intros ->; reflexivity|]. split; [intros ->; reflexivity|].
    do 5 (split; [reflexivity|]). eapply Forall2_in; [exact Ef|]. intros x f _ H. unfold field_of in H.
    destruct (ptype_of (resolve_type F imports fuel true p (Some i) (fl_type x))) as [t|] eqn:T; [|discriminate].
    destruct (key_of (fl_key x)) as [k|] eqn:K; [|discriminate]. injection H as <-. constructor; try reflexivity; cbn [pf_rep pf_req pf_opt pf_kt pf_ty].
    + now repeat split.
    + unfold key_of in K. destruct (fl_key x) as [s|]; [|now injection K as <-]. destruct (scalar_of s) as [k'|] eqn:S; [|discriminate]. injection K as <-.
      exists k'. split; [reflexivity|now apply scalar_of_spelled].
    + destruct (resolve_type F imports fuel true p (Some i) (fl_type x)) as [k'|ob|] eqn:R; [| |discriminate T].
      * injection T as <-. apply tf_scalar; [reflexivity|]. apply scalar_of_spelled. unfold resolve_type in R. destruct (scalar_of (fl_type x)) as [k2|]; [now injection R as ->|].
        destruct (type_name (fl_type x)) as [dot name]. destruct (if dot then None else _) as [o'|]; [discriminate R|]. now destruct (first_some _ (searched F imports p dot name)).
      * pose proof (found_valid _ _ _ _ _ _ _ _ R) as V. destruct ob as [q j|q j]; injection T as <-; destruct V as [y V]; [now apply (tf_message _ _ _ _ q j y)|now apply (tf_enum _ _ _ _ q j y)].
  - intros p s me S M. pose proof (B p) as R. unfold resolves in R. apply andb_true_iff in R as [_ R]. rewrite forallb_forall in R. specialize (R s S).
    rewrite forallb_forall in R. specialize (R me M). apply andb_true_iff in R as [R1 R2].
    assert (X : forall n, is_found (resolve_type F imports fuel false p None n) = true -> exists a, resolve_type F imports fuel false p None n = FObj a /\ valid F a).
    { intros n N. destruct (resolve_type F imports fuel false p None n) as [k|a|] eqn:Q; [| |discriminate N].
      - unfold resolve_type in Q. destruct (type_name n) as [dot name]. destruct (if dot then None else _) as [o'|]; [discriminate Q|]. now destruct (first_some _ (searched F imports p dot name)).
      - exists a. split; [reflexivity|exact (found_valid _ _ _ _ _ _ _ _ Q)]. }
    destruct (X _ R1) as (a & Ra & Va). destruct (X _ R2) as (b & Rb & Vb). now exists a, b.
Qed.
Print Assumptions C83_typed.

(** ** The types of a program *)
(** A struct has another one in it: a field that is not repeated, not a map and not in a oneof,
    whose message is asked for as a value. *)
Definition embeds (C : nat -> pctx) (M : nat -> pmsg) (id id' : nat) : Prop :=
  exists f, In f (pm_fields (M id)) /\ pf_kt f = None /\ pf_rep f = false /\ pf_one f = None /\
    pf_ty f = PMsg id' /\ no_pointer (C id) f.
Lemma TStruct_embeds c f id : legal_field c f -> GoTypeName c f = TStruct id ->
  pf_kt f = None /\ pf_rep f = false /\ pf_ty f = PMsg id /\ no_pointer c f.
Proof.
  intros L. unfold GoTypeName. destruct (pf_kt f) eqn:K; [discriminate|]. destruct (pf_rep f) eqn:R; [discriminate|].
  unfold pf_is_pointer, pf_is_map. rewrite K, R. destruct (genNoPointer c f) eqn:G.
  - intros H. destruct (pf_ty f) as [s| |id0] eqn:Ty; cbn in H; [destruct s; discriminate|discriminate|]. injection H as <-.
    repeat split. apply genNoPointer_spec; [apply L|exact G].
  - cbn [orb]. unfold pf_is_msg. destruct (pf_ty f) as [s| |id0] eqn:Ty; cbn.
    + destruct (match scalar2GoTypes s with TBytes => true | _ => false end); [destruct s; discriminate|].
      match goal with |- (if ?b then _ else _) = _ -> _ => destruct b end; [discriminate|destruct s; discriminate].
    + match goal with |- (if ?b then _ else _) = _ -> _ => destruct b end; discriminate.
    + unfold pf_is_map. rewrite K. discriminate.
Qed.
Lemma struct_field_type U c m id l : forall seen g, Forall (legal_field c) l ->
  In g (struct_fields U c m seen l) -> gf_type g = TStruct id ->
  exists f, In f l /\ pf_kt f = None /\ pf_rep f = false /\ pf_one f = None /\ pf_ty f = PMsg id /\ no_pointer c f.
Proof.
  induction l as [|f l IH]; intros seen g L J T; [destruct J|]. inversion L as [|? ? Lf Ll]; subst.
  assert (R : forall seen, In g (struct_fields U c m seen l) -> exists f0, In f0 (f :: l) /\ pf_kt f0 = None /\ pf_rep f0 = false /\ pf_one f0 = None /\ pf_ty f0 = PMsg id /\ no_pointer c f0).
  { intros s Js. destruct (IH s g Ll Js T) as (f0 & I0 & H0). exists f0. split; [now right|exact H0]. }
  cbn [struct_fields] in J. destruct (pf_one f) as [k|] eqn:O.
  - destruct (existsb (Nat.eqb k) seen); [now apply (R seen)|]. destruct J as [<-|J]; [discriminate|now apply (R (k :: seen))].
  - destruct J as [<-|J]; [|now apply (R seen)]. cbn in T. destruct (TStruct_embeds _ _ _ Lf T) as (A & B & D & G).
    exists f. split; [now left|]. auto.
Qed.
Section Program.
Variables (U : bytes -> option bytes) (C : nat -> pctx) (M : nat -> pmsg) (size : nat -> N) (rank : nat -> nat).
Hypothesis HU : unquotes U.
Hypothesis LM : forall id, legal_message (C id) (M id).
Hypothesis Rk : forall id id', embeds C M id id' -> rank id' < rank id.
Definition round (E : env) : env := fun id =>
  match describe (MessageGen U E (size id) (C id) (M id)) with POk s => s | _ => E id end.
Fixpoint rounds (n : nat) : env := match n with O => fun _ => mkS [] false 0%N [] (VNum 0) | S n => round (rounds n) end.
Lemma gen_same E E' id : (forall id', embeds C M id id' -> E id' = E' id') ->
  MessageGen U E (size id) (C id) (M id) = MessageGen U E' (size id) (C id) (M id).
Proof.
  intros H. unfold MessageGen. f_equal. f_equal. apply map_ext_in. intros g J. unfold zero_of. destruct (gf_type g) as [| | |id'| | | | |] eqn:T; try reflexivity.
  f_equal. apply H. destruct (struct_field_type _ _ _ _ _ _ _ (lm_fields _ _ (LM id)) J T) as (f & If & Hf). now exists f.
Qed.
Lemma round_same E E' id : (forall id', embeds C M id id' -> E id' = E' id') -> round E id = round E' id.
Proof.
  intros H. unfold round. rewrite (gen_same _ _ _ H). destruct (generated U (C id) (M id) HU (LM id) E' (size id)) as (s & -> & _). reflexivity.
Qed.
Lemma rounds_same n : forall n' id, rank id < n -> rank id < n' -> rounds n id = rounds n' id.
Proof.
  induction n as [|n IH]; intros [|n'] id L L'; [lia|lia|lia|]. cbn [rounds]. apply round_same. intros id' H. pose proof (Rk _ _ H). apply IH; lia.
Qed.
Lemma program : exists E, forall id, describe (MessageGen U E (size id) (C id) (M id)) = POk (E id).
Proof.
  exists (fun id => rounds (S (rank id)) id). intros id.
  rewrite (gen_same _ (rounds (rank id)) id).
  - cbn [rounds]. unfold round. destruct (generated U (C id) (M id) HU (LM id) (rounds (rank id)) (size id)) as (s & -> & _). reflexivity.
  - intros id' H. pose proof (Rk _ _ H). apply rounds_same; lia.
Qed.
End Program.

(** If no struct is in itself by value (Go's compiler asks for this), the generated types have descriptors;
    and with these, for every message of the program: Marshal, Size and Unmarshal never panic, and what
    is marshalled is read back. *)
Theorem C83_runs : forall o data imports fuel F fd md xd U size rank,
  accepted o data imports fuel F -> unquotes U ->
  let C id := fst (struct_of F imports fuel fd md xd id) in
  let M id := snd (struct_of F imports fuel fd md xd id) in
  (forall id id', embeds C M id id' -> rank id' < rank id) ->
  (exists E, forall id, describe (MessageGen U E (size id) (C id) (M id)) = POk (E id)) /\
  forall E, (forall id, describe (MessageGen U E (size id) (C id) (M id)) = POk (E id)) ->
  wf_env E /\
  (forall P id v b, wt E (TStruct id) v ->
    ((exists s n, Marshal E (APtr id (Some v)) = Ok s /\ Size E (APtr id (Some v)) = Ok n) \/
     (Marshal E (APtr id (Some v)) = Base.Err EMaxDepth /\ Size E (APtr id (Some v)) = Base.Err EMaxDepth)) /\
    ((exists v', Unmarshal E P b (APtr id (Some v)) = DOk v' tt /\ wt E (TStruct id) v') \/
     (exists v' e, Unmarshal E P b (APtr id (Some v)) = DErr v' e))) /\
  (forall id v v0, message E id v -> (forall n, levels E n id (Some v) -> n <= 1000) -> vsame v v0 ->
    exists s, Marshal E (APtr id (Some v0)) = Ok s /\ ((blen s < 2^63)%N -> forall P, exists v',
      Unmarshal E P s (APtr id (Some (sd_zero (E id)))) = DOk v' tt /\ same_value E (TStruct id) v v')).
Proof.
  intros o data imports fuel F fd md xd U size rank A HU C M Rk.
  pose proof (C83_legal o data imports fuel F fd md xd A) as LM. split.
  - exact (program U C M size rank HU LM Rk).
  - intros E HE. destruct (C56_safe U C M size E HU LM HE) as [W S]. split; [exact W|]. split; [exact S|].
    exact (C01_round_trip E W).
Qed.
Print Assumptions C83_runs.

(** *** Example: two messages, one in the other, with a map, a oneof and a list. *)
Definition ex_data := bs "syntax='proto3';message M{map<string,M>a=1;oneof o{N b=2;}message N{repeated sint32 c=4;}}".
Definition ex_b := mkF (bs "b") None (bs "N") 2 false false false [] (Some 0).
Definition ex_st : state := mkSt
  [mkMR (bs "M") None [] [1] [mkF (bs "a") (Some (bs "string")) (bs "M") 1 false false false [] None; ex_b] [mkO (bs "o") [] [ex_b]] [] [];
   mkMR (bs "N") (Some 0) [] [] [mkF (bs "c") None (bs "sint32") 4 true false false [] None] [] [] []]
  [] [] None (bs "proto3") [] [] [] [0] [] [].
Example C83_ex_loads : load_file predict ex_data = Some (LOk ex_st).
Proof. rewrite <- loaded_quick_ok. with_strategy transparent [parse load_tree events parser_tokens lex_file] (vm_compute; reflexivity). Qed.
Lemma ex_accepted : accepted (fun _ => predict) (fun _ => ex_data) (fun _ => []) 5 (fun _ => ex_st).
Proof.
  split; intros p; [exact C83_ex_loads|vm_compute; reflexivity|vm_compute; reflexivity|].
  split; [constructor|]. intros [|[|i]] m x E J; cbn in E; [| |destruct i; discriminate]; injection E as <-; cbn in J;
    repeat (destruct J as [<-|J]; [split; cbn; [lia|constructor|intros v []|intros v []|intros v []]|]); destruct J.
Qed.
Example C83_ex : exists E,
  (forall id, describe (MessageGen (fun s => Some s) E 64%N (fst (struct_of (fun _ => ex_st) (fun _ => []) 5 (fun _ => []) (fun _ _ => []) (fun _ _ _ => []) id))
     (snd (struct_of (fun _ => ex_st) (fun _ => []) 5 (fun _ => []) (fun _ _ => []) (fun _ _ _ => []) id))) = POk (E id)) /\
  map (fun d => (f_id d, f_tag d)) (sd_fields (E (id_of 0 0))) = [(1%Z, TagBytes); (2%Z, TagBytes)] /\
  map (fun d => (f_id d, f_tag d, f_packed d)) (sd_fields (E (id_of 0 1))) = [(4%Z, TagZigZag32, true)].
Proof.
  destruct (C83_runs _ _ _ _ _ (fun _ => []) (fun _ _ => []) (fun _ _ _ => []) (fun s => Some s) (fun _ => 64%N) (fun _ => 0) ex_accepted unquote_id) as [[E HE] _].
  - intros id id' (f & J & _ & _ & _ & _ & H). exfalso. revert J H. unfold struct_of. destruct (Cantor.of_nat id) as [p i].
    destruct i as [|[|i]]; [| |destruct i; intros []]; vm_compute msg_of; cbn;
      intros J [H|[H|H]]; repeat (destruct J as [<-|J]; [exact H|]); exact J.
  - exists E. split; [exact HE|]. split.
    + pose proof (HE (id_of 0 0)) as H. vm_compute in H. match goal with |- context[E ?i] => let n := eval vm_compute in i in change i with n end. injection H as <-. vm_compute. reflexivity.
    + pose proof (HE (id_of 0 1)) as H. vm_compute in H. match goal with |- context[E ?i] => let n := eval vm_compute in i in change i with n end. injection H as <-. vm_compute. reflexivity.
Qed.
Definition ex_tree : tfile := TF (bs "proto3") [] [] []
  [TM (bs "M") [mkF (bs "a") (Some (bs "string")) (bs "M") 1 false false false [] None; ex_b] [mkO (bs "o") [] [ex_b]] []
     [TM (bs "N") [mkF (bs "c") None (bs "sint32") 4 true false false [] None] [] [] [] [] []] [] []] [] [].
Lemma ex_shown : shows_file ex_st ex_tree.
Proof.
  unfold shows_file. do 4 (split; [reflexivity|]). split; [|split; [constructor|reflexivity]]. constructor; [|constructor].
  econstructor; [reflexivity|constructor|]. constructor; [|constructor]. econstructor; [reflexivity|constructor|constructor].
Qed.
Example C83_ex_types :
  resolve_type (fun _ => ex_st) (fun _ => []) 5 true 0 (Some 0) (bs "N") = FObj (OMsg 0 1) /\
  resolve_type (fun _ => ex_st) (fun _ => []) 5 true 0 (Some 1) (bs ".M.N") = FObj (OMsg 0 1) /\
  resolve_type (fun _ => ex_st) (fun _ => []) 5 true 0 None (bs "N") = FNone /\
  obj_at 0 ex_st (OMsg 0 1) [bs "M"; bs "N"].
Proof.
  split; [vm_compute; reflexivity|]. split; [vm_compute; reflexivity|]. split; [vm_compute; reflexivity|].
  assert (A : obj_at 0 ex_st (OMsg 0 0) [bs "M"]) by (pose proof (oa_msg 0 ex_st 0 _ (or_introl eq_refl) eq_refl) as A; exact A).
  pose proof (oa_sub 0 ex_st 0 _ _ 1 _ A eq_refl (or_introl eq_refl) eq_refl) as B. exact B.
Qed.
(** The names of the example are as C83_means_partial asks. *)
Example C83_ex_means : let P (_ : nat) := pfile_of ex_tree [] in
  fst (type_name (bs "N")) = false /\ ~ scalar (snd (type_name (bs "N"))) /\
  public_ok P (fun _ => 0) /\ (forall x, visible P 0 x -> 0 + length (snd (type_name (bs "N"))) < 5) /\
  unique_names P 0 /\ no_package_name P 0 /\ package_once P 0 (snd (type_name (bs "N"))) /\ local_or_full P 0 (snd (type_name (bs "N"))) /\
  (forall chain, nested (f_msgs (P 0)) chain -> no_own_name P 0 chain).
Proof.
  intros P. change (snd (type_name (bs "N"))) with [bs "N"].
  assert (V : forall x, visible P 0 x -> x = 0) by (intros x [->|(b & i & [] & _)]; reflexivity).
  split; [reflexivity|]. split; [intros K; cbn in K; repeat (destruct K as [K|K]; [discriminate K|]); exact K|].
  split; [intros x i []|]. split; [intros x _; cbn; lia|].
  split; [apply (unique_check_sound _ _ [0]); vm_compute; reflexivity|].
  split; [intros x a r _ K; discriminate K|]. split; [intros x r _ K; destruct (K eq_refl)|].
  split; [intros [|a S] T x q K Vx _ _; [left; split; reflexivity|discriminate K]|].
  intros chain _ q n es ms _ D. apply paths_complete in D. vm_compute in D. destruct D as [D|[D|[]]];
    (destruct q as [|a q]; [try discriminate D; injection D as A B; rewrite <- A in B; discriminate B|];
     apply (f_equal (@List.length _)) in D; cbn in D; rewrite app_length in D; cbn in D; lia).
Qed.
