(** Proofs about the resolution of type names. *)
From Coq Require Import Strings.String Init.Byte Lia Arith.
From Verif Require Import Base GoStr StrFacts GenField GenNames GenSpec NameSpec Scope ScopeSpec.
Import StringSyntax.
Open Scope nat_scope.

Lemma path_eqb_iff : forall a b, path_eqb a b = true <-> a = b.
Proof.
  induction a as [|x a IH]; intros [|y b]; cbn; try (split; congruence).
  destruct (str_eqb_spec x y) as [->|N]; cbn.
  - rewrite IH. split; congruence.
  - split; congruence.
Qed.

Lemma trim_prefix_iff : forall b a r, trim_prefix a b = Some r <-> a = b ++ r /\ r <> [].
Proof.
  induction b as [|y b IH]; intros a r; cbn.
  - destruct a; split; [discriminate| |injection 1 as <-; split; congruence|].
    + intros [<- H]. now destruct H.
    + intros [<- _]. reflexivity.
  - destruct a as [|x a]; [split; [discriminate|intros [H _]; discriminate]|].
    cbn [trim_prefix]. destruct (str_eqb_spec x y) as [->|N].
    + rewrite IH. split; intros [H K]; (split; [congruence|exact K]).
    + split; [discriminate|]. intros [H _]. congruence.
Qed.
Lemma trimPathPrefix_iff : forall a b r, trimPathPrefix a b = Some r <-> b <> [] /\ a = b ++ r /\ r <> [].
Proof.
  intros a [|y b] r; unfold trimPathPrefix.
  - split; [discriminate|intros [H _]; congruence].
  - rewrite trim_prefix_iff. split; [intros [A B]; split; [congruence|auto]|tauto].
Qed.
Lemma hasPathPrefix_iff : forall a b, hasPathPrefix a b = true <-> b <> [] /\ exists r, a = b ++ r /\ r <> [].
Proof.
  intros a b. unfold hasPathPrefix. destruct (trimPathPrefix a b) as [r|] eqn:E.
  - apply trimPathPrefix_iff in E. split; [|reflexivity]. intros _. destruct E as (A & B & C). split; [exact A|]. now exists r.
  - split; [discriminate|]. intros (A & r & B & C).
    assert (K : trimPathPrefix a b = Some r) by (apply trimPathPrefix_iff; auto). congruence.
Qed.

Lemma first_some_sound : forall A B (f : A -> option B) l y, first_some f l = Some y -> exists x, In x l /\ f x = Some y.
Proof.
  induction l as [|x l IH]; cbn; [discriminate|]. intros y H. destruct (f x) eqn:E.
  - injection H as ->. exists x. split; [now left|exact E].
  - destruct (IH y H) as (z & I & K). exists z. split; [now right|exact K].
Qed.
Lemma first_some_none : forall A B (f : A -> option B) l, first_some f l = None <-> forall x, In x l -> f x = None.
Proof.
  induction l as [|x l IH]; cbn; [split; [intros _ ? []|reflexivity]|]. destruct (f x) eqn:E.
  - split; [discriminate|]. intros H. rewrite (H x) in E; [discriminate|now left].
  - rewrite IH. split; intros H.
    + intros z [->|I]; [exact E|now apply H].
    + intros z I. apply H. now right.
Qed.
Lemma first_some_some : forall A B (f : A -> option B) l x y, In x l -> f x = Some y -> exists z, first_some f l = Some z.
Proof.
  intros A B f l x y I K. destruct (first_some f l) as [z|] eqn:E; [now exists z|].
  apply first_some_none with (x := x) in E; [congruence|exact I].
Qed.

Lemma find_enum_iff : forall es n t, find_enum es n = Some t <-> t = n /\ exists e, In e es /\ n = [e].
Proof.
  intros es n t. unfold find_enum. destruct n as [|e [|e' n]]; try (split; [discriminate|intros (_ & x & _ & H); discriminate]).
  split.
  - intros H. apply first_some_sound in H as (x & I & K). destruct (str_eqb_spec x e) as [->|N]; [|discriminate].
    injection K as <-. split; [reflexivity|]. now exists e.
  - intros (-> & x & I & [= <-]).
    destruct (first_some_some _ _ (fun x => if str_eqb x e then Some [x] else None) es e [e] I) as (z & K).
    { destruct (str_eqb_spec e e); [reflexivity|congruence]. }
    rewrite K. apply first_some_sound in K as (w & W & KK). cbv beta in KK. destruct (str_eqb_spec w e) as [->|N]; [injection KK as <-; reflexivity|discriminate].
Qed.

(** A type in a message, the message included. *)
Definition in_msg (m : mtree) (n : path) : Prop :=
  match m with MT x es ms => n = [x] \/ exists r, n = x :: r /\ (declares_msg ms r \/ declares_enum es ms r) end.
Lemma declares_msg_iff : forall ms n, declares_msg ms n <->
  exists x es sub, In (MT x es sub) ms /\ (n = [x] \/ exists r, n = x :: r /\ declares_msg sub r).
Proof.
  intros ms n. split.
  - intros H. inversion H as [a x es sub I|a x es sub p I D]; subst.
    + exists x, es, sub. split; [exact I|now left].
    + exists x, es, sub. split; [exact I|]. right. now exists p.
  - intros (x & es & sub & I & [->|(r & -> & D)]); [eapply dm_here|eapply dm_in]; eassumption.
Qed.
Lemma declares_enum_iff : forall es ms n, declares_enum es ms n <->
  (exists e, In e es /\ n = [e]) \/ exists x es' sub r, In (MT x es' sub) ms /\ n = x :: r /\ declares_enum es' sub r.
Proof.
  intros es ms n. split.
  - intros H. inversion H as [a b e I|a b x es' sub p I D]; subst.
    + left. now exists e.
    + right. now exists x, es', sub, p.
  - intros [(e & I & ->)|(x & es' & sub & r & I & -> & D)]; [now apply de_here|eapply de_in; eassumption].
Qed.
Lemma declared_not_nil : forall es ms, ~ (declares_msg ms [] \/ declares_enum es ms []).
Proof.
  intros es ms [H|H]; inversion H.
Qed.
(** What is declared in a list of messages and enums. *)
Lemma in_scope_iff : forall es ms n, declares_msg ms n \/ declares_enum es ms n <->
  (exists m, In m ms /\ in_msg m n) \/ exists e, In e es /\ n = [e].
Proof.
  intros es ms n. split.
  - intros [H|H].
    + left. apply declares_msg_iff in H as (x & es' & sub & I & H). exists (MT x es' sub). split; [exact I|]. cbn.
      destruct H as [->|(r & -> & D)]; [now left|right]. exists r. tauto.
    + apply declares_enum_iff in H as [H|(x & es' & sub & r & I & -> & D)]; [now right|left].
      exists (MT x es' sub). split; [exact I|]. cbn. right. exists r. tauto.
  - intros [([x es' sub] & I & H)|H].
    + cbn in H. destruct H as [->|(r & -> & [D|D])].
      * left. eapply dm_here, I.
      * left. eapply dm_in; eassumption.
      * right. eapply de_in; eassumption.
    + right. apply declares_enum_iff. now left.
Qed.

Lemma msg_getType_iff : forall n m t, msg_getType m n = Some t <-> t = n /\ in_msg m n.
Proof.
  induction n as [|a n IH]; intros [x es ms] t.
  { cbn. split; [discriminate|]. intros (_ & [H|(r & H & _)]); discriminate. }
  cbn [msg_getType]. destruct (path_eqb [x] (a :: n)) eqn:E.
  { apply path_eqb_iff in E. injection E as <- <-. split.
    - injection 1 as <-. split; [reflexivity|now left].
    - now intros (-> & _). }
  assert (NE : [x] <> a :: n) by (intros K; apply path_eqb_iff in K; congruence).
  destruct (trimPathPrefix (a :: n) [x]) as [rest|] eqn:T.
  - apply trimPathPrefix_iff in T as (_ & K & NZ). cbn in K. injection K as -> ->.
    assert (D : forall r, (match find_enum es rest with
       | Some r => Some (x :: r)
       | None => match first_some (fun y => msg_getType y rest) ms with Some r => Some (x :: r) | None => None end
       end = Some r) <-> r = x :: rest /\ (declares_msg ms rest \/ declares_enum es ms rest)).
    { intros r. rewrite in_scope_iff. destruct (find_enum es rest) as [e|] eqn:FE.
      - apply find_enum_iff in FE as (-> & e0 & I & R). split.
        + injection 1 as <-. split; [reflexivity|]. right. now exists e0.
        + now intros (-> & _).
      - destruct (first_some _ ms) as [e|] eqn:FM.
        + apply first_some_sound in FM as (m & I & K). apply IH in K as (-> & K). split.
          * injection 1 as <-. split; [reflexivity|]. left. now exists m.
          * now intros (-> & _).
        + split; [discriminate|]. intros (_ & [(m & I & K)|(e & I & K)]).
          * apply first_some_none with (x := m) in FM; [|exact I].
            assert (KK : msg_getType m rest = Some rest) by (apply IH; auto). congruence.
          * assert (KK : find_enum es rest = Some rest) by (apply find_enum_iff; split; [reflexivity|now exists e]). congruence. }
    rewrite D. cbn [in_msg]. split.
    + intros (-> & H). split; [reflexivity|]. right. now exists rest.
    + intros (-> & [H|(r & H & K)]); [injection H as ->; congruence|].
      injection H as <-. auto.
  - split; [discriminate|]. intros (_ & [H|(r & H & K)]); [congruence|].
    injection H as -> ->. assert (KK : trimPathPrefix (x :: r) [x] = Some r).
    { apply trimPathPrefix_iff. split; [congruence|]. split; [reflexivity|]. intros ->. now apply declared_not_nil in K. }
    congruence.
Qed.

(** * Files *)
Section Files.
Variable F : nat -> pfile.
Variable rank : nat -> nat.
Hypothesis PO : public_ok F rank.

Lemma pub_pkg : forall x y, pub F x y -> f_pkg (F y) = f_pkg (F x).
Proof. induction 1 as [x|x i y I P IH]; [reflexivity|]. rewrite IH. now apply PO. Qed.

(** Repeated package names at the front of a name *)
Inductive strips (pkg : path) : path -> path -> Prop :=
| strips_0 n : strips pkg n n
| strips_S n t : pkg <> [] -> strips pkg n t -> strips pkg (pkg ++ n) t.

Lemma file_own : forall f n t, (match first_some (fun m => msg_getType m n) (f_msgs f) with
   | Some r => Some r | None => find_enum (f_enums f) n end = Some t) <-> t = n /\ declares f n.
Proof.
  intros f n t. unfold declares. rewrite in_scope_iff.
  destruct (first_some _ (f_msgs f)) as [r|] eqn:FM.
  - apply first_some_sound in FM as (m & I & K). apply msg_getType_iff in K as (-> & K). split.
    + injection 1 as <-. split; [reflexivity|]. left. now exists m.
    + now intros (-> & _).
  - rewrite find_enum_iff. split; intros (-> & H); (split; [reflexivity|]).
    + now right.
    + destruct H as [(m & I & K)|H]; [|exact H].
      apply first_some_none with (x := m) in FM; [|exact I].
      assert (KK : msg_getType m n = Some n) by (apply msg_getType_iff; auto). congruence.
Qed.

Lemma proto_getType_eq : forall k p n, proto_getType F (S k) p n =
  match (match first_some (fun m => msg_getType m n) (f_msgs (F p)) with
         | Some r => Some r | None => find_enum (f_enums (F p)) n end) with
  | Some r => Some (p, r)
  | None =>
      match first_some (fun i : bool * nat => if fst i then proto_getType F k (snd i) n else None) (f_imports (F p)) with
      | Some t => Some t
      | None => match trimPathPrefix n (f_pkg (F p)) with Some rest => proto_getType F k p rest | None => None end
      end
  end.
Proof.
  intros k p n. cbn [proto_getType]. destruct (first_some (fun m => msg_getType m n) (f_msgs (F p))); [reflexivity|].
  destruct (find_enum (f_enums (F p)) n); reflexivity.
Qed.

Lemma proto_getType_sound : forall k p n y t, proto_getType F k p n = Some (y, t) ->
  pub F p y /\ declares (F y) t /\ strips (f_pkg (F p)) n t.
Proof.
  induction k as [|k IH]; [discriminate|]. intros p n y t H. rewrite proto_getType_eq in H.
  destruct (match first_some _ (f_msgs (F p)) with Some r => Some r | None => _ end) as [r|] eqn:O.
  { injection H as <- <-. apply file_own in O as (-> & D). repeat split; [apply pub_refl|exact D|apply strips_0]. }
  destruct (first_some _ (f_imports (F p))) as [z|] eqn:FI.
  { injection H as ->. apply first_some_sound in FI as ((b & i) & I & K). cbn [fst snd] in K.
    destruct b; [|discriminate]. apply IH in K as (P & D & ST). destruct (PO p i I) as (PK & _).
    split; [now apply (pub_step F p i y)|]. split; [exact D|]. now rewrite <- PK. }
  destruct (trimPathPrefix n (f_pkg (F p))) as [rest|] eqn:T; [|discriminate].
  apply trimPathPrefix_iff in T as (NZ & -> & _). apply IH in H as (P & D & ST).
  repeat split; [exact P|exact D|now apply strips_S].
Qed.

Lemma proto_getType_complete : forall k p n y t, rank p + length n < k -> pub F p y -> declares (F y) t -> strips (f_pkg (F p)) n t ->
  exists z, proto_getType F k p n = Some z.
Proof.
  induction k as [|k IH]; [lia|]. intros p n y t L P D ST. rewrite proto_getType_eq.
  destruct (match first_some _ (f_msgs (F p)) with Some r => Some r | None => _ end) as [r|] eqn:O; [now eexists|].
  destruct (first_some _ (f_imports (F p))) as [z|] eqn:FI; [now eexists|].
  inversion ST as [a|a b NZ ST']; subst.
  - exfalso. inversion P as [|x i y' I P']; subst.
    + assert (K : t = t /\ declares (F y) t) by auto. apply file_own in K. congruence.
    + destruct (PO p i I) as (PK & RK). destruct (IH i t y t) as (z & Z); [lia|exact P'|exact D|apply strips_0|].
      apply first_some_none with (x := (true, i)) in FI; [|exact I]. cbn [fst snd] in FI. congruence.
  - assert (T : trimPathPrefix (f_pkg (F p) ++ a) (f_pkg (F p)) = Some a).
    { apply trimPathPrefix_iff. split; [exact NZ|]. split; [reflexivity|]. intros ->.
      inversion ST'; subst; [|destruct (f_pkg (F p)); [congruence|discriminate]].
      now apply declared_not_nil in D. }
    rewrite T. apply (IH p a y t); [|exact P|exact D|exact ST'].
    rewrite app_length in L. destruct (f_pkg (F p)); [congruence|]. cbn in L. lia.
Qed.
End Files.

(** * Scopes *)
Definition decl (es : list bytes) (ms : list mtree) (n : path) : Prop := declares_msg ms n \/ declares_enum es ms n.

Inductive reach : list bytes -> list mtree -> path -> list bytes -> list mtree -> Prop :=
| reach_0 es ms : reach es ms [] es ms
| reach_S es ms n es1 ms1 q es2 ms2 : In (MT n es1 ms1) ms -> reach es1 ms1 q es2 ms2 -> reach es ms (n :: q) es2 ms2.

Lemma reach_snoc : forall es ms q es1 ms1 n es2 ms2, reach es ms q es1 ms1 -> In (MT n es2 ms2) ms1 -> reach es ms (q ++ [n]) es2 ms2.
Proof.
  induction 1 as [es ms|es ms x es1 ms1 q es3 ms3 I R IH]; intros J; cbn.
  - eapply reach_S; [exact J|apply reach_0].
  - eapply reach_S; [exact I|now apply IH].
Qed.
Lemma reach_decl : forall es ms q es1 ms1 t, reach es ms q es1 ms1 -> decl es1 ms1 t -> decl es ms (q ++ t).
Proof.
  induction 1 as [es ms|es ms x es1 ms1 q es3 ms3 I R IH]; intros J; cbn; [exact J|].
  destruct (IH J) as [K|K]; [left; eapply dm_in|right; eapply de_in]; eassumption.
Qed.
Lemma names_inj : forall ms n es1 ms1 es2 ms2, NoDup (map (fun m => match m with MT n _ _ => n end) ms) ->
  In (MT n es1 ms1) ms -> In (MT n es2 ms2) ms -> es1 = es2 /\ ms1 = ms2.
Proof.
  induction ms as [|[x es0 ms0] ms IH]; cbn; intros n es1 ms1 es2 ms2 ND I J; [destruct I|].
  inversion ND as [|a b NI ND']; subst. clear ND.
  assert (K : forall es ms', In (MT x es ms') ms -> False).
  { intros es ms' H. apply NI. apply in_map with (f := fun m => match m with MT n _ _ => n end) in H. exact H. }
  destruct I as [I|I], J as [J|J].
  - split; congruence.
  - injection I as -> -> ->. now apply K in J.
  - injection J as -> -> ->. now apply K in I.
  - now apply (IH n).
Qed.
Lemma reach_inv : forall es ms q es1 ms1 t, distinct_names es ms -> reach es ms q es1 ms1 -> t <> [] -> decl es ms (q ++ t) -> decl es1 ms1 t.
Proof.
  intros es ms q es1 ms1 t DN R NZ. revert DN. induction R as [es ms|es ms x es1 ms1 q es3 ms3 I R IH]; intros DN D; [exact D|].
  inversion DN as [a b ND1 ND2 SUB]; subst. specialize (SUB _ _ _ I). apply IH; [exact SUB|].
  cbn in D. destruct D as [D|D].
  - apply declares_msg_iff in D as (y & es' & sub & J & [E|(r & E & D)]).
    + injection E as <- E. apply app_eq_nil in E as [_ ->]. congruence.
    + injection E as -> <-. destruct (names_inj ms y es1 ms1 es' sub ND2 I J) as (-> & ->). now left.
  - apply declares_enum_iff in D as [(e & J & E)|(y & es' & sub & r & J & E & D)].
    + injection E as -> E. apply app_eq_nil in E as [_ ->]. congruence.
    + injection E as -> <-. destruct (names_inj ms y es1 ms1 es' sub ND2 I J) as (-> & ->). now right.
Qed.
Lemma decl_prefix : forall a b es ms, a <> [] -> decl es ms (a ++ b) -> decl es ms a.
Proof.
  induction a as [|x a IH]; intros b es ms NZ D; [congruence|]. clear NZ. destruct b as [|y b]; [now rewrite app_nil_r in D|].
  cbn in D. destruct D as [D|D].
  - apply declares_msg_iff in D as (z & es' & sub & J & [E|(r & E & D)]).
    + injection E as -> E. destruct a; discriminate.
    + injection E as -> <-. destruct a as [|w a]; [left; eapply dm_here, J|].
      destruct (IH (y :: b) es' sub) as [K|K]; [congruence|now left|left; eapply dm_in; eassumption|right; eapply de_in; eassumption].
  - apply declares_enum_iff in D as [(e & J & E)|(z & es' & sub & r & J & E & D)].
    + injection E as -> E. destruct a; discriminate.
    + injection E as -> <-. destruct a as [|w a]; [left; eapply dm_here, J|].
      destruct (IH (y :: b) es' sub) as [K|K]; [congruence|now right|left; eapply dm_in; eassumption|right; eapply de_in; eassumption].
Qed.

(** The path of the innermost message *)
Definition path_of (chain : list (path * mtree)) : path :=
  match chain with [] => [] | (q, MT n _ _) :: _ => q ++ [n] end.

Lemma nested_reach : forall es top q n es' ms l, nested top ((q, MT n es' ms) :: l) ->
  exists e0 m0, reach es top q e0 m0 /\ In (MT n es' ms) m0.
Proof.
  intros es top q n es' ms l H. remember ((q, MT n es' ms) :: l) as c eqn:E. revert q n es' ms l E.
  induction H as [|m I|q n es1 ms1 m l H IH I]; intros q' n' es' ms' l' E; [discriminate| |].
  - injection E as <- -> _. exists es, top. split; [apply reach_0|exact I].
  - injection E as <- -> _. destruct (IH _ _ _ _ _ eq_refl) as (e0 & m0 & R & J).
    exists es1, ms1. split; [|exact I]. eapply reach_snoc; eassumption.
Qed.
Lemma nested_path : forall es top q n es' ms l, nested top ((q, MT n es' ms) :: l) -> reach es top (q ++ [n]) es' ms.
Proof.
  intros es top q n es' ms l H. apply nested_reach with (es := es) in H as (e0 & m0 & R & J). eapply reach_snoc; eassumption.
Qed.

Lemma app_prefix : forall (A B P : path) x, P ++ [x] = A ++ B -> (A = P ++ [x] /\ B = []) \/ exists B', P = A ++ B' /\ B = B' ++ [x].
Proof.
  intros A B P x H. destruct B as [|b B] using rev_ind.
  - left. rewrite app_nil_r in H. auto.
  - right. clear IHB. rewrite app_assoc in H. apply app_inj_tail in H as (H & <-). now exists B.
Qed.

Lemma search_messages_means : forall es top chain n, nested top chain -> distinct_names es top -> n <> [] ->
  (forall q x es' ms, In (q, MT x es' ms) chain -> ~ decl es top (q ++ [x; x])) ->
  match search_messages chain n with
  | Some d => exists A B, path_of chain = A ++ B /\ d = A ++ n /\ decl es top d /\
                forall A' B', path_of chain = A' ++ B' -> length A < length A' -> ~ decl es top (A' ++ n)
  | None => forall A' B', path_of chain = A' ++ B' -> A' <> [] -> ~ decl es top (A' ++ n)
  end.
Proof.
  intros es top chain n NE DN NZ NO. induction chain as [|[q [x es' ms]] l IH].
  { cbn. intros A' B' H NA. destruct A'; [congruence|discriminate]. }
  destruct (nested_reach es _ _ _ _ _ _ NE) as (e0 & m0 & RQ & IM).
  assert (RX : reach es top (q ++ [x]) es' ms) by (eapply reach_snoc; eassumption).
  assert (NL : nested top l) by (inversion NE; subst; [apply nested_none|assumption]).
  assert (PL : l = [] /\ q = [] \/ q = path_of l /\ l <> []).
  { inversion NE; subst; [now left|right]. split; [reflexivity|congruence]. }
  assert (IHl : match search_messages l n with
    | Some d => exists A B, path_of l = A ++ B /\ d = A ++ n /\ decl es top d /\
                forall A' B', path_of l = A' ++ B' -> length A < length A' -> ~ decl es top (A' ++ n)
    | None => forall A' B', path_of l = A' ++ B' -> A' <> [] -> ~ decl es top (A' ++ n)
    end).
  { apply IH; [exact NL|]. intros q' x' e1 m1 I. apply (NO q' x' e1 m1). now right. }
  clear IH. cbn [search_messages path_of].
  destruct (msg_getType (MT x es' ms) n) as [t|] eqn:G.
  { apply msg_getType_iff in G as (-> & G). exists q, [x]. split; [reflexivity|]. split; [reflexivity|]. split.
    - apply (reach_decl _ _ _ _ _ _ RQ). unfold decl. rewrite in_scope_iff. left. exists (MT x es' ms). auto.
    - intros A' B' H L D. apply app_prefix in H as [(-> & _)|(B & -> & _)].
      + apply (NO q x es' ms); [now left|]. destruct n as [|y n]; [congruence|].
        assert (y = x) as -> by (destruct G as [G|(r & G & _)]; congruence).
        apply (decl_prefix (q ++ [x; x]) n); [now destruct q|]. now rewrite <- app_assoc in *.
      + rewrite app_length in L. lia. }
  assert (MISS : find_enum es' n = None -> first_some (fun m => msg_getType m n) ms = None -> ~ decl es top ((q ++ [x]) ++ n)).
  { intros FE FM D. apply (reach_inv _ _ _ _ _ _ DN RX NZ) in D. unfold decl in D. rewrite in_scope_iff in D.
    destruct D as [(m & I & K)|(e & I & K)].
    - apply first_some_none with (x := m) in FM; [|exact I].
      assert (KK : msg_getType m n = Some n) by (apply msg_getType_iff; auto). congruence.
    - assert (KK : find_enum es' n = Some n) by (apply find_enum_iff; split; [reflexivity|now exists e]). congruence. }
  assert (HIT : decl es' ms n -> exists A B, q ++ [x] = A ++ B /\ q ++ x :: n = A ++ n /\ decl es top (q ++ x :: n) /\
     forall A' B', q ++ [x] = A' ++ B' -> length A < length A' -> ~ decl es top (A' ++ n)).
  { intros D. exists (q ++ [x]), []. split; [now rewrite app_nil_r|]. split; [now rewrite <- app_assoc|]. split.
    - change (x :: n) with ([x] ++ n). rewrite app_assoc. apply (reach_decl _ _ _ _ _ _ RX), D.
    - intros A' B' H L. apply f_equal with (f := @length _) in H. rewrite !app_length in *. lia. }
  destruct (find_enum es' n) as [t|] eqn:FE.
  { apply find_enum_iff in FE as (-> & e & I & E). apply HIT. unfold decl. rewrite in_scope_iff. right. now exists e. }
  destruct (first_some _ ms) as [t|] eqn:FM.
  { apply first_some_sound in FM as (m & I & K). apply msg_getType_iff in K as (-> & K). apply HIT.
    unfold decl. rewrite in_scope_iff. left. now exists m. }
  specialize (MISS eq_refl eq_refl).
  destruct (search_messages l n) as [d|].
  - destruct IHl as (A & B & P & -> & D & LAST). exists A.
    destruct PL as [(-> & ->)|(-> & NL')].
    + cbn in P. symmetry in P. apply app_eq_nil in P as [-> ->]. exists [x]. repeat split; [exact D|].
      intros A' B' H L DD. apply (app_prefix A' B' []) in H as [(-> & _)|(B & E & _)]; [now apply MISS|].
      symmetry in E. apply app_eq_nil in E as [-> _]. cbn in L. lia.
    + exists (B ++ [x]). split; [now rewrite P, app_assoc|]. split; [reflexivity|]. split; [exact D|].
      intros A' B' H L DD. apply app_prefix in H as [(-> & _)|(B0 & E & _)]; [now apply MISS|]. now apply (LAST A' B0).
  - intros A' B' H NA DD. destruct PL as [(-> & ->)|(-> & NL')].
    + apply (app_prefix A' B' []) in H as [(-> & _)|(B & E & _)]; [now apply MISS|].
      symmetry in E. apply app_eq_nil in E as [-> _]. congruence.
    + apply app_prefix in H as [(-> & _)|(B0 & E & _)]; [now apply MISS|]. now apply (IHl A' B0).
Qed.

(** * The whole search *)
Lemma prefix_cases : forall (a b c d : path), a ++ b = c ++ d -> (exists s, a = c ++ s /\ d = s ++ b) \/ (exists s, c = a ++ s /\ s <> [] /\ b = s ++ d).
Proof.
  induction a as [|x a IH]; intros b c d H; cbn in H.
  - destruct c as [|y c]; [left; exists []; cbn in H; auto|]. right. exists (y :: c). repeat split; [congruence|exact H].
  - destruct c as [|y c]; cbn in H.
    + left. exists (x :: a). split; [reflexivity|]. now rewrite <- H.
    + injection H as -> H. destruct (IH b c d H) as [(s & -> & ->)|(s & -> & NZ & ->)].
      * left. now exists s.
      * right. now exists s.
Qed.

(** A known name inside a message of the file itself is declared there. *)
Lemma known_inside : forall F p A n, unique_names F p -> n <> [] -> A <> [] -> declares (F p) A ->
  known F p (f_pkg (F p) ++ A ++ n) -> declares (F p) (A ++ n).
Proof.
  intros F p A n (U1 & U2 & U3) NZ NA DA (x & q & V & D & E). unfold full in E.
  assert (VP : visible F p p) by (now left).
  rewrite app_assoc in E. apply prefix_cases in E as [(s & E & ->)|(s & E & NS & ->)].
  - destruct s as [|c s].
    + rewrite app_nil_r in E. exfalso. apply (U3 p x A [] VP V DA). unfold full. now rewrite app_nil_r, E.
    + assert (DS : declares (F x) (c :: s)) by (apply (decl_prefix (c :: s) n); [congruence|exact D]).
      assert (x = p) as ->. { symmetry. apply (U2 p x A (c :: s) VP V DA DS). exact E. }
      apply app_inv_head in E. now rewrite E.
  - exfalso. apply (U3 p x A s VP V DA). exact E.
Qed.

Lemma nested_declares : forall es top chain A B, nested top chain -> path_of chain = A ++ B -> A <> [] -> decl es top A.
Proof.
  intros es top chain A B NE P NA. destruct chain as [|[q [x es' ms]] l].
  - cbn in P. destruct A; [congruence|discriminate].
  - apply (decl_prefix A B); [exact NA|]. rewrite <- P. cbn [path_of].
    destruct (nested_reach es _ _ _ _ _ _ NE) as (e0 & m0 & R & I).
    apply (reach_decl _ _ _ _ _ _ R). left. eapply dm_here, I.
Qed.

Lemma visible_import : forall F p b i y, In (b, i) (f_imports (F p)) -> pub F i y -> visible F p y.
Proof. intros F p b i y I P. right. now exists b, i. Qed.
Lemma visible_pub : forall F p y, pub F p y -> visible F p y.
Proof. intros F p y P. inversion P as [|a i b I P']; subst; [now left|]. right. now exists true, i. Qed.

Definition not_scalar (allow : bool) (n : path) : Prop := allow = true -> ~ scalar n.
Lemma scalar_test : forall n : path, match n with [s] => existsb (str_eqb s)
       [bs "double"; bs "float"; bs "int32"; bs "int64"; bs "uint32"; bs "uint64"; bs "sint32"; bs "sint64";
        bs "fixed32"; bs "fixed64"; bs "sfixed32"; bs "sfixed64"; bs "bool"; bs "string"; bs "bytes"]
     | _ => false end = true <-> scalar n.
Proof.
  intros n. unfold scalar. set (l := [bs "double"; bs "float"; bs "int32"; bs "int64"; bs "uint32"; bs "uint64"; bs "sint32"; bs "sint64";
        bs "fixed32"; bs "fixed64"; bs "sfixed32"; bs "sfixed64"; bs "bool"; bs "string"; bs "bytes"]). clearbody l.
  rewrite in_map_iff. destruct n as [|s [|s' n]].
  - split; [discriminate|]. intros (x & H & _). discriminate.
  - rewrite existsb_exists. split.
    + intros (x & I & H). destruct (str_eqb_spec s x) as [->|N]; [|discriminate]. now exists x.
    + intros (x & H & I). injection H as ->. exists s. split; [exact I|]. destruct (str_eqb_spec s s); congruence.
  - split; [discriminate|]. intros (x & H & _). discriminate.
Qed.

Lemma in_search_files : forall F p dot n x, In x (search_files F p dot n) <->
  x = p \/ (exists b, In (b, x) (f_imports (F p)) /\ f_pkg (F x) = f_pkg (F p)) \/
  (dot = false /\ exists b r, In (b, x) (f_imports (F p)) /\ f_pkg (F x) <> [] /\ n = f_pkg (F x) ++ r /\ r <> []).
Proof.
  intros F p dot n x. unfold search_files. cbn [In]. rewrite in_app_iff. split.
  - intros [->|[H|H]]; [now left| |].
    + apply in_map_iff in H as ([b i] & <- & I). apply filter_In in I as (I & E). apply path_eqb_iff in E. cbn in *.
      right. left. exists b. auto.
    + destruct dot; [destruct H|]. apply in_map_iff in H as ([b i] & <- & I). apply filter_In in I as (I & E).
      apply hasPathPrefix_iff in E as (NZ & r & E & NR). right. right. split; [reflexivity|]. exists b, r. auto.
  - intros [->|[(b & I & E)|(-> & b & r & I & NZ & E & NR)]]; [now left| |]; right.
    + left. apply in_map_iff. exists (b, x). split; [reflexivity|]. apply filter_In. split; [exact I|].
      apply path_eqb_iff. now symmetry.
    + right. apply in_map_iff. exists (b, x). split; [reflexivity|]. apply filter_In. split; [exact I|].
      apply hasPathPrefix_iff. split; [exact NZ|]. now exists r.
Qed.

Theorem resolve_means : forall F rank fuel allow p chain n,
  public_ok F rank -> (forall x, visible F p x -> rank x + length n < fuel) ->
  unique_names F p -> nested (f_msgs (F p)) chain -> no_own_name F p chain -> no_package_name F p ->
  package_once F p n -> local_or_full F p n -> n <> [] -> not_scalar allow n ->
  match resolve F fuel allow p chain false n with
  | RType x q => visible F p x /\ declares (F x) q /\ means F p (scope_of F p chain) n (full F x q)
  | RNotFound => forall d, ~ means F p (scope_of F p chain) n d
  | RScalar => False
  end.
Proof.
  intros F rank fuel allow p chain n PO FU UN NE OWN NPN ONCE LF NZ NS.
  assert (VP : visible F p p) by (now left).
  assert (SC : allow && negb false && match n with [s] => existsb (str_eqb s)
       [bs "double"; bs "float"; bs "int32"; bs "int64"; bs "uint32"; bs "uint64"; bs "sint32"; bs "sint64";
        bs "fixed32"; bs "fixed64"; bs "sfixed32"; bs "sfixed64"; bs "bool"; bs "string"; bs "bytes"]
     | _ => false end = false).
  { destruct allow; [|reflexivity]. cbn [andb negb]. apply Bool.not_true_is_false. rewrite scalar_test. now apply NS. }
  unfold resolve. rewrite SC. clear SC NS.
  assert (SM := search_messages_means (f_enums (F p)) (f_msgs (F p)) chain n NE (proj1 UN p VP) NZ OWN).
  assert (SCOPE : scope_of F p chain = f_pkg (F p) ++ path_of chain) by (destruct chain as [|[q [x es ms]] l]; reflexivity).
  (* a known name in a scope of the messages *)
  assert (INNER : forall S' T', scope_of F p chain = S' ++ T' -> known F p (S' ++ n) ->
     (exists T, f_pkg (F p) = S' ++ T) \/
     exists A', S' = f_pkg (F p) ++ A' /\ A' <> [] /\ path_of chain = A' ++ T' /\ decl (f_enums (F p)) (f_msgs (F p)) (A' ++ n)).
  { intros S' T' H K. rewrite SCOPE in H. apply prefix_cases in H as [(s & E & _)|(s & -> & NS & E)]; [left; now exists s|].
    right. exists s. repeat split; [exact NS|exact E|]. apply (known_inside F p s n UN NZ NS).
    - apply (nested_declares _ _ chain s T' NE E NS).
    - now rewrite app_assoc. }
  destruct (search_messages chain n) as [d|].
  { destruct SM as (A & B & P & -> & D & LAST). split; [exact VP|]. split; [exact D|].
    exists (f_pkg (F p) ++ A), B. split; [now rewrite SCOPE, P, app_assoc|].
    split; [unfold full; now rewrite app_assoc|]. split; [exists p, (A ++ n); auto|].
    intros S' T' H L K. destruct (INNER S' T' H K) as [(T & E)|(A' & -> & NA & PA & DA)].
    - apply f_equal with (f := @length _) in E. rewrite app_length in *. lia.
    - apply (LAST A' T' PA); [|exact DA]. rewrite !app_length in L. lia. }
  (* only scopes of the package are left *)
  assert (OUTER : forall S' T', scope_of F p chain = S' ++ T' -> known F p (S' ++ n) -> exists T, f_pkg (F p) = S' ++ T).
  { intros S' T' H K. destruct (INNER S' T' H K) as [E|(A' & -> & NA & PA & DA)]; [exact E|]. now apply (SM A' T' PA NA) in DA. }
  clear SM INNER.
  (* a type of the package is found in its files *)
  assert (SAME : forall z, visible F p z -> declares (F z) n -> f_pkg (F z) = f_pkg (F p) ->
     exists x r, In x (p :: map snd (filter (fun i => path_eqb (f_pkg (F p)) (f_pkg (F (snd i)))) (f_imports (F p)))) /\ proto_getType F fuel x n = Some r).
  { intros z V D E. destruct V as [->|(b & i & I & P)].
    - destruct (proto_getType_complete F rank PO fuel p n p n) as (r & R); [now apply FU|apply pub_refl|exact D|apply strips_0|].
      exists p, r. split; [now left|exact R].
    - destruct (proto_getType_complete F rank PO fuel i n z n) as (r & R);
        [apply FU; eapply visible_import; [exact I|apply pub_refl]|exact P|exact D|apply strips_0|].
      exists i, r. split; [right|exact R]. apply in_map_iff. exists (b, i). split; [reflexivity|]. apply filter_In.
      split; [exact I|]. apply path_eqb_iff. cbn. rewrite <- E. now rewrite (pub_pkg F rank PO i z P). }
  destruct (first_some (fun x => proto_getType F fuel x n) (search_files F p false n)) as [[y t]|] eqn:FS.
  - assert (FS' := FS). apply first_some_sound in FS as (x0 & I0 & G).
    apply proto_getType_sound with (rank := rank) in G as (P & D & ST); [|exact PO].
    apply in_search_files in I0.
    assert (PK := pub_pkg F rank PO x0 y P).
    assert (VY : visible F p y).
    { destruct I0 as [->|[(b & I & _)|(_ & b & r & I & _)]]; [now apply visible_pub|now apply (visible_import F p b x0)|now apply (visible_import F p b x0)]. }
    split; [exact VY|]. split; [exact D|]. unfold full. rewrite PK.
    inversion ST as [a|a b NP ST']; subst.
    + (* the path of a type of the file *)
      assert (E0 : f_pkg (F x0) = f_pkg (F p)).
      { destruct I0 as [->|[(b & _ & E)|(_ & b & r & _ & NP & E & NR)]]; [reflexivity|exact E|]. exfalso.
        destruct (f_pkg (F x0)) as [|c pk] eqn:Q; [congruence|]. apply (NPN y c pk VY PK).
        apply (decl_prefix [c] (pk ++ r)); [congruence|]. rewrite E in D. exact D. }
      rewrite E0. exists (f_pkg (F p)), (path_of chain). split; [exact SCOPE|]. split; [reflexivity|]. split.
      { exists y, t. split; [exact VY|]. split; [exact D|]. unfold full. now rewrite PK, E0. }
      intros S' T' H L K. destruct (OUTER S' T' H K) as (T & E).
      apply f_equal with (f := @length _) in E. rewrite app_length in E. lia.
    + (* a full name *)
      assert (a = t) as ->.
      { inversion ST' as [|a' b' _ ST2]; subst; [reflexivity|]. exfalso. rewrite <- PK in NP.
        apply (ONCE y a' VY NP). now rewrite PK. }
      exists [], (scope_of F p chain). split; [reflexivity|]. split; [reflexivity|]. split.
      { exists y, t. split; [exact VY|]. split; [exact D|]. unfold full. now rewrite PK. }
      intros S' T' H L K. destruct (OUTER S' T' H K) as (T & E).
      destruct K as (z & q & VZ & DZ & EZ). symmetry in EZ.
      destruct (LF S' T z q E VZ DZ EZ) as [(-> & EP)|(-> & _)]; [|cbn in L; lia].
      unfold full in EZ. rewrite EP in EZ. apply app_inv_head in EZ as ->.
      destruct (SAME z VZ DZ EP) as (x1 & r1 & I1 & G1).
      (* the file of the same package would have been met first *)
      assert (IS : first_some (fun x => proto_getType F fuel x (f_pkg (F x0) ++ t)) (p :: map snd (filter (fun i => path_eqb (f_pkg (F p)) (f_pkg (F (snd i)))) (f_imports (F p)))) = Some (y, t)).
      { unfold search_files in FS'. rewrite app_comm_cons in FS'.
        remember (p :: map snd (filter (fun i => path_eqb (f_pkg (F p)) (f_pkg (F (snd i)))) (f_imports (F p)))) as l1 eqn:L1. clear L1.
        destruct (first_some_some _ _ (fun x => proto_getType F fuel x (f_pkg (F x0) ++ t)) l1 x1 r1 I1 G1) as (z1 & Z1).
        assert (AP : forall l l2 w, first_some (fun x => proto_getType F fuel x (f_pkg (F x0) ++ t)) l = Some w ->
            first_some (fun x => proto_getType F fuel x (f_pkg (F x0) ++ t)) (l ++ l2) = Some w).
        { induction l as [|u l IHl]; intros l2 w W; [discriminate|]. cbn in *.
          destruct (proto_getType F fuel u (f_pkg (F x0) ++ t)); [exact W|now apply IHl]. }
        rewrite (AP _ _ _ Z1) in FS'. congruence. }
      apply first_some_sound in IS as (x2 & I2 & G2).
      assert (E2 : f_pkg (F x2) = f_pkg (F p)).
      { destruct I2 as [<-|I2]; [reflexivity|]. apply in_map_iff in I2 as ([b2 i2] & <- & I2). apply filter_In in I2 as (_ & I2).
        apply path_eqb_iff in I2. now symmetry. }
      assert (P2 : pub F x2 y) by (now apply proto_getType_sound with (rank := rank) in G2).
      assert (E3 : f_pkg (F x0) = f_pkg (F p)) by (rewrite <- PK, (pub_pkg F rank PO x2 y P2); exact E2).
      destruct (f_pkg (F x0)) as [|c pk] eqn:Q; [congruence|].
      apply (NPN z c pk VZ); [now rewrite EP|]. apply (decl_prefix [c] (pk ++ t)); [congruence|exact DZ].
  - intros d (S & T & H & -> & K & _). destruct (OUTER S T H K) as (T0 & E).
    destruct K as (z & q & VZ & DZ & EZ). symmetry in EZ.
    assert (NF := proj1 (first_some_none _ _ _ _) FS). clear FS. cbv beta in NF.
    destruct (LF S T0 z q E VZ DZ EZ) as [(-> & EP)|(-> & NP)].
    + unfold full in EZ. rewrite EP in EZ. apply app_inv_head in EZ as ->.
      destruct (SAME z VZ DZ EP) as (x1 & r1 & I1 & G1). rewrite NF in G1; [discriminate|].
      unfold search_files. rewrite app_comm_cons. apply in_or_app. now left.
    + cbn in EZ. unfold full in EZ.
      assert (exists i, In i (search_files F p false n) /\ visible F p i /\ pub F i z) as (i & I & VI & P).
      { destruct VZ as [->|(b & i & I & P)].
        - exists p. split; [now left|]. split; [exact VP|apply pub_refl].
        - exists i. split; [|split; [eapply visible_import; [exact I|apply pub_refl]|exact P]].
          apply in_search_files. right. right. split; [reflexivity|]. exists b, q.
          rewrite <- (pub_pkg F rank PO i z P). repeat split; [exact I|exact NP|now symmetry|].
          intros ->. now apply declared_not_nil in DZ. }
      destruct (proto_getType_complete F rank PO fuel i n z q) as (r & R); [now apply FU|exact P|exact DZ| |rewrite NF in R; [discriminate|exact I]].
      rewrite <- EZ, <- (pub_pkg F rank PO i z P). apply strips_S; [exact NP|apply strips_0].
Qed.

(** Names with a leading dot *)
Theorem resolve_dot : forall F rank fuel allow p chain n,
  public_ok F rank -> (forall x, visible F p x -> rank x + length n < fuel) ->
  no_package_name F p -> package_once F p n -> n <> [] ->
  (f_pkg (F p) = [] \/ exists r, r <> [] /\ n = f_pkg (F p) ++ r) ->
  (forall x q, visible F p x -> declares (F x) q -> full F x q = n -> f_pkg (F x) = f_pkg (F p)) ->
  match resolve F fuel allow p chain true n with
  | RType x q => visible F p x /\ declares (F x) q /\ means_dot F p n (full F x q)
  | RNotFound => forall d, ~ means_dot F p n d
  | RScalar => False
  end.
Proof.
  intros F rank fuel allow p chain n PO FU NPN ONCE NZ PRE OWN.
  unfold resolve. replace (allow && negb true) with false by (destruct allow; reflexivity). cbn [andb].
  assert (VP : visible F p p) by (now left).
  destruct (first_some (fun x => proto_getType F fuel x n) (search_files F p true n)) as [[y t]|] eqn:FS.
  - apply first_some_sound in FS as (x0 & I0 & G).
    apply proto_getType_sound with (rank := rank) in G as (P & D & ST); [|exact PO].
    apply in_search_files in I0.
    assert (PK := pub_pkg F rank PO x0 y P).
    assert (E0 : f_pkg (F x0) = f_pkg (F p)) by (destruct I0 as [->|[(b & _ & E)|(K & _)]]; [reflexivity|exact E|discriminate]).
    assert (VY : visible F p y).
    { destruct I0 as [->|[(b & I & _)|(_ & b & r & I & _)]]; [now apply visible_pub|now apply (visible_import F p b x0)|now apply (visible_import F p b x0)]. }
    split; [exact VY|]. split; [exact D|].
    assert (E : full F y t = n).
    { unfold full. rewrite PK. inversion ST as [a|a b NP ST']; subst.
      - destruct (f_pkg (F p)) as [|c pk] eqn:Q; [now rewrite E0|]. exfalso. destruct PRE as [E|(r & NR & E)]; [discriminate|].
        apply (NPN y c pk VY); [now rewrite PK|]. rewrite E in D. now apply (decl_prefix [c] (pk ++ r)) in D.
      - inversion ST' as [|a' b' _ ST2]; subst; [reflexivity|]. exfalso. rewrite <- PK in NP.
        apply (ONCE y a' VY NP). now rewrite PK. }
    split; [exact E|]. exists y, t. auto.
  - intros d (-> & z & q & VZ & DZ & EZ). assert (EP := OWN z q VZ DZ (eq_sym EZ)).
    assert (NF := proj1 (first_some_none _ _ _ _) FS). clear FS. cbv beta in NF. unfold full in EZ.
    assert (exists i, In i (search_files F p true n) /\ visible F p i /\ pub F i z) as (i & I & VI & P).
    { destruct VZ as [->|(b & i & I & P)].
      - exists p. split; [now left|]. split; [exact VP|apply pub_refl].
      - exists i. split; [|split; [eapply visible_import; [exact I|apply pub_refl]|exact P]].
        apply in_search_files. right. left. exists b. split; [exact I|]. now rewrite <- (pub_pkg F rank PO i z P). }
    destruct (proto_getType_complete F rank PO fuel i n z q) as (r & R); [now apply FU|exact P|exact DZ| |rewrite NF in R; [discriminate|exact I]].
    rewrite EZ, <- (pub_pkg F rank PO i z P). destruct (f_pkg (F z)) as [|c pk] eqn:Q; [cbn; apply strips_0|].
    apply strips_S; [congruence|apply strips_0].
Qed.

(** Means is a function. *)
Lemma means_fun : forall F p scope n d d', means F p scope n d -> means F p scope n d' -> d = d'.
Proof.
  intros F p scope n d d' (S & T & E & -> & K & L) (S' & T' & E' & -> & K' & L').
  destruct (lt_eq_lt_dec (length S) (length S')) as [[H|H]|H].
  - now apply (L S' T' E') in H.
  - rewrite E in E'. assert (S = S') as ->; [|reflexivity].
    clear - E' H. revert S' E' H. induction S as [|x S IH]; intros [|y S'] E H; try discriminate; [reflexivity|].
    cbn in *. injection E as -> E. f_equal. apply IH; [exact E|lia].
  - now apply (L' S T E) in H.
Qed.
