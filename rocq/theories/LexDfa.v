(** Derivatives of regular expressions, and a check, run by the kernel, that the
    lexer's table steps like the token kinds of LexSpec.v.  Helper definitions
    of the proofs; nothing here is part of the model or of the
    specification. *)
From Coq Require Import List ZArith Bool Lia FMapPositive.
From Verif Require Import AtnTable Atn LexSpec.
From Verif Require LexCache.
Import ListNotations.
Open Scope Z_scope.

(* ---------- equality ---------- *)
Fixpoint ranges_eqb (a b : ranges) : bool :=
  match a, b with
  | [], [] => true
  | (x, y) :: a, (z, w) :: b => (x =? z) && (y =? w) && ranges_eqb a b
  | _, _ => false
  end.
Fixpoint re_eqb (a b : re) : bool :=
  match a, b with
  | Nothing, Nothing => true
  | Empty, Empty => true
  | OneOf l, OneOf m => ranges_eqb l m
  | NoneOf l, NoneOf m => ranges_eqb l m
  | Seq a1 a2, Seq b1 b2 => re_eqb a1 b1 && re_eqb a2 b2
  | Or a1 a2, Or b1 b2 => re_eqb a1 b1 && re_eqb a2 b2
  | Many a, Many b => re_eqb a b
  | _, _ => false
  end.

Lemma ranges_eqb_eq a : forall b, ranges_eqb a b = true -> a = b.
Proof.
  induction a as [|[x y] a IH]; intros [|[z w] b]; cbn; intros H; try discriminate; auto.
  apply andb_prop in H as [H1 H2]. apply andb_prop in H1 as [H0 H1].
  apply Z.eqb_eq in H0, H1. rewrite (IH b H2). congruence.
Qed.
Lemma re_eqb_eq a : forall b, re_eqb a b = true -> a = b.
Proof.
  induction a; intros b H; destruct b; cbn in H; try discriminate; auto;
    try (apply ranges_eqb_eq in H; congruence);
    try (apply andb_prop in H as [H1 H2]; f_equal; auto).
  f_equal; auto.
Qed.

(* ---------- derivatives ---------- *)
Fixpoint nullable (r : re) : bool :=
  match r with
  | Nothing | OneOf _ | NoneOf _ => false
  | Empty | Many _ => true
  | Seq a b => nullable a && nullable b
  | Or a b => nullable a || nullable b
  end.

Definition mkseq (a b : re) : re :=
  match a, b with
  | Nothing, _ => Nothing
  | _, Nothing => Nothing
  | Empty, _ => b
  | _, _ => Seq a b
  end.

Fixpoint or_mem (x r : re) : bool :=
  match r with
  | Or a b => re_eqb x a || or_mem x b
  | _ => re_eqb x r
  end.
Fixpoint mkor (a b : re) : re :=
  match a with
  | Nothing => b
  | Or x y => mkor x (mkor y b)
  | _ => match b with
         | Nothing => a
         | _ => if or_mem a b then b else Or a b
         end
  end.

Definition charb (c : Z) : bool := (0 <=? c) && (c <=? 1114111).

Fixpoint deriv (c : Z) (r : re) : re :=
  match r with
  | Nothing | Empty => Nothing
  | OneOf l => if in_ranges l c then Empty else Nothing
  | NoneOf l => if charb c && negb (in_ranges l c) then Empty else Nothing
  | Seq a b => if nullable a then mkor (mkseq (deriv c a) b) (deriv c b)
               else mkseq (deriv c a) b
  | Or a b => mkor (deriv c a) (deriv c b)
  | Many a => mkseq (deriv c a) (Many a)
  end.

Lemma nullable_ok r : nullable r = true <-> matches r [].
Proof.
  induction r; cbn.
  - split; intros H; [discriminate | inversion H].
  - split; constructor.
  - split; intros H; [discriminate | inversion H].
  - split; intros H; [discriminate | inversion H].
  - rewrite andb_true_iff, IHr1, IHr2. split.
    + intros [A B]. change (@nil Z) with (@nil Z ++ []). now constructor.
    + intros H. inversion H as [| | |r s x y Hx Hy Er Ew| | | |]; subst.
      apply app_eq_nil in Ew as [-> ->]. auto.
  - rewrite orb_true_iff, IHr1, IHr2. split.
    + intros [A|B]; [now apply m_left | now apply m_right].
    + intros H. inversion H; subst; auto.
  - split; constructor.
Qed.

Lemma mkseq_ok a b w : matches (mkseq a b) w <-> matches (Seq a b) w.
Proof.
  assert (N1 : forall b w, matches (Seq Nothing b) w -> False)
    by (intros ? ? H; inversion H; subst; match goal with X : matches Nothing _ |- _ => inversion X end).
  assert (N2 : forall a w, matches (Seq a Nothing) w -> False)
    by (intros ? ? H; inversion H; subst; match goal with X : matches Nothing _ |- _ => inversion X end).
  assert (E1 : forall b w, matches (Seq Empty b) w <-> matches b w).
  { intros b0 w0; split; intros H.
    - inversion H; subst. match goal with X : matches Empty _ |- _ => inversion X; subst end. auto.
    - change w0 with ([] ++ w0). constructor; auto. constructor. }
  destruct a, b; cbn; try reflexivity;
    try (split; intros H; [inversion H | exfalso; eauto; fail]);
    try (symmetry; apply E1).
  all: exfalso; eauto.
Qed.

Lemma or_mem_ok x r : or_mem x r = true -> forall w, matches x w -> matches r w.
Proof.
  induction r; cbn; intros H w M;
    try (apply re_eqb_eq in H; subst; exact M).
  apply orb_prop in H as [H|H].
  - apply re_eqb_eq in H; subst. now apply m_left.
  - apply m_right. auto.
Qed.

Lemma or_iff a b w : matches (Or a b) w <-> matches a w \/ matches b w.
Proof.
  split; intros H.
  - inversion H; subst; auto.
  - destruct H; [now apply m_left | now apply m_right].
Qed.

Lemma mkor_ok a : forall b w, matches (mkor a b) w <-> matches a w \/ matches b w.
Proof.
  assert (G : forall a b w,
    matches (match b with Nothing => a | _ => if or_mem a b then b else Or a b end) w
    <-> matches a w \/ matches b w).
  { intros a0 b0 w0.
    assert (G2 : matches (if or_mem a0 b0 then b0 else Or a0 b0) w0
                 <-> matches a0 w0 \/ matches b0 w0).
    { destruct (or_mem a0 b0) eqn:E.
      - split; auto. intros [H|H]; auto. eapply or_mem_ok; eauto.
      - apply or_iff. }
    destruct b0; try exact G2.
    split; auto. intros [H|H]; auto. inversion H. }
  induction a; intros b w; cbn [mkor]; try apply G.
  - split; auto. intros [H|H]; auto. inversion H.
  - rewrite IHa1, IHa2, or_iff. tauto.
Qed.

Lemma many_cons r w c : matches (Many r) (c :: w) ->
  exists x y, w = x ++ y /\ matches r (c :: x) /\ matches (Many r) y.
Proof.
  intros H. remember (Many r) as m eqn:Em. remember (c :: w) as v eqn:Ev.
  revert w Ev. induction H; intros w Ev; try discriminate.
  injection Em as ->. destruct x as [|d x].
  - cbn in Ev. eapply IHmatches2; eauto.
  - cbn in Ev. injection Ev as -> <-. exists x, y. auto.
Qed.

Lemma charb_ok c : charb c = true <-> is_char c.
Proof. unfold charb, is_char. rewrite andb_true_iff, !Z.leb_le. tauto. Qed.

Lemma deriv_ok c r : forall w, matches (deriv c r) w <-> matches r (c :: w).
Proof.
  induction r; intros w; cbn [deriv].
  - split; intros H; inversion H.
  - split; intros H; inversion H.
  - destruct (in_ranges l c) eqn:E; split; intros H; inversion H; subst; try congruence;
      now constructor.
  - destruct (charb c && negb (in_ranges l c)) eqn:E.
    + apply andb_prop in E as [E1 E2]. apply charb_ok in E1. apply negb_true_iff in E2.
      split; intros H; inversion H; subst; now constructor.
    + split; intros H; inversion H; subst.
      match goal with X : is_char c |- _ => apply charb_ok in X; rewrite X in E end.
      match goal with X : in_ranges l c = false |- _ => rewrite X in E end. discriminate.
  - assert (S1 : matches (mkseq (deriv c r1) r2) w <->
      exists x y, w = x ++ y /\ matches r1 (c :: x) /\ matches r2 y).
    { rewrite mkseq_ok. split.
      - intros H. inversion H; subst. exists x, y. rewrite <- IHr1. auto.
      - intros (x & y & -> & H1 & H2). constructor; [apply IHr1|]; auto. }
    assert (S2 : matches (Seq r1 r2) (c :: w) <->
      (exists x y, w = x ++ y /\ matches r1 (c :: x) /\ matches r2 y)
      \/ (matches r1 [] /\ matches r2 (c :: w))).
    { split.
      - intros H. inversion H as [| | |r s x y Hx Hy Er Ew| | | |]; subst.
        destruct x as [|d x].
        + right. cbn. auto.
        + left. cbn in Ew. injection Ew as -> <-. exists x, y. auto.
      - intros [(x & y & -> & H1 & H2) | [H1 H2]].
        + change (c :: x ++ y) with ((c :: x) ++ y). now constructor.
        + change (c :: w) with ([] ++ c :: w). now constructor. }
    rewrite S2. destruct (nullable r1) eqn:E.
    + rewrite mkor_ok, S1, IHr2. apply nullable_ok in E. tauto.
    + rewrite S1. split; auto. intros [H|[H _]]; auto.
      apply nullable_ok in H. congruence.
  - rewrite mkor_ok, IHr1, IHr2, or_iff. tauto.
  - rewrite mkseq_ok. split.
    + intros H. inversion H; subst.
      change (c :: x ++ y) with ((c :: x) ++ y). constructor; auto. now apply IHr.
    + intros H. apply many_cons in H as (x & y & -> & H1 & H2).
      constructor; auto. now apply IHr.
Qed.

(* ---------- a vector of kinds ---------- *)
Definition vec := list (Z * re).
Fixpoint dvec (c : Z) (v : vec) : vec :=
  match v with
  | [] => []
  | (k, r) :: v' =>
      match deriv c r with
      | Nothing => dvec c v'
      | r' => (k, r') :: dvec c v'
      end
  end.
Fixpoint vaccept (v : vec) : option Z :=
  match v with
  | [] => None
  | (k, r) :: v' => if nullable r then Some k else vaccept v'
  end.

Definition vmatches (v : vec) (k : Z) (w : text) : Prop :=
  exists r, In (k, r) v /\ matches r w.

Lemma dvec_ok c v k w : vmatches (dvec c v) k w <-> vmatches v k (c :: w).
Proof.
  unfold vmatches. induction v as [|[k0 r0] v IH]; cbn [dvec].
  - split; intros (r & [] & _).
  - assert (G : forall d, d = deriv c r0 ->
      ((exists r, In (k, r) (match d with Nothing => dvec c v | _ => (k0, d) :: dvec c v end)
                 /\ matches r w)
       <-> (k = k0 /\ matches d w) \/ (exists r, In (k, r) (dvec c v) /\ matches r w))).
    { intros d _. destruct d; cbn [In]; split;
        try (intros (r & [E|H] & M); [injection E as <- <-; auto | right; exists r; auto]);
        try (intros [[-> M]|(r & H & M)]; [eexists; split; [left; reflexivity|exact M]
                                          | exists r; auto]).
      - intros (r & H & M). right. exists r. auto.
      - intros [[_ M]|(r & H & M)]; [inversion M | exists r; auto]. }
    specialize (G (deriv c r0) eq_refl).
    transitivity ((k = k0 /\ matches (deriv c r0) w) \/ (exists r, In (k, r) (dvec c v) /\ matches r w)).
    + rewrite <- G. destruct (deriv c r0); reflexivity.
    + rewrite IH, deriv_ok. split.
      * intros [[-> M]|(r & H & M)]; [exists r0; cbn; auto | exists r; cbn; auto].
      * intros (r & [E|H] & M); [injection E as <- <-; auto | right; exists r; auto].
Qed.

(* ---------- characters that nothing tells apart ---------- *)
(* the greatest element of an ascending list that is at most c *)
Fixpoint rep_from (b : Z) (l : list Z) (c : Z) : Z :=
  match l with
  | [] => b
  | x :: r => if x <=? c then rep_from x r c else b
  end.
Fixpoint ascending (b : Z) (l : list Z) : bool :=
  match l with
  | [] => true
  | x :: r => (b <? x) && ascending x r
  end.

Lemma rep_from_le l : forall b c, b <= c -> rep_from b l c <= c.
Proof.
  induction l as [|x l IH]; cbn; intros b c H; auto.
  destruct (x <=? c) eqn:E; auto. apply IH. now apply Z.leb_le.
Qed.
Lemma rep_from_ge l : forall b c, ascending b l = true -> b <= rep_from b l c.
Proof.
  induction l as [|x l IH]; cbn; intros b c H; [lia|].
  apply andb_prop in H as [H1 H2]. apply Z.ltb_lt in H1.
  destruct (x <=? c); [|lia]. specialize (IH x c H2). lia.
Qed.
Lemma asc_lt l : forall b y, ascending b l = true -> In y l -> b < y.
Proof.
  induction l as [|x l IH]; cbn; intros b y H H3; [easy|].
  apply andb_prop in H as [H1 H2]. apply Z.ltb_lt in H1.
  destruct H3 as [<-|H3]; [lia|]. specialize (IH x y H2 H3). lia.
Qed.
Lemma rep_from_in l : forall b c y, ascending b l = true -> In y (b :: l) -> y <= c ->
  y <= rep_from b l c.
Proof.
  induction l as [|x l IH]; intros b c y H Hin Hle.
  - cbn in *. destruct Hin as [<-|[]]; lia.
  - pose proof (rep_from_ge (x :: l) b c H) as G.
    destruct Hin as [<-|Hin]; auto.
    cbn in H. apply andb_prop in H as [H1 H2].
    cbn [rep_from]. destruct (x <=? c) eqn:E.
    + apply IH; auto.
    + apply Z.leb_gt in E. destruct Hin as [<-|Hin]; [lia|].
      pose proof (asc_lt l x y H2 Hin). lia.
Qed.
Lemma rep_in l : forall b c, In (rep_from b l c) (b :: l).
Proof.
  induction l as [|x l IH]; cbn; intros b c; auto.
  destruct (x <=? c); [right; apply (IH x c) | left; auto].
Qed.

(* ---------- the table ---------- *)
Definition no_atn : atn :=
  {| a_states := PositiveMap.empty _; a_rule_token := []; a_modes := []; a_actions := [] |}.
Definition lexer_atn : atn :=
  Eval vm_compute in
  match deserialize serialized_lexer with Some a => a | None => no_atn end.

(* the bounds of the sets of characters in the table and in the kinds *)
Definition trans_bounds (t : trans) : list Z :=
  match t with
  | TAtom _ l => [l; l + 1]
  | TRange _ lo hi => [lo; hi + 1]
  | TSet _ s | TNotSet _ s => flat_map (fun v => [fst v; snd v]) s
  | _ => []
  end.
Fixpoint re_bounds (r : re) : list Z :=
  match r with
  | Nothing | Empty => []
  | OneOf l | NoneOf l => flat_map (fun v => [fst v; snd v + 1]) l
  | Seq a b | Or a b => re_bounds a ++ re_bounds b
  | Many a => re_bounds a
  end.
Fixpoint insert (x : Z) (l : list Z) : list Z :=
  match l with
  | [] => [x]
  | y :: r => if x <? y then x :: l else if x =? y then l else y :: insert x r
  end.
Definition all_states : list astate := map snd (PositiveMap.elements (a_states lexer_atn)).
Definition all_bounds : list Z :=
  filter (fun x => (0 <? x) && (x <=? max_char))
    (fold_right insert []
      (flat_map (fun s => flat_map trans_bounds (as_trans s)) all_states
       ++ flat_map (fun p => re_bounds (snd p)) kinds)).
Definition bounds : list Z := Eval vm_compute in all_bounds.
Definition rep (c : Z) : Z := rep_from 0 bounds c.

(* ---------- exploring ---------- *)
Definition act_eqb (a b : action) : bool :=
  let '(x, y, z) := a in let '(x', y', z') := b in (x =? x') && (y =? y') && (z =? z').
Fixpoint acts_eqb (a b : list action) : bool :=
  match a, b with
  | [], [] => true
  | x :: a, y :: b => act_eqb x y && acts_eqb a b
  | _, _ => false
  end.
Definition exe_eqb (a b : option (list action)) : bool :=
  match a, b with
  | None, None => true
  | Some x, Some y => acts_eqb x y
  | _, _ => false
  end.
Definition config_eqb (a b : config) : bool :=
  (c_state a =? c_state b) && (c_alt a =? c_alt b) && zs_eqb (c_ctx a) (c_ctx b)
  && eqb (c_ng a) (c_ng b) && exe_eqb (c_act a) (c_act b).
Fixpoint configs_eqb (a b : list config) : bool :=
  match a, b with
  | [], [] => true
  | x :: a, y :: b => if config_eqb x y then configs_eqb a b else false
  | _, _ => false
  end.
Fixpoint vec_eqb (a b : vec) : bool :=
  match a, b with
  | [], [] => true
  | (k, r) :: a, (k', r') :: b => (k =? k') && re_eqb r r' && vec_eqb a b
  | _, _ => false
  end.
Definition pair : Type := (list config * vec)%type.
Definition pair_eqb (p q : pair) : bool :=
  if configs_eqb (fst p) (fst q) then vec_eqb (snd p) (snd q) else false.


(* ---------- the steps without hashes ---------- *)
(* The same with sets whose elements are compared as a whole.  The kernel
   computes these; hashes are computed once for each configuration that
   occurs, see [hashes_differ]. *)
Definition sadd (c : config) (s : list config) : list config :=
  if existsb (config_eqb c) s then s else s ++ [c].
Fixpoint sclosure (fuel : nat) (a : atn) (c : config) (cs : list config)
  (reached eof : bool) : option (list config * bool) :=
  match fuel with
  | O => None
  | S fuel' =>
      let* s := get_state (a_states a) (c_state c) in
      if as_type s =? ATNStateRuleStop then
        match c_ctx c with
        | [] => Some (sadd c cs, true)
        | r :: ctx => sclosure fuel' a (move a c r ctx (c_act c)) cs reached eof
        end
      else
        (fix go (ts : list trans) (cs : list config) (reached : bool) :=
           match ts with
           | [] => Some (cs, reached)
           | t :: ts' =>
               let* o := epsilon_target a c t eof in
               match o with
               | None => go ts' cs reached
               | Some c' =>
                   let* (cs', reached') := sclosure fuel' a c' cs reached eof in
                   go ts' cs' reached'
               end
           end) (as_trans s)
          (if negb (as_eps s) && (negb reached || negb (c_ng c)) then sadd c cs else cs) reached
  end.
Fixpoint sreach_edges (a : atn) (c : config) (ts : list trans) (t : Z)
  (cur : bool) (cs : list config) (skip : Z) : option (list config * Z) :=
  match ts with
  | [] => Some (cs, skip)
  | e :: ts' =>
      if matches_char e t then
        let* (cs', r) := sclosure lexer_fuel a (move a c (target e) (c_ctx c) (c_act c))
                           cs cur (t =? -1) in
        sreach_edges a c ts' t cur cs' (if r then c_alt c else skip)
      else sreach_edges a c ts' t cur cs skip
  end.
Fixpoint sreach_configs (a : atn) (l : list config) (t : Z) (cs : list config) (skip : Z)
  : option (list config) :=
  match l with
  | [] => Some cs
  | c :: r =>
      let cur := c_alt c =? skip in
      if cur && c_ng c then sreach_configs a r t cs skip
      else
        let* s := get_state (a_states a) (c_state c) in
        let* (cs', skip') := sreach_edges a c (as_trans s) t cur cs skip in
        sreach_configs a r t cs' skip'
  end.
Definition sreach (a : atn) (l : list config) (t : Z) : option (list config) :=
  sreach_configs a l t [] 0.
Fixpoint sstart_closures (a : atn) (ts : list trans) (i : Z) (cs : list config)
  : option (list config) :=
  match ts with
  | [] => Some cs
  | t :: ts' =>
      let* (cs', _) := sclosure lexer_fuel a
          {| c_state := target t; c_alt := i; c_ctx := []; c_ng := false;
             c_act := None |} cs false false in
      sstart_closures a ts' (i + 1) cs'
  end.
Definition sstart_configs (a : atn) : option (list config) :=
  let* n := at_index (a_modes a) 0 in
  let* s := get_state (a_states a) n in
  sstart_closures a (as_trans s) 1 [].

(* a number that tells characters apart exactly as it tells their
   representatives apart *)
Definition okb (x : Z) : bool :=
  (x <=? 0) || (max_char <? x) || existsb (Z.eqb x) bounds.

(* the steps of a pair; [None] when the two sides do not step alike *)
Definition succ (p : pair) (c : Z) : option (list pair) :=
  match sreach lexer_atn (fst p) c with
  | None => None
  | Some [] => match dvec c (snd p) with [] => Some [] | _ => None end
  | Some l => match dvec c (snd p) with [] => None | v => Some [(l, v)] end
  end.
Definition same_accept (p : pair) : bool :=
  match accepts lexer_atn (fst p), vaccept (snd p) with
  | Some None, None => true
  | Some (Some (k, e)), Some k' => (k =? k') && (channel e =? channel_of k)
  | _, _ => false
  end.
Definition ends (p : pair) : bool :=
  match sreach lexer_atn (fst p) (-1) with Some [] => true | _ => false end.
(* after a token of kind k, only a character that [glues] can make a longer one *)
Definition follow_ok (v : vec) : bool :=
  match vaccept v with
  | Some k => forallb (fun c => match dvec c v with [] => true | _ => glues k c end)
                (0 :: bounds)
  | None => true
  end.
(* a word, number or symbol cannot be continued to a token with a blank or a
   slash in it *)
Definition layout_starts : list Z := [9; 10; 12; 13; 32; 47].
Fixpoint avoids (r : re) : bool :=
  match r with
  | Nothing | Empty => true
  | OneOf l => forallb (fun c => negb (in_ranges l c)) layout_starts
  | NoneOf l => forallb (fun c => in_ranges l c) layout_starts
  | Seq a b | Or a b => avoids a && avoids b
  | Many a => avoids a
  end.
Definition avoid_ok (v : vec) : bool :=
  match vaccept v with
  | Some k => negb (channel_of k =? 0) || (k =? 54) || forallb (fun q => avoids (snd q)) v
  | None => true
  end.
Definition local_ok (p : pair) : bool :=
  same_accept p && ends p
  && forallb (fun q => forallb okb (re_bounds (snd q))) (snd p)
  && follow_ok (snd p) && avoid_ok (snd p).

Fixpoint succs (p : pair) (cs : list Z) : option (list pair) :=
  match cs with
  | [] => Some []
  | c :: r => match succ p c, succs p r with
              | Some x, Some y => Some (x ++ y)
              | _, _ => None
              end
  end.
Fixpoint add_new (l : list pair) (todo seen : list pair) : list pair * list pair :=
  match l with
  | [] => (todo, seen)
  | p :: r => if existsb (pair_eqb p) seen then add_new r todo seen
              else add_new r (p :: todo) (p :: seen)
  end.
Fixpoint explore (fuel : nat) (todo seen : list pair) : option (list pair) :=
  match fuel with
  | O => None
  | S k =>
      match todo with
      | [] => Some seen
      | p :: todo' =>
          if local_ok p then
            match succs p (0 :: bounds) with
            | Some l => let '(t, s) := add_new l todo' seen in explore k t s
            | None => None
            end
          else None
      end
  end.
Definition start_pair : pair :=
  (match sstart_configs lexer_atn with Some l => l | None => [] end, kinds).

(* ---------- what exploring establishes ---------- *)
Lemma act_eqb_eq a b : act_eqb a b = true -> a = b.
Proof.
  destruct a as [[x y] z], b as [[x' y'] z']. cbn. rewrite !andb_true_iff, !Z.eqb_eq.
  intros [[-> ->] ->]. reflexivity.
Qed.
Lemma acts_eqb_eq a : forall b, acts_eqb a b = true -> a = b.
Proof.
  induction a as [|x a IH]; intros [|y b]; cbn; intros H; try discriminate; auto.
  apply andb_prop in H as [H1 H2]. apply act_eqb_eq in H1. rewrite (IH b H2). congruence.
Qed.
Lemma zs_eqb_eq a : forall b, zs_eqb a b = true -> a = b.
Proof.
  induction a as [|x a IH]; intros [|y b]; cbn; intros H; try discriminate; auto.
  apply andb_prop in H as [H1 H2]. apply Z.eqb_eq in H1. rewrite (IH b H2). congruence.
Qed.
Lemma config_eqb_eq a b : config_eqb a b = true -> a = b.
Proof.
  destruct a as [s1 a1 x1 n1 e1], b as [s2 a2 x2 n2 e2]. unfold config_eqb; cbn.
  rewrite !andb_true_iff, !Z.eqb_eq. intros [[[[-> ->] H] H1] H2].
  apply zs_eqb_eq in H. apply eqb_prop in H1. subst.
  destruct e1, e2; cbn in H2; try discriminate; auto.
  apply acts_eqb_eq in H2. now subst.
Qed.
Lemma configs_eqb_eq a : forall b, configs_eqb a b = true -> a = b.
Proof.
  induction a as [|x a IH]; intros [|y b]; cbn; intros H; try discriminate; auto.
  apply andb_prop in H as [H1 H2]. apply config_eqb_eq in H1. rewrite (IH b H2). congruence.
Qed.
Lemma vec_eqb_eq a : forall b, vec_eqb a b = true -> a = b.
Proof.
  induction a as [|[k r] a IH]; intros [|[k' r'] b]; cbn; intros H; try discriminate; auto.
  apply andb_prop in H as [H1 H2]. apply andb_prop in H1 as [H0 H1].
  apply Z.eqb_eq in H0. apply re_eqb_eq in H1. rewrite (IH b H2). congruence.
Qed.
Lemma pair_eqb_eq p q : pair_eqb p q = true -> p = q.
Proof.
  destruct p, q. unfold pair_eqb; cbn. intros H. apply andb_prop in H as [H1 H2].
  apply configs_eqb_eq in H1. apply vec_eqb_eq in H2. congruence.
Qed.

Lemma add_new_spec l : forall todo seen t s, add_new l todo seen = (t, s) ->
  incl seen s /\ incl l s /\ (forall p, In p s -> In p seen \/ In p t)
  /\ incl todo t.
Proof.
  induction l as [|p l IH]; cbn; intros todo seen t s H.
  - injection H as <- <-. repeat split; auto using incl_refl. intros x [].
  - destruct (existsb (pair_eqb p) seen) eqn:E.
    + apply IH in H as (A & B & C & D). repeat split; auto.
      intros x [<-|Hx]; auto.
      apply existsb_exists in E as (q & Hq & Eq). apply pair_eqb_eq in Eq. subst. auto.
    + apply IH in H as (A & B & C & D). repeat split.
      * intros x Hx. apply A. now right.
      * intros x [<-|Hx]; auto. apply A. now left.
      * intros q Hq. destruct (C q Hq) as [[<-|F]|F]; auto.
        right. apply D. now left.
      * intros x Hx. apply D. now right.
Qed.

Definition good (seen : list pair) (p : pair) : Prop :=
  local_ok p = true /\ exists l, succs p (0 :: bounds) = Some l /\ incl l seen.

(* no two different sets of configurations have the same hash and are "equal" *)
Definition told_apart (l : list pair) : bool :=
  let hs := map (fun p => (LexCache.state_hash (fst p), fst p)) l in
  forallb (fun x => forallb (fun y =>
    if fst x =? fst y then
      if LexCache.configs_equal (snd x) (snd y) then configs_eqb (snd x) (snd y)
      else true
    else true) hs) hs.
Lemma told_apart_spec l p q : told_apart l = true -> In p l -> In q l ->
  LexCache.state_hash (fst p) = LexCache.state_hash (fst q) ->
  LexCache.configs_equal (fst p) (fst q) = true -> fst p = fst q.
Proof.
  intros H Hp Hq E1 E2. unfold told_apart in H. revert H E1.
  generalize LexCache.state_hash. intros f H E1.
  rewrite forallb_forall in H.
  specialize (H _ (in_map (fun p => (f (fst p), fst p)) _ _ Hp)).
  rewrite forallb_forall in H.
  specialize (H _ (in_map (fun p => (f (fst p), fst p)) _ _ Hq)).
  cbn [fst snd] in H. rewrite E1, Z.eqb_refl, E2 in H. now apply configs_eqb_eq.
Qed.

Lemma explore_spec fuel : forall todo seen r,
  explore fuel todo seen = Some r ->
  (forall p, In p seen -> In p todo \/ good seen p) ->
  incl seen r /\ forall p, In p r -> good r p.
Proof.
  induction fuel as [|k IH]; cbn [explore]; intros todo seen r H Hinv; [discriminate|].
  destruct todo as [|p todo].
  - injection H as <-. split; [apply incl_refl|].
    intros q Hq. destruct (Hinv q Hq) as [[]|G]; auto.
  - destruct (local_ok p) eqn:EL; [|discriminate].
    destruct (succs p (0 :: bounds)) as [l|] eqn:ES; [|discriminate].
    destruct (add_new l todo seen) as [t s] eqn:EA.
    apply add_new_spec in EA as (A & B & C & D).
    apply IH in H as [H1 H2].
    + split; auto. intros x Hx. apply H1, A, Hx.
    + intros q Hq. destruct (C q Hq) as [F|F]; auto.
      destruct (Hinv q F) as [[<-|T]|G].
      * right. split; auto. exists l. auto.
      * left. now apply D.
      * right. destruct G as [G1 (l' & G2 & G3)]. split; auto.
        exists l'. split; auto. intros x Hx. apply A, G3, Hx.
Qed.

(* the configurations in a list of pairs *)
Definition configs_of (l : list pair) : list config :=
  fold_right (fun c acc => if existsb (config_eqb c) acc then acc else c :: acc) []
    (flat_map fst l).
Fixpoint no_dup (l : list Z) : bool :=
  match l with
  | [] => true
  | x :: r => negb (existsb (Z.eqb x) r) && no_dup r
  end.
(* the check itself: 233 pairs, 78 characters each; 381 configurations with
   different hashes *)
Lemma explored :
  match explore 400 [start_pair] [start_pair] with
  | Some l => told_apart l && no_dup (map config_hash (configs_of l))
  | None => false
  end = true.
Proof. vm_cast_no_check (eq_refl true). Qed.

Lemma bounds_ascending : ascending 0 bounds = true.
Proof. vm_compute. reflexivity. Qed.
Lemma table_bounds :
  forallb (fun s => forallb (fun t => forallb okb (trans_bounds t)) (as_trans s)) all_states = true.
Proof. vm_cast_no_check (eq_refl true). Qed.
Lemma start_ok : sstart_configs lexer_atn <> None /\ accepts lexer_atn (fst start_pair) = Some None.
Proof.
  assert (H : match sstart_configs lexer_atn with
              | Some l => match accepts lexer_atn l with Some None => true | _ => false end
              | None => false end = true) by (vm_cast_no_check (eq_refl true)).
  unfold start_pair. destruct (sstart_configs lexer_atn) as [l|]; [|discriminate].
  split; [discriminate|]. cbn. destruct (accepts lexer_atn l) as [[?|]|]; try discriminate. auto.
Qed.

(* ---------- the steps with hashes ---------- *)
Definition tag (c : config) : Z * config := (config_hash c, c).
Definition inj (u : list config) : Prop :=
  forall x y, In x u -> In y u -> config_hash x = config_hash y -> x = y.

Lemma zs_eqb_refl l : zs_eqb l l = true.
Proof. induction l; cbn; auto. now rewrite Z.eqb_refl. Qed.
Lemma actions_eqb_refl l : actions_eqb l l = true.
Proof. induction l as [|[[x y] z] l IH]; cbn; auto. now rewrite Z.eqb_refl. Qed.
Lemma p_equals_refl c : p_equals c c = true.
Proof. unfold p_equals. now rewrite !Z.eqb_refl, zs_eqb_refl. Qed.
Lemma l_equals_refl c : l_equals c c = true.
Proof.
  unfold l_equals. rewrite eqb_reflx. cbn. destruct (c_act c); auto.
  now rewrite actions_eqb_refl, p_equals_refl.
Qed.
Lemma acts_eqb_refl l : acts_eqb l l = true.
Proof. induction l as [|[[x y] z] l IH]; cbn; auto. now rewrite !Z.eqb_refl. Qed.
Lemma config_eqb_refl c : config_eqb c c = true.
Proof.
  unfold config_eqb. rewrite !Z.eqb_refl, zs_eqb_refl, eqb_reflx. cbn.
  destruct (c_act c); cbn; auto using acts_eqb_refl.
Qed.
Lemma config_in c l : existsb (config_eqb c) l = true <-> In c l.
Proof.
  rewrite existsb_exists. split.
  - intros (x & H & E). apply config_eqb_eq in E. now subst.
  - intros H. exists c. auto using config_eqb_refl.
Qed.

Lemma sadd_incl c s : incl s (sadd c s) /\ In c (sadd c s).
Proof.
  unfold sadd. destruct (existsb (config_eqb c) s) eqn:E.
  - split; [apply incl_refl | now apply config_in].
  - split; [apply incl_appl, incl_refl | apply in_or_app; right; now left].
Qed.

Lemma add_tag u c s : inj u -> incl (sadd c s) u ->
  add_config (config_hash c) c (map tag s) = Some (map tag (sadd c s)).
Proof.
  intros J H. destruct (sadd_incl c s) as [Hs Hc].
  assert (Kc : In c u) by (apply H, Hc).
  assert (Ks : incl s u) by (intros x Hx; apply H, Hs, Hx).
  clear Hs Hc H. revert Ks. unfold sadd. induction s as [|c1 s IH]; intros Ks; [reflexivity|].
  cbn [map tag add_config existsb].
  assert (K1 : In c1 u) by (apply Ks; now left).
  assert (K : incl s u) by (intros x Hx; apply Ks; now right).
  destruct (config_eqb c c1) eqn:E.
  - apply config_eqb_eq in E. subst c1. rewrite Z.eqb_refl, l_equals_refl. cbn [orb andb].
    unfold same_config. rewrite p_equals_refl, eqb_reflx. reflexivity.
  - assert (N : config_hash c1 =? config_hash c = false).
    { apply Z.eqb_neq. intros F. apply J in F; auto. subst. rewrite config_eqb_refl in E. discriminate. }
    rewrite N. cbn [andb orb]. rewrite (IH K). cbn [bind].
    destruct (existsb (config_eqb c) s); reflexivity.
Qed.

Lemma sclosure_incl fuel : forall a c cs r eof cs' r',
  sclosure fuel a c cs r eof = Some (cs', r') -> incl cs cs'.
Proof.
  induction fuel as [|fuel IH]; intros a c cs r eof cs' r' H; cbn [sclosure] in H; [discriminate|].
  destruct (get_state (a_states a) (c_state c)) as [s|]; cbn [bind] in H; [|discriminate].
  destruct (as_type s =? ATNStateRuleStop).
  - destruct (c_ctx c) as [|x ctx].
    + injection H as <- <-. apply sadd_incl.
    + eapply IH; eauto.
  - set (cs1 := if negb (as_eps s) && (negb r || negb (c_ng c)) then sadd c cs else cs) in *.
    assert (I1 : incl cs cs1).
    { unfold cs1. destruct (negb (as_eps s) && (negb r || negb (c_ng c)));
        [apply sadd_incl | apply incl_refl]. }
    clearbody cs1. eapply incl_tran; [exact I1|]. clear I1. revert cs1 r H.
    induction (as_trans s) as [|t ts IHt]; intros cs1 r H.
    + injection H as <- <-. apply incl_refl.
    + destruct (epsilon_target a c t eof) as [[c'|]|]; cbn [bind] in H; [| |discriminate].
      * destruct (sclosure fuel a c' cs1 r eof) as [[cs2 r2]|] eqn:E; cbn [bind] in H; [|discriminate].
        eapply incl_tran; [eapply IH; eauto | eapply IHt; eauto].
      * eapply IHt; eauto.
Qed.

Lemma closure_tag u : inj u -> forall fuel a c cs r eof cs' r',
  sclosure fuel a c cs r eof = Some (cs', r') -> incl cs' u ->
  closure fuel a c (map tag cs) r eof = Some (map tag cs', r').
Proof.
  intros J. induction fuel as [|fuel IH]; intros a c cs r eof cs' r' H U;
    cbn [sclosure] in H; [discriminate|]. cbn [closure].
  destruct (get_state (a_states a) (c_state c)) as [s|]; cbn [bind] in *; [|discriminate].
  destruct (as_type s =? ATNStateRuleStop).
  - destruct (c_ctx c) as [|x ctx].
    + injection H as <- <-. rewrite (add_tag u) by auto. reflexivity.
    + apply IH; auto.
  - set (cs1 := if negb (as_eps s) && (negb r || negb (c_ng c)) then sadd c cs else cs) in *.
    assert (I1 : incl cs1 cs').
    { clearbody cs1. clear IH. revert cs1 r H.
      induction (as_trans s) as [|t ts IHt]; intros cs1 r H.
      + injection H as <- <-. apply incl_refl.
      + destruct (epsilon_target a c t eof) as [[c'|]|]; cbn [bind] in H; [| |discriminate].
        * destruct (sclosure fuel a c' cs1 r eof) as [[cs2 r2]|] eqn:E; cbn [bind] in H; [|discriminate].
          eapply incl_tran; [eapply sclosure_incl; eauto | eapply IHt; eauto].
        * eapply IHt; eauto. }
    assert (E1 : (if negb (as_eps s) && (negb r || negb (c_ng c))
                  then add_config (config_hash c) c (map tag cs) else @Some cset (map tag cs))
                 = @Some cset (map tag cs1)).
    { unfold cs1 in *. destruct (negb (as_eps s) && (negb r || negb (c_ng c))); auto.
      apply (add_tag u); auto. eapply incl_tran; eauto. }
    rewrite E1. cbn [bind]. clear E1 I1. clearbody cs1. revert cs1 r H.
    induction (as_trans s) as [|t ts IHt]; intros cs1 r H.
    + injection H as <- <-. reflexivity.
    + destruct (epsilon_target a c t eof) as [[c'|]|]; cbn [bind] in *; [| |discriminate].
      * destruct (sclosure fuel a c' cs1 r eof) as [[cs2 r2]|] eqn:E; cbn [bind] in H; [|discriminate].
        assert (I2 : incl cs2 cs').
        { clear - H. revert cs2 r2 H. induction ts as [|t ts IHt]; intros cs2 r2 H.
          - injection H as <- <-. apply incl_refl.
          - destruct (epsilon_target a c t eof) as [[c'|]|]; cbn [bind] in H; [| |discriminate].
            + destruct (sclosure fuel a c' cs2 r2 eof) as [[cs3 r3]|] eqn:E; cbn [bind] in H; [|discriminate].
              eapply incl_tran; [eapply sclosure_incl; eauto | eapply IHt; eauto].
            + eapply IHt; eauto. }
        rewrite (IH _ _ _ _ _ _ _ E) by (eapply incl_tran; eauto). cbn [bind].
        apply IHt; auto.
      * apply IHt; auto.
Qed.

Lemma sedges_incl a c t cur ts : forall cs skip cs' skip',
  sreach_edges a c ts t cur cs skip = Some (cs', skip') -> incl cs cs'.
Proof.
  induction ts as [|e ts IH]; cbn [sreach_edges]; intros cs skip cs' skip' H.
  - injection H as <- <-. apply incl_refl.
  - destruct (matches_char e t); [|eapply IH; eauto].
    destruct (sclosure _ _ _ _ _ _) as [[cs1 r1]|] eqn:E; cbn [bind] in H; [|discriminate].
    eapply incl_tran; [eapply sclosure_incl; eauto | eapply IH; eauto].
Qed.
Lemma edges_tag u a c t cur : inj u -> forall ts cs skip cs' skip',
  sreach_edges a c ts t cur cs skip = Some (cs', skip') -> incl cs' u ->
  reach_edges a c ts t cur (map tag cs) skip = Some (map tag cs', skip').
Proof.
  intros J. induction ts as [|e ts IH]; cbn [sreach_edges reach_edges]; intros cs skip cs' skip' H U.
  - injection H as <- <-. reflexivity.
  - destruct (matches_char e t); [|eapply IH; eauto].
    destruct (sclosure _ _ _ _ _ _) as [[cs1 r1]|] eqn:E; cbn [bind] in H; [|discriminate].
    rewrite (closure_tag u J _ _ _ _ _ _ _ _ E)
      by (eapply incl_tran; [eapply sedges_incl; eauto | exact U]).
    cbn [bind]. apply IH; auto.
Qed.
Lemma sconfigs_incl a t l : forall cs skip cs',
  sreach_configs a l t cs skip = Some cs' -> incl cs cs'.
Proof.
  induction l as [|c l IH]; cbn [sreach_configs]; intros cs skip cs' H.
  - injection H as <-. apply incl_refl.
  - destruct ((c_alt c =? skip) && c_ng c); [eapply IH; eauto|].
    destruct (get_state (a_states a) (c_state c)) as [s|]; cbn [bind] in H; [|discriminate].
    destruct (sreach_edges _ _ _ _ _ _ _) as [[cs1 k1]|] eqn:E; cbn [bind] in H; [|discriminate].
    eapply incl_tran; [eapply sedges_incl; eauto | eapply IH; eauto].
Qed.
Lemma configs_tag u a t : inj u -> forall l cs skip cs',
  sreach_configs a l t cs skip = Some cs' -> incl cs' u ->
  reach_configs a l t (map tag cs) skip = Some (map tag cs').
Proof.
  intros J. induction l as [|c l IH]; cbn [sreach_configs reach_configs]; intros cs skip cs' H U.
  - injection H as <-. reflexivity.
  - destruct ((c_alt c =? skip) && c_ng c); [eapply IH; eauto|].
    destruct (get_state (a_states a) (c_state c)) as [s|]; cbn [bind] in *; [|discriminate].
    destruct (sreach_edges _ _ _ _ _ _ _) as [[cs1 k1]|] eqn:E; cbn [bind] in H; [|discriminate].
    rewrite (edges_tag u _ _ _ _ J _ _ _ _ _ E)
      by (eapply incl_tran; [eapply sconfigs_incl; eauto | exact U]).
    cbn [bind]. apply IH; auto.
Qed.
Lemma untag l : map snd (map tag l) = l.
Proof. rewrite map_map. cbn. apply map_id. Qed.
Lemma reach_tag u a l t r : inj u -> sreach a l t = Some r -> incl r u -> reach a l t = Some r.
Proof.
  intros J H U. unfold reach. change (@nil (Z * config)) with (map tag []).
  rewrite (configs_tag u a t J _ _ _ _ H U). cbn [bind]. now rewrite untag.
Qed.
Lemma sstart_incl a ts : forall i cs cs',
  sstart_closures a ts i cs = Some cs' -> incl cs cs'.
Proof.
  induction ts as [|t ts IH]; cbn [sstart_closures]; intros i cs cs' H.
  - injection H as <-. apply incl_refl.
  - destruct (sclosure _ _ _ _ _ _) as [[cs1 r1]|] eqn:E; cbn [bind] in H; [|discriminate].
    eapply incl_tran; [eapply sclosure_incl; eauto | eapply IH; eauto].
Qed.
Lemma start_tag u a : inj u -> forall ts i cs cs',
  sstart_closures a ts i cs = Some cs' -> incl cs' u ->
  start_closures a ts i (map tag cs) = Some (map tag cs').
Proof.
  intros J. induction ts as [|t ts IH]; cbn [sstart_closures start_closures]; intros i cs cs' H U.
  - injection H as <-. reflexivity.
  - destruct (sclosure _ _ _ _ _ _) as [[cs1 r1]|] eqn:E; cbn [bind] in H; [|discriminate].
    rewrite (closure_tag u J _ _ _ _ _ _ _ _ E)
      by (eapply incl_tran; [eapply sstart_incl; eauto | exact U]).
    cbn [bind]. apply IH; auto.
Qed.
Lemma start_configs_tag u a l : inj u -> sstart_configs a = Some l -> incl l u ->
  start_configs a = Some l.
Proof.
  intros J H U. unfold sstart_configs, start_configs in *.
  destruct (at_index (a_modes a) 0) as [n|]; cbn [bind] in *; [|discriminate].
  destruct (get_state (a_states a) n) as [s|]; cbn [bind] in *; [|discriminate].
  change (@nil (Z * config)) with (map tag []).
  rewrite (start_tag u a J _ _ _ _ H U). cbn [bind]. now rewrite untag.
Qed.

Lemma no_dup_inj l : no_dup (map config_hash l) = true -> inj l.
Proof.
  induction l as [|c l IH]; cbn; intros H x y; [easy|].
  apply andb_prop in H as [H1 H2]. apply negb_true_iff in H1.
  assert (N : forall z, In z l -> config_hash c <> config_hash z).
  { intros z Hz E. assert (T : existsb (Z.eqb (config_hash c)) (map config_hash l) = true).
    { apply existsb_exists. exists (config_hash z). split; [now apply in_map|].
      now apply Z.eqb_eq. }
    congruence. }
  intros [<-|Hx] [<-|Hy] E; auto.
  - exfalso. eapply N; eauto.
  - exfalso. eapply N; eauto.
  - apply (IH H2); auto.
Qed.
Lemma configs_of_in l p c : In p l -> In c (fst p) -> In c (configs_of l).
Proof.
  intros Hp Hc. unfold configs_of.
  assert (H : In c (flat_map fst l)) by (apply in_flat_map; eauto).
  induction (flat_map fst l) as [|x m IH]; cbn [fold_right]; [easy|].
  destruct (existsb (config_eqb x) _) eqn:E.
  - destruct H as [<-|H]; auto. now apply config_in.
  - destruct H as [<-|H]; [now left | right; auto].
Qed.
