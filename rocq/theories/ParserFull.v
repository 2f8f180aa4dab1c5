(** The parser accepts every sentence of the grammar, if the predictions are right; the
    prediction with full context is right. *)
From Coq Require Import List ZArith Bool Arith Lia.
From Verif Require Import ParserNames Parser ParserSpec ParserProofs Sll.
Import ListNotations.
Open Scope Z_scope.

(* ---------- the decisions on one token ---------- *)
Definition subset (a b : list Z) : bool := forallb (fun x => mem x b) a.
Definition disjoint (a b : list Z) : bool := forallb (fun x => negb (mem x b)) a.
Lemma subset_incl a b : subset a b = true -> incl a b.
Proof. unfold subset. rewrite forallb_forall. intros H x Hx. apply mem_In. auto. Qed.
Lemma disjoint_not a b x : disjoint a b = true -> In x a -> In x b -> False.
Proof.
  unfold disjoint. rewrite forallb_forall. intros H A B. specialize (H _ A).
  apply mem_In in B. rewrite B in H. discriminate.
Qed.

Section Check.
Variable fol : nat -> list Z.
Definition firsts (q : nat) (l : list sym) : list Z := let (a, e) := look l in a ++ (if e then fol q else []).
Fixpoint find_index (t : Z) (cs : list (list Z * list code)) : nat :=
  match cs with
  | [] => O
  | (ts, _) :: cs' => if mem t ts then O else S (find_index t cs')
  end.
Definition loop_ok (q : nat) (ts : list Z) (b : list sym) (rest : list sym) : bool :=
  negb (snd (look b)) && subset (fst (look b)) ts && disjoint ts (firsts q rest).
Fixpoint ok (q : nat) (c : code) (rest : list sym) : bool :=
  let seq := fix seq l r :=
    match l with [] => true | c :: l' => ok q c (map erase l' ++ r) && seq l' r end in
  match c with
  | Match _ | MatchSet _ => true
  | Call p => subset (firsts q rest) (fol p)
  | If ts b => loop_ok q ts (map erase b) rest && seq b rest
  | While ts b | DoWhile ts b => loop_ok q ts (map erase b) rest && seq b (Star (map erase b) :: rest)
  | Switch cases =>
      forallb (fun p =>
        negb (snd (look (map erase (snd (snd p))))) &&
        forallb (fun t => (find_index t cases =? fst p)%nat) (fst (look (map erase (snd (snd p))))))
        (combine (List.seq 0 (length cases)) cases) &&
      forallb (fun p => seq (snd p) rest) cases
  | IfPredict _ b => seq b rest
  | WhilePredict _ b => seq b (Star (map erase b) :: rest)
  | SwitchPredict _ bs => forallb (fun b => seq b rest) bs
  end.
Definition oks (q : nat) : list code -> list sym -> bool :=
  fix seq l r :=
    match l with [] => true | c :: l' => ok q c (map erase l' ++ r) && seq l' r end.
End Check.

(** The tokens that can come after each rule *)
Definition follow_table : list (list Z) :=
[[-1]; [-1; 3; 6; 7; 32; 33; 34; 35; 39]; [-1; 3; 6; 7; 32; 33; 34; 35; 39];
 [-1; 3; 6; 7; 32; 33; 34; 35; 39];
 [-1; 1; 2; 3; 4; 5; 6; 7; 8; 9; 10; 11; 12; 13; 14; 15; 16; 17; 18; 19; 20; 21; 22; 23; 24; 25;
  26; 27; 28; 29; 30; 31; 32; 33; 34; 35; 36; 37; 38; 39; 46; 49; 55; 58]; [40];
 [1; 2; 3; 4; 5; 6; 7; 8; 10; 11; 12; 13; 14; 15; 16; 17; 18; 19; 20; 21; 22; 23; 24; 25; 26; 27;
  28; 29; 30; 31; 32; 33; 34; 35; 36; 37; 38; 49; 55; 58];
 [1; 2; 3; 4; 5; 6; 7; 8; 9; 10; 11; 12; 13; 14; 15; 16; 17; 18; 19; 20; 21; 22; 23; 24; 25; 26;
  27; 28; 29; 30; 31; 32; 33; 34; 35; 36; 37; 38; 39; 46; 49; 55; 58]; [44]; [
 44; 50]; [39; 43];
 [1; 2; 3; 4; 5; 6; 7; 8; 9; 10; 11; 12; 13; 14; 15; 16; 17; 18; 19; 20; 21; 22; 23; 24; 25; 26;
  27; 28; 29; 30; 31; 32; 33; 34; 35; 36; 37; 38; 39; 46; 49; 55; 58];
 [1; 2; 3; 4; 5; 6; 7; 8; 10; 11; 12; 13; 14; 15; 16; 17; 18; 19; 20; 21; 22; 23; 24; 25; 26; 27;
  28; 29; 30; 31; 32; 33; 34; 35; 36; 37; 38; 39; 46; 49; 55; 58];
 [1; 2; 3; 4; 5; 6; 7; 8; 9; 10; 11; 12; 13; 14; 15; 16; 17; 18; 19; 20; 21; 22; 23; 24; 25; 26;
  27; 28; 29; 30; 31; 32; 33; 34; 35; 36; 37; 38; 39; 46; 49; 55; 58]; [50];
 [1; 2; 3; 4; 5; 6; 7; 8; 10; 11; 12; 13; 14; 15; 16; 17; 18; 19; 20; 21; 22; 23; 24; 25; 26; 27;
  28; 29; 30; 31; 32; 33; 34; 35; 36; 37; 38; 48; 55; 58];
 [1; 2; 3; 4; 5; 6; 7; 8; 9; 10; 11; 12; 13; 14; 15; 16; 17; 18; 19; 20; 21; 22; 23; 24; 25; 26;
  27; 28; 29; 30; 31; 32; 33; 34; 35; 36; 37; 38; 39; 46; 49; 55; 58];
 [1; 2; 3; 4; 5; 6; 7; 8; 9; 10; 11; 12; 13; 14; 15; 16; 17; 18; 19; 20; 21; 22; 23; 24; 25; 26;
  27; 28; 29; 30; 31; 32; 33; 34; 35; 36; 37; 38; 39; 46; 49; 55; 58]; [
 39; 43]; [39; 43; 50]; [39]; [-1; 3; 6; 7; 32; 33; 34; 35; 39];
 [-1; 1; 2; 3; 4; 5; 6; 7; 8; 9; 10; 11; 12; 13; 14; 15; 16; 17; 18; 19; 20; 21; 22; 23; 24; 25;
  26; 27; 28; 29; 30; 31; 32; 33; 34; 35; 36; 37; 38; 39; 46; 49; 55; 58];
 [-1; 1; 2; 3; 4; 5; 6; 7; 8; 9; 10; 11; 12; 13; 14; 15; 16; 17; 18; 19; 20; 21; 22; 23; 24; 25;
  26; 27; 28; 29; 30; 31; 32; 33; 34; 35; 36; 37; 38; 39; 46; 49; 55; 58];
 [1; 2; 3; 4; 5; 6; 7; 8; 10; 11; 12; 13; 14; 15; 16; 17; 18; 19; 20; 21; 22; 23; 24; 25; 26; 27;
  28; 29; 30; 31; 32; 33; 34; 35; 36; 37; 38; 39; 46; 55; 58];
 [1; 2; 3; 4; 5; 6; 7; 8; 10; 11; 12; 13; 14; 15; 16; 17; 18; 19; 20; 21; 22; 23; 24; 25; 26; 27;
  28; 29; 30; 31; 32; 33; 34; 35; 36; 37; 38; 39; 46; 55; 58]; [39]; [44; 50];
 [-1; 1; 2; 3; 4; 5; 6; 7; 8; 9; 10; 11; 12; 13; 14; 15; 16; 17; 18; 19; 20; 21; 22; 23; 24; 25;
  26; 27; 28; 29; 30; 31; 32; 33; 34; 35; 36; 37; 38; 39; 46; 49; 55; 58];
 [-1; 1; 2; 3; 4; 5; 6; 7; 8; 9; 10; 11; 12; 13; 14; 15; 16; 17; 18; 19; 20; 21; 22; 23; 24; 25;
  26; 27; 28; 29; 30; 31; 32; 33; 34; 35; 36; 37; 38; 39; 46; 49; 55; 58];
 [1; 2; 3; 4; 5; 6; 7; 8; 9; 10; 11; 12; 13; 14; 15; 16; 17; 18; 19; 20; 21; 22; 23; 24; 25; 26;
  27; 28; 29; 30; 31; 32; 33; 34; 35; 36; 37; 38; 39; 46; 49; 55; 58];
 [-1; 1; 2; 3; 4; 5; 6; 7; 8; 9; 10; 11; 12; 13; 14; 15; 16; 17; 18; 19; 20; 21; 22; 23; 24; 25;
  26; 27; 28; 29; 30; 31; 32; 33; 34; 35; 36; 37; 38; 39; 46; 49; 55; 58];
 [-1; 3; 6; 7; 32; 33; 34; 35; 39]; [7; 36; 39; 46]; [7; 36; 39; 46];
 [1; 2; 3; 4; 5; 6; 7; 8; 10; 11; 12; 13; 14; 15; 16; 17; 18; 19; 20; 21; 22; 23; 24; 25; 26; 27;
  28; 29; 30; 31; 32; 33; 34; 35; 36; 37; 38; 39; 44; 46; 50; 55; 58];
 [1; 2; 3; 4; 5; 6; 7; 8; 10; 11; 12; 13; 14; 15; 16; 17; 18; 19; 20; 21; 22; 23; 24; 25; 26; 27;
  28; 29; 30; 31; 32; 33; 34; 35; 36; 37; 38; 39; 44; 46; 50; 55; 58];
 [-1; 1; 2; 3; 4; 5; 6; 7; 8; 9; 10; 11; 12; 13; 14; 15; 16; 17; 18; 19; 20; 21; 22; 23; 24; 25;
  26; 27; 28; 29; 30; 31; 32; 33; 34; 35; 36; 37; 38; 39; 46; 49; 55; 58];
 [1; 2; 3; 4; 5; 6; 7; 8; 10; 11; 12; 13; 14; 15; 16; 17; 18; 19; 20; 21; 22; 23; 24; 25; 26; 27;
  28; 29; 30; 31; 32; 33; 34; 35; 36; 37; 38; 39; 40; 41; 42; 44; 45; 46; 48; 49; 50; 51; 55; 58];
 [1; 2; 3; 4; 5; 6; 7; 8; 10; 11; 12; 13; 14; 15; 16; 17; 18; 19; 20; 21; 22; 23; 24; 25; 26; 27;
  28; 29; 30; 31; 32; 33; 34; 35; 36; 37; 38; 39; 40; 42; 44; 46; 50; 55; 58];
 [1; 2; 3; 4; 5; 6; 7; 8; 10; 11; 12; 13; 14; 15; 16; 17; 18; 19; 20; 21; 22; 23; 24; 25; 26; 27;
  28; 29; 30; 31; 32; 33; 34; 35; 36; 37; 38; 42; 45; 48; 55; 58];
 [1; 2; 3; 4; 5; 6; 7; 8; 10; 11; 12; 13; 14; 15; 16; 17; 18; 19; 20; 21; 22; 23; 24; 25; 26; 27;
  28; 29; 30; 31; 32; 33; 34; 35; 36; 37; 38; 45; 48; 55; 58]; [40]; [45]; [45]; [41];
 [1; 2; 3; 4; 5; 6; 7; 8; 10; 11; 12; 13; 14; 15; 16; 17; 18; 19; 20; 21; 22; 23; 24; 25; 26; 27;
  28; 29; 30; 31; 32; 33; 34; 35; 36; 37; 38; 42; 45; 48; 55; 58];
 [1; 2; 3; 4; 5; 6; 7; 8; 10; 11; 12; 13; 14; 15; 16; 17; 18; 19; 20; 21; 22; 23; 24; 25; 26; 27;
  28; 29; 30; 31; 32; 33; 34; 35; 36; 37; 38; 48; 55; 58];
 [1; 2; 3; 4; 5; 6; 7; 8; 10; 11; 12; 13; 14; 15; 16; 17; 18; 19; 20; 21; 22; 23; 24; 25; 26; 27;
  28; 29; 30; 31; 32; 33; 34; 35; 36; 37; 38; 39; 43; 44; 46; 50; 55; 58];
 [1; 2; 3; 4; 5; 6; 7; 8; 10; 11; 12; 13; 14; 15; 16; 17; 18; 19; 20; 21; 22; 23; 24; 25; 26; 27;
  28; 29; 30; 31; 32; 33; 34; 35; 36; 37; 38; 39; 44; 46; 50; 55; 58];
 [1; 2; 3; 4; 5; 6; 7; 8; 10; 11; 12; 13; 14; 15; 16; 17; 18; 19; 20; 21; 22; 23; 24; 25; 26; 27;
  28; 29; 30; 31; 32; 33; 34; 35; 36; 37; 38; 39; 44; 46; 50; 55; 58];
 [1; 2; 3; 4; 5; 6; 7; 8; 10; 11; 12; 13; 14; 15; 16; 17; 18; 19; 20; 21; 22; 23; 24; 25; 26; 27;
  28; 29; 30; 31; 32; 33; 34; 35; 36; 37; 38; 39; 44; 46; 50; 55; 58];
 [1; 2; 3; 4; 5; 6; 7; 8; 10; 11; 12; 13; 14; 15; 16; 17; 18; 19; 20; 21; 22; 23; 24; 25; 26; 27;
  28; 29; 30; 31; 32; 33; 34; 35; 36; 37; 38; 39; 40; 41; 42; 44; 45; 46; 48; 49; 50; 51; 55; 58]].
Definition fol (q : nat) : list Z := nth q follow_table [].
Lemma ok_all : forallb (fun q => oks fol q (body q) []) (seq 0 53) = true.
Proof. vm_compute. reflexivity. Qed.
Lemma ok_body q : oks fol q (body q) [] = true.
Proof.
  destruct (Nat.lt_ge_cases q 53) as [L|G].
  - pose proof ok_all as A. rewrite forallb_forall in A. apply A. apply in_seq. lia.
  - replace q with (53 + (q - 53))%nat by lia. rewrite body_beyond. reflexivity.
Qed.
Local Opaque look look_sym rule rhs body look_rule look_seq.

(** the next token, or the end *)
Definition ends (l : list sym) : list Z := let (a, e) := look l in a ++ (if e then [EOF] else []).
Lemma viable_la l w : viable l w -> In (la w) (ends l).
Proof.
  intros [f D]. apply derives_first in D. unfold ends. revert D. unfold first_ok.
  destruct (look l) as [a e]. destruct w as [|x w]; cbn; intros D; apply in_or_app; auto.
  subst e. right. cbn. auto.
Qed.
Definition follows (q : nat) (k : list sym) : Prop := incl (ends k) (fol q).
Lemma ends_app q l k : follows q k -> incl (ends (l ++ k)) (firsts fol q l).
Proof.
  unfold follows, ends, firsts. intros F. rewrite look_app. destruct (look l) as [a e]; cbn.
  destruct e; cbn; [|apply incl_refl]. destruct (look k) as [a' e']. cbn. rewrite <- app_assoc.
  apply incl_app; [now apply incl_appl, incl_refl|now apply incl_appr].
Qed.
Lemma first_in b l w : snd (look b) = false -> viable (b ++ l) w -> In (la w) (fst (look b)).
Proof.
  intros E V. apply viable_la in V. unfold ends in V. rewrite look_app, E in V. revert E V.
  destruct (look b) as [a e]; cbn. intros ->. now rewrite app_nil_r.
Qed.
Lemma sync_viable l k w : viable (l ++ k) w -> sync l (la w) = true.
Proof.
  intros V. apply viable_la in V. unfold sync. unfold ends in V. rewrite look_app in V. revert V.
  destruct (look l) as [a e]; cbn. destruct e; [reflexivity|]. cbn. rewrite app_nil_r. apply mem_In.
Qed.

Lemma viable_tok ks l w : viable (T ks :: l) w -> exists x w', w = x :: w' /\ In (t_kind x) ks /\ viable l w'.
Proof. intros [f D]. inversion D; subst. exists x, w0. repeat split; auto. now exists f0. Qed.
Lemma viable_opt b l w : viable (Opt b :: l) w <-> viable (b ++ l) w \/ viable l w.
Proof.
  split.
  - intros [f D]. inversion D; subst; [right|left]; eexists; eassumption.
  - intros [[f D]|[f D]]; exists f; [now apply d_opt|now apply d_opt_no].
Qed.
Lemma viable_star b l w : viable (Star b :: l) w <-> viable (b ++ Star b :: l) w \/ viable l w.
Proof.
  split.
  - intros [f D]. inversion D; subst; [right|left]; eexists; eassumption.
  - intros [[f D]|[f D]]; exists f; [now apply d_star|now apply d_star_end].
Qed.
Lemma viable_plus b l w : viable (Plus b :: l) w <-> viable (b ++ Star b :: l) w.
Proof.
  split.
  - intros [f D]. inversion D; subst. eexists; eassumption.
  - intros [f D]. exists f. now apply d_plus.
Qed.
Lemma viable_alt bs l w : viable (Alt bs :: l) w <-> exists b, In b bs /\ viable (b ++ l) w.
Proof.
  split.
  - intros [f D]. inversion D; subst. exists b. split; auto. eexists; eassumption.
  - intros (b & H & f & D). exists f. eapply d_alt; eauto.
Qed.
Lemma viable_call r l w : viable (N r :: l) w <-> viable (rule r ++ l) w.
Proof.
  split.
  - intros [f D]. inversion D; subst. eexists. eapply derives_app; eassumption.
  - intros [f D]. destruct (derives_split _ _ _ D _ _ eq_refl) as (w1 & w2 & f1 & f2 & -> & _ & A & B).
    eexists. econstructor; eassumption.
Qed.
Lemma eof_last_app a b : eof_last (a ++ b) -> eof_last b.
Proof. intros H c x d -> E. apply (H (a ++ c) x d); [now rewrite app_assoc|exact E]. Qed.

Definition right (o : oracle) : Prop := forall d alts inp, eof_last inp -> right_prediction alts inp (o d alts inp).
(** What can come after a rule in a file: what is left of the rules that called it *)
Inductive outer : nat -> list sym -> Prop :=
| outer_start : outer r_proto []
| outer_call p q rest k : In (q, rest) (calls p) -> outer p k -> outer q (rest ++ k).
(** A call of AdaptivePredict that the parser can make *)
Definition called (d : nat) (alts : list (list sym)) : Prop :=
  exists q ls k, In (d, ls) (decisions_seq (body q) []) /\ outer q k /\ alts = map (fun l => l ++ k) ls.
Definition right_calls (o : oracle) : Prop :=
  forall d alts inp, called d alts -> eof_last inp -> right_prediction alts inp (o d alts inp).
Lemma right_right o : right o -> right_calls o.
Proof. intros R d alts inp _. apply R. Qed.
(** a block of a rule *)
Definition inside (q : nat) (cs : list code) (r : list sym) : Prop :=
  incl (decisions_seq cs r) (decisions_seq (body q) []) /\ incl (calls_seq (map erase cs) r) (calls q).
Lemma decisions_cons c cs r : decisions_seq (c :: cs) r = decisions c (map erase cs ++ r) ++ decisions_seq cs r.
Proof. reflexivity. Qed.
Lemma calls_cons c cs r : calls_seq (map erase (c :: cs)) r = calls_sym (erase c) (map erase cs ++ r) ++ calls_seq (map erase cs) r.
Proof. reflexivity. Qed.
Lemma inside_cons q c cs r : inside q (c :: cs) r ->
  (incl (decisions c (map erase cs ++ r)) (decisions_seq (body q) []) /\ incl (calls_sym (erase c) (map erase cs ++ r)) (calls q)) /\ inside q cs r.
Proof.
  intros [A B]. rewrite decisions_cons in A. rewrite calls_cons in B. apply incl_app_inv in A. apply incl_app_inv in B. unfold inside. tauto.
Qed.
Lemma inside_both q c cs r : incl (decisions c (map erase cs ++ r)) (decisions_seq (body q) []) /\ incl (calls_sym (erase c) (map erase cs ++ r)) (calls q) ->
  inside q cs r -> inside q (c :: cs) r.
Proof. intros [A B] [C D]. split; [rewrite decisions_cons|rewrite calls_cons]; now apply incl_app. Qed.
Lemma inside_body q : inside q (body q) [].
Proof. split; apply incl_refl. Qed.
Lemma flat_map_part {A B} (g : A -> list B) x l m : In x l -> incl (flat_map g l) m -> incl (g x) m.
Proof. intros I H y Hy. apply H, in_flat_map. eauto. Qed.

Lemma find_index_case t cs : find_case t cs = option_map snd (nth_error cs (find_index t cs)).
Proof.
  induction cs as [|[ts b] cs IH]; [reflexivity|]. cbn. destruct (mem t ts); [reflexivity|]. exact IH.
Qed.
Lemma in_combine_seq {A} (l : list A) i x : nth_error l i = Some x -> forall s, In ((s + i)%nat, x) (combine (seq s (length l)) l).
Proof.
  revert i. induction l as [|y l IH]; intros [|i] E s; try discriminate.
  - injection E as ->. rewrite Nat.add_0_r. now left.
  - cbn [length seq combine]. right. rewrite <- Nat.add_succ_comm. now apply IH.
Qed.

Section Complete.
Variables o o' : oracle.
Hypothesis R : right_calls o.
Hypothesis R' : right_calls o'.
Lemma two_answers d alts inp : called d alts -> eof_last inp -> (exists l, In l alts /\ viable l inp) ->
  exists m l, o d alts inp = Some m /\ o' d alts inp = Some m /\ nth_error alts m = Some l /\ viable l inp.
Proof.
  intros Cd E H. destruct (R d alts inp Cd E H) as (m & l & A & B & C & D).
  destruct (R' d alts inp Cd E H) as (m' & l' & A' & B' & C' & D').
  assert (m' = m).
  { destruct (lt_eq_lt_dec m m') as [[L|L]|L]; auto.
    - exfalso. eapply D'; eauto.
    - exfalso. eapply D; eauto. }
  subst m'. exists m, l. auto.
Qed.

Definition good (r k : list sym) (x x' : result) : Prop :=
  x <> Err /\ (forall f rest, x = OK f rest -> viable (r ++ k) rest) /\ x' = x.
Lemma good_andthen r k x x' g g' r2 : good r k x x' ->
  (forall f rest, x = OK f rest -> viable (r ++ k) rest -> good r2 k (g f rest) (g' f rest)) ->
  good r2 k (andthen x g) (andthen x' g').
Proof.
  intros (A & B & ->) H. destruct x as [f rest| |]; cbn.
  - apply H; [reflexivity|]. eapply B. reflexivity.
  - exfalso. now apply A.
  - repeat split; discriminate.
Qed.
Lemma good_map r k x x' (h : list tree -> list tree) : good r k x x' ->
  good r k (andthen x (fun f rest => OK (h f) rest)) (andthen x' (fun f rest => OK (h f) rest)).
Proof.
  intros (A & B & ->). destruct x as [f rest| |]; cbn; repeat split; auto; try discriminate.
  intros f0 rest0 [= <- <-]. eauto.
Qed.
Lemma oks_cons q c l r : oks fol q (c :: l) r = true -> ok fol q c (map erase l ++ r) = true /\ oks fol q l r = true.
Proof. cbn [oks]. apply andb_true_iff. Qed.

Lemma exec_complete n : forall q cs r k inp, oks fol q cs r = true -> inside q cs r -> outer q k -> follows q k -> eof_last inp ->
  viable (map erase cs ++ r ++ k) inp -> good r k (exec o n cs r k inp) (exec o' n cs r k inp).
Proof.
  induction n as [|n IH]; intros q cs r k inp OKs Is Ou F EL V.
  { cbn. repeat split; discriminate. }
  destruct cs as [|c cs]; cbn [exec].
  { repeat split; try discriminate. intros f rest [= <- <-]. exact V. }
  apply oks_cons in OKs. destruct OKs as [Oc OKs]. apply inside_cons in Is. destruct Is as [Ic Is].
  cbn [map app] in V. rewrite app_assoc in V. set (rest := map erase cs ++ r) in *.
  assert (SY : sync (erase c :: rest) (la inp) = true) by (apply sync_viable with (k := k); exact V).
  assert (FK : incl (ends (rest ++ k)) (firsts fol q rest)) by now apply ends_app.
  (* what remains of the rule *)
  assert (Go : forall inp1, eof_last inp1 -> viable (rest ++ k) inp1 -> good r k (exec o n cs r k inp1) (exec o' n cs r k inp1)).
  { intros inp1 E1 V1. apply IH with (q := q); auto. unfold rest in V1. now rewrite <- app_assoc in V1. }
  assert (B : forall b r' next, oks fol q b r' = true -> inside q b r' -> oks fol q next r = true -> inside q next r ->
    viable (map erase b ++ r' ++ k) inp -> r' = map erase next ++ r ->
    good r k
      (andthen (exec o n b r' k inp) (fun f1 inp1 =>
        andthen (exec o n next r k inp1) (fun f2 inp2 => OK (f1 ++ f2) inp2)))
      (andthen (exec o' n b r' k inp) (fun f1 inp1 =>
        andthen (exec o' n next r k inp1) (fun f2 inp2 => OK (f1 ++ f2) inp2)))).
  { intros b r' next Ob Ib On Jn Vb Er. eapply good_andthen with (r := r'); [apply IH with (q := q); auto|].
    intros f1 inp1 E1 V1. apply good_map with (h := fun f2 => f1 ++ f2). apply IH with (q := q); auto.
    - apply exec_sound in E1. destruct E1 as (w & -> & _). now apply eof_last_app in EL.
    - rewrite Er, <- app_assoc in V1. exact V1. }
  assert (M : forall ts, viable (T ts :: rest ++ k) inp -> good r k
    match inp with
    | t :: inp' => if mem (t_kind t) ts
        then andthen (exec o n cs r k inp') (fun f inp2 => OK (Leaf t :: f) inp2) else Err
    | [] => Err
    end
    match inp with
    | t :: inp' => if mem (t_kind t) ts
        then andthen (exec o' n cs r k inp') (fun f inp2 => OK (Leaf t :: f) inp2) else Err
    | [] => Err
    end).
  { intros ts Vt. apply viable_tok in Vt. destruct Vt as (x & w & -> & I1 & V1).
    apply mem_In in I1. rewrite I1. apply good_map with (h := fun f => Leaf x :: f).
    apply Go; auto. now apply (eof_last_app [x]) in EL. }
  (* a decision on one token between a block and the rest *)
  assert (D1 : forall ts b l, loop_ok fol q ts b rest = true -> viable (b ++ l) inp \/ viable (rest ++ k) inp ->
     if mem (la inp) ts then viable (b ++ l) inp else viable (rest ++ k) inp).
  { intros ts b l L H. unfold loop_ok in L. rewrite !andb_true_iff in L. destruct L as [[L1 L2] L3].
    apply negb_true_iff in L1. apply subset_incl in L2. destruct (mem (la inp) ts) eqn:Mt.
    - apply mem_In in Mt. destruct H as [H|H]; [exact H|]. exfalso. apply viable_la in H.
      eapply disjoint_not; [exact L3|exact Mt|]. now apply FK.
    - destruct H as [H|H]; [|exact H]. exfalso. apply first_in in H; [|exact L1]. apply L2 in H.
      apply mem_In in H. congruence. }
  destruct c as [t|ts|p|ts b|ts b|ts b|cases|d b|d b|d bs]; rewrite ?SY; cbn [erase] in V.
  - now apply M.
  - now apply M.
  - (* Call *)
    cbn [app] in V. rewrite viable_call in V.
    cbn [ok] in Oc. apply subset_incl in Oc.
    eapply good_andthen with (r := rest).
    + assert (G : good [] (rest ++ k) (exec o n (body p) [] (rest ++ k) inp) (exec o' n (body p) [] (rest ++ k) inp)).
      { apply IH with (q := p); auto.
        - apply ok_body.
        - apply inside_body.
        - apply (outer_call q); [|exact Ou]. apply Ic. now left.
        - intros x Hx. apply Oc, FK, Hx.
        - cbn [app]. change (map erase (body p)) with (rhs p). rewrite rhs_rule. exact V. }
      exact G.
    + intros f1 inp1 E1 V1. apply good_map with (h := fun f2 => Node p f1 :: f2). apply Go; auto.
      apply exec_sound in E1. destruct E1 as (w & -> & _). now apply eof_last_app in EL.
  - (* If *)
    cbn [ok] in Oc. apply andb_true_iff in Oc. destruct Oc as [L Ob].
    cbn [app] in V. rewrite viable_opt in V. specialize (D1 ts _ _ L V).
    destruct (mem (la inp) ts); [|now apply Go]. apply B; auto.
  - (* While *)
    pose proof Oc as Oc'. cbn [ok] in Oc. apply andb_true_iff in Oc. destruct Oc as [L Ob].
    cbn [app] in V. rewrite viable_star in V. specialize (D1 ts _ _ L V).
    destruct (mem (la inp) ts); [|now apply Go]. apply B; auto; [|now apply inside_both].
    cbn [oks]. apply andb_true_iff. split; auto.
  - (* DoWhile *)
    pose proof Oc as Oc'. cbn [ok] in Oc. apply andb_true_iff in Oc. destruct Oc as [L Ob].
    cbn [app] in V. rewrite viable_plus in V. apply B; auto; [|apply inside_both; [exact Ic|exact Is]].
    cbn [oks]. apply andb_true_iff. split; auto.
  - (* Switch *)
    cbn [ok] in Oc. apply andb_true_iff in Oc. destruct Oc as [L Ob].
    cbn [app] in V. rewrite viable_alt in V. destruct V as (b0 & Ib & Vb).
    apply in_map_iff in Ib. destruct Ib as ([ts b] & Eb & Ib). cbn in Eb. subst b0.
    destruct (In_nth_error _ _ Ib) as [j Ej]. rewrite forallb_forall in L.
    specialize (L _ (in_combine_seq _ _ _ Ej 0)). cbn in L. apply andb_true_iff in L. destruct L as [L1 L2].
    apply negb_true_iff in L1. rewrite forallb_forall in L2.
    apply first_in in Vb as Fb; [|exact L1]. specialize (L2 _ Fb). apply Nat.eqb_eq in L2.
    rewrite find_index_case, L2, Ej. cbn [option_map snd].
    rewrite forallb_forall in Ob. specialize (Ob _ Ib). cbn in Ob. apply B; auto. destruct Ic as [I1 I2]. split.
    + exact (flat_map_part (fun p => decisions_seq (snd p) rest) _ _ _ Ib I1).
    + refine (flat_map_part (fun b => calls_seq b rest) (map erase b) _ _ _ I2). apply in_map_iff. now exists (ts, b).
  - (* IfPredict *)
    cbn [ok] in Oc. cbn [app] in V. rewrite viable_opt in V.
    assert (Cd : called d [map erase b ++ rest ++ k; rest ++ k]).
    { exists q, [map erase b ++ rest; rest], k. split; [apply Ic; now left|]. split; [exact Ou|]. cbn [map]. now rewrite app_assoc. }
    destruct (two_answers d [map erase b ++ rest ++ k; rest ++ k] inp Cd EL) as (m & l & E1 & E2 & N & Vl).
    { destruct V as [V|V]; eexists; (split; [|exact V]); cbn; auto. }
    rewrite E1, E2. destruct m as [|m].
    + injection N as <-. apply B; auto. destruct Ic as [I1 I2]. split; [|exact I2]. intros y Hy. apply I1. now right.
    + destruct m as [|m]; [|destruct m; discriminate]. injection N as <-. now apply Go.
  - (* WhilePredict *)
    pose proof Oc as Oc'. cbn [ok] in Oc. cbn [app] in V. rewrite viable_star in V.
    assert (Cd : called d [map erase b ++ erase (WhilePredict d b) :: rest ++ k; rest ++ k]).
    { exists q, [map erase b ++ erase (WhilePredict d b) :: rest; rest], k. split; [apply Ic; now left|]. split; [exact Ou|].
      cbn [map]. now rewrite <- app_assoc. }
    destruct (two_answers d [map erase b ++ erase (WhilePredict d b) :: rest ++ k; rest ++ k] inp Cd EL) as (m & l & E1 & E2 & N & Vl).
    { destruct V as [V|V]; eexists; (split; [|exact V]); cbn; auto. }
    rewrite E1, E2. destruct m as [|m].
    + injection N as <-. apply B; auto.
      * destruct Ic as [I1 I2]. split; [|exact I2]. intros y Hy. apply I1. now right.
      * cbn [oks]. apply andb_true_iff. split; auto.
      * now apply inside_both.
    + destruct m as [|m]; [|destruct m; discriminate]. injection N as <-. now apply Go.
  - (* SwitchPredict *)
    cbn [ok] in Oc. cbn [app] in V. rewrite viable_alt in V. destruct V as (b0 & Ib & Vb).
    assert (Cd : called d (map (fun b => map erase b ++ rest ++ k) bs)).
    { exists q, (map (fun b => map erase b ++ rest) bs), k. split; [apply Ic; now left|]. split; [exact Ou|].
      rewrite map_map. apply map_ext. intros b. apply app_assoc. }
    destruct (two_answers d (map (fun b => map erase b ++ rest ++ k) bs) inp Cd EL) as (m & l & E1 & E2 & N & Vl).
    { apply in_map_iff in Ib. destruct Ib as (b & Eb & Ib). exists (b0 ++ rest ++ k). split; [|exact Vb].
      apply in_map_iff. exists b. split; auto. now rewrite <- Eb. }
    rewrite E1, E2. rewrite nth_error_map in N. destruct (nth_error bs m) as [b|] eqn:Nb; [|discriminate].
    injection N as <-. rewrite forallb_forall in Oc. specialize (Oc _ (nth_error_In _ _ Nb)). apply B; auto. destruct Ic as [I1 I2]. split.
    + intros y Hy. apply I1. right. apply in_flat_map. exists b. split; [now apply (nth_error_In _ m)|exact Hy].
    + refine (flat_map_part (fun b => calls_seq b rest) (map erase b) _ _ _ I2). apply in_map. now apply (nth_error_In _ m).
Qed.

Lemma parse_complete w : eof_last w -> sentence w -> exists x, parse o w = OK [x] [] /\ parse o' w = OK [x] [].
Proof.
  intros EL (x & D). unfold file_tree in D.
  assert (V : viable (rule r_proto ++ []) w) by (apply viable_call; eexists; exact D).
  assert (F : follows r_proto []).
  { unfold follows, ends. rewrite look_nil. apply subset_incl. vm_compute. reflexivity. }
  assert (G : good [] [] (exec o (100 * length w + 100) (body r_proto) [] [] w)
                         (exec o' (100 * length w + 100) (body r_proto) [] [] w)).
  { refine (exec_complete _ r_proto _ _ _ _ (ok_body _) (inside_body _) outer_start F EL _).
    cbn [app]. change (map erase (body r_proto)) with (rhs r_proto). rewrite rhs_rule. exact V. }
  pose proof (parse_ends o w) as E. unfold parse in *. destruct G as (G1 & G2 & ->).
  destruct (exec o _ _ _ _ w) as [f rest| |]; cbn in *; try contradiction.
  destruct (G2 _ _ eq_refl) as [g Dg]. inversion Dg; subst. eauto.
Qed.
End Complete.
