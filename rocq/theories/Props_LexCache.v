(** C78: what the lexer finds in a file does not depend on the files that were
    read before it, nor on the files other goroutines read at the same time.
    [lex_file] (LexFile.v) reads one file with no cache; C75 says what it
    finds. *)
From Coq Require Import List ZArith Bool Lia String Ascii.
From Verif Require Import Base GoStr AtnTable Atn LexSpec LexDfa LexProofs LexFile LexFileSpec
  LexFileProofs LexCache LexCacheProofs.
Import ListNotations.
Open Scope Z_scope.
#[local] Opaque lexer_atn.

(* ---------- the table ---------- *)
Definition table_known (seen : list pair) (l : list config) : Prop :=
  exists v, In (l, v) seen.

Lemma table_start seen : sound seen -> In start_pair seen ->
  exists l, start_configs lexer_atn = Some l /\ table_known seen l.
Proof.
  intros G H. exists (fst start_pair). split; [exact (start_is seen G H)|].
  exists (snd start_pair). rewrite <- surjective_pairing. exact H.
Qed.
Lemma table_reach seen : sound seen ->
  forall l c, table_known seen l -> is_char c ->
  exists r, reach lexer_atn l c = Some r /\ (r <> [] -> table_known seen r).
Proof.
  intros G l c (v & H) C. destruct (pair_step seen (l, v) c G H C)
    as [[R _]|(r & w & R & _ & _ & _ & K)]; cbn [fst] in R.
  - exists []. split; [exact R|congruence].
  - exists r. split; [exact R|]. intros _. exists w. exact K.
Qed.
Lemma table_eof seen : sound seen ->
  forall l, table_known seen l -> reach lexer_atn l (-1) = Some [].
Proof. intros G l (v & H). exact (ends_is seen _ G H). Qed.
Lemma table_acc seen : sound seen ->
  forall l, table_known seen l -> exists acc, accepts lexer_atn l = Some acc.
Proof.
  intros [G _] l (v & H). destruct (G _ H) as [L _]. apply local_parts in L as (E & _).
  unfold same_accept in E. cbn [fst] in E.
  destruct (accepts lexer_atn l) as [acc|]; [exists acc; reflexivity|discriminate].
Qed.
Lemma table_apart seen : told_apart seen = true -> forall l m,
  table_known seen l -> table_known seen m -> state_hash m = state_hash l ->
  configs_equal l m = true -> l = m.
Proof.
  intros T l m (v & Hl) (w & Hm) E1 E2.
  exact (told_apart_spec seen (l, v) (m, w) T Hl Hm (eq_sym E1) E2).
Qed.

Lemma lex_file_some f : exists l, lex_file f = Some l.
Proof.
  unfold lex_file. rewrite lex_lexer.
  assert (T : is_text (ReadRunes f)) by (eapply decoded_text, ReadRunes_decoded).
  destruct (lex_spec (ReadRunes f) T) as (l & E & _). exists (l ++ [eof_token]). exact E.
Qed.

Lemma lex_dfa_ok a (char : Z -> Prop) (known : list config -> Prop) inp l d :
  (exists l, start_configs a = Some l /\ known l) ->
  (forall l c, known l -> char c -> exists r, reach a l c = Some r /\ (r <> [] -> known r)) ->
  (forall l, known l -> reach a l (-1) = Some []) ->
  (forall l, known l -> exists acc, accepts a l = Some acc) ->
  (forall l m, known l -> known m -> state_hash m = state_hash l ->
     configs_equal l m = true -> l = m) ->
  inv a known d -> Forall char inp -> lex_with a inp = Some l ->
  ok a known (fun x _ => x = l) (lex_dfa a inp) d.
Proof. intros A B C D E I F L. exact (tokens_ok a char known A B C D E _ _ _ _ _ I F L). Qed.
Lemma lex_file_dfa_eq f : lex_file_dfa f = lex_dfa lexer_atn (ReadRunes f).
Proof. unfold lex_file_dfa. now rewrite deserialized. Qed.
Lemma lex_file_eq f : lex_file f = lex_with lexer_atn (ReadRunes f).
Proof. unfold lex_file. now rewrite lex_lexer. Qed.
Lemma lex_ok seen f l d :
  In start_pair seen -> sound seen -> told_apart seen = true ->
  lex_file f = Some l -> inv lexer_atn (table_known seen) d ->
  ok lexer_atn (table_known seen) (fun x _ => x = l) (lex_file_dfa f) d.
Proof.
  intros S G T E I. rewrite lex_file_eq in E. rewrite lex_file_dfa_eq.
  apply (lex_dfa_ok lexer_atn is_char (table_known seen) (ReadRunes f) l d
    (table_start seen G S) (table_reach seen G) (table_eof seen G) (table_acc seen G)
    (table_apart seen T) I (decoded_text f _ (ReadRunes_decoded f)) E).
Qed.

Lemma map_cons_eq {A B C} (g : A -> C) (h : B -> C) a x b y :
  map g (a :: x) = map h (b :: y) -> g a = h b /\ map g x = map h y.
Proof. cbn [map]. intros E. injection E as E1 E2. auto. Qed.
Lemma reads_ok seen : 
  In start_pair seen -> sound seen -> told_apart seen = true ->
  forall fs ls, map lex_file fs = map Some ls ->
  forall d, inv lexer_atn (table_known seen) d ->
  ok lexer_atn (table_known seen) (fun x _ => x = ls) (reads fs) d.
Proof.
  intros S G T fs. induction fs as [|f fs IH]; intros [|l ls] E d I;
    [| apply (f_equal (@length _)) in E; discriminate | apply (f_equal (@length _)) in E; discriminate |].
  - apply ok_ret. reflexivity.
  - apply map_cons_eq in E as [E1 E2]. cbn [reads].
    eapply ok_bind; [exact I | exact (lex_ok seen f l d S G T E1 I) |].
    intros x d' X I' ->. eapply ok_bind; [exact I' | exact (IH ls E2 d' I') |].
    intros y d2 X2 I2 ->. apply ok_ret. reflexivity.
Qed.

Lemma lexed_all fs : exists ls, map lex_file fs = map Some ls.
Proof.
  induction fs as [|f fs (ls & E)]; [exists []; reflexivity|].
  destruct (lex_file_some f) as [l El]. exists (l :: ls). cbn [map]. now rewrite El, E.
Qed.

(* ---------- C78 ---------- *)

(** Any number of goroutines read files, each one after the other, starting with
    an empty cache that they share; their operations interleave in any way.  At
    every moment each goroutine is either able to go on, or is done and has
    found in each of its files what a lexer on its own finds. *)
Theorem C78_same : forall (work : list (list bytes)) d ps,
  executes new_dfa (map reads work) d ps ->
  forall i files p, nth_error work i = Some files -> nth_error ps i = Some p ->
  (exists found, p = Ret found /\ map lex_file files = map Some found)
  \/ (exists d' p', step d p = Some (d', p')).
Proof.
  intros work d ps E i files p Hi Hp.
  destruct explored_all as (seen & S & G & T).
  assert (W : exists rs, Forall2 (fun fs ls => map lex_file fs = map Some ls) work rs).
  { clear. induction work as [|fs work (rs & IH)]; [exists []; constructor|].
    destruct (lexed_all fs) as [ls H]. exists (ls :: rs). now constructor. }
  destruct W as [rs W].
  destruct (executes_ok lexer_atn (table_known seen) _ _ _ _ E rs (new_inv _ _)) as [I H].
  { clear E Hi Hp. induction W as [|fs ls work rs Hw W IH]; cbn [map]; [constructor|].
    constructor; [exact (reads_ok seen S G T fs ls Hw _ (new_inv _ _)) | exact IH]. }
  assert (R : exists ls, map lex_file files = map Some ls /\
    ok lexer_atn (table_known seen) (fun x _ => x = ls) p d).
  { clear E I S G T. revert ps i Hi Hp H. induction W as [|fs ls work rs Hw W IH];
      intros ps i Hi Hp H.
    - destruct i; discriminate.
    - inversion H as [|q l0 ps0 rs0 O F]; subst. destruct i as [|i]; cbn in Hi, Hp.
      + injection Hi as ->. injection Hp as ->. exists ls. split; [exact Hw | exact O].
      + exact (IH ps0 i Hi Hp F). }
  destruct R as (ls & El & O).
  destruct (ok_live lexer_atn (table_known seen) ls p d I O) as [->|L].
  - left. exists ls. split; [reflexivity | exact El].
  - right. exact L.
Qed.
Print Assumptions C78_same.

(** No execution goes on for ever. *)
Theorem C78_ends : forall (work : list (list bytes)),
  Acc (fun (y x : dfa * list (prog (list (list item)))) => goes (fst x) (snd x) (fst y) (snd y))
    (new_dfa, map reads work).
Proof. intros work. apply goes_wf. Qed.
Print Assumptions C78_ends.

(** A file read after any others, with the cache they left, gives what it gives
    in a new process. *)
Fixpoint left_by (before : list bytes) (d : dfa) : dfa :=
  match before with
  | [] => d
  | f :: r => left_by r (fst (run (lex_file_dfa f) d))
  end.
Theorem C78_history : forall before file,
  snd (run (lex_file_dfa file) (left_by before new_dfa)) = lex_file file.
Proof.
  intros before file. destruct explored_all as (seen & S & G & T).
  assert (I : inv lexer_atn (table_known seen) (left_by before new_dfa)).
  { generalize (new_inv lexer_atn (table_known seen)). generalize new_dfa.
    induction before as [|f r IH]; intros d I; cbn [left_by]; [exact I|].
    apply IH. destruct (lex_file_some f) as [l E].
    apply (run_ok lexer_atn (table_known seen) l _ d I (lex_ok seen f l d S G T E I)). }
  destruct (lex_file_some file) as [l E]. rewrite E.
  apply (run_ok lexer_atn (table_known seen) l _ _ I (lex_ok seen file l _ S G T E I)).
Qed.
Print Assumptions C78_history.

(* ---------- examples ---------- *)
Import StringSyntax.
Local Open Scope string_scope.
(** The cache is used: the first file leaves states in it, and the second file
    adds none although the lexer makes two for it in a new process. *)
Definition first_file : bytes := bs "x".
Definition second_file : bytes := bs "y".
Definition states (d : dfa) : nat := length (dfa_states d).
Example C78_ex_history :
  let d := left_by [first_file] new_dfa in
  (states d, states (fst (run (lex_file_dfa second_file) d)),
   states (fst (run (lex_file_dfa second_file) new_dfa))) = (2, 2, 2)%nat.
Proof. vm_compute. reflexivity. Qed.
