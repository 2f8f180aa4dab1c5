(** The lexer with the cache of its steps, which all lexers of a process share:
    a deterministic automaton (DFA) that is built while texts are read.  The
    table of the generated lexer, with its DFA, is one static value
    (prutalgen/internal/parser/protobuf_lexer.go:24-35, 348-356 and
    363-373), so a text is read with what earlier texts left in the DFA and
    with what other goroutines add to it meanwhile.

    A goroutine is a program over the operations that the code does under one
    lock; operations of different goroutines interleave in any order.

    Simplifications: a pointer to a DFA state is its index in the order of
    creation; the hash table of states is the list of the states in that order,
    which is also their order in a bucket; what does not change after a state is
    made (its configurations, isAcceptState, prediction, lexerActionExecutor) is
    read in one operation; prevAccept keeps the prediction and the actions of
    the state and not a pointer to it. *)
From Coq Require Import List ZArith Bool.
From Verif Require Import Base AtnTable Atn LexFile.
Import ListNotations.
Open Scope Z_scope.

(* ---------- the automaton ---------- *)

(* dfa_state.go:47-83: [ToError] is ATNSimulatorError, the state that means that
   there is no way on *)
Inductive edge := ToState (p : nat) | ToError.
Record dstate := {
  d_configs : list config;
  d_accept : option accept;          (* isAcceptState, prediction, actions *)
  d_edges : list (Z * edge)          (* the last one set comes first *)
}.
(* dfa.go:9-30 *)
Record dfa := { dfa_states : list dstate; dfa_s0 : option nat }.
(* dfa.go:32-45, for a lexer *)
Definition new_dfa : dfa := {| dfa_states := []; dfa_s0 := None |}.

(* atn_config_set.go:216-234 Hash, hashCodeConfigs; the 64 bits of the sum are cut
   to 32 by murmurUpdate.  dfa_state.go:147-151 Hash. *)
Definition configs_hash (l : list config) : Z :=
  fold_left (fun h c => u32 (31 * h + config_hash c)) l 1.
Definition state_hash (l : list config) : Z :=
  murmur_finish (murmur_update 7 (configs_hash l)) 1.

(* atn_config_set.go:179-190 Compare, 192-214 Equals (the other fields are the
   same in all sets of a lexer); dfa_state.go:164-170 Equals *)
Fixpoint configs_equal (a b : list config) : bool :=
  match a, b with
  | [], [] => true
  | x :: a, y :: b => l_equals x y && configs_equal a b
  | _, _ => false
  end.

(* dfa.go:127-132 Get; jcollect.go:203-228 *)
Fixpoint dfa_get (l : list config) (ds : list dstate) (i : nat) : option nat :=
  match ds with
  | [] => None
  | s :: r =>
      if (state_hash (d_configs s) =? state_hash l) && configs_equal l (d_configs s)
      then Some i else dfa_get l r (S i)
  end.

(* lexer_atn_simulator.go:588-610, the part of addDFAState under stateMu *)
Definition add_dfa_state (d : dfa) (l : list config) (acc : option accept)
  (suppress : bool) : dfa * nat :=
  let '(ds, p) :=
    match dfa_get l (dfa_states d) 0 with
    | Some p => (dfa_states d, p)
    | None => (dfa_states d
                 ++ [{| d_configs := l; d_accept := acc; d_edges := [] |}],
               length (dfa_states d))
    end in
  ({| dfa_states := ds; dfa_s0 := if suppress then dfa_s0 d else Some p |}, p).

Fixpoint find_edge (es : list (Z * edge)) (t : Z) : option edge :=
  match es with
  | [] => None
  | (c, e) :: r => if c =? t then Some e else find_edge r t
  end.

(* The array of the edges, made when the first one is set
   (lexer_atn_simulator.go:555-558): an index outside of it is a panic *)
Definition slots : Z := 128.
Definition in_slots (t : Z) : bool := (0 <=? t) && (t <? slots).
(* lexer_atn_simulator.go:217-222, dfa_state.go:118-120 getIthEdge; [None]: panic *)
Definition get_edge (es : list (Z * edge)) (t : Z) : option (option edge) :=
  match es with
  | [] => Some None
  | _ => if in_slots t then Some (find_edge es t) else None
  end.

Fixpoint update {A} (l : list A) (i : nat) (x : A) : list A :=
  match l, i with
  | [], _ => []
  | _ :: r, O => x :: r
  | y :: r, S j => y :: update r j x
  end.

(* lexer_atn_simulator.go:553-559, the part of addDFAEdge under edgeMu;
   dfa_state.go:126-128 setIthEdge *)
Definition set_edge (d : dfa) (p : nat) (t : Z) (e : edge) : option dfa :=
  let* s := nth_error (dfa_states d) p in
  if negb (in_slots t) then None else
  Some {| dfa_states := update (dfa_states d) p
            {| d_configs := d_configs s; d_accept := d_accept s;
               d_edges := (t, e) :: d_edges s |};
          dfa_s0 := dfa_s0 d |}.

(* ---------- programs of goroutines ---------- *)

Inductive prog (A : Type) :=
| Ret (a : A)
| Panic
| DoS0 (k : option nat -> prog A)                       (* read s0 *)
| DoState (l : list config) (acc : option accept) (suppress : bool)
    (k : nat -> prog A)                                 (* addDFAState *)
| DoLoad (p : nat) (k : list config -> option accept -> prog A)
| DoEdge (p : nat) (t : Z) (k : option edge -> prog A)  (* read an edge *)
| DoSet (p : nat) (t : Z) (e : edge) (k : prog A).      (* set an edge *)
Arguments Ret {A}. Arguments Panic {A}. Arguments DoS0 {A}.
Arguments DoState {A}. Arguments DoLoad {A}. Arguments DoEdge {A}.
Arguments DoSet {A}.

Fixpoint pbind {A B} (p : prog A) (f : A -> prog B) : prog B :=
  match p with
  | Ret a => f a
  | Panic => Panic
  | DoS0 k => DoS0 (fun x => pbind (k x) f)
  | DoState l acc s k => DoState l acc s (fun x => pbind (k x) f)
  | DoLoad q k => DoLoad q (fun x y => pbind (k x y) f)
  | DoEdge q t k => DoEdge q t (fun x => pbind (k x) f)
  | DoSet q t e k => DoSet q t e (pbind k f)
  end.

(* what the model of the network may refuse is a panic *)
Definition lift {A} (o : option A) : prog A :=
  match o with Some a => Ret a | None => Panic end.
Notation "'do' x '<-' e 'in' k" := (pbind e (fun x => k))
  (at level 200, x pattern, right associativity).

(* One operation; [None] when the program is at its end. *)
Definition step {A} (d : dfa) (p : prog A) : option (dfa * prog A) :=
  match p with
  | Ret _ | Panic => None
  | DoS0 k => Some (d, k (dfa_s0 d))
  | DoState l acc s k =>
      let '(d', q) := add_dfa_state d l acc s in Some (d', k q)
  | DoLoad q k =>
      Some (d, match nth_error (dfa_states d) q with
               | Some s => k (d_configs s) (d_accept s)
               | None => Panic
               end)
  | DoEdge q t k =>
      Some (d, match nth_error (dfa_states d) q with
               | Some s => match get_edge (d_edges s) t with
                           | Some e => k e
                           | None => Panic
                           end
               | None => Panic
               end)
  | DoSet q t e k =>
      match set_edge d q t e with
      | Some d' => Some (d', k)
      | None => Some (d, Panic)
      end
  end.

(* ---------- matching one token ---------- *)

(* lexer_atn_simulator.go:15-16 *)
Definition in_dfa (t : Z) : bool := (0 <=? t) && (t <=? 127).

(* lexer_atn_simulator.go:568-587 addDFAState *)
Definition add_state (a : atn) (l : list config) (suppress : bool) : prog nat :=
  do acc <- lift (accepts a l) in
  DoState l acc suppress (fun p => Ret p).

(* lexer_atn_simulator.go:212-227 getExistingTargetState *)
Definition existing_target (p : nat) (t : Z) : prog (option edge) :=
  if in_dfa t then DoEdge p t (fun e => Ret e) else Ret None.

(* lexer_atn_simulator.go:235-253 computeTargetState, 524-560 addDFAEdge *)
Definition compute_target (a : atn) (p : nat) (l : list config) (t : Z) : prog edge :=
  do r <- lift (reach a l t) in
  match r with
  | [] => if in_dfa t then DoSet p t ToError (Ret ToError) else Ret ToError
  | _ =>
      do q <- add_state a r true in
      if in_dfa t then DoSet p t (ToState q) (Ret (ToState q)) else Ret (ToState q)
  end.

Definition next_state (a : atn) (p : nat) (l : list config) (t : Z) : prog edge :=
  do o <- existing_target p t in
  match o with
  | Some e => Ret e
  | None => compute_target a p l t
  end.

(* lexer_atn_simulator.go:141-203 execATN, as [exec] in Atn.v.  [p] is the state
   and [l] its configurations. *)
Fixpoint exec_dfa (a : atn) (p : nat) (l : list config) (inp : list Z) (n : nat)
  (prev : option (nat * accept)) : prog (option (nat * accept) * nat) :=
  match inp with
  | [] =>
      do e <- next_state a p l (-1) in
      match e with
      | ToError => Ret (prev, n)
      | ToState _ => Panic
      end
  | c :: inp' =>
      do e <- next_state a p l c in
      match e with
      | ToError => Ret (prev, n)
      | ToState q =>
          DoLoad q (fun l' acc =>
            exec_dfa a q l' inp' (S n)
              (match acc with Some x => Some (S n, x) | None => prev end))
      end
  end.

(* lexer_atn_simulator.go:86-110 Match, 120-139 MatchATN: the start state *)
Definition start_state (a : atn) : prog nat :=
  DoS0 (fun s0 =>
    match s0 with
    | Some p => Ret p
    | None =>
        do l <- lift (start_configs a) in
        add_state a l false
    end).

(* as [match_token] in Atn.v *)
Definition match_token_dfa (a : atn) (inp : list Z) : prog outcome :=
  do p <- start_state a in
  DoLoad p (fun l acc0 =>
    do (prev, n) <- exec_dfa a p l inp 0
        (match acc0 with Some x => Some (O, x) | None => None end) in
    match prev with
    | Some (len, (tty, e)) => Ret (OToken len tty (channel e))
    | None =>
        match inp with
        | [] => Ret OEof
        | _ => Ret (OError (if (n <? length inp)%nat then S n else n))
        end
    end).

(* as [tokens] in Atn.v *)
Fixpoint tokens_dfa (fuel : nat) (a : atn) (inp : list Z) (hit : bool)
  : prog (list item) :=
  match fuel with
  | O => Panic
  | S fuel' =>
      if hit then Ret [eof_token]
      else
        do o <- match_token_dfa a inp in
        match o with
        | OEof => Ret [eof_token]
        | OToken len tty ch =>
            let rest := skipn len inp in
            do r <- tokens_dfa fuel' a rest (match rest with [] => true | _ => false end) in
            Ret (ITok tty ch (firstn len inp) :: r)
        | OError k =>
            let rest := skipn k inp in
            do r <- tokens_dfa fuel' a rest (match rest with [] => true | _ => false end) in
            Ret (IErr (firstn k inp) :: r)
        end
  end.
Definition lex_dfa (a : atn) (inp : list Z) : prog (list item) :=
  tokens_dfa (S (length inp)) a inp false.

(* as [lex_file] in LexFile.v: the table is read once, before any text *)
Definition lex_file_dfa (data : bytes) : prog (list item) :=
  do a <- lift (deserialize serialized_lexer) in lex_dfa a (ReadRunes data).

(* ---------- goroutines that run at the same time ---------- *)

(* A goroutine that reads files one after the other
   (prutalgen/pkg/prutalgen/prutalgen.go:93-250 loads a file and then its
   imports). *)
Fixpoint reads (files : list bytes) : prog (list (list item)) :=
  match files with
  | [] => Ret []
  | f :: r => do l <- lex_file_dfa f in do ls <- reads r in Ret (l :: ls)
  end.

Section System.
Context {A : Type}.

(* One goroutine does its next operation. *)
Inductive goes : dfa -> list (prog A) -> dfa -> list (prog A) -> Prop :=
| goes_one d d' p p' before after :
    step d p = Some (d', p') ->
    goes d (before ++ p :: after) d' (before ++ p' :: after).

Inductive executes : dfa -> list (prog A) -> dfa -> list (prog A) -> Prop :=
| ex_stop d ps : executes d ps d ps
| ex_go d ps d1 ps1 d2 ps2 :
    goes d ps d1 ps1 -> executes d1 ps1 d2 ps2 -> executes d ps d2 ps2.
End System.

(* One goroutine on its own, to the end: what it returns, and the automaton it
   leaves. *)
Fixpoint run {A} (p : prog A) (d : dfa) : dfa * option A :=
  match p with
  | Ret a => (d, Some a)
  | Panic => (d, None)
  | DoS0 k => run (k (dfa_s0 d)) d
  | DoState l acc s k =>
      let '(d', q) := add_dfa_state d l acc s in run (k q) d'
  | DoLoad q k =>
      match nth_error (dfa_states d) q with
      | Some s => run (k (d_configs s) (d_accept s)) d
      | None => (d, None)
      end
  | DoEdge q t k =>
      match nth_error (dfa_states d) q with
      | Some s => match get_edge (d_edges s) t with
                  | Some e => run (k e) d
                  | None => (d, None)
                  end
      | None => (d, None)
      end
  | DoSet q t e k =>
      match set_edge d q t e with
      | Some d' => run k d'
      | None => (d, None)
      end
  end.
