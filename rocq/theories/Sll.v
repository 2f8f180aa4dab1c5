(** Model of AdaptivePredict: a first stage that does not know which rules called the rule
    of the decision (SLL), and, where it finds a conflict, the stage with full context of
    Parser.v (prutalgen/internal/antlr/parser_atn_simulator.go:91-322, 350-394, 418-752,
    990-1181).

    Simplifications: a configuration is what the network expects, as in Parser.v, and two
    configurations of the code in different states can be one here.  When the code sees a
    conflict depends on this (prediction_mode.go:168-206
    PredictionModehasSLLConflictTerminatingPrediction, 385-391
    PredictionModeresolvesToJustOneViableAlt), and what it answers where no alternative
    is viable depends on how the configurations were reached (parser_atn_simulator.go:887-933
    getSynValidOrSemInvalidAltThatFinishedDecisionEntryRule): both are parameters here,
    with which any behaviour of the code can be described.  The cache of the steps of the
    first stage (the DFA of a decision) is left out. *)
From Coq Require Import List ZArith Bool Arith.
From Verif Require Import ParserNames Parser.
Import ListNotations.
Open Scope Z_scope.

(* ---------- the network around a rule ---------- *)

(* The calls of rules in a symbol that is followed by [l] in its rule: the rule, and what
   comes after the call *)
Fixpoint calls_sym (s : sym) (l : list sym) : list (nat * list sym) :=
  let seq := fix seq b l :=
    match b with [] => [] | x :: b' => calls_sym x (b' ++ l) ++ seq b' l end in
  match s with
  | T _ => []
  | N q => [(q, l)]
  | Opt b => seq b l
  | Star b => seq b (s :: l)
  | Plus b => seq b (Star b :: l)
  | Alt bs => flat_map (fun b => seq b l) bs
  end.
Definition calls_seq : list sym -> list sym -> list (nat * list sym) :=
  fix seq b l := match b with [] => [] | x :: b' => calls_sym x (b' ++ l) ++ seq b' l end.
Definition calls (p : nat) : list (nat * list sym) := calls_seq (rhs p) [].
(* The transitions of the stop state of a rule, atn_deserializer.go:250-268: to all the
   places after a call of it *)
Definition followers (q : nat) : list (nat * list sym) :=
  flat_map (fun p => flat_map (fun c => if Nat.eqb (fst c) q then [(p, snd c)] else []) (calls p)) (seq 0 53).

(* The decisions of a rule for which the parser calls AdaptivePredict: the number of the
   decision, and what each alternative looks like up to the end of the rule *)
Fixpoint decisions (c : code) (l : list sym) : list (nat * list (list sym)) :=
  let seq := fix seq b l :=
    match b with [] => [] | x :: b' => decisions x (map erase b' ++ l) ++ seq b' l end in
  match c with
  | Match _ | MatchSet _ | Call _ => []
  | If _ b => seq b l
  | While _ b => seq b (erase c :: l)
  | DoWhile _ b => seq b (Star (map erase b) :: l)
  | Switch cases => flat_map (fun p => seq (snd p) l) cases
  | IfPredict d b => (d, [map erase b ++ l; l]) :: seq b l
  | WhilePredict d b => (d, [map erase b ++ erase c :: l; l]) :: seq b (erase c :: l)
  | SwitchPredict d bs => (d, map (fun b => map erase b ++ l) bs) :: flat_map (fun b => seq b l) bs
  end.
Definition decisions_seq : list code -> list sym -> list (nat * list (list sym)) :=
  fix seq b l := match b with [] => [] | x :: b' => decisions x (map erase b' ++ l) ++ seq b' l end.
Definition decision_table : list (nat * (nat * list (list sym))) :=
  flat_map (fun q => map (fun p => (fst p, (q, snd p))) (decisions_seq (body q) [])) (seq 0 53).
(* p.atn.DecisionToState[decision], parser_atn_simulator.go:97 *)
Definition decision (d : nat) : option (nat * list (list sym)) :=
  option_map snd (find (fun p => Nat.eqb (fst p) d) decision_table).

(* ---------- the first stage ---------- *)

(* A configuration: its alternative, what is expected up to the end of the rule in which
   it is without a caller, and this rule *)
Definition sconfig := (nat * (list sym * nat))%type.
(* closureCheckingStopState and closureWork, 996-1181: at the end of a rule without a
   caller, all callers are possible.  The rule Proto is not called: there the
   configuration stays. *)
Fixpoint after_rule (n : nat) (q : nat) : list (list sym * nat) :=
  match n with
  | O => []
  | S n' =>
      match followers q with
      | [] => [([], q)]
      | l => flat_map (fun p =>
               let (hs, e) := heads_seq (heads_rule depth) (snd p) in
               map (fun h => (h, fst p)) hs ++ (if e then after_rule n' (fst p) else [])) l
      end
  end.
Definition sclosure (l : list sym) (q : nat) : list (list sym * nat) :=
  let (hs, e) := heads_seq (heads_rule depth) l in
  map (fun h => (h, q)) hs ++ (if e then after_rule depth q else []).
(* 693-752 computeStartState with an empty context *)
Definition sstart (q : nat) (ls : list (list sym)) : list sconfig :=
  concat (map (fun p => map (pair (fst p)) (sclosure (snd p) q)) (combine (seq 0 (length ls)) ls)).
(* 526-669 computeReachSet *)
Definition sreach (t : Z) (cs : list sconfig) : list sconfig :=
  filter (fun c => if t =? EOF then match fst (snd c) with [] => true | _ => false end else true)
    (concat (map (fun c =>
       match fst (snd c) with
       | T ks :: l => if mem t ks then map (pair (fst c)) (sclosure l (snd (snd c))) else []
       | _ => []
       end) cs)).
(* 1523-1536 getUniqueAlt *)
Definition unique (cs : list sconfig) : option nat :=
  match cs with
  | [] => None
  | c :: r => if forallb (fun x => Nat.eqb (fst x) (fst c)) r then Some (fst c) else None
  end.

Inductive stage := Answer (a : option nat) | FullContext.
Section Adaptive.
(* Whether the first stage sees a conflict, what it answers where no alternative is
   viable, and whether the second stage sees that more tokens do not help; by the
   decision and the tokens that are left *)
Variable conflict : nat -> list tok -> bool.
Variable recover : nat -> list tok -> option nat.
Variable wait : nat -> list tok -> bool.

(* 214-322 execATN, 350-394 computeTargetState *)
Fixpoint exec_sll (d : nat) (cs : list sconfig) (inp : list tok) : stage :=
  match inp with
  | [] => FullContext
  | t :: inp' =>
      match sreach (t_kind t) cs with
      | [] => Answer (recover d inp)
      | cs' =>
          match unique cs' with
          | Some a => Answer (Some a)
          | None => if conflict d inp' then FullContext else exec_sll d cs' inp'
          end
      end
  end.
(* 418-524 execATNWithFullContext, as [exec_full] in Parser.v *)
Fixpoint exec_full_wait (d : nat) (cs : list config) (inp : list tok) : option nat :=
  match inp with
  | [] =>
      match filter (fun c => match snd c with [] => true | _ => false end) cs with
      | [] => recover d inp
      | cs' => Some (least cs')
      end
  | t :: inp' =>
      match reach (t_kind t) cs with
      | [] => recover d inp
      | cs' =>
          match (if wait d inp' then None else resolve cs') with
          | Some m => Some m
          | None => exec_full_wait d cs' inp'
          end
      end
  end.
(* 91-212 AdaptivePredict *)
Definition adaptive : oracle := fun d alts inp =>
  match decision d with
  | None => None
  | Some (q, ls) =>
      match exec_sll d (sstart q ls) inp with
      | Answer a => a
      | FullContext => exec_full_wait d (start alts) inp
      end
  end.
End Adaptive.
