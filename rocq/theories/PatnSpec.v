(** What a network says: the tokens that can be read on the ways through it.
    (The network itself is a table of states with transitions, Patn.v.) *)
From Coq Require Import List ZArith Bool.
From Verif Require Import Atn ParserNames Parser Patn.
Import ListNotations.
Open Scope Z_scope.

(** [reads a s w e]: a way from the state [s] to the state [e] of the same rule, on which
    the tokens [w] are read.  A call of a rule reads what is read on a way through the
    called rule, from its start to its end, and goes on at the state after the call. *)
Inductive reads (a : patn) : Z -> list tok -> Z -> Prop :=
| reads_here s : reads a s [] s
| reads_free s t w e : In (TEps t) (p_trans a s) -> reads a t w e -> reads a s w e
| reads_token s tr x w e : In tr (p_trans a s) -> matches_token tr (t_kind x) = true ->
    reads a (target tr) w e -> reads a s (x :: w) e
| reads_rule s start follow stop u v e : In (TRule start follow) (p_trans a s) ->
    p_type a stop = ATNStateRuleStop -> p_rule a stop = p_rule a start ->
    reads a start u stop -> reads a follow v e -> reads a s (u ++ v) e.

(** the end of the rule [q] can be reached from [s] reading [w] *)
Definition reads_out (a : patn) (q : nat) (s : Z) (w : list tok) : Prop :=
  exists stop, p_type a stop = ATNStateRuleStop /\ p_rule a stop = Z.of_nat q /\ reads a s w stop.

(** ** The places in a function of the parser before which it names a state, in the order
    of the text (the forms of the statements are those of Parser.v): what is done there,
    and what the function expects there up to its end *)
Fixpoint places (c : code) (l : list sym) : list (at_state * list sym) :=
  let seq := fix seq b l :=
    match b with [] => [] | x :: b' => places x (map erase b' ++ l) ++ seq b' l end in
  match c with
  | Match t => [(AtMatch t, T [t] :: l)]
  | MatchSet ts => [(AtSet, T ts :: l)]
  | Call q => [(AtCall q, N q :: l)]
  | If _ b | IfPredict _ b => (AtSync, Opt (map erase b) :: l) :: seq b l
  | While _ b | WhilePredict _ b =>
      let again := Star (map erase b) :: l in
      (AtSync, again) :: seq b again ++ [(AtSync, again)]
  | DoWhile _ b =>
      let again := Star (map erase b) :: l in
      (AtSync, Plus (map erase b) :: l) :: seq b again ++ [(AtSync, again)]
  | Switch cases => (AtSync, Alt (map (fun p => map erase (snd p)) cases) :: l) :: flat_map (fun p => seq (snd p) l) cases
  | SwitchPredict _ bs => (AtSync, Alt (map (map erase) bs) :: l) :: flat_map (fun b => seq b l) bs
  end.
Definition places_seq : list code -> list sym -> list (at_state * list sym) :=
  fix seq b l := match b with [] => [] | x :: b' => places x (map erase b' ++ l) ++ seq b' l end.
(** where Sync reports an error if the next token is not expected (error_strategy.go:204-221) *)
Definition sync_reports (type : Z) : Prop := In type [3; 4; 5; 9; 10; 11].
