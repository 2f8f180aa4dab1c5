(** The lexer of prutalgen: the table of the generated lexer is read into an
    augmented transition network (ATN), and the runtime walks the network over
    the characters of a .proto file.

    Models
      prutalgen/internal/antlr/atn_deserializer.go  (reading the table)
      prutalgen/internal/antlr/interval_set.go      (sets of characters)
      prutalgen/internal/antlr/transition.go        (edges)
      prutalgen/internal/antlr/atn_config.go, atn_config_set.go, jcollect.go,
        utils.go, prediction_context.go             (configurations, their
                                                     hashes, their sets)
      prutalgen/internal/antlr/lexer_atn_simulator.go (matching one token)
      prutalgen/internal/antlr/lexer.go             (the tokens of a text)

    A character is a code point, -1 is the end of the text (TokenEOF), and a
    text is the list of its code points ([InputStream.data]).

    Simplifications, here once: the numbers are unbounded integers (all that
    occur are below 2^32, the hashes are cut to 32 bits as in the code); line
    and column numbers are left out; the DFA that remembers the steps already
    taken is not in this file (see LexCache.v); semantic predicates, precedence
    and the lexer actions other than channel(n) do not occur in the table, and
    a table with them is refused ([None]); [verifyATN]
    (atn_deserializer.go:471-537), which only checks, is left out. *)
From Coq Require Import List ZArith Bool FMapPositive.
Import ListNotations.
Open Scope Z_scope.

(* ---------- sets of characters ---------- *)

(* interval_set.go:12-15: [Start, Stop) *)
Definition interval : Type := (Z * Z)%type.
Definition iset := list interval.

(* interval_set.go:91-126 addInterval *)
Fixpoint add_interval (i : iset) (v : interval) : iset :=
  match i with
  | [] => [v]
  | (s, e) :: rest =>
      let '(vs, ve) := v in
      if ve <? s then (vs, ve) :: (s, e) :: rest
      else if ve =? s then (vs, e) :: rest
      else if vs <=? e then
        let l := (Z.min s vs, Z.max e ve) in
        match rest with
        | [] => [l]
        | (rs, re) :: rest' =>
            if re <=? snd l then l :: rest'
            else if rs <=? snd l then (fst l, re) :: rest'
            else l :: rest
        end
      else (s, e) :: add_interval rest v
  end.

(* interval_set.go:83-85, 87-89 *)
Definition add_one (i : iset) (v : Z) : iset := add_interval i (v, v + 1).
Definition add_range (i : iset) (l h : Z) : iset := add_interval i (l, h + 1).

(* interval_set.go:25-28, 147-157 *)
Definition contains (i : iset) (c : Z) : bool :=
  existsb (fun v => (fst v <=? c) && (c <? snd v)) i.

(* ---------- the network ---------- *)

(* transition.go:74-85 and the transition types below it *)
Inductive trans :=
| TEps (target : Z)                      (* 214-236 *)
| TRange (target lo hi : Z)              (* 238-278 *)
| TRule (target follow : Z)              (* 180-206 *)
| TAtom (target label : Z)               (* 143-178 *)
| TAction (target action : Z)
| TSet (target : Z) (s : iset)
| TNotSet (target : Z) (s : iset)
| TWildcard (target : Z).

Definition target (t : trans) : Z :=
  match t with
  | TEps x | TRange x _ _ | TRule x _ | TAtom x _ | TAction x _
  | TSet x _ | TNotSet x _ | TWildcard x => x
  end.

(* isEpsilon of the constructors in transition.go *)
Definition is_epsilon (t : trans) : bool :=
  match t with TEps _ | TRule _ _ | TAction _ _ => true | _ => false end.

(* lexer.go:119 LexerMaxCharValue *)
Definition max_char : Z := 1114111.

(* transition.go: the Matches methods; the minimum is 0 and the maximum
   LexerMaxCharValue (lexer_atn_simulator.go:323-329 getReachableTarget). *)
Definition matches_char (t : trans) (c : Z) : bool :=
  match t with
  | TAtom _ l => l =? c
  | TRange _ lo hi => (lo <=? c) && (c <=? hi)
  | TSet _ s => contains s c
  | TNotSet _ s => (0 <=? c) && (c <=? max_char) && negb (contains s c)
  | TWildcard _ => (0 <=? c) && (c <=? max_char)
  | TEps _ | TRule _ _ | TAction _ _ => false
  end.

(* atn_state.go:61-79: a state with what the lexer reads of it *)
Record astate := {
  as_type : Z;
  as_rule : Z;
  as_eps : bool;       (* epsilonOnlyTransitions *)
  as_ng : bool;        (* nonGreedy of a decision state *)
  as_trans : list trans
}.

(* atn_state.go:15-27 *)
Definition ATNStateInvalidType := 0.
Definition ATNStateRuleStart := 2.
Definition ATNStateBlockStart := 3.
Definition ATNStatePlusBlockStart := 4.
Definition ATNStateStarBlockStart := 5.
Definition ATNStateTokenStart := 6.
Definition ATNStateRuleStop := 7.
Definition ATNStateStarLoopEntry := 10.
Definition ATNStatePlusLoopBack := 11.
Definition ATNStateLoopEnd := 12.

(* atn.go: states, ruleToTokenType, ruleToStopState, modeToStartState,
   lexerActions (type, data1, data2) *)
Record atn := {
  a_states : PositiveMap.t astate;
  a_rule_token : list Z;
  a_modes : list Z;
  a_actions : list (Z * Z * Z)
}.

Definition key (n : Z) : positive := Z.to_pos (n + 1).
Definition get_state (m : PositiveMap.t astate) (n : Z) : option astate :=
  if n <? 0 then None else PositiveMap.find (key n) m.
Definition put_state (m : PositiveMap.t astate) (n : Z) (s : astate) :=
  PositiveMap.add (key n) s m.

(* the list element at an index; [None] is the Go panic *)
Definition at_index {A} (l : list A) (n : Z) : option A :=
  if n <? 0 then None else nth_error l (Z.to_nat n).

Definition bind {A B} (o : option A) (f : A -> option B) : option B :=
  match o with Some a => f a | None => None end.
Notation "'let*' x ':=' e 'in' k" := (bind e (fun x => k))
  (at level 200, x pattern, right associativity).

(* ---------- reading the table ---------- *)

(* atn_deserializer.go:549-555 readInt: [None] is reading past the end *)
Definition read (d : list Z) : option (Z * list Z) :=
  match d with x :: r => Some (x, r) | [] => None end.

Fixpoint read_n (n : nat) (d : list Z) : option (list Z * list Z) :=
  match n with
  | O => Some ([], d)
  | S k => let* (x, d1) := read d in
           let* (xs, d2) := read_n k d1 in Some (x :: xs, d2)
  end.

(* A count that the table gives, as a bound of a loop. *)
Definition count (n : Z) : nat := Z.to_nat n.

(* atn_deserializer.go:93-137 the states.  A state is followed by one more
   number when it is a loop end or the start of a block (stateFactory,
   599-652); the number links it to another state, which the lexer does not
   read. *)
Fixpoint read_states (n : nat) (i : Z) (m : PositiveMap.t astate) (d : list Z)
  : option (PositiveMap.t astate * list Z) :=
  match n with
  | O => Some (m, d)
  | S k =>
      let* (ty, d1) := read d in
      if ty =? ATNStateInvalidType then read_states k (i + 1) m d1
      else
        let* (rule, d2) := read d1 in
        if (ty <? 1) || (12 <? ty) then None
        else
          let s := {| as_type := ty; as_rule := rule; as_eps := false;
                      as_ng := false; as_trans := [] |} in
          let m1 := put_state m i s in
          if (ty =? ATNStateLoopEnd) || (ty =? ATNStateBlockStart)
             || (ty =? ATNStatePlusBlockStart) || (ty =? ATNStateStarBlockStart)
          then let* (_, d3) := read d2 in read_states k (i + 1) m1 d3
          else read_states k (i + 1) m1 d2
  end.

Definition is_decision (ty : Z) : bool :=
  (ty =? ATNStateBlockStart) || (ty =? ATNStatePlusBlockStart)
  || (ty =? ATNStateStarBlockStart) || (ty =? ATNStateTokenStart)
  || (ty =? ATNStateStarLoopEntry) || (ty =? ATNStatePlusLoopBack).

(* atn_deserializer.go:139-144 *)
Fixpoint set_nongreedy (l : list Z) (m : PositiveMap.t astate)
  : option (PositiveMap.t astate) :=
  match l with
  | [] => Some m
  | n :: r =>
      let* s := get_state m n in
      if is_decision (as_type s) then
        set_nongreedy r (put_state m n
          {| as_type := as_type s; as_rule := as_rule s; as_eps := as_eps s;
             as_ng := true; as_trans := as_trans s |})
      else None
  end.

(* atn_deserializer.go:154-174 the rules of a lexer: the start state and the
   token type of each *)
Fixpoint read_rules (n : nat) (m : PositiveMap.t astate) (d : list Z)
  : option (list Z * list Z) :=
  match n with
  | O => Some ([], d)
  | S k =>
      let* (s, d1) := read d in
      let* st := get_state m s in
      if as_type st =? ATNStateRuleStart then
        let* (tty, d2) := read d1 in
        let* (r, d3) := read_rules k m d2 in
        Some (tty :: r, d3)
      else None
  end.

(* atn_deserializer.go:197-228 the sets *)
Fixpoint read_ranges (n : nat) (i : iset) (d : list Z) : option (iset * list Z) :=
  match n with
  | O => Some (i, d)
  | S k => let* (l, d1) := read d in
           let* (h, d2) := read d1 in
           read_ranges k (add_range i l h) d2
  end.

Fixpoint read_sets (n : nat) (d : list Z) : option (list iset * list Z) :=
  match n with
  | O => Some ([], d)
  | S k =>
      let* (m, d1) := read d in
      let* (eof, d2) := read d1 in
      let i0 := if eof =? 0 then [] else add_one [] (-1) in
      let* (i, d3) := read_ranges (count m) i0 d2 in
      let* (r, d4) := read_sets k d3 in
      Some (i :: r, d4)
  end.

(* atn_deserializer.go:557-601 edgeFactory; transition.go:74-85 *)
Definition edge_factory (sets : list iset) (ty trg a1 a2 a3 : Z) : option trans :=
  if ty =? 1 then Some (TEps trg)
  else if ty =? 2 then
    Some (if a3 =? 0 then TRange trg a1 a2 else TRange trg (-1) a2)
  else if ty =? 3 then Some (TRule a1 trg)
  else if ty =? 5 then
    Some (if a3 =? 0 then TAtom trg a1 else TAtom trg (-1))
  else if ty =? 6 then Some (TAction trg a2)
  else if ty =? 7 then let* s := at_index sets a1 in Some (TSet trg s)
  else if ty =? 8 then let* s := at_index sets a1 in Some (TNotSet trg s)
  else if ty =? 9 then Some (TWildcard trg)
  else None.

(* atn_state.go:152-183 AddTransition *)
Definition add_transition (s : astate) (t : trans) : astate :=
  {| as_type := as_type s; as_rule := as_rule s;
     as_eps := match as_trans s with
               | [] => is_epsilon t
               | _ => if eqb (as_eps s) (is_epsilon t) then as_eps s else false
               end;
     as_ng := as_ng s;
     as_trans := as_trans s ++ [t] |}.

(* atn_deserializer.go:230-246 readEdges, first loop.  The second loop
   (258-283) gives the rule stop states edges back to the callers, which are
   epsilon edges and which the lexer never reads: [closure] returns before it
   looks at the edges of a rule stop state, and an epsilon edge matches no
   character. *)
Fixpoint read_edges (n : nat) (sets : list iset) (m : PositiveMap.t astate)
  (d : list Z) : option (PositiveMap.t astate * list Z) :=
  match n with
  | O => Some (m, d)
  | S k =>
      let* (xs, d1) := read_n 6 d in
      match xs with
      | [src; trg; ty; a1; a2; a3] =>
          let* _ := get_state m trg in
          let* t := edge_factory sets ty trg a1 a2 a3 in
          let* s := get_state m src in
          read_edges k sets (put_state m src (add_transition s t)) d1
      | _ => None
      end
  end.

(* atn_deserializer.go:314-327 readLexerActions; only channel(n) (type 0) is
   modelled *)
Fixpoint read_actions (n : nat) (d : list Z)
  : option (list (Z * Z * Z) * list Z) :=
  match n with
  | O => Some ([], d)
  | S k =>
      let* (xs, d1) := read_n 3 d in
      match xs with
      | [ty; x; y] =>
          if ty =? 0 then
            let* (r, d2) := read_actions k d1 in Some ((ty, x, y) :: r, d2)
          else None
      | _ => None
      end
  end.

(* atn_deserializer.go:49-77 Deserialize, for a lexer (grammar type 0) *)
Definition deserialize (d : list Z) : option atn :=
  let* (version, d) := read d in
  if negb (version =? 4) then None else
  let* (gtype, d) := read d in
  if negb (gtype =? 0) then None else
  let* (_, d) := read d in                          (* maxTokenType *)
  let* (nstates, d) := read d in
  let* (m, d) := read_states (count nstates) 0 (PositiveMap.empty _) d in
  let* (nng, d) := read d in
  let* (ng, d) := read_n (count nng) d in
  let* m := set_nongreedy ng m in
  let* (nprec, d) := read d in
  let* (_, d) := read_n (count nprec) d in
  let* (nrules, d) := read d in
  let* (rules, d) := read_rules (count nrules) m d in
  let* (nmodes, d) := read d in
  let* (modes, d) := read_n (count nmodes) d in
  let* (nsets, d) := read d in
  let* (sets, d) := read_sets (count nsets) d in
  let* (nedges, d) := read d in
  let* (m, d) := read_edges (count nedges) sets m d in
  let* (ndec, d) := read d in
  let* (_, d) := read_n (count ndec) d in           (* 318-327 readDecisions *)
  let* (nact, d) := read d in
  let* (acts, d) := read_actions (count nact) d in
  Some {| a_states := m; a_rule_token := rules; a_modes := modes;
          a_actions := acts |}.

(* ---------- configurations ---------- *)

Definition action : Type := (Z * Z * Z)%type.

(* atn_config.go: a configuration of the lexer.  The context is the stack of
   return states; the prediction contexts of the lexer are always such
   stacks (an array context arises only from merging two different contexts,
   see [add_config]). *)
Record config := {
  c_state : Z;
  c_alt : Z;
  c_ctx : list Z;
  c_ng : bool;                       (* passedThroughNonGreedyDecision *)
  c_act : option (list action)       (* lexerActionExecutor *)
}.

(* utils.go:274-307, on 32 bits *)
Definition u32 (x : Z) : Z := Z.land x 4294967295.
Definition rotl (x r : Z) : Z :=
  Z.lor (u32 (Z.shiftl x r)) (Z.shiftr x (32 - r)).
Definition murmur_update (h v : Z) : Z :=
  let k := u32 (u32 v * 3432918353) in
  let k := rotl k 15 in
  let k := u32 (k * 461845907) in
  let hash := Z.lxor (u32 h) k in
  let hash := rotl hash 13 in
  u32 (hash * 5 + 3864292196).
Definition murmur_finish (h n : Z) : Z :=
  let hash := Z.lxor (u32 h) (u32 (Z.shiftl n 2)) in
  let hash := Z.lxor hash (Z.shiftr hash 16) in
  let hash := u32 (hash * 2246822507) in
  let hash := Z.lxor hash (Z.shiftr hash 13) in
  let hash := u32 (hash * 3266489909) in
  Z.lxor hash (Z.shiftr hash 16).

(* prediction_context.go:12-21, 69-80, 289-294 *)
Fixpoint ctx_hash (ctx : list Z) : Z :=
  match ctx with
  | [] => murmur_finish 1 0
  | r :: parent =>
      murmur_finish (murmur_update (murmur_update 1 (ctx_hash parent)) r) 2
  end.

(* semantic_context.go:80, 109-119: the hash of SemanticContextNone *)
Definition none_hash : Z :=
  murmur_finish (murmur_update (murmur_update (murmur_update 0 (-1)) (-1)) 0) 3.

(* lexer_action.go:371-376; lexer_action_executor.go:19-39 NewLexerActionExecutor,
   Hash *)
Definition action_hash (a : action) : Z :=
  let '(ty, x, _) := a in
  murmur_finish (murmur_update (murmur_update 0 ty) x) 2.
Definition executor_hash (e : option (list action)) : Z :=
  match e with
  | None => 61
  | Some l =>
      murmur_finish
        (fold_left (fun h a => murmur_update h (action_hash a)) l 0)
        (Z.of_nat (length l))
  end.

(* atn_config.go:284-300 LHash *)
Definition config_hash (c : config) : Z :=
  let h := murmur_update 7 (c_state c) in
  let h := murmur_update h (c_alt c) in
  let h := murmur_update h (ctx_hash (c_ctx c)) in
  let h := murmur_update h none_hash in
  let h := murmur_update h (if c_ng c then 1 else 0) in
  let h := murmur_update h (executor_hash (c_act c)) in
  murmur_finish h 6.

Fixpoint zs_eqb (a b : list Z) : bool :=
  match a, b with
  | [], [] => true
  | x :: a, y :: b => (x =? y) && zs_eqb a b
  | _, _ => false
  end.

(* lexer_action.go:378-386: channel actions are equal when the channels are *)
Fixpoint actions_eqb (a b : list action) : bool :=
  match a, b with
  | [], [] => true
  | (_, x, _) :: a, (_, y, _) :: b => (x =? y) && actions_eqb a b
  | _, _ => false
  end.

(* atn_config.go:157-185 PEquals; prediction_context.go:116-165 *)
Definition p_equals (a b : config) : bool :=
  (c_state a =? c_state b) && (c_alt a =? c_alt b) && zs_eqb (c_ctx a) (c_ctx b).

(* atn_config.go:304-326 LEquals.  When neither configuration has actions the
   states, alternatives and contexts are not compared at all. *)
Definition l_equals (a b : config) : bool :=
  if negb (eqb (c_ng a) (c_ng b)) then false
  else match c_act a, c_act b with
       | None, None => true
       | Some x, Some y => actions_eqb x y && p_equals a b
       | _, _ => false
       end.

(* A set of configurations: the hash of each with it, in the order in which
   they were added (configs), which is also the order in their hash bucket
   (configLookup). *)
Definition cset := list (Z * config).

(* atn_config_set.go:82-123 Add; jcollect.go:159-180 Put.  When the set has a
   configuration with the same hash that is "equal", the contexts of the two
   are merged: this is nothing when they are the same; when they are not, or
   when the two differ in anything else, the model is [None]. *)
Definition same_config (a b : config) : bool :=
  p_equals a b && eqb (c_ng a) (c_ng b).
Fixpoint add_config (h : Z) (c : config) (s : cset) : option cset :=
  match s with
  | [] => Some [(h, c)]
  | (h1, c1) :: r =>
      if (h1 =? h) && l_equals c c1 then
        if same_config c c1 then Some s else None
      else let* r' := add_config h c r in Some ((h1, c1) :: r')
  end.

(* ---------- matching one token ---------- *)

(* atn_config.go:328-332 checkNonGreedyDecision *)
Definition non_greedy (a : atn) (n : Z) : bool :=
  match get_state (a_states a) n with Some s => as_ng s | None => false end.

(* atn_config.go:244-269 NewLexerATNConfig2, 3 and 4 *)
Definition move (a : atn) (c : config) (n : Z) (ctx : list Z)
  (act : option (list action)) : config :=
  {| c_state := n; c_alt := c_alt c; c_ctx := ctx;
     c_ng := c_ng c || non_greedy a n; c_act := act |}.

(* lexer_action_executor.go:44-51 LexerActionExecutorappend *)
Definition append_action (e : option (list action)) (x : action)
  : option (list action) :=
  match e with None => Some [x] | Some l => Some (l ++ [x]) end.

(* lexer_atn_simulator.go:406-482 getEpsilonTarget: [Some None] when there is no
   target *)
Definition epsilon_target (a : atn) (c : config) (t : trans) (eof : bool)
  : option (option config) :=
  match t with
  | TRule start follow =>
      Some (Some (move a c start (follow :: c_ctx c) (c_act c)))
  | TAction trg i =>
      match c_ctx c with
      | [] => let* x := at_index (a_actions a) i in
              Some (Some (move a c trg (c_ctx c) (append_action (c_act c) x)))
      | _ => Some (Some (move a c trg (c_ctx c) (c_act c)))
      end
  | TEps trg => Some (Some (move a c trg (c_ctx c) (c_act c)))
  | TAtom trg _ | TRange trg _ _ | TSet trg _ =>
      if eof && matches_char t (-1)
      then Some (Some (move a c trg (c_ctx c) (c_act c)))
      else Some None
  | TNotSet _ _ | TWildcard _ => Some None
  end.

(* lexer_atn_simulator.go:349-404 closure.  [fuel] bounds the depth of the recursion;
   the depth the table needs is a constant (see [lexer_fuel]). *)
Fixpoint closure (fuel : nat) (a : atn) (c : config) (cs : cset)
  (reached eof : bool) : option (cset * bool) :=
  match fuel with
  | O => None
  | S fuel' =>
      let* s := get_state (a_states a) (c_state c) in
      if as_type s =? ATNStateRuleStop then
        match c_ctx c with
        | [] => let* cs' := add_config (config_hash c) c cs in Some (cs', true)
        | r :: ctx =>
            closure fuel' a (move a c r ctx (c_act c)) cs reached eof
        end
      else
        let* cs1 :=
          if negb (as_eps s) && (negb reached || negb (c_ng c))
          then add_config (config_hash c) c cs else Some cs in
        (fix go (ts : list trans) (cs : cset) (reached : bool) :=
           match ts with
           | [] => Some (cs, reached)
           | t :: ts' =>
               let* o := epsilon_target a c t eof in
               match o with
               | None => go ts' cs reached
               | Some c' =>
                   let* (cs', reached') := closure fuel' a c' cs reached eof in
                   go ts' cs' reached'
               end
           end) (as_trans s) cs1 reached
  end.

(* lexer_atn_simulator.go:274-308 getReachableConfigSet.  [fixOffsetBeforeMatch] does
   nothing to channel actions.  [skip] is SkipAlt, 0 at first
   (ATNInvalidAltNumber). *)
Definition lexer_fuel : nat := 20.
Fixpoint reach_edges (a : atn) (c : config) (ts : list trans) (t : Z)
  (cur : bool) (cs : cset) (skip : Z) : option (cset * Z) :=
  match ts with
  | [] => Some (cs, skip)
  | e :: ts' =>
      if matches_char e t then
        let* (cs', r) := closure lexer_fuel a (move a c (target e) (c_ctx c) (c_act c))
                           cs cur (t =? -1) in
        reach_edges a c ts' t cur cs' (if r then c_alt c else skip)
      else reach_edges a c ts' t cur cs skip
  end.
Fixpoint reach_configs (a : atn) (l : list config) (t : Z) (cs : cset) (skip : Z)
  : option cset :=
  match l with
  | [] => Some cs
  | c :: r =>
      let cur := c_alt c =? skip in
      if cur && c_ng c then reach_configs a r t cs skip
      else
        let* s := get_state (a_states a) (c_state c) in
        let* (cs', skip') := reach_edges a c (as_trans s) t cur cs skip in
        reach_configs a r t cs' skip'
  end.
Definition reach (a : atn) (l : list config) (t : Z) : option (list config) :=
  let* cs := reach_configs a l t [] 0 in Some (map snd cs).

(* lexer_atn_simulator.go:331-340 computeStartState, of mode 0 *)
Fixpoint start_closures (a : atn) (ts : list trans) (i : Z) (cs : cset)
  : option cset :=
  match ts with
  | [] => Some cs
  | t :: ts' =>
      let* (cs', _) := closure lexer_fuel a
          {| c_state := target t; c_alt := i; c_ctx := []; c_ng := false;
             c_act := None |} cs false false in
      start_closures a ts' (i + 1) cs'
  end.
Definition start_configs (a : atn) : option (list config) :=
  let* n := at_index (a_modes a) 0 in
  let* s := get_state (a_states a) n in
  let* cs := start_closures a (as_trans s) 1 [] in
  Some (map snd cs).

(* lexer_atn_simulator.go:568-587 addDFAState: what a set of configurations accepts:
   the token type of the rule of its first configuration in a rule stop
   state, and its actions.  [Some None]: not an accept state. *)
Definition accept : Type := (Z * option (list action))%type.
Fixpoint accepts (a : atn) (l : list config) : option (option accept) :=
  match l with
  | [] => Some None
  | c :: r =>
      let* s := get_state (a_states a) (c_state c) in
      if as_type s =? ATNStateRuleStop then
        let* tty := at_index (a_rule_token a) (as_rule s) in
        Some (Some (tty, c_act c))
      else accepts a r
  end.

(* lexer_atn_simulator.go:141-203 execATN, without the DFA.  [n] characters are
   consumed, [prev] is prevAccept: the number of characters consumed when the
   last accept state was reached.  The result is prevAccept and the number of
   characters consumed at the end.  At the end of the text the step on EOF must
   lead nowhere (otherwise [None]; no edge of the table is labelled EOF). *)
Fixpoint exec (a : atn) (s : list config) (inp : list Z) (n : nat)
  (prev : option (nat * accept)) : option (option (nat * accept) * nat) :=
  match inp with
  | [] =>
      let* r := reach a s (-1) in
      match r with [] => Some (prev, n) | _ => None end
  | c :: inp' =>
      let* r := reach a s c in
      match r with
      | [] => Some (prev, n)
      | _ => let* acc := accepts a r in
             exec a r inp' (S n)
               (match acc with Some x => Some (S n, x) | None => prev end)
      end
  end.

(* lexer_action_executor.go:116-139 execute; lexer_action.go:367-369; lexer.go:154-156 and 201:
   the channel is the default channel 0 unless an action sets it *)
Definition channel (e : option (list action)) : Z :=
  match e with
  | None => 0
  | Some l => fold_left (fun _ (x : action) => snd (fst x)) l 0
  end.

(* What matching at one place of the text comes to (lexer.go:166-178
   safeMatch, lexer_atn_simulator.go:86-110 Match and 255-268 failOrAccept,
   lexer.go:416-426 Recover): a token of [len] characters, the end of the text, or an error
   after which [skipped] characters are gone. *)
Inductive outcome :=
| OToken (len : nat) (ttype chan : Z)
| OEof
| OError (skipped : nat).

Definition match_token (a : atn) (inp : list Z) : option outcome :=
  let* s0 := start_configs a in
  let* acc0 := accepts a s0 in
  let* (prev, n) := exec a s0 inp 0
      (match acc0 with Some x => Some (O, x) | None => None end) in
  match prev with
  | Some (len, (tty, e)) => Some (OToken len tty (channel e))
  | None =>
      match inp with
      | [] => Some OEof
      | _ => Some (OError (if (n <? length inp)%nat then S n else n))
      end
  end.

(* ---------- the tokens of a text ---------- *)

(* What comes out of the lexer: tokens, and the errors it reports to its
   listener (lexer.go:382-389 notifyListeners) with the characters it drops. *)
Inductive item :=
| ITok (ttype chan : Z) (text : list Z)
| IErr (dropped : list Z).

(* lexer.go:181-235 NextToken in a loop up to the EOF token
   (common_token_stream.go:127-147 fetch): [hit] is hitEOF.  The last item is
   the EOF token (type -1, channel 0). *)
Definition eof_token : item := ITok (-1) 0 [].
Fixpoint tokens (fuel : nat) (a : atn) (inp : list Z) (hit : bool)
  : option (list item) :=
  match fuel with
  | O => None
  | S fuel' =>
      if hit then Some [eof_token]
      else
        let* o := match_token a inp in
        match o with
        | OEof => Some [eof_token]
        | OToken len tty ch =>
            let rest := skipn len inp in
            let* r := tokens fuel' a rest (match rest with [] => true | _ => false end) in
            Some (ITok tty ch (firstn len inp) :: r)
        | OError k =>
            let rest := skipn k inp in
            let* r := tokens fuel' a rest (match rest with [] => true | _ => false end) in
            Some (IErr (firstn k inp) :: r)
        end
  end.

(* Every step takes at least one character. *)
Definition lex_with (a : atn) (inp : list Z) : option (list item) :=
  tokens (S (length inp)) a inp false.
