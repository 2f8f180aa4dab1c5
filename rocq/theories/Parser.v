(** The parser of .proto files (prutalgen/internal/parser/protobuf_parser.go, generated
    by ANTLR from prutalgen/internal/Protobuf.g4) and the parts of the ANTLR runtime it
    calls (prutalgen/internal/antlr).

    Every function of the generated parser is a sequence of statements of a few forms.
    These forms are the type [code], their meaning is [exec], and [body] is the text of
    each of the 53 functions.

    Simplifications.  (1) The model ends at the first error: parseInput
    (prutalgen/pkg/prutalgen/prutalgen.go:236-252) gives up if an error was reported, and
    whatever the recovery does it reports the first error (error_strategy.go:96-117).
    (2) Sync and AdaptivePredict read the network that is serialized in
    protobuf_parser.go:69-299; here they read the rules that the functions themselves
    follow ([rhs]).  That this is the same is proved in Props_Patn.v.  (3) AdaptivePredict is a parameter, because most theorems hold
    whatever it answers; [predict] below is the prediction with full context. *)
From Coq Require Import List ZArith Bool Arith.
From Verif Require Import Base Atn LexFile ParserNames.
Import ListNotations.
Open Scope Z_scope.

(* ---------- statements ---------- *)
Inductive code :=
| Match (t : Z)                                   (* p.Match(t) *)
| MatchSet (ts : list Z)                          (* if !(LA(1) in ts) RecoverInline else Consume *)
| Call (r : nat)                                  (* p.Rule() *)
| If (ts : list Z) (b : list code)                (* Sync; if LA(1) in ts { b } *)
| While (ts : list Z) (b : list code)             (* Sync; for LA(1) in ts { b; Sync } *)
| DoWhile (ts : list Z) (b : list code)           (* Sync; for ok := true; ok; ok = LA(1) in ts { b; Sync } *)
| Switch (cases : list (list Z * list code))      (* Sync; switch LA(1) { ...; default: error } *)
| IfPredict (d : nat) (b : list code)             (* Sync; if AdaptivePredict(d) == 1 { b } *)
| WhilePredict (d : nat) (b : list code)          (* Sync; for AdaptivePredict(d) == 1 { b; Sync } *)
| SwitchPredict (d : nat) (bs : list (list code)). (* Sync; switch AdaptivePredict(d) { ... } *)

(* the tokens t with (1<<t) & m != 0 *)
Definition mask (m : Z) : list Z := filter (Z.testbit m) (map Z.of_nat (seq 0 64)).

Definition body (r : nat) : list code :=
  match r with
  (* Proto, 759-856 *)
  | 0 => [If [SYNTAX; EDITION] [Call r_edition];
      While (mask 614180323528) [Switch [([IMPORT], [Call r_importStatement]);
          ([PACKAGE], [Call r_packageStatement]);
          ([OPTION], [Call r_optionStatement]);
          ([ENUM; MESSAGE; SERVICE; EXTEND], [Call r_topLevelDef]);
          ([SEMI], [Call r_emptyStatement])]];
      Match EOF]
  (* Edition, 960-1009 *)
  | 1 => [MatchSet [SYNTAX; EDITION];
      Match EQ;
      Call r_strLit;
      Match SEMI]
  (* ImportStatement, 1113-1172 *)
  | 2 => [Match IMPORT;
      If [WEAK; PUBLIC] [MatchSet [WEAK; PUBLIC]];
      Call r_strLit;
      Match SEMI]
  (* PackageStatement, 1266-1302 *)
  | 3 => [Match PACKAGE; Call r_fullIdent; Match SEMI]
  (* OptionStatement, 1418-1466 *)
  | 4 => [Match OPTION;
      Call r_optionName;
      Match EQ;
      Call r_constant;
      Match SEMI]
  (* OptionName, 1591-1671 *)
  | 5 => [Switch [([SYNTAX; EDITION; IMPORT; WEAK; PUBLIC; PACKAGE; OPTION; OPTIONAL; REPEATED; ONEOF; MAP;
      INT32; INT64; UINT32; UINT64; SINT32; SINT64; FIXED32; FIXED64; SFIXED32; SFIXED64; BOOL; STRING;
      DOUBLE; FLOAT; BYTES; RESERVED; EXTENSIONS; TO; MAX; ENUM; MESSAGE; SERVICE; EXTEND; RPC; STREAM;
      RETURNS; BOOL_LIT; IDENTIFIER], [Call r_fullIdent]);
        ([LP], [Match LP;
        Call r_fullIdent;
        Match RP;
        If [DOT] [Match DOT; Call r_fullIdent]])]]
  (* FieldLabel, 1753-1782 *)
  | 6 => [MatchSet (mask 1792)]
  (* Field, 1954-2042 *)
  | 7 => [IfPredict 6 [Call r_fieldLabel];
      Call r_fieldType;
      Call r_fieldName;
      Match EQ;
      Call r_fieldNumber;
      If [LB] [Match LB; Call r_fieldOptions; Match RB];
      Match SEMI]
  (* FieldOptions, 2162-2212 *)
  | 8 => [Call r_fieldOption;
      While [COMMA] [Match COMMA; Call r_fieldOption]]
  (* FieldOption, 2318-2350 *)
  | 9 => [Call r_optionName; Match EQ; Call r_constant]
  (* FieldNumber, 2434-2454 *)
  | 10 => [Call r_intLit]
  (* Oneof, 2682-2772 *)
  | 11 => [Match ONEOF;
      Call r_oneofName;
      Match LC;
      While (mask 324823222635724286) [SwitchPredict 9 [[Call r_optionStatement];
          [Call r_oneofField];
          [Call r_emptyStatement]]];
      Match RC]
  (* OneofField, 2927-3003 *)
  | 12 => [Call r_fieldType;
      Call r_fieldName;
      Match EQ;
      Call r_fieldNumber;
      If [LB] [Match LB; Call r_fieldOptions; Match RB];
      Match SEMI]
  (* MapField, 3195-3307 *)
  | 13 => [Match MAP;
      Match LT;
      Call r_keyType;
      Match COMMA;
      Call r_fieldType;
      Match GT;
      Call r_fieldName;
      Match EQ;
      Call r_fieldNumber;
      If [LB] [Match LB; Call r_fieldOptions; Match RB];
      Match SEMI]
  (* KeyType, 3434-3463 *)
  | 14 => [MatchSet (mask 33546240)]
  (* FieldType, 3639-3843 *)
  | 15 => [SwitchPredict 13 [[Match DOUBLE];
        [Match FLOAT];
        [Match INT32];
        [Match INT64];
        [Match UINT32];
        [Match UINT64];
        [Match SINT32];
        [Match SINT64];
        [Match FIXED32];
        [Match FIXED64];
        [Match SFIXED32];
        [Match SFIXED64];
        [Match BOOL];
        [Match STRING];
        [Match BYTES];
        [Call r_messageType];
        [Call r_enumType]]]
  (* Reserved, 3954-4009 *)
  | 16 => [Match RESERVED;
      Switch [([INT_LIT], [Call r_ranges]);
        ([STR_LIT_SINGLE], [Call r_reservedFieldNames])];
      Match SEMI]
  (* Extensions, 4130-4198 *)
  | 17 => [Match EXTENSIONS;
      Call r_ranges;
      If [LB] [Match LB; Call r_fieldOptions; Match RB];
      Match SEMI]
  (* Ranges, 4318-4368 *)
  | 18 => [Call r_oneRange;
      While [COMMA] [Match COMMA; Call r_oneRange]]
  (* OneRange, 4488-4555 *)
  | 19 => [Call r_intLit;
      If [TO] [Match TO;
        Switch [([INT_LIT], [Call r_intLit]);
          ([MAX], [Match MAX])]]]
  (* ReservedFieldNames, 4675-4725 *)
  | 20 => [Call r_strLit; While [COMMA] [Match COMMA; Call r_strLit]]
  (* TopLevelDef, 4860-4914 *)
  | 21 => [Switch [([MESSAGE], [Call r_messageDef]);
        ([ENUM], [Call r_enumDef]);
        ([EXTEND], [Call r_extendDef]);
        ([SERVICE], [Call r_serviceDef])]]
  (* EnumDef, 5020-5052 *)
  | 22 => [Match ENUM; Call r_enumName; Call r_enumBody]
  (* EnumBody, 5172-5226 *)
  | 23 => [Match LC;
      While (mask 324260272682302974) [Call r_enumElement];
      Match RC]
  (* EnumElement, 5361-5414 *)
  | 24 => [SwitchPredict 22 [[Call r_optionStatement];
        [Call r_enumField];
        [Call r_reserved];
        [Call r_emptyStatement]]]
  (* EnumField, 5547-5621 *)
  | 25 => [Call r_ident;
      Match EQ;
      If [MINUS] [Match MINUS];
      Call r_intLit;
      If [LB] [Call r_enumValueOptions];
      Match SEMI]
  (* EnumValueOptions, 5751-5817 *)
  | 26 => [Match LB;
      Call r_enumValueOption;
      While [COMMA] [Match COMMA; Call r_enumValueOption];
      Match RB]
  (* EnumValueOption, 5923-5955 *)
  | 27 => [Call r_optionName; Match EQ; Call r_constant]
  (* MessageDef, 6061-6093 *)
  | 28 => [Match MESSAGE; Call r_messageName; Call r_messageBody]
  (* MessageBody, 6213-6267 *)
  | 29 => [Match LC;
      While (mask 324823222635724798) [Call r_messageElement];
      Match RC]
  (* MessageElement, 6504-6599 *)
  | 30 => [SwitchPredict 27 [[Call r_field];
        [Call r_enumDef];
        [Call r_messageDef];
        [Call r_extendDef];
        [Call r_optionStatement];
        [Call r_oneof];
        [Call r_mapField];
        [Call r_reserved];
        [Call r_extensions];
        [Call r_emptyStatement]]]
  (* ExtendDef, 6784-6869 *)
  | 31 => [Match EXTEND;
      Call r_messageType;
      Match LC;
      While (mask 324823222635724798) [Switch [([SYNTAX; EDITION; IMPORT; WEAK; PUBLIC; PACKAGE; OPTION;
          OPTIONAL; REQUIRED; REPEATED; ONEOF; MAP; INT32; INT64; UINT32; UINT64; SINT32; SINT64; FIXED32;
          FIXED64; SFIXED32; SFIXED64; BOOL; STRING; DOUBLE; FLOAT; BYTES; RESERVED; EXTENSIONS; TO; MAX;
          ENUM; MESSAGE; SERVICE; EXTEND; RPC; STREAM; RETURNS; DOT; BOOL_LIT; IDENTIFIER], [Call r_field]);
          ([SEMI], [Call r_emptyStatement])]];
      Match RC]
  (* ServiceDef, 7011-7077 *)
  | 32 => [Match SERVICE;
      Call r_serviceName;
      Match LC;
      While (mask 618475290752) [Call r_serviceElement];
      Match RC]
  (* ServiceElement, 7195-7242 *)
  | 33 => [Switch [([OPTION], [Call r_optionStatement]);
        ([RPC], [Call r_rpc]);
        ([SEMI], [Call r_emptyStatement])]]
  (* Rpc, 7510-7698 *)
  | 34 => [Match RPC;
      Call r_rpcName;
      Match LP;
      IfPredict 32 [Match STREAM];
      Call r_messageType;
      Match RP;
      Match RETURNS;
      Match LP;
      IfPredict 33 [Match STREAM];
      Call r_messageType;
      Match RP;
      Switch [([LC], [Match LC;
        While [OPTION; SEMI] [Switch [([OPTION], [Call r_optionStatement]);
            ([SEMI], [Call r_emptyStatement])]];
        Match RC]);
        ([SEMI], [Match SEMI])]]
  (* Constant, 7877-7988 *)
  | 35 => [SwitchPredict 39 [[Call r_fullIdent];
        [If [PLUS; MINUS] [MatchSet [PLUS; MINUS]]; Call r_intLit];
        [If [PLUS; MINUS] [MatchSet [PLUS; MINUS]]; Call r_floatLit];
        [Call r_strLit];
        [Call r_boolLit];
        [Call r_blockLit]]]
  (* BlockLit, 8181-8268 *)
  | 36 => [Match LC;
      While (mask 324259722926489086) [Call r_ident;
        Match COLON;
        Call r_constant;
        If [SEMI; COMMA] [MatchSet [SEMI; COMMA]]];
      Match RC]
  (* EmptyStatement, 8340-8364 *)
  | 37 => [Match SEMI]
  (* Ident, 8453-8497 *)
  | 38 => [Switch [([IDENTIFIER], [Match IDENTIFIER]);
        ([SYNTAX; EDITION; IMPORT; WEAK; PUBLIC; PACKAGE; OPTION; OPTIONAL; REPEATED; ONEOF; MAP; INT32;
            INT64; UINT32; UINT64; SINT32; SINT64; FIXED32; FIXED64; SFIXED32; SFIXED64; BOOL; STRING;
            DOUBLE; FLOAT; BYTES; RESERVED; EXTENSIONS; TO; MAX; ENUM; MESSAGE; SERVICE; EXTEND; RPC; STREAM;
            RETURNS; BOOL_LIT], [Call r_keywords])]]
  (* FullIdent, 8617-8667 *)
  | 39 => [Call r_ident; While [DOT] [Match DOT; Call r_ident]]
  (* MessageName, 8751-8771 *)
  | 40 => [Call r_ident]
  (* EnumName, 8855-8875 *)
  | 41 => [Call r_ident]
  (* FieldName, 8959-8979 *)
  | 42 => [Call r_ident]
  (* OneofName, 9063-9083 *)
  | 43 => [Call r_ident]
  (* ServiceName, 9167-9187 *)
  | 44 => [Call r_ident]
  (* RpcName, 9271-9291 *)
  | 45 => [Call r_ident]
  (* MessageType, 9428-9505 *)
  | 46 => [If [DOT] [Match DOT];
      WhilePredict 45 [Call r_ident; Match DOT];
      Call r_messageName]
  (* EnumType, 9642-9719 *)
  | 47 => [If [DOT] [Match DOT];
      WhilePredict 47 [Call r_ident; Match DOT];
      Call r_enumName]
  (* IntLit, 9791-9815 *)
  | 48 => [Match INT_LIT]
  (* StrLit, 9892-9934 *)
  | 49 => [DoWhile [STR_LIT_SINGLE] [Match STR_LIT_SINGLE]]
  (* BoolLit, 10006-10030 *)
  | 50 => [Match BOOL_LIT]
  (* FloatLit, 10102-10126 *)
  | 51 => [Match FLOAT_LIT]
  (* Keywords, 10383-10412 *)
  | 52 => [MatchSet (mask 36029346774777342)]
  | _ => []
  end%nat.

(* ---------- the network of the parser ---------- *)

(* What a statement says in the network. *)
Fixpoint erase (c : code) : sym :=
  match c with
  | Match t => T [t]
  | MatchSet ts => T ts
  | Call r => N r
  | If _ b | IfPredict _ b => Opt (map erase b)
  | While _ b | WhilePredict _ b => Star (map erase b)
  | DoWhile _ b => Plus (map erase b)
  | Switch cs => Alt (map (fun p => map erase (snd p)) cs)
  | SwitchPredict _ bs => Alt (map (map erase) bs)
  end.
Definition rhs (r : nat) : list sym := map erase (body r).

Definition mem (x : Z) (l : list Z) : bool := existsb (Z.eqb x) l.

(* ll1_analyzer.go:73-205 Look with a nil context, called by ATN.NextTokens
   (atn.go:76-103): the tokens that can come next, and whether the end of the
   rule can be reached without a token (TokenEpsilon).  The code marks the rules
   that are being looked at; here [depth] bounds how many there can be. *)
Definition union (x y : list Z * bool) : list Z * bool := (fst x ++ fst y, snd x || snd y).
Definition union' (a : list Z) (y : list Z * bool) : list Z * bool := (a ++ fst y, snd y).
Section Look.
Variable rule_look : nat -> list Z * bool.
Fixpoint look_sym (s : sym) : list Z * bool :=
  let seq := fix seq l :=
    match l with [] => ([], true) | s :: l' => let (a, e) := look_sym s in if e then union' a (seq l') else (a, false) end in
  match s with
  | T ks => (ks, false)
  | N q => rule_look q
  | Opt b | Star b => (fst (seq b), true)
  | Plus b => seq b
  | Alt bs => fold_right (fun b => union (seq b)) ([], false) bs
  end.
Definition look_seq : list sym -> list Z * bool :=
  fix seq l := match l with [] => ([], true) | s :: l' => let (a, e) := look_sym s in if e then union' a (seq l') else (a, false) end.
End Look.
Fixpoint look_rule (n : nat) (q : nat) : list Z * bool :=
  match n with
  | O => ([], false)
  | S n' => look_seq (look_rule n') (rhs q)
  end.
Definition depth : nat := 16.
Definition look : list sym -> list Z * bool := look_seq (look_rule depth).

(* error_strategy.go:188-222 Sync: [true] if it does nothing.  [l] is what the
   rule expects. *)
Definition sync (l : list sym) (la : Z) : bool :=
  let (a, e) := look l in e || mem la a.

(* LA(1), common_token_stream.go:404-430 and buffered: behind the last token it is EOF *)
Definition la (inp : list tok) : Z := match inp with t :: _ => t_kind t | [] => EOF end.

(* ---------- running the parser ---------- *)
Inductive result :=
| OK (f : list tree) (rest : list tok)  (* the children added, the tokens that are left *)
| Err                                   (* an error is reported *)
| NoFuel.
Definition andthen (x : result) (g : list tree -> list tok -> result) : result :=
  match x with OK f rest => g f rest | e => e end.

(* AdaptivePredict (parser_atn_simulator.go:91-212): the number of the decision,
   what each alternative and the rest of the file after it look like in the
   network, and the tokens.  The alternatives are numbered from 0 here. *)
Definition oracle := nat -> list (list sym) -> list tok -> option nat.

Section Exec.
Variable o : oracle.

Fixpoint find_case (t : Z) (cs : list (list Z * list code)) : option (list code) :=
  match cs with
  | [] => None
  | (ts, b) :: cs' => if mem t ts then Some b else find_case t cs'
  end.

(* [cs]: the statements of a block; [r]: what comes after the block in the same
   rule; [k]: what comes after the rule, from the invoking states of the contexts
   (parser_rule_context.go). *)
Fixpoint exec (fuel : nat) (cs : list code) (r k : list sym) (inp : list tok) : result :=
  match fuel with
  | O => NoFuel
  | S n =>
      match cs with
      | [] => OK [] inp
      | c :: cs' =>
          let rest := map erase cs' ++ r in
          (* a block of the rule and then the statements after it *)
          let block b r' next :=
            andthen (exec n b r' k inp) (fun f1 inp1 =>
            andthen (exec n next r k inp1) (fun f2 inp2 => OK (f1 ++ f2) inp2)) in
          (* parser.go:146-168 Match, 415-442 Consume *)
          let consume ts :=
            match inp with
            | t :: inp' =>
                if mem (t_kind t) ts
                then andthen (exec n cs' r k inp') (fun f inp2 => OK (Leaf t :: f) inp2)
                else Err
            | [] => Err
            end in
          match c with
          | Match t => consume [t]
          | MatchSet ts => consume ts
          | Call q =>
              andthen (exec n (body q) [] (rest ++ k) inp) (fun f1 inp1 =>
              andthen (exec n cs' r k inp1) (fun f2 inp2 => OK (Node q f1 :: f2) inp2))
          | If ts b =>
              if sync (erase c :: rest) (la inp) then
                if mem (la inp) ts then block b rest cs' else exec n cs' r k inp
              else Err
          | While ts b =>
              if sync (erase c :: rest) (la inp) then
                if mem (la inp) ts then block b (erase c :: rest) cs else exec n cs' r k inp
              else Err
          | DoWhile ts b =>
              if sync (erase c :: rest) (la inp)
              then block b (Star (map erase b) :: rest) (While ts b :: cs')
              else Err
          | Switch cases =>
              if sync (erase c :: rest) (la inp) then
                match find_case (la inp) cases with
                | Some b => block b rest cs'
                | None => Err
                end
              else Err
          | IfPredict d b =>
              if sync (erase c :: rest) (la inp) then
                match o d [map erase b ++ rest ++ k; rest ++ k] inp with
                | Some O => block b rest cs'
                | Some _ => exec n cs' r k inp
                | None => Err
                end
              else Err
          | WhilePredict d b =>
              if sync (erase c :: rest) (la inp) then
                match o d [map erase b ++ erase c :: rest ++ k; rest ++ k] inp with
                | Some O => block b (erase c :: rest) cs
                | Some _ => exec n cs' r k inp
                | None => Err
                end
              else Err
          | SwitchPredict d bs =>
              if sync (erase c :: rest) (la inp) then
                match o d (map (fun b => map erase b ++ rest ++ k) bs) inp with
                | Some i =>
                    match nth_error bs i with
                    | Some b => block b rest cs'
                    | None => Err
                    end
                | None => Err
                end
              else Err
          end
      end
  end.

(* p.Proto() on a new parser, prutalgen.go:245-251.  The number of steps is
   enough for every input. *)
Definition parse (inp : list tok) : result :=
  andthen (exec (100 * length inp + 100) (body r_proto) [] [] inp)
    (fun f rest => OK [Node r_proto f] rest).
End Exec.

(* ---------- prediction with full context ---------- *)

(* parser_atn_simulator.go:990-1181 closure: the configurations that begin with
   a token and are reached without one, and whether the end can be reached.  A
   configuration is what the network expects: the rest of the rule and of the
   rules that called it. *)
Definition hunion (x y : list (list sym) * bool) : list (list sym) * bool :=
  (fst x ++ fst y, snd x || snd y).
Definition hunion' (a : list (list sym)) (y : list (list sym) * bool) := (a ++ fst y, snd y).
Definition before (a : list (list sym)) (l : list sym) : list (list sym) := map (fun c => c ++ l) a.
Section Heads.
Variable rule_heads : nat -> list (list sym) * bool.
Fixpoint heads_sym (s : sym) : list (list sym) * bool :=
  let seq := fix seq l :=
    match l with [] => ([], true) | s :: l' => let (a, e) := heads_sym s in if e then hunion' (before a l') (seq l') else (before a l', false) end in
  match s with
  | T _ => ([[s]], false)
  | N q => rule_heads q
  | Opt b => (fst (seq b), true)
  | Star b => (map (fun c => c ++ [s]) (fst (seq b)), true)
  | Plus b => (map (fun c => c ++ [Star b]) (fst (seq b)), snd (seq b))
  | Alt bs => fold_right (fun b => hunion (seq b)) ([], false) bs
  end.
Definition heads_seq : list sym -> list (list sym) * bool :=
  fix seq l := match l with [] => ([], true) | s :: l' => let (a, e) := heads_sym s in if e then hunion' (before a l') (seq l') else (before a l', false) end.
End Heads.
Fixpoint heads_rule (n : nat) (q : nat) : list (list sym) * bool :=
  match n with
  | O => ([], false)
  | S n' => heads_seq (heads_rule n') (rhs q)
  end.
Definition closure (l : list sym) : list (list sym) :=
  let (hs, e) := heads_seq (heads_rule depth) l in hs ++ (if e then [[]] else []).

(* Sets of configurations with the number of their alternative
   (atn_config_set.go:68-124; the code keeps the contexts of equal states as one
   graph, here they are apart). *)
Fixpoint sym_eqb (a b : sym) : bool :=
  let seq := fix seq l m :=
    match l, m with [], [] => true | x :: l', y :: m' => if sym_eqb x y then seq l' m' else false | _, _ => false end in
  match a, b with
  | T x, T y => if list_eq_dec Z.eq_dec x y then true else false
  | N p, N q => Nat.eqb p q
  | Opt x, Opt y | Star x, Star y | Plus x, Plus y => seq x y
  | Alt x, Alt y =>
      (fix alts l m :=
        match l, m with [], [] => true | x :: l', y :: m' => if seq x y then alts l' m' else false | _, _ => false end) x y
  | _, _ => false
  end.
Definition seq_eqb : list sym -> list sym -> bool :=
  fix seq l m :=
    match l, m with [], [] => true | x :: l', y :: m' => if sym_eqb x y then seq l' m' else false | _, _ => false end.
Definition config := (nat * list sym)%type.
Definition config_eqb (a b : config) : bool :=
  if Nat.eqb (fst a) (fst b) then seq_eqb (snd a) (snd b) else false.
Definition has (c : config) (l : list config) : bool := existsb (config_eqb c) l.
Fixpoint no_dups (l : list config) : list config :=
  match l with
  | [] => []
  | c :: l' => let r := no_dups l' in if has c r then r else c :: r
  end.

(* 693-752 computeStartState *)
Definition start (alts : list (list sym)) : list config :=
  no_dups (concat (map (fun p => map (pair (fst p)) (closure (snd p)))
    (combine (seq 0 (length alts)) alts))).
(* 526-669 computeReachSet: after EOF only configurations at their end are kept *)
Definition reach (t : Z) (cs : list config) : list config :=
  no_dups (filter (fun c => if t =? EOF then match snd c with [] => true | _ => false end else true)
    (concat (map (fun c =>
       match snd c with
       | T ks :: l => if mem t ks then map (pair (fst c)) (closure l) else []
       | _ => []
       end) cs))).
(* prediction_mode.go:385-391 PredictionModeresolvesToJustOneViableAlt: the alternatives
   of every configuration have the same minimum; getUniqueAlt is a special case *)
Definition least (cs : list config) : nat := fold_right (fun c m => Nat.min (fst c) m) (match cs with c :: _ => fst c | [] => O end) cs.
Definition resolve (cs : list config) : option nat :=
  if forallb (fun c => has (least cs, snd c) cs) cs then Some (least cs) else None.
(* 418-524 execATNWithFullContext *)
Fixpoint exec_full (cs : list config) (inp : list tok) : option nat :=
  match inp with
  | [] =>
      match filter (fun c => match snd c with [] => true | _ => false end) cs with
      | [] => None
      | cs' => Some (least cs')
      end
  | t :: inp' =>
      match reach (t_kind t) cs with
      | [] => None
      | cs' =>
          match resolve cs' with
          | Some m => Some m
          | None => exec_full cs' inp'
          end
      end
  end.
(* The prediction that goes over to full context at once; the code first tries
   without the context of the rule (214-322 execATN) and remembers the steps in a
   cache. *)
Definition predict : oracle := fun _ alts inp => exec_full (start alts) inp.

(* ---------- from the bytes of a file ---------- *)

(* The tokens of channel 0 with the offset at which they begin, in characters
   (common_token_stream.go:404-430 LT; common_token.go start). *)
Fixpoint parser_tokens (start : nat) (l : list item) : list tok :=
  match l with
  | [] => []
  | ITok k ch t :: l' => (if ch =? 0 then [mkTok k start t] else []) ++ parser_tokens (start + length t) l'
  | IErr t :: l' => parser_tokens (start + length t) l'
  end.
(* NewProtobufLexer, NewCommonTokenStream, NewProtobufParser, p.Proto(),
   prutalgen.go:236-251 *)
Definition parse_file (o : oracle) (data : bytes) : result :=
  match lex_file data with
  | Some l => parse o (parser_tokens 0 l)
  | None => NoFuel
  end.
