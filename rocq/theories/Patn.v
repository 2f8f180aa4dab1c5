(** The network of the parser: the table of ParserTable.v as the deserializer reads it
    (prutalgen/internal/antlr/atn_deserializer.go), and the numbers of its states that the
    generated functions name before each step (prutalgen/internal/parser/protobuf_parser.go).

    The parts of the deserializer that a lexer and a parser share are in Atn.v.
    Simplification: verifyATN (atn_deserializer.go:449-533), which panics if the network has
    not the form that ANTLR gives it, and the links between the states of one block or loop,
    which nothing but this check and the error messages read, are left out. *)
From Coq Require Import List ZArith Bool FMapPositive.
From Verif Require Import Base Atn ParserNames ParserTable.
Import ListNotations.
Open Scope Z_scope.

(* ---------- reading the table ---------- *)
(* atn.go: states, ruleToStartState, DecisionToState *)
Record patn := {
  p_states : PositiveMap.t astate;
  p_starts : list Z;
  p_decisions : list Z
}.
(* atn_deserializer.go:147-164 readRules, of a parser: the start state of each rule *)
Fixpoint read_starts (n : nat) (m : PositiveMap.t astate) (d : list Z) : option (list Z * list Z) :=
  match n with
  | O => Some ([], d)
  | S k =>
      let* (s, d1) := read d in
      let* st := get_state m s in
      if as_type st =? ATNStateRuleStart then
        let* (r, d2) := read_starts k m d1 in Some (s :: r, d2)
      else None
  end.
(* atn_deserializer.go:304-314 readDecisions; [None]: the state is no decision, a panic *)
Fixpoint check_decisions (l : list Z) (m : PositiveMap.t astate) : option unit :=
  match l with
  | [] => Some tt
  | n :: r =>
      let* s := get_state m n in
      if is_decision (as_type s) then check_decisions r m else None
  end.
(* atn_deserializer.go:48-77 Deserialize, for a parser (grammar type 1).  A parser has no
   lexer actions; the table has no more numbers. *)
Definition deserialize_parser (d : list Z) : option patn :=
  let* (version, d) := read d in
  if negb (version =? 4) then None else
  let* (gtype, d) := read d in
  if negb (gtype =? 1) then None else
  let* (_, d) := read d in                          (* maxTokenType *)
  let* (nstates, d) := read d in
  let* (m, d) := read_states (count nstates) 0 (PositiveMap.empty _) d in
  let* (nng, d) := read d in
  let* (ng, d) := read_n (count nng) d in
  let* m := set_nongreedy ng m in
  let* (nprec, d) := read d in
  let* (_, d) := read_n (count nprec) d in
  let* (nrules, d) := read d in
  let* (starts, d) := read_starts (count nrules) m d in
  let* (nmodes, d) := read d in
  let* (_, d) := read_n (count nmodes) d in
  let* (nsets, d) := read d in
  let* (sets, d) := read_sets (count nsets) d in
  let* (nedges, d) := read d in
  let* (m, d) := read_edges (count nedges) sets m d in
  let* (ndec, d) := read d in
  let* (decs, d) := read_n (count ndec) d in
  let* _ := check_decisions decs m in
  match d with
  | [] => Some {| p_states := m; p_starts := starts; p_decisions := decs |}
  | _ => None
  end.

Definition empty_patn : patn := {| p_states := PositiveMap.empty _; p_starts := []; p_decisions := [] |}.
(* protobuf_parser.go:300-302 *)
Definition net : patn :=
  match deserialize_parser serialized_parser with Some a => a | None => empty_patn end.

Definition p_state (a : patn) (n : Z) : option astate := get_state (p_states a) n.
Definition p_trans (a : patn) (n : Z) : list trans :=
  match p_state a n with Some s => as_trans s | None => [] end.
(* GetRuleIndex of a state; -1 where there is none *)
Definition p_rule (a : patn) (n : Z) : Z :=
  match p_state a n with Some s => as_rule s | None => -1 end.
Definition p_type (a : patn) (n : Z) : Z :=
  match p_state a n with Some s => as_type s | None => ATNStateInvalidType end.
(* transition.go: the Matches methods, for a token of the type [k]
   (parser_atn_simulator.go:671-677 getReachableTarget); the parser has no other
   transitions that match tokens *)
Definition matches_token (t : trans) (k : Z) : bool :=
  match t with
  | TAtom _ l => l =? k
  | TRange _ lo hi => (lo <=? k) && (k <=? hi)
  | TSet _ s => contains s k
  | _ => false
  end.

(* ---------- the states that the generated functions name ---------- *)
(* p.SetState(n), and what comes after it: p.Match(t), the match of a set, the call of a
   rule, whose context keeps [n], or Sync *)
Inductive at_state := AtMatch (t : Z) | AtSet | AtCall (q : nat) | AtSync.
(* in the order of the text of each function *)
Definition set_states : list (list (Z * at_state)) :=
  [
    (* Proto, 759-856 *)
    [(107, AtSync); (106, AtCall r_edition); (116, AtSync); (114, AtSync);
     (109, AtCall r_importStatement); (110, AtCall r_packageStatement);
     (111, AtCall r_optionStatement); (112, AtCall r_topLevelDef); (113, AtCall r_emptyStatement);
     (118, AtSync); (119, AtMatch EOF)];
    (* Edition, 960-1009 *)
    [(121, AtSet); (122, AtMatch EQ); (123, AtCall r_strLit); (124, AtMatch SEMI)];
    (* ImportStatement, 1113-1172 *)
    [(126, AtMatch IMPORT); (128, AtSync); (127, AtSet); (130, AtCall r_strLit);
     (131, AtMatch SEMI)];
    (* PackageStatement, 1266-1302 *)
    [(133, AtMatch PACKAGE); (134, AtCall r_fullIdent); (135, AtMatch SEMI)];
    (* OptionStatement, 1418-1466 *)
    [(137, AtMatch OPTION); (138, AtCall r_optionName); (139, AtMatch EQ);
     (140, AtCall r_constant); (141, AtMatch SEMI)];
    (* OptionName, 1591-1671 *)
    [(151, AtSync); (143, AtCall r_fullIdent); (144, AtMatch LP); (145, AtCall r_fullIdent);
     (146, AtMatch RP); (149, AtSync); (147, AtMatch DOT); (148, AtCall r_fullIdent)];
    (* FieldLabel, 1753-1782 *)
    [(153, AtSet)];
    (* Field, 1954-2042 *)
    [(156, AtSync); (155, AtCall r_fieldLabel); (158, AtCall r_fieldType);
     (159, AtCall r_fieldName); (160, AtMatch EQ); (161, AtCall r_fieldNumber); (166, AtSync);
     (162, AtMatch LB); (163, AtCall r_fieldOptions); (164, AtMatch RB); (168, AtMatch SEMI)];
    (* FieldOptions, 2162-2212 *)
    [(170, AtCall r_fieldOption); (175, AtSync); (171, AtMatch COMMA); (172, AtCall r_fieldOption);
     (177, AtSync)];
    (* FieldOption, 2318-2350 *)
    [(178, AtCall r_optionName); (179, AtMatch EQ); (180, AtCall r_constant)];
    (* FieldNumber, 2434-2454 *)
    [(182, AtCall r_intLit)];
    (* Oneof, 2682-2772 *)
    [(184, AtMatch ONEOF); (185, AtCall r_oneofName); (186, AtMatch LC); (192, AtSync);
     (190, AtSync); (187, AtCall r_optionStatement); (188, AtCall r_oneofField);
     (189, AtCall r_emptyStatement); (194, AtSync); (195, AtMatch RC)];
    (* OneofField, 2927-3003 *)
    [(197, AtCall r_fieldType); (198, AtCall r_fieldName); (199, AtMatch EQ);
     (200, AtCall r_fieldNumber); (205, AtSync); (201, AtMatch LB); (202, AtCall r_fieldOptions);
     (203, AtMatch RB); (207, AtMatch SEMI)];
    (* MapField, 3195-3307 *)
    [(209, AtMatch MAP); (210, AtMatch LT); (211, AtCall r_keyType); (212, AtMatch COMMA);
     (213, AtCall r_fieldType); (214, AtMatch GT); (215, AtCall r_fieldName); (216, AtMatch EQ);
     (217, AtCall r_fieldNumber); (222, AtSync); (218, AtMatch LB); (219, AtCall r_fieldOptions);
     (220, AtMatch RB); (224, AtMatch SEMI)];
    (* KeyType, 3434-3463 *)
    [(226, AtSet)];
    (* FieldType, 3639-3843 *)
    [(245, AtSync); (228, AtMatch DOUBLE); (229, AtMatch FLOAT); (230, AtMatch INT32);
     (231, AtMatch INT64); (232, AtMatch UINT32); (233, AtMatch UINT64); (234, AtMatch SINT32);
     (235, AtMatch SINT64); (236, AtMatch FIXED32); (237, AtMatch FIXED64);
     (238, AtMatch SFIXED32); (239, AtMatch SFIXED64); (240, AtMatch BOOL); (241, AtMatch STRING);
     (242, AtMatch BYTES); (243, AtCall r_messageType); (244, AtCall r_enumType)];
    (* Reserved, 3954-4009 *)
    [(247, AtMatch RESERVED); (250, AtSync); (248, AtCall r_ranges);
     (249, AtCall r_reservedFieldNames); (252, AtMatch SEMI)];
    (* Extensions, 4130-4198 *)
    [(254, AtMatch EXTENSIONS); (255, AtCall r_ranges); (260, AtSync); (256, AtMatch LB);
     (257, AtCall r_fieldOptions); (258, AtMatch RB); (262, AtMatch SEMI)];
    (* Ranges, 4318-4368 *)
    [(264, AtCall r_oneRange); (269, AtSync); (265, AtMatch COMMA); (266, AtCall r_oneRange);
     (271, AtSync)];
    (* OneRange, 4488-4555 *)
    [(272, AtCall r_intLit); (278, AtSync); (273, AtMatch TO); (276, AtSync);
     (274, AtCall r_intLit); (275, AtMatch MAX)];
    (* ReservedFieldNames, 4675-4725 *)
    [(280, AtCall r_strLit); (285, AtSync); (281, AtMatch COMMA); (282, AtCall r_strLit);
     (287, AtSync)];
    (* TopLevelDef, 4860-4914 *)
    [(292, AtSync); (288, AtCall r_messageDef); (289, AtCall r_enumDef); (290, AtCall r_extendDef);
     (291, AtCall r_serviceDef)];
    (* EnumDef, 5020-5052 *)
    [(294, AtMatch ENUM); (295, AtCall r_enumName); (296, AtCall r_enumBody)];
    (* EnumBody, 5172-5226 *)
    [(298, AtMatch LC); (302, AtSync); (299, AtCall r_enumElement); (304, AtSync);
     (305, AtMatch RC)];
    (* EnumElement, 5361-5414 *)
    [(311, AtSync); (307, AtCall r_optionStatement); (308, AtCall r_enumField);
     (309, AtCall r_reserved); (310, AtCall r_emptyStatement)];
    (* EnumField, 5547-5621 *)
    [(313, AtCall r_ident); (314, AtMatch EQ); (316, AtSync); (315, AtMatch MINUS);
     (318, AtCall r_intLit); (320, AtSync); (319, AtCall r_enumValueOptions); (322, AtMatch SEMI)];
    (* EnumValueOptions, 5751-5817 *)
    [(324, AtMatch LB); (325, AtCall r_enumValueOption); (330, AtSync); (326, AtMatch COMMA);
     (327, AtCall r_enumValueOption); (332, AtSync); (333, AtMatch RB)];
    (* EnumValueOption, 5923-5955 *)
    [(335, AtCall r_optionName); (336, AtMatch EQ); (337, AtCall r_constant)];
    (* MessageDef, 6061-6093 *)
    [(339, AtMatch MESSAGE); (340, AtCall r_messageName); (341, AtCall r_messageBody)];
    (* MessageBody, 6213-6267 *)
    [(343, AtMatch LC); (347, AtSync); (344, AtCall r_messageElement); (349, AtSync);
     (350, AtMatch RC)];
    (* MessageElement, 6504-6599 *)
    [(362, AtSync); (352, AtCall r_field); (353, AtCall r_enumDef); (354, AtCall r_messageDef);
     (355, AtCall r_extendDef); (356, AtCall r_optionStatement); (357, AtCall r_oneof);
     (358, AtCall r_mapField); (359, AtCall r_reserved); (360, AtCall r_extensions);
     (361, AtCall r_emptyStatement)];
    (* ExtendDef, 6784-6869 *)
    [(364, AtMatch EXTEND); (365, AtCall r_messageType); (366, AtMatch LC); (371, AtSync);
     (369, AtSync); (367, AtCall r_field); (368, AtCall r_emptyStatement); (373, AtSync);
     (374, AtMatch RC)];
    (* ServiceDef, 7011-7077 *)
    [(376, AtMatch SERVICE); (377, AtCall r_serviceName); (378, AtMatch LC); (382, AtSync);
     (379, AtCall r_serviceElement); (384, AtSync); (385, AtMatch RC)];
    (* ServiceElement, 7195-7242 *)
    [(390, AtSync); (387, AtCall r_optionStatement); (388, AtCall r_rpc);
     (389, AtCall r_emptyStatement)];
    (* Rpc, 7510-7698 *)
    [(392, AtMatch RPC); (393, AtCall r_rpcName); (394, AtMatch LP); (396, AtSync);
     (395, AtMatch STREAM); (398, AtCall r_messageType); (399, AtMatch RP); (400, AtMatch RETURNS);
     (401, AtMatch LP); (403, AtSync); (402, AtMatch STREAM); (405, AtCall r_messageType);
     (406, AtMatch RP); (417, AtSync); (407, AtMatch LC); (412, AtSync); (410, AtSync);
     (408, AtCall r_optionStatement); (409, AtCall r_emptyStatement); (414, AtSync);
     (415, AtMatch RC); (416, AtMatch SEMI)];
    (* Constant, 7877-7988 *)
    [(431, AtSync); (419, AtCall r_fullIdent); (421, AtSync); (420, AtSet); (423, AtCall r_intLit);
     (425, AtSync); (424, AtSet); (427, AtCall r_floatLit); (428, AtCall r_strLit);
     (429, AtCall r_boolLit); (430, AtCall r_blockLit)];
    (* BlockLit, 8181-8268 *)
    [(433, AtMatch LC); (442, AtSync); (434, AtCall r_ident); (435, AtMatch COLON);
     (436, AtCall r_constant); (438, AtSync); (437, AtSet); (444, AtSync); (445, AtMatch RC)];
    (* EmptyStatement, 8340-8364 *)
    [(447, AtMatch SEMI)];
    (* Ident, 8453-8497 *)
    [(451, AtSync); (449, AtMatch IDENTIFIER); (450, AtCall r_keywords)];
    (* FullIdent, 8617-8667 *)
    [(453, AtCall r_ident); (458, AtSync); (454, AtMatch DOT); (455, AtCall r_ident); (460, AtSync)];
    (* MessageName, 8751-8771 *)
    [(461, AtCall r_ident)];
    (* EnumName, 8855-8875 *)
    [(463, AtCall r_ident)];
    (* FieldName, 8959-8979 *)
    [(465, AtCall r_ident)];
    (* OneofName, 9063-9083 *)
    [(467, AtCall r_ident)];
    (* ServiceName, 9167-9187 *)
    [(469, AtCall r_ident)];
    (* RpcName, 9271-9291 *)
    [(471, AtCall r_ident)];
    (* MessageType, 9428-9505 *)
    [(474, AtSync); (473, AtMatch DOT); (481, AtSync); (476, AtCall r_ident); (477, AtMatch DOT);
     (483, AtSync); (484, AtCall r_messageName)];
    (* EnumType, 9642-9719 *)
    [(487, AtSync); (486, AtMatch DOT); (494, AtSync); (489, AtCall r_ident); (490, AtMatch DOT);
     (496, AtSync); (497, AtCall r_enumName)];
    (* IntLit, 9791-9815 *)
    [(499, AtMatch INT_LIT)];
    (* StrLit, 9892-9934 *)
    [(502, AtSync); (501, AtMatch STR_LIT_SINGLE); (504, AtSync)];
    (* BoolLit, 10006-10030 *)
    [(506, AtMatch BOOL_LIT)];
    (* FloatLit, 10102-10126 *)
    [(508, AtMatch FLOAT_LIT)];
    (* Keywords, 10383-10412 *)
    [(510, AtSet)] ].

(* ---------- the tokens that a state expects ---------- *)
(* ll1_analyzer.go:112-220 look1, look2 and look3, without a stop state.  [ctx]: the states
   to return to, and [None] where the code has a nil context at the bottom: Sync has no
   other.  [called]: calledRuleStack.  [busy]: lookBusy.  look1 and look3 both push the
   state after a call (192-193 and 210).  The hash of lookBusy is left out. *)
Definition TokenEpsilon : Z := -2.
Record looked := { l_set : iset; l_busy : list (Z * list Z) }.
(* interval_set.go:128-136 addSet *)
Definition add_set (i v : iset) : iset := fold_left add_interval v i.
(* transition.go: the labels *)
Definition label_of (t : trans) : iset :=
  match t with
  | TAtom _ k => [(k, k + 1)]
  | TRange _ lo hi => [(lo, hi + 1)]
  | TSet _ i => i
  | _ => []
  end.
Fixpoint look1 (fuel : nat) (a : patn) (s : Z) (ctx : list Z) (called : list Z) (x : looked) : option looked :=
  match fuel with
  | O => None
  | S n =>
      if existsb (fun c => (fst c =? s) && zs_eqb (snd c) ctx) (l_busy x) then Some x else
      let x := {| l_set := l_set x; l_busy := (s, ctx) :: l_busy x |} in
      if p_type a s =? ATNStateRuleStop then
        match ctx with
        | [] => Some {| l_set := add_one (l_set x) TokenEpsilon; l_busy := l_busy x |}
        | r :: ctx' => look1 n a r ctx' (filter (fun q => negb (q =? p_rule a s)) called) x
        end
      else
        fold_left (fun acc t =>
          let* x := acc in
          match t with
          | TRule st f =>
              if existsb (Z.eqb (p_rule a st)) called then Some x
              else look1 n a st (f :: f :: ctx) (p_rule a st :: called) x
          | TEps t => look1 n a t ctx called x
          | TAction t _ => look1 n a t ctx called x
          | TNotSet _ _ | TWildcard _ => None
          | _ => Some {| l_set := add_set (l_set x) (label_of t); l_busy := l_busy x |}
          end) (p_trans a s) (Some x)
  end.
(* atn.go:77-103 NextTokens without a context; 73-82 Look *)
Definition next_tokens (a : patn) (s : Z) : option iset :=
  let* x := look1 200 a s [] [] {| l_set := []; l_busy := [] |} in Some (l_set x).
(* error_strategy.go:196-202 Sync: [true] if it does nothing *)
Definition net_sync (a : patn) (s : Z) (la : Z) : option bool :=
  let* i := next_tokens a s in Some (contains i TokenEpsilon || contains i la).
