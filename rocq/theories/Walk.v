(** Model of the walk of the parse tree: which listeners are called, with which
    parts of the tree (prutalgen/internal/antlr/tree.go:213-246, the accessors of
    prutalgen/internal/parser/protobuf_parser.go, and the listeners of
    prutalgen/pkg/prutalgen).  What the listeners do with these parts is in Listen.v.

    [None] stands for a panic: an accessor that returns nil and is used, an index
    beyond the end, an unknown parent. *)
From Coq Require Import List Arith Bool ZArith Strings.String Init.Byte.
From Verif Require Import Base GoStr GenField Verify StrLit Listen Atn LexFile ParserNames Parser.
Import ListNotations StringSyntax.
Open Scope nat_scope.

(** ** Accessors *)
(* BaseParserRuleContext.GetText, antlr/parser_rule_context.go:94-105;
   TerminalNodeImpl.GetText, tree.go:163-165; BaseToken.GetText, token.go:107-120
   (EOF, whose text the code makes up, is not asked for its text) *)
Fixpoint get_text (x : tree) : bytes :=
  match x with
  | Leaf t => GetText (t_text t)
  | Node _ l => flat_map get_text l
  end.
(* GetStart().GetStart() of a context, antlr/parser.go:454: the token at which the
   rule began, which is the first of its leaves if it has one *)
Fixpoint get_starts (x : tree) : list nat :=
  match x with
  | Leaf t => [t_start t]
  | Node _ l => flat_map get_starts l
  end.
Definition get_start (x : tree) : option nat := nth_error (get_starts x) 0.
Definition children (x : tree) : list tree := match x with Leaf _ => [] | Node _ l => l end.
(* c.AllX() for a rule x, protobuf_parser.go:7335-7354 *)
Definition contexts (q : nat) (l : list tree) : list tree :=
  filter (fun x => match x with Node r _ => Nat.eqb r q | Leaf _ => false end) l.
(* c.X() and c.X(i), protobuf_parser.go:7311-7325 and 7356-7374 *)
Definition context (q i : nat) (l : list tree) : option tree := nth_error (contexts q l) i.
(* GetTokens and GetToken, parser_rule_context.go:218-252 *)
Definition tokens (k : Z) (l : list tree) : list tok :=
  flat_map (fun x => match x with Leaf t => if Z.eqb (t_kind t) k then [t] else [] | Node _ _ => [] end) l.
Definition has_token (k : Z) (l : list tree) : bool := match tokens k l with [] => false | _ => true end.
(* c.X().GetText() *)
Definition text_at (q i : nat) (l : list tree) : option bytes := option_map get_text (context q i l).

(** ** What the listeners read *)
Definition bind {A B} (x : option A) (f : A -> option B) : option B := match x with Some a => f a | None => None end.
(* o.OptionName().GetText(), o.Constant().GetText(), field.go:311-317, enum.go:200-206, option.go:63-71 *)
Definition option_of (l : list tree) : option (bytes * bytes) :=
  bind (text_at r_optionName 0 l) (fun n => bind (text_at r_constant 0 l) (fun c => Some (n, c))).
Definition options_of (q : nat) (oo : option tree) : option (list (bytes * bytes)) :=
  match oo with
  | None => Some []
  | Some x => all (fun y => option_of (children y)) (contexts q (children x))
  end.
(* newField, field.go:290-320 *)
Definition field_of (l : list tree) : option sfield :=
  bind (text_at r_fieldType 0 l) (fun ty => bind (text_at r_fieldName 0 l) (fun n =>
  bind (text_at r_fieldNumber 0 l) (fun num => bind (options_of r_fieldOption (context r_fieldOptions 0 l)) (fun oo =>
  Some (mkSF ty n num oo))))).
(* field.go:330-342 *)
Definition label_of (l : list tree) : option label :=
  match text_at r_fieldLabel 0 l with
  | None => None
  | Some s => if str_eqb s (bs "repeated") then Some LRepeated
              else if str_eqb s (bs "required") then Some LRequired
              else if str_eqb s (bs "optional") then Some LOptional else None
  end.
(* reserved.go:57-73 *)
Definition range_of (l : list tree) : option src_range :=
  bind (text_at r_intLit 0 l) (fun a =>
    if negb (has_token TO l) then Some (a, ToSame)
    else if has_token MAX l then Some (a, ToMax)
    else bind (text_at r_intLit 1 l) (fun b => Some (a, ToLit b))).
(* getRuleIndex(c.GetParent()), utils.go:61-66, and the cases of the switches over it *)
Definition parent (p : nat) : option Listen.rule :=
  if p =? r_proto then Some RProto else if p =? r_topLevelDef then Some RTopLevel
  else if p =? r_messageElement then Some RMessage else if p =? r_oneof then Some ROneof
  else if p =? r_enumElement then Some REnum else if p =? r_serviceElement then Some RService
  else if p =? r_rpc then Some RRpc else if p =? r_extendDef then Some RExtend else None.

(** ** The calls *)
(* The listeners that protoLoader defines; the others are those of BaseProtobufListener and do
   nothing.  A field of an extend block is read although ExitField returns before it would. *)
Definition enter (p r : nat) (l : list tree) : option (list event) :=
  (* message.go:226-248 *)
  if r =? r_messageDef then bind (parent p) (fun p => bind (text_at r_messageName 0 l) (fun n => Some [EnterMessageDef p n]))
  (* enum.go:154-174 *)
  else if r =? r_enumDef then bind (parent p) (fun p => bind (text_at r_enumName 0 l) (fun n => Some [EnterEnumDef p n]))
  (* oneof.go:45-50 *)
  else if r =? r_oneof then bind (text_at r_oneofName 0 l) (fun n => Some [EnterOneof n])
  (* service.go:75-99 *)
  else if r =? r_serviceDef then bind (text_at r_serviceName 0 l) (fun n => Some [EnterServiceDef n])
  else if r =? r_rpc then bind (text_at r_rpcName 0 l) (fun n => Some [EnterRpc n])
  else Some [].
Definition exit (p r : nat) (l : list tree) : option (list event) :=
  if r =? r_messageDef then Some [ExitMessageDef]
  else if r =? r_enumDef then Some [ExitEnumDef]
  (* enum.go:180-210 *)
  else if r =? r_enumField then
    bind (text_at r_ident 0 l) (fun n => bind (text_at r_intLit 0 l) (fun lit =>
    bind (options_of r_enumValueOption (context r_enumValueOptions 0 l)) (fun oo =>
    Some [ExitEnumField n (has_token MINUS l) lit oo])))
  (* field.go:322-367 *)
  else if r =? r_field then bind (parent p) (fun p => bind (field_of l) (fun f => Some [ExitField p (label_of l) f]))
  else if r =? r_oneofField then bind (field_of l) (fun f => Some [ExitOneofField f])
  else if r =? r_mapField then bind (text_at r_keyType 0 l) (fun k => bind (field_of l) (fun f => Some [ExitMapField k f]))
  (* option.go:62-105 *)
  else if r =? r_optionStatement then bind (parent p) (fun p => bind (option_of l) (fun o => Some [ExitOptionStatement p (fst o) (snd o)]))
  (* reserved.go:50-85 *)
  else if r =? r_reserved then
    match context r_ranges 0 l with
    | None => Some []
    | Some rc => bind (parent p) (fun p => bind (all (fun y => range_of (children y)) (contexts r_oneRange (children rc)))
                   (fun rr => Some [ExitReserved p rr]))
    end
  (* service.go:101-122 *)
  else if r =? r_rpc then
    bind (context r_messageType 0 l) (fun t0 => bind (context r_messageType 1 l) (fun t1 =>
    bind (get_start t0) (fun p0 => bind (get_start t1) (fun p1 =>
    Some [ExitRpc (map t_start (tokens STREAM l)) (get_text t0, p0) (get_text t1, p1)]))))
  (* proto.go:171-211 *)
  else if r =? r_edition then bind (text_at r_strLit 0 l) (fun s => Some [ExitEdition s])
  else if r =? r_packageStatement then bind (text_at r_fullIdent 0 l) (fun n => Some [ExitPackageStatement n])
  else if r =? r_importStatement then bind (text_at r_strLit 0 l) (fun s => Some [ExitImportStatement (has_token PUBLIC l) s])
  else Some [].
Definition cat (a b : option (list event)) : option (list event) := bind a (fun a => bind b (fun b => Some (a ++ b))).
(* ParseTreeWalker.Walk, antlr/tree.go:213-227; [p]: the rule of the parent *)
Fixpoint events (p : nat) (x : tree) : option (list event) :=
  match x with
  | Leaf _ => Some []
  | Node r l => cat (enter p r l) (cat (fold_right (fun y => cat (events r y)) (Some []) l) (exit p r l))
  end.
(* parseInput behind the parser, prutalgen.go:251: the parent of the root is not asked for *)
Definition load_tree (x : tree) : lres :=
  match events r_proto x with
  | Some evs => run state0 evs
  | None => LPanic
  end.
(* prutalgen.go:236-251; [None]: the parser found an error, and the run ends with Fatalf *)
Definition load_file (o : oracle) (data : bytes) : option lres :=
  match parse_file o data with
  | OK (x :: _) _ => Some (load_tree x)
  | _ => None
  end.
