(** The numbers of the tokens and of the rules of the parser
    (prutalgen/internal/parser/protobuf_parser.go:335-455), tokens, and trees. *)
From Coq Require Import List ZArith.
Import ListNotations.
Open Scope Z_scope.

(* protobuf_parser.go:336-397 *)
Definition EOF : Z := (-1).
Definition SYNTAX : Z := 1.
Definition EDITION : Z := 2.
Definition IMPORT : Z := 3.
Definition WEAK : Z := 4.
Definition PUBLIC : Z := 5.
Definition PACKAGE : Z := 6.
Definition OPTION : Z := 7.
Definition OPTIONAL : Z := 8.
Definition REQUIRED : Z := 9.
Definition REPEATED : Z := 10.
Definition ONEOF : Z := 11.
Definition MAP : Z := 12.
Definition INT32 : Z := 13.
Definition INT64 : Z := 14.
Definition UINT32 : Z := 15.
Definition UINT64 : Z := 16.
Definition SINT32 : Z := 17.
Definition SINT64 : Z := 18.
Definition FIXED32 : Z := 19.
Definition FIXED64 : Z := 20.
Definition SFIXED32 : Z := 21.
Definition SFIXED64 : Z := 22.
Definition BOOL : Z := 23.
Definition STRING : Z := 24.
Definition DOUBLE : Z := 25.
Definition FLOAT : Z := 26.
Definition BYTES : Z := 27.
Definition RESERVED : Z := 28.
Definition EXTENSIONS : Z := 29.
Definition TO : Z := 30.
Definition MAX : Z := 31.
Definition ENUM : Z := 32.
Definition MESSAGE : Z := 33.
Definition SERVICE : Z := 34.
Definition EXTEND : Z := 35.
Definition RPC : Z := 36.
Definition STREAM : Z := 37.
Definition RETURNS : Z := 38.
Definition SEMI : Z := 39.
Definition EQ : Z := 40.
Definition LP : Z := 41.
Definition RP : Z := 42.
Definition LB : Z := 43.
Definition RB : Z := 44.
Definition LC : Z := 45.
Definition RC : Z := 46.
Definition LT : Z := 47.
Definition GT : Z := 48.
Definition DOT : Z := 49.
Definition COMMA : Z := 50.
Definition COLON : Z := 51.
Definition PLUS : Z := 52.
Definition MINUS : Z := 53.
Definition STR_LIT_SINGLE : Z := 54.
Definition BOOL_LIT : Z := 55.
Definition FLOAT_LIT : Z := 56.
Definition INT_LIT : Z := 57.
Definition IDENTIFIER : Z := 58.
Definition WS : Z := 59.
Definition LINE_COMMENT : Z := 60.
Definition COMMENT : Z := 61.

(* protobuf_parser.go:402-454 *)
Definition r_proto : nat := 0.
Definition r_edition : nat := 1.
Definition r_importStatement : nat := 2.
Definition r_packageStatement : nat := 3.
Definition r_optionStatement : nat := 4.
Definition r_optionName : nat := 5.
Definition r_fieldLabel : nat := 6.
Definition r_field : nat := 7.
Definition r_fieldOptions : nat := 8.
Definition r_fieldOption : nat := 9.
Definition r_fieldNumber : nat := 10.
Definition r_oneof : nat := 11.
Definition r_oneofField : nat := 12.
Definition r_mapField : nat := 13.
Definition r_keyType : nat := 14.
Definition r_fieldType : nat := 15.
Definition r_reserved : nat := 16.
Definition r_extensions : nat := 17.
Definition r_ranges : nat := 18.
Definition r_oneRange : nat := 19.
Definition r_reservedFieldNames : nat := 20.
Definition r_topLevelDef : nat := 21.
Definition r_enumDef : nat := 22.
Definition r_enumBody : nat := 23.
Definition r_enumElement : nat := 24.
Definition r_enumField : nat := 25.
Definition r_enumValueOptions : nat := 26.
Definition r_enumValueOption : nat := 27.
Definition r_messageDef : nat := 28.
Definition r_messageBody : nat := 29.
Definition r_messageElement : nat := 30.
Definition r_extendDef : nat := 31.
Definition r_serviceDef : nat := 32.
Definition r_serviceElement : nat := 33.
Definition r_rpc : nat := 34.
Definition r_constant : nat := 35.
Definition r_blockLit : nat := 36.
Definition r_emptyStatement : nat := 37.
Definition r_ident : nat := 38.
Definition r_fullIdent : nat := 39.
Definition r_messageName : nat := 40.
Definition r_enumName : nat := 41.
Definition r_fieldName : nat := 42.
Definition r_oneofName : nat := 43.
Definition r_serviceName : nat := 44.
Definition r_rpcName : nat := 45.
Definition r_messageType : nat := 46.
Definition r_enumType : nat := 47.
Definition r_intLit : nat := 48.
Definition r_strLit : nat := 49.
Definition r_boolLit : nat := 50.
Definition r_floatLit : nat := 51.
Definition r_keywords : nat := 52.

(* A token of the default channel: its type, the offset of its first character
   in the file, and its characters (prutalgen/internal/antlr/token.go:49-60). *)
Record tok := mkTok { t_kind : Z; t_start : nat; t_text : list Z }.

(* A parse tree: TerminalNodeImpl and BaseParserRuleContext of
   prutalgen/internal/antlr/tree.go:79-130, parser_rule_context.go:43-70. *)
Inductive tree :=
| Leaf (t : tok)
| Node (rule : nat) (children : list tree).

(* The right-hand side of a rule. *)
Inductive sym :=
| T (kinds : list Z)          (* a token of one of the types *)
| N (rule : nat)
| Opt (b : list sym)          (* ( ... )? *)
| Star (b : list sym)         (* ( ... )* *)
| Plus (b : list sym)         (* ( ... )+ *)
| Alt (bs : list (list sym)). (* ( ... | ... ) *)
