(** The grammar of .proto files as the project states it
    (prutalgen/internal/Protobuf.g4:10-294 and 532-572), and what it means for a
    sequence of tokens to be a file. *)
From Coq Require Import List ZArith.
From Verif Require Import ParserNames.
Import ListNotations.
Open Scope Z_scope.

(** ** The rules *)
Definition t (k : Z) : sym := T [k].
Definition options_in_brackets : sym := Opt [t LB; N r_fieldOptions; t RB].
Definition keyword_tokens : list Z :=
  [SYNTAX; EDITION; IMPORT; WEAK; PUBLIC; PACKAGE; OPTION; OPTIONAL; REPEATED; ONEOF; MAP;
   INT32; INT64; UINT32; UINT64; SINT32; SINT64; FIXED32; FIXED64; SFIXED32; SFIXED64;
   BOOL; STRING; DOUBLE; FLOAT; BYTES; RESERVED; EXTENSIONS; TO; MAX; ENUM; MESSAGE;
   SERVICE; EXTEND; RPC; STREAM; RETURNS; BOOL_LIT].
Definition grammar : list (list sym) :=
  [ (* proto *)
    [Opt [N r_edition];
     Star [Alt [[N r_importStatement]; [N r_packageStatement]; [N r_optionStatement];
                [N r_topLevelDef]; [N r_emptyStatement]]];
     t EOF];
    (* edition *)
    [T [SYNTAX; EDITION]; t EQ; N r_strLit; t SEMI];
    (* importStatement *)
    [t IMPORT; Opt [T [WEAK; PUBLIC]]; N r_strLit; t SEMI];
    (* packageStatement *)
    [t PACKAGE; N r_fullIdent; t SEMI];
    (* optionStatement *)
    [t OPTION; N r_optionName; t EQ; N r_constant; t SEMI];
    (* optionName *)
    [Alt [[N r_fullIdent]; [t LP; N r_fullIdent; t RP; Opt [t DOT; N r_fullIdent]]]];
    (* fieldLabel *)
    [T [OPTIONAL; REQUIRED; REPEATED]];
    (* field *)
    [Opt [N r_fieldLabel]; N r_fieldType; N r_fieldName; t EQ; N r_fieldNumber;
     options_in_brackets; t SEMI];
    (* fieldOptions *)
    [N r_fieldOption; Star [t COMMA; N r_fieldOption]];
    (* fieldOption *)
    [N r_optionName; t EQ; N r_constant];
    (* fieldNumber *)
    [N r_intLit];
    (* oneof *)
    [t ONEOF; N r_oneofName; t LC;
     Star [Alt [[N r_optionStatement]; [N r_oneofField]; [N r_emptyStatement]]]; t RC];
    (* oneofField *)
    [N r_fieldType; N r_fieldName; t EQ; N r_fieldNumber; options_in_brackets; t SEMI];
    (* mapField *)
    [t MAP; t LT; N r_keyType; t COMMA; N r_fieldType; t GT; N r_fieldName; t EQ;
     N r_fieldNumber; options_in_brackets; t SEMI];
    (* keyType *)
    [T [INT32; INT64; UINT32; UINT64; SINT32; SINT64; FIXED32; FIXED64; SFIXED32; SFIXED64;
        BOOL; STRING]];
    (* fieldType *)
    [Alt [[t DOUBLE]; [t FLOAT]; [t INT32]; [t INT64]; [t UINT32]; [t UINT64]; [t SINT32];
          [t SINT64]; [t FIXED32]; [t FIXED64]; [t SFIXED32]; [t SFIXED64]; [t BOOL];
          [t STRING]; [t BYTES]; [N r_messageType]; [N r_enumType]]];
    (* reserved *)
    [t RESERVED; Alt [[N r_ranges]; [N r_reservedFieldNames]]; t SEMI];
    (* extensions *)
    [t EXTENSIONS; N r_ranges; options_in_brackets; t SEMI];
    (* ranges *)
    [N r_oneRange; Star [t COMMA; N r_oneRange]];
    (* oneRange *)
    [N r_intLit; Opt [t TO; Alt [[N r_intLit]; [t MAX]]]];
    (* reservedFieldNames *)
    [N r_strLit; Star [t COMMA; N r_strLit]];
    (* topLevelDef *)
    [Alt [[N r_messageDef]; [N r_enumDef]; [N r_extendDef]; [N r_serviceDef]]];
    (* enumDef *)
    [t ENUM; N r_enumName; N r_enumBody];
    (* enumBody *)
    [t LC; Star [N r_enumElement]; t RC];
    (* enumElement *)
    [Alt [[N r_optionStatement]; [N r_enumField]; [N r_reserved]; [N r_emptyStatement]]];
    (* enumField *)
    [N r_ident; t EQ; Opt [t MINUS]; N r_intLit; Opt [N r_enumValueOptions]; t SEMI];
    (* enumValueOptions *)
    [t LB; N r_enumValueOption; Star [t COMMA; N r_enumValueOption]; t RB];
    (* enumValueOption *)
    [N r_optionName; t EQ; N r_constant];
    (* messageDef *)
    [t MESSAGE; N r_messageName; N r_messageBody];
    (* messageBody *)
    [t LC; Star [N r_messageElement]; t RC];
    (* messageElement *)
    [Alt [[N r_field]; [N r_enumDef]; [N r_messageDef]; [N r_extendDef]; [N r_optionStatement];
          [N r_oneof]; [N r_mapField]; [N r_reserved]; [N r_extensions]; [N r_emptyStatement]]];
    (* extendDef *)
    [t EXTEND; N r_messageType; t LC; Star [Alt [[N r_field]; [N r_emptyStatement]]]; t RC];
    (* serviceDef *)
    [t SERVICE; N r_serviceName; t LC; Star [N r_serviceElement]; t RC];
    (* serviceElement *)
    [Alt [[N r_optionStatement]; [N r_rpc]; [N r_emptyStatement]]];
    (* rpc *)
    [t RPC; N r_rpcName; t LP; Opt [t STREAM]; N r_messageType; t RP; t RETURNS; t LP;
     Opt [t STREAM]; N r_messageType; t RP;
     Alt [[t LC; Star [Alt [[N r_optionStatement]; [N r_emptyStatement]]]; t RC]; [t SEMI]]];
    (* constant *)
    [Alt [[N r_fullIdent]; [Opt [T [PLUS; MINUS]]; N r_intLit]; [Opt [T [PLUS; MINUS]]; N r_floatLit];
          [N r_strLit]; [N r_boolLit]; [N r_blockLit]]];
    (* blockLit *)
    [t LC; Star [N r_ident; t COLON; N r_constant; Opt [T [SEMI; COMMA]]]; t RC];
    (* emptyStatement *)
    [t SEMI];
    (* ident *)
    [Alt [[t IDENTIFIER]; [N r_keywords]]];
    (* fullIdent *)
    [N r_ident; Star [t DOT; N r_ident]];
    (* messageName, enumName, fieldName, oneofName, serviceName, rpcName *)
    [N r_ident]; [N r_ident]; [N r_ident]; [N r_ident]; [N r_ident]; [N r_ident];
    (* messageType *)
    [Opt [t DOT]; Star [N r_ident; t DOT]; N r_messageName];
    (* enumType *)
    [Opt [t DOT]; Star [N r_ident; t DOT]; N r_enumName];
    (* intLit *)
    [t INT_LIT];
    (* strLit *)
    [Plus [t STR_LIT_SINGLE]];
    (* boolLit *)
    [t BOOL_LIT];
    (* floatLit *)
    [t FLOAT_LIT];
    (* keywords *)
    [T keyword_tokens] ].
Definition rule (r : nat) : list sym := nth r grammar [].

(** ** Derivations.  [derives l w f]: the symbols [l] produce the tokens [w], with the trees [f] *)
Inductive derives : list sym -> list tok -> list tree -> Prop :=
| d_nil : derives [] [] []
| d_tok ks l x w f : In (t_kind x) ks -> derives l w f -> derives (T ks :: l) (x :: w) (Leaf x :: f)
| d_rule r l w1 f1 w2 f2 : derives (rule r) w1 f1 -> derives l w2 f2 ->
    derives (N r :: l) (w1 ++ w2) (Node r f1 :: f2)
| d_opt_no b l w f : derives l w f -> derives (Opt b :: l) w f
| d_opt b l w f : derives (b ++ l) w f -> derives (Opt b :: l) w f
| d_star_end b l w f : derives l w f -> derives (Star b :: l) w f
| d_star b l w f : derives (b ++ Star b :: l) w f -> derives (Star b :: l) w f
| d_plus b l w f : derives (b ++ Star b :: l) w f -> derives (Plus b :: l) w f
| d_alt b bs l w f : In b bs -> derives (b ++ l) w f -> derives (Alt bs :: l) w f.

(** The tokens of a file, with EOF at the end, and its tree *)
Definition file_tree (w : list tok) (x : tree) : Prop := derives [N r_proto] w [x].
Definition sentence (w : list tok) : Prop := exists x, file_tree w x.

(** The token EOF is the last *)
Definition eof_last (w : list tok) : Prop :=
  forall a x b, w = a ++ x :: b -> t_kind x = EOF -> b = [].

(** ** Prediction: the answer is the first alternative with which the rest of the
    file can be derived, if there is one *)
Definition viable (l : list sym) (w : list tok) : Prop := exists f, derives l w f.
Definition right_prediction (alts : list (list sym)) (w : list tok) (answer : option nat) : Prop :=
  (exists l, In l alts /\ viable l w) ->
  exists m l, answer = Some m /\ nth_error alts m = Some l /\ viable l w /\
    forall i l', (i < m)%nat -> nth_error alts i = Some l' -> ~ viable l' w.
