(** How the definitions of a .proto file are written: which tokens spell which
    file.  The shapes are those of the language (Protobuf.g4); the parts of a
    definition are texts of one rule each. *)
From Coq Require Import List ZArith Init.Byte.
From Verif Require Import Base GoStr GenField Verify Listen LexSpec LexFile ParserNames ParserSpec.
Import ListNotations.

(** Tokens as the lexer makes them: the kind is that of the text *)
Definition lexed (w : list tok) : Prop := Forall (fun x => t_kind x = EOF \/ first_kind (t_kind x) (t_text x)) w.
(** The text of tokens, without what is between them *)
Definition says (w : list tok) : bytes := flat_map (fun x => GetText (t_text x)) w.
(** One token of a kind *)
Definition kw (k : Z) (w : list tok) : Prop := exists x, w = [x] /\ t_kind x = k.
(** A part of the text that is a [q] of the grammar *)
Definition part (q : nat) (w : list tok) : Prop := exists f, derives [N q] w f.
(** Such a part with the text [s] *)
Definition named (q : nat) (s : bytes) (w : list tok) : Prop := part q w /\ says w = s.
(** One thing behind the other *)
Fixpoint spell (ps : list (list tok -> Prop)) (w : list tok) : Prop :=
  match ps with
  | [] => w = []
  | p :: r => exists a b, w = a ++ b /\ p a /\ spell r b
  end.
(** One of a list behind the other, with a comma between them *)
Fixpoint commas {A} (p : A -> list tok -> Prop) (l : list A) (w : list tok) : Prop :=
  match l with
  | [] => False
  | [x] => p x w
  | x :: r => spell [p x; kw COMMA; commas p r] w
  end.
(** A list of things, and semicolons that stand alone *)
Inductive things {A} (p : A -> list tok -> Prop) : list A -> list tok -> Prop :=
| th_end : things p [] []
| th_thing x l a b : p x a -> things p l b -> things p (x :: l) (a ++ b)
| th_empty l a b : kw SEMI a -> things p l b -> things p l (a ++ b).

(** name = constant *)
Definition assignment (o : bytes * bytes) : list tok -> Prop :=
  spell [named r_optionName (fst o); kw EQ; named r_constant (snd o)].
(** option name = constant; *)
Definition option_statement (o : bytes * bytes) : list tok -> Prop :=
  spell [kw OPTION; assignment o; kw SEMI].
(** [a = 1, b = "x"], or nothing *)
Definition brackets (oo : list (bytes * bytes)) (w : list tok) : Prop :=
  match oo with
  | [] => w = []
  | _ => spell [kw LB; commas assignment oo; kw RB] w
  end.
Definition label_is (lb : option label) (w : list tok) : Prop :=
  match lb with
  | None => w = []
  | Some LRepeated => kw REPEATED w
  | Some LRequired => kw REQUIRED w
  | Some LOptional => kw OPTIONAL w
  end.
(** name = 1 [a = 2]; *)
Definition field_end (f : sfield) : list tok -> Prop :=
  spell [named r_fieldName (sf_name f); kw EQ; named r_intLit (sf_num f); brackets (sf_options f); kw SEMI].
(** repeated T name = 1; *)
Definition field_is (x : option label * sfield) : list tok -> Prop :=
  spell [label_is (fst x); named r_fieldType (sf_type (snd x)); field_end (snd x)].
(** map<string, T> name = 1; *)
Definition map_is (k : bytes) (f : sfield) : list tok -> Prop :=
  spell [kw MAP; kw LT; named r_keyType k; kw COMMA; named r_fieldType (sf_type f); kw GT; field_end f].
Definition oneof_elem_is (e : soneof_elem) : list tok -> Prop :=
  match e with
  | SoOption n c => option_statement (n, c)
  | SoField f => field_is (None, f)
  end.
(** oneof name { ... } *)
Definition oneof_is (n : bytes) (l : list soneof_elem) : list tok -> Prop :=
  spell [kw ONEOF; named r_oneofName n; kw LC; things oneof_elem_is l; kw RC].
(** 1, 1 to 2, 1 to max *)
Definition range_is (x : src_range) : list tok -> Prop :=
  match snd x with
  | ToSame => named r_intLit (fst x)
  | ToMax => spell [named r_intLit (fst x); kw TO; kw MAX]
  | ToLit b => spell [named r_intLit (fst x); kw TO; named r_intLit b]
  end.
(** reserved 1, 2 to 3; *)
Definition reserved_is (rr : list src_range) : list tok -> Prop :=
  spell [kw RESERVED; commas range_is rr; kw SEMI].
(** reserved "a", "b"; *)
Definition reserved_names : list tok -> Prop := spell [kw RESERVED; part r_reservedFieldNames; kw SEMI].
Definition enum_elem_is (e : senum_elem) (w : list tok) : Prop :=
  match e with
  | SeOption n c => option_statement (n, c) w
  | SeField n neg lit oo =>
      spell [named r_ident n; kw EQ; (if neg then kw MINUS else eq []); named r_intLit lit; brackets oo; kw SEMI] w
  | SeReserved rr => reserved_is rr w
  | SeOther => reserved_names w \/ kw SEMI w
  end.
Inductive several {A} (p : A -> list tok -> Prop) : list A -> list tok -> Prop :=
| sev_end : several p [] []
| sev_one x l a b : p x a -> several p l b -> several p (x :: l) (a ++ b).
(** enum name { ... } *)
Definition enum_is (e : senum) : list tok -> Prop :=
  spell [kw ENUM; named r_enumName (sen_name e); kw LC; several enum_elem_is (sen_elems e); kw RC].
(** extend T { ... } *)
Definition extend_is (l : list (option label * sfield)) : list tok -> Prop :=
  spell [kw EXTEND; part r_messageType; kw LC; things field_is l; kw RC].
(** extensions 4 to 5; *)
Definition extensions_are : list tok -> Prop := part r_extensions.
Inductive elem_is : selem -> list tok -> Prop :=
| ei_field lb f w : field_is (lb, f) w -> elem_is (SmField lb f) w
| ei_map k f w : map_is k f w -> elem_is (SmMap k f) w
| ei_oneof n l w : oneof_is n l w -> elem_is (SmOneof n l) w
| ei_enum e w : enum_is e w -> elem_is (SmEnum e) w
| ei_msg n l a b c d e : kw MESSAGE a -> named r_messageName n b -> kw LC c -> elems_are l d -> kw RC e ->
    elem_is (SmMsg n l) (a ++ b ++ c ++ d ++ e)
| ei_extend l w : extend_is l w -> elem_is (SmExtend l) w
| ei_option n c w : option_statement (n, c) w -> elem_is (SmOption n c) w
| ei_reserved rr w : reserved_is rr w -> elem_is (SmReserved rr) w
| ei_names w : reserved_names w -> elem_is SmOther w
| ei_extensions w : extensions_are w -> elem_is SmOther w
| ei_empty w : kw SEMI w -> elem_is SmOther w
with elems_are : list selem -> list tok -> Prop :=
| el_end : elems_are [] []
| el_one x l a b : elem_is x a -> elems_are l b -> elems_are (x :: l) (a ++ b).
(** stream, or nothing; the offset of the token *)
Definition stream_is (s : option nat) (w : list tok) : Prop :=
  match s with
  | None => w = []
  | Some p => exists x, w = [x] /\ t_kind x = STREAM /\ t_start x = p
  end.
(** The name of a message, and the offset of its first token *)
Definition type_is (x : bytes * nat) (w : list tok) : Prop :=
  named r_messageType (fst x) w /\ exists y r, w = y :: r /\ t_start y = snd x.
(** rpc name ( stream T ) returns ( T ); or with options in braces at the end *)
Definition rpc_end (oo : list (bytes * bytes)) (w : list tok) : Prop :=
  spell [kw LC; things option_statement oo; kw RC] w \/ (oo = [] /\ kw SEMI w).
Definition rpc_is (r : srpc) : list tok -> Prop :=
  spell [kw RPC; named r_rpcName (sr_name r);
         kw LP; stream_is (sr_sreq r); type_is (sr_req r); kw RP; kw RETURNS;
         kw LP; stream_is (sr_sret r); type_is (sr_ret r); kw RP; rpc_end (sr_options r)].
Definition service_elem_is (e : sservice_elem) : list tok -> Prop :=
  match e with
  | SsOption n c => option_statement (n, c)
  | SsRpc r => rpc_is r
  | SsOther => kw SEMI
  end.
(** service name { ... } *)
Definition service_is (n : bytes) (l : list sservice_elem) : list tok -> Prop :=
  spell [kw SERVICE; named r_serviceName n; kw LC; several service_elem_is l; kw RC].
Definition top_is (d : stop) (w : list tok) : Prop :=
  match d with
  | StImport pub lit =>
      spell [kw IMPORT; (if pub then kw PUBLIC else fun v => v = [] \/ kw WEAK v); named r_strLit lit; kw SEMI] w
  | StPackage n => spell [kw PACKAGE; named r_fullIdent n; kw SEMI] w
  | StOption n c => option_statement (n, c) w
  | StMsg n l => spell [kw MESSAGE; named r_messageName n; kw LC; elems_are l; kw RC] w
  | StEnum e => enum_is e w
  | StExtend l => extend_is l w
  | StService n l => service_is n l w
  | StOther => kw SEMI w
  end.
(** syntax = "proto3"; or edition = "2023";, or nothing *)
Definition edition_is (e : option bytes) (w : list tok) : Prop :=
  match e with
  | None => w = []
  | Some lit => spell [(fun v => kw SYNTAX v \/ kw EDITION v); kw EQ; named r_strLit lit; kw SEMI] w
  end.
Definition file_is (f : sfile) : list tok -> Prop :=
  spell [edition_is (sfl_edition f); several top_is (sfl_defs f); kw EOF].
