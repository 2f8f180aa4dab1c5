(** Model of the Go text that prutalgen writes: ProtoGen, EnumGen, MessageGen, FieldGen and OneofGen
    (prutalgen/pkg/prutalgen/code.go:112-291, 351-382) as the calls they make of the CodeWriter
    (GenImport.v), with the names of types (Field.GoTypeName, field.go:132-155; OneofStructName,
    field.go:264-269; Oneof.FieldName and FieldType, oneof.go:34-43).
    Simplified: where w.F has arguments, the model has the text that fmt.Fprintf makes of them; only in
    the line of the type of an enum can the format contain other text (Comments.v). *)
From Coq Require Import List Bool NArith ZArith Strings.String Init.Byte.
From Verif Require Import Base Value GoStr GenField GenNames GenEnum GenGetter GenImport Comments.
Import ListNotations StringSyntax.
Open Scope nat_scope.

(** w.F(format, ...) with the text it prints, and w.F("") *)
Definition out (s : bytes) : call := Call_F (bs "%s") s.
Definition gap : call := Call_F [] [].
(** if s != "" { w.F("%s", s) } *)
Definition comment (s : bytes) : list call := match s with [] => [] | _ => [out s] end.

(** ** Enums *)
(** Enum with its comments, enum.go:29-45, 133-147 *)
Record etext := mkET { et_enum : genum; et_head : bytes; et_inline : bytes; et_values : nat -> bytes * bytes }.
(** code.go:140-150; [i] is the index of the next value *)
Fixpoint const_calls (x : etext) (i : nat) (l : list evalue) : list call :=
  match l with
  | [] => []
  | f :: r =>
      let '(head, inline) := et_values x i in
      (match head with [] => [] | _ => (if Nat.eqb i 0 then [] else [gap]) ++ [out head] end) ++
      out (value_GoName (et_enum x) f ++ bs " " ++ enum_GoName (et_enum x) ++ bs " = " ++ FormatInt (ev_value f) ++ bs " " ++ inline)
      :: const_calls x (S i) r
  end.
(** EnumGen, code.go:133-180 *)
Definition EnumGen_calls (x : etext) : list call :=
  let e := et_enum x in let n := enum_GoName e in
  comment (et_head x) ++
  [out (enum_type_line n (et_inline x)); gap] ++
  (match en_values e with
   | [] => []
   | l => [out (bs "const (")] ++ const_calls x 0 l ++ [out (bs ")")]
   end) ++
  (if genMapping e then
     [out ([x0a] ++ bs "// Enum value maps for " ++ n ++ bs ".");
      out (bs "var " ++ n ++ bs "_name = map[int32]string {")] ++
     map (fun v => out (FormatInt (fst v) ++ bs ": " ++ Quote (snd v) ++ bs ",")) (name_entries [] (en_values e)) ++
     [out (bs "}"); gap; out (bs "var " ++ n ++ bs "_value = map[string]int32 {")] ++
     map (fun v => out (Quote (fst v) ++ bs ": " ++ FormatInt (snd v) ++ bs ",")) (value_entries (en_values e)) ++
     [out (bs "}"); Call_UsePkg (bs "strconv") [];
      out (bs "func (x " ++ n ++ bs ") String() string {");
      out (bs "s, ok := " ++ n ++ bs "_name[int32(x)]");
      out (bs "if ok { return s }");
      out (bs "return strconv.Itoa(int(x))");
      out (bs "}")]
   else []).

(** ** Messages *)
(** goTypeName, field.go:132-138 *)
Definition goTypeName_text (t : ptype) (ti : tyinfo) (noptr : bool) : bytes :=
  match t with
  | PMsg _ => if noptr then type_text t ti else bs "*" ++ type_text t ti
  | _ => type_text t ti
  end.
(** Field.GoTypeName, field.go:141-155 *)
Definition GoTypeName_text (c : pctx) (f : pfd) (ti : tyinfo) : bytes :=
  let noptr := genNoPointer c f in
  match pf_kt f with
  | Some k => bs "map[" ++ go_text (scalar2GoTypes k) ++ bs "]" ++ goTypeName_text (pf_ty f) ti noptr
  | None =>
      if pf_rep f then bs "[]" ++ goTypeName_text (pf_ty f) ti noptr
      else if pf_is_pointer c f then bs "*" ++ type_text (pf_ty f) ti
      else type_text (pf_ty f) ti
  end.

(** Message with what resolve computed (message.go:28-50, 118-200): GoName; the GoNames of the fields and
    oneofs; by index of the field, what it sees of its type, its OneofStructName, and its comments *)
Record minfo := mkMI {
  mi_ctx : pctx; mi_msg : pmsg; mi_go : bytes; mi_names : list rfield;
  mi_ti : nat -> tyinfo; mi_wrap : nat -> bytes; mi_fcom : nat -> bytes * bytes;
  mi_head : bytes; mi_inline : bytes }.
Inductive mtext := MTx (x : minfo) (nested : list mtext).

(** f.GoName of the field with this index *)
Definition go_name (x : minfo) (i : nat) : bytes := rf_go (nth i (mi_names x) (mkRF [] None)).
(** Oneof.FieldName and FieldType, oneof.go:34-43 *)
Definition oneof_name (x : minfo) (o : nat) : bytes := oneof_GoName (mi_names x) o.
(** The GoName of a oneof without fields is the one it had before resolveFieldConflicts, message.go:137-139 *)
Definition oneof_field_name (x : minfo) (o : nat) : bytes :=
  match oneof_name x o with [] => GoCamelCase (nth o (pm_oneofs (mi_msg x)) []) | n => n end.
Definition oneof_type_name (x : minfo) (o : nat) : bytes := bs "is" ++ mi_go x ++ bs "_" ++ oneof_field_name x o.
(** o.Fields with their indices *)
Definition members (x : minfo) (o : nat) : list (nat * pfd) := oneof_fields o 0 (pm_fields (mi_msg x)).

(** FieldGen, code.go:351-362; keys of maps are scalars, which are in no package *)
Definition FieldGen_calls (x : minfo) (i : nat) (f : pfd) : list call :=
  let '(head, inline) := mi_fcom x i in
  comment head ++
  out (go_name x i ++ bs " " ++ GoTypeName_text (mi_ctx x) f (mi_ti x i) ++ bs " `" ++
       FieldStructTag (mi_ctx x) f ++ bs "` " ++ inline) ::
  match pf_ty f with
  | PScalar _ => []
  | _ => match ti_import (mi_ti x i) with Some p => [Call_UsePkg p []] | None => [] end
  end.
(** The fields of the struct, code.go:186-211; [seen] is generatedOneOfField *)
Fixpoint struct_calls (x : minfo) (seen : list nat) (i : nat) (l : list pfd) : list call :=
  match l with
  | [] => []
  | f :: r =>
      match pf_one f with
      | Some o =>
          if existsb (Nat.eqb o) seen then struct_calls x seen (S i) r
          else
            [out (bs "// Types that are assignable to " ++ oneof_name x o ++ bs ":"); out (bs "//")] ++
            map (fun p => out (bs "//" ++ [x09] ++ bs "*" ++ mi_go x ++ bs "_" ++ go_name x (fst p))) (members x o) ++
            out (oneof_name x o ++ bs " " ++ oneof_type_name x o ++ bs " `protobuf_oneof:" ++ dq ++
                 nth o (pm_oneofs (mi_msg x)) [] ++ dq ++ bs "`") ::
            struct_calls x (o :: seen) (S i) r
      | None =>
          (match i, fst (mi_fcom x i) with S _, _ :: _ => [gap] | _, _ => [] end) ++
          FieldGen_calls x i f ++ struct_calls x seen (S i) r
      end
  end.
(** typename of code.go:254-261: whether it starts with a star and is not of a message *)
Definition is_star (s : bytes) : bool := match s with c :: _ => beqb c x2a | [] => false end.
Definition getter_head (x : minfo) (n : bytes) (t : bytes) : call :=
  out (bs "func (x *" ++ mi_go x ++ bs ") Get" ++ n ++ bs "() " ++ t ++ bs " {").
(** The getters, code.go:228-264 *)
Fixpoint getter_calls (x : minfo) (seen : list nat) (i : nat) (l : list pfd) : list call :=
  match l with
  | [] => []
  | f :: r =>
      let n := go_name x i in
      let t := GoTypeName_text (mi_ctx x) f (mi_ti x i) in
      let zero := out (bs "return " ++ GoZero (mi_ctx x) f (mi_ti x i)) in
      gap ::
      match pf_one f with
      | Some o =>
          let g := oneof_name x o in
          (if existsb (Nat.eqb o) seen then []
           else [getter_head x g (oneof_type_name x o);
                 out (bs "if x != nil { return x." ++ g ++ bs " }");
                 out (bs "return nil"); out (bs "}")]) ++
          [getter_head x n t;
           out (bs "if p, ok := x.Get" ++ g ++ bs "().(*" ++ mi_wrap x i ++ bs "); ok {");
           out (bs "return p." ++ n); out (bs "}"); zero; out (bs "}")] ++
          getter_calls x (o :: seen) (S i) r
      | None =>
          (if negb (pf_is_msg f) && is_star t
           then [getter_head x n (tl t); out (bs "if x != nil && x." ++ n ++ bs " != nil { return *x." ++ n ++ bs " }")]
           else [getter_head x n t; out (bs "if x != nil { return x." ++ n ++ bs " }")]) ++
          [zero; out (bs "}")] ++
          getter_calls x seen (S i) r
      end
  end.
(** OneofGen, code.go:364-382 *)
Definition OneofGen_calls (x : minfo) (o : nat) : list call :=
  let t := oneof_type_name x o in
  [out (bs "type " ++ t ++ bs " interface {"); out (t ++ bs "()"); out (bs "}")] ++
  concat (map (fun p =>
    [gap; out (bs "type " ++ mi_wrap x (fst p) ++ bs " struct {")] ++ FieldGen_calls x (fst p) (snd p) ++
    [out (bs "}"); gap; out (bs "func (*" ++ mi_wrap x (fst p) ++ bs ") " ++ t ++ bs "() {}")]) (members x o)).
(** MessageGen, code.go:182-291, up to the nested messages *)
Definition message_calls (g : gencfg) (x : minfo) : list call :=
  let n := mi_go x in
  let oo := seq 0 (length (pm_oneofs (mi_msg x))) in
  comment (mi_head x) ++
  [out (bs "type " ++ n ++ bs " struct {")] ++
  struct_calls x [] 0 (pm_fields (mi_msg x)) ++
  (if genUnknownFields (mi_ctx x) then [out (bs "unknownFields []byte `json:" ++ dq ++ bs "-" ++ dq ++ bs "`")] else []) ++
  [out (message_end_line (mi_inline x));
   out ([x0a] ++ bs "func (x *" ++ n ++ bs ") Reset() { *x = " ++ n ++ bs "{} }")] ++
  (if g_kitex g then
     [Call_UsePkg (bs "github.com/cloudwego/prutal") [];
      out ([x0a] ++ bs "func (x *" ++ n ++ bs ") Marshal(in []byte) ([]byte, error) { return prutal.MarshalAppend(in, x) }");
      out ([x0a] ++ bs "func (x *" ++ n ++ bs ") Unmarshal(in []byte) error { return prutal.Unmarshal(in, x) }")]
   else []) ++
  (if g_getter g then getter_calls x [] 0 (pm_fields (mi_msg x)) else []) ++
  (match pm_oneofs (mi_msg x) with
   | [] => []
   | _ => [out (bs "// XXX_OneofWrappers is for the internal use of the prutal package.");
           out (bs "func (*" ++ n ++ bs ") XXX_OneofWrappers() []interface{} {");
           out (bs "return []interface{}{")] ++
          concat (map (fun o => map (fun p => out (bs "(*" ++ mi_wrap x (fst p) ++ bs ")(nil),")) (members x o)) oo) ++
          [out (bs "}}")]
   end) ++
  concat (map (fun o => gap :: OneofGen_calls x o) oo).
Fixpoint MessageGen_calls (g : gencfg) (m : mtext) : list call :=
  match m with
  | MTx x ms => message_calls g x ++ concat (map (fun y => gap :: MessageGen_calls g y) ms)
  end.
(** ProtoGen, code.go:112-131: the enums, the enums in the messages outside of messages, and the messages.
    Each of these messages comes with its enums. *)
Definition ProtoGen_calls (g : gencfg) (enums : list etext) (msgs : list (list etext * mtext)) : list call :=
  concat (map (fun e => gap :: EnumGen_calls e) enums) ++
  concat (map (fun m => concat (map (fun e => gap :: EnumGen_calls e) (fst m))) msgs) ++
  concat (map (fun m => gap :: MessageGen_calls g (snd m)) msgs).
