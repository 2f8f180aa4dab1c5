(** What the Go text of a .proto file should declare, as declarations of Go (GoSyntax.v). *)
From Coq Require Import List Bool NArith ZArith Strings.String Init.Byte.
From Verif Require Import Base Value GoStr Parse GenField GenNames GenEnum GenGetter GenImport ImportSpec Comments GenText GoScan GoSyntax.
Import ListNotations StringSyntax.
Open Scope nat_scope.

(** ** Words and comments *)
(** An identifier of Go that is no keyword *)
Definition go_word (s : bytes) : bool :=
  match s with c :: _ => letter c | [] => false end && forallb word_char s && negb (is_in keywords s).
Inductive one_comment : bytes -> Prop :=
| oc_line t : ~ In x0a t -> one_comment (bs "//" ++ t)
| oc_block t : (forall a b, t <> a ++ bs "*/" ++ b) -> one_comment (bs "/*" ++ t ++ bs "*/").
(** Comments with newlines between them; or none *)
Definition a_comment (s : bytes) : Prop := exists l, Forall one_comment l /\ s = join_lines l.

(** ** Types *)
Definition name (s : bytes) : gty := YName None s.
Definition scalar_gty (t : gotype) : gty := match t with TBytes => YSlice (name (bs "byte")) | _ => name (go_text t) end.
(** The type with this name, of this package if it is another one *)
Definition type_gty (t : ptype) (ti : tyinfo) : gty :=
  match t with
  | PScalar s => scalar_gty (scalar2GoTypes s)
  | _ => YName (option_map path_Base (ti_import ti)) (ti_name ti)
  end.
Definition elem_gty (t : ptype) (ti : tyinfo) (noptr : bool) : gty :=
  match t with
  | PMsg _ => if noptr then type_gty t ti else YPtr (type_gty t ti)
  | _ => type_gty t ti
  end.
Definition field_gty (c : pctx) (f : pfd) (ti : tyinfo) : gty :=
  match pf_kt f with
  | Some k => YMap (scalar_gty (scalar2GoTypes k)) (elem_gty (pf_ty f) ti (genNoPointer c f))
  | None =>
      if pf_rep f then YSlice (elem_gty (pf_ty f) ti (genNoPointer c f))
      else if pf_is_pointer c f then YPtr (type_gty (pf_ty f) ti)
      else type_gty (pf_ty f) ti
  end.
(** The type of the model (Value.v) that a type of Go stands for.  [sc]: the types that are declared, by
    package and name. *)
Inductive denotes (sc : option bytes -> bytes -> option gotype) : gty -> gotype -> Prop :=
| dn_scalar k : sc None (go_text (TScalar k)) = None -> denotes sc (name (go_text (TScalar k))) (TScalar k)
| dn_string : sc None (bs "string") = None -> denotes sc (name (bs "string")) TString
| dn_bytes : sc None (bs "byte") = None -> denotes sc (YSlice (name (bs "byte"))) TBytes
| dn_name q n t : sc q n = Some t -> denotes sc (YName q n) t
| dn_ptr y t : denotes sc y t -> denotes sc (YPtr y) (TPtr t)
| dn_slice y t : denotes sc y t -> denotes sc (YSlice y) (TSlice t)
| dn_map j k y t : denotes sc j k -> denotes sc y t -> denotes sc (YMap j y) (TMap k t).

(** ** Tokens *)
Definition w (s : string) : tok := TWord (bs s).
Definition o (s : string) : tok := TOp (bs s).
Definition signed (z : Z) : bool * bytes := ((z <? 0)%Z, FormatUint (Z.to_N (Z.abs z))).

(** ** Enums *)
Definition enum_decls (e : genum) : list gdecl :=
  let n := enum_GoName e in
  YDefined n (name (bs "int32")) ::
  (match en_values e with
   | [] => []
   | l => [YConsts (map (fun f => (value_GoName e f, name n, signed (ev_value f))) l)]
   end) ++
  (if genMapping e then
     [YMapVar (n ++ bs "_name") (name (bs "int32")) (name (bs "string"))
        (map (fun v => (TNum (snd (signed (fst v))), fst (signed (fst v)), (TStr (snd v), false))) (name_entries [] (en_values e)));
      YMapVar (n ++ bs "_value") (name (bs "string")) (name (bs "int32"))
        (map (fun v => (TStr (fst v), false, (TNum (snd (signed (snd v))), fst (signed (snd v))))) (value_entries (en_values e)));
      YFunc [w "x"; TWord n] (bs "String") [] (ResOne (name (bs "string")))
        [w "s"; o ","; w "ok"; o ":="; TWord (n ++ bs "_name"); o "["; w "int32"; o "("; w "x"; o ")"; o "]"; o ";";
         w "if"; w "ok"; o "{"; w "return"; w "s"; o "}"; o ";";
         w "return"; w "strconv"; o "."; w "Itoa"; o "("; w "int"; o "("; w "x"; o ")"; o ")"; o ";"]]
   else []).

(** ** Messages *)
(** The statements of the getters (GenGetter.v) *)
Definition stmt_toks (x : minfo) (s : stmt) : list tok :=
  match s with
  | SField f => [w "if"; w "x"; o "!="; w "nil"; o "{"; w "return"; w "x"; o "."; TWord f; o "}"; o ";"]
  | SDeref f => [w "if"; w "x"; o "!="; w "nil"; o "&&"; w "x"; o "."; TWord f; o "!="; w "nil"; o "{";
                 w "return"; o "*"; w "x"; o "."; TWord f; o "}"; o ";"]
  | SMember get i f => [w "if"; w "p"; o ","; w "ok"; o ":="; w "x"; o "."; TWord get; o "("; o ")"; o "."; o "("; o "*";
                        TWord (mi_wrap x i); o ")"; o ";"; w "ok"; o "{"; w "return"; w "p"; o "."; TWord f; o ";"; o "}"; o ";"]
  | SReturn e => w "return" :: go_tokens e
  end.
(** The types of the getters, in their order *)
Fixpoint getter_types (x : minfo) (seen : list nat) (i : nat) (l : list pfd) : list gty :=
  match l with
  | [] => []
  | f :: r =>
      let t := field_gty (mi_ctx x) f (mi_ti x i) in
      match pf_one f with
      | Some k => (if existsb (Nat.eqb k) seen then [] else [name (oneof_type_name x k)]) ++ t :: getter_types x (k :: seen) (S i) r
      | None => (if pf_is_msg f then t else match t with YPtr t' => t' | _ => t end) :: getter_types x seen (S i) r
      end
  end.
Definition getter_decls (x : minfo) : list gdecl :=
  map (fun y => YFunc [w "x"; o "*"; TWord (mi_go x)] (me_name (fst y)) [] (ResOne (snd y)) (concat (map (stmt_toks x) (me_body (fst y)))))
      (combine (message_getters (mi_ctx x) (mi_msg x) (mi_ti x) (mi_names x)) (getter_types x [] 0 (pm_fields (mi_msg x)))).
Definition field_decl (x : minfo) (i : nat) (f : pfd) : gfield :=
  (go_name x i, field_gty (mi_ctx x) f (mi_ti x i), Some (FieldStructTag (mi_ctx x) f)).
(** One field for each field outside of oneofs and one for each oneof *)
Fixpoint field_decls (x : minfo) (seen : list nat) (i : nat) (l : list pfd) : list gfield :=
  match l with
  | [] => []
  | f :: r =>
      match pf_one f with
      | Some k =>
          if existsb (Nat.eqb k) seen then field_decls x seen (S i) r
          else (oneof_name x k, name (oneof_type_name x k), Some (bs "protobuf_oneof:" ++ dq ++ nth k (pm_oneofs (mi_msg x)) [] ++ dq))
               :: field_decls x (k :: seen) (S i) r
      | None => field_decl x i f :: field_decls x seen (S i) r
      end
  end.
(** The interface of a oneof and its wrappers *)
Definition oneof_decls (x : minfo) (k : nat) : list gdecl :=
  YIface (oneof_type_name x k) (oneof_type_name x k) ::
  concat (map (fun p => [YStruct (mi_wrap x (fst p)) [field_decl x (fst p) (snd p)];
                         YFunc [o "*"; TWord (mi_wrap x (fst p))] (oneof_type_name x k) [] ResNone []]) (members x k)).
Definition own_decls (g : gencfg) (x : minfo) : list gdecl :=
  let n := mi_go x in
  let oo := seq 0 (length (pm_oneofs (mi_msg x))) in
  let recv := [w "x"; o "*"; TWord n] in
  YStruct n (field_decls x [] 0 (pm_fields (mi_msg x)) ++
             (if genUnknownFields (mi_ctx x) then [(bs "unknownFields", YSlice (name (bs "byte")), Some (bs "json:" ++ dq ++ bs "-" ++ dq))] else [])) ::
  YFunc recv (bs "Reset") [] ResNone [o "*"; w "x"; o "="; TWord n; o "{"; o "}"] ::
  (if g_kitex g then
     [YFunc recv (bs "Marshal") [w "in"; o "["; o "]"; w "byte"] (ResMany [YSlice (name (bs "byte")); name (bs "error")])
        [w "return"; w "prutal"; o "."; w "MarshalAppend"; o "("; w "in"; o ","; w "x"; o ")"];
      YFunc recv (bs "Unmarshal") [w "in"; o "["; o "]"; w "byte"] (ResOne (name (bs "error")))
        [w "return"; w "prutal"; o "."; w "Unmarshal"; o "("; w "in"; o ","; w "x"; o ")"]]
   else []) ++
  (if g_getter g then getter_decls x else []) ++
  (match pm_oneofs (mi_msg x) with
   | [] => []
   | _ => [YFunc [o "*"; TWord n] (bs "XXX_OneofWrappers") [] (ResOne (YSlice YAny))
             ([w "return"; o "["; o "]"; w "interface"; o "{"; o "}"; o "{"] ++
              concat (map (fun k => concat (map (fun p => [o "("; o "*"; TWord (mi_wrap x (fst p)); o ")"; o "("; w "nil"; o ")"; o ","]) (members x k))) oo) ++
              [o "}"])]
   end) ++
  concat (map (oneof_decls x) oo).
Fixpoint message_decls (g : gencfg) (m : mtext) : list gdecl :=
  match m with MTx x ms => own_decls g x ++ concat (map (message_decls g) ms) end.
Definition file_decls (g : gencfg) (enums : list etext) (msgs : list (list etext * mtext)) : list gdecl :=
  concat (map (fun e => enum_decls (et_enum e)) enums) ++
  concat (map (fun m => concat (map (fun e => enum_decls (et_enum e)) (fst m))) msgs) ++
  concat (map (fun m => message_decls g (snd m)) msgs).

(** ** What is asked of the names and comments *)
Definition comments_ok (c : bytes * bytes) : Prop := a_comment (fst c) /\ (snd c = [] \/ one_comment (snd c)).
Record enum_ok (e : etext) : Prop := {
  eo_name : go_word (enum_GoName (et_enum e)) = true;
  eo_values : Forall (fun f => go_word (value_GoName (et_enum e) f) = true /\ forallb word_char (ev_name f) = true /\
                               (- 2^31 <= ev_value f < 2^31)%Z) (en_values (et_enum e));
  eo_comments : comments_ok (et_head e, et_inline e);
  eo_percent : ~ In x25 (et_inline e);
  eo_vcomments : forall i, comments_ok (et_values e i)
}.
(** The name of the type of a field *)
Definition type_ok (t : ptype) (ti : tyinfo) : Prop :=
  match t with
  | PScalar _ => True
  | _ => go_word (ti_name ti) = true /\ match ti_import ti with Some p => Forall path_char p /\ go_word (path_Base p) = true | None => True end /\
         Forall (fun v => go_word (fst v) = true) (ti_values ti)
  end.
Record info_ok (x : minfo) : Prop := {
  io_name : go_word (mi_go x) = true;
  io_length : length (mi_names x) = length (pm_fields (mi_msg x));
  io_names : Forall (fun n => go_word (rf_go n) = true) (mi_names x);
  io_oneofs : forall f k, In f (pm_fields (mi_msg x)) -> pf_one f = Some k -> k < length (pm_oneofs (mi_msg x)) /\ go_word (oneof_name x k) = true;
  io_oneof_names : Forall (fun n => forallb word_char n = true) (pm_oneofs (mi_msg x));
  io_oneof_types : forall k, k < length (pm_oneofs (mi_msg x)) -> go_word (oneof_field_name x k) = true;
  io_fields : forall i f, nth_error (pm_fields (mi_msg x)) i = Some f ->
    forallb word_char (pf_name f) = true /\ (- 2^31 <= pf_num f < 2^31)%Z /\ type_ok (pf_ty f) (mi_ti x i) /\
    go_word (mi_wrap x i) = true;
  io_comments : comments_ok (mi_head x, mi_inline x);
  io_fcomments : forall i, comments_ok (mi_fcom x i)
}.
Inductive message_ok : mtext -> Prop :=
| message_ok_intro x ms : info_ok x -> Forall message_ok ms -> message_ok (MTx x ms).

(** ** Imports *)
(** The messages with those nested in them *)
Fixpoint infos (m : mtext) : list minfo := match m with MTx x ms => x :: concat (map infos ms) end.
(** The packages that the text of a file refers to *)
Inductive refers_to (g : gencfg) (enums : list etext) (msgs : list (list etext * mtext)) : bytes -> Prop :=
| rt_string e : In e (enums ++ concat (map fst msgs)) -> genMapping (et_enum e) = true -> refers_to g enums msgs (bs "strconv")
| rt_marshal m : In m msgs -> g_kitex g = true -> refers_to g enums msgs (bs "github.com/cloudwego/prutal")
| rt_type m x i f q : In m msgs -> In x (infos (snd m)) -> nth_error (pm_fields (mi_msg x)) i = Some f ->
    match pf_ty f with PScalar _ => False | _ => True end -> ti_import (mi_ti x i) = Some q -> refers_to g enums msgs q.

(** ** The types that are declared *)
(** The names in the types of the fields of a message mean the types of the model: those of enums and
    messages, the interfaces of oneofs, and what Go declares itself. *)
Record scope_ok (sc : option bytes -> bytes -> option gotype) (x : minfo) : Prop := {
  so_scalar : forall s, sc None (go_text (scalar2GoTypes s)) = None;
  so_byte : sc None (bs "byte") = None;
  so_types : forall i f, nth_error (pm_fields (mi_msg x)) i = Some f -> match pf_ty f with PScalar _ => False | _ => True end ->
    sc (option_map path_Base (ti_import (mi_ti x i))) (ti_name (mi_ti x i)) = Some (type_go (pf_ty f));
  so_oneofs : forall f k, In f (pm_fields (mi_msg x)) -> pf_one f = Some k ->
    sc None (oneof_type_name x k) = Some (oneof_type (mi_ctx x) (mi_msg x) k)
}.
(** A field of a struct is what reflection says it is. *)
Definition field_is (sc : option bytes -> bytes -> option gotype) (Unquote : bytes -> option bytes) (y : gfield) (f : gofield) : Prop :=
  exists n t tag, y = (n, t, Some tag) /\ denotes sc t (gf_type f) /\ f = reflect_field Unquote (gf_type f) tag.
(** Among the declarations [ds] are those of a message whose struct, wrappers of members of oneofs and
    list of wrappers are those of [d]. *)
Record message_is (sc : option bytes -> bytes -> option gotype) (Unquote : bytes -> option bytes) (ds : list gdecl) (x : minfo) (d : godecl) : Prop := {
  is_struct : exists fs, Forall2 (field_is sc Unquote) fs (d_fields d) /\
    In (YStruct (mi_go x) (fs ++ if d_unknown d then [(bs "unknownFields", YSlice (name (bs "byte")), Some (bs "json:" ++ dq ++ bs "-" ++ dq))] else [])) ds;
  is_wrappers : forall i l, In (i, l) (d_wrappers d) -> exists y f, l = [f] /\ field_is sc Unquote y f /\ In (YStruct (mi_wrap x i) [y]) ds;
  is_member : forall f i k, nth_error (pm_fields (mi_msg x)) i = Some f -> pf_one f = Some k ->
    In (YIface (oneof_type_name x k) (oneof_type_name x k)) ds /\
    In (YFunc [o "*"; TWord (mi_wrap x i)] (oneof_type_name x k) [] ResNone []) ds;
  is_listed : d_wrappers d <> [] ->
    In (YFunc [o "*"; TWord (mi_go x)] (bs "XXX_OneofWrappers") [] (ResOne (YSlice YAny))
          ([w "return"; o "["; o "]"; w "interface"; o "{"; o "}"; o "{"] ++
           concat (map (fun p => [o "("; o "*"; TWord (mi_wrap x (fst p)); o ")"; o "("; w "nil"; o ")"; o ","]) (d_wrappers d)) ++
           [o "}"])) ds
}.
(** A method of a message, as it is declared *)
Definition method_is (sc : option bytes -> bytes -> option gotype) (x : minfo) (d : gdecl) (m : method) : Prop :=
  exists t, d = YFunc [w "x"; o "*"; TWord (mi_go x)] (me_name m) [] (ResOne t) (concat (map (stmt_toks x) (me_body m))) /\ denotes sc t (me_type m).
