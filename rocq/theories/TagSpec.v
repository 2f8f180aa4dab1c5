(** What a protobuf struct tag says: the text protoc-gen-go writes for a field
    (google.golang.org/protobuf/internal/encoding/tag.Marshal), which prutal has to
    read.  Independent of the parser. *)
From Coq Require Import Strings.String Init.Byte.
From Verif Require Import Base Desc GoStr StrFacts.
Import StringSyntax.
Open Scope N_scope.

(** Word of a wire encoding. *)
Definition enc_word (t : tagtype) : bytes :=
  match t with
  | TagVarint => bs "varint"
  | TagZigZag32 => bs "zigzag32"
  | TagZigZag64 => bs "zigzag64"
  | TagFixed32 => bs "fixed32"
  | TagFixed64 => bs "fixed64"
  | TagBytes => bs "bytes"
  | TagNone | TagUnknown => []
  end.
Definition is_encoding (t : tagtype) : bool :=
  match t with TagNone | TagUnknown => false | _ => true end.

Inductive label := Opt | Req | Rep.
Definition label_word (l : label) : bytes :=
  match l with Opt => bs "opt" | Req => bs "req" | Rep => bs "rep" end.

Record attrs := mkA {
  a_enc : tagtype;
  a_num : N;
  a_label : label;
  a_packed : bool;
  a_name : bytes;
  a_json : option bytes;
  a_proto3 : bool;
  a_enum : option bytes;
  a_oneof : bool;
  a_def : option bytes
}.

Definition opt_part (word : bytes) (o : option bytes) : list bytes :=
  match o with Some s => [word ++ s] | None => [] end.
Definition flag_part (word : bytes) (b : bool) : list bytes := if b then [word] else [].

(** The comma separated parts, in the order they are written; the default value is last. *)
Definition tag_text (a : attrs) : bytes :=
  join x2c
    ([enc_word (a_enc a); FormatUint (a_num a); label_word (a_label a)] ++
     flag_part (bs "packed") (a_packed a) ++
     [bs "name=" ++ a_name a] ++
     opt_part (bs "json=") (a_json a) ++
     flag_part (bs "proto3") (a_proto3 a) ++
     opt_part (bs "enum=") (a_enum a) ++
     flag_part (bs "oneof") (a_oneof a) ++
     opt_part (bs "def=") (a_def a)).

(** Names are identifiers: they contain no comma. *)
Definition no_comma (s : bytes) : Prop := ~ In x2c s.
Definition opt_no_comma (o : option bytes) : Prop :=
  match o with Some s => no_comma s | None => True end.

Definition attrs_ok (a : attrs) : Prop :=
  is_encoding (a_enc a) = true /\ 1 <= a_num a < 2^29 /\
  no_comma (a_name a) /\ opt_no_comma (a_json a) /\ opt_no_comma (a_enum a).

(** Text that says nothing when it stands between two commas of a tag, surrounded by any
    white space: it is none of these words and not a number. *)
Definition tag_words : list bytes :=
  [bs "req"; bs "rep"; bs "packed"; bs "group"; bs "varint"; bs "zigzag32"; bs "zigzag64";
   bs "fixed32"; bs "fixed64"; bs "bytes"].
Definition meaningless (part : bytes) : Prop :=
  ~ In (TrimSpace part) tag_words /\
  (TrimSpace part = [] \/ exists c, In c (TrimSpace part) /\ is_digit c = false).

(** The parts of a default value after its first comma: there are none if it has no
    comma. *)
Definition def_rest (a : attrs) : list bytes :=
  match a_def a with Some s => tl (Split x2c s) | None => [] end.
