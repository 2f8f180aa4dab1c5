(** Model of internal/desc/tag.go. *)
From Coq Require Import Strings.String Init.Byte.
From Verif Require Import Base Wire Coder MapTables Value Desc GoStr.
Import StringSyntax.
Open Scope N_scope.

(** The fields of FieldDesc that parseStructTag sets. *)
Record ptag := mkTag { p_id : Z; p_tag : tagtype; p_req : bool; p_rep : bool; p_packed : bool }.
Definition no_tag : ptag := mkTag 0 TagNone false false false.

(** The words for wire encodings, tag.go:45-56,88-99 *)
Definition encoding_word (s : bytes) : option tagtype :=
  if str_eqb s (bs "varint") then Some TagVarint
  else if str_eqb s (bs "zigzag32") then Some TagZigZag32
  else if str_eqb s (bs "zigzag64") then Some TagZigZag64
  else if str_eqb s (bs "fixed32") then Some TagFixed32
  else if str_eqb s (bs "fixed64") then Some TagFixed64
  else if str_eqb s (bs "bytes") then Some TagBytes
  else None.

(** One iteration of the loop of parseStructTag, tag.go:32-67.  [None]: an error. *)
Definition tag_part (p : ptag) (part : bytes) : option ptag :=
  let s := TrimSpace part in
  if str_eqb s [] then Some p
  else if str_eqb s (bs "opt") then Some p
  else if str_eqb s (bs "req") then Some (mkTag (p_id p) (p_tag p) true (p_rep p) (p_packed p))
  else if str_eqb s (bs "rep") then Some (mkTag (p_id p) (p_tag p) (p_req p) true (p_packed p))
  else match encoding_word s with
  | Some t => Some (mkTag (p_id p) t (p_req p) (p_rep p) (p_packed p))
  | None =>
      if str_eqb s (bs "group") then None
      else if str_eqb s (bs "packed") then Some (mkTag (p_id p) (p_tag p) (p_req p) (p_rep p) true)
      else if str_eqb (Trim is_digit s) [] then
        match ParseUint32 s with
        | Some n => Some (mkTag (to_int32 n) (p_tag p) (p_req p) (p_rep p) (p_packed p))
        | None => None
        end
      else Some p
  end.

Fixpoint tag_parts (p : ptag) (l : list bytes) : option ptag :=
  match l with
  | [] => Some p
  | s :: r => match tag_part p s with Some p' => tag_parts p' r | None => None end
  end.

(** parseStructTag, tag.go:30-77.  The WireTag it also sets is [Desc.WireTag]. *)
Definition parseStructTag (tag : bytes) : option ptag :=
  match tag_parts no_tag (Split x2c tag) with
  | Some p => if tag_eqb (p_tag p) TagNone then None else Some p
  | None => None
  end.

(** parseKVTag, tag.go:79-104 *)
Fixpoint kv_parts (l : list bytes) : option tagtype :=
  match l with
  | [] => None
  | part :: r =>
      let s := TrimSpace part in
      if str_eqb s [] then kv_parts r
      else match encoding_word s with
           | Some t => Some t
           | None => if str_eqb s (bs "group") then None else kv_parts r
           end
  end.
Definition parseKVTag (tag : bytes) : option tagtype := kv_parts (Split x2c tag).
