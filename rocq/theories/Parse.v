(** Model of the parsing of one struct type, internal/desc/desc.go:210-427, from its Go
    declaration.  The recursion into other struct types and the caches are in Hist.v. *)
From Coq Require Import Strings.String Init.Byte.
From Verif Require Import Base Wire Coder MapTables Value Desc GoStr TagParse.
Import StringSyntax.
Open Scope N_scope.

(** A field of a Go struct: its type and what Tag.Get returns for the four keys. *)
Record gofield := mkGF {
  gf_type : gotype;
  gf_tag : bytes;        (* protobuf *)
  gf_key : bytes;        (* protobuf_key *)
  gf_val : bytes;        (* protobuf_val *)
  gf_oneof : bytes       (* protobuf_oneof *)
}.

(** A struct type.  [d_wrappers] is what searchOneofWrappers returns (utils.go:98-150,
    WrapSearch.v): wrapper types, each with the fields of its struct. *)
Record godecl := mkD {
  d_fields : list gofield;
  d_wrappers : list (nat * list gofield);
  d_unknown : bool;      (* desc.go:402-424: it has a direct field unknownFields or
                            XXX_unrecognized of type []byte or *[]byte *)
  d_size : N;
  d_zero : val
}.

(** Outcome: a value, an error or a run-time panic. *)
Inductive pres (A : Type) := POk (a : A) | PErr | PPanic.
Arguments POk {A} a.
Arguments PErr {A}.
Arguments PPanic {A}.

Definition pbind {A B} (r : pres A) (f : A -> pres B) : pres B :=
  match r with POk a => f a | PErr => PErr | PPanic => PPanic end.

(** FieldDesc.parse and finalizeField up to checkTypeMatch, desc.go:210-238.  The nested
    types of the field are looked at by [type_ok] only; the two phases (all fields are
    parsed, then all are finalized) are in Hist.v. *)
Definition parse_field (slot : nat) (w : option nat) (g : gofield) : option fdesc :=
  match parseStructTag (gf_tag g) with
  | None => None
  | Some p =>
      if type_ok (gf_type g)
      then Some (mkF (p_id p) slot (p_tag p) (p_rep p) (p_packed p) TagNone TagNone (gf_type g) w)
      else None
  end.
(** finalizeField, desc.go:222-260 *)
Definition finalize_field (key val : bytes) (f : fdesc) : option fdesc :=
  let r :=
    if IsMap f then
      match parseKVTag key with
      | None => None
      | Some k =>
          match parseKVTag val with
          | None => None
          | Some v => Some (mkF (f_id f) (f_slot f) (f_tag f) (f_rep f) (f_packed f) k v (f_T f) (f_oneof f))
          end
      end
    else Some f in
  match r with
  | Some f' => if checkTypeMatch f' then Some f' else None
  | None => None
  end.

(** A parsed field together with the rest of its tag (FieldDesc.Tag). *)
Record pfield := mkP { pf_desc : fdesc; pf_key : bytes; pf_val : bytes }.
Definition parse_pfield (slot : nat) (w : option nat) (g : gofield) : option pfield :=
  match parse_field slot w g with
  | Some f => Some (mkP f (gf_key g) (gf_val g))
  | None => None
  end.

(** The loop over the struct's fields, desc.go:329-344. *)
Fixpoint parse_fields (i : nat) (l : list gofield) : option (list pfield * list (nat * gotype)) :=
  match l with
  | [] => Some ([], [])
  | g :: r =>
      if str_eqb (gf_tag g) [] then
        match parse_fields (S i) r with
        | Some (fs, os) => Some (fs, if str_eqb (gf_oneof g) [] then os else (i, gf_type g) :: os)
        | None => None
        end
      else
        match parse_pfield i None g with
        | None => None
        | Some f => match parse_fields (S i) r with Some (fs, os) => Some (f :: fs, os) | None => None end
        end
  end.

Fixpoint has_alt (w : nat) (alts : list (nat * gotype)) : bool :=
  match alts with [] => false | (x, _) :: r => Nat.eqb x w || has_alt w r end.

(** The oneofs a wrapper is tried against, desc.go:349-365.  Implements panics on a type
    that is no interface.  After the first match the code goes on with the struct type
    itself, which implements no oneof interface (its method has a pointer receiver): the
    first match is the only one. *)
Fixpoint find_oneof (w : nat) (os : list (nat * gotype)) : pres (option nat) :=
  match os with
  | [] => POk None
  | (slot, TIface alts) :: r => if has_alt w alts then POk (Some slot) else find_oneof w r
  | _ :: _ => PPanic
  end.

Definition parse_wrapper (os : list (nat * gotype)) (w : nat) (fields : list gofield) : pres (list pfield) :=
  match find_oneof w os with
  | PPanic => PPanic
  | PErr => PErr
  | POk None => POk []
  | POk (Some slot) =>
      match fields with
      | [g] => if str_eqb (gf_tag g) [] then PPanic     (* desc.go:212 *)
               else match parse_pfield slot (Some w) g with Some f => POk [f] | None => PErr end
      | _ => PErr
      end
  end.
Fixpoint parse_wrappers (os : list (nat * gotype)) (l : list (nat * list gofield)) : pres (list pfield) :=
  match l with
  | [] => POk []
  | (w, fields) :: r =>
      pbind (parse_wrapper os w fields) (fun fs =>
      pbind (parse_wrappers os r) (fun fs' => POk (fs ++ fs')))
  end.

(** sort.Slice, desc.go:369-371 *)
Fixpoint insert_pfield (f : pfield) (l : list pfield) : list pfield :=
  match l with
  | [] => [f]
  | g :: r => if (f_id (pf_desc g) <? f_id (pf_desc f))%Z then g :: insert_pfield f r else f :: l
  end.
Fixpoint sort_pfields (l : list pfield) : list pfield :=
  match l with [] => [] | f :: r => insert_pfield f (sort_pfields r) end.

(** parseStruct, desc.go:316-427, without the caches and without the descriptors of the
    types of its fields.  A negative ID is an
    index out of range or a negative length (desc.go:384,388); the other failure of
    [build_tables] is a duplicated number. *)
Definition parse_struct (d : godecl) : pres (list pfield) :=
  match parse_fields 0 (d_fields d) with
  | None => PErr
  | Some (fs, os) =>
      let ws := match os with [] => POk [] | _ => parse_wrappers os (d_wrappers d) end in
      pbind ws (fun fs' =>
        let l := sort_pfields (fs ++ fs') in
        match l with
        | f :: _ => if (f_id (pf_desc f) <? 0)%Z then PPanic
                    else match build_tables (map pf_desc l) with Some _ => POk l | None => PErr end
        | [] => POk []
        end)
  end.

(** FinalizeFields, desc.go:120-141, of the struct alone. *)
Fixpoint finalize_fields (l : list pfield) : option (list fdesc) :=
  match l with
  | [] => Some []
  | f :: r =>
      match finalize_field (pf_key f) (pf_val f) (pf_desc f) with
      | None => None
      | Some f' => match finalize_fields r with Some r' => Some (f' :: r') | None => None end
      end
  end.

(** The descriptor of a struct type that is valid by itself. *)
Definition describe (d : godecl) : pres sdesc :=
  pbind (parse_struct d) (fun l =>
  match finalize_fields l with
  | None => PErr
  | Some fs => POk (mkS fs (d_unknown d) (d_size d) (map gf_type (d_fields d)) (d_zero d))
  end).
