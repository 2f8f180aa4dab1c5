(** Model of searchOneofWrappers and searchFieldOneofWrappers (internal/desc/utils.go:86-150): where the wrapper
    types of the members of oneofs are looked for. *)
From Coq Require Import List Arith Bool NArith Strings.String.
From Verif Require Import Base Value Desc GoStr Parse.
Import ListNotations StringSyntax.
Open Scope nat_scope.

(** A Go value as reflection shows it.  Wrapper types are numbered.
    Simplified: no struct has an embedded field, so that FieldByName finds only fields of the struct itself. *)
Inductive gval :=
| WRef (a : option nat)                (* pointer or interface: nil, or the place of what Elem gives *)
| WStruct (fs : list (bytes * gval))   (* the fields with their names *)
| WWraps (l : option (list nat))       (* a slice []any of nil pointers to wrappers; [None]: nil *)
| WOther.                              (* all other kinds, and the zero Value, which Elem of nil gives *)
Definition heap := nat -> gval.

(** [RMore]: the fuel was not enough; [RBad]: UnsafePointer or Len panics, or what they return is not a slice;
    [RGot None]: nil *)
Inductive wres := RMore | RBad | RGot (l : option (list nat)).

(** The loop over pointers and interfaces, utils.go:125-128; [n] bounds the number of steps *)
Fixpoint elem (h : heap) (n : nat) (v : gval) : option gval :=
  match v with
  | WRef None => Some WOther
  | WRef (Some a) => match n with O => None | S n => elem h n (h a) end
  | _ => Some v
  end.
(** FieldByName *)
Fixpoint field_by_name (s : bytes) (fs : list (bytes * gval)) : option gval :=
  match fs with [] => None | (n, v) :: r => if str_eqb n s then Some v else field_by_name s r end.
(** fieldOneofWrappers, utils.go:87 *)
Definition fieldOneofWrappers : bytes := bs "OneofWrappers".
(** searchFieldOneofWrappers, utils.go:120-150; [d]: maxdepth *)
Fixpoint searchField (h : heap) (n d : nat) (v : gval) : wres :=
  match d with
  | O => RGot None
  | S d =>
      match elem h n v with
      | None => RMore
      | Some (WStruct fs) =>
          match field_by_name fieldOneofWrappers fs with
          | Some (WWraps l) => RGot l
          | Some _ => RBad
          | None =>
              (fix loop (l : list (bytes * gval)) : wres :=
                 match l with
                 | [] => RGot None
                 | (_, f) :: r => match searchField h n d f with RGot None => loop r | x => x end
                 end) fs
          end
      | Some _ => RGot None
      end
  end.
(** The methods of the pointer type that are looked for, called with a nil receiver: what ProtoReflect returns, with
    the memory it points to, and what XXX_OneofWrappers returns *)
Record methods := mkMs { ms_reflect : option (heap * gval); ms_wrappers : option (option (list nat)) }.
(** searchOneofWrappers, utils.go:97-118, for a struct type *)
Definition searchOneofWrappers (n : nat) (m : methods) : wres :=
  match ms_reflect m with
  | Some (h, v) => searchField h n 5 v
  | None => match ms_wrappers m with Some l => RGot l | None => RGot None end
  end.

(** A struct type: its fields, the methods of its pointer type, the fields of the wrapper types, and the rest of Parse.v *)
Record gostruct := mkGs { gs_fields : list gofield; gs_methods : methods; gs_wrapper : nat -> list gofield; gs_unknown : bool; gs_size : N; gs_zero : val }.
(** parseStruct, desc.go:329-367: the wrappers are looked for if a field has a tag protobuf_oneof and none protobuf *)
Definition has_oneof (s : gostruct) : bool := existsb (fun g => str_eqb (gf_tag g) [] && negb (str_eqb (gf_oneof g) [])) (gs_fields s).
Definition decl_with (s : gostruct) (l : option (list nat)) : godecl :=
  mkD (gs_fields s) (map (fun w => (w, gs_wrapper s w)) (match l with Some l => l | None => [] end)) (gs_unknown s) (gs_size s) (gs_zero s).
(** [None]: no answer, or a panic in the search *)
Definition describe_struct (n : nat) (s : gostruct) : option (pres sdesc) :=
  if has_oneof s then match searchOneofWrappers n (gs_methods s) with RGot l => Some (describe (decl_with s l)) | _ => None end
  else Some (describe (decl_with s None)).
