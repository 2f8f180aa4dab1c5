(** Model of descriptor parsing with its caches: parseType and finalizeType
    (internal/desc/type.go:74-157), parseStruct, FinalizeFields and GetOrParse
    (internal/desc/desc.go:43-80, 120-141, 316-427), over a heap of Type and StructDesc
    objects.  GetOrParse holds a lock, so that calls follow one another; the lock free part
    of the cache is in Cache.v.

    A struct type is a number, [D] gives its declaration.  What a field's descriptor holds
    beside the pointer to its Type is computed as in Parse.v. *)
From Coq Require Import Bool.
From Verif Require Import Base Wire Coder MapTables Value Desc GoStr TagParse Parse.
Open Scope nat_scope.

(** Equality of reflect.Types, the keys of the caches *)
Definition skind_eqb (a b : skind) : bool :=
  match a, b with
  | Int32, Int32 | Int64, Int64 | Uint32, Uint32 | Uint64, Uint64
  | Bool, Bool | Float32, Float32 | Float64, Float64 => true
  | _, _ => false
  end.
Fixpoint gotype_eqb (a b : gotype) : bool :=
  match a, b with
  | TScalar k, TScalar k' => skind_eqb k k'
  | TString, TString | TBytes, TBytes | TOther, TOther => true
  | TStruct i, TStruct j => Nat.eqb i j
  | TPtr x, TPtr y | TSlice x, TSlice y => gotype_eqb x y
  | TMap k v, TMap k' v' => gotype_eqb k k' && gotype_eqb v v'
  | TIface l, TIface l' =>
      (fix go (l l' : list (nat * gotype)) : bool :=
         match l, l' with
         | [], [] => true
         | (i, x) :: r, (j, y) :: r' => Nat.eqb i j && gotype_eqb x y && go r r'
         | _, _ => false
         end) l l'
  | _, _ => false
  end.

(** A *Type, type.go:39-67: T, K, V, S and finalized.  The other fields depend on T only. *)
Record tobj := mkT { to_rt : gotype; to_K : option nat; to_V : option nat; to_S : option nat; to_fin : bool }.
(** A *FieldDesc, desc.go:152-200: with the address of its Type *)
Record ofield := mkO { of_p : pfield; of_T : nat }.
(** A *StructDesc, desc.go:84-100: Fields and finalized, and the struct type it is for *)
Record sobj := mkSO { so_id : option nat; so_fields : list ofield; so_fin : bool }.

(** The heap and the caches: cachedTypes (type.go:101), cachedStructs (desc.go:314) and
    cache (desc.go:30).  [h_tn] and [h_sn] are the next addresses. *)
Record heap := mkH {
  h_types : nat -> tobj; h_tn : nat;
  h_structs : nat -> sobj; h_sn : nat;
  cachedTypes : gotype -> option nat;
  cachedStructs : nat -> option nat;
  cache : gotype -> option nat }.

(** What is at an address not allocated yet; never used *)
Definition no_type : tobj := mkT (TPtr (TPtr TOther)) None None None false.
Definition no_struct : sobj := mkSO None [] false.
Definition empty : heap := mkH (fun _ => no_type) 0 (fun _ => no_struct) 0 (fun _ => None) (fun _ => None) (fun _ => None).

Definition set_type (h : heap) (o : nat) (t : tobj) : heap :=
  mkH (fun x => if Nat.eqb x o then t else h_types h x) (h_tn h) (h_structs h) (h_sn h) (cachedTypes h) (cachedStructs h) (cache h).
Definition set_struct (h : heap) (o : nat) (s : sobj) : heap :=
  mkH (h_types h) (h_tn h) (fun x => if Nat.eqb x o then s else h_structs h x) (h_sn h) (cachedTypes h) (cachedStructs h) (cache h).
Definition put_type (h : heap) (t : gotype) (o : option nat) : heap :=
  mkH (h_types h) (h_tn h) (h_structs h) (h_sn h) (fun x => if gotype_eqb x t then o else cachedTypes h x) (cachedStructs h) (cache h).
Definition put_struct (h : heap) (i : nat) (o : option nat) : heap :=
  mkH (h_types h) (h_tn h) (h_structs h) (h_sn h) (cachedTypes h) (fun x => if Nat.eqb x i then o else cachedStructs h x) (cache h).
Definition put_cache (h : heap) (t : gotype) (o : nat) : heap :=
  mkH (h_types h) (h_tn h) (h_structs h) (h_sn h) (cachedTypes h) (cachedStructs h) (fun x => if gotype_eqb x t then Some o else cache h x).
(** t = &Type{...}; cachedTypes[rt] = t, type.go:110-118 *)
Definition new_type (h : heap) (t : gotype) : heap * nat :=
  let o := h_tn h in
  (mkH (fun x => if Nat.eqb x o then mkT t None None None false else h_types h x) (S o) (h_structs h) (h_sn h)
       (fun x => if gotype_eqb x t then Some o else cachedTypes h x) (cachedStructs h) (cache h), o).
(** s = &StructDesc{...}; cachedStructs[rt] = s, desc.go:320-321 *)
Definition new_struct (h : heap) (i : nat) : heap * nat :=
  let o := h_sn h in
  (mkH (h_types h) (h_tn h) (fun x => if Nat.eqb x o then mkSO (Some i) [] false else h_structs h x) (S o)
       (cachedTypes h) (fun x => if Nat.eqb x i then Some o else cachedStructs h x) (cache h), o).

Definition set_K (h : heap) (o v : nat) : heap :=
  let t := h_types h o in set_type h o (mkT (to_rt t) (Some v) (to_V t) (to_S t) (to_fin t)).
Definition set_V (h : heap) (o v : nat) : heap :=
  let t := h_types h o in set_type h o (mkT (to_rt t) (to_K t) (Some v) (to_S t) (to_fin t)).
Definition set_S (h : heap) (o v : nat) : heap :=
  let t := h_types h o in set_type h o (mkT (to_rt t) (to_K t) (to_V t) (Some v) (to_fin t)).
Definition set_tfin (h : heap) (o : nat) (b : bool) : heap :=
  let t := h_types h o in set_type h o (mkT (to_rt t) (to_K t) (to_V t) (to_S t) b).
Definition set_sfin (h : heap) (o : nat) (b : bool) : heap :=
  let s := h_structs h o in set_struct h o (mkSO (so_id s) (so_fields s) b).
Definition set_fields (h : heap) (o : nat) (l : list ofield) : heap :=
  let s := h_structs h o in set_struct h o (mkSO (so_id s) l (so_fin s)).

(** Results: RFuel is the model's, RPanic Go's. *)
Inductive res (A : Type) := ROk (a : A) | RErr | RPanic | RFuel.
Arguments ROk {A} a.
Arguments RErr {A}.
Arguments RPanic {A}.
Arguments RFuel {A}.
Definition rbind {A B} (r : heap * res A) (f : heap -> A -> heap * res B) : heap * res B :=
  match r with
  | (h, ROk a) => f h a
  | (h, RErr) => (h, RErr)
  | (h, RPanic) => (h, RPanic)
  | (h, RFuel) => (h, RFuel)
  end.

(** The fields that parseStruct parses, in order: first the struct's own, desc.go:329-344 *)
Inductive step := SField (slot : nat) (w : option nat) (g : gofield) | SErr | SPanic.
Fixpoint own_steps (i : nat) (l : list gofield) : list step * list (nat * gotype) :=
  match l with
  | [] => ([], [])
  | g :: r =>
      let '(ss, os) := own_steps (S i) r in
      if str_eqb (gf_tag g) [] then (ss, if str_eqb (gf_oneof g) [] then os else (i, gf_type g) :: os)
      else (SField i None g :: ss, os)
  end.
(** then those of the oneofs' wrappers, desc.go:346-366 *)
Definition wrapper_steps (os : list (nat * gotype)) (x : nat * list gofield) : list step :=
  match find_oneof (fst x) os with
  | PPanic => [SPanic]
  | PErr => [SErr]
  | POk None => []
  | POk (Some slot) =>
      match snd x with
      | [g] => if str_eqb (gf_tag g) [] then [SPanic] else [SField slot (Some (fst x)) g]
      | _ => [SErr]
      end
  end.
Definition steps (d : godecl) : list step :=
  let '(ss, os) := own_steps 0 (d_fields d) in
  ss ++ match os with [] => [] | _ => flat_map (wrapper_steps os) (d_wrappers d) end.

(** FieldDesc.parse, desc.go:210-220: the tag, then the type ([pt] is parseType) *)
Fixpoint run_steps (pt : heap -> gotype -> heap * res nat) (h : heap) (l : list step) : heap * res (list ofield) :=
  match l with
  | [] => (h, ROk [])
  | SErr :: _ => (h, RErr)
  | SPanic :: _ => (h, RPanic)
  | SField slot w g :: r =>
      match parseStructTag (gf_tag g) with
      | None => (h, RErr)
      | Some p =>
          rbind (pt h (gf_type g)) (fun h1 o =>
          rbind (run_steps pt h1 r) (fun h2 fs =>
          (h2, ROk (mkO (mkP (mkF (p_id p) slot (p_tag p) (p_rep p) (p_packed p) TagNone TagNone (gf_type g) w) (gf_key g) (gf_val g)) o :: fs))))
      end
  end.

(** sort.Slice, desc.go:369-371 *)
Definition of_id (f : ofield) : Z := f_id (pf_desc (of_p f)).
Fixpoint insert_ofield (f : ofield) (l : list ofield) : list ofield :=
  match l with
  | [] => [f]
  | g :: r => if (of_id g <? of_id f)%Z then g :: insert_ofield f r else f :: l
  end.
Fixpoint sort_ofields (l : list ofield) : list ofield :=
  match l with [] => [] | f :: r => insert_ofield f (sort_ofields r) end.

Section Parse.
Variable D : nat -> godecl.

(** parseStruct, desc.go:316-427.  The deferred delete runs if there is an error, not if
    there is a panic: then err is nil. *)
Definition parseStruct (pt : heap -> gotype -> heap * res nat) (h : heap) (i : nat) : heap * res nat :=
  match cachedStructs h i with
  | Some s => (h, ROk s)
  | None =>
      let '(h0, s) := new_struct h i in
      match run_steps pt h0 (steps (D i)) with
      | (h1, ROk fs) =>
          let l := sort_ofields fs in
          let h2 := set_fields h1 s l in
          match l with
          | [] => (h2, ROk s)
          | f :: _ =>
              if (of_id f <? 0)%Z then (h2, RPanic)
              else match build_tables (map (fun x => pf_desc (of_p x)) l) with
                   | Some _ => (h2, ROk s)
                   | None => (put_struct h2 i None, RErr)
                   end
          end
      | (h1, RErr) => (put_struct h1 i None, RErr)
      | (h1, RPanic) => (h1, RPanic)
      | (h1, RFuel) => (h1, RFuel)
      end
  end.

Definition is_ptr (t : gotype) : bool := match t with TPtr _ => true | _ => false end.

(** parseType, type.go:105-157.  [fuel] bounds the depth of the recursion. *)
Fixpoint parseType (fuel : nat) (h : heap) (rt : gotype) : heap * res nat :=
  match fuel with
  | O => (h, RFuel)
  | S k =>
      match cachedTypes h rt with
      | Some o => (h, ROk o)
      | None =>
          let '(h0, o) := new_type h rt in
          let r : heap * res nat :=
            match rt with
            | TMap kt vt =>
                rbind (parseType k h0 kt) (fun h1 x =>
                rbind (parseType k (set_K h1 o x) vt) (fun h2 y => (set_V h2 o y, ROk o)))
            | TStruct i => rbind (parseStruct (parseType k) h0 i) (fun h1 s => (set_S h1 o s, ROk o))
            | TSlice t => rbind (parseType k h0 t) (fun h1 x => (set_V h1 o x, ROk o))
            | TBytes => rbind (parseType k h0 TOther) (fun h1 x => (set_V h1 o x, ROk o))   (* uint8 *)
            | TPtr t => rbind (parseType k h0 t) (fun h1 x => (set_V h1 o x, if is_ptr t then RErr else ROk o))
            | _ => (h0, ROk o)
            end in
          match r with
          | (h1, RErr) => (put_type h1 rt None, RErr)
          | r => r
          end
      end
  end.

(** The pointers that finalizeField follows, through RealKind and checkTypeMatch: of a
    pointer and a slice V, of a map K and V *)
Fixpoint linked (h : heap) (rt : gotype) (o : nat) : bool :=
  match rt with
  | TPtr t | TSlice t => match to_V (h_types h o) with Some v => linked h t v | None => false end
  | TMap k v => match to_K (h_types h o), to_V (h_types h o) with
                | Some x, Some y => linked h k x && linked h v y
                | _, _ => false
                end
  | _ => true
  end.

(** finalizeField, desc.go:222-260: a nil pointer is a panic *)
Definition finalizeField (h : heap) (f : ofield) : res ofield :=
  if linked h (f_T (pf_desc (of_p f))) (of_T f) then
    match finalize_field (pf_key (of_p f)) (pf_val (of_p f)) (pf_desc (of_p f)) with
    | Some d => ROk (mkO (mkP d (pf_key (of_p f)) (pf_val (of_p f))) (of_T f))
    | None => RErr
    end
  else RPanic.

(** finalizeType of the pointers that are not nil, in order *)
Fixpoint each (ft : heap -> nat -> heap * res unit) (h : heap) (l : list (option nat)) : heap * res unit :=
  match l with
  | [] => (h, ROk tt)
  | None :: r => each ft h r
  | Some o :: r => rbind (ft h o) (fun h1 _ => each ft h1 r)
  end.

(** The loop of FinalizeFields, desc.go:125-139, from the field number [n] on *)
Fixpoint fields_loop (ft : heap -> nat -> heap * res unit) (h : heap) (s n : nat) (count : nat) : heap * res unit :=
  match count with
  | O => (h, ROk tt)
  | S c =>
      match nth_error (so_fields (h_structs h s)) n with
      | None => (h, ROk tt)
      | Some f =>
          match finalizeField h f with
          | ROk f' =>
              let l := so_fields (h_structs h s) in
              let h1 := set_fields h s (firstn n l ++ f' :: skipn (S n) l) in
              let t := h_types h1 (of_T f) in
              rbind (each ft h1 [Some (of_T f); to_K t; to_V t]) (fun h2 _ => fields_loop ft h2 s (S n) c)
          | RErr => (h, RErr)
          | RPanic => (h, RPanic)
          | RFuel => (h, RFuel)
          end
      end
  end.

(** FinalizeFields, desc.go:120-141, and finalizeType, type.go:74-94.  After a panic finalized
    stays true. *)
Fixpoint finalizeType (fuel : nat) (h : heap) (o : nat) : heap * res unit :=
  match fuel with
  | O => (h, RFuel)
  | S k =>
      if to_fin (h_types h o) then (h, ROk tt)
      else
        match each (finalizeStruct k) (set_tfin h o true) [to_S (h_types h o)] with
        | (h1, ROk _) =>
            match each (finalizeType k) h1 [to_V (h_types h1 o)] with
            | (h2, RErr) => (set_tfin h2 o false, RErr)
            | r => r
            end
        | (h1, RErr) => (set_tfin h1 o false, RErr)
        | r => r
        end
  end
with finalizeStruct (fuel : nat) (h : heap) (s : nat) : heap * res unit :=
  match fuel with
  | O => (h, RFuel)
  | S k =>
      if so_fin (h_structs h s) then (h, ROk tt)
      else
        match fields_loop (finalizeType k) (set_sfin h s true) s 0 (length (so_fields (h_structs h s))) with
        | (h1, RErr) => (set_sfin h1 s false, RErr)
        | r => r
        end
  end.

(** GetOrParse, desc.go:43-80 *)
Definition GetOrParse (fuel : nat) (h : heap) (typ : gotype) : heap * res nat :=
  match cache h typ with
  | Some s => (h, ROk s)
  | None =>
      match (match typ with TPtr t => t | t => t end) with
      | TStruct i =>
          rbind (parseType fuel h (TStruct i)) (fun h1 o =>
          match to_S (h_types h1 o) with
          | None => (h1, RPanic)
          | Some s => rbind (finalizeStruct fuel h1 s) (fun h2 _ => (put_cache h2 typ s, ROk s))
          end)
      | _ => (h, RErr)
      end
  end.
End Parse.
