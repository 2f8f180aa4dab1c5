(** Model of the getters of a generated message: Field.GoZero
    (prutalgen/pkg/prutalgen/field.go:203-238) and the getters of MessageGen (code.go:225-266).
    The Go text of a method is a small syntax tree; [eval_expr], [exec] and [method_ok] are what
    Go makes of it.
    Simplified: all enum types are int32, as in GenField.v. *)
From Coq Require Import Strings.String Init.Byte.
From Verif Require Import Base Value Desc GoStr GenField GenNames GenEnum GenPkg GenImport.
Import StringSyntax.
Open Scope N_scope.

(** What a field sees of the enum or message its type is: the GoImport of its file if that is
    another Go package (Type.p, type.go:27-40), its GoName, and the GoNames and Values of the
    enum's Fields (enum.go:133-147). *)
Record tyinfo := mkTI { ti_import : option bytes; ti_name : bytes; ti_values : list (bytes * Z) }.

(** Type.GoName, type.go:46-63; scalar2GoTypes, consts.go:56-72 *)
Definition go_text (t : gotype) : bytes :=
  match t with
  | TScalar Float64 => bs "float64" | TScalar Float32 => bs "float32"
  | TScalar Int32 => bs "int32" | TScalar Int64 => bs "int64"
  | TScalar Uint32 => bs "uint32" | TScalar Uint64 => bs "uint64"
  | TScalar Bool => bs "bool" | TString => bs "string" | TBytes => bs "[]byte"
  | _ => []
  end.
Definition qualified (imp : option bytes) (n : bytes) : bytes :=
  match imp with None => n | Some p => path_Base p ++ bs "." ++ n end.
Definition type_text (t : ptype) (ti : tyinfo) : bytes :=
  match t with
  | PScalar s => go_text (scalar2GoTypes s)
  | _ => qualified (ti_import ti) (ti_name ti)
  end.

(** GoZero, field.go:204-238 *)
Definition GoZero (c : pctx) (f : pfd) (ti : tyinfo) : bytes :=
  if pf_is_map f || pf_rep f then bs "nil"
  else match pf_ty f with
  | PEnum =>
      match find (fun v => Z.eqb (snd v) 0) (ti_values ti) with
      | Some (zero, _) => qualified (ti_import ti) zero
      | None => bs "0"
      end
  | _ =>
      let ft := type_text (pf_ty f) ti in
      if existsb (str_eqb ft) [bs "float32"; bs "float64"; bs "int32"; bs "int64"; bs "uint32"; bs "uint64"] then bs "0"
      else if str_eqb ft (bs "bool") then bs "false"
      else if str_eqb ft (bs "string") then dq ++ dq
      else if str_eqb ft (bs "[]byte") then bs "nil"
      else if pf_is_msg f && genNoPointer c f then ft ++ bs "{}"
      else bs "nil"
  end.

(** ** The methods *)

(** Statements.  The wrapper type of a member of a oneof is given by the member's index, as in
    GenField.v. *)
Inductive stmt :=
| SField (f : bytes)                       (* if x != nil { return x.f } *)
| SDeref (f : bytes)                       (* if x != nil && x.f != nil { return *x.f } *)
| SMember (get : bytes) (w : nat) (f : bytes) (* if p, ok := x.get().( *w); ok { return p.f } *)
| SReturn (e : bytes).                     (* return e *)
Record method := mkMe { me_name : bytes; me_type : gotype; me_body : list stmt }.

(** o.FieldName(), oneof.go:36-38: the GoName of a oneof *)
Fixpoint oneof_GoName (names : list rfield) (o : nat) : bytes :=
  match names with
  | [] => []
  | n :: r => match rf_oneof n with Some (o', g) => if Nat.eqb o' o then g else oneof_GoName r o | None => oneof_GoName r o end
  end.

(** typename[1:] of a typename that starts with a star, code.go:254-256 *)
Definition strip_star (t : gotype) : option gotype := match t with TPtr e => Some e | _ => None end.

(** code.go:247-263, of a field outside a oneof *)
Definition field_getter (c : pctx) (f : pfd) (ti : tyinfo) (n : bytes) : method :=
  match (if pf_is_msg f then None else strip_star (GoTypeName c f)) with
  | Some t => mkMe (Getter n) t [SDeref n; SReturn (GoZero c f ti)]
  | None => mkMe (Getter n) (GoTypeName c f) [SField n; SReturn (GoZero c f ti)]
  end.
(** code.go:240-245, of a member of a oneof *)
Definition member_getter (c : pctx) (f : pfd) (ti : tyinfo) (n : bytes) (i : nat) (g : bytes) : method :=
  mkMe (Getter n) (GoTypeName c f) [SMember (Getter g) i n; SReturn (GoZero c f ti)].
(** code.go:232-237, of a oneof *)
Definition oneof_getter (c : pctx) (m : pmsg) (o : nat) (g : bytes) : method :=
  mkMe (Getter g) (oneof_type c m o) [SField g; SReturn (bs "nil")].

(** The loop over m.Fields, code.go:228-264.  [seen] is generatedOneOfField, [i] the index of
    the next field; [names] are the names of all fields. *)
Fixpoint getters (c : pctx) (m : pmsg) (ti : nat -> tyinfo) (all : list rfield) (seen : list nat) (i : nat)
  (l : list pfd) (names : list rfield) : list method :=
  match l, names with
  | f :: r, n :: ns =>
      match pf_one f with
      | Some o =>
          let g := oneof_GoName all o in
          (if existsb (Nat.eqb o) seen then [] else [oneof_getter c m o g]) ++
          member_getter c f (ti i) (rf_go n) i g :: getters c m ti all (o :: seen) (S i) r ns
      | None => field_getter c f (ti i) (rf_go n) :: getters c m ti all seen (S i) r ns
      end
  | _, _ => []
  end.
Definition message_getters (c : pctx) (m : pmsg) (ti : nat -> tyinfo) (names : list rfield) : list method :=
  getters c m ti names [] 0 (pm_fields m) names.

(** ** What Go makes of them *)

(** Declared identifiers: those of the package, and those of each imported package by the name it
    is imported under *)
Inductive entity := EConst (z : Z) | EType (id : nat).
Record scope := mkSc { sc_own : bytes -> option entity; sc_import : bytes -> option (bytes -> option entity) }.
Definition has_dot (s : bytes) : bool := existsb (beqb x2e) s.
(** A possibly qualified identifier in the body of a method with the receiver x, which hides a
    package of that name *)
Definition resolve_ident (sc : scope) (e : bytes) : option entity :=
  if has_dot e then
    let '(q, n) := Cut x2e e in
    if str_eqb q (bs "x") then None
    else match sc_import sc q with Some P => P n | None => None end
  else if str_eqb e (bs "x") then None else sc_own sc e.
(** T for T{} *)
Definition strip_braces (e : bytes) : option bytes :=
  match rev e with a :: b :: r => if beqb a x7d && beqb b x7b then Some (rev r) else None | _ => None end.
(** The value of the expression [e] used as a value of type [t]; [None]: it does not compile. *)
Definition eval_expr (sc : scope) (E : env) (e : bytes) (t : gotype) : option val :=
  if str_eqb e (bs "nil") then
    match t with TPtr _ | TSlice _ | TMap _ _ | TBytes | TIface _ => Some (zero_of E t) | _ => None end
  else if str_eqb e (bs "0") then match t with TScalar Bool => None | TScalar _ => Some (VNum 0) | _ => None end
  else if str_eqb e (bs "false") then match t with TScalar Bool => Some (VNum 0) | _ => None end
  else if str_eqb e (dq ++ dq) then match t with TString => Some (VStr []) | _ => None end
  else match strip_braces e with
  | Some T =>
      match resolve_ident sc T, t with
      | Some (EType id), TStruct id' => if Nat.eqb id id' then Some (sd_zero (E id)) else None
      | _, _ => None
      end
  | None =>
      match resolve_ident sc e, t with
      | Some (EConst z), TScalar Int32 => Some (VNum (Z.to_N (z mod 2 ^ 32)))
      | _, _ => None
      end
  end.

(** The value [v] of the struct field [n] *)
Definition field_val {A} (names : list bytes) (l : list A) (n : bytes) : option A := lookup str_eqb (combine names l) n.

Inductive gres := Gret (v : val) | Gpanic | Gbad.
Section Exec.
Variable sc : scope.
Variable E : env.
Variable fields : list bytes.                 (* the names of the fields of the struct *)
Variable x : option (list val).               (* the receiver: nil, or the struct it points to *)
Variable call : bytes -> gres.                (* x.Get...() *)
Fixpoint exec (t : gotype) (b : list stmt) : gres :=
  match b with
  | [] => Gbad
  | SField f :: r =>
      match x with
      | None => exec t r
      | Some vs => match field_val fields vs f with Some v => Gret v | None => Gbad end
      end
  | SDeref f :: r =>
      match x with
      | None => exec t r
      | Some vs => match field_val fields vs f with
                   | Some (VPtr (Some v)) => Gret v
                   | Some (VPtr None) => exec t r
                   | _ => Gbad
                   end
      end
  | SMember get w f :: r =>
      match call get with
      | Gret (VIface (Some (w', p))) =>
          if Nat.eqb w' w then match p with Some v => Gret v | None => Gpanic end
          else exec t r
      | Gret (VIface None) => exec t r
      | Gret _ => Gbad
      | Gpanic => Gpanic
      | Gbad => Gbad
      end
  | SReturn e :: _ => match eval_expr sc E e t with Some v => Gret v | None => Gbad end
  end.
End Exec.
(** Calls of methods; getters call each other to a depth of 2 at most. *)
Definition find_method (ms : list method) (n : bytes) : option method := find (fun me => str_eqb (me_name me) n) ms.
Fixpoint call (sc : scope) (E : env) (fields : list bytes) (x : option (list val)) (ms : list method) (depth : nat) (n : bytes) : gres :=
  match depth with
  | O => Gbad
  | S d =>
      match find_method ms n with
      | Some me => exec sc E fields x (call sc E fields x ms d) (me_type me) (me_body me)
      | None => Gbad
      end
  end.

(** The types check: [fields] are the names and types of the struct's fields, [wrapper] the name
    of the field of a wrapper type. *)
Definition stmt_ok (sc : scope) (E : env) (fields : list (bytes * gotype)) (wrapper : nat -> option bytes) (ms : list method)
  (t : gotype) (s : stmt) : Prop :=
  match s with
  | SField f => lookup str_eqb fields f = Some t
  | SDeref f => lookup str_eqb fields f = Some (TPtr t)
  | SMember get w f =>
      exists me alts, find_method ms get = Some me /\ me_type me = TIface alts /\ In (w, t) alts /\ wrapper w = Some f
  | SReturn e => eval_expr sc E e t <> None
  end.
Definition method_ok (sc : scope) (E : env) (fields : list (bytes * gotype)) (wrapper : nat -> option bytes) (ms : list method)
  (me : method) : Prop :=
  Forall (stmt_ok sc E fields wrapper ms (me_type me)) (me_body me) /\
  exists b e, me_body me = b ++ [SReturn e].
