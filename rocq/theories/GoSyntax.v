(** Go's grammar for the declarations that a generated file consists of: "Types",
    "Declarations and scope" and "Source file organization" of the Go language specification.
    This is a specification and models no file of the repository.  Simplified: the body of a
    function is the list of its tokens; a parameter list is not taken apart. *)
From Coq Require Import List Bool NArith Strings.String Init.Byte.
From Verif Require Import Base GoStr GoScan.
Import ListNotations StringSyntax.
Open Scope nat_scope.
Local Notation "'let*' x ':=' e 'in' k" := (match e with Some x => k | None => None end)
  (at level 200, x pattern, right associativity).

Inductive gty :=
| YName (pkg : option bytes) (n : bytes)
| YPtr (t : gty) | YSlice (t : gty) | YMap (k v : gty)
| YAny.                                       (* interface{} *)
(** A field of a struct: its name, type and tag *)
Definition gfield := (bytes * gty * option bytes)%type.
Inductive gresult := ResNone | ResOne (t : gty) | ResMany (l : list gty).
Inductive gdecl :=
| YStruct (n : bytes) (l : list gfield)
| YIface (n m : bytes)                        (* type n interface { m() } *)
| YDefined (n : bytes) (t : gty)
| YConsts (l : list (bytes * gty * (bool * bytes)))   (* name, type, value: negative?, digits *)
| YMapVar (n : bytes) (k v : gty) (l : list (tok * bool * (tok * bool)))  (* key, minus; value, minus *)
| YFunc (recv : list tok) (n : bytes) (params : list tok) (r : gresult) (body : list tok).
Record gfile := mkGo { go_package : bytes; go_imports : list (bytes * bytes); go_decls : list gdecl }.

Definition op (o : bytes) (t : tok) : bool := match t with TOp s => str_eqb s o | _ => false end.
Definition kw (o : bytes) (t : tok) : bool := match t with TWord s => str_eqb s o | _ => false end.
Definition name_of (t : tok) : option bytes :=
  match t with TWord s => if is_in keywords s then None else Some s | _ => None end.

(** The fuel of the readers is the number of tokens. *)
Fixpoint read_type (fuel : nat) (ts : list tok) : option (gty * list tok) :=
  match fuel with
  | O => None
  | S fuel =>
      match ts with
      | TOp o :: r =>
          if str_eqb o (bs "*") then let* (t, r) := read_type fuel r in Some (YPtr t, r)
          else if str_eqb o (bs "[") then
            match r with
            | x :: r => if op (bs "]") x then let* (t, r) := read_type fuel r in Some (YSlice t, r) else None
            | [] => None
            end
          else None
      | TWord w :: r =>
          if str_eqb w (bs "map") then
            match r with
            | x :: r =>
                if op (bs "[") x then
                  let* (k, r) := read_type fuel r in
                  match r with
                  | y :: r => if op (bs "]") y then let* (v, r) := read_type fuel r in Some (YMap k v, r) else None
                  | [] => None
                  end
                else None
            | [] => None
            end
          else if str_eqb w (bs "interface") then
            match r with
            | x :: y :: r => if op (bs "{") x && op (bs "}") y then Some (YAny, r) else None
            | _ => None
            end
          else
            let* n := name_of (TWord w) in
            match r with
            | x :: y :: r' => if op (bs ".") x then let* m := name_of y in Some (YName (Some n) m, r') else Some (YName None n, r)
            | _ => Some (YName None n, r)
            end
      | _ => None
      end
  end.
(** The fields up to the closing brace *)
Fixpoint read_fields (fuel : nat) (ts : list tok) : option (list gfield * list tok) :=
  match fuel with
  | O => None
  | S fuel =>
      match ts with
      | x :: r =>
          if op (bs "}") x then Some ([], r)
          else
            let* n := name_of x in
            let* (t, r) := read_type fuel r in
            let '(tag, r) := match r with TRaw s :: r' => (Some s, r') | _ => (None, r) end in
            match r with
            | y :: r => if op (bs ";") y then let* (l, r) := read_fields fuel r in Some ((n, t, tag) :: l, r) else None
            | [] => None
            end
      | [] => None
      end
  end.
Definition expect (o : bytes) (ts : list tok) : option (list tok) :=
  match ts with x :: r => if op o x then Some r else None | [] => None end.
Definition read_name (ts : list tok) : option (bytes * list tok) :=
  match ts with x :: r => let* n := name_of x in Some (n, r) | [] => None end.
(** Up to the next token [o], outside of which there are no other parentheses *)
Fixpoint upto (o : bytes) (ts : list tok) : option (list tok * list tok) :=
  match ts with
  | [] => None
  | x :: r => if op o x then Some ([], r) else let* (l, r) := upto o r in Some (x :: l, r)
  end.
(** Up to the brace that closes a block *)
Fixpoint block (depth : nat) (ts : list tok) : option (list tok * list tok) :=
  match ts with
  | [] => None
  | x :: r =>
      if op (bs "}") x then
        match depth with
        | O => Some ([], r)
        | S d => let* (l, r) := block d r in Some (x :: l, r)
        end
      else let* (l, r) := block (if op (bs "{") x then S depth else depth) r in Some (x :: l, r)
  end.
(** The types of a result in parentheses, from behind the opening one *)
Fixpoint read_types (fuel : nat) (ts : list tok) : option (list gty * list tok) :=
  match fuel with
  | O => None
  | S fuel =>
      let* (t, r) := read_type fuel ts in
      match r with
      | x :: r => if op (bs ")") x then Some ([t], r)
                  else if op (bs ",") x then let* (l, r) := read_types fuel r in Some (t :: l, r) else None
      | [] => None
      end
  end.
Definition read_result (fuel : nat) (ts : list tok) : option (gresult * list tok) :=
  match ts with
  | x :: r =>
      if op (bs "{") x then Some (ResNone, ts)
      else if op (bs "(") x then let* (l, r) := read_types fuel r in Some (ResMany l, r)
      else let* (t, r) := read_type fuel ts in Some (ResOne t, r)
  | [] => None
  end.
(** A constant with an optional minus *)
Definition read_signed (ts : list tok) : option (tok * bool * list tok) :=
  match ts with
  | x :: r => if op (bs "-") x then match r with y :: r => Some (y, true, r) | [] => None end else Some (x, false, r)
  | [] => None
  end.
Fixpoint read_consts (fuel : nat) (ts : list tok) : option (list (bytes * gty * (bool * bytes)) * list tok) :=
  match fuel with
  | O => None
  | S fuel =>
      match ts with
      | x :: r =>
          if op (bs ")") x then Some ([], r)
          else
            let* n := name_of x in
            let* (t, r) := read_type fuel r in
            let* r := expect (bs "=") r in
            let* (v, minus, r) := read_signed r in
            match v with
            | TNum d => let* r := expect (bs ";") r in let* (l, r) := read_consts fuel r in Some ((n, t, (minus, d)) :: l, r)
            | _ => None
            end
      | [] => None
      end
  end.
(** The entries of a literal of a map, each with a comma *)
Fixpoint read_entries (fuel : nat) (ts : list tok) : option (list (tok * bool * (tok * bool)) * list tok) :=
  match fuel with
  | O => None
  | S fuel =>
      match ts with
      | x :: r =>
          if op (bs "}") x then Some ([], r)
          else
            let* (k, mk, r) := read_signed ts in
            let* r := expect (bs ":") r in
            let* (v, mv, r) := read_signed r in
            let* r := expect (bs ",") r in
            let* (l, r) := read_entries fuel r in Some ((k, mk, (v, mv)) :: l, r)
      | [] => None
      end
  end.
(** A declaration without the semicolon behind it *)
Definition read_decl (ts : list tok) : option (gdecl * list tok) :=
  let fuel := length ts in
  match ts with
  | x :: r =>
      if kw (bs "type") x then
        let* (n, r) := read_name r in
        match r with
        | y :: r' =>
            if kw (bs "struct") y then
              let* r := expect (bs "{") r' in let* (l, r) := read_fields fuel r in Some (YStruct n l, r)
            else if kw (bs "interface") y then
              let* r := expect (bs "{") r' in let* (m, r) := read_name r in
              let* r := expect (bs "(") r in let* r := expect (bs ")") r in
              let* r := expect (bs ";") r in let* r := expect (bs "}") r in Some (YIface n m, r)
            else let* (t, r) := read_type fuel r in Some (YDefined n t, r)
        | [] => None
        end
      else if kw (bs "const") x then
        let* r := expect (bs "(") r in let* (l, r) := read_consts fuel r in Some (YConsts l, r)
      else if kw (bs "var") x then
        let* (n, r) := read_name r in
        let* r := expect (bs "=") r in
        let* (t, r) := read_type fuel r in
        match t with
        | YMap k v => let* r := expect (bs "{") r in let* (l, r) := read_entries fuel r in Some (YMapVar n k v l, r)
        | _ => None
        end
      else if kw (bs "func") x then
        let* r := expect (bs "(") r in
        let* (recv, r) := upto (bs ")") r in
        let* (n, r) := read_name r in
        let* r := expect (bs "(") r in
        let* (params, r) := upto (bs ")") r in
        let* (res, r) := read_result fuel r in
        let* r := expect (bs "{") r in
        let* (b, r) := block 0 r in Some (YFunc recv n params res b, r)
      else None
  | [] => None
  end.
Fixpoint read_decls (fuel : nat) (ts : list tok) : option (list gdecl) :=
  match ts with
  | [] => Some []
  | _ =>
      match fuel with
      | O => None
      | S fuel =>
          let* (d, r) := read_decl ts in
          let* r := expect (bs ";") r in
          let* l := read_decls fuel r in Some (d :: l)
      end
  end.
(** [name] "path"; without a name the first component is empty *)
Definition read_import (ts : list tok) : option (bytes * bytes * list tok) :=
  match ts with
  | TStr p :: r => Some ([], p, r)
  | x :: TStr p :: r => let* n := name_of x in Some (n, p, r)
  | _ => None
  end.
Fixpoint read_import_group (fuel : nat) (ts : list tok) : option (list (bytes * bytes) * list tok) :=
  match fuel with
  | O => None
  | S fuel =>
      match ts with
      | x :: r =>
          if op (bs ")") x then Some ([], r)
          else let* (n, p, r) := read_import ts in let* r := expect (bs ";") r in
               let* (l, r) := read_import_group fuel r in Some ((n, p) :: l, r)
      | [] => None
      end
  end.
(** At most one import declaration, as the writer makes it *)
Definition read_imports (ts : list tok) : option (list (bytes * bytes) * list tok) :=
  match ts with
  | x :: r =>
      if kw (bs "import") x then
        match r with
        | y :: r' =>
            if op (bs "(") y then let* (l, r) := read_import_group (length r') r' in let* r := expect (bs ";") r in Some (l, r)
            else let* (n, p, r) := read_import r in let* r := expect (bs ";") r in Some ([(n, p)], r)
        | [] => None
        end
      else Some ([], ts)
  | [] => Some ([], [])
  end.
Definition read_file (ts : list tok) : option gfile :=
  match ts with
  | x :: r =>
      if kw (bs "package") x then
        let* (n, r) := read_name r in
        let* r := expect (bs ";") r in
        let* (is, r) := read_imports r in
        let* ds := read_decls (length r) r in Some (mkGo n is ds)
      else None
  | [] => None
  end.
(** What Go reads from a source text *)
Definition go_reads (s : bytes) : option gfile := read_file (go_tokens s).
