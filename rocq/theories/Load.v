(** Model of the loading and ordering of .proto files: protoLoader.loadProto and LoadProto
    (prutalgen/pkg/prutalgen/prutalgen.go:91-103, 159-216), ExitImportStatement
    (proto.go:194-211) and sortProtoFiles (utils.go:106-142).  A file is a number (searchProtoFile
    gives the same path for the same file), and parsing it yields its imports in order.
    Simplified: the embedded files (loadEmbeddedProto, lines 218-235) are like any other; they
    skip the check of the stack, which never succeeds for the well known ones, since they only
    import each other and not in a cycle.  Syntax errors and missing files, which are fatal, are
    left out. *)
From Coq Require Import ZArith.
From Verif Require Import Base.
Open Scope nat_scope.

Section Load.
Variable imports : nat -> list nat.

(** getByFile, prutalgen.go:159-175 *)
Definition getByFile (fs : list nat) (f : nat) : bool := existsb (Nat.eqb f) fs.

Inductive loaded := LOk (protos : list nat) | LCyclic (stack : list nat) | LFuel.

(** loadProto, prutalgen.go:177-216: [stack] is x.protostack and [protos] x.protos.  Fatalf
    ends the program: LCyclic. *)
Fixpoint loadProto (fuel : nat) (stack protos : list nat) (f : nat) : loaded :=
  match fuel with
  | O => LFuel
  | S k =>
      if getByFile stack f then LCyclic stack
      else if getByFile protos f then LOk protos
      else (fix walk (ps l : list nat) : loaded :=
              match l with
              | [] => LOk ps
              | i :: r => match loadProto k (stack ++ [f]) ps i with
                          | LOk ps' => walk ps' r
                          | e => e
                          end
              end) (protos ++ [f]) (imports f)
  end.

(** A map[*Proto]int *)
Definition degrees := nat -> Z.
Definition add_to (d : degrees) (x : nat) (v : Z) : degrees := fun y => if Nat.eqb y x then (d y + v)%Z else d y.

(** utils.go:108-116: deps and inDegree *)
Definition inDegree (pp : list nat) : degrees :=
  fold_left (fun d p => fold_left (fun d i => add_to d i 1) (imports p) d) pp (fun _ => 0%Z).
(** utils.go:129-134: the loop over deps[p] *)
Definition release (ds : list nat) (d : degrees) (queue : list nat) : degrees * list nat :=
  fold_left (fun s dep => let d' := add_to (fst s) dep (-1) in
                          (d', if Z.eqb (d' dep) 0 then snd s ++ [dep] else snd s)) ds (d, queue).
(** utils.go:125-135 *)
Fixpoint kahn (fuel : nat) (d : degrees) (queue ret : list nat) : option (list nat) :=
  match queue with
  | [] => Some ret
  | p :: queue' =>
      match fuel with
      | O => None
      | S k => let '(d', q') := release (imports p) d queue' in kahn k d' q' (ret ++ [p])
      end
  end.
(** sortProtoFiles, utils.go:106-142.  [fuel]: the number of rounds of the loop. *)
Definition sortProtoFiles (fuel : nat) (pp : list nat) : option (list nat) :=
  let d := inDegree pp in
  match kahn fuel d (filter (fun p => Z.eqb (d p) 0) pp) [] with
  | None => None
  | Some ret => Some (if Nat.eqb (length ret) (length pp) then ret else pp)
  end.

(** LoadProto, prutalgen.go:91-103: the files it returns.  They are resolved in the reverse
    order. *)
Definition LoadProto (fuel : nat) (f : nat) : loaded :=
  match loadProto fuel [] [] f with
  | LOk ps => match sortProtoFiles fuel ps with Some r => LOk r | None => LFuel end
  | e => e
  end.
Definition resolve_order (protos : list nat) : list nat := rev protos.
End Load.
