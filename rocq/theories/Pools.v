(** Calls that run concurrently and exchange scratch objects through sync.Pools.

    A call is a program that takes objects from pools, reads and writes them, and puts them back.
    The scheduler interleaves the calls' operations; a pool hands out any object put into it, or
    a new one, and may drop objects at any time. *)
From Verif Require Import Base Value.
Open Scope nat_scope.

(** The pools: encoderPool (internal/prutal/encoder.go:28-34), decoderPool (decoder.go:31-37)
    and the MapTmpVarsPool of each map type (internal/desc/type.go:113,152). *)
Inductive pid := PEnc | PDec | PMap (t : gotype).

(** A scratch object: Encoder.tmp (encoder.go:36-39), or the key and value of TmpMapVars
    (desc/type.go:167-184).  The span of a Decoder is modelled in Span.v. *)
Record content := mkCt { c_tmp : bytes; c_k : val; c_v : val }.

(** [Get]: the continuation receives the number of the handle: a call's objects are numbered in
    the order in which it takes them. *)
Inductive prog (A : Type) :=
| Ret (a : A)
| Get (q : pid) (k : nat -> prog A)
| Put (i : nat) (k : prog A)
| Rd (i : nat) (k : content -> prog A)
| Wr (i : nat) (c : content) (k : prog A).
Arguments Ret {A}. Arguments Get {A}. Arguments Put {A}. Arguments Rd {A}. Arguments Wr {A}.

Fixpoint bindP {A B} (p : prog A) (f : A -> prog B) : prog B :=
  match p with
  | Ret a => f a
  | Get q k => Get q (fun i => bindP (k i) f)
  | Put i k => Put i (bindP k f)
  | Rd i k => Rd i (fun c => bindP (k c) f)
  | Wr i c k => Wr i c (bindP k f)
  end.

(** Continue after success. *)
Definition rbind {A B} (p : prog (res A)) (f : A -> prog (res B)) : prog (res B) :=
  bindP p (fun r => match r with Ok a => f a | Err e => Ret (Err e) | Panic => Ret Panic | OutOfFuel => Ret OutOfFuel end).

(** ** The machine *)
Definition handle : Type := option (pid * nat).           (* [None]: already put back *)
Record proc (A : Type) := mkP { p_held : list handle; p_prog : prog A }.
Arguments mkP {A}. Arguments p_held {A}. Arguments p_prog {A}.
Record sys (A : Type) := mkSys { s_pool : list (pid * nat); s_mem : nat -> content; s_procs : list (proc A) }.
Arguments mkSys {A}. Arguments s_pool {A}. Arguments s_mem {A}. Arguments s_procs {A}.

Fixpoint set_nth {A} (i : nat) (a : A) (l : list A) : list A :=
  match l, i with
  | [], _ => []
  | _ :: r, O => a :: r
  | x :: r, S i => x :: set_nth i a r
  end.
Definition set_mem (m : nat -> content) (a : nat) (c : content) : nat -> content := fun x => if Nat.eqb x a then c else m x.

(** The objects held by somebody *)
Definition addrs {A} (p : proc A) : list nat := flat_map (fun h => match h with Some (_, a) => [a] | None => [] end) (p_held p).
Definition held {A} (s : sys A) : list nat := flat_map addrs (s_procs s).

(** One operation of the call number [j], or of the garbage collector. *)
Inductive step {A} : sys A -> sys A -> Prop :=
| s_get pl1 q a pl2 m ps j h k : nth_error ps j = Some (mkP h (Get q k)) ->
    step (mkSys (pl1 ++ (q, a) :: pl2) m ps) (mkSys (pl1 ++ pl2) m (set_nth j (mkP (h ++ [Some (q, a)]) (k (length h))) ps))
| s_new pl m ps j h q k a c : nth_error ps j = Some (mkP h (Get q k)) ->
    ~ In a (map snd pl) -> ~ In a (held (mkSys pl m ps)) ->
    step (mkSys pl m ps) (mkSys pl (set_mem m a c) (set_nth j (mkP (h ++ [Some (q, a)]) (k (length h))) ps))
| s_put pl m ps j h i q a k : nth_error ps j = Some (mkP h (Put i k)) -> nth_error h i = Some (Some (q, a)) ->
    step (mkSys pl m ps) (mkSys ((q, a) :: pl) m (set_nth j (mkP (set_nth i None h) k) ps))
| s_read pl m ps j h i q a k : nth_error ps j = Some (mkP h (Rd i k)) -> nth_error h i = Some (Some (q, a)) ->
    step (mkSys pl m ps) (mkSys pl m (set_nth j (mkP h (k (m a))) ps))
| s_write pl m ps j h i q a c k : nth_error ps j = Some (mkP h (Wr i c k)) -> nth_error h i = Some (Some (q, a)) ->
    step (mkSys pl m ps) (mkSys pl (set_mem m a c) (set_nth j (mkP h k) ps))
| s_gc pl1 x pl2 m ps : step (mkSys (pl1 ++ x :: pl2) m ps) (mkSys (pl1 ++ pl2) m ps).

Inductive steps {A} : sys A -> sys A -> Prop :=
| ss_refl s : steps s s
| ss_step s1 s2 s3 : steps s1 s2 -> step s2 s3 -> steps s1 s3.

(** No call has begun; the pools hold what earlier calls left, in any state. *)
Definition start {A} (pl : list (pid * nat)) (m : nat -> content) (ps : list (prog A)) : sys A :=
  mkSys pl m (map (mkP []) ps).
