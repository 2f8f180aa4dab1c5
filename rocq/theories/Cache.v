(** Model of the descriptor cache: internal/desc/map.go (Get, Set) and the locking of
    GetOrParse and CacheGet (internal/desc/desc.go:32-80), as an interleaving semantics of
    any number of threads.

    Every access to shared memory is a step of its own: loading a bucket pointer, reading
    the type of an item, reading its descriptor, taking the mutex, storing a bucket
    pointer.  Simplification: [copy(ns, old)] is one step.  The descriptor that parsing
    yields is arbitrary, and may differ from call to call; a descriptor is a number. *)
From Verif Require Import Base.
From Coq Require Import Bool.
Open Scope N_scope.

Definition sdp := nat.
(** mapStructDescItem, map.go:34-37 *)
Definition item := (N * sdp)%type.

(** abiType & mapStructDescBuckets, map.go:32,41,60 *)
Definition bucket (abiType : N) : N := N.land abiType 0xffff.

(** The buckets hold pointers to slices; [arrs] gives the content of every slice. *)
Record mem := mkMem { bk : N -> option nat; arrs : nat -> list item; nxt : nat }.

(** Who called Get: CacheGet; the first and the second lookup of GetOrParse
    (desc.go:47, 63); Set (map.go:57). *)
Inductive why := WCache | WFirst | WSecond | WSet (sd : sdp).

(** Where a thread is. *)
Inductive pc :=
| Idle
| Load (w : why) (k : N)                    (* map.go:41 *)
| Scan (w : why) (k : N) (p i : nat)        (* map.go:46-47, comparing dd[i].abiType *)
| Hit (w : why) (k : N) (p i : nat)         (* map.go:48, reading dd[i].sd *)
| Lock (k : N)                              (* desc.go:60 *)
| Parse (k : N)                             (* desc.go:68-77 *)
| Copy (k : N) (sd : sdp)                   (* map.go:60-67 *)
| Find (k : N) (sd : sdp) (p i : nat)       (* map.go:68-69 *)
| Store (k : N) (sd : sdp) (p : nat)        (* map.go:71, 76 *)
| Unlock (k : N) (r : option sdp)           (* desc.go:61 *)
| Ret (k : N) (r : option sdp).

Inductive label :=
| LBeg (t : nat) (k : N)                    (* thread t calls Get *)
| LGet (t : nat) (k : N) (r : option sdp)   (* its Get returns *)
| LPub (k : N) (sd : sdp)                   (* a bucket with the new pair is stored *)
| LRet (t : nat) (k : N) (r : option sdp)   (* CacheGet or GetOrParse returns *)
| LTau.

Record state := mkState { st_mem : mem; st_lock : option nat; st_pc : nat -> pc }.

Definition set_pc (s : state) (t : nat) (c : pc) : state :=
  mkState (st_mem s) (st_lock s) (fun t' => if Nat.eqb t' t then c else st_pc s t').
Definition set_lock (s : state) (l : option nat) : state := mkState (st_mem s) l (st_pc s).
Definition set_mem (s : state) (m : mem) : state := mkState m (st_lock s) (st_pc s).
Definition upd {A} (f : nat -> A) (p : nat) (a : A) : nat -> A := fun q => if Nat.eqb q p then a else f q.

(** What follows a Get that returned [r]: desc.go:48-49, 64-65; map.go:57-59 *)
Definition after_get (w : why) (k : N) (r : option sdp) : pc :=
  match w with
  | WCache => Ret k r
  | WFirst => match r with Some _ => Ret k r | None => Lock k end
  | WSecond => match r with Some _ => Unlock k r | None => Parse k end
  | WSet sd =>
      match r with
      | Some sd' => if Nat.eqb sd' sd then Unlock k (Some sd) else Copy k sd
      | None => Copy k sd
      end
  end.

(** ns[i].sd = sd, map.go:70 *)
Definition set_sd (l : list item) (i : nat) (sd : sdp) : list item :=
  match nth_error l i with Some (k, _) => upd_nth i (k, sd) l | None => l end.

Inductive step (s : state) : label -> state -> Prop :=
(* CacheGet, desc.go:39-42, or GetOrParse, desc.go:45-47 *)
| s_call : forall t k w, st_pc s t = Idle -> w = WCache \/ w = WFirst ->
    step s (LBeg t k) (set_pc s t (Load w k))
(* m.buckets[...].Load() *)
| s_load_nil : forall t w k, st_pc s t = Load w k -> bk (st_mem s) (bucket k) = None ->
    step s (LGet t k None) (set_pc s t (after_get w k None))
| s_load : forall t w k p, st_pc s t = Load w k -> bk (st_mem s) (bucket k) = Some p ->
    step s LTau (set_pc s t (Scan w k p 0))
| s_scan_end : forall t w k p i, st_pc s t = Scan w k p i -> nth_error (arrs (st_mem s) p) i = None ->
    step s (LGet t k None) (set_pc s t (after_get w k None))
| s_scan_next : forall t w k p i x, st_pc s t = Scan w k p i -> nth_error (arrs (st_mem s) p) i = Some x -> fst x <> k ->
    step s LTau (set_pc s t (Scan w k p (S i)))
| s_scan_hit : forall t w k p i x, st_pc s t = Scan w k p i -> nth_error (arrs (st_mem s) p) i = Some x -> fst x = k ->
    step s LTau (set_pc s t (Hit w k p i))
| s_hit : forall t w k p i x, st_pc s t = Hit w k p i -> nth_error (arrs (st_mem s) p) i = Some x ->
    step s (LGet t k (Some (snd x))) (set_pc s t (after_get w k (Some (snd x))))
(* errNotStruct, desc.go:55-57 *)
| s_not_struct : forall t k, st_pc s t = Lock k -> step s LTau (set_pc s t (Ret k None))
(* parsemu.Lock() and the second lookup, desc.go:60-63 *)
| s_lock : forall t k, st_pc s t = Lock k -> st_lock s = None ->
    step s (LBeg t k) (set_pc (set_lock s (Some t)) t (Load WSecond k))
(* parsing fails, desc.go:69-71, 76-78 *)
| s_parse_err : forall t k, st_pc s t = Parse k -> step s LTau (set_pc s t (Unlock k None))
(* parsing yields sd; cache.Set calls Get, desc.go:79, map.go:57 *)
| s_parse : forall t k sd, st_pc s t = Parse k -> step s (LBeg t k) (set_pc s t (Load (WSet sd) k))
(* map.go:60-67 *)
| s_copy : forall t k sd, st_pc s t = Copy k sd ->
    let m := st_mem s in
    let old := match bk m (bucket k) with Some p => arrs m p | None => [] end in
    step s LTau (set_pc (set_mem s (mkMem (bk m) (upd (arrs m) (nxt m) old) (S (nxt m)))) t (Find k sd (nxt m) 0))
(* map.go:68-72 *)
| s_find_next : forall t k sd p i x, st_pc s t = Find k sd p i -> nth_error (arrs (st_mem s) p) i = Some x -> fst x <> k ->
    step s LTau (set_pc s t (Find k sd p (S i)))
| s_find_hit : forall t k sd p i x, st_pc s t = Find k sd p i -> nth_error (arrs (st_mem s) p) i = Some x -> fst x = k ->
    let m := st_mem s in
    step s LTau (set_pc (set_mem s (mkMem (bk m) (upd (arrs m) p (set_sd (arrs m p) i sd)) (nxt m))) t (Store k sd p))
(* map.go:75 *)
| s_find_end : forall t k sd p i, st_pc s t = Find k sd p i -> nth_error (arrs (st_mem s) p) i = None ->
    let m := st_mem s in
    step s LTau (set_pc (set_mem s (mkMem (bk m) (upd (arrs m) p (arrs m p ++ [(k, sd)])) (nxt m))) t (Store k sd p))
(* m.buckets[bk].Store(&ns), map.go:71, 76 *)
| s_store : forall t k sd p, st_pc s t = Store k sd p ->
    let m := st_mem s in
    step s (LPub k sd)
      (set_pc (set_mem s (mkMem (fun b => if b =? bucket k then Some p else bk m b) (arrs m) (nxt m))) t (Unlock k (Some sd)))
| s_unlock : forall t k r, st_pc s t = Unlock k r -> step s LTau (set_pc (set_lock s None) t (Ret k r))
| s_ret : forall t k r, st_pc s t = Ret k r -> step s (LRet t k r) (set_pc s t Idle).

(** An empty cache, no thread active. *)
Definition init : state := mkState (mkMem (fun _ => None) (fun _ => []) 0) None (fun _ => Idle).

(** Executions: the labels, newest first, and the state reached. *)
Inductive run : list label -> state -> Prop :=
| run_init : run [] init
| run_step : forall tr s l s', run tr s -> step s l s' -> run (l :: tr) s'.
