(** Bytes, raw machine words and results.

    Go's fixed-width integers are modelled by their raw bit patterns in [N];
    every operation of the code that can wrap is written with an explicit
    [mod].  [int] is 64 bit. *)
From Coq Require Export NArith ZArith List Bool.
From Coq Require Import Init.Byte.
From Coq Require Import Lia ZifyBool ZifyNat ZifyN.
Export ListNotations.
Open Scope N_scope.

Definition bytes := list byte.

(** uint64(b) for a byte b *)
Definition b2n (b : byte) : N := Byte.to_N b.

(** byte(n): Go's conversion to byte keeps the low 8 bits. *)
Definition n2b (n : N) : byte :=
  match Byte.of_N (n mod 256) with Some b => b | None => x00 end.

Definition wrap32 (n : N) : N := n mod 2^32.
Definition wrap64 (n : N) : N := n mod 2^64.

(** uint64(int64(x)) for the int32 with raw bits [n] (sign extension). *)
Definition sext32 (n : N) : N := if n <? 2^31 then n else n + (2^64 - 2^32).

(** uint32(x >> 31) for the int32 with raw bits [n] (arithmetic shift). *)
Definition asr31 (n : N) : N := if n <? 2^31 then 0 else 2^32 - 1.
(** uint64(x >> 63) for the int64 with raw bits [n] (arithmetic shift). *)
Definition asr63 (n : N) : N := if n <? 2^63 then 0 else 2^64 - 1.

(** len(b) as a Go int *)
Definition blen {A} (b : list A) : N := N.of_nat (length b).

(** Errors the decoder can report; the payloads of error messages are not
    modelled.  The first six are the negative codes of
    internal/protowire/wire.go:47-55. *)
Inductive err :=
| ETruncated | EFieldNumber | EOverflow | EReserved | EEndGroup | ERecursionDepth
| EUnexpectedEOF       (* io.ErrUnexpectedEOF returned directly *)
| EMaxDepth            (* internal/prutal/errors.go:30 errMaxDepthExceeded *)
| EWireType            (* internal/prutal/errors.go:33 newWireTypeNotMatch *)
| EKVNum               (* map key/val field number mismatch *)
| ENotPointer          (* internal/prutal/prutal.go:27 errNotPointer *)
.

(** Result of a fallible computation.  [Panic]: the Go code would panic.
    [OutOfFuel]: artefact of the fuelled model, shown unreachable. *)
Inductive res (A : Type) :=
| Ok (a : A)
| Err (e : err)
| Panic
| OutOfFuel.
Arguments Ok {A} a.
Arguments Err {A} e.
Arguments Panic {A}.
Arguments OutOfFuel {A}.

Definition bind {A B} (r : res A) (f : A -> res B) : res B :=
  match r with Ok a => f a | Err e => Err e | Panic => Panic | OutOfFuel => OutOfFuel end.
Notation "'do' x <- r ; k" := (bind r (fun x => k))
  (at level 200, x pattern, r at level 100, k at level 200).

Fixpoint upd_nth {A} (n : nat) (x : A) (l : list A) : list A :=
  match l, n with
  | [], _ => []
  | _ :: r, O => x :: r
  | a :: r, S n' => a :: upd_nth n' x r
  end.
