(** Model of internal/prutal/span.go and of Decoder.Malloc and decoderPool
    (internal/prutal/decoder.go:31-51).

    Objects obtained from the Go runtime (mallocgc) are numbered in order of their
    allocation.  The address the runtime chooses is an oracle of the number and the size;
    a block is an offset and a length inside an object.  int and uintptr are unbounded
    except for the bit operations, which work on 64 bits. *)
From Verif Require Import Base.
Open Scope N_scope.

(** mallocgc: the address of object [k] of size [sz], span.go:21-22 *)
Definition heap := nat -> N -> N.

(** defaultDecoderSpanSize, span.go:27 *)
Definition defaultDecoderSpanSize : N := 4096.

(** span, span.go:29-33; [s_b] is the number of the object [b] points to *)
Record span := mkSpan { s_p : N; s_b : nat; s_n : N }.

(** A block handed out: object, offset, length *)
Record block := mkBlock { b_obj : nat; b_off : N; b_len : N }.

(** ^uintptr(mask) *)
Definition not64 (m : N) : N := N.ldiff (N.ones 64) m.

(** [off] of span.go:53: aligned(ret) - ret *)
Definition align_off (ret mask : N) : N := N.land (ret + mask) (not64 mask) - ret.

(** State of the runtime: how many objects exist, and their sizes (newest first) *)
Definition objs := list N.

Section Malloc.
Variable addr : heap.

(** init, span.go:35-40 *)
Definition span_init (o : objs) : span * objs :=
  (mkSpan 0 (length o) defaultDecoderSpanSize, defaultDecoderSpanSize :: o).

(** span.Malloc, span.go:42-57 *)
Definition span_Malloc (s : span) (o : objs) (n align : N) : block * span * objs :=
  let mask := align - 1 in
  let '(s, o) :=
    if s_n s <? s_p s + n + mask then
      let sz := if defaultDecoderSpanSize <? n + mask then n + mask else defaultDecoderSpanSize in
      (mkSpan 0 (length o) sz, sz :: o)
    else (s, o) in
  let ret := addr (s_b s) (s_n s) + s_p s in
  let off := align_off ret mask in
  (mkBlock (s_b s) (s_p s + off) n, mkSpan (s_p s + (n + off)) (s_b s) (s_n s), o).

(** Decoder.Malloc, decoder.go:45-51; [abi] is abiType != 0 *)
Definition Decoder_Malloc (s : span) (o : objs) (n align : N) (abi : bool) : block * span * objs :=
  if (defaultDecoderSpanSize / 4 <? n) || abi
  then (mkBlock (length o) 0 n, s, n :: o)
  else span_Malloc s o n align.

(** One allocation request: which pooled decoder serves it, and its arguments.  A decoder
    is in use by one goroutine at a time (sync.Pool), so the requests of any schedule of
    concurrent Unmarshal calls form one such list. *)
Record request := mkReq { r_dec : nat; r_n : N; r_align : N; r_abi : bool }.

(** The spans of the decoders; [None]: decoderPool.New has not created it yet,
    decoder.go:31-37 *)
Definition decoders := nat -> option span.

Definition serve (ds : decoders) (o : objs) (r : request) : block * decoders * objs :=
  let '(s, o) := match ds (r_dec r) with Some s => (s, o) | None => span_init o end in
  let '(b, s, o) := Decoder_Malloc s o (r_n r) (r_align r) (r_abi r) in
  (b, fun d => if Nat.eqb d (r_dec r) then Some s else ds d, o).

Fixpoint serve_all (ds : decoders) (o : objs) (l : list request) : list block * objs :=
  match l with
  | [] => ([], o)
  | r :: l' =>
      let '(b, ds, o) := serve ds o r in
      let '(bs, o) := serve_all ds o l' in
      (b :: bs, o)
  end.
End Malloc.

(** All blocks handed out, and all runtime objects, when the requests [l] are served by
    decoders none of which exists before. *)
Definition history (addr : heap) (l : list request) : list block * objs :=
  serve_all addr (fun _ => None) [] l.
