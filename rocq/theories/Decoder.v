(** Model of internal/prutal/decoder.go.

    Memory is the value tree: a location is a value together with the function that
    puts a new content back.  On error the partially updated message is kept.
    Fresh memory of a noscan kind has unknown content ([VUninit]); the span allocator
    itself is modelled in Span.v.  TmpMapVars come from a pool whose content is chosen
    by an oracle. *)
From Verif Require Import Base Wire Coder MapTables Value WireVal Desc Encoder.
Open Scope N_scope.

(** Outcome of an operation on the memory [v]. *)
Inductive dres (A : Type) :=
| DOk (v : val) (a : A)
| DErr (v : val) (e : err)
| DPanic
| DFuel.
Arguments DOk {A} v a.
Arguments DErr {A} v e.
Arguments DPanic {A}.
Arguments DFuel {A}.

(** Continue with a pure result; an error leaves the memory as it is. *)
Definition dbind {A B} (v : val) (r : res A) (k : A -> dres B) : dres B :=
  match r with Ok a => k a | Err e => DErr v e | Panic => DPanic | OutOfFuel => DFuel end.
Notation "'dlet' x <- r 'at' v ; k" := (dbind v r (fun x => k))
  (at level 200, x pattern, r at level 100, v at level 100, k at level 200).

(** Rebuild the enclosing value. *)
Definition dmap {A} (put : val -> val) (r : dres A) : dres A :=
  match r with
  | DOk v a => DOk (put v) a
  | DErr v e => DErr (put v) e
  | DPanic => DPanic
  | DFuel => DFuel
  end.

(** What MapTmpVarsPool.Get returns, for every field and for every position in the input
    (the stack of remaining inputs of the enclosing DecodeStruct calls), so that any
    history of the pool is covered. *)
Definition pool := list bytes -> fdesc -> val * val.

Section Decoder.
Variable E : env.

(** Decoder.Malloc, decoder.go:45-51 *)
Definition fresh (t : gotype) : val := if noscan t then VUninit else zero_of E t.

(** mallocIfPointer, decoder.go:53-64: content and type of the location, and how to put
    it back *)
Definition mallocIfPointer (t : gotype) (v : val) : gotype * val * (val -> val) :=
  match t with
  | TPtr t' => (t', fresh t', fun x => VPtr (Some x))
  | _ => (t, v, fun x => x)
  end.

Definition is_varint_tag (t : tagtype) : bool :=
  match t with TagVarint | TagZigZag32 | TagZigZag64 => true | _ => false end.

(** The stores by Kind, decoder.go:188-201 (= 331-344, 439-452), 211-218, 229-236: a Kind
    that is not listed leaves the location unchanged. *)
Definition store_varint (k : rkind) (u64 : N) (v : val) : val :=
  match k with
  | RScalar (Int32 | Uint32) => VNum (wrap32 u64)
  | RScalar (Int64 | Uint64) => VNum u64
  | RScalar Bool => VNum (N.land u64 1)
  | _ => v
  end.
Definition store_fixed32 (k : rkind) (u32 : N) (v : val) : val :=
  match k with RScalar (Int32 | Uint32 | Float32) => VNum u32 | _ => v end.
Definition store_fixed64 (k : rkind) (u64 : N) (v : val) : val :=
  match k with RScalar (Int64 | Uint64 | Float64) => VNum u64 | _ => v end.

(** The scalar cases of the wire type switch, shared by DecodeStruct (decoder.go:178-238),
    DecodeMapKey (322-382) and DecodeMapValue (430-490): new content and rest of the input.
    [None]: not a scalar wire type. *)
Definition dec_scalar (tag : tagtype) (t : gotype) (typ : N) (b : bytes) (v : val)
  : option (res (val * nat)) :=
  if typ =? WVarint then Some
    (if negb (is_varint_tag tag) then Err EWireType
     else do (u64, n) <- ConsumeVarint b;
          let u64 := match tag with TagZigZag32 | TagZigZag64 => DecodeZigZag u64 | _ => u64 end in
          Ok (store_varint (kindOf t) u64 v, n))
  else if typ =? WFixed32 then Some
    (if negb (tag_eqb tag TagFixed32) then Err EWireType
     else do (u32, n) <- ConsumeFixed32 b; Ok (store_fixed32 (kindOf t) u32 v, n))
  else if typ =? WFixed64 then Some
    (if negb (tag_eqb tag TagFixed64) then Err EWireType
     else do (u64, n) <- ConsumeFixed64 b; Ok (store_fixed64 (kindOf t) u64 v, n))
  else None.

(** DecodeMapKey, decoder.go:313-410: new key and bytes consumed *)
Definition DecodeMapKey (f : fdesc) (kt : gotype) (b : bytes) (k : val) : res (val * nat) :=
  match ConsumeKVTag b with
  | Some (1, typ) =>
      do b1 <- slice_from b 1;
      match dec_scalar (f_ktag f) kt typ b1 k with
      | Some r => do (k', n) <- r; Ok (k', S n)
      | None =>
          if typ =? WBytes then
            match kt with
            | TString => do (fb, n) <- ConsumeBytes b1; Ok (VStr fb, S n)
            | _ => Err EWireType
            end
          else Err EWireType
      end
  | _ => Err EKVNum
  end.

Section Rec.
(** d.DecodeStruct(fb, p, s, maxdepth) on the content of p *)
Variable rec : nat -> Z -> bytes -> val -> dres unit.

(** DecodeMapValue, decoder.go:414-530, on the content [v] of the temporary *)
Definition DecodeMapValue (f : fdesc) (vt : gotype) (maxdepth : Z) (b : bytes) (v : val) : dres unit :=
  match ConsumeKVTag b with
  | Some (2, typ) =>
      let '(t, p, put) := mallocIfPointer vt v in
      dlet b1 <- slice_from b 1 at put p;
      match dec_scalar (f_vtag f) t typ b1 p with
      | Some r => dlet (p', _) <- r at put p; DOk (put p') tt
      | None =>
          if typ =? WBytes then
            dlet (fb, _) <- ConsumeBytes b1 at put p;
            match t with
            | TBytes => DOk (put (VBytes (Some fb))) tt
            | TString => DOk (put (VStr fb)) tt
            | TStruct id => dmap put (rec id (maxdepth - 1) fb p)
            | _ => DErr (put p) EWireType
            end
          else DErr (put p) EWireType
      end
  | _ => DErr v EKVNum
  end.

(** TmpMapVars.Reset, desc/type.go:195-199 *)
Definition tmp_reset (vt : gotype) (tmp : val * val) : val * val :=
  match vt with TStruct id => (fst tmp, sd_zero (E id)) | _ => tmp end.

(** DecodeMapPair, decoder.go:532-559.  tmp.Update stores the pair whatever the key and
    element kinds (desc/type.go:261-309), so one map_set models all ten variants. *)
Definition DecodeMapPair (f : fdesc) (kt vt : gotype) (maxdepth : Z) (b : bytes) (p : val) (tmp : val * val)
  : dres (val * val) :=
  let tmp := tmp_reset vt tmp in
  match p with
  | VMap m =>
      let m := match m with Some m => m | None => [] end in
      let p := VMap (Some m) in
      dlet (k, n) <- DecodeMapKey f kt b (fst tmp) at p;
      dlet b1 <- slice_from b n at p;
      match DecodeMapValue f vt maxdepth b1 (snd tmp) with
      | DOk v _ => DOk (VMap (Some (map_set m k v))) (k, v)
      | DErr _ e => DErr p e
      | DPanic => DPanic
      | DFuel => DFuel
      end
  | _ => DPanic
  end.

(** The wire type switch of DecodeStruct, decoder.go:176-301, at the location with type [t]
    and content [p].  Result: temporaries and bytes consumed. *)
Definition dec_value (f : fdesc) (t : gotype) (typ : N) (maxdepth : Z) (b : bytes)
    (get : val * val) (tmv : option (val * val)) (p : val) : dres (option (val * val) * nat) :=
  match dec_scalar (f_tag f) t typ b p with
  | Some r => dlet (p', n) <- r at p; DOk p' (tmv, n)
  | None =>
      if typ =? WBytes then
        dlet (fb, n) <- ConsumeBytes b at p;
        match t with
        | TBytes => DOk (VBytes (Some fb)) (tmv, n)
        | TString => DOk (VStr fb) (tmv, n)
        | TMap _ _ =>
            match f_T f with
            | TMap kt vt =>
                match getMapDecodeFunc f with
                | Some row =>
                    match p with
                    | VMap m =>
                        dlet (k, v) <- DecodeMapKV row fb at p;
                        DOk (VMap (Some (map_set (match m with Some m => m | None => [] end) k v))) (tmv, n)
                    | _ => DPanic
                    end
                | None =>
                    match DecodeMapPair f kt vt (maxdepth - 1) fb p (match tmv with Some x => x | None => get end) with
                    | DOk p' tmp => DOk p' (Some tmp, n)
                    | DErr p' e => DErr p' e
                    | DPanic => DPanic
                    | DFuel => DFuel
                    end
                end
            | _ => DPanic
            end
        | TStruct id =>
            match rec id (maxdepth - 1)%Z fb p with
            | DOk p' _ => DOk p' (tmv, n)
            | DErr p' e => DErr p' e
            | DPanic => DPanic
            | DFuel => DFuel
            end
        | _ => DErr p EWireType
        end
      else DErr p EWireType
  end.

(** ReallocSlice, decoder.go:561-571 and its two calls 163-167: the spare part of the
    slice before the append *)
Definition grow (t : gotype) (elems spare : list val) : list val :=
  let len := length elems in
  let cap := (len + length spare)%nat in
  if Nat.eqb cap 0 then repeat (fresh t) 8
  else if Nat.eqb len cap then repeat (fresh t) (2 * cap - len)
  else spare.

(** One known field, decoder.go:129-301: new content of the slot *)
Definition dec_field (f : fdesc) (typ : N) (maxdepth : Z) (b : bytes) (get : val * val)
    (tmv : option (val * val)) (slot : val) : dres (option (val * val) * nat) :=
  let t := f_T f in
  let '(p, put0) :=
    match f_oneof f with
    | Some w => (fresh t, fun x => VIface (Some (w, Some x)))
    | None => (slot, fun x => x)
    end in
  let '(t, p, put1) := mallocIfPointer t p in
  dmap (fun x => put0 (put1 x))
    (match f_rep f, t with
     | true, TSlice te =>
         if (typ =? WBytes) && f_packed f then
           match packedDecoderFuncs (packedCoder f) with
           | Some g =>
               dlet (packed, n) <- ConsumeBytes b at p;
               dlet l <- g packed at p;
               DOk (VSlice (map VNum l) []) (tmv, n)
           | None => DPanic
           end
         else
           match p with
           | VSlice elems spare =>
               match grow te elems spare with
               | e0 :: sp =>
                   let '(t, p, put2) := mallocIfPointer te e0 in
                   dmap (fun x => VSlice (elems ++ [put2 x]) sp)
                     (dec_value f t typ maxdepth b get tmv p)
               | [] => DPanic
               end
           | _ => DPanic
           end
     | _, _ => dec_value f t typ maxdepth b get tmv p
     end).

(** resetUnknownFields / appendToUnknownFields, decoder.go:66-88 *)
Definition resetUnknownFields (s : sdesc) (u : option bytes) : option bytes :=
  if sd_unknown s then match u with Some _ => Some [] | None => None end else u.
Definition appendToUnknownFields (s : sdesc) (u : option bytes) (raw : bytes) : option bytes :=
  if sd_unknown s then Some (match u with Some x => x ++ raw | None => raw end) else u.

End Rec.

(** The loop decoder.go:106-303.  [f] and [tmv] are the cached field and temporaries; the
    fuel bounds the number of records; [rec] and [get] also receive the position. *)
Fixpoint decode_loop (rec : bytes -> nat -> Z -> bytes -> val -> dres unit) (fuel : nat) (s : sdesc) (maxdepth : Z) (get : bytes -> fdesc -> val * val)
    (f : option fdesc) (tmv : option (val * val)) (slots : list val) (unk : option bytes) (b : bytes)
  : dres unit :=
  match b with
  | [] => DOk (VStruct slots unk) tt
  | _ =>
      match fuel with
      | O => DFuel
      | S fuel' =>
          let st := VStruct slots unk in
          dlet (num, typ, n) <- ConsumeTag b at st;
          dlet b1 <- slice_from b n at st;
          let cached := match f with Some f0 => if (f_id f0 =? Z.of_N num)%Z then Some f0 else None | None => None end in
          let hit := match cached with Some _ => true | None => false end in
          let tmv := if hit then tmv else None in
          match (if hit then Some cached else GetField s (Z.of_N num)) with
          | None => DPanic
          | Some None =>
              dlet m <- ConsumeFieldValue num typ b1 at st;
              dlet b2 <- slice_from b1 m at st;
              dlet raw <- slice_to b (n + m) at st;
              decode_loop rec fuel' s maxdepth get None tmv slots (appendToUnknownFields s unk raw) b2
          | Some (Some f) =>
              match nth_error slots (f_slot f) with
              | None => DPanic
              | Some slot =>
                  match dec_field (rec b) f typ maxdepth b1 (get b f) tmv slot with
                  | DOk slot' (tmv', m) =>
                      let slots' := upd_nth (f_slot f) slot' slots in
                      dlet b2 <- slice_from b1 m at VStruct slots' unk;
                      decode_loop rec fuel' s maxdepth get (Some f) tmv' slots' unk b2
                  | DErr slot' e => DErr (VStruct (upd_nth (f_slot f) slot' slots) unk) e
                  | DPanic => DPanic
                  | DFuel => DFuel
                  end
              end
          end
      end
  end.

(** DecodeStruct, decoder.go:90-308.  The callers ignore the count it returns. *)
Fixpoint DecodeStruct (fuel : nat) (path : list bytes) (P : pool) (id : nat) (maxdepth : Z) (b : bytes) (base : val)
  : dres unit :=
  match fuel with
  | O => DFuel
  | S fuel' =>
      if (maxdepth =? 0)%Z then DErr base EMaxDepth
      else
        match base with
        | VStruct slots unk =>
            let s := E id in
            decode_loop (fun rest => DecodeStruct fuel' (rest :: path) P)
              (length b) s maxdepth (fun rest f => P (rest :: path) f)
              None None slots (resetUnknownFields s unk) b
        | _ => DPanic
        end
  end.

(** Unmarshal, internal/prutal/prutal.go:73-87.  A nil pointer is simplified to a panic
    (the code panics at its first access to the message). *)
Definition Unmarshal (P : pool) (b : bytes) (a : arg) : dres unit :=
  match a with
  | ANil | AOther => DErr VUninit ENotPointer
  | APtr id (Some v) => DecodeStruct (S (length b)) [] P id (Z.of_nat defaultRecursionMaxDepth) b v
  | APtr id None => DPanic
  end.
End Decoder.
