(** Model of internal/prutal/decoder.go on memory (HMem.v): the same functions as Decoder.v,
    with every allocation, load and store of the code.

    The input is a slice of a byte array in the same memory.  A TmpMapVars taken from the
    pool is modelled as two new variables whose content an oracle chooses: it is held
    exclusively (Props_Pool.v), and what it held before is unknown.  The capacity that
    append chooses for unknown fields comes from an oracle too. *)
From Verif Require Import Base Wire Coder MapTables Value WireVal Desc Encoder Decoder HMem.
Open Scope N_scope.

Inductive hres (A : Type) :=
| HOk (h : mem) (a : A)
| HErr (h : mem) (e : err)
| HPanic
| HFuel.
Arguments HOk {A} h a.
Arguments HErr {A} h e.
Arguments HPanic {A}.
Arguments HFuel {A}.

Definition hbind {A B} (h : mem) (r : res A) (k : A -> hres B) : hres B :=
  match r with Ok a => k a | Err e => HErr h e | Panic => HPanic | OutOfFuel => HFuel end.
Notation "'hlet' x <- r 'at' h ; k" := (hbind h r (fun x => k))
  (at level 200, x pattern, r at level 100, h at level 100, k at level 200).
Definition hseq {A B} (r : hres A) (k : mem -> A -> hres B) : hres B :=
  match r with HOk h a => k h a | HErr h e => HErr h e | HPanic => HPanic | HFuel => HFuel end.

(** b[n:] on a slice *)
Definition hslice_from (b : slice) (n : nat) : res slice :=
  if (n <=? s_len b)%nat then Ok (sub b n (s_len b - n)) else Panic.
(** protowire.ConsumeBytes, protowire/wire.go:435-444: a slice of its argument *)
Definition HConsumeBytes (h : mem) (b : slice) : res (slice * nat) :=
  do (fb, n) <- ConsumeBytes (rd h b); Ok (sub b (n - length fb) (length fb), n).

(** The oracles *)
Definition hpool := list bytes -> fdesc -> mv * mv.
Definition htmp := (nat * nat)%type.

Section HDecoder.
Variable E : env.
Variable capf : nat -> nat.

(** Decoder.Malloc, decoder.go:45-51 *)
Definition hfresh (t : gotype) : mv := if noscan t then MUninit else embed (zero_of E t).

(** mallocIfPointer, decoder.go:53-64 *)
Definition hmallocIfPointer (h : mem) (t : gotype) (L : loc) : mem * gotype * loc :=
  match t with
  | TPtr t' => let '(h, o) := halloc h (OCells [hfresh t']) in (hstore h L (MPtr (Some (cell o))), t', cell o)
  | _ => (h, t, L)
  end.

(** A copy of input bytes, decoder.go:244-263 (= 394-403, 499-519): nothing is allocated
    for an empty one *)
Definition hcopy (h : mem) (fb : slice) : mem * slice :=
  if Nat.eqb (s_len fb) 0 then (h, nil_slice)
  else let '(h', o) := halloc h (OBytes (rd h fb)) in (h', mkSl o 0 (s_len fb) (s_len fb)).

(** The stores by Kind, decoder.go:188-201, 211-218, 229-236: what is stored, if anything *)
Definition num_varint (k : rkind) (u64 : N) : option N :=
  match k with
  | RScalar (Int32 | Uint32) => Some (wrap32 u64)
  | RScalar (Int64 | Uint64) => Some u64
  | RScalar Bool => Some (N.land u64 1)
  | _ => None
  end.
Definition num_fixed32 (k : rkind) (u32 : N) : option N :=
  match k with RScalar (Int32 | Uint32 | Float32) => Some u32 | _ => None end.
Definition num_fixed64 (k : rkind) (u64 : N) : option N :=
  match k with RScalar (Int64 | Uint64 | Float64) => Some u64 | _ => None end.
Definition hput (h : mem) (L : loc) (o : option N) : mem :=
  match o with Some n => hstore h L (MNum n) | None => h end.

(** The scalar cases of the wire type switch, decoder.go:178-238 (= 322-382, 430-490) *)
Definition scalar_num (tag : tagtype) (t : gotype) (typ : N) (b : bytes) : option (res (option N * nat)) :=
  if typ =? WVarint then Some
    (if negb (is_varint_tag tag) then Err EWireType
     else do (u64, n) <- ConsumeVarint b;
          let u64 := match tag with TagZigZag32 | TagZigZag64 => DecodeZigZag u64 | _ => u64 end in
          Ok (num_varint (kindOf t) u64, n))
  else if typ =? WFixed32 then Some
    (if negb (tag_eqb tag TagFixed32) then Err EWireType
     else do (u32, n) <- ConsumeFixed32 b; Ok (num_fixed32 (kindOf t) u32, n))
  else if typ =? WFixed64 then Some
    (if negb (tag_eqb tag TagFixed64) then Err EWireType
     else do (u64, n) <- ConsumeFixed64 b; Ok (num_fixed64 (kindOf t) u64, n))
  else None.

(** DecodeMapKey, decoder.go:313-410, into the variable L *)
Definition HDecodeMapKey (h : mem) (f : fdesc) (kt : gotype) (b : slice) (L : loc) : hres nat :=
  match ConsumeKVTag (rd h b) with
  | Some (1, typ) =>
      hlet b1 <- hslice_from b 1 at h;
      match scalar_num (f_ktag f) kt typ (rd h b1) with
      | Some r => hlet (o, n) <- r at h; HOk (hput h L o) (S n)
      | None =>
          if typ =? WBytes then
            match kt with
            | TString =>
                hlet (fb, n) <- HConsumeBytes h b1 at h;
                let '(h, s) := hcopy h fb in HOk (hstore h L (MStr s)) (S n)
            | _ => HErr h EWireType
            end
          else HErr h EWireType
      end
  | _ => HErr h EKVNum
  end.

Section Rec.
(** d.DecodeStruct(fb, p, s, maxdepth) *)
Variable rec : mem -> nat -> Z -> slice -> loc -> hres unit.

(** DecodeMapValue, decoder.go:414-530, into the variable L *)
Definition HDecodeMapValue (h : mem) (f : fdesc) (vt : gotype) (maxdepth : Z) (b : slice) (L : loc) : hres unit :=
  match ConsumeKVTag (rd h b) with
  | Some (2, typ) =>
      let '(h, t, L) := hmallocIfPointer h vt L in
      hlet b1 <- hslice_from b 1 at h;
      match scalar_num (f_vtag f) t typ (rd h b1) with
      | Some r => hlet (o, _) <- r at h; HOk (hput h L o) tt
      | None =>
          if typ =? WBytes then
            hlet (fb, _) <- HConsumeBytes h b1 at h;
            match t with
            | TBytes => let '(h, s) := hcopy h fb in HOk (hstore h L (MBytes (Some s))) tt
            | TString => let '(h, s) := hcopy h fb in HOk (hstore h L (MStr s)) tt
            | TStruct id => rec h id (maxdepth - 1) fb L
            | _ => HErr h EWireType
            end
          else HErr h EWireType
      end
  | _ => HErr h EKVNum
  end.

(** MapTmpVarsPool.Get, decoder.go:280 *)
Definition hget (h : mem) (x : mv * mv) : mem * htmp :=
  let '(h, ko) := halloc h (OCells [fst x]) in
  let '(h, vo) := halloc h (OCells [snd x]) in (h, (ko, vo)).

(** TmpMapVars.Reset, desc/type.go:195-199 *)
Definition htmp_reset (h : mem) (vt : gotype) (tmp : htmp) : mem :=
  match vt with TStruct id => hstore h (cell (snd tmp)) (embed (sd_zero (E id))) | _ => h end.

(** DecodeMapPair, decoder.go:532-559: the map is made if there is none; the pair is decoded
    into the temporaries and then stored in the map *)
Definition HDecodeMapPair (h : mem) (f : fdesc) (kt vt : gotype) (maxdepth : Z) (b : slice) (L : loc) (tmp : htmp)
  : hres unit :=
  let h := htmp_reset h vt tmp in
  match hload h L with
  | Some (MMap m) =>
      let h := match m with
               | Some _ => h
               | None => let '(h, o) := halloc h (OMap []) in hstore h L (MMap (Some o))
               end in
      hseq (HDecodeMapKey h f kt b (cell (fst tmp))) (fun h n =>
      hlet b1 <- hslice_from b n at h;
      hseq (HDecodeMapValue h f vt maxdepth b1 (cell (snd tmp))) (fun h _ =>
      match hload h L, hload h (cell (fst tmp)), hload h (cell (snd tmp)) with
      | Some (MMap (Some o)), Some k, Some v => HOk (set_obj h o (OMap (hmap_set h (map_of h o) k v))) tt
      | _, _, _ => HPanic
      end))
  | _ => HPanic
  end.

(** The wire type switch of DecodeStruct, decoder.go:176-301, at the location L *)
Definition hdec_value (h : mem) (f : fdesc) (t : gotype) (typ : N) (maxdepth : Z) (b : slice)
    (get : mv * mv) (tmv : option htmp) (L : loc) : hres (option htmp * nat) :=
  match scalar_num (f_tag f) t typ (rd h b) with
  | Some r => hlet (o, n) <- r at h; HOk (hput h L o) (tmv, n)
  | None =>
      if typ =? WBytes then
        hlet (fb, n) <- HConsumeBytes h b at h;
        match t with
        | TBytes => let '(h, s) := hcopy h fb in HOk (hstore h L (MBytes (Some s))) (tmv, n)
        | TString => let '(h, s) := hcopy h fb in HOk (hstore h L (MStr s)) (tmv, n)
        | TMap _ _ =>
            match f_T f with
            | TMap kt vt =>
                match getMapDecodeFunc f with
                | Some row =>
                    match hload h L with
                    | Some (MMap m) =>
                        hlet (k, v) <- DecodeMapKV row (rd h fb) at h;
                        let '(h, o) := match m with
                                       | Some o => (h, o)
                                       | None => let '(h, o) := halloc h (OMap []) in (hstore h L (MMap (Some o)), o)
                                       end in
                        HOk (set_obj h o (OMap (hmap_set h (map_of h o) (embed k) (embed v)))) (tmv, n)
                    | _ => HPanic
                    end
                | None =>
                    let '(h, tmp) := match tmv with Some x => (h, x) | None => hget h get end in
                    hseq (HDecodeMapPair h f kt vt (maxdepth - 1) fb L tmp) (fun h _ => HOk h (Some tmp, n))
                end
            | _ => HPanic
            end
        | TStruct id => hseq (rec h id (maxdepth - 1)%Z fb L) (fun h _ => HOk h (tmv, n))
        | _ => HErr h EWireType
        end
      else HErr h EWireType
  end.

(** ReallocSlice, decoder.go:561-571 *)
Definition hReallocSlice (h : mem) (te : gotype) (s : slice) (c : nat) : mem * slice :=
  if (c <=? s_cap s)%nat then (h, s)
  else let '(h', o) := halloc h (OCells (elems_of h s ++ repeat (hfresh te) (c - s_len s))) in
       (h', mkSl o 0 (s_len s) c).
(** decoder.go:163-167 *)
Definition hgrow (h : mem) (te : gotype) (s : slice) : mem * slice :=
  if Nat.eqb (s_cap s) 0 then hReallocSlice h te s 8
  else if Nat.eqb (s_len s) (s_cap s) then hReallocSlice h te s (2 * s_cap s)
  else (h, s).

(** One known field, decoder.go:129-301, L being the field of the struct *)
Definition hdec_field (h : mem) (f : fdesc) (typ : N) (maxdepth : Z) (b : slice) (get : mv * mv)
    (tmv : option htmp) (L : loc) : hres (option htmp * nat) :=
  let t := f_T f in
  let '(h, L) :=
    match f_oneof f with
    | Some w => let '(h, o) := halloc h (OCells [hfresh t]) in (hstore h L (MIface (Some (w, Some (cell o)))), cell o)
    | None => (h, L)
    end in
  let '(h, t, L) := hmallocIfPointer h t L in
  match f_rep f, t with
  | true, TSlice te =>
      if (typ =? WBytes) && f_packed f then
        match packedDecoderFuncs (packedCoder f) with
        | Some g =>
            hlet (packed, n) <- HConsumeBytes h b at h;
            hlet l <- g (rd h packed) at h;
            let '(h, o) := halloc h (OCells (map MNum l)) in
            HOk (hstore h L (MSlice (mkSl o 0 (length l) (length l)))) (tmv, n)
        | None => HPanic
        end
      else
        match hload h L with
        | Some (MSlice s) =>
            let '(h, s) := hgrow h te s in
            let h := hstore h L (MSlice (mkSl (s_arr s) (s_off s) (S (s_len s)) (s_cap s))) in
            let '(h, t, L) := hmallocIfPointer h te (elem s (s_len s)) in
            hdec_value h f t typ maxdepth b get tmv L
        | _ => HPanic
        end
  | _, _ => hdec_value h f t typ maxdepth b get tmv L
  end.
End Rec.

(** resetUnknownFields / appendToUnknownFields, decoder.go:66-88.  append writes in place when
    the capacity suffices; otherwise it copies to a larger array ([raw] is never empty). *)
Definition hresetUnknownFields (h : mem) (s : sdesc) (L : loc) : mem :=
  match hload h L with
  | Some (MStruct slots (Some u)) =>
      if sd_unknown s then hstore h L (MStruct slots (Some (mkSl (s_arr u) (s_off u) 0 (s_cap u)))) else h
  | _ => h
  end.
Definition happend (h : mem) (u : option slice) (raw : bytes) : mem * slice :=
  let u := match u with Some u => u | None => nil_slice end in
  let n := (s_len u + length raw)%nat in
  if (n <=? s_cap u)%nat
  then (write_bytes h (s_arr u) (s_off u + s_len u) raw, mkSl (s_arr u) (s_off u) n (s_cap u))
  else
    let c := Nat.max n (capf n) in
    let '(h', o) := halloc h (OBytes (rd h u ++ raw ++ repeat Byte.x00 (c - n))) in (h', mkSl o 0 n c).
Definition happendToUnknownFields (h : mem) (s : sdesc) (L : loc) (raw : bytes) : mem :=
  if sd_unknown s then
    match hload h L with
    | Some (MStruct slots u) => let '(h, u) := happend h u raw in hstore h L (MStruct slots (Some u))
    | _ => h
    end
  else h.

(** The loop decoder.go:106-303 *)
Fixpoint hdecode_loop (rec : bytes -> mem -> nat -> Z -> slice -> loc -> hres unit) (fuel : nat) (s : sdesc)
    (maxdepth : Z) (get : bytes -> fdesc -> mv * mv)
    (h : mem) (f : option fdesc) (tmv : option htmp) (L : loc) (b : slice) : hres unit :=
  match s_len b with
  | O => HOk h tt
  | S _ =>
      match fuel with
      | O => HFuel
      | S fuel' =>
          hlet (num, typ, n) <- ConsumeTag (rd h b) at h;
          hlet b1 <- hslice_from b n at h;
          let cached := match f with Some f0 => if (f_id f0 =? Z.of_N num)%Z then Some f0 else None | None => None end in
          let hit := match cached with Some _ => true | None => false end in
          let tmv := if hit then tmv else None in
          match (if hit then Some cached else GetField s (Z.of_N num)) with
          | None => HPanic
          | Some None =>
              hlet m <- ConsumeFieldValue num typ (rd h b1) at h;
              hlet b2 <- hslice_from b1 m at h;
              hlet raw <- slice_to (rd h b) (n + m) at h;
              hdecode_loop rec fuel' s maxdepth get (happendToUnknownFields h s L raw) None tmv L b2
          | Some (Some f) =>
              match hload h (slot L (f_slot f)) with
              | None => HPanic
              | Some _ =>
                  hseq (hdec_field (rec (rd h b)) h f typ maxdepth b1 (get (rd h b) f) tmv (slot L (f_slot f)))
                    (fun h '(tmv', m) =>
                     hlet b2 <- hslice_from b1 m at h;
                     hdecode_loop rec fuel' s maxdepth get h (Some f) tmv' L b2)
              end
          end
      end
  end.

(** DecodeStruct, decoder.go:90-308 *)
Fixpoint HDecodeStruct (fuel : nat) (path : list bytes) (P : hpool) (h : mem) (id : nat) (maxdepth : Z) (b : slice) (L : loc)
  : hres unit :=
  match fuel with
  | O => HFuel
  | S fuel' =>
      if (maxdepth =? 0)%Z then HErr h EMaxDepth
      else
        match hload h L with
        | Some (MStruct _ _) =>
            let s := E id in
            hdecode_loop (fun rest => HDecodeStruct fuel' (rest :: path) P)
              (s_len b) s maxdepth (fun rest f => P (rest :: path) f)
              (hresetUnknownFields h s L) None None L b
        | _ => HPanic
        end
  end.

(** Unmarshal, internal/prutal/prutal.go:73-87, with a pointer to the struct at L *)
Definition HUnmarshal (P : hpool) (h : mem) (b : slice) (id : nat) (L : loc) : hres unit :=
  HDecodeStruct (S (s_len b)) [] P h id (Z.of_nat defaultRecursionMaxDepth) b L.
End HDecoder.
