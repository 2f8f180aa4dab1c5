(** Model of internal/prutal/encoder.go and the appending functions of internal/wire on memory
    (HMem.v): the same functions as Encoder.v and WireVal.v, but the buffer is a slice of a byte
    array in the memory that also holds the message, and every append writes to that array or
    moves to a new one.

    Simplifications: as in Encoder.v; several bytes appended by one statement are one write; the
    cells of a list, a map or a struct are read when its loop starts (the encoder writes bytes,
    and cells are not in byte arrays), while the bytes of strings, []byte and unknown fields
    are read when they are appended.  The capacity that append chooses comes from an oracle. *)
From Verif Require Import Base Wire Coder MapTables Value WireVal Desc Encoder HMem HDecoder.
From Coq Require Import Init.Byte.
Open Scope N_scope.

Section HEncoder.
Variable E : env.
Variable capf : nat -> nat.

(** append(b, raw...) *)
Definition put (h : mem) (b : slice) (raw : bytes) : mem * slice :=
  match raw with [] => (h, b) | _ => happend capf h (Some b) raw end.
Definition hret (p : mem * slice) : hres slice := HOk (fst p) (snd p).

(** What is appended for the content of a location *)
Definition hfn := mem -> slice -> mv -> hres slice.
(** The number functions of wire/encoder.go and encoder_list.go: one append *)
Definition hnum (g : bytes -> N -> bytes) : hfn := fun h b x =>
  match x with MNum n => hret (put h b (g [] n)) | _ => HPanic end.
(** A string or []byte through its header *)
Definition hbytes (x : mv) : option slice :=
  match x with MStr s => Some s | MBytes (Some s) => Some s | MBytes None => Some nil_slice | _ => None end.
(** UnsafeAppendString = UnsafeAppendBytes, wire/encoder.go:355-361: the length, then the bytes *)
Definition hstr : hfn := fun h b x =>
  match hbytes x with
  | Some s => let '(h, b) := put h b (AppendVarint [] (N.of_nat (s_len s))) in hret (put h b (rd h s))
  | None => HPanic
  end.

(** LenReserve, wire/encoder.go:387-389 *)
Definition hLenReserve (h : mem) (b : slice) : mem * slice := put h b [x00].
(** LenPack, lenPackSlow, wire/encoder.go:391-410: in place, after m-1 more bytes have been
    appended *)
Definition hLenPack (h : mem) (b : slice) (sz : nat) : mem * slice :=
  if N.of_nat sz <? 128
  then (write_bytes h (s_arr b) (s_off b + (s_len b - 1 - sz)) [n2b (N.of_nat sz)], b)
  else
    let m := N.to_nat (SizeVarint (N.of_nat sz)) in
    let '(h, b) := put h b (repeat x00 (m - 1)) in
    let pos := (s_len b - sz - m)%nat in
    let n := Nat.min (s_len b - (pos + m)) (s_len b - (pos + 1)) in
    let h := write_bytes h (s_arr b) (s_off b + (pos + m)) (firstn n (skipn (pos + 1) (rd h b))) in
    (write_bytes h (s_arr b) (s_off b + pos) (pw_AppendVarint [] (N.of_nat sz)), b).

(** appendFuncs, wire/encoder.go:29-40 *)
Definition happendFuncs (c : coder) : option hfn :=
  match c with
  | CVarintU32 => Some (hnum UnsafeAppendVarintU32)
  | CVarintI32 => Some (hnum UnsafeAppendVarintI32)
  | CVarint64 => Some (hnum UnsafeAppendVarintU64)
  | CZigZag32 => Some (hnum UnsafeAppendZigZag32)
  | CZigZag64 => Some (hnum UnsafeAppendZigZag64)
  | CFixed32 => Some (hnum UnsafeAppendFixed32)
  | CFixed64 => Some (hnum UnsafeAppendFixed64)
  | CString => Some hstr
  | CBytes => Some hstr
  | CBool => Some (hnum UnsafeAppendBool)
  | CStruct | CUnknown => None
  end.

(** The elements of a slice and the entries of a map *)
Definition helems (h : mem) (x : mv) : res (list mv) :=
  match x with MSlice s => Ok (elems_of h s) | _ => Panic end.
Definition hentries (h : mem) (x : mv) : res (list (mv * mv)) :=
  match x with MMap (Some o) => Ok (map_of h o) | MMap None => Ok [] | _ => Panic end.

(** The loops over the elements, wire/encoder_packed.go and encoder_list.go; [pre] is appended
    before each (the tag of an unpacked list) *)
Fixpoint hloop (pre : bytes) (hg : hfn) (h : mem) (b : slice) (l : list mv) : hres slice :=
  match l with
  | [] => HOk h b
  | x :: r => let '(h, b) := put h b pre in hseq (hg h b x) (fun h b => hloop pre hg h b r)
  end.

(** UnsafeAppendPackedVarint*, UnsafeAppendPackedZigZag*, encoder_packed.go:33-104 *)
Definition hpacked_lenpack (g : N -> N) : hfn := fun h b x =>
  hlet l <- helems h x at h;
  let '(h, b0) := hLenReserve h b in
  hseq (hloop [] (hnum (fun b n => AppendVarint b (g n))) h b0 l) (fun h b1 =>
  hret (hLenPack h b1 (s_len b1 - s_len b0))).
(** UnsafeAppendPackedFixed64/32/Bool, encoder_packed.go:106-138 *)
Definition hpacked_fixed (w : N) (g : bytes -> N -> bytes) : hfn := fun h b x =>
  hlet l <- helems h x at h;
  let '(h, b) := put h b (AppendVarint [] (w * blen l)) in hloop [] (hnum g) h b l.

(** appendPackedFuncs, encoder_packed.go:21-30 *)
Definition happendPackedFuncs (c : coder) : option hfn :=
  match c with
  | CVarintU32 => Some (hpacked_lenpack (fun n => n))
  | CVarintI32 => Some (hpacked_lenpack sext32)
  | CVarint64 => Some (hpacked_lenpack (fun n => n))
  | CZigZag32 => Some (hpacked_lenpack zz32)
  | CZigZag64 => Some (hpacked_lenpack zz64)
  | CFixed32 => Some (hpacked_fixed 4 (fun b n => b ++ fixed32_bytes n))
  | CFixed64 => Some (hpacked_fixed 8 (fun b n => b ++ fixed64_bytes n))
  | CBool => Some (hpacked_fixed 1 (fun b n => b ++ [n2b n]))
  | _ => None
  end.
(** GetAppendFunc, wire/encoder.go:44-49 *)
Definition hGetAppendFunc (c : coder) (packed : bool) : option hfn :=
  if packed then happendPackedFuncs c else happendFuncs c.

(** encoder_list.go:23-158 *)
Definition hlist (hg : hfn) (h : mem) (b : slice) (tag : N) (x : mv) : hres slice :=
  hlet l <- helems h x at h; hloop (AppendVarintSmall [] tag) hg h b l.
Definition happendListFuncs (c : coder) : option (mem -> slice -> N -> mv -> hres slice) :=
  match c with
  | CVarintU32 => Some (hlist (hnum (fun b v => AppendVarint b v)))
  | CVarintI32 => Some (hlist (hnum (fun b x => AppendVarint b (sext32 x))))
  | CVarint64 => Some (hlist (hnum (fun b v => AppendVarint b v)))
  | CZigZag32 => Some (hlist (hnum (fun b x => AppendVarint b (zz32 x))))
  | CZigZag64 => Some (hlist (hnum (fun b x => AppendVarint b (zz64 x))))
  | CFixed32 => Some (hlist (hnum (fun b v => b ++ fixed32_bytes v)))
  | CFixed64 => Some (hlist (hnum (fun b v => b ++ fixed64_bytes v)))
  | CBool => Some (hlist (hnum (fun b v => b ++ [n2b v])))
  | CBytes => Some (hlist hstr)
  | CString => Some (hlist hstr)
  | CStruct | CUnknown => None
  end.

(** appendMapKey_*, appendMapValue_*, encoder_map.go:123-275 *)
Definition hmap_payload (m : mapenc) : hfn :=
  match m with
  | MVarintU32 => hnum AppendVarint
  | MVarintU64 => hnum AppendVarint
  | MZigZag32 => hnum (fun b n => AppendVarint b (zz32 n))
  | MZigZag64 => hnum (fun b n => AppendVarint b (zz64 n))
  | MFixed32 => hnum (fun b n => b ++ fixed32_bytes n)
  | MFixed64 => hnum (fun b n => b ++ fixed64_bytes n)
  | MBool => hnum (fun b n => b ++ [if n =? 0 then x00 else x01])
  | Coder.MBytes | Coder.MString => hstr
  end.
Definition hmap_part (num : N) (m : mapenc) : hfn := fun h b x =>
  let '(h, b) := put h b [n2b (N.lor (N.shiftl num 3) (mapenc_wt m))] in hmap_payload m h b x.

(** One map record: encoder.go:221-245, 253-271, 278-296, 304-321, wire/encoder_map.go:278-1237;
    [kf] and [vf] append key and value with their tags *)
Definition hmap_entry (tag : N) (kf vf : hfn) (h : mem) (b : slice) (k v : mv) : hres slice :=
  let '(h, b) := put h b (AppendVarintSmall [] tag) in
  let '(h, b0) := hLenReserve h b in
  hseq (kf h b0 k) (fun h b1 => hseq (vf h b1 v) (fun h b2 => hret (hLenPack h b2 (s_len b2 - s_len b0)))).
Fixpoint hmap_loop (tag : N) (kf vf : hfn) (h : mem) (b : slice) (m : list (mv * mv)) : hres slice :=
  match m with
  | [] => HOk h b
  | (k, v) :: r => hseq (hmap_entry tag kf vf h b k v) (fun h b => hmap_loop tag kf vf h b r)
  end.
(** The 72 AppendMap_K_V functions *)
Definition hAppendMap (row : mapenc * mapenc) (h : mem) (b : slice) (tag : N) (x : mv) : hres slice :=
  hlet m <- hentries h x at h; hmap_loop tag (hmap_part 1 (fst row)) (hmap_part 2 (snd row)) h b m.

(** encoder.go:58-67 *)
Definition honeof_data (h : mem) (f : fdesc) (x : mv) : res (option mv) :=
  match f_oneof f with
  | None => Ok (Some x)
  | Some w =>
      match x with
      | MIface None => Ok None
      | MIface (Some (_, None)) => Ok None
      | MIface (Some (w', Some L)) =>
          if Nat.eqb w' w then match hload h L with Some y => Ok (Some y) | None => Panic end else Ok None
      | _ => Panic
      end
  end.

(** encoder.go:70-80: all bytes of the location are zero; Len of the header *)
Fixpoint hraw_zero (x : mv) : bool :=
  match x with
  | MUninit => false
  | MNum n => n =? 0
  | MStr s => Nat.eqb (s_len s) 0
  | MBytes s => match s with None => true | _ => false end
  | MPtr p => match p with None => true | _ => false end
  | MSlice s => Nat.eqb (s_len s) 0 && Nat.eqb (s_cap s) 0
  | MMap m => match m with None => true | _ => false end
  | MStruct l u => forallb hraw_zero l && match u with None => true | _ => false end
  | MIface i => match i with None => true | _ => false end
  end.
Definition hslice_len (x : mv) : option nat :=
  match x with
  | MStr s => Some (s_len s)
  | MBytes s => Some (match s with None => O | Some s => s_len s end)
  | MSlice s => Some (s_len s)
  | _ => None
  end.
Definition hskipzero (t : gotype) (x : mv) : res bool :=
  let sz := tsize E t in
  if (sz =? 8) || (sz =? 4) || (sz =? 1) then Ok (hraw_zero x)
  else if SliceLike t then
    match hslice_len x with Some n => Ok (Nat.eqb n 0) | None => Panic end
  else Ok false.

(** encoder.go:85-88 *)
Definition hpointee (h : mem) (x : mv) : res (option mv) :=
  match x with
  | MPtr None => Ok None
  | MPtr (Some L) => match hload h L with Some y => Ok (Some y) | None => Panic end
  | _ => Panic
  end.
Definition hderef (h : mem) (t : gotype) (x : mv) : res (gotype * option mv) :=
  match t with
  | TPtr t' => do p <- hpointee h x; Ok (t', p)
  | _ => Ok (t, Some x)
  end.
Definition hmust (p : option mv) : res mv := match p with Some x => Ok x | None => Panic end.
(** encoder.go:161-167,176-179,235-239 *)
Definition hstruct_elem (h : mem) (t : gotype) (x : mv) : res (nat * option mv) :=
  match t with
  | TStruct id => Ok (id, Some x)
  | TPtr (TStruct id) => do p <- hpointee h x; Ok (id, p)
  | _ => Panic
  end.

Section Rec.
(** e.AppendStruct(b, base, s, true, maxdepth-1) *)
Variable rec : nat -> mem -> slice -> option mv -> hres slice.

(** The message that an element or map value is or points to *)
Definition hstruct_value (vt : gotype) : hfn := fun h b x =>
  hlet (id, base) <- hstruct_elem h vt x at h; rec id h b base.

(** AppendListField, encoder.go:157-186.  The tag is appended after the element's type has been
    looked at; see [hloop]. *)
Definition hAppendListField (f : fdesc) (h : mem) (b : slice) (x : mv) : hres slice :=
  match f_T f with
  | TSlice vt => hlet l <- helems h x at h; hloop (AppendVarintSmall [] (WireTag f)) (hstruct_value vt) h b l
  | _ => HPanic
  end.

(** AppendKeyTag, AppendValTag and the function for the key or value *)
Definition htagged (raw : bytes) (hg : hfn) : hfn := fun h b x => let '(h, b) := put h b raw in hg h b x.
Definition hopt_fn (o : option hfn) : hfn := match o with Some g => g | None => fun _ _ _ => HPanic end.
Definition hmap_with (f : fdesc) (kf vf : hfn) (h : mem) (b : slice) (x : mv) : hres slice :=
  hlet m <- hentries h x at h;
  hmap_loop (WireTag f) (htagged (AppendKeyTag [] (wireTypes (f_ktag f))) kf)
    (htagged (AppendValTag [] (wireTypes (f_vtag f))) vf) h b m.

(** The reflective loop of AppendMapField, encoder.go:215-248 *)
Definition hAppendMapGeneric (f : fdesc) (h : mem) (b : slice) (x : mv) : hres slice :=
  match f_T f with
  | TMap kt vt =>
      hmap_with f (hopt_fn (hGetAppendFunc (keyCoder f) false))
        (match hGetAppendFunc (valCoder f) false with Some g => g | None => hstruct_value vt end) h b x
  | _ => HPanic
  end.
(** AppendMapField, encoder.go:191-249, and its variants 251-324 *)
Definition hAppendMapField (f : fdesc) (h : mem) (b : slice) (x : mv) : hres slice :=
  match f_T f with
  | TMap kt vt =>
      match hGetAppendFunc (valCoder f) false, IsPointer vt with
      | None, true =>
          match kindOf kt with
          | RScalar (Int64 | Uint64) | RScalar (Int32 | Uint32) =>
              hmap_with f (hopt_fn (hGetAppendFunc (keyCoder f) false)) (hstruct_value vt) h b x
          | RString => hmap_with f hstr (hstruct_value vt) h b x
          | _ => hAppendMapGeneric f h b x
          end
      | _, _ => hAppendMapGeneric f h b x
      end
  | _ => HPanic
  end.

(** The body of the field loop, encoder.go:54-145 *)
Definition happend_field (f : fdesc) (h : mem) (b : slice) (slot : mv) : hres slice :=
  hlet data <- honeof_data h f slot at h;
  match data with
  | None => HOk h b
  | Some v =>
      let t := f_T f in
      hlet skip <- hskipzero t v at h;
      if skip then HOk h b
      else
        hlet (t, p) <- hderef h t v at h;
        match f_rep f, hGetAppendFunc (fieldCoder f) (f_packed f) with
        | false, Some g =>
            hlet x <- hmust p at h; htagged (AppendVarintSmall [] (WireTag f)) g h b x
        | _, AppendFunc =>
            if IsList f then
              if f_packed f then
                match AppendFunc with
                | Some g => hlet x <- hmust p at h; htagged (AppendVarintSmall [] (WireTag f)) g h b x
                | None => HPanic
                end
              else
                match happendListFuncs (fieldCoder f) with
                | Some g => hlet x <- hmust p at h; g h b (WireTag f) x
                | None => hlet x <- hmust p at h; hAppendListField f h b x
                end
            else if IsMap f then
              match getAppendMapFunc f with
              | Some row => hlet x <- hmust p at h; hAppendMap row h b (WireTag f) x
              | None => hlet x <- hmust p at h; hAppendMapField f h b x
              end
            else
              match t with
              | TStruct id => let '(h, b) := put h b (AppendVarintSmall [] (WireTag f)) in rec id h b p
              | _ => HPanic
              end
        end
  end.

Fixpoint happend_fields (fs : list fdesc) (h : mem) (b : slice) (slots : list mv) : hres slice :=
  match fs with
  | [] => HOk h b
  | f :: r =>
      match nth_error slots (f_slot f) with
      | Some x => hseq (happend_field f h b x) (fun h b => happend_fields r h b slots)
      | None => HPanic
      end
  end.
End Rec.

(** appendUnknownFields, encoder.go:326-339 *)
Definition hAppendUnknown (h : mem) (b : slice) (u : option slice) : mem * slice :=
  match u with Some s => put h b (rd h s) | None => (h, b) end.

(** AppendStruct, encoder.go:42-155 *)
Fixpoint hAppendStruct (d : nat) (id : nat) (h : mem) (b : slice) (base : option mv) (encodeLen : bool) : hres slice :=
  match d with
  | O => HErr h EMaxDepth
  | S d' =>
      let s := E id in
      match match base with Some x => x | None => embed (sd_zero s) end with
      | MStruct slots u =>
          let '(h, b0) := if encodeLen then hLenReserve h b else (h, b) in
          hseq (happend_fields (fun id h b base => hAppendStruct d' id h b base true) (sd_fields s) h b0 slots) (fun h b1 =>
          let '(h, b2) := if sd_unknown s then hAppendUnknown h b1 u else (h, b1) in
          hret (if encodeLen then hLenPack h b2 (s_len b2 - s_len b0) else (h, b2)))
      | _ => HPanic
      end
  end.

(** MarshalAppend, internal/prutal/prutal.go:29-47, with a pointer (maybe nil) to a struct;
    Marshal, prutal.go:27-30: an empty buffer *)
Definition HMarshalAppend (h : mem) (b : slice) (id : nat) (p : option loc) : hres slice :=
  match p with
  | None => hAppendStruct defaultRecursionMaxDepth id h b None false
  | Some L =>
      match hload h L with
      | Some x => hAppendStruct defaultRecursionMaxDepth id h b (Some x) false
      | None => HPanic
      end
  end.
Definition HMarshal (h : mem) (id : nat) (p : option loc) : hres slice := HMarshalAppend h nil_slice id p.
End HEncoder.
