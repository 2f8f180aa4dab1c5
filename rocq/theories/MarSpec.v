(** What a user may assume about the memory around MarshalAppend. *)
From Verif Require Import Base Value HMem OwnSpec.
Open Scope nat_scope.

(** A []byte that may be appended to: nil or empty without capacity, or a slice of an existing
    byte array. *)
Definition buffer (h : mem) (b : slice) : Prop :=
  s_len b <= s_cap b /\
  (s_cap b = 0 \/ s_arr b < next h /\ exists l, objs h (s_arr b) = OBytes l /\ s_off b + s_cap b <= length l).

(** The bytes of [s] are existing ones, and none of them is one of the bytes of the array of [b]
    from index [lo] of [b] up to its capacity. *)
Definition clear (h : mem) (lo : nat) (b s : slice) : Prop :=
  s_len s = 0 \/
  s_arr s < next h /\ s_off s + s_len s <= length (bytes_of h (s_arr s)) /\
  (s_arr s <> s_arr b \/ forall i, s_off s <= i < s_off s + s_len s -> s_off b + lo <= i < s_off b + s_cap b -> False).

(** [sees h P x v]: the content [x] denotes the Go value [v]; it refers to existing variables,
    arrays and maps, in any way shared; its strings, []bytes and unknown fields all satisfy [P]. *)
Section Sees.
Variable h : mem.
Variable P : slice -> Prop.
Inductive sees_unknown : option slice -> option bytes -> Prop :=
| sees_unk0 : sees_unknown None None
| sees_unk : forall u, P u -> sees_unknown (Some u) (Some (rd h u)).
Inductive sees : mv -> val -> Prop :=
| sees_uninit : sees MUninit VUninit
| sees_num : forall n, sees (MNum n) (VNum n)
| sees_str : forall s, P s -> sees (MStr s) (VStr (rd h s))
| sees_nobytes : sees (MBytes None) (VBytes None)
| sees_bytes : forall s, P s -> sees (MBytes (Some s)) (VBytes (Some (rd h s)))
| sees_noptr : sees (MPtr None) (VPtr None)
| sees_ptr : forall L x v, l_obj L < next h -> hload h L = Some x -> sees x v -> sees (MPtr (Some L)) (VPtr (Some v))
| sees_noslice : forall s, s_len s = 0 -> s_cap s = 0 -> sees (MSlice s) (VSlice [] [])
| sees_slice : forall s xs ys es sp, 0 < s_cap s -> s_arr s < next h -> has_cells h s xs ys ->
    sees_all xs es -> sees_all ys sp -> sees (MSlice s) (VSlice es sp)
| sees_nomap : sees (MMap None) (VMap None)
| sees_map : forall o ents m, o < next h -> objs h o = OMap ents -> sees_entries ents m -> sees (MMap (Some o)) (VMap (Some m))
| sees_struct : forall xs vs u ub, sees_all xs vs -> sees_unknown u ub -> sees (MStruct xs u) (VStruct vs ub)
| sees_noiface : sees (MIface None) (VIface None)
| sees_iface0 : forall w, sees (MIface (Some (w, None))) (VIface (Some (w, None)))
| sees_iface : forall w L x v, l_obj L < next h -> hload h L = Some x -> sees x v ->
    sees (MIface (Some (w, Some L))) (VIface (Some (w, Some v)))
with sees_all : list mv -> list val -> Prop :=
| sees_nil : sees_all [] []
| sees_cons : forall x v xs vs, sees x v -> sees_all xs vs -> sees_all (x :: xs) (v :: vs)
with sees_entries : list (mv * mv) -> list (val * val) -> Prop :=
| sees_nil2 : sees_entries [] []
| sees_cons2 : forall k k' x v xs vs, sees k k' -> sees x v -> sees_entries xs vs ->
    sees_entries ((k, x) :: xs) ((k', v) :: vs).
End Sees.

(** The message at [L] is [v], and nothing of it lies in the spare capacity of [b]. *)
Definition message_clear (h : mem) (b : slice) (L : loc) (v : val) : Prop :=
  l_obj L < next h /\ exists x, hload h L = Some x /\ sees h (clear h (s_len b) b) x v.

(** From [h] to [h'], with the buffer [b] becoming [b']: everything that existed is as it was, but
    for the bytes of the array of [b] from index [lo] of [b] up to its capacity.  The new
    buffer starts where the old one does or in new memory, is not shorter, and its first [lo]
    bytes are those of the old one. *)
Record wrote (lo : nat) (h : mem) (b : slice) (h' : mem) (b' : slice) : Prop := {
  w_next : next h <= next h';
  w_old : forall o, o < next h -> o <> s_arr b \/ s_cap b = 0 -> objs h' o = objs h o;
  w_buf : forall l, 0 < s_cap b -> objs h (s_arr b) = OBytes l -> exists l', objs h' (s_arr b) = OBytes l' /\ length l' = length l /\
    forall i, ~ (s_off b + lo <= i < s_off b + s_cap b) -> nth_error l' i = nth_error l i;
  w_where : s_arr b' = s_arr b /\ s_off b' = s_off b /\ s_cap b' = s_cap b \/ next h <= s_arr b' /\ 0 < s_cap b';
  w_ok : buffer h' b';
  w_len : s_len b <= s_len b';
  w_prefix : firstn lo (rd h' b') = firstn lo (rd h b)
}.

(** The bytes of [s] exist. *)
Definition valid_bytes (h : mem) (s : slice) : Prop :=
  s_len s = 0 \/ s_arr s < next h /\ s_off s + s_len s <= length (bytes_of h (s_arr s)).
