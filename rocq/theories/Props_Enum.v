(** Property theorems about the Go declarations of enums and the identifiers of a file. *)
From Coq Require Import Strings.String Init.Byte Lia.
From Verif Require Import Base GoStr GenField GenNames NameSpec Verify GenEnum EnumSpec EnumProofs GenPkg PkgSpec PkgProofs.
Import StringSyntax.
Open Scope N_scope.

(** C62.  [EnumGen e] are the declarations, [call_String] runs the method String of the type,
    [read_values] is the map variable from names to numbers. *)
Theorem C62_strings : forall e x, genMapping e = true -> int32 x ->
  exists s, call_String (EnumGen e) (enum_GoName e) x = Some s /\
    (has_number (en_values e) x -> first_name (en_values e) x s) /\
    (~ has_number (en_values e) x -> decimal s x).
Proof. exact strings. Qed.
Print Assumptions C62_strings.
Theorem C62_values : forall e, genMapping e = true -> NoDup (map ev_name (en_values e)) ->
  exists l, read_values (EnumGen e) (enum_GoName e ++ bs "_value") = Some l /\
    (forall n x, lookup str_eqb l n = Some x <-> exists f, In f (en_values e) /\ ev_name f = n /\ ev_value f = x) /\
    (forall x, int32 x -> has_number (en_values e) x ->
       exists s, call_String (EnumGen e) (enum_GoName e) x = Some s /\ lookup str_eqb l s = Some x).
Proof.
  intros e M ND. exists (value_entries (en_values e)). split; [now apply values_read|]. split; [now apply lookup_values|]. intros x I H. now apply inverse.
Qed.
Print Assumptions C62_values.
(** The constants: exactly one per value, with its number and the enum's type; and there are no
    maps and no String if the mapping is switched off. *)
Theorem C62_constants : forall e,
  (forall n t v, In (DConst n t v) (EnumGen e) <->
     t = enum_GoName e /\ exists f, In f (en_values e) /\ n = value_GoName e f /\ v = ev_value f) /\
  (genMapping e = false -> forall d, In d (EnumGen e) -> d = DType (enum_GoName e) \/ exists n v, d = DConst n (enum_GoName e) v).
Proof.
  intros e. split.
  - intros n t v. unfold EnumGen. cbn [In]. rewrite in_app_iff, in_map_iff. split.
    + intros [H|[(f & H & Hf)|H]]; [discriminate|injection H as <- <- <-; eauto|]. destruct (genMapping e); [|destruct H]. destruct H as [H|[H|[H|[]]]]; discriminate.
    + intros (-> & f & Hf & -> & ->). right. left. eauto.
  - intros M d. unfold EnumGen. rewrite M. cbn [In]. rewrite in_app_iff, in_map_iff. intros [<-|[(f & <- & Hf)|[]]]; [now left|right; eauto].
Qed.
Print Assumptions C62_constants.
(** The name of a value's constant: camel-cased without prefix if the user asks for it, and
    else the value's own name after the Go name of the enum, or of the message it is in.
    Maps and String are left out exactly if the user asks. *)
Theorem C62_names : forall e,
  (forall f, asks_no_prefix e f -> value_GoName e f = GoCamelCase (ev_name f)) /\
  (forall f, ~ asks_no_prefix e f -> forall m, en_msg e = Some m -> value_GoName e f = m ++ bs "_" ++ ev_name f) /\
  (forall f, ~ asks_no_prefix e f -> en_msg e = None -> value_GoName e f = enum_GoName e ++ bs "_" ++ ev_name f) /\
  (genMapping e = false <-> asks_no_mapping e).
Proof.
  intro e. unfold value_GoName. split; [|split; [|split]].
  - intros f H. apply genNoPrefix_asked in H. now rewrite H.
  - intros f H m M. rewrite <- genNoPrefix_asked in H. destruct (genNoPrefix e f); [now destruct H|now rewrite M].
  - intros f H M. rewrite <- genNoPrefix_asked in H. destruct (genNoPrefix e f); [now destruct H|now rewrite M].
  - apply genMapping_asked.
Qed.
Print Assumptions C62_names.
Example C62_names_ex :
  asks_no_prefix (mkEN [bs "E"] None [] [] [] [] [(bs "(gogoproto.goproto_enum_prefix_all)", bs "false")]) (mkEV (bs "my_val") 0 []) /\
  value_GoName (mkEN [bs "E"] None [] [] [] [] [(bs "(gogoproto.goproto_enum_prefix_all)", bs "false")]) (mkEV (bs "my_val") 0 []) = bs "MyVal" /\
  ~ asks_no_prefix (mkEN [bs "E"] None [] [] [(bs "(gogoproto.goproto_enum_prefix)", bs "true")] [] [(bs "(gogoproto.goproto_enum_prefix_all)", bs "false")]) (mkEV (bs "my_val") 0 []) /\
  asks_no_mapping (mkEN [bs "E"] None [] [bs "no_enum_mapping"] [] [] []).
Proof.
  split; [apply genNoPrefix_asked; reflexivity|]. split; [reflexivity|]. split; [rewrite <- genNoPrefix_asked; discriminate|]. left. left. reflexivity.
Qed.
(** The declarations compile: identifiers and map keys differ, if the enum's value names do and
    constants are prefixed and none is the type or a map. *)
Theorem C62_compiles_partial : forall e, NoDup (map ev_name (en_values e)) ->
  (forall f, In f (en_values e) -> genNoPrefix e f = false) ->
  (forall f, In f (en_values e) -> ~ In (value_GoName e f) [enum_GoName e; enum_GoName e ++ bs "_name"; enum_GoName e ++ bs "_value"]) ->
  compiles (EnumGen e).
Proof. exact compile. Qed.
Print Assumptions C62_compiles_partial.
Definition e_color : genum :=
  mkEN [bs "Outer"; bs "Color"] (Some (bs "Outer"))
       [mkEV (bs "RED") 0 []; mkEV (bs "GREEN") 7 []; mkEV (bs "VERDE") 7 []; mkEV (bs "NONE") (-1) []] [] [] [] [].
Example C62_ex : genMapping e_color = true /\ NoDup (map ev_name (en_values e_color)) /\ has_number (en_values e_color) 7 /\
  map (call_String (EnumGen e_color) (bs "Outer_Color")) [7; -1; 8; -2147483648]%Z =
    [Some (bs "GREEN"); Some (bs "NONE"); Some (bs "8"); Some (bs "-2147483648")] /\
  option_map (fun l => lookup str_eqb l (bs "VERDE")) (read_values (EnumGen e_color) (bs "Outer_Color_value")) = Some (Some 7%Z) /\
  In (DConst (bs "Outer_VERDE") (bs "Outer_Color") 7) (EnumGen e_color) /\
  (forall f, In f (en_values e_color) -> genNoPrefix e_color f = false /\
     ~ In (value_GoName e_color f) [enum_GoName e_color; enum_GoName e_color ++ bs "_name"; enum_GoName e_color ++ bs "_value"]).
Proof.
  split; [reflexivity|]. split; [repeat constructor; cbn; intuition discriminate|]. split; [eexists; split; [right; left; reflexivity|reflexivity]|].
  split; [vm_compute; reflexivity|]. split; [vm_compute; reflexivity|]. split; [vm_compute; auto|].
  intros f [<-|[<-|[<-|[<-|[]]]]]; (split; [reflexivity|vm_compute; intuition discriminate]).
Qed.

(** C63.  The declarations of a file, as a list; [full_names] are the names it declares,
    [idents] the package-level identifiers of the Go code. *)

(** False of the code: the names of a legal file can become the same identifier.
    - enum A { B_C } and enum A_B { C }: both constants are A_B_C
    - enum E { name }: the constant and the map are E_name
    - message M { enum E { X } oneof o { int32 x } }: the constant and the wrapper are M_X
    - message A { message B {} } message A_B {}: both types are A_B *)
Definition ev (s : bytes) (n : Z) : evalue := mkEV s n [].
Definition ee (p : list bytes) (l : list evalue) : fdecl :=
  FEnum (mkEN p (match p with [_] => None | _ => Some (go_path (removelast p)) end) l [] [] [] []).
Definition mwrappers : list bytes :=
  let m := mkPM [mkPF (bs "x") None (PScalar PInt32) 1 false false false [] [] (Some 0%nat)] [bs "o"] in
  match resolveFieldConflicts m with
  | Some names => match wrapper_names [bs "M_E"] (bs "M") (pm_fields m) names with Some ws => ws | None => [] end
  | None => []
  end.
Definition clash (ds : list fdecl) (s : bytes) : Prop :=
  NoDup (flat_map full_names ds) /\ parents_declared ds /\ (count_occ (list_eq_dec Byte.byte_eq_dec) (flat_map idents ds) s >= 2)%nat.
Lemma nodup_dec : forall A (dec : forall a b : A, {a = b} + {a <> b}) l, nodup dec l = l -> NoDup l.
Proof. intros A dec l <-. apply NoDup_nodup. Qed.
Ltac clash_tac := split; [apply (nodup_dec _ (list_eq_dec (list_eq_dec Byte.byte_eq_dec))); vm_compute; reflexivity|split;
  [intros d H; cbn in H; repeat (destruct H as [<-|H]; [first [left; reflexivity|right; eexists; cbn; auto]|]); destruct H|vm_compute; repeat constructor]].
Theorem C63_refuted :
  clash [ee [bs "A"] [ev (bs "B_C") 0]; ee [bs "A_B"] [ev (bs "C") 0]] (bs "A_B_C") /\
  clash [ee [bs "E"] [ev (bs "name") 0]] (bs "E_name") /\
  clash [FMsg [bs "M"] mwrappers; ee [bs "M"; bs "E"] [ev (bs "X") 0]] (bs "M_X") /\
  clash [FMsg [bs "A"] []; FMsg [bs "A"; bs "B"] []; FMsg [bs "A_B"] []] (bs "A_B").
Proof. split; [clash_tac|split; [clash_tac|split; clash_tac]]. Qed.
Print Assumptions C63_refuted.

(** Proved: if the names follow the usual style (types in CamelCase, values in UPPER_CASE,
    oneof fields with a lower case letter in their Go name) and constants are prefixed, the
    identifiers of a legal file differ. *)
Theorem C63_style_partial : forall ds,
  NoDup (flat_map full_names ds) -> parents_declared ds ->
  (forall d, In d ds -> decl_style (map path_of ds) d) ->
  NoDup (flat_map idents ds).
Proof. intros ds ND P S. now apply file_idents. Qed.
Print Assumptions C63_style_partial.

Definition ds_ex : list fdecl :=
  [FMsg [bs "Outer"] [bs "Outer_Inner_"; bs "Outer_NameValue"]; ee [bs "Outer"; bs "Kind"] [ev (bs "A_B") 0; ev (bs "C2") 1];
   FMsg [bs "Outer"; bs "Inner"] []; ee [bs "Kind"] [ev (bs "A_B") 0]].
Example C63_ex : NoDup (flat_map full_names ds_ex) /\ parents_declared ds_ex /\
  (forall d, In d ds_ex -> decl_style (map path_of ds_ex) d) /\
  flat_map idents ds_ex = map bs ["Outer"; "Outer_Inner_"; "Outer_NameValue"; "Outer_Kind"; "Outer_A_B"; "Outer_C2"; "Outer_Kind_name"; "Outer_Kind_value";
    "Outer_Inner"; "Kind"; "Kind_A_B"; "Kind_name"; "Kind_value"]%string.
Proof.
  split; [apply (nodup_dec _ (list_eq_dec (list_eq_dec Byte.byte_eq_dec))); vm_compute; reflexivity|].
  split; [intros d H; cbn in H; repeat (destruct H as [<-|H]; [first [left; reflexivity|right; eexists; cbn; auto]|]); destruct H|].
  split; [|vm_compute; reflexivity].
  assert (TO : type_style (bs "Outer")) by (split; [eexists _, _; split; [reflexivity|split; [reflexivity|cbn; intuition]]|exists x65; split; [cbn; tauto|reflexivity]]).
  assert (TK : type_style (bs "Kind")) by (split; [eexists _, _; split; [reflexivity|split; [reflexivity|cbn; intuition]]|exists x6e; split; [cbn; tauto|reflexivity]]).
  assert (TI : type_style (bs "Inner")) by (split; [eexists _, _; split; [reflexivity|split; [reflexivity|cbn; intuition]]|exists x6e; split; [cbn; tauto|reflexivity]]).
  assert (VS : forall s, existsb is_upper s = true -> forallb (fun c => negb (is_lower c)) s = true -> value_style s).
  { intros s U L. split; [now apply existsb_exists|]. intros c Hc. rewrite forallb_forall in L. specialize (L c Hc). now destruct (is_lower c). }
  intros d H. cbn in H. destruct H as [<-|[<-|[<-|[<-|[]]]]]; (split; [discriminate|]; split; [repeat (apply Forall_cons; [assumption|]); apply Forall_nil|]).
  - split; [apply (nodup_dec _ (list_eq_dec Byte.byte_eq_dec)); vm_compute; reflexivity|]. constructor; [|constructor; [|constructor]].
    + split.
      * exists (bs "Inner"). split; [|exists 1%nat; reflexivity]. split; [eexists _, _; split; reflexivity|]. split; [exists x6e; split; [cbn; tauto|reflexivity]|cbn; intuition discriminate].
      * intros n Hn. cbn in Hn. destruct Hn as [Hn|[Hn|[Hn|[Hn|[]]]]]; try discriminate; injection Hn as <-; discriminate.
    + split.
      * exists (bs "NameValue"). split; [|exists 0%nat; reflexivity]. split; [eexists _, _; split; reflexivity|]. split; [exists x6d; split; [cbn; tauto|reflexivity]|cbn; intuition discriminate].
      * intros n Hn. cbn in Hn. destruct Hn as [Hn|[Hn|[Hn|[Hn|[]]]]]; try discriminate; injection Hn as <-; discriminate.
  - split; [|reflexivity]. repeat (apply Forall_cons; [split; [apply VS; reflexivity|reflexivity]|]); apply Forall_nil.
  - split; constructor.
  - split; [|reflexivity]. repeat (apply Forall_cons; [split; [apply VS; reflexivity|reflexivity]|]); apply Forall_nil.
Qed.
