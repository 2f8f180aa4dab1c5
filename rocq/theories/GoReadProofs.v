(** Proofs about the grammar of Go (GoSyntax.v): the tokens of a declaration are read as that
    declaration. *)
From Coq Require Import List Bool NArith ZArith Strings.String Init.Byte Lia.
From Verif Require Import Base GoStr StrFacts GoScan GoSyntax TextSpec.
Import ListNotations StringSyntax.
Open Scope nat_scope.

(** ** The tokens of a declaration *)
Fixpoint ty_toks (t : gty) : list tok :=
  match t with
  | YName None n => [TWord n]
  | YName (Some p) n => [TWord p; o "."; TWord n]
  | YPtr t => o "*" :: ty_toks t
  | YSlice t => o "[" :: o "]" :: ty_toks t
  | YMap k v => w "map" :: o "[" :: ty_toks k ++ o "]" :: ty_toks v
  | YAny => [w "interface"; o "{"; o "}"]
  end.
Definition field_toks (f : gfield) : list tok :=
  TWord (fst (fst f)) :: ty_toks (snd (fst f)) ++ (match snd f with Some s => [TRaw s] | None => [] end) ++ [o ";"].
Definition minus_toks (b : bool) : list tok := if b then [o "-"] else [].
Definition const_toks (c : bytes * gty * (bool * bytes)) : list tok :=
  TWord (fst (fst c)) :: ty_toks (snd (fst c)) ++ o "=" :: minus_toks (fst (snd c)) ++ [TNum (snd (snd c)); o ";"].
Definition entry_toks (e : tok * bool * (tok * bool)) : list tok :=
  minus_toks (snd (fst e)) ++ fst (fst e) :: o ":" :: minus_toks (snd (snd e)) ++ [fst (snd e); o ","].
Fixpoint more_types (l : list gty) : list tok :=
  match l with [] => [] | [t] => ty_toks t | t :: r => ty_toks t ++ o "," :: more_types r end.
Definition result_toks (r : gresult) : list tok :=
  match r with ResNone => [] | ResOne t => ty_toks t | ResMany l => o "(" :: more_types l ++ [o ")"] end.
Definition spell (d : gdecl) : list tok :=
  match d with
  | YStruct n l => [w "type"; TWord n; w "struct"; o "{"] ++ concat (map field_toks l) ++ [o "}"]
  | YIface n m => [w "type"; TWord n; w "interface"; o "{"; TWord m; o "("; o ")"; o ";"; o "}"]
  | YDefined n t => [w "type"; TWord n] ++ ty_toks t
  | YConsts l => [w "const"; o "("] ++ concat (map const_toks l) ++ [o ")"]
  | YMapVar n k v l => [w "var"; TWord n; o "="] ++ ty_toks (YMap k v) ++ o "{" :: concat (map entry_toks l) ++ [o "}"]
  | YFunc recv n params r body =>
      [w "func"; o "("] ++ recv ++ [o ")"; TWord n; o "("] ++ params ++ o ")" :: result_toks r ++ o "{" :: body ++ [o "}"]
  end.

(** ** What can be read back *)
Definition is_name (s : bytes) : Prop := is_in keywords s = false.
Fixpoint ty_ok (t : gty) : Prop :=
  match t with
  | YName None n => is_name n
  | YName (Some p) n => is_name p /\ is_name n
  | YPtr t | YSlice t => ty_ok t
  | YMap k v => ty_ok k /\ ty_ok v
  | YAny => True
  end.
Definition balanced (ts : list tok) : Prop :=
  forall d r, block d (ts ++ r) = match block d r with Some (l, r') => Some (ts ++ l, r') | None => None end.
Definition no_op (s : string) (ts : list tok) : Prop := Forall (fun x => op (bs s) x = false) ts.
Definition plain (t : tok) : Prop := match t with TOp _ => False | _ => True end.
Definition decl_ok (d : gdecl) : Prop :=
  match d with
  | YStruct n l => is_name n /\ Forall (fun f => is_name (fst (fst f)) /\ ty_ok (snd (fst f))) l
  | YIface n m => is_name n /\ is_name m
  | YDefined n t => is_name n /\ ty_ok t /\ t <> YAny
  | YConsts l => Forall (fun c => is_name (fst (fst c)) /\ ty_ok (snd (fst c))) l
  | YMapVar n k v l => is_name n /\ ty_ok k /\ ty_ok v /\ Forall (fun e => plain (fst (fst e)) /\ plain (fst (snd e))) l
  | YFunc recv n params r body =>
      is_name n /\ no_op ")" recv /\ no_op ")" params /\ balanced body /\
      match r with ResNone => True | ResOne t => ty_ok t | ResMany l => l <> [] /\ Forall ty_ok l end
  end.

(** ** Reading *)
Lemma name_word n : is_name n -> name_of (TWord n) = Some n.
Proof. intro H. unfold name_of. now rewrite H. Qed.
Definition after_type (r : list tok) : Prop := match r with x :: _ => op (bs ".") x = false | [] => True end.
Lemma read_type_ok : forall t fuel r, ty_ok t -> after_type r -> length (ty_toks t) <= fuel ->
  read_type fuel (ty_toks t ++ r) = Some (t, r).
Proof.
  induction t as [p n|t IH|t IH|k IHk v IHv|]; intros fuel r OK AF L.
  - assert (W : forall x, is_name x -> str_eqb x (bs "map") = false /\ str_eqb x (bs "interface") = false).
    { intros x H. unfold is_name in H. split; destruct (str_eqb_spec x (bs "map")), (str_eqb_spec x (bs "interface")); subst; try reflexivity; discriminate H. }
    destruct p as [p|].
    + destruct OK as [P Q]. destruct fuel as [|fuel]; [cbn in L; lia|]. cbn [ty_toks app read_type].
      destruct (W p P) as [-> ->]. rewrite (name_word p P). change (op (bs ".") (o ".")) with true. cbv iota. rewrite (name_word n Q). reflexivity.
    + cbn [ty_ok] in OK. destruct fuel as [|fuel]; [cbn in L; lia|]. cbn [ty_toks app read_type].
      destruct (W n OK) as [-> ->]. rewrite (name_word n OK).
      destruct r as [|x r]; [reflexivity|]. cbn [after_type] in AF. rewrite AF. now destruct r.
  - destruct fuel as [|fuel]; [cbn in L; lia|]. cbn [ty_toks app read_type]. unfold o. change (str_eqb (bs "*") (bs "*")) with true. cbv iota.
    cbn [ty_toks length] in L. rewrite IH; [reflexivity|exact OK|exact AF|lia].
  - destruct fuel as [|fuel]; [cbn in L; lia|]. cbn [ty_toks app read_type]. unfold o. change (str_eqb (bs "[") (bs "*")) with false. change (str_eqb (bs "[") (bs "[")) with true. cbv iota.
    change (op (bs "]") (TOp (bs "]"))) with true. cbv iota. cbn [ty_toks length] in L. rewrite IH; [reflexivity|exact OK|exact AF|lia].
  - destruct OK as [K V]. destruct fuel as [|fuel]; [cbn in L; lia|]. cbn [ty_toks app read_type]. unfold w, o. change (str_eqb (bs "map") (bs "map")) with true. cbv iota.
    change (op (bs "[") (TOp (bs "["))) with true. cbv iota. cbn [ty_toks length] in L. rewrite app_length in L. cbn [length] in L.
    rewrite <- app_assoc. cbn [app]. rewrite IHk; [|exact K|reflexivity|lia]. change (op (bs "]") (TOp (bs "]"))) with true. cbv iota.
    rewrite IHv; [reflexivity|exact V|exact AF|lia].
  - destruct fuel as [|fuel]; [cbn in L; lia|]. reflexivity.
Qed.
Lemma read_fields_ok : forall l fuel r, Forall (fun f => is_name (fst (fst f)) /\ ty_ok (snd (fst f))) l ->
  length (concat (map field_toks l)) < fuel ->
  read_fields fuel (concat (map field_toks l) ++ o "}" :: r) = Some (l, r).
Proof.
  induction l as [|[[n t] tag] l IH]; intros fuel r OK L; (destruct fuel as [|fuel]; [lia|]).
  - reflexivity.
  - inversion OK as [|f l' [P Q] OK']; subst. cbn [fst snd] in P, Q. cbn [map concat] in *. rewrite app_length in L.
    rewrite <- app_assoc. unfold field_toks at 1. cbn [fst snd]. unfold field_toks at 1 in L. cbn [fst snd length] in L. rewrite !app_length in L.
    cbn [app read_fields]. change (op (bs "}") (TWord n)) with false. cbv iota. rewrite (name_word n P). rewrite <- ?app_assoc.
    rewrite read_type_ok; [|exact Q| destruct tag; reflexivity|lia].
    destruct tag as [tag|]; cbn [app length] in *.
    + change (op (bs ";") (o ";")) with true. cbv iota. rewrite IH by (try assumption; lia). reflexivity.
    + unfold o at 1. change (op (bs ";") (o ";")) with true. cbv iota. rewrite IH by (try assumption; lia). reflexivity.
Qed.
Lemma read_consts_ok : forall l fuel r, Forall (fun c => is_name (fst (fst c)) /\ ty_ok (snd (fst c))) l ->
  length (concat (map const_toks l)) < fuel ->
  read_consts fuel (concat (map const_toks l) ++ o ")" :: r) = Some (l, r).
Proof.
  induction l as [|[[n t] [m d]] l IH]; intros fuel r OK L; (destruct fuel as [|fuel]; [lia|]).
  - reflexivity.
  - inversion OK as [|f l' [P Q] OK']; subst. cbn [fst snd] in P, Q. cbn [map concat] in *. rewrite app_length in L.
    rewrite <- app_assoc. unfold const_toks at 1. cbn [fst snd]. unfold const_toks at 1 in L. cbn [fst snd length] in L. rewrite app_length in L.
    cbn [length] in L. rewrite app_length in L.
    cbn [app read_consts]. change (op (bs ")") (TWord n)) with false. cbv iota. rewrite (name_word n P). rewrite <- ?app_assoc. cbn [app].
    rewrite read_type_ok; [|exact Q|reflexivity|lia]. cbn [expect]. change (op (bs "=") (o "=")) with true. cbv iota. rewrite <- app_assoc. cbn [app].
    assert (E : read_signed (minus_toks m ++ TNum d :: o ";" :: concat (map const_toks l) ++ o ")" :: r) = Some (TNum d, m, o ";" :: concat (map const_toks l) ++ o ")" :: r)) by (destruct m; reflexivity).
    rewrite E. cbn [expect]. change (op (bs ";") (o ";")) with true. cbv iota. rewrite IH; [reflexivity|exact OK'|]. cbn [length] in L. lia.
Qed.
Lemma read_entries_ok : forall l fuel r, Forall (fun e => plain (fst (fst e)) /\ plain (fst (snd e))) l ->
  length (concat (map entry_toks l)) < fuel ->
  read_entries fuel (concat (map entry_toks l) ++ o "}" :: r) = Some (l, r).
Proof.
  induction l as [|[[k mk] [v mv]] l IH]; intros fuel r OK L; (destruct fuel as [|fuel]; [lia|]).
  - reflexivity.
  - inversion OK as [|f l' [P Q] OK']; subst. cbn [fst snd] in P, Q. cbn [map concat] in *. rewrite app_length in L.
    rewrite <- app_assoc. unfold entry_toks at 1. cbn [fst snd]. unfold entry_toks at 1 in L. cbn [fst snd] in L. rewrite app_length in L. cbn [length] in L. rewrite app_length in L.
    assert (PL : forall t m rest, plain t -> read_signed (minus_toks m ++ t :: rest) = Some (t, m, rest)).
    { intros t m rest H. destruct m; [reflexivity|]. destruct t; try reflexivity. contradiction. }
    assert (NB : exists x q, minus_toks mk ++ k :: o ":" :: minus_toks mv ++ [v; o ","] = x :: q /\ op (bs "}") x = false).
    { destruct mk; [now exists (o "-"), (k :: o ":" :: minus_toks mv ++ [v; o ","])|].
      exists k, (o ":" :: minus_toks mv ++ [v; o ","]). split; [reflexivity|]. destruct k; try reflexivity. contradiction. }
    destruct NB as (x & q & E & B). pose proof E as E'. rewrite <- app_assoc. cbn [app]. rewrite <- app_assoc. cbn [app].
    assert (S : read_signed (minus_toks mk ++ k :: o ":" :: minus_toks mv ++ v :: o "," :: concat (map entry_toks l) ++ o "}" :: r) =
      Some (k, mk, o ":" :: minus_toks mv ++ v :: o "," :: concat (map entry_toks l) ++ o "}" :: r)) by now apply PL.
    apply (f_equal (fun z => z ++ concat (map entry_toks l) ++ o "}" :: r)) in E. rewrite <- app_assoc in E. cbn [app] in E. rewrite <- app_assoc in E. cbn [app] in E.
    rewrite E in S |- *. cbn [read_entries]. rewrite B. rewrite S. cbn [expect]. change (op (bs ":") (o ":")) with true. cbv iota.
    rewrite PL by exact Q. cbn [expect]. change (op (bs ",") (o ",")) with true. cbv iota. rewrite IH; [reflexivity|exact OK'|]. lia.
Qed.
Lemma upto_ok : forall l s r, no_op s l -> upto (bs s) (l ++ TOp (bs s) :: r) = Some (l, r).
Proof.
  induction l as [|x l IH]; intros s r H; cbn [app upto].
  - unfold op. destruct (str_eqb_spec (bs s) (bs s)); [reflexivity|contradiction].
  - inversion H as [|x' l' A B]; subst. rewrite A, (IH s r B). reflexivity.
Qed.
Lemma read_types_ok : forall l fuel r, l <> [] -> Forall ty_ok l -> length (more_types l) < fuel ->
  read_types fuel (more_types l ++ o ")" :: r) = Some (l, r).
Proof.
  induction l as [|t l IH]; intros fuel r N OK L; [contradiction|]. inversion OK as [|t' l' A B]; subst.
  destruct fuel as [|fuel]; [lia|]. destruct l as [|t2 l].
  - cbn [more_types] in *. cbn [read_types]. rewrite read_type_ok; [reflexivity|exact A|reflexivity|lia].
  - change (more_types (t :: t2 :: l)) with (ty_toks t ++ o "," :: more_types (t2 :: l)) in *. rewrite app_length in L. cbn [length] in L.
    rewrite <- app_assoc. change ((o "," :: more_types (t2 :: l)) ++ o ")" :: r) with (o "," :: more_types (t2 :: l) ++ o ")" :: r).
    unfold read_types; fold read_types. rewrite read_type_ok; [|exact A|reflexivity|lia].
    change (op (bs ")") (o ",")) with false. change (op (bs ",") (o ",")) with true. cbv iota. rewrite IH; [reflexivity|discriminate|exact B|lia].
Qed.
(** The tokens of a type do not begin with a parenthesis or a brace *)
Lemma ty_toks_head t : exists x r, ty_toks t = x :: r /\ op (bs "{") x = false /\ op (bs "(") x = false.
Proof. destruct t as [[p|] n|t|t|k v|]; cbn [ty_toks]; eexists _, _; (split; [reflexivity|]); split; reflexivity. Qed.
Lemma read_result_ok r fuel rest : match r with ResNone => True | ResOne t => ty_ok t | ResMany l => l <> [] /\ Forall ty_ok l end ->
  length (result_toks r) <= fuel -> read_result fuel (result_toks r ++ o "{" :: rest) = Some (r, o "{" :: rest).
Proof.
  destruct r as [|t|l]; intros OK L; cbn [result_toks] in *.
  - reflexivity.
  - destruct (ty_toks_head t) as (x & q & E & B & P). pose proof (read_type_ok t fuel (o "{" :: rest) OK eq_refl L) as RT.
    rewrite E in RT |- *. cbn [app] in *. unfold read_result. rewrite B, P, RT. reflexivity.
  - destruct OK as [N OK]. cbn [app]. unfold read_result. change (op (bs "{") (o "(")) with false. change (op (bs "(") (o "(")) with true. cbv iota.
    cbn [length] in L. rewrite app_length in L. cbn [length] in L. rewrite <- app_assoc. cbn [app].
    rewrite read_types_ok; [reflexivity|exact N|exact OK|lia].
Qed.
Lemma read_name_ok n r : is_name n -> read_name (TWord n :: r) = Some (n, r).
Proof. intro H. unfold read_name. now rewrite (name_word n H). Qed.

Lemma read_decl_ok d r : decl_ok d -> read_decl (spell d ++ o ";" :: r) = Some (d, o ";" :: r).
Proof.
  intro OK. remember (length (spell d ++ o ";" :: r)) as fuel eqn:LF. rewrite app_length in LF. destruct d as [n l|n m|n t|l|n k v l|recv n params res body]; cbn [decl_ok] in OK.
  - destruct OK as [N OK]. unfold read_decl. rewrite app_length, <- LF. cbn [spell] in *. rewrite !app_length in LF. cbn [length] in LF.
    rewrite <- ?app_assoc. cbn [app]. change (kw (bs "type") (w "type")) with true. cbv iota. rewrite (read_name_ok n _ N).
    change (kw (bs "struct") (w "struct")) with true. cbv iota. cbn [expect]. change (op (bs "{") (o "{")) with true. cbv iota.
    rewrite read_fields_ok; [reflexivity|exact OK|lia].
  - destruct OK as [N M]. cbn [spell app]. unfold read_decl. change (kw (bs "type") (w "type")) with true. cbv iota. rewrite (read_name_ok n _ N).
    change (kw (bs "struct") (w "interface")) with false. change (kw (bs "interface") (w "interface")) with true. cbv iota.
    cbn [expect]. change (op (bs "{") (o "{")) with true. cbv iota. rewrite (read_name_ok m _ M). reflexivity.
  - destruct OK as (N & T & NA). unfold read_decl. rewrite app_length, <- LF. cbn [spell] in *. rewrite !app_length in LF. cbn [length] in LF.
    rewrite <- ?app_assoc. cbn [app]. change (kw (bs "type") (w "type")) with true. cbv iota. rewrite (read_name_ok n _ N).
    assert (KW : forall m, is_name m -> kw (bs "struct") (TWord m) = false /\ kw (bs "interface") (TWord m) = false).
    { intros m H. unfold is_name in H. unfold kw. split; match goal with |- str_eqb ?a ?b = false => destruct (str_eqb_spec a b); [subst; discriminate H|reflexivity] end. }
    assert (H : exists x q, ty_toks t = x :: q /\ kw (bs "struct") x = false /\ kw (bs "interface") x = false).
    { destruct t as [[p|] m|t|t|k v|]; cbn [ty_toks]; [| | | | |contradiction]; eexists _, _; (split; [reflexivity|]); try (split; reflexivity).
      - destruct T as [T _]. now apply KW.
      - now apply KW. }
    destruct H as (x & q & E & A & B). pose proof (read_type_ok t fuel (o ";" :: r) T eq_refl ltac:(lia)) as RT.
    rewrite E in RT |- *; cbn [app] in *; rewrite A, B, RT; reflexivity.
  - unfold read_decl. rewrite app_length, <- LF. cbn [spell] in *. rewrite !app_length in LF. cbn [length] in LF.
    rewrite <- ?app_assoc. cbn [app]. change (kw (bs "type") (w "const")) with false. change (kw (bs "const") (w "const")) with true. cbv iota.
    cbn [expect]. change (op (bs "(") (o "(")) with true. cbv iota. rewrite read_consts_ok; [reflexivity|exact OK|lia].
  - destruct OK as (N & K & V & OK). unfold read_decl. rewrite app_length, <- LF. cbn [spell] in *. rewrite ?app_length in LF. cbn [length] in LF. rewrite ?app_length in LF. cbn [length] in LF.
    rewrite <- ?app_assoc. cbn [app]. change (kw (bs "type") (w "var")) with false. change (kw (bs "const") (w "var")) with false. change (kw (bs "var") (w "var")) with true. cbv iota.
    rewrite (read_name_ok n _ N). cbn [expect]. change (op (bs "=") (o "=")) with true. cbv iota.
    rewrite <- ?app_assoc. cbn [app]. rewrite (read_type_ok (YMap k v) fuel _ (conj K V)); [|reflexivity|lia].
    cbn [expect]. change (op (bs "{") (o "{")) with true. cbv iota. rewrite <- ?app_assoc. cbn [app]. rewrite read_entries_ok; [reflexivity|exact OK|lia].
  - destruct OK as (N & RV & PR & BL & RS). unfold read_decl. rewrite app_length, <- LF. cbn [spell] in *. rewrite ?app_length in LF. cbn [length] in LF. rewrite ?app_length in LF. cbn [length] in LF. rewrite ?app_length in LF. cbn [length] in LF. rewrite ?app_length in LF.
    rewrite <- ?app_assoc. cbn [app]. change (kw (bs "type") (w "func")) with false. change (kw (bs "const") (w "func")) with false. change (kw (bs "var") (w "func")) with false. change (kw (bs "func") (w "func")) with true. cbv iota.
    cbn [expect]. change (op (bs "(") (o "(")) with true. cbv iota. rewrite <- ?app_assoc. cbn [app]. rewrite (upto_ok recv ")" _ RV). rewrite (read_name_ok n _ N).
    cbn [expect]. change (op (bs "(") (o "(")) with true. cbv iota. rewrite <- ?app_assoc. cbn [app]. rewrite (upto_ok params ")" _ PR).
    rewrite <- ?app_assoc. cbn [app]. rewrite read_result_ok; [|exact RS|lia]. cbn [expect]. change (op (bs "{") (o "{")) with true. cbv iota.
    rewrite <- ?app_assoc. cbn [app]. rewrite BL. cbn [block]. change (op (bs "}") (o "}")) with true. cbv iota. now rewrite app_nil_r.
Qed.

(** ** Declarations in a row *)
Definition spells (ds : list gdecl) : list tok := concat (map (fun d => spell d ++ [o ";"]) ds).
Lemma spells_app a b : spells (a ++ b) = spells a ++ spells b.
Proof. unfold spells. now rewrite map_app, concat_app. Qed.
Lemma spells_one d : spells [d] = spell d ++ [o ";"].
Proof. unfold spells. cbn [map concat]. now rewrite app_nil_r. Qed.
Lemma spells_cons d ds : spells (d :: ds) = spell d ++ [o ";"] ++ spells ds.
Proof. unfold spells. cbn [map concat]. now rewrite <- app_assoc. Qed.
Lemma spells_concat {A} (f : A -> list gdecl) l : spells (concat (map f l)) = concat (map (fun x => spells (f x)) l).
Proof. induction l as [|x l IH]; [reflexivity|]. cbn [map concat]. now rewrite spells_app, IH. Qed.
Lemma read_decls_ok : forall ds fuel, Forall decl_ok ds -> length (spells ds) <= fuel -> read_decls fuel (spells ds) = Some ds.
Proof.
  induction ds as [|d ds IH]; intros fuel OK L; [now destruct fuel|]. inversion OK as [|d' ds' A B]; subst.
  rewrite spells_cons in L |- *. rewrite !app_length in L. cbn [length app] in *.
  destruct fuel as [|fuel]; [lia|].
  assert (N : exists x q, spell d ++ o ";" :: spells ds = x :: q) by (destruct (spell d); cbn [app]; eauto).
  destruct N as (x & q & E). pose proof (read_decl_ok d (spells ds) A) as R. rewrite E in R |- *. cbn [read_decls]. rewrite R. cbn [expect].
  change (op (bs ";") (o ";")) with true. cbv iota. rewrite IH; [reflexivity|exact B|lia].
Qed.
