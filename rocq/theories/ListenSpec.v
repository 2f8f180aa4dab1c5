(** What the schema of a file should be: a tree that has what the text says, in the order in
    which the text says it.  The values of literals are those of Verify.v (UnmarshalI32, parseI32:
    C53 and others) and of StrLit.v (unmarshalConst: C66, C67). *)
From Coq Require Import List Arith Bool ZArith Strings.String Init.Byte Permutation.
From Verif Require Import Base GoStr GenField Verify StrLit Listen.
Import ListNotations StringSyntax.
Open Scope nat_scope.

(** ** Trees *)
Record tenum := TE { te_name : bytes; te_fields : list enumfield; te_options : options; te_reserved : list range }.
Inductive tmsg := TM (name : bytes) (fields : list field) (oneofs : list oneof) (enums : list tenum) (msgs : list tmsg)
                     (opts : options) (reserved : list range).
Record tfile := TF { tf_edition : bytes; tf_package : bytes; tf_options : options; tf_imports : list (bytes * bool);
                     tf_msgs : list tmsg; tf_enums : list tenum; tf_services : list service }.

(** ** The parts of a text *)
(** A field with its label, its key type and the number of its oneof in the message *)
Definition lfield := (option label * option bytes * option nat * sfield)%type.
Definition oneof_fields (i : nat) (l : list soneof_elem) : list lfield :=
  flat_map (fun e => match e with SoField f => [(None, None, Some i, f)] | _ => [] end) l.
Definition oneof_options (l : list soneof_elem) : list (bytes * bytes) :=
  flat_map (fun e => match e with SoOption n c => [(n, c)] | _ => [] end) l.
(** [k]: the number of the next oneof *)
Fixpoint msg_fields (k : nat) (l : list selem) : list lfield :=
  match l with
  | [] => []
  | SmField lb f :: r => (lb, None, None, f) :: msg_fields k r
  | SmMap key f :: r => (None, Some key, None, f) :: msg_fields k r
  | SmOneof _ o :: r => oneof_fields k o ++ msg_fields (S k) r
  | _ :: r => msg_fields k r
  end.
Fixpoint msg_oneofs (k : nat) (l : list selem) : list (nat * bytes * list soneof_elem) :=
  match l with
  | [] => []
  | SmOneof n o :: r => (k, n, o) :: msg_oneofs (S k) r
  | _ :: r => msg_oneofs k r
  end.
Definition msg_enums (l : list selem) : list senum := flat_map (fun e => match e with SmEnum x => [x] | _ => [] end) l.
Definition msg_msgs (l : list selem) : list (bytes * list selem) := flat_map (fun e => match e with SmMsg n x => [(n, x)] | _ => [] end) l.
Definition msg_options (l : list selem) : list (bytes * bytes) := flat_map (fun e => match e with SmOption n c => [(n, c)] | _ => [] end) l.
Definition msg_reserved (l : list selem) : list src_range := flat_map (fun e => match e with SmReserved rr => rr | _ => [] end) l.
Definition enum_fields (l : list senum_elem) := flat_map (fun e => match e with SeField n neg lit oo => [(n, neg, lit, oo)] | _ => [] end) l.
Definition enum_options (l : list senum_elem) : list (bytes * bytes) := flat_map (fun e => match e with SeOption n c => [(n, c)] | _ => [] end) l.
Definition enum_reserved (l : list senum_elem) : list src_range := flat_map (fun e => match e with SeReserved rr => rr | _ => [] end) l.
Definition service_rpcs (l : list sservice_elem) : list srpc := flat_map (fun e => match e with SsRpc r => [r] | _ => [] end) l.
Definition service_options (l : list sservice_elem) : list (bytes * bytes) := flat_map (fun e => match e with SsOption n c => [(n, c)] | _ => [] end) l.
Definition file_imports (l : list stop) := flat_map (fun d => match d with StImport p lit => [(p, lit)] | _ => [] end) l.
Definition file_packages (l : list stop) := flat_map (fun d => match d with StPackage n => [n] | _ => [] end) l.
Definition file_options (l : list stop) := flat_map (fun d => match d with StOption n c => [(n, c)] | _ => [] end) l.
Definition file_msgs (l : list stop) := flat_map (fun d => match d with StMsg n x => [(n, x)] | _ => [] end) l.
Definition file_enums (l : list stop) := flat_map (fun d => match d with StEnum e => [e] | _ => [] end) l.
Definition file_services (l : list stop) := flat_map (fun d => match d with StService n x => [(n, x)] | _ => [] end) l.

(** ** What a part means *)
Definition option_means (s o : bytes * bytes) : Prop := fst o = fst s /\ unmarshalConst (snd s) = Some (snd o).
(** The values that are known for the options of option statements *)
Definition option_allowed (o : bytes * bytes) : Prop :=
  (fst o = bs "features.repeated_field_encoding" -> snd o = bs "EXPANDED" \/ snd o = bs "PACKED") /\
  (fst o = bs "features.field_presence" -> snd o = bs "EXPLICIT" \/ snd o = bs "IMPLICIT") /\
  (fst o = bs "packed" \/ fst o = bs "allow_alias" -> snd o = bs "true" \/ snd o = bs "false").
Definition statement_means (s o : bytes * bytes) : Prop := option_means s o /\ option_allowed o.
Definition range_means (s : src_range) (r : range) : Prop :=
  parseI32 (fst s) = Some (fst r) /\
  match snd s with
  | ToSame => snd r = fst r
  | ToMax => snd r = 2147483647%Z
  | ToLit t => parseI32 t = Some (snd r)
  end.
(** [ed]: the edition of the file *)
Definition field_means (ed : bytes) (s : lfield) (x : field) : Prop :=
  let '(lb, key, i, f) := s in
  fl_name x = sf_name f /\ fl_type x = sf_type f /\ fl_key x = key /\ fl_oneof x = i /\
  UnmarshalI32 (sf_num f) = Some (fl_num x) /\ Forall2 option_means (sf_options f) (fl_options x) /\
  (fl_rep x = true <-> lb = Some LRepeated) /\ (fl_req x = true <-> lb = Some LRequired) /\ (fl_opt x = true <-> lb = Some LOptional) /\
  (lb = Some LRequired -> ed = bs "proto2").
Definition oneof_means (ed : bytes) (s : nat * bytes * list soneof_elem) (o : oneof) : Prop :=
  let '(i, n, l) := s in
  on_name o = n /\ Forall2 statement_means (oneof_options l) (on_options o) /\
  Forall2 (field_means ed) (oneof_fields i l) (on_fields o).
Definition enumfield_means (s : bytes * bool * bytes * list (bytes * bytes)) (x : enumfield) : Prop :=
  let '(n, neg, lit, oo) := s in
  ef_name x = n /\ (exists v, UnmarshalI32 lit = Some v /\ ef_value x = if neg then (- v)%Z else v) /\
  Forall2 option_means oo (ef_options x).
Definition enum_means (s : senum) (t : tenum) : Prop :=
  te_name t = sen_name s /\ Forall2 enumfield_means (enum_fields (sen_elems s)) (te_fields t) /\
  Forall2 statement_means (enum_options (sen_elems s)) (te_options t) /\
  Forall2 range_means (enum_reserved (sen_elems s)) (te_reserved t).
Inductive msg_means (ed : bytes) : bytes * list selem -> tmsg -> Prop :=
| msg_means_intro n l fs os es ms oo rr :
    Forall2 (field_means ed) (msg_fields 0 l) fs -> Forall2 (oneof_means ed) (msg_oneofs 0 l) os ->
    Forall2 enum_means (msg_enums l) es -> Forall2 (msg_means ed) (msg_msgs l) ms ->
    Forall2 statement_means (msg_options l) oo -> Forall2 range_means (msg_reserved l) rr ->
    msg_means ed (n, l) (TM n fs os es ms oo rr).
Definition method_means (s : srpc) (m : method) : Prop :=
  me_name m = sr_name s /\ me_req m = fst (sr_req s) /\ me_ret m = fst (sr_ret s) /\
  (me_sreq m = true <-> sr_sreq s <> None) /\ (me_sret m = true <-> sr_sret s <> None) /\
  Forall2 statement_means (sr_options s) (me_options m).
Definition service_means (s : bytes * list sservice_elem) (v : service) : Prop :=
  sv_name v = fst s /\ Forall2 method_means (service_rpcs (snd s)) (sv_methods v) /\
  Forall2 statement_means (service_options (snd s)) (sv_options v).
Definition edition_means (e : option bytes) (v : bytes) : Prop :=
  match e with
  | None => v = bs "proto2"
  | Some lit => UnmarshalString lit = Some v /\ (v = bs "proto2" \/ v = bs "proto3" \/ v = bs "2023")
  end.
(** At most one package statement *)
Definition package_means (l : list bytes) (v : bytes) : Prop :=
  match l with [] => v = [] | [n] => v = n | _ => False end.
Definition import_means (s : bool * bytes) (i : bytes * bool) : Prop := UnmarshalString (snd s) = Some (fst i) /\ snd i = fst s.
Definition file_means (s : sfile) (t : tfile) : Prop :=
  edition_means (sfl_edition s) (tf_edition t) /\ package_means (file_packages (sfl_defs s)) (tf_package t) /\
  Forall2 statement_means (file_options (sfl_defs s)) (tf_options t) /\
  Forall2 import_means (file_imports (sfl_defs s)) (tf_imports t) /\
  Forall2 (msg_means (tf_edition t)) (file_msgs (sfl_defs s)) (tf_msgs t) /\
  Forall2 enum_means (file_enums (sfl_defs s)) (tf_enums t) /\
  Forall2 service_means (file_services (sfl_defs s)) (tf_services t).

(** ** The objects of the loader show a tree.  [p]: the message the object should name as its parent *)
Definition shows_enum (st : state) (p : option nat) (i : nat) (t : tenum) : Prop :=
  nth_error (l_enums st) i = Some (mkER (te_name t) p (te_fields t) (te_options t) (te_reserved t)).
Inductive shows_msg (st : state) : option nat -> nat -> tmsg -> Prop :=
| shows_msg_intro p i n fs os es ms oo rr ei mi :
    nth_error (l_msgs st) i = Some (mkMR n p ei mi fs os oo rr) ->
    Forall2 (shows_enum st (Some i)) ei es -> Forall2 (shows_msg st (Some i)) mi ms ->
    shows_msg st p i (TM n fs os es ms oo rr).
Definition shows_file (st : state) (t : tfile) : Prop :=
  p_edition st = tf_edition t /\ p_package st = tf_package t /\ p_options st = tf_options t /\ p_imports st = tf_imports t /\
  Forall2 (shows_msg st None) (p_msgs st) (tf_msgs t) /\ Forall2 (shows_enum st None) (p_enums st) (tf_enums t) /\
  p_services st = tf_services t.
(** Every object is in exactly one of the lists of the schema *)
Definition listed_once (st : state) : Prop :=
  Permutation (p_msgs st ++ flat_map mr_msgs (l_msgs st)) (seq 0 (length (l_msgs st))) /\
  Permutation (p_enums st ++ flat_map mr_enums (l_msgs st)) (seq 0 (length (l_enums st))).

(** ** Parse trees: identifiers are not empty, and the tokens of an rpc are in the order of the grammar *)
Definition rpc_ordered (r : srpc) : Prop :=
  match sr_sreq r with Some p => p < snd (sr_req r) | None => True end /\
  snd (sr_req r) < snd (sr_ret r) /\
  match sr_sret r with Some p => snd (sr_req r) < p < snd (sr_ret r) | None => True end.
Definition parsed (f : sfile) : Prop :=
  Forall (fun d => match d with
                   | StPackage n => n <> []
                   | StService _ l => Forall rpc_ordered (service_rpcs l)
                   | _ => True
                   end) (sfl_defs f).
