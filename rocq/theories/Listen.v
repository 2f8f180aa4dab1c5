(** Model of the listeners that build the schema of a file while the parse tree is walked:
    prutalgen/pkg/prutalgen/message.go, enum.go, field.go, oneof.go, option.go, reserved.go,
    service.go, proto.go and the stacks of prutalgen.go.

    Messages and enums are objects that the lists of their parents and the stacks of the loader
    refer to, so they are kept in two heaps and referred to by index.  Simplifications: fields,
    oneofs, services and methods are kept by value in the lists that hold them (the walk only
    ever changes the last of them); comments and directives are those of Comments.v; an import is
    recorded by the name of its file (what is loaded for it is in Load.v). *)
From Coq Require Import List Arith Bool ZArith Strings.String Init.Byte.
From Verif Require Import Base GoStr GenField Verify StrLit.
Import ListNotations StringSyntax.
Open Scope nat_scope.

(** ** The parse tree, Protobuf.g4 *)
Inductive label := LRepeated | LRequired | LOptional.
(** What a field, a oneofField and a mapField have in common, lines 48-79; a literal is given by its text *)
Record sfield := mkSF { sf_type : bytes; sf_name : bytes; sf_num : bytes; sf_options : list (bytes * bytes) }.
(** oneof, lines 66-68; the empty statements call nothing and are left out *)
Inductive soneof_elem := SoOption (n c : bytes) | SoField (f : sfield).
(** enumElement, lines 157-162; [SeOther]: reserved names and empty statements *)
Inductive senum_elem := SeOption (n c : bytes) | SeField (n : bytes) (neg : bool) (lit : bytes) (oo : list (bytes * bytes))
  | SeReserved (rr : list src_range) | SeOther.
Record senum := mkSEn { sen_name : bytes; sen_elems : list senum_elem }.
(** messageElement, lines 186-197; [SmOther]: reserved names, extensions and empty statements *)
Inductive selem :=
| SmField (l : option label) (f : sfield) | SmMap (k : bytes) (f : sfield) | SmOneof (n : bytes) (l : list soneof_elem)
| SmEnum (e : senum) | SmMsg (n : bytes) (l : list selem) | SmExtend (l : list (option label * sfield))
| SmOption (n c : bytes) | SmReserved (rr : list src_range) | SmOther.
(** rpc, lines 226-231; the STREAM tokens and the types with their offsets in the file *)
Record srpc := mkSRpc { sr_name : bytes; sr_sreq : option nat; sr_req : bytes * nat; sr_sret : option nat; sr_ret : bytes * nat;
                        sr_options : list (bytes * bytes) }.
Inductive sservice_elem := SsOption (n c : bytes) | SsRpc (r : srpc) | SsOther.
(** proto, line 11 *)
Inductive stop :=
| StImport (public : bool) (lit : bytes) | StPackage (n : bytes) | StOption (n c : bytes)
| StMsg (n : bytes) (l : list selem) | StEnum (e : senum) | StExtend (l : list (option label * sfield))
| StService (n : bytes) (l : list sservice_elem) | StOther.
Record sfile := mkSFile { sfl_edition : option bytes; sfl_defs : list stop }.

(** ** The calls of the listener, in the order of ParseTreeWalker.Walk, internal/antlr/tree.go:213-227 *)
(** The rule of the parent, getRuleIndex(c.GetParent()) *)
Inductive rule := RProto | RTopLevel | RMessage | ROneof | REnum | RService | RRpc | RExtend.
Inductive event :=
| EnterMessageDef (p : rule) (n : bytes) | ExitMessageDef
| EnterEnumDef (p : rule) (n : bytes) | ExitEnumDef
| ExitEnumField (n : bytes) (neg : bool) (lit : bytes) (oo : list (bytes * bytes))
| ExitField (p : rule) (l : option label) (f : sfield) | ExitOneofField (f : sfield) | ExitMapField (k : bytes) (f : sfield)
| EnterOneof (n : bytes)
| ExitOptionStatement (p : rule) (n c : bytes)
| ExitReserved (p : rule) (rr : list src_range)
| EnterServiceDef (n : bytes) | EnterRpc (n : bytes) | ExitRpc (streams : list nat) (tt0 tt1 : bytes * nat)
| ExitEdition (lit : bytes) | ExitPackageStatement (n : bytes) | ExitImportStatement (public : bool) (lit : bytes).

Definition walk_oneof_elem (e : soneof_elem) : list event :=
  match e with SoOption n c => [ExitOptionStatement ROneof n c] | SoField f => [ExitOneofField f] end.
Definition walk_enum_elem (e : senum_elem) : list event :=
  match e with
  | SeOption n c => [ExitOptionStatement REnum n c]
  | SeField n neg lit oo => [ExitEnumField n neg lit oo]
  | SeReserved rr => [ExitReserved REnum rr]
  | SeOther => []
  end.
Definition walk_enum (p : rule) (e : senum) : list event :=
  EnterEnumDef p (sen_name e) :: flat_map walk_enum_elem (sen_elems e) ++ [ExitEnumDef].
Fixpoint walk_elem (e : selem) : list event :=
  match e with
  | SmField l f => [ExitField RMessage l f]
  | SmMap k f => [ExitMapField k f]
  | SmOneof n l => EnterOneof n :: flat_map walk_oneof_elem l
  | SmEnum e => walk_enum RMessage e
  | SmMsg n l => EnterMessageDef RMessage n :: flat_map walk_elem l ++ [ExitMessageDef]
  | SmExtend l => map (fun x => ExitField RExtend (fst x) (snd x)) l
  | SmOption n c => [ExitOptionStatement RMessage n c]
  | SmReserved rr => [ExitReserved RMessage rr]
  | SmOther => []
  end.
(** The offsets of c.AllSTREAM() *)
Definition stream_tokens (r : srpc) : list nat :=
  match sr_sreq r with Some p => [p] | None => [] end ++ match sr_sret r with Some p => [p] | None => [] end.
Definition walk_rpc (r : srpc) : list event :=
  EnterRpc (sr_name r) :: map (fun o => ExitOptionStatement RRpc (fst o) (snd o)) (sr_options r) ++
  [ExitRpc (stream_tokens r) (sr_req r) (sr_ret r)].
Definition walk_service_elem (e : sservice_elem) : list event :=
  match e with SsOption n c => [ExitOptionStatement RService n c] | SsRpc r => walk_rpc r | SsOther => [] end.
Definition walk_top (d : stop) : list event :=
  match d with
  | StImport p lit => [ExitImportStatement p lit]
  | StPackage n => [ExitPackageStatement n]
  | StOption n c => [ExitOptionStatement RProto n c]
  | StMsg n l => EnterMessageDef RTopLevel n :: flat_map walk_elem l ++ [ExitMessageDef]
  | StEnum e => walk_enum RTopLevel e
  | StExtend l => map (fun x => ExitField RExtend (fst x) (snd x)) l
  | StService n l => EnterServiceDef n :: flat_map walk_service_elem l
  | StOther => []
  end.
Definition walk_file (f : sfile) : list event :=
  match sfl_edition f with Some lit => [ExitEdition lit] | None => [] end ++ flat_map walk_top (sfl_defs f).

(** ** The schema, as objects *)
(** Field, field.go:31-61; [fl_oneof]: which of the oneofs of the message *)
Record field := mkF { fl_name : bytes; fl_key : option bytes; fl_type : bytes; fl_num : Z;
                      fl_rep : bool; fl_req : bool; fl_opt : bool; fl_options : options; fl_oneof : option nat }.
(** Oneof, oneof.go:24-32 *)
Record oneof := mkO { on_name : bytes; on_options : options; on_fields : list field }.
(** EnumField, enum.go:133-145 *)
Record enumfield := mkEF { ef_name : bytes; ef_value : Z; ef_options : options }.
(** Enum, enum.go:29-45; Message, message.go:28-52.  [.._parent]: Msg *)
Record erec := mkER { er_name : bytes; er_parent : option nat; er_fields : list enumfield; er_options : options;
                      er_reserved : list range }.
Record mrec := mkMR { mr_name : bytes; mr_parent : option nat; mr_enums : list nat; mr_msgs : list nat;
                      mr_fields : list field; mr_oneofs : list oneof; mr_options : options; mr_reserved : list range }.
(** Method and Service, service.go:26-66 *)
Record method := mkMe { me_name : bytes; me_sreq : bool; me_req : bytes; me_sret : bool; me_ret : bytes; me_options : options }.
Record service := mkSv { sv_name : bytes; sv_methods : list method; sv_options : options }.
(** protoLoader and the Proto on top of its stack, prutalgen.go:36-58, proto.go:36-58; [l_stack]: msgstack,
    the last message first *)
Record state := mkSt {
  l_msgs : list mrec; l_enums : list erec; l_stack : list nat; l_enum : option nat;
  p_edition : bytes; p_package : bytes; p_options : options; p_imports : list (bytes * bool);
  p_msgs : list nat; p_enums : list nat; p_services : list service }.

Inductive lres := LOk (st : state) | LFatal | LPanic.

(** *** Changes of the state *)
Definition set_msgs (st : state) (ms : list mrec) : state :=
  mkSt ms (l_enums st) (l_stack st) (l_enum st) (p_edition st) (p_package st) (p_options st) (p_imports st) (p_msgs st) (p_enums st) (p_services st).
Definition set_enums (st : state) (es : list erec) : state :=
  mkSt (l_msgs st) es (l_stack st) (l_enum st) (p_edition st) (p_package st) (p_options st) (p_imports st) (p_msgs st) (p_enums st) (p_services st).
Definition set_stack (st : state) (s : list nat) : state :=
  mkSt (l_msgs st) (l_enums st) s (l_enum st) (p_edition st) (p_package st) (p_options st) (p_imports st) (p_msgs st) (p_enums st) (p_services st).
Definition set_enum (st : state) (e : option nat) : state :=
  mkSt (l_msgs st) (l_enums st) (l_stack st) e (p_edition st) (p_package st) (p_options st) (p_imports st) (p_msgs st) (p_enums st) (p_services st).
Definition set_proto (st : state) (ed pk : bytes) (oo : options) (im : list (bytes * bool)) (ms es : list nat) (sv : list service) : state :=
  mkSt (l_msgs st) (l_enums st) (l_stack st) (l_enum st) ed pk oo im ms es sv.
Definition set_services (st : state) (sv : list service) : state :=
  set_proto st (p_edition st) (p_package st) (p_options st) (p_imports st) (p_msgs st) (p_enums st) sv.

(** x.currentMsg() and a change of the message; last of an empty slice panics *)
Definition with_msg (st : state) (k : mrec -> option mrec) : lres :=
  match l_stack st with
  | [] => LPanic
  | i :: _ => match nth_error (l_msgs st) i with
              | Some m => match k m with Some m' => LOk (set_msgs st (upd_nth i m' (l_msgs st))) | None => LPanic end
              | None => LPanic
              end
  end.
(** x.enum; a nil pointer panics *)
Definition with_enum (st : state) (k : erec -> erec) : lres :=
  match l_enum st with
  | None => LPanic
  | Some i => match nth_error (l_enums st) i with
              | Some e => LOk (set_enums st (upd_nth i (k e) (l_enums st)))
              | None => LPanic
              end
  end.
(** A change of the last element *)
Fixpoint on_last {A} (k : A -> option A) (l : list A) : option (list A) :=
  match l with
  | [] => None
  | [x] => match k x with Some y => Some [y] | None => None end
  | x :: r => match on_last k r with Some r' => Some (x :: r') | None => None end
  end.

(** unmarshalConst of the constants of field options, field.go:310-318 (= enum.go:199-207) *)
Definition read_options : list (bytes * bytes) -> option options :=
  all (fun o => match unmarshalConst (snd o) with Some v => Some (fst o, v) | None => None end).
(** newField, field.go:290-320 *)
Definition newField (f : sfield) (key : option bytes) : option field :=
  match UnmarshalI32 (sf_num f), read_options (sf_options f) with
  | Some n, Some oo => Some (mkF (sf_name f) key (sf_type f) n false false false oo None)
  | _, _ => None
  end.
Definition add_field (m : mrec) (f : field) : mrec :=
  mkMR (mr_name m) (mr_parent m) (mr_enums m) (mr_msgs m) (mr_fields m ++ [f]) (mr_oneofs m) (mr_options m) (mr_reserved m).
Definition add_oneof (m : mrec) (o : oneof) : mrec :=
  mkMR (mr_name m) (mr_parent m) (mr_enums m) (mr_msgs m) (mr_fields m) (mr_oneofs m ++ [o]) (mr_options m) (mr_reserved m).
Definition set_oneofs (m : mrec) (os : list oneof) : mrec :=
  mkMR (mr_name m) (mr_parent m) (mr_enums m) (mr_msgs m) (mr_fields m) os (mr_options m) (mr_reserved m).
Definition add_option (m : mrec) (o : bytes * bytes) : mrec :=
  mkMR (mr_name m) (mr_parent m) (mr_enums m) (mr_msgs m) (mr_fields m) (mr_oneofs m) (mr_options m ++ [o]) (mr_reserved m).
Definition add_reserved (m : mrec) (r : list range) : mrec :=
  mkMR (mr_name m) (mr_parent m) (mr_enums m) (mr_msgs m) (mr_fields m) (mr_oneofs m) (mr_options m) (mr_reserved m ++ r).
Definition add_msg (m : mrec) (i : nat) : mrec :=
  mkMR (mr_name m) (mr_parent m) (mr_enums m) (mr_msgs m ++ [i]) (mr_fields m) (mr_oneofs m) (mr_options m) (mr_reserved m).
Definition add_enum (m : mrec) (i : nat) : mrec :=
  mkMR (mr_name m) (mr_parent m) (mr_enums m ++ [i]) (mr_msgs m) (mr_fields m) (mr_oneofs m) (mr_options m) (mr_reserved m).

(** consts.go:19-23 *)
Definition editionProto2 : bytes := bs "proto2".
Definition known_edition (v : bytes) : bool :=
  str_eqb v (bs "proto2") || str_eqb v (bs "proto3") || str_eqb v (bs "2023").
(** verifyOption and verifyTrueOrFalse, option.go:105-130 *)
Definition verifyOption (n v : bytes) : bool :=
  if str_eqb n (bs "features.repeated_field_encoding") then str_eqb v (bs "EXPANDED") || str_eqb v (bs "PACKED")
  else if str_eqb n (bs "features.field_presence") then str_eqb v (bs "EXPLICIT") || str_eqb v (bs "IMPLICIT")
  else if str_eqb n (bs "packed") || str_eqb n (bs "allow_alias") then str_eqb v (bs "true") || str_eqb v (bs "false")
  else true.

(** The loop over the STREAM tokens of ExitRpc, service.go:104-110 *)
Fixpoint stream_flags (p0 p1 : nat) (l : list nat) (sreq sret : bool) : bool * bool :=
  match l with
  | [] => (sreq, sret)
  | p :: r => if p <? p0 then stream_flags p0 p1 r true sret
              else if p <? p1 then stream_flags p0 p1 r sreq true
              else stream_flags p0 p1 r sreq sret
  end.

Definition step (st : state) (ev : event) : lres :=
  match ev with
  (* message.go:226-248 *)
  | EnterMessageDef p n =>
      let i := length (l_msgs st) in
      match p with
      | RTopLevel =>
          let st := set_msgs st (l_msgs st ++ [mkMR n None [] [] [] [] [] []]) in
          LOk (set_stack (set_proto st (p_edition st) (p_package st) (p_options st) (p_imports st) (p_msgs st ++ [i]) (p_enums st) (p_services st))
                 (i :: l_stack st))
      | RMessage =>
          match l_stack st with
          | [] => LPanic
          | j :: _ =>
              match with_msg st (fun m0 => Some (add_msg m0 i)) with
              | LOk st => LOk (set_stack (set_msgs st (l_msgs st ++ [mkMR n (Some j) [] [] [] [] [] []])) (i :: l_stack st))
              | r => r
              end
          end
      | _ => LPanic
      end
  (* message.go:250-252 *)
  | ExitMessageDef => match l_stack st with [] => LPanic | _ :: s => LOk (set_stack st s) end
  (* enum.go:154-174 *)
  | EnterEnumDef p n =>
      let i := length (l_enums st) in
      match p with
      | RTopLevel =>
          let st := set_enums st (l_enums st ++ [mkER n None [] [] []]) in
          LOk (set_enum (set_proto st (p_edition st) (p_package st) (p_options st) (p_imports st) (p_msgs st) (p_enums st ++ [i]) (p_services st)) (Some i))
      | RMessage =>
          match l_stack st with
          | [] => LPanic
          | j :: _ =>
              match with_msg st (fun m => Some (add_enum m i)) with
              | LOk st => LOk (set_enum (set_enums st (l_enums st ++ [mkER n (Some j) [] [] []])) (Some i))
              | r => r
              end
          end
      | _ => LPanic
      end
  (* enum.go:176-178 *)
  | ExitEnumDef => LOk (set_enum st None)
  (* enum.go:180-210 *)
  | ExitEnumField n neg lit oo =>
      match read_enum_field (n, neg, lit), read_options oo with
      | Some (n', v), Some oo' =>
          with_enum st (fun e => mkER (er_name e) (er_parent e) (er_fields e ++ [mkEF n' v oo']) (er_options e) (er_reserved e))
      | _, _ => LFatal
      end
  (* field.go:322-347 *)
  | ExitField p lb f =>
      match p with
      | RExtend => LOk st
      | _ =>
          match newField f None with
          | None => LFatal
          | Some x =>
              match lb with
              | Some LRequired =>
                  if str_eqb (p_edition st) editionProto2
                  then with_msg st (fun m => Some (add_field m (mkF (fl_name x) (fl_key x) (fl_type x) (fl_num x) false true false (fl_options x) None)))
                  else LFatal
              | Some LRepeated => with_msg st (fun m => Some (add_field m (mkF (fl_name x) (fl_key x) (fl_type x) (fl_num x) true false false (fl_options x) None)))
              | Some LOptional => with_msg st (fun m => Some (add_field m (mkF (fl_name x) (fl_key x) (fl_type x) (fl_num x) false false true (fl_options x) None)))
              | None => with_msg st (fun m => Some (add_field m x))
              end
          end
      end
  (* field.go:349-359: the last oneof of the message *)
  | ExitOneofField f =>
      match newField f None with
      | None => LFatal
      | Some x =>
          with_msg st (fun m =>
            let x := mkF (fl_name x) (fl_key x) (fl_type x) (fl_num x) false false false (fl_options x) (Some (length (mr_oneofs m) - 1)) in
            match on_last (fun o => Some (mkO (on_name o) (on_options o) (on_fields o ++ [x]))) (mr_oneofs m) with
            | Some os => Some (add_field (set_oneofs m os) x)
            | None => None
            end)
      end
  (* field.go:361-367 *)
  | ExitMapField k f =>
      match newField f (Some k) with
      | None => LFatal
      | Some x => with_msg st (fun m => Some (add_field m x))
      end
  (* oneof.go:45-50 *)
  | EnterOneof n => with_msg st (fun m => Some (add_oneof m (mkO n [] [])))
  (* option.go:62-103 *)
  | ExitOptionStatement p n c =>
      match unmarshalConst c with
      | None => LFatal
      | Some v =>
          if verifyOption n v then
            match p with
            | RProto => LOk (set_proto st (p_edition st) (p_package st) (p_options st ++ [(n, v)]) (p_imports st) (p_msgs st) (p_enums st) (p_services st))
            | RMessage => with_msg st (fun m => Some (add_option m (n, v)))
            | ROneof => with_msg st (fun m =>
                match on_last (fun o => Some (mkO (on_name o) (on_options o ++ [(n, v)]) (on_fields o))) (mr_oneofs m) with
                | Some os => Some (set_oneofs m os)
                | None => None
                end)
            | REnum => with_enum st (fun e => mkER (er_name e) (er_parent e) (er_fields e) (er_options e ++ [(n, v)]) (er_reserved e))
            | RService =>
                match on_last (fun s => Some (mkSv (sv_name s) (sv_methods s) (sv_options s ++ [(n, v)]))) (p_services st) with
                | Some sv => LOk (set_services st sv)
                | None => LPanic
                end
            | RRpc =>
                match on_last (fun s =>
                  match on_last (fun m => Some (mkMe (me_name m) (me_sreq m) (me_req m) (me_sret m) (me_ret m) (me_options m ++ [(n, v)]))) (sv_methods s) with
                  | Some ms => Some (mkSv (sv_name s) ms (sv_options s))
                  | None => None
                  end) (p_services st) with
                | Some sv => LOk (set_services st sv)
                | None => LPanic
                end
            | _ => LOk st
            end
          else LFatal
      end
  (* reserved.go:50-85 *)
  | ExitReserved p rr =>
      match all read_range rr with
      | None => LFatal
      | Some ranges =>
          match p with
          | RMessage => with_msg st (fun m => Some (add_reserved m ranges))
          | REnum => with_enum st (fun e => mkER (er_name e) (er_parent e) (er_fields e) (er_options e) (er_reserved e ++ ranges))
          | _ => LOk st
          end
      end
  (* service.go:75-86 *)
  | EnterServiceDef n => LOk (set_services st (p_services st ++ [mkSv n [] []]))
  (* service.go:88-99 *)
  | EnterRpc n =>
      match on_last (fun s => Some (mkSv (sv_name s) (sv_methods s ++ [mkMe n false [] false [] []]) (sv_options s))) (p_services st) with
      | Some sv => LOk (set_services st sv)
      | None => LPanic
      end
  (* service.go:101-122 *)
  | ExitRpc streams tt0 tt1 =>
      match on_last (fun s =>
        match on_last (fun m =>
          let '(sreq, sret) := stream_flags (snd tt0) (snd tt1) streams (me_sreq m) (me_sret m) in
          Some (mkMe (me_name m) sreq (fst tt0) sret (fst tt1) (me_options m))) (sv_methods s) with
        | Some ms => Some (mkSv (sv_name s) ms (sv_options s))
        | None => None
        end) (p_services st) with
      | Some sv => LOk (set_services st sv)
      | None => LPanic
      end
  (* proto.go:171-184 *)
  | ExitEdition lit =>
      match UnmarshalString lit with
      | Some v => if known_edition v
                  then LOk (set_proto st v (p_package st) (p_options st) (p_imports st) (p_msgs st) (p_enums st) (p_services st))
                  else LFatal
      | None => LFatal
      end
  (* proto.go:186-192 *)
  | ExitPackageStatement n =>
      match p_package st with
      | [] => LOk (set_proto st (p_edition st) n (p_options st) (p_imports st) (p_msgs st) (p_enums st) (p_services st))
      | _ => LFatal
      end
  (* proto.go:194-211 *)
  | ExitImportStatement pub lit =>
      match UnmarshalString lit with
      | Some v => LOk (set_proto st (p_edition st) (p_package st) (p_options st) (p_imports st ++ [(v, pub)]) (p_msgs st) (p_enums st) (p_services st))
      | None => LFatal
      end
  end.
Fixpoint run (st : state) (evs : list event) : lres :=
  match evs with
  | [] => LOk st
  | e :: r => match step st e with LOk st' => run st' r | x => x end
  end.
(** The Proto before the walk, prutalgen.go:197-203 *)
Definition state0 : state := mkSt [] [] [] None editionProto2 [] [] [] [] [] [].
Definition load (f : sfile) : lres := run state0 (walk_file f).
