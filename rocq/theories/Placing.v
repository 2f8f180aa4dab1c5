(** Which object gets which comment and directives: the listeners that ask for comments keep them in the object
    that they make (prutalgen/pkg/prutalgen/message.go:226-235, enum.go:154-163, 180-190, field.go:290-300, 322-367,
    service.go:75-99), and set its Directives from them.
    Simplified: the objects of Listen.v have no comments in them; here the object that a call makes is told from
    the state before it, and the comments are listed with the objects. *)
From Coq Require Import List Arith Bool ZArith Strings.String Init.Byte.
From Verif Require Import Base GoStr Comments Directive Atn LexFile ParserNames Parser Listen Walk FileComments CompileText.
Import ListNotations StringSyntax.
Open Scope nat_scope.

(** The objects of a file: message, field of a message, enum, value of an enum, service, method of a service *)
Inductive slot := SMsg (i : nat) | SField (i k : nat) | SEnum (j : nat) | SValue (j k : nat) | SService (s : nat) | SMethod (s k : nat).
Definition fields_so_far (st : state) : option slot :=
  match l_stack st with
  | i :: _ => match nth_error (l_msgs st) i with Some m => Some (SField i (length (mr_fields m))) | None => None end
  | [] => None
  end.
(** The object that a call makes *)
Definition slot_of (st : state) (e : event) : option slot :=
  match e with
  (* message.go:227-248: appended *)
  | EnterMessageDef _ _ => Some (SMsg (length (l_msgs st)))
  (* enum.go:155-174 *)
  | EnterEnumDef _ _ => Some (SEnum (length (l_enums st)))
  (* enum.go:180-210: appended to the fields of x.enum *)
  | ExitEnumField _ _ _ _ =>
      match l_enum st with
      | Some j => match nth_error (l_enums st) j with Some e => Some (SValue j (length (er_fields e))) | None => None end
      | None => None
      end
  (* field.go:322-367: appended to the fields of the current message, but for extend blocks *)
  | ExitField RExtend _ _ => None
  | ExitField _ _ _ | ExitOneofField _ | ExitMapField _ _ => fields_so_far st
  (* service.go:84-85, 98 *)
  | EnterServiceDef _ => Some (SService (length (p_services st)))
  | EnterRpc _ =>
      match rev (p_services st) with
      | s :: _ => Some (SMethod (length (p_services st) - 1) (length (sv_methods s)))
      | [] => None
      end
  | _ => None
  end.
Fixpoint slots (st : state) (evs : list event) : list slot :=
  match evs with
  | [] => []
  | e :: r =>
      match slot_of st e with Some s => [s] | None => [] end ++
      match step st e with LOk st' => slots st' r | _ => [] end
  end.
(** The objects of a file with their comments, and the comment of the file *)
Definition placed (o : oracle) (data : bytes) : option (list (slot * comments) * bytes) :=
  match parse_file o data, file_comments_of o data with
  | OK (x :: _) _, Some (got, fc) =>
      match events r_proto x with
      | Some evs => Some (combine (slots state0 evs) (map snd got), fc)
      | None => None
      end
  | _, _ => None
  end.
Definition slot_eqb (a b : slot) : bool :=
  match a, b with
  | SMsg i, SMsg j | SEnum i, SEnum j | SService i, SService j => Nat.eqb i j
  | SField i k, SField j l | SValue i k, SValue j l | SMethod i k, SMethod j l => Nat.eqb i j && Nat.eqb k l
  | _, _ => false
  end.
(** HeadComment and InlineComment of an object *)
Definition comment_at (l : list (slot * comments)) (s : slot) : comments :=
  match find (fun x => slot_eqb (fst x) s) l with Some x => snd x | None => mkComments [] [] end.
(** The index of a field, by its number *)
Fixpoint field_index (n : Z) (l : list field) : nat :=
  match l with [] => 0 | x :: r => if Z.eqb (fl_num x) n then 0 else S (field_index n r) end.

Section Extras.
Variables (o : nat -> oracle) (data : nat -> bytes) (F : nat -> state).
Definition comments_at (p : nat) (s : slot) : comments :=
  match placed (o p) (data p) with Some (l, _) => comment_at l s | None => mkComments [] [] end.
Definition dirs_at (p : nat) (s : slot) : list bytes := def_directives (comments_at p s).
(** What the objects of the files have: Directives.Parse(HeadComment, InlineComment), message.go:230 and its
    likes; prutalgen.go:255 for the file *)
Definition extras_of : extras :=
  mkX (fun p => match placed (o p) (data p) with Some (_, fc) => file_directives fc | None => [] end)
      (fun p i => dirs_at p (SMsg i))
      (fun p i x => match nth_error (l_msgs (F p)) i with Some m => dirs_at p (SField i (field_index (fl_num x) (mr_fields m))) | None => [] end)
      (fun p j => dirs_at p (SEnum j)) (fun p j k => dirs_at p (SValue j k))
      (fun p i => comments_at p (SMsg i)) (fun p i k => comments_at p (SField i k))
      (fun p j => comments_at p (SEnum j)) (fun p j k => comments_at p (SValue j k)).
End Extras.
