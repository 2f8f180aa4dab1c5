(** Model of the resolution of type names: Type.resolve (prutalgen/pkg/prutalgen/type.go:
    121-201), Message.getType (message.go:99-116) and Proto.getType (proto.go:84-107).
    A dotted name is the list of its identifiers, and a leading dot is a flag: identifiers
    have no dots, so that hasPathPrefix and trimPathPrefix (utils.go:80-91) compare and cut
    lists. *)
From Coq Require Import Strings.String Init.Byte.
From Verif Require Import Base GoStr GenField GenNames.
Import StringSyntax.
Open Scope nat_scope.

Definition path := list bytes.

(** What Proto has to do with names, proto.go:34-56.  Imports: whether public, and the file. *)
Record pfile := mkFile { f_pkg : path; f_enums : list bytes; f_msgs : list mtree; f_imports : list (bool * nat) }.

Fixpoint path_eqb (a b : path) : bool :=
  match a, b with
  | [], [] => true
  | x :: a', y :: b' => str_eqb x y && path_eqb a' b'
  | _, _ => false
  end.
(** trimPathPrefix(a, b): a[len(b)+1:] if hasPathPrefix(a, b).  What is left of a name is
    never empty. *)
Fixpoint trim_prefix (a b : path) : option path :=
  match b, a with
  | [], [] => None
  | [], _ => Some a
  | y :: b', x :: a' => if str_eqb x y then trim_prefix a' b' else None
  | _ :: _, [] => None
  end.
(** hasPathPrefix(a, "") is false: it would need a name that starts with a dot *)
Definition trimPathPrefix (a b : path) : option path :=
  match b with [] => None | _ => trim_prefix a b end.
Definition hasPathPrefix (a b : path) : bool := match trimPathPrefix a b with Some _ => true | None => false end.

(** The first element for which [f] finds something *)
Definition first_some {A B} (f : A -> option B) : list A -> option B :=
  fix go l := match l with
              | [] => None
              | x :: r => match f x with Some y => Some y | None => go r end
              end.

(** for _, x := range Enums { if x.Name == name { return x } } *)
Definition find_enum (es : list bytes) (name : path) : option path :=
  match name with
  | [n] => first_some (fun e => if str_eqb e n then Some [e] else None) es
  | _ => None
  end.

(** Message.getType, message.go:99-116.  A type is identified by its path, here relative to
    what the message is declared in. *)
Fixpoint msg_getType (m : mtree) (name : path) : option path :=
  match m with
  | MT n es ms =>
      if path_eqb [n] name then Some [n]
      else match trimPathPrefix name [n] with
           | None => None
           | Some rest =>
               match find_enum es rest with
               | Some r => Some (n :: r)
               | None => match first_some (fun x => msg_getType x rest) ms with
                         | Some r => Some (n :: r)
                         | None => None
                         end
               end
           end
  end.

Section Files.
Variable F : nat -> pfile.

(** Proto.getType, proto.go:84-107: a file and the path of a type in it.  [fuel] bounds the
    chain of public imports plus the number of retries without the package; with it used up
    the answer is None.  Imports are acyclic (C48) and retries shorten the name, so that
    there always is enough fuel. *)
Fixpoint proto_getType (fuel : nat) (p : nat) (name : path) : option (nat * path) :=
  match fuel with
  | O => None
  | S k =>
      let f := F p in
      match first_some (fun m => msg_getType m name) (f_msgs f) with
      | Some r => Some (p, r)
      | None =>
          match find_enum (f_enums f) name with
          | Some r => Some (p, r)
          | None =>
              match first_some (fun i : bool * nat => if fst i then proto_getType k (snd i) name else None) (f_imports f) with
              | Some t => Some t
              | None =>
                  match trimPathPrefix name (f_pkg f) with
                  | Some rest => proto_getType k p rest
                  | None => None
                  end
              end
          end
      end
  end.

(** The loop over the enclosing messages, type.go:150-168.  [chain]: the enclosing messages,
    innermost first, each with the path of what it is declared in. *)
Fixpoint search_messages (chain : list (path * mtree)) (name : path) : option path :=
  match chain with
  | [] => None
  | (q, MT n es ms) :: r =>
      match msg_getType (MT n es ms) name with
      | Some t => Some (q ++ t)
      | None =>
          match find_enum es name with
          | Some t => Some (q ++ n :: t)
          | None =>
              match first_some (fun m => msg_getType m name) ms with
              | Some t => Some (q ++ n :: t)
              | None => search_messages r name
              end
          end
      end
  end.

(** The files searched, type.go:171-191 *)
Definition search_files (p : nat) (dot : bool) (name : path) : list nat :=
  let f := F p in
  p :: map snd (filter (fun i => path_eqb (f_pkg f) (f_pkg (F (snd i)))) (f_imports f)) ++
  (if dot then [] else map snd (filter (fun i => hasPathPrefix name (f_pkg (F (snd i)))) (f_imports f))).

Inductive resolved := RScalar | RType (file : nat) (p : path) | RNotFound.

(** Type.resolve, type.go:121-201.  [chain] is empty for the types of methods; the check of
    lines 142-147 is the first round of the loop.  With a leading dot no message or enum
    compares equal before the dot is trimmed. *)
Definition resolve (fuel : nat) (allowScalar : bool) (p : nat) (chain : list (path * mtree)) (dot : bool) (name : path) : resolved :=
  if allowScalar && negb dot && match name with [n] => existsb (str_eqb n)
       [bs "double"; bs "float"; bs "int32"; bs "int64"; bs "uint32"; bs "uint64"; bs "sint32"; bs "sint64";
        bs "fixed32"; bs "fixed64"; bs "sfixed32"; bs "sfixed64"; bs "bool"; bs "string"; bs "bytes"]
     | _ => false end
  then RScalar
  else
    match (if dot then None else search_messages chain name) with
    | Some t => RType p t
    | None =>
        match first_some (fun x => proto_getType fuel x name) (search_files p dot name) with
        | Some (x, t) => RType x t
        | None => RNotFound
        end
    end.
End Files.
