(** Where the definitions of a file stand among its tokens. *)
From Coq Require Import List ZArith Init.Byte.
From Verif Require Import Base Comments Atn LexFile Listen ParserNames Parser Walk.
Import ListNotations.
Open Scope nat_scope.

(** The token [x] of the parser is the token with the index [i] of the file: before it are [i] tokens, of
    all channels, and as many characters as it says. *)
Definition text_of_item (i : item) : list Z := match i with ITok _ _ t => t | IErr t => t end.
Definition is_token (i : item) : bool := match i with ITok _ _ _ => true | IErr _ => false end.
Definition stands_at (items : list item) (i : nat) (x : tok) : Prop :=
  exists a b, items = a ++ ITok (t_kind x) 0%Z (t_text x) :: b /\ i = length (filter is_token a) /\
    t_start x = length (concat (map text_of_item a)).
(** The tokens of a tree, from left to right *)
Fixpoint yield (x : tree) : list tok := match x with Leaf t => [t] | Node _ l => flat_map yield l end.
(** In the tree [x], whose parent has the rule [p], is a node of the rule [r] with the children [f], whose
    parent has the rule [q]. *)
Inductive node_in : nat -> tree -> nat -> nat -> list tree -> Prop :=
| ni_here p r f : node_in p (Node r f) p r f
| ni_below p r l y q s f : In y l -> node_in r y q s f -> node_in p (Node r l) q s f.
(** [d] is the place of the node for which the listener was called with [e]: from the first of its tokens to the last *)
Definition place (items : list item) (x : tree) (e : event) (d : def) : Prop :=
  exists q r f es a b u v, node_in r_proto x q r f /\ (enter q r f = Some es \/ exit q r f = Some es) /\ In e es /\
    flat_map yield f = a :: u /\ flat_map yield f = v ++ [b] /\ stands_at items (d_start d) a /\ stands_at items (d_stop d) b.
(** The calls for what can have comments: messages, enums and their values, fields (but not those of an
    extend block), services and methods *)
Inductive documented : event -> Prop :=
| dc_message p n : documented (EnterMessageDef p n)
| dc_enum p n : documented (EnterEnumDef p n)
| dc_value n m v o : documented (ExitEnumField n m v o)
| dc_oneof_field f : documented (ExitOneofField f)
| dc_map p f : documented (ExitMapField p f)
| dc_service n : documented (EnterServiceDef n)
| dc_rpc r : documented (EnterRpc r)
| dc_field p m f : p <> RExtend -> documented (ExitField p m f).
