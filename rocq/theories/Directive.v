(** Model of the parsing of directives, prutalgen/pkg/prutalgen/directive.go. *)
From Coq Require Import Strings.String Init.Byte.
From Verif Require Import Base GoStr GenField.
Import StringSyntax.

(** prutalDirectivePrefix, directive.go:22 *)
Definition prutalDirectivePrefix : bytes := bs "//prutalgen:".

(** The inner loop of parse, directive.go:90-96.  Every round shortens [s], so that [fuel] =
    length s suffices (DirectiveProofs.v). *)
Fixpoint parse_names (fuel : nat) (s : bytes) : list bytes :=
  match fuel with
  | O => []
  | S k =>
      match s with
      | [] => []
      | _ =>
          let (d, rest) := Cut x2c s in
          let d := TrimSpace d in
          (match d with [] => [] | _ => [d] end) ++ parse_names k rest
      end
  end.
(** Directives.parse, directive.go:81-98 *)
Fixpoint parse_lines (fuel : nat) (input : bytes) : list bytes :=
  match fuel with
  | O => []
  | S k =>
      match input with
      | [] => []
      | _ =>
          let (s, rest) := Cut x0a input in
          let s := TrimSpace s in
          (if HasPrefix s prutalDirectivePrefix
           then let t := skipn (length prutalDirectivePrefix) s in parse_names (length t) t
           else []) ++ parse_lines k rest
      end
  end.
Definition dir_parse (input : bytes) : list bytes := parse_lines (length input) input.
(** Directives.Parse, directive.go:74-79 *)
Definition DirectivesParse (ss : list bytes) : list bytes := concat (map dir_parse ss).
