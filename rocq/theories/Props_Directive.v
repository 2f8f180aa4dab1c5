(** Property theorems about directives and options. *)
From Coq Require Import Strings.String Init.Byte.
From Verif Require Import Base GoStr StrFacts GenField GenFieldProofs Directive DirectiveSpec DirectiveProofs.
Import StringSyntax.
Open Scope nat_scope.

(** C51.  The directives found in comments are those [comment_directives] (DirectiveSpec.v)
    describes, and no others. *)
Theorem C51_directives : forall s dd, DirectivesParse [s] = dd <-> comment_directives s dd.
Proof. intros s dd. unfold DirectivesParse. cbn [map concat]. rewrite app_nil_r. symmetry. apply dir_parse_spec. Qed.
Print Assumptions C51_directives.
(** Several comments add up. *)
Theorem C51_comments : forall ss dds, Forall2 comment_directives ss dds -> DirectivesParse ss = concat dds.
Proof.
  intros ss dds F. unfold DirectivesParse. f_equal. induction F as [|s dd ss dds H F IH]; [reflexivity|].
  cbn [map]. apply dir_parse_spec in H. now rewrite H, IH.
Qed.
Print Assumptions C51_comments.
(** Options.Get gives the value of the last option of the name. *)
Theorem C51_options : forall oo n,
  (forall v, opt_get oo n = Some v <-> exists before after, oo = before ++ (n, v) :: after /\ ~ In n (map fst after)) /\
  (opt_get oo n = None <-> ~ In n (map fst oo)).
Proof. intros oo n. split; [intro v; apply opt_get_last|apply opt_get_absent]. Qed.
Print Assumptions C51_options.
(** Directives.Has finds a directive; IsSet tells by the first of a directive and its
    opposite which one applies. *)
Theorem C51_has : forall dd d, dir_has dd d = true <-> In d dd.
Proof.
  intros dd d. unfold dir_has. rewrite existsb_exists. split.
  - intros (s & I & Q). destruct (str_eqb_spec s d); [now subst|discriminate].
  - intro I. exists d. split; [exact I|apply str_eqb_refl].
Qed.
Print Assumptions C51_has.
Theorem C51_is_set : forall dd d, 
  (forall b, dir_is_set dd d = Some b <->
     exists before after, dd = before ++ (if b then d else bs "no_" ++ d) :: after /\
       ~ In d before /\ ~ In (bs "no_" ++ d) before) /\
  (dir_is_set dd d = None <-> ~ In d dd /\ ~ In (bs "no_" ++ d) dd).
Proof.
  intros dd d.
  assert (NE : d <> bs "no_" ++ d). { intro Q. apply (f_equal (@length _)) in Q. rewrite app_length in Q. cbn in Q. induction (length d); cbn in *; [discriminate|auto]. }
  induction dd as [|s r [IH1 IH2]]; cbn [dir_is_set].
  - split; [|cbn; tauto]. intros b. split; [discriminate|]. intros (a & c & Q & _). destruct a; discriminate.
  - destruct (str_eqb_spec s d) as [->|N1]; [|destruct (str_eqb_spec s (bs "no_" ++ d)) as [->|N2]].
    + split; [|cbn; split; [discriminate|tauto]]. intros b. split.
      * intros [= <-]. exists [], r. auto.
      * intros ([|x a] & c & Q & A & B); [destruct b; [reflexivity|apply (f_equal (hd [])) in Q; exfalso; exact (NE Q)]|].
        apply (f_equal (hd [])) in Q. exfalso. apply A. left. exact (eq_sym Q).
    + split; [|cbn; split; [discriminate|tauto]]. intros b. split.
      * intros [= <-]. exists [], r. auto.
      * intros ([|x a] & c & Q & A & B); [destruct b; [apply (f_equal (hd [])) in Q; exfalso; exact (NE (eq_sym Q))|reflexivity]|].
        apply (f_equal (hd [])) in Q. exfalso. apply B. left. exact (eq_sym Q).
    + split.
      * intros b. rewrite IH1. split.
        -- intros (a & c & -> & A & B). exists (s :: a), c. cbn [In app]. intuition.
        -- intros ([|x a] & c & Q & A & B); [destruct b; apply (f_equal (hd [])) in Q; exfalso; [exact (N1 Q)|exact (N2 Q)]|].
           injection Q as -> ->. exists a, c. cbn [In] in *. tauto.
      * rewrite IH2. cbn [In]. tauto.
Qed.
Print Assumptions C51_is_set.
Definition nl : bytes := [x0a].
Example C51_ex : DirectivesParse [bs "// a message" ++ nl ++ bs "  //prutalgen:no_pointer, ,unknown_fields ," ++ nl ++ bs "//prutalgen no" ++ nl;
                                  bs "//prutalgen:x"] =
  [bs "no_pointer"; bs "unknown_fields"; bs "x"].
Proof. vm_compute. reflexivity. Qed.
