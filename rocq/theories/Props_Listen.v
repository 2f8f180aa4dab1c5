(** C72: the schema that is built for a file is what the file says.

    [file_means] (ListenSpec.v) says what the tree of a parse tree is: every definition, with its
    name, numbers, labels, options and reserved ranges, where it is in the text and in the order of the
    text.  [load] (Listen.v) runs the listeners on the calls of the tree walker. *)
From Coq Require Import List Arith Bool ZArith Lia Strings.String Init.Byte Permutation.
From Verif Require Import Base GoStr GenField Verify StrLit Listen ListenSpec ListenProofs.
Import ListNotations StringSyntax.
Open Scope nat_scope.

(** A file is accepted exactly if it has a meaning, and then its objects show that meaning; no
    listener indexes an empty stack. *)
Theorem C72_mirror : forall f, parsed f ->
  match load f with
  | LOk st => exists t, file_means f t /\ shows_file st t
  | LFatal => forall t, ~ file_means f t
  | LPanic => False
  end.
Proof. exact load_ok. Qed.
Print Assumptions C72_mirror.

(** There is only one such tree. *)
Theorem C72_unique : forall f t t', file_means f t -> file_means f t' -> t = t'.
Proof. exact file_fun. Qed.
Print Assumptions C72_unique.

(** Every message and every enum is in exactly one list: of the file, or of one message. *)
Theorem C72_once : forall f st, load f = LOk st -> listed_once st.
Proof. intros f st H. eapply run_once; [exact H|]. split; apply Permutation_refl. Qed.
Print Assumptions C72_once.

(** The fields of a oneof are the fields of its message that name it, in the same order. *)
Theorem C72_oneofs : forall ed n l fs os es ms oo rr i o,
  msg_means ed (n, l) (TM n fs os es ms oo rr) -> nth_error os i = Some o ->
  on_fields o = filter (fun x => match fl_oneof x with Some j => j =? i | None => false end) fs.
Proof. exact oneofs_filter. Qed.
Print Assumptions C72_oneofs.

(** *** An example *)
Definition fld (t n num : bytes) (oo : list (bytes * bytes)) : sfield := mkSF t n num oo.
(** syntax = "proto3"; package a.b; import public "x.proto"; option go_package = "g";
    message M { int32 a = 1; oneof o { string s = 2; option packed = true; T t = 0x3 [json_name = "q"]; }
                message N { enum E { Z = 0; option allow_alias = true; P = -1; reserved 5 to max; } map<string, E> m = 1; }
                repeated N ns = 4; oneof p { bool z = 5; } reserved 10 to 12; }
    service S { option deprecated = true; rpc F(stream M) returns (M) { option idempotent = true; } rpc G(M) returns (stream M); } *)
Definition example : sfile := mkSFile (Some (bs """proto3"""))
  [ StPackage (bs "a.b"); StImport true (bs """x.proto"""); StOption (bs "go_package") (bs """g""");
    StMsg (bs "M")
      [ SmField None (fld (bs "int32") (bs "a") (bs "1") []);
        SmOneof (bs "o") [SoField (fld (bs "string") (bs "s") (bs "2") []); SoOption (bs "packed") (bs "true");
                          SoField (fld (bs "T") (bs "t") (bs "0x3") [(bs "json_name", bs """q""")])];
        SmMsg (bs "N")
          [ SmEnum (mkSEn (bs "E") [SeField (bs "Z") false (bs "0") []; SeOption (bs "allow_alias") (bs "true");
                                    SeField (bs "P") true (bs "1") []; SeReserved [(bs "5", ToMax)]; SeOther]);
            SmMap (bs "string") (fld (bs "E") (bs "m") (bs "1") []) ];
        SmField (Some LRepeated) (fld (bs "N") (bs "ns") (bs "4") []);
        SmOneof (bs "p") [SoField (fld (bs "bool") (bs "z") (bs "5") [])];
        SmReserved [(bs "10", ToLit (bs "12"))] ];
    StService (bs "S")
      [ SsOption (bs "deprecated") (bs "true");
        SsRpc (mkSRpc (bs "F") (Some 10) (bs "M", 17) None (bs "M", 30) [(bs "idempotent", bs "true")]);
        SsRpc (mkSRpc (bs "G") None (bs "M", 50) (Some 60) (bs "M", 67) []) ] ].
Definition plain (t n : bytes) (num : Z) (i : option nat) : field := mkF n None t num false false false [] i.
Definition example_tree : tfile :=
  TF (bs "proto3") (bs "a.b") [(bs "go_package", bs "g")] [(bs "x.proto", true)]
    [TM (bs "M")
       [plain (bs "int32") (bs "a") 1 None; plain (bs "string") (bs "s") 2 (Some 0);
        mkF (bs "t") None (bs "T") 3 false false false [(bs "json_name", bs "q")] (Some 0);
        mkF (bs "ns") None (bs "N") 4 true false false [] None; plain (bs "bool") (bs "z") 5 (Some 1)]
       [mkO (bs "o") [(bs "packed", bs "true")]
          [plain (bs "string") (bs "s") 2 (Some 0); mkF (bs "t") None (bs "T") 3 false false false [(bs "json_name", bs "q")] (Some 0)];
        mkO (bs "p") [] [plain (bs "bool") (bs "z") 5 (Some 1)]]
       []
       [TM (bs "N") [mkF (bs "m") (Some (bs "string")) (bs "E") 1 false false false [] None] []
          [TE (bs "E") [mkEF (bs "Z") 0 []; mkEF (bs "P") (-1) []] [(bs "allow_alias", bs "true")] [(5%Z, 2147483647%Z)]] [] [] []]
       [] [(10%Z, 12%Z)]]
    []
    [mkSv (bs "S") [mkMe (bs "F") true (bs "M") false (bs "M") [(bs "idempotent", bs "true")]; mkMe (bs "G") false (bs "M") true (bs "M") []]
       [(bs "deprecated", bs "true")]].
Example C72_example : parsed example /\ exists st, load example = LOk st /\ shows_file st example_tree /\ file_means example example_tree.
Proof.
  assert (P : parsed example).
  { unfold parsed, example; cbn [sfl_defs].
    repeat (apply Forall_cons || apply Forall_nil || exact Logic.I || (intro; discriminate)); unfold rpc_ordered; cbn; lia. }
  split; [exact P|].
  assert (L : exists st, load example = LOk st /\ shows_file st example_tree).
  { eexists. split; [vm_compute; reflexivity|]. unfold shows_file. repeat apply conj; try reflexivity.
    - apply Forall2_cons; [|apply Forall2_nil]. econstructor; [reflexivity|apply Forall2_nil|]. apply Forall2_cons; [|apply Forall2_nil].
      econstructor; [reflexivity| |apply Forall2_nil]. apply Forall2_cons; [reflexivity|apply Forall2_nil].
    - apply Forall2_nil. }
  destruct L as (st & L & S1). exists st. split; [exact L|]. split; [exact S1|].
  pose proof (load_ok example P) as H. rewrite L in H. destruct H as (t & M & S2).
  now rewrite (shows_file_fun st _ _ S1 S2).
Qed.
(** [required] is for proto2; `option packed = maybe` has no meaning. *)
Example C72_rejected :
  load (mkSFile (Some (bs """proto3""")) [StMsg (bs "M") [SmField (Some LRequired) (fld (bs "int32") (bs "a") (bs "1") [])]]) = LFatal /\
  load (mkSFile None [StMsg (bs "M") [SmOption (bs "packed") (bs "maybe")]]) = LFatal /\
  load (mkSFile None [StPackage (bs "a"); StPackage (bs "b")]) = LFatal.
Proof. repeat split; vm_compute; reflexivity. Qed.
