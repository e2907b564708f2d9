(** * C94: guards of arms are unsupported

    Only the statements below and [guards_expr] of HirSpec.v have to be read. *)
From Coq Require Import List Arith Bool Lia.
From Verif Require Import Base FactsModel CfgModel CfgSpec CfgProofs SegMirModel SegMirSpec HirModel HirSpec HirProofs HirGuards PropHir.
Import ListNotations.

(** What is reported as unsupported are arms with guards, each at most once and in the order of the source. *)
Theorem C94_reported :
  forall env value ids, compute env value = Val (HUnsupported ids) -> ids <> [] /\ Subsequence ids (guards_expr value).
Proof.
  intros env value ids C. unfold compute in C. apply bind_Val in C as (h & V & C).
  destruct (guarded_body env value _ _ V) as (us & es & U & _ & S1 & _). cbn [h_unsupported hmake app] in U. rewrite U in C.
  destruct us as [|u us]; [destruct (h_fatal h); [destruct (freeze (h_st h))|]; discriminate|]. injection C as <-. split; [discriminate|auto].
Qed.
Print Assumptions C94_reported.

(** Without guards nothing is unsupported. *)
Theorem C94_supported :
  forall env value, guards_expr value = [] -> forall ids, compute env value <> Val (HUnsupported ids).
Proof.
  intros env value G ids C. apply C94_reported in C as [N S1]. rewrite G in S1. inversion S1. auto.
Qed.
Print Assumptions C94_supported.

(** If every decision and each of its sides has a place in the code, then a function with a guard is never
    answered with steps. *)
Theorem C94_never_silent_partial :
  forall env value h, compute env value = Val (HDone h) -> located_expr env value -> guards_expr value = [].
Proof.
  intros env value h C L. destruct (done_visit _ _ _ C) as (V & U & F & _).
  destruct (guarded_body env value _ _ V) as (us & es & Eu & Ef & _ & H). rewrite U in Eu. rewrite F in Ef. cbn in Eu, Ef.
  symmetry in Eu, Ef. auto.
Qed.
Print Assumptions C94_never_silent_partial.

Module GuardDemo.
  Import PropHir.Demo.
  (** [fn f() { match a { p if g => s, q => t } }] *)
  Definition body : body :=
    [ Block 1 false (TSwitchInt [1; 3]); Block 1 false (TSwitchInt [2; 3]); Block 1 false (TOther [4]); Block 1 false (TOther [4]); Block 0 false TReturn ].
  Definition hir : expr :=
    EBlock 1 (Blk (Scons (SExpr 2 (EMatch 3 false (e 4) (Acons (Arm 5 6 (ESome (e 7)) (e 8)) (Acons (Arm 9 10 ENone (e 11)) Anil)))) Snil) ENone).
  Definition genv : henv := env body false
    [(4, [Loc 0 0]); (7, [Loc 1 0]); (8, [Loc 2 0]); (11, [Loc 3 0])]
    [(4, [3; 2; 1]); (7, [5; 3; 2; 1]); (8, [5; 3; 2; 1]); (11, [9; 3; 2; 1])].

  (** The same where the switch belongs to no node. *)
  Definition apart : henv := env apart_body false
    [(8, [Loc 1 0]); (11, [Loc 2 0])] [(8, [5; 3; 2; 1]); (11, [9; 3; 2; 1])].
  Definition apart_done : hst := Eval vm_compute in match compute apart hir with Val (HDone h) => h | _ => hmake end.
End GuardDemo.

Example C94_witness : compute GuardDemo.genv GuardDemo.hir = Val (HUnsupported [5]) /\ guards_expr GuardDemo.hir = [5] /\
  compute PropHir.Demo.if_env PropHir.Demo.if_hir = Val (HDone PropHir.Demo.if_done) /\ located_expr PropHir.Demo.if_env PropHir.Demo.if_hir.
Proof.
  split; [vm_compute; reflexivity|]. split; [reflexivity|]. split; [vm_compute; reflexivity|].
  cbn. unfold decided, found. repeat split; try discriminate; exact I.
Qed.

(** Without that, a guard can be passed over in silence: the arms are left out, and the answer is a success. *)
Theorem C94_silent_refuted :
  exists env value h, WfBody (he_body env) /\ Executable env /\ compute env value = Val (HDone h) /\ guards_expr value <> [].
Proof.
  exists GuardDemo.apart, GuardDemo.hir, GuardDemo.apart_done. split; [apply PropHir.Demo.apart_wf|].
  split; [apply PropHir.Demo.executable_check_ok; [apply PropHir.Demo.apart_wf|(vm_compute; reflexivity)]|]. split; [(vm_compute; reflexivity)|].
  discriminate.
Qed.
Print Assumptions C94_silent_refuted.
