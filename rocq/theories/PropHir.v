(** * Properties C33 and C83: walking the source of a function

    Only the statements below and HirSpec.v, SegMirSpec.v and CfgSpec.v have to be read:
    which steps a function has ([steps_body]), which locations a node has, and the
    builder's well-nested histories. *)
From Coq Require Import List Arith Bool Lia.
From Verif Require Import Base FactsModel CfgModel CfgSpec CfgProofs SegMirModel SegMirSpec SegMirProofs
  SegMirScopes SegMirClose SegMirTree HirModel HirSpec HirProofs.
Import ListNotations.

Module Demo.
  (** [parents]: the nodes that contain a node. *)
  Definition env (bd : body) (fw : bool) (m : list (nat * list loc)) (parents : list (nat * list nat)) : henv :=
    Henv bd (fun l => l) fw 9 m (fun c id => existsb (Nat.eqb id) (match aget Nat.eq_dec parents c with Some l => l | None => [] end))
      (fun id => 100 + id) (fun id => 200 + id) (fun id => 300 + id) 0 (fun m => m) (fun id => if id =? 5 then [3] else []).
  Definition e (id : nat) : expr := EOther id Enil.

  (** [fn f() { if a { s } else { t } u }] *)
  Definition if_body : body :=
    [ Block 1 false (TSwitchInt [1; 2]); Block 1 false (TOther [3]); Block 1 false (TOther [3]); Block 1 false TReturn ].
  Definition if_hir : expr :=
    EBlock 1 (Blk (Scons (SExpr 2 (EIf 3 (e 4)
      (EBlock 5 (Blk (Scons (SExpr 6 (e 7)) Snil) ENone))
      (ESome (EBlock 8 (Blk (Scons (SExpr 9 (e 10)) Snil) ENone))))) Snil) (ESome (e 11))).
  Definition if_env : henv := env if_body false
    [(4, [Loc 0 0; Loc 0 1]); (7, [Loc 1 0]); (10, [Loc 2 0]); (11, [Loc 3 0])]
    [(4, [3; 2; 1]); (7, [6; 5; 3; 2; 1]); (10, [9; 8; 3; 2; 1]); (11, [1])].

  (** [fn f() { if a { b && { s; true }; } }] *)
  Definition lazy_body : body :=
    [ Block 1 false (TSwitchInt [1; 2]); Block 1 false (TSwitchInt [3; 4]); Block 0 false (TOther [6]);
      Block 1 false (TOther [5]); Block 0 false (TOther [5]); Block 1 false (TOther [6]); Block 1 false TReturn ].
  Definition lazy_hir : expr :=
    EBlock 1 (Blk (Scons (SExpr 2 (EIf 3 (e 4)
      (EBlock 5 (Blk (Scons (SExpr 6 (EOther 7 (Econs (e 8) (Econs (EBlock 9 (Blk (Scons (SExpr 10 (e 11)) Snil) (ESome (e 12)))) Enil)))) Snil) ENone))
      ENone)) Snil) ENone).
  Definition lazy_env (fw : bool) : henv := env lazy_body fw
    [(4, [Loc 0 0]); (8, [Loc 1 0]); (11, [Loc 3 0]); (12, [Loc 3 1]); (7, [Loc 5 0])]
    [(4, [3; 2; 1]); (8, [7; 6; 5; 3; 2; 1]); (11, [10; 9; 7; 6; 5; 3; 2; 1]); (12, [9; 7; 6; 5; 3; 2; 1]); (7, [6; 5; 3; 2; 1])].
  (** [fn f() { match x { _ => loop {} } }] *)
  Definition spin_body : body := [ Block 1 false (TOther [1]); Block 0 false (TOther [1]) ].
  Definition spin_hir : expr := EBlock 1 (Blk Snil (ESome (EMatch 2 false (e 3) (Acons (Arm 4 5 ENone (EBlock 6 (Blk Snil ENone))) Anil)))).
  Definition spin_env : henv := env spin_body false [(3, [Loc 0 0]); (6, [Loc 1 0])] [(3, [2; 1]); (6, [4; 2; 1])].
  (** [fn f() { if a { b && { c && { s; true } } } }] *)
  Definition lazier_body : body :=
    [ Block 1 false (TSwitchInt [1; 2]); Block 1 false (TSwitchInt [3; 4]); Block 0 false (TOther [9]);
      Block 1 false (TSwitchInt [5; 6]); Block 0 false (TOther [8]); Block 1 false (TOther [7]); Block 0 false (TOther [7]);
      Block 1 false (TOther [8]); Block 1 false (TOther [9]); Block 1 false TReturn ].
  Definition lazier_hir : expr :=
    EBlock 1 (Blk Snil (ESome (EIf 3 (e 4) (EBlock 5 (Blk Snil (ESome
      (EOther 7 (Econs (e 8) (Econs (EBlock 9 (Blk Snil (ESome
        (EOther 10 (Econs (e 11) (Econs (EBlock 12 (Blk (Scons (SExpr 13 (e 14)) Snil) ENone)) Enil)))))) Enil)))))) ENone))).
  Definition lazier_env : henv := env lazier_body false
    [(4, [Loc 0 0]); (8, [Loc 1 0]); (11, [Loc 3 0]); (14, [Loc 5 0]); (10, [Loc 7 0]); (7, [Loc 8 0])]
    [(4, [3; 1]); (8, [7; 5; 3; 1]); (11, [10; 9; 7; 5; 3; 1]); (14, [13; 12; 10; 9; 7; 5; 3; 1]);
     (10, [9; 7; 5; 3; 1]); (7, [5; 3; 1])].

  (** Two blocks, each on one side of a switch that belongs to no node. *)
  Definition apart_body : body :=
    [ Block 0 false (TSwitchInt [1; 2]); Block 1 false (TOther [3]); Block 1 false (TOther [3]); Block 0 false TReturn ].
  Definition apart_hir : expr :=
    EBlock 1 (Blk (Scons (SExpr 2 (EIf 3 (e 4) (EBlock 5 (Blk (Scons (SExpr 6 (e 7)) Snil) ENone))
      (ESome (EBlock 8 (Blk (Scons (SExpr 9 (e 10)) Snil) ENone))))) Snil) ENone).
  Definition apart_env : henv := env apart_body false
    [(7, [Loc 1 0]); (10, [Loc 2 0])] [(7, [6; 5; 3; 2; 1]); (10, [9; 8; 3; 2; 1])].

  Lemma if_wf : WfBody if_body. Proof. apply wf_check_ok. vm_compute. reflexivity. Qed.
  Lemma lazy_wf : WfBody lazy_body. Proof. apply wf_check_ok. vm_compute. reflexivity. Qed.
  Lemma lazier_wf : WfBody lazier_body. Proof. apply wf_check_ok. vm_compute. reflexivity. Qed.
  Lemma spin_wf : WfBody spin_body. Proof. apply wf_check_ok. vm_compute. reflexivity. Qed.
  Lemma apart_wf : WfBody apart_body. Proof. apply wf_check_ok. vm_compute. reflexivity. Qed.

  Definition executable_check (env : henv) : bool :=
    forallb (fun x => forallb (reach_check (he_body env)) (snd x)) (he_map env).
  Lemma executable_check_ok env : WfBody (he_body env) -> executable_check env = true -> Executable env.
  Proof.
    intros Wf C id ls l I J. unfold executable_check in C. rewrite forallb_forall in C. apply C in I. cbn in I.
    rewrite forallb_forall in I. apply reach_check_ok; auto.
  Qed.
  Definition if_done : hst := Eval vm_compute in match compute if_env if_hir with Val (HDone h) => h | _ => hmake end.
  Definition lazy_done : hst := Eval vm_compute in match compute (lazy_env true) lazy_hir with Val (HDone h) => h | _ => hmake end.
  Definition apart_done : hst := Eval vm_compute in match compute apart_env apart_hir with Val (HDone h) => h | _ => hmake end.
  Lemma if_runs : compute if_env if_hir = Val (HDone if_done). Proof. vm_compute. reflexivity. Qed.
  Lemma lazy_runs : compute (lazy_env true) lazy_hir = Val (HDone lazy_done). Proof. vm_compute. reflexivity. Qed.
  Lemma apart_runs : compute apart_env apart_hir = Val (HDone apart_done). Proof. vm_compute. reflexivity. Qed.
End Demo.

(** ** Helpers *)

Lemma start_made env : Steps (fun _ => True) (he_fw env) (he_body env) (he_ord env) make (h_st hmake).
Proof. constructor. Qed.

Lemma walked env v h : visit_body env v hmake = Val h ->
  Steps (fun _ => True) (he_fw env) (he_body env) (he_ord env) make (h_st h).
Proof. intros H. exact (anything env hmake h (Walk_body env v hmake h H)). Qed.

Lemma done_visit env v h : compute env v = Val (HDone h) ->
  visit_body env v hmake = Val h /\ h_unsupported h = [] /\ h_fatal h = [] /\ freeze (h_st h) = true.
Proof.
  unfold compute. intros H. apply bind_Val in H. destruct H as (h1 & H1 & H). injection H as H.
  destruct (h_unsupported h1) eqn:U; [|discriminate]. destruct (h_fatal h1) eqn:F; [|discriminate].
  destruct (freeze (h_st h1)) eqn:Z; [|discriminate]. injection H as <-. auto.
Qed.

Lemma node_reachable env l : WfBody (he_body env) -> Order (he_ord env) -> Executable env -> OfNode env l ->
  ReachableLoc (he_body env) l.
Proof.
  intros Wf O E (id & H).
  assert (V : forall x, In x (node_locs env id) -> ReachableLoc (he_body env) x).
  { intros x I. unfold node_locs in I. rewrite nodup_In in I. apply in_app_or in I. destruct I as [I|I].
    - destruct (aget Nat.eq_dec (he_map env) id) as [ls|] eqn:A; [|destruct I]. apply aget_Some_In in A. exact (E id ls x A I).
    - apply in_flat_map in I as ([c ls] & J & I). cbn [fst snd] in I. destruct (he_inside env c id); [|destruct I]. exact (E c ls x J I). }
  unfold node_entry, node_exit in H.
  destruct (get_mir_locations (he_body env) (he_ord env) (node_locs env id)) as [m|] eqn:G; [|destruct H; discriminate].
  destruct (get_mir_locations_shape _ _ _ _ (fun x I => ReachableLoc_valid _ _ Wf (V x I)) G) as (ND & NE & Vals & Eb & Xb).
  assert (In_values : forall b i is, aget Nat.eq_dec (locations m) b = Some is -> In i is -> ReachableLoc (he_body env) (Loc b i)).
  { intros b i is A I. apply V. apply (Vals (Loc b i)). apply in_flat_map. exists (b, is). split; [apply aget_Some_In in A; auto|].
    cbn [fst snd]. apply in_map_iff. eauto. }
  destruct H as [H|H].
  - unfold entry_location in H. destruct (entry_block m) as [b|]; [|discriminate].
    destruct (aget Nat.eq_dec (locations m) b) as [[|i is]|] eqn:A; try discriminate. injection H as <-.
    apply (In_values b i (i :: is)); auto. left. auto.
  - destruct (exit_location m) as [e|] eqn:Ee; [|discriminate].
    assert (Re : ReachableLoc (he_body env) e).
    { unfold exit_location in Ee. destruct (exit_block m) as [b|] eqn:B; [|discriminate].
      assert (K : In b (akeys (locations m))).
      { symmetry in Xb. unfold find_exit in Xb. apply find_some in Xb. destruct Xb as [K _]. exact (proj1 (O _ _) K). }
      destruct (aget Nat.eq_dec (locations m) b) as [is|] eqn:A; [|apply aget_None in A; contradiction].
      destruct (rev is) as [|i r] eqn:Rv; [discriminate|]. injection Ee as <-. apply (In_values b i is A). apply in_rev. rewrite Rv. left. auto. }
    destruct (location_successor (he_body env) e) as [e'|] eqn:Sc; injection H as <-; auto.
    apply location_successor_step in Sc; [|auto|apply ReachableLoc_valid; auto]. destruct Sc as [St _]. destruct Re as [p Re].
    exists (p ++ [e']). eapply walk_snoc; eauto.
Qed.

(** ** C33: the walk closes what it opens *)

(** Whatever the source and the locations attributed to its nodes: after the walk the
    scopes that are open are those that were open before -- the base scope alone -- and so
    are the branch hints.  The only error of the walk is that a branch cannot be opened. *)
Theorem C33_scopes :
  forall env value h, WfBody (he_body env) -> visit_body env value hmake = Val h ->
    open_scopes (h_st h) = [0] /\ h_hints h = [] /\ forall e, In e (h_fatal h) -> exists l, e = ErrBranch l.
Proof.
  intros env value h Wf V. apply Walk_body in V. destruct (Walk_sound _ _ _ Wf V SI_make) as (H1 & H2 & es & H3 & H4).
  split; [exact H1|split; [exact H2|]]. rewrite H3. exact H4.
Qed.
Print Assumptions C33_scopes.

(** What the walk did to the builder is a well-nested history of the builder's operations,
    all of them at the beginning or after the end of a node. *)
Theorem C33_history :
  forall env value h, visit_body env value hmake = Val h ->
    (forall m e, In e (he_entries env m) -> In e m) ->
    exists os, Nested (he_fw env) (he_body env) (he_ord env) (he_fuel env) make os (h_st h) /\
      Forall (fun o => match o with
                       | OpInsert l _ => OfNode env l
                       | OpOpenBranch l sp => OfNode env l /\ forall e, In e (sp_entries sp) -> OfNode env (fst e)
                       | _ => True
                       end) os.
Proof.
  intros env value h V I. apply Walk_body in V.
  destruct (Walk_Nested env (OfNode env) (fun l H => H)) with (h := hmake) (h' := h) as (os & N & F); auto.
  exists os. split; [exact N|exact F].
Qed.
Print Assumptions C33_history.

(** So everything proved about states built from executable locations holds of the
    segments of every function (C25, C58, C60, C61). *)
Theorem C33_built :
  forall env value h, WfBody (he_body env) -> Order (he_ord env) -> Executable env ->
    (forall m e, In e (he_entries env m) -> In e m) ->
    visit_body env value hmake = Val h -> BuiltFrom (he_fw env) (he_body env) (he_ord env) (h_st h).
Proof.
  intros env value h Wf O E I V. apply Walk_body in V.
  destruct (Walk_Nested env (ReachableLoc (he_body env))) with (h := hmake) (h' := h) as (os & N & F); auto.
  { intros l H. apply node_reachable; auto. }
  { intros m e A B. apply node_reachable; auto. }
  exists (he_fuel env), os. split; [|apply Nested_run; auto].
  eapply Forall_impl; [|exact F]. intros o. destruct o; auto.
Qed.
Print Assumptions C33_built.

(** With a table that keeps the first of two equals, the walk always leaves segments that
    can be frozen. *)
Theorem C33_freeze_partial :
  forall env value h, WfBody (he_body env) -> he_fw env = true -> visit_body env value hmake = Val h -> freeze (h_st h) = true.
Proof.
  intros env value h Wf Fw V. pose proof (walked _ _ _ V) as St. apply Walk_body in V.
  destruct (Walk_left _ _ _ Wf V (start_made env)) as (L & _). apply freeze_iff; [eapply Shape_Steps; eauto|]. intros b I.
  destruct (L (fun _ => False)) with (b := b) as [Z|(t & [X|[X _]] & _)]; auto.
  - intros b0 [<-|[]]. left. reflexivity.
  - contradiction.
  - congruence.
Qed.
Print Assumptions C33_freeze_partial.

(** With ena's table they can be frozen exactly if no branch was opened implicitly. *)
Theorem C33_freeze_iff :
  forall env value h, WfBody (he_body env) -> he_fw env = false -> visit_body env value hmake = Val h ->
    (freeze (h_st h) = true <-> ~ exists t, HasChild (h_st h) t).
Proof.
  intros env value h Wf Fw V. pose proof (walked _ _ _ V) as St. apply Walk_body in V.
  destruct (Walk_left _ _ _ Wf V (start_made env)) as (L & K & _). rewrite freeze_iff by (eapply Shape_Steps; eauto). split.
  - intros F (t & C). destruct (K Fw) with (t := t) as (b & I & A); auto.
    { intros u (x & X & _). exfalso. apply OwnedBy_is_user in X. destruct X. }
    apply (ArmOf_nonzero _ _ _ _ _ _ St A). auto.
  - intros N b I. destruct (L (fun _ => False)) with (b := b) as [Z|(t & [X|[_ X]] & _)]; auto.
    + intros b0 [<-|[]]. left. reflexivity.
    + contradiction.
    + exfalso. apply N. eauto.
Qed.
Print Assumptions C33_freeze_iff.

(** If segments are handed on, then nothing was left open: one collection is unfinished,
    the first one, and only the base scope is open; nothing was reported. *)
Theorem C33_done :
  forall env value h, WfBody (he_body env) -> compute env value = Val (HDone h) ->
    (forall b, In b (processing (h_st h)) -> bl_coll b = 0) /\ open_scopes (h_st h) = [0] /\
    h_hints h = [] /\ h_fatal h = [] /\ h_unsupported h = [].
Proof.
  intros env value h Wf C. destruct (done_visit _ _ _ C) as (V & U & F & Z).
  destruct (C33_scopes _ _ _ Wf V) as (S1 & S2 & _). split; [|auto].
  exact (proj1 (freeze_iff _ (Shape_Steps _ _ _ _ _ (walked _ _ _ V))) Z).
Qed.
Print Assumptions C33_done.

(** And every other answer tells why: an arm with a guard; a branch the builder could not
    open; a branch that was opened implicitly. *)
Theorem C33_not_done :
  forall env value r, WfBody (he_body env) -> he_fw env = false -> compute env value = Val r ->
    match r with
    | HDone _ => True
    | HUnsupported ids => ids <> []
    | HInternal es => es <> [] /\ forall e, In e es -> exists l, e = ErrBranch l
    | HUnfrozen => exists h t, visit_body env value hmake = Val h /\ h_fatal h = [] /\ HasChild (h_st h) t
    end.
Proof.
  intros env value r Wf Fw C. unfold compute in C. apply bind_Val in C. destruct C as (h & V & C). injection C as <-.
  destruct (h_unsupported h) as [|u us] eqn:U; [|discriminate]. destruct (h_fatal h) as [|e es] eqn:F.
  - destruct (freeze (h_st h)) eqn:Z; [exact I|]. pose proof (walked _ _ _ V) as St. pose proof (Walk_body _ _ _ _ V) as W.
    destruct (Walk_left _ _ _ Wf W (start_made env)) as (L & _).
    assert (N : ~ forall b, In b (processing (h_st h)) -> bl_coll b = 0).
    { intros A. pose proof (proj2 (freeze_iff _ (Shape_Steps _ _ _ _ _ St)) A). congruence. }
    assert (E : exists b, In b (processing (h_st h)) /\ bl_coll b <> 0).
    { clear -N. induction (processing (h_st h)) as [|b r IH]; [exfalso; apply N; intros b []|].
      destruct (Nat.eq_dec (bl_coll b) 0) as [Zb|Nb]; [|exists b; split; [left; auto|auto]].
      destruct IH as (x & I & X); [|exists x; split; [right; auto|auto]]. intros A. apply N. intros x [<-|I]; auto. }
    destruct E as (b & I & X). destruct (L (fun _ => False)) with (b := b) as [Y|(t & [Y|[_ Y]] & _)]; auto.
    + intros b0 [<-|[]]. left. reflexivity.
    + contradiction.
    + contradiction.
    + exists h, t. auto.
  - split; [discriminate|]. rewrite <- F. apply (C33_scopes _ _ _ Wf V).
Qed.
Print Assumptions C33_not_done.

(** [if a { s } else { t } u] is handed on, with the two arms and the steps. *)
Example C33_witness :
  WfBody (he_body Demo.if_env) /\ Order (he_ord Demo.if_env) /\ Executable Demo.if_env /\
  compute Demo.if_env Demo.if_hir = Val (HDone Demo.if_done) /\ visit_body Demo.if_env Demo.if_hir hmake = Val Demo.if_done /\
  length (branches (h_st Demo.if_done)) = 1 /\ length (segs (h_st Demo.if_done)) = 7 /\
  ~ (exists t, HasChild (h_st Demo.if_done) t).
Proof.
  split; [apply Demo.if_wf|]. split; [intros l x; reflexivity|]. split; [apply Demo.executable_check_ok; [apply Demo.if_wf|(vm_compute; reflexivity)]|].
  split; [(vm_compute; reflexivity)|]. split; [(vm_compute; reflexivity)|]. split; [(vm_compute; reflexivity)|]. split; [(vm_compute; reflexivity)|].
  apply (C33_freeze_iff Demo.if_env Demo.if_hir); [apply Demo.if_wf|(vm_compute; reflexivity)|(vm_compute; reflexivity)|(vm_compute; reflexivity)].
Qed.

Example C33_implicit_witness :
  WfBody (he_body (Demo.lazy_env true)) /\ he_fw (Demo.lazy_env true) = true /\ compute (Demo.lazy_env true) Demo.lazy_hir = Val (HDone Demo.lazy_done) /\
  length (branches (h_st Demo.lazy_done)) = 2 /\ length (spanners (h_st Demo.lazy_done)) = 1.
Proof. split; [apply Demo.lazy_wf|]. repeat split; (vm_compute; reflexivity). Qed.

(** The full statement is false.  [if a { b && { s; true }; }] cannot be frozen;
    [if a { b && { c && { s; true } } }] panics;
    the walk over [match x { _ => loop {} }] does not end. *)
Theorem C33_freeze_refuted :
  exists env value, WfBody (he_body env) /\ Executable env /\ he_fw env = false /\ compute env value = Val HUnfrozen.
Proof.
  exists (Demo.lazy_env false), Demo.lazy_hir. split; [apply Demo.lazy_wf|].
  split; [apply Demo.executable_check_ok; [apply Demo.lazy_wf|(vm_compute; reflexivity)]|]. split; (vm_compute; reflexivity).
Qed.
Print Assumptions C33_freeze_refuted.

Theorem C33_panic_refuted :
  exists env value, WfBody (he_body env) /\ Executable env /\ compute env value = Panic.
Proof.
  exists Demo.lazier_env, Demo.lazier_hir. split; [apply Demo.lazier_wf|].
  split; [apply Demo.executable_check_ok; [apply Demo.lazier_wf|(vm_compute; reflexivity)]|]. (vm_compute; reflexivity).
Qed.
Print Assumptions C33_panic_refuted.

Theorem C33_hang_refuted :
  exists env value, WfBody (he_body env) /\ Executable env /\ compute env value = Loop.
Proof.
  exists Demo.spin_env, Demo.spin_hir. split; [apply Demo.spin_wf|].
  split; [apply Demo.executable_check_ok; [apply Demo.spin_wf|(vm_compute; reflexivity)]|]. (vm_compute; reflexivity).
Qed.
Print Assumptions C33_hang_refuted.

(** ** C83: one step per statement, block result, condition and arm, in source order *)

(** No step is ever asked for that is not one of the function's, none twice, and all of
    them in source order. *)
Theorem C83_in_order :
  forall env value h, visit_body env value hmake = Val h -> Subsequence (h_log h) (map fst (steps_body env value)).
Proof.
  intros env value h V. destruct (asked_body env value _ _ V) as (ls & es & H1 & _ & H2 & _). rewrite H1. exact H2.
Qed.
Print Assumptions C83_in_order.

(** If every decision and each of its sides has a place in the code, then the steps asked
    for are exactly the function's. *)
Theorem C83_all_partial :
  forall env value h, compute env value = Val (HDone h) -> located_expr env value -> h_log h = map fst (steps_body env value).
Proof.
  intros env value h C L. destruct (done_visit _ _ _ C) as (V & _ & F & _).
  destruct (asked_body env value _ _ V) as (ls & es & H1 & H2 & _ & H3). rewrite H1. cbn [h_log hmake app].
  apply H3; auto. rewrite F in H2. cbn [h_fatal hmake app] in H2. auto.
Qed.
Print Assumptions C83_all_partial.

Example C83_witness :
  compute Demo.if_env Demo.if_hir = Val (HDone Demo.if_done) /\ located_expr Demo.if_env Demo.if_hir /\
  map fst (steps_body Demo.if_env Demo.if_hir) =
    [ (Loc 0 1, he_span Demo.if_env 4); (Loc 1 1, he_span Demo.if_env 6); (Loc 2 1, he_span Demo.if_env 9);
      (Loc 3 1, he_span Demo.if_env 11); (Loc 3 1, he_span Demo.if_env 1) ].
Proof.
  split; [(vm_compute; reflexivity)|]. split; [|(vm_compute; reflexivity)]. cbn. unfold decided, found. repeat split; try discriminate; exact I.
Qed.

(** Without that, whole arms can be left out although the answer is a success. *)
Theorem C83_all_refuted :
  exists env value h, WfBody (he_body env) /\ Executable env /\ compute env value = Val (HDone h) /\
    h_log h = [] /\ steps_body env value <> [].
Proof.
  exists Demo.apart_env, Demo.apart_hir, Demo.apart_done. split; [apply Demo.apart_wf|].
  split; [apply Demo.executable_check_ok; [apply Demo.apart_wf|(vm_compute; reflexivity)]|]. split; [(vm_compute; reflexivity)|]. split; [(vm_compute; reflexivity)|].
  discriminate.
Qed.
Print Assumptions C83_all_refuted.

(** Where a node begins and ends, for a function that returns.  It begins at the location
    that all executions pass before the others of the node.  A step at its end is where
    control goes from the location that all executions pass from the node to a return; at
    that location itself if control can go several ways or nowhere. *)
Theorem C83_places :
  forall env id l, WfBody (he_body env) -> ReturnsNormal (he_body env) -> (exists r, Returns (he_body env) r) ->
    Order (he_ord env) -> Executable env -> NoDup (map fst (he_map env)) ->
    (forall x d, AtNode env id x -> nth_error (he_body env) (l_block x) = Some d -> b_cleanup d = false) ->
    exists vs, (forall x, In x vs <-> AtNode env id x /\ Operational (he_body env) x) /\
      (node_entry env id = Some l <-> EntryOf (he_body env) vs l) /\
      (node_exit env id = Some l -> exists e, ExitOf (he_body env) vs e /\ (LocStep (he_body env) e l \/ l = e)) /\
      (forall e, ExitOf (he_body env) vs e -> NoDup (raw_successors (he_body env) (l_block e)) ->
         (forall x, LocStep (he_body env) e x <-> x = l) -> node_exit env id = Some l).
Proof.
  intros env id l Wf RN Ex O E ND NC.
  assert (At : forall x, In x (node_locs env id) <-> AtNode env id x).
  { intros x. unfold node_locs, AtNode. rewrite nodup_In, in_app_iff, in_flat_map. split.
    - intros [I|([c ls] & J & I)].
      + destruct (aget Nat.eq_dec (he_map env) id) as [ls|] eqn:A; [|destruct I]. apply aget_Some_In in A. exists id, ls. auto.
      + cbn [fst snd] in I. destruct (he_inside env c id) eqn:In; [|destruct I]. exists c, ls. auto.
    - intros (c & ls & J & I & [->|H]).
      + left. rewrite (In_aget _ _ Nat.eq_dec _ _ _ ND J). auto.
      + right. exists (c, ls). cbn [fst snd]. rewrite H. auto. }
  assert (V : forall x, In x (node_locs env id) -> ValidLoc (he_body env) x).
  { intros x I. apply At in I. destruct I as (c & ls & J & I & _). apply ReachableLoc_valid; eauto. }
  assert (NC' : forall x d, In x (node_locs env id) -> nth_error (he_body env) (l_block x) = Some d -> b_cleanup d = false).
  { intros x d I. apply NC, At. auto. }
  unfold node_entry, node_exit. destruct (get_mir_locations (he_body env) (he_ord env) (node_locs env id)) as [m|] eqn:G.
  - destruct (get_mir_locations_shape _ _ _ _ V G) as (_ & _ & Vals & _). exists (values m).
    pose proof (fun e => exit_location_iff _ _ _ m e RN Ex O V NC' G) as X. split; [|split; [|split]].
    + intros x. rewrite Vals, At. reflexivity.
    + apply entry_location_iff with (1 := Wf) (2 := O) (3 := V) (4 := G).
    + intros H. destruct (exit_location m) as [e|] eqn:Ee; [|discriminate]. exists e. split; [apply X; auto|].
      destruct (location_successor (he_body env) e) as [e'|] eqn:Sc; injection H as <-; auto. left.
      apply location_successor_step in Sc; [apply Sc|auto|]. apply V. apply (Vals e). apply (proj1 (X e) eq_refl).
    + intros e Ee Nd H. rewrite (proj2 (X e) Ee). assert (Ve : ValidLoc (he_body env) e) by (apply V, Vals, Ee).
      assert (St : LocStep (he_body env) e l) by (apply H; auto).
      destruct (location_successor (he_body env) e) as [e'|] eqn:Sc.
      * apply location_successor_step in Sc; auto. f_equal. apply H. apply Sc.
      * destruct (location_successor_none _ _ Wf Ve Sc Nd l St) as (y & Sy & Ny). apply H in Sy. contradiction.
  - exists []. assert (Z : node_locs env id = []) by (unfold get_mir_locations in G; destruct (node_locs env id); [auto|discriminate]).
    split; [|split; [|split]].
    + intros x. rewrite <- At, Z. cbn. tauto.
    + split; [discriminate|intros [[] _]].
    + discriminate.
    + intros e [[] _].
Qed.
Print Assumptions C83_places.

(** The [if] begins with its condition and ends where its arms meet. *)
Example C83_places_witness :
  WfBody (he_body Demo.if_env) /\ ReturnsNormal (he_body Demo.if_env) /\ (exists r, Returns (he_body Demo.if_env) r) /\
  Order (he_ord Demo.if_env) /\ Executable Demo.if_env /\ NoDup (map fst (he_map Demo.if_env)) /\
  (forall x d, AtNode Demo.if_env 4 x -> nth_error (he_body Demo.if_env) (l_block x) = Some d -> b_cleanup d = false) /\
  node_entry Demo.if_env 3 = Some (Loc 0 0) /\ node_exit Demo.if_env 4 = Some (Loc 0 1) /\ node_exit Demo.if_env 7 = Some (Loc 1 1).
Proof.
  split; [apply Demo.if_wf|]. split; [apply returns_check_ok; vm_compute; reflexivity|].
  split; [exists 3; eexists; split; reflexivity|]. split; [intros l x; reflexivity|].
  split; [apply Demo.executable_check_ok; [apply Demo.if_wf|vm_compute; reflexivity]|].
  split; [repeat constructor; cbn; intuition discriminate|].
  split; [|repeat split; vm_compute; reflexivity].
  intros x d _ E. destruct (l_block x) as [|[|[|[|n]]]]; cbn in E; try (injection E as <-; reflexivity).
  destruct n; discriminate.
Qed.
