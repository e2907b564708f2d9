(** * Properties of the segment builder: linear steps, scopes, closing, termination *)

From Coq Require Import List Arith Bool Lia Permutation.
From Verif Require Import Base FactsModel CfgModel CfgSpec CfgProofs SegMirModel SegMirSpec
  SegMirProofs SegMirSound SegMirScopes SegMirClose SegMirTerm SegMirTree SegMirInsert.
Import ListNotations.

Lemma BuiltFrom_Steps fw bd ord s : BuiltFrom fw bd ord s ->
  Steps (ReachableLoc bd) fw bd ord make s.
Proof. intros (fuel & os & F & R). eapply run_Steps; eauto. Qed.

Lemma BuiltFrom_Built fw bd ord s : BuiltFrom fw bd ord s -> Built fw bd ord s.
Proof. intros (fuel & os & _ & R). exists fuel, os. auto. Qed.

Lemma not_before bd A B : WfBody bd -> ReachableLoc bd A -> ReachableLoc bd B ->
  ldominates bd A B = false -> ~ AlwaysBefore bd A B.
Proof.
  intros Wf RA RB H N. apply (ldominates_iff bd A B) in N; auto; try congruence; apply ReachableLoc_valid; auto.
Qed.

Lemma Order_id : Order (fun l : list nat => l).
Proof. intros l x. tauto. Qed.

(** Function bodies used as examples. *)
Module Demo.
  Definition after (fw : bool) (bd : body) (os : list op) : st :=
    match run fw bd (fun l => l) 5 make os with Val s => s | _ => make end.
  Definition sp : spanner := Spanner [] 7.

  (** [if a { while b {} } else {}]: one branch with a loop in its first arm. *)
  Definition loops : body :=
    [ Block 1 false (TSwitchInt [1; 5]);
      Block 0 false (TOther [2]);
      Block 1 false (TSwitchInt [3; 4]);
      Block 0 false (TOther [2]);
      Block 0 false (TOther [6]);
      Block 0 false (TOther [6]);
      Block 1 false TReturn ].

  Lemma loops_wf : WfBody loops. Proof. apply wf_check_ok. reflexivity. Qed.
  Lemma loops_rn : ReturnsNormal loops. Proof. apply returns_check_ok. reflexivity. Qed.
  Lemma loops_ret : exists r, ReturnLoc loops r.
  Proof. exists (Loc 6 1). eexists. cbn. repeat split; reflexivity. Qed.
  Lemma loops_returns e : Returns loops e <-> e = 6.
  Proof. rewrite <- all_returns_iff. cbn. intuition. Qed.

  Lemma loops_structured : Structured loops.
  Proof.
    constructor.
    - exists 6. split; [apply loops_returns; auto|]. intros e. apply loops_returns.
    - intros b p P.
      assert (Fc : forall a c, is_switchint loops a = false -> successors loops a = [c] -> ForcedStep loops a c)
        by (split; auto; apply not_switch_iff; auto).
      assert (Sw : forall a, is_switchint loops a = true -> Switch loops a) by (intros a; apply switch_iff).
      assert (Lb : b < 7) by (apply (path_end_lt _ _ _ _ P); cbn; lia).
      destruct b as [|[|[|[|[|[|[|b]]]]]]].
      + exists 0, [0]. split; [constructor|left; apply Sw; reflexivity].
      + exists 2, [1; 2]. split; [|left; apply Sw; reflexivity]. apply walk_cons with 2; [apply Fc; reflexivity|constructor].
      + exists 2, [2]. split; [constructor|left; apply Sw; reflexivity].
      + exists 2, [3; 2]. split; [|left; apply Sw; reflexivity]. apply walk_cons with 2; [apply Fc; reflexivity|constructor].
      + exists 6, [4; 6]. split; [|right; apply loops_returns; auto].
        apply walk_cons with 6; [apply Fc; reflexivity|constructor].
      + exists 6, [5; 6]. split; [|right; apply loops_returns; auto].
        apply walk_cons with 6; [apply Fc; reflexivity|constructor].
      + exists 6, [6]. split; [constructor|]. right; apply loops_returns; auto.
      + lia.
    - intros b p P Sw. apply switch_iff in Sw.
      apply (least_post_dominator_present loops (fun l => l) b loops_wf loops_rn).
      + exists 6. apply loops_returns; auto.
      + apply Order_id.
      + destruct b as [|[|[|[|[|[|[|b]]]]]]]; try discriminate Sw; try (eexists; reflexivity).
        exfalso. destruct b; discriminate Sw.
  Qed.

  Definition loops_ops : list op :=
    [ OpOpenScope; OpOpenBranch (Loc 0 0) sp; OpInsert (Loc 3 0) 1; OpInsert (Loc 6 1) 2;
      OpCloseBranch 0; OpCloseScope 1 ].

  Definition loops_st : st := Eval vm_compute in after false loops loops_ops.
  Lemma loops_built : BuiltFrom false loops (fun l => l) loops_st.
  Proof.
    exists 5, loops_ops. split; [apply op_check_ok; [apply loops_wf|vm_compute; reflexivity]|].
    vm_compute. reflexivity.
  Qed.

  (** The same body, with the branch only. *)
  Definition loops_open : st := Eval vm_compute in after false loops [OpOpenBranch (Loc 0 0) sp].
  Definition loops_next : st := Eval vm_compute in
    match insert false loops (fun l => l) 5 loops_open (Loc 3 0) 1 with Val (s, _) => s | _ => make end.

  (** Two branches one after the other: 0 branches to 1 and 2, which meet in 3;
      3 branches to 4 and 5, which meet in 6. *)
  Definition row : body :=
    [ Block 1 false (TSwitchInt [1; 2]);
      Block 0 false (TOther [3]);
      Block 0 false (TOther [3]);
      Block 1 false (TSwitchInt [4; 5]);
      Block 0 false (TOther [6]);
      Block 0 false (TOther [6]);
      Block 1 false TReturn ].
  Lemma row_wf : WfBody row. Proof. apply wf_check_ok. reflexivity. Qed.
  Lemma row_rn : ReturnsNormal row. Proof. apply returns_check_ok. reflexivity. Qed.
  Lemma row_ret : exists r, ReturnLoc row r.
  Proof. exists (Loc 6 1). eexists. cbn. repeat split; reflexivity. Qed.

  (** The second branch is asked for inside the first arm of the first one. *)
  Definition row_ops : list op :=
    [ OpOpenBranch (Loc 0 0) sp; OpOpenBranch (Loc 1 0) sp; OpInsert (Loc 6 1) 9 ].

  Definition row_st : st := Eval vm_compute in after false row row_ops.
  Lemma row_built : BuiltFrom false row (fun l => l) row_st.
  Proof.
    exists 5, row_ops. split; [apply op_check_ok; [apply row_wf|vm_compute; reflexivity]|].
    vm_compute. reflexivity.
  Qed.

  (** Branches inside the arms of branches: 0 to 1 and 2; 1 to 3 and 4; 3 to 5
      and 6. *)
  Definition deep : body :=
    [ Block 1 false (TSwitchInt [1; 2]);
      Block 1 false (TSwitchInt [3; 4]);
      Block 0 false (TOther [9]);
      Block 1 false (TSwitchInt [5; 6]);
      Block 0 false (TOther [8]);
      Block 0 false (TOther [7]);
      Block 0 false (TOther [7]);
      Block 0 false (TOther [8]);
      Block 0 false (TOther [9]);
      Block 0 false TReturn ].
  Lemma deep_wf : WfBody deep. Proof. apply wf_check_ok. reflexivity. Qed.
  Lemma deep_rn : ReturnsNormal deep. Proof. apply returns_check_ok. reflexivity. Qed.

  (** Opening the outer branch and stepping into the middle one. *)
  Definition deep_ops : list op := [ OpOpenBranch (Loc 0 0) sp; OpInsert (Loc 3 0) 9 ].
  Definition deep_st (fw : bool) : st := Eval vm_compute in after fw deep deep_ops.

  Lemma deep_built fw : BuiltFrom fw deep (fun l => l) (deep_st fw).
  Proof.
    exists 5, deep_ops. split; [apply op_check_ok; [apply deep_wf|vm_compute; reflexivity]|].
    destruct fw; vm_compute; reflexivity.
  Qed.

  (** In the arm 1 of the outer branch: a switch whose arms 3 and 4 meet in 7,
      whose arm 5 skips it, and whose arm 6 panics. *)
  Definition skips : body :=
    [ Block 1 false (TSwitchInt [1; 2]);
      Block 1 false (TSwitchInt [3; 4; 5; 6]);
      Block 0 false (TOther [8]);
      Block 0 false (TOther [7]);
      Block 0 false (TOther [7]);
      Block 0 false (TOther [8]);
      Block 0 false (TOther []);
      Block 0 false (TOther [8]);
      Block 0 false TReturn ].
  Lemma skips_wf : WfBody skips. Proof. apply wf_check_ok. reflexivity. Qed.
  Definition skips_ops : list op := [ OpOpenBranch (Loc 0 0) sp ].
  Definition skips_st (fw : bool) : st := Eval vm_compute in after fw skips skips_ops.
  Lemma skips_built fw : BuiltFrom fw skips (fun l => l) (skips_st fw).
  Proof.
    exists 5, skips_ops. split; [apply op_check_ok; [apply skips_wf|vm_compute; reflexivity]|].
    destruct fw; vm_compute; reflexivity.
  Qed.

  (** [loop {}] *)
  Definition forever : body := [ Block 0 false (TOther [1]); Block 0 false (TOther [1]) ].
  Lemma forever_wf : WfBody forever. Proof. apply wf_check_ok. reflexivity. Qed.
End Demo.

(** ** C25: linear segments are sound steps *)

(** In every state that can be built: whoever reaches the end of a linear step
    has passed its start, and whoever is at its start and returns passes its
    end -- unless the step goes backwards, to the join of the branch in whose
    arm it is recorded.  Missing for the full statement: backward steps occur
    (see below). *)
Theorem C25_linear_sound_partial :
  forall fw bd ord s,
    WfBody bd -> ReturnsNormal bd -> (exists r, ReturnLoc bd r) -> Order ord ->
    BuiltFrom fw bd ord s ->
    forall cid c sid sg,
      nth_error (colls s) cid = Some c -> In (Linear sid) (c_data c) -> nth_error (segs s) sid = Some sg ->
      SoundStep bd (s_from sg) (s_to sg) \/
      (ArmJoin s cid (s_to sg) /\ BackStep bd (s_from sg) (s_to sg)).
Proof.
  intros fw bd ord s Wf RN Ex O B cid c sid sg Ec I Es. apply BuiltFrom_Steps in B.
  assert (I' : In sid (linear_ids c)).
  { apply in_flat_map. exists (Linear sid). split; auto. left; auto. }
  destruct (so_linear _ _ (Sound_Steps fw bd ord s Wf RN Ex O B) cid c sid sg Ec I' Es) as [S|(root & K & S)];
    auto.
  right. split; auto. apply (proj1 (KindOk_Steps _ _ _ _ _ B)) with c root; auto.
Qed.
Print Assumptions C25_linear_sound_partial.

Example C25_linear_sound_witness :
  exists s, BuiltFrom false Demo.loops (fun l => l) s /\ WfBody Demo.loops /\ ReturnsNormal Demo.loops /\
    (exists r, ReturnLoc Demo.loops r) /\
    (exists c sg, nth_error (colls s) 0 = Some c /\ In (Linear 5) (c_data c) /\
       nth_error (segs s) 5 = Some sg /\ s_from sg = Loc 6 0 /\ s_to sg = Loc 6 1).
Proof.
  exists Demo.loops_st. split; [apply Demo.loops_built|].
  split; [apply Demo.loops_wf|]. split; [apply Demo.loops_rn|]. split; [apply Demo.loops_ret|].
  eexists. eexists. split; [reflexivity|]. split; [cbn; auto|]. split; [reflexivity|]. split; reflexivity.
Qed.

(** The items of every collection continue one another, from where the
    collection begins. *)
Theorem C25_chained :
  forall fw bd ord s, Built fw bd ord s ->
    forall cid c, nth_error (colls s) cid = Some c ->
      exists p q, BeginsAt s cid p /\ Chain s p (c_data c) q.
Proof.
  intros fw bd ord s B cid c E. apply Built_Steps in B.
  destruct (Chained_Steps _ _ _ _ _ B cid c E) as (p & q & H1 & H2 & _). eauto.
Qed.
Print Assumptions C25_chained.

(** The full statement is false: a linear step from (6,0) back to (3,0). *)
Theorem C25_backward_refuted :
  exists bd s c sid sg,
    WfBody bd /\ ReturnsNormal bd /\ (exists r, ReturnLoc bd r) /\
    BuiltFrom false bd (fun l => l) s /\
    nth_error (colls s) 1 = Some c /\ In (Linear sid) (c_data c) /\ nth_error (segs s) sid = Some sg /\
    ReachableLoc bd (s_to sg) /\ ~ AlwaysBefore bd (s_from sg) (s_to sg).
Proof.
  exists Demo.row, Demo.row_st. eexists. exists 4. eexists.
  split; [apply Demo.row_wf|]. split; [apply Demo.row_rn|]. split; [apply Demo.row_ret|].
  split; [apply Demo.row_built|].
  split; [reflexivity|]. split; [right; left; reflexivity|]. split; [reflexivity|].
  cbn [s_to s_from].
  assert (R : ReachableLoc Demo.row (Loc 3 0)) by (apply reach_check_ok; [apply Demo.row_wf|vm_compute; reflexivity]).
  split; auto. apply not_before; [apply Demo.row_wf| |exact R|vm_compute; reflexivity].
  apply reach_check_ok; [apply Demo.row_wf|vm_compute; reflexivity].
Qed.
Print Assumptions C25_backward_refuted.

(** ** C26: scopes *)

(** Whatever happens later, the parents of a scope are the scopes that were open
    when it was opened. *)
Theorem C26_parents :
  forall fw bd ord fuel s os s',
    Built fw bd ord s -> run fw bd ord fuel (fst (open_scope s)) os = Val s' ->
    forall p, In p (parent_scopes s' (snd (open_scope s))) <-> In p (open_scopes s).
Proof. exact parents_later. Qed.
Print Assumptions C26_parents.

(** Every scope gets a name of its own. *)
Theorem C26_fresh :
  forall fw bd ord fuel s os s',
    Built fw bd ord s -> run fw bd ord fuel (fst (open_scope s)) os = Val s' ->
    ~ In (snd (open_scope s)) (open_scopes s) /\ snd (open_scope s) < snd (open_scope s').
Proof. exact open_scope_fresh. Qed.
Print Assumptions C26_fresh.

(** Closing succeeds exactly on the latest of the open scopes, never on the base
    scope, and then removes that scope alone. *)
Theorem C26_close :
  forall fw bd ord s idx, Built fw bd ord s ->
    In 0 (open_scopes s) /\
    ((exists s', close_scope s idx = Some s') <->
     idx <> 0 /\ In idx (open_scopes s) /\ forall j, In j (open_scopes s) -> j <= idx) /\
    forall s', close_scope s idx = Some s' ->
      forall j, In j (open_scopes s') <-> In j (open_scopes s) /\ j <> idx.
Proof.
  intros fw bd ord s idx B. pose proof (SI_Built _ _ _ _ B) as Si.
  split; [apply base_open; auto|]. split; [apply close_scope_iff; auto|].
  intros s'. apply close_scope_result. auto.
Qed.
Print Assumptions C26_close.

(** Opening makes the new scope open and nothing else; the operations that are
    not about scopes change none. *)
Theorem C26_others :
  forall fw bd ord fuel s o s',
    o <> OpOpenScope -> (forall i, o <> OpCloseScope i) -> step fw bd ord fuel s o = Val s' ->
    open_scopes s' = open_scopes s /\ (forall n, parent_scopes s' n = parent_scopes s n) /\
    open_scopes (fst (open_scope s)) = snd (open_scope s) :: open_scopes s.
Proof.
  intros fw bd ord fuel s o s' N1 N2 H.
  destruct (other_ops_scopes fw bd ord fuel s o s' N1 N2 H) as (E1 & E2 & E3).
  split; auto. split; auto. intros n. unfold parent_scopes. rewrite E1. auto.
Qed.
Print Assumptions C26_others.

(** A well-nested history restores the open scopes. *)
Theorem C26_nested :
  forall fw bd ord fuel s os s', Built fw bd ord s ->
    Nested fw bd ord fuel s os s' -> open_scopes s' = open_scopes s.
Proof. intros fw bd ord fuel s os s' B. apply nested_restores. eapply SI_Built; eauto. Qed.
Print Assumptions C26_nested.

(** Two scopes inside one another, then a sibling of the outer one. *)
Example C26_witness :
  exists s, run false Demo.loops (fun l => l) 5 make
      [ OpOpenScope; OpOpenScope; OpCloseScope 2; OpCloseScope 1; OpOpenScope ] = Val s /\
    Built false Demo.loops (fun l => l) s /\ open_scopes s = [3; 0] /\
    parent_scopes s 2 = [1; 0] /\ parent_scopes s 1 = [0] /\ parent_scopes s 3 = [0] /\
    close_scope s 0 = None /\ close_scope s 1 = None.
Proof.
  eexists. split; [reflexivity|]. split; [|repeat split; reflexivity].
  exists 5, [ OpOpenScope; OpOpenScope; OpCloseScope 2; OpCloseScope 1; OpOpenScope ]. reflexivity.
Qed.
Example C26_nested_witness :
  Nested false Demo.loops (fun l => l) 5 make
    (OpOpenScope :: [OpOpenBranch (Loc 0 0) Demo.sp] ++ OpCloseScope 1 :: [])
    (Demo.after false Demo.loops [OpOpenScope; OpOpenBranch (Loc 0 0) Demo.sp; OpCloseScope 1]).
Proof.
  apply (nested_scope false Demo.loops (fun l => l) 5 make [OpOpenBranch (Loc 0 0) Demo.sp]
           (Demo.after false Demo.loops [OpOpenScope; OpOpenBranch (Loc 0 0) Demo.sp])
           (Demo.after false Demo.loops [OpOpenScope; OpOpenBranch (Loc 0 0) Demo.sp; OpCloseScope 1])).
  - eapply nested_other; [discriminate|discriminate| |constructor]. vm_compute. reflexivity.
  - vm_compute. reflexivity.
  - constructor.
Qed.

(** ** C27: closing branches *)

(** Closing a branch of the visitor never fails, opens nothing, and leaves open
    every collection that is not an arm of that branch or of an implicit child
    of it -- whichever way the unification table picks its representatives. *)
Theorem C27_close_only_own :
  forall fw bd ord s t, WfBody bd -> Built fw bd ord s -> UserBranch s t ->
    exists s', close_branch s t = Val s' /\
      (forall b, In b (processing s') -> In b (processing s)) /\
      (forall b, In b (processing s) -> ~ ArmOf s t (bl_coll b) -> In b (processing s')).
Proof.
  intros fw bd ord s t Wf B U. apply Built_Steps in B.
  destruct (close_iff _ _ _ _ _ _ Wf B U) as (s' & H1 & H2 & H3 & _). eauto.
Qed.
Print Assumptions C27_close_only_own.

(** It closes all of them if the table keeps the first of two equals, or if the
    branch has no implicit child.  Missing for the full statement: ena keeps the
    second one. *)
Theorem C27_close_complete_partial :
  forall fw bd ord s t s', WfBody bd -> Built fw bd ord s -> UserBranch s t ->
    (fw = true \/ ~ HasChild s t) -> close_branch s t = Val s' ->
    forall b, In b (processing s') <-> In b (processing s) /\ ~ ArmOf s t (bl_coll b).
Proof.
  intros fw bd ord s t s' Wf B U D C b. apply Built_Steps in B.
  destruct (close_iff _ _ _ _ _ _ Wf B U) as (s1 & H1 & H2 & H3 & H4 & _).
  rewrite C in H1. injection H1 as <-. split.
  - intros I. split; auto.
  - intros [I N]. auto.
Qed.
Print Assumptions C27_close_complete_partial.

(** With ena's table, closing a branch that has an implicit child closes
    nothing at all. *)
Theorem C27_close_with_child :
  forall bd ord s t s', WfBody bd -> Built false bd ord s -> UserBranch s t ->
    HasChild s t -> close_branch s t = Val s' -> processing s' = processing s.
Proof.
  intros bd ord s t s' Wf B U D C. apply Built_Steps in B.
  destruct (close_iff _ _ _ _ _ _ Wf B U) as (s1 & H1 & _ & _ & _ & H5).
  rewrite C in H1. injection H1 as <-. auto.
Qed.
Print Assumptions C27_close_with_child.

(** Hence the full statement is false: the arms of the outer branch stay open,
    and the result can never be frozen. *)
Theorem C27_close_refuted :
  exists bd s t s' b,
    WfBody bd /\ BuiltFrom false bd (fun l => l) s /\ UserBranch s t /\ close_branch s t = Val s' /\
    In b (processing s') /\ ArmOf s t (bl_coll b) /\ freeze s' = false.
Proof.
  exists Demo.deep, (Demo.deep_st false), 0. eexists. exists (Builder 2 (Loc 2 0)).
  split; [apply Demo.deep_wf|]. split; [apply Demo.deep_built|].
  split; [left; reflexivity|]. split; [reflexivity|].
  split; [cbn; auto|]. split; [|reflexivity].
  exists 0. eexists. split; [constructor; left; reflexivity|]. split; [reflexivity|]. cbn. auto.
Qed.
Print Assumptions C27_close_refuted.

(** The same history with the other policy: everything is closed. *)
Example C27_close_witness :
  exists s', close_branch (Demo.deep_st true) 0 = Val s' /\ freeze s' = true /\
    BuiltFrom true Demo.deep (fun l => l) (Demo.deep_st true) /\ UserBranch (Demo.deep_st true) 0.
Proof.
  eexists. split; [reflexivity|]. split; [reflexivity|]. split; [apply Demo.deep_built|left; reflexivity].
Qed.

Theorem C27_freeze :
  forall fw bd ord s, Built fw bd ord s ->
    (freeze s = true <-> forall b, In b (processing s) -> bl_coll b = 0).
Proof. intros fw bd ord s B. apply freeze_iff. eapply Shape_Built; eauto. Qed.
Print Assumptions C27_freeze.

(** ** C28: termination *)

(** The search for the next switch ends exactly when control is not forced
    around a cycle. *)
Theorem C28_search_ends_iff :
  forall bd l,
    (exists fuel r, find_next_switchint bd fuel l = Some r) <-> ~ ForcedForever bd (l_block l).
Proof.
  intros bd l. split.
  - intros (fuel & r & H) F. rewrite (proj2 (find_next_None bd l) F fuel) in H. discriminate.
  - intros N. exists (S (length bd)). destruct (find_next_switchint bd (S (length bd)) l) as [r|] eqn:E; eauto.
    exfalso. apply N. apply switch_location_None. unfold switch_location. rewrite E. auto.
Qed.
Print Assumptions C28_search_ends_iff.

(** Opening a branch never ends exactly in that case. *)
Theorem C28_open_branch_diverges_iff :
  forall bd ord s l sp, open_branch bd ord s l sp = Loop <-> ForcedForever bd (l_block l).
Proof.
  intros bd ord s l sp. rewrite <- switch_location_None. unfold open_branch, mk_branch.
  destruct (switch_location bd l) as [sw|]; [|tauto].
  destruct (find_builder bd s l) as [[i b]|]; [|split; discriminate].
  destruct (loc_eqd (bl_cur b) l); [|split; discriminate]. cbn. split; discriminate.
Qed.
Print Assumptions C28_open_branch_diverges_iff.

Theorem C28_open_branch_refuted :
  exists bd l, WfBody bd /\ ReachableLoc bd l /\
    forall ord s sp, open_branch bd ord s l sp = Loop.
Proof.
  exists Demo.forever, (Loc 0 0). split; [apply Demo.forever_wf|].
  split; [apply reach_check_ok; [apply Demo.forever_wf|vm_compute; reflexivity]|].
  intros ord s sp. apply C28_open_branch_diverges_iff.
  exists 1, 1, [0; 1], [1]. cbn. split; [apply walk_cons with 1; [split; [apply not_switch_iff|]; reflexivity|constructor]|].
  split; [split; [apply not_switch_iff|]; reflexivity|constructor].
Qed.
Print Assumptions C28_open_branch_refuted.

(** In bodies built from ifs and loops, inserting ends, from every state that
    can be built.  Missing for the full statement: bodies with false edges,
    panicking arms or endless loops, where it need not (below). *)
Theorem C28_insert_terminates_partial :
  forall fw bd ord s l span,
    WfBody bd -> ReturnsNormal bd -> Structured bd -> Order ord ->
    BuiltFrom fw bd ord s -> ReachableLoc bd l ->
    exists fuel, forall fuel', fuel <= fuel' ->
      insert fw bd ord fuel' s l span = insert fw bd ord fuel s l span /\
      insert fw bd ord fuel s l span <> Loop.
Proof.
  intros fw bd ord s l span Wf RN St O B RL.
  pose proof (insert_terminates fw bd ord l span Wf RN St O RL (S (total bd l s)) s (Nat.lt_succ_diag_r _)
                (BuiltFrom_Steps _ _ _ _ B)) as H.
  exists (S (total bd l s)). intros fuel' L. split; auto.
  induction L as [|f L IH]; auto. rewrite <- IH at 1. apply insert_mono; auto. congruence.
Qed.
Print Assumptions C28_insert_terminates_partial.

Example C28_insert_terminates_witness :
  Structured Demo.loops /\ WfBody Demo.loops /\ ReturnsNormal Demo.loops /\
  exists s, run false Demo.loops (fun l => l) 5 make [OpOpenBranch (Loc 0 0) Demo.sp] = Val s /\
    (exists p cur, find_suitable_collection Demo.loops s (Loc 3 0) = FrNonLinear p cur) /\
    (exists s', insert false Demo.loops (fun l => l) 5 s (Loc 3 0) 1 = Val (s', true)).
Proof.
  split; [apply Demo.loops_structured|]. split; [apply Demo.loops_wf|]. split; [apply Demo.loops_rn|].
  exists Demo.loops_open. split; [vm_compute; reflexivity|].
  split; [exists 0, (Loc 1 0); vm_compute; reflexivity|]. exists Demo.loops_next. vm_compute. reflexivity.
Qed.

(** Inserting does not always end: no number of rounds is enough. *)
Theorem C28_insert_refuted :
  exists bd s l, WfBody bd /\ BuiltFrom false bd (fun l => l) s /\ ReachableLoc bd l /\
    forall span fuel, insert false bd (fun l => l) fuel s l span = Loop.
Proof.
  exists Demo.skips, (Demo.skips_st false), (Loc 7 0). split; [apply Demo.skips_wf|].
  split; [apply Demo.skips_built|]. split; [apply reach_check_ok; [apply Demo.skips_wf|vm_compute; reflexivity]|].
  intros span fuel. apply Stuck_diverges; [apply Demo.skips_wf| |].
  - apply (Built_Steps false Demo.skips (fun l => l)). apply BuiltFrom_Built, Demo.skips_built.
  - exists 0, (Loc 1 0), Demo.sp, (Loc 1 1). split; [reflexivity|]. split; [reflexivity|].
    split; [reflexivity|]. split; [reflexivity|].
    intros n [<-|[<-|[<-|[<-|[]]]]]; reflexivity.
Qed.
Print Assumptions C28_insert_refuted.

(** ** C58: the result is a tree *)

(** Every segment, branch and collection has exactly one place: a segment is one
    item of one collection or one split of one branch, a branch is one item of
    one collection, a collection is the first one or one arm of one branch.  The
    arms of a branch come after the collection that holds it. *)
Theorem C58_tree :
  forall fw bd ord s, Built fw bd ord s ->
    Permutation (flat_map linear_ids (colls s) ++ flat_map br_splits (branches s)) (seq 0 (length (segs s))) /\
    Permutation (flat_map branch_ids (colls s)) (seq 0 (length (branches s))) /\
    0 :: flat_map br_nested (branches s) = seq 0 (length (colls s)) /\
    (forall cid c bid b k, nth_error (colls s) cid = Some c -> In bid (branch_ids c) ->
       nth_error (branches s) bid = Some b -> In k (br_nested b) -> cid < k).
Proof.
  intros fw bd ord s B. destruct (Shape_Built _ _ _ _ B). auto.
Qed.
Print Assumptions C58_tree.

(** A branch has one split and one arm for every target of its switch, in order;
    control is forced from where it was opened to the switch, of which the
    branch names the terminator; and the split of
    the target [n] ends in [n], or past it where only [n] leads. *)
Theorem C58_arms :
  forall fw bd ord s b, WfBody bd -> Built fw bd ord s -> In b (branches s) ->
    let targets := successors bd (l_block (fst (br_reach b))) in
    length (br_splits b) = length targets /\ length (br_nested b) = length targets /\
    forall k n sid, nth_error targets k = Some n -> nth_error (br_splits b) k = Some sid ->
      exists sg, nth_error (segs s) sid = Some sg /\
        (ReachableLoc bd (s_to sg) -> AlwaysBefore bd (Loc n 0) (s_to sg)) /\
        (exists w, walk (ForcedStep bd) (l_block (s_from sg)) w (l_block (fst (br_reach b)))) /\
        (fst (br_reach b) = s_from sg \/
         exists d ts, nth_error bd (l_block (fst (br_reach b))) = Some d /\ b_term d = TSwitchInt ts /\
           l_idx (fst (br_reach b)) = b_stmts d).
Proof.
  intros fw bd ord s b Wf B I targets. apply Built_Steps in B.
  destruct (ArmsOk_Steps _ _ _ _ _ B b I) as [H1 H2].
  split; auto. split; [rewrite <- (sh_arms s (Shape_Steps _ _ _ _ _ B) b I); auto|].
  intros k n sid Hn Hs. destruct (H2 k n sid Hn Hs) as (sg & E1 & E2 & E3).
  exists sg. split; auto. split; [|split; [apply switch_location_walk; auto|]].
  2:{ destruct (switch_location_from _ _ _ E3) as [E|[Sw E]]; auto. right.
      destruct Sw as (d & ts & Ed & Et). rewrite Ed in E. eauto. }
  intros R. apply ldominates_iff; auto.
  - apply nth_error_In in Hn. apply successors_wf in Hn; auto.
    destruct Hn as [_ (d & Ed & _)]. exists d. cbn. split; [auto|lia].
  - apply ReachableLoc_valid; auto.
Qed.
Print Assumptions C58_arms.

Example C58_witness :
  Built false Demo.deep (fun l => l) (Demo.deep_st false) /\
  length (branches (Demo.deep_st false)) = 2 /\ length (segs (Demo.deep_st false)) = 5 /\
  exists b, nth_error (branches (Demo.deep_st false)) 1 = Some b /\ br_splits b = [2; 3] /\ br_nested b = [3; 4].
Proof.
  split; [apply BuiltFrom_Built, Demo.deep_built|]. split; [reflexivity|]. split; [reflexivity|].
  eexists. split; [reflexivity|]. split; reflexivity.
Qed.

(** ** C59: inserting does not fail *)

(** Inserting never returns an error. *)
Theorem C59_never_an_error :
  forall fw bd ord fuel s l span s' ok, WfBody bd ->
    insert fw bd ord fuel s l span = Val (s', ok) -> ok = true.
Proof. intros fw bd ord fuel s l span s' ok Wf H. apply insert_never_err in H; auto. Qed.
Print Assumptions C59_never_an_error.

(** It crashes only when it has to open an implicit branch inside another
    implicit branch, in the state it started in or one it went through ([Steps]
    is any number of the builder's own steps).  Missing for the full statement: that case. *)
Theorem C59_crash_only_nested_partial :
  forall fw bd ord fuel s l span, WfBody bd -> Built fw bd ord s ->
    insert fw bd ord fuel s l span = Panic ->
    exists s' p cur, Steps (fun _ => True) fw bd ord s s' /\
      find_suitable_collection bd s' l = FrNonLinear p cur /\ ~ UserBranch s' p.
Proof.
  intros fw bd ord fuel s l span Wf B H. apply Built_Steps in B.
  destruct (insert_panic fw bd ord l span Wf fuel s B H) as (s' & p & cur & H0 & H1 & H2).
  exists s', p, cur. auto.
Qed.
Print Assumptions C59_crash_only_nested_partial.

(** And then it always does. *)
Theorem C59_crash_iff :
  forall fw bd ord s l p cur, WfBody bd ->
    find_suitable_collection bd s l = FrNonLinear p cur -> ~ ForcedForever bd (l_block cur) ->
    (open_child_branch fw bd ord s p cur = Panic <-> ~ UserBranch s p).
Proof. exact child_panic_iff. Qed.
Print Assumptions C59_crash_iff.

(** A crash: three branches inside one another, of which the visitor opened the
    outermost one. *)
Theorem C59_crash_refuted :
  exists bd s l, WfBody bd /\ BuiltFrom false bd (fun l => l) s /\ ReachableLoc bd l /\
    forall span fuel, insert false bd (fun l => l) (S fuel) s l span = Panic.
Proof.
  exists Demo.deep, (Demo.deep_st false), (Loc 5 0). split; [apply Demo.deep_wf|].
  split; [apply Demo.deep_built|]. split; [apply reach_check_ok; [apply Demo.deep_wf|vm_compute; reflexivity]|].
  intros span fuel. reflexivity.
Qed.
Print Assumptions C59_crash_refuted.

(** ** C60: splits *)

(** Control can go from the start of every split to its end. *)
Theorem C60_split_executable :
  forall fw bd ord s b sid sg,
    WfBody bd -> ReturnsNormal bd -> (exists r, ReturnLoc bd r) -> Order ord ->
    BuiltFrom fw bd ord s -> In b (branches s) -> In sid (br_splits b) -> nth_error (segs s) sid = Some sg ->
    ReachableLoc bd (s_from sg) /\ exists w, walk (LocStep bd) (s_from sg) w (s_to sg).
Proof.
  intros fw bd ord s b sid sg Wf RN Ex O B Ib Is Es. apply BuiltFrom_Steps in B.
  destruct (SegsReach_Steps fw bd ord s Wf RN Ex O B sg (nth_error_In _ _ Es)) as [R1 R2].
  split; auto. eapply split_executable; eauto.
Qed.
Print Assumptions C60_split_executable.

(** But its end can be reached without passing its start. *)
Theorem C60_split_dominates_refuted :
  exists bd s b sid sg,
    WfBody bd /\ ReturnsNormal bd /\ (exists r, ReturnLoc bd r) /\
    BuiltFrom false bd (fun l => l) s /\ In b (branches s) /\ In sid (br_splits b) /\
    nth_error (segs s) sid = Some sg /\
    ReachableLoc bd (s_to sg) /\ ~ AlwaysBefore bd (s_from sg) (s_to sg).
Proof.
  exists Demo.row, Demo.row_st. eexists. exists 2. eexists.
  split; [apply Demo.row_wf|]. split; [apply Demo.row_rn|]. split; [apply Demo.row_ret|].
  split; [apply Demo.row_built|].
  split; [right; left; reflexivity|]. split; [left; reflexivity|]. split; [reflexivity|].
  cbn [s_to s_from].
  assert (R : ReachableLoc Demo.row (Loc 4 0)) by (apply reach_check_ok; [apply Demo.row_wf|vm_compute; reflexivity]).
  split; auto. apply not_before; [apply Demo.row_wf| |exact R|vm_compute; reflexivity].
  apply reach_check_ok; [apply Demo.row_wf|vm_compute; reflexivity].
Qed.
Print Assumptions C60_split_dominates_refuted.

(** ** C61: what an insertion records *)

(** Nothing is lost: the segments so far stay as they are, and the new ones
    belong to the innermost open scope.  Either one step is recorded -- with the
    given span, in one collection, which then stands at the end of the step, at
    the given location or at the join that every way to it passes -- or no open
    collection but the outermost one could hold it. *)
Theorem C61_insert_recorded :
  forall fw bd ord fuel s l span s',
    WfBody bd -> ReturnsNormal bd -> (exists r, ReturnLoc bd r) -> Order ord ->
    BuiltFrom fw bd ord s -> ReachableLoc bd l ->
    insert fw bd ord fuel s l span = Val (s', true) ->
    open_scopes s' = open_scopes s /\
    exists new, segs s' = segs s ++ new /\ (forall sg, In sg new -> s_scope sg = current_scope s) /\
    ((steps_of s' = steps_of s /\ Outside bd s' l) \/
     exists cid sg, StepAdded s s' cid sg /\ In sg new /\ s_span sg = span /\
       (s_to sg = l \/ (ArmJoin s' cid (s_to sg) /\ AlwaysBefore bd (s_to sg) l))).
Proof.
  intros fw bd ord fuel s l span s' Wf RN Ex O B R H.
  apply (insert_recorded fw bd ord l span Wf RN Ex O R fuel s s' (BuiltFrom_Steps _ _ _ _ B) H).
Qed.
Print Assumptions C61_insert_recorded.

(** Stepping into the loop: two splits and one step; stepping past the end of
    the arm: one step, to the join. *)
Example C61_witness :
  map s_to (segs Demo.loops_next) = [Loc 1 0; Loc 5 0; Loc 3 0; Loc 4 0; Loc 3 0] /\
  steps_of Demo.loops_next = [4] /\ steps_of Demo.loops_open = [] /\
  match insert false Demo.row (fun l => l) 5 (Demo.after false Demo.row [OpOpenBranch (Loc 0 0) Demo.sp])
          (Loc 1 0) 3 with
  | Val (s, ok) => ok = true /\ steps_of s = [2]
  | _ => False
  end.
Proof. vm_compute. auto 10. Qed.

(** A location that only an arm without a branch could hold is not recorded. *)
Example C61_ignored :
  insert false Demo.row (fun l => l) 5 make (Loc 1 0) 3 = Val (make, true).
Proof. vm_compute. reflexivity. Qed.
