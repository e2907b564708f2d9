(** * Properties of control flow, dominance, location lookup and branch joins *)

From Coq Require Import List Arith Bool Lia Permutation Sorted.
From Verif Require Import Base CfgModel CfgSpec CfgProofs.
Import ListNotations.

(** A function with an [if]: block 0 branches to 1 and 2, which join in 3; the
    call in 2 may unwind to the cleanup block 5. *)
Module Demo.
  Definition bd : body :=
    [ Block 2 false (TSwitchInt [1; 2]);
      Block 1 false (TOther [3]);
      Block 0 false (TOther [3; 5]);
      Block 1 false (TOther [4]);
      Block 0 false TReturn;
      Block 0 true (TOther []) ].

  Lemma wf : WfBody bd.
  Proof.
    split.
    - exists (Block 2 false (TSwitchInt [1; 2])). auto.
    - intros a d r E T. do 6 (destruct a as [|a]; [cbn in E; injection E as <-; discriminate|]).
      destruct a; discriminate.
  Qed.

  Lemma returns e : Returns bd e <-> e = 4.
  Proof.
    rewrite <- all_returns_iff. cbn. intuition.
  Qed.

  Lemma returns_normal : ReturnsNormal bd.
  Proof.
    intros e H. apply returns in H. subst e. eexists. repeat split. discriminate.
  Qed.

  Lemma reach_loc b i p : ValidLoc bd (Loc b i) -> walk (edge (cleaned_edges bd)) 0 p b ->
    ReachableLoc bd (Loc b i).
  Proof.
    intros V W. eapply path_reach_loc; eauto using wf.
    eapply walk_mono; [|exact W]. intros a c. apply cleaned_edge_iff, wf.
  Qed.
End Demo.

(** ** C21: the post-dominance table *)

(** Over any graph whose predecessors are in range: a reported post-dominator
    lies on every path to every exit, all of which can be reached. *)
Theorem C21_on_every_path_to_every_exit :
  forall (g : graph) (exits : list nat) (node d : nat),
    node < g_nodes g -> d < g_nodes g ->
    let E := fun x y => y < g_nodes g /\ In x (g_pred g y) in
    (is_postdominated_by (all_post_dominators g exits) node d = true <->
     forall e, In e exits ->
       (exists l, walk E node l e) /\ forall l, walk E node l e -> In d l).
Proof. exact is_postdominated_by_iff. Qed.
Print Assumptions C21_on_every_path_to_every_exit.

(** For a MIR body: the paths are those of normal control flow to the returns. *)
Theorem C21_body_post_dominance :
  forall bd p n,
    ReturnsNormal bd -> Normal bd n -> p < length bd ->
    (post_dominates bd p n = true <->
     forall e, Returns bd e ->
       (exists l, path bd n l e) /\ forall l, path bd n l e -> In p l).
Proof. exact post_dominates_iff. Qed.
Print Assumptions C21_body_post_dominance.

Example C21_demo :
  (post_dominates Demo.bd 3 0, post_dominates Demo.bd 1 0, post_dominates Demo.bd 4 2) =
  (true, false, true).
Proof. reflexivity. Qed.

(** Nothing post-dominates two different blocks mutually, if the function returns. *)
Theorem C21_antisymmetric :
  forall bd a b,
    ReturnsNormal bd -> (exists e, Returns bd e) ->
    post_dominates bd a b = true -> post_dominates bd b a = true -> a = b.
Proof. exact post_dominates_antisym. Qed.
Print Assumptions C21_antisymmetric.

(** A function without a return: every block is said to post-dominate every block. *)
Theorem C21_diverging_function :
  forall bd a b,
    (forall e, ~ Returns bd e) -> a < length bd -> b < length bd ->
    post_dominates bd a b = true.
Proof.
  intros bd a b N La Lb. unfold post_dominates.
  apply is_postdominated_by_iff; auto. intros e I. apply all_returns_iff in I. destruct (N e I).
Qed.
Print Assumptions C21_diverging_function.

Example C21_diverging_demo : post_dominates [Block 0 false (TOther [1]); Block 0 false (TOther [1])] 0 1 = true.
Proof. reflexivity. Qed.

(** ** C22: location dominance *)

Theorem C22_path_meaning :
  forall bd A B,
    WfBody bd -> ValidLoc bd A -> ValidLoc bd B -> ReachableLoc bd B ->
    (ldominates bd A B = true <-> AlwaysBefore bd A B).
Proof. exact ldominates_iff. Qed.
Print Assumptions C22_path_meaning.

Theorem C22_reflexive : forall bd A, ldominates bd A A = true.
Proof. exact ldominates_refl. Qed.
Print Assumptions C22_reflexive.

Theorem C22_antisymmetric :
  forall bd A B,
    WfBody bd -> ReachableLoc bd A -> ReachableLoc bd B ->
    ldominates bd A B = true -> ldominates bd B A = true -> A = B.
Proof. exact ldominates_antisym. Qed.
Print Assumptions C22_antisymmetric.

Theorem C22_transitive :
  forall bd A B C,
    WfBody bd -> ValidLoc bd A -> ValidLoc bd B -> ReachableLoc bd C ->
    ldominates bd A B = true -> ldominates bd B C = true -> ldominates bd A C = true.
Proof. exact ldominates_trans. Qed.
Print Assumptions C22_transitive.

Theorem C22_dominators_form_a_chain :
  forall bd A B C,
    WfBody bd -> ValidLoc bd A -> ValidLoc bd B -> ReachableLoc bd C ->
    ldominates bd A C = true -> ldominates bd B C = true ->
    ldominates bd A B = true \/ ldominates bd B A = true.
Proof. exact ldominates_chain. Qed.
Print Assumptions C22_dominators_form_a_chain.

(** The hypotheses are met: the join's statement is reachable, the branch
    dominates it and the arm does not. *)
Example C22_demo :
  WfBody Demo.bd /\ ReachableLoc Demo.bd (Loc 3 1) /\ ValidLoc Demo.bd (Loc 0 2) /\
  ldominates Demo.bd (Loc 0 2) (Loc 3 1) = true /\
  ldominates Demo.bd (Loc 1 0) (Loc 3 1) = false /\
  ldominates Demo.bd (Loc 3 1) (Loc 3 0) = false.
Proof.
  split; [apply Demo.wf|]. split; [|split; [|auto]].
  - apply (Demo.reach_loc 3 1 [0; 1; 3]).
    + eexists. cbn. split; [reflexivity|]. cbn. lia.
    + apply walk_cons with 1; [cbn; auto|]. apply walk_cons with 3; [cbn; auto|]. constructor.
  - eexists. cbn. split; [reflexivity|]. cbn. lia.
Qed.

(** ** C56: location post-dominance *)

Theorem C56_path_meaning :
  forall bd P N,
    ReturnsNormal bd -> ValidLoc bd P -> ValidLoc bd N -> Normal bd (l_block N) ->
    (exists r, ReturnLoc bd r) ->
    (forall r, ReturnLoc bd r -> exists l, walk (LocStep bd) N l r) ->
    (lpost_dominates bd P N = true <-> AlwaysAfter bd P N).
Proof. exact lpost_dominates_iff. Qed.
Print Assumptions C56_path_meaning.

Example C56_demo :
  (forall r, ReturnLoc Demo.bd r -> exists l, walk (LocStep Demo.bd) (Loc 0 1) l r) /\
  lpost_dominates Demo.bd (Loc 3 0) (Loc 0 1) = true /\
  lpost_dominates Demo.bd (Loc 2 0) (Loc 0 1) = false /\
  lpost_dominates Demo.bd (Loc 0 0) (Loc 0 1) = false.
Proof.
  split; [|auto]. intros r (d & E & T & L).
  rewrite <- (loc_eta r), L. apply path_reach_return; auto.
  - eexists. cbn. split; [reflexivity|]. cbn. lia.
  - assert (l_block r = 4) as -> by (apply Demo.returns; exists d; auto).
    exists [0; 1; 3; 4]. cbn.
    apply walk_cons with 1; [apply (successors_wf Demo.bd _ _ Demo.wf); cbn; auto|].
    apply walk_cons with 3; [apply (successors_wf Demo.bd _ _ Demo.wf); cbn; auto|].
    apply walk_cons with 4; [apply (successors_wf Demo.bd _ _ Demo.wf); cbn; auto|].
    constructor.
Qed.

(** ** C23: the MIR locations of a source node *)

(** The locations of a node are those whose source node it is, or has as a
    (strict) descendant when nested nodes are asked for. *)
Theorem C23_gathered :
  forall bd ignore_cleanup hir_of ancestors h dp l,
    In l (node_locations (gather bd ignore_cleanup hir_of) ancestors h dp) <->
    Gathered bd ignore_cleanup l /\
    (hir_of l = h \/ (dp = Nested /\ In h (ancestors (hir_of l)))).
Proof. exact node_locations_iff. Qed.
Print Assumptions C23_gathered.

(** The answer lists exactly the operational ones, each block once, its indices sorted. *)
Theorem C23_locations_exact :
  forall bd ord locs m,
    (forall l, In l locs -> ValidLoc bd l) ->
    get_mir_locations bd ord locs = Some m ->
    (forall l, In l (values m) <-> In l locs /\ Operational bd l) /\
    NoDup (map fst (locations m)) /\
    (forall b is, In (b, is) (locations m) -> is <> [] /\ Sorted le is).
Proof.
  intros bd ord locs m V G.
  destruct (get_mir_locations_shape bd ord locs m V G) as (ND & NE & Vals & _).
  split; [exact Vals|]. split; [exact ND|exact NE].
Qed.
Print Assumptions C23_locations_exact.

(** There is no answer only if the node has no locations. *)
Theorem C23_answer_iff_locations :
  forall bd ord locs, get_mir_locations bd ord locs = None <-> locs = [].
Proof. intros bd ord [|l r]; cbn; split; congruence. Qed.
Print Assumptions C23_answer_iff_locations.

(** The entry is the location of the set that all executions pass before any
    other of the set; it is absent iff there is none. *)
Theorem C23_entry :
  forall bd ord locs m e,
    WfBody bd -> Order ord -> (forall l, In l locs -> ValidLoc bd l) ->
    get_mir_locations bd ord locs = Some m ->
    (entry_location m = Some e <-> EntryOf bd (values m) e).
Proof. exact entry_location_iff. Qed.
Print Assumptions C23_entry.

(** The exit is the location of the set that every execution from the set to a
    return passes. *)
Theorem C23_exit_partial :
  forall bd ord locs m e,
    ReturnsNormal bd -> (exists r, Returns bd r) -> Order ord ->
    (forall l, In l locs -> ValidLoc bd l) ->
    (forall l d, In l locs -> nth_error bd (l_block l) = Some d -> b_cleanup d = false) ->
    get_mir_locations bd ord locs = Some m ->
    (exit_location m = Some e <-> ExitOf bd (values m) e).
Proof. exact exit_location_iff. Qed.
Print Assumptions C23_exit_partial.

(** Both together. *)
Theorem C23_entry_exit_partial :
  forall bd ord locs m e x,
    WfBody bd -> ReturnsNormal bd -> (exists r, Returns bd r) -> Order ord ->
    (forall l, In l locs -> ValidLoc bd l) ->
    (forall l d, In l locs -> nth_error bd (l_block l) = Some d -> b_cleanup d = false) ->
    get_mir_locations bd ord locs = Some m ->
    (get_entry_exit_locations m = Some (e, x) <-> EntryOf bd (values m) e /\ ExitOf bd (values m) x).
Proof.
  intros bd ord locs m e x Wf RN Ex O V C G.
  rewrite <- (C23_entry bd ord locs m e Wf O V G), <- (C23_exit_partial bd ord locs m x RN Ex O V C G).
  unfold get_entry_exit_locations. destruct (entry_location m) as [a|], (exit_location m) as [b|]; split.
  all: try discriminate; try (intros [A B]; discriminate).
  - intros [= -> ->]. auto.
  - intros [[= ->] [= ->]]. reflexivity.
Qed.
Print Assumptions C23_entry_exit_partial.

(** Neither depends on the order in which the hash set or the hash map is
    iterated, if the function returns. *)
Theorem C23_order_independent_partial :
  forall bd ord ord' locs locs' m m',
    WfBody bd -> ReturnsNormal bd -> (exists r, Returns bd r) -> Order ord -> Order ord' ->
    (forall l, In l locs -> ValidLoc bd l) ->
    (forall l d, In l locs -> nth_error bd (l_block l) = Some d -> b_cleanup d = false) ->
    Permutation locs locs' ->
    get_mir_locations bd ord locs = Some m ->
    get_mir_locations bd ord' locs' = Some m' ->
    get_entry_exit_locations m = get_entry_exit_locations m'.
Proof.
  intros bd ord ord' locs locs' m m' Wf RN Ex O O' V C P G G'.
  assert (V' : forall l, In l locs' -> ValidLoc bd l).
  { intros l I. apply V. eapply Permutation_in; [apply Permutation_sym|]; eauto. }
  assert (C' : forall l d, In l locs' -> nth_error bd (l_block l) = Some d -> b_cleanup d = false).
  { intros l d I. apply C. eapply Permutation_in; [apply Permutation_sym|]; eauto. }
  destruct (get_mir_locations_shape bd ord locs m V G) as (_ & _ & Vals & _).
  destruct (get_mir_locations_shape bd ord' locs' m' V' G') as (_ & _ & Vals' & _).
  assert (S : forall l, In l (values m) <-> In l (values m')).
  { intros l. rewrite Vals, Vals'. split; intros [I Op]; split; auto.
    - eapply Permutation_in; eauto.
    - eapply Permutation_in; [apply Permutation_sym|]; eauto. }
  assert (En : forall e, EntryOf bd (values m) e <-> EntryOf bd (values m') e).
  { intros e. unfold EntryOf. rewrite S. split; intros [I H]; split; auto; intros l Il; apply H, S; auto. }
  assert (Ext : forall e, ExitOf bd (values m) e <-> ExitOf bd (values m') e).
  { intros e. unfold ExitOf. rewrite S. split; intros [I H]; split; auto; intros l Il; apply H, S; auto. }
  assert (E1 : entry_location m = entry_location m').
  { destruct (entry_location m) as [e|] eqn:E.
    - symmetry. apply (entry_location_iff bd ord' locs' m'); auto. apply En.
      apply (entry_location_iff bd ord locs m); auto.
    - destruct (entry_location m') as [e|] eqn:E'; auto. rewrite <- E.
      apply (entry_location_iff bd ord locs m); auto. apply En.
      apply (entry_location_iff bd ord' locs' m'); auto. }
  assert (E2 : exit_location m = exit_location m').
  { destruct (exit_location m) as [e|] eqn:E.
    - symmetry. apply (exit_location_iff bd ord' locs' m'); auto. apply Ext.
      apply (exit_location_iff bd ord locs m); auto.
    - destruct (exit_location m') as [e|] eqn:E'; auto. rewrite <- E.
      apply (exit_location_iff bd ord locs m); auto. apply Ext.
      apply (exit_location_iff bd ord' locs' m'); auto. }
  unfold get_entry_exit_locations. rewrite E1, E2. reflexivity.
Qed.
Print Assumptions C23_order_independent_partial.

Example C23_demo :
  exists m, get_mir_locations Demo.bd (@rev nat) [Loc 3 1; Loc 1 0; Loc 0 2; Loc 2 0; Loc 0 1] = Some m /\
    get_entry_exit_locations m = Some (Loc 0 1, Loc 3 1).
Proof. eexists. split; reflexivity. Qed.

(** Full order independence fails: in a function that never returns the exit
    depends on the iteration order, and need not be passed after the others. *)
Definition diverging : body :=
  [Block 1 false (TOther [1]); Block 1 false (TOther [1])].

Theorem C23_diverging_exit_refuted :
  exists bd locs m m',
    WfBody bd /\
    (forall l, In l locs -> ValidLoc bd l) /\
    get_mir_locations bd (fun l => l) locs = Some m /\
    get_mir_locations bd (@rev nat) locs = Some m' /\
    exit_location m = Some (Loc 0 0) /\ exit_location m' = Some (Loc 1 0).
Proof.
  exists diverging, [Loc 0 0; Loc 1 0]. eexists. eexists.
  split; [split|].
  - eexists. split; reflexivity.
  - intros a d r E T. destruct a as [|[|a]]; cbn in E; try (injection E as <-; discriminate).
    destruct a; discriminate.
  - split; [|repeat split].
    intros l [<-|[<-|[]]]; eexists; cbn; (split; [reflexivity|cbn; lia]).
Qed.
Print Assumptions C23_diverging_exit_refuted.

(** ** C24: the cleaned graph *)

(** Successors are exactly the targets in normal control flow. *)
Theorem C24_successors_partial :
  forall bd a b,
    WfBody bd ->
    (In b (successors bd a) <->
     Target bd a b /\ Normal bd b).
Proof. exact successors_wf. Qed.
Print Assumptions C24_successors_partial.

Theorem C24_predecessors :
  forall bd a b, In a (predecessors bd b) <-> Target bd a b /\ Normal bd a.
Proof. exact predecessors_iff. Qed.
Print Assumptions C24_predecessors.

(** On blocks in normal control flow the two are converse of each other. *)
Theorem C24_converse :
  forall bd a b,
    WfBody bd -> Normal bd a -> Normal bd b ->
    (In b (successors bd a) <-> In a (predecessors bd b)).
Proof.
  intros bd a b Wf Na Nb. rewrite successors_wf, predecessors_iff by auto. unfold Jump. tauto.
Qed.
Print Assumptions C24_converse.

Example C24_demo :
  successors Demo.bd 2 = [3] /\ predecessors Demo.bd 3 = [1; 2] /\ Normal Demo.bd 2 /\ Normal Demo.bd 3.
Proof.
  repeat split; eexists; cbn; repeat split; discriminate.
Qed.

(** Imaginary edges are not removed: the filter looks at the wrong end of the
    edge, so the pretended target of a false edge stays a successor. *)
Theorem C24_imaginary_edges_refuted :
  exists bd a b, WfBody bd /\ ImaginaryOnly bd a b /\ In b (successors bd a).
Proof.
  exists [Block 0 false (TFalseEdge 1 2); Block 0 false TReturn; Block 0 false TReturn], 0, 2.
  split; [split|split].
  - eexists. split; reflexivity.
  - intros a d r E T. destruct a as [|[|[|a]]]; cbn in E; try (injection E as <-; discriminate).
    destruct a; discriminate.
  - eexists. exists 1. repeat split. discriminate.
  - cbn. auto.
Qed.
Print Assumptions C24_imaginary_edges_refuted.

(** ** C57: the next location *)

(** A reported successor is the only location execution can continue at. *)
Theorem C57_reported_is_the_only_next :
  forall bd l l',
    WfBody bd -> ValidLoc bd l -> location_successor bd l = Some l' ->
    LocStep bd l l' /\ forall x, LocStep bd l x -> x = l'.
Proof. exact location_successor_step. Qed.
Print Assumptions C57_reported_is_the_only_next.

(** None is reported only where execution stops or has a choice. *)
Theorem C57_unreported_means_stop_or_choice :
  forall bd l,
    WfBody bd -> ValidLoc bd l -> location_successor bd l = None ->
    NoDup (raw_successors bd (l_block l)) ->
    forall x, LocStep bd l x -> exists y, LocStep bd l y /\ y <> x.
Proof. exact location_successor_none. Qed.
Print Assumptions C57_unreported_means_stop_or_choice.

Example C57_demo :
  location_successor Demo.bd (Loc 2 0) = Some (Loc 3 0) /\
  location_successor Demo.bd (Loc 0 2) = None /\
  location_successor Demo.bd (Loc 4 0) = None.
Proof. repeat split. Qed.

(** ** C29: the join of a branch *)

(** A computed join is on every path from the branch to a return, is entered
    only through the branch, and every other such block is entered only through it. *)
Theorem C29_computed_join_is_first :
  forall bd ord root j,
    WfBody bd -> ReturnsNormal bd -> (exists e, Returns bd e) -> Order ord ->
    least_post_dominator bd ord root = Some j ->
    Join bd root j /\ forall k, Join bd root k -> forall l, path bd 0 l k -> In j l.
Proof.
  intros bd ord root j Wf RN Ex O H.
  destruct (least_post_dominator_unfold bd ord root Wf RN Ex O j H) as (m & _ & J). exact J.
Qed.
Print Assumptions C29_computed_join_is_first.

(** A join is found iff there is one and the blocks of the branch have a common
    last block.  Missing: it is not found without the second condition. *)
Theorem C29_found_iff_partial :
  forall bd ord root,
    WfBody bd -> ReturnsNormal bd -> (exists e, Returns bd e) -> Order ord ->
    ((exists j, least_post_dominator bd ord root = Some j) <->
     (exists m, Closing bd root m) /\ (exists k, Join bd root k)).
Proof. exact least_post_dominator_present. Qed.
Print Assumptions C29_found_iff_partial.

Theorem C29_order_independent :
  forall bd ord ord' root,
    WfBody bd -> ReturnsNormal bd -> (exists e, Returns bd e) -> Order ord -> Order ord' ->
    least_post_dominator bd ord root = least_post_dominator bd ord' root.
Proof. exact least_post_dominator_order. Qed.
Print Assumptions C29_order_independent.

Example C29_demo : least_post_dominator Demo.bd (@rev nat) 0 = Some 3.
Proof. reflexivity. Qed.

(** One arm of the branch panics (its block has no successor in normal control
    flow): the join of the other arms is on every path to the return, but no
    join is computed. *)
Definition panicking : body :=
  [ Block 0 false (TSwitchInt [1; 2]);
    Block 1 false (TOther [4]);          (* call to panic, unwinds to 4 *)
    Block 1 false (TOther [3]);
    Block 0 false TReturn;
    Block 0 true (TOther []) ].

Lemma panicking_wf : WfBody panicking.
Proof.
  split.
  - eexists. split; reflexivity.
  - intros a d r E T. do 5 (destruct a as [|a]; [cbn in E; injection E as <-; discriminate|]).
    destruct a; discriminate.
Qed.

Lemma panicking_returns e : Returns panicking e <-> e = 3.
Proof. rewrite <- all_returns_iff. cbn. intuition. Qed.

Theorem C29_panicking_arm_refuted :
  exists bd root k,
    WfBody bd /\ ReturnsNormal bd /\ (exists e, Returns bd e) /\
    Join bd root k /\ least_post_dominator bd (fun l => l) root = None.
Proof.
  exists panicking, 0, 3.
  assert (RN : ReturnsNormal panicking).
  { intros e H. apply panicking_returns in H. subst e. eexists. repeat split. discriminate. }
  split; [apply panicking_wf|]. split; [exact RN|].
  split; [exists 3; apply panicking_returns; auto|].
  split; [|reflexivity].
  split; [discriminate|]. split; [apply is_false_edge_iff; reflexivity|].
  split.
  - apply region_Within; [apply panicking_wf|]. cbn. auto.
  - assert (H : post_dominates panicking 3 0 = true) by reflexivity.
    assert (N0 : Normal panicking 0) by (eexists; repeat split; discriminate).
    assert (L3 : 3 < length panicking) by (cbn; lia).
    exact (proj1 (post_dominates_iff panicking 3 0 RN N0 L3) H).
Qed.
Print Assumptions C29_panicking_arm_refuted.

(** In a function that never returns the computed "join" depends on the
    iteration order and can be a block of one arm only. *)
Definition never_returning : body :=
  [ Block 0 false (TSwitchInt [1; 2]);
    Block 1 false (TOther [3]);
    Block 1 false (TOther [3]);
    Block 0 false (TOther [3]) ].

Theorem C29_diverging_function_refuted :
  exists bd root ord ord' j j' l,
    WfBody bd /\ Order ord /\ Order ord' /\
    least_post_dominator bd ord root = Some j /\
    least_post_dominator bd ord' root = Some j' /\ j <> j' /\
    path bd root l j' /\ ~ In j l.
Proof.
  exists never_returning, 0.
  exists (fun l => if memb Nat.eq_dec 1 l then 1 :: l else l), (@rev nat), 1, 3, [0; 2; 3].
  split; [split|].
  - eexists. split; reflexivity.
  - intros a d r E T. do 4 (destruct a as [|a]; [cbn in E; injection E as <-; discriminate|]).
    destruct a; discriminate.
  - split.
    { intros l x. destruct (memb Nat.eq_dec 1 l) eqn:M; [|tauto]. apply memb_In in M. cbn.
      split; auto. intros [<-|I]; auto. }
    split. { intros l x. symmetry. apply in_rev. }
    split; [reflexivity|]. split; [reflexivity|]. split; [discriminate|]. split.
    + assert (J : forall a b, In b (successors never_returning a) -> Jump never_returning a b).
      { intros a b I. apply successors_iff in I. tauto. }
      apply walk_cons with 2; [apply J; cbn; auto|].
      apply walk_cons with 3; [apply J; cbn; auto|]. constructor.
    + cbn. intros [H|[H|[H|[]]]]; discriminate.
Qed.
Print Assumptions C29_diverging_function_refuted.
