(** * C129: the project's own test of the steps *)
From Coq Require Import List Arith Bool Lia.
From Verif Require Import Base CfgModel CfgSpec CfgProofs SegMirModel SegMirSpec SegMirProofs SegMirSound SegMirTree ValidModel ValidSpec ValidProofs.
From Verif Require Import PropSegMir.
Import ListNotations.

Lemma built_shape fw bd ord s : BuiltFrom fw bd ord s -> Shape s.
Proof. intros B. eapply Shape_Steps, BuiltFrom_Steps, B. Qed.

Lemma built_reach fw bd ord s : WfBody bd -> ReturnsNormal bd -> (exists r, ReturnLoc bd r) -> Order ord -> BuiltFrom fw bd ord s ->
  forall g, In g (segs s) -> ReachableLoc bd (s_from g) /\ ReachableLoc bd (s_to g).
Proof. intros Wf RN Ex O B g I. exact (SegsReach_Steps fw bd ord s Wf RN Ex O (BuiltFrom_Steps _ _ _ _ B) g I). Qed.

Lemma linear_in s g : LinearOf s g -> In g (segs s).
Proof. intros (cid & c & sid & _ & _ & E). eapply nth_error_In, E. Qed.
Lemma split_in s g : SplitOf s g -> In g (segs s).
Proof. intros (b & sid & _ & _ & E). eapply nth_error_In, E. Qed.

Lemma built_validate fw bd ord s : WfBody bd -> ReturnsNormal bd -> (exists r, ReturnLoc bd r) -> Order ord -> BuiltFrom fw bd ord s ->
  (validate bd s = None <->
   (forall g, LinearOf s g -> ldominates bd (s_from g) (s_to g) = true /\ lpost_dominates bd (s_to g) (s_from g) = true) /\
   (forall g, SplitOf s g -> ldominates bd (s_from g) (s_to g) = true) /\ StepsCover bd s).
Proof.
  intros Wf RN Ex O B. apply validate_iff; [exact Wf|eapply built_shape, B|]. intros g I. destruct (built_reach fw bd ord s Wf RN Ex O B g I) as [R1 R2].
  split; apply ReachableLoc_valid; auto.
Qed.

Lemma dom_iff fw bd ord s g : WfBody bd -> ReturnsNormal bd -> (exists r, ReturnLoc bd r) -> Order ord -> BuiltFrom fw bd ord s -> In g (segs s) ->
  (ldominates bd (s_from g) (s_to g) = true <-> AlwaysBefore bd (s_from g) (s_to g)).
Proof.
  intros Wf RN Ex O B I. destruct (built_reach fw bd ord s Wf RN Ex O B g I) as [R1 R2]. apply ldominates_iff; auto; apply ReachableLoc_valid; auto.
Qed.

(** ** What it means to pass *)

(** A structure of steps that passes is right: every linear step is passed from its
    start to its end, every step into an arm starts where one has been, and every
    location of the function is on the way of some step. *)
Theorem C129_passes :
  forall fw bd ord s, WfBody bd -> ReturnsNormal bd -> (exists r, ReturnLoc bd r) -> Order ord -> BuiltFrom fw bd ord s ->
    validate bd s = None -> StepsFit bd s /\ StepsCover bd s.
Proof.
  intros fw bd ord s Wf RN Ex O B V. apply (built_validate fw bd ord s Wf RN Ex O B) in V as (HL & HS & HC). split; [split|exact HC].
  - intros g Lg. pose proof (linear_in s g Lg) as I. destruct (HL g Lg) as [D P]. destruct (built_reach fw bd ord s Wf RN Ex O B g I) as [R1 R2]. split.
    + apply (dom_iff fw bd ord s g Wf RN Ex O B I), D.
    + apply lpost_sound; auto; apply ReachableLoc_valid; auto.
  - intros g Sg. apply (dom_iff fw bd ord s g Wf RN Ex O B (split_in s g Sg)), HS, Sg.
Qed.
Print Assumptions C129_passes.

(** If nothing in the function keeps it from returning, exactly those pass. *)
Theorem C129_exact :
  forall fw bd ord s, WfBody bd -> ReturnsNormal bd -> (exists r, ReturnLoc bd r) -> Order ord -> BuiltFrom fw bd ord s -> Ends bd ->
    (validate bd s = None <-> StepsFit bd s /\ StepsCover bd s).
Proof.
  intros fw bd ord s Wf RN Ex O B En. split; [apply (C129_passes fw bd ord s Wf RN Ex O B)|]. intros [[HL HS] HC].
  apply (built_validate fw bd ord s Wf RN Ex O B). split; [|split; [|exact HC]].
  - intros g Lg. pose proof (linear_in s g Lg) as I. destruct (HL g Lg) as [D P]. destruct (built_reach fw bd ord s Wf RN Ex O B g I) as [R1 R2]. split.
    + apply (dom_iff fw bd ord s g Wf RN Ex O B I), D.
    + apply lpost_dominates_iff; auto; try (apply ReachableLoc_valid; auto).
      destruct Ex as [r Hr]. destruct (En _ r R1 Hr) as [p W]. apply exec_path in W as (q & Wq & _). destruct R1 as [ll Wl]. apply exec_path in Wl as (q0 & W0 & _).
      eapply reaching_normal; [|exact RN|exact Wf|exists q0; exact W0|exact Wq]. destruct Hr as (d & E & T & _). exists d. auto.
  - intros g Sg. apply (dom_iff fw bd ord s g Wf RN Ex O B (split_in s g Sg)), HS, Sg.
Qed.
Print Assumptions C129_exact.

(** A failure names something that is really wrong: a step into an arm or a linear
    step that can be reached past its start; a linear step that can be left past its
    end or is never left; or locations of the function, all of those that are on the
    way of no step.  The walk over the structure always ends. *)
Theorem C129_reasons :
  forall fw bd ord s, WfBody bd -> ReturnsNormal bd -> (exists r, ReturnLoc bd r) -> Order ord -> BuiltFrom fw bd ord s -> Ends bd ->
    match validate bd s with
    | None => True
    | Some (SplitNoDom g) => SplitOf s g /\ ~ AlwaysBefore bd (s_from g) (s_to g)
    | Some (LinearNoDom g) => LinearOf s g /\ ~ AlwaysBefore bd (s_from g) (s_to g)
    | Some (LinearNoPostDom g) => LinearOf s g /\ AlwaysBefore bd (s_from g) (s_to g) /\ ~ AlwaysAfter bd (s_to g) (s_from g)
    | Some (Missing ls) => ls <> [] /\ StepsFit bd s /\
        forall l, In l ls <-> InFunction bd l /\ forall g, In g (segs s) -> ~ OnTheWay bd (s_from g) (s_to g) l
    | Some Absent | Some Endless => False
    end.
Proof.
  intros fw bd ord s Wf RN Ex O B En. pose proof (built_shape fw bd ord s B) as Sh.
  assert (Dom : forall g, In g (segs s) -> ldominates bd (s_from g) (s_to g) = false -> ~ AlwaysBefore bd (s_from g) (s_to g)).
  { intros g I F A. apply (dom_iff fw bd ord s g Wf RN Ex O B I) in A. congruence. }
  assert (Post : forall g, In g (segs s) -> AlwaysAfter bd (s_to g) (s_from g) -> lpost_dominates bd (s_to g) (s_from g) = true).
  { intros g I A. destruct (built_reach fw bd ord s Wf RN Ex O B g I) as [R1 R2]. apply lpost_dominates_iff; auto; try (apply ReachableLoc_valid; auto).
    destruct Ex as [r Hr]. destruct (En _ r R1 Hr) as [p W]. apply exec_path in W as (q & Wq & _). destruct R1 as [ll Wl]. apply exec_path in Wl as (q0 & W0 & _).
    eapply reaching_normal; [|exact RN|exact Wf|exists q0; exact W0|exact Wq]. destruct Hr as (d & E & T & _). exists d. auto. }
  assert (V : forall g, In g (segs s) -> ValidLoc bd (s_from g) /\ ValidLoc bd (s_to g)).
  { intros g I. destruct (built_reach fw bd ord s Wf RN Ex O B g I) as [R1 R2]. split; apply ReachableLoc_valid; auto. }
  pose proof (validate_reason bd s Wf Sh V) as R. destruct (validate bd s) as [[g|g|g|ls| |]|]; [| | | |exact R|exact R|exact I].
  - destruct R as [Sg F]. split; [exact Sg|]. apply Dom; [apply split_in, Sg|exact F].
  - destruct R as [Lg F]. split; [exact Lg|]. apply Dom; [apply linear_in, Lg|exact F].
  - destruct R as (Lg & D & F). pose proof (linear_in s g Lg) as I. split; [exact Lg|]. split; [apply (dom_iff fw bd ord s g Wf RN Ex O B I), D|].
    intros A. apply (Post g I) in A. congruence.
  - destruct R as (N & HL & HS & M). split; [exact N|]. split; [split|exact M].
    + intros g Lg. pose proof (linear_in s g Lg) as I. destruct (HL g Lg) as [D P]. destruct (V g I) as [V1 V2]. split.
      * apply (dom_iff fw bd ord s g Wf RN Ex O B I), D.
      * apply lpost_sound; auto.
    + intros g Sg. apply (dom_iff fw bd ord s g Wf RN Ex O B (split_in s g Sg)), HS, Sg.
Qed.
Print Assumptions C129_reasons.

Lemma not_both bd a b : AlwaysBefore bd a b -> BackStep bd a b -> False.
Proof.
  intros H (N & R & G). apply N. apply (Dom_antisym loc_eqd (LocStep bd) (Loc 0 0)); [|exact H|exact G].
  destruct R as [l W]. destruct (walk_split _ _ _ _ _ W (G l W)) as (l1 & l2 & W1 & _). exists l1. exact W1.
Qed.

(** The steps that go back, which the builder does make (C25_backward_refuted), are
    found: no structure with one of them passes. *)
Theorem C129_finds_back :
  forall fw bd ord s g, WfBody bd -> ReturnsNormal bd -> (exists r, ReturnLoc bd r) -> Order ord -> BuiltFrom fw bd ord s ->
    LinearOf s g -> BackStep bd (s_from g) (s_to g) -> validate bd s <> None.
Proof.
  intros fw bd ord s g Wf RN Ex O B Lg Bk V. destruct (C129_passes fw bd ord s Wf RN Ex O B V) as [[HL _] _]. destruct (HL g Lg) as [A _]. exact (not_both _ _ _ A Bk).
Qed.
Print Assumptions C129_finds_back.

(** What the builder makes never fails for the end of a linear step: one of the
    test's reasons does not occur, if the function can return from everywhere. *)
Theorem C129_never_past :
  forall fw bd ord s g, WfBody bd -> ReturnsNormal bd -> (exists r, ReturnLoc bd r) -> Order ord -> BuiltFrom fw bd ord s -> Ends bd ->
    validate bd s <> Some (LinearNoPostDom g).
Proof.
  intros fw bd ord s g Wf RN Ex O B En V. pose proof (C129_reasons fw bd ord s Wf RN Ex O B En) as R. rewrite V in R. destruct R as (Lg & A & N).
  destruct Lg as (cid & c & sid & Ec & I & Eg). destruct (C25_linear_sound_partial fw bd ord s Wf RN Ex O B cid c sid g Ec I Eg) as [(_ & _ & H)|[_ Bk]]; [exact (N H)|exact (not_both _ _ _ A Bk)].
Qed.
Print Assumptions C129_never_past.

(** ** What it does not see *)

(** The third promise is not checked: in every function with one return, the single
    step from the start to the return passes, whatever lies between. *)
Theorem C129_switches_refuted :
  forall fw bd ord r, WfBody bd -> ReturnsNormal bd -> NoWayBack bd -> ReachableLoc bd r -> ReturnLoc bd r ->
    (forall r', ReturnLoc bd r' -> r' = r) ->
    exists s, BuiltFrom fw bd ord s /\ validate bd s = None /\ branches s = [] /\
      (forall b d ts n p, nth_error bd b = Some d -> b_term d = TSwitchInt ts -> In n ts -> Normal bd n -> path bd 0 p b -> ~ SwitchesSplit bd s).
Proof.
  intros fw bd ord r Wf RN NW Rr Re One.
  assert (V0 : ValidLoc bd (Loc 0 0)) by (destruct Wf as [(d & E & _) _]; exists d; cbn; split; [exact E|lia]).
  pose proof (ReachableLoc_valid bd r Wf Rr) as Vr.
  assert (D : ldominates bd (Loc 0 0) r = true). { apply ldominates_iff; auto. intros l W. eapply walk_start_In, W. }
  assert (N0 : Normal bd 0).
  { destruct Rr as [l W]. apply exec_path in W as (q & Wq & _). eapply reaching_normal; [|exact RN|exact Wf|exists [0]; constructor|exact Wq]. destruct Re as (d & E & T & _). exists d. auto. }
  assert (P : lpost_dominates bd r (Loc 0 0) = true).
  { apply lpost_dominates_iff; auto; [exists r; exact Re| |].
    - intros r' R'. rewrite (One r' R'). exact Rr.
    - intros r' l R' W. rewrite (One r' R') in W. eapply walk_end_In, W. }
  set (s := St [Coll [Linear 0] (Unbounded (Loc 0 0))] [] [Seg (Loc 0 0) r 0 0] [Builder 0 r] [] [] [] [0] 1).
  assert (B : BuiltFrom fw bd ord s).
  { exists 1, [OpInsert r 0]. split; [constructor; [exact Rr|constructor]|]. cbn [run step insert]. unfold find_suitable_collection, find_builder, newest_first, make.
    cbn -[ldominates lpost_dominates]. rewrite D. cbn -[ldominates lpost_dominates]. rewrite P. reflexivity. }
  exists s. split; [exact B|]. split; [|split; [reflexivity|]].
  - apply validate_iff; [exact Wf|eapply built_shape, B| |].
    + intros g [<-|[]]. split; [exact V0|exact Vr].
    + split; [|split].
      * intros g (cid & c & sid & Ec & I & Eg). destruct sid as [|sid]; [|destruct sid; discriminate]. injection Eg as <-. split; [exact D|exact P].
      * intros g (b & sid & [] & _).
      * intros l (Vl & Nl & (p & W)). exists (Seg (Loc 0 0) r 0 0). split; [left; reflexivity|]. cbn [s_from s_to]. split; [exact Vl|]. split; [intros _; cbn; lia|]. split.
        -- intros Q. destruct Re as (d & E & _ & Ei). destruct Vl as (d' & E' & Li). rewrite Q in E'. assert (d' = d) by congruence. subst d'. lia.
        -- destruct (Nat.eq_dec (l_block l) (l_block r)) as [Q|Q]; [left; exact Q|right]. exists p. cbn [l_block]. split.
           ++ clear - W Nl NW. cbn. induction W as [x|x y p z T W IH]; [constructor|]. apply walk_cons with y; [|apply IH, Nl]. split; [exact T|].
              clear - W Nl NW. induction W as [x|x y p z T W IH]; [exact Nl|]. eapply NW; [exact T|apply IH, Nl].
           ++ intros I. destruct (walk_split _ _ _ _ _ W I) as (l1 & l2 & _ & W2 & _). inversion W2 as [x Ex|x y l' z T _ Ex]; subst; [congruence|].
              destruct T as (d & E & Nm). destruct Re as (d' & E' & T' & _). assert (d' = d) by congruence. subst d'. rewrite T' in Nm. inversion Nm.
  - intros b d ts n p E T I Nn Pb H. destruct (H b d ts n E T I Nn (ex_intro _ p Pb)) as (g & (br & sid & [] & _) & _).
Qed.
Print Assumptions C129_switches_refuted.

(** The steps into the arms of a branch cover everything that comes after: the way
    of a step into one arm includes the other arm and whatever follows it.  So the
    second promise says nothing about what comes after a branch with two arms. *)
Theorem C129_after_refuted :
  forall bd s g1 g2 l q1 q2 p, In g1 (segs s) -> In g2 (segs s) -> s_from g1 = s_from g2 ->
    l_block (s_to g1) <> l_block (s_to g2) ->
    path bd (l_block (s_from g1)) q1 (l_block (s_to g1)) -> ~ In (l_block (s_to g2)) q1 ->
    path bd (l_block (s_from g1)) q2 (l_block (s_to g2)) -> ~ In (l_block (s_to g1)) q2 ->
    ValidLoc bd l -> path bd (l_block (s_from g1)) p (l_block l) -> (l_block l = l_block (s_from g1) -> l_idx (s_from g1) <= l_idx l) ->
    exists g, In g (segs s) /\ OnTheWay bd (s_from g) (s_to g) l.
Proof.
  intros bd s g1 g2 l q1 q2 p I1 I2 Ef Ne W1 N1 W2 N2 V W Li.
  assert (K1 : forall q, path bd (l_block (s_from g1)) q (l_block l) -> ~ In (l_block (s_to g1)) q -> exists g, In g (segs s) /\ OnTheWay bd (s_from g) (s_to g) l).
  { intros q P N. exists g1. split; [exact I1|]. split; [exact V|]. split; [exact Li|]. split; [|right; exists q; auto].
    intros Q. exfalso. apply N. rewrite <- Q. eapply walk_end_In, P. }
  assert (K2 : forall q, path bd (l_block (s_from g1)) q (l_block l) -> ~ In (l_block (s_to g2)) q -> exists g, In g (segs s) /\ OnTheWay bd (s_from g) (s_to g) l).
  { intros q P N. exists g2. split; [exact I2|]. split; [exact V|]. rewrite <- Ef. split; [exact Li|]. split; [|right; exists q; auto].
    intros Q. exfalso. apply N. rewrite <- Q. eapply walk_end_In, P. }
  destruct (in_dec Nat.eq_dec (l_block (s_to g1)) p) as [J1|J1]; [|exact (K1 p W J1)].
  destruct (walk_last Nat.eq_dec _ _ _ _ _ W J1) as (l2 & Wl & Nl & _).
  destruct (in_dec Nat.eq_dec (l_block (s_to g2)) l2) as [J2|J2].
  - assert (Wt : exists y, walk (Jump bd) y l2 (l_block l)). { inversion Wl as [x Ex|x y l' z T Wt Ex]; subst; [destruct J2|exists y; exact Wt]. }
    destruct Wt as [y Wt]. destruct (walk_last Nat.eq_dec _ _ _ _ _ Wt J2) as (l3 & W3 & _ & S3).
    apply (K1 (q2 ++ l3)); [exact (walk_app _ _ _ _ _ _ W2 W3)|]. intros J. apply in_app_or in J as [J|J]; [exact (N2 J)|]. apply Nl, S3. right. exact J.
  - apply (K2 (q1 ++ l2)); [exact (walk_app _ _ _ _ _ _ W1 Wl)|]. intros J. apply in_app_or in J as [J|J]; [exact (N1 J)|exact (J2 J)].
Qed.
Print Assumptions C129_after_refuted.

Definition opened_st : st := Eval vm_compute in Demo.after false Demo.deep [OpOpenBranch (Loc 0 0) Demo.sp].

(** So a structure passes that stops in the first arms it comes to: here only one
    branch was opened, in the arms of which there are more, and no step ends at the
    return. *)
Theorem C129_stops_refuted :
  exists bd s, WfBody bd /\ ReturnsNormal bd /\ BuiltFrom false bd (fun l => l) s /\ validate bd s = None /\
    (exists b, In b (branches s)) /\ (exists r, ReturnLoc bd r) /\
    (forall r g, ReturnLoc bd r -> In g (segs s) -> s_to g <> r) /\
    (forall c, In c (colls s) -> linear_ids c = []).
Proof.
  exists Demo.deep, opened_st. split; [apply Demo.deep_wf|]. split; [apply Demo.deep_rn|]. 
  split; [exists 5, [OpOpenBranch (Loc 0 0) Demo.sp]; split; [apply op_check_ok; [apply Demo.deep_wf|vm_compute; reflexivity]|vm_compute; reflexivity]|]. split; [vm_compute; reflexivity|].
  split; [eexists; left; reflexivity|]. split; [exists (Loc 9 0), (Block 0 false TReturn); split; [reflexivity|split; reflexivity]|]. split.
  - intros r g (d & E & T & _) I Q. assert (H : forallb (fun g => negb (l_block (s_to g) =? 9)) (segs opened_st) = true) by (vm_compute; reflexivity).
    rewrite forallb_forall in H. specialize (H g I). rewrite Q in H. apply negb_true_iff, Nat.eqb_neq in H.
    destruct (l_block r) as [|[|[|[|[|[|[|[|[|[|k]]]]]]]]]]; cbn in E; try (injection E as <-; discriminate T); [congruence|]. destruct k; discriminate E.
  - intros c I. assert (H : forallb (fun c => match linear_ids c with [] => true | _ => false end) (colls opened_st) = true) by (vm_compute; reflexivity).
    rewrite forallb_forall in H. specialize (H c I). destruct (linear_ids c); [reflexivity|discriminate].
Qed.
Print Assumptions C129_stops_refuted.

(** ** Cases *)

(** A branch with a loop in an arm passes; the row of branches with a wrong step is
    found out; a structure without steps misses everything. *)
Example C129_witness :
  validate Demo.loops Demo.loops_st = None /\ BuiltFrom false Demo.loops (fun l => l) Demo.loops_st /\ WfBody Demo.loops /\ ReturnsNormal Demo.loops /\
  (exists r, ReturnLoc Demo.loops r) /\ Order (fun l : list nat => l) /\
  (exists g, BuiltFrom false Demo.row (fun l => l) Demo.row_st /\ validate Demo.row Demo.row_st = Some (SplitNoDom g)) /\
  validate Demo.forever make = Some (Missing [Loc 0 0; Loc 1 0]).
Proof.
  split; [vm_compute; reflexivity|]. split; [apply Demo.loops_built|]. split; [apply Demo.loops_wf|]. split; [apply Demo.loops_rn|]. split; [apply Demo.loops_ret|].
  split; [apply Order_id|]. split; [|vm_compute; reflexivity]. eexists. split; [apply Demo.row_built|vm_compute; reflexivity].
Qed.

(** The row of branches meets the other hypotheses: from everywhere the one return is
    reached, and control is normal everywhere. *)
Example C129_row_witness :
  Ends Demo.row /\ NoWayBack Demo.row /\ (exists r, ReachableLoc Demo.row r /\ ReturnLoc Demo.row r /\ forall r', ReturnLoc Demo.row r' -> r' = r) /\
  (exists b d ts n p, nth_error Demo.row b = Some d /\ b_term d = TSwitchInt ts /\ In n ts /\ Normal Demo.row n /\ path Demo.row 0 p b) /\
  exists g1 g2, In g1 (segs Demo.row_st) /\ In g2 (segs Demo.row_st) /\ s_from g1 = s_from g2 /\ l_block (s_to g1) = 1 /\ l_block (s_to g2) = 2 /\
    path Demo.row 0 [0; 1] 1 /\ path Demo.row 0 [0; 2] 2 /\ path Demo.row 0 [0; 1; 3; 4; 6] 6.
Proof.
  assert (Rt : forall r, ReturnLoc Demo.row r -> r = Loc 6 1).
  { intros [b i] (d & E & T & Ei). cbn in E, Ei. destruct b as [|[|[|[|[|[|[|b]]]]]]]; cbn in E; try (injection E as <-; discriminate T); [injection E as <-; cbn in Ei; congruence|destruct b; discriminate E]. }
  assert (Re : forall a, a < 7 -> exists p, path Demo.row a p 6).
  { intros a L. assert (H : is_reachable (cleaned_edges Demo.row) a 6 = true) by (destruct a as [|[|[|[|[|[|[|a]]]]]]]; try lia; vm_compute; reflexivity).
    apply is_reachable_iff in H as [p W]. exists p. eapply walk_mono; [|exact W]. intros x y. apply cleaned_edge_iff, Demo.row_wf. }
  assert (Nm : forall a, a < 7 -> Normal Demo.row a).
  { intros a L. destruct a as [|[|[|[|[|[|[|a]]]]]]]; try lia; eexists; (split; [reflexivity|split; [reflexivity|discriminate]]). }
  assert (R6 : ReachableLoc Demo.row (Loc 6 1)).
  { destruct (Re 0) as [p P]; [lia|]. destruct (path_exec _ _ _ _ P 0 1) as (ll & W & _); [eexists; split; [reflexivity|cbn; lia]|intros; lia|eexists; split; [reflexivity|cbn; lia]|]. exists ll. exact W. }
  assert (J : forall a b, In (a, b) (cleaned_edges Demo.row) -> Jump Demo.row a b) by (intros a b; apply cleaned_edge_iff, Demo.row_wf).
  split; [|split; [|split; [|split]]].
  - intros l r Rl Rr. rewrite (Rt r Rr). pose proof (ReachableLoc_valid _ _ Demo.row_wf Rl) as V. pose proof V as (d & E & Li).
    assert (L : l_block l < 7) by (change 7 with (length Demo.row); apply nth_error_Some; congruence).
    destruct (Re _ L) as [p P]. destruct (path_exec _ _ _ _ P (l_idx l) 1) as (ll & W & _).
    + eexists. split; [reflexivity|cbn; lia].
    + intros ->. apply walk_single in P. rewrite <- P in E. injection E as <-. exact Li.
    + rewrite loc_eta. exact V.
    + rewrite loc_eta in W. exists ll. exact W.
  - intros a b (d & E & _) _. apply Nm. change 7 with (length Demo.row). apply nth_error_Some. congruence.
  - exists (Loc 6 1). split; [exact R6|]. split; [eexists; cbn; repeat split; reflexivity|exact Rt].
  - exists 0, (Block 1 false (TSwitchInt [1; 2])), [1; 2], 1, [0]. repeat split; [left; reflexivity|apply Nm; lia|constructor].
  - exists (Seg (Loc 0 0) (Loc 1 0) 7 0), (Seg (Loc 0 0) (Loc 2 0) 7 0). split; [vm_compute; auto|]. split; [vm_compute; auto|]. repeat split.
    + apply walk_cons with 1; [apply J; vm_compute; auto|constructor].
    + apply walk_cons with 2; [apply J; vm_compute; auto|constructor].
    + apply walk_cons with 1; [apply J; vm_compute; tauto|]. apply walk_cons with 3; [apply J; vm_compute; tauto|]. apply walk_cons with 4; [apply J; vm_compute; tauto|].
      apply walk_cons with 6; [apply J; vm_compute; tauto|constructor].
Qed.

(** The row of branches has a step that goes back. *)
Example C129_back_witness :
  exists g, BuiltFrom false Demo.row (fun l => l) Demo.row_st /\ LinearOf Demo.row_st g /\ BackStep Demo.row (s_from g) (s_to g).
Proof.
  exists (Seg (Loc 6 0) (Loc 3 0) 9 0). split; [apply Demo.row_built|]. split; [exists 1; eexists; exists 4; split; [reflexivity|split; [right; left; reflexivity|reflexivity]]|].
  cbn [s_from s_to]. assert (R : forall l, reach_check Demo.row l = true -> ReachableLoc Demo.row l) by (intros l; apply reach_check_ok, Demo.row_wf).
  assert (R6 : ReachableLoc Demo.row (Loc 6 0)) by (apply R; vm_compute; reflexivity). assert (R3 : ReachableLoc Demo.row (Loc 3 0)) by (apply R; vm_compute; reflexivity).
  split; [discriminate|]. split; [exact R6|]. apply ldominates_iff; [apply Demo.row_wf|apply ReachableLoc_valid; [apply Demo.row_wf|exact R3]|apply ReachableLoc_valid; [apply Demo.row_wf|exact R6]|exact R6|vm_compute; reflexivity].
Qed.
