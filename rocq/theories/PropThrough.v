(** * C115: an execution runs through the steps of the table in order *)
From Coq Require Import List Arith Bool Lia.
From Verif Require Import Base CfgModel CfgSpec CfgProofs SegMirModel SegMirSpec SegMirProofs SegMirSound
  SegMirTree ThroughSpec ThroughProofs PropSegMir.
Import ListNotations.

(** Every execution that returns runs through the items of the outermost
    collection, one after the other, and then on to the return. *)
Theorem C115_whole :
  forall fw bd ord s c r w,
    WfBody bd -> ReturnsNormal bd -> Order ord -> BuiltFrom fw bd ord s ->
    nth_error (colls s) 0 = Some c -> ReturnLoc bd r -> Run bd w r ->
    RunsThrough bd s (Loc 0 0) (c_data c) w r.
Proof.
  intros fw bd ord s c r w Wf RN O B Ec R W.
  assert (Ex : exists r, ReturnLoc bd r) by eauto.
  pose proof (BuiltFrom_Steps _ _ _ _ B) as St.
  destruct (Chained_Steps _ _ _ _ _ St 0 c Ec) as (p & q & Bg & Ch & _).
  assert (N0 : forall b, In b (branches s) -> ~ In 0 (br_nested b)).
  { intros b I I0. pose proof (sh_nested s (Shape_Steps _ _ _ _ _ St)) as Sh.
    assert (Nd : NoDup (0 :: flat_map br_nested (branches s))) by (rewrite Sh; apply seq_NoDup).
    apply NoDup_cons_iff in Nd as [Nd _]. apply Nd. apply in_flat_map. eauto. }
  assert (p = Loc 0 0) as ->.
  { destruct Bg as [[_ ->]|(bid & k & sid & sg & (b & Eb & _ & En) & _)]; auto.
    exfalso. apply (N0 b); eapply nth_error_In; eauto. }
  eapply chain_through; eauto; [eapply ArmsOk_Steps; eauto|eapply JoinOk_Steps; eauto|].
  intros sid sg I Es.
  destruct (C25_linear_sound_partial fw bd ord s Wf RN Ex O B 0 c sid sg Ec I Es) as [(_ & _ & H)|[(b & Ib & In0 & _) _]];
    auto. exfalso. apply (N0 b); auto.
Qed.
Print Assumptions C115_whole.

(** Whoever is where a branch was opened and returns takes one of its arms: they
    come to the [k]-th target of the switch.  If the arm's split ends where
    everybody passes who was at the target, and no step of the arm goes back,
    they pass the split's end and run through the items of the arm. *)
Theorem C115_arm_partial :
  forall fw bd ord s b sid0 sg0 r w,
    WfBody bd -> ReturnsNormal bd -> Order ord -> BuiltFrom fw bd ord s ->
    In b (branches s) -> In sid0 (br_splits b) -> nth_error (segs s) sid0 = Some sg0 ->
    ReturnLoc bd r -> walk (LocStep bd) (s_from sg0) w r ->
    exists k n sid sg cid c w1 w2,
      nth_error (successors bd (l_block (fst (br_reach b)))) k = Some n /\
      nth_error (br_splits b) k = Some sid /\ nth_error (segs s) sid = Some sg /\
      nth_error (br_nested b) k = Some cid /\ nth_error (colls s) cid = Some c /\
      Cut bd (s_from sg0) w r (Loc n 0) w1 w2 /\
      (AlwaysAfter bd (s_to sg) (Loc n 0) ->
       (forall i sg', In (Linear i) (c_data c) -> nth_error (segs s) i = Some sg' ->
          ~ BackStep bd (s_from sg') (s_to sg')) ->
       exists v1 v2, Cut bd (Loc n 0) w2 r (s_to sg) v1 v2 /\ RunsThrough bd s (s_to sg) (c_data c) v2 r).
Proof.
  intros fw bd ord s b sid0 sg0 r w Wf RN O B Ib I0 E0 R W.
  assert (Ex : exists r, ReturnLoc bd r) by eauto.
  pose proof (BuiltFrom_Steps _ _ _ _ B) as St.
  pose proof (Shape_Steps _ _ _ _ _ St) as Sh.
  pose proof (ArmsOk_Steps _ _ _ _ _ St) as A.
  destruct (A b Ib) as [L A'].
  apply In_nth_error in I0 as [k0 I0].
  assert (Lk : k0 < length (br_splits b)) by (apply nth_error_Some; congruence).
  assert (exists n0, nth_error (successors bd (l_block (fst (br_reach b)))) k0 = Some n0) as [n0 N0].
  { rewrite L in Lk. apply nth_error_Some in Lk.
    destruct (nth_error (successors bd (l_block (fst (br_reach b)))) k0) as [x|]; [exists x; auto|congruence]. }
  destruct (A' k0 n0 sid0 N0 I0) as (sg0' & E0' & _ & Hsw). rewrite E0 in E0'. injection E0' as <-.
  destruct (switch_location_walk _ _ _ Hsw) as [v V].
  destruct (forced_cut bd _ _ _ Wf V _ w r eq_refl R W) as (d & w1 & w2 & Ed & C).
  destruct (cut_target bd _ w r _ d w1 w2 n0 Wf R Ed (nth_error_In _ _ N0) C) as (n & w3 & In' & C').
  apply In_nth_error in In' as [k Nk].
  assert (Lk' : k < length (br_splits b)) by (rewrite L; apply nth_error_Some; congruence).
  assert (exists sid, nth_error (br_splits b) k = Some sid) as [sid Hs].
  { apply nth_error_Some in Lk'. destruct (nth_error (br_splits b) k) as [x|]; [exists x; auto|congruence]. }
  destruct (A' k n sid Nk Hs) as (sg & Eg & _ & _).
  assert (exists cid, nth_error (br_nested b) k = Some cid) as [cid Hc].
  { rewrite (sh_arms s Sh b Ib) in Lk'. apply nth_error_Some in Lk'.
    destruct (nth_error (br_nested b) k) as [x|]; [exists x; auto|congruence]. }
  assert (Lc : cid < length (colls s)).
  { assert (X : In cid (seq 0 (length (colls s)))).
    { rewrite <- (sh_nested s Sh). right. apply in_flat_map. exists b. split; auto. eapply nth_error_In; eauto. }
    apply in_seq in X. lia. }
  apply nth_error_Some in Lc. destruct (nth_error (colls s) cid) as [c|] eqn:Ec; [|congruence].
  exists k, n, sid, sg, cid, c, (w1 ++ [Loc n 0]), w3.
  do 5 (split; auto). split; auto.
  intros Af Nb. destruct C' as (C1 & C2 & C3).
  destruct (walk_split _ _ _ _ _ C2 (Af r w3 R C2)) as (v1 & v2 & V1 & V2 & Ev).
  exists v1, v2. split; [split; auto|].
  destruct (Chained_Steps _ _ _ _ _ St cid c Ec) as (p & q & Bg & Ch & _).
  assert (p = s_to sg) as ->.
  { destruct Bg as [[-> _]|(bid & k' & sid' & sg' & (b' & Eb & Es & En) & Eg' & <-)].
    - exfalso. assert (Nd : NoDup (0 :: flat_map br_nested (branches s))) by (rewrite (sh_nested s Sh); apply seq_NoDup).
      apply NoDup_cons_iff in Nd as [Nd _]. apply Nd. apply in_flat_map. exists b. split; auto. eapply nth_error_In; eauto.
    - apply In_nth_error in Ib as [bid0 Eb0].
      assert (Nd : NoDup (flat_map br_nested (branches s))).
      { assert (X : NoDup (0 :: flat_map br_nested (branches s))) by (rewrite (sh_nested s Sh); apply seq_NoDup).
        apply NoDup_cons_iff in X. tauto. }
      destruct (flat_nodup br_nested _ Nd bid0 b k bid b' k' cid Eb0 Hc Eb En) as [-> ->].
      rewrite Eb in Eb0. injection Eb0 as ->. rewrite Es in Hs. injection Hs as ->. congruence. }
  eapply chain_through; eauto; [eapply JoinOk_Steps; eauto|].
  intros i sg' I Es.
  destruct (C25_linear_sound_partial fw bd ord s Wf RN Ex O B cid c i sg' Ec I Es) as [(_ & _ & H)|[_ H]]; auto.
  exfalso. exact (Nb i sg' I Es H).
Qed.
Print Assumptions C115_arm_partial.

(** So under these two conditions the whole tree is run through: at every branch,
    in the arm that is taken. *)
Lemma covers_from fw bd ord s : WfBody bd -> ReturnsNormal bd -> (exists r, ReturnLoc bd r) -> Order ord ->
  BuiltFrom fw bd ord s -> Forward bd s ->
  forall m cid c p, length (colls s) - cid <= m -> nth_error (colls s) cid = Some c -> BeginsAt s cid p ->
  forall r w, ReturnLoc bd r -> walk (LocStep bd) p w r -> Covers bd s p (c_data c) w r.
Proof.
  intros Wf RN Ex O B [Fl Fs]. pose proof (BuiltFrom_Steps _ _ _ _ B) as St.
  pose proof (Shape_Steps _ _ _ _ _ St) as Sh. pose proof (ArmsOk_Steps _ _ _ _ _ St) as A.
  pose proof (JoinOk_Steps _ _ _ _ _ St) as J.
  induction m as [|m IHm]; intros cid c p Lm Ec Bg r w R W.
  { assert (cid < length (colls s)) by (apply nth_error_Some; congruence). lia. }
  destruct (Chained_Steps _ _ _ _ _ St cid c Ec) as (p' & q & Bg' & Ch & _).
  rewrite <- (begins_one s cid p' p Sh Bg' Bg) in W |- *. clear Bg Bg' p.
  assert (Hi : forall x, In x (c_data c) -> In x (c_data c)) by auto. revert Hi Ch.
  generalize (c_data c) at 1 3 4 as items. intros items Hi Ch. revert Hi w W.
  induction Ch as [p|p sid sg rest q E F C IH|p bid b rest q E Sp Hj C IH|p bid b rest q E Sp Hj C IH];
    intros Hi w W.
  - constructor. exact W.
  - assert (Af : AlwaysAfter bd (s_to sg) (s_from sg)).
    { destruct (C25_linear_sound_partial fw bd ord s Wf RN Ex O B cid c sid sg Ec (Hi _ (or_introl eq_refl)) E) as [(_ & _ & H)|[_ H]]; auto.
      exfalso. exact (Fl cid c sid sg Ec (Hi _ (or_introl eq_refl)) E H). }
    rewrite F in Af. destruct (walk_split _ _ _ _ _ W (Af r w R W)) as (w1 & w2 & W1 & W2 & Ew).
    eapply cov_linear; eauto; [split; eauto|]. apply IH; auto. intros x I. apply Hi. right. exact I.
  - assert (Ib : In b (branches s)) by (eapply nth_error_In; eauto).
    assert (Af : AlwaysAfter bd (snd (br_reach b)) p).
    { pose proof (HasJoin_join bd ord s b J Ib Hj) as Jb. destruct (A b Ib) as [L A'].
      destruct (successors bd (l_block (fst (br_reach b)))) as [|n ns] eqn:En;
        [exfalso; apply (join_targets bd ord _ _ Wf RN Ex O Jb); auto|].
      destruct (br_splits b) as [|sid0 sids] eqn:Es; [discriminate L|].
      destruct (A' 0 n sid0 eq_refl eq_refl) as (sg & Eg & _ & Hsw).
      destruct (Sp sid0 (or_introl eq_refl)) as (sg' & Eg' & Fp). rewrite Eg in Eg'. injection Eg' as <-.
      rewrite Fp in Hsw. eapply join_after; eauto. }
    destruct (walk_split _ _ _ _ _ W (Af r w R W)) as (u1 & u2 & U1 & U2 & Eu).
    assert (IH' : Covers bd s (snd (br_reach b)) rest u2 r) by (apply IH; auto; intros x I; apply Hi; right; exact I).
    destruct (br_splits b) as [|sid0 sids] eqn:Es.
    { exfalso. destruct (A b Ib) as [L _]. rewrite Es in L. pose proof (HasJoin_join bd ord s b J Ib Hj) as Jb.
      apply (join_targets bd ord _ _ Wf RN Ex O Jb). destruct (successors _ _); [reflexivity|discriminate L]. }
    destruct (Sp sid0 (or_introl eq_refl)) as (sg0 & Eg0 & Fp0).
    rewrite <- Fp0 in W.
    destruct (C115_arm_partial fw bd ord s b sid0 sg0 r w Wf RN O B Ib ltac:(rewrite Es; left; reflexivity) Eg0 R W)
      as (k & n & sid & sg & cid' & c' & w1 & w2 & H1 & H2 & H3 & H4 & H5 & H6 & _).
    assert (Ex' : exists sg', nth_error (segs s) sid = Some sg' /\ s_from sg' = p) by (apply Sp; rewrite <- Es; eapply nth_error_In; eauto).
    destruct Ex' as (sg' & Eg' & Fp'). rewrite H3 in Eg'. injection Eg' as <-.
    destruct H6 as (C1 & C2 & C3).
    destruct (walk_split _ _ _ _ _ C2 (Fs b k n sid sg Ib H1 H2 H3 r w2 R C2)) as (v1 & v2 & V1 & V2 & Ev).
    rewrite Fp0 in C1.
    eapply (cov_branch bd s p bid b k n sid sg cid' c' rest w w1 w2 v1 v2 (snd (br_reach b)) u1 u2 r); auto.
    + split; auto.
    + split; auto.
    + apply (IHm cid'); auto.
      * assert (cid < cid'); [|assert (cid' < length (colls s)) by (apply nth_error_Some; congruence); lia].
        eapply (sh_below s Sh cid c bid b cid'); eauto; [|eapply nth_error_In; eauto].
        apply in_flat_map. exists (Branching bid). split; [apply Hi; left; reflexivity|left; reflexivity].
      * right. exists bid, k, sid, sg. split; [exists b; auto|auto].
    + intros N. contradiction.
    + split; auto.
  - assert (Ib : In b (branches s)) by (eapply nth_error_In; eauto).
    assert (IH' : Covers bd s p rest w r) by (apply IH; auto; intros x I; apply Hi; right; exact I).
    destruct (br_splits b) as [|sid0 sids] eqn:Es; [eapply cov_none; eauto|].
    destruct (Sp sid0 (or_introl eq_refl)) as (sg0 & Eg0 & Fp0).
    pose proof W as Wp. rewrite <- Fp0 in W.
    destruct (C115_arm_partial fw bd ord s b sid0 sg0 r w Wf RN O B Ib ltac:(rewrite Es; left; reflexivity) Eg0 R W)
      as (k & n & sid & sg & cid' & c' & w1 & w2 & H1 & H2 & H3 & H4 & H5 & H6 & _).
    assert (Ex' : exists sg', nth_error (segs s) sid = Some sg' /\ s_from sg' = p) by (apply Sp; rewrite <- Es; eapply nth_error_In; eauto).
    destruct Ex' as (sg' & Eg' & Fp'). rewrite H3 in Eg'. injection Eg' as <-.
    destruct H6 as (C1 & C2 & C3).
    destruct (walk_split _ _ _ _ _ C2 (Fs b k n sid sg Ib H1 H2 H3 r w2 R C2)) as (v1 & v2 & V1 & V2 & Ev).
    rewrite Fp0 in C1.
    eapply (cov_branch bd s p bid b k n sid sg cid' c' rest w w1 w2 v1 v2 p [p] w r); auto.
    + split; auto.
    + split; auto.
    + apply (IHm cid'); auto.
      * assert (cid < cid'); [|assert (cid' < length (colls s)) by (apply nth_error_Some; congruence); lia].
        eapply (sh_below s Sh cid c bid b cid'); eauto; [|eapply nth_error_In; eauto].
        apply in_flat_map. exists (Branching bid). split; [apply Hi; left; reflexivity|left; reflexivity].
      * right. exists bid, k, sid, sg. split; [exists b; auto|auto].
    + intros N. contradiction.
    + split; [constructor|]. split; auto. destruct (walk_head _ _ _ _ Wp) as [x ->]. reflexivity.
Qed.

Theorem C115_tree_partial :
  forall fw bd ord s c r w,
    WfBody bd -> ReturnsNormal bd -> Order ord -> BuiltFrom fw bd ord s -> Forward bd s ->
    nth_error (colls s) 0 = Some c -> ReturnLoc bd r -> Run bd w r ->
    Covers bd s (Loc 0 0) (c_data c) w r.
Proof.
  intros fw bd ord s c r w Wf RN O B F Ec R W.
  eapply (covers_from fw bd ord s Wf RN ltac:(eauto) O B F (length (colls s)) 0); eauto; [lia|].
  left. auto.
Qed.
Print Assumptions C115_tree_partial.

(** A split that ends at its target meets the first condition. *)
Theorem C115_target : forall bd n, AlwaysAfter bd (Loc n 0) (Loc n 0).
Proof. intros bd n r l _ W. eapply walk_start_In; eauto. Qed.
Print Assumptions C115_target.

(** Without the second condition it is false: nobody runs through the first arm
    of the first branch of [row], whose last step goes back from (6,0) to (3,0). *)
Theorem C115_arm_refuted :
  exists bd s b cid c sid sg,
    WfBody bd /\ ReturnsNormal bd /\ (exists r, ReturnLoc bd r) /\ BuiltFrom false bd (fun l => l) s /\
    nth_error (branches s) 0 = Some b /\ nth_error (br_nested b) 0 = Some cid /\
    nth_error (colls s) cid = Some c /\ nth_error (br_splits b) 0 = Some sid /\
    nth_error (segs s) sid = Some sg /\ ReachableLoc bd (s_to sg) /\
    forall r w, ~ RunsThrough bd s (s_to sg) (c_data c) w r.
Proof.
  exists Demo.row, Demo.row_st. do 5 eexists.
  split; [apply Demo.row_wf|]. split; [apply Demo.row_rn|]. split; [apply Demo.row_ret|].
  split; [apply Demo.row_built|].
  do 5 (split; [reflexivity|]).
  split; [apply reach_check_ok; [apply Demo.row_wf|vm_compute; reflexivity]|].
  intros r w (w1 & q & w2 & T & _ & _). cbn [s_to c_data] in T.
  assert (N : forall p l z, walk (LocStep Demo.row) p l z -> l_block p = 6 -> l_block z = 6).
  { induction 1 as [x|x y l z H W IH]; auto. intros E. apply IH. inversion H as [b d i Eb Li|b d c Eb J]; subst; auto.
    cbn in E. subst b. destruct J as [(d' & Ed & Nm) _]. cbn in Ed. injection Ed as <-. inversion Nm. }
  inversion T as [ | |p bid b r' v1 v2 q' Eb Hj Sp V1 T2|p bid b r' v q' Eb Hj Sp T2]; subst.
  - cbn in Eb. injection Eb as <-. cbn [br_reach snd] in T2.
    inversion T2 as [|p sid sg r'' u1 u2 q'' Es F U1 T3| |]; subst.
    cbn in Es. injection Es as <-. cbn [s_to s_from] in U1.
    apply N in U1; auto. discriminate U1.
  - cbn in Eb. injection Eb as <-. apply Hj. unfold HasJoin. cbn. discriminate.
Qed.
Print Assumptions C115_arm_refuted.

(** An execution of [if a { while b {} } else {}] that takes the first arm and
    goes around the loop: cut by the branch and the last step. *)
Example C115_witness :
  let w := [Loc 0 0; Loc 0 1; Loc 1 0; Loc 2 0; Loc 2 1; Loc 3 0; Loc 2 0; Loc 2 1; Loc 4 0; Loc 6 0; Loc 6 1] in
  Run Demo.loops w (Loc 6 1) /\ ReturnLoc Demo.loops (Loc 6 1) /\
  BuiltFrom false Demo.loops (fun l => l) Demo.loops_st /\ Order (fun l : list nat => l) /\
  (exists c, nth_error (colls Demo.loops_st) 0 = Some c /\ c_data c = [Branching 0; Linear 5]) /\
  (exists b c, nth_error (branches Demo.loops_st) 0 = Some b /\ br_splits b = [0; 1] /\ br_nested b = [1; 2] /\
     nth_error (colls Demo.loops_st) 1 = Some c /\ c_data c <> []).
Proof.
  cbn zeta. split.
  { assert (G : forall x y l z, LocStep Demo.loops x y -> walk (LocStep Demo.loops) y l z ->
              walk (LocStep Demo.loops) x (x :: l) z) by (intros; econstructor; eauto).
    unfold Run.
    assert (J : forall a b d e, nth_error Demo.loops a = Some d -> nth_error Demo.loops b = Some e ->
      In b (targets (b_term d)) -> b_cleanup e = false -> b_term e <> TUnreachable ->
      LocStep Demo.loops (Loc a (b_stmts d)) (Loc b 0)).
    { intros a b d e Ea Eb I1 I2 I3. apply step_jump; auto. split; [exists d; split; auto; apply targets_iff; auto|].
      exists e. auto. }
    repeat match goal with
    | |- walk _ ?x [?x] ?x => apply walk_one
    | |- walk _ ?x (?x :: ?y :: ?l) ?z => apply (G x y (y :: l) z)
    | |- LocStep _ (Loc ?a 0) (Loc ?a 1) => eapply step_within; [reflexivity|cbn; lia]
    | |- LocStep _ (Loc ?a _) (Loc ?b 0) =>
        refine (J a b _ _ eq_refl eq_refl _ _ _); [cbn; tauto|reflexivity|discriminate]
    end. }
  split; [eexists; cbn; repeat split; reflexivity|].
  split; [apply Demo.loops_built|]. split; [intros l x; tauto|].
  split; [eexists; split; reflexivity|].
  do 2 eexists. do 4 (split; [reflexivity|]). discriminate.
Qed.

(** And it meets the conditions of [C115_tree_partial]. *)
Example C115_tree_witness : Forward Demo.loops Demo.loops_st.
Proof.
  assert (Rb : forall l, reach_check Demo.loops l = true -> ReachableLoc Demo.loops l)
    by (intros l; apply reach_check_ok, Demo.loops_wf).
  split.
  - intros cid c i sg Ec I Es (N & R & Bf).
    assert (G : ReachableLoc Demo.loops (s_to sg) -> ldominates Demo.loops (s_to sg) (s_from sg) = false -> False).
    { intros Ra L. exact (not_before Demo.loops _ _ Demo.loops_wf Ra R L Bf). }
    do 5 (destruct cid as [|cid]; [injection Ec as <-; cbn [c_data In] in I;
      repeat (destruct I as [I|I]; [first [discriminate I|injection I as <-; injection Es as <-;
        first [apply G; [apply Rb; vm_compute; reflexivity|vm_compute; reflexivity]|apply N; reflexivity]]|]); destruct I|]).
    destruct cid; discriminate Ec.
  - intros b k n sid sg Ib Hn Hs Es.
    cbn [branches Demo.loops_st In] in Ib.
    repeat (destruct Ib as [<-|Ib]; [cbn [br_reach br_splits fst l_block] in Hn, Hs;
      do 2 (destruct k as [|k]; [injection Hn as <-; injection Hs as <-; injection Es as <-; apply C115_target|]);
      destruct k; discriminate Hs|]). destruct Ib.
Qed.
