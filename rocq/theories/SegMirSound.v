(** * Linear segments are sound, up to the cut at a join *)
From Coq Require Import List Arith Bool Lia Permutation.
From Verif Require Import Base FactsModel FactsProofs FlowModel CfgModel CfgSpec CfgProofs
  SegMirModel SegMirSpec SegMirProofs.
Import ListNotations.

Lemma walk_passes bd b d r : nth_error bd b = Some d -> ReturnLoc bd r ->
  forall k i l, i + k <= b_stmts d -> walk (LocStep bd) (Loc b i) l r -> In (Loc b (i + k)) l.
Proof.
  intros E Hr. induction k as [|k IH]; intros i l L W.
  - rewrite Nat.add_0_r. eapply walk_start_In; eauto.
  - inversion W as [x Ex|x y l' z St W' Ex]; subst.
    + destruct Hr as (d' & E' & _ & Ei). cbn in *. assert (d' = d) by congruence. subst. lia.
    + right. inversion St as [b' d' i' E' Li|b' d' c E' J]; subst.
      * replace (i + S k) with (S i + k) by lia. apply (IH (S i)); auto. lia.
      * assert (d' = d) by congruence. subst. lia.
Qed.

Lemma lpost_sound bd P N :
  ReturnsNormal bd -> (exists r, ReturnLoc bd r) -> ValidLoc bd P -> ValidLoc bd N ->
  lpost_dominates bd P N = true -> AlwaysAfter bd P N.
Proof.
  intros RN [r0 R0] VP VN H.
  destruct (Nat.eqb_spec (l_block P) (l_block N)) as [E|NE].
  - unfold lpost_dominates in H. rewrite (proj2 (Nat.eqb_eq _ _) E) in H.
    apply Nat.leb_le in H. intros r l Hr W. destruct VP as (d & Ed & Lp).
    rewrite <- (loc_eta N), <- E in W. rewrite <- (loc_eta P).
    replace (l_idx P) with (l_idx N + (l_idx P - l_idx N)) by lia.
    eapply walk_passes; eauto. lia.
  - assert (PD : post_dominates bd (l_block P) (l_block N) = true).
    { unfold lpost_dominates in H. rewrite (proj2 (Nat.eqb_neq _ _) NE) in H. auto. }
    assert (Nn : Normal bd (l_block N)).
    { eapply post_dominates_normal; eauto. eapply ReturnLoc_block; eauto. }
    apply (lpost_dominates_iff bd P N); auto; [eauto|].
    intros r Hr. pose proof (ReturnLoc_block _ _ Hr) as Rb.
    destruct (post_dominates_lt _ _ _ PD) as [Lp _].
    destruct (proj1 (post_dominates_iff bd _ _ RN Nn Lp) PD _ Rb) as [[pl Wp] _].
    destruct (path_exec bd _ _ _ Wp (l_idx N) (l_idx r)) as (ll & Wl & _).
    + destruct Hr as (d & Ed & _ & Ei). exists d. cbn. split; auto. lia.
    + intros ->. apply walk_single in Wp. destruct Hr as (d & Ed & _ & Ei).
      destruct VN as (dn & En & Ln). assert (dn = d) by congruence. subst. lia.
    + rewrite loc_eta. auto.
    + rewrite !loc_eta in Wl. eauto.
Qed.

Lemma cut_sound bd cur phi l :
  ReachableLoc bd cur -> ReachableLoc bd phi -> ReachableLoc bd l ->
  AlwaysBefore bd cur l -> AlwaysBefore bd phi l -> AlwaysAfter bd l cur ->
  SoundStep bd cur phi \/ BackStep bd cur phi.
Proof.
  intros Rc Rp Rl Dc Dp A.
  destruct (loc_eqd cur phi) as [->|N].
  { left. split; auto. split; [apply Dom_refl|]. intros r w _ W. eapply walk_start_In; eauto. }
  destruct (Dom_linear loc_eqd (LocStep bd) (Loc 0 0) cur phi l Rl Dc Dp) as [D|D].
  - left. split; auto. split; auto. intros r w Hr W.
    destruct (walk_split _ _ _ _ _ W (A r w Hr W)) as (w1 & w2 & W1 & W2 & ->).
    apply in_or_app. left.
    destruct Rc as [k Wk].
    destruct (walk_first loc_eqd _ _ _ _ _ Wk (walk_end_In _ _ _ _ Wk)) as (l1 & Wl1 & N1 & _).
    pose proof (not_before_dom loc_eqd (LocStep bd) (Loc 0 0) cur phi l1 D N Wl1 N1) as Np.
    pose proof (Dp _ (walk_app _ _ _ _ _ _ Wl1 W1)) as I.
    destruct (walk_head _ _ _ _ W1) as [r1 ->]. cbn in I |- *.
    rewrite <- app_assoc in I. apply in_app_or in I as [I|I]; [contradiction|]. auto.
  - right. split; auto.
Qed.

Lemma block_start_reachable bd b p : WfBody bd -> path bd 0 p b -> ReachableLoc bd (Loc b 0).
Proof.
  intros Wf W.
  assert (V : ValidLoc bd (Loc b 0)).
  { destruct (walk_last_eq _ _ _ _ W) as [r E]. destruct r as [|x r].
    - rewrite E in W. apply walk_single in W. subst b. apply ValidLoc_start. auto.
    - assert (H : exists x, Jump bd x b).
      { clear - W E. revert r x E. induction W as [y|y z l w J W IH]; intros r x E.
        - destruct r; discriminate.
        - destruct r as [|r0 r].
          + cbn in E. injection E as _ E. rewrite E in W. apply walk_single in W. subst. eauto.
          + cbn in E. injection E as _ E. eapply IH. exact E. }
      destruct H as [y [_ (d & Ed & _)]]. exists d. cbn. split; auto. lia. }
  destruct (path_exec bd _ _ _ W 0 0 V) as (ll & Wl & _); auto.
  - apply ValidLoc_start. auto.
  - exists ll. exact Wl.
Qed.

Lemma next_switch_path bd fuel : WfBody bd -> forall b c,
  next_switch_block bd fuel b = Some (Some c) -> exists p, path bd b p c.
Proof.
  intros Wf. induction fuel as [|f IH]; intros b c; cbn; [discriminate|].
  destruct (is_switchint bd b).
  - intros [= <-]. exists [b]. constructor.
  - destruct (successors bd b) as [|n [|m r]] eqn:S; try discriminate.
    intros H. destruct (IH n c H) as [p Wp]. exists (b :: p). econstructor; eauto.
    apply (successors_wf bd b n Wf). rewrite S. left. auto.
Qed.

Lemma switch_location_path bd l sw : WfBody bd -> switch_location bd l = Some sw ->
  exists p, path bd (l_block l) p (l_block sw).
Proof.
  intros Wf. unfold switch_location, find_next_switchint.
  destruct (next_switch_block bd (S (length bd)) (l_block l)) as [[c|]|] eqn:E; try discriminate.
  - intros [= <-]. cbn. eapply next_switch_path; eauto.
  - intros [= <-]. exists [l_block l]. constructor.
Qed.

Lemma target_reachable bd l sw n : WfBody bd -> ReachableLoc bd l ->
  switch_location bd l = Some sw -> In n (successors bd (l_block sw)) -> ReachableLoc bd (Loc n 0).
Proof.
  intros Wf R S I. apply ReachableLoc_block in R as [p Wp].
  destruct (switch_location_path _ _ _ Wf S) as [q Wq].
  apply successors_wf in I; auto. eapply block_start_reachable; auto.
  eapply walk_snoc; [eapply walk_app; eauto|exact I].
Qed.

Lemma join_reachable bd ord sw phi : WfBody bd -> Order ord ->
  join_of bd ord sw = Some phi -> ReachableLoc bd phi.
Proof.
  intros Wf O H. unfold join_of in H. destruct (least_post_dominator bd ord (l_block sw)) as [j|] eqn:E;
    [|discriminate]. cbn in H. injection H as <-. unfold least_post_dominator in E.
  destruct (find _ (ord _)) as [m|]; [|discriminate]. apply find_some in E as [E _].
  unfold join_candidates in E. apply filter_In in E as [E _]. apply (proj1 (O _ _)) in E.
  apply region_Within in E; auto. destruct E as [[p Wp] _]. eapply block_start_reachable; eauto.
Qed.

Definition spans_ok (P : loc -> Prop) (s : st) : Prop :=
  forall b sp, In (b, sp) (spanners s) -> forall e, In e (sp_entries sp) -> P (fst e).

Definition LinearOk bd (s : st) : Prop :=
  forall cid c sid sg, nth_error (colls s) cid = Some c -> In sid (linear_ids c) ->
    nth_error (segs s) sid = Some sg ->
    SoundStep bd (s_from sg) (s_to sg) \/
    exists root, c_kind c = Bounded root (s_to sg) /\ BackStep bd (s_from sg) (s_to sg).

Record Sound bd (s : st) : Prop := mkSound {
  so_cur : forall b, In b (processing s) -> ReachableLoc bd (bl_cur b);
  so_kind : forall c root phi, In c (colls s) -> c_kind c = Bounded root phi -> ReachableLoc bd phi;
  so_spans : spans_ok (ReachableLoc bd) s;
  so_linear : LinearOk bd s
}.

Lemma linear_id_lt s cid c sid : Shape s ->
  nth_error (colls s) cid = Some c -> In sid (linear_ids c) -> sid < length (segs s).
Proof.
  intros Sh E I. assert (H : In sid (seq 0 (length (segs s)))).
  { eapply Permutation_in; [apply (sh_segs s Sh)|]. apply in_app_iff. left.
    apply in_flat_map. exists c. split; auto. eapply nth_error_In; eauto. }
  apply in_seq in H. lia.
Qed.

Lemma get_span_reachable bd sp n :
  ReachableLoc bd (Loc n 0) -> (forall e, In e (sp_entries sp) -> ReachableLoc bd (fst e)) ->
  ReachableLoc bd (fst (get_span bd sp (Loc n 0))).
Proof.
  intros R H. unfold get_span.
  destruct (find _ (sp_entries sp)) as [e|] eqn:F; [|exact R].
  apply find_some in F as [I _]. auto.
Qed.

Lemma aset_In_or {A} (m : list (nat * A)) k v x :
  In x (aset Nat.eq_dec m k v) -> In x m \/ x = (k, v).
Proof.
  induction m as [|[k0 v0] r IH]; cbn; [intros [<-|[]]; auto|].
  destruct (Nat.eq_dec k k0); cbn; intros [<-|I]; auto.
  destruct (IH I); auto.
Qed.

Lemma Sound_branched bd ord s l sw i b sp sps :
  WfBody bd -> Order ord -> Shape s -> Sound bd s ->
  switch_location bd l = Some sw -> nth_error (processing s) i = Some b -> bl_cur b = l ->
  (forall e, In e (sp_entries sp) -> ReachableLoc bd (fst e)) ->
  (forall k p, In (k, p) sps -> forall e, In e (sp_entries p) -> ReachableLoc bd (fst e)) ->
  Sound bd (branched bd s l sw (join_of bd ord sw) i b sp sps).
Proof.
  intros Wf O Sh So Hsw Eb El Hsp Hsps.
  assert (Rl : ReachableLoc bd l).
  { rewrite <- El. apply (so_cur bd s So). eapply nth_error_In; eauto. }
  assert (Rphi : forall p, join_of bd ord sw = Some p -> ReachableLoc bd p).
  { intros p H. eapply join_reachable; eauto. }
  unfold branched. set (arms := map (fun n => get_span bd sp (Loc n 0)) (successors bd (l_block sw))).
  cbn zeta.
  assert (Ra : forall a, In a arms -> ReachableLoc bd (fst a)).
  { intros a I. apply in_map_iff in I as (n & <- & I). apply get_span_reachable; auto.
    eapply target_reachable; eauto. }
  constructor; cbn [processing colls spanners segs].
  - intros b' I. apply in_app_iff in I as [I|I].
    + apply In_nth_error in I as [j I]. rewrite upd_nth in I.
      destruct (nth_error (processing s) j) as [b0|] eqn:Ej; [|discriminate].
      cbn in I. injection I as <-. apply nth_error_In in Ej. apply (so_cur bd s So) in Ej.
      destruct (j =? i); cbn; auto. destruct (join_of bd ord sw) as [p|]; auto.
    + apply in_map_iff in I as ([x a] & <- & I). cbn. apply Ra. eapply in_combine_r; eauto.
  - intros c root phi I K. apply in_app_iff in I as [I|I].
    + apply In_nth_error in I as [j I]. rewrite upd_nth in I.
      destruct (nth_error (colls s) j) as [c0|] eqn:Ej; [|discriminate].
      cbn in I. injection I as <-. apply nth_error_In in Ej.
      eapply (so_kind bd s So); [exact Ej|]. destruct (j =? bl_coll b); exact K.
    + apply in_map_iff in I as (a & <- & _). cbn in K. unfold nested_kind in K.
      destruct (join_of bd ord sw) as [p|]; [|discriminate]. injection K as _ ->. auto.
  - intros k p I e Ie. eapply Hsps; eauto.
  - intros cid c sid sg E I Es. cbn [colls segs] in E, Es.
    destruct (Nat.lt_ge_cases cid (length (colls s))) as [L|L].
    + rewrite nth_error_app1 in E by (rewrite upd_length; auto). rewrite upd_nth in E.
      destruct (nth_error (colls s) cid) as [c0|] eqn:Ec; [|discriminate].
      cbn in E. injection E as <-.
      assert (I' : In sid (linear_ids c0)).
      { destruct (cid =? bl_coll b); auto. rewrite linear_ids_snoc, app_nil_r in I. auto. }
      rewrite nth_error_app1 in Es by (eapply linear_id_lt; eauto).
      replace (c_kind _) with (c_kind c0) by (destruct (cid =? bl_coll b); auto).
      eapply (so_linear bd s So); eauto.
    + rewrite nth_error_app2 in E by (rewrite upd_length; auto). apply nth_error_In in E.
      apply in_map_iff in E as (a & <- & _). destruct I.
Qed.

Lemma ldominates_before bd A B : WfBody bd -> ReachableLoc bd A -> ReachableLoc bd B ->
  ldominates bd A B = true -> AlwaysBefore bd A B.
Proof.
  intros Wf RA RB H. apply (ldominates_iff bd A B); auto; apply ReachableLoc_valid; auto.
Qed.

Lemma Sound_prim fw bd ord s s' :
  WfBody bd -> ReturnsNormal bd -> (exists r, ReturnLoc bd r) -> Order ord ->
  prim (ReachableLoc bd) fw bd ord s s' -> Shape s -> Sound bd s -> Sound bd s'.
Proof.
  intros Wf RN Ex O H Sh So. destruct H as [s|s idx s' E|s l sp s' bid Pl Pe M|s location parent l s' Pl F O'
    |s bid s' C|s i b l span s' Pl F I].
  - destruct So. constructor; auto.
  - apply close_scope_Some in E as (_ & rest & _ & ->). destruct So. constructor; auto.
  - apply mk_branch_Some in M as (sw & i & b & sp' & Hsw & F & El & Hl & _ & ->).
    cbn in Hl. injection Hl as <-. apply Sound_branched; auto.
    + eapply find_builder_lookup; eauto.
    + intros k p I e Ie. apply aset_In_or in I as [I|I].
      * eapply (so_spans bd s So); eauto.
      * injection I as -> ->. auto.
  - destruct (child_branched _ _ _ _ _ _ _ _ _ Pl F O')
      as (sw & i & b & sp & pb & cb & Hsw & Fb & El & Hsp & _ & H). cbn zeta in H.
    destruct H as (_ & _ & ->).
    assert (So' : Sound bd (branched bd s l sw (join_of bd ord sw) i b sp (spanners s))).
    { apply Sound_branched; auto.
      - eapply find_builder_lookup; eauto.
      - apply aget_Some_In in Hsp. eapply (so_spans bd s So); eauto.
      - apply (so_spans bd s So). }
    destruct So'. constructor; auto.
  - unfold close_branch in C. destruct (nth_error (branches s) bid) as [b|]; [|discriminate].
    injection C as <-. destruct So. constructor; auto. cbn. intros b' I. apply filter_In in I as [I _]. auto.
  - apply find_suitable_Linear in F as [F LP]. pose proof (find_builder_Some _ _ _ _ _ F) as (Eb & LD & _).
    apply insert_linear_Val in I as (c & Ec & ->). cbn zeta. set (to := cut bd (c_kind c) l).
    assert (Rc : ReachableLoc bd (bl_cur b)).
    { apply (so_cur bd s So). eapply nth_error_In; eauto. }
    assert (D : AlwaysBefore bd (bl_cur b) l) by (apply ldominates_before; auto).
    assert (A : AlwaysAfter bd l (bl_cur b)).
    { apply lpost_sound; auto; apply ReachableLoc_valid; auto. }
    assert (Seg : ReachableLoc bd to /\ (SoundStep bd (bl_cur b) to \/
              exists root, c_kind c = Bounded root to /\ BackStep bd (bl_cur b) to)).
    { unfold to, cut. destruct (c_kind c) as [root phi|root] eqn:K.
      - assert (Rp : ReachableLoc bd phi).
        { eapply (so_kind bd s So); [eapply nth_error_In; eauto|eauto]. }
        destruct (ldominates bd phi l) eqn:Lp.
        + split; auto. destruct (cut_sound bd (bl_cur b) phi l) as [S|S]; auto.
          * apply ldominates_before; auto.
          * right. eauto.
        + split; auto. left. split; auto.
      - split; auto. left. split; auto. }
    destruct Seg as [Rto Seg].
    constructor; cbn [processing colls spanners segs].
    + intros b' I. apply In_nth_error in I as [j I]. rewrite upd_nth in I.
      destruct (nth_error (processing s) j) as [b0|] eqn:Ej; [|discriminate].
      cbn in I. injection I as <-. destruct (j =? i); cbn; auto.
      apply (so_cur bd s So). eapply nth_error_In; eauto.
    + intros c1 root phi I K. apply In_nth_error in I as [j I]. rewrite upd_nth in I.
      destruct (nth_error (colls s) j) as [c0|] eqn:Ej; [|discriminate].
      cbn in I. injection I as <-. apply nth_error_In in Ej.
      eapply (so_kind bd s So); [exact Ej|]. destruct (j =? bl_coll b); exact K.
    + apply (so_spans bd s So).
    + intros cid c1 sid sg E I Es. cbn [colls segs] in E, Es. rewrite upd_nth in E.
      destruct (nth_error (colls s) cid) as [c0|] eqn:Ec0; [|discriminate].
      cbn in E. injection E as <-.
      assert (Old : In sid (linear_ids c0) ->
        SoundStep bd (s_from sg) (s_to sg) \/
        (exists root, c_kind c0 = Bounded root (s_to sg) /\ BackStep bd (s_from sg) (s_to sg))).
      { intros I'. rewrite nth_error_app1 in Es by (eapply linear_id_lt; eauto).
        eapply (so_linear bd s So); eauto. }
      destruct (Nat.eqb_spec cid (bl_coll b)) as [->|N]; [|apply Old; auto].
      rewrite linear_ids_snoc in I. cbn [c_kind]. apply in_app_iff in I as [I|[<-|[]]]; [apply Old; auto|].
      rewrite nth_error_app2, Nat.sub_diag in Es by lia. cbn in Es. injection Es as <-. cbn.
      assert (c0 = c) by congruence. subst c0. exact Seg.
Qed.

Lemma Sound_make bd : WfBody bd -> Sound bd make.
Proof.
  intros Wf. constructor.
  - intros b [<-|[]]. cbn. exists [Loc 0 0]. constructor.
  - intros c root phi [<-|[]]. discriminate.
  - intros b sp [].
  - intros cid c sid sg E I. destruct cid as [|cid]; [|cbn in E; destruct cid; discriminate].
    cbn in E. injection E as <-. destruct I.
Qed.

Lemma Sound_Steps fw bd ord s :
  WfBody bd -> ReturnsNormal bd -> (exists r, ReturnLoc bd r) -> Order ord ->
  Steps (ReachableLoc bd) fw bd ord make s -> Sound bd s.
Proof.
  intros Wf RN Ex O. induction 1 as [|s s' H IH Hp]; [apply Sound_make; auto|].
  eapply Sound_prim; eauto. eapply Shape_Steps; eauto.
Qed.
