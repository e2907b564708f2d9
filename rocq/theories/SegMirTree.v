(** * The arms of a branch *)
From Coq Require Import List Arith Bool Lia Permutation.
From Verif Require Import Base FactsModel FactsProofs CfgModel CfgSpec CfgProofs SegMirModel SegMirSpec
  SegMirProofs SegMirSound SegMirClose SegMirTerm.
Import ListNotations.

(** Control is forced from the opened location to the switch. *)
Lemma next_switch_forced bd fuel : forall b c,
  next_switch_block bd fuel b = Some (Some c) ->
  Switch bd c /\ exists l, walk (ForcedStep bd) b l c.
Proof.
  induction fuel as [|f IH]; intros b c; cbn; [discriminate|].
  destruct (is_switchint bd b) eqn:Sw.
  - intros [= <-]. apply switch_iff in Sw. split; auto. exists [b]. constructor.
  - destruct (successors bd b) as [|n [|m r]] eqn:E; try discriminate.
    intros H. destruct (IH n c H) as (S & l & W). split; auto. exists (b :: l). econstructor; eauto.
    split; auto. apply not_switch_iff; auto.
Qed.

Lemma switch_location_from bd l sw : switch_location bd l = Some sw ->
  sw = l \/ (Switch bd (l_block sw) /\ l_idx sw = match nth_error bd (l_block sw) with Some d => b_stmts d | None => 0 end).
Proof.
  unfold switch_location, find_next_switchint.
  destruct (next_switch_block bd (S (length bd)) (l_block l)) as [[c|]|] eqn:E; try discriminate.
  - intros [= <-]. right. cbn. apply next_switch_forced in E as [H _]. auto.
  - intros [= <-]. auto.
Qed.

Lemma switch_location_walk bd l sw : switch_location bd l = Some sw ->
  exists w, walk (ForcedStep bd) (l_block l) w (l_block sw).
Proof.
  unfold switch_location, find_next_switchint.
  destruct (next_switch_block bd (S (length bd)) (l_block l)) as [[c|]|] eqn:E; try discriminate.
  - intros [= <-]. cbn. apply next_switch_forced in E as [_ [w W]]. eauto.
  - intros [= <-]. exists [l_block l]. constructor.
Qed.

Lemma get_span_dom bd sp to : ldominates bd to (fst (get_span bd sp to)) = true.
Proof.
  unfold get_span. destruct (find _ (sp_entries sp)) as [e|] eqn:F.
  - apply find_some in F as [_ F]. exact F.
  - apply ldominates_refl.
Qed.

Definition ArmsOk bd (s : st) : Prop :=
  forall b, In b (branches s) ->
    length (br_splits b) = length (successors bd (l_block (fst (br_reach b)))) /\
    forall k n sid, nth_error (successors bd (l_block (fst (br_reach b)))) k = Some n ->
      nth_error (br_splits b) k = Some sid ->
      exists sg, nth_error (segs s) sid = Some sg /\ ldominates bd (Loc n 0) (s_to sg) = true /\
        switch_location bd (s_from sg) = Some (fst (br_reach b)).

Lemma ArmsOk_same bd s s' : branches s' = branches s -> (exists x, segs s' = segs s ++ x) ->
  ArmsOk bd s -> ArmsOk bd s'.
Proof.
  intros E1 [x E2] A b I. rewrite E1 in I. destruct (A b I) as [H1 H2]. split; auto.
  intros k n sid Hn Hs. destruct (H2 k n sid Hn Hs) as (sg & H3 & H4). exists sg. split; auto.
  rewrite E2. apply nth_error_prefix. auto.
Qed.

Lemma ArmsOk_branched bd s l sw phi i b sp sps :
  switch_location bd l = Some sw -> ArmsOk bd s -> ArmsOk bd (branched bd s l sw phi i b sp sps).
Proof.
  intros Hsw A b' I. unfold branched in I |- *. cbn [branches segs] in *.
  apply in_app_iff in I as [I|[<-|[]]].
  - destruct (A b' I) as [H1 H2]. split; auto.
    intros k n sid Hn Hs. destruct (H2 k n sid Hn Hs) as (sg & H3 & H4). exists sg. split; auto.
    apply nth_error_prefix. auto.
  - cbn [br_splits br_reach reach_of fst]. rewrite seq_length, map_length. split; auto.
    intros k n sid Hn Hs.
    assert (Lk : k < length (successors bd (l_block sw))) by (apply nth_error_Some; congruence).
    rewrite nth_error_seq in Hs by auto. injection Hs as <-.
    eexists. split.
    { rewrite nth_error_app2 by lia. replace (length (segs s) + k - length (segs s)) with k by lia.
      rewrite nth_error_map, nth_error_map, Hn. reflexivity. }
    cbn [s_to s_from]. split; auto. apply get_span_dom.
Qed.

Lemma ArmsOk_prim P fw bd ord s s' : prim P fw bd ord s s' -> ArmsOk bd s -> ArmsOk bd s'.
Proof.
  intros H A. destruct H as [s|s idx s' E|s l sp s' bid Pl Pe M|s location parent l s' Pl F O'
    |s bid s' C|s i b l span s' Pl F I].
  - eapply ArmsOk_same; [| |exact A]; auto. exists []. cbn. rewrite app_nil_r. auto.
  - apply close_scope_Some in E as (_ & rest & _ & ->). eapply ArmsOk_same; [| |exact A]; auto.
    exists []. cbn. rewrite app_nil_r. auto.
  - apply mk_branch_Some in M as (sw & i & b & sp' & Hsw & _ & _ & _ & _ & ->).
    apply ArmsOk_branched; auto.
  - destruct (child_branched _ _ _ _ _ _ _ _ _ Pl F O')
      as (sw & i & b & sp & pb & cb & Hsw & _ & _ & _ & _ & H). cbn zeta in H.
    destruct H as (_ & _ & ->).
    eapply ArmsOk_same; [| |apply (ArmsOk_branched bd s l sw (join_of bd ord sw) i b sp (spanners s) Hsw A)]; auto.
    exists []. cbn [segs with_table]. rewrite app_nil_r. auto.
  - unfold close_branch in C. destruct (nth_error (branches s) bid) as [b|]; [|discriminate].
    injection C as <-. eapply ArmsOk_same; [| |exact A]; auto. exists []. cbn. rewrite app_nil_r. auto.
  - apply insert_linear_Val in I as (c & Ec & ->). eapply ArmsOk_same; [| |exact A]; auto.
    eexists. reflexivity.
Qed.

Lemma ArmsOk_Steps P fw bd ord s : Steps P fw bd ord make s -> ArmsOk bd s.
Proof.
  induction 1 as [|s s' H IH Hp]; [intros b []|]. eapply ArmsOk_prim; eauto.
Qed.

(** Control can go from the start of a split step to its end. *)
Lemma split_executable fw bd ord s b sid sg :
  WfBody bd -> ReturnsNormal bd -> (exists r, ReturnLoc bd r) -> Order ord ->
  Steps (ReachableLoc bd) fw bd ord make s -> In b (branches s) -> In sid (br_splits b) ->
  nth_error (segs s) sid = Some sg -> ReachableLoc bd (s_from sg) -> ReachableLoc bd (s_to sg) ->
  exists w, walk (LocStep bd) (s_from sg) w (s_to sg).
Proof.
  intros Wf RN Ex O R Ib Is Es Rf Rt. pose proof (ArmsOk_Steps _ _ _ _ _ R b Ib) as [HL HA].
  apply In_nth_error in Is as [k Ik].
  assert (Lk : k < length (br_splits b)) by (apply nth_error_Some; congruence).
  rewrite HL in Lk. apply nth_error_Some in Lk.
  destruct (nth_error (successors bd (l_block (fst (br_reach b)))) k) as [n|] eqn:En; [|congruence].
  destruct (HA k n sid En Ik) as (sg' & E1 & E2 & E3). assert (sg' = sg) by congruence. subst sg'.
  destruct (switch_location_path bd _ _ Wf E3) as [w W].
  apply nth_error_In, successors_wf in En; auto.
  destruct (ReachableLoc_block _ _ Rt) as [q Q].
  pose proof (ldom_block _ _ _ _ Wf Q E2) as D. cbn in D.
  destruct (walk_split _ _ _ _ _ Q (D q Q)) as (_ & q2 & _ & W2 & _).
  pose proof (walk_app _ _ _ _ _ _ (walk_snoc _ _ _ _ _ W En) W2) as Wall.
  destruct (path_exec _ _ _ _ Wall (l_idx (s_from sg)) (l_idx (s_to sg))) as (ll & H & _).
  - rewrite loc_eta. apply ReachableLoc_valid; auto.
  - intros E. exfalso. destruct (walk_head _ _ _ _ W) as [r ->].
    cbn in E. injection E as E. apply app_eq_nil in E as [E _]. destruct r; discriminate.
  - rewrite loc_eta. apply ReachableLoc_valid; auto.
  - rewrite !loc_eta in H. eauto.
Qed.

(** All segments of a builder that is given reachable locations are reachable. *)
Definition SegsReach bd (s : st) : Prop :=
  forall sg, In sg (segs s) -> ReachableLoc bd (s_from sg) /\ ReachableLoc bd (s_to sg).

Lemma SegsReach_prim fw bd ord s s' :
  WfBody bd -> ReturnsNormal bd -> (exists r, ReturnLoc bd r) -> Order ord ->
  prim (ReachableLoc bd) fw bd ord s s' -> Shape s -> Sound bd s -> SegsReach bd s -> SegsReach bd s'.
Proof.
  intros Wf RN Ex O H Sh So A.
  assert (Br : forall l sw phi i b sp sps, switch_location bd l = Some sw ->
    nth_error (processing s) i = Some b -> bl_cur b = l ->
    (forall e, In e (sp_entries sp) -> ReachableLoc bd (fst e)) ->
    SegsReach bd (branched bd s l sw phi i b sp sps)).
  { intros l sw phi i b sp sps Hsw Eb El He sg I. cbn [segs branched] in I.
    assert (Rl : ReachableLoc bd l).
    { rewrite <- El. apply (so_cur bd s So). eapply nth_error_In; eauto. }
    apply in_app_iff in I as [I|I]; auto.
    apply in_map_iff in I as (a & <- & I). cbn. split; auto.
    apply in_map_iff in I as (n & <- & I). apply get_span_reachable; auto.
    eapply target_reachable; eauto. }
  destruct H as [s|s idx s' E|s l sp s' bid Pl Pe M|s location parent l s' Pl F O'
    |s bid s' C|s i b l span s' Pl F I]; auto.
  - apply close_scope_Some in E as (_ & rest & _ & ->). auto.
  - apply mk_branch_Some in M as (sw & i & b & sp' & Hsw & F & El & Hl & _ & ->).
    cbn in Hl. injection Hl as <-. apply Br; auto. eapply find_builder_lookup; eauto.
  - destruct (child_branched _ _ _ _ _ _ _ _ _ Pl F O')
      as (sw & i & b & sp & pb & cb & Hsw & Fb & El & Hsp & _ & H). cbn zeta in H.
    destruct H as (_ & _ & ->). intros sg I. cbn [segs with_table] in I. revert sg I. apply Br; auto.
    + eapply find_builder_lookup; eauto.
    + apply aget_Some_In in Hsp. eapply (so_spans bd s So); eauto.
  - unfold close_branch in C. destruct (nth_error (branches s) bid) as [b|]; [|discriminate].
    injection C as <-. auto.
  - pose proof (find_suitable_Linear _ _ _ _ _ F) as [Fb _]. apply find_builder_lookup in Fb.
    apply insert_linear_Val in I as (c & Ec & ->). intros sg I. cbn [segs] in I.
    apply in_app_iff in I as [I|[<-|[]]]; auto. cbn. split.
    + apply (so_cur bd s So). eapply nth_error_In; eauto.
    + unfold cut. destruct (c_kind c) as [root phi|root] eqn:K; auto.
      destruct (ldominates bd phi l); auto.
      eapply (so_kind bd s So); [eapply nth_error_In; eauto|eauto].
Qed.

Lemma SegsReach_Steps fw bd ord s :
  WfBody bd -> ReturnsNormal bd -> (exists r, ReturnLoc bd r) -> Order ord ->
  Steps (ReachableLoc bd) fw bd ord make s -> SegsReach bd s.
Proof.
  intros Wf RN Ex O. induction 1 as [|s s' H IH Hp]; [intros sg []|].
  eapply SegsReach_prim; eauto; [eapply Shape_Steps; eauto|eapply Sound_Steps; eauto].
Qed.

(** The kind of a collection tells the join of the branch whose arm it is. *)
Definition KindOk (s : st) : Prop :=
  (forall cid c root phi, nth_error (colls s) cid = Some c -> c_kind c = Bounded root phi ->
     ArmJoin s cid phi) /\
  (forall cid c root b, nth_error (colls s) cid = Some c -> c_kind c = Unbounded root ->
     In b (branches s) -> In cid (br_nested b) -> ~ HasJoin b).

Lemma KindOk_same s s' : branches s' = branches s ->
  (forall cid c, nth_error (colls s') cid = Some c ->
     exists c0, nth_error (colls s) cid = Some c0 /\ c_kind c = c_kind c0) ->
  KindOk s -> KindOk s'.
Proof.
  intros E H [K1 K2]. split.
  - intros cid c root phi Ec K. destruct (H _ _ Ec) as (c0 & E0 & Ek). rewrite Ek in K.
    destruct (K1 _ _ _ _ E0 K) as (b & H1 & H2). exists b. rewrite E. auto.
  - intros cid c root b Ec K Ib Ic. destruct (H _ _ Ec) as (c0 & E0 & Ek). rewrite Ek in K. rewrite E in Ib.
    eapply K2; eauto.
Qed.

Lemma KindOk_branched bd ord s l sw i b sp sps : Shape s -> KindOk s ->
  KindOk (branched bd s l sw (join_of bd ord sw) i b sp sps).
Proof.
  intros Sh [K1 K2]. unfold branched. set (arms := map (fun n => get_span bd sp (Loc n 0)) _). cbn zeta.
  set (nb := Branch _ _ _ _).
  assert (HJ : HasJoin nb <-> join_of bd ord sw <> None).
  { unfold HasJoin, nb. cbn [br_reach reach_of fst snd].
    destruct (join_of bd ord sw) as [p|] eqn:J; [|split; congruence].
    apply join_of_neq in J. split; congruence. }
  split; cbn [colls branches].
  - intros cid c root phi Ec K.
    destruct (Nat.lt_ge_cases cid (length (colls s))) as [L|L].
    + rewrite nth_error_app1 in Ec by (rewrite upd_length; auto). rewrite upd_nth in Ec.
      destruct (nth_error (colls s) cid) as [c0|] eqn:E0; [|discriminate]. cbn in Ec. injection Ec as <-.
      assert (K0 : c_kind c0 = Bounded root phi) by (destruct (cid =? bl_coll b); auto).
      destruct (K1 _ _ _ _ E0 K0) as (b0 & H1 & H2). exists b0. split; auto. apply in_app_iff. auto.
    + rewrite nth_error_app2 in Ec by (rewrite upd_length; auto). rewrite upd_length in Ec.
      assert (La : cid - length (colls s) < length arms).
      { rewrite <- (map_length (fun _ => Coll [] (nested_kind l (join_of bd ord sw))) arms). apply nth_error_Some. congruence. }
      apply nth_error_In in Ec. apply in_map_iff in Ec as (a & <- & _). cbn in K. unfold nested_kind in K.
      destruct (join_of bd ord sw) as [p|] eqn:J; [|discriminate]. injection K as _ ->.
      exists nb. split; [apply in_app_iff; right; left; auto|]. split; [cbn; apply in_seq; lia|].
      split; [apply HJ; discriminate|reflexivity].
  - intros cid c root b0 Ec K Ib Ic.
    destruct (Nat.lt_ge_cases cid (length (colls s))) as [L|L].
    + rewrite nth_error_app1 in Ec by (rewrite upd_length; auto). rewrite upd_nth in Ec.
      destruct (nth_error (colls s) cid) as [c0|] eqn:E0; [|discriminate]. cbn in Ec. injection Ec as <-.
      assert (K0 : c_kind c0 = Unbounded root) by (destruct (cid =? bl_coll b); auto).
      apply in_app_iff in Ib as [Ib|[<-|[]]]; [eapply K2; eauto|].
      cbn in Ic. apply in_seq in Ic. lia.
    + rewrite nth_error_app2 in Ec by (rewrite upd_length; auto).
      apply nth_error_In in Ec. apply in_map_iff in Ec as (a & <- & _). cbn in K. unfold nested_kind in K.
      apply in_app_iff in Ib as [Ib|[<-|[]]].
      * pose proof (nested_nonzero s b0 cid Sh Ib Ic). lia.
      * rewrite HJ. destruct (join_of bd ord sw); [discriminate|congruence].
Qed.

Lemma KindOk_prim P fw bd ord s s' : prim P fw bd ord s s' -> Shape s -> KindOk s -> KindOk s'.
Proof.
  intros H Sh A. destruct H as [s|s idx s' E|s l sp s' bid Pl Pe M|s location parent l s' Pl F O'
    |s bid s' C|s i b l span s' Pl F I].
  - eapply KindOk_same; [| |exact A]; auto. eauto.
  - apply close_scope_Some in E as (_ & rest & _ & ->). eapply KindOk_same; [| |exact A]; eauto.
  - apply mk_branch_Some in M as (sw & i & b & sp' & Hsw & _ & _ & _ & _ & ->).
    apply KindOk_branched; auto.
  - destruct (child_branched _ _ _ _ _ _ _ _ _ Pl F O')
      as (sw & i & b & sp & pb & cb & Hsw & _ & _ & _ & _ & H). cbn zeta in H.
    destruct H as (_ & _ & ->).
    eapply KindOk_same; [| |apply (KindOk_branched bd ord s l sw i b sp (spanners s) Sh A)]; eauto.
  - unfold close_branch in C. destruct (nth_error (branches s) bid) as [b|]; [|discriminate].
    injection C as <-. eapply KindOk_same; [| |exact A]; eauto.
  - apply insert_linear_Val in I as (c & Ec & ->). eapply KindOk_same; [| |exact A]; auto.
    cbn [colls]. intros cid c1 E1. rewrite upd_nth in E1.
    destruct (nth_error (colls s) cid) as [c0|]; [|discriminate]. cbn in E1. injection E1 as <-.
    exists c0. split; auto. destruct (cid =? bl_coll b); auto.
Qed.

Lemma KindOk_Steps P fw bd ord s : Steps P fw bd ord make s -> KindOk s.
Proof.
  induction 1 as [|s s' H IH Hp].
  - split.
    + intros [|cid] c root phi E K; cbn in E; [injection E as <-; discriminate|destruct cid; discriminate].
    + intros cid c root b _ _ [].
  - eapply KindOk_prim; eauto. eapply Shape_Steps; eauto.
Qed.

(** ** Examples *)

(** A quick test for executable locations. *)
Definition reach_check (bd : body) (l : loc) : bool :=
  is_reachable (cleaned_edges bd) 0 (l_block l) &&
  match nth_error bd (l_block l) with Some d => l_idx l <=? b_stmts d | None => false end.

Lemma reach_check_ok bd l : WfBody bd -> reach_check bd l = true -> ReachableLoc bd l.
Proof.
  intros Wf H. unfold reach_check in H. apply andb_true_iff in H as [H1 H2].
  unfold is_reachable in H1. apply memb_In, reach_list_spec in H1 as (x & w & [<-|[]] & W).
  destruct (nth_error bd (l_block l)) as [d|] eqn:E; [|discriminate]. apply Nat.leb_le in H2.
  destruct l as [b i]. cbn in *. eapply path_reach_loc; eauto.
  - exists d. auto.
  - eapply walk_mono; [|exact W]. intros u v. apply cleaned_edge_iff. auto.
Qed.

Definition op_check (bd : body) (o : op) : bool :=
  match o with
  | OpInsert l _ => reach_check bd l
  | OpOpenBranch l sp => reach_check bd l && forallb (fun e => reach_check bd (fst e)) (sp_entries sp)
  | _ => true
  end.

Lemma op_check_ok bd os : WfBody bd -> forallb (op_check bd) os = true -> Forall (op_reachable bd) os.
Proof.
  intros Wf H. apply Forall_forall. intros o I. rewrite forallb_forall in H. specialize (H o I).
  destruct o; cbn in *; auto.
  - apply andb_true_iff in H as [H1 H2]. rewrite forallb_forall in H2. split; [apply reach_check_ok; auto|].
    intros e Ie. apply reach_check_ok; auto.
  - apply reach_check_ok; auto.
Qed.

Definition wf_check (bd : body) : bool :=
  match nth_error bd 0 with Some d => negb (b_cleanup d) | None => false end &&
  forallb (fun ad => match b_term (snd ad) with TFalseEdge _ i => negb (i =? fst ad) | _ => true end)
          (enumerate bd).

Lemma wf_check_ok bd : wf_check bd = true -> WfBody bd.
Proof.
  unfold wf_check. intros H. apply andb_true_iff in H as [H1 H2]. split.
  - destruct (nth_error bd 0) as [d|]; [|discriminate]. exists d. split; auto. apply negb_true_iff. auto.
  - intros a d r E T. rewrite forallb_forall in H2. specialize (H2 (a, d)). rewrite enumerate_In in H2.
    specialize (H2 E). cbn in H2. rewrite T, Nat.eqb_refl in H2. discriminate.
Qed.

Definition returns_check (bd : body) : bool :=
  forallb (fun d => match b_term d with TReturn => negb (b_cleanup d) | _ => true end) bd.

Lemma returns_check_ok bd : returns_check bd = true -> ReturnsNormal bd.
Proof.
  intros H e (d & E & T). unfold returns_check in H. rewrite forallb_forall in H.
  specialize (H d (nth_error_In _ _ E)). rewrite T in H. exists d. split; auto. split.
  - apply negb_true_iff. auto.
  - congruence.
Qed.
