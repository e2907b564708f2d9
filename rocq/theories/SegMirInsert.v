(** What an insertion records. *)
From Coq Require Import List Arith Bool Lia Permutation.
From Verif Require Import Base FactsModel FactsProofs FlowModel CfgModel CfgSpec CfgProofs SegMirModel SegMirSpec
  SegMirProofs SegMirSound SegMirScopes SegMirClose SegMirTerm SegMirTree.
Import ListNotations.

Lemma steps_of_lt s k : Shape s -> In k (steps_of s) -> k < length (segs s).
Proof.
  intros Sh I. assert (Hin : In k (seq 0 (length (segs s)))).
  { apply (Permutation_in k (sh_segs s Sh)). apply in_or_app. auto. }
  apply in_seq in Hin. lia.
Qed.

Lemma contained s cid : Shape s -> 0 < cid < length (colls s) -> exists p, find_containing_branch s cid = Some p.
Proof.
  intros Sh [L1 L2].
  assert (I : In cid (0 :: flat_map br_nested (branches s))).
  { rewrite (sh_nested s Sh). apply in_seq. lia. }
  destruct I as [I|I]; [lia|]. apply in_flat_map in I as (b & Ib & Ic).
  unfold find_containing_branch.
  destruct (find _ (enumerate (branches s))) as [[j x]|] eqn:F; [cbn; eauto|].
  apply In_nth_error in Ib as (j & Ej).
  pose proof (find_none _ _ F (j, b)) as N. cbn in N.
  assert (T : memb Nat.eq_dec cid (br_nested b) = true) by (apply memb_In; auto).
  rewrite N in T; [discriminate|]. apply enumerate_In. auto.
Qed.

Lemma outside_none bd s l : WfBody bd -> Shape s -> Sound bd s -> ReachableLoc bd l ->
  find_suitable_collection bd s l = FrNone -> Outside bd s l.
Proof.
  intros Wf Sh So R F b Ib A.
  apply In_nth_error in Ib as (i & Ei).
  assert (D : ldominates bd (bl_cur b) l = true).
  { apply ldominates_iff; auto; try (apply ReachableLoc_valid; auto).
    apply (so_cur bd s So). eapply nth_error_In; eauto. }
  unfold find_suitable_collection in F.
  destruct (find_builder_exists bd s l i b Ei D) as (j & b' & Fb). rewrite Fb in F.
  destruct (lpost_dominates bd l (bl_cur b')); [discriminate|].
  apply find_builder_Some in Fb as (Ej & Dj & Nj).
  assert (Z : bl_coll b' = 0).
  { destruct (Nat.eq_dec (bl_coll b') 0) as [|N]; auto.
    destruct (contained s (bl_coll b') Sh) as (p & Ep).
    - split; [lia|]. apply (sh_proc_lt s Sh). eapply nth_error_In; eauto.
    - rewrite Ep in F. discriminate. }
  destruct (Nat.lt_trichotomy i j) as [L|[->|L]].
  - destruct (sh_proc s Sh) as (cur & rest & Ep).
    assert (j = 0).
    { destruct j as [|j]; auto. exfalso. pose proof (sh_proc_nodup s Sh) as ND. rewrite Ep in ND, Ej. cbn in ND, Ej.
      inversion ND as [|? ? NI _]. apply NI. rewrite <- Z. apply in_map. eapply nth_error_In; eauto. }
    lia.
  - congruence.
  - rewrite (Nj i b L Ei) in D. discriminate.
Qed.

Lemma steps_of_branched bd s l sw phi i b sp sps : Shape s ->
  nth_error (processing s) i = Some b ->
  steps_of (branched bd s l sw phi i b sp sps) = steps_of s.
Proof.
  intros Sh E. unfold steps_of, branched. cbn [colls].
  rewrite flat_map_app, map_const_flat_nil, app_nil_r by reflexivity.
  assert (L : bl_coll b < length (colls s)) by (apply (sh_proc_lt s Sh); eapply nth_error_In; eauto).
  clear E Sh. revert L. unfold upd, enumerate.
  assert (G : forall cs k, flat_map linear_ids
     (map (fun jx : nat * coll => if fst jx =? bl_coll b then Coll (c_data (snd jx) ++ [Branching (length (branches s))]) (c_kind (snd jx)) else snd jx)
        (combine (seq k (length cs)) cs)) = flat_map linear_ids cs).
  { induction cs as [|c cs IH]; intros k; cbn [length seq combine map flat_map]; auto.
    rewrite IH. f_equal. cbn [fst snd]. destruct (k =? bl_coll b); auto.
    unfold linear_ids. cbn [c_data]. rewrite flat_map_app. cbn. apply app_nil_r. }
  intros _. apply G.
Qed.

Lemma insert_recorded fw bd ord l span : 
  WfBody bd -> ReturnsNormal bd -> (exists r, ReturnLoc bd r) -> Order ord -> ReachableLoc bd l ->
  forall fuel s s', Steps (ReachableLoc bd) fw bd ord make s -> insert fw bd ord fuel s l span = Val (s', true) ->
  open_scopes s' = open_scopes s /\
  exists new, segs s' = segs s ++ new /\ (forall sg, In sg new -> s_scope sg = current_scope s) /\
  ((steps_of s' = steps_of s /\ Outside bd s' l) \/
   exists cid sg, StepAdded s s' cid sg /\ In sg new /\ s_span sg = span /\
     (s_to sg = l \/ (ArmJoin s' cid (s_to sg) /\ AlwaysBefore bd (s_to sg) l))).
Proof.
  intros Wf RN Ex O Rl. induction fuel as [|f IH]; intros s s' St H; [discriminate|].
  pose proof (Shape_Steps _ _ _ _ _ St) as Sh.
  pose proof (Sound_Steps fw bd ord s Wf RN Ex O St) as So.
  cbn [insert] in H.
  destruct (find_suitable_collection bd s l) as [|parent bl|i b] eqn:F.
  - injection H as <-. split; auto. exists []. rewrite app_nil_r. split; auto. split; [intros ? []|].
    left. split; auto. apply outside_none; auto.
  - destruct (open_child_branch fw bd ord s parent bl) as [[s1 [|]]| |] eqn:Oc; cbn in H; try discriminate.
    assert (St1 : Steps (ReachableLoc bd) fw bd ord make s1).
    { econstructor; [exact St|]. eapply prim_child; eauto. }
    destruct (IH s1 s' St1 H) as (Eo & new & Es & Sc & D).
    destruct (child_branched (fun _ => True) _ _ _ _ _ _ _ _ I F Oc)
      as (sw & i & b & sp & pb & cb & H1 & H2 & H3 & H4 & H5 & H6 & H7 & H8).
    assert (Esteps : steps_of s1 = steps_of s).
    { rewrite H8. change (steps_of (with_table ?x _)) with (steps_of x).
      apply steps_of_branched; auto. eapply find_builder_lookup; eauto. }
    assert (Eopen : open_scopes s1 = open_scopes s) by (rewrite H8; reflexivity).
    split; [congruence|].
    rewrite H8 in Es. cbn [with_table segs branched] in Es.
    rewrite <- app_assoc in Es. eexists. split; [exact Es|]. split.
    { intros sg I. apply in_app_or in I as [I|I].
      - apply in_map_iff in I as (a & <- & _). reflexivity.
      - rewrite (Sc sg I). unfold current_scope. rewrite Eopen. reflexivity. }
    destruct D as [[D1 D2]|(cid & sg & D1 & D2 & D3 & D4)].
    + left. split; auto. congruence.
    + right. exists cid, sg. split; [|split; [apply in_or_app; auto|auto]].
      unfold StepAdded in *. rewrite Esteps in D1. exact D1.
  - destruct (insert_linear bd s i b l span) as [s1| |] eqn:Il; cbn in H; try discriminate.
    injection H as <-.
    assert (St1 : Steps (ReachableLoc bd) fw bd ord make s1).
    { econstructor; [exact St|]. eapply prim_linear; eauto. }
    pose proof (proj1 (KindOk_Steps _ _ _ _ _ St1)) as K1.
    pose proof (SegsReach_Steps fw bd ord s1 Wf RN Ex O St1) as SR.
    apply find_suitable_Linear in F as [F _]. apply find_builder_lookup in F.
    apply insert_linear_Val in Il as (c & Ec & E). cbv zeta in E.
    split; [rewrite E; auto|].
    set (to := cut bd (c_kind c) l) in *. set (sg := Seg (bl_cur b) to span (current_scope s)) in *.
    set (c1 := Coll (c_data c ++ [Linear (length (segs s))]) (c_kind c)).
    assert (Ec1 : nth_error (colls s1) (bl_coll b) = Some c1).
    { rewrite E. cbn [colls]. rewrite upd_nth, Ec, Nat.eqb_refl. reflexivity. }
    exists [sg]. split; [rewrite E; auto|]. split.
    { intros x [<-|[]]. reflexivity. }
    right. exists (bl_coll b), sg. split; [|split; [left; auto|split; auto]].
    + exists c1, (length (segs s)). split; auto. split.
      { rewrite E. cbn [segs]. rewrite nth_error_app2, Nat.sub_diag by lia. auto. }
      split.
      { rewrite E. cbn [processing]. apply nth_error_In with i. rewrite upd_nth, F, Nat.eqb_refl. reflexivity. }
      split; [cbn; apply last_last|].
      split; [intros I; apply steps_of_lt in I; auto; lia|].
      intros k.
      assert (P : Permutation (steps_of s1) (length (segs s) :: steps_of s)).
      { unfold steps_of. rewrite E. cbn [colls].
        eapply perm_trans.
        - apply (flat_map_upd_snoc linear_ids _ _ _ c [length (segs s)]); auto.
          apply linear_ids_snoc.
        - apply Permutation_sym, Permutation_cons_append. }
      split; intros I.
      * apply (Permutation_in k P) in I as [<-|I]; auto.
      * apply (Permutation_in k (Permutation_sym P)). cbn. intuition.
    + assert (Hcut : to = l \/ exists root phi, c_kind c = Bounded root phi /\ ldominates bd phi l = true /\ to = phi).
      { subst to. unfold cut. destruct (c_kind c) as [root phi|root]; auto.
        destruct (ldominates bd phi l) eqn:D; eauto 6. }
      destruct Hcut as [Eto|(root & phi & Ek & D & Eto)]; [left; exact Eto|]. right.
      change (s_to sg) with to. rewrite Eto. split.
      * apply (K1 (bl_coll b) c1 root phi); auto.
      * apply ldominates_before; auto.
        rewrite <- Eto. change to with (s_to sg). apply SR. rewrite E. cbn [segs]. apply in_or_app. cbn. auto.
Qed.
