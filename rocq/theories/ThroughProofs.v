(** * Proofs for ThroughSpec.v *)
From Coq Require Import List Arith Bool Lia.
From Verif Require Import Base CfgModel CfgSpec CfgProofs SegMirModel SegMirSpec SegMirProofs
  SegMirSound SegMirTree ThroughSpec.
Import ListNotations.

Lemma return_no_succ bd r b : ReturnLoc bd r -> ~ In b (successors bd (l_block r)).
Proof.
  intros (d & E & T & _) I. apply successors_iff in I as [[(d' & E' & N) _] _].
  rewrite E in E'. injection E' as <-. rewrite T in N. inversion N.
Qed.

(** Whoever returns from inside a block reaches its terminator first. *)
Lemma to_terminator bd p w r : WfBody bd -> ReturnLoc bd r -> walk (LocStep bd) p w r ->
  exists d w1 w2, nth_error bd (l_block p) = Some d /\
    Cut bd p w r (Loc (l_block p) (b_stmts d)) w1 w2.
Proof.
  intros Wf R W. revert R. induction W as [x|x y l z H W IH]; intros R.
  - destruct R as (d & E & T & I). exists d, [x], [x]. split; auto. rewrite <- I, loc_eta.
    split; [constructor|]. split; [constructor|]. auto.
  - inversion H as [b d i E L|b d c E J]; subst.
    + destruct (IH R) as (d' & w1 & w2 & E' & C1 & C2 & C3). cbn [l_block] in *.
      exists d', (Loc b i :: w1), w2. split; auto. split; [econstructor; eauto|].
      split; auto. rewrite C3. auto.
    + cbn [l_block]. exists d, [Loc b (b_stmts d)], (Loc b (b_stmts d) :: l). split; auto.
      split; [constructor|]. split; [econstructor; eauto|]. auto.
Qed.

Lemma cut_trans bd p w r q w1 w2 q' w3 w4 :
  Cut bd p w r q w1 w2 -> Cut bd q w2 r q' w3 w4 -> Cut bd p w r q' (w1 ++ tl w3) w4.
Proof.
  intros (A1 & A2 & A3) (B1 & B2 & B3). split; [eapply walk_app; eauto|]. split; auto.
  rewrite A3, B3. destruct (walk_head _ _ _ _ B1) as [x ->]. cbn [tl List.app].
  rewrite app_assoc. auto.
Qed.

(** Control forced from block to block: whoever returns reaches the last one's terminator. *)
Lemma forced_cut bd a v c : WfBody bd -> walk (ForcedStep bd) a v c ->
  forall p w r, l_block p = a -> ReturnLoc bd r -> walk (LocStep bd) p w r ->
  exists d w1 w2, nth_error bd c = Some d /\ Cut bd p w r (Loc c (b_stmts d)) w1 w2.
Proof.
  intros Wf. induction 1 as [x|x y l z F W IH]; intros p w r Ep R Wp.
  - subst x. destruct (to_terminator bd p w r Wf R Wp) as (d & w1 & w2 & H). eauto.
  - subst x. destruct (to_terminator bd p w r Wf R Wp) as (d & w1 & w2 & E & C).
    pose proof C as (C1 & C2 & C3). destruct F as [_ F].
    inversion C2 as [x Ex|x n l' z' St W2 Ex]; subst.
    + exfalso. apply (return_no_succ bd (Loc (l_block p) (b_stmts d)) y); auto. cbn. rewrite F. left; auto.
    + inversion St as [b d' i E' L|b d' n' E' J]; subst.
      * rewrite E in E'. injection E' as <-. lia.
      * apply successors_wf in J; auto. rewrite F in J. destruct J as [->|[]].
        destruct (IH (Loc n' 0) l' r eq_refl R W2) as (d2 & w3 & w4 & E2 & D).
        exists d2, (w1 ++ tl (Loc (l_block p) (b_stmts d) :: w3)), w4. split; auto.
        eapply cut_trans; [exact C|]. destruct D as (D1 & D2 & D3).
        split; [econstructor; eauto|]. split; auto. rewrite D3. auto.
Qed.

(** After that, control goes to one of the targets. *)
Lemma cut_target bd p w r c d w1 w2 n0 : WfBody bd -> ReturnLoc bd r -> nth_error bd c = Some d ->
  In n0 (successors bd c) -> Cut bd p w r (Loc c (b_stmts d)) w1 w2 ->
  exists n w3, In n (successors bd c) /\ Cut bd p w r (Loc n 0) (w1 ++ [Loc n 0]) w3.
Proof.
  intros Wf R E I0 C. pose proof C as (C1 & C2 & C3).
  inversion C2 as [x Ex|x n l' z' St W2 Ex]; subst.
  - exfalso. apply (return_no_succ bd (Loc c (b_stmts d)) n0); auto.
  - inversion St as [b d' i E' L|b d' n' E' J]; subst.
    + rewrite E in E'. injection E' as <-. lia.
    + exists n', l'. apply successors_wf in J; auto. split; auto.
      split; [eapply walk_snoc; eauto|]. split; auto.
      destruct (walk_head _ _ _ _ W2) as [x ->]. cbn [tl]. rewrite <- app_assoc. auto.
Qed.

(** The join is on every returning execution from where the branch was opened. *)
Lemma join_after bd ord p sw phi : WfBody bd -> ReturnsNormal bd -> (exists r, ReturnLoc bd r) -> Order ord ->
  switch_location bd p = Some sw -> join_of bd ord sw = Some phi -> AlwaysAfter bd phi p.
Proof.
  intros Wf RN Ex O Hsw J r w R W. unfold join_of in J.
  destruct (least_post_dominator bd ord (l_block sw)) as [j|] eqn:E; [|discriminate].
  cbn in J. injection J as <-.
  assert (Ex' : exists e, Returns bd e) by (destruct Ex as [r0 R0]; exists (l_block r0); apply ReturnLoc_block; auto).
  destruct (least_post_dominator_unfold bd ord (l_block sw) Wf RN Ex' O j E) as (m & _ & (N & _ & _ & On) & _).
  destruct (switch_location_walk bd p sw Hsw) as [v V].
  destruct (forced_cut bd _ _ _ Wf V p w r eq_refl R W) as (d & w1 & w2 & Ed & C1 & C2 & C3).
  rewrite C3. apply in_or_app. right.
  destruct (exec_path bd _ _ _ C2) as (pl & P & Mid & _ & Las & _). cbn [l_block l_idx] in *.
  destruct (On (l_block r) (ReturnLoc_block _ _ R)) as [_ On']. specialize (On' pl P).
  assert (K : In (Loc j 0) w2).
  { destruct (walk_head _ _ _ _ P) as [t Et]. rewrite Et in On'. destruct On' as [X|On']; [congruence|].
    destruct (walk_last_eq _ _ _ _ P) as [u Eu].
    destruct (Nat.eq_dec j (l_block r)) as [->|Nr].
    - apply Las; [|lia]. rewrite Et. destruct t; [destruct On'|cbn; lia].
    - apply Mid.
      + rewrite Et. cbn [tl]. destruct u as [|u0 u]; [rewrite Et in Eu; cbn in Eu; injection Eu as _ Et'; subst t; destruct On'|].
        rewrite Et in Eu. cbn in Eu. injection Eu as _ Et'. rewrite Et' in On' |- *.
        rewrite removelast_last. apply in_app_iff in On' as [On'|[On'|[]]]; [auto|congruence].
      + assert (L : j < length bd).
        { assert (P' : path bd (l_block sw) pl (l_block r)) by exact P.
          apply nth_error_Some. assert (Wj : In j pl) by (rewrite Et; right; auto).
          destruct (walk_split _ _ _ _ _ P' Wj) as (x1 & x2 & X1 & _ & _).
          intros Z. apply nth_error_None in Z.
          assert (l_block sw < length bd) by (apply nth_error_Some; congruence).
          pose proof (path_end_lt bd _ _ _ X1 H). lia. }
        apply nth_error_Some in L. destruct (nth_error bd j) as [dj|] eqn:Ej; [|congruence].
        exists dj. cbn. split; auto. lia. }
  destruct (walk_head _ _ _ _ C2) as [t Et]. rewrite Et in K |- *. cbn [tl].
  destruct K as [K|K]; auto. injection K as K _. congruence.
Qed.

(** What the branch records of its join. *)
Definition JoinOk bd ord (s : st) : Prop :=
  forall b, In b (branches s) -> br_reach b = reach_of (fst (br_reach b)) (join_of bd ord (fst (br_reach b))).

Lemma JoinOk_branched bd ord s l sw i b sp sps :
  JoinOk bd ord s -> JoinOk bd ord (branched bd s l sw (join_of bd ord sw) i b sp sps).
Proof.
  intros A b' I. unfold branched in I. cbn [branches] in I.
  apply in_app_iff in I as [I|[<-|[]]]; [auto|]. cbn [br_reach]. unfold reach_of. cbn. auto.
Qed.

Lemma JoinOk_prim P fw bd ord s s' : prim P fw bd ord s s' -> JoinOk bd ord s -> JoinOk bd ord s'.
Proof.
  intros H A. destruct H as [s|s idx s' E|s l sp s' bid Pl Pe M|s location parent l s' Pl F O'
    |s bid s' C|s i b l span s' Pl F I].
  - exact A.
  - apply close_scope_Some in E as (_ & rest & _ & ->). exact A.
  - apply mk_branch_Some in M as (sw & i & b & sp' & Hsw & _ & _ & _ & _ & ->).
    apply JoinOk_branched; auto.
  - destruct (child_branched _ _ _ _ _ _ _ _ _ Pl F O')
      as (sw & i & b & sp & pb & cb & Hsw & _ & _ & _ & _ & H). cbn zeta in H.
    destruct H as (_ & _ & ->).
    exact (JoinOk_branched bd ord s l sw i b sp (spanners s) A).
  - unfold close_branch in C. destruct (nth_error (branches s) bid) as [b|]; [|discriminate].
    injection C as <-. exact A.
  - apply insert_linear_Val in I as (c & Ec & ->). exact A.
Qed.

Lemma JoinOk_Steps P fw bd ord s : Steps P fw bd ord make s -> JoinOk bd ord s.
Proof.
  induction 1 as [|s s' H IH Hp]; [intros b []|]. eapply JoinOk_prim; eauto.
Qed.

Lemma HasJoin_join bd ord s b : JoinOk bd ord s -> In b (branches s) -> HasJoin b ->
  join_of bd ord (fst (br_reach b)) = Some (snd (br_reach b)).
Proof.
  intros A I J. specialize (A b I). unfold HasJoin in J.
  destruct (br_reach b) as [sw e]. cbn in *. unfold reach_of in A.
  destruct (join_of bd ord sw) as [p|]; [injection A as ->; auto|]. injection A as ->. congruence.
Qed.

Lemma join_targets bd ord sw phi : WfBody bd -> ReturnsNormal bd -> (exists r, ReturnLoc bd r) -> Order ord ->
  join_of bd ord sw = Some phi -> successors bd (l_block sw) <> [].
Proof.
  intros Wf RN Ex O J. unfold join_of in J.
  destruct (least_post_dominator bd ord (l_block sw)) as [j|] eqn:E; [|discriminate].
  assert (Ex' : exists e, Returns bd e) by (destruct Ex as [r0 R0]; exists (l_block r0); apply ReturnLoc_block; auto).
  destruct (least_post_dominator_unfold bd ord (l_block sw) Wf RN Ex' O j E) as (m & _ & (N & _ & _ & On) & _).
  destruct Ex' as [e Re]. destruct (On e Re) as [[l P] On']. specialize (On' l P). intros Z.
  inversion P as [x Hx|x y l' z Jp P' Hx]; subst.
  - destruct On' as [On'|[]]. auto.
  - apply successors_wf in Jp; auto. rewrite Z in Jp. destruct Jp.
Qed.

(** The chain of a collection is run through. *)
Lemma chain_through bd ord s : WfBody bd -> ReturnsNormal bd -> (exists r, ReturnLoc bd r) -> Order ord ->
  ArmsOk bd s -> JoinOk bd ord s ->
  forall p items q, Chain s p items q ->
  (forall sid sg, In (Linear sid) items -> nth_error (segs s) sid = Some sg -> AlwaysAfter bd (s_to sg) (s_from sg)) ->
  forall r w, ReturnLoc bd r -> walk (LocStep bd) p w r -> RunsThrough bd s p items w r.
Proof.
  intros Wf RN Ex O A J. 
  induction 1 as [p|p sid sg rest q E F C IH|p bid b rest q E Sp Hj C IH|p bid b rest q E Sp Hj C IH];
    intros Hl r w R W.
  - exists [p], p, w. split; [constructor|]. split; auto. destruct (walk_head _ _ _ _ W) as [t ->]. auto.
  - assert (I : In (s_to sg) w) by (apply (Hl sid sg (or_introl eq_refl) E r w R); rewrite F; auto).
    destruct (walk_split _ _ _ _ _ W I) as (w1 & w2 & W1 & W2 & Ew).
    destruct (IH (fun s' g' i => Hl s' g' (or_intror i)) r w2 R W2)
      as (v1 & q' & v2 & T & V & Ev).
    exists (w1 ++ tl v1), q', v2. split; [econstructor; eauto|]. split; auto.
    assert (Hv : exists t, v1 = s_to sg :: t).
    { rewrite Ev in W2. clear -W2 T. destruct v1 as [|x v1].
      - exfalso. assert (G : forall p i w q, Through bd s p i w q -> w <> []).
        { clear. induction 1; try discriminate; auto; destruct (walk_head _ _ _ _ H1) as [t ->] || destruct (walk_head _ _ _ _ H2) as [t ->]; discriminate. }
        apply (G _ _ _ _ T). auto.
      - destruct (walk_head _ _ _ _ W2) as [t Et]. cbn in Et. injection Et as -> _. eauto. }
    destruct Hv as [t ->]. rewrite Ew, Ev. cbn [tl List.app]. rewrite app_assoc. auto.
  - assert (Ib : In b (branches s)) by (eapply nth_error_In; eauto).
    pose proof (HasJoin_join bd ord s b J Ib Hj) as Jb.
    assert (Af : AlwaysAfter bd (snd (br_reach b)) p).
    { destruct (A b Ib) as [L A'].
      destruct (successors bd (l_block (fst (br_reach b)))) as [|n ns] eqn:En;
        [exfalso; apply (join_targets bd ord _ _ Wf RN Ex O Jb); auto|].
      destruct (br_splits b) as [|sid0 sids] eqn:Es; [discriminate L|].
      destruct (A' 0 n sid0 eq_refl eq_refl) as (sg & Eg & _ & Hsw).
      destruct (Sp sid0 (or_introl eq_refl)) as (sg' & Eg' & Fp). rewrite Eg in Eg'. injection Eg' as <-.
      rewrite Fp in Hsw. eapply join_after; eauto. }
    assert (I := Af r w R W).
    destruct (walk_split _ _ _ _ _ W I) as (w1 & w2 & W1 & W2 & Ew).
    destruct (IH (fun s' g' i => Hl s' g' (or_intror i)) r w2 R W2)
      as (v1 & q' & v2 & T & V & Ev).
    exists (w1 ++ tl v1), q', v2. split; [eapply through_join; eauto|]. split; auto.
    assert (Hv : exists t, v1 = snd (br_reach b) :: t).
    { rewrite Ev in W2. clear -W2 T. destruct v1 as [|x v1].
      - exfalso. assert (G : forall p i w q, Through bd s p i w q -> w <> []).
        { clear. induction 1; try discriminate; auto; destruct (walk_head _ _ _ _ H1) as [t ->] || destruct (walk_head _ _ _ _ H2) as [t ->]; discriminate. }
        apply (G _ _ _ _ T). auto.
      - destruct (walk_head _ _ _ _ W2) as [t Et]. cbn in Et. injection Et as -> _. eauto. }
    destruct Hv as [t ->]. rewrite Ew, Ev. cbn [tl List.app]. rewrite app_assoc. auto.
  - destruct (IH (fun s' g' i => Hl s' g' (or_intror i)) r w R W)
      as (v1 & q' & v2 & T & V & Ev).
    exists v1, q', v2. split; [eapply through_stay; eauto|]. auto.
Qed.

Lemma flat_nodup {A} (f : A -> list nat) l : NoDup (flat_map f l) ->
  forall i x k j y m v, nth_error l i = Some x -> nth_error (f x) k = Some v ->
    nth_error l j = Some y -> nth_error (f y) m = Some v -> i = j /\ k = m.
Proof.
  induction l as [|a l IH]; intros Nd i x k j y m v Ei Ek Ej Em; [destruct i; discriminate|].
  cbn in Nd. assert (N1 : NoDup (f a)) by (clear -Nd; induction (f a) as [|z u IHu]; [constructor|];
    cbn in Nd; apply NoDup_cons_iff in Nd as [N Nd]; constructor; auto; intros I; apply N; apply in_app_iff; auto).
  assert (N2 : NoDup (flat_map f l)) by (clear -Nd; induction (f a) as [|z u IHu]; auto;
    cbn in Nd; apply NoDup_cons_iff in Nd as [N Nd]; auto).
  assert (N3 : forall v, In v (f a) -> In v (flat_map f l) -> False).
  { clear -Nd. induction (f a) as [|z u IHu]; [intros v []|]. cbn in Nd. apply NoDup_cons_iff in Nd as [N Nd].
    intros v [->|I] I2; [apply N; apply in_app_iff; auto|eauto]. }
  destruct i as [|i], j as [|j]; cbn in Ei, Ej.
  - injection Ei as <-. injection Ej as <-. split; auto.
    rewrite NoDup_nth_error in N1. apply N1; [apply nth_error_Some; congruence|congruence].
  - injection Ei as <-. exfalso. apply (N3 v); [eapply nth_error_In; eauto|].
    apply in_flat_map. exists y. split; eapply nth_error_In; eauto.
  - injection Ej as <-. exfalso. apply (N3 v); [eapply nth_error_In; eauto|].
    apply in_flat_map. exists x. split; eapply nth_error_In; eauto.
  - destruct (IH N2 i x k j y m v Ei Ek Ej Em) as [-> ->]. auto.
Qed.

(** A collection begins at one place. *)
Lemma begins_one s cid p q : Shape s -> BeginsAt s cid p -> BeginsAt s cid q -> p = q.
Proof.
  intros Sh. 
  assert (Nd : NoDup (0 :: flat_map br_nested (branches s))) by (rewrite (sh_nested s Sh); apply seq_NoDup).
  apply NoDup_cons_iff in Nd as [N0 Nd].
  assert (Z : forall bid k sid, ~ Arm s bid k sid 0).
  { intros bid k sid (b & Eb & _ & En). apply N0. apply in_flat_map. exists b. split; eapply nth_error_In; eauto. }
  intros [[-> ->]|(bid & k & sid & sg & Ar & Eg & <-)] [[E ->]|(bid' & k' & sid' & sg' & Ar' & Eg' & <-)].
  - reflexivity.
  - exfalso. eapply Z; eauto.
  - subst cid. exfalso. eapply Z; eauto.
  - destruct Ar as (b & Eb & Es & En), Ar' as (b' & Eb' & Es' & En').
    destruct (flat_nodup br_nested _ Nd bid b k bid' b' k' cid Eb En Eb' En') as [<- <-].
    rewrite Eb in Eb'. injection Eb' as <-. rewrite Es in Es'. injection Es' as <-. congruence.
Qed.
