(** Proofs for C12-C13. *)

From Coq Require Import List Arith Bool Lia Relations.
From Verif Require Import Base FactsModel FactsProofs FlowModel FlowSpec.
Import ListNotations.

(** * Reachability *)

Lemma FlowsTo_refl g a : FlowsTo g a a.
Proof. exists [a]. constructor. Qed.

Lemma FlowsTo_trans g a b c : FlowsTo g a b -> FlowsTo g b c -> FlowsTo g a c.
Proof. intros [l1 W1] [l2 W2]. eexists. eapply walk_app; eauto. Qed.

Lemma FlowsTo_edge g a b : In (a, b) g -> FlowsTo g a b.
Proof. intros I. exists [a; b]. econstructor; [exact I|constructor]. Qed.

Lemma reach_FlowsTo g a b : In b (reach_list Nat.eq_dec g [a]) <-> FlowsTo g a b.
Proof.
  rewrite reach_list_spec. split.
  - intros (s & l & [<-|[]] & W). exists l; auto.
  - intros [l W]. exists a, l. split; cbn; auto.
Qed.

Lemma FlowsTo_ind (g : list (nat * nat)) (P : nat -> nat -> Prop) :
  (forall a, P a a) -> (forall a b c, In (a, b) g -> FlowsTo g b c -> P b c -> P a c) ->
  forall a b, FlowsTo g a b -> P a b.
Proof.
  intros H1 H2 a b [l W]. induction W as [x|x y l z E W IH]; auto.
  eapply H2; eauto. exists l; auto.
Qed.

Lemma forallb_false {A} (f : A -> bool) l :
  forallb f l = false -> exists x, In x l /\ f x = false.
Proof.
  induction l as [|a l IH]; cbn; [discriminate|]. intros H.
  apply andb_false_iff in H as [H|H]; eauto. destruct (IH H) as (x & I & Hx); eauto.
Qed.

(** * C12 *)

Lemma flow_from_sources_edge S G t s :
  In (t, s) (flow_from_sources S G) <-> In s S /\ FlowsTo G s t.
Proof.
  unfold flow_from_sources. rewrite in_flat_map. split.
  - intros (s' & I & H). apply in_map_iff in H as (t' & E & H). injection E as -> ->.
    apply reach_FlowsTo in H. auto.
  - intros (I & F). exists s. split; auto. apply in_map_iff. exists t. split; auto.
    apply reach_FlowsTo; auto.
Qed.

(** The closure adds nothing: what a node can point to is exactly the set of
    sources that flow into it. *)
Lemma contains_iff_flows S G t s :
  In s (reachable_from (flow_from_sources S G) t) <-> In s S /\ FlowsTo G s t.
Proof.
  unfold reachable_from. rewrite reach_list_spec. split.
  - intros (s0 & l & I & W). apply nexts_In, flow_from_sources_edge in I as [I F].
    revert I F. induction W as [x|x y l z E W IH]; intros I F; auto.
    apply flow_from_sources_edge in E as [Iy Fy]. apply IH; auto.
    eapply FlowsTo_trans; eauto.
  - intros (I & F). exists s, [s]. split; [|constructor].
    apply nexts_In, flow_from_sources_edge. auto.
Qed.

Lemma tcontains_iff S G t s :
  tcontains (flow_from_sources S G) t s = true <-> In s S /\ FlowsTo G s t.
Proof. unfold tcontains. rewrite memb_In. apply contains_iff_flows. Qed.

(** * Components *)

Lemma SameCycle_refl g a : SameCycle g a a.
Proof. split; apply FlowsTo_refl. Qed.
Lemma SameCycle_sym g a b : SameCycle g a b -> SameCycle g b a.
Proof. intros [H1 H2]; split; auto. Qed.
Lemma SameCycle_trans g a b c : SameCycle g a b -> SameCycle g b c -> SameCycle g a c.
Proof. intros [H1 H2] [H3 H4]; split; eapply FlowsTo_trans; eauto. Qed.

Lemma mutual_spec g a b : mutual g a b = true <-> SameCycle g a b.
Proof. unfold mutual, SameCycle. rewrite andb_true_iff, !memb_In, !reach_FlowsTo. tauto. Qed.

Lemma flatten_In g v : In v (flatten_tuples g) <-> Constrained g v.
Proof.
  unfold flatten_tuples, Constrained. rewrite nodup_In, in_flat_map. split.
  - intros ([a b] & I & [<-|[<-|[]]]); eauto.
  - intros (p & [I|I]); eexists; split; eauto; cbn; auto.
Qed.

Lemma count_nodes_lt g v : Constrained g v -> v < count_nodes g.
Proof.
  rewrite <- flatten_In. unfold count_nodes.
  induction (flatten_tuples g) as [|a l IH]; cbn [fold_right In]; [tauto|].
  intros [<-|I]; [lia|]. specialize (IH I). lia.
Qed.

Lemma FlowsTo_constrained g a b : FlowsTo g a b -> a = b \/ (Constrained g a /\ Constrained g b).
Proof.
  revert a b. apply FlowsTo_ind; auto.
  intros a b c I F [->|[_ H]]; right; split; auto; unfold Constrained; eauto.
Qed.

Lemma scc_rep_cycle g a : SameCycle g a (scc_rep g a).
Proof.
  unfold scc_rep. destruct (find (mutual g a) _) as [r|] eqn:E.
  - apply find_some in E as [_ E]. apply mutual_spec; auto.
  - apply SameCycle_refl.
Qed.

Lemma scc_rep_eq g a b : scc_rep g a = scc_rep g b <-> SameCycle g a b.
Proof.
  split.
  - intros E. eapply SameCycle_trans; [apply scc_rep_cycle|]. rewrite E.
    apply SameCycle_sym, scc_rep_cycle.
  - intros H. destruct (Nat.eq_dec a b) as [->|N]; auto.
    assert (X : forall c, mutual g a c = mutual g b c).
    { intros c. apply eq_true_iff_eq. rewrite !mutual_spec. split; intros K.
      - eapply SameCycle_trans; [apply SameCycle_sym|]; eauto.
      - eapply SameCycle_trans; eauto. }
    assert (Y : forall l, find (mutual g a) l = find (mutual g b) l).
    { induction l as [|c l IH]; cbn; auto. rewrite X, IH. reflexivity. }
    unfold scc_rep. rewrite <- Y. destruct (find (mutual g a) _) as [r|] eqn:E; auto.
    exfalso. destruct (FlowsTo_constrained g a b (proj1 H)) as [E'|[Ca _]]; auto.
    eapply find_none in E; [|apply in_seq; split; [lia|apply count_nodes_lt; eauto]].
    pose proof (proj2 (mutual_spec g a a) (SameCycle_refl g a)). congruence.
Qed.

Lemma FlowsTo_scc g a b : FlowsTo (scc_edges g) (scc_rep g a) (scc_rep g b) <-> FlowsTo g a b.
Proof.
  split.
  - intros H. remember (scc_rep g a) as x eqn:Ea. remember (scc_rep g b) as y eqn:Eb.
    assert (G : forall x y, FlowsTo (scc_edges g) x y ->
              forall a b, x = scc_rep g a -> y = scc_rep g b -> FlowsTo g a b).
    { clear. apply (FlowsTo_ind (scc_edges g)
        (fun x y => forall a b, x = scc_rep g a -> y = scc_rep g b -> FlowsTo g a b)).
      - intros x a b -> E. apply scc_rep_eq in E as [E _]. auto.
      - intros x y z E F IH a b -> ->. apply in_map_iff in E as ([u v] & E & I).
        cbn in E. injection E as Eu Ev. apply scc_rep_eq in Eu as [_ Hu].
        eapply FlowsTo_trans; [exact Hu|]. eapply FlowsTo_trans; [apply FlowsTo_edge; eauto|].
        apply IH; auto. }
    eapply G; eauto.
  - revert a b. apply FlowsTo_ind.
    + intros; apply FlowsTo_refl.
    + intros a b c I F IH. eapply FlowsTo_trans; [|exact IH]. apply FlowsTo_edge.
      apply in_map_iff. exists (a, b). auto.
Qed.

Lemma scc_Some g o s : scc g o = Some s <-> o < count_nodes g /\ s = scc_rep g o.
Proof.
  unfold scc. destruct (Nat.ltb_spec o (count_nodes g)); split.
  - intros H'; injection H' as <-; auto.
  - intros [_ ->]; auto.
  - discriminate.
  - intros [? _]; lia.
Qed.

Lemma traverse_scc_In g l r : traverse (scc g) l = Some r ->
  forall s, In s r <-> exists o, In o l /\ s = scc_rep g o.
Proof.
  intros T s. rewrite (traverse_Some _ _ _ T). split.
  - intros (o & I & H). apply scc_Some in H as [_ H]. eauto.
  - intros (o & I & ->). exists o. split; auto.
    destruct (traverse_defined _ _ _ T o I) as [s Hs]. rewrite Hs.
    apply scc_Some in Hs as [_ ->]. auto.
Qed.

(** * C13 *)

Section Kind.
  Variable fi : FlowIn.
  Variable rf : RegionFlows.
  Hypothesis computed : compute_flows fi = Some rf.
  Notation g := (f_subset fi).
  Notation rep := (scc_rep (f_subset fi)).

  Lemma abstract_origins_In p : In p (abstract_origins fi) <-> Abstract fi p.
  Proof.
    unfold abstract_origins, Abstract. rewrite in_app_iff, filter_In, memb_In, flatten_In. tauto.
  Qed.

  Definition known_edges :=
    map (fun ft : nat * nat => (rep (fst ft), rep (snd ft)))
        (filter (fun ft => memb Nat.eq_dec (fst ft) (flatten_tuples g)
                           && memb Nat.eq_dec (snd ft) (flatten_tuples g)) (f_known fi)).

  Lemma computed_inv : exists ph ls dg,
    traverse (scc g) (abstract_origins fi) = Some ph /\
    traverse (scc g) (map b_region (filter (fun b => negb (b_indirect b)) (f_borrows fi))) = Some ls /\
    traverse (scc g) (map b_region (filter (check_for_invalidation_at_exit fi) (f_error_loans fi))) = Some dg /\
    rf = mkRF g (flow_from_sources ph (known_edges ++ map (fun o => (o, o)) ph)) dg ph
           (flow_from_sources ph (scc_edges g)) (flow_from_sources ls (scc_edges g)).
  Proof.
    unfold compute_flows in computed.
    destruct (traverse (scc g) (abstract_origins fi)) as [ph|]; [|discriminate].
    destruct (traverse (scc g) (map b_region (filter (fun b => negb (b_indirect b)) (f_borrows fi))))
      as [ls|]; [|discriminate].
    destruct (traverse (scc g) (map b_region (filter (check_for_invalidation_at_exit fi) (f_error_loans fi))))
      as [dg|]; [|discriminate].
    injection computed as <-. exists ph, ls, dg. repeat split; auto.
  Qed.

  Lemma declared_flow ph p q :
    (forall s, In s ph <-> exists o, Abstract fi o /\ s = rep o) ->
    FlowsTo (known_edges ++ map (fun o => (o, o)) ph) (rep p) (rep q) <-> Declared fi p q.
  Proof.
    intros Hph. split.
    - intros H.
      assert (G : forall x y, FlowsTo (known_edges ++ map (fun o => (o, o)) ph) x y ->
                forall p q, x = rep p -> y = rep q -> Declared fi p q).
      { apply (FlowsTo_ind _ (fun x y => forall p q, x = rep p -> y = rep q -> Declared fi p q)).
        - intros x a b -> E. apply rt_step. right. apply scc_rep_eq; auto.
        - intros x y z E F IH a b Ex Ez. apply in_app_or in E as [E|E].
          + apply in_map_iff in E as ([u v] & E & I). cbn in E. injection E as <- <-.
            apply filter_In in I as [I C]. cbn in C. apply andb_true_iff in C as [C1 C2].
            apply memb_In, flatten_In in C1. apply memb_In, flatten_In in C2.
            eapply rt_trans; [apply rt_step; right; apply scc_rep_eq; symmetry; exact Ex|].
            eapply rt_trans; [apply rt_step; left; eauto|]. apply IH; auto.
          + apply in_map_iff in E as (o & E & _). injection E as <- <-. apply IH; auto. }
      eapply G; eauto.
    - induction 1 as [a b [(I & C1 & C2)|S]| |]; auto using FlowsTo_refl.
      + apply FlowsTo_edge, in_or_app. left. apply in_map_iff. exists (a, b). split; auto.
        apply filter_In. split; auto. cbn. apply andb_true_iff.
        rewrite !memb_In, !flatten_In. auto.
      + apply scc_rep_eq in S. rewrite S. apply FlowsTo_refl.
      + eapply FlowsTo_trans; eauto.
  Qed.

  Lemma dangling_spec b : check_for_invalidation_at_exit fi b = true <->
    if b_thread_local b then b_conflicts_deref b = true
    else f_locals_invalidated fi = true /\ b_conflicts_root b = true.
  Proof.
    unfold check_for_invalidation_at_exit.
    destruct (b_thread_local b), (f_locals_invalidated fi), (b_conflicts_deref b), (b_conflicts_root b);
      cbn; intuition discriminate.
  Qed.

  Lemma flow_kind_verdict from to k :
    flow_kind rf from to = Some k -> Verdict fi from to k.
  Proof.
    destruct computed_inv as (ph & ls & dg & T1 & T2 & T3 & E).
    assert (Hph : forall s, In s ph <-> exists o, Abstract fi o /\ s = rep o).
    { intros s. rewrite (traverse_scc_In _ _ _ T1). split; intros (o & I & ->); exists o; split; auto;
        apply abstract_origins_In; auto. }
    assert (Hls : forall s, In s ls <-> exists b, In b (f_borrows fi) /\ b_indirect b = false /\ s = rep (b_region b)).
    { intros s. rewrite (traverse_scc_In _ _ _ T2). split.
      - intros (o & I & ->). apply in_map_iff in I as (b & <- & I). apply filter_In in I as [I H].
        apply negb_true_iff in H. eauto.
      - intros (b & I & H & ->). exists (b_region b). split; auto. apply in_map_iff. exists b.
        split; auto. apply filter_In. rewrite H. auto. }
    assert (Hdg : forall s, In s dg <-> exists b, Dangling fi b /\ s = rep (b_region b)).
    { intros s. rewrite (traverse_scc_In _ _ _ T3). split.
      - intros (o & I & ->). apply in_map_iff in I as (b & <- & I). apply filter_In in I as [I H].
        apply dangling_spec in H. exists b. unfold Dangling. auto.
      - intros (b & [I H] & ->). exists (b_region b). split; auto. apply in_map_iff. exists b.
        split; auto. apply filter_In. rewrite dangling_spec. auto. }
    subst rf. unfold flow_kind. cbn [rf_graph rf_specified rf_dangling rf_abstract rf_contains_abstract rf_contains_local].
    destruct (scc g from) as [sf|] eqn:Ef; [|discriminate].
    destruct (scc g to) as [st|] eqn:Et; [|discriminate].
    apply scc_Some in Ef as [Lf ->]. apply scc_Some in Et as [Lt ->].
    intros Hk. injection Hk as <-.
    (* the four tests *)
    assert (A : (rep from =? rep to) = true <-> SameCycle g from to).
    { rewrite Nat.eqb_eq. apply scc_rep_eq. }
    assert (CL : forall s, In s (reachable_from (flow_from_sources ls (scc_edges g)) (rep from)) <->
                 exists b, LocalIn fi b from /\ s = rep (b_region b)).
    { intros s. rewrite contains_iff_flows, Hls. split.
      - intros ((b & I & H & ->) & F). apply -> FlowsTo_scc in F. exists b. split; [split; auto|reflexivity].
      - intros (b & (I & H & F) & ->). split; eauto. apply <- FlowsTo_scc; auto. }
    assert (B1 : has_local_member (mkRF g (flow_from_sources ph (known_edges ++ map (fun o => (o, o)) ph)) dg ph
                   (flow_from_sources ph (scc_edges g)) (flow_from_sources ls (scc_edges g))) (rep from) = true
                 <-> exists b, LocalIn fi b from).
    { unfold has_local_member. cbn [rf_contains_local].
      destruct (reachable_from (flow_from_sources ls (scc_edges g)) (rep from)) as [|s r] eqn:R.
      - split; [discriminate|]. intros [b Hb].
        assert (I : In (rep (b_region b)) []) by (apply CL; eauto). inversion I.
      - split; auto. intros _. destruct (proj1 (CL s)) as (b & Hb & _); cbn; eauto. }
    assert (B2 : is_abstract_member (mkRF g (flow_from_sources ph (known_edges ++ map (fun o => (o, o)) ph)) dg ph
                   (flow_from_sources ph (scc_edges g)) (flow_from_sources ls (scc_edges g))) (rep to) = true
                 <-> TiedToAbstract fi to).
    { unfold is_abstract_member. cbn [rf_abstract]. rewrite memb_In, Hph. unfold TiedToAbstract.
      split; intros (p & Hp & Eq); exists p; split; auto.
      - apply scc_rep_eq; auto.
      - symmetry. apply scc_rep_eq; auto. }
    assert (CA : forall r s, In s (reachable_from (flow_from_sources ph (scc_edges g)) (rep r)) <->
                 exists p, AbstractIn fi p r /\ s = rep p).
    { intros r s. rewrite contains_iff_flows, Hph. split.
      - intros ((p & Hp & ->) & F). apply -> FlowsTo_scc in F. exists p. split; [split; auto|reflexivity].
      - intros (p & (Hp & F) & ->). split; eauto. apply <- FlowsTo_scc; auto. }
    set (test3 := forallb _ (reachable_from (flow_from_sources ph (scc_edges g)) (rep from))).
    assert (C : test3 = true <-> forall p q, AbstractIn fi p from -> AbstractIn fi q to -> Declared fi p q).
    { unfold test3. rewrite forallb_forall. split.
      - intros H p q Hp Hq.
        assert (Ip := proj2 (CA from (rep p)) (ex_intro _ p (conj Hp eq_refl))).
        assert (Iq := proj2 (CA to (rep q)) (ex_intro _ q (conj Hq eq_refl))).
        specialize (H _ Ip). rewrite forallb_forall in H. specialize (H _ Iq).
        apply tcontains_iff in H as [_ H]. eapply declared_flow; eauto.
      - intros H s Is. apply CA in Is as (p & Hp & ->). apply forallb_forall. intros t It.
        apply CA in It as (q & Hq & ->). apply tcontains_iff. split.
        + apply Hph. exists p. split; auto. apply Hp.
        + eapply declared_flow; eauto. }
    assert (C' : test3 = false <-> MissingConstraint fi from to).
    { split.
      - intros H. unfold test3 in H. clear C.
        assert (G : exists s t, In s (reachable_from (flow_from_sources ph (scc_edges g)) (rep from)) /\
                     In t (reachable_from (flow_from_sources ph (scc_edges g)) (rep to)) /\
                     tcontains (flow_from_sources ph (known_edges ++ map (fun o => (o, o)) ph)) t s = false).
        { apply forallb_false in H as (s & Is & H). apply forallb_false in H as (t & It & H).
          exists s, t. auto. }
        destruct G as (s & t & Is & It & Hn).
        apply CA in Is as (p & Hp & ->). apply CA in It as (q & Hq & ->).
        exists p, q. split; auto. split; auto. intros D.
        assert (X : tcontains (flow_from_sources ph (known_edges ++ map (fun o => (o, o)) ph)) (rep q) (rep p) = true).
        { apply tcontains_iff. split.
          - apply Hph. exists p. split; auto. apply Hp.
          - eapply declared_flow; eauto. }
        congruence.
      - intros (p & q & Hp & Hq & ND). apply not_true_iff_false. rewrite C. intros D. apply ND. auto. }
    assert (C'' : test3 = true -> ~ MissingConstraint fi from to) by (intros X Y; apply C' in Y; congruence).
    assert (D : existsb (fun l => memb Nat.eq_dec l dg)
                  (reachable_from (flow_from_sources ls (scc_edges g)) (rep from)) = true
                <-> LocalDangles fi from).
    { rewrite existsb_exists. unfold LocalDangles. split.
      - intros (s & Is & Hs). apply CL in Is as (b & Hb & ->). apply memb_In, Hdg in Hs as (d & Hd & Ed).
        exists b, d. split; auto. split; auto. apply scc_rep_eq. auto.
      - intros (b & d & Hb & Hd & S). exists (rep (b_region b)). split; [apply CL; eauto|].
        apply memb_In, Hdg. exists d. split; auto. symmetry. apply scc_rep_eq; auto. }
    destruct (rep from =? rep to) eqn:Eft.
    { cbn. left. apply A; auto. }
    assert (NS : ~ SameCycle g from to) by (rewrite <- A; discriminate).
    destruct (has_local_member _ (rep from)) eqn:Hl; cbn [andb].
    - destruct (is_abstract_member _ (rep to)) eqn:Ha.
      + cbn. split; auto. split; [apply B1|apply B2]; auto.
      + assert (NL : ~ LocalOutlives fi from to).
        { intros [_ X]. apply B2 in X. congruence. }
        destruct test3 eqn:Et3; cbn [negb].
        * destruct (existsb _ _) eqn:Ed; cbn.
          -- repeat split; auto. apply D; auto.
          -- right. repeat split; auto. intros X. apply D in X. congruence.
        * cbn. repeat split; auto. apply C'; auto.
    - assert (NL : ~ LocalOutlives fi from to).
      { intros [X _]. apply B1 in X. congruence. }
      destruct test3 eqn:Et3; cbn [negb].
      * destruct (existsb _ _) eqn:Ed; cbn.
        -- repeat split; auto. apply D; auto.
        -- right. repeat split; auto. intros X. apply D in X. congruence.
      * cbn. repeat split; auto. apply C'; auto.
  Qed.

  Lemma verdict_unique from to k k' : Verdict fi from to k -> Verdict fi from to k' -> k = k'.
  Proof. destruct k, k'; cbn; tauto. Qed.

  Lemma flow_kind_defined from to :
    (exists k, flow_kind rf from to = Some k) <->
    from < count_nodes g /\ to < count_nodes g.
  Proof.
    destruct computed_inv as (ph & ls & dg & _ & _ & _ & ->). unfold flow_kind. cbn [rf_graph].
    unfold scc. destruct (Nat.ltb_spec from (count_nodes g)), (Nat.ltb_spec to (count_nodes g)); split;
      try (intros [k Hk]; discriminate); try lia; eauto.
  Qed.

  Lemma flow_kind_iff from to k :
    from < count_nodes g -> to < count_nodes g ->
    (flow_kind rf from to = Some k <-> Verdict fi from to k).
  Proof.
    intros Lf Lt. split; [apply flow_kind_verdict|]. intros V.
    destruct (proj2 (flow_kind_defined from to)) as [k' Hk]; auto.
    rewrite Hk. f_equal. eapply verdict_unique; eauto. apply flow_kind_verdict; auto.
  Qed.

  (** When each lifetime reaching the target is the target's own, declared
      flows are never reported as missing. *)
  Lemma no_false_missing from to :
    AllAbstractFlowsDeclared fi -> FlowsTo g from to ->
    (forall q, AbstractIn fi q to -> SameCycle g q to \/ FlowsTo g from q) ->
    ~ Verdict fi from to MissingUniversalConstraint.
  Proof.
    intros AD F Own (NS & NL & p & q & Hp & Hq & ND). apply ND.
    destruct Hp as [Ap Fp]. destruct (Own q Hq) as [S|Fq]; apply AD; auto; try apply Hq.
    - eapply FlowsTo_trans; [exact Fp|]. eapply FlowsTo_trans; [exact F|]. apply S.
    - eapply FlowsTo_trans; eauto.
  Qed.
End Kind.

Lemma compute_flows_defined fi :
  (exists rf, compute_flows fi = Some rf) <->
  (forall o, Abstract fi o -> o < count_nodes (f_subset fi)) /\
  (forall b, In b (f_borrows fi) -> b_indirect b = false -> b_region b < count_nodes (f_subset fi)) /\
  (forall b, Dangling fi b -> b_region b < count_nodes (f_subset fi)).
Proof.
  split.
  - intros [rf H]. destruct (computed_inv fi rf H) as (ph & ls & dg & T1 & T2 & T3 & _).
    repeat split.
    + intros o Ho. apply abstract_origins_In in Ho.
      destruct (traverse_defined _ _ _ T1 o Ho) as [s Hs]. apply scc_Some in Hs. tauto.
    + intros b I Hb. destruct (traverse_defined _ _ _ T2 (b_region b)) as [s Hs].
      * apply in_map, filter_In. rewrite Hb. auto.
      * apply scc_Some in Hs. tauto.
    + intros b [I Hb]. destruct (traverse_defined _ _ _ T3 (b_region b)) as [s Hs].
      * apply in_map, filter_In. rewrite dangling_spec. auto.
      * apply scc_Some in Hs. tauto.
  - intros (H1 & H2 & H3). unfold compute_flows.
    destruct (traverse_total (scc (f_subset fi)) (abstract_origins fi)) as [ph ->].
    { intros o I. apply abstract_origins_In in I. eexists. apply scc_Some. split; eauto. }
    destruct (traverse_total (scc (f_subset fi))
      (map b_region (filter (fun b => negb (b_indirect b)) (f_borrows fi)))) as [ls ->].
    { intros o I. apply in_map_iff in I as (b & <- & I). apply filter_In in I as [I Hb].
      apply negb_true_iff in Hb. eexists. apply scc_Some. split; eauto. }
    destruct (traverse_total (scc (f_subset fi))
      (map b_region (filter (check_for_invalidation_at_exit fi) (f_error_loans fi)))) as [dg ->].
    { intros o I. apply in_map_iff in I as (b & <- & I). apply filter_In in I as [I Hb].
      apply dangling_spec in Hb. eexists. apply scc_Some. split; [apply H3; split; auto|eauto]. }
    eauto.
Qed.

(** * The false positive

    fn f<'a: 'r, 'c: 'r, 'r>(x: &'a T, y: &'c T) -> &'r T { if .. { x } else { y } }
    with origins 'a = 0, 'c = 1, 'r = 2. *)
Definition two_into_one : FlowIn :=
  mkFlowIn [(0, 2); (1, 2)] [0; 1; 2] [] [(0, 2); (1, 2)] [] [] true.

Lemma two_into_one_declared : AllAbstractFlowsDeclared two_into_one.
Proof.
  intros p q _ _ F. revert p q F.
  apply (FlowsTo_ind (f_subset two_into_one) (fun p q => Declared two_into_one p q)).
  - intros. apply rt_refl.
  - intros a b c I _ IH. eapply rt_trans; [|exact IH]. apply rt_step. left.
    cbn in I. unfold Constrained. cbn.
    destruct I as [E|[E|[]]]; injection E as <- <-; repeat split; eauto 6.
Qed.

Lemma false_missing :
  exists fi rf from to,
    compute_flows fi = Some rf /\ AllAbstractFlowsDeclared fi /\
    In (from, to) (f_subset fi) /\ f_borrows fi = [] /\
    flow_kind rf from to = Some MissingUniversalConstraint.
Proof.
  exists two_into_one.
  destruct (compute_flows two_into_one) as [rf|] eqn:E; [|vm_compute in E; discriminate].
  exists rf, 0, 2. split; auto. split; [apply two_into_one_declared|].
  split; [cbn; auto|]. split; auto. revert E. vm_compute. intros E. injection E as <-. reflexivity.
Qed.

(** A witness with all verdicts: 'a = 0 and 'b = 1 abstract, local loans 2, 3. *)
Definition flow_demo : FlowIn :=
  mkFlowIn [(2, 4); (4, 0); (0, 5); (5, 0); (1, 6); (6, 7); (3, 8); (8, 9)] [0; 1; 77] [7] [(0, 1)]
    [mkBorrow 2 false false true false; mkBorrow 3 false false true false;
     mkBorrow 5 true false true false]
    [mkBorrow 3 false false true false] true.
