(** * Proofs about control flow, dominance and MIR location lookup *)

From Coq Require Import List Arith Bool Lia Permutation Sorted.
From Verif Require Import Base CfgModel CfgSpec.
Import ListNotations.

(** ** Dominance in any graph *)

Section DomTheory.
  Context {T : Type} (eqd : forall x y : T, {x = y} + {x <> y}) (R : T -> T -> Prop) (s : T).

  Definition reaches (n : T) : Prop := exists l, walk R s l n.

  Lemma Dom_refl n : Dom R s n n.
  Proof. intros l W. eapply walk_end_In; eauto. Qed.

  Lemma Dom_start n : Dom R s s n.
  Proof. intros l W. eapply walk_start_In; eauto. Qed.

  Lemma Dom_trans a b c : Dom R s a b -> Dom R s b c -> Dom R s a c.
  Proof.
    intros AB BC l W. destruct (walk_split _ _ _ _ _ W (BC l W)) as (l1 & l2 & W1 & _ & ->).
    apply in_or_app; left. auto.
  Qed.

  (** A node strictly dominated by [b] is not met before [b] is. *)
  Lemma not_before_dom a b l1 :
    Dom R s a b -> a <> b -> walk R s (l1 ++ [a]) a -> ~ In a l1 -> ~ In b l1.
  Proof.
    intros AB N W NI I.
    assert (I' : In b (l1 ++ [a])) by (apply in_or_app; auto).
    destruct (walk_first eqd _ _ _ _ _ W I') as (p & Wp & Np & _).
    (* the prefix of [l1] that ends in [b] *)
    apply in_split in I as (x & y & ->).
    clear I' p Wp Np.
    assert (Q : exists p, walk R s p b /\ incl p (x ++ [b])).
    { rewrite <- app_assoc in W. cbn [app] in W.
      clear NI AB N. revert s W. induction x as [|x0 x IH]; cbn; intros s0 W.
      - destruct (walk_head _ _ _ _ W) as [r0 E0]. injection E0 as <- _.
        exists [b]. split; [constructor|apply incl_refl].
      - inversion W; subst.
        + destruct x; discriminate.
        + destruct (IH _ H4) as (p & Wp & Ip). exists (x0 :: p). split; [econstructor; eauto|].
          intros z [<-|Iz]; cbn; auto. }
    destruct Q as (p & Wp & Ip). pose proof (AB p Wp) as Ia. apply Ip in Ia.
    apply in_app_or in Ia as [Ia|[Ia|[]]]; [|congruence].
    apply NI. apply in_or_app; auto.
  Qed.

  Lemma Dom_antisym a b : reaches b -> Dom R s a b -> Dom R s b a -> a = b.
  Proof.
    intros [l W] AB BA. destruct (eqd a b) as [|N]; auto. exfalso.
    destruct (walk_first eqd _ _ _ _ _ W (AB l W)) as (l1 & W1 & N1 & _).
    pose proof (BA _ W1) as I. apply in_app_or in I as [I|[I|[]]]; [|congruence].
    exact (not_before_dom a b l1 AB N W1 N1 I).
  Qed.

  (** Dominators of a node form a chain. *)
  Lemma Dom_linear a b c :
    reaches c -> Dom R s a c -> Dom R s b c -> Dom R s a b \/ Dom R s b a.
  Proof.
    intros [l W] AC BC.
    destruct (eqd a b) as [->|N]; [left; apply Dom_refl|].
    (* whichever of the two is left last *)
    destruct (walk_last eqd _ _ _ _ b W (BC l W)) as (l2 & W2 & N2 & _).
    destruct (in_dec eqd a l2) as [I|I].
    - right.
      (* after the last [b] there is an [a]; from there on no [b] *)
      assert (Q : exists l3, walk R a l3 c /\ incl l3 (b :: l2) /\ ~ In b (tl l3)).
      { destruct (walk_split _ _ _ _ a W2 (or_intror I)) as (k1 & k2 & Wk1 & Wk2 & E).
        exists k2. split; auto.
        destruct (walk_head _ _ _ _ Wk1) as [r1 Er1]. rewrite Er1 in E. cbn in E.
        injection E as E.
        split.
        - destruct (walk_head _ _ _ _ Wk2) as [r2 ->]. cbn in E.
          intros z [<-|Iz]; [right; auto|]. right. rewrite E. apply in_or_app; auto.
        - intros J. apply N2. rewrite E. apply in_or_app; auto. }
      destruct Q as (l3 & W3 & _ & N3).
      intros la Wa. pose proof (BC _ (walk_app _ _ _ _ _ _ Wa W3)) as J.
      apply in_app_or in J as [J|J]; auto. contradiction.
    - left. intros lb Wb. pose proof (AC _ (walk_app _ _ _ _ _ _ Wb W2)) as J.
      cbn in J. apply in_app_or in J as [J|J]; auto. contradiction.
  Qed.
End DomTheory.

(** ** The computed dominators have the path meaning *)

Lemma edges_of_In n next x y :
  In (x, y) (edges_of n next) <-> x < n /\ In y (next x).
Proof.
  unfold edges_of. rewrite in_flat_map. split.
  - intros (z & Iz & I). apply in_map_iff in I as (w & E & Iw). injection E as -> ->.
    apply in_seq in Iz. split; [lia|auto].
  - intros [L I]. exists x. split; [apply in_seq; lia|]. apply in_map_iff. exists y. auto.
Qed.

Lemma is_reachable_iff E s n :
  is_reachable E s n = true <-> exists l, walk (edge E) s l n.
Proof.
  unfold is_reachable. rewrite memb_In, reach_list_spec. split.
  - intros (x & l & [<-|[]] & W). eauto.
  - intros [l W]. exists s, l. split; auto. cbn; auto.
Qed.

Lemma reach_avoiding_iff E s d n :
  reach_avoiding E s d n = true <-> exists l, walk (edge E) s l n /\ ~ In d l.
Proof.
  unfold reach_avoiding. rewrite andb_true_iff, negb_true_iff, Nat.eqb_neq, memb_In,
    reach_list_spec.
  split.
  - intros [N (x & l & [<-|[]] & W)]. exists l.
    assert (NI : ~ In d l).
    { induction W as [x|x y l z H W IH].
      - intros [->|[]]. congruence.
      - assert (Hy : y <> d).
        { unfold edge in H. apply filter_In in H as [_ H]. cbn in H.
          apply negb_true_iff, Nat.eqb_neq in H. auto. }
        intros [->|I]; [congruence|]. exact (IH Hy I). }
    split; auto.
    eapply walk_mono; [|exact W]. intros a b H. unfold edge in *. apply filter_In in H. tauto.
  - intros (l & W & NI). split.
    + intros ->. apply NI. eapply walk_start_In; eauto.
    + exists s, l. split; [cbn; auto|].
      induction W as [x|x y l z H W IH]; [constructor|].
      econstructor.
      * unfold edge. apply filter_In. split; [exact H|]. cbn.
        apply negb_true_iff, Nat.eqb_neq. intros ->. apply NI. right.
        eapply walk_start_In; eauto.
      * apply IH. intros I. apply NI. right; auto.
Qed.

Lemma dom_in_iff E s d n : dom_in E s d n = true <-> Dom (edge E) s d n.
Proof.
  unfold dom_in. rewrite negb_true_iff. split.
  - intros H l W. destruct (in_dec Nat.eq_dec d l) as [I|I]; auto.
    assert (reach_avoiding E s d n = true) by (apply reach_avoiding_iff; eauto). congruence.
  - intros H. apply not_true_is_false. intros C. apply reach_avoiding_iff in C as (l & W & N).
    apply N. auto.
Qed.

(** ** Reversing walks *)

Lemma walk_rev {T} (R R' : T -> T -> Prop) x l y :
  (forall a b, R a b -> R' b a) -> walk R x l y -> walk R' y (rev l) x.
Proof.
  intros H. induction 1 as [x|x y l z E W IH]; cbn; [constructor|].
  eapply walk_snoc; eauto.
Qed.

Lemma Dom_rev {T} (R R' : T -> T -> Prop) s d n :
  (forall a b, R' a b -> R b a) -> Dom R n d s -> Dom R' s d n.
Proof.
  intros H D l W. pose proof (walk_rev R' R _ _ _ H W) as W'.
  apply in_rev. apply D. exact W'.
Qed.

(** ** AllPostDominators *)

Definition pred_edge (g : graph) (x y : nat) : Prop := y < g_nodes g /\ In x (g_pred g y).

Lemma exit_post_dominators_iff g exit node d :
  d < g_nodes g ->
  (exists l, exit_post_dominators g exit node = Some l /\ In d l) <->
  (exists l, walk (pred_edge g) node l exit) /\ Dom (pred_edge g) node d exit.
Proof.
  intros L. unfold exit_post_dominators.
  set (E := edges_of (g_nodes g) (g_pred g)).
  assert (F : forall a b, edge E a b <-> pred_edge g b a).
  { intros a b. unfold edge, E, pred_edge. apply edges_of_In. }
  destruct (is_reachable E exit node) eqn:Re.
  - apply is_reachable_iff in Re as [l W].
    split.
    + intros (k & [= <-] & I). apply filter_In in I as [_ I]. apply dom_in_iff in I. split.
      * exists (rev l). eapply walk_rev; [|exact W]. intros a b. apply F.
      * eapply Dom_rev; [|exact I]. intros a b. apply F.
    + intros [_ D]. eexists. split; [reflexivity|]. apply filter_In. split.
      * apply in_seq. lia.
      * apply dom_in_iff. eapply Dom_rev; [|exact D]. intros a b. apply F.
  - split.
    + intros (k & H & _). discriminate.
    + intros [[l W] _]. exfalso.
      assert (is_reachable E exit node = true); [|congruence].
      apply is_reachable_iff. exists (rev l). eapply walk_rev; [|exact W]. intros a b. apply F.
Qed.

Lemma nth_error_nth_list {T} (l : list (list T)) n r : nth_error l n = Some r -> nth n l [] = r.
Proof. intros H. apply nth_error_nth. auto. Qed.

Lemma nth_error_map_seq {T} (f : nat -> T) n i :
  nth_error (map f (seq 0 n)) i = if i <? n then Some (f i) else None.
Proof.
  destruct (i <? n) eqn:L.
  - apply Nat.ltb_lt in L. rewrite nth_error_map.
    rewrite (nth_error_nth' (seq 0 n) 0) by (rewrite seq_length; auto).
    cbn. rewrite seq_nth by auto. reflexivity.
  - apply Nat.ltb_ge in L. apply nth_error_None. rewrite map_length, seq_length. auto.
Qed.

Lemma pdom_rounds_spec g exits : forall rows,
  (length rows = g_nodes g) ->
  let rows' := fold_left (pdom_round g) exits rows in
  length rows' = g_nodes g /\
  forall node d, node < g_nodes g ->
    (In d (nth node rows' []) <->
     In d (nth node rows []) /\
     forall e, In e exits -> exists l, exit_post_dominators g e node = Some l /\ In d l).
Proof.
  induction exits as [|e es IH]; cbn; intros rows L.
  - split; auto. intros node d _. split; [|tauto]. intros I. split; auto. intros e [].
  - assert (L' : length (pdom_round g rows e) = g_nodes g).
    { unfold pdom_round. rewrite map_length, seq_length. auto. }
    destruct (IH _ L') as [LL S]. split; auto.
    intros node d Ln. rewrite (S node d Ln).
    assert (Row : nth node (pdom_round g rows e) [] =
                  filter (fun d => memb Nat.eq_dec d
                     (match exit_post_dominators g e node with Some l => l | None => [] end))
                     (nth node rows [])).
    { apply nth_error_nth_list. unfold pdom_round. rewrite nth_error_map_seq.
      apply Nat.ltb_lt in Ln. rewrite Ln. reflexivity. }
    rewrite Row, filter_In, memb_In.
    split.
    + intros [[I M] A]. split; auto. intros e' [<-|I']; auto.
      destruct (exit_post_dominators g e node) as [l|]; [eauto|destruct M].
    + intros [I A]. split; [split; auto|].
      * destruct (A e (or_introl eq_refl)) as (l & -> & J). auto.
      * intros e' I'. apply A. auto.
Qed.

Theorem is_postdominated_by_iff g exits node d :
  node < g_nodes g -> d < g_nodes g ->
  (is_postdominated_by (all_post_dominators g exits) node d = true <->
   forall e, In e exits ->
     (exists l, walk (pred_edge g) node l e) /\ Dom (pred_edge g) node d e).
Proof.
  intros Ln Ld. unfold is_postdominated_by, all_post_dominators.
  set (rows0 := map (fun _ : nat => seq 0 (g_nodes g)) (seq 0 (g_nodes g))).
  assert (L0 : length rows0 = g_nodes g) by (unfold rows0; rewrite map_length, seq_length; auto).
  destruct (pdom_rounds_spec g exits rows0 L0) as [L S].
  destruct (nth_error (fold_left (pdom_round g) exits rows0) node) as [row|] eqn:Er.
  2:{ apply nth_error_None in Er. lia. }
  specialize (S node d Ln). rewrite (nth_error_nth_list _ _ _ Er) in S.
  assert (R0 : nth node rows0 [] = seq 0 (g_nodes g)).
  { apply nth_error_nth_list. unfold rows0. rewrite nth_error_map_seq.
    apply Nat.ltb_lt in Ln. rewrite Ln. auto. }
  rewrite memb_In, S, R0, in_seq. split.
  - intros [_ A] e I. apply exit_post_dominators_iff; auto.
  - intros A. split; [lia|]. intros e I. apply exit_post_dominators_iff; auto.
Qed.

Lemma is_postdominated_by_range g exits node d :
  is_postdominated_by (all_post_dominators g exits) node d = true ->
  node < g_nodes g /\ d < g_nodes g.
Proof.
  unfold is_postdominated_by, all_post_dominators.
  set (rows0 := map (fun _ : nat => seq 0 (g_nodes g)) (seq 0 (g_nodes g))).
  assert (L0 : length rows0 = g_nodes g) by (unfold rows0; rewrite map_length, seq_length; auto).
  destruct (pdom_rounds_spec g exits rows0 L0) as [L S].
  destruct (nth_error (fold_left (pdom_round g) exits rows0) node) as [row|] eqn:Er.
  2: discriminate.
  assert (Ln : node < g_nodes g).
  { rewrite <- L. apply nth_error_Some. congruence. }
  specialize (S node d Ln). rewrite (nth_error_nth_list _ _ _ Er) in S.
  assert (R0 : nth node rows0 [] = seq 0 (g_nodes g)).
  { apply nth_error_nth_list. unfold rows0. rewrite nth_error_map_seq.
    apply Nat.ltb_lt in Ln. rewrite Ln. auto. }
  rewrite memb_In, S, R0, in_seq. intros [I _]. split; auto. lia.
Qed.

(** ** The cleaned graph *)

Lemma keep_block_iff d : keep_block d = true <-> b_cleanup d = false /\ b_term d <> TUnreachable.
Proof.
  unfold keep_block, is_unreachable. rewrite andb_true_iff, !negb_true_iff.
  split; intros [H1 H2]; split; auto.
  - intros E. rewrite E in H2. discriminate.
  - destruct (b_term d); auto; congruence.
Qed.

Definition self_imaginary (bd : body) (b : nat) : Prop :=
  exists d r, nth_error bd b = Some d /\ b_term d = TFalseEdge r b.

Lemma keep_successor_iff bd b :
  keep_successor bd b = true <-> Normal bd b /\ ~ self_imaginary bd b.
Proof.
  unfold keep_successor, Normal, self_imaginary.
  destruct (nth_error bd b) as [d|] eqn:E.
  - rewrite andb_true_iff, keep_block_iff, negb_true_iff. unfold is_imaginary_target. split.
    + intros [K I]. split; [exists d; tauto|]. intros (d' & r & [= <-] & T).
      rewrite T, Nat.eqb_refl in I. discriminate.
    + intros [(d' & [= <-] & K) N]. split; auto.
      destruct (b_term d) eqn:T; auto.
      apply Nat.eqb_neq. intros ->. apply N. eauto.
  - split; [discriminate|]. intros [(d & H & _) _]. discriminate.
Qed.

Lemma targets_iff t b : In b (targets t) <-> Names t b.
Proof.
  split.
  - destruct t as [| |ts|r i|r [u|]|ts]; cbn; intros H; try contradiction; try (constructor; assumption).
    + destruct H as [<-|[<-|[]]]; constructor.
    + destruct H as [<-|[<-|[]]]; constructor.
    + destruct H as [<-|[]]; constructor.
  - intros H. destruct H as [ts b H|ts b H|r i|r i|r [u|]|r u]; cbn; auto.
Qed.

Lemma raw_successors_iff bd a b : In b (raw_successors bd a) <-> Target bd a b.
Proof.
  unfold raw_successors, Target. destruct (nth_error bd a) as [d|] eqn:E.
  - rewrite targets_iff. split; eauto. intros (d' & [= <-] & I). auto.
  - split; [intros []|]. intros (d & H & _). discriminate.
Qed.

Lemma successors_iff bd a b :
  In b (successors bd a) <-> Jump bd a b /\ ~ self_imaginary bd b.
Proof.
  unfold successors, Jump. rewrite filter_In, raw_successors_iff, keep_successor_iff. tauto.
Qed.

Lemma predecessors_iff bd a b :
  In a (predecessors bd b) <-> Target bd a b /\ Normal bd a.
Proof.
  unfold predecessors, raw_predecessors. rewrite !filter_In, memb_In, raw_successors_iff, in_seq.
  unfold Normal. split.
  - intros [[_ H] K]. split; auto. destruct (nth_error bd a) as [d|] eqn:E; [|discriminate].
    apply keep_block_iff in K. exists d. tauto.
  - intros [H (d & E & K)]. rewrite E. split; [split; auto|].
    + assert (a < length bd) by (apply nth_error_Some; congruence). lia.
    + apply keep_block_iff. auto.
Qed.

Lemma WfBody_not_self bd b : WfBody bd -> ~ self_imaginary bd b.
Proof. intros [_ W] (d & r & E & T). exact (W b d r E T). Qed.

Lemma successors_wf bd a b : WfBody bd -> (In b (successors bd a) <-> Jump bd a b).
Proof.
  intros W. rewrite successors_iff. pose proof (WfBody_not_self bd b W). tauto.
Qed.

Lemma Target_lt bd a b : Target bd a b -> a < length bd.
Proof. intros (d & E & _). apply nth_error_Some. congruence. Qed.

Lemma Normal_lt bd a : Normal bd a -> a < length bd.
Proof. intros (d & E & _). apply nth_error_Some. congruence. Qed.

Lemma cleaned_edge_iff bd a b : WfBody bd -> (edge (cleaned_edges bd) a b <-> Jump bd a b).
Proof.
  intros W. unfold edge, cleaned_edges. rewrite edges_of_In, successors_wf by auto.
  split; [tauto|]. intros J. split; auto. destruct J as [T _]. eapply Target_lt; eauto.
Qed.

Lemma walk_iff {T} (R R' : T -> T -> Prop) x l y :
  (forall a b, R a b <-> R' a b) -> (walk R x l y <-> walk R' x l y).
Proof. intros H. split; apply walk_mono; intros a b; apply H. Qed.

Lemma Dom_iff {T} (R R' : T -> T -> Prop) s d n :
  (forall a b, R a b <-> R' a b) -> (Dom R s d n <-> Dom R' s d n).
Proof.
  intros H. unfold Dom. split; intros D l W; apply D; eapply walk_mono; try exact W;
  intros a b; apply H.
Qed.

Theorem dominates_iff bd d n :
  WfBody bd ->
  (dominates bd d n = true <-> (exists l, path bd 0 l n) /\ forall l, path bd 0 l n -> In d l).
Proof.
  intros W. unfold dominates. rewrite andb_true_iff, is_reachable_iff, dom_in_iff.
  pose proof (fun a b => cleaned_edge_iff bd a b W) as F.
  rewrite (Dom_iff _ _ 0 d n F). unfold path, Dom.
  split; intros [[l H] D]; split; auto; exists l; revert H; apply walk_mono; intros a b; apply F.
Qed.

(** Paths that end in a return: forwards and backwards edges agree. *)

Lemma walk_all_normal bd a l b :
  path bd a l b -> Normal bd a -> forall x, In x l -> Normal bd x.
Proof.
  induction 1 as [x|x y l z H W IH]; cbn; intros N w I.
  - destruct I as [<-|[]]. auto.
  - destruct I as [<-|I]; auto. apply IH; auto. apply H.
Qed.

Lemma pred_walk_path bd a l b :
  walk (pred_edge (cleaned bd)) a l b -> Normal bd b -> path bd a l b.
Proof.
  intros W N. induction W as [x|x y l z H W IH]; [constructor|].
  destruct H as [_ H]. cbn in H. apply predecessors_iff in H as [T Nx].
  econstructor; [|apply IH; auto]. split; auto.
  inversion W; subst; auto. destruct H as [_ H]. cbn in H. apply predecessors_iff in H. tauto.
Qed.

Lemma path_pred_walk bd a l b :
  path bd a l b -> Normal bd a -> walk (pred_edge (cleaned bd)) a l b.
Proof.
  intros W. induction W as [x|x y l z H W IH]; intros N; [constructor|].
  destruct H as [T Ny]. econstructor; [|apply IH; auto].
  split.
  - cbn. apply Normal_lt. auto.
  - cbn. apply predecessors_iff. auto.
Qed.

Lemma all_returns_iff bd e : In e (all_returns bd) <-> Returns bd e.
Proof.
  unfold all_returns, Returns. rewrite filter_In, in_seq. split.
  - intros [_ H]. destruct (nth_error bd e) as [d|] eqn:E; [|discriminate].
    destruct (b_term d) eqn:T; try discriminate. eauto.
  - intros (d & E & T). rewrite E, T. split; auto.
    assert (e < length bd) by (apply nth_error_Some; congruence). lia.
Qed.

Theorem post_dominates_iff bd p n :
  ReturnsNormal bd -> Normal bd n -> p < length bd ->
  (post_dominates bd p n = true <->
   forall e, Returns bd e ->
     (exists l, path bd n l e) /\ forall l, path bd n l e -> In p l).
Proof.
  intros RN N Lp. unfold post_dominates.
  rewrite is_postdominated_by_iff by (cbn; auto; apply Normal_lt; auto).
  split; intros H e I.
  - apply all_returns_iff in I as I'. destruct (H e I') as [[l W] D].
    split.
    + exists l. apply pred_walk_path; auto.
    + intros k Wk. apply D. apply path_pred_walk; auto.
  - apply all_returns_iff in I as I'. destruct (H e I') as [[l W] D].
    split.
    + exists l. apply path_pred_walk; auto.
    + intros k Wk. apply D. apply pred_walk_path; auto.
Qed.

Lemma post_dominates_normal bd p n e :
  ReturnsNormal bd -> Returns bd e -> post_dominates bd p n = true -> Normal bd n.
Proof.
  intros RN Re H. unfold post_dominates in H.
  destruct (is_postdominated_by_range _ _ _ _ H) as [Ln Lp].
  rewrite is_postdominated_by_iff in H by auto.
  apply all_returns_iff in Re as I. destruct (H e I) as [[l W] _].
  inversion W; subst; auto.
  destruct H0 as [_ H0]. cbn in H0. apply predecessors_iff in H0. tauto.
Qed.

Lemma post_dominates_lt bd p n : post_dominates bd p n = true -> p < length bd /\ n < length bd.
Proof.
  intros H. apply is_postdominated_by_range in H. cbn in H. tauto.
Qed.

Lemma post_dominates_antisym bd a b :
  ReturnsNormal bd -> (exists e, Returns bd e) ->
  post_dominates bd a b = true -> post_dominates bd b a = true -> a = b.
Proof.
  intros RN [e Re] AB BA.
  pose proof (post_dominates_normal bd a b e RN Re AB) as Nb.
  pose proof (post_dominates_normal bd b a e RN Re BA) as Na.
  rewrite post_dominates_iff in AB by (auto using Normal_lt).
  rewrite post_dominates_iff in BA by (auto using Normal_lt).
  destruct (AB e Re) as [[l1 W1] A]. destruct (BA e Re) as [[l2 W2] B].
  (* dominance in the reversed graph *)
  set (R := fun x y => Jump bd y x).
  assert (A' : Dom R e a b).
  { eapply Dom_rev with (R := Jump bd); [|exact A]. intros x y H. exact H. }
  assert (B' : Dom R e b a).
  { eapply Dom_rev with (R := Jump bd); [|exact B]. intros x y H. exact H. }
  eapply (Dom_antisym Nat.eq_dec R e); eauto.
  exists (rev l1). eapply walk_rev; [|exact W1]. intros x y H. exact H.
Qed.

Lemma walk_single {T} (R : T -> T -> Prop) x a z : walk R x [a] z -> z = x.
Proof. inversion 1; subst; auto. inversion H5. Qed.

(** ** Locations and blocks *)

Lemma loc_eta l : Loc (l_block l) (l_idx l) = l.
Proof. destruct l; auto. Qed.

(** Inside a block. *)
Lemma walk_within bd b d i j :
  nth_error bd b = Some d -> i <= j -> j <= b_stmts d ->
  walk (LocStep bd) (Loc b i) (map (Loc b) (seq i (S j - i))) (Loc b j).
Proof.
  intros E. remember (j - i) as k eqn:Ek. revert i Ek. induction k as [|k IH]; intros i Ek L1 L2.
  - assert (i = j) by lia. subst j. replace (S i - i) with 1 by lia. cbn. constructor.
  - replace (S j - i) with (S (S j - S i)) by lia. cbn [seq map].
    econstructor.
    + eapply step_within; eauto. lia.
    + apply IH; lia.
Qed.

(** A path of blocks gives an execution that visits only these blocks; in the
    last one it stops at index [i], in the first one it starts at index [k]. *)
Lemma path_exec bd a l b :
  path bd a l b ->
  forall k i, ValidLoc bd (Loc b i) -> (l = [a] -> k <= i) ->
  ValidLoc bd (Loc a k) ->
  exists ll, walk (LocStep bd) (Loc a k) ll (Loc b i) /\
    (forall x, In x ll -> In (l_block x) l) /\
    (forall x, In x ll -> l_block x = b ->
       l_idx x <= i \/ In b (removelast l)) /\
    (forall x, In x ll -> l_block x = a -> k <= l_idx x \/ In a (tl l)).
Proof.
  induction 1 as [x|x y l z H W IH]; intros k i Vi Hk Vk.
  - destruct Vi as (d & E & L). cbn in E, L. specialize (Hk eq_refl).
    exists (map (Loc x) (seq k (S i - k))). split; [eapply walk_within; eauto|].
    repeat split; intros w I; apply in_map_iff in I as (j & <- & Ij); apply in_seq in Ij;
      cbn; auto; intros; left; lia.
  - destruct Vk as (dx & Ex & Lx). cbn in Ex, Lx.
    assert (Vy : ValidLoc bd (Loc y 0)).
    { destruct H as [_ (dy & Ey & _)]. exists dy. cbn. split; auto. lia. }
    destruct (IH 0 i Vi) as (ll & Wl & B1 & B2 & B3); auto.
    { intros. lia. }
    exists (map (Loc x) (seq k (S (b_stmts dx) - k)) ++ ll).
    assert (W1 := walk_within bd x dx k (b_stmts dx) Ex Lx (le_n _)).
    split; [|split; [|split]].
    + assert (G : forall p u v q w, walk (LocStep bd) p u v -> LocStep bd v q ->
                  walk (LocStep bd) q w (Loc z i) -> walk (LocStep bd) p (u ++ w) (Loc z i)).
      { clear. intros p u v q w W1 S W2. induction W1; cbn; [econstructor; eauto|].
        econstructor; eauto. }
      eapply G; [exact W1| |exact Wl]. eapply step_jump; eauto.
    + intros w I. apply in_app_or in I as [I|I].
      * apply in_map_iff in I as (j & <- & _). cbn. auto.
      * right. auto.
    + intros w I Ew. apply in_app_or in I as [I|I].
      * right. apply in_map_iff in I as (j & <- & _). cbn in Ew. subst x.
        destruct l; [inversion W|]. cbn. auto.
      * destruct (B2 w I Ew) as [L|J]; auto. right.
        destruct l; [inversion W|]. cbn in *. auto.
    + intros w I Ew. apply in_app_or in I as [I|I].
      * apply in_map_iff in I as (j & <- & Ij). apply in_seq in Ij. cbn. left. lia.
      * right. cbn. rewrite <- Ew. apply B1. auto.
Qed.

(** An execution projects to a path of blocks; it covers every block it leaves
    from the point it entered to the terminator. *)
Lemma exec_path bd p ll q :
  walk (LocStep bd) p ll q ->
  exists l, path bd (l_block p) l (l_block q) /\
    (forall c, In c (removelast (tl l)) ->
       forall j, ValidLoc bd (Loc c j) -> In (Loc c j) ll) /\
    (2 <= length l -> forall j, l_idx p <= j -> ValidLoc bd (Loc (l_block p) j) ->
       In (Loc (l_block p) j) ll) /\
    (2 <= length l -> forall j, j <= l_idx q -> In (Loc (l_block q) j) ll) /\
    (length l = 1 -> l_idx p <= l_idx q /\
       forall j, l_idx p <= j -> j <= l_idx q -> In (Loc (l_block p) j) ll).
Proof.
  induction 1 as [x|x y l z H W IH].
  - exists [l_block x]. split; [constructor|]. cbn. split; [intros c []|].
    split; [intros; lia|]. split; [intros; lia|]. intros _. split; auto.
    intros j L1 L2. replace j with (l_idx x) by lia. rewrite loc_eta. auto.
  - destruct IH as (k & Wk & C & F & L & O).
    inversion H as [b d i E Li|b d c E J]; subst.
    + (* same block *)
      cbn [l_block l_idx] in *. exists k. split; auto.
      split; [intros c Ic j V; right; eauto|].
      split; [|split].
      * intros Lk j Lj V. destruct (Nat.eq_dec i j) as [->|N]; [left; auto|].
        right. apply F; auto. lia.
      * intros Lk j Lj. right. apply L; auto.
      * intros Lk. destruct (O Lk) as [Le A]. split; [lia|].
        intros j Lj1 Lj2. destruct (Nat.eq_dec i j) as [->|N]; [left; auto|].
        right. apply A; auto. lia.
    + cbn [l_block l_idx] in *. exists (b :: k). split; [econstructor; eauto|].
      destruct (walk_head _ _ _ _ Wk) as [r Er].
      split; [|split; [|split]].
      * cbn [tl]. intros c0 Ic j V.
        subst k. destruct r as [|r0 r]; [cbn in Ic; destruct Ic|].
        cbn [removelast] in Ic. destruct Ic as [<-|Ic].
        -- right. apply F; [cbn; lia|lia|auto].
        -- right. apply C; auto.
      * intros _ j Lj (d' & E' & Lj'). cbn in E', Lj'. left. f_equal.
        rewrite E in E'. injection E' as <-. lia.
      * intros _ j Lj. right. destruct (le_lt_dec 2 (length k)) as [G|G].
        -- apply L; auto.
        -- assert (length k = 1) by (subst k; cbn in *; lia).
           destruct (O H0) as [_ A].
           assert (Ez : l_block z = c).
           { subst k. destruct r; cbn in *; [|lia]. exact (walk_single _ _ _ _ Wk). }
           rewrite Ez. apply A; auto. lia.
      * subst k. cbn. intros. lia.
Qed.

Lemma walk_last_eq {T} (R : T -> T -> Prop) x l y : walk R x l y -> exists r, l = r ++ [y].
Proof.
  induction 1 as [x|x y l z H W IH]; [exists []; auto|].
  destruct IH as [r ->]. exists (x :: r). auto.
Qed.

Lemma ReachableLoc_block bd l : ReachableLoc bd l -> exists p, path bd 0 p (l_block l).
Proof. intros [ll W]. apply exec_path in W as (p & Wp & _). cbn in Wp. eauto. Qed.

Theorem ldominates_iff bd A B :
  WfBody bd -> ValidLoc bd A -> ValidLoc bd B -> ReachableLoc bd B ->
  (ldominates bd A B = true <-> AlwaysBefore bd A B).
Proof.
  intros Wf VA VB RB. unfold ldominates, AlwaysBefore, Run.
  assert (V0 : ValidLoc bd (Loc 0 0)).
  { destruct Wf as [(d0 & E0 & _) _]. exists d0. cbn. split; auto. lia. }
  destruct (Nat.eqb_spec (l_block A) (l_block B)) as [E|N].
  - rewrite Nat.leb_le. split.
    + intros L l W. destruct (exec_path _ _ _ _ W) as (p & Wp & _ & _ & Las & One).
      cbn in Wp, One.
      rewrite <- (loc_eta A), E.
      destruct (le_lt_dec 2 (length p)) as [G|G]; [apply Las; auto|].
      assert (L1 : length p = 1).
      { destruct (walk_head _ _ _ _ Wp) as [r ->]. cbn in *. lia. }
      destruct (One L1) as [_ O]. assert (Eb : l_block B = 0).
      { destruct (walk_head _ _ _ _ Wp) as [r ->]. destruct r; cbn in L1; [|lia].
        exact (walk_single _ _ _ _ Wp). }
      rewrite Eb. apply O; lia.
    + intros H. destruct (le_lt_dec (l_idx A) (l_idx B)) as [|G]; auto. exfalso.
      destruct (ReachableLoc_block _ _ RB) as [p Wp].
      destruct (walk_first Nat.eq_dec _ _ _ _ _ Wp (walk_end_In _ _ _ _ Wp)) as (p1 & W1 & N1 & _).
      destruct (path_exec bd _ _ _ W1 0 (l_idx B)) as (ll & Wl & _ & B2 & _); auto.
      { intros. lia. }
      rewrite loc_eta in Wl. specialize (H ll Wl).
      destruct (B2 A H E) as [L|J]; [lia|].
      rewrite removelast_last in J. contradiction.
  - rewrite dominates_iff by auto. split.
    + intros [_ D] l W. destruct (exec_path _ _ _ _ W) as (p & Wp & C & F & Las & One).
      cbn in Wp, F, One. specialize (D p Wp).
      destruct (walk_last_eq _ _ _ _ Wp) as [r Er].
      destruct (walk_head _ _ _ _ Wp) as [h Eh].
      rewrite Er in D. apply in_app_or in D as [D|[D|[]]]; [|congruence].
      destruct r as [|r0 r]; [destruct D|].
      assert (r0 = 0) by (rewrite Er in Eh; cbn in Eh; congruence). subst r0.
      rewrite <- (loc_eta A).
      destruct D as [D|D].
      * rewrite <- D. apply F; [rewrite Er, app_length; cbn; lia|lia|].
        rewrite D, loc_eta. auto.
      * apply C; [|rewrite loc_eta; auto].
        rewrite Er. cbn [app tl]. rewrite removelast_last. auto.
    + intros H. destruct (ReachableLoc_block _ _ RB) as [p Wp]. split; [eauto|].
      intros q Wq. destruct (in_dec Nat.eq_dec (l_block A) q) as [|NI]; auto. exfalso.
      destruct (walk_first Nat.eq_dec _ _ _ _ _ Wq (walk_end_In _ _ _ _ Wq)) as (p1 & W1 & N1 & S1).
      destruct (path_exec bd _ _ _ W1 0 (l_idx B)) as (ll & Wl & B1 & _ & _); auto.
      { intros. lia. }
      rewrite loc_eta in Wl. specialize (H ll Wl).
      apply NI, S1, B1. auto.
Qed.

Lemma ReturnLoc_block bd r : ReturnLoc bd r -> Returns bd (l_block r).
Proof. intros (d & E & T & _). exists d. auto. Qed.

Theorem lpost_dominates_iff bd P N :
  ReturnsNormal bd -> ValidLoc bd P -> ValidLoc bd N -> Normal bd (l_block N) ->
  (exists r, ReturnLoc bd r) ->
  (forall r, ReturnLoc bd r -> exists l, walk (LocStep bd) N l r) ->
  (lpost_dominates bd P N = true <-> AlwaysAfter bd P N).
Proof.
  intros RN VP VN Nn [r0 Hr0] Reach. unfold lpost_dominates, AlwaysAfter.
  destruct (Nat.eqb_spec (l_block P) (l_block N)) as [E|Ne].
  - rewrite Nat.leb_le. split.
    + intros L r l Hr W. destruct (exec_path _ _ _ _ W) as (p & Wp & _ & F & _ & One).
      rewrite <- (loc_eta P), E.
      destruct (le_lt_dec 2 (length p)) as [G|G].
      { apply F; auto. rewrite <- E, loc_eta. auto. }
      assert (L1 : length p = 1).
      { destruct (walk_head _ _ _ _ Wp) as [r1 ->]. cbn in *. lia. }
      destruct (One L1) as [_ O]. apply O; auto.
      assert (Eb : l_block r = l_block N).
      { destruct (walk_head _ _ _ _ Wp) as [r1 ->]. destruct r1; cbn in L1; [|lia].
        exact (walk_single _ _ _ _ Wp). }
      destruct Hr as (d & Ed & _ & Ei). destruct VP as (dp & Ep & Lp).
      rewrite E, <- Eb, Ed in Ep. injection Ep as <-. lia.
    + intros H. destruct (le_lt_dec (l_idx N) (l_idx P)) as [|G]; auto. exfalso.
      destruct (Reach r0 Hr0) as [l0 W0].
      destruct (exec_path _ _ _ _ W0) as (p & Wp & _).
      destruct (walk_last Nat.eq_dec _ _ _ _ _ Wp (walk_start_In _ _ _ _ Wp)) as (p2 & W2 & N2 & _).
      assert (V0 : ValidLoc bd r0).
      { destruct Hr0 as (d & Ed & _ & Ei). exists d. split; auto. lia. }
      destruct (path_exec bd _ _ _ W2 (l_idx N) (l_idx r0)) as (ll & Wl & _ & _ & B3).
      { rewrite loc_eta. auto. }
      { intros Ep. destruct p2; [|discriminate].
        assert (Eb : l_block r0 = l_block N).
        { exact (walk_single _ _ _ _ W2). }
        destruct Hr0 as (d & Ed & _ & Ei). destruct VN as (dn & En & Ln).
        rewrite <- Eb, Ed in En. injection En as <-. lia. }
      { rewrite loc_eta. auto. }
      rewrite !loc_eta in Wl. specialize (H r0 ll Hr0 Wl).
      destruct (B3 P H E) as [L|J]; [lia|]. cbn in J. contradiction.
  - assert (LP : l_block P < length bd).
    { destruct VP as (d & Ed & _). apply nth_error_Some. congruence. }
    rewrite post_dominates_iff by auto. split.
    + intros D r l Hr W. destruct (D _ (ReturnLoc_block _ _ Hr)) as [_ D'].
      destruct (exec_path _ _ _ _ W) as (p & Wp & C & F & Las & One).
      specialize (D' p Wp).
      destruct (walk_head _ _ _ _ Wp) as [h Eh].
      rewrite Eh in D'. destruct D' as [D'|D']; [congruence|].
      destruct (walk_last_eq _ _ _ _ Wp) as [q Eq].
      destruct q as [|q0 q].
      { rewrite Eh in Eq. cbn in Eq. injection Eq as _ ->. destruct D'. }
      assert (Eh' : h = q ++ [l_block r]) by (rewrite Eh in Eq; cbn in Eq; congruence).
      rewrite Eh' in D'.
      rewrite <- (loc_eta P).
      apply in_app_or in D' as [D'|[D'|[]]].
      * apply C; [|rewrite loc_eta; auto]. rewrite Eq. cbn [app tl].
        rewrite removelast_last. auto.
      * rewrite <- D'. apply Las.
        -- rewrite Eq, app_length. cbn. lia.
        -- destruct VP as (d & Ed & Lp). destruct Hr as (dr & Er & _ & Ei).
           rewrite <- D', Er in Ed. injection Ed as <-. lia.
    + intros H e He. destruct He as (d & Ed & Td).
      assert (Hr : ReturnLoc bd (Loc e (b_stmts d))) by (exists d; cbn; auto).
      split.
      * destruct (Reach _ Hr) as [l W]. apply exec_path in W as (p & Wp & _). cbn in Wp. eauto.
      * intros q Wq. destruct (in_dec Nat.eq_dec (l_block P) q) as [|NI]; auto. exfalso.
        destruct (walk_last Nat.eq_dec _ _ _ _ _ Wq (walk_start_In _ _ _ _ Wq)) as (p2 & W2 & N2 & S2).
        destruct (path_exec bd _ _ _ W2 (l_idx N) (b_stmts d)) as (ll & Wl & B1 & _ & _).
        { exists d. cbn. auto. }
        { intros Ep. destruct p2; [|discriminate].
          assert (Eb : e = l_block N).
          { exact (walk_single _ _ _ _ W2). }
          destruct VN as (dn & En & Ln). rewrite <- Eb, Ed in En. injection En as <-. lia. }
        { rewrite loc_eta. auto. }
        rewrite loc_eta in Wl. specialize (H _ ll Hr Wl).
        apply NI, S2, B1. auto.
Qed.

(** ** Order laws of location dominance *)

Lemma AlwaysBefore_Dom bd A B : AlwaysBefore bd A B <-> Dom (LocStep bd) (Loc 0 0) A B.
Proof. reflexivity. Qed.

Lemma ValidLoc_start bd : WfBody bd -> ValidLoc bd (Loc 0 0).
Proof. intros [(d0 & E0 & _) _]. exists d0. cbn. split; auto. lia. Qed.

Lemma LocStep_valid bd p q : LocStep bd p q -> ValidLoc bd q.
Proof.
  inversion 1 as [b d i E L|b d c E [_ (dc & Ec & _)]]; subst.
  - exists d. cbn. split; auto.
  - exists dc. cbn. split; auto. lia.
Qed.

Lemma walk_valid bd p l q :
  walk (LocStep bd) p l q -> ValidLoc bd p -> forall x, In x l -> ValidLoc bd x.
Proof.
  induction 1 as [x|x y l z H W IH]; cbn; intros V w I.
  - destruct I as [<-|[]]; auto.
  - destruct I as [<-|I]; auto. apply IH; auto. eapply LocStep_valid; eauto.
Qed.

Lemma ReachableLoc_valid bd l : WfBody bd -> ReachableLoc bd l -> ValidLoc bd l.
Proof.
  intros Wf [p W]. eapply walk_valid; [exact W|apply ValidLoc_start; auto|].
  eapply walk_end_In; eauto.
Qed.

Lemma AlwaysBefore_reachable bd A B :
  AlwaysBefore bd A B -> ReachableLoc bd B -> ReachableLoc bd A.
Proof.
  intros D [l W]. destruct (walk_split _ _ _ _ _ W (D l W)) as (l1 & _ & W1 & _). exists l1. auto.
Qed.

Lemma ldominates_refl bd A : ldominates bd A A = true.
Proof. unfold ldominates. rewrite Nat.eqb_refl. apply Nat.leb_refl. Qed.

Lemma ldominates_antisym bd A B :
  WfBody bd -> ReachableLoc bd A -> ReachableLoc bd B ->
  ldominates bd A B = true -> ldominates bd B A = true -> A = B.
Proof.
  intros Wf RA RB H1 H2.
  apply ldominates_iff in H1; auto using ReachableLoc_valid.
  apply ldominates_iff in H2; auto using ReachableLoc_valid.
  exact (Dom_antisym loc_eqd _ _ A B RB H1 H2).
Qed.

Lemma ldominates_trans bd A B C :
  WfBody bd -> ValidLoc bd A -> ValidLoc bd B -> ReachableLoc bd C ->
  ldominates bd A B = true -> ldominates bd B C = true -> ldominates bd A C = true.
Proof.
  intros Wf VA VB RC H1 H2.
  assert (VC := ReachableLoc_valid _ _ Wf RC).
  apply ldominates_iff in H2; auto.
  assert (RB := AlwaysBefore_reachable _ _ _ H2 RC).
  apply ldominates_iff in H1; auto.
  apply ldominates_iff; auto. exact (Dom_trans _ _ A B C H1 H2).
Qed.

Lemma ldominates_chain bd A B C :
  WfBody bd -> ValidLoc bd A -> ValidLoc bd B -> ReachableLoc bd C ->
  ldominates bd A C = true -> ldominates bd B C = true ->
  ldominates bd A B = true \/ ldominates bd B A = true.
Proof.
  intros Wf VA VB RC H1 H2.
  assert (VC := ReachableLoc_valid _ _ Wf RC).
  apply ldominates_iff in H1; auto. apply ldominates_iff in H2; auto.
  destruct (Dom_linear loc_eqd _ _ A B C RC H1 H2) as [D|D].
  - left. apply ldominates_iff; auto. exact (AlwaysBefore_reachable _ _ _ H2 RC).
  - right. apply ldominates_iff; auto. exact (AlwaysBefore_reachable _ _ _ H1 RC).
Qed.

(** ** Sorting *)

Lemma insert_nat_perm x l : Permutation (x :: l) (insert_nat x l).
Proof.
  induction l as [|y r IH]; cbn; auto.
  destruct (x <=? y); auto. rewrite perm_swap. constructor. auto.
Qed.

Lemma sort_nat_perm l : Permutation l (sort_nat l).
Proof.
  induction l as [|x r IH]; cbn; auto. rewrite <- insert_nat_perm. constructor. auto.
Qed.

Lemma insert_nat_sorted x l : Sorted le l -> Sorted le (insert_nat x l).
Proof.
  induction 1 as [|y r S IH H]; cbn; [repeat constructor|].
  destruct (Nat.leb_spec x y) as [L|L]; [repeat constructor; auto|].
  constructor; auto.
  destruct r as [|z r]; cbn; [constructor; lia|].
  inversion H; subst. destruct (x <=? z); constructor; lia.
Qed.

Lemma sort_nat_sorted l : Sorted le (sort_nat l).
Proof. induction l as [|x r IH]; cbn; [constructor|]. apply insert_nat_sorted. auto. Qed.

Lemma sort_nat_In l x : In x (sort_nat l) <-> In x l.
Proof.
  split; apply Permutation_in; [apply Permutation_sym|]; apply sort_nat_perm.
Qed.

Lemma sorted_first (x : nat) r : Sorted le (x :: r) -> forall y, In y (x :: r) -> x <= y.
Proof.
  intros S. apply Sorted_StronglySorted in S; [|intros a b c; lia].
  inversion S as [|? ? _ F]; subst. intros y [<-|I]; auto.
  rewrite Forall_forall in F. auto.
Qed.

Lemma sorted_snoc l (y : nat) : Sorted le (l ++ [y]) -> forall x, In x (l ++ [y]) -> x <= y.
Proof.
  intros S. apply Sorted_StronglySorted in S; [|intros a b c; lia].
  induction l as [|a l IH]; cbn in *.
  - intros x [<-|[]]. auto.
  - inversion S as [|? ? S' F]; subst. intros x [<-|I]; auto.
    rewrite Forall_forall in F. apply F. apply in_or_app. right. cbn. auto.
Qed.

Lemma sorted_last (vs : list nat) i r :
  Sorted le vs -> rev vs = i :: r -> In i vs /\ forall x, In x vs -> x <= i.
Proof.
  intros S E. assert (E' : vs = rev r ++ [i]).
  { rewrite <- (rev_involutive vs), E. reflexivity. }
  split.
  - apply in_rev. rewrite E. cbn. auto.
  - rewrite E' in *. apply sorted_snoc. auto.
Qed.

(** ** Grouping locations by block *)

Definition listed (m : list (nat * list nat)) (l : loc) : Prop :=
  exists is, aget Nat.eq_dec m (l_block l) = Some is /\ In (l_idx l) is.

Lemma group_loc_listed bd m l x :
  listed (group_loc bd m l) x <->
  listed m x \/ (x = l /\ is_block_unreachable bd (l_block l) = false).
Proof.
  unfold group_loc, listed. destruct (is_block_unreachable bd (l_block l)) eqn:U.
  - split; [auto|]. intros [H|[_ H]]; [auto|discriminate].
  - rewrite aget_aset.
    destruct (Nat.eq_dec (l_block x) (l_block l)) as [E|N].
    + split.
      * intros (is & [= <-] & I). apply in_app_or in I as [I|[I|[]]].
        -- left. rewrite E. destruct (aget Nat.eq_dec m (l_block l)) as [s|]; [eauto|destruct I].
        -- right. split; auto. rewrite <- (loc_eta x), <- (loc_eta l). congruence.
      * intros [(is & G & I)|[-> _]].
        -- rewrite E in G. rewrite G. eexists. split; [reflexivity|]. apply in_or_app; auto.
        -- eexists. split; [reflexivity|]. apply in_or_app; right; cbn; auto.
    + split; [auto|]. intros [H|[-> _]]; [auto|congruence].
Qed.

Definition nonempty_rows (m : list (nat * list nat)) : Prop :=
  forall b is, In (b, is) m -> is <> [].

Lemma In_aset_inv {V} (m : list (nat * V)) k v b w :
  In (b, w) (aset Nat.eq_dec m k v) -> (b = k /\ w = v) \/ In (b, w) m.
Proof.
  induction m as [|[k0 v0] r IH]; cbn.
  - intros [H|[]]. injection H as -> ->. auto.
  - destruct (Nat.eq_dec k k0) as [->|N]; cbn.
    + intros [H|H]; auto. injection H as -> ->. auto.
    + intros [H|H]; auto. apply IH in H. tauto.
Qed.

Lemma group_fold bd locs : forall m,
  NoDup (akeys m) -> nonempty_rows m ->
  let m' := fold_left (group_loc bd) locs m in
  NoDup (akeys m') /\ nonempty_rows m' /\
  forall x, listed m' x <->
    listed m x \/ (In x locs /\ is_block_unreachable bd (l_block x) = false).
Proof.
  induction locs as [|l ls IH]; cbn; intros m ND NE.
  - split; auto. split; auto. intros x. tauto.
  - assert (ND' : NoDup (akeys (group_loc bd m l))).
    { unfold group_loc. destruct (is_block_unreachable bd (l_block l)); auto.
      apply NoDup_aset. auto. }
    assert (NE' : nonempty_rows (group_loc bd m l)).
    { unfold group_loc. destruct (is_block_unreachable bd (l_block l)); auto.
      intros b is I. apply In_aset_inv in I as [[-> ->]|I]; [|eapply NE; eauto].
      intros C. apply app_eq_nil in C as [_ C]. discriminate. }
    destruct (IH _ ND' NE') as (A & B & C). split; auto. split; auto.
    intros x. rewrite C, group_loc_listed. split.
    + intros [[H|[-> H]]|[H1 H2]]; auto.
    + intros [H|[[->|H1] H2]]; auto.
Qed.

Lemma map_sort_keys (m : list (nat * list nat)) :
  akeys (map (fun e => (fst e, sort_nat (snd e))) m) = akeys m.
Proof. unfold akeys. rewrite map_map. reflexivity. Qed.

Lemma In_aget_iff (m : list (nat * list nat)) b is :
  NoDup (akeys m) -> (In (b, is) m <-> aget Nat.eq_dec m b = Some is).
Proof.
  induction m as [|[k v] r IH]; cbn; intros ND; [split; [intros []|discriminate]|].
  inversion ND as [|? ? NI ND']; subst.
  destruct (Nat.eq_dec b k) as [->|N].
  - split.
    + intros [H|H]; [congruence|]. exfalso. apply NI. apply in_map_iff. exists (k, is). auto.
    + intros [= ->]. auto.
  - rewrite <- IH by auto. split; auto. intros [H|H]; auto. congruence.
Qed.

Lemma values_listed m l :
  NoDup (akeys (locations m)) -> (In l (values m) <-> listed (locations m) l).
Proof.
  intros ND. unfold values, listed. rewrite in_flat_map. split.
  - intros ((b & is) & I & J). cbn in J. apply in_map_iff in J as (i & <- & Ii). cbn.
    exists is. split; auto. apply In_aget_iff; auto.
  - intros (is & G & I). exists (l_block l, is). split; [apply In_aget_iff; auto|].
    cbn. apply in_map_iff. exists (l_idx l). rewrite loc_eta. auto.
Qed.

(** What is known of the produced value, apart from entry and exit. *)
Lemma is_false_location_iff bd l d :
  nth_error bd (l_block l) = Some d ->
  (is_false_location bd l = true <->
   b_stmts d = 0 /\
   ((exists r i, b_term d = TFalseEdge r i) \/ (exists r u, b_term d = TFalseUnwind r u))).
Proof.
  intros E. unfold is_false_location. rewrite E, andb_true_iff, Nat.eqb_eq.
  destruct (b_term d) eqn:T; split; intros [H1 H2]; split; auto; try discriminate;
    try (destruct H2 as [(r & i & H2)|(r & u & H2)]; discriminate); eauto.
Qed.

Lemma get_mir_locations_shape bd ord locs m :
  (forall l, In l locs -> ValidLoc bd l) ->
  get_mir_locations bd ord locs = Some m ->
  NoDup (akeys (locations m)) /\
  (forall b is, In (b, is) (locations m) -> is <> [] /\ Sorted le is) /\
  (forall l, In l (values m) <-> In l locs /\ Operational bd l) /\
  entry_block m = find_entry bd (ord (akeys (locations m))) /\
  exit_block m = find_exit bd (ord (akeys (locations m))).
Proof.
  intros V H. unfold get_mir_locations in H. destruct locs as [|l0 ls]; [discriminate|].
  set (locs := l0 :: ls) in *.
  set (m0 := fold_left (group_loc bd)
               (filter (fun l => negb (is_false_location bd l)) locs) []) in H.
  destruct (group_fold bd (filter (fun l => negb (is_false_location bd l)) locs) [])
    as (ND & NE & L).
  { constructor. }
  { intros b is []. }
  fold m0 in ND, NE, L.
  injection H as <-. cbn [locations entry_block exit_block].
  rewrite map_sort_keys. split; auto. split; [|split].
  - intros b is I. apply in_map_iff in I as ([b' is'] & E & I). cbn in E. injection E as -> <-.
    split; [|apply sort_nat_sorted].
    intros C. apply (NE b is' I).
    apply Permutation_nil. rewrite <- C. apply Permutation_sym, sort_nat_perm.
  - intros l. rewrite values_listed by (cbn [locations]; rewrite map_sort_keys; auto). cbn [locations].
    transitivity (listed m0 l).
    + unfold listed. split.
      * intros (is & G & I). apply In_aget_iff in G; [|rewrite map_sort_keys; auto].
        apply in_map_iff in G as ([b is'] & E & G). cbn in E. injection E as E1 E2.
        exists is'. split; [apply In_aget_iff; auto; congruence|]. subst is.
        apply -> sort_nat_In in I. auto.
      * intros (is & G & I). exists (sort_nat is). split; [|apply sort_nat_In; auto].
        apply In_aget_iff; [rewrite map_sort_keys; auto|]. apply in_map_iff.
        exists (l_block l, is). split; auto. apply In_aget_iff; auto.
    + rewrite L, filter_In, negb_true_iff. unfold Operational. split.
      * intros [(is & G & _)|[[I F] U]]; [discriminate|]. split; auto.
        destruct (V l I) as (d & E & _). exists d. split; auto.
        unfold is_block_unreachable, is_unreachable in U. rewrite E in U. split.
        -- intros C. rewrite C in U. discriminate.
        -- intros C. apply (is_false_location_iff bd l d E) in C. congruence.
      * intros [I (d & E & U & F)]. right. split; [split; auto|].
        -- apply not_true_is_false. intros C. apply F. apply (is_false_location_iff bd l d E). auto.
        -- unfold is_block_unreachable, is_unreachable. rewrite E.
           destruct (b_term d); auto; congruence.
  - auto.
Qed.

Lemma akeys_values m b :
  NoDup (akeys (locations m)) ->
  (forall b is, In (b, is) (locations m) -> is <> [] /\ Sorted le is) ->
  (In b (akeys (locations m)) <-> exists i, In (Loc b i) (values m)).
Proof.
  intros ND NE. unfold akeys. rewrite in_map_iff. split.
  - intros ([b' is] & <- & I). destruct (NE _ _ I) as [Ne _]. destruct is as [|i r]; [congruence|].
    exists i. apply in_flat_map. exists (b', i :: r). cbn. auto.
  - intros [i I]. apply in_flat_map in I as ([b' is] & I & J). cbn in J.
    apply in_map_iff in J as (j & E & _). injection E as -> _. exists (b, is). auto.
Qed.

Lemma find_Some_iff {T} (f : T -> bool) l :
  (exists x, find f l = Some x) <-> exists x, In x l /\ f x = true.
Proof.
  split.
  - intros [x H]. apply find_some in H. eauto.
  - intros (x & I & F). destruct (find f l) as [y|] eqn:E; [eauto|].
    rewrite (find_none _ _ E _ I) in F. discriminate.
Qed.

Lemma dominates_antisym bd a b :
  WfBody bd -> dominates bd a b = true -> dominates bd b a = true -> a = b.
Proof.
  intros Wf H1 H2. apply dominates_iff in H1 as [R1 D1]; auto.
  apply dominates_iff in H2 as [R2 D2]; auto.
  exact (Dom_antisym Nat.eq_dec _ _ a b R1 D1 D2).
Qed.

(** An execution can follow any path of blocks. *)
Lemma path_reach_loc bd b i p :
  WfBody bd -> ValidLoc bd (Loc b i) -> path bd 0 p b -> ReachableLoc bd (Loc b i).
Proof.
  intros Wf V W. destruct (path_exec bd _ _ _ W 0 i) as (ll & Wl & _); auto.
  - intros. lia.
  - apply ValidLoc_start. auto.
  - exists ll. auto.
Qed.

Theorem entry_location_iff bd ord locs m e :
  WfBody bd -> Order ord -> (forall l, In l locs -> ValidLoc bd l) ->
  get_mir_locations bd ord locs = Some m ->
  (entry_location m = Some e <-> EntryOf bd (values m) e).
Proof.
  intros Wf O V G.
  destruct (get_mir_locations_shape bd ord locs m V G) as (ND & NE & Vals & Eb & _).
  assert (VV : forall l, In l (values m) -> ValidLoc bd l).
  { intros l I. apply Vals in I as [I _]. auto. }
  assert (Keys : forall b, In b (ord (akeys (locations m))) <-> exists i, In (Loc b i) (values m)).
  { intros b. rewrite (O (akeys (locations m)) b). apply akeys_values; auto. }
  set (bbs := ord (akeys (locations m))) in *.
  unfold entry_location. rewrite Eb. unfold find_entry. split.
  - destruct (find _ bbs) as [b|] eqn:F; [|discriminate].
    apply find_some in F as [Ib All]. rewrite forallb_forall in All.
    destruct (aget Nat.eq_dec (locations m) b) as [is|] eqn:A; [|discriminate].
    destruct is as [|i r]; [discriminate|]. intros [= <-].
    assert (Irow : In (b, i :: r) (locations m)) by (apply In_aget_iff; auto).
    destruct (NE _ _ Irow) as [_ Srt].
    assert (Iv : In (Loc b i) (values m)).
    { apply in_flat_map. exists (b, i :: r). cbn. auto. }
    split; auto. intros l Il.
    assert (Ib' : In (l_block l) bbs).
    { apply Keys. exists (l_idx l). rewrite loc_eta. auto. }
    pose proof (All _ Ib') as D. apply dominates_iff in D as [[p Wp] D]; auto.
    assert (Rl : ReachableLoc bd l).
    { rewrite <- (loc_eta l). eapply path_reach_loc; eauto. rewrite loc_eta. auto. }
    split; auto.
    apply ldominates_iff; auto. unfold ldominates. cbn [l_block l_idx].
    destruct (Nat.eqb_spec b (l_block l)) as [E|N].
    + apply Nat.leb_le. apply values_listed in Il; auto. destruct Il as (is & A' & J).
      rewrite <- E in A'. rewrite A in A'. injection A' as <-.
      eapply sorted_first; eauto.
    + auto.
  - intros [Ie All].
    assert (Dm : forall l, In l (values m) -> dominates bd (l_block e) (l_block l) = true).
    { intros l Il. destruct (All l Il) as [Rl Be].
      destruct (ReachableLoc_block _ _ Rl) as [p Wp].
      apply (ldominates_iff bd e l Wf (VV _ Ie) (VV _ Il) Rl) in Be.
      unfold ldominates in Be. destruct (Nat.eqb_spec (l_block e) (l_block l)) as [E|N]; auto.
      rewrite E. apply dominates_iff; auto. split; [eauto|]. intros q Wq.
      eapply walk_end_In; eauto. }
    assert (Fx : exists b, find (fun c => forallb (fun b => dominates bd c b) bbs) bbs = Some b).
    { apply find_Some_iff. exists (l_block e). split.
      - apply Keys. exists (l_idx e). rewrite loc_eta. auto.
      - apply forallb_forall. intros b Ib. apply Keys in Ib as [i Ii]. apply (Dm _ Ii). }
    destruct Fx as [b F]. rewrite F. apply find_some in F as [Ib Fb].
    rewrite forallb_forall in Fb.
    assert (b = l_block e).
    { apply (dominates_antisym bd); auto.
      - apply Fb. apply Keys. exists (l_idx e). rewrite loc_eta. auto.
      - apply Keys in Ib as [i Ii]. apply (Dm _ Ii). }
    subst b. pose proof Ie as Le. apply values_listed in Le; auto. destruct Le as (is & A & J).
    rewrite A. destruct is as [|i r]; [destruct J|]. f_equal.
    assert (Irow : In (l_block e, i :: r) (locations m)) by (apply In_aget_iff; auto).
    assert (Ii : In (Loc (l_block e) i) (values m)).
    { apply in_flat_map. exists (l_block e, i :: r). cbn. auto. }
    destruct (NE _ _ Irow) as [_ Srt]. pose proof (sorted_first _ _ Srt _ J) as L1.
    destruct (All _ Ii) as [Ri Be].
    apply (ldominates_iff bd e _ Wf (VV _ Ie) (VV _ Ii) Ri) in Be.
    unfold ldominates in Be. cbn in Be. rewrite Nat.eqb_refl in Be. apply Nat.leb_le in Be.
    rewrite <- (loc_eta e) at 2. f_equal. lia.
Qed.

(** Executions to a return follow paths to the return block and conversely. *)
Lemma path_reach_return bd l e d :
  ValidLoc bd l -> nth_error bd e = Some d -> (exists p, path bd (l_block l) p e) ->
  exists p, walk (LocStep bd) l p (Loc e (b_stmts d)).
Proof.
  intros V E [p W].
  destruct (walk_last Nat.eq_dec _ _ _ _ _ W (walk_start_In _ _ _ _ W)) as (p2 & W2 & N2 & _).
  destruct (path_exec bd _ _ _ W2 (l_idx l) (b_stmts d)) as (ll & Wl & _).
  - exists d. cbn. auto.
  - intros Ep. injection Ep as ->.
    assert (Eb : e = l_block l) by exact (walk_single _ _ _ _ W2).
    destruct V as (dn & En & Ln). rewrite <- Eb, E in En. injection En as <-. lia.
  - rewrite loc_eta. auto.
  - rewrite loc_eta in Wl. eauto.
Qed.

Theorem exit_location_iff bd ord locs m e :
  ReturnsNormal bd -> (exists r, Returns bd r) -> Order ord ->
  (forall l, In l locs -> ValidLoc bd l) ->
  (forall l d, In l locs -> nth_error bd (l_block l) = Some d -> b_cleanup d = false) ->
  get_mir_locations bd ord locs = Some m ->
  (exit_location m = Some e <-> ExitOf bd (values m) e).
Proof.
  intros RN [r0 Hr0] O V NC G.
  destruct (get_mir_locations_shape bd ord locs m V G) as (ND & NE & Vals & _ & Eb).
  assert (VV : forall l, In l (values m) -> ValidLoc bd l).
  { intros l I. apply Vals in I as [I _]. auto. }
  assert (VN : forall l, In l (values m) -> Normal bd (l_block l)).
  { intros l I. apply Vals in I as [I (d & E & U & _)]. exists d. eauto. }
  assert (Keys : forall b, In b (ord (akeys (locations m))) <-> exists i, In (Loc b i) (values m)).
  { intros b. rewrite (O (akeys (locations m)) b). apply akeys_values; auto. }
  assert (RL : exists r, ReturnLoc bd r).
  { destruct Hr0 as (d & E & T). exists (Loc r0 (b_stmts d)). exists d. cbn. auto. }
  set (bbs := ord (akeys (locations m))) in *.
  unfold exit_location. rewrite Eb. unfold find_exit. split.
  - destruct (find _ bbs) as [b|] eqn:F; [|discriminate].
    apply find_some in F as [Ib All]. rewrite forallb_forall in All.
    destruct (aget Nat.eq_dec (locations m) b) as [is|] eqn:A.
    2:{ exfalso. apply Keys in Ib as [i Ii]. apply values_listed in Ii; auto.
        destruct Ii as (is & A' & _). cbn in A'. congruence. }
    destruct (rev is) as [|i r] eqn:Rv; [discriminate|]. intros [= <-].
    assert (Irow : In (b, is) (locations m)) by (apply In_aget_iff; auto).
    destruct (NE _ _ Irow) as [_ Srt].
    destruct (sorted_last _ _ _ Srt Rv) as [Ii Mx].
    assert (Iv : In (Loc b i) (values m)).
    { apply in_flat_map. exists (b, is). split; auto. cbn. apply in_map_iff. eauto. }
    split; auto. intros l Il.
    assert (Ib' : In (l_block l) bbs).
    { apply Keys. exists (l_idx l). rewrite loc_eta. auto. }
    pose proof (All _ Ib') as D.
    pose proof (post_dominates_lt _ _ _ D) as [Lb _].
    pose proof D as D'. rewrite post_dominates_iff in D' by auto.
    assert (Rch : forall r1, ReturnLoc bd r1 -> exists p, walk (LocStep bd) l p r1).
    { intros r1 (d & E & T & Ei). rewrite <- (loc_eta r1), Ei.
      apply path_reach_return; auto. apply D'. exists d. auto. }
    split; auto.
    apply lpost_dominates_iff; auto. unfold lpost_dominates. cbn [l_block l_idx].
    destruct (Nat.eqb_spec b (l_block l)) as [E|N]; auto.
    apply Nat.leb_le. apply values_listed in Il; auto. destruct Il as (is' & A' & J).
    rewrite <- E, A in A'. injection A' as <-. auto.
  - intros [Ie All].
    assert (Dm : forall l, In l (values m) -> post_dominates bd (l_block e) (l_block l) = true).
    { intros l Il. destruct (All l Il) as [Rl Af].
      assert (Lp : lpost_dominates bd e l = true) by (apply lpost_dominates_iff; auto).
      unfold lpost_dominates in Lp.
      destruct (Nat.eqb_spec (l_block e) (l_block l)) as [E|N]; auto.
      rewrite E. apply post_dominates_iff; auto.
      { apply Normal_lt. auto. }
      intros r (d & Ed & T).
      assert (HR : ReturnLoc bd (Loc r (b_stmts d))) by (exists d; cbn; auto).
      split.
      - destruct (Rl _ HR) as [p W]. apply exec_path in W as (q & Wq & _). cbn in Wq. eauto.
      - intros q Wq. eapply walk_start_In; eauto. }
    assert (Fx : exists b, find (fun c => forallb (fun b => post_dominates bd c b) bbs) bbs = Some b).
    { apply find_Some_iff. exists (l_block e). split.
      - apply Keys. exists (l_idx e). rewrite loc_eta. auto.
      - apply forallb_forall. intros b Ib. apply Keys in Ib as [i Ii]. apply (Dm _ Ii). }
    destruct Fx as [b F]. rewrite F. apply find_some in F as [Ib Fb].
    rewrite forallb_forall in Fb.
    assert (b = l_block e).
    { apply (post_dominates_antisym bd); eauto.
      - apply Fb. apply Keys. exists (l_idx e). rewrite loc_eta. auto.
      - apply Keys in Ib as [i Ii]. apply (Dm _ Ii). }
    subst b. pose proof Ie as Le. apply values_listed in Le; auto. destruct Le as (is & A & J).
    rewrite A. destruct (rev is) as [|i r] eqn:Rv.
    { apply (f_equal (@rev nat)) in Rv. rewrite rev_involutive in Rv. subst is. destruct J. }
    f_equal.
    assert (Irow : In (l_block e, is) (locations m)) by (apply In_aget_iff; auto).
    destruct (NE _ _ Irow) as [_ Srt]. destruct (sorted_last _ _ _ Srt Rv) as [Ii Mx].
    assert (Iv : In (Loc (l_block e) i) (values m)).
    { apply in_flat_map. exists (l_block e, is). split; auto. cbn. apply in_map_iff. eauto. }
    pose proof (Mx _ J) as L1.
    destruct (All _ Iv) as [Ri Af].
    assert (Lp : lpost_dominates bd e (Loc (l_block e) i) = true).
    { apply lpost_dominates_iff; auto. }
    unfold lpost_dominates in Lp. cbn in Lp. rewrite Nat.eqb_refl in Lp. apply Nat.leb_le in Lp.
    rewrite <- (loc_eta e) at 2. f_equal. lia.
Qed.

(** ** The locations gathered for a source node *)

Lemma record_fold hir_of ls : forall m h,
  let get m := match aget Nat.eq_dec m h with Some s => s | None => [] end in
  forall l, In l (get (fold_left (record_loc hir_of) ls m)) <->
            In l (get m) \/ (In l ls /\ hir_of l = h).
Proof.
  induction ls as [|x ls IH]; cbn; intros m h l.
  - tauto.
  - rewrite IH. unfold record_loc. rewrite aget_aset.
    destruct (Nat.eq_dec h (hir_of x)) as [->|N].
    + set (old := match aget Nat.eq_dec m (hir_of x) with Some s => s | None => [] end).
      destruct (in_dec loc_eqd x old) as [I|I].
      * split; [tauto|]. intros [H|[[->|H] E]]; auto.
      * rewrite in_app_iff. cbn. split.
        -- intros [[H|[->|[]]]|[H E]]; auto.
        -- intros [H|[[->|H] E]]; auto.
    + split; [tauto|]. intros [H|[[->|H] E]]; auto. congruence.
Qed.

Lemma record_fold_keys hir_of ls : forall m,
  NoDup (akeys m) -> NoDup (akeys (fold_left (record_loc hir_of) ls m)).
Proof.
  induction ls as [|x ls IH]; cbn; intros m ND; auto.
  apply IH. unfold record_loc. apply NoDup_aset. auto.
Qed.

Lemma block_locs_In bd b l :
  In l (block_locs bd b) <-> l_block l = b /\ ValidLoc bd l.
Proof.
  unfold block_locs, ValidLoc. destruct (nth_error bd b) as [d|] eqn:E.
  - split.
    + intros I. apply in_map_iff in I as (i & <- & Ii). apply in_seq in Ii. cbn. split; auto.
      exists d. split; auto. lia.
    + intros [<- (d' & E' & L)]. rewrite E in E'. injection E' as <-.
      apply in_map_iff. exists (l_idx l). rewrite loc_eta. split; auto. apply in_seq. lia.
  - split; [intros []|]. intros [<- (d & E' & _)]. congruence.
Qed.

Lemma gather_iff bd ic hir_of h l :
  In l (match aget Nat.eq_dec (gather bd ic hir_of) h with Some s => s | None => [] end) <->
  Gathered bd ic l /\ hir_of l = h.
Proof.
  unfold gather. rewrite record_fold. cbn [aget]. rewrite in_flat_map. unfold Gathered.
  split.
  - intros [[]|[(b & Ib & Il) E]]. apply filter_In in Ib as [_ Vb].
    apply block_locs_In in Il as [Eb V]. split; auto. split; auto.
    intros -> d Ed. unfold visited_block in Vb. rewrite <- Eb, Ed in Vb.
    apply negb_true_iff in Vb. auto.
  - intros [[V C] E]. right. split; auto. exists (l_block l).
    destruct V as (d & Ed & L). split; [|apply block_locs_In; split; auto; exists d; auto].
    apply filter_In. split.
    + apply in_seq. assert (l_block l < length bd) by (apply nth_error_Some; congruence). lia.
    + unfold visited_block. rewrite Ed. destruct ic; auto. rewrite (C eq_refl d Ed). auto.
Qed.

Lemma node_locations_iff bd ic hir_of anc h dp l :
  In l (node_locations (gather bd ic hir_of) anc h dp) <->
  Gathered bd ic l /\
  (hir_of l = h \/ (dp = Nested /\ In h (anc (hir_of l)))).
Proof.
  unfold node_locations. destruct dp.
  - rewrite gather_iff. split; intros [H1 H2]; split; auto. destruct H2 as [H2|[H2 _]]; auto.
    discriminate.
  - rewrite nodup_In, in_app_iff, gather_iff, in_flat_map.
    assert (ND : NoDup (akeys (gather bd ic hir_of))).
    { apply record_fold_keys. constructor. }
    assert (P : forall k s, In (k, s) (gather bd ic hir_of) -> aget Nat.eq_dec (gather bd ic hir_of) k = Some s).
    { clear - ND. induction (gather bd ic hir_of) as [|[k0 v0] r IH]; cbn; intros k s I; [destruct I|].
      cbn in ND. inversion ND as [|? ? NI ND']; subst.
      destruct (Nat.eq_dec k k0) as [->|N].
      - destruct I as [I|I]; [congruence|]. exfalso. apply NI. apply in_map_iff. exists (k0, s). auto.
      - destruct I as [I|I]; [congruence|]. auto. }
    assert (Q : forall k s, aget Nat.eq_dec (gather bd ic hir_of) k = Some s -> In (k, s) (gather bd ic hir_of)).
    { clear. induction (gather bd ic hir_of) as [|[k0 v0] r IH]; cbn; intros k s H; [discriminate|].
      destruct (Nat.eq_dec k k0) as [->|N]; [injection H as ->; auto|auto]. }
    split.
    + intros [[G E]|((k & s) & I & J)]; [auto|]. cbn in J.
      destruct (memb Nat.eq_dec h (anc k)) eqn:M; [|destruct J]. apply memb_In in M.
      pose proof (proj1 (gather_iff bd ic hir_of k l)) as GI. rewrite (P _ _ I) in GI.
      destruct (GI J) as [G <-]. split; auto.
    + intros [G [E|[_ M]]]; [auto|]. right.
      pose proof (proj2 (gather_iff bd ic hir_of (hir_of l) l) (conj G eq_refl)) as I.
      destruct (aget Nat.eq_dec (gather bd ic hir_of) (hir_of l)) as [s|] eqn:A; [|destruct I].
      exists (hir_of l, s). split; [apply Q; auto|]. cbn.
      rewrite (proj2 (memb_In Nat.eq_dec h (anc (hir_of l))) M). auto.
Qed.

(** ** The join of a branch *)

Lemma branch_region_iff bd root b :
  WfBody bd ->
  (In b (branch_region bd root) <->
   (exists l, path bd root l b) /\ (exists l, path bd 0 l b) /\ forall l, path bd 0 l b -> In root l).
Proof.
  intros Wf. unfold branch_region. rewrite filter_In, reach_list_spec, dominates_iff by auto.
  pose proof (fun a b => cleaned_edge_iff bd a b Wf) as F.
  split.
  - intros [(s & l & [<-|[]] & W) D]. split; auto. exists l. revert W. apply walk_mono.
    intros x y. apply F.
  - intros [[l W] D]. split; auto. exists root, l. split; [cbn; auto|].
    revert W. apply walk_mono. intros x y. apply F.
Qed.

Lemma Within_path bd root b : Within bd root b -> exists l, path bd root l b.
Proof.
  intros [[l W] D]. destruct (walk_split _ _ _ _ _ W (D l W)) as (_ & l2 & _ & W2 & _). eauto.
Qed.

Lemma region_Within bd root b : WfBody bd -> (In b (branch_region bd root) <-> Within bd root b).
Proof.
  intros Wf. rewrite branch_region_iff by auto. split; [intros [_ H]; exact H|].
  intros W. split; [apply Within_path; auto|auto].
Qed.

Lemma path_normal_end bd a l b : path bd a l b -> Normal bd a -> Normal bd b.
Proof. intros W N. eapply walk_all_normal; eauto. eapply walk_end_In; eauto. Qed.

Lemma Within_root bd root b : Within bd root b -> Within bd root root.
Proof.
  intros [[l W] D]. split.
  - destruct (walk_split _ _ _ _ _ W (D l W)) as (l1 & _ & W1 & _). eauto.
  - intros k Wk. eapply walk_end_In; eauto.
Qed.

(** A block that can reach a normal return through jumps, from the start, is normal. *)
Lemma reaching_normal bd n e l :
  Returns bd e -> ReturnsNormal bd -> WfBody bd -> (exists p, path bd 0 p n) -> path bd n l e ->
  Normal bd n.
Proof.
  intros Re RN Wf [p Wp] W.
  destruct (walk_last_eq _ _ _ _ Wp) as [r Er].
  destruct r as [|r0 r].
  - (* n = 0 *)
    subst p. pose proof (walk_single _ _ _ _ Wp) as ->.
    destruct Wf as [(d & E & C) _]. exists d. split; auto. split; auto.
    intros T. inversion W; subst.
    + destruct Re as (d' & E' & T'). congruence.
    + destruct H as [(d' & E' & I) _]. rewrite E in E'. injection E' as <-. rewrite T in I. inversion I.
  - (* entered by a jump *)
    assert (J : forall a q b, walk (Jump bd) a q b -> 2 <= length q -> Normal bd b).
    { clear. intros a q b W. induction W as [x|x y q z H W IH]; cbn; intros L; [lia|].
      inversion W; subst.
      - apply H.
      - apply IH. cbn. destruct (walk_head _ _ _ _ H1) as [? ->]. cbn. lia. }
    apply (J 0 p n Wp). rewrite Er, app_length. cbn. lia.
Qed.

Lemma post_dominates_Within bd p n root :
  WfBody bd -> ReturnsNormal bd -> (exists e, Returns bd e) ->
  Within bd root n -> p < length bd ->
  (post_dominates bd p n = true <-> OnEveryReturn bd p n).
Proof.
  intros Wf RN [e Re] [Pn _] Lp. split.
  - intros H. pose proof (post_dominates_normal bd p n e RN Re H) as Nn.
    rewrite post_dominates_iff in H by auto. exact H.
  - intros H. destruct (H e Re) as [[l W] _].
    assert (Nn : Normal bd n) by (eapply reaching_normal; eauto).
    rewrite post_dominates_iff by auto. exact H.
Qed.

Lemma path_end_lt bd a l b : path bd a l b -> a < length bd -> b < length bd.
Proof.
  induction 1 as [x|x y l z H W IH]; auto. intros _. apply IH. apply Normal_lt. apply H.
Qed.

Lemma Within_lt bd root b : WfBody bd -> Within bd root b -> b < length bd.
Proof.
  intros Wf [[l W] _]. eapply path_end_lt; eauto.
  destruct Wf as [(d & E & _) _]. apply nth_error_Some. congruence.
Qed.

(** A join that is on every path to a return is passed before the closing block. *)
Lemma Join_before_closing bd root k m :
  WfBody bd -> (exists e, Returns bd e) ->
  Closing bd root m -> Within bd root k -> OnEveryReturn bd k root ->
  forall l, path bd 0 l m -> In k l.
Proof.
  intros Wf [e Re] [Wm Cl] Wk Ok l W.
  destruct (in_dec Nat.eq_dec k l) as [|NI]; auto. exfalso.
  (* from the root to [m] without [k] *)
  destruct (walk_split _ _ _ _ _ W (proj2 Wm l W)) as (l1 & l2 & W1 & W2 & E).
  assert (N2 : ~ In k l2).
  { destruct (walk_head _ _ _ _ W2) as [r2 ->]. cbn in E. intros [->|I].
    - apply NI. rewrite E. apply in_or_app. left. eapply walk_end_In; eauto.
    - apply NI. rewrite E. apply in_or_app. auto. }
  (* from [m] to the return *)
  destruct (Cl m Wm e Re) as [[q Wq] _].
  destruct (walk_last Nat.eq_dec _ _ _ _ m Wq (walk_start_In _ _ _ _ Wq)) as (q2 & Wq2 & Nq2 & _).
  destruct (in_dec Nat.eq_dec k q2) as [I|I].
  - (* after the last [m] there is a [k]: then [m] is not on a path from [k] *)
    destruct (walk_split _ _ _ _ k Wq2 (or_intror I)) as (k1 & k2 & Wk1 & Wk2 & Ek).
    destruct (walk_head _ _ _ _ Wk1) as [r1 Er1]. rewrite Er1 in Ek. cbn in Ek. injection Ek as Ek.
    destruct (Cl k Wk e Re) as [_ Pm]. specialize (Pm _ Wk2).
    destruct (walk_head _ _ _ _ Wk2) as [r2 Er2]. subst k2. cbn in Ek.
    destruct Pm as [<-|J].
    + apply N2. eapply walk_end_In; eauto.
    + apply Nq2. rewrite Ek. apply in_or_app. auto.
  - destruct (Ok e Re) as [_ Pk].
    pose proof (Pk _ (walk_app _ _ _ _ _ _ W2 Wq2)) as J. cbn in J.
    apply in_app_or in J as [J|J]; auto.
Qed.

(** Conversely a block between the root and the closing block is on every path. *)
Lemma before_closing_OnEveryReturn bd root k m :
  WfBody bd -> Closing bd root m -> Within bd root k -> k <> root ->
  (forall l, path bd 0 l m -> In k l) -> OnEveryReturn bd k root.
Proof.
  intros Wf [Wm Cl] Wk Nk Dk e Re.
  pose proof (Within_root _ _ _ Wm) as Wr.
  destruct (Cl root Wr e Re) as [Ex Pm]. split; auto.
  intros l W. specialize (Pm l W).
  destruct (walk_split _ _ _ _ _ W Pm) as (l1 & l2 & W1 & W2 & ->).
  apply in_or_app. left.
  destruct Wr as [[p Wp] _].
  destruct (walk_first Nat.eq_dec _ _ _ _ _ Wp (walk_end_In _ _ _ _ Wp)) as (p1 & Wp1 & Np1 & _).
  pose proof (Dk _ (walk_app _ _ _ _ _ _ Wp1 W1)) as I.
  assert (NIk : ~ In k p1).
  { eapply (not_before_dom Nat.eq_dec (Jump bd) 0 root k); eauto. exact (proj2 Wk). }
  rewrite <- app_assoc in I. apply in_app_or in I as [I|I]; [contradiction|].
  destruct I as [I|I]; [congruence|].
  destruct (walk_head _ _ _ _ W1) as [r ->]. cbn in *. auto.
Qed.

(** Elements that are pairwise comparable have a least one. *)
Lemma chain_least {T} (le : T -> T -> bool) (l : list T) :
  l <> [] ->
  (forall a, In a l -> le a a = true) ->
  (forall a b c, In a l -> In b l -> In c l -> le a b = true -> le b c = true -> le a c = true) ->
  (forall a b, In a l -> In b l -> le a b = true \/ le b a = true) ->
  exists x, In x l /\ forall y, In y l -> le x y = true.
Proof.
  induction l as [|a l IH]; intros Ne R Tr C; [congruence|].
  destruct l as [|b l].
  - exists a. split; [cbn; auto|]. intros y [<-|[]]. apply R. cbn; auto.
  - destruct IH as (x & Ix & Mx).
    + discriminate.
    + intros z Iz. apply R. right; auto.
    + intros p q r Ip Iq Ir. apply Tr; right; auto.
    + intros p q Ip Iq. apply C; right; auto.
    + destruct (C a x (or_introl eq_refl) (or_intror Ix)) as [L|L].
      * exists a. split; [cbn; auto|]. intros y [<-|Iy].
        -- apply R. cbn; auto.
        -- apply (Tr a x y); cbn; auto.
      * exists x. split; [right; auto|]. intros y [<-|Iy]; auto.
Qed.

Lemma is_false_edge_iff bd k : is_false_edge bd k = false <-> ~ FalseEdgeBlock bd k.
Proof.
  unfold is_false_edge, FalseEdgeBlock. destruct (nth_error bd k) as [d|] eqn:E.
  - split.
    + intros H (d' & r & i & [= <-] & T). rewrite T in H. discriminate.
    + intros H. destruct (b_term d) eqn:T; auto. exfalso. apply H. eauto.
  - split; auto. intros _ (d' & r & i & H & _). discriminate.
Qed.

Lemma least_post_dominator_unfold bd ord root :
  WfBody bd -> ReturnsNormal bd -> (exists e, Returns bd e) -> Order ord ->
  forall j, least_post_dominator bd ord root = Some j ->
  exists m, Closing bd root m /\ Join bd root j /\
    forall k, Join bd root k -> forall l, path bd 0 l k -> In j l.
Proof.
  intros Wf RN Ex O j H. unfold least_post_dominator in H.
  set (region := ord (branch_region bd root)) in *.
  assert (Rg : forall b, In b region <-> Within bd root b).
  { intros b. unfold region. rewrite (O (branch_region bd root) b). apply region_Within. auto. }
  destruct (find _ region) as [m|] eqn:F; [|discriminate].
  apply find_some in F as [Im Fm]. rewrite forallb_forall in Fm.
  assert (Wm := proj1 (Rg m) Im).
  assert (Cl : Closing bd root m).
  { split; auto. intros n Wn. apply (post_dominates_Within bd m n root); auto.
    - eapply Within_lt; eauto.
    - apply Fm. apply Rg. auto. }
  exists m. split; auto.
  apply find_some in H as [Ij Fj]. rewrite forallb_forall in Fj.
  assert (Cands : forall k, In k (join_candidates bd region root m) <->
            Within bd root k /\ k <> root /\ is_false_edge bd k = false /\
            forall l, path bd 0 l m -> In k l).
  { intros k. unfold join_candidates. rewrite filter_In, Rg, !andb_true_iff, !negb_true_iff, Nat.eqb_neq.
    rewrite dominates_iff by auto. split.
    - intros [W [[N FE] [_ D]]]. auto.
    - intros (W & N & FE & D). pose proof (proj1 Wm). tauto. }
  apply Cands in Ij as Ij'. destruct Ij' as (Wj & Nj & FEj & Dj).
  split.
  - split; auto. split; [apply is_false_edge_iff; auto|]. split; auto.
    eapply before_closing_OnEveryReturn; eauto.
  - intros k (Nk & FEk & Wk & Ok) l W. apply is_false_edge_iff in FEk.
    assert (Ik : In k (join_candidates bd region root m)).
    { apply Cands. refine (conj Wk (conj Nk (conj FEk _))). intros q Wq. eapply Join_before_closing; eauto. }
    specialize (Fj k Ik). apply dominates_iff in Fj as [_ D]; auto.
Qed.

Lemma least_post_dominator_present bd ord root :
  WfBody bd -> ReturnsNormal bd -> (exists e, Returns bd e) -> Order ord ->
  ((exists j, least_post_dominator bd ord root = Some j) <->
   (exists m, Closing bd root m) /\ (exists k, Join bd root k)).
Proof.
  intros Wf RN Ex O. split.
  - intros [j H]. destruct (least_post_dominator_unfold bd ord root Wf RN Ex O j H) as (m & C & J & _).
    eauto.
  - intros [[m0 C0] [k0 J0]]. unfold least_post_dominator.
    set (region := ord (branch_region bd root)) in *.
    assert (Rg : forall b, In b region <-> Within bd root b).
    { intros b. unfold region. rewrite (O (branch_region bd root) b). apply region_Within. auto. }
    assert (Fx : exists m, find (fun c => forallb (fun n => post_dominates bd c n) region) region = Some m).
    { apply find_Some_iff. exists m0. destruct C0 as [W0 C0]. split; [apply Rg; auto|].
      apply forallb_forall. intros n In0. apply Rg in In0.
      apply (post_dominates_Within bd m0 n root); auto. eapply Within_lt; eauto. }
    destruct Fx as [m F]. rewrite F. apply find_some in F as [Im Fm]. rewrite forallb_forall in Fm.
    assert (Wm := proj1 (Rg m) Im).
    assert (Cl : Closing bd root m).
    { split; auto. intros n Wn. apply (post_dominates_Within bd m n root); auto.
      - eapply Within_lt; eauto.
      - apply Fm. apply Rg. auto. }
    set (cands := join_candidates bd region root m).
    assert (Ck : forall c, In c cands -> dominates bd c m = true).
    { intros c Ic. unfold cands, join_candidates in Ic. apply filter_In in Ic as [_ Ic].
      apply andb_true_iff in Ic. tauto. }
    assert (I0 : In k0 cands).
    { destruct J0 as (Nk & FEk & Wk & Ok). apply is_false_edge_iff in FEk. unfold cands, join_candidates.
      apply filter_In. split; [apply Rg; auto|].
      rewrite !andb_true_iff, !negb_true_iff, Nat.eqb_neq, dominates_iff by auto.
      repeat split; auto; [apply Wm|]. intros l W. eapply Join_before_closing; eauto. }
    apply find_Some_iff.
    destruct (chain_least (dominates bd) cands) as (x & Ix & Mx).
    + intros E. rewrite E in I0. destruct I0.
    + intros a Ia. apply Ck in Ia. apply dominates_iff in Ia as [[l W] D]; auto.
      destruct (walk_split _ _ _ _ _ W (D l W)) as (l1 & _ & W1 & _).
      apply dominates_iff; auto. split; [exists l1; auto|]. intros q Wq. eapply walk_end_In; eauto.
    + intros a b c Ia Ib Ic. rewrite !dominates_iff by auto.
      intros [R1 D1] [R2 D2]. split; auto. exact (Dom_trans _ _ a b c D1 D2).
    + intros a b Ia Ib. apply Ck in Ia. apply Ck in Ib.
      apply dominates_iff in Ia as [[l W] Da]; auto. apply dominates_iff in Ib as [_ Db]; auto.
      destruct (walk_split _ _ _ _ _ W (Da l W)) as (la & _ & Wa & _).
      destruct (walk_split _ _ _ _ _ W (Db l W)) as (lb & _ & Wb & _).
      destruct (Dom_linear Nat.eq_dec (Jump bd) 0 a b m) as [D|D]; auto.
      { exists l. auto. }
      * left. apply dominates_iff; auto. split; auto. exists lb. auto.
      * right. apply dominates_iff; auto. split; auto. exists la. auto.
    + exists x. split; auto. apply forallb_forall. auto.
Qed.

Lemma least_post_dominator_order bd ord ord' root :
  WfBody bd -> ReturnsNormal bd -> (exists e, Returns bd e) -> Order ord -> Order ord' ->
  least_post_dominator bd ord root = least_post_dominator bd ord' root.
Proof.
  intros Wf RN Ex O O'.
  destruct (least_post_dominator bd ord root) as [j|] eqn:E1;
  destruct (least_post_dominator bd ord' root) as [j'|] eqn:E2; auto.
  - destruct (least_post_dominator_unfold bd ord root Wf RN Ex O j E1) as (_ & _ & J & M).
    destruct (least_post_dominator_unfold bd ord' root Wf RN Ex O' j' E2) as (_ & _ & J' & M').
    f_equal. apply (Dom_antisym Nat.eq_dec (Jump bd) 0 j j').
    + exact (proj1 (proj1 (proj2 (proj2 J')))).
    + exact (M j' J').
    + exact (M' j J).
  - assert (X : exists k, least_post_dominator bd ord root = Some k) by eauto.
    apply least_post_dominator_present in X; auto.
    apply (least_post_dominator_present bd ord' root) in X; auto. destruct X. congruence.
  - assert (X : exists k, least_post_dominator bd ord' root = Some k) by eauto.
    apply least_post_dominator_present in X; auto.
    apply (least_post_dominator_present bd ord root) in X; auto. destruct X. congruence.
Qed.

(** ** The next location *)

Lemma location_successor_step bd l l' :
  WfBody bd -> ValidLoc bd l -> location_successor bd l = Some l' ->
  LocStep bd l l' /\ forall x, LocStep bd l x -> x = l'.
Proof.
  intros Wf (d & E & L) H. unfold location_successor in H. rewrite E in H.
  destruct l as [b i]. cbn [l_block l_idx] in *.
  destruct (Nat.ltb_spec i (b_stmts d)) as [Lt|Ge].
  - injection H as <-. split; [eapply step_within; eauto|].
    intros x S. inversion S; subst; auto. rewrite E in H1. injection H1 as <-. lia.
  - assert (i = b_stmts d) by lia. subst i.
    destruct (successors bd b) as [|n [|n2 r]] eqn:Sc; try discriminate. injection H as <-.
    assert (F : forall c, Jump bd b c <-> c = n).
    { intros c. rewrite <- successors_wf by auto. rewrite Sc. cbn. intuition. }
    split; [eapply step_jump; eauto; apply F; auto|].
    intros x S. inversion S as [b0 d0 i0 E0 L0|b0 d0 c E0 J]; subst.
    + rewrite E in E0. injection E0 as <-. lia.
    + apply F in J. subst. auto.
Qed.

Lemma location_successor_none bd l :
  WfBody bd -> ValidLoc bd l -> location_successor bd l = None ->
  NoDup (raw_successors bd (l_block l)) ->
  forall x, LocStep bd l x -> exists y, LocStep bd l y /\ y <> x.
Proof.
  intros Wf (d & E & L) H ND x S. unfold location_successor in H. rewrite E in H.
  destruct l as [b i]. cbn [l_block l_idx] in *.
  destruct (Nat.ltb_spec i (b_stmts d)) as [Lt|Ge]; [discriminate|].
  inversion S as [b0 d0 i0 E0 L0|b0 d0 c E0 J]; subst.
  { rewrite E in E0. injection E0 as <-. lia. }
  rewrite E in E0. injection E0 as <-.
  apply successors_wf in J as I; auto.
  assert (ND' : NoDup (successors bd b)) by (apply NoDup_filter; auto).
  assert (X : exists c', c' <> c /\ In c' (successors bd b)).
  { destruct (successors bd b) as [|n [|n2 r]] eqn:Sc; [destruct I|discriminate|].
    destruct (Nat.eq_dec n c) as [->|N].
    - exists n2. cbn. split; auto. inversion ND' as [|? ? NI _]; subst. intros ->. apply NI.
      cbn. auto.
    - exists n. cbn. auto. }
  destruct X as (c' & Nc & Ic). apply successors_wf in Ic; auto.
  exists (Loc c' 0). split; [eapply step_jump; eauto|]. congruence.
Qed.

Lemma switch_iff bd b : is_switchint bd b = true <-> Switch bd b.
Proof.
  unfold is_switchint, Switch. destruct (nth_error bd b) as [d|]; split.
  - destruct (b_term d) eqn:T; try discriminate. intros _. eauto.
  - intros (d' & ts & [= <-] & ->). reflexivity.
  - discriminate.
  - intros (d & ts & E & _). discriminate E.
Qed.

Lemma not_switch_iff bd b : is_switchint bd b = false <-> ~ Switch bd b.
Proof. rewrite <- switch_iff. destruct (is_switchint bd b); intuition discriminate. Qed.
