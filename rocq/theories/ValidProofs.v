(** * Proofs about the test of the steps *)
From Coq Require Import List Arith Bool Lia Permutation.
From Verif Require Import Base CfgModel CfgSpec CfgProofs SegMirModel SegMirSpec SegMirProofs SegMirSound SegMirTree ValidModel ValidSpec.
From Verif Require PropSegMir.
Import ListNotations.

Lemma check_all_ok {A} (f : A -> reason + list loc) l out : check_all f l = inr out ->
  (forall x, In x l -> exists o, f x = inr o /\ incl o out) /\ (forall y, In y out -> exists x o, In x l /\ f x = inr o /\ In y o).
Proof.
  revert out. induction l as [|x l IH]; intros out E; cbn [check_all] in E.
  - injection E as <-. split; [intros x []|intros y []].
  - destruct (f x) as [e|o] eqn:F; [discriminate|]. destruct (check_all f l) as [e|o'] eqn:G; [discriminate|]. injection E as <-.
    destruct (IH o' eq_refl) as [I1 I2]. split.
    + intros z [<-|I]; [exists o; split; [exact F|apply incl_appl, incl_refl]|]. destruct (I1 z I) as (o2 & F2 & J). exists o2. split; [exact F2|apply incl_appr, J].
    + intros y Y. apply in_app_or in Y as [Y|Y]; [exists x, o; split; [left; reflexivity|auto]|]. destruct (I2 y Y) as (z & o2 & I & F2 & J). exists z, o2. split; [right; exact I|auto].
Qed.

Lemma check_all_complete {A} (f : A -> reason + list loc) l : (forall x, In x l -> exists o, f x = inr o) -> exists out, check_all f l = inr out.
Proof.
  induction l as [|x l IH]; intros H; cbn [check_all]; [exists []; reflexivity|].
  destruct (H x (or_introl eq_refl)) as [o ->]. destruct IH as [o' ->]; [intros y I; apply H; right; exact I|]. eexists. reflexivity.
Qed.

(** ** Locations *)

Lemma explode_block_In bd b from to l : In l (explode_block bd b from to) <->
  exists d, nth_error bd b = Some d /\ l_block l = b /\
    match from with Some i => i | None => 0 end <= l_idx l /\ l_idx l <= match to with Some i => i | None => b_stmts d end.
Proof.
  unfold explode_block. destruct (nth_error bd b) as [d|]; [|split; [intros []|intros (d & E & _); discriminate]]. cbv zeta.
  rewrite in_map_iff. split.
  - intros (i & <- & I). apply in_seq in I. exists d. cbn [l_block l_idx]. repeat split; lia.
  - intros (d' & [= <-] & E & L1 & L2). exists (l_idx l). split; [destruct l; cbn in *; congruence|]. apply in_seq. lia.
Qed.

Lemma explode_In bd g l : WfBody bd -> ValidLoc bd (s_from g) -> ValidLoc bd (s_to g) ->
  (In l (explode bd g) <-> OnTheWay bd (s_from g) (s_to g) l).
Proof.
  intros Wf (da & Ea & La) (db & Eb & Lb). unfold explode, OnTheWay. cbv zeta. rewrite in_flat_map.
  assert (P : forall b, reach_avoiding (cleaned_edges bd) (l_block (s_from g)) (l_block (s_to g)) b = true <->
    exists p, path bd (l_block (s_from g)) p b /\ ~ In (l_block (s_to g)) p).
  { intros b. rewrite reach_avoiding_iff. split; intros (p & W & N); exists p; (split; [|exact N]).
    - eapply walk_mono; [|exact W]. intros x y. apply cleaned_edge_iff, Wf.
    - eapply walk_mono; [|exact W]. intros x y. apply cleaned_edge_iff, Wf. }
  split.
  - intros (b & I & J). apply explode_block_In in J as (d & E & <- & L1 & L2).
    assert (V : ValidLoc bd l).
    { exists d. split; [exact E|]. destruct (Nat.eqb_spec (l_block l) (l_block (s_to g))) as [Q|Q]; [|exact L2]. rewrite Q in E. assert (d = db) by congruence. subst d. lia. }
    split; [exact V|]. split; [|split].
    + intros Q. rewrite (proj2 (Nat.eqb_eq _ _) Q) in L1. exact L1.
    + intros Q. rewrite (proj2 (Nat.eqb_eq _ _) Q) in L2. exact L2.
    + apply in_app_or in I as [I|[I|[]]]; [|left; congruence]. apply filter_In in I as [_ I]. right. apply P, I.
  - intros ((d & E & L) & A & B & C). exists (l_block l). split.
    + apply in_or_app. destruct C as [C|C]; [right; left; congruence|]. left. apply filter_In. split; [|apply P, C].
      apply in_seq. split; [lia|]. cbn. apply nth_error_Some. congruence.
    + apply explode_block_In. exists d. split; [exact E|]. split; [reflexivity|]. split.
      * destruct (Nat.eqb_spec (l_block l) (l_block (s_from g))) as [Q|Q]; [exact (A Q)|lia].
      * destruct (Nat.eqb_spec (l_block l) (l_block (s_to g))) as [Q|Q]; [exact (B Q)|exact L].
Qed.

Lemma all_In bd l : In l (flat_map (fun b => explode_block bd b None None) (graph_blocks bd)) <-> InFunction bd l.
Proof.
  rewrite in_flat_map. unfold graph_blocks, InFunction, Normal, ValidLoc. split.
  - intros (b & I & J). apply explode_block_In in J as (d & E & <- & _ & L). apply filter_In in I as [_ I]. apply andb_true_iff in I as [R K]. rewrite E in K.
    apply keep_block_iff in K. split; [exists d; auto|]. split; [exists d; tauto|]. apply is_reachable_iff in R as (p & W). exists p.
    eapply walk_mono; [|exact W]. intros x y H. apply edges_of_In in H as [_ H]. apply raw_successors_iff, H.
  - intros ((d & E & L) & (d' & E' & K) & (p & W)). assert (d' = d) by congruence. subst d'. exists (l_block l). split.
    + apply filter_In. split; [apply in_seq; split; [lia|]; cbn; apply nth_error_Some; congruence|]. rewrite E. apply andb_true_iff. split; [|apply keep_block_iff, K].
      apply is_reachable_iff. exists p. eapply walk_mono; [|exact W]. intros x y H. apply edges_of_In. split; [|apply raw_successors_iff, H].
      destruct H as (dx & Ex & _). apply nth_error_Some. congruence.
    + apply explode_block_In. exists d. repeat split; auto. lia.
Qed.

(** ** The tree *)

Inductive Under (s : st) (cid : nat) : nat -> Prop :=
| under_self : Under s cid cid
| under_nested k c bid b k' : Under s cid k -> nth_error (colls s) k = Some c -> In (Branching bid) (c_data c) ->
    nth_error (branches s) bid = Some b -> In k' (br_nested b) -> Under s cid k'.

Lemma branch_ids_In c bid : In bid (branch_ids c) <-> In (Branching bid) (c_data c).
Proof.
  unfold branch_ids. rewrite in_flat_map. split.
  - intros ([x|x] & I & J); [destruct J|]. destruct J as [->|[]]. exact I.
  - intros I. exists (Branching bid). split; [exact I|left; reflexivity].
Qed.

Lemma linear_ids_In c sid : In sid (linear_ids c) <-> In (Linear sid) (c_data c).
Proof.
  unfold linear_ids. rewrite in_flat_map. split.
  - intros ([x|x] & I & J); [|destruct J]. destruct J as [->|[]]. exact I.
  - intros I. exists (Linear sid). split; [exact I|left; reflexivity].
Qed.

Lemma branch_has_coll s bid b : Shape s -> nth_error (branches s) bid = Some b -> exists cid c, nth_error (colls s) cid = Some c /\ In (Branching bid) (c_data c).
Proof.
  intros Sh E. assert (I : In bid (flat_map branch_ids (colls s))).
  { eapply Permutation_in; [apply Permutation_sym, (sh_branches s Sh)|]. apply in_seq. split; [lia|]. cbn. apply nth_error_Some. congruence. }
  apply in_flat_map in I as (c & Ic & I). apply In_nth_error in Ic as [cid Ec]. exists cid, c. split; [exact Ec|apply branch_ids_In, I].
Qed.

Lemma all_under s : Shape s -> forall k, k < length (colls s) -> Under s 0 k.
Proof.
  intros Sh k. induction k as [k IH] using lt_wf_ind. intros L. destruct k as [|k]; [constructor|].
  assert (I : In (S k) (flat_map br_nested (branches s))).
  { assert (I : In (S k) (0 :: flat_map br_nested (branches s))) by (rewrite (sh_nested s Sh); apply in_seq; lia). destruct I as [I|I]; [discriminate|exact I]. }
  apply in_flat_map in I as (b & Ib & I). apply In_nth_error in Ib as [bid Eb]. destruct (branch_has_coll s bid b Sh Eb) as (cid & c & Ec & J).
  pose proof (sh_below s Sh cid c bid b (S k) Ec (proj2 (branch_ids_In c bid) J) Eb I) as Lt.
  eapply under_nested; [apply (IH cid Lt)|exact Ec|exact J|exact Eb|exact I]. apply nth_error_Some. congruence.
Qed.

(** What the check of a collection looks at. *)
Definition Fine bd s (c : coll) (seen : list loc) : Prop :=
  (forall sid, In (Linear sid) (c_data c) -> exists o, check_linear bd s sid = inr o /\ incl o seen) /\
  (forall bid, In (Branching bid) (c_data c) -> exists b, nth_error (branches s) bid = Some b /\
     forall sid, In sid (br_splits b) -> exists o, check_split bd s sid = inr o /\ incl o seen).

Lemma check_coll_under bd s seen cid : forall k, Under s cid k -> forall fuel, check_coll fuel bd s cid = inr seen ->
  exists f seen' c, check_coll f bd s k = inr seen' /\ incl seen' seen /\ nth_error (colls s) k = Some c /\ Fine bd s c seen.
Proof.
  intros k U fuel E.
  assert (G : forall f k o, check_coll f bd s k = inr o -> exists c, nth_error (colls s) k = Some c /\ Fine bd s c o /\
    forall bid b k', In (Branching bid) (c_data c) -> nth_error (branches s) bid = Some b -> In k' (br_nested b) ->
      exists f' o', check_coll f' bd s k' = inr o' /\ incl o' o).
  { clear. intros f k o E. destruct f as [|f]; [discriminate|]. cbn [check_coll] in E. destruct (nth_error (colls s) k) as [c|]; [|discriminate].
    exists c. split; [reflexivity|]. apply check_all_ok in E as [E _]. split; [split|].
    - intros sid I. exact (E _ I).
    - intros bid I. destruct (E _ I) as (o1 & F & J). cbn beta iota in F. destruct (nth_error (branches s) bid) as [b|]; [|discriminate]. exists b. split; [reflexivity|].
      destruct (check_all (check_split bd s) (br_splits b)) as [e|o2] eqn:C1; [discriminate|]. destruct (check_all (check_coll f bd s) (br_nested b)) as [e|o3] eqn:C2; [discriminate|].
      injection F as <-. intros sid Is. apply check_all_ok in C1 as [C1 _]. destruct (C1 sid Is) as (o4 & Q & R). exists o4. split; [exact Q|].
      intros y Y. apply J, in_or_app. left. apply R, Y.
    - intros bid b k' I Eb Ik. destruct (E _ I) as (o1 & F & J). cbn beta iota in F. rewrite Eb in F.
      destruct (check_all (check_split bd s) (br_splits b)) as [e|o2] eqn:C1; [discriminate|]. destruct (check_all (check_coll f bd s) (br_nested b)) as [e|o3] eqn:C2; [discriminate|].
      injection F as <-. apply check_all_ok in C2 as [C2 _]. destruct (C2 k' Ik) as (o4 & Q & R). exists f, o4. split; [exact Q|].
      intros y Y. apply J, in_or_app. right. apply R, Y. }
  assert (H : exists f seen', check_coll f bd s k = inr seen' /\ incl seen' seen).
  { induction U as [|k c bid b k' U IH Ec I Eb Ik]; [exists fuel, seen; split; [exact E|apply incl_refl]|].
    destruct IH as (f & o & Q & R). destruct (G f k o Q) as (c' & Ec' & _ & N). assert (c' = c) by congruence. subst c'.
    destruct (N bid b k' I Eb Ik) as (f' & o' & Q' & R'). exists f', o'. split; [exact Q'|]. intros y Y. apply R, R', Y. }
  destruct H as (f & o & Q & R). destruct (G f k o Q) as (c & Ec & [F1 F2] & _). exists f, o, c. split; [exact Q|]. split; [exact R|]. split; [exact Ec|]. split.
  - intros sid I. destruct (F1 sid I) as (x & X & Y). exists x. split; [exact X|]. intros y J. apply R, Y, J.
  - intros bid I. destruct (F2 bid I) as (b & Eb & K). exists b. split; [exact Eb|]. intros sid Is. destruct (K sid Is) as (x & X & Y). exists x. split; [exact X|]. intros y J. apply R, Y, J.
Qed.

Lemma check_coll_seen bd s : forall fuel cid seen y, check_coll fuel bd s cid = inr seen -> In y seen -> exists g, In g (segs s) /\ In y (explode bd g).
Proof.
  induction fuel as [|f IH]; intros cid seen y E Y; [discriminate|]. cbn [check_coll] in E. destruct (nth_error (colls s) cid) as [c|]; [|discriminate].
  apply check_all_ok in E as [_ E]. destruct (E y Y) as ([sid|bid] & o & I & F & J); cbn beta iota in F.
  - unfold check_linear in F. destruct (nth_error (segs s) sid) as [g|] eqn:Eg; [|discriminate]. destruct (negb _); [discriminate|]. destruct (negb _); [discriminate|].
    injection F as <-. exists g. split; [eapply nth_error_In; eauto|exact J].
  - destruct (nth_error (branches s) bid) as [b|]; [|discriminate].
    destruct (check_all (check_split bd s) (br_splits b)) as [e|o2] eqn:C1; [discriminate|]. destruct (check_all (check_coll f bd s) (br_nested b)) as [e|o3] eqn:C2; [discriminate|].
    injection F as <-. apply in_app_or in J as [J|J].
    + apply check_all_ok in C1 as [_ C1]. destruct (C1 y J) as (sid & o & _ & F & Q). unfold check_split in F. destruct (nth_error (segs s) sid) as [g|] eqn:Eg; [|discriminate].
      destruct (negb _); [discriminate|]. injection F as <-. exists g. split; [eapply nth_error_In; eauto|exact Q].
    + apply check_all_ok in C2 as [_ C2]. destruct (C2 y J) as (k & o & _ & F & Q). eapply IH; eauto.
Qed.

Lemma check_coll_complete bd s : Shape s ->
  (forall g, LinearOf s g -> ldominates bd (s_from g) (s_to g) = true /\ lpost_dominates bd (s_to g) (s_from g) = true) ->
  (forall g, SplitOf s g -> ldominates bd (s_from g) (s_to g) = true) ->
  forall fuel cid, cid < length (colls s) -> length (colls s) <= fuel + cid -> exists seen, check_coll fuel bd s cid = inr seen.
Proof.
  intros Sh HL HS. induction fuel as [|f IH]; intros cid L F; [lia|]. cbn [check_coll]. destruct (nth_error (colls s) cid) as [c|] eqn:Ec; [|apply nth_error_None in Ec; lia].
  apply check_all_complete. intros [sid|bid] I.
  - unfold check_linear. destruct (nth_error (segs s) sid) as [g|] eqn:Eg.
    + destruct (HL g) as [D P]; [exists cid, c, sid; auto|]. rewrite D, P. eexists. reflexivity.
    + exfalso. apply nth_error_None in Eg. pose proof (linear_id_lt s cid c sid Sh Ec (proj2 (linear_ids_In c sid) I)). lia.
  - assert (Lb : bid < length (branches s)).
    { assert (J : In bid (seq 0 (length (branches s)))). { eapply Permutation_in; [apply (sh_branches s Sh)|]. apply in_flat_map. exists c. split; [eapply nth_error_In; eauto|apply branch_ids_In, I]. }
      apply in_seq in J. lia. }
    destruct (nth_error (branches s) bid) as [b|] eqn:Eb; [|apply nth_error_None in Eb; lia].
    assert (C1 : exists o, check_all (check_split bd s) (br_splits b) = inr o).
    { apply check_all_complete. intros sid Is. unfold check_split. destruct (nth_error (segs s) sid) as [g|] eqn:Eg.
      - rewrite (HS g); [eexists; reflexivity|]. exists b, sid. split; [eapply nth_error_In; eauto|auto].
      - exfalso. apply nth_error_None in Eg. assert (J : In sid (seq 0 (length (segs s)))).
        { eapply Permutation_in; [apply (sh_segs s Sh)|]. apply in_or_app. right. apply in_flat_map. exists b. split; [eapply nth_error_In; eauto|exact Is]. }
        apply in_seq in J. lia. }
    assert (C2 : exists o, check_all (check_coll f bd s) (br_nested b) = inr o).
    { apply check_all_complete. intros k Ik. pose proof (sh_below s Sh cid c bid b k Ec (proj2 (branch_ids_In c bid) I) Eb Ik) as Lt.
      apply IH; [|lia]. assert (J : In k (seq 0 (length (colls s)))).
      { rewrite <- (sh_nested s Sh). right. apply in_flat_map. exists b. split; [eapply nth_error_In; eauto|exact Ik]. }
      apply in_seq in J. lia. }
    destruct C1 as [o1 ->], C2 as [o2 ->]. eexists. reflexivity.
Qed.

(** ** The whole test *)

Lemma validate_iff bd s : WfBody bd -> Shape s -> (forall g, In g (segs s) -> ValidLoc bd (s_from g) /\ ValidLoc bd (s_to g)) ->
  (validate bd s = None <->
   (forall g, LinearOf s g -> ldominates bd (s_from g) (s_to g) = true /\ lpost_dominates bd (s_to g) (s_from g) = true) /\
   (forall g, SplitOf s g -> ldominates bd (s_from g) (s_to g) = true) /\ StepsCover bd s).
Proof.
  intros Wf Sh V. assert (L0 : 0 < length (colls s)). { assert (J : In 0 (seq 0 (length (colls s)))) by (rewrite <- (sh_nested s Sh); left; reflexivity). apply in_seq in J. lia. }
  unfold validate. cbv zeta. split.
  - destruct (check_coll (length (colls s)) bd s 0) as [e|seen] eqn:E; [discriminate|]. destruct (filter _ _) as [|m ms] eqn:F; [|discriminate]. intros _.
    assert (H : forall k c, nth_error (colls s) k = Some c -> Fine bd s c seen).
    { intros k c Ec. destruct (check_coll_under bd s seen 0 k (all_under s Sh k ltac:(apply nth_error_Some; congruence)) _ E) as (f & o & c' & _ & _ & Ec' & Fi).
      assert (c' = c) by congruence. subst c'. exact Fi. }
    split; [|split].
    + intros g (cid & c & sid & Ec & I & Eg). destruct (H cid c Ec) as [H1 _]. destruct (H1 sid I) as (o & Q & _). unfold check_linear in Q. rewrite Eg in Q.
      destruct (ldominates bd (s_from g) (s_to g)); [|discriminate]. destruct (lpost_dominates bd (s_to g) (s_from g)); [|discriminate]. auto.
    + intros g (b & sid & Ib & Is & Eg). apply In_nth_error in Ib as [bid Eb]. destruct (branch_has_coll s bid b Sh Eb) as (cid & c & Ec & I). destruct (H cid c Ec) as [_ H2].
      destruct (H2 bid I) as (b' & Eb' & K). assert (b' = b) by congruence. subst b'. destruct (K sid Is) as (o & Q & _). unfold check_split in Q. rewrite Eg in Q.
      destruct (ldominates bd (s_from g) (s_to g)); [reflexivity|discriminate].
    + intros l Il. apply all_In in Il. assert (Is : In l seen).
      { destruct (in_dec loc_eqd l seen) as [I|N]; [exact I|]. exfalso.
        assert (J : In l (filter (fun l => negb (memb loc_eqd l seen)) (flat_map (fun b => explode_block bd b None None) (graph_blocks bd)))).
        { apply filter_In. split; [exact Il|]. apply negb_true_iff, not_true_is_false. intros M. apply memb_In in M. contradiction. }
        rewrite F in J. destruct J. }
      destruct (check_coll_seen bd s _ _ _ l E Is) as (g & Ig & J). exists g. split; [exact Ig|]. destruct (V g Ig) as [V1 V2]. apply (explode_In bd g l Wf V1 V2), J.
  - intros (HL & HS & HC). destruct (check_coll_complete bd s Sh HL HS (length (colls s)) 0 L0 ltac:(lia)) as [seen E]. rewrite E.
    destruct (filter _ _) as [|m ms] eqn:F; [reflexivity|exfalso].
    assert (J : In m (filter (fun l => negb (memb loc_eqd l seen)) (flat_map (fun b => explode_block bd b None None) (graph_blocks bd)))) by (rewrite F; left; reflexivity).
    apply filter_In in J as [J N]. apply negb_true_iff in N. apply all_In in J. destruct (HC m J) as (g & Ig & O). destruct (V g Ig) as [V1 V2].
    apply (explode_In bd g m Wf V1 V2) in O. assert (Is : In m seen); [|apply memb_In with (eqd := loc_eqd) in Is; congruence].
    assert (H : forall k c, nth_error (colls s) k = Some c -> Fine bd s c seen).
    { intros k c Ec. destruct (check_coll_under bd s seen 0 k (all_under s Sh k ltac:(apply nth_error_Some; congruence)) _ E) as (f & o & c' & _ & _ & Ec' & Fi).
      assert (c' = c) by congruence. subst c'. exact Fi. }
    apply In_nth_error in Ig as [sid Eg]. assert (Is : In sid (flat_map linear_ids (colls s) ++ flat_map br_splits (branches s))).
    { eapply Permutation_in; [apply Permutation_sym, (sh_segs s Sh)|]. apply in_seq. split; [lia|]. cbn. apply nth_error_Some. congruence. }
    apply in_app_or in Is as [Is|Is]; apply in_flat_map in Is as (x & Ix & Is).
    + apply In_nth_error in Ix as [cid Ec]. destruct (H cid x Ec) as [H1 _]. destruct (H1 sid (proj1 (linear_ids_In x sid) Is)) as (o & Q & R). apply R.
      unfold check_linear in Q. rewrite Eg in Q. destruct (negb _); [discriminate|]. destruct (negb _); [discriminate|]. injection Q as <-. exact O.
    + apply In_nth_error in Ix as [bid Eb]. destruct (branch_has_coll s bid x Sh Eb) as (cid & c & Ec & I). destruct (H cid c Ec) as [_ H2].
      destruct (H2 bid I) as (b' & Eb' & K). assert (b' = x) by congruence. subst b'. destruct (K sid Is) as (o & Q & R). apply R.
      unfold check_split in Q. rewrite Eg in Q. destruct (negb _); [discriminate|]. injection Q as <-. exact O.
Qed.

(** ** Reasons *)

Lemma check_all_err {A} (f : A -> reason + list loc) l e : check_all f l = inl e -> exists x, In x l /\ f x = inl e.
Proof.
  induction l as [|x l IH]; cbn [check_all]; [discriminate|]. destruct (f x) as [e'|o] eqn:F.
  - intros [= <-]. exists x. split; [left; reflexivity|exact F].
  - destruct (check_all f l) as [e'|o']; [|discriminate]. intros [= <-]. destruct (IH eq_refl) as (y & I & G). exists y. split; [right; exact I|exact G].
Qed.

Definition Right bd s (e : reason) : Prop :=
  match e with
  | SplitNoDom g => SplitOf s g /\ ldominates bd (s_from g) (s_to g) = false
  | LinearNoDom g => LinearOf s g /\ ldominates bd (s_from g) (s_to g) = false
  | LinearNoPostDom g => LinearOf s g /\ ldominates bd (s_from g) (s_to g) = true /\ lpost_dominates bd (s_to g) (s_from g) = false
  | _ => False
  end.

Lemma check_coll_err bd s : Shape s -> forall fuel cid e, cid < length (colls s) -> length (colls s) <= fuel + cid -> check_coll fuel bd s cid = inl e -> Right bd s e.
Proof.
  intros Sh. induction fuel as [|f IH]; intros cid e L F E; [lia|]. cbn [check_coll] in E. destruct (nth_error (colls s) cid) as [c|] eqn:Ec; [|apply nth_error_None in Ec; lia].
  apply check_all_err in E as ([sid|bid] & I & E).
  - unfold check_linear in E. destruct (nth_error (segs s) sid) as [g|] eqn:Eg.
    + assert (Lg : LinearOf s g) by (exists cid, c, sid; auto). destruct (ldominates bd (s_from g) (s_to g)) eqn:D; cbn [negb] in E; [|injection E as <-; split; auto].
      destruct (lpost_dominates bd (s_to g) (s_from g)) eqn:P; cbn [negb] in E; [discriminate|]. injection E as <-. repeat split; auto.
    + exfalso. apply nth_error_None in Eg. pose proof (linear_id_lt s cid c sid Sh Ec (proj2 (linear_ids_In c sid) I)). lia.
  - assert (Lb : bid < length (branches s)).
    { assert (J : In bid (seq 0 (length (branches s)))). { eapply Permutation_in; [apply (sh_branches s Sh)|]. apply in_flat_map. exists c. split; [eapply nth_error_In; eauto|apply branch_ids_In, I]. }
      apply in_seq in J. lia. }
    destruct (nth_error (branches s) bid) as [b|] eqn:Eb; [|apply nth_error_None in Eb; lia].
    destruct (check_all (check_split bd s) (br_splits b)) as [e1|o1] eqn:C1.
    + injection E as <-. apply check_all_err in C1 as (sid & Is & C1). unfold check_split in C1. destruct (nth_error (segs s) sid) as [g|] eqn:Eg.
      * destruct (ldominates bd (s_from g) (s_to g)) eqn:D; cbn [negb] in C1; [discriminate|]. injection C1 as <-. split; [|exact D].
        exists b, sid. split; [eapply nth_error_In; eauto|auto].
      * exfalso. apply nth_error_None in Eg. assert (J : In sid (seq 0 (length (segs s)))).
        { eapply Permutation_in; [apply (sh_segs s Sh)|]. apply in_or_app. right. apply in_flat_map. exists b. split; [eapply nth_error_In; eauto|exact Is]. }
        apply in_seq in J. lia.
    + destruct (check_all (check_coll f bd s) (br_nested b)) as [e2|o2] eqn:C2; [|discriminate]. injection E as <-. apply check_all_err in C2 as (k & Ik & C2).
      pose proof (sh_below s Sh cid c bid b k Ec (proj2 (branch_ids_In c bid) I) Eb Ik) as Lt. apply (IH k e2); [|lia|exact C2].
      assert (J : In k (seq 0 (length (colls s)))). { rewrite <- (sh_nested s Sh). right. apply in_flat_map. exists b. split; [eapply nth_error_In; eauto|exact Ik]. }
      apply in_seq in J. lia.
Qed.

Lemma seen_iff bd s seen : WfBody bd -> Shape s -> (forall g, In g (segs s) -> ValidLoc bd (s_from g) /\ ValidLoc bd (s_to g)) ->
  check_coll (length (colls s)) bd s 0 = inr seen -> forall l, In l seen <-> exists g, In g (segs s) /\ OnTheWay bd (s_from g) (s_to g) l.
Proof.
  intros Wf Sh V E l.
  assert (H : forall k c, nth_error (colls s) k = Some c -> Fine bd s c seen).
  { intros k c Ec. destruct (check_coll_under bd s seen 0 k (all_under s Sh k ltac:(apply nth_error_Some; congruence)) _ E) as (f & o & c' & _ & _ & Ec' & Fi).
    assert (c' = c) by congruence. subst c'. exact Fi. }
  split.
  - intros Is. destruct (check_coll_seen bd s _ _ _ l E Is) as (g & Ig & J). exists g. split; [exact Ig|]. destruct (V g Ig) as [V1 V2]. apply (explode_In bd g l Wf V1 V2), J.
  - intros (g & Ig & O). destruct (V g Ig) as [V1 V2]. apply (explode_In bd g l Wf V1 V2) in O.
    apply In_nth_error in Ig as [sid Eg]. assert (Is : In sid (flat_map linear_ids (colls s) ++ flat_map br_splits (branches s))).
    { eapply Permutation_in; [apply Permutation_sym, (sh_segs s Sh)|]. apply in_seq. split; [lia|]. cbn. apply nth_error_Some. congruence. }
    apply in_app_or in Is as [Is|Is]; apply in_flat_map in Is as (x & Ix & Is).
    + apply In_nth_error in Ix as [cid Ec]. destruct (H cid x Ec) as [H1 _]. destruct (H1 sid (proj1 (linear_ids_In x sid) Is)) as (o & Q & R). apply R.
      unfold check_linear in Q. rewrite Eg in Q. destruct (negb _); [discriminate|]. destruct (negb _); [discriminate|]. injection Q as <-. exact O.
    + apply In_nth_error in Ix as [bid Eb]. destruct (branch_has_coll s bid x Sh Eb) as (cid & c & Ec & I). destruct (H cid c Ec) as [_ H2].
      destruct (H2 bid I) as (b' & Eb' & K). assert (b' = x) by congruence. subst b'. destruct (K sid Is) as (o & Q & R). apply R.
      unfold check_split in Q. rewrite Eg in Q. destruct (negb _); [discriminate|]. injection Q as <-. exact O.
Qed.

Lemma validate_reason bd s : WfBody bd -> Shape s -> (forall g, In g (segs s) -> ValidLoc bd (s_from g) /\ ValidLoc bd (s_to g)) ->
  match validate bd s with
  | None => True
  | Some (SplitNoDom g) => SplitOf s g /\ ldominates bd (s_from g) (s_to g) = false
  | Some (LinearNoDom g) => LinearOf s g /\ ldominates bd (s_from g) (s_to g) = false
  | Some (LinearNoPostDom g) => LinearOf s g /\ ldominates bd (s_from g) (s_to g) = true /\ lpost_dominates bd (s_to g) (s_from g) = false
  | Some (Missing ls) => ls <> [] /\
      (forall g, LinearOf s g -> ldominates bd (s_from g) (s_to g) = true /\ lpost_dominates bd (s_to g) (s_from g) = true) /\
      (forall g, SplitOf s g -> ldominates bd (s_from g) (s_to g) = true) /\
      forall l, In l ls <-> InFunction bd l /\ forall g, In g (segs s) -> ~ OnTheWay bd (s_from g) (s_to g) l
  | Some Absent | Some Endless => False
  end.
Proof.
  intros Wf Sh V. assert (L0 : 0 < length (colls s)). { assert (J : In 0 (seq 0 (length (colls s)))) by (rewrite <- (sh_nested s Sh); left; reflexivity). apply in_seq in J. lia. }
  unfold validate. cbv zeta. destruct (check_coll (length (colls s)) bd s 0) as [e|seen] eqn:E.
  - pose proof (check_coll_err bd s Sh (length (colls s)) 0 e L0 ltac:(lia) E) as R. destruct e; try exact R. destruct R.
  - destruct (filter _ _) as [|m ms] eqn:F; [exact Logic.I|]. split; [discriminate|].
    assert (H : forall k c, nth_error (colls s) k = Some c -> Fine bd s c seen).
    { intros k c Ec. destruct (check_coll_under bd s seen 0 k (all_under s Sh k ltac:(apply nth_error_Some; congruence)) _ E) as (f & o & c' & _ & _ & Ec' & Fi).
      assert (c' = c) by congruence. subst c'. exact Fi. }
    split; [|split].
    + intros g (cid & c & sid & Ec & I & Eg). destruct (H cid c Ec) as [H1 _]. destruct (H1 sid I) as (o & Q & _). unfold check_linear in Q. rewrite Eg in Q.
      destruct (ldominates bd (s_from g) (s_to g)); [|discriminate]. destruct (lpost_dominates bd (s_to g) (s_from g)); [|discriminate]. auto.
    + intros g (b & sid & Ib & Is & Eg). apply In_nth_error in Ib as [bid Eb]. destruct (branch_has_coll s bid b Sh Eb) as (cid & c & Ec & I). destruct (H cid c Ec) as [_ H2].
      destruct (H2 bid I) as (b' & Eb' & K). assert (b' = b) by congruence. subst b'. destruct (K sid Is) as (o & Q & _). unfold check_split in Q. rewrite Eg in Q.
      destruct (ldominates bd (s_from g) (s_to g)); [reflexivity|discriminate].
    + intros l. rewrite <- F, filter_In, all_In, negb_true_iff. split.
      * intros [Il M]. split; [exact Il|]. intros g Ig O. assert (Is : In l seen) by (apply (seen_iff bd s seen Wf Sh V E); exists g; auto).
        apply (memb_In loc_eqd) in Is. congruence.
      * intros [Il N]. split; [exact Il|]. apply not_true_is_false. intros M. apply memb_In in M. apply (seen_iff bd s seen Wf Sh V E) in M as (g & Ig & O). exact (N g Ig O).
Qed.
