(** * Does building segments end? *)
From Coq Require Import List Arith Bool Lia Permutation.
From Verif Require Import Base FactsModel FactsProofs CfgModel CfgSpec CfgProofs SegMirModel SegMirSpec SegMirProofs
  SegMirSound SegMirClose.
Import ListNotations.

(** ** The search for the next switch *)

Lemma next_switch_S bd f b r : next_switch_block bd f b = Some r -> next_switch_block bd (S f) b = Some r.
Proof.
  revert b. induction f as [|f IH]; intros b; [discriminate|]. intros H.
  change (next_switch_block bd (S (S f)) b) with
    (if is_switchint bd b then Some (Some b) else
     match successors bd b with [n] => next_switch_block bd (S f) n | _ => Some None end).
  cbn [next_switch_block] in H. destruct (is_switchint bd b); auto.
  destruct (successors bd b) as [|n [|m r']]; auto.
Qed.

Lemma next_switch_mono bd f g b r : f <= g ->
  next_switch_block bd f b = Some r -> next_switch_block bd g b = Some r.
Proof. induction 1; auto. intros H'. apply next_switch_S. auto. Qed.

Lemma next_switch_None_walk bd f : forall b, next_switch_block bd f b = None ->
  exists l c, walk (ForcedStep bd) b l c /\ length l = S f.
Proof.
  induction f as [|f IH]; intros b H.
  - exists [b], b. split; [constructor|auto].
  - cbn [next_switch_block] in H. destruct (is_switchint bd b) eqn:S; [discriminate|].
    destruct (successors bd b) as [|n [|m r]] eqn:E; try discriminate.
    destruct (IH n H) as (l & c & W & L). exists (b :: l), c. split; [|cbn; lia].
    econstructor; eauto. split; auto. apply not_switch_iff; auto.
Qed.

Lemma Forced_lt bd b c : ForcedStep bd b c -> b < length bd /\ c < length bd.
Proof.
  intros [_ E]. assert (I : In c (successors bd b)) by (rewrite E; left; auto).
  unfold successors in I. apply filter_In in I as [I K]. split.
  - unfold raw_successors in I. apply nth_error_Some. destruct (nth_error bd b); [discriminate|destruct I].
  - unfold keep_successor in K. apply nth_error_Some. destruct (nth_error bd c); discriminate.
Qed.

Lemma forced_walk_lt bd b l c : walk (ForcedStep bd) b l c -> b < length bd ->
  forall x, In x l -> x < length bd.
Proof.
  induction 1 as [x|x y l z H W IH]; intros L x0.
  - intros [<-|[]]. auto.
  - intros [<-|I]; auto. apply IH; auto. apply Forced_lt in H. tauto.
Qed.

Lemma pigeon (l : list nat) n : (forall x, In x l -> x < n) -> n < length l -> ~ NoDup l.
Proof.
  intros H L N. assert (length l <= length (seq 0 n)).
  { apply NoDup_incl_length; auto. intros x I. apply in_seq. apply H in I. lia. }
  rewrite seq_length in H0. lia.
Qed.

Lemma not_NoDup_walk {T} (eqd : forall a b : T, {a = b} + {a <> b}) (R : T -> T -> Prop) b l c :
  walk R b l c -> ~ NoDup l ->
  exists x y l1 l2, walk R b l1 x /\ R x y /\ walk R y l2 x.
Proof.
  induction 1 as [x|x y l z H W IH]; intros N.
  - exfalso. apply N. repeat constructor. intros [].
  - destruct (in_dec eqd x l) as [I|I].
    + destruct (walk_split _ _ _ _ _ W I) as (l1 & l2 & W1 & _ & _).
      exists x, y, [x], l1. split; [constructor|auto].
    + destruct IH as (u & v & l1 & l2 & W1 & Ru & W2).
      { intros N'. apply N. constructor; auto. }
      exists u, v, (x :: l1), l2. split; auto. econstructor; eauto.
Qed.

Lemma forever_closed bd b : ForcedForever bd b -> exists c, ForcedStep bd b c /\ ForcedForever bd c.
Proof.
  intros (c & d & l & l' & W & F & W').
  inversion W as [|? y r ? H Wr]; subst.
  - exists d. split; auto. exists c, d, l', l'. auto.
  - exists y. split; auto. exists c, d, r, l'. auto.
Qed.

Lemma forever_None bd f : forall b, ForcedForever bd b -> next_switch_block bd f b = None.
Proof.
  induction f as [|f IH]; intros b H; auto.
  destruct (forever_closed _ _ H) as (c & [S E] & H'). cbn. apply not_switch_iff in S. rewrite S, E. auto.
Qed.

Lemma next_switch_None_iff bd b :
  next_switch_block bd (S (length bd)) b = None <-> ForcedForever bd b.
Proof.
  split; [|apply forever_None].
  intros H. destruct (next_switch_None_walk _ _ _ H) as (l & c & W & L).
  assert (Lb : b < length bd).
  { inversion W as [|? y r ? Hy Wr]; subst; [discriminate|]. apply Forced_lt in Hy. tauto. }
  destruct (not_NoDup_walk Nat.eq_dec _ _ _ _ W) as (x & y & l1 & l2 & W1 & R & W2).
  { eapply pigeon; [apply (forced_walk_lt _ _ _ _ W Lb)|]. lia. }
  exists x, y, l1, l2. auto.
Qed.

Lemma switch_location_None bd l : switch_location bd l = None <-> ForcedForever bd (l_block l).
Proof.
  rewrite <- next_switch_None_iff. unfold switch_location, find_next_switchint.
  destruct (next_switch_block bd (S (length bd)) (l_block l)) as [[c|]|]; split; congruence.
Qed.

Lemma find_next_None bd l :
  (forall fuel, find_next_switchint bd fuel l = None) <-> ForcedForever bd (l_block l).
Proof.
  split.
  - intros H. apply next_switch_None_iff. specialize (H (S (length bd))). unfold find_next_switchint in H.
    destruct (next_switch_block bd (S (length bd)) (l_block l)) as [[c|]|]; congruence.
  - intros H fuel. unfold find_next_switchint. rewrite forever_None; auto.
Qed.

(** Where the search stops, when it is forced to a switch. *)
Lemma forced_to_switch bd b l c : walk (ForcedStep bd) b l c -> Switch bd c ->
  next_switch_block bd (S (length l)) b = Some (Some c).
Proof.
  induction 1 as [x|x y l z [Hs E] W IH]; intros Sw; cbn [length].
  - cbn. apply switch_iff in Sw. rewrite Sw. auto.
  - specialize (IH Sw). change (next_switch_block bd (S (S (length l))) x) with
      (if is_switchint bd x then Some (Some x) else
       match successors bd x with [n] => next_switch_block bd (S (length l)) n | _ => Some None end).
    apply not_switch_iff in Hs. rewrite Hs, E. auto.
Qed.

Lemma switch_location_forced bd a l c : walk (ForcedStep bd) (l_block a) l c -> Switch bd c ->
  exists i, switch_location bd a = Some (Loc c i).
Proof.
  intros W Hs. pose proof (forced_to_switch _ _ _ _ W Hs) as H.
  unfold switch_location, find_next_switchint.
  destruct (next_switch_block bd (S (length bd)) (l_block a)) as [r|] eqn:E.
  - pose proof (next_switch_mono bd (S (length bd)) (S (length bd) + S (length l)) _ _ ltac:(lia) E) as E'.
    pose proof (next_switch_mono bd (S (length l)) (S (length bd) + S (length l)) _ _ ltac:(lia) H) as H'.
    rewrite E' in H'. injection H' as ->. eauto.
  - apply next_switch_None_iff in E. rewrite (forever_None bd (S (length l)) _ E) in H. discriminate.
Qed.

(** ** Forced chains *)

Lemma forced_jump bd a b : WfBody bd -> ForcedStep bd a b -> Jump bd a b.
Proof. intros Wf [_ E]. apply successors_wf; auto. rewrite E. left; auto. Qed.

Lemma forced_only bd a b x : WfBody bd -> ForcedStep bd a b -> Jump bd a x -> x = b.
Proof.
  intros Wf [_ E] J. apply successors_wf in J; auto. rewrite E in J. destruct J as [->|[]]. auto.
Qed.

Lemma forced_or_end bd b l c : WfBody bd -> walk (ForcedStep bd) b l c ->
  forall w x, path bd b w x -> In x l \/ exists w1 w2, path bd b w1 c /\ path bd c w2 x /\ incl w2 w /\
    (b <> c -> incl w2 (tl w)).
Proof.
  intros Wf. induction 1 as [y|y z l c F W IH]; intros w x P.
  - right. exists [y], w. split; [constructor|]. split; auto. split; [apply incl_refl|congruence].
  - inversion P as [|? u r ? J Pr]; subst; [left; left; auto|].
    rewrite (forced_only _ _ _ _ Wf F J) in Pr. destruct (IH _ _ Pr) as [I|(w1 & w2 & H1 & H2 & H3 & _)].
    + left. right. auto.
    + right. exists (y :: w1), w2. split; [apply walk_cons with z; auto; apply forced_jump; auto|].
      split; auto. split; [intros k I; right; auto|]. intros _. exact H3.
Qed.

Lemma returns_no_jump bd e x : Returns bd e -> Jump bd e x -> False.
Proof.
  intros (d & E & T) [(d' & E' & I) _]. rewrite E in E'. injection E' as <-. rewrite T in I. inversion I.
Qed.

(** Every member of a forced chain lies on every path to the return. *)
Lemma forced_passes bd b l c : WfBody bd -> walk (ForcedStep bd) b l c ->
  forall x w e, In x l -> path bd b w e -> Returns bd e -> In x w.
Proof.
  intros Wf. induction 1 as [y|y z l c F W IH]; intros x w e I P R.
  - destruct I as [<-|[]]. eapply walk_start_In; eauto.
  - destruct I as [<-|I]; [eapply walk_start_In; eauto|].
    inversion P as [|? u r ? J Pr]; subst.
    + exfalso. eapply returns_no_jump; eauto. apply forced_jump; eauto.
    + rewrite (forced_only _ _ _ _ Wf F J) in Pr. right. eapply IH; eauto.
Qed.

Lemma forced_path bd b l c : WfBody bd -> walk (ForcedStep bd) b l c -> path bd b l c.
Proof. intros Wf. apply walk_mono. intros x y. apply forced_jump. auto. Qed.

Lemma path_end_normal bd a l b : path bd a l b -> b = a \/ Normal bd b.
Proof.
  induction 1 as [x|x y l z J W IH]; auto. destruct IH as [->|N]; auto. right. apply J.
Qed.

Lemma reachable_normal bd b p : WfBody bd -> path bd 0 p b ->
  (exists c, Jump bd b c) \/ Returns bd b -> Normal bd b.
Proof.
  intros Wf P H. destruct (path_end_normal _ _ _ _ P) as [E|N]; auto. subst b.
  destruct Wf as [(d & E & C) _]. exists d. split; auto. split; auto. intros T.
  destruct H as [[c [(d' & E' & I) _]]|(d' & E' & T')]; rewrite E in E'; injection E' as <-.
  - rewrite T in I. inversion I.
  - congruence.
Qed.

Lemma chain_linear bd a p l c x : WfBody bd -> ReturnsNormal bd -> Structured bd ->
  path bd 0 p a -> walk (ForcedStep bd) a l c -> In x l ->
  (exists e q, Returns bd e /\ path bd c q e) -> post_dominates bd x a = true.
Proof.
  intros Wf RN St P W I (e & q & Re & Q). pose proof (forced_path _ _ _ _ Wf W) as Wc.
  pose proof (walk_app _ _ _ _ _ _ Wc Q) as Wae.
  destruct (str_return _ St) as (e0 & _ & Un).
  apply post_dominates_iff; auto.
  - eapply reachable_normal; eauto. inversion Wae as [|? u r ? J _]; subst; eauto.
  - destruct (walk_split _ _ _ _ _ Wc I) as (l1 & l2 & W1 & _ & _).
    pose proof (walk_app _ _ _ _ _ _ P W1) as Px.
    destruct (path_end_normal _ _ _ _ Px) as [->|(d & E & _)].
    + destruct Wf as [(d & E & _) _]. apply nth_error_Some. congruence.
    + apply nth_error_Some. congruence.
  - intros e1 R1. assert (e1 = e) by (rewrite (Un e Re); auto). subst e1. split; [eauto|].
    intros w Pw. eapply forced_passes; eauto.
Qed.

Lemma ldom_block bd A B p : WfBody bd -> path bd 0 p (l_block B) -> ldominates bd A B = true ->
  Dom (Jump bd) 0 (l_block A) (l_block B).
Proof.
  intros Wf P. unfold ldominates. destruct (Nat.eqb_spec (l_block A) (l_block B)) as [->|N].
  - intros _. apply Dom_refl.
  - intros H. apply dominates_iff in H as [_ H]; auto.
Qed.

Lemma lpost_of_block bd L C : ldominates bd C L = true ->
  (l_block C <> l_block L -> post_dominates bd (l_block L) (l_block C) = true) ->
  lpost_dominates bd L C = true.
Proof.
  unfold ldominates, lpost_dominates. intros D H. rewrite (Nat.eqb_sym (l_block L)).
  destruct (Nat.eqb_spec (l_block C) (l_block L)); auto.
Qed.

Lemma nonlinear_progress bd ord cur L : WfBody bd -> ReturnsNormal bd -> Structured bd -> Order ord ->
  ReachableLoc bd cur -> ReachableLoc bd L ->
  ldominates bd cur L = true -> lpost_dominates bd L cur = false ->
  exists sw phi, switch_location bd cur = Some sw /\ join_of bd ord sw = Some phi /\
    (ldominates bd phi L = true ->
     dominates bd (l_block cur) (l_block phi) = true /\ l_block cur <> l_block phi).
Proof.
  intros Wf RN St O Rc RL D NL.
  assert (Ex : exists e, Returns bd e) by (destruct (str_return _ St) as (e & H & _); eauto).
  destruct (ReachableLoc_block _ _ Rc) as [p P]. destruct (ReachableLoc_block _ _ RL) as [q Q].
  destruct (str_forced _ St _ _ P) as (c & l & W & End).
  pose proof (ldom_block _ _ _ _ Wf Q D) as Dax.
  (* the target location cannot be on the forced chain *)
  assert (Off : (exists e r, Returns bd e /\ path bd c r e) -> ~ In (l_block L) l).
  { intros He I. rewrite lpost_of_block in NL; auto; [discriminate|].
    intros _. eapply chain_linear; eauto. }
  destruct (walk_last Nat.eq_dec _ _ _ _ (l_block cur) Q (Dax q Q)) as (l2 & W2 & N2 & _).
  destruct (forced_or_end bd _ _ _ Wf W _ _ W2) as [I|(w1 & w2 & H1 & H2 & H3 & H4)].
  { exfalso. revert I. apply Off.
    destruct End as [Sw|R].
    - pose proof (walk_app _ _ _ _ _ _ P (forced_path _ _ _ _ Wf W)) as Pc.
      destruct (str_join _ St _ _ Pc Sw) as [[m C] _]. destruct Ex as [e Re].
      destruct C as [_ C]. destruct (C c) with (e := e) as [[r Pr] _]; auto.
      + split; [eauto|]. intros w Pw. eapply walk_end_In; eauto.
      + eauto.
    - exists c, [c]. split; auto. constructor. }
  destruct End as [Sw|R].
  2:{ exfalso. inversion H2 as [|? u r ? J _]; subst; [|eapply returns_no_jump; eauto].
      apply Off; [exists (l_block L), [l_block L]; split; auto; constructor|].
      eapply walk_end_In; eauto. }
  pose proof (walk_app _ _ _ _ _ _ P (forced_path _ _ _ _ Wf W)) as Pc.
  destruct (str_join _ St _ _ Pc Sw) as [CL JN].
  destruct (switch_location_forced _ _ _ _ W Sw) as [i Hi].
  destruct (proj2 (least_post_dominator_present bd ord c Wf RN Ex O)) as [j Hj]; [auto|].
  exists (Loc c i), (Loc j 0). split; auto. split; [unfold join_of; cbn; rewrite Hj; auto|].
  intros Dp. cbn [l_block].
  destruct (least_post_dominator_unfold bd ord c Wf RN Ex O j Hj) as (m & _ & (Njc & _ & Wj & _) & _).
  assert (Hno : ldominates bd (Loc j 0) cur = true -> False).
  { intros Dj. pose proof (ldom_block _ _ _ _ Wf P Dj) as Dja. cbn in Dja.
    destruct Wj as [Pj Dcj]. pose proof (Dom_trans _ _ _ _ _ Dcj Dja) as Dca.
    assert (Nca : c <> l_block cur).
    { intros E. apply Njc. rewrite <- E in Dja. symmetry.
      exact (Dom_antisym Nat.eq_dec _ _ _ _ Pj Dcj Dja). }
    assert (N2' : ~ In (l_block cur) w2).
    { intros I. apply N2. apply H4 in I; auto. }
    destruct (walk_first Nat.eq_dec _ _ _ _ c Pc (walk_end_In _ _ _ _ Pc)) as (l1 & Wl1 & Nl1 & _).
    pose proof (not_before_dom Nat.eq_dec _ _ _ _ _ Dca Nca Wl1 Nl1) as Na.
    pose proof (Dax _ (walk_app _ _ _ _ _ _ Wl1 H2)) as I.
    rewrite <- app_assoc in I. apply in_app_or in I as [I|I]; [contradiction|].
    destruct (walk_head _ _ _ _ H2) as [r ->]. cbn in I. destruct I as [I|I]; [congruence|].
    apply N2'. right. auto. }
  assert (Rphi : ReachableLoc bd (Loc j 0)).
  { eapply (join_reachable bd ord (Loc c i)); eauto. unfold join_of. cbn. rewrite Hj. auto. }
  destruct (ldominates_chain bd cur (Loc j 0) L) as [E|E]; auto; try (apply ReachableLoc_valid; auto).
  - unfold ldominates in E. cbn [l_block l_idx] in E.
    destruct (Nat.eqb_spec (l_block cur) j) as [Ej|Nj]; [|auto].
    exfalso. apply Hno. unfold ldominates. cbn. rewrite Ej, Nat.eqb_refl. reflexivity.
Qed.

(** ** The measure *)

Definition depth (bd : body) (b : nat) : nat :=
  length (filter (fun d => dominates bd d b) (seq 0 (length bd))).

Lemma filter_le {A} (f : A -> bool) l : length (filter f l) <= length l.
Proof. induction l as [|x r IH]; cbn; auto. destruct (f x); cbn; lia. Qed.

Lemma depth_le bd b : depth bd b <= length bd.
Proof. unfold depth. etransitivity; [apply filter_le|]. rewrite seq_length. auto. Qed.

Lemma depth_lt bd a b : WfBody bd -> dominates bd a b = true -> a <> b -> depth bd a < depth bd b.
Proof.
  intros Wf D N. unfold depth. set (fa := filter _ _). set (fb := filter _ _).
  assert (length (b :: fa) <= length fb); [|cbn in H; lia].
  apply NoDup_incl_length.
  - constructor; [|apply NoDup_filter, seq_NoDup]. unfold fa. rewrite filter_In. intros [_ E].
    apply N. apply (dominates_antisym bd); auto.
  - pose proof D as D'. apply dominates_iff in D' as [[p P] Dab]; auto.
    assert (Lb : b < length bd).
    { destruct (path_end_normal _ _ _ _ P) as [->|(d & E & _)].
      - destruct Wf as [(d & E & _) _]. apply nth_error_Some. congruence.
      - apply nth_error_Some. congruence. }
    intros x [<-|I]; unfold fb; apply filter_In.
    + split; [apply in_seq; lia|]. apply dominates_iff; auto. split; [eauto|apply Dom_refl].
    + unfold fa in I. apply filter_In in I as [I E]. split; auto.
      apply dominates_iff in E as [_ E]; auto. apply dominates_iff; auto. split; [eauto|].
      exact (Dom_trans _ _ _ _ _ E Dab).
Qed.

Definition user_arm (s : st) (cid : nat) : bool :=
  match find_containing_branch s cid with
  | Some p => memb Nat.eq_dec p (map fst (spanners s))
  | None => false
  end.

Definition weight (bd : body) (L : loc) (s : st) (b : builder) : nat :=
  if user_arm s (bl_coll b) && ldominates bd (bl_cur b) L
  then S (length bd) - depth bd (l_block (bl_cur b)) else 0.

Definition total (bd : body) (L : loc) (s : st) : nat :=
  list_sum (map (weight bd L s) (processing s)).

Lemma find_app {A} (f : A -> bool) l1 l2 :
  find f (l1 ++ l2) = match find f l1 with Some x => Some x | None => find f l2 end.
Proof. induction l1 as [|x r IH]; cbn; auto. destruct (f x); auto. Qed.

Lemma enumerate_app {A} (l : list A) x : enumerate (l ++ [x]) = enumerate l ++ [(length l, x)].
Proof.
  apply nth_error_ext. intros i. rewrite nth_error_enumerate.
  destruct (Nat.lt_trichotomy i (length l)) as [L|[->|L]].
  - rewrite !nth_error_app1 by (rewrite ?enumerate_length; auto). rewrite nth_error_enumerate. auto.
  - rewrite !nth_error_app2 by (rewrite ?enumerate_length; auto).
    rewrite enumerate_length, Nat.sub_diag. auto.
  - rewrite !nth_error_app2 by (rewrite ?enumerate_length; lia).
    rewrite enumerate_length. destruct (i - length l) as [|[|k]] eqn:E; [lia| |]; auto.
Qed.

Lemma find_containing_None s cid : (forall b, In b (branches s) -> ~ In cid (br_nested b)) ->
  find_containing_branch s cid = None.
Proof.
  intros H. unfold find_containing_branch. destruct (find _ _) as [[i b]|] eqn:F; auto.
  apply find_some in F as [I M]. cbn in M. apply memb_In in M. apply enumerate_In in I.
  apply nth_error_In in I. exfalso. eapply H; eauto.
Qed.

Lemma branched_user_arm_old bd s l sw phi i b sp cid : Shape s -> cid < length (colls s) ->
  user_arm (branched bd s l sw phi i b sp (spanners s)) cid = user_arm s cid.
Proof.
  intros Sh L. unfold user_arm, find_containing_branch. cbn [branches branched spanners].
  rewrite enumerate_app, find_app.
  destruct (find _ (enumerate (branches s))) as [[k bk]|]; auto. cbn.
  destruct (memb Nat.eq_dec cid _) eqn:M; auto.
  apply memb_In, in_seq in M. lia.
Qed.

Lemma branched_user_arm_new bd s l sw phi i b sp cid : Shape s -> length (colls s) <= cid ->
  user_arm (branched bd s l sw phi i b sp (spanners s)) cid = false.
Proof.
  intros Sh L. unfold user_arm.
  destruct (find_containing_branch _ cid) as [p|] eqn:F; auto.
  apply memb_not_In. intros I. apply (sh_user s Sh) in I. apply find_containing_Some in F as (bk & E & J).
  cbn [branches branched] in E. rewrite nth_error_app1 in E by auto.
  apply nth_error_In in E. pose proof (nested_nonzero s bk cid Sh E J). lia.
Qed.

Lemma list_sum_upd (f g : builder -> nat) l i b (h : builder -> builder) :
  nth_error l i = Some b -> g (h b) < f b ->
  (forall x, In x l -> g x = f x) ->
  list_sum (map g (upd l i h)) < list_sum (map f l).
Proof.
  intros E Lt Eq. destruct (upd_split l i h b E) as (l1 & l2 & E1 & _ & E2). rewrite E2. rewrite E1 in *.
  rewrite !map_app, !list_sum_app.
  change (list_sum (map g (h b :: l2))) with (g (h b) + list_sum (map g l2)).
  change (list_sum (map f (b :: l2))) with (f b + list_sum (map f l2)).
  assert (Q : forall l', (forall x, In x l' -> In x (l1 ++ b :: l2)) -> list_sum (map g l') = list_sum (map f l')).
  { intros l' Hl. f_equal. apply map_ext_in. intros x I. apply Eq. auto. }
  rewrite (Q l1), (Q l2); [lia| |]; intros x I; apply in_app_iff; cbn; auto.
Qed.

Lemma list_sum_zero {A} (f : A -> nat) l : (forall x, In x l -> f x = 0) -> list_sum (map f l) = 0.
Proof. induction l as [|x r IH]; intros H; auto.
  change (list_sum (map f (x :: r))) with (f x + list_sum (map f r)).
  rewrite H, IH; auto; [intros y I; apply H; right; auto|left; auto]. Qed.

Lemma total_with_table bd L s t : total bd L (with_table s t) = total bd L s.
Proof. reflexivity. Qed.

Lemma child_decreases fw bd ord s L p cur s' :
  WfBody bd -> ReturnsNormal bd -> Structured bd -> Order ord ->
  Shape s -> (forall b, In b (processing s) -> ReachableLoc bd (bl_cur b)) -> ReachableLoc bd L ->
  find_suitable_collection bd s L = FrNonLinear p cur ->
  open_child_branch fw bd ord s p cur = Val (s', true) -> total bd L s' < total bd L s.
Proof.
  intros Wf RN St O Sh Rb RL F OC.
  destruct (child_facts _ _ _ _ _ _ _ _ Wf F OC)
      as (sw & i & b & sp & pb & cb & Hsw & Eb & El & Hsp & Epb & Inb & H). cbn zeta in H.
  destruct H as (_ & _ & ->). rewrite total_with_table. clear OC.
  pose proof F as F'. apply find_suitable_NonLinear in F' as (i0 & b0 & pb0 & G1 & G2 & G3 & G4 & G5).
  assert (D : ldominates bd cur L = true).
  { apply find_builder_Some in G1 as (_ & G1 & _). congruence. }
  assert (NL : lpost_dominates bd L cur = false) by congruence.
  assert (Rc : ReachableLoc bd cur).
  { rewrite <- El. apply Rb. eapply nth_error_In; eauto. }
  destruct (nonlinear_progress bd ord cur L) as (sw' & phi & Hsw' & Hphi & Prog); auto.
  assert (sw' = sw) by congruence. subst sw'. rewrite Hphi.
  unfold total. cbn [processing branched]. rewrite map_app, list_sum_app.
  match goal with |- _ + ?z < _ => assert (Z : z = 0) end.
  { apply list_sum_zero. intros x I. apply in_map_iff in I as ([c a] & <- & I).
    unfold weight. cbn [bl_coll fst snd]. rewrite branched_user_arm_new; auto.
    apply in_combine_l in I. apply in_seq in I. lia. }
  rewrite Z, Nat.add_0_r. eapply list_sum_upd; eauto.
  - unfold weight. cbn [bl_coll bl_cur].
    assert (Lc : bl_coll b < length (colls s)) by (apply (sh_proc_lt s Sh); eapply nth_error_In; eauto).
    rewrite branched_user_arm_old by auto.
    assert (U : user_arm s (bl_coll b) = true).
    { unfold user_arm. destruct (find_containing_branch s (bl_coll b)) as [q|] eqn:Fq.
      - apply find_containing_Some in Fq as (bq & Eq & Iq).
        assert (N2 : NoDup (flat_map br_nested (branches s))).
        { pose proof (seq_NoDup (length (colls s)) 0) as N. rewrite <- (sh_nested s Sh) in N.
          inversion N; auto. }
        assert (q = p) by exact (flat_map_unique br_nested _ N2 q p bq pb (bl_coll b) Eq Epb Iq Inb).
        subst q.
        apply memb_In. apply aget_Some_In in Hsp. apply in_map_iff. exists (p, sp). auto.
      - exfalso. unfold find_containing_branch in Fq.
        destruct (find _ (enumerate (branches s))) as [x|] eqn:Fx; [discriminate|].
        pose proof (find_none _ _ Fx (p, pb)) as Z'. cbn in Z'.
        rewrite (proj2 (memb_In Nat.eq_dec (bl_coll b) (br_nested pb)) Inb) in Z'.
        apply enumerate_In in Epb. apply Z' in Epb. discriminate. }
    rewrite U, El, D. cbn [andb]. pose proof (depth_le bd (l_block cur)).
    destruct (ldominates bd phi L) eqn:Dp.
    + destruct (Prog eq_refl) as [Q1 Q2]. pose proof (depth_lt bd _ _ Wf Q1 Q2).
      pose proof (depth_le bd (l_block phi)). lia.
    + lia.
  - intros x I. unfold weight. rewrite branched_user_arm_old; auto. apply (sh_proc_lt s Sh); auto.
Qed.

Lemma insert_mono fw bd ord f : forall s l span r, insert fw bd ord f s l span = r -> r <> Loop ->
  insert fw bd ord (S f) s l span = r.
Proof.
  induction f as [|f IH]; intros s l span r H N; [cbn in H; congruence|].
  change (insert fw bd ord (S (S f)) s l span) with
    (match find_suitable_collection bd s l with
     | FrNone => Val (s, true)
     | FrNonLinear parent branch_loc =>
       bind (open_child_branch fw bd ord s parent branch_loc) (fun r =>
        match r with
        | (s', true) => insert fw bd ord (S f) s' l span
        | (s', false) => Val (s', false)
        end)
     | FrLinear i b => bind (insert_linear bd s i b l span) (fun s' => Val (s', true))
     end).
  cbn [insert] in H. destruct (find_suitable_collection bd s l); auto.
  destruct (open_child_branch fw bd ord s bid l0) as [[s' [|]]| |]; cbn in *; auto.
Qed.

Lemma insert_terminates fw bd ord L span :
  WfBody bd -> ReturnsNormal bd -> Structured bd -> Order ord -> ReachableLoc bd L ->
  forall n s, total bd L s < n -> Steps (ReachableLoc bd) fw bd ord make s ->
  insert fw bd ord n s L span <> Loop.
Proof.
  intros Wf RN St O RL.
  assert (Ex : exists r, ReturnLoc bd r).
  { destruct (str_return _ St) as (e & (d & E & T) & _). exists (Loc e (b_stmts d)).
    exists d. cbn. auto. }
  induction n as [|n IH]; intros s Lt R; [lia|].
  pose proof (Shape_Steps _ _ _ _ _ R) as Sh.
  pose proof (Sound_Steps _ _ _ _ Wf RN Ex O R) as So.
  cbn [insert]. destruct (find_suitable_collection bd s L) as [|p cur|i b] eqn:F; [discriminate| |].
  - destruct (open_child_branch fw bd ord s p cur) as [[s' [|]]| |] eqn:OC; cbn; try discriminate.
    + apply IH.
      * pose proof (child_decreases fw bd ord s L p cur s' Wf RN St O Sh (so_cur _ _ So) RL F OC). lia.
      * econstructor; [exact R|]. eapply prim_child; eauto.
    + exfalso. pose proof F as F'. apply find_suitable_NonLinear in F' as (i0 & b0 & pb0 & G1 & G2 & G3 & G4 & G5).
      assert (D : ldominates bd cur L = true).
      { apply find_builder_Some in G1 as (_ & G1 & _). congruence. }
      destruct (nonlinear_progress bd ord cur L) as (sw & phi & Hsw & _); auto.
      * subst cur. apply (so_cur _ _ So). apply find_builder_lookup in G1. eapply nth_error_In; eauto.
      * congruence.
      * unfold open_child_branch, mk_branch in OC. rewrite Hsw in OC.
        destruct (find_builder bd s cur) as [[k bk]|]; [|discriminate].
        destruct (loc_eqd (bl_cur bk) cur); [|discriminate].
        destruct (lookup_spanner s (GetFrom p)); [|discriminate]. cbn [bind] in OC.
        destruct (nth_error _ p); [|discriminate]. destruct (nth_error _ _); discriminate.
  - unfold insert_linear. destruct (nth_error (colls s) (bl_coll b)); discriminate.
Qed.

(** ** When inserting never ends *)

Lemma find_builder_intro bd s l i b :
  nth_error (processing s) i = Some b -> ldominates bd (bl_cur b) l = true ->
  (forall j b', i < j -> nth_error (processing s) j = Some b' -> ldominates bd (bl_cur b') l = false) ->
  find_builder bd s l = Some (i, b).
Proof.
  intros E D N. destruct (find_builder_exists bd s l i b E D) as (j & b' & F).
  pose proof (find_builder_Some _ _ _ _ _ F) as (E' & D' & N').
  destruct (Nat.lt_trichotomy i j) as [L|[->|L]].
  - rewrite (N j b' L E') in D'. discriminate.
  - congruence.
  - rewrite (N' i b L E) in D. discriminate.
Qed.

(** The builder that is found cannot take the location, its switch has no join,
    and none of the arms leads to the location either. *)
Definition Stuck (bd : body) (ord : list nat -> list nat) (s : st) (L : loc) : Prop :=
  exists p cur sp sw,
    find_suitable_collection bd s L = FrNonLinear p cur /\
    aget Nat.eq_dec (spanners s) p = Some sp /\
    switch_location bd cur = Some sw /\ join_of bd ord sw = None /\
    forall n, In n (successors bd (l_block sw)) ->
      ldominates bd (fst (get_span bd sp (Loc n 0))) L = false.

Lemma find_containing_app s s' x cid : branches s' = branches s ++ [x] ->
  forall p, find_containing_branch s cid = Some p -> find_containing_branch s' cid = Some p.
Proof.
  intros E p. unfold find_containing_branch. rewrite E, enumerate_app, find_app.
  destruct (find _ (enumerate (branches s))) as [y|]; [auto|discriminate].
Qed.

Lemma Stuck_step fw bd ord s L : WfBody bd -> Shape s -> Stuck bd ord s L ->
  exists p cur s', find_suitable_collection bd s L = FrNonLinear p cur /\
    open_child_branch fw bd ord s p cur = Val (s', true) /\ Stuck bd ord s' L.
Proof.
  intros Wf Sh (p & cur & sp & sw & F & Hsp & Hsw & J & Na).
  exists p, cur. unfold open_child_branch, mk_branch. rewrite Hsw.
  pose proof F as F'. unfold find_suitable_collection in F'.
  destruct (find_builder bd s L) as [[i b]|] eqn:Fb; [|discriminate].
  destruct (lpost_dominates bd L (bl_cur b)) eqn:Lp; [discriminate|].
  destruct (find_containing_branch s (bl_coll b)) as [q|] eqn:Fc; [|discriminate].
  injection F' as -> <-.
  rewrite (find_builder_self bd s L i b Wf Fb). destruct (loc_eqd (bl_cur b) (bl_cur b)); [|congruence].
  unfold lookup_spanner. rewrite Hsp. cbn [bind]. unfold join_of in J. rewrite J.
  pose proof (find_containing_Some _ _ _ Fc) as (pb & Epb & Ipb).
  cbn [branches]. rewrite (nth_error_prefix _ _ _ _ Epb).
  rewrite nth_error_app2, Nat.sub_diag by lia. cbn [nth_error].
  eexists. split; [exact F|]. split; [reflexivity|].
  exists p, (bl_cur b), sp, sw. cbn [spanners with_table]. unfold join_of. rewrite J.
  split; [|auto]. pose proof (find_builder_Some _ _ _ _ _ Fb) as (E & D & N).
  unfold find_suitable_collection.
  erewrite (find_builder_intro bd _ L i (Builder (bl_coll b) (bl_cur b))).
  - cbn [bl_cur bl_coll]. rewrite Lp.
    erewrite find_containing_app with (s := s); [|reflexivity|exact Fc]. reflexivity.
  - cbn [processing with_table]. rewrite nth_error_app1 by (rewrite upd_length; apply nth_error_Some; congruence).
    rewrite upd_nth, E. cbn. rewrite Nat.eqb_refl. reflexivity.
  - exact D.
  - intros j b' Lj Ej. cbn [processing with_table] in Ej.
    destruct (Nat.lt_ge_cases j (length (processing s))) as [Lt|Ge].
    + rewrite nth_error_app1 in Ej by (rewrite upd_length; auto). rewrite upd_nth in Ej.
      destruct (nth_error (processing s) j) as [b0|] eqn:E0; [|discriminate]. cbn in Ej.
      destruct (Nat.eqb_spec j i); [lia|]. injection Ej as <-. eapply N; eauto.
    + rewrite nth_error_app2 in Ej by (rewrite upd_length; auto). apply nth_error_In in Ej.
      apply in_map_iff in Ej as ([c a] & <- & I). cbn [bl_cur fst snd].
      apply in_combine_r in I. apply in_map_iff in I as (n & <- & I). auto.
Qed.

Lemma Stuck_diverges fw bd ord L span : WfBody bd -> forall fuel s,
  Steps (fun _ => True) fw bd ord make s -> Stuck bd ord s L ->
  insert fw bd ord fuel s L span = Loop.
Proof.
  intros Wf. induction fuel as [|f IH]; intros s R K; auto.
  destruct (Stuck_step fw bd ord s L Wf (Shape_Steps _ _ _ _ _ R) K) as (p & cur & s' & F & O & K').
  cbn [insert]. rewrite F, O. cbn. apply IH; auto.
  econstructor; [exact R|]. eapply prim_child; eauto.
Qed.

(** ** Crashes *)

Lemma UserBranch_aget s p : UserBranch s p <-> exists sp, aget Nat.eq_dec (spanners s) p = Some sp.
Proof.
  unfold UserBranch. split.
  - intros I. destruct (aget Nat.eq_dec (spanners s) p) as [sp|] eqn:E; eauto.
    apply aget_None in E. contradiction.
  - intros [sp E]. apply aget_Some_In in E. apply in_map_iff. exists (p, sp). auto.
Qed.

(** An implicit branch can be opened exactly below a branch of the visitor. *)
Lemma child_panic_iff fw bd ord s L p cur : WfBody bd ->
  find_suitable_collection bd s L = FrNonLinear p cur -> ~ ForcedForever bd (l_block cur) ->
  (open_child_branch fw bd ord s p cur = Panic <-> ~ UserBranch s p).
Proof.
  intros Wf F NF. rewrite UserBranch_aget. unfold open_child_branch, mk_branch.
  destruct (switch_location bd cur) as [sw|] eqn:Hsw.
  2:{ apply switch_location_None in Hsw. contradiction. }
  pose proof F as F'. apply find_suitable_NonLinear in F' as (i & b & pb & G1 & _ & -> & G4 & _).
  rewrite (find_builder_self bd s L i b Wf G1).
  destruct (loc_eqd (bl_cur b) (bl_cur b)); [|congruence]. unfold lookup_spanner.
  destruct (aget Nat.eq_dec (spanners s) p) as [sp|] eqn:Hsp; cbn [bind].
  - cbn [branches]. rewrite (nth_error_prefix _ _ _ _ G4).
    rewrite nth_error_app2, Nat.sub_diag by lia. cbn. split; [discriminate|].
    intros N. exfalso. apply N. eauto.
  - split; auto. intros _ [sp E]. discriminate.
Qed.

Lemma insert_panic fw bd ord L span : WfBody bd -> forall fuel s,
  Steps (fun _ => True) fw bd ord make s -> insert fw bd ord fuel s L span = Panic ->
  exists s' p cur, Steps (fun _ => True) fw bd ord s s' /\
    find_suitable_collection bd s' L = FrNonLinear p cur /\ ~ UserBranch s' p.
Proof.
  intros Wf. induction fuel as [|f IH]; intros s R; cbn [insert]; [discriminate|].
  destruct (find_suitable_collection bd s L) as [|p cur|i b] eqn:F; [discriminate| |].
  - destruct (open_child_branch fw bd ord s p cur) as [[s' [|]]| |] eqn:O; cbn; try discriminate.
    + intros H. assert (St : Steps (fun _ => True) fw bd ord s s').
      { econstructor; [constructor|]. eapply prim_child; eauto. }
      destruct (IH s') as (s2 & q & c2 & H1 & H2 & H3); auto.
      { eapply Steps_trans; eauto. }
      exists s2, q, c2. split; auto. eapply Steps_trans; eauto.
    + intros _. exists s, p, cur. split; [constructor|]. split; auto.
      destruct (switch_location bd cur) as [sw|] eqn:Hsw.
      * eapply child_panic_iff; eauto. intros Fv. apply switch_location_None in Fv. congruence.
      * unfold open_child_branch, mk_branch in O. rewrite Hsw in O. discriminate.
  - pose proof (find_suitable_Linear _ _ _ _ _ F) as [Fb _].
    unfold insert_linear. destruct (nth_error (colls s) (bl_coll b)) eqn:E; [discriminate|].
    intros _. exfalso. apply nth_error_None in E.
    pose proof (sh_proc_lt s (Shape_Steps _ _ _ _ _ R) b). apply find_builder_lookup in Fb.
    apply nth_error_In in Fb. specialize (H Fb). lia.
Qed.
