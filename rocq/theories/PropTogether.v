(** * C116: runs at the same time do not disturb each other *)
From Coq Require Import List Arith Bool Lia.
From Verif Require Import Base TogetherModel TogetherSpec TogetherProofs.
Import ListNotations.

(** However many runs there are and whatever is scheduled, with timeouts,
    clients that go away, processes left behind and crashes: what a run answers
    was computed from the program it was asked about. *)
Theorem C116_own (es : list event) (w : world) (i : nat) (r : run) (op : oper) (seen : list (option text)) :
  Leads es w -> IsRun w i r -> In (op, seen) (r_answers r) -> Only (r_code r) seen.
Proof. intros L R X. destruct (inv_leads es w L) as (_ & I & _). destruct (I i r R) as [A _]. eapply A; eauto. Qed.

(** A run that has ended well has one answer per operation, in their order. *)
Theorem C116_each (es : list event) (w : world) (i : nat) (r : run) :
  Leads es w -> IsRun w i r -> r_phase r = Done -> map fst (r_answers r) = r_ops r.
Proof. intros L R P. destruct (inv_leads es w L) as (_ & I & _). destruct (I i r R) as [_ G]. rewrite P in G. exact G. Qed.

(** Whatever ended well among others could have ended so alone. *)
Theorem C116_alone (es : list event) (w : world) (i : nat) (r : run) :
  Leads es w -> IsRun w i r -> r_phase r = Done -> exists es' w', Leads es' w' /\ w_runs w' = [r].
Proof.
  intros L R P. apply alone_happens; [|exact P]. destruct (inv_leads es w L) as (_ & I & _). destruct (I i r R) as [A G].
  split; [exact A|]. rewrite P in *. exact G.
Qed.

(** No two runs have one directory at the same time. *)
Theorem C116_separate (es : list event) (w : world) (i j : nat) (r s : run) (d : nat) :
  Leads es w -> IsRun w i r -> IsRun w j s -> WorksIn r d -> WorksIn s d -> i = j.
Proof.
  intros L R S0 H1 H2. destruct (inv_leads es w L) as (_ & _ & I).
  assert (K : forall t, WorksIn t d -> held (r_phase t) = Some d).
  { intros t [(p & E)|[E|[(l & E)|(p & op & l & E)]]]; rewrite E; reflexivity. }
  exact (I i j r s d R S0 (K r H1) (K s H2)).
Qed.

(** No run fails because of another one, if none is given up on before its
    `cargo new` has made the project. *)
Theorem C116_fails_partial (es : list event) (w : world) (i : nat) (r : run) :
  Patient es -> Leads es w -> IsRun w i r -> r_phase r = Failed -> In (GiveUp i) es.
Proof.
  revert w r. induction es as [|e es IH] using rev_ind; intros w r P L R F.
  - injection L as <-. destruct i; discriminate.
  - apply leads_snoc in L. destruct L as (w0 & L0 & H). pose proof (patient_snoc _ _ P) as P0.
    destruct (fails_step w0 e w i r) as [->|(r0 & R0 & F0)]; auto.
    + eapply inv_leads; eauto.
    + eapply quiet_leads; eauto.
    + apply in_or_app. right. left. reflexivity.
    + apply in_or_app. left. eapply IH; eauto.
Qed.

(** The directories that there are belong to runs that have not ended, if also
    nothing crashes. *)
Theorem C116_cleared_partial (es : list event) (w : world) :
  Patient es -> ~ In Crash es -> Leads es w ->
  (forall i r, IsRun w i r -> Over r) -> forall d, ~ Exists w d.
Proof.
  intros P N L O d X. destruct (held_leads es w P N L d X) as (i & r & R & H).
  destruct (O i r R) as [E|[E|[E|E]]]; rewrite E in H; discriminate.
Qed.

(** Otherwise a run may fail for what another one left behind: the late `cargo
    new` of a request that has timed out makes its project in the directory of
    the next one, if that got the same name. *)
Theorem C116_fails_refuted (d : nat) (c0 c1 : text) (o0 o1 : list oper) :
  exists es w r, Leads es w /\ IsRun w 1 r /\ r_code r = c1 /\ r_ops r = o1 /\ r_phase r = Failed /\
    ~ In (GiveUp 1) es /\ ~ In Crash es /\ forall p, ~ In (Kill p) es.
Proof.
  exists [Submit c0 o0; Submit c1 o1; Open 0 d; GiveUp 0; Open 1 d; Create 0; Create 1; MadeIt 1].
  eexists. eexists. split; [|split; [|split; [|split; [|split; [|split; [|split]]]]]].
  - unfold Leads, happens. cbn [happen start w_runs app nth_error r_phase w_dirs w_procs w_next dget aget running].
    unfold give_up. cbn. destruct (Nat.eq_dec d d) as [_|]; [|congruence]. cbn.
    destruct (Nat.eq_dec d d) as [_|]; [|congruence]. cbn.
    destruct (Nat.eq_dec d d) as [_|]; [|congruence]. cbn.
    destruct (Nat.eq_dec d d) as [_|]; [|congruence]. cbn. reflexivity.
  - reflexivity.
  - reflexivity.
  - reflexivity.
  - reflexivity.
  - cbn. intuition discriminate.
  - cbn. intuition discriminate.
  - intros p. cbn. intuition discriminate.
Qed.

(** And a directory may stay for ever, with no run left. *)
Theorem C116_cleared_refuted (d : nat) (c : text) (o : list oper) :
  exists es w, Leads es w /\ ~ In Crash es /\ (forall i r, IsRun w i r -> Over r) /\ Exists w d.
Proof.
  exists [Submit c o; Open 0 d; GiveUp 0; Create 0]. eexists. split; [|split; [|split]].
  - unfold Leads, happens. cbn [happen start w_runs app nth_error r_phase w_dirs w_procs w_next dget aget running].
    unfold give_up. cbn. destruct (Nat.eq_dec d d) as [_|]; [|congruence]. cbn. reflexivity.
  - cbn. intuition discriminate.
  - intros [|[|i]] r R; try discriminate. injection R as <-. right. left. reflexivity.
  - unfold Exists. cbn. destruct (Nat.eq_dec d d); congruence.
Qed.

(** What a run that has ended has answered, and how it ended, stays: no timeout,
    crash or other run changes it. *)
Theorem C116_ended (es es' : list event) (w w' : world) (i : nat) (r : run) :
  Leads es w -> IsRun w i r -> Ended r -> Leads (es ++ es') w' -> IsRun w' i r.
Proof.
  intros L R E L'. unfold Leads in *. rewrite happens_app, L in L'. clear L.
  revert w R L'. induction es' as [|e es' IH]; intros w R L'; cbn [happens] in L'.
  - injection L' as <-. exact R.
  - destruct (happen w e) as [w1|] eqn:H; [|discriminate]. exact (IH w1 (ended_step w e w1 i r R E H) L').
Qed.

(** A run that has not ended can be given up on at any time.  It keeps what it
    was asked, its directory is gone, and the other runs stay as they were. *)
Theorem C116_timeout (es : list event) (w : world) (i : nat) (r : run) :
  Leads es w -> IsRun w i r -> ~ Ended r ->
  exists w' s, Leads (es ++ [GiveUp i]) w' /\ IsRun w' i s /\ SameRun r s /\ r_phase s = Failed /\
    (forall d, WorksIn r d -> ~ Exists w' d) /\ (forall j, j <> i -> nth_error (w_runs w') j = nth_error (w_runs w) j).
Proof.
  intros L R N. assert (T : running (r_phase r) = true).
  { destruct (running (r_phase r)) eqn:T; [reflexivity|]. elim N. apply running_spec, T. }
  exists (give_up w i r), (at_phase r Failed). split; [|split; [|split; [|split; [|split]]]].
  - apply leads_snoc. exists w. split; [exact L|]. cbn [happen]. unfold IsRun in R. rewrite R, T. reflexivity.
  - unfold IsRun, give_up. cbn. eapply put_same, R.
  - repeat split.
  - reflexivity.
  - intros d W. assert (H : held (r_phase r) = Some d) by (destruct W as [(p & E)|[E|[(l & E)|(p & op & l & E)]]]; rewrite E; reflexivity).
    unfold Exists, give_up, dropped. cbn [w_dirs]. rewrite H. intros X. apply X. rewrite dget_del. destruct (Nat.eq_dec d d); congruence.
  - intros j J. unfold give_up. cbn [w_runs]. apply put_other. congruence.
Qed.

(** A crash ends every run that has not ended. *)
Theorem C116_crash (es : list event) (w : world) :
  Leads es w -> exists w', Leads (es ++ [Crash]) w' /\ forall i r, IsRun w i r -> ~ Ended r ->
    exists s, IsRun w' i s /\ SameRun r s /\ r_phase s = Crashed.
Proof.
  intros L. eexists. split; [apply leads_snoc; exists w; split; [exact L|reflexivity]|].
  intros i r R N. exists (at_phase r Crashed). split; [|repeat split]. unfold IsRun in *. cbn [w_runs]. rewrite nth_error_map, R. cbn.
  destruct (running (r_phase r)) eqn:T; [reflexivity|]. elim N. apply running_spec, T.
Qed.

Print Assumptions C116_ended.
Print Assumptions C116_timeout.
Print Assumptions C116_crash.
Print Assumptions C116_own.
Print Assumptions C116_each.
Print Assumptions C116_alone.
Print Assumptions C116_separate.
Print Assumptions C116_fails_partial.
Print Assumptions C116_cleared_partial.
Print Assumptions C116_fails_refuted.
Print Assumptions C116_cleared_refuted.

(** Three runs, interleaved: a block with two operations, a request that times
    out while its command is reading, whose directory's name is used again by a
    third run while that command goes on reading there. *)
Module TogetherDemo.
  Definition schedule : list event :=
    [Submit 7 [1; 2]; Submit 8 [1]; Open 0 5; Open 1 6; Create 1; Create 0; MadeIt 1; MadeIt 0; Write 1; Write 0;
     Launch 1; Launch 0; Look 2; Look 3; GiveUp 1; Submit 9 [2]; Open 2 6; Look 2; Create 4; MadeIt 2; Look 2; Write 2; Look 2;
     Look 3; End 3; Take 0; Launch 0; Launch 2; Look 6; Look 5; End 6; Take 2; End 5; Finish 2; Take 0; Finish 0].
End TogetherDemo.

Example C116_witness :
  exists w, Leads TogetherDemo.schedule w /\
    map r_phase (w_runs w) = [Done; Failed; Done] /\
    map r_answers (w_runs w) = [[(1, [Some 7; Some 7]); (2, [Some 7])]; []; [(2, [Some 9])]] /\
    option_map p_seen (pget (w_procs w) 2) = Some [Some 8; None; Some 0; Some 9] /\ w_dirs w = [].
Proof. eexists. split; [vm_compute; reflexivity|]. vm_compute. auto. Qed.

(** The same schedule is patient. *)
Example C116_patient_witness : Patient TogetherDemo.schedule.
Proof.
  intros es1 e es2 w i r E L R H (d & p & Ph & d0 & seen & U).
  assert (N : nth_error TogetherDemo.schedule (length es1) = Some e).
  { rewrite E, nth_error_app2, Nat.sub_diag by lia. reflexivity. }
  assert (F : firstn (length es1) TogetherDemo.schedule = es1).
  { rewrite E, firstn_app, firstn_all, Nat.sub_diag. cbn. apply app_nil_r. }
  clear E es2.
  assert (X : length es1 = 14 /\ i = 1).
  { clear F L R U. remember (length es1) as k eqn:K. clear K.
    do 36 (destruct k as [|k]; [cbn in N; injection N as <-; destruct H as [H|H]; try discriminate H; injection H as <-; split; reflexivity|]).
    destruct k; discriminate. }
  destruct X as [X ->]. rewrite X in F. subst es1. vm_compute in L. injection L as <-. injection R as <-. discriminate.
Qed.

(** Of the three runs one has been given up on when 20 events remain, and the
    other two have not ended. *)
Example C116_ended_witness :
  exists es' w r s, Leads (firstn 16 TogetherDemo.schedule) w /\ IsRun w 1 r /\ Ended r /\
    Leads (firstn 16 TogetherDemo.schedule ++ es' ++ [Crash]) s /\ length es' = 20 /\
    exists t, IsRun w 0 t /\ ~ Ended t /\ WorksIn t 5.
Proof.
  exists (skipn 16 TogetherDemo.schedule). eexists. eexists. eexists.
  split; [vm_compute; reflexivity|]. split; [vm_compute; reflexivity|]. split; [right; left; reflexivity|].
  split; [vm_compute; reflexivity|]. split; [reflexivity|]. eexists. split; [vm_compute; reflexivity|]. split.
  - intros [E|[E|E]]; discriminate E.
  - right. right. right. eexists. eexists. eexists. reflexivity.
Qed.
