(** * Proofs about runs at the same time *)
From Coq Require Import List Arith Bool Lia.
From Verif Require Import Base TogetherModel TogetherSpec.
Import ListNotations.

(** ** Lists and maps *)

Lemma happens_app w es1 es2 :
  happens w (es1 ++ es2) = match happens w es1 with Some w' => happens w' es2 | None => None end.
Proof. revert w. induction es1 as [|e es1 IH]; intros w; [reflexivity|]. cbn. destruct (happen w e); auto. Qed.

Lemma leads_snoc es e w : Leads (es ++ [e]) w <-> exists w0, Leads es w0 /\ happen w0 e = Some w.
Proof.
  unfold Leads. rewrite happens_app. split.
  - destruct (happens start es) as [w0|]; [|discriminate]. cbn. intros H. exists w0. split; [reflexivity|].
    destruct (happen w0 e); congruence.
  - intros (w0 & -> & H). cbn. rewrite H. reflexivity.
Qed.

Lemma put_length l i x : length (put l i x) = length l.
Proof. revert i. induction l as [|y l IH]; intros [|i]; cbn; auto. Qed.

Lemma put_same l i x r : nth_error l i = Some r -> nth_error (put l i x) i = Some x.
Proof. revert i. induction l as [|y l IH]; intros [|i]; cbn; intros H; try discriminate; auto. Qed.

Lemma put_other l i j x : i <> j -> nth_error (put l i x) j = nth_error l j.
Proof. revert i j. induction l as [|y l IH]; intros [|i] [|j] H; cbn; auto; try congruence. Qed.

Lemma dget_set m d c d' : dget (dset m d c) d' = if Nat.eq_dec d' d then Some c else dget m d'.
Proof. apply aget_aset. Qed.
Lemma dget_del m d d' : dget (ddel m d) d' = if Nat.eq_dec d' d then None else dget m d'.
Proof. unfold dget, ddel. destruct (Nat.eq_dec d' d) as [->|N]; [apply aget_adel_eq|apply aget_adel_neq; auto]. Qed.
Lemma pget_set m d c d' : pget (pset m d c) d' = if Nat.eq_dec d' d then Some c else pget m d'.
Proof. apply aget_aset. Qed.
Lemma pget_del m d d' : pget (pdel m d) d' = if Nat.eq_dec d' d then None else pget m d'.
Proof. unfold pget, pdel. destruct (Nat.eq_dec d' d) as [->|N]; [apply aget_adel_eq|apply aget_adel_neq; auto]. Qed.

(** ** The invariant of all schedules *)

Definition own_proc (w : world) (r : run) (d p : nat) (op : oper) : Prop :=
  p < w_next w /\
  forall q, pget (w_procs w) p = Some q ->
    p_dir q = d /\ p_job q = Analyse op /\ Only (r_code r) (p_seen q).

Definition good (w : world) (r : run) : Prop :=
  (forall op seen, In (op, seen) (r_answers r) -> Only (r_code r) seen) /\
  match r_phase r with
  | Fresh => r_answers r = []
  | Making d p =>
      r_answers r = [] /\ dget (w_dirs w) d <> None /\ p < w_next w /\
      forall q, pget (w_procs w) p = Some q ->
        p_dir q = d /\ p_job q = CargoNew /\
        (p_end q = Some true -> exists t, dget (w_dirs w) d = Some (Project t))
  | Made d => r_answers r = [] /\ exists t, dget (w_dirs w) d = Some (Project t)
  | Ready d rest =>
      dget (w_dirs w) d = Some (Project (r_code r)) /\ map fst (r_answers r) ++ rest = r_ops r
  | Waiting d p op rest =>
      dget (w_dirs w) d = Some (Project (r_code r)) /\
      map fst (r_answers r) ++ op :: rest = r_ops r /\ own_proc w r d p op
  | Done => map fst (r_answers r) = r_ops r
  | Failed | Crashed => True
  end.

Definition inv (w : world) : Prop :=
  (forall p q, pget (w_procs w) p = Some q -> p < w_next w) /\
  (forall i r, IsRun w i r -> good w r) /\
  (forall i j r s d, IsRun w i r -> IsRun w j s ->
     held (r_phase r) = Some d -> held (r_phase s) = Some d -> i = j).

Lemma held_there w r d : good w r -> held (r_phase r) = Some d -> dget (w_dirs w) d <> None.
Proof.
  intros [_ G] H. destruct (r_phase r) as [|d0 p|d0|d0 rest|d0 p op rest| | |]; cbn in H; try discriminate; injection H as ->.
  - apply G.
  - destruct G as (_ & t & ->). discriminate.
  - destruct G as (-> & _). discriminate.
  - destruct G as (-> & _). discriminate.
Qed.

(** A run that holds no changed directory and waits for no changed process stays good. *)
Lemma good_frame w w' r :
  good w r -> w_next w <= w_next w' ->
  (forall d, held (r_phase r) = Some d -> dget (w_dirs w') d = dget (w_dirs w) d) ->
  (forall p, p < w_next w -> pget (w_procs w') p = pget (w_procs w) p \/ pget (w_procs w') p = None) ->
  good w' r.
Proof.
  intros [A G] L D P. split; [exact A|].
  destruct (r_phase r) as [|d p|d|d rest|d p op rest| | |]; cbn in D; auto; try specialize (D d eq_refl).
  - destruct G as (G0 & G1 & G2 & G3). rewrite D. do 2 (split; [assumption|]). split; [lia|].
    intros q Q. destruct (P p G2) as [E|E]; rewrite E in Q; [|discriminate]. apply G3. exact Q.
  - rewrite D. exact G.
  - rewrite D. exact G.
  - rewrite D. destruct G as (G0 & G1 & G2 & G3). do 2 (split; [assumption|]). split; [lia|].
    intros q Q. destruct (P p G2) as [E|E]; rewrite E in Q; [|discriminate]. apply G3. exact Q.
Qed.

(** Changing one run and the rest of the world. *)
Lemma inv_put w w' i r r' :
  inv w -> IsRun w i r -> w_runs w' = put (w_runs w) i r' ->
  (forall p q, pget (w_procs w') p = Some q -> p < w_next w') ->
  good w' r' ->
  (forall j s, j <> i -> IsRun w j s -> good w' s) ->
  (forall d, held (r_phase r') = Some d -> held (r_phase r) = Some d \/ dget (w_dirs w) d = None) ->
  inv w'.
Proof.
  intros (I1 & I2 & I3) R E P G O H. unfold inv, IsRun in *. split; [exact P|]. rewrite E. split.
  - intros j s. destruct (Nat.eq_dec i j) as [<-|N].
    + rewrite (put_same _ _ _ _ R). intros [= <-]. exact G.
    + rewrite put_other by exact N. intros S0. eapply O; eauto.
  - assert (K : forall j s d, i <> j -> nth_error (w_runs w) j = Some s ->
                held (r_phase r') = Some d -> held (r_phase s) = Some d -> False).
    { intros j s d N S0 H1 H2. destruct (H d H1) as [H3|H3].
      - apply N. exact (I3 i j r s d R S0 H3 H2).
      - exact (held_there w s d (I2 j s S0) H2 H3). }
    intros j k s t d. destruct (Nat.eq_dec i j) as [<-|N1]; destruct (Nat.eq_dec i k) as [<-|N2]; try reflexivity.
    + rewrite (put_same _ _ _ _ R), put_other by exact N2. intros [= <-] T H1 H2. exfalso. eapply K; eauto.
    + rewrite (put_same _ _ _ _ R), put_other by exact N1. intros S0 [= <-] H1 H2. exfalso. eapply K; eauto.
    + rewrite !put_other by assumption. apply I3.
Qed.

(** Changing directories and processes only. *)
Lemma inv_same w w' :
  inv w -> w_runs w' = w_runs w ->
  (forall p q, pget (w_procs w') p = Some q -> p < w_next w') ->
  (forall j s, IsRun w j s -> good w' s) -> inv w'.
Proof. intros (I1 & I2 & I3) E P O. unfold inv, IsRun in *. rewrite E. auto. Qed.

Lemma inv_give_up w i r : inv w -> IsRun w i r -> inv (give_up w i r).
Proof.
  intros I R. pose proof I as (I1 & I2 & I3). eapply inv_put with (r' := at_phase r Failed); eauto.
  - split; [|exact Logic.I]. apply (I2 i r R).
  - intros j s N S0. eapply good_frame; [eauto|cbn; lia| |left; reflexivity].
    intros d H. cbn. unfold dropped. destruct (held (r_phase r)) as [d0|] eqn:E; [|reflexivity].
    rewrite dget_del. destruct (Nat.eq_dec d d0) as [->|]; [|reflexivity].
    exfalso. apply N. eapply I3; eauto.
  - cbn. discriminate.
Qed.

Lemma pset_below w p q0 q1 : inv w -> pget (w_procs w) p = Some q0 ->
  forall p' q, pget (pset (w_procs w) p q1) p' = Some q -> p' < w_next w.
Proof.
  intros (I1 & _) P p' q. rewrite pget_set. destruct (Nat.eq_dec p' p) as [->|]; eauto.
Qed.

Lemma pset_next w q1 : inv w ->
  forall p' q, pget (pset (w_procs w) (w_next w) q1) p' = Some q -> p' < S (w_next w).
Proof.
  intros (I1 & _) p' q. rewrite pget_set. destruct (Nat.eq_dec p' (w_next w)) as [->|]; [lia|].
  intros H. apply I1 in H. lia.
Qed.

Lemma inv_step w e w' : inv w -> happen w e = Some w' -> inv w'.
Proof.
  intros I H. pose proof I as (I1 & I2 & I3).
  destruct e as [code ops|i d|p|i|i|i|p|p|i|i|i|p|]; cbn [happen] in H.
  - (* Submit *)
    injection H as <-. split; [exact I1|]. unfold IsRun. cbn [w_runs].
    assert (K : forall j s, nth_error (w_runs w ++ [Run code ops Fresh []]) j = Some s ->
                nth_error (w_runs w) j = Some s \/ s = Run code ops Fresh []).
    { intros j s S0. destruct (lt_dec j (length (w_runs w))) as [L|L].
      - rewrite nth_error_app1 in S0 by exact L. auto.
      - rewrite nth_error_app2 in S0 by lia. destruct (j - length (w_runs w)) as [|k]; cbn in S0.
        + right. congruence.
        + destruct k; discriminate. }
    split.
    + intros j s S0. destruct (K j s S0) as [S1| ->].
      * eapply good_frame; [eapply I2; exact S1|cbn; lia|reflexivity|left; reflexivity].
      * split; cbn; auto. intros op seen [].
    + intros j k s t d0 S0 T0 H1 H2. destruct (K j s S0) as [S1| ->]; [|discriminate].
      destruct (K k t T0) as [T1| ->]; [|discriminate]. eapply I3; eauto.
  - (* Open *)
    destruct (nth_error (w_runs w) i) as [r|] eqn:R; [|discriminate].
    destruct (r_phase r) eqn:P; try discriminate.
    destruct (dget (w_dirs w) d) as [c|] eqn:D; [discriminate|]. injection H as <-.
    pose proof (I2 i r R) as [A G]. rewrite P in G.
    eapply inv_put; [exact I|exact R|reflexivity|apply pset_next; exact I| | |].
    + split; [exact A|]. cbn. split; [exact G|]. rewrite dget_set. destruct (Nat.eq_dec d d) as [_|]; [|congruence].
      split; [discriminate|]. split; [lia|]. intros q. rewrite pget_set.
      destruct (Nat.eq_dec (w_next w) (w_next w)) as [_|]; [|congruence]. intros [= <-]. cbn. repeat split. discriminate.
    + intros j s N S0. eapply good_frame; [eauto|cbn; lia| |].
      * intros d0 H0. cbn. rewrite dget_set. destruct (Nat.eq_dec d0 d) as [->|]; [|reflexivity].
        exfalso. eapply held_there; eauto.
      * intros p0 L. left. cbn. rewrite pget_set. destruct (Nat.eq_dec p0 (w_next w)); [lia|reflexivity].
    + cbn. intros d0 [= <-]. right. exact D.
  - (* Create *)
    destruct (pget (w_procs w) p) as [[d [|op] seen [en|]]|] eqn:P; try discriminate.
    assert (K : forall b ds, (forall d0, d0 <> d -> dget ds d0 = dget (w_dirs w) d0) ->
              (b = true -> exists t, dget ds d = Some (Project t)) ->
              (forall t, dget (w_dirs w) d = Some (Project t) -> dget ds d = Some (Project t)) ->
              (dget (w_dirs w) d <> None -> dget ds d <> None) ->
              inv (World ds (pset (w_procs w) p (Proc d CargoNew seen (Some b))) (w_next w) (w_runs w))).
    { intros b ds D1 D2 D3 D4. eapply inv_same; [exact I|reflexivity|eapply pset_below; eauto|].
      intros j s S0. pose proof (I2 j s S0) as [A G]. split; [exact A|]. cbn.
      assert (D5 : forall d0 t, dget (w_dirs w) d0 = Some (Project t) -> dget ds d0 = Some (Project t)).
      { intros d0 t T. destruct (Nat.eq_dec d0 d) as [->|N]; [auto|rewrite D1; auto]. }
      destruct (r_phase s) as [|d0 p0|d0|d0 rest|d0 p0 op rest| | |]; auto.
      - destruct G as (G0 & G1 & G2 & G3). split; [exact G0|]. split.
        { destruct (Nat.eq_dec d0 d) as [->|N]; [auto|rewrite D1; auto]. }
        split; [exact G2|]. intros q. rewrite pget_set. destruct (Nat.eq_dec p0 p) as [->|N].
        + intros [= <-]. cbn. destruct (G3 _ P) as (E & _ & _). cbn in E. subst d0.
          split; [reflexivity|]. split; [reflexivity|]. intros [= ->]. auto.
        + intros Q. destruct (G3 _ Q) as (E1 & E2 & E3). split; [exact E1|]. split; [exact E2|].
          intros F. destruct (E3 F) as (t & T). exists t. auto.
      - destruct G as (G0 & t & T). split; [exact G0|]. exists t. auto.
      - destruct G as (G0 & G1). split; auto.
      - destruct G as (G0 & G1 & G2 & G3). split; [auto|]. split; [exact G1|]. split; [exact G2|]. cbn.
        intros q. rewrite pget_set. destruct (Nat.eq_dec p0 p) as [->|N]; [|apply G3].
        destruct (G3 _ P) as (_ & E & _). discriminate. }
    assert (X1 : forall d0, d0 <> d -> dget (dset (w_dirs w) d (Project hello)) d0 = dget (w_dirs w) d0).
    { intros d0 N. rewrite dget_set. destruct (Nat.eq_dec d0 d); congruence. }
    assert (X2 : dget (dset (w_dirs w) d (Project hello)) d = Some (Project hello)).
    { rewrite dget_set. destruct (Nat.eq_dec d d); congruence. }
    destruct (dget (w_dirs w) d) as [[|t]|] eqn:D; injection H as <-; apply K.
    + exact X1.
    + eauto.
    + discriminate.
    + rewrite X2. discriminate.
    + reflexivity.
    + discriminate.
    + rewrite D. auto.
    + rewrite D. auto.
    + exact X1.
    + eauto.
    + discriminate.
    + rewrite X2. discriminate.
  - (* MadeIt *)
    destruct (nth_error (w_runs w) i) as [r|] eqn:R; [|discriminate].
    destruct (r_phase r) as [|d p| | | | | |] eqn:P; try discriminate.
    destruct (pget (w_procs w) p) as [[pd pj ps [[|]|]]|] eqn:Q; try discriminate.
    + injection H as <-. pose proof (I2 i r R) as [A G]. rewrite P in G. destruct G as (G0 & G1 & G2 & G3).
      eapply inv_put; [exact I|exact R|reflexivity|exact I1| | |].
      * split; [exact A|]. cbn. split; [exact G0|]. destruct (G3 _ Q) as (_ & _ & E). apply E. reflexivity.
      * intros j s N S0. eapply good_frame; [eauto|cbn; lia|reflexivity|left; reflexivity].
      * cbn. intros d0 E. left. rewrite P. exact E.
    + injection H as <-. apply inv_give_up; assumption.
  - (* Write *)
    destruct (nth_error (w_runs w) i) as [r|] eqn:R; [|discriminate].
    destruct (r_phase r) as [| |d| | | | |] eqn:P; try discriminate.
    destruct (dget (w_dirs w) d) as [[|t]|] eqn:D; injection H as <-; try (apply inv_give_up; assumption).
    pose proof (I2 i r R) as [A G]. rewrite P in G. destruct G as (G0 & _).
    eapply inv_put; [exact I|exact R|reflexivity|exact I1| | |].
    + split; [exact A|]. cbn. rewrite dget_set. destruct (Nat.eq_dec d d) as [_|]; [|congruence].
      split; [reflexivity|]. rewrite G0. reflexivity.
    + intros j s N S0. eapply good_frame; [eauto|cbn; lia| |left; reflexivity].
      intros d0 H0. cbn. rewrite dget_set. destruct (Nat.eq_dec d0 d) as [->|]; [|reflexivity].
      exfalso. apply N. eapply I3; eauto. rewrite P. reflexivity.
    + cbn. intros d0 E. left. rewrite P. exact E.
  - (* Launch *)
    destruct (nth_error (w_runs w) i) as [r|] eqn:R; [|discriminate].
    destruct (r_phase r) as [| | |d [|op rest]| | | |] eqn:P; try discriminate. injection H as <-.
    pose proof (I2 i r R) as [A G]. rewrite P in G. destruct G as (G0 & G1).
    eapply inv_put; [exact I|exact R|reflexivity|apply pset_next; exact I| | |].
    + split; [exact A|]. cbn. split; [exact G0|]. split; [exact G1|]. split; [cbn; lia|]. cbn. intros q. rewrite pget_set.
      destruct (Nat.eq_dec (w_next w) (w_next w)) as [_|]; [|congruence]. intros [= <-]. cbn. repeat split. intros x [].
    + intros j s N S0. eapply good_frame; [eauto|cbn; lia|reflexivity|].
      intros p0 L. left. cbn. rewrite pget_set. destruct (Nat.eq_dec p0 (w_next w)); [lia|reflexivity].
    + cbn. intros d0 E. left. rewrite P. exact E.
  - (* Look *)
    destruct (pget (w_procs w) p) as [[d [|op] seen [en|]]|] eqn:P; try discriminate. injection H as <-.
    eapply inv_same; [exact I|reflexivity|eapply pset_below; eauto|].
    intros j s S0. pose proof (I2 j s S0) as [A G]. split; [exact A|]. cbn.
    destruct (r_phase s) as [|d0 p0|d0|d0 rest|d0 p0 op0 rest| | |]; auto.
    + destruct G as (G0 & G1 & G2 & G3). do 2 (split; [assumption|]). split; [exact G2|]. intros q. rewrite pget_set.
      destruct (Nat.eq_dec p0 p) as [->|N]; [|apply G3]. destruct (G3 _ P) as (_ & E & _). discriminate.
    + destruct G as (G0 & G1 & G2 & G3). do 2 (split; [assumption|]). split; [exact G2|]. cbn. intros q. rewrite pget_set.
      destruct (Nat.eq_dec p0 p) as [->|N]; [|apply G3]. intros [= <-]. destruct (G3 _ P) as (E1 & E2 & E3). cbn in E1, E2, E3. subst d0.
      cbn. split; [reflexivity|]. split; [exact E2|]. rewrite G0. intros x X. apply in_app_or in X. destruct X as [X|[X|[]]]; [auto|congruence].
  - (* End *)
    destruct (pget (w_procs w) p) as [[d [|op] seen [en|]]|] eqn:P; try discriminate. injection H as <-.
    eapply inv_same; [exact I|reflexivity|eapply pset_below; eauto|].
    intros j s S0. pose proof (I2 j s S0) as [A G]. split; [exact A|]. cbn.
    destruct (r_phase s) as [|d0 p0|d0|d0 rest|d0 p0 op0 rest| | |]; auto.
    + destruct G as (G0 & G1 & G2 & G3). do 2 (split; [assumption|]). split; [exact G2|]. intros q. rewrite pget_set.
      destruct (Nat.eq_dec p0 p) as [->|N]; [|apply G3]. destruct (G3 _ P) as (_ & E & _). discriminate.
    + destruct G as (G0 & G1 & G2 & G3). do 2 (split; [assumption|]). split; [exact G2|]. cbn. intros q. rewrite pget_set.
      destruct (Nat.eq_dec p0 p) as [->|N]; [|apply G3]. intros [= <-]. exact (G3 _ P).
  - (* Take *)
    destruct (nth_error (w_runs w) i) as [r|] eqn:R; [|discriminate].
    destruct (r_phase r) as [| | | |d p op rest| | |] eqn:P; try discriminate.
    destruct (pget (w_procs w) p) as [[pd pj seen [en|]]|] eqn:Q; try discriminate. injection H as <-.
    pose proof (I2 i r R) as [A G]. rewrite P in G. destruct G as (G0 & G1 & G2 & G3).
    eapply inv_put; [exact I|exact R|reflexivity|exact I1| | |].
    + split; cbn.
      * intros o sn X. apply in_app_or in X. destruct X as [X|[X|[]]]; [eauto|]. injection X as <- <-. apply (G3 _ Q).
      * split; [exact G0|]. rewrite map_app, <- app_assoc. exact G1.
    + intros j s N S0. eapply good_frame; [eauto|cbn; lia|reflexivity|left; reflexivity].
    + cbn. intros d0 E. left. rewrite P. exact E.
  - (* Finish *)
    destruct (nth_error (w_runs w) i) as [r|] eqn:R; [|discriminate].
    destruct (r_phase r) as [| | |d [|op rest]| | | |] eqn:P; try discriminate. injection H as <-.
    pose proof (I2 i r R) as [A G]. rewrite P in G. destruct G as (G0 & G1).
    eapply inv_put; [exact I|exact R|reflexivity|exact I1| | |].
    + split; [exact A|]. cbn. rewrite app_nil_r in G1. exact G1.
    + intros j s N S0. eapply good_frame; [eauto|cbn; lia| |left; reflexivity].
      intros d0 H0. cbn. rewrite dget_del. destruct (Nat.eq_dec d0 d) as [->|]; [|reflexivity].
      exfalso. apply N. eapply I3; eauto. rewrite P. reflexivity.
    + cbn. discriminate.
  - (* GiveUp *)
    destruct (nth_error (w_runs w) i) as [r|] eqn:R; [|discriminate].
    destruct (running (r_phase r)); [|discriminate]. injection H as <-. apply inv_give_up; assumption.
  - (* Kill *)
    injection H as <-. eapply inv_same; [exact I|reflexivity| |].
    + cbn. intros p0 q. rewrite pget_del. destruct (Nat.eq_dec p0 p); [discriminate|apply I1].
    + intros j s S0. eapply good_frame; [eauto|cbn; lia|reflexivity|].
      intros p0 L. cbn. rewrite pget_del. destruct (Nat.eq_dec p0 p); auto.
  - (* Crash *)
    injection H as <-. split; [exact I1|]. unfold IsRun. cbn [w_runs].
    assert (K : forall j s, nth_error (map (fun r => if running (r_phase r) then at_phase r Crashed else r) (w_runs w)) j = Some s ->
                exists r, nth_error (w_runs w) j = Some r /\ s = (if running (r_phase r) then at_phase r Crashed else r)).
    { intros j s S0. rewrite nth_error_map in S0. destruct (nth_error (w_runs w) j) as [r|]; [|discriminate].
      exists r. split; [reflexivity|]. cbn in S0. congruence. }
    assert (K2 : forall r d, held (r_phase (if running (r_phase r) then at_phase r Crashed else r)) = Some d -> False).
    { intros r d. destruct (running (r_phase r)) eqn:E; cbn; [discriminate|]. destruct (r_phase r); cbn in *; discriminate. }
    split.
    + intros j s S0. destruct (K j s S0) as (r & R & ->). pose proof (I2 j r R) as [A G].
      destruct (running (r_phase r)) eqn:E; [split; [exact A|exact Logic.I]|].
      split; [exact A|]. destruct (r_phase r); try discriminate; exact G.
    + intros j k s t d S0 T0 H1 H2. destruct (K j s S0) as (r & R & ->). exfalso. eapply K2; eauto.
Qed.

Lemma inv_start : inv start.
Proof.
  split; [discriminate|]. split.
  - intros [|i] r R; discriminate.
  - intros [|i] j r s d R; discriminate.
Qed.

Lemma inv_leads es w : Leads es w -> inv w.
Proof.
  revert w. induction es as [|e es IH] using rev_ind; intros w H.
  - injection H as <-. apply inv_start.
  - apply leads_snoc in H. destruct H as (w0 & H0 & H1). eapply inv_step; eauto.
Qed.

(** ** The invariant of patient schedules *)

Definition quiet (w : world) : Prop :=
  (forall p d seen, pget (w_procs w) p = Some (Proc d CargoNew seen None) ->
     exists i r, IsRun w i r /\ r_phase r = Making d p) /\
  (forall i r d p q, IsRun w i r -> r_phase r = Making d p -> pget (w_procs w) p = Some q ->
     p_end q <> Some false /\ (p_end q = None -> dget (w_dirs w) d = Some Bare)).

Definition given_up (w : world) (e : event) : Prop :=
  forall i r, IsRun w i r -> (e = GiveUp i \/ e = Crash) -> ~ Early w r.

(** What an event does to the runs. *)
Lemma runs_step w e w' j s : happen w e = Some w' -> IsRun w j s ->
  exists s', IsRun w' j s' /\ (s' = s \/ e = Open j (match held (r_phase s') with Some d => d | None => 0 end)
    \/ e = MadeIt j \/ e = Write j \/ e = Launch j \/ e = Take j \/ e = Finish j \/ e = GiveUp j \/ e = Crash).
Proof.
  intros H S0. unfold IsRun in *. destruct e as [code ops|i d|p|i|i|i|p|p|i|i|i|p|]; cbn [happen] in H.
  - injection H as <-. exists s. split; [|auto]. cbn. rewrite nth_error_app1; [exact S0|]. apply nth_error_Some. congruence.
  - destruct (nth_error (w_runs w) i) as [r|] eqn:R; [|discriminate].
    destruct (r_phase r); try discriminate. destruct (dget (w_dirs w) d); [discriminate|]. injection H as <-. cbn.
    destruct (Nat.eq_dec i j) as [<-|N].
    + eexists. split; [eapply put_same; exact R|]. cbn. auto.
    + exists s. rewrite put_other by exact N. auto.
  - destruct (pget (w_procs w) p) as [[d [|op] seen [en|]]|]; try discriminate.
    destruct (dget (w_dirs w) d) as [[|t]|]; injection H as <-; exists s; auto.
  - destruct (Nat.eq_dec i j) as [<-|N].
    + rewrite S0 in H. destruct (r_phase s) as [|d p| | | | | |]; try discriminate.
      destruct (pget (w_procs w) p) as [[pd pj ps [[|]|]]|]; try discriminate; injection H as <-;
        eexists; (split; [eapply put_same; exact S0|auto]).
    + destruct (nth_error (w_runs w) i) as [r|] eqn:R; [|discriminate]. destruct (r_phase r) as [|d p| | | | | |]; try discriminate.
      destruct (pget (w_procs w) p) as [[pd pj ps [[|]|]]|]; try discriminate; injection H as <-;
        exists s; cbn; rewrite put_other by exact N; auto.
  - destruct (Nat.eq_dec i j) as [<-|N].
    + rewrite S0 in H. destruct (r_phase s) as [| |d| | | | |]; try discriminate.
      destruct (dget (w_dirs w) d) as [[|t]|]; injection H as <-;
        eexists; (split; [eapply put_same; exact S0|auto]).
    + destruct (nth_error (w_runs w) i) as [r|] eqn:R; [|discriminate]. destruct (r_phase r) as [| |d| | | | |]; try discriminate.
      destruct (dget (w_dirs w) d) as [[|t]|]; injection H as <-;
        exists s; cbn; rewrite put_other by exact N; auto.
  - destruct (nth_error (w_runs w) i) as [r|] eqn:R; [|discriminate].
    destruct (r_phase r) as [| | |d [|op rest]| | | |]; try discriminate. injection H as <-.
    destruct (Nat.eq_dec i j) as [<-|N].
    + eexists. split; [eapply put_same; exact R|auto 8].
    + exists s. cbn. rewrite put_other by exact N. auto.
  - destruct (pget (w_procs w) p) as [[d [|op] seen [en|]]|]; try discriminate. injection H as <-. exists s. auto.
  - destruct (pget (w_procs w) p) as [[d [|op] seen [en|]]|]; try discriminate. injection H as <-. exists s. auto.
  - destruct (nth_error (w_runs w) i) as [r|] eqn:R; [|discriminate].
    destruct (r_phase r) as [| | | |d p op rest| | |]; try discriminate.
    destruct (pget (w_procs w) p) as [[pd pj ps [en|]]|]; try discriminate. injection H as <-.
    destruct (Nat.eq_dec i j) as [<-|N].
    + eexists. split; [eapply put_same; exact R|auto 8].
    + exists s. cbn. rewrite put_other by exact N. auto.
  - destruct (nth_error (w_runs w) i) as [r|] eqn:R; [|discriminate].
    destruct (r_phase r) as [| | |d [|op rest]| | | |]; try discriminate. injection H as <-.
    destruct (Nat.eq_dec i j) as [<-|N].
    + eexists. split; [eapply put_same; exact R|auto 10].
    + exists s. cbn. rewrite put_other by exact N. auto.
  - destruct (nth_error (w_runs w) i) as [r|] eqn:R; [|discriminate].
    destruct (running (r_phase r)); [|discriminate]. injection H as <-.
    destruct (Nat.eq_dec i j) as [<-|N].
    + eexists. split; [eapply put_same; exact R|auto 10].
    + exists s. cbn. rewrite put_other by exact N. auto.
  - injection H as <-. exists s. auto.
  - injection H as <-. cbn. rewrite nth_error_map, S0. cbn. eexists. split; [reflexivity|auto 10].
Qed.

(** Changing run [i], which does not wait for an unborn process any more. *)
Lemma quiet_put w w' i r r' :
  inv w -> quiet w -> IsRun w i r -> w_runs w' = put (w_runs w) i r' ->
  ~ Early w r ->
  (forall p d seen, pget (w_procs w') p = Some (Proc d CargoNew seen None) ->
     pget (w_procs w) p = Some (Proc d CargoNew seen None)) ->
  (forall p, p < w_next w -> pget (w_procs w') p = pget (w_procs w) p) ->
  (forall d, held (r_phase r) <> Some d -> dget (w_dirs w) d <> None -> dget (w_dirs w') d = dget (w_dirs w) d) ->
  (forall d p, r_phase r' <> Making d p) ->
  quiet w'.
Proof.
  intros (I1 & I2 & I3) (Q1 & Q2) R E NE P1 P2 D M. unfold quiet, IsRun in *. rewrite E. split.
  - intros p d seen Hp. apply P1 in Hp. destruct (Q1 p d seen Hp) as (j & s & S0 & Ph). exists j, s. split; [|exact Ph].
    rewrite put_other; [exact S0|]. intros <-. apply NE. exists d, p. assert (r = s) by congruence. subst s.
    split; [exact Ph|]. exists d, seen. exact Hp.
  - intros j s d p q. destruct (Nat.eq_dec i j) as [<-|N].
    + rewrite (put_same _ _ _ _ R). intros [= <-] Ph. exfalso. eapply M; eauto.
    + rewrite put_other by exact N. intros S0 Ph Hp. pose proof (I2 j s S0) as [_ G]. rewrite Ph in G.
      destruct G as (_ & G1 & G2 & _). rewrite P2 in Hp by exact G2. destruct (Q2 j s d p q S0 Ph Hp) as [X1 X2].
      split; [exact X1|]. rewrite D; [exact X2| |exact G1].
      intros H. apply N. eapply (I3 i j r s d); eauto. rewrite Ph. reflexivity.
Qed.

Lemma not_early w r : (forall d p, r_phase r <> Making d p) -> ~ Early w r.
Proof. intros H (d & p & E & _). eapply H; eauto. Qed.

Lemma quiet_give_up w i r : inv w -> quiet w -> IsRun w i r -> ~ Early w r -> quiet (give_up w i r).
Proof.
  intros I Q R NE. eapply quiet_put with (r' := at_phase r Failed); eauto.
  - intros d N _. cbn. unfold dropped. destruct (held (r_phase r)) as [d0|]; [|reflexivity].
    rewrite dget_del. destruct (Nat.eq_dec d d0) as [->|]; [congruence|reflexivity].
  - cbn. discriminate.
Qed.

Lemma quiet_step w e w' : inv w -> quiet w -> given_up w e -> happen w e = Some w' -> quiet w'.
Proof.
  intros I Q GU H. pose proof I as (I1 & I2 & I3). pose proof Q as (Q1 & Q2).
  destruct e as [code ops|i d|p|i|i|i|p|p|i|i|i|p|]; cbn [happen] in H.
  - (* Submit *)
    injection H as <-. split.
    + cbn. intros p d seen Hp. destruct (Q1 p d seen Hp) as (j & s & S0 & Ph). exists j, s. split; [|exact Ph].
      unfold IsRun in *. cbn. rewrite nth_error_app1; [exact S0|]. apply nth_error_Some. congruence.
    + cbn. intros j s d p q S0 Ph Hp. unfold IsRun in *. cbn in S0.
      destruct (lt_dec j (length (w_runs w))) as [L|L].
      * rewrite nth_error_app1 in S0 by exact L. eapply Q2; eauto.
      * rewrite nth_error_app2 in S0 by lia. destruct (j - length (w_runs w)) as [|k]; cbn in S0.
        -- injection S0 as <-. discriminate.
        -- destruct k; discriminate.
  - (* Open *)
    destruct (nth_error (w_runs w) i) as [r|] eqn:R; [|discriminate].
    destruct (r_phase r) eqn:P; try discriminate.
    destruct (dget (w_dirs w) d) as [c|] eqn:D; [discriminate|]. injection H as <-.
    unfold quiet, IsRun in *. cbn [w_dirs w_procs w_runs w_next]. split.
    + intros p d0 seen. rewrite pget_set. destruct (Nat.eq_dec p (w_next w)) as [->|N].
      * intros [= <- <-]. exists i. eexists. split; [eapply put_same; exact R|reflexivity].
      * intros Hp. destruct (Q1 p d0 seen Hp) as (j & s & S0 & Ph). exists j, s. split; [|exact Ph].
        rewrite put_other; [exact S0|]. intros <-. congruence.
    + intros j s d0 p q. destruct (Nat.eq_dec i j) as [<-|N].
      * rewrite (put_same _ _ _ _ R). intros [= <-]. cbn. intros [= <- <-]. rewrite pget_set.
        destruct (Nat.eq_dec (w_next w) (w_next w)) as [_|]; [|congruence]. intros [= <-]. cbn. split; [discriminate|].
        intros _. rewrite dget_set. destruct (Nat.eq_dec d d); congruence.
      * rewrite put_other by exact N. intros S0 Ph. pose proof (I2 j s S0) as [_ G]. rewrite Ph in G.
        destruct G as (_ & G1 & G2 & _). rewrite pget_set. destruct (Nat.eq_dec p (w_next w)); [lia|].
        intros Hp. rewrite dget_set. destruct (Nat.eq_dec d0 d) as [->|]; [congruence|]. eapply Q2; eauto.
  - (* Create *)
    destruct (pget (w_procs w) p) as [[d [|op] seen [en|]]|] eqn:P; try discriminate.
    destruct (Q1 p d seen P) as (i & r & R & Ph). destruct (Q2 i r d p _ R Ph P) as [_ B]. rewrite (B eq_refl) in H.
    injection H as <-. split.
    + cbn. intros p0 d0 seen0. rewrite pget_set. destruct (Nat.eq_dec p0 p) as [->|N]; [discriminate|]. apply Q1.
    + cbn. intros j s d0 p0 q S0 Ph0. rewrite pget_set. destruct (Nat.eq_dec p0 p) as [->|N].
      * intros [= <-]. cbn. split; discriminate.
      * intros Hp. rewrite dget_set. destruct (Nat.eq_dec d0 d) as [->|N0].
        -- exfalso. apply N. assert (i = j).
           { eapply (I3 i j r s d); eauto; [rewrite Ph|rewrite Ph0]; reflexivity. }
           subst j. unfold IsRun in *. cbn in S0. congruence.
        -- eapply Q2; eauto.
  - (* MadeIt *)
    destruct (nth_error (w_runs w) i) as [r|] eqn:R; [|discriminate].
    destruct (r_phase r) as [|d p| | | | | |] eqn:P; try discriminate.
    destruct (pget (w_procs w) p) as [[pd pj ps [[|]|]]|] eqn:Hp; try discriminate.
    + injection H as <-. eapply quiet_put with (i := i) (r := r); [exact I|exact Q|exact R|reflexivity| | | | |].
      * intros (d0 & p0 & E & d1 & s1 & U). congruence.
      * auto.
      * reflexivity.
      * reflexivity.
      * cbn. discriminate.
    + exfalso. destruct (Q2 i r d p _ R P Hp) as [X _]. apply X. reflexivity.
  - (* Write *)
    destruct (nth_error (w_runs w) i) as [r|] eqn:R; [|discriminate].
    destruct (r_phase r) as [| |d| | | | |] eqn:P; try discriminate.
    assert (NE : ~ Early w r) by (apply not_early; congruence).
    destruct (dget (w_dirs w) d) as [[|t]|] eqn:D; injection H as <-; try (apply quiet_give_up; assumption).
    eapply quiet_put with (i := i) (r := r); [exact I|exact Q|exact R|reflexivity|exact NE| | | |].
    + auto.
    + reflexivity.
    + intros d0 N _. cbn. rewrite dget_set. destruct (Nat.eq_dec d0 d) as [->|]; [|reflexivity]. rewrite P in N. exfalso. apply N. reflexivity.
    + cbn. discriminate.
  - (* Launch *)
    destruct (nth_error (w_runs w) i) as [r|] eqn:R; [|discriminate].
    destruct (r_phase r) as [| | |d [|op rest]| | | |] eqn:P; try discriminate. injection H as <-.
    eapply quiet_put with (i := i) (r := r); [exact I|exact Q|exact R|reflexivity| | | | |].
    + apply not_early. congruence.
    + cbn. intros p d0 seen. rewrite pget_set. destruct (Nat.eq_dec p (w_next w)); [discriminate|auto].
    + cbn. intros p L. rewrite pget_set. destruct (Nat.eq_dec p (w_next w)); [lia|reflexivity].
    + reflexivity.
    + cbn. discriminate.
  - (* Look *)
    destruct (pget (w_procs w) p) as [[d [|op] seen [en|]]|] eqn:P; try discriminate. injection H as <-. split; cbn.
    + intros p0 d0 seen0. rewrite pget_set. destruct (Nat.eq_dec p0 p) as [->|N]; [discriminate|]. apply Q1.
    + intros j s d0 p0 q S0 Ph0. rewrite pget_set. destruct (Nat.eq_dec p0 p) as [->|N]; [|eapply Q2; eauto].
      pose proof (I2 j s S0) as [_ G]. rewrite Ph0 in G. destruct G as (_ & _ & _ & G). destruct (G _ P) as (_ & X & _). discriminate.
  - (* End *)
    destruct (pget (w_procs w) p) as [[d [|op] seen [en|]]|] eqn:P; try discriminate. injection H as <-. split; cbn.
    + intros p0 d0 seen0. rewrite pget_set. destruct (Nat.eq_dec p0 p) as [->|N]; [discriminate|]. apply Q1.
    + intros j s d0 p0 q S0 Ph0. rewrite pget_set. destruct (Nat.eq_dec p0 p) as [->|N]; [|eapply Q2; eauto].
      pose proof (I2 j s S0) as [_ G]. rewrite Ph0 in G. destruct G as (_ & _ & _ & G). destruct (G _ P) as (_ & X & _). discriminate.
  - (* Take *)
    destruct (nth_error (w_runs w) i) as [r|] eqn:R; [|discriminate].
    destruct (r_phase r) as [| | | |d p op rest| | |] eqn:P; try discriminate.
    destruct (pget (w_procs w) p) as [[pd pj seen [en|]]|] eqn:Hp; try discriminate. injection H as <-.
    eapply quiet_put with (i := i) (r := r); [exact I|exact Q|exact R|reflexivity| | | | |]; auto.
    + apply not_early. congruence.
    + cbn. discriminate.
  - (* Finish *)
    destruct (nth_error (w_runs w) i) as [r|] eqn:R; [|discriminate].
    destruct (r_phase r) as [| | |d [|op rest]| | | |] eqn:P; try discriminate. injection H as <-.
    eapply quiet_put with (i := i) (r := r); [exact I|exact Q|exact R|reflexivity| | | | |]; auto.
    + apply not_early. congruence.
    + intros d0 N _. cbn. rewrite dget_del. destruct (Nat.eq_dec d0 d) as [->|]; [|reflexivity]. rewrite P in N. exfalso. apply N. reflexivity.
    + cbn. discriminate.
  - (* GiveUp *)
    destruct (nth_error (w_runs w) i) as [r|] eqn:R; [|discriminate].
    destruct (running (r_phase r)); [|discriminate]. injection H as <-. apply quiet_give_up; auto. apply (GU i); auto.
  - (* Kill *)
    injection H as <-. split; cbn.
    + intros p0 d0 seen0. rewrite pget_del. destruct (Nat.eq_dec p0 p) as [->|N]; [discriminate|]. apply Q1.
    + intros j s d0 p0 q S0 Ph0. rewrite pget_del. destruct (Nat.eq_dec p0 p) as [->|N]; [discriminate|eapply Q2; eauto].
  - (* Crash *)
    injection H as <-. split; cbn.
    + intros p d seen Hp. exfalso. destruct (Q1 p d seen Hp) as (j & s & S0 & Ph). apply (GU j s S0); [auto|].
      exists d, p. split; [exact Ph|]. exists d, seen. exact Hp.
    + intros j s d p q S0 Ph _. exfalso. unfold IsRun in S0. cbn in S0. rewrite nth_error_map in S0.
      destruct (nth_error (w_runs w) j) as [r|]; [|discriminate]. cbn in S0. injection S0 as <-.
      destruct (running (r_phase r)) eqn:E; cbn in Ph; [discriminate|]. rewrite Ph in E. discriminate.
Qed.

Lemma patient_snoc es e : Patient (es ++ [e]) -> Patient es.
Proof.
  intros P es1 e1 es2 w i r E L R H. eapply (P es1 e1 (es2 ++ [e])); eauto. subst es. rewrite <- app_assoc. reflexivity.
Qed.

Lemma patient_last es e w : Patient (es ++ [e]) -> Leads es w -> given_up w e.
Proof. intros P L i r R H. eapply (P es e []); eauto. Qed.

Lemma quiet_start : quiet start.
Proof. split; [discriminate|]. intros [|i] r d p q R; discriminate. Qed.

Lemma quiet_leads es w : Patient es -> Leads es w -> quiet w.
Proof.
  revert w. induction es as [|e es IH] using rev_ind; intros w P H.
  - injection H as <-. apply quiet_start.
  - apply leads_snoc in H. destruct H as (w0 & H0 & H1).
    eapply quiet_step; [eapply inv_leads; eauto|apply IH; auto; eapply patient_snoc; eauto|eapply patient_last; eauto|exact H1].
Qed.

(** ** Who fails *)

Lemma fails_step w e w' i r : inv w -> quiet w -> happen w e = Some w' -> IsRun w' i r -> r_phase r = Failed ->
  e = GiveUp i \/ exists r0, IsRun w i r0 /\ r_phase r0 = Failed.
Proof.
  intros I Q H R F. pose proof I as (I1 & I2 & I3). pose proof Q as (Q1 & Q2).
  assert (K : forall k r1 r2, nth_error (w_runs w) k = Some r1 -> w_runs w' = put (w_runs w) k r2 -> r_phase r2 <> Failed ->
              exists r0, IsRun w i r0 /\ r_phase r0 = Failed).
  { intros k r1 r2 K1 K2 K3. unfold IsRun in *. rewrite K2 in R. destruct (Nat.eq_dec k i) as [->|N].
    - rewrite (put_same _ _ _ _ K1) in R. congruence.
    - rewrite put_other in R by exact N. eauto. }
  assert (K0 : w_runs w' = w_runs w -> exists r0, IsRun w i r0 /\ r_phase r0 = Failed).
  { intros E. exists r. unfold IsRun in *. rewrite E in R. auto. }
  destruct e as [code ops|k d|p|k|k|k|p|p|k|k|k|p|]; cbn [happen] in H.
  - injection H as <-. right. unfold IsRun in *. cbn in R. destruct (lt_dec i (length (w_runs w))) as [L|L].
    + rewrite nth_error_app1 in R by exact L. eauto.
    + rewrite nth_error_app2 in R by lia. destruct (i - length (w_runs w)) as [|n]; cbn in R.
      * injection R as <-. discriminate.
      * destruct n; discriminate.
  - destruct (nth_error (w_runs w) k) as [r0|] eqn:R0; [|discriminate].
    destruct (r_phase r0); try discriminate. destruct (dget (w_dirs w) d); [discriminate|]. injection H as <-.
    right. eapply K; [exact R0|reflexivity|cbn; discriminate].
  - destruct (pget (w_procs w) p) as [[d [|op] seen [en|]]|]; try discriminate.
    destruct (dget (w_dirs w) d) as [[|t]|]; injection H as <-; right; apply K0; reflexivity.
  - destruct (nth_error (w_runs w) k) as [r0|] eqn:R0; [|discriminate].
    destruct (r_phase r0) as [|d p| | | | | |] eqn:P; try discriminate.
    destruct (pget (w_procs w) p) as [[pd pj ps [[|]|]]|] eqn:Hp; try discriminate.
    + injection H as <-. right. eapply K; [exact R0|reflexivity|cbn; discriminate].
    + exfalso. destruct (Q2 k r0 d p _ R0 P Hp) as [X _]. apply X. reflexivity.
  - destruct (nth_error (w_runs w) k) as [r0|] eqn:R0; [|discriminate].
    destruct (r_phase r0) as [| |d| | | | |] eqn:P; try discriminate.
    pose proof (I2 k r0 R0) as [_ G]. rewrite P in G. destruct G as (_ & t & T). rewrite T in H. injection H as <-.
    right. eapply K; [exact R0|reflexivity|cbn; discriminate].
  - destruct (nth_error (w_runs w) k) as [r0|] eqn:R0; [|discriminate].
    destruct (r_phase r0) as [| | |d [|op rest]| | | |]; try discriminate. injection H as <-.
    right. eapply K; [exact R0|reflexivity|cbn; discriminate].
  - destruct (pget (w_procs w) p) as [[d [|op] seen [en|]]|]; try discriminate. injection H as <-. right. apply K0. reflexivity.
  - destruct (pget (w_procs w) p) as [[d [|op] seen [en|]]|]; try discriminate. injection H as <-. right. apply K0. reflexivity.
  - destruct (nth_error (w_runs w) k) as [r0|] eqn:R0; [|discriminate].
    destruct (r_phase r0) as [| | | |d p op rest| | |]; try discriminate.
    destruct (pget (w_procs w) p) as [[pd pj ps [en|]]|]; try discriminate. injection H as <-.
    right. eapply K; [exact R0|reflexivity|cbn; discriminate].
  - destruct (nth_error (w_runs w) k) as [r0|] eqn:R0; [|discriminate].
    destruct (r_phase r0) as [| | |d [|op rest]| | | |]; try discriminate. injection H as <-.
    right. eapply K; [exact R0|reflexivity|cbn; discriminate].
  - destruct (nth_error (w_runs w) k) as [r0|] eqn:R0; [|discriminate].
    destruct (running (r_phase r0)); [|discriminate]. injection H as <-.
    destruct (Nat.eq_dec k i) as [->|N]; [left; reflexivity|]. right. unfold IsRun in *. cbn in R.
    rewrite put_other in R by exact N. eauto.
  - injection H as <-. right. apply K0. reflexivity.
  - injection H as <-. right. unfold IsRun in *. cbn in R. rewrite nth_error_map in R.
    destruct (nth_error (w_runs w) i) as [r0|]; [|discriminate]. exists r0. split; [reflexivity|]. cbn in R. injection R as <-.
    destruct (running (r_phase r0)); [discriminate|exact F].
Qed.

(** ** Which directories there are *)

Definition all_held (w : world) : Prop :=
  forall d, dget (w_dirs w) d <> None -> exists i r, IsRun w i r /\ held (r_phase r) = Some d.

Lemma held_put w w' i r r' :
  all_held w -> IsRun w i r -> w_runs w' = put (w_runs w) i r' ->
  (forall d, dget (w_dirs w') d <> None -> held (r_phase r') = Some d \/ (dget (w_dirs w) d <> None /\ held (r_phase r) <> Some d)) ->
  all_held w'.
Proof.
  intros A R E D d X. unfold IsRun in *. destruct (D d X) as [Y|[Y N]].
  - exists i, r'. split; [|exact Y]. unfold IsRun. rewrite E. eapply put_same; eauto.
  - destruct (A d Y) as (j & s & S0 & Z). exists j, s. split; [|exact Z]. unfold IsRun in *. rewrite E.
    rewrite put_other; [exact S0|]. intros <-. congruence.
Qed.

Lemma held_give_up w i r : all_held w -> IsRun w i r -> all_held (give_up w i r).
Proof.
  intros A R. eapply held_put with (r' := at_phase r Failed); eauto. intros d. cbn. unfold dropped.
  destruct (held (r_phase r)) as [d0|].
  - rewrite dget_del. destruct (Nat.eq_dec d d0) as [->|N]; [congruence|]. right. split; [assumption|congruence].
  - right. split; [assumption|discriminate].
Qed.

Lemma held_step w e w' : inv w -> quiet w -> all_held w -> e <> Crash -> happen w e = Some w' -> all_held w'.
Proof.
  intros I Q A NC H. pose proof I as (I1 & I2 & I3). pose proof Q as (Q1 & Q2).
  destruct e as [code ops|i d|p|i|i|i|p|p|i|i|i|p|]; cbn [happen] in H.
  - injection H as <-. intros d X. destruct (A d X) as (j & s & S0 & Z). exists j, s. split; [|exact Z]. unfold IsRun in *. cbn.
    rewrite nth_error_app1; [exact S0|]. apply nth_error_Some. congruence.
  - destruct (nth_error (w_runs w) i) as [r|] eqn:R; [|discriminate].
    destruct (r_phase r) eqn:P; try discriminate. destruct (dget (w_dirs w) d) eqn:D; [discriminate|]. injection H as <-.
    eapply held_put; [exact A|exact R|reflexivity|]. intros d0. cbn. rewrite dget_set, P. destruct (Nat.eq_dec d0 d) as [->|]; [auto|].
    right. split; [assumption|discriminate].
  - destruct (pget (w_procs w) p) as [[d [|op] seen [en|]]|] eqn:P; try discriminate.
    destruct (Q1 p d seen P) as (i & r & R & Ph).
    destruct (dget (w_dirs w) d) as [[|t]|] eqn:D; injection H as <-; intros d0; cbn; try rewrite dget_set; try apply A;
      (destruct (Nat.eq_dec d0 d) as [->|]; [intros _; exists i, r; rewrite Ph; auto|apply A]).
  - destruct (nth_error (w_runs w) i) as [r|] eqn:R; [|discriminate].
    destruct (r_phase r) as [|d p| | | | | |] eqn:P; try discriminate.
    destruct (pget (w_procs w) p) as [[pd pj ps [[|]|]]|] eqn:Hp; try discriminate; injection H as <-; [|apply held_give_up; assumption].
    eapply held_put; [exact A|exact R|reflexivity|]. intros d0 X. cbn in *. rewrite P. cbn.
    destruct (Nat.eq_dec d d0) as [->|]; [auto|]. right. split; [assumption|congruence].
  - destruct (nth_error (w_runs w) i) as [r|] eqn:R; [|discriminate].
    destruct (r_phase r) as [| |d| | | | |] eqn:P; try discriminate.
    destruct (dget (w_dirs w) d) as [[|t]|] eqn:D; injection H as <-; try (apply held_give_up; assumption).
    eapply held_put; [exact A|exact R|reflexivity|]. intros d0. cbn. rewrite dget_set, P. cbn.
    destruct (Nat.eq_dec d0 d) as [->|]; [auto|]. right. split; [assumption|congruence].
  - destruct (nth_error (w_runs w) i) as [r|] eqn:R; [|discriminate].
    destruct (r_phase r) as [| | |d [|op rest]| | | |] eqn:P; try discriminate. injection H as <-.
    eapply held_put; [exact A|exact R|reflexivity|]. intros d0 X. cbn in *. rewrite P. cbn.
    destruct (Nat.eq_dec d d0) as [->|]; [auto|]. right. split; [assumption|congruence].
  - destruct (pget (w_procs w) p) as [[d [|op] seen [en|]]|]; try discriminate. injection H as <-. exact A.
  - destruct (pget (w_procs w) p) as [[d [|op] seen [en|]]|]; try discriminate. injection H as <-. exact A.
  - destruct (nth_error (w_runs w) i) as [r|] eqn:R; [|discriminate].
    destruct (r_phase r) as [| | | |d p op rest| | |] eqn:P; try discriminate.
    destruct (pget (w_procs w) p) as [[pd pj ps [en|]]|]; try discriminate. injection H as <-.
    eapply held_put; [exact A|exact R|reflexivity|]. intros d0 X. cbn in *. rewrite P. cbn.
    destruct (Nat.eq_dec d d0) as [->|]; [auto|]. right. split; [assumption|congruence].
  - destruct (nth_error (w_runs w) i) as [r|] eqn:R; [|discriminate].
    destruct (r_phase r) as [| | |d [|op rest]| | | |] eqn:P; try discriminate. injection H as <-.
    eapply held_put; [exact A|exact R|reflexivity|]. intros d0. cbn. rewrite dget_del, P. cbn.
    destruct (Nat.eq_dec d0 d) as [->|]; [congruence|]. right. split; [assumption|congruence].
  - destruct (nth_error (w_runs w) i) as [r|] eqn:R; [|discriminate].
    destruct (running (r_phase r)); [|discriminate]. injection H as <-. apply held_give_up; assumption.
  - injection H as <-. exact A.
  - congruence.
Qed.

Lemma held_leads es w : Patient es -> ~ In Crash es -> Leads es w -> all_held w.
Proof.
  revert w. induction es as [|e es IH] using rev_ind; intros w P N H.
  - injection H as <-. intros d X. exfalso. apply X. reflexivity.
  - apply leads_snoc in H. destruct H as (w0 & H0 & H1). pose proof (patient_snoc _ _ P) as P0.
    eapply held_step; [eapply inv_leads; eauto|eapply quiet_leads; eauto| | |exact H1].
    + apply IH; auto. intros X. apply N. apply in_or_app. auto.
    + intros ->. apply N. apply in_or_app. right. left. reflexivity.
Qed.

(** ** The same run alone *)

Fixpoint commands (ans : list (oper * list (option text))) (p : nat) : list event :=
  match ans with
  | [] => []
  | (_, seen) :: ans' => Launch 0 :: (repeat (Look p) (length seen) ++ End p :: Take 0 :: commands ans' (S p))
  end.

Lemma only_repeat t seen : Only t seen -> seen = repeat (Some t) (length seen).
Proof.
  induction seen as [|x seen IH]; intros H; [reflexivity|]. cbn. rewrite <- IH by (intros y Y; apply H; right; exact Y).
  f_equal. apply H. left. reflexivity.
Qed.

Lemma looks_happen t op p n : forall w seen,
  w_dirs w = [(0, Project t)] -> pget (w_procs w) p = Some (Proc 0 (Analyse op) seen None) ->
  exists ps, happens w (repeat (Look p) n) = Some (World (w_dirs w) ps (w_next w) (w_runs w)) /\
    pget ps p = Some (Proc 0 (Analyse op) (seen ++ repeat (Some t) n) None).
Proof.
  induction n as [|n IH]; intros w seen D P.
  - exists (w_procs w). split; [destruct w; reflexivity|]. cbn. rewrite app_nil_r. exact P.
  - cbn [repeat happens happen]. rewrite P, D. cbn [dget aget]. cbn.
    destruct (IH (World [(0, Project t)] (pset (w_procs w) p (Proc 0 (Analyse op) (seen ++ [Some t]) None)) (w_next w) (w_runs w)) (seen ++ [Some t]))
      as (ps & H & P').
    + reflexivity.
    + cbn. rewrite pget_set. destruct (Nat.eq_dec p p); congruence.
    + exists ps. split; [exact H|]. rewrite P'. rewrite <- app_assoc. reflexivity.
Qed.

Lemma commands_happen code ops ans : forall w sofar,
  (forall op seen, In (op, seen) ans -> Only code seen) ->
  w_dirs w = [(0, Project code)] -> w_runs w = [Run code ops (Ready 0 (map fst ans)) sofar] ->
  exists ps n, happens w (commands ans (w_next w)) = Some (World [(0, Project code)] ps n [Run code ops (Ready 0 []) (sofar ++ ans)]).
Proof.
  induction ans as [|[op seen] ans IH]; intros w sofar O D R.
  - exists (w_procs w), (w_next w). cbn. rewrite app_nil_r. destruct w; cbn in *. subst. reflexivity.
  - cbn [commands happens happen]. rewrite R. cbn [nth_error r_phase map fst].
    set (w1 := World _ _ _ _).
    destruct (looks_happen code op (w_next w) (length seen) w1 []) as (ps & H & P).
    { exact D. }
    { cbn. rewrite pget_set. destruct (Nat.eq_dec (w_next w) (w_next w)); congruence. }
    rewrite happens_app, H. cbn [happens happen w_procs]. rewrite P. cbn [app w_dirs w_runs w_next].
    subst w1. cbn [w_runs nth_error put at_phase r_phase w_procs]. rewrite pget_set.
    destruct (Nat.eq_dec (w_next w) (w_next w)) as [_|]; [|congruence]. cbn [r_answers r_code r_ops w_dirs w_next].
    assert (O1 : Only code seen) by (eapply O; left; reflexivity).
    rewrite <- (only_repeat _ _ O1).
    match goal with |- context [happens ?w2 _] => destruct (IH w2 (sofar ++ [(op, seen)])) as (ps' & n' & H') end.
    + intros o s X. eapply O. right. exact X.
    + exact D.
    + reflexivity.
    + exists ps', n'. cbn [w_next] in H'. rewrite H'. rewrite <- app_assoc. reflexivity.
Qed.

Lemma alone_happens r : good start r -> r_phase r = Done -> exists es w, Leads es w /\ w_runs w = [r].
Proof.
  intros [A G] P. rewrite P in G. destruct r as [code ops ph ans]. cbn in *. subst ph ops.
  destruct (commands_happen code (map fst ans) ans
    (World [(0, Project code)] [(0, Proc 0 CargoNew [] (Some true))] 1 [Run code (map fst ans) (Ready 0 (map fst ans)) []]) [] A eq_refl eq_refl)
    as (ps & n & H).
  exists ([Submit code (map fst ans); Open 0 0; Create 0; MadeIt 0; Write 0] ++ commands ans 1 ++ [Finish 0]).
  exists (World [] ps n [Run code (map fst ans) Done ans]). split; [|reflexivity].
  unfold Leads. rewrite happens_app.
  assert (E : happens start [Submit code (map fst ans); Open 0 0; Create 0; MadeIt 0; Write 0] =
    Some (World [(0, Project code)] [(0, Proc 0 CargoNew [] (Some true))] 1 [Run code (map fst ans) (Ready 0 (map fst ans)) []]))
    by reflexivity.
  rewrite E, happens_app. cbn [w_next] in H. rewrite H. reflexivity.
Qed.

(** ** Runs that have ended *)

Lemma running_spec r : running (r_phase r) = false <-> Ended r.
Proof. unfold Ended. destruct (r_phase r); cbn; split; intros H; try discriminate; auto; destruct H as [H|[H|H]]; discriminate. Qed.

Lemma ended_put w i j r s x : IsRun w i r -> Ended r -> IsRun w j s -> running (r_phase s) = true -> nth_error (put (w_runs w) j x) i = Some r.
Proof.
  intros R E J T. destruct (Nat.eq_dec j i) as [->|N]; [|rewrite put_other by exact N; exact R].
  unfold IsRun in *. rewrite R in J. injection J as <-. apply running_spec in E. congruence.
Qed.

Lemma ended_step w e w' i r : IsRun w i r -> Ended r -> happen w e = Some w' -> IsRun w' i r.
Proof.
  intros R E H. pose proof (proj2 (running_spec r) E) as F.
  assert (K : forall j s x, nth_error (w_runs w) j = Some s -> running (r_phase s) = true -> nth_error (put (w_runs w) j x) i = Some r).
  { intros j s x J T. eapply ended_put; eauto. }
  unfold IsRun in *. destruct e; cbn [happen] in H; unfold give_up in H;
    repeat match goal with
    | H : match ?x with _ => _ end = Some _ |- _ => let E := fresh "Q" in destruct x eqn:E; try discriminate H
    end;
    injection H as <-; cbn [w_runs]; try exact R;
    try (eapply K; [eassumption|]; repeat match goal with Q : r_phase _ = _ |- _ => rewrite Q end; reflexivity || assumption).
  - rewrite nth_error_app1; [exact R|]. apply nth_error_Some. congruence.
  - rewrite nth_error_map, R. cbn. rewrite F. reflexivity.
Qed.
