(** * Property C106: asking for the steps of a function again

    The iteration orders of the hash maps are those of the run: [order], [hash] and [lines] in one,
    [order'], [hash'] and [lines'] in the other. *)
From Coq Require Import List Arith Bool Lia Permutation Sorted.
From Verif Require UsesSpec.
From Verif Require Import Base PermsModel FactsModel FactsSpec SpansModel SpansSpec CfgModel CfgSpec CfgProofs
  SegMirModel SegMirSpec SegMirProofs SegMirTree HirModel HirSpec HirProofs TablesModel TablesSpec TablesProofs TablesExact TablesPretty
  PropHir PropTables PropHide StepsModel StepsSpec StepsProofs PropSteps AgainSpec.
Import ListNotations.

(** Whether there is an answer, and why not, does not depend on the orders. *)
Theorem C106_outcome :
  forall env st id value m order hash lines order' hash' lines',
    match compute_permission_steps env st id value m order hash lines with
    | Val (Answered _) => exists ls', compute_permission_steps env st id value m order' hash' lines' = Val (Answered ls')
    | r => compute_permission_steps env st id value m order' hash' lines' = r
    end.
Proof.
  intros env st id value m order hash lines order' hash' lines'. unfold compute_permission_steps.
  destruct (compute (se_hir env) value) as [r| |]; cbn [bind]; auto. destruct r as [ids|es| |h]; auto.
  destruct (body_tables _ _ _ _) as [ts|]; auto. destruct (error_end env st id) as [err|]; eauto.
Qed.
Print Assumptions C106_outcome.

Lemma same_perm {A} (d : A) l l' : Permutation l l' -> (forall x, In x l -> x = d) -> l = l'.
Proof.
  intros P E. pose proof (Permutation_length P) as L.
  assert (E' : forall x, In x l' -> x = d) by (intros x I; apply E, (Permutation_in _ (Permutation_sym P)); auto).
  clear P. revert l' L E'. induction l as [|a l IH]; intros [|b l'] L E'; cbn in L; try lia; auto.
  rewrite (E a (or_introl eq_refl)), (E' b (or_introl eq_refl)). f_equal. apply IH; [|lia|]; intros x I; [apply E|apply E']; right; auto.
Qed.

Lemma sorted_perm {A} (R : A -> A -> Prop) l : forall l', Permutation l l' -> StronglySorted R l -> StronglySorted R l' ->
  (forall x y, In x l -> In y l -> R x y -> R y x -> x = y) -> l = l'.
Proof.
  induction l as [|a l IH]; intros l' P S1 S2 As; [apply Permutation_nil in P; auto|].
  destruct l' as [|b l']; [apply Permutation_sym, Permutation_nil in P; discriminate|].
  inversion S1 as [|? ? S1' F1]; inversion S2 as [|? ? S2' F2]; subst.
  assert (a = b) as <-.
  { assert (Ib : In b (a :: l)) by (eapply Permutation_in; [apply Permutation_sym, P|left; auto]).
    assert (Ia : In a (b :: l')) by (eapply Permutation_in; [exact P|left; auto]).
    destruct Ia as [->|Ia]; auto. destruct Ib as [->|Ib]; auto. apply As; [left; auto|right; auto| |].
    - rewrite Forall_forall in F1. apply F1. auto.
    - rewrite Forall_forall in F2. apply F2. auto. }
  f_equal. apply IH; auto; [eapply Permutation_cons_inv; eauto|]. intros x y I J. apply As; right; auto.
Qed.

Section Again.
  Variables (env : senv) (st : DiagState) (id : nat) (value : expr) (m : mode) (h : hst).
  Variables order order' : tables -> tables.
  Variables hash hash' : list (PlaceId * DataDiff) -> list (PlaceId * DataDiff).
  Variables lines lines' : list (nat * list entry) -> list (nat * list entry).
  Hypothesis asked : Asked env.
  Hypothesis order_ok : Shuffle order. Hypothesis order_ok' : Shuffle order'.
  Hypothesis hash_ok : Shuffle hash. Hypothesis hash_ok' : Shuffle hash'.
  Hypothesis lines_ok : Shuffle lines. Hypothesis lines_ok' : Shuffle lines'.
  Hypothesis done : compute (se_hir env) value = Val (HDone h).
  Hypothesis one : OneChange env value h m.
  Variables (ts : tables) (err : option nat).
  Hypothesis built : body_tables (table_builder env h) (h_st h) (Loc 0 0) (he_lo (se_hir env) (expr_id value)) = Some ts.
  Let w := prettifier env err.

  Lemma w_ends s : LineEnd (se_text env) (se_hi env s) (line_end w s).
  Proof. apply to_newline_spec. Qed.
  Lemma w_short s : line_end w s <= length (se_text env).
  Proof. apply to_newline_le, (asked_spans _ asked). Qed.
  Lemma w_same s s' : line_at w (line_end w s) = line_at w (line_end w s') -> line_end w s = line_end w s'.
  Proof. intros E. apply (line_one_end (se_text env) (se_hi env s) (se_hi env s')); auto using w_ends, w_short. Qed.

  Lemma rows_candidates line p d : In d (rows_on w m (order ts) line p) ->
    exists x span, the_place env p = Some x /\ se_visible env x = true /\ Candidate env value h x d span /\ Worth m d /\ line_at w (line_end w span) = line.
  Proof.
    intros I. apply C31_candidates in I as (l & v & t & I1 & I2 & I3 & _ & (Vi & Li & Em) & E).
    apply (Permutation_in _ (order_ok ts)) in I1. pose proof (compute_done _ _ _ done) as V.
    pose proof (tables_keys _ _ _ _ asked V built) as Nk. pose proof (Shape_Steps _ _ _ _ _ (walked _ _ _ V)) as Shp.
    destruct (body_tables_sound _ _ _ _ _ Shp (wf_builder env h) built l t) as (i & Ii & El & To).
    { unfold at_loc. rewrite (In_aget _ _ loc_eqd _ _ _ Nk I1). auto. }
    cbn in Vi. unfold place_visible in Vi. destruct (the_place env p) as [x|] eqn:Px; [|discriminate].
    exists x, (t_span t). split; auto. split; auto. split; [exists i, l, t, p; repeat (split; auto)|]. split; auto.
    split; auto. intros Em'. apply turns_not_empty; auto. destruct (table_change _ _ _ _ _ _ _ _ To I3) as (a & b & Ch). eapply change_letters; eauto.
  Qed.

  Lemma rows_same line p : rows_on w m (order ts) line p = rows_on w m (order' ts) line p.
  Proof.
    assert (P : Permutation (rows_on w m (order ts) line p) (rows_on w m (order' ts) line p)).
    { unfold rows_on. do 2 apply Permutation_flat_map. eapply Permutation_trans; [apply order_ok|apply Permutation_sym, order_ok']. }
    destruct (rows_on w m (order ts) line p) as [|d ds] eqn:E; [apply Permutation_nil in P; auto|].
    apply (same_perm d); auto. intros d' I'.
    assert (I : In d (rows_on w m (order ts) line p)) by (rewrite E; left; auto).
    rewrite <- E in I'. apply rows_candidates in I as (x & s & Px & Vx & C & W & L). apply rows_candidates in I' as (x' & s' & Px' & _ & C' & W' & L').
    rewrite Px in Px'. injection Px' as <-. symmetry. apply (one x d d' s s' (line_end w s)); auto using w_ends.
    replace (line_end w s) with (line_end w s'); [apply w_ends|]. apply w_same. congruence.
  Qed.

  Lemma line_again y : In y (prettify w m hash lines (order ts)) -> exists y', In y' (prettify w m hash' lines' (order' ts)) /\
    y_pos y' = y_pos y /\ Permutation (y_rows y) (y_rows y') /\ (Distinguished env -> y_rows y = y_rows y').
  Proof.
    intros I. destruct (C31_rows_ordered _ _ _ _ _ _ hash_ok lines_ok I) as (Ne & So & Nd).
    destruct (proj2 (C32_line_iff w m hash' lines' (order' ts) (y_line y) hash_ok' lines_ok')) as (y' & I' & L).
    { destruct (y_rows y) as [|[p d] r] eqn:E; [congruence|]. exists p, d. rewrite <- rows_same.
      apply (prettify_rows w m hash lines (order ts) y p d hash_ok lines_ok I). rewrite E. left. auto. }
    destruct (C31_rows_ordered _ _ _ _ _ _ hash_ok' lines_ok' I') as (Ne' & So' & Nd').
    assert (P : Permutation (y_rows y) (y_rows y')).
    { apply NoDup_Permutation; [eapply NoDup_map_inv; eauto|eapply NoDup_map_inv; eauto|]. intros [p d].
      rewrite (prettify_rows _ _ _ _ _ _ p d hash_ok lines_ok I), (prettify_rows _ _ _ _ _ _ p d hash_ok' lines_ok' I'), L, rows_same. reflexivity. }
    exists y'. split; auto. split.
    { destruct (prettify_pos w m hash lines (order ts) y hash_ok lines_ok I) as (? & ? & t & _ & _ & P1 & P2 & _).
      destruct (prettify_pos w m hash' lines' (order' ts) y' hash_ok' lines_ok' I') as (? & ? & t' & _ & _ & P1' & P2' & _).
      rewrite P1, P1'. apply w_same. rewrite <- P1, <- P1', <- P2, <- P2'. auto. }
    split; auto. intros Di. apply (sorted_perm (RowLe w)); auto.
    intros [p d] [q e] Ip Iq R1 R2.
    assert (p = q) as <-.
    { pose proof (proj1 (prettify_rows w m hash lines (order ts) y p d hash_ok lines_ok I) Ip) as Mp.
      pose proof (proj1 (prettify_rows w m hash lines (order ts) y q e hash_ok lines_ok I) Iq) as Mq.
      apply merge_In in Mp as [Mp|Mp]; [discriminate|]. apply merge_In in Mq as [Mq|Mq]; [discriminate|].
      apply rows_candidates in Mp as (x & _ & Px & Vx & _). apply rows_candidates in Mq as (x' & _ & Px' & Vx' & _).
      unfold RowLe in R1, R2. cbn [fst w prettifier w_local w_depth] in R1, R2. unfold place_local, place_depth in R1, R2. rewrite Px, Px' in R1, R2.
      assert (x = x') as <-.
      { apply Di; auto; try lia.
        - apply nth_error_In in Px. unfold domain_places in Px. apply nodup_In in Px. auto.
        - apply nth_error_In in Px'. unfold domain_places in Px'. apply nodup_In in Px'. auto. }
      eapply NoDup_nth_error; [apply (NoDup_nodup place_eqd (in_places (se_inp env)))| |].
      - apply nth_error_Some. unfold the_place, domain_places in Px. congruence.
      - unfold the_place, domain_places in *. congruence. }
    f_equal.     pose proof (proj1 (prettify_rows w m hash lines (order ts) y p d hash_ok lines_ok I) Ip) as Mp.
    pose proof (proj1 (prettify_rows w m hash lines (order ts) y p e hash_ok lines_ok I) Iq) as Mq. congruence.
  Qed.
End Again.

(** If no visible place changes in two ways on a line, the same lines are shown, with the same rows, in the same order
    where the places are told apart by variable and depth.
    Missing: lines where a place changes in two ways (C106_change_refuted), rows of equally deep parts of a variable
    (C106_rows_refuted), and the locations written in the lines (C106_locations_refuted). *)
Theorem C106_same_partial :
  forall env st id value m order hash lines order' hash' lines' ls ls' h,
    Asked env -> Shuffle order -> Shuffle hash -> Shuffle lines -> Shuffle order' -> Shuffle hash' -> Shuffle lines' ->
    compute_permission_steps env st id value m order hash lines = Val (Answered ls) ->
    compute_permission_steps env st id value m order' hash' lines' = Val (Answered ls') ->
    compute (se_hir env) value = Val (HDone h) -> OneChange env value h m ->
    length ls = length ls' /\
    forall y, In y ls -> exists y', In y' ls' /\ sl_pos y' = sl_pos y /\ Permutation (sl_rows y) (sl_rows y') /\
      (Distinguished env -> sl_rows y' = sl_rows y).
Proof.
  intros env st id value m order hash lines order' hash' lines' ls ls' h A So Sh Sl So' Sh' Sl' C C' D One.
  destruct (answered _ _ _ _ _ _ _ _ _ C) as (h0 & ts & err & D0 & B & E & ->). rewrite D in D0. injection D0 as <-.
  destruct (answered _ _ _ _ _ _ _ _ _ C') as (h0 & ts' & err' & D0 & B' & E' & ->). rewrite D in D0. injection D0 as <-.
  rewrite B in B'. injection B' as <-. rewrite E in E'. injection E' as <-.
  assert (Half : forall o1 h1 l1 o2 h2 l2, Shuffle o1 -> Shuffle h1 -> Shuffle l1 -> Shuffle o2 -> Shuffle h2 -> Shuffle l2 ->
    incl (map y_pos (prettify (prettifier env err) m h1 l1 (o1 ts))) (map y_pos (prettify (prettifier env err) m h2 l2 (o2 ts)))).
  { intros o1 h1 l1 o2 h2 l2 P1 P2 P3 P4 P5 P6 k I. apply in_map_iff in I as (y & <- & I).
    destruct (line_again env value m h o1 o2 h1 h2 l1 l2 A P1 P4 P2 P5 P3 P6 D One ts err B y I) as (y' & I' & Ep & _).
    rewrite <- Ep. apply in_map. auto. }
  assert (Nd : forall o1 h1 l1, Shuffle h1 -> Shuffle l1 -> NoDup (map y_pos (prettify (prettifier env err) m h1 l1 (o1 ts)))).
  { intros o1 h1 l1 P2 P3. pose proof (C31_once (prettifier env err) m h1 l1 (o1 ts) P2 P3) as N.
    rewrite (map_ext_in y_line (fun y => line_at (prettifier env err) (y_pos y))) in N.
    - rewrite <- map_map in N. eapply NoDup_map_inv; eauto.
    - intros y I. apply (C31_position _ _ _ _ _ _ P2 P3 I). }
  split.
  - rewrite !map_length. rewrite <- (map_length y_pos), <- (map_length y_pos (prettify _ _ hash' _ _)).
    apply Nat.le_antisymm; apply NoDup_incl_length; auto.
  - intros y I. apply in_map_iff in I as (z & <- & I).
    destruct (line_again env value m h order order' hash hash' lines lines' A So So' Sh Sh' Sl Sl' D One ts err B z I) as (z' & I' & Ep & P & Eq).
    exists (show env z'). split; [apply in_map; auto|]. cbn [show sl_pos sl_rows]. split; auto. split; [apply Permutation_map; auto|].
    intros Di. rewrite (Eq Di). reflexivity.
Qed.
Print Assumptions C106_same_partial.

(** [fn f() { let x = if a { s; 1 } else { 2 }; }] of PropHide.v, over three lines or on a single one: [x] (variable 3)
    begins to live after the [let], and [y] (variable 4, with two fields) is moved in both branches. *)
Module AgainDemo.
  Definition inp : Inp :=
    mkInp [mkPlace 3 []; mkPlace 4 []; mkPlace 4 [Field 0]; mkPlace 4 [Field 1]] [mkPlace 4 []] [(0, 10); (0, 20)] (fun _ => []) (fun p => [p]) (fun p => p)
      [(0, 1); (1, 10); (10, 11); (11, 12); (12, 30); (1, 20); (20, 21); (21, 30); (30, 31)] [] [] []
      (fun a b => local a =? local b) [] (fun _ => mkPlace 4 []) (fun _ => true)
      [] [(0, [4]); (1, [4]); (10, [4]); (11, [4]); (12, [4]); (20, [4]); (21, [4]); (30, [4]); (31, [3; 4])]
      (fun l => l =? 3) (fun _ => FactsModel.TOther) (fun _ => false).
  Definition env (out : Output) (text : list bool) : senv :=
    Senv HideDemo.let_env inp out (fun l => 10 * l_block l + l_idx l) (fun _ => true)
      (fun x => Some (local x :: map (fun f => match f with Field i => i | _ => 9 end) (projection x)))
      text (fun s => Nat.min 12 (s mod 100)) (fun _ _ => 77) Some.
  Definition three : list bool := [false; false; false; true; false; false; false; true; false; false; false; true].
  Definition single : list bool := repeat false 12.
  Definition st : DiagState := diag_run [TrackBody 7].

  Lemma asked out text : derive_permission_facts inp = Some out -> length text = 12 -> Asked (env out text).
  Proof.
    intros D L. constructor; cbn [env se_hir se_inp se_out se_hi se_text].
    - exact D.
    - apply HideDemo.let_wf.
    - apply returns_check_ok. vm_compute. reflexivity.
    - exists (Loc 3 1). eexists. split; [reflexivity|]. split; reflexivity.
    - intros l x. reflexivity.
    - apply PropHir.Demo.executable_check_ok; [apply HideDemo.let_wf|vm_compute; reflexivity].
    - intros m e. reflexivity.
    - intros s. rewrite L. apply Nat.le_min_l.
  Qed.
  Lemma facts : exists out, derive_permission_facts inp = Some out.
  Proof. destruct (derive_permission_facts inp) as [out|] eqn:D; [eauto|vm_compute in D; discriminate]. Qed.
End AgainDemo.

Lemma shuffle_id {A} : Shuffle (fun l : list A => l).
Proof. intros l. apply Permutation_refl. Qed.
Lemma shuffle_rev {A} : Shuffle (@rev A).
Proof. intros l. apply Permutation_sym, Permutation_rev. Qed.

(** A place that changes in two ways on a line has a row in the answer for one order and none for another. *)
Theorem C106_change_refuted :
  exists env st id value order order' ls ls' name,
    Asked env /\ Shuffle order /\ Shuffle order' /\
    compute_permission_steps env st id value Changes order (fun l => l) (fun l => l) = Val (Answered ls) /\
    compute_permission_steps env st id value Changes order' (fun l => l) (fun l => l) = Val (Answered ls') /\
    (exists y d, In y ls /\ In (name, d) (sl_rows y)) /\
    (forall y d, In y ls' -> ~ In (name, d) (sl_rows y)).
Proof.
  destruct AgainDemo.facts as (out & D). exists (AgainDemo.env out AgainDemo.single), AgainDemo.st, 7, HideDemo.let_hir, (fun l => l), (@rev _).
  pose proof (AgainDemo.asked out AgainDemo.single D eq_refl) as A. vm_compute in D. injection D as <-.
  do 2 eexists. exists [4]. split; [exact A|]. split; [apply shuffle_id|]. split; [apply shuffle_rev|].
  split; [vm_compute; reflexivity|]. split; [vm_compute; reflexivity|]. split.
  - do 2 eexists. split; [left; reflexivity|]. cbn. tauto.
  - intros y d I J. cbn in I. repeat (destruct I as [<-|I]; [cbn in J; repeat (destruct J as [J|J]; [discriminate|]); destruct J|]). destruct I.
Qed.
Print Assumptions C106_change_refuted.

(** The rows of the fields of a variable stand in any order. *)
Theorem C106_rows_refuted :
  exists env st id value hash hash' ls ls' y y',
    Asked env /\ Shuffle hash /\ Shuffle hash' /\
    compute_permission_steps env st id value Changes (fun l => l) hash (fun l => l) = Val (Answered ls) /\
    compute_permission_steps env st id value Changes (fun l => l) hash' (fun l => l) = Val (Answered ls') /\
    In y ls /\ In y' ls' /\ sl_pos y = sl_pos y' /\ NoDup (map sl_pos ls') /\ sl_rows y <> sl_rows y'.
Proof.
  destruct AgainDemo.facts as (out & D). exists (AgainDemo.env out AgainDemo.three), AgainDemo.st, 7, HideDemo.let_hir, (fun l => l), (@rev _).
  pose proof (AgainDemo.asked out AgainDemo.three D eq_refl) as A. vm_compute in D. injection D as <-.
  do 4 eexists. split; [exact A|]. split; [apply shuffle_id|]. split; [apply shuffle_rev|].
  split; [vm_compute; reflexivity|]. split; [vm_compute; reflexivity|]. split; [left; reflexivity|]. split; [left; reflexivity|].
  split; [reflexivity|]. split; [|discriminate]. cbn. repeat constructor; cbn; intuition discriminate.
Qed.
Print Assumptions C106_rows_refuted.

(** The locations of a line are those of any of its steps. *)
Theorem C106_locations_refuted :
  exists env st id value order order' ls ls' y y',
    Asked env /\ Shuffle order /\ Shuffle order' /\
    compute_permission_steps env st id value Changes order (fun l => l) (fun l => l) = Val (Answered ls) /\
    compute_permission_steps env st id value Changes order' (fun l => l) (fun l => l) = Val (Answered ls') /\
    In y ls /\ In y' ls' /\ sl_pos y = sl_pos y' /\ NoDup (map sl_pos ls') /\ sl_rows y = sl_rows y' /\ sl_from y <> sl_from y' /\ sl_to y <> sl_to y'.
Proof.
  destruct AgainDemo.facts as (out & D). exists (AgainDemo.env out AgainDemo.three), AgainDemo.st, 7, HideDemo.let_hir, (fun l => l), (@rev _).
  pose proof (AgainDemo.asked out AgainDemo.three D eq_refl) as A. vm_compute in D. injection D as <-.
  do 4 eexists. split; [exact A|]. split; [apply shuffle_id|]. split; [apply shuffle_rev|].
  split; [vm_compute; reflexivity|]. split; [vm_compute; reflexivity|]. split; [right; left; reflexivity|].
  split; [left; reflexivity|]. split; [reflexivity|]. 
  split; [cbn; repeat constructor; cbn; intuition discriminate|]. split; [reflexivity|]. split; discriminate.
Qed.
Print Assumptions C106_locations_refuted.

(** Deciding [OneChange] on an example. *)
Definition candidates (env : senv) (ts : tables) : list (Place * DataDiff * nat) :=
  flat_map (fun v => flat_map (fun t => flat_map (fun r => match the_place env (fst r) with Some x => [(x, snd r, t_span t)] | None => [] end)
    (t_data t)) (snd v)) ts.

Lemma candidates_all env value h ts x d span : Asked env -> compute (se_hir env) value = Val (HDone h) -> Separate (h_st h) (Loc 0 0) ->
  body_tables (table_builder env h) (h_st h) (Loc 0 0) (he_lo (se_hir env) (expr_id value)) = Some ts ->
  Candidate env value h x d span -> In (x, d, span) (candidates env ts).
Proof.
  intros A D Sep B (i & l & t & p & Ii & El & To & Px & Ip & Es).
  pose proof (compute_done _ _ _ D) as V. pose proof (Shape_Steps _ _ _ _ _ (walked _ _ _ V)) as Shp.
  destruct (body_tables_exact _ _ _ _ _ Shp (wf_builder env h) Sep B l) as (is & _ & His & F).
  destruct (Forall2_In_l _ _ _ i F) as (t' & I2 & Tj); [apply His; auto|].
  destruct (table_same _ _ _ _ _ _ _ To Tj) as [E1 E2]. unfold at_loc in I2.
  destruct (aget loc_eqd ts l) as [v|] eqn:G; [|destruct I2]. apply aget_Some_In in G.
  apply in_flat_map. exists (l, v). split; auto. apply in_flat_map. exists t'. split; auto. apply in_flat_map. exists (p, d).
  split; [apply E2; auto|]. cbn [fst snd]. rewrite Px. left. rewrite <- E1, Es. reflexivity.
Qed.

Lemma single_step_eqd : forall a b : ValueStep bool, {a = b} + {a <> b}.
Proof. repeat decide equality. Defined.
Lemma single_key_eqd : forall a b : ValueStep nat, {a = b} + {a <> b}.
Proof. repeat decide equality. Defined.
Lemma diff_eqd : forall a b : DataDiff, {a = b} + {a <> b}.
Proof. decide equality; try apply single_step_eqd; try apply single_key_eqd. decide equality; apply single_step_eqd. Defined.

Definition one_change_check (env : senv) (ts : tables) : bool :=
  forallb (fun a => forallb (fun b =>
    match a, b with (x, d, s), (y, e, s') =>
      negb (if place_eqd x y then true else false) || ddiff_is_empty d || ddiff_is_empty e ||
      (if single_step_eqd (dd_is_live d) (NoStep (Some false)) then true else false) ||
      (if single_step_eqd (dd_is_live e) (NoStep (Some false)) then true else false) ||
      negb (to_newline (se_text env) (se_hi env s) =? to_newline (se_text env) (se_hi env s')) ||
      (if diff_eqd d e then true else false)
    end) (candidates env ts)) (candidates env ts).

Lemma one_change_check_ok env value h ts : Asked env -> compute (se_hir env) value = Val (HDone h) -> Separate (h_st h) (Loc 0 0) ->
  body_tables (table_builder env h) (h_st h) (Loc 0 0) (he_lo (se_hir env) (expr_id value)) = Some ts ->
  one_change_check env ts = true -> OneChange env value h Changes.
Proof.
  intros A D Sep B K x d e s s' pos _ C [L1 T1] E1 C' [L2 T2] E2.
  apply (candidates_all _ _ _ _ _ _ _ A D Sep B) in C. apply (candidates_all _ _ _ _ _ _ _ A D Sep B) in C'.
  unfold one_change_check in K. rewrite forallb_forall in K. specialize (K _ C). rewrite forallb_forall in K. specialize (K _ C'). cbn beta iota in K.
  specialize (T1 eq_refl). specialize (T2 eq_refl). rewrite (turns_empty _ T1), (turns_empty _ T2) in K.
  destruct (place_eqd x x) as [_|]; [|congruence]. destruct (single_step_eqd (dd_is_live d) _) as [|_]; [contradiction|].
  destruct (single_step_eqd (dd_is_live e) _) as [|_]; [contradiction|]. destruct (diff_eqd d e) as [|_]; auto. exfalso.
  assert (Q : forall t, LineEnd (se_text env) (se_hi env t) pos -> to_newline (se_text env) (se_hi env t) = pos).
  { intros t (A1 & A2 & A3). destruct (to_newline_spec (se_text env) (se_hi env t)) as (B1 & B2 & B3).
    pose proof (to_newline_le (se_text env) (se_hi env t) (asked_spans _ A t)) as Sh.
    destruct (lt_eq_lt_dec (to_newline (se_text env) (se_hi env t)) pos) as [[G|G]|G]; auto; exfalso.
    - destruct B3 as [B3|B3]; [rewrite (A2 _ (conj B1 G)) in B3; discriminate|].
      apply nth_error_None in B3. rewrite (A2 _ (conj B1 G)) in B3. discriminate.
    - destruct A3 as [A3|A3]; [rewrite (B2 pos) in A3 by lia; discriminate|lia]. }
  rewrite (Q _ E1), (Q _ E2), Nat.eqb_refl in K. discriminate.
Qed.

Example C106_witness : exists out h,
  let env := StepsDemo.env out in
  Asked env /\ compute (se_hir env) HideDemo.let_hir = Val (HDone h) /\ OneChange env HideDemo.let_hir h Changes /\ Distinguished env /\
  (exists ls, compute_permission_steps env (diag_run [TrackBody 7]) 7 HideDemo.let_hir Changes (fun l => l) (fun l => l) (fun l => l) = Val (Answered ls) /\
     map (fun y => length (sl_rows y)) ls = [2; 2]) /\
  exists ls, compute_permission_steps env (diag_run [TrackBody 7]) 7 HideDemo.let_hir Changes (@rev _) (@rev _) (@rev _) = Val (Answered ls) /\
     map (fun y => length (sl_rows y)) ls = [2; 2].
Proof.
  destruct C100_witness as (out & A & _). destruct (derive_permission_facts StepsDemo.inp) as [out'|] eqn:D; [|vm_compute in D; discriminate].
  assert (out' = out) as -> by (pose proof (asked_facts _ A) as X; cbn [StepsDemo.env se_inp se_out] in X; rewrite D in X; injection X as E; exact E).
  exists out, HideDemo.let_done. cbv zeta. split; [exact A|].
  assert (C : compute (se_hir (StepsDemo.env out)) HideDemo.let_hir = Val (HDone HideDemo.let_done)) by (vm_compute; reflexivity).
  split; [exact C|]. split.
  { destruct (body_tables (table_builder (StepsDemo.env out) HideDemo.let_done) (h_st HideDemo.let_done) (Loc 0 0)
      (he_lo (se_hir (StepsDemo.env out)) (expr_id HideDemo.let_hir))) as [ts|] eqn:B.
    2: { vm_compute in D. injection D as <-. vm_compute in B. discriminate B. }
    refine (one_change_check_ok _ _ _ ts A C _ B _).
    - apply separate_check_ok; [|vm_compute; reflexivity]. eapply Shape_Steps, walked, compute_done. exact C.
    - vm_compute in D. injection D as <-. vm_compute in B. injection B as <-. vm_compute. reflexivity. }
  split.
  { clear A C D. intros x y [<-|[<-|[<-|[]]]] [<-|[<-|[<-|[]]]] _ _ L P; try discriminate L; try discriminate P; reflexivity. }
  clear A C.
  vm_compute in D. injection D as <-. split; (eexists; split; [vm_compute; reflexivity|vm_compute; reflexivity]).
Qed.
