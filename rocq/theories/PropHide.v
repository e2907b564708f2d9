(** * Properties C84 and C85: what is hidden in an initialiser, and steps into arms

    Only the statements below, [Shows], and HirSpec.v, TablesSpec.v, SegMirSpec.v and
    CfgSpec.v have to be read: the steps of a function with the variables whose [let]s
    they stand in ([steps_body]), its decisions ([decisions_expr]), and how permissions
    change ([Change]). *)
From Coq Require Import List Arith Bool Lia.
From Verif Require Import Base FactsModel PermsModel CfgModel CfgSpec CfgProofs SegMirModel SegMirSpec SegMirProofs
  SegMirScopes SegMirClose SegMirTree SegMirSound SegMirInsert HirModel HirSpec HirProofs HirHide HirSides PropHir
  TablesModel TablesSpec TablesProofs TablesExact.
Import ListNotations.

Module HideDemo.
  (** [fn f() { let x = if a { s; 1 } else { 2 }; }]; variable 3 is [x]. *)
  Definition let_body : body :=
    [ Block 1 false (TSwitchInt [1; 2]); Block 2 false (TOther [3]); Block 1 false (TOther [3]); Block 1 false TReturn ].
  Definition let_hir : expr :=
    EBlock 1 (Blk (Scons (SLet 5 (ESome (EIf 3 (Demo.e 4)
      (EBlock 6 (Blk (Scons (SExpr 7 (Demo.e 8)) Snil) (ESome (Demo.e 9))))
      (ESome (EBlock 10 (Blk Snil (ESome (Demo.e 11))))))) BNone) Snil) ENone).
  Definition let_env : henv := Demo.env let_body false
    [(4, [Loc 0 0; Loc 0 1]); (8, [Loc 1 0]); (9, [Loc 1 1]); (11, [Loc 2 0]); (5, [Loc 3 0])]
    [(4, [3; 5; 1]); (8, [7; 6; 3; 5; 1]); (9, [6; 3; 5; 1]); (11, [10; 3; 5; 1]); (5, [1])].
  Definition let_done : hst := Eval vm_compute in match compute let_env let_hir with Val (HDone h) => h | _ => hmake end.
  Lemma let_wf : WfBody let_body. Proof. apply wf_check_ok. vm_compute. reflexivity. Qed.

  (** [fn f() { match x { Some(1) => { s; } Some(_) => { t; } None => { u; } } }]: the first
      switch is on the variant (hir_steps.rs 697-704 has this example). *)
  Definition match_body : body :=
    [ Block 1 false (TSwitchInt [1; 2]); Block 0 false (TSwitchInt [3; 4]); Block 2 false (TOther [5]);
      Block 2 false (TOther [5]); Block 2 false (TOther [5]); Block 1 false TReturn ].
  Definition one (k : nat) : expr := EBlock k (Blk (Scons (SExpr (k + 1) (Demo.e (k + 2))) Snil) ENone).
  Definition match_hir : expr :=
    EBlock 1 (Blk Snil (ESome (EMatch 3 false (Demo.e 4)
      (Acons (Arm 10 11 ENone (one 12)) (Acons (Arm 20 21 ENone (one 22)) (Acons (Arm 30 31 ENone (one 32)) Anil)))))).
  Definition match_env (order : list (loc * nat) -> list (loc * nat)) : henv :=
    Henv match_body (fun l => l) false 9
      [(4, [Loc 0 0; Loc 0 1]); (14, [Loc 3 0; Loc 3 1]); (24, [Loc 4 0; Loc 4 1]); (34, [Loc 2 0; Loc 2 1]); (3, [Loc 5 0])]
      (fun c id => existsb (Nat.eqb id) (match c with 4 => [3; 1] | 14 => [13; 12; 10; 3; 1] | 24 => [23; 22; 20; 3; 1] | 34 => [33; 32; 30; 3; 1] | 3 => [1] | _ => [] end))
      (fun id => 100 + id) (fun id => 200 + id) (fun id => 300 + id) 0 order (fun _ => []).
  Lemma match_wf : WfBody match_body. Proof. apply wf_check_ok. vm_compute. reflexivity. Qed.
  Definition match_done : hst := Eval vm_compute in match compute (match_env (fun m => m)) match_hir with Val (HDone h) => h | _ => hmake end.
  Definition match_rev : hst := Eval vm_compute in match compute (match_env (@rev _)) match_hir with Val (HDone h) => h | _ => hmake end.

  (** Place 3 is the new variable, place 4 another one. *)
  Definition dead : PData := mkPD true true false false false None None None None.
  Definition full : PData := mkPD true true false true false None None None None.
  Definition let_tab : TablesModel.env := TablesModel.Env
    (fun l => let x := if (l_block l =? 0) || (l_idx l <? 1) && negb (l_block l =? 3) then dead else full in [(3, x); (4, x)])
    [(3, dead); (4, dead)] (fun p => p) (h_locals let_done) (fun _ _ => 77).
  Lemma let_tab_wf : WfEnv let_tab.
  Proof.
    intros l. split; [|split].
    - repeat constructor; cbn; intuition discriminate.
    - intros p. reflexivity.
    - repeat constructor; cbn; intuition discriminate.
  Qed.
End HideDemo.

(** ** C84 *)

(** The rows of a table. *)
Definition Rows (t : TablesModel.table) (P : PlaceId -> DataDiff -> Prop) : Prop := forall p d, In (p, d) (t_data t) <-> P p d.

(** What a table shows of the variables that are being declared.
    - The table of the opening brace shows every change.
    - The table of a step, or of a step into an arm, that is part of the initialiser of a
      [let], with a block in between, does not show the variables of this [let]; it shows
      every other change.
    - The table at the end of a decision shows only the variables of the [let] that the
      decision directly initialises. *)
Inductive Shows (env : henv) (e : TablesModel.env) (value : expr) (t : TablesModel.table) : Prop :=
| shows_opening : t_from t = t_to t -> Rows t (Change (e_bottom e) (e_dom e (t_to t))) -> Shows env e value t
| shows_step pl span w : In (pl, span, w) (steps_body env value) -> t_span t = span ->
    (ReachableLoc (he_body env) (t_to t) -> AlwaysBefore (he_body env) (t_to t) pl) ->
    Rows t (fun p d => Change (e_dom e (t_from t)) (e_dom e (t_to t)) p d /\ ~ In (e_local e p) (w_out w)) ->
    Shows env e value t
| shows_into_arm pl span w : In (pl, span, w) (steps_body env value) -> switch_location (he_body env) (t_from t) <> None ->
    (ReachableLoc (he_body env) (t_from t) -> AlwaysBefore (he_body env) (t_from t) pl) ->
    Rows t (fun p d => Change (e_dom e (t_from t)) (e_dom e (t_to t)) p d /\ ~ In (e_local e p) (w_out w)) ->
    Shows env e value t
| shows_join pl span w from : In (pl, span, w) (steps_body env value) ->
    switch_location (he_body env) from = Some (t_from t) ->
    (ReachableLoc (he_body env) from -> AlwaysBefore (he_body env) from pl) ->
    Rows t (fun p d => Change (e_dom e (t_from t)) (e_dom e (t_to t)) p d /\ In (e_local e p) (w_own w)) ->
    Shows env e value t.

Lemma points_of_nodes env :
  (forall e w x, In x (steps_expr env w e) -> OfNode env (fst (fst x))) /\
  (forall o w x, In x (steps_oexpr env w o) -> OfNode env (fst (fst x))) /\
  (forall l w x, In x (steps_exprs env w l) \/ In x (steps_bodies env w l) -> OfNode env (fst (fst x))) /\
  (forall a w x, In x (steps_arm env w a) -> OfNode env (fst (fst x))) /\
  (forall l w x, In x (steps_arms env w l) -> OfNode env (fst (fst x))) /\
  (forall b w x, In x (steps_block env w b) -> OfNode env (fst (fst x))) /\
  (forall l w x, In x (steps_stmts env w l) -> OfNode env (fst (fst x))) /\
  (forall s w x, In x (steps_stmt env w s) -> OfNode env (fst (fst x))) /\
  (forall o w x, In x (steps_oblk env w o) -> OfNode env (fst (fst x))).
Proof.
  assert (E : forall w id x, In x (at_end env w id) -> OfNode env (fst (fst x))).
  { intros w id x I. unfold at_end in I. destruct (node_exit env id) as [l|] eqn:N; [|destruct I]. destruct I as [<-|[]]. exists id. auto. }
  assert (C : forall w c id x, In x (at_condition env w c id) -> OfNode env (fst (fst x))).
  { intros w c id x I. unfold at_condition, decided in I. destruct (node_exit env c) as [l|] eqn:N.
    - destruct I as [<-|[]]. exists c. auto.
    - destruct (node_entry env id) as [l|] eqn:M; [|destruct I]. destruct I as [<-|[]]. exists id. auto. }
  apply hir_mind; try solve [intros; contradiction].
  - intros id c Hc t Ht o Ho w x. cbn [steps_expr]. rewrite !in_app_iff. intros [I|[I|[I|I]]]; eauto.
  - intros id c Hc t Ht o Ho w x. cbn [steps_expr]. rewrite !in_app_iff. intros [I|[I|[I|I]]]; eauto.
  - intros id c Hc t Ht o Ho w x. cbn [steps_expr]. rewrite !in_app_iff. intros [I|[I|[I|I]]]; eauto.
  - intros id d c Hc ar Ha w x. cbn [steps_expr]. rewrite !in_app_iff. destruct (no_decision env d c ar); intros [I|[I|I]]; eauto. destruct I.
  - intros id b H w x I. exact (H w x I).
  - intros id v H w x. cbn [steps_expr]. rewrite !in_app_iff. intros [I|I]; eauto.
  - intros id l H w x I. apply (H w x). left. exact I.
  - intros e H w x I. exact (H w x I).
  - intros w x [[]|[]].
  - intros e He r Hr w x. cbn [steps_exprs steps_bodies]. rewrite !in_app_iff. intros [[I|I]|[I|[I|I]]]; eauto.
  - intros id pat g Hg b Hb w x. cbn [steps_arm]. rewrite in_app_iff. intros [I|I]; [|eauto].
    destruct (node_entry env (expr_id b)) as [l|] eqn:N; [|eauto]. destruct I as [<-|[]]. exists (expr_id b). auto.
  - intros a Ha r Hr w x. cbn [steps_arms]. rewrite in_app_iff. intros [I|I]; eauto.
  - intros ss Hs t Ht w x. cbn [steps_block]. rewrite in_app_iff. intros [I|I]; [eauto|]. destruct t as [|e]; [destruct I|].
    apply in_app_iff in I. destruct I as [I|I]; [exact (Ht _ _ I)|eauto].
  - intros st Hs r Hr w x. cbn [steps_stmts]. rewrite in_app_iff. intros [I|I]; eauto.
  - intros id i Hi el He w x. cbn [steps_stmt]. rewrite !in_app_iff. intros [[I|I]|I]; eauto.
  - intros id e H w x. cbn [steps_stmt]. rewrite in_app_iff. intros [I|I]; eauto.
  - intros id l H w x. cbn [steps_stmt]. rewrite in_app_iff. intros [I|I]; eauto.
  - intros b H w x I. exact (H w x I).
Qed.

Lemma point_reachable env value x : WfBody (he_body env) -> Order (he_ord env) -> Executable env -> In x (steps_body env value) ->
  ReachableLoc (he_body env) (fst (fst x)).
Proof.
  intros Wf O E I. apply node_reachable; auto. unfold steps_body in I. apply in_app_iff in I. destruct I as [I|I].
  - exact (proj1 (points_of_nodes env) _ _ _ I).
  - unfold at_end in I. destruct (node_exit env (expr_id value)) as [l|] eqn:N; [|destruct I]. destruct I as [<-|[]]. exists (expr_id value). auto.
Qed.

(** Every table of every function shows that. *)
Theorem C84_hidden :
  forall env value h e start brace r, WfBody (he_body env) -> Order (he_ord env) -> Executable env ->
    visit_body env value hmake = Val h -> WfEnv e -> e_locals_at e = h_locals h ->
    body_tables e (h_st h) start brace = Some r ->
    forall l t, In t (at_loc r l) -> Shows env e value t.
Proof.
  intros env value h e start brace r Wf O Ex V We El B l t I. pose proof (walked _ _ _ V) as St.
  pose proof (Shape_Steps _ _ _ _ _ St) as Sh. pose proof (hidden_start env value h V) as Hid.
  destruct (body_tables_sound _ _ _ _ _ Sh We B l t I) as (i & Ii & _ & T). destruct T as [_ T]. destruct i as [|sid|bid].
  - destruct T as (_ & Ef & Et & R). apply shows_opening; [congruence|]. rewrite Et. exact R.
  - destruct T as (sg & Es & Tp & Tf & Tt & R). destruct (Hid sid sg Es) as (pl & span & w & Ip & D & Ln & Fl & _).
    pose proof (point_reachable _ _ _ Wf O Ex Ip) as Rp. cbn in Rp.
    assert (R' : Rows t (fun p d => Change (e_dom e (t_from t)) (e_dom e (t_to t)) p d /\ ~ In (e_local e p) (w_out w))).
    { intros p d. rewrite R, Tf, Tt. apply and_iff_compat_l. apply not_iff_compat. rewrite <- Fl. unfold filtered, DeclaredIn, vars. rewrite in_flat_map, El.
      split.
      - intros (sc & J & v & A & K). exists sc. rewrite A. auto.
      - intros (sc & J & K). exists sc. destruct (aget Nat.eq_dec (h_locals h) sc) as [v|]; [|destruct K]. eauto. }
    assert (Or : In sid (steps_of (h_st h)) \/ exists b, In b (branches (h_st h)) /\ In sid (br_splits b)).
    { assert (K : In sid (seq 0 (length (segs (h_st h))))) by (apply in_seq; split; [lia|]; apply nth_error_Some; congruence).
      apply (Permutation.Permutation_in _ (Permutation.Permutation_sym (sh_segs _ Sh))) in K. apply in_app_iff in K. destruct K as [K|K]; [auto|].
      right. apply in_flat_map in K. exact K. }
    destruct Or as [K|(b & Ib & Kb)].
    + destruct (Ln K) as [Esp Dt]. apply (shows_step _ _ _ _ pl span w); [exact Ip|congruence| |exact R']. rewrite Tt. intros Rt. apply ldominates_before; auto.
    + apply (shows_into_arm _ _ _ _ pl span w); [exact Ip| | |exact R'].
      * rewrite Tf. apply In_nth_error in Kb. destruct Kb as [k Kb]. destruct (ArmsOk_Steps _ _ _ _ _ St b Ib) as [Len A].
        destruct (nth_error (successors (he_body env) (l_block (fst (br_reach b)))) k) as [n|] eqn:En.
        -- destruct (A k n sid En Kb) as (sg' & Es' & _ & Sw). assert (sg' = sg) by congruence. subst sg'. congruence.
        -- exfalso. apply nth_error_None in En. assert (k < length (br_splits b)) by (apply nth_error_Some; congruence). lia.
      * rewrite Tf. intros Rt. apply ldominates_before; auto.
  - destruct T as (b & Eb & Tp & Tf & Tt & R). pose proof (nth_error_In _ _ Eb) as Ib.
    pose proof (body_tables_arms _ _ _ _ _ Sh B b Ib) as HA. destruct (br_splits b) as [|sid rest] eqn:Ebs; [congruence|].
    destruct (ArmsOk_Steps _ _ _ _ _ St b Ib) as [Len A]. rewrite Ebs in Len, A.
    destruct (nth_error (successors (he_body env) (l_block (fst (br_reach b)))) 0) as [n|] eqn:En.
    2:{ exfalso. apply nth_error_None in En. cbn in Len. lia. }
    destruct (A 0 n sid En eq_refl) as (sg & Es & _ & Sw). destruct (Hid sid sg Es) as (pl & span & w & Ip & D & _ & _ & Ow).
    pose proof (point_reachable _ _ _ Wf O Ex Ip) as Rp. cbn in Rp.
    apply (shows_join _ _ _ _ pl span w (s_from sg)); [exact Ip|congruence|intros Rt; apply ldominates_before; auto|].
    intros p d. rewrite R, Tf, Tt. apply and_iff_compat_l. rewrite <- Ow. unfold DeclaredIn, vars, BranchScope. rewrite El. split.
    + intros (sc & (sid' & rest' & sg' & X & Y & Z) & v & K & J). rewrite Ebs in X. injection X as <- <-. assert (sg' = sg) by congruence. subst. rewrite K. exact J.
    + intros J. exists (s_scope sg). split; [exists sid, rest, sg; auto|]. destruct (aget Nat.eq_dec (h_locals h) (s_scope sg)) as [v|]; [|destruct J]. eauto.
Qed.
Print Assumptions C84_hidden.

(** In [let x = if a { s; 1 } else { 2 };] the step after [s] shows the other variable but
    not [x]; the end of the [if] shows [x] alone. *)
Example C84_witness :
  WfBody (he_body HideDemo.let_env) /\ Order (he_ord HideDemo.let_env) /\ Executable HideDemo.let_env /\
  visit_body HideDemo.let_env HideDemo.let_hir hmake = Val HideDemo.let_done /\ WfEnv HideDemo.let_tab /\
  e_locals_at HideDemo.let_tab = h_locals HideDemo.let_done /\
  exists r, body_tables HideDemo.let_tab (h_st HideDemo.let_done) (Loc 0 0) 0 = Some r /\
    map (fun t => (t_span t, map fst (t_data t))) (at_loc r (Loc 1 1)) = [(107, [4])] /\
    map (fun t => (t_span t, map fst (t_data t))) (at_loc r (Loc 3 0)) = [(77, [3])] /\
    map (fun t => (t_span t, map fst (t_data t))) (at_loc r (Loc 3 1)) = [(105, [3; 4])].
Proof.
  split; [apply HideDemo.let_wf|]. split; [intros l x; reflexivity|].
  split; [apply Demo.executable_check_ok; [apply HideDemo.let_wf|vm_compute; reflexivity]|].
  split; [vm_compute; reflexivity|]. split; [apply HideDemo.let_tab_wf|]. split; [reflexivity|].
  eexists. split; [vm_compute; reflexivity|]. repeat split; vm_compute; reflexivity.
Qed.

(** ** C85 *)

(** The steps from a switch: every branch belongs to a decision of the source.  A step to a
    target of the switch ends at a side of the decision that all executions reach through
    the target, and is shown at the place of this side (the last one given for the
    location).  If there is no such side, then it ends at the target and is shown at the
    decision's default place. *)
Theorem C85_sides :
  forall env value h, WfBody (he_body env) -> Order (he_ord env) -> Executable env ->
    (forall m e, In e (he_entries env m) <-> In e m) ->
    visit_body env value hmake = Val h ->
    forall b, In b (branches (h_st h)) ->
    exists sides default, In (sides, default) (decisions_expr env value) /\
      forall k n sid, nth_error (successors (he_body env) (l_block (fst (br_reach b)))) k = Some n ->
        nth_error (br_splits b) k = Some sid ->
        exists sg, nth_error (segs (h_st h)) sid = Some sg /\
          ((AlwaysBefore (he_body env) (Loc n 0) (s_to sg) /\ aget loc_eqd (rev sides) (s_to sg) = Some (s_span sg)) \/
           ((forall side, In side sides -> ~ AlwaysBefore (he_body env) (Loc n 0) (fst side)) /\
            s_to sg = Loc n 0 /\ s_span sg = default)).
Proof.
  intros env value h Wf O Ex En V b Ib. pose proof (walked _ _ _ V) as St. pose proof (Split_Steps _ _ St b Ib) as (k0 & sp & Isp & Sp).
  assert (Dec : Decides env (visit_body env value) (decisions_expr env value)).
  { rewrite <- (app_nil_r (decisions_expr env value)). apply Decides_bind; [apply (proj1 (decided_all env))|apply Decides_exit]. }
  destruct (Dec _ _ V _ _ Isp) as [[]|(d & Id & m & -> & ND & Em)]. exists (fst d), (snd d). rewrite <- surjective_pairing. split; [exact Id|].
  intros k n sid Hn Hs. destruct (Sp k n sid Hn Hs) as (sg & Es & G). exists sg. split; [exact Es|].
  assert (Sides : forall l, aget loc_eqd m l <> None <-> exists x, In (l, x) (fst d)).
  { intros l. rewrite Em. split.
    - destruct (aget loc_eqd (rev (fst d)) l) as [x|] eqn:A; [|congruence]. intros _. exists x. apply in_rev. apply (aget_Some_In _ _ loc_eqd) in A. exact A.
    - intros (x & I) N. apply aget_None in N. apply N. apply in_map_iff. exists (l, x). split; [auto|]. apply -> in_rev. exact I. }
  assert (Rs : forall l x, In (l, x) (fst d) -> ReachableLoc (he_body env) l).
  { intros l x I. apply node_reachable; auto. exact (proj1 (sided env) value d (l, x) Id I). }
  assert (Vn : ValidLoc (he_body env) (Loc n 0)).
  { apply nth_error_In in Hn. unfold successors in Hn. apply filter_In in Hn. destruct Hn as [_ Hn]. unfold keep_successor in Hn.
    destruct (nth_error (he_body env) n) as [x|] eqn:X; [|discriminate]. exists x. split; [exact X|cbn; lia]. }
  unfold get_span in G. cbn [sp_entries sp_default] in G.
  destruct (find (fun e => ldominates (he_body env) (Loc n 0) (fst e)) (he_entries env m)) as [[l x]|] eqn:F.
  - left. injection G as -> ->. apply find_some in F. destruct F as [F1 F2]. cbn in F2. apply (proj1 (En m (l, x))) in F1.
    assert (A : aget loc_eqd m l = Some x) by exact (In_aget _ _ loc_eqd _ _ _ ND F1). rewrite <- Em, A. split; [|auto].
    destruct (proj1 (Sides l)) as [y Iy]; [congruence|]. apply ldominates_iff; auto; [apply ReachableLoc_valid; eauto|eauto].
  - right. injection G as -> ->. split; [|auto]. intros [l x] I H. cbn in H.
    assert (A : aget loc_eqd m l <> None) by (apply Sides; eauto). destruct (aget loc_eqd m l) as [y|] eqn:E; [|congruence].
    apply (aget_Some_In _ _ loc_eqd) in E. apply (proj2 (En m (l, y))) in E. eapply find_none in F; [|exact E]. cbn in F.
    assert (T : ldominates (he_body env) (Loc n 0) l = true) by (apply ldominates_iff; eauto using ReachableLoc_valid). congruence.
Qed.
Print Assumptions C85_sides.

Example C85_witness :
  WfBody (he_body HideDemo.let_env) /\ Order (he_ord HideDemo.let_env) /\ Executable HideDemo.let_env /\
  (forall m e, In e (he_entries HideDemo.let_env m) <-> In e m) /\
  visit_body HideDemo.let_env HideDemo.let_hir hmake = Val HideDemo.let_done /\
  decisions_expr HideDemo.let_env HideDemo.let_hir = [([(Loc 1 0, he_lo HideDemo.let_env 6); (Loc 2 0, he_lo HideDemo.let_env 10)], he_hi HideDemo.let_env 3)] /\
  map br_splits (branches (h_st HideDemo.let_done)) = [[1; 2]] /\
  nth_error (segs (h_st HideDemo.let_done)) 2 = Some (Seg (Loc 0 1) (Loc 2 0) (he_lo HideDemo.let_env 10) 2).
Proof.
  split; [apply HideDemo.let_wf|]. split; [intros l x; reflexivity|].
  split; [apply Demo.executable_check_ok; [apply HideDemo.let_wf|vm_compute; reflexivity]|].
  split; [intros m e; reflexivity|]. repeat split; vm_compute; reflexivity.
Qed.

(** Every arm has its step?  No: where the patterns need a second switch, the first one has
    a target that leads to two arms.  Only one of them gets a step from the switch, and all
    the steps inside the other are lost, although every arm has a place in the code, the
    steps are asked for and the answer is a success.  Which arm is lost depends on the
    order in which a hash map is iterated. *)
Theorem C85_arm_lost_refuted :
  exists env env' value h h', WfBody (he_body env) /\ Executable env /\ located_expr env value /\
    env' = Henv (he_body env) (he_ord env) (he_fw env) (he_fuel env) (he_map env) (he_inside env) (he_span env) (he_lo env) (he_hi env)
             (he_dummy env) (@rev _) (he_locals env) /\
    (forall m, he_entries env m = m) /\
    compute env value = Val (HDone h) /\ compute env' value = Val (HDone h') /\ h_log h = h_log h' /\
    exists first second, first <> second /\
      In first (map snd (h_log h)) /\ In second (map snd (h_log h)) /\
      In first (map s_span (segs (h_st h))) /\ ~ In second (map s_span (segs (h_st h))) /\
      ~ In first (map s_span (segs (h_st h'))) /\ In second (map s_span (segs (h_st h'))).
Proof.
  exists (HideDemo.match_env (fun m => m)), (HideDemo.match_env (@rev _)), HideDemo.match_hir, HideDemo.match_done, HideDemo.match_rev.
  split; [apply HideDemo.match_wf|]. split; [apply Demo.executable_check_ok; [apply HideDemo.match_wf|vm_compute; reflexivity]|].
  split; [vm_compute; repeat split; try discriminate; auto; right; discriminate|].
  split; [reflexivity|]. split; [reflexivity|]. split; [vm_compute; reflexivity|]. split; [vm_compute; reflexivity|]. split; [reflexivity|].
  exists 113, 123. split; [discriminate|].
  assert (D : forall x l, if in_dec Nat.eq_dec x l then In x l else ~ In x l) by (intros x l; destruct (in_dec Nat.eq_dec x l); auto).
  split; [exact (D 113 (map snd (h_log HideDemo.match_done)))|].
  split; [exact (D 123 (map snd (h_log HideDemo.match_done)))|].
  split; [exact (D 113 (map s_span (segs (h_st HideDemo.match_done))))|].
  split; [exact (D 123 (map s_span (segs (h_st HideDemo.match_done))))|].
  split; [exact (D 113 (map s_span (segs (h_st HideDemo.match_rev))))|].
  exact (D 123 (map s_span (segs (h_st HideDemo.match_rev)))).
Qed.
Print Assumptions C85_arm_lost_refuted.
