(** * Property C101: functions without decisions

    Only the statements below and StraightSpec.v have to be read, with what they refer to: HirSpec.v, CfgSpec.v,
    StepsSpec.v. *)
From Coq Require Import List Arith Bool Lia Permutation.
From Verif Require UsesSpec UsesProofs.
From Verif Require Import Base PermsModel FactsModel FactsSpec SpansModel SpansSpec CfgModel CfgSpec CfgProofs
  SegMirModel SegMirSpec SegMirProofs SegMirScopes SegMirClose SegMirTree SegMirSound SegMirInsert HirModel HirSpec HirProofs
  HirHide TablesModel TablesSpec TablesProofs TablesExact TablesPretty PropFacts PropHir PropTables PropHide
  StepsModel StepsSpec StepsProofs PropSteps StraightSpec StraightProofs.
Import ListNotations.

(** Such a function always gets its steps; they are a single line from its beginning, without branches. *)
Theorem C101_line :
  forall env value, he_fuel env <> 0 -> Undecided env value ->
    exists h, compute env value = Val (HDone h) /\ branches (h_st h) = [] /\ Connected (Loc 0 0) (segs (h_st h)).
Proof.
  intros env value Fu [D G]. destruct (straight_done env Fu value D G) as (h & C & F). exists h. split; auto. split; [apply (fl_branches _ _ F)|].
  pose proof (fl_segs _ _ F) as E. clear - E. revert E. generalize (Loc 0 0) as p, (segs (h_st h)) as sg. intros p sg. revert sg p. generalize (h_log h) as log. induction log as [|[l span] r IH]; intros sg p E; cbn in E.
  - destruct sg; [constructor|discriminate].
  - destruct (follows (he_body env) p l); [|auto]. destruct (chain (he_body env) l r) as [c q] eqn:Ec. cbn [fst] in E. destruct sg as [|g sg]; [discriminate|].
    cbn in E. unfold triple in E at 1. injection E as E1 E2 E3 E. constructor; auto. rewrite E2. apply IH. rewrite Ec. exact E.
Qed.
Print Assumptions C101_line.


Lemma chain_all bd log : forall p, (forall a b span, In (a, b, span) (between p log) -> follows bd a b = true) -> fst (chain bd p log) = between p log.
Proof.
  induction log as [|[l span] r IH]; intros p H; cbn; auto. rewrite (H p l span) by (left; auto).
  specialize (IH l (fun a b sp I => H a b sp (or_intror I))). destruct (chain bd l r). cbn in *. congruence.
Qed.

Lemma between_places p log a b span : In (a, b, span) (between p log) -> (a = p \/ In a (map fst log)) /\ In (b, span) log.
Proof.
  revert p. induction log as [|[l sp] r IH]; intros p []; cbn.
  - injection H as <- <- <-. auto.
  - apply IH in H as [[->|H] J]; auto.
Qed.

Lemma straight_follows env value : WfBody (he_body env) -> ReturnsNormal (he_body env) -> (exists r, ReturnLoc (he_body env) r) ->
  Order (he_ord env) -> Executable env -> InOrder env value ->
  forall a b span, In (a, b, span) (steps_between env value) -> follows (he_body env) a b = true.
Proof.
  intros Wf RN Ret O Ex IO a b span I. destruct (IO _ _ _ I) as (B & A & Re). apply between_places in I as [Ia Ib].
  assert (R : forall l, In l (map fst (map fst (steps_body env value))) -> ReachableLoc (he_body env) l).
  { intros l J. rewrite map_map in J. apply in_map_iff in J as (x & <- & J). eapply point_reachable; eauto. }
  assert (Rb : ReachableLoc (he_body env) b) by (apply R; apply (in_map fst) in Ib; exact Ib).
  assert (Ra : ReachableLoc (he_body env) a).
  { destruct Ia as [->|Ia]; auto. exists [Loc 0 0]. constructor. }
  pose proof (ReachableLoc_valid _ _ Wf Ra) as Va. pose proof (ReachableLoc_valid _ _ Wf Rb) as Vb.
  unfold follows. apply andb_true_iff. split.
  - apply (ldominates_iff _ a b); auto.
  - apply (lpost_dominates_iff _ b a); auto. destruct Ret as (r & Hr). destruct (Re r Hr) as (l & W). apply exec_path in W as (q & W & _).
    eapply reaching_normal; eauto; [eapply ReturnLoc_block; eauto|]. apply ReachableLoc_block. auto.
Qed.

(** If its places are executed in the order of the source, then none of its steps is left out. *)
Theorem C101_steps :
  forall env value, he_fuel env <> 0 -> Undecided env value -> located_expr env value ->
    WfBody (he_body env) -> ReturnsNormal (he_body env) -> (exists r, ReturnLoc (he_body env) r) ->
    Order (he_ord env) -> Executable env -> InOrder env value ->
    exists h, compute env value = Val (HDone h) /\ branches (h_st h) = [] /\
      map (fun sg => (s_from sg, s_to sg, s_span sg)) (segs (h_st h)) = steps_between env value.
Proof.
  intros env value Fu [D G] L Wf RN Ret O Ex IO. destruct (straight_done env Fu value D G) as (h & C & F). exists h. split; auto.
  split; [apply (fl_branches _ _ F)|]. change (map triple (segs (h_st h)) = steps_between env value). rewrite (fl_segs _ _ F), (C83_all_partial _ _ _ C L). apply chain_all.
  intros a b span I. eapply straight_follows; eauto.
Qed.
Print Assumptions C101_steps.

Lemma letters_unique inp x p a b : LettersAt inp x p a -> LettersAt inp x p b -> a = b.
Proof.
  intros (A1 & A2 & A3) (B1 & B2 & B3). destruct a as [r w d], b as [r' w' d']. cbn in *.
  f_equal; apply Bool.eq_true_iff_eq; etransitivity; eauto; symmetry; eauto.
Qed.

Lemma dead_letters inp x p u a : StateOf inp x p u -> LettersAt inp x p a -> is_live u = false -> a = mkP false false false.
Proof.
  intros (Li & _) (A1 & A2 & A3) E. assert (N : ~ VarLive inp x p) by (rewrite <- Li; congruence). destruct a as [r w d]. cbn in *.
  destruct r; [exfalso; apply N, A1; auto|]. destruct w; [exfalso; apply N, A2; auto|]. destruct d; [exfalso; apply N, A3; auto|]. auto.
Qed.

Lemma separate_flat s : branches s = [] -> Separate s (Loc 0 0).
Proof.
  intros B bid i j l I. exfalso. assert (C : forall cid, ~ InsideColl s bid cid).
  { intros cid H. induction H as [b cid E|]; auto. rewrite B in E. destruct bid; discriminate. }
  destruct i as [|sid|bid']; cbn in I; [exact I| |].
  - destruct I as [(b & E & _)|(cid & c & H & _)]; [rewrite B in E; destruct bid; discriminate|]. eapply C; eauto.
  - destruct I as (cid & c & H & _). eapply C; eauto.
Qed.

Lemma linear_flat bd h sid sg : Flat bd h -> nth_error (segs (h_st h)) sid = Some sg -> In sid (steps_of (h_st h)).
Proof.
  intros F E. destruct (fl_colls _ _ F) as (d & C & ->). unfold steps_of. rewrite C. cbn. rewrite app_nil_r.
  assert (L : sid < length (segs (h_st h))) by (apply nth_error_Some; congruence).
  unfold linear_ids. cbn [c_data]. apply in_flat_map. exists (Linear sid). split; [|left; auto]. apply in_map, in_seq. lia.
Qed.

(** Every change of a visible place's permissions is shown on the line where its step ends, unless the line ends
    behind the first error, the place is being declared around the step, or it changes more than once on the line. *)
Theorem C101_shown :
  forall env st id post value m order hash lines x a b span pos,
    Asked env -> UsesSpec.TrackedAs st id post -> Shuffle order -> Shuffle hash -> Shuffle lines ->
    he_fuel (se_hir env) <> 0 -> Undecided (se_hir env) value -> located_expr (se_hir env) value -> InOrder (se_hir env) value ->
    In (a, b, span) (steps_between (se_hir env) value) ->
    In x (in_places (se_inp env)) -> se_visible env x = true ->
    (forall pl w, In (pl, span, w) (steps_body (se_hir env) value) -> ~ In (local x) (w_out w)) ->
    LettersDiffer (se_inp env) x (se_point env a) (se_point env b) ->
    LineEnd (se_text env) (se_hi env span) pos -> pos <= length (se_text env) -> BeforeError env post pos ->
    (LineEnd (se_text env) (se_hi env (he_lo (se_hir env) (expr_id value))) pos -> Quiet env m x None (Loc 0 0)) ->
    (forall a' b' span', In (a', b', span') (steps_between (se_hir env) value) -> LineEnd (se_text env) (se_hi env span') pos ->
       (a', b') = (a, b) \/ Quiet env m x (Some a') b') ->
    exists ls y name d,
      compute_permission_steps env st id value m order hash lines = Val (Answered ls) /\ In y ls /\ sl_pos y = pos /\
      Named env x name /\ In (name, d) (sl_rows y) /\
      RowSays (se_inp env) x (Some (se_point env a)) (se_point env b) d.
Proof.
  intros env st id post value m order hash lines x a b span pos A T So Sh Sl Fu [D G] L IO I Ix Vi Hid Df Le Lp Be Op Un.
  pose proof A as [Fa Wf RN Ret O Ex En Sp].
  destruct (straight_done (se_hir env) Fu value D G) as (h & C & F).
  assert (Segs : map triple (segs (h_st h)) = steps_between (se_hir env) value).
  { rewrite (fl_segs _ _ F), (C83_all_partial _ _ _ C L). apply chain_all. intros a0 b0 s0 J. eapply straight_follows; eauto. }
  assert (Ans : exists ls, compute_permission_steps env st id value m order hash lines = Val (Answered ls)).
  { pose proof (C100_failures env st id post value m order hash lines A T) as Fl.
    destruct (compute_permission_steps env st id value m order hash lines) as [[r|ls]| |]; eauto; exfalso.
    - destruct Fl as [E N]. rewrite C in E. injection E as <-. exact (N h eq_refl).
    - destruct Fl as [E|(h' & br & E & Ib & _)]; [congruence|]. rewrite C in E. injection E as <-. rewrite (fl_branches _ _ F) in Ib. destruct Ib.
    - congruence. }
  destruct Ans as (ls & Ans).
  pose proof (compute_done _ _ _ C) as V. pose proof (Shape_Steps _ _ _ _ _ (walked _ _ _ V)) as Shp.
  rewrite <- Segs in I. apply in_map_iff in I as (sg & Et & Isg). injection Et as Ea Eb Es.
  apply In_nth_error in Isg as (sid & Isg).
  destruct (In_nth_error (domain_places env) x) as (p & Px); [apply nodup_In; auto|]. fold (the_place env p) in Px.
  assert (Dom : forall l, exists u, aget Nat.eq_dec (domain_at env l) p = Some u /\ query (se_inp env) (se_out env) x (se_point env l) = Some u).
  { intros l. destruct (domain_at_spec env l) as (ds & E & F2). destruct (nth_error ds p) as [u|] eqn:Eu.
    - exists u. split; [rewrite E, aget_combine by (symmetry; exact (Forall2_length F2)); cbn [Nat.leb]; rewrite Nat.sub_0_r; auto|].
      destruct (Forall2_nth_l _ _ _ F2 _ _ Eu) as (x' & E1 & E2). unfold the_place in Px. congruence.
    - apply nth_error_None in Eu. rewrite <- (Forall2_length F2) in Eu. unfold the_place in Px. assert (p < length (domain_places env)) by (apply nth_error_Some; congruence). lia. }
  destruct (Dom a) as (u & Gu & Qu), (Dom b) as (v & Gv & Qv).
  destruct (query_state env Fa _ _ _ Qu) as [Su Lu], (query_state env Fa _ _ _ Qv) as [Sv Lv].
  set (d := diff_data u v).
  assert (Ch : Change (domain_at env a) (domain_at env b) p d) by (exists u, v; auto).
  destruct (change_says env a b p d Fa Ch) as (x' & Px' & Rs). assert (x' = x) by congruence. subst x'.
  assert (Ne : permissions u <> permissions v).
  { destruct Df as (pa & pb & La & Lb & N). rewrite (letters_unique _ _ _ _ _ Lu La), (letters_unique _ _ _ _ _ Lv Lb). auto. }
  assert (Lt : LetterTurns d).
  { unfold LetterTurns, Gained, Lost, d, diff_data. cbn [dd_permissions]. destruct (permissions u) as [r1 w1 d1], (permissions v) as [r2 w2 d2]. cbn.
    destruct r1, r2; cbn; eauto; destruct w1, w2; cbn; eauto 6; destruct d1, d2; cbn; eauto 7; congruence. }
  assert (Lv' : dd_is_live d <> NoStep (Some false)).
  { unfold d, diff_data. cbn [dd_is_live]. intros E. assert (is_live u = false /\ is_live v = false) as [E1 E2] by (destruct (is_live u), (is_live v); cbn in E; try discriminate; auto).
    apply Ne. rewrite (dead_letters _ _ _ _ _ Su Lu E1), (dead_letters _ _ _ _ _ Sv Lv E2). auto. }
  assert (Wo : Worth m d) by (split; auto).
  assert (Nab : a <> b). { intros ->. apply Ne. congruence. }
  destruct (tab (table_builder env h) (h_st h) (OfSeg sid)) as [|t ts] eqn:Et.
  { exfalso. cbn [tab] in Et. unfold stab in Et. rewrite Isg in Et. destruct (loc_eqd (s_from sg) (s_to sg)); [congruence|].
    destruct (into_diff_ok (table_builder env h) (s_from sg) (s_to sg) (wf_builder env h)) as (d0 & E0 & _). rewrite E0 in Et. discriminate. }
  destruct (tab_spec (table_builder env h) (h_st h) (Loc 0 0) (he_lo (se_hir env) (expr_id value)) (OfSeg sid) t) as [T1 T2]; auto;
    [apply wf_builder|intros br Ib; rewrite (fl_branches _ _ F) in Ib; destruct Ib|discriminate|rewrite Et; left; auto|].
  assert (Cand : Candidate env value h x d span).
  { exists (OfSeg sid), (t_to t), t, p. split.
    { right. apply in_or_app. left. apply in_map, in_seq. split; [lia|]. apply nth_error_Some. congruence. }
    split; auto. split; auto. split; auto. destruct T1 as [_ (sg' & E' & Tp & _ & _ & R)]. assert (sg' = sg) by congruence. subst sg'. split; [|congruence].
    apply R. rewrite Ea, Eb. split; auto. intros (sc & J & (vs & Av & Iv)).
    destruct (hidden_start (se_hir env) value h V sid sg Isg) as (pl & sp' & w & Ip & _ & Ln & Fl & _).
    destruct (Ln (linear_flat _ _ _ _ F Isg)) as [Esp _]. apply (Hid pl w); [congruence|]. apply Fl. unfold filtered. apply in_flat_map. exists sc. split; auto.
    unfold vars. cbn in Av, Iv. unfold place_local in Iv. rewrite Px in Iv. rewrite Av. auto. }
  assert (Only : forall d' span', Candidate env value h x d' span' -> Worth m d' -> LineEnd (se_text env) (se_hi env span') pos -> d' = d).
  { intros d' span' (i & l & t' & p' & Ii & _ & [_ T'] & Px'' & Ip & <-) [W1 W2] Le'.
    assert (p' = p). { eapply NoDup_nth_error; [apply (NoDup_nodup place_eqd (in_places (se_inp env)))|apply nth_error_Some; unfold the_place, domain_places in Px''; congruence|unfold the_place, domain_places in *; congruence]. }
    subst p'.
    assert (NQ : forall from to, Quiet env m x from to -> RowSays (se_inp env) x (option_map (se_point env) from) (se_point env to) d' -> False).
    { intros from to Q (u' & a' & v' & b' & Hu & Hv1 & Hv2 & Tl & _ & _ & _ & _ & _ & _ & _ & Tr & Tw & Td). destruct Q as [Q|[-> Q]].
      - apply W1. assert (E2 : is_live v' = false). { destruct (is_live v') eqn:E; auto. exfalso. apply Q. right. apply (proj1 (proj1 Hv1)). auto. }
        assert (E1 : is_live u' = false).
        { destruct from as [l0|]; cbn in Hu; [|apply (proj1 Hu)]. destruct (is_live u') eqn:E; auto. exfalso. apply Q. left. exists l0. split; auto. apply (proj1 (proj1 (proj1 Hu))). auto. }
        rewrite E1, E2 in Tl. destruct (dd_is_live d'); cbn in Tl; [destruct Tl as (_ & Tl & _); discriminate|destruct Tl; discriminate|destruct Tl as [_ ->]; auto].
      - assert (a' = b').
        { destruct from as [l0|]; cbn in Hu; apply Q; auto; [apply Hu|]. destruct Hu as (_ & _ & _ & _ & _ & _ & _ & _ & H1 & H2 & H3). destruct a'. cbn in *. congruence. }
        subst b'. destruct (W2 eq_refl) as (s & Hs & Hg). unfold Gained, Lost in Hg.
        destruct Hs as [Hs|[Hs|Hs]]; rewrite <- Hs in *; destruct Hg as [->| ->]; cbn in Tr, Tw, Td; intuition congruence. }
    destruct i as [|sid'|bid].
    - destruct T' as (Ts & _ & _ & R). apply R in Ip. cbn [e_bottom e_dom table_builder] in Ip.
      destruct (change_says_first _ _ _ _ Fa Ip) as (x' & Px2 & Rs'). assert (x' = x) by congruence. subst x'.
      exfalso. apply (NQ None (Loc 0 0)); auto. apply Op. congruence.
    - destruct T' as (sg' & E' & Ts & _ & _ & R). apply R in Ip as [Ip _]. cbn [e_dom table_builder] in Ip.
      destruct (Un (s_from sg') (s_to sg') (s_span sg')) as [[= E1 E2]|Q].
      + rewrite <- Segs. apply in_map_iff. exists sg'. split; auto. eapply nth_error_In; eauto.
      + congruence.
      + rewrite E1, E2 in Ip. destruct Ip as (u' & v' & U' & V' & ->). unfold d. congruence.
      + destruct (change_says _ _ _ _ _ Fa Ip) as (x' & Px2 & Rs'). assert (x' = x) by congruence. subst x'.
        exfalso. apply (NQ (Some (s_from sg')) (s_to sg')); auto.
    - destruct T' as (br & E' & _). rewrite (fl_branches _ _ F) in E'. destruct bid; discriminate. }
  destruct (C100_complete_partial env st id post value m order hash lines ls h x d span pos A T So Sh Sl Ans C (separate_flat _ (fl_branches _ _ F)) Cand Vi Wo Lt Le Lp Be Only) as (y & name & Iy & Ey & Nm & Ir).
  exists ls, y, name, d. auto 6.
Qed.
Print Assumptions C101_shown.

(** [fn f() { let s = ..;], [g(s);] and [t }] on three lines; variable 3 is [s]. *)
Module StraightDemo.
  Definition bd : body := [ Block 1 false (CfgModel.TOther [1]); Block 1 false (CfgModel.TOther [2]); Block 1 false TReturn ].
  Definition hir : expr :=
    EBlock 1 (Blk (Scons (SLet 2 (ESome (EOther 3 Enil)) BNone) (Scons (SExpr 4 (EOther 5 Enil)) Snil)) (ESome (EOther 6 Enil))).
  Definition henv : henv :=
    Henv bd (fun l => l) false 9 [(3, [Loc 0 0; Loc 0 1]); (5, [Loc 1 0; Loc 1 1]); (6, [Loc 2 0])]
      (fun c id => existsb (Nat.eqb id) (match c with 3 => [2; 1] | 5 => [4; 1] | 6 => [1] | _ => [] end))
      (fun id => 100 + id) (fun id => 200 + id) (fun id => 300 + id) 0 (fun m => m) (fun id => if id =? 2 then [3] else []).
  Definition inp : Inp :=
    mkInp [mkPlace 3 []] [mkPlace 3 []] [(0, 11)] (fun _ => []) (fun p => [p]) (fun p => p)
      [(0, 1); (1, 10); (10, 11); (11, 20); (20, 21)] [] [] []
      (fun a b => local a =? local b) [] (fun _ => mkPlace 3 []) (fun _ => true)
      [] [(10, [3]); (11, [3])] (fun l => l =? 3) (fun _ => FactsModel.TOther) (fun _ => false).
  Definition env (out : Output) : senv :=
    Senv henv inp out (fun l => 10 * l_block l + l_idx l) (fun _ => true) (fun x => if local x =? 3 then Some [115] else None)
      [false; false; false; true; false; false; false; true; false; false; false; true]
      (fun s => Nat.min 12 (s mod 100)) (fun _ _ => 77) Some.
  Definition post : list DiagOp := [Report (mkDiag (mkR 9 9) true)].
  Lemma wf : WfBody bd. Proof. apply wf_check_ok. vm_compute. reflexivity. Qed.
End StraightDemo.

Lemma straight_order : InOrder StraightDemo.henv StraightDemo.hir.
Proof.
  pose proof StraightDemo.wf as Wf.
  assert (RN : ReturnsNormal StraightDemo.bd) by (apply returns_check_ok; vm_compute; reflexivity).
  assert (J : forall k n, StraightDemo.bd <> [] -> (k, n) = (0, 1) \/ (k, n) = (1, 2) -> LocStep StraightDemo.bd (Loc k 1) (Loc n 0)).
  { intros k n _ H. destruct H as [[= -> ->]|[= -> ->]]; (eapply (step_jump _ _ (Block 1 false _)); [reflexivity|split; [eexists; split; [reflexivity|constructor; left; reflexivity]|eexists; split; [reflexivity|split; [reflexivity|discriminate]]]]). }
  assert (K : forall k, k < 3 -> LocStep StraightDemo.bd (Loc k 0) (Loc k 1)).
  { intros k L. destruct k as [|[|[|]]]; [| | |lia]; (eapply step_within; [reflexivity|cbn; lia]). }
  assert (W2 : exists l, walk (LocStep StraightDemo.bd) (Loc 2 0) l (Loc 2 1)) by (eexists; econstructor; [apply K; lia|constructor]).
  assert (W1 : exists l, walk (LocStep StraightDemo.bd) (Loc 1 0) l (Loc 2 1)).
  { destruct W2 as (l & W). eexists. econstructor; [apply K; lia|]. econstructor; [apply (J 1 2); auto; discriminate|exact W]. }
  assert (W0 : exists l, walk (LocStep StraightDemo.bd) (Loc 0 0) l (Loc 2 1)).
  { destruct W1 as (l & W). eexists. econstructor; [apply K; lia|]. econstructor; [apply (J 0 1); auto; discriminate|exact W]. }
  assert (Ret : forall r, ReturnLoc StraightDemo.bd r -> r = Loc 2 1).
  { intros [k i] (d & E & T & I). cbn in E, I. destruct k as [|[|[|k]]]; cbn in E; [injection E as <-; discriminate|injection E as <-; discriminate|injection E as <-; cbn in I; subst; auto|destruct k; discriminate]. }
  intros a b span I.
  assert (H : ldominates StraightDemo.bd a b = true /\ lpost_dominates StraightDemo.bd b a = true /\ (reach_check StraightDemo.bd a = true /\ reach_check StraightDemo.bd b = true) /\
              exists l, walk (LocStep StraightDemo.bd) a l (Loc 2 1)).
  { vm_compute in I. destruct I as [[= <- <- _]|[[= <- <- _]|[[= <- <- _]|[[= <- <- _]|[]]]]];
      (split; [vm_compute; reflexivity|split; [vm_compute; reflexivity|split; [split; vm_compute; reflexivity|first [exact W0|exact W1|exact W2|eexists; constructor]]]]). }
  destruct H as (D & P & [Ra Rb] & W). apply reach_check_ok in Ra; auto. apply reach_check_ok in Rb; auto.
  change (he_body StraightDemo.henv) with StraightDemo.bd. split; [apply ldominates_before; auto|]. split; [|intros r Hr; rewrite (Ret r Hr); exact W].
  apply lpost_sound; auto; try (apply ReachableLoc_valid; auto). exists (Loc 2 1). eexists. split; [reflexivity|]. split; reflexivity.
Qed.

Example C101_witness : exists out,
  let env := StraightDemo.env out in let x := mkPlace 3 [] in
  let st := diag_run (TrackBody 7 :: StraightDemo.post) in
  Asked env /\ UsesSpec.TrackedAs st 7 StraightDemo.post /\ he_fuel (se_hir env) <> 0 /\
  Undecided (se_hir env) StraightDemo.hir /\ located_expr (se_hir env) StraightDemo.hir /\ InOrder (se_hir env) StraightDemo.hir /\
  steps_between (se_hir env) StraightDemo.hir =
    [(Loc 0 0, Loc 1 0, 102); (Loc 1 0, Loc 2 0, 104); (Loc 2 0, Loc 2 1, 106); (Loc 2 1, Loc 2 1, 101)] /\
  In x (in_places (se_inp env)) /\ se_visible env x = true /\
  (forall pl w, In (pl, 102, w) (steps_body (se_hir env) StraightDemo.hir) -> ~ In 3 (w_out w)) /\
  LettersDiffer (se_inp env) x (se_point env (Loc 0 0)) (se_point env (Loc 1 0)) /\
  LineEnd (se_text env) (se_hi env 102) 3 /\ BeforeError env StraightDemo.post 3 /\
  Quiet env Changes x None (Loc 0 0) /\
  (forall a b span, In (a, b, span) (steps_between (se_hir env) StraightDemo.hir) -> LineEnd (se_text env) (se_hi env span) 3 ->
     (a, b) = (Loc 0 0, Loc 1 0) \/ Quiet env Changes x (Some a) b).
Proof.
  destruct (derive_permission_facts StraightDemo.inp) as [out|] eqn:D; [|vm_compute in D; discriminate].
  exists out. cbv zeta. split.
  { constructor; cbn [StraightDemo.env se_hir se_inp se_out se_hi se_text].
    - exact D.
    - apply StraightDemo.wf.
    - apply returns_check_ok. vm_compute. reflexivity.
    - exists (Loc 2 1). eexists. split; [reflexivity|]. split; reflexivity.
    - intros l x. reflexivity.
    - apply PropHir.Demo.executable_check_ok; [apply StraightDemo.wf|vm_compute; reflexivity].
    - intros m e. reflexivity.
    - intros s. apply Nat.le_min_l. }
  split; [exists []; split; [reflexivity|]; intros op [<-|[]]; eauto|]. split; [discriminate|].
  split; [split; reflexivity|]. split; [vm_compute; tauto|]. split; [apply straight_order|]. split; [vm_compute; reflexivity|].
  split; [left; reflexivity|]. split; [reflexivity|].
  split. { intros pl w I. vm_compute in I. destruct I as [[= _ <-]|[I|[I|[I|[]]]]]; try discriminate. intros []. }
  split. { destruct (place_query (StraightDemo.env out) (mkPlace 3 []) 0) as (u & Qu); [left; reflexivity|].
           destruct (place_query (StraightDemo.env out) (mkPlace 3 []) 10) as (v & Qv); [left; reflexivity|].
           exists (permissions u), (permissions v). split; [exact (proj2 (query_state (StraightDemo.env out) D _ _ _ Qu))|].
           split; [exact (proj2 (query_state (StraightDemo.env out) D _ _ _ Qv))|]. vm_compute in D. injection D as <-.
           vm_compute in Qu, Qv. injection Qu as <-. injection Qv as <-. discriminate. }
  split. { split; [vm_compute; lia|]. split; [|left; reflexivity]. intros k H. change (se_hi _ 102) with 2 in H. assert (k = 2) as -> by lia. reflexivity. }
  split. { intros s s' (b & x & a & E & _ & <- & _) L. injection L as <-. destruct b as [|? [|]]; cbn in E; try discriminate. injection E as <- <-. cbn. lia. }
  split. { left. intros [(l & E & _)|V]; [discriminate|]. exact V. }
  intros a b span I L. vm_compute in I. destruct I as [[= <- <- _]|[[= <- <- <-]|[[= <- <- <-]|[[= <- <- _]|[]]]]]; auto.
  - exfalso. destruct L as [L _]. vm_compute in L. lia.
  - exfalso. destruct L as [L _]. vm_compute in L. lia.
  - right. right. split; auto. intros a b A B. eapply letters_unique; eauto.
Qed.
