(** * C127: the pictures of a place on the page agree with each other *)
From Coq Require Import Ascii String.
From Coq Require Import List Arith Bool Lia.
From Verif Require Import Base PermsModel FactsModel FactsSpec FlowModel SpansModel BoundariesModel BoundariesSpec UsesModel UsesSpec CfgModel
  SegMirModel HirModel TablesModel StepsModel TellModel TellSpec ViewsSpec ViewsProofs.
From Verif Require BookModel ReportModel ReportSpec StepsSpec DrawModel DrawSpec EditorModel JsonModel PropTell PropSteps PropHide WireModel WireSpec.
Import ListNotations.
Local Open Scope list_scope.

(** Every drawn stack of letters is that of a use, and every drawn row is that of a step. *)
Theorem C127_owners ks d ds es : Forall Sound ks -> Displayed ks d ds es ->
  (forall n s, In (n, s) (EditorModel.d_boundaries ds) -> exists k pb loc x, UseTold ks d ds k pb loc x s) /\
  (forall n tables table name r, In (n, tables) (EditorModel.d_steps ds) -> In table tables -> In (name, r) table ->
     exists k x from to, StepTold ks d ds k x from to r).
Proof.
  intros So D. split.
  - intros n s I. destruct (PropTell.C117_boundaries _ _ _ _ _ _ So D I) as (k & pb & loc & x & c & y & Ik & _ & U & _ & En & L & T).
    exists k, pb, loc, x. split; [exact Ik|]. split; [exact U|]. split; [exact T|]. exists n, c, y. auto.
  - intros n tables table name r I It Ir.
    destruct (PropTell.C117_steps _ _ _ _ _ _ So D I) as (k & pos & table' & xs & Ik & _ & -> & _ & L & _ & _ & _ & F).
    destruct It as [<-|[]]. clear D. assert (H : exists x, StepsSpec.Named (fn_steps (k_fn k)) x name /\
      exists from to, StepOf (k_fn k) pos x from to /\ TellsStep (k_fn k) x from to r).
    { clear - F Ir. induction F as [|x r' xs rs H F IH]; [destruct Ir|]. destruct Ir as [->|Ir]; [exists x; exact H|exact (IH Ir)]. }
    destruct H as (x & Nm & from & to & St & T). exists k, x, from, to. split; [exact Ik|]. split; [exact T|].
    exists n, table', name, pos. auto.
Qed.
Print Assumptions C127_owners.

(** Two uses of a place at the same point never disagree: a letter that both draw is filled in both or in none, and the same
    loans and the same move are under the pointer. *)
Theorem C127_uses_agree ks d ds k pb pb' loc loc' x s s' : 
  UseTold ks d ds k pb loc x s -> UseTold ks d ds k pb' loc' x s' -> ue_start (fn_uses (k_fn k)) loc = ue_start (fn_uses (k_fn k)) loc' ->
  (forall L v v', L <> LF -> In (L, v) (DrawModel.k_icons s) -> In (L, v') (DrawModel.k_icons s') -> v = v') /\
  DrawModel.k_keys s = DrawModel.k_keys s'.
Proof.
  intros (_ & _ & T & _) (_ & _ & T' & _) E. split.
  - intros L v v' N I I'. apply eq_true_iff_eq. rewrite (use_there _ _ _ _ _ _ _ _ T N I), (use_there _ _ _ _ _ _ _ _ T' N I'), E. reflexivity.
  - destruct (use_keys _ _ _ _ _ _ T) as (u & U & ->). destruct (use_keys _ _ _ _ _ _ T') as (u' & U' & ->). rewrite E in U. exact (keys_unique _ _ _ _ _ U U').
Qed.
Print Assumptions C127_uses_agree.

(** Two rows of a place never disagree about a point: where one step ends and the next begins, what the first says is there
    afterwards is what the second says was there before. *)
Theorem C127_rows_agree ks d ds k x from to r from' to' r' : 
  StepTold ks d ds k x from to r -> StepTold ks d ds k x from' to' r' ->
  (forall p L v v', RowTells (k_fn k) from to r p L v -> RowTells (k_fn k) from' to' r' p L v' -> v = v') /\
  (se_point (fn_steps (k_fn k)) to = se_point (fn_steps (k_fn k)) to' -> DrawModel.w_keys r = DrawModel.w_keys r').
Proof.
  intros (_ & T & _) (_ & T' & _). split.
  - intros p L v v' R R'. apply eq_true_iff_eq. rewrite (row_there _ _ _ _ _ _ _ _ T R), (row_there _ _ _ _ _ _ _ _ T' R'). reflexivity.
  - intros E. destruct (step_keys _ _ _ _ _ T) as (u & U & ->). destruct (step_keys _ _ _ _ _ T') as (u' & U' & ->). rewrite E in U. exact (keys_unique _ _ _ _ _ U U').
Qed.
Print Assumptions C127_rows_agree.

(** A use and a row of the same place that are about the same point: a letter is there in the row exactly if it is filled at the use and the
    variable is needed later on; and the same loans and the same move are under the pointer.  Missing for the full statement:
    a variable that is not needed any more, see [C127_dead_refuted]. *)
Theorem C127_views_agree_partial ks d ds k pb loc x s from to r : Sound k ->
  UseTold ks d ds k pb loc x s -> StepTold ks d ds k x from to r ->
  (forall L v v', In (L, v) (DrawModel.k_icons s) -> RowTells (k_fn k) from to r (ue_start (fn_uses (k_fn k)) loc) L v' ->
     (v' = true <-> v = true /\ VarLive (ue_inp (fn_uses (k_fn k))) x (ue_start (fn_uses (k_fn k)) loc))) /\
  (se_point (fn_steps (k_fn k)) to = ue_start (fn_uses (k_fn k)) loc -> DrawModel.k_keys s = DrawModel.w_keys r).
Proof.
  intros Sk (_ & _ & T & _) (_ & T' & _). pose proof (sound_facts _ Sk) as Ef. split.
  - intros L v v' I R. assert (N : L <> LF) by (intros ->; inversion R; subst; contradiction).
    rewrite (row_there _ _ _ _ _ _ _ _ T' R), (use_there _ _ _ _ _ _ _ _ T N I), Ef. tauto.
  - intros E. destruct (use_keys _ _ _ _ _ _ T) as (u & U & ->). destruct (step_keys _ _ _ _ _ T') as (u' & U' & ->). rewrite E, Ef in U'. exact (keys_unique _ _ _ _ _ U U').
Qed.
Print Assumptions C127_views_agree_partial.

(** ** A page *)

Lemma use_tells k pb loc x dd b s :
  let f := k_fn k in Sound k ->
  resolve (ue_visible (fn_uses f)) (ue_stmt (fn_uses f)) (ue_locs (fn_uses f)) (ue_similar (fn_uses f)) (pb_lhs pb) (pb_hir pb) (ue_parents (fn_uses f) (pb_hir pb)) = Some (loc, x) ->
  query (ue_inp (fn_uses f)) (ue_out (fn_uses f)) x (ue_start (fn_uses f) loc) = Some dd ->
  path_to_perm_boundary (fn_uses f) pb = Some (Some b) -> b_flow b = None ->
  DrawModel.k_icons s = (if p_read (pb_expected pb) then [(LR, p_read (b_actual b))] else []) ++ (if p_write (pb_expected pb) then [(LW, p_write (b_actual b))] else [])
    ++ (if p_drop (pb_expected pb) then [(LO, p_drop (b_actual b))] else []) -> DrawModel.k_keys s = keys_of dd ->
  Resolves (fn_uses f) pb loc x /\ TellsUse f (k_flow k) pb loc x s.
Proof.
  intros f Sk Rs Q P Nf Is Ks. pose proof (sound_uses _ Sk) as A. pose proof (sound_facts _ Sk) as Ef. pose proof (StepsSpec.asked_facts _ (sound_steps _ Sk)) as Fa. fold f in A, Ef, Fa.
  pose proof (PropBoundaries.C54_nearest_ancestor (ue_visible (fn_uses f)) (ue_stmt (fn_uses f)) (ue_locs (fn_uses f)) (ue_similar (fn_uses f)) (pb_lhs pb)
    (pb_hir pb) (ue_parents (fn_uses f) (pb_hir pb))) as R. rewrite Rs in R. split; [exact R|].
  pose proof (UsesProofs.path_spec _ _ A pb) as D. rewrite P in D. destruct D as (_ & Ex & Fl & _).
  assert (E : b_actual b = permissions_ignore_liveness dd).
  { unfold path_to_perm_boundary in P. rewrite Rs, Q in P. destruct (flow_of _ _ _); [|discriminate]. destruct (ue_chars _ _); [|discriminate].
    destruct (ue_bytes _ _); [|discriminate]. injection P as <-. reflexivity. }
  pose proof (FactsProofs.query_can _ _ (proj1 A) _ _ _ Q) as (B1 & B2 & B3). pose proof (PermsProofs.perms_ignore_spec dd) as (P1 & P2 & P3). rewrite <- E in *.
  assert (L : forall L (e v : bool) (T : Prop), (v = true <-> T) -> (forall has, In (L, has) (DrawModel.k_icons s) <-> e = true /\ has = v) -> Draws s L e T).
  { intros L e v T H1 H2 has. rewrite H2. split; intros [H3 H4]; (split; [exact H3|]); [subst has; exact H1|]. apply eq_true_iff_eq. rewrite H4, H1. tauto. }
  assert (I : forall L has, In (L, has) (DrawModel.k_icons s) <->
      (p_read (pb_expected pb) = true /\ (L, has) = (LR, p_read (b_actual b))) \/ (p_write (pb_expected pb) = true /\ (L, has) = (LW, p_write (b_actual b))) \/
      (p_drop (pb_expected pb) = true /\ (L, has) = (LO, p_drop (b_actual b)))).
  { intros L0 has. rewrite Is, !in_app_iff. destruct (p_read (pb_expected pb)), (p_write (pb_expected pb)), (p_drop (pb_expected pb)); cbn [In]; intuition congruence. }
  unfold TellsUse. cbv zeta.
  split; [apply (L LR _ (p_read (b_actual b))); [rewrite P1, B1; tauto|intros has; rewrite I; intuition congruence]|].
  split; [apply (L LW _ (p_write (b_actual b))); [rewrite P2, B2; tauto|intros has; rewrite I; intuition congruence]|].
  split; [apply (L LO _ (p_drop (b_actual b))); [rewrite P3, B3; tauto|intros has; rewrite I; intuition congruence]|].
  split.
  - exists None. rewrite Nf in Fl. split; [exact Fl|]. intros has. rewrite I. intuition congruence.
  - exists dd. split; [|exact Ks]. pose proof (StepsProofs.query_state _ Fa x (ue_start (fn_uses f) loc) dd) as H.
    assert (O : se_out (fn_steps f) = ue_out (fn_uses f)) by (rewrite Ef in Fa; destruct A as (A & _); congruence).
    rewrite Ef, O in H. exact (proj1 (H Q)).
Qed.

(** The function of C117_witness, with [x += ..] (variable 3) in its second line; [x] is needed after it, and not before. *)
Module Demo.
  Import PropSteps PropTell.
  Definition v := PropTell.Demo.v.
  Definition body := BoundariesModel.EBlock (mkM 1 (mkR 0 12) false [] true)
    [(100, [v 12 1]); (101, [BoundariesModel.EAssignOp (mkM 20 (mkR 5 7) false [] true) (v 13 5) (BoundariesModel.ELit (mkM 15 (mkR 6 7) false [] true))]); (102, [v 14 10])] None.
  Definition uses out rf : uenv := Uenv StepsDemo.inp out rf true [] [] (fun p => local p <? 5)
    (fun l => if l =? 30 then SkAssign (mkPlace 3 []) (RvOperands [Some (mkPlace 5 [])]) else SkAssign (mkPlace 5 []) (RvOperands [Some (mkPlace 4 [])]))
    (fun h => match h with 12 => Some [0] | 13 => Some [30] | 14 => Some [31] | 100 => Some [0] | 101 => Some [30] | 102 => Some [31] | _ => None end)
    (fun _ => []) (fun _ => None) (fun l => l) (fun l => l) (fun _ => mkR 0 12) (mkR 0 12) (fun s => Some s) (fun s => Some s) (fun s => Some s).
  Definition at_ := PropTell.Demo.at_.
  Definition fn out rf : function :=
    Function 7 (uses out rf) (StepsDemo.env out) body PropHide.HideDemo.let_hir false (at_ 0 12) (fun c => (c / 4, c mod 4))
      (fun r => at_ (lo r) (hi r)) (fun p => at_ p p) (fun l => at_ (l_block l) (S (l_block l)))
      (mkLoanEnv (fun p => mkR p (S p)) (fun p => mkR p (S p)) (fun _ => mkR 1 2) (fun _ => None) [])
      (mkMoveEnv (fun p => mkR p (S p)) (fun _ => mkR 1 2) 1 (fun _ => true) (o_move out)) (fun _ l => rev l)
      (fun _ => "no"%string) Changes (@rev _) (@rev _) (@rev _).
  Definition asked_ out rf := AskedFor (fn out rf) PropTell.Demo.fi (diag_run (TrackBody 7 :: StepsDemo.post)) StepsDemo.post.
  Definition text := PropTell.Demo.text.
  Definition add := mkPB 13 101 true (start_of (mkR 5 6)) RW_.
  Definition move := mkPB 12 100 false (start_of (mkR 1 2)) RO_.
End Demo.

Lemma demo_sound out rf : derive_permission_facts PropSteps.StepsDemo.inp = Some out -> compute_flows PropTell.Demo.fi = Some rf -> Sound (Demo.asked_ out rf).
Proof.
  intros D F. constructor; cbn [Demo.asked_ k_fn k_flow k_state k_errors Demo.fn fn_uses fn_steps fn_id fn_order fn_hash fn_lines fn_lenv fn_menv fn_maps].
  - split; [exact D|]. split; [exact F|]. intros c [].
  - destruct PropSteps.C100_witness as (out' & [H _] ). pose proof (StepsSpec.asked_facts _ H) as D'. change (derive_permission_facts PropSteps.StepsDemo.inp = Some out') in D'. rewrite D in D'. injection D' as <-. exact H.
  - reflexivity.
  - reflexivity.
  - split; reflexivity.
  - exists []. split; [reflexivity|]. intros op [<-|[]]; eauto.
  - intros x. symmetry. apply Permutation.Permutation_rev.
  - intros x. symmetry. apply Permutation.Permutation_rev.
  - intros x. symmetry. apply Permutation.Permutation_rev.
  - intros A x. symmetry. apply Permutation.Permutation_rev.
  - intros x n. cbn. destruct (local x =? 3); [|discriminate]. intros [= <-]. constructor; [lia|constructor].
Qed.

(** What the page shows of the function. *)
Definition x_row : DrawModel.drawn_row :=
  DrawModel.DrawnRow (Some EditorModel.LevelUp) (EditorModel.Added, EditorModel.Added, EditorModel.Added) ((None, None), (None, None), (None, None)).
Definition y_row : DrawModel.drawn_row :=
  DrawModel.DrawnRow (Some EditorModel.LevelUp) (EditorModel.Added, EditorModel.Absent, EditorModel.Added) ((None, None), (None, None), (None, None)).
Definition x_use : DrawModel.stack := DrawModel.Stack [(LR, true); (LW, true)] ((None, None), (None, None), (None, None)).
Definition y_use : DrawModel.stack := DrawModel.Stack [(LR, true); (LO, true)] ((None, None), (None, None), (None, None)).

Lemma demo_page out rf : derive_permission_facts PropSteps.StepsDemo.inp = Some out -> compute_flows PropTell.Demo.fi = Some rf ->
  exists ds, Displayed [Demo.asked_ out rf] Demo.text ds [] /\
    EditorModel.d_boundaries ds = [(1, y_use); (5, x_use)] /\
    exists z, EditorModel.d_steps ds = [(3, [[(PropTell.Demo.var, y_row); (PropTell.Demo.var, y_row)]]); (7, [[([120], x_row); z]])].
Proof.
  intros D F. vm_compute in D, F. injection D as <-. injection F as <-.
  match goal with |- exists ds, Displayed [?a] _ _ _ /\ _ => destruct (function_result (k_fn a) (k_state a)) as [r1|] eqn:E1; [|vm_compute in E1; discriminate E1] end.
  assert (R : Forall ReportSpec.RealResult [r1]).
  { vm_compute in E1. injection E1 as <-. 
    constructor; [|constructor]; unfold ReportSpec.RealResult, ReportSpec.RealReport, ReportSpec.SizeMap; cbn;
      unfold ReportSpec.SizeBound, ReportSpec.SizeLine, ReportSpec.SizeTable, ReportSpec.SizeData, ReportSpec.SizeDiff, ReportSpec.SizeRegion, WireSpec.SizeOpt, WireSpec.SizeRange, WireSpec.Size; cbn;
      repeat first [split|exact Logic.I|constructor; fail|lia|apply Forall_nil|apply Forall_cons|apply NoDup_nil|apply NoDup_cons|progress cbn|
        (intros f [= <-]; cbn)|(intros f E; discriminate E)|(intros E; decompose [or] E; lia)]. }
  destruct (JsonModel.js_parse (JsonModel.to_string (ReportModel.reports [r1]))) as [j|] eqn:J; [|exfalso; vm_compute in E1; injection E1 as <-; vm_compute in J; discriminate J].
  destruct (DrawModel.page_decos Demo.text j) as [[[ds|] es]|] eqn:Pg.
  - exists ds. split.
    + exists [r1], j. split; [constructor; [exact E1|constructor]|]. split; [exact R|]. split; [exact J|].
      rewrite Pg. vm_compute in E1. injection E1 as <-. vm_compute in J. injection J as <-. vm_compute in Pg. injection Pg as <- <-. reflexivity.
    + vm_compute in E1. injection E1 as <-. vm_compute in J. injection J as <-. vm_compute in Pg. injection Pg as <- <-. split; [reflexivity|]. eexists. reflexivity.
  - exfalso. vm_compute in E1. injection E1 as <-. vm_compute in J. injection J as <-. vm_compute in Pg. discriminate Pg.
  - exfalso. vm_compute in E1. injection E1 as <-. vm_compute in J. injection J as <-. vm_compute in Pg. discriminate Pg.
Qed.

Lemma demo_use out rf ds pb loc x s n c : derive_permission_facts PropSteps.StepsDemo.inp = Some out -> compute_flows PropTell.Demo.fi = Some rf ->
  In (n, s) (EditorModel.d_boundaries ds) ->
  (pb, loc, x, s, n, c) = (Demo.add, 30, mkPlace 3 [], x_use, 5, 5) \/ (pb, loc, x, s, n, c) = (Demo.move, 0, mkPlace 4 [], y_use, 1, 1) ->
  UseTold [Demo.asked_ out rf] Demo.text ds (Demo.asked_ out rf) pb loc x s.
Proof.
  intros D F I H. pose proof (demo_sound out rf D F) as Sk.
  assert (Rd : exists fc e, Reached (eid Demo.body) Demo.body fc e /\ UseSite fc e pb).
  { apply BoundariesProofs.visit_iff. destruct H as [H|H]; injection H as -> -> -> -> -> ->; cbn; auto. }
  assert (T : exists dd b, query PropSteps.StepsDemo.inp out x loc = Some dd /\ path_to_perm_boundary (Demo.uses out rf) pb = Some (Some b) /\ b_flow b = None /\
     DrawModel.k_icons s = (if p_read (pb_expected pb) then [(LR, p_read (b_actual b))] else []) ++ (if p_write (pb_expected pb) then [(LW, p_write (b_actual b))] else [])
       ++ (if p_drop (pb_expected pb) then [(LO, p_drop (b_actual b))] else []) /\ DrawModel.k_keys s = keys_of dd).
  { vm_compute in D, F. injection D as <-. injection F as <-. destruct H as [H|H]; injection H as -> -> -> -> -> ->; do 2 eexists; (split; [vm_compute; reflexivity|]);
      (split; [vm_compute; reflexivity|]); repeat split; vm_compute; reflexivity. }
  destruct T as (dd & b & Q & P & N & Is & Ks).
  destruct (use_tells (Demo.asked_ out rf) pb loc x dd b s Sk) as [Rs Te]; auto.
  { destruct H as [H|H]; injection H as -> -> -> -> -> ->; reflexivity. }
  split; [left; reflexivity|]. split; [split; [exact Rd|exact Rs]|]. split; [exact Te|].
  exists n, c, c. split; [exact I|]. destruct H as [H|H]; injection H as -> -> -> -> -> ->; (split; [|vm_compute; reflexivity]).
  - exists (mkR 5 5), (mkR 5 5), (mkR 5 5). repeat split; auto.
  - exists (mkR 1 1), (mkR 1 1), (mkR 1 1). repeat split; auto.
Qed.

Lemma demo_step out rf ds x from to r n name table pos : derive_permission_facts PropSteps.StepsDemo.inp = Some out -> compute_flows PropTell.Demo.fi = Some rf ->
  In (n, [table]) (EditorModel.d_steps ds) -> In (name, r) table ->
  (x, from, to, r, name, n, pos) = (mkPlace 3 [], Some (Loc 3 0), Loc 3 1, x_row, [120], 7, 7) \/
  (x, from, to, r, name, n, pos) = (mkPlace 4 [], None, Loc 0 0, y_row, PropTell.Demo.var, 3, 3) ->
  StepTold [Demo.asked_ out rf] Demo.text ds (Demo.asked_ out rf) x from to r.
Proof.
  intros D F I It H. pose proof (demo_sound out rf D F) as Sk. pose proof (sound_steps _ Sk) as As. change (StepsSpec.Asked (PropSteps.StepsDemo.env out)) in As.
  set (env := PropSteps.StepsDemo.env out) in *.
  assert (T : exists d span, StepsSpec.Origin env PropHide.HideDemo.let_hir x from to span /\ TablesSpec.LineEnd (se_text env) (se_hi env span) pos /\
    StepsSpec.RowSays (se_inp env) x (option_map (se_point env) from) (se_point env to) d /\ StepsSpec.LetterTurns d /\
    r = DrawModel.DrawnRow (EditorModel.row_icon d) (EditorModel.row_marks d) (EditorModel.row_keys d)).
  { destruct H as [H|H]; injection H as -> -> -> -> -> -> ->.
    - pose proof (StepsProofs.table_origin env PropHide.HideDemo.let_hir PropHide.HideDemo.let_done) as O.
      destruct (body_tables (table_builder env PropHide.HideDemo.let_done) (h_st PropHide.HideDemo.let_done) (Loc 0 0)
        (he_lo (se_hir env) (expr_id PropHide.HideDemo.let_hir))) as [rt|] eqn:B; [|vm_compute in D; injection D as <-; vm_compute in B; discriminate B].
      specialize (O rt (Loc 3 1)).
      assert (T : exists t d, In t (at_loc rt (Loc 3 1)) /\ In (0, d) (t_data t) /\ t_from t = Loc 3 0 /\ t_to t = Loc 3 1 /\ t_span t = 105 /\
         x_row = DrawModel.DrawnRow (EditorModel.row_icon d) (EditorModel.row_marks d) (EditorModel.row_keys d) /\ StepsSpec.LetterTurns d).
      { subst env. vm_compute in D. injection D as <-. vm_compute in B. injection B as <-.
        do 2 eexists. split; [left; reflexivity|]. split; [left; reflexivity|]. repeat (split; [reflexivity|]). exists (High true). split; left; reflexivity. }
      destruct T as (t & d & Tt & Td & Tf & Tto & Ts & Tr & Tl).
      destruct (O t 0 d As) as (x & from & to & Px & Or & Ef & Et & Rs); auto.
      rewrite Tf in Ef. rewrite Tto in Et. subst to. assert (x = mkPlace 3 []) by (vm_compute in Px; congruence). subst x.
      destruct from as [a|]; [subst a|discriminate]. exists d, (t_span t). split; [exact Or|]. rewrite Ts. split; [|auto].
      split; [vm_compute; lia|]. split; [|left; reflexivity]. intros q H. change (se_hi env 105) with 5 in H. assert (q = 5 \/ q = 6) as [->| ->] by lia; reflexivity.
    - destruct (aget Nat.eq_dec (domain_at env (Loc 0 0)) 1) as [w|] eqn:W; [|subst env; vm_compute in D; injection D as <-; vm_compute in W; discriminate W].
      destruct (StepsProofs.change_says_first env (Loc 0 0) 1 (diff_data (mkPD false false false false false None None None None) w)) as (x & Px & Rs).
      { exact (StepsSpec.asked_facts _ As). }
      { eexists _, w. split; [reflexivity|]. split; [exact W|reflexivity]. }
      assert (x = mkPlace 4 []) by (vm_compute in Px; congruence). subst x.
      eexists _, _. split; [apply StepsSpec.origin_opening|]. split.
      + split; [vm_compute; lia|]. split; [|left; reflexivity].
        match goal with |- forall q, ?a <= q < _ -> _ => let a' := eval vm_compute in a in change a with a' end.
        intros q H. assert (q = 0 \/ q = 1 \/ q = 2) as [->|[->| ->]] by lia; reflexivity.
      + split; [exact Rs|]. subst env. vm_compute in D. injection D as <-. vm_compute in W. injection W as <-. split; [exists (High true); split; left; reflexivity|reflexivity]. }
  destruct T as (d & span & Or & Le & Rs & Lt & Er).
  split; [left; reflexivity|]. split; [eapply TellProofs.tells_step; eauto|].
  exists n, table, name, pos. split; [exact I|]. split; [exact It|]. destruct H as [H|H]; injection H as -> -> -> -> -> -> ->.
  - split; [left; reflexivity|]. split; [|vm_compute; reflexivity]. split; [left; reflexivity|]. split; [reflexivity|]. split; [right; vm_compute; auto|]. exists span. auto.
  - split; [right; split; reflexivity|]. split; [|vm_compute; reflexivity]. split; [right; left; reflexivity|]. split; [reflexivity|]. split; [right; vm_compute; auto|]. exists span. auto.
Qed.

(** The same letter of the same place, at the same point?  No: at [x += ..] the letters R and W are drawn as there, and the row of
    [x] for the step that begins at this very point says that they were not, because the old value is not needed any more once it
    has been read. *)
Theorem C127_dead_refuted : exists ks d ds es k pb loc x s from to r,
  Forall Sound ks /\ Displayed ks d ds es /\ UseTold ks d ds k pb loc x s /\ StepTold ks d ds k x from to r /\
  forall L, L = LR \/ L = LW -> In (L, true) (DrawModel.k_icons s) /\ RowTells (k_fn k) from to r (ue_start (fn_uses (k_fn k)) loc) L false.
Proof.
  destruct (derive_permission_facts PropSteps.StepsDemo.inp) as [out|] eqn:D; [|vm_compute in D; discriminate].
  destruct (compute_flows PropTell.Demo.fi) as [rf|] eqn:F; [|vm_compute in F; discriminate].
  destruct (demo_page out rf D F) as (ds & Dp & Eb & z & Es).
  assert (Ix : In (7, [[([120], x_row); z]]) (EditorModel.d_steps ds)) by (rewrite Es; right; left; reflexivity).
  exists [Demo.asked_ out rf], Demo.text, ds, [], (Demo.asked_ out rf), Demo.add, 30, (mkPlace 3 []), x_use, (Some (Loc 3 0)), (Loc 3 1), x_row.
  split; [constructor; [apply demo_sound; auto|constructor]|]. split; [exact Dp|].
  split; [apply demo_use with (n := 5) (c := 5); auto; rewrite Eb; right; left; reflexivity|].
  split; [apply demo_step with (n := 7) (name := [120]) (table := [([120], x_row); z]) (pos := 7); [exact D|exact F|exact Ix|left; reflexivity|left; reflexivity]|].
  intros L [->| ->]; (split; [cbn; auto|]);
    [exact (tells_before (Demo.fn out rf) (Some (Loc 3 0)) (Loc 3 1) x_row (Loc 3 0) LR EditorModel.Added eq_refl eq_refl)
    |exact (tells_before (Demo.fn out rf) (Some (Loc 3 0)) (Loc 3 1) x_row (Loc 3 0) LW EditorModel.Added eq_refl eq_refl)].
Qed.
Print Assumptions C127_dead_refuted.

(** On the same page the use of [y] and its row for the opening brace are about the same point, and [y] is needed later on. *)
Example C127_witness : exists ks d ds es k pb loc x s to r,
  Forall Sound ks /\ Displayed ks d ds es /\ UseTold ks d ds k pb loc x s /\ StepTold ks d ds k x None to r /\
  VarLive (ue_inp (fn_uses (k_fn k))) x (ue_start (fn_uses (k_fn k)) loc) /\
  se_point (fn_steps (k_fn k)) to = ue_start (fn_uses (k_fn k)) loc /\
  forall L, L = LR \/ L = LO -> In (L, true) (DrawModel.k_icons s) /\ RowTells (k_fn k) None to r (ue_start (fn_uses (k_fn k)) loc) L true.
Proof.
  destruct (derive_permission_facts PropSteps.StepsDemo.inp) as [out|] eqn:D; [|vm_compute in D; discriminate].
  destruct (compute_flows PropTell.Demo.fi) as [rf|] eqn:F; [|vm_compute in F; discriminate].
  destruct (demo_page out rf D F) as (ds & Dp & Eb & z & Es).
  assert (Ix : In (3, [[(PropTell.Demo.var, y_row); (PropTell.Demo.var, y_row)]]) (EditorModel.d_steps ds)) by (rewrite Es; left; reflexivity).
  exists [Demo.asked_ out rf], Demo.text, ds, [], (Demo.asked_ out rf), Demo.move, 0, (mkPlace 4 []), y_use, (Loc 0 0), y_row.
  split; [constructor; [apply demo_sound; auto|constructor]|]. split; [exact Dp|].
  split; [apply demo_use with (n := 1) (c := 1); auto; rewrite Eb; left; reflexivity|].
  split. { apply demo_step with (n := 3) (name := PropTell.Demo.var) (table := [(PropTell.Demo.var, y_row); (PropTell.Demo.var, y_row)]) (pos := 3); [exact D|exact F|exact Ix|left; reflexivity|right; reflexivity]. }
  split; [vm_compute; auto|]. split; [reflexivity|].
  intros L [->| ->]; (split; [cbn; auto|]); 
    [exact (tells_after (Demo.fn out rf) None (Loc 0 0) y_row LR EditorModel.Added eq_refl)|exact (tells_after (Demo.fn out rf) None (Loc 0 0) y_row LO EditorModel.Added eq_refl)].
Qed.
