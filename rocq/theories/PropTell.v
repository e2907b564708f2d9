(** * Theorems: the page tells the facts of the program *)
From Coq Require Import Ascii String.
From Coq Require Import List Arith Bool Lia Sorted.
From Verif Require Import Base PermsModel FactsModel FactsSpec FlowModel FlowSpec SpansModel SpansSpec BoundariesModel
  BoundariesSpec UsesModel UsesSpec CfgModel SegMirModel HirModel TablesModel TablesSpec StepsModel TellModel TellSpec TellProofs.
From Verif Require PropSpans BookModel ReportModel ReportSpec StepsSpec CfgSpec PropUses PropSteps DrawModel DrawSpec DrawProofs PropDraw EditorModel EditorSpec PropEditor JsonModel.
Import ListNotations.
Local Open Scope list_scope.

Lemma result_ok f st o : function_result f st = Some (inl o) ->
  fn_tainted f = false /\ exists bs ls, function_boundaries f st = Some bs /\
    compute_permission_steps (fn_steps f) st (fn_id f) (fn_value f) (fn_mode f) (fn_order f) (fn_hash f) (fn_lines f) = Val (Answered ls) /\
    ReportModel.o_bounds o = map (write_boundary f) bs /\ ReportModel.o_lines o = map (write_line f) ls.
Proof.
  unfold function_result. destruct (fn_tainted f); [discriminate|]. destruct (function_boundaries f st) as [bs|]; [|discriminate].
  destruct (compute_permission_steps _ _ _ _ _ _ _ _) as [[r|ls]| |]; try discriminate. intros [= <-]. split; [reflexivity|]. exists bs, ls. auto.
Qed.

(** ** C117 *)

(** A function is answered, whatever it is, unless a use is of a place that the facts do not know, or a span has no place in the text, or the
    steps cannot be computed. *)
Theorem C117_answered k : Sound k -> function_result (k_fn k) (k_state k) = None ->
  fn_tainted (k_fn k) = false /\
  ((exists s s', FirstError (k_errors k) s /\ ue_local (fn_uses (k_fn k)) s = Some s' /\ ue_bytes (fn_uses (k_fn k)) s' = None) \/
   (exists fc e pb, Reached (eid (fn_body (k_fn k))) (fn_body (k_fn k)) fc e /\ UseSite fc e pb /\ Culprit (fn_uses (k_fn k)) pb) \/
   compute (se_hir (fn_steps (k_fn k))) (fn_value (k_fn k)) = Panic \/ compute (se_hir (fn_steps (k_fn k))) (fn_value (k_fn k)) = Loop \/
   exists h b, compute (se_hir (fn_steps (k_fn k))) (fn_value (k_fn k)) = Val (HDone h) /\ In b (branches (h_st h)) /\
     forall n, ~ CfgSpec.Jump (he_body (se_hir (fn_steps (k_fn k)))) (l_block (fst (br_reach b))) n).
Proof.
  intros Sk E. unfold function_result in E. destruct (fn_tainted (k_fn k)); [discriminate|]. split; [reflexivity|].
  destruct (function_boundaries (k_fn k) (k_state k)) as [bs|] eqn:B.
  - right. right. pose proof (PropSteps.C100_failures (fn_steps (k_fn k)) (k_state k) (fn_id (k_fn k)) (k_errors k) (fn_value (k_fn k)) (fn_mode (k_fn k)) (fn_order (k_fn k))
      (fn_hash (k_fn k)) (fn_lines (k_fn k)) (sound_steps _ Sk) (sound_errors _ Sk)) as C.
    destruct (compute_permission_steps _ _ _ _ _ _ _ _) as [[r|ls]| |]; try discriminate E; tauto.
  - enough (B' : boundaries_of (fn_uses (k_fn k)) (k_state k) (fn_id (k_fn k)) (fn_body (k_fn k)) = None).
    { destruct (PropUses.C96_crash_culprit _ _ _ _ _ _ (sound_uses _ Sk) (sound_errors _ Sk) B'); auto. }
    apply boundaries_none. exact B.
Qed.

(** Every boundary on the page is that of a use in a function, which is not hidden; it stands at the use's place in the text, and its letters
    and what is under the pointer are the facts about the place used. *)
Theorem C117_boundaries ks d ds es n s : Forall Sound ks -> Displayed ks d ds es -> In (n, s) (EditorModel.d_boundaries ds) ->
  exists k pb loc x c y, In k ks /\ fn_tainted (k_fn k) = false /\ UseOf (k_fn k) pb loc x /\ Visible k pb /\
    EndsAt (k_fn k) pb c y /\ EditorModel.linecol_to_position (EditorModel.Pos (fst (fn_pos (k_fn k) c)) (snd (fn_pos (k_fn k) c))) d = Some n /\
    TellsUse (k_fn k) (k_flow k) pb loc x s.
Proof.
  intros So (l & j & Fr & R & J & P) I. destruct (PropDraw.C114_boundaries l j d ds es R J P) as [_ B].
  destruct (B n s I) as (o & wb & Io & Ib & Ln & B1 & B2 & B3 & B4 & B5). destruct (DrawProofs.forall2_back _ _ _ _ Fr Io) as (k & Ik & E).
  pose proof (proj1 (Forall_forall _ _) So k Ik) as Sk. destruct (result_ok _ _ _ E) as (Ta & bs & ls & Eb & _ & Ob & _). rewrite Ob in Ib.
  apply in_map_iff in Ib. destruct Ib as ([b u] & <- & Ib). destruct (told_use k Sk bs b u Eb Ib) as (pb & loc & x & c & y & U & En & Lc & _ & V & A & St & Ex & Fl).
  exists k, pb, loc, x, c, y. unfold write_boundary in *. cbn [fst snd ReportModel.b_pos ReportModel.b_exp ReportModel.b_act ReportModel.b_data ReportModel.b_flow] in *.
  subst c. split; [exact Ik|]. split; [exact Ta|]. split; [exact U|]. split; [exact V|]. split; [exact En|]. split; [exact Ln|].
  destruct A as (A1 & A2 & A3). rewrite Ex in B1, B2, B3.
  assert (L : forall L e (v : bool) (Q : Prop), (forall has, In (L, has) (DrawModel.k_icons s) <-> e = true /\ has = v) -> (v = true <-> Q) -> Draws s L e Q).
  { intros L e v Q H1 H2 has. rewrite H1. split; intros [H3 H4]; (split; [exact H3|]); [subst has; exact H2|].
    apply eq_true_iff_eq. rewrite H4, H2. tauto. }
  split; [exact (L _ _ _ _ B1 A1)|]. split; [exact (L _ _ _ _ B2 A2)|]. split; [exact (L _ _ _ _ B3 A3)|]. split; [|eauto].
  exists (b_flow b). split; [exact Fl|]. intros has. rewrite B4. destruct (b_flow b) as [fb|]; cbn [option_map].
  - destruct Fl as (_ & _ & _ & _ & Vi & _). rewrite <- Vi. split.
    + intros (w & [= <-] & ->). split; [reflexivity|]. cbn [ReportModel.f_violation]. destruct (fb_violation fb); cbn; split; congruence.
    + intros [_ H]. eexists. split; [reflexivity|]. cbn [ReportModel.f_violation]. destruct (fb_violation fb), has; cbn in *; try reflexivity; exfalso.
      * apply (proj1 H); reflexivity.
      * enough (false = true) by discriminate. apply H. discriminate.
  - split; [intros (w & H & _); discriminate H|intros [H _]; discriminate H].
Qed.

(** Every use that is not hidden has a boundary on the page at its place, if the function was analysed and some statement tells
    the use's place. *)
Theorem C117_uses ks d ds es k fc e pb : Forall Sound ks -> Displayed ks d ds es -> In k ks ->
  (exists o, function_result (k_fn k) (k_state k) = Some (inl o)) ->
  Reached (eid (fn_body (k_fn k))) (fn_body (k_fn k)) fc e -> UseSite fc e pb -> Visible k pb ->
  Unresolved (fn_uses (k_fn k)) pb \/
  exists c y n s, EndsAt (k_fn k) pb c y /\
    EditorModel.linecol_to_position (EditorModel.Pos (fst (fn_pos (k_fn k) c)) (snd (fn_pos (k_fn k) c))) d = Some n /\
    In (n, s) (EditorModel.d_boundaries ds).
Proof.
  intros So (l & j & Fr & R & J & P) Ik (o & E) Re Us V. destruct (PropDraw.C114_boundaries l j d ds es R J P) as [B _].
  pose proof (proj1 (Forall_forall _ _) So k Ik) as Sk. destruct (result_ok _ _ _ E) as (_ & bs & ls & Eb & _ & Ob & _).
  destruct (all_told k Sk bs fc e pb Eb Re Us V) as [H|(b & u & I & En)]; [auto|]. right. exists (b_location b), (b_byte b).
  destruct (DrawProofs.forall2_in _ _ _ _ Fr Ik) as (r & Ir & Er). rewrite E in Er. injection Er as <-.
  destruct (B o (write_boundary (k_fn k) (b, u)) Ir) as (n & s & Ln & In'); [rewrite Ob; apply (in_map (write_boundary (k_fn k))), I|].
  exists n, s. auto.
Qed.

(** Every line of steps on the page stands at the end of a line of source, before the first error; it has one table, with a row for
    each of some places of a function, sorted; each row has the name of its place, and its letters, its icon and what is under the pointer are the facts
    before and after a step of the function. *)
Theorem C117_steps ks d ds es n tables : Forall Sound ks -> Displayed ks d ds es -> In (n, tables) (EditorModel.d_steps ds) ->
  exists k pos table xs, In k ks /\ fn_tainted (k_fn k) = false /\ tables = [table] /\ table <> [] /\
    EditorModel.linecol_to_position (EditorModel.r_end (ReportSpec.range_of (fn_line (k_fn k) pos))) d = Some n /\
    StepsSpec.BeforeError (fn_steps (k_fn k)) (k_errors k) pos /\
    NoDup xs /\ StronglySorted StepsSpec.PlaceLe xs /\
    Forall2 (fun x r => StepsSpec.Named (fn_steps (k_fn k)) x (fst r) /\
      exists from to, StepOf (k_fn k) pos x from to /\ TellsStep (k_fn k) x from to (snd r)) xs table.
Proof.
  intros So (l & j & Fr & R & J & P) I. destruct (PropDraw.C114_drawn l j R J) as (outs & Sh & E). rewrite E in P. injection P as M _.
  destruct (DrawProofs.forall2_back _ _ _ _ (PropEditor.C76_steps _ _ _ M) I) as ([p ts] & Ip & Lp & Ets). cbn [fst snd] in Lp, Ets. subst ts.
  apply in_flat_map in Ip. destruct Ip as (out & Iout & Ip). destruct (DrawProofs.forall2_back _ _ _ _ Sh Iout) as (o & Io & (_ & _ & _ & _ & _ & Hs)).
  rewrite Hs in Ip. apply in_map_iff in Ip. destruct Ip as (ln & El & Il). apply DrawProofs.analysed_in in Io.
  destruct (DrawProofs.forall2_back _ _ _ _ Fr Io) as (k & Ik & Er). pose proof (proj1 (Forall_forall _ _) So k Ik) as Sk.
  destruct (result_ok _ _ _ Er) as (Ta & bs & ls & _ & Es & _ & Ol). rewrite Ol in Il. apply in_map_iff in Il. destruct Il as (y & <- & Iy).
  destruct (PropSteps.C100_lines _ _ _ _ _ _ _ _ _ _ (sound_steps _ Sk) (sound_errors _ Sk) (sound_order _ Sk) (sound_hash _ Sk) (sound_lines _ Sk) Es) as [_ Ln].
  destruct (Ln y Iy) as (Ne & Be & _ & xs & Nd & Srt & F). unfold DrawSpec.line_of, write_line in El. cbn [ReportModel.l_loc ReportModel.l_tables map ReportModel.t_rows] in El.
  exists k, (sl_pos y), (map DrawSpec.row_of (map (fun r => (write_name (fst r), snd r)) (sl_rows y))), xs.
  split; [exact Ik|]. split; [exact Ta|].
  split. { destruct (fn_line (k_fn k) (sl_pos y)) as [[[a1 a2] [a3 a4]] a5]. injection El as _ <-. reflexivity. }
  split; [destruct (sl_rows y); [congruence|discriminate]|].
  split. { unfold ReportSpec.range_of. destruct (fn_line (k_fn k) (sl_pos y)) as [[[a1 a2] [a3 a4]] a5]. injection El as <- _. exact Lp. }
  split; [exact Be|]. split; [exact Nd|]. split; [exact Srt|]. clear - F Sk. induction F as [|x r xs rs (Nm & from & to & span & H) _ IH]; cbn [map]; constructor; [|exact IH].
  destruct H as (H1 & H2 & H3 & H4 & H5 & H6 & H7). unfold DrawSpec.row_of at 1. cbn [fst snd]. split.
  - rewrite name_written; [exact Nm|]. destruct Nm as [Nm|[_ ->]]; [exact (sound_names _ Sk _ _ Nm)|]. repeat constructor; lia.
  - exists from, to. split; [split; [exact H1|split; [exact H2|split; [exact H6|eauto]]]|]. eapply tells_step; eauto.
Qed.

(** The line's table is printed with the two ranges of a step that ends on the line. *)
Theorem C117_ranges k o ln : Sound k -> function_result (k_fn k) (k_state k) = Some (inl o) -> In ln (ReportModel.o_lines o) ->
  exists t pos x from to, ReportModel.l_tables ln = [t] /\ ReportModel.l_loc ln = fn_line (k_fn k) pos /\ StepOf (k_fn k) pos x from to /\
    ReportModel.t_from t = fn_at (k_fn k) (match from with Some a => a | None => Loc 0 0 end) /\ ReportModel.t_to t = fn_at (k_fn k) to.
Proof.
  intros Sk E I. destruct (result_ok _ _ _ E) as (_ & bs & ls & _ & Es & _ & Ol). rewrite Ol in I. apply in_map_iff in I. destruct I as (y & <- & Iy).
  destruct (PropSteps.C100_lines _ _ _ _ _ _ _ _ _ _ (sound_steps _ Sk) (sound_errors _ Sk) (sound_order _ Sk) (sound_hash _ Sk) (sound_lines _ Sk) Es) as [_ Ln].
  destruct (Ln y Iy) as (_ & _ & (x & d & from & to & span & H & Ef & Et) & _). destruct H as (H1 & H2 & H3 & H4 & H5 & H6 & _).
  eexists _, (sl_pos y), x, from, to. split; [reflexivity|]. split; [reflexivity|]. split; [split; [exact H1|split; [exact H2|split; [exact H6|eauto]]]|].
  cbn [ReportModel.t_from ReportModel.t_to]. rewrite Ef, Et. auto.
Qed.

(** What is printed of a flow that a use requires: whether it is broken, the text of its context, and what is wrong. *)
Theorem C117_flows k o wb w : Sound k -> function_result (k_fn k) (k_state k) = Some (inl o) ->
  In wb (ReportModel.o_bounds o) -> ReportModel.b_flow wb = Some w ->
  exists pb loc x sp rc, UseOf (k_fn k) pb loc x /\ ShownSpan (fn_uses (k_fn k)) (pb_context pb) sp /\ ue_chars (fn_uses (k_fn k)) sp = Some rc /\
    ReportModel.f_context w = fn_range (k_fn k) rc /\
    let broken := BrokenFlow (fn_uses (k_fn k)) (k_flow k) (pb_context pb) (pb_hir pb) in
    (ReportModel.f_violation w = true <-> exists c, broken c) /\
    ((exists c, broken c /\ Verdict (k_flow k) (fst (fst c)) (snd (fst c)) (ReportModel.f_kind w)) \/
     ((forall c, ~ broken c) /\ ReportModel.f_kind w = FlowOk)).
Proof.
  intros Sk E I Ef. destruct (result_ok _ _ _ E) as (_ & bs & ls & Eb & _ & Ob & _). rewrite Ob in I. apply in_map_iff in I as ([b u] & <- & Ib).
  destruct (told_use k Sk bs b u Eb Ib) as (pb & loc & x & c & y & U & _ & _ & _ & _ & _ & _ & _ & Fl).
  cbn [write_boundary ReportModel.b_flow fst] in Ef. destruct (b_flow b) as [fb|]; [|discriminate Ef]. cbn [option_map] in Ef. injection Ef as <-.
  destruct Fl as (_ & _ & _ & (sp & Sp & Ec) & Vi & Kd). exists pb, loc, x, sp, (fb_context fb).
  do 3 (split; [assumption|]). cbn [ReportModel.f_context ReportModel.f_violation ReportModel.f_kind]. split; [reflexivity|]. split; [exact Vi|].
  destruct (fb_violation fb); [left; exact Kd|]. right. split; [|exact Kd]. intros c0 H. enough (false = true) by discriminate. apply Vi. eauto.
Qed.

(** Who takes the permissions in a printed region: the loan, or the move, that the region is printed under; there is one for each loan
    that is live somewhere and whose borrow has a text (C15), and for each move that has a point and takes something somewhere. *)
Theorem C117_regions k o : Sound k -> function_result (k_fn k) (k_state k) = Some (inl o) ->
  (forall l g, In (l, g) (ReportModel.o_lregions o) -> ReportModel.r_by g = ReportModel.ByLoan l) /\
  (forall l, (exists g, In (l, g) (ReportModel.o_lregions o)) <->
     (exists p, LiveAt (fn_lenv (k_fn k)) l p) /\ lo (localised (fn_lenv (k_fn k)) (le_loan_span (fn_lenv (k_fn k)) l)) <> hi (localised (fn_lenv (k_fn k)) (le_loan_span (fn_lenv (k_fn k)) l))) /\
  (forall m g, In (m, g) (ReportModel.o_mregions o) -> ReportModel.r_by g = ReportModel.ByMove m) /\
  (forall m, (exists g, In (m, g) (ReportModel.o_mregions o)) <->
     (exists r, In (m, r) (ReportModel.o_mpoints o)) /\ exists p row path, In (p, row) (o_move (ue_out (fn_uses (k_fn k)))) /\ In (path, m) row).
Proof.
  intros Sk E. unfold function_result in E. destruct (fn_tainted (k_fn k)); [discriminate|]. destruct (function_boundaries _ _) as [bs|]; [|discriminate].
  destruct (compute_permission_steps _ _ _ _ _ _ _ _) as [[r|ls]| |]; try discriminate. injection E as <-.
  cbn [ReportModel.o_lregions ReportModel.o_mregions ReportModel.o_mpoints].
  assert (IM : forall A (l : list (nat * A)) a, In a (fn_maps (k_fn k) A l) <-> In a l).
  { intros A l a. split; intros H; [refine (Permutation.Permutation_in _ _ H)|refine (Permutation.Permutation_in _ (Permutation.Permutation_sym _) H)]; apply (sound_maps _ Sk). }
  split; [|split; [|split]].
  - intros l g I. apply IM, in_map_iff in I as ([l' i] & [= <- <-] & _). reflexivity.
  - intros l. split.
    + intros [g I]. apply IM, in_map_iff in I as ([l' [a rs]] & Eq & I). injection Eq as Eq _. cbn [fst] in Eq. subst l'.
      destruct (proj1 (PropSpans.C15_loan_shown_iff_visible (fn_lenv (k_fn k)) l a) (ex_intro _ rs I)) as (L & -> & N). auto.
    + intros [L N]. destruct (proj2 (PropSpans.C15_loan_shown_iff_visible (fn_lenv (k_fn k)) l _) (conj L (conj eq_refl N))) as [rs I].
      eexists. apply IM, in_map_iff. eexists. split; [|exact I]. reflexivity.
  - intros m g I. apply IM, in_flat_map in I as (m' & _ & I). destruct (move_to_spans _ _); [destruct I|]. destruct (move_region _ _); [|destruct I].
    destruct I as [[= <- <-]|[]]. reflexivity.
  - destruct (sound_moves _ Sk) as [_ ER].
    assert (SP : forall m, move_to_spans (fn_menv (k_fn k)) m <> [] <-> exists p row path, In (p, row) (o_move (ue_out (fn_uses (k_fn k)))) /\ In (path, m) row).
    { intros m. rewrite <- ER. unfold move_to_spans. split.
      - intros N. destruct (flat_map _ _) as [|p l] eqn:F; [congruence|]. assert (I : In p (p :: l)) by (left; reflexivity). rewrite <- F in I.
        apply in_flat_map in I as ([p' row] & I & J). cbn [fst snd] in J. apply in_map_iff in J as ([pa m'] & _ & J). apply filter_In in J as [J Q]. apply Nat.eqb_eq in Q. cbn in Q. subst m'. eauto.
      - intros (p & row & pa & I & J) F. enough (X : In p []) by destruct X. rewrite <- F. apply in_flat_map. exists (p, row). split; [exact I|]. cbn [fst snd].
        apply in_map_iff. exists (pa, m). split; [reflexivity|]. apply filter_In. split; [exact J|]. apply Nat.eqb_refl. }
    assert (PT : forall m, (exists r, In (m, r) (fn_maps (k_fn k) _ (map (fun x => (fst x, fn_range (k_fn k) (snd x))) (SpansModel.move_points (fn_menv (k_fn k)))))) <->
      exists s, In (m, s) (SpansModel.move_points (fn_menv (k_fn k)))).
    { intros m. split.
      - intros [r I]. apply IM, in_map_iff in I as ([m' s] & [= <- _] & I). eauto.
      - intros [s I]. eexists. apply IM, in_map_iff. eexists. split; [|exact I]. reflexivity. }
    intros m. unfold move_points. rewrite PT, <- SP. split.
    + intros [g I]. apply IM, in_flat_map in I as (m' & _ & I). destruct (move_to_spans _ _) eqn:Ms; [destruct I|]. destruct (move_region _ _) eqn:Mr; [|destruct I].
      destruct I as [[= <- _]|[]]. rewrite Ms. split; [|discriminate]. unfold move_region in Mr. destruct (aget Nat.eq_dec (SpansModel.move_points (fn_menv (k_fn k))) m') as [s|] eqn:A; [|discriminate].
      exists s. exact (aget_Some_In _ _ _ _ _ _ A).
    + intros [[s I] N]. pose proof I as I0. apply PropSpans.C15_move_anchor_iff_invisible in I0 as (Lm & _ & _).
      destruct (move_region (fn_menv (k_fn k)) m) as [rs|] eqn:Mr.
      * exists (ReportModel.WRegion (ReportModel.ByMove m) (map (fn_range (k_fn k)) rs)). apply IM, in_flat_map. exists m. split; [apply in_seq; lia|].
        rewrite Mr. destruct (move_to_spans _ _); [congruence|]. left. reflexivity.
      * exfalso. unfold move_region in Mr. destruct (aget Nat.eq_dec (SpansModel.move_points (fn_menv (k_fn k))) m) eqn:A; [discriminate|].
        apply aget_None in A. apply A. apply in_map_iff. exists (m, s). auto.
Qed.

(** A change of a visible place, worth showing, has a row on the page at the end of its line: C100_complete_partial on the page, for
    functions that lose no table and lines on which no other step changes the place differently (C30, C32). *)
Theorem C117_changes ks d ds es k o h x df span pos : Forall Sound ks -> Displayed ks d ds es -> In k ks ->
  function_result (k_fn k) (k_state k) = Some (inl o) ->
  let env := fn_steps (k_fn k) in
  compute (se_hir env) (fn_value (k_fn k)) = Val (HDone h) -> TablesSpec.Separate (h_st h) (Loc 0 0) ->
  StepsSpec.Candidate env (fn_value (k_fn k)) h x df span -> se_visible env x = true -> StepsSpec.Worth (fn_mode (k_fn k)) df -> StepsSpec.LetterTurns df ->
  LineEnd (se_text env) (se_hi env span) pos -> pos <= length (se_text env) -> StepsSpec.BeforeError env (k_errors k) pos ->
  (forall d' span', StepsSpec.Candidate env (fn_value (k_fn k)) h x d' span' -> StepsSpec.Worth (fn_mode (k_fn k)) d' -> LineEnd (se_text env) (se_hi env span') pos -> d' = df) ->
  exists n table name row, In (n, [table]) (EditorModel.d_steps ds) /\
    EditorModel.linecol_to_position (EditorModel.r_end (ReportSpec.range_of (fn_line (k_fn k) pos))) d = Some n /\
    In (name, row) table /\ StepsSpec.Named env x name /\ row = snd (DrawSpec.row_of (""%string, df)).
Proof.
  intros So (l & j & Fr & R & J & P) Ik E env D Sep Ca Vi Wo Lt Le Lp Be Un. pose proof (proj1 (Forall_forall _ _) So k Ik) as Sk.
  destruct (result_ok _ _ _ E) as (_ & bs & ls & _ & Es & _ & Ol).
  destruct (PropSteps.C100_complete_partial _ _ _ _ _ _ _ _ _ _ h x df span pos (sound_steps _ Sk) (sound_errors _ Sk) (sound_order _ Sk) (sound_hash _ Sk) (sound_lines _ Sk) Es D Sep Ca Vi Wo Lt Le Lp Be Un) as (y & name & Iy & Ey & Nm & Ir).
  destruct (PropDraw.C114_drawn l j R J) as (outs & Sh & Eo). rewrite Eo in P. injection P as M _.
  destruct (DrawProofs.forall2_in _ _ _ _ Fr Ik) as (r & Il & Er). rewrite E in Er. injection Er as <-. apply DrawProofs.analysed_in in Il.
  destruct (DrawProofs.forall2_in _ _ _ _ Sh Il) as (out & Iout & (_ & _ & _ & _ & _ & Hs)).
  assert (Is : In (DrawSpec.line_of (write_line (k_fn k) y)) (flat_map (fun x => EditorModel.o_steps x) outs)).
  { apply in_flat_map. exists out. split; [exact Iout|]. rewrite Hs, Ol, map_map. apply (in_map (fun x => DrawSpec.line_of (write_line (k_fn k) x))), Iy. }
  destruct (DrawProofs.forall2_in _ _ _ _ (PropEditor.C76_steps _ _ _ M) Is) as ([n ts] & In' & Lp' & Ets). cbn [fst snd] in Lp', Ets.
  exists n, (map DrawSpec.row_of (map (fun r => (write_name (fst r), snd r)) (sl_rows y))), name, (snd (DrawSpec.row_of (""%string, df))).
  unfold DrawSpec.line_of, write_line in Lp', Ets. cbn [ReportModel.l_loc ReportModel.l_tables map ReportModel.t_rows] in Lp', Ets. rewrite Ey in *.
  unfold ReportSpec.range_of. destruct (fn_line (k_fn k) pos) as [[[a1 a2] [a3 a4]] a5]. cbn [fst snd] in *.
  split; [rewrite <- Ets; exact In'|]. split; [exact Lp'|]. split.
  - rewrite map_map. apply in_map_iff. exists (name, df). split; [|exact Ir]. unfold DrawSpec.row_of. cbn [fst snd]. rewrite name_written; [reflexivity|].
    destruct Nm as [Nm|[_ ->]]; [exact (sound_names _ Sk _ _ Nm)|]. repeat constructor; lia.
  - split; [exact Nm|reflexivity].
Qed.

(** What the page tells of failures: that of every function whose types are wrong, and of every one whose steps cannot be told. *)
Theorem C117_told ks d ds es : Displayed ks d ds es ->
  (In DrawModel.ToldBuild es <-> exists k, In k ks /\ fn_tainted (k_fn k) = true) /\
  (forall m, In (DrawModel.ToldAnalysis m) es <-> exists k r, In k ks /\ fn_tainted (k_fn k) = false /\
     compute_permission_steps (fn_steps (k_fn k)) (k_state k) (fn_id (k_fn k)) (fn_value (k_fn k)) (fn_mode (k_fn k)) (fn_order (k_fn k)) (fn_hash (k_fn k)) (fn_lines (k_fn k)) = Val (Refused r) /\
     m = BookModel.lit (fn_message (k_fn k) r)).
Proof.
  intros (l & j & Fr & R & J & P). destruct (PropDraw.C114_drawn l j R J) as (outs & Sh & E). rewrite E in P. injection P as _ <-. clear - Fr.
  induction Fr as [|k r ks l E _ [IH1 IH2]]; cbn [DrawSpec.failed].
  - split; [|intros m]; split; [intros []|intros (k & [] & _)|intros []|intros (k & r & [] & _)].
  - unfold function_result in E. destruct (fn_tainted (k_fn k)) eqn:T.
    + injection E as <-. split; [|intros m]; cbn [In].
      * split; [intros _; exists k; auto|intros _; auto].
      * rewrite IH2. split; [intros [H|(k' & r & H1 & H2)]; [discriminate H|exists k', r; tauto]|]. intros (k' & r & [<-|H1] & H2 & H3); [congruence|]. right. exists k', r. auto.
    + destruct (function_boundaries _ _) as [bs|]; [|discriminate]. destruct (compute_permission_steps _ _ _ _ _ _ _ _) as [[rf|ls]| |] eqn:C; try discriminate; injection E as <-.
      * split; [|intros m]; cbn [In].
        -- rewrite IH1. split; [intros [H|(k' & H1 & H2)]; [discriminate H|exists k'; tauto]|]. intros (k' & [<-|H1] & H2); [congruence|]. right. eauto.
        -- rewrite IH2. split.
           ++ intros [[= <-]|(k' & r & H1 & H2)]; [exists k, rf; auto|exists k', r; tauto].
           ++ intros (k' & r & [<-|H1] & H2 & H3 & ->); [left; congruence|]. right. exists k', r. auto.
      * split; [rewrite IH1|intros m; rewrite IH2].
        -- split; [intros (k' & H1 & H2); exists k'; cbn; auto|]. intros (k' & [<-|H1] & H2); [congruence|eauto].
        -- split; [intros (k' & r & H1 & H2); exists k', r; cbn; tauto|]. intros (k' & r & [<-|H1] & H2 & H3); [exfalso; destruct H3; congruence|exists k', r; auto].
Qed.

Print Assumptions C117_answered.
Print Assumptions C117_boundaries.
Print Assumptions C117_uses.
Print Assumptions C117_steps.
Print Assumptions C117_ranges.
Print Assumptions C117_changes.
Print Assumptions C117_told.
Print Assumptions C117_flows.
Print Assumptions C117_regions.

(** The function of C100_witness, in whose first line [y] (variable 4) is used before it is moved, and in whose second line after that; the error is in the third. A
    second function has wrong types. *)
Module Demo.
  Import PropSteps.
  Definition v (i a : nat) := BoundariesModel.EPath (mkM i (mkR a (a + 1)) false [] false) ResLocal (mkR a (a + 1)) false.
  Definition body := BoundariesModel.EBlock (mkM 1 (mkR 0 12) false [] true) [(100, [v 12 1]); (101, [v 13 5]); (102, [v 14 10])] None.
  Definition fi := mkFlowIn [] [] [] [] [] [] true.
  Definition uses out rf : uenv := Uenv StepsDemo.inp out rf true [] [] (fun p => local p =? 4)
    (fun _ => SkAssign (mkPlace 5 []) (RvOperands [Some (mkPlace 4 [])]))
    (fun h => match h with 12 => Some [0] | 13 => Some [30] | 14 => Some [31] | 100 => Some [0] | 101 => Some [30] | 102 => Some [31] | _ => None end)
    (fun _ => []) (fun _ => None) (fun l => l) (fun l => l) (fun _ => mkR 0 12) (mkR 0 12) (fun s => Some s) (fun s => Some s) (fun s => Some s).
  Definition at_ (a b : nat) : WireModel.wrange := ((a / 4, a mod 4), (b / 4, b mod 4), 0).
  Definition fn out rf (tainted : bool) : function :=
    Function 7 (uses out rf) (StepsDemo.env out) body PropHide.HideDemo.let_hir tainted (at_ 0 12) (fun c => (c / 4, c mod 4))
      (fun r => at_ (lo r) (hi r)) (fun p => at_ p p) (fun l => at_ (l_block l) (S (l_block l))) 
      (mkLoanEnv (fun p => mkR p (S p)) (fun p => mkR p (S p)) (fun _ => mkR 1 2) (fun _ => None) [])
      (mkMoveEnv (fun p => mkR p (S p)) (fun _ => mkR 1 2) 1 (fun _ => true) (o_move out)) (fun _ l => rev l)
      (fun _ => "no"%string) Changes (@rev _) (@rev _) (@rev _).
  Definition asked_ out rf tainted := AskedFor (fn out rf tainted) fi (diag_run (TrackBody 7 :: StepsDemo.post)) StepsDemo.post.
  Definition text : EditorModel.doc := [[97; 98; 99]; [97; 98; 99]; [97; 98; 99]; []].
  Definition P := EditorModel.Present. Definition A := EditorModel.Absent. Definition M := EditorModel.Removed. Definition G := EditorModel.Added.
  Definition var : BookModel.str := [60; 118; 97; 114; 62].
  Definition no : option nat * option nat := (None, None).
  Definition moved : option nat * option nat := (None, Some 0).
End Demo.
Example C117_witness : exists out rf,
  Forall Sound [Demo.asked_ out rf true; Demo.asked_ out rf false] /\
  exists ds, Displayed [Demo.asked_ out rf true; Demo.asked_ out rf false] Demo.text ds [DrawModel.ToldBuild] /\
    EditorModel.d_boundaries ds = [(1, DrawModel.Stack [(LR, true); (LO, true)] (Demo.no, Demo.no, Demo.no)); (5, DrawModel.Stack [(LR, false); (LO, false)] (Demo.moved, Demo.moved, Demo.moved))] /\
    map (fun y => (fst y, map (map (fun r => (fst r, DrawModel.w_marks (snd r)))) (snd y))) (EditorModel.d_steps ds) =
      [(3, [[(Demo.var, (Demo.G, Demo.A, Demo.G)); (Demo.var, (Demo.G, Demo.A, Demo.G))]]);
       (7, [[([120], (Demo.G, Demo.G, Demo.G)); (Demo.var, (Demo.M, Demo.A, Demo.M))]])].
Proof.
  destruct (derive_permission_facts PropSteps.StepsDemo.inp) as [out|] eqn:D; [|vm_compute in D; discriminate].
  destruct (compute_flows Demo.fi) as [rf|] eqn:F; [|vm_compute in F; discriminate].
  exists out, rf.
  assert (So : forall t, Sound (Demo.asked_ out rf t)).
  { intros t. constructor; cbn [Demo.asked_ k_fn k_flow k_state k_errors Demo.fn fn_uses fn_steps fn_id fn_order fn_hash fn_lines fn_lenv fn_menv fn_maps].
    - split; [exact D|]. split; [exact F|]. intros c [].
    - destruct PropSteps.C100_witness as (out' & [H _] ). pose proof (StepsSpec.asked_facts _ H) as D'. change (derive_permission_facts PropSteps.StepsDemo.inp = Some out') in D'. rewrite D in D'. injection D' as <-. exact H.
    - reflexivity.
    - reflexivity.
    - split; reflexivity.
    - exists []. split; [reflexivity|]. intros op [<-|[]]; eauto.
    - intros x. symmetry. apply Permutation.Permutation_rev.
    - intros x. symmetry. apply Permutation.Permutation_rev.
    - intros x. symmetry. apply Permutation.Permutation_rev.
    - intros A x. symmetry. apply Permutation.Permutation_rev.
    - intros x n. cbn. destruct (local x =? 3); [|discriminate]. intros [= <-]. constructor; [lia|constructor]. }
  split; [constructor; [apply So|constructor; [apply So|constructor]]|]. vm_compute in D, F. injection D as <-. injection F as <-.
  match goal with |- exists ds, Displayed [?a; ?b] _ _ _ /\ _ =>
    destruct (function_result (k_fn a) (k_state a)) as [r1|] eqn:E1; [|vm_compute in E1; discriminate E1];
    destruct (function_result (k_fn b) (k_state b)) as [r2|] eqn:E2; [|vm_compute in E2; discriminate E2] end.
  assert (R : Forall ReportSpec.RealResult [r1; r2]).
  { vm_compute in E1. injection E1 as <-. vm_compute in E2. injection E2 as <-.
    constructor; [|constructor; [|constructor]]; unfold ReportSpec.RealResult, ReportSpec.RealReport, ReportSpec.SizeMap; cbn;
      unfold ReportSpec.SizeBound, ReportSpec.SizeLine, ReportSpec.SizeTable, ReportSpec.SizeData, ReportSpec.SizeDiff, ReportSpec.SizeRegion, WireSpec.SizeOpt, WireSpec.SizeRange, WireSpec.Size; cbn;
      repeat first [split|exact Logic.I|constructor; fail|lia|apply Forall_nil|apply Forall_cons|apply NoDup_nil|apply NoDup_cons|progress cbn|
        (intros f [= <-]; cbn)|(intros f E; discriminate E)|(intros E; decompose [or] E; lia)]. }
  destruct (JsonModel.js_parse (JsonModel.to_string (ReportModel.reports [r1; r2]))) as [j|] eqn:J; [|exfalso; vm_compute in E1, E2; injection E1 as <-; injection E2 as <-; vm_compute in J; discriminate J].
  destruct (DrawModel.page_decos Demo.text j) as [[[ds|] es]|] eqn:Pg.
  - exists ds. split.
    + exists [r1; r2], j. split; [constructor; [exact E1|constructor; [exact E2|constructor]]|]. split; [exact R|]. split; [exact J|].
      rewrite Pg. vm_compute in E1, E2. injection E1 as <-. injection E2 as <-. vm_compute in J. injection J as <-. vm_compute in Pg. injection Pg as <- <-. reflexivity.
    + vm_compute in E1, E2. injection E1 as <-. injection E2 as <-. vm_compute in J. injection J as <-. vm_compute in Pg. injection Pg as <- <-. split; reflexivity.
  - exfalso. vm_compute in E1, E2. injection E1 as <-. injection E2 as <-. vm_compute in J. injection J as <-. vm_compute in Pg. discriminate Pg.
  - exfalso. vm_compute in E1, E2. injection E1 as <-. injection E2 as <-. vm_compute in J. injection J as <-. vm_compute in Pg. discriminate Pg.
Qed.
