(** Property theorems C14-C16, C95. *)

From Coq Require Import List Arith Bool Sorted Permutation Lia.
From Verif Require Import Base FactsModel SpansModel SpansSpec SpansProofs.
Import ListNotations.

(** C14 for [CharRange]s: full statement, for all well-formed ranges. *)
Theorem C14_char_ranges : forall l,
  Forall (fun r => lo r <= hi r) l ->
  let out := smooth_elements char_overlaps l in
  StronglySorted (fun a b => hi a < lo b) out /\
  (forall c, covered out c <-> covered l c) /\
  smooth_elements char_overlaps out = out /\
  (forall l', Permutation l l' -> smooth_elements char_overlaps l' = out).
Proof.
  exact (fun l W => let '(conj _ (conj B C)) := char_smooth_spec l W in
    conj C (conj B (conj (char_smooth_idem l W) (fun l' P => eq_sym (char_smooth_perm l l' W P))))).
Qed.
Print Assumptions C14_char_ranges.

(** C14 for compiler spans that are not empty.  Missing: empty spans, for which
    the claim is false, see [C14_empty_spans_refuted]. *)
Theorem C14_spans_partial : forall l,
  Forall (fun r => lo r < hi r) l ->
  let out := smooth_elements span_overlaps l in
  StronglySorted (fun a b => hi a < lo b) out /\
  (forall c, covered out c <-> covered l c) /\
  smooth_elements span_overlaps out = out /\
  (forall l', Permutation l l' -> smooth_elements span_overlaps l' = out).
Proof.
  exact (fun l W => let '(conj _ (conj B C)) := span_smooth_spec l W in
    conj C (conj B (conj (span_smooth_idem l W) (fun l' P => eq_sym (span_smooth_perm l l' W P))))).
Qed.
Print Assumptions C14_spans_partial.

(** Only the covered text matters. *)
Theorem C14_determined_by_covered_text : forall l1 l2,
  Forall (fun r => lo r < hi r) l1 -> Forall (fun r => lo r < hi r) l2 ->
  (forall c, covered l1 c <-> covered l2 c) ->
  smooth_elements span_overlaps l1 = smooth_elements span_overlaps l2.
Proof. exact span_smooth_determined. Qed.
Print Assumptions C14_determined_by_covered_text.

Theorem C14_empty_spans_refuted :
  exists l1 l2, Forall (fun r => lo r <= hi r) l1 /\ Permutation l1 l2 /\
    ~ StronglySorted (fun a b => hi a < lo b) (smooth_elements span_overlaps l1) /\
    smooth_elements span_overlaps l1 <> smooth_elements span_overlaps l2.
Proof. exact span_smooth_empty_breaks. Qed.
Print Assumptions C14_empty_spans_refuted.

Example C14_witness :
  smooth_elements char_overlaps [mkR 7 9; mkR 1 3; mkR 3 4; mkR 2 2; mkR 12 12] = [mkR 1 4; mkR 7 9; mkR 12 12] /\
  smooth_elements span_overlaps [mkR 7 9; mkR 1 3; mkR 3 4; mkR 8 11] = [mkR 1 4; mkR 7 11].
Proof. split; vm_compute; reflexivity. Qed.

(** C15, loans: which loans are shown and with which anchor. *)
Theorem C15_loan_shown_iff_visible : forall env l anchor,
  (exists rs, In (l, (anchor, rs)) (construct_loan_info env)) <->
  (exists p, LiveAt env l p) /\
  anchor = localised env (le_loan_span env l) /\ lo anchor <> hi anchor.
Proof. exact loan_anchor_iff. Qed.
Print Assumptions C15_loan_shown_iff_visible.

(** C15, loans: the highlighted text is exactly the text of the recorded
    visible spans within the loan's extent; nothing outside it is highlighted. *)
Theorem C15_loan_highlight_exact : forall env l anchor rs,
  (forall p, lo (le_hir_span env p) <= hi (le_hir_span env p)) ->
  (forall s, lo s < hi s -> lo (localised env s) < hi (localised env s)) ->
  In (l, (anchor, rs)) (construct_loan_info env) ->
  exists p q, Extent env l p q /\
    let mn := extent_start env l p in
    let mx := le_point_span env q in
    (lo mn < hi mn -> lo mx < hi mx ->
      StronglySorted (fun a b => hi a < lo b) rs /\
      (forall c, covered rs c <->
         exists s, Highlighted env l mn mx s /\
                   lo (localised env s) <= c < hi (localised env s)) /\
      ((forall s, le_as_local env s = None) ->
         forall r, In r rs -> lo mn <= lo r /\ hi r <= hi mx)).
Proof. exact loan_highlight_spec. Qed.
Print Assumptions C15_loan_highlight_exact.

Example C15_loan_witness :
  let env := mkLoanEnv (fun p => mkR (10 * p) (10 * p + 5)) (fun p => mkR (10 * p) (10 * p + 5))
               (fun _ => mkR 12 14) (fun _ => None) [(1, [0]); (2, [0]); (3, [0; 1]); (5, [1])] in
  construct_loan_info env = [(0, (mkR 12 14, [mkR 12 14; mkR 20 25; mkR 30 35]));
                             (1, (mkR 12 14, [mkR 30 35; mkR 50 55]))].
Proof. vm_compute. reflexivity. Qed.

(** C15, moves: the anchors are given to exactly the moves without a visible
    span, so the claim for moves is false. *)
Theorem C15_move_anchor_iff_invisible : forall env m s,
  In (m, s) (move_points env) <->
  m < me_moves env /\ s = me_move_span env m /\ lo s = hi s.
Proof. exact move_points_In. Qed.
Print Assumptions C15_move_anchor_iff_invisible.

Theorem C15_visible_move_anchor_refuted :
  exists env m, m < me_moves env /\ lo (me_move_span env m) < hi (me_move_span env m) /\
    (forall s, ~ In (m, s) (move_points env)) /\ move_region env m = None.
Proof. exact visible_move_witness. Qed.
Print Assumptions C15_visible_move_anchor_refuted.

(** C15, moves: the highlight of a move that gets one is the text of the
    operations, from the move on, at which the move makes some place unusable. *)
Theorem C15_move_highlight_exact : forall env m,
  (forall p, lo (me_hir_span env p) <= hi (me_hir_span env p)) ->
  match move_region env m with
  | None => ~ (m < me_moves env /\ lo (me_move_span env m) = hi (me_move_span env m))
  | Some rs =>
      m < me_moves env /\ lo (me_move_span env m) = hi (me_move_span env m) /\
      StronglySorted (fun a b => hi a < lo b) rs /\
      forall c, covered rs c <->
        exists p row path,
          In (p, row) (me_refined env) /\ In (path, m) row /\ me_operational env p = true /\
          lo (me_move_span env m) <= lo (me_hir_span env p) /\
          lo (me_hir_span env p) <= c < hi (me_hir_span env p)
  end.
Proof. exact move_region_spec. Qed.
Print Assumptions C15_move_highlight_exact.

Example C15_move_highlight_witness :
  move_region (mkMoveEnv (fun p => mkR (3 * p) (3 * p + 2)) (fun _ => mkR 3 3) 2
                 (fun p => negb (p =? 4))
                 [(0, [(5, 1)]); (1, [(7, 0); (5, 1)]); (3, [(1, 0)]); (4, [(7, 1)]); (6, [(7, 1)])]) 1
  = Some [mkR 3 5; mkR 18 20].
Proof. vm_compute. reflexivity. Qed.

(** C16: any history [pre], then body [id] with the reports [post].  The outer
    [None] is the assertion failure when another body is asked for. *)
Theorem C16_first_error : forall pre id post q,
  (forall op, In op post -> exists d, op = Report d) ->
  let st := diag_run (pre ++ TrackBody id :: post) in
  match get_span_of_first_error st q with
  | None => q <> id
  | Some None => q = id /\ forall d, In (Report d) post -> is_error d = false
  | Some (Some s) => q = id /\ FirstError post s
  end.
Proof. exact first_error_spec. Qed.
Print Assumptions C16_first_error.

(** C95, "errors exist": something was reported since the tracking began.  This includes warnings. *)
Theorem C95_reports_exist_partial : forall pre id post,
  (forall op, In op post -> exists d, op = Report d) ->
  (errors_exist (diag_run (pre ++ TrackBody id :: post)) = true <-> exists d, In (Report d) post).
Proof.
  intros pre id post R. unfold diag_run. rewrite fold_left_app. cbn [fold_left]. set (st := fold_left diag_step pre diag_init). clearbody st.
  cbn [diag_step]. assert (G : forall post st, (forall op, In op post -> exists d, op = Report d) ->
    (errors_exist (fold_left diag_step post st) = true <-> body_diagnostics st <> [] \/ exists d, In (Report d) post)).
  { clear. induction post as [|op post IH]; intros st R; cbn [fold_left].
    - unfold errors_exist. destruct (body_diagnostics st); split; auto; try discriminate; [intros [N|(d & [])]; congruence|]. intros _. left. discriminate.
    - rewrite IH by (intros; apply R; right; auto). destruct (R op (or_introl eq_refl)) as (d & ->). cbn [diag_step body_diagnostics]. split.
      + intros _. right. exists d. left. auto.
      + intros _. left. destruct (body_diagnostics st); discriminate. }
  rewrite G; auto. cbn. tauto.
Qed.
Print Assumptions C95_reports_exist_partial.

Theorem C95_warning_counts_refuted : exists id d, is_error d = false /\ errors_exist (diag_run [TrackBody id; Report d]) = true.
Proof. exists 0, (mkDiag (mkR 0 1) false). auto. Qed.
Print Assumptions C95_warning_counts_refuted.

Example C95_witness :
  errors_exist (diag_run [TrackBody 3; Report (mkDiag (mkR 0 1) true); TrackBody 4]) = false /\
  errors_exist (diag_run [TrackBody 3; TrackBody 4; Report (mkDiag (mkR 0 1) true)]) = true.
Proof. vm_compute. auto. Qed.

Example C16_witness :
  get_span_of_first_error
    (diag_run [TrackBody 3; Report (mkDiag (mkR 0 1) true); TrackBody 4;
               Report (mkDiag (mkR 2 3) false); Report (mkDiag (mkR 9 12) true);
               Report (mkDiag (mkR 5 7) true)]) 4 = Some (Some (mkR 5 7)).
Proof. vm_compute. reflexivity. Qed.
