(** * Properties of the editor and of the pages that use it *)

From Coq Require Import Ascii String.
From Coq Require Import List Arith Bool Lia Permutation.
From Verif Require Import Base PermsModel FactsModel FactsSpec FactsProofs PropFacts SpansModel PropSpans BookModel FrontSpec EditorModel EditorSpec EditorProofs.
Import ListNotations.

(** ** C74: positions *)

(** The position computed for a character of the document is too small by the number
    of characters outside the basic plane before it in its line. *)
Theorem C74_position ls a b r :
  exists n, linecol_to_position (Pos (length ls) (length a)) (ls ++ (a ++ b) :: r) = Some n /\
    n + astral a = position_after (text_before ls a).
Proof.
  eexists. split; [apply linecol_text|]. unfold text_before. rewrite position_app, (position_line a), units_astral. lia.
Qed.
Print Assumptions C74_position.

Theorem C74_position_partial ls a b r : Forall (fun c => c < 256 * 256) a ->
  linecol_to_position (Pos (length ls) (length a)) (ls ++ (a ++ b) :: r) = Some (position_after (text_before ls a)).
Proof.
  intros H. apply astral_zero in H. destruct (C74_position ls a b r) as (n & E & Q). rewrite E. f_equal. lia.
Qed.
Print Assumptions C74_position_partial.

Theorem C74_astral_refuted ls a b r : ~ Forall (fun c => c < 256 * 256) a ->
  linecol_to_position (Pos (length ls) (length a)) (ls ++ (a ++ b) :: r) <> Some (position_after (text_before ls a)).
Proof.
  intros H. rewrite <- astral_zero in H. destruct (C74_position ls a b r) as (n & E & Q). rewrite E. intros X. injection X as ->. lia.
Qed.
Print Assumptions C74_astral_refuted.

(** The line found for it is right all the same. *)
Theorem C74_line ls a b r n :
  linecol_to_position (Pos (length ls) (length a)) (ls ++ (a ++ b) :: r) = Some n ->
  line_at (ls ++ (a ++ b) :: r) n = Some (length ls).
Proof.
  intros H. unfold linecol_to_position in H. cbn [p_line p_column] in H. destruct (_ <? _); try discriminate. injection H as <-.
  apply (line_at_in _ _ (a ++ b)).
  - rewrite nth_error_app2, Nat.sub_diag by lia. auto.
  - rewrite units_astral, app_length. lia.
Qed.
Print Assumptions C74_line.

(** Only a line that is not in the document makes it fail. *)
Theorem C74_fails_iff p d : linecol_to_position p d = None <-> length d <= p_line p.
Proof. apply linecol_none. Qed.
Print Assumptions C74_fails_iff.

(** [let s = "..."; f(s)] with one astral character before the call. *)
Example C74_witness : let l := [34; 128512; 34; 59; 102] in
  linecol_to_position (Pos 1 4) [[120]; l] = Some 6 /\ position_after (text_before [[120]] [34; 128512; 34; 59]) = 7 /\
  linecol_to_position (Pos 1 1) [[120]; l] = Some 3 /\ position_after (text_before [[120]] [34]) = 3.
Proof. vm_compute. auto. Qed.

(** ** C75: loans and moves *)

(** The ranges of the loans and moves can be marked iff each has a point, and all
    points, and the ranges that are not empty, lie forward in the document. *)
Theorem C75_marked_iff d l :
  (exists ms, all_marks d l = Some ms) <->
  forall act, In act l -> exists p, fst act = Some p /\ (exists a b, Forward d p a b) /\
    forall r, In r (snd act) -> r_start r <> r_end r -> exists a b, Forward d r a b.
Proof.
  rewrite all_marks_some. split; intros H act Ha; apply action_marks_some; auto.
Qed.
Print Assumptions C75_marked_iff.

Theorem C75_marks d f ms : all_marks d (actions_of f) = Some ms -> forall a b,
  (In (a, b) ms <->
   exists k r, Forward d r a b /\
     ((exists rs, In (k, rs) (loan_regions f) /\ (aget Nat.eq_dec (loan_points f) k = Some r \/ In r rs /\ r_start r <> r_end r)) \/
      (exists rs, In (k, rs) (move_regions f) /\ (aget Nat.eq_dec (move_points f) k = Some r \/ In r rs /\ r_start r <> r_end r)))).
Proof.
  intros H a b. rewrite (all_marks_in _ _ _ a b H). split.
  - intros (act & r & Ha & Hr & Fw). apply actions_in in Ha. destruct Ha as (k & [(rs & I & ->)|(rs & I & ->)]); exists k, r; split; auto;
      [left|right]; exists rs; auto.
  - intros (k & r & Fw & [(rs & I & Hr)|(rs & I & Hr)]); eexists; exists r; (split; [apply actions_in; exists k; eauto|]); auto.
Qed.
Print Assumptions C75_marks.

(** The moves the analysis reports have a point without extent (C15), so one region
    of a move is enough that nothing of the analysis is shown: the state of the editor
    does not change. *)
Theorem C75_move_region_refuted {Bd St Tr} env (conv : nat -> pos) (out : output Bd St) bodies (e : editor Bd St Tr) c :
  (forall m r, aget Nat.eq_dec (move_points (o_facts out)) m = Some r ->
     exists s, In (m, s) (SpansModel.move_points env) /\ r = CRange (conv (lo s)) (conv (hi s))) ->
  move_regions (o_facts out) <> [] -> In (Some out) bodies ->
  snd (render_operation e (Analysis bodies) c) = false /\
  let e' := fst (render_operation e (Analysis bodies) c) in
  e_marks e' = e_marks e /\ e_steps e' = e_steps e /\ e_boundaries e' = e_boundaries e.
Proof.
  intros P N I. assert (X : forall d outs ms, In out outs -> all_marks d (flat_map (fun o => actions_of (o_facts o)) outs) <> Some ms).
  { intros d outs ms Io Q. assert (Z := proj1 (C75_marked_iff d _) (ex_intro _ ms Q)).
    destruct (move_regions (o_facts out)) as [|[m rs] l] eqn:E; [congruence|].
    destruct (Z (aget Nat.eq_dec (move_points (o_facts out)) m, rs)) as (p & Ep & (a & b & F1 & F2 & F3) & _).
    - apply in_flat_map. exists out. split; auto. apply actions_in. exists m. right. exists rs. rewrite E. cbn. auto.
    - cbn in Ep. destruct (P m p Ep) as (s & Is & ->). apply C15_move_anchor_iff_invisible in Is. destruct Is as (_ & _ & L).
      cbn in F1, F2. rewrite L in F1. rewrite F1 in F2. injection F2 as ->. lia. }
  unfold render_operation. destruct (e_alive e); cbn [negb]; [|auto]. cbn [e_doc set_fail].
  destruct (make_decorations (e_doc e) (oks bodies)) as [ds|] eqn:D; [|auto].
  unfold render_permissions. cbn [e_decos set_decos e_doc set_fail].
  apply decorations_spec in D. destruct D as (_ & _ & F). rewrite F.
  destruct (all_marks (e_doc e) _) as [ms|] eqn:A; [|auto]. exfalso. eapply X; [|exact A]. apply oks_in; auto.
Qed.
Print Assumptions C75_move_region_refuted.

Module Demo75.
  Definition env := mkMoveEnv (fun p => mkR p (S p)) (fun _ => mkR 4 4) 1 (fun _ => true) [].
  Definition conv (n : nat) := Pos 0 n.
  Definition out : output nat nat :=
    Output (Facts [] [] [(0, CRange (Pos 0 4) (Pos 0 4))] [(0, [CRange (Pos 0 5) (Pos 0 6)])]) [(Pos 0 2, 7)] [(Pos 0 9, 8)].
  Example C75_witness : (forall m r, aget Nat.eq_dec (move_points (o_facts out)) m = Some r ->
     exists s, In (m, s) (SpansModel.move_points env) /\ r = CRange (conv (lo s)) (conv (hi s))) /\ move_regions (o_facts out) <> [].
  Proof.
    split; [|discriminate]. intros m r H. cbn in H. destruct (Nat.eq_dec m 0) as [->|]; [|discriminate]. injection H as <-.
    exists (mkR 4 4). split; [|auto]. apply C15_move_anchor_iff_invisible. vm_compute. auto.
  Qed.
  Definition ok : facts := Facts [(3, CRange (Pos 0 1) (Pos 0 3))] [(3, [CRange (Pos 0 5) (Pos 0 6); CRange (Pos 0 7) (Pos 0 7)])] [] [].
  Example C75_witness_marks : all_marks [[1; 1; 1; 1; 1; 1; 1; 1]] (actions_of ok) = Some [(1, 3); (5, 6)].
  Proof. reflexivity. Qed.
End Demo75.

(** ** C76: steps and boundaries *)

Lemma Forall2_split {A B} (R : A -> B -> Prop) l1 x l2 ys : Forall2 R (l1 ++ x :: l2) ys ->
  exists y1 y y2, ys = y1 ++ y :: y2 /\ Forall2 R l1 y1 /\ R x y /\ Forall2 R l2 y2.
Proof.
  intros H. apply Forall2_app_inv_l in H. destruct H as (y1 & z & H1 & H2 & ->). inversion H2 as [|? y ? y2 Q F]; subst.
  exists y1, y, y2. auto.
Qed.

(** Every step of the analysis is shown at its position, in order; of the boundaries
    at a position the first. *)
Theorem C76_steps {Bd St} d (outs : list (output Bd St)) ds : make_decorations d outs = Some ds ->
  Forall2 (fun x y => linecol_to_position (fst x) d = Some (fst y) /\ snd y = snd x) (flat_map o_steps outs) (d_steps ds).
Proof.
  intros H. apply decorations_spec in H. destruct H as (H & _). induction H as [|x [n y] l ys Q _ IH]; constructor; auto.
  apply place_one_some in Q. cbn. tauto.
Qed.
Print Assumptions C76_steps.

Theorem C76_boundaries_iff {Bd St} d (outs : list (output Bd St)) ds n b : make_decorations d outs = Some ds ->
  (In (n, b) (d_boundaries ds) <->
   exists l1 p l2, flat_map o_boundaries outs = l1 ++ (p, b) :: l2 /\ linecol_to_position p d = Some n /\
     forall q b', In (q, b') l1 -> linecol_to_position q d <> Some n).
Proof.
  intros H. apply decorations_spec in H. destruct H as (_ & (l & F & ->) & _). rewrite uniq_spec. split.
  - intros (_ & k1 & k2 & -> & N). apply Forall2_app_inv_r in F. destruct F as (l1 & l2 & F1 & F2 & E). rewrite E.
    inversion F2 as [|[p b0] ? l2' ? Q _]; subst. apply place_one_some in Q. cbn in Q. destruct Q as [Q <-]. exists l1, p, l2'.
    repeat split; auto. intros q b' I X. apply N. clear - F1 I X. induction F1 as [|[u v] [m w] l1 k1 Q _ IH]; [destruct I|].
    cbn. destruct I as [I|I]; [left|right; auto]. injection I as -> ->. apply place_one_some in Q. cbn in Q. destruct Q as [Q _]. congruence.
  - intros (l1 & p & l2 & E & Q & N). rewrite E in F. apply Forall2_split in F. destruct F as (y1 & [m y] & y2 & -> & F1 & P & F2).
    apply place_one_some in P. cbn in P. destruct P as [P ->]. assert (m = n) by congruence. subst m. split; [intros []|]. exists y1, y2.
    split; auto. intros I. apply in_map_iff in I. destruct I as ([m w] & Em & I). cbn in Em. subst m.
    clear - F1 I N. induction F1 as [|[u v] [m' w'] l1 k1 Q' _ IH]; [destruct I|]. destruct I as [I|I].
    + injection I as -> ->. apply place_one_some in Q'. cbn in Q'. eapply (N u v); cbn; auto. tauto.
    + apply IH; auto. intros q b' Hq. eapply (N q b'). cbn. auto.
Qed.
Print Assumptions C76_boundaries_iff.

(** So a second boundary at a position is never shown. *)
Theorem C76_hidden_refuted {Bd St} d (outs : list (output Bd St)) ds l1 p b l2 q b0 : make_decorations d outs = Some ds ->
  flat_map o_boundaries outs = l1 ++ (p, b) :: l2 -> In (q, b0) l1 -> linecol_to_position q d = linecol_to_position p d ->
  ~ In b (map snd l1) -> ~ In b (map snd l2) -> forall n, ~ In (n, b) (d_boundaries ds).
Proof.
  intros M E I Q N1 N2 n H. apply (C76_boundaries_iff _ _ _ n b M) in H. destruct H as (k1 & p' & k2 & E' & P & N). rewrite E in E'.
  assert (k1 = l1 /\ p' = p).
  { clear - E' N1 N2. revert k1 E'. induction l1 as [|[u v] l1 IH]; intros [|[u' v'] k1] E'; cbn in E'.
    - injection E' as -> _. auto.
    - exfalso. apply N2. injection E' as _ _ ->. rewrite map_app. apply in_or_app. cbn. auto.
    - exfalso. apply N1. injection E' as -> -> _. cbn. auto.
    - injection E' as -> -> E'. cbn in N1. destruct (IH (fun H => N1 (or_intror H)) k1 E'). subst. auto. }
  destruct H as [-> ->]. eapply N; eauto. congruence.
Qed.
Print Assumptions C76_hidden_refuted.

Lemma oks_succeeded {X} (l : list (option X)) : Succeeded l (oks l).
Proof. induction l as [|[x|] l IH]; cbn; constructor; auto. Qed.

(** What a completed analysis shows: the steps and boundaries of all functions
    whose analysis did not fail, if asked for. *)
Theorem C76_shown {Bd St Tr} (e : editor Bd St Tr) bodies c : snd (render_operation e (Analysis bodies) c) = true ->
  exists outs ds, Succeeded bodies outs /\ make_decorations (e_doc e) outs = Some ds /\
    e_steps (fst (render_operation e (Analysis bodies) c)) = (if c_stepper c then d_steps ds else []) /\
    e_boundaries (fst (render_operation e (Analysis bodies) c)) = (if c_boundaries c then d_boundaries ds else []).
Proof.
  unfold render_operation. destruct (e_alive e); cbn [negb snd]; [|discriminate]. cbn [e_doc set_fail].
  destruct (make_decorations (e_doc e) (oks bodies)) as [ds|] eqn:D; [|discriminate].
  destruct (render_permissions _ c) as [e2|] eqn:R; [|discriminate]. intros _. exists (oks bodies), ds. split; [apply oks_succeeded|]. cbn [fst].
  apply (render_permissions_shows (set_decos (set_fail e (c_fail c)) ds) c ds) in R; [|auto]. split; auto. tauto.
Qed.
Print Assumptions C76_shown.

Example C76_witness : let d := [[1; 1; 1]; [1; 1]] in
  let o1 : output nat nat := Output (Facts [] [] [] []) [(Pos 0 1, 10); (Pos 1 1, 11)] [(Pos 0 3, 20)] in
  let o2 : output nat nat := Output (Facts [] [] [] []) [(Pos 0 1, 12)] [(Pos 1 2, 21)] in
  make_decorations d [o1; o2] = Some (Decos [(3, 20); (6, 21)] [(1, 10); (5, 11)] []).
Proof. reflexivity. Qed.

(** ** C77: rows *)

(** A letter is drawn by what it was before and is after the step. *)
Theorem C77_letters a b : let m := fun (x y : bool) => match x, y with true, true => Present | false, false => Absent | true, false => Removed | false, true => Added end in
  row_marks (diff_data a b) =
  (m (p_read (permissions a)) (p_read (permissions b)), m (p_write (permissions a)) (p_write (permissions b)), m (p_drop (permissions a)) (p_drop (permissions b))).
Proof.
  unfold row_marks, diff_data, diff_perms, diff_bool. cbn [dd_permissions pd_read pd_write pd_drop].
  destruct (permissions a) as [[|] [|] [|]], (permissions b) as [[|] [|] [|]]; reflexivity.
Qed.
Print Assumptions C77_letters.

(** The loans and the move highlighted at the letters are those after the step. *)
Theorem C77_keys a b : row_keys (diff_data a b) =
  ((loan_read_refined b, path_moved b), (loan_write_refined b, path_moved b), (loan_drop_refined b, path_moved b)).
Proof.
  assert (U : forall (x y : option nat), unwrap (diff_option x y) = y) by (intros [|] [|]; reflexivity).
  unfold row_keys, diff_data. cbn [dd_path_moved dd_loan_read dd_loan_write dd_loan_drop]. rewrite !U. auto.
Qed.
Print Assumptions C77_keys.

Lemma change_option {A} (x y : option A) u d :
  match change (diff_option x y) u d with
  | Some i => x = None /\ y <> None /\ i = u \/ x <> None /\ y = None /\ i = d
  | None => x = None <-> y = None
  end.
Proof. destruct x, y; cbn; try (left; repeat split; congruence); try (right; repeat split; congruence); split; congruence. Qed.
Lemma change_bool x y u d :
  match change (diff_bool x y) u d with
  | Some i => x = false /\ y = true /\ i = u \/ x = true /\ y = false /\ i = d
  | None => x = y
  end.
Proof. destruct x, y; cbn; auto. Qed.

Definition column_icon (c : column) (d : DataDiff) : option icon :=
  match c with
  | Moved => change (dd_path_moved d) SignOut Recycle
  | LoanRead => change (dd_loan_read d) ArrowRight RotateLeft
  | LoanWrite => change (dd_loan_write d) ArrowRight RotateLeft
  | Live => change (dd_is_live d) LevelUp LevelDown
  | Uninit => change (dd_path_uninitialized d) SignOut Recycle
  end.
Lemma column_icon_spec c a b :
  match column_icon c (diff_data a b) with
  | Some i => begins c a b /\ i = begin_icon c \/ ends c a b /\ i = end_icon c
  | None => ~ begins c a b /\ ~ ends c a b
  end.
Proof.
  destruct c; cbn [column_icon diff_data dd_path_moved dd_loan_read dd_loan_write dd_is_live dd_path_uninitialized]; unfold begins, ends; cbn [has begin_icon end_icon].
  - pose proof (change_option (path_moved a) (path_moved b) SignOut Recycle) as H. destruct (change _ _ _); [|tauto].
    destruct H as [(A & B & ->)|(A & B & ->)]; [left|right]; tauto.
  - pose proof (change_option (loan_read_refined a) (loan_read_refined b) ArrowRight RotateLeft) as H. destruct (change _ _ _); [|tauto].
    destruct H as [(A & B & ->)|(A & B & ->)]; [left|right]; tauto.
  - pose proof (change_option (loan_write_refined a) (loan_write_refined b) ArrowRight RotateLeft) as H. destruct (change _ _ _); [|tauto].
    destruct H as [(A & B & ->)|(A & B & ->)]; [left|right]; tauto.
  - pose proof (change_bool (is_live a) (is_live b) LevelUp LevelDown) as H. destruct (change _ _ _).
    + destruct H as [(A & B & ->)|(A & B & ->)]; rewrite A, B; [left|right]; repeat split; congruence.
    + rewrite H. tauto.
  - pose proof (change_bool (path_uninitialized a) (path_uninitialized b) SignOut Recycle) as H. destruct (change _ _ _).
    + destruct H as [(A & B & ->)|(A & B & ->)]; rewrite A, B; [left|right]; repeat split; congruence.
    + rewrite H. tauto.
Qed.

Lemma first_icon_spec a b cs : forall seen, (forall c', In c' seen -> ~ begins c' a b /\ ~ ends c' a b) ->
  match first_icon (map (fun c => column_icon c (diff_data a b)) cs) with
  | Some i => exists before c after, seen ++ cs = before ++ c :: after /\
      (begins c a b /\ i = begin_icon c \/ ends c a b /\ i = end_icon c) /\ forall c', In c' before -> ~ begins c' a b /\ ~ ends c' a b
  | None => forall c', In c' (seen ++ cs) -> ~ begins c' a b /\ ~ ends c' a b
  end.
Proof.
  induction cs as [|c cs IH]; intros seen Hs; cbn [map first_icon].
  - rewrite app_nil_r. auto.
  - pose proof (column_icon_spec c a b) as C. destruct (column_icon c (diff_data a b)) as [i|].
    + exists seen, c, cs. auto.
    + specialize (IH (seen ++ [c])). rewrite <- app_assoc in IH. cbn [app] in IH. apply IH. intros c' I. apply in_app_or in I.
      destruct I as [I|[<-|[]]]; auto.
Qed.

(** The icon of a row tells of the most important fact that changed. *)
Theorem C77_icon a b :
  match row_icon (diff_data a b) with
  | Some i => IconFor a b i
  | None => forall c, ~ begins c a b /\ ~ ends c a b
  end.
Proof.
  pose proof (first_icon_spec a b columns [] (fun c' H => match H with end)) as H.
  change (map (fun c => column_icon c (diff_data a b)) columns) with (visual_facts (diff_data a b)) in H.
  unfold row_icon. destruct (first_icon _); auto. intros c. apply H. unfold columns. destruct c; cbn; auto 6.
Qed.
Print Assumptions C77_icon.

(** Every row the analysis makes of a place whose letters change has an icon. *)
Theorem C77_changed_has_icon inp out x p q a b :
  derive_permission_facts inp = Some out -> query inp out x p = Some a -> query inp out x q = Some b ->
  permissions a <> permissions b -> exists i, row_icon (diff_data a b) = Some i.
Proof.
  intros D Qa Qb N. pose proof (C77_icon a b) as I. destruct (row_icon (diff_data a b)) as [i|]; eauto. exfalso. apply N.
  assert (SAME : forall c, has c a <-> has c b).
  { intros c. destruct (I c) as [I1 I2]. unfold begins, ends in *. assert (has c a \/ ~ has c a) by (destruct c; cbn; try (destruct (is_live a); [left|right]; congruence);
      try (destruct (path_uninitialized a); [left|right]; congruence); match goal with |- ?o <> None \/ _ => destruct o; [left|right]; congruence end).
    assert (has c b \/ ~ has c b) by (destruct c; cbn; try (destruct (is_live b); [left|right]; congruence);
      try (destruct (path_uninitialized b); [left|right]; congruence); match goal with |- ?o <> None \/ _ => destruct o; [left|right]; congruence end). tauto. }
  assert (OPT : forall {A} (u v : option A), (u <> None <-> v <> None) -> is_some u = is_some v).
  { intros A [?|] [?|]; cbn; intros [H1 H2]; auto; exfalso; [apply H1|apply H2]; congruence. }
  assert (WD : forall d r, query inp out x r = Some d -> is_some (loan_drop_refined d) = is_some (loan_write_refined d)).
  { intros d r Q. destruct (C07_loans_refine_conflicting_places inp out x r d D Q) as (_ & W & P).
    destruct (loan_write_refined d) as [w|], (loan_drop_refined d) as [v|]; auto; cbn in W, P; exfalso.
    - destruct W as (W1 & W2 & _). eapply P; eauto.
    - destruct P as (P1 & P2 & _). eapply W; eauto. }
  assert (TW : type_writeable a = type_writeable b /\ type_droppable a = type_droppable b).
  { destruct (C08_declared_capabilities inp out x p a D Qa) as [W1 P1]. destruct (C08_declared_capabilities inp out x q b D Qb) as [W2 P2].
    split; apply eq_true_iff_eq; [rewrite W1, W2|rewrite P1, P2]; tauto. }
  destruct TW as [TW TD]. pose proof (SAME Moved) as S1. pose proof (SAME LoanRead) as S2. pose proof (SAME LoanWrite) as S3. pose proof (SAME Live) as S4.
  pose proof (SAME Uninit) as S5. cbn in S1, S2, S3, S4, S5. apply OPT in S1, S2, S3. apply eq_true_iff_eq in S4. apply eq_true_iff_eq in S5.
  pose proof (WD a p Qa) as Wa. pose proof (WD b q Qb) as Wb.
  unfold permissions, permissions_ignore_liveness, is_none. rewrite S4, S5, S1, S2, S3, Wa, Wb, S3, TW, TD. auto.
Qed.
Print Assumptions C77_changed_has_icon.

Example C77_witness :
  row_icon (diff_data (mkPD true true false true false None None None None) (mkPD true true false true false (Some 1) None None None)) = Some SignOut /\
  row_marks (diff_data (mkPD true true false true false None None None None) (mkPD true true false true false None None (Some 3) (Some 3))) = (Present, Removed, Removed) /\
  exists i, row_icon (diff_data (mkPD true true false true false None None None None) (mkPD true true false true false None None (Some 3) (Some 3))) = Some i.
Proof. vm_compute. eauto. Qed.
Example C77_witness_facts : exists a b, query FactsProofs.Demo.inp FactsProofs.Demo.out FactsProofs.Demo.s 0 = Some a /\ query FactsProofs.Demo.inp FactsProofs.Demo.out FactsProofs.Demo.s 1 = Some b /\ permissions a <> permissions b.
Proof. eexists. eexists. split; [vm_compute; reflexivity|]. split; [vm_compute; reflexivity|]. vm_compute. discriminate. Qed.

(** ** C78: focus *)

(** All rows are shown, in focus or not, in their order. *)
Theorem C78_rows {A} f (rows : list (str * A)) a b : split_rows f rows = Some (a, b) ->
  a = filter (fun r => match f (fst r) with Some true => true | _ => false end) rows /\
  b = filter (fun r => match f (fst r) with Some true => false | _ => true end) rows /\ Permutation (a ++ b) rows.
Proof.
  revert a b. induction rows as [|r rows IH]; intros a b; cbn [split_rows filter].
  - intros H. injection H as <- <-. auto.
  - destruct (f (fst r)) as [[|]|]; [| |discriminate]; destruct (split_rows f rows) as [[a' b']|]; try discriminate; intros H; injection H as <- <-;
      destruct (IH a' b' eq_refl) as (-> & -> & P); split; auto; split; auto; cbn [app].
    + constructor. auto.
    + rewrite <- Permutation_middle. constructor. auto.
Qed.
Print Assumptions C78_rows.

(** Without matchers every row is in focus; otherwise those of which a part is what
    a matcher names.  An expression JavaScript does not know makes the line fail. *)
Theorem C78_focus rx ms path : Forall (valid rx) ms ->
  exists r, in_focus rx (Some ms) path = Some r /\ (r = true <-> ms = [] \/ exists m, In m ms /\ SelectsPart rx m path).
Proof.
  intros V. destruct ms as [|m ms].
  - exists true. split; auto. tauto.
  - destruct (any_match_spec rx (m :: ms) path V) as (r & E & H). exists r. split; auto. rewrite H. split; auto. intros [X|X]; [discriminate|auto].
Qed.
Print Assumptions C78_focus.
Theorem C78_fails_iff rx ms path : in_focus rx (Some ms) path = None <-> exists m, In m ms /\ ~ valid rx m.
Proof.
  destruct ms as [|m ms].
  - cbn. split; [discriminate|intros (m & [] & _)].
  - cbn [in_focus]. apply any_match_none.
Qed.
Print Assumptions C78_fails_iff.

(** What a matcher selects is in focus; *)
Theorem C78_selected_partial rx ms path m : Forall (valid rx) ms -> In m ms -> Selects rx m path -> in_focus rx (Some ms) path = Some true.
Proof.
  intros V I Sel. destruct (C78_focus rx ms path V) as (r & E & H). rewrite E. f_equal. apply H. right. exists m. split; auto.
  destruct m as [s|s]; cbn in *; auto. subst. exists [], []. rewrite app_nil_r. auto.
Qed.
Print Assumptions C78_selected_partial.
(** but so is every path that contains a name: [s] brings [s1], [this] and [*s]. *)
Theorem C78_part_refuted rx ms s a b : Forall (valid rx) ms -> In (Literal s) ms ->
  in_focus rx (Some ms) (a ++ s ++ b) = Some true.
Proof.
  intros V I. destruct (C78_focus rx ms (a ++ s ++ b) V) as (r & E & H). rewrite E. f_equal. apply H. right. exists (Literal s). split; auto. cbn. eauto.
Qed.
Print Assumptions C78_part_refuted.

(** A table is open iff no line is in focus or its own is. *)
Theorem C78_open lines n : line_open lines n = true <-> lines = [] \/ In n lines.
Proof.
  destruct lines as [|l ls]; cbn [line_open].
  - tauto.
  - rewrite existsb_exists. split.
    + intros (m & I & E). apply Nat.eqb_eq in E. subst. auto.
    + intros [X|I]; [discriminate|]. exists n. split; auto. apply Nat.eqb_refl.
Qed.
Print Assumptions C78_open.

Example C78_witness : let rx := fun _ => None in
  in_focus rx (Some [Literal (lit "s")]) (lit "*this") = Some true /\ in_focus rx (Some [Literal (lit "s")]) (lit "v") = Some false /\
  in_focus rx (Some [Literal (lit "s"); Rx (lit "(")]) (lit "s") = None.
Proof. vm_compute. auto. Qed.

(** ** C79: what is shown belongs to the code *)

Section History.
  Context {Bd St Tr : Type} (analyse : doc -> list (option (output Bd St))) (execute : doc -> option Tr).

  (** An edit removes everything that is drawn in the code. *)
  Theorem C79_edit_clears p d p' : step analyse execute p (Edit d) = Some p' ->
    e_doc (p_ed p') = d /\ e_marks (p_ed p') = [] /\ e_steps (p_ed p') = [] /\ e_boundaries (p_ed p') = [].
  Proof. intros H. injection H as <-. cbn. auto. Qed.

  Lemma current_empty d e : e_doc e = d -> e_marks e = [] -> e_steps e = [] -> e_boundaries e = [] -> Current (Tr := Tr) analyse e.
  Proof. intros _ M S B. unfold Current. rewrite M, S, B. split; [|split]; intros ? ? []. Qed.

  Lemma answer_current p d c p' : p_wait p = Some (d, c) -> d = e_doc (p_ed p) -> Current analyse (p_ed p) ->
    step analyse execute p (Answer true) = Some p' -> Current analyse (p_ed p') /\ e_doc (p_ed p') = e_doc (p_ed p) /\ p_wait p' = None.
  Proof.
    intros W -> C H. cbn [step] in H. rewrite W in H.
    destruct (render_operation (p_ed p) (Analysis (analyse (e_doc (p_ed p)))) c) as [e done] eqn:R. injection H as <-. cbn [p_ed p_wait].
    unfold render_operation in R. destruct (e_alive (p_ed p)) eqn:AL; cbn [negb] in R.
    - cbn [e_doc set_fail] in R. destruct (make_decorations (e_doc (p_ed p)) _) as [ds|] eqn:M.
      + destruct (render_permissions (set_decos (set_fail (p_ed p) (c_fail c)) ds) c) as [e2|] eqn:R2; injection R as <- <-.
        * assert (X := render_permissions_shows (set_decos (set_fail (p_ed p) (c_fail c)) ds) c ds e2 eq_refl R2). destruct X as (X1 & X2 & _). cbn in X1, X2.
          assert (C2 : Current analyse e2) by (refine (current_of analyse (set_decos (set_fail (p_ed p) (c_fail c)) ds) c ds e2 M eq_refl R2)).
          destruct (render_permissions e2 c) as [e3|] eqn:R3; [|auto].
          assert (X := render_permissions_shows _ c ds e3 X2 R3). destruct X as (Y1 & _). split; [|split; auto; congruence].
          eapply (current_of analyse e2 c ds); auto. rewrite X1. exact M.
        * split; [|auto]. eapply current_same; [| | | |exact C]; reflexivity.
      + injection R as <- <-. split; [|auto]. eapply current_same; [| | | |exact C]; reflexivity.
    - injection R as <- <-. split; [|auto]. eapply current_same; [| | | |exact C]; reflexivity.
  Qed.

  Lemma run_current evs : forall p waiting,
    (waiting = true <-> p_wait p <> None) -> (forall d c, p_wait p = Some (d, c) -> d = e_doc (p_ed p)) -> Current analyse (p_ed p) ->
    orderly waiting evs -> forall p', run analyse execute p evs = Some p' -> Current analyse (p_ed p').
  Proof.
    induction evs as [|ev evs IH]; intros p waiting W D C O p' H; cbn [run] in H.
    - injection H as <-. auto.
    - destruct (step analyse execute p ev) as [p1|] eqn:St1; try discriminate.
      destruct ev as [d|c|ok| |c|ok|]; cbn [orderly] in O.
      + destruct O as [-> O]. injection St1 as <-. refine (IH _ false _ _ _ O p' H); cbn [p_wait p_ed]; [exact W| |].
        * intros d' c' E. exfalso. destruct W as [_ W]. assert (false = true) by (apply W; congruence). discriminate.
        * eapply current_empty; reflexivity.
      + cbn [step] in St1. destruct (p_wait p) eqn:E; try discriminate. injection St1 as <-. refine (IH _ true _ _ _ O p' H); cbn [p_wait p_ed]; [| |exact C].
        * split; auto. discriminate.
        * intros d' c' Q. congruence.
      + destruct O as [-> O]. assert (X : exists d c, p_wait p = Some (d, c)).
        { cbn [step] in St1. destruct (p_wait p) as [[d c]|]; [eauto|discriminate]. }
        destruct X as (d & c & E). destruct (answer_current p d c p1 E (D d c E) C St1) as (C1 & E1 & W1).
        refine (IH _ false _ _ C1 O p' H).
        * rewrite W1. split; [discriminate|congruence].
        * intros d' c' Q. congruence.
      + cbn [step] in St1. destruct (p_wait p) as [[d c]|] eqn:E; try discriminate. injection St1 as <-. refine (IH _ false _ _ _ O p' H); cbn [p_wait p_ed]; [| |exact C].
        * split; [discriminate|congruence].
        * discriminate.
      + cbn [step] in St1. destruct (p_run p); try discriminate. injection St1 as <-. exact (IH (Page _ _ _) waiting W D C O p' H).
      + cbn [step] in St1. destruct (p_run p) as [[d c]|]; try discriminate. injection St1 as <-.
        set (e' := if ok then _ else _) in *. assert (E : e_doc e' = e_doc (p_ed p) /\ e_marks e' = e_marks (p_ed p) /\ e_steps e' = e_steps (p_ed p) /\ e_boundaries e' = e_boundaries (p_ed p)).
        { subst e'. destruct ok; auto. unfold render_operation. destruct (e_alive (p_ed p)); cbn [negb]; [|auto]. destruct (execute d); auto. }
        destruct E as (E1 & E2 & E3 & E4). refine (IH (Page _ _ _) waiting W _ _ O p' H); cbn [p_ed p_wait].
        * intros d' c' Q. rewrite E1. eauto.
        * eapply current_same; eauto.
      + cbn [step] in St1. destruct (p_run p); try discriminate. injection St1 as <-. exact (IH (Page _ _ _) waiting W D C O p' H).
  Qed.

  (** Whatever happens, if there is no edit between a request and its answer and no
      analysis fails, what is drawn in the code belongs to it. *)
  Theorem C79_current_partial d evs p : orderly false evs -> run analyse execute (start d) evs = Some p -> Current analyse (p_ed p).
  Proof.
    intros O H. eapply (run_current evs (start d) false); eauto; cbn.
    - split; [discriminate|congruence].
    - discriminate.
    - eapply current_empty; reflexivity.
  Qed.

  (** An edit while waiting: the answer for the old code is drawn into the new. *)
  Theorem C79_late_answer_refuted d d' c ds ms :
    make_decorations d' (oks (analyse d)) = Some ds -> all_marks d' (d_facts ds) = Some ms ->
    exists p, run analyse execute (start d) [Ask c; Edit d'; Answer true] = Some p /\ e_doc (p_ed p) = d' /\
      e_steps (p_ed p) = (if c_stepper c then d_steps ds else []) /\ e_boundaries (p_ed p) = (if c_boundaries c then d_boundaries ds else []) /\ e_marks (p_ed p) = ms.
  Proof.
    intros M A. unfold run, step, start. cbn -[all_marks make_decorations]. unfold render_operation. cbn -[all_marks make_decorations]. rewrite M.
    unfold render_permissions. cbn -[all_marks]. rewrite A. cbn -[all_marks]. rewrite A.
    eexists. split; [reflexivity|]. cbn. auto.
  Qed.

  (** An analysis that fails after an edit: what was computed for the old code is
      drawn into the new. *)
  Theorem C79_failed_answer_refuted d d' c c' ds ms ms' :
    make_decorations d (oks (analyse d)) = Some ds -> all_marks d (d_facts ds) = Some ms -> all_marks d' (d_facts ds) = Some ms' ->
    exists p, run analyse execute (start d) [Ask c; Answer true; Edit d'; Ask c'; Answer false] = Some p /\ e_doc (p_ed p) = d' /\
      e_steps (p_ed p) = (if c_stepper c' then d_steps ds else []) /\ e_boundaries (p_ed p) = (if c_boundaries c' then d_boundaries ds else []) /\ e_marks (p_ed p) = ms'.
  Proof.
    intros M A A'. unfold run, step, start. cbn -[all_marks make_decorations]. unfold render_operation. cbn -[all_marks make_decorations]. rewrite M.
    unfold render_permissions. cbn -[all_marks]. rewrite A. cbn -[all_marks]. rewrite A. cbn -[all_marks]. rewrite A'.
    eexists. split; [reflexivity|]. cbn. auto.
  Qed.

  (** The diagrams of an execution stay whatever is done to the code, until another
      execution succeeds. *)
  Theorem C79_diagrams_refuted p ev p' t : step analyse execute p ev = Some p' -> e_trace (p_ed p) = Some t ->
    (forall ok, ev <> AnswerRun ok) -> e_trace (p_ed p') = Some t.
  Proof.
    intros H T N. assert (RP : forall (e : editor Bd St Tr) c e2, render_permissions e c = Some e2 -> e_trace e2 = e_trace e).
    { intros e c e2. unfold render_permissions. destruct (e_decos e) as [ds|]; [destruct (all_marks _ _); try discriminate|]; intros Q; injection Q as <-; auto. }
    destruct ev as [d|c|ok| |c|ok|]; cbn [step] in H.
    - injection H as <-. auto.
    - destruct (p_wait p); try discriminate. injection H as <-. auto.
    - destruct (p_wait p) as [[d c]|]; try discriminate.
      assert (X : e_trace (fst (if ok then render_operation (p_ed p) (Analysis (analyse d)) c else (p_ed p, true))) = Some t).
      { destruct ok; auto. unfold render_operation. destruct (e_alive (p_ed p)); cbn [negb fst]; auto. destruct (make_decorations _ _); auto.
        destruct (render_permissions _ c) eqn:R; cbn [fst]; auto. apply RP in R. rewrite R. auto. }
      destruct (if ok then _ else _) as [e done]. injection H as <-. cbn [p_ed fst] in *. destruct done; auto.
      destruct (render_permissions e c) eqn:R; auto. apply RP in R. congruence.
    - destruct (p_wait p); try discriminate. injection H as <-. auto.
    - destruct (p_run p); try discriminate. injection H as <-. auto.
    - exfalso. eapply N; eauto.
    - destruct (p_run p); try discriminate. injection H as <-. auto.
  Qed.

  (** ** C80: the sign that the code does not compile *)

  (** Which answer an event brings, if one. *)
  Definition brings (p : page Bd St Tr) (ev : event) : option cfg :=
    match ev with
    | Answer true => option_map snd (p_wait p)
    | AnswerRun true => option_map snd (p_run p)
    | _ => None
    end.

  (** The sign appears with the first result of code that should fail. *)
  Theorem C80_sign p ev p' : step analyse execute p ev = Some p' ->
    e_fail (p_ed p') = e_fail (p_ed p) || match brings p ev with Some c => c_fail c | None => false end.
  Proof.
    intros H. assert (RP : forall (e : editor Bd St Tr) c e2, render_permissions e c = Some e2 -> e_fail e2 = e_fail e).
    { intros e c e2. unfold render_permissions. destruct (e_decos e) as [ds|]; [destruct (all_marks _ _); try discriminate|]; intros Q; injection Q as <-; auto. }
    assert (RO : forall (e : editor Bd St Tr) r c, e_fail (fst (render_operation e r c)) = e_fail e || c_fail c).
    { intros e r c. unfold render_operation. destruct (e_alive e); cbn [negb fst]; auto. destruct r as [bodies|[t|]]; auto.
      destruct (make_decorations _ _); auto. destruct (render_permissions _ c) eqn:R; cbn [fst]; auto. apply RP in R. rewrite R. auto. }
    destruct ev as [d|c|ok| |c|ok|]; cbn [step brings] in *.
    - injection H as <-. cbn. rewrite orb_false_r. auto.
    - destruct (p_wait p); try discriminate. injection H as <-. cbn. rewrite orb_false_r. auto.
    - destruct (p_wait p) as [[d c]|]; try discriminate. destruct ok.
      + pose proof (RO (p_ed p) (Analysis (analyse d)) c) as X. destruct (render_operation (p_ed p) (Analysis (analyse d)) c) as [e done]. injection H as <-. cbn [p_ed fst option_map snd] in *.
        destruct done; auto. destruct (render_permissions e c) eqn:R; auto. apply RP in R. congruence.
      + injection H as <-. cbn [p_ed]. rewrite orb_false_r. destruct (render_permissions (p_ed p) c) eqn:R; auto. apply RP in R. auto.
    - destruct (p_wait p); try discriminate. injection H as <-. cbn. rewrite orb_false_r. auto.
    - destruct (p_run p); try discriminate. injection H as <-. cbn. rewrite orb_false_r. auto.
    - destruct (p_run p) as [[d c]|]; try discriminate. injection H as <-. cbn [p_ed option_map snd]. destruct ok; [apply RO|]. rewrite orb_false_r. auto.
    - destruct (p_run p); try discriminate. injection H as <-. cbn. rewrite orb_false_r. auto.
  Qed.

  (** It is there iff some answer to code that should fail has come. *)
  Theorem C80_sign_iff d evs p : run analyse execute (start d) evs = Some p ->
    (e_fail (p_ed p) = true <-> exists evs1 ev evs2 p1 c, evs = evs1 ++ ev :: evs2 /\ run analyse execute (start d) evs1 = Some p1 /\
       brings p1 ev = Some c /\ c_fail c = true).
  Proof.
    assert (RA : forall l1 l2 q, run analyse execute q (l1 ++ l2) = match run analyse execute q l1 with Some q' => run analyse execute q' l2 | None => None end).
    { induction l1 as [|x l1 IH]; intros l2 q; cbn [app run]; auto. destruct (step analyse execute q x); auto. }
    revert p. induction evs as [|ev evs IH] using rev_ind; intros p H.
    - injection H as <-. split; [discriminate|]. intros (evs1 & ev & evs2 & p1 & c & E & _). destruct evs1; discriminate.
    - rewrite RA in H. destruct (run analyse execute (start d) evs) as [p0|] eqn:R; [|discriminate]. cbn [run] in H.
      destruct (step analyse execute p0 ev) as [p'|] eqn:Ev; [|discriminate]. injection H as <-.
      rewrite (C80_sign _ _ _ Ev), orb_true_iff, (IH p0 eq_refl). split.
      + intros [(evs1 & ev1 & evs2 & p1 & c & E & R1 & B & F)|B].
        * exists evs1, ev1, (evs2 ++ [ev]), p1, c. rewrite E, <- app_assoc. auto.
        * destruct (brings p0 ev) as [c|] eqn:B0; [|discriminate]. exists evs, ev, [], p0, c. auto.
      + intros (evs1 & ev1 & evs2 & p1 & c & E & R1 & B & F). destruct evs2 as [|x evs2 _] using rev_ind.
        * apply app_inj_tail in E as [-> ->]. right. rewrite R in R1. injection R1 as <-. rewrite B. auto.
        * left. exists evs1, ev1, evs2, p1, c. rewrite app_comm_cons, app_assoc in E. apply app_inj_tail in E as [-> _]. auto.
  Qed.

  (** It is never removed, whatever code comes later. *)
  Theorem C80_stays_refuted evs : forall p p', e_fail (p_ed p) = true -> run analyse execute p evs = Some p' -> e_fail (p_ed p') = true.
  Proof.
    induction evs as [|ev evs IH]; intros p p' F H; cbn [run] in H.
    - injection H as <-. auto.
    - destruct (step analyse execute p ev) as [p1|] eqn:E; try discriminate. apply (IH p1 p'); auto. rewrite (C80_sign _ _ _ E), F. auto.
  Qed.
End History.
Print Assumptions C79_edit_clears.
Print Assumptions C79_current_partial.
Print Assumptions C79_late_answer_refuted.
Print Assumptions C79_failed_answer_refuted.
Print Assumptions C79_diagrams_refuted.
Print Assumptions C80_sign.
Print Assumptions C80_sign_iff.
Print Assumptions C80_stays_refuted.

Module Demo79.
  Definition old : doc := [[1; 1; 1]; [1; 1]].
  Definition new : doc := [[1]; [1; 1; 1]].
  Definition out (k : nat) : output nat nat := Output (Facts [] [] [] []) [(Pos 0 1, k)] [(Pos 1 2, k)].
  Definition analyse (d : doc) : list (option (output nat nat)) := [Some (out (length (hd [] d)))].
  Definition both := Cfg true true false false.
  Example C79_witness : exists p, run analyse (fun _ => Some 5) (start old) [Ask both; AskRun no_cfg; Answer true; Edit new; AnswerRun true; Ask both; Answer true] = Some p /\
    e_steps (p_ed p) = [(4, 1)] /\ e_trace (p_ed p) = Some 5.
  Proof. eexists. split; [vm_compute; reflexivity|]. auto. Qed.
  Example C79_witness_late : exists p, run analyse (fun _ => Some 5) (start old) [Ask both; Edit new; Answer true] = Some p /\
    e_steps (p_ed p) = [(4, 3)] /\ ~ Current analyse (p_ed p).
  Proof.
    eexists. split; [vm_compute; reflexivity|]. split; auto. intros (C & _). destruct (C 4 3) as (o & p & I & J & _); [cbn; auto|].
    cbn in I. destruct I as [I|[]]. injection I as <-. cbn in J. destruct J as [J|[]]. discriminate.
  Qed.
  Example C79_witness_failed : exists p, run analyse (fun _ => Some 5) (start old) [Ask both; Answer true; Edit new; Ask both; Answer false] = Some p /\
    e_steps (p_ed p) = [(6, 3)] /\ doc_length (e_doc (p_ed p)) = 5.
  Proof. eexists. split; [vm_compute; reflexivity|]. auto. Qed.
  Example C80_witness : exists p, run analyse (fun _ => Some 5) (start old) [AskRun (Cfg false false false true); AnswerRun true; Edit new; AskRun no_cfg; AnswerRun true] = Some p /\
    e_fail (p_ed p) = true.
  Proof. eexists. split; [vm_compute; reflexivity|]. auto. Qed.
End Demo79.

(** ** C104: answers and requests *)

Section Requests.
  Context {Bd St Tr : Type} (analyse : doc -> list (option (output Bd St))) (execute : doc -> option Tr).
  Notation run := (run analyse execute).
  Notation step := (step analyse execute).

  Lemma run_snoc q evs ev : run q (evs ++ [ev]) = match run q evs with Some p => step p ev | None => None end.
  Proof.
    revert q. induction evs as [|x evs IH]; intros q; cbn [app EditorModel.run].
    - destruct (step q ev); auto.
    - destruct (step q x); auto.
  Qed.

  (** No step but an edit changes the text. *)
  Lemma render_permissions_keeps (e : editor Bd St Tr) c e2 : render_permissions e c = Some e2 ->
    e_doc e2 = e_doc e /\ e_decos e2 = e_decos e /\ e_trace e2 = e_trace e /\ e_alive e2 = e_alive e.
  Proof.
    unfold render_permissions. destruct (e_decos e) as [ds|] eqn:D; [destruct (all_marks _ _); try discriminate|]; intros Q; injection Q as <-; auto.
  Qed.
  Lemma render_analysis_keeps (e : editor Bd St Tr) bodies c :
    let e2 := fst (render_operation e (Analysis bodies) c) in
    e_doc e2 = e_doc e /\ e_trace e2 = e_trace e /\ e_alive e2 = e_alive e /\
    (e_decos e2 = e_decos e \/ exists ds, make_decorations (e_doc e) (oks bodies) = Some ds /\ e_decos e2 = Some ds).
  Proof.
    cbv zeta. unfold render_operation. destruct (e_alive e) eqn:A; cbn [negb fst]; [|cbn; auto]. cbn [e_doc set_fail].
    destruct (make_decorations (e_doc e) (oks bodies)) as [ds|] eqn:M; cbn [fst]; [|cbn; auto].
    destruct (render_permissions _ c) as [e2|] eqn:R; cbn [fst].
    - apply render_permissions_keeps in R. cbn in R. destruct R as (R1 & R2 & R3 & R4). split; [|split; [|split]]; try congruence. right. eauto.
    - cbn. split; [|split; [|split]]; auto. right. eauto.
  Qed.
  Lemma render_execution_keeps (e : editor Bd St Tr) r c :
    let e2 := fst (render_operation e (Execution r) c) in e_doc e2 = e_doc e /\ e_decos e2 = e_decos e /\
    e_trace e2 = (if e_alive e then match r with Some t => Some t | None => e_trace e end else e_trace e) /\
    e_alive e2 = (if e_alive e then match r with Some _ => negb (c_hide c) | None => true end else false).
  Proof.
    cbv zeta. unfold render_operation. destruct (e_alive e) eqn:A; cbn [negb fst]; [|cbn; auto].
    destruct r; cbn; auto. destruct (c_hide c); cbn; auto.
  Qed.

  (** What a step does with the requests and the text. *)
  Lemma step_text p ev p' : step p ev = Some p' ->
    e_doc (p_ed p') = match ev with Edit d => d | _ => e_doc (p_ed p) end /\
    p_wait p' = match ev with Ask c => Some (e_doc (p_ed p), c) | Answer _ | Lost => None | _ => p_wait p end /\
    p_run p' = match ev with AskRun c => Some (e_doc (p_ed p), c) | AnswerRun _ | LostRun => None | _ => p_run p end.
  Proof.
    destruct ev as [d|c|ok| |c|ok|]; cbn [EditorModel.step]; intros H.
    - injection H as <-. cbn. auto.
    - destruct (p_wait p) eqn:W; try discriminate. injection H as <-. cbn. auto.
    - destruct (p_wait p) as [[d c]|] eqn:W; try discriminate.
      destruct ok.
      + pose proof (render_analysis_keeps (p_ed p) (analyse d) c) as K. cbv zeta in K.
        destruct (render_operation (p_ed p) (Analysis (analyse d)) c) as [e done]. injection H as <-. cbn [p_ed p_wait p_run fst] in *.
        split; [|auto]. destruct done; [|tauto]. destruct (render_permissions e c) eqn:R; [|tauto]. apply render_permissions_keeps in R. destruct K, R. congruence.
      + injection H as <-. cbn [p_ed p_wait p_run fst] in *. split; [|auto]. destruct (render_permissions (p_ed p) c) eqn:R; [|auto]. apply render_permissions_keeps in R. tauto.
    - destruct (p_wait p) eqn:W; try discriminate. injection H as <-. cbn. auto.
    - destruct (p_run p) eqn:W; try discriminate. injection H as <-. cbn. auto.
    - destruct (p_run p) as [[d c]|] eqn:W; try discriminate. injection H as <-. cbn [p_ed p_wait p_run]. split; [|auto].
      destruct ok; auto. apply (render_execution_keeps (p_ed p) (execute d) c).
    - destruct (p_run p) eqn:W; try discriminate. injection H as <-. cbn. auto.
  Qed.

  Lemma text_snoc d0 evs ev d : TextAfter d0 (evs ++ [ev]) d <-> match ev with Edit d' => d = d' | _ => TextAfter d0 evs d end.
  Proof.
    unfold TextAfter. assert (K : (forall d', ev <> Edit d') -> (exists pre post, evs ++ [ev] = pre ++ Edit d :: post /\ forall d', ~ In (Edit d') post) \/
        d = d0 /\ (forall d', ~ In (Edit d') (evs ++ [ev])) <->
        (exists pre post, evs = pre ++ Edit d :: post /\ forall d', ~ In (Edit d') post) \/ d = d0 /\ (forall d', ~ In (Edit d') evs)).
    { intros NE. split.
      - intros [(pre & post & E & N)|[-> N]].
        + left. destruct post as [|x post _] using rev_ind.
          * apply app_inj_tail in E as [_ E]. elim (NE _ E).
          * rewrite app_comm_cons, app_assoc in E. apply app_inj_tail in E as [-> _]. exists pre, post. split; auto.
            intros d' I. apply (N d'). apply in_or_app. auto.
        + right. split; auto. intros d' I. apply (N d'). apply in_or_app. auto.
      - intros [(pre & post & -> & N)|[-> N]].
        + left. exists pre, (post ++ [ev]). split; [rewrite <- app_assoc; reflexivity|]. intros d' I.
          apply in_app_or in I as [I|[I|[]]]; [apply (N d' I)|apply (NE d' I)].
        + right. split; auto. intros d' I. apply in_app_or in I as [I|[I|[]]]; [apply (N d' I)|apply (NE d' I)]. }
    destruct ev as [d'|c|ok| |c|ok|]; try (apply K; discriminate). split.
    - intros [(pre & post & E & N)|[_ N]].
      + destruct post as [|x post _] using rev_ind.
        * apply app_inj_tail in E as [_ E]. congruence.
        * rewrite app_comm_cons, app_assoc in E. apply app_inj_tail in E as [_ <-]. elim (N d'). apply in_or_app. right. cbn. auto.
      + elim (N d'). apply in_or_app. right. cbn. auto.
    - intros ->. left. exists evs, []. split; [reflexivity|]. intros x [].
  Qed.

  (** An occurrence in a longer history. *)
  Lemma open_snoc (X : Type) (l : list X) (y a : X) (P : X -> Prop) (Q : list X -> Prop) : ~ P a ->
    (exists pre post, l ++ [y] = pre ++ a :: post /\ Q pre /\ forall x, In x post -> ~ P x) <->
    (y = a /\ Q l) \/ (~ P y /\ exists pre post, l = pre ++ a :: post /\ Q pre /\ forall x, In x post -> ~ P x).
  Proof.
    intros NA. split.
    - intros (pre & post & E & q & N). destruct post as [|x post _] using rev_ind.
      + apply app_inj_tail in E as [-> ->]. auto.
      + rewrite app_comm_cons, app_assoc in E. apply app_inj_tail in E as [-> ->]. right. split.
        * apply N. apply in_or_app. right. cbn. auto.
        * exists pre, post. split; auto. split; auto. intros z I. apply N. apply in_or_app. auto.
    - intros [[-> q]|[Ny (pre & post & -> & q & N)]].
      + exists l, []. split; [auto|]. split; [auto|]. intros x [].
      + exists pre, (post ++ [y]). split; [rewrite <- app_assoc; reflexivity|]. split; auto.
        intros x I. apply in_app_or in I as [I|[<-|[]]]; auto.
  Qed.

  Definition ends_wait (ev : event) : Prop := match ev with Answer _ | Lost => True | _ => False end.
  Definition ends_run (ev : event) : Prop := match ev with AnswerRun _ | LostRun => True | _ => False end.
  Lemma under_way_alt d0 evs d c : UnderWay d0 evs d c <->
    exists pre post, evs = pre ++ Ask c :: post /\ TextAfter d0 pre d /\ forall x, In x post -> ~ ends_wait x.
  Proof.
    unfold UnderWay. split; intros (pre & post & E & T & N); exists pre, post; (split; [exact E|split; [exact T|]]).
    - destruct N as [N1 N2]. intros [d'|c'|ok| |c'|ok|] I; cbn; try tauto; intros _; apply (N1 ok I).
    - split; [intros ok I|intros I]; exact (N _ I Logic.I).
  Qed.
  Lemma under_way_run_alt d0 evs d c : UnderWayRun d0 evs d c <->
    exists pre post, evs = pre ++ AskRun c :: post /\ TextAfter d0 pre d /\ forall x, In x post -> ~ ends_run x.
  Proof.
    unfold UnderWayRun. split; intros (pre & post & E & T & N); exists pre, post; (split; [exact E|split; [exact T|]]).
    - destruct N as [N1 N2]. intros [d'|c'|ok| |c'|ok|] I; cbn; try tauto; intros _; apply (N1 ok I).
    - split; [intros ok I|intros I]; exact (N _ I Logic.I).
  Qed.

  Lemma requests_inv d0 evs : forall p, run (start d0) evs = Some p ->
    (forall d, TextAfter d0 evs d <-> d = e_doc (p_ed p)) /\
    (forall d c, UnderWay d0 evs d c <-> p_wait p = Some (d, c)) /\
    (forall d c, UnderWayRun d0 evs d c <-> p_run p = Some (d, c)).
  Proof.
    induction evs as [|ev evs IH] using rev_ind; intros p H.
    - injection H as <-. cbn. split; [|split].
      + intros d. split.
        * intros [(pre & post & E & _)|[-> _]]; auto. destruct pre; discriminate.
        * intros ->. right. auto.
      + intros d c. split; [|discriminate]. intros (pre & post & E & _). destruct pre; discriminate.
      + intros d c. split; [|discriminate]. intros (pre & post & E & _). destruct pre; discriminate.
    - rewrite run_snoc in H. destruct (run (start d0) evs) as [q|]; [|discriminate].
      destruct (IH q eq_refl) as (T & W & R). pose proof (step_text q ev p H) as (S1 & S2 & S3).
      split; [|split].
      + intros d. rewrite text_snoc, S1. destruct ev; [tauto|apply T..].
      + intros d c. rewrite under_way_alt, open_snoc by (cbn; auto). rewrite <- under_way_alt, W, T, S2.
        destruct ev as [d'|c'|ok| |c'|ok|]; cbn [ends_wait]; split.
        all: try (intros [[E _]|[N E]]; [congruence|tauto]). all: try (intros E; discriminate). all: try (intros E; right; tauto).
        * intros [[E ->]|[_ E]]; [congruence|]. cbn [EditorModel.step] in H. rewrite E in H. discriminate.
        * intros E. left. injection E as <- <-. auto.
      + intros d c. rewrite under_way_run_alt, open_snoc by (cbn; auto). rewrite <- under_way_run_alt, R, T, S3.
        destruct ev as [d'|c'|ok| |c'|ok|]; cbn [ends_run]; split.
        all: try (intros [[E _]|[N E]]; [congruence|tauto]). all: try (intros E; discriminate). all: try (intros E; right; tauto).
        * intros [[E ->]|[_ E]]; [congruence|]. cbn [EditorModel.step] in H. rewrite E in H. discriminate.
        * intros E. left. injection E as <- <-. auto.
  Qed.

  (** A button can be pressed exactly when no request of it is under way, and an answer comes
      exactly to a request that is. *)
  Theorem C104_buttons d0 evs p : run (start d0) evs = Some p ->
    (forall c, run (start d0) (evs ++ [Ask c]) <> None <-> forall d c', ~ UnderWay d0 evs d c') /\
    (forall c, run (start d0) (evs ++ [AskRun c]) <> None <-> forall d c', ~ UnderWayRun d0 evs d c') /\
    (forall ok, run (start d0) (evs ++ [Answer ok]) <> None <-> exists d c, UnderWay d0 evs d c) /\
    (forall ok, run (start d0) (evs ++ [AnswerRun ok]) <> None <-> exists d c, UnderWayRun d0 evs d c) /\
    (run (start d0) (evs ++ [Lost]) <> None <-> exists d c, UnderWay d0 evs d c) /\
    (run (start d0) (evs ++ [LostRun]) <> None <-> exists d c, UnderWayRun d0 evs d c).
  Proof.
    intros H. destruct (requests_inv d0 evs p H) as (_ & W & R).
    assert (A : (exists d c, UnderWay d0 evs d c) <-> p_wait p <> None).
    { split; [intros (d & c & U); apply W in U; congruence|]. destruct (p_wait p) as [[d c]|] eqn:E; [intros _|congruence]. exists d, c. apply W. auto. }
    assert (B : (exists d c, UnderWayRun d0 evs d c) <-> p_run p <> None).
    { split; [intros (d & c & U); apply R in U; congruence|]. destruct (p_run p) as [[d c]|] eqn:E; [intros _|congruence]. exists d, c. apply R. auto. }
    assert (A' : (forall d c, ~ UnderWay d0 evs d c) <-> p_wait p = None).
    { split; [|intros E d c U; apply W in U; congruence]. intros N. destruct (p_wait p) as [[d c]|] eqn:E; auto. elim (N d c). apply W. auto. }
    assert (B' : (forall d c, ~ UnderWayRun d0 evs d c) <-> p_run p = None).
    { split; [|intros E d c U; apply R in U; congruence]. intros N. destruct (p_run p) as [[d c]|] eqn:E; auto. elim (N d c). apply R. auto. }
    split; [|split; [|split; [|split; [|split]]]]; intros; rewrite run_snoc, H; cbn [EditorModel.step].
    - rewrite A'. destruct (p_wait p); split; congruence.
    - rewrite B'. destruct (p_run p); split; congruence.
    - rewrite A. destruct (p_wait p) as [[d c]|]; [|split; congruence]. destruct (if ok then _ else _). split; congruence.
    - rewrite B. destruct (p_run p) as [[d c]|]; split; congruence.
    - rewrite A. destruct (p_wait p) as [[d c]|]; split; congruence.
    - rewrite B. destruct (p_run p) as [[d c]|]; split; congruence.
  Qed.

  (** The diagrams that are shown are of the text that was in the editor when the run was asked
      for, in the last run that has any, unless an earlier one has hidden the code. *)
  Theorem C104_diagrams d0 evs p : run (start d0) evs = Some p -> forall t,
    (e_trace (p_ed p) = Some t -> exists pre post d c, evs = pre ++ AnswerRun true :: post /\ UnderWayRun d0 pre d c /\ execute d = Some t) /\
    (forall pre post d c, evs = pre ++ AnswerRun true :: post -> UnderWayRun d0 pre d c -> execute d = Some t ->
       (forall c', In (AskRun c') evs -> c_hide c' = false) ->
       (forall pre' post' d' c', evs = pre' ++ AnswerRun true :: post' -> length pre < length pre' -> UnderWayRun d0 pre' d' c' -> execute d' = None) ->
       e_trace (p_ed p) = Some t).
  Proof.
    revert p. induction evs as [|ev evs IH] using rev_ind; intros p H t.
    - injection H as <-. split; [discriminate|]. intros pre post d c E. destruct pre; discriminate.
    - rewrite run_snoc in H. destruct (run (start d0) evs) as [q|] eqn:Q; [|discriminate].
      destruct (IH q eq_refl t) as [I1 I2]. destruct (requests_inv d0 evs q Q) as (_ & _ & R).
      assert (Keep : (forall d c, UnderWayRun d0 evs d c -> ev = AnswerRun true -> e_alive (p_ed q) = true -> execute d = None) ->
                     e_trace (p_ed p) = e_trace (p_ed q)).
      { intros N. destruct ev as [d|c|ok| |c|ok|]; cbn [EditorModel.step] in H.
        - injection H as <-. auto.
        - destruct (p_wait q); try discriminate. injection H as <-. auto.
        - destruct (p_wait q) as [[d c]|]; try discriminate. destruct ok.
          + pose proof (render_analysis_keeps (p_ed q) (analyse d) c) as K. cbv zeta in K.
            destruct (render_operation (p_ed q) (Analysis (analyse d)) c) as [e done]. injection H as <-. cbn [p_ed fst] in *.
            destruct done; [|tauto]. destruct (render_permissions e c) eqn:E; [|tauto]. apply render_permissions_keeps in E. destruct K as (_ & K & _). destruct E as (_ & _ & E & _). congruence.
          + injection H as <-. cbn [p_ed]. destruct (render_permissions (p_ed q) c) eqn:E; [|auto]. apply render_permissions_keeps in E. tauto.
        - destruct (p_wait q); try discriminate. injection H as <-. auto.
        - destruct (p_run q); try discriminate. injection H as <-. auto.
        - destruct (p_run q) as [[d c]|] eqn:P; try discriminate. injection H as <-. cbn [p_ed]. destruct ok; auto.
          destruct (render_execution_keeps (p_ed q) (execute d) c) as (_ & _ & K & _). cbv zeta in K. rewrite K.
          destruct (e_alive (p_ed q)); auto. rewrite (N d c); auto. apply R. auto.
        - destruct (p_run q); try discriminate. injection H as <-. auto. }
      assert (Alive : (forall c', In (AskRun c') (evs ++ [ev]) -> c_hide c' = false) -> e_alive (p_ed q) = true).
      { intros NH. assert (NH' : forall c', In (AskRun c') evs -> c_hide c' = false) by (intros c' I; apply NH; apply in_or_app; auto).
        clear - Q NH'. revert q Q NH'. induction evs as [|x evs IHe] using rev_ind; intros q Q NH'.
        - injection Q as <-. auto.
        - rewrite run_snoc in Q. destruct (run (start d0) evs) as [q0|] eqn:Q0; [|discriminate].
          assert (A : e_alive (p_ed q0) = true) by (apply IHe; auto; intros c' I; apply NH'; apply in_or_app; auto).
          destruct (requests_inv d0 evs q0 Q0) as (_ & _ & R0).
          destruct x as [d|c|ok| |c|ok|]; cbn [EditorModel.step] in Q.
          + injection Q as <-. auto.
          + destruct (p_wait q0); try discriminate. injection Q as <-. auto.
          + destruct (p_wait q0) as [[d c]|]; try discriminate. destruct ok.
            * pose proof (render_analysis_keeps (p_ed q0) (analyse d) c) as K. cbv zeta in K.
              destruct (render_operation (p_ed q0) (Analysis (analyse d)) c) as [e done]. injection Q as <-. cbn [p_ed fst] in *.
              destruct K as (_ & _ & K & _). destruct done; [|congruence]. destruct (render_permissions e c) eqn:E; [|congruence]. apply render_permissions_keeps in E. destruct E as (_ & _ & _ & E). congruence.
            * injection Q as <-. cbn [p_ed]. destruct (render_permissions (p_ed q0) c) eqn:E; [|auto]. apply render_permissions_keeps in E. destruct E as (_ & _ & _ & E). congruence.
          + destruct (p_wait q0); try discriminate. injection Q as <-. auto.
          + destruct (p_run q0); try discriminate. injection Q as <-. auto.
          + destruct (p_run q0) as [[d c]|] eqn:P; try discriminate. injection Q as <-. cbn [p_ed]. destruct ok; auto.
            destruct (render_execution_keeps (p_ed q0) (execute d) c) as (_ & _ & _ & K). cbv zeta in K. rewrite K, A.
            destruct (execute d); auto. rewrite NH'; auto. destruct (proj2 (R0 d c) eq_refl) as (pre & post & -> & _). apply in_or_app. left. apply in_or_app. right. cbn. auto.
          + destruct (p_run q0); try discriminate. injection Q as <-. auto. }
      assert (New : forall d c t', UnderWayRun d0 evs d c -> ev = AnswerRun true -> e_alive (p_ed q) = true -> execute d = Some t' -> e_trace (p_ed p) = Some t').
      { intros d c t' U -> A X. apply R in U. cbn [EditorModel.step] in H. rewrite U in H. injection H as <-. cbn [p_ed].
        destruct (render_execution_keeps (p_ed q) (execute d) c) as (_ & _ & K & _). cbv zeta in K. rewrite K, A, X. auto. }
      assert (Old : forall t', e_trace (p_ed q) = Some t' -> t' = t -> exists pre post d c, evs ++ [ev] = pre ++ AnswerRun true :: post /\ UnderWayRun d0 pre d c /\ execute d = Some t).
      { intros t' E ->. destruct (I1 E) as (pre & post & d & c & -> & U & X). exists pre, (post ++ [ev]), d, c. rewrite <- app_assoc. auto. }
      split.
      + intros E.
        assert (Cases : (exists d c t', UnderWayRun d0 evs d c /\ ev = AnswerRun true /\ e_alive (p_ed q) = true /\ execute d = Some t') \/
                        e_trace (p_ed p) = e_trace (p_ed q)).
        { destruct ev as [d|c|ok| |c|ok|]; try (right; apply Keep; discriminate). destruct ok; [|right; apply Keep; discriminate].
          cbn [EditorModel.step] in H. destruct (p_run q) as [[d c]|] eqn:P; [|discriminate].
          destruct (e_alive (p_ed q)) eqn:A; [|right; apply Keep; discriminate].
          destruct (execute d) as [t'|] eqn:X.
          - left. exists d, c, t'. split; [apply R; auto|auto].
          - right. apply Keep. intros d' c' U _ _. apply R in U. congruence. }
        destruct Cases as [(d & c & t' & U & -> & A & X)|K].
        * pose proof (New d c t' U eq_refl A X) as E'. exists evs, [], d, c. split; [reflexivity|]. split; [auto|congruence].
        * apply (Old t); congruence.
      + intros pre post d c E U X NH L. pose proof (Alive NH) as A.
        destruct post as [|y post _] using rev_ind.
        * apply app_inj_tail in E as [-> ->]. apply (New d c t); auto.
        * rewrite app_comm_cons, app_assoc in E. apply app_inj_tail in E as [E <-].
          rewrite Keep.
          -- apply (I2 pre post d c E U X).
             ++ intros c' I. apply NH. apply in_or_app. auto.
             ++ intros pre' post' d' c' E' Len U'. apply (L pre' (post' ++ [ev]) d' c'); auto. rewrite E', <- app_assoc. reflexivity.
          -- intros d' c' U' -> _. apply (L evs [] d' c'); auto. rewrite E, app_length. cbn. lia.
  Qed.

  (** What was computed last for the annotations comes from the text that was in the editor
      when the analysis was asked for, put at places of the text of when the answer came. *)
  Theorem C104_computed d0 evs p ds : run (start d0) evs = Some p -> e_decos (p_ed p) = Some ds ->
    exists pre post d c d', evs = pre ++ Answer true :: post /\ UnderWay d0 pre d c /\ TextAfter d0 pre d' /\
      make_decorations d' (oks (analyse d)) = Some ds.
  Proof.
    revert p. induction evs as [|ev evs IH] using rev_ind; intros p H E.
    - injection H as <-. discriminate.
    - rewrite run_snoc in H. destruct (run (start d0) evs) as [q|] eqn:Q; [|discriminate].
      destruct (requests_inv d0 evs q Q) as (T & W & _).
      assert (Old : e_decos (p_ed q) = Some ds -> exists pre post d c d', evs ++ [ev] = pre ++ Answer true :: post /\ UnderWay d0 pre d c /\ TextAfter d0 pre d' /\
        make_decorations d' (oks (analyse d)) = Some ds).
      { intros E'. destruct (IH q eq_refl E') as (pre & post & d & c & d' & -> & U & T' & M). exists pre, (post ++ [ev]), d, c, d'. rewrite <- app_assoc. auto. }
      destruct ev as [d|c|ok| |c|ok|]; cbn [EditorModel.step] in H.
      + injection H as <-. auto.
      + destruct (p_wait q); try discriminate. injection H as <-. auto.
      + destruct (p_wait q) as [[d c]|] eqn:P; try discriminate. destruct ok.
        * pose proof (render_analysis_keeps (p_ed q) (analyse d) c) as K. cbv zeta in K.
          destruct (render_operation (p_ed q) (Analysis (analyse d)) c) as [e done]. injection H as <-. cbn [p_ed fst] in *.
          assert (E' : e_decos e = Some ds).
          { destruct done; auto. destruct (render_permissions e c) eqn:R; auto. apply render_permissions_keeps in R. destruct R as (_ & R & _). congruence. }
          destruct K as (_ & _ & _ & [K|(ds' & M & K)]); [apply Old; congruence|].
          exists evs, [], d, c, (e_doc (p_ed q)). split; [reflexivity|]. split; [apply W; auto|]. split; [apply T; auto|congruence].
        * injection H as <-. cbn [p_ed] in E. apply Old. destruct (render_permissions (p_ed q) c) eqn:R; auto. apply render_permissions_keeps in R. destruct R as (_ & R & _). congruence.
      + destruct (p_wait q); try discriminate. injection H as <-. auto.
      + destruct (p_run q); try discriminate. injection H as <-. auto.
      + destruct (p_run q) as [[d c]|]; try discriminate. injection H as <-. cbn [p_ed] in E. apply Old. destruct ok; auto.
        destruct (render_execution_keeps (p_ed q) (execute d) c) as (_ & K & _). cbv zeta in K. congruence.
      + destruct (p_run q); try discriminate. injection H as <-. auto.
  Qed.
End Requests.
Print Assumptions C104_buttons.
Print Assumptions C104_diagrams.
Print Assumptions C104_computed.

(** An edit while the run is under way: the diagrams are of the old text, and the permissions
    button can be pressed while the other waits. *)
Example C104_witness : exists p, run Demo79.analyse (fun d => Some (length (hd [] d))) (start Demo79.old)
    [AskRun no_cfg; Edit Demo79.new; Ask Demo79.both; AnswerRun true] = Some p /\
  e_trace (p_ed p) = Some 3 /\
  UnderWay Demo79.old [AskRun no_cfg; Edit Demo79.new; Ask Demo79.both; AnswerRun true] Demo79.new Demo79.both.
Proof.
  eexists. split; [vm_compute; reflexivity|]. split; [reflexivity|].
  exists [AskRun no_cfg; Edit Demo79.new], [AnswerRun true]. split; [reflexivity|]. split.
  - left. exists [AskRun no_cfg], []. split; [reflexivity|]. intros d [].
  - split; [intros ok [H|[]]; discriminate|intros [H|[]]; discriminate].
Qed.

(** ** C81: the blocks of a page *)

Section Blocks.
  Context {Bd St Tr : Type}.

  (** A block becomes an editor iff neither it nor one before it is without code. *)
  Theorem C81_blocks_iff (bs : list (eblock Bd St Tr)) k b : nth_error bs k = Some b ->
    (nth_error (init_blocks bs) k = Some (init_block b) <-> forall j b', j <= k -> nth_error bs j = Some b' -> k_code b' <> []) /\
    (nth_error (init_blocks bs) k = None <-> exists j b', j <= k /\ nth_error bs j = Some b' /\ k_code b' = []).
  Proof.
    revert k. induction bs as [|x bs IH]; intros k E; [destruct k; discriminate|]. cbn [init_blocks]. destruct (k_code x) as [|ch code] eqn:C.
    - assert (Z : nth_error (@nil (editor Bd St Tr)) k = None) by (destruct k; auto). rewrite Z. split.
      + split; [discriminate|]. intros H. exfalso. apply (H 0 x); auto. lia.
      + split; auto. intros _. exists 0, x. repeat split; auto. lia.
    - destruct k as [|k]; cbn [nth_error] in *.
      + injection E as <-. split.
        * split; auto. intros _ j b' L. assert (j = 0) by lia. subst j. cbn. intros Q. injection Q as <-. congruence.
        * split; [discriminate|]. intros (j & b' & L & Q & N). assert (j = 0) by lia. subst j. cbn in Q. injection Q as <-. congruence.
      + destruct (IH k E) as [I1 I2]. rewrite I1, I2. split.
        * split.
          -- intros H [|j] b' L Q; cbn in Q; [injection Q as <-; congruence|]. apply (H j); auto. lia.
          -- intros H j b' L Q. apply (H (S j)); auto. lia.
        * split.
          -- intros (j & b' & L & Q & N). exists (S j), b'. repeat split; auto. lia.
          -- intros ([|j] & b' & L & Q & N); cbn in Q; [injection Q as <-; congruence|]. exists j, b'. repeat split; auto. lia.
  Qed.

  (** One block without code takes all later ones with it. *)
  Theorem C81_empty_refuted (l1 l2 : list (eblock Bd St Tr)) b : k_code b = [] -> length (init_blocks (l1 ++ b :: l2)) <= length l1.
  Proof.
    intros C. induction l1 as [|x l1 IH]; cbn [app init_blocks length].
    - rewrite C. auto.
    - destruct (k_code x); cbn [length]; lia.
  Qed.

  (** Once an execution has been shown with the code hidden, the block's further
      operations show nothing; until then they are carried out. *)
  Theorem C81_operations_iff d (rs : list (response Bd St Tr)) c :
    (e_alive (render_all (new_editor d) rs c) = true <-> c_hide c = false \/ forall t, ~ In (Execution (Some t)) rs).
  Proof.
    unfold render_all. assert (G : forall rs (e : editor Bd St Tr), e_alive (fold_left (fun e r => fst (render_operation e r c)) rs e) = true <->
      e_alive e = true /\ (c_hide c = false \/ forall t, ~ In (Execution (Some t)) rs)).
    { clear. induction rs as [|r rs IH]; intros e; cbn [fold_left].
      - split; [intros H; split; auto|tauto].
      - rewrite IH. assert (RP : forall (e e2 : editor Bd St Tr), render_permissions e c = Some e2 -> e_alive e2 = e_alive e).
        { intros e0 e2. unfold render_permissions. destruct (e_decos e0) as [ds|]; [destruct (all_marks _ _); try discriminate|]; intros Q; injection Q as <-; auto. }
        assert (A : e_alive (fst (render_operation e r c)) = match r with Execution (Some _) => e_alive e && negb (c_hide c) | _ => e_alive e end).
        { unfold render_operation. destruct (e_alive e) eqn:AL; cbn [negb].
          - destruct r as [bodies|[t|]]; cbn [fst].
            + destruct (make_decorations _ _) as [ds|]; cbn [fst]; auto. destruct (render_permissions _ c) as [e2|] eqn:R; cbn [fst]; auto.
              rewrite (RP _ _ R). auto.
            + cbn. destruct (c_hide c); auto.
            + auto.
          - cbn. rewrite AL. destruct r as [|[|]]; auto. }
        rewrite A. destruct r as [bodies|[t|]].
        + split; intros [H1 H2]; split; auto; destruct H2 as [H2|H2]; auto; right; intros t I; apply (H2 t); cbn in *; auto. destruct I; [discriminate|auto].
        + rewrite andb_true_iff, negb_true_iff. split.
          * intros [[H1 H2] _]. auto.
          * intros [H1 [H2|H2]]; auto. exfalso. apply (H2 t). cbn. auto.
        + split; intros [H1 H2]; split; auto; destruct H2 as [H2|H2]; auto; right; intros t I; apply (H2 t); cbn in *; auto. destruct I; [discriminate|auto]. }
    rewrite G. cbn. tauto.
  Qed.

  Theorem C81_dead_refuted (e : editor Bd St Tr) r c : e_alive e = false ->
    snd (render_operation e r c) = false /\ e_steps (fst (render_operation e r c)) = e_steps e /\
    e_boundaries (fst (render_operation e r c)) = e_boundaries e /\ e_trace (fst (render_operation e r c)) = e_trace e.
  Proof. intros A. unfold render_operation. rewrite A. cbn. auto. Qed.

  (** Any value of the option hides the code, also "false". *)
  Theorem C81_hide_value_refuted options ch v : aget str_eqd options (lit "hideCode") = Some (ch :: v) -> c_hide (cfg_of options) = true.
  Proof.
    intros E. change (truthy (aget str_eqd options (lit "hideCode")) = true). rewrite E. auto.
  Qed.

  (** What a block's options ask for: steps and boundaries by the word "true". *)
  Theorem C81_settings options :
    (c_stepper (cfg_of options) = true <-> aget str_eqd options (lit "stepper") = Some (lit "true")) /\
    (c_boundaries (cfg_of options) = true <-> aget str_eqd options (lit "boundaries") = Some (lit "true")) /\
    (c_hide (cfg_of options) = true <-> exists ch v, aget str_eqd options (lit "hideCode") = Some (ch :: v)) /\
    (c_fail (cfg_of options) = true <-> exists ch v, aget str_eqd options (lit "shouldFail") = Some (ch :: v)).
  Proof.
    assert (A : forall o, is_true o = true <-> o = Some (lit "true")).
    { intros [x|]; unfold is_true; [|split; discriminate]. destruct (str_eqd x (lit "true")) as [->|N]; split; auto; try discriminate.
      intros [= E]. contradiction. }
    assert (B : forall o : option str, truthy o = true <-> exists ch v, o = Some (ch :: v)).
    { intros [[|ch v]|]; cbn; split; eauto; try discriminate; intros (c0 & v0 & E); discriminate. }
    unfold cfg_of. cbn [c_stepper c_boundaries c_hide c_fail].
    split; [apply A|]. split; [apply A|]. split; apply B.
  Qed.

  (** The options of a block that has become an editor are heeded: steps and boundaries are shown only if asked for, the code stays
      unless it is to be hidden and an execution is shown, and code is marked as failing iff that is asked for and there is an operation. *)
  Theorem C81_block_heeds (bs : list (eblock Bd St Tr)) k b e : nth_error bs k = Some b -> nth_error (init_blocks bs) k = Some e ->
    e_doc e = k_doc b /\
    (e_steps e <> [] -> aget str_eqd (k_options b) (lit "stepper") = Some (lit "true")) /\
    (e_boundaries e <> [] -> aget str_eqd (k_options b) (lit "boundaries") = Some (lit "true")) /\
    (e_alive e = true <-> ~ (exists ch v, aget str_eqd (k_options b) (lit "hideCode") = Some (ch :: v)) \/ forall t, ~ In (Execution (Some t)) (k_responses b)) /\
    (e_fail e = true <-> k_responses b <> [] /\ exists ch v, aget str_eqd (k_options b) (lit "shouldFail") = Some (ch :: v)).
  Proof.
    intros NB NE. assert (E : e = init_block b).
    { clear - NB NE. revert k NB NE. induction bs as [|x bs IH]; intros k NB NE; [destruct k; discriminate|]. cbn [init_blocks] in NE.
      destruct (k_code x); [destruct k; discriminate|]. destruct k as [|k]; cbn [nth_error] in *; [congruence|eauto]. }
    subst e. destruct (C81_settings (k_options b)) as (C1 & C2 & C3 & C4). unfold init_block.
    pose proof (C81_operations_iff (k_doc b) (k_responses b) (cfg_of (k_options b))) as AL.
    set (c := cfg_of (k_options b)) in *. clearbody c.
    assert (RP : forall (e e2 : editor Bd St Tr), render_permissions e c = Some e2 ->
      e_doc e2 = e_doc e /\ e_fail e2 = e_fail e /\
      (e_steps e2 <> [] -> e_steps e <> [] \/ c_stepper c = true) /\ (e_boundaries e2 <> [] -> e_boundaries e <> [] \/ c_boundaries c = true)).
    { intros e0 e2. unfold render_permissions. destruct (e_decos e0) as [ds|]; [destruct (all_marks _ _); try discriminate|]; intros Q; injection Q as <-; cbn; auto.
      split; auto. split; auto. destruct (c_stepper c), (c_boundaries c); split; auto; congruence. }
    assert (RO : forall (e : editor Bd St Tr) r, let e2 := fst (render_operation e r c) in
      e_doc e2 = e_doc e /\ e_fail e2 = e_fail e || c_fail c /\
      (e_steps e2 <> [] -> e_steps e <> [] \/ c_stepper c = true) /\ (e_boundaries e2 <> [] -> e_boundaries e <> [] \/ c_boundaries c = true)).
    { intros e r. cbv zeta. unfold render_operation. destruct (e_alive e); cbn [negb fst]; [|cbn; auto].
      destruct r as [bodies|[t|]]; cbn [fst]; try (cbn; auto; fail).
      destruct (make_decorations _ _) as [ds|]; [|cbn; auto]. destruct (render_permissions _ c) as [e2|] eqn:R; cbn [fst]; [|cbn; auto].
      apply RP in R as (R1 & R2 & R3 & R4). rewrite R1, R2. cbn in *. auto. }
    assert (G : forall rs (e : editor Bd St Tr), let e2 := fold_left (fun e r => fst (render_operation e r c)) rs e in
      e_doc e2 = e_doc e /\ (e_fail e2 = true <-> e_fail e = true \/ (rs <> [] /\ c_fail c = true)) /\
      (e_steps e2 <> [] -> e_steps e <> [] \/ c_stepper c = true) /\ (e_boundaries e2 <> [] -> e_boundaries e <> [] \/ c_boundaries c = true)).
    { induction rs as [|r rs IH]; intros e; cbn [fold_left]; cbv zeta.
      - split; auto. split; [|auto]. split; [auto|]. intros [H|[H _]]; auto.
      - destruct (IH (fst (render_operation e r c))) as (I1 & I2 & I3 & I4). destruct (RO e r) as (O1 & O2 & O3 & O4). cbv zeta in *.
        split; [congruence|]. split; [|split; [intros H; apply I3 in H as [H|H]; auto|intros H; apply I4 in H as [H|H]; auto]].
        rewrite I2, O2, orb_true_iff. split.
        + intros [[H|H]|[_ H]]; auto; right; split; auto; discriminate.
        + intros [H|[_ H]]; auto. }
    destruct (G (k_responses b) (new_editor (k_doc b))) as (G1 & G2 & G3 & G4). unfold render_all in *. cbv zeta in *. cbn [new_editor e_doc e_fail e_steps e_boundaries] in *.
    split; auto. split; [intros H; apply C1; apply G3 in H as [H|H]; congruence|]. split; [intros H; apply C2; apply G4 in H as [H|H]; congruence|].
    split.
    - rewrite AL, <- C3. destruct (c_hide c); split; intros [H|H]; auto; try discriminate.
    - rewrite G2, <- C4. split; [intros [H|H]; [discriminate|auto]|auto].
  Qed.

  (** ** C82: the refresh button *)

  (** After it neither steps nor boundaries are shown, whatever the block asks for. *)
  Theorem C82_refresh_refuted (e : editor Bd St Tr) l1 bodies l2 :
    snd (render_operation (refresh e l1) (Analysis bodies) no_cfg) = true ->
    e_steps (refresh e (l1 ++ Analysis bodies :: l2)) = [] /\ e_boundaries (refresh e (l1 ++ Analysis bodies :: l2)) = [].
  Proof.
    unfold refresh, render_all. intros H. rewrite fold_left_app. cbn [fold_left]. set (e0 := fold_left _ l1 e) in *.
    destruct (C76_shown _ _ _ H) as (? & ds & _ & _ & S0 & B0). cbn [c_stepper c_boundaries no_cfg] in S0, B0.
    set (e1 := fst (render_operation e0 (Analysis bodies) no_cfg)) in *. clearbody e1. clear H e0.
    revert e1 S0 B0. induction l2 as [|r l2 IH]; intros e1 S0 B0; cbn [fold_left]; auto. apply IH.
    - destruct r as [b|o].
      + destruct (snd (render_operation e1 (Analysis b) no_cfg)) eqn:Q; [destruct (C76_shown _ _ _ Q) as (? & ? & _ & _ & X & _); exact X|].
        unfold render_operation in *. destruct (negb (e_alive e1)); [auto|]. destruct (make_decorations _ _); [|auto]. destruct (render_permissions _ _); [discriminate|auto].
      + unfold render_operation. destruct (negb (e_alive e1)); [auto|]. destruct o; auto.
    - destruct r as [b|o].
      + destruct (snd (render_operation e1 (Analysis b) no_cfg)) eqn:Q; [destruct (C76_shown _ _ _ Q) as (? & ? & _ & _ & _ & X); exact X|].
        unfold render_operation in *. destruct (negb (e_alive e1)); [auto|]. destruct (make_decorations _ _); [|auto]. destruct (render_permissions _ _); [discriminate|auto].
      + unfold render_operation. destruct (negb (e_alive e1)); [auto|]. destruct o; auto.
  Qed.

  (** Whether the block is marked as one that should fail stays as it is. *)
  Theorem C82_mark (e : editor Bd St Tr) answers : e_fail (refresh e answers) = e_fail e.
  Proof.
    unfold refresh, render_all. revert e. induction answers as [|r l IH]; intros e; cbn [fold_left]; [reflexivity|]. rewrite IH. clear IH l.
    assert (F : e_fail (set_fail e (c_fail no_cfg)) = e_fail e) by (cbn; destruct (e_fail e); reflexivity).
    unfold render_operation. destruct (negb (e_alive e)); [exact F|]. destruct r as [bodies|[t|]]; [|exact F|exact F].
    destruct (make_decorations _ _) as [ds|]; [|exact F]. destruct (render_permissions _ _) as [e2|] eqn:R; [|exact F].
    cbn [fst]. rewrite <- F. unfold render_permissions in R. repeat match type of R with match ?x with _ => _ end = _ => destruct x; try discriminate R end.
    all: injection R as <-; reflexivity.
  Qed.

  (** The diagrams of the new execution are shown. *)
  Theorem C82_diagrams_partial (e : editor Bd St Tr) l1 t l2 : e_alive e = true -> (forall t', ~ In (Execution (Some t')) l2) ->
    e_trace (refresh e (l1 ++ Execution (Some t) :: l2)) = Some t /\ e_alive (refresh e (l1 ++ Execution (Some t) :: l2)) = true.
  Proof.
    unfold refresh, render_all. intros A N. rewrite fold_left_app. cbn [fold_left].
    assert (RP : forall (e e2 : editor Bd St Tr), render_permissions e no_cfg = Some e2 -> e_alive e2 = e_alive e /\ e_trace e2 = e_trace e).
    { intros e0 e2. unfold render_permissions. destruct (e_decos e0) as [ds|]; [destruct (all_marks _ _); try discriminate|]; intros Q; injection Q as <-; auto. }
    assert (AL : forall r (e : editor Bd St Tr), e_alive e = true -> e_alive (fst (render_operation e r no_cfg)) = true /\
      ((forall t', r <> Execution (Some t')) -> e_trace (fst (render_operation e r no_cfg)) = e_trace e)).
    { intros r e0 A0. unfold render_operation. rewrite A0. cbn [negb]. destruct r as [b|[t'|]]; cbn [fst].
      - destruct (make_decorations _ _) as [ds|]; cbn [fst]; auto. destruct (render_permissions _ no_cfg) as [e2|] eqn:R; cbn [fst]; auto.
        destruct (RP _ _ R) as [R1 R2]. rewrite R1, R2. auto.
      - cbn. split; auto. intros X. exfalso. eapply X; eauto.
      - auto. }
    assert (A1 : e_alive (fold_left (fun e r => fst (render_operation e r no_cfg)) l1 e) = true).
    { clear - A AL. revert e A. induction l1 as [|r l1 IH]; intros e A; cbn; auto. apply IH, AL; auto. }
    set (e0 := fold_left _ l1 e) in *. clearbody e0.
    assert (T1 : e_trace (fst (render_operation e0 (Execution (Some t)) no_cfg)) = Some t) by (unfold render_operation; rewrite A1; auto).
    assert (A2 : e_alive (fst (render_operation e0 (Execution (Some t)) no_cfg)) = true) by (apply AL; auto).
    set (e1 := fst (render_operation e0 (Execution (Some t)) no_cfg)) in *. clearbody e1. clear - N T1 A2 AL.
    revert e1 T1 A2. induction l2 as [|r l2 IH]; intros e1 T1 A2; cbn [fold_left]; auto. apply IH.
    - intros t' I. apply (N t'). cbn. auto.
    - destruct (AL r e1 A2) as [_ X]. rewrite X; auto. intros t' ->. apply (N t'). cbn. auto.
    - apply AL; auto.
  Qed.
End Blocks.
Print Assumptions C81_blocks_iff.
Print Assumptions C81_empty_refuted.
Print Assumptions C81_operations_iff.
Print Assumptions C81_dead_refuted.
Print Assumptions C81_hide_value_refuted.
Print Assumptions C81_settings.
Print Assumptions C81_block_heeds.
Print Assumptions C82_refresh_refuted.
Print Assumptions C82_mark.
Print Assumptions C82_diagrams_partial.

Module Demo81.
  Definition b (code : str) : eblock nat nat nat :=
    EBlock code Demo79.old [Analysis [Some (Demo79.out 3)]; Execution (Some 9)] [(lit "stepper", lit "true")].
  Example C81_witness : map (fun e => (e_steps e, e_boundaries e, e_trace e)) (init_blocks [b (lit "x"); b (lit "y"); b []; b (lit "z")]) =
    [([(6, 3)], [], Some 9); ([(6, 3)], [], Some 9)].
  Proof. vm_compute. reflexivity. Qed.
  Definition hiding : eblock nat nat nat :=
    EBlock (lit "x") Demo79.old [Execution (Some 9); Analysis [Some (Demo79.out 3)]] [(lit "stepper", lit "true"); (lit "hideCode", lit "false")].
  Example C81_witness_hide : e_alive (init_block hiding) = false /\ e_steps (init_block hiding) = [].
  Proof. vm_compute. auto. Qed.
  Example C82_witness : e_steps (init_block (b (lit "x"))) = [(6, 3)] /\
    snd (render_operation (refresh (init_block (b (lit "x"))) []) (Analysis [Some (Demo79.out 3)]) no_cfg) = true.
  Proof. vm_compute. auto. Qed.
End Demo81.
