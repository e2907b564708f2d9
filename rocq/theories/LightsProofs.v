(** * Proofs for the lights *)
From Coq Require Import Ascii String.
From Coq Require Import List Arith Bool Lia Permutation.
From Verif Require Import Base PermsModel FactsModel FactsSpec SpansModel SpansSpec SpansProofs PropSpans CfgModel TellModel TellSpec TellProofs PageModel PageSpec PageProofs PropPage LightsModel LightsSpec.
From Verif Require BookModel WireModel ReportModel ReportSpec ReportProofs StepsModel StepsSpec DrawModel DrawSpec DrawProofs EditorModel EditorSpec EditorProofs UsesModel BoundariesModel PropTell.
Import ListNotations.
Local Open Scope list_scope.

(** ** Marks *)

Lemma generate_actions fresh n f n' t ts : generate fresh n f = (n', t, ts) -> map t_action ts = EditorModel.actions_of f.
Proof.
  intros G. destruct (generate_spec _ _ _ _ _ _ G) as (L & M & _ & _ & E1 & E2 & -> & _). unfold EditorModel.actions_of. rewrite E1, E2, map_app, !map_map. reflexivity.
Qed.

Lemma tagged_action d t : (exists es, tagged_marks d t = Some es) <-> exists ms, EditorModel.action_marks d (t_action t) = Some ms.
Proof.
  unfold tagged_marks, EditorModel.action_marks. destruct (fst (t_action t)); [|split; intros (x & H); discriminate].
  destruct (EditorModel.mark_range d c); [|split; intros (x & H); discriminate]. destruct (EditorModel.collect _ _); split; intros (x & H); try discriminate; eauto.
Qed.

Lemma collect_all {A B} (f : A -> option B) l : (forall x, In x l -> exists y, f x = Some y) <-> exists ys, EditorModel.collect f l = Some ys.
Proof.
  induction l as [|x l IH]; cbn [EditorModel.collect In].
  - split; [eauto|intros _ x []].
  - split.
    + intros H. destruct (H x) as [y ->]; auto. destruct (proj1 IH) as [ys ->]; eauto.
    + intros [ys H] z [<-|I]; destruct (f x) as [y|]; try discriminate; eauto. destruct (EditorModel.collect f l) as [zs|]; [|discriminate]. apply (proj2 IH); eauto.
Qed.

Lemma draw_all fresh fs : forall n, (forall d f a, In (d, f) fs -> In a (EditorModel.actions_of f) -> exists ms, EditorModel.action_marks d a = Some ms) <->
  exists drawn, draw fresh n fs = Some drawn.
Proof.
  induction fs as [|[d f] fs IH]; intros n; cbn [draw In].
  - split; [eauto|intros _ d f a []].
  - destruct (generate fresh n f) as [[n' t] ts] eqn:G. pose proof (generate_actions _ _ _ _ _ _ G) as GA.
    assert (X : (forall a, In a (EditorModel.actions_of f) -> exists ms, EditorModel.action_marks d a = Some ms) <-> exists es, EditorModel.collect (tagged_marks d) ts = Some es).
    { rewrite <- collect_all, <- GA. split.
      - intros H t0 I. apply tagged_action. apply H, in_map, I.
      - intros H a I. apply in_map_iff in I as (t0 & <- & I). apply tagged_action. auto. }
    specialize (IH n'). split.
    + intros H. destruct (proj1 X) as [es ->]; [intros a I; eapply H; eauto|]. destruct (proj1 IH) as [dr ->]; eauto.
    + intros [dr H] d0 f0 a [[= <- <-]|I] Ia.
      * apply (proj2 X); auto. destruct (EditorModel.collect (tagged_marks d) ts); [eauto|discriminate].
      * destruct (EditorModel.collect (tagged_marks d) ts); [|discriminate]. destruct (draw fresh n' fs); [|discriminate]. eapply (proj2 IH); eauto.
Qed.

Lemma draw_length fresh fs : forall n drawn, draw fresh n fs = Some drawn -> length drawn = length fs.
Proof.
  induction fs as [|[d f] fs IH]; intros n drawn H; cbn [draw] in H.
  - injection H as <-. reflexivity.
  - destruct (generate fresh n f) as [[n' t] ts]. destruct (EditorModel.collect _ ts); [|discriminate]. destruct (draw fresh n' fs) as [dr|] eqn:D; [|discriminate]. injection H as <-. cbn. f_equal. eauto.
Qed.

Lemma mark_forward d r m : EditorModel.mark_range d r = Some m -> EditorSpec.Forward d r (fst m) (snd m).
Proof. destruct m as [a b]. apply EditorProofs.mark_range_some. Qed.

Lemma Ascending_NoDup l : ReportSpec.Ascending l -> NoDup l.
Proof. induction l as [|a l IH]; cbn; constructor; [intros I|]; destruct H as [H H']; auto. specialize (H a I). lia. Qed.

(** ** One function *)

Section One.
  Variables (k : asked) (o : ReportModel.report) (x : shown_output) (d : EditorModel.doc) (pos : nat -> nat).
  Hypothesis So : Sound k.
  Hypothesis Ok : function_result (k_fn k) (k_state k) = Some (inl o).
  Hypothesis Re : ReportSpec.RealReport o.
  Hypothesis Sh : DrawSpec.Shows o x.
  Hypothesis Marks : forall a, In a (EditorModel.actions_of (EditorModel.o_facts x)) -> exists ms, EditorModel.action_marks d a = Some ms.
  Hypothesis Fo : Follows d (k_fn k) pos.
  Let f := k_fn k.
  Let facts := EditorModel.o_facts x.

  Lemma tables_of : ReportModel.o_lpoints o = loan_points f /\ ReportModel.o_lregions o = loan_regions f /\
    ReportModel.o_mpoints o = move_points f /\ ReportModel.o_mregions o = move_regions f.
  Proof.
    revert Ok. unfold function_result. destruct (fn_tainted (k_fn k)); [discriminate|]. destruct (function_boundaries _ _) as [bs|]; [|discriminate].
    destruct (StepsModel.compute_permission_steps _ _ _ _ _ _ _ _) as [[r|ls]| |]; try discriminate. intros [= <-]. cbn. auto.
  Qed.

  Lemma keyed : Keyed facts.
  Proof. destruct Sh as ((A & _) & (B & _) & (C & _) & (D & _) & _). repeat split; apply Ascending_NoDup; assumption. Qed.

  Lemma info_unique l i j : In (l, i) (construct_loan_info (fn_lenv f)) -> In (l, j) (construct_loan_info (fn_lenv f)) -> i = j.
  Proof.
    intros I J. destruct Re as (_ & _ & _ & (N & _) & _). destruct tables_of as (E & _). rewrite E in N. unfold loan_points in N.
    assert (N' : NoDup (map fst (construct_loan_info (fn_lenv f)))).
    { eapply Permutation_NoDup; [|exact N]. etransitivity; [apply Permutation_map, (sound_maps _ So)|]. rewrite map_map. reflexivity. }
    pose proof (In_aget _ _ Nat.eq_dec _ _ _ N' I) as X. pose proof (In_aget _ _ Nat.eq_dec _ _ _ N' J) as Y. congruence.
  Qed.

  Lemma loan_point l r : In (l, r) (EditorModel.loan_points facts) <->
    exists anchor rs, In (l, (anchor, rs)) (construct_loan_info (fn_lenv f)) /\ r = ReportSpec.range_of (fn_range f anchor).
  Proof.
    destruct Sh as ((_ & A) & _). destruct tables_of as (E & _). unfold facts. rewrite A, E. unfold loan_points. split.
    - intros (w & I & ->). apply (Permutation_in _ (sound_maps _ So _ _)) in I. apply in_map_iff in I as ([l' [an rs]] & [= <- <-] & I). eauto.
    - intros (an & rs & I & ->). eexists. split; [|reflexivity]. apply (Permutation_in _ (Permutation_sym (sound_maps _ So _ _))).
      apply in_map_iff. exists (l, (an, rs)). auto.
  Qed.
  Lemma loan_region l crs : In (l, crs) (EditorModel.loan_regions facts) <->
    exists anchor rs, In (l, (anchor, rs)) (construct_loan_info (fn_lenv f)) /\ crs = map (fun r => ReportSpec.range_of (fn_range f r)) rs.
  Proof.
    destruct Sh as (_ & (_ & A) & _). destruct tables_of as (_ & E & _). unfold facts. rewrite A, E. unfold loan_regions. split.
    - intros (w & I & ->). apply (Permutation_in _ (sound_maps _ So _ _)) in I. apply in_map_iff in I as ([l' [an rs]] & [= <- <-] & I).
      exists an, rs. split; auto. cbn [ReportModel.r_ranges fst snd]. apply map_map.
    - intros (an & rs & I & ->). eexists. split; [apply (Permutation_in _ (Permutation_sym (sound_maps _ So _ _))); apply in_map_iff; exists (l, (an, rs)); split; [reflexivity|exact I]|].
      cbn [ReportModel.r_ranges fst snd]. symmetry. apply map_map.
  Qed.

  (** Every range of a loan that is not empty is marked. *)
  Lemma marked l anchor rs r : In (l, (anchor, rs)) (construct_loan_info (fn_lenv f)) -> r = anchor \/ In r rs -> lo r < hi r ->
    EditorSpec.Forward d (ReportSpec.range_of (fn_range f r)) (pos (lo r)) (pos (hi r)).
  Proof.
    intros I R Lt. assert (N := keyed). destruct N as (N & _).
    assert (P : aget Nat.eq_dec (EditorModel.loan_points facts) l = Some (ReportSpec.range_of (fn_range f anchor))).
    { apply (In_aget _ _ Nat.eq_dec); [exact N|]. apply loan_point. eauto. }
    assert (G : In (l, map (fun r => ReportSpec.range_of (fn_range f r)) rs) (EditorModel.loan_regions facts)) by (apply loan_region; eauto).
    destruct (Marks (Some (ReportSpec.range_of (fn_range f anchor)), map (fun r => ReportSpec.range_of (fn_range f r)) rs)) as [ms H].
    { unfold EditorModel.actions_of. apply in_app_iff. left. apply in_map_iff. eexists. split; [|exact G]. cbn. unfold facts in P. rewrite P. reflexivity. }
    unfold EditorModel.action_marks in H. cbn [fst snd] in H. destruct (EditorModel.mark_range d (ReportSpec.range_of (fn_range f anchor))) as [m|] eqn:M; [|discriminate].
    destruct (EditorModel.collect _ _) as [ms'|] eqn:C; [|discriminate]. destruct Fo as [_ F]. destruct (F r) as (F1 & F2 & F3).
    assert (X : exists m, EditorModel.mark_range d (ReportSpec.range_of (fn_range f r)) = Some m).
    { destruct R as [->|R]; [eauto|]. apply (proj2 (collect_all _ _) (ex_intro _ ms' C)). apply filter_In. split; [apply (in_map (fun r => ReportSpec.range_of (fn_range f r))), R|].
      destruct (EditorModel.pos_eqd _ _) as [E|]; auto. apply F1 in E. lia. }
    destruct X as [[a b] X]. apply mark_forward in X. cbn [fst snd] in X. destruct X as (X1 & X2 & X3). pose proof (F2 _ X1). pose proof (F3 _ X2). subst a b. repeat split; auto.
  Qed.

  (** No move is marked: the only ones with a region happen in no text. *)
  Lemma no_moves m crs : ~ In (m, crs) (EditorModel.move_regions facts).
  Proof.
    intros I. assert (I0 := I). destruct Sh as (_ & _ & (_ & A) & (_ & B) & _). destruct tables_of as (_ & _ & E1 & E2). unfold facts in I. rewrite B, E2 in I.
    destruct I as (w & I & _). apply (Permutation_in _ (sound_maps _ So _ _)) in I. apply in_flat_map in I as (m' & _ & I).
    destruct (move_to_spans (fn_menv f) m') as [|z zs]; [destruct I|]. destruct (move_region (fn_menv f) m') as [rs|] eqn:Mr; [|destruct I].
    destruct I as [[= -> _]|[]].
    assert (Mp : exists s, In (m, s) (SpansModel.move_points (fn_menv f)) /\ lo s = hi s).
    { unfold move_region in Mr. destruct (aget Nat.eq_dec (SpansModel.move_points (fn_menv f)) m) as [s|] eqn:Ag; [|discriminate]. apply aget_Some_In in Ag. exists s. split; auto.
      apply C15_move_anchor_iff_invisible in Ag. tauto. }
    destruct Mp as (s & Is & Es).
    assert (Ip : In (m, ReportSpec.range_of (fn_range f s)) (EditorModel.move_points facts)).
    { unfold facts. apply A. exists (fn_range f s). split; [|reflexivity]. rewrite E1. unfold move_points. apply (Permutation_in _ (Permutation_sym (sound_maps _ So _ _))).
      apply in_map_iff. exists (m, s). auto. }
    destruct keyed as (_ & _ & N & _). apply (In_aget _ _ Nat.eq_dec) in Ip; [|exact N].
    destruct (Marks (Some (ReportSpec.range_of (fn_range f s)), crs)) as [ms H].
    { unfold EditorModel.actions_of. apply in_app_iff. right. apply in_map_iff. eexists. split; [|exact I0]. cbn. unfold facts in Ip. rewrite Ip. reflexivity. }
    unfold EditorModel.action_marks in H. cbn [fst snd] in H. destruct (EditorModel.mark_range d (ReportSpec.range_of (fn_range f s))) as [[a b]|] eqn:M; [|discriminate].
    apply mark_forward in M. destruct M as (M1 & M2 & M3). cbn [fst snd] in *. destruct Fo as [_ F]. destruct (F s) as (_ & F2 & F3). rewrite (F2 _ M1), (F3 _ M2), Es in M3. lia.
  Qed.

  Lemma pos_le a c : pos a <= pos c <-> a <= c.
  Proof.
    destruct Fo as [M _]. split; intros H.
    - destruct (le_lt_dec a c) as [L|L]; auto. apply M in L. lia.
    - destruct (Nat.eq_dec a c) as [->|N]; auto. assert (L : a < c) by lia. apply M in L. lia.
  Qed.
  Lemma pos_lt a c : pos a < pos c <-> a < c.
  Proof. pose proof (pos_le c a). lia. Qed.

  (** The lit characters, if the marks are those of a loan and a move. *)
  Lemma lit_chars es loan move :
    (forall a b, Lit es a b <-> (exists l, loan = Some l /\ Belongs d (EditorModel.loan_points facts) (EditorModel.loan_regions facts) l a b) \/
       (exists m, move = Some m /\ Belongs d (EditorModel.move_points facts) (EditorModel.move_regions facts) m a b)) ->
    forall c, LitAt es (pos c) <-> exists l anchor rs, loan = Some l /\ In (l, (anchor, rs)) (construct_loan_info (fn_lenv f)) /\ (lo anchor <= c < hi anchor \/ covered rs c).
  Proof.
    intros L c. split.
    - intros (a & b & H & Hc). apply L in H. destruct H as [(l & -> & crs & r & G & P & F)|(m & _ & crs & r & G & _)]; [|destruct (no_moves _ _ G)].
      apply loan_region in G as (an & rs & I & ->). destruct F as (X1 & X2 & X3). destruct Fo as [_ Fl].
      assert (R : exists r0, (r0 = an \/ In r0 rs) /\ r = ReportSpec.range_of (fn_range f r0)).
      { destruct P as [P|P].
        - apply loan_point in P as (an' & rs' & I' & ->). assert (E := info_unique _ _ _ I I'). injection E as <- <-. eauto.
        - apply in_map_iff in P as (r0 & <- & I0). eauto. }
      destruct R as (r0 & Ir & ->). destruct (Fl r0) as (_ & F2 & F3). pose proof (F2 _ X1). pose proof (F3 _ X2). subst a b.
      exists l, an, rs. split; auto. split; auto. rewrite pos_le, pos_lt in Hc. destruct Ir as [->|Ir]; [left; auto|right; exists r0; auto].
    - intros (l & an & rs & -> & I & Hc).
      assert (R : exists r, (r = an \/ In r rs) /\ lo r <= c < hi r) by (destruct Hc as [Hc|(r & Ir & Hc)]; eauto).
      destruct R as (r & Ir & Hr). exists (pos (lo r)), (pos (hi r)). split; [|rewrite pos_le, pos_lt; exact Hr].
      apply L. left. exists l. split; auto. exists (map (fun r => ReportSpec.range_of (fn_range f r)) rs), (ReportSpec.range_of (fn_range f r)).
      split; [apply loan_region; eauto|]. split; [|apply (marked l an rs); auto; lia].
      destruct Ir as [->|Ir]; [left; apply loan_point; eauto|right; apply (in_map (fun r => ReportSpec.range_of (fn_range f r))), Ir].
  Qed.

  Lemma explained name loan y p (lit : nat -> Prop) : WellSpanned (fn_lenv f) ->
    names_loan (UsesModel.ue_inp (fn_uses f)) (takes (UsesModel.ue_inp (fn_uses f)) name) loan y p ->
    (forall c, lit c <-> exists l anchor rs, loan = Some l /\ In (l, (anchor, rs)) (construct_loan_info (fn_lenv f)) /\ (lo anchor <= c < hi anchor \/ covered rs c)) ->
    ExplainsLoan (UsesModel.ue_inp (fn_uses f)) (fn_lenv f) name y p lit.
  Proof.
    intros [W1 W2] Nm L. destruct loan as [l|].
    - left. exists l. split; [exact Nm|]. split.
      + intros E c Hc. apply L in Hc as (l' & an & rs & [= <-] & I & _). destruct (proj1 (C15_loan_shown_iff_visible _ _ _) (ex_intro _ rs I)) as (_ & -> & H). congruence.
      + intros N. destruct Nm as (_ & Lv & _).
        assert (Li : LiveAt (fn_lenv f) l p) by (unfold LiveAt, f; rewrite (sound_live _ So); exact Lv).
        destruct (proj2 (C15_loan_shown_iff_visible (fn_lenv f) l (localised (fn_lenv f) (le_loan_span (fn_lenv f) l)))) as [rs I]; [eauto|].
        destruct (C15_loan_highlight_exact _ _ _ _ W1 W2 I) as (a & b & Ex & H). exists a, b. split; [exact Ex|]. intros N1 N2 c.
        destruct (H N1 N2) as (_ & Cv & _). rewrite L. split.
        * intros (l' & an & rs' & [= <-] & I' & Hc). assert (E := info_unique _ _ _ I I'). injection E as <- <-. rewrite <- Cv. exact Hc.
        * intros Hc. exists l. eexists _, rs. split; [reflexivity|]. split; [exact I|]. rewrite Cv. exact Hc.
    - right. split; [exact Nm|]. intros c Hc. apply L in Hc as (l & _ & _ & [=] & _).
  Qed.
End One.

(** ** In lists *)

Lemma shows_length l (outs : list shown_output) : Forall2 DrawSpec.Shows l outs -> length l = length outs.
Proof. induction 1; cbn; auto. Qed.
Lemma shows_nth l (outs : list shown_output) : Forall2 DrawSpec.Shows l outs -> forall i o x, nth_error l i = Some o -> nth_error outs i = Some x -> DrawSpec.Shows o x.
Proof. induction 1; intros [|i] o' x' Ho Hx; try discriminate; cbn in Ho, Hx; [congruence|eauto]. Qed.

(** ** The letters of one boundary *)

Lemma letters_in b :
  (forall has, In (BoundariesModel.LR, has) (DrawSpec.letters_of b) <-> p_read (ReportModel.b_exp b) = true /\ has = p_read (ReportModel.b_act b)) /\
  (forall has, In (BoundariesModel.LW, has) (DrawSpec.letters_of b) <-> p_write (ReportModel.b_exp b) = true /\ has = p_write (ReportModel.b_act b)) /\
  (forall has, In (BoundariesModel.LO, has) (DrawSpec.letters_of b) <-> p_drop (ReportModel.b_exp b) = true /\ has = p_drop (ReportModel.b_act b)) /\
  (forall has, In (BoundariesModel.LF, has) (DrawSpec.letters_of b) <-> exists w, ReportModel.b_flow b = Some w /\ has = negb (ReportModel.f_violation w)).
Proof.
  unfold DrawSpec.letters_of. destruct (p_read (ReportModel.b_exp b)), (p_write (ReportModel.b_exp b)), (p_drop (ReportModel.b_exp b)), (ReportModel.b_flow b) as [w|]; cbn [List.app In];
    repeat split; intros; repeat match goal with
      | H : _ \/ _ |- _ => destruct H
      | H : _ /\ _ |- _ => destruct H
      | H : exists _, _ |- _ => destruct H
      | H : False |- _ => destruct H
      | H : (_, _) = (_, _) |- _ => inversion H; clear H; subst
      | H : Some _ = Some _ |- _ => inversion H; clear H; subst
      end; subst; try discriminate; auto 6; try (eexists; split; [reflexivity|destruct (ReportModel.f_violation _); reflexivity]);
    repeat (first [left; destruct (ReportModel.f_violation _); reflexivity|right]).
Qed.

Lemma stack_tells k (So : Sound k) bs b u : function_boundaries (k_fn k) (k_state k) = Some bs -> In (b, u) bs ->
  exists pb loc y, UseOf (k_fn k) pb loc y /\ StepsSpec.StateOf (UsesModel.ue_inp (fn_uses (k_fn k))) y (UsesModel.ue_start (fn_uses (k_fn k)) loc) u /\
    TellsUse (k_fn k) (k_flow k) pb loc y (snd (DrawSpec.boundary_of (write_boundary (k_fn k) (b, u)))).
Proof.
  intros Eb Ib. destruct (told_use k So bs b u Eb Ib) as (pb & loc & x & c & y & U & En & Lc & _ & V & A & St & Ex & Fl).
  exists pb, loc, x. split; [exact U|]. split; [exact St|]. destruct (letters_in (write_boundary (k_fn k) (b, u))) as (B1 & B2 & B3 & B4).
  unfold write_boundary in *. cbn [fst snd ReportModel.b_pos ReportModel.b_exp ReportModel.b_act ReportModel.b_data ReportModel.b_flow] in *.
  destruct A as (A1 & A2 & A3). unfold TellsUse. rewrite <- Ex. set (s := snd _).
  assert (L : forall L e (v : bool) (Q : Prop), (forall has, In (L, has) (DrawModel.k_icons s) <-> e = true /\ has = v) -> (v = true <-> Q) -> Draws s L e Q).
  { intros L e v Q H1 H2 has. rewrite H1. split; intros [H3 H4]; (split; [exact H3|]); [subst has; exact H2|].
    apply eq_true_iff_eq. rewrite H4, H2. tauto. }
  split; [exact (L _ _ _ _ B1 A1)|]. split; [exact (L _ _ _ _ B2 A2)|]. split; [exact (L _ _ _ _ B3 A3)|]. split; [|exists u; split; [exact St|reflexivity]].
  exists (BoundariesModel.b_flow b). split; [exact Fl|]. intros has. subst s. cbn [snd DrawSpec.boundary_of DrawModel.k_icons]. rewrite B4. destruct (BoundariesModel.b_flow b) as [fb|]; cbn [option_map].
  - destruct Fl as (_ & _ & _ & _ & Vi & _). rewrite <- Vi. split.
    + intros (w & [= <-] & ->). split; [reflexivity|]. cbn [ReportModel.f_violation]. destruct (BoundariesModel.fb_violation fb); cbn; split; congruence.
    + intros [_ H]. eexists. split; [reflexivity|]. cbn [ReportModel.f_violation]. destruct (BoundariesModel.fb_violation fb), has; cbn in *; try reflexivity; exfalso.
      * apply (proj1 H); reflexivity.
      * enough (false = true) by discriminate. apply H. discriminate.
  - split; [intros (w & H & _); discriminate H|intros [H _]; discriminate H].
Qed.
