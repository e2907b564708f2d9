(** Proofs for C14-C16. *)

From Coq Require Import List Arith Bool Lia Sorted Permutation.
From Verif Require Import Base FactsModel FactsProofs SpansModel SpansSpec.
Import ListNotations.

(** * Sorting *)

Lemma insert_by_lo_perm x l : Permutation (x :: l) (insert_by_lo x l).
Proof.
  induction l as [|y l IH]; cbn; auto. destruct (lo x <=? lo y); auto.
  etransitivity; [apply perm_swap|]. constructor; auto.
Qed.

Lemma sort_by_lo_perm l : Permutation l (sort_by_lo l).
Proof.
  induction l as [|x l IH]; cbn; auto. etransitivity; [|apply insert_by_lo_perm]. auto.
Qed.

Lemma insert_by_lo_sorted x l :
  StronglySorted (fun a b => lo a <= lo b) l -> StronglySorted (fun a b => lo a <= lo b) (insert_by_lo x l).
Proof.
  induction 1 as [|y l S IH F]; cbn; [repeat constructor|].
  destruct (Nat.leb_spec (lo x) (lo y)).
  - constructor; [constructor; auto|]. constructor; auto.
    eapply Forall_impl; [|exact F]. cbn. intros. lia.
  - constructor; auto. apply Forall_forall. intros z I.
    apply (Permutation_in _ (Permutation_sym (insert_by_lo_perm x l))) in I.
    rewrite Forall_forall in F. destruct I as [<-|I]; auto. lia.
Qed.

Lemma sort_by_lo_sorted l : StronglySorted (fun a b => lo a <= lo b) (sort_by_lo l).
Proof. induction l; cbn; [constructor|]. apply insert_by_lo_sorted; auto. Qed.

Lemma sort_by_lo_In l r : In r (sort_by_lo l) <-> In r l.
Proof.
  split; apply Permutation_in; [apply Permutation_sym|]; apply sort_by_lo_perm.
Qed.

(** * The loop *)

Section Loop.
  Variable ov : Range -> Range -> bool.
  Variable good : Range -> Prop.
  Hypothesis good_wf : forall r, good r -> lo r <= hi r.
  Hypothesis good_to : forall a e, good a -> good e -> good (to a e).
  Hypothesis touch : forall a e, good a -> good e -> lo a <= lo e ->
    (ov a e || (hi a =? lo e)) = (lo e <=? hi a).

  (** Any notion of coverage for which the hull of touching ranges is their union. *)
  Variable cov : Range -> nat -> Prop.
  Hypothesis cov_to : forall a e c, good a -> good e -> lo a <= lo e <= hi a ->
    (cov (to a e) c <-> cov a c \/ cov e c).

  Lemma smooth_loop_spec l : forall acc,
    good acc -> Forall good l -> StronglySorted (fun a b => lo a <= lo b) (acc :: l) ->
    Forall good (smooth_loop ov acc l) /\
    (forall c, (exists r, In r (smooth_loop ov acc l) /\ cov r c) <->
               cov acc c \/ exists r, In r l /\ cov r c) /\
    separated (smooth_loop ov acc l) /\
    (exists r t, smooth_loop ov acc l = r :: t /\ lo r = lo acc).
  Proof.
    induction l as [|e l IH]; intros acc Ga Gl S.
    - cbn. split; [auto|]. split; [|split].
      + intros c. split.
        * intros (r & [<-|[]] & H); auto.
        * intros [H|(r & [] & _)]. eauto.
      + repeat constructor.
      + exists acc, []; auto.
    - inversion Gl as [|? ? Ge Gl']; subst. inversion S as [|? ? S1 F1]; subst.
      inversion S1 as [|? ? S2 F2]; subst. inversion F1 as [|? ? Lae F1']; subst.
      cbn [smooth_loop]. rewrite touch by auto.
      destruct (Nat.leb_spec (lo e) (hi acc)) as [L|L].
      + destruct (IH (to acc e)) as (H1 & H2 & H3 & r & t & E & El); auto.
        { constructor; auto. eapply Forall_impl; [|exact F1']. unfold to; cbn. intros; lia. }
        split; [exact H1|]. split; [|split; [exact H3|]].
        * intros c. rewrite H2, cov_to by (auto; lia). split.
          -- intros [[H|H]|(r' & I & H)]; auto; right; [exists e|exists r']; cbn; auto.
          -- intros [H|(r' & [<-|I] & H)]; eauto.
        * exists r, t. split; auto. rewrite El. unfold to; cbn. lia.
      + destruct (IH e) as (H1 & H2 & H3 & r & t & E & El); auto.
        split; [constructor; auto|]. split; [|split].
        * intros c. split.
          -- intros (r' & [<-|I] & H); auto. right.
             destruct (proj1 (H2 c)) as [H'|(r'' & I' & H')]; [eauto| |].
             ++ exists e; cbn; auto.
             ++ exists r''; cbn; auto.
          -- intros [H|(r' & I & H)].
             ++ exists acc; cbn; auto.
             ++ destruct (proj2 (H2 c)) as (r'' & I' & H').
                { destruct I as [<-|I]; eauto. }
                exists r''; cbn; auto.
        * constructor; auto. apply Forall_forall. intros x I.
          rewrite E in I. destruct I as [<-|I]; [lia|].
          rewrite E in H3, H1. inversion H3 as [|? ? _ F]; subst. rewrite Forall_forall in F.
          inversion H1 as [|? ? Gr _]; subst. specialize (F x I). apply good_wf in Gr. lia.
        * eauto.
  Qed.

  Lemma smooth_spec l : Forall good l ->
    Forall good (smooth_elements ov l) /\
    (forall c, (exists r, In r (smooth_elements ov l) /\ cov r c) <-> exists r, In r l /\ cov r c) /\
    separated (smooth_elements ov l).
  Proof.
    intros G. unfold smooth_elements.
    assert (G' : Forall good (sort_by_lo l)).
    { apply Forall_forall. intros r I. apply -> sort_by_lo_In in I. rewrite Forall_forall in G; auto. }
    pose proof (sort_by_lo_sorted l) as S.
    assert (X : forall c, (exists r, In r l /\ cov r c) <-> exists r, In r (sort_by_lo l) /\ cov r c).
    { intros c. split; intros (r & I & H); exists r; split; auto; apply (sort_by_lo_In l r); auto. }
    destruct (sort_by_lo l) as [|e r] eqn:E.
    - split; [constructor|]. split; [|constructor]. intros c. rewrite X. reflexivity.
    - inversion G'; subst. destruct (smooth_loop_spec r e) as (H1' & H2' & H3' & _); auto.
      split; auto. split; auto. intros c. rewrite X, H2'. split.
      + intros [H|(r' & I & H)]; [exists e|exists r']; cbn; auto.
      + intros (r' & [<-|I] & H); eauto.
  Qed.
End Loop.

Lemma span_touch a e : nonempty a -> nonempty e -> lo a <= lo e ->
  (span_overlaps a e || (hi a =? lo e)) = (lo e <=? hi a).
Proof.
  unfold nonempty, span_overlaps. intros. apply eq_true_iff_eq.
  rewrite orb_true_iff, andb_true_iff, !Nat.ltb_lt, Nat.eqb_eq, Nat.leb_le. lia.
Qed.

Lemma char_touch a e : well_formed a -> well_formed e -> lo a <= lo e ->
  (char_overlaps a e || (hi a =? lo e)) = (lo e <=? hi a).
Proof.
  unfold well_formed, char_overlaps. intros. apply eq_true_iff_eq.
  rewrite orb_true_iff, negb_true_iff, orb_false_iff, !Nat.ltb_ge, Nat.eqb_eq, Nat.leb_le. lia.
Qed.

Definition cov_half (r : Range) (c : nat) : Prop := lo r <= c < hi r.
Definition cov_grid (r : Range) (c : nat) : Prop := 2 * lo r <= c < 2 * hi r + 1.

Lemma cov_half_to a e c : lo a <= lo e <= hi a -> lo e <= hi e ->
  (cov_half (to a e) c <-> cov_half a c \/ cov_half e c).
Proof. unfold cov_half, to; cbn. lia. Qed.

Lemma cov_grid_to a e c : lo a <= lo e <= hi a -> lo e <= hi e ->
  (cov_grid (to a e) c <-> cov_grid a c \/ cov_grid e c).
Proof. unfold cov_grid, to; cbn [lo hi]. lia. Qed.

Lemma span_smooth_spec l : Forall nonempty l ->
  Forall nonempty (smooth_elements span_overlaps l) /\
  (forall c, covered (smooth_elements span_overlaps l) c <-> covered l c) /\
  separated (smooth_elements span_overlaps l).
Proof.
  apply (smooth_spec span_overlaps nonempty) with (cov := cov_half).
  - unfold nonempty; intros; lia.
  - unfold nonempty, to; cbn; intros; lia.
  - apply span_touch.
  - intros a e c Ga Ge L. apply cov_half_to; auto. unfold nonempty in Ge; lia.
Qed.

Lemma char_smooth_spec_gen (cov : Range -> nat -> Prop) l : Forall well_formed l ->
  (forall a e c, lo a <= lo e <= hi a -> lo e <= hi e -> (cov (to a e) c <-> cov a c \/ cov e c)) ->
  Forall well_formed (smooth_elements char_overlaps l) /\
  (forall c, (exists r, In r (smooth_elements char_overlaps l) /\ cov r c) <->
             exists r, In r l /\ cov r c) /\
  separated (smooth_elements char_overlaps l).
Proof.
  intros W H. apply (smooth_spec char_overlaps well_formed); auto.
  - unfold well_formed, to; cbn; intros; lia.
  - apply char_touch.
Qed.

(** * Uniqueness of the separated form *)

Lemma separated_unique (cov : Range -> nat -> Prop) (a b : Range -> nat) (good : Range -> Prop)
    (l1 l2 : list Range) :
  (forall r c, cov r c <-> a r <= c < b r) ->
  (forall r, good r -> a r < b r) ->
  (forall r s, hi r < lo s -> b r < a s) ->
  (forall r s, a r = a s -> b r = b s -> r = s) ->
  Forall good l1 -> Forall good l2 -> separated l1 -> separated l2 ->
  (forall c, (exists r, In r l1 /\ cov r c) <-> exists r, In r l2 /\ cov r c) ->
  l1 = l2.
Proof.
  intros Hcov Hg Hsep Hinj. revert l2.
  induction l1 as [|x l1 IH]; intros l2 G1 G2 S1 S2 E.
  - destruct l2 as [|y l2]; auto. exfalso. inversion G2; subst.
    destruct (proj2 (E (a y))) as (r & [] & _). exists y. split; cbn; auto.
    apply Hcov. specialize (Hg y). intuition.
  - destruct l2 as [|y l2].
    { exfalso. inversion G1; subst. destruct (proj1 (E (a x))) as (r & [] & _).
      exists x. split; cbn; auto. apply Hcov. specialize (Hg x). intuition. }
    inversion G1 as [|? ? Gx G1']; inversion G2 as [|? ? Gy G2']; subst.
    inversion S1 as [|? ? S1' F1]; inversion S2 as [|? ? S2' F2]; subst.
    rewrite Forall_forall in F1, F2.
    assert (Hx := Hg x Gx). assert (Hy := Hg y Gy).
    assert (C1 : forall c, (exists r, In r (x :: l1) /\ cov r c) -> a x <= c).
    { intros c (r & [<-|I] & H); apply Hcov in H; try lia. specialize (F1 r I). apply Hsep in F1. lia. }
    assert (C2 : forall c, (exists r, In r (y :: l2) /\ cov r c) -> a y <= c).
    { intros c (r & [<-|I] & H); apply Hcov in H; try lia. specialize (F2 r I). apply Hsep in F2. lia. }
    assert (X : exists r, In r (x :: l1) /\ cov r (a x)) by (exists x; split; cbn; auto; apply Hcov; lia).
    assert (Y : exists r, In r (y :: l2) /\ cov r (a y)) by (exists y; split; cbn; auto; apply Hcov; lia).
    assert (La : a x = a y).
    { apply E in X. apply E in Y. apply C2 in X. apply C1 in Y. lia. }
    (* first uncovered position *)
    assert (Lb : b x = b y).
    { destruct (lt_eq_lt_dec (b x) (b y)) as [[L|L]|L]; auto; exfalso.
      - assert (Z : exists r, In r (y :: l2) /\ cov r (b x)).
        { exists y. split; cbn; auto. apply Hcov. lia. }
        apply E in Z as (r & [<-|I] & H); apply Hcov in H; try lia.
        specialize (F1 r I). apply Hsep in F1. lia.
      - assert (Z : exists r, In r (x :: l1) /\ cov r (b y)).
        { exists x. split; cbn; auto. apply Hcov. lia. }
        apply E in Z as (r & [<-|I] & H); apply Hcov in H; try lia.
        specialize (F2 r I). apply Hsep in F2. lia. }
    assert (Exy : x = y) by auto. subst y. f_equal. apply IH; auto.
    intros c. split; intros (r & I & H).
    + destruct (proj1 (E c)) as (r' & [<-|I'] & H'); [exists r; cbn; auto| |eauto].
      exfalso. apply Hcov in H, H'. specialize (F1 r I). apply Hsep in F1. lia.
    + destruct (proj2 (E c)) as (r' & [<-|I'] & H'); [exists r; cbn; auto| |eauto].
      exfalso. apply Hcov in H, H'. specialize (F2 r I). apply Hsep in F2. lia.
Qed.

Lemma range_eq (r s : Range) : lo r = lo s -> hi r = hi s -> r = s.
Proof. destruct r, s; cbn; congruence. Qed.

Lemma separated_unique_nonempty l1 l2 :
  Forall nonempty l1 -> Forall nonempty l2 -> separated l1 -> separated l2 ->
  (forall c, covered l1 c <-> covered l2 c) -> l1 = l2.
Proof.
  intros. apply (separated_unique cov_half lo hi nonempty); auto.
  - reflexivity.
  - intros; apply range_eq; auto.
Qed.

Lemma separated_unique_grid l1 l2 :
  Forall well_formed l1 -> Forall well_formed l2 -> separated l1 -> separated l2 ->
  (forall c, (exists r, In r l1 /\ cov_grid r c) <-> exists r, In r l2 /\ cov_grid r c) -> l1 = l2.
Proof.
  intros. apply (separated_unique cov_grid (fun r => 2 * lo r) (fun r => 2 * hi r + 1) well_formed); auto.
  - intros; unfold cov_grid; reflexivity.
  - unfold well_formed; intros; lia.
  - intros; lia.
  - intros; apply range_eq; lia.
Qed.

Lemma span_smooth_determined l1 l2 : Forall nonempty l1 -> Forall nonempty l2 ->
  (forall c, covered l1 c <-> covered l2 c) ->
  smooth_elements span_overlaps l1 = smooth_elements span_overlaps l2.
Proof.
  intros N1 N2 E. destruct (span_smooth_spec l1 N1) as (A1 & A2 & A3).
  destruct (span_smooth_spec l2 N2) as (B1 & B2 & B3).
  apply separated_unique_nonempty; auto. intros c. rewrite A2, B2. auto.
Qed.

Lemma Permutation_covered l1 l2 : Permutation l1 l2 -> forall c, covered l1 c <-> covered l2 c.
Proof.
  intros P c. unfold covered. split; intros (r & I & H); exists r; split; auto.
  - eapply Permutation_in; eauto.
  - eapply Permutation_in; [apply Permutation_sym|]; eauto.
Qed.

Lemma span_smooth_perm l1 l2 : Forall nonempty l1 -> Permutation l1 l2 ->
  smooth_elements span_overlaps l1 = smooth_elements span_overlaps l2.
Proof.
  intros N P. apply span_smooth_determined; auto.
  - eapply Permutation_Forall; eauto.
  - apply Permutation_covered; auto.
Qed.

Lemma span_smooth_idem l : Forall nonempty l ->
  smooth_elements span_overlaps (smooth_elements span_overlaps l) = smooth_elements span_overlaps l.
Proof.
  intros N. destruct (span_smooth_spec l N) as (A1 & A2 & A3).
  apply span_smooth_determined; auto.
Qed.

Lemma char_smooth_spec l : Forall well_formed l ->
  Forall well_formed (smooth_elements char_overlaps l) /\
  (forall c, covered (smooth_elements char_overlaps l) c <-> covered l c) /\
  separated (smooth_elements char_overlaps l).
Proof. intros W. apply (char_smooth_spec_gen cov_half l W), cov_half_to. Qed.

Lemma char_smooth_perm l1 l2 : Forall well_formed l1 -> Permutation l1 l2 ->
  smooth_elements char_overlaps l1 = smooth_elements char_overlaps l2.
Proof.
  intros W P. assert (W2 : Forall well_formed l2) by (eapply Permutation_Forall; eauto).
  destruct (char_smooth_spec_gen cov_grid l1 W cov_grid_to) as (A1 & A2 & A3).
  destruct (char_smooth_spec_gen cov_grid l2 W2 cov_grid_to) as (B1 & B2 & B3).
  apply separated_unique_grid; auto. intros c. rewrite A2, B2.
  split; intros (r & I & H); exists r; split; auto.
  - eapply Permutation_in; eauto.
  - eapply Permutation_in; [apply Permutation_sym|]; eauto.
Qed.

Lemma char_smooth_idem l : Forall well_formed l ->
  smooth_elements char_overlaps (smooth_elements char_overlaps l) = smooth_elements char_overlaps l.
Proof.
  intros W. destruct (char_smooth_spec_gen cov_grid l W cov_grid_to) as (A1 & A2 & A3).
  destruct (char_smooth_spec_gen cov_grid _ A1 cov_grid_to) as (B1 & B2 & B3).
  apply separated_unique_grid; auto. 
Qed.

(** Empty spans break disjointness and make the result depend on the order. *)
Lemma span_smooth_empty_breaks :
  exists l1 l2, Forall well_formed l1 /\ Permutation l1 l2 /\
    ~ separated (smooth_elements span_overlaps l1) /\
    smooth_elements span_overlaps l1 <> smooth_elements span_overlaps l2.
Proof.
  exists [mkR 1 5; mkR 1 1; mkR 2 3], [mkR 1 1; mkR 1 5; mkR 2 3].
  split; [repeat constructor|]. split; [constructor|]. split.
  - vm_compute. intros S. inversion S as [|? ? _ F]; subst. inversion F; subst. cbn in *. lia.
  - vm_compute. discriminate.
Qed.

(** * C15 *)

Lemma points_to_spans_nonempty hs ps :
  (forall p, well_formed (hs p)) -> Forall nonempty (points_to_spans hs ps).
Proof.
  intros W. apply Forall_forall. intros r I. unfold points_to_spans in I.
  apply filter_In in I as [I E]. apply in_map_iff in I as (p & <- & _).
  unfold is_empty in E. apply negb_true_iff, Nat.eqb_neq in E. specialize (W p).
  unfold well_formed, nonempty in *. lia.
Qed.

Section KeyToSpans.
  Variables (hs : Point -> Range) (al : Range -> option Range).
  Variables (key : nat) (live : list (Point * list nat)) (mn mx : Range).
  Hypothesis hs_wf : forall p, well_formed (hs p).
  Hypothesis mn_ne : nonempty mn.
  Hypothesis mx_ne : nonempty mx.

  Definition loc (s : Range) : Range := match al s with Some t => t | None => s end.
  Hypothesis al_ne : forall s, nonempty s -> nonempty (loc s).

  Definition inside (s : Range) : Prop := lo mn <= lo s /\ hi s <= hi mx.

  (** The spans that ought to be highlighted. *)
  Definition shown (s : Range) : Prop :=
    inside s /\
    (s = mn \/ s = mx \/
     exists p ks, In (p, ks) live /\ In key ks /\ s = hs p /\ nonempty s).

  Lemma key_to_spans_source s :
    In s (filter (fun s => (lo mn <=? lo s) && (hi s <=? hi mx))
            (points_to_spans hs (map fst (filter (fun pl => memb Nat.eq_dec key (snd pl)) live)) ++ [mn; mx]))
    <-> shown s.
  Proof.
    rewrite filter_In, andb_true_iff, !Nat.leb_le. unfold shown, inside.
    assert (P : In s (points_to_spans hs (map fst (filter (fun pl => memb Nat.eq_dec key (snd pl)) live)))
      <-> exists p ks, In (p, ks) live /\ In key ks /\ s = hs p /\ nonempty s).
    { unfold points_to_spans. rewrite filter_In, in_map_iff. split.
      - intros ((p & <- & I) & E). apply in_map_iff in I as ([p' ks] & <- & I).
        apply filter_In in I as [I M]. apply memb_In in M. exists p', ks. repeat (split; auto).
        unfold is_empty in E. apply negb_true_iff, Nat.eqb_neq in E. specialize (hs_wf p').
        unfold well_formed, nonempty in *. cbn in *. lia.
      - intros (p & ks & I & M & -> & N). split.
        + exists p. split; auto. apply in_map_iff. exists (p, ks). split; auto.
          apply filter_In. split; auto. apply memb_In; auto.
        + unfold is_empty, nonempty in *. apply negb_true_iff, Nat.eqb_neq. lia. }
    rewrite in_app_iff, P. cbn. intuition.
  Qed.

  Lemma key_to_spans_spec :
    let out := key_to_spans hs al key live mn mx in
    Forall nonempty out /\ separated out /\
    (forall c, covered out c <-> exists s, shown s /\ lo (loc s) <= c < hi (loc s)).
  Proof.
    cbv zeta. unfold key_to_spans.
    set (src := filter _ _). assert (H : forall s, In s src <-> shown s) by apply key_to_spans_source.
    fold loc. assert (N : Forall nonempty (map loc src)).
    { apply Forall_forall. intros s I. apply in_map_iff in I as (s0 & <- & I). apply al_ne.
      apply H in I as (_ & [->|[->|(p & ks & _ & _ & _ & N)]]); auto. }
    change (map (fun s => match al s with Some t => t | None => s end) src) with (map loc src).
    destruct (span_smooth_spec _ N) as (A & B & C). split; auto. split; auto.
    intros c. rewrite B. unfold covered. split.
    - intros (r & I & L). apply in_map_iff in I as (s & <- & I). apply H in I. eauto.
    - intros (s & Hs & L). exists (loc s). split; auto. apply in_map. apply H; auto.
  Qed.

  (** Without macros nothing is highlighted outside the extent. *)
  Lemma key_to_spans_extent :
    (forall s, al s = None) ->
    forall r, In r (key_to_spans hs al key live mn mx) -> lo mn <= lo r /\ hi r <= hi mx.
  Proof.
    intros NA r I. destruct key_to_spans_spec as (N & S & C).
    rewrite Forall_forall in N. specialize (N r I). unfold nonempty in N.
    assert (X : covered (key_to_spans hs al key live mn mx) (lo r)) by (exists r; split; auto; lia).
    assert (Y : covered (key_to_spans hs al key live mn mx) (hi r - 1)) by (exists r; split; auto; lia).
    apply C in X as (s & (Is & _) & L). apply C in Y as (t & (It & _) & L').
    unfold loc in *. rewrite NA in L, L'. unfold inside in *. lia.
  Qed.
End KeyToSpans.

(** Moves: exactly the moves with an empty (or dummy) source span are kept. *)
Lemma move_points_In env m s :
  In (m, s) (move_points env) <->
  m < me_moves env /\ s = me_move_span env m /\ lo s = hi s.
Proof.
  unfold move_points. rewrite in_flat_map. split.
  - intros (k & I & H). apply in_seq in I. unfold is_span_visible, is_empty in H.
    destruct (Nat.eqb_spec (lo (me_move_span env k)) (hi (me_move_span env k))); [|destruct H].
    destruct H as [E|[]]. injection E as <- <-. repeat split; auto; lia.
  - intros (L & -> & E). exists m. split; [apply in_seq; lia|].
    unfold is_span_visible, is_empty. rewrite E, Nat.eqb_refl. cbn; auto.
Qed.

Lemma visible_move_has_no_highlight env m :
  nonempty (me_move_span env m) ->
  (forall s, ~ In (m, s) (move_points env)) /\ move_region env m = None.
Proof.
  intros N. assert (X : forall s, ~ In (m, s) (move_points env)).
  { intros s I. apply move_points_In in I as (_ & -> & E). unfold nonempty in N. lia. }
  split; auto. unfold move_region.
  destruct (aget Nat.eq_dec (move_points env) m) as [a|] eqn:E; auto.
  exfalso. apply aget_Some_In in E. eapply X; eauto.
Qed.

(** * C16 *)

(** The diagnostics since the body was last switched, read off the history. *)
Fixpoint since_last_track (ops : list DiagOp) : option nat * list DiagnosticInfo :=
  match ops with
  | [] => (None, [])
  | op :: r =>
      match since_last_track r with
      | (Some id, ds) => (Some id, ds)
      | (None, ds) => match op with
                      | TrackBody id => (Some id, ds)
                      | Report d => (None, d :: ds)
                      end
      end
  end.

Lemma diag_run_gen ops : forall st,
  let r := since_last_track ops in
  let st' := fold_left diag_step ops st in
  match fst r with
  | Some id => st' = mkDS (Some id) (snd r)
  | None => st' = mkDS (current_body st) (body_diagnostics st ++ snd r)
  end.
Proof.
  induction ops as [|op ops IH]; intros st; cbn [fold_left since_last_track].
  - cbn. rewrite app_nil_r. destruct st; reflexivity.
  - specialize (IH (diag_step st op)). cbn zeta in *.
    destruct (since_last_track ops) as [[id|] ds]; cbn [fst snd] in *; auto.
    destruct op as [id|d]; cbn [fst snd diag_step current_body body_diagnostics] in *; auto.
    rewrite IH, <- app_assoc. reflexivity.
Qed.

Lemma diag_run_state pre id post :
  (forall op, In op post -> exists d, op = Report d) ->
  diag_run (pre ++ TrackBody id :: post) =
  mkDS (Some id) (flat_map (fun op => match op with Report d => [d] | TrackBody _ => [] end) post).
Proof.
  intros H. unfold diag_run. rewrite fold_left_app. cbn [fold_left].
  pose proof (diag_run_gen post (diag_step (fold_left diag_step pre diag_init) (TrackBody id))) as G.
  assert (E : since_last_track post =
    (None, flat_map (fun op => match op with Report d => [d] | TrackBody _ => [] end) post)).
  { clear G. induction post as [|op post IH]; cbn; auto.
    rewrite IH by (intros; apply H; cbn; auto).
    destruct (H op (or_introl eq_refl)) as [d ->]. reflexivity. }
  cbn zeta in G. rewrite E in G. exact G.
Qed.

Lemma min_by_lo_spec l :
  match min_by_lo l with
  | Some r => exists a b, l = a ++ r :: b /\ (forall s, In s a -> lo r < lo s) /\ forall s, In s b -> lo r <= lo s
  | None => l = []
  end.
Proof.
  induction l as [|x l IH]; cbn [min_by_lo]; auto.
  destruct (min_by_lo l) as [y|].
  - destruct IH as (a & b & E & A & B). destruct (Nat.ltb_spec (lo y) (lo x)).
    + exists (x :: a), b. split; [cbn; congruence|]. split; auto. intros s [<-|I]; auto.
    + exists [], l. split; auto. split; [intros s []|]. intros s I. rewrite E in I. apply in_app_iff in I as [I|[<-|I]]; auto.
      * specialize (A s I). lia.
      * specialize (B s I). lia.
  - subst l. exists [], []. repeat split; auto; intros s [].
Qed.

(** C16 on histories: [pre] is arbitrary, [post] the reports since the switch. *)
Lemma first_error_spec pre id post q :
  (forall op, In op post -> exists d, op = Report d) ->
  let st := diag_run (pre ++ TrackBody id :: post) in
  match get_span_of_first_error st q with
  | None => q <> id
  | Some None => q = id /\ forall d, In (Report d) post -> is_error d = false
  | Some (Some s) => q = id /\ FirstError post s
  end.
Proof.
  intros H st. subst st. rewrite diag_run_state by auto.
  unfold get_span_of_first_error. cbn [current_body body_diagnostics].
  destruct (Nat.eqb_spec id q) as [->|N]; [|congruence].
  pose proof (min_by_lo_spec (map primary_span (filter is_error
    (flat_map (fun op => match op with Report d => [d] | TrackBody _ => [] end) post)))) as M.
  destruct (min_by_lo _) as [s|].
  - split; auto. destruct M as (a & b & E & A & B). revert a E A. induction post as [|op post IH]; intros a E A; [destruct a; discriminate|].
    destruct (H op (or_introl eq_refl)) as (d & ->). cbn in E.
    assert (R : forall x, In (Report x) post -> is_error x = true -> In (primary_span x) (map primary_span (filter is_error
      (flat_map (fun op => match op with Report d => [d] | TrackBody _ => [] end) post)))).
    { intros x I X. apply in_map, filter_In. split; auto. apply in_flat_map. exists (Report x). split; cbn; auto. }
    destruct (is_error d) eqn:Ed; cbn in E.
    + destruct a as [|a0 a]; cbn in E; injection E as E0 E.
      * exists [], d, post. split; auto. split; auto. split; auto. split; [intros x []|]. intros x I X. apply B. rewrite <- E. auto.
      * destruct (IH (fun op I => H op (or_intror I)) a E) as (p1 & d' & p2 & -> & X1 & X2 & X3 & X4); [intros y I; apply A; right; auto|].
        exists (Report d :: p1), d', p2. split; auto. split; auto. split; auto. split; auto.
        intros x [X|I] Y; [|auto]. injection X as <-. rewrite E0. apply A. left; auto.
    + destruct (IH (fun op I => H op (or_intror I)) a E A) as (p1 & d' & p2 & -> & X1 & X2 & X3 & X4).
      exists (Report d :: p1), d', p2. split; auto. split; auto. split; auto. split; auto.
      intros x [X|I] Y; [|auto]. injection X as <-. congruence.
  - split; auto. intros d Id. destruct (is_error d) eqn:E; auto. exfalso.
    assert (X : In (primary_span d) (map primary_span (filter is_error
      (flat_map (fun op => match op with Report d => [d] | TrackBody _ => [] end) post)))).
    { apply in_map, filter_In. split; auto. apply in_flat_map. exists (Report d). split; cbn; auto. }
    rewrite M in X. inversion X.
Qed.

(** * Loans as a whole *)

Definition loan_regions_of (env : LoanEnv) : list (Loan * (Point * Point)) :=
  construct_loan_regions (fun p => (lo (le_point_span env p), hi (le_point_span env p)))
    (le_live_at env).

Lemma loan_shown_iff env l i :
  In (l, i) (construct_loan_info env) <->
  exists p q, In (l, (p, q)) (loan_regions_of env) /\
    lo (localised env (le_loan_span env l)) <> hi (localised env (le_loan_span env l)) /\
    i = (localised env (le_loan_span env l),
         key_to_spans (le_hir_span env) (le_as_local env) l (le_live_at env)
           (extent_start env l p) (le_point_span env q)).
Proof.
  unfold construct_loan_info. rewrite in_flat_map. fold (loan_regions_of env). split.
  - intros ([l' [p q]] & I & H). cbn [fst snd] in H. unfold loan_info in H. cbn [fst snd] in H.
    destruct (is_empty (localised env (le_loan_span env l'))) eqn:E; [destruct H|].
    destruct H as [H|[]]. injection H as <- <-. exists p, q. split; auto. split; auto.
    unfold is_empty in E. apply Nat.eqb_neq in E. auto.
  - intros (p & q & I & N & ->). exists (l, (p, q)). split; auto. cbn [fst snd].
    unfold loan_info. cbn [fst snd]. unfold is_empty. apply Nat.eqb_neq in N. rewrite N. cbn; auto.
Qed.

Lemma region_NoDup span facts : forall h, NoDup (akeys h) -> NoDup (akeys (fold_left (region_insert span) facts h)).
Proof.
  induction facts as [|[l p] r IH]; intros h H; cbn [fold_left]; auto. apply IH. unfold region_insert. apply NoDup_aset. auto.
Qed.

Lemma region_Extent env l p q : In (l, (p, q)) (loan_regions_of env) -> Extent env l p q.
Proof.
  intros I. apply (In_aget _ _ Nat.eq_dec) in I; [|apply region_NoDup; constructor].
  pose proof (loan_regions_hull (fun p => (lo (le_point_span env p), hi (le_point_span env p))) (le_live_at env) l) as X.
  unfold loan_regions_of in I. rewrite I in X. cbn [fst snd] in X. destruct X as (A & B & C).
  split; [exact A|]. split; [exact B|]. intros r (ls & I1 & I2). apply (C r ls); auto.
Qed.

Lemma live_region env l p : LiveAt env l p -> exists p q, In (l, (p, q)) (loan_regions_of env).
Proof.
  intros (ls & I1 & I2).
  pose proof (loan_regions_hull (fun p => (lo (le_point_span env p), hi (le_point_span env p))) (le_live_at env) l) as X.
  fold (loan_regions_of env) in X. destruct (aget Nat.eq_dec (loan_regions_of env) l) as [[p' q']|] eqn:E.
  - exists p', q'. apply aget_Some_In in E. auto.
  - destruct (X p ls I1 I2).
Qed.

Lemma loan_highlight_spec env l anchor rs :
  (forall p, well_formed (le_hir_span env p)) ->
  (forall s, nonempty s -> nonempty (localised env s)) ->
  In (l, (anchor, rs)) (construct_loan_info env) ->
  exists p q, Extent env l p q /\
    let mn := extent_start env l p in
    let mx := le_point_span env q in
    (nonempty mn -> nonempty mx ->
      separated rs /\
      (forall c, covered rs c <->
         exists s, Highlighted env l mn mx s /\ lo (localised env s) <= c < hi (localised env s)) /\
      ((forall s, le_as_local env s = None) ->
         forall r, In r rs -> lo mn <= lo r /\ hi r <= hi mx)).
Proof.
  intros W A I. apply loan_shown_iff in I as (p & q & I & N & E). injection E as -> ->.
  exists p, q. split; [apply region_Extent; auto|]. cbv zeta. intros N1 N2.
  destruct (key_to_spans_spec (le_hir_span env) (le_as_local env) l (le_live_at env)
    (extent_start env l p) (le_point_span env q) W N1 N2 A) as (H1 & H2 & H3).
  split; [exact H2|]. split.
  - intros c. etransitivity; [exact (H3 c)|]. split; intros (s & S1 & S2); exists s; split; auto.
    + destruct S1 as [In1 [X|[X|(r & ks & I1 & I2 & X & Y)]]]; split; auto. right. right. exists r. split; [exists ks; auto|auto].
    + destruct S1 as [In1 [X|[X|(r & (ks & I1 & I2) & X & Y)]]]; split; auto. right. right. exists r, ks. auto.
  - intros NA. apply (key_to_spans_extent (le_hir_span env) (le_as_local env)); auto.
Qed.

Lemma loan_anchor_iff env l anchor :
  (exists rs, In (l, (anchor, rs)) (construct_loan_info env)) <->
  (exists p, LiveAt env l p) /\
  anchor = localised env (le_loan_span env l) /\ lo anchor <> hi anchor.
Proof.
  split.
  - intros (rs & I). apply loan_shown_iff in I as (p & q & I & N & E). injection E as -> ->.
    split; eauto. exists p. apply region_Extent in I. apply I.
  - intros ((p & I) & -> & N). apply live_region in I as (p1 & q1 & I). eexists. apply loan_shown_iff. exists p1, q1. eauto.
Qed.

Lemma visible_move_witness :
  exists env m, m < me_moves env /\ lo (me_move_span env m) < hi (me_move_span env m) /\
    (forall s, ~ In (m, s) (move_points env)) /\ move_region env m = None.
Proof.
  exists (mkMoveEnv (fun _ => mkR 1 2) (fun _ => mkR 4 8) 1 (fun _ => true) []), 0.
  split; [cbn; lia|]. split; [cbn; lia|]. apply visible_move_has_no_highlight. unfold nonempty; cbn; lia.
Qed.

(** The highlight of a move that has one. *)
Lemma move_region_spec env m :
  (forall p, lo (me_hir_span env p) <= hi (me_hir_span env p)) ->
  match move_region env m with
  | None => ~ (m < me_moves env /\ lo (me_move_span env m) = hi (me_move_span env m))
  | Some rs =>
      m < me_moves env /\ lo (me_move_span env m) = hi (me_move_span env m) /\
      StronglySorted (fun a b => hi a < lo b) rs /\
      forall c, covered rs c <->
        exists p row path,
          In (p, row) (me_refined env) /\ In (path, m) row /\ me_operational env p = true /\
          lo (me_move_span env m) <= lo (me_hir_span env p) /\
          lo (me_hir_span env p) <= c < hi (me_hir_span env p)
  end.
Proof.
  intros Wf. unfold move_region.
  destruct (aget Nat.eq_dec (move_points env) m) as [a|] eqn:E.
  - apply aget_Some_In in E. apply move_points_In in E as (Lm & -> & Em).
    split; auto. split; auto.
    set (l := filter _ _).
    assert (W : Forall (fun r => lo r < hi r) l).
    { apply Forall_forall. intros r I. unfold l in I. apply filter_In in I as [I _].
      unfold points_to_spans in I. apply filter_In in I as [I N].
      apply in_map_iff in I as (p & <- & _). unfold is_empty in N.
      apply negb_true_iff, Nat.eqb_neq in N. specialize (Wf p). lia. }
    destruct (span_smooth_spec l W) as (_ & B & C). split; [exact C|].
    intros c. rewrite (B c). unfold covered. split.
    + intros (r & I & Hc). unfold l in I. apply filter_In in I as [I La].
      apply Nat.leb_le in La. unfold points_to_spans in I. apply filter_In in I as [I _].
      apply in_map_iff in I as (p & <- & I). apply filter_In in I as [I O].
      unfold move_to_spans in I. apply in_flat_map in I as ([q row] & Ir & I).
      apply in_map_iff in I as ([path k] & Eq & I). cbn in Eq, I. subst q.
      apply filter_In in I as [I Ek]. cbn in Ek. apply Nat.eqb_eq in Ek. subst k.
      exists p, row, path. auto.
    + intros (p & row & path & Ir & Ip & O & La & Hc). exists (me_hir_span env p).
      split; [|exact Hc]. unfold l. apply filter_In. split; [|apply Nat.leb_le; auto].
      unfold points_to_spans. apply filter_In. split.
      * apply in_map. apply filter_In. split; auto.
        unfold move_to_spans. apply in_flat_map. exists (p, row). split; auto.
        apply in_map_iff. exists (path, m). split; auto.
        apply filter_In. split; auto. cbn. apply Nat.eqb_refl.
      * unfold is_empty. apply negb_true_iff, Nat.eqb_neq. lia.
  - intros [Lm Em].
    assert (I : In (m, me_move_span env m) (move_points env)) by (apply move_points_In; auto).
    apply aget_None in E. apply E. unfold akeys. apply in_map_iff. exists (m, me_move_span env m). auto.
Qed.
