(** * Proofs about the boundaries of a whole function *)
From Coq Require Import List Arith Bool Lia Sorted.
From Verif Require Import Base PermsModel PermsSpec PermsProofs FactsModel FactsSpec FactsProofs FlowModel FlowSpec
  FlowProofs SpansModel SpansSpec SpansProofs BoundariesModel BoundariesSpec BoundariesProofs PropBoundaries
  UsesModel UsesSpec.
Import ListNotations.

Lemma FirstError_unique post s s' : FirstError post s -> FirstError post s' -> s = s'.
Proof.
  intros (a & d & b & E & D & P & A & B) (a' & d' & b' & E' & D' & P' & A' & B'). subst.
  assert (K : forall (l1 l2 r1 r2 : list DiagOp) x1 x2, l1 ++ x1 :: r1 = l2 ++ x2 :: r2 ->
    (l1 = l2 /\ x1 = x2) \/ In x2 l1 /\ In x1 r2 \/ In x1 l2 /\ In x2 r1).
  { clear. induction l1 as [|y l1 IH]; intros [|z l2] r1 r2 x1 x2 E; cbn in E; injection E as E0 E; subst; auto.
    - right. right. split; [left; auto|apply in_app_iff; right; left; auto].
    - right. left. split; [left; auto|apply in_app_iff; right; left; auto].
    - destruct (IH _ _ _ _ _ E) as [[-> ->]|[[X Y]|[X Y]]]; auto; right; [left|right]; split; auto; right; auto. }
  destruct (K _ _ _ _ _ _ E') as [[_ X]|[[X Y]|[X Y]]]; [congruence| |].
  - specialize (A _ X D'). specialize (B' _ Y D). lia.
  - specialize (A' _ X D). specialize (B _ Y D'). lia.
Qed.

Lemma constraints_of_spec env h :
  (ue_locs env h = None /\ constraints_of env h = None) \/
  (exists cs, constraints_of env h = Some cs /\ ue_locs env h <> None /\ forall c, In c cs <-> HoldsAt env h c).
Proof.
  unfold constraints_of, HoldsAt. destruct (ue_locs env h) as [ls|]; [right|left; auto]. cbn [option_map].
  destruct (constraints_exact (ue_placeholders env) (ue_subset_base env)
    (map (fun l => [ue_start env l; ue_mid env l]) ls)) as (cs & E & I & _).
  exists cs. split; auto. split; [discriminate|]. intros [[f t] p]. rewrite I. cbn [fst snd]. split.
  - intros (A & B & C & ps & P & Q). repeat split; auto. apply in_map_iff in P as (l & <- & L). exists ls, l.
    split; auto. split; auto. destruct Q as [Q|[Q|[]]]; auto.
  - intros (A & B & C & ls' & l & X & L & Q). injection X as <-. repeat split; auto.
    exists [ue_start env l; ue_mid env l]. split; [apply in_map_iff; eauto|]. cbn. destruct Q as [->| ->]; auto.
Qed.

Section Uses.
  Variable env : uenv.
  Variable fi : FlowIn.
  Hypothesis An : Analysed env fi.

  Lemma flow_of_spec ctx use :
    match flow_of env ctx use with
    | Some r => FlowRequired env fi ctx use r
    | None => exists s, ShownSpan env ctx s /\ ue_chars env s = None
    end.
  Proof.
    destruct An as (_ & Fl & Sb). unfold flow_of.
    pose proof (flow_permission_spec fi (ue_flows env) Fl (ue_flow_enabled env) (constraints_of env ctx)
      (constraints_of env use) (mkR 0 0)) as H.
    destruct (constraints_of_spec env ctx) as [[Lc Cc]|(cs & Cc & Lc & Hc)].
    - rewrite Cc in *. destruct H as (r & -> & H); [discriminate|]. destruct r as [fb|].
      + destruct H as (_ & _ & ? & ? & X & _). discriminate X.
      + cbn. auto.
    - rewrite Cc in *. destruct H as (r & -> & H).
      { intros cs' c X I. injection X as <-. apply Sb, Hc. auto. }
      destruct r as [fb|].
      + destruct H as (En & _ & cs' & ss & X & Y & T & V & K). injection X as <-.
        destruct (constraints_of_spec env use) as [[Lu Cu]|(us & Cu & Lu & Hu)]; [congruence|].
        rewrite Cu in Y. injection Y as <-.
        assert (O : forall c, (In c cs /\ Offends fi us c) <-> BrokenFlow env fi ctx use c).
        { intros c. unfold Offends, BrokenFlow. rewrite (Hc c). split.
          - intros (A & B & C & s & S1 & S2). repeat split; try apply A; auto. exists s. split; auto. apply Hu. auto.
          - intros (A & B & C & s & S1 & S2). repeat split; try apply A; auto. exists s. split; auto. apply Hu. auto. }
        set (span := match ue_local env (ue_hir_span env ctx) with Some s => s | None => ue_body_span env end).
        assert (Sh : ShownSpan env ctx span).
        { unfold ShownSpan, span. destruct (ue_local env (ue_hir_span env ctx)); auto. }
        destruct (ue_chars env span) as [range|] eqn:Ch; [|eauto].
        cbn [FlowRequired fb_context fb_violation fb_kind]. split; auto. split; auto. split.
        { destruct T as (c & I & T). exists c. split; auto. apply Hc. auto. }
        split; [eauto|]. split.
        { rewrite V. split; intros (c & X); exists c; apply O; auto. }
        destruct (fb_violation fb); auto. destruct K as (pre & c & post & E & Of & _ & Ve).
        exists c. split; auto. apply O. split; auto. subst cs. apply in_app_iff. right. left. auto.
      + cbn. destruct H as [H|[H|[H|(cs' & X & H)]]]; auto; [discriminate H| |].
        * destruct (constraints_of_spec env use) as [[Lu Cu]|(us & Cu & Lu & Hu)]; [auto|congruence].
        * injection X as <-. right. right. right. intros c I. apply H, Hc. auto.
  Qed.

  Lemma path_spec pb :
    match path_to_perm_boundary env pb with
    | Some (Some b) => Describes env fi pb b
    | Some None => Unresolved env pb
    | None => Culprit env pb
    end.
  Proof.
    unfold path_to_perm_boundary.
    pose proof (C54_nearest_ancestor (ue_visible env) (ue_stmt env) (ue_locs env) (ue_similar env) (pb_lhs pb)
      (pb_hir pb) (ue_parents env (pb_hir pb))) as R.
    destruct (resolve _ _ _ _ _ _ _) as [[loc x]|]; [|exact R].
    assert (Rs : Resolves env pb loc x) by exact R.
    destruct (query (ue_inp env) (ue_out env) x (ue_start env loc)) as [d|] eqn:Q.
    - pose proof (flow_of_spec (pb_context pb) (pb_hir pb)) as F.
      destruct (flow_of env (pb_context pb) (pb_hir pb)) as [flow|]; [|right; left; auto].
      set (span := match ue_local env (pb_location pb) with Some s => s | None => pb_location pb end).
      assert (Sp : ue_local env (pb_location pb) = Some span \/ (ue_local env (pb_location pb) = None /\ span = pb_location pb)).
      { unfold span. destruct (ue_local env (pb_location pb)); auto. }
      destruct (ue_chars env span) as [c|] eqn:Ch; [|right; right; exists span; auto].
      destruct (ue_bytes env span) as [y|] eqn:By; [|right; right; exists span; auto].
      split; [|split; [reflexivity|split; [exact F|]]].
      + exists loc, x. split; auto. cbn [b_actual].
        destruct (query_can (ue_inp env) (ue_out env) (proj1 An) x (ue_start env loc) d Q) as (A1 & A2 & A3).
        destruct (perms_ignore_spec d) as (P1 & P2 & P3). unfold ActualPermissions. rewrite P1, P2, P3, A1, A2, A3. tauto.
      + exists span, c, y. auto.
    - left. exists loc, x. split; auto. intros K.
      apply (proj2 (query_defined (ue_inp env) (ue_out env) x (ue_start env loc))) in K as (d & K). congruence.
  Qed.

  Variable st : DiagState.
  Variable id : nat.
  Variable post : list DiagOp.
  Hypothesis Tr : TrackedAs st id post.

  Lemma kept_spec b e : first_error_end env st id = Some e ->
    ((e = None \/ b_flow b <> None \/ exists n, e = Some n /\ b_byte b <= n) <-> Kept env post b).
  Proof.
    destruct Tr as (pre & -> & Rp). unfold first_error_end. pose proof (first_error_spec pre id post id Rp) as F. cbv zeta in F.
    destruct (get_span_of_first_error _ id) as [[s|]|]; [| |discriminate].
    - destruct F as [_ F]. unfold Kept. destruct (ue_local env s) as [s'|] eqn:L.
      + destruct (ue_bytes env s') as [r|] eqn:B; [|discriminate]. intros X. injection X as <-. split.
        * intros [X|[X|(n & X & Y)]]; [discriminate|auto|]. injection X as <-. right. right. exists s. split; auto. right. exists s', r. auto.
        * intros [X|[X|(s2 & X & Y)]]; auto.
          -- destruct F as (a & d & q & -> & D & _). rewrite (X d) in D; [discriminate|]. apply in_app_iff. right. left. auto.
          -- rewrite (FirstError_unique _ _ _ X F) in Y. destruct Y as [Y|(s3 & r3 & Y1 & Y2 & Y3)]; [congruence|].
             rewrite L in Y1. injection Y1 as <-. rewrite B in Y2. injection Y2 as <-. eauto.
      + intros X. injection X as <-. split; [|auto]. intros _. right. right. exists s. auto.
    - intros X. injection X as <-. split; auto. intros _. right. left. apply F.
  Qed.

  Variable body : Expr.

  Lemma boundaries_sound bs b : boundaries_of env st id body = Some bs -> In b bs ->
    Kept env post b /\ exists fc e pb, Reached (eid body) body fc e /\ UseSite fc e pb /\ Describes env fi pb b.
  Proof.
    unfold boundaries_of. destruct (first_error_end env st id) as [e|] eqn:E; [|discriminate].
    destruct (traverse _ _) as [rs|] eqn:T; [|discriminate]. intros X. injection X as <-.
    rewrite boundaries_filter. intros ((r & I & ->) & K). split; [apply (kept_spec _ _ E); auto|].
    apply (traverse_Some _ _ _ T) in I as (pb & P & Q). apply visit_iff in P as (fc & x & R & U).
    exists fc, x, pb. split; auto. split; auto. pose proof (path_spec pb) as Z. rewrite Q in Z. exact Z.
  Qed.

  Lemma boundaries_complete bs fc e pb : boundaries_of env st id body = Some bs ->
    Reached (eid body) body fc e -> UseSite fc e pb ->
    Unresolved env pb \/ exists b, Describes env fi pb b /\ (Kept env post b <-> In b bs).
  Proof.
    unfold boundaries_of. destruct (first_error_end env st id) as [er|] eqn:E; [|discriminate].
    destruct (traverse _ _) as [rs|] eqn:T; [|discriminate]. intros X R U. injection X as <-.
    assert (P : In pb (get_path_boundaries body)) by (apply visit_iff; eauto).
    destruct (traverse_defined _ _ _ T _ P) as (r & Q). pose proof (path_spec pb) as Z. rewrite Q in Z.
    destruct r as [b|]; [right|left; auto]. exists b. split; auto. rewrite boundaries_filter, (kept_spec _ _ E).
    split; [|tauto]. intros K. split; auto. exists (Some b). split; auto. apply (traverse_Some _ _ _ T). eauto.
  Qed.

  Lemma boundaries_crash : boundaries_of env st id body = None ->
    (exists s s', FirstError post s /\ ue_local env s = Some s' /\ ue_bytes env s' = None) \/
    exists fc e pb, Reached (eid body) body fc e /\ UseSite fc e pb /\ Culprit env pb.
  Proof.
    unfold boundaries_of. destruct (first_error_end env st id) as [er|] eqn:E.
    - destruct (traverse _ _) as [rs|] eqn:T; [discriminate|]. intros _. right.
      destruct (existsb (fun pb => negb (is_some (path_to_perm_boundary env pb))) (get_path_boundaries body)) eqn:X.
      + apply existsb_exists in X as (pb & I & N). apply visit_iff in I as (fc & x & R & U). exists fc, x, pb. split; auto. split; auto.
        pose proof (path_spec pb) as Z. destruct (path_to_perm_boundary env pb); [discriminate|exact Z].
      + exfalso. destruct (traverse_total (path_to_perm_boundary env) (get_path_boundaries body)) as (rs & Y); [|congruence].
        intros pb I. destruct (path_to_perm_boundary env pb) eqn:Q; eauto. exfalso.
        apply not_true_iff_false in X. apply X. apply existsb_exists. exists pb. rewrite Q. auto.
    - intros _. left. revert E. unfold first_error_end. destruct Tr as (pre & -> & Rp).
      pose proof (first_error_spec pre id post id Rp) as F. cbv zeta in F.
      destruct (get_span_of_first_error _ id) as [[s|]|]; [|discriminate|congruence].
      destruct (ue_local env s) as [s'|] eqn:L; [|discriminate]. destruct (ue_bytes env s') eqn:B; [discriminate|].
      intros _. exists s, s'. split; auto. apply F.
  Qed.
End Uses.

Lemma boundaries_sorted env st id body bs :
  InOrder body ->
  (forall s s', ue_local env s = Some s' -> s' = s) ->
  (forall s t c d, hi s <= hi t -> ue_chars env s = Some c -> ue_chars env t = Some d -> hi c <= hi d) ->
  boundaries_of env st id body = Some bs ->
  StronglySorted (fun a b => b_location a <= b_location b) bs.
Proof.
  intros Or Lo Mo. unfold boundaries_of. destruct (first_error_end env st id) as [e|]; [|discriminate].
  destruct (traverse _ _) as [rs|] eqn:T; [|discriminate]. intros X. injection X as <-.
  pose proof (visit_sorted body Or (eid body)) as So. unfold get_path_boundaries in T.
  assert (Lc : forall pb b, path_to_perm_boundary env pb = Some (Some b) ->
    exists c, ue_chars env (pb_location pb) = Some c /\ b_location b = hi c).
  { intros pb b. unfold path_to_perm_boundary. destruct (resolve _ _ _ _ _ _ _) as [[loc x]|]; [|discriminate].
    destruct (query _ _ _ _); [|discriminate]. destruct (flow_of _ _ _); [|discriminate].
    replace (match ue_local env (pb_location pb) with Some s => s | None => pb_location pb end) with (pb_location pb)
      by (destruct (ue_local env (pb_location pb)) eqn:L; auto; symmetry; eapply Lo; eauto).
    destruct (ue_chars env (pb_location pb)) as [c|]; [|discriminate]. destruct (ue_bytes env (pb_location pb)); [|discriminate].
    intros E. injection E as <-. exists c. auto. }
  unfold compute_permission_boundaries.
  revert rs T. induction So as [|pb r So IH F]; intros rs T; cbn in T; [injection T as <-; constructor|].
  destruct (path_to_perm_boundary env pb) as [ob|] eqn:Q; [|discriminate].
  destruct (traverse (path_to_perm_boundary env) r) as [rs'|] eqn:T'; [|discriminate]. injection T as <-.
  cbn [flat_map]. destruct ob as [b|]; cbn [app filter]; auto.
  match goal with |- StronglySorted _ (if ?c then _ else _) => destruct c; auto end.
  constructor; auto. apply Forall_forall. intros b' I. apply filter_In in I as [I _].
  apply in_flat_map in I as ([b2|] & I & J); [|destruct J]. destruct J as [<-|[]].
  apply (traverse_Some _ _ _ T') in I as (pb' & I & Q'). rewrite Forall_forall in F. specialize (F _ I).
  destruct (Lc _ _ Q) as (c & C1 & ->). destruct (Lc _ _ Q') as (c' & C1' & ->). eapply Mo; eauto.
Qed.
