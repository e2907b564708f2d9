(** * Proofs about the switch *)
From Coq Require Import Ascii String.
From Coq Require Import List Arith Bool Lia.
From Verif Require Import Base BookModel RunModel FrontModel GlassModel GlassSpec.
From Verif Require PropFront.
Import ListNotations.
Local Open Scope list_scope.

Section Proofs.
  Context (steps : list fstep) (works : nat -> nat -> arrow -> bool).

  (** The elements of an arrow. *)
  Definition els (t k : nat) (a : arrow) : list svg :=
    if works t k a then Svg t k a Line :: match a_range a with Some _ => [Svg t k a Area] | None => [] end else [].

  Lemma render_ptr_els t k a box lines : render_ptr works t k a ([], box, lines) = ([], box ++ els t k a, lines ++ els t k a).
  Proof.
    unfold render_ptr, els. destruct (works t k a); [|rewrite !app_nil_r; reflexivity]. cbn [List.app].
    destruct (a_range a); cbn; reflexivity.
  Qed.
  Lemma render_arrows_els t k ars box : render_arrows works t k ars [] box = ([], box ++ flat_map (els t k) ars, flat_map (els t k) ars).
  Proof.
    unfold render_arrows. change (flat_map (els t k) ars) with ([] ++ flat_map (els t k) ars) at 2. generalize (@nil svg) at 2 4. intros lines. revert box lines.
    induction ars as [|a ars IH]; intros box lines; cbn [fold_left flat_map]; [rewrite !app_nil_r; reflexivity|].
    rewrite render_ptr_els, IH, <- !app_assoc. reflexivity.
  Qed.

  Lemma els_in t k a x : In x (els t k a) <-> g_time x = t /\ g_step x = k /\ g_arrow x = a /\ works t k a = true /\ (g_part x = Area -> a_range a <> None).
  Proof.
    unfold els. destruct x as [t' k' a' p]. cbn [g_time g_step g_arrow g_part]. destruct (works t k a).
    - destruct p.
      + split.
        * intros H. assert (Q : Svg t' k' a' Line = Svg t k a Line) by (destruct (a_range a); cbn in H; intuition congruence). injection Q as -> -> ->. repeat split; discriminate.
        * intros (-> & -> & -> & _). left. reflexivity.
      + split.
        * intros [H|H]; [discriminate H|]. destruct (a_range a) as [r|] eqn:E; [|destruct H]. destruct H as [H|[]]. injection H as <- <- <-. repeat split; auto; discriminate.
        * intros (-> & -> & -> & _ & H). right. destruct (a_range a); [left; reflexivity|]. destruct H; reflexivity.
    - cbn. intuition congruence.
  Qed.
  Lemma els_nodup t k a : NoDup (els t k a).
  Proof.
    unfold els. destruct (works t k a); [|constructor]. destruct (a_range a); repeat constructor; cbn; intuition discriminate.
  Qed.
  Lemma arrows_els t k ars : NoDup ars -> Arrows works t k ars (flat_map (els t k) ars).
  Proof.
    intros N. split.
    - induction N as [|a ars NI N IH]; cbn [flat_map]; [constructor|].
      assert (D : forall x, In x (els t k a) -> ~ In x (flat_map (els t k) ars)).
      { intros x A B. apply els_in in A as (_ & _ & A & _). apply in_flat_map in B as (b & Ib & B). apply els_in in B as (_ & _ & B & _). congruence. }
      revert D. generalize (els_nodup t k a). induction (els t k a) as [|x l IHl]; intros Nl D; cbn [List.app]; [exact IH|]. inversion Nl; subst. constructor.
      + rewrite in_app_iff. intros [C|C]; [contradiction|]. exact (D x (or_introl eq_refl) C).
      + apply IHl; [assumption|]. intros y I. apply D. right. exact I.
    - intros x. rewrite in_flat_map. split.
      + intros (a & I & H). apply els_in in H as (A & B & <- & C & D). auto.
      + intros (A & B & C & D & E). exists (g_arrow x). split; [exact C|]. apply els_in. auto.
  Qed.

  Lemma clean_none (p : panel) : p_box p = p_lines p -> clean_up p = [].
  Proof.
    intros E. unfold clean_up. rewrite <- E. assert (K : forall l, (forall x, In x l -> In x (p_box p)) -> filter (fun x => if in_dec svg_eqd x (p_box p) then false else true) l = []).
    { induction l as [|x l IH]; intros H; cbn [filter]; [reflexivity|]. destruct (in_dec svg_eqd x (p_box p)) as [_|N]; [apply IH; intros y I; apply H; right; exact I|].
      destruct N. apply H. left. reflexivity. }
    apply K. auto.
  Qed.

  Lemma effects_spec t : forall ds k boxes ps bd, effects works t k ds boxes [] = (ps, bd) -> length boxes = length ds -> (forall b, In b boxes -> b = []) ->
    bd = [] /\ Forall2 (fun p d => p_items p = fst d /\ p_box p = p_lines p) ps ds /\
    forall i p d, nth_error ps i = Some p -> nth_error ds i = Some d -> p_box p = flat_map (els t (k + i)) (snd d).
  Proof.
    induction ds as [|[items ars] ds IH]; intros k boxes ps bd H L B; cbn [effects] in H.
    - injection H as <- <-. split; [reflexivity|]. split; [constructor|]. intros [|i]; discriminate.
    - destruct boxes as [|box boxes]; [discriminate L|]. rewrite render_arrows_els in H. rewrite (B box (or_introl eq_refl)) in H. cbn [List.app] in H.
      destruct (effects works t (S k) ds boxes []) as [ps' bd'] eqn:E. injection H as <- <-.
      destruct (IH (S k) boxes ps' bd' E) as (A & F & G); [cbn in L; lia|intros b I; apply B; right; exact I|].
      split; [exact A|]. split; [constructor; [split; reflexivity|exact F]|]. intros [|i] p d; cbn [nth_error].
      + intros [= <-] [= <-]. rewrite Nat.add_0_r. reflexivity.
      + intros Np Nd. rewrite <- plus_n_Sm. exact (G i p d Np Nd).
  Qed.

  Lemma view_nodup c ds : interpreter_view c steps = Some ds -> length ds = length steps /\ Forall (fun d => NoDup (snd d)) ds.
  Proof.
    unfold interpreter_view. revert ds. induction steps as [|s l IH]; intros ds; cbn [map all_some].
    - intros [= <-]. split; [reflexivity|constructor].
    - destruct (step_view c s) as [[items ars]|] eqn:E; [|discriminate]. destruct (all_some (map (step_view c) l)) as [r|] eqn:Er; [|discriminate]. cbn. intros [= <-].
      destruct (IH r eq_refl) as [L F]. split; [cbn; rewrite L; reflexivity|]. constructor; [|exact F]. cbn [snd].
      destruct (PropFront.C52_arrows c s items ars E) as (N & _). apply (NoDup_map_inv a_src), N.
  Qed.

  Definition Good (w : world) : Prop :=
    body w = [] /\
    match shown w with
    | Removed => True
    | Mounted c v t ps => exists ds, interpreter_view c steps = Some ds /\ Showing works t ds ps /\ length ps = length steps /\ Forall (fun p => p_box p = p_lines p) ps
    end.
  Lemma pass_good c v t boxes : length boxes = length steps -> (forall b, In b boxes -> b = []) ->
    Good (pass steps works c v t boxes []) /\
    match interpreter_view c steps with None => shown (pass steps works c v t boxes []) = Removed | Some _ => exists ps, shown (pass steps works c v t boxes []) = Mounted c v t ps end.
  Proof.
    intros L B. unfold pass. destruct (interpreter_view c steps) as [ds|] eqn:E; [|split; [split; [reflexivity|exact Logic.I]|reflexivity]].
    destruct (view_nodup c ds E) as [Ld Nd]. destruct (effects works t 0 ds boxes []) as [ps bd] eqn:Ef.
    destruct (effects_spec t ds 0 boxes ps bd Ef) as (-> & F & G); [congruence|exact B|]. split; [|exists ps; reflexivity].
    assert (Lp : length ps = length ds) by (clear - F; induction F; cbn; congruence).
    split; [reflexivity|]. cbn [shown]. exists ds. split; [exact E|]. split; [|split; [congruence|]].
    - split; [exact Lp|]. intros k p d Np Ndd. split.
      + clear - F Np Ndd. revert k Np Ndd. induction F as [|p0 d0 ps ds H F IH]; intros [|k]; cbn; try discriminate; [|apply IH]. intros [= <-] [= <-]. apply H.
      + rewrite (G k p d Np Ndd). cbn [Nat.add]. apply arrows_els. rewrite Forall_forall in Nd. apply Nd, (nth_error_In _ _ Ndd).
    - clear - F. induction F as [|p d ps ds H F IH]; constructor; [apply H|exact IH].
  Qed.
  Lemma clean_boxes ps : Forall (fun p => p_box p = p_lines p) ps -> forall b, In b (map clean_up ps) -> b = [].
  Proof. intros F b I. apply in_map_iff in I as (p & <- & I). rewrite Forall_forall in F. apply clean_none, F, I. Qed.

  Lemma start_good options : Good (start steps works options).
  Proof. apply pass_good; [apply map_length|]. intros b I. apply in_map_iff in I as (s & <- & _). reflexivity. Qed.

  (** Every event that changes something makes a pass. *)
  Lemma event_spec e w : Good w ->
    Good (on_event steps works e w) /\
    match shown w with
    | Removed => on_event steps works e w = w
    | Mounted c v t ps =>
      let c' := match e with Click => negb c | _ => c end in
      let v' := match e with Enter => true | Leave => false | Click => v end in
      (interpreter_view c' steps = None -> shown (on_event steps works e w) = Removed) /\
      (interpreter_view c' steps <> None -> exists t' ps', shown (on_event steps works e w) = Mounted c' v' t' ps')
    end.
  Proof.
    intros G. unfold on_event. destruct (shown w) as [c v t ps|] eqn:E; [|split; [exact G|reflexivity]].
    pose proof G as (B & G'). rewrite E in G'. destruct G' as (ds & I & Sh & L & F).
    assert (P : forall c' v', Good (pass steps works c' v' (S t) (map clean_up ps) (body w)) /\
      (interpreter_view c' steps = None -> shown (pass steps works c' v' (S t) (map clean_up ps) (body w)) = Removed) /\
      (interpreter_view c' steps <> None -> exists t' ps', shown (pass steps works c' v' (S t) (map clean_up ps) (body w)) = Mounted c' v' t' ps')).
    { intros c' v'. rewrite B. destruct (pass_good c' v' (S t) (map clean_up ps)) as [P1 P2]; [rewrite map_length; exact L|apply clean_boxes, F|].
      split; [exact P1|]. destruct (interpreter_view c' steps) as [ds'|]; split; try congruence. intros _. destruct P2 as [ps' P2]. eauto. }
    assert (W : Good w /\ (interpreter_view c steps = None -> shown w = Removed) /\ (interpreter_view c steps <> None -> exists t' ps', shown w = Mounted c v t' ps')).
    { split; [exact G|]. split; [congruence|]. intros _. eauto. }
    destruct e; cbv zeta; [destruct v|destruct v|]; first [exact W|apply P].
  Qed.
End Proofs.
