(** * Properties of how the page shows an execution *)

From Coq Require Import Ascii String.
From Coq Require Import List Arith Bool Lia Permutation Sorting.Sorted ZArith.
From Verif Require Import Base TraceModel ValuesModel BookModel FrontModel FrontSpec FrontProofs.
Import ListNotations.

(** ** C51: the marked states *)

Lemma Forall2_length {A B} (R : A -> B -> Prop) l l' : Forall2 R l l' -> length l = length l'.
Proof. induction 1; cbn; auto. Qed.
Lemma combine_seq_nth {T} (l : list T) a i : nth_error (combine (seq a (length l)) l) i = option_map (pair (a + i)) (nth_error l i).
Proof.
  revert a i. induction l as [|x l IH]; intros a [|i]; cbn; auto.
  - rewrite Nat.add_0_r. auto.
  - rewrite IH. rewrite <- plus_n_Sm. auto.
Qed.
Lemma map_combine_seq {T U} (f : nat -> U) (l : list T) a : map (fun p => f (fst p)) (combine (seq a (length l)) l) = map f (seq a (length l)).
Proof. revert a. induction l as [|x l IH]; intros a; cbn; auto. rewrite IH. auto. Qed.
Lemma map_combine_snd {T U} (g : T -> U) (l : list T) a : map (fun p => g (snd p)) (combine (seq a (length l)) l) = map g l.
Proof. revert a. induction l as [|x l IH]; intros a; cbn; auto. rewrite IH. auto. Qed.

Lemma seq_shift1 n a : map (fun i => i + 1) (seq a n) = seq (S a) n.
Proof. revert a. induction n as [|n IH]; intros a; cbn; auto. rewrite IH. f_equal. lia. Qed.

Lemma panels_labels steps r : map p_label (panels steps r) = seq 1 (length steps).
Proof.
  unfold panels. rewrite map_map. rewrite <- (seq_shift1 _ 0), <- (map_combine_seq (fun i => i + 1) steps 0).
  apply map_ext. intros [i s]. auto.
Qed.
Lemma panels_steps steps r : map p_step (panels steps r) = steps.
Proof.
  unfold panels. rewrite map_map. rewrite <- (map_id steps) at 3. rewrite <- (map_combine_snd (fun s => s) steps 0).
  apply map_ext. intros [i s]. auto.
Qed.
Lemma panels_nth steps r i : nth_error (panels steps r) i =
  option_map (fun s => Panel (i + 1) (if (i =? length steps - 1) && is_error r then r else None) s) (nth_error steps i).
Proof. unfold panels. rewrite nth_error_map, combine_seq_nth. destruct (nth_error steps i); auto. Qed.

(** With marks in the code, the states shown are: for each mark, the last state that
    fits it, in the order of execution (marks of one state in their own order).
    The marker of a state is where the mark was, and has the number of the state's
    panel. *)
Theorem C51_marked steps result marks ws ps :
  marks <> [] ->
  render_interpreter (MTrace steps result) marks = Some (ws, ps) ->
  exists ks ks0,
    Forall2 (LastFit steps) (map w_pos ws) ks /\ Forall2 (fun k s => nth_error steps k = Some s) ks (map p_step ps) /\
    Permutation (map w_pos ws) marks /\ StronglySorted le ks /\
    Forall2 (LastFit steps) marks ks0 /\
    (forall k, filter (fun p => snd p =? k) (combine (map w_pos ws) ks) = filter (fun p => snd p =? k) (combine marks ks0)) /\
    map w_label ws = seq 1 (length marks) /\ map p_label ps = seq 1 (length marks).
Proof.
  intros N H. unfold render_interpreter in H. cbn [tr_steps tr_result] in H.
  assert (L : 0 <? length marks = true) by (apply Nat.ltb_lt; destruct marks; [congruence|cbn; lia]). rewrite L in H.
  destruct (filter_steps steps marks) as [[ms ss]|] eqn:E; try discriminate. injection H as <- <-.
  apply filter_steps_spec in E. destruct E as (ks & ks0 & A & B & C & D & E & F).
  assert (W : map w_pos (map (fun '(i, m) => Widget m (i + 1) ((i =? length ss - 1) && is_error result)) (combine (seq 0 (length ms)) ms)) = ms).
  { rewrite map_map. rewrite <- (map_id ms) at 3. rewrite <- (map_combine_snd (fun s => s) ms 0). apply map_ext. intros [i m]. auto. }
  assert (LM : length ms = length marks) by (apply Permutation_length; auto).
  assert (LS : length ss = length marks).
  { apply Forall2_length in A. apply Forall2_length in B. congruence. }
  exists ks, ks0. rewrite W, panels_steps, panels_labels, LS. repeat split; auto.
  rewrite map_map, <- LM. rewrite <- (seq_shift1 _ 0), <- (map_combine_seq (fun i => i + 1) ms 0).
  apply map_ext. intros [i m]. auto.
Qed.
Print Assumptions C51_marked.

(** Nothing is shown iff some mark fits no state. *)
Theorem C51_fails_iff steps result marks : running steps -> marks <> [] ->
  (render_interpreter (MTrace steps result) marks = None <-> exists m, In m marks /\ forall s, In s steps -> ~ Fits m s).
Proof.
  intros R N. rewrite <- filter_steps_none by auto. unfold render_interpreter. cbn [tr_steps tr_result].
  assert (L : 0 <? length marks = true) by (apply Nat.ltb_lt; destruct marks; [congruence|cbn; lia]). rewrite L.
  destruct (filter_steps steps marks) as [[ms ss]|]; split; auto; discriminate.
Qed.
Print Assumptions C51_fails_iff.

(** Without marks all states are shown, each marked at the end of its location. *)
Theorem C51_unmarked steps result : running steps ->
  exists ws ps, render_interpreter (MTrace steps result) [] = Some (ws, ps) /\
    map p_step ps = steps /\ map p_label ps = seq 1 (length steps) /\ map w_label ws = seq 1 (length steps) /\
    Forall2 (fun w s => exists outer f, m_frames s = outer ++ [f] /\ w_pos w = loc_hi (f_loc f)) ws steps.
Proof.
  intros R. unfold render_interpreter. cbn [tr_steps tr_result length Nat.ltb Nat.leb].
  set (g := fun s => option_map (fun f => loc_hi (f_loc f)) (last_frame s)).
  destruct (all_some (map g steps)) as [ms|] eqn:E.
  - apply all_some_spec in E. cbn [option_map]. eexists. eexists. split; [reflexivity|].
    rewrite panels_steps, panels_labels. assert (LM : length ms = length steps) by (symmetry; eapply Forall2_length; eauto).
    repeat split; auto.
    + rewrite map_map, <- LM. rewrite <- (seq_shift1 _ 0), <- (map_combine_seq (fun i => i + 1) ms 0).
      apply map_ext. intros [i m]. auto.
    + generalize (length steps - 1). intros n. change (fun '(i, m) => Widget m (i + 1) ((i =? n) && is_error result)) with (fun '(i, m) => Widget m ((fun j => j + 1) i) ((i =? n) && is_error result)). generalize (fun j => j + 1). intros lab. generalize 0. clear - E. induction E as [|s m steps ms Em _ IH]; intros a; cbn [length seq combine map]; [constructor|]. constructor; [|apply IH].
      unfold g in Em. cbn [w_pos]. apply option_map_some in Em. destruct Em as (f & Ef & <-). apply last_frame_spec in Ef.
      destruct Ef as (outer & Ef). exists outer, f. auto.
  - exfalso. apply all_some_none in E. destruct E as (s & Hs & E). unfold running in R. rewrite Forall_forall in R.
    destruct (last_frame_some s (R s Hs)) as (f & Ef). unfold g in E. rewrite Ef in E. discriminate.
Qed.
Print Assumptions C51_unmarked.

(** The error is shown with the last of the states shown, and with no other; none is
    shown for a successful execution. *)
Theorem C51_error_partial steps result marks ws ps i p :
  render_interpreter (MTrace steps result) marks = Some (ws, ps) -> nth_error ps i = Some p ->
  p_error p = (if i =? length ps - 1 then result else None).
Proof.
  intros H E. unfold render_interpreter in H. cbn [tr_steps tr_result] in H.
  destruct (if 0 <? length marks then _ else _) as [[rs ss]|]; try discriminate. injection H as <- <-.
  rewrite panels_nth in E. destruct (nth_error ss i) as [s|]; try discriminate. injection E as <-. cbn [p_error].
  assert (L : length (panels ss result) = length ss).
  { rewrite <- (map_length p_step), panels_steps. auto. }
  rewrite L. destruct (i =? length ss - 1); cbn [andb]; auto. destruct result; auto.
Qed.
Print Assumptions C51_error_partial.

(** And the marker in the code is red exactly where the panel has the error. *)
Theorem C51_red steps result marks ws ps :
  render_interpreter (MTrace steps result) marks = Some (ws, ps) ->
  Forall2 (fun w p => w_fail w = true <-> exists e, p_error p = Some e) ws ps.
Proof.
  intros H. unfold render_interpreter in H. cbn [tr_steps tr_result] in H.
  destruct (if 0 <? length marks then _ else _) as [[rs ss]|] eqn:E; try discriminate. injection H as <- <-.
  assert (L : length rs = length ss).
  { destruct (0 <? length marks).
    - apply filter_steps_spec in E. destruct E as (ks & ks0 & A & B & _). apply Forall2_length in A. apply Forall2_length in B. congruence.
    - destruct (all_some _) as [ms|] eqn:A; [|discriminate]. injection E as <- <-. apply all_some_spec in A. apply Forall2_length in A. congruence. }
  clear E. unfold panels. generalize (length ss - 1). intros n. generalize 1. intros one. generalize 0. revert rs L. induction ss as [|s ss IH]; intros [|r rs] L a; try discriminate L; cbn [length seq combine map]; constructor.
  - cbn [w_fail p_error]. destruct (a =? n); cbn [andb]; [|split; [discriminate|intros (e & D); discriminate D]].
    destruct result as [e|]; cbn [is_error]; split; eauto; try discriminate. intros (e & D); discriminate D.
  - apply IH. cbn in L. lia.
Qed.
Print Assumptions C51_red.

(** But that need not be where the execution failed: whenever no mark belongs to the
    last state, the error is shown with an earlier state. *)
Theorem C51_error_place_refuted steps e marks ws ps :
  marks <> [] -> running steps ->
  (forall m, In m marks -> ~ LastFit steps m (length steps - 1)) ->
  render_interpreter (MTrace steps (Some e)) marks = Some (ws, ps) ->
  exists p k, In p ps /\ p_error p = Some e /\ nth_error steps k = Some (p_step p) /\ k < length steps - 1.
Proof.
  intros N R F H. assert (H' := H). apply C51_marked in H'; auto.
  destruct H' as (ks & ks0 & A & B & C & _ & _ & _ & LW & LP).
  assert (Lp : length ps = length marks) by (rewrite <- (map_length p_label), LP, seq_length; auto).
  assert (Lm : length marks <> 0) by (destruct marks; cbn; congruence).
  destruct (nth_error ps (length ps - 1)) as [p|] eqn:Ep; [|apply nth_error_None in Ep; lia].
  assert (Ee := C51_error_partial _ _ _ _ _ _ _ H Ep). rewrite Nat.eqb_refl in Ee.
  assert (Lk : length ks = length ps) by (apply Forall2_length in B; rewrite map_length in B; auto).
  destruct (nth_error ks (length ps - 1)) as [k|] eqn:Ek; [|apply nth_error_None in Ek; lia].
  assert (Es : nth_error steps k = Some (p_step p)).
  { assert (X : nth_error (map p_step ps) (length ps - 1) = Some (p_step p)) by (rewrite nth_error_map, Ep; auto).
    clear - B Ek X. revert Ek X. generalize (length ps - 1). induction B as [|k' s' ks ss E _ IH]; intros [|i] Ek X; cbn in *; try discriminate.
    - injection Ek as ->. injection X as ->. auto.
    - eauto. }
  exists p, k. repeat split; auto.
  - eapply nth_error_In; eauto.
  - assert (Lw : length (map w_pos ws) = length ks) by (eapply Forall2_length; eauto).
    destruct (nth_error (map w_pos ws) (length ps - 1)) as [m|] eqn:Em; [|apply nth_error_None in Em; lia].
    assert (LF : LastFit steps m k).
    { clear - A Ek Em. revert Ek Em. generalize (length ps - 1). induction A as [|m' k' ms ks E _ IH]; intros [|i] Ek X; cbn in *; try discriminate.
      - injection Ek as ->. injection X as ->. auto.
      - eauto. }
    assert (Im : In m marks) by (eapply Permutation_in; [exact C|]; eapply nth_error_In; eauto).
    assert (k <> length steps - 1) by (intros ->; exact (F m Im LF)).
    assert (k < length steps) by (apply nth_error_Some; congruence). lia.
Qed.
Print Assumptions C51_error_place_refuted.

Module Demo51.
  (** main (positions 0-100) runs at 10, calls f (200-300) at 20, goes on at 30 *)
  Definition fr lo hi a b := Frame (FInfo lo hi []) (Loc a b).
  Definition steps : list fstep :=
    [MStep [fr 0 100 10 15] []; MStep [fr 0 100 20 25; fr 200 300 210 220] []; MStep [fr 0 100 30 35] []].
  Lemma steps_running : running steps. Proof. repeat constructor; discriminate. Qed.
  (** The mark after the first statement gets the state of the first statement. *)
  Example C51_witness_marked : exists ws ps, render_interpreter (MTrace steps (Some [])) [250; 26] = Some (ws, ps) /\
    map w_pos ws = [26; 250] /\ map w_label ws = [1; 2] /\ map p_error ps = [None; Some []] /\ map w_fail ws = [false; true].
  Proof. eexists. eexists. split; [vm_compute; reflexivity|]. auto. Qed.
  Example C51_witness_fails : render_interpreter (MTrace steps None) [250; 5] = None.
  Proof. vm_compute. reflexivity. Qed.
  (** The execution failed in the third state; the second is blamed. *)
  Example C51_witness_blamed : forall m, In m [250; 26] -> ~ LastFit steps m (length steps - 1).
  Proof.
    intros m Hm [(s & E & outer & f & Ef & R1 & R2) _]. cbn in E. injection E as <-. cbn in Ef.
    destruct outer as [|x [|y outer]]; cbn in Ef; try discriminate. injection Ef as <-. cbn in R1, R2.
    destruct Hm as [<-|[<-|[]]]; lia.
  Qed.
End Demo51.

(** ** C52: pointers *)

Lemma In_combine_seq {A} (l : list A) k i x : In (i, x) (combine (seq k (length l)) l) <-> k <= i /\ nth_error l (i - k) = Some x.
Proof.
  revert k. induction l as [|y l IH]; intros k; cbn; [destruct (i - k); intuition discriminate|]. rewrite IH. split.
  - intros [[= <- <-]|[L E]]; [rewrite Nat.sub_diag; auto|]. split; [lia|]. replace (i - k) with (S (i - S k)) by lia. exact E.
  - intros [L E]. destruct (Nat.eq_dec i k) as [->|N].
    + rewrite Nat.sub_diag in E. injection E as ->. auto.
    + right. split; [lia|]. replace (i - k) with (S (i - S k)) in E by lia. exact E.
Qed.

(** What is drawn: the variables of every frame, and the heap. *)
Theorem C52_objects s r v : In (r, v) (roots s) <-> Stored s r v.
Proof.
  unfold roots. rewrite in_app_iff, in_flat_map, in_map_iff. destruct r as [i name|i]; cbn. split.
  - intros [([j f] & I & J)|([j w] & [=] & _)]. apply In_combine_seq in I. destruct I as [_ I]. rewrite Nat.sub_0_r in I.
    apply in_map_iff in J. destruct J as ([n w] & [= <- <- <-] & J). eauto.
  - intros (f & E & J). left. exists (i, f). split; [apply In_combine_seq; rewrite Nat.sub_0_r; split; [lia|auto]|].
    apply in_map_iff. exists (name, v). auto.
  - split.
    + intros [([j f] & I & J)|([j w] & [= <- <-] & I)].
      * apply in_map_iff in J. destruct J as ([n w] & [=] & _).
      * apply In_combine_seq in I. rewrite Nat.sub_0_r in I. apply I.
    + intros E. right. exists (i, v). split; [auto|]. apply In_combine_seq. rewrite Nat.sub_0_r. split; [lia|auto].
Qed.
Print Assumptions C52_objects.

(** What is drawn in a state: cells exactly for the places of its values, and
    pointers exactly for the values drawn as one. *)
Theorem C52_cells c s items : step_items c s = Some items ->
  (forall r ps u, In (Cell (r, ps) u) items <-> Place c s r ps u) /\
  (forall d rg, In (Pointer d rg) items <->
     exists r parts ps o, HasPtr c s r parts /\ Target parts ps o /\ d = (r, ps) /\ rg = option_map (pair r) o).
Proof.
  intros H. split.
  - intros r ps u. apply step_cells; auto.
  - intros d rg. rewrite (step_pointers c s items d rg H). split.
    + intros (r & parts & HP & Q). apply pointer_item_spec in Q. destruct Q as (ps & o & HT & -> & ->). exists r, parts, ps, o. auto.
    + intros (r & parts & ps & o & HP & HT & -> & ->). exists r, parts. split; auto. apply pointer_item_spec. eauto 6.
Qed.
Print Assumptions C52_cells.

(** A state is drawn iff its values can be, and every pointer's target has a place. *)
Theorem C52_drawn_iff c s :
  (exists d, step_view c s = Some d) <->
  (forall r v, In (r, v) (roots s) -> Drawable c v) /\
  (forall r parts ps o, HasPtr c s r parts -> Target parts ps o ->
     (exists u, Place c s r ps u) /\ forall ps', o = Some ps' -> exists u, Place c s r ps' u).
Proof. apply step_view_iff. Qed.
Print Assumptions C52_drawn_iff.

(** In a state that is drawn there is exactly one arrow for every pointer.  It ends
    at a place of what is pointed to, the first if there are several. *)
Theorem C52_arrows c s items ars : step_view c s = Some (items, ars) ->
  NoDup (map a_src ars) /\
  (forall n, In n (map a_src ars) <-> exists d rg, nth_error items n = Some (Pointer d rg)) /\
  forall a, In a ars -> exists r parts ps o u,
    HasPtr c s r parts /\ Target parts ps o /\ nth_error items (a_src a) = Some (Pointer (r, ps) (option_map (pair r) o)) /\
    nth_error items (a_dst a) = Some (Cell (r, ps) u) /\ Place c s r ps u /\
    (forall k u', k < a_dst a -> nth_error items k <> Some (Cell (r, ps) u')) /\
    match o, a_range a with
    | None, None => True
    | Some ps', Some j => exists u', nth_error items j = Some (Cell (r, ps') u') /\ Place c s r ps' u'
    | _, _ => False
    end.
Proof.
  unfold step_view. intros H. apply obind_some in H. destruct H as (it & E & H). apply option_map_some in H.
  destruct H as (a0 & A & Q). injection Q as -> ->. apply arrows_ok in A. destruct A as [A B]. split; [|split].
  - rewrite A. clear. generalize 0. induction items as [|x l IH]; intros i; cbn; [constructor|].
    destruct x as [c v|d rg]; auto. constructor; auto. rewrite pointer_numbers_spec. intros (k & d' & rg' & X & _). lia.
  - intros n. rewrite A, pointer_numbers_spec. split.
    + intros (k & d & rg & -> & X). eauto.
    + intros (d & rg & X). exists n, d, rg. auto.
  - intros a Ha. rewrite Forall_forall in B. destruct (B a Ha) as (d & rg & u & B1 & B2 & B3 & B4).
    assert (IP := nth_error_In _ _ B1). apply (C52_cells c s items E) in IP. destruct IP as (r & parts & ps & o & HP & HT & -> & ->).
    exists r, parts, ps, o, u. repeat split; auto.
    + apply (step_cells c s items r ps u E). eapply nth_error_In; eauto.
    + destruct o as [ps'|], (a_range a) as [j|]; cbn in B4; auto. destruct B4 as (u' & B4). exists u'. split; auto.
      apply (step_cells c s items r ps' u' E). eapply nth_error_In; eauto.
Qed.
Print Assumptions C52_arrows.

(** Where every pointer leads through values drawn part by part, to elements that
    are drawn, the state is drawn. *)
Theorem C52_leads_partial c s :
  (forall r v, In (r, v) (roots s) -> Drawable c v) ->
  (forall r parts, HasPtr c s r parts -> exists w, In (r, w) (roots s) /\ Leads c w parts) ->
  exists d, step_view c s = Some d.
Proof.
  intros D L. apply step_view_iff. split; auto. intros r parts ps o HP HT.
  destruct (L _ _ HP) as (w & Hw & Lw). destruct (Leads_target _ _ _ _ _ Lw HT) as [A B]. split.
  - destruct A as (u & A). exists u, w. auto.
  - intros ps' E. destruct (B ps' E) as (u & X). exists u, w. auto.
Qed.
Print Assumptions C52_leads_partial.

(** With no two variables of the same name, the arrow ends at the variable or object
    the pointer names. *)
Theorem C52_right_object_partial c s items ars a : NoDup (map fst (roots s)) ->
  step_view c s = Some (items, ars) -> In a ars ->
  exists r parts ps o u w, nth_error items (a_src a) = Some (Pointer (r, ps) o) /\ HasPtr c s r parts /\
    nth_error items (a_dst a) = Some (Cell (r, ps) u) /\ (forall w', In (r, w') (roots s) <-> w' = w) /\ Inside c w ps u.
Proof.
  intros ND H Ha. destruct (C52_arrows _ _ _ _ H) as (_ & _ & X). destruct (X a Ha) as (r & parts & ps & o & u & HP & HT & E1 & E2 & (w & Hw & I) & _).
  exists r, parts, ps, (option_map (pair r) o), u, w. repeat split; auto; try (intros ->; auto).
  intros Hw'. clear - ND Hw Hw'. induction (roots s) as [|[r0 v0] l IH]; [destruct Hw|]. cbn in ND. inversion ND as [|? ? N1 N2]; subst.
  destruct Hw as [Hw|Hw], Hw' as [Hw'|Hw'].
  - congruence.
  - exfalso. injection Hw as -> ->. apply N1. apply in_map_iff. exists (r, w'). auto.
  - exfalso. injection Hw' as -> ->. apply N1. apply in_map_iff. exists (r, w). auto.
  - auto.
Qed.
Print Assumptions C52_right_object_partial.

(** *** Pointers that break the display *)

(** One state that cannot be drawn removes all of them. *)
Lemma lost c steps s : In s steps -> ~ (exists d, step_view c s = Some d) -> interpreter_view c steps = None.
Proof.
  intros H N. apply (interpreter_view_none c steps s H). destruct (step_view c s) as [d|]; auto. exfalso. eauto.
Qed.

(** A pointer to an element of a long array that is not among the first eleven, the
    last one for example, loses the whole display (except number 100, below). *)
Theorem C52_element_refuted c steps s r l x i :
  In s steps -> In (r, VArray l (Some x)) (roots s) -> (forall w, In (r, w) (roots s) -> w = VArray l (Some x)) ->
  HasPtr c s r [Index i] -> length l <= i -> i <> 0 -> i <> 100 ->
  interpreter_view c steps = None.
Proof.
  intros Hs Hr U HP L N0 N100. apply (lost c steps s Hs). intros V. apply C52_drawn_iff in V. destruct V as [_ V].
  destruct (V r [Index i] [PIndex i] None HP) as [(u & w & Hw & I) _].
  - apply (T_other [Index i]); [intros [|a [|]] E | intros [|a [|]] lo hi E]; try discriminate. injection E as ->. congruence.
  - apply U in Hw. subst w. inversion I as [| |? ? ? v ? ? E I'|? ? ? ? I'| |]; subst; [|congruence].
    assert (i < length l) by (apply nth_error_Some; congruence). lia.
Qed.
Print Assumptions C52_element_refuted.

(** A pointer to element number 100 of a longer array is drawn to its last element. *)
Theorem C52_index_100_refuted c s items ars a r l x o :
  (forall w, In (r, w) (roots s) -> w = VArray l (Some x)) -> length l <= 100 ->
  step_view c s = Some (items, ars) -> In a ars -> nth_error items (a_src a) = Some (Pointer (r, [PIndex 100]) o) ->
  nth_error items (a_dst a) = Some (Cell (r, [PIndex 100]) x).
Proof.
  intros U L H Ha E. destruct (C52_arrows _ _ _ _ H) as (_ & _ & X).
  destruct (X a Ha) as (r' & parts & ps & o' & u & HP & HT & E1 & E2 & (w & Hw & I) & _).
  rewrite E in E1. injection E1 as <- <- _. rewrite E2. apply U in Hw. subst w.
  inversion I as [| |? ? ? v ? ? En I'|? ? ? ? I'| |]; subst.
  - assert (100 < length l) by (apply nth_error_Some; congruence). lia.
  - inversion I'; subst. auto.
Qed.
Print Assumptions C52_index_100_refuted.

(** A pointer to a field of a vector, string or box loses the whole display, unless
    the concrete types are shown. *)
Theorem C52_special_field_refuted steps s r name fs k i qs r2 parts2 :
  In s steps -> (forall w, In (r, w) (roots s) -> w = VAdt name fs (Some k)) ->
  Special k fs (VPtr r2 parts2) ->
  HasPtr false s r (Field i :: qs) -> qs = [] \/ (exists j qs', qs = qs' ++ [Field j]) ->
  interpreter_view false steps = None.
Proof.
  intros Hs U Sp HP Q. apply (lost false steps s Hs). intros V. apply C52_drawn_iff in V. destruct V as [_ V].
  destruct (V r (Field i :: qs) (map part_of (Field i :: qs)) None HP) as [(u & w & Hw & I) _].
  - destruct Q as [->|(j & qs' & ->)].
    + apply (T_other [Field i]); [intros [|a [|]] E | intros [|a [|]] lo hi E]; discriminate.
    + rewrite app_comm_cons. apply T_other; [intros ps E|intros ps lo hi E]; apply app_inj_tail in E; destruct E; discriminate.
  - apply U in Hw. subst w. cbn in I.
    inversion I as [| | | |? ? ? ? key v ? ? DA En I'|? ? ? w' ? ? ? DA I']; subst.
    + inversion DA.
    + pose proof (DrawnAs_det _ _ _ _ _ _ DA (D_special name fs k _ Sp)) as X. injection X as ->. inversion I'.
Qed.
Print Assumptions C52_special_field_refuted.

(** A struct that happens to be called [Iter], without a field [ptr] that is a struct,
    loses the whole display. *)
Theorem C52_iter_refuted steps s r fs :
  In s steps -> In (r, VAdt (lit "Iter") fs None) (roots s) ->
  (forall n x k, aget str_eqd fs (lit "ptr") <> Some (VAdt n x k)) ->
  interpreter_view false steps = None.
Proof.
  intros Hs Hr N. apply (lost false steps s Hs). intros V. apply C52_drawn_iff in V. destruct V as [D _].
  apply D in Hr. inversion Hr as [| | | | | |? ? ? u DA Dd|? ? ? DA FF]; subst.
  - inversion DA; subst. eapply N; eauto.
  - inversion DA; subst. congruence.
Qed.
Print Assumptions C52_iter_refuted.


(** A float that is not finite loses the whole display, wherever it is drawn. *)
Lemma drawable_inside c w ps u : Inside c w ps u -> Drawable c w -> Drawable c u.
Proof.
  induction 1 as [v|l i v ps u E I IH|l o i v ps u E I IH|l x ps u I IH|name fs k i key v ps u DA E I IH|name fs k w p ps u DA I IH]; intros D; auto.
  - inversion D as [| | | |? F| | |]; subst. apply IH. rewrite Forall_nth in F. eauto.
  - inversion D as [| | | | |? ? F G| |]; subst. apply IH. rewrite Forall_nth in F. eauto.
  - inversion D as [| | | | |? ? F G| |]; subst. apply IH. auto.
  - apply IH. inversion D as [| | | | | |? ? ? u' DA' Dd|? ? ? DA' FF]; subst; pose proof (DrawnAs_det _ _ _ _ _ _ DA DA') as X; [discriminate|].
    rewrite Forall_nth in FF. exact (FF _ _ E).
  - apply IH. inversion D as [| | | | | |? ? ? u' DA' Dd|? ? ? DA' FF]; subst; pose proof (DrawnAs_det _ _ _ _ _ _ DA DA') as X; [|discriminate].
    injection X as ->. exact Dd.
Qed.

Theorem C52_not_finite_refuted c steps s r ps : In s steps -> Place c s r ps VNull -> interpreter_view c steps = None.
Proof.
  intros Hs (w & Hw & I). apply (lost c steps s Hs). intros V. apply C52_drawn_iff in V. destruct V as [D _].
  pose proof (drawable_inside _ _ _ _ I (D _ _ Hw)) as X. inversion X.
Qed.
Print Assumptions C52_not_finite_refuted.

(** Of two variables of one name in a frame only the first can be pointed to: an
    arrow to a variable of that name ends at the first one, whichever is meant. *)
Theorem C52_shadowed_refuted c s l1 r v1 l2 items ars a o :
  roots s = l1 ++ (r, v1) :: l2 -> ~ In r (map fst l1) ->
  step_view c s = Some (items, ars) -> In a ars -> nth_error items (a_src a) = Some (Pointer (r, []) o) ->
  nth_error items (a_dst a) = Some (Cell (r, []) v1).
Proof.
  intros R N H Ha E. assert (H' := H). unfold step_view in H'. apply obind_some in H'. destruct H' as (it & Ei & H'). apply option_map_some in H'.
  destruct H' as (a0 & _ & Q). injection Q as -> ->.
  destruct (C52_arrows _ _ _ _ H) as (_ & _ & X). destruct (X a Ha) as (r' & parts & ps & o' & u & _ & _ & E1 & E2 & _ & F & _).
  rewrite E in E1. injection E1 as <- <- _.
  unfold step_items in Ei. apply option_map_some in Ei. destruct Ei as (ls & EA & <-). apply all_some_spec in EA. rewrite R in EA.
  apply Forall2_app_inv_l in EA. destruct EA as (ls1 & ls2 & A1 & A2 & ->). inversion A2 as [|? x ? ls2' Ex _]; subst. clear A2.
  unfold view_root in Ex. apply option_map_some in Ex. destruct Ex as (y & _ & <-).
  assert (G : forall u', ~ In (Cell (r, []) u') (concat ls1)).
  { intros u' Hu. apply in_concat in Hu. destruct Hu as (z & Hz & Hu). clear - A1 N Hz Hu.
    induction A1 as [|[r0 v0] z0 l ls E0 _ IH]; [destruct Hz|]. cbn in N. destruct Hz as [->|Hz]; [|apply IH; tauto].
    apply (proj1 (root_content _ _ _ _ E0)) in Hu. destruct Hu as (ps & Q & _). apply N. left. congruence. }
  rewrite concat_app in *. cbn [concat] in *.
  assert (P0 : nth_error (concat ls1 ++ (Cell (r, []) v1 :: y) ++ concat ls2') (length (concat ls1)) = Some (Cell (r, []) v1)).
  { rewrite nth_error_app2 by lia. rewrite Nat.sub_diag. auto. }
  assert (L1 : ~ length (concat ls1) < a_dst a) by (intros L; exact (F _ _ L P0)).
  assert (L2 : ~ a_dst a < length (concat ls1)).
  { intros L. rewrite nth_error_app1 in E2 by auto. apply (G u). eapply nth_error_In; eauto. }
  replace (a_dst a) with (length (concat ls1)) by lia. auto.
Qed.
Print Assumptions C52_shadowed_refuted.

Module Demo52.
  Definition fr l := Frame (FInfo 0 100 l) (Loc 10 15).
  Definition uniq (p : value) := VAdt (lit "Unique") [(lit "pointer", VAdt (lit "NonNull") [(lit "pointer", p)] None)] None.
  Definition raw_vec (p : value) := VAdt (lit "RawVec") [(lit "inner", VAdt (lit "RawVecInner") [(lit "ptr", uniq p)] None)] None.
  Definition vec (p : value) := VAdt (lit "Vec") [(lit "buf", raw_vec p); (lit "len", VText (lit "2"))] (Some KVec).
  (** A vector, a reference to its second element and a slice of it. *)
  Definition good : fstep :=
    MStep [fr [(lit "v", vec (VPtr (RHeap 0) [Index 0])); (lit "r", VPtr (RHeap 0) [Index 1]); (lit "s", VPtr (RHeap 0) [Subslice 0 1])]]
          [VArray [VText (lit "1"); VText (lit "2")] None].
  Example C52_witness : exists items ars, step_view false good = Some (items, ars) /\
    map (fun a => (a_src a, a_dst a, a_range a)) ars = [(1, 6, None); (3, 8, None); (5, 7, Some 8)].
  Proof. eexists. eexists. split; [vm_compute; reflexivity|]. vm_compute. reflexivity. Qed.

  Definition twelve := map (fun i => VText (lit "0")) (seq 0 11).
  Definition at_ (i : nat) : fstep :=
    MStep [fr [(lit "v", vec (VPtr (RHeap 0) [Index 0])); (lit "r", VPtr (RHeap 0) [Index i])]] [VArray twelve (Some (VText (lit "7")))].
  Example C52_witness_element : In (RHeap 0, VArray twelve (Some (VText (lit "7")))) (roots (at_ 11)) /\ HasPtr false (at_ 11) (RHeap 0) [Index 11] /\
    interpreter_view false [good; at_ 11] = None.
  Proof.
    split; [|split].
    - vm_compute. auto.
    - exists (RStack 0 (lit "r")), [], (VPtr (RHeap 0) [Index 11]). split; [|constructor]. exists (VPtr (RHeap 0) [Index 11]). split; [|constructor].
      vm_compute. auto.
    - vm_compute. reflexivity.
  Qed.
  Example C52_witness_100 : exists items ars a o, step_view false (at_ 100) = Some (items, ars) /\ In a ars /\
    nth_error items (a_src a) = Some (Pointer (RHeap 0, [PIndex 100]) o).
  Proof. eexists. eexists. exists (MkArrow 3 16 None), None. split; [vm_compute; reflexivity|]. vm_compute. auto. Qed.
  (** [&v.len] *)
  Definition field : fstep :=
    MStep [fr [(lit "v", vec (VPtr (RHeap 0) [Index 0])); (lit "r", VPtr (RStack 0 (lit "v")) [Field 1])]] [VArray [] None].
  Example C52_witness_field : HasPtr false field (RStack 0 (lit "v")) [Field 1] /\ interpreter_view false [good; field] = None /\
    exists d, step_view true field = Some d.
  Proof.
    split; [|split].
    - exists (RStack 0 (lit "r")), [], (VPtr (RStack 0 (lit "v")) [Field 1]). split; [|constructor]. eexists. split; [|constructor]. vm_compute. auto.
    - vm_compute. reflexivity.
    - eexists. vm_compute. reflexivity.
  Qed.
  Example C52_witness_not_finite :
    let s := MStep [fr [(lit "x", VTuple [VText (lit "1"); VNull])]] [] in
    Place false s (RStack 0 (lit "x")) [PField 1] VNull /\ interpreter_view false [s] = None /\
    interpreter_view false [MStep [fr [(lit "x", VTuple [VText (lit "1"); VText (lit "2")])]] []] <> None.
  Proof.
    split; [|split; [reflexivity|discriminate]]. eexists. split; [left; reflexivity|].
    eapply In_tuple; [reflexivity|constructor].
  Qed.

  Example C52_witness_iter : interpreter_view false [MStep [fr [(lit "it", VAdt (lit "Iter") [(lit "n", VText (lit "1"))] None)]] []] = None.
  Proof. vm_compute. reflexivity. Qed.
  (** [let x = 1; let x = 2; let r = &x;] *)
  Definition shadow : fstep :=
    MStep [fr [(lit "x", VText (lit "1")); (lit "x", VText (lit "2")); (lit "r", VPtr (RStack 0 (lit "x")) [])]] [].
  Example C52_witness_shadow : exists items ars a, step_view false shadow = Some (items, ars) /\ In a ars /\
    nth_error items (a_src a) = Some (Pointer (RStack 0 (lit "x"), []) None) /\
    nth_error items (a_dst a) = Some (Cell (RStack 0 (lit "x"), []) (VText (lit "1"))).
  Proof. eexists. eexists. exists (MkArrow 3 0 None). split; [vm_compute; reflexivity|]. vm_compute. auto. Qed.
  Example C52_witness_leads : (forall r v, In (r, v) (roots good) -> Drawable false v) /\
    (forall r parts, HasPtr false good r parts -> exists w, In (r, w) (roots good) /\ Leads false w parts).
  Proof.
    assert (D : forall p, DrawnAs false (lit "Vec") [(lit "buf", raw_vec p); (lit "len", VText (lit "2"))] (Some KVec) (Some p)).
    { intros p. apply D_special. eapply Sp_vec; vm_compute; reflexivity. }
    split.
    - intros r v H. cbn [roots good fr m_frames m_heap length seq combine flat_map f_info locals map app] in H.
      destruct H as [H|[H|[H|[H|[]]]]]; injection H as <- <-.
      + eapply Dr_as; [apply D|constructor].
      + constructor.
      + constructor.
      + constructor; [repeat constructor|discriminate].
    - intros r parts (r0 & ps & v & (w & Hw & I) & Sh). exists (VArray [VText (lit "1"); VText (lit "2")] None).
      cbn [roots good fr m_frames m_heap length seq combine flat_map f_info locals map app] in *.
      destruct Hw as [H|[H|[H|[H|[]]]]]; injection H as <- <-.
      + assert (X : r = RHeap 0 /\ parts = [Index 0]).
        { inversion I as [|? ? ? ? ? E I'| | |? ? ? ? ? ? ? ? DA E I'|? ? ? w' ? ? ? DA I']; subst.
          - inversion Sh as [|? ? ? w ? ? DA S']; subst. pose proof (DrawnAs_det _ _ _ _ _ _ DA (D _)) as Q. injection Q as ->.
            inversion S'; subst. auto.
          - inversion DA.
          - pose proof (DrawnAs_det _ _ _ _ _ _ DA (D _)) as Q. injection Q as ->. inversion I'. }
        destruct X as [-> ->]. split; [cbn [In]; auto|]. eapply L_index; [reflexivity|constructor].
      + inversion I; subst. inversion Sh; subst. split; [cbn [In]; auto|]. eapply L_index; [reflexivity|constructor].
      + inversion I; subst. inversion Sh; subst. split; [cbn [In]; auto|]. apply L_slice; cbn; lia.
      + exfalso. inversion I as [| |? ? i x ? ? E I'| | |]; subst; [inversion Sh|].
        destruct i as [|[|[|i]]]; cbn [nth_error] in E; try discriminate; injection E as <-; inversion I'; subst; inversion Sh.
  Qed.
End Demo52.

(** ** C72: arrows of different kinds *)

(** The arrows are numbered through, whatever regions they lead from and to. *)
Theorem C72_numbers {T} (grp : T -> group) l n x :
  In (n, x) (numbered grp l) <-> nth_error l n = Some x.
Proof.
  rewrite numbered_all. split.
  - intros H. apply In_nth_error in H. destruct H as (i & H). rewrite combine_seq_nth in H.
    destruct (nth_error l i) eqn:E; try discriminate. injection H as <- <-. auto.
  - intros H. apply nth_error_In with n. rewrite combine_seq_nth, H. auto.
Qed.
Print Assumptions C72_numbers.

(** So an arrow has its number among those of its own kind iff none of another kind
    comes before it. *)
Theorem C72_own_number_refuted {T} (grp : T -> group) l1 x l2 n :
  NoDup (l1 ++ x :: l2) -> In (n, x) (numbered grp (l1 ++ x :: l2)) ->
  (n = own_number grp l1 x <-> forall y, In y l1 -> grp y = grp x).
Proof.
  intros ND H. apply C72_numbers in H.
  assert (E : n = length l1).
  { assert (E' : nth_error (l1 ++ x :: l2) (length l1) = Some x) by (rewrite nth_error_app2, Nat.sub_diag by lia; auto).
    assert (L : n < length (l1 ++ x :: l2)) by (apply nth_error_Some; congruence).
    eapply NoDup_nth_error; eauto. congruence. }
  subst n. unfold own_number. split.
  - intros F y Hy. destruct (group_eqd (grp y) (grp x)) as [E|N]; auto. exfalso.
    assert (length (filter (fun z => if group_eqd (grp z) (grp x) then true else false) l1) < length l1).
    { clear - Hy N. induction l1 as [|z l IH]; [destruct Hy|]. cbn [filter]. destruct Hy as [->|Hy].
      - destruct (group_eqd (grp y) (grp x)); [contradiction|]. cbn.
        assert (F : length (filter (fun z => if group_eqd (grp z) (grp x) then true else false) l) <= length l).
        { clear. induction l as [|a l IH]; cbn; auto. destruct (group_eqd _ _); cbn; lia. }
        lia.
      - specialize (IH Hy). destruct (group_eqd _ _); cbn; lia. }
    lia.
  - intros F. f_equal. clear - F. induction l1 as [|z l IH]; cbn; auto.
    destruct (group_eqd (grp z) (grp x)) as [E|N]; [|exfalso; apply N, F; cbn; auto]. f_equal. apply IH. intros y Hy. apply F. cbn. auto.
Qed.
Print Assumptions C72_own_number_refuted.

(** Two arrows in one state have the same colour iff their numbers differ by a
    multiple of six. *)
Theorem C72_colours i j : colour i = colour j <-> exists k, i = j + 6 * k \/ j = i + 6 * k.
Proof.
  unfold colour. split.
  - intros E. destruct (le_lt_dec j i) as [L|L].
    + exists (i / 6 - j / 6). left. assert (A := Nat.div_mod i 6). assert (B := Nat.div_mod j 6).
      assert (j / 6 <= i / 6) by (apply Nat.div_le_mono; lia). lia.
    + exists (j / 6 - i / 6). right. assert (A := Nat.div_mod i 6). assert (B := Nat.div_mod j 6).
      assert (i / 6 <= j / 6) by (apply Nat.div_le_mono; lia). lia.
  - intros (k & [->| ->]); rewrite (Nat.mul_comm 6 k), Nat.mod_add by lia; auto.
Qed.
Print Assumptions C72_colours.

(** The arrows from the stack to the heap have different bends; the pull is positive
    for the first ten only. *)
Theorem C72_bends i j : (gravity i = gravity j <-> i = j) /\ ((0 < gravity i)%Z <-> i < 10) /\
  gravity 0 = 100%Z /\ (gravity i - gravity (S i))%Z = 10%Z.
Proof. unfold gravity. lia. Qed.
Print Assumptions C72_bends.

Example C72_witness : In (1, (HeapRegion, HeapRegion)) (numbered (fun p => Group (fst p) (snd p)) [(StackRegion, HeapRegion); (HeapRegion, HeapRegion)]) /\
  own_number (fun p => Group (fst p) (snd p)) [(StackRegion, HeapRegion)] (HeapRegion, HeapRegion) = 0.
Proof. vm_compute. auto. Qed.

(** ** C73: characters *)

(** A character is shown as itself iff it lies in the basic plane and is no space (a
    space is shown as one that does not break). *)
Theorem C73_characters_partial c : c < 256 * 256 -> char_text c = (if c =? 32 then utf16 160 else utf16 c).
Proof.
  intros L. unfold char_text, utf16. rewrite Nat.mod_small by exact L.
  apply Nat.ltb_lt in L. rewrite L. destruct (c =? 32) eqn:E; auto.
Qed.
Print Assumptions C73_characters_partial.

Theorem C73_astral_refuted c : 256 * 256 <= c -> char_text c <> utf16 c /\ exists c', c' < 256 * 256 /\ char_text c = char_text c'.
Proof.
  intros L. split.
  - unfold utf16. apply Nat.ltb_ge in L. rewrite L. unfold char_text. intros H. apply (f_equal (@length nat)) in H. cbn [length] in H. lia.
  - exists (c mod (256 * 256)). assert (M : c mod (256 * 256) < 256 * 256) by (apply Nat.mod_upper_bound; lia).
    split; auto. unfold char_text. rewrite (Nat.mod_small (c mod (256 * 256))) by exact M. auto.
Qed.
Print Assumptions C73_astral_refuted.

Example C73_witness : char_text 233 = utf16 233 /\ char_text 32 = [160].
Proof. vm_compute. auto. Qed.
