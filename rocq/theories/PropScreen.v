(** * Theorems: the reader of the page sees the execution *)
From Coq Require Import Ascii String.
From Coq Require Import List Arith Bool ZArith Lia Permutation Sorting.Sorted.
From Verif Require Import Base CfgModel CfgSpec ValuesModel ReaderModel ReaderSpec LocalsModel LocalsSpec TraceModel TraceSpec MapperModel MapperSpec WholeModel WholeSpec ScreenSpec.
From Verif Require LookModel LookSpec WireModel WireSpec WireProofs JsonModel EditorModel ScreenModel ScreenProofs PropJson PropWire PropWhole PropMapper PropLook LookProofs TraceMachine.
Import ListNotations.
Local Open Scope string_scope.
Local Open Scope list_scope.

(** ** C120 *)

(** A page that parses the printed answer, or one read back from it (C121), has a trace that arrived. *)
Theorem C120_arrives short real w : WireSpec.Prints short real -> WireSpec.RealTrace w ->
  exists j x t', JsonModel.js_parse (JsonModel.to_string (WireModel.answer short w)) = Some j /\ WireSpec.Member "Ok" j x /\ WireSpec.TraceC real x t' /\
    Arrived short real w t'.
Proof.
  intros PR RE. destruct (PropWire.C112_page short real w PR RE) as (j & x & t' & J & MM & C & _). exists j, x, t'. do 3 (split; [assumption|]).
  exists j, x. split; [|auto]. destruct (WireProofs.good_answer short w) as [D _]. destruct (PropJson.C111_page _ D) as (_ & j' & J' & Rd). congruence.
Qed.
Print Assumptions C120_arrives.

(** Each state on the page, with its number, is a state of the execution; the number in the code is where the
    innermost function is, or at a mark in that function behind that place. *)
Theorem C120_states_partial {M} (mac : machine M string) lay u8 prog node_range span_range names bodies short real ft m0 fuel depth t t' d marks n c ws ps :
  Proper (evaluator mac depth) -> length (k_stack mac m0) = 1 ->
  (forall inst, Order (fn_nodes (prog inst)) /\ Tree (prog inst)) ->
  (forall h m, Path mac m0 h m -> Sane lay u8 (k_look mac m) /\
     length (v_frames (k_look mac m)) = length (user_depths (k_stack mac m))) ->
  interpret_whole range_eqd prog node_range span_range mac fuel depth m0 = Some (Done t) ->
  WireSpec.Prints short real -> WireSpec.RealTrace (ScreenModel.wire names bodies t) ->
  Arrived short real (ScreenModel.wire names bodies t) t' ->
  ScreenModel.screen d marks n ft c t' = Some (ws, ps) ->
  length ws = length ps /\
  forall i w p, nth_error ws i = Some w -> nth_error ps i = Some p ->
    ScreenModel.k_label w = S i /\ ScreenModel.p_label p = S i /\
    exists err body at_, Seen mac lay u8 prog node_range span_range names bodies ft c err m0 (ScreenModel.p_picture p) body at_ /\
      (S i < length ps -> err = None) /\
      (marks = [] -> Finishes d at_ (ScreenModel.k_pos w)) /\ (marks <> [] -> MarkFits d body at_ (ScreenModel.k_pos w)).
Proof.
  intros P L W SA H PR RE AR SC. rewrite (ScreenProofs.page_same d marks n ft c short real _ t' PR RE AR) in SC.
  pose proof (PropWhole.C93_pictures_partial range_eqd prog node_range span_range mac lay u8 m0 fuel depth t P L W SA H) as PI.
  destruct (ScreenProofs.screen_panels _ _ _ _ _ _ _ _ SC) as (ranges & steps & Ch & Lp & Lw & Ek & KW & KP).
  pose proof (ScreenProofs.chosen_spec _ _ _ _ _ Ch) as KC. pose proof (ScreenProofs.forall2_len _ _ _ KC) as LR. split; [lia|].
  intros i w p Ew Ep. destruct (KW i w Ew) as [Kl _]. destruct (KP i p Ep) as (s & Es & Pl & _ & _ & LK). split; [exact Kl|]. split; [exact Pl|].
  assert (Er : nth_error ranges i = Some (ScreenModel.k_pos w)) by (rewrite <- Ek, nth_error_map, Ew; reflexivity).
  destruct (ScreenProofs.forall2_nth _ _ _ KC i _ _ Er Es) as (Is & o & g & Eg & F1 & F2).
  cbn [ScreenModel.wire WireModel.w_steps] in Is. apply in_map_iff in Is as (s0 & <- & Is).
  assert (exists outer f, m_frames s0 = outer ++ [f] /\ g = ScreenModel.wire_frame names bodies f) as (outer & f & Ef & ->).
  { cbn [ScreenModel.wire_step WireModel.w_frames] in Eg. destruct (m_frames s0) as [|f0 fs _] eqn:Em using rev_ind; [destruct o; discriminate Eg|].
    rewrite map_app in Eg. cbn [map] in Eg. apply app_inj_tail in Eg as [_ <-]. eauto. }
  exists (WireModel.error_at (WireModel.WTrace steps (WireModel.w_result (ScreenModel.wire names bodies t))) i), (bodies (fr_fun (f_info f))), (f_loc f).
  split; [|split; [|split]].
  - exact (ScreenProofs.seen mac lay u8 prog node_range span_range names bodies n ft c _ m0 s0 _ outer f (PI s0 Is) Ef LK).
  - intros Li. destruct (WireModel.error_at _ _) as [a|] eqn:E; [|reflexivity]. apply PropWire.C112_error in E as [_ E]. cbn [WireModel.w_steps] in E. lia.
  - exact F1.
  - exact F2.
Qed.
Print Assumptions C120_states_partial.

(** What is printed is the trace. *)
Theorem C120_printed names bodies t : Printed names bodies t (ScreenModel.wire names bodies t).
Proof.
  assert (F2 : forall A B (R : A -> B -> Prop) (f : A -> B) l, (forall a, R a (f a)) -> Forall2 R l (map f l)) by (intros A B R f l H; induction l; constructor; auto).
  split; [|destruct (tr_result t) eqn:E; cbn [ScreenModel.wire WireModel.w_result]; rewrite E; reflexivity].
  apply F2. intros s. split; [|intros f r E; cbn; rewrite E; reflexivity]. apply F2. intros f. do 3 (split; [reflexivity|]). apply F2. intros l. do 2 (split; [reflexivity|]).
  intros path. cbn. destruct (v_moved l); cbn; intuition congruence.
Qed.
Print Assumptions C120_printed.

(** With marks, there is one state for each, in the order of the execution: the last that the mark fits. *)
Theorem C120_marks {M} (mac : machine M string) prog node_range span_range names bodies short real ft m0 fuel depth t t' d marks n c ws ps :
  interpret_whole range_eqd prog node_range span_range mac fuel depth m0 = Some (Done t) ->
  WireSpec.Prints short real -> WireSpec.RealTrace (ScreenModel.wire names bodies t) ->
  Arrived short real (ScreenModel.wire names bodies t) t' ->
  ScreenModel.screen d marks n ft c t' = Some (ws, ps) -> marks <> [] ->
  let steps := WireModel.w_steps (ScreenModel.wire names bodies t) in
  Permutation (map ScreenModel.k_pos ws) marks /\
  exists ks, StronglySorted le ks /\ Forall2 (LastFits d steps) (map ScreenModel.k_pos ws) ks /\
    Forall2 (fun k p => exists s err, nth_error steps k = Some s /\ LookSpec.LooksState ft c err (WireModel.snap s) (ScreenModel.p_picture p)) ks ps.
Proof.
  intros _ PR RE AR SC N steps. rewrite (ScreenProofs.page_same d marks n ft c short real _ t' PR RE AR) in SC.
  destruct (ScreenProofs.screen_panels _ _ _ _ _ _ _ _ SC) as (ranges & ss & Ch & Lp & Lw & Ek & KW & KP). rewrite Ek.
  unfold ScreenModel.chosen in Ch. destruct marks as [|k marks]; [congruence|]. apply ScreenProofs.filter_steps_spec in Ch as (ks & A & B & Pm & So).
  split; [exact Pm|]. exists ks. split; [exact So|]. split; [exact A|].
  assert (LK : length ks = length ps) by (apply ScreenProofs.forall2_len in B; congruence).
  assert (G : forall i k p, nth_error ks i = Some k -> nth_error ps i = Some p ->
    exists s err, nth_error steps k = Some s /\ LookSpec.LooksState ft c err (WireModel.snap s) (ScreenModel.p_picture p)).
  { intros i k0 p E1 E2. destruct (KP i p E2) as (s & Es & _ & _ & _ & LS). exists s. eexists. split; [exact (ScreenProofs.forall2_nth _ _ _ B i _ _ E1 Es)|]. exists n. exact LS. }
  clear - LK G. revert ps LK G. induction ks as [|k ks IH]; intros [|p ps] LK G; try discriminate LK; constructor; [exact (G 0 k p eq_refl eq_refl)|].
  apply IH; [injection LK as LK; exact LK|]. intros i. exact (G (S i)).
Qed.
Print Assumptions C120_marks.

(** Without marks, all states of the trace are shown. *)
Theorem C120_all {M} (mac : machine M string) prog node_range span_range names bodies short real ft m0 fuel depth t t' d n c ws ps :
  interpret_whole range_eqd prog node_range span_range mac fuel depth m0 = Some (Done t) ->
  WireSpec.Prints short real -> WireSpec.RealTrace (ScreenModel.wire names bodies t) ->
  Arrived short real (ScreenModel.wire names bodies t) t' ->
  ScreenModel.screen d [] n ft c t' = Some (ws, ps) ->
  Forall2 (fun s p => exists err, LookSpec.LooksState ft c err (WireModel.snap s) (ScreenModel.p_picture p))
    (WireModel.w_steps (ScreenModel.wire names bodies t)) ps.
Proof.
  intros _ PR RE AR SC. rewrite (ScreenProofs.page_same d [] n ft c short real _ t' PR RE AR) in SC.
  destruct (ScreenProofs.screen_panels _ _ _ _ _ _ _ _ SC) as (ranges & ss & Ch & Lp & Lw & Ek & KW & KP).
  unfold ScreenModel.chosen in Ch. destruct (LookModel.all_some _) as [q|] eqn:Eq; [|discriminate]. injection Ch as _ Ess. change (WireModel.w_steps (ScreenModel.wire names bodies t) = ss) in Ess. rewrite <- Ess in KP, Lp.
  set (steps := WireModel.w_steps (ScreenModel.wire names bodies t)) in *.
  assert (G : forall i s p, nth_error steps i = Some s -> nth_error ps i = Some p -> exists err, LookSpec.LooksState ft c err (WireModel.snap s) (ScreenModel.p_picture p)).
  { intros i s p E1 E2. destruct (KP i p E2) as (s' & Es & _ & _ & _ & LS). rewrite E1 in Es. injection Es as <-. eexists. exists n. exact LS. }
  clear - Lp G. revert ps Lp G. induction steps as [|s l IH]; intros [|p ps] LK G; try discriminate LK; constructor; [exact (G 0 s p eq_refl eq_refl)|].
  apply IH; [injection LK as LK; exact LK|]. intros i. exact (G (S i)).
Qed.
Print Assumptions C120_all.

(** The last state on the page, and no other, says how the execution failed, if it did; its number in the code is red. *)
Theorem C120_error {M} (mac : machine M string) prog node_range span_range names bodies short real ft m0 fuel depth t t' d marks n c ws ps :
  Proper (evaluator mac depth) -> length (k_stack mac m0) = 1 ->
  (forall h m, Path mac m0 h m -> length (v_frames (k_look mac m)) = length (user_depths (k_stack mac m))) ->
  interpret_whole range_eqd prog node_range span_range mac fuel depth m0 = Some (Done t) ->
  WireSpec.Prints short real -> WireSpec.RealTrace (ScreenModel.wire names bodies t) ->
  Arrived short real (ScreenModel.wire names bodies t) t' ->
  ScreenModel.screen d marks n ft c t' = Some (ws, ps) ->
  exists e text, Ending mac depth m0 e /\ ErrorText e text /\
    forall i w p, nth_error ws i = Some w -> nth_error ps i = Some p ->
      (S i = length ps -> ScreenModel.p_error p = text) /\ (S i < length ps -> ScreenModel.p_error p = None) /\
      (ScreenModel.k_fail w = true <-> ScreenModel.p_error p <> None).
Proof.
  intros P L LV H PR RE AR SC. rewrite (ScreenProofs.page_same d marks n ft c short real _ t' PR RE AR) in SC.
  destruct (PropWhole.C93_ending range_eqd prog node_range span_range mac m0 fuel depth (Done t) P L LV H) as (e & En & An).
  exists e, (ScreenModel.error_text (WireModel.w_result (ScreenModel.wire names bodies t))). split; [exact En|]. split.
  - inversion An as [e0 t0 TO E1 E2| |]; subst. cbn [ScreenModel.wire WireModel.w_result]. destruct TO; constructor.
  - destruct (ScreenProofs.screen_panels _ _ _ _ _ _ _ _ SC) as (ranges & ss & Ch & Lp & Lw & Ek & KW & KP). intros i w p Ew Ep.
    destruct (KW i w Ew) as [_ KF]. destruct (KP i p Ep) as (s & Es & _ & PE & PN & _). rewrite Lp. split; [exact PE|]. apply ScreenProofs.nth_below in Es.
    split; [intros; apply PN; lia|]. rewrite KF. destruct (Nat.eq_dec (S i) (length ss)) as [E|E].
    + rewrite (PE E). tauto.
    + rewrite (PN E). split; [intros [A _]; contradiction|congruence].
Qed.
Print Assumptions C120_error.

(** A program that comes to its end is shown to its end, if what its variables hold can be read by the tool and on the page, and its
    statements are in the text of the page. *)
Theorem C120_shown_partial {M} (mac : machine M string) lay u8 prog node_range span_range names bodies short real m0 k :
  Proper (evaluator mac 0) -> length (k_stack mac m0) = 1 ->
  (forall h m, Path mac m0 h m -> Sane lay u8 (k_look mac m) /\ Readable lay u8 (k_look mac m) /\
     length (v_frames (k_look mac m)) = length (user_depths (k_stack mac m))) ->
  (forall h m m', Path mac m0 ((m, m') :: h) m' -> exists ms, k_moves mac m m' = inr ms) ->
  Ends mac k m0 -> WireSpec.Prints short real ->
  exists depth0, forall depth, depth0 <= depth ->
    exists t, interpret_whole range_eqd prog node_range span_range mac k depth m0 = Some (Done t) /\
    let steps := WireModel.w_steps (ScreenModel.wire names bodies t) in
    (WireSpec.RealTrace (ScreenModel.wire names bodies t) ->
     (exists t', Arrived short real (ScreenModel.wire names bodies t) t') /\
     forall t', Arrived short real (ScreenModel.wire names bodies t) t' -> forall d c ft, Forall (fun s => LookSpec.StateLegible c (WireModel.snap s)) steps ->
         (forall s, In s steps -> exists outer f q, WireModel.w_frames s = outer ++ [f] /\ Finishes d (WireModel.w_loc f) q) ->
         exists n ws ps, ScreenModel.screen d [] n ft c t' = Some (ws, ps) /\ length ps = length steps /\
           Forall (fun p => ScreenModel.p_error p = None) ps).
Proof.
  intros P L SA MV E PR. destruct (PropWhole.C93_success_partial range_eqd prog node_range span_range mac lay u8 m0 k P L SA MV E) as (D & HD).
  exists D. intros depth LD. destruct (HD depth LD) as (t & Et & Er). exists t. split; [exact Et|]. intros steps RE.
  split; [destruct (C120_arrives short real _ PR RE) as (j & x & t' & J & MM & C & AR); eauto|].
  intros t' AR d c ft LG PL. destruct (ScreenProofs.legible_steps ft c steps LG) as [N HN]. exists N.
  rewrite (ScreenProofs.page_same d [] N ft c short real _ t' PR RE AR).
  assert (SC : exists r, ScreenModel.screen d [] N ft c (ScreenModel.wire names bodies t) = Some r).
  { unfold ScreenModel.screen, ScreenModel.chosen. fold steps.
    destruct (LookProofs.all_some_forall (fun s => LookModel.obind (last_opt (WireModel.w_frames s)) (fun f => ScreenModel.place d (ScreenModel.end_of (WireModel.w_loc f)))) steps) as [qs Eq].
    { rewrite Forall_forall. intros s Is. destruct (PL s Is) as (o & f & q & Ef & F). exists q. rewrite Ef, TraceMachine.last_opt_app. cbn [LookModel.obind]. apply ScreenProofs.finishes, F. }
    rewrite Eq. cbn [option_map LookModel.obind].
    match goal with |- context [LookModel.all_some (map ?f ?l)] => destruct (LookProofs.all_some_forall f l) as [ps Ep] end.
    { rewrite Forall_forall. intros [i s] I. apply in_combine_r in I. unfold ScreenModel.draw_panel. cbn [fst snd].
      destruct (HN N (WireModel.error_at (WireModel.WTrace steps (WireModel.w_result (ScreenModel.wire names bodies t))) i) s (le_n _) I) as [pic Epic]. rewrite Epic. cbn. eauto. }
    rewrite Ep. cbn [option_map]. eauto. }
  destruct SC as [[ws ps] SC]. exists ws, ps. split; [exact SC|]. destruct (ScreenProofs.screen_panels _ _ _ _ _ _ _ _ SC) as (ranges & ss & Ch & Lp & _ & _ & _ & KP).
  unfold ScreenModel.chosen in Ch. destruct (LookModel.all_some _) as [q|] eqn:Eq; [|discriminate]. injection Ch as _ Ess. change (WireModel.w_steps (ScreenModel.wire names bodies t) = ss) in Ess. rewrite <- Ess in KP, Lp. split; [exact Lp|].
  rewrite Forall_forall. intros p I. apply In_nth_error in I as [i Ei]. destruct (KP i p Ei) as (s & _ & _ & PE & PN & _).
  cbn [ScreenModel.wire WireModel.w_result] in PE. rewrite Er in PE. cbn in PE.
  destruct (Nat.eq_dec (S i) (length (WireModel.w_steps (ScreenModel.wire names bodies t)))) as [E0|E0]; auto.
Qed.
Print Assumptions C120_shown_partial.

(** The program of C93, with [main] on lines 0 to 3 and [g] on lines 4 to 9. *)
(** With marks, something is shown exactly if every mark fits a state: a mark in code that is not executed takes all states
    off the page. *)
Theorem C120_marked_partial short real w t' d marks c ft : WireSpec.Prints short real -> WireSpec.RealTrace w -> Arrived short real w t' ->
  marks <> [] -> (forall s, In s (WireModel.w_steps w) -> InText d s) -> Forall (fun s => LookSpec.StateLegible c (WireModel.snap s)) (WireModel.w_steps w) ->
  ((exists n ws ps, ScreenModel.screen d marks n ft c t' = Some (ws, ps)) <-> forall mark, In mark marks -> exists s, In s (WireModel.w_steps w) /\ FitsStep d mark s).
Proof.
  intros PR RE AR N T LG. rewrite <- (ScreenProofs.marked_shown d marks c ft w N T LG).
  split; intros (n & ws & ps & E); exists n, ws, ps; rewrite (ScreenProofs.page_same d marks n ft c short real w t' PR RE AR) in *; exact E.
Qed.
Print Assumptions C120_marked_partial.

Module Demo.
  Definition at_line (n : nat) : WireModel.wrange := ((n, 2), (n, 7), 0).
  Definition ranges (o n : nat) : option WireModel.wrange :=
    option_map (fun r => at_line (if Nat.eqb (fst r) 100 then snd r else 4 + snd r)) (PropMapper.Demo.ranges o n).
  Definition names (f : nat) : string := match f with 0 => "main" | _ => "g" end.
  Definition bodies (f : nat) : WireModel.wrange := match f with 0 => ((0, 0), (3, 1), 0) | _ => ((4, 0), (9, 1), 0) end.
  Definition text : EditorModel.doc := repeat (repeat 120 8) 10.
  Definition ft (z : Z) : list nat := [Z.to_nat z].
  Definition trace := match interpret_whole range_eqd PropMapper.Demo.prog ranges ranges PropWhole.Demo.mac 6 5 0 with Some (Done t) => Some t | _ => None end.
  Definition out := match trace with Some t => Some (ScreenModel.wire names bodies t) | None => None end.

  Definition x moved := LookModel.MLocal "x" (MScalar PInt 7) moved.
  Definition r := LookModel.MLocal "r" (MPtr (inl (0, "x")) [] None) [].
  Definition in_main n moved := WireModel.WFrame "main" (bodies 0) (at_line n) [x moved].
  Definition in_g n := WireModel.WFrame "g" (bodies 2) (at_line n) [r].
  Definition run := WireModel.WTrace
    [WireModel.WStep [in_main 1 []] []; WireModel.WStep [in_main 2 []; in_g 6] []; WireModel.WStep [in_main 2 []; in_g 9] [];
     WireModel.WStep [in_main 2 [[]]] []] WireModel.WSuccess.
  Lemma run_out : out = Some run.
  Proof. vm_compute. reflexivity. Qed.
  Lemma range_real n : n < 10 -> WireSpec.SizeRange (at_line n).
  Proof. intros L. cbn. unfold WireSpec.Size. lia. Qed.
  Lemma main_real n m : n < 10 -> Forall (Forall WireSpec.SizeSeg) m -> WireSpec.RealFrame (in_main n m).
  Proof.
    intros L Hm. split; [cbn; unfold WireSpec.Size; lia|]. split; [apply range_real, L|]. constructor; [|constructor].
    split; [|exact Hm]. constructor. cbn. lia.
  Qed.
  Lemma g_real n : n < 10 -> WireSpec.RealFrame (in_g n).
  Proof.
    intros L. split; [cbn; unfold WireSpec.Size; lia|]. split; [apply range_real, L|]. constructor; [|constructor].
    split; [|constructor]. constructor; [cbn; unfold WireSpec.Size; lia|constructor|exact Logic.I].
  Qed.
  Lemma run_real : WireSpec.RealTrace run.
  Proof.
    split; [|cbn; discriminate]. unfold run. cbn [WireModel.w_steps].
    assert (MR : forall n m, n < 10 -> Forall (Forall WireSpec.SizeSeg) m -> WireSpec.RealStep (WireModel.WStep [in_main n m] [])).
    { intros n m L Hm. split; [constructor; [apply main_real; assumption|constructor]|constructor]. }
    assert (GR : forall n, n < 10 -> WireSpec.RealStep (WireModel.WStep [in_main 2 []; in_g n] [])).
    { intros n L. split; [constructor; [apply main_real; [lia|constructor]|constructor; [apply g_real, L|constructor]]|constructor]. }
    constructor; [apply MR; [lia|constructor]|]. constructor; [apply GR; lia|]. constructor; [apply GR; lia|].
    constructor; [apply MR; [lia|constructor; constructor]|]. constructor.
  Qed.

  (** The same program on the machine of C93 that cannot read the reference [r]. *)
  Definition broken := match interpret_whole range_eqd PropMapper.Demo.prog ranges ranges PropWhole.Broken.mac 6 5 0 with Some (Done t) => Some (ScreenModel.wire names bodies t) | _ => None end.
End Demo.

(** What reaches the page of that program, without marks, and with the marks 60 in [g] and 25 in [main]. *)
Example C120_witness : exists t t',
  Proper (evaluator PropWhole.Demo.mac 5) /\ length (k_stack PropWhole.Demo.mac 0) = 1 /\
  (forall inst, Order (fn_nodes (PropMapper.Demo.prog inst)) /\ Tree (PropMapper.Demo.prog inst)) /\
  (forall h m, Path PropWhole.Demo.mac 0 h m -> Sane PropWhole.Demo.look_lay 0 (k_look PropWhole.Demo.mac m) /\
     length (v_frames (k_look PropWhole.Demo.mac m)) = length (user_depths (k_stack PropWhole.Demo.mac m))) /\
  interpret_whole range_eqd PropMapper.Demo.prog Demo.ranges Demo.ranges PropWhole.Demo.mac 6 5 0 = Some (Done t) /\
  WireSpec.Prints PropWire.Demo.short PropWire.Demo.real /\ WireSpec.RealTrace (ScreenModel.wire Demo.names Demo.bodies t) /\
  Arrived PropWire.Demo.short PropWire.Demo.real (ScreenModel.wire Demo.names Demo.bodies t) t' /\
  let row moved := ("x", moved, LookModel.LNumber 7) in
  let main moved := ([("main", [row moved])], []) in
  let both := ([("main", [row false]); ("g", [("r", false, LookModel.LDot (inl (0, "x"), []) None)])], []) in
  ScreenModel.screen Demo.text [] 5 Demo.ft false t' =
    Some ([ScreenModel.Marker 16 1 false; ScreenModel.Marker 61 2 false; ScreenModel.Marker 88 3 false; ScreenModel.Marker 25 4 false],
          [ScreenModel.Panel 1 None (main false); ScreenModel.Panel 2 None both; ScreenModel.Panel 3 None both; ScreenModel.Panel 4 None (main true)]) /\
  ScreenModel.screen Demo.text [25; 60] 5 Demo.ft false t' =
    Some ([ScreenModel.Marker 60 1 false; ScreenModel.Marker 25 2 false],
          [ScreenModel.Panel 1 None both; ScreenModel.Panel 2 None (main true)]).
Proof.
  pose proof Demo.run_out as RO. unfold Demo.out, Demo.trace in RO.
  destruct (interpret_whole range_eqd PropMapper.Demo.prog Demo.ranges Demo.ranges PropWhole.Demo.mac 6 5 0) as [[| |t]|] eqn:E; try discriminate RO.
  assert (RO' : ScreenModel.wire Demo.names Demo.bodies t = Demo.run) by congruence. exists t. rewrite RO'.
  destruct (C120_arrives _ _ _ PropWire.Demo.prints Demo.run_real) as (_ & _ & t' & _ & _ & _ & AR). exists t'.
  split; [apply PropWhole.Demo.proper|]. split; [reflexivity|]. split; [apply PropMapper.Demo.prog_ok|].
  split; [intros; split; [apply PropWhole.Demo.sane|apply PropWhole.Demo.frames_match]|]. split; [reflexivity|].
  split; [apply PropWire.Demo.prints|]. split; [apply Demo.run_real|]. split; [assumption|].
  cbv zeta. rewrite !(ScreenProofs.page_same _ _ _ _ _ _ _ _ _ PropWire.Demo.prints Demo.run_real AR). split; vm_compute; reflexivity.
Qed.

(** The error of the other machine is said beside the only state there is. *)
Example C120_error_witness : exists t, Demo.broken = Some t /\
  ScreenModel.screen Demo.text [] 5 Demo.ft false t = Some ([ScreenModel.Marker 16 1 true], [ScreenModel.Panel 1 (Some "bad") ([("main", [("x", false, LookModel.LNumber 7)])], [])]) /\
  ErrorText (Some (Undefined (Some "bad"))) (Some "bad").
Proof. eexists. split; [vm_compute; reflexivity|]. split; [vm_compute; reflexivity|constructor]. Qed.

(** The states of that program are in its text and can be read off.  The mark 5 comes before everything that [main] does: with it, nothing is shown. *)
Example C120_marked_witness : (forall s, In s (WireModel.w_steps Demo.run) -> InText Demo.text s) /\
  Forall (fun s => LookSpec.StateLegible false (WireModel.snap s)) (WireModel.w_steps Demo.run) /\
  (forall mark, In mark [25; 60] -> exists s, In s (WireModel.w_steps Demo.run) /\ FitsStep Demo.text mark s) /\
  ~ (exists s, In s (WireModel.w_steps Demo.run) /\ FitsStep Demo.text 5 s) /\
  forall n ft, ScreenModel.screen Demo.text [25; 60; 5] n ft false Demo.run = None.
Proof.
  assert (IT : forall s, In s (WireModel.w_steps Demo.run) -> InText Demo.text s).
  { assert (K : forall o f, (exists lo, ScreenModel.place Demo.text (ScreenModel.start_of (WireModel.w_body f)) = Some lo) /\
        (exists hi, ScreenModel.place Demo.text (ScreenModel.end_of (WireModel.w_body f)) = Some hi) /\
        (exists l, ScreenModel.place Demo.text (ScreenModel.start_of (WireModel.w_loc f)) = Some l) -> forall h, InText Demo.text (WireModel.WStep (o ++ [f]) h)).
    { intros o f ((lo & A) & (hi & B) & (l & C)) h. exists o, f, lo, hi, l. split; [reflexivity|]. rewrite <- ScreenProofs.starts, <- ScreenProofs.finishes, <- ScreenProofs.starts. auto. }
    intros s [<-|[<-|[<-|[<-|[]]]]].
    - apply (K [] (Demo.in_main 1 [])); split; [|split]; eexists; vm_compute; reflexivity.
    - apply (K [Demo.in_main 2 []] (Demo.in_g 6)); split; [|split]; eexists; vm_compute; reflexivity.
    - apply (K [Demo.in_main 2 []] (Demo.in_g 9)); split; [|split]; eexists; vm_compute; reflexivity.
    - apply (K [] (Demo.in_main 2 [[]])); split; [|split]; eexists; vm_compute; reflexivity. }
  assert (FI : forall mark, (exists x, ScreenModel.indexed Demo.text (WireModel.w_steps Demo.run) mark = Some x) <-> exists s, In s (WireModel.w_steps Demo.run) /\ FitsStep Demo.text mark s)
    by (intros mark; apply (ScreenProofs.indexed_fits Demo.text _ mark IT)).
  split; [exact IT|]. split.
  { assert (LX : forall m, LookSpec.Legible false (LookModel.l_value (Demo.x m))) by (intros m; apply LookSpec.le_scalar; cbn; lia).
    assert (LR : LookSpec.Legible false (LookModel.l_value Demo.r)) by (apply LookSpec.le_ptr; intros [|a l] b lo hi Q; discriminate Q).
    repeat first [apply LX|apply LR|match goal with |- Forall _ _ => constructor | |- LookSpec.StateLegible _ _ => split end]. }
  split; [intros mark [<-|[<-|[]]]; apply FI; eexists; vm_compute; reflexivity|].
  split; [rewrite <- FI; intros [x X]; vm_compute in X; discriminate X|]. intros n ft. vm_compute. reflexivity.
Qed.
