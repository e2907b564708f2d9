(** * C93: the pictures of a running program *)
From Coq Require Import String.
From Coq Require Import List Arith Bool ZArith Lia.
From Verif Require Import Base CfgModel CfgSpec TraceModel TraceSpec TraceMachine PropTrace ValuesModel MapperModel MapperSpec PropMapper
  ReaderModel ReaderSpec ReaderProofs LocalsModel LocalsSpec PropLocals WholeModel WholeSpec WholeProofs.
Import ListNotations.

(** Whatever the program does, every state that the user is shown is a state of the execution: the running
    functions where they are, with the variables that have a value, and their values.  Missing: types with
    padding (C90) and types that the reader does not know (C88). *)
Theorem C93_pictures_partial {M Msg R} (eqr : forall a b : R, {a = b} + {a <> b}) (prog : nat -> fn)
    (node_range span_range : nat -> nat -> option R) (mac : machine M Msg) (lay : local -> vlayout) (u8 : nat) m0 fuel depth t :
  Proper (evaluator mac depth) -> length (k_stack mac m0) = 1 ->
  (forall inst, Order (fn_nodes (prog inst)) /\ Tree (prog inst)) ->
  (forall h m, Path mac m0 h m -> Sane lay u8 (k_look mac m) /\
     length (v_frames (k_look mac m)) = length (user_depths (k_stack mac m))) ->
  interpret_whole eqr prog node_range span_range mac fuel depth m0 = Some (Done t) ->
  forall s, In s (tr_steps t) -> Pictured mac lay u8 prog node_range span_range m0 s.
Proof.
  intros P L W SA H s I. unfold interpret_whole, interpret_program in H.
  destruct (eval (evaluator mac depth) fuel [[]] m0) as [[e|  |[steps e]]|] eqn:Ev; try discriminate.
  destruct (match e with None => Done RSuccess | Some e0 => beautify_error e0 end) as [msg| |r] eqn:B; try discriminate.
  destruct (interpret _ _ _ _ _) as [t1|] eqn:It; [|discriminate]. injection H as ->.
  apply C86_states_shown in It as (_ & It); auto. destruct (It s I) as (s0 & I0 & D). cbn [tr_steps] in I0.
  apply in_map_iff in I0 as (frs & <- & I0).
  pose proof (C40_trace _ m0 fuel steps e P L Ev) as T.
  destruct (trace_paths mac m0 depth [] m0 steps e T (path_start mac m0) frs I0) as (NE & h & m & m' & PA & F).
  exists h, m, m'. split; auto. cbv zeta. set (v := k_look mac m').
  destruct (SA _ _ PA) as (SV & LV). fold v in SV, LV.
  (* the frames come from one reading of the state *)
  assert (BS : exists xss vs heap, build_state (v_mem v) (v_allocs v) depth (v_frames v) = inr (xss, (vs, heap))).
  { inversion F as [E1 E2|d fr ds frs' SH F' E1 E2]; [subst; congruence|]. destruct SH as (rf & set & _ & _ & MI & _).
    cbn [evaluator mi_info] in MI. unfold info in MI. fold v in MI.
    destruct (build_state (v_mem v) (v_allocs v) depth (v_frames v)) as [[e0| |]|[xss [vs heap]]]; try discriminate. eauto. }
  destruct BS as (xss & vs & heap & BS). destruct (state_right lay u8 v depth xss vs heap SV BS) as (mm & LO & CH & LE & RI).
  destruct (share_spec xss vs LE) as (SF & SS).
  exists mm, xss, (map (map snd) (share xss vs)), heap. split; auto. split; auto. split; [rewrite SS; auto|].
  unfold Depicts in D. cbn [m_frames] in D. pose proof (Forall2_length _ _ _ F) as LF. pose proof (Forall2_length _ _ _ D) as LD.
  pose proof (Forall2_length _ _ _ CH) as LC. cbn [evaluator mi_stack] in LF.
  assert (LS : length (share xss vs) = length xss) by (rewrite <- SF at 2; rewrite map_length; auto).
  split; [lia|]. split; [lia|]. split; [rewrite map_length; lia|].
  intros i fr d xs vs0 NF ND NX NV.
  assert (NR : exists fr0, nth_error frs i = Some fr0).
  { destruct (nth_error frs i) eqn:N; [eauto|]. apply nth_error_None in N. apply nth_lt in NF. lia. }
  destruct NR as (fr0 & NR). pose proof (Forall2_nth _ _ _ _ _ _ D NR NF) as (EI & hl & SH & TX).
  pose proof (Forall2_nth _ _ _ _ _ _ F ND NR) as (rf & set & NS & SM & MI & EF & E1 & E2).
  cbn [evaluator mi_stack mi_info mi_header] in *. unfold info in MI. fold v in MI. rewrite BS in MI.
  rewrite NS, (depth_index _ _ _ ND) in MI.
  destruct (nth_error (share xss vs) i) as [xvs|] eqn:NSH; [|discriminate]. injection MI as MI.
  assert (EX : map fst xvs = xs).
  { rewrite <- SF in NX. rewrite nth_error_map, NSH in NX. injection NX as <-. auto. }
  rewrite nth_error_map, NSH in NV. injection NV as <-. split.
  - rewrite EI, <- MI. unfold Frame_shows. cbn [fr_fun fr_locals fr_heap]. rewrite !map_map. cbn [v_name v_value]. split; [eauto|].
    split; [rewrite <- EX, map_map; auto|]. split; auto. split; auto.
    intros j x y NJ NY. rewrite nth_error_map in NY. rewrite <- EX, nth_error_map in NJ.
    destruct (nth_error xvs j) as [[x' v']|]; [|discriminate]. injection NJ as <-. injection NY as <-. cbn [v_moved fst snd].
    rewrite <- (moved_same mac depth), <- SM. apply memb_In.
  - exists rf, (snd (f_loc fr0)), hl. split; auto. split; auto. split; auto. split; auto.
    rewrite <- EF. destruct (f_loc fr0); auto.
Qed.
Print Assumptions C93_pictures_partial.

(** A program that comes to its end, and whose variables can be read, is shown to its end: for large values
    enough depth is needed, which the tool's stack bounds. *)
Theorem C93_success_partial {M Msg R} (eqr : forall a b : R, {a = b} + {a <> b}) (prog : nat -> fn)
    (node_range span_range : nat -> nat -> option R) (mac : machine M Msg) (lay : local -> vlayout) (u8 : nat) m0 n :
  Proper (evaluator mac 0) -> length (k_stack mac m0) = 1 ->
  (forall h m, Path mac m0 h m -> Sane lay u8 (k_look mac m) /\ Readable lay u8 (k_look mac m) /\
     length (v_frames (k_look mac m)) = length (user_depths (k_stack mac m))) ->
  (forall h m m', Path mac m0 ((m, m') :: h) m' -> exists ms, k_moves mac m m' = inr ms) ->
  Ends mac n m0 ->
  exists depth0, forall depth, depth0 <= depth ->
    exists t, interpret_whole eqr prog node_range span_range mac n depth m0 = Some (Done t) /\ tr_result t = RSuccess.
Proof.
  intros P L SA MV E. destruct (trace_succeeds mac lay u8 m0 n m0 E SA MV [] (path_start mac m0)) as (D & HD).
  exists D. intros d LD. assert (P' : Proper (evaluator mac d)) by exact P.
  destruct (eval (evaluator mac d) n [[]] m0) as [[e| |[steps e]]|] eqn:Ev.
  - destruct e.
  - exfalso. revert Ev. apply C40_no_crash; auto.
  - pose proof (C40_trace _ m0 n steps e P' L Ev) as T. rewrite (HD d LD steps e T) in Ev.
    eapply C87_told; eauto. constructor.
  - exfalso. revert Ev. apply eval_enough. auto.
Qed.
Print Assumptions C93_success_partial.

(** However the execution stops, the user is told how, or gets the message of the error; only an error
    without a text, and a panic of the reader, end the tool. *)
Theorem C93_ending {M Msg R} (eqr : forall a b : R, {a = b} + {a <> b}) (prog : nat -> fn)
    (node_range span_range : nat -> nat -> option R) (mac : machine M Msg) m0 fuel depth o :
  Proper (evaluator mac depth) -> length (k_stack mac m0) = 1 ->
  (forall h m, Path mac m0 h m -> length (v_frames (k_look mac m)) = length (user_depths (k_stack mac m))) ->
  interpret_whole eqr prog node_range span_range mac fuel depth m0 = Some o ->
  exists e, Ending mac depth m0 e /\ Answered e o.
Proof.
  intros P L LV H. destruct (eval (evaluator mac depth) fuel [[]] m0) as [[e| |[steps e]]|] eqn:Ev.
  - destruct e.
  - exfalso. revert Ev. apply C40_no_crash; auto.
  - exists e. pose proof (C40_trace _ m0 fuel steps e P L Ev) as T. split; [eapply trace_ending; eauto; constructor|].
    assert (TOLD : forall r, Told e r -> Answered e o).
    { intros r TR. destruct (C87_told _ _ _ _ eqr prog node_range span_range _ _ _ _ _ _ P L Ev TR) as (t & E & R1).
      unfold interpret_whole in H. rewrite E in H. injection H as <-. constructor. rewrite R1. auto. }
    unfold interpret_whole in H. destruct e as [[a met|[msg|]|[msg|]]|].
    + apply (TOLD (RFreed (error_number met a))). constructor. apply error_number_spec. auto.
    + apply (TOLD (ROther msg)). constructor.
    + rewrite (C87_message_refuted _ _ _ _ eqr prog node_range span_range _ _ _ _ (Undefined None) (or_introl eq_refl) Ev) in H.
      injection H as <-. constructor. auto.
    + rewrite (C87_stopped_refuted _ _ _ _ eqr prog node_range span_range _ _ _ _ _ Ev) in H. injection H as <-. constructor.
    + rewrite (C87_message_refuted _ _ _ _ eqr prog node_range span_range _ _ _ _ (NotUndefined None) (or_intror eq_refl) Ev) in H.
      injection H as <-. constructor. auto.
    + apply (TOLD RSuccess). constructor.
  - unfold interpret_whole, interpret_program in H. rewrite Ev in H. discriminate.
Qed.
Print Assumptions C93_ending.

(** [main] makes [x], calls [g] with a reference to [x], and then gives [x] away. *)
Module Demo.
  Definition look_lay (l : local) : vlayout := match l_ty l with TPtr _ => VScalar 8 | _ => VScalar 4 end.
  Definition early := Local (Some "x"%string) false false ShPrimitive (TPrim PInt) Dead (Place 0 0 None).
  Definition main_frame (x : local) := LocalsModel.Frame [DPlace 1 0; DPlace 2 0] [PropLocals.Demo.ret_unit; x; PropLocals.Demo.ly; PropLocals.Demo.lt].
  Definition g_frame := LocalsModel.Frame [DPlace 1 0] [PropLocals.Demo.ret_int; PropLocals.Demo.lr].
  Definition frames (m : nat) : list LocalsModel.frame :=
    match m with
    | 0 => [main_frame early]
    | 1 | 4 | 5 => [main_frame PropLocals.Demo.lx]
    | 2 | 3 => [main_frame PropLocals.Demo.lx; g_frame]
    | _ => []
    end.
  Definition in_main (l : nat) := RawFrame 0 true (AtLoc l).
  Definition in_g (l : nat) := RawFrame 2 true (AtLoc l).
  Definition stack (m : nat) : list raw_frame :=
    match m with
    | 0 => [in_main 0] | 1 => [in_main 1] | 2 => [in_main 1; in_g 0] | 3 => [in_main 1; in_g 1]
    | 4 => [in_main 2] | 5 => [in_main 3] | _ => []
    end.
  Definition mac : machine nat string := Machine stack
    (fun m => match m with 0 | 1 | 2 | 3 | 4 => inr (S m, true) | 5 => inr (6, false) | _ => inl (NotUndefined None) end)
    (fun m _ => match m with 4 => inr [OfLocal 1] | _ => inr [] end)
    (fun f => f) (fun m => View PropLocals.Demo.mem0 PropLocals.Demo.allocs (frames m)) (fun _ => Undefined None).
  (** For each function of each picture: where it is, and its variables. *)
  Definition pictures :=
    match interpret_whole PropMapper.Demo.eqr PropMapper.Demo.prog PropMapper.Demo.ranges PropMapper.Demo.ranges mac 6 5 0 with
    | Some (Done t) => Some (map (fun s => map (fun fr => (f_loc fr, fr_locals (f_info fr))) (m_frames s)) (tr_steps t), tr_result t)
    | _ => None
    end.

  Lemma proper : Proper (evaluator mac 0).
  Proof.
    split; cbn [evaluator mi_step mi_stack mi_moves mac k_step k_stack k_moves].
    - intros m m' more E. destruct m as [|[|[|[|[|[|m]]]]]]; [injection E as <- <-..|discriminate E]; cbn [stack].
      + apply (move_stay [] (in_main 0) (in_main 1)); split; reflexivity.
      + apply (move_call [] (in_main 1) (in_main 1) (in_g 0)); split; reflexivity.
      + apply (move_stay [in_main 1] (in_g 0) (in_g 1)); split; reflexivity.
      + apply (move_return [] (in_main 1) (in_main 2) (in_g 1)); split; reflexivity.
      + apply (move_stay [] (in_main 2) (in_main 3)); split; reflexivity.
      + apply move_exit.
    - intros m m'. do 6 (destruct m as [|m]; [discriminate|]). reflexivity.
  Qed.

  Lemma vars m fi i l name : Var look_lay (k_look mac m) fi i l name ->
    (fi = 0 /\ i = 1 /\ l = PropLocals.Demo.lx) \/ (fi = 1 /\ i = 1 /\ l = PropLocals.Demo.lr).
  Proof.
    intros (f & N & NL & SV & HV). cbn [mac k_look v_frames v_allocs] in N, HV.
    assert (X : (fi = 0 /\ exists x, (x = early \/ x = PropLocals.Demo.lx) /\ f = main_frame x) \/ (fi = 1 /\ f = g_frame)).
    { do 6 (destruct m as [|m]; [destruct fi as [|[|fi]]; cbn in N; try discriminate N; try (destruct fi; discriminate N); injection N as <-; eauto 6|]).
      destruct fi; discriminate N. }
    destruct X as [(-> & x & Ex & ->)|(-> & ->)]; cbn [f_locals main_frame g_frame] in NL.
    - destruct i as [|[|[|[|i]]]]; cbn [nth_error] in NL; [injection NL as <-..|destruct i; discriminate NL].
      + destruct SV as [(_ & U & _)|(N0 & _)]; [discriminate U|congruence].
      + destruct Ex as [-> | ->]; [destruct HV|auto].
      + discriminate HV.
      + destruct SV as [(N0 & _)|(_ & D & _)]; [discriminate N0|]. cbn in D. destruct D as [D|[D|[]]]; discriminate D.
    - destruct i as [|[|i]]; cbn [nth_error] in NL; [injection NL as <-..|destruct i; discriminate NL].
      + discriminate HV.
      + auto.
  Qed.

  Lemma sane m : Sane look_lay 0 (k_look mac m).
  Proof.
    constructor.
    - intros f l IF IL. cbn [mac k_look v_frames v_allocs] in *.
      assert (X : In l [PropLocals.Demo.ret_unit; early; PropLocals.Demo.lx; PropLocals.Demo.ly; PropLocals.Demo.lt; PropLocals.Demo.ret_int; PropLocals.Demo.lr]).
      { assert (F : f = main_frame early \/ f = main_frame PropLocals.Demo.lx \/ f = g_frame).
        { do 6 (destruct m as [|m]; [cbn [frames In] in IF; intuition auto|]). destruct IF. }
        destruct F as [-> |[-> | ->]]; cbn [f_locals main_frame g_frame In] in IL |- *; tauto. }
      cbn [In] in X. destruct X as [<-|[<-|[<-|[<-|[<-|[<-|[<-|[]]]]]]]]; (split; [exact I|]); (split; [constructor|]); (split; [reflexivity|]);
        intros a Ea; try discriminate Ea. reflexivity.
    - intros a fi i l name fi' i' l' name' A B Ea Eb.
      apply vars in A as [(-> & -> & ->)|(-> & -> & ->)]; [|discriminate Ea].
      apply vars in B as [(-> & -> & ->)|(-> & -> & ->)]; [auto|discriminate Eb].
    - intros vs IV. constructor.
      + reflexivity.
      + intros [|id]; right; constructor.
      + intros p t I. destruct (IV p t I) as (fi & i & l & name & V & -> & ->). apply vars in V as [(_ & _ & ->)|(_ & _ & ->)]; constructor.
      + intros w p el _. exists 7, 7%Z. auto.
      + intros w p _. exists 7, 7%Z. auto.
  Qed.

  Lemma readable m : Readable look_lay 0 (k_look mac m).
  Proof.
    intros mm vs [E _] IV p t I. destruct (IV p t I) as (fi & i & l & name & V & -> & ->).
    assert (PR : forall w q k, Ready mm 0 vs w q (TPrim k)) by (intros; constructor; intros e; rewrite E; discriminate).
    apply vars in V as [(_ & _ & ->)|(_ & _ & ->)]; [apply PR|].
    apply (ready_target mm 0 vs None _ 1 (Place 0 0 None)).
    - left. auto.
    - rewrite E. reflexivity.
    - rewrite E. discriminate.
    - split; intros; rewrite E; vm_compute; discriminate.
    - replace (m_ty mm 1) with (TPrim PInt) by (rewrite E; reflexivity). apply PR.
  Qed.

  Lemma frames_match m : length (v_frames (k_look mac m)) = length (user_depths (k_stack mac m)).
  Proof. do 6 (destruct m as [|m]; [reflexivity|]). reflexivity. Qed.
End Demo.

Example C93_witness :
  Proper (evaluator Demo.mac 0) /\ length (k_stack Demo.mac 0) = 1 /\
  (forall inst, Order (fn_nodes (PropMapper.Demo.prog inst)) /\ Tree (PropMapper.Demo.prog inst)) /\
  (forall h m, Path Demo.mac 0 h m -> Sane Demo.look_lay 0 (k_look Demo.mac m) /\ Readable Demo.look_lay 0 (k_look Demo.mac m) /\
     length (v_frames (k_look Demo.mac m)) = length (user_depths (k_stack Demo.mac m))) /\
  (forall h m m', Path Demo.mac 0 ((m, m') :: h) m' -> exists ms, k_moves Demo.mac m m' = inr ms) /\
  Ends Demo.mac 6 0 /\
  Demo.pictures = Some (
    let x moved := MLocal "x"%string (MScalar PInt 7) moved in
    let r := MLocal "r"%string (MPtr (inl (0, "x"%string)) [] None) false in
    [[((100, 1), [x false])];
     [((100, 2), [x false]); ((102, 2), [r])];
     [((100, 2), [x false]); ((102, 5), [r])];
     [((100, 2), [x true])]], RSuccess).
Proof.
  split; [apply Demo.proper|]. split; [reflexivity|]. split; [apply PropMapper.Demo.prog_ok|].
  split; [intros; split; [apply Demo.sane|]; split; [apply Demo.readable|apply Demo.frames_match]|].
  split; [intros h m m' _; do 5 (destruct m as [|m]; [eexists; reflexivity|]); eexists; reflexivity|].
  split; [do 5 (eapply ends_more; [reflexivity|]); eapply ends_last; reflexivity|].
  vm_compute. reflexivity.
Qed.

(** The same program on a machine that cannot read the reference [r] of [g]: the execution stops in [g] with that error, and
    the state before is shown. *)
Module Broken.
  Definition mem1 (m : nat) : mem := let b := PropLocals.Demo.mem0 in
    Mem (m_ty b) (m_scalar b) (fun p => match m with 2 => BadPointer 9 | _ => m_ptr b p end) (m_variant b) (m_off b) (m_zst b) (m_size b)
      (m_layout b) (m_kind b) (m_asize b) (m_slot b).
  Definition mac : machine nat string := Machine Demo.stack (k_step Demo.mac) (k_moves Demo.mac) (fun f => f)
    (fun m => View (mem1 m) PropLocals.Demo.allocs (Demo.frames m)) (fun _ => Undefined (Some "bad"%string)).
  Definition ending :=
    match interpret_whole PropMapper.Demo.eqr PropMapper.Demo.prog PropMapper.Demo.ranges PropMapper.Demo.ranges mac 6 5 0 with
    | Some (Done t) => Some (map (fun s => map (fun fr => f_loc fr) (m_frames s)) (tr_steps t), tr_result t)
    | _ => None
    end.
End Broken.

Example C93_ending_witness :
  Proper (evaluator Broken.mac 5) /\ length (k_stack Broken.mac 0) = 1 /\
  (forall h m, Path Broken.mac 0 h m -> length (v_frames (k_look Broken.mac m)) = length (user_depths (k_stack Broken.mac m))) /\
  Ending Broken.mac 5 0 (Some (Undefined (Some "bad"%string))) /\
  Broken.ending = Some ([[(100, 1)]], ROther "bad"%string).
Proof.
  split; [exact Demo.proper|]. split; [reflexivity|]. split; [intros h m _; exact (Demo.frames_match m)|].
  split; [|vm_compute; reflexivity].
  eapply (end_error Broken.mac 5 0 [(1, 2); (0, 1)] 2 9).
  - eapply (path_step Broken.mac 0 [(0, 1)] 1 2 true); [|reflexivity]. eapply (path_step Broken.mac 0 [] 0 1 true); [apply path_start|reflexivity].
  - vm_compute. reflexivity.
Qed.
