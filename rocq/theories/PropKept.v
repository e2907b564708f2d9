(** * C118: the step tables on the page belong to the code on it *)

From Coq Require Import List Arith Bool Lia.
From Verif Require Import EditorModel EditorSpec EditorProofs KeptModel KeptSpec KeptProofs.
Import ListNotations.

Section Kept.
  Context {Bd St Tr : Type} (keeps : nat -> nat -> bool) (analyse : nat -> doc -> list (option (output Bd St))) (execute : doc -> option Tr).

  (** There is always a table at every place where the page asked for one, and at
      no other, whatever the view keeps. *)
  Theorem C118_places d evs v : view_run keeps analyse execute 0 (view_start d) evs = Some v ->
    map fst (v_drawn v) = map fst (e_steps (p_ed (v_page v))).
  Proof.
    destruct evs as [|ev evs _] using rev_ind; intros H.
    - injection H as <-. auto.
    - rewrite view_run_app in H. destruct (view_run _ _ _ 0 _ evs) as [v1|]; [|discriminate]. cbn [view_run] in H.
      unfold view_step in H. destruct (step _ _ _ ev) as [p|]; [|discriminate]. injection H as <-. apply redraw_places.
  Qed.

  (** What is in the tables after one more event: at a place the view keeps, the
      tables that were there, and new ones only where there were fewer. *)
  Theorem C118_kept k v ev v' : view_step keeps analyse execute k v ev = Some v' ->
    forall n, let was := at_place n (v_drawn v) in let wanted := at_place n (e_steps (p_ed (v_page v'))) in
      at_place n (v_drawn v') = if keeps k n then firstn (length wanted) was ++ skipn (length was) wanted else wanted.
  Proof.
    unfold view_step. destruct (step _ _ _ ev) as [p|]; [|discriminate]. intros H n. injection H as <-. apply redraw_at.
  Qed.

  (** Without an edit between a request and its answer and without failed analyses,
      and with a server that answers the same for the same code, the tables are the ones the page asked for. *)
  Theorem C118_right_partial d evs v : (forall k d, analyse k d = analyse 0 d) -> orderly false evs ->
    view_run keeps analyse execute 0 (view_start d) evs = Some v -> v_drawn v = e_steps (p_ed (v_page v)).
  Proof.
    intros SA O H. eapply (run_right keeps analyse execute SA evs 0 (view_start d) false); eauto; cbn; auto.
    - split; [discriminate|congruence].
    - discriminate.
  Qed.

  (** Whatever happens, every table was asked for, at its place, since the last edit. *)
  Theorem C118_since d evs v n s : view_run keeps analyse execute 0 (view_start d) evs = Some v ->
    In (n, s) (v_drawn v) -> AskedSince analyse execute d evs n s.
  Proof.
    revert v. induction evs as [|ev evs IH] using rev_ind; intros v H I.
    - injection H as <-. destruct I.
    - assert (H0 := H). rewrite view_run_app in H. destruct (view_run _ _ _ 0 _ evs) as [v1|] eqn:R; [|discriminate]. cbn [view_run] in H.
      unfold view_step in H. destruct (step _ _ _ ev) as [p|] eqn:S1; [|discriminate]. injection H as <-. cbn [v_drawn] in I.
      assert (N : (exists d', ev = Edit d') \/ forall d', ev <> Edit d') by (destruct ev; [left; eauto|right; discriminate ..]).
      destruct N as [[d' ->]|N].
      + injection S1 as <-. destruct I.
      + apply redraw_in in I. destruct I as [I|I].
        * destruct (view_pages keeps (fun _ _ => false) _ _ _ _ _ (view_start d) _ eq_refl H0) as (w & Hw & E).
          exists (evs ++ [ev]), [], w. rewrite app_nil_r. split; auto. split; [intros ? []|]. split; auto. rewrite E. auto.
        * destruct (IH v1 eq_refl I) as (b & a & w & -> & Na & Hw & Iw). exists b, (a ++ [ev]), w. rewrite <- app_assoc. split; auto. split; auto.
          intros d' X. apply in_app_iff in X. destruct X as [X|[X|[]]]; [exact (Na _ X)|exact (N _ X)].
  Qed.

  (** After an edit the next answer draws its own tables. *)
  Theorem C118_edit k v d c ok v' : view_run keeps analyse execute k v [Edit d; Ask c; Answer ok] = Some v' ->
    v_drawn v' = e_steps (p_ed (v_page v')).
  Proof.
    cbn [view_run]. unfold view_step. cbn [step v_page v_drawn p_ed p_wait p_run edit e_steps redraw]. destruct (p_wait (v_page v)); [discriminate|]. cbn [v_page v_drawn p_ed p_wait e_steps redraw].
    destruct (if ok then _ else _) as [e done]. intros H. injection H as <-. cbn [v_drawn v_page p_ed]. apply redraw_nil.
  Qed.
End Kept.
Print Assumptions C118_places.
Print Assumptions C118_kept.
Print Assumptions C118_right_partial.
Print Assumptions C118_since.
Print Assumptions C118_edit.

Section Refuted.
  Context {Bd St Tr : Type} (analyse : doc -> list (option (output Bd St))) (execute : doc -> option Tr).

  (** An edit while waiting: even when the new code has been analysed in its turn, the
      tables of the old code stay wherever both have one. *)
  Theorem C118_late_refuted d d' c c' ds ms ds' ms' : c_stepper c = true -> c_stepper c' = true ->
    make_decorations d' (oks (analyse d)) = Some ds -> all_marks d' (d_facts ds) = Some ms ->
    make_decorations d' (oks (analyse d')) = Some ds' -> all_marks d' (d_facts ds') = Some ms' ->
    exists v, view_run (fun _ _ => true) (fun _ => analyse) execute 0 (view_start d) [Ask c; Edit d'; Answer true; Ask c'; Answer true] = Some v /\
      e_doc (p_ed (v_page v)) = d' /\ e_steps (p_ed (v_page v)) = d_steps ds' /\
      forall n, at_place n (v_drawn v) =
        firstn (length (at_place n (d_steps ds'))) (at_place n (d_steps ds)) ++ skipn (length (at_place n (d_steps ds))) (at_place n (d_steps ds')).
  Proof.
    intros C C' M A M' A'. unfold view_run, view_step, step, view_start, start.
    cbn -[all_marks make_decorations redraw at_place]. unfold render_operation. cbn -[all_marks make_decorations redraw at_place]. rewrite M.
    unfold render_permissions. cbn -[all_marks make_decorations redraw at_place]. rewrite A. cbn -[all_marks make_decorations redraw at_place]. rewrite A, C.
    cbn -[all_marks make_decorations redraw at_place]. rewrite M'. cbn -[all_marks make_decorations redraw at_place]. rewrite A'. cbn -[all_marks make_decorations redraw at_place]. rewrite A', C'.
    eexists. split; [reflexivity|]. cbn -[redraw at_place]. split; auto. split; auto. intros n.
    rewrite !redraw_nil, redraw_same, redraw_at. reflexivity.
  Qed.

  (** Asking twice for the same code: the tables keep the tags of the first answer, the
      boundaries (and the text) have those of the second, so that pointing at a
      letter of a table finds nothing. *)
  Theorem C118_tags_refuted d c c' ds ms : c_stepper c = true -> c_stepper c' = true -> c_boundaries c' = true ->
    make_decorations d (oks (analyse d)) = Some ds -> all_marks d (d_facts ds) = Some ms ->
    exists v, view_run (fun _ _ => true) (tag_answers analyse) execute 0 (view_start d) [Ask c; Answer true; Ask c'; Answer true] = Some v /\
      v_drawn v = map (fun '(n, s) => (n, (s, 1))) (d_steps ds) /\
      e_boundaries (p_ed (v_page v)) = map (fun '(n, b) => (n, (b, 3))) (d_boundaries ds).
  Proof.
    intros C C' B M A.
    assert (M1 : forall k, make_decorations d (oks (tag_answers analyse k d)) = Some (Decos (tagged k (d_steps ds)) (tagged k (d_boundaries ds)) (d_facts ds))).
    { intros k. unfold tag_answers. rewrite oks_map. apply decorations_tagged. exact M. }
    unfold view_run, view_step, step, view_start, start.
    cbn -[all_marks make_decorations redraw tag_answers]. unfold render_operation. cbn -[all_marks make_decorations redraw tag_answers]. rewrite M1.
    unfold render_permissions. cbn -[all_marks make_decorations redraw tag_answers]. rewrite A. cbn -[all_marks make_decorations redraw tag_answers]. rewrite A, C.
    cbn -[all_marks make_decorations redraw tag_answers]. rewrite M1. cbn -[all_marks make_decorations redraw tag_answers]. rewrite A. cbn -[all_marks make_decorations redraw tag_answers]. rewrite A, C', B.
    eexists. split; [reflexivity|]. cbn -[redraw]. split; [|reflexivity]. rewrite !redraw_nil, redraw_same. apply redraw_tags.
  Qed.
End Refuted.
Print Assumptions C118_late_refuted.
Print Assumptions C118_tags_refuted.

Module Demo118.
  (** Two lines; a table at the end of the second, that tells the length of the first. *)
  Definition old : doc := [[1; 1; 1]; [1; 1]].
  Definition new : doc := [[1]; [1; 1; 1; 1]].
  Definition other : doc := [[1; 1]; [1; 1; 1]].
  Definition out (k : nat) : output nat nat :=
    Output (Facts [(0, CRange (Pos 0 0) (Pos 0 1))] [(0, [CRange (Pos 0 0) (Pos 1 1)])] [] []) [(Pos 0 1, k)] [(Pos 1 2, k)].
  Definition analyse (d : doc) : list (option (output nat nat)) := [Some (out (length (hd [] d)))].
  Definition both := Cfg true true false false.
  Definition yes (_ _ : nat) := true.
  Definition tables evs := option_map (fun v => (e_steps (p_ed (v_page v)), v_drawn v)) (view_run (Tr := nat) yes (fun _ => analyse) (fun _ => None) 0 (view_start old) evs).

  (** In order: twice for the old code, an edit, and the new. *)
  Example C118_witness : orderly false [Ask both; Answer true; Ask both; Answer true; Edit new; Ask both; Answer true] /\
    tables [Ask both; Answer true; Ask both; Answer true; Edit new; Ask both; Answer true] = Some ([(4, 1)], [(4, 1)]).
  Proof. split; [cbn; auto 10|]. vm_compute. reflexivity. Qed.
  (** The answer for the old code comes after the edit: its table stays. *)
  Example C118_witness_late : tables [Ask both; Edit new; Answer true; Ask both; Answer true] = Some ([(4, 1)], [(4, 3)]).
  Proof. vm_compute. reflexivity. Qed.
  (** Another edit takes it away. *)
  Example C118_witness_edit : tables [Ask both; Edit new; Answer true; Ask both; Answer true; Edit other; Ask both; Answer true] = Some ([(5, 2)], [(5, 2)]).
  Proof. vm_compute. reflexivity. Qed.
  (** So does hiding the steps once. *)
  Example C118_witness_off : tables [Ask both; Edit new; Answer true; Ask no_cfg; Answer true; Ask both; Answer true] = Some ([(4, 1)], [(4, 1)]).
  Proof. vm_compute. reflexivity. Qed.
  Example C118_witness_tags : exists ds ms, make_decorations old (oks (analyse old)) = Some ds /\ all_marks old (d_facts ds) = Some ms /\ d_steps ds = [(6, 3)] /\
    option_map (fun v => (v_drawn v, e_boundaries (p_ed (v_page v))))
      (view_run (Tr := nat) yes (tag_answers analyse) (fun _ => None) 0 (view_start old) [Ask both; Answer true; Ask both; Answer true]) = Some ([(6, (3, 1))], [(1, (3, 3))]).
  Proof. do 2 eexists. repeat (split; [vm_compute; reflexivity|]). vm_compute. reflexivity. Qed.
End Demo118.
