(** * C119: what lights up is the loan that the compiler says takes the permission *)
From Coq Require Import Ascii String.
From Coq Require Import List Arith Bool Lia Permutation.
From Verif Require Import Base PermsModel FactsModel FactsSpec SpansModel SpansSpec CfgModel TellModel TellSpec TellProofs PageModel PageSpec PropPage LightsModel LightsSpec LightsProofs.
From Verif Require BookModel ReportModel ReportSpec StepsModel StepsSpec DrawModel DrawSpec DrawProofs PropDraw EditorModel EditorSpec EditorProofs PropEditor UsesModel BoundariesModel PropSteps PropTell JsonModel.
Import ListNotations.
Local Open Scope list_scope.

(** Everything on the page is of a function that is painted on it: the boundaries, the steps. *)
Theorem C119_drawn ks d ds es ms fresh : Displayed ks d ds es -> EditorModel.all_marks d (EditorModel.d_facts ds) = Some ms ->
  (forall n s, In (n, s) (EditorModel.d_boundaries ds) ->
     exists k x t el p, Painted ks d fresh k x t el /\ In (p, s) (EditorModel.o_boundaries x) /\ EditorModel.linecol_to_position p d = Some n) /\
  (forall n s, In (n, s) (EditorModel.d_steps ds) ->
     exists k x t el p, Painted ks d fresh k x t el /\ In (p, s) (EditorModel.o_steps x) /\ EditorModel.linecol_to_position p d = Some n).
Proof.
  intros (l & j & Fr & R & J & P) A. destruct (PropDraw.C114_drawn l j R J) as (outs & Sh & E). rewrite E in P. injection P as M _.
  assert (Dr : exists drawn, lights fresh d outs = Some drawn).
  { apply draw_all. intros d' f a I Ia. apply in_map_iff in I as (x & [= <- <-] & Ix). unfold EditorModel.all_marks in A.
    destruct (EditorModel.collect (EditorModel.action_marks d) (EditorModel.d_facts ds)) as [c|] eqn:C; [|discriminate].
    apply (proj2 (collect_all _ _) (ex_intro _ c C)). destruct (EditorProofs.decorations_spec _ _ _ M) as (_ & _ & ->). apply in_flat_map. eauto. }
  destruct Dr as (drawn & Dr).
  assert (G : forall x, In x outs -> exists k t el, Painted ks d fresh k x t el).
  { intros x Ix. apply In_nth_error in Ix as (i & Hx). destruct (nth_error (DrawSpec.analysed l) i) as [o|] eqn:Ho.
    2: { exfalso. apply nth_error_None in Ho. assert (Hl : i < length outs) by (apply nth_error_Some; congruence). rewrite (shows_length _ _ Sh) in Ho. exact (Nat.lt_irrefl _ (Nat.lt_le_trans _ _ _ Hl Ho)). }
    destruct (nth_error drawn i) as [[t el]|] eqn:Hd.
    2: { exfalso. apply nth_error_None in Hd. assert (Hl : i < length outs) by (apply nth_error_Some; congruence). unfold lights in Dr. apply draw_length in Dr. rewrite map_length in Dr. rewrite Dr in Hd. exact (Nat.lt_irrefl _ (Nat.lt_le_trans _ _ _ Hl Hd)). }
    assert (Io := nth_error_In _ _ Ho). apply DrawProofs.analysed_in in Io. destruct (DrawProofs.forall2_back _ _ _ _ Fr Io) as (k & Ik & Ek).
    exists k, t, el, l, outs, drawn, i, o. repeat (split; [assumption|]). assumption. }
  destruct (DrawProofs.decorated _ _ _ M) as (bs & ss & Cbs & Css & Es & Eb). split; intros n s I.
  - rewrite Eb in I. apply DrawProofs.uniq_in, in_concat in I. destruct I as (ps & Ips & I). destruct (DrawProofs.collect_back _ _ _ _ Cbs Ips) as (x & Ix & Ep).
    unfold EditorModel.place in Ep. destruct (DrawProofs.collect_back _ _ _ _ Ep I) as ([p s'] & Iq & Eq). apply DrawProofs.place_in in Eq as [Eq Q]. cbn [fst snd] in Eq, Q. subst s'.
    destruct (G x Ix) as (k & t & el & Pa). exists k, x, t, el, p. auto.
  - rewrite Es in I. apply in_concat in I. destruct I as (ps & Ips & I). destruct (DrawProofs.collect_back _ _ _ _ Css Ips) as (x & Ix & Ep).
    unfold EditorModel.place in Ep. destruct (DrawProofs.collect_back _ _ _ _ Ep I) as ([p s'] & Iq & Eq). apply DrawProofs.place_in in Eq as [Eq Q]. cbn [fst snd] in Eq, Q. subst s'.
    destruct (G x Ix) as (k & t & el & Pa). exists k, x, t, el, p. auto.
Qed.

(** Any letter of a painted function. *)
Lemma pointed ks d fresh k x t el pos ps name loan move : Forall Sound ks -> (forall a b, fresh a = fresh b -> a = b) ->
  Painted ks d fresh k x t el -> Follows d (k_fn k) pos -> Visits ps ->
  forall c, LitAt (point_at (ps ++ [Enter (Target t name loan move)]) el) (pos c) <->
    exists l anchor rs, loan = Some l /\ In (l, (anchor, rs)) (construct_loan_info (fn_lenv (k_fn k))) /\ (lo anchor <= c < hi anchor \/ covered rs c).
Proof.
  intros So Inj (l & outs & drawn & i & o & Fr & R & Sh & Dr & Ik & Ok & Ho & Hx & Hd) Fo V.
  assert (Sk := proj1 (Forall_forall _ _) So k Ik).
  assert (Sx := shows_nth _ _ Sh i o x Ho Hx).
  assert (Re : ReportSpec.RealReport o).
  { assert (Io := nth_error_In _ _ Ho). apply DrawProofs.analysed_in in Io. exact (proj1 (Forall_forall _ _) R _ Io). }
  assert (Hi : nth_error (map (fun x => (d, EditorModel.o_facts x)) outs) i = Some (d, EditorModel.o_facts x)) by (rewrite nth_error_map, Hx; reflexivity).
  assert (Ke : forall d' f, In (d', f) (map (fun x => (d, EditorModel.o_facts x)) outs) -> Keyed f).
  { intros d' f I. apply in_map_iff in I as (y & [= <- <-] & Iy). destruct (DrawProofs.forall2_back _ _ _ _ Sh Iy) as (o' & _ & S'). exact (keyed o' y S'). }
  assert (Mk : forall a, In a (EditorModel.actions_of (EditorModel.o_facts x)) -> exists ms, EditorModel.action_marks d a = Some ms).
  { intros a Ia. apply (proj2 (draw_all fresh (map (fun x => (d, EditorModel.o_facts x)) outs) 0) (ex_intro _ drawn Dr) d (EditorModel.o_facts x)); auto. eapply nth_error_In; eauto. }
  destruct (C97_pointing fresh 0 _ drawn Inj Ke Dr i d _ t el Hi Hd ps name loan move V) as (L & _).
  apply (lit_chars k o x d pos Sk Ok Re Sx Mk Fo _ loan move L).
Qed.

(** The letters R, W and O of a boundary: under the pointer, exactly the text of the newest loan that takes the permission from the place
    used lights up. *)
Theorem C119_boundaries ks d fresh k x t el pos p s : Forall Sound ks -> (forall a b, fresh a = fresh b -> a = b) ->
  Painted ks d fresh k x t el -> Follows d (k_fn k) pos -> WellSpanned (fn_lenv (k_fn k)) -> In (p, s) (EditorModel.o_boundaries x) ->
  exists pb loc y, UseOf (k_fn k) pb loc y /\ TellsUse (k_fn k) (k_flow k) pb loc y s /\
    map tg_name (letter_targets t (DrawModel.k_keys s)) = [AsRead; AsWrite; AsOwn] /\
    forall tg ps, In tg (letter_targets t (DrawModel.k_keys s)) -> Visits ps ->
      ExplainsLoan (UsesModel.ue_inp (fn_uses (k_fn k))) (fn_lenv (k_fn k)) (tg_name tg) y (UsesModel.ue_start (fn_uses (k_fn k)) loc)
        (fun c => LitAt (point_at (ps ++ [Enter tg]) el) (pos c)).
Proof.
  intros So Inj Pa Fo W I. assert (Pa0 := Pa). destruct Pa0 as (l & outs & drawn & i & o & Fr & R & Sh & Dr & Ik & Ok & Ho & Hx & Hd).
  assert (Sk := proj1 (Forall_forall _ _) So k Ik). assert (Re : ReportSpec.RealReport o) by (assert (Io := nth_error_In _ _ Ho); apply DrawProofs.analysed_in in Io; exact (proj1 (Forall_forall _ _) R _ Io)).
  assert (Sx0 := shows_nth _ _ Sh i o x Ho Hx). assert (Sx := Sx0). destruct Sx as (_ & _ & _ & _ & Eb & _). rewrite Eb in I.
  destruct (PropTell.result_ok _ _ _ Ok) as (_ & bs & ls & Fb & _ & Ob & _). rewrite Ob, map_map in I. apply in_map_iff in I as ([b u] & E & I). injection E as _ <-.
  destruct (stack_tells k Sk bs b u Fb I) as (pb & loc & y & U & St & T). exists pb, loc, y. split; [exact U|]. split; [exact T|]. split; [reflexivity|].
  intros tg ps It V. cbn [DrawSpec.boundary_of snd DrawModel.k_keys write_boundary ReportModel.b_data fst] in It. destruct St as (_ & _ & _ & N1 & N2 & N3 & _).
  destruct It as [<-|[<-|[<-|[]]]].
  - exact (explained k o x Sk Ok Re Sx0 AsRead _ _ _ _ W N1 (pointed ks d fresh k x t el pos ps _ _ _ So Inj Pa Fo V)).
  - exact (explained k o x Sk Ok Re Sx0 AsWrite _ _ _ _ W N2 (pointed ks d fresh k x t el pos ps _ _ _ So Inj Pa Fo V)).
  - exact (explained k o x Sk Ok Re Sx0 AsOwn _ _ _ _ W N3 (pointed ks d fresh k x t el pos ps _ _ _ So Inj Pa Fo V)).
Qed.

(** The letters of a row of a step: the loans at the end of the step. *)
Theorem C119_rows ks d fresh k x t el pos p tables table name row : Forall Sound ks -> (forall a b, fresh a = fresh b -> a = b) ->
  Painted ks d fresh k x t el -> Follows d (k_fn k) pos -> WellSpanned (fn_lenv (k_fn k)) ->
  In (p, tables) (EditorModel.o_steps x) -> In table tables -> In (name, row) table ->
  exists y from to, StepsSpec.Named (fn_steps (k_fn k)) y name /\ TellsStep (k_fn k) y from to row /\
    map tg_name (letter_targets t (DrawModel.w_keys row)) = [AsRead; AsWrite; AsOwn] /\
    forall tg ps, In tg (letter_targets t (DrawModel.w_keys row)) -> Visits ps ->
      ExplainsLoan (UsesModel.ue_inp (fn_uses (k_fn k))) (fn_lenv (k_fn k)) (tg_name tg) y (StepsModel.se_point (fn_steps (k_fn k)) to)
        (fun c => LitAt (point_at (ps ++ [Enter tg]) el) (pos c)).
Proof.
  intros So Inj Pa Fo W I It Ir. assert (Pa0 := Pa). destruct Pa0 as (l & outs & drawn & i & o & Fr & R & Sh & Dr & Ik & Ok & Ho & Hx & Hd).
  assert (Sk := proj1 (Forall_forall _ _) So k Ik). assert (Re : ReportSpec.RealReport o) by (assert (Io := nth_error_In _ _ Ho); apply DrawProofs.analysed_in in Io; exact (proj1 (Forall_forall _ _) R _ Io)).
  assert (Sx0 := shows_nth _ _ Sh i o x Ho Hx). assert (Sx := Sx0). destruct Sx as (_ & _ & _ & _ & _ & Es). rewrite Es in I.
  destruct (PropTell.result_ok _ _ _ Ok) as (_ & bs & ls & _ & Cs & _ & Ol). rewrite Ol, map_map in I. apply in_map_iff in I as (ln & E & I).
  destruct (PropSteps.C100_lines _ _ _ _ _ _ _ _ _ _ (sound_steps _ Sk) (sound_errors _ Sk) (sound_order _ Sk) (sound_hash _ Sk) (sound_lines _ Sk) Cs) as [_ Ln].
  destruct (Ln ln I) as (_ & _ & _ & xs & _ & _ & F). apply (f_equal snd) in E. cbn [snd] in E. subst tables. unfold DrawSpec.line_of, write_line in It. cbn [ReportModel.l_tables ReportModel.t_rows map snd] in It.
  destruct It as [<-|[]]. rewrite map_map in Ir. apply in_map_iff in Ir as (r & Er & Ir). destruct (DrawProofs.forall2_back _ _ _ _ F Ir) as (y & _ & Nm & from & to & span & H).
  destruct H as (_ & _ & _ & _ & H5 & _ & H7). injection Er as En Ew.
  assert (T : TellsStep (k_fn k) y from to row) by (eapply tells_step; [exact H5|exact H7|symmetry; exact Ew]).
  exists y, from, to. split.
  { rewrite <- En. rewrite name_written; [exact Nm|]. destruct Nm as [Nm|[_ ->]]; [exact (sound_names _ Sk _ _ Nm)|]. repeat constructor; lia. }
  split; [exact T|]. destruct T as (_ & _ & v & _ & _ & St & _ & _ & _ & K & _). rewrite K. split; [reflexivity|].
  rewrite (sound_facts _ Sk) in St. destruct St as (_ & _ & _ & N1 & N2 & N3 & _).
  intros tg ps Ig V.
  destruct Ig as [<-|[<-|[<-|[]]]].
  - exact (explained k o x Sk Ok Re Sx0 AsRead _ _ _ _ W N1 (pointed ks d fresh k x t el pos ps _ _ _ So Inj Pa Fo V)).
  - exact (explained k o x Sk Ok Re Sx0 AsWrite _ _ _ _ W N2 (pointed ks d fresh k x t el pos ps _ _ _ So Inj Pa Fo V)).
  - exact (explained k o x Sk Ok Re Sx0 AsOwn _ _ _ _ W N3 (pointed ks d fresh k x t el pos ps _ _ _ So Inj Pa Fo V)).
Qed.

(** No move ever lights up: on a page with marks none has any. *)
Theorem C119_moves_refuted ks d fresh k x t el pos ps name m : Forall Sound ks -> (forall a b, fresh a = fresh b -> a = b) ->
  Painted ks d fresh k x t el -> Follows d (k_fn k) pos -> Visits ps ->
  EditorModel.move_regions (EditorModel.o_facts x) = [] /\
  forall c, ~ LitAt (point_at (ps ++ [Enter (Target t name None (Some m))]) el) (pos c).
Proof.
  intros So Inj Pa Fo V. split.
  - assert (Pa0 := Pa). destruct Pa0 as (l & outs & drawn & i & o & Fr & R & Sh & Dr & Ik & Ok & Ho & Hx & Hd).
    assert (Sk := proj1 (Forall_forall _ _) So k Ik). assert (Sx := shows_nth _ _ Sh i o x Ho Hx).
    assert (Re : ReportSpec.RealReport o) by (assert (Io := nth_error_In _ _ Ho); apply DrawProofs.analysed_in in Io; exact (proj1 (Forall_forall _ _) R _ Io)).
    destruct (EditorModel.move_regions (EditorModel.o_facts x)) as [|[m' crs] r] eqn:E; auto. exfalso.
    apply (no_moves k o x d pos Sk Ok Re Sx) with (m := m') (crs := crs); [|exact Fo|rewrite E; left; reflexivity].
    intros a Ia. apply (proj2 (draw_all fresh (map (fun x => (d, EditorModel.o_facts x)) outs) 0) (ex_intro _ drawn Dr) d (EditorModel.o_facts x)); auto.
    apply in_map_iff. exists x. split; auto. eapply nth_error_In; eauto.
  - intros c H. apply (pointed ks d fresh k x t el pos ps name None (Some m) So Inj Pa Fo V) in H as (l & _ & _ & [=] & _).
Qed.
Print Assumptions C119_drawn.
Print Assumptions C119_boundaries.
Print Assumptions C119_rows.
Print Assumptions C119_moves_refuted.

(** ** A case: a variable is lent before it is used *)
Module Demo.
  Import PropSteps PropTell.
  Definition lent : Inp :=
    mkInp [mkPlace 3 []; mkPlace 4 []; mkPlace 4 [Field 0]] [mkPlace 4 []] [(0, 10)] (fun _ => []) (fun p => [p]) (fun p => p)
      [(0, 1); (1, 10); (10, 11); (11, 12); (12, 30); (1, 20); (20, 21); (21, 30); (30, 31)] [] [] []
      (fun a b => local a =? local b) [0; 1] (fun l => if l =? 0 then mkPlace 4 [] else mkPlace 3 []) (fun _ => true)
      [(20, [0]); (30, [0; 1])] [(0, [4]); (1, [4]); (10, [4]); (11, [4]); (12, [4]); (20, [4]); (21, [4]); (30, [4]); (31, [3; 4])]
      (fun l => l =? 3) (fun _ => FactsModel.TOther) (fun _ => false).
  Definition steps (out : Output) : StepsModel.senv :=
    StepsModel.Senv PropHide.HideDemo.let_env lent out (fun l => 10 * l_block l + l_idx l) (fun _ => true)
      (fun x => if local x =? 3 then Some [120] else None)
      [false; false; false; true; false; false; false; true; false; false; false; true]
      (fun s => Nat.min 12 (s mod 100)) (fun _ _ => 77) Some.
  Definition uses out rf : UsesModel.uenv := UsesModel.Uenv lent out rf true [] [] (fun p => local p =? 4)
    (fun _ => BoundariesModel.SkAssign (mkPlace 5 []) (BoundariesModel.RvOperands [Some (mkPlace 4 [])]))
    (fun h => match h with 12 => Some [0] | 13 => Some [30] | 14 => Some [31] | 100 => Some [0] | 101 => Some [30] | 102 => Some [31] | _ => None end)
    (fun _ => []) (fun _ => None) (fun l => l) (fun l => l) (fun _ => mkR 0 12) (mkR 0 12) (fun s => Some s) (fun s => Some s) (fun s => Some s).
  Definition span (p : Point) : Range := if p =? 20 then mkR 4 6 else if p =? 30 then mkR 8 10 else mkR 0 1.
  Definition fn out rf : function :=
    Function 7 (uses out rf) (steps out) PropTell.Demo.body PropHide.HideDemo.let_hir false (PropTell.Demo.at_ 0 12) (fun c => (c / 4, c mod 4))
      (fun r => PropTell.Demo.at_ (lo r) (hi r)) (fun p => PropTell.Demo.at_ p p) (fun l => PropTell.Demo.at_ (l_block l) (S (l_block l)))
      (mkLoanEnv span span (fun l => if l =? 0 then mkR 1 2 else mkR 2 3) (fun _ => None) (in_loan_live lent))
      (mkMoveEnv (fun p => mkR p (S p)) (fun _ => mkR 1 2) 1 (fun _ => true) (o_move out)) (fun _ l => rev l)
      (fun _ => "no"%string) TablesModel.Changes (@rev _) (@rev _) (@rev _).
  Definition asked_ out rf := AskedFor (fn out rf) PropTell.Demo.fi (diag_run (TrackBody 7 :: StepsDemo.post)) StepsDemo.post.
  Definition text : EditorModel.doc := PropTell.Demo.text.
End Demo.

Lemma demo_follows out rf : Follows Demo.text (Demo.fn out rf) (fun c => c).
Proof.
  split; [auto|]. intros r. cbn [fn_range Demo.fn].
  assert (P : forall a n, EditorModel.linecol_to_position (EditorModel.Pos (a / 4) (a mod 4)) Demo.text = Some n -> n = a).
  { intros a n. assert (E : a = 4 * (a / 4) + a mod 4) by (apply Nat.div_mod; lia). rewrite E at 3. clear E. generalize (a / 4) (a mod 4). clear a. intros q m.
    unfold EditorModel.linecol_to_position. cbn [EditorModel.p_line EditorModel.p_column]. change (length Demo.text) with 4. destruct (Nat.ltb_spec q 4) as [B|]; [|discriminate].
    intros [= <-]. destruct q as [|[|[|[|q]]]]; [| | | |lia]; reflexivity. }
  split; [|split].
  - intros H. assert (A : lo r / 4 = hi r / 4 /\ lo r mod 4 = hi r mod 4) by (split; [exact (f_equal EditorModel.p_line H)|exact (f_equal EditorModel.p_column H)]).
    destruct A as [A B]. rewrite (Nat.div_mod (lo r) 4), (Nat.div_mod (hi r) 4), A, B by lia. reflexivity.
  - intros n H. apply P, H.
  - intros n H. apply P, H.
Qed.

(** The letter W of the use of the lent variable: under the pointer the borrow and both places where it is live light up, those of the other
    loan do not. *)
Example C119_witness : exists out rf x t el s p,
  let k := Demo.asked_ out rf in
  Forall Sound [k] /\ Painted [k] Demo.text (fun n => n) k x t el /\ Follows Demo.text (k_fn k) (fun c => c) /\ WellSpanned (fn_lenv (k_fn k)) /\
  In (p, s) (EditorModel.o_boundaries x) /\
  exists tg, In tg (letter_targets t (DrawModel.k_keys s)) /\ tg_name tg = AsWrite /\
    map (fun e => (el_text e, el_classes e)) (point_at [Enter tg] el) =
      [((1, 2), [ShowHidden; AsWrite]); ((4, 6), [ShowHidden; AsWrite]); ((8, 10), [ShowHidden; AsWrite]); ((2, 3), []); ((8, 10), [])].
Proof.
  destruct (derive_permission_facts Demo.lent) as [out|] eqn:D; [|vm_compute in D; discriminate].
  destruct (FlowModel.compute_flows PropTell.Demo.fi) as [rf|] eqn:F; [|vm_compute in F; discriminate].
  exists out, rf.
  assert (So : Sound (Demo.asked_ out rf)).
  { constructor; cbn [Demo.asked_ k_fn k_flow k_state k_errors Demo.fn fn_uses fn_steps fn_id fn_order fn_hash fn_lines fn_lenv fn_menv fn_maps].
    - split; [exact D|]. split; [exact F|]. intros c [].
    - destruct PropSteps.C100_witness as (out' & [H _] ). destruct H. constructor; assumption.
    - reflexivity.
    - reflexivity.
    - split; reflexivity.
    - exists []. split; [reflexivity|]. intros op [<-|[]]; eauto.
    - intros x. symmetry. apply Permutation.Permutation_rev.
    - intros x. symmetry. apply Permutation.Permutation_rev.
    - intros x. symmetry. apply Permutation.Permutation_rev.
    - intros A x. symmetry. apply Permutation.Permutation_rev.
    - intros x n. cbn. destruct (local x =? 3); [|discriminate]. intros [= <-]. constructor; [lia|constructor]. }
  vm_compute in D, F. injection D as <-. injection F as <-.
  match type of So with Sound ?a => destruct (function_result (k_fn a) (k_state a)) as [[o|e]|] eqn:E1; [|vm_compute in E1; discriminate E1|vm_compute in E1; discriminate E1] end.
  assert (R : ReportSpec.RealReport o).
  { vm_compute in E1. injection E1 as <-. unfold ReportSpec.RealReport, ReportSpec.SizeMap; cbn;
      unfold ReportSpec.SizeBound, ReportSpec.SizeLine, ReportSpec.SizeTable, ReportSpec.SizeData, ReportSpec.SizeDiff, ReportSpec.SizeRegion, WireSpec.SizeOpt, WireSpec.SizeRange, WireSpec.Size; cbn;
      repeat first [split|exact Logic.I|constructor; fail|lia|apply Forall_nil|apply Forall_cons|apply NoDup_nil|apply NoDup_cons|progress cbn|
        (intros f [= <-]; cbn)|(intros f E; discriminate E)|(intros E; decompose [or] E; lia)]. }
  pose (x := EditorModel.Output (EditorModel.Facts (map (fun y => (fst y, ReportSpec.range_of (snd y))) (rev (ReportModel.o_lpoints o)))
    (map (fun y => (fst y, map ReportSpec.range_of (ReportModel.r_ranges (snd y)))) (rev (ReportModel.o_lregions o))) [] [])
    (map DrawSpec.boundary_of (ReportModel.o_bounds o)) (map DrawSpec.line_of (ReportModel.o_lines o)) : shown_output).
  assert (Sh : DrawSpec.Shows o x).
  { unfold DrawSpec.Shows, x. cbn [EditorModel.o_facts EditorModel.o_boundaries EditorModel.o_steps EditorModel.loan_points EditorModel.loan_regions EditorModel.move_points EditorModel.move_regions].
    assert (G : forall A B (f : A -> B) m, ReportSpec.Ascending (map fst (rev m)) -> ReportSpec.InOrder f m (map (fun y => (fst y, f (snd y))) (rev m))).
    { intros A B f m H. split; [rewrite map_map; exact H|]. intros k b. rewrite in_map_iff. split.
      - intros ([k' a] & [= <- <-] & I). apply in_rev in I. eauto.
      - intros (a & I & ->). exists (k, a). split; auto. apply -> in_rev. exact I. }
    split; [apply G|split; [apply G|split; [|split; [|split; reflexivity]]]]; vm_compute in E1; injection E1 as <-; cbn.
    - repeat split; intros b Ib; decompose [or False] Ib; lia.
    - repeat split; intros b Ib; decompose [or False] Ib; lia.
    - split; [constructor|]. intros k b. split; [intros []|intros (? & [] & _)].
    - split; [constructor|]. intros k b. split; [intros []|intros (? & [] & _)]. }
  destruct (lights (fun n => n) Demo.text [x]) as [drawn|] eqn:L; [|exfalso; subst x; vm_compute in E1; injection E1 as <-; vm_compute in L; discriminate L].
  destruct drawn as [|[t el] [|]]; [exfalso|idtac|exfalso]; [apply draw_length in L; discriminate L| |apply draw_length in L; discriminate L].
  destruct (nth_error (EditorModel.o_boundaries x) 1) as [[p s]|] eqn:B; [|exfalso; subst x; vm_compute in E1; injection E1 as <-; discriminate B].
  exists x, t, el, s, p. cbv zeta. split; [constructor; [exact So|constructor]|]. split.
  { exists [inl o], [x], [(t, el)], 0, o. split; [constructor; [exact E1|constructor]|]. split; [constructor; [exact R|constructor]|]. split; [constructor; [exact Sh|constructor]|].
    split; [exact L|]. split; [left; reflexivity|]. split; [exact E1|]. split; [reflexivity|]. split; reflexivity. }
  split; [apply demo_follows|]. split.
  { split; intros y; [|auto]. cbn. unfold Demo.span. destruct (y =? 20); [cbn; lia|]. destruct (y =? 30); cbn; lia. }
  split; [eapply nth_error_In; exact B|]. subst x. vm_compute in E1. injection E1 as <-. vm_compute in L. injection L as <- <-. vm_compute in B. injection B as <- <-.
  eexists. split; [right; left; reflexivity|]. split; reflexivity.
Qed.
