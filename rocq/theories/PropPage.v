(** * Properties of the page: what is highlighted, hidden and redrawn *)

From Coq Require Import Ascii String.
From Coq Require Import List Arith Bool Lia.
From Verif Require Import Base PermsModel FactsModel FactsSpec FactsProofs PropFacts BookModel BookSpec BookProofs PropBook EditorModel EditorSpec EditorProofs PageModel PageSpec PageProofs.
Import ListNotations.

(** ** C97: pointing at a letter *)

(** After any number of visits, the pointer on a letter of a function highlights exactly the text of the
    letter's loan and move in that function, and changes nothing of the other functions of the page. *)
Theorem C97_pointing fresh n fs drawn : (forall a b, fresh a = fresh b -> a = b) -> (forall d f, In (d, f) fs -> Keyed f) ->
  draw fresh n fs = Some drawn -> forall i d f t es, nth_error fs i = Some (d, f) -> nth_error drawn i = Some (t, es) ->
  forall ps name loan move, Visits ps ->
  (forall a b, Lit (point_at (ps ++ [Enter (Target t name loan move)]) es) a b <->
     (exists k, loan = Some k /\ Belongs d (loan_points f) (loan_regions f) k a b) \/
     (exists k, move = Some k /\ Belongs d (move_points f) (move_regions f) k a b)) /\
  (forall e, In e (point_at (ps ++ [Enter (Target t name loan move)]) es) ->
     el_classes e = [] \/ forall c, In c (el_classes e) <-> c = ShowHidden \/ c = name) /\
  (forall j t' es', j <> i -> nth_error drawn j = Some (t', es') -> point_at (ps ++ [Enter (Target t name loan move)]) es' = es').
Proof.
  intros Inj K D i d f t es Hi Hd ps name loan move V.
  assert (C : forall j t es, nth_error drawn j = Some (t, es) -> forall e, In e es -> el_classes e = [])
    by (intros j t0 es0 Hj e Ie; exact (proj1 (draw_clean _ _ _ _ D j t0 es0 Hj e Ie))).
  assert (P : forall j t0 es0, nth_error drawn j = Some (t0, es0) -> point_at (ps ++ [Enter (Target t name loan move)]) es0 = enter (Target t name loan move) es0).
  { intros j t0 es0 Hj. rewrite point_at_app, (visits_clean ps es0 V) by eauto. reflexivity. }
  destruct (draw_point fresh fs Inj n drawn K D i d f t es Hi Hd name loan move) as [A B]. rewrite (P i t es Hd). split; [exact A|]. split.
  - intros e Ie. rewrite enter_clean in Ie by eauto. apply in_map_iff in Ie as (e0 & <- & I0). destruct (in_dec _ _ _).
    + right. cbn [el_classes tg_name]. intros c. unfold on. destruct name; cbn; intuition congruence.
    + left. eauto.
  - intros j t' es' N Hj. rewrite (P j t' es' Hj). eauto.
Qed.
Print Assumptions C97_pointing.

(** When the pointer has left, nothing is highlighted, and nothing has changed. *)
Theorem C97_leaving fresh n fs drawn ps i t es : draw fresh n fs = Some drawn -> nth_error drawn i = Some (t, es) -> Visits ps ->
  point_at ps es = es /\ forall a b, ~ Lit (point_at ps es) a b.
Proof.
  intros D Hi V. assert (C : forall e, In e es -> el_classes e = []) by (intros e Ie; exact (proj1 (draw_clean _ _ _ _ D i t es Hi e Ie))).
  rewrite (visits_clean ps es V C). split; auto. intros a b (e & Ie & _ & H). rewrite (C e Ie) in H. destruct H.
Qed.
Print Assumptions C97_leaving.

(** The letters of a boundary explain the state of the boundary. *)
Theorem C97_boundary fresh n fs drawn : (forall a b, fresh a = fresh b -> a = b) -> (forall d f, In (d, f) fs -> Keyed f) ->
  draw fresh n fs = Some drawn -> forall i dc f t es, nth_error fs i = Some (dc, f) -> nth_error drawn i = Some (t, es) ->
  forall ps d, Visits ps -> map tg_name (boundary_targets t d) = [AsRead; AsWrite; AsOwn] /\
  forall x, In x (boundary_targets t d) -> Explains dc f (tg_name x) d (point_at (ps ++ [Enter x]) es).
Proof.
  intros Inj K D i dc f t es Hi Hd ps d V. split; [reflexivity|]. intros x Ix a b.
  assert (X : x = Target t (tg_name x) (taker (tg_name x) d) (path_moved d)) by (cbn in Ix; destruct Ix as [<-|[<-|[<-|[]]]]; reflexivity).
  rewrite X at 1. apply (C97_pointing fresh n fs drawn Inj K D i dc f t es Hi Hd ps (tg_name x) (taker (tg_name x) d) (path_moved d) V).
Qed.
Print Assumptions C97_boundary.

(** The letters of a row of a step explain the state after the step. *)
Theorem C97_row fresh n fs drawn : (forall a b, fresh a = fresh b -> a = b) -> (forall d f, In (d, f) fs -> Keyed f) ->
  draw fresh n fs = Some drawn -> forall i dc f t es, nth_error fs i = Some (dc, f) -> nth_error drawn i = Some (t, es) ->
  forall ps before after, Visits ps -> map tg_name (row_targets t (diff_data before after)) = [AsRead; AsWrite; AsOwn] /\
  forall x, In x (row_targets t (diff_data before after)) -> Explains dc f (tg_name x) after (point_at (ps ++ [Enter x]) es).
Proof.
  intros Inj K D i dc f t es Hi Hd ps before after V.
  assert (U : forall A (x y : option A), unwrap (diff_option x y) = y) by (intros A [x|] [y|]; reflexivity).
  assert (E : row_targets t (diff_data before after) = boundary_targets t after).
  { unfold row_targets, row_keys, diff_data. cbn [dd_path_moved dd_loan_read dd_loan_write dd_loan_drop]. rewrite !U. reflexivity. }
  rewrite E. exact (C97_boundary fresh n fs drawn Inj K D i dc f t es Hi Hd ps after V).
Qed.
Print Assumptions C97_row.

(** A live place without a permission: its letter has a loan or a move to show, or the place is not
    initialized, or its declaration or type never allows it. *)
Theorem C97_explained inp out x p d name : derive_permission_facts inp = Some out -> query inp out x p = Some d ->
  is_live d = true -> name <> ShowHidden -> holds name (permissions d) = false ->
  taker name d <> None \/ path_moved d <> None \/ path_uninitialized d = true \/
  name = AsWrite /\ type_writeable d = false \/ name = AsOwn /\ type_droppable d = false.
Proof.
  intros H Q L N Hd. destruct (C07_loans_refine_conflicting_places _ _ _ _ _ H Q) as (R & W & O).
  unfold permissions in Hd. rewrite L in Hd. unfold permissions_ignore_liveness in Hd.
  destruct (path_moved d) as [m|] eqn:M; [right; left; discriminate|]. destruct (path_uninitialized d) eqn:Un; [auto|].
  destruct name; [congruence| | |]; cbn [holds p_read p_write p_drop taker is_some is_none negb orb andb] in *.
  - left. destruct (loan_read_refined d); [discriminate|discriminate Hd].
  - destruct (type_writeable d) eqn:T; [|do 3 right; left; auto]. left. destruct (loan_write_refined d) as [w|] eqn:Ew; [discriminate|]. exfalso.
    destruct (loan_read_refined d) as [r|]; [|discriminate Hd]. destruct R as (A & B & _). exact (W r A B I).
  - destruct (type_droppable d) eqn:T; [|do 4 right; auto]. left. destruct (loan_drop_refined d) as [w|] eqn:Ew; [discriminate|]. exfalso.
    destruct (loan_read_refined d) as [r|]; [|discriminate Hd]. destruct R as (A & B & _). exact (O r A B I).
Qed.
Print Assumptions C97_explained.

Example C97_explained_witness :
  map (fun p => option_map (fun d => (is_live d, map (fun c => (holds c (permissions d), taker c d)) [AsRead; AsWrite; AsOwn]))
                           (query Demo.inp Demo.out Demo.s p)) [1; 2]
    = [Some (true, [(true, None); (false, Some 7); (false, Some 7)]);
       Some (true, [(false, Some 9); (false, Some 9); (false, Some 9)])].
Proof. vm_compute. reflexivity. Qed.

(** Two functions that use the same keys, in one text: the loan of key 3 and the move of key 3 of the first. *)
Module Pg.
  Definition d : doc := [[97; 98; 99; 100]; [101; 102; 103]].
  Definition rg l a m b := CRange (Pos l a) (Pos m b).
  Definition f1 := Facts [(3, rg 0 0 0 2)] [(3, [rg 0 2 0 3; rg 1 0 1 0; rg 1 1 1 2])] [(3, rg 1 0 1 1)] [(3, [rg 1 1 1 3])].
  Definition f2 := Facts [(3, rg 0 1 0 3)] [(3, [])] [] [].
  Definition pd loan move := mkPD true true false true false move None loan None.
  Definition drawn := match draw (fun n => 7 + n) 0 [(d, f1); (d, f2)] with Some l => l | None => [] end.
  Definition t0 := match nth_error drawn 0 with Some (t, _) => t | None => Tags [] [] [] [] end.
  Definition e0 := match nth_error drawn 0 with Some (_, e) => e | None => [] end.
  Definition w := Target t0 AsWrite (Some 3) None.
End Pg.
Example C97_witness :
  draw (fun n => 7 + n) 0 [(Pg.d, Pg.f1); (Pg.d, Pg.f2)] = Some Pg.drawn /\ Keyed Pg.f1 /\ Keyed Pg.f2 /\ length Pg.drawn = 2 /\
  map (fun e => (el_text e, el_classes e)) (point_at [Enter Pg.w; Leave Pg.w; Enter Pg.w] Pg.e0) =
    [((0, 2), [ShowHidden; AsWrite]); ((2, 3), [ShowHidden; AsWrite]); ((6, 7), [ShowHidden; AsWrite]); ((5, 6), []); ((6, 8), [])] /\
  In Pg.w (boundary_targets Pg.t0 (Pg.pd (Some 3) None)) /\ In Pg.w (row_targets Pg.t0 (diff_data (Pg.pd (Some 2) (Some 3)) (Pg.pd (Some 3) None))) /\
  Belongs Pg.d (loan_points Pg.f1) (loan_regions Pg.f1) 3 6 7.
Proof.
  split; [reflexivity|]. do 2 (split; [unfold Keyed; cbn; repeat split; repeat constructor; cbn; intuition congruence|]).
  split; [reflexivity|]. split; [reflexivity|]. split; [cbn; auto|]. split; [cbn; auto|].
  eexists _, (Pg.rg 1 1 1 2). split; [left; reflexivity|]. split; [right; cbn; auto|]. repeat split; cbn; lia.
Qed.

(** ** C98: the lines of the book on the page *)

Theorem C98_lines_partial code : code <> [] -> (forall l, In l (lines code) -> ~ In 13 l) -> exists outs marks,
  Doc 1 [] (lines code) outs marks /\ cm_doc (fst (parse_annotations code)) = outs /\
  (exists ps, hide_lines outs (hidden_lines (snd (parse_annotations code))) = Some ps /\
     forall k, k < length outs ->
       (In (position_after (text_before (firstn k outs) [])) ps <-> exists t, nth_error (lines code) k = Some (HASH :: t))) /\
  forall n k, InLine outs k n ->
    (exists b, stack_open outs (bound_lines (snd (parse_annotations code))) n = Some b /\
       (b = true <-> exists i, MarkedAt marks (S k) Boundaries i)) /\
    (exists b, table_open outs (step_lines (snd (parse_annotations code))) n = Some b /\
       (b = true <-> (exists i v, MarkedAt marks (S k) Stepper i /\ Configured i (lit "focus") v) \/
                     (forall m i v, MarkedAt marks m Stepper i -> ~ Configured i (lit "focus") v))) /\
    exists l, PathsOf (S k) marks l /\
      table_matchers outs (step_paths (snd (parse_annotations code))) n = Some (match l with [] => None | _ => Some l end).
Proof.
  intros Ne NC. destruct (C42_lines_partial code) as (outs & marks & D & Hh & Hf & Hb & Hp & _). exists outs, marks. split; auto.
  destruct (parse_annotations_spec code) as (outs' & marks' & D' & E). destruct (Doc_fun _ _ _ _ _ D _ _ D') as [<- <-].
  assert (Ed : cm_doc (fst (parse_annotations code)) = outs) by (rewrite E; cbn [fst]; exact (page_lines _ _ _ _ _ Ne D NC)).
  split; [exact Ed|]. pose proof (Doc_length _ _ _ _ _ D) as Ln. split.
  - destruct (hide_lines_spec outs (hidden_lines (snd (parse_annotations code)))) as (ps & Ep & Hps).
    { intros n I. apply (HiddenLines_in _ _ _ Hh) in I as (i & t & Ei & ->). assert (i < length (lines code)) by (apply nth_error_Some; congruence). unfold doc, line, str in *. lia. }
    exists ps. split; auto. intros k Hk.
    assert (Pk : position_after (text_before (firstn k outs) []) = line_from outs k).
    { pose proof (line_from_app (firstn k outs) (skipn k outs)) as Q. rewrite firstn_skipn, firstn_length_le in Q by lia. rewrite Q.
      unfold text_before. rewrite app_nil_r. reflexivity. }
    rewrite Pk, (Hps k Hk), (HiddenLines_in _ _ _ Hh). split.
    + intros (i & t & Ei & Ek). replace k with i by lia. eauto.
    + intros (t & Et). exists k, t. split; auto.
  - intros n k L. apply InLine_at in L. unfold stack_open, table_open, table_matchers. rewrite L. cbn [option_map]. split; [|split].
    + eexists. split; [reflexivity|]. rewrite existsb_exists. split.
      * intros (m & I & Em). apply Nat.eqb_eq in Em as <-. rewrite Hb in I. apply in_flat_map in I as ([[[m t] kd] i] & Im & J).
        destruct kd; [destruct J|destruct J|]. destruct J as [->|[]]. exists i, t. auto.
      * intros (i & t & I). exists (S k). split; [|apply Nat.eqb_refl]. rewrite Hb. apply in_flat_map. exists (S k, t, Boundaries, i). split; cbn; auto.
    + eexists. split; [reflexivity|]. unfold line_open. pose proof (FocusLines_in _ _ Hf) as F.
      destruct (step_lines (snd (parse_annotations code))) as [|x r] eqn:Es.
      * split; auto. intros _. right. intros m i v M C. apply (proj2 (F m)). eauto.
      * assert (Q : existsb (Nat.eqb (S k)) (x :: r) = true <-> In (S k) (x :: r)).
        { rewrite existsb_exists. split; [intros (m & I & Em); apply Nat.eqb_eq in Em as ->; auto|]. intros I. exists (S k). split; [auto|apply Nat.eqb_refl]. }
        rewrite Q, F. split; auto. intros [X|X]; auto.
        destruct (proj1 (F x) (or_introl eq_refl)) as (i & v & M & C). elim (X _ _ _ M C).
    + destruct (Hp (S k)) as (l & P & Ea). exists l. split; auto. rewrite Ea. reflexivity.
Qed.
Print Assumptions C98_lines_partial.

(** The document of the editor, for any text. *)
Lemma cm_lines_broken : forall n s, length s <= n -> forall cur, Plain (rev cur) -> Broken (rev cur ++ s) (cm_lines cur s).
Proof.
  assert (P0 : Plain (rev [])) by (split; intros []). assert (N10 : NL = 10) by reflexivity. assert (C13 : CR = 13) by reflexivity.
  induction n as [|n IH]; intros [|c t] L cur P; cbn [length] in L; try lia; cbn [cm_lines].
  - rewrite app_nil_r. constructor; auto.
  - rewrite app_nil_r. constructor; auto.
  - rewrite ?N10, ?C13. destruct (Nat.eqb_spec c 10) as [->|D].
    + apply broken_nl; auto. exact (IH t ltac:(lia) [] P0).
    + destruct (Nat.eqb_spec c 13) as [->|D'].
      * destruct t as [|d t]; [apply broken_cr; auto; [discriminate|constructor; auto]|].
        cbn [length] in L. rewrite ?N10. destruct (Nat.eqb_spec d 10) as [->|D2].
        -- apply broken_both; auto. exact (IH t ltac:(lia) [] P0).
        -- apply broken_cr; auto; [cbn; congruence|]. exact (IH (d :: t) ltac:(cbn [length]; lia) [] P0).
      * assert (E : rev cur ++ c :: t = rev (c :: cur) ++ t) by (cbn [rev]; rewrite <- app_assoc; reflexivity).
        rewrite E. apply IH; [lia|]. destruct P as [P1 P2]. cbn [rev]. split; rewrite in_app_iff; intros [H|[H|[]]]; auto.
Qed.

Lemma plain_prefix : forall l l' x y s t, Plain l -> Plain l' -> (x = 10 \/ x = 13) -> (y = 10 \/ y = 13) ->
  l ++ x :: s = l' ++ y :: t -> l = l' /\ x :: s = y :: t.
Proof.
  induction l as [|a l IH]; intros [|b l'] x y s t P P' X Y E; cbn in E; auto.
  - injection E as <- _. destruct P' as [N1 N2]. destruct X as [->| ->]; [elim N1|elim N2]; left; auto.
  - injection E as -> _. destruct P as [N1 N2]. destruct Y as [->| ->]; [elim N1|elim N2]; left; auto.
  - injection E as -> E. destruct P as [N1 N2], P' as [N1' N2']. destruct (IH l' x y s t) as [-> E']; auto; split; cbn in *; tauto.
Qed.

Lemma plain_no_break l l' x s : Plain l -> (x = 10 \/ x = 13) -> l <> l' ++ x :: s.
Proof. intros [N1 N2] X ->. destruct X as [->| ->]; [apply N1|apply N2]; apply in_app_iff; right; left; auto. Qed.

Lemma NL_CR : 10 <> 13.
Proof. discriminate. Qed.

Lemma broken_fun s ls : Broken s ls -> forall s' ls', s = s' -> Broken s' ls' -> ls = ls'.
Proof.
  pose proof NL_CR as D.
  induction 1 as [l P|l s ls P B IH|l s ls P B IH|l s ls P N B IH]; intros s' ls' E B';
  destruct B' as [l' P'|l' t ls' P' B'|l' t ls' P' B'|l' t ls' P' N' B'].
  1: congruence.
  1-3: exfalso; refine (plain_no_break _ _ _ _ P _ E); auto.
  1,5,9: exfalso; refine (plain_no_break _ _ _ _ P' _ (eq_sym E)); auto.
  all: match type of E with ?a ++ ?x :: ?s = ?b ++ ?y :: ?t =>
         destruct (plain_prefix a b x y s t P P' ltac:(auto) ltac:(auto) E) as [-> E'] end;
    pose proof (f_equal (hd 0) E') as E1; pose proof (f_equal (@tl nat) E') as E2; cbn [hd tl] in E1, E2.
  all: try congruence.
  - f_equal. eauto.
  - f_equal. injection E2 as E2. eauto.
  - subst t. elim N'. reflexivity.
  - subst s. elim N. reflexivity.
  - f_equal. eauto.
Qed.

Theorem C98_breaks s ls : cm_doc s = ls <-> Broken s ls.
Proof.
  pose proof (cm_lines_broken (length s) s (le_n _) [] ltac:(split; intros [])) as B. cbn [rev app] in B. fold (cm_doc s) in B. split.
  - intros <-. exact B.
  - intros B'. exact (broken_fun _ _ B _ _ eq_refl B').
Qed.
Print Assumptions C98_breaks.

Example C98_breaks_witness : Broken [65; CR; NL; CR; 66; NL] [[65]; []; [66]; []].
Proof. apply C98_breaks. reflexivity. Qed.

(** Hiding the lines never fails, whatever the program is. *)
Theorem C98_hiding_succeeds code : exists ps, hide_lines (cm_doc (fst (parse_annotations code))) (hidden_lines (snd (parse_annotations code))) = Some ps.
Proof.
  destruct (C42_lines_partial code) as (outs & marks & D & Hh & _).
  destruct (parse_annotations_spec code) as (outs' & marks' & D' & E). destruct (Doc_fun _ _ _ _ _ D _ _ D') as [<- <-].
  destruct (hide_lines_spec (cm_doc (fst (parse_annotations code))) (hidden_lines (snd (parse_annotations code)))) as (ps & Ep & _); [|eauto].
  intros n I. apply (HiddenLines_in _ _ _ Hh) in I as (i & t & Ei & ->). assert (Li : i < length (lines code)) by (apply nth_error_Some; congruence).
  rewrite <- (Doc_length _ _ _ _ _ D) in Li. pose proof (cm_lines_length _ (fst (parse_annotations code)) (le_n _) []) as Lc.
  unfold cm_doc. rewrite E in *. cbn [fst] in *. unfold doc, line, str in *. rewrite split_join in Lc; [lia|destruct outs; [cbn in Li; lia|discriminate]|].
  eapply Doc_incl; eauto. intros l I. apply (lines_no code). auto.
Qed.
Print Assumptions C98_hiding_succeeds.

(** A carriage return inside a line makes the page count one line more than the book does: the line that is
    hidden is another one. *)
Theorem C98_return_refuted : let code := lit "a" ++ [CR] ++ lit "b" ++ [NL] ++ lit "#c" ++ [NL] ++ lit "d" in
  nth_error (lines code) 1 = Some (lit "#c") /\ cm_doc (fst (parse_annotations code)) = [lit "a"; lit "b"; lit "c"; lit "d"] /\
  hide_lines (cm_doc (fst (parse_annotations code))) (hidden_lines (snd (parse_annotations code))) = Some [position_after (text_before [lit "a"] [])].
Proof. vm_compute. auto. Qed.
Print Assumptions C98_return_refuted.

(** A hidden line, a marked boundary and a focused table. *)
Example C98_witness : let code := lit "#let a = 1;" ++ [NL] ++ lit "f(x);`{}`" ++ [NL] ++ lit "g(y);`(focus,paths:y)`" in
  code <> [] /\ (forall l, In l (lines code) -> ~ In 13 l) /\
  cm_doc (fst (parse_annotations code)) = [lit "let a = 1;"; lit "f(x);"; lit "g(y);"] /\
  InLine [lit "let a = 1;"; lit "f(x);"; lit "g(y);"] 2 21 /\
  hide_lines [lit "let a = 1;"; lit "f(x);"; lit "g(y);"] (hidden_lines (snd (parse_annotations code))) = Some [0] /\
  map (stack_open [lit "let a = 1;"; lit "f(x);"; lit "g(y);"] (bound_lines (snd (parse_annotations code)))) [0; 11; 21] = [Some false; Some true; Some false] /\
  map (table_open [lit "let a = 1;"; lit "f(x);"; lit "g(y);"] (step_lines (snd (parse_annotations code)))) [0; 11; 21] = [Some false; Some false; Some true] /\
  table_matchers [lit "let a = 1;"; lit "f(x);"; lit "g(y);"] (step_paths (snd (parse_annotations code))) 21 = Some (Some [Literal (lit "y")]).
Proof.
  cbv zeta. split; [discriminate|]. split.
  { intros l I. vm_compute in I. repeat (destruct I as [<-|I]; [vm_compute; intuition congruence|]). destruct I. }
  split; [reflexivity|]. split.
  { exists [lit "let a = 1;"; lit "f(x);"], (lit "g(y);"), [], (lit "g(y)"), (lit ";"). repeat split; vm_compute; reflexivity. }
  repeat split; vm_compute; reflexivity.
Qed.

(** ** C99: redrawing *)

Lemma redraws_fresh {W D} (same : W -> W -> bool) (todom : W -> D) hist :
  (forall k1 l1 k2 l2 n1 w1 n2 w2, In (k1, l1) hist -> In (k2, l2) hist -> In (n1, w1) l1 -> In (n2, w2) l2 -> same w1 w2 = true -> w1 = w2) ->
  UpToDate todom (redraws same todom hist).
Proof.
  intros H. assert (X : UpToDate todom (redraws same todom hist) /\ forall n w d, In (n, (w, d)) (redraws same todom hist) -> exists k l, In (k, l) hist /\ In (n, w) l).
  { induction hist as [|[k l] hist IH] using rev_ind.
    - split; [intros n w d []|intros n w d []].
    - destruct IH as [A B]. { intros k1 l1 k2 l2 n1 w1 n2 w2 I1 I2. apply H with (k1 := k1) (k2 := k2); apply in_app_iff; auto. }
      unfold redraws in *. rewrite fold_left_app. cbn [fold_left]. set (old := fold_left _ hist []) in *. split.
      + intros n w d I. unfold redraw in I. apply in_map_iff in I as ([n' w'] & E & I). injection E as -> -> Ed.
        destruct (aget Nat.eq_dec old n) as [[o dd]|] eqn:Eo; [|auto]. destruct (same o w && k n) eqn:Es; [|auto].
        apply andb_prop in Es as [Es _]. apply aget_Some_In in Eo. destruct (B _ _ _ Eo) as (k0 & l0 & I0 & J0).
        rewrite <- Ed, (A _ _ _ Eo). f_equal. eapply H with (n1 := n) (n2 := n); [apply in_app_iff; left; exact I0|apply in_app_iff; right; left; reflexivity|exact J0|exact I|exact Es].
      + intros n w d I. unfold redraw in I. apply in_map_iff in I as ([n' w'] & E & I). injection E as -> -> Ed.
        exists k, l. split; auto. apply in_app_iff. cbn; auto. }
  exact (proj1 X).
Qed.

(** Two boundaries with the same location object are the same: what is shown of boundaries is always up to date. *)
Theorem C99_boundaries {C D : Type} (todom : boundary_widget C -> D) hist :
  (forall k1 l1 k2 l2 n1 w1 n2 w2, In (k1, l1) hist -> In (k2, l2) hist -> In (n1, w1) l1 -> In (n2, w2) l2 ->
     bw_location w1 = bw_location w2 -> w1 = w2) ->
  UpToDate todom (redraws same_boundary todom hist) /\
  forall hist0 k l, hist = hist0 ++ [(k, l)] -> map (fun x => (fst x, fst (snd x))) (redraws same_boundary todom hist) = l.
Proof.
  intros H. split.
  - apply redraws_fresh. intros k1 l1 k2 l2 n1 w1 n2 w2 I1 I2 J1 J2 E. apply Nat.eqb_eq in E. eauto.
  - intros hist0 k l ->. unfold redraws. rewrite fold_left_app. cbn [fold_left]. unfold redraw. rewrite map_map.
    rewrite <- (map_id l) at 2. apply map_ext. intros [n w]. reflexivity.
Qed.
Print Assumptions C99_boundaries.

(** Tables of steps are up to date after an edit ... *)
Theorem C99_steps_partial {C D : Type} (todom : step_widget C -> D) hist k0 k l :
  UpToDate todom (redraws same_step todom (hist ++ [(k0, []); (k, l)])) /\
  map (fun x => (fst x, fst (snd x))) (redraws same_step todom (hist ++ [(k0, []); (k, l)])) = l.
Proof.
  unfold redraws. rewrite fold_left_app. cbn [fold_left]. change (redraw same_step todom k0 _ []) with (@nil (nat * (step_widget C * D))). unfold redraw. cbn [aget]. split.
  - intros n w d I. apply in_map_iff in I as ([n' w'] & E & I). injection E as -> -> <-. reflexivity.
  - rewrite map_map. rewrite <- (map_id l) at 2. apply map_ext. intros [n w]. reflexivity.
Qed.
Print Assumptions C99_steps_partial.

(** ... but a second answer without an edit between may keep every table whose line has one already: it shows the
    first answer, and pointing at its letters highlights nothing of the second. *)
Theorem C99_steps_refuted {C D : Type} (todom : step_widget C -> D) k0 k n w w' :
  sw_line w = sw_line w' -> todom w <> todom w' -> k n = true ->
  redraws same_step todom [(k0, [(n, w)]); (k, [(n, w')])] = [(n, (w', todom w))] /\
  ~ UpToDate todom (redraws same_step todom [(k0, [(n, w)]); (k, [(n, w')])]).
Proof.
  intros E N Kn. assert (X : redraws same_step todom [(k0, [(n, w)]); (k, [(n, w')])] = [(n, (w', todom w))]).
  { unfold redraws. cbn [fold_left]. unfold redraw. cbn [map aget]. destruct (Nat.eq_dec n n); [|congruence]. unfold same_step. rewrite E, Nat.eqb_refl, Kn. reflexivity. }
  split; [exact X|]. rewrite X. intros U. apply N. exact (U n w' (todom w) (or_introl eq_refl)).
Qed.
Print Assumptions C99_steps_refuted.

Theorem C99_pointing_refuted fresh n first second drawn i t es j t' es' name loan move :
  (forall a b, fresh a = fresh b -> a = b) -> (forall d f, In (d, f) (first ++ second) -> Keyed f) ->
  draw fresh n (first ++ second) = Some drawn -> i < length first -> length first <= j ->
  nth_error drawn i = Some (t, es) -> nth_error drawn j = Some (t', es') ->
  forall a b, ~ Lit (point_at [Enter (Target t name loan move)] es') a b.
Proof.
  intros Inj K D Li Lj Hi Hj a b. destruct (nth_error (first ++ second) i) as [[d f]|] eqn:Ef.
  - change [Enter (Target t name loan move)] with ([] ++ [Enter (Target t name loan move)]).
    destruct (C97_pointing fresh n _ drawn Inj K D i d f t es Ef Hi [] name loan move visits_nil) as (_ & _ & X).
    rewrite (X j t' es') by (auto; lia). intros (e & Ie & _ & H). rewrite (proj1 (draw_clean _ _ _ _ D j t' es' Hj e Ie)) in H. destruct H.
  - apply nth_error_None in Ef. rewrite app_length in Ef. lia.
Qed.
Print Assumptions C99_pointing_refuted.

Example C99_witness :
  let w := StepWidget 2 Pg.t0 [1] in let w' := StepWidget 2 (Tags [] [] [] []) [1; 2] in
  redraws same_step sw_content [(fun _ => false, [(5, w)]); (fun _ => true, [(5, w')])] = [(5, (w', [1]))] /\
  redraws same_step sw_content [(fun _ => false, [(5, w)]); (fun _ => true, []); (fun _ => true, [(5, w')])] = [(5, (w', [1; 2]))] /\
  redraws same_boundary bw_content [(fun _ => true, [(5, BoundaryWidget 1 Pg.t0 [1])]); (fun _ => true, [(5, BoundaryWidget 2 Pg.t0 [2])])] =
    [(5, (BoundaryWidget 2 Pg.t0 [2], [2]))].
Proof. repeat split; reflexivity. Qed.
