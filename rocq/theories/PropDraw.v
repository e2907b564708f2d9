(** * Theorems: the page draws what the permission analysis found *)
From Coq Require Import Ascii String.
From Coq Require Import List Arith ZArith Bool Lia.
From Verif Require Import Base PermsModel BookModel RunModel NumbersModel EmbedSpec WireModel WireSpec WireProofs ReportModel ReportSpec ReportProofs DrawModel DrawSpec DrawProofs.
From Verif Require EditorModel BoundariesModel FlowModel EmbedModel JsonModel JsonProofs PropJson PropEditor PropReport.
Import ListNotations.
Local Open Scope string_scope.
Local Open Scope list_scope.

(** ** C114 *)

(** From the answer that the tool prints, the page draws each report of a body, in order, and tells of each failure, in order. *)
Theorem C114_drawn l j : Forall RealResult l -> JsonModel.js_parse (JsonModel.to_string (reports l)) = Some j ->
  exists outs, Forall2 Shows (analysed l) outs /\ forall d, page_decos d j = Some (EditorModel.make_decorations d outs, failed l).
Proof.
  intros R J. destruct (PropReport.C113_page l R) as (j' & J' & js & -> & F). rewrite J in J'. injection J' as ->. apply decos_got; [exact F| |exact R].
  unfold JsonModel.js_parse in J. destruct (JsonModel.parse_text _) as [j0|]; [|discriminate J]. cbn [option_map] in J. injection J as J.
  pose proof (JsonProofs.rounded_distinct (fun n => Z.to_nat (js_number (Z.of_nat n))) j0) as D. rewrite J in D. inversion D as [| | | | | |? Fd|]; subst. exact Fd.
Qed.
(** The order in which the tool wrote its hash maps does not show. *)
Theorem C114_order l l' j j' d : Forall RealResult l -> Forall RealResult l' -> Forall2 SameResult l l' ->
  JsonModel.js_parse (JsonModel.to_string (reports l)) = Some j -> JsonModel.js_parse (JsonModel.to_string (reports l')) = Some j' -> page_decos d j = page_decos d j'.
Proof.
  intros R R' H J J'. destruct (C114_drawn l j R J) as (outs & Sh & E). destruct (C114_drawn l' j' R' J') as (outs' & Sh' & E').
  rewrite E, E'. destruct (shows_all _ _ H _ _ Sh Sh') as [-> ->]. reflexivity.
Qed.

(** A row that compares the states [a] and [b] is drawn, at the end of its line: with the path, with each letter as it was in
    [a] and is in [b], and with the loans and the move of [b] under the pointer. *)
Theorem C114_rows l j d ds es o ln t n a b : Forall RealResult l -> JsonModel.js_parse (JsonModel.to_string (reports l)) = Some j ->
  page_decos d j = Some (Some ds, es) -> In (inl o) l -> In ln (o_lines o) -> In t (l_tables ln) -> In (n, diff_data a b) (t_rows t) ->
  exists at_ tables table row, In (at_, tables) (EditorModel.d_steps ds) /\ In table tables /\ In (lit n, row) table /\
    EditorModel.linecol_to_position (EditorModel.r_end (range_of (l_loc ln))) d = Some at_ /\
    w_marks row = (drawn_as (p_read (permissions a)) (p_read (permissions b)), drawn_as (p_write (permissions a)) (p_write (permissions b)),
                   drawn_as (p_drop (permissions a)) (p_drop (permissions b))) /\
    w_keys row = ((loan_read_refined b, path_moved b), (loan_write_refined b, path_moved b), (loan_drop_refined b, path_moved b)).
Proof.
  intros R J P Io Il It Ir. destruct (C114_drawn l j R J) as (outs & Sh & E). rewrite E in P. injection P as M _.
  destruct (decorated _ _ _ M) as (bs & ss & _ & Css & Es & _). apply analysed_in in Io. destruct (forall2_in _ _ _ _ Sh Io) as (x & Ix & (_ & _ & _ & _ & _ & Hs)).
  destruct (collect_in _ _ _ _ Css Ix) as (ps & Ep & Ips). unfold EditorModel.place in Ep. rewrite Hs in Ep.
  destruct (collect_in _ _ _ (line_of ln) Ep (in_map line_of _ _ Il)) as ([at_ tables] & Ea & Iat). apply place_in in Ea. cbn [fst snd] in Ea. destruct Ea as [Ea ->].
  exists at_, (snd (line_of ln)), (map row_of (t_rows t)), (snd (row_of (n, diff_data a b))). split; [|split; [|split; [|split; [|split]]]].
  - rewrite Es. apply in_concat. exists ps. auto.
  - apply (in_map (fun t => map row_of (t_rows t))), It.
  - apply (in_map row_of) in Ir. exact Ir.
  - revert Ea. unfold line_of, range_of. destruct (l_loc ln) as [[[u v] [u' v']] f]. auto.
  - apply PropEditor.C77_letters.
  - apply PropEditor.C77_keys.
Qed.

(** A boundary of the analysis: at its place is drawn a boundary; and every boundary drawn is one of the analysis, its
    letters are the expected permissions, and those that the place does not have are drawn as missing. *)
Theorem C114_boundaries l j d ds es : Forall RealResult l -> JsonModel.js_parse (JsonModel.to_string (reports l)) = Some j ->
  page_decos d j = Some (Some ds, es) ->
  (forall o b, In (inl o) l -> In b (o_bounds o) -> exists n s,
     EditorModel.linecol_to_position (EditorModel.Pos (fst (b_pos b)) (snd (b_pos b))) d = Some n /\ In (n, s) (EditorModel.d_boundaries ds)) /\
  (forall n s, In (n, s) (EditorModel.d_boundaries ds) -> exists o b, In (inl o) l /\ In b (o_bounds o) /\
     EditorModel.linecol_to_position (EditorModel.Pos (fst (b_pos b)) (snd (b_pos b))) d = Some n /\
     (forall has, In (BoundariesModel.LR, has) (k_icons s) <-> p_read (b_exp b) = true /\ has = p_read (b_act b)) /\
     (forall has, In (BoundariesModel.LW, has) (k_icons s) <-> p_write (b_exp b) = true /\ has = p_write (b_act b)) /\
     (forall has, In (BoundariesModel.LO, has) (k_icons s) <-> p_drop (b_exp b) = true /\ has = p_drop (b_act b)) /\
     (forall has, In (BoundariesModel.LF, has) (k_icons s) <-> exists f, b_flow b = Some f /\ has = negb (f_violation f)) /\
     k_keys s = ((loan_read_refined (b_data b), path_moved (b_data b)), (loan_write_refined (b_data b), path_moved (b_data b)),
                 (loan_drop_refined (b_data b), path_moved (b_data b)))).
Proof.
  intros R J P. destruct (C114_drawn l j R J) as (outs & Sh & E). rewrite E in P. injection P as M _.
  destruct (decorated _ _ _ M) as (bs & ss & Cbs & _ & _ & Eb). split.
  - intros o b Io Ib. apply analysed_in in Io. destruct (forall2_in _ _ _ _ Sh Io) as (x & Ix & (_ & _ & _ & _ & Hb & _)).
    destruct (collect_in _ _ _ _ Cbs Ix) as (ps & Ep & Ips). unfold EditorModel.place in Ep. rewrite Hb in Ep.
    destruct (collect_in _ _ _ (boundary_of b) Ep (in_map boundary_of _ _ Ib)) as ([n s] & Ea & Iat). apply place_in in Ea. destruct Ea as [Ea _].
    destruct (uniq_pos (concat bs) [] n s) as [[]|(y & Iy)]; [apply in_concat; exists ps; auto|]. exists n, y. rewrite Eb. auto.
  - intros n s I. rewrite Eb in I. apply uniq_in, in_concat in I. destruct I as (ps & Ips & I). destruct (collect_back _ _ _ _ Cbs Ips) as (x & Ix & Ep).
    destruct (forall2_back _ _ _ _ Sh Ix) as (o & Io & (_ & _ & _ & _ & Hb & _)). unfold EditorModel.place in Ep. rewrite Hb in Ep.
    destruct (collect_back _ _ _ _ Ep I) as (q & Iq & Eq). apply in_map_iff in Iq. destruct Iq as (b & <- & Ib). apply place_in in Eq. destruct Eq as [Eq Es]. cbn [fst snd boundary_of] in Eq, Es. subst s.
    exists o, b. split; [apply analysed_in, Io|]. split; [exact Ib|]. split; [exact Eq|]. cbn [k_icons k_keys]. unfold letters_of.
    destruct b as [p [e1 e2 e3] [a1 a2 a3] dt fl]; cbn [b_exp b_act b_flow b_data p_read p_write p_drop].
    assert (F : forall has, In (BoundariesModel.LF, has) (match fl with Some f => [(BoundariesModel.LF, if f_violation f then false else true)] | None => [] end) <-> exists f, fl = Some f /\ has = negb (f_violation f)).
    { intros has. destruct fl as [f|]; cbn [In].
      - split; [intros [[= <-]|[]]; exists f; destruct (f_violation f); auto|]. intros (g & [= <-] & ->). left. destruct (f_violation f); reflexivity.
      - split; [tauto|]. intros (f & H & _). discriminate H. }
    assert (N : forall L has, L <> BoundariesModel.LF -> ~ In (L, has) (match fl with Some f => [(BoundariesModel.LF, if f_violation f then false else true)] | None => [] end)).
    { intros L has NL. destruct fl as [f|]; cbn [In]; [intros [H|[]]; apply NL; congruence|tauto]. }
    assert (O : forall (e : bool) (L : BoundariesModel.Letter) (v : bool) (L' : BoundariesModel.Letter) (has : bool), In (L', has) (if e then [(L, v)] else []) <-> e = true /\ L' = L /\ has = v).
    { intros [] L v L' has; cbn [In]; split; [intros [[= <- <-]|[]]; auto|intros (_ & -> & ->); auto|intros []|intros (H & _); discriminate H]. }
    split; [|split; [|split; [|split; [|reflexivity]]]]; intros has; rewrite !in_app_iff, !O.
    + split; [intros [(A & _ & B)|[(_ & A & _)|[(_ & A & _)|A]]]; [auto|discriminate A|discriminate A|exfalso; revert A; apply N; discriminate]|intros [A B]; left; auto].
    + split; [intros [(_ & A & _)|[(A & _ & B)|[(_ & A & _)|A]]]; [discriminate A|auto|discriminate A|exfalso; revert A; apply N; discriminate]|intros [A B]; right; left; auto].
    + split; [intros [(_ & A & _)|[(_ & A & _)|[(A & _ & B)|A]]]; [discriminate A|discriminate A|auto|exfalso; revert A; apply N; discriminate]|intros [A B]; right; right; left; auto].
    + rewrite F. split; [intros [(_ & A & _)|[(_ & A & _)|[(_ & A & _)|A]]]; [discriminate A|discriminate A|discriminate A|exact A]|auto].
Qed.

(** ** A case *)
Module Demo.
  Definition text : EditorModel.doc := repeat (repeat 97 70) 9.
  Definition before : PData := mkPD true true false true false None None None None.
  Definition after : PData := mkPD true true false true false None None (Some 12) (Some 12).
  Definition at_ (l c c' : nat) : wrange := ((l, c), (l, c'), 3).
  Definition out : report :=
    Report (at_ 0 0 60) [WBound (2, 5) (mkP true true false) (mkP true false false) after (Some (WFlow true (at_ 1 0 9) FlowModel.LocalOutlivesUniversal));
                         WBound (2, 5) (mkP true true true) (mkP false false false) after None]
      [WLine (at_ 2 0 8) [WTable (at_ 2 0 8) (at_ 2 1 8) [("v", diff_data before after)]]]
      [(12, at_ 2 3 4)] [(12, WRegion (ByLoan 12) [at_ 2 5 6])] [] [].
  Definition answer : list result := [inr (BuildError None); inl out; inr (AnalysisError "no")].
  Definition p (l c : nat) : EditorModel.pos := EditorModel.Pos l c.
  (** Of the two boundaries at one place the first is drawn. *)
  Definition drawn : @EditorModel.decos stack (list (list (str * drawn_row))) :=
    EditorModel.Decos
      [(150, [[(lit "v", DrawnRow (Some EditorModel.ArrowRight) (EditorModel.Present, EditorModel.Removed, EditorModel.Removed)
                           ((None, None), (Some 12, None), (Some 12, None)))]])]
      [(147, Stack [(BoundariesModel.LR, true); (BoundariesModel.LW, false); (BoundariesModel.LF, false)] ((None, None), (Some 12, None), (Some 12, None)))]
      [(Some (EditorModel.CRange (p 2 3) (p 2 4)), [EditorModel.CRange (p 2 5) (p 2 6)])].
  Definition page (l : list result) : option (option (@EditorModel.decos stack (list (list (str * drawn_row)))) * list told) :=
    obind (JsonModel.js_parse (JsonModel.to_string (reports l))) (page_decos text).
End Demo.
Example C114_witness : Forall RealResult Demo.answer /\ Demo.page Demo.answer = Some (Some Demo.drawn, [ToldBuild; ToldAnalysis (lit "no")]) /\
  (** outside the text: nothing is drawn *)
  option_map fst (Demo.page [inl (Report (Demo.at_ 0 0 1) [] [WLine (Demo.at_ 20 0 1) []] [] [] [] [])]) = Some None.
Proof.
  split; [|split; vm_compute; reflexivity].
  assert (R : RealReport Demo.out).
  { unfold RealReport, SizeMap. cbn. unfold SizeBound, SizeLine, SizeTable, SizeData, SizeDiff, SizeRegion, SizeOpt, SizeRange, Size. cbn.
    repeat first [split|exact Logic.I|constructor; fail|lia|apply Forall_nil|apply Forall_cons|apply NoDup_nil|apply NoDup_cons|progress cbn|
      (intros f [= <-]; cbn)|(intros f E; discriminate E)|(intros E; decompose [or] E; lia)]. }
  constructor; [exact Logic.I|]. constructor; [exact R|]. constructor; [exact Logic.I|constructor].
Qed.

Print Assumptions C114_drawn.
Print Assumptions C114_order.
Print Assumptions C114_rows.
Print Assumptions C114_boundaries.
