(** * Theorems: the permission analysis goes to the page in JSON *)
From Coq Require Import Ascii String.
From Coq Require Import List Arith ZArith Bool Lia.
From Verif Require Import Base PermsModel BookModel RunModel NumbersModel NumbersSpec NumbersProofs EmbedSpec WireModel WireSpec WireProofs ReportModel ReportSpec ReportProofs.
From Verif Require EditorModel FlowModel EmbedModel JsonSpec JsonModel JsonProofs PropJson.
Import ListNotations.
Local Open Scope string_scope.
Local Open Scope list_scope.

(** ** C113 *)

(** What the tool writes has the form that the page's types declare. *)
Theorem C113_form l : Forall RealResult l -> Items OutcomeC (reports l) l.
Proof. intros F. apply items_id. eapply Forall_impl; [|exact F]. apply outcome_form. Qed.
(** A value of this form stands for one list of results, but for the order in the maps. *)
Theorem C113_one_meaning j l l' : Items OutcomeC j l -> Items OutcomeC j l' -> Forall2 SameResult l l'.
Proof.
  intros (js & -> & H) (js' & [= <-] & H'). revert l' H'. induction H as [|x r js l Hx H IH]; intros l' H'; inversion H'; subst; constructor; auto.
  eapply outcome_fun; eauto.
Qed.
(** So results that differ are written differently. *)
Theorem C113_injective l l' : Forall RealResult l -> Forall RealResult l' ->
  JsonModel.to_string (reports l) = JsonModel.to_string (reports l') -> Forall2 SameResult l l'.
Proof.
  intros R R' E. apply PropJson.C111_injective in E. apply (C113_one_meaning (reports l)); [apply C113_form, R|]. rewrite E. apply C113_form, R'.
Qed.
(** The page reads exactly these results. *)
Theorem C113_page l : Forall RealResult l -> exists j, JsonModel.js_parse (JsonModel.to_string (reports l)) = Some j /\ Items OutcomeC j l.
Proof.
  intros R. destruct (good_reports l R) as [D _]. destruct (PropJson.C111_page _ D) as (_ & j & J & Rd). exists j. split; [exact J|].
  apply (items_stable _ _ outcome_reads l (reports l) j R (C113_form l R) Rd).
Qed.
(** The preprocessor reads the bytes that the tool prints: no results are too deep. *)
Theorem C113_reads l : Forall RealResult l ->
  exists s, JsonModel.decode (JsonModel.print (reports l)) = Some s /\ JsonModel.from_str s = Some (reports l).
Proof.
  intros R. destruct (good_reports l R) as [D O]. exists (List.app (JsonModel.to_string (reports l)) [10]). split.
  - apply JsonProofs.decode_iff. split; [|reflexivity]. apply Forall_app. split; [|constructor; [left; lia|constructor]].
    apply JsonProofs.to_string_scalar. intros x Ox. eapply Forall_impl; [|exact (O x Ox)]. intros c L. left. cbn beta in L. lia.
  - apply (PropJson.C111_round_trip_partial _ [] [10]); [exact D| |constructor|constructor; [cbn; auto|constructor]].
    rewrite JsonProofs.deep_iff. pose proof (depth_reports l). lia.
Qed.
(** As the theorems about books (C111) require of a response. *)
Theorem C113_response l : ~ JsonSpec.Deep (reports l) 127.
Proof. rewrite JsonProofs.deep_iff. pose proof (depth_reports l). lia. Qed.

(** Of every output the page takes the loans and the moves that the tool wrote, each in the order of their keys. *)
Theorem C113_actions l j i o : Forall RealResult l -> JsonModel.js_parse (JsonModel.to_string (reports l)) = Some j -> nth_error l i = Some (inl o) ->
  exists js x y f, j = JArr js /\ nth_error js i = Some x /\ Member "Ok" x y /\
    InOrder range_of (o_lpoints o) (EditorModel.loan_points f) /\ InOrder (fun r => map range_of (r_ranges r)) (o_lregions o) (EditorModel.loan_regions f) /\
    InOrder range_of (o_mpoints o) (EditorModel.move_points f) /\ InOrder (fun r => map range_of (r_ranges r)) (o_mregions o) (EditorModel.move_regions f) /\
    page_actions y = Some (EditorModel.actions_of f).
Proof.
  intros R J I. destruct (C113_page l R) as (j' & J' & js & -> & F). rewrite J in J'. injection J' as ->.
  assert (exists x, nth_error js i = Some x /\ OutcomeC x (inl o)) as (x & Ix & (y & M & C) & _).
  { clear - F I. revert i I. induction F as [|x r js l H F IH]; intros [|i]; cbn [nth_error]; try discriminate; [intros [= ->]; eauto|apply IH]. }
  exists js, x, y. destruct (actions_got y o) as (f & H).
  - unfold JsonModel.js_parse in J. destruct (JsonModel.parse_text _) as [j0|]; [|discriminate J]. cbn [option_map] in J. injection J as J.
    pose proof (JsonProofs.rounded_distinct (fun n => Z.to_nat (js_number (Z.of_nat n))) j0) as D. rewrite J in D. inversion D as [| | | | | |? Fd|]; subst.
    apply nth_error_In in Ix. rewrite Forall_forall in Fd. eapply distinct_member; [apply Fd, Ix|exact M].
  - exact C.
  - apply nth_error_In in I. rewrite Forall_forall in R. apply (R _ I).
  - exists f. auto.
Qed.
(** So the order in which the tool wrote its hash maps does not matter. *)
Theorem C113_order o o' j j' : RealReport o -> RealReport o' -> SameReport o o' ->
  JsonModel.js_parse (JsonModel.to_string (reports [inl o])) = Some (JArr [j]) -> JsonModel.js_parse (JsonModel.to_string (reports [inl o'])) = Some (JArr [j']) ->
  forall x x', Member "Ok" j x -> Member "Ok" j' x' -> exists a, page_actions x = Some a /\ page_actions x' = Some a.
Proof.
  intros R R' (_ & _ & _ & S1 & S2 & S3 & S4) J J' x x' M M'.
  destruct (C113_actions [inl o] _ 0 o (Forall_cons _ (R : RealResult (inl o)) (Forall_nil _)) J eq_refl) as (js & y & z & f & [= <-] & [= <-] & Mz & A1 & A2 & A3 & A4 & A5).
  destruct (C113_actions [inl o'] _ 0 o' (Forall_cons _ (R' : RealResult (inl o')) (Forall_nil _)) J' eq_refl) as (js & y & z' & f' & [= <-] & [= <-] & Mz' & B1 & B2 & B3 & B4 & B5).
  pose proof (member_fun _ _ _ _ M Mz) as ->. pose proof (member_fun _ _ _ _ M' Mz') as ->. exists (EditorModel.actions_of f). split; [exact A5|]. rewrite B5. f_equal.
  destruct f as [p r q t], f' as [p' r' q' t']. cbn in *.
  rewrite (order_same _ _ _ _ _ S1 A1 B1), (order_same _ _ _ _ _ S2 A2 B2), (order_same _ _ _ _ _ S3 A3 B3), (order_same _ _ _ _ _ S4 A4 B4). reflexivity.
Qed.

(** ** A case *)
Module Demo.
  Definition at_ (l c c' : nat) : wrange := ((l, c), (l, c'), 3).
  Definition p (r w d : bool) : Permissions := mkP r w d.
  Definition data : PData := mkPD true false false true false (Some 4) None (Some 12) None.
  Definition flow : wflow := WFlow true (at_ 1 0 9) FlowModel.LocalOutlivesUniversal.
  Definition diff : DataDiff := mkDD (High true) Low (NoStep (Some false)) (High 4) (NoStep None) Low (High 12) (NoStep (Some 2)) (mkPDiff (High true) Low (NoStep (Some true))).
  (** Loan 10 was written before loan 2; loan 3 has no point. *)
  Definition out (order : bool) : report :=
    Report (at_ 0 0 60) [WBound (2, 5) (p true false false) (p true true false) data (Some flow); WBound (3, 1) (p true true true) (p false false false) data None]
      [WLine (at_ 2 0 8) [WTable (at_ 2 0 8) (at_ 2 1 8) [("v", diff)]]]
      (if order then [(10, at_ 2 3 4); (2, at_ 1 3 4)] else [(2, at_ 1 3 4); (10, at_ 2 3 4)])
      (if order then [(10, WRegion (ByLoan 10) [at_ 2 5 6; at_ 3 0 2]); (3, WRegion (ByLoan 3) []); (2, WRegion (ByLoan 2) [at_ 1 5 6])]
       else [(2, WRegion (ByLoan 2) [at_ 1 5 6]); (10, WRegion (ByLoan 10) [at_ 2 5 6; at_ 3 0 2]); (3, WRegion (ByLoan 3) [])])
      [(4, at_ 3 0 1)] [(4, WRegion (ByMove 4) [at_ 4 0 7])].
  Definition err : result := inr (BuildError (Some (at_ 7 1 2))).
  Definition c (l a b : nat) : EditorModel.crange := EditorModel.CRange (EditorModel.Pos l a) (EditorModel.Pos l b).
  Definition actions : list EditorModel.action :=
    [(Some (c 1 3 4), [c 1 5 6]); (None, []); (Some (c 2 3 4), [c 2 5 6; c 3 0 2]); (Some (c 3 0 1), [c 4 0 7])].
  Definition shown (o : report) : option (list EditorModel.action) :=
    match JsonModel.js_parse (JsonModel.to_string (reports [inl o])) with Some (JArr [j]) => obind (dot "Ok" j) page_actions | _ => None end.
End Demo.
Example C113_witness : Forall RealResult [inl (Demo.out true); Demo.err; inr (BuildError None); inr (AnalysisError "no")] /\
  SameReport (Demo.out true) (Demo.out false) /\ Demo.out true <> Demo.out false /\
  Demo.shown (Demo.out true) = Some Demo.actions /\ Demo.shown (Demo.out false) = Some Demo.actions.
Proof.
  split; [|split; [|split; [|split]]].
  - assert (R : RealReport (Demo.out true)).
    { unfold RealReport, SizeMap. cbn. unfold SizeBound, SizeLine, SizeTable, SizeData, SizeDiff, SizeRegion, SizeOpt, SizeRange, Size. cbn.
      repeat first [split|exact Logic.I|constructor; fail|lia|apply Forall_nil|apply Forall_cons|apply NoDup_nil|apply NoDup_cons|progress cbn|
        (intros f [= <-]; cbn)|(intros f E; discriminate E)|(intros E; decompose [or] E; lia)]. }
    constructor; [exact R|]. constructor; [cbn; unfold Size; lia|]. repeat constructor.
  - unfold SameReport, SameMap. cbn. do 3 (split; [reflexivity|]). split; [intros e; tauto|]. split; [intros e; tauto|]. split; reflexivity.
  - intros E. discriminate E.
  - vm_compute. reflexivity.
  - vm_compute. reflexivity.
Qed.

Print Assumptions C113_form.
Print Assumptions C113_one_meaning.
Print Assumptions C113_injective.
Print Assumptions C113_page.
Print Assumptions C113_reads.
Print Assumptions C113_response.
Print Assumptions C113_actions.
Print Assumptions C113_order.
