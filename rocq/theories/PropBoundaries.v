(** Property theorems C17-C20 and C53-C55.  Specifications are in
    [BoundariesSpec.v]. *)

From Coq Require Import List Arith Bool Sorted.
From Verif Require Import Base PermsModel FactsModel FlowModel FlowSpec SpansModel BoundariesModel
  BoundariesSpec BoundariesProofs.
Import ListNotations.

(** C17, what is drawn: some letter is drawn as missing iff an expected letter
    is not present or the flow requirement is violated. *)
Theorem C17_flagged_iff_missing : forall b,
  (exists l, In (l, false) (icons b)) <->
  (p_read (b_expected b) = true /\ p_read (b_actual b) = false) \/
  (p_write (b_expected b) = true /\ p_write (b_actual b) = false) \/
  (p_drop (b_expected b) = true /\ p_drop (b_actual b) = false) \/
  (exists f, b_flow b = Some f /\ fb_violation f = true).
Proof. exact flagged_iff. Qed.
Print Assumptions C17_flagged_iff_missing.

(** Letter by letter: drawn iff expected, marked as present iff present. *)
Theorem C17_drawn_letters : forall b l ok,
  In (l, ok) (icons b) <-> letter_expected b l /\ (ok = true <-> letter_present b l).
Proof. exact icons_iff. Qed.
Print Assumptions C17_drawn_letters.

(** The library's own predicate looks at R, W and O only. *)
Theorem C17_is_violation_partial : forall b,
  is_violation b = true <->
  (p_read (b_expected b) = true /\ p_read (b_actual b) = false) \/
  (p_write (b_expected b) = true /\ p_write (b_actual b) = false) \/
  (p_drop (b_expected b) = true /\ p_drop (b_actual b) = false).
Proof. exact is_violation_iff. Qed.
Print Assumptions C17_is_violation_partial.

Theorem C17_is_violation_ignores_flow_refuted : exists b f,
  b_flow b = Some f /\ fb_violation f = true /\ is_violation b = false.
Proof.
  exact (ex_intro _ (mkB 0 0 R_ R_ (Some (mkFB true (mkR 0 1) MissingUniversalConstraint)))
    (ex_intro _ (mkFB true (mkR 0 1) MissingUniversalConstraint) (conj eq_refl (conj eq_refl eq_refl)))).
Qed.
Print Assumptions C17_is_violation_ignores_flow_refuted.

(** Every use expects R; assignment targets expect W; nothing expects both W
    and O. *)
Theorem C17_expected_by_use_kind : forall fc e pb, In pb (visit fc e) ->
  p_read (pb_expected pb) = true /\
  (pb_lhs pb = true -> p_write (pb_expected pb) = true /\ p_drop (pb_expected pb) = false) /\
  (p_drop (pb_expected pb) = true -> p_write (pb_expected pb) = false).
Proof. exact expected_by_kind. Qed.
Print Assumptions C17_expected_by_use_kind.

Theorem C17_borrow_expects_write_iff_mutable : forall fc m mut i, VisiblePlace i ->
  exists pb, In pb (visit fc (EAddrOf m mut i)) /\ p_write (pb_expected pb) = mut /\
    p_read (pb_expected pb) = true /\ p_drop (pb_expected pb) = false.
Proof. exact borrow_expects. Qed.
Print Assumptions C17_borrow_expects_write_iff_mutable.

Theorem C17_variable_expects_by_adjustment : forall fc m sp,
  exists pb, visit fc (EPath m ResLocal sp false) = [pb] /\ Needs m (pb_expected pb).
Proof. exact variable_expects. Qed.
Print Assumptions C17_variable_expects_by_adjustment.

Example C17_witness :
  icons (mkB 3 3 RW_ R_ (Some (mkFB false (mkR 0 1) FlowOk))) = [(LR, true); (LW, false); (LF, true)].
Proof. reflexivity. Qed.

(** C18 *)
Theorem C18_choice : forall similar cands,
  match select_candidate_location similar cands with
  | None => cands = [] \/
            (2 <= length cands /\ exists l, similar = Some l /\ forall c, In c cands -> ~ on_local l c)
  | Some c => In c cands /\
      (cands = [c] \/
       (2 <= length cands /\
        match similar with
        | Some l => FirstWith (on_local l) cands c
        | None => exists f r, cands = f :: r /\
                    EarliestMax (on_local (local (snd f))) depth cands c
        end))
  end.
Proof. exact select_spec. Qed.
Print Assumptions C18_choice.

(** The specification determines the choice. *)
Theorem C18_choice_unique : forall (P : Candidate -> Prop) key l c d,
  EarliestMax P key l c -> EarliestMax P key l d -> c = d.
Proof. exact (@EarliestMax_unique Candidate). Qed.
Print Assumptions C18_choice_unique.

Example C18_witness :
  select_candidate_location None
    [(5, mkPlace 1 []); (6, mkPlace 2 [Field 0; Field 0; Field 0]); (7, mkPlace 1 [Field 4]); (8, mkPlace 1 [Field 5]); (9, mkPlace 1 [])]
  = Some (7, mkPlace 1 [Field 4]) /\
  select_candidate_location (Some 2) [(5, mkPlace 1 []); (6, mkPlace 2 [Field 0]); (7, mkPlace 2 [])]
  = Some (6, mkPlace 2 [Field 0]) /\
  select_candidate_location (Some 9) [(5, mkPlace 1 []); (6, mkPlace 2 [Field 0])] = None.
Proof. repeat split. Qed.

(** C19 *)
Theorem C19_reported_boundaries : forall PB (tb : PB -> option Boundary) uses err b,
  In b (compute_permission_boundaries tb uses err) <->
  (exists u, In u uses /\ tb u = Some b) /\
  (err = None \/ b_flow b <> None \/ exists e, err = Some e /\ b_byte b <= e).
Proof. exact @boundaries_filter. Qed.
Print Assumptions C19_reported_boundaries.

Theorem C19_order_kept : forall PB (tb : PB -> option Boundary) uses err pre b1 mid b2 post,
  compute_permission_boundaries tb uses err = pre ++ b1 :: mid ++ b2 :: post ->
  exists u1 u2 p m q, uses = p ++ u1 :: m ++ u2 :: q /\ tb u1 = Some b1 /\ tb u2 = Some b2.
Proof. exact @boundaries_order. Qed.
Print Assumptions C19_order_kept.

Example C19_witness :
  let f := mkFB false (mkR 0 1) FlowOk in
  let tb := fun n => if n =? 3 then None else Some (mkB (2 * n) n R_ R_ (if n =? 9 then Some f else None)) in
  map b_byte (compute_permission_boundaries tb [1; 3; 4; 8; 9; 5] (Some 4)) = [1; 4; 9] /\
  map b_byte (compute_permission_boundaries tb [1; 3; 4; 8] None) = [1; 4; 8].
Proof. split; reflexivity. Qed.

(** C20: a boundary is recorded iff some expression outside the skipped parts
    is a use site with that boundary. *)
Theorem C20_recorded_iff_use_site : forall e fc pb,
  In pb (visit fc e) <-> exists fc' e', Reached fc e fc' e' /\ UseSite fc' e' pb.
Proof. exact visit_iff. Qed.
Print Assumptions C20_recorded_iff_use_site.

(** For a whole function the outermost flow context is its body. *)
Theorem C20_recorded_iff_use_site_of_body : forall body pb,
  In pb (get_path_boundaries body) <-> exists fc e, Reached (eid body) body fc e /\ UseSite fc e pb.
Proof. intros body pb. apply visit_iff. Qed.
Print Assumptions C20_recorded_iff_use_site_of_body.

(** Every sub-expression is looked at, unless it lies in one of the listed
    skipped parts: the place used by its parent, or an assignment target. *)
Theorem C20_only_listed_parts_skipped : forall e fc s, Sub e s ->
  (exists fc', Reached fc e fc' s) \/
  (exists fc' a r c, Reached fc e fc' a /\ In (r, c) (children a) /\ Skipped a r /\ Sub c s).
Proof. exact sub_covered. Qed.
Print Assumptions C20_only_listed_parts_skipped.

(** Each use is recorded once. *)
Theorem C20_recorded_once : forall e, UniqueIds e -> forall fc, NoDup (map pb_hir (visit fc e)).
Proof. exact visit_NoDup. Qed.
Print Assumptions C20_recorded_once.

(** Boundaries come in source order. *)
Theorem C20_source_order : forall e, InOrder e -> forall fc,
  StronglySorted (fun a b => hi (pb_location a) <= hi (pb_location b)) (visit fc e).
Proof. exact visit_sorted. Qed.
Print Assumptions C20_source_order.

(** The claim that nothing else is skipped is false: a skipped receiver can
    contain a move of a variable. *)
Theorem C20_hidden_move_refuted :
  exists e s fc, Sub e s /\ (exists m sp, s = EPath m ResLocal sp false /\ Needs m RO_) /\
    InOrder e /\ ~ exists pb, In pb (visit fc e) /\ pb_hir pb = eid s.
Proof. exact hidden_move_missed. Qed.
Print Assumptions C20_hidden_move_refuted.

(** Nor is the permission always the one the context requires: reading a
    copyable field is said to need ownership of the whole. *)
Theorem C20_copy_field_needs_own_refuted :
  exists e m b, e = EField m b /\ m_copyable m = true /\
    (exists pb, visit 0 e = [pb] /\ p_drop (pb_expected pb) = true).
Proof. exact copy_field_needs_own. Qed.
Print Assumptions C20_copy_field_needs_own_refuted.

(** [{ x.push(y); deref r = z; &mut w }] *)
Example C20_witness :
  let v i a c := EPath (mk i a (a + 1) c) ResLocal (mkR a (a + 1)) false in
  let recv := EPath (mkM 11 (mkR 2 3) false [AdjBorrowRef true] false) ResLocal (mkR 2 3) false in
  let body := EBlock (mk 1 0 40 true)
    [ (100, [EMethod (mk 10 2 11 true) false recv [v 12 9 false]]);
      (101, [EAssign (mk 20 13 20 true) (EDeref (mk 21 13 15 true) (v 22 14 true)) (v 23 18 true)]) ]
    (Some (EAddrOf (mk 30 22 28 true) true (v 31 27 false))) in
  get_path_boundaries body =
    [ mkPB 11 100 false (mkR 2 3) RW_; mkPB 12 100 false (mkR 9 9) RO_;
      mkPB 21 101 true (mkR 13 13) RW_; mkPB 23 101 false (mkR 18 18) R_;
      mkPB 30 30 false (mkR 27 27) RW_ ].
Proof. reflexivity. Qed.

(** C53: the candidates of a node. *)
Theorem C53_candidates_exact : forall vis stmt_at ls is_lhs cs,
  paths_at_hir_id vis stmt_at (Some ls) is_lhs = Some cs ->
  forall loc p, In (loc, p) cs <->
    In loc ls /\ vis p = true /\
    (Inspects (stmt_at loc) p \/ (if is_lhs then Writes (stmt_at loc) p else Reads (stmt_at loc) p)).
Proof. exact candidates_In. Qed.
Print Assumptions C53_candidates_exact.

Theorem C53_candidates_in_location_order : forall vis stmt_at ls is_lhs cs,
  paths_at_hir_id vis stmt_at (Some ls) is_lhs = Some cs ->
  forall pre c1 mid c2 post, cs = pre ++ c1 :: mid ++ c2 :: post ->
  exists l1 l2 l3, ls = l1 ++ l2 ++ l3 /\
    ((l2 = [fst c1] /\ fst c1 = fst c2) \/ exists m, l2 = fst c1 :: m ++ [fst c2]).
Proof. exact candidates_ordered. Qed.
Print Assumptions C53_candidates_in_location_order.

Example C53_witness :
  paths_at_hir_id (fun p => local p <? 3)
    (fun l => match l with
              | 1 => SkAssign (mkPlace 9 []) (RvPlace (mkPlace 2 [Field 1]))
              | 2 => SkAssign (mkPlace 0 []) (RvOperands [Some (mkPlace 1 []); None; Some (mkPlace 7 [])])
              | 3 => SkFakeRead (mkPlace 0 [])
              | _ => SkTerminator end) (Some [1; 2; 3; 4]) false
  = Some [(1, mkPlace 2 [Field 1]); (2, mkPlace 1 []); (3, mkPlace 0 [])].
Proof. reflexivity. Qed.

(** C54: the node itself or else the nearest ancestor that yields a place. *)
Theorem C54_nearest_ancestor : forall vis stmt_at locs similar is_lhs h parents,
  match resolve vis stmt_at locs similar is_lhs h parents with
  | Some c => exists inner n outer, h :: parents = inner ++ n :: outer /\
      Yields vis stmt_at locs similar is_lhs n c /\
      forall z, In z inner -> YieldsNone vis stmt_at locs similar is_lhs z
  | None => forall z, In z (h :: parents) -> YieldsNone vis stmt_at locs similar is_lhs z
  end.
Proof.
  intros vis stmt_at locs similar is_lhs h parents.
  assert (S1 : forall n, match search_at vis stmt_at locs similar is_lhs n with
    | Some c => Yields vis stmt_at locs similar is_lhs n c | None => YieldsNone vis stmt_at locs similar is_lhs n end).
  { intros n. unfold search_at. destruct (locs n) as [ls|] eqn:L; [|left; auto].
    destruct (paths_at_hir_id vis stmt_at (Some ls) is_lhs) as [cs|] eqn:E; [|discriminate].
    assert (M : Mentioned vis stmt_at is_lhs ls cs) by (split; [apply (candidates_In _ _ _ _ _ E)|apply (candidates_ordered _ _ _ _ _ E)]).
    pose proof (select_spec (similar n) cs) as X. destruct (select_candidate_location (similar n) cs) as [c|].
    - exists ls, cs. auto.
    - right. exists ls, cs. auto. }
  pose proof (resolve_spec vis stmt_at locs similar is_lhs h parents) as R.
  destruct (resolve vis stmt_at locs similar is_lhs h parents) as [c|].
  - destruct R as (inner & n & outer & E & Y & N). exists inner, n, outer. split; auto.
    split; [pose proof (S1 n) as X; rewrite Y in X; exact X|]. intros z I. pose proof (S1 z) as X. rewrite (N z I) in X. exact X.
  - intros z I. pose proof (S1 z) as X. rewrite (R z I) in X. exact X.
Qed.
Print Assumptions C54_nearest_ancestor.

Example C54_witness :
  resolve (fun _ => true) (fun l => SkFakeRead (mkPlace l []))
    (fun h => match h with 1 => None | 2 => Some [] | 3 => Some [7] | _ => Some [8] end)
    (fun _ => None) false 1 [2; 3; 4] = Some (7, mkPlace 7 []).
Proof. reflexivity. Qed.

(** C55: flow boundaries. *)
Theorem C55_flow_boundary : forall fi rf, compute_flows fi = Some rf ->
  forall enabled ctx spec range,
  (forall cs c, ctx = Some cs -> In c cs -> In (fst c) (f_subset fi)) ->
  exists r, get_flow_permission enabled rf ctx spec range = Some r /\
  match r with
  | None => enabled = false \/ ctx = None \/ spec = None \/
            exists cs, ctx = Some cs /\ forall c, In c cs -> ~ TiedToAbstract fi (snd (fst c))
  | Some fb =>
      enabled = true /\ fb_context fb = range /\
      exists cs ss, ctx = Some cs /\ spec = Some ss /\
        (exists c, In c cs /\ TiedToAbstract fi (snd (fst c))) /\
        (fb_violation fb = true <-> exists c, In c cs /\ Offends fi ss c) /\
        (if fb_violation fb
         then exists pre c post, cs = pre ++ c :: post /\ Offends fi ss c /\
                (forall x, In x pre -> ~ Offends fi ss x) /\
                Verdict fi (fst (fst c)) (snd (fst c)) (fb_kind fb)
         else fb_kind fb = FlowOk)
  end.
Proof. exact flow_permission_spec. Qed.
Print Assumptions C55_flow_boundary.

(** The constraints looked at for a node: those that hold at one of the points
    of the node and have no placeholder at either end, in the order of the
    node's locations. *)
Theorem C55_constraints_exact : forall placeholders subset_base lps,
  exists cs, flow_constraints_at placeholders subset_base (Some lps) = Some cs /\
  (forall f t p, In (f, t, p) cs <->
     In (f, t, p) subset_base /\ ~ In f placeholders /\ ~ In t placeholders /\
     exists ps, In ps lps /\ In p ps) /\
  (forall ps r, lps = ps :: r -> exists a b, cs = a ++ b /\
     flow_constraints_at placeholders subset_base (Some r) = Some b /\
     forall f t p, In (f, t, p) a -> In p ps).
Proof. exact constraints_exact. Qed.
Print Assumptions C55_constraints_exact.

Example C55_constraints_witness :
  flow_constraints_at [3] [(1, 2, 10); (2, 3, 10); (3, 2, 11); (1, 4, 11); (1, 5, 12)] (Some [[11]; [9; 10]])
  = Some [(1, 4, 11); (1, 2, 10)].
Proof. reflexivity. Qed.

(** A local borrow (region 1) flowing into the placeholder's cycle (2, 3). *)
Example C55_witness :
  let fi := mkFlowIn [(1, 2); (2, 3); (3, 2)] [3] [] [] [mkBorrow 1 false false true true] [] true in
  match compute_flows fi with
  | None => False
  | Some rf =>
      get_flow_permission true rf
        (flow_constraints_at [3] [(1, 2, 10); (2, 3, 10); (3, 2, 11)] (Some [[9; 10]]))
        (Some [(0, 1, 10)]) (mkR 5 9)
      = Some (Some (mkFB true (mkR 5 9) LocalOutlivesUniversal))
  end.
Proof. vm_compute. reflexivity. Qed.
