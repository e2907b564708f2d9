(** Model of ranges, smoothing and loan/move highlights
    (crates/aquascope/src/analysis/mod.rs) and of the diagnostics state
    (crates/aquascope/src/errors/mod.rs). *)

From Coq Require Import List Arith Bool Lia.
From Verif Require Import Base FactsModel.
Import ListNotations.

(** A range of text.  Simplification: the syntax context / parent of a rustc
    [Span] and the file of a [CharRange] are not modelled, so [to] is the plain
    hull. *)
Record Range := mkR { lo : nat; hi : nat }.

Definition range_eqd : forall x y : Range, {x = y} + {x <> y}.
Proof. decide equality; apply Nat.eq_dec. Defined.

(** mod.rs:158-160, rustc [Span::overlaps] *)
Definition span_overlaps (a b : Range) : bool := (lo a <? hi b) && (lo b <? hi a).

(** mod.rs:178-180 [CharRange::overlaps] *)
Definition char_overlaps (a b : Range) : bool := negb ((hi a <? lo b) || (hi b <? lo a)).

(** mod.rs:182-188 and rustc [Span::to] *)
Definition to (a b : Range) : Range := mkR (Nat.min (lo a) (lo b)) (Nat.max (hi a) (hi b)).

(** mod.rs:201 [sort_by_key(lo)]: a stable sort. *)
Fixpoint insert_by_lo (x : Range) (l : list Range) : list Range :=
  match l with
  | [] => [x]
  | y :: r => if lo x <=? lo y then x :: l else y :: insert_by_lo x r
  end.
Definition sort_by_lo (l : list Range) : list Range := fold_right insert_by_lo [] l.

(** mod.rs:206-213: the loop with its accumulator. *)
Fixpoint smooth_loop (overlaps : Range -> Range -> bool) (acc : Range) (l : list Range) : list Range :=
  match l with
  | [] => [acc]
  | e :: r => if overlaps acc e || (hi acc =? lo e)
              then smooth_loop overlaps (to acc e) r
              else acc :: smooth_loop overlaps e r
  end.

(** mod.rs:192-219 [smooth_elements] *)
Definition smooth_elements (overlaps : Range -> Range -> bool) (l : list Range) : list Range :=
  match sort_by_lo l with
  | [] => []
  | e :: r => smooth_loop overlaps e r
  end.

(** ** Highlights *)

(** rustc [Span::is_empty]; the dummy span is [0..0], hence empty. *)
Definition is_empty (r : Range) : bool := lo r =? hi r.

(** mod.rs:543-567 [points_to_spans]: [hir_span] is the span of the HIR node of
    the point's location. *)
Definition points_to_spans (hir_span : Point -> Range) (ps : list Point) : list Range :=
  filter (fun s => negb (is_empty s)) (map hir_span ps).

(** mod.rs:485-540 [key_to_spans]; [as_local] maps a span coming from a macro to
    the span in the body, when there is one. *)
Definition key_to_spans (hir_span : Point -> Range) (as_local : Range -> option Range)
    (key : nat) (live_at : list (Point * list nat)) (min_span max_span : Range) : list Range :=
  let points := map fst (filter (fun pl => memb Nat.eq_dec key (snd pl)) live_at) in
  let spans := points_to_spans hir_span points ++ [min_span; max_span] in
  smooth_elements span_overlaps
    (map (fun s => match as_local s with Some t => t | None => s end)
       (filter (fun s => (lo min_span <=? lo s) && (hi s <=? hi max_span)) spans)).

Record LoanEnv := mkLoanEnv {
  le_hir_span : Point -> Range;             (* hir.span(body.location_to_hir_id(..)) *)
  le_point_span : Point -> Range;           (* location_to_span(point_to_location(..)) *)
  le_loan_span : Loan -> Range;             (* location_to_span(reserve_location) *)
  le_as_local : Range -> option Range;      (* Span::as_local(body.span) *)
  le_live_at : list (Point * list Loan)     (* polonius_output.loan_live_at *)
}.

Definition localised (env : LoanEnv) (s : Range) : Range :=
  match le_as_local env s with Some t => t | None => s end.

(** mod.rs:335-421 [construct_loan_info], one loan: its anchor and its
    highlighted ranges.  [None]: the loan is not shown. *)
Definition loan_info (env : LoanEnv) (region : Point * Point) (loan : Loan)
  : option (Range * list Range) :=
  let span := localised env (le_loan_span env loan) in
  if is_empty span then None
  else
    let start_span := le_point_span env (fst region) in
    let end_span := le_point_span env (snd region) in
    let start_span := if lo start_span <? lo span then span else start_span in
    Some (span, key_to_spans (le_hir_span env) (le_as_local env) loan (le_live_at env)
                             start_span end_span).

(** mod.rs:335-421 over all loans that have a region (context.rs:446-496) *)
Definition construct_loan_info (env : LoanEnv) : list (Loan * (Range * list Range)) :=
  flat_map (fun lr : Loan * (Point * Point) =>
              match loan_info env (snd lr) (fst lr) with
              | Some i => [(fst lr, i)]
              | None => [] end)
    (construct_loan_regions (fun p => (lo (le_point_span env p), hi (le_point_span env p)))
       (le_live_at env)).

(** mod.rs:322-325 [is_span_visible]: true on dummy or empty spans. *)
Definition is_span_visible (s : Range) : bool := is_empty s.

Record MoveEnv := mkMoveEnv {
  me_hir_span : Point -> Range;
  me_move_span : Move -> Range;              (* location_to_span(move_out.source) *)
  me_moves : nat;                            (* number of moves *)
  me_operational : Point -> bool;            (* is_point_operational *)
  me_refined : NMap                          (* permissions_output.move_refined *)
}.

(** mod.rs:425-436, 478-482: the anchors. *)
Definition move_points (env : MoveEnv) : list (Move * Range) :=
  flat_map (fun m => let s := me_move_span env m in
                     if is_span_visible s then [(m, s)] else [])
           (seq 0 (me_moves env)).

(** mod.rs:438-445: the points refined by each move. *)
Definition move_to_spans (env : MoveEnv) (m : Move) : list Point :=
  flat_map (fun row : Point * list (Path * nat) =>
              map (fun _ => fst row) (filter (fun pm => snd pm =? m) (snd row)))
           (me_refined env).

(** mod.rs:447-476: the highlighted ranges of one move. *)
Definition move_region (env : MoveEnv) (m : Move) : option (list Range) :=
  match aget Nat.eq_dec (move_points env) m with
  | None => None
  | Some anchor =>
      Some (smooth_elements span_overlaps
              (filter (fun s => lo anchor <=? lo s)
                 (points_to_spans (me_hir_span env)
                    (filter (me_operational env) (move_to_spans env m)))))
  end.

(** ** Diagnostics (errors/mod.rs) *)

Record DiagnosticInfo := mkDiag { primary_span : Range; is_error : bool }.

Record DiagState := mkDS { current_body : option nat; body_diagnostics : list DiagnosticInfo }.

Definition diag_init : DiagState := mkDS None [].

Inductive DiagOp :=
| TrackBody (def_id : nat)
| Report (d : DiagnosticInfo).

(** errors/mod.rs:19-33 [track_diagnostic] and 48-63 [track_body_diagnostics] *)
Definition diag_step (st : DiagState) (op : DiagOp) : DiagState :=
  match op with
  | TrackBody id => mkDS (Some id) []
  | Report d => mkDS (current_body st) (body_diagnostics st ++ [d])
  end.

Definition diag_run (ops : list DiagOp) : DiagState := fold_left diag_step ops diag_init.

(** errors/mod.rs:65-67 [errors_exist] *)
Definition errors_exist (st : DiagState) : bool :=
  match body_diagnostics st with [] => false | _ => true end.

(** [Iterator::min_by_key]: the first of the minimal elements. *)
Fixpoint min_by_lo (l : list Range) : option Range :=
  match l with
  | [] => None
  | x :: r => match min_by_lo r with
              | None => Some x
              | Some y => if lo y <? lo x then Some y else Some x
              end
  end.

(** errors/mod.rs:69-86 [get_span_of_first_error]; the outer [None] is the
    assertion failure (wrong body, or no body tracked yet). *)
Definition get_span_of_first_error (st : DiagState) (def_id : nat) : option (option Range) :=
  match current_body st with
  | None => None
  | Some id =>
      if id =? def_id
      then Some (min_by_lo (map primary_span (filter is_error (body_diagnostics st))))
      else None
  end.
