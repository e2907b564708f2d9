(** * Model of the answer for one function

    Models crates/aquascope/src/analysis/mod.rs 285-326 [AquascopeAnalysis::run]: the boundaries (UsesModel.v) and the steps
    (StepsModel.v) of a function are put into the output that is printed (ReportModel.v). *)
From Coq Require Import Ascii String.
From Coq Require Import List Arith Bool.
From Verif Require Import Base PermsModel FactsModel FlowModel SpansModel CfgModel SegMirModel HirModel TablesModel
  BoundariesModel UsesModel StepsModel.
From Verif Require BookModel WireModel ReportModel.
Import ListNotations.

(** What the analysis knows about the function.  [fn_uses], [fn_steps]: see there; [fn_body] and [fn_value] are the body's
    expression as the two visitors see it.  [fn_tainted]: [body.tainted_by_errors].  [fn_span]: the range of the body.
    [fn_pos]: line and column of a place in the text; [fn_range]: of a range; [fn_line]: the range of the line that ends at a byte
    (table_builder.rs 249, 307); [fn_at]: the range of a location (table_builder.rs 308-309).  [fn_lenv] and [fn_menv]: what is
    known of loans and moves, see SpansModel.v; [fn_maps]: the order of a hash map.  [fn_message]: the text of an error of the steps.  [fn_mode],
    [fn_order], [fn_hash], [fn_lines]: see StepsModel.v. *)
Record function := Function {
  fn_id : nat;
  fn_uses : uenv;
  fn_steps : senv;
  fn_body : Expr;
  fn_value : expr;
  fn_tainted : bool;
  fn_span : WireModel.wrange;
  fn_pos : nat -> nat * nat;
  fn_range : Range -> WireModel.wrange;
  fn_line : nat -> WireModel.wrange;
  fn_at : loc -> WireModel.wrange;
  fn_lenv : LoanEnv;
  fn_menv : MoveEnv;
  fn_maps : forall A, list (nat * A) -> list (nat * A);
  fn_message : hresult -> string;
  fn_mode : mode;
  fn_order : tables -> tables;
  fn_hash : list (PlaceId * DataDiff) -> list (PlaceId * DataDiff);
  fn_lines : list (nat * list entry) -> list (nat * list entry)
}.

(** boundaries/mod.rs 710-794 [path_to_perm_boundary] with the member [data], which UsesModel.v leaves out. *)
Definition boundary_with_data (env : uenv) (pb : PathBoundary) : option (option (Boundary * PData)) :=
  match path_to_perm_boundary env pb with
  | None => None
  | Some None => Some None
  | Some (Some b) =>
    match resolve (ue_visible env) (ue_stmt env) (ue_locs env) (ue_similar env) (pb_lhs pb)
                  (pb_hir pb) (ue_parents env (pb_hir pb)) with
    | None => Some None
    | Some (loc, place) => option_map (fun d => Some (b, d)) (query (ue_inp env) (ue_out env) place (ue_start env loc))
    end
  end.

(** boundaries/mod.rs 796-826 [compute_permission_boundaries] *)
Definition function_boundaries (f : function) (st : DiagState) : option (list (Boundary * PData)) :=
  match first_error_end (fn_uses f) st (fn_id f), traverse (boundary_with_data (fn_uses f)) (get_path_boundaries (fn_body f)) with
  | Some err, Some bs =>
    Some (filter (fun b => match err with None => true | Some e => is_some (b_flow (fst b)) || (b_byte (fst b) <=? e) end)
            (flat_map (fun b => match b with Some x => [x] | None => [] end) bs))
  | _, _ => None
  end.

(** boundaries/mod.rs 211-233: what is written of a boundary. *)
Definition write_boundary (f : function) (b : Boundary * PData) : ReportModel.wbound :=
  ReportModel.WBound (fn_pos f (b_location (fst b))) (b_expected (fst b)) (b_actual (fst b)) (snd b)
    (option_map (fun w => ReportModel.WFlow (fb_violation w) (fn_range f (fb_context w)) (fb_kind w)) (b_flow (fst b))).

(** Names are texts of characters below 256. *)
Definition write_name (n : list nat) : string := string_of_list_ascii (map ascii_of_nat n).

(** table_builder.rs 359-371: a line has one table; where it stands and its two ranges, 302-312. *)
Definition write_line (f : function) (y : shown) : ReportModel.wline :=
  ReportModel.WLine (fn_line f (sl_pos y))
    [ReportModel.WTable (fn_at f (sl_from y)) (fn_at f (sl_to y)) (map (fun r => (write_name (fst r), snd r)) (sl_rows y))].

(** mod.rs 335-421: the loans' points and regions. *)
Definition loan_points (f : function) : list (nat * WireModel.wrange) :=
  fn_maps f _ (map (fun i => (fst i, fn_range f (fst (snd i)))) (construct_loan_info (fn_lenv f))).
Definition loan_regions (f : function) : list (nat * ReportModel.wregion) :=
  fn_maps f _ (map (fun i => (fst i, ReportModel.WRegion (ReportModel.ByLoan (fst i)) (map (fn_range f) (snd (snd i)))))
    (construct_loan_info (fn_lenv f))).
(** mod.rs 425-483: the moves' points, and the regions of those that make some place unusable somewhere. *)
Definition move_points (f : function) : list (nat * WireModel.wrange) :=
  fn_maps f _ (map (fun m => (fst m, fn_range f (snd m))) (SpansModel.move_points (fn_menv f))).
Definition move_regions (f : function) : list (nat * ReportModel.wregion) :=
  fn_maps f _ (flat_map (fun m =>
    match move_to_spans (fn_menv f) m, move_region (fn_menv f) m with
    | _ :: _, Some rs => [(m, ReportModel.WRegion (ReportModel.ByMove m) (map (fn_range f) rs))]
    | _, _ => []
    end) (seq 0 (me_moves (fn_menv f)))).

(** mod.rs 285-326 [run]; [None]: a panic, or it does not end. *)
Definition function_result (f : function) (st : DiagState) : option ReportModel.result :=
  if fn_tainted f then Some (inr (ReportModel.BuildError (Some (fn_span f))))
  else
    match function_boundaries f st with
    | None => None
    | Some bs =>
      match compute_permission_steps (fn_steps f) st (fn_id f) (fn_value f) (fn_mode f) (fn_order f) (fn_hash f) (fn_lines f) with
      | Val (Answered ls) =>
        Some (inl (ReportModel.Report (fn_span f) (map (write_boundary f) bs) (map (write_line f) ls)
          (loan_points f) (loan_regions f) (move_points f) (move_regions f)))
      | Val (Refused r) => Some (inr (ReportModel.AnalysisError (fn_message f r)))
      | _ => None
      end
    end.
