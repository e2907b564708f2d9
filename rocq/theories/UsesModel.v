(** * Model of the boundaries of a whole function

    Models crates/aquascope/src/analysis/boundaries/mod.rs 436-571 and 710-826: every use that
    the expression visitor finds is resolved to a place and a location, the facts are asked about
    them, and the flow requirement is added.  The parts are in BoundariesModel.v, the facts in
    FactsModel.v, the flows in FlowModel.v, the first error in SpansModel.v. *)
From Coq Require Import List Arith Bool.
From Verif Require Import Base PermsModel FactsModel FlowModel SpansModel BoundariesModel.
Import ListNotations.

(** What the analysis knows about the function.  [ue_locs]: [get_mir_locations(h, Nested)] with
    its locations in the order of [values()].  [ue_parents]: [hir.parent_iter].  [ue_start]:
    context.rs 108-110 [location_to_point]; [ue_mid]: the other of the two points of
    [location_to_points] (112-117).  [ue_local]: [Span::as_local(body.span)].  [ue_chars] and
    [ue_bytes]: [CharRange] and [ByteRange] of a span; [None] is the panic of [unwrap]. *)
Record uenv := Uenv {
  ue_inp : Inp;
  ue_out : Output;
  ue_flows : RegionFlows;
  ue_flow_enabled : bool;
  ue_placeholders : list Origin;
  ue_subset_base : list Constraint;
  ue_visible : Place -> bool;
  ue_stmt : nat -> StmtKind;
  ue_locs : HirId -> option (list nat);
  ue_parents : HirId -> list HirId;
  ue_similar : HirId -> option nat;
  ue_start : nat -> Point;
  ue_mid : nat -> Point;
  ue_hir_span : HirId -> Range;
  ue_body_span : Range;
  ue_local : Range -> option Range;
  ue_chars : Range -> option Range;
  ue_bytes : Range -> option Range
}.

(** mod.rs 436-462 [flow_constraints_at_hir_id] *)
Definition constraints_of (env : uenv) (h : HirId) : option (list Constraint) :=
  flow_constraints_at (ue_placeholders env) (ue_subset_base env)
    (option_map (map (fun l => [ue_start env l; ue_mid env l])) (ue_locs env h)).

(** mod.rs 466-571 [get_flow_permission]: the displayed range of the context is only computed
    when there is something to display; outer [None] is a panic. *)
Definition flow_of (env : uenv) (flow_context hir_id : HirId) : option (option FlowBoundary) :=
  match get_flow_permission (ue_flow_enabled env) (ue_flows env) (constraints_of env flow_context)
          (constraints_of env hir_id) (mkR 0 0) with
  | None => None
  | Some None => Some None
  | Some (Some fb) =>
    let span := match ue_local env (ue_hir_span env flow_context) with
                | Some s => s | None => ue_body_span env end in
    match ue_chars env span with
    | None => None
    | Some range => Some (Some (mkFB (fb_violation fb) range (fb_kind fb)))
    end
  end.

(** mod.rs 710-794 [path_to_perm_boundary]; outer [None] is a panic. *)
Definition path_to_perm_boundary (env : uenv) (pb : PathBoundary) : option (option Boundary) :=
  match resolve (ue_visible env) (ue_stmt env) (ue_locs env) (ue_similar env) (pb_lhs pb)
                (pb_hir pb) (ue_parents env (pb_hir pb)) with
  | None => Some None
  | Some (loc, place) =>
    match query (ue_inp env) (ue_out env) place (ue_start env loc) with
    | None => None
    | Some data =>
      match flow_of env (pb_context pb) (pb_hir pb) with
      | None => None
      | Some flow =>
        let span := match ue_local env (pb_location pb) with Some s => s | None => pb_location pb end in
        match ue_chars env span, ue_bytes env span with
        | Some c, Some b =>
          Some (Some (mkB (hi c) (hi b) (pb_expected pb) (permissions_ignore_liveness data) flow))
        | _, _ => None
        end
      end
    end
  end.

(** mod.rs 806-808 and 813-819: where the local first error ends, in bytes.  [None] is a panic.
    Simplification: in the code the conversion only happens when there is a boundary without a
    flow requirement to compare with. *)
Definition first_error_end (env : uenv) (st : DiagState) (def_id : nat) : option (option nat) :=
  match get_span_of_first_error st def_id with
  | None => None
  | Some None => Some None
  | Some (Some s) =>
    match ue_local env s with
    | None => Some None
    | Some s' => match ue_bytes env s' with Some r => Some (Some (hi r)) | None => None end
    end
  end.

(** mod.rs 796-826 [compute_permission_boundaries]; [None] is a panic. *)
Definition boundaries_of (env : uenv) (st : DiagState) (def_id : nat) (body : Expr) : option (list Boundary) :=
  match first_error_end env st def_id with
  | None => None
  | Some err =>
    match traverse (path_to_perm_boundary env) (get_path_boundaries body) with
    | None => None
    | Some bs => Some (compute_permission_boundaries (fun b => b) bs err)
    end
  end.
