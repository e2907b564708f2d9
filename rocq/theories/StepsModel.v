(** * Model of the steps of a whole function

    Models crates/aquascope/src/analysis/stepper/mod.rs 341-363 and hir_steps.rs 193-218: the visitor
    asks for the steps, the builder connects them, the facts are asked at their ends, and the
    tables are shown per line.  The parts are in HirModel.v, SegMirModel.v, FactsModel.v,
    TablesModel.v, and the first error in SpansModel.v. *)
From Coq Require Import List Arith Bool.
From Verif Require Import Base PermsModel FactsModel SpansModel CfgModel SegMirModel HirModel TablesModel.
Import ListNotations.

(** What the analysis knows about the function.  [se_hir]: what the visitor knows.  [se_point]:
    context.rs 109-111 [location_to_point].  [se_visible]: [is_source_visible].  [se_name]:
    [Place::to_string].  [se_text]: for every byte of the file, is it a newline?  [se_hi]: where a
    span ends.  [se_reach]: mod.rs 318-323 [MirSegment::span].  [se_local]:
    [Span::as_local(body.span)]. *)
Record senv := Senv {
  se_hir : henv;
  se_inp : Inp;
  se_out : Output;
  se_point : loc -> Point;
  se_visible : Place -> bool;
  se_name : Place -> option (list nat);
  se_text : list bool;
  se_hi : nat -> nat;
  se_reach : loc -> loc -> nat;
  se_local : Range -> option Range
}.

(** context.rs 397-402 [domain_places]; the tables number the places in this order. *)
Definition domain_places (env : senv) : list Place := nodup place_eqd (in_places (se_inp env)).
Definition the_place (env : senv) (p : PlaceId) : option Place := nth_error (domain_places env) p.

(** context.rs 425-440 [permissions_domain_at_point] at a location.  The places of the body are
    all registered, so that [None], a panic, does not occur (StepsProofs.v [domain_at_spec]). *)
Definition domain_at (env : senv) (l : loc) : Domain :=
  match permissions_domain_at_point (se_inp env) (se_out env) (se_point env l) with
  | Some dom => combine (seq 0 (length dom)) (map snd dom)
  | None => []
  end.

(** context.rs 404-423 [domain_bottom] *)
Definition domain_bottom (env : senv) : Domain :=
  map (fun p => (p, mkPD false false false false false None None None None)) (seq 0 (length (domain_places env))).

Definition place_local (env : senv) (p : PlaceId) : nat :=
  match the_place env p with Some x => local x | None => 0 end.
Definition place_depth (env : senv) (p : PlaceId) : nat :=
  match the_place env p with Some x => length (projection x) | None => 0 end.
Definition place_visible (env : senv) (p : PlaceId) : bool :=
  match the_place env p with Some x => se_visible env x | None => false end.
(** table_builder.rs 218-223 [place_to_string!] *)
Definition place_name (env : senv) (p : PlaceId) : list nat :=
  match the_place env p with
  | Some x => match se_name env x with Some n => n | None => [60; 118; 97; 114; 62] end
  | None => []
  end.

(** hir_steps.rs 209-214 [TableBuilder] *)
Definition table_builder (env : senv) (h : hst) : TablesModel.env :=
  TablesModel.Env (domain_at env) (domain_bottom env) (place_local env) (h_locals h) (se_reach env).

(** What [prettify_permission_steps] asks; [err]: table_builder.rs 225-227. *)
Definition prettifier (env : senv) (err : option nat) : world :=
  World (se_text env) (se_hi env) err (place_visible env) (place_local env) (place_depth env).

(** table_builder.rs 225-227 [first_error_span_opt]; outer [None] is a panic. *)
Definition error_end (env : senv) (st : DiagState) (def_id : nat) : option (option nat) :=
  match get_span_of_first_error st def_id with
  | None => None
  | Some None => Some None
  | Some (Some s) => Some (option_map hi (se_local env s))
  end.

(** stepper/mod.rs 52-67 [PermissionsLineDisplay]: where it stands, the step that gives the two
    ranges of its table, and the rows. *)
Record shown := ShownLine {
  sl_pos : nat;
  sl_from : loc;
  sl_to : loc;
  sl_rows : list (list nat * DataDiff)
}.

Definition show (env : senv) (y : display) : shown :=
  ShownLine (y_pos y) (y_from y) (y_to y) (map (fun pd => (place_name env (fst pd), snd pd)) (y_rows y)).

(** Why there are no steps: the arms with a guard; internal errors; branches that were not closed. *)
Inductive answer := Refused (r : hresult) | Answered (ls : list shown).

(** stepper/mod.rs 341-363 [compute_permission_steps].  [value] is the body's expression, at whose
    opening brace the first table stands (table_builder.rs 48-60).  [order], [hash] and [lines] are the
    iteration orders of the hash maps. *)
Definition compute_permission_steps (env : senv) (st : DiagState) (def_id : nat) (value : expr) (m : mode)
    (order : tables -> tables)
    (hash : list (PlaceId * DataDiff) -> list (PlaceId * DataDiff))
    (lines : list (nat * list entry) -> list (nat * list entry)) : res answer :=
  bind (compute (se_hir env) value) (fun r =>
    match r with
    | HDone h =>
      match body_tables (table_builder env h) (h_st h) (Loc 0 0) (he_lo (se_hir env) (expr_id value)), error_end env st def_id with
      | Some ts, Some err => Val (Answered (map (show env) (prettify (prettifier env err) m hash lines (order ts))))
      | _, _ => Panic
      end
    | r => Val (Refused r)
    end).
