(** * Model of the permission analysis as JSON, and of what the page first does with it

    Sources: crates/aquascope/src/analysis/mod.rs 46-74, 237-270 [AnalysisOutput] and what it contains:
    permissions/mod.rs 69-168, permissions/flow.rs 106-124, stepper/mod.rs 53-67, 93-105, 138-174,
    boundaries/mod.rs 211-233, whose types derive [serde::Serialize]; crates/aquascope_front/src/plugin.rs 116-125, which
    prints the list of the results; M = frontend/packages/aquascope-editor/src/editor-utils/misc.tsx. *)
From Coq Require Import Ascii String.
From Coq Require Import List Arith ZArith Bool.
From Verif Require Import Base PermsModel BookModel RunModel WireModel.
From Verif Require EditorModel FlowModel EmbedModel JsonModel.
Import ListNotations.
Local Open Scope string_scope.
Local Open Scope list_scope.

(** ** The output *)

(** boundaries/mod.rs 213-233 [FlowBoundary] and [PermissionsBoundary]; [byte_location] is not written. *)
Record wflow := WFlow { f_violation : bool; f_context : wrange; f_kind : FlowModel.FlowEdgeKind }.
Record wbound := WBound { b_pos : nat * nat; b_exp : Permissions; b_act : Permissions; b_data : PData; b_flow : option wflow }.
(** stepper/mod.rs 55-67 *)
Record wtable := WTable { t_from : wrange; t_to : wrange; t_rows : list (string * DataDiff) }.
Record wline := WLine { l_loc : wrange; l_tables : list wtable }.
(** permissions/mod.rs 155-168 [Refiner] and [RefinementRegion] *)
Inductive refiner := ByLoan (k : nat) | ByMove (k : nat).
Record wregion := WRegion { r_by : refiner; r_ranges : list wrange }.
(** mod.rs 261-269; the hash maps in the order in which they are printed. *)
Record report := Report {
  o_body : wrange; o_bounds : list wbound; o_lines : list wline;
  o_lpoints : list (nat * wrange); o_lregions : list (nat * wregion);
  o_mpoints : list (nat * wrange); o_mregions : list (nat * wregion) }.
(** mod.rs 237-246 [AquascopeError], [AquascopeResult] *)
Inductive failure := BuildError (r : option wrange) | AnalysisError (msg : string).
Definition result := (report + failure)%type.

(** ** Its JSON *)

Definition jobj (l : list (string * json)) : json := JObj (map (fun f => (lit (fst f), snd f)) l).
(** [skip_serializing_if = "Option::is_none"] *)
Definition jmay {A} (k : string) (f : A -> json) (o : option A) : list (string * json) :=
  match o with Some a => [(k, f a)] | None => [] end.
(** A map with keys of numbers: serde_json writes them as strings. *)
Definition jmap {A} (f : A -> json) (m : list (nat * A)) : json := JObj (map (fun e => (EmbedModel.decimal (fst e), f (snd e))) m).

Definition jperms (p : Permissions) : json := jobj [("read", JBool (p_read p)); ("write", JBool (p_write p)); ("drop", JBool (p_drop p))].
Definition jdata (d : PData) : json :=
  jobj ([("type_droppable", JBool (type_droppable d)); ("type_writeable", JBool (type_writeable d));
         ("type_copyable", JBool (type_copyable d)); ("is_live", JBool (is_live d)); ("path_uninitialized", JBool (path_uninitialized d))]
        ++ jmay "path_moved" JNum (path_moved d) ++ jmay "loan_read_refined" JNum (loan_read_refined d)
        ++ jmay "loan_write_refined" JNum (loan_write_refined d) ++ jmay "loan_drop_refined" JNum (loan_drop_refined d)).
(** flow.rs 108-124: variants without content, a string. *)
Definition jedge (k : FlowModel.FlowEdgeKind) : json :=
  jtext match k with
        | FlowModel.LocalOutlivesUniversal => "LocalOutlivesUniversal"
        | FlowModel.MissingUniversalConstraint => "MissingUniversalConstraint"
        | FlowModel.LocalInvalidatedAtExit => "LocalInvalidatedAtExit"
        | FlowModel.FlowOk => "Ok"
        end.
Definition jflow (f : wflow) : json :=
  jobj [("is_violation", JBool (f_violation f)); ("flow_context", jrange (f_context f)); ("kind", jedge (f_kind f))].
Definition jbound (b : wbound) : json :=
  jobj ([("location", jpos (b_pos b)); ("expected", jperms (b_exp b)); ("actual", jperms (b_act b)); ("data", jdata (b_data b))]
        ++ jmay "expecting_flow" jflow (b_flow b)).
(** stepper/mod.rs 94: the tag is a member among the others. *)
Definition jchange {A} (f : A -> json) (s : ValueStep A) : json :=
  match s with
  | High v => jobj [("type", jtext "High"); ("value", f v)]
  | Low => jobj [("type", jtext "Low")]
  | NoStep o => jobj (("type", jtext "None") :: jmay "value" f o)
  end.
Definition jdiff (d : DataDiff) : json :=
  jobj [("is_live", jchange JBool (dd_is_live d)); ("type_droppable", jchange JBool (dd_type_droppable d));
        ("type_writeable", jchange JBool (dd_type_writeable d)); ("path_moved", jchange JNum (dd_path_moved d));
        ("path_uninitialized", jchange JBool (dd_path_uninitialized d)); ("loan_read_refined", jchange JNum (dd_loan_read d));
        ("loan_write_refined", jchange JNum (dd_loan_write d)); ("loan_drop_refined", jchange JNum (dd_loan_drop d));
        ("permissions", jobj [("read", jchange JBool (pd_read (dd_permissions d))); ("write", jchange JBool (pd_write (dd_permissions d)));
                              ("drop", jchange JBool (pd_drop (dd_permissions d)))])].
Definition jrow (r : string * DataDiff) : json := JArr [jtext (fst r); jdiff (snd r)].
Definition jtable (t : wtable) : json := jobj [("from", jrange (t_from t)); ("to", jrange (t_to t)); ("state", JArr (map jrow (t_rows t)))].
Definition jline (l : wline) : json := jobj [("location", jrange (l_loc l)); ("state", JArr (map jtable (l_tables l)))].
(** permissions/mod.rs 157: a variant with content, an object with one member. *)
Definition jrefiner (r : refiner) : json := match r with ByLoan k => jobj [("Loan", JNum k)] | ByMove k => jobj [("Move", JNum k)] end.
Definition jregion (r : wregion) : json := jobj [("refiner_point", jrefiner (r_by r)); ("refined_ranges", JArr (map jrange (r_ranges r)))].
Definition jreport (o : report) : json :=
  jobj [("body_range", jrange (o_body o)); ("boundaries", JArr (map jbound (o_bounds o))); ("steps", JArr (map jline (o_lines o)));
        ("loan_points", jmap jrange (o_lpoints o)); ("loan_regions", jmap jregion (o_lregions o));
        ("move_points", jmap jrange (o_mpoints o)); ("move_regions", jmap jregion (o_mregions o))].
Definition jfailure (e : failure) : json :=
  match e with
  | BuildError r => jobj [("type", jtext "BuildError"); ("range", jopt jrange r)]
  | AnalysisError m => jobj [("type", jtext "AnalysisError"); ("msg", jtext m)]
  end.
Definition jresult1 (r : result) : json := match r with inl o => jobj [("Ok", jreport o)] | inr e => jobj [("Err", jfailure e)] end.
(** plugin.rs 125, 156-159 *)
Definition reports (l : list result) : json := JArr (map jresult1 l).

(** ** On the page *)

(** A key that JavaScript takes for an index: in decimal, below 2^32 - 1. *)
Definition index (k : str) : option nat :=
  match JsonModel.key_number k with Some n => if (Z.of_nat n <? 4294967295)%Z then Some n else None | None => None end.
(** JavaScript's [for (k in o)] (ECMA-262, OrdinaryOwnPropertyKeys): first the indices, ascending, then the others as they
    were made. *)
Fixpoint insert_key (x : nat * str) (l : list (nat * str)) : list (nat * str) :=
  match l with
  | [] => [x]
  | y :: r => if Nat.leb (fst x) (fst y) then x :: l else y :: insert_key x r
  end.
Definition for_in (l : list (str * json)) : list str :=
  map snd (fold_right insert_key [] (flat_map (fun e => match index (fst e) with Some n => [(n, fst e)] | None => [] end) l))
  ++ flat_map (fun e => match index (fst e) with Some _ => [] | None => [fst e] end) l.

(** [o.k], [None] if it is undefined or throws. *)
Definition dot (k : string) (j : json) : option json := match j with JObj l => aget str_eqd l (lit k) | _ => None end.
Definition obind {A B} (o : option A) (f : A -> option B) : option B := match o with Some a => f a | None => None end.
Definition get_num (o : option json) : option nat := match o with Some (JNum n) => Some n | _ => None end.
Definition get_pos (j : json) : option EditorModel.pos :=
  obind (get_num (dot "line" j)) (fun l => option_map (EditorModel.Pos l) (get_num (dot "column" j))).
Definition get_range (j : json) : option EditorModel.crange :=
  obind (obind (dot "start" j) get_pos) (fun a => option_map (EditorModel.CRange a) (obind (dot "end" j) get_pos)).
Fixpoint all {A B} (f : A -> option B) (l : list A) : option (list B) :=
  match l with [] => Some [] | a :: r => obind (f a) (fun b => option_map (cons b) (all f r)) end.

(** M 166-180 and 182-196, the loop for loans and the one for moves: of each key the point, which may be undefined, and
    the ranges that loanFactsToDecoration (128-154) takes of the region. *)
Definition loop (points regions : json) : option (list EditorModel.action) :=
  match points, regions with
  | JObj ps, JObj rs =>
    all (fun k =>
      obind (match aget str_eqd ps k with Some p => option_map Some (get_range p) | None => Some None end) (fun p =>
      obind (obind (aget str_eqd rs k) (dot "refined_ranges")) (fun a =>
      match a with JArr l => option_map (pair p) (all get_range l) | _ => None end))) (for_in rs)
  | _, _ => None
  end.
(** M 156-206 [generateAnalysisDecorationFacts] *)
Definition page_actions (o : json) : option (list EditorModel.action) :=
  obind (dot "loan_points" o) (fun lp => obind (dot "loan_regions" o) (fun lr =>
  obind (dot "move_points" o) (fun mp => obind (dot "move_regions" o) (fun mr =>
  obind (loop lp lr) (fun a => option_map (List.app a) (loop mp mr)))))).
