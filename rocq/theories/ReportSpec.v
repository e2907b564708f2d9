(** * The form of the permission analysis, as the page's TypeScript declares it

    The types that ts-rs generates from the Rust types of ReportModel.  The order of members, and so of the entries of a
    map, does not matter. *)
From Coq Require Import Ascii String.
From Coq Require Import List Arith ZArith.
From Verif Require Import Base PermsModel BookModel RunModel WireModel WireSpec ReportModel.
From Verif Require EditorModel FlowModel EmbedModel.
Import ListNotations.
Local Open Scope string_scope.
Local Open Scope list_scope.

(** A member that may be missing. *)
Definition May {A} (k : string) (j : json) (R : json -> A -> Prop) (o : option A) : Prop :=
  match o with Some a => exists x, Member k j x /\ R x a | None => exists l, j = JObj l /\ aget str_eqd l (lit k) = None end.
Definition BoolC (j : json) (b : bool) : Prop := j = JBool b.
(** A map from numbers: the members are those of the keys, in decimal. *)
Definition MapC {A} (R : json -> A -> Prop) (j : json) (m : list (nat * A)) : Prop := exists l, j = JObj l /\ NoDup (map fst m) /\
  (forall n a, In (n, a) m -> exists x, aget str_eqd l (EmbedModel.decimal n) = Some x /\ R x a) /\
  (forall k x, aget str_eqd l k = Some x -> exists n, k = EmbedModel.decimal n /\ In n (map fst m)).

Definition PermsC (j : json) (p : Permissions) : Prop :=
  Member "read" j (JBool (p_read p)) /\ Member "write" j (JBool (p_write p)) /\ Member "drop" j (JBool (p_drop p)).
Definition DataC (j : json) (d : PData) : Prop :=
  Member "type_droppable" j (JBool (type_droppable d)) /\ Member "type_writeable" j (JBool (type_writeable d)) /\
  Member "type_copyable" j (JBool (type_copyable d)) /\ Member "is_live" j (JBool (is_live d)) /\
  Member "path_uninitialized" j (JBool (path_uninitialized d)) /\
  May "path_moved" j NatC (path_moved d) /\ May "loan_read_refined" j NatC (loan_read_refined d) /\
  May "loan_write_refined" j NatC (loan_write_refined d) /\ May "loan_drop_refined" j NatC (loan_drop_refined d).
Definition EdgeC (j : json) (k : FlowModel.FlowEdgeKind) : Prop :=
  match k with
  | FlowModel.LocalOutlivesUniversal => j = JStr (lit "LocalOutlivesUniversal")
  | FlowModel.MissingUniversalConstraint => j = JStr (lit "MissingUniversalConstraint")
  | FlowModel.LocalInvalidatedAtExit => j = JStr (lit "LocalInvalidatedAtExit")
  | FlowModel.FlowOk => j = JStr (lit "Ok")
  end.
(** [j.k] is there and is [a]. *)
Definition Has {A} (k : string) (j : json) (R : json -> A -> Prop) (a : A) : Prop := exists x, Member k j x /\ R x a.
Definition FlowC (j : json) (f : wflow) : Prop :=
  Member "is_violation" j (JBool (f_violation f)) /\ Has "flow_context" j RangeC (f_context f) /\ Has "kind" j EdgeC (f_kind f).
Definition BoundC (j : json) (b : wbound) : Prop :=
  Has "location" j PosC (b_pos b) /\ Has "expected" j PermsC (b_exp b) /\ Has "actual" j PermsC (b_act b) /\
  Has "data" j DataC (b_data b) /\ May "expecting_flow" j FlowC (b_flow b).
Definition ChangeC {A} (R : json -> A -> Prop) (j : json) (s : ValueStep A) : Prop :=
  match s with
  | High v => Member "type" j (JStr (lit "High")) /\ Has "value" j R v
  | Low => Member "type" j (JStr (lit "Low"))
  | NoStep o => Member "type" j (JStr (lit "None")) /\ May "value" j R o
  end.
Definition PermsDiffC (j : json) (p : PermsDiff) : Prop :=
  Has "read" j (ChangeC BoolC) (pd_read p) /\ Has "write" j (ChangeC BoolC) (pd_write p) /\ Has "drop" j (ChangeC BoolC) (pd_drop p).
Definition DiffC (j : json) (d : DataDiff) : Prop :=
  Has "is_live" j (ChangeC BoolC) (dd_is_live d) /\ Has "type_droppable" j (ChangeC BoolC) (dd_type_droppable d) /\
  Has "type_writeable" j (ChangeC BoolC) (dd_type_writeable d) /\ Has "path_moved" j (ChangeC NatC) (dd_path_moved d) /\
  Has "path_uninitialized" j (ChangeC BoolC) (dd_path_uninitialized d) /\ Has "loan_read_refined" j (ChangeC NatC) (dd_loan_read d) /\
  Has "loan_write_refined" j (ChangeC NatC) (dd_loan_write d) /\ Has "loan_drop_refined" j (ChangeC NatC) (dd_loan_drop d) /\
  Has "permissions" j PermsDiffC (dd_permissions d).
Definition RowC (j : json) (r : string * DataDiff) : Prop := exists x, j = JArr [JStr (lit (fst r)); x] /\ DiffC x (snd r).
Definition TableC (j : json) (t : wtable) : Prop :=
  Has "from" j RangeC (t_from t) /\ Has "to" j RangeC (t_to t) /\ Has "state" j (Items RowC) (t_rows t).
Definition LineC (j : json) (l : wline) : Prop := Has "location" j RangeC (l_loc l) /\ Has "state" j (Items TableC) (l_tables l).
(** Refiner.ts: [{ "Loan": number } | { "Move": number }], one of the two. *)
Definition RefinerC (j : json) (r : refiner) : Prop :=
  match r with
  | ByLoan k => Member "Loan" j (JNum k) /\ ~ exists x, Member "Move" j x
  | ByMove k => Member "Move" j (JNum k) /\ ~ exists x, Member "Loan" j x
  end.
Definition RegionC (j : json) (r : wregion) : Prop := Has "refiner_point" j RefinerC (r_by r) /\ Has "refined_ranges" j (Items RangeC) (r_ranges r).
Definition ReportC (j : json) (o : report) : Prop :=
  Has "body_range" j RangeC (o_body o) /\ Has "boundaries" j (Items BoundC) (o_bounds o) /\ Has "steps" j (Items LineC) (o_lines o) /\
  Has "loan_points" j (MapC RangeC) (o_lpoints o) /\ Has "loan_regions" j (MapC RegionC) (o_lregions o) /\
  Has "move_points" j (MapC RangeC) (o_mpoints o) /\ Has "move_regions" j (MapC RegionC) (o_mregions o).
Definition FailureC (j : json) (e : failure) : Prop :=
  match e with
  | BuildError r => Member "type" j (JStr (lit "BuildError")) /\ Has "range" j (Opt RangeC) r
  | AnalysisError m => Member "type" j (JStr (lit "AnalysisError")) /\ Member "msg" j (JStr (lit m))
  end.
(** [{ Ok: .. } | { Err: .. }] (lib.tsx 42). *)
Definition OutcomeC (j : json) (r : result) : Prop :=
  match r with
  | inl o => Has "Ok" j ReportC o /\ ~ exists x, Member "Err" j x
  | inr e => Has "Err" j FailureC e /\ ~ exists x, Member "Ok" j x
  end.

(** ** The same output, but for the order of the maps *)
Definition SameMap {A} (m m' : list (nat * A)) : Prop := forall e, In e m <-> In e m'.
Definition SameReport (o o' : report) : Prop :=
  o_body o = o_body o' /\ o_bounds o = o_bounds o' /\ o_lines o = o_lines o' /\
  SameMap (o_lpoints o) (o_lpoints o') /\ SameMap (o_lregions o) (o_lregions o') /\
  SameMap (o_mpoints o) (o_mpoints o') /\ SameMap (o_mregions o) (o_mregions o').
Definition SameResult (r r' : result) : Prop :=
  match r, r' with inl o, inl o' => SameReport o o' | inr e, inr e' => e = e' | _, _ => False end.

(** ** Outputs that the analysis has: maps have a key once, keys of maps are below 2^32 - 1, and no number is as large as 2^53. *)
Definition SizeChange (s : ValueStep nat) : Prop := match s with High v => Size v | Low => True | NoStep o => SizeOpt o end.
Definition SizeData (d : PData) : Prop :=
  SizeOpt (path_moved d) /\ SizeOpt (loan_read_refined d) /\ SizeOpt (loan_write_refined d) /\ SizeOpt (loan_drop_refined d).
Definition SizeDiff (d : DataDiff) : Prop :=
  SizeChange (dd_path_moved d) /\ SizeChange (dd_loan_read d) /\ SizeChange (dd_loan_write d) /\ SizeChange (dd_loan_drop d).
Definition SizeBound (b : wbound) : Prop :=
  Size (fst (b_pos b)) /\ Size (snd (b_pos b)) /\ SizeData (b_data b) /\ forall f, b_flow b = Some f -> SizeRange (f_context f).
Definition SizeTable (t : wtable) : Prop := SizeRange (t_from t) /\ SizeRange (t_to t) /\ Forall (fun r => SizeDiff (snd r)) (t_rows t).
Definition SizeLine (l : wline) : Prop := SizeRange (l_loc l) /\ Forall SizeTable (l_tables l).
Definition SizeRegion (r : wregion) : Prop := match r_by r with ByLoan k | ByMove k => Size k end /\ Forall SizeRange (r_ranges r).
Definition SizeMap {A} (P : A -> Prop) (m : list (nat * A)) : Prop := NoDup (map fst m) /\ Forall (fun e => (Z.of_nat (fst e) < 2 ^ 32 - 1)%Z /\ P (snd e)) m.
Definition RealReport (o : report) : Prop :=
  SizeRange (o_body o) /\ Forall SizeBound (o_bounds o) /\ Forall SizeLine (o_lines o) /\
  SizeMap SizeRange (o_lpoints o) /\ SizeMap SizeRegion (o_lregions o) /\ SizeMap SizeRange (o_mpoints o) /\ SizeMap SizeRegion (o_mregions o).
Definition RealResult (r : result) : Prop :=
  match r with inl o => RealReport o | inr (BuildError (Some x)) => SizeRange x | inr _ => True end.

(** ** What the page makes of the loans and moves *)
Definition range_of (r : wrange) : EditorModel.crange :=
  let '((l, c), (l', c'), _) := r in EditorModel.CRange (EditorModel.Pos l c) (EditorModel.Pos l' c').
(** The keys ascend. *)
Fixpoint Ascending (l : list nat) : Prop := match l with a :: r => (forall b, In b r -> a < b) /\ Ascending r | [] => True end.
(** [m'] is the map [m] in the order of its keys, with the values under [f]. *)
Definition InOrder {A B} (f : A -> B) (m : list (nat * A)) (m' : list (nat * B)) : Prop :=
  Ascending (map fst m') /\ forall k b, In (k, b) m' <-> exists a, In (k, a) m /\ b = f a.
