(** * What a displayed step says about the function

    In terms of the syntax of the function and its steps and decisions (HirSpec.v), its executions
    (CfgSpec.v, SegMirSpec.v), the program facts (FactsSpec.v) and the reported errors (SpansSpec.v). *)
From Coq Require Import List Arith Bool.
From Verif Require Import Base PermsModel FactsModel FactsSpec SpansModel SpansSpec CfgModel CfgSpec
  SegMirModel SegMirSpec HirModel HirSpec TablesModel TablesSpec StepsModel.
Import ListNotations.

(** ** The state of a place *)

(** Everything a table tells about place [x] at point [p]. *)
Definition StateOf (inp : Inp) (x : Place) (p : Point) (u : PData) : Prop :=
  (is_live u = true <-> VarLive inp x p) /\
  match path_moved u with
  | Some m => MoveAffects inp m x /\ MoveReaches inp m p /\
              forall m', MoveAffects inp m' x -> MoveReaches inp m' p -> m' <= m
  | None => forall m, MoveAffects inp m x -> ~ MoveReaches inp m p
  end /\
  (path_uninitialized u = true <-> MaybeUninit inp x p) /\
  names_loan inp (fun l => in_loan_mut inp l = true) (loan_read_refined u) x p /\
  names_loan inp (fun _ => True) (loan_write_refined u) x p /\
  names_loan inp (fun _ => True) (loan_drop_refined u) x p /\
  (type_writeable u = true <-> DeclaredWriteable inp (in_normalize inp x)) /\
  (type_droppable u = true <-> DeclaredOwnable inp (in_normalize inp x)).

(** The permissions of a place: those of a live variable. *)
Definition LettersAt (inp : Inp) (x : Place) (p : Point) (a : Permissions) : Prop :=
  (p_read a = true <-> VarLive inp x p /\ PlaceReadable inp x p) /\
  (p_write a = true <->
     VarLive inp x p /\ LoanFree inp x p /\ PlaceReadable inp x p /\ DeclaredWriteable inp (in_normalize inp x)) /\
  (p_drop a = true <->
     VarLive inp x p /\ LoanFree inp x p /\ PlaceReadable inp x p /\ DeclaredOwnable inp (in_normalize inp x)).

(** Before the function begins there is nothing. *)
Definition NothingYet (u : PData) (a : Permissions) : Prop :=
  is_live u = false /\ path_moved u = None /\ path_uninitialized u = false /\ loan_read_refined u = None /\
  loan_write_refined u = None /\ loan_drop_refined u = None /\ type_writeable u = false /\ type_droppable u = false /\
  p_read a = false /\ p_write a = false /\ p_drop a = false.

(** ** How it changes *)

Definition Turns (s : ValueStep bool) (before after : bool) : Prop :=
  match s with
  | High v => before = false /\ after = true /\ v = true
  | Low => before = true /\ after = false
  | NoStep v => before = after /\ v = Some before
  end.
Definition TurnsKey (s : ValueStep nat) (before after : option nat) : Prop :=
  match s with
  | High v => before = None /\ after = Some v
  | Low => before <> None /\ after = None
  | NoStep v => (before = None <-> after = None) /\ v = after
  end.

(** The row [d] of [x] for a step from [from] (the beginning, if it is none) to [to]. *)
Definition RowSays (inp : Inp) (x : Place) (from : option Point) (to : Point) (d : DataDiff) : Prop :=
  exists u a v b,
    match from with Some p => StateOf inp x p u /\ LettersAt inp x p a | None => NothingYet u a end /\
    StateOf inp x to v /\ LettersAt inp x to b /\
    Turns (dd_is_live d) (is_live u) (is_live v) /\
    Turns (dd_type_droppable d) (type_droppable u) (type_droppable v) /\
    Turns (dd_type_writeable d) (type_writeable u) (type_writeable v) /\
    TurnsKey (dd_path_moved d) (path_moved u) (path_moved v) /\
    Turns (dd_path_uninitialized d) (path_uninitialized u) (path_uninitialized v) /\
    TurnsKey (dd_loan_read d) (loan_read_refined u) (loan_read_refined v) /\
    TurnsKey (dd_loan_write d) (loan_write_refined u) (loan_write_refined v) /\
    TurnsKey (dd_loan_drop d) (loan_drop_refined u) (loan_drop_refined v) /\
    Turns (pd_read (dd_permissions d)) (p_read a) (p_read b) /\
    Turns (pd_write (dd_permissions d)) (p_write a) (p_write b) /\
    Turns (pd_drop (dd_permissions d)) (p_drop a) (p_drop b).

(** ** Where it comes from *)

(** The steps in which a row of [x] may originate: from where (from before the function, if none),
    to where, and over which piece of source. *)
Inductive Origin (env : senv) (value : expr) (x : Place) : option loc -> loc -> nat -> Prop :=
(** The opening brace. *)
| origin_opening : Origin env value x None (Loc 0 0) (he_lo (se_hir env) (expr_id value))
(** A step of the source: after a condition, a statement, the result of a block or body, or at the
    beginning of an arm.  It leads to that place or to a join before it.  Control that is at its start
    and returns passes its end, and whoever reaches its end has passed its start; or it leads back.
    Variables whose [let] is being evaluated around it are not shown. *)
| origin_step a b span pl w :
    In (pl, span, w) (steps_body (se_hir env) value) ->
    ReachableLoc (he_body (se_hir env)) b -> AlwaysBefore (he_body (se_hir env)) b pl ->
    SoundStep (he_body (se_hir env)) a b \/ BackStep (he_body (se_hir env)) a b ->
    ~ In (local x) (w_out w) ->
    Origin env value x (Some a) b span
(** A step into a side of a decision: control is forced from its start to the switch, and goes on
    to the target [n].  It leads to the last side that is only entered through [n], over its piece of
    source, or to [n], over the default piece of the decision. *)
| origin_side a b span sw n sides default pl span' w :
    In (sides, default) (decisions_expr (se_hir env) value) ->
    (exists q, walk (ForcedStep (he_body (se_hir env))) (l_block a) q sw) -> Jump (he_body (se_hir env)) sw n ->
    (AlwaysBefore (he_body (se_hir env)) (Loc n 0) b /\ In (b, span) sides) \/
    ((forall side, In side sides -> ~ AlwaysBefore (he_body (se_hir env)) (Loc n 0) (fst side)) /\ b = Loc n 0 /\ span = default) ->
    ReachableLoc (he_body (se_hir env)) a -> (exists q, walk (LocStep (he_body (se_hir env))) a q b) ->
    In (pl, span', w) (steps_body (se_hir env) value) -> AlwaysBefore (he_body (se_hir env)) a pl ->
    ~ In (local x) (w_out w) ->
    Origin env value x (Some a) b span
(** A decision as a whole, from its switch to its join, for the variables of the [let] that it
    initialises. *)
| origin_whole from sw j pl span' w :
    In (pl, span', w) (steps_body (se_hir env) value) -> In (local x) (w_own w) ->
    ReachableLoc (he_body (se_hir env)) from -> AlwaysBefore (he_body (se_hir env)) from pl ->
    (exists q, walk (ForcedStep (he_body (se_hir env))) (l_block from) q (l_block sw)) ->
    (j = sw \/ exists k, j = Loc k 0 /\ Join (he_body (se_hir env)) (l_block sw) k) ->
    Origin env value x (Some sw) j (se_reach env sw j).

(** ** Where it stands *)

(** The name of a place, ["<var>"] if it has none. *)
Definition Named (env : senv) (x : Place) (name : list nat) : Prop :=
  se_name env x = Some name \/ (se_name env x = None /\ name = [60; 118; 97; 114; 62]).

(** The end of the line is not behind the first error. *)
Definition BeforeError (env : senv) (post : list DiagOp) (pos : nat) : Prop :=
  forall s s', FirstError post s -> se_local env s = Some s' -> pos <= hi s'.

(** A letter is gained or lost. *)
Definition Gained (s : ValueStep bool) : Prop := s = High true.
Definition Lost (s : ValueStep bool) : Prop := s = Low.
Definition LetterTurns (d : DataDiff) : Prop :=
  exists s, (s = pd_read (dd_permissions d) \/ s = pd_write (dd_permissions d) \/ s = pd_drop (dd_permissions d)) /\
    (Gained s \/ Lost s).

(** [x]'s variable is live where the step begins or where it ends. *)
Definition LiveAtAll (env : senv) (x : Place) (from : option loc) (to : loc) : Prop :=
  (exists l, from = Some l /\ VarLive (se_inp env) x (se_point env l)) \/ VarLive (se_inp env) x (se_point env to).

(** A row on the line that ends at [pos] is due to a step. *)
Definition RowOf (env : senv) (value : expr) (m : mode) (pos : nat) (x : Place) (d : DataDiff)
    (from : option loc) (to : loc) (span : nat) : Prop :=
  In x (in_places (se_inp env)) /\ se_visible env x = true /\
  Origin env value x from to span /\ LineEnd (se_text env) (se_hi env span) pos /\
  RowSays (se_inp env) x (option_map (se_point env) from) (se_point env to) d /\
  LiveAtAll env x from to /\ (m = Changes -> LetterTurns d).

(** A recorded step (of the opening brace, a segment or a branch) changes [x] by [d]. *)
Definition Candidate (env : senv) (value : expr) (h : hst) (x : Place) (d : DataDiff) (span : nat) : Prop :=
  exists i l t p, In i (all_items (h_st h)) /\ Ends (h_st h) (Loc 0 0) i l /\
    TableOf (table_builder env h) (h_st h) (Loc 0 0) (he_lo (se_hir env) (expr_id value)) i t /\
    the_place env p = Some x /\ In (p, d) (t_data t) /\ t_span t = span.

(** A row that is worth showing: the variable is not dead all along, and in the mode for changes a letter turns. *)
Definition Worth (m : mode) (d : DataDiff) : Prop :=
  dd_is_live d <> NoStep (Some false) /\ (m = Changes -> LetterTurns d).

(** Rows are sorted by variable, then by the length of their paths. *)
Definition PlaceLe (x y : Place) : Prop :=
  local x < local y \/ (local x = local y /\ length (projection x) <= length (projection y)).

(** What compute is asked under: the facts of the function have been derived, rustc's guarantees for
    bodies, every node's location can be executed, and hash maps are iterated in some order. *)
Record Asked (env : senv) : Prop := mkAsked {
  asked_facts : derive_permission_facts (se_inp env) = Some (se_out env);
  asked_body : WfBody (he_body (se_hir env));
  asked_returns : ReturnsNormal (he_body (se_hir env));
  asked_return : exists r, ReturnLoc (he_body (se_hir env)) r;
  asked_order : Order (he_ord (se_hir env));
  asked_nodes : Executable (se_hir env);
  asked_entries : forall m e, In e (he_entries (se_hir env) m) <-> In e m;
  asked_spans : forall s, se_hi env s <= length (se_text env)
}.
