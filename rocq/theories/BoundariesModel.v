(** Model of the boundary analysis
    (crates/aquascope/src/analysis/boundaries/mod.rs and path_visitor.rs)
    and of how the frontend draws a boundary
    (frontend/packages/aquascope-editor/src/editor-utils/boundaries.tsx). *)

From Coq Require Import List Arith Bool Lia.
From Verif Require Import Base PermsModel FactsModel FlowModel SpansModel.
Import ListNotations.

Definition HirId := nat.

(** ** Expected permissions *)

(** boundaries/mod.rs:256-262 [from_assignment] *)
Definition from_assignment : Permissions := mkP true true false.
(** mod.rs:264-270 [from_borrow]; the argument tells whether the borrow is [Mut]. *)
Definition from_borrow (m : bool) : Permissions := mkP true m false.
(** mod.rs:272-278 [from_reborrow] *)
Definition from_reborrow (m : bool) : Permissions := mkP true m false.
(** mod.rs:280-286 [from_move] *)
Definition from_move : Permissions := mkP true false true.
(** mod.rs:288-294 [from_copy] *)
Definition from_copy : Permissions := mkP true false false.
(** mod.rs:296-302 [from_discriminant] *)
Definition from_discriminant : Permissions := mkP true false false.

(** ** Boundaries *)

(** mod.rs:213-219 [FlowBoundary]; the context range is kept as a range. *)
Record FlowBoundary := mkFB { fb_violation : bool; fb_context : Range; fb_kind : FlowEdgeKind }.

(** mod.rs:224-233 [PermissionsBoundary]: the position in characters and in bytes. *)
Record Boundary := mkB {
  b_location : nat;
  b_byte : nat;
  b_expected : Permissions;
  b_actual : Permissions;
  b_flow : option FlowBoundary
}.

(** mod.rs:236-247 [is_violation] *)
Definition is_violation (b : Boundary) : bool :=
  let missing (get : Permissions -> bool) := get (b_expected b) && negb (get (b_actual b)) in
  missing p_read || missing p_write || missing p_drop.

(** boundaries.tsx:64-116: the drawn letters, with "has it".  R, W, O and F. *)
Inductive Letter := LR | LW | LO | LF.
Definition icons (b : Boundary) : list (Letter * bool) :=
  let all := [ (LR, p_read (b_expected b), p_read (b_actual b));
               (LW, p_write (b_expected b), p_write (b_actual b));
               (LO, p_drop (b_expected b), p_drop (b_actual b));
               (LF, is_some (b_flow b),
                negb (match b_flow b with Some f => fb_violation f | None => false end)) ] in
  map (fun x => (fst (fst x), snd x)) (filter (fun x => snd (fst x)) all).

(** ** Choosing the MIR place *)

Definition Candidate : Type := nat * Place.        (* location, place *)

(** [Iterator::max_by_key]: the last of the maximal elements. *)
Fixpoint max_by_key {A} (key : A -> nat) (l : list A) : option A :=
  match l with
  | [] => None
  | x :: r => match max_by_key key r with
              | None => Some x
              | Some y => if key x <=? key y then Some y else Some x
              end
  end.

(** mod.rs:383-433 [select_candidate_location]; [similar] is the base local of
    the answer of the external [fuzzy_match] (354-382), if any. *)
Definition select_candidate_location (similar : option nat) (cands : list Candidate)
  : option Candidate :=
  if length cands <=? 1 then hd_error cands
  else match similar with
       | Some l => find (fun c => local (snd c) =? l) cands
       | None =>
           match cands with
           | [] => None
           | first :: _ =>
               let matching := filter (fun c => local (snd c) =? local (snd first)) cands in
               max_by_key (fun c => length (projection (snd c))) (rev matching)
           end
       end.

(** ** Candidate places (mod.rs:576-708 [paths_at_hir_id])

    A MIR statement with the places it mentions.  An operand without a place (a
    constant) is [None].  Simplification: rvalue kinds that the code treats in
    the same way share a constructor. *)
Inductive Rvalue :=
| RvOperands (ops : list (option Place))  (* Use, Repeat, Cast, UnaryOp, ShallowInitBox,
                                             BinaryOp, Aggregate *)
| RvPlace (p : Place)                     (* Ref, Len, Discriminant, CopyForDeref, RawPtr *)
| RvNone.                                 (* ThreadLocalRef, NullaryOp *)

Inductive StmtKind :=
| SkAssign (lhs : Place) (rv : Rvalue)
| SkSetDiscriminant (p : Place)
| SkFakeRead (p : Place)
| SkOther                                 (* the remaining kinds of lines 668-690 *)
| SkTerminator.

(** mod.rs:586-595 [maybe_in_op] *)
Definition maybe_in_op (vis : Place -> bool) (loc : nat) (op : option Place) : list Candidate :=
  match op with
  | Some p => if vis p then [(loc, p)] else []
  | None => []
  end.

(** mod.rs:607-651 [look_in_rvalue] *)
Definition look_in_rvalue (vis : Place -> bool) (loc : nat) (rv : Rvalue) : list Candidate :=
  match rv with
  | RvOperands ops => flat_map (maybe_in_op vis loc) ops
  | RvPlace p => if vis p then [(loc, p)] else []
  | RvNone => []
  end.

(** mod.rs:653-691 [look_in_statement] *)
Definition look_in_statement (vis : Place -> bool) (is_lhs : bool) (loc : nat) (s : StmtKind)
  : list Candidate :=
  match s with
  | SkAssign lhs rv =>
      if is_lhs && vis lhs then [(loc, lhs)]
      else if negb is_lhs then look_in_rvalue vis loc rv
      else []
  | SkSetDiscriminant p => if vis p then [(loc, p)] else []
  | SkFakeRead p => if vis p then [(loc, p)] else []
  | SkOther => []
  | SkTerminator => []
  end.

(** mod.rs:576-708 [paths_at_hir_id]; [locs] is the answer of [get_mir_locations]. *)
Definition paths_at_hir_id (vis : Place -> bool) (stmt_at : nat -> StmtKind)
    (locs : option (list nat)) (is_lhs : bool) : option (list Candidate) :=
  match locs with
  | None => None
  | Some ls => Some (flat_map (fun loc => look_in_statement vis is_lhs loc (stmt_at loc)) ls)
  end.

(** mod.rs:724-755: search at the node, then at its ancestors, innermost first. *)
Definition search_at (vis : Place -> bool) (stmt_at : nat -> StmtKind)
    (locs : HirId -> option (list nat)) (similar : HirId -> option nat) (is_lhs : bool)
    (h : HirId) : option Candidate :=
  match paths_at_hir_id vis stmt_at (locs h) is_lhs with
  | None => None
  | Some cands => select_candidate_location (similar h) cands
  end.

Fixpoint find_map {A B} (f : A -> option B) (l : list A) : option B :=
  match l with
  | [] => None
  | x :: r => match f x with Some y => Some y | None => find_map f r end
  end.

Definition resolve vis stmt_at locs similar is_lhs (h : HirId) (parents : list HirId)
  : option Candidate :=
  match search_at vis stmt_at locs similar is_lhs h with
  | Some c => Some c
  | None => find_map (search_at vis stmt_at locs similar is_lhs) parents
  end.

(** ** Flow boundaries *)

Definition Constraint : Type := Origin * Origin * nat.   (* from, to, point *)

(** context.rs:165-171 [is_universal_subset] *)
Definition is_universal_subset (placeholders : list Origin) (f t : Origin) : bool :=
  existsb (fun p => (p =? f) || (p =? t)) placeholders.

(** mod.rs:436-462 [flow_constraints_at_hir_id]; [locs] as the points of each
    location in turn. *)
Definition flow_constraints_at (placeholders : list Origin) (subset_base : list Constraint)
    (locs : option (list (list nat))) : option (list Constraint) :=
  match locs with
  | None => None
  | Some lps =>
      Some (flat_map (fun ps =>
        filter (fun c => let '(f, t, p) := c in
                  negb (is_universal_subset placeholders f t) && memb Nat.eq_dec p ps)
               subset_base) lps)
  end.

Definition is_valid_flow (k : FlowEdgeKind) : bool := match k with FlowOk => true | _ => false end.

(** flow.rs:166-168 on an origin; [None] is the index panic. *)
Definition origin_is_abstract (rf : RegionFlows) (o : Origin) : option bool :=
  match scc (rf_graph rf) o with
  | Some s => Some (is_abstract_member rf s)
  | None => None
  end.

(** mod.rs:489-493 [has_abstract_on_rhs]: short-circuiting. *)
Fixpoint has_abstract_on_rhs (rf : RegionFlows) (cs : list Constraint) : option bool :=
  match cs with
  | [] => Some false
  | (_, t, _) :: r =>
      match origin_is_abstract rf t with
      | None => None
      | Some true => Some true
      | Some false => has_abstract_on_rhs rf r
      end
  end.

(** mod.rs:527-558: the first violation, or [FlowOk]. *)
Fixpoint first_violation (rf : RegionFlows) (specific : list Constraint) (cs : list Constraint)
  : option FlowEdgeKind :=
  match cs with
  | [] => Some FlowOk
  | (from, to, _) :: r =>
      match flow_kind rf from to with
      | None => None
      | Some fk =>
          match origin_is_abstract rf to with
          | None => None
          | Some ab =>
              if ab && negb (is_valid_flow fk)
                 && existsb (fun c => (snd (fst c) =? from) || (snd (fst c) =? to)) specific
              then Some fk
              else first_violation rf specific r
          end
      end
  end.

(** mod.rs:466-571 [get_flow_permission]; outer [None] is a panic.  [ctx] and
    [spec] are the constraints of the context and of the node, [range] the
    displayed range of the context. *)
Definition get_flow_permission (enabled : bool) (rf : RegionFlows)
    (ctx spec : option (list Constraint)) (range : Range) : option (option FlowBoundary) :=
  if negb enabled then Some None
  else match ctx with
  | None => Some None
  | Some cs =>
      match has_abstract_on_rhs rf cs with
      | None => None
      | Some false => Some None
      | Some true =>
          match spec with
          | None => Some None
          | Some ss =>
              match first_violation rf ss cs with
              | None => None
              | Some k => Some (Some (mkFB (negb (is_valid_flow k)) range k))
              end
          end
      end
  end.

(** ** The whole analysis *)

(** mod.rs:796-826 [compute_permission_boundaries]; [to_boundary] is
    [path_to_perm_boundary] (see UsesModel.v), [first_error_end] the end in bytes of the
    local first error. *)
Definition compute_permission_boundaries {PB} (to_boundary : PB -> option Boundary)
    (uses : list PB) (first_error_end : option nat) : list Boundary :=
  filter (fun b => match first_error_end with
                   | None => true
                   | Some e => is_some (b_flow b) || (b_byte b <=? e)
                   end)
    (flat_map (fun pb => match to_boundary pb with Some b => [b] | None => [] end) uses).

(** ** The expression visitor (path_visitor.rs) *)

(** rustc adjustments, as far as [get_adjusted_permissions] tells them apart. *)
Inductive Adjust := AdjBorrowRef (m : bool) | AdjOther.

(** What the visitor asks about an expression. *)
Record Meta := mkM {
  m_id : HirId;
  m_span : Range;
  m_expansion : bool;              (* span.from_expansion() *)
  m_adjust : list Adjust;          (* expr_adjustments *)
  m_copyable : bool                (* expr_ty_adjusted(..).is_copyable(..) *)
}.

(** Resolution of a path. *)
Inductive Res := ResLocal | ResStatic | ResOther.

(** HIR expressions.  Simplifications: patterns and types (which the visitor
    walks but which contain no places) are absent; every expression kind that
    the visitor does not mention is [EOther] with its sub-expressions in walking
    order; the statement [let p = init else { .. }] has the two parts of line
    [walk_local]; a type ascription counts as [EOther]. *)
Inductive Expr :=
| EMatch (m : Meta) (discr : Expr) (arms : list Expr)   (* arms: guards and bodies *)
| EMethod (m : Meta) (fn_expansion : bool) (rcvr : Expr) (args : list Expr)
| EAddrOf (m : Meta) (mut : bool) (inner : Expr)
| EAssign (m : Meta) (lhs rhs : Expr)
| EAssignOp (m : Meta) (lhs rhs : Expr)
| EDeref (m : Meta) (inner : Expr)
| EPath (m : Meta) (r : Res) (path_span : Range) (path_expansion : bool)
| ELit (m : Meta)
| EField (m : Meta) (base : Expr)
| EIndex (m : Meta) (base idx : Expr)
| EBlock (m : Meta) (stmts : list (HirId * list Expr)) (tail : option Expr)
| EClosure (m : Meta) (body : Expr)
| EOther (m : Meta) (parts : list Expr).

Definition meta (e : Expr) : Meta :=
  match e with
  | EMatch m _ _ | EMethod m _ _ _ | EAddrOf m _ _ | EAssign m _ _ | EAssignOp m _ _
  | EDeref m _ | EPath m _ _ _ | ELit m | EField m _ | EIndex m _ _ | EBlock m _ _
  | EClosure m _ | EOther m _ => m
  end.
Definition eid (e : Expr) : HirId := m_id (meta e).
Definition espan (e : Expr) : Range := m_span (meta e).

Definition is_lit (e : Expr) : bool := match e with ELit _ => true | _ => false end.
Definition is_deref (e : Expr) : bool := match e with EDeref _ _ => true | _ => false end.

(** rustc [Expr::is_place_expr] *)
Fixpoint is_place_expr (allow : Expr -> bool) (e : Expr) : bool :=
  match e with
  | EPath _ ResLocal _ _ | EPath _ ResStatic _ _ => true
  | EDeref _ _ => true
  | EField _ b | EIndex _ b _ => allow b || is_place_expr allow b
  | _ => false
  end.

(** rustc [Expr::is_syntactic_place_expr] *)
Definition is_syntactic_place_expr : Expr -> bool := is_place_expr (fun _ => true).

(** boundaries/mod.rs:312-331 [PathBoundary] *)
Record PathBoundary := mkPB {
  pb_hir : HirId;
  pb_context : HirId;
  pb_lhs : bool;
  pb_location : Range;
  pb_expected : Permissions
}.

(** rustc [Span::shrink_to_lo] *)
Definition shrink_to_lo (r : Range) : Range := mkR (lo r) (lo r).

(** path_visitor.rs:35-61 [get_adjusted_permissions] *)
Definition get_adjusted_permissions (m : Meta) : Permissions :=
  match find_map (fun a => match a with AdjBorrowRef b => Some b | AdjOther => None end) (m_adjust m) with
  | Some b => from_reborrow b
  | None => if m_copyable m then from_copy else from_move
  end.

(** path_visitor.rs:74-255: [fc] is the dynamically scoped [FLOW_CONTEXT]; the
    result is the list of boundaries pushed by the visit. *)
Fixpoint visit (fc : HirId) (e : Expr) : list PathBoundary :=
  match e with
  | EMatch m discr arms =>
      if is_place_expr (fun b => negb (is_lit b)) discr
      then mkPB (eid discr) fc false (espan discr) from_discriminant :: flat_map (visit fc) arms
      else visit fc discr ++ flat_map (visit fc) arms
  | EMethod m fx rcvr args =>
      if negb fx && is_place_expr (fun b => negb (is_lit b)) rcvr
      then mkPB (eid rcvr) fc false (espan rcvr) (get_adjusted_permissions (meta rcvr))
             :: flat_map (visit fc) args
      else visit fc rcvr ++ flat_map (visit fc) args
  | EAddrOf m mut inner =>
      if is_syntactic_place_expr inner && negb (m_expansion (meta inner))
      then [mkPB (m_id m) fc false (shrink_to_lo (espan inner)) (from_borrow mut)]
      else visit fc inner
  | EAssign m lhs rhs =>
      if is_deref lhs
      then mkPB (eid lhs) fc true (shrink_to_lo (espan lhs)) from_assignment :: visit fc rhs
      else visit fc rhs
  | EAssignOp m lhs rhs =>
      mkPB (eid lhs) fc true (shrink_to_lo (espan lhs)) from_assignment :: visit fc rhs
  | EDeref m inner =>
      if is_syntactic_place_expr inner && negb (m_expansion (meta inner))
      then [mkPB (m_id m) fc false (shrink_to_lo (m_span m)) (get_adjusted_permissions m)]
      else visit fc inner
  | EPath m ResLocal sp px =>
      if negb px then [mkPB (m_id m) fc false (shrink_to_lo sp) (get_adjusted_permissions m)] else []
  | EPath _ _ _ _ => []
  | ELit _ => []
  | EField _ b => visit fc b
  | EIndex _ b i => visit fc b ++ visit fc i
  | EBlock _ stmts tail =>                           (* 83-93 visit_block, 78-81 visit_stmt *)
      flat_map (fun s => flat_map (visit (fst s)) (snd s)) stmts
      ++ match tail with Some t => visit (eid t) t | None => [] end
  | EClosure _ body => visit (eid body) body         (* 74-77 visit_body *)
  | EOther _ ps => flat_map (visit fc) ps
  end.

(** path_visitor.rs:258-284 [get_path_boundaries] on the body's value
    expression; [unsupported_feature] is never set. *)
Definition get_path_boundaries (body : Expr) : list PathBoundary := visit (eid body) body.
