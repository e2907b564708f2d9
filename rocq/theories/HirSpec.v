(** * Which steps the visitor has to ask for *)
From Coq Require Import List Arith Bool.
From Verif Require Import Base CfgModel CfgSpec SegMirModel HirModel.
Import ListNotations.

(** [a] is [b] with some elements left out. *)
Inductive Subsequence {A} : list A -> list A -> Prop :=
| sub_nil : Subsequence [] []
| sub_skip x a b : Subsequence a b -> Subsequence a (x :: b)
| sub_keep x a b : Subsequence a b -> Subsequence (x :: a) (x :: b).

Section Spec.
  Context (env : henv).

  (** Where a condition has been evaluated: at its end, or else at the beginning of the
      whole expression. *)
  Definition decided (cnd id : nat) : option loc :=
    match node_exit env cnd with Some l => Some l | None => node_entry env id end.

  (** A [for] whose iterator needs no decision: it has a single arm, and its condition is known
      to end elsewhere than at a switch. *)
  Definition no_decision (desugared : bool) (cnd : expr) (ar : arms) : bool :=
    match desugared, ar, node_exit env (expr_id cnd) with
    | true, Acons _ Anil, Some l =>
      match nth_error (he_body env) (l_block l) with
      | Some d => match b_term d with TSwitchInt _ => false | _ => true end
      | None => true
      end
    | _, _, _ => false
    end.

  (** The variables whose [let] is being evaluated: [w_own], those of the [let] that the
      expression initialises, if there is no block in between; [w_out], those of all the
      others around. *)
  Record within := Within { w_own : list nat; w_out : list nat }.
  Definition outside : within := Within [] [].
  (** Entering a block, or a statement that declares [vars]. *)
  Definition enter (vars : list nat) (w : within) : within := Within vars (w_own w ++ w_out w).

  (** A step: where, over which piece of source, and inside which declarations. *)
  Definition point := (loc * nat * within)%type.

  (** A step at the end of a node, over the node. *)
  Definition at_end (w : within) (id : nat) : list point :=
    match node_exit env id with Some l => [(l, he_span env id, w)] | None => [] end.
  Definition at_condition (w : within) (cnd id : nat) : list point :=
    match decided cnd id with Some l => [(l, he_span env cnd, w)] | None => [] end.

  (** The steps of a function, in order: after every condition, at the beginning of
      every arm, after every statement, after the result of every block and body. *)
  Fixpoint steps_expr (w : within) (e : expr) : list point :=
    match e with
    | EIf id cnd thn els => steps_expr w cnd ++ at_condition w (expr_id cnd) id ++ steps_expr w thn ++ steps_oexpr w els
    | EWhile id cnd thn els => steps_expr w cnd ++ at_condition w (expr_id cnd) id ++ steps_expr w thn ++ steps_expr w els
    | EFor id cnd none some => steps_expr w cnd ++ at_condition w (expr_id cnd) id ++ steps_arm w none ++ steps_arm w some
    | EMatch id d cnd ar =>
      steps_expr w cnd ++ (if no_decision d cnd ar then [] else at_condition w (expr_id cnd) id) ++ steps_arms w ar
    | EBlock _ b => steps_block w b
    | EClosure _ v => steps_expr w v ++ at_end w (expr_id v)
    | EOther _ l => steps_exprs w l
    end
  with steps_oexpr (w : within) (o : oexpr) : list point := match o with ESome e => steps_expr w e | ENone => [] end
  with steps_exprs (w : within) (l : exprs) : list point := match l with Enil => [] | Econs e r => steps_expr w e ++ steps_exprs w r end
  with steps_arm (w : within) (a : arm) : list point :=
    match a with
    | Arm id _ g b => match node_entry env (expr_id b) with Some l => [(l, he_lo env id, w)] | None => steps_oexpr w g end ++ steps_expr w b
    end
  with steps_arms (w : within) (l : arms) : list point := match l with Anil => [] | Acons a r => steps_arm w a ++ steps_arms w r end
  with steps_block (w : within) (b : blk) : list point :=
    match b with
    | Blk ss t => steps_stmts (enter [] w) ss ++
                  match t with ESome e => steps_expr (enter [] w) e ++ at_end (enter [] w) (expr_id e) | ENone => [] end
    end
  with steps_stmts (w : within) (l : stmts) : list point := match l with Snil => [] | Scons s r => steps_stmt w s ++ steps_stmts w r end
  with steps_stmt (w : within) (s : stmt) : list point :=
    match s with
    | SLet id i el => steps_oexpr (enter (he_locals env id) w) i ++ steps_oblk (enter (he_locals env id) w) el
    | SExpr _ e => steps_expr (enter [] w) e
    | SItem _ l => steps_bodies (enter [] w) l
    end ++ at_end w (stmt_id s)
  with steps_oblk (w : within) (o : oblk) : list point := match o with BSome b => steps_block w b | BNone => [] end
  with steps_bodies (w : within) (l : exprs) : list point :=
    match l with Enil => [] | Econs e r => steps_expr w e ++ at_end w (expr_id e) ++ steps_bodies w r end.

  Definition steps_body (value : expr) : list point := steps_expr outside value ++ at_end outside (expr_id value).

  (** ** Decisions
      The sides of a decision, with the places where the step into them is shown, and the
      place of a step into none of them. *)
  Definition decision := (list (loc * nat) * nat)%type.
  Definition side (id span : nat) : list (loc * nat) := match node_entry env id with Some l => [(l, span)] | None => [] end.
  Fixpoint arm_sides (l : arms) : list (loc * nat) :=
    match l with Anil => [] | Acons (Arm _ pat _ body) r => side (expr_id body) (he_hi env pat) ++ arm_sides r end.

  (** The decisions of a function.  The sides of an [if] are shown where their blocks
      begin; the way past an [if] and out of a loop where it ends; an arm after its
      pattern. *)
  Fixpoint decisions_expr (e : expr) : list decision :=
    match e with
    | EIf id cnd thn els =>
      (side (expr_id thn) (he_lo env (expr_id thn)) ++
         match els with ESome x => side (expr_id x) (he_lo env (expr_id x)) | ENone => [] end, he_hi env id)
      :: decisions_expr cnd ++ decisions_expr thn ++ decisions_oexpr els
    | EWhile id cnd thn els =>
      (side (expr_id thn) (he_lo env (expr_id thn)) ++ side (expr_id els) (he_hi env id), he_hi env id)
      :: decisions_expr cnd ++ decisions_expr thn ++ decisions_expr els
    | EFor id cnd none some =>
      (side (expr_id (arm_body none)) (he_hi env id) ++ side (expr_id (arm_body some)) (he_lo env (expr_id (arm_body some))), he_dummy env)
      :: decisions_expr cnd ++ decisions_arm none ++ decisions_arm some
    | EMatch id d cnd ar =>
      (if no_decision d cnd ar then [] else [(arm_sides ar, he_dummy env)]) ++ decisions_expr cnd ++ decisions_arms ar
    | EBlock _ b => decisions_block b
    | EClosure _ v => decisions_expr v
    | EOther _ l => decisions_exprs l
    end
  with decisions_oexpr (o : oexpr) : list decision := match o with ESome e => decisions_expr e | ENone => [] end
  with decisions_exprs (l : exprs) : list decision := match l with Enil => [] | Econs e r => decisions_expr e ++ decisions_exprs r end
  with decisions_arm (a : arm) : list decision := match a with Arm _ _ g b => decisions_oexpr g ++ decisions_expr b end
  with decisions_arms (l : arms) : list decision := match l with Anil => [] | Acons a r => decisions_arm a ++ decisions_arms r end
  with decisions_block (b : blk) : list decision := match b with Blk ss t => decisions_stmts ss ++ decisions_oexpr t end
  with decisions_stmts (l : stmts) : list decision := match l with Snil => [] | Scons s r => decisions_stmt s ++ decisions_stmts r end
  with decisions_stmt (s : stmt) : list decision :=
    match s with
    | SLet _ i el => decisions_oexpr i ++ decisions_oblk el
    | SExpr _ e => decisions_expr e
    | SItem _ l => decisions_exprs l
    end
  with decisions_oblk (o : oblk) : list decision := match o with BSome b => decisions_block b | BNone => [] end.

  (** Everything that is decided has a place in the code, and so has every side of a
      decision. *)
  Definition found (id : nat) : Prop := node_entry env id <> None.
  Fixpoint located_expr (e : expr) : Prop :=
    match e with
    | EIf id cnd thn els =>
      decided (expr_id cnd) id <> None /\ found (expr_id thn) /\ located_expr cnd /\ located_expr thn /\
      match els with ESome x => found (expr_id x) | ENone => True end /\ located_oexpr els
    | EWhile id cnd thn els =>
      decided (expr_id cnd) id <> None /\ found (expr_id thn) /\ found (expr_id els) /\
      located_expr cnd /\ located_expr thn /\ located_expr els
    | EFor id cnd none some => decided (expr_id cnd) id <> None /\ located_expr cnd /\ located_arm none /\ located_arm some
    | EMatch id d cnd ar => (no_decision d cnd ar = true \/ decided (expr_id cnd) id <> None) /\ located_expr cnd /\ located_arms ar
    | EBlock _ b => located_block b
    | EClosure _ v => located_expr v
    | EOther _ l => located_exprs l
    end
  with located_oexpr (o : oexpr) : Prop := match o with ESome e => located_expr e | ENone => True end
  with located_exprs (l : exprs) : Prop := match l with Enil => True | Econs e r => located_expr e /\ located_exprs r end
  with located_arm (a : arm) : Prop := match a with Arm id _ g b => found id /\ located_oexpr g /\ located_expr b end
  with located_arms (l : arms) : Prop := match l with Anil => True | Acons a r => located_arm a /\ located_arms r end
  with located_block (b : blk) : Prop := match b with Blk ss t => located_stmts ss /\ located_oexpr t end
  with located_stmts (l : stmts) : Prop := match l with Snil => True | Scons s r => located_stmt s /\ located_stmts r end
  with located_stmt (s : stmt) : Prop :=
    match s with
    | SLet _ i el => located_oexpr i /\ located_oblk el
    | SExpr _ e => located_expr e
    | SItem _ l => located_exprs l
    end
  with located_oblk (o : oblk) : Prop := match o with BSome b => located_block b | BNone => True end.

  (** The location belongs to a node: it is where it begins or where it has ended. *)
  Definition OfNode (l : loc) : Prop := exists id, node_entry env id = Some l \/ node_exit env id = Some l.

  (** The location is attributed to the node or to one inside it. *)
  Definition AtNode (id : nat) (l : loc) : Prop :=
    exists c ls, In (c, ls) (he_map env) /\ In l ls /\ (c = id \/ he_inside env c id = true).

  (** Every location the compiler attributes to a node can be executed. *)
  Definition Executable : Prop := forall id ls l, In (id, ls) (he_map env) -> In l ls -> ReachableLoc (he_body env) l.
End Spec.

(** The arms that have a guard, in the order of the source. *)
Fixpoint guards_expr (e : expr) : list nat :=
  match e with
  | EIf _ cnd thn els => guards_expr cnd ++ guards_expr thn ++ guards_oexpr els
  | EWhile _ cnd thn els => guards_expr cnd ++ guards_expr thn ++ guards_expr els
  | EFor _ cnd none some => guards_expr cnd ++ guards_arm none ++ guards_arm some
  | EMatch _ _ cnd ar => guards_expr cnd ++ guards_arms ar
  | EBlock _ b => guards_block b
  | EClosure _ v => guards_expr v
  | EOther _ l => guards_exprs l
  end
with guards_oexpr (o : oexpr) : list nat := match o with ESome e => guards_expr e | ENone => [] end
with guards_exprs (l : exprs) : list nat := match l with Enil => [] | Econs e r => guards_expr e ++ guards_exprs r end
with guards_arm (a : arm) : list nat :=
  match a with Arm id _ g b => match g with ESome x => id :: guards_expr x | ENone => [] end ++ guards_expr b end
with guards_arms (l : arms) : list nat := match l with Anil => [] | Acons a r => guards_arm a ++ guards_arms r end
with guards_block (b : blk) : list nat := match b with Blk ss t => guards_stmts ss ++ guards_oexpr t end
with guards_stmts (l : stmts) : list nat := match l with Snil => [] | Scons s r => guards_stmt s ++ guards_stmts r end
with guards_stmt (s : stmt) : list nat :=
  match s with
  | SLet _ i el => guards_oexpr i ++ guards_oblk el
  | SExpr _ e => guards_expr e
  | SItem _ l => guards_exprs l
  end
with guards_oblk (o : oblk) : list nat := match o with BSome b => guards_block b | BNone => [] end.
