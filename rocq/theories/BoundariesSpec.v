(** Specification of C17-C20: which uses an expression contains and what each
    of them needs.  Relational; no traversal order, no search. *)

From Coq Require Import List Arith Bool.
From Verif Require Import Base PermsModel FactsModel FlowModel FlowSpec SpansModel BoundariesModel.
Import ListNotations.

(** ** Expression trees *)

(** The part a sub-expression plays in its parent. *)
Inductive Role :=
| Scrutinee | ArmPart | Receiver | Argument | Operand | AssignTarget | AssignValue
| StmtPart (stmt : HirId) | TailOf | ClosureBody | Part.

(** All direct sub-expressions, in source order. *)
Definition children (e : Expr) : list (Role * Expr) :=
  match e with
  | EMatch _ d arms => (Scrutinee, d) :: map (pair ArmPart) arms
  | EMethod _ _ r args => (Receiver, r) :: map (pair Argument) args
  | EAddrOf _ _ i => [(Operand, i)]
  | EAssign _ l r => [(AssignTarget, l); (AssignValue, r)]
  | EAssignOp _ l r => [(AssignTarget, l); (AssignValue, r)]
  | EDeref _ i => [(Operand, i)]
  | EPath _ _ _ _ => []
  | ELit _ => []
  | EField _ b => [(Part, b)]
  | EIndex _ b i => [(Part, b); (Part, i)]
  | EBlock _ stmts tail =>
      flat_map (fun s => map (pair (StmtPart (fst s))) (snd s)) stmts
      ++ match tail with Some t => [(TailOf, t)] | None => [] end
  | EClosure _ b => [(ClosureBody, b)]
  | EOther _ ps => map (pair Part) ps
  end.

(** [e'] occurs in [e]. *)
Inductive Sub : Expr -> Expr -> Prop :=
| Sub_refl e : Sub e e
| Sub_step e r c e' : In (r, c) (children e) -> Sub c e' -> Sub e e'.

(** Places: variables, statics, dereferences, and fields or elements of a place
    or of an admitted other expression. *)
Inductive IsPlace (admitted : Expr -> Prop) : Expr -> Prop :=
| place_local m sp x : IsPlace admitted (EPath m ResLocal sp x)
| place_static m sp x : IsPlace admitted (EPath m ResStatic sp x)
| place_deref m i : IsPlace admitted (EDeref m i)
| place_field m b : admitted b \/ IsPlace admitted b -> IsPlace admitted (EField m b)
| place_index m b i : admitted b \/ IsPlace admitted b -> IsPlace admitted (EIndex m b i).

Definition NotLiteral (e : Expr) : Prop := forall m, e <> ELit m.
Definition AnyExpr (e : Expr) : Prop := True.

(** The place written inside a borrow or after a [*], not produced by a macro. *)
Definition VisiblePlace (e : Expr) : Prop := IsPlace AnyExpr e /\ m_expansion (meta e) = false.

(** ** Needs *)

(** The first automatic borrow of an expression, if any. *)
Definition FirstAutoBorrow (m : Meta) (b : bool) : Prop :=
  exists pre post, m_adjust m = pre ++ AdjBorrowRef b :: post /\
    forall x, In x pre -> x = AdjOther.
Definition NoAutoBorrow (m : Meta) : Prop := forall x, In x (m_adjust m) -> x = AdjOther.

Definition R_ : Permissions := mkP true false false.
Definition RW_ : Permissions := mkP true true false.
Definition RO_ : Permissions := mkP true false true.

(** What using the value of an expression needs. *)
Inductive Needs (m : Meta) : Permissions -> Prop :=
| needs_mut : FirstAutoBorrow m true -> Needs m RW_
| needs_shared : FirstAutoBorrow m false -> Needs m R_
| needs_copy : NoAutoBorrow m -> m_copyable m = true -> Needs m R_
| needs_move : NoAutoBorrow m -> m_copyable m = false -> Needs m RO_.

Definition start_of (r : Range) : Range := mkR (lo r) (lo r).

(** [UseSite fc e b]: expression [e] itself, in flow context [fc], is a use with
    boundary [b]. *)
Inductive UseSite (fc : HirId) : Expr -> PathBoundary -> Prop :=
| use_variable m sp p : Needs m p ->
    UseSite fc (EPath m ResLocal sp false) (mkPB (m_id m) fc false (start_of sp) p)
| use_deref m i p : VisiblePlace i -> Needs m p ->
    UseSite fc (EDeref m i) (mkPB (m_id m) fc false (start_of (m_span m)) p)
| use_borrow m i (mut : bool) : VisiblePlace i ->
    UseSite fc (EAddrOf m mut i)
      (mkPB (m_id m) fc false (start_of (espan i)) (if mut then RW_ else R_))
| use_receiver m r args p : IsPlace NotLiteral r -> Needs (meta r) p ->
    UseSite fc (EMethod m false r args) (mkPB (eid r) fc false (espan r) p)
| use_scrutinee m d arms : IsPlace NotLiteral d ->
    UseSite fc (EMatch m d arms) (mkPB (eid d) fc false (espan d) R_)
| use_assign_deref m dm i rhs :
    UseSite fc (EAssign m (EDeref dm i) rhs)
      (mkPB (m_id dm) fc true (start_of (m_span dm)) RW_)
| use_assign_op m l rhs :
    UseSite fc (EAssignOp m l rhs) (mkPB (eid l) fc true (start_of (espan l)) RW_).

(** The sub-expressions that are not looked into: they are the place used by the
    parent itself, or the target of an assignment. *)
Inductive Skipped : Expr -> Role -> Prop :=
| skip_scrutinee m d arms : IsPlace NotLiteral d -> Skipped (EMatch m d arms) Scrutinee
| skip_receiver m r args : IsPlace NotLiteral r -> Skipped (EMethod m false r args) Receiver
| skip_borrowed m mut i : VisiblePlace i -> Skipped (EAddrOf m mut i) Operand
| skip_derefed m i : VisiblePlace i -> Skipped (EDeref m i) Operand
| skip_target m l r : Skipped (EAssign m l r) AssignTarget
| skip_target_op m l r : Skipped (EAssignOp m l r) AssignTarget.

(** The flow context of a sub-expression: the statement, tail expression or
    closure body it belongs to. *)
Definition context (fc : HirId) (r : Role) (c : Expr) : HirId :=
  match r with
  | StmtPart s => s
  | TailOf | ClosureBody => eid c
  | _ => fc
  end.

(** [e'] occurs in [e] outside skipped parts, with flow context [fc']. *)
Inductive Reached : HirId -> Expr -> HirId -> Expr -> Prop :=
| Reached_refl fc e : Reached fc e fc e
| Reached_step fc e r c fc' e' :
    In (r, c) (children e) -> ~ Skipped e r ->
    Reached (context fc r c) c fc' e' -> Reached fc e fc' e'.

(** All nodes have different ids. *)
Inductive UniqueIds : Expr -> Prop :=
| unique_ids e :
    (forall r c, In (r, c) (children e) -> UniqueIds c) ->
    (forall r c, In (r, c) (children e) -> forall s, Sub c s -> eid s <> eid e) ->
    ForallOrdPairs (fun a b => forall s1 s2, Sub (snd a) s1 -> Sub (snd b) s2 -> eid s1 <> eid s2)
      (children e) ->
    UniqueIds e.

(** Spans nest, and sub-expressions stand in source order. *)
Inductive InOrder : Expr -> Prop :=
| in_order e :
    lo (espan e) <= hi (espan e) ->
    (forall m r sp x, e = EPath m r sp x -> lo (espan e) <= lo sp <= hi (espan e)) ->
    (forall r c, In (r, c) (children e) ->
       InOrder c /\ lo (espan e) <= lo (espan c) /\ hi (espan c) <= hi (espan e)) ->
    ForallOrdPairs (fun a b => hi (espan (snd a)) <= lo (espan (snd b))) (children e) ->
    InOrder e.

(** ** Choosing a place *)

(** [c] is the earliest among the [P] of [l] with the largest key. *)
Definition EarliestMax {A} (P : A -> Prop) (key : A -> nat) (l : list A) (c : A) : Prop :=
  exists pre post, l = pre ++ c :: post /\ P c /\
    (forall x, In x pre -> P x -> key x < key c) /\
    (forall x, In x post -> P x -> key x <= key c).

(** [c] is the first of [l] with property [P]. *)
Definition FirstWith {A} (P : A -> Prop) (l : list A) (c : A) : Prop :=
  exists pre post, l = pre ++ c :: post /\ P c /\ forall x, In x pre -> ~ P x.

(** ** Places mentioned by a statement *)
Inductive Reads : StmtKind -> Place -> Prop :=
| reads_operand lhs ops p : In (Some p) ops -> Reads (SkAssign lhs (RvOperands ops)) p
| reads_place lhs p : Reads (SkAssign lhs (RvPlace p)) p.

(** Places touched by a statement whatever side is looked for. *)
Inductive Inspects : StmtKind -> Place -> Prop :=
| inspects_discr p : Inspects (SkSetDiscriminant p) p
| inspects_fake p : Inspects (SkFakeRead p) p.

Inductive Writes : StmtKind -> Place -> Prop :=
| writes_assign p rv : Writes (SkAssign p rv) p.

(** ** The place of a use *)

Definition on_local (l : nat) (c : Candidate) : Prop := local (snd c) = l.
Definition depth (c : Candidate) : nat := length (projection (snd c)).

(** The places that the statements at [ls] mention on the side looked for, in the order of the statements. *)
Definition Mentioned (vis : Place -> bool) (stmt_at : nat -> StmtKind) (is_lhs : bool) (ls : list nat) (cands : list Candidate) : Prop :=
  (forall loc p, In (loc, p) cands <->
    In loc ls /\ vis p = true /\
    (Inspects (stmt_at loc) p \/ (if is_lhs then Writes (stmt_at loc) p else Reads (stmt_at loc) p))) /\
  (forall pre c1 mid c2 post, cands = pre ++ c1 :: mid ++ c2 :: post ->
    exists l1 l2 l3, ls = l1 ++ l2 ++ l3 /\
      ((l2 = [fst c1] /\ fst c1 = fst c2) \/ exists m, l2 = fst c1 :: m ++ [fst c2])).

(** The one that is chosen of several: the first on the local that looks like the source, or else
    the earliest of the longest on the local of the first. *)
Definition Picks (similar : option nat) (cands : list Candidate) (c : Candidate) : Prop :=
  In c cands /\
  (cands = [c] \/
   (2 <= length cands /\
    match similar with
    | Some l => FirstWith (on_local l) cands c
    | None => exists f r, cands = f :: r /\ EarliestMax (on_local (local (snd f))) depth cands c
    end)).
Definition PicksNone (similar : option nat) (cands : list Candidate) : Prop :=
  cands = [] \/ (2 <= length cands /\ exists l, similar = Some l /\ forall c, In c cands -> ~ on_local l c).

(** What a node with the locations [locs n] yields. *)
Section Yields.
  Context (vis : Place -> bool) (stmt_at : nat -> StmtKind) (locs : HirId -> option (list nat))
          (similar : HirId -> option nat) (is_lhs : bool).
  Definition Yields (n : HirId) (c : Candidate) : Prop :=
    exists ls cands, locs n = Some ls /\ Mentioned vis stmt_at is_lhs ls cands /\ Picks (similar n) cands c.
  Definition YieldsNone (n : HirId) : Prop :=
    locs n = None \/ exists ls cands, locs n = Some ls /\ Mentioned vis stmt_at is_lhs ls cands /\ PicksNone (similar n) cands.
End Yields.

(** ** What is drawn *)

(** Letter [l] is expected / present. *)
Definition letter_expected (b : Boundary) (l : Letter) : Prop :=
  match l with
  | LR => p_read (b_expected b) = true
  | LW => p_write (b_expected b) = true
  | LO => p_drop (b_expected b) = true
  | LF => b_flow b <> None
  end.
Definition letter_present (b : Boundary) (l : Letter) : Prop :=
  match l with
  | LR => p_read (b_actual b) = true
  | LW => p_write (b_actual b) = true
  | LO => p_drop (b_actual b) = true
  | LF => forall f, b_flow b = Some f -> fb_violation f = false
  end.

(** ** Flow *)

(** The constraint [c] of the context is reported for the use with constraints [ss]. *)
Definition Offends (fi : FlowIn) (ss : list Constraint) (c : Constraint) : Prop :=
  TiedToAbstract fi (snd (fst c)) /\ ~ Verdict fi (fst (fst c)) (snd (fst c)) FlowOk /\
  exists s, In s ss /\ (snd (fst s) = fst (fst c) \/ snd (fst s) = snd (fst c)).
