(** * Specification vocabulary for the control-flow properties

    Everything here speaks about the MIR body and paths through it only. *)

From Coq Require Import List Arith Bool Lia.
From Verif Require Import Base CfgModel.
Import ListNotations.

(** Block [b] takes part in normal control flow. *)
Definition Normal (bd : body) (b : nat) : Prop :=
  exists d, nth_error bd b = Some d /\ b_cleanup d = false /\ b_term d <> TUnreachable.

(** The terminator names a block as a target. *)
Inductive Names : term -> nat -> Prop :=
| names_switch ts b : In b ts -> Names (TSwitchInt ts) b
| names_other ts b : In b ts -> Names (TOther ts) b
| names_false_edge r i : Names (TFalseEdge r i) r
| names_imaginary r i : Names (TFalseEdge r i) i
| names_false_unwind r u : Names (TFalseUnwind r u) r
| names_unwind r u : Names (TFalseUnwind r (Some u)) u.

(** The terminator of [a] names [b] as a target. *)
Definition Target (bd : body) (a b : nat) : Prop :=
  exists d, nth_error bd a = Some d /\ Names (b_term d) b.

(** A jump from [a] to [b] in normal control flow. *)
Definition Jump (bd : body) (a b : nat) : Prop := Target bd a b /\ Normal bd b.

(** [b] is only the pretended target of [a]'s false edge. *)
Definition ImaginaryOnly (bd : body) (a b : nat) : Prop :=
  exists d r, nth_error bd a = Some d /\ b_term d = TFalseEdge r b /\ r <> b.

(** What rustc guarantees of a body: it starts in a block that is not a cleanup
    block, and no false edge pretends to loop to its own block. *)
Definition WfBody (bd : body) : Prop :=
  (exists d, nth_error bd 0 = Some d /\ b_cleanup d = false) /\
  (forall a d r, nth_error bd a = Some d -> b_term d <> TFalseEdge r a).

Definition Returns (bd : body) (b : nat) : Prop :=
  exists d, nth_error bd b = Some d /\ b_term d = TReturn.

(** The block ends with a switch. *)
Definition Switch (bd : body) (b : nat) : Prop :=
  exists d ts, nth_error bd b = Some d /\ b_term d = TSwitchInt ts.

(** Paths of blocks; [path bd a l b]: [l] lists the visited blocks. *)
Definition path (bd : body) : nat -> list nat -> nat -> Prop := walk (Jump bd).

(** One step of execution between locations. *)
Inductive LocStep (bd : body) : loc -> loc -> Prop :=
| step_within b d i :
    nth_error bd b = Some d -> i < b_stmts d -> LocStep bd (Loc b i) (Loc b (S i))
| step_jump b d c :
    nth_error bd b = Some d -> Jump bd b c -> LocStep bd (Loc b (b_stmts d)) (Loc c 0).

Definition ValidLoc (bd : body) (l : loc) : Prop :=
  exists d, nth_error bd (l_block l) = Some d /\ l_idx l <= b_stmts d.

(** Executions of the function up to a location. *)
Definition Run (bd : body) (l : list loc) (to : loc) : Prop :=
  walk (LocStep bd) (Loc 0 0) l to.

Definition ReachableLoc (bd : body) (to : loc) : Prop := exists l, Run bd l to.

(** [A] is passed by every execution that reaches [B]. *)
Definition AlwaysBefore (bd : body) (A B : loc) : Prop :=
  forall l, Run bd l B -> In A l.

(** [r] is the return location of the body's block. *)
Definition ReturnLoc (bd : body) (r : loc) : Prop :=
  exists d, nth_error bd (l_block r) = Some d /\ b_term d = TReturn /\ l_idx r = b_stmts d.

(** [P] is passed by every execution from [N] to any return. *)
Definition AlwaysAfter (bd : body) (P N : loc) : Prop :=
  forall r l, ReturnLoc bd r -> walk (LocStep bd) N l r -> In P l.

(** The general graph notion: [d] lies on every walk from [s] to [n]. *)
Definition Dom {T} (R : T -> T -> Prop) (s d n : T) : Prop :=
  forall l, walk R s l n -> In d l.

(** The location is one of an actual operation: not in a block that only holds
    a false edge, nor in a block that ends in [unreachable]. *)
Definition Operational (bd : body) (l : loc) : Prop :=
  exists d, nth_error bd (l_block l) = Some d /\
    b_term d <> TUnreachable /\
    ~ (b_stmts d = 0 /\
       ((exists r i, b_term d = TFalseEdge r i) \/ (exists r u, b_term d = TFalseUnwind r u))).

(** An iteration order of a hash collection. *)
Definition Order {T} (ord : list T -> list T) : Prop :=
  forall l, (forall x, In x (ord l) <-> In x l).

(** No return block is a cleanup block (rustc guarantees it). *)
Definition ReturnsNormal (bd : body) : Prop := forall e, Returns bd e -> Normal bd e.

(** [e] is in the set and precedes everything in it. *)
Definition EntryOf (bd : body) (vs : list loc) (e : loc) : Prop :=
  In e vs /\ forall l, In l vs -> ReachableLoc bd l /\ AlwaysBefore bd e l.

(** [e] is in the set; from every member all returns can be reached, and only
    by passing [e]. *)
Definition ExitOf (bd : body) (vs : list loc) (e : loc) : Prop :=
  In e vs /\ forall l, In l vs ->
    (forall r, ReturnLoc bd r -> exists p, walk (LocStep bd) l p r) /\ AlwaysAfter bd e l.

(** The location exists, and is not in a cleanup block if these are ignored. *)
Definition Gathered (bd : body) (ignore_cleanup : bool) (l : loc) : Prop :=
  ValidLoc bd l /\
  (ignore_cleanup = true -> forall d, nth_error bd (l_block l) = Some d -> b_cleanup d = false).

(** [k] lies on every path from [n] to a return, and all returns can be reached. *)
Definition OnEveryReturn (bd : body) (k n : nat) : Prop :=
  forall e, Returns bd e -> (exists l, path bd n l e) /\ forall l, path bd n l e -> In k l.

(** [b] is only entered through [root]. *)
Definition Within (bd : body) (root b : nat) : Prop :=
  (exists l, path bd 0 l b) /\ forall l, path bd 0 l b -> In root l.

(** The block ends in a false edge. *)
Definition FalseEdgeBlock (bd : body) (k : nat) : Prop :=
  exists d r i, nth_error bd k = Some d /\ b_term d = TFalseEdge r i.

(** A join of the branch at [root]. *)
Definition Join (bd : body) (root k : nat) : Prop :=
  k <> root /\ ~ FalseEdgeBlock bd k /\ Within bd root k /\ OnEveryReturn bd k root.

(** [m] closes the branch at [root]. *)
Definition Closing (bd : body) (root m : nat) : Prop :=
  Within bd root m /\ forall n, Within bd root n -> OnEveryReturn bd m n.
