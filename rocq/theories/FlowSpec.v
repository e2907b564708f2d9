(** Specification of C12-C13 over origins and declared facts: plain reachability,
    no components, no search. *)

From Coq Require Import List Arith Bool Relations.
From Verif Require Import Base FactsModel FlowModel.
Import ListNotations.

(** Data can flow from [a] to [b] along the listed constraints. *)
Definition FlowsTo (g : list (nat * nat)) (a b : nat) : Prop := exists l, walk (edge g) a l b.

(** [a] and [b] are equal as far as flow is concerned. *)
Definition SameCycle (g : list (nat * nat)) (a b : nat) : Prop := FlowsTo g a b /\ FlowsTo g b a.

Definition Constrained (g : list (nat * nat)) (o : Origin) : Prop :=
  exists p, In (o, p) g \/ In (p, o) g.

Section Spec.
  Variable fi : FlowIn.
  Notation g := (f_subset fi).

  (** The lifetime parameters: constrained placeholders, and return regions. *)
  Definition Abstract (p : Origin) : Prop :=
    (In p (f_placeholder fi) /\ Constrained g p) \/ In p (f_return fi).

  Definition AbstractIn (p r : Origin) : Prop := Abstract p /\ FlowsTo g p r.

  (** A direct borrow of a local flows into [r]. *)
  Definition LocalIn (b : Borrow) (r : Origin) : Prop :=
    In b (f_borrows fi) /\ b_indirect b = false /\ FlowsTo g (b_region b) r.

  Definition TiedToAbstract (r : Origin) : Prop := exists p, Abstract p /\ SameCycle g p r.

  (** One declared outlives relation, or an equality forced by a cycle. *)
  Definition DeclaredStep (a b : Origin) : Prop :=
    (In (a, b) (f_known fi) /\ Constrained g a /\ Constrained g b) \/ SameCycle g a b.

  Definition Declared : Origin -> Origin -> Prop := clos_refl_trans Origin DeclaredStep.

  (** The loan is reported by the borrow checker and its referent dies at exit. *)
  Definition Dangling (b : Borrow) : Prop :=
    In b (f_error_loans fi) /\
    if b_thread_local b then b_conflicts_deref b = true
    else f_locals_invalidated fi = true /\ b_conflicts_root b = true.

  Definition LocalOutlives (from to : Origin) : Prop :=
    (exists b, LocalIn b from) /\ TiedToAbstract to.

  Definition MissingConstraint (from to : Origin) : Prop :=
    exists p q, AbstractIn p from /\ AbstractIn q to /\ ~ Declared p q.

  Definition LocalDangles (from : Origin) : Prop :=
    exists b d, LocalIn b from /\ Dangling d /\ SameCycle g (b_region d) (b_region b).

  (** The documented decision list. *)
  Definition Verdict (from to : Origin) (k : FlowEdgeKind) : Prop :=
    match k with
    | LocalOutlivesUniversal => ~ SameCycle g from to /\ LocalOutlives from to
    | MissingUniversalConstraint =>
        ~ SameCycle g from to /\ ~ LocalOutlives from to /\ MissingConstraint from to
    | LocalInvalidatedAtExit =>
        ~ SameCycle g from to /\ ~ LocalOutlives from to /\ ~ MissingConstraint from to /\
        LocalDangles from
    | FlowOk =>
        SameCycle g from to \/
        (~ LocalOutlives from to /\ ~ MissingConstraint from to /\ ~ LocalDangles from)
    end.

  (** Every flow between two lifetime parameters has been declared. *)
  Definition AllAbstractFlowsDeclared : Prop :=
    forall p q, Abstract p -> Abstract q -> FlowsTo g p q -> Declared p q.
End Spec.
