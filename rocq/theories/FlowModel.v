(** Model of the region flow analysis
    (crates/aquascope/src/analysis/permissions/flow.rs).

    Regions (origins) are numbers.  The polonius facts are the inputs. *)

From Coq Require Import List Arith Bool Lia.
From Verif Require Import Base FactsModel.
Import ListNotations.

Definition Origin := nat.

(** ** Transitive relations

    rustc's [TransitiveRelation]: a set of edges whose queries look at the
    transitive (not reflexive) closure.  A query on an element that was never
    added answers with the empty set; here that is the case of no outgoing
    edge. *)
Definition TRel := list (nat * nat).

Definition reachable_from (r : TRel) (a : nat) : list nat :=
  reach_list Nat.eq_dec r (nexts Nat.eq_dec r a).

Definition tcontains (r : TRel) (a b : nat) : bool := memb Nat.eq_dec b (reachable_from r a).

(** flow.rs:278-296 [flow_from_sources]: for every source [s] and every node [t]
    found by a depth-first search from [s], record "[t] can point to [s]". *)
Definition flow_from_sources (sources : list nat) (graph : list (nat * nat)) : TRel :=
  flat_map (fun s => map (fun t => (t, s)) (reach_list Nat.eq_dec graph [s])) sources.

(** ** Constraint graph *)

(** flow.rs:261-266 [flatten_tuples] (the order of the vertices is irrelevant) *)
Definition flatten_tuples (tups : list (nat * nat)) : list nat :=
  nodup Nat.eq_dec (flat_map (fun ab => [fst ab; snd ab]) tups).

(** flow.rs:268-273 [count_nodes] *)
Definition count_nodes (tups : list (nat * nat)) : nat :=
  fold_right (fun v m => Nat.max (S v) m) 0 (flatten_tuples tups).

(** [a] and [b] lie on a common cycle (or are equal). *)
Definition mutual (g : list (nat * nat)) (a b : nat) : bool :=
  memb Nat.eq_dec b (reach_list Nat.eq_dec g [a])
  && memb Nat.eq_dec a (reach_list Nat.eq_dec g [b]).

(** rustc [Sccs]: the component of an origin.  rustc numbers components in its
    own way; only their identity matters, so the model names a component by its
    smallest member.  [None] is the index panic on an origin that is larger than
    any constrained origin. *)
Definition scc_rep (g : list (nat * nat)) (o : Origin) : nat :=
  match find (mutual g o) (seq 0 (count_nodes g)) with Some r => r | None => o end.

Definition scc (g : list (nat * nat)) (o : Origin) : option nat :=
  if o <? count_nodes g then Some (scc_rep g o) else None.

(** Successors of the component graph. *)
Definition scc_edges (g : list (nat * nat)) : list (nat * nat) :=
  map (fun ab => (scc_rep g (fst ab), scc_rep g (snd ab))) g.

(** ** Inputs *)

Record Borrow := mkBorrow {
  b_region : Origin;
  b_indirect : bool;          (* borrowed_place().is_indirect() *)
  b_thread_local : bool;      (* local_decls[local].is_ref_to_thread_local() *)
  b_conflicts_root : bool;    (* places_conflict with the bare local *)
  b_conflicts_deref : bool    (* places_conflict with *local *)
}.

Record FlowIn := mkFlowIn {
  f_subset : list (Origin * Origin);     (* subset_base, without points *)
  f_placeholder : list Origin;           (* placeholder, first component *)
  f_return : list Origin;                (* regions_in_return *)
  f_known : list (Origin * Origin);      (* known_placeholder_subset *)
  f_borrows : list Borrow;               (* borrow_set *)
  f_error_loans : list Borrow;           (* polonius_output.errors, as borrows *)
  f_locals_invalidated : bool            (* locals_are_invalidated_at_exit *)
}.

(** flow.rs:301-345 [check_for_invalidation_at_exit] *)
Definition check_for_invalidation_at_exit (fi : FlowIn) (b : Borrow) : bool :=
  let will_be_dropped := if b_thread_local b then true else f_locals_invalidated fi in
  if negb will_be_dropped then false
  else if b_thread_local b then b_conflicts_deref b else b_conflicts_root b.

Inductive FlowEdgeKind :=
| LocalOutlivesUniversal
| MissingUniversalConstraint
| LocalInvalidatedAtExit
| FlowOk.

(** flow.rs:140-158 [RegionFlows] *)
Record RegionFlows := mkRF {
  rf_graph : list (nat * nat);
  rf_specified : TRel;
  rf_dangling : list nat;
  rf_abstract : list nat;
  rf_contains_abstract : TRel;
  rf_contains_local : TRel
}.

(** flow.rs:384-395: the abstract sources. *)
Definition abstract_origins (fi : FlowIn) : list Origin :=
  filter (fun p => memb Nat.eq_dec p (flatten_tuples (f_subset fi))) (f_placeholder fi)
  ++ f_return fi.

(** flow.rs:350-491 [compute_flows]; [None] is an index panic in [scc]. *)
Definition compute_flows (fi : FlowIn) : option RegionFlows :=
  let g := f_subset fi in
  let vertices := flatten_tuples g in
  match traverse (scc g) (abstract_origins fi) with
  | None => None
  | Some placeholders =>
      let placeholder_edges :=
        map (fun ft => (scc_rep g (fst ft), scc_rep g (snd ft)))
            (filter (fun ft => memb Nat.eq_dec (fst ft) vertices && memb Nat.eq_dec (snd ft) vertices)
                    (f_known fi))
        ++ map (fun o => (o, o)) placeholders in
      match traverse (scc g) (map b_region (filter (fun b => negb (b_indirect b)) (f_borrows fi))),
            traverse (scc g) (map b_region (filter (check_for_invalidation_at_exit fi) (f_error_loans fi)))
      with
      | Some local_sources, Some dangling =>
          Some (mkRF g
            (flow_from_sources placeholders placeholder_edges)
            dangling
            placeholders
            (flow_from_sources placeholders (scc_edges g))
            (flow_from_sources local_sources (scc_edges g)))
      | _, _ => None
      end
  end.

(** flow.rs:166-168, 171-183 *)
Definition is_abstract_member (rf : RegionFlows) (s : nat) : bool := memb Nat.eq_dec s (rf_abstract rf).
Definition has_local_member (rf : RegionFlows) (s : nat) : bool :=
  match reachable_from (rf_contains_local rf) s with [] => false | _ => true end.

(** flow.rs:187-255 [flow_kind]; [None] is an index panic in [scc]. *)
Definition flow_kind (rf : RegionFlows) (from to : Origin) : option FlowEdgeKind :=
  match scc (rf_graph rf) from, scc (rf_graph rf) to with
  | Some sf, Some st =>
      Some (
        if sf =? st then FlowOk
        else if has_local_member rf sf && is_abstract_member rf st then LocalOutlivesUniversal
        else if negb (forallb (fun f =>
                   forallb (fun t => tcontains (rf_specified rf) t f)
                           (reachable_from (rf_contains_abstract rf) st))
                 (reachable_from (rf_contains_abstract rf) sf))
             then MissingUniversalConstraint
        else if existsb (fun l => memb Nat.eq_dec l (rf_dangling rf))
                        (reachable_from (rf_contains_local rf) sf)
             then LocalInvalidatedAtExit
        else FlowOk)
  | _, _ => None
  end.
