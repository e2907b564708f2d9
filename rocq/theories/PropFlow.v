(** Property theorems C12-C13.  Specifications are in [FlowSpec.v]. *)

From Coq Require Import List Arith Bool.
From Verif Require Import Base FlowModel FlowSpec FlowProofs.
Import ListNotations.

(** C12: a region contains a source iff there is a chain of constraints. *)
Theorem C12_contains_iff_flows : forall (sources : list nat) (graph : list (nat * nat)) t s,
  (In s (reachable_from (flow_from_sources sources graph) t) <->
     In s sources /\ exists l, walk (edge graph) s l t) /\
  (tcontains (flow_from_sources sources graph) t s = true <->
     In s sources /\ exists l, walk (edge graph) s l t).
Proof. exact (fun S G t s => conj (contains_iff_flows S G t s) (tcontains_iff S G t s)). Qed.
Print Assumptions C12_contains_iff_flows.

(** Taking the transitive closure changes nothing: the recorded pairs already
    are all answers. *)
Theorem C12_closure_adds_nothing : forall sources graph t s,
  In s (reachable_from (flow_from_sources sources graph) t) <->
  In (t, s) (flow_from_sources sources graph).
Proof.
  exact (fun S G t s => iff_trans (contains_iff_flows S G t s) (iff_sym (flow_from_sources_edge S G t s))).
Qed.
Print Assumptions C12_closure_adds_nothing.

Example C12_witness :
  reachable_from (flow_from_sources [1; 5] [(1, 2); (2, 3); (3, 2); (5, 3)]) 3 = [1; 5].
Proof. vm_compute. reflexivity. Qed.

(** C13: the verdict is the documented decision list, stated on origins. *)
Theorem C13_verdict_iff_documented_rules : forall fi rf from to k,
  compute_flows fi = Some rf ->
  from < count_nodes (f_subset fi) -> to < count_nodes (f_subset fi) ->
  (flow_kind rf from to = Some k <-> Verdict fi from to k).
Proof. exact (fun fi rf from to k H => flow_kind_iff fi rf H from to k). Qed.
Print Assumptions C13_verdict_iff_documented_rules.

(** When the analysis answers at all (instead of an index panic). *)
Theorem C13_answers_iff_regions_in_range : forall fi,
  ((exists rf, compute_flows fi = Some rf) <->
   (forall o, Abstract fi o -> o < count_nodes (f_subset fi)) /\
   (forall b, In b (f_borrows fi) -> b_indirect b = false -> b_region b < count_nodes (f_subset fi)) /\
   (forall b, Dangling fi b -> b_region b < count_nodes (f_subset fi))) /\
  (forall rf from to, compute_flows fi = Some rf ->
    ((exists k, flow_kind rf from to = Some k) <->
     from < count_nodes (f_subset fi) /\ to < count_nodes (f_subset fi))).
Proof.
  exact (fun fi => conj (compute_flows_defined fi)
    (fun rf from to H => flow_kind_defined fi rf H from to)).
Qed.
Print Assumptions C13_answers_iff_regions_in_range.

(** "Declared flows are never reported as missing" holds when every lifetime
    in the target is the target's own or also above the source.  Missing: the
    unconditional claim, which is false, see below. *)
Theorem C13_declared_flows_accepted_partial : forall fi rf from to,
  compute_flows fi = Some rf ->
  AllAbstractFlowsDeclared fi -> FlowsTo (f_subset fi) from to ->
  (forall q, AbstractIn fi q to -> SameCycle (f_subset fi) q to \/ FlowsTo (f_subset fi) from q) ->
  flow_kind rf from to <> Some MissingUniversalConstraint.
Proof.
  exact (fun fi rf from to H AD F Own E =>
    no_false_missing fi from to AD F Own (flow_kind_verdict fi rf H from to _ E)).
Qed.
Print Assumptions C13_declared_flows_accepted_partial.

Theorem C13_declared_flow_rejected_refuted :
  exists fi rf from to,
    compute_flows fi = Some rf /\ AllAbstractFlowsDeclared fi /\
    In (from, to) (f_subset fi) /\ f_borrows fi = [] /\
    flow_kind rf from to = Some MissingUniversalConstraint.
Proof. exact false_missing. Qed.
Print Assumptions C13_declared_flow_rejected_refuted.

(** All four verdicts occur. *)
Example C13_witness :
  option_map (fun rf => map (fun ft => flow_kind rf (fst ft) (snd ft))
                            [(2, 4); (4, 0); (0, 5); (0, 1); (1, 0); (8, 9); (1, 6)])
    (compute_flows flow_demo)
  = Some [Some FlowOk; Some LocalOutlivesUniversal; Some FlowOk; Some LocalOutlivesUniversal;
          Some MissingUniversalConstraint; Some LocalInvalidatedAtExit; Some FlowOk].
Proof. vm_compute. reflexivity. Qed.
