(** Property theorems C05-C11.  Specifications are in [FactsSpec.v]; the witness
    body [Demo] is at the end of [FactsProofs.v]. *)

From Coq Require Import List Arith Bool.
From Verif Require Import Base PermsModel PermsSpec PermsProofs FactsModel FactsSpec FactsProofs.
Import ListNotations.

(** C05: the move named for a place at a point affects the place and reaches
    the point; it is the last such move; none is named iff there is none. *)
Theorem C05_moved_iff_reaching_move : forall inp out x p d,
  derive_permission_facts inp = Some out ->
  query inp out x p = Some d ->
  match path_moved d with
  | Some m => MoveAffects inp m x /\ MoveReaches inp m p /\
              (forall m', MoveAffects inp m' x -> MoveReaches inp m' p -> m' <= m)
  | None => forall m, MoveAffects inp m x -> ~ MoveReaches inp m p
  end.
Proof. exact (fun inp out x p d H => query_moved inp out H x p d). Qed.
Print Assumptions C05_moved_iff_reaching_move.

(** The move of [s] at 3 reaches 4, 5 and (over the back edge) 2 and 3; it takes the index
    place and the field of [s] with it and leaves [r] alone. *)
Example C05_witness :
  map (fun p => option_map path_moved (query Demo.inp Demo.out Demo.s0 p)) [0; 1; 2; 3; 4; 5]
    = [Some None; Some None; Some (Some 0); Some (Some 0); Some (Some 0); Some (Some 0)] /\
  option_map path_moved (query Demo.inp Demo.out (mkPlace 1 [Index 3]) 4) = Some (Some 0) /\
  option_map path_moved (query Demo.inp Demo.out Demo.r 4) = Some None.
Proof. vm_compute. repeat split. Qed.

(** C06 *)
Theorem C06_uninit_iff_nested_uninit : forall inp out x p d,
  derive_permission_facts inp = Some out ->
  query inp out x p = Some d ->
  (path_uninitialized d = true <-> MaybeUninit inp x p).
Proof. exact (fun inp out x p d H => query_uninit inp out H x p d). Qed.
Print Assumptions C06_uninit_iff_nested_uninit.

(** [s.0] is uninitialised on exit of 3, hence [s] is on entry of 4, not of 5. *)
Example C06_witness :
  map (fun p => option_map path_uninitialized (query Demo.inp Demo.out Demo.s p)) [1; 2; 3; 4; 5]
    = [Some false; Some false; Some false; Some true; Some false].
Proof. vm_compute. reflexivity. Qed.

(** C07 *)
Theorem C07_loans_refine_conflicting_places : forall inp out x p d,
  derive_permission_facts inp = Some out ->
  query inp out x p = Some d ->
  names_loan inp (fun l => in_loan_mut inp l = true) (loan_read_refined d) x p /\
  names_loan inp (fun _ => True) (loan_write_refined d) x p /\
  names_loan inp (fun _ => True) (loan_drop_refined d) x p.
Proof. exact (fun inp out x p d H => query_loans inp out H x p d). Qed.
Print Assumptions C07_loans_refine_conflicting_places.

Theorem C07_choice_independent_of_fact_order : forall i1 i2 o1 o2 x p d1 d2,
  same_loan_facts i1 i2 ->
  derive_permission_facts i1 = Some o1 -> derive_permission_facts i2 = Some o2 ->
  query i1 o1 x p = Some d1 -> query i2 o2 x p = Some d2 ->
  loan_read_refined d1 = loan_read_refined d2 /\
  loan_write_refined d1 = loan_write_refined d2 /\
  loan_drop_refined d1 = loan_drop_refined d2.
Proof. exact query_loans_deterministic. Qed.
Print Assumptions C07_choice_independent_of_fact_order.

Example C07_witness :
  map (fun p => option_map (fun d => (loan_read_refined d, loan_write_refined d))
                           (query Demo.inp Demo.out Demo.s p)) [0; 1; 2; 3]
    = [Some (None, None); Some (None, Some 7); Some (Some 9, Some 9); Some (None, None)].
Proof. vm_compute. reflexivity. Qed.

(** C08, on the normalised place. *)
Theorem C08_declared_capabilities : forall inp out x p d,
  derive_permission_facts inp = Some out ->
  query inp out x p = Some d ->
  (type_writeable d = true <->
     (~ In Deref (projection (in_normalize inp x)) ->
        in_local_mut inp (local (in_normalize inp x)) = true) /\
     (forall pre post, projection (in_normalize inp x) = pre ++ Deref :: post ->
        match in_ty inp (mkPlace (local (in_normalize inp x)) pre) with
        | TRef mutable => mutable = true
        | _ => in_local_mut inp (local (in_normalize inp x)) = true
        end)) /\
  (type_droppable d = true <-> DeclaredOwnable inp (in_normalize inp x)).
Proof.
  exact (fun inp out x p d H Q =>
    conj (proj1 (query_declared inp out H x p d Q)) (proj1 (proj2 (query_declared inp out H x p d Q)))).
Qed.
Print Assumptions C08_declared_capabilities.

(** Behind the shared reference [r] nothing is writeable; [s] is; an indexed
    element is not droppable. *)
Example C08_witness :
  option_map type_writeable (query Demo.inp Demo.out Demo.dr 1) = Some false /\
  option_map type_writeable (query Demo.inp Demo.out Demo.s 1) = Some true /\
  option_map type_droppable (query Demo.inp Demo.out Demo.s 1) = Some true /\
  option_map type_droppable (query Demo.inp Demo.out Demo.si 1) = Some false.
Proof. vm_compute. repeat split. Qed.

(** C09 *)
Theorem C09_roundtrip : forall norm ps x i,
  place_to_path norm (register_all norm empty_ctxt ps) x = Some i ->
  path_to_place (register_all norm empty_ctxt ps) i = Some (norm x).
Proof. exact interning_roundtrip. Qed.
Print Assumptions C09_roundtrip.

Theorem C09_lookup_succeeds_iff_registered : forall norm ps x,
  (exists i, place_to_path norm (register_all norm empty_ctxt ps) x = Some i) <->
  (exists y, In y ps /\ norm y = norm x).
Proof. exact interning_defined. Qed.
Print Assumptions C09_lookup_succeeds_iff_registered.

Theorem C09_same_path_iff_same_normal_form : forall norm ps x y i j,
  place_to_path norm (register_all norm empty_ctxt ps) x = Some i ->
  place_to_path norm (register_all norm empty_ctxt ps) y = Some j ->
  (i = j <-> norm x = norm y).
Proof. exact interning_injective. Qed.
Print Assumptions C09_same_path_iff_same_normal_form.

Theorem C09_paths_never_change_meaning : forall norm ps more x i,
  place_to_path norm (register_all norm empty_ctxt ps) x = Some i ->
  place_to_path norm (register_all norm empty_ctxt (ps ++ more)) x = Some i /\
  (forall k pl, path_to_place (register_all norm empty_ctxt ps) k = Some pl ->
     path_to_place (register_all norm empty_ctxt (ps ++ more)) k = Some pl).
Proof. exact interning_stable. Qed.
Print Assumptions C09_paths_never_change_meaning.

Example C09_witness :
  let c := register_all Demo.norm empty_ctxt [Demo.r; Demo.si; Demo.s; Demo.si] in
  place_to_path Demo.norm c (mkPlace 1 [Index 99]) = Some 1 /\
  path_to_place c 1 = Some (mkPlace 1 [Index 0]) /\
  place_to_path Demo.norm c Demo.t = None.
Proof. vm_compute. repeat split. Qed.

(** C10: the displayed letters in terms of the program facts. *)
Theorem C10_query_is_composition_of_facts : forall inp out x p d,
  derive_permission_facts inp = Some out ->
  query inp out x p = Some d ->
  (p_read (permissions d) = true <-> VarLive inp x p /\ PlaceReadable inp x p) /\
  (p_write (permissions d) = true <->
     VarLive inp x p /\ LoanFree inp x p /\ PlaceReadable inp x p /\
     DeclaredWriteable inp (in_normalize inp x)) /\
  (p_drop (permissions d) = true <->
     VarLive inp x p /\ LoanFree inp x p /\ PlaceReadable inp x p /\
     DeclaredOwnable inp (in_normalize inp x)).
Proof. exact (fun inp out x p d H => query_permissions inp out H x p d). Qed.
Print Assumptions C10_query_is_composition_of_facts.

(** The query answers for exactly the registered places (up to normalisation),
    and the derivation does not panic on well-formed facts. *)
Theorem C10_query_defined_iff_registered : forall inp out x p,
  ((exists d, query inp out x p = Some d) <->
   (exists y, Known inp y /\ in_normalize inp y = in_normalize inp x)).
Proof. exact query_defined. Qed.
Print Assumptions C10_query_defined_iff_registered.

Theorem C10_derivation_total : forall inp,
  facts_wf inp -> interior_registered inp ->
  exists out, derive_permission_facts inp = Some out.
Proof. exact derive_total. Qed.
Print Assumptions C10_derivation_total.

(** The per-point domain used by the stepper holds the query of every place. *)
Theorem C10_domain_holds_every_query : forall inp out p dom,
  permissions_domain_at_point inp out p = Some dom ->
  forall x, In x (in_places inp) ->
    exists d, query inp out x p = Some d /\ aget place_eqd dom x = Some d.
Proof. exact domain_at_point_spec. Qed.
Print Assumptions C10_domain_holds_every_query.

Example C10_witness :
  derive_permission_facts Demo.inp = Some Demo.out /\
  map (fun p => option_map permissions (query Demo.inp Demo.out Demo.s p)) [0; 1; 2; 3; 4; 5]
    = [Some (mkP true true true); Some (mkP true false false); Some (mkP false false false);
       Some (mkP false false false); Some (mkP false false false); Some (mkP false false false)].
Proof. vm_compute. repeat split. Qed.

(** C11: [span] gives the start and end of a point's span. *)
Theorem C11_region_is_hull_of_live_points : forall (span : Point -> nat * nat) live l,
  match aget Nat.eq_dec (construct_loan_regions span live) l with
  | Some (first, last) =>
      (exists ls, In (first, ls) live /\ In l ls) /\
      (exists ls, In (last, ls) live /\ In l ls) /\
      (forall p ls, In (p, ls) live -> In l ls ->
         fst (span first) <= fst (span p) /\ snd (span p) <= snd (span last))
  | None => forall p ls, In (p, ls) live -> ~ In l ls
  end.
Proof. exact loan_regions_hull. Qed.
Print Assumptions C11_region_is_hull_of_live_points.

Example C11_witness :
  aget Nat.eq_dec (construct_loan_regions (fun p => (10 * p, 10 * p + 5))
    [(4, [1; 2]); (2, [2]); (7, [2; 3])]) 2 = Some (2, 7).
Proof. vm_compute. reflexivity. Qed.
