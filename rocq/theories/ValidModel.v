(** * The project's own test of the steps of a function

    Sources: A/analysis/stepper/segmented_mir.rs 862-1085 [test_exts], which
    the tests of hir_steps.rs (785-817) run on the finished structure. *)
From Coq Require Import List Arith Bool.
From Verif Require Import Base CfgModel SegMirModel.
Import ListNotations.

(** 876-897 [InvalidReason], [BadSegmentKind]; [Absent] is the panic of an index
    that is not there, [Endless] stands for a recursion that does not end. *)
Inductive reason :=
| SplitNoDom (g : seg)
| LinearNoDom (g : seg)
| LinearNoPostDom (g : seg)
| Missing (ls : list loc)
| Absent
| Endless.

(** 899-912 [explode_block]; the last index is included.  A block that is not
    there would panic and has no locations here. *)
Definition explode_block (bd : body) (b : nat) (from to : option nat) : list loc :=
  match nth_error bd b with
  | None => []
  | Some d =>
    let start := match from with Some i => i | None => 0 end in
    let last := match to with Some i => i | None => b_stmts d end in
    map (Loc b) (seq start (S last - start))
  end.

(** 914-932 [MirSegment::explode].  rustc's [post_order_from_to] gives the blocks
    that are reached from the first without passing the last, which is added.
    Simplification: a set is wanted, so the order is another. *)
Definition explode (bd : body) (g : seg) : list loc :=
  let sb := l_block (s_from g) in
  let eb := l_block (s_to g) in
  flat_map (fun b =>
      explode_block bd b (if b =? sb then Some (l_idx (s_from g)) else None)
                         (if b =? eb then Some (l_idx (s_to g)) else None))
    (filter (reach_avoiding (cleaned_edges bd) sb eb) (seq 0 (length bd)) ++ [eb]).

(** A loop with [?] in it; what is seen is collected. *)
Fixpoint check_all {A} (f : A -> reason + list loc) (l : list A) : reason + list loc :=
  match l with
  | [] => inr []
  | x :: r =>
    match f x with
    | inl e => inl e
    | inr seen => match check_all f r with inl e => inl e | inr seen' => inr (seen ++ seen') end
    end
  end.

(** 953-973 [is_valid_split_segment] *)
Definition check_split (bd : body) (s : st) (sid : nat) : reason + list loc :=
  match nth_error (segs s) sid with
  | None => inl Absent
  | Some g => if negb (ldominates bd (s_from g) (s_to g)) then inl (SplitNoDom g) else inr (explode bd g)
  end.

(** 997-1023 [is_valid_segment] *)
Definition check_linear (bd : body) (s : st) (sid : nat) : reason + list loc :=
  match nth_error (segs s) sid with
  | None => inl Absent
  | Some g =>
    if negb (ldominates bd (s_from g) (s_to g)) then inl (LinearNoDom g)
    else if negb (lpost_dominates bd (s_to g) (s_from g)) then inl (LinearNoPostDom g)
    else inr (explode bd g)
  end.

(** 936-951 [is_valid_collection], 1025-1046 [is_valid_branch].  A branch never
    has joins (segmented_mir.rs makes it without any, and adds none), so that
    975-995 [is_valid_join_segment] is never called. *)
Fixpoint check_coll (fuel : nat) (bd : body) (s : st) (cid : nat) : reason + list loc :=
  match fuel with
  | 0 => inl Endless
  | S f =>
    match nth_error (colls s) cid with
    | None => inl Absent
    | Some c =>
      check_all (fun k =>
        match k with
        | Linear sid => check_linear bd s sid
        | Branching bid =>
          match nth_error (branches s) bid with
          | None => inl Absent
          | Some b =>
            match check_all (check_split bd s) (br_splits b) with
            | inl e => inl e
            | inr seen =>
              match check_all (check_coll f bd s) (br_nested b) with
              | inl e => inl e
              | inr seen' => inr (seen ++ seen')
              end
            end
          end
        end) (c_data c)
    end
  end.

(** body_graph.rs 59-67 [blocks]: those of rustc's order that are kept. *)
Definition graph_blocks (bd : body) : list nat :=
  filter (fun b => is_reachable (edges_of (length bd) (raw_successors bd)) 0 b &&
                   match nth_error bd b with Some d => keep_block d | None => false end) (seq 0 (length bd)).

(** 1049-1083 [validate]; [None] is [Ok].  The first collection is number 0; there
    are no more collections inside one another than collections. *)
Definition validate (bd : body) (s : st) : option reason :=
  let all := flat_map (fun b => explode_block bd b None None) (graph_blocks bd) in
  match check_coll (length (colls s)) bd s 0 with
  | inl e => Some e
  | inr seen =>
    match filter (fun l => negb (memb loc_eqd l seen)) all with
    | [] => None
    | missing => Some (Missing missing)
    end
  end.
