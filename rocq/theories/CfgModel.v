(** * Model of the cleaned control-flow graph, dominance and MIR location lookup

    Models crates/aquascope/src/analysis/ir_mapper/{body_graph,post_dominators,
    mir_locations,mod}.rs and the branch-join computation of
    crates/aquascope/src/analysis/stepper/segmented_mir.rs.

    rustc's dominator tree ([rustc_data_structures::graph::dominators]) and
    rustc_utils' [PostDominators] are libraries: they are modelled by a
    computation with the textbook meaning, "reachable, but not reachable any
    more once the dominator is removed". *)

From Coq Require Import List Arith Bool Lia.
From Verif Require Import Base.
Import ListNotations.

(** ** MIR bodies *)

(** rustc_middle::mir::TerminatorKind, reduced to what the code looks at.
    [TOther] stands for goto, call, drop, assert, ... with all targets in the
    order of [successors()], unwind targets included.
    Simplification: operands and switch values are dropped. *)
Inductive term :=
| TReturn
| TUnreachable
| TSwitchInt (ts : list nat)
| TFalseEdge (real imaginary : nat)
| TFalseUnwind (real : nat) (unwind : option nat)
| TOther (ts : list nat).

(** rustc_middle::mir::BasicBlockData: number of statements, is_cleanup, terminator. *)
Record block := Block { b_stmts : nat; b_cleanup : bool; b_term : term }.

(** rustc_middle::mir::Body::basic_blocks; block 0 is the start node
    (body_graph.rs 108-112). *)
Definition body := list block.

(** rustc_middle::mir::Location. *)
Record loc := Loc { l_block : nat; l_idx : nat }.

Definition loc_eqd : forall a b : loc, {a = b} + {a <> b}.
Proof. decide equality; apply Nat.eq_dec. Defined.

(** Terminator::successors (rustc): every target, real or not. *)
Definition targets (t : term) : list nat :=
  match t with
  | TReturn | TUnreachable => []
  | TSwitchInt ts | TOther ts => ts
  | TFalseEdge r i => [r; i]
  | TFalseUnwind r None => [r]
  | TFalseUnwind r (Some u) => [r; u]
  end.

(** ** body_graph.rs *)

(** body_graph.rs 136-144: BasicBlockDataExt::is_unreachable. *)
Definition is_unreachable (d : block) : bool :=
  match b_term d with TUnreachable => true | _ => false end.

(** body_graph.rs 78-80: keep_block. *)
Definition keep_block (d : block) : bool :=
  negb (b_cleanup d) && negb (is_unreachable d).

(** body_graph.rs 82-94: is_imaginary_target. *)
Definition is_imaginary_target (d : block) (target : nat) : bool :=
  match b_term d with
  | TFalseEdge _ i => i =? target
  | _ => false
  end.

(** BasicBlocks as Successors (rustc). An index outside the body panics in the
    code; here it has no successors. *)
Definition raw_successors (bd : body) (n : nat) : list nat :=
  match nth_error bd n with
  | Some d => targets (b_term d)
  | None => []
  end.

(** body_graph.rs 117-121: the closure given to [filter].  Note that [from_data]
    is the data of the successor, not of [node]. *)
Definition keep_successor (bd : body) (bb : nat) : bool :=
  match nth_error bd bb with
  | Some from_data => keep_block from_data && negb (is_imaginary_target from_data bb)
  | None => false
  end.

(** body_graph.rs 114-125: Successors for CleanedBody. *)
Definition successors (bd : body) (n : nat) : list nat :=
  filter (keep_successor bd) (raw_successors bd n).

(** BasicBlocks as Predecessors (rustc): the blocks with an edge to [n].
    Simplification: a predecessor with several edges is listed once. *)
Definition raw_predecessors (bd : body) (n : nat) : list nat :=
  filter (fun b => memb Nat.eq_dec n (raw_successors bd b)) (seq 0 (length bd)).

(** body_graph.rs 127-134: Predecessors for CleanedBody. *)
Definition predecessors (bd : body) (n : nat) : list nat :=
  filter (fun b => match nth_error bd b with Some d => keep_block d | None => false end)
    (raw_predecessors bd n).

(** body_graph.rs 71-76: is_false_edge. *)
Definition is_false_edge (bd : body) (n : nat) : bool :=
  match nth_error bd n with
  | Some d => match b_term d with TFalseEdge _ _ => true | _ => false end
  | None => false
  end.

(** body_graph.rs 28-54: location_successor. *)
Definition location_successor (bd : body) (l : loc) : option loc :=
  match nth_error bd (l_block l) with
  | None => None
  | Some d =>
    if l_idx l <? b_stmts d then Some (Loc (l_block l) (S (l_idx l)))
    else match successors bd (l_block l) with
         | [n] => Some (Loc n 0)
         | _ => None
         end
  end.

(** ** Graphs, dominators and post-dominators *)

(** rustc_data_structures::graph::ControlFlowGraph. *)
Record graph := Graph {
  g_nodes : nat;
  g_start : nat;
  g_succ : nat -> list nat;
  g_pred : nat -> list nat
}.

(** body_graph.rs 100-134: CleanedBody as a ControlFlowGraph. *)
Definition cleaned (bd : body) : graph :=
  Graph (length bd) 0 (successors bd) (predecessors bd).

Definition edges_of (n : nat) (next : nat -> list nat) : list (nat * nat) :=
  flat_map (fun x => map (pair x) (next x)) (seq 0 n).

(** Is [n] still reachable from [s] when [d] is removed? *)
Definition reach_avoiding (E : list (nat * nat)) (s d n : nat) : bool :=
  negb (s =? d) &&
  memb Nat.eq_dec n
    (reach_list Nat.eq_dec (filter (fun e => negb (snd e =? d)) E) [s]).

(** Dominators::is_reachable (rustc). *)
Definition is_reachable (E : list (nat * nat)) (s n : nat) : bool :=
  memb Nat.eq_dec n (reach_list Nat.eq_dec E [s]).

(** Dominators::dominates (rustc), for a reachable [n]. *)
Definition dom_in (E : list (nat * nat)) (s d n : nat) : bool :=
  negb (reach_avoiding E s d n).

(** rustc_utils::mir::control_dependencies::PostDominators::{build,
    post_dominators}: dominators of the reversed graph started at [exit];
    [None] for a node that cannot reach the exit. *)
Definition exit_post_dominators (g : graph) (exit node : nat) : option (list nat) :=
  let R := edges_of (g_nodes g) (g_pred g) in
  if is_reachable R exit node
  then Some (filter (fun d => dom_in R exit d node) (seq 0 (g_nodes g)))
  else None.

(** post_dominators.rs 12-34: AllPostDominators::build.  The bit matrix is a
    list of rows, a row the list of its set columns. *)
Definition pdom_round (g : graph) (rows : list (list nat)) (exit : nat) : list (list nat) :=
  map (fun node =>
         let is_pdom := match exit_post_dominators g exit node with
                        | Some l => l
                        | None => []
                        end in
         filter (fun d => memb Nat.eq_dec d is_pdom) (nth node rows []))
      (seq 0 (g_nodes g)).

Definition all_post_dominators (g : graph) (exits : list nat) : list (list nat) :=
  fold_left (pdom_round g) exits
    (map (fun _ => seq 0 (g_nodes g)) (seq 0 (g_nodes g))).

(** post_dominators.rs 36-41: is_postdominated_by. *)
Definition is_postdominated_by (rows : list (list nat)) (node dom : nat) : bool :=
  match nth_error rows node with
  | Some set => memb Nat.eq_dec dom set
  | None => false
  end.

(** ** mod.rs: the IR mapper's queries *)

(** rustc_utils BodyExt::all_returns: the blocks ending in a return (mod.rs 78-81). *)
Definition all_returns (bd : body) : list nat :=
  filter (fun b => match nth_error bd b with
                   | Some d => match b_term d with TReturn => true | _ => false end
                   | None => false
                   end) (seq 0 (length bd)).

Definition cleaned_edges (bd : body) : list (nat * nat) :=
  edges_of (length bd) (successors bd).

(** mod.rs 121-123: dominates. *)
Definition dominates (bd : body) (dom node : nat) : bool :=
  is_reachable (cleaned_edges bd) 0 node && dom_in (cleaned_edges bd) 0 dom node.

(** mod.rs 125-127 with 78-81: post_dominates. *)
Definition post_dominates (bd : body) (pdom node : nat) : bool :=
  is_postdominated_by (all_post_dominators (cleaned bd) (all_returns bd)) node pdom.

(** mod.rs 107-112: ldominates. *)
Definition ldominates (bd : body) (dom node : loc) : bool :=
  if l_block dom =? l_block node then l_idx dom <=? l_idx node
  else dominates bd (l_block dom) (l_block node).

(** mod.rs 114-119: lpost_dominates. *)
Definition lpost_dominates (bd : body) (pdom node : loc) : bool :=
  if l_block pdom =? l_block node then l_idx node <=? l_idx pdom
  else post_dominates bd (l_block pdom) (l_block node).

(** mod.rs 165-172: is_false_location. *)
Definition is_false_location (bd : body) (l : loc) : bool :=
  match nth_error bd (l_block l) with
  | Some d => (b_stmts d =? 0) &&
              match b_term d with
              | TFalseUnwind _ _ | TFalseEdge _ _ => true
              | _ => false
              end
  | None => false
  end.

(** mod.rs 269-273: is_block_unreachable. *)
Definition is_block_unreachable (bd : body) (b : nat) : bool :=
  match nth_error bd b with
  | Some d => is_unreachable d
  | None => false
  end.

(** [sort_unstable] on statement indices. *)
Fixpoint insert_nat (x : nat) (l : list nat) : list nat :=
  match l with
  | [] => [x]
  | y :: r => if x <=? y then x :: y :: r else y :: insert_nat x r
  end.
Definition sort_nat (l : list nat) : list nat := fold_right insert_nat [] l.

(** mod.rs 297-345: the visitor collects, per HIR node, the locations of its
    statements and terminators: [hir_to_mir], one entry per node.  The map from
    a location to its HIR node (location_to_hir_id) is an input.  Cleanup
    blocks are left out in the [IgnoreCleanup] gather mode. *)
Definition hir_to_mir := list (nat * list loc).

Definition block_locs (bd : body) (b : nat) : list loc :=
  match nth_error bd b with
  | Some d => map (Loc b) (seq 0 (S (b_stmts d)))
  | None => []
  end.

(** mod.rs 301-315: visit_basic_block_data. *)
Definition visited_block (bd : body) (ignore_cleanup : bool) (b : nat) : bool :=
  match nth_error bd b with
  | Some d => if ignore_cleanup then negb (b_cleanup d) else true
  | None => false
  end.

(** mod.rs 317-345: visit_statement and visit_terminator,
    [entry(hir_id).or_default().insert(location)]. *)
Definition record_loc (hir_of : loc -> nat) (m : hir_to_mir) (l : loc) : hir_to_mir :=
  let h := hir_of l in
  let old := match aget Nat.eq_dec m h with Some s => s | None => [] end in
  aset Nat.eq_dec m h (if in_dec loc_eqd l old then old else old ++ [l]).

Definition gather (bd : body) (ignore_cleanup : bool) (hir_of : loc -> nat) : hir_to_mir :=
  fold_left (record_loc hir_of)
    (flat_map (block_locs bd) (filter (visited_block bd ignore_cleanup) (seq 0 (length bd))))
    [].

(** mod.rs 58-68: GatherDepth. *)
Inductive depth := Outer | Nested.

(** mod.rs 188-204: the locations of the node, with those of its descendants
    when nested.  [ancestors] is [hir.parent_id_iter]. *)
Definition node_locations (m : hir_to_mir) (ancestors : nat -> list nat)
    (hir_id : nat) (dp : depth) : list loc :=
  let outer := match aget Nat.eq_dec m hir_id with Some s => s | None => [] end in
  match dp with
  | Outer => outer
  | Nested =>
    nodup loc_eqd (outer ++
      flat_map (fun e => if memb Nat.eq_dec hir_id (ancestors (fst e)) then snd e else []) m)
  end.

(** mir_locations.rs 4-10: MirOrderedLocations. *)
Record mol := Mol {
  entry_block : option nat;
  exit_block : option nat;
  locations : list (nat * list nat)
}.

(** mod.rs 213-220: the fold's body. *)
Definition group_loc (bd : body) (acc : list (nat * list nat)) (l : loc) :
    list (nat * list nat) :=
  if is_block_unreachable bd (l_block l) then acc
  else let old := match aget Nat.eq_dec acc (l_block l) with Some s => s | None => [] end in
       aset Nat.eq_dec acc (l_block l) (old ++ [l_idx l]).

(** mod.rs 228-236. *)
Definition find_entry (bd : body) (bbs : list nat) : option nat :=
  find (fun c => forallb (fun b => dominates bd c b) bbs) bbs.

(** mod.rs 238-249. *)
Definition find_exit (bd : body) (bbs : list nat) : option nat :=
  find (fun c => forallb (fun b => post_dominates bd c b) bbs) bbs.

(** mod.rs 183-267: get_mir_locations, from the set of locations of the node.
    [locs] lists the hash set in its iteration order; [ord] is the iteration
    order of the keys of the hash map built from it. *)
Definition get_mir_locations (bd : body) (ord : list nat -> list nat) (locs : list loc) :
    option mol :=
  match locs with
  | [] => None
  | _ =>
    let m := fold_left (group_loc bd)
               (filter (fun l => negb (is_false_location bd l)) locs) [] in
    let m := map (fun e => (fst e, sort_nat (snd e))) m in
    let bbs := ord (akeys m) in
    Some (Mol (find_entry bd bbs) (find_exit bd bbs) m)
  end.

(** mir_locations.rs 13-26: entry_location. [None] stands both for no entry
    block and for the two panics; C23 shows that the panics cannot happen. *)
Definition entry_location (m : mol) : option loc :=
  match entry_block m with
  | None => None
  | Some b => match aget Nat.eq_dec (locations m) b with
              | Some (i :: _) => Some (Loc b i)
              | _ => None
              end
  end.

(** mir_locations.rs 28-41: exit_location. *)
Definition exit_location (m : mol) : option loc :=
  match exit_block m with
  | None => None
  | Some b => match aget Nat.eq_dec (locations m) b with
              | None => Some (Loc b 0)
              | Some vs => match rev vs with
                           | i :: _ => Some (Loc b i)
                           | [] => None
                           end
              end
  end.

(** mir_locations.rs 43-47: get_entry_exit_locations. *)
Definition get_entry_exit_locations (m : mol) : option (loc * loc) :=
  match entry_location m, exit_location m with
  | Some a, Some b => Some (a, b)
  | _, _ => None
  end.

(** mir_locations.rs 49-56: values, for one iteration order of the map. *)
Definition values (m : mol) : list loc :=
  flat_map (fun e => map (Loc (fst e)) (snd e)) (locations m).

(** ** segmented_mir.rs: the join of a branch *)

(** segmented_mir.rs 468-514: least_post_dominator.  [ord] is the iteration
    order of the hash set [reachable]. *)
Definition branch_region (bd : body) (root : nat) : list nat :=
  filter (fun b => dominates bd root b)
    (reach_list Nat.eq_dec (cleaned_edges bd) [root]).

Definition join_candidates (bd : body) (region : list nat) (root most : nat) : list nat :=
  filter (fun c => negb (c =? root) && negb (is_false_edge bd c) && dominates bd c most) region.

Definition least_post_dominator (bd : body) (ord : list nat -> list nat) (root : nat) :
    option nat :=
  let region := ord (branch_region bd root) in
  match find (fun c => forallb (fun n => post_dominates bd c n) region) region with
  | None => None
  | Some most =>
    let cands := join_candidates bd region root most in
    find (fun c => forallb (fun n => dominates bd c n) cands) cands
  end.

(** segmented_mir.rs 516-545: find_next_switchint.  The iterator has no bound
    in the code; [fuel] counts the blocks it has visited, and running out of
    fuel is the distinct outcome [None]. *)
Definition is_switchint (bd : body) (b : nat) : bool :=
  match nth_error bd b with
  | Some d => match b_term d with TSwitchInt _ => true | _ => false end
  | None => false
  end.

Fixpoint next_switch_block (bd : body) (fuel : nat) (b : nat) : option (option nat) :=
  match fuel with
  | 0 => None
  | S f =>
    if is_switchint bd b then Some (Some b)
    else match successors bd b with
         | [n] => next_switch_block bd f n
         | _ => Some None
         end
  end.

Definition find_next_switchint (bd : body) (fuel : nat) (current : loc) :
    option (option loc) :=
  match next_switch_block bd fuel (l_block current) with
  | None => None
  | Some None => Some None
  | Some (Some b) =>
    Some (Some (Loc b (match nth_error bd b with Some d => b_stmts d | None => 0 end)))
  end.
