(** * Model of the builder of MIR segments

    Models crates/aquascope/src/analysis/stepper/segmented_mir.rs.  The join of
    a branch and the search for the next switch are in CfgModel.v. *)
From Coq Require Import List Arith Bool Lia.
From Verif Require Import Base FactsModel FlowModel CfgModel.
Import ListNotations.

(** Outcome of an operation that mutates the builder: it returns, panics, or
    never returns.  A returned [Err] is part of the value. *)
Inductive res (A : Type) : Type :=
| Val (a : A)
| Panic
| Loop.
Arguments Val {A}. Arguments Panic {A}. Arguments Loop {A}.

Definition bind {A B} (x : res A) (f : A -> res B) : res B :=
  match x with Val a => f a | Panic => Panic | Loop => Loop end.

(** segmented_mir.rs 147-152 [SegmentData] with mod.rs [MirSegment]; a span is a
    number. *)
Record seg := Seg { s_from : loc; s_to : loc; s_span : nat; s_scope : nat }.

(** segmented_mir.rs 154-176 [BranchData] (without the unused joins). *)
Record branch := Branch {
  br_table : nat;
  br_reach : loc * loc;
  br_splits : list nat;
  br_nested : list nat
}.

(** segmented_mir.rs 178-182 [CFKind]. *)
Inductive cf := Linear (sid : nat) | Branching (bid : nat).

(** segmented_mir.rs 128-145 [LengthKind]. *)
Inductive lkind := Bounded (root phi : loc) | Unbounded (root : loc).

(** segmented_mir.rs 184-188 [Collection]. *)
Record coll := Coll { c_data : list cf; c_kind : lkind }.

(** segmented_mir.rs 190-194 [CollectionBuilder]. *)
Record builder := Builder { bl_coll : nat; bl_cur : loc }.

(** The closures that hir_steps.rs 409-426 and 462-477 pass to [open_branch]:
    the entries of a hash map (in its iteration order) and the default span. *)
Record spanner := Spanner { sp_entries : list (loc * nat); sp_default : nat }.

(** hir_steps.rs 413-425 and 466-477: the closure's body. *)
Definition get_span (bd : body) (sp : spanner) (to : loc) : loc * nat :=
  match find (fun e => ldominates bd to (fst e)) (sp_entries sp) with
  | Some e => e
  | None => (to, sp_default sp)
  end.

(** segmented_mir.rs 212-224 [SegmentedMirBuilder].  [processing] is oldest
    first, [open_scopes] innermost first.  [table] is ena's unification table:
    the root and the rank of every key. *)
Record st := St {
  colls : list coll;
  branches : list branch;
  segs : list seg;
  processing : list builder;
  table : list (nat * nat);
  spanners : list (nat * spanner);
  scope_edges : list (nat * nat);
  open_scopes : list nat;
  next_scope : nat
}.

(** segmented_mir.rs 359-397 [make]; the first collection is number 0. *)
Definition make : st :=
  St [Coll [] (Unbounded (Loc 0 0))] [] [] [Builder 0 (Loc 0 0)] [] [] [] [0] 1.

Definition upd {A} (l : list A) (i : nat) (f : A -> A) : list A :=
  map (fun jx => if fst jx =? i then f (snd jx) else snd jx) (enumerate l).

(** ** Scopes *)

(** segmented_mir.rs 439-441 [current_scope]; the list is never empty. *)
Definition current_scope (s : st) : nat :=
  match open_scopes s with [] => 0 | x :: _ => x end.

(** segmented_mir.rs 422-428 [next_scope] and 443-447 [open_scope]. *)
Definition open_scope (s : st) : st * nat :=
  let n := next_scope s in
  (St (colls s) (branches s) (segs s) (processing s) (table s) (spanners s)
      (scope_edges s ++ [(n, current_scope s)]) (n :: open_scopes s) (S n), n).

(** segmented_mir.rs 449-462 [close_scope]; [None] is the returned error. *)
Definition close_scope (s : st) (idx : nat) : option st :=
  if idx =? 0 then None
  else match open_scopes s with
       | [] => None
       | last_open :: rest =>
         if last_open =? idx
         then Some (St (colls s) (branches s) (segs s) (processing s) (table s) (spanners s)
                       (scope_edges s) rest (next_scope s))
         else None
       end.

(** segmented_mir.rs 344-350 [parent_scopes]. *)
Definition parent_scopes (s : st) (scope : nat) : list nat := reachable_from (scope_edges s) scope.

(** ** The unification table (ena's [InPlaceUnificationTable]) *)

Definition tfind (t : list (nat * nat)) (k : nat) : nat :=
  match nth_error t k with Some (r, _) => r | None => k end.
Definition trank (t : list (nat * nat)) (k : nat) : nat :=
  match nth_error t k with Some (_, r) => r | None => 0 end.

(** [new_key] *)
Definition new_key (t : list (nat * nat)) : list (nat * nat) := t ++ [(length t, 0)].

(** All keys with root [old] get the root [new], which gets the rank. *)
Definition redirect (t : list (nat * nat)) (rank old new : nat) : list (nat * nat) :=
  map (fun kx => let '(k, (r, n)) := kx in
                 (if r =? old then new else r, if k =? new then rank else n)) (enumerate t).

(** [union]: by rank.  [first_wins] says which of two roots of equal rank
    stays a root: ena keeps the second one, that is [first_wins = false]. *)
Definition union (first_wins : bool) (t : list (nat * nat)) (a b : nat) : list (nat * nat) :=
  let ra := tfind t a in
  let rb := tfind t b in
  if ra =? rb then t
  else if trank t rb <? trank t ra then redirect t (trank t ra) rb ra
  else if trank t ra <? trank t rb then redirect t (trank t rb) ra rb
  else if first_wins then redirect t (S (trank t ra)) rb ra
  else redirect t (S (trank t ra)) ra rb.

(** ** Branches *)

(** segmented_mir.rs 250-272: the open builders, newest first, with their index. *)
Definition newest_first (s : st) : list (nat * builder) := rev (enumerate (processing s)).

Definition find_builder (bd : body) (s : st) (location : loc) : option (nat * builder) :=
  find (fun ib => ldominates bd (bl_cur (snd ib)) location) (newest_first s).

(** segmented_mir.rs 556-557.  [None]: the search never ends; more fuel than the
    number of blocks changes nothing (C28). *)
Definition switch_location (bd : body) (location : loc) : option loc :=
  match find_next_switchint bd (S (length bd)) location with
  | None => None
  | Some None => Some location
  | Some (Some sw) => Some sw
  end.

(** segmented_mir.rs 353-356 [GetSpanner]. *)
Inductive getspanner := GetFrom (bid : nat) | InsertNew (sp : spanner).

Definition lookup_spanner (s : st) (g : getspanner) : option spanner :=
  match g with
  | InsertNew sp => Some sp
  | GetFrom b => aget Nat.eq_dec (spanners s) b
  end.

(** segmented_mir.rs 606-616: the kind of the nested collections. *)
Definition nested_kind (location : loc) (phi : option loc) : lkind :=
  match phi with
  | Some p => Bounded location p
  | None => Unbounded location
  end.

(** segmented_mir.rs 226-237 [BranchData::new]. *)
Definition reach_of (root : loc) (phi : option loc) : loc * loc :=
  (root, match phi with Some p => p | None => root end).

(** segmented_mir.rs 547-651 [mk_branch].  The value [None] is the returned
    error, which leaves the builder as it is.  The loop over the successors is
    done at once: the new segments, collections and builders are appended in
    its order. *)
Definition mk_branch (bd : body) (ord : list nat -> list nat) (s : st) (location : loc)
    (g : getspanner) : res (st * option nat) :=
  match switch_location bd location with
  | None => Loop
  | Some sw =>
    let phi := option_map (fun b => Loc b 0) (least_post_dominator bd ord (l_block sw)) in
    match find_builder bd s location with
    | None => Val (s, None)
    | Some (i, b) =>
      if loc_eqd (bl_cur b) location then
        match lookup_spanner s g with
        | None => Panic
        | Some sp =>
          let bid := length (branches s) in
          let arms := map (fun n => get_span bd sp (Loc n 0)) (successors bd (l_block sw)) in
          let sids := seq (length (segs s)) (length arms) in
          let cids := seq (length (colls s)) (length arms) in
          Val (St
            (upd (colls s) (bl_coll b) (fun c => Coll (c_data c ++ [Branching bid]) (c_kind c))
               ++ map (fun _ => Coll [] (nested_kind location phi)) arms)
            (branches s ++ [Branch (length (table s)) (reach_of sw phi) sids cids])
            (segs s ++ map (fun a => Seg location (fst a) (snd a) (current_scope s)) arms)
            (upd (processing s) i (fun b => Builder (bl_coll b)
                                      (match phi with Some p => p | None => bl_cur b end))
               ++ map (fun ca => Builder (fst ca) (fst (snd ca))) (combine cids arms))
            (new_key (table s))
            (match g with InsertNew sp => aset Nat.eq_dec (spanners s) bid sp
                     | GetFrom _ => spanners s end)
            (scope_edges s) (open_scopes s) (next_scope s), Some bid)
        end
      else Val (s, None)
    end
  end.

(** segmented_mir.rs 657-669 [open_branch]. *)
Definition open_branch bd ord (s : st) (location : loc) (sp : spanner) : res (st * option nat) :=
  mk_branch bd ord s location (InsertNew sp).

Definition with_table (s : st) (t : list (nat * nat)) : st :=
  St (colls s) (branches s) (segs s) (processing s) t (spanners s) (scope_edges s)
     (open_scopes s) (next_scope s).

(** segmented_mir.rs 671-683 [open_child_branch]; the boolean is "Ok". *)
Definition open_child_branch (first_wins : bool) bd ord (s : st) (parent : nat) (root : loc)
  : res (st * bool) :=
  bind (mk_branch bd ord s root (GetFrom parent)) (fun r =>
    match r with
    | (s', None) => Val (s', false)
    | (s', Some child) =>
      match nth_error (branches s') parent, nth_error (branches s') child with
      | Some p, Some c =>
        Val (with_table s' (union first_wins (table s') (br_table p) (br_table c)), true)
      | _, _ => Panic
      end
    end).

(** segmented_mir.rs 689-717 [close_branch]. *)
Definition close_branch (s : st) (bid : nat) : res st :=
  match nth_error (branches s) bid with
  | None => Panic
  | Some b =>
    let closing := filter (fun bd' => br_table b =? tfind (table s) (br_table bd')) (branches s) in
    let cids := flat_map br_nested closing in
    Val (St (colls s) (branches s) (segs s)
            (filter (fun cb => negb (memb Nat.eq_dec (bl_coll cb) cids)) (processing s))
            (table s) (spanners s) (scope_edges s) (open_scopes s) (next_scope s))
  end.

(** segmented_mir.rs 719-724 [find_containing_branch]. *)
Definition find_containing_branch (s : st) (cid : nat) : option nat :=
  option_map fst (find (fun ib => memb Nat.eq_dec cid (br_nested (snd ib))) (enumerate (branches s))).

(** segmented_mir.rs 202-207 [FindResult]. *)
Inductive find_result :=
| FrNone
| FrNonLinear (bid : nat) (l : loc)
| FrLinear (i : nat) (b : builder).

(** segmented_mir.rs 728-764 [find_suitable_collection]. *)
Definition find_suitable_collection (bd : body) (s : st) (location : loc) : find_result :=
  match find_builder bd s location with
  | None => FrNone
  | Some (i, b) =>
    if lpost_dominates bd location (bl_cur b) then FrLinear i b
    else match find_containing_branch s (bl_coll b) with
         | None => FrNone
         | Some bid => FrNonLinear bid (bl_cur b)
         end
  end.

(** segmented_mir.rs 841-853: where a linear step ends. *)
Definition cut (bd : body) (k : lkind) (location : loc) : loc :=
  match k with
  | Bounded _ phi => if ldominates bd phi location then phi else location
  | Unbounded _ => location
  end.

(** segmented_mir.rs 817-855: the common case of [insert]. *)
Definition insert_linear (bd : body) (s : st) (i : nat) (b : builder) (location : loc) (span : nat)
  : res st :=
  match nth_error (colls s) (bl_coll b) with
  | None => Panic
  | Some c =>
    let to := cut bd (c_kind c) location in
    Val (St (upd (colls s) (bl_coll b)
               (fun c => Coll (c_data c ++ [Linear (length (segs s))]) (c_kind c)))
            (branches s)
            (segs s ++ [Seg (bl_cur b) to span (current_scope s)])
            (upd (processing s) i (fun b => Builder (bl_coll b) to))
            (table s) (spanners s) (scope_edges s) (open_scopes s) (next_scope s))
  end.

(** segmented_mir.rs 775-859 [insert] (the path hint is unused).  The boolean is
    "Ok".  The recursion is unbounded in the code: running out of [fuel] is
    [Loop]. *)
Fixpoint insert (first_wins : bool) bd ord (fuel : nat) (s : st) (location : loc) (span : nat)
  : res (st * bool) :=
  match fuel with
  | 0 => Loop
  | S f =>
    match find_suitable_collection bd s location with
    | FrNone => Val (s, true)
    | FrNonLinear parent branch_loc =>
      bind (open_child_branch first_wins bd ord s parent branch_loc) (fun r =>
        match r with
        | (s', true) => insert first_wins bd ord f s' location span
        | (s', false) => Val (s', false)
        end)
    | FrLinear i b => bind (insert_linear bd s i b location span) (fun s' => Val (s', true))
    end
  end.

(** segmented_mir.rs 399-420 [finish_first_collection] and [freeze]: does it succeed? *)
Definition freeze (s : st) : bool := length (processing s) =? 1.

(** segmented_mir.rs 325-330 [get_branch_scope]; [None] is the index panic. *)
Definition get_branch_scope (s : st) (bid : nat) : option nat :=
  match nth_error (branches s) bid with
  | None => None
  | Some b => match br_splits b with
              | [] => None
              | sid :: _ => option_map s_scope (nth_error (segs s) sid)
              end
  end.

(** ** Histories
    The operations the HIR visitor performs on a builder.  An operation that
    returns an error is recorded by the visitor, which goes on. *)
Inductive op :=
| OpOpenScope
| OpCloseScope (idx : nat)
| OpOpenBranch (location : loc) (sp : spanner)
| OpCloseBranch (bid : nat)
| OpInsert (location : loc) (span : nat).

Definition step (first_wins : bool) bd ord (fuel : nat) (s : st) (o : op) : res st :=
  match o with
  | OpOpenScope => Val (fst (open_scope s))
  | OpCloseScope idx => Val (match close_scope s idx with Some s' => s' | None => s end)
  | OpOpenBranch l sp => bind (open_branch bd ord s l sp) (fun r => Val (fst r))
  | OpCloseBranch bid => close_branch s bid
  | OpInsert l span => bind (insert first_wins bd ord fuel s l span) (fun r => Val (fst r))
  end.

Fixpoint run (first_wins : bool) bd ord (fuel : nat) (s : st) (os : list op) : res st :=
  match os with
  | [] => Val s
  | o :: r => bind (step first_wins bd ord fuel s o) (fun s' => run first_wins bd ord fuel s' r)
  end.

(** The states a builder of [bd] can be in. *)
Definition Built (first_wins : bool) bd ord (s : st) : Prop :=
  exists fuel os, run first_wins bd ord fuel make os = Val s.
