(** * Model of the visitor that asks for the steps of a function

    Models crates/aquascope/src/analysis/stepper/hir_steps.rs, and from
    ir_mapper/mod.rs the look-up of a node's locations.  The builder it drives is in
    SegMirModel.v, [get_mir_locations] in CfgModel.v. *)
From Coq Require Import List Arith Bool.
From Verif Require Import Base FactsModel CfgModel SegMirModel.
Import ListNotations.

(** ** The syntax tree
    Nodes carry their id.  Only what the visitor distinguishes is kept:
    [EIf], [EWhile] (the loop a [while] becomes), [EFor] (the loop a [for] becomes),
    [EMatch] (the flag: [MatchSource::ForLoopDesugar]), [EBlock] (a block or any other
    loop), [EClosure]; every other expression is [EOther] with its parts in the order
    rustc's [walk_expr] visits them.  Simplification: patterns and types contain no
    expressions. *)
Inductive expr :=
| EIf (id : nat) (cnd thn : expr) (els : oexpr)
| EWhile (id : nat) (cnd thn els : expr)
| EFor (id : nat) (cnd : expr) (none some : arm)
| EMatch (id : nat) (desugared : bool) (cnd : expr) (ar : arms)
| EBlock (id : nat) (b : blk)
| EClosure (id : nat) (value : expr)
| EOther (id : nat) (parts : exprs)
with oexpr := ENone | ESome (e : expr)
with exprs := Enil | Econs (e : expr) (r : exprs)
with arm := Arm (id pat : nat) (guard : oexpr) (bdy : expr)
with arms := Anil | Acons (a : arm) (r : arms)
with blk := Blk (stmts : stmts) (tail : oexpr)
with stmts := Snil | Scons (s : stmt) (r : stmts)
with stmt :=
| SLet (id : nat) (init : oexpr) (els : oblk)
| SExpr (id : nat) (e : expr)
| SItem (id : nat) (bodies : exprs)
with oblk := BNone | BSome (b : blk).

Definition expr_id (e : expr) : nat :=
  match e with
  | EIf i _ _ _ | EWhile i _ _ _ | EFor i _ _ _ | EMatch i _ _ _ | EBlock i _ | EClosure i _ | EOther i _ => i
  end.
Definition arm_pat (a : arm) : nat := match a with Arm _ p _ _ => p end.
Definition arm_body (a : arm) : expr := match a with Arm _ _ _ b => b end.
Definition stmt_id (s : stmt) : nat := match s with SLet i _ _ | SExpr i _ | SItem i _ => i end.

(** ** What the visitor knows
    [he_map]: mod.rs [hir_to_mir].  [he_inside child id]: is [id] among
    [parent_id_iter(child)]?  [he_span], [he_lo], [he_hi]: [span_of] a node,
    [shrink_to_lo] and [shrink_to_hi]; [he_dummy]: [Span::default()].  [he_entries]: the
    iteration order of the hash map of entries.  [he_locals]: mod.rs 131-157
    [local_assigned_place]. *)
Record henv := Henv {
  he_body : body;
  he_ord : list nat -> list nat;
  he_fw : bool;
  he_fuel : nat;
  he_map : list (nat * list loc);
  he_inside : nat -> nat -> bool;
  he_span : nat -> nat;
  he_lo : nat -> nat;
  he_hi : nat -> nat;
  he_dummy : nat;
  he_entries : list (loc * nat) -> list (loc * nat);
  he_locals : nat -> list nat
}.

(** mod.rs 183-204, [GatherDepth::Nested]. *)
Definition node_locs (env : henv) (id : nat) : list loc :=
  nodup loc_eqd
    ((match aget Nat.eq_dec (he_map env) id with Some l => l | None => [] end)
     ++ flat_map (fun e => if he_inside env (fst e) id then snd e else []) (he_map env)).

(** hir_steps.rs 253-258 *)
Definition node_entry (env : henv) (id : nat) : option loc :=
  match get_mir_locations (he_body env) (he_ord env) (node_locs env id) with
  | Some m => entry_location m
  | None => None
  end.

(** hir_steps.rs 260-280 *)
Definition node_exit (env : henv) (id : nat) : option loc :=
  match get_mir_locations (he_body env) (he_ord env) (node_locs env id) with
  | Some m => match exit_location m with
              | Some e => Some (match location_successor (he_body env) e with Some e' => e' | None => e end)
              | None => None
              end
  | None => None
  end.

(** ** The visitor's state: hir_steps.rs 80-101.  [h_log] is not in the code: the steps
    the builder was asked for, oldest first. *)
Inductive herror := ErrScope (idx : nat) | ErrBranch (l : loc) | ErrInsert (l : loc) | ErrHint (l : loc).

Record hst := Hst {
  h_st : st;
  h_unsupported : list nat;
  h_fatal : list herror;
  h_hints : list loc;
  h_locals : list (nat * list nat);
  h_log : list (loc * nat)
}.
Definition set_st (h : hst) (s : st) : hst := Hst s (h_unsupported h) (h_fatal h) (h_hints h) (h_locals h) (h_log h).
Definition fatal (h : hst) (e : herror) : hst := Hst (h_st h) (h_unsupported h) (h_fatal h ++ [e]) (h_hints h) (h_locals h) (h_log h).
Definition unsupported (h : hst) (id : nat) : hst := Hst (h_st h) (h_unsupported h ++ [id]) (h_fatal h) (h_hints h) (h_locals h) (h_log h).
Definition set_hints (h : hst) (l : list loc) : hst := Hst (h_st h) (h_unsupported h) (h_fatal h) l (h_locals h) (h_log h).
Definition set_locals (h : hst) (l : list (nat * list nat)) : hst := Hst (h_st h) (h_unsupported h) (h_fatal h) (h_hints h) l (h_log h).
Definition logged (h : hst) (l : loc) (span : nat) : hst := Hst (h_st h) (h_unsupported h) (h_fatal h) (h_hints h) (h_locals h) (h_log h ++ [(l, span)]).

(** hir_steps.rs 146-168 [make] *)
Definition hmake : hst := Hst make [] [] [] [] [].

(** hir_steps.rs 223-236 [push_branch_start], [pop_branch_start]; innermost first. *)
Definition push_hint (h : hst) (l : loc) : hst := set_hints h (l :: h_hints h).
Definition pop_hint (h : hst) (expecting : loc) : hst :=
  match h_hints h with
  | [] => h
  | popped :: r => if loc_eqd popped expecting then set_hints h r else fatal (set_hints h r) (ErrHint expecting)
  end.

Section Visitor.
  Context (env : henv).

  (** [invoke_internal!(self, insert, ..)], hir_steps.rs 111-131; the boolean: the
      macro did not return. *)
  Definition ask (l : loc) (span : nat) (h : hst) : res (hst * bool) :=
    bind (insert (he_fw env) (he_body env) (he_ord env) (he_fuel env) (h_st h) l span) (fun r =>
      let h' := logged (set_st h (fst r)) l span in
      Val (if snd r then h' else fatal h' (ErrInsert l), snd r)).

  (** hir_steps.rs 340-357 [insert_step_at_node_exit] *)
  Definition insert_at_exit (id : nat) (h : hst) : res hst :=
    match node_exit env id with
    | Some l => bind (ask l (he_span env id) h) (fun r => Val (fst r))
    | None => Val h
    end.

  (** [invoke_internal!(self, close_scope, ..)]; the boolean as above. *)
  Definition end_scope (idx : nat) (h : hst) : hst * bool :=
    match close_scope (h_st h) idx with
    | Some s => (set_st h s, true)
    | None => (fatal h (ErrScope idx), false)
    end.

  (** hir_steps.rs 359-372 [condition_produced_switchint] *)
  Definition condition_produced_switchint (cnd : nat) : bool :=
    match node_exit env cnd with
    | Some l => is_switchint (he_body env) (l_block l)
    | None => true
    end.

  (** hir_steps.rs 296-325 [expr_condition_prelude]; [visit] visits the condition. *)
  Definition prelude (cnd id : nat) (visit : hst -> res hst) (h : hst) : res (hst * option loc) :=
    bind (visit h) (fun h1 =>
      match (match node_exit env cnd with Some l => Some l | None => node_entry env id end) with
      | None => Val (h1, None)
      | Some l => bind (ask l (he_span env cnd) h1) (fun r => Val (fst r, if snd r then Some l else None))
      end).

  (** hir_steps.rs 377-446 [handle_expr_if] and 448-485 [handle_expr_match]: what they
      have in common. *)
  Definition branching (cnd id : nat) (entries : list (loc * nat)) (default : nat)
      (visit_cnd visit_arms : hst -> res hst) (h : hst) : res hst :=
    bind (prelude cnd id visit_cnd h) (fun r =>
      match r with
      | (h1, None) => Val h1
      | (h1, Some l) =>
        bind (open_branch (he_body env) (he_ord env) (h_st h1) l (Spanner (he_entries env entries) default)) (fun r2 =>
          match r2 with
          | (s, None) => Val (fatal (set_st h1 s) (ErrBranch l))
          | (s, Some bid) =>
            bind (visit_arms (set_st h1 s)) (fun h2 =>
              bind (close_branch (h_st h2) bid) (fun s2 => Val (set_st h2 s2)))
          end)
      end).

  (** hir_steps.rs 427-437, 440-449: one side of an [if]. *)
  Definition hinted (id : nat) (visit : hst -> res hst) (h : hst) : res hst :=
    match node_entry env id with
    | None => Val h
    | Some l => bind (visit (push_hint h l)) (fun h1 => Val (pop_hint h1 l))
    end.

  (** Inserting into the hash map of entries. *)
  Definition add_entry (id : nat) (span : nat) (m : list (loc * nat)) : list (loc * nat) :=
    match node_entry env id with Some l => aset loc_eqd m l span | None => m end.

  (** hir_steps.rs 686-697 *)
  Fixpoint arm_entries (a : arms) (m : list (loc * nat)) : list (loc * nat) :=
    match a with
    | Anil => m
    | Acons x r => arm_entries r (add_entry (expr_id (arm_body x)) (he_hi env (arm_pat x)) m)
    end.

  Definition single (a : arms) : bool := match a with Acons _ Anil => true | _ => false end.
  Definition has_guard (g : oexpr) : bool := match g with ESome _ => true | ENone => false end.

  (** hir_steps.rs 543-732 [visit_expr] and rustc's [walk_expr] *)
  Fixpoint visit_expr (e : expr) (h : hst) : res hst :=
    match e with
    | EIf id cnd thn els =>
      branching (expr_id cnd) id
        (match els with
         | ESome x => add_entry (expr_id x) (he_lo env (expr_id x)) (add_entry (expr_id thn) (he_lo env (expr_id thn)) [])
         | ENone => add_entry (expr_id thn) (he_lo env (expr_id thn)) []
         end)
        (he_hi env id) (visit_expr cnd)
        (fun h => bind (hinted (expr_id thn) (visit_expr thn) h) (fun h1 =>
           match els with ESome x => hinted (expr_id x) (visit_expr x) h1 | ENone => Val h1 end)) h
    | EWhile id cnd thn els =>
      branching (expr_id cnd) id
        (add_entry (expr_id els) (he_hi env id) (add_entry (expr_id thn) (he_lo env (expr_id thn)) []))
        (he_hi env id) (visit_expr cnd)
        (fun h => bind (hinted (expr_id thn) (visit_expr thn) h) (hinted (expr_id els) (visit_expr els))) h
    | EFor id cnd none some =>
      branching (expr_id cnd) id
        (add_entry (expr_id (arm_body some)) (he_lo env (expr_id (arm_body some)))
           (add_entry (expr_id (arm_body none)) (he_hi env id) []))
        (he_dummy env) (visit_expr cnd)
        (fun h => bind (visit_arm none h) (visit_arm some)) h
    | EMatch id desugared cnd ar =>
      if desugared && single ar && negb (condition_produced_switchint (expr_id cnd))
      then bind (visit_expr cnd h) (visit_arms ar)
      else branching (expr_id cnd) id (arm_entries ar []) (he_dummy env) (visit_expr cnd) (visit_arms ar) h
    | EBlock _ b => visit_block b h
    | EClosure _ value => bind (visit_expr value h) (insert_at_exit (expr_id value))
    | EOther _ parts => visit_exprs parts h
    end
  with visit_exprs (l : exprs) (h : hst) : res hst :=
    match l with
    | Enil => Val h
    | Econs e r => bind (visit_expr e h) (visit_exprs r)
    end
  (** hir_steps.rs 734-767 [visit_arm] and rustc's [walk_arm] *)
  with visit_arm (a : arm) (h : hst) : res hst :=
    match a with
    | Arm id _ guard bdy =>
      let h0 := if has_guard guard then unsupported h id else h in
      match node_entry env id with
      | None => Val h0
      | Some l =>
        let h1 := push_hint h0 l in
        match node_entry env (expr_id bdy) with
        | Some entry =>
          bind (ask entry (he_lo env id) h1) (fun r =>
            if snd r then bind (visit_expr bdy (fst r)) (fun h2 => Val (pop_hint h2 l)) else Val (fst r))
        | None =>
          bind (match guard with ESome g => visit_expr g h1 | ENone => Val h1 end) (fun h2 =>
            bind (visit_expr bdy h2) (fun h3 => Val (pop_hint h3 l)))
        end
      end
    end
  with visit_arms (l : arms) (h : hst) : res hst :=
    match l with
    | Anil => Val h
    | Acons a r => bind (visit_arm a h) (visit_arms r)
    end
  (** hir_steps.rs 500-513 [visit_block] *)
  with visit_block (b : blk) (h : hst) : res hst :=
    match b with
    | Blk ss tail =>
      let '(s, scope) := open_scope (h_st h) in
      bind (visit_stmts ss (set_st h s)) (fun h1 =>
        bind (match tail with
              | ESome e => bind (visit_expr e h1) (insert_at_exit (expr_id e))
              | ENone => Val h1
              end) (fun h2 => Val (fst (end_scope scope h2))))
    end
  with visit_stmts (l : stmts) (h : hst) : res hst :=
    match l with
    | Snil => Val h
    | Scons s r => bind (visit_stmt s h) (visit_stmts r)
    end
  (** hir_steps.rs 515-541 [visit_stmt], rustc's [walk_stmt] and [walk_local] *)
  with visit_stmt (x : stmt) (h : hst) : res hst :=
    let '(s, scope) := open_scope (h_st h) in
    let h0 := set_st h s in
    bind (match x with
          | SLet id init els =>
            let h1 := match he_locals env id with
                      | [] => h0
                      | ls => set_locals h0 (aset Nat.eq_dec (h_locals h0) scope ls)
                      end in
            bind (match init with ESome e => visit_expr e h1 | ENone => Val h1 end) (fun h2 =>
              match els with BSome b => visit_block b h2 | BNone => Val h2 end)
          | SExpr _ e => visit_expr e h0
          | SItem _ bodies => visit_bodies bodies h0
          end) (fun h2 =>
      match end_scope scope h2 with
      | (h3, true) => insert_at_exit (stmt_id x) h3
      | (h3, false) => Val h3
      end)
  (** The bodies of an item: each is visited as a body. *)
  with visit_bodies (l : exprs) (h : hst) : res hst :=
    match l with
    | Enil => Val h
    | Econs e r => bind (visit_expr e h) (fun h1 => bind (insert_at_exit (expr_id e) h1) (visit_bodies r))
    end.

  (** hir_steps.rs 495-498 [visit_body]; [value] is the body's expression. *)
  Definition visit_body (value : expr) (h : hst) : res hst :=
    bind (visit_expr value h) (insert_at_exit (expr_id value)).

  (** stepper/mod.rs 341-362 [compute_permission_steps] with hir_steps.rs 193-203
      [finalize]: the segments handed to the table builder. *)
  Inductive hresult := HUnsupported (ids : list nat) | HInternal (es : list herror) | HUnfrozen | HDone (h : hst).
  Definition compute (value : expr) : res hresult :=
    bind (visit_body value hmake) (fun h =>
      Val (match h_unsupported h with
           | _ :: _ => HUnsupported (h_unsupported h)
           | [] => match h_fatal h with
                   | _ :: _ => HInternal (h_fatal h)
                   | [] => if freeze (h_st h) then HDone h else HUnfrozen
                   end
           end)).
End Visitor.
