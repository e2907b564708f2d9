(** * Model of the way back from the running program to its source

    Models crates/aquascope/src/analysis/ir_mapper/mod.rs [check_invariants], crates/aquascope/src/interpreter/mapper.rs
    (which statement a location belongs to), interpreter/step.rs
    [beautify_error] and the end of [eval], and interpreter/mod.rs [interpret]. *)
From Coq Require Import List Arith Bool.
From Verif Require Import Base CfgModel TraceModel.
Import ListNotations.

(** ** The map from nodes to locations

    The map itself is [gather] of CfgModel.v.  mod.rs 276-295
    [check_invariants]: the condition that a debug build asserts. *)
Definition check_invariants (m : hir_to_mir) : bool :=
  forallb (fun e1 =>
    negb (existsb (fun e2 =>
      negb (fst e1 =? fst e2) && existsb (fun l => memb loc_eqd l (snd e2)) (snd e1)) m)) m.

(** ** Locations to statements: mapper.rs *)

(** The value of a function's body ([Body::value]): a block with statements and
    perhaps a tail expression, or any other expression, as in [|x| x + 1]. *)
Inductive value := VBlock (stmts : list nat) (tail : option nat) | VOther.

(** What is looked up for one function.  [fn_loc] reads the numbers by which
    TraceModel.v names locations.  [fn_hir] is
    [location_to_hir_id], [fn_parents] is [parent_id_iter].  [fn_span] is [source_info(location).span]; [fn_brace] the last
    byte of [span_with_body(owner)].  [fn_ord] and [fn_nodes] are the iteration orders of the hash map
    of blocks and of the hash set of nodes. *)
Record fn := Fn {
  fn_owner : nat;
  fn_value : value;
  fn_body : body;
  fn_loc : nat -> loc;
  fn_hir : loc -> nat;
  fn_parents : nat -> list nat;
  fn_span : loc -> nat;
  fn_brace : nat;
  fn_ord : list nat -> list nat;
  fn_nodes : list nat -> list nat
}.

(** mapper.rs 24-41 [FindSteppableNodes]; rustc's [walk_block] visits the
    statements, then the tail. *)
Definition steppable (v : value) : list nat :=
  match v with
  | VBlock stmts tail => stmts ++ match tail with Some e => [e] | None => [] end
  | VOther => []
  end.

(** mapper.rs 63-90 [build_body_mapping] *)
Definition node_pairs (f : fn) (id : nat) : list (loc * nat) :=
  match get_mir_locations (fn_body f) (fn_ord f)
          (node_locations (gather (fn_body f) false (fn_hir f)) (fn_parents f) id Nested) with
  | Some m => map (fun l => (l, id)) (values m)
  | None => []
  end.

Definition body_mapping (f : fn) : list (loc * nat) :=
  fold_left (fun m p => aset loc_eqd m (fst p) (snd p))
    (flat_map (node_pairs f) (fn_nodes f (nodup Nat.eq_dec (steppable (fn_value f))))) [].

(** mapper.rs 42 [HirLoc]: the function, and a node or a span. *)
Definition hirloc := (nat * (nat + nat))%type.
Definition hirloc_eqd : forall a b : hirloc, {a = b} + {a <> b}.
Proof. repeat decide equality. Defined.

(** mapper.rs 92-127 [is_cleanup], [abstract_loc].  [prog] finds the function of
    an instance (all frames that are shown are of local functions, so
    [expect_local] does not fail). *)
Definition abstract_loc (prog : nat -> fn) (ml : mirloc) : option hirloc :=
  let '(inst, place) := ml in
  let f := prog inst in
  match place with
  | AtLoc n =>
    let l := fn_loc f n in
    if fn_span f l =? fn_brace f then Some (fn_owner f, inr (fn_brace f))
    else match aget loc_eqd (body_mapping f) l with
         | Some id => Some (fn_owner f, inl id)
         | None => None
         end
  | AtSpan sp => Some (fn_owner f, inr sp)
  end.

(** mod.rs 59-70: the second pass.  [node_range owner n] and [span_range owner
    s] are [as_local] followed by [CharRange::from_span]: [None] if the text
    is not in the function's own text. *)
Definition to_range {R} (node_range span_range : nat -> nat -> option R) (hl : hirloc) : option R :=
  match snd hl with
  | inl n => node_range (fst hl) n
  | inr s => span_range (fst hl) s
  end.

(** ** The end of an execution: step.rs *)

(** [InterpErrorKind], as far as [beautify_error] looks: a pointer to freed
    memory (with the dangling pointers met before in the state being read, see [error_number]), other undefined behaviour, and all others (the machine stopped, an
    operation is not supported, ...).  The message is [as_str()] of the
    diagnostic message, which is [None] if the message is an identifier yet to be translated. *)
Inductive ierror (Msg : Type) := UseAfterFree (alloc : nat) (met : list nat) | Undefined (msg : option Msg) | NotUndefined (msg : option Msg).
Arguments UseAfterFree {Msg}. Arguments Undefined {Msg}. Arguments NotUndefined {Msg}.

(** step.rs 74-88 [MUndefinedBehavior], [MResult] *)
Inductive mresult (Msg : Type) := RSuccess | RFreed (alloc : nat) | ROther (msg : Msg).
Arguments RSuccess {Msg}. Arguments RFreed {Msg}. Arguments ROther {Msg}.

(** step.rs 622-641 [beautify_error]: [Crash] is the panic of [unwrap], [Fault] the
    error of [bail!]. *)
Definition beautify_error {Msg} (e : ierror Msg) : outcome Msg (mresult Msg) :=
  match e with
  | UseAfterFree a met => Done (RFreed (error_number met a))
  | Undefined (Some m) => Done (ROther m)
  | Undefined None => Crash
  | NotUndefined (Some m) => Fault m
  | NotUndefined None => Crash
  end.

(** step.rs 644-664, the result of [eval], and mod.rs 26-76 [interpret].
    [None]: the fuel did not suffice; [Some Crash]: a panic. *)
Definition interpret_program {M V Msg R} (eqr : forall a b : R, {a = b} + {a <> b})
    (prog : nat -> fn) (node_range span_range : nat -> nat -> option R)
    (mi : miri M (ierror Msg) V) (fuel : nat) (m : M)
  : option (outcome Msg (mtrace V unit (mresult Msg) R)) :=
  match eval mi fuel [[]] m with
  | None => None
  | Some (Done (steps, e)) =>
    match match e with None => Done RSuccess | Some e => beautify_error e end with
    | Done r =>
      match interpret hirloc_eqd eqr (abstract_loc prog) (to_range node_range span_range)
              (MTrace (map (fun frs => MStep frs tt) steps) r) with
      | Some t => Some (Done t)
      | None => Some Crash
      end
    | Crash => Some Crash
    | Fault msg => Some (Fault msg)
    end
  | Some _ => Some Crash
  end.
