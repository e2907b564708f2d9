(** * Model of the interpreter's trace

    Models crates/aquascope/src/interpreter/mapper.rs [group_steps],
    interpreter/mod.rs [interpret] and interpreter/step.rs (the stepping loop,
    the frames of a state, the moved places and the numbering of allocations).
    Miri itself is a record of functions, about which nothing is assumed but what
    a theorem states. *)
From Coq Require Import List Arith Bool.
From Verif Require Import Base.
Import ListNotations.

(** ** Steps *)

(** step.rs 46-53 [MFrame]; the name, the span of the body and the locals are
    one opaque value. *)
Record frame (V L : Type) := Frame { f_info : V; f_loc : L }.
Arguments Frame {V L}. Arguments f_info {V L}. Arguments f_loc {V L}.

(** step.rs 55-72 [MStack], [MStep]; the heap is opaque. *)
Record mstep (V H L : Type) := MStep { m_frames : list (frame V L); m_heap : H }.
Arguments MStep {V H L}. Arguments m_frames {V H L}. Arguments m_heap {V H L}.

(** step.rs 90-95 [MTrace] *)
Record mtrace (V H R L : Type) := MTrace { tr_steps : list (mstep V H L); tr_result : R }.
Arguments MTrace {V H R L}. Arguments tr_steps {V H R L}. Arguments tr_result {V H R L}.

(** [collect::<Option<Vec<_>>>()] *)
Fixpoint collect {A} (l : list (option A)) : option (list A) :=
  match l with
  | [] => Some []
  | None :: _ => None
  | Some x :: r => match collect r with Some r' => Some (x :: r') | None => None end
  end.

(** mapper.rs 154-171: one step with its locations abstracted. *)
Definition abstract_step {V H L1 L2} (f : L1 -> option L2) (s : mstep V H L1) : option (mstep V H L2) :=
  match collect (map (fun fr => match f (f_loc fr) with
                                | Some l => Some (Frame (f_info fr) l)
                                | None => None end) (m_frames s)) with
  | Some frames => Some (MStep frames (m_heap s))
  | None => None
  end.

(** [filter_map] *)
Fixpoint filter_map {A B} (f : A -> option B) (l : list A) : list B :=
  match l with
  | [] => []
  | x :: r => match f x with Some y => y :: filter_map f r | None => filter_map f r end
  end.

(** mapper.rs 173: the key of a step; [None] is the panic of [unwrap]. *)
Definition key {V H L} (s : mstep V H L) : option L :=
  match rev (m_frames s) with
  | [] => None
  | fr :: _ => Some (f_loc fr)
  end.

(** mapper.rs 173-176: consecutive steps with equal keys, the last of each
    group.  [last] is the latest step of the group being read. *)
Fixpoint last_of_groups {V H L} (eqd : forall a b : L, {a = b} + {a <> b})
    (last : mstep V H L) (k : L) (l : list (mstep V H L)) : option (list (mstep V H L)) :=
  match l with
  | [] => Some [last]
  | s :: r =>
    match key s with
    | None => None
    | Some k' =>
      if eqd k k' then last_of_groups eqd s k' r
      else match last_of_groups eqd s k' r with Some out => Some (last :: out) | None => None end
    end
  end.

(** mapper.rs 146-181 [group_steps]; [None] is a panic. *)
Definition group_steps {V H R L1 L2} (eqd : forall a b : L2, {a = b} + {a <> b})
    (f : L1 -> option L2) (t : mtrace V H R L1) : option (mtrace V H R L2) :=
  match filter_map (abstract_step f) (tr_steps t) with
  | [] => Some (MTrace [] (tr_result t))
  | s :: r =>
    match key s with
    | None => None
    | Some k =>
      match last_of_groups eqd s k r with
      | Some out => Some (MTrace out (tr_result t))
      | None => None
      end
    end
  end.

(** interpreter/mod.rs 44-73 [interpret]: the two passes. *)
Definition interpret {V H R L1 L2 L3} (eqd2 : forall a b : L2, {a = b} + {a <> b})
    (eqd3 : forall a b : L3, {a = b} + {a <> b})
    (f : L1 -> option L2) (g : L2 -> option L3) (t : mtrace V H R L1) : option (mtrace V H R L3) :=
  match group_steps eqd2 f t with
  | Some t' => group_steps eqd3 g t'
  | None => None
  end.

(** ** The machine *)

(** A location: a statement, or a span of source text ([Either<Location, Span>]). *)
Inductive place_in := AtLoc (l : nat) | AtSpan (sp : nat).

(** A frame of Miri's stack: the function, whether the function belongs to the
    user's crate, and the location. *)
Record raw_frame := RawFrame { rf_fun : nat; rf_local : bool; rf_at : place_in }.

(** What a moved operand is after the step (step.rs 541-554): memory, or a
    local variable. *)
Inductive moved := InMemory | OfLocal (local : nat).

(** Miri.  [mi_step] is [ecx.step()]: an error, or the next state and whether
    there is more work.  [mi_moves] is [collect_moves], as seen from the state
    after the step.  [mi_locals m k] reads the local variables of the [k]-th
    frame, given the locals moved out of; it may fail with an error. *)
Record miri (M E V : Type) := Miri {
  mi_stack : M -> list raw_frame;
  mi_step : M -> E + (M * bool);
  mi_moves : M -> M -> E + list moved;
  mi_header : nat -> nat;
  mi_info : M -> nat -> list nat -> E + V
}.
Arguments mi_stack {M E V}. Arguments mi_step {M E V}. Arguments mi_moves {M E V}.
Arguments mi_header {M E V}. Arguments mi_info {M E V}. Arguments Miri {M E V}.

(** step.rs 161-167 [LocalFrame]; the local index is the position in the list. *)
Record local_frame := LocalFrame { lf_current : bool; lf_global : nat; lf_frame : raw_frame }.

Fixpoint number {A} (i : nat) (l : list A) : list (nat * A) :=
  match l with [] => [] | x :: r => (i, x) :: number (S i) r end.

(** step.rs 483-497 [local_frames] *)
Definition local_frames (stack : list raw_frame) : list local_frame :=
  map (fun gf => LocalFrame (fst gf =? length stack - 1) (fst gf) (snd gf))
      (filter (fun gf => rf_local (snd gf)) (number 0 stack)).

(** [Vec::last] *)
Definition last_opt {A} (l : list A) : option A :=
  match rev l with [] => None | x :: _ => Some x end.

(** step.rs 108-139 [MovedPlaces]: one set per frame. *)
Definition moved_places := list (list nat).

(** step.rs 124-131 [add_place]; [None] is the panic. *)
Fixpoint add_place (mp : moved_places) (frame local : nat) : option moved_places :=
  match mp, frame with
  | [], _ => None
  | s :: r, 0 => Some ((if memb Nat.eq_dec local s then s else s ++ [local]) :: r)
  | s :: r, S k => match add_place r k local with Some r' => Some (s :: r') | None => None end
  end.

(** step.rs 133-139 [push_frame], [pop_frame] *)
Definition push_frame (mp : moved_places) : moved_places := mp ++ [[]].
Definition pop_frame (mp : moved_places) : moved_places := removelast mp.

(** The loop over the moves; [n_frames - 1] underflows when the stack was empty,
    which is a panic like a missing frame. *)
Fixpoint add_moves (mp : moved_places) (n_frames : nat) (ms : list moved) : option moved_places :=
  match ms with
  | [] => Some mp
  | InMemory :: r => add_moves mp n_frames r
  | OfLocal l :: r =>
    match n_frames with
    | 0 => None
    | S k => match add_place mp k l with Some mp' => add_moves mp' n_frames r | None => None end
    end
  end.

(** A location in a function ([MirLoc]). *)
Definition mirloc := (nat * place_in)%type.

(** An outcome: an error of the program, a panic of the tool, or a value. *)
Inductive outcome (E A : Type) := Fault (e : E) | Crash | Done (a : A).
Arguments Fault {E A}. Arguments Crash {E A}. Arguments Done {E A}.

(** step.rs 530-560 [handle_moves]; the places are evaluated only when the number
    of frames has not changed. *)
Definition handle_moves {M E V} (mi : miri M E V) (mp : moved_places) (m m' : M) : outcome E moved_places :=
  match length (mi_stack mi m') ?= length (mi_stack mi m) with
  | Gt => Done (push_frame mp)
  | Lt => Done (pop_frame mp)
  | Eq => match mi_moves mi m m' with
          | inl e => Fault e
          | inr ms => match add_moves mp (length (mi_stack mi m)) ms with
                      | Some mp' => Done mp'
                      | None => Crash
                      end
          end
  end.

(** step.rs 227-287 [build_frame] with 423-443 [find_locals]; the set at [global_index] is read with
    [places_at], which panics when there is none. *)
Definition build_frame {M E V} (mi : miri M E V) (mp : moved_places) (m : M) (override : mirloc)
    (lf : local_frame) : outcome E (frame V mirloc) :=
  match nth_error mp (lf_global lf) with
  | None => Crash
  | Some moved =>
    match mi_info mi m (lf_global lf) moved with
    | inl e => Fault e
    | inr v =>
      Done (Frame v (if lf_current lf then override
                     else (rf_fun (lf_frame lf), rf_at (lf_frame lf))))
    end
  end.

(** step.rs 445-456 [build_stack] *)
Fixpoint build_frames {M E V} (mi : miri M E V) (mp : moved_places) (m : M) (override : mirloc)
    (lfs : list local_frame) : outcome E (list (frame V mirloc)) :=
  match lfs with
  | [] => Done []
  | lf :: r =>
    match build_frame mi mp m override lf with
    | Fault e => Fault e
    | Crash => Crash
    | Done fr =>
      match build_frames mi mp m override r with
      | Fault e => Fault e
      | Crash => Crash
      | Done frs => Done (fr :: frs)
      end
    end
  end.

(** step.rs 569-576 [get_current_local_loc] *)
Definition current_local_loc (lfs : list local_frame) : option mirloc :=
  match last_opt lfs with
  | Some lf => Some (rf_fun (lf_frame lf), rf_at (lf_frame lf))
  | None => None
  end.

(** step.rs 586-588: the location of the caller's frame. *)
Definition caller_loc (lfs : list local_frame) : option place_in :=
  match rev lfs with
  | _ :: lf :: _ => Some (rf_at (lf_frame lf))
  | _ => None
  end.

(** step.rs 595-616: the location of the new state; the outer [None] is a panic. *)
Definition new_loc {M E V} (mi : miri M E V) (before after : list local_frame) : option (option mirloc) :=
  match length after ?= length before with
  | Gt => match last_opt after with
          | None => None
          | Some lf => Some (Some (rf_fun (lf_frame lf), AtSpan (mi_header mi (rf_fun (lf_frame lf)))))
          end
  | Lt => match caller_loc before with
          | Some at_ => match last_opt after with
                        | None => None
                        | Some lf => Some (Some (rf_fun (lf_frame lf), at_))
                        end
          | None => Some (current_local_loc before)
          end
  | Eq => Some (current_local_loc before)
  end.

(** step.rs 566-627 [step], one round of its loop: the frames of a new state if
    there is one, the moved places, the machine and whether there is more work. *)
Definition round {M E V} (mi : miri M E V) (mp : moved_places) (m : M)
  : outcome E (option (list (frame V mirloc)) * moved_places * M * bool) :=
  let before := local_frames (mi_stack mi m) in
  match mi_step mi m with
  | inl e => Fault e
  | inr (m', more) =>
    match handle_moves mi mp m m' with
    | Fault e => Fault e
    | Crash => Crash
    | Done mp' =>
      let after := local_frames (mi_stack mi m') in
      match new_loc mi before after with
      | None => Crash
      | Some None => Done (None, mp', m', more)
      | Some (Some loc) =>
        match build_frames mi mp' m' loc after with
        | Fault e => Fault e
        | Crash => Crash
        | Done [] => Done (None, mp', m', more)
        | Done frames => Done (Some frames, mp', m', more)
        end
      end
    end
  end.

(** step.rs 644-664 [eval] with the loop of [step]: rounds until there is no more
    work or an error.  [None] is running out of fuel; the result is the error. *)
Fixpoint eval {M E V} (mi : miri M E V) (fuel : nat) (mp : moved_places) (m : M)
  : option (outcome Empty_set (list (list (frame V mirloc)) * option E)) :=
  match fuel with
  | 0 => None
  | S k =>
    match round mi mp m with
    | Fault e => Some (Done ([], Some e))
    | Crash => Some Crash
    | Done (out, mp', m', more) =>
      let cons := fun rest => match out with Some fs => fs :: rest | None => rest end in
      if more then
        match eval mi k mp' m' with
        | None => None
        | Some (Done (rest, e)) => Some (Done (cons rest, e))
        | Some x => Some x
        end
      else Some (Done (cons [], None))
    end
  end.

(** ** Allocation numbers *)

(** step.rs 201-205 [remap_alloc_id]: the map, and the number. *)
Definition remap (mm : list (nat * nat)) (alloc : nat) : list (nat * nat) * nat :=
  match aget Nat.eq_dec mm alloc with
  | Some n => (mm, n)
  | None => (aset Nat.eq_dec mm alloc (length mm), length mm)
  end.

(** The numbers given while one state is read, in the order in which the dangling
    pointers are met. *)
Fixpoint remap_all (mm : list (nat * nat)) (allocs : list nat) : list (nat * nat) * list nat :=
  match allocs with
  | [] => (mm, [])
  | a :: r => let '(mm1, n) := remap mm a in
              let '(mm2, ns) := remap_all mm1 r in (mm2, n :: ns)
  end.

(** step.rs 458-460 [build_heap]: the map is replaced by an empty one after each
    state. *)
Definition number_states (states : list (list nat)) : list (list nat) :=
  map (fun allocs => snd (remap_all [] allocs)) states.

(** step.rs 622-641 [beautify_error] after those states: the number reported with a use after free.
    [met] are the dangling pointers met in a state that could not be read to its end; there are
    none when the program itself fails. *)
Definition error_number (met : list nat) (alloc : nat) : nat := snd (remap (fst (remap_all [] met)) alloc).
