(** Specification of the interpreter's trace. *)
From Coq Require Import List Arith Bool.
From Verif Require Import Base TraceModel.
Import ListNotations.

(** ** Grouping *)

(** The step [s'] is [s] with every location abstracted. *)
Definition Abstracts {V H L1 L2} (f : L1 -> option L2) (s : mstep V H L1) (s' : mstep V H L2) : Prop :=
  m_heap s' = m_heap s /\
  Forall2 (fun a b => f_info b = f_info a /\ f (f_loc a) = Some (f_loc b)) (m_frames s) (m_frames s').

(** Every frame of the step can be mapped. *)
Definition Mappable {V H L1 L2} (f : L1 -> option L2) (s : mstep V H L1) : Prop :=
  forall fr, In fr (m_frames s) -> f (f_loc fr) <> None.

(** The step is at [l]: that is where its innermost frame is. *)
Definition At {V H L} (s : mstep V H L) (l : L) : Prop :=
  exists outer fr, m_frames s = outer ++ [fr] /\ f_loc fr = l.

(** [runs] cuts the steps into maximal runs at one location. *)
Inductive Runs {V H L} : list (list (mstep V H L)) -> Prop :=
| runs_nil : Runs []
| runs_one r l : r <> [] -> (forall s, In s r -> At s l) -> Runs [r]
| runs_cons r l r' l' rest : r <> [] -> (forall s, In s r -> At s l) ->
    (forall s, In s r' -> At s l') -> l <> l' -> Runs (r' :: rest) -> Runs (r :: r' :: rest).

(** ** Execution *)

(** One step of the machine changes the top of the stack only: it stays in the
    function, calls a function, returns to the caller, or leaves the first
    function. *)
Definition SameFun (f g : raw_frame) : Prop := rf_fun f = rf_fun g /\ rf_local f = rf_local g.

Inductive StackMove : list raw_frame -> list raw_frame -> Prop :=
| move_stay base f f' : SameFun f f' -> StackMove (base ++ [f]) (base ++ [f'])
| move_call base f f' g : SameFun f f' -> StackMove (base ++ [f]) (base ++ [f'; g])
| move_return base c c' f : SameFun c c' -> StackMove (base ++ [c; f]) (base ++ [c'])
| move_exit f : StackMove [f] []
| move_idle : StackMove [] [].

(** What the theorems assume of Miri: its steps are such, and nothing is moved
    when no function is running. *)
Definition Proper {M E V} (mi : miri M E V) : Prop :=
  (forall m m' more, mi_step mi m = inr (m', more) ->
    StackMove (mi_stack mi m) (mi_stack mi m')) /\
  (forall m m', mi_stack mi m = [] -> mi_moves mi m m' = inr []).

(** The states the evaluator goes through from [m0], where one function is
    running: the machine steps done (the latest first), the moved places, the
    machine. *)
Inductive Reached {M E V} (mi : miri M E V) (m0 : M) : list (M * M) -> moved_places -> M -> Prop :=
| reached_start : length (mi_stack mi m0) = 1 -> Reached mi m0 [] [[]] m0
| reached_next h mp m out mp' m' more : Reached mi m0 h mp m ->
    round mi mp m = Done (out, mp', m', more) -> Reached mi m0 ((m, m') :: h) mp' m'.

(** The local variable [x] was moved by a step of the frame at depth [d] since
    that frame was pushed. *)
Fixpoint MovedSince {M E V} (mi : miri M E V) (h : list (M * M)) (d x : nat) : Prop :=
  match h with
  | [] => False
  | (a, b) :: before =>
    d < length (mi_stack mi a) /\
    ((length (mi_stack mi a) = S d /\ length (mi_stack mi b) = S d /\
      exists ms, mi_moves mi a b = inr ms /\ In (OfLocal x) ms)
     \/ MovedSince mi before d x)
  end.

(** Where the topmost frame is said to be after a step: at the statement just
    executed, at the header of the function just called, or at the call that has
    just returned. *)
Inductive ShownAt (header : nat -> nat) : list raw_frame -> list raw_frame -> place_in -> Prop :=
| shown_stay base f f' : SameFun f f' -> ShownAt header (base ++ [f]) (base ++ [f']) (rf_at f)
| shown_call base f f' g : SameFun f f' ->
    ShownAt header (base ++ [f]) (base ++ [f'; g]) (AtSpan (header (rf_fun g)))
| shown_return base c c' f : SameFun c c' -> ShownAt header (base ++ [c; f]) (base ++ [c']) (rf_at c).

(** The depths at which a function of the user is running. *)
Definition user_depths (stack : list raw_frame) : list nat :=
  filter (fun d => match nth_error stack d with Some f => rf_local f | None => false end)
         (seq 0 (length stack)).

(** The frame shown for depth [d] after the machine went from [m] to [m'], the
    steps before that being [h]: it is about that function, its variables are read
    in the new state with the variables that the frame has moved, and it is where
    the function is -- for the innermost one, see [ShownAt]. *)
Definition Shows {M E V} (mi : miri M E V) (h : list (M * M)) (m m' : M) (d : nat)
    (fr : frame V mirloc) : Prop :=
  exists rf set, nth_error (mi_stack mi m') d = Some rf /\
    (forall x, In x set <-> MovedSince mi ((m, m') :: h) d x) /\
    mi_info mi m' d set = inr (f_info fr) /\ fst (f_loc fr) = rf_fun rf /\
    (S d < length (mi_stack mi m') -> snd (f_loc fr) = rf_at rf) /\
    (S d = length (mi_stack mi m') ->
       ShownAt (mi_header mi) (mi_stack mi m) (mi_stack mi m') (snd (f_loc fr))).

(** The states shown for that step of the machine: one if a function of the user
    is running, with its frames in call order, and else none. *)
Definition Emits {M E V} (mi : miri M E V) (h : list (M * M)) (m m' : M)
    (shown : list (list (frame V mirloc))) : Prop :=
  (user_depths (mi_stack mi m') = [] /\ shown = []) \/
  (user_depths (mi_stack mi m') <> [] /\
   exists frs, shown = [frs] /\ Forall2 (Shows mi h m m') (user_depths (mi_stack mi m')) frs).

(** The trace of a program from [m]: the states shown for the steps of the
    machine, until there is no more work or something fails. *)
Inductive Trace {M E V} (mi : miri M E V) : list (M * M) -> M -> list (list (frame V mirloc)) -> option E -> Prop :=
| trace_end h m m' shown : mi_step mi m = inr (m', false) -> Emits mi h m m' shown ->
    Trace mi h m shown None
| trace_more h m m' shown rest e : mi_step mi m = inr (m', true) -> Emits mi h m m' shown ->
    Trace mi ((m, m') :: h) m' rest e -> Trace mi h m (shown ++ rest) e
| trace_fault_step h m e : mi_step mi m = inl e -> Trace mi h m [] (Some e)
| trace_fault_move h m m' more e : mi_step mi m = inr (m', more) -> mi_moves mi m m' = inl e ->
    Trace mi h m [] (Some e)
| trace_fault_read h m m' more d set e : mi_step mi m = inr (m', more) ->
    In d (user_depths (mi_stack mi m')) -> mi_info mi m' d set = inl e -> Trace mi h m [] (Some e).

(** [kept] are the mappable steps, in order, abstracted. *)
Inductive Kept {V H L1 L2} (f : L1 -> option L2) : list (mstep V H L1) -> list (mstep V H L2) -> Prop :=
| kept_nil : Kept f [] []
| kept_keep s s' l l' : Abstracts f s s' -> Kept f l l' -> Kept f (s :: l) (s' :: l')
| kept_drop s l l' : ~ Mappable f s -> Kept f l l' -> Kept f (s :: l) l'.

(** ** Numbers of allocations *)

Definition Distinct (l : list nat) (n : nat) : Prop :=
  exists ds, NoDup ds /\ (forall x, In x ds <-> In x l) /\ length ds = n.

(** The number of [a] is the number of others that were met before. *)
Definition NumberIn (met : list nat) (a n : nat) : Prop :=
  exists pre post, met = pre ++ a :: post /\ ~ In a pre /\ Distinct pre n.
