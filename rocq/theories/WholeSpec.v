(** Specification of a picture of a running program. *)
From Coq Require Import String.
From Coq Require Import List Arith Bool.
From Verif Require Import Base TraceModel TraceSpec ValuesModel MapperModel MapperSpec ReaderModel ReaderSpec LocalsModel LocalsSpec WholeModel.
Import ListNotations.

Section Whole.
  Context {M Msg : Type} (mac : machine M Msg).

  (** The steps of the machine from [m0] to [m], the latest first. *)
  Inductive Path (m0 : M) : list (M * M) -> M -> Prop :=
  | path_start : Path m0 [] m0
  | path_step h m m' more : Path m0 h m -> k_step mac m = inr (m', more) -> Path m0 ((m, m') :: h) m'.

  (** The local [x] of the frame at depth [d] was moved by a statement of that frame, since the frame was pushed. *)
  Fixpoint MovedOut (h : list (M * M)) (d x : nat) : Prop :=
    match h with
    | [] => False
    | (a, b) :: before =>
      d < length (k_stack mac a) /\
      ((length (k_stack mac a) = S d /\ length (k_stack mac b) = S d /\ exists ms, k_moves mac a b = inr ms /\ In (OfLocal x) ms)
       \/ MovedOut before d x)
    end.

  (** The layouts of the types, and the number of the type u8. *)
  Context (lay : local -> vlayout) (u8 : nat).

  (** Local number [i] of user frame number [fi] is a variable that has a value. *)
  Definition Var (v : view) (fi i : nat) (l : local) (name : string) : Prop :=
    exists f, nth_error (v_frames v) fi = Some f /\ nth_error (f_locals f) i = Some l /\
      SourceVar f i l name /\ HasValue (v_allocs v) l (lay l).

  (** What is assumed of a state: types without padding inside of fields, each variable in its own
      memory, and values of the types that the reader knows (see [Program]). *)
  Record Sane (v : view) : Prop := {
    sane_layout : forall f l, In f (v_frames v) -> In l (f_locals f) ->
      Tight (lay l) /\ Fits (lay l) /\ l_shape l = shape_of (lay l) /\
      forall a, l_state l = LocalsModel.InMemory a -> a_size (v_allocs v a) = vsize (lay l);
    sane_apart : forall a fi i l name fi' i' l' name', Var v fi i l name -> Var v fi' i' l' name' ->
      l_state l = LocalsModel.InMemory a -> l_state l' = LocalsModel.InMemory a -> fi = fi' /\ i = i';
    sane_program : forall vars, (forall p t, In (p, t) vars -> exists fi i l name, Var v fi i l name /\ p = l_place l /\ t = l_ty l) ->
      Program (v_mem v) u8 vars
  }.

  (** The memory, where the allocations of the variables are known. *)
  Definition Located (v : view) (mm : mem) : Prop :=
    mm = Mem (m_ty (v_mem v)) (m_scalar (v_mem v)) (m_ptr (v_mem v)) (m_variant (v_mem v)) (m_off (v_mem v)) (m_zst (v_mem v))
           (m_size (v_mem v)) (m_layout (v_mem v)) (m_kind (v_mem v)) (m_asize (v_mem v)) (m_slot mm) /\
    forall a fi name t, m_slot mm a = Some (fi, name, t) <->
      exists i l, Var v fi i l name /\ l_state l = LocalsModel.InMemory a /\ t = l_ty l.

  (** Where a frame at depth [d] is after the step from [m] to [m'], and where this is in the text. *)
  Definition Place_of {R} (prog : nat -> fn) (node_range span_range : nat -> nat -> option R) (m m' : M) (d : nat) (r : R) : Prop :=
    exists rf at_ hl, nth_error (k_stack mac m') d = Some rf /\
      (S d < length (k_stack mac m') -> at_ = rf_at rf) /\
      (S d = length (k_stack mac m') -> ShownAt (k_header mac) (k_stack mac m) (k_stack mac m') at_) /\
      ShownAs prog (rf_fun rf, at_) hl /\ InText node_range span_range hl r.

  (** A frame of the picture shows the function at depth [d] of the stack of [m'] and its variables [xs], with the values [vs] and the heap. *)
  Definition Frame_shows (m' : M) (h : list (M * M)) (d : nat) (xs : list shown) (vs heap : list mvalue) (fr : mframe) : Prop :=
    (exists rf, nth_error (k_stack mac m') d = Some rf /\ fr_fun fr = rf_fun rf) /\
    map v_name (fr_locals fr) = map sh_name xs /\ map v_value (fr_locals fr) = vs /\ fr_heap fr = heap /\
    forall j x y, nth_error xs j = Some x -> nth_error (fr_locals fr) j = Some y ->
      (v_moved y = true <-> MovedOut h d (sh_local x)).

  (** [s] is a picture of the program's state after some step of its execution from [m0]: for each function of the
      user that is running, in the order of the calls, the place in the text where it is and its variables
      that have a value, with the right values. *)
  Definition Pictured {R} (prog : nat -> fn) (node_range span_range : nat -> nat -> option R) (m0 : M)
      (s : mstep mframe unit R) : Prop :=
    exists h m m', Path m0 ((m, m') :: h) m' /\
    let v := k_look mac m' in
    exists mm xss vss heap,
      Located v mm /\
      Forall2 (fun f xs => Chosen (fun i l name => SourceVar f i l name /\ HasValue (v_allocs v) l (lay l)) 0 (f_locals f) xs)
        (v_frames v) xss /\
      Right mm u8 (map (fun x => (sh_place x, sh_ty x)) (concat xss)) (concat vss) heap /\
      length (m_frames s) = length (user_depths (k_stack mac m')) /\
      length xss = length (m_frames s) /\ length vss = length (m_frames s) /\
      forall i fr d xs vs, nth_error (m_frames s) i = Some fr -> nth_error (user_depths (k_stack mac m')) i = Some d ->
        nth_error xss i = Some xs -> nth_error vss i = Some vs ->
        Frame_shows m' ((m, m') :: h) d xs vs heap (f_info fr) /\
        Place_of prog node_range span_range m m' d (f_loc fr).

  (** The program comes to its end after [n] steps. *)
  Inductive Ends : nat -> M -> Prop :=
  | ends_last m m' : k_step mac m = inr (m', false) -> Ends 1 m
  | ends_more n m m' : k_step mac m = inr (m', true) -> Ends n m' -> Ends (S n) m.

  (** All that the variables hold can be read: see [Ready]. *)
  Definition Readable (v : view) : Prop :=
    forall mm vars, Located v mm ->
      (forall p t, In (p, t) vars -> exists fi i l name, Var v fi i l name /\ p = l_place l /\ t = l_ty l) ->
      forall p t, In (p, t) vars -> Ready mm u8 vars None p t.

  (** How an execution from [m0] stopped, and with which error: it came to its end; the program, or the reading of its
      moves, failed; or its variables could not be read to a depth, which is an error or a panic of the reader. *)
  Inductive Ending (depth : nat) (m0 : M) : option (ierror Msg) -> Prop :=
  | end_done h m m' : Path m0 h m -> k_step mac m = inr (m', false) -> Ending depth m0 None
  | end_program h m e : Path m0 h m -> k_step mac m = inl e -> Ending depth m0 (Some e)
  | end_moves h m m' e : Path m0 ((m, m') :: h) m' -> k_moves mac m m' = inl e -> Ending depth m0 (Some e)
  | end_error h m x : Path m0 h m ->
      build_state (v_mem (k_look mac m)) (v_allocs (k_look mac m)) depth (v_frames (k_look mac m)) = inl (SErr x) ->
      Ending depth m0 (Some (k_error mac x))
  | end_panic h m s : Path m0 h m ->
      build_state (v_mem (k_look mac m)) (v_allocs (k_look mac m)) depth (v_frames (k_look mac m)) = inl s ->
      s = SPanic \/ s = SMore -> Ending depth m0 (Some (Undefined None)).
End Whole.

(** What the user gets for it: a trace that says it, a message, or a panic where there is no text. *)
Inductive Answered {Msg V R} : option (ierror Msg) -> outcome Msg (mtrace V unit (mresult Msg) R) -> Prop :=
| answered_trace e t : Told e (tr_result t) -> Answered e (Done t)
| answered_message msg : Answered (Some (NotUndefined (Some msg))) (Fault msg)
| answered_panic e : e = Undefined None \/ e = NotUndefined None -> Answered (Some e) Crash.
