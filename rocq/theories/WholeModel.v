(** * Model of the interpreter as a whole

    Puts together what TraceModel.v (the loop), LocalsModel.v (which variables are read),
    ReaderModel.v (how they are read) and MapperModel.v (where they are shown) model of
    crates/aquascope/src/interpreter. *)
From Coq Require Import String.
From Coq Require Import List Arith Bool.
From Verif Require Import Base TraceModel ValuesModel MapperModel ReaderModel LocalsModel.
Import ListNotations.

(** What the evaluator reads of a state of Miri: the memory, the allocations, and the frames of
    functions of the user's crate, outermost first (step.rs 483-497 [local_frames]). *)
Record view := View { v_mem : mem; v_allocs : nat -> allocation; v_frames : list LocalsModel.frame }.

(** Miri: see TraceModel's [miri]; [k_error] are the errors of reading. *)
Record machine (M Msg : Type) := Machine {
  k_stack : M -> list raw_frame;
  k_step : M -> ierror Msg + (M * bool);
  k_moves : M -> M -> ierror Msg + list moved;
  k_header : nat -> nat;
  k_look : M -> view;
  k_error : nat -> ierror Msg
}.
Arguments Machine {M Msg}. Arguments k_stack {M Msg}. Arguments k_step {M Msg}. Arguments k_moves {M Msg}.
Arguments k_header {M Msg}. Arguments k_look {M Msg}. Arguments k_error {M Msg}.

(** step.rs 31-38 [MLocal]; as only whole locals are recorded as moved, [moved_paths] is
    one empty path or nothing. *)
Record mlocal := MLocal { v_name : string; v_value : mvalue; v_moved : bool }.

(** step.rs 46-72 [MFrame]; the function (236-247), by which its name and the span of its body are looked up, stands
    for these; the heap of the [MStep] is repeated in each frame. *)
Record mframe := MFrame { fr_fun : nat; fr_locals : list mlocal; fr_heap : list mvalue }.

(** The values that were read, by frame. *)
Fixpoint share (xss : list (list shown)) (vs : list mvalue) : list (list (shown * mvalue)) :=
  match xss with
  | [] => []
  | xs :: r => combine xs (firstn (length xs) vs) :: share r (skipn (length xs) vs)
  end.

(** The number among the user's frames of the frame at a depth: step.rs 165 [local_index]. *)
Definition local_index (stack : list raw_frame) (d : nat) : nat := length (filter rf_local (firstn d stack)).

(** step.rs 227-287 [build_frame] as part of 445-456 [build_stack].  A panic, and reading
    without end, is an error whose message has no text, which makes the tool panic
    (MapperModel.v [beautify_error]). *)
Definition info {M Msg} (mac : machine M Msg) (fuel : nat) (m : M) (d : nat) (moved : list nat) : ierror Msg + mframe :=
  let v := k_look mac m in
  match build_state (v_mem v) (v_allocs v) fuel (v_frames v) with
  | inl (SErr e) => inl (k_error mac e)
  | inl _ => inl (Undefined None)
  | inr (xss, (vs, heap)) =>
    match nth_error (k_stack mac m) d, nth_error (share xss vs) (local_index (k_stack mac m) d) with
    | Some rf, Some xs =>
      inr (MFrame (rf_fun rf) (map (fun xv => MLocal (sh_name (fst xv)) (snd xv) (memb Nat.eq_dec (sh_local (fst xv)) moved)) xs) heap)
    | _, _ => inl (Undefined None)
    end
  end.

Definition evaluator {M Msg} (mac : machine M Msg) (fuel : nat) : miri M (ierror Msg) mframe :=
  Miri (k_stack mac) (k_step mac) (k_moves mac) (k_header mac) (info mac fuel).

(** mod.rs 26-76 [interpret].  [fuel] bounds the steps of the program, [depth] the depth of
    the values. *)
Definition interpret_whole {M Msg R} (eqr : forall a b : R, {a = b} + {a <> b}) (prog : nat -> fn)
    (node_range span_range : nat -> nat -> option R) (mac : machine M Msg) (fuel depth : nat) (m : M) :=
  interpret_program eqr prog node_range span_range (evaluator mac depth) fuel m.
