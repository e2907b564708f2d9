(** * What a reader of the page should see of an execution *)
From Coq Require Import Ascii String.
From Coq Require Import List Arith Bool ZArith.
From Verif Require Import Base ValuesModel ReaderModel ReaderSpec LocalsModel LocalsSpec TraceModel TraceSpec MapperModel MapperSpec WholeModel WholeSpec.
From Verif Require BookModel LookModel LookSpec WireModel WireSpec EmbedSpec EditorModel EditorSpec ScreenModel.
Import ListNotations.

(** Ranges can be compared. *)
Definition range_eqd : forall a b : WireModel.wrange, {a = b} + {a <> b}.
Proof. repeat decide equality. Defined.

(** ** The way to the page *)

(** The trace [w] was printed as the answer, JavaScript understood the answer as some value, and took [t'] for the trace. *)
Definition Arrived short real (w t' : WireModel.wtrace) : Prop :=
  exists j x, EmbedSpec.Reads (WireModel.answer short w) j /\ WireSpec.Member "Ok" j x /\ WireSpec.TraceC real x t'.

(** ** Places in the text *)

(** The position of a place, given by line and column: its column behind the beginning of its line. *)
Definition Spot (d : EditorModel.doc) (p : nat * nat) (n : nat) : Prop :=
  exists ls line rest, d = ls ++ line :: rest /\ length ls = fst p /\ n = EditorSpec.position_after (EditorSpec.text_before ls []) + snd p.
(** The beginning and the end of a range. *)
Definition Begins (d : EditorModel.doc) (r : WireModel.wrange) (n : nat) : Prop := exists a b f, r = (a, b, f) /\ Spot d a n.
Definition Finishes (d : EditorModel.doc) (r : WireModel.wrange) (n : nat) : Prop := exists a b f, r = (a, b, f) /\ Spot d b n.
(** The mark is in the body [body], and behind the beginning of the place [at_]. *)
Definition MarkFits (d : EditorModel.doc) (body at_ : WireModel.wrange) (mark : nat) : Prop :=
  exists lo hi l, Begins d body lo /\ Finishes d body hi /\ Begins d at_ l /\ lo <= mark <= hi /\ l < mark.

(** The mark fits the innermost function of a state of a trace. *)
Definition FitsStep (d : EditorModel.doc) (mark : nat) (s : WireModel.wstep) : Prop :=
  exists outer f, WireModel.w_frames s = outer ++ [f] /\ MarkFits d (WireModel.w_body f) (WireModel.w_loc f) mark.
(** The state number [k] is the last that the mark fits. *)
Definition LastFits (d : EditorModel.doc) (steps : list WireModel.wstep) (mark k : nat) : Prop :=
  (exists s, nth_error steps k = Some s /\ FitsStep d mark s) /\
  forall j s, k < j -> nth_error steps j = Some s -> ~ FitsStep d mark s.

(** The innermost function of the state and where it is are in the text. *)
Definition InText (d : EditorModel.doc) (s : WireModel.wstep) : Prop :=
  exists outer f lo hi l, WireModel.w_frames s = outer ++ [f] /\
    Begins d (WireModel.w_body f) lo /\ Finishes d (WireModel.w_body f) hi /\ Begins d (WireModel.w_loc f) l.

(** ** A state on the page *)

Section Screen.
  Context {M Msg : Type} (mac : machine M Msg) (lay : local -> vlayout) (u8 : nat).
  Context (prog : nat -> fn) (node_range span_range : nat -> nat -> option WireModel.wrange).
  (** The names of the functions and the ranges of their bodies. *)
  Context (names : nat -> string) (bodies : nat -> WireModel.wrange).

  (** The row of a variable [x] with the value [v] of the frame at depth [d]: its name, crossed out iff it was
      moved, and what its value looks like. *)
  Definition RowShows ft c err (h : list (M * M)) (d : nat) (x : shown) (v : mvalue) (row : string * bool * LookModel.look) : Prop :=
    fst (fst row) = sh_name x /\ (snd (fst row) = true <-> MovedOut mac h d (sh_local x)) /\ LookSpec.Looks ft c err v (snd row).

  (** Each running function of the user, in the order of the calls, is drawn under its name, with a row for each
      of its variables that have a value, [vss] being the values that memory holds; the objects of the heap that
      they reach are drawn likewise.  The innermost function has the body [body], and is at the place [at_]. *)
  Definition Seen ft c err (m0 : M) (pic : ScreenModel.picture) (body at_ : WireModel.wrange) : Prop :=
    exists h m m', Path mac m0 ((m, m') :: h) m' /\
    let v := k_look mac m' in
    exists mm xss vss heap,
      Located lay v mm /\
      Forall2 (fun f xs => Chosen (fun i l name => SourceVar f i l name /\ HasValue (v_allocs v) l (lay l)) 0 (f_locals f) xs)
        (v_frames v) xss /\
      Right mm u8 (map (fun x => (sh_place x, sh_ty x)) (concat xss)) (concat vss) heap /\
      Forall2 (LookSpec.Looks ft c err) heap (snd pic) /\
      length (fst pic) = length (user_depths (k_stack mac m')) /\ length xss = length (fst pic) /\ length vss = length (fst pic) /\
      (forall i d fr xs vs, nth_error (user_depths (k_stack mac m')) i = Some d -> nth_error (fst pic) i = Some fr ->
        nth_error xss i = Some xs -> nth_error vss i = Some vs ->
        (exists rf, nth_error (k_stack mac m') d = Some rf /\ fst fr = names (rf_fun rf)) /\
        length vs = length xs /\ length (snd fr) = length xs /\
        forall j x v row, nth_error xs j = Some x -> nth_error vs j = Some v -> nth_error (snd fr) j = Some row ->
          RowShows ft c err ((m, m') :: h) d x v row) /\
      exists ds d rf, user_depths (k_stack mac m') = ds ++ [d] /\ nth_error (k_stack mac m') d = Some rf /\
        body = bodies (rf_fun rf) /\ Place_of mac prog node_range span_range m m' d at_.
End Screen.

(** ** What is printed of a trace *)

(** A printed trace [w] has the states of the trace [t] in its order; in each the same frames, with the names and the bodies of their functions, the same places,
    and the same variables, of which the moved ones have the path to the whole variable; and the heap of any of its frames. *)
Definition PrintedLocal (l : WholeModel.mlocal) (w : LookModel.mlocal) : Prop :=
  LookModel.l_name w = v_name l /\ LookModel.l_value w = v_value l /\
  forall path, In path (LookModel.l_moved w) <-> v_moved l = true /\ path = [].
Definition PrintedFrame (names : nat -> string) (bodies : nat -> WireModel.wrange) (f : TraceModel.frame mframe WireModel.wrange) (w : WireModel.wframe) : Prop :=
  WireModel.w_name w = names (fr_fun (f_info f)) /\ WireModel.w_body w = bodies (fr_fun (f_info f)) /\ WireModel.w_loc w = f_loc f /\
  Forall2 PrintedLocal (fr_locals (f_info f)) (WireModel.w_locals w).
Definition PrintedStep names bodies (s : TraceModel.mstep mframe unit WireModel.wrange) (w : WireModel.wstep) : Prop :=
  Forall2 (PrintedFrame names bodies) (m_frames s) (WireModel.w_frames w) /\
  forall f r, m_frames s = f :: r -> WireModel.w_heap w = fr_heap (f_info f).
Definition Printed names bodies (t : TraceModel.mtrace mframe unit (mresult string) WireModel.wrange) (w : WireModel.wtrace) : Prop :=
  Forall2 (PrintedStep names bodies) (tr_steps t) (WireModel.w_steps w) /\
  match tr_result t with
  | RSuccess => WireModel.w_result w = WireModel.WSuccess
  | RFreed a => WireModel.w_result w = WireModel.WUseAfterFree a
  | ROther m => WireModel.w_result w = WireModel.WOther m
  end.

(** ** The error *)

(** The text beside the last state, for how the execution ended. *)
Inductive ErrorText : option (ierror string) -> option string -> Prop :=
| et_none : ErrorText None None
| et_freed a met : ErrorText (Some (UseAfterFree a met)) (Some "pointer used after its pointee is freed"%string)
| et_other m : ErrorText (Some (Undefined (Some m))) (Some m).
