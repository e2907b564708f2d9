(** * Model of an execution on the page

    Puts together what WholeModel.v (the trace), WireModel.v (its JSON) and LookModel.v (what stands in the cells) model,
    with the choice of the states and the numbers beside the code.
    Sources: crates/aquascope/src/interpreter/step.rs and
    E = frontend/packages/aquascope-editor/src/editor-utils/interpreter.tsx.  A function that may throw returns
    [None] when it does. *)
From Coq Require Import Ascii String.
From Coq Require Import List Arith Bool ZArith.
From Verif Require Import Base ValuesModel ReaderModel LookModel WireModel.
From Verif Require TraceModel MapperModel WholeModel EditorModel FrontModel.
Import ListNotations.
Local Open Scope string_scope.
Local Open Scope list_scope.

(** ** What the tool prints of a trace *)

Section Wire.
(** step.rs 236-247 [fn_name] and [body_span] of a function. *)
Variable names : nat -> string.
Variable bodies : nat -> wrange.

(** step.rs 31-38 [MLocal]: only whole locals are recorded as moved (WholeModel.v). *)
Definition wire_local (l : WholeModel.mlocal) : mlocal :=
  MLocal (WholeModel.v_name l) (WholeModel.v_value l) (if WholeModel.v_moved l then [[]] else []).
(** step.rs 46-53 [MFrame], 280-285 *)
Definition wire_frame (f : TraceModel.frame WholeModel.mframe wrange) : wframe :=
  let i := TraceModel.f_info f in
  WFrame (names (WholeModel.fr_fun i)) (bodies (WholeModel.fr_fun i)) (TraceModel.f_loc f) (map wire_local (WholeModel.fr_locals i)).
(** step.rs 55-72 [MStep]; a state has a frame, and every frame carries the heap (WholeModel.v). *)
Definition wire_step (s : TraceModel.mstep WholeModel.mframe unit wrange) : wstep :=
  WStep (map wire_frame (TraceModel.m_frames s))
    (match TraceModel.m_frames s with f :: _ => WholeModel.fr_heap (TraceModel.f_info f) | [] => [] end).
(** step.rs 74-95 [MResult], [MTrace] *)
Definition wire_result (r : MapperModel.mresult string) : wresult :=
  match r with
  | MapperModel.RSuccess => WSuccess
  | MapperModel.RFreed a => WUseAfterFree a
  | MapperModel.ROther m => WOther m
  end.
Definition wire (t : TraceModel.mtrace WholeModel.mframe unit (MapperModel.mresult string) wrange) : wtrace :=
  WTrace (map wire_step (TraceModel.tr_steps t)) (wire_result (TraceModel.tr_result t)).
End Wire.

(** ** Which states are shown *)

(** misc.tsx 327-328 [linecolToPosition] (EditorModel.v) *)
Definition place (d : EditorModel.doc) (p : nat * nat) : option nat :=
  EditorModel.linecol_to_position (EditorModel.Pos (fst p) (snd p)) d.
Definition start_of (r : wrange) : nat * nat := fst (fst r).
Definition end_of (r : wrange) : nat * nat := snd (fst r).

(** E 769-777: the test on a step; [&&] does not look at the end of a body that begins behind the mark. *)
Definition hits (d : EditorModel.doc) (mark : nat) (s : wstep) : option bool :=
  obind (TraceModel.last_opt (w_frames s)) (fun f =>
  obind (place d (start_of (w_body f))) (fun a =>
  obind (if Nat.leb a mark then option_map (fun b => Nat.leb mark b) (place d (end_of (w_body f))) else Some false) (fun inside =>
  option_map (fun l => inside && Nat.ltb l mark) (place d (start_of (w_loc f)))))).

(** E 767-783: one mark; the step's number counted from 1, the mark, the step. *)
Definition indexed (d : EditorModel.doc) (steps : list wstep) (mark : nat) : option (nat * (nat * wstep)) :=
  match FrontModel.find_index (hits d mark) 0 (rev steps) with
  | Some (Some (i, s)) => Some (length steps - i, (mark, s))
  | _ => None
  end.
(** E 762-789 [filterSteps] *)
Definition filter_steps (d : EditorModel.doc) (steps : list wstep) (marks : list nat) : option (list nat * list wstep) :=
  option_map (fun ix => let sorted := FrontModel.sort_by fst ix in
                        (map (fun x => fst (snd x)) sorted, map (fun x => snd (snd x)) sorted))
    (all_some (map (indexed d steps) marks)).
(** E 826-837 *)
Definition chosen (d : EditorModel.doc) (steps : list wstep) (marks : list nat) : option (list nat * list wstep) :=
  match marks with
  | [] => option_map (fun ps => (ps, steps))
            (all_some (map (fun s => obind (TraceModel.last_opt (w_frames s)) (fun f => place d (end_of (w_loc f)))) steps))
  | _ => filter_steps d steps marks
  end.

(** ** What is drawn *)

Definition picture := (list (string * list (string * bool * look)) * list look)%type.
(** A number in the code, red or not (E 791-816, 839-846), and a state with its header (E 670-710). *)
Record marker := Marker { k_pos : nat; k_label : nat; k_fail : bool }.
Record panel := Panel { p_label : nat; p_error : option string; p_picture : picture }.

(** E 690-695: the text in the header. *)
Definition error_text (r : wresult) : option string :=
  match r with
  | WSuccess => None
  | WUseAfterFree _ => Some "pointer used after its pointee is freed"
  | WOther m => Some m
  end.
(** E 839-846 *)
Definition draw_marker (total : nat) (r : wresult) (x : nat * nat) : marker :=
  Marker (snd x) (fst x + 1) (Nat.eqb (fst x) (total - 1) && match error_text r with Some _ => true | None => false end).
(** E 745-756: the error belongs to the last of the states shown. *)
Definition draw_panel (n : nat) (ft : Z -> list nat) (c : bool) (t : wtrace) (x : nat * wstep) : option panel :=
  option_map (Panel (fst x + 1) (if Nat.eqb (fst x) (length (w_steps t) - 1) then error_text (w_result t) else None))
    (look_state n ft c (error_at t (fst x)) (snap (snd x))).

(** E 818-856 [renderInterpreter].  Simplification: if a state cannot be drawn, the numbers in the code, which are placed
    before, stay; here nothing is shown. *)
Definition screen (d : EditorModel.doc) (marks : list nat) (n : nat) (ft : Z -> list nat) (c : bool) (t : wtrace)
    : option (list marker * list panel) :=
  obind (chosen d (w_steps t) marks) (fun '(ranges, steps) =>
  option_map (pair (map (draw_marker (length steps) (w_result t)) (combine (seq 0 (length ranges)) ranges)))
    (all_some (map (draw_panel n ft c (WTrace steps (w_result t))) (combine (seq 0 (length steps)) steps)))).
