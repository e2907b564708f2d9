(** * Model of the step tables the view keeps

    Sources, in frontend/packages/aquascope-editor/src: S = editor-utils/stepper.tsx,
    M = editor-utils/misc.tsx, L = lib.tsx.  EditorModel.v says which decorations the
    page asks for; here is what the view has drawn for them. *)

From Coq Require Import List Arith Bool.
From Verif Require Import EditorModel.
Import ListNotations.

Section Kept.
  Context {Bd St Tr : Type}.

  (** The first table drawn at a place, and the others. *)
  Fixpoint take (n : nat) (l : list (nat * St)) : option (St * list (nat * St)) :=
    match l with
    | [] => None
    | (m, s) :: r => if n =? m then Some (s, r) else option_map (fun '(s', r') => (s', (m, s) :: r')) (take n r)
    end.

  (** S 394-397 [PermissionStepLineWidget.eq]: a table is equal to one on the same
      line, whatever is in it.  CodeMirror does not redraw a widget that is equal to the one
      that was there.  [keeps n] says that it keeps what is drawn at [n]: if a mark around
      the place changes as well, it may draw the place again.  The n-th table at a place
      is compared with the n-th; between two edits a place is always on the same line. *)
  Fixpoint redraw (keeps : nat -> bool) (old new : list (nat * St)) : list (nat * St) :=
    match new with
    | [] => []
    | (n, s) :: r =>
      match take n old with
      | Some (s', old') => (n, if keeps n then s' else s) :: redraw keeps old' r
      | None => (n, s) :: redraw keeps old r
      end
    end.

  (** The page with the tables that are drawn on it. *)
  Record view := View { v_page : page Bd St Tr; v_drawn : list (nat * St) }.

  (** The [k]-th event.  The answers may differ from one request to the next ([analyse k]):
      the tags of the facts do (M 156-206).  An edit takes all tables away
      (L 95-107) before anything is drawn again. *)
  Definition view_step (keeps : nat -> nat -> bool) (analyse : nat -> doc -> list (option (output Bd St))) (execute : doc -> option Tr)
      (k : nat) (v : view) (ev : event) : option view :=
    match step (analyse k) execute (v_page v) ev with
    | None => None
    | Some p => Some (View p (redraw (keeps k) (v_drawn v) (e_steps (p_ed p))))
    end.
  Fixpoint view_run keeps analyse execute (k : nat) (v : view) (evs : list event) : option view :=
    match evs with
    | [] => Some v
    | ev :: r => match view_step keeps analyse execute k v ev with Some v' => view_run keeps analyse execute (S k) v' r | None => None end
    end.
  Definition view_start (d : doc) : view := View (start d) [].
End Kept.
Arguments view : clear implicits.

(** M 156-206: the tags are new for every answer; [k] stands for all of one answer. *)
Definition tag_output {Bd St} (k : nat) (o : output Bd St) : output (Bd * nat) (St * nat) :=
  Output (o_facts o) (map (fun '(p, b) => (p, (b, k))) (o_boundaries o)) (map (fun '(p, s) => (p, (s, k))) (o_steps o)).
Definition tag_answers {Bd St} (analyse : doc -> list (option (output Bd St))) (k : nat) (d : doc) : list (option (output (Bd * nat) (St * nat))) :=
  map (option_map (tag_output k)) (analyse d).
