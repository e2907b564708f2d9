(** * The editor as a component of other pages

    Source: frontend/packages/aquascope-editor/src/lib.tsx 364-393
    [EditorComponent], with the parts of the editor it uses (124-173 the constructor,
    236-238 [destroy], 261-278, 280-362 [renderOperation]). *)
From Coq Require Import List.
Import ListNotations.

(** 364-369.  [T]: traces, [A]: the analysis of a function, [E]: errors.  A value that
    JavaScript takes for false is [None].  [setup] is left out. *)
Record props (C T A E : Type) := Props { p_code : C; p_steps : option (T + E); p_perms : option (list (A + E)) }.
Arguments Props {C T A E}. Arguments p_code {C T A E}. Arguments p_steps {C T A E}. Arguments p_perms {C T A E}.

(** What one editor put into the element of the component: its view with code and
    marks, until it is destroyed; the React root of its buttons; the trace. *)
Record piece (C T A : Type) := Piece { pc_view : option (C * list A); pc_root : bool; pc_trace : option T }.
Arguments Piece {C T A}. Arguments pc_view {C T A}. Arguments pc_root {C T A}. Arguments pc_trace {C T A}.

Definition oks {A E} (l : list (A + E)) : list A := flat_map (fun r => match r with inl a => [a] | inr _ => [] end) l.
Definition errs {A E} (l : list (A + E)) : list E := flat_map (fun r => match r with inl _ => [] | inr e => [e] end) l.

(** 124-173: the new editor. *)
Definition new_editor {C T A} (code : C) : piece C T A := Piece (Some (code, [])) true None.

(** 323-328 and 271-277.  The configuration is [horizontal], so 266-269 do not apply. *)
Definition render_interpreter {C T A E} (pc : piece C T A) (r : T + E) : piece C T A * list E :=
  match r with
  | inl t => (Piece (pc_view pc) (pc_root pc) (Some t), [])
  | inr e => (pc, [e])
  end.

(** 329-359: marks for what was analysed, reports for the rest. *)
Definition render_permissions {C T A E} (pc : piece C T A) (rs : list (A + E)) : piece C T A * list E :=
  (Piece (match pc_view pc with Some (c, _) => Some (c, oks rs) | None => None end) (pc_root pc) (pc_trace pc), errs rs).

(** 373-389: the effect.  Nothing is waited for, since both responses are there. *)
Definition effect {C T A E} (p : props C T A E) : piece C T A * list E :=
  let pc := new_editor (p_code p) in
  let (pc, r1) := match p_steps p with Some r => render_interpreter pc r | None => (pc, []) end in
  let (pc, r2) := match p_perms p with Some rs => render_permissions pc rs | None => (pc, []) end in
  (pc, r1 ++ r2).

(** 390 and 236-238: only the view is destroyed. *)
Definition destroy {C T A} (pc : piece C T A) : piece C T A := Piece None (pc_root pc) (pc_trace pc).

(** The component: the pieces in its element, the newest first; whether it is on the
    page, with its last properties; what was reported; the pieces of elements that
    are no longer on the page. *)
Record comp (C T A E : Type) := Comp { c_div : list (piece C T A); c_props : option (props C T A E); c_told : list E; c_gone : list (piece C T A) }.
Arguments Comp {C T A E}. Arguments c_div {C T A E}. Arguments c_props {C T A E}. Arguments c_told {C T A E}. Arguments c_gone {C T A E}.

(** What React does.  [Again]: the effect is undone and done again with the element
    kept, as in strict mode or when code is reloaded.  An event that cannot happen
    then is ignored. *)
Inductive event (C T A E : Type) := Mount (p : props C T A E) | Update (p : props C T A E) | Again | Unmount.
Arguments Mount {C T A E}. Arguments Update {C T A E}. Arguments Again {C T A E}. Arguments Unmount {C T A E}.

(** The cleanup belongs to the editor made last. *)
Definition clean {C T A} (div : list (piece C T A)) : list (piece C T A) :=
  match div with [] => [] | pc :: r => destroy pc :: r end.

(** 372 and 391: with no dependencies the effect is not run for new properties. *)
Definition happen {C T A E} (c : comp C T A E) (e : event C T A E) : comp C T A E :=
  match e, c_props c with
  | Mount p, None => let (pc, r) := effect p in Comp [pc] (Some p) (c_told c ++ r) (c_gone c)
  | Update p, Some _ => Comp (c_div c) (Some p) (c_told c) (c_gone c)
  | Again, Some p => let (pc, r) := effect p in Comp (pc :: clean (c_div c)) (Some p) (c_told c ++ r) (c_gone c)
  | Unmount, Some _ => Comp [] None (c_told c) (clean (c_div c) ++ c_gone c)
  | _, _ => c
  end.

Definition unused {C T A E} : comp C T A E := Comp [] None [] [].
Definition history {C T A E} (es : list (event C T A E)) : comp C T A E := fold_left happen es unused.
