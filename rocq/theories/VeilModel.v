(** * Model of the hidden lines of a program while it is edited

    Sources: frontend/packages/aquascope-editor/src/editor-utils/misc.tsx 208-224 [hiddenLines] (M),
    frontend/packages/aquascope-editor/src/lib.tsx 310-315 (L).
    The text is a list of UTF-16 units, 10 between lines: positions of the editor are positions in it.  Simplifications: the mapping of
    positions by a change is CodeMirror's ([ChangeDesc.mapPos]) for a decoration of a line, which is in front of an insertion and goes
    with what is before it ([Decoration.line]: negative side, [MapMode.TrackBefore]); that hidden lines take no space is left to the
    style sheet. *)
From Coq Require Import List Arith Bool.
From Verif Require Import Base.
Import ListNotations.
Local Open Scope list_scope.

(** A change of the editor: parts of the text that are kept, and parts that are replaced. *)
Inductive section := Keep (n : nat) | Replace (n : nat) (ins : list nat).
Definition changes := list section.
Definition old_len (s : section) : nat := match s with Keep n => n | Replace n _ => n end.
Fixpoint apply (cs : changes) (t : list nat) : list nat :=
  match cs with
  | [] => t
  | Keep n :: r => firstn n t ++ apply r (skipn n t)
  | Replace n ins :: r => ins ++ apply r (skipn n t)
  end.
(** [ChangeDesc.mapPos]; [None]: the decoration is dropped. *)
Fixpoint map_pos (cs : changes) (pos posA posB : nat) : option nat :=
  match cs with
  | [] => Some posB
  | Keep n :: r => if pos <? posA + n then Some (posB + (pos - posA)) else map_pos r pos (posA + n) (posB + n)
  | Replace n ins :: r =>
    if (pos <=? posA + n) && (posA <? pos) then None
    else if (pos <? posA + n) || ((pos =? posA + n) && (n =? 0)) then Some posB
    else map_pos r pos (posA + n) (posB + length ins)
  end.

(** [Text.line(n).from]: where the lines begin *)
Fixpoint starts (p : nat) (t : list nat) : list nat :=
  match t with [] => [] | c :: r => if c =? 10 then S p :: starts (S p) r else starts (S p) r end.
Definition line_start (t : list nat) (n : nat) : option nat := match n with 0 => None | S k => nth_error (0 :: starts 0 t) k end.

(** The editor: its text and the decorations of the field. *)
Record veil := Veil { v_text : list nat; v_hidden : list nat }.
(** M 212-221.  A transaction with changes, one with the effect [hideLine]; [Text.line] throws for a number that is none, then nothing is changed. *)
Inductive event := Change (cs : changes) | Hide (line : nat).
Definition on_event (v : veil) (e : event) : veil :=
  match e with
  | Change cs => Veil (apply cs (v_text v)) (flat_map (fun p => match map_pos cs p 0 0 with Some q => [q] | None => [] end) (v_hidden v))
  | Hide n => match line_start (v_text v) n with Some p => Veil (v_text v) (v_hidden v ++ [p]) | None => v end
  end.
Definition after (t : list nat) (es : list event) : veil := fold_left on_event es (Veil t []).
