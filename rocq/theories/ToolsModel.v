(** * Model of the controls around the programs of a page: copying, hidden lines, reports and the keys of the book

    Sources: frontend/packages/aquascope-embed/src/main.tsx (W), frontend/packages/aquascope-embed/src/setup.ts (U),
    frontend/packages/aquascope-editor/src/lib.tsx (L).
    Simplifications: what a browser does is written out here: a listener that is there is not added again, the focus leaves one
    element before it enters the next, a key goes up from the element with the focus to the root element and then to the document, where
    the book listens.  The extension [setup] is in the editor twice (L 142, 146); its handlers do the same thing twice. *)
From Coq Require Import Ascii String.
From Coq Require Import List Arith Bool.
From Verif Require Import Base BookModel LessonModel.
From Verif Require EditorModel.
Import ListNotations.
Local Open Scope list_scope.

(** The functions that are registered for keys on the root element.  U 36-38: that of the editors is made once for all of them, as
    [setup] is a constant (U 56-63).  W 34: that of a window is made each time it is opened; they are numbered. *)
Inductive listener := OfEditors | OfWindow (n : nat).
Definition listener_eqd : forall a b : listener, {a = b} + {a <> b}.
Proof. decide equality. apply Nat.eq_dec. Defined.
(** [addEventListener] and [removeEventListener] *)
Definition add_listener (x : listener) (l : list listener) : list listener := if in_dec listener_eqd x l then l else l ++ [x].
Definition remove_listener (x : listener) (l : list listener) : list listener := filter (fun y => if listener_eqd x y then false else true) l.

(** W 115-167: the two windows. *)
Inductive window := Bug | Question.
Definition window_eqd : forall a b : window, {a = b} + {a <> b}.
Proof. decide equality. Defined.

(** A program on the page: the code it was made with, its text now, whether it can be edited (W 184, L 143-144), whether it has the buttons
    of the windows (W 205), whether it has the eye (L 310-315), whether hidden lines are hidden (L 82), and the open windows with the
    numbers of their listeners. *)
Record block := Block {
  k_code : str; k_doc : EditorModel.doc; k_fixed : bool; k_extra : bool; k_eye : bool; k_hidden : bool; k_open : list (window * nat) }.
(** W 176-242 *)
Definition new_block (code : str) (fixed extra eye : bool) : block := Block code (text_of code) fixed extra eye true [].

(** The page: the editor with the focus, if any; the listeners on the root element; the number of the next one; the clipboard; the reports sent;
    the keys that came to the book. *)
Record page := Page {
  g_blocks : list block; g_focus : option nat; g_listeners : list listener; g_next : nat;
  g_clip : option str; g_reports : list (str * str); g_keys : list nat }.
Definition new_page (bs : list block) : page := Page bs None [] 0 None [] [].

Inductive event :=
| Focus (target : option nat)
| Key (c : nat)
| Edit (i : nat) (d : EditorModel.doc)
| Copy (i : nat)
| Eye (i : nat)
| Toggle (i : nat) (w : window)
| Close (i : nat) (w : window)
| Submit (i : nat) (feedback : str).

Fixpoint update {A} (i : nat) (f : A -> A) (l : list A) : list A :=
  match i, l with
  | _, [] => []
  | 0, x :: r => f x :: r
  | S i', x :: r => x :: update i' f r
  end.
Definition on_blocks (g : page) (bs : list block) : page := Page bs (g_focus g) (g_listeners g) (g_next g) (g_clip g) (g_reports g) (g_keys g).

(** U 35-53 [suppressKeyEvents]: [focusout] of the editor that had the focus, then [focusin] of the new one. *)
Definition on_focus (t : option nat) (g : page) : page :=
  let out := match g_focus g with Some _ => remove_listener OfEditors (g_listeners g) | None => g_listeners g end in
  let inn := match t with Some _ => add_listener OfEditors out | None => out end in
  Page (g_blocks g) t inn (g_next g) (g_clip g) (g_reports g) (g_keys g).

(** A listener on the root element stops the key (U 36, W 34). *)
Definition on_key (c : nat) (g : page) : page :=
  Page (g_blocks g) (g_focus g) (g_listeners g) (g_next g) (g_clip g) (g_reports g)
    (match g_listeners g with [] => g_keys g ++ [c] | _ => g_keys g end).

(** L 143-144 *)
Definition edit_block (d : EditorModel.doc) (b : block) : block :=
  if k_fixed b then b else Block (k_code b) d (k_fixed b) (k_extra b) (k_eye b) (k_hidden b) (k_open b).

(** L 68-79 [CopyButton] *)
Definition on_copy (i : nat) (g : page) : page :=
  match nth_error (g_blocks g) i with
  | Some b => Page (g_blocks g) (g_focus g) (g_listeners g) (g_next g) (Some (join [10] (k_doc b))) (g_reports g) (g_keys g)
  | None => g
  end.

(** L 81-93 [HideButton] *)
Definition eye_block (b : block) : block :=
  if k_eye b then Block (k_code b) (k_doc b) (k_fixed b) (k_extra b) (k_eye b) (negb (k_hidden b)) (k_open b) else b.

Definition set_open (o : list (window * nat)) (b : block) : block :=
  Block (k_code b) (k_doc b) (k_fixed b) (k_extra b) (k_eye b) (k_hidden b) o.
(** W 31-58 [useCaptureMdbookShortcuts] when a window is opened, and when it is closed. *)
Definition open_window (i : nat) (w : window) (b : block) (g : page) : page :=
  Page (update i (set_open (aset window_eqd (k_open b) w (g_next g))) (g_blocks g)) (g_focus g)
    (add_listener (OfWindow (g_next g)) (g_listeners g)) (S (g_next g)) (g_clip g) (g_reports g) (g_keys g).
Definition close_window (i : nat) (w : window) (b : block) (g : page) : page :=
  match aget window_eqd (k_open b) w with
  | None => g
  | Some n =>
    Page (update i (set_open (adel window_eqd (k_open b) w)) (g_blocks g)) (g_focus g)
      (remove_listener (OfWindow n) (g_listeners g)) (g_next g) (g_clip g) (g_reports g) (g_keys g)
  end.
(** W 83-90: the button of a window; 101-107: its cross; 118-125: the form, which is there while the window is open. *)
Definition on_toggle (i : nat) (w : window) (g : page) : page :=
  match nth_error (g_blocks g) i with
  | None => g
  | Some b => if k_extra b then match aget window_eqd (k_open b) w with None => open_window i w b g | Some _ => close_window i w b g end else g
  end.
Definition on_close (i : nat) (w : window) (g : page) : page :=
  match nth_error (g_blocks g) i with None => g | Some b => close_window i w b g end.
Definition on_submit (i : nat) (feedback : str) (g : page) : page :=
  match nth_error (g_blocks g) i with
  | None => g
  | Some b =>
    match aget window_eqd (k_open b) Bug with
    | None => g
    | Some _ => close_window i Bug b (Page (g_blocks g) (g_focus g) (g_listeners g) (g_next g) (g_clip g) (g_reports g ++ [(k_code b, feedback)]) (g_keys g))
    end
  end.

Definition on_event (g : page) (e : event) : page :=
  match e with
  | Focus t => on_focus t g
  | Key c => on_key c g
  | Edit i d => on_blocks g (update i (edit_block d) (g_blocks g))
  | Copy i => on_copy i g
  | Eye i => on_blocks g (update i eye_block (g_blocks g))
  | Toggle i w => on_toggle i w g
  | Close i w => on_close i w g
  | Submit i f => on_submit i f g
  end.
Definition after (bs : list block) (es : list event) : page := fold_left on_event es (new_page bs).
