(** * What the controls should do, said of the history alone *)
From Coq Require Import List Arith Bool.
From Verif Require Import Base BookModel ToolsModel.
From Verif Require EditorModel.
Import ListNotations.
Local Open Scope list_scope.

(** The reader is in an editor: the last move of the focus went into one. *)
Definition Typing (es : list event) : Prop :=
  exists before i later, es = before ++ Focus (Some i) :: later /\ forall t, ~ In (Focus t) later.

(** A window is a switch: its button turns it, its cross and the form put it off. *)
Definition same (i j : nat) (w v : window) : bool := Nat.eqb i j && if window_eqd w v then true else false.
Fixpoint switch (i : nat) (w : window) (on : bool) (es : list event) : bool :=
  match es with
  | [] => on
  | e :: r =>
    switch i w
      match e with
      | Toggle j v => if same i j w v then negb on else on
      | Close j v => if same i j w v then false else on
      | Submit j _ => if same i j w Bug then false else on
      | _ => on
      end r
  end.
(** Only a program with the buttons has windows. *)
Definition Opened (bs : list block) (es : list event) (i : nat) (w : window) : Prop :=
  (exists b, nth_error bs i = Some b /\ k_extra b = true) /\ switch i w false es = true.

(** The lines in the editor [i]: what the reader wrote last if it can be edited, otherwise the lines it was made with. *)
Inductive Lines (bs : list block) (es : list event) (i : nat) : EditorModel.doc -> Prop :=
| lines_first b : nth_error bs i = Some b -> k_fixed b = true \/ (forall d, ~ In (Edit i d) es) -> Lines bs es i (k_doc b)
| lines_edited b d before later : nth_error bs i = Some b -> k_fixed b = false ->
    es = before ++ Edit i d :: later -> (forall d', ~ In (Edit i d') later) -> Lines bs es i d.

(** The number of clicks on the eye of [i]. *)
Fixpoint winks (i : nat) (es : list event) : nat :=
  match es with [] => 0 | Eye j :: r => (if Nat.eqb i j then 1 else 0) + winks i r | _ :: r => winks i r end.

(** A page as it is made. *)
Definition Fresh (bs : list block) : Prop := Forall (fun b => exists code fixed extra eye, b = new_block code fixed extra eye) bs.
