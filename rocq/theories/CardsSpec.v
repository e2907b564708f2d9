(** What a user expects of the stand-alone page, in terms of what happened on it. *)
From Coq Require Import List Bool Arith NArith Lia.
Import ListNotations.
From Verif Require Import Base CardsModel.

Definition history := list (N * happening).

(** The happenings are in the order of their times, and none is after [t]. *)
Inductive Until : N -> history -> Prop :=
| Until_nil t : Until t []
| Until_snoc t t' h e : Until t' h -> (t' <= t)%N -> Until t (h ++ [(t', e)]).
(** There are two tabs to click on. *)
Definition Possible (h : history) : Prop := forall t i, In (t, Click i) h -> i < 2.

(** An answer that could be read lists a failure. *)
Definition Lists (e : happening) (f : failure) : Prop :=
  exists err fs, e = Arrives (Ans true err (Some fs)) /\ In f fs.
(** A build error reached the page at a time. *)
Definition BuildErrorAt (h : history) (t : N) : Prop := exists e, In (t, e) h /\ Lists e BuildError.

(** The last happening that says something on a matter says [x]. *)
Definition Latest {X} (says : happening -> X -> Prop) (h : history) (x : X) : Prop :=
  exists pre t e post, h = pre ++ (t, e) :: post /\ says e x /\ forall t' e' y, In (t', e') post -> ~ says e' y.
Definition Never {X} (says : happening -> X -> Prop) (h : history) : Prop := forall t e y, In (t, e) h -> ~ says e y.

(** Tab 0 is Code and tab 1 is Stderr. *)
Definition Brings (e : happening) (tab : nat) : Prop :=
  e = Click tab \/ (tab = 1 /\ (Lists e BuildError \/ exists m, Lists e (AnalysisError m))).
(** The internal error's card is opened, or closed. *)
Definition Opens (e : happening) (o : bool) : Prop :=
  (e = Close /\ o = false) \/ (o = true /\ exists m, Lists e (AnalysisError m)).
(** The last internal error of an answer. *)
Definition Explains (e : happening) (m : list nat) : Prop :=
  exists err fs gs, e = Arrives (Ans true err (Some (fs ++ AnalysisError m :: gs))) /\ forall m', ~ In (AnalysisError m') gs.
(** The answers whose error output is shown: those that report no success, and those whose output can be read. *)
Definition Prints (e : happening) (s : list nat) : Prop :=
  exists ok out, e = Arrives (Ans ok s out) /\ (ok = false \/ out <> None).

(** Exactly the element number [i] of the two is in front. *)
Definition InFront (l : list elem) (i : nat) : Prop :=
  (i = 0 /\ l = [(0, true); (1, false)]) \/ (i = 1 /\ l = [(0, false); (1, true)]).
(** What is shown on a matter: what was said last, or at first [d]. *)
Definition Shows {X} (says : happening -> X -> Prop) (h : history) (d x : X) : Prop :=
  Latest says h x \/ (Never says h /\ x = d).
(** How many files an answer says were not found. *)
Fixpoint missing (fs : list failure) : nat :=
  match fs with [] => 0 | FileNotFound :: r => S (missing r) | _ :: r => missing r end.
Fixpoint all_missing (h : history) : nat :=
  match h with
  | [] => 0
  | (_, Arrives (Ans true _ (Some fs))) :: r => missing fs + all_missing r
  | _ :: r => all_missing r
  end.
