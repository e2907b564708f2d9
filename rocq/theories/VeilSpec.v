(** * Hidden lines *)
From Coq Require Import List Arith Bool.
From Verif Require Import Base VeilModel.
Import ListNotations.
Local Open Scope list_scope.

(** At [p] there begins a line, with the text [l]. *)
Definition Line (t : list nat) (p : nat) (l : list nat) : Prop :=
  exists before after, t = before ++ l ++ after /\ length before = p /\ ~ In 10 l /\
    (before = [] \/ exists b, before = b ++ [10]) /\ (after = [] \/ exists a, after = 10 :: a).

(** Line number [n], from 1, begins at [p]: there are [n - 1] breaks before. *)
Definition Numbered (t : list nat) (n p : nat) : Prop :=
  exists l, Line t p l /\ length (filter (Nat.eqb 10) (firstn p t)) + 1 = n.

(** The unit at [p] is kept by the change, and is then at [q]. *)
Inductive Carries : changes -> nat -> nat -> Prop :=
| carries_here n r k : k < n -> Carries (Keep n :: r) k k
| carries_keep n r p q : Carries r p q -> Carries (Keep n :: r) (n + p) (n + q)
| carries_replace n ins r p q : Carries r p q -> Carries (Replace n ins :: r) (n + p) (length ins + q).

(** A line goes with the break in front of it; the first one stays the first. *)
Definition Goes (cs : changes) (p q : nat) : Prop :=
  (p = 0 /\ q = 0) \/ exists p' q', p = S p' /\ q = S q' /\ Carries cs p' q'.

(** A change is one of this text. *)
Definition Fits (cs : changes) (t : list nat) : Prop := list_sum (map old_len cs) = length t.
Fixpoint Fitting (t : list nat) (es : list event) : Prop :=
  match es with [] => True | Change cs :: r => Fits cs t /\ Fitting (apply cs t) r | Hide _ :: r => Fitting t r end.

(** The line that begins at [q] is hidden after the events: it was hidden by one of them, and has gone here since. *)
Inductive Veiled : list nat -> list event -> nat -> Prop :=
| veiled_hide t n es p q : Numbered t n p -> Moved t es p q -> Veiled t (Hide n :: es) q
| veiled_later_hide t n es q : Veiled t es q -> Veiled t (Hide n :: es) q
| veiled_later_change t cs es q : Veiled (apply cs t) es q -> Veiled t (Change cs :: es) q
with Moved : list nat -> list event -> nat -> nat -> Prop :=
| moved_nil t p : Moved t [] p p
| moved_hide t n es p q : Moved t es p q -> Moved t (Hide n :: es) p q
| moved_change t cs es p q r : Goes cs p q -> Moved (apply cs t) es q r -> Moved t (Change cs :: es) p r.

(** One replacement. *)
Definition replace (t : list nat) (from to : nat) (ins : list nat) : changes := [Keep from; Replace (to - from) ins; Keep (length t - to)].
