(** * What the switch should do *)
From Coq Require Import Ascii String.
From Coq Require Import List Arith Bool.
From Verif Require Import Base BookModel FrontModel GlassModel.
Import ListNotations.
Local Open Scope list_scope.

(** The number of clicks. *)
Fixpoint clicks (es : list event) : nat :=
  match es with [] => 0 | Click :: r => S (clicks r) | _ :: r => clicks r end.

(** The pointer is in the view: it came in, and has not left since. *)
Definition Inside (es : list event) : Prop :=
  exists before after, es = before ++ Enter :: after /\ ~ In Leave after.

(** The elements [box] are the arrows [ars] of state [k], made in the pass [t]: an arrow that LeaderLine can draw has its line, and its area if it
    leads to a range; there is nothing else, and nothing twice. *)
Definition Arrows (works : nat -> nat -> arrow -> bool) (t k : nat) (ars : list arrow) (box : list svg) : Prop :=
  NoDup box /\
  forall x, In x box <-> g_time x = t /\ g_step x = k /\ In (g_arrow x) ars /\ works t k (g_arrow x) = true /\ (g_part x = Area -> a_range (g_arrow x) <> None).

(** The page shows the states drawn as [ds]. *)
Definition Showing works t (ds : list (list item * list arrow)) (ps : list panel) : Prop :=
  length ps = length ds /\
  forall k p d, nth_error ps k = Some p -> nth_error ds k = Some d -> p_items p = fst d /\ Arrows works t k (snd d) (p_box p).
