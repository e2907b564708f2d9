(** * What the page that uses the component sees *)
From Coq Require Import List.
From Verif Require Import MountModel.
Import ListNotations.

(** The editors that are seen: code and marks. *)
Definition Views {C T A E} (c : comp C T A E) : list (C * list A) :=
  flat_map (fun pc => match pc_view pc with Some v => [v] | None => [] end) (c_div c).
(** The traces that are seen. *)
Definition Traces {C T A E} (c : comp C T A E) : list T :=
  flat_map (fun pc => match pc_trace pc with Some t => [t] | None => [] end) (c_div c).
(** The views and the roots that still take up room, on the page or not. *)
Definition LiveViews {C T A E} (c : comp C T A E) : nat :=
  length (filter (fun pc => match pc_view pc with Some _ => true | None => false end) (c_div c ++ c_gone c)).
Definition LiveRoots {C T A E} (c : comp C T A E) : nat := length (filter pc_root (c_div c ++ c_gone c)).

(** [MarksOf rs ms]: the marks are the analyses of [rs] that went well, in order. *)
Inductive MarksOf {A E} : list (A + E) -> list A -> Prop :=
| marks_nil : MarksOf [] []
| marks_ok a rs ms : MarksOf rs ms -> MarksOf (inl a :: rs) (a :: ms)
| marks_err e rs ms : MarksOf rs ms -> MarksOf (inr e :: rs) ms.

(** [ErrorsOf rs es]: the errors are those of [rs], in order. *)
Inductive ErrorsOf {A E} : list (A + E) -> list E -> Prop :=
| errors_nil : ErrorsOf [] []
| errors_ok a rs es : ErrorsOf rs es -> ErrorsOf (inl a :: rs) es
| errors_err e rs es : ErrorsOf rs es -> ErrorsOf (inr e :: rs) (e :: es).

(** The component shows just these properties. *)
Definition Shows {C T A E} (c : comp C T A E) (p : props C T A E) : Prop :=
  (exists ms, Views c = [(p_code p, ms)] /\ match p_perms p with None => ms = [] | Some rs => MarksOf rs ms end) /\
  Traces c = match p_steps p with Some (inl t) => [t] | _ => [] end.

Definition IsUpdate {C T A E} (e : event C T A E) : Prop := exists p, e = Update p.
(** The component is on the page. *)
Definition OnPage {C T A E} (c : comp C T A E) : Prop := c_props c <> None.
