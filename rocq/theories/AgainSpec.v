(** * When the answer of the stepper does not depend on the order of hash maps *)
From Coq Require Import List Arith Bool.
From Verif Require Import Base PermsModel FactsModel SpansModel SpansSpec HirModel TablesModel TablesSpec StepsModel StepsSpec.
Import ListNotations.

(** All changes of a visible place on a line are the same one. *)
Definition OneChange (env : senv) (value : expr) (h : hst) (m : mode) : Prop :=
  forall x d d' span span' pos, se_visible env x = true ->
    Candidate env value h x d span -> Worth m d -> LineEnd (se_text env) (se_hi env span) pos ->
    Candidate env value h x d' span' -> Worth m d' -> LineEnd (se_text env) (se_hi env span') pos -> d = d'.

(** Visible places differ by their variable or by the length of their path. *)
Definition Distinguished (env : senv) : Prop :=
  forall x y, In x (in_places (se_inp env)) -> In y (in_places (se_inp env)) ->
    se_visible env x = true -> se_visible env y = true ->
    local x = local y -> length (projection x) = length (projection y) -> x = y.
