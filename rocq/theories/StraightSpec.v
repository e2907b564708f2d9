(** * What is expected of functions without decisions

    In terms of the syntax of the function and its steps (HirSpec.v), its executions (CfgSpec.v) and the
    state of its places (StepsSpec.v). *)
From Coq Require Import List Arith Bool.
From Verif Require Import Base PermsModel FactsModel FactsSpec CfgModel CfgSpec SegMirModel HirModel HirSpec TablesModel StepsModel StepsSpec.
Import ListNotations.

(** The function takes no decision: no [if], [while], [for] or [match], other than one that the
    compiler has introduced and that does not choose; and it has no guard. *)
Definition Undecided (env : henv) (value : expr) : Prop := decisions_expr env value = [] /\ guards_expr value = [].

(** From each place to the next one, over the next one's piece of source. *)
Fixpoint between (from : loc) (places : list (loc * nat)) : list (loc * loc * nat) :=
  match places with
  | [] => []
  | (to, span) :: rest => (from, to, span) :: between to rest
  end.

(** The places where the function's steps end, one after the other, from its beginning. *)
Definition steps_between (env : henv) (value : expr) : list (loc * loc * nat) :=
  between (Loc 0 0) (map fst (steps_body env value)).

(** Steps that connect: each begins where the one before has ended. *)
Inductive Connected : loc -> list seg -> Prop :=
| connected_none p : Connected p []
| connected_next p sg r : s_from sg = p -> Connected (s_to sg) r -> Connected p (sg :: r).

(** Every step's places are executed one after the other, in that order, by all executions that
    return; and at its start every return can still be reached. *)
Definition InOrder (env : henv) (value : expr) : Prop :=
  forall a b span, In (a, b, span) (steps_between env value) ->
    AlwaysBefore (he_body env) a b /\ AlwaysAfter (he_body env) b a /\
    forall r, ReturnLoc (he_body env) r -> exists l, walk (LocStep (he_body env)) a l r.

(** The letters of a place are different at two points. *)
Definition LettersDiffer (inp : Inp) (x : Place) (p q : Point) : Prop :=
  exists a b, LettersAt inp x p a /\ LettersAt inp x q b /\ a <> b.

(** Nothing is to be shown of a place at a step: its variable is dead at both ends, or only changes
    are shown and there is none.  Before the function begins there is nothing. *)
Definition Quiet (env : senv) (m : mode) (x : Place) (from : option loc) (to : loc) : Prop :=
  ~ LiveAtAll env x from to \/
  (m = Changes /\
   forall a b, LettersAt (se_inp env) x (se_point env to) b ->
     match from with
     | Some l => LettersAt (se_inp env) x (se_point env l) a
     | None => a = mkP false false false
     end -> a = b).
