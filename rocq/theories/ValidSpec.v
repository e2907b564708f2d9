(** * What a test of the steps of a function should say *)
From Coq Require Import List Arith.
From Verif Require Import Base CfgModel CfgSpec SegMirModel SegMirSpec.
Import ListNotations.

(** The location [l] is on the way of the step from [a] to [b]: behind [a] and
    before [b], in whatever block one may come to without passing that of [b]. *)
Definition OnTheWay (bd : body) (a b l : loc) : Prop :=
  ValidLoc bd l /\
  (l_block l = l_block a -> l_idx a <= l_idx l) /\
  (l_block l = l_block b -> l_idx l <= l_idx b) /\
  (l_block l = l_block b \/ exists p, path bd (l_block a) p (l_block l) /\ ~ In (l_block b) p).

(** The function has this location: in a block of normal control flow that
    control may come to. *)
Definition InFunction (bd : body) (l : loc) : Prop :=
  ValidLoc bd l /\ Normal bd (l_block l) /\ exists p, walk (Target bd) 0 p (l_block l).

(** The step [g] is a linear one of [s], or leads into an arm. *)
Definition LinearOf (s : st) (g : seg) : Prop :=
  exists cid c sid, nth_error (colls s) cid = Some c /\ In (Linear sid) (c_data c) /\ nth_error (segs s) sid = Some g.
Definition SplitOf (s : st) (g : seg) : Prop :=
  exists b sid, In b (branches s) /\ In sid (br_splits b) /\ nth_error (segs s) sid = Some g.

(** From every location that is reached, every return can be reached. *)
Definition Ends (bd : body) : Prop :=
  forall l r, ReachableLoc bd l -> ReturnLoc bd r -> exists p, walk (LocStep bd) l p r.

(** The three things that the comment of the test promises (1049-1057). *)
Definition StepsFit (bd : body) (s : st) : Prop :=
  (forall g, LinearOf s g -> AlwaysBefore bd (s_from g) (s_to g) /\ AlwaysAfter bd (s_to g) (s_from g)) /\
  (forall g, SplitOf s g -> AlwaysBefore bd (s_from g) (s_to g)).
Definition StepsCover (bd : body) (s : st) : Prop :=
  forall l, InFunction bd l -> exists g, In g (segs s) /\ OnTheWay bd (s_from g) (s_to g) l.
Definition SwitchesSplit (bd : body) (s : st) : Prop :=
  forall b d ts n, nth_error bd b = Some d -> b_term d = TSwitchInt ts -> In n ts -> Normal bd n ->
    (exists p, path bd 0 p b) -> exists g, SplitOf s g /\ AlwaysBefore bd (Loc n 0) (s_to g).

(** Control never comes back from where it is not normal (rustc guarantees it: a
    cleanup block only leads to cleanup blocks, and nothing follows [unreachable]). *)
Definition NoWayBack (bd : body) : Prop := forall a b, Target bd a b -> Normal bd b -> Normal bd a.
