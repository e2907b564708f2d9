(** * An execution runs through the steps of the table

    Stated with executions of the body and the finished structure. *)
From Coq Require Import List Arith Bool Lia.
From Verif Require Import Base CfgModel CfgSpec SegMirModel SegMirSpec.
Import ListNotations.

(** [Through bd s p items w q]: the execution [w] goes from [p] to [q] and is cut
    by the ends of the items, one piece for each of them, in order.  The piece of
    a linear step goes from its start to its end.  The piece of a branch goes from
    where it was opened to its join; a branch without a join has no piece of its own. *)
Inductive Through (bd : body) (s : st) : loc -> list cf -> list loc -> loc -> Prop :=
| through_nil p : Through bd s p [] [p] p
| through_linear p sid sg r w1 w2 q :
    nth_error (segs s) sid = Some sg -> s_from sg = p ->
    walk (LocStep bd) p w1 (s_to sg) -> Through bd s (s_to sg) r w2 q ->
    Through bd s p (Linear sid :: r) (w1 ++ tl w2) q
| through_join p bid b r w1 w2 q :
    nth_error (branches s) bid = Some b -> HasJoin b ->
    (forall sid, In sid (br_splits b) ->
       exists sg, nth_error (segs s) sid = Some sg /\ s_from sg = p) ->
    walk (LocStep bd) p w1 (snd (br_reach b)) -> Through bd s (snd (br_reach b)) r w2 q ->
    Through bd s p (Branching bid :: r) (w1 ++ tl w2) q
| through_stay p bid b r w q :
    nth_error (branches s) bid = Some b -> ~ HasJoin b ->
    (forall sid, In sid (br_splits b) ->
       exists sg, nth_error (segs s) sid = Some sg /\ s_from sg = p) ->
    Through bd s p r w q -> Through bd s p (Branching bid :: r) w q.

(** The execution [w] first runs through the items from [p], and then goes on
    to [r]. *)
Definition RunsThrough (bd : body) (s : st) (p : loc) (items : list cf) (w : list loc) (r : loc) : Prop :=
  exists w1 q w2, Through bd s p items w1 q /\ walk (LocStep bd) q w2 r /\ w = w1 ++ tl w2.

(** The execution [w] from [p] to [r] passes [q]: it is [w1] up to [q] and [w2]
    from there. *)
Definition Cut (bd : body) (p : loc) (w : list loc) (r q : loc) (w1 w2 : list loc) : Prop :=
  walk (LocStep bd) p w1 q /\ walk (LocStep bd) q w2 r /\ w = w1 ++ tl w2.

(** [Covers bd s p items w r]: the execution [w] from [p] to [r] runs through the
    items and, at every branch, through the items of one arm, and so on in the
    branches of that arm.  The arm is that of the [k]-th target [n] of the switch:
    the execution comes to [n], then to where the arm's split ends, and from there
    through the arm.  A branch at a place without successors has no arms. *)
Inductive Covers (bd : body) (s : st) : loc -> list cf -> list loc -> loc -> Prop :=
| cov_nil p w r : walk (LocStep bd) p w r -> Covers bd s p [] w r
| cov_linear p sid sg rest w w1 w2 r :
    nth_error (segs s) sid = Some sg -> s_from sg = p ->
    Cut bd p w r (s_to sg) w1 w2 -> Covers bd s (s_to sg) rest w2 r ->
    Covers bd s p (Linear sid :: rest) w r
| cov_branch p bid b k n sid sg cid c rest w w1 w2 v1 v2 q u1 u2 r :
    nth_error (branches s) bid = Some b ->
    nth_error (successors bd (l_block (fst (br_reach b)))) k = Some n ->
    nth_error (br_splits b) k = Some sid -> nth_error (segs s) sid = Some sg -> s_from sg = p ->
    nth_error (br_nested b) k = Some cid -> nth_error (colls s) cid = Some c ->
    Cut bd p w r (Loc n 0) w1 w2 -> Cut bd (Loc n 0) w2 r (s_to sg) v1 v2 ->
    Covers bd s (s_to sg) (c_data c) v2 r ->
    (HasJoin b -> q = snd (br_reach b)) -> (~ HasJoin b -> q = p) ->
    Cut bd p w r q u1 u2 -> Covers bd s q rest u2 r ->
    Covers bd s p (Branching bid :: rest) w r
| cov_none p bid b rest w r :
    nth_error (branches s) bid = Some b -> br_splits b = [] ->
    Covers bd s p rest w r -> Covers bd s p (Branching bid :: rest) w r.

(** No linear step goes back, and every split ends at a place everybody passes
    who was at its target. *)
Definition Forward (bd : body) (s : st) : Prop :=
  (forall cid c i sg, nth_error (colls s) cid = Some c -> In (Linear i) (c_data c) ->
     nth_error (segs s) i = Some sg -> ~ BackStep bd (s_from sg) (s_to sg)) /\
  (forall b k n sid sg, In b (branches s) ->
     nth_error (successors bd (l_block (fst (br_reach b)))) k = Some n ->
     nth_error (br_splits b) k = Some sid -> nth_error (segs s) sid = Some sg ->
     AlwaysAfter bd (s_to sg) (Loc n 0)).
