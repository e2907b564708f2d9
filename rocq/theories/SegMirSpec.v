(** * What the builder of MIR segments has to guarantee

    Stated with executions of the body (CfgSpec.v) and with the finished
    structure, not with the builder's own searches. *)
From Coq Require Import List Arith Bool Lia.
From Verif Require Import Base CfgModel CfgSpec SegMirModel.
Import ListNotations.

(** A sound linear step: whoever reaches its end has passed its start, and
    whoever is at its start and returns passes its end. *)
Definition SoundStep (bd : body) (from to : loc) : Prop :=
  ReachableLoc bd to /\ AlwaysBefore bd from to /\ AlwaysAfter bd to from.

(** A step that goes back: its end is always passed before its start. *)
Definition BackStep (bd : body) (from to : loc) : Prop :=
  from <> to /\ ReachableLoc bd from /\ AlwaysBefore bd to from.

(** The items of a collection. *)
Definition linear_ids (c : coll) : list nat :=
  flat_map (fun k => match k with Linear i => [i] | Branching _ => [] end) (c_data c).
Definition branch_ids (c : coll) : list nat :=
  flat_map (fun k => match k with Linear _ => [] | Branching i => [i] end) (c_data c).

(** The branch has a join when its reach ends elsewhere than it begins. *)
Definition HasJoin (b : branch) : Prop := fst (br_reach b) <> snd (br_reach b).

(** [Chain s p data q]: the items of a collection continue one another, from
    the location [p] to the location [q].  A branch is entered where the item
    before it ended, and left at its join; without a join one stays put. *)
Inductive Chain (s : st) : loc -> list cf -> loc -> Prop :=
| chain_nil p : Chain s p [] p
| chain_linear p sid sg r q :
    nth_error (segs s) sid = Some sg -> s_from sg = p ->
    Chain s (s_to sg) r q -> Chain s p (Linear sid :: r) q
| chain_join p bid b r q :
    nth_error (branches s) bid = Some b ->
    (forall sid, In sid (br_splits b) ->
       exists sg, nth_error (segs s) sid = Some sg /\ s_from sg = p) ->
    HasJoin b ->
    Chain s (snd (br_reach b)) r q -> Chain s p (Branching bid :: r) q
| chain_no_join p bid b r q :
    nth_error (branches s) bid = Some b ->
    (forall sid, In sid (br_splits b) ->
       exists sg, nth_error (segs s) sid = Some sg /\ s_from sg = p) ->
    ~ HasJoin b ->
    Chain s p r q -> Chain s p (Branching bid :: r) q.

(** The [k]-th arm of branch [bid]: its split step and its collection. *)
Definition Arm (s : st) (bid k sid cid : nat) : Prop :=
  exists b, nth_error (branches s) bid = Some b /\
    nth_error (br_splits b) k = Some sid /\ nth_error (br_nested b) k = Some cid.

(** Where a collection begins: the first one at the start of the body, that of
    an arm where the arm's split step ends. *)
Definition BeginsAt (s : st) (cid : nat) (l : loc) : Prop :=
  (cid = 0 /\ l = Loc 0 0) \/
  exists bid k sid sg, Arm s bid k sid cid /\ nth_error (segs s) sid = Some sg /\ s_to sg = l.

(** Branches opened by the visitor have a span mapping of their own; the other
    ones were opened implicitly, inside a collection of their parent. *)
Definition UserBranch (s : st) (b : nat) : Prop := In b (map fst (spanners s)).
Definition ParentBranch (s : st) (b p : nat) : Prop :=
  exists cid c pb, nth_error (colls s) cid = Some c /\ In b (branch_ids c) /\
    nth_error (branches s) p = Some pb /\ In cid (br_nested pb).

(** [OwnedBy s b t]: [b] is the visitor's branch [t], or was opened implicitly
    on its behalf. *)
Inductive OwnedBy (s : st) : nat -> nat -> Prop :=
| owned_self t : UserBranch s t -> OwnedBy s t t
| owned_child b p t : b < length (branches s) -> ~ UserBranch s b ->
    ParentBranch s b p -> OwnedBy s p t -> OwnedBy s b t.

(** The collection is an arm of a branch that [t] owns. *)
Definition ArmOf (s : st) (t cid : nat) : Prop :=
  exists b br, OwnedBy s b t /\ nth_error (branches s) b = Some br /\ In cid (br_nested br).

(** Control must go from [a] to [b]: [a] does not branch, and [b] is its only
    successor. *)
Definition ForcedStep (bd : body) (a b : nat) : Prop :=
  ~ Switch bd a /\ successors bd a = [b].

(** From [b] on, control is forced around a cycle without any branching. *)
Definition ForcedForever (bd : body) (b : nat) : Prop :=
  exists c d l l', walk (ForcedStep bd) b l c /\ ForcedStep bd c d /\ walk (ForcedStep bd) d l' c.

(** A body built from ifs and loops alone: there is one return; from every
    block that can be reached, control is forced to a switch or to the return;
    and the branches of every switch meet again. *)
Record Structured (bd : body) : Prop := mkStructured {
  str_return : exists e, Returns bd e /\ forall e', Returns bd e' -> e' = e;
  str_forced : forall b p, path bd 0 p b -> exists c l, walk (ForcedStep bd) b l c /\
                 (Switch bd c \/ Returns bd c);
  str_join : forall b p, path bd 0 p b -> Switch bd b ->
                 (exists m, Closing bd b m) /\ exists k, Join bd b k
}.

(** An operation only names locations that can be executed. *)
Definition op_reachable (bd : body) (o : op) : Prop :=
  match o with
  | OpInsert l _ => ReachableLoc bd l
  | OpOpenBranch l sp => ReachableLoc bd l /\ forall e, In e (sp_entries sp) -> ReachableLoc bd (fst e)
  | _ => True
  end.

(** A well-nested history from [s] to [s']: whatever is opened is closed again,
    with the name it was given, after a well-nested history. *)
Inductive Nested fw bd ord (fuel : nat) : st -> list op -> st -> Prop :=
| nested_nil s : Nested fw bd ord fuel s [] s
| nested_other s o s1 os s2 :
    o <> OpOpenScope -> (forall i, o <> OpCloseScope i) ->
    step fw bd ord fuel s o = Val s1 -> Nested fw bd ord fuel s1 os s2 ->
    Nested fw bd ord fuel s (o :: os) s2
| nested_scope s os1 s1 s2 os2 s3 :
    Nested fw bd ord fuel (fst (open_scope s)) os1 s1 ->
    step fw bd ord fuel s1 (OpCloseScope (snd (open_scope s))) = Val s2 ->
    Nested fw bd ord fuel s2 os2 s3 ->
    Nested fw bd ord fuel s (OpOpenScope :: os1 ++ OpCloseScope (snd (open_scope s)) :: os2) s3.

(** The states a builder can be in when it is only given executable locations. *)
Definition BuiltFrom (fw : bool) bd ord (s : st) : Prop :=
  exists fuel os, Forall (op_reachable bd) os /\ run fw bd ord fuel make os = Val s.

(** The collection is an arm of a branch with the given join. *)
Definition ArmJoin (s : st) (cid : nat) (j : loc) : Prop :=
  exists b, In b (branches s) /\ In cid (br_nested b) /\ HasJoin b /\ snd (br_reach b) = j.

(** All linear steps. *)
Definition steps_of (s : st) : list nat := flat_map linear_ids (colls s).

(** No open collection has a place for [l]: at most the outermost one is at a
    location that always comes before [l]. *)
Definition Outside (bd : body) (s : st) (l : loc) : Prop :=
  forall b, In b (processing s) -> AlwaysBefore bd (bl_cur b) l -> bl_coll b = 0.

(** [s'] is [s] with one more step, [sg], at the end of the collection [cid],
    which now stands at the end of [sg]. *)
Definition StepAdded (s s' : st) (cid : nat) (sg : seg) : Prop :=
  exists c n, nth_error (colls s') cid = Some c /\ nth_error (segs s') n = Some sg /\
    In (Builder cid (s_to sg)) (processing s') /\ last (c_data c) (Branching 0) = Linear n /\
    ~ In n (steps_of s) /\ forall k, In k (steps_of s') <-> k = n \/ In k (steps_of s).

(** [t] was given an implicit child. *)
Definition HasChild (s : st) (t : nat) : Prop := exists b, OwnedBy s b t /\ b <> t.

(** One step the builder takes by itself, at locations of which [P] holds: [insert] and the
    visitor's calls are made of these. *)
Inductive prim (P : loc -> Prop) (fw : bool) bd ord : st -> st -> Prop :=
| prim_open_scope s : prim P fw bd ord s (fst (open_scope s))
| prim_close_scope s idx s' : close_scope s idx = Some s' -> prim P fw bd ord s s'
| prim_open_branch s l sp s' bid :
    P l -> (forall e, In e (sp_entries sp) -> P (fst e)) ->
    mk_branch bd ord s l (InsertNew sp) = Val (s', Some bid) -> prim P fw bd ord s s'
| prim_child s location parent l s' :
    P location -> find_suitable_collection bd s location = FrNonLinear parent l ->
    open_child_branch fw bd ord s parent l = Val (s', true) -> prim P fw bd ord s s'
| prim_close_branch s bid s' : close_branch s bid = Val s' -> prim P fw bd ord s s'
| prim_linear s i b l span s' :
    P l -> find_suitable_collection bd s l = FrLinear i b ->
    insert_linear bd s i b l span = Val s' -> prim P fw bd ord s s'.

(** Any number of them. *)
Inductive Steps (P : loc -> Prop) (fw : bool) bd ord (s0 : st) : st -> Prop :=
| steps_refl : Steps P fw bd ord s0 s0
| steps_next s s' : Steps P fw bd ord s0 s -> prim P fw bd ord s s' -> Steps P fw bd ord s0 s'.
