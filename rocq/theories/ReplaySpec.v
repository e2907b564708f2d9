(** * What it means that the changes of the steps add up *)
From Coq Require Import List Arith Bool.
From Verif Require Import Base PermsModel CfgModel SegMirModel SegMirSpec TablesModel TablesSpec.
Import ListNotations.

(** What one does at a branch: follow the arm [k], look at the branch as a whole, or leave it aside. *)
Inductive choice := Into (k : nat) | Whole | Past.

(** A way through the items of a collection, from [p] to [q].  It takes every step.  At a branch it takes
    - the step into an arm, the steps of the arm, and jumps from where the arm has ended to the branch's join;
    - or the branch as a whole, from the switch, to which it jumps, to the join;
    - in a branch without a join it ends in the arm, or goes past the branch to the items that were added after it.
    [xs] is what it takes, in order, and [jumps] are the jumps. *)
Inductive Way (s : st) (pick : nat -> choice) : loc -> list cf -> list item -> list (loc * loc) -> loc -> Prop :=
| way_end p : Way s pick p [] [] [] p
| way_step p sid sg r xs jumps q : nth_error (segs s) sid = Some sg -> s_from sg = p ->
    Way s pick (s_to sg) r xs jumps q -> Way s pick p (Linear sid :: r) (OfSeg sid :: xs) jumps q
| way_join p bid b k sid sg cid c xs1 jumps1 q1 r xs jumps q :
    nth_error (branches s) bid = Some b -> pick bid = Into k -> Arm s bid k sid cid ->
    nth_error (segs s) sid = Some sg -> s_from sg = p -> nth_error (colls s) cid = Some c ->
    Way s pick (s_to sg) (c_data c) xs1 jumps1 q1 -> HasJoin b ->
    Way s pick (snd (br_reach b)) r xs jumps q ->
    Way s pick p (Branching bid :: r) (OfSeg sid :: xs1 ++ xs) (jumps1 ++ (q1, snd (br_reach b)) :: jumps) q
| way_whole p bid b r xs jumps q :
    nth_error (branches s) bid = Some b -> pick bid = Whole -> HasJoin b ->
    Way s pick (snd (br_reach b)) r xs jumps q ->
    Way s pick p (Branching bid :: r) (OfBranch bid :: xs) ((p, fst (br_reach b)) :: jumps) q
| way_out p bid b k sid sg cid c xs jumps q r :
    nth_error (branches s) bid = Some b -> pick bid = Into k -> Arm s bid k sid cid ->
    nth_error (segs s) sid = Some sg -> s_from sg = p -> nth_error (colls s) cid = Some c -> ~ HasJoin b ->
    Way s pick (s_to sg) (c_data c) xs jumps q ->
    Way s pick p (Branching bid :: r) (OfSeg sid :: xs) jumps q
| way_past p bid b r xs jumps q :
    nth_error (branches s) bid = Some b -> pick bid = Past -> ~ HasJoin b ->
    Way s pick p r xs jumps q -> Way s pick p (Branching bid :: r) xs jumps q.

(** The choices that a branch allows. *)
Definition Picks (s : st) (pick : nat -> choice) : Prop :=
  forall bid b, nth_error (branches s) bid = Some b ->
    match pick bid with Into k => k < length (br_splits b) | Whole => HasJoin b | Past => ~ HasJoin b end.

(** The permissions of a place in a state. *)
Definition letters (d : Domain) (p : PlaceId) : option Permissions := option_map permissions (aget Nat.eq_dec d p).

(** How one letter is read: gained, lost, or as before. *)
Definition read_letter (s : ValueStep bool) (before : bool) : bool :=
  match s with High _ => true | Low => false | NoStep _ => before end.
Definition read_row (d : DataDiff) (before : Permissions) : Permissions :=
  let x := dd_permissions d in
  mkP (read_letter (pd_read x) (p_read before)) (read_letter (pd_write x) (p_write before))
      (read_letter (pd_drop x) (p_drop before)).

(** From where, and to where, a step or branch leads. *)
Definition Leads (s : st) (i : item) (a b : loc) : Prop :=
  match i with
  | Opening => False
  | OfSeg sid => exists sg, nth_error (segs s) sid = Some sg /\ s_from sg = a /\ s_to sg = b
  | OfBranch bid => exists br, nth_error (branches s) bid = Some br /\ fst (br_reach br) = a /\ snd (br_reach br) = b
  end.

(** A row of place [p] in a table of [r] for the step or branch. *)
Definition RowOf (r : tables) (s : st) (p : PlaceId) (i : item) (d : DataDiff) : Prop :=
  exists a b t, Leads s i a b /\ In t (at_loc r b) /\ t_from t = a /\ t_to t = b /\ In (p, d) (t_data t).

(** Those that lead somewhere. *)
Definition moves (s : st) (i : item) : bool :=
  match i with
  | Opening => true
  | OfSeg sid =>
      match nth_error (segs s) sid with
      | Some sg => if loc_eqd (s_from sg) (s_to sg) then false else true
      | None => true
      end
  | OfBranch _ => true
  end.
Definition moving (s : st) (xs : list item) : list item := filter (moves s) xs.

(** The place is not hidden: a step shows those that are not being declared around it, a
    branch those that are being declared by the statement of which it is. *)
Definition NotHidden (e : env) (s : st) (p : PlaceId) (xs : list item) : Prop :=
  forall i, In i xs ->
    match i with
    | Opening => True
    | OfSeg sid => forall sg sc, nth_error (segs s) sid = Some sg -> In sc (parent_scopes s (s_scope sg)) -> ~ DeclaredIn e sc p
    | OfBranch bid => exists b sc, nth_error (branches s) bid = Some b /\ BranchScope s b sc /\ DeclaredIn e sc p
    end.

(** Nothing happens to the place in the jumps. *)
Definition Unchanged (e : env) (p : PlaceId) (jumps : list (loc * loc)) : Prop :=
  forall a b, In (a, b) jumps -> letters (e_dom e a) p = letters (e_dom e b) p.
