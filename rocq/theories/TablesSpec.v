(** Specification of the step tables. *)
From Coq Require Import List Arith Bool Permutation Sorted.
From Verif Require Import Base PermsModel CfgModel SegMirModel SegMirSpec TablesModel.
Import ListNotations.

(** The analysis knows the same places everywhere, each once. *)
Definition WfEnv (e : env) : Prop :=
  forall l, NoDup (akeys (e_dom e l)) /\
    (forall p, In p (akeys (e_dom e l)) <-> In p (akeys (e_bottom e))) /\ NoDup (akeys (e_bottom e)).

(** [d] is how the permissions of [p] change between two states. *)
Definition Change (a b : Domain) (p : PlaceId) (d : DataDiff) : Prop :=
  exists x y, aget Nat.eq_dec a p = Some x /\ aget Nat.eq_dec b p = Some y /\ d = diff_data x y.

(** The variable of [p] was declared in the scope [sc]. *)
Definition DeclaredIn (e : env) (sc : nat) (p : PlaceId) : Prop :=
  exists v, aget Nat.eq_dec (e_locals_at e) sc = Some v /\ In (e_local e p) v.

(** What can have a table: the opening brace, a segment, a branch. *)
Inductive item := Opening | OfSeg (sid : nat) | OfBranch (bid : nat).

(** The scope in which a branch was opened. *)
Definition BranchScope (s : st) (b : branch) (sc : nat) : Prop :=
  exists sid rest sg, br_splits b = sid :: rest /\ nth_error (segs s) sid = Some sg /\ s_scope sg = sc.

(** [t] is the table of the item. *)
Definition TableOf (e : env) (s : st) (start : loc) (brace : nat) (i : item) (t : table) : Prop :=
  NoDup (akeys (t_data t)) /\
  match i with
  | Opening =>
      t_span t = brace /\ t_from t = start /\ t_to t = start /\
      forall p d, In (p, d) (t_data t) <-> Change (e_bottom e) (e_dom e start) p d
  | OfSeg sid =>
      exists sg, nth_error (segs s) sid = Some sg /\
      t_span t = s_span sg /\ t_from t = s_from sg /\ t_to t = s_to sg /\
      forall p d, In (p, d) (t_data t) <->
        Change (e_dom e (s_from sg)) (e_dom e (s_to sg)) p d /\
        ~ exists sc, In sc (parent_scopes s (s_scope sg)) /\ DeclaredIn e sc p
  | OfBranch bid =>
      exists b, nth_error (branches s) bid = Some b /\
      t_span t = e_reach_span e (fst (br_reach b)) (snd (br_reach b)) /\
      t_from t = fst (br_reach b) /\ t_to t = snd (br_reach b) /\
      forall p d, In (p, d) (t_data t) <->
        Change (e_dom e (fst (br_reach b))) (e_dom e (snd (br_reach b))) p d /\
        exists sc, BranchScope s b sc /\ DeclaredIn e sc p
  end.

(** Where the table of an item is found; a segment that goes nowhere has none. *)
Definition Ends (s : st) (start : loc) (i : item) (l : loc) : Prop :=
  match i with
  | Opening => l = start
  | OfSeg sid => exists sg, nth_error (segs s) sid = Some sg /\ s_from sg <> s_to sg /\ s_to sg = l
  | OfBranch bid => exists b, nth_error (branches s) bid = Some b /\ snd (br_reach b) = l
  end.

(** The collections inside a branch, and the items inside a branch. *)
Inductive InsideColl (s : st) (bid : nat) : nat -> Prop :=
| inside_arm b cid : nth_error (branches s) bid = Some b -> In cid (br_nested b) -> InsideColl s bid cid
| inside_deeper cid c bid' b' cid' : InsideColl s bid cid -> nth_error (colls s) cid = Some c ->
    In (Branching bid') (c_data c) -> nth_error (branches s) bid' = Some b' -> In cid' (br_nested b') ->
    InsideColl s bid cid'.

Definition Inside (s : st) (bid : nat) (i : item) : Prop :=
  match i with
  | Opening => False
  | OfSeg sid =>
      (exists b, nth_error (branches s) bid = Some b /\ In sid (br_splits b)) \/
      exists cid c, InsideColl s bid cid /\ nth_error (colls s) cid = Some c /\
        (In (Linear sid) (c_data c) \/
         exists bid' b', In (Branching bid') (c_data c) /\ nth_error (branches s) bid' = Some b' /\
           In sid (br_splits b'))
  | OfBranch bid' =>
      exists cid c, InsideColl s bid cid /\ nth_error (colls s) cid = Some c /\
        In (Branching bid') (c_data c)
  end.

(** Nothing outside a branch ends where something inside it ends; the branch
    itself and the branches around it may. *)
Definition Separate (s : st) (start : loc) : Prop :=
  forall bid i j l, Inside s bid i -> ~ Inside s bid j -> j <> OfBranch bid ->
    (forall bid', j = OfBranch bid' -> ~ Inside s bid' (OfBranch bid)) ->
    Ends s start i l -> ~ Ends s start j l.

(** Everything that can have a table. *)
Definition all_items (s : st) : list item :=
  Opening :: map OfSeg (seq 0 (length (segs s))) ++ map OfBranch (seq 0 (length (branches s))).

(** Every branch has an arm. *)
Definition HasArms (s : st) : Prop := forall b, In b (branches s) -> br_splits b <> [].

(** ** Lines *)

(** A row that is worth showing. *)
Definition Shown (w : world) (m : mode) (p : PlaceId) (d : DataDiff) : Prop :=
  w_visible w p = true /\ dd_is_live d <> NoStep (Some false) /\ (m = Changes -> ddiff_is_empty d = false).

(** The table is not after the first error: its line ends before the error does. *)
Definition InTime (w : world) (t : table) : Prop :=
  forall hi, w_error w = Some hi -> line_end w (t_span t) <= hi.

(** The rows that fall on a line, from all the tables in turn. *)
Definition rows_on (w : world) (m : mode) (ts : tables) (line : nat) (p : PlaceId) : list DataDiff :=
  flat_map (fun t =>
    if (line_at w (line_end w (t_span t)) =? line)
       && match w_error w with Some hi => line_end w (t_span t) <=? hi | None => true end
    then map snd (filter (fun pd => (fst pd =? p) && w_visible w p && should_keep m (snd pd)) (t_data t))
    else []) (flat_map snd ts).

(** How a sequence of changes of one place is merged. *)
Fixpoint merge (acc : option DataDiff) (ds : list DataDiff) : option DataDiff :=
  match ds with
  | [] => acc
  | d :: r =>
    match acc with
    | None => merge (Some d) r
    | Some old => if ddiff_symmetric d old then merge None r else merge acc r
    end
  end.

(** The changes of a place that goes through the given states. *)
Fixpoint changes (x : PData) (ys : list PData) : list DataDiff :=
  match ys with [] => [] | y :: r => diff_data x y :: changes y r end.

(** A permission after a shown step. *)
Definition after_step (s : ValueStep bool) (before : bool) : bool :=
  match s with High _ => true | Low => false | NoStep _ => before end.

(** What is shown tells how to get from the permissions [a] to [b]: nothing when
    they are the same, else a change of [a] into [b]. *)
Definition Net (o : option DataDiff) (a b : Permissions) : Prop :=
  match o with
  | None => a = b
  | Some d => a <> b /\
      after_step (pd_read (dd_permissions d)) (p_read a) = p_read b /\
      after_step (pd_write (dd_permissions d)) (p_write a) = p_write b /\
      after_step (pd_drop (dd_permissions d)) (p_drop a) = p_drop b
  end.

(** A change of the order of a hash map. *)
Definition Shuffle {A} (f : list A -> list A) : Prop := forall l, Permutation (f l) l.

(** [pos] is the end of a line that the text has a position [p] on. *)
Definition LineEnd (text : list bool) (p pos : nat) : Prop :=
  p <= pos /\ (forall k, p <= k < pos -> nth_error text k = Some false) /\
  (nth_error text pos = Some true \/ length text <= pos).

(** The order of rows: by variable, then by depth. *)
Definition RowLe (w : world) (a b : PlaceId * DataDiff) : Prop :=
  w_local w (fst a) < w_local w (fst b) \/
  (w_local w (fst a) = w_local w (fst b) /\ w_depth w (fst a) <= w_depth w (fst b)).
