(** * What a displayed boundary says about the function

    In terms of the expressions of the function (BoundariesSpec.v), the program facts
    (FactsSpec.v), the declared lifetimes (FlowSpec.v) and the reported errors (SpansSpec.v). *)
From Coq Require Import List Arith Bool.
From Verif Require Import Base PermsModel FactsModel FactsSpec FlowModel FlowSpec SpansModel SpansSpec
  BoundariesModel BoundariesSpec UsesModel.
Import ListNotations.

(** ** Which place *)

(** The nearest node around the use, the use itself first, that yields a place yields [x] at [loc]. *)
Definition Resolves (env : uenv) (pb : PathBoundary) (loc : nat) (x : Place) : Prop :=
  exists inner n outer, pb_hir pb :: ue_parents env (pb_hir pb) = inner ++ n :: outer /\
    Yields (ue_visible env) (ue_stmt env) (ue_locs env) (ue_similar env) (pb_lhs pb) n (loc, x) /\
    forall z, In z inner -> YieldsNone (ue_visible env) (ue_stmt env) (ue_locs env) (ue_similar env) (pb_lhs pb) z.

Definition Unresolved (env : uenv) (pb : PathBoundary) : Prop :=
  forall z, In z (pb_hir pb :: ue_parents env (pb_hir pb)) ->
    YieldsNone (ue_visible env) (ue_stmt env) (ue_locs env) (ue_similar env) (pb_lhs pb) z.

(** ** Which permissions it has *)

(** Liveness plays no part. *)
Definition ActualPermissions (inp : Inp) (x : Place) (p : Point) (a : Permissions) : Prop :=
  (p_read a = true <-> PlaceReadable inp x p) /\
  (p_write a = true <->
     LoanFree inp x p /\ PlaceReadable inp x p /\ DeclaredWriteable inp (in_normalize inp x)) /\
  (p_drop a = true <->
     LoanFree inp x p /\ PlaceReadable inp x p /\ DeclaredOwnable inp (in_normalize inp x)).

(** ** Which flows it takes part in *)

(** The constraint holds at one of the two points of a location of node [h], between two regions
    that are no lifetime parameters. *)
Definition HoldsAt (env : uenv) (h : HirId) (c : Constraint) : Prop :=
  In c (ue_subset_base env) /\
  ~ In (fst (fst c)) (ue_placeholders env) /\ ~ In (snd (fst c)) (ue_placeholders env) /\
  exists ls l, ue_locs env h = Some ls /\ In l ls /\ (snd c = ue_start env l \/ snd c = ue_mid env l).

(** A flow of the statement [ctx] into a lifetime parameter, not allowed, and touched by the use. *)
Definition BrokenFlow (env : uenv) (fi : FlowIn) (ctx use : HirId) (c : Constraint) : Prop :=
  HoldsAt env ctx c /\ TiedToAbstract fi (snd (fst c)) /\
  ~ Verdict fi (fst (fst c)) (snd (fst c)) FlowOk /\
  exists s, HoldsAt env use s /\ (snd (fst s) = fst (fst c) \/ snd (fst s) = snd (fst c)).

(** The text of the statement: its own span, or the body where that one is not in the body. *)
Definition ShownSpan (env : uenv) (h : HirId) (s : Range) : Prop :=
  ue_local env (ue_hir_span env h) = Some s \/
  (ue_local env (ue_hir_span env h) = None /\ s = ue_body_span env).

Definition FlowRequired (env : uenv) (fi : FlowIn) (ctx use : HirId) (r : option FlowBoundary) : Prop :=
  match r with
  | None =>
      ue_flow_enabled env = false \/ ue_locs env ctx = None \/ ue_locs env use = None \/
      forall c, HoldsAt env ctx c -> ~ TiedToAbstract fi (snd (fst c))
  | Some fb =>
      ue_flow_enabled env = true /\ ue_locs env use <> None /\
      (exists c, HoldsAt env ctx c /\ TiedToAbstract fi (snd (fst c))) /\
      (exists s, ShownSpan env ctx s /\ ue_chars env s = Some (fb_context fb)) /\
      (fb_violation fb = true <-> exists c, BrokenFlow env fi ctx use c) /\
      (if fb_violation fb
       then exists c, BrokenFlow env fi ctx use c /\ Verdict fi (fst (fst c)) (snd (fst c)) (fb_kind fb)
       else fb_kind fb = FlowOk)
  end.

(** ** The whole boundary *)

Definition Placed (env : uenv) (s : Range) (b : Boundary) : Prop :=
  exists s' c y, (ue_local env s = Some s' \/ (ue_local env s = None /\ s' = s)) /\
    ue_chars env s' = Some c /\ ue_bytes env s' = Some y /\ b_location b = hi c /\ b_byte b = hi y.

Definition Describes (env : uenv) (fi : FlowIn) (pb : PathBoundary) (b : Boundary) : Prop :=
  (exists loc x, Resolves env pb loc x /\ ActualPermissions (ue_inp env) x (ue_start env loc) (b_actual b)) /\
  b_expected b = pb_expected pb /\
  FlowRequired env fi (pb_context pb) (pb_hir pb) (b_flow b) /\
  Placed env (pb_location pb) b.

(** [post]: what was reported for this function.  A boundary is kept when it has a flow
    requirement, or when it does not stand after the end of the first error. *)
Definition Kept (env : uenv) (post : list DiagOp) (b : Boundary) : Prop :=
  b_flow b <> None \/
  (forall d, In (Report d) post -> is_error d = false) \/
  exists s, FirstError post s /\
    (ue_local env s = None \/
     exists s' r, ue_local env s = Some s' /\ ue_bytes env s' = Some r /\ b_byte b <= hi r).

(** [boundaries_of] is asked for the function that the errors in [post] are about. *)
Definition TrackedAs (st : DiagState) (id : nat) (post : list DiagOp) : Prop :=
  exists pre, st = diag_run (pre ++ TrackBody id :: post) /\ forall op, In op post -> exists d, op = Report d.

(** The function's facts come from the analyses. *)
Definition Analysed (env : uenv) (fi : FlowIn) : Prop :=
  derive_permission_facts (ue_inp env) = Some (ue_out env) /\
  compute_flows fi = Some (ue_flows env) /\
  forall c, In c (ue_subset_base env) -> In (fst c) (f_subset fi).

(** What can go wrong with a use: its place is unknown to the facts, or a span that is to be shown
    has no position in the text. *)
Definition Culprit (env : uenv) (pb : PathBoundary) : Prop :=
  (exists loc x, Resolves env pb loc x /\
     ~ exists y, Known (ue_inp env) y /\ in_normalize (ue_inp env) y = in_normalize (ue_inp env) x) \/
  (exists s, ShownSpan env (pb_context pb) s /\ ue_chars env s = None) \/
  (exists s, (ue_local env (pb_location pb) = Some s \/ (ue_local env (pb_location pb) = None /\ s = pb_location pb)) /\
     (ue_chars env s = None \/ ue_bytes env s = None)).
