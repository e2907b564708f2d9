(** Specification of C14-C16: covered text, the extent of a loan, the first error. *)

From Coq Require Import List Arith Bool Sorted.
From Verif Require Import Base FactsModel SpansModel.
Import ListNotations.

(** ** C14 *)

Definition well_formed (r : Range) : Prop := lo r <= hi r.
Definition nonempty (r : Range) : Prop := lo r < hi r.

(** Character [c] (the text between offsets [c] and [c+1]) is covered. *)
Definition covered (l : list Range) (c : nat) : Prop :=
  exists r, In r l /\ lo r <= c < hi r.

(** In order, disjoint and not even touching. *)
Definition separated (l : list Range) : Prop := StronglySorted (fun a b => hi a < lo b) l.

(** ** C15 *)

(** The span the extent of loan [l] starts with: that of its first point [p], or that of the
    borrow itself if that point stands before it. *)
Definition extent_start (env : LoanEnv) (l : Loan) (p : Point) : Range :=
  let span := localised env (le_loan_span env l) in
  if lo (le_point_span env p) <? lo span then span else le_point_span env p.

(** The loan is live at [p]. *)
Definition LiveAt (env : LoanEnv) (l : Loan) (p : Point) : Prop :=
  exists ls, In (p, ls) (le_live_at env) /\ In l ls.

(** Of the points where [l] is live none stands before [p] or ends after [q]. *)
Definition Extent (env : LoanEnv) (l : Loan) (p q : Point) : Prop :=
  LiveAt env l p /\ LiveAt env l q /\
  forall r, LiveAt env l r ->
    lo (le_point_span env p) <= lo (le_point_span env r) /\
    hi (le_point_span env r) <= hi (le_point_span env q).

(** The spans that ought to be highlighted for loan [l] between the spans [mn] and [mx]. *)
Definition Highlighted (env : LoanEnv) (l : Loan) (mn mx s : Range) : Prop :=
  (lo mn <= lo s /\ hi s <= hi mx) /\
  (s = mn \/ s = mx \/ exists p, LiveAt env l p /\ s = le_hir_span env p /\ lo s < hi s).

(** ** C16 *)

(** Of the errors in [post] none starts before [s]; [s] is the earliest reported of those that
    start there. *)
Definition FirstError (post : list DiagOp) (s : Range) : Prop :=
  exists before d after, post = before ++ Report d :: after /\ is_error d = true /\ primary_span d = s /\
    (forall x, In (Report x) before -> is_error x = true -> lo s < lo (primary_span x)) /\
    (forall x, In (Report x) after -> is_error x = true -> lo s <= lo (primary_span x)).
