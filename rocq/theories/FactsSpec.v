(** Specifications for C05-C11, in terms of the program facts only: control-flow
    walks, recorded moves, assignments and loans.  Nothing here refers to the
    tables the derivation builds. *)

From Coq Require Import List Arith Bool Relations.
From Verif Require Import Base PermsModel FactsModel.
Import ListNotations.

Section Spec.
  Variable inp : Inp.

  Notation norm := (in_normalize inp).

  (** An assignment at [p] overwrites (part of) the place moved by [m]. *)
  Definition Reassigned (m : Move) (p : Point) : Prop :=
    exists mp src moved a target,
      nth_error (in_moves inp) m = Some (mp, src) /\
      nth_error (in_move_paths inp) mp = Some moved /\
      In (a, p) (in_assigned inp) /\ nth_error (in_move_paths inp) a = Some target /\
      in_conflict inp (norm target) (norm moved) = true.

  (** [m] can reach the entry of [p]: control may flow from the move to a
      predecessor [q] of [p] without passing a re-assignment. *)
  Definition MoveReaches (m : Move) (p : Point) : Prop :=
    exists mp src l q,
      nth_error (in_moves inp) m = Some (mp, src) /\
      walk (edge (in_cfg_edge inp)) src l q /\
      (forall r, In r (tl l) -> ~ Reassigned m r) /\
      edge (in_cfg_edge inp) q p.

  (** The places a move affects: everything inside the moved place, and the
      move paths enclosing it. *)
  Definition MoveAffects (m : Move) (x : Place) : Prop :=
    exists mp src pl,
      nth_error (in_moves inp) m = Some (mp, src) /\
      ((exists moved, nth_error (in_move_paths inp) mp = Some moved /\ In pl (in_interior inp (norm moved))) \/
       (exists q, In q (in_parents inp mp) /\ nth_error (in_move_paths inp) q = Some pl)) /\
      norm pl = norm x.

  (** One recorded (child, parent) link, read on places. *)
  Definition ParentLink (a b : Place) : Prop :=
    exists c q plc plq, In (c, q) (in_child_path inp) /\
      nth_error (in_move_paths inp) c = Some plc /\ nth_error (in_move_paths inp) q = Some plq /\
      norm plc = a /\ norm plq = b.

  (** [x] may be uninitialised on entry of [p]. *)
  Definition MaybeUninit (x : Place) (p : Point) : Prop :=
    exists q mps mp pl,
      In (q, mps) (in_uninit_exit inp) /\ In mp mps /\ nth_error (in_move_paths inp) mp = Some pl /\
      edge (in_cfg_edge inp) q p /\
      clos_refl_trans Place ParentLink (norm pl) (norm x).

  (** The places the analysis knows: those of the body and those of the move paths. *)
  Definition Known (y : Place) : Prop := In y (in_places inp) \/ In y (in_move_paths inp).

  Definition LoanConflicts (l : Loan) (x : Place) : Prop :=
    In l (in_loan_issued inp) /\
    exists y, Known y /\ norm y = norm x /\
      in_conflict inp (in_loan_place inp l) y = true.

  Definition LoanLive (l : Loan) (p : Point) : Prop :=
    exists ls, In (p, ls) (in_loan_live inp) /\ In l ls.

  (** Declaration-level write rule on a normalised place. *)
  Definition DeclaredWriteable (x : Place) : Prop :=
    (~ In Deref (projection x) -> in_local_mut inp (local x) = true) /\
    (forall pre post, projection x = pre ++ Deref :: post ->
       match in_ty inp (mkPlace (local x) pre) with
       | TRef mutable => mutable = true
       | _ => in_local_mut inp (local x) = true
       end).

  (** Declaration-level ownership rule on a normalised place. *)
  Definition DeclaredOwnable (x : Place) : Prop :=
    ~ In Deref (projection x) /\
    (forall e, In e (projection x) ->
       match e with Index _ | ConstantIndex _ | Subslice _ _ => False | _ => True end) /\
    (forall pre e post, projection x = pre ++ e :: post ->
       forall box, in_ty inp (mkPlace (local x) pre) = TAdt true box -> box = true).

  (** [o] is the newest loan of kind [keep] that is live at [p] and conflicts
      with [x], or there is none. *)
  Definition names_loan (keep : Loan -> Prop) (o : option LoanKey) (x : Place) (p : Point) : Prop :=
    match o with
    | Some l => LoanConflicts l x /\ LoanLive l p /\ keep l /\
                forall l', LoanConflicts l' x -> LoanLive l' p -> keep l' -> l' <= l
    | None => forall l, LoanConflicts l x -> LoanLive l p -> ~ keep l
    end.

  (** C10: the whole condition behind each letter. *)
  Definition PlaceReadable (x : Place) (p : Point) : Prop :=
    (forall m, MoveAffects m x -> ~ MoveReaches m p) /\
    ~ MaybeUninit x p /\
    (forall l, LoanConflicts l x -> LoanLive l p -> in_loan_mut inp l = false).

  Definition LoanFree (x : Place) (p : Point) : Prop :=
    forall l, LoanConflicts l x -> ~ LoanLive l p.

  Definition VarLive (x : Place) (p : Point) : Prop :=
    match aget Nat.eq_dec (in_var_live inp) p with
    | Some vars => In (local (in_normalize inp x)) vars
    | None => False
    end.

End Spec.

(** ** When the derivation does not panic *)

Definition facts_wf (inp : Inp) : Prop :=
  let n := length (in_move_paths inp) in
  (forall a p, In (a, p) (in_assigned inp) -> a < n) /\
  (forall mp p, In (mp, p) (in_moves inp) -> mp < n /\ Forall (fun q => q < n) (in_parents inp mp)) /\
  (forall c q, In (c, q) (in_child_path inp) -> c < n /\ q < n) /\
  (forall p mps, In (p, mps) (in_uninit_exit inp) -> Forall (fun m => m < n) mps).

Definition interior_registered (inp : Inp) : Prop :=
  forall mp src moved x,
    In (mp, src) (in_moves inp) -> nth_error (in_move_paths inp) mp = Some moved ->
    In x (in_interior inp (in_normalize inp moved)) ->
    exists y, Known inp y /\ in_normalize inp y = in_normalize inp x.

(** Two inputs that list the same loans, live sets and places, in any order and
    multiplicity. *)
Definition same_loan_facts (i1 i2 : Inp) : Prop :=
  (forall x, in_normalize i1 x = in_normalize i2 x) /\
  (forall a b, in_conflict i1 a b = in_conflict i2 a b) /\
  (forall l, in_loan_place i1 l = in_loan_place i2 l) /\
  (forall l, in_loan_mut i1 l = in_loan_mut i2 l) /\
  (forall l, In l (in_loan_issued i1) <-> In l (in_loan_issued i2)) /\
  (forall y, Known i1 y <-> Known i2 y) /\
  (forall l p, LoanLive i1 l p <-> LoanLive i2 l p).
