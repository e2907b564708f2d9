(** Specification for C92: when one program's facts are at least as restrictive
    as another's, and when two lists of facts say the same. *)

From Coq Require Import List.
From Verif Require Import Base FactsModel.
Import ListNotations.

(** Both programs have the same places, types and declarations. *)
Record SameBody (i1 i2 : Inp) : Prop := {
  sb_move_paths : in_move_paths i1 = in_move_paths i2;
  sb_parents : forall m, in_parents i1 m = in_parents i2 m;
  sb_interior : forall x, in_interior i1 x = in_interior i2 x;
  sb_normalize : forall x, in_normalize i1 x = in_normalize i2 x;
  sb_conflict : forall x y, in_conflict i1 x y = in_conflict i2 x y;
  sb_loan_place : forall l, in_loan_place i1 l = in_loan_place i2 l;
  sb_local_mut : forall l, in_local_mut i1 l = in_local_mut i2 l;
  sb_ty : forall x, in_ty i1 x = in_ty i2 x;
  sb_copyable : forall x, in_copyable i1 x = in_copyable i2 x }.

(** Everything that can take a permission away in the first program also does
    in the second: there are more moves, more ways to get somewhere, fewer
    assignments, more uninitialised places, more loans, and fewer live
    variables. *)
Record Restricts (i1 i2 : Inp) : Prop := {
  rs_body : SameBody i1 i2;
  rs_places : incl (in_places i1) (in_places i2);
  rs_moves : forall m mv, nth_error (in_moves i1) m = Some mv -> nth_error (in_moves i2) m = Some mv;
  rs_edges : incl (in_cfg_edge i1) (in_cfg_edge i2);
  rs_assigned : incl (in_assigned i2) (in_assigned i1);
  rs_children : incl (in_child_path i1) (in_child_path i2);
  rs_uninit : forall p ms m, In (p, ms) (in_uninit_exit i1) -> In m ms ->
    exists ms', In (p, ms') (in_uninit_exit i2) /\ In m ms';
  rs_issued : incl (in_loan_issued i1) (in_loan_issued i2);
  rs_mut : forall l, in_loan_mut i1 l = true -> in_loan_mut i2 l = true;
  rs_live : forall p ls l, In (p, ls) (in_loan_live i1) -> In l ls ->
    exists ls', In (p, ls') (in_loan_live i2) /\ In l ls';
  rs_var_live : forall p vs v, aget PeanoNat.Nat.eq_dec (in_var_live i2) p = Some vs -> In v vs ->
    exists vs', aget PeanoNat.Nat.eq_dec (in_var_live i1) p = Some vs' /\ In v vs' }.
