(** Specification of C01-C04: what each letter and each displayed step mean. *)

From Coq Require Import List Arith Bool.
From Verif Require Import Base PermsModel.
Import ListNotations.

(** ** C01: in the words of the documentation *)

Definition Initialised (d : PData) : Prop :=
  path_moved d = None /\ path_uninitialized d = false.

Definition CanRead (d : PData) : Prop :=
  Initialised d /\ loan_read_refined d = None.

Definition CanWrite (d : PData) : Prop :=
  CanRead d /\ type_writeable d = true /\ loan_write_refined d = None.

Definition CanOwn (d : PData) : Prop :=
  CanRead d /\ type_droppable d = true /\ loan_drop_refined d = None.

(** Letter-wise order. *)
Definition perms_le (a b : Permissions) : Prop :=
  (p_read a = true -> p_read b = true) /\
  (p_write a = true -> p_write b = true) /\
  (p_drop a = true -> p_drop b = true).

(** ** C02 *)

(** Reading a displayed step: what the value is afterwards. *)
Definition after_bool (s : ValueStep bool) (before : bool) : bool :=
  match s with High _ => true | Low => false | NoStep _ => before end.

Definition after_key {A} (s : ValueStep A) : option A :=
  match s with High v => Some v | Low => None | NoStep v => v end.

Definition after_perms (s : PermsDiff) (before : Permissions) : Permissions :=
  mkP (after_bool (pd_read s) (p_read before))
      (after_bool (pd_write s) (p_write before))
      (after_bool (pd_drop s) (p_drop before)).

(** What a reader of the step knows about the state after it: everything except
    [type_copyable], which has no column in the diff. *)
Definition after_data (s : DataDiff) (before : PData) : PData :=
  mkPD (after_bool (dd_type_droppable s) (type_droppable before))
       (after_bool (dd_type_writeable s) (type_writeable before))
       (type_copyable before)
       (after_bool (dd_is_live s) (is_live before))
       (after_bool (dd_path_uninitialized s) (path_uninitialized before))
       (after_key (dd_path_moved s))
       (after_key (dd_loan_read s))
       (after_key (dd_loan_write s))
       (after_key (dd_loan_drop s)).

(** Mirror image of a step. *)
Definition mirrors {A} (s t : ValueStep A) : Prop :=
  match s, t with
  | High _, Low | Low, High _ | NoStep _, NoStep _ => True
  | _, _ => False
  end.

(** ** C04: joining [other] again and again *)
Fixpoint join_n (n : nat) (self other : Domain) : Domain :=
  match n with
  | O => self
  | S m => fst (join_domain (join_n m self other) other)
  end.
