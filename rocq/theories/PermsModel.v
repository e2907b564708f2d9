(** Model of the permission record, its derivation, its diffs and its joins.

    Loan and move keys are [nat] (the newtypes [LoanKey(usize)] and
    [MoveKey(usize)]).  A [Place] is an opaque identifier here (structured
    places are modelled in [FactsModel.v]); the code of this file only ever
    compares places for equality. *)

From Coq Require Import List Arith Bool.
From Verif Require Import Base.
Import ListNotations.

Definition LoanKey := nat.
Definition MoveKey := nat.
Definition PlaceId := nat.

(** crates/aquascope/src/analysis/permissions/mod.rs:71-75 [Permissions] *)
Record Permissions := mkP { p_read : bool; p_write : bool; p_drop : bool }.

(** permissions/mod.rs:179-185 [Permissions::bottom] *)
Definition bottom : Permissions := mkP false false false.

(** permissions/utils.rs:42-48 [Permissions::all] *)
Definition all_perms : Permissions := mkP true true true.

(** permissions/mod.rs:69 derived [PartialEq] *)
Definition perms_eqb (a b : Permissions) : bool :=
  eqb (p_read a) (p_read b) && eqb (p_write a) (p_write b) && eqb (p_drop a) (p_drop b).

(** permissions/mod.rs:85-116 [PermissionsData] *)
Record PData := mkPD {
  type_droppable : bool;
  type_writeable : bool;
  type_copyable : bool;
  is_live : bool;
  path_uninitialized : bool;
  path_moved : option MoveKey;
  loan_read_refined : option LoanKey;
  loan_write_refined : option LoanKey;
  loan_drop_refined : option LoanKey
}.

Definition is_some {A} (o : option A) : bool :=
  match o with Some _ => true | None => false end.
Definition is_none {A} (o : option A) : bool := negb (is_some o).

(** permissions/mod.rs:144-151 [permissions_ignore_liveness] *)
Definition permissions_ignore_liveness (d : PData) : Permissions :=
  let mem_uninit := is_some (path_moved d) || path_uninitialized d in
  let read := negb mem_uninit && is_none (loan_read_refined d) in
  let write := type_writeable d && read && is_none (loan_write_refined d) in
  let drop := type_droppable d && read && is_none (loan_drop_refined d) in
  mkP read write drop.

(** permissions/mod.rs:122-128 [permissions] *)
Definition permissions (d : PData) : Permissions :=
  if is_live d then permissions_ignore_liveness d else bottom.

(** permissions/context.rs:281-290 [max_permissions], with the two type-level
    answers given as arguments (they are modelled in [FactsModel.v]). *)
Definition max_permissions (write_enabled drop_enabled : bool) : Permissions :=
  mkP true write_enabled drop_enabled.

(** ** Joins (permissions/utils.rs) *)

(** utils.rs:51-59 [join] for [Permissions]: new value and changed flag. *)
Definition join_perms (self other : Permissions) : Permissions * bool :=
  let self' := mkP (p_read self && p_read other)
                   (p_write self && p_write other)
                   (p_drop self && p_drop other) in
  (self', negb (perms_eqb self self')).

(** permissions/mod.rs:172 [PermissionsDomain]: a hash map; see [Base.v]. *)
Definition Domain := list (PlaceId * PData).

(** utils.rs:64-74, the body of the loop.  In the occupied case
    [entry.get_mut().permissions()] returns a fresh [Permissions] value; the
    join updates that temporary and only the flag survives. *)
Definition join_domain_step (acc : Domain * bool) (kv : PlaceId * PData) : Domain * bool :=
  let '(self, changed) := acc in
  let '(place, perms) := kv in
  match aget Nat.eq_dec self place with
  | Some mine =>
      let '(_temporary, c) := join_perms (permissions mine) (permissions perms) in
      (self, changed || c)
  | None => (aset Nat.eq_dec self place perms, true)
  end.

(** utils.rs:61-77 [join] for [PermissionsDomain] *)
Definition join_domain (self other : Domain) : Domain * bool :=
  fold_left join_domain_step other (self, false).

(** ** Diffs (stepper/mod.rs) *)

(** stepper/mod.rs:96-105 [ValueStep] *)
Inductive ValueStep (A : Type) :=
| High (value : A)
| Low
| NoStep (value : option A).
Arguments High {A} value.
Arguments Low {A}.
Arguments NoStep {A} value.

(** stepper/mod.rs:109-116 [ValueStep::is_symmetric_diff] *)
Definition vs_symmetric {A} (a b : ValueStep A) : bool :=
  match a, b with
  | High _, Low | Low, High _ | NoStep _, NoStep _ => true
  | _, _ => false
  end.

(** stepper/mod.rs:218-222 [ValueStep::is_empty] *)
Definition vs_is_empty {A} (a : ValueStep A) : bool :=
  match a with NoStep _ => true | _ => false end.

(** stepper/mod.rs:205-216 [Difference for bool] *)
Definition diff_bool (self rhs : bool) : ValueStep bool :=
  if self && negb rhs then Low
  else if negb self && rhs then High true
  else NoStep (Some self).

(** stepper/mod.rs:224-242 [Difference for Option<A>] (the log line is dropped) *)
Definition diff_option {A} (self rhs : option A) : ValueStep A :=
  match self, rhs with
  | None, None => NoStep None
  | Some _, None => Low
  | None, Some v => High v
  | Some _, Some v1 => NoStep (Some v1)
  end.

(** stepper/mod.rs:152-154 [PermissionsDiff] *)
Record PermsDiff := mkPDiff {
  pd_read : ValueStep bool; pd_write : ValueStep bool; pd_drop : ValueStep bool }.

(** stepper/mod.rs:145-147 [PermissionsDiff::is_empty] *)
Definition pdiff_is_empty (d : PermsDiff) : bool :=
  vs_is_empty (pd_read d) && (vs_is_empty (pd_write d) && (vs_is_empty (pd_drop d) && true)).

(** stepper/mod.rs:244-254 [Difference for Permissions] *)
Definition diff_perms (self rhs : Permissions) : PermsDiff :=
  mkPDiff (diff_bool (p_read self) (p_read rhs))
          (diff_bool (p_write self) (p_write rhs))
          (diff_bool (p_drop self) (p_drop rhs)).

(** stepper/mod.rs:164-174 [PermissionsDataDiff] *)
Record DataDiff := mkDD {
  dd_is_live : ValueStep bool;
  dd_type_droppable : ValueStep bool;
  dd_type_writeable : ValueStep bool;
  dd_path_moved : ValueStep MoveKey;
  dd_path_uninitialized : ValueStep bool;
  dd_loan_read : ValueStep LoanKey;
  dd_loan_write : ValueStep LoanKey;
  dd_loan_drop : ValueStep LoanKey;
  dd_permissions : PermsDiff
}.

(** stepper/mod.rs:191-193 [PermissionsDataDiff::is_empty] *)
Definition ddiff_is_empty (d : DataDiff) : bool := pdiff_is_empty (dd_permissions d).

(** stepper/mod.rs:195-202 [PermissionsDataDiff::is_symmetric_diff] *)
Definition ddiff_symmetric (a b : DataDiff) : bool :=
  let p1 := dd_permissions a in
  let p2 := dd_permissions b in
  vs_symmetric (pd_read p1) (pd_read p2)
  && vs_symmetric (pd_write p1) (pd_write p2)
  && vs_symmetric (pd_drop p1) (pd_drop p2).

(** stepper/mod.rs:256-272 [Difference for PermissionsData] *)
Definition diff_data (self rhs : PData) : DataDiff :=
  mkDD (diff_bool (is_live self) (is_live rhs))
       (diff_bool (type_droppable self) (type_droppable rhs))
       (diff_bool (type_writeable self) (type_writeable rhs))
       (diff_option (path_moved self) (path_moved rhs))
       (diff_bool (path_uninitialized self) (path_uninitialized rhs))
       (diff_option (loan_read_refined self) (loan_read_refined rhs))
       (diff_option (loan_write_refined self) (loan_write_refined rhs))
       (diff_option (loan_drop_refined self) (loan_drop_refined rhs))
       (diff_perms (permissions self) (permissions rhs)).

(** stepper/mod.rs:279-291, the loop; [None] is a panic: either the [unwrap] of
    line 280 or the [panic!] of line 285. *)
Fixpoint diff_domain_loop (todo : Domain) (rhs : Domain)
    (diffs : list (PlaceId * DataDiff)) : option (list (PlaceId * DataDiff)) :=
  match todo with
  | [] => Some diffs
  | (place, p1) :: rest =>
      match aget Nat.eq_dec rhs place with
      | None => None
      | Some p2 =>
          match aget Nat.eq_dec diffs place with
          | Some _ => None
          | None => diff_domain_loop rest rhs (aset Nat.eq_dec diffs place (diff_data p1 p2))
          end
      end
  end.

(** stepper/mod.rs:274-295 [Difference for &PermissionsDomain] *)
Definition diff_domain (self rhs : Domain) : option (list (PlaceId * DataDiff)) :=
  diff_domain_loop self rhs [].
