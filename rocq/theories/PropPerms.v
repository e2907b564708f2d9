(** Property theorems C01-C04.  Specifications ([CanRead], [after_data],
    [perms_le], ...) are at the top of the sections of [PermsSpec PermsProofs.v]. *)

From Coq Require Import List Arith Bool.
From Verif Require Import Base PermsModel PermsSpec PermsProofs.
Import ListNotations.

(** C01: every letter is shown iff the documented condition holds. *)
Theorem C01_letters_exact : forall d : PData,
  (p_read (permissions d) = true <->
     is_live d = true /\
     (path_moved d = None /\ path_uninitialized d = false) /\ loan_read_refined d = None) /\
  (p_write (permissions d) = true <->
     is_live d = true /\
     ((path_moved d = None /\ path_uninitialized d = false) /\ loan_read_refined d = None) /\
     type_writeable d = true /\ loan_write_refined d = None) /\
  (p_drop (permissions d) = true <->
     is_live d = true /\
     ((path_moved d = None /\ path_uninitialized d = false) /\ loan_read_refined d = None) /\
     type_droppable d = true /\ loan_drop_refined d = None).
Proof. exact perms_spec. Qed.
Print Assumptions C01_letters_exact.

(** The same for the liveness-blind query used by boundaries. *)
Theorem C01_letters_exact_ignoring_liveness : forall d : PData,
  (p_read (permissions_ignore_liveness d) = true <-> CanRead d) /\
  (p_write (permissions_ignore_liveness d) = true <-> CanWrite d) /\
  (p_drop (permissions_ignore_liveness d) = true <-> CanOwn d).
Proof. exact perms_ignore_spec. Qed.
Print Assumptions C01_letters_exact_ignoring_liveness.

Theorem C01_letter_implications : forall d : PData,
  (p_write (permissions d) = true -> p_read (permissions d) = true) /\
  (p_drop (permissions d) = true -> p_read (permissions d) = true) /\
  perms_le (permissions d) (max_permissions (type_writeable d) (type_droppable d)) /\
  (is_live d = false -> permissions d = mkP false false false).
Proof. exact perms_bounds. Qed.
Print Assumptions C01_letter_implications.

(** A shared borrow takes W and O but leaves R; a moved place has nothing. *)
Example C01_witness_shared_borrow :
  permissions (mkPD true true false true false None None (Some 3) (Some 3)) = mkP true false false.
Proof. reflexivity. Qed.
Example C01_witness_moved :
  permissions (mkPD true true false true false (Some 1) None None None) = mkP false false false.
Proof. reflexivity. Qed.
Example C01_witness_full :
  permissions (mkPD true true false true false None None None None) = mkP true true true.
Proof. reflexivity. Qed.

(** C02 (a): the step applied to the state before gives the state after. *)
Theorem C02_step_reconstructs_state : forall a b : PData,
  type_copyable a = type_copyable b ->
  after_data (diff_data a b) a = b.
Proof. exact after_diff_data. Qed.
Print Assumptions C02_step_reconstructs_state.

Theorem C02_step_reconstructs_letters : forall a b : PData,
  after_perms (dd_permissions (diff_data a b)) (permissions a) = permissions b.
Proof. exact after_diff_data_perms. Qed.
Print Assumptions C02_step_reconstructs_letters.

(** C02 (b): a row counts as "no change" iff the letters are the same. *)
Theorem C02_empty_iff_same_letters : forall a b : PData,
  ddiff_is_empty (diff_data a b) = true <-> permissions a = permissions b.
Proof. exact ddiff_empty_iff. Qed.
Print Assumptions C02_empty_iff_same_letters.

(** ... letter by letter, with the unchanged value stored in the step. *)
Theorem C02_letter_unchanged_iff_equal : forall a b : bool,
  (vs_is_empty (diff_bool a b) = true <-> a = b) /\
  (forall v, diff_bool a b = NoStep v -> v = Some a /\ a = b).
Proof. exact (fun a b => conj (diff_bool_nostep a b) (diff_bool_value a b)). Qed.
Print Assumptions C02_letter_unchanged_iff_equal.

(** C02 (c): the reverse diff is the mirror image, column by column. *)
Theorem C02_reverse_is_mirror : forall a b : PData,
  ddiff_symmetric (diff_data a b) (diff_data b a) = true /\
  mirrors (dd_is_live (diff_data a b)) (dd_is_live (diff_data b a)) /\
  mirrors (dd_path_uninitialized (diff_data a b)) (dd_path_uninitialized (diff_data b a)) /\
  mirrors (dd_path_moved (diff_data a b)) (dd_path_moved (diff_data b a)) /\
  mirrors (dd_loan_read (diff_data a b)) (dd_loan_read (diff_data b a)) /\
  mirrors (dd_loan_write (diff_data a b)) (dd_loan_write (diff_data b a)) /\
  mirrors (dd_loan_drop (diff_data a b)) (dd_loan_drop (diff_data b a)).
Proof.
  exact (fun a b => conj (ddiff_symmetric_rev a b)
    (conj (diff_bool_mirror _ _) (conj (diff_bool_mirror _ _)
    (conj (diff_option_mirror _ _) (conj (diff_option_mirror _ _)
    (conj (diff_option_mirror _ _) (diff_option_mirror _ _))))))).
Qed.
Print Assumptions C02_reverse_is_mirror.

(** C02 (d): diffing two domains gives one row per place of the earlier state,
    and panics exactly when the later state lacks a place. *)
Theorem C02_domain_diff_pointwise : forall a b : Domain,
  NoDup (akeys a) -> (forall k, In k (akeys a) -> In k (akeys b)) ->
  exists r, diff_domain a b = Some r /\
    forall k, aget Nat.eq_dec r k =
      match aget Nat.eq_dec a k, aget Nat.eq_dec b k with
      | Some x, Some y => Some (diff_data x y)
      | _, _ => None
      end.
Proof. exact diff_domain_ok. Qed.
Print Assumptions C02_domain_diff_pointwise.

Theorem C02_domain_diff_panics_on_missing_place : forall (a b : Domain) k,
  In k (akeys a) -> ~ In k (akeys b) -> diff_domain a b = None.
Proof. exact (fun a b => diff_domain_loop_panics b a []). Qed.
Print Assumptions C02_domain_diff_panics_on_missing_place.

Example C02_witness_domains :
  diff_domain [(4, rw_data); (7, borrowed_data)] [(7, rw_data); (4, borrowed_data)]
  = Some [(4, diff_data rw_data borrowed_data); (7, diff_data borrowed_data rw_data)]
  /\ pd_write (dd_permissions (diff_data rw_data borrowed_data)) = Low
  /\ pd_write (dd_permissions (diff_data borrowed_data rw_data)) = High true.
Proof. repeat split. Qed.

(** Not covered by (b): the columns holding loan and move keys report "no
    change" even when one loan is replaced by another. *)
Theorem C02_key_column_hides_replacement_refuted :
  exists a b : option LoanKey,
    a <> b /\ vs_is_empty (diff_option a b) = true.
Proof. exact option_diff_hides_replacement. Qed.
Print Assumptions C02_key_column_hides_replacement_refuted.

(** C03 *)
Theorem C03_join_is_glb : forall a b : Permissions,
  let j := fst (join_perms a b) in
  perms_le j a /\ perms_le j b /\
  (forall c, perms_le c a -> perms_le c b -> perms_le c j).
Proof. exact join_perms_glb. Qed.
Print Assumptions C03_join_is_glb.

Theorem C03_join_laws : forall a b c : Permissions,
  fst (join_perms a b) = fst (join_perms b a) /\
  fst (join_perms a (fst (join_perms b c))) = fst (join_perms (fst (join_perms a b)) c) /\
  fst (join_perms a a) = a.
Proof. exact join_perms_laws. Qed.
Print Assumptions C03_join_laws.

Theorem C03_changed_flag_exact : forall a b : Permissions,
  snd (join_perms a b) = true <-> fst (join_perms a b) <> a.
Proof. exact join_perms_changed. Qed.
Print Assumptions C03_changed_flag_exact.

Example C03_witness :
  join_perms (mkP true true false) (mkP true false true) = (mkP true false false, true).
Proof. reflexivity. Qed.

(** C04: what holds of the domain join.  Missing: shared places should be
    lowered and the flag should be exact; see the refutation below. *)
Theorem C04_join_copies_new_places_partial : forall self other : Domain,
  NoDup (akeys other) ->
  (forall k, aget Nat.eq_dec (fst (join_domain self other)) k =
    match aget Nat.eq_dec self k with
    | Some d => Some d
    | None => aget Nat.eq_dec other k
    end) /\
  (snd (join_domain self other) = true <->
   exists k d', In (k, d') other /\
     match aget Nat.eq_dec self k with
     | None => True
     | Some d => ~ perms_le (permissions d) (permissions d')
     end).
Proof. exact (fun s o ND => conj (join_domain_entries s o ND) (join_domain_flag s o ND)). Qed.
Print Assumptions C04_join_copies_new_places_partial.

(** C04 refuted: the join of a shared place is lost, and a fixpoint loop driven
    by the flag never stops. *)
Theorem C04_domain_join_refuted :
  exists self other : Domain,
    NoDup (akeys self) /\ NoDup (akeys other) /\
    (forall n, snd (join_domain (join_n n self other) other) = true) /\
    (forall n, join_n n self other = self) /\
    (exists k d d', aget Nat.eq_dec self k = Some d /\ aget Nat.eq_dec other k = Some d' /\
       exists e, aget Nat.eq_dec (fst (join_domain self other)) k = Some e /\
         permissions e <> fst (join_perms (permissions d) (permissions d'))).
Proof. exact join_domain_never_stabilises. Qed.
Print Assumptions C04_domain_join_refuted.

Example C04_witness :
  join_domain [(1, rw_data)] [(2, borrowed_data)] = ([(1, rw_data); (2, borrowed_data)], true).
Proof. reflexivity. Qed.
