(** * Theorems: numbers on the page *)
From Coq Require Import ZArith Lia.
From Verif Require Import ValuesModel NumbersModel NumbersSpec NumbersProofs.
Local Open Scope Z_scope.

Lemma uint_id v : 0 <= v < 2 ^ 64 -> show_uint v = v.
Proof. intros H. unfold show_uint. apply Z.mod_small. auto. Qed.
Lemma int_id v : - 2 ^ 63 <= v < 2 ^ 63 -> show_int v = v.
Proof.
  intros H. unfold show_int. cbv zeta. destruct (Z_lt_le_dec v 0) as [L|L].
  - replace (v mod 2 ^ 64) with (v + 2 ^ 64).
    + destruct (Z.ltb_spec (v + 2 ^ 64) (2 ^ 63)); lia.
    + rewrite <- (Z_mod_plus_full v 1 (2 ^ 64)). rewrite Z.mul_1_l. symmetry. apply Z.mod_small. lia.
  - rewrite (Z.mod_small v) by lia. destruct (Z.ltb_spec v (2 ^ 63)); lia.
Qed.

(** C103 (refuted): a number of a 64-bit type is shown on the page as itself.  What holds is
    that the double nearest to it is printed. *)
Theorem C103_rounds_uint : forall v, 0 <= v < 2 ^ 64 -> exists x, Nearest v x /\ Printed x (page_uint v).
Proof. intros v H. unfold page_uint. rewrite uint_id by auto. exists (js_number v). apply js_shown. lia. Qed.

Theorem C103_rounds_int : forall v, - 2 ^ 63 <= v < 2 ^ 63 -> exists x, Nearest v x /\ Printed x (page_int v).
Proof. intros v H. unfold page_int. rewrite int_id by auto. exists (js_number v). apply js_shown. lia. Qed.

(** Up to 2^53 that is the number itself. *)
Theorem C103_exact_partial : forall v, Z.abs v < 2 ^ 53 -> page_int v = v /\ (0 <= v -> page_uint v = v).
Proof.
  assert (F : forall v, Z.abs v < 2 ^ 53 -> js_string (js_number v) = v).
  { intros v L. destruct (js_shown v ltac:(lia)) as [N P]. rewrite (js_number_fix v (double_small v ltac:(lia))) in *.
    apply printed_safe; auto. }
  intros v L. unfold page_int, page_uint. split; [|intros P].
  - rewrite int_id by lia. auto.
  - rewrite uint_id by lia. auto.
Qed.

(** Beyond it every odd number is shown as another one, *)
Theorem C103_odd_refuted : forall v, Z.Odd v -> 2 ^ 53 < Z.abs v ->
  (0 <= v < 2 ^ 64 -> page_uint v <> v) /\ (- 2 ^ 63 <= v < 2 ^ 63 -> page_int v <> v).
Proof.
  intros v O L. split; intros H.
  - destruct (C103_rounds_uint v H) as (x & N & P). eapply odd_not_printed; eauto.
  - destruct (C103_rounds_int v H) as (x & N & P). eapply odd_not_printed; eauto.
Qed.

(** and whenever two numbers have the same nearest double, they look the same. *)
Theorem C103_alike_refuted : forall v w x, Nearest v x -> Nearest w x ->
  (0 <= v < 2 ^ 64 -> 0 <= w < 2 ^ 64 -> page_uint v = page_uint w) /\
  (- 2 ^ 63 <= v < 2 ^ 63 -> - 2 ^ 63 <= w < 2 ^ 63 -> page_int v = page_int w).
Proof.
  intros v w x A B. apply js_number_spec in A. apply js_number_spec in B. unfold page_uint, page_int. split; intros H H'.
  - rewrite !uint_id by auto. congruence.
  - rewrite !int_id by auto. congruence.
Qed.

(** A number has one nearest double, so the rule above determines what is printed up to the
    choice between two numbers at the same distance. *)
Theorem C103_one_double : forall v, exists! x, Nearest v x.
Proof.
  intros v. exists (js_number v). split; [apply js_number_spec; auto|]. intros y H. symmetry. apply js_number_spec. auto.
Qed.

(** ** Cases that meet the hypotheses *)

Example C103_witness_max : page_uint 18446744073709551615 = 18446744073709552000.
Proof. vm_compute. reflexivity. Qed.
Example C103_witness_odd : page_uint 9007199254740993 = 9007199254740992 /\ page_int (-9007199254740993) = -9007199254740992 /\
  page_int 9007199254740995 = 9007199254740996 /\ Z.Odd 9007199254740993.
Proof. repeat split; try (vm_compute; reflexivity). exists 4503599627370496. reflexivity. Qed.
Example C103_witness_safe : page_int (-9007199254740991) = -9007199254740991 /\ page_uint 1000000 = 1000000 /\ page_uint 0 = 0.
Proof. vm_compute. auto. Qed.
Example C103_witness_alike : Nearest 9007199254740992 9007199254740992 /\ Nearest 9007199254740993 9007199254740992.
Proof. split; apply js_number_spec; vm_compute; reflexivity. Qed.

Print Assumptions C103_rounds_uint.
Print Assumptions C103_rounds_int.
Print Assumptions C103_exact_partial.
Print Assumptions C103_odd_refuted.
Print Assumptions C103_alike_refuted.
Print Assumptions C103_one_double.
