(** * What JavaScript's numbers are *)
From Coq Require Import ZArith.
Local Open Scope Z_scope.

(** The whole numbers among the doubles (with any exponent). *)
Definition Double (x : Z) : Prop := exists m e, 0 <= e /\ Z.abs m <= 2 ^ 53 /\ x = m * 2 ^ e.
(** Those with an even significand. *)
Definition EvenDouble (x : Z) : Prop := exists m e, 0 <= e /\ Z.abs m <= 2 ^ 53 /\ Z.Even m /\ x = m * 2 ^ e.

(** [x] is the double closest to [v]; of two equally close ones the even one.  (Doubles that are
    not whole lie below 2^53, where every whole number is a double.) *)
Definition Nearest (v x : Z) : Prop :=
  Double x /\
  forall y, Double y -> Z.abs (v - x) <= Z.abs (v - y) /\ (Z.abs (v - x) = Z.abs (v - y) -> y = x \/ EvenDouble x).

(** [y] is what is printed for the double [x]: it ends in as many zeros as a number can that
    still has [x] as its double, and no other such number is closer to [x]. *)
Definition Printed (x y : Z) : Prop :=
  x = 0 /\ y = 0 \/
  x <> 0 /\ exists (e : nat) s, y = s * 10 ^ Z.of_nat e /\ Nearest y x /\
    (forall (e' : nat) s', (e < e')%nat -> ~ Nearest (s' * 10 ^ Z.of_nat e') x) /\
    (forall s', Nearest (s' * 10 ^ Z.of_nat e) x -> Z.abs (x - y) <= Z.abs (x - s' * 10 ^ Z.of_nat e)).
