(** * What the settings of the server mean *)
From Coq Require Import Ascii String.
From Coq Require Import List Arith NArith.
From Verif Require Import Base BookModel RunModel ServeModel.
Import ListNotations.

(** Digits and their number. *)
Inductive Digits : list nat -> N -> Prop :=
| digits_one d : d <= 9 -> Digits [48 + d] (N.of_nat d)
| digits_more s n d : Digits s n -> d <= 9 -> Digits (s ++ [48 + d]) (10 * n + N.of_nat d).

(** A numeral may have a sign. *)
Definition Numeral (s : list nat) (n : N) : Prop := Digits s n \/ exists t, s = 43 :: t /\ Digits t n.

(** The port that was asked for. *)
Definition PortSet (v : var) (n : N) : Prop := exists s, v = Text s /\ Numeral s n /\ (n < 2 ^ 16)%N.

(** An octet, written without zeros in front. *)
Definition Octet (s : list nat) (n : nat) : Prop :=
  Digits s (N.of_nat n) /\ n < 256 /\ (s = [48] \/ forall t, s <> 48 :: t).
(** Four of them with dots. *)
Definition Dotted (s : list nat) (i : ip) : Prop :=
  exists a b c d ta tb tc td, i = V4 a b c d /\ Octet ta a /\ Octet tb b /\ Octet tc c /\ Octet td d /\
    s = ta ++ [46] ++ tb ++ [46] ++ tc ++ [46] ++ td.
