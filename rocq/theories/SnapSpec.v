(** * What a snapshot should tell *)
From Coq Require Import List Arith Permutation Sorted.
From Verif Require Import SnapModel.
Import ListNotations.

(** Some sort by a key: it keeps the elements and puts the keys in order. *)
Definition SortsBy {A K} (le : K -> K -> Prop) (key : A -> K) (f : list A -> list A) : Prop :=
  forall l, Permutation l (f l) /\ StronglySorted (fun x y => le (key x) (key y)) (f l).

(** The order of words, by their letters. *)
Inductive WordLe : list nat -> list nat -> Prop :=
| word_nil w : WordLe [] w
| word_less a b v w : a < b -> WordLe (a :: v) (b :: w)
| word_same a v w : WordLe v w -> WordLe (a :: v) (a :: w).

(** The same lines with the same rows, whatever the order and the tables. *)
Definition SameRows {D} (o1 o2 : output D) : Prop :=
  exists o', Permutation o1 o' /\
    Forall2 (fun a b => fst a = fst b /\ Permutation (concat (snd a)) (concat (snd b))) o' o2.

(** No two steps on a line, and no two rows of a step with the same place. *)
Definition Distinct {D} (o : output D) : Prop :=
  NoDup (map fst o) /\ forall p, In p o -> NoDup (map fst (concat (snd p))).
