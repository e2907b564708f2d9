(** * The snapshots of the steps

    Sources: A/test_utils.rs 306-319 and 345-391, crates/aquascope/tests/stepper.rs:
    what the step tables of every function are turned into before they are compared
    with the stored ones. *)
From Coq Require Import List Arith Bool.
Import ListNotations.

(** A row: the name of a place and what changes ([D]). *)
Definition row (D : Type) : Type := list nat * D.

(** What was computed for one function: for every step its line, and its tables.
    Simplification: the line of the end of the step's span is an input. *)
Definition output (D : Type) : Type := list (nat * list (list (row D))).
Definition snap (D : Type) : Type := list (nat * list (row D)).

(** test_utils.rs 368-388: the tables of a step are put together. *)
Definition normalize {D} (o : output D) : snap D :=
  map (fun p => (fst p, concat (snd p))) o.

(** stepper.rs 12-22: the rows are sorted by name, the steps by line.  The order in
    which an unstable sort leaves equal keys is not known: both sorts are arguments. *)
Definition snapshot {D} (rows : list (row D) -> list (row D)) (lines : snap D -> snap D) (o : output D) : snap D :=
  lines (map (fun p => (fst p, rows (snd p))) (normalize o)).

(** test_utils.rs 306-318 [analysis_snapshot_tag]: "(anon.body)" for a body without name. *)
Definition tag_of (name : option (list nat)) : list nat :=
  match name with Some n => n | None => [40; 97; 110; 111; 110; 46; 98; 111; 100; 121; 41] end.

(** stepper.rs 10: [format!("{tag}@{f}")]. *)
Definition snap_name (name : option (list nat)) (file : list nat) : list nat := tag_of name ++ [64] ++ file.

(** [assert_yaml_snapshot!] for every function of a file, with what is stored for the
    names.  Simplification: values are compared, not their YAML text. *)
Definition file_passes {D} (eqd : forall a b : D, {a = b} + {a <> b}) (stored : list nat -> option (snap D))
    (rows : list (row D) -> list (row D)) (lines : snap D -> snap D) (file : list nat)
    (fns : list (option (list nat) * output D)) : bool :=
  forallb (fun f =>
    match stored (snap_name (fst f) file) with
    | None => false
    | Some v =>
      if list_eq_dec (fun x y : nat * list (row D) =>
           match Nat.eq_dec (fst x) (fst y), list_eq_dec (fun a b : row D =>
             match list_eq_dec Nat.eq_dec (fst a) (fst b), eqd (snd a) (snd b) with
             | left E1, left E2 => left (eq_trans (surjective_pairing a) (eq_trans (f_equal2 pair E1 E2) (eq_sym (surjective_pairing b))))
             | right N, _ => right (fun E => N (f_equal fst E))
             | _, right N => right (fun E => N (f_equal snd E))
             end) (snd x) (snd y) with
           | left E1, left E2 => left (eq_trans (surjective_pairing x) (eq_trans (f_equal2 pair E1 E2) (eq_sym (surjective_pairing y))))
           | right N, _ => right (fun E => N (f_equal fst E))
           | _, right N => right (fun E => N (f_equal snd E))
           end) v (snapshot rows lines (snd f))
      then true else false
    end) fns.

(** test_utils.rs 320-344 and tests/boundaries.rs 6-20: the boundaries of a function,
    sorted by the position they are shown at ([B]: boundaries). *)
Definition boundary_snapshot {B : Type} (sorted : list B -> list B) (bs : list B) : list B := sorted bs.
