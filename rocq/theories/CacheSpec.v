(** * Specification of the cache *)

From Coq Require Import List Arith.
From Verif Require Import Base BookModel CacheModel.
Import ListNotations.

(** Text is a list of Unicode scalar values. *)
Definition Valid (s : str) : Prop := Forall (fun c => c < 17 * (256 * 256)) s.

(** A block that fits the memory of a 64-bit machine. *)
Record Possible (b : block) : Prop := {
  possible_ops : length (operations b) < 256 ^ 8 /\ Forall Valid (operations b);
  possible_opts : length (options b) < 256 ^ 8 /\ Forall (fun o => Valid (fst o) /\ Valid (snd o)) (options b);
  possible_code : Valid (code b) }.

(** Maps with the same entries. *)
Definition Same {V} (m m' : list (nat * V)) : Prop := forall k, aget Nat.eq_dec m k = aget Nat.eq_dec m' k.

(** What is assumed of gzip and JSON: what was written can be read back, and a
    file that was cut off is not readable. *)
Record Faithful {V} (c : codec V) : Prop := {
  faithful_dec : forall m, dec c (enc c m) = Some m;
  faithful_nonempty : forall m, enc c m <> [];
  faithful_cut : forall m p q, enc c m = p ++ q -> p <> [] -> q <> [] -> dec c p = None }.

(** The life of an ideal cache: its entries and the saved ones.  A crash during a
    save leaves the old, the new or no entries. *)
Inductive ideal {V} : list (nat * V) * list (nat * V) -> event V -> list (nat * V) * list (nat * V) -> Prop :=
| ideal_set cur saved k v : ideal (cur, saved) (ESet k v) (aset Nat.eq_dec cur k v, saved)
| ideal_save cur saved : ideal (cur, saved) ESave (cur, cur)
| ideal_reload cur saved : ideal (cur, saved) EReload (saved, saved)
| ideal_crash_old cur saved n : ideal (cur, saved) (ECrash n) (saved, saved)
| ideal_crash_new cur saved n : ideal (cur, saved) (ECrash n) (cur, cur)
| ideal_crash_empty cur saved n : ideal (cur, saved) (ECrash n) ([], []).

Inductive ideals {V} : list (nat * V) * list (nat * V) -> list (event V) -> list (nat * V) * list (nat * V) -> Prop :=
| ideals_nil s : ideals s [] s
| ideals_snoc s es s1 e s2 : ideals s es s1 -> ideal s1 e s2 -> ideals s (es ++ [e]) s2.

(** Processing the blocks one after the other: the result for each block, and the
    final cache. *)
Fixpoint sequential {V} (key : nat -> nat) (outcome : nat -> option V) (c : list (nat * V)) (js : list nat)
  : list (option V) * list (nat * V) :=
  match js with
  | [] => ([], c)
  | j :: r =>
    match aget Nat.eq_dec c (key j) with
    | Some v => let '(rs, c') := sequential key outcome c r in (Some v :: rs, c')
    | None =>
      match outcome j with
      | Some v => let '(rs, c') := sequential key outcome (aset Nat.eq_dec c (key j) v) r in (Some v :: rs, c')
      | None => let '(rs, c') := sequential key outcome c r in (None :: rs, c')
      end
    end
  end.

(** The result of a finished job. *)
Definition result {V} (j : job V) : option (option V) :=
  match j with Done v => Some (Some v) | Failed => Some None | _ => None end.
