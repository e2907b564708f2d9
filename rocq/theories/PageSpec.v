(** * What the page should do *)

From Coq Require Import Ascii String.
From Coq Require Import List Arith Bool.
From Verif Require Import Base PermsModel BookModel BookSpec EditorModel EditorSpec PageModel.
Import ListNotations.

(** ** Pointing *)

(** The tables of loans and moves have one entry for a key. *)
Definition Keyed (f : facts) : Prop :=
  NoDup (map fst (loan_points f)) /\ NoDup (map fst (loan_regions f)) /\
  NoDup (map fst (move_points f)) /\ NoDup (map fst (move_regions f)).

(** The text from [a] to [b] belongs to [k]: it is where [k] happens, or where it takes effect. *)
Definition Belongs (d : doc) (points : list (nat * crange)) (regions : list (nat * list crange)) (k a b : nat) : Prop :=
  exists rs r, In (k, rs) regions /\ (In (k, r) points \/ In r rs) /\ Forward d r a b.

(** The text from [a] to [b] is highlighted. *)
Definition Lit (es : list element) (a b : nat) : Prop :=
  exists e, In e es /\ el_text e = (a, b) /\ In ShowHidden (el_classes e).

(** The pointer came and left, any number of times. *)
Inductive Visits : list pointer -> Prop :=
| visits_nil : Visits []
| visits_one t ps : Visits ps -> Visits (Enter t :: Leave t :: ps).

(** The loan that takes the permission, and the permission itself. *)
Definition taker (name : cls) (d : PData) : option nat :=
  match name with
  | AsRead => loan_read_refined d
  | AsWrite => loan_write_refined d
  | AsOwn => loan_drop_refined d
  | ShowHidden => None
  end.
Definition holds (name : cls) (p : Permissions) : bool :=
  match name with AsRead => p_read p | AsWrite => p_write p | AsOwn => p_drop p | ShowHidden => true end.

(** Exactly the text of the loan that takes the permission, and of the move, in state [d]. *)
Definition Explains (dc : doc) (f : facts) (name : cls) (d : PData) (es : list element) : Prop :=
  forall a b, Lit es a b <->
    (exists k, taker name d = Some k /\ Belongs dc (loan_points f) (loan_regions f) k a b) \/
    (exists k, path_moved d = Some k /\ Belongs dc (move_points f) (move_regions f) k a b).

(** ** Lines *)

(** A line of the book has a marker of the kind, with contents [i]. *)
Definition MarkedAt (marks : list BookSpec.mark) (n : nat) (k : kind) (i : str) : Prop := exists t, In (n, t, k, i) marks.

(** The position [n] is in line [k] of the document (counted from 0). *)
Definition InLine (d : doc) (k n : nat) : Prop :=
  exists before l after a b, d = before ++ l :: after /\ length before = k /\ l = a ++ b /\
    n = position_after (text_before before a).

(** ** Redrawing *)

(** Everything that is shown is drawn from the widget that is shown there. *)
Definition UpToDate {W D} (todom : W -> D) (l : list (nat * (W * D))) : Prop := forall n w d, In (n, (w, d)) l -> d = todom w.

(** ** Lines of any text: a line ends at a newline, a carriage return, or both together. *)
Definition Plain (l : str) : Prop := ~ In 10 l /\ ~ In 13 l.
Inductive Broken : str -> list str -> Prop :=
| broken_last l : Plain l -> Broken l [l]
| broken_nl l s ls : Plain l -> Broken s ls -> Broken (l ++ 10 :: s) (l :: ls)
| broken_both l s ls : Plain l -> Broken s ls -> Broken (l ++ 13 :: 10 :: s) (l :: ls)
| broken_cr l s ls : Plain l -> hd_error s <> Some 10 -> Broken s ls -> Broken (l ++ 13 :: s) (l :: ls).
