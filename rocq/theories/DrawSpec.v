(** * What is to be drawn of a result of the permission analysis *)
From Coq Require Import Ascii String.
From Coq Require Import List Arith.
From Verif Require Import Base PermsModel BookModel RunModel WireModel ReportModel ReportSpec DrawModel.
From Verif Require EditorModel BoundariesModel.
Import ListNotations.
Local Open Scope list_scope.

(** A boundary: the expected permissions in the order R, W, O, F, each with whether the place has it; under the pointer, of
    R, W and O the loan that took it away, and of each the move. *)
Definition letters_of (b : wbound) : list (BoundariesModel.Letter * bool) :=
  (if p_read (b_exp b) then [(BoundariesModel.LR, p_read (b_act b))] else []) ++
  (if p_write (b_exp b) then [(BoundariesModel.LW, p_write (b_act b))] else []) ++
  (if p_drop (b_exp b) then [(BoundariesModel.LO, p_drop (b_act b))] else []) ++
  match b_flow b with Some f => [(BoundariesModel.LF, if f_violation f then false else true)] | None => [] end.
Definition boundary_of (b : wbound) : EditorModel.pos * stack :=
  (EditorModel.Pos (fst (b_pos b)) (snd (b_pos b)),
   Stack (letters_of b) ((loan_read_refined (b_data b), path_moved (b_data b)), (loan_write_refined (b_data b), path_moved (b_data b)),
                         (loan_drop_refined (b_data b), path_moved (b_data b)))).
(** A line of steps, at the end of its place: its tables, with the rows as C77 has them. *)
Definition row_of (r : string * DataDiff) : str * drawn_row :=
  (lit (fst r), DrawnRow (EditorModel.row_icon (snd r)) (EditorModel.row_marks (snd r)) (EditorModel.row_keys (snd r))).
Definition line_of (l : wline) : EditorModel.pos * list (list (str * drawn_row)) :=
  (let '(_, (n, c), _) := l_loc l in EditorModel.Pos n c, map (fun t => map row_of (t_rows t)) (l_tables l)).

(** The page's output [x] is the report [o]; the loans and the moves are in the order of their keys. *)
Definition Shows (o : report) (x : @EditorModel.output stack (list (list (str * drawn_row)))) : Prop :=
  InOrder range_of (o_lpoints o) (EditorModel.loan_points (EditorModel.o_facts x)) /\
  InOrder (fun r => map range_of (r_ranges r)) (o_lregions o) (EditorModel.loan_regions (EditorModel.o_facts x)) /\
  InOrder range_of (o_mpoints o) (EditorModel.move_points (EditorModel.o_facts x)) /\
  InOrder (fun r => map range_of (r_ranges r)) (o_mregions o) (EditorModel.move_regions (EditorModel.o_facts x)) /\
  EditorModel.o_boundaries x = map boundary_of (o_bounds o) /\ EditorModel.o_steps x = map line_of (o_lines o).

(** The results that are reports, and what is told of the others. *)
Fixpoint analysed (l : list result) : list report := match l with [] => [] | inl o :: r => o :: analysed r | inr _ :: r => analysed r end.
Fixpoint failed (l : list result) : list told :=
  match l with
  | [] => []
  | inl _ :: r => failed r
  | inr (BuildError _) :: r => ToldBuild :: failed r
  | inr (AnalysisError m) :: r => ToldAnalysis (lit m) :: failed r
  end.

(** A letter that was so before the step and is so after it. *)
Definition drawn_as (x y : bool) : EditorModel.mark :=
  match x, y with true, true => EditorModel.Present | false, false => EditorModel.Absent | true, false => EditorModel.Removed | false, true => EditorModel.Added end.
