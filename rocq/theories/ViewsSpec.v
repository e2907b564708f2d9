(** * When two pictures on the page are about the same thing

    In terms of what the page tells about uses and steps: TellSpec.v. *)
From Coq Require Import List Arith Bool.
From Verif Require Import Base PermsModel FactsModel FactsSpec BoundariesModel UsesModel UsesSpec CfgModel StepsModel TellModel TellSpec.
From Verif Require BookModel ReportSpec StepsSpec DrawModel EditorModel.
Import ListNotations.

Section Views.
  Context (ks : list asked) (d : EditorModel.doc)
    (ds : @EditorModel.decos DrawModel.stack (list (list (BookModel.str * DrawModel.drawn_row)))).

  (** The letters [s] are drawn on the page, and are those of the use [pb] of place [x] at location [loc] in [k]. *)
  Definition UseTold (k : asked) (pb : PathBoundary) (loc : nat) (x : Place) (s : DrawModel.stack) : Prop :=
    In k ks /\ UseOf (k_fn k) pb loc x /\ TellsUse (k_fn k) (k_flow k) pb loc x s /\
    exists n c y, In (n, s) (EditorModel.d_boundaries ds) /\ EndsAt (k_fn k) pb c y /\
      EditorModel.linecol_to_position (EditorModel.Pos (fst (fn_pos (k_fn k) c)) (snd (fn_pos (k_fn k) c))) d = Some n.

  (** The row [r] is drawn on the page, and is that of place [x] for a step in [k]. *)
  Definition StepTold (k : asked) (x : Place) (from : option loc) (to : loc) (r : DrawModel.drawn_row) : Prop :=
    In k ks /\ TellsStep (k_fn k) x from to r /\
    exists n table name pos, In (n, [table]) (EditorModel.d_steps ds) /\ In (name, r) table /\
      StepsSpec.Named (fn_steps (k_fn k)) x name /\ StepOf (k_fn k) pos x from to /\
      EditorModel.linecol_to_position (EditorModel.r_end (ReportSpec.range_of (fn_line (k_fn k) pos))) d = Some n.
End Views.

(** How a letter of a row is read: there before the step, there after it. *)
Definition was_there (m : EditorModel.mark) : bool :=
  match m with EditorModel.Present | EditorModel.Removed => true | EditorModel.Absent | EditorModel.Added => false end.
Definition is_there (m : EditorModel.mark) : bool :=
  match m with EditorModel.Present | EditorModel.Added => true | EditorModel.Absent | EditorModel.Removed => false end.

Definition MarkOf (r : DrawModel.drawn_row) (L : Letter) (m : EditorModel.mark) : Prop :=
  match L with
  | LR => m = fst (fst (DrawModel.w_marks r))
  | LW => m = snd (fst (DrawModel.w_marks r))
  | LO => m = snd (DrawModel.w_marks r)
  | LF => False
  end.

(** The row says that at point [p] the letter is there, or is not there. *)
Inductive RowTells (f : function) (from : option loc) (to : loc) (r : DrawModel.drawn_row) : Point -> Letter -> bool -> Prop :=
| tells_before l L m : from = Some l -> MarkOf r L m -> RowTells f from to r (se_point (fn_steps f) l) L (was_there m)
| tells_after L m : MarkOf r L m -> RowTells f from to r (se_point (fn_steps f) to) L (is_there m).
