(** * Model of the page drawing the permission analysis from the parsed answer

    Sources, in frontend/packages/: L = aquascope-editor/src/lib.tsx, P = aquascope-editor/src/editor-utils/permissions.tsx,
    B = aquascope-editor/src/editor-utils/boundaries.tsx, S = aquascope-editor/src/editor-utils/stepper.tsx,
    I = aquascope-standalone/src/index.tsx.  [None] is an object that is not of the declared type. *)
From Coq Require Import Ascii String.
From Coq Require Import List Arith ZArith Bool.
From Verif Require Import Base BookModel RunModel WireModel ReportModel.
From Verif Require EditorModel BoundariesModel.
Import ListNotations.
Local Open Scope string_scope.
Local Open Scope list_scope.

Definition truth (o : option json) : option bool := match o with Some (JBool b) => Some b | _ => None end.
(** A number, or undefined. *)
Definition number_or (o : option json) : option (option nat) :=
  match o with None => Some None | Some (JNum n) => Some (Some n) | _ => None end.
Definition text (o : option json) : option str := match o with Some (JStr s) => Some s | _ => None end.

(** What the pointer on a letter looks up: a loan and a move. *)
Definition keys := (option nat * option nat)%type.

(** B 56-116 [PermStack]: the letters that are expected, with "has it", and the keys of R, W and O. *)
Record stack := Stack { k_icons : list (BoundariesModel.Letter * bool); k_keys : keys * keys * keys }.
(** B 96-103: [exp] is [expecting_flow !== undefined], [act] is [!(expecting_flow?.is_violation ?? false)]. *)
Definition flow_flags (o : option json) : option (bool * bool) :=
  match o with
  | None => Some (false, true)
  | Some f => option_map (fun v => (true, negb v)) (truth (dot "is_violation" f))
  end.
Definition page_boundary (j : json) : option (EditorModel.pos * stack) :=
  obind (obind (dot "location" j) get_pos) (fun p =>
  obind (dot "expected" j) (fun e => obind (dot "actual" j) (fun a => obind (dot "data" j) (fun d =>
  obind (truth (dot "read" e)) (fun er => obind (truth (dot "write" e)) (fun ew => obind (truth (dot "drop" e)) (fun eo =>
  obind (truth (dot "read" a)) (fun ar => obind (truth (dot "write" a)) (fun aw => obind (truth (dot "drop" a)) (fun ao =>
  obind (flow_flags (dot "expecting_flow" j)) (fun f =>
  obind (number_or (dot "path_moved" d)) (fun m => obind (number_or (dot "loan_read_refined" d)) (fun r =>
  obind (number_or (dot "loan_write_refined" d)) (fun w => option_map (fun o =>
    (p, Stack (map (fun x => (fst (fst x), snd x)) (filter (fun x => snd (fst x))
                 [((BoundariesModel.LR, er), ar); ((BoundariesModel.LW, ew), aw); ((BoundariesModel.LO, eo), ao); ((BoundariesModel.LF, fst f), snd f)]))
              ((r, m), (w, m), (o, m))))
    (number_or (dot "loan_drop_refined" d)))))))))))))))).

(** S 46-90: how a letter is drawn.  Everything but "None" and "Low" is drawn as gained. *)
Definition step_mark (j : json) : option EditorModel.mark :=
  obind (text (dot "type" j)) (fun t =>
  if str_eqd t (lit "None") then
    match dot "value" j with
    | Some (JBool true) => Some EditorModel.Present
    | Some (JBool false) | None => Some EditorModel.Absent
    | _ => None
    end
  else Some (if str_eqd t (lit "Low") then EditorModel.Removed else EditorModel.Added)).
(** S 142-223: the icon of one fact. *)
Definition step_icon (j : json) (up down : EditorModel.icon) : option (option EditorModel.icon) :=
  option_map (fun t => if str_eqd t (lit "High") then Some up else if str_eqd t (lit "Low") then Some down else None) (text (dot "type" j)).
(** S 245-246 [unwrap] *)
Definition step_key (j : json) : option (option nat) :=
  obind (text (dot "type" j)) (fun t =>
  if str_eqd t (lit "None") then number_or (dot "value" j)
  else if str_eqd t (lit "High") then number_or (dot "value" j) else Some None).

(** S 107-280 [PermDiffRow]: the icon, the letters and the keys. *)
Record drawn_row := DrawnRow { w_icon : option EditorModel.icon; w_marks : EditorModel.mark * EditorModel.mark * EditorModel.mark; w_keys : keys * keys * keys }.
Definition fact_icon (j : json) (k : string) (up down : EditorModel.icon) : option (option EditorModel.icon) :=
  obind (dot k j) (fun x => step_icon x up down).
Definition or_else {A} (a b : option A) : option A := match a with Some _ => a | None => b end.
Definition page_diff (j : json) : option drawn_row :=
  obind (fact_icon j "path_moved" EditorModel.SignOut EditorModel.Recycle) (fun i1 =>
  obind (fact_icon j "loan_read_refined" EditorModel.ArrowRight EditorModel.RotateLeft) (fun i2 =>
  obind (fact_icon j "loan_write_refined" EditorModel.ArrowRight EditorModel.RotateLeft) (fun i3 =>
  obind (fact_icon j "is_live" EditorModel.LevelUp EditorModel.LevelDown) (fun i4 =>
  obind (fact_icon j "path_uninitialized" EditorModel.SignOut EditorModel.Recycle) (fun i5 =>
  obind (dot "permissions" j) (fun p =>
  obind (obind (dot "read" p) step_mark) (fun r => obind (obind (dot "write" p) step_mark) (fun w => obind (obind (dot "drop" p) step_mark) (fun o =>
  obind (obind (dot "path_moved" j) step_key) (fun m => obind (obind (dot "loan_read_refined" j) step_key) (fun kr =>
  obind (obind (dot "loan_write_refined" j) step_key) (fun kw => option_map (fun ko =>
    DrawnRow (or_else i1 (or_else i2 (or_else i3 (or_else i4 i5)))) (r, w, o) ((kr, m), (kw, m), (ko, m)))
    (obind (dot "loan_drop_refined" j) step_key))))))))))))).
(** S 295-299, 346-357: a row is a path and its changes. *)
Definition page_row (j : json) : option (str * drawn_row) :=
  match j with JArr (JStr path :: d :: _) => option_map (pair path) (page_diff d) | _ => None end.
Definition items (o : option json) : option (list json) := match o with Some (JArr l) => Some l | _ => None end.
Definition page_table (j : json) : option (list (str * drawn_row)) := obind (items (dot "state" j)) (all page_row).
(** S 282-284, 457-468: a line of tables, at the end of its place. *)
Definition page_line (j : json) : option (EditorModel.pos * list (list (str * drawn_row))) :=
  obind (obind (obind (dot "location" j) (dot "end")) get_pos) (fun p => option_map (pair p) (obind (items (dot "state" j)) (all page_table))).

(** P 34-47: one output. *)
Definition page_output (j : json) : option (list EditorModel.action * list (EditorModel.pos * stack) * list (EditorModel.pos * list (list (str * drawn_row)))) :=
  obind (page_actions j) (fun a => obind (obind (items (dot "boundaries" j)) (all page_boundary)) (fun b =>
  option_map (fun s => (a, b, s)) (obind (items (dot "steps" j)) (all page_line)))).

(** I 69-88: what the user is told of an error. *)
Inductive told := ToldBuild | ToldAnalysis (msg : str).
Definition page_error (j : json) : option told :=
  obind (text (dot "type" j)) (fun t =>
  if str_eqd t (lit "BuildError") then Some ToldBuild
  else if str_eqd t (lit "AnalysisError") then option_map ToldAnalysis (text (dot "msg" j)) else None).

(** L 343-353: the outputs, and what is reported on the way. *)
Fixpoint page_results (l : list json) : option (list (list EditorModel.action * list (EditorModel.pos * stack) * list (EditorModel.pos * list (list (str * drawn_row)))) * list told) :=
  match l with
  | [] => Some ([], [])
  | j :: r =>
    match dot "Ok" j with
    | Some x => obind (page_output x) (fun o => option_map (fun p => (o :: fst p, snd p)) (page_results r))
    | None => obind (obind (dot "Err" j) page_error) (fun e => option_map (fun p => (fst p, e :: snd p)) (page_results r))
    end
  end.
(** P 25-54 [makePermissionsDecorations]; the inner [None]: a position outside the text, which throws. *)
Definition page_decos (d : EditorModel.doc) (j : json)
  : option (option (@EditorModel.decos stack (list (list (str * drawn_row)))) * list told) :=
  obind (items (Some j)) (fun l => option_map (fun p =>
    (match EditorModel.collect (fun o => EditorModel.place d (snd (fst o))) (fst p), EditorModel.collect (fun o => EditorModel.place d (snd o)) (fst p) with
     | Some bs, Some ss => Some (EditorModel.Decos (concat ss) (EditorModel.uniq_by_pos [] (concat bs)) (flat_map (fun o => fst (fst o)) (fst p)))
     | _, _ => None
     end, snd p)) (page_results l)).
