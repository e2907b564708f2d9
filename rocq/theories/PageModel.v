(** * Model of the page: highlighting, hidden lines, redrawing

    Sources, in frontend/packages/aquascope-editor/src:
    M = editor-utils/misc.tsx, P = editor-utils/permissions.tsx, B = editor-utils/boundaries.tsx,
    S = editor-utils/stepper.tsx, L = lib.tsx.  Text, positions, loans and moves are those of
    EditorModel.v, the annotations those of BookModel.v.  Not modelled: when CodeMirror removes the
    elements of lines that are scrolled out of view, colours and animations. *)

From Coq Require Import Ascii String.
From Coq Require Import List Arith Bool.
From Verif Require Import Base PermsModel BookModel EditorModel.
Import ListNotations.

(** ** Marks and their tags *)

(** M 198-203 [AnalysisFacts]: the tags of the loans and moves of one function. *)
Record tags := Tags {
  t_loan_points : list (nat * nat);
  t_loan_regions : list (nat * nat);
  t_move_points : list (nat * nat);
  t_move_regions : list (nat * nat)
}.

(** M 113-118 [ActionFacts], with the two tags *)
Record tagged := Tagged { refiner_tag : nat; region_tag : nat; t_action : action }.

(** M 166-180 and 182-196, the loops over the regions.  [fresh n] is the [n]-th tag that
    [makeTag] (M 80-89) makes; the result starts with the number of the next one. *)
Fixpoint tag_regions (fresh : nat -> nat) (n : nat) (points : list (nat * crange)) (regions : list (nat * list crange))
  : nat * list (nat * nat) * list (nat * nat) * list tagged :=
  match regions with
  | [] => (n, [], [], [])
  | (k, rs) :: l =>
    let '(n', ps, qs, ts) := tag_regions fresh (S (S n)) points l in
    (n', (k, fresh n) :: ps, (k, fresh (S n)) :: qs, Tagged (fresh n) (fresh (S n)) (aget Nat.eq_dec points k, rs) :: ts)
  end.

(** M 156-206 [generateAnalysisDecorationFacts] *)
Definition generate (fresh : nat -> nat) (n : nat) (f : facts) : nat * tags * list tagged :=
  let '(n1, lp, lr, ls) := tag_regions fresh n (loan_points f) (loan_regions f) in
  let '(n2, mp, mr, ms) := tag_regions fresh n1 (move_points f) (move_regions f) in
  (n2, Tags lp lr mp mr, ls ++ ms).

(** The class names that M 226-304 add and remove. *)
Inductive cls := ShowHidden | AsRead | AsWrite | AsOwn.
Definition cls_eqd : forall a b : cls, {a = b} + {a <> b}.
Proof. decide equality. Defined.

(** An element of the document: its tag, the text it is around, its classes.
    Simplification: one element for a mark (CodeMirror makes one per line, all alike). *)
Record element := Element { el_tag : nat; el_text : nat * nat; el_classes : list cls }.

(** M 128-154 [loanFactsToDecoration] *)
Definition tagged_marks (d : doc) (t : tagged) : option (list element) :=
  match fst (t_action t) with
  | None => None
  | Some p =>
    match mark_range d p,
          collect (mark_range d) (filter (fun r => if pos_eqd (r_start r) (r_end r) then false else true) (snd (t_action t))) with
    | Some m, Some ms => Some (Element (refiner_tag t) m [] :: map (fun x => Element (region_tag t) x []) ms)
    | _, _ => None
    end
  end.

(** P 33-46 and M 122-126, for all functions in all editors of a page, each function with the
    text it is shown in: its tags, and its elements.  [None]: a mark throws. *)
Fixpoint draw (fresh : nat -> nat) (n : nat) (fs : list (doc * facts)) : option (list (tags * list element)) :=
  match fs with
  | [] => Some []
  | (d, f) :: r =>
    let '(n', t, ts) := generate fresh n f in
    match collect (tagged_marks d) ts, draw fresh n' r with
    | Some es, Some l => Some ((t, concat es) :: l)
    | _, _ => None
    end
  end.

(** ** Pointing *)

(** [classList.add], [classList.remove] *)
Definition add_cls (c : cls) (l : list cls) : list cls := if in_dec cls_eqd c l then l else l ++ [c].
Definition remove_cls (c : cls) (l : list cls) : list cls := filter (fun x => if cls_eqd x c then false else true) l.

(** M 226-230 [forCustomTag]; a key without a tag yields "undefined", which no element has. *)
Definition for_tag (tag : option nat) (g : list cls -> list cls) (es : list element) : list element :=
  match tag with
  | None => es
  | Some t => map (fun e => if el_tag e =? t then Element (el_tag e) (el_text e) (g (el_classes e)) else e) es
  end.

(** M 232-251 [showRegion], 253-272 [hideRegion]; always one name. *)
Definition show_region (points regions : list (nat * nat)) (key : option nat) (name : cls) (es : list element) : list element :=
  match key with
  | None => es
  | Some k =>
    let g l := add_cls name (add_cls ShowHidden l) in
    for_tag (aget Nat.eq_dec regions k) g (for_tag (aget Nat.eq_dec points k) g es)
  end.
Definition hide_region (points regions : list (nat * nat)) (key : option nat) (name : cls) (es : list element) : list element :=
  match key with
  | None => es
  | Some k =>
    let g l := remove_cls name (remove_cls ShowHidden l) in
    for_tag (aget Nat.eq_dec regions k) g (for_tag (aget Nat.eq_dec points k) g es)
  end.

(** A letter on the page: the tags of its function, its name, the loan and the move. *)
Record target := Target { tg_tags : tags; tg_name : cls; tg_loan : option nat; tg_move : option nat }.

(** B 70-105, S 95-102 *)
Definition enter (t : target) (es : list element) : list element :=
  show_region (t_move_points (tg_tags t)) (t_move_regions (tg_tags t)) (tg_move t) (tg_name t)
    (show_region (t_loan_points (tg_tags t)) (t_loan_regions (tg_tags t)) (tg_loan t) (tg_name t) es).
Definition leave (t : target) (es : list element) : list element :=
  hide_region (t_move_points (tg_tags t)) (t_move_regions (tg_tags t)) (tg_move t) (tg_name t)
    (hide_region (t_loan_points (tg_tags t)) (t_loan_regions (tg_tags t)) (tg_loan t) (tg_name t) es).

(** B 64-106: the letters R, W and O of a boundary whose state is [d]. *)
Definition boundary_targets (t : tags) (d : PData) : list target :=
  [ Target t AsRead (loan_read_refined d) (path_moved d);
    Target t AsWrite (loan_write_refined d) (path_moved d);
    Target t AsOwn (loan_drop_refined d) (path_moved d) ].

(** S 240-260: the letters of a row. *)
Definition row_targets (t : tags) (d : DataDiff) : list target :=
  let '((l1, m1), (l2, m2), (l3, m3)) := row_keys d in
  [ Target t AsRead l1 m1; Target t AsWrite l2 m2; Target t AsOwn l3 m3 ].

(** What the pointer does. *)
Inductive pointer := Enter (t : target) | Leave (t : target).
Definition point_at (ps : list pointer) (es : list element) : list element :=
  fold_left (fun es p => match p with Enter t => enter t es | Leave t => leave t es end) ps es.

(** ** Hidden lines *)

(** CodeMirror's [Text] of a string: split at newlines, carriage returns and both together. *)
Fixpoint cm_lines (cur s : str) : list str :=
  match s with
  | [] => [rev cur]
  | c :: t =>
    if c =? NL then rev cur :: cm_lines [] t
    else if c =? CR then
      rev cur :: match t with
                 | [] => [[]]
                 | d :: t' => if d =? NL then cm_lines [] t' else cm_lines [] t
                 end
    else cm_lines (c :: cur) t
  end.
Definition cm_doc (s : str) : doc := cm_lines [] s.

(** M 208-224 [hiddenLines], L 310-315: the starts of the hidden lines; [Text.line] throws
    for a number that is none.  Simplification: how an edit moves them is left out. *)
Definition hide_lines (d : doc) (ls : list nat) : option (list nat) :=
  collect (fun n => if (1 <=? n) && (n <=? length d) then Some (line_from d (n - 1)) else None) ls.

(** B 176-177: is the stack at this position open from the start? *)
Definition stack_open (d : doc) (focused : list nat) (n : nat) : option bool :=
  option_map (fun k => existsb (Nat.eqb (S k)) focused) (line_at d n).

(** S 409-413 *)
Definition table_open (d : doc) (focused : list nat) (n : nat) : option bool :=
  option_map (fun k => line_open focused (S k)) (line_at d n).

(** S 423: [annotations?.focused_paths[currLine.number]] *)
Definition table_matchers (d : doc) (paths : list (nat * list matcher)) (n : nat) : option (option (list matcher)) :=
  option_map (fun k => aget Nat.eq_dec paths (S k)) (line_at d n).

(** ** Redrawing *)

Section Redraw.
  (** [W]: a widget; [D]: what is drawn for it. *)
  Context {W D : Type} (same : W -> W -> bool) (todom : W -> D).

  (** CodeMirror replaces the decorations of a field: where a widget is the same, in the sense
      of its own [eq], as the one that is there, the drawing may stay ([keep]). *)
  Definition redraw (keep : nat -> bool) (old : list (nat * (W * D))) (new : list (nat * W)) : list (nat * (W * D)) :=
    map (fun '(n, w) =>
           (n, (w, match aget Nat.eq_dec old n with
                   | Some (o, d) => if same o w && keep n then d else todom w
                   | None => todom w
                   end))) new.

  (** M 311-325 [makeDecorationField]: a list of widgets, again and again; no widgets after an edit (L 95-107). *)
  Definition redraws (hist : list ((nat -> bool) * list (nat * W))) : list (nat * (W * D)) :=
    fold_left (fun old '(keep, new) => redraw keep old new) hist [].
End Redraw.

(** S 400-403: the widget of a step, [C] what it shows. *)
Record step_widget (C : Type) := StepWidget { sw_line : nat; sw_tags : tags; sw_content : C }.
Arguments StepWidget {C}. Arguments sw_line {C}. Arguments sw_tags {C}. Arguments sw_content {C}.
Definition same_step {C} (a b : step_widget C) : bool := sw_line a =? sw_line b.

(** B 164-167: the widget of a boundary; the locations are compared as objects. *)
Record boundary_widget (C : Type) := BoundaryWidget { bw_location : nat; bw_tags : tags; bw_content : C }.
Arguments BoundaryWidget {C}. Arguments bw_location {C}. Arguments bw_tags {C}. Arguments bw_content {C}.
Definition same_boundary {C} (a b : boundary_widget C) : bool := bw_location a =? bw_location b.
