(** * What the page tells about the functions of a program

    In terms of the functions' expressions, executions and facts: UsesSpec.v, StepsSpec.v; and of what is drawn: DrawSpec.v,
    EditorSpec.v. *)
From Coq Require Import Ascii String.
From Coq Require Import List Arith Bool Permutation.
From Verif Require Import Base PermsModel FactsModel FactsSpec FlowModel FlowSpec SpansModel SpansSpec BoundariesModel BoundariesSpec
  UsesModel UsesSpec CfgModel SegMirModel HirModel TablesModel TablesSpec StepsModel TellModel.
From Verif Require BookModel ReportModel ReportSpec StepsSpec DrawModel DrawSpec EditorModel EditorSpec JsonModel.
Import ListNotations.

(** One function, and what the compiler said by the time it was asked about; [k_errors]: what it said about this one. *)
Record asked := AskedFor { k_fn : function; k_flow : FlowIn; k_state : DiagState; k_errors : list DiagOp }.

(** The facts are those of the analyses, the same for uses, steps, loans and moves; the errors are about this function; hash maps
    have some order; names are of characters below 256. *)
Record Sound (k : asked) : Prop := mkSound {
  sound_uses : Analysed (fn_uses (k_fn k)) (k_flow k);
  sound_steps : StepsSpec.Asked (fn_steps (k_fn k));
  sound_facts : se_inp (fn_steps (k_fn k)) = ue_inp (fn_uses (k_fn k));
  sound_live : le_live_at (fn_lenv (k_fn k)) = in_loan_live (ue_inp (fn_uses (k_fn k)));
  sound_moves : me_moves (fn_menv (k_fn k)) = length (in_moves (ue_inp (fn_uses (k_fn k)))) /\
    me_refined (fn_menv (k_fn k)) = o_move (ue_out (fn_uses (k_fn k)));
  sound_errors : TrackedAs (k_state k) (fn_id (k_fn k)) (k_errors k);
  sound_order : Shuffle (fn_order (k_fn k));
  sound_hash : Shuffle (fn_hash (k_fn k));
  sound_lines : Shuffle (fn_lines (k_fn k));
  sound_maps : forall A l, Permutation (fn_maps (k_fn k) A l) l;
  sound_names : forall x n, se_name (fn_steps (k_fn k)) x = Some n -> Forall (fun c => c < 256) n
}.

(** The functions [ks] are analysed, the results printed, and the page draws [ds] in the text [d] and tells of [es]. *)
Definition Displayed (ks : list asked) (d : EditorModel.doc)
    (ds : @EditorModel.decos DrawModel.stack (list (list (BookModel.str * DrawModel.drawn_row)))) (es : list DrawModel.told) : Prop :=
  exists l j, Forall2 (fun k r => function_result (k_fn k) (k_state k) = Some r) ks l /\
    Forall ReportSpec.RealResult l /\ JsonModel.js_parse (JsonModel.to_string (ReportModel.reports l)) = Some j /\
    DrawModel.page_decos d j = Some (Some ds, es).

(** ** Boundaries *)

(** [pb] is a use of the function, of place [x] at location [loc]. *)
Definition UseOf (f : function) (pb : PathBoundary) (loc : nat) (x : Place) : Prop :=
  (exists fc e, Reached (eid (fn_body f)) (fn_body f) fc e /\ UseSite fc e pb) /\ Resolves (fn_uses f) pb loc x.

(** Its text is in the body, or taken as it is, and ends at character [c] and byte [y]. *)
Definition EndsAt (f : function) (pb : PathBoundary) (c y : nat) : Prop :=
  exists s rc ry, (ue_local (fn_uses f) (pb_location pb) = Some s \/ (ue_local (fn_uses f) (pb_location pb) = None /\ s = pb_location pb)) /\
    ue_chars (fn_uses f) s = Some rc /\ ue_bytes (fn_uses f) s = Some ry /\ hi rc = c /\ hi ry = y.

(** The letter [L] is drawn exactly if it is [wanted], filled exactly if [there]. *)
Definition Draws (s : DrawModel.stack) (L : Letter) (wanted : bool) (there : Prop) : Prop :=
  forall has, In (L, has) (DrawModel.k_icons s) <-> wanted = true /\ (has = true <-> there).

(** The drawn letters of a use: R if the place can be read, W and O if it is besides not lent and declared so; F is drawn if the
    statement flows into a lifetime parameter, filled if all such flows that the use takes part in are allowed.  Under the pointer:
    the loans and the move of the place. *)
Definition TellsUse (f : function) (fi : FlowIn) (pb : PathBoundary) (loc : nat) (x : Place) (s : DrawModel.stack) : Prop :=
  let inp := ue_inp (fn_uses f) in let p := ue_start (fn_uses f) loc in
  Draws s LR (p_read (pb_expected pb)) (PlaceReadable inp x p) /\
  Draws s LW (p_write (pb_expected pb)) (LoanFree inp x p /\ PlaceReadable inp x p /\ DeclaredWriteable inp (in_normalize inp x)) /\
  Draws s LO (p_drop (pb_expected pb)) (LoanFree inp x p /\ PlaceReadable inp x p /\ DeclaredOwnable inp (in_normalize inp x)) /\
  (exists r, FlowRequired (fn_uses f) fi (pb_context pb) (pb_hir pb) r /\
     Draws s LF (if r then true else false) (~ exists c, BrokenFlow (fn_uses f) fi (pb_context pb) (pb_hir pb) c)) /\
  exists u, StepsSpec.StateOf inp x p u /\
    DrawModel.k_keys s = ((loan_read_refined u, path_moved u), (loan_write_refined u, path_moved u), (loan_drop_refined u, path_moved u)).

(** It is not hidden: it has a flow requirement, or does not end after the first error. *)
Definition Visible (k : asked) (pb : PathBoundary) : Prop :=
  (exists fb, FlowRequired (fn_uses (k_fn k)) (k_flow k) (pb_context pb) (pb_hir pb) (Some fb)) \/
  (forall d, In (Report d) (k_errors k) -> is_error d = false) \/
  exists s, FirstError (k_errors k) s /\
    (ue_local (fn_uses (k_fn k)) s = None \/
     exists s' r c y, ue_local (fn_uses (k_fn k)) s = Some s' /\ ue_bytes (fn_uses (k_fn k)) s' = Some r /\ EndsAt (k_fn k) pb c y /\ y <= hi r).

(** ** Steps *)

(** The drawn row of place [x] for a step [from] (the beginning, if it is none) [to]: each letter as it was and as it is; the icon
    of what changed; under the pointer, the loans and the move at its end. *)
Definition TellsStep (f : function) (x : Place) (from : option loc) (to : loc) (r : DrawModel.drawn_row) : Prop :=
  let env := fn_steps f in
  exists u a v b,
    match from with
    | Some l => StepsSpec.StateOf (se_inp env) x (se_point env l) u /\ StepsSpec.LettersAt (se_inp env) x (se_point env l) a
    | None => StepsSpec.NothingYet u a
    end /\
    StepsSpec.StateOf (se_inp env) x (se_point env to) v /\ StepsSpec.LettersAt (se_inp env) x (se_point env to) b /\
    DrawModel.w_marks r = (DrawSpec.drawn_as (p_read a) (p_read b), DrawSpec.drawn_as (p_write a) (p_write b), DrawSpec.drawn_as (p_drop a) (p_drop b)) /\
    match DrawModel.w_icon r with
    | Some i => EditorSpec.IconFor u v i
    | None => forall c, ~ EditorSpec.begins c u v /\ ~ EditorSpec.ends c u v
    end /\
    DrawModel.w_keys r = ((loan_read_refined v, path_moved v), (loan_write_refined v, path_moved v), (loan_drop_refined v, path_moved v)) /\
    (fn_mode f = Changes -> a <> b).

(** The row of [x] on the line that ends at byte [pos] is due to a step of the function. *)
Definition StepOf (f : function) (pos : nat) (x : Place) (from : option loc) (to : loc) : Prop :=
  let env := fn_steps f in
  In x (in_places (se_inp env)) /\ se_visible env x = true /\ StepsSpec.LiveAtAll env x from to /\
  exists span, StepsSpec.Origin env (fn_value f) x from to span /\ LineEnd (se_text env) (se_hi env span) pos.
