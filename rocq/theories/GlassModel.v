(** * Model of the switch between the short and the full form of values

    Source: E = frontend/packages/aquascope-editor/src/editor-utils/interpreter.tsx 455-668 [renderArrows], 712-760
    [InterpreterView].  FrontModel.v has the states as they are drawn in one form; here is what happens to them while the reader
    uses the page.
    Simplifications: nothing else on the page uses LeaderLine; the timer that moves the arrows with the page (641-659) is left out. *)
From Coq Require Import Ascii String.
From Coq Require Import List Arith Bool.
From Verif Require Import Base BookModel RunModel EmbedModel FrontModel.
From Verif Require EditorModel.
Import ListNotations.
Local Open Scope list_scope.

(** LeaderLine makes one element for an arrow, and another for an area to which it leads. *)
Inductive part := Line | Area.
(** An element, with the pass of drawing in which it was made, the number of the state and the arrow. *)
Record svg := Svg { g_time : nat; g_step : nat; g_arrow : arrow; g_part : part }.

Definition part_eqd : forall a b : part, {a = b} + {a <> b}.
Proof. decide equality. Defined.
Definition svg_eqd : forall a b : svg, {a = b} + {a <> b}.
Proof. decide equality; [apply part_eqd| |apply Nat.eq_dec|apply Nat.eq_dec]. decide equality; try apply Nat.eq_dec. decide equality. apply Nat.eq_dec. Defined.

(** E 612-613: [document.body.querySelector(":scope > ...")], the first child of the body with this class; and the other children. *)
Fixpoint take (p : part) (l : list svg) : option (svg * list svg) :=
  match l with
  | [] => None
  | x :: r => if part_eqd (g_part x) p then Some (x, r) else option_map (fun y => (fst y, x :: snd y)) (take p r)
  end.

Section View.
  (** The states of the trace; whether LeaderLine succeeds, which may be different each time. *)
  Context (steps : list fstep) (works : nat -> nat -> arrow -> bool).

  (** E 529-630 [renderPtr]: the children of the body, those of the arrow container, and [svgElements] of the lines so far. *)
  Definition render_ptr (time k : nat) (a : arrow) (st : list svg * list svg * list svg) : list svg * list svg * list svg :=
    let '(body, box, lines) := st in
    if works time k a then
      let body1 := body ++ Svg time k a Line :: match a_range a with Some _ => [Svg time k a Area] | None => [] end in
      match take Line body1 with
      | None => (body1, box, lines)
      | Some (x, body2) =>
        match a_range a with
        | None => (body2, box ++ [x], lines ++ [x])
        | Some _ =>
          match take Area body2 with
          | None => (body1, box, lines)
          | Some (y, body3) => (body3, box ++ [x; y], lines ++ [x; y])
          end
        end
      end
    else st.
  Definition render_arrows (time k : nat) (ars : list arrow) (body box : list svg) : list svg * list svg * list svg :=
    fold_left (fun st a => render_ptr time k a st) ars (body, box, []).

  (** A state on the page: what stands there, the children of its arrow container, and the elements that the effect will remove. *)
  Record panel := Panel { p_items : list item; p_box : list svg; p_lines : list svg }.
  (** The component: [concreteTypes], [buttonVisible], the passes so far and the states; or React has removed it. *)
  Inductive view := Mounted (concrete visible : bool) (time : nat) (panels : list panel) | Removed.
  Record world := World { body : list svg; shown : view }.

  (** E 658-666: the clean-up of the effect. *)
  Definition clean_up (p : panel) : list svg := filter (fun x => if in_dec svg_eqd x (p_lines p) then false else true) (p_box p).
  (** The effects of all states, in order. *)
  Fixpoint effects (time k : nat) (ds : list (list item * list arrow)) (boxes : list (list svg)) (bd : list svg) : list panel * list svg :=
    match ds, boxes with
    | (items, ars) :: ds', box :: boxes' =>
      let '(bd1, box1, lines) := render_arrows time k ars bd box in
      let (ps, bd2) := effects time (S k) ds' boxes' bd1 in
      (Panel items box1 lines :: ps, bd2)
    | _, _ => ([], bd)
    end.
  (** A pass: all states are drawn anew, the effects of the last pass are cleaned up, those of this one are run (667: each time).  An error
      removes all (FrontModel.v); then the effects are cleaned up as well. *)
  Definition pass (concrete visible : bool) (time : nat) (boxes : list (list svg)) (bd : list svg) : world :=
    match interpreter_view concrete steps with
    | None => World bd Removed
    | Some ds => let (ps, bd1) := effects time 0 ds boxes bd in World bd1 (Mounted concrete visible time ps)
    end.

  (** E 719-722; 848-852: [config] has the options of the book as texts (EmbedModel.v). *)
  Definition first_form (options : list (str * str)) : bool := EditorModel.truthy (aget str_eqd options (lit "concreteTypes")).
  Definition start (options : list (str * str)) : world := pass (first_form options) false 0 (map (fun _ => []) steps) [].

  (** E 735-742: the pointer comes into the view or leaves it, the button is clicked. *)
  Inductive event := Enter | Leave | Click.
  (** React does nothing if the state stays the same. *)
  Definition on_event (e : event) (w : world) : world :=
    match shown w with
    | Removed => w
    | Mounted c v t ps =>
      let again c' v' := pass c' v' (S t) (map clean_up ps) (body w) in
      match e with
      | Enter => if v then w else again c true
      | Leave => if v then again c false else w
      | Click => again (negb c) v
      end
    end.
  Definition after (options : list (str * str)) (es : list event) : world := fold_left (fun w e => on_event e w) es (start options).
End View.
