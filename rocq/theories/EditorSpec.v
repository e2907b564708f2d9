(** * What the editor should show *)

From Coq Require Import Ascii String.
From Coq Require Import List Arith Bool.
From Verif Require Import Base PermsModel BookModel FrontSpec EditorModel.
Import ListNotations.

(** ** Positions *)

Definition newline : nat := 10.
(** The text of some whole lines followed by the beginning of one. *)
Definition text_before (ls : list line) (a : line) : list nat := flat_map (fun l => l ++ [newline]) ls ++ a.
(** A position in the editor is the number of UTF-16 units before it. *)
Definition position_after (txt : list nat) : nat := length (flat_map utf16 txt).
(** Characters outside the basic plane. *)
Definition astral (l : line) : nat := length (filter (fun c => 256 * 256 <=? c) l).

(** ** Ranges *)

(** The range lies in the document, forward and not empty, from [a] to [b]. *)
Definition Forward (d : doc) (r : crange) (a b : nat) : Prop :=
  linecol_to_position (r_start r) d = Some a /\ linecol_to_position (r_end r) d = Some b /\ a < b.

(** ** Rows *)

(** The facts a row's icon tells of, most important first. *)
Inductive column := Moved | LoanRead | LoanWrite | Live | Uninit.
Definition columns := [Moved; LoanRead; LoanWrite; Live; Uninit].
Definition has (c : column) (d : PData) : Prop :=
  match c with
  | Moved => path_moved d <> None
  | LoanRead => loan_read_refined d <> None
  | LoanWrite => loan_write_refined d <> None
  | Live => is_live d = true
  | Uninit => path_uninitialized d = true
  end.
Definition begins (c : column) (a b : PData) : Prop := ~ has c a /\ has c b.
Definition ends (c : column) (a b : PData) : Prop := has c a /\ ~ has c b.
Definition begin_icon (c : column) : icon :=
  match c with Moved | Uninit => SignOut | LoanRead | LoanWrite => ArrowRight | Live => LevelUp end.
Definition end_icon (c : column) : icon :=
  match c with Moved | Uninit => Recycle | LoanRead | LoanWrite => RotateLeft | Live => LevelDown end.

(** The icon of the first column that changes. *)
Definition IconFor (a b : PData) (i : icon) : Prop :=
  exists before c after, columns = before ++ c :: after /\
    (begins c a b /\ i = begin_icon c \/ ends c a b /\ i = end_icon c) /\
    forall c', In c' before -> ~ begins c' a b /\ ~ ends c' a b.

(** ** Focus *)

(** A matcher selects the path it names, or those its expression describes. *)
Definition Selects (rx : str -> option (str -> bool)) (m : matcher) (path : str) : Prop :=
  match m with
  | Literal s => path = s
  | Rx s => exists f, rx s = Some f /\ f path = true
  end.
(** What is selected in fact: also the paths the name is a part of. *)
Definition SelectsPart (rx : str -> option (str -> bool)) (m : matcher) (path : str) : Prop :=
  match m with
  | Literal s => exists a b, path = a ++ s ++ b
  | Rx s => exists f, rx s = Some f /\ f path = true
  end.
Definition valid (rx : str -> option (str -> bool)) (m : matcher) : Prop :=
  match m with Literal _ => True | Rx s => rx s <> None end.

(** ** What is shown belongs to the code that is shown *)

Section History.
  Context {Bd St Tr : Type} (analyse : doc -> list (option (output Bd St))) (execute : doc -> option Tr).

  (** Every annotation shown is one the analysis gives for the code in the editor,
      at its place. *)
  Definition Current (e : editor Bd St Tr) : Prop :=
    (forall n s, In (n, s) (e_steps e) ->
       exists out p, In (Some out) (analyse (e_doc e)) /\ In (p, s) (o_steps out) /\ linecol_to_position p (e_doc e) = Some n) /\
    (forall n b, In (n, b) (e_boundaries e) ->
       exists out p, In (Some out) (analyse (e_doc e)) /\ In (p, b) (o_boundaries out) /\ linecol_to_position p (e_doc e) = Some n) /\
    (forall x y, In (x, y) (e_marks e) ->
       exists out r, In (Some out) (analyse (e_doc e)) /\ Forward (e_doc e) r x y /\
         (exists k, In (k, r) (loan_points (o_facts out)) \/ In (k, r) (move_points (o_facts out)) \/
            exists rs, In r rs /\ (In (k, rs) (loan_regions (o_facts out)) \/ In (k, rs) (move_regions (o_facts out))))).

  (** The history has no edit between a request for the analysis and the answer, and
      every answer is a success. *)
  Fixpoint orderly (waiting : bool) (evs : list event) : Prop :=
    match evs with
    | [] => True
    | Edit _ :: r => waiting = false /\ orderly waiting r
    | Ask _ :: r => orderly true r
    | Answer ok :: r => ok = true /\ orderly false r
    | Lost :: r => orderly false r
    | _ :: r => orderly waiting r
    end.
End History.

(** The results of the functions whose analysis did not fail, in order. *)
Inductive Succeeded {X} : list (option X) -> list X -> Prop :=
| succeeded_nil : Succeeded [] []
| succeeded_one x l r : Succeeded l r -> Succeeded (Some x :: l) (x :: r)
| succeeded_failed l r : Succeeded l r -> Succeeded (None :: l) r.

(** ** Which request an answer is for *)

(** The text in the editor after a history that begins with [d0]: the last edit. *)
Definition TextAfter (d0 : doc) (evs : list event) (d : doc) : Prop :=
  (exists pre post, evs = pre ++ Edit d :: post /\ forall d', ~ In (Edit d') post) \/
  (d = d0 /\ forall d', ~ In (Edit d') evs).

(** After the history a request for the analysis is under way, sent with the text [d] and
    the settings [c]; then the same for a run. *)
Definition UnderWay (d0 : doc) (evs : list event) (d : doc) (c : cfg) : Prop :=
  exists pre post, evs = pre ++ Ask c :: post /\ TextAfter d0 pre d /\ (forall ok, ~ In (Answer ok) post) /\ ~ In Lost post.
Definition UnderWayRun (d0 : doc) (evs : list event) (d : doc) (c : cfg) : Prop :=
  exists pre post, evs = pre ++ AskRun c :: post /\ TextAfter d0 pre d /\ (forall ok, ~ In (AnswerRun ok) post) /\ ~ In LostRun post.
