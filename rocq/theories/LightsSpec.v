(** * What should light up under the pointer *)
From Coq Require Import Ascii String.
From Coq Require Import List Arith.
From Verif Require Import Base PermsModel FactsModel FactsSpec SpansModel SpansSpec CfgModel TellModel TellSpec PageModel PageSpec LightsModel.
From Verif Require BookModel ReportModel ReportSpec StepsModel StepsSpec DrawModel DrawSpec EditorModel UsesModel.
Import ListNotations.

Definition shown_output := EditorModel.output DrawModel.stack (list (list (BookModel.str * DrawModel.drawn_row))).

(** Of the functions [ks], analysed and printed, [k] is on the page with text [d]: with the boundaries and steps of [x], the tags [t] and the
    marks [es]. *)
Definition Painted (ks : list asked) (d : EditorModel.doc) (fresh : nat -> nat) (k : asked) (x : shown_output) (t : tags) (es : list element) : Prop :=
  exists l outs drawn i o, Forall2 (fun k r => function_result (k_fn k) (k_state k) = Some r) ks l /\ Forall ReportSpec.RealResult l /\
    Forall2 DrawSpec.Shows (DrawSpec.analysed l) outs /\ lights fresh d outs = Some drawn /\
    In k ks /\ function_result (k_fn k) (k_state k) = Some (inl o) /\
    nth_error (DrawSpec.analysed l) i = Some o /\ nth_error outs i = Some x /\ nth_error drawn i = Some (t, es).

(** The ranges of the answer stand in the text in the order of the program: character [c] at [pos c]. *)
Definition Follows (d : EditorModel.doc) (f : function) (pos : nat -> nat) : Prop :=
  (forall a b, a < b -> pos a < pos b) /\
  forall r, let w := ReportSpec.range_of (fn_range f r) in
    (EditorModel.r_start w = EditorModel.r_end w -> lo r = hi r) /\
    (forall n, EditorModel.linecol_to_position (EditorModel.r_start w) d = Some n -> n = pos (lo r)) /\
    (forall n, EditorModel.linecol_to_position (EditorModel.r_end w) d = Some n -> n = pos (hi r)).

(** Spans do not end before they begin, and a piece of text is one also without its macros. *)
Definition WellSpanned (env : LoanEnv) : Prop :=
  (forall p, lo (le_hir_span env p) <= hi (le_hir_span env p)) /\
  (forall s, lo s < hi s -> lo (localised env s) < hi (localised env s)).

(** The place [n] of the text is lit. *)
Definition LitAt (es : list element) (n : nat) : Prop := exists a b, Lit es a b /\ a <= n < b.

(** Which loans take a permission: those that borrow mutably that to read, all of them the others. *)
Definition takes (inp : Inp) (name : cls) (l : Loan) : Prop :=
  match name with AsRead => in_loan_mut inp l = true | _ => True end.

(** What is lit is the text of loan [l]: the borrow, and from the first to the last point where it is live the operations at which it is.
    None of it if the borrow itself is in no text. *)
Definition ShowsLoan (env : LoanEnv) (l : Loan) (lit : nat -> Prop) : Prop :=
  let borrow := localised env (le_loan_span env l) in
  (lo borrow = hi borrow -> forall c, ~ lit c) /\
  (lo borrow <> hi borrow -> exists p q, Extent env l p q /\
     (nonempty (extent_start env l p) -> nonempty (le_point_span env q) ->
      forall c, lit c <-> lo borrow <= c < hi borrow \/
        exists s, Highlighted env l (extent_start env l p) (le_point_span env q) s /\ lo (localised env s) <= c < hi (localised env s))).

(** What is lit explains why place [x] does not have the permission at [p]: the newest of the loans that take it, or nothing if there is
    none. *)
Definition ExplainsLoan (inp : Inp) (env : LoanEnv) (name : cls) (x : Place) (p : Point) (lit : nat -> Prop) : Prop :=
  (exists l, names_loan inp (takes inp name) (Some l) x p /\ ShowsLoan env l lit) \/
  (names_loan inp (takes inp name) None x p /\ forall c, ~ lit c).
