(** * Model of a marked program of a book on its page

    Puts together the element of a block (EmbedModel.v) and the states of its execution (ScreenModel.v).
    Sources: frontend/packages/aquascope-editor/src/lib.tsx (L),
    frontend/packages/aquascope-embed/src/main.tsx (W). *)
From Coq Require Import Ascii String.
From Coq Require Import List Arith Bool ZArith.
From Verif Require Import Base BookModel RunModel EmbedModel.
From Verif Require EditorModel WireModel ScreenModel.
Import ListNotations.
Local Open Scope list_scope.

(** L 138-142, W 231-240: the document of an editor that is made with a text.  CodeMirror's [EditorState.create] splits it
    at line feeds, carriage returns and pairs of them. *)
Fixpoint lines_in (cur s : str) : list str :=
  match s with
  | [] => [rev cur]
  | c :: r =>
    if Nat.eqb c 10 then rev cur :: lines_in [] r
    else if Nat.eqb c 13 then rev cur :: lines_in [] (match r with d :: r' => if Nat.eqb d 10 then r' else r | [] => r end)
    else lines_in (c :: cur) r
  end.
Definition text_of (s : str) : EditorModel.doc := lines_in [] s.

(** L 279-329: the responses that are rendered as executions. *)
Definition executions (e : embed) : list json :=
  flat_map (fun x => if str_eqd (fst x) (lit "interpreter") then match snd x with Some j => [j] | None => [] end else []) (m_rendered e).

(** L 258-277, 324-326: what is shown of the trace [t] in a response, in the editor of the block and with its annotations. *)
Definition lesson (e : embed) (n : nat) (ft : Z -> list nat) (c : bool) (t : WireModel.wtrace) :=
  ScreenModel.screen (text_of (m_code e)) (page_states e) n ft c t.
