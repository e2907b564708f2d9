(** * Model of the letters on the page and what lights up under the pointer

    Puts PageModel.v (tags and highlighting) behind DrawModel.v (what is drawn of an answer).  Sources, in
    frontend/packages/aquascope-editor/src/editor-utils: P = permissions.tsx, B = boundaries.tsx, S = stepper.tsx. *)
From Coq Require Import List Arith.
From Verif Require Import PageModel.
From Verif Require BookModel DrawModel EditorModel.
Import ListNotations.

(** B 66-106, S 95-102 and 245-268: the letters R, W and O with the keys of their loan and move; [t]: the tags of the function, which the
    widgets get as [facts]. *)
Definition letter_targets (t : tags) (ks : DrawModel.keys * DrawModel.keys * DrawModel.keys) : list target :=
  let '((l1, m1), (l2, m2), (l3, m3)) := ks in [Target t AsRead l1 m1; Target t AsWrite l2 m2; Target t AsOwn l3 m3].

(** P 33-46 over the outputs of one answer: the tags and the marks of each. *)
Definition lights (fresh : nat -> nat) (d : EditorModel.doc)
    (outs : list (EditorModel.output DrawModel.stack (list (list (BookModel.str * DrawModel.drawn_row))))) : option (list (tags * list element)) :=
  draw fresh 0 (map (fun x => (d, EditorModel.o_facts x)) outs).
