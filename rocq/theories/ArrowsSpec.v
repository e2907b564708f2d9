(** * What the arrows of a page should be *)
From Coq Require Import String.
From Coq Require Import List Arith Bool ZArith QArith.
From Verif Require Import LookModel ArrowsModel.
Import ListNotations.
Local Open Scope nat_scope.
Local Open Scope list_scope.

(** [Pointers l ps]: the pointers drawn in [l], from left to right and from top to bottom, each
    with the cell and the end of the range it points to. *)
Inductive Pointers : look -> list (aim * option aim) -> Prop :=
| po_bool b : Pointers (LBool b) []
| po_number z : Pointers (LNumber z) []
| po_float t : Pointers (LFloat t) []
| po_char u : Pointers (LChar u) []
| po_dead e : Pointers (LDead e) []
| po_dot d r : Pointers (LDot d r) [(d, r)]
| po_fat d r n : Pointers (LFat d r n) [(d, r)]
| po_row cs ps : Forall2 Pointers cs ps -> Pointers (LRow cs) (concat ps)
| po_cells cs ps : Forall2 Pointers cs ps -> Pointers (LCells cs None) (concat ps)
| po_long cs ps x px : Forall2 Pointers cs ps -> Pointers x px -> Pointers (LCells cs (Some x)) (concat ps ++ px)
| po_one sm n x px : Pointers x px -> Pointers (LOne sm n x) px
| po_named_row n cs ps : Forall2 Pointers cs ps -> Pointers (LNamedRow n cs) (concat ps)
| po_named n rows ps : Forall2 Pointers (map snd rows) ps -> Pointers (LNamed n rows) (concat ps).

(** What an arrow comes from: the part of the memory, whether the variable is moved, the cell and
    the range. *)
Definition origin (a : arrow) : region * bool * aim * option aim := (ar_from a, ar_moved a, ar_to a, ar_range a).

(** The pointers of a row of the stack, and of a row of the heap. *)
Definition RowOrigins (row : string * bool * look) (os : list (region * bool * aim * option aim)) : Prop :=
  exists ps, Pointers (snd row) ps /\ os = map (fun p => (Stack, snd (fst row), fst p, snd p)) ps.
Definition HeapOrigins (l : look) (os : list (region * bool * aim * option aim)) : Prop :=
  exists ps, Pointers l ps /\ os = map (fun p => (Heap, false, fst p, snd p)) ps.

(** ** Kinds of ends *)
Definition OnStack (d : aim) : Prop := exists x ps, d = (inl x, ps).
Definition OnHeap (d : aim) : Prop := exists h ps, d = (inr h, ps).
Definition Element (d : aim) : Prop := exists r ps i, d = (r, ps ++ [AtIndex i]).

(** From the stack to the stack. *)
Definition Inside (a : arrow) : Prop := ar_from a = Stack /\ OnStack (ar_to a).
(** An arrow of which the end is to be spaced: to one thing that is no element, and not inside the stack. *)
Definition Spaced (a : arrow) : Prop := ar_range a = None /\ ~ Inside a /\ ~ Element (ar_to a).

(** How many of these arrows go to [d]. *)
Definition to_cell (d : aim) (l : list arrow) : nat := count_occ aim_eqd (map ar_to l) d.

(** The end of an arrow at a cell is where another's is not: the points differ. *)
Definition SamePoint (x y : anchor) : Prop :=
  match x, y with
  | Point a (Some b), Point a' (Some b') => (a == a')%Q /\ (b == b')%Q
  | Point a None, Point a' None => (a == a')%Q
  | Whole, Whole => True
  | Area, Area => True
  | _, _ => False
  end.

(** An arrow from the stack to the heap. *)
Definition Across (a : arrow) : Prop := ar_from a = Stack /\ OnHeap (ar_to a).
Definition across (a : arrow) : bool := match ar_from a, fst (ar_to a) with Stack, inr _ => true | _, _ => false end.
