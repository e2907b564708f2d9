(** * Model of the arrows on the page

    Source: E = frontend/packages/aquascope-editor/src/editor-utils/interpreter.tsx 455-668
    [renderArrows], and misc.tsx 59-78.  LookModel.v has the pointers that are drawn; here is how
    their arrows look and where they end.  Simplifications: the cells at which arrows end exist
    (C52), and LeaderLine draws what it is asked to; numbers are exact. *)
From Coq Require Import String.
From Coq Require Import List Arith Bool ZArith QArith.
From Verif Require Import Base ValuesModel ReaderModel LookModel.
Import ListNotations.
Local Open Scope nat_scope.
Local Open Scope list_scope.

(** ** The pointers *)

(** E 465: [querySelectorAll(".pointer")], the pointers in the order of the document. *)
Fixpoint dots (l : look) : list (aim * option aim) :=
  match l with
  | LBool _ | LNumber _ | LFloat _ | LChar _ | LDead _ => []
  | LDot d r | LFat d r _ => [(d, r)]
  | LRow cs | LNamedRow _ cs => flat_map dots cs
  | LCells cs o => flat_map dots cs ++ match o with Some x => dots x | None => [] end
  | LOne _ _ x => dots x
  | LNamed _ rows => flat_map (fun r => dots (snd r)) rows
  end.

(** E 482-484 *)
Inductive region := Stack | Heap.
(** The position of an anchor's connection. *)
Inductive socket := SLeft | SRight | SBottom.

(** A pointer: where it is, whether it is in the row of a moved variable (589, [closest(".moved")]),
    and where it points to. *)
Record source := Source { s_region : region; s_moved : bool; s_dst : aim; s_range : option aim }.

(** E 398-429: rows of the stack, then of the heap.  *)
Definition sources (pic : list (string * list (string * bool * look)) * list look) : list source :=
  flat_map (fun fr => flat_map (fun row => map (fun d => Source Stack (snd (fst row)) (fst d) (snd d)) (dots (snd row))) (snd fr)) (fst pic)
  ++ flat_map (fun l => map (fun d => Source Heap false (fst d) (snd d)) (dots l)) (snd pic).

(** The region of a cell: its class begins with it. *)
Definition region_of (a : aim) : region := match fst a with inl _ => Stack | inr _ => Heap end.

(** [dataset.connector]: right for a variable (358), left for an object (418), bottom for an element (66); the
    cells of fields have none. *)
Definition connector (a : aim) : option socket :=
  match rev (snd a) with
  | [] => match region_of a with Stack => Some SRight | Heap => Some SLeft end
  | AtIndex _ :: _ => Some SBottom
  | AtField _ :: _ => None
  end.

Definition step_eqd : forall x y : step, {x = y} + {x <> y}.
Proof. decide equality; apply Nat.eq_dec. Defined.
Definition aim_eqd : forall x y : aim, {x = y} + {x <> y}.
Proof. decide equality; [apply (list_eq_dec step_eqd)|]. decide equality; [|apply Nat.eq_dec]. decide equality; [apply string_dec|apply Nat.eq_dec]. Defined.

(** E 499-520: the pointers with how many before had the same end, and [dstCounts] after them. *)
Fixpoint numbered (counts : list (aim * nat)) (l : list source) : list (source * nat) * list (aim * nat) :=
  match l with
  | [] => ([], counts)
  | s :: r =>
    let i := match aget aim_eqd counts (s_dst s) with Some i => i | None => 0 end in
    let (xs, cs) := numbered (aset aim_eqd counts (s_dst s) (S i)) r in
    ((s, i) :: xs, cs)
  end.

(** ** Groups *)

(** E 525: [_.groupBy(pointers, "group")].  The value of [group] is an object, and the name of a
    property is a string, which is the same for all plain objects. *)
Definition object_string (g : region * region) : string := "[object Object]".

Fixpoint group_by {A} (key : A -> string) (l : list A) : list (string * list A) :=
  match l with
  | [] => []
  | x :: r =>
    let gs := group_by key r in
    match aget string_dec gs (key x) with
    | Some xs => (key x, x :: xs) :: adel string_dec gs (key x)
    | None => (key x, [x]) :: gs
    end
  end.

(** ** One arrow *)

(** misc.tsx 59-78 [evenlySpaceAround] and [lerp]; [None]: [index / 0] is not a number or infinite, and with the
    range 0 the result is not a number. *)
Definition evenly_space_around (center spacing : Q) (index total : nat) : option Q :=
  let range := (inject_Z (Z.of_nat total) * spacing)%Q in
  let min := (center - range / 2)%Q in
  let max := (center + range / 2)%Q in
  match total with
  | 0 => None
  | S _ => Some ((max - min) * (inject_Z (Z.of_nat index) / inject_Z (Z.of_nat total)) + min)%Q
  end.

(** Where an arrow ends: below a range of elements; at a point of the cell, in percent; at the
    cell. *)
Inductive anchor := Area | Point (x : Q) (y : option Q) | Whole.

Record arrow := Arrow {
  ar_from : region; ar_moved : bool; ar_to : aim; ar_range : option aim;
  ar_start : socket; ar_end : option socket; ar_anchor : anchor;
  ar_color : nat; ar_pale : bool; ar_gravity : option (Z * Z) }.

(** E 433-453 [PALETTE]: six colors each for light and dark pages. *)
Definition PALETTE : nat := 6.

Definition is_heap (r : region) : bool := match r with Heap => true | Stack => false end.

(** E 533-625 [renderPtr]; [i] is the number in the group. *)
Definition render_ptr (counts : list (aim * nat)) (p : source * nat) (i : nat) : arrow :=
  let s := fst p in
  let from := s_region s in
  let to := region_of (s_dst s) in
  let end_socket := connector (s_dst s) in
  let at_bottom := match end_socket with Some SBottom => true | _ => false end in
  let total := match aget aim_eqd counts (s_dst s) with Some n => n | None => 0 end in
  Arrow from (s_moved s) (s_dst s) (s_range s)
    (if is_heap from && negb (is_heap to) then SLeft else SRight)
    end_socket
    (match s_range s with
     | Some _ => Area
     | None =>
       if negb (is_heap from) && negb (is_heap to) then Point 100 (Some 75%Q)
       else if at_bottom then Whole
       else Point (if is_heap to then 0 else 100) (evenly_space_around 50 30 (snd p) (total - 1))
     end)
    (i mod PALETTE)
    (s_moved s)
    (if negb (is_heap from) && is_heap to then Some (60, 100 - Z.of_nat i * 10)%Z else None).

(** E 629-631 *)
Definition render_arrows (pic : list (string * list (string * bool * look)) * list look) : list arrow :=
  let (ps, counts) := numbered [] (sources pic) in
  flat_map (fun g => map (fun '(i, p) => render_ptr counts p i) (combine (seq 0 (length (snd g))) (snd g)))
    (group_by (fun p : source * nat => object_string (s_region (fst p), region_of (s_dst (fst p)))) ps).
