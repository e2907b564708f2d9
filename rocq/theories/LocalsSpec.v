(** Specification of which variables are shown. *)
From Coq Require Import String.
From Coq Require Import List Arith Bool.
From Verif Require Import Base TraceModel ValuesModel ReaderModel ReaderSpec LocalsModel.
Import ListNotations.
Local Open Scope string_scope.
Local Open Scope list_scope.

(** The layout of a type in full depth. *)
Inductive vlayout :=
| VScalar (size : nat)
| VAgg (size : nat) (fields : list (nat * vlayout))
| VArr (count : nat) (elem : vlayout).

Fixpoint vsize (l : vlayout) : nat :=
  match l with VScalar s | VAgg s _ => s | VArr n e => n * vsize e end.

(** The byte at offset [o] holds data; the others are padding. *)
Inductive Data : vlayout -> nat -> Prop :=
| data_scalar s o : o < s -> Data (VScalar s) o
| data_field s fs off f o : In (off, f) fs -> Data f o -> Data (VAgg s fs) (off + o)
| data_elem n e k o : k < n -> Data e o -> Data (VArr n e) (k * vsize e + o).

(** Fields and elements are inside. *)
Inductive Fits : vlayout -> Prop :=
| fits_scalar s : Fits (VScalar s)
| fits_agg s fs : (forall off f, In (off, f) fs -> Fits f /\ off + vsize f <= s) -> Fits (VAgg s fs)
| fits_arr n e : Fits e -> Fits (VArr n e).

(** No padding at all. *)
Definition Dense (l : vlayout) : Prop := forall o, o < vsize l -> Data l o.

(** No padding inside of a field, or inside of an element. *)
Definition Tight (l : vlayout) : Prop :=
  match l with
  | VScalar _ => True
  | VAgg _ fs => forall off f, In (off, f) fs -> Dense f
  | VArr _ e => Dense e
  end.

(** The shape that the compiler gives to the layout. *)
Definition shape_of (l : vlayout) : shape :=
  match l with
  | VScalar _ => ShPrimitive
  | VAgg _ fs => ShArbitrary (map (fun x => (fst x, vsize (snd x))) fs)
  | VArr _ _ => ShArray
  end.

(** All data is initialised. *)
Definition Initialised (a : allocation) (l : vlayout) : Prop := forall o, Data l o -> a_init a o = true.

(** The local is a variable of the source, or the return value. *)
Definition SourceVar (f : frame) (i : nat) (l : local) (name : string) : Prop :=
  (i = 0 /\ l_unit l = false /\ name = "(return)") \/
  (i <> 0 /\ In (DPlace i 0) (f_debug f) /\ name = match l_name l with Some n => n | None => "(tmp)" end).

(** It has a value, or is of size 0. *)
Definition HasValue (allocs : nat -> allocation) (l : local) (lay : vlayout) : Prop :=
  match l_state l with
  | Dead => False
  | ImmUninit => l_zst l = true
  | ImmInit => True
  | InMemory a => Initialised (allocs a) lay
  end.

Definition slot_of (l : local) : option nat := match l_state l with InMemory a => Some a | _ => None end.

(** The locals of a frame that are shown, in their order: those for which [P] holds. *)
Inductive Chosen (P : nat -> local -> string -> Prop) : nat -> list local -> list shown -> Prop :=
| chosen_nil i : Chosen P i [] []
| chosen_yes i l r name xs : P i l name -> Chosen P (S i) r xs ->
    Chosen P i (l :: r) (Shown i name (l_place l) (l_ty l) :: xs)
| chosen_no i l r xs : (forall name, ~ P i l name) -> Chosen P (S i) r xs -> Chosen P i (l :: r) xs.
