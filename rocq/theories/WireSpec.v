(** * The form of a trace, as the page's TypeScript declares it

    frontend/packages/aquascope-editor/src/bindings (generated from the Rust types): a type is a union of objects
    with the properties [type] and [value], or an object with some properties; [null] stands for an option that is
    missing.  The order of the properties does not matter. *)
From Coq Require Import Ascii String.
From Coq Require Import List Arith ZArith.
From Verif Require Import Base ValuesModel ReaderModel BookModel RunModel LookModel WireModel.
Import ListNotations.
Local Open Scope string_scope.
Local Open Scope list_scope.

(** [j.k] is [x]; an array, one by one; something or [null]. *)
Definition Member (k : string) (j x : json) : Prop := exists l, j = JObj l /\ aget str_eqd l (lit k) = Some x.
Definition Items {A} (R : json -> A -> Prop) (j : json) (l : list A) : Prop := exists js, j = JArr js /\ Forall2 R js l.
Definition Opt {A} (R : json -> A -> Prop) (j : json) (o : option A) : Prop :=
  match o with None => j = JNull | Some a => R j a end.
(** The variant [t], with the content [x]. *)
Definition Tagged (t : string) (j x : json) : Prop := Member "type" j (JStr (lit t)) /\ Member "value" j x.

Definition TextC (j : json) (s : string) : Prop := j = JStr (lit s).
Definition NatC (j : json) (n : nat) : Prop := j = JNum n.

(** MPathSegment.ts, MMemorySegment.ts, MHeapAllocKind.ts *)
Definition SegC (j : json) (s : seg) : Prop :=
  match s with
  | Field i => Tagged "Field" j (JNum i)
  | Index i => Tagged "Index" j (JNum i)
  | Subslice a b => Tagged "Subslice" j (JArr [JNum a; JNum b])
  end.
Definition SegmentC (j : json) (sg : nat * string + nat) : Prop :=
  match sg with
  | inl (frame, local) => exists b, Tagged "Stack" j b /\ Member "frame" b (JNum frame) /\ Member "local" b (JStr (lit local))
  | inr i => exists b, Tagged "Heap" j b /\ Member "index" b (JNum i)
  end.
Definition KindC (j : json) (k : hkind) : Prop :=
  match k with
  | HString n => exists b, Tagged "String" j b /\ Member "len" b (JNum n)
  | HVec n _ => exists b, Tagged "Vec" j b /\ Member "len" b (JNum n)
  | HBox => Member "type" j (JStr (lit "Box"))
  end.

(** A double, by its bits, that is infinite or NaN. *)
Definition NotFinite (z : Z) : Prop := ((z / 2 ^ 52) mod 2 ^ 11 = 2047)%Z.

(** MValue.ts, Abbreviated.ts, MPath.ts.  [real] is the double (by its bits) that is closest to a decimal number. *)
Inductive Conforms (real : bool -> nat -> Z -> Z) : json -> mvalue -> Prop :=
| co_bool j (b : bool) : Tagged "Bool" j (JBool b) -> Conforms real j (MScalar PBool (if b then 1 else 0))
| co_char j n : Tagged "Char" j (JNum n) -> Conforms real j (MScalar PChar (Z.of_nat n))
| co_uint j n : Tagged "Uint" j (JNum n) -> Conforms real j (MScalar PUint (Z.of_nat n))
| co_int j n : Tagged "Int" j (JNum n) -> Conforms real j (MScalar PInt (Z.of_nat n))
| co_neg j n : Tagged "Int" j (JNeg n) -> Conforms real j (MScalar PInt (- Z.of_nat (S n)))
| co_float j b m e : Tagged "Float" j (JReal b m e) -> ~ NotFinite (real b m e) -> Conforms real j (MScalar PFloat (real b m e))
| co_null j z : Tagged "Float" j JNull -> NotFinite z -> Conforms real j (MScalar PFloat z)
| co_tuple j x vs : Tagged "Tuple" j x -> Items (Conforms real) x vs -> Conforms real j (MTuple vs)
| co_all j x y vs : Tagged "Array" j x -> Tagged "All" x y -> Items (Conforms real) y vs -> Conforms real j (MArray (AllOf vs))
| co_only j x y z vs v : Tagged "Array" j x -> Tagged "Only" x (JArr [y; z]) -> Items (Conforms real) y vs -> Conforms real z v ->
    Conforms real j (MArray (Only vs v))
| co_adt j b xj fj kj name variant fields kind : Tagged "Adt" j b -> Member "name" b (JStr (lit name)) ->
    Member "variant" b xj -> Opt TextC xj variant ->
    Member "fields" b fj -> Items (fun p f => exists u, p = JArr [JStr (lit (fst f)); u] /\ Conforms real u (snd f)) fj fields ->
    Member "alloc_kind" b kj -> Opt KindC kj kind ->
    Conforms real j (MAdt name variant fields kind)
| co_ptr j b p sj pj rj sg parts range : Tagged "Pointer" j b -> Member "path" b p -> Member "segment" p sj -> SegmentC sj sg ->
    Member "parts" p pj -> Items SegC pj parts -> Member "range" b rj -> Opt NatC rj range ->
    Conforms real j (MPtr sg parts range)
| co_dead j b aj a : Tagged "Unallocated" j b -> Member "alloc_id" b aj -> Opt NatC aj a -> Conforms real j (MUnalloc a).

(** MLocal.ts, CharRange.ts, MFrame.ts, MStep.ts, MStack.ts, MHeap.ts, MResult.ts, MUndefinedBehavior.ts, MTrace.ts *)
Definition PosC (j : json) (p : nat * nat) : Prop := Member "line" j (JNum (fst p)) /\ Member "column" j (JNum (snd p)).
Definition RangeC (j : json) (r : wrange) : Prop :=
  let '(a, b, f) := r in exists x y z, Member "start" j x /\ PosC x a /\ Member "end" j y /\ PosC y b /\
    Member "filename" j z /\ Member "private_use_as_methods_instead" z (JNum f).
Definition LocalC real (j : json) (l : mlocal) : Prop := exists v m,
  Member "name" j (JStr (lit (l_name l))) /\ Member "value" j v /\ Conforms real v (l_value l) /\
  Member "moved_paths" j m /\ Items (Items SegC) m (l_moved l).
Definition FrameC real (j : json) (f : wframe) : Prop := exists b p l,
  Member "name" j (JStr (lit (w_name f))) /\ Member "body_span" j b /\ RangeC b (w_body f) /\
  Member "location" j p /\ RangeC p (w_loc f) /\ Member "locals" j l /\ Items (LocalC real) l (w_locals f).
Definition StepC real (j : json) (s : wstep) : Prop := exists st fs h ls,
  Member "stack" j st /\ Member "frames" st fs /\ Items (FrameC real) fs (w_frames s) /\
  Member "heap" j h /\ Member "locations" h ls /\ Items (Conforms real) ls (w_heap s).
Definition ResultC (j : json) (r : wresult) : Prop :=
  match r with
  | WSuccess => Member "type" j (JStr (lit "Success"))
  | WUseAfterFree a => exists x y, Tagged "Error" j x /\ Tagged "PointerUseAfterFree" x y /\ Member "alloc_id" y (JNum a)
  | WOther m => exists x, Tagged "Error" j x /\ Tagged "Other" x (JStr (lit m))
  end.
Definition TraceC real (j : json) (t : wtrace) : Prop := exists ss r,
  Member "steps" j ss /\ Items (StepC real) ss (w_steps t) /\ Member "result" j r /\ ResultC r (w_result t).

(** ** The same value *)

(** [Alike R]: numbers are related by [R], doubles are the same or both not finite, the type of the elements of
    a vector may differ, all else is the same. *)
Definition SameScalar (R : Z -> Z -> Prop) (k : prim) (z z' : Z) : Prop :=
  match k with
  | PUint | PInt => R z z'
  | PFloat => z = z' \/ NotFinite z /\ NotFinite z'
  | PBool | PChar => z = z'
  end.
Definition SameKind (k k' : option hkind) : Prop :=
  k = k' \/ exists n el el', k = Some (HVec n el) /\ k' = Some (HVec n el').
Inductive Alike (R : Z -> Z -> Prop) : mvalue -> mvalue -> Prop :=
| al_scalar k z z' : SameScalar R k z z' -> Alike R (MScalar k z) (MScalar k z')
| al_tuple vs ws : Forall2 (Alike R) vs ws -> Alike R (MTuple vs) (MTuple ws)
| al_all vs ws : Forall2 (Alike R) vs ws -> Alike R (MArray (AllOf vs)) (MArray (AllOf ws))
| al_only vs ws v w : Forall2 (Alike R) vs ws -> Alike R v w -> Alike R (MArray (Only vs v)) (MArray (Only ws w))
| al_adt n x fs gs k k' : Forall2 (fun f g => fst f = fst g /\ Alike R (snd f) (snd g)) fs gs -> SameKind k k' ->
    Alike R (MAdt n x fs k) (MAdt n x gs k')
| al_ptr sg ps r : Alike R (MPtr sg ps r) (MPtr sg ps r)
| al_dead a : Alike R (MUnalloc a) (MUnalloc a).

Definition AlikeLocal R (l l' : mlocal) : Prop := l_name l = l_name l' /\ Alike R (l_value l) (l_value l') /\ l_moved l = l_moved l'.
Definition AlikeFrame R (f f' : wframe) : Prop :=
  w_name f = w_name f' /\ w_body f = w_body f' /\ w_loc f = w_loc f' /\ Forall2 (AlikeLocal R) (w_locals f) (w_locals f').
Definition AlikeStep R (s s' : wstep) : Prop :=
  Forall2 (AlikeFrame R) (w_frames s) (w_frames s') /\ Forall2 (Alike R) (w_heap s) (w_heap s').
Definition AlikeTrace R (t t' : wtrace) : Prop :=
  Forall2 (AlikeStep R) (w_steps t) (w_steps t') /\ w_result t = w_result t'.

(** ** Values that a program has *)

(** Scalars are of their types, and no index or length is as large as 2^53. *)
Definition Ranged (k : prim) (z : Z) : Prop :=
  match k with
  | PBool => z = 0%Z \/ z = 1%Z
  | PChar => (0 <= z < 17 * 2 ^ 16)%Z
  | PUint => (0 <= z < 2 ^ 64)%Z
  | PInt => (- 2 ^ 63 <= z < 2 ^ 63)%Z
  | PFloat => (0 <= z < 2 ^ 64)%Z
  end.
Definition Size (n : nat) : Prop := (Z.of_nat n < 2 ^ 53)%Z.
Definition SizeSeg (s : seg) : Prop := match s with Field i | Index i => Size i | Subslice a b => Size a /\ Size b end.
Definition SizeOpt (o : option nat) : Prop := match o with Some n => Size n | None => True end.
Inductive Real : mvalue -> Prop :=
| re_scalar k z : Ranged k z -> Real (MScalar k z)
| re_tuple vs : Forall Real vs -> Real (MTuple vs)
| re_all vs : Forall Real vs -> Real (MArray (AllOf vs))
| re_only vs v : Forall Real vs -> Real v -> Real (MArray (Only vs v))
| re_adt n x fs k : Forall (fun f => Real (snd f)) fs ->
    (forall l, k = Some (HString l) \/ (exists el, k = Some (HVec l el)) -> Size l) -> Real (MAdt n x fs k)
| re_ptr sg ps r : match sg with inl (f, _) => Size f | inr i => Size i end -> Forall SizeSeg ps -> SizeOpt r -> Real (MPtr sg ps r)
| re_dead a : SizeOpt a -> Real (MUnalloc a).
Definition SizeRange (r : wrange) : Prop :=
  let '(a, b, f) := r in Size (fst a) /\ Size (snd a) /\ Size (fst b) /\ Size (snd b) /\ Size f.
Definition RealLocal (l : mlocal) : Prop := Real (l_value l) /\ Forall (Forall SizeSeg) (l_moved l).
Definition RealFrame (f : wframe) : Prop := SizeRange (w_body f) /\ SizeRange (w_loc f) /\ Forall RealLocal (w_locals f).
Definition RealStep (s : wstep) : Prop := Forall RealFrame (w_frames s) /\ Forall Real (w_heap s).
Definition RealTrace (t : wtrace) : Prop :=
  Forall RealStep (w_steps t) /\ forall a, w_result t = WUseAfterFree a -> Size a.

(** What is assumed of the texts of doubles: the number that is written has the double as its closest. *)
Definition Prints (short : Z -> bool * nat * Z) (real : bool -> nat -> Z -> Z) : Prop :=
  forall z, (0 <= z < 2 ^ 64)%Z -> ~ NotFinite z -> let '(b, m, e) := short z in real b m e = z.

(** ** How deep a value is *)

(** [Structs v n]: there are [n] structs one in another.  [Levels v n]: likewise for tuples, arrays and structs. *)
Inductive Structs : mvalue -> nat -> Prop :=
| st_one n x fs k : Structs (MAdt n x fs k) 1
| st_more n x fs k f u i : In (f, u) fs -> Structs u i -> Structs (MAdt n x fs k) (S i).
Inductive Levels : mvalue -> nat -> Prop :=
| lv_any v : Levels v 0
| lv_tuple vs v n : In v vs \/ vs = [] /\ n = 0 -> Levels v n -> Levels (MTuple vs) (S n)
| lv_all vs v n : In v vs \/ vs = [] /\ n = 0 -> Levels v n -> Levels (MArray (AllOf vs)) (S n)
| lv_only vs u v n : In v (u :: vs) -> Levels v n -> Levels (MArray (Only vs u)) (S n)
| lv_adt a x fs k v n : In v (map snd fs) \/ fs = [] /\ n = 0 -> Levels v n -> Levels (MAdt a x fs k) (S n).
(** The value is shown somewhere in the trace: of a variable, or on the heap. *)
Definition OfVariable (t : wtrace) (v : mvalue) : Prop := exists s f l, In s (w_steps t) /\ In f (w_frames s) /\ In l (w_locals f) /\ l_value l = v.
Definition OnHeap (t : wtrace) (v : mvalue) : Prop := exists s, In s (w_steps t) /\ In v (w_heap s).
