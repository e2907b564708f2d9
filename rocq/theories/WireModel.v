(** * Model of a trace as JSON

    Sources: crates/aquascope/src/interpreter/mvalue.rs 24-142 and step.rs 38-95, whose types derive
    [serde::Serialize], most enums with [tag = "type", content = "value"]; rustc_utils's [CharRange];
    crates/aquascope_front/src/plugin.rs 134-159, which prints [Ok] of the trace. *)
From Coq Require Import Ascii String.
From Coq Require Import List Arith ZArith Bool.
From Verif Require Import Base ValuesModel ReaderModel BookModel RunModel LookModel.
Import ListNotations.
Local Open Scope string_scope.
Local Open Scope list_scope.

(** A variant with content, and one without (serde: adjacently tagged enums). *)
Definition tagged (t : string) (j : json) : json := JObj [(lit "type", JStr (lit t)); (lit "value", j)].
Definition tag (t : string) : json := JObj [(lit "type", JStr (lit t))].
(** [Option] *)
Definition jopt {A} (f : A -> json) (o : option A) : json := match o with Some a => f a | None => JNull end.
Definition jtext (s : string) : json := JStr (lit s).

(** mvalue.rs 32-39 [MPathSegment] *)
Definition jseg (s : seg) : json :=
  match s with
  | Field i => tagged "Field" (JNum i)
  | Index i => tagged "Index" (JNum i)
  | Subslice a b => tagged "Subslice" (JArr [JNum a; JNum b])
  end.
(** 24-30 [MMemorySegment] *)
Definition jsegment (sg : nat * string + nat) : json :=
  match sg with
  | inl (frame, local) => tagged "Stack" (JObj [(lit "frame", JNum frame); (lit "local", jtext local)])
  | inr index => tagged "Heap" (JObj [(lit "index", JNum index)])
  end.
(** 41-46 [MPath] *)
Definition jpath (sg : nat * string + nat) (parts : list seg) : json :=
  JObj [(lit "segment", jsegment sg); (lit "parts", JArr (map jseg parts))].
(** 95-112 [MHeapAllocKind], from [HeapAllocKind]: the type of the elements is left out. *)
Definition jkind (k : hkind) : json :=
  match k with
  | HString n => tagged "String" (JObj [(lit "len", JNum n)])
  | HVec n _ => tagged "Vec" (JObj [(lit "len", JNum n)])
  | HBox => tag "Box"
  end.

Section Values.
(** The digits and the power of ten that [ryu] finds for a double, given by its bits. *)
Variable short : Z -> bool * nat * Z.

(** serde_json writes infinities and NaN as [null]. *)
Definition jfloat (z : Z) : json :=
  if ((z / 2 ^ 52) mod 2 ^ 11 =? 2047)%Z then JNull else let '(b, m, e) := short z in JReal b m e.
Definition jint (z : Z) : json := if (z <? 0)%Z then JNeg (pred (Z.to_nat (- z))) else JNum (Z.to_nat z).
Definition jscalar (k : prim) (z : Z) : json :=
  match k with
  | PBool => tagged "Bool" (JBool (negb (z =? 0)%Z))
  | PChar => tagged "Char" (JNum (Z.to_nat z))
  | PUint => tagged "Uint" (JNum (Z.to_nat z))
  | PInt => tagged "Int" (jint z)
  | PFloat => tagged "Float" (jfloat z)
  end.

(** 114-142 [MValue], 50-56 [Abbreviated] *)
Fixpoint jvalue (v : mvalue) : json :=
  match v with
  | MScalar k z => jscalar k z
  | MTuple vs => tagged "Tuple" (JArr (map jvalue vs))
  | MArray (AllOf vs) => tagged "Array" (tagged "All" (JArr (map jvalue vs)))
  | MArray (Only vs x) => tagged "Array" (tagged "Only" (JArr [JArr (map jvalue vs); jvalue x]))
  | MAdt name variant fields kind =>
    tagged "Adt" (JObj [
      (lit "name", jtext name);
      (lit "variant", jopt jtext variant);
      (lit "fields", JArr (map (fun f => JArr [jtext (fst f); jvalue (snd f)]) fields));
      (lit "alloc_kind", jopt jkind kind)])
  | MPtr sg parts range => tagged "Pointer" (JObj [(lit "path", jpath sg parts); (lit "range", jopt JNum range)])
  | MUnalloc a => tagged "Unallocated" (JObj [(lit "alloc_id", jopt JNum a)])
  end.

(** ** Traces *)

(** rustc_utils's [CharRange] (as in crates/aquascope/tests/snapshots/interpreter__basic.test.snap): line and column of
    the start and of the end, and the number of the file. *)
Definition wrange := ((nat * nat) * (nat * nat) * nat)%type.
(** step.rs 46-95 [MFrame], [MStep], [MResult], [MTrace] *)
Record wframe := WFrame { w_name : string; w_body : wrange; w_loc : wrange; w_locals : list mlocal }.
Record wstep := WStep { w_frames : list wframe; w_heap : list mvalue }.
Inductive wresult := WSuccess | WUseAfterFree (alloc : nat) | WOther (message : string).
Record wtrace := WTrace { w_steps : list wstep; w_result : wresult }.

Definition jpos (p : nat * nat) : json := JObj [(lit "line", JNum (fst p)); (lit "column", JNum (snd p))].
Definition jrange (r : wrange) : json :=
  let '(a, b, f) := r in
  JObj [(lit "start", jpos a); (lit "end", jpos b); (lit "filename", JObj [(lit "private_use_as_methods_instead", JNum f)])].
Definition jlocal (l : mlocal) : json :=
  JObj [(lit "name", jtext (l_name l)); (lit "value", jvalue (l_value l));
        (lit "moved_paths", JArr (map (fun p => JArr (map jseg p)) (l_moved l)))].
Definition jframe (f : wframe) : json :=
  JObj [(lit "name", jtext (w_name f)); (lit "body_span", jrange (w_body f)); (lit "location", jrange (w_loc f));
        (lit "locals", JArr (map jlocal (w_locals f)))].
Definition jstep (s : wstep) : json :=
  JObj [(lit "stack", JObj [(lit "frames", JArr (map jframe (w_frames s)))]);
        (lit "heap", JObj [(lit "locations", JArr (map jvalue (w_heap s)))])].
Definition jresult (r : wresult) : json :=
  match r with
  | WSuccess => tag "Success"
  | WUseAfterFree a => tagged "Error" (tagged "PointerUseAfterFree" (JObj [(lit "alloc_id", JNum a)]))
  | WOther m => tagged "Error" (tagged "Other" (jtext m))
  end.
Definition jtrace (t : wtrace) : json :=
  JObj [(lit "steps", JArr (map jstep (w_steps t))); (lit "result", jresult (w_result t))].
(** plugin.rs 157-159, with [Result]'s variants. *)
Definition answer (t : wtrace) : json := JObj [(lit "Ok", jtrace t)].
End Values.

(** What LookModel draws of a step, and the allocation of an error (frontend/packages/aquascope-editor/src/editor-utils/interpreter.tsx
    745-752, 324-330: only at the last step). *)
Definition snap (s : wstep) : msnap := MSnap (map (fun f => MFrame (w_name f) (w_locals f)) (w_frames s)) (w_heap s).
Definition error_at (t : wtrace) (i : nat) : option nat :=
  match w_result t with WUseAfterFree a => if Nat.eqb (S i) (length (w_steps t)) then Some a else None | _ => None end.
