(** * Model of what a value looks like on the page

    Source: E = frontend/packages/aquascope-editor/src/editor-utils/interpreter.tsx.
    FrontModel.v has the cells and arrows of a state; here is what stands in the cells.  A
    function that may throw returns [None] when it does. *)
From Coq Require Import String.
From Coq Require Import List Arith Bool ZArith.
From Verif Require Import Base ValuesModel ReaderModel NumbersModel.
Import ListNotations.
Local Open Scope string_scope.
Local Open Scope list_scope.

(** The class of the cell at which an arrow ends: the object and the parts (E 228-262).
    Simplification: a list and not yet joined by dashes. *)
Inductive step := AtField (i : nat) | AtIndex (i : nat).
Definition aim := ((nat * string + nat) * list step)%type.

(** What is drawn, the elements of the page without their classes.  [LNumber] is the number whose
    digits are shown; [LFloat] the text of a float; [LChar] a UTF-16 unit; [LDead] the sign for a
    value that is not there, perhaps as the one of the error; [LDot] a pointer and
    where its arrow ends; [LFat] a pointer with its length (270-282); [LRow] the table of a tuple;
    [LCells] the table of an array, with what comes after the dots; [LOne] a name with one value
    in parentheses or after a slash; [LNamedRow] and [LNamed] a name and a table. *)
Inductive look :=
| LBool (b : bool)
| LNumber (z : Z)
| LFloat (text : list nat)
| LChar (unit : Z)
| LDead (error : bool)
| LDot (dst : aim) (range : option aim)
| LFat (dst : aim) (range : option aim) (len : nat)
| LRow (cells : list look)
| LCells (cells : list look) (after : option look)
| LOne (small : bool) (name : string) (inner : look)
| LNamedRow (name : string) (cells : list look)
| LNamed (name : string) (rows : list (string * look)).

Definition obind {A B} (o : option A) (f : A -> option B) : option B := match o with Some a => f a | None => None end.
Fixpoint all_some {T} (l : list (option T)) : option (list T) :=
  match l with
  | [] => Some []
  | None :: _ => None
  | Some x :: r => option_map (cons x) (all_some r)
  end.

(** E 109-116 [read_field]: the first field of that name, which must be a struct; [.value] of anything
    else has no [fields], so that the next access throws. *)
Definition read_field (fs : list (string * mvalue)) (k : string) : option (list (string * mvalue)) :=
  match aget string_dec fs k with Some (MAdt _ _ fs' _) => Some fs' | _ => None end.
(** E 118-121 [read_unique], 123-128 [read_vec], and [non_null.fields[0][1]] *)
Definition read_unique (fs : list (string * mvalue)) := read_field fs "pointer".
Definition read_vec (fs : list (string * mvalue)) :=
  obind (read_field fs "buf") (fun a => obind (read_field a "inner") (fun b => obind (read_field b "ptr") read_unique)).
Definition first_field (fs : list (string * mvalue)) : option mvalue := match fs with (_, v) :: _ => Some v | [] => None end.

(** E 130-149 [specialPtr]: throws, is undefined, or is the pointer. *)
Definition special_ptr (fs : list (string * mvalue)) (kind : option hkind) : option (option mvalue) :=
  match kind with
  | None => Some None
  | Some (HString _) => option_map Some (obind (obind (read_field fs "vec") read_vec) first_field)
  | Some (HVec _ _) => option_map Some (obind (read_vec fs) first_field)
  | Some HBox => option_map Some (obind (obind (read_field fs "0") read_unique) first_field)
  end.

(** E 187-190 [smallInside] *)
Definition small_inside (concrete : bool) (v : mvalue) : option bool :=
  match v with
  | MAdt _ _ fs k => if concrete then Some false
                     else option_map (fun o => match o with Some _ => true | None => false end) (special_ptr fs k)
  | _ => Some false
  end.

(** E 228-262 [PointerView]: the two attributes. *)
Definition seg_step (s : seg) : step :=
  match s with Field i => AtField i | Index i => AtIndex i | Subslice lo _ => AtIndex lo end.
Definition pop_first (parts : list seg) : list seg :=
  match rev parts with Index 0 :: r => rev r | _ => parts end.
Definition point_to (sg : nat * string + nat) (parts : list seg) : aim := (sg, map seg_step (pop_first parts)).
Definition point_to_range (sg : nat * string + nat) (parts : list seg) : option aim :=
  match rev parts with
  | Subslice _ hi :: _ => Some (sg, removelast (map seg_step (pop_first parts)) ++ [AtIndex hi])
  | _ => None
  end.

(** E 297-298: [String.fromCharCode] takes the lowest 16 bits; a space becomes U+00A0. *)
Definition char_unit (z : Z) : Z := let u := (z mod 2 ^ 16)%Z in if (u =? 32)%Z then 160%Z else u.

(** E 291-296 for a float, by the bits of its double: infinities and NaN are [null] in JSON, on
    which [toString] throws; both zeros are "0" (ECMA-262, Number::toString).  [ft] is the text of
    the others. *)
Definition float_text (ft : Z -> list nat) (z : Z) : option (list nat) :=
  if ((z / 2 ^ 52) mod 2 ^ 11 =? 2047)%Z then None else Some (ft (if (z =? 2 ^ 63)%Z then 0%Z else z)).

(** E 287-341 [ValueView], 58-101 [AbbreviatedView], 151-226 [AdtView], 264-284.  [err] is
    the allocation of the error of the trace (317-329).  [fuel] bounds the depth of the recursion. *)
Fixpoint look_at (fuel : nat) (ft : Z -> list nat) (concrete : bool) (err : option nat) (v : mvalue) : option look :=
  match fuel with
  | 0 => None
  | S n =>
    let again := look_at n ft concrete err in
    match v with
    | MScalar PBool z => Some (LBool (negb (z =? 0)%Z))
    | MScalar PChar z => Some (LChar (char_unit z))
    | MScalar PUint z | MScalar PInt z => Some (LNumber (js_string (js_number z)))
    | MScalar PFloat z => option_map LFloat (float_text ft z)
    | MTuple vs => option_map LRow (all_some (map again vs))
    | MArray (AllOf vs) => option_map (fun l => LCells l None) (all_some (map again vs))
    | MArray (Only vs x) =>
      obind (all_some (map again vs)) (fun l => option_map (fun k => LCells l (Some k)) (again x))
    | MAdt name variant fields kind =>
      match special_ptr fields kind with
      | None => None
      | Some ptr =>
        match (if concrete then None else ptr) with
        | Some p => again p
        | None =>
          if negb concrete && String.eqb name "Iter" then obind (obind (read_field fields "ptr") first_field) again
          else
            let adt_name := match variant with Some x => x | None => name end in
            match fields with
            | [("0", f)] => obind (small_inside concrete f) (fun sm => option_map (LOne sm adt_name) (again f))
            | ("0", _) :: _ => option_map (LNamedRow adt_name) (all_some (map again (map snd fields)))
            | _ => option_map (fun l => LNamed adt_name (combine (map fst fields) l)) (all_some (map again (map snd fields)))
            end
        end
      end
    | MPtr sg parts range =>
      match (if concrete then range else None) with
      | Some (S k) => Some (LFat (point_to sg parts) (point_to_range sg parts) (S k))
      | _ => Some (LDot (point_to sg parts) (point_to_range sg parts))
      end
    | MUnalloc a =>
      Some (LDead (match err, a with Some x, Some y => Nat.eqb x y | _, _ => false end))
    end
  end.

(** ** A state *)

(** step.rs 38-52 [MLocal] and [MFrame]: a variable with the paths in it that have been moved out; a
    frame with its name.  Simplification: no locations. *)
Record mlocal := MLocal { l_name : string; l_value : mvalue; l_moved : list (list seg) }.
Record mframe := MFrame { fr_name : string; fr_locals : list mlocal }.
Record msnap := MSnap { sn_frames : list mframe; sn_heap : list mvalue }.

(** E 343-368 [LocalsView]: a row, with its class [moved]. *)
Definition look_local (f : mvalue -> option look) (l : mlocal) : option (string * bool * look) :=
  option_map (pair (l_name l, existsb (fun p => match p with [] => true | _ => false end) (l_moved l))) (f (l_value l)).
(** E 379-396 [FrameView], 398-407 [StackView], 409-429 [HeapView]: headers and rows of the frames, rows of the heap.
    An empty frame has no rows. *)
Definition look_frame (f : mvalue -> option look) (fr : mframe) : option (string * list (string * bool * look)) :=
  option_map (pair (fr_name fr)) (all_some (map (look_local f) (fr_locals fr))).
Definition look_state (fuel : nat) (ft : Z -> list nat) (concrete : bool) (err : option nat) (s : msnap)
    : option (list (string * list (string * bool * look)) * list look) :=
  let f := look_at fuel ft concrete err in
  obind (all_some (map (look_frame f) (sn_frames s))) (fun frames =>
  option_map (pair frames) (all_some (map f (sn_heap s)))).
