(** * Model of how the page shows an execution

    Source: E = frontend/packages/aquascope-editor/src/editor-utils/interpreter.tsx.
    A function that may throw returns [None] when it does. *)

From Coq Require Import Ascii String.
From Coq Require Import List Arith Bool ZArith.
From Verif Require Import Base TraceModel ValuesModel BookModel.
Import ListNotations.

(** ** What the page receives *)

(** bindings/MMemorySegment.ts (mvalue.rs 24-30): a variable of a frame, by name, or
    a heap object, by number. *)
Inductive root := RStack (frame : nat) (name : str) | RHeap (i : nat).

(** mvalue.rs 95-102 [MHeapAllocKind]; lengths left out. *)
Inductive alloc_kind := KString | KVec | KBox.

(** mvalue.rs 114-142 [MValue].  Simplifications: numbers, floats and booleans are
    given by their text, a float that is not finite by [VNull], since serde_json writes
    [null] for it; [Array(All l)] is [VArray l None], [Array(Only l x)] is
    [VArray l (Some x)]. *)
Inductive value :=
| VText (s : str)
| VNull
| VChar (c : nat)
| VTuple (l : list value)
| VArray (l : list value) (last : option value)
| VAdt (name : str) (fields : list (str * value)) (kind : option alloc_kind)
| VPtr (r : root) (parts : list seg)
| VDead (alloc : option nat).

(** bindings/MFrame.ts (step.rs 31-38): the body's span and the variables; the
    current location is the [f_loc] of TraceModel's frame.  Simplification:
    locations are positions of the editor, whose conversion is modelled in EditorModel; moved
    paths are left out. *)
Record finfo := FInfo { body_lo : nat; body_hi : nat; locals : list (str * value) }.
Record loc := Loc { loc_lo : nat; loc_hi : nat }.
Definition fstep := mstep finfo (list value) loc.

(** step.rs 83-89 [MResult]: [None] is a success. *)
Definition ftrace := mtrace finfo (list value) (option str) loc.

(** ** Which states are shown *)

(** [_.last(l)!]: using the result when there is none throws. *)
Definition last_frame (s : fstep) : option (frame finfo loc) := last (map Some (m_frames s)) None.

(** E 769-777: the test on a step. *)
Definition mark_hits (mark : nat) (s : fstep) : option bool :=
  match last_frame s with
  | None => None
  | Some f =>
    let markInFrame := (body_lo (f_info f) <=? mark) && (mark <=? body_hi (f_info f)) in
    let markAfterLoc := loc_lo (f_loc f) <? mark in
    Some (markInFrame && markAfterLoc)
  end.

(** [findIndex]: the index and the element; [None] if the test throws. *)
Fixpoint find_index {T} (p : T -> option bool) (i : nat) (l : list T) : option (option (nat * T)) :=
  match l with
  | [] => Some None
  | x :: r =>
    match p x with
    | None => None
    | Some true => Some (Some (i, x))
    | Some false => find_index p (S i) r
    end
  end.

(** E 767-783: one mark; the step's number, the mark, the step. *)
Definition indexed_mark (steps : list fstep) (mark : nat) : option (nat * (nat * fstep)) :=
  match find_index (mark_hits mark) 0 (rev steps) with
  | Some (Some (stepRevIdx, s)) => Some (length steps - stepRevIdx, (mark, s))
  | _ => None
  end.

Fixpoint all_some {T} (l : list (option T)) : option (list T) :=
  match l with
  | [] => Some []
  | None :: _ => None
  | Some x :: r => option_map (cons x) (all_some r)
  end.

(** [_.sortBy], a stable sort. *)
Fixpoint insert_by {T} (key : T -> nat) (x : T) (l : list T) : list T :=
  match l with
  | [] => [x]
  | y :: r => if key x <=? key y then x :: l else y :: insert_by key x r
  end.
Definition sort_by {T} (key : T -> nat) (l : list T) : list T := fold_right (insert_by key) [] l.

(** E 762-789 [filterSteps] *)
Definition filter_steps (steps : list fstep) (marks : list nat) : option (list nat * list fstep) :=
  match all_some (map (indexed_mark steps) marks) with
  | None => None
  | Some indexed =>
    let sorted := sort_by fst indexed in
    Some (map (fun x => fst (snd x)) sorted, map (fun x => snd (snd x)) sorted)
  end.

(** A marker in the code: its position, the number it shows, and whether it is
    the one of a failure. *)
Record widget := Widget { w_pos : nat; w_label : nat; w_fail : bool }.
(** A state: the number in its header, the error shown there, its memory. *)
Record panel := Panel { p_label : nat; p_error : option str; p_step : fstep }.

Definition is_error (r : option str) : bool := match r with Some _ => true | None => false end.

(** E 738-758 [InterpreterView], E 791-797 [StepMarkerView] *)
Definition panels (steps : list fstep) (result : option str) : list panel :=
  map (fun '(i, s) => Panel (i + 1) (if (i =? length steps - 1) && is_error result then result else None) s)
      (combine (seq 0 (length steps)) steps).

(** E 818-856 [renderInterpreter] *)
Definition render_interpreter (t : ftrace) (marks : list nat) : option (list widget * list panel) :=
  let chosen :=
    if 0 <? length marks then filter_steps (tr_steps t) marks
    else option_map (fun ps => (ps, tr_steps t))
           (all_some (map (fun s => option_map (fun f => loc_hi (f_loc f)) (last_frame s)) (tr_steps t))) in
  match chosen with
  | None => None
  | Some (ranges, steps) =>
    Some (map (fun '(i, m) => Widget m (i + 1) ((i =? length steps - 1) && is_error (tr_result t)))
              (combine (seq 0 (length ranges)) ranges),
          panels steps (tr_result t))
  end.

(** ** How a state is drawn *)

(** The class of a cell: the parts joined by dashes.  Simplification: kept as a
    list; names contain no dash, so the joined text determines it. *)
Inductive part := PField (i : nat) | PIndex (i : nat).
Definition class := (root * list part)%type.
Definition below (c : class) (p : part) : class := (fst c, snd c ++ [p]).

(** What is drawn, in document order: the cells with the value in them, and the
    pointers with their [data-point-to] and [data-point-to-range]. *)
Inductive item := Cell (c : class) (v : value) | Pointer (dst : class) (range : option class).

(** E 109-116 [read_field] of a struct, whose result must again be one: reading
    [fields] of any other value throws where the result is used. *)
Definition read_field (fields : list (str * value)) (k : str) : option (list (str * value)) :=
  match aget str_eqd fields k with Some (VAdt _ fs _) => Some fs | _ => None end.
Definition obind {A B} (o : option A) (f : A -> option B) : option B := match o with Some a => f a | None => None end.

(** E 118-121 [read_unique], E 123-128 [read_vec] *)
Definition read_unique (fs : list (str * value)) := read_field fs (lit "pointer").
Definition read_vec (fs : list (str * value)) : option (list (str * value)) :=
  obind (read_field fs (lit "buf")) (fun raw => obind (read_field raw (lit "inner")) (fun inner =>
  obind (read_field inner (lit "ptr")) read_unique)).
(** [non_null.fields[0][1]] *)
Definition first_field (fs : list (str * value)) : option value := match fs with (_, v) :: _ => Some v | [] => None end.

(** E 130-149 [specialPtr]: throws, is undefined, or is the raw pointer. *)
Definition special_ptr (fields : list (str * value)) (kind : option alloc_kind) : option (option value) :=
  match kind with
  | None => Some None
  | Some k =>
    option_map Some (obind
      (match k with
       | KString => obind (read_field fields (lit "vec")) read_vec
       | KVec => read_vec fields
       | KBox => obind (read_field fields (lit "0")) read_unique
       end) first_field)
  end.

(** What an ADT is shown as: another value in its place, or its fields
    (E 151-163).  The one-field tuple of 169-198 also makes one element with the
    class of its field. *)
Definition adt_shows (concrete : bool) (name : str) (fields : list (str * value)) (kind : option alloc_kind) : option (option value) :=
  match special_ptr fields kind with
  | None => None
  | Some sp =>
    if concrete then Some None
    else match sp with
         | Some v => Some (Some v)
         | None => if str_eqd name (lit "Iter")
                   then option_map Some (obind (read_field fields (lit "ptr")) first_field)
                   else Some None
         end
  end.

(** E 228-262 [PointerView] *)
Definition seg_part (s : seg) : part :=
  match s with Field i => PField i | Index i => PIndex i | Subslice lo _ => PIndex lo end.
Definition drop_index0 (parts : list seg) : list seg :=
  match rev parts with Index 0 :: r => rev r | _ => parts end.
Definition pointer_item (r : root) (parts : list seg) : item :=
  let partClass := map seg_part (drop_index0 parts) in
  Pointer (r, partClass)
          (match rev parts with
           | Subslice _ hi :: _ => Some (r, removelast partClass ++ [PIndex hi])
           | _ => None
           end).

(** The cells of the elements of a tuple, array or struct, numbered from [i]. *)
Fixpoint cells (f : class -> value -> option (list item)) (c : class) (mk : nat -> part) (i : nat) (l : list value) : option (list item) :=
  match l with
  | [] => Some []
  | v :: r =>
    obind (f (below c (mk i)) v) (fun here =>
    obind (cells f c mk (S i) r) (fun rest => Some (Cell (below c (mk i)) v :: here ++ rest)))
  end.

(** E 287-341 [ValueView] ([null.toString()] throws), E 58-101 [AbbreviatedView], E 151-226 [AdtView].  The
    page recurses on the value; [fuel] bounds the depth, see [view_value]. *)
Fixpoint view (fuel : nat) (concrete : bool) (c : class) (v : value) : option (list item) :=
  match fuel with
  | 0 => None
  | S n =>
    match v with
    | VText _ | VChar _ | VDead _ => Some []
    | VNull => None
    | VTuple l => cells (view n concrete) c PField 0 l
    | VArray l None => cells (view n concrete) c PIndex 0 l
    | VArray l (Some x) =>
        obind (cells (view n concrete) c PIndex 0 l) (fun a =>
        obind (cells (view n concrete) c PIndex 100 [x]) (fun b => Some (a ++ b)))
    | VAdt name fields kind =>
        match adt_shows concrete name fields kind with
        | None => None
        | Some (Some u) => view n concrete c u
        | Some None => cells (view n concrete) c PField 0 (map snd fields)
        end
    | VPtr r parts => Some [pointer_item r parts]
    end
  end.

(** The depth of a value: fuel enough for the whole of it. *)
Fixpoint depth (v : value) : nat :=
  match v with
  | VTuple l => S (list_max (map depth l))
  | VArray l o => S (list_max (match o with Some x => depth x | None => 0 end :: map depth l))
  | VAdt _ fs _ => S (list_max (map (fun p => depth (snd p)) fs))
  | _ => 1
  end.
Definition view_value (concrete : bool) (c : class) (v : value) : option (list item) := view (depth v) concrete c v.

(** A variable (E 343-368) or heap object (E 409-429). *)
Definition view_root (concrete : bool) (r : root) (v : value) : option (list item) :=
  option_map (cons (Cell (r, []) v)) (view_value concrete (r, []) v).

(** The variables and objects of a state, in the order they are drawn
    (E 397-407, 409-429, 716-722). *)
Definition roots (s : fstep) : list (root * value) :=
  flat_map (fun '(i, f) => map (fun '(name, v) => (RStack i name, v)) (locals (f_info f)))
           (combine (seq 0 (length (m_frames s))) (m_frames s))
  ++ map (fun '(i, v) => (RHeap i, v)) (combine (seq 0 (length (m_heap s))) (m_heap s)).

Definition step_items (concrete : bool) (s : fstep) : option (list item) :=
  option_map (@concat item) (all_some (map (fun '(r, v) => view_root concrete r v) (roots s))).

(** E 474-481 [query]: the first element with the class. *)
Definition root_eqd : forall x y : root, {x = y} + {x <> y}.
Proof. decide equality; auto using Nat.eq_dec, str_eqd. Defined.
Definition part_eqd : forall x y : part, {x = y} + {x <> y}.
Proof. decide equality; auto using Nat.eq_dec. Defined.
Definition class_eqd : forall x y : class, {x = y} + {x <> y}.
Proof. decide equality; auto using root_eqd, (list_eq_dec part_eqd). Defined.

Fixpoint query (items : list item) (c : class) (i : nat) : option nat :=
  match items with
  | [] => None
  | Cell c' _ :: r => if class_eqd c c' then Some i else query r c (S i)
  | Pointer _ _ :: r => query r c (S i)
  end.

(** An arrow: from the pointer to a cell, and the cell at the end of the range,
    all given by their number among the things drawn. *)
Record arrow := MkArrow { a_src : nat; a_dst : nat; a_range : option nat }.

(** E 502-521; a missing element throws. *)
Fixpoint arrows_from (all rest : list item) (i : nat) : option (list arrow) :=
  match rest with
  | [] => Some []
  | Cell _ _ :: r => arrows_from all r (S i)
  | Pointer dst range :: r =>
    obind (query all dst 0) (fun d =>
    obind (match range with None => Some None | Some c => option_map Some (query all c 0) end) (fun rg =>
    option_map (cons (MkArrow i d rg)) (arrows_from all r (S i))))
  end.
Definition arrows (items : list item) : option (list arrow) := arrows_from items items 0.

(** E 670-731 [StepView] *)
Definition step_view (concrete : bool) (s : fstep) : option (list item * list arrow) :=
  obind (step_items concrete s) (fun items => option_map (pair items) (arrows items)).

(** E 733-760: an error thrown while rendering, or in an effect, removes the whole
    of the React root: all states or none. *)
Definition interpreter_view (concrete : bool) (steps : list fstep) : option (list (list item * list arrow)) :=
  all_some (map (step_view concrete) steps).

(** ** Numbering of the arrows *)

Inductive region := StackRegion | HeapRegion.
(** E 492-495: the group of a pointer. *)
Record group := Group { src_region : region; dst_region : region }.

(** The string JavaScript makes of an object used as a key. *)
Definition object_key (g : group) : str := lit "[object Object]".

(** lodash's [groupBy]: the keys in the order of their first use. *)
Fixpoint group_by {T} (key : T -> str) (l : list T) (acc : list (str * list T)) : list (str * list T) :=
  match l with
  | [] => acc
  | x :: r =>
    group_by key r (aset str_eqd acc (key x) (match aget str_eqd acc (key x) with Some g => g | None => [] end ++ [x]))
  end.

(** E 526, 626-628: the pointers with the number [renderPtr] gets. *)
Definition numbered {T} (grp : T -> group) (pointers : list T) : list (nat * T) :=
  flat_map (fun '(_, ptrs) => combine (seq 0 (length ptrs)) ptrs) (group_by (fun p => object_key (grp p)) pointers []).

(** E 580, 588-592: the colour (of six) and, for arrows from the stack to the heap,
    the pull at their end. *)
Definition colour (i : nat) : nat := i mod 6.
Definition gravity (i : nat) : Z := (100 - Z.of_nat i * 10)%Z.

(** ** Characters *)

(** E 297-298: [String.fromCharCode(c).replace(" ", " ")], as code units. *)
Definition char_text (c : nat) : list nat :=
  let u := c mod (256 * 256) in [if u =? 32 then 160 else u].
