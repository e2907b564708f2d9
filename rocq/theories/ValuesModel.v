(** * Model of how memory is shown

    Models crates/aquascope/src/interpreter/mvalue.rs and miri_utils.rs: the
    abbreviation of arrays, the search for the object at an address, numbers,
    strings, and the discovery of the heap. *)
From Coq Require Import List Arith Bool ZArith.
From Verif Require Import Base TraceModel.
Import ListNotations.

(** ** Arrays *)

(** mvalue.rs 47 [ABBREV_MAX] *)
Definition ABBREV_MAX : nat := 12.

(** mvalue.rs 49-55 [Abbreviated] *)
Inductive abbreviated (T : Type) := AllOf (v : list T) | Only (initial : list T) (last : T).
Arguments AllOf {T}. Arguments Only {T}.

(** [(a..b).map(mk).collect::<InterpResult<Vec<_>>>()]: [mk] has a state, and the
    first error ends the iteration. *)
Fixpoint collect_state {S E T} (mk : nat -> S -> (E + T) * S) (idxs : list nat) (s : S) : (E + list T) * S :=
  match idxs with
  | [] => (inr [], s)
  | i :: r =>
    match mk i s with
    | (inl e, s1) => (inl e, s1)
    | (inr x, s1) =>
      match collect_state mk r s1 with
      | (inl e, s2) => (inl e, s2)
      | (inr xs, s2) => (inr (x :: xs), s2)
      end
    end
  end.

(** mvalue.rs 58-74 [Abbreviated::new] *)
Definition abbrev_new {S E T} (n : nat) (mk : nat -> S -> (E + T) * S) (s : S) : (E + abbreviated T) * S :=
  if n <=? ABBREV_MAX then
    match collect_state mk (seq 0 n) s with
    | (inl e, s1) => (inl e, s1)
    | (inr elts, s1) => (inr (AllOf elts), s1)
    end
  else
    match collect_state mk (seq 0 (ABBREV_MAX - 1)) s with
    | (inl e, s1) => (inl e, s1)
    | (inr initial, s1) =>
      match mk (n - 1) s1 with
      | (inl e, s2) => (inl e, s2)
      | (inr last, s2) => (inr (Only initial last), s2)
      end
    end.

(** mvalue.rs 76-84 [Abbreviated::map] *)
Definition abbrev_map {T U} (f : T -> U) (a : abbreviated T) : abbreviated U :=
  match a with
  | AllOf v => AllOf (map f v)
  | Only initial last => Only (map f initial) (f last)
  end.

(** ** The object at an address *)

(** A layout: the kind of the type with the sizes and the offsets that the
    compiler chose.  [Prim] is a primitive type or a pointer; [Opaque] is
    [String], [Vec] or a union, which the search does not enter; [Agg] is another
    struct or a tuple, with offset and layout of each field in the order of
    declaration; [Arr] an array. *)
Inductive layout :=
| Prim (size : nat)
| Opaque (size : nat)
| EnumL (size : nat)
| Other (size : nat)
| Agg (size : nat) (fields : list (nat * layout))
| Arr (count : nat) (elem : layout).

(** [layout.size.bytes()]; the stride of an array is the size of its element. *)
Fixpoint size (l : layout) : nat :=
  match l with
  | Prim s | Opaque s | EnumL s | Other s | Agg s _ => s
  | Arr n e => n * size e
  end.

(** mvalue.rs 33-39 [MPathSegment] *)
Inductive seg := Field (i : nat) | Index (i : nat) | Subslice (from to : nat).

(** miri_utils.rs 56-127 [AddressLocator::locate]; [None] is a panic (an enum, a
    type that is not handled, a primitive that does not start at the target, an
    underflow or a division by zero). *)
Fixpoint locate (target : nat) (l : layout) (offset : nat) {struct l} : option (list seg) :=
  if offset =? target then Some []
  else match l with
       | Prim _ => None
       | Opaque _ => Some []
       | EnumL _ => None
       | Other _ => None
       | Agg _ fields =>
         (fix go (i : nat) (fs : list (nat * layout)) (offset : nat) {struct fs} : option (list seg) :=
            match fs with
            | [] => Some []
            | (_, f) :: rest =>
              if target <? offset + size f then
                match locate target f offset with
                | Some p => Some (Field i :: p)
                | None => None
                end
              else go (S i) rest (offset + size f)
            end) 0 fields offset
       | Arr _ elem =>
         if target <? offset then None
         else match size elem with
              | 0 => None
              | stride =>
                let index := (target - offset) / stride in
                match locate target elem (offset + index * stride) with
                | Some p => Some (Index index :: p)
                | None => None
                end
              end
       end.

(** miri_utils.rs 130-174 [locate_address_in_type]; [meta] is the metadata of the
    pointer, for a slice the number of its elements. *)
Definition locate_address_in_type (alloc_layout : layout) (alloc_size : nat) (meta : option nat)
    (target : nat) : option (list seg) :=
  if size alloc_layout <? alloc_size then
    match size alloc_layout with
    | 0 => None
    | elem_size =>
      let index := target / elem_size in
      let offset := index * elem_size in
      match (match meta with
             | Some m => if index + m / elem_size =? 0 then None
                         else Some (Subslice index (index + m / elem_size - 1))
             | None => Some (Index index)
             end) with
      | None => None
      | Some sg => match locate target alloc_layout offset with
                   | Some p => Some (sg :: p)
                   | None => None
                   end
      end
    end
  else locate target alloc_layout 0.

(** ** Numbers and strings *)

(** mvalue.rs 457-460: an unsigned number of some width, as a [u64]. *)
Definition show_uint (v : Z) : Z := (v mod 2 ^ 64)%Z.

(** mvalue.rs 461-464: a signed number, as an [i64]. *)
Definition show_int (v : Z) : Z :=
  (let m := v mod 2 ^ 64 in if m <? 2 ^ 63 then m else m - 2 ^ 64)%Z.

(** The UTF-8 encoding of a code point. *)
Definition utf8 (c : nat) : list nat :=
  if c <? 128 then [c]
  else if c <? 2048 then [192 + c / 64; 128 + c mod 64]
  else if c <? 256 * 256 then [224 + c / 4096; 128 + (c / 64) mod 64; 128 + c mod 64]
  else [240 + c / (4096 * 64); 128 + (c / 4096) mod 64; 128 + (c / 64) mod 64; 128 + c mod 64].

(** mvalue.rs 181-189: the buffer of a string is an array of bytes, each of which
    is shown as a character (without the abbreviation). *)
Definition show_string (s : list nat) : list nat := flat_map utf8 s.

(** ** The heap *)

(** A value in memory, as a type sees it: some data, parts, or a pointer into an
    allocation with an offset, the type it points to and its metadata.
    Simplification: data that is not a pointer is a number. *)
Inductive val :=
| VData (n : nat)
| VParts (vs : list val)
| VPtr (alloc off ty : nat) (meta : option nat).

(** mvalue.rs 24-31 [MMemorySegment] *)
Inductive segment := Stack (frame local : nat) | Heap (index : nat).

(** mvalue.rs 112-139 [MValue], likewise. *)
Inductive mval :=
| MData (n : nat)
| MParts (vs : list mval)
| MPointer (sg : segment) (parts : list seg) (range : option nat)
| MUnallocated (number : option nat).

(** The kind of an allocation; a stack allocation that is a shown local has its
    entry in [MemoryMap::stack_slots]: frame, name and type. *)
Inductive kind := KStack (slot : option (nat * nat * nat)) | KHeap | KOther.

(** Memory: the contents of an allocation at an offset as seen by a type, the
    allocations that have been freed, their kinds and sizes, and the layouts. *)
Record memory := Memory {
  mem_val : nat -> nat -> nat -> val;
  mem_dead : nat -> bool;
  mem_kind : nat -> kind;
  mem_size : nat -> nat;
  mem_layout : nat -> layout
}.

(** step.rs 141-157 [MemoryMap] *)
Record mmap := Mmap {
  mm_heap : list mval;
  mm_place : list (nat * (segment * nat));
  mm_numbers : list (nat * nat)
}.

(** A result, a panic, or no more fuel. *)
Inductive res (A : Type) := Ok (a : A) | Panic | More.
Arguments Ok {A}. Arguments Panic {A}. Arguments More {A}.

(** A sequence of reads. *)
Fixpoint read_seq (rd : mmap -> val -> res (mval * mmap)) (st : mmap) (vs : list val)
  : res (list mval * mmap) :=
  match vs with
  | [] => Ok ([], st)
  | v :: r =>
    match rd st v with
    | Ok (mv, st1) =>
      match read_seq rd st1 r with
      | Ok (mvs, st2) => Ok (mv :: mvs, st2)
      | Panic => Panic | More => More
      end
    | Panic => Panic | More => More
    end
  end.

(** mvalue.rs 276-287: the pointer, once its allocation is known. *)
Definition make_pointer (m : memory) (st : mmap) (alloc off : nat) (meta : option nat) : res (mval * mmap) :=
  match aget Nat.eq_dec (mm_place st) alloc with
  | None => Panic
  | Some (sg, ty) =>
    match locate_address_in_type (mem_layout m ty) (mem_size m alloc) meta off with
    | None => Panic
    | Some parts => Ok (MPointer sg parts meta, st)
    end
  end.

(** mvalue.rs 198-287 [read_pointer]; [rd] is [read_alloc]. *)
Definition read_pointer (rd : mmap -> val -> res (mval * mmap)) (m : memory) (st : mmap)
    (alloc off ty : nat) (meta : option nat) : res (mval * mmap) :=
  match aget Nat.eq_dec (mm_place st) alloc with
  | Some _ => make_pointer m st alloc off meta
  | None =>
    match rd st (mem_val m alloc off ty) with
    | Panic => Panic
    | More => More
    | Ok (mv, st1) =>
      match mem_kind m alloc with
      | KStack (Some (frame, local, ty')) =>
        make_pointer m (Mmap (mm_heap st1) (aset Nat.eq_dec (mm_place st1) alloc (Stack frame local, ty')) (mm_numbers st1))
                     alloc off meta
      | KStack None =>
        let '(nums, n) := remap (mm_numbers st1) alloc in
        Ok (MUnallocated (Some n), Mmap (mm_heap st1) (mm_place st1) nums)
      | KHeap =>
        make_pointer m (Mmap (mm_heap st1 ++ [mv])
                             (aset Nat.eq_dec (mm_place st1) alloc (Heap (length (mm_heap st1)), ty))
                             (mm_numbers st1)) alloc off meta
      | KOther => Panic
      end
    end
  end.

(** mvalue.rs 331-541 [read]; the pointer case is 489-512. *)
Fixpoint read (m : memory) (fuel : nat) (st : mmap) (v : val) {struct fuel} : res (mval * mmap) :=
  match fuel with
  | 0 => More
  | S f =>
    match v with
    | VData n => Ok (MData n, st)
    | VParts vs =>
      match read_seq (read m f) st vs with
      | Ok (mvs, st1) => Ok (MParts mvs, st1)
      | Panic => Panic | More => More
      end
    | VPtr alloc off ty meta =>
      if mem_dead m alloc then
        let '(nums, n) := remap (mm_numbers st) alloc in
        Ok (MUnallocated (Some n), Mmap (mm_heap st) (mm_place st) nums)
      else read_pointer (read m f) m st alloc off ty meta
    end
  end.

(** step.rs 445-475: the locals of all frames are read, then the heap is what has
    been discovered. *)
Definition read_state (m : memory) (fuel : nat) (locals : list val) : res (list mval * list mval) :=
  match read_seq (read m fuel) (Mmap [] [] []) locals with
  | Ok (mvs, st) => Ok (mvs, mm_heap st)
  | Panic => Panic | More => More
  end.
