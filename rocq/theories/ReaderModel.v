(** * Model of the reader of values

    Models crates/aquascope/src/interpreter/mvalue.rs [Reader]: how a value in
    memory is read by its type, and interpreter/step.rs [test_local],
    [mem_is_initialized], [find_locals], [build_stack], [build_heap]: which variables are read.
    ValuesModel.v has the same reader with values instead of types and memory. *)
From Coq Require Import String.
From Coq Require Import List Arith Bool ZArith.
From Verif Require Import Base TraceModel ValuesModel.
Import ListNotations.
Local Open Scope string_scope.
Local Open Scope list_scope.

(** ** Types and memory *)

(** A type as the reader looks at it.  Types behind a pointer are numbers, as types may be
    recursive.  [TOther]: unions, trait objects, functions and all else that the
    reader does not know. *)
Inductive prim := PBool | PChar | PUint | PInt | PFloat.
Inductive ty :=
| TPrim (k : prim)
| TBox (id : nat)
| TTuple (ts : list ty)
| TStruct (name : string) (args : list nat) (fields : list (string * ty))
| TEnum (name : string) (variants : list (string * list (string * ty)))
| TArray (elem : ty) (count : nat)
| TStr
| TSlice (elem : ty)
| TPtr (id : nat)
| TClosure (name : string) (upvars : list (string * ty))
| TOther.

(** Miri's [MPlaceTy] without the layout: allocation, offset, metadata.
    Simplification: an operand that is not in memory (a local that is an
    immediate) has an allocation of its own. *)
Record place := Place { p_alloc : nat; p_off : nat; p_meta : option nat }.

(** [read_immediate] of a primitive: a number, uninitialised bytes, or another error. *)
Inductive scalar := Scalar (z : Z) | Uninit | BadScalar (e : nat).

(** [read_immediate] of a pointer, [ref_to_mplace] and the check of the access (mvalue.rs
    490-513): a place; a place that cannot be accessed, perhaps in an allocation; a
    place of size 0 in no allocation, for which [read_pointer] fails; an error. *)
Inductive pointer := Points (target : place) | Dangling (alloc : option nat) | NoAlloc (e : nat) | BadPointer (e : nat).

(** [MemoryKind]; others, and allocations that are not in Miri's map, panic. *)
Inductive akind := AStack | AHeap | AOther.

(** Memory and layouts.  [m_slot] is [MemoryMap::stack_slots]: frame, name and
    type of a shown local.  [m_off t v i]: the offset of a field (in a variant). *)
Record mem := Mem {
  m_ty : nat -> ty;
  m_scalar : place -> prim -> scalar;
  m_ptr : place -> pointer;
  m_variant : place -> option nat;
  m_off : ty -> option nat -> nat -> nat;
  m_zst : ty -> bool;
  m_size : ty -> nat;
  m_layout : ty -> layout;
  m_kind : nat -> akind;
  m_asize : nat -> nat;
  m_slot : nat -> option (nat * string * ty)
}.

(** mvalue.rs 86-93 [HeapAllocKind] *)
Inductive hkind := HString (len : nat) | HVec (len : nat) (elem : nat) | HBox.

(** mvalue.rs 114-142 [MValue]; numbers of all kinds are [MScalar]. *)
Inductive mvalue :=
| MScalar (k : prim) (z : Z)
| MTuple (vs : list mvalue)
| MArray (vs : abbreviated mvalue)
| MAdt (name : string) (variant : option string) (fields : list (string * mvalue)) (kind : option hkind)
| MPtr (sg : nat * string + nat) (parts : list seg) (range : option nat)
| MUnalloc (number : option nat).

(** step.rs 141-157 [MemoryMap] without [stack_slots]; a segment is a local of a frame or an
    index into the heap. *)
Record mstate := MState {
  s_heap : list mvalue;
  s_place : list (nat * ((nat * string + nat) * ty));
  s_numbers : list (nat * nat)
}.

(** Why reading stops: an interpreter error, a panic, no more fuel. *)
Inductive stop := SErr (e : nat) | SPanic | SMore.
Definition rd (A : Type) := mstate -> (stop + A) * mstate.

Definition ret {A} (a : A) : rd A := fun s => (inr a, s).
Definition halt {A} (e : stop) : rd A := fun s => (inl e, s).
Definition bind {A B} (x : rd A) (f : A -> rd B) : rd B :=
  fun s => match x s with (inr a, s1) => f a s1 | (inl e, s1) => (inl e, s1) end.

(** [project_field] and [project_downcast] *)
Definition field (m : mem) (p : place) (t : ty) (v : option nat) (i : nat) : place :=
  Place (p_alloc p) (p_off p + m_off m t v i) None.

(** The element of an array. *)
Definition element (p : place) (stride i : nat) : place := Place (p_alloc p) (p_off p + stride * i) None.

(** The layers between [Box] and its pointer: [Unique], [NonNull]; [PhantomData]
    has size 0. *)
Definition phantom : ty := TStruct "PhantomData" [] [].
Definition nonnull (id : nat) : ty := TStruct "NonNull" [id] [("pointer", TPtr id)].
Definition unique (id : nat) : ty := TStruct "Unique" [id] [("pointer", nonnull id); ("_marker", phantom)].

(** mvalue.rs 454-473: numbers are cut to 64 bits; floats are bit patterns. *)
Definition show (k : prim) (z : Z) : Z :=
  match k with PUint => show_uint z | PInt => show_int z | _ => z end.

Fixpoint last_kind (ks : list hkind) : option hkind :=
  match ks with [] => None | [k] => Some k | _ :: r => last_kind r end.

(** ** Reading *)

(** mvalue.rs 338-347: the fields of a tuple. *)
Fixpoint read_tuple (rd1 : place -> ty -> rd mvalue) (m : mem) (p : place) (t : ty) (i : nat) (ts : list ty) : rd (list mvalue) :=
  match ts with
  | [] => ret []
  | ft :: r => bind (rd1 (field m p t None i) ft) (fun v => bind (read_tuple rd1 m p t (S i) r) (fun vs => ret (v :: vs)))
  end.

(** mvalue.rs 353-369 [process_fields]: fields of size 0 are skipped. *)
Fixpoint process_fields (rd1 : place -> ty -> rd mvalue) (m : mem) (p : place) (t : ty) (v : option nat) (i : nat)
    (fs : list (string * ty)) : rd (list (string * mvalue)) :=
  match fs with
  | [] => ret []
  | (n, ft) :: r =>
    if m_zst m ft then process_fields rd1 m p t v (S i) r
    else bind (rd1 (field m p t v i) ft) (fun x => bind (process_fields rd1 m p t v (S i) r) (fun xs => ret ((n, x) :: xs)))
  end.

(** mvalue.rs 289-304 [read_array] *)
Definition read_array (rd1 : place -> ty -> rd mvalue) (base : place) (stride len : nat) (el : ty) : rd mvalue :=
  fun s => match abbrev_new len (fun i => rd1 (element base stride i) el) s with
           | (inr a, s1) => (inr (MArray a), s1)
           | (inl e, s1) => (inl e, s1)
           end.

(** mvalue.rs 177-187: every element must be an unsigned number, and is made a character. *)
Definition is_uint (v : mvalue) : bool := match v with MScalar PUint _ => true | _ => false end.
Definition to_char (v : mvalue) : mvalue := match v with MScalar PUint z => MScalar PChar z | _ => v end.
Definition elems (a : abbreviated mvalue) : list mvalue :=
  match a with AllOf v => v | Only i l => i ++ [l] end.

(** mvalue.rs 170-194 [read_alloc] *)
Definition read_alloc (rd1 : place -> ty -> rd mvalue) (m : mem) (ks : list hkind) (base : place) (t : ty) : rd mvalue :=
  match last_kind ks with
  | Some (HString len) =>
    bind (read_array rd1 base (m_size m t) len t) (fun v =>
      match v with
      | MArray a => if forallb is_uint (elems a) then ret (MArray (abbrev_map to_char a)) else halt SPanic
      | _ => halt SPanic
      end)
  | Some (HVec len el) => read_array rd1 base (m_size m (m_ty m el)) len (m_ty m el)
  | Some HBox | None => rd1 base t
  end.

(** mvalue.rs 271-286: the pointer, once its allocation has been found. *)
Definition point (m : mem) (p : place) : rd mvalue :=
  fun s => match aget Nat.eq_dec (s_place s) (p_alloc p) with
           | None => (inl SPanic, s)
           | Some (sg, t) =>
             match locate_address_in_type (m_layout m t) (m_asize m (p_alloc p)) (p_meta p) (p_off p) with
             | None => (inl SPanic, s)
             | Some parts => (inr (MPtr sg parts (p_meta p)), s)
             end
           end.

(** step.rs [remap_alloc_id]: the number that is shown for an allocation. *)
Definition unallocated (alloc : nat) : rd mvalue :=
  fun s => let '(nums, n) := remap (s_numbers s) alloc in
           (inr (MUnalloc (Some n)), MState (s_heap s) (s_place s) nums).

(** mvalue.rs 268: the segment and the layout of an allocation are recorded. *)
Definition set_place (alloc : nat) (e : (nat * string + nat) * ty) : rd unit :=
  fun s => (inr tt, MState (s_heap s) (aset Nat.eq_dec (s_place s) alloc e) (s_numbers s)).

(** mvalue.rs 249-268: a new object of the heap. *)
Definition push_heap (alloc : nat) (v : mvalue) (t : ty) : rd unit :=
  fun s => (inr tt, MState (s_heap s ++ [v]) (aset Nat.eq_dec (s_place s) alloc (inr (length (s_heap s)), t)) (s_numbers s)).

(** mvalue.rs 196-287 [read_pointer] *)
Definition read_pointer (rd1 : place -> ty -> rd mvalue) (m : mem) (ks : list hkind) (p : place) (t : ty) : rd mvalue :=
  fun s =>
  match aget Nat.eq_dec (s_place s) (p_alloc p) with
  | Some _ => point m p s
  | None =>
    bind (read_alloc rd1 m ks p t) (fun v =>
      match m_kind m (p_alloc p) with
      | AStack =>
        match m_slot m (p_alloc p) with
        | None => unallocated (p_alloc p)
        | Some (frame, local, lt) => bind (set_place (p_alloc p) (inl (frame, local), lt)) (fun _ => point m p)
        end
      | AHeap =>
        let lt := match last_kind ks with Some (HVec _ el) => m_ty m el | _ => t end in
        bind (push_heap (p_alloc p) v lt) (fun _ => point m p)
      | AOther => halt SPanic
      end) s
  end.

(** miri_utils.rs 20-47 [field_by_name]; [None] is the panic. *)
Fixpoint field_by_name (n : string) (i : nat) (fs : list (string * ty)) : option (nat * ty) :=
  match fs with
  | [] => None
  | (n', t) :: r => if String.eqb n' n then Some (i, t) else field_by_name n (S i) r
  end.

(** mvalue.rs 306-317 [read_vec_len]; its [unwrap] panics on an error. *)
Definition read_vec_len (rd1 : place -> ty -> rd mvalue) (m : mem) (p : place) (t : ty) (fs : list (string * ty)) : rd (option nat) :=
  match field_by_name "len" 0 fs with
  | None => halt SPanic
  | Some (i, lt) =>
    fun s => match rd1 (field m p t None i) lt s with
             | (inr (MUnalloc _), s1) => (inr None, s1)
             | (inr (MScalar PUint z), s1) => (inr (Some (Z.to_nat z)), s1)
             | (inr _, s1) => (inl SPanic, s1)
             | (inl SMore, s1) => (inl SMore, s1)
             | (inl _, s1) => (inl SPanic, s1)
             end
  end.

(** mvalue.rs 373-398: the kind of the heap allocation that a struct owns, by the
    struct's name.  Simplification: a field [vec] that is an enum or a union panics, whatever
    its fields are called. *)
Definition own_kind (rd1 : place -> ty -> rd mvalue) (m : mem) (ks : list hkind) (p : place) (t : ty)
    (name : string) (args : list nat) (fs : list (string * ty)) : rd (option hkind) :=
  if String.eqb name "String" then
    match field_by_name "vec" 0 fs with
    | None => halt SPanic
    | Some (i, vt) =>
      match vt with
      | TStruct _ _ vfs => bind (read_vec_len rd1 m (field m p t None i) vt vfs) (fun o => ret (option_map HString o))
      | _ => halt SPanic
      end
    end
  else if String.eqb name "Vec" then
    bind (read_vec_len rd1 m p t fs) (fun o =>
      match o with
      | None => ret None
      | Some len =>
        match last_kind ks with
        | Some (HString _) => ret None
        | _ => match args with [] => halt SPanic | el :: _ => ret (Some (HVec len el)) end
        end
      end)
  else ret None.

(** mvalue.rs 319-550 [read] *)
Fixpoint read (m : mem) (fuel : nat) (ks : list hkind) (p : place) (t : ty) {struct fuel} : rd mvalue :=
  match fuel with
  | 0 => halt SMore
  | S f =>
    match t with
    | TBox id =>
      bind (read m f (ks ++ [HBox]) (field m p t None 0) (unique id)) (fun v =>
        ret (MAdt "Box" None [("0", v)] (Some HBox)))
    | TTuple ts => bind (read_tuple (read m f ks) m p t 0 ts) (fun vs => ret (MTuple vs))
    | TStruct name args fs =>
      bind (own_kind (read m f ks) m ks p t name args fs) (fun k =>
        bind (process_fields (read m f (match k with Some k => ks ++ [k] | None => ks end)) m p t None 0 fs) (fun vs =>
          ret (MAdt name None vs k)))
    | TEnum name vars =>
      match m_variant m p with
      | None => halt (SErr 0)
      | Some i =>
        match nth_error vars i with
        | None => halt SPanic
        | Some (vn, fs) => bind (process_fields (read m f ks) m p t (Some i) 0 fs) (fun vs => ret (MAdt name (Some vn) vs None))
        end
      end
    | TPrim k =>
      match m_scalar m p k with
      | Scalar z => ret (MScalar k (show k z))
      | Uninit => ret (MUnalloc None)
      | BadScalar e => halt (SErr e)
      end
    | TArray el n => read_array (read m f ks) p (m_size m el) n el
    | TStr => read_pointer (read m f ks) m ks p t
    | TPtr id =>
      match m_ptr m p with
      | Points q => read_pointer (read m f ks) m ks q (m_ty m id)
      | Dangling (Some a) => unallocated a
      | Dangling None => ret (MUnalloc None)
      | NoAlloc e | BadPointer e => halt (SErr e)
      end
    | TClosure name ups =>
      bind (read_tuple (read m f ks) m p t 0 (map snd ups)) (fun vs => ret (MAdt name None (combine (map fst ups) vs) None))
    | TSlice _ | TOther => halt SPanic
    end
  end.

(** mvalue.rs 553-561: every local is read by a new reader; step.rs 445-475: the locals of all
    frames, then the heap is what has been found. *)
Fixpoint read_locals (m : mem) (fuel : nat) (ls : list (place * ty)) : rd (list mvalue) :=
  match ls with
  | [] => ret []
  | (p, t) :: r => bind (read m fuel [] p t) (fun v => bind (read_locals m fuel r) (fun vs => ret (v :: vs)))
  end.

Definition read_all (m : mem) (fuel : nat) (ls : list (place * ty)) : stop + list mvalue * list mvalue :=
  match read_locals m fuel ls (MState [] [] []) with
  | (inr vs, s) => inr (vs, s_heap s)
  | (inl e, _) => inl e
  end.
