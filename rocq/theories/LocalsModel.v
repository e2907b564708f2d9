(** * Model of the choice of the variables that are shown

    Models crates/aquascope/src/interpreter/step.rs [mem_is_initialized], [test_local],
    [find_locals] and [build_stack]. *)
From Coq Require Import String.
From Coq Require Import List Arith Bool.
From Verif Require Import Base TraceModel ValuesModel ReaderModel.
Import ListNotations.
Local Open Scope string_scope.
Local Open Scope list_scope.

(** [FieldsShape], with the offsets and the sizes of the fields. *)
Inductive shape := ShPrimitive | ShArray | ShArbitrary (fields : list (nat * nat)) | ShUnion.

(** An allocation: its size, and the bytes that are initialised. *)
Record allocation := Alloc { a_size : nat; a_init : nat -> bool }.

(** [InitMask::is_range_initialized] *)
Definition range_initialized (a : allocation) (start size : nat) : bool := forallb (a_init a) (seq start size).

(** step.rs 294-327 [mem_is_initialized]; [None] is the panic for unions. *)
Definition mem_is_initialized (sh : shape) (a : allocation) : option bool :=
  match sh with
  | ShPrimitive | ShArray => Some (range_initialized a 0 (a_size a))
  | ShArbitrary fields => Some (forallb (fun f => range_initialized a (fst f) (snd f)) fields)
  | ShUnion => None
  end.

(** [LocalState::as_mplace_or_imm]: dead, an immediate that is not initialised, another immediate, or an
    allocation. *)
Inductive lstate := Dead | ImmUninit | ImmInit | InMemory (alloc : nat).

(** What is known of a local: its name in the source (if [Place::to_string] gives one), whether its
    type is [()], whether it has size 0, its shape, its type, its state and its place. *)
Record local := Local {
  l_name : option string; l_unit : bool; l_zst : bool; l_shape : shape;
  l_ty : ty; l_state : lstate; l_place : place
}.

(** [VarDebugInfoContents]: a place (a local and the length of its projection), or a constant. *)
Inductive debug := DPlace (local projection : nat) | DConst.

(** A frame of the crate: its debug info and its locals, of which number 0 is the return place. *)
Record frame := Frame { f_debug : list debug; f_locals : list local }.

(** step.rs 349-363 *)
Definition has_debug_info (f : frame) (i : nat) : bool :=
  existsb (fun d => match d with DPlace l 0 => Nat.eqb i l | _ => false end) (f_debug f).

(** What [test_local] answers: no, a panic, or the name and, if it must be recorded in [stack_slots], the
    allocation. *)
Inductive answer := No | Panics | Yes (name : string) (slot : option nat).

(** step.rs 329-421 [test_local] *)
Definition test_local (allocs : nat -> allocation) (f : frame) (i : nat) (l : local) : answer :=
  let go (name : string) :=
    match l_state l with
    | Dead => No
    | ImmUninit => if l_zst l then Yes name None else No
    | ImmInit => Yes name None
    | InMemory a =>
      match mem_is_initialized (l_shape l) (allocs a) with
      | None => Panics
      | Some false => No
      | Some true => Yes name (Some a)
      end
    end in
  if Nat.eqb i 0 then (if l_unit l then No else go "(return)")
  else if has_debug_info f i then go (match l_name l with Some n => n | None => "(tmp)" end)
  else No.

(** A local that is shown: its number, its name, its place and its type. *)
Record shown := Shown { sh_local : nat; sh_name : string; sh_place : place; sh_ty : ty }.

(** [HashMap<AllocId, (usize, String, TyAndLayout)>] *)
Definition slots := list (nat * (nat * string * ty)).

(** step.rs 430-440: the locals of one frame; [None] is a panic. *)
Fixpoint find_frame (allocs : nat -> allocation) (fi : nat) (f : frame) (i : nat) (ls : list local) (sl : slots) :
    option (list shown * slots) :=
  match ls with
  | [] => Some ([], sl)
  | l :: r =>
    match test_local allocs f i l with
    | Panics => None
    | No => find_frame allocs fi f (S i) r sl
    | Yes name slot =>
      let sl := match slot with Some a => aset Nat.eq_dec sl a (fi, name, l_ty l) | None => sl end in
      match find_frame allocs fi f (S i) r sl with
      | None => None
      | Some (xs, sl) => Some (Shown i name (l_place l) (l_ty l) :: xs, sl)
      end
    end
  end.

(** step.rs 423-444 [find_locals] *)
Fixpoint find_locals (allocs : nat -> allocation) (fi : nat) (fs : list frame) (sl : slots) : option (list (list shown) * slots) :=
  match fs with
  | [] => Some ([], sl)
  | f :: r =>
    match find_frame allocs fi f 0 (f_locals f) sl with
    | None => None
    | Some (xs, sl) =>
      match find_locals allocs (S fi) r sl with
      | None => None
      | Some (xss, sl) => Some (xs :: xss, sl)
      end
    end
  end.

(** The memory with the slots that were recorded. *)
Definition with_slots (m : mem) (sl : slots) : mem :=
  Mem (m_ty m) (m_scalar m) (m_ptr m) (m_variant m) (m_off m) (m_zst m) (m_size m) (m_layout m) (m_kind m) (m_asize m)
      (aget Nat.eq_dec sl).

(** step.rs 260-284 and 446-457 [build_stack], 459-461 [build_heap]: all locals are chosen, and
    then read.  The values are in one list, in the order of the frames. *)
Definition build_state (m : mem) (allocs : nat -> allocation) (fuel : nat) (fs : list frame) :
    stop + (list (list shown) * (list mvalue * list mvalue)) :=
  match find_locals allocs 0 fs [] with
  | None => inl SPanic
  | Some (xss, sl) =>
    match read_all (with_slots m sl) fuel (map (fun x => (sh_place x, sh_ty x)) (concat xss)) with
    | inl e => inl e
    | inr r => inr (xss, r)
    end
  end.
