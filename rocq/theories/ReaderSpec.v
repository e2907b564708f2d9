(** Specification of what the value of a variable is, and how it is shown. *)
From Coq Require Import String.
From Coq Require Import List Arith Bool ZArith.
From Verif Require Import Base TraceModel ValuesModel ReaderModel.
Import ListNotations.
Local Open Scope string_scope.
Local Open Scope list_scope.

(** The standard library's [Vec] and [String]; [u8] is the number of the type u8. *)
Definition rawvec (u8 : nat) : ty :=
  TStruct "RawVec" [] [("inner", TStruct "RawVecInner" []
      [("ptr", unique u8); ("cap", TStruct "UsizeNoHighBit" [] [("0", TPrim PUint)]); ("alloc", TStruct "Global" [] [])]);
    ("_marker", phantom)].
Definition vec (u8 el : nat) : ty := TStruct "Vec" [el] [("buf", rawvec u8); ("len", TPrim PUint)].
Definition string_ty (u8 : nat) : ty := TStruct "String" [] [("vec", vec u8 u8)].

(** Where the fields of a value and the elements of an array are. *)
Definition field_place (m : mem) (p : place) (t : ty) (v : option nat) (i : nat) : place :=
  Place (p_alloc p) (p_off p + m_off m t v i) None.
Definition nth_place (p : place) (size i : nat) : place := Place (p_alloc p) (p_off p + size * i) None.

(** The length of the vector at [p]. *)
Definition Length (m : mem) (u8 el : nat) (p : place) (n : nat) : Prop :=
  exists z, m_scalar m (field_place m p (vec u8 el) None 1) PUint = Scalar z /\ n = Z.to_nat (z mod 2 ^ 64).

(** Where in a value we are: among the fields of a vector or of a string, of which a pointer
    points to the buffer, or of a box; or elsewhere. *)
Definition within := option hkind.
Definition Elsewhere (w : within) : Prop := w = None \/ w = Some HBox.
Definition InString (w : within) : Prop := exists n, w = Some (HString n).

(** The buffer that a struct owns. *)
Inductive Owns (m : mem) (u8 : nat) (w : within) (p : place) : ty -> option hkind -> Prop :=
| owns_string n : Length m u8 u8 (field_place m p (string_ty u8) None 0) n -> Owns m u8 w p (string_ty u8) (Some (HString n))
| owns_vec el n : ~ InString w -> Length m u8 el p n -> Owns m u8 w p (vec u8 el) (Some (HVec n el))
| owns_inner el : InString w -> Owns m u8 w p (vec u8 el) None
| owns_other name args fs : name <> "String" -> name <> "Vec" -> Owns m u8 w p (TStruct name args fs) None.

Definition inside (w : within) (k : option hkind) : within := match k with Some k => Some k | None => w end.

(** What is stored where a pointer points: a value of the type of the pointer, the elements of
    a vector, or the bytes of a string. *)
Inductive content := CValue (t : ty) | CElems (len el : nat) | CChars (len : nat) (t : ty).

Definition content_of (m : mem) (w : within) (id : nat) : content :=
  match w with
  | Some (HVec len el) => CElems len el
  | Some (HString len) => CChars len (m_ty m id)
  | _ => CValue (m_ty m id)
  end.

(** What the program holds: [Holds w p t] says that there is a value of type [t] at
    [p], starting from the variables. *)
Inductive Holds (m : mem) (u8 : nat) (vars : list (place * ty)) : within -> place -> ty -> Prop :=
| holds_var p t : In (p, t) vars -> Holds m u8 vars None p t
| holds_tuple w p ts i t : Holds m u8 vars w p (TTuple ts) -> nth_error ts i = Some t ->
    Holds m u8 vars w (field_place m p (TTuple ts) None i) t
| holds_closure w p n ups i x t : Holds m u8 vars w p (TClosure n ups) -> nth_error ups i = Some (x, t) ->
    Holds m u8 vars w (field_place m p (TClosure n ups) None i) t
| holds_struct w p n args fs k i x t : Holds m u8 vars w p (TStruct n args fs) -> Owns m u8 w p (TStruct n args fs) k ->
    nth_error fs i = Some (x, t) -> Holds m u8 vars (inside w k) (field_place m p (TStruct n args fs) None i) t
| holds_enum w p n vs v vn fs i x t : Holds m u8 vars w p (TEnum n vs) -> m_variant m p = Some v ->
    nth_error vs v = Some (vn, fs) -> nth_error fs i = Some (x, t) ->
    Holds m u8 vars w (field_place m p (TEnum n vs) (Some v) i) t
| holds_array w p el n i : Holds m u8 vars w p (TArray el n) -> i < n -> Holds m u8 vars w (nth_place p (m_size m el) i) el
| holds_box w p id : Holds m u8 vars w p (TBox id) -> Holds m u8 vars (Some HBox) (field_place m p (TBox id) None 0) (unique id)
| holds_target w p id q : Holds m u8 vars w p (TPtr id) -> Elsewhere w -> m_ptr m p = Points q ->
    Holds m u8 vars None q (m_ty m id)
| holds_elem p id q len el i : Holds m u8 vars (Some (HVec len el)) p (TPtr id) -> m_ptr m p = Points q -> i < len ->
    Holds m u8 vars None (nth_place q (m_size m (m_ty m el)) i) (m_ty m el).

(** The objects of the heap that are shown: where they are, and what they are. *)
Definition objects := list (place * content).

(** The type by which a pointer into an object is resolved. *)
Definition type_of (m : mem) (c : content) : ty :=
  match c with CValue t => t | CElems _ el => m_ty m el | CChars _ t => t end.

(** The number shown for a number: cut to 64 bits. *)
Definition Cut (k : prim) (z z' : Z) : Prop :=
  match k with
  | PUint => (0 <= z' < 2 ^ 64 /\ exists q, z = z' + q * 2 ^ 64)%Z
  | PInt => (- 2 ^ 63 <= z' < 2 ^ 63 /\ exists q, z = z' + q * 2 ^ 64)%Z
  | _ => z' = z
  end.

(** The fields of a struct that are shown: those that are not of size 0. *)
Definition shown_fields (m : mem) (fs : list (string * ty)) : list (nat * (string * ty)) :=
  filter (fun x => negb (m_zst m (snd (snd x)))) (combine (seq 0 (length fs)) fs).

(** Where a pointer to [q] is shown to point: at a variable of the stack, or at an object of
    the heap, which is in the same allocation. *)
Definition Aims (m : mem) (os : objects) (q : place) (sg : nat * string + nat) (parts : list seg) : Prop :=
  exists t,
    match sg with
    | inl (f, x) => m_kind m (p_alloc q) = AStack /\ m_slot m (p_alloc q) = Some (f, x, t)
    | inr i => m_kind m (p_alloc q) = AHeap /\
               exists p c, nth_error os i = Some (p, c) /\ p_alloc p = p_alloc q /\ t = type_of m c
    end /\
    locate_address_in_type (m_layout m t) (m_asize m (p_alloc q)) (p_meta q) (p_off q) = Some parts.

(** [v] shows the value of type [t] at [p]. *)
Inductive Denotes (m : mem) (u8 : nat) (os : objects) : within -> place -> ty -> mvalue -> Prop :=
| d_scalar w p k z z' : m_scalar m p k = Scalar z -> Cut k z z' -> Denotes m u8 os w p (TPrim k) (MScalar k z')
| d_uninit w p k : m_scalar m p k = Uninit -> Denotes m u8 os w p (TPrim k) (MUnalloc None)
| d_box w p id v : Denotes m u8 os (Some HBox) (field_place m p (TBox id) None 0) (unique id) v ->
    Denotes m u8 os w p (TBox id) (MAdt "Box" None [("0", v)] (Some HBox))
| d_tuple w p ts vs : length vs = length ts ->
    (forall i t v, nth_error ts i = Some t -> nth_error vs i = Some v -> Denotes m u8 os w (field_place m p (TTuple ts) None i) t v) ->
    Denotes m u8 os w p (TTuple ts) (MTuple vs)
| d_closure w p n ups vs : map fst vs = map fst ups ->
    (forall i x t y v, nth_error ups i = Some (x, t) -> nth_error vs i = Some (y, v) ->
      Denotes m u8 os w (field_place m p (TClosure n ups) None i) t v) ->
    Denotes m u8 os w p (TClosure n ups) (MAdt n None vs None)
| d_struct w p n args fs k vs : Owns m u8 w p (TStruct n args fs) k ->
    map fst vs = map (fun x => fst (snd x)) (shown_fields m fs) ->
    (forall j i x t y v, nth_error (shown_fields m fs) j = Some (i, (x, t)) -> nth_error vs j = Some (y, v) ->
      Denotes m u8 os (inside w k) (field_place m p (TStruct n args fs) None i) t v) ->
    Denotes m u8 os w p (TStruct n args fs) (MAdt n None vs k)
| d_enum w p n vars i vn fs vs : m_variant m p = Some i -> nth_error vars i = Some (vn, fs) ->
    map fst vs = map (fun x => fst (snd x)) (shown_fields m fs) ->
    (forall j f x t y v, nth_error (shown_fields m fs) j = Some (f, (x, t)) -> nth_error vs j = Some (y, v) ->
      Denotes m u8 os w (field_place m p (TEnum n vars) (Some i) f) t v) ->
    Denotes m u8 os w p (TEnum n vars) (MAdt n (Some vn) vs None)
| d_array_all w p el n vs : n <= 12 -> length vs = n ->
    (forall i v, nth_error vs i = Some v -> Denotes m u8 os w (nth_place p (m_size m el) i) el v) ->
    Denotes m u8 os w p (TArray el n) (MArray (AllOf vs))
| d_array_some w p el n vs l : 12 < n -> length vs = 11 ->
    (forall i v, nth_error vs i = Some v -> Denotes m u8 os w (nth_place p (m_size m el) i) el v) ->
    Denotes m u8 os w (nth_place p (m_size m el) (n - 1)) el l ->
    Denotes m u8 os w p (TArray el n) (MArray (Only vs l))
| d_points w p id q sg parts : m_ptr m p = Points q -> Aims m os q sg parts ->
    Denotes m u8 os w p (TPtr id) (MPtr sg parts (p_meta q))
| d_hidden w p id q n : m_ptr m p = Points q -> m_kind m (p_alloc q) = AStack -> m_slot m (p_alloc q) = None ->
    Denotes m u8 os w p (TPtr id) (MUnalloc (Some n))
| d_dangling w p id a n : m_ptr m p = Dangling (Some a) -> Denotes m u8 os w p (TPtr id) (MUnalloc (Some n))
| d_nowhere w p id : m_ptr m p = Dangling None -> Denotes m u8 os w p (TPtr id) (MUnalloc None).

(** A byte is shown as the character with its number. *)
Definition Byte (m : mem) (p : place) (v : mvalue) : Prop :=
  exists z z', m_scalar m p PUint = Scalar z /\ Cut PUint z z' /\ v = MScalar PChar z'.

(** [v] shows the contents at [p]. *)
Inductive Contents (m : mem) (u8 : nat) (os : objects) (p : place) : content -> mvalue -> Prop :=
| c_value t v : Denotes m u8 os None p t v -> Contents m u8 os p (CValue t) v
| c_elems len el v : Denotes m u8 os None p (TArray (m_ty m el) len) v -> Contents m u8 os p (CElems len el) v
| c_chars_all len t vs : len <= 12 -> length vs = len ->
    (forall i v, nth_error vs i = Some v -> Byte m (nth_place p (m_size m t) i) v) ->
    Contents m u8 os p (CChars len t) (MArray (AllOf vs))
| c_chars_some len t vs l : 12 < len -> length vs = 11 ->
    (forall i v, nth_error vs i = Some v -> Byte m (nth_place p (m_size m t) i) v) ->
    Byte m (nth_place p (m_size m t) (len - 1)) l ->
    Contents m u8 os p (CChars len t) (MArray (Only vs l)).

(** An object is what some pointer of the program points to. *)
Definition Real (m : mem) (u8 : nat) (vars : list (place * ty)) (x : place * content) : Prop :=
  exists w p id, Holds m u8 vars w p (TPtr id) /\ m_ptr m p = Points (fst x) /\ snd x = content_of m w id /\
    m_kind m (p_alloc (fst x)) = AHeap.

(** The state is right: every variable shows its value, and every object of the heap shows
    what a pointer of the program points to. *)
Definition Right (m : mem) (u8 : nat) (vars : list (place * ty)) (vs heap : list mvalue) : Prop :=
  exists os,
    Forall2 (fun x v => Denotes m u8 os None (fst x) (snd x) v) vars vs /\
    Forall2 (fun x v => Contents m u8 os (fst x) (snd x) v) os heap /\
    Forall (Real m u8 vars) os.

(** Values that consist of data and of what they own: no references outside of boxes. *)
Inductive Owned (u8 : nat) : ty -> Prop :=
| owned_prim k : Owned u8 (TPrim k)
| owned_box id : Owned u8 (TBox id)
| owned_string : Owned u8 (string_ty u8)
| owned_vec el : Owned u8 (vec u8 el)
| owned_tuple ts : (forall t, In t ts -> Owned u8 t) -> Owned u8 (TTuple ts)
| owned_struct n args fs : n <> "String" -> n <> "Vec" -> (forall x t, In (x, t) fs -> Owned u8 t) ->
    Owned u8 (TStruct n args fs)
| owned_enum n vs : (forall x fs y t, In (x, fs) vs -> In (y, t) fs -> Owned u8 t) -> Owned u8 (TEnum n vs)
| owned_array el n : Owned u8 el -> Owned u8 (TArray el n)
| owned_closure n ups : (forall x t, In (x, t) ups -> Owned u8 t) -> Owned u8 (TClosure n ups).

(** The types of the program ([str] is always behind a pointer): [Vec] and [String] are those of the standard library, and the
    elements of vectors are [Owned]. *)
Inductive Usual (m : mem) (u8 : nat) : ty -> Prop :=
| usual_prim k : Usual m u8 (TPrim k)
| usual_box id : Usual m u8 (TBox id)
| usual_ptr id : Usual m u8 (TPtr id)
| usual_string : Usual m u8 (string_ty u8)
| usual_vec el : Owned u8 (m_ty m el) -> Usual m u8 (vec u8 el)
| usual_tuple ts : (forall t, In t ts -> Usual m u8 t) -> Usual m u8 (TTuple ts)
| usual_struct n args fs : n <> "String" -> n <> "Vec" -> (forall x t, In (x, t) fs -> Usual m u8 t) ->
    Usual m u8 (TStruct n args fs)
| usual_enum n vs : (forall x fs y t, In (x, fs) vs -> In (y, t) fs -> Usual m u8 t) -> Usual m u8 (TEnum n vs)
| usual_array el n : Usual m u8 el -> Usual m u8 (TArray el n)
| usual_closure n ups : (forall x t, In (x, t) ups -> Usual m u8 t) -> Usual m u8 (TClosure n ups)
| usual_slice t : Usual m u8 (TSlice t)
| usual_other : Usual m u8 TOther.

(** A program of usual types, of which the vectors and the strings are initialised. *)
Record Program (m : mem) (u8 : nat) (vars : list (place * ty)) : Prop := {
  prog_byte : m_ty m u8 = TPrim PUint;
  prog_types : forall id, m_ty m id = TStr \/ Usual m u8 (m_ty m id);
  prog_vars : forall p t, In (p, t) vars -> Usual m u8 t;
  prog_lengths : forall w p el, Holds m u8 vars w p (vec u8 el) -> exists n, Length m u8 el p n;
  prog_strings : forall w p, Holds m u8 vars w p (string_ty u8) ->
    exists n, Length m u8 u8 (field_place m p (string_ty u8) None 0) n
}.

(** ** States that can be shown *)

(** The address [q] can be expressed as a path, whichever way its allocation was found. *)
Definition Resolves (m : mem) (u8 : nat) (vars : list (place * ty)) (q : place) : Prop :=
  let finds t := locate_address_in_type (m_layout m t) (m_asize m (p_alloc q)) (p_meta q) (p_off q) <> None in
  (forall f x t, m_slot m (p_alloc q) = Some (f, x, t) -> finds t) /\
  (forall o, Real m u8 vars o -> p_alloc (fst o) = p_alloc q -> finds (type_of m (snd o))).

(** The value of type [t] at [p] is in order: memory can be read by its types, these are types that the
    reader knows, no pointer leads back to itself, and pointers can be expressed as paths. *)
Inductive Ready (m : mem) (u8 : nat) (vars : list (place * ty)) : within -> place -> ty -> Prop :=
| ready_prim w p k : (forall e, m_scalar m p k <> BadScalar e) -> Ready m u8 vars w p (TPrim k)
| ready_box w p id : Ready m u8 vars (Some HBox) (field_place m p (TBox id) None 0) (unique id) -> Ready m u8 vars w p (TBox id)
| ready_tuple w p ts : (forall i t, nth_error ts i = Some t -> Ready m u8 vars w (field_place m p (TTuple ts) None i) t) ->
    Ready m u8 vars w p (TTuple ts)
| ready_closure w p n ups : (forall i x t, nth_error ups i = Some (x, t) -> Ready m u8 vars w (field_place m p (TClosure n ups) None i) t) ->
    Ready m u8 vars w p (TClosure n ups)
| ready_struct w p n args fs k : Owns m u8 w p (TStruct n args fs) k ->
    (forall i x t, nth_error fs i = Some (x, t) -> m_zst m t = false ->
      Ready m u8 vars (inside w k) (field_place m p (TStruct n args fs) None i) t) ->
    Ready m u8 vars w p (TStruct n args fs)
| ready_enum w p n vs v vn fs : m_variant m p = Some v -> nth_error vs v = Some (vn, fs) ->
    (forall i x t, nth_error fs i = Some (x, t) -> m_zst m t = false ->
      Ready m u8 vars w (field_place m p (TEnum n vs) (Some v) i) t) ->
    Ready m u8 vars w p (TEnum n vs)
| ready_array w p el n : (forall i, i < n -> Ready m u8 vars w (nth_place p (m_size m el) i) el) -> Ready m u8 vars w p (TArray el n)
| ready_target w p id q : Elsewhere w -> m_ptr m p = Points q -> m_kind m (p_alloc q) <> AOther -> Resolves m u8 vars q ->
    Ready m u8 vars None q (m_ty m id) -> Ready m u8 vars w p (TPtr id)
| ready_elems p id q len el : m_ptr m p = Points q -> m_kind m (p_alloc q) <> AOther -> Resolves m u8 vars q ->
    (forall i, i < len -> Ready m u8 vars None (nth_place q (m_size m (m_ty m el)) i) (m_ty m el)) ->
    Ready m u8 vars (Some (HVec len el)) p (TPtr id)
| ready_chars p id q len : m_ptr m p = Points q -> m_kind m (p_alloc q) <> AOther -> Resolves m u8 vars q ->
    (forall i, i < len -> exists z, m_scalar m (nth_place q (m_size m (m_ty m id)) i) PUint = Scalar z) ->
    Ready m u8 vars (Some (HString len)) p (TPtr id)
| ready_dangling w p id a : m_ptr m p = Dangling a -> Ready m u8 vars w p (TPtr id).
