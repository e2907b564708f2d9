(** Specification of how memory is shown. *)
From Coq Require Import List Arith Bool ZArith.
From Verif Require Import Base TraceModel ValuesModel.
Import ListNotations.

(** The elements of an array of [n] elements that are shown. *)
Definition shown_indices (n : nat) : list nat :=
  if n <=? 12 then seq 0 n else [0; 1; 2; 3; 4; 5; 6; 7; 8; 9; 10; n - 1].

Definition elements {T} (a : abbreviated T) : list T :=
  match a with AllOf v => v | Only initial last => initial ++ [last] end.

(** The array is said to be complete. *)
Definition complete {T} (a : abbreviated T) : Prop := match a with AllOf _ => True | Only _ _ => False end.

(** The object a path selects: its true offset in memory and its layout. *)
Fixpoint obj (l : layout) (p : list seg) {struct p} : option (nat * layout) :=
  match p with
  | [] => Some (0, l)
  | Field i :: p' =>
    match l with
    | Agg _ fields =>
      match nth_error fields i with
      | Some (off, f) => match obj f p' with Some (o, x) => Some (off + o, x) | None => None end
      | None => None
      end
    | _ => None
    end
  | Index k :: p' =>
    match l with
    | Arr n e => if k <? n
                 then match obj e p' with Some (o, x) => Some (k * size e + o, x) | None => None end
                 else None
    | _ => None
    end
  | Subslice _ _ :: _ => None
  end.

(** The path selects an object that starts at the offset. *)
Definition Starts (l : layout) (p : list seg) (off : nat) : Prop := exists x, obj l p = Some (off, x).

(** Fields follow each other in the order of declaration, without padding; no
    enums. *)
Fixpoint sum_sizes (fs : list (nat * layout)) : nat :=
  match fs with [] => 0 | (_, f) :: r => size f + sum_sizes r end.

Fixpoint packed (at_ : nat) (fs : list (nat * layout)) : Prop :=
  match fs with
  | [] => True
  | (off, f) :: r => off = at_ /\ packed (at_ + size f) r
  end.

Inductive Contiguous : layout -> Prop :=
| cont_prim s : Contiguous (Prim s)
| cont_opaque s : Contiguous (Opaque s)
| cont_agg fs : packed 0 fs -> (forall o f, In (o, f) fs -> Contiguous f) ->
    Contiguous (Agg (sum_sizes fs) fs)
| cont_arr n e : Contiguous e -> Contiguous (Arr n e).

(** ** The heap *)

(** A pointer to [alloc] is part of the value. *)
Inductive PointsTo (alloc : nat) : val -> Prop :=
| points_ptr off ty meta : PointsTo alloc (VPtr alloc off ty meta)
| points_part vs v : In v vs -> PointsTo alloc v -> PointsTo alloc (VParts vs).

(** No allocation leads back to itself: there is a rank that decreases along
    pointers. *)
Definition Acyclic (m : memory) : Prop :=
  exists rank, forall a off ty b, PointsTo b (mem_val m a off ty) -> rank b < rank a.

(** [mv] shows the value [v], when [place] tells where each allocation is shown
    and as which type. *)
Inductive Shown (m : memory) (place : nat -> option (segment * nat)) : val -> mval -> Prop :=
| shown_data n : Shown m place (VData n) (MData n)
| shown_parts vs mvs : Forall2 (Shown m place) vs mvs -> Shown m place (VParts vs) (MParts mvs)
| shown_ptr a off ty meta sg ty' parts : mem_dead m a = false -> place a = Some (sg, ty') ->
    locate_address_in_type (mem_layout m ty') (mem_size m a) meta off = Some parts ->
    Shown m place (VPtr a off ty meta) (MPointer sg parts meta)
| shown_dangling a off ty meta n : (mem_dead m a = true \/ mem_kind m a = KStack None) ->
    Shown m place (VPtr a off ty meta) (MUnallocated (Some n)).

(** [place] and [heap] fit: an allocation is shown as a heap object iff it is a
    heap allocation, the object shows its contents, different allocations are
    different objects, and every object belongs to an allocation. *)
Record Fits (m : memory) (place : nat -> option (segment * nat)) (heap : list mval) : Prop := {
  fits_kind : forall a sg ty, place a = Some (sg, ty) ->
    mem_dead m a = false /\
    ((mem_kind m a = KHeap /\ exists i, sg = Heap i) \/
     exists f l, sg = Stack f l /\ mem_kind m a = KStack (Some (f, l, ty)));
  fits_content : forall a i ty, place a = Some (Heap i, ty) ->
    exists off mv, nth_error heap i = Some mv /\ Shown m place (mem_val m a off ty) mv;
  fits_inj : forall a b i ty ty', place a = Some (Heap i, ty) -> place b = Some (Heap i, ty') -> a = b;
  fits_onto : forall i, i < length heap -> exists a ty, place a = Some (Heap i, ty)
}.
