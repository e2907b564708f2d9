(** * When two values are the same for a reader of the page *)
From Coq Require Import String.
From Coq Require Import List Arith Bool ZArith.
From Verif Require Import ValuesModel ReaderModel LookModel.
Import ListNotations.
Local Open Scope string_scope.
Local Open Scope list_scope.

(** ** Values of a type *)

(** The owners of a heap object: what the tool writes beside a struct that is called like them. *)
Inductive OwnerOf (name : string) (args : list nat) : option hkind -> Prop :=
| no_owner : OwnerOf name args None
| owner_string n : name = "String" -> OwnerOf name args (Some (HString n))
| owner_vec n el rest : name = "Vec" -> args = el :: rest -> OwnerOf name args (Some (HVec n el)).

(** [Shaped empty t v]: [v] has the form of the values of type [t].  [empty] are the types
    without content, of which the fields are left out. *)
Inductive Shaped (empty : ty -> bool) : ty -> mvalue -> Prop :=
| sh_scalar k z : Shaped empty (TPrim k) (MScalar k z)
| sh_uninit k : Shaped empty (TPrim k) (MUnalloc None)
| sh_box id v : Shaped empty (unique id) v -> Shaped empty (TBox id) (MAdt "Box" None [("0", v)] (Some HBox))
| sh_tuple ts vs : Forall2 (Shaped empty) ts vs -> Shaped empty (TTuple ts) (MTuple vs)
| sh_struct name args fs vs k : OwnerOf name args k ->
    Forall2 (fun f v => fst f = fst v /\ Shaped empty (snd f) (snd v)) (filter (fun f => negb (empty (snd f))) fs) vs ->
    Shaped empty (TStruct name args fs) (MAdt name None vs k)
| sh_enum name vars vn fs vs : In (vn, fs) vars ->
    Forall2 (fun f v => fst f = fst v /\ Shaped empty (snd f) (snd v)) (filter (fun f => negb (empty (snd f))) fs) vs ->
    Shaped empty (TEnum name vars) (MAdt name (Some vn) vs None)
| sh_array el n vs : length vs = n -> Forall (Shaped empty el) vs -> Shaped empty (TArray el n) (MArray (AllOf vs))
| sh_long el n vs x : length vs < n -> Forall (Shaped empty el) vs -> Shaped empty el x -> Shaped empty (TArray el n) (MArray (Only vs x))
| sh_str sg parts r : Shaped empty TStr (MPtr sg parts r)
| sh_str_dead a : Shaped empty TStr (MUnalloc a)
| sh_ptr id sg parts r : Shaped empty (TPtr id) (MPtr sg parts r)
| sh_ptr_dead id a : Shaped empty (TPtr id) (MUnalloc a)
| sh_closure name ups vs : Forall2 (fun f v => fst f = fst v /\ Shaped empty (snd f) (snd v)) ups vs ->
    Shaped empty (TClosure name ups) (MAdt name None vs None).

(** The variants of an enum have different names, as the compiler demands. *)
Inductive Named : ty -> Prop :=
| na_prim k : Named (TPrim k)
| na_box id : Named (TBox id)
| na_tuple ts : Forall Named ts -> Named (TTuple ts)
| na_struct name args fs : Forall (fun f => Named (snd f)) fs -> Named (TStruct name args fs)
| na_enum name vars : NoDup (map fst vars) -> Forall (fun v => Forall (fun f => Named (snd f)) (snd v)) vars -> Named (TEnum name vars)
| na_array el n : Named el -> Named (TArray el n)
| na_str : Named TStr
| na_slice el : Named (TSlice el)
| na_ptr id : Named (TPtr id)
| na_closure name ups : Forall (fun f => Named (snd f)) ups -> Named (TClosure name ups)
| na_other : Named TOther.

(** ** What stands for a value *)

(** The value of the first field of that name. *)
Definition FieldAt (v : mvalue) (k : string) (u : mvalue) : Prop :=
  exists n x before after kind, v = MAdt n x (before ++ (k, u) :: after) kind /\ ~ In k (map fst before).
(** Along some names. *)
Fixpoint Along (v : mvalue) (ks : list string) (u : mvalue) : Prop :=
  match ks with [] => u = v | k :: r => exists w, FieldAt v k w /\ Along w r u end.
(** The first field of all. *)
Definition FirstOf (v u : mvalue) : Prop := exists n x k rest kind, v = MAdt n x ((k, u) :: rest) kind.

(** [Stands v p]: for the vector, string, box or iterator [v] only its pointer [p] is shown. *)
Inductive Stands : mvalue -> mvalue -> Prop :=
| st_vec n x fs l el u p :
    Along (MAdt n x fs (Some (HVec l el))) ["buf"; "inner"; "ptr"; "pointer"] u -> FirstOf u p -> Stands (MAdt n x fs (Some (HVec l el))) p
| st_string n x fs l u p :
    Along (MAdt n x fs (Some (HString l))) ["vec"; "buf"; "inner"; "ptr"; "pointer"] u -> FirstOf u p -> Stands (MAdt n x fs (Some (HString l))) p
| st_box n x fs u p :
    Along (MAdt n x fs (Some HBox)) ["0"; "pointer"] u -> FirstOf u p -> Stands (MAdt n x fs (Some HBox)) p
| st_iter x fs u p : Along (MAdt "Iter" x fs None) ["ptr"] u -> FirstOf u p -> Stands (MAdt "Iter" x fs None) p.

(** Vectors, strings and boxes. *)
Definition Owner (v : mvalue) : Prop := exists n x fs k, v = MAdt n x fs (Some k).

(** Structs for which nothing stands. *)
Definition Open (v : mvalue) : Prop := exists n x fs, v = MAdt n x fs None /\ n <> "Iter".

(** ** The same for the reader *)

(** Two paths lead to the same place: equal, or one goes on to the first element. *)
Inductive SamePlace : list seg -> list seg -> Prop :=
| sp_refl ps : SamePlace ps ps
| sp_first ps : (forall qs, ps <> qs ++ [Index 0]) -> SamePlace ps (ps ++ [Index 0])
| sp_first' ps : (forall qs, ps <> qs ++ [Index 0]) -> SamePlace (ps ++ [Index 0]) ps.

(** [c]: all fields of all types are shown.  Then the lengths of pointers are, too, unless 0. *)
Definition SameLength (c : bool) (r r' : option nat) : Prop :=
  c = true -> forall n, (r = Some (S n) <-> r' = Some (S n)).

Inductive Agree (c : bool) : mvalue -> mvalue -> Prop :=
| ag_scalar k z : Agree c (MScalar k z) (MScalar k z)
| ag_dead a b : Agree c (MUnalloc a) (MUnalloc b)
| ag_ptr sg ps ps' r r' : SamePlace ps ps' -> SameLength c r r' -> Agree c (MPtr sg ps r) (MPtr sg ps' r')
| ag_tuple vs ws : Forall2 (Agree c) vs ws -> Agree c (MTuple vs) (MTuple ws)
| ag_array vs ws : Forall2 (Agree c) vs ws -> Agree c (MArray (AllOf vs)) (MArray (AllOf ws))
| ag_long vs ws x y : Forall2 (Agree c) vs ws -> Agree c x y -> Agree c (MArray (Only vs x)) (MArray (Only ws y))
| ag_stands v w p q : c = false -> Stands v p -> Stands w q -> (Owner v <-> Owner w) -> Agree c p q -> Agree c v w
| ag_fields n x fs gs k k' :
    (c = true \/ Open (MAdt n x fs k) /\ Open (MAdt n x gs k')) ->
    Forall2 (fun f g => fst f = fst g /\ Agree c (snd f) (snd g)) fs gs -> Agree c (MAdt n x fs k) (MAdt n x gs k').

(** The step that a part of a path takes into the cell it leads to: a field, an element, or the first element of a range. *)
Inductive Leads : seg -> step -> Prop :=
| ld_field i : Leads (Field i) (AtField i)
| ld_index i : Leads (Index i) (AtIndex i)
| ld_range lo hi : Leads (Subslice lo hi) (AtIndex lo).
(** The arrow of a pointer ends at the object, or inside along the path; a last step to the first element is left out: the arrow then ends at
    the whole.  If the path ends with a range of elements, so does the other end of the arrow, at the range's last. *)
Definition PointsTo (sg : nat * string + nat) (ps : list seg) (dst : aim) (range : option aim) : Prop :=
  (exists ps' steps, (ps = ps' ++ [Index 0] \/ ps' = ps /\ forall qs, ps <> qs ++ [Index 0]) /\ Forall2 Leads ps' steps /\ dst = (sg, steps)) /\
  match range with
  | Some r => exists qs steps lo hi, ps = qs ++ [Subslice lo hi] /\ Forall2 Leads qs steps /\ r = (sg, steps ++ [AtIndex hi])
  | None => forall qs lo hi, ps <> qs ++ [Subslice lo hi]
  end.

(** ** Values that can be read off *)

(** A range of elements ends a path. *)
Definition PlainPath (ps : list seg) : Prop := forall a b lo hi, ps = a ++ Subslice lo hi :: b -> b = [].

(** Neither a number that is too large, nor a character that is a space or one beyond the first
    65536, nor a negative zero, an infinity or a NaN. *)
Definition PlainScalar (k : prim) (z : Z) : Prop :=
  match k with
  | PBool => z = 0%Z \/ z = 1%Z
  | PChar => (0 <= z < 2 ^ 16)%Z /\ z <> 32%Z
  | PUint | PInt => (Z.abs z < 2 ^ 53)%Z
  | PFloat => (0 <= z < 2 ^ 64)%Z /\ z <> (2 ^ 63)%Z /\ ((z / 2 ^ 52) mod 2 ^ 11 <> 2047)%Z
  end.

Inductive Legible (c : bool) : mvalue -> Prop :=
| le_scalar k z : PlainScalar k z -> Legible c (MScalar k z)
| le_dead a : Legible c (MUnalloc a)
| le_ptr sg ps r : PlainPath ps -> Legible c (MPtr sg ps r)
| le_tuple vs : Forall (Legible c) vs -> Legible c (MTuple vs)
| le_array vs : Forall (Legible c) vs -> Legible c (MArray (AllOf vs))
| le_long vs x : Forall (Legible c) vs -> Legible c x -> Legible c (MArray (Only vs x))
| le_stands v sg ps r : c = false -> Stands v (MPtr sg ps r) -> PlainPath ps -> Legible c v
| le_stands_dead v a : c = false -> Stands v (MUnalloc a) -> Legible c v
| le_fields n x fs k : (c = true /\ (k <> None -> exists p, Stands (MAdt n x fs k) p) \/ Open (MAdt n x fs k)) ->
    Forall (fun f => Legible c (snd f)) fs -> Legible c (MAdt n x fs k).

(** Different doubles have different texts; [zero] and up are bit patterns. *)
Definition Distinct (ft : Z -> list nat) : Prop :=
  forall y z, PlainScalar PFloat y -> PlainScalar PFloat z -> ft y = ft z -> y = z.

(** ** Looks *)

(** The page shows [v] as [l]. *)
Definition Looks (ft : Z -> list nat) (c : bool) (err : option nat) (v : mvalue) (l : look) : Prop :=
  exists n, look_at n ft c err v = Some l.

(** ** States *)

Definition LooksState ft c err (s : msnap) pic : Prop := exists n, look_state n ft c err s = Some pic.

(** The variables have values of these types, the objects of the heap of those. *)
Definition StateShaped (empty : ty -> bool) (vars : list (list ty)) (objs : list ty) (s : msnap) : Prop :=
  Forall2 (fun ts fr => Forall2 (fun t l => Shaped empty t (l_value l)) ts (fr_locals fr)) vars (sn_frames s) /\
  Forall2 (Shaped empty) objs (sn_heap s).
Definition StateLegible (c : bool) (s : msnap) : Prop :=
  Forall (fun fr => Forall (fun l => Legible c (l_value l)) (fr_locals fr)) (sn_frames s) /\ Forall (Legible c) (sn_heap s).

(** The same functions run with variables of the same names, all or none of which is moved away
    as a whole, and with values that agree; so do the objects. *)
Definition WholeMoved (l : mlocal) : Prop := In [] (l_moved l).
Definition SameState (c : bool) (s s' : msnap) : Prop :=
  Forall2 (fun fr fr' => fr_name fr = fr_name fr' /\
    Forall2 (fun l l' => l_name l = l_name l' /\ (WholeMoved l <-> WholeMoved l') /\ Agree c (l_value l) (l_value l'))
      (fr_locals fr) (fr_locals fr')) (sn_frames s) (sn_frames s') /\
  Forall2 (Agree c) (sn_heap s) (sn_heap s').
