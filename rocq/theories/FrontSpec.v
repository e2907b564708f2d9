(** * What showing an execution should mean *)

From Coq Require Import Ascii String.
From Coq Require Import List Arith Bool.
From Verif Require Import Base TraceModel ValuesModel BookModel FrontModel.
Import ListNotations.

(** ** Which states are shown *)

(** A mark fits a state if it lies in the body of the innermost function, behind
    the beginning of the current location. *)
Definition Fits (mark : nat) (s : fstep) : Prop :=
  exists outer f, m_frames s = outer ++ [f] /\
    body_lo (f_info f) <= mark <= body_hi (f_info f) /\ loc_lo (f_loc f) < mark.

(** The state with number [k] is the last that fits. *)
Definition LastFit (steps : list fstep) (mark k : nat) : Prop :=
  (exists s, nth_error steps k = Some s /\ Fits mark s) /\
  forall j s, k < j -> nth_error steps j = Some s -> ~ Fits mark s.

(** In every state there is a function running (C40). *)
Definition running (steps : list fstep) : Prop := Forall (fun s => m_frames s <> []) steps.

(** ** What a value is drawn as *)

(** The raw pointer inside a vector, string or box. *)
Inductive Special : alloc_kind -> list (str * value) -> value -> Prop :=
| Sp_vec fs n1 raw k1 n2 inner k2 n3 uniq k3 n4 key p rest k4 :
    aget str_eqd fs (lit "buf") = Some (VAdt n1 raw k1) ->
    aget str_eqd raw (lit "inner") = Some (VAdt n2 inner k2) ->
    aget str_eqd inner (lit "ptr") = Some (VAdt n3 uniq k3) ->
    aget str_eqd uniq (lit "pointer") = Some (VAdt n4 ((key, p) :: rest) k4) ->
    Special KVec fs p
| Sp_string fs n vfs k p :
    aget str_eqd fs (lit "vec") = Some (VAdt n vfs k) -> Special KVec vfs p -> Special KString fs p
| Sp_box fs n3 uniq k3 n4 key p rest k4 :
    aget str_eqd fs (lit "0") = Some (VAdt n3 uniq k3) ->
    aget str_eqd uniq (lit "pointer") = Some (VAdt n4 ((key, p) :: rest) k4) ->
    Special KBox fs p.

(** A struct is drawn as another value ([Some]) or by its fields ([None]). *)
Inductive DrawnAs : bool -> str -> list (str * value) -> option alloc_kind -> option value -> Prop :=
| D_concrete name fs : DrawnAs true name fs None None
| D_concrete_special name fs k p : Special k fs p -> DrawnAs true name fs (Some k) None
| D_special name fs k p : Special k fs p -> DrawnAs false name fs (Some k) (Some p)
| D_iter fs n key p rest k :
    aget str_eqd fs (lit "ptr") = Some (VAdt n ((key, p) :: rest) k) -> DrawnAs false (lit "Iter") fs None (Some p)
| D_plain name fs : name <> lit "Iter" -> DrawnAs false name fs None None.

(** The value can be drawn: nothing in it that is taken apart has another shape. *)
Inductive Drawable (c : bool) : value -> Prop :=
| Dr_text s : Drawable c (VText s)
| Dr_char n : Drawable c (VChar n)
| Dr_dead a : Drawable c (VDead a)
| Dr_ptr r parts : Drawable c (VPtr r parts)
| Dr_tuple l : Forall (Drawable c) l -> Drawable c (VTuple l)
| Dr_array l o : Forall (Drawable c) l -> (forall x, o = Some x -> Drawable c x) -> Drawable c (VArray l o)
| Dr_as name fs k u : DrawnAs c name fs k (Some u) -> Drawable c u -> Drawable c (VAdt name fs k)
| Dr_fields name fs k : DrawnAs c name fs k None -> Forall (fun f => Drawable c (snd f)) fs -> Drawable c (VAdt name fs k).

(** [Inside c v ps u]: in the drawing of [v] there is a place for the path [ps], and
    [u] is drawn there. *)
Inductive Inside (c : bool) : value -> list part -> value -> Prop :=
| In_here v : Inside c v [] v
| In_tuple l i v ps u : nth_error l i = Some v -> Inside c v ps u -> Inside c (VTuple l) (PField i :: ps) u
| In_array l o i v ps u : nth_error l i = Some v -> Inside c v ps u -> Inside c (VArray l o) (PIndex i :: ps) u
| In_last l x ps u : Inside c x ps u -> Inside c (VArray l (Some x)) (PIndex 100 :: ps) u
| In_field name fs k i key v ps u :
    DrawnAs c name fs k None -> nth_error fs i = Some (key, v) -> Inside c v ps u -> Inside c (VAdt name fs k) (PField i :: ps) u
| In_as name fs k w p ps u :
    DrawnAs c name fs k (Some w) -> Inside c w (p :: ps) u -> Inside c (VAdt name fs k) (p :: ps) u.

(** [v] is drawn as a pointer. *)
Inductive ShownPtr (c : bool) : value -> root -> list seg -> Prop :=
| Sh_ptr r parts : ShownPtr c (VPtr r parts) r parts
| Sh_as name fs k w r parts : DrawnAs c name fs k (Some w) -> ShownPtr c w r parts -> ShownPtr c (VAdt name fs k) r parts.

(** Where the arrow of a pointer should end, and the end of the range.  A pointer to
    the first element is drawn to the whole array; a slice points to its first
    element. *)
Definition part_of (s : seg) : part :=
  match s with Field i => PField i | Index i => PIndex i | Subslice lo _ => PIndex lo end.
Inductive Target : list seg -> list part -> option (list part) -> Prop :=
| T_first qs : Target (qs ++ [Index 0]) (map part_of qs) None
| T_slice qs lo hi : Target (qs ++ [Subslice lo hi]) (map part_of qs ++ [PIndex lo]) (Some (map part_of qs ++ [PIndex hi]))
| T_other qs : (forall ps, qs <> ps ++ [Index 0]) -> (forall ps lo hi, qs <> ps ++ [Subslice lo hi]) -> Target qs (map part_of qs) None.

(** [v] is the value of a variable of a frame, or an object on the heap. *)
Definition Stored (s : fstep) (r : root) (v : value) : Prop :=
  match r with
  | RStack i name => exists f, nth_error (m_frames s) i = Some f /\ In (name, v) (locals (f_info f))
  | RHeap i => nth_error (m_heap s) i = Some v
  end.

(** In state [s] there is a place for the path [ps] in [r], where [u] is drawn. *)
Definition Place (c : bool) (s : fstep) (r : root) (ps : list part) (u : value) : Prop :=
  exists w, In (r, w) (roots s) /\ Inside c w ps u.

(** In state [s] a pointer to [parts] of [r] is drawn. *)
Definition HasPtr (c : bool) (s : fstep) (r : root) (parts : list seg) : Prop :=
  exists r0 ps v, Place c s r0 ps v /\ ShownPtr c v r parts.

(** The path leads somewhere: through tuples, structs drawn by their fields, and
    elements of arrays that are drawn. *)
Inductive Leads (c : bool) : value -> list seg -> Prop :=
| L_here v : Leads c v []
| L_tuple l i v ps : nth_error l i = Some v -> Leads c v ps -> Leads c (VTuple l) (Field i :: ps)
| L_field name fs k i key v ps :
    DrawnAs c name fs k None -> nth_error fs i = Some (key, v) -> Leads c v ps -> Leads c (VAdt name fs k) (Field i :: ps)
| L_index l o i v ps : nth_error l i = Some v -> Leads c v ps -> Leads c (VArray l o) (Index i :: ps)
| L_slice l o lo hi : lo < length l -> hi < length l -> Leads c (VArray l o) [Subslice lo hi].

(** ** Characters: UTF-16 *)

Definition utf16 (c : nat) : list nat :=
  if c <? 256 * 256 then [c]
  else [216 * 256 + (c - 256 * 256) / 1024; 220 * 256 + (c - 256 * 256) mod 1024].

(** ** Arrows *)

(** The number of an arrow among those of the same two regions. *)
Definition group_eqd : forall x y : group, {x = y} + {x <> y}.
Proof. decide equality; decide equality. Defined.
Definition own_number {T} (grp : T -> group) (before : list T) (x : T) : nat :=
  length (filter (fun y => if group_eqd (grp y) (grp x) then true else false) before).
