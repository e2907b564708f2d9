(** Model of places, path interning, the derivation of permission facts
    (crates/aquascope/src/analysis/permissions/output.rs) and the queries on
    them (crates/aquascope/src/analysis/permissions/context.rs).

    Everything rustc provides is an input record [Inp]: the polonius facts, the
    move data, and the pure rustc/rustc_utils functions ([normalize],
    [interior_paths], [places_conflict], types of places). *)

From Coq Require Import List Arith Bool Lia.
From Verif Require Import Base PermsModel.
Import ListNotations.

(** ** Places *)

(** rustc [ProjectionElem], reduced to the distinctions the code makes. *)
Inductive Elem :=
| Deref
| Field (i : nat)
| Index (i : nat)
| ConstantIndex (i : nat)
| Subslice (i j : nat)
| Downcast (i : nat).

Definition elem_eqd : forall x y : Elem, {x = y} + {x <> y}.
Proof. decide equality; apply Nat.eq_dec. Defined.

(** rustc [Place]: a local and a projection list. *)
Record Place := mkPlace { local : nat; projection : list Elem }.

Definition place_eqd : forall x y : Place, {x = y} + {x <> y}.
Proof. decide equality; [apply (list_eq_dec elem_eqd) | apply Nat.eq_dec]. Defined.

(** The kind of a type, as far as the code looks at it. *)
Inductive TyKind :=
| TRef (mutable : bool)
| TAdt (has_dtor is_box : bool)
| TOther.  (* includes raw pointers: [ref_mutability] answers [None] for them *)

Definition Point := nat.
Definition Path := nat.
Definition Loan := nat.
Definition Move := nat.
Definition MPath := nat.

Record Inp := mkInp {
  in_places : list Place;                 (* body.all_places *)
  in_move_paths : list Place;             (* move_data.move_paths[i].place *)
  in_moves : list (MPath * Point);        (* move_data.moves[i]: path, start point of its source *)
  in_parents : MPath -> list MPath;       (* MovePath::parents *)
  in_interior : Place -> list Place;      (* PlaceExt::interior_paths *)
  in_normalize : Place -> Place;          (* PlaceExt::normalize *)
  in_cfg_edge : list (Point * Point);
  in_uninit_exit : list (Point * list MPath); (* path_maybe_uninitialized_on_exit *)
  in_child_path : list (MPath * MPath);   (* (child, parent) *)
  in_assigned : list (MPath * Point);     (* path_assigned_at_base *)
  in_conflict : Place -> Place -> bool;   (* places_conflict(.., a, b, Overlap) *)
  in_loan_issued : list Loan;             (* loan_issued_at, middle component *)
  in_loan_place : Loan -> Place;          (* borrow.borrowed_place() *)
  in_loan_mut : Loan -> bool;             (* BorrowKind::Mut *)
  in_loan_live : list (Point * list Loan);    (* polonius_output.loan_live_at *)
  in_var_live : list (Point * list nat);  (* polonius_output.var_live_on_entry *)
  in_local_mut : nat -> bool;             (* local_decls[l].mutability == Mut *)
  in_ty : Place -> TyKind;                (* place.ty(..).ty *)
  in_copyable : Place -> bool             (* ty.is_copyable *)
}.

(** ** Interning (context.rs:66-99) *)

Record Ctxt := mkCtxt {
  place_data : list Place;                (* IndexVec<Path, Place> *)
  rev_lookup : list (nat * list Path)     (* HashMap<Local, Vec<Path>> *)
}.

Definition empty_ctxt : Ctxt := mkCtxt [] [].

(** context.rs:66-72 [new_path] *)
Definition new_path (norm : Place -> Place) (c : Ctxt) (place : Place) : Ctxt * Path :=
  let place := norm place in
  let new := length (place_data c) in
  let lookup := match aget Nat.eq_dec (rev_lookup c) (local place) with
                | Some v => v | None => [] end in
  (mkCtxt (place_data c ++ [place])
          (aset Nat.eq_dec (rev_lookup c) (local place) (lookup ++ [new])),
   new).

(** context.rs:101-103 [path_to_place]; [None] is an out-of-bounds panic. *)
Definition path_to_place (c : Ctxt) (p : Path) : option Place := nth_error (place_data c) p.

(** context.rs:85-99 [place_to_path]; [None] is a panic (missing local, or no
    path of the local has this place). *)
Definition place_to_path (norm : Place -> Place) (c : Ctxt) (p : Place) : option Path :=
  let p := norm p in
  match aget Nat.eq_dec (rev_lookup c) (local p) with
  | None => None
  | Some paths =>
      find (fun path => match path_to_place c path with
                        | Some q => if place_eqd q p then true else false
                        | None => false end) paths
  end.

(** output.rs:190-193: all places are registered in order. *)
Definition register_all (norm : Place -> Place) (c : Ctxt) (ps : list Place) : Ctxt :=
  fold_left (fun c p => fst (new_path norm c p)) ps c.

(** ** Type-level permissions *)

Definition is_deref (e : Elem) : bool := match e with Deref => true | _ => false end.

(** rustc [Place::is_indirect] *)
Definition is_indirect (p : Place) : bool := existsb is_deref (projection p).

(** rustc [Place::iter_projections]: every element with the prefix before it. *)
Fixpoint iter_projections_from (l : nat) (pre : list Elem) (rest : list Elem)
  : list (Place * Elem) :=
  match rest with
  | [] => []
  | e :: r => (mkPlace l pre, e) :: iter_projections_from l (pre ++ [e]) r
  end.
Definition iter_projections (p : Place) : list (Place * Elem) :=
  iter_projections_from (local p) [] (projection p).

(** context.rs:206-209 [is_declared_readonly] *)
Definition is_declared_readonly (inp : Inp) (p : Place) : bool := negb (in_local_mut inp (local p)).

(** output.rs:361-386 [is_never_write] (on the place of the path) *)
Definition is_never_write (inp : Inp) (place : Place) : bool :=
  (negb (is_indirect place) && is_declared_readonly inp place)
  || existsb
       (fun prefix =>
          match in_ty inp prefix with
          | TRef mutable => negb mutable
          | _ => is_declared_readonly inp (mkPlace (local prefix) [])
          end)
       (map fst (filter (fun pe => is_deref (snd pe)) (iter_projections place))).

(** context.rs:249-257 the index test of [is_path_drop_enabled] *)
Definition is_index_elem (e : Elem) : bool :=
  match e with Index _ | ConstantIndex _ | Subslice _ _ => true | _ => false end.

(** context.rs:246-276 [is_path_drop_enabled] *)
Definition is_drop_enabled (inp : Inp) (place : Place) : bool :=
  let contains_array_index := existsb (fun pe => is_index_elem (snd pe)) (iter_projections place) in
  let has_adt_prefix_with_dtor :=
    existsb (fun i =>
      match in_ty inp (mkPlace (local place) (firstn i (projection place))) with
      | TAdt dtor box => dtor && negb box
      | _ => false
      end) (seq 0 (length (projection place))) in
  negb (is_indirect place) && negb contains_array_index && negb has_adt_prefix_with_dtor.

(** ** Derivation (output.rs:175-491) *)

Definition all_registered_places (inp : Inp) : list Place :=
  in_places inp ++ in_move_paths inp.

Definition the_ctxt (inp : Inp) : Ctxt :=
  register_all (in_normalize inp) empty_ctxt (all_registered_places inp).

(** context.rs:136-138 [moveable_path_to_path] *)
Definition mpath_place (inp : Inp) (mp : MPath) : option Place := nth_error (in_move_paths inp) mp.

Definition mpath_to_path (inp : Inp) (mp : MPath) : option Path :=
  match mpath_place inp mp with
  | None => None
  | Some pl => place_to_path (in_normalize inp) (the_ctxt inp) pl
  end.

(** [path_to_place (moveable_path_to_path mp)], used at output.rs:240, 306, 322 *)
Definition mpath_norm_place (inp : Inp) (mp : MPath) : option Place :=
  match mpath_to_path inp mp with
  | None => None
  | Some p => path_to_place (the_ctxt inp) p
  end.

Fixpoint traverse {A B} (f : A -> option B) (l : list A) : option (list B) :=
  match l with
  | [] => Some []
  | a :: r => match f a, traverse f r with
              | Some b, Some bs => Some (b :: bs)
              | _, _ => None
              end
  end.

Definition enumerate {A} (l : list A) : list (nat * A) := combine (seq 0 (length l)) l.

(** output.rs:230-252: the paths one move conflicts with. *)
Definition move_conflict_paths (inp : Inp) (mv : MPath * Point) : option (list Path) :=
  match mpath_norm_place inp (fst mv) with
  | None => None
  | Some place =>
      match traverse (place_to_path (in_normalize inp) (the_ctxt inp)) (in_interior inp place),
            traverse (mpath_to_path inp) (in_parents inp (fst mv)) with
      | Some l1, Some l2 => Some (l1 ++ l2)
      | _, _ => None
      end
  end.

(** output.rs:230-252 [move_conflicts_with] *)
Definition move_conflicts_with (inp : Inp) : option (list (Move * Path)) :=
  match traverse (fun im : nat * (MPath * Point) =>
                    match move_conflict_paths inp (snd im) with
                    | Some ps => Some (map (fun p => (fst im, p)) ps)
                    | None => None end)
                 (enumerate (in_moves inp)) with
  | Some ll => Some (concat ll)
  | None => None
  end.

(** output.rs:205-217 [path_maybe_uninitialized_on_exit] as (point, path) *)
Definition uninit_on_exit (inp : Inp) : option (list (Point * Path)) :=
  match traverse (fun pm : Point * list MPath =>
                    match traverse (mpath_to_path inp) (snd pm) with
                    | Some ps => Some (map (fun p => (fst pm, p)) ps)
                    | None => None end)
                 (in_uninit_exit inp) with
  | Some ll => Some (concat ll)
  | None => None
  end.

(** output.rs:257-265 [child_path] *)
Definition child_path (inp : Inp) : option (list (Path * Path)) :=
  traverse (fun cp : MPath * MPath =>
              match mpath_to_path inp (fst cp), mpath_to_path inp (snd cp) with
              | Some c, Some p => Some (c, p)
              | _, _ => None end)
           (in_child_path inp).

(** output.rs:303-334 the negated filter: does an assignment at [point2]
    conflict with the place of the move?  (An out-of-range move path would
    panic in Rust; [derive_permission_facts] below checks the ranges first.) *)
Definition killed (inp : Inp) (movep : Move) (point2 : Point) : bool :=
  match nth_error (in_moves inp) movep with
  | None => false
  | Some (mpath, _) =>
      match mpath_norm_place inp mpath with
      | None => false
      | Some place2 =>
          existsb (fun ap : MPath * Point =>
                     (snd ap =? point2) &&
                     match mpath_norm_place inp (fst ap) with
                     | Some place1 => in_conflict inp place1 place2
                     | None => false end)
                  (in_assigned inp)
      end
  end.

(** output.rs:279-284 seeds and 295-337 rule of [move_live_at] *)
Definition move_seeds (inp : Inp) : list (Move * Point) :=
  map (fun im : nat * (MPath * Point) => (fst im, snd (snd im))) (enumerate (in_moves inp)).

Definition move_step (inp : Inp) (mp : Move * Point) : list (Move * Point) :=
  map (fun p2 => (fst mp, p2))
      (filter (fun p2 => negb (killed inp (fst mp) p2))
              (nexts Nat.eq_dec (in_cfg_edge inp) (snd mp))).

Definition nat2_eqd := pair_eqd Nat.eq_dec Nat.eq_dec.

Definition move_universe (inp : Inp) : list (Move * Point) :=
  list_prod (seq 0 (length (in_moves inp)))
            (map snd (in_moves inp) ++ map snd (in_cfg_edge inp)).

Definition move_live_exit (inp : Inp) : list (Move * Point) :=
  closure nat2_eqd (move_step inp) (move_universe inp) (move_seeds inp).

(** output.rs:355-359: the shift by one control-flow edge. *)
Definition move_live_at (inp : Inp) : list (Move * Point) :=
  flat_map (fun mp : Move * Point =>
              map (fun p2 => (fst mp, p2)) (nexts Nat.eq_dec (in_cfg_edge inp) (snd mp)))
           (move_live_exit inp).

(** output.rs:289-293 seeds and 339-345 rule of
    [path_maybe_uninitialized_on_entry], tuples (path, point) *)
Definition uninit_seeds (inp : Inp) (exits : list (Point * Path)) : list (Path * Point) :=
  flat_map (fun pp : Point * Path =>
              map (fun p2 => (snd pp, p2)) (nexts Nat.eq_dec (in_cfg_edge inp) (fst pp)))
           exits.

Definition uninit_step (children : list (Path * Path)) (pp : Path * Point) : list (Path * Point) :=
  map (fun parent => (parent, snd pp)) (nexts Nat.eq_dec children (fst pp)).

Definition uninit_on_entry (inp : Inp) (exits : list (Point * Path))
    (children : list (Path * Path)) : list (Path * Point) :=
  let seeds := uninit_seeds inp exits in
  closure nat2_eqd (uninit_step children)
    (list_prod (map fst seeds ++ map snd children) (map snd seeds)) seeds.

(** output.rs:389-405 [loan_conflicts_with] *)
Definition loan_conflicts_with (inp : Inp) : option (list (Loan * Path)) :=
  traverse (fun lp : Loan * Place =>
              match place_to_path (in_normalize inp) (the_ctxt inp) (snd lp) with
              | Some p => Some (fst lp, p)
              | None => None end)
    (filter (fun lp : Loan * Place => in_conflict inp (in_loan_place inp (fst lp)) (snd lp))
            (list_prod (in_loan_issued inp) (all_registered_places inp))).

(** output.rs:407-413 [loan_live_at] *)
Definition loan_live_at (inp : Inp) : list (Loan * Point) :=
  flat_map (fun pl : Point * list Loan => map (fun l => (l, fst pl)) (snd pl)) (in_loan_live inp).

(** datafrog [Relation]: sorted and deduplicated.  Triples are compared
    lexicographically, the derived [Ord] of tuples. *)
Definition triple := (nat * nat * nat)%type.
Definition triple_ltb (a b : triple) : bool :=
  let '(a1, a2, a3) := a in
  let '(b1, b2, b3) := b in
  (a1 <? b1) || ((a1 =? b1) && ((a2 <? b2) || ((a2 =? b2) && (a3 <? b3)))).

Fixpoint rel_insert (t : triple) (l : list triple) : list triple :=
  match l with
  | [] => [t]
  | u :: r => if triple_ltb t u then t :: l
              else if triple_ltb u t then u :: rel_insert t r
              else l
  end.

Definition relation_of (l : list triple) : list triple := fold_right rel_insert [] l.

(** output.rs:415-445: joins [(key, path)] with [(key, point)] on the key and
    produces (path, key, point), optionally filtered by the key. *)
Definition refine_join (keep : nat -> bool) (conf : list (nat * Path)) (live : list (nat * Point))
  : list triple :=
  relation_of
    (flat_map (fun kp : nat * Path =>
       map (fun pt => (snd kp, fst kp, pt))
           (filter (fun _ => keep (fst kp)) (nexts Nat.eq_dec live (fst kp)))) conf).

(** Nested hash maps [HashMap<Point, HashMap<Path, K>>] and output.rs:468-474
    [insert_facts!] *)
Definition NMap := list (Point * list (Path * nat)).

Definition nmap_row (m : NMap) (point : Point) : list (Path * nat) :=
  match aget Nat.eq_dec m point with Some r => r | None => [] end.

Definition nmap_insert (m : NMap) (t : triple) : NMap :=
  let '(path, key, point) := t in
  aset Nat.eq_dec m point (aset Nat.eq_dec (nmap_row m point) path key).

Definition insert_facts (l : list triple) : NMap := fold_left nmap_insert l [].

(** [get(point).unwrap_or(empty).get(path)], context.rs:355-388 *)
Definition nmap_get (m : NMap) (point : Point) (path : Path) : option nat :=
  aget Nat.eq_dec (nmap_row m point) path.

(** output.rs:443-457 [never_write], and the filled maps: [Output] *)
Record Output := mkOut {
  o_never_write : list Path;
  o_loan_read : NMap;
  o_loan_write : NMap;
  o_loan_drop : NMap;
  o_uninit : list (Path * Point);
  o_move : NMap
}.

(** All move-path indices mentioned by the facts are in range.  rustc builds
    the facts from the same tables, so an index panic cannot happen there; the
    model makes the check explicit and up front. *)
Definition indices_ok (inp : Inp) : bool :=
  let n := length (in_move_paths inp) in
  forallb (fun ap : MPath * Point => fst ap <? n) (in_assigned inp)
  && forallb (fun mv : MPath * Point => fst mv <? n) (in_moves inp).

(** output.rs:175-491 [derive_permission_facts]; [None] is a panic. *)
Definition derive_permission_facts (inp : Inp) : option Output :=
  if indices_ok inp then
    match uninit_on_exit inp, move_conflicts_with inp, child_path inp, loan_conflicts_with inp with
    | Some exits, Some mconf, Some children, Some lconf =>
        let live := loan_live_at inp in
        Some (mkOut
          (filter (fun path => match path_to_place (the_ctxt inp) path with
                               | Some pl => is_never_write inp pl
                               | None => false end)
                  (seq 0 (length (place_data (the_ctxt inp)))))
          (insert_facts (refine_join (in_loan_mut inp) lconf live))
          (insert_facts (refine_join (fun _ => true) lconf live))
          (insert_facts (refine_join (fun _ => true) lconf live))
          (uninit_on_entry inp exits children)
          (insert_facts (refine_join (fun _ => true) mconf (move_live_at inp))))
    | _, _, _, _ => None
    end
  else None.

(** ** Queries (context.rs) *)

(** context.rs:211-218 [is_path_live_at] on the local of the path *)
Definition is_live_at (inp : Inp) (pl : Place) (point : Point) : bool :=
  match aget Nat.eq_dec (in_var_live inp) point with
  | Some vars => memb Nat.eq_dec (local pl) vars
  | None => false
  end.

(** context.rs:342-395 [permissions_data_at_point] *)
Definition permissions_data_at_point (inp : Inp) (out : Output) (path : Path) (point : Point)
  : option PData :=
  match path_to_place (the_ctxt inp) path with
  | None => None
  | Some pl =>
      Some (mkPD (is_drop_enabled inp pl)
                 (negb (memb Nat.eq_dec path (o_never_write out)))
                 (in_copyable inp pl)
                 (is_live_at inp pl point)
                 (memb nat2_eqd (path, point) (o_uninit out))
                 (nmap_get (o_move out) point path)
                 (nmap_get (o_loan_read out) point path)
                 (nmap_get (o_loan_write out) point path)
                 (nmap_get (o_loan_drop out) point path))
  end.

(** The query as the stepper and the boundaries issue it: from a place. *)
Definition query (inp : Inp) (out : Output) (x : Place) (point : Point) : option PData :=
  match place_to_path (in_normalize inp) (the_ctxt inp) x with
  | None => None
  | Some path => permissions_data_at_point inp out path point
  end.

(** context.rs:425-440 [permissions_domain_at_point] for the places of the body *)
Definition permissions_domain_at_point (inp : Inp) (out : Output) (point : Point)
  : option (list (Place * PData)) :=
  traverse (fun pl => match query inp out pl point with
                      | Some d => Some (pl, d) | None => None end)
           (nodup place_eqd (in_places inp)).

(** ** Loan regions (context.rs:446-496)

    Points are mapped to spans by [span] (point_to_location, location_to_span). *)
Definition region_expand (span : Point -> nat * nat) (r : Point * Point) (p : Point) : Point * Point :=
  let e := if fst (span p) <? fst (span (fst r)) then p else fst r in
  let l := if snd (span (snd r)) <? snd (span p) then p else snd r in
  (e, l).

Definition region_insert (span : Point -> nat * nat)
    (h : list (Loan * (Point * Point))) (lp : Loan * Point) : list (Loan * (Point * Point)) :=
  let '(loan, p) := lp in
  let cur := match aget Nat.eq_dec h loan with Some r => r | None => (p, p) end in
  aset Nat.eq_dec h loan (region_expand span cur p).

Definition construct_loan_regions (span : Point -> nat * nat) (live : list (Point * list Loan))
  : list (Loan * (Point * Point)) :=
  fold_left (region_insert span)
    (flat_map (fun pl : Point * list Loan => map (fun l => (l, fst pl)) (snd pl)) live) [].
