(** * Properties of how memory is shown *)

From Coq Require Import List Arith Bool Lia ZArith.
From Verif Require Import Base TraceModel ValuesModel ValuesSpec ValuesProofs.
Import ListNotations.

(** ** C35: arrays *)

(** Making an abbreviated array reads exactly the elements to be shown, in order;
    the first error, if there is one, is the result.  The array is said to be
    complete iff it has at most twelve elements. *)
Theorem C35_shows {S E T} n (mk : nat -> S -> (E + T) * S) s :
  match abbrev_new n mk s with
  | (inl e, s') => collect_state mk (shown_indices n) s = (inl e, s')
  | (inr a, s') => collect_state mk (shown_indices n) s = (inr (elements a), s') /\ (complete a <-> n <= 12)
  end.
Proof. apply abbrev_new_spec. Qed.
Print Assumptions C35_shows.

(** Only elements of the array are read. *)
Theorem C35_in_bounds n i : In i (shown_indices n) -> i < n.
Proof. apply shown_indices_bound. Qed.
Print Assumptions C35_in_bounds.

(** With a reader that cannot fail: the elements themselves. *)
Theorem C35_elements {T} n (get : nat -> T) :
  exists a, abbrev_new (E := Empty_set) n (fun i (s : unit) => (inr (get i), s)) tt = (inr a, tt) /\
    elements a = map get (shown_indices n) /\
    (n <= 12 -> a = AllOf (map get (seq 0 n))) /\
    (12 < n -> a = Only (map get (seq 0 11)) (get (n - 1))).
Proof.
  assert (C : forall l, collect_state (E := Empty_set) (fun i (s : unit) => (inr (get i), s)) l tt = (inr (map get l), tt)).
  { induction l as [|i l IH]; cbn [collect_state map]; auto. rewrite IH. auto. }
  unfold abbrev_new. rewrite !C. destruct (n <=? ABBREV_MAX) eqn:L.
  - apply Nat.leb_le in L. unfold ABBREV_MAX in L. eexists. split; [reflexivity|]. split.
    + cbn [elements]. unfold shown_indices. apply Nat.leb_le in L. rewrite L. auto.
    + split; [auto|lia].
  - apply Nat.leb_gt in L. eexists. split; [reflexivity|]. split.
    + cbn [elements]. rewrite shown_long by exact L. rewrite map_app. auto.
    + unfold ABBREV_MAX in L. split; [lia|auto].
Qed.
Print Assumptions C35_elements.

(** Converting the elements keeps which elements are shown. *)
Theorem C35_map {T U} (f : T -> U) a :
  elements (abbrev_map f a) = map f (elements a) /\ (complete (abbrev_map f a) <-> complete a).
Proof. destruct a; cbn; rewrite ?map_app; split; auto; tauto. Qed.
Print Assumptions C35_map.

Example C35_witness :
  abbrev_new (E := nat) 14 (fun i (log : list nat) => (if i =? 13 then inl 99 else inr i, log ++ [i])) [] =
  (inl 99, [0; 1; 2; 3; 4; 5; 6; 7; 8; 9; 10; 13]).
Proof. reflexivity. Qed.

(** ** C36: addresses *)

(** In an object whose fields are declared in memory order without padding, the
    path found for the address of a sub-object selects an object that starts
    there; it is the outermost such object. *)
Theorem C36_locates_partial l p t : Contiguous l -> Starts l p t -> t < size l ->
  exists q, locate t l 0 = Some q /\ Starts l q t /\
    forall k, k < length q -> ~ Starts l (firstn k q) t.
Proof. intros C S0 L. exact (locate_spec l C p t 0 S0 L). Qed.
Print Assumptions C36_locates_partial.

(** The same in an allocation of several objects of the same type, for a pointer
    without metadata. *)
Theorem C36_elements_partial e n p i t : Contiguous e -> Starts e p t -> t < size e -> i < n -> 1 < n ->
  exists q, locate_address_in_type e (n * size e) None (i * size e + t) = Some (Index i :: q) /\ Starts e q t.
Proof.
  intros C S0 L I N. unfold locate_address_in_type.
  assert (Lt : (size e <? n * size e) = true) by (apply Nat.ltb_lt; nia). rewrite Lt.
  destruct (size e) as [|z] eqn:Es; [lia|].
  assert (D : (i * S z + t) / S z = i).
  { rewrite Nat.div_add_l by lia. rewrite Nat.div_small by lia. lia. }
  rewrite D. destruct (locate_spec e C p t (i * S z) S0) as (q & E1 & E2 & _); [lia|].
  rewrite E1. eauto.
Qed.
Print Assumptions C36_elements_partial.

(** A struct with the fields u8 and u32: the address of its second field makes
    the search panic. *)
Theorem C36_panic_refuted : exists l p t, Starts l p t /\ t < size l /\ locate t l 0 = None.
Proof.
  exists (Agg 8 [(0, Prim 1); (4, Prim 4)]), [Field 1], 4.
  split; [eexists; reflexivity|]. split; [cbn; lia|reflexivity].
Qed.
Print Assumptions C36_panic_refuted.

(** A struct with the fields u32, u16 and u32, which the compiler reorders: the
    address of the third field is shown as the second field. *)
Theorem C36_wrong_refuted : exists l p t q, Starts l p t /\ t < size l /\
  locate t l 0 = Some q /\ ~ Starts l q t.
Proof.
  exists (Agg 12 [(0, Prim 4); (8, Prim 2); (4, Prim 4)]), [Field 2], 4, [Field 1].
  split; [eexists; reflexivity|]. split; [cbn; lia|]. split; [reflexivity|].
  intros (x & E). cbn in E. discriminate.
Qed.
Print Assumptions C36_wrong_refuted.

(** A pointer into an enum always panics, unless it points to its start. *)
Theorem C36_enum_refuted s t base : t <> base -> locate t (EnumL s) base = None.
Proof. intros N. cbn. replace (base =? t) with false; auto. symmetry. apply Nat.eqb_neq. auto. Qed.
Print Assumptions C36_enum_refuted.

(** A pointer into a [Vec] or [String] itself, like one to its length, is shown as a pointer to the whole. *)
Theorem C36_inside_refuted s t : 0 < t -> locate t (Opaque s) 0 = Some [] /\ ~ Starts (Opaque s) [] t.
Proof.
  intros L. split; [destruct t; [lia|reflexivity]|]. intros (x & E). cbn in E. injection E as E. lia.
Qed.
Print Assumptions C36_inside_refuted.

(** A pointer to the only element of a buffer is shown like a pointer to the
    whole buffer. *)
Theorem C36_single_refuted e : locate_address_in_type e (1 * size e) None 0 = Some [].
Proof.
  unfold locate_address_in_type. rewrite Nat.mul_1_l, Nat.ltb_irrefl. destruct e; reflexivity.
Qed.
Print Assumptions C36_single_refuted.

(** An array of pairs of which the second is a struct. *)
Module Layouts.
  Definition pair := Agg 6 [(0, Prim 2); (2, Agg 4 [(0, Prim 1); (1, Prim 3)])].
  Definition arr := Arr 3 pair.
  Lemma contiguous : Contiguous arr.
  Proof.
    apply cont_arr. apply (cont_agg [(0, Prim 2); (2, Agg 4 [(0, Prim 1); (1, Prim 3)])]); [cbn; auto|].
    intros o f [[= <- <-]|[[= <- <-]|[]]]; [constructor|].
    apply (cont_agg [(0, Prim 1); (1, Prim 3)]); [cbn; auto|].
    intros o f [[= <- <-]|[[= <- <-]|[]]]; constructor.
  Qed.
End Layouts.

Example C36_witness : Contiguous Layouts.arr /\ Starts Layouts.arr [Index 2; Field 1; Field 1] 15 /\
  15 < size Layouts.arr /\ locate 15 Layouts.arr 0 = Some [Index 2; Field 1; Field 1].
Proof.
  split; [apply Layouts.contiguous|]. split; [eexists; reflexivity|]. split; [cbn; lia|reflexivity].
Qed.

(** ** C37: slices *)

(** What is shown for a slice of [n] elements that starts with element [i] of a
    buffer of elements of size [z]. *)
Theorem C37_shown_as_partial e count i n : 0 < size e -> 1 < count -> 0 < n ->
  locate_address_in_type e (count * size e) (Some n) (i * size e) =
    if i + n / size e =? 0 then None else Some [Subslice i (i + n / size e - 1)].
Proof.
  intros Z C N. unfold locate_address_in_type.
  assert (Lt : (size e <? count * size e) = true) by (apply Nat.ltb_lt; nia). rewrite Lt.
  destruct (size e) as [|z] eqn:Es; [lia|].
  rewrite Nat.div_mul by lia. destruct (i + n / S z =? 0); auto.
  assert (L : locate (i * S z) e (i * S z) = Some []) by (destruct e; cbn [locate]; rewrite Nat.eqb_refl; auto).
  rewrite L. auto.
Qed.
Print Assumptions C37_shown_as_partial.

(** It is the range of the elements of the slice iff the elements are bytes. *)
Theorem C37_right_iff_bytes e count i n : 0 < size e -> 1 < count -> 0 < n ->
  locate_address_in_type e (count * size e) (Some n) (i * size e) = Some [Subslice i (i + n - 1)] <->
  size e = 1.
Proof.
  intros Z C N. rewrite C37_shown_as_partial by auto. split.
  - destruct (i + n / size e =? 0) eqn:E0; [discriminate|]. apply Nat.eqb_neq in E0. intros [= E].
    destruct (Nat.eq_dec (size e) 1) as [|Ne]; auto. assert (n / size e < n) by (apply Nat.div_lt; lia). lia.
  - intros ->. rewrite Nat.div_1_r. destruct (i + n =? 0) eqn:E0; auto. apply Nat.eqb_eq in E0. lia.
Qed.
Print Assumptions C37_right_iff_bytes.

(** A short slice of wide elements at the start of a buffer makes the tool panic;
    elsewhere it is shown to end before it starts. *)
Theorem C37_wide_refuted e count i n : 1 < size e -> 1 < count -> 0 < n -> n < size e ->
  locate_address_in_type e (count * size e) (Some n) (i * size e) =
    match i with 0 => None | S _ => Some [Subslice i (i - 1)] end.
Proof.
  intros Z C N L. rewrite C37_shown_as_partial by lia. rewrite Nat.div_small by auto. rewrite Nat.add_0_r.
  destruct i; reflexivity.
Qed.
Print Assumptions C37_wide_refuted.

(** A slice of an array on the stack is shown as a pointer to one element, or to
    the array. *)
Theorem C37_stack_refuted e count i n : 0 < size e -> i < count ->
  exists parts, locate_address_in_type (Arr count e) (count * size e) (Some n) (i * size e) = Some parts /\
    forall a b, ~ In (Subslice a b) parts.
Proof.
  intros Z I. unfold locate_address_in_type. cbn [size]. rewrite Nat.ltb_irrefl. cbn [locate].
  destruct (0 =? i * size e) eqn:E0; [exists []; split; [auto|intros a b []]|].
  cbn [Nat.ltb Nat.leb]. destruct (size e) as [|z] eqn:Es; [lia|].
  rewrite Nat.sub_0_r, Nat.div_mul by lia. rewrite Nat.add_0_l.
  replace (match i * S z with 0 => false | S _ => false end) with false by (destruct (i * S z); auto).
  assert (L : locate (i * S z) e (i * S z) = Some []) by (destruct e; cbn [locate]; rewrite Nat.eqb_refl; auto).
  rewrite L. exists [Index i]. split; [auto|]. intros a b [X|[]]. discriminate.
Qed.
Print Assumptions C37_stack_refuted.

Example C37_witness :
  locate_address_in_type (Prim 1) 10 (Some 4) 3 = Some [Subslice 3 6] /\
  locate_address_in_type (Prim 4) 40 (Some 8) 12 = Some [Subslice 3 4].
Proof. split; reflexivity. Qed.

(** ** C62: numbers *)

(** An unsigned number is shown with its value iff it fits 64 bits; a signed one
    likewise. *)
Theorem C62_uint_iff_partial v : (0 <= v)%Z -> show_uint v = v <-> (v < 2 ^ 64)%Z.
Proof.
  intros P. unfold show_uint. split.
  - intros <-. apply Z.mod_pos_bound. reflexivity.
  - intros L. apply Z.mod_small. auto.
Qed.
Print Assumptions C62_uint_iff_partial.

Theorem C62_int_iff_partial v : show_int v = v <-> (- 2 ^ 63 <= v < 2 ^ 63)%Z.
Proof.
  unfold show_int. assert (E : (2 ^ 64 = 2 * 2 ^ 63)%Z) by reflexivity.
  assert (P : (0 < 2 ^ 63)%Z) by reflexivity. rewrite E. set (h := (2 ^ 63)%Z) in *.
  pose proof (Z.mod_pos_bound v (2 * h)) as B. assert (B' : (0 <= v mod (2 * h) < 2 * h)%Z) by (apply B; lia). clear B.
  destruct (v mod (2 * h) <? h)%Z eqn:L; [apply Z.ltb_lt in L|apply Z.ltb_ge in L]; split.
  - intros X. lia.
  - intros X. destruct (Z.ltb_spec v 0).
    + assert (v mod (2 * h) = v + 2 * h)%Z; [|lia].
      symmetry. apply (Z.mod_unique v (2 * h) (-1)); lia.
    + apply Z.mod_small. lia.
  - intros X. lia.
  - intros X. destruct (Z.ltb_spec v 0).
    + assert (v mod (2 * h) = v + 2 * h)%Z; [|lia].
      symmetry. apply (Z.mod_unique v (2 * h) (-1)); lia.
    + assert (v mod (2 * h) = v)%Z by (apply Z.mod_small; lia). lia.
Qed.
Print Assumptions C62_int_iff_partial.

(** There are 128-bit numbers that are shown as others. *)
Theorem C62_wide_refuted :
  (exists v, 0 <= v < 2 ^ 128 /\ show_uint v <> v)%Z /\
  (exists v, - 2 ^ 127 <= v < 2 ^ 127 /\ show_int v <> v)%Z.
Proof.
  split; exists (2 ^ 64)%Z; (split; [split; vm_compute; congruence|vm_compute; congruence]).
Qed.
Print Assumptions C62_wide_refuted.

Example C62_witness : show_uint 255 = 255%Z /\ show_int (-7) = (-7)%Z /\ show_uint (2 ^ 64 + 5) = 5%Z.
Proof. repeat split. Qed.

(** ** C63: strings *)

(** A string is shown as its characters iff it is ASCII. *)
Theorem C63_ascii_partial s : show_string s = s <-> Forall (fun c => c < 128) s.
Proof. apply show_string_iff. Qed.
Print Assumptions C63_ascii_partial.

(** Other strings are shown with more characters than they have. *)
Theorem C63_refuted s : ~ Forall (fun c => c < 128) s -> length s < length (show_string s).
Proof.
  intros N. destruct (show_string_length s) as [L E]. destruct (Nat.eq_dec (length (show_string s)) (length s)); [|lia].
  exfalso. auto.
Qed.
Print Assumptions C63_refuted.

Example C63_witness : show_string [72; 233] = [72; 195; 169].
Proof. reflexivity. Qed.

(** ** C64: the heap *)

(** When no allocation leads back to itself: every shown value shows the value in
    memory, with one heap object for each heap allocation reached. *)
Theorem C64_heap_partial m fuel locals mvs heap : Acyclic m ->
  read_state m fuel locals = Ok (mvs, heap) ->
  exists place, Fits m place heap /\ Forall2 (Shown m place) locals mvs.
Proof.
  intros (rank & A) E. unfold read_state in E.
  destruct (read_seq (read m fuel) (Mmap [] [] []) locals) as [[mvs1 st]| |] eqn:E1; try discriminate.
  injection E as <- <-.
  assert (F0 : Fits m (place (Mmap [] [] [])) (mm_heap (Mmap [] [] []))).
  { constructor; cbn; intros; try discriminate. lia. }
  destruct (ptrs_bound rank locals) as (r & B).
  destruct (read_seq_good m rank (read m fuel) (read_good m rank A fuel) r locals _ mvs1 st F0 B E1) as (F & _ & W).
  exists (place st). auto.
Qed.
Print Assumptions C64_heap_partial.

(** In particular two pointers are shown to the same heap object iff they point
    into the same allocation. *)
Theorem C64_same_object_partial m fuel a off ty meta b off' ty' meta' sg parts sg' parts' range range' heap :
  Acyclic m ->
  read_state m fuel [VPtr a off ty meta; VPtr b off' ty' meta'] =
    Ok ([MPointer sg parts range; MPointer sg' parts' range'], heap) ->
  mem_kind m a = KHeap -> mem_kind m b = KHeap -> sg = sg' <-> a = b.
Proof.
  intros A E Ka Kb. destruct (C64_heap_partial m fuel _ _ _ A E) as (pl & F & W).
  inversion W as [|? ? ? ? S1 W1]; subst. inversion W1 as [|? ? ? ? S2 _]; subst.
  inversion S1 as [| |? ? ? ? ? ? ? D1 P1 L1|]; subst. inversion S2 as [| |? ? ? ? ? ? ? D2 P2 L2|]; subst.
  split.
  - intros ->. destruct (fits_kind _ _ _ F _ _ _ P1) as [_ [[_ (i & ->)]|(f & l & _ & X)]]; [|congruence].
    eapply fits_inj; eauto.
  - intros ->. congruence.
Qed.
Print Assumptions C64_same_object_partial.

(** Reading ends when no allocation leads back to itself. *)
Theorem C64_terminates m locals : Acyclic m ->
  exists F, forall fuel, F <= fuel -> read_state m fuel locals <> More.
Proof.
  intros (rank & A).
  assert (X : exists F, forall v, In v locals -> forall fuel, F <= fuel -> forall st, read m fuel st v <> More).
  { induction locals as [|v vs (F1 & H1)]; [exists 0; intros v []|].
    destruct (ptr_bound rank v) as (r & Hr). destruct (read_enough m rank A r v Hr) as (F2 & H2).
    exists (max F1 F2). intros w [<-|I] fuel L st; [apply H2; lia|apply H1; auto; lia]. }
  destruct X as (F & H). exists F. intros fuel L. unfold read_state.
  pose proof (read_seq_more (read m fuel) (Mmap [] [] []) locals) as N.
  destruct (read_seq (read m fuel) (Mmap [] [] []) locals) as [[mvs st]| |]; try discriminate.
  exfalso. apply N; auto.
Qed.
Print Assumptions C64_terminates.

(** An allocation that points to itself is read for ever (the tool overflows its
    stack). *)
Theorem C64_cycle_refuted : exists m v, forall fuel, read_state m fuel [v] = More.
Proof.
  exists (Memory (fun a _ _ => VPtr a 0 0 None) (fun _ => false) (fun _ => KHeap) (fun _ => 8) (fun _ => Prim 8)),
    (VPtr 0 0 0 None).
  intros fuel. unfold read_state. cbn [read_seq].
  match goal with |- context [read ?mm fuel ?st ?v] => assert (R : forall fuel, read mm fuel st v = More) end.
  { intros f. induction f as [|f IH]; auto. cbn [read mem_dead]. unfold read_pointer.
    cbn [mm_place aget mem_val]. rewrite IH. auto. }
  rewrite R. auto.
Qed.
Print Assumptions C64_cycle_refuted.

(** A struct that holds a reference to one of its own fields is shown as two heap
    objects. *)
Module SelfRef.
  (* type 0: the struct {7, pointer to the first field}; type 1: a number *)
  Definition m := Memory (fun _ _ ty => if ty =? 0 then VParts [VData 7; VPtr 5 0 1 None] else VData 7)
    (fun _ => false) (fun _ => KHeap) (fun _ => 16)
    (fun ty => if ty =? 0 then Agg 16 [(0, Prim 8); (8, Prim 8)] else Prim 16).
End SelfRef.
Theorem C64_self_reference_refuted :
  read_state SelfRef.m 9 [VPtr 5 0 0 None] =
  Ok ([MPointer (Heap 1) [] None], [MData 7; MParts [MData 7; MPointer (Heap 0) [] None]]).
Proof. reflexivity. Qed.
Print Assumptions C64_self_reference_refuted.

(** Two stack variables with the same name (one shadows the other) are shown as
    the same target. *)
Theorem C64_shadow_refuted : exists m mvs heap, Acyclic m /\
  read_state m 9 [VPtr 1 0 0 None; VPtr 2 0 0 None] = Ok (mvs, heap) /\
  exists sg, mvs = [MPointer sg [] None; MPointer sg [] None].
Proof.
  exists (Memory (fun a _ _ => VData a) (fun _ => false) (fun _ => KStack (Some (0, 3, 0))) (fun _ => 4) (fun _ => Prim 4)).
  eexists. eexists. split; [exists (fun _ => 0); intros a off ty b P; inversion P|]. split; [reflexivity|]. eauto.
Qed.
Print Assumptions C64_shadow_refuted.

(** A list of two boxed nodes, and a second pointer to the inner one. *)
Module Boxes.
  Definition m := Memory
    (fun a _ _ => match a with 1 => VParts [VData 10; VPtr 2 0 0 None] | 2 => VParts [VData 20; VPtr 9 0 0 None]
                  | _ => VData 0 end)
    (fun a => a =? 9) (fun _ => KHeap) (fun _ => 16) (fun _ => Agg 16 [(0, Prim 8); (8, Prim 8)]).
  Lemma acyclic : Acyclic m.
  Proof.
    exists (fun a => match a with 1 => 2 | 2 => 1 | _ => 0 end). intros a off ty b P. cbn in P.
    destruct a as [|[|[|a]]]; inversion P as [|? ? I P']; subst; destruct I as [<-|[<-|[]]];
      inversion P'; subst; lia.
  Qed.
End Boxes.
Example C64_witness : Acyclic Boxes.m /\
  read_state Boxes.m 9 [VPtr 1 0 0 None; VPtr 2 8 0 None] =
  Ok ([MPointer (Heap 1) [] None; MPointer (Heap 0) [Field 1] None],
      [MParts [MData 20; MUnallocated (Some 0)]; MParts [MData 10; MPointer (Heap 0) [] None]]).
Proof. split; [apply Boxes.acyclic|reflexivity]. Qed.

(** ** C65: the contents of a heap object *)

(** A heap object shows the contents of its allocation as the pointer sees it
    that is read first. *)
Theorem C65_first_pointer_partial m fuel a off ty meta rest mvs heap : Acyclic m ->
  read_state m fuel (VPtr a off ty meta :: rest) = Ok (mvs, heap) ->
  mem_kind m a = KHeap -> mem_dead m a = false ->
  exists place i mv, nth_error heap i = Some mv /\ place a = Some (Heap i, ty) /\
    Fits m place heap /\ Shown m place (mem_val m a off ty) mv.
Proof.
  intros (rank & A) E K D.
  destruct fuel as [|f]; [discriminate|].
  unfold read_state in E. cbn [read_seq] in E.
  assert (Er : read m (S f) (Mmap [] [] []) (VPtr a off ty meta) = read_pointer (read m f) m (Mmap [] [] []) a off ty meta).
  { cbn [read]. rewrite D. auto. }
  rewrite Er in E.
  destruct (read_pointer (read m f) m (Mmap [] [] []) a off ty meta) as [[mv0 st1]| |] eqn:E1; try discriminate.
  destruct (read_seq (read m (S f)) st1 rest) as [[mvs1 st]| |] eqn:E2; try discriminate. injection E as <- <-.
  assert (F0 : Fits m (place (Mmap [] [] [])) (mm_heap (Mmap [] [] []))).
  { constructor; cbn; intros; try discriminate. lia. }
  destruct (read_pointer_good m rank A (read m f) (read_good m rank A f) (S (rank a)) _ a off ty meta mv0 st1 F0) as (F1 & _ & _); auto.
  unfold read_pointer in E1. cbn [mm_place aget] in E1. rewrite K in E1.
  destruct (read m f (Mmap [] [] []) (mem_val m a off ty)) as [[mv1 st0]| |] eqn:E0; try discriminate.
  destruct (read_good m rank A f (rank a) _ (mem_val m a off ty) mv1 st0 F0) as (Fi & (Xi & _ & _) & Wi); auto.
  { intros b P. eapply A; eauto. }
  apply make_pointer_ok in E1 as (-> & _).
  destruct (ptrs_bound rank rest) as (r & B).
  destruct (read_seq_good m rank (read m (S f)) (read_good m rank A (S f)) r rest _ mvs1 st F1 B E2)
    as (F & (X & (more & H) & _) & _).
  assert (Ep : place st a = Some (Heap (length (mm_heap st0)), ty)).
  { apply X. rewrite place_set. destruct (Nat.eq_dec a a); congruence. }
  exists (place st), (length (mm_heap st0)), mv1.
  split.
  { rewrite H. cbn [mm_heap]. rewrite <- app_assoc, nth_error_app2, Nat.sub_diag by lia. auto. }
  split; [auto|]. split; [auto|].
  eapply Shown_mono; [|exact Wi]. intros b y Eb. apply X. rewrite place_set.
  destruct (Nat.eq_dec b a) as [->|]; auto. exfalso.
  destruct (read_good m rank A f (rank a) _ (mem_val m a off ty) mv1 st0 F0) as (_ & (_ & _ & R) & _); auto.
  { intros b P. eapply A; eauto. }
  assert (rank a < rank a); [|lia]. apply R; [reflexivity|congruence].
Qed.
Print Assumptions C65_first_pointer_partial.

(** If that pointer is a reference to one element of a vector, only that element
    is shown, also for the vector itself. *)
Module Shared.
  (* type 0: the buffer [1; 2; 3] as its vector sees it; type 1: one element *)
  Definition m := Memory (fun _ off ty => if ty =? 0 then VParts [VData 1; VData 2; VData 3] else VData (S (off / 4)))
    (fun _ => false) (fun _ => KHeap) (fun _ => 12) (fun _ => Prim 4).
End Shared.
Theorem C65_reference_first_refuted :
  Acyclic Shared.m /\
  read_state Shared.m 9 [VPtr 5 0 0 None; VPtr 5 4 1 None] =
    Ok ([MPointer (Heap 0) [Index 0] None; MPointer (Heap 0) [Index 1] None], [MParts [MData 1; MData 2; MData 3]]) /\
  read_state Shared.m 9 [VPtr 5 4 1 None; VPtr 5 0 0 None] =
    Ok ([MPointer (Heap 0) [Index 1] None; MPointer (Heap 0) [Index 0] None], [MData 2]).
Proof.
  split; [|split; reflexivity]. exists (fun _ => 0). intros a off ty b P. cbn in P.
  destruct (ty =? 0); inversion P as [|? ? I P']; subst. destruct I as [<-|[<-|[<-|[]]]]; inversion P'.
Qed.
Print Assumptions C65_reference_first_refuted.
