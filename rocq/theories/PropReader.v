(** * C88: the values that are shown *)
From Coq Require Import String.
From Coq Require Import List Arith Bool ZArith Lia.
From Verif Require Import Base TraceModel ValuesModel ReaderModel ReaderSpec ReaderProofs.
Import ListNotations.
Local Open Scope string_scope.
Local Open Scope list_scope.

(** If a state is shown, it is right: every variable shows the value that memory holds at its
    place, read by its type, and every object of the heap is what a pointer of the program points
    to.  Missing: vectors of references, types of the program that are called [Vec] or [String],
    and that a state is shown at all. *)
Theorem C88_shown_partial m u8 vars fuel vs heap : Program m u8 vars ->
  read_all m fuel vars = inr (vs, heap) -> Right m u8 vars vs heap.
Proof. intros P. apply read_all_right; auto. Qed.
Print Assumptions C88_shown_partial.

Module Demo.
  (** The types: 0 is u8, 1 is i32, 2 is (bool, i32), 3 is &i32. *)
  Definition types (id : nat) : ty :=
    match id with 1 => TPrim PInt | 2 => TTuple [TPrim PBool; TPrim PInt] | 3 => TPtr 1 | 4 => TStr | 5 => TSlice (TPrim PInt) | _ => TPrim PUint end.
  (** A number is stored at every place: the lengths are 2. *)
  Definition scalars (p : place) (k : prim) : scalar :=
    match k with
    | PUint => match p_alloc p with 11 => Scalar (104 + Z.of_nat (p_off p)) | _ => Scalar 2 end
    | PBool => Scalar 1
    | _ => Scalar (Z.of_nat (p_alloc p * 100 + p_off p))
    end.
  Definition pointers (p : place) : pointer :=
    match p_alloc p with
    | 1 => Points (Place 0 0 None)
    | 2 => Points (Place 10 0 None)
    | 3 => Points (Place 11 0 None)
    | 4 => Points (Place 12 0 None)
    | 6 => Points (Place 13 0 None)
    | 7 => Points (Place 14 0 (Some 5))
    | 13 => Points (Place 0 0 None)
    | _ => BadPointer 9
    end.
  Definition offsets (t : ty) (v : option nat) (i : nat) : nat :=
    match t, v, i with
    | TStruct "Vec" _ _, _, 1 => 16
    | TStruct "RawVecInner" _ _, _, 1 => 8
    | TTuple _, _, 1 => 4
    | TEnum _ _, _, _ => 4
    | _, _, _ => 0
    end.
  Definition zst (t : ty) : bool :=
    match t with TStruct "PhantomData" _ _ | TStruct "Global" _ _ => true | _ => false end.
  Definition sizes (t : ty) : nat := match t with TPrim PUint => 1 | TPrim _ => 4 | _ => 8 end.
  Definition mem0 : mem := {|
    m_ty := types; m_scalar := scalars; m_ptr := pointers; m_variant := fun _ => Some 1; m_off := offsets;
    m_zst := zst; m_size := sizes; m_layout := fun t => Prim (sizes t);
    m_kind := fun a => if Nat.ltb a 10 then AStack else AHeap;
    m_asize := fun a => match a with 10 => 8 | 11 => 2 | 0 => 4 | _ => 8 end;
    m_slot := fun a => if Nat.eqb a 0 then Some (0, "x", TPrim PInt) else None |}.
  Definition option_ty : ty := TEnum "Option" [("None", []); ("Some", [("0", TPrim PInt)])].
  (** [x: i32], [r = &x], a vector, a string, a box and an option. *)
  Definition vars : list (place * ty) :=
    [(Place 0 0 None, TPrim PInt); (Place 1 0 None, TPtr 1); (Place 2 0 None, vec 0 1);
     (Place 3 0 None, string_ty 0); (Place 4 0 None, TBox 2); (Place 5 0 None, option_ty)].

  Lemma lengths el p : exists n, Length mem0 0 el p n.
  Proof.
    assert (E : exists z, scalars (field mem0 p (vec 0 el) None 1) PUint = Scalar z).
    { cbn [scalars field p_alloc]. generalize (p_alloc p). intros n. do 12 (destruct n as [|n]; [eauto|]). eauto. }
    destruct E as (z & E). exists (Z.to_nat (z mod 2 ^ 64)), z. auto.
  Qed.

  Lemma program : Program mem0 0 vars.
  Proof.
    constructor.
    - reflexivity.
    - intros id. cbn [m_ty mem0].
      destruct id as [|[|[|[|[|[|id]]]]]]; cbn [types];
        [right; constructor|right; constructor|right|right; constructor|left; auto|right; constructor|right; constructor].
      apply usual_tuple. intros t [<-|[<-|[]]]; constructor.
    - intros p t. cbn [vars In]. intros [[= <- <-]|[[= <- <-]|[[= <- <-]|[[= <- <-]|[[= <- <-]|[[= <- <-]|[]]]]]]]; try constructor.
      + constructor.
      + intros x fs y t [[= <- <-]|[[= <- <-]|[]]] I; [destruct I|]. destruct I as [[= <- <-]|[]]. constructor.
    - intros w p el _. apply lengths.
    - intros w p _. apply lengths.
  Qed.
End Demo.

(** The program meets the hypotheses, and this is what is shown. *)
Definition unique_of (v : mvalue) : mvalue := MAdt "Unique" None [("pointer", MAdt "NonNull" None [("pointer", v)] None)] None.
Definition vec_of (v : mvalue) (k : option hkind) : mvalue :=
  MAdt "Vec" None
    [("buf", MAdt "RawVec" None
       [("inner", MAdt "RawVecInner" None [("ptr", unique_of v); ("cap", MAdt "UsizeNoHighBit" None [("0", MScalar PUint 2)] None)] None)] None);
     ("len", MScalar PUint 2)] k.
Example C88_witness : Program Demo.mem0 0 Demo.vars /\
  read_all Demo.mem0 20 Demo.vars = inr (
    [MScalar PInt 0; MPtr (inl (0, "x")) [] None;
     vec_of (MPtr (inr 0) [Index 0] None) (Some (HVec 2 1));
     MAdt "String" None [("vec", vec_of (MPtr (inr 1) [Index 0] None) None)] (Some (HString 2));
     MAdt "Box" None [("0", unique_of (MPtr (inr 2) [] None))] (Some HBox);
     MAdt "Option" (Some "Some") [("0", MScalar PInt 504)] None],
    [MArray (AllOf [MScalar PInt 1000; MScalar PInt 1004]);
     MArray (AllOf [MScalar PChar 104; MScalar PChar 105]);
     MTuple [MScalar PBool 1; MScalar PInt 1204]]).
Proof. split; [apply Demo.program|]. vm_compute. reflexivity. Qed.

(** ** C89: every state can be shown *)

(** If all variables are in order, then the state is shown: nothing panics, no
    error is reported, and the reader comes to an end. *)
Theorem C89_shown_partial m u8 vars : Program m u8 vars ->
  (forall p t, In (p, t) vars -> Ready m u8 vars None p t) ->
  exists n, forall fuel, n <= fuel -> exists vs heap, read_all m fuel vars = inr (vs, heap).
Proof. intros P. apply read_all_runs; auto. Qed.
Print Assumptions C89_shown_partial.

Module Ready.
  Import Demo.
  Lemma resolves q : p_off q = 0 -> p_meta q = None -> Resolves mem0 0 vars q.
  Proof.
    intros O M. assert (L : forall t, locate_address_in_type (m_layout mem0 t) (m_asize mem0 (p_alloc q)) (p_meta q) (p_off q) <> None).
    { intros t. rewrite O, M. unfold locate_address_in_type. cbn [m_layout mem0 size].
      assert (Z : 0 < sizes t) by (destruct t as [[]| | | | | | | | | |]; cbn [sizes]; lia).
      destruct (Nat.ltb (sizes t) (m_asize mem0 (p_alloc q))); [|discriminate].
      destruct (sizes t) as [|z]; [lia|]. rewrite Nat.div_0_l by lia. rewrite Nat.mul_0_l. cbn [locate Nat.eqb]. discriminate. }
    split; intros; apply L.
  Qed.

  Lemma prim w p k : Ready mem0 0 vars w p (TPrim k).
  Proof.
    apply ready_prim. intros e. cbn [m_scalar mem0]. unfold scalars. destruct k; try discriminate.
    generalize (p_alloc p). intros n. do 12 (destruct n as [|n]; [discriminate|]). discriminate.
  Qed.

  Lemma chain w p id : Ready mem0 0 vars w (Place (p_alloc p) (p_off p + 0 + 0) None) (TPtr id) ->
    Ready mem0 0 vars w p (unique id).
  Proof.
    intros R. eapply ready_struct; [apply owns_other; discriminate|]. intros i x t N Z.
    destruct i as [|[|i]]; cbn [nth_error] in N; [injection N as <- <-|injection N as <- <-; discriminate Z|destruct i; discriminate].
    eapply ready_struct; [apply owns_other; discriminate|]. intros i x t N _.
    destruct i as [|i]; cbn [nth_error] in N; [injection N as <- <-|destruct i; discriminate]. cbn [inside]. exact R.
  Qed.

  Lemma raw w p : Ready mem0 0 vars w (Place (p_alloc p) (p_off p + 0 + 0 + 0 + 0) None) (TPtr 0) ->
    Ready mem0 0 vars w p (rawvec 0).
  Proof.
    intros R. eapply ready_struct; [apply owns_other; discriminate|]. intros i x t N Z.
    destruct i as [|[|i]]; cbn [nth_error] in N; [injection N as <- <-|injection N as <- <-; discriminate Z|destruct i; discriminate].
    eapply ready_struct; [apply owns_other; discriminate|]. intros i x t N Z'.
    destruct i as [|[|[|i]]]; cbn [nth_error] in N; [injection N as <- <-|injection N as <- <-|injection N as <- <-; discriminate Z'|destruct i; discriminate].
    - apply chain. exact R.
    - eapply ready_struct; [apply owns_other; discriminate|]. intros i x t N _.
      destruct i as [|i]; cbn [nth_error] in N; [injection N as <- <-; apply prim|destruct i; discriminate].
  Qed.

  Lemma ready p t : In (p, t) vars -> Ready mem0 0 vars None p t.
  Proof.
    cbn [vars In]. intros [[= <- <-]|[[= <- <-]|[[= <- <-]|[[= <- <-]|[[= <- <-]|[[= <- <-]|[]]]]]]].
    - apply prim.
    - eapply ready_target; [left; auto|reflexivity|discriminate|apply resolves; auto|apply prim].
    - eapply ready_struct; [apply (owns_vec _ _ _ _ _ 2); [intros (n & E); discriminate|exists 2%Z; auto]|].
      intros i x t N _. destruct i as [|[|i]]; cbn [nth_error] in N; [injection N as <- <-|injection N as <- <-|destruct i; discriminate].
      + apply raw. eapply ready_elems; [reflexivity|discriminate|apply resolves; auto|]. intros i L. apply prim.
      + apply prim.
    - eapply ready_struct; [apply (owns_string _ _ _ _ 2); exists 2%Z; auto|].
      intros i x t N _. destruct i as [|i]; cbn [nth_error] in N; [injection N as <- <-|destruct i; discriminate]. cbn [inside].
      eapply ready_struct; [apply owns_inner; exists 2; auto|].
      intros i x t N _. destruct i as [|[|i]]; cbn [nth_error] in N; [injection N as <- <-|injection N as <- <-|destruct i; discriminate]; cbn [inside].
      + apply raw. eapply ready_chars; [reflexivity|discriminate|apply resolves; auto|]. intros i L. eexists. reflexivity.
      + apply prim.
    - apply ready_box. apply chain. eapply ready_target; [right; auto|reflexivity|discriminate|apply resolves; auto|].
      apply ready_tuple. intros i t N. destruct i as [|[|i]]; cbn in N; [injection N as <-; apply prim|injection N as <-; apply prim|destruct i; discriminate].
    - eapply ready_enum; [reflexivity|reflexivity|]. intros i x t N _.
      destruct i as [|i]; cbn [nth_error] in N; [injection N as <- <-; apply prim|destruct i; discriminate].
  Qed.
End Ready.

Example C89_witness : Program Demo.mem0 0 Demo.vars /\ forall p t, In (p, t) Demo.vars -> Ready Demo.mem0 0 Demo.vars None p t.
Proof. split; [apply Demo.program|apply Ready.ready]. Qed.

(** A reference to a string literal, or to any other text that is not owned by a [String] that is shown
    before: the reader never comes to an end. *)
Theorem C89_str_refuted m fuel p id q s : m_ptr m p = Points q -> m_ty m id = TStr ->
  aget Nat.eq_dec (s_place s) (p_alloc q) = None -> read m fuel [] p (TPtr id) s = (inl SMore, s).
Proof.
  intros MP TS G. destruct fuel as [|f]; [reflexivity|]. cbn [read]. rewrite MP, TS. unfold read_pointer. rewrite G.
  assert (X : read m f [] q TStr s = (inl SMore, s)).
  { induction f as [|f IH]; [reflexivity|]. cbn [read]. unfold read_pointer. rewrite G. unfold bind, read_alloc. cbn [last_kind].
    rewrite IH. auto. }
  unfold bind, read_alloc. cbn [last_kind]. rewrite X. auto.
Qed.
Print Assumptions C89_str_refuted.

(** A slice of an array that is not otherwise pointed to: a panic. *)
Theorem C89_slice_refuted m fuel p id q el s : m_ptr m p = Points q -> m_ty m id = TSlice el ->
  aget Nat.eq_dec (s_place s) (p_alloc q) = None -> read m (S (S fuel)) [] p (TPtr id) s = (inl SPanic, s).
Proof.
  intros MP TS G. cbn [read]. rewrite MP, TS. unfold read_pointer. rewrite G. unfold bind, read_alloc. cbn [last_kind read]. auto.
Qed.
Print Assumptions C89_slice_refuted.

(** A pointer into memory that is neither a frame's nor the machine's, where the compiler keeps the location of a caller:
    a panic, although what is there could be read. *)
Theorem C89_memory_refuted m fuel p id q s v s' : m_ptr m p = Points q -> m_kind m (p_alloc q) = AOther ->
  aget Nat.eq_dec (s_place s) (p_alloc q) = None -> read m fuel [] q (m_ty m id) s = (inr v, s') ->
  read m (S fuel) [] p (TPtr id) s = (inl SPanic, s').
Proof.
  intros MP K G R. cbn [read]. rewrite MP. unfold read_pointer. rewrite G. unfold bind, read_alloc. cbn [last_kind].
  rewrite R, K. reflexivity.
Qed.
Print Assumptions C89_memory_refuted.

(** A struct of the program that is called [Vec] and has no field [len], or [String] without a
    field [vec]: a panic. *)
Theorem C89_name_refuted m fuel ks p name args fs s :
  (name = "Vec" /\ forall x t, In (x, t) fs -> x <> "len") \/ (name = "String" /\ forall x t, In (x, t) fs -> x <> "vec") ->
  read m (S fuel) ks p (TStruct name args fs) s = (inl SPanic, s).
Proof.
  assert (F : forall n i fs, (forall x t, In (x, t) fs -> x <> n) -> field_by_name n i fs = None).
  { intros n i fs0. revert i. induction fs0 as [|[x t] r IH]; intros i N; cbn [field_by_name]; auto.
    assert (X : String.eqb x n = false) by (apply String.eqb_neq; eapply N; left; reflexivity). rewrite X.
    apply IH. intros y t' I. apply (N y t'). right; auto. }
  intros [(-> & N)|(-> & N)]; cbn [read]; unfold own_kind, read_vec_len; cbn [String.eqb Ascii.eqb Bool.eqb]; rewrite (F _ _ _ N); reflexivity.
Qed.
Print Assumptions C89_name_refuted.

(** The same for a [String] whose field [vec] has no fields with names. *)
Theorem C89_text_refuted m fuel ks p args fs before t after s :
  fs = before ++ ("vec", t) :: after -> (forall x u, In (x, u) before -> x <> "vec") ->
  (forall n a l, t <> TStruct n a l) -> (forall n l, t <> TEnum n l) -> t <> TOther ->
  read m (S fuel) ks p (TStruct "String" args fs) s = (inl SPanic, s).
Proof.
  intros E N K _ _.
  assert (F : forall l i, (forall x u, In (x, u) l -> x <> "vec") -> field_by_name "vec" i (l ++ ("vec", t) :: after) = Some (i + length l, t)).
  { induction l as [|[x u] r IH]; intros i Nl; cbn [field_by_name List.app length].
    - rewrite String.eqb_refl, Nat.add_0_r. auto.
    - assert (X : String.eqb x "vec" = false) by (apply String.eqb_neq; eapply Nl; left; reflexivity). rewrite X, IH, <- plus_n_Sm; auto.
      intros y v I. apply (Nl y v). right. auto. }
  assert (F0 : field_by_name "vec" 0 fs = Some (length before, t)) by (rewrite E; exact (F before 0 N)).
  cbn [read]. unfold own_kind. cbn [String.eqb Ascii.eqb Bool.eqb]. rewrite F0. unfold bind.
  destruct t; try reflexivity. elim (K name args0 fields). reflexivity.
Qed.
Print Assumptions C89_text_refuted.

(** The same if its field [len] is a number of another kind. *)
Theorem C89_length_refuted m fuel ks p args fs before after k z s :
  fs = before ++ ("len", TPrim k) :: after -> (forall x t, In (x, t) before -> x <> "len") -> k <> PUint ->
  m_scalar m (Place (p_alloc p) (p_off p + m_off m (TStruct "Vec" args fs) None (length before)) None) k = Scalar z ->
  read m (S (S fuel)) ks p (TStruct "Vec" args fs) s = (inl SPanic, s).
Proof.
  intros E N K Sc.
  assert (F : forall l i, (forall x t, In (x, t) l -> x <> "len") -> field_by_name "len" i (l ++ ("len", TPrim k) :: after) = Some (i + length l, TPrim k)).
  { induction l as [|[x t] r IH]; intros i Nl; cbn [field_by_name List.app length].
    - rewrite String.eqb_refl, Nat.add_0_r. auto.
    - assert (X : String.eqb x "len" = false) by (apply String.eqb_neq; eapply Nl; left; reflexivity). rewrite X, IH, <- plus_n_Sm; auto.
      intros y u I. apply (Nl y u). right. auto. }
  cbn [read]. unfold own_kind, read_vec_len. cbn [String.eqb Ascii.eqb Bool.eqb]. 
  assert (F0 : field_by_name "len" 0 fs = Some (length before, TPrim k)) by (rewrite E; exact (F before 0 N)). rewrite F0.
  unfold bind. cbn [read]. unfold field. rewrite Sc. unfold ret. destruct k; try contradiction; reflexivity.
Qed.
Print Assumptions C89_length_refuted.

(** A reference into an enum, to what is in a variant and does not begin where the enum does: a panic, when the enum
    has been found before and also when it is a variable that is found now. *)
Theorem C89_payload_refuted m fuel p id q t n s : m_ptr m p = Points q ->
  m_layout m t = EnumL n -> m_asize m (p_alloc q) = n -> 0 < p_off q ->
  ((exists sg, aget Nat.eq_dec (s_place s) (p_alloc q) = Some (sg, t)) \/
   (aget Nat.eq_dec (s_place s) (p_alloc q) = None /\ m_kind m (p_alloc q) = AStack /\
    (exists frame x, m_slot m (p_alloc q) = Some (frame, x, t)) /\ exists v s1, read m fuel [] q (m_ty m id) s = (inr v, s1))) ->
  exists s', read m (S fuel) [] p (TPtr id) s = (inl SPanic, s').
Proof.
  intros MP L A O C.
  assert (P : forall s2 sg, aget Nat.eq_dec (s_place s2) (p_alloc q) = Some (sg, t) -> point m q s2 = (inl SPanic, s2)).
  { intros s2 sg G. unfold point. rewrite G, L, A. unfold locate_address_in_type. cbn [size].
    rewrite Nat.ltb_irrefl. cbn [locate]. destruct (p_off q); [lia|]. reflexivity. }
  cbn [read]. rewrite MP. unfold read_pointer. destruct C as [[sg G]|(G & K & (fr & x & Sl) & v & s1 & R)]; rewrite G.
  - exists s. eapply P; eauto.
  - unfold bind at 1. unfold read_alloc. cbn [last_kind]. rewrite R, K, Sl. unfold bind, set_place. eexists. eapply P.
    cbn [s_place]. apply aget_aset_eq.
Qed.
Print Assumptions C89_payload_refuted.

(** [let x = Some(5); let r = x.as_ref();] *)
Example C89_payload_witness :
  let opt := TEnum "Option" [("None", []); ("Some", [("0", TPrim PInt)])] in
  let m := {| m_ty := fun _ => TPrim PInt; m_scalar := fun _ _ => Scalar 5; m_ptr := fun _ => Points (Place 0 4 None);
    m_variant := fun _ => Some 1; m_off := fun _ _ _ => 4; m_zst := fun _ => false; m_size := fun _ => 8;
    m_layout := fun t => match t with TEnum _ _ => EnumL 8 | _ => Prim 8 end; m_kind := fun _ => AStack; m_asize := fun _ => 8;
    m_slot := fun a => Some (0, "x", opt) |} in
  read_all m 20 [(Place 0 0 None, opt)] = inr ([MAdt "Option" (Some "Some") [("0", MScalar PInt 5)] None], []) /\
  read_all m 20 [(Place 0 0 None, opt); (Place 1 0 None, TPtr 0)] = inl SPanic.
Proof. vm_compute. auto. Qed.

(** A [String] of the program with a length in its field [vec] and a pointer in another field: what the
    pointer points to is taken for the letters, and a panic if it is no unsigned number. *)
Theorem C89_letters_refuted m fuel p args n a id q k z s :
  let counted := TStruct n a [("len", TPrim PUint)] in
  let fs := [("vec", counted); ("name", TPtr id)] in
  let t := TStruct "String" args fs in
  let at_field i := Place (p_alloc p) (p_off p + m_off m t None i) None in
  n <> "String" -> n <> "Vec" -> m_zst m counted = false -> m_zst m (TPrim PUint) = false -> m_zst m (TPtr id) = false ->
  m_scalar m (Place (p_alloc p) (p_off p + m_off m t None 0 + m_off m counted None 0) None) PUint = Scalar 1 ->
  m_ptr m (at_field 1) = Points q -> aget Nat.eq_dec (s_place s) (p_alloc q) = None ->
  m_ty m id = TPrim k -> k <> PUint -> m_scalar m (Place (p_alloc q) (p_off q) None) k = Scalar z ->
  read m (S (S (S (S fuel)))) [] p t s = (inl SPanic, s).
Proof.
  intros counted fs t at_field N1 N2 Z1 Z2 Z3 L MP G T K Sc.
  assert (C : read m (S (S (S fuel))) [HString 1] (field m p t None 0) counted s = (inr (MAdt n None [("len", MScalar PUint 1)] None), s)).
  { unfold counted at 1. cbn [read]. unfold own_kind. apply String.eqb_neq in N1, N2. rewrite N1, N2. unfold bind, ret.
    cbn [process_fields]. rewrite Z2. unfold bind. cbn [read]. fold counted. unfold field at 1. cbn [p_alloc p_off]. unfold field. cbn [p_alloc p_off]. rewrite L. reflexivity. }
  assert (P : read m (S (S (S fuel))) [HString 1] (field m p t None 1) (TPtr id) s = (inl SPanic, s)).
  { remember (S (S fuel)) as f eqn:Ef. cbn [read]. unfold field. fold (at_field 1). rewrite MP. unfold read_pointer. rewrite G. unfold bind, read_alloc. cbn [last_kind]. rewrite T.
    unfold read_array, bind, abbrev_new. subst f. cbn. unfold element. rewrite Nat.mul_0_r, Nat.add_0_r, Sc. cbn. destruct k; try reflexivity. elim K; reflexivity. }
  change (read m (S (S (S (S fuel)))) [] p t s) with (bind (own_kind (read m (S (S (S fuel))) []) m [] p t "String" args fs) (fun k =>
        bind (process_fields (read m (S (S (S fuel))) (match k with Some k => List.app [] [k] | None => [] end)) m p t None 0 fs) (fun vs =>
          ret (MAdt "String" None vs k))) s).
  assert (O : own_kind (read m (S (S (S fuel))) []) m [] p t "String" args fs s = (inr (Some (HString 1)), s)).
  { unfold own_kind. cbn [String.eqb Ascii.eqb Bool.eqb field_by_name fs]. unfold counted at 1. unfold bind, read_vec_len. cbn [field_by_name String.eqb Ascii.eqb Bool.eqb read].
    fold counted. unfold field. cbn [p_alloc p_off]. rewrite L. reflexivity. }
  unfold bind at 1. rewrite O. unfold bind at 1. unfold fs at 1. cbn [process_fields]. rewrite Z1. unfold bind at 1. cbn [List.app]. rewrite C.
  rewrite Z3. unfold bind at 1. unfold bind at 1. rewrite P. reflexivity.
Qed.
Print Assumptions C89_letters_refuted.

(** A box of a type of size 0, whose address is in no allocation: an error, although the program is
    correct. *)
Theorem C89_empty_box_refuted m fuel ks p id e s : m_zst m (nonnull id) = false -> m_zst m (TPtr id) = false ->
  (forall p, m_ptr m p = NoAlloc e) -> read m (S (S (S (S fuel)))) ks p (TBox id) s = (inl (SErr e), s).
Proof.
  intros Z1 Z2 N. cbn [read unique]. unfold bind, own_kind. cbn [String.eqb Ascii.eqb Bool.eqb]. unfold ret. cbn [process_fields].
  rewrite Z1. unfold bind at 1. cbn [read nonnull]. unfold bind, own_kind. cbn [String.eqb Ascii.eqb Bool.eqb process_fields]. unfold ret.
  cbn [process_fields]. rewrite Z2. unfold bind. cbn [read]. rewrite N. reflexivity.
Qed.
Print Assumptions C89_empty_box_refuted.

(** A vector of references: the first element's target, if it has not been found before, is read as
    if it were the vector's buffer; if no pointer is stored there, the state is not shown. *)
Definition Fails {A} (x : rd A) (s : mstate) : Prop := forall a s', x s <> (inr a, s').

Lemma fails_bind {A B} (x : rd A) (f : A -> rd B) s : Fails x s -> Fails (bind x f) s.
Proof. intros F b s' E. apply bind_inr in E as (a & s1 & E & _). apply (F a s1 E). Qed.

(** A variable of a type that the reader does not know (a union, a function, ...): the state is never
    shown, whatever the other variables are. *)
Theorem C89_unknown_refuted m fuel vars p : In (p, TOther) vars -> forall r, read_all m fuel vars <> inr r.
Proof.
  intros I. unfold read_all.
  assert (F : forall ls s, In (p, TOther) ls -> Fails (read_locals m fuel ls) s).
  { induction ls as [|[p0 t0] ls IH]; intros s; [intros []|]. cbn [read_locals]. intros [[= -> ->]|J].
    - apply fails_bind. intros a s'. destruct fuel; discriminate.
    - intros a s' E. apply bind_inr in E as (v & s1 & _ & E). revert E. apply fails_bind. apply IH; auto. }
  intros r. destruct (read_locals m fuel vars (MState [] [] [])) as [[e|vs] s] eqn:E; [discriminate|].
  destruct (F _ _ I _ _ E).
Qed.
Print Assumptions C89_unknown_refuted.

Lemma fails_array rd1 base stride n el s : 0 < n -> Fails (rd1 (element base stride 0) el) s ->
  Fails (read_array rd1 base stride n el) s.
Proof.
  intros L F a s'. unfold read_array, abbrev_new. assert (C : forall k, Fails (collect_state (fun i => rd1 (element base stride i) el) (seq 0 (S k))) s).
  { intros k b s1. cbn [seq collect_state]. destruct (rd1 (element base stride 0) el s) as [[e|v] s2] eqn:E; [discriminate|].
    intros _. apply (F v s2 E). }
  destruct (Nat.leb n ABBREV_MAX).
  - destruct n as [|n]; [lia|]. destruct (collect_state _ (seq 0 (S n)) s) as [[e|v] s2] eqn:E; [discriminate|]. destruct (C n v s2 E).
  - change (ABBREV_MAX - 1) with (S 10). destruct (collect_state _ (seq 0 (S 10)) s) as [[e|v] s2] eqn:E; [discriminate|]. destruct (C 10 v s2 E).
Qed.

Lemma fails_struct m f ks p n args x t r s : n <> "String" -> n <> "Vec" -> m_zst m t = false ->
  Fails (read m f ks (field m p (TStruct n args ((x, t) :: r)) None 0) t) s ->
  Fails (read m (S f) ks p (TStruct n args ((x, t) :: r))) s.
Proof.
  intros N1 N2 Z F a s'. cbn [read]. unfold bind at 1, own_kind.
  rewrite (proj2 (String.eqb_neq _ _) N1), (proj2 (String.eqb_neq _ _) N2). unfold ret at 1. revert a s'.
  apply fails_bind. cbn [process_fields]. rewrite Z. apply fails_bind. exact F.
Qed.

Lemma fails_fuel {A} (x : nat -> rd A) s f : Fails (x 0) s -> (forall f, Fails (x (S f)) s) -> Fails (x f) s.
Proof. intros A0 AS. destruct f; auto. Qed.

Theorem C89_vec_of_refs_refuted m u8 el id p len q r e s :
  (forall t, m_zst m t = match t with TStruct "PhantomData" _ _ | TStruct "Global" _ _ => true | _ => false end) ->
  m_ty m el = TPtr id -> Length m u8 el p len -> 0 < len ->
  m_ptr m (Place (p_alloc p) (p_off p + m_off m (vec u8 el) None 0 + m_off m (rawvec u8) None 0 +
     m_off m (TStruct "RawVecInner" [] [("ptr", unique u8); ("cap", TStruct "UsizeNoHighBit" [] [("0", TPrim PUint)]); ("alloc", TStruct "Global" [] [])]) None 0 +
     m_off m (unique u8) None 0 + m_off m (nonnull u8) None 0) None) = Points q ->
  m_ptr m (element q (m_size m (TPtr id)) 0) = Points r ->
  aget Nat.eq_dec (s_place s) (p_alloc q) = None -> aget Nat.eq_dec (s_place s) (p_alloc r) = None ->
  m_ptr m (element r (m_size m (TPtr id)) 0) = BadPointer e ->
  forall fuel, Fails (read m fuel [] p (vec u8 el)) s.
Proof.
  intros Z TE LN LP MQ MR GQ GR BP fuel.
  assert (NF : forall ks p t, Fails (read m 0 ks p t) s) by (intros ks p0 t a s'; discriminate).
  destruct fuel as [|f]; [apply NF|].
  intros a s' E. unfold vec in E. cbn [read] in E. apply bind_inr in E as (k & s1 & E1 & E2).
  unfold own_kind in E1. cbn [String.eqb Ascii.eqb Bool.eqb] in E1. apply bind_inr in E1 as (o & s2 & E3 & E4).
  assert (X : o = Some len /\ s2 = s).
  { destruct LN as (z & Z1 & Z2). unfold read_vec_len in E3. cbn [field_by_name String.eqb Ascii.eqb Bool.eqb] in E3.
    destruct f as [|f]; cbn [read] in E3; [discriminate|]. unfold vec in Z1. rewrite field_is, Z1 in E3. cbn [show ret] in E3.
    injection E3 as <- <-. unfold show_uint. rewrite Z2. auto. }
  destruct X as (-> & ->). cbn [last_kind] in E4. injection E4 as <- <-.
  cbn [app] in E2. revert E2. apply fails_bind. cbn [process_fields]. rewrite Z. cbn [rawvec].
  apply fails_bind. clear a s' E3. set (ks := [HVec len el]).
  destruct f as [|f]; [apply NF|]. apply fails_struct; try discriminate; [rewrite Z; reflexivity|].
  destruct f as [|f]; [apply NF|]. apply fails_struct; try discriminate; [rewrite Z; reflexivity|].
  destruct f as [|f]; [apply NF|]. apply fails_struct; try discriminate; [rewrite Z; reflexivity|].
  destruct f as [|f]; [apply NF|]. apply fails_struct; try discriminate; [rewrite Z; reflexivity|].
  destruct f as [|f]; [apply NF|]. cbn [read].
  match goal with |- context [m_ptr m ?a] => change a with (Place (p_alloc p) (p_off p + m_off m (vec u8 el) None 0 + m_off m (rawvec u8) None 0 +
     m_off m (TStruct "RawVecInner" [] [("ptr", unique u8); ("cap", TStruct "UsizeNoHighBit" [] [("0", TPrim PUint)]); ("alloc", TStruct "Global" [] [])]) None 0 +
     m_off m (unique u8) None 0 + m_off m (nonnull u8) None 0) None) end.
  rewrite MQ. intros a s'. unfold read_pointer. rewrite GQ. revert a s'. apply fails_bind. unfold read_alloc, ks. cbn [last_kind]. rewrite TE.
  apply fails_array; auto.
  destruct f as [|f]; [apply NF|]. cbn [read]. rewrite MR. intros a s'. unfold read_pointer. rewrite GR. revert a s'. apply fails_bind.
  unfold read_alloc. cbn [last_kind]. rewrite TE. apply fails_array; auto.
  destruct f as [|f]; [apply NF|]. cbn [read]. rewrite BP. intros a s'. discriminate.
Qed.
Print Assumptions C89_vec_of_refs_refuted.

(** [let x = 7; let v = vec![&x, &x];] *)
Example C89_vec_of_refs_witness :
  read_all Demo.mem0 20 [(Place 0 0 None, TPrim PInt); (Place 6 0 None, vec 0 3)] = inl (SErr 9) /\
  (exists vs heap, read_all Demo.mem0 20 [(Place 0 0 None, TPrim PInt); (Place 1 0 None, TPtr 1)] = inr (vs, heap)).
Proof. split; [vm_compute; reflexivity|]. eexists. eexists. vm_compute. reflexivity. Qed.

(** [struct Counted { len: usize }  struct String { vec: Counted, name: &i32 }] *)
Module Letters.
  Definition counted : ty := TStruct "Counted" [] [("len", TPrim PUint)].
  Definition text : ty := TStruct "String" [] [("vec", counted); ("name", TPtr 0)].
  Definition m : mem := Mem (fun _ => TPrim PInt) (fun p _ => Scalar (if Nat.eqb (p_alloc p) 0 then 1 else 7)) (fun _ => Points (Place 1 0 None))
    (fun _ => None) (fun _ _ i => 8 * i) (fun _ => false) (fun _ => 4) (fun _ => Prim 4) (fun _ => AStack) (fun _ => 4) (fun _ => None).
End Letters.
Example C89_letters_witness : read_all Letters.m 20 [(Place 0 0 None, Letters.text)] = inl SPanic /\
  (exists v, read_all Letters.m 20 [(Place 0 0 None, TStruct "Text" [] [("vec", Letters.counted); ("name", TPtr 0)])] = inr v).
Proof. split; [|eexists]; vm_compute; reflexivity. Qed.

(** [let s = "hello";] and a slice *)
Example C89_str_witness : read_all Demo.mem0 20 [(Place 7 0 None, TPtr 4)] = inl SMore /\ read_all Demo.mem0 20 [(Place 7 0 None, TPtr 5)] = inl SPanic.
Proof. split; vm_compute; reflexivity. Qed.
