(** * C90: the variables that are shown *)
From Coq Require Import String.
From Coq Require Import List Arith Bool ZArith Lia.
From Verif Require Import Base TraceModel ValuesModel ReaderModel ReaderSpec ReaderProofs LocalsModel LocalsSpec.
Import ListNotations.
Local Open Scope string_scope.
Local Open Scope list_scope.

Lemma range_spec a s n : range_initialized a s n = true <-> forall o, s <= o < s + n -> a_init a o = true.
Proof.
  unfold range_initialized. rewrite forallb_forall. split; intros H o.
  - intros L. apply H. apply in_seq. lia.
  - intros I. apply H. apply in_seq in I. lia.
Qed.

Lemma data_size l o : Fits l -> Data l o -> o < vsize l.
Proof.
  intros F D. induction D as [s o L|s fs off f o I D IH|n e k o L D IH]; cbn [vsize].
  - auto.
  - inversion F; subst. destruct (H0 _ _ I) as (F1 & F2). specialize (IH F1). lia.
  - inversion F; subst. specialize (IH H0). nia.
Qed.

(** What is tested is at least the data. *)
Lemma check_sound a l : Fits l -> a_size a = vsize l -> mem_is_initialized (shape_of l) a = Some true -> Initialised a l.
Proof.
  intros F S0 C o D. pose proof (data_size _ _ F D) as L. destruct l as [s|s fs|n e]; cbn [shape_of mem_is_initialized] in C; injection C as C.
  - apply (proj1 (range_spec _ _ _) C). lia.
  - inversion D as [|s' fs' off f o' I D' E1 E2|]; subst. rewrite forallb_forall in C.
    specialize (C (off, vsize f)). cbn [fst snd] in C. eapply (proj1 (range_spec _ _ _)); [apply C|].
    + apply in_map_iff. exists (off, f). auto.
    + inversion F; subst. destruct (H0 _ _ I) as (F1 & _). pose proof (data_size _ _ F1 D'). lia.
  - apply (proj1 (range_spec _ _ _) C). lia.
Qed.

Lemma check_complete a l : Tight l -> a_size a = vsize l -> Initialised a l -> mem_is_initialized (shape_of l) a = Some true.
Proof.
  intros T S0 I. destruct l as [s|s fs|n e]; cbn [shape_of mem_is_initialized Tight] in *; f_equal.
  - apply range_spec. intros o L. apply I. constructor. cbn [vsize] in S0. lia.
  - apply forallb_forall. intros x IX. apply in_map_iff in IX as ([off f] & <- & IF). cbn [fst snd].
    apply range_spec. intros o L. replace o with (off + (o - off)) by lia. apply I. eapply data_field; eauto.
    apply (T _ _ IF). lia.
  - apply range_spec. intros o L. apply I. rewrite S0 in L. cbn [vsize] in L.
    assert (Z : vsize e <> 0) by nia. rewrite (Nat.div_mod o (vsize e) Z). rewrite Nat.mul_comm.
    apply data_elem; [|apply T; apply Nat.mod_upper_bound; auto]. apply Nat.div_lt_upper_bound; auto. lia.
Qed.

Lemma has_debug_spec f i : has_debug_info f i = true <-> In (DPlace i 0) (f_debug f).
Proof.
  unfold has_debug_info. rewrite existsb_exists. split.
  - intros ([l [|n]|] & I & E); try discriminate. apply Nat.eqb_eq in E. subst. auto.
  - intros I. exists (DPlace i 0). split; auto. apply Nat.eqb_refl.
Qed.

(** A variable with a value is shown, and nothing else: for types without padding inside of their fields. *)
Theorem C90_shown_partial allocs f i l lay name slot :
  Tight lay -> Fits lay -> l_shape l = shape_of lay -> (forall a, l_state l = InMemory a -> a_size (allocs a) = vsize lay) ->
  test_local allocs f i l = Yes name slot <-> SourceVar f i l name /\ HasValue allocs l lay /\ slot = slot_of l.
Proof.
  intros T F SH SZ.
  set (go := fun name : string =>
    match l_state l with
    | Dead => No
    | ImmUninit => if l_zst l then Yes name None else No
    | ImmInit => Yes name None
    | InMemory a =>
      match mem_is_initialized (l_shape l) (allocs a) with
      | None => Panics
      | Some false => No
      | Some true => Yes name (Some a)
      end
    end).
  assert (G : forall n, go n = Yes name slot <-> n = name /\ HasValue allocs l lay /\ slot = slot_of l).
  { intros n. unfold go, HasValue, slot_of. destruct (l_state l) as [| | |a] eqn:ST.
    - split; [discriminate|intros (_ & [] & _)].
    - destruct (l_zst l).
      + split; [intros [= -> <-]; auto|intros (-> & _ & ->); auto].
      + split; [discriminate|intros (_ & E & _); discriminate].
    - split; [intros [= -> <-]; auto|intros (-> & _ & ->); auto].
    - rewrite SH. specialize (SZ a eq_refl). destruct (mem_is_initialized (shape_of lay) (allocs a)) as [[]|] eqn:C.
      + pose proof (check_sound _ _ F SZ C). split; [intros [= -> <-]; auto|intros (-> & _ & ->); auto].
      + split; [discriminate|]. intros (_ & I & _). rewrite (check_complete _ _ T SZ I) in C. discriminate.
      + split; [discriminate|]. intros (_ & I & _). rewrite (check_complete _ _ T SZ I) in C. discriminate. }
  assert (TL : test_local allocs f i l = if Nat.eqb i 0 then (if l_unit l then No else go "(return)")
    else if has_debug_info f i then go (match l_name l with Some n => n | None => "(tmp)" end) else No) by reflexivity.
  rewrite TL. clearbody go. unfold SourceVar. destruct (Nat.eqb i 0) eqn:E0.
  - apply Nat.eqb_eq in E0. subst i. destruct (l_unit l).
    + split; [discriminate|]. intros ([(_ & E & _)|(E & _)] & _); [discriminate|congruence].
    + rewrite G. split.
      * intros (<- & H). split; auto.
      * intros ([(_ & _ & ->)|(E & _)] & H); auto. congruence.
  - apply Nat.eqb_neq in E0. destruct (has_debug_info f i) eqn:HD.
    + apply has_debug_spec in HD. rewrite G. split.
      * intros (<- & H). split; auto.
      * intros ([(E & _)|(_ & _ & ->)] & H); auto. congruence.
    + split; [discriminate|]. intros ([(E & _)|(_ & E & _)] & _); [congruence|].
      apply has_debug_spec in E. congruence.
Qed.
Print Assumptions C90_shown_partial.

(** Whatever the type is, a variable in memory that is shown is initialised. *)
Theorem C90_initialised allocs f i l lay name slot a :
  Fits lay -> l_shape l = shape_of lay -> l_state l = InMemory a -> a_size (allocs a) = vsize lay ->
  test_local allocs f i l = Yes name slot -> SourceVar f i l name /\ Initialised (allocs a) lay /\ slot = Some a.
Proof.
  intros F SH ST SZ. unfold test_local, SourceVar. rewrite ST, SH.
  destruct (mem_is_initialized (shape_of lay) (allocs a)) as [[]|] eqn:C.
  2, 3: destruct (Nat.eqb i 0), (l_unit l), (has_debug_info f i); discriminate.
  pose proof (check_sound _ _ F SZ C). destruct (Nat.eqb i 0) eqn:E0.
  - apply Nat.eqb_eq in E0. destruct (l_unit l); [discriminate|]. intros [= <- <-]. auto.
  - apply Nat.eqb_neq in E0. destruct (has_debug_info f i) eqn:HD; [|discriminate]. apply has_debug_spec in HD. intros [= <- <-]. auto.
Qed.
Print Assumptions C90_initialised.

(** A variable that is borrowed, of a struct or tuple with padding inside of a field: once the padding is not
    initialised, it is not shown, even if all of its data is initialised. *)
Theorem C90_padding_refuted allocs f i l s fs off g o a :
  l_shape l = shape_of (VAgg s fs) -> l_state l = InMemory a -> In (off, g) fs -> o < vsize g -> a_init (allocs a) (off + o) = false ->
  test_local allocs f i l = No.
Proof.
  intros SH ST I L U. unfold test_local. rewrite ST, SH.
  assert (C : mem_is_initialized (shape_of (VAgg s fs)) (allocs a) = Some false).
  { cbn [shape_of mem_is_initialized]. f_equal. apply not_true_is_false. intros E. rewrite forallb_forall in E.
    specialize (E (off, vsize g)). cbn [fst snd] in E. assert (R : range_initialized (allocs a) off (vsize g) = true).
    { apply E. apply in_map_iff. exists (off, g). auto. }
    rewrite range_spec in R. rewrite R in U by lia. discriminate. }
  rewrite C. destruct (Nat.eqb i 0), (l_unit l), (has_debug_info f i); reflexivity.
Qed.
Print Assumptions C90_padding_refuted.

(** The same for arrays. *)
Theorem C90_array_padding_refuted allocs f i l n e o a :
  l_shape l = shape_of (VArr n e) -> l_state l = InMemory a -> o < a_size (allocs a) -> a_init (allocs a) o = false ->
  test_local allocs f i l = No.
Proof.
  intros SH ST L U. unfold test_local. rewrite ST, SH.
  assert (C : mem_is_initialized (shape_of (VArr n e)) (allocs a) = Some false).
  { cbn [shape_of mem_is_initialized]. f_equal. apply not_true_is_false. intros E. rewrite range_spec in E. rewrite E in U by lia. discriminate. }
  rewrite C. destruct (Nat.eqb i 0), (l_unit l), (has_debug_info f i); reflexivity.
Qed.
Print Assumptions C90_array_padding_refuted.

Module Pad.
  (** [let a = ((1u8, 2u32), 3u32); let r = &a;]: bytes 1 to 3 are padding. *)
  Definition inner := VAgg 8 [(0, VScalar 1); (4, VScalar 4)].
  Definition lay := VAgg 12 [(0, inner); (8, VScalar 4)].
  Definition mem_a : allocation := Alloc 12 (fun o => negb (Nat.leb 1 o && Nat.leb o 3)).
  Definition a : local := Local (Some "a") false false (shape_of lay) TOther (InMemory 0) (Place 0 0 None).
  Definition f : frame := Frame [DPlace 1 0] [a; a].
End Pad.

Example C90_padding_witness : Fits Pad.lay /\ Initialised Pad.mem_a Pad.lay /\ SourceVar Pad.f 1 Pad.a "a" /\
  test_local (fun _ => Pad.mem_a) Pad.f 1 Pad.a = No.
Proof.
  split; [|split; [|split; [|reflexivity]]].
  - constructor. intros off f [[= <- <-]|[[= <- <-]|[]]]; cbn; split; try lia; constructor.
    intros off f [[= <- <-]|[[= <- <-]|[]]]; cbn; split; try lia; constructor.
  - intros o D. inversion D as [|s fs off f o' I D' E1 E2|]; subst. destruct I as [[= <- <-]|[[= <- <-]|[]]].
    + inversion D' as [|s fs off f o'' I D'' E1 E2|]; subst. destruct I as [[= <- <-]|[[= <- <-]|[]]].
      * inversion D''; subst. destruct o''; [reflexivity|lia].
      * inversion D''; subst. do 4 (destruct o'' as [|o'']; [reflexivity|]). lia.
    + inversion D'; subst. do 4 (destruct o' as [|o']; [reflexivity|]). lia.
  - right. split; [discriminate|]. split; [left; auto|reflexivity].
Qed.

(** A variable of size 0 is shown from the time when it comes into scope, before it has a value. *)
Theorem C90_empty_refuted allocs f i l name : l_state l = ImmUninit -> l_zst l = true ->
  SourceVar f i l name <-> test_local allocs f i l = Yes name None.
Proof.
  intros ST Z. unfold test_local, SourceVar. rewrite ST, Z. destruct (Nat.eqb i 0) eqn:E0.
  - apply Nat.eqb_eq in E0. subst. destruct (l_unit l); split.
    + intros [(_ & E & _)|(E & _)]; [discriminate|congruence].
    + discriminate.
    + intros [(_ & _ & ->)|(E & _)]; [auto|congruence].
    + intros [= <-]. auto.
  - apply Nat.eqb_neq in E0. destruct (has_debug_info f i) eqn:HD.
    + apply has_debug_spec in HD. split; [intros [(E & _)|(_ & _ & ->)]; [congruence|auto]|intros [= <-]; auto].
    + split; [|discriminate]. intros [(E & _)|(_ & E & _)]; [congruence|]. apply has_debug_spec in E. congruence.
Qed.
Print Assumptions C90_empty_refuted.

(** The variables that a closure captures (debug info with a projection) are never shown in its frame. *)
Theorem C90_captured_refuted allocs f i l : i <> 0 -> (forall n, In (DPlace i n) (f_debug f) -> n <> 0) ->
  test_local allocs f i l = No.
Proof.
  intros N C. unfold test_local. apply Nat.eqb_neq in N. rewrite N. destruct (has_debug_info f i) eqn:HD; auto.
  apply has_debug_spec in HD. destruct (C 0 HD); auto.
Qed.
Print Assumptions C90_captured_refuted.

(** ** All frames *)

Lemma find_frame_spec allocs fi f : forall ls i sl xs sl',
  find_frame allocs fi f i ls sl = Some (xs, sl') ->
  Chosen (fun i l name => exists slot, test_local allocs f i l = Yes name slot) i ls xs.
Proof.
  induction ls as [|l ls IH]; intros i sl xs sl'; cbn [find_frame].
  - intros [= <- <-]. constructor.
  - destruct (test_local allocs f i l) as [| |name slot] eqn:T; [|discriminate|].
    + intros E. apply chosen_no; [intros name (slot & E'); congruence|eauto].
    + destruct (find_frame allocs fi f (S i) ls _) as [[ys sl1]|] eqn:E; [|discriminate]. intros [= <- <-].
      apply chosen_yes; eauto.
Qed.

(** In each frame the chosen locals, each once and in the order of the locals. *)
Theorem C90_frames allocs fs xss sl : find_locals allocs 0 fs [] = Some (xss, sl) ->
  Forall2 (fun f xs => Chosen (fun i l name => exists slot, test_local allocs f i l = Yes name slot) 0 (f_locals f) xs) fs xss.
Proof.
  assert (X : forall fs fi sl0 xss sl, find_locals allocs fi fs sl0 = Some (xss, sl) ->
    Forall2 (fun f xs => Chosen (fun i l name => exists slot, test_local allocs f i l = Yes name slot) 0 (f_locals f) xs) fs xss).
  { clear. induction fs as [|f fs IH]; intros fi sl0 xss sl; cbn [find_locals]; [intros [= <- <-]; constructor|].
    destruct (find_frame allocs fi f 0 (f_locals f) sl0) as [[xs sl1]|] eqn:E1; [|discriminate].
    destruct (find_locals allocs (S fi) fs sl1) as [[ys sl2]|] eqn:E2; [|discriminate]. intros [= <- <-].
    constructor; [eapply find_frame_spec; eauto|eauto]. }
  apply X.
Qed.
Print Assumptions C90_frames.

(** For types without padding inside of their fields: the variables with a value. *)
Theorem C90_frames_partial allocs (lay : local -> vlayout) fs xss sl :
  (forall f l, In f fs -> In l (f_locals f) -> Tight (lay l) /\ Fits (lay l) /\ l_shape l = shape_of (lay l) /\
     forall a, l_state l = InMemory a -> a_size (allocs a) = vsize (lay l)) ->
  find_locals allocs 0 fs [] = Some (xss, sl) ->
  Forall2 (fun f xs => Chosen (fun i l name => SourceVar f i l name /\ HasValue allocs l (lay l)) 0 (f_locals f) xs) fs xss.
Proof.
  intros W E. apply C90_frames in E. induction E as [|f xs fs xss C E IH]; constructor.
  - specialize (W f). clear IH. assert (WF : forall l, In l (f_locals f) -> forall i name,
      (exists slot, test_local allocs f i l = Yes name slot) <-> SourceVar f i l name /\ HasValue allocs l (lay l)).
    { intros l I i name. destruct (W l (or_introl eq_refl) I) as (W1 & W2 & W3 & W4). split.
      - intros (slot & T). apply (C90_shown_partial allocs f i l (lay l) name slot W1 W2 W3 W4) in T. tauto.
      - intros H. exists (slot_of l). apply (C90_shown_partial allocs f i l (lay l) name _ W1 W2 W3 W4). tauto. }
    clear W E. revert WF. generalize dependent xs. generalize 0. induction (f_locals f) as [|l ls IH]; intros i xs C WF.
    + inversion C; subst. constructor.
    + assert (WF' : forall l, In l ls -> forall i name, (exists slot, test_local allocs f i l = Yes name slot) <->
        SourceVar f i l name /\ HasValue allocs l (lay l)) by (intros l' I; apply WF; right; auto).
      inversion C; subst.
      * apply chosen_yes; [apply WF; [left; auto|auto]|]. apply IH; auto.
      * apply chosen_no; [intros name H; apply WF in H; [eapply H2; eauto|left; auto]|]. apply IH; auto.
  - apply IH. intros f' l I. apply W. right; auto.
Qed.
Print Assumptions C90_frames_partial.

(** A local that is a union and is borrowed: no state is shown while it is alive. *)
Theorem C90_union_refuted m allocs fuel fs f i l a : In f fs -> nth_error (f_locals f) i = Some l -> l_shape l = ShUnion ->
  l_state l = InMemory a -> (exists name, SourceVar f i l name) -> build_state m allocs fuel fs = inl SPanic.
Proof.
  intros IF N SH ST (name & V).
  assert (T : test_local allocs f i l = Panics).
  { unfold test_local. rewrite SH, ST. cbn [mem_is_initialized]. destruct V as [(-> & -> & _)|(NZ & D & _)]; auto.
    apply Nat.eqb_neq in NZ. rewrite NZ. apply has_debug_spec in D. rewrite D. auto. }
  assert (FF : forall fi ls j k sl, nth_error ls j = Some l -> k + j = i -> find_frame allocs fi f k ls sl = None).
  { intros fi ls. induction ls as [|l0 ls IH]; intros j k sl NJ KJ; [destruct j; discriminate NJ|]. cbn [find_frame].
    destruct j as [|j]; cbn [nth_error] in NJ.
    - injection NJ as ->. rewrite Nat.add_0_r in KJ. subst k. rewrite T. auto.
    - rewrite <- Nat.add_succ_comm in KJ. destruct (test_local allocs f k l0) as [| |nm slot]; [eapply IH; eauto|auto|].
      rewrite (IH j (S k) _ NJ KJ). auto. }
  unfold build_state. assert (FL : forall fs fi sl, In f fs -> find_locals allocs fi fs sl = None).
  { induction fs0 as [|f0 fs0 IH]; intros fi sl; [intros []|]. cbn [find_locals]. intros [->|I].
    - rewrite (FF fi _ i 0 sl N eq_refl). auto.
    - destruct (find_frame allocs fi f0 0 (f_locals f0) sl) as [[xs sl1]|]; auto. rewrite IH; auto. }
  rewrite FL; auto.
Qed.
Print Assumptions C90_union_refuted.

(** ** The slots of the locals in memory *)

(** Local number [i] of frame number [fi] is shown with that name, and is in the allocation. *)
Definition Lives (allocs : nat -> allocation) (fs : list frame) (a fi : nat) (name : string) (t : ty) : Prop :=
  exists f i l, nth_error fs fi = Some f /\ nth_error (f_locals f) i = Some l /\ test_local allocs f i l = Yes name (Some a) /\ t = l_ty l.

(** No two locals share an allocation. *)
Definition Separate (allocs : nat -> allocation) (fs : list frame) : Prop :=
  forall a fi name t fi' name' t', Lives allocs fs a fi name t -> Lives allocs fs a fi' name' t' -> fi = fi' /\ name = name' /\ t = t'.

Lemma find_frame_slots allocs fi f a v : forall ls i sl xs sl', find_frame allocs fi f i ls sl = Some (xs, sl') ->
  (aget Nat.eq_dec sl' a = Some v -> aget Nat.eq_dec sl a = Some v \/
     exists j l name, nth_error ls j = Some l /\ test_local allocs f (i + j) l = Yes name (Some a) /\ v = (fi, name, l_ty l)) /\
  ((aget Nat.eq_dec sl a <> None \/ exists j l name, nth_error ls j = Some l /\ test_local allocs f (i + j) l = Yes name (Some a)) ->
     aget Nat.eq_dec sl' a <> None).
Proof.
  induction ls as [|l ls IH]; intros i sl xs sl'; cbn [find_frame].
  - intros [= <- <-]. split; auto. intros [H|(j & l & name & N & _)]; auto. destruct j; discriminate.
  - destruct (test_local allocs f i l) as [| |name slot] eqn:T; [|discriminate|].
    + intros E. destruct (IH _ _ _ _ E) as (A & B). split.
      * intros G. destruct (A G) as [H|(j & l' & name & N & T' & V)]; auto. right. exists (S j), l', name.
        rewrite Nat.add_succ_r. auto.
      * intros [H|(j & l' & name & N & T')]; [apply B; auto|]. destruct j as [|j]; cbn [nth_error] in N.
        -- injection N as <-. rewrite Nat.add_0_r in T'. congruence.
        -- apply B. right. exists j, l', name. rewrite Nat.add_succ_r in T'. auto.
    + destruct (find_frame allocs fi f (S i) ls _) as [[ys sl1]|] eqn:E; [|discriminate]. intros [= <- <-].
      destruct (IH _ _ _ _ E) as (A & B). split.
      * intros G. destruct (A G) as [H|(j & l' & name' & N & T' & V)].
        -- destruct slot as [b|]; auto. rewrite aget_aset in H. destruct (Nat.eq_dec a b) as [->|]; auto.
           injection H as <-. right. exists 0, l, name. rewrite Nat.add_0_r. auto.
        -- right. exists (S j), l', name'. rewrite Nat.add_succ_r. auto.
      * intros H. apply B. destruct H as [H|(j & l' & name' & N & T')].
        -- left. destruct slot as [b|]; auto. rewrite aget_aset. destruct (Nat.eq_dec a b); [discriminate|auto].
        -- destruct j as [|j]; cbn [nth_error] in N.
           ++ injection N as <-. rewrite Nat.add_0_r, T in T'. injection T' as <- ->. left. rewrite aget_aset_eq. discriminate.
           ++ right. exists j, l', name'. rewrite Nat.add_succ_r in T'. auto.
Qed.

(** The allocations that pointers can be resolved to are those of the locals that are shown. *)
Theorem C90_slots allocs fs xss sl a fi name t : Separate allocs fs -> find_locals allocs 0 fs [] = Some (xss, sl) ->
  aget Nat.eq_dec sl a = Some (fi, name, t) <-> Lives allocs fs a fi name t.
Proof.
  intros SEP E.
  assert (X : forall fs fi0 sl0 xss sl, find_locals allocs fi0 fs sl0 = Some (xss, sl) -> forall v,
    (aget Nat.eq_dec sl a = Some v -> aget Nat.eq_dec sl0 a = Some v \/
       exists k name t, Lives allocs fs a k name t /\ v = (fi0 + k, name, t)) /\
    ((aget Nat.eq_dec sl0 a <> None \/ exists k name t, Lives allocs fs a k name t) -> aget Nat.eq_dec sl a <> None)).
  { clear. induction fs as [|f fs IH]; intros fi0 sl0 xss sl; cbn [find_locals].
    - intros [= <- <-] v. split; auto. intros [H|(k & name & t & f & i & l & N & _)]; auto. destruct k; discriminate.
    - destruct (find_frame allocs fi0 f 0 (f_locals f) sl0) as [[xs sl1]|] eqn:E1; [|discriminate].
      destruct (find_locals allocs (S fi0) fs sl1) as [[ys sl2]|] eqn:E2; [|discriminate]. intros [= <- <-] v.
      destruct (IH _ _ _ _ E2 v) as (A & B). destruct (find_frame_slots _ _ _ a v _ _ _ _ _ E1) as (C & D). split.
      + intros G. destruct (A G) as [H|(k & name & t & L & ->)].
        * destruct (C H) as [H'|(j & l & name & N & T & ->)]; auto. right. exists 0, name, (l_ty l). rewrite Nat.add_0_r.
          split; auto. exists f, j, l. auto.
        * right. exists (S k), name, t. rewrite Nat.add_succ_r. split; auto.
      + intros H. apply B. destruct H as [H|(k & name & t & f0 & i & l & N & NI & T & _)]; [left; apply D; auto|].
        destruct k as [|k]; cbn [nth_error] in N.
        * injection N as ->. left. apply D. right. exists i, l, name. auto.
        * right. exists k, name, (l_ty l). exists f0, i, l. auto. }
  destruct (X _ _ _ _ _ E (fi, name, t)) as (A & B). split.
  - intros G. destruct (A G) as [H|(k & name' & t' & L & V)]; [discriminate|]. cbn [Nat.add] in V. injection V as <- <- <-. auto.
  - intros L. destruct (aget Nat.eq_dec sl a) as [[[fi' name'] t']|] eqn:G.
    + destruct (X _ _ _ _ _ E (fi', name', t')) as (A' & _). destruct (A' G) as [H|(k & n' & t'' & L' & V)]; [discriminate|].
      cbn [Nat.add] in V. injection V as <- <- <-. destruct (SEP _ _ _ _ _ _ _ L L') as (-> & -> & ->). auto.
    + exfalso. apply B; auto. right. eauto.
Qed.
Print Assumptions C90_slots.

(** A pointer to a local that is not shown (a temporary, or a variable with padding inside) is shown like a
    pointer to memory that has been freed. *)
Theorem C90_pointer_refuted m fuel p id q k z s : m_ptr m p = Points q -> m_ty m id = TPrim k -> m_scalar m q k = Scalar z ->
  m_kind m (p_alloc q) = AStack -> m_slot m (p_alloc q) = None -> aget Nat.eq_dec (s_place s) (p_alloc q) = None ->
  exists n s', read m (S (S fuel)) [] p (TPtr id) s = (inr (MUnalloc (Some n)), s').
Proof.
  intros MP TY SC MK SL G. cbn [read]. rewrite MP, TY. unfold read_pointer. rewrite G. unfold bind, read_alloc. cbn [last_kind read].
  rewrite SC. unfold ret. rewrite MK, SL. unfold unallocated. destruct (remap (s_numbers s) (p_alloc q)) as [nums n]. eauto.
Qed.
Print Assumptions C90_pointer_refuted.

(** ** The state *)

(** Choosing and reading together: if a state is shown, the variables of each frame are the chosen ones, and
    their values are right. *)
Theorem C90_state_partial m u8 allocs fuel fs xss sl vs heap :
  find_locals allocs 0 fs [] = Some (xss, sl) ->
  Program (with_slots m sl) u8 (map (fun x => (sh_place x, sh_ty x)) (concat xss)) ->
  build_state m allocs fuel fs = inr (xss, (vs, heap)) ->
  Forall2 (fun f xs => Chosen (fun i l name => exists slot, test_local allocs f i l = Yes name slot) 0 (f_locals f) xs) fs xss /\
  length vs = length (concat xss) /\
  Right (with_slots m sl) u8 (map (fun x => (sh_place x, sh_ty x)) (concat xss)) vs heap.
Proof.
  intros E P. unfold build_state. rewrite E.
  destruct (read_all (with_slots m sl) fuel _) as [e|[vs' heap']] eqn:R; [discriminate|]. intros [= <- <-].
  pose proof (read_all_right _ _ _ P _ _ _ R) as RI. split; [eapply C90_frames; eauto|]. split; auto.
  destruct RI as (os & D & _). apply Forall2_length in D. rewrite map_length in D. auto.
Qed.
Print Assumptions C90_state_partial.

(** Two frames: in the first a variable [x] that is borrowed, a variable without a value and a temporary,
    in the second a reference to [x]. *)
Module Demo.
  Definition i32 := VScalar 4.
  Definition allocs (a : nat) : allocation := Alloc 4 (fun _ => true).
  Definition lx := Local (Some "x") false false (shape_of i32) (TPrim PInt) (InMemory 0) (Place 0 0 None).
  Definition ly := Local (Some "y") false false (shape_of i32) (TPrim PInt) ImmUninit (Place 1 0 None).
  Definition lt := Local None false false (shape_of i32) (TPrim PInt) ImmInit (Place 2 0 None).
  Definition lr := Local (Some "r") false false (shape_of (VScalar 8)) (TPtr 1) ImmInit (Place 3 0 None).
  Definition ret_unit := Local None true true ShPrimitive (TTuple []) ImmUninit (Place 4 0 None).
  Definition ret_int := Local None false false (shape_of i32) (TPrim PInt) ImmUninit (Place 5 0 None).
  Definition frames := [Frame [DPlace 1 0; DPlace 2 0] [ret_unit; lx; ly; lt]; Frame [DPlace 1 0] [ret_int; lr]].
  Definition mem0 : mem := {|
    m_ty := fun id => match id with 0 => TPrim PUint | _ => TPrim PInt end; m_scalar := fun p _ => Scalar 7;
    m_ptr := fun p => Points (Place 0 0 None); m_variant := fun _ => None; m_off := fun _ _ _ => 0;
    m_zst := fun _ => false; m_size := fun _ => 4; m_layout := fun _ => Prim 4; m_kind := fun _ => AStack;
    m_asize := fun _ => 4; m_slot := fun _ => None |}.
End Demo.

Example C90_witness :
  build_state Demo.mem0 Demo.allocs 5 Demo.frames = inr
    ([[Shown 1 "x" (Place 0 0 None) (TPrim PInt)]; [Shown 1 "r" (Place 3 0 None) (TPtr 1)]],
     ([MScalar PInt 7; MPtr (inl (0, "x")) [] None], [])) /\
  find_locals Demo.allocs 0 Demo.frames [] =
    Some ([[Shown 1 "x" (Place 0 0 None) (TPrim PInt)]; [Shown 1 "r" (Place 3 0 None) (TPtr 1)]], [(0, (0, "x", TPrim PInt))]) /\
  Program (with_slots Demo.mem0 [(0, (0, "x", TPrim PInt))]) 0
    [(Place 0 0 None, TPrim PInt); (Place 3 0 None, TPtr 1)] /\
  Separate Demo.allocs Demo.frames /\ Tight Demo.i32 /\ Fits Demo.i32.
Proof.
  split; [vm_compute; reflexivity|]. split; [reflexivity|]. split; [|split; [|split; [exact I|constructor]]].
  - constructor.
    + reflexivity.
    + intros [|id]; right; constructor.
    + intros p t [[= <- <-]|[[= <- <-]|[]]]; constructor.
    + intros w p el _. exists 7, 7%Z. auto.
    + intros w p _. exists 7, 7%Z. auto.
  - assert (L : forall a fi name t, Lives Demo.allocs Demo.frames a fi name t -> fi = 0 /\ name = "x" /\ t = TPrim PInt).
    { intros a fi name t (f & i & l & N & NI & T & ->). destruct fi as [|[|fi]]; cbn [nth_error Demo.frames] in N.
      - injection N as <-. cbn [f_locals] in NI. destruct i as [|[|[|[|i]]]]; cbn [nth_error] in NI; try (injection NI as <-; discriminate T).
        + injection NI as <-. injection T as <- _. auto.
        + destruct i; discriminate.
      - injection N as <-. cbn [f_locals] in NI. destruct i as [|[|i]]; cbn [nth_error] in NI; try (injection NI as <-; discriminate T).
        destruct i; discriminate.
      - destruct fi; discriminate. }
    intros a fi name t fi' name' t' A B. apply L in A as (-> & -> & ->). apply L in B as (-> & -> & ->). auto.
Qed.
