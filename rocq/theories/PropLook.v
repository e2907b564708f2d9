(** * C109: values that differ look different *)
From Coq Require Import String.
From Coq Require Import List Arith Bool ZArith Lia.
From Verif Require Import Base ValuesModel ReaderModel LookModel LookSpec LookProofs.
From Verif Require ReaderSpec.
Import ListNotations.
Local Open Scope string_scope.
Local Open Scope list_scope.

(** What can be read off is shown. *)
Theorem C109_shown_partial : forall ft c err v, Legible c v -> exists l, Looks ft c err v l.
Proof. intros ft c err v L. destruct (legible_shown ft c err _ v (le_n _) L) as [l E]. exists l, (S (height v)). auto. Qed.

(** It looks one way. *)
Theorem C109_one : forall ft c err v l l', Looks ft c err v l -> Looks ft c err v l' -> l = l'.
Proof. intros. eapply looks_fun; eauto. Qed.

(** Two values of a type that look alike are the same for the reader. *)
Theorem C109_differ_partial : forall ft c err empty t v w l,
  Distinct ft -> Named t -> Shaped empty t v -> Shaped empty t w -> Legible c v -> Legible c w ->
  Looks ft c err v l -> Looks ft c err w l -> Agree c v w.
Proof. intros ft c err empty t v w l D N S1 S2 L1 L2 [n H1] [n' H2]. eapply differs; eauto. Qed.

(** And the other way round, so that nothing else can be seen. *)
Theorem C109_alike_partial : forall ft c v w l, Agree c v w -> Legible c v -> Legible c w ->
  (Looks ft c None v l <-> Looks ft c None w l).
Proof.
  intros ft c v w l A L1 L2. pose proof (alike ft c) as K. unfold Looks. split; intros [n H]; exists n.
  - rewrite <- (K n v w); auto.
  - rewrite (K n v w); auto.
Qed.

(** What the tool reads from memory has the form of its type: the variables of two memories that look
    alike, one by one, are the same. *)
Theorem C109_memory_partial : forall ft c err m m' f f' ls ls' vs vs' heap heap',
  Distinct ft -> (forall t, m_zst m t = m_zst m' t) -> map snd ls = map snd ls' -> Forall Named (map snd ls) ->
  read_all m f ls = inr (vs, heap) -> read_all m' f' ls' = inr (vs', heap') ->
  Forall (Legible c) vs -> Forall (Legible c) vs' ->
  Forall2 (fun v w => exists l, Looks ft c err v l /\ Looks ft c err w l) vs vs' -> Forall2 (Agree c) vs vs'.
Proof.
  intros ft c err m m' f f' ls ls' vs vs' heap heap' D Z T N R R' L L' LK.
  assert (S : Forall2 (Shaped (m_zst m)) (map snd ls) vs).
  { unfold read_all in R. destruct (read_locals m f ls _) as [[e|us] s] eqn:E; [discriminate|]. injection R as <- <-.
    eapply locals_shaped; eauto. }
  assert (S' : Forall2 (Shaped (m_zst m)) (map snd ls) vs').
  { unfold read_all in R'. destruct (read_locals m' f' ls' _) as [[e|us] s] eqn:E; [discriminate|]. injection R' as <- <-.
    apply locals_shaped in E. rewrite <- T in E. clear - E Z.
    revert E. generalize (map snd ls). intros ts E. induction E; constructor; eauto using shaped_ext. }
  clear R R' T. revert vs' S' L' LK. induction S as [|t v ts vs Sv S IH]; intros vs' S' L' LK; inversion S'; subst; [constructor|].
  inversion N; subst. inversion L; subst. inversion L'; subst. inversion LK; subst.
  match goal with H : exists l, _ |- _ => destruct H as (l0 & L1 & L2) end.
  constructor; [eapply C109_differ_partial; eauto|]. apply IH; auto.
Qed.


(** Two states in which the variables and the objects have the same types: if their pictures are the same,
    so are they. *)
Theorem C109_states_partial : forall ft c err empty vars objs s s' pic,
  Distinct ft -> Forall (Forall Named) vars -> Forall Named objs ->
  StateShaped empty vars objs s -> StateShaped empty vars objs s' -> StateLegible c s -> StateLegible c s' ->
  LooksState ft c err s pic -> LooksState ft c err s' pic -> SameState c s s'.
Proof.
  intros ft c err empty vars objs s s' pic D N NO [SF SH] [SF' SH'] [LF LH] [LF' LH'] [n P] [n' P'].
  unfold look_state in P, P'.
  destruct (all_some (map (look_frame (look_at n ft c err)) (sn_frames s))) as [fs|] eqn:E1; [|discriminate].
  destruct (all_some (map (look_at n ft c err) (sn_heap s))) as [hs|] eqn:E2; [|discriminate].
  destruct (all_some (map (look_frame (look_at n' ft c err)) (sn_frames s'))) as [fs'|] eqn:E1'; [|discriminate].
  destruct (all_some (map (look_at n' ft c err) (sn_heap s'))) as [hs'|] eqn:E2'; [|discriminate].
  cbn in P, P'. rewrite <- P in P'. injection P' as -> ->. split.
  - pose proof (all_some_both _ _ _ _ _ E1 E1') as B. clear P E1 E1' E2 E2' SH SH' LH LH' NO hs.
    revert SF' LF' B. generalize (sn_frames s') as gs'. revert SF LF. generalize (sn_frames s) as gs. clear s s' fs.
    intros gs SF. induction SF as [|ts g vars gs S1 SF IH]; intros LF gs' SF' LF' B; inversion SF'; subst; [constructor|].
    inversion N; subst. inversion LF; subst. inversion LF'; subst. inversion B; subst. constructor; [|apply IH; auto].
    match goal with H : exists l, _ |- _ => destruct H as (l0 & K1 & K2) end.
    match goal with H : Forall2 _ ts (fr_locals y) |- _ => rename H into S2 end.
    match goal with H : Forall _ (fr_locals g) |- _ => rename H into G1 end.
    match goal with H : Forall _ (fr_locals y) |- _ => rename H into G2 end.
    match goal with H : Forall Named ts |- _ => rename H into NT end.
    clear - D S1 S2 G1 G2 NT K1 K2. unfold look_frame in K1, K2.
    destruct (all_some (map _ (fr_locals g))) as [r|] eqn:E; [|discriminate].
    destruct (all_some (map _ (fr_locals y))) as [r'|] eqn:E'; [|discriminate].
    cbn in K1, K2. rewrite <- K1 in K2. injection K2 as EN ->. split; [auto|].
    pose proof (all_some_both _ _ _ _ _ E E') as B. clear E E' K1 EN r. revert NT S1 S2 G1 G2 B. rename ts into tl. revert tl.
    generalize (fr_locals y) as ks'. generalize (fr_locals g) as ks. intros ks ks' tl NT S1. revert NT ks'. induction S1 as [|t k tl ks T1 S1 IH]; intros NT ks' S2 G1 G2 B; inversion S2; subst; [constructor|].
    inversion NT; subst. inversion G1; subst. inversion G2; subst. inversion B; subst. constructor; [|apply IH; auto].
    match goal with H : exists l, _ |- _ => destruct H as (l1 & K1 & K2) end. unfold look_local in K1, K2.
    destruct (look_at n ft c err (l_value k)) as [a|] eqn:A1; [|discriminate].
    destruct (look_at n' ft c err (l_value y0)) as [a'|] eqn:A2; [|discriminate].
    cbn in K1, K2. rewrite <- K1 in K2. injection K2 as K2 K3 K4. subst a'.
    split; [auto|]. split; [|eapply (differs ft err D); eauto].
    assert (W : forall l, existsb (fun p : list seg => match p with [] => true | _ => false end) (l_moved l) = true <-> WholeMoved l).
    { intros l. rewrite existsb_exists. unfold WholeMoved. split; [intros ([|] & I & Q); auto; discriminate|]. intros I. exists []. auto. }
    rewrite <- !W, K3. tauto.
  - pose proof (all_some_both _ _ _ _ _ E2 E2') as B. clear - D NO SH SH' LH LH' B.
    revert SH' LH' B. generalize (sn_heap s') as gs'. revert SH LH. generalize (sn_heap s) as gs.
    intros gs SF. induction SF as [|t g ts gs S1 SF IH]; intros LF gs' SF' LF' B; inversion SF'; subst; [constructor|].
    inversion NO; subst. inversion LF; subst. inversion LF'; subst. inversion B; subst. constructor; [|apply IH; auto].
    match goal with H : exists l, _ |- _ => destruct H as (l0 & K1 & K2) end. eapply (differs ft err D); eauto.
Qed.

(** ** What cannot be told apart *)

(** Of a long array the first eleven elements and the last are shown, and not how many there are: arrays
    of any lengths beyond 12 that agree in these are shown alike, also if all the others differ. *)
Theorem C109_long_refuted : forall m m' f f' ks ks' p p' k n n' s s' v v' s1 s1',
  12 < n -> 12 < n' ->
  (forall i, i < 11 -> m_scalar m (ReaderSpec.nth_place p (m_size m (TPrim k)) i) k
                     = m_scalar m' (ReaderSpec.nth_place p' (m_size m' (TPrim k)) i) k) ->
  m_scalar m (ReaderSpec.nth_place p (m_size m (TPrim k)) (n - 1)) k
    = m_scalar m' (ReaderSpec.nth_place p' (m_size m' (TPrim k)) (n' - 1)) k ->
  read m f ks p (TArray (TPrim k) n) s = (inr v, s1) -> read m' f' ks' p' (TArray (TPrim k) n') s' = (inr v', s1') ->
  v = v' /\ forall ft c err l, Looks ft c err v l <-> Looks ft c err v' l.
Proof.
  intros m m' f f' ks ks' p p' k n n' s s' v v' s1 s1' L L' A E R R'.
  assert (V : v = v'); [|subst; split; [auto|tauto]].
  destruct f as [|[|f]]; [discriminate| |].
  { cbn [read] in R. unfold read_array, abbrev_new, ABBREV_MAX in R. destruct (Nat.leb n 12) eqn:Q; [apply Nat.leb_le in Q; lia|].
    discriminate R. }
  destruct f' as [|[|f']]; [discriminate| |].
  { cbn [read] in R'. unfold read_array, abbrev_new, ABBREV_MAX in R'. destruct (Nat.leb n' 12) eqn:Q; [apply Nat.leb_le in Q; lia|].
    discriminate R'. }
  set (rd1 := fun (x : scalar) => match x with Scalar z => inr (MScalar k (show k z)) | Uninit => inr (MUnalloc None) | BadScalar e => inl (SErr e) end : stop + mvalue).
  assert (RD : forall m f ks q s, read m (S f) ks q (TPrim k) s = (rd1 (m_scalar m q k), s)).
  { intros m0 f0 ks0 q s0. cbn [read]. unfold rd1. destruct (m_scalar m0 q k); reflexivity. }
  assert (CO : forall idx, (forall i, In i idx -> i < 11) -> forall s s',
    fst (collect_state (fun i => read m (S f) ks (element p (m_size m (TPrim k)) i) (TPrim k)) idx s) =
    fst (collect_state (fun i => read m' (S f') ks' (element p' (m_size m' (TPrim k)) i) (TPrim k)) idx s')).
  { induction idx as [|i r IH]; intros B t t'; [reflexivity|]. cbn [collect_state]. rewrite !RD.
    pose proof (A i (B i (or_introl eq_refl))) as Q. unfold ReaderSpec.nth_place in Q. fold (element p (m_size m (TPrim k)) i) in Q.
    fold (element p' (m_size m' (TPrim k)) i) in Q. rewrite Q. destruct (rd1 _) as [e|x]; [reflexivity|].
    specialize (IH (fun j J => B j (or_intror J)) t t').
    destruct (collect_state _ r t) as [[e|xs] t1]; destruct (collect_state _ r t') as [[e'|xs'] t1']; cbn in IH |- *; congruence. }
  change (read m (S (S f)) ks p (TArray (TPrim k) n)) with (read_array (read m (S f) ks) p (m_size m (TPrim k)) n (TPrim k)) in R.
  change (read m' (S (S f')) ks' p' (TArray (TPrim k) n')) with (read_array (read m' (S f') ks') p' (m_size m' (TPrim k)) n' (TPrim k)) in R'.
  unfold read_array, abbrev_new, ABBREV_MAX in R, R'.
  destruct (Nat.leb n 12) eqn:Q; [apply Nat.leb_le in Q; lia|]. destruct (Nat.leb n' 12) eqn:Q'; [apply Nat.leb_le in Q'; lia|].
  change (12 - 1) with 11 in R, R'.
  assert (B : forall i, In i (seq 0 11) -> i < 11) by (intros i I; apply in_seq in I; lia).
  specialize (CO (seq 0 11) B s s').
  destruct (collect_state _ (seq 0 11) s) as [[e|xs] t1]; [discriminate|].
  destruct (collect_state _ (seq 0 11) s') as [[e|xs'] t1']; [discriminate|]. cbn in CO. injection CO as <-.
  rewrite RD in R, R'. unfold ReaderSpec.nth_place in E. fold (element p (m_size m (TPrim k)) (n - 1)) in E.
  fold (element p' (m_size m' (TPrim k)) (n' - 1)) in E. rewrite E in R. destruct (rd1 _) as [e|x]; [discriminate|].
  injection R as <- _. injection R' as <- _. reflexivity.
Qed.

(** Characters 65536 apart look alike, and so do a space and U+00A0. *)
Theorem C109_chars_refuted : forall ft c err l,
  (forall z, Looks ft c err (MScalar PChar z) l <-> Looks ft c err (MScalar PChar (z + 2 ^ 16)) l) /\
  (Looks ft c err (MScalar PChar 32) l <-> Looks ft c err (MScalar PChar 160) l).
Proof.
  intros ft c err l. split.
  - intros z. assert (E : char_unit (z + 2 ^ 16) = char_unit z).
    { unfold char_unit. replace ((z + 2 ^ 16) mod 2 ^ 16)%Z with (z mod 2 ^ 16)%Z; [reflexivity|].
      symmetry. replace (z + 2 ^ 16)%Z with (z + 1 * 2 ^ 16)%Z by lia. apply Z.mod_add. lia. }
    unfold Looks. split; intros [[|n] H]; try discriminate; exists (S n); cbn [look_at] in *; congruence.
  - unfold Looks. split; intros [[|n] H]; try discriminate; exists (S n); exact H.
Qed.

(** Vectors, strings, boxes and iterators with the same pointer look alike, whatever else is in them. *)
Theorem C109_hidden_refuted : forall ft err v w p l, Stands v p -> Stands w p ->
  (Looks ft false err v l <-> Looks ft false err w l).
Proof.
  intros ft err v w p l S S'. unfold Looks. split; intros [[|n] H]; try discriminate; exists (Datatypes.S n).
  - rewrite (look_stands _ _ _ p _ S'). rewrite (look_stands _ _ _ p _ S) in H. auto.
  - rewrite (look_stands _ _ _ p _ S). rewrite (look_stands _ _ _ p _ S') in H. auto.
Qed.

(** Uninitialised data and pointers to freed memory, of whichever allocation, look alike. *)
Theorem C109_dead_refuted : forall ft c a b l, Looks ft c None (MUnalloc a) l <-> Looks ft c None (MUnalloc b) l.
Proof. intros. unfold Looks. split; intros [[|n] H]; try discriminate; exists (S n); exact H. Qed.

(** The two zeros look alike. *)
Theorem C109_zero_refuted : forall ft c err l, Looks ft c err (MScalar PFloat 0) l <-> Looks ft c err (MScalar PFloat (2 ^ 63)) l.
Proof. intros. unfold Looks. split; intros [[|n] H]; try discriminate; exists (S n); exact H. Qed.

(** A variable of which only parts have been moved away looks like one of which nothing has. *)
Theorem C109_moved_refuted : forall fuel ft c err before name v paths after rest rest' heap f,
  ~ In [] paths ->
  look_state fuel ft c err (MSnap (rest ++ MFrame f (before ++ MLocal name v paths :: after) :: rest') heap) =
  look_state fuel ft c err (MSnap (rest ++ MFrame f (before ++ MLocal name v [] :: after) :: rest') heap).
Proof.
  intros fuel ft c err before name v paths after rest rest' heap f N. unfold look_state. cbn [sn_frames sn_heap].
  rewrite !map_app. cbn [map]. unfold look_frame at 2 5. cbn [fr_name fr_locals]. rewrite !map_app. cbn [map].
  unfold look_local at 2 5. cbn [l_name l_value l_moved].
  replace (existsb (fun p : list seg => match p with [] => true | _ => false end) paths) with false; [reflexivity|].
  symmetry. induction paths as [|[|a p] paths IH]; cbn in *; auto. exfalso. tauto.
Qed.

(** A boolean, a character and an integer that can be read off are shown as what they are. *)
Theorem C109_scalars_partial : forall ft c err k z l, PlainScalar k z -> Looks ft c err (MScalar k z) l ->
  match k with
  | PBool => exists b, l = LBool b /\ (b = true <-> z = 1%Z)
  | PChar => l = LChar z
  | PUint | PInt => l = LNumber z
  | PFloat => l = LFloat (ft z)
  end.
Proof.
  intros ft c err k z l P [[|n] H]; [discriminate|]. destruct k; cbn [look_at PlainScalar] in H, P.
  - injection H as <-. eexists. split; [reflexivity|]. destruct P as [-> | ->]; cbn; split; congruence.
  - injection H as <-. unfold char_unit. destruct P as [P Q]. rewrite Z.mod_small by exact P. destruct (Z.eqb_spec z 32); congruence.
  - injection H as <-. rewrite (number_exact z P). reflexivity.
  - injection H as <-. rewrite (number_exact z P). reflexivity.
  - destruct P as (P & Q & R). unfold float_text in H. destruct (Z.eqb_spec ((z / 2 ^ 52) mod 2 ^ 11) 2047); [contradiction|]. destruct (Z.eqb_spec z (2 ^ 63)); [contradiction|].
    injection H as <-. reflexivity.
Qed.

(** A pointer's arrow ends where the pointer points. *)
Lemma leads_step ps : Forall2 Leads ps (map seg_step ps).
Proof. induction ps as [|[]]; cbn; constructor; auto; constructor. Qed.

Lemma points_to sg ps : PointsTo sg ps (point_to sg ps) (point_to_range sg ps).
Proof.
  destruct (last_case ps) as [->|(q & a & ->)].
  - split.
    + exists [], []. repeat split; [right; split; auto using nil_not_zero|constructor].
    + intros qs lo hi E. symmetry in E. apply (snoc_ne_nil _ _ E).
  - unfold point_to. rewrite range_snoc. split.
    + destruct (zero_dec a) as [->|D].
      * rewrite pop_snoc. exists q, (map seg_step q). auto using leads_step.
      * rewrite pop_other by auto. exists (q ++ [a]), (map seg_step (q ++ [a])). auto 6 using leads_step, not_zero_last.
    + destruct a as [i|i|lo hi].
      1, 2: intros qs lo hi E; apply app_inj_tail in E as [_ E]; discriminate.
      exists q, (map seg_step q), lo, hi. auto using leads_step.
Qed.

Theorem C109_aim : forall ft c err sg ps r l, Looks ft c err (MPtr sg ps r) l ->
  exists dst range, PointsTo sg ps dst range /\
    match r with
    | Some (S n) => l = if c then LFat dst range (S n) else LDot dst range
    | _ => l = LDot dst range
    end.
Proof.
  intros ft c err sg ps r l [[|n] H]; [discriminate|]. cbn [look_at] in H.
  exists (point_to sg ps), (point_to_range sg ps). split; [apply points_to|].
  destruct c, r as [[|]|]; congruence.
Qed.

(** A pointer to freed memory is a sign, which is red exactly if it is the pointer of the error. *)
Theorem C109_failing : forall ft c err a l, Looks ft c err (MUnalloc a) l <->
  exists red, l = LDead red /\ (red = true <-> exists x, err = Some x /\ a = Some x).
Proof.
  intros ft c err a l.
  assert (X : forall b, match err, a with Some x, Some y => Nat.eqb x y | _, _ => false end = b <-> (b = true <-> exists x, err = Some x /\ a = Some x)).
  { intros b. destruct err as [x|], a as [y|].
    - destruct (Nat.eqb_spec x y) as [->|N]; split.
      + intros <-. split; [exists y; auto|reflexivity].
      + intros [_ H]. symmetry. apply H. exists y. auto.
      + intros <-. split; [discriminate|]. intros (z & [= <-] & [= ->]). congruence.
      + intros [H _]. destruct b; [|reflexivity]. destruct (H eq_refl) as (z & [= <-] & [= ->]). congruence.
    - split; [intros <-; split; [discriminate|intros (z & _ & Q); discriminate Q]|]. intros [H _]. destruct b; [|reflexivity]. destruct (H eq_refl) as (z & _ & Q). discriminate Q.
    - split; [intros <-; split; [discriminate|intros (z & Q & _); discriminate Q]|]. intros [H _]. destruct b; [|reflexivity]. destruct (H eq_refl) as (z & Q & _). discriminate Q.
    - split; [intros <-; split; [discriminate|intros (z & Q & _); discriminate Q]|]. intros [H _]. destruct b; [|reflexivity]. destruct (H eq_refl) as (z & Q & _). discriminate Q. }
  split.
  - intros [[|n] H]; [discriminate H|]. cbn [look_at] in H. injection H as <-. eexists. split; [reflexivity|]. apply X. reflexivity.
  - intros (red & -> & H). exists 1. cbn [look_at]. apply X in H. rewrite H. reflexivity.
Qed.
Print Assumptions C109_failing.

Print Assumptions C109_shown_partial.
Print Assumptions C109_one.
Print Assumptions C109_scalars_partial.
Print Assumptions C109_aim.
Print Assumptions C109_differ_partial.
Print Assumptions C109_alike_partial.
Print Assumptions C109_memory_partial.
Print Assumptions C109_states_partial.
Print Assumptions C109_long_refuted.
Print Assumptions C109_chars_refuted.
Print Assumptions C109_hidden_refuted.
Print Assumptions C109_dead_refuted.
Print Assumptions C109_zero_refuted.
Print Assumptions C109_moved_refuted.

(** ** Cases that meet the hypotheses *)

Module LookDemo.
  Definition text (z : Z) : list nat := [Z.to_nat z].
  Lemma text_distinct : Distinct text.
  Proof. intros y z [P _] [Q _] E. unfold text in E. injection E as E. apply Z2Nat.inj in E; lia. Qed.

  Definition empty (t : ty) : bool := match t with TStruct _ _ [] => true | _ => false end.
  Definition point_ty := TStruct "Point" [] [("x", TPrim PInt); ("y", TPrim PInt)].
  Definition option_ty := TEnum "Option" [("None", []); ("Some", [("0", TBox 0)])].
  Definition vec_ty := ReaderSpec.vec 0 1.

  Definition uniq (p : mvalue) : mvalue := MAdt "Unique" None [("pointer", MAdt "NonNull" None [("pointer", p)] None)] None.
  Definition a_vec (cap len heap : nat) : mvalue :=
    MAdt "Vec" None
      [("buf", MAdt "RawVec" None [("inner", MAdt "RawVecInner" None
          [("ptr", uniq (MPtr (inr heap) [Index 0] None));
           ("cap", MAdt "UsizeNoHighBit" None [("0", MScalar PUint (Z.of_nat cap))] None)] None)] None);
       ("len", MScalar PUint (Z.of_nat len))] (Some (HVec len 1)).
  Definition a_box (heap : nat) : mvalue := MAdt "Box" None [("0", uniq (MPtr (inr heap) [] None))] (Some HBox).
  Definition some_box (heap : nat) : mvalue := MAdt "Option" (Some "Some") [("0", a_box heap)] None.
  Definition point (x y : Z) : mvalue := MAdt "Point" None [("x", MScalar PInt x); ("y", MScalar PInt y)] None.

  Definition snap (cap : nat) (x : Z) : msnap :=
    MSnap [MFrame "main" [MLocal "v" (a_vec cap 3 0) [[]]; MLocal "o" (some_box 1) []; MLocal "p" (point x (-5)) [[Field 0]];
                          MLocal "c" (MScalar PChar 97) []]]
          [MArray (AllOf [MScalar PInt 1; MScalar PInt 2; MScalar PInt 3]); MScalar PInt 7].
  Definition vars : list (list ty) := [[vec_ty; option_ty; point_ty; TPrim PChar]].
  Definition objs : list ty := [TArray (TPrim PInt) 3; TPrim PInt].

  Lemma shaped_uniq id p : Shaped empty (TPtr id) p -> Shaped empty (unique id) (uniq p).
  Proof.
    intros H. apply sh_struct; [constructor|]. cbn. constructor; [|constructor]. split; [auto|]. cbn.
    apply sh_struct; [constructor|]. cbn. constructor; [|constructor]. split; auto.
  Qed.
  Lemma shaped_vec cap len heap : Shaped empty vec_ty (a_vec cap len heap).
  Proof.
    apply sh_struct; [eapply owner_vec; reflexivity|]. cbn. constructor; [|constructor; [|constructor]]; (split; [reflexivity|]); cbn.
    - apply sh_struct; [constructor|]. cbn. constructor; [|constructor]. split; [auto|]. cbn.
      apply sh_struct; [constructor|]. cbn. constructor; [|constructor; [|constructor]]; (split; [reflexivity|]); cbn.
      + apply shaped_uniq. constructor.
      + apply sh_struct; [constructor|]. cbn. constructor; [|constructor]. split; [auto|]. constructor.
    - constructor.
  Qed.
  Lemma shaped_box heap : Shaped empty (TBox 0) (a_box heap).
  Proof. apply sh_box. apply shaped_uniq. constructor. Qed.
  Lemma shaped_some heap : Shaped empty option_ty (some_box heap).
  Proof.
    eapply sh_enum; [right; left; reflexivity|]. cbn. constructor; [|constructor]. split; [auto|]. apply shaped_box.
  Qed.
  Lemma shaped_point x y : Shaped empty point_ty (point x y).
  Proof.
    apply sh_struct; [constructor|]. cbn. constructor; [|constructor; [|constructor]]; (split; [reflexivity|]); constructor.
  Qed.

  Lemma snap_shaped cap x : StateShaped empty vars objs (snap cap x).
  Proof.
    split; cbn.
    - constructor; [|constructor]. cbn. constructor; [apply shaped_vec|]. constructor; [apply shaped_some|].
      constructor; [apply shaped_point|]. constructor; [constructor|constructor].
    - constructor; [|constructor; [constructor|constructor]]. constructor; [reflexivity|]. repeat constructor.
  Qed.

  Lemma at_field n x before k u after kd : ~ In k (map fst before) -> FieldAt (MAdt n x (before ++ (k, u) :: after) kd) k u.
  Proof. intros N. exists n, x, before, after, kd. auto. Qed.

  Lemma uniq_along p : Along (uniq p) ["pointer"] (MAdt "NonNull" None [("pointer", p)] None).
  Proof. eexists. split; [apply (at_field _ _ [] _ _ []); auto|]. reflexivity. Qed.
  Lemma first_nn p : FirstOf (MAdt "NonNull" None [("pointer", p)] None) p.
  Proof. do 5 eexists. reflexivity. Qed.

  Lemma stands_vec cap len heap : Stands (a_vec cap len heap) (MPtr (inr heap) [Index 0] None).
  Proof.
    eapply st_vec; [|apply first_nn].
    eexists. split; [apply (at_field _ _ [] "buf"); auto|]. eexists. split; [apply (at_field _ _ [] "inner" _ []); auto|].
    eexists. split; [apply (at_field _ _ [] "ptr"); auto|]. apply uniq_along.
  Qed.
  Lemma stands_box heap : Stands (a_box heap) (MPtr (inr heap) [] None).
  Proof.
    eapply st_box; [|apply first_nn]. eexists. split; [apply (at_field _ _ [] "0" _ []); auto|]. apply uniq_along.
  Qed.

  Lemma plain_nil : PlainPath [].
  Proof. intros [|] b lo hi E; discriminate. Qed.
  Lemma plain_index i : PlainPath [Index i].
  Proof. intros [|a [|? ?]] b lo hi E; discriminate. Qed.

  Lemma legible_int k z : (Z.abs z < 2 ^ 53)%Z -> k = PInt \/ k = PUint -> Legible false (MScalar k z).
  Proof. intros H [-> | ->]; constructor; exact H. Qed.

  Lemma snap_legible cap x : (Z.abs x < 2 ^ 53)%Z -> StateLegible false (snap cap x).
  Proof.
    intros X. split; cbn.
    - constructor; [|constructor]. cbn. constructor; [|constructor; [|constructor; [|constructor; [|constructor]]]]; cbn.
      + eapply le_stands; [auto|apply stands_vec|apply plain_index].
      + apply le_fields; [right; do 3 eexists; split; [reflexivity|discriminate]|]. constructor; [|constructor]. cbn.
        eapply le_stands; [auto|apply stands_box|apply plain_nil].
      + apply le_fields; [right; do 3 eexists; split; [reflexivity|discriminate]|].
        constructor; [apply legible_int; auto|]. constructor; [|constructor]. apply legible_int; [cbn; lia|auto].
      + apply le_scalar. cbn. split; [lia|discriminate].
    - constructor; [|constructor; [|constructor]].
      + apply le_array. repeat (constructor; [apply legible_int; [cbn; lia|auto]|]). constructor.
      + apply legible_int; [cbn; lia|auto].
  Qed.

  Lemma vars_named : Forall (Forall Named) vars /\ Forall Named objs.
  Proof.
    split; [|repeat constructor]. repeat (constructor; cbn).
    - intros [E|[]]. discriminate.
    - intros [].
  Qed.

  (** The states differ in the capacity of the vector, which is not shown. *)
  Definition shown : option (list (string * list (string * bool * look)) * list look) := look_state 20 text false None (snap 4 12).
End LookDemo.

Example C109_witness : exists pic,
  LooksState LookDemo.text false None (LookDemo.snap 4 12) pic /\
  LooksState LookDemo.text false None (LookDemo.snap 8 12) pic /\
  SameState false (LookDemo.snap 4 12) (LookDemo.snap 8 12) /\ LookDemo.snap 4 12 <> LookDemo.snap 8 12 /\
  (forall x, (Z.abs x < 2 ^ 53)%Z -> x <> 12%Z -> ~ LooksState LookDemo.text false None (LookDemo.snap 4 x) pic).
Proof.
  destruct LookDemo.shown as [pic|] eqn:E; [|vm_compute in E; discriminate E]. exists pic.
  assert (P1 : LooksState LookDemo.text false None (LookDemo.snap 4 12) pic) by (exists 20; exact E).
  assert (P2 : LooksState LookDemo.text false None (LookDemo.snap 8 12) pic).
  { exists 20. rewrite <- E. vm_compute. reflexivity. }
  destruct LookDemo.vars_named as [N1 N2].
  assert (K : forall cap x, (Z.abs x < 2 ^ 53)%Z -> LooksState LookDemo.text false None (LookDemo.snap cap x) pic ->
    SameState false (LookDemo.snap 4 12) (LookDemo.snap cap x)).
  { intros cap x X P. apply (C109_states_partial LookDemo.text false None LookDemo.empty LookDemo.vars LookDemo.objs _ _ pic);
      auto using LookDemo.text_distinct, LookDemo.snap_shaped; apply LookDemo.snap_legible; auto. lia. }
  split; [exact P1|]. split; [exact P2|]. split; [apply (K 8 12%Z); [lia|exact P2]|]. split.
  - intros F. discriminate F.
  - intros x X D P. apply (K 4 x X) in P. destruct P as [F _]. cbn in F.
    inversion F as [|? ? ? ? [_ G] _]; subst. cbn in G. inversion G as [|? ? ? ? _ G1]; subst. inversion G1 as [|? ? ? ? _ G2]; subst.
    inversion G2 as [|? ? ? ? (_ & _ & A) _]; subst. cbn in A. inversion A as [| | | | | |? ? ? ? ? St|? ? ? ? ? ? ? FF]; subst.
    + inversion St.
    + inversion FF as [|? ? ? ? [_ Q] _]; subst. cbn in Q. inversion Q; subst; [congruence|]. match goal with H : Stands (MScalar _ _) _ |- _ => inversion H end.
Qed.

(** A slice of the second to fourth element of the field 1 of a struct of the heap. *)
Example C109_aim_witness :
  Looks LookDemo.text true None (MPtr (inr 0) [Field 1; Subslice 1 3] (Some 3))
    (LFat (inr 0, [AtField 1; AtIndex 1]) (Some (inr 0, [AtField 1; AtIndex 3])) 3) /\
  PointsTo (inr 0) [Field 1; Subslice 1 3] (inr 0, [AtField 1; AtIndex 1]) (Some (inr 0, [AtField 1; AtIndex 3])).
Proof.
  split; [exists 1; reflexivity|]. apply (points_to (inr 0) [Field 1; Subslice 1 3]).
Qed.
(** The values of long arrays that are shown are read off the page. *)
Example C109_long_shown_witness : forall err x l, (Z.abs x < 2 ^ 53)%Z ->
  let v := fun x => MArray (Only [MScalar PInt 1; MScalar PInt x] (MScalar PInt 7)) in
  Looks LookDemo.text false err (v 5%Z) l -> Looks LookDemo.text false err (v x) l -> x = 5%Z.
Proof.
  intros err x l X v H1 H2.
  assert (Lg : forall x, (Z.abs x < 2 ^ 53)%Z -> Legible false (v x)).
  { intros y Y. apply le_long; [|apply LookDemo.legible_int; [cbn; lia|auto]].
    constructor; [apply LookDemo.legible_int; [cbn; lia|auto]|]. constructor; [|constructor]. apply LookDemo.legible_int; auto. }
  assert (Sh : forall x, Shaped LookDemo.empty (TArray (TPrim PInt) 20) (v x)).
  { intros y. apply sh_long; [cbn; lia| |constructor]. constructor; [constructor|]. constructor; [constructor|constructor]. }
  assert (A : Agree false (v 5%Z) (v x)).
  { eapply (C109_differ_partial LookDemo.text false err LookDemo.empty (TArray (TPrim PInt) 20)); eauto using LookDemo.text_distinct; try (apply Lg; cbn; lia). repeat constructor. }
  inversion A as [| | | | |? ? ? ? F _|? ? ? ? ? St|]; subst; [|inversion St].
  inversion F as [|? ? ? ? _ F1]; subst. inversion F1 as [|? ? ? ? Q _]; subst. inversion Q; subst; auto.
  match goal with H : Stands (MScalar _ _) _ |- _ => inversion H end.
Qed.

(** Two vectors of one pointer, three elements and capacities 4 and 8; the same with a box. *)
Example C109_hidden_witness : forall l, Looks LookDemo.text false None (LookDemo.a_vec 4 3 0) l <-> Looks LookDemo.text false None (LookDemo.a_vec 8 2 0) l.
Proof. intros l. eapply C109_hidden_refuted; apply LookDemo.stands_vec. Qed.

(** Memories with 20 and 30 numbers, which differ from the twelfth on. *)
Module LongDemo.
  Definition memory (f : nat -> Z) : mem :=
    Mem (fun _ => TPrim PUint) (fun p _ => Scalar (f (p_off p))) (fun _ => BadPointer 0) (fun _ => None) (fun _ _ _ => 0)
        (fun _ => false) (fun _ => 1) (fun _ => Prim 1) (fun _ => AStack) (fun _ => 0) (fun _ => None).
  Definition m1 := memory (fun i => if Nat.ltb i 11 then Z.of_nat i else if Nat.eqb i 19 then 99%Z else 0%Z).
  Definition m2 := memory (fun i => if Nat.ltb i 11 then Z.of_nat i else if Nat.eqb i 29 then 99%Z else 5%Z).
  Definition start : mstate := MState [] [] [].
End LongDemo.

Example C109_long_witness : exists v,
  fst (read LongDemo.m1 5 [] (Place 0 0 None) (TArray (TPrim PUint) 20) LongDemo.start) = inr v /\
  fst (read LongDemo.m2 5 [] (Place 0 0 None) (TArray (TPrim PUint) 30) LongDemo.start) = inr v /\
  (forall i, i < 11 -> m_scalar LongDemo.m1 (ReaderSpec.nth_place (Place 0 0 None) 1 i) PUint = m_scalar LongDemo.m2 (ReaderSpec.nth_place (Place 0 0 None) 1 i) PUint) /\
  m_scalar LongDemo.m1 (ReaderSpec.nth_place (Place 0 0 None) 1 19) PUint = m_scalar LongDemo.m2 (ReaderSpec.nth_place (Place 0 0 None) 1 29) PUint.
Proof.
  eexists. split; [vm_compute; reflexivity|]. split; [vm_compute; reflexivity|]. split; [|reflexivity].
  intros i L. unfold LongDemo.m1, LongDemo.m2, LongDemo.memory. cbn [m_scalar ReaderSpec.nth_place p_off].
  replace (0 + 1 * i) with i by lia. apply Nat.ltb_lt in L. rewrite L. reflexivity.
Qed.

(** Two memories with a number and a pair in two variables. *)
Example C109_memory_witness :
  let ls := [(Place 0 0 None, TPrim PUint); (Place 0 4 None, TTuple [TPrim PUint; TPrim PUint])] in
  exists vs, read_all LongDemo.m1 5 ls = inr (vs, []) /\ read_all LongDemo.m2 5 ls = inr (vs, []) /\
    Forall Named (map snd ls) /\ Forall (Legible false) vs /\
    Forall2 (fun v w => exists l, Looks LookDemo.text false None v l /\ Looks LookDemo.text false None w l) vs vs.
Proof.
  intros ls. exists [MScalar PUint 0; MTuple [MScalar PUint 4; MScalar PUint 4]].
  split; [reflexivity|]. split; [reflexivity|]. split; [repeat constructor|].
  assert (L : Forall (Legible false) [MScalar PUint 0; MTuple [MScalar PUint 4; MScalar PUint 4]]).
  { constructor; [apply LookDemo.legible_int; [cbn; lia|auto]|]. constructor; [|constructor]. apply le_tuple.
    repeat (constructor; [apply LookDemo.legible_int; [cbn; lia|auto]|]). constructor. }
  split; [exact L|]. clear ls. revert L. generalize [MScalar PUint 0; MTuple [MScalar PUint 4; MScalar PUint 4]]. intros vs L.
  induction L as [|v vs Lv L IH]; constructor; [|exact IH].
  destruct (C109_shown_partial LookDemo.text false None v Lv) as [l H]. exists l. auto.
Qed.

(** A point of which the field [x] is moved away. *)
Example C109_moved_witness :
  look_state 20 LookDemo.text false None (LookDemo.snap 4 12) =
  look_state 20 LookDemo.text false None (MSnap [MFrame "main" [MLocal "v" (LookDemo.a_vec 4 3 0) [[]]; MLocal "o" (LookDemo.some_box 1) [];
      MLocal "p" (LookDemo.point 12 (-5)) []; MLocal "c" (MScalar PChar 97) []]] (sn_heap (LookDemo.snap 4 12))) /\
  look_state 20 LookDemo.text false None (LookDemo.snap 4 12) <> None.
Proof.
  split; [|vm_compute; discriminate].
  apply (C109_moved_refuted 20 LookDemo.text false None [MLocal "v" (LookDemo.a_vec 4 3 0) [[]]; MLocal "o" (LookDemo.some_box 1) []]
    "p" (LookDemo.point 12 (-5)) [[Field 0]] [MLocal "c" (MScalar PChar 97) []] [] [] _ "main").
  intros [E|[]]. discriminate.
Qed.
