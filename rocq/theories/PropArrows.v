(** * C110: the arrows of a picture can be told apart *)
From Coq Require Import String.
From Coq Require Import List Arith Bool ZArith QArith Lia Lqa.
From Verif Require Import Base ValuesModel ReaderModel LookModel ArrowsModel ArrowsSpec ArrowsProofs.
From Verif Require PropLook.
Import ListNotations.
Local Open Scope nat_scope.
Local Open Scope list_scope.

(** There is one arrow for each pointer of the picture, in their order. *)
Theorem C110_all : forall frames heap os hs,
  Forall2 RowOrigins (flat_map snd frames) os -> Forall2 HeapOrigins heap hs ->
  map origin (render_arrows (frames, heap)) = concat os ++ concat hs.
Proof.
  intros frames heap os hs H1 H2. rewrite arrows_origin. unfold sources. rewrite map_app. f_equal; cbn [fst snd].
  - revert os H1. induction frames as [|[n rows] frames IH]; cbn; intros os H.
    + inversion H. reflexivity.
    + apply Forall2_app_inv_l in H. destruct H as (o1 & o2 & H1 & H3 & ->). rewrite map_app, concat_app, (IH o2 H3). f_equal.
      clear H3 IH. induction H1 as [|row o rows o1 (ps & P & ->) H IH]; [reflexivity|]. cbn.
      rewrite map_app, IH. f_equal. apply dots_pointers in P. subst ps. rewrite map_map. reflexivity.
  - induction H2 as [|l o heap hs (ps & P & ->) H IH]; [reflexivity|]. cbn.
    rewrite map_app, IH. f_equal. apply dots_pointers in P. subst ps. rewrite map_map. reflexivity.
Qed.

(** And the pointers of a picture are given by it. *)
Theorem C110_total : forall (frames : list (string * list (string * bool * look))) heap, exists os hs,
  Forall2 RowOrigins (flat_map snd frames) os /\ Forall2 HeapOrigins heap hs.
Proof.
  intros frames heap.
  exists (map (fun row => map (fun p => (Stack, snd (fst row), fst p, snd p)) (dots (snd row))) (flat_map snd frames)),
         (map (fun l => map (fun p => (Heap, false, fst p, snd p)) (dots l)) heap). split.
  - induction (flat_map snd frames) as [|row rows IH]; cbn; constructor; [|exact IH].
    exists (dots (snd row)). split; [apply pointers_dots|reflexivity].
  - induction heap as [|l heap IH]; cbn; constructor; [|exact IH].
    exists (dots l). split; [apply pointers_dots|reflexivity].
Qed.

(** Among several arrows to the same cell, the ends are 30 percent apart around its middle, on the right of a
    cell of the stack and on the left of a cell of the heap. *)
Theorem C110_spaced_partial : forall pic i a, nth_error (render_arrows pic) i = Some a -> Spaced a ->
  let n := to_cell (ar_to a) (render_arrows pic) in
  let k := to_cell (ar_to a) (firstn i (render_arrows pic)) in
  2 <= n ->
  exists x y, ar_anchor a = Point x (Some y) /\
    (y == 50 + 30 * inject_Z (Z.of_nat k) - 15 * inject_Z (Z.of_nat n - 1))%Q /\
    (OnStack (ar_to a) -> x = 100%Q) /\ (OnHeap (ar_to a) -> x = 0%Q).
Proof.
  intros pic i a H Sp n k N. pose proof (spaced_anchor pic i a H Sp) as E. fold n k in E.
  destruct (spaced_value k (n - 1)) as (y & Y & V); [lia|]. rewrite Y in E. eexists. exists y. split; [exact E|].
  split; [rewrite V; replace (Z.of_nat (n - 1)) with (Z.of_nat n - 1)%Z by lia; reflexivity|].
  split; intros O; [apply on_stack in O|apply on_heap in O]; rewrite O; reflexivity.
Qed.

(** The first is as far from the middle as the last, and so on. *)
Theorem C110_centre_partial : forall pic i j a b x y x' y',
  nth_error (render_arrows pic) i = Some a -> nth_error (render_arrows pic) j = Some b -> Spaced a -> Spaced b ->
  ar_to a = ar_to b ->
  S (to_cell (ar_to a) (firstn i (render_arrows pic)) + to_cell (ar_to a) (firstn j (render_arrows pic))) =
    to_cell (ar_to a) (render_arrows pic) ->
  ar_anchor a = Point x (Some y) -> ar_anchor b = Point x' (Some y') -> (y + y' == 100)%Q.
Proof.
  intros pic i j a b x y x' y' H H' Sa Sb T N A B.
  pose proof (spaced_anchor pic i a H Sa) as E. pose proof (spaced_anchor pic j b H' Sb) as E'.
  rewrite <- T in E'. set (n := to_cell (ar_to a) (render_arrows pic)) in *.
  set (k := to_cell (ar_to a) (firstn i (render_arrows pic))) in *.
  set (k' := to_cell (ar_to a) (firstn j (render_arrows pic))) in *.
  rewrite A in E. rewrite B in E'. destruct (Nat.eq_dec n 1) as [O|O].
  { rewrite O in E. discriminate E. }
  destruct (spaced_value k (n - 1)) as (z & Z1 & V); [lia|]. destruct (spaced_value k' (n - 1)) as (z' & Z2 & V'); [lia|].
  rewrite Z1 in E. rewrite Z2 in E'. injection E as _ ->. injection E' as _ ->. rewrite V, V'.
  replace (n - 1) with (k + k') by lia. rewrite Nat2Z.inj_add, inject_Z_plus. ring.
Qed.

(** Two arrows to the same cell do not end at the same point, unless both come from the stack and go to the stack,
    or the cell is an element, or one is of a range. *)
Theorem C110_apart_partial : forall pic i j a b, i <> j ->
  nth_error (render_arrows pic) i = Some a -> nth_error (render_arrows pic) j = Some b ->
  ar_to a = ar_to b -> ar_range a = None -> ar_range b = None -> ~ Element (ar_to a) -> ~ (Inside a /\ Inside b) ->
  ~ SamePoint (ar_anchor a) (ar_anchor b).
Proof.
  assert (W : forall pic i j a b, i < j ->
    nth_error (render_arrows pic) i = Some a -> nth_error (render_arrows pic) j = Some b ->
    ar_to a = ar_to b -> ar_range a = None -> ar_range b = None -> ~ Element (ar_to a) -> ~ (Inside a /\ Inside b) ->
    exists x y x' y', ar_anchor a = Point x (Some y) /\ ar_anchor b = Point x' (Some y') /\ ~ (y == y')%Q).
  { intros pic i j a b L H H' T Ra Rb El I.
    pose proof (before_mono pic i j a L H) as M. pose proof (before_lt pic j b H') as M'. rewrite <- T in M'.
    assert (D : forall p u m, nth_error (render_arrows pic) p = Some u -> ar_to u = ar_to a -> ar_range u = None ->
      to_cell (ar_to a) (firstn p (render_arrows pic)) = m ->
      (Inside u /\ exists x, ar_anchor u = Point x (Some 75%Q)) \/
      (~ Inside u /\ exists x y, ar_anchor u = Point x (Some y) /\
        (y == 50 + 30 * inject_Z (Z.of_nat m) - 15 * inject_Z (Z.of_nat (to_cell (ar_to a) (render_arrows pic)) - 1))%Q)).
    { intros p u m P U R K.
      assert (C : {Inside u} + {~ Inside u}).
      { destruct (ar_from u) eqn:F; [|right; intros [F' _]; congruence].
        destruct (region_of (ar_to u)) eqn:G.
        - left. split; [exact F|]. apply on_stack. exact G.
        - right. intros [_ O]. apply on_stack in O. congruence. }
      destruct C as [C|C]; [left|right]; (split; [exact C|]).
      - destruct C as [F O]. apply on_stack in O. destruct (arrow_at pic p u P) as (cs & E & _).
        exists 100%Q. rewrite E. unfold render_ptr. cbn [ar_anchor fst snd s_region s_dst s_range]. rewrite R, F, O. reflexivity.
      - destruct (C110_spaced_partial pic p u P) as (x & y & A & V & _).
        + repeat split; auto. rewrite U. exact El.
        + rewrite U. lia.
        + exists x, y. split; [exact A|]. rewrite U, K in V. exact V. }
    destruct (D i a _ H eq_refl Ra eq_refl) as [[Ia (x & A)]|[Ia (x & y & A & V)]];
    destruct (D j b _ H' (eq_sym T) Rb eq_refl) as [[Ib (x' & B)]|[Ib (x' & y' & B & V')]].
    - destruct I. auto.
    - exists x, 75%Q, x', y'. do 2 (split; [assumption|]). rewrite V'. clear. intros E.
      generalize dependent (to_cell (ar_to a) (firstn j (render_arrows pic))). intros k.
      generalize (to_cell (ar_to a) (render_arrows pic)). intros n E.
      assert (E1 : (30 * inject_Z (Z.of_nat k) - 15 * inject_Z (Z.of_nat n - 1) == inject_Z 25)%Q) by (change (inject_Z 25) with 25%Q; lra).
      change 30%Q with (inject_Z 30) in E1. change 15%Q with (inject_Z 15) in E1. unfold Qminus in E1.
      rewrite <- !inject_Z_mult, <- inject_Z_opp, <- inject_Z_plus in E1. apply (proj1 (inject_Z_injective _ _)) in E1. lia.
    - exists x, y, x', 75%Q. do 2 (split; [assumption|]). rewrite V. clear. intros E.
      generalize dependent (to_cell (ar_to a) (firstn i (render_arrows pic))). intros k.
      generalize (to_cell (ar_to a) (render_arrows pic)). intros n E.
      assert (E1 : (30 * inject_Z (Z.of_nat k) - 15 * inject_Z (Z.of_nat n - 1) == inject_Z 25)%Q) by (change (inject_Z 25) with 25%Q; lra).
      change 30%Q with (inject_Z 30) in E1. change 15%Q with (inject_Z 15) in E1. unfold Qminus in E1.
      rewrite <- !inject_Z_mult, <- inject_Z_opp, <- inject_Z_plus in E1. apply (proj1 (inject_Z_injective _ _)) in E1. lia.
    - exists x, y, x', y'. do 2 (split; [assumption|]). rewrite V, V'. intros E.
      assert (E2 : (inject_Z (Z.of_nat (to_cell (ar_to a) (firstn i (render_arrows pic)))) ==
                    inject_Z (Z.of_nat (to_cell (ar_to a) (firstn j (render_arrows pic)))))%Q) by lra.
      apply (proj1 (inject_Z_injective _ _)) in E2. lia. }
  intros pic i j a b N H H' T Ra Rb El I.
  assert (LT : i < j \/ j < i) by lia. destruct LT as [L|L].
  - destruct (W pic i j a b L H H' T Ra Rb El I) as (x & y & x' & y' & -> & -> & D). intros [_ E]. auto.
  - destruct (W pic j i b a L H' H (eq_sym T) Rb Ra) as (x & y & x' & y' & -> & -> & D).
    + rewrite <- T. exact El.
    + tauto.
    + intros [_ E]. apply D. symmetry. exact E.
Qed.

(** ** What is not so *)

(** An arrow that is alone at its cell has no height: the code divides nought by nought. *)
Theorem C110_single_refuted : forall pic i a, nth_error (render_arrows pic) i = Some a -> Spaced a ->
  to_cell (ar_to a) (render_arrows pic) = 1 -> exists x, ar_anchor a = Point x None.
Proof.
  intros pic i a H Sp N. rewrite (spaced_anchor pic i a H Sp), N. eexists. reflexivity.
Qed.

(** From five arrows on, the first ends above the cell and the last below it. *)
Theorem C110_edge_refuted : forall pic i a, nth_error (render_arrows pic) i = Some a -> Spaced a ->
  let n := to_cell (ar_to a) (render_arrows pic) in
  let k := to_cell (ar_to a) (firstn i (render_arrows pic)) in
  5 <= n -> exists x y, ar_anchor a = Point x (Some y) /\ (k = 0 -> (y < 0)%Q) /\ (S k = n -> (100 < y)%Q).
Proof.
  intros pic i a H Sp n k N. destruct (C110_spaced_partial pic i a H Sp ltac:(cbv zeta; fold n; lia)) as (x & y & A & V & _). change (to_cell (ar_to a) (render_arrows pic)) with n in V.
  change (to_cell (ar_to a) (firstn i (render_arrows pic))) with k in V.
  exists x, y. split; [exact A|]. clearbody n k. split; intros K; rewrite V.
  - subst k. assert (inject_Z 4 <= inject_Z (Z.of_nat n - 1))%Q by (rewrite <- Zle_Qle; lia).
    change (inject_Z (Z.of_nat 0)) with 0%Q. change (inject_Z 4) with 4%Q in *. lra.
  - subst n. replace (Z.of_nat (S k) - 1)%Z with (Z.of_nat k) by lia.
    assert (inject_Z 4 <= inject_Z (Z.of_nat k))%Q by (rewrite <- Zle_Qle; lia).
    change (inject_Z 4) with 4%Q in *. lra.
Qed.

(** Arrows from the stack to the same cell of the stack, and arrows to the same element, all end at one point. *)
Theorem C110_inside_refuted : forall pic a b, In a (render_arrows pic) -> In b (render_arrows pic) ->
  ar_to a = ar_to b -> ar_range a = None -> ar_range b = None ->
  (Inside a /\ Inside b) \/ (~ Inside a /\ ~ Inside b /\ Element (ar_to a)) ->
  SamePoint (ar_anchor a) (ar_anchor b).
Proof.
  assert (D : forall pic u, In u (render_arrows pic) -> ar_range u = None ->
    (Inside u -> ar_anchor u = Point 100 (Some 75%Q)) /\ (~ Inside u -> Element (ar_to u) -> ar_anchor u = Whole)).
  { intros pic u P R. apply In_nth_error in P. destruct P as [p P]. destruct (arrow_at pic p u P) as (cs & E & _).
    rewrite E at 2 5. unfold render_ptr. cbn [ar_anchor fst snd s_region s_dst s_range]. rewrite R. split.
    - intros [F O]. apply on_stack in O. rewrite F, O. reflexivity.
    - intros I El. apply element in El. rewrite El.
      destruct (ar_from u) eqn:F; [|reflexivity]. destruct (region_of (ar_to u)) eqn:G; [|reflexivity].
      destruct I. split; [exact F|]. apply on_stack. exact G. }
  intros pic a b H H' T Ra Rb C. destruct (D pic a H Ra) as [D1 D2], (D pic b H' Rb) as [D3 D4].
  destruct C as [[I I']|(I & I' & El)].
  - rewrite D1, D3 by assumption. cbn. split; reflexivity.
  - rewrite (D2 I El), (D4 I'); [exact Logic.I|]. rewrite <- T. exact El.
Qed.

(** ** How they look *)

(** Of any six arrows in a row no two have the same color; the seventh has that of the first. *)
Theorem C110_colors_partial : forall pic i j a b, i < j < i + 6 ->
  nth_error (render_arrows pic) i = Some a -> nth_error (render_arrows pic) j = Some b -> ar_color a <> ar_color b.
Proof.
  intros pic i j a b L H H'. destruct (arrow_at pic i a H) as (cs & E & _), (arrow_at pic j b H') as (cs' & E' & _).
  rewrite E, E'. unfold render_ptr. cbn [ar_color]. unfold PALETTE. intros M.
  pose proof (Nat.div_mod i 6 ltac:(lia)). pose proof (Nat.div_mod j 6 ltac:(lia)). lia.
Qed.
Theorem C110_colors_refuted : forall pic i a b,
  nth_error (render_arrows pic) i = Some a -> nth_error (render_arrows pic) (i + 6) = Some b -> ar_color a = ar_color b.
Proof.
  intros pic i a b H H'. destruct (arrow_at pic i a H) as (cs & E & _), (arrow_at pic _ b H') as (cs' & E' & _).
  rewrite E, E'. unfold render_ptr. cbn [ar_color]. unfold PALETTE. symmetry.
  replace (i + 6) with (i + 1 * 6) by lia. apply Nat.mod_add. lia.
Qed.

(** The arrows of ranges, and no others, end below an area. *)
Theorem C110_area : forall pic a, In a (render_arrows pic) -> (ar_anchor a = Area <-> ar_range a <> None).
Proof.
  intros pic a H. apply In_nth_error in H. destruct H as [i H]. destruct (arrow_at pic i a H) as (cs & E & _).
  rewrite E at 1. unfold render_ptr. cbn [ar_anchor fst snd s_region s_dst s_range]. destruct (ar_range a); [split; [discriminate|reflexivity]|].
  split; [|congruence]. destruct (negb (is_heap (ar_from a)) && negb (is_heap (region_of (ar_to a)))); [discriminate|].
  destruct (match connector (ar_to a) with Some SBottom => true | _ => false end); discriminate.
Qed.

(** The arrows of moved variables, and no others, are pale. *)
Theorem C110_pale : forall pic a, In a (render_arrows pic) -> (ar_pale a = true <-> ar_moved a = true).
Proof.
  intros pic a H. apply In_nth_error in H. destruct H as [i H]. destruct (arrow_at pic i a H) as (cs & E & _).
  rewrite E. reflexivity.
Qed.

(** Arrows from the heap to the stack start on the left, all others on the right; they end at the right of a
    variable, at the left of an object of the heap, and at the bottom of an element. *)
Theorem C110_sockets : forall pic a, In a (render_arrows pic) ->
  (ar_from a = Heap /\ OnStack (ar_to a) -> ar_start a = SLeft) /\
  (ar_from a = Stack \/ OnHeap (ar_to a) -> ar_start a = SRight) /\
  (forall x, ar_to a = (inl x, []) -> ar_end a = Some SRight) /\
  (forall h, ar_to a = (inr h, []) -> ar_end a = Some SLeft) /\
  (Element (ar_to a) <-> ar_end a = Some SBottom) /\
  (forall r ps f, ar_to a = (r, ps ++ [AtField f]) -> ar_end a = None).
Proof.
  intros pic a H. apply In_nth_error in H. destruct H as [i H]. destruct (arrow_at pic i a H) as (cs & E & _).
  assert (E1 : ar_start a = if is_heap (ar_from a) && negb (is_heap (region_of (ar_to a))) then SLeft else SRight).
  { rewrite E at 1. reflexivity. }
  assert (E2 : ar_end a = connector (ar_to a)).
  { rewrite E at 1. reflexivity. }
  rewrite E1, E2. split; [|split; [|split; [|split; [|split]]]].
  - intros [-> O]. apply on_stack in O. rewrite O. reflexivity.
  - intros [-> | O]; [reflexivity|]. apply on_heap in O. rewrite O. destruct (is_heap (ar_from a)); reflexivity.
  - intros x ->. reflexivity.
  - intros h ->. reflexivity.
  - apply element.
  - intros r ps f ->. unfold connector. cbn [snd]. rewrite rev_app_distr. reflexivity.
Qed.

(** ** Groups *)

Lemma filter_short {A} (f : A -> bool) l : length (filter f l) <= length l.
Proof. induction l as [|x l IH]; cbn; [lia|]. destruct (f x); cbn; lia. Qed.

(** The arrows from the stack to the heap, and no others, are bent; one that is further down is bent less. *)
Theorem C110_bent : forall pic a, In a (render_arrows pic) -> (Across a <-> ar_gravity a <> None).
Proof.
  intros pic a H. apply In_nth_error in H. destruct H as [i H]. destruct (arrow_at pic i a H) as (cs & E & _).
  assert (E1 : ar_gravity a = if negb (is_heap (ar_from a)) && is_heap (region_of (ar_to a)) then Some (60, 100 - Z.of_nat i * 10)%Z else None).
  { rewrite E at 1. reflexivity. }
  rewrite E1. unfold Across. rewrite on_heap. destruct (ar_from a), (region_of (ar_to a)); cbn; split;
    try (intros [F O]; congruence); try (intros N; congruence); auto; try (intros _; discriminate).
Qed.
Theorem C110_stagger_partial : forall pic i j a b, i < j ->
  nth_error (render_arrows pic) i = Some a -> nth_error (render_arrows pic) j = Some b -> Across a -> Across b ->
  exists s e s' e', ar_gravity a = Some (s, e) /\ ar_gravity b = Some (s', e') /\ s = s' /\
    (e - e' = 10 * (Z.of_nat j - Z.of_nat i))%Z.
Proof.
  assert (G : forall pic i a, nth_error (render_arrows pic) i = Some a -> Across a -> ar_gravity a = Some (60, 100 - Z.of_nat i * 10)%Z).
  { intros pic i a H [F O]. apply on_heap in O. destruct (arrow_at pic i a H) as (cs & E & _). rewrite E. unfold render_ptr.
    cbn [ar_gravity fst snd s_region s_dst]. rewrite F, O. reflexivity. }
  intros pic i j a b L H H' A B. do 4 eexists. split; [apply (G pic i); assumption|]. split; [apply (G pic j); assumption|].
  split; [reflexivity|]. lia.
Qed.

(** The place of such an arrow in its group is not what counts: any arrow before it does, also one that begins
    or ends elsewhere.  So the first is bent by 100 only if it is the first of all. *)
Theorem C110_stagger_refuted : forall pic i a s e, nth_error (render_arrows pic) i = Some a -> ar_gravity a = Some (s, e) ->
  let before := length (filter across (firstn i (render_arrows pic))) in
  (e = 100 - 10 * Z.of_nat before)%Z <-> (forall j b, j < i -> nth_error (render_arrows pic) j = Some b -> Across b).
Proof.
  intros pic i a s e H G before. destruct (arrow_at pic i a H) as (cs & E & _).
  assert (E1 : ar_gravity a = if negb (is_heap (ar_from a)) && is_heap (region_of (ar_to a)) then Some (60, 100 - Z.of_nat i * 10)%Z else None).
  { rewrite E at 1. reflexivity. }
  rewrite E1 in G. destruct (_ && _); [|discriminate G].
  assert (V : e = (100 - Z.of_nat i * 10)%Z) by congruence. subst e. clear G E1.
  assert (B : forall b, across b = true <-> Across b).
  { intros b. unfold across, Across, OnHeap. destruct (ar_from b), (ar_to b) as [[x|h] ps]; cbn; split; try discriminate;
      try (intros [F (h0 & qs & O)]; discriminate); try (intros _; split; [reflexivity|exists h, ps; reflexivity]); auto. }
  assert (I : i < length (render_arrows pic)) by (apply nth_error_Some; congruence).
  assert (K : forall l m, m < length l ->
    (length (filter across (firstn m l)) = m <-> forall j b, j < m -> nth_error l j = Some b -> Across b)).
  { clear - B. intros l.
    induction l as [|x l IH]; intros [|m] L; cbn in L |- *; try lia.
    - split; [intros _ j b J; lia|reflexivity].
    - assert (Le : length (filter across (firstn m l)) <= m).
      { etransitivity; [apply (filter_short across)|]. rewrite firstn_length. lia. }
      specialize (IH m ltac:(lia)). destruct (across x) eqn:X; cbn.
      + split.
        * intros Q [|j] b J N; cbn in N; [injection N as <-; apply B; exact X|]. apply (proj1 IH) with j; [lia|lia|exact N].
        * intros Q. f_equal. apply IH. intros j b J N. apply (Q (S j)); [lia|exact N].
      + split; [intros Q; lia|]. intros Q. specialize (Q 0 x ltac:(lia) eq_refl). apply B in Q. congruence. }
  rewrite <- (K _ i I). change (length (filter across (firstn i (render_arrows pic)))) with before. clearbody before. clear. split; lia.
Qed.

(** ** A picture

    Two variables own the same object of the heap, the first of them moved; a third points to a variable, a fourth to an element
    and a fifth to a range; the heap points to the variable twice, and to an object of its own. *)
Module ArrowsDemo.
  Definition ptr (d : aim) : look := LDot d None.
  Definition obj : aim := (inr 0, []).
  Definition var : aim := (inl (0, "n"%string), []).
  Definition frames : list (string * list (string * bool * look)) :=
    [("main"%string,
      [("n"%string, false, LNumber 5);
       ("r"%string, false, ptr var);
       ("a"%string, true, ptr obj);
       ("b"%string, false, LRow [LBool true; LOne false "Some" (ptr obj)]);
       ("e"%string, false, ptr (inr 0, [AtIndex 1]));
       ("s"%string, false, LFat (inr 0, [AtIndex 0]) (Some (inr 0, [AtIndex 1])) 2)])].
  Definition heap : list look := [LCells [LNumber 1; LNumber 2] None; LNamed "Node" [("p"%string, ptr var); ("q"%string, ptr var)]; ptr (inr 1, [])].
  Definition pic := (frames, heap).
  Definition arrows := Eval vm_compute in render_arrows pic.
  Lemma arrows_eq : render_arrows pic = arrows.
  Proof. vm_compute. reflexivity. Qed.

  (** The same with the pointer [r] only in five boxes of the heap: the page of five arrows to one variable. *)
  Definition five := ([("main"%string, [("n"%string, false, LNumber 5)])], repeat (ptr var) 7).
End ArrowsDemo.
Import ArrowsDemo.

Example C110_all_witness : map origin (render_arrows pic) =
  [(Stack, false, var, None); (Stack, true, obj, None); (Stack, false, obj, None); (Stack, false, (inr 0, [AtIndex 1]), None);
   (Stack, false, (inr 0, [AtIndex 0]), Some (inr 0, [AtIndex 1]));
   (Heap, false, var, None); (Heap, false, var, None); (Heap, false, (inr 1, []), None)].
Proof. vm_compute. reflexivity. Qed.

Ltac not_inside := intros [F (x & ps & O)]; discriminate.
Ltac not_element := intros (r & ps & i & O); destruct ps as [|? [|? ?]]; discriminate.

Example C110_spaced_witness : exists a b, nth_error (render_arrows pic) 1 = Some a /\ nth_error (render_arrows pic) 2 = Some b /\
  Spaced a /\ Spaced b /\ ar_to a = ar_to b /\ to_cell (ar_to a) (render_arrows pic) = 2 /\
  ~ SamePoint (ar_anchor a) (ar_anchor b) /\ (exists y y', ar_anchor a = Point 0 (Some y) /\ ar_anchor b = Point 0 (Some y') /\ y == 35 /\ y' == 65)%Q /\
  ar_pale a = true /\ ar_pale b = false /\ ar_gravity a = Some (60, 90)%Z.
Proof.
  rewrite arrows_eq. do 2 eexists. split; [reflexivity|]. split; [reflexivity|].
  split; [split; [reflexivity|split; [not_inside|not_element]]|]. split; [split; [reflexivity|split; [not_inside|not_element]]|].
  split; [reflexivity|]. split; [reflexivity|].
  split; [intros [_ E]; vm_compute in E; discriminate E|]. split; [|auto].
  do 2 eexists. split; [reflexivity|]. split; [reflexivity|]. split; reflexivity.
Qed.

(** The arrow from the stack is at 75 percent, those from the heap elsewhere. *)
Example C110_apart_witness : exists a b c, nth_error (render_arrows pic) 0 = Some a /\ nth_error (render_arrows pic) 5 = Some b /\
  nth_error (render_arrows pic) 6 = Some c /\ Inside a /\ ~ Inside b /\ ~ Inside c /\
  ~ SamePoint (ar_anchor a) (ar_anchor b) /\ ~ SamePoint (ar_anchor a) (ar_anchor c) /\ ~ SamePoint (ar_anchor b) (ar_anchor c) /\
  ar_start a = SRight /\ ar_start b = SLeft.
Proof.
  assert (A : exists a b c, nth_error (render_arrows pic) 0 = Some a /\ nth_error (render_arrows pic) 5 = Some b /\
  nth_error (render_arrows pic) 6 = Some c /\ Inside a /\ ~ Inside b /\ ~ Inside c /\ ~ Element (ar_to a) /\
  ar_to a = ar_to b /\ ar_to a = ar_to c /\ ar_range a = None /\ ar_range b = None /\ ar_range c = None /\ ar_start a = SRight /\ ar_start b = SLeft).
  { rewrite arrows_eq. do 3 eexists. do 3 (split; [reflexivity|]). split; [split; [reflexivity|do 2 eexists; reflexivity]|].
    do 2 (split; [not_inside|]). split; [not_element|]. repeat split. }
  destruct A as (a & b & c & H0 & H5 & H6 & I & Ib & Ic & El & T1 & T2 & Ra & Rb & Rc & S1 & S2). exists a, b, c.
  do 6 (split; [assumption|]).
  split; [apply (C110_apart_partial pic 0 5); auto; tauto|]. split; [apply (C110_apart_partial pic 0 6); auto; tauto|].
  split; [apply (C110_apart_partial pic 5 6); auto; try congruence; try (rewrite <- T1; exact El); tauto|]. auto.
Qed.

Example C110_single_witness : exists a, nth_error (render_arrows pic) 7 = Some a /\ Spaced a /\ ar_anchor a = Point 0 None.
Proof.
  rewrite arrows_eq. eexists. split; [reflexivity|]. split; [split; [reflexivity|split; [not_inside|not_element]]|reflexivity].
Qed.

Example C110_edge_witness : exists a, nth_error (render_arrows five) 0 = Some a /\ Spaced a /\ to_cell (ar_to a) (render_arrows five) = 7 /\
  exists x y, ar_anchor a = Point x (Some y) /\ (y == - (40))%Q.
Proof.
  eexists. split; [reflexivity|]. split; [split; [reflexivity|split; [not_inside|not_element]]|].
  split; [vm_compute; reflexivity|]. do 2 eexists. split; [reflexivity|]. vm_compute. reflexivity.
Qed.

(** The first arrow from the stack to the heap is the second of the picture. *)
Example C110_stagger_witness : exists a, nth_error (render_arrows pic) 1 = Some a /\ Across a /\
  ar_gravity a <> Some (60, 100)%Z /\ filter across (firstn 1 (render_arrows pic)) = [].
Proof.
  rewrite arrows_eq. eexists. split; [reflexivity|]. split; [split; [reflexivity|do 2 eexists; reflexivity]|].
  split; [discriminate|reflexivity].
Qed.

(** And the arrows of the picture of C109. *)
Example C110_look_witness : exists shown, PropLook.LookDemo.shown = Some shown /\
  map origin (render_arrows shown) = [(Stack, true, (inr 0, []), None); (Stack, false, (inr 1, []), None)].
Proof. eexists. split; [vm_compute; reflexivity|]. vm_compute. reflexivity. Qed.

Print Assumptions C110_all.
Print Assumptions C110_total.
Print Assumptions C110_spaced_partial.
Print Assumptions C110_centre_partial.
Print Assumptions C110_apart_partial.
Print Assumptions C110_single_refuted.
Print Assumptions C110_edge_refuted.
Print Assumptions C110_inside_refuted.
Print Assumptions C110_colors_partial.
Print Assumptions C110_colors_refuted.
Print Assumptions C110_area.
Print Assumptions C110_pale.
Print Assumptions C110_sockets.
Print Assumptions C110_bent.
Print Assumptions C110_stagger_partial.
Print Assumptions C110_stagger_refuted.
