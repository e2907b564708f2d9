(** * Properties of permissions across programs: C92 *)

From Coq Require Import List Arith Bool Lia Relations.
From Verif Require Import Base PermsModel FactsModel FactsSpec FactsProofs PropFacts MonoSpec.
Import ListNotations.

Section Two.
  Variables i1 i2 : Inp.
  Hypothesis R : Restricts i1 i2.
  Let B : SameBody i1 i2 := rs_body _ _ R.

  Lemma known_mono y : Known i1 y -> Known i2 y.
  Proof. intros [H|H]; [left; apply (rs_places _ _ R); auto|right; rewrite <- (sb_move_paths _ _ B); auto]. Qed.

  Lemma affects_mono m x : MoveAffects i1 m x -> MoveAffects i2 m x.
  Proof.
    intros (mp & src & pl & E & H & N). exists mp, src, pl.
    split; [apply (rs_moves _ _ R); auto|]. rewrite <- !(sb_normalize _ _ B). split; [|auto].
    destruct H as [(moved & Em & I)|(q & I & Eq)]; [left|right].
    - exists moved. rewrite <- (sb_move_paths _ _ B), <- (sb_interior _ _ B), <- (sb_normalize _ _ B). auto.
    - exists q. rewrite <- (sb_move_paths _ _ B), <- (sb_parents _ _ B). auto.
  Qed.

  Lemma reassigned_mono m mv p : nth_error (in_moves i1) m = Some mv -> Reassigned i2 m p -> Reassigned i1 m p.
  Proof.
    intros E (mp & src & moved & a & t & Em & Ep & I & Et & C).
    rewrite (rs_moves _ _ R _ _ E) in Em. injection Em as ->.
    exists mp, src, moved, a, t. rewrite (sb_move_paths _ _ B), !(sb_normalize _ _ B), (sb_conflict _ _ B).
    repeat split; auto. apply (rs_assigned _ _ R); auto.
  Qed.

  Lemma edge_mono a b : edge (in_cfg_edge i1) a b -> edge (in_cfg_edge i2) a b.
  Proof. apply (rs_edges _ _ R). Qed.

  Lemma walk_mono a l b : walk (edge (in_cfg_edge i1)) a l b -> walk (edge (in_cfg_edge i2)) a l b.
  Proof. induction 1; econstructor; eauto using edge_mono. Qed.

  Lemma reaches_mono m p : MoveReaches i1 m p -> MoveReaches i2 m p.
  Proof.
    intros (mp & src & l & q & E & W & F & Eg). exists mp, src, l, q.
    split; [apply (rs_moves _ _ R); auto|]. split; [apply walk_mono; auto|].
    split; [|apply edge_mono; auto]. intros r I H. apply (F r I). eapply reassigned_mono; eauto.
  Qed.

  Lemma uninit_mono x p : MaybeUninit i1 x p -> MaybeUninit i2 x p.
  Proof.
    intros (q & mps & mp & pl & I & J & E & Eg & C).
    destruct (rs_uninit _ _ R q mps mp I J) as (ms' & I' & J').
    exists q, ms', mp, pl. rewrite <- (sb_move_paths _ _ B), <- !(sb_normalize _ _ B).
    repeat split; auto; [apply edge_mono; auto|].
    induction C as [a b L|a|a b c _ IH1 _ IH2]; [|apply rt_refl|eapply rt_trans; eauto].
    apply rt_step. destruct L as (c & k & plc & plq & Il & Ec & Ek & Nc & Nk).
    exists c, k, plc, plq. rewrite <- (sb_move_paths _ _ B), <- !(sb_normalize _ _ B).
    repeat split; auto. apply (rs_children _ _ R); auto.
  Qed.

  Lemma conflicts_mono l x : LoanConflicts i1 l x -> LoanConflicts i2 l x.
  Proof.
    intros (I & y & K & N & C). split; [apply (rs_issued _ _ R); auto|]. exists y.
    rewrite <- (sb_conflict _ _ B), <- (sb_loan_place _ _ B), <- !(sb_normalize _ _ B). auto using known_mono.
  Qed.

  Lemma live_mono l p : LoanLive i1 l p -> LoanLive i2 l p.
  Proof. intros (ls & I & J). exact (rs_live _ _ R p ls l I J). Qed.

  Lemma var_live_anti x p : VarLive i2 x p -> VarLive i1 x p.
  Proof.
    unfold VarLive. destruct (aget Nat.eq_dec (in_var_live i2) p) as [vs|] eqn:E; [|tauto]. intros I.
    destruct (rs_var_live _ _ R p vs _ E I) as (vs' & -> & I'). rewrite (sb_normalize _ _ B). exact I'.
  Qed.

  Lemma readable_anti x p : PlaceReadable i2 x p -> PlaceReadable i1 x p.
  Proof.
    intros (M & U & L). split; [|split].
    - intros m A Re. apply (M m); auto using affects_mono, reaches_mono.
    - intros H. apply U, uninit_mono, H.
    - intros l C V. specialize (L l (conflicts_mono l x C) (live_mono l p V)).
      destruct (in_loan_mut i1 l) eqn:E; [|reflexivity]. rewrite (rs_mut _ _ R l E) in L. discriminate L.
  Qed.

  Lemma free_anti x p : LoanFree i2 x p -> LoanFree i1 x p.
  Proof. intros F l C V. exact (F l (conflicts_mono l x C) (live_mono l p V)). Qed.
End Two.

Lemma writeable_same i1 i2 x : SameBody i1 i2 ->
  DeclaredWriteable i2 (in_normalize i2 x) -> DeclaredWriteable i1 (in_normalize i1 x).
Proof.
  intros B [H1 H2]. unfold DeclaredWriteable. rewrite (sb_normalize _ _ B x), (sb_local_mut _ _ B).
  split; [exact H1|]. intros pre post E. rewrite (sb_ty _ _ B). exact (H2 pre post E).
Qed.

Lemma ownable_same i1 i2 x : SameBody i1 i2 ->
  DeclaredOwnable i2 (in_normalize i2 x) -> DeclaredOwnable i1 (in_normalize i1 x).
Proof.
  intros B (H1 & H2 & H3). unfold DeclaredOwnable. rewrite (sb_normalize _ _ B x).
  split; [exact H1|]. split; [exact H2|]. intros pre e post E box. rewrite (sb_ty _ _ B). exact (H3 pre e post E box).
Qed.

(** ** C92: permissions shrink as facts are added *)

Theorem C92_monotone i1 i2 o1 o2 x p d1 d2 : Restricts i1 i2 ->
  derive_permission_facts i1 = Some o1 -> derive_permission_facts i2 = Some o2 ->
  query i1 o1 x p = Some d1 -> query i2 o2 x p = Some d2 ->
  (p_read (permissions d2) = true -> p_read (permissions d1) = true) /\
  (p_write (permissions d2) = true -> p_write (permissions d1) = true) /\
  (p_drop (permissions d2) = true -> p_drop (permissions d1) = true).
Proof.
  intros R D1 D2 Q1 Q2.
  destruct (C10_query_is_composition_of_facts i1 o1 x p d1 D1 Q1) as (R1 & W1 & P1).
  destruct (C10_query_is_composition_of_facts i2 o2 x p d2 D2 Q2) as (R2 & W2 & P2).
  rewrite R1, W1, P1, R2, W2, P2.
  pose proof (var_live_anti i1 i2 R x p). pose proof (readable_anti i1 i2 R x p).
  pose proof (free_anti i1 i2 R x p).
  pose proof (writeable_same i1 i2 x (rs_body _ _ R)). pose proof (ownable_same i1 i2 x (rs_body _ _ R)).
  tauto.
Qed.
Print Assumptions C92_monotone.

Lemma max_unique (P1 P2 : nat -> Prop) (o1 o2 : option nat) :
  (forall m, P1 m <-> P2 m) ->
  match o1 with Some m => P1 m /\ (forall m', P1 m' -> m' <= m) | None => forall m, ~ P1 m end ->
  match o2 with Some m => P2 m /\ (forall m', P2 m' -> m' <= m) | None => forall m, ~ P2 m end ->
  o1 = o2.
Proof.
  intros E H1 H2. destruct o1 as [a|], o2 as [b|].
  - destruct H1 as [A1 A2], H2 as [B1 B2]. f_equal.
    apply E in A1. apply E in B1. specialize (A2 b B1). specialize (B2 a A1). lia.
  - destruct H1 as [A1 _]. elim (H2 a). apply E; auto.
  - destruct H2 as [B1 _]. elim (H1 b). apply E; auto.
  - reflexivity.
Qed.

Lemma bool_iff (a b : bool) : (a = true <-> b = true) -> a = b.
Proof. destruct a, b; intuition congruence. Qed.

(** Two lists of facts that say the same, in any order and multiplicity, give the
    same answer, including which move and which loan is named. *)
Theorem C92_same_facts i1 i2 o1 o2 x p d1 d2 : Restricts i1 i2 -> Restricts i2 i1 ->
  derive_permission_facts i1 = Some o1 -> derive_permission_facts i2 = Some o2 ->
  query i1 o1 x p = Some d1 -> query i2 o2 x p = Some d2 ->
  d1 = d2.
Proof.
  intros R S D1 D2 Q1 Q2.
  assert (M : path_moved d1 = path_moved d2).
  { pose proof (C05_moved_iff_reaching_move i1 o1 x p d1 D1 Q1) as M1.
    pose proof (C05_moved_iff_reaching_move i2 o2 x p d2 D2 Q2) as M2.
    apply (max_unique (fun m => MoveAffects i1 m x /\ MoveReaches i1 m p)
                      (fun m => MoveAffects i2 m x /\ MoveReaches i2 m p)).
    - intros m. split; intros [A H]; split.
      + exact (affects_mono i1 i2 R m x A).
      + exact (reaches_mono i1 i2 R m p H).
      + exact (affects_mono i2 i1 S m x A).
      + exact (reaches_mono i2 i1 S m p H).
    - destruct (path_moved d1) as [m|]; [|intros m [A H]; exact (M1 m A H)].
      destruct M1 as (A & H & X). split; [auto|]. intros m' [A' H']. auto.
    - destruct (path_moved d2) as [m|]; [|intros m [A H]; exact (M2 m A H)].
      destruct M2 as (A & H & X). split; [auto|]. intros m' [A' H']. auto. }
  assert (U : path_uninitialized d1 = path_uninitialized d2).
  { apply bool_iff. rewrite (C06_uninit_iff_nested_uninit i1 o1 x p d1 D1 Q1),
      (C06_uninit_iff_nested_uninit i2 o2 x p d2 D2 Q2).
    split; [exact (uninit_mono i1 i2 R x p)|exact (uninit_mono i2 i1 S x p)]. }
  assert (L : loan_read_refined d1 = loan_read_refined d2 /\
              loan_write_refined d1 = loan_write_refined d2 /\
              loan_drop_refined d1 = loan_drop_refined d2).
  { eapply (C07_choice_independent_of_fact_order i1 i2 o1 o2 x p); eauto.
    pose proof (rs_body _ _ R) as B. repeat split; try apply B.
    - intros l. apply bool_iff. split; [apply (rs_mut _ _ R)|apply (rs_mut _ _ S)].
    - apply (rs_issued _ _ R).
    - apply (rs_issued _ _ S).
    - apply (known_mono i1 i2 R).
    - apply (known_mono i2 i1 S).
    - apply (live_mono i1 i2 R).
    - apply (live_mono i2 i1 S). }
  destruct L as (LR & LW & LD).
  destruct (query_declared i1 o1 D1 x p d1 Q1) as (W1 & P1 & V1).
  destruct (query_declared i2 o2 D2 x p d2 Q2) as (W2 & P2 & V2).
  assert (W : type_writeable d1 = type_writeable d2).
  { apply bool_iff. rewrite W1, W2. split; apply writeable_same; apply rs_body; auto. }
  assert (P : type_droppable d1 = type_droppable d2).
  { apply bool_iff. rewrite P1, P2. split; apply ownable_same; apply rs_body; auto. }
  assert (V : is_live d1 = is_live d2).
  { apply bool_iff. rewrite V1, V2. split; [exact (var_live_anti i2 i1 S x p)|exact (var_live_anti i1 i2 R x p)]. }
  assert (C : type_copyable d1 = type_copyable d2).
  { assert (G : forall i o d, query i o x p = Some d -> type_copyable d = in_copyable i (in_normalize i x)).
    { intros i o d Q. unfold query in Q.
      destruct (place_to_path _ _ x) as [k|] eqn:K; [|discriminate Q].
      unfold permissions_data_at_point in Q. rewrite (PP_roundtrip i x k K) in Q.
      injection Q as <-. reflexivity. }
    rewrite (G _ _ _ Q1), (G _ _ _ Q2), (sb_normalize _ _ (rs_body _ _ R)). apply (sb_copyable _ _ (rs_body _ _ R)). }
  destruct d1, d2. cbn in *. congruence.
Qed.
Print Assumptions C92_same_facts.

(** The demo program, with the shared loan of [s] live already at point 0; and
    the same facts in another order, some of them twice. *)
Module Demo2.
  Import Demo.
  Definition longer : Inp := mkInp
    [s; si; r; dr] [s; t; s0] [(0, 3)] (fun m => if m =? 2 then [0] else [])
    (fun p => if place_eqd p s then [s; s0; si] else [p]) norm
    [(0, 1); (1, 2); (2, 3); (3, 4); (4, 5); (4, 2)]
    [(0, [1]); (1, [1]); (3, [2])] [(2, 0)] [(1, 3); (0, 0)]
    (fun a b => local a =? local b)
    [7; 9] (fun l => if l =? 7 then s else si) (fun l => l =? 9)
    [(1, [7]); (2, [7; 9]); (0, [7])]
    [(0, [1]); (1, [1; 2]); (2, [1; 2]); (3, [1; 2; 3]); (4, [1; 3]); (5, [1; 3])]
    (fun l => l =? 1) (fun p => if place_eqd p r then TRef false else TAdt true true)
    (fun _ => false).
  Definition shuffled : Inp := mkInp
    [dr; s; r; si; s] [s; t; s0] [(0, 3)] (fun m => if m =? 2 then [0] else [])
    (fun p => if place_eqd p s then [s; s0; si] else [p]) norm
    [(4, 2); (3, 4); (0, 1); (1, 2); (2, 3); (4, 5); (0, 1)]
    [(3, [2]); (1, [1]); (0, [1; 1])] [(2, 0)] [(0, 0); (1, 3)]
    (fun a b => local a =? local b)
    [9; 7] (fun l => if l =? 7 then s else si) (fun l => l =? 9)
    [(2, [9]); (1, [7]); (2, [7; 9])]
    [(5, [3; 1]); (0, [1]); (1, [2; 1]); (2, [1; 2]); (3, [1; 2; 3]); (4, [1; 3])]
    (fun l => l =? 1) (fun p => if place_eqd p r then TRef false else TAdt true true)
    (fun _ => false).
  Definition letters (i : Inp) (x : Place) (p : Point) : option (option Permissions) :=
    option_map (fun o => option_map permissions (query i o x p)) (derive_permission_facts i).
End Demo2.

Lemma pairs_in {A} (P : Point -> A -> Prop) (l : list (Point * list A)) :
  Forall (fun e => Forall (P (fst e)) (snd e)) l -> forall p ms m, In (p, ms) l -> In m ms -> P p m.
Proof.
  intros H p ms m I J. rewrite Forall_forall in H. specialize (H _ I). cbn in H.
  rewrite Forall_forall in H. auto.
Qed.

Lemma demo_longer : Restricts Demo.inp Demo2.longer.
Proof.
  split; try (intros ? H; exact H); try (split; reflexivity); try (cbn; auto; fail).
  - intros p ms m I J. exists ms. auto.
  - apply (pairs_in (fun p l => exists ls', In (p, ls') (in_loan_live Demo2.longer) /\ In l ls')).
    repeat (constructor; cbn [fst snd]); eexists; split; [left; reflexivity| |right; left; reflexivity| |right; left; reflexivity|]; cbn; auto.
  - intros p vs v E I. exists vs. auto.
Qed.

Lemma demo_shuffled : Restricts Demo.inp Demo2.shuffled /\ Restricts Demo2.shuffled Demo.inp.
Proof.
  split; split; try (split; reflexivity); try (intros ? H; exact H);
    try (intros ? H; cbn in *; intuition (subst; auto 12); fail).
  - apply (pairs_in (fun p m => exists ms', In (p, ms') (in_uninit_exit Demo2.shuffled) /\ In m ms')).
    repeat (constructor; cbn [fst snd]); cbn; eexists; split; eauto 8 using in_eq, in_cons; cbn; auto.
  - apply (pairs_in (fun p m => exists ms', In (p, ms') (in_loan_live Demo2.shuffled) /\ In m ms')).
    repeat (constructor; cbn [fst snd]); cbn; eexists; (split; [eauto 8|]); cbn; auto.
  - intros p vs v E I. do 6 (destruct p as [|p]; [injection E as <-; eexists; split; [reflexivity|]; cbn in *; tauto|]).
    discriminate E.
  - apply (pairs_in (fun p m => exists ms', In (p, ms') (in_uninit_exit Demo.inp) /\ In m ms')).
    repeat (constructor; cbn [fst snd]); cbn; eexists; (split; [eauto 8|]); cbn; auto.
  - apply (pairs_in (fun p m => exists ms', In (p, ms') (in_loan_live Demo.inp) /\ In m ms')).
    repeat (constructor; cbn [fst snd]); cbn; eexists; (split; [eauto 8|]); cbn; auto.
  - intros p vs v E I. do 6 (destruct p as [|p]; [injection E as <-; eexists; split; [reflexivity|]; cbn in *; tauto|]).
    discriminate E.
Qed.

(** The longer loan takes away writing and owning at 0, and nothing is gained. *)
Example C92_witness :
  Restricts Demo.inp Demo2.longer /\
  Demo2.letters Demo.inp Demo.s 0 = Some (Some (mkP true true true)) /\
  Demo2.letters Demo2.longer Demo.s 0 = Some (Some (mkP true false false)) /\
  Restricts Demo.inp Demo2.shuffled /\ Restricts Demo2.shuffled Demo.inp /\
  map (Demo2.letters Demo2.shuffled Demo.s) [0; 1; 2] = map (Demo2.letters Demo.inp Demo.s) [0; 1; 2] /\
  option_map (fun o => option_map loan_write_refined (query Demo2.shuffled o Demo.s 2))
    (derive_permission_facts Demo2.shuffled) = Some (Some (Some 9)).
Proof.
  split; [exact demo_longer|]. split; [vm_compute; reflexivity|]. split; [vm_compute; reflexivity|].
  split; [apply demo_shuffled|]. split; [apply demo_shuffled|]. split; vm_compute; reflexivity.
Qed.
