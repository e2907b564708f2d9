(** * C130: the snapshots of the steps *)
From Coq Require Import List Arith Bool Permutation Sorted Lia.
From Verif Require Import SnapModel SnapSpec SnapProofs.
Import ListNotations.

(** Outputs with equal snapshots have the same rows on the same lines. *)
Theorem C130_tells :
  forall D (o1 o2 : output D) r1 r2 g1 g2, SortsBy WordLe fst r1 -> SortsBy WordLe fst r2 -> SortsBy le fst g1 -> SortsBy le fst g2 ->
    snapshot r1 g1 o1 = snapshot r2 g2 o2 -> SameRows o1 o2.
Proof.
  intros D o1 o2 r1 r2 g1 g2 R1 R2 G1 G2 E. rewrite !snapshot_map in E.
  set (n1 := map (fun p => (fst p, r1 (concat (snd p)))) o1) in E. set (n2 := map (fun p => (fst p, r2 (concat (snd p)))) o2) in E.
  assert (P : Permutation n2 n1).
  { pose proof (proj1 (G1 n1)) as Q1. pose proof (proj1 (G2 n2)) as Q2. change (g1 n1 = g2 n2) in E. rewrite E in Q1. exact (Permutation_trans Q2 (Permutation_sym Q1)). }
  apply Permutation_map_inv in P as (o' & E' & P'). exists o'. split; [exact P'|]. unfold n2 in E'. clear -E' R1 R2.
  revert o' E'. induction o2 as [|b o2 IH]; intros [|a o'] E'; cbn in E'; try discriminate; constructor.
  - injection E' as E1 E2 _. split; [symmetry; exact E1|]. eapply Permutation_trans; [apply (R1 (concat (snd a)))|]. rewrite <- E2. apply Permutation_sym, (R2 (concat (snd b))).
  - apply IH. injection E' as _ _ E3. exact E3.
Qed.
Print Assumptions C130_tells.

(** The same rows give the same snapshot, in whatever order they were computed and
    however the sorts treat equal keys, if there are none. *)
Theorem C130_steady :
  forall D (o1 o2 : output D) r1 r2 g1 g2, SortsBy WordLe fst r1 -> SortsBy WordLe fst r2 -> SortsBy le fst g1 -> SortsBy le fst g2 ->
    Distinct o1 -> SameRows o1 o2 -> snapshot r1 g1 o1 = snapshot r2 g2 o2.
Proof.
  intros D o1 o2 r1 r2 g1 g2 R1 R2 G1 G2 [N1 N2] (o' & P & F). rewrite !snapshot_map.
  apply (sorts_unique le fst g1 g2); [intros a b; lia|exact G1|exact G2| |].
  - eapply Permutation_trans; [apply Permutation_map, P|].
    assert (N' : forall p, In p o' -> NoDup (map fst (concat (snd p)))) by (intros p I; apply N2; eapply Permutation_in; [apply Permutation_sym, P|exact I]).
    clear -F N' R1 R2. induction F as [|a b o' o2 [E Q] F IH]; [constructor|]. cbn [map].
    assert (Er : r1 (concat (snd a)) = r2 (concat (snd b))).
    { apply (sorts_unique WordLe fst r1 r2); [apply WordLe_antisym|exact R1|exact R2|exact Q|]. apply N'. left. reflexivity. }
    rewrite E, Er. apply perm_skip, IH. intros p I. apply N'. right. exact I.
  - rewrite map_map. exact N1.
Qed.
Print Assumptions C130_steady.

(** The stored files belong to functions: names of functions, which have no "@" and
    no "(" in them, are told apart, and no name is taken for a body without name. *)
Theorem C130_names :
  forall n1 n2 f1 f2, (forall n, n1 = Some n -> ~ In 64 n /\ ~ In 40 n) -> (forall n, n2 = Some n -> ~ In 64 n /\ ~ In 40 n) ->
    (snap_name n1 f1 = snap_name n2 f2 <-> n1 = n2 /\ f1 = f2).
Proof.
  intros n1 n2 f1 f2 H1 H2. split; [|intros [-> ->]; reflexivity]. intros E. apply app_sep in E.
  - destruct E as [E ->]. split; [|reflexivity]. destruct n1 as [n|], n2 as [m|]; cbn [tag_of] in E.
    + rewrite E. reflexivity.
    + exfalso. apply (proj2 (H1 n eq_refl)). rewrite E. left. reflexivity.
    + exfalso. apply (proj2 (H2 m eq_refl)). rewrite <- E. left. reflexivity.
    + reflexivity.
  - destruct n1 as [n|]; [apply H1; reflexivity|]. cbn. intuition discriminate.
  - destruct n2 as [n|]; [apply H2; reflexivity|]. cbn. intuition discriminate.
Qed.
Print Assumptions C130_names.

Lemma passes_stored D eqd stored rows lines file fns n (o : output D) : file_passes eqd stored rows lines file fns = true -> In (n, o) fns ->
  stored (snap_name n file) = Some (snapshot rows lines o).
Proof.
  intros H I. unfold file_passes in H. rewrite forallb_forall in H. specialize (H (n, o) I). cbn [fst snd] in H.
  destruct (stored (snap_name n file)) as [v|]; [|discriminate]. destruct (list_eq_dec _ v _) as [->|]; [reflexivity|discriminate].
Qed.

(** Two versions of the tool that pass with the same stored files compute the same
    rows for every function of that name. *)
Theorem C130_versions :
  forall D eqd stored r1 r2 g1 g2 file fns1 fns2 n (o1 o2 : output D),
    SortsBy WordLe fst r1 -> SortsBy WordLe fst r2 -> SortsBy le fst g1 -> SortsBy le fst g2 ->
    file_passes eqd stored r1 g1 file fns1 = true -> file_passes eqd stored r2 g2 file fns2 = true ->
    In (n, o1) fns1 -> In (n, o2) fns2 -> SameRows o1 o2.
Proof.
  intros D eqd stored r1 r2 g1 g2 file fns1 fns2 n o1 o2 R1 R2 G1 G2 H1 H2 I1 I2.
  pose proof (passes_stored _ _ _ _ _ _ _ _ _ H1 I1) as E1. pose proof (passes_stored _ _ _ _ _ _ _ _ _ H2 I2) as E2.
  apply (C130_tells D o1 o2 r1 r2 g1 g2 R1 R2 G1 G2). congruence.
Qed.
Print Assumptions C130_versions.

(** The test passes exactly if every function's snapshot is the stored one. *)
Theorem C130_passes :
  forall D eqd stored rows lines file (fns : list (option (list nat) * output D)),
    file_passes eqd stored rows lines file fns = true <->
    forall n o, In (n, o) fns -> stored (snap_name n file) = Some (snapshot rows lines o).
Proof.
  intros D eqd stored rows lines file fns. split; [intros H n o; apply (passes_stored D eqd stored rows lines file fns n o H)|].
  intros H. unfold file_passes. apply forallb_forall. intros [n o] I. cbn [fst snd]. rewrite (H n o I). destruct (list_eq_dec _ _ _) as [|N]; [reflexivity|exfalso; apply N; reflexivity].
Qed.
Print Assumptions C130_passes.

(** The snapshots of the boundaries: equal ones have the same boundaries, and the same
    boundaries give equal ones, in whatever order they were found, if no two are
    shown at one position. *)
Theorem C130_boundaries :
  forall B (at_ : B -> nat) (b1 b2 : list B) s1 s2, SortsBy le at_ s1 -> SortsBy le at_ s2 ->
    (boundary_snapshot s1 b1 = boundary_snapshot s2 b2 -> Permutation b1 b2) /\
    (NoDup (map at_ b1) -> Permutation b1 b2 -> boundary_snapshot s1 b1 = boundary_snapshot s2 b2).
Proof.
  intros B at_ b1 b2 s1 s2 H1 H2. unfold boundary_snapshot. split.
  - intros E. pose proof (proj1 (H1 b1)) as P1. rewrite E in P1. exact (Permutation_trans P1 (Permutation_sym (proj1 (H2 b2)))).
  - intros N P. apply (sorts_unique le at_ s1 s2); [intros a b; lia|exact H1|exact H2|exact P|exact N].
Qed.
Print Assumptions C130_boundaries.

(** ** What is not told *)

(** How the rows are spread over the tables of a step is lost: whatever tables they
    are put in, the snapshot is the same. *)
Theorem C130_tables_refuted :
  forall D (before after : output D) line ts rows lines,
    snapshot rows lines (before ++ (line, ts) :: after) = snapshot rows lines (before ++ (line, [concat ts]) :: after).
Proof.
  intros D before after line ts rows lines. rewrite !snapshot_map, !map_app. cbn [map fst snd concat]. rewrite app_nil_r. reflexivity.
Qed.
Print Assumptions C130_tables_refuted.

(** Two different rows of one place on a line: sorts that both do what an unstable
    sort promises give different snapshots. *)
Theorem C130_order_refuted :
  forall D (d1 d2 : D) line name, d1 <> d2 ->
    exists r1 r2 g, SortsBy WordLe fst r1 /\ SortsBy WordLe fst r2 /\ SortsBy le fst g /\
      snapshot r1 g [(line, [[(name, d1)]; [(name, d2)]])] <> snapshot r2 g [(line, [[(name, d1)]; [(name, d2)]])].
Proof.
  intros D d1 d2 line name N. exists rows_sort, rows_sort_back, lines_sort. split; [apply rows_sort_ok|]. split; [apply rows_sort_back_ok|]. split; [apply lines_sort_ok|].
  assert (W : word_leb name name = true) by (induction name as [|a l IH]; cbn [word_leb]; [reflexivity|]; rewrite Nat.ltb_irrefl, Nat.eqb_refl; exact IH).
  rewrite !snapshot_map. unfold rows_sort_back, rows_sort, lines_sort. cbn -[word_leb]. rewrite W. intros E. injection E as E. contradiction.
Qed.
Print Assumptions C130_order_refuted.

(** Two different boundaries at one position: their order is left to the sort. *)
Theorem C130_boundary_order_refuted :
  forall B (at_ : B -> nat) x y, x <> y -> at_ x = at_ y ->
    exists s1 s2, SortsBy le at_ s1 /\ SortsBy le at_ s2 /\ boundary_snapshot s1 [x; y] <> boundary_snapshot s2 [x; y].
Proof.
  intros B at_ x y N E.
  assert (K : SortsBy le at_ (sort (fun a b => Nat.leb (at_ a) (at_ b)))).
  { intros l. split; [apply sort_perm|]. apply sort_sorted; [intros a b; apply Nat.leb_le|intros a b F; apply Nat.leb_gt in F; lia|]. intros a b c. apply Nat.le_trans. }
  exists (sort (fun a b => Nat.leb (at_ a) (at_ b))), (fun l => sort (fun a b => Nat.leb (at_ a) (at_ b)) (rev l)). split; [exact K|]. split.
  - intros l. destruct (K (rev l)) as [P Q]. split; [|exact Q]. eapply Permutation_trans; [apply Permutation_rev|exact P].
  - unfold boundary_snapshot, sort. cbn [rev app fold_right put]. rewrite E, Nat.leb_refl. intros F. injection F as F _. contradiction.
Qed.
Print Assumptions C130_boundary_order_refuted.

(** Two functions of one name in a file, as in two [impl]s, share a stored file: if
    they differ in a row, no stored files pass. *)
Theorem C130_same_name_refuted :
  forall D eqd stored rows lines file fns n (o1 o2 : output D), SortsBy WordLe fst rows -> SortsBy le fst lines ->
    In (n, o1) fns -> In (n, o2) fns -> ~ SameRows o1 o2 -> file_passes eqd stored rows lines file fns = false.
Proof.
  intros D eqd stored rows lines file fns n o1 o2 R G I1 I2 N. apply not_true_is_false. intros H. apply N.
  exact (C130_versions D eqd stored rows rows lines lines file fns fns n o1 o2 R R G G H H I1 I2).
Qed.
Print Assumptions C130_same_name_refuted.

(** ** A case *)
Example C130_witness :
  let o1 : output nat := [(3, [[([121], 1)]; [([120], 2)]]); (1, [[([120], 5)]])] in
  let o2 : output nat := [(1, [[([120], 5)]; []]); (3, [[([120], 2); ([121], 1)]])] in
  SortsBy WordLe fst (@rows_sort nat) /\ SortsBy le fst (@lines_sort nat) /\ Distinct o1 /\ SameRows o1 o2 /\
  snapshot rows_sort lines_sort o1 = [(1, [([120], 5)]); (3, [([120], 2); ([121], 1)])] /\
  file_passes Nat.eq_dec (fun _ => Some (snapshot rows_sort lines_sort o1)) rows_sort lines_sort [97] [(Some [102], o1); (Some [102], o2)] = true /\
  ~ SameRows o1 [].
Proof.
  cbv zeta. split; [apply rows_sort_ok|]. split; [apply lines_sort_ok|]. split; [|split; [|split; [reflexivity|split; [vm_compute; reflexivity|]]]].
  - split; [repeat constructor; cbn; intuition discriminate|]. intros p [<-|[<-|[]]]; cbn; repeat constructor; cbn; intuition discriminate.
  - eexists. split; [apply perm_swap|]. constructor; [split; [reflexivity|cbn; apply Permutation_refl]|]. constructor; [split; [reflexivity|cbn; apply perm_swap]|]. constructor.
  - intros (o' & P & F). inversion F; subst. apply Permutation_sym, Permutation_nil in P. discriminate P.
Qed.

(** Boundaries at distinct positions, and two at one. *)
Example C130_boundary_witness :
  let l : list (nat * nat) := [(4, 1); (2, 7)] in
  SortsBy le fst (sort (fun a b : nat * nat => Nat.leb (fst a) (fst b))) /\ NoDup (map fst l) /\
  boundary_snapshot (sort (fun a b => Nat.leb (fst a) (fst b))) l = [(2, 7); (4, 1)] /\ (4, 1) <> (4, 2).
Proof.
  cbv zeta. split; [|split; [repeat constructor; cbn; intuition discriminate|split; [reflexivity|discriminate]]].
  intros l. split; [apply sort_perm|]. apply sort_sorted; [intros a b; apply Nat.leb_le|intros a b F; apply Nat.leb_gt in F; lia|]. intros a b c. apply Nat.le_trans.
Qed.
