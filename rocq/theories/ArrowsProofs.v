(** * Proofs about the arrows *)
From Coq Require Import String.
From Coq Require Import List Arith Bool ZArith QArith Lia.
From Verif Require Import Base ValuesModel ReaderModel LookModel ArrowsModel ArrowsSpec.
Import ListNotations.
Local Open Scope nat_scope.
Local Open Scope list_scope.

(** ** Pointers *)
Lemma dots_pointers : forall l ps, Pointers l ps -> ps = dots l.
Proof.
  fix IH 3. intros l ps H.
  assert (M : forall cs qs, Forall2 Pointers cs qs -> concat qs = flat_map dots cs).
  { clear l ps H. fix IHl 3. intros cs qs H. destruct H as [|c q cs qs H1 H2]; [reflexivity|].
    cbn. rewrite <- (IH c q H1), (IHl cs qs H2). reflexivity. }
  destruct H as [b|z|t|u|e|d r|d r n|cs ps H|cs ps H|cs ps x px H Hx|sm n x px Hx|n cs ps H|n rows ps H]; cbn; auto.
  - rewrite app_nil_r. auto.
  - rewrite (M _ _ H), (IH x px Hx). reflexivity.
  - rewrite (M _ _ H). clear. induction rows as [|r rows IHr]; cbn; congruence.
Qed.

Lemma pointers_dots : forall l, Pointers l (dots l).
Proof.
  fix IH 1. intros l.
  assert (M : forall cs, Forall2 Pointers cs (map dots cs)).
  { fix IHl 1. intros [|c cs]; cbn; constructor; [apply IH|apply IHl]. }
  destruct l as [b|z|t|u|e|d r|d r n|cs|cs o|sm n x|n cs|n rows]; cbn; try constructor.
  - rewrite flat_map_concat_map. constructor. apply M.
  - destruct o as [x|]; rewrite flat_map_concat_map.
    + constructor; [apply M|apply IH].
    + rewrite app_nil_r. constructor. apply M.
  - apply IH.
  - rewrite flat_map_concat_map. constructor. apply M.
  - rewrite flat_map_concat_map. apply po_named.
    clear n. revert rows. fix IHl 1. intros [|c rows]; cbn; constructor; [apply IH|apply IHl].
Qed.

(** ** Groups *)
Lemma group_const : forall A k (l : list A), group_by (fun _ => k) l = match l with [] => [] | _ :: _ => [(k, l)] end.
Proof.
  induction l as [|x l IH]; [reflexivity|]. cbn. rewrite IH. destruct l as [|y l]; [reflexivity|]. cbn.
  destruct (string_dec k k); [|congruence]. reflexivity.
Qed.

(** ** Numbers *)
Definition get0 (c : list (aim * nat)) (d : aim) : nat := match aget aim_eqd c d with Some n => n | None => 0 end.

Lemma get0_set c d n e : get0 (aset aim_eqd c d n) e = if aim_eqd d e then n else get0 c e.
Proof.
  unfold get0. destruct (aim_eqd d e) as [->|N].
  - rewrite aget_aset_eq. reflexivity.
  - rewrite aget_aset_neq; auto.
Qed.

Lemma numbered_spec : forall l c xs cs, numbered c l = (xs, cs) ->
  length xs = length l /\
  (forall i s, nth_error l i = Some s -> nth_error xs i = Some (s, get0 c (s_dst s) + count_occ aim_eqd (map s_dst (firstn i l)) (s_dst s))) /\
  (forall d, get0 cs d = get0 c d + count_occ aim_eqd (map s_dst l) d).
Proof.
  induction l as [|s l IH]; cbn; intros c xs cs E.
  - injection E as <- <-. split; [reflexivity|]. split; [intros [|i] s E; discriminate E|]. intros d. lia.
  - destruct (numbered _ l) as [ys ds] eqn:N. injection E as <- <-. apply IH in N. destruct N as (L & H1 & H2).
    split; [cbn; congruence|]. split.
    + intros [|i] t E; cbn in E.
      * injection E as ->. cbn. fold (get0 c (s_dst t)). do 2 f_equal. lia.
      * cbn. rewrite (H1 i t E). do 2 f_equal. fold (get0 c (s_dst s)). rewrite get0_set.
        destruct (aim_eqd (s_dst s) (s_dst t)) as [E1|N1]; [rewrite E1|]; lia.
    + intros d. rewrite H2. fold (get0 c (s_dst s)). rewrite get0_set. destruct (aim_eqd (s_dst s) d) as [E1|N1]; [rewrite E1|]; lia.
Qed.

Lemma nth_combine_seq : forall A (l : list A) a i, nth_error (combine (seq a (length l)) l) i = option_map (pair (a + i)) (nth_error l i).
Proof.
  induction l as [|x l IH]; intros a [|i]; cbn; auto.
  - rewrite Nat.add_0_r. reflexivity.
  - rewrite IH. rewrite <- plus_n_Sm. reflexivity.
Qed.

Lemma arrows_nth : forall pic, exists cs,
  (forall d, get0 cs d = count_occ aim_eqd (map s_dst (sources pic)) d) /\
  length (render_arrows pic) = length (sources pic) /\
  forall i, nth_error (render_arrows pic) i =
    option_map (fun s => render_ptr cs (s, count_occ aim_eqd (map s_dst (firstn i (sources pic))) (s_dst s)) i) (nth_error (sources pic) i).
Proof.
  intros pic. unfold render_arrows. destruct (numbered [] (sources pic)) as [ps cs] eqn:N. exists cs.
  apply numbered_spec in N. destruct N as (L & H1 & H2). split; [exact H2|].
  unfold object_string. rewrite group_const.
  assert (E : flat_map (fun g : string * list (source * nat) => map (fun '(i, p) => render_ptr cs p i) (combine (seq 0 (length (snd g))) (snd g)))
                match ps with [] => [] | _ :: _ => [("[object Object]"%string, ps)] end
              = map (fun '(i, p) => render_ptr cs p i) (combine (seq 0 (length ps)) ps)).
  { destruct ps as [|p ps]; [reflexivity|]. cbn [flat_map snd]. apply app_nil_r. }
  rewrite E. split.
  - rewrite map_length, combine_length, seq_length. lia.
  - intros i. rewrite nth_error_map, nth_combine_seq. destruct (nth_error (sources pic) i) as [s|] eqn:S0.
    + rewrite (H1 i s S0). reflexivity.
    + assert (nth_error ps i = None) as ->; [|reflexivity]. apply nth_error_None. rewrite L. apply nth_error_None. exact S0.
Qed.

Lemma nth_ext_error : forall A (l l' : list A), (forall i, nth_error l i = nth_error l' i) -> l = l'.
Proof.
  induction l as [|x l IH]; intros [|y l'] H; auto.
  - discriminate (H 0).
  - discriminate (H 0).
  - pose proof (H 0) as E. injection E as ->. f_equal. apply IH. intros i. exact (H (S i)).
Qed.

Lemma arrows_to pic : map ar_to (render_arrows pic) = map s_dst (sources pic).
Proof.
  destruct (arrows_nth pic) as (cs & _ & _ & H). apply nth_ext_error. intros i. rewrite !nth_error_map, H.
  destruct (nth_error (sources pic) i); reflexivity.
Qed.

Lemma arrows_origin pic : map origin (render_arrows pic) = map (fun s => (s_region s, s_moved s, s_dst s, s_range s)) (sources pic).
Proof.
  destruct (arrows_nth pic) as (cs & _ & _ & H). apply nth_ext_error. intros i. rewrite !nth_error_map, H.
  destruct (nth_error (sources pic) i); reflexivity.
Qed.

(** An arrow, by its place in the list. *)
Lemma arrow_at pic i a : nth_error (render_arrows pic) i = Some a -> exists cs,
  a = render_ptr cs (Source (ar_from a) (ar_moved a) (ar_to a) (ar_range a), to_cell (ar_to a) (firstn i (render_arrows pic))) i /\
  get0 cs (ar_to a) = to_cell (ar_to a) (render_arrows pic).
Proof.
  destruct (arrows_nth pic) as (cs & C & _ & H). rewrite H. intros E.
  destruct (nth_error (sources pic) i) as [s|] eqn:S0; [|discriminate E]. cbn in E. injection E as <-. exists cs. cbn.
  split.
  - unfold to_cell. rewrite <- (firstn_map ar_to), arrows_to, firstn_map. destruct s. reflexivity.
  - rewrite C. unfold to_cell. rewrite arrows_to. reflexivity.
Qed.

(** ** Ends *)
Lemma on_stack d : OnStack d <-> region_of d = Stack.
Proof.
  split.
  - intros (x & ps & ->). reflexivity.
  - destruct d as [[x|h] ps]; [intros _; exists x, ps; reflexivity|discriminate].
Qed.
Lemma on_heap d : OnHeap d <-> region_of d = Heap.
Proof.
  split.
  - intros (x & ps & ->). reflexivity.
  - destruct d as [[x|h] ps]; [discriminate|intros _; exists h, ps; reflexivity].
Qed.
Lemma element d : Element d <-> connector d = Some SBottom.
Proof.
  unfold connector. destruct d as [r ps]. cbn [snd]. split.
  - intros (r0 & qs & i & E). injection E as _ ->. rewrite rev_app_distr. reflexivity.
  - destruct (rev ps) as [|[i|i] q] eqn:R; try discriminate.
    + destruct (region_of _); discriminate.
    + intros _. exists r, (rev q), i. f_equal. rewrite <- (rev_involutive ps), R. reflexivity.
Qed.

Lemma spaced_anchor pic i a : nth_error (render_arrows pic) i = Some a -> Spaced a ->
  ar_anchor a = Point (if is_heap (region_of (ar_to a)) then 0 else 100)
    (evenly_space_around 50 30 (to_cell (ar_to a) (firstn i (render_arrows pic))) (to_cell (ar_to a) (render_arrows pic) - 1)).
Proof.
  intros H (R & I & B). destruct (arrow_at pic i a H) as (cs & E & C).
  rewrite E at 1. unfold render_ptr. cbn [ar_anchor fst snd s_region s_dst s_range].
  rewrite R. fold (get0 cs (ar_to a)). rewrite C.
  assert (negb (is_heap (ar_from a)) && negb (is_heap (region_of (ar_to a))) = false) as ->.
  { destruct (ar_from a) eqn:F; [|reflexivity]. destruct (region_of (ar_to a)) eqn:G; [|reflexivity].
    destruct I. split; [exact F|]. apply on_stack. exact G. }
  assert ((match connector (ar_to a) with Some SBottom => true | _ => false end) = false) as ->.
  { destruct (connector (ar_to a)) as [[]|] eqn:K; auto. destruct B. apply element. exact K. }
  reflexivity.
Qed.

Local Open Scope Q_scope.
Lemma spaced_value k n : (1 <= n)%nat -> exists y, evenly_space_around 50 30 k n = Some y /\
  y == 50 + 30 * inject_Z (Z.of_nat k) - 15 * inject_Z (Z.of_nat n).
Proof.
  intros N. unfold evenly_space_around. destruct n as [|m]; [lia|]. eexists. split; [reflexivity|].
  assert (~ inject_Z (Z.of_nat (S m)) == 0).
  { intros E. unfold Qeq in E. cbn in E. lia. }
  field. exact H.
Qed.

Lemma count_firstn_lt : forall (l : list aim) i d, nth_error l i = Some d ->
  (count_occ aim_eqd (firstn i l) d < count_occ aim_eqd l d)%nat.
Proof.
  induction l as [|x l IH]; intros [|i] d E; cbn in E; try discriminate E.
  - injection E as ->. cbn. destruct (aim_eqd d d); [lia|congruence].
  - cbn. apply IH in E. destruct (aim_eqd x d); lia.
Qed.
Lemma count_firstn_mono : forall (l : list aim) i j d, (i < j)%nat -> nth_error l i = Some d ->
  (count_occ aim_eqd (firstn i l) d < count_occ aim_eqd (firstn j l) d)%nat.
Proof.
  induction l as [|x l IH]; intros [|i] [|j] d L E; cbn in E; try discriminate E; try lia.
  - injection E as ->. cbn. destruct (aim_eqd d d); [lia|congruence].
  - cbn. apply (IH i j) in E; [|lia]. destruct (aim_eqd x d); lia.
Qed.

Lemma to_cell_nth pic i a d : nth_error (render_arrows pic) i = Some a -> ar_to a = d -> nth_error (map ar_to (render_arrows pic)) i = Some d.
Proof. intros H <-. rewrite nth_error_map, H. reflexivity. Qed.

Lemma before_lt pic i a : nth_error (render_arrows pic) i = Some a ->
  (to_cell (ar_to a) (firstn i (render_arrows pic)) < to_cell (ar_to a) (render_arrows pic))%nat.
Proof. intros H. unfold to_cell. rewrite <- firstn_map. apply count_firstn_lt. eapply to_cell_nth; eauto. Qed.
Lemma before_mono pic i j a : (i < j)%nat -> nth_error (render_arrows pic) i = Some a ->
  (to_cell (ar_to a) (firstn i (render_arrows pic)) < to_cell (ar_to a) (firstn j (render_arrows pic)))%nat.
Proof. intros L H. unfold to_cell. rewrite <- !firstn_map. apply count_firstn_mono; auto. eapply to_cell_nth; eauto. Qed.
