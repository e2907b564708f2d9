(** * Proofs about showing an execution *)

From Coq Require Import Ascii String.
From Coq Require Import List Arith Bool Lia Permutation Sorting.Sorted.
From Verif Require Import Base TraceModel ValuesModel BookModel FrontModel FrontSpec.
Import ListNotations.

(** ** Choosing states *)

Lemma last_frame_spec s f : last_frame s = Some f <-> exists outer, m_frames s = outer ++ [f].
Proof.
  unfold last_frame. induction (m_frames s) as [|x l IH] using rev_ind; cbn.
  - split; [discriminate|]. intros [[|] E]; discriminate.
  - rewrite map_app. cbn. rewrite last_last. split.
    + intros E. injection E as ->. eauto.
    + intros [outer E]. apply app_inj_tail in E. destruct E as [_ ->]. auto.
Qed.

Lemma last_frame_some s : m_frames s <> [] -> exists f, last_frame s = Some f.
Proof.
  intros N. destruct (m_frames s) as [|x l] eqn:E using rev_ind; [congruence|].
  exists x. apply last_frame_spec. eauto.
Qed.

Lemma mark_hits_spec mark s b : mark_hits mark s = Some b -> (b = true <-> Fits mark s).
Proof.
  unfold mark_hits. destruct (last_frame s) as [f|] eqn:E; try discriminate.
  intros H. injection H as <-. apply last_frame_spec in E. destruct E as [outer E].
  rewrite !andb_true_iff, !Nat.leb_le, Nat.ltb_lt. split.
  - intros [[A B] C]. exists outer, f. auto.
  - intros (o & f' & E' & A & C). rewrite E in E'. apply app_inj_tail in E'. destruct E' as [_ ->]. tauto.
Qed.

Lemma mark_hits_some mark s : m_frames s <> [] -> exists b, mark_hits mark s = Some b.
Proof. intros N. destruct (last_frame_some s N) as [f E]. unfold mark_hits. rewrite E. eauto. Qed.

Lemma find_index_some {T} (p : T -> option bool) l : forall i j x,
  find_index p i l = Some (Some (j, x)) ->
  exists k, j = i + k /\ nth_error l k = Some x /\ p x = Some true /\
    forall k' y, k' < k -> nth_error l k' = Some y -> p y = Some false.
Proof.
  induction l as [|a l IH]; cbn; intros i j x H; [discriminate|].
  destruct (p a) as [[]|] eqn:E; try discriminate.
  - injection H as -> ->. exists 0. repeat split; auto; try lia. 
  - destruct (IH _ _ _ H) as (k & -> & A & B & C). exists (S k). repeat split; auto; try lia.
    intros [|k'] y L Y; cbn in Y; [congruence|]. apply (C k'); auto; lia.
Qed.

Lemma find_index_none {T} (p : T -> option bool) l : forall i,
  (forall x, In x l -> exists b, p x = Some b) ->
  (find_index p i l = Some None \/ exists j x, find_index p i l = Some (Some (j, x))) /\
  (find_index p i l = Some None <-> forall x, In x l -> p x = Some false).
Proof.
  induction l as [|a l IH]; cbn; intros i H.
  - split; auto. split; [intros _ x []|auto].
  - destruct (H a (or_introl eq_refl)) as [b E]. rewrite E. destruct b.
    + split; [right; eauto|]. split; [discriminate|]. intros F. specialize (F a (or_introl eq_refl)). congruence.
    + destruct (IH (S i)) as [A B]; [intros x Hx; apply H; auto|]. split; auto. rewrite B. split.
      * intros F x [->|Hx]; auto.
      * intros F x Hx; auto.
Qed.

Lemma nth_error_rev {T} (l : list T) k : k < length l -> nth_error (rev l) k = nth_error l (length l - S k).
Proof.
  intros L. destruct l as [|d l'] eqn:E; [cbn in L; lia|]. rewrite <- E in *. clear E l'.
  rewrite (nth_error_nth' _ d) by (rewrite rev_length; auto).
  rewrite rev_nth by auto. rewrite (nth_error_nth' _ d) by lia. auto.
Qed.

Lemma indexed_mark_some steps mark n m s :
  indexed_mark steps mark = Some (n, (m, s)) ->
  m = mark /\ exists k, n = S k /\ nth_error steps k = Some s /\ LastFit steps mark k.
Proof.
  unfold indexed_mark. destruct (find_index _ _ _) as [[[j x]|]|] eqn:E; try discriminate.
  intros H. injection H as <- <- <-. split; auto.
  apply find_index_some in E. destruct E as (k & -> & A & B & C). cbn [plus].
  assert (L : k < length steps).
  { rewrite <- rev_length. apply nth_error_Some. congruence. }
  exists (length steps - S k). split; [lia|]. rewrite nth_error_rev in A by auto. split; auto. split.
  - exists x. split; auto. apply (mark_hits_spec _ _ _ B). auto.
  - intros j s' Lj Ej F. assert (Lj2 : j < length steps) by (apply nth_error_Some; congruence).
    assert (P : mark_hits mark s' = Some false).
    { apply (C (length steps - S j)); [lia|]. rewrite nth_error_rev by lia.
      replace (length steps - S (length steps - S j)) with j by lia. auto. }
    apply (mark_hits_spec _ _ _ P) in F. discriminate.
Qed.

Lemma indexed_mark_none steps mark : running steps ->
  (indexed_mark steps mark = None <-> forall s, In s steps -> ~ Fits mark s).
Proof.
  intros R. unfold running in R. rewrite Forall_forall in R.
  destruct (find_index_none (mark_hits mark) (rev steps) 0) as [A B].
  { intros x Hx. apply mark_hits_some, R, in_rev; auto. }
  assert (Q : (forall x, In x (rev steps) -> mark_hits mark x = Some false) <-> (forall s, In s steps -> ~ Fits mark s)).
  { split.
    - intros H s Hs F. apply in_rev in Hs. pose proof (H s Hs) as P. apply (mark_hits_spec _ _ _ P) in F. discriminate.
    - intros H x Hx. apply in_rev in Hx. destruct (mark_hits_some mark x) as [b E]; [apply R; auto|].
      destruct b; auto. exfalso. apply (H x Hx). apply (mark_hits_spec _ _ _ E). auto. }
  rewrite <- Q, <- B. unfold indexed_mark. destruct A as [A|(j & x & A)]; rewrite A; split; auto; discriminate.
Qed.

Lemma LastFit_unique steps mark k1 k2 : LastFit steps mark k1 -> LastFit steps mark k2 -> k1 = k2.
Proof.
  intros [(s1 & E1 & F1) L1] [(s2 & E2 & F2) L2].
  destruct (Nat.lt_trichotomy k1 k2) as [H|[H|H]]; auto.
  - exfalso. apply (L1 k2 s2); auto.
  - exfalso. apply (L2 k1 s1); auto.
Qed.

Lemma all_some_spec {A B} (f : A -> option B) l : forall r, all_some (map f l) = Some r <-> Forall2 (fun a b => f a = Some b) l r.
Proof.
  induction l as [|a l IH]; cbn; intros r.
  - split; [intros H; injection H as <-; constructor|]. intros H. inversion H. auto.
  - destruct (f a) as [b|] eqn:E.
    + destruct (all_some (map f l)) as [r'|] eqn:E'; cbn.
      * split.
        -- intros H. injection H as <-. constructor; auto. apply IH. auto.
        -- intros H. inversion H as [|? y ? r2 Ey F2]; subst. apply IH in F2. congruence.
      * split; [discriminate|]. intros H. inversion H as [|? y ? r2 Ey F2]; subst. apply IH in F2. congruence.
    + split; [discriminate|]. intros H. inversion H; subst. congruence.
Qed.

Lemma all_some_none {A B} (f : A -> option B) l : all_some (map f l) = None <-> exists a, In a l /\ f a = None.
Proof.
  induction l as [|a l IH]; cbn.
  - split; [discriminate|]. intros (a & [] & _).
  - destruct (f a) as [b|] eqn:E.
    + destruct (all_some (map f l)); cbn.
      * split; [discriminate|]. intros (x & [->|Hx] & Ex); [congruence|]. assert (exists a, In a l /\ f a = None) by eauto.
        apply IH in H. discriminate.
      * split; auto. intros _. destruct IH as [IH _]. destruct (IH eq_refl) as (x & Hx & Ex). eauto.
    + split; eauto.
Qed.

(** *** The sort *)

Lemma insert_by_perm {T} (key : T -> nat) x l : Permutation (insert_by key x l) (x :: l).
Proof.
  induction l as [|y l IH]; cbn; auto. destruct (key x <=? key y); auto.
  rewrite IH. apply perm_swap.
Qed.
Lemma sort_by_perm {T} (key : T -> nat) l : Permutation (sort_by key l) l.
Proof. induction l as [|x l IH]; cbn; auto. rewrite insert_by_perm, IH. auto. Qed.

Lemma insert_by_sorted {T} (key : T -> nat) x l :
  StronglySorted (fun a b => key a <= key b) l -> StronglySorted (fun a b => key a <= key b) (insert_by key x l).
Proof.
  induction l as [|y l IH]; cbn; intros H.
  - constructor; constructor.
  - inversion H as [|? ? H1 H2]; subst. destruct (key x <=? key y) eqn:E.
    + apply Nat.leb_le in E. constructor; auto. constructor; auto. eapply Forall_impl; [|apply H2]. cbn. lia.
    + apply Nat.leb_gt in E. constructor; auto.
      assert (P := insert_by_perm key x l). rewrite P. constructor; auto. lia.
Qed.
Lemma sort_by_sorted {T} (key : T -> nat) l : StronglySorted (fun a b => key a <= key b) (sort_by key l).
Proof. induction l; cbn; [constructor|]. apply insert_by_sorted; auto. Qed.

Lemma insert_by_filter {T} (key : T -> nat) n x l :
  filter (fun a => key a =? n) (insert_by key x l) = filter (fun a => key a =? n) (x :: l).
Proof.
  induction l as [|y l IH]; cbn; auto.
  destruct (key x <=? key y) eqn:E; cbn; auto. rewrite IH. cbn.
  apply Nat.leb_gt in E. destruct (key x =? n) eqn:Ex; destruct (key y =? n) eqn:Ey; auto.
  apply Nat.eqb_eq in Ex, Ey. lia.
Qed.
Lemma sort_by_stable {T} (key : T -> nat) n l : filter (fun a => key a =? n) (sort_by key l) = filter (fun a => key a =? n) l.
Proof.
  induction l as [|x l IH]; auto. unfold sort_by in *. cbn [fold_right]. rewrite insert_by_filter. cbn. rewrite IH. auto.
Qed.

(** The marks in the order shown, with the numbers of their states. *)
Lemma filter_steps_spec steps marks ms ss :
  filter_steps steps marks = Some (ms, ss) ->
  exists ks ks0,
    Forall2 (LastFit steps) ms ks /\ Forall2 (fun k s => nth_error steps k = Some s) ks ss /\
    Permutation ms marks /\ StronglySorted le ks /\
    Forall2 (LastFit steps) marks ks0 /\
    forall k, filter (fun p => snd p =? k) (combine ms ks) = filter (fun p => snd p =? k) (combine marks ks0).
Proof.
  unfold filter_steps. destruct (all_some _) as [ix|] eqn:E; try discriminate.
  intros H. injection H as <- <-. apply all_some_spec in E.
  set (so := sort_by fst ix). assert (P : Permutation so ix) by apply sort_by_perm.
  set (good := fun x : nat * (nat * fstep) => exists k, fst x = S k /\ nth_error steps k = Some (snd (snd x)) /\ LastFit steps (fst (snd x)) k).
  assert (Q : Forall good ix).
  { clear so P. induction E as [|m x ms ix Em _ IH]; constructor; auto.
    destruct x as [n [m' s]]. apply indexed_mark_some in Em. destruct Em as [-> (k & -> & A & B)]. exists k. cbn. auto. }
  assert (M : map (fun x => fst (snd x)) ix = marks).
  { clear so P Q. induction E as [|m x ms ix Em _ IH]; cbn; auto. f_equal; auto.
    destruct x as [n [m' s]]. apply indexed_mark_some in Em. tauto. }
  assert (Q' : Forall good so) by (rewrite P; exact Q).
  assert (FIT : forall l, Forall good l -> Forall2 (LastFit steps) (map (fun x => fst (snd x)) l) (map (fun x => pred (fst x)) l)).
  { clear. induction 1 as [|x l (k & E1 & E2 & E3) _ IH]; cbn; constructor; auto. rewrite E1. auto. }
  exists (map (fun x => pred (fst x)) so), (map (fun x => pred (fst x)) ix). split; [|split; [|split; [|split; [|split]]]].
  - apply FIT; auto.
  - clear - Q'. induction Q' as [|x l (k & E1 & E2 & E3) _ IH]; cbn; constructor; auto. rewrite E1. auto.
  - rewrite P, M. auto.
  - assert (SS := sort_by_sorted fst ix). fold so in SS. clear - SS.
    induction SS as [|x l _ IH F]; cbn; constructor; auto. rewrite Forall_map.
    eapply Forall_impl; [|exact F]. cbn. lia.
  - rewrite <- M. apply FIT; auto.
  - intros k. rewrite <- M.
    assert (ST : filter (fun a => fst a =? S k) so = filter (fun a => fst a =? S k) ix) by apply sort_by_stable.
    assert (G : forall l, Forall good l -> filter (fun p => snd p =? k) (combine (map (fun x => fst (snd x)) l) (map (fun x => pred (fst x)) l))
              = map (fun x => (fst (snd x), k)) (filter (fun a => fst a =? S k) l)).
    { clear. induction 1 as [|x l (k0 & E1 & E2 & E3) _ IH]; cbn; auto. rewrite E1. cbn.
      destruct (k0 =? k) eqn:Ek; cbn; rewrite IH; auto. apply Nat.eqb_eq in Ek. subst. auto. }
    rewrite (G so Q'), (G ix Q), ST. auto.
Qed.

Lemma filter_steps_none steps marks : running steps ->
  (filter_steps steps marks = None <-> exists m, In m marks /\ forall s, In s steps -> ~ Fits m s).
Proof.
  intros R. unfold filter_steps. destruct (all_some _) as [ix|] eqn:E.
  - split; [discriminate|]. intros (m & Hm & F). assert (all_some (map (indexed_mark steps) marks) = None).
    { apply all_some_none. exists m. split; auto. apply indexed_mark_none; auto. }
    congruence.
  - split; auto. intros _. apply all_some_none in E. destruct E as (m & Hm & Em). exists m. split; auto.
    apply indexed_mark_none; auto.
Qed.

(** ** Values *)

Lemma read_field_spec fs k x : read_field fs k = Some x <-> exists n kd, aget str_eqd fs k = Some (VAdt n x kd).
Proof.
  unfold read_field. destruct (aget str_eqd fs k) as [[]|]; split; try discriminate; try (intros (n & kd & H); discriminate).
  - intros H. injection H as ->. eauto.
  - intros (n & kd & H). injection H as <- <- <-. auto.
Qed.

Lemma obind_some {A B} (o : option A) (f : A -> option B) b : obind o f = Some b <-> exists a, o = Some a /\ f a = Some b.
Proof. destruct o; cbn; split; eauto; try discriminate. intros (x & E & H). injection E as <-. auto. intros (x & E & H). discriminate. Qed.

Lemma first_field_spec fs v : first_field fs = Some v <-> exists k r, fs = (k, v) :: r.
Proof.
  unfold first_field. destruct fs as [|[k w] r]; split; try discriminate.
  - intros (k & r & E). discriminate.
  - intros E. injection E as ->. eauto.
  - intros (k' & r' & E). injection E as <- <- <-. auto.
Qed.

Lemma read_vec_first fs p : obind (read_vec fs) first_field = Some p <-> Special KVec fs p.
Proof.
  unfold read_vec, read_unique. split.
  - intros H. apply obind_some in H. destruct H as (nn & H & Fp). apply first_field_spec in Fp. destruct Fp as (key & rest & ->).
    apply obind_some in H. destruct H as (raw & E1 & H). apply obind_some in H. destruct H as (inner & E2 & H).
    apply obind_some in H. destruct H as (uniq & E3 & E4).
    apply read_field_spec in E1, E2, E3, E4.
    destruct E1 as (n1 & k1 & E1), E2 as (n2 & k2 & E2), E3 as (n3 & k3 & E3), E4 as (n4 & k4 & E4).
    econstructor; eauto.
  - intros H. inversion H; subst.
    repeat match goal with
    | H : aget str_eqd ?f ?k = Some (VAdt ?n ?x ?kd) |- _ =>
        assert (read_field f k = Some x) by (apply read_field_spec; eauto); clear H
    end.
    apply obind_some. exists ((key, p) :: rest). split; [|apply first_field_spec; eauto].
    apply obind_some. eexists. split; [eassumption|]. apply obind_some. eexists. split; [eassumption|].
    apply obind_some. eexists. split; [eassumption|]. auto.
Qed.

Lemma option_map_some {A B} (f : A -> B) o b : option_map f o = Some b <-> exists a, o = Some a /\ f a = b.
Proof. destruct o; cbn; split; try discriminate. intros H; injection H as <-; eauto. intros (x & E & <-). injection E as <-. auto. intros (x & E & _). discriminate. Qed.

Lemma special_ptr_spec fs kind o :
  special_ptr fs kind = Some o <->
  match kind with None => o = None | Some k => exists p, Special k fs p /\ o = Some p end.
Proof.
  unfold special_ptr. destruct kind as [k|].
  2:{ split; [intros H; injection H as <-; auto|intros ->; auto]. }
  rewrite option_map_some.
  assert (Q : forall p, obind (match k with
       | KString => obind (read_field fs (lit "vec")) read_vec
       | KVec => read_vec fs
       | KBox => obind (read_field fs (lit "0")) read_unique
       end) first_field = Some p <-> Special k fs p).
  { intros p. destruct k.
    - split.
      + intros H. apply obind_some in H. destruct H as (nn & H & Fp). apply obind_some in H. destruct H as (v & E1 & E2).
        apply read_field_spec in E1. destruct E1 as (n & kd & E1). econstructor; [exact E1|].
        apply read_vec_first, obind_some. eauto.
      + intros H. inversion H; subst. match goal with X : Special KVec _ _ |- _ => apply read_vec_first, obind_some in X; destruct X as (nn & X1 & X2) end.
        apply obind_some. exists nn. split; auto. apply obind_some. eexists. split; [apply read_field_spec; eauto|]. auto.
    - apply read_vec_first.
    - unfold read_unique. split.
      + intros H. apply obind_some in H. destruct H as (nn & H & Fp). apply obind_some in H. destruct H as (u & E1 & E2).
        apply first_field_spec in Fp. destruct Fp as (key & rest & ->). apply read_field_spec in E1, E2.
        destruct E1 as (n1 & k1 & E1), E2 as (n2 & k2 & E2). econstructor; eauto.
      + intros H. inversion H; subst. apply obind_some. exists ((key, p) :: rest). split; [|apply first_field_spec; eauto].
        apply obind_some. eexists. split; [apply read_field_spec; eauto|apply read_field_spec; eauto]. }
  split.
  - intros (p & H & <-). exists p. split; auto. apply Q; auto.
  - intros (p & H & ->). exists p. split; auto. apply Q; auto.
Qed.

Lemma adt_shows_spec c name fs kind o : adt_shows c name fs kind = Some o <-> DrawnAs c name fs kind o.
Proof.
  unfold adt_shows. split.
  - destruct (special_ptr fs kind) as [sp|] eqn:E; try discriminate. apply special_ptr_spec in E.
    destruct c.
    + intros H. injection H as <-. destruct kind as [k|]; [destruct E as (p & E & ->)|]; econstructor; eauto.
    + destruct kind as [k|].
      * destruct E as (p & E & ->). intros H. injection H as <-. constructor; auto.
      * subst sp. destruct (str_eqd name (lit "Iter")) as [->|N].
        -- intros H. apply option_map_some in H. destruct H as (p & H & <-). apply obind_some in H.
           destruct H as (f & E1 & E2). apply first_field_spec in E2. destruct E2 as (key & rest & ->).
           apply read_field_spec in E1. destruct E1 as (n & kd & E1). econstructor; eauto.
        -- intros H. injection H as <-. constructor; auto.
  - intros H. inversion H; subst.
    + auto.
    + assert (X : special_ptr fs (Some k) = Some (Some p)) by (apply special_ptr_spec; eauto). rewrite X. auto.
    + assert (X : special_ptr fs (Some k) = Some (Some p)) by (apply special_ptr_spec; eauto). rewrite X. auto.
    + cbn [special_ptr]. destruct (str_eqd (lit "Iter") (lit "Iter")); [|congruence]. apply option_map_some. exists p. split; auto.
      apply obind_some. exists ((key, p) :: rest). split; [apply read_field_spec; eauto|]. apply first_field_spec; eauto.
    + cbn [special_ptr]. destruct (str_eqd name (lit "Iter")); [congruence|auto].
Qed.

Lemma DrawnAs_det c name fs k o1 o2 : DrawnAs c name fs k o1 -> DrawnAs c name fs k o2 -> o1 = o2.
Proof. intros A B. apply adt_shows_spec in A, B. congruence. Qed.

(** *** Depth *)

Lemma list_max_in n l : In n l -> n <= list_max l.
Proof. intros H. assert (F := proj1 (list_max_le l (list_max l)) (le_n _)). rewrite Forall_forall in F. auto. Qed.

Lemma depth_field name fs kind k v : In (k, v) fs -> depth v < depth (VAdt name fs kind).
Proof.
  intros H. cbn. apply Nat.lt_succ_r. apply list_max_in. apply in_map_iff. exists (k, v). auto.
Qed.
Lemma depth_aget name fs kind k v : aget str_eqd fs k = Some v -> depth v < depth (VAdt name fs kind).
Proof. intros H. apply (depth_field _ _ _ k). apply aget_Some_In in H. auto. Qed.

Lemma depth_first n4 key p (rest : list (str * value)) k4 : depth p < depth (VAdt n4 ((key, p) :: rest) k4).
Proof. eapply depth_field. left. eauto. Qed.

Lemma depth_special name fs kind k p : Special k fs p -> depth p < depth (VAdt name fs kind).
Proof.
  assert (V : forall k fs p, Special k fs p -> k = KVec -> forall name kind, depth p < depth (VAdt name fs kind)).
  { clear. intros k fs p H.
    destruct H as [fs n1 raw k1 n2 inner k2 n3 uniq k3 n4 key p rest k4 E1 E2 E3 E4| |]; intros K; try discriminate.
    intros name kind.
    assert (D1 := depth_aget name fs kind _ _ E1). assert (D2 := depth_aget n1 raw k1 _ _ E2).
    assert (D3 := depth_aget n2 inner k2 _ _ E3). assert (D4 := depth_aget n3 uniq k3 _ _ E4).
    assert (D5 := depth_first n4 key p rest k4). lia. }
  intros H. destruct H as [fs n1 raw k1 n2 inner k2 n3 uniq k3 n4 key p rest k4 E1 E2 E3 E4|fs n vfs k p E1 E2|fs n3 uniq k3 n4 key p rest k4 E1 E2].
  - eapply V; [econstructor; eauto|auto].
  - assert (D1 := depth_aget name fs kind _ _ E1). assert (D2 := V _ vfs _ E2 eq_refl n k). lia.
  - assert (D1 := depth_aget name fs kind _ _ E1). assert (D2 := depth_aget n3 uniq k3 _ _ E2).
    assert (D5 := depth_first n4 key p rest k4). lia.
Qed.

Lemma depth_drawn c name fs kind u : DrawnAs c name fs kind (Some u) -> depth u < depth (VAdt name fs kind).
Proof.
  intros H. inversion H as [| |? ? k p Sp|? n key p rest k E|]; subst.
  - eapply depth_special; eauto.
  - assert (D1 := depth_aget (lit "Iter") fs None _ _ E). assert (D5 := depth_first n key u rest k). lia.
Qed.

(** *** Cells *)

Lemma cells_none f c mk l : forall i,
  (exists items, cells f c mk i l = Some items) <->
  forall j v, nth_error l j = Some v -> exists items, f (below c (mk (i + j))) v = Some items.
Proof.
  induction l as [|v l IH]; intros i; cbn [cells].
  - split; eauto. intros _ [|j] v H; discriminate.
  - split.
    + intros (items & H). apply obind_some in H. destruct H as (here & E1 & H). apply obind_some in H. destruct H as (rest & E2 & _).
      intros [|j] w Hw; cbn in Hw.
      * injection Hw as <-. rewrite Nat.add_0_r. eauto.
      * destruct (IH (S i)) as [A _]. destruct (A (ex_intro _ _ E2) j w Hw) as (it & E). exists it.
        rewrite <- plus_n_Sm. auto.
    + intros H. destruct (H 0 v eq_refl) as (here & E1). rewrite Nat.add_0_r in E1. rewrite E1. cbn [obind].
      destruct (IH (S i)) as [_ B]. destruct B as (rest & E2).
      { intros j w Hw. destruct (H (S j) w Hw) as (it & E). rewrite <- plus_n_Sm in E. eauto. }
      rewrite E2. cbn. eauto.
Qed.

Lemma cells_in f c mk l : forall i items x,
  cells f c mk i l = Some items ->
  (In x items <-> exists j v, nth_error l j = Some v /\
     (x = Cell (below c (mk (i + j))) v \/ exists its, f (below c (mk (i + j))) v = Some its /\ In x its)).
Proof.
  induction l as [|v l IH]; intros i items x; cbn [cells].
  - intros H. injection H as <-. split; [intros []|]. intros ([|j] & w & E & _); discriminate.
  - intros H. apply obind_some in H. destruct H as (here & E1 & H). apply obind_some in H. destruct H as (rest & E2 & H).
    injection H as <-. cbn. rewrite in_app_iff, (IH (S i) rest x E2). split.
    + intros [<-|[H|(j & w & Ew & H)]].
      * exists 0, v. rewrite Nat.add_0_r. auto.
      * exists 0, v. rewrite Nat.add_0_r. split; auto. right. eauto.
      * exists (S j), w. split; auto. rewrite <- plus_n_Sm. auto.
    + intros ([|j] & w & Ew & H); cbn in Ew.
      * injection Ew as <-. rewrite Nat.add_0_r in H. destruct H as [->|(its & Ei & Hi)]; auto.
        right. left. congruence.
      * right. right. exists j, w. split; auto. rewrite <- plus_n_Sm in H. auto.
Qed.

Lemma nth_error_In_depth l i v : nth_error l i = Some v -> depth v <= list_max (map depth l).
Proof. intros H. apply list_max_in, in_map. apply nth_error_In in H. auto. Qed.

Lemma snd_nth (fs : list (str * value)) j v : nth_error (map snd fs) j = Some v <-> exists k, nth_error fs j = Some (k, v).
Proof.
  rewrite nth_error_map. destruct (nth_error fs j) as [[k w]|]; cbn; split; try discriminate.
  - intros H. injection H as ->. eauto.
  - intros (k' & H). injection H as <- <-. auto.
  - intros (k' & H). discriminate.
Qed.

Lemma snd_nth_depth (fs : list (str * value)) j v name kind : nth_error (map snd fs) j = Some v -> depth v < depth (VAdt name fs kind).
Proof. intros H. apply snd_nth in H. destruct H as (k & H). apply nth_error_In in H. eapply depth_field; eauto. Qed.

Lemma Forall_nth {T} (P : T -> Prop) l : Forall P l <-> forall i x, nth_error l i = Some x -> P x.
Proof.
  rewrite Forall_forall. split; intros H.
  - intros i x E. apply H. eapply nth_error_In; eauto.
  - intros x Hx. apply In_nth_error in Hx. destruct Hx as (i & E). eauto.
Qed.

Lemma drawable_array c l o : Drawable c (VArray l o) <-> Forall (Drawable c) l /\ forall x, o = Some x -> Drawable c x.
Proof. split. intros H; inversion H; subst; auto. intros []. constructor; auto. Qed.

Lemma view_drawable n : forall c cl v, depth v <= n -> ((exists items, view n c cl v = Some items) <-> Drawable c v).
Proof.
  induction n as [|n IH]; intros c cl v D.
  { exfalso. destruct v; cbn in D; lia. }
  destruct v as [s| |ch|l|l o|name fs kind|r parts|a]; cbn [view].
  - split; [constructor|eauto].
  - split; [intros (items & H); discriminate|intros H; inversion H].
  - split; [constructor|eauto].
  - cbn [depth] in D. rewrite cells_none. split.
    + intros H. constructor. apply Forall_nth. intros i x E. apply (IH c (below cl (PField (0 + i))) x).
      * pose proof (nth_error_In_depth _ _ _ E). lia.
      * apply H; auto.
    + intros H j v E. inversion H as [| | | |l' F| | |]; subst. rewrite Forall_nth in F. apply IH; eauto.
      pose proof (nth_error_In_depth _ _ _ E). lia.
  - assert (Dl : forall i v, nth_error l i = Some v -> depth v <= n).
    { intros i v E. pose proof (nth_error_In_depth _ _ _ E). cbn [depth list_max fold_right] in D. unfold list_max in *. lia. }
    assert (Q : (exists items, cells (view n c) cl PIndex 0 l = Some items) <-> Forall (Drawable c) l).
    { rewrite cells_none, Forall_nth. split; intros H i x E; [apply (IH c (below cl (PIndex (0 + i)))); eauto|apply IH; eauto]. }
    destruct o as [x|].
    + assert (Dx : depth x <= n) by (cbn [depth list_max fold_right] in D; lia).
      assert (R : (exists items, cells (view n c) cl PIndex 100 [x] = Some items) <-> Drawable c x).
      { rewrite cells_none. split.
        - intros H. apply (IH c (below cl (PIndex (100 + 0))) x Dx). apply H. auto.
        - intros H [|[|j]] v E; cbn in E; try discriminate. injection E as <-. apply IH; auto. }
      rewrite drawable_array. split.
      * intros (items & H). apply obind_some in H. destruct H as (a & E1 & H). apply obind_some in H. destruct H as (b & E2 & _).
        split; [apply Q; eauto|]. intros x' E. injection E as <-. apply R. eauto.
      * intros [A B]. apply Q in A. destruct A as (a & ->). cbn [obind]. destruct R as [_ R]. destruct (R (B x eq_refl)) as (b & ->).
        cbn. eauto.
    + rewrite drawable_array, Q. split; [intros H; split; auto; discriminate|tauto].
  - destruct (adt_shows c name fs kind) as [[u|]|] eqn:E.
    + apply adt_shows_spec in E. assert (Du := depth_drawn _ _ _ _ _ E). rewrite IH by lia. split.
      * intros H. eapply Dr_as; eauto.
      * intros H. inversion H as [| | | | | |? ? ? u' DA Dd|? ? ? DA FF]; subst; auto; pose proof (DrawnAs_det _ _ _ _ _ _ E DA) as X; [injection X as ->; auto|discriminate].
    + apply adt_shows_spec in E. rewrite cells_none. split.
      * intros H. apply Dr_fields; auto. apply Forall_nth. intros i [k x] Ei. cbn.
        apply (IH c (below cl (PField (0 + i))) x).
        -- assert (depth x < depth (VAdt name fs kind)) by (eapply depth_field, nth_error_In; eauto). lia.
        -- apply H. apply snd_nth. eauto.
      * intros H j v Ej. inversion H as [| | | | | |? ? ? u' DA Dd|? ? ? DA FF]; subst; pose proof (DrawnAs_det _ _ _ _ _ _ E DA) as X; [discriminate|].
        rewrite Forall_nth in FF. apply IH.
        -- pose proof (snd_nth_depth _ _ _ name kind Ej). lia.
        -- apply snd_nth in Ej. destruct Ej as (k & Ej). apply (FF _ _ Ej).
    + split; [intros (items & H); discriminate|]. intros H. exfalso.
      inversion H as [| | | | | |? ? ? u' DA Dd|? ? ? DA FF]; subst; apply adt_shows_spec in DA; congruence.
  - split; [constructor|eauto].
  - split; [constructor|eauto].
Qed.

(** *** What is in a drawing *)

Lemma below_pair r ps p : below (r, ps) p = (r, ps ++ [p]).
Proof. auto. Qed.

Definition cell_spec (c : bool) (r : root) (ps0 : list part) (v : value) (items : list item) : Prop :=
  forall cl u, In (Cell cl u) items <-> exists p ps, cl = (r, ps0 ++ p :: ps) /\ Inside c v (p :: ps) u.
Definition ptr_spec (c : bool) (v : value) (items : list item) : Prop :=
  forall d rg, In (Pointer d rg) items <-> exists ps w r parts, Inside c v ps w /\ ShownPtr c w r parts /\ Pointer d rg = pointer_item r parts.

Lemma no_shown_tuple c l r parts : ~ ShownPtr c (VTuple l) r parts. Proof. intros H; inversion H. Qed.
Lemma no_shown_array c l o r parts : ~ ShownPtr c (VArray l o) r parts. Proof. intros H; inversion H. Qed.

Lemma view_content n : forall c r ps0 v items, depth v <= n -> view n c (r, ps0) v = Some items ->
  cell_spec c r ps0 v items /\ ptr_spec c v items.
Proof.
  induction n as [|n IH]; intros c r ps0 v items D H; [discriminate|].
  assert (LEAF : forall w, (forall p ps u, ~ Inside c w (p :: ps) u) -> (forall r' parts, ~ ShownPtr c w r' parts) ->
            cell_spec c r ps0 w [] /\ ptr_spec c w []).
  { intros w A B. split.
    - intros cl u. split; [intros []|]. intros (p & ps & _ & X). exfalso. eapply A; eauto.
    - intros d rg. split; [intros []|]. intros (ps & w' & r' & parts & X & Y & _). exfalso.
      destruct ps as [|p ps]; [|eapply A; eauto]. inversion X; subst. eapply B; eauto. }
  destruct v as [s| |ch|l|l o|name fs kind|r1 parts|a]; cbn [view] in H.
  - injection H as <-. apply LEAF; [intros p ps u X; inversion X|intros r' q X; inversion X].
  - discriminate.
  - injection H as <-. apply LEAF; [intros p ps u X; inversion X|intros r' q X; inversion X].
  - (* tuple *)
    assert (C := fun x => cells_in (view n c) (r, ps0) PField l 0 items x H). cbn [depth] in D.
    assert (SUB : forall j v its, nth_error l j = Some v -> view n c (below (r, ps0) (PField (0 + j))) v = Some its ->
              cell_spec c r (ps0 ++ [PField j]) v its /\ ptr_spec c v its).
    { intros j v its E Ei. rewrite below_pair in Ei. cbn [plus] in Ei. apply (IH c r _ v its); auto.
      pose proof (nth_error_In_depth _ _ _ E). lia. }
    assert (EX : forall j v, nth_error l j = Some v -> exists its, view n c (below (r, ps0) (PField (0 + j))) v = Some its).
    { intros j v E. apply (proj1 (cells_none (view n c) (r, ps0) PField l 0) (ex_intro _ _ H) j v E). }
    split.
    + intros cl u. rewrite C. split.
      * intros (j & v & E & [X|(its & Ei & Hi)]).
        -- injection X as -> ->. exists (PField j), []. split; auto. econstructor; eauto. constructor.
        -- destruct (SUB _ _ _ E Ei) as [S1 _]. apply S1 in Hi. destruct Hi as (p & ps & -> & I).
           exists (PField j), (p :: ps). split; [rewrite <- app_assoc; auto|]. econstructor; eauto.
      * intros (p & ps & -> & I). inversion I as [|? j v ? ? E I'| | | |]; subst. exists j, v. split; auto.
        destruct ps as [|p' ps].
        -- left. inversion I'; subst. auto.
        -- right. destruct (EX j v E) as (its & Ei). exists its. split; auto.
           apply (proj1 (SUB _ _ _ E Ei)). exists p', ps. split; auto. rewrite <- app_assoc. auto.
    + intros d rg. rewrite C. split.
      * intros (j & v & E & [X|(its & Ei & Hi)]); [discriminate|].
        destruct (SUB _ _ _ E Ei) as [_ S2]. apply S2 in Hi. destruct Hi as (ps & w & r' & parts & I & Sh & ->).
        exists (PField j :: ps), w, r', parts. split; auto. econstructor; eauto.
      * intros (ps & w & r' & parts & I & Sh & Q). inversion I as [|? j v ? ? E I'| | | |]; subst.
        -- exfalso. eapply no_shown_tuple; eauto.
        -- exists j, v. split; auto. right. destruct (EX j v E) as (its & Ei). exists its. split; auto.
           apply (proj2 (SUB _ _ _ E Ei)). eauto 8.
  - (* array *)
    assert (Dl : forall i v, nth_error l i = Some v -> depth v <= n).
    { intros i v E. pose proof (nth_error_In_depth _ _ _ E). cbn [depth list_max fold_right] in D. unfold list_max in *. lia. }
    assert (LP : exists ia ib, cells (view n c) (r, ps0) PIndex 0 l = Some ia /\
              cells (view n c) (r, ps0) PIndex 100 (match o with Some x => [x] | None => [] end) = Some ib /\ items = ia ++ ib).
    { destruct o as [x|].
      - apply obind_some in H. destruct H as (a & E1 & H). apply obind_some in H. destruct H as (b & E2 & H). injection H as <-. eauto.
      - exists items, []. rewrite app_nil_r. auto. }
    destruct LP as (ia & ib & Ea & Eb & ->).
    assert (CA := fun x => cells_in (view n c) (r, ps0) PIndex l 0 ia x Ea).
    assert (CB := fun x => cells_in (view n c) (r, ps0) PIndex _ 100 ib x Eb).
    assert (SUB : forall i j v its, (nth_error l j = Some v \/ o = Some v) -> view n c (below (r, ps0) (PIndex (i + j))) v = Some its ->
              cell_spec c r (ps0 ++ [PIndex (i + j)]) v its /\ ptr_spec c v its).
    { intros i j v its E Ei. rewrite below_pair in Ei. apply (IH c r _ v its); auto.
      destruct E as [E| ->]; eauto. cbn [depth list_max fold_right] in D. lia. }
    assert (EXA : forall j v, nth_error l j = Some v -> exists its, view n c (below (r, ps0) (PIndex (0 + j))) v = Some its).
    { intros j v E. apply (proj1 (cells_none (view n c) (r, ps0) PIndex l 0) (ex_intro _ _ Ea) j v E). }
    assert (EXB : forall x, o = Some x -> exists its, view n c (below (r, ps0) (PIndex (100 + 0))) x = Some its).
    { intros x ->. apply (proj1 (cells_none (view n c) (r, ps0) PIndex [x] 100) (ex_intro _ _ Eb) 0 x). auto. }
    assert (OB : forall j v, nth_error (match o with Some x => [x] | None => [] end) j = Some v -> j = 0 /\ o = Some v).
    { intros j v E. destruct o as [x|]; destruct j as [|[|j]]; cbn in E; try discriminate. injection E as ->. auto. }
    split.
    + intros cl u. rewrite in_app_iff, CA, CB. split.
      * intros [(j & v & E & [X|(its & Ei & Hi)])|(j & v & E & [X|(its & Ei & Hi)])].
        -- injection X as -> ->. exists (PIndex j), []. split; auto. eapply In_array; eauto. constructor.
        -- destruct (SUB 0 j _ _ (or_introl E) Ei) as [S1 _]. apply S1 in Hi. destruct Hi as (p & ps & -> & I).
           exists (PIndex j), (p :: ps). split; [rewrite <- app_assoc; auto|]. eapply In_array; eauto.
        -- apply OB in E. destruct E as [-> ->]. injection X as -> ->. exists (PIndex 100), []. split; auto. apply In_last. constructor.
        -- apply OB in E. destruct E as [-> ->]. destruct (SUB 100 0 _ _ (or_intror eq_refl) Ei) as [S1 _]. apply S1 in Hi.
           destruct Hi as (p & ps & -> & I). exists (PIndex 100), (p :: ps). split; [rewrite <- app_assoc; auto|]. apply In_last. auto.
      * intros (p & ps & -> & I). inversion I as [| |? ? j v ? ? E I'|? x ? ? I'| |]; subst.
        -- left. exists j, v. split; auto. destruct ps as [|p' ps].
           ++ left. inversion I'; subst. auto.
           ++ right. destruct (EXA j v E) as (its & Ei). exists its. split; auto.
              apply (proj1 (SUB 0 j _ _ (or_introl E) Ei)). exists p', ps. split; auto. cbn [plus]. rewrite <- app_assoc. auto.
        -- right. exists 0, x. split; auto. destruct ps as [|p' ps].
           ++ left. inversion I'; subst. auto.
           ++ right. destruct (EXB x eq_refl) as (its & Ei). exists its. split; auto.
              apply (proj1 (SUB 100 0 _ _ (or_intror eq_refl) Ei)). exists p', ps. split; auto. rewrite <- app_assoc. auto.
    + intros d rg. rewrite in_app_iff, CA, CB. split.
      * intros [(j & v & E & [X|(its & Ei & Hi)])|(j & v & E & [X|(its & Ei & Hi)])]; try discriminate.
        -- destruct (SUB 0 j _ _ (or_introl E) Ei) as [_ S2]. apply S2 in Hi. destruct Hi as (ps & w & r' & parts & I & Sh & ->).
           exists (PIndex j :: ps), w, r', parts. split; auto. eapply In_array; eauto.
        -- apply OB in E. destruct E as [-> ->]. destruct (SUB 100 0 _ _ (or_intror eq_refl) Ei) as [_ S2]. apply S2 in Hi.
           destruct Hi as (ps & w & r' & parts & I & Sh & ->). exists (PIndex 100 :: ps), w, r', parts. split; auto. apply In_last. auto.
      * intros (ps & w & r' & parts & I & Sh & Q). inversion I as [| |? ? j v ? ? E I'|? x ? ? I'| |]; subst.
        -- exfalso. eapply no_shown_array; eauto.
        -- left. exists j, v. split; auto. right. destruct (EXA j v E) as (its & Ei). exists its. split; auto.
           apply (proj2 (SUB 0 j _ _ (or_introl E) Ei)). eauto 8.
        -- right. exists 0, x. split; auto. right. destruct (EXB x eq_refl) as (its & Ei). exists its. split; auto.
           apply (proj2 (SUB 100 0 _ _ (or_intror eq_refl) Ei)). eauto 8.
  - (* struct *)
    destruct (adt_shows c name fs kind) as [[w|]|] eqn:E; try discriminate; apply adt_shows_spec in E.
    + assert (Du := depth_drawn _ _ _ _ _ E). destruct (IH c r ps0 w items ltac:(lia) H) as [S1 S2]. split.
      * intros cl u. rewrite (S1 cl u). split; intros (p & ps & -> & I); exists p, ps; split; auto.
        -- eapply In_as; eauto.
        -- inversion I as [| | | |? ? ? i key v ? ? DA En I'|? ? ? w' ? ? ? DA I']; subst; pose proof (DrawnAs_det _ _ _ _ _ _ E DA) as X; [discriminate|].
           injection X as ->. auto.
      * intros d rg. rewrite (S2 d rg). split.
        -- intros (ps & x & r' & parts & I & Sh & Q). destruct ps as [|p ps].
           ++ inversion I; subst. exists [], (VAdt name fs kind), r', parts. split; [constructor|]. split; auto. econstructor; eauto.
           ++ exists (p :: ps), x, r', parts. split; auto. eapply In_as; eauto.
        -- intros (ps & x & r' & parts & I & Sh & Q). destruct ps as [|p ps].
           ++ inversion I; subst. inversion Sh as [|? ? ? w' ? ? DA Sh']; subst. pose proof (DrawnAs_det _ _ _ _ _ _ E DA) as X. injection X as ->.
              exists [], w', r', parts. split; [constructor|auto].
           ++ inversion I as [| | | |? ? ? i key v ? ? DA En I'|? ? ? w' ? ? ? DA I']; subst; pose proof (DrawnAs_det _ _ _ _ _ _ E DA) as X; [discriminate|].
              injection X as ->. eauto 8.
    + assert (C := fun x => cells_in (view n c) (r, ps0) PField _ 0 items x H).
      assert (SUB : forall j v its, nth_error (map snd fs) j = Some v -> view n c (below (r, ps0) (PField (0 + j))) v = Some its ->
                cell_spec c r (ps0 ++ [PField j]) v its /\ ptr_spec c v its).
      { intros j v its Ej Ei. rewrite below_pair in Ei. cbn [plus] in Ei. apply (IH c r _ v its); auto.
        pose proof (snd_nth_depth _ _ _ name kind Ej). lia. }
      assert (EX : forall j v, nth_error (map snd fs) j = Some v -> exists its, view n c (below (r, ps0) (PField (0 + j))) v = Some its).
      { intros j v Ej. apply (proj1 (cells_none (view n c) (r, ps0) PField _ 0) (ex_intro _ _ H) j v Ej). }
      split.
      * intros cl u. rewrite C. split.
        -- intros (j & v & Ej & [X|(its & Ei & Hi)]); assert (Ek := Ej); apply snd_nth in Ek; destruct Ek as (k & Ek).
           ++ injection X as -> ->. exists (PField j), []. split; auto. eapply In_field; eauto. constructor.
           ++ destruct (SUB _ _ _ Ej Ei) as [S1 _]. apply S1 in Hi. destruct Hi as (p & ps & -> & I).
              exists (PField j), (p :: ps). split; [rewrite <- app_assoc; auto|]. eapply In_field; eauto.
        -- intros (p & ps & -> & I). inversion I as [| | | |? ? ? j key v ? ? DA En I'|? ? ? w' ? ? ? DA I']; subst; pose proof (DrawnAs_det _ _ _ _ _ _ E DA) as X; [|discriminate].
           assert (Ej : nth_error (map snd fs) j = Some v) by (apply snd_nth; eauto). exists j, v. split; auto.
           destruct ps as [|p' ps].
           ++ left. inversion I'; subst. auto.
           ++ right. destruct (EX j v Ej) as (its & Ei). exists its. split; auto.
              apply (proj1 (SUB _ _ _ Ej Ei)). exists p', ps. split; auto. rewrite <- app_assoc. auto.
      * intros d rg. rewrite C. split.
        -- intros (j & v & Ej & [X|(its & Ei & Hi)]); [discriminate|]. assert (Ek := Ej); apply snd_nth in Ek; destruct Ek as (k & Ek).
           destruct (SUB _ _ _ Ej Ei) as [_ S2]. apply S2 in Hi. destruct Hi as (ps & w & r' & parts & I & Sh & ->).
           exists (PField j :: ps), w, r', parts. split; auto. eapply In_field; eauto.
        -- intros (ps & x & r' & parts & I & Sh & Q). inversion I as [| | | |? ? ? j key v ? ? DA En I'|? ? ? w' ? ? ? DA I']; subst.
           ++ inversion Sh as [|? ? ? w' ? ? DA Sh']; subst. pose proof (DrawnAs_det _ _ _ _ _ _ E DA) as X. discriminate.
           ++ assert (Ej : nth_error (map snd fs) j = Some v) by (apply snd_nth; eauto). exists j, v. split; auto. right.
              destruct (EX j v Ej) as (its & Ei). exists its. split; auto. apply (proj2 (SUB _ _ _ Ej Ei)). eauto 8.
           ++ pose proof (DrawnAs_det _ _ _ _ _ _ E DA) as X. discriminate.
  - injection H as <-. split.
    + intros cl u. split; [|intros (p & ps & _ & I); inversion I]. intros [X|[]]. unfold pointer_item in X. discriminate.
    + intros d rg. split.
      * intros [X|[]]. exists [], (VPtr r1 parts), r1, parts. split; [constructor|]. split; [constructor|auto].
      * intros (ps & w & r' & q & I & Sh & Q). inversion I; subst. inversion Sh; subst. left. auto.
  - injection H as <-. apply LEAF; [intros p ps u X; inversion X|intros r' q X; inversion X].
Qed.

(** ** A state *)

Lemma step_items_some c s : (exists items, step_items c s = Some items) <-> forall r v, In (r, v) (roots s) -> Drawable c v.
Proof.
  unfold step_items. destruct (all_some _) as [ls|] eqn:E; cbn [option_map].
  - split; [|eauto]. intros _ r v H. apply all_some_spec in E.
    assert (X : exists its, view_root c r v = Some its).
    { clear - E H. induction E as [|[r0 v0] it l ls E0 _ IH]; [destruct H|]. destruct H as [H|H]; [injection H as -> ->; eauto|auto]. }
    destruct X as (its & X). unfold view_root in X. apply option_map_some in X. destruct X as (a & X & _).
    eapply (view_drawable (depth v)); eauto.
  - split; [intros (i & H); discriminate|]. intros H. apply all_some_none in E. destruct E as ([r v] & Hin & E).
    unfold view_root, view_value in E. destruct (view (depth v) c (r, []) v) eqn:V; [discriminate|].
    assert (X : exists items, view (depth v) c (r, []) v = Some items) by (apply view_drawable; eauto).
    destruct X as (it & X). congruence.
Qed.

Lemma step_items_in c s items x : step_items c s = Some items ->
  (In x items <-> exists r v its, In (r, v) (roots s) /\ view_root c r v = Some its /\ In x its).
Proof.
  unfold step_items. intros H. apply option_map_some in H. destruct H as (ls & E & <-). apply all_some_spec in E.
  rewrite in_concat. split.
  - intros (its & Hi & Hx). induction E as [|[r v] it l ls E0 _ IH]; [destruct Hi|]. destruct Hi as [->|Hi].
    + exists r, v, its. cbn. auto.
    + destruct (IH Hi) as (r' & v' & i' & A & B & C). exists r', v', i'. cbn. auto.
  - intros (r & v & its & Hin & Ev & Hx). exists its. split; auto.
    induction E as [|[r0 v0] it l ls E0 _ IH]; [destruct Hin|]. destruct Hin as [Hin|Hin].
    + injection Hin as -> ->. left. congruence.
    + right. auto.
Qed.

Lemma root_content c r v its : view_root c r v = Some its ->
  (forall cl u, In (Cell cl u) its <-> exists ps, cl = (r, ps) /\ Inside c v ps u) /\ ptr_spec c v its.
Proof.
  unfold view_root. intros H. apply option_map_some in H. destruct H as (a & H & <-).
  destruct (view_content (depth v) c r [] v a (le_n _) H) as [A B]. split.
  - intros cl u. cbn. rewrite (A cl u). split.
    + intros [X|(p & ps & -> & I)].
      * injection X as <- <-. exists []. split; auto. constructor.
      * exists (p :: ps). auto.
    + intros ([|p ps] & -> & I).
      * left. inversion I; subst. auto.
      * right. exists p, ps. auto.
  - intros d rg. cbn. rewrite <- (B d rg). split; [intros [X|X]; [discriminate|auto]|auto].
Qed.

Lemma step_cells c s items r ps u : step_items c s = Some items -> (In (Cell (r, ps) u) items <-> Place c s r ps u).
Proof.
  intros H. rewrite (step_items_in c s items _ H). split.
  - intros (r0 & v & its & Hin & Ev & Hx). apply (proj1 (root_content _ _ _ _ Ev)) in Hx.
    destruct Hx as (ps' & E & I). injection E as <- <-. exists v. auto.
  - intros (w & Hin & I). assert (X : exists its, view_root c r w = Some its).
    { assert (Dw : Drawable c w) by (eapply (proj1 (step_items_some c s)); eauto).
      apply (view_drawable (depth w) c (r, [])) in Dw; auto. destruct Dw as (it & Dw). unfold view_root, view_value. rewrite Dw. cbn. eauto. }
    destruct X as (its & X). exists r, w, its. split; auto. split; auto. apply (proj1 (root_content _ _ _ _ X)). eauto.
Qed.

Lemma step_pointers c s items d rg : step_items c s = Some items ->
  (In (Pointer d rg) items <-> exists r parts, HasPtr c s r parts /\ Pointer d rg = pointer_item r parts).
Proof.
  intros H. rewrite (step_items_in c s items _ H). split.
  - intros (r0 & v & its & Hin & Ev & Hx). apply (proj2 (root_content _ _ _ _ Ev)) in Hx.
    destruct Hx as (ps & w & r & parts & I & Sh & E). exists r, parts. split; auto. exists r0, ps, w. split; auto. exists v. auto.
  - intros (r & parts & (r0 & ps & v & (w & Hin & I) & Sh) & E). assert (X : exists its, view_root c r0 w = Some its).
    { assert (Dw : Drawable c w) by (eapply (proj1 (step_items_some c s)); eauto).
      apply (view_drawable (depth w) c (r0, [])) in Dw; auto. destruct Dw as (it & Dw). unfold view_root, view_value. rewrite Dw. cbn. eauto. }
    destruct X as (its & X). exists r0, w, its. split; auto. split; auto. apply (proj2 (root_content _ _ _ _ X)). eauto 8.
Qed.

(** *** Arrows *)

Lemma query_spec items c : forall i j, query items c i = Some j <->
  exists k u, j = i + k /\ nth_error items k = Some (Cell c u) /\ forall k' u', k' < k -> nth_error items k' <> Some (Cell c u').
Proof.
  induction items as [|x l IH]; intros i j; cbn [query].
  - split; [discriminate|]. intros ([|k] & u & _ & H & _); discriminate.
  - assert (SH : (query l c (S i) = Some j <->
        exists k u, j = i + S k /\ nth_error (x :: l) (S k) = Some (Cell c u) /\ forall k' u', k' < k -> nth_error l k' <> Some (Cell c u'))).
    { rewrite IH. split; intros (k & u & -> & A & B); exists k, u; repeat split; auto; lia. }
    destruct x as [c' v|d rg].
    + destruct (class_eqd c c') as [<-|N].
      * split.
        -- intros H. injection H as <-. exists 0, v. repeat split; auto; lia.
        -- intros ([|k] & u & -> & A & B); [f_equal; lia|]. exfalso. apply (B 0 v); [lia|auto].
      * rewrite SH. split.
        -- intros (k & u & -> & A & B). exists (S k), u. repeat split; auto. intros [|k'] u' L; cbn; [congruence|]. apply B. lia.
        -- intros ([|k] & u & -> & A & B); cbn in A; [congruence|]. exists k, u. repeat split; auto. intros k' u' L.
           apply (B (S k')). lia.
    + rewrite SH. split.
      * intros (k & u & -> & A & B). exists (S k), u. repeat split; auto. intros [|k'] u' L; cbn; [congruence|]. apply B. lia.
      * intros ([|k] & u & -> & A & B); cbn in A; [congruence|]. exists k, u. repeat split; auto. intros k' u' L.
        apply (B (S k')). lia.
Qed.

Lemma query_exists items c i : (exists j, query items c i = Some j) <-> exists u, In (Cell c u) items.
Proof.
  revert i. induction items as [|x l IH]; intros i; cbn [query].
  - split; [intros (j & H); discriminate|intros (u & [])].
  - destruct x as [c' v|d rg].
    + destruct (class_eqd c c') as [<-|N].
      * split; [intros _; exists v; cbn; auto|eauto].
      * rewrite IH. split; intros (u & H); exists u; cbn; auto. destruct H as [H|H]; [congruence|auto].
    + rewrite IH. split; intros (u & H); exists u; cbn; auto. destruct H as [H|H]; [congruence|auto].
Qed.

Lemma arrows_from_some all rest : forall i,
  (exists a, arrows_from all rest i = Some a) <->
  forall d rg, In (Pointer d rg) rest -> (exists u, In (Cell d u) all) /\ forall cl, rg = Some cl -> exists u, In (Cell cl u) all.
Proof.
  induction rest as [|x l IH]; intros i; cbn [arrows_from].
  - split; eauto. intros _ d rg [].
  - destruct x as [c v|d rg].
    + rewrite IH. split; intros H d rg Hin; apply H; cbn; auto. destruct Hin as [Hin|Hin]; [discriminate|auto].
    + split.
      * intros (a & H). apply obind_some in H. destruct H as (q & E1 & H). apply obind_some in H. destruct H as (q2 & E2 & H).
        apply option_map_some in H. destruct H as (a' & E3 & _).
        intros d' rg' [Hin|Hin].
        -- injection Hin as <- <-. split; [apply (query_exists all d 0); eauto|]. intros cl ->. apply option_map_some in E2.
           destruct E2 as (z & E2 & _). apply (query_exists all cl 0). eauto.
        -- apply (proj1 (IH (S i)) (ex_intro _ _ E3)). auto.
      * intros H. destruct (H d rg (or_introl eq_refl)) as [A B]. apply (query_exists all d 0) in A. destruct A as (q & ->). cbn [obind].
        assert (X : exists z, (match rg with None => Some None | Some c => option_map Some (query all c 0) end) = Some z).
        { destruct rg as [cl|]; eauto. destruct (proj2 (query_exists all cl 0) (B cl eq_refl)) as (z & ->). cbn. eauto. }
        destruct X as (z & ->). cbn [obind]. destruct (proj2 (IH (S i))) as (a & ->); [intros d' rg' Hin; apply H; cbn; auto|]. cbn. eauto.
Qed.

(** Each pointer has its arrow, in order; it ends at the first cell with the class. *)
Definition arrow_ok (items : list item) (a : arrow) : Prop :=
  exists d rg u, nth_error items (a_src a) = Some (Pointer d rg) /\
    nth_error items (a_dst a) = Some (Cell d u) /\ (forall k u', k < a_dst a -> nth_error items k <> Some (Cell d u')) /\
    match rg, a_range a with
    | None, None => True
    | Some cl, Some j => exists u', nth_error items j = Some (Cell cl u')
    | _, _ => False
    end.

Fixpoint pointer_numbers (items : list item) (i : nat) : list nat :=
  match items with
  | [] => []
  | Cell _ _ :: r => pointer_numbers r (S i)
  | Pointer _ _ :: r => i :: pointer_numbers r (S i)
  end.

Lemma arrows_from_ok all rest : forall i a, (forall k, nth_error rest k = nth_error all (i + k)) ->
  arrows_from all rest i = Some a -> map a_src a = pointer_numbers rest i /\ Forall (arrow_ok all) a.
Proof.
  induction rest as [|x l IH]; intros i a N H; cbn [arrows_from] in H.
  - injection H as <-. cbn. auto.
  - assert (N' : forall k, nth_error l k = nth_error all (S i + k)).
    { intros k. specialize (N (S k)). cbn in N. rewrite N. f_equal. lia. }
    destruct x as [c v|d rg]; cbn [pointer_numbers].
    + eauto.
    + apply obind_some in H. destruct H as (q & E1 & H). apply obind_some in H. destruct H as (q2 & E2 & H).
      apply option_map_some in H. destruct H as (a' & E3 & <-). destruct (IH _ _ N' E3) as [A B]. cbn. split; [f_equal; auto|].
      constructor; auto. apply query_spec in E1. destruct E1 as (k & u & -> & Q1 & Q2). exists d, rg, u. cbn [a_src a_dst a_range plus].
      split; [specialize (N 0); cbn in N; rewrite Nat.add_0_r in N; auto|]. split; auto. split; auto.
      destruct rg as [cl|].
      * apply option_map_some in E2. destruct E2 as (j & E2 & <-). apply query_spec in E2. destruct E2 as (k2 & u2 & -> & Q3 & _). eauto.
      * injection E2 as <-. auto.
Qed.

Lemma arrows_ok items a : arrows items = Some a -> map a_src a = pointer_numbers items 0 /\ Forall (arrow_ok items) a.
Proof. intros H. apply (arrows_from_ok items items 0 a); auto. Qed.

Lemma pointer_numbers_spec items : forall i n, In n (pointer_numbers items i) <-> exists k d rg, n = i + k /\ nth_error items k = Some (Pointer d rg).
Proof.
  induction items as [|x l IH]; intros i n; cbn [pointer_numbers].
  - split; [intros []|]. intros ([|k] & d & rg & _ & H); discriminate.
  - destruct x as [c v|d rg].
    + rewrite IH. split.
      * intros (k & d & rg & -> & H). exists (S k), d, rg. split; [lia|auto].
      * intros ([|k] & d & rg & -> & H); [discriminate|]. exists k, d, rg. split; [lia|auto].
    + cbn. rewrite IH. split.
      * intros [<-|(k & d' & rg' & -> & H)]; [exists 0, d, rg; split; [lia|auto]|]. exists (S k), d', rg'. split; [lia|auto].
      * intros ([|k] & d' & rg' & -> & H); [left; lia|]. right. exists k, d', rg'. split; [lia|auto].
Qed.

(** *** Targets *)

Lemma pointer_item_spec r parts d rg :
  Pointer d rg = pointer_item r parts <->
  exists ps orng, Target parts ps orng /\ d = (r, ps) /\ rg = option_map (pair r) orng.
Proof.
  assert (T : exists ps orng, Target parts ps orng /\ pointer_item r parts = Pointer (r, ps) (option_map (pair r) orng)).
  { unfold pointer_item, drop_index0. destruct parts as [|x qs _] using rev_ind.
    - exists [], None. split; auto. apply T_other; intros [|]; discriminate.
    - rewrite rev_app_distr. cbn [rev app]. destruct x as [i|[|i]|lo hi].
      + exists (map part_of (qs ++ [Field i])), None. split; [|reflexivity].
        apply T_other; intros ps; [|intros lo hi]; intros E; apply app_inj_tail in E; destruct E; discriminate.
      + exists (map part_of qs), None. rewrite rev_involutive. split; [constructor|reflexivity].
      + exists (map part_of (qs ++ [Index (S i)])), None. split; [|reflexivity].
        apply T_other; intros ps; [|intros lo hi]; intros E; apply app_inj_tail in E; destruct E; discriminate.
      + exists (map part_of qs ++ [PIndex lo]), (Some (map part_of qs ++ [PIndex hi])). split; [constructor|].
        rewrite map_app. cbn [map seg_part]. rewrite removelast_last. reflexivity. }
  assert (DET : forall p1 o1 p2 o2, Target parts p1 o1 -> Target parts p2 o2 -> p1 = p2 /\ o1 = o2).
  { clear. intros p1 o1 p2 o2 A B. inversion A; inversion B; subst;
      try match goal with E : _ ++ [_] = _ ++ [_] |- _ => apply app_inj_tail in E; destruct E as [E1 E2]; try discriminate E2; try (injection E2 as -> ->); subst; auto end;
      try (exfalso; match goal with H : forall ps, _ <> ps ++ [Index 0] |- _ => eapply H; eauto; fail end);
      try (exfalso; match goal with H : forall ps lo hi, _ <> ps ++ [Subslice lo hi] |- _ => eapply H; eauto; fail end); auto. }
  destruct T as (ps & o & HT & ->). split.
  - intros E. injection E as -> ->. eauto.
  - intros (ps' & o' & HT' & -> & ->). destruct (DET _ _ _ _ HT HT') as [-> ->]. auto.
Qed.

Lemma Target_exists parts : exists ps o, Target parts ps o.
Proof.
  destruct (pointer_item (RHeap 0) parts) as [|d rg] eqn:E; [unfold pointer_item in E; discriminate|].
  symmetry in E. apply pointer_item_spec in E. destruct E as (ps & o & H & _). eauto.
Qed.

Lemma step_view_iff c s :
  (exists d, step_view c s = Some d) <->
  (forall r v, In (r, v) (roots s) -> Drawable c v) /\
  (forall r parts ps o, HasPtr c s r parts -> Target parts ps o ->
     (exists u, Place c s r ps u) /\ forall ps', o = Some ps' -> exists u, Place c s r ps' u).
Proof.
  unfold step_view. split.
  - intros (d & H). apply obind_some in H. destruct H as (items & E & H). apply option_map_some in H. destruct H as (a & A & _).
    split; [apply step_items_some; eauto|]. intros r parts ps o HP HT.
    destruct (proj1 (arrows_from_some items items 0) (ex_intro _ _ A) (r, ps) (option_map (pair r) o)) as [X Y].
    + apply (step_pointers c s items _ _ E). exists r, parts. split; auto. apply pointer_item_spec. eauto 6.
    + split.
      * destruct X as (u & X). exists u. apply (step_cells c s items r ps u E). auto.
      * intros ps' ->. destruct (Y (r, ps') eq_refl) as (u & Z). exists u. apply (step_cells c s items r ps' u E). auto.
  - intros [D P]. apply step_items_some in D. destruct D as (items & E). rewrite E. cbn [obind].
    destruct (proj2 (arrows_from_some items items 0)) as (a & A).
    + intros d rg Hin. apply (step_pointers c s items _ _ E) in Hin. destruct Hin as (r & parts & HP & Q).
      apply pointer_item_spec in Q. destruct Q as (ps & o & HT & -> & ->). destruct (P _ _ _ _ HP HT) as [X Y]. split.
      * destruct X as (u & X). exists u. apply (step_cells c s items r ps u E). auto.
      * intros cl Ecl. destruct o as [ps'|]; [|discriminate]. injection Ecl as <-. destruct (Y ps' eq_refl) as (u & Z).
        exists u. apply (step_cells c s items r ps' u E). auto.
    + unfold arrows. rewrite A. cbn. eauto.
Qed.

(** *** Paths that lead somewhere *)

Lemma Leads_app c v qs x : Leads c v (qs ++ [x]) -> Leads c v qs.
Proof.
  revert v. induction qs as [|q qs IH]; intros v H; [constructor|]. cbn in H.
  inversion H as [|l i w ps E L|name fs k i key w ps DA E L|l o i w ps E L|l o lo hi A B]; subst.
  - econstructor; eauto.
  - eapply L_field; eauto.
  - eapply L_index; eauto.
  - destruct qs; discriminate.
Qed.

Lemma Leads_Inside c v qs : Leads c v qs -> exists u, Inside c v (map part_of qs) u.
Proof.
  induction 1 as [v|l i v ps E _ (u & IH)|name fs k i key v ps DA E _ (u & IH)|l o i v ps E _ (u & IH)|l o lo hi A B].
  - exists v. constructor.
  - exists u. cbn. econstructor; eauto.
  - exists u. cbn. eapply In_field; eauto.
  - exists u. cbn. eapply In_array; eauto.
  - destruct (nth_error l lo) as [w|] eqn:E; [|apply nth_error_None in E; lia]. exists w. cbn. eapply In_array; eauto. constructor.
Qed.

Lemma Leads_slice c v qs lo hi : Leads c v (qs ++ [Subslice lo hi]) -> exists u, Inside c v (map part_of qs ++ [PIndex hi]) u.
Proof.
  revert v. induction qs as [|q qs IH]; intros v H; cbn in H.
  - inversion H; subst. destruct (nth_error l hi) as [w|] eqn:E; [|apply nth_error_None in E; lia]. exists w. eapply In_array; eauto. constructor.
  - inversion H as [|l i w ps E L|name fs k i key w ps DA E L|l o i w ps E L|l o lo' hi' A B]; subst.
    + destruct (IH _ L) as (u & I). exists u. cbn. econstructor; eauto.
    + destruct (IH _ L) as (u & I). exists u. cbn. eapply In_field; eauto.
    + destruct (IH _ L) as (u & I). exists u. cbn. eapply In_array; eauto.
    + destruct qs; discriminate.
Qed.

Lemma Leads_target c v parts ps o : Leads c v parts -> Target parts ps o ->
  (exists u, Inside c v ps u) /\ forall ps', o = Some ps' -> exists u, Inside c v ps' u.
Proof.
  intros L T. inversion T; subst.
  - split; [|discriminate]. apply Leads_Inside. eapply Leads_app; eauto.
  - split.
    + apply Leads_Inside in L. rewrite map_app in L. auto.
    + intros ps' E. injection E as <-. eapply Leads_slice; eauto.
  - split; [|discriminate]. apply Leads_Inside. auto.
Qed.

(** The place of a path is unique, unless an abbreviated array shows a hundred
    elements. *)
Lemma interpreter_view_none c steps s : In s steps -> step_view c s = None -> interpreter_view c steps = None.
Proof. intros H E. apply all_some_none. eauto. Qed.

(** ** Numbers of the arrows *)

Lemma group_by_one {T} (key : T -> str) k (K : forall x, key x = k) l : forall done,
  group_by key l [(k, done)] = [(k, done ++ l)].
Proof.
  induction l as [|x l IH]; intros done; cbn [group_by].
  - rewrite app_nil_r. auto.
  - cbn [aset aget]. rewrite K. destruct (str_eqd k k); [|congruence]. rewrite IH, <- app_assoc. auto.
Qed.

Lemma numbered_all {T} (grp : T -> group) l : numbered grp l = combine (seq 0 (length l)) l.
Proof.
  unfold numbered. destruct l as [|x l]; auto. cbn [group_by aget aset].
  rewrite (group_by_one _ (lit "[object Object]")) by reflexivity. cbn [flat_map app]. rewrite app_nil_r. auto.
Qed.

(** ** Characters *)

Lemma char_text_bmp c : c < 256 * 256 -> c <> 32 -> char_text c = [c].
Proof.
  intros L N. unfold char_text. rewrite Nat.mod_small by exact L.
  destruct (c =? 32) eqn:E; auto. apply Nat.eqb_eq in E. congruence.
Qed.
