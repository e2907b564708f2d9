(** * Proofs about the builder of MIR segments: structure, chaining, soundness *)
From Coq Require Import List Arith Bool Lia Permutation.
From Verif Require Import Base FactsModel FactsProofs FlowModel CfgModel CfgSpec CfgProofs
  SegMirModel SegMirSpec.
Import ListNotations.

(** ** Lists *)

Lemma nth_error_combine_seq {A} (l : list A) : forall k i,
  nth_error (combine (seq k (length l)) l) i = option_map (pair (k + i)) (nth_error l i).
Proof.
  induction l as [|x r IH]; intros k i; cbn [length seq combine]; [destruct i; auto|].
  destruct i as [|i]; cbn [nth_error option_map]; [rewrite Nat.add_0_r; auto|].
  rewrite IH. replace (S k + i) with (k + S i) by lia. auto.
Qed.

Lemma nth_error_enumerate {A} (l : list A) i :
  nth_error (enumerate l) i = option_map (pair i) (nth_error l i).
Proof. unfold enumerate. rewrite nth_error_combine_seq. auto. Qed.

Lemma enumerate_length {A} (l : list A) : length (enumerate l) = length l.
Proof. unfold enumerate. rewrite combine_length, seq_length. apply Nat.min_id. Qed.

Lemma upd_nth {A} (l : list A) i f j :
  nth_error (upd l i f) j = option_map (fun x => if j =? i then f x else x) (nth_error l j).
Proof.
  unfold upd. rewrite nth_error_map, nth_error_enumerate.
  destruct (nth_error l j); auto.
Qed.

Lemma upd_length {A} (l : list A) i f : length (upd l i f) = length l.
Proof. unfold upd. rewrite map_length. apply enumerate_length. Qed.

Lemma nth_error_ext {A} (l l' : list A) :
  (forall i, nth_error l i = nth_error l' i) -> l = l'.
Proof.
  revert l'. induction l as [|x r IH]; intros [|y r'] H; auto.
  - specialize (H 0). discriminate.
  - specialize (H 0). discriminate.
  - pose proof (H 0) as H0. cbn in H0. injection H0 as ->. f_equal. apply IH.
    intros i. exact (H (S i)).
Qed.

Lemma upd_split {A} (l : list A) i f x :
  nth_error l i = Some x ->
  exists l1 l2, l = l1 ++ x :: l2 /\ length l1 = i /\ upd l i f = l1 ++ f x :: l2.
Proof.
  intros H. destruct (nth_error_split l i H) as (l1 & l2 & -> & L).
  exists l1, l2. split; auto. split; auto.
  apply nth_error_ext. intros j. rewrite upd_nth.
  destruct (Nat.lt_trichotomy j i) as [Lt|[->|Gt]].
  - rewrite !nth_error_app1 by lia. replace (j =? i) with false by (symmetry; apply Nat.eqb_neq; lia).
    destruct (nth_error l1 j); auto.
  - rewrite !nth_error_app2 by lia. rewrite L, Nat.sub_diag. cbn. rewrite Nat.eqb_refl. auto.
  - rewrite !nth_error_app2 by lia.
    replace (j =? i) with false by (symmetry; apply Nat.eqb_neq; lia).
    destruct (j - length l1) as [|k] eqn:E; [lia|]. cbn. destruct (nth_error l2 k); auto.
Qed.

Lemma find_rev_last {A} (f : A -> bool) l x :
  find f (rev l) = Some x ->
  exists l1 l2, l = l1 ++ x :: l2 /\ f x = true /\ forall y, In y l2 -> f y = false.
Proof.
  induction l as [|a r IH] using rev_ind; cbn; [discriminate|].
  rewrite rev_app_distr. cbn. destruct (f a) eqn:F.
  - intros [= <-]. exists r, []. split; auto. split; auto. intros y [].
  - intros H. destruct (IH H) as (l1 & l2 & -> & Fx & N). exists l1, (l2 ++ [a]).
    rewrite <- app_assoc. cbn. split; auto. split; auto.
    intros y I. apply in_app_iff in I as [I|[<-|[]]]; auto.
Qed.

Lemma find_builder_Some bd s l i b :
  find_builder bd s l = Some (i, b) ->
  nth_error (processing s) i = Some b /\ ldominates bd (bl_cur b) l = true /\
  forall j b', i < j -> nth_error (processing s) j = Some b' -> ldominates bd (bl_cur b') l = false.
Proof.
  unfold find_builder, newest_first. intros H.
  destruct (find_rev_last _ _ _ H) as (l1 & l2 & E & F & N). cbn in F.
  assert (Hi : nth_error (enumerate (processing s)) (length l1) = Some (i, b)).
  { rewrite E, nth_error_app2, Nat.sub_diag by lia. auto. }
  rewrite nth_error_enumerate in Hi.
  destruct (nth_error (processing s) (length l1)) as [b0|] eqn:E0; [|discriminate].
  cbn in Hi. injection Hi as Ei ->. subst i. split; auto. split; auto.
  intros j b' L Ej.
  assert (Hj : nth_error (enumerate (processing s)) j = Some (j, b')).
  { rewrite nth_error_enumerate, Ej. auto. }
  rewrite E, nth_error_app2 in Hj by lia.
  destruct (j - length l1) as [|k] eqn:Ek; [lia|]. cbn in Hj.
  apply nth_error_In in Hj. exact (N _ Hj).
Qed.

Lemma find_builder_None bd s l :
  find_builder bd s l = None ->
  forall j b, nth_error (processing s) j = Some b -> ldominates bd (bl_cur b) l = false.
Proof.
  unfold find_builder, newest_first. intros H j b E.
  apply (find_none _ _ H (j, b)). apply in_rev. rewrite rev_involutive.
  apply enumerate_In. auto.
Qed.

Lemma find_builder_exists bd s l j b :
  nth_error (processing s) j = Some b -> ldominates bd (bl_cur b) l = true ->
  exists i b', find_builder bd s l = Some (i, b').
Proof.
  intros E D. destruct (find_builder bd s l) as [[i b']|] eqn:F; eauto.
  pose proof (find_builder_None _ _ _ F _ _ E). congruence.
Qed.

(** ** Primitive transitions *)

Definition op_ok (P : loc -> Prop) (o : op) : Prop :=
  match o with
  | OpInsert l _ => P l
  | OpOpenBranch l sp => P l /\ forall e, In e (sp_entries sp) -> P (fst e)
  | _ => True
  end.

Lemma Steps_trans P fw bd ord a b c : Steps P fw bd ord a b -> Steps P fw bd ord b c -> Steps P fw bd ord a c.
Proof. intros H. induction 1 as [|s s' _ IH Hp]; auto. econstructor; eauto. Qed.

Lemma open_child_Val fw bd ord s parent l r :
  open_child_branch fw bd ord s parent l = Val r ->
  (exists s', mk_branch bd ord s l (GetFrom parent) = Val (s', None) /\ r = (s', false)) \/
  (exists s' child p c, mk_branch bd ord s l (GetFrom parent) = Val (s', Some child) /\
     nth_error (branches s') parent = Some p /\ nth_error (branches s') child = Some c /\
     r = (with_table s' (union fw (table s') (br_table p) (br_table c)), true)).
Proof.
  unfold open_child_branch.
  destruct (mk_branch bd ord s l (GetFrom parent)) as [[s' [child|]]| |]; cbn; try discriminate.
  - destruct (nth_error (branches s') parent) as [p|] eqn:Ep; [|discriminate].
    destruct (nth_error (branches s') child) as [c|] eqn:Ec; [|discriminate].
    intros [= <-]. right. exists s', child, p, c. auto.
  - intros [= <-]. left. eauto.
Qed.

Lemma mk_branch_None bd ord s l g s' : mk_branch bd ord s l g = Val (s', None) -> s' = s.
Proof.
  unfold mk_branch. destruct (switch_location bd l) as [sw|]; [|discriminate].
  destruct (find_builder bd s l) as [[i b]|]; [|intros [= <-]; auto].
  destruct (loc_eqd (bl_cur b) l); [|intros [= <-]; auto].
  destruct (lookup_spanner s g); discriminate.
Qed.

Lemma insert_Steps (P : loc -> Prop) fw bd ord l span : P l -> forall fuel s r,
  insert fw bd ord fuel s l span = Val r -> Steps P fw bd ord s (fst r).
Proof.
  intros Pl. induction fuel as [|f IH]; intros s r; cbn [insert]; [discriminate|].
  destruct (find_suitable_collection bd s l) as [|parent bl|i b] eqn:F.
  - intros [= <-]. constructor.
  - destruct (open_child_branch fw bd ord s parent bl) as [[s' [|]]| |] eqn:O; cbn; try discriminate.
    + intros H. eapply Steps_trans; [|eapply IH; exact H].
      econstructor; [constructor|]. eapply prim_child; eauto.
    + intros [= <-]. cbn. apply open_child_Val in O as [(s2 & M & [= <-])|(? & ? & ? & ? & _ & _ & _ & E)].
      * apply mk_branch_None in M. subst. constructor.
      * discriminate.
  - destruct (insert_linear bd s i b l span) as [s'| |] eqn:I; cbn; try discriminate.
    intros [= <-]. econstructor; [constructor|]. eapply prim_linear; eauto.
Qed.

Lemma step_Steps P fw bd ord fuel s o s' :
  op_ok P o -> step fw bd ord fuel s o = Val s' -> Steps P fw bd ord s s'.
Proof.
  intros Q. destruct o as [|idx|l sp|bid|l span]; cbn [step].
  - intros [= <-]. econstructor; [constructor|]. apply prim_open_scope.
  - intros [= <-]. destruct (close_scope s idx) as [s1|] eqn:E; [|constructor].
    econstructor; [constructor|]. eapply prim_close_scope; eauto.
  - destruct Q as [Q1 Q2]. unfold open_branch.
    destruct (mk_branch bd ord s l (InsertNew sp)) as [[s1 [b|]]| |] eqn:M; cbn; try discriminate.
    + intros [= <-]. econstructor; [constructor|]. eapply prim_open_branch; eauto.
    + intros [= <-]. apply mk_branch_None in M. subst. constructor.
  - intros H. econstructor; [constructor|]. eapply prim_close_branch; eauto.
  - destruct (insert fw bd ord fuel s l span) as [r| |] eqn:I; cbn; try discriminate.
    intros [= <-]. eapply insert_Steps; eauto.
Qed.

Lemma run_Steps P fw bd ord fuel os : forall s s',
  Forall (op_ok P) os -> run fw bd ord fuel s os = Val s' -> Steps P fw bd ord s s'.
Proof.
  induction os as [|o r IH]; intros s s' Q; cbn [run].
  - intros [= <-]. constructor.
  - inversion Q as [|? ? Qo Qr]; subst.
    destruct (step fw bd ord fuel s o) as [s1| |] eqn:E; cbn; try discriminate.
    intros H. eapply Steps_trans; [eapply step_Steps; eauto|]. eapply IH; eauto.
Qed.

(** ** The successful [mk_branch] *)

Definition branched (bd : body) (s : st) (location sw : loc) (phi : option loc) (i : nat)
    (b : builder) (sp : spanner) (sps : list (nat * spanner)) : st :=
  let arms := map (fun n => get_span bd sp (Loc n 0)) (successors bd (l_block sw)) in
  let bid := length (branches s) in
  let sids := seq (length (segs s)) (length arms) in
  let cids := seq (length (colls s)) (length arms) in
  St (upd (colls s) (bl_coll b) (fun c => Coll (c_data c ++ [Branching bid]) (c_kind c))
        ++ map (fun _ => Coll [] (nested_kind location phi)) arms)
     (branches s ++ [Branch (length (table s)) (reach_of sw phi) sids cids])
     (segs s ++ map (fun a => Seg location (fst a) (snd a) (current_scope s)) arms)
     (upd (processing s) i (fun b => Builder (bl_coll b)
                               (match phi with Some p => p | None => bl_cur b end))
        ++ map (fun ca => Builder (fst ca) (fst (snd ca))) (combine cids arms))
     (new_key (table s)) sps (scope_edges s) (open_scopes s) (next_scope s).

Definition join_of bd ord (sw : loc) : option loc :=
  option_map (fun b => Loc b 0) (least_post_dominator bd ord (l_block sw)).

Lemma mk_branch_Some bd ord s l g s' bid :
  mk_branch bd ord s l g = Val (s', Some bid) ->
  exists sw i b sp,
    switch_location bd l = Some sw /\ find_builder bd s l = Some (i, b) /\ bl_cur b = l /\
    lookup_spanner s g = Some sp /\ bid = length (branches s) /\
    s' = branched bd s l sw (join_of bd ord sw) i b sp
           (match g with InsertNew sp => aset Nat.eq_dec (spanners s) (length (branches s)) sp
                    | GetFrom _ => spanners s end).
Proof.
  unfold mk_branch. destruct (switch_location bd l) as [sw|]; [|discriminate].
  destruct (find_builder bd s l) as [[i b]|]; [|discriminate].
  destruct (loc_eqd (bl_cur b) l) as [E|E]; [|discriminate].
  destruct (lookup_spanner s g) as [sp|]; [|discriminate].
  intros [= <- <-]. exists sw, i, b, sp. repeat split; auto.
Qed.

Lemma join_of_neq bd ord sw p : join_of bd ord sw = Some p -> p <> sw.
Proof.
  unfold join_of, least_post_dominator. intros H E. subst p.
  destruct (find _ (ord (branch_region bd (l_block sw)))) as [most|]; [|discriminate].
  destruct (find _ (join_candidates _ _ _ _)) as [k|] eqn:F; [|discriminate].
  apply find_some in F as [F _]. unfold join_candidates in F. apply filter_In in F as [_ F].
  cbn in H. injection H as H. rewrite <- H in F. cbn in F. rewrite Nat.eqb_refl in F. discriminate.
Qed.

Lemma reach_of_HasJoin t sw phi sids cids :
  (forall p, phi = Some p -> p <> sw) ->
  (HasJoin (Branch t (reach_of sw phi) sids cids) <-> exists p, phi = Some p).
Proof.
  intros H. unfold HasJoin, reach_of. cbn. destruct phi as [p|]; split.
  - eauto.
  - intros _ E. apply (H p); auto.
  - intros X. congruence.
  - intros [p E]. discriminate.
Qed.

(** ** Shape *)

Record Shape (s : st) : Prop := mkShape {
  sh_table : length (table s) = length (branches s);
  sh_tid : forall i b, nth_error (branches s) i = Some b -> br_table b = i;
  sh_proc : exists cur rest, processing s = Builder 0 cur :: rest;
  sh_proc_nodup : NoDup (map bl_coll (processing s));
  sh_proc_lt : forall b, In b (processing s) -> bl_coll b < length (colls s);
  sh_branches : Permutation (flat_map branch_ids (colls s)) (seq 0 (length (branches s)));
  sh_segs : Permutation (flat_map linear_ids (colls s) ++ flat_map br_splits (branches s))
                        (seq 0 (length (segs s)));
  sh_nested : 0 :: flat_map br_nested (branches s) = seq 0 (length (colls s));
  sh_below : forall cid c bid b k, nth_error (colls s) cid = Some c -> In bid (branch_ids c) ->
    nth_error (branches s) bid = Some b -> In k (br_nested b) -> cid < k;
  sh_arms : forall b, In b (branches s) -> length (br_splits b) = length (br_nested b);
  sh_user : forall b, In b (map fst (spanners s)) -> b < length (branches s)
}.

Lemma branch_ids_snoc c k x :
  branch_ids (Coll (c_data c ++ [x]) k) =
  branch_ids c ++ match x with Linear _ => [] | Branching i => [i] end.
Proof. unfold branch_ids. cbn. rewrite flat_map_app. cbn. rewrite app_nil_r. auto. Qed.

Lemma linear_ids_snoc c k x :
  linear_ids (Coll (c_data c ++ [x]) k) =
  linear_ids c ++ match x with Linear i => [i] | Branching _ => [] end.
Proof. unfold linear_ids. cbn. rewrite flat_map_app. cbn. rewrite app_nil_r. auto. Qed.

Lemma flat_map_nil {A B} (f : A -> list B) l : (forall x, In x l -> f x = []) -> flat_map f l = [].
Proof.
  induction l as [|x r IH]; intros H; cbn; auto. rewrite H by (left; auto). cbn. apply IH.
  intros y I. apply H. right. auto.
Qed.

Lemma flat_map_upd_snoc {A} (f : coll -> list A) (g : coll -> coll) l i c x :
  nth_error l i = Some c -> f (g c) = f c ++ x ->
  Permutation (flat_map f (upd l i g)) (flat_map f l ++ x).
Proof.
  intros H E. destruct (upd_split l i g c H) as (l1 & l2 & -> & _ & ->).
  rewrite !flat_map_app. cbn. rewrite E, <- !app_assoc.
  apply Permutation_app_head. apply Permutation_app_head. apply Permutation_app_comm.
Qed.

Lemma map_const_flat_nil {A B} (f : coll -> list B) c (l : list A) :
  f c = [] -> flat_map f (map (fun _ => c) l) = [].
Proof.
  intros E. apply flat_map_nil. intros x I. apply in_map_iff in I as (y & <- & _). auto.
Qed.

Lemma seq_snoc n : seq 0 (S n) = seq 0 n ++ [n].
Proof. rewrite seq_S. auto. Qed.

Lemma Shape_make : Shape make.
Proof.
  constructor; cbn; auto.
  - intros i b H. destruct i; discriminate.
  - exists (Loc 0 0), []. auto.
  - repeat constructor. intros [].
  - intros b [<-|[]]. cbn. lia.
  - intros cid c bid b k H1 H2 H3. destruct bid; discriminate.
  - intros b [].
  - intros b [].
Qed.

Lemma map_combine_fst {A B C} (f : A -> C) (l : list A) (l' : list B) :
  length l = length l' -> map (fun ca => f (fst ca)) (combine l l') = map f l.
Proof.
  revert l'. induction l as [|x r IH]; intros [|y r'] H; cbn in *; auto; [discriminate|].
  f_equal. apply IH. lia.
Qed.

Lemma Shape_processing_0 s i b : Shape s -> nth_error (processing s) i = Some b ->
  bl_coll b = 0 -> i = 0.
Proof.
  intros Sh E Z. destruct (sh_proc s Sh) as (cur & rest & Ep).
  pose proof (sh_proc_nodup s Sh) as N.
  apply (proj1 (NoDup_nth_error _)  N).
  - rewrite map_length. apply nth_error_Some. congruence.
  - rewrite nth_error_map, E, Ep. cbn. congruence.
Qed.

Lemma upd_map_bl (l : list builder) i f :
  (forall b, bl_coll (f b) = bl_coll b) -> map bl_coll (upd l i f) = map bl_coll l.
Proof.
  intros H. apply nth_error_ext. intros j. rewrite !nth_error_map, upd_nth.
  destruct (nth_error l j) as [b|]; cbn; auto. destruct (j =? i); rewrite ?H; auto.
Qed.

Lemma upd_head (l : list builder) i f x r :
  (forall b, bl_coll (f b) = bl_coll b) -> l = x :: r ->
  exists y r', upd l i f = y :: r' /\ bl_coll y = bl_coll x.
Proof.
  intros H ->. pose proof (upd_map_bl (x :: r) i f H) as E.
  destruct (upd (x :: r) i f) as [|y r']; [discriminate|]. cbn in E. injection E as E _. eauto.
Qed.

Lemma Shape_branched bd s l sw phi i b sp sps :
  Shape s -> nth_error (processing s) i = Some b ->
  (forall x, In x (map fst sps) -> x <= length (branches s)) ->
  Shape (branched bd s l sw phi i b sp sps).
Proof.
  intros Sh Eb Hs. unfold branched.
  set (arms := map _ (successors bd (l_block sw))). set (n := length arms).
  assert (Lc : bl_coll b < length (colls s)).
  { apply (sh_proc_lt s Sh). eapply nth_error_In; eauto. }
  destruct (nth_error (colls s) (bl_coll b)) as [c0|] eqn:Ec;
    [|apply nth_error_None in Ec; lia].
  set (f := fun b0 : builder => Builder (bl_coll b0) (match phi with Some p => p | None => bl_cur b0 end)).
  assert (Hf : forall b0, bl_coll (f b0) = bl_coll b0) by reflexivity.
  assert (Em : map bl_coll (map (fun ca : nat * (loc * nat) => Builder (fst ca) (fst (snd ca)))
                 (combine (seq (length (colls s)) n) arms)) = seq (length (colls s)) n).
  { rewrite map_map. cbn. rewrite (map_combine_fst (fun x => x)); [apply map_id|].
    rewrite seq_length. auto. }
  constructor; cbn [table branches processing colls segs spanners].
  - unfold new_key. rewrite !app_length, (sh_table s Sh). auto.
  - intros k br E. destruct (Nat.lt_ge_cases k (length (branches s))) as [L|L].
    + rewrite nth_error_app1 in E by auto. eapply sh_tid; eauto.
    + rewrite nth_error_app2 in E by auto. destruct (k - length (branches s)) as [|m] eqn:Ek.
      * cbn in E. injection E as <-. cbn. rewrite (sh_table s Sh). lia.
      * cbn in E. destruct m; discriminate.
  - destruct (sh_proc s Sh) as (cur & rest & Ep).
    destruct (upd_head (processing s) i f _ _ Hf Ep) as ([yc ycur] & r' & -> & Ey).
    cbn in Ey. subst yc. cbn. eauto.
  - rewrite map_app, (upd_map_bl _ _ _ Hf), Em.
    assert (D : forall x, In x (map bl_coll (processing s)) -> x < length (colls s)).
    { intros x I. apply in_map_iff in I as (y & <- & I). apply (sh_proc_lt s Sh). auto. }
    pose proof (sh_proc_nodup s Sh) as N. revert D N.
    generalize (map bl_coll (processing s)) as q. intros q D N. induction q as [|x q IH]; cbn.
    + apply seq_NoDup.
    + inversion N as [|? ? Nx Nq]; subst. constructor.
      * rewrite in_app_iff, in_seq. intros [I|I]; auto. specialize (D x (or_introl eq_refl)). lia.
      * apply IH; auto. intros y I. apply D. right. auto.
  - intros b' I. rewrite app_length, upd_length, map_length. fold n.
    apply in_app_iff in I as [I|I].
    + apply In_nth_error in I as [j I]. rewrite upd_nth in I.
      destruct (nth_error (processing s) j) as [b0|] eqn:E0; [|discriminate].
      cbn in I. injection I as <-. destruct (j =? i); cbn; apply nth_error_In in E0;
      apply (sh_proc_lt s Sh) in E0; lia.
    + apply (in_map bl_coll) in I. rewrite Em in I. apply in_seq in I. lia.
  - rewrite flat_map_app, (map_const_flat_nil branch_ids) by reflexivity. rewrite app_nil_r.
    rewrite app_length. cbn [length]. rewrite Nat.add_1_r, seq_snoc.
    etransitivity.
    + apply flat_map_upd_snoc with (c := c0) (x := [length (branches s)]); auto.
      apply branch_ids_snoc.
    + apply Permutation_app_tail. apply (sh_branches s Sh).
  - rewrite !flat_map_app, (map_const_flat_nil linear_ids) by reflexivity. rewrite app_nil_r.
    cbn [flat_map br_splits]. rewrite app_nil_r, app_length, map_length. fold n.
    rewrite seq_app. cbn [Nat.add]. rewrite app_assoc. apply Permutation_app_tail.
    etransitivity; [|apply (sh_segs s Sh)]. apply Permutation_app_tail.
    etransitivity.
    + apply flat_map_upd_snoc with (c := c0) (x := []); auto. rewrite linear_ids_snoc. auto.
    + rewrite app_nil_r. apply Permutation_refl.
  - rewrite flat_map_app. cbn [flat_map br_nested]. rewrite app_nil_r, app_length, upd_length, map_length.
    fold n. rewrite seq_app, app_comm_cons, (sh_nested s Sh). cbn. auto.
  - intros cid c bid br k E1 I1 E2 I2.
    assert (Hb : nth_error (branches s) bid = Some br \/
                 (bid = length (branches s) /\ br_nested br = seq (length (colls s)) n)).
    { destruct (Nat.lt_ge_cases bid (length (branches s))) as [L|L].
      - rewrite nth_error_app1 in E2 by auto. auto.
      - rewrite nth_error_app2 in E2 by auto. destruct (bid - length (branches s)) as [|m] eqn:Ek.
        + cbn in E2. injection E2 as <-. right. split; [lia|auto].
        + cbn in E2. destruct m; discriminate. }
    destruct (Nat.lt_ge_cases cid (length (colls s))) as [L|L].
    + rewrite nth_error_app1 in E1 by (rewrite upd_length; auto).
      rewrite upd_nth in E1. destruct (nth_error (colls s) cid) as [c1|] eqn:E3; [|discriminate].
      cbn in E1. injection E1 as <-.
      destruct Hb as [Hb|[-> Hb]].
      * destruct (cid =? bl_coll b) eqn:Ecb.
        -- rewrite branch_ids_snoc in I1. apply in_app_iff in I1 as [I1|[Eb'|[]]].
           ++ eapply (sh_below s Sh); eauto.
           ++ assert (Hlt : bid < length (branches s)) by (apply nth_error_Some; congruence). lia.
        -- eapply (sh_below s Sh); eauto.
      * rewrite Hb in I2. apply in_seq in I2. lia.
    + rewrite nth_error_app2 in E1 by (rewrite upd_length; auto).
      apply nth_error_In in E1. apply in_map_iff in E1 as (a & <- & _). destruct I1.
  - intros br I. apply in_app_iff in I as [I|[<-|[]]]; [apply (sh_arms s Sh); auto|].
    cbn. rewrite !seq_length. auto.
  - intros x I. rewrite app_length. cbn. apply Hs in I. lia.
Qed.

Lemma redirect_length t r a b : length (redirect t r a b) = length t.
Proof. unfold redirect. rewrite map_length. apply enumerate_length. Qed.

Lemma union_length fw t a b : length (union fw t a b) = length t.
Proof.
  unfold union. repeat match goal with |- context [if ?x then _ else _] => destruct x end;
  rewrite ?redirect_length; auto.
Qed.

Lemma Shape_with_table s t : Shape s -> length t = length (table s) -> Shape (with_table s t).
Proof. intros [] L. constructor; cbn; auto. congruence. Qed.

Lemma Shape_scopes s s' :
  colls s' = colls s -> branches s' = branches s -> segs s' = segs s ->
  processing s' = processing s -> table s' = table s -> spanners s' = spanners s ->
  Shape s -> Shape s'.
Proof. intros E1 E2 E3 E4 E5 E6 []. constructor; rewrite ?E1, ?E2, ?E3, ?E4, ?E5, ?E6; auto. Qed.

Lemma close_scope_Some s idx s' : close_scope s idx = Some s' ->
  idx <> 0 /\ exists rest, open_scopes s = idx :: rest /\
  s' = St (colls s) (branches s) (segs s) (processing s) (table s) (spanners s)
          (scope_edges s) rest (next_scope s).
Proof.
  unfold close_scope. destruct (Nat.eqb_spec idx 0) as [|N]; [discriminate|].
  destruct (open_scopes s) as [|x rest]; [discriminate|].
  destruct (Nat.eqb_spec x idx) as [->|]; [|discriminate]. intros [= <-]. split; eauto.
Qed.

Lemma insert_linear_Val bd s i b l span s' :
  insert_linear bd s i b l span = Val s' ->
  exists c, nth_error (colls s) (bl_coll b) = Some c /\
  let to := cut bd (c_kind c) l in
  s' = St (upd (colls s) (bl_coll b)
               (fun c => Coll (c_data c ++ [Linear (length (segs s))]) (c_kind c)))
            (branches s)
            (segs s ++ [Seg (bl_cur b) to span (current_scope s)])
            (upd (processing s) i (fun b => Builder (bl_coll b) to))
            (table s) (spanners s) (scope_edges s) (open_scopes s) (next_scope s).
Proof.
  unfold insert_linear. destruct (nth_error (colls s) (bl_coll b)) as [c|]; [|discriminate].
  intros [= <-]. eauto.
Qed.

Lemma find_suitable_Linear bd s l i b :
  find_suitable_collection bd s l = FrLinear i b ->
  find_builder bd s l = Some (i, b) /\ lpost_dominates bd l (bl_cur b) = true.
Proof.
  unfold find_suitable_collection. destruct (find_builder bd s l) as [[j c]|]; [|discriminate].
  destruct (lpost_dominates bd l (bl_cur c)) eqn:L.
  - intros [= <- <-]. auto.
  - destruct (find_containing_branch s (bl_coll c)); discriminate.
Qed.

Lemma find_containing_Some s cid p :
  find_containing_branch s cid = Some p ->
  exists b, nth_error (branches s) p = Some b /\ In cid (br_nested b).
Proof.
  unfold find_containing_branch.
  destruct (find _ (enumerate (branches s))) as [[j b]|] eqn:F; [|discriminate].
  cbn. intros [= <-]. apply find_some in F as [I M]. cbn in M. apply memb_In in M.
  apply enumerate_In in I. eauto.
Qed.

Lemma find_suitable_NonLinear bd s l p bl :
  find_suitable_collection bd s l = FrNonLinear p bl ->
  exists i b pb, find_builder bd s l = Some (i, b) /\ lpost_dominates bd l (bl_cur b) = false /\
    bl = bl_cur b /\ nth_error (branches s) p = Some pb /\ In (bl_coll b) (br_nested pb).
Proof.
  unfold find_suitable_collection. destruct (find_builder bd s l) as [[j c]|]; [|discriminate].
  destruct (lpost_dominates bd l (bl_cur c)) eqn:L; [discriminate|].
  destruct (find_containing_branch s (bl_coll c)) as [q|] eqn:F; [|discriminate].
  intros [= <- <-]. apply find_containing_Some in F as (pb & E & I).
  exists j, c, pb. auto.
Qed.

Lemma find_builder_lookup bd s l i b :
  find_builder bd s l = Some (i, b) -> nth_error (processing s) i = Some b.
Proof. intros H. apply find_builder_Some in H. tauto. Qed.

(** What each primitive does, in one place. *)
Lemma child_branched P fw bd ord s location parent l s' :
  P location -> find_suitable_collection bd s location = FrNonLinear parent l ->
  open_child_branch fw bd ord s parent l = Val (s', true) ->
  exists sw i b sp pb cb,
    switch_location bd l = Some sw /\ find_builder bd s l = Some (i, b) /\ bl_cur b = l /\
    aget Nat.eq_dec (spanners s) parent = Some sp /\
    nth_error (branches s) parent = Some pb /\
    let s1 := branched bd s l sw (join_of bd ord sw) i b sp (spanners s) in
    nth_error (branches s1) parent = Some pb /\
    nth_error (branches s1) (length (branches s)) = Some cb /\
    s' = with_table s1 (union fw (table s1) (br_table pb) (br_table cb)).
Proof.
  intros Pl F O. apply open_child_Val in O as [(? & _ & E)|(s1 & child & pb & cb & M & Ep & Ec & E)];
    [discriminate|].
  injection E as ->. apply mk_branch_Some in M as (sw & i & b & sp & H1 & H2 & H3 & H4 & -> & ->).
  cbn in H4. exists sw, i, b, sp, pb, cb. split; auto. split; auto. split; auto. split; auto.
  apply find_suitable_NonLinear in F as (? & ? & pb' & _ & _ & _ & Ep' & _).
  assert (pb' = pb).
  { cbn in Ep. rewrite nth_error_app1 in Ep; [congruence|]. apply nth_error_Some. congruence. }
  subst. auto.
Qed.

Lemma aset_keys_le {A} (m : list (nat * A)) k v n :
  (forall x, In x (map fst m) -> x < n) -> k <= n ->
  forall x, In x (map fst (aset Nat.eq_dec m k v)) -> x <= n.
Proof.
  intros H L x I. destruct (Nat.eq_dec x k) as [->|N]; auto.
  assert (E : aget Nat.eq_dec (aset Nat.eq_dec m k v) x <> None).
  { intros E. apply aget_None in E. apply E. exact I. }
  rewrite aget_aset_neq in E by auto.
  assert (I' : In x (map fst m)).
  { destruct (aget Nat.eq_dec m x) as [w|] eqn:G; [|congruence].
    apply aget_Some_In in G. apply (in_map fst) in G. auto. }
  apply H in I'. lia.
Qed.

Lemma filter_head {A} (f : A -> bool) x r : f x = true -> filter f (x :: r) = x :: filter f r.
Proof. intros H. cbn. rewrite H. auto. Qed.

Lemma NoDup_map_filter {A B} (g : A -> B) f l : NoDup (map g l) -> NoDup (map g (filter f l)).
Proof.
  induction l as [|x r IH]; cbn; intros N; auto. inversion N as [|? ? Nx Nr]; subst.
  destruct (f x); auto. cbn. constructor; auto.
  intros I. apply Nx. apply in_map_iff in I as (y & E & I). apply filter_In in I as [I _].
  rewrite <- E. apply in_map. auto.
Qed.

Lemma nested_nonzero s b k : Shape s -> In b (branches s) -> In k (br_nested b) -> 0 < k < length (colls s).
Proof.
  intros Sh I Ik. pose proof (sh_nested s Sh) as E.
  destruct (length (colls s)) as [|n] eqn:L; [discriminate|].
  cbn [seq] in E. injection E as E.
  assert (H : In k (flat_map br_nested (branches s))) by (apply in_flat_map; eauto).
  rewrite E in H. apply in_seq in H. lia.
Qed.

Lemma Shape_prim P fw bd ord s s' : prim P fw bd ord s s' -> Shape s -> Shape s'.
Proof.
  intros H Sh. destruct H as [s|s idx s' E|s l sp s' bid Pl Pe M|s location parent l s' Pl F O
    |s bid s' C|s i b l span s' Pl F I].
  - apply (Shape_scopes s); auto.
  - apply close_scope_Some in E as (_ & rest & _ & ->). apply (Shape_scopes s); auto.
  - apply mk_branch_Some in M as (sw & i & b & sp' & _ & F & _ & _ & _ & ->).
    apply Shape_branched; auto.
    + eapply find_builder_lookup; eauto.
    + apply aset_keys_le; auto. apply (sh_user s Sh).
  - destruct (child_branched _ _ _ _ _ _ _ _ _ Pl F O)
      as (sw & i & b & sp & pb & cb & _ & Fb & _ & _ & _ & H). cbn zeta in H.
    destruct H as (_ & _ & ->). apply Shape_with_table; [|apply union_length].
    apply Shape_branched; auto.
    + eapply find_builder_lookup; eauto.
    + intros x I. apply (sh_user s Sh) in I. lia.
  - unfold close_branch in C. destruct (nth_error (branches s) bid) as [b|]; [|discriminate].
    injection C as <-. pose proof Sh as Sh'. destruct Sh as [A1 A2 A3 A4 A5 A6 A7 A8 A9 A10 A11]. constructor; cbn; auto.
    + destruct A3 as (cur & rest & ->). rewrite filter_head; eauto.
      apply negb_true_iff. apply memb_not_In. intros I. apply in_flat_map in I as (br & Ib & Ik).
      apply filter_In in Ib as [Ib _].
      apply (nested_nonzero s) in Ik; auto. cbn in Ik. lia.
    + apply NoDup_map_filter; auto.
    + intros b' I. apply filter_In in I as [I _]. auto.
  - apply find_suitable_Linear in F as [F _]. apply find_builder_lookup in F.
    apply insert_linear_Val in I as (c & Ec & ->). cbn zeta.
    set (to := cut bd (c_kind c) l).
    assert (Hf : forall b0 : builder, bl_coll (Builder (bl_coll b0) to) = bl_coll b0) by reflexivity.
    destruct Sh as [A1 A2 A3 A4 A5 A6 A7 A8 A9 A10 A11].
    constructor; cbn [table branches processing colls segs spanners]; auto.
    + destruct A3 as (cur & rest & Ep).
      destruct (upd_head (processing s) i _ _ _ Hf Ep) as ([yc ycur] & r' & -> & Ey).
      cbn in Ey. subst yc. cbn. eauto.
    + rewrite (upd_map_bl _ _ _ Hf). auto.
    + intros b' I. rewrite upd_length. apply (in_map bl_coll) in I. rewrite (upd_map_bl _ _ _ Hf) in I.
      apply in_map_iff in I as (b0 & <- & I). auto.
    + etransitivity; [|exact A6]. etransitivity.
      * apply flat_map_upd_snoc with (c := c) (x := []); auto. rewrite branch_ids_snoc. auto.
      * rewrite app_nil_r. apply Permutation_refl.
    + rewrite app_length. cbn [length]. rewrite Nat.add_1_r, seq_snoc.
      etransitivity.
      * apply Permutation_app_tail. apply flat_map_upd_snoc with (c := c) (x := [length (segs s)]); auto.
        apply linear_ids_snoc.
      * rewrite <- app_assoc. etransitivity.
        -- apply Permutation_app_head. apply Permutation_app_comm.
        -- rewrite app_assoc. apply Permutation_app_tail. auto.
    + rewrite upd_length. auto.
    + intros cid c1 bid br k E1 I1 E2 I2. rewrite upd_nth in E1.
      destruct (nth_error (colls s) cid) as [c2|] eqn:E3; [|discriminate].
      cbn in E1. injection E1 as <-. eapply A9; [exact E3| |exact E2|exact I2].
      destruct (cid =? bl_coll b); auto. rewrite branch_ids_snoc, app_nil_r in I1. auto.
Qed.

Lemma Shape_Steps P fw bd ord s : Steps P fw bd ord make s -> Shape s.
Proof. induction 1; [apply Shape_make|eapply Shape_prim; eauto]. Qed.

Lemma op_ok_all os : Forall (op_ok (fun _ => True)) os.
Proof. apply Forall_forall. intros [] _; cbn; auto. Qed.

Lemma Built_Steps fw bd ord s : Built fw bd ord s -> Steps (fun _ => True) fw bd ord make s.
Proof. intros (fuel & os & H). eapply run_Steps; [apply op_ok_all|exact H]. Qed.

Lemma Shape_Built fw bd ord s : Built fw bd ord s -> Shape s.
Proof. intros H. eapply Shape_Steps. apply Built_Steps in H. eauto. Qed.

(** ** Chaining *)

Definition Chained (s : st) : Prop :=
  forall cid c, nth_error (colls s) cid = Some c ->
    exists p q, BeginsAt s cid p /\ Chain s p (c_data c) q /\
      forall b, In b (processing s) -> bl_coll b = cid -> bl_cur b = q.

Definition Extends (s s' : st) : Prop :=
  (exists x, segs s' = segs s ++ x) /\ (exists y, branches s' = branches s ++ y).

Lemma nth_error_prefix {A} (l x : list A) i v : nth_error l i = Some v -> nth_error (l ++ x) i = Some v.
Proof. intros H. rewrite nth_error_app1; auto. apply nth_error_Some. congruence. Qed.

Lemma Chain_mono s s' p d q : Extends s s' -> Chain s p d q -> Chain s' p d q.
Proof.
  intros [[x Ex] [y Ey]].
  induction 1 as [p|p sid sg r q E F C IH|p bid b r q E S J C IH|p bid b r q E S J C IH].
  - constructor.
  - eapply chain_linear; eauto. rewrite Ex. apply nth_error_prefix; auto.
  - eapply chain_join; eauto.
    + rewrite Ey. apply nth_error_prefix; auto.
    + intros sid I. destruct (S sid I) as (sg & E1 & E2). exists sg. split; auto.
      rewrite Ex. apply nth_error_prefix; auto.
  - eapply chain_no_join; eauto.
    + rewrite Ey. apply nth_error_prefix; auto.
    + intros sid I. destruct (S sid I) as (sg & E1 & E2). exists sg. split; auto.
      rewrite Ex. apply nth_error_prefix; auto.
Qed.

Lemma BeginsAt_mono s s' cid p : Extends s s' -> BeginsAt s cid p -> BeginsAt s' cid p.
Proof.
  intros [[x Ex] [y Ey]] [H|(bid & k & sid & sg & (b & E1 & E2 & E3) & E4 & E5)]; [left; auto|].
  right. exists bid, k, sid, sg. split.
  - exists b. split; auto. rewrite Ey. apply nth_error_prefix; auto.
  - split; auto. rewrite Ex. apply nth_error_prefix; auto.
Qed.

Lemma Chain_app s p d1 m d2 q : Chain s p d1 m -> Chain s m d2 q -> Chain s p (d1 ++ d2) q.
Proof.
  induction 1; cbn; intros H'; auto.
  - eapply chain_linear; eauto.
  - eapply chain_join; eauto.
  - eapply chain_no_join; eauto.
Qed.

Lemma nodup_coll s i j b b' : Shape s ->
  nth_error (processing s) i = Some b -> nth_error (processing s) j = Some b' ->
  bl_coll b = bl_coll b' -> i = j.
Proof.
  intros Sh Ei Ej E. apply (proj1 (NoDup_nth_error _) (sh_proc_nodup s Sh)).
  - rewrite map_length. apply nth_error_Some. congruence.
  - rewrite !nth_error_map, Ei, Ej. cbn. congruence.
Qed.

Lemma nth_error_seq k n i : i < n -> nth_error (seq k n) i = Some (k + i).
Proof.
  revert k i. induction n as [|n IH]; intros k i L; [lia|].
  destruct i as [|i]; cbn; [f_equal; lia|]. rewrite IH by lia. f_equal. lia.
Qed.

Lemma nth_error_combine {A B} (l : list A) (l' : list B) i x y :
  nth_error l i = Some x -> nth_error l' i = Some y -> nth_error (combine l l') i = Some (x, y).
Proof.
  revert l' i. induction l as [|a r IH]; intros l' i; destruct i; cbn; try discriminate.
  - intros [= ->]. destruct l'; cbn; [discriminate|]. intros [= ->]. auto.
  - intros H. destruct l'; cbn; [discriminate|]. apply IH. auto.
Qed.

Lemma Chained_branched bd s l sw phi i b sp sps :
  Shape s -> Chained s ->
  nth_error (processing s) i = Some b -> bl_cur b = l ->
  (forall p, phi = Some p -> p <> sw) ->
  Chained (branched bd s l sw phi i b sp sps).
Proof.
  intros Sh Ch Eb El Hphi.
  assert (Ext : Extends s (branched bd s l sw phi i b sp sps)) by (split; eexists; reflexivity).
  set (s1 := branched bd s l sw phi i b sp sps) in *.
  set (arms := map (fun n => get_span bd sp (Loc n 0)) (successors bd (l_block sw))).
  set (n := length arms).
  assert (Ebr : nth_error (branches s1) (length (branches s)) =
                Some (Branch (length (table s)) (reach_of sw phi)
                        (seq (length (segs s)) n) (seq (length (colls s)) n))).
  { unfold s1, branched. cbn [branches]. rewrite nth_error_app2, Nat.sub_diag by lia. reflexivity. }
  assert (Esg : forall k a, nth_error arms k = Some a ->
    nth_error (segs s1) (length (segs s) + k) = Some (Seg l (fst a) (snd a) (current_scope s))).
  { intros k a E. unfold s1, branched. cbn [segs]. rewrite nth_error_app2 by lia.
    replace (length (segs s) + k - length (segs s)) with k by lia.
    fold arms. rewrite nth_error_map, E. auto. }
  assert (Hsplits : forall sid, In sid (seq (length (segs s)) n) ->
    exists sg, nth_error (segs s1) sid = Some sg /\ s_from sg = l).
  { intros sid I. apply in_seq in I.
    destruct (nth_error arms (sid - length (segs s))) as [a|] eqn:E.
    - pose proof (Esg _ _ E) as E'. replace (length (segs s) + (sid - length (segs s))) with sid in E' by lia.
      eexists. split; [exact E'|reflexivity].
    - apply nth_error_None in E. fold n in E. lia. }
  set (newcur := match phi with Some p => p | None => l end).
  assert (Cnew : Chain s1 l [Branching (length (branches s))] newcur).
  { unfold newcur. destruct phi as [p|].
    - eapply chain_join; [exact Ebr|exact Hsplits| |].
      + apply (reach_of_HasJoin _ _ _ _ _ Hphi). eauto.
      + cbn. constructor.
    - eapply chain_no_join; [exact Ebr|exact Hsplits| |constructor].
      intros J. apply (reach_of_HasJoin _ _ _ _ _ Hphi) in J as [p J]. discriminate. }
  intros cid c E.
  unfold s1 in E. unfold branched in E. cbn [colls] in E. fold arms in E.
  destruct (Nat.lt_ge_cases cid (length (colls s))) as [L|L].
  - rewrite nth_error_app1 in E by (rewrite upd_length; auto). rewrite upd_nth in E.
    destruct (nth_error (colls s) cid) as [c0|] eqn:E0; [|discriminate].
    cbn in E. injection E as <-.
    destruct (Ch cid c0 E0) as (p & q & B & C & Q).
    assert (Old : forall b', In b' (processing s1) -> bl_coll b' = cid ->
      exists j b0, nth_error (processing s) j = Some b0 /\ bl_coll b0 = cid /\
        b' = if j =? i then Builder (bl_coll b0) (match phi with Some p => p | None => bl_cur b0 end) else b0).
    { intros b' I Ec. unfold s1, branched in I. cbn [processing] in I. fold arms in I.
      apply in_app_iff in I as [I|I].
      - apply In_nth_error in I as [j I]. rewrite upd_nth in I.
        destruct (nth_error (processing s) j) as [b0|] eqn:Ej; [|discriminate].
        cbn in I. injection I as <-. exists j, b0. split; auto. split; auto.
        destruct (j =? i); auto.
      - apply in_map_iff in I as ([x a] & <- & I). apply in_combine_l in I. apply in_seq in I.
        cbn in Ec. lia. }
    destruct (Nat.eqb_spec cid (bl_coll b)) as [Ecb|Ncb].
    + assert (q = l).
      { rewrite <- El. symmetry. apply Q; auto. eapply nth_error_In; eauto. }
      subst q. exists p, newcur. split; [eapply BeginsAt_mono; eauto|]. split.
      * cbn [c_data]. eapply Chain_app; [eapply Chain_mono; eauto|exact Cnew].
      * intros b' I Ec. destruct (Old b' I Ec) as (j & b0 & Ej & Ecj & ->).
        assert (j = i).
        { symmetry. eapply nodup_coll; [exact Sh|exact Eb|exact Ej|congruence]. }
        subst j. rewrite Nat.eqb_refl. cbn. unfold newcur.
        assert (b0 = b) by congruence. subst b0. rewrite El. auto.
    + exists p, q. split; [eapply BeginsAt_mono; eauto|]. split; [eapply Chain_mono; eauto|].
      intros b' I Ec. destruct (Old b' I Ec) as (j & b0 & Ej & Ecj & ->).
      destruct (Nat.eqb_spec j i) as [->|Nj].
      * exfalso. apply Ncb. congruence.
      * apply Q; auto. eapply nth_error_In; eauto.
  - rewrite nth_error_app2 in E by (rewrite upd_length; auto). rewrite upd_length in E.
    set (k := cid - length (colls s)) in E.
    rewrite nth_error_map in E. destruct (nth_error arms k) as [a|] eqn:Ea; [|discriminate].
    cbn in E. injection E as <-.
    assert (Lk : k < n). { apply nth_error_Some. fold arms. congruence. }
    assert (Ek : cid = length (colls s) + k) by lia.
    exists (fst a), (fst a). split; [|split].
    + right. exists (length (branches s)), k, (length (segs s) + k),
        (Seg l (fst a) (snd a) (current_scope s)). split; [|split; auto].
      eexists. split; [exact Ebr|]. cbn. split; [apply nth_error_seq; auto|].
      rewrite Ek. apply nth_error_seq; auto.
    + cbn. constructor.
    + intros b' I Ec. unfold s1, branched in I. cbn [processing] in I. fold arms in I.
      apply in_app_iff in I as [I|I].
      * apply In_nth_error in I as [j I]. rewrite upd_nth in I.
        destruct (nth_error (processing s) j) as [b0|] eqn:Ej; [|discriminate].
        cbn in I. injection I as <-. apply nth_error_In in Ej. apply (sh_proc_lt s Sh) in Ej.
        exfalso. destruct (j =? i); cbn in Ec; lia.
      * apply In_nth_error in I as [j I]. rewrite nth_error_map in I.
        destruct (nth_error (combine _ _) j) as [[x a']|] eqn:Ej; [|discriminate].
        cbn in I. injection I as <-. cbn in Ec |- *.
        assert (Lj : j < n).
        { assert (H : j < length (combine (seq (length (colls s)) n) arms)).
          { apply nth_error_Some. fold n in Ej. congruence. }
          rewrite combine_length, seq_length in H. fold n in H. lia. }
        destruct (nth_error arms j) as [a2|] eqn:Ea2; [|apply nth_error_None in Ea2; fold n in Ea2; lia].
        rewrite (nth_error_combine _ _ j (length (colls s) + j) a2) in Ej;
          [|apply nth_error_seq; auto|auto].
        injection Ej as Ex <-. assert (j = k) by lia. subst j. congruence.
Qed.

Lemma Chained_with_table s t : Chained s -> Chained (with_table s t).
Proof.
  intros H cid c E. destruct (H cid c E) as (p & q & B & C & Q). exists p, q.
  split; [|split; auto].
  - apply (BeginsAt_mono s); auto. split; exists []; rewrite app_nil_r; auto.
  - apply (Chain_mono s); auto. split; exists []; rewrite app_nil_r; auto.
Qed.

Lemma Chained_same s s' :
  colls s' = colls s -> branches s' = branches s -> segs s' = segs s ->
  (forall b, In b (processing s') -> In b (processing s)) -> Chained s -> Chained s'.
Proof.
  intros E1 E2 E3 E4 H cid c E. rewrite E1 in E. destruct (H cid c E) as (p & q & B & C & Q).
  assert (X : Extends s s') by (split; exists []; rewrite app_nil_r; auto).
  exists p, q. split; [|split]; [eapply BeginsAt_mono; eauto|eapply Chain_mono; eauto|].
  intros b I. apply Q. auto.
Qed.

Lemma Chained_prim P fw bd ord s s' : prim P fw bd ord s s' -> Shape s -> Chained s -> Chained s'.
Proof.
  intros H Sh Ch. destruct H as [s|s idx s' E|s l sp s' bid Pl Pe M|s location parent l s' Pl F O
    |s bid s' C|s i b l span s' Pl F I].
  - apply (Chained_same s); auto.
  - apply close_scope_Some in E as (_ & rest & _ & ->). apply (Chained_same s); auto.
  - apply mk_branch_Some in M as (sw & i & b & sp' & _ & F & El & _ & _ & ->).
    apply Chained_branched; auto.
    + eapply find_builder_lookup; eauto.
    + apply join_of_neq.
  - destruct (child_branched _ _ _ _ _ _ _ _ _ Pl F O)
      as (sw & i & b & sp & pb & cb & _ & Fb & El & _ & _ & H). cbn zeta in H.
    destruct H as (_ & _ & ->). apply Chained_with_table. apply Chained_branched; auto.
    + eapply find_builder_lookup; eauto.
    + apply join_of_neq.
  - unfold close_branch in C. destruct (nth_error (branches s) bid) as [b|]; [|discriminate].
    injection C as <-. apply (Chained_same s); auto. cbn. intros b' I. apply filter_In in I. tauto.
  - apply find_suitable_Linear in F as [F _]. apply find_builder_lookup in F.
    apply insert_linear_Val in I as (c & Ec & ->). cbn zeta.
    set (to := cut bd (c_kind c) l).
    set (s1 := St _ _ _ _ _ _ _ _ _).
    assert (Ext : Extends s s1).
    { split; [eexists; reflexivity|exists []; rewrite app_nil_r; auto]. }
    intros cid c1 E. unfold s1 in E. cbn [colls] in E. rewrite upd_nth in E.
    destruct (nth_error (colls s) cid) as [c0|] eqn:E0; [|discriminate].
    cbn in E. injection E as <-.
    destruct (Ch cid c0 E0) as (p & q & B & C & Q).
    assert (Old : forall b', In b' (processing s1) -> bl_coll b' = cid ->
      exists j b0, nth_error (processing s) j = Some b0 /\ bl_coll b0 = cid /\
        b' = if j =? i then Builder (bl_coll b0) to else b0).
    { intros b' I Ec'. unfold s1 in I. cbn [processing] in I.
      apply In_nth_error in I as [j I]. rewrite upd_nth in I.
      destruct (nth_error (processing s) j) as [b0|] eqn:Ej; [|discriminate].
      cbn in I. injection I as <-. exists j, b0. split; auto. split; auto. destruct (j =? i); auto. }
    destruct (Nat.eqb_spec cid (bl_coll b)) as [Ecb|Ncb].
    + assert (q = bl_cur b).
      { symmetry. apply Q; auto. eapply nth_error_In; eauto. }
      subst q. exists p, to. split; [eapply BeginsAt_mono; eauto|]. split.
      * cbn [c_data]. eapply Chain_app; [eapply Chain_mono; eauto|].
        eapply chain_linear with (sg := Seg (bl_cur b) to span (current_scope s)); cbn; auto.
        -- rewrite nth_error_app2, Nat.sub_diag by lia. reflexivity.
        -- constructor.
      * intros b' I Ec'. destruct (Old b' I Ec') as (j & b0 & Ej & Ecj & ->).
        assert (j = i).
        { symmetry. eapply nodup_coll; [exact Sh|exact F|exact Ej|congruence]. }
        subst j. rewrite Nat.eqb_refl. auto.
    + exists p, q. split; [eapply BeginsAt_mono; eauto|]. split; [eapply Chain_mono; eauto|].
      intros b' I Ec'. destruct (Old b' I Ec') as (j & b0 & Ej & Ecj & ->).
      destruct (Nat.eqb_spec j i) as [->|Nj].
      * exfalso. apply Ncb. congruence.
      * apply Q; auto. eapply nth_error_In; eauto.
Qed.

Lemma Chained_make : Chained make.
Proof.
  intros cid c E. destruct cid as [|cid]; [|cbn in E; destruct cid; discriminate].
  cbn in E. injection E as <-. exists (Loc 0 0), (Loc 0 0). split; [left; auto|].
  split; [constructor|]. intros b [<-|[]] _. auto.
Qed.

Lemma Chained_Steps P fw bd ord s : Steps P fw bd ord make s -> Chained s.
Proof.
  induction 1 as [|s s' H IH Hp]; [apply Chained_make|].
  eapply Chained_prim; eauto. eapply Shape_Steps; eauto.
Qed.
