(** Which tables a body gets, exactly. *)
From Coq Require Import List Arith Bool Lia Permutation.
From Verif Require Import Base PermsModel PermsSpec PermsProofs FactsModel FactsProofs CfgModel SegMirModel SegMirSpec
  SegMirProofs TablesModel TablesSpec TablesProofs.
Import ListNotations.

Lemma NoDup_keys_filter {A B} (f : A * B -> bool) (l : list (A * B)) :
  NoDup (akeys l) -> NoDup (akeys (filter f l)).
Proof. apply NoDup_map_filter. Qed.

Lemma in_locals_to_filter e s sc l :
  In l (locals_to_filter e s sc) <->
  exists c v, In c (parent_scopes s sc) /\ aget Nat.eq_dec (e_locals_at e) c = Some v /\ In l v.
Proof.
  unfold locals_to_filter. rewrite in_flat_map. split.
  - intros (c & Ic & I). destruct (aget Nat.eq_dec (e_locals_at e) c) as [v|] eqn:E; [|destruct I].
    exists c, v. auto.
  - intros (c & v & Ic & E & I). exists c. rewrite E. auto.
Qed.

(** The table of an item, and where it is. *)
Lemma tab_spec e s start brace i t : Shape s -> WfEnv e -> HasArms s -> i <> Opening -> In t (tab e s i) ->
  TableOf e s start brace i t /\ Ends s start i (t_to t).
Proof.
  intros Sh W HA NO I. destruct i as [|sid|bid]; [congruence| |]; cbn [tab] in I.
  - unfold stab in I. destruct (nth_error (segs s) sid) as [sg|] eqn:E; [|destruct I].
    destruct (loc_eqd (s_from sg) (s_to sg)) as [|N]; [destruct I|].
    destruct (into_diff_ok e (s_from sg) (s_to sg) W) as (d & Ed & ND & Sp). rewrite Ed in I.
    destruct I as [<-|[]]. cbn [t_to]. split.
    + split; cbn [t_data]; [apply NoDup_keys_filter; auto|].
      exists sg. cbn [t_span t_from t_to t_data]. split; [auto|]. do 3 (split; [reflexivity|]). intros p x. rewrite filter_In, Sp. cbn [fst snd].
      rewrite negb_true_iff, memb_not_In, in_locals_to_filter. unfold DeclaredIn. firstorder.
    + exists sg. auto.
  - unfold btab in I. destruct (nth_error (branches s) bid) as [b|] eqn:E; [|destruct I].
    destruct (into_diff_ok e (fst (br_reach b)) (snd (br_reach b)) W) as (d & Ed & ND & Sp). rewrite Ed in I.
    destruct (branch_scope_ok s bid b Sh HA E) as (sc & Esc & HS). rewrite Esc in I.
    destruct I as [<-|[]]. cbn [t_to]. split.
    + split; cbn [t_data]; [apply NoDup_keys_filter; auto|].
      exists b. cbn [t_span t_from t_to t_data]. split; [auto|]. do 3 (split; [reflexivity|]). intros p x. rewrite filter_In, Sp. cbn [fst snd]. rewrite memb_In.
      unfold DeclaredIn. split.
      * intros [C I]. split; auto. exists sc. split; [apply HS; auto|].
        destruct (aget Nat.eq_dec (e_locals_at e) sc) as [v|]; [eauto|destruct I].
      * intros [C (sc' & H1 & v & H2 & H3)]. split; auto. apply HS in H1. subst sc'. rewrite H2. auto.
    + exists b. auto.
Qed.

Lemma tab_ends e s start i l : Shape s -> WfEnv e -> HasArms s -> i <> Opening -> Ends s start i l ->
  exists t, tab e s i = [t] /\ t_to t = l.
Proof.
  intros Sh W HA NO H. destruct i as [|sid|bid]; [congruence| |]; cbn in H |- *.
  - destruct H as (sg & E & N & <-). unfold stab. rewrite E.
    destruct (loc_eqd (s_from sg) (s_to sg)); [congruence|].
    destruct (into_diff_ok e (s_from sg) (s_to sg) W) as (d & -> & _). eexists. split; reflexivity.
  - destruct H as (b & E & <-). unfold btab. rewrite E.
    destruct (into_diff_ok e (fst (br_reach b)) (snd (br_reach b)) W) as (d & -> & _).
    destruct (branch_scope_ok s bid b Sh HA E) as (sc & -> & _). eexists. split; reflexivity.
Qed.

Lemma tab_not_ends e s start i : Shape s -> WfEnv e -> HasArms s -> i <> Opening ->
  (forall l, ~ Ends s start i l) -> tab e s i = [].
Proof.
  intros Sh W HA NO N. destruct (tab e s i) as [|t r] eqn:E; auto.
  exfalso. destruct (tab_spec e s start 0 i t Sh W HA NO) as [_ H]; [rewrite E; left; auto|].
  eapply N; eauto.
Qed.

(** ** Inside a branch *)

Definition binside (s : st) (f : nat) (b : branch) : list item :=
  map OfSeg (br_splits b) ++ flat_map (items s f) (br_nested b).

Lemma items_in s f i : forall cid, In i (items s f cid) <->
  exists k c, In k (order s f cid) /\ nth_error (colls s) k = Some c /\
    match i with
    | Opening => False
    | OfSeg sid => In (Linear sid) (c_data c) \/
        exists bid b, In (Branching bid) (c_data c) /\ nth_error (branches s) bid = Some b /\ In sid (br_splits b)
    | OfBranch bid => In (Branching bid) (c_data c) /\ exists b, nth_error (branches s) bid = Some b
    end.
Proof.
  assert (Own : forall k, In i (own s k) <-> exists c, nth_error (colls s) k = Some c /\
    match i with
    | Opening => False
    | OfSeg sid => In (Linear sid) (c_data c) \/
        exists bid b, In (Branching bid) (c_data c) /\ nth_error (branches s) bid = Some b /\ In sid (br_splits b)
    | OfBranch bid => In (Branching bid) (c_data c) /\ exists b, nth_error (branches s) bid = Some b
    end).
  { intros k. unfold own. destruct (nth_error (colls s) k) as [c|] eqn:E.
    2:{ split; [intros []|intros (c & H & _); discriminate]. }
    rewrite in_flat_map. split.
    - intros (part & Ip & I). exists c. split; auto. destruct part as [sid|bid].
      + destruct I as [<-|[]]. auto.
      + destruct (nth_error (branches s) bid) as [b|] eqn:Eb; [|destruct I].
        apply in_app_or in I as [I|[<-|[]]]; eauto.
        apply in_map_iff in I as (sid & <- & I). right. eauto 6.
    - intros (c' & [= <-] & H). destruct i as [|sid|bid]; [destruct H| |].
      + destruct H as [H|(bid & b & H1 & H2 & H3)].
        * exists (Linear sid). split; auto. left; auto.
        * exists (Branching bid). split; auto. rewrite H2. apply in_or_app. left. apply in_map. auto.
      + destruct H as (H & b & Eb). exists (Branching bid). split; auto. rewrite Eb. apply in_or_app. right. left. auto. }
  induction f as [|f IH]; intros cid; cbn [items order].
  - split; [intros []|intros (k & c & [] & _)].
  - split.
    + intros I. destruct (nth_error (colls s) cid) as [c|] eqn:E; [|destruct I].
      apply in_flat_map in I as (part & Ip & I). destruct part as [sid|bid].
      * destruct I as [<-|[]]. exists cid, c. cbn. auto.
      * destruct (nth_error (branches s) bid) as [b|] eqn:Eb; [|destruct I].
        rewrite !in_app_iff in I. destruct I as [I|[I|[<-|[]]]].
        -- apply in_map_iff in I as (sid & <- & I). exists cid, c. split; [left; auto|]. split; auto. right. eauto.
        -- apply in_flat_map in I as (k & Ik & I). apply IH in I as (k' & c' & H1 & H2 & H3).
           exists k', c'. split; auto. right. apply in_flat_map. exists k. split; auto.
           unfold children. rewrite E. apply in_flat_map. exists bid. rewrite Eb. split; auto.
           apply in_flat_map. exists (Branching bid). cbn. auto.
        -- exists cid, c. split; [left; auto|]. split; auto. split; eauto.
    + intros (k & c & Ik & Ec & H).
      destruct Ik as [<-|Ik].
      * rewrite Ec. destruct i as [|sid|bid]; [destruct H| |].
        -- destruct H as [H|(bid & b & H1 & H2 & H3)]; apply in_flat_map.
           ++ exists (Linear sid). split; auto. left; auto.
           ++ exists (Branching bid). split; auto. rewrite H2. apply in_or_app. left. apply in_map; auto.
        -- destruct H as (H & b & Eb). apply in_flat_map. exists (Branching bid). split; auto. rewrite Eb.
           rewrite !in_app_iff. cbn. auto.
      * apply in_flat_map in Ik as (d & Id & Ik). unfold children in Id.
        destruct (nth_error (colls s) cid) as [c0|]; [|destruct Id].
        apply in_flat_map in Id as (bid & Ib & Id).
        destruct (nth_error (branches s) bid) as [b|] eqn:Eb; [|destruct Id].
        apply in_flat_map in Ib as ([x|x] & Ix & Jx); [destruct Jx|]. destruct Jx as [->|[]].
        apply in_flat_map. exists (Branching bid). split; auto. rewrite Eb.
        rewrite !in_app_iff. right. left. apply in_flat_map. exists d. split; auto.
        apply IH. exists k, c. auto.
Qed.

Lemma order_trans s : Shape s -> forall f a x y, a < length (colls s) -> length (colls s) - a <= f ->
  In x (order s f a) -> In y (children s x) -> In y (order s f a).
Proof.
  intros Sh. induction f as [|f IH]; intros a x y L1 L2 I J; [lia|].
  cbn [order] in I |- *. destruct I as [<-|I].
  - right. apply in_flat_map. exists y. split; auto. pose proof (children_lt s a y Sh J).
    destruct f; [lia|]. left. auto.
  - right. apply in_flat_map in I as (d & Id & I). apply in_flat_map. exists d. split; auto.
    pose proof (children_lt s a d Sh Id). eapply IH; eauto; lia.
Qed.

Lemma inside_order s bid b f : Shape s -> nth_error (branches s) bid = Some b ->
  (forall k, In k (br_nested b) -> length (colls s) - k <= f) ->
  forall cid, InsideColl s bid cid <-> In cid (flat_map (order s f) (br_nested b)).
Proof.
  intros Sh Eb Lf cid. split.
  - induction 1 as [b0 cid E I|cid c bid' b' cid' H IH Ec Ib Eb' I].
    + rewrite Eb in E. injection E as <-. apply in_flat_map. exists cid. split; auto.
      pose proof (Lf cid I). pose proof (nested_lt s bid b cid Sh Eb I).
      destruct f; [lia|left; auto].
    + apply in_flat_map in IH as (k & Ik & IH). apply in_flat_map. exists k. split; auto.
      eapply order_trans; [exact Sh|exact (nested_lt s bid b k Sh Eb Ik)|apply Lf; auto|exact IH|].
      unfold children. rewrite Ec. apply in_flat_map. exists bid'. rewrite Eb'. split; auto.
      apply in_flat_map. exists (Branching bid'). cbn. auto.
  - intros I. apply in_flat_map in I as (k & Ik & I).
    assert (G : forall f k, InsideColl s bid k -> forall x, In x (order s f k) -> InsideColl s bid x).
    { clear. induction f as [|f IH]; intros k H x I; [destruct I|]. destruct I as [<-|I]; auto.
      apply in_flat_map in I as (d & Id & I). apply (IH d); auto.
      unfold children in Id. destruct (nth_error (colls s) k) as [c|] eqn:E; [|destruct Id].
      apply in_flat_map in Id as (bid' & Ib & Id).
      destruct (nth_error (branches s) bid') as [b'|] eqn:Eb'; [|destruct Id].
      apply in_flat_map in Ib as ([y|y] & Iy & Jy); [destruct Jy|]. destruct Jy as [->|[]].
      eapply inside_deeper; eauto. }
    apply (G f k); auto. eapply inside_arm; eauto.
Qed.

Lemma inside_iff s bid b f i : Shape s -> nth_error (branches s) bid = Some b ->
  (forall k, In k (br_nested b) -> length (colls s) - k <= f) ->
  (Inside s bid i <-> In i (binside s f b)).
Proof.
  intros Sh Eb Lf. pose proof (inside_order s bid b f Sh Eb Lf) as IO.
  unfold binside. rewrite in_app_iff, in_flat_map.
  assert (Split : forall k, In k (flat_map (order s f) (br_nested b)) <-> exists x, In x (br_nested b) /\ In k (order s f x))
    by (intros k; apply in_flat_map).
  destruct i as [|sid|bid'].
  - cbn. split; [intros []|]. intros [H|(x & _ & H)].
    + apply in_map_iff in H as (y & E & _). discriminate.
    + apply items_in in H as (k & c & _ & _ & []).
  - cbn [Inside]. split.
    + intros [(b0 & E0 & I)|(cid & c & H1 & H2 & H3)].
      * left. rewrite Eb in E0. injection E0 as <-. apply in_map. auto.
      * right. apply IO in H1. apply Split in H1 as (x & Ix & H1). exists x. split; auto.
        apply items_in. exists cid, c. auto.
    + intros [H|(x & Ix & H)].
      * left. apply in_map_iff in H as (y & [= ->] & I). eauto.
      * right. apply items_in in H as (k & c & H1 & H2 & H3). exists k, c. split; auto.
        apply IO. apply Split. eauto.
  - cbn [Inside]. split.
    + intros (cid & c & H1 & H2 & H3). right. apply IO in H1. apply Split in H1 as (x & Ix & H1).
      exists x. split; auto. apply items_in. exists cid, c. split; auto. split; auto. split; auto.
      apply (branch_lt s cid c bid' Sh H2 H3).
    + intros [H|(x & Ix & H)].
      * apply in_map_iff in H as (y & E & _). discriminate.
      * apply items_in in H as (k & c & H1 & H2 & H3 & _). exists k, c. split; auto.
        apply IO. apply Split. eauto.
Qed.

Lemma Inside_branch s bid i : Inside s bid i -> exists b, nth_error (branches s) bid = Some b.
Proof.
  assert (C : forall cid, InsideColl s bid cid -> exists b, nth_error (branches s) bid = Some b).
  { induction 1; eauto. }
  destruct i as [|sid|bid']; cbn.
  - intros [].
  - intros [(b & E & _)|(cid & c & H & _)]; eauto.
  - intros (cid & c & H & _). eauto.
Qed.

(** What is inside a branch is found below every collection the branch is below. *)
Lemma inside_items s f k bid j : Shape s -> k < length (colls s) -> length (colls s) - k <= f ->
  In (OfBranch bid) (items s f k) -> Inside s bid j -> In j (items s f k).
Proof.
  intros Sh H1 H2 Ib Hin. apply items_in in Ib as (k2 & c2 & Ik2 & Ec2 & Hb2 & b2 & Eb2).
  assert (HC : forall x, InsideColl s bid x -> In x (order s f k)).
  { intros x. induction 1 as [b3 x E3 I3|x cx bx b3 y H3 IH3 Ecx Ibx Eb3 Iy].
    - rewrite Eb2 in E3. injection E3 as <-. eapply order_trans; eauto.
      unfold children. rewrite Ec2. apply in_flat_map. exists bid. rewrite Eb2. split; auto.
      apply in_flat_map. exists (Branching bid). cbn. auto.
    - eapply order_trans; eauto.
      unfold children. rewrite Ecx. apply in_flat_map. exists bx. rewrite Eb3. split; auto.
      apply in_flat_map. exists (Branching bx). cbn. auto. }
  apply items_in. destruct j as [|sid|bj]; cbn in Hin.
  - destruct Hin.
  - destruct Hin as [(b3 & E3 & I3)|(x & cx & H3 & H4 & H5)].
    + exists k2, c2. split; auto. split; auto. right. eauto.
    + exists x, cx. split; auto.
  - destruct Hin as (x & cx & H3 & H4 & H5). exists x, cx. split; auto. split; auto. split; auto.
    apply (branch_lt s x cx bj Sh H4 H5).
Qed.

(** ** Nothing is lost when the ends are separate *)

Definition Exact (r r' : tables) (ts : list table) : Prop :=
  forall l, at_loc r' l = at_loc r l ++ filter (fun t => if loc_eqd (t_to t) l then true else false) ts.

Lemma Exact_refl r : Exact r r [].
Proof. intros l. cbn. rewrite app_nil_r. auto. Qed.

Lemma Exact_trans a b c x y : Exact a b x -> Exact b c y -> Exact a c (x ++ y).
Proof. intros H1 H2 l. rewrite H2, H1, filter_app, app_assoc. auto. Qed.

Lemma Exact_push r t : Exact r (push r (t_to t) t) [t].
Proof.
  intros l. rewrite at_loc_push. f_equal. cbn.
  destruct (loc_eqd l (t_to t)), (loc_eqd (t_to t) l); congruence.
Qed.

Lemma Exact_extend r m ts : NoDup (akeys m) -> Exact [] m ts -> (forall l, In l (akeys m) -> ~ In l (akeys r)) ->
  Exact r (extend r m) ts.
Proof.
  intros ND E D l. rewrite at_loc_extend by auto. specialize (E l). cbn in E.
  destruct (memb loc_eqd l (akeys m)) eqn:M.
  - apply memb_In in M. rewrite (at_loc_nokey r) by auto. auto.
  - apply memb_not_In in M. rewrite (at_loc_nokey m) in E by auto. rewrite <- E, app_nil_r. auto.
Qed.

(** A loop, with what the map contains at each round. *)
Lemma each_Exact {A} (f : tables -> A -> option tables) (g : A -> list table) l :
  forall r, 
  (forall pre x post r0 r', l = pre ++ x :: post -> Grown r r0 (flat_map g pre) -> f r0 x = Some r' ->
     Grown r0 r' (g x) /\ Exact r0 r' (g x)) ->
  forall r', each f r l = Some r' -> Exact r r' (flat_map g l).
Proof.
  assert (Gen : forall l pre r0 r, Exact r r0 (flat_map g pre) -> Grown r r0 (flat_map g pre) ->
    (forall pre' x post r1 r', pre ++ l = pre' ++ x :: post -> Grown r r1 (flat_map g pre') -> f r1 x = Some r' ->
       Grown r1 r' (g x) /\ Exact r1 r' (g x)) ->
    forall r', each f r0 l = Some r' -> Exact r r' (flat_map g (pre ++ l))).
  { clear l. induction l as [|x l IH]; intros pre r0 r HE HG H r' E; cbn [each] in E.
    - injection E as <-. rewrite app_nil_r. auto.
    - destruct (f r0 x) as [r1|] eqn:Ex; [|discriminate].
      destruct (H pre x l r0 r1 eq_refl HG Ex) as [G1 E1].
      replace (pre ++ x :: l) with ((pre ++ [x]) ++ l) in * by (rewrite <- app_assoc; auto).
      apply (IH (pre ++ [x]) r1 r); auto.
      + rewrite flat_map_app. cbn. rewrite app_nil_r. eapply Exact_trans; eauto.
      + rewrite flat_map_app. cbn. rewrite app_nil_r. eapply Grown_trans; eauto. }
  intros r H r' E. apply (Gen l [] r r); auto.
  - apply Exact_refl.
  - apply Grown_refl.
Qed.

Lemma insert_segment_Exact e s r sid r' : WfEnv e -> insert_segment e s r sid = Some r' ->
  Grown r r' (stab e s sid) /\ Exact r r' (stab e s sid).
Proof.
  intros W. unfold insert_segment, stab. destruct (nth_error (segs s) sid) as [sg|] eqn:E; [|discriminate].
  destruct (loc_eqd (s_from sg) (s_to sg)).
  - intros [= <-]. split; [apply Grown_refl|apply Exact_refl].
  - destruct (into_diff e (s_from sg) (s_to sg)); [|discriminate]. intros [= <-].
    split; [apply (Grown_push r (Table _ _ _ _))|apply (Exact_push r (Table _ _ _ _))].
Qed.

Lemma tabs_app e s a b : tabs e s (a ++ b) = tabs e s a ++ tabs e s b.
Proof. apply flat_map_app. Qed.

Lemma tabs_ends e s start l t : Shape s -> WfEnv e -> HasArms s -> ~ In Opening l -> In t (tabs e s l) ->
  exists i, In i l /\ Ends s start i (t_to t).
Proof.
  intros Sh W HA N I. apply in_flat_map in I as (i & Ii & It). exists i. split; auto.
  apply (tab_spec e s start 0 i t); auto. intros ->. auto.
Qed.

Lemma items_no_opening s f cid : ~ In Opening (items s f cid).
Proof. intros I. apply items_in in I as (k & c & _ & _ & []). Qed.

Lemma insert_collection_Exact e s start : Shape s -> WfEnv e -> HasArms s -> Separate s start ->
  forall fuel cid r r', cid < length (colls s) -> length (colls s) - cid <= fuel ->
  NoDup (items s fuel cid) ->
  (forall bid i l, In (OfBranch bid) (items s fuel cid) -> Inside s bid i -> Ends s start i l -> ~ In l (akeys r)) ->
  insert_collection e s fuel r cid = Some r' ->
  Exact r r' (tabs e s (items s fuel cid)).
Proof.
  intros Sh W HA Sep. induction fuel as [|f IH]; intros cid r r' L1 L2 ND HK E; [lia|].
  cbn [insert_collection items] in *. destruct (nth_error (colls s) cid) as [c|] eqn:Ec; [|discriminate].
  unfold tabs. rewrite flat_map_flat_map'.
  eapply each_Exact; [|exact E]. clear E. intros pre part post r0 r1 Ed G0 E.
  destruct part as [sid|bid].
  { cbn. rewrite app_nil_r. apply insert_segment_Exact; auto. }
  assert (Ip : In (Branching bid) (c_data c)) by (rewrite Ed; apply in_or_app; right; left; auto).
  destruct (branch_lt s cid c bid Sh Ec Ip) as [Ib (b & Eb)].
  assert (Lf : forall k, In k (br_nested b) -> k < length (colls s) /\ length (colls s) - k <= f).
  { intros k Ik. pose proof (sh_below s Sh cid c bid b k Ec Ib Eb Ik).
    pose proof (nested_lt s bid b k Sh Eb Ik). lia. }
  assert (IN : forall i, Inside s bid i <-> In i (binside s f b)).
  { intros i. apply inside_iff; auto. intros k Ik. apply Lf. auto. }
  set (g := fun part => match part with
        | Linear sid => [OfSeg sid]
        | Branching bid =>
          match nth_error (branches s) bid with
          | None => []
          | Some b => map OfSeg (br_splits b) ++ flat_map (items s f) (br_nested b) ++ [OfBranch bid]
          end end) in *.
  assert (Eg : g (Branching bid) = binside s f b ++ [OfBranch bid]).
  { unfold g, binside. rewrite Eb, <- app_assoc. auto. }
  rewrite Ed, flat_map_app in ND. cbn [flat_map] in ND. rewrite Eg in ND.
  (* the map before the branch *)
  assert (K0 : forall i l, Inside s bid i -> Ends s start i l -> ~ In l (akeys r0)).
  { intros i l Hi Hl I. apply (g_keys _ _ _ G0) in I as [I|(t & It & Et)].
    - apply (HK bid i l); auto. rewrite Ed, flat_map_app. cbn [flat_map]. rewrite Eg, !in_app_iff. cbn. auto.
    - assert (It' : In t (tabs e s (flat_map g pre))).
      { unfold tabs. rewrite flat_map_flat_map'. exact It. }
      apply (tabs_ends e s start) in It' as (j & Ij & Hj); auto.
      2:{ intros I. apply in_flat_map in I as ([x|x] & _ & I); cbn in I.
          - destruct I as [I|[]]. discriminate.
          - destruct (nth_error (branches s) x); [|destruct I]. rewrite !in_app_iff in I.
            destruct I as [I|[I|[I|[]]]]; try discriminate.
            + apply in_map_iff in I as (y & Y & _). discriminate.
            + apply in_flat_map in I as (y & _ & I). eapply items_no_opening; eauto. }
      rewrite Et in Hj. revert Hj. apply (Sep bid i j l); auto.
      + intros Hin. apply IN in Hin. eapply NoDup_app_disj; [exact ND|exact Ij|].
        rewrite !in_app_iff. auto.
      + intros ->. eapply NoDup_app_disj; [exact ND|exact Ij|]. rewrite !in_app_iff. cbn. auto.
      + intros bo -> Ho. apply in_flat_map in Ij as (part & Ipart & Ij).
        destruct part as [x|x]; [cbn in Ij; destruct Ij as [Ij|[]]; discriminate|].
        assert (Ip2 : In (Branching x) (c_data c)) by (rewrite Ed; apply in_or_app; auto).
        destruct (branch_lt s cid c x Sh Ec Ip2) as [Ix (bx & Ebx)].
        assert (Lx : forall k, In k (br_nested bx) -> k < length (colls s) /\ length (colls s) - k <= f).
        { intros k Ik. pose proof (sh_below s Sh cid c x bx k Ec Ix Ebx Ik).
          pose proof (nested_lt s x bx k Sh Ebx Ik). lia. }
        assert (Io : In (OfBranch bid) (g (Branching x))).
        { cbn in Ij |- *. rewrite Ebx in Ij |- *. rewrite !in_app_iff in Ij |- *.
          destruct Ij as [Ij|[Ij|[Ij|[]]]].
          - apply in_map_iff in Ij as (y & Y & _). discriminate.
          - right. left. apply in_flat_map in Ij as (k & Ik & Ij). apply in_flat_map. exists k. split; auto.
            destruct (Lx k Ik). eapply inside_items; eauto.
          - injection Ij as <-. right. left.
            apply (inside_iff s x bx f) in Ho; auto; [|intros k Ik; apply Lx; auto].
            apply in_app_or in Ho as [Ho|Ho]; auto. apply in_map_iff in Ho as (y & Y & _). discriminate. }
        eapply NoDup_app_disj; [exact ND|apply in_flat_map; exists (Branching x); split; [exact Ipart|exact Io]|].
        rewrite !in_app_iff. cbn. auto. }
  (* the branch *)
  unfold insert_branch in E. rewrite Eb in E. destruct (br_reach b) as [from to] eqn:Er.
  destruct (into_diff e from to) as [d|] eqn:Edf; [|discriminate].
  destruct (each (insert_segment e s) [] (br_splits b)) as [t1|] eqn:E1; [|discriminate].
  destruct (each (insert_collection e s f) t1 (br_nested b)) as [t2|] eqn:E2; [|discriminate].
  destruct (get_branch_scope s bid) as [sc|] eqn:Esc; [|discriminate].
  injection E as <-.
  assert (G1 : Grown [] t1 (flat_map (stab e s) (br_splits b))).
  { destruct (each_Grown (insert_segment e s) (stab e s) (br_splits b)
                (fun x r I => insert_segment_Grown e s r x W (splits_lt s bid b x Sh Eb I)) []) as (t & Et & G).
    congruence. }
  assert (X1 : Exact [] t1 (flat_map (stab e s) (br_splits b))).
  { eapply each_Exact; [|exact E1]. intros. apply insert_segment_Exact; auto. }
  assert (GN : forall k r0 r', In k (br_nested b) -> insert_collection e s f r0 k = Some r' ->
      Grown r0 r' (tabs e s (items s f k))).
  { intros k q q' Ik Eq. destruct (Lf k Ik) as [H1 H2].
    destruct (insert_collection_Grown e s Sh W HA f k q H1 H2) as (q2 & Eq2 & G). congruence. }
  assert (Stabs : tabs e s (map OfSeg (br_splits b)) = flat_map (stab e s) (br_splits b)).
  { unfold tabs. rewrite flat_map_map'. auto. }
  assert (G2 : Grown t1 t2 (flat_map (fun k => tabs e s (items s f k)) (br_nested b))).
  { destruct (each_Grown (insert_collection e s f) (fun k => tabs e s (items s f k)) (br_nested b)) with (r := t1)
      as (t & Et & G).
    - intros k q Ik. destruct (Lf k Ik) as [H1 H2]. apply insert_collection_Grown; auto.
    - congruence. }
  assert (NDb : NoDup (binside s f b)).
  { apply NoDup_app_r in ND. rewrite <- app_assoc in ND. apply NoDup_app_l in ND. auto. }
  assert (X2 : Exact t1 t2 (flat_map (fun k => tabs e s (items s f k)) (br_nested b))).
  { eapply each_Exact; [|exact E2]. intros npre k npost q0 q1 En Gq Eq.
    assert (Ik : In k (br_nested b)) by (rewrite En; apply in_or_app; right; left; auto).
    split; [apply GN; auto|]. destruct (Lf k Ik) as [H1 H2].
    unfold binside in NDb. rewrite En, flat_map_app in NDb. cbn [flat_map] in NDb. rewrite app_assoc in NDb.
    apply (IH k); auto.
    - apply NoDup_app_r in NDb. apply NoDup_app_l in NDb. auto.
    - intros bid' i l Ib' Hi Hl I.
      pose proof (Grown_trans _ _ _ _ _ G1 Gq) as Gall.
      apply (g_keys _ _ _ Gall) in I as [[]|(t & It & Et)].
      rewrite <- Stabs in It.
      assert (It' : In t (tabs e s (map OfSeg (br_splits b) ++ flat_map (items s f) npre))).
      { rewrite tabs_app. unfold tabs at 2. rewrite flat_map_flat_map'. exact It. }
      apply (tabs_ends e s start) in It' as (j & Ij & Hj); auto.
      2:{ intros I. apply in_app_or in I as [I|I].
          - apply in_map_iff in I as (y & Y & _). discriminate.
          - apply in_flat_map in I as (y & _ & I). eapply items_no_opening; eauto. }
      rewrite Et in Hj. revert Hj. apply (Sep bid' i j l); auto.
      + intros Hin. eapply NoDup_app_disj; [exact NDb|exact Ij|]. apply in_or_app. left.
        eapply inside_items; eauto.
      + intros ->. eapply NoDup_app_disj; [exact NDb|exact Ij|]. apply in_or_app. left. auto.
      + intros bo -> Ho. apply in_app_or in Ij as [Ij|Ij].
        { apply in_map_iff in Ij as (y & Y & _). discriminate. }
        apply in_flat_map in Ij as (k' & Ik' & Ij).
        assert (Ik2 : In k' (br_nested b)) by (rewrite En; apply in_or_app; auto).
        destruct (Lf k' Ik2) as [H3 H4].
        pose proof (inside_items s f k' bo _ Sh H3 H4 Ij Ho) as Io.
        eapply NoDup_app_disj; [exact NDb| |apply in_or_app; left; exact Ib'].
        apply in_or_app. right. apply in_flat_map. eauto. }
  pose proof (Grown_trans _ _ _ _ _ G1 G2) as G12.
  pose proof (Exact_trans _ _ _ _ _ X1 X2) as X12.
  assert (Einside : tabs e s (binside s f b) =
    flat_map (stab e s) (br_splits b) ++ flat_map (fun k => tabs e s (items s f k)) (br_nested b)).
  { unfold binside. rewrite tabs_app, Stabs. f_equal. unfold tabs. apply flat_map_flat_map'. }
  rewrite <- Einside in G12, X12.
  assert (NDm : NoDup (akeys t2)) by (apply (g_nodup _ _ _ G12); constructor).
  assert (Eb1 : flat_map (tab e s) (g (Branching bid)) = tabs e s (binside s f b) ++
     [Table (e_reach_span e from to) from to (filter (fun pd => memb Nat.eq_dec (e_local e (fst pd))
            (match aget Nat.eq_dec (e_locals_at e) sc with Some v => v | None => [] end)) d)]).
  { rewrite Eg, flat_map_app. f_equal. cbn. unfold btab. rewrite Eb, Er. cbn [fst snd]. rewrite Edf, Esc. auto. }
  match goal with |- Grown _ _ ?x /\ _ => change x with (flat_map (tab e s) (g (Branching bid))) end.
  rewrite Eb1. split.
  - eapply Grown_trans; [apply Grown_extend; eauto|]. apply (Grown_push _ (Table _ _ _ _)).
  - eapply Exact_trans; [|apply (Exact_push _ (Table _ _ _ _))].
    apply Exact_extend; auto. intros l Il. apply (g_keys _ _ _ G12) in Il as [[]|(t & It & Et)].
    apply (tabs_ends e s start) in It as (i & Ii & Hi); auto.
    + rewrite Et in Hi. apply (K0 i l); auto. apply IN. auto.
    + intros I. apply in_app_or in I as [I|I].
      * apply in_map_iff in I as (y & Y & _). discriminate.
      * apply in_flat_map in I as (y & _ & I). eapply items_no_opening; eauto.
Qed.

(** ** When it panics *)

Lemma each_Some {A} (f : tables -> A -> option tables) l : forall r r', each f r l = Some r' ->
  forall x, In x l -> exists r0 r1, f r0 x = Some r1.
Proof.
  induction l as [|y l IH]; intros r r' E x I; [destruct I|]. cbn [each] in E.
  destruct (f r y) as [r1|] eqn:Ey; [|discriminate]. destruct I as [<-|I]; eauto.
Qed.

Lemma get_branch_scope_arms s bid sc b : get_branch_scope s bid = Some sc -> nth_error (branches s) bid = Some b ->
  br_splits b <> [].
Proof. unfold get_branch_scope. intros H E N. rewrite E, N in H. discriminate. Qed.

Lemma insert_collection_arms e s : forall fuel cid r r', insert_collection e s fuel r cid = Some r' ->
  forall bid b, In (OfBranch bid) (items s fuel cid) -> nth_error (branches s) bid = Some b -> br_splits b <> [].
Proof.
  induction fuel as [|f IH]; intros cid r r' E bid b I Eb; [discriminate|].
  cbn [insert_collection items] in *. destruct (nth_error (colls s) cid) as [c|]; [|discriminate].
  apply in_flat_map in I as (part & Ip & I). destruct (each_Some _ _ _ _ E part Ip) as (r0 & r1 & Er).
  destruct part as [x|x]; [destruct I as [I|[]]; discriminate|].
  unfold insert_branch in Er. destruct (nth_error (branches s) x) as [bx|] eqn:Ebx; [|discriminate].
  destruct (br_reach bx) as [from to]. destruct (into_diff e from to); [|discriminate].
  destruct (each (insert_segment e s) [] (br_splits bx)) as [t1|]; [|discriminate].
  destruct (each (insert_collection e s f) t1 (br_nested bx)) as [t2|] eqn:E2; [|discriminate].
  destruct (get_branch_scope s x) as [sc|] eqn:Esc; [|discriminate].
  rewrite !in_app_iff in I. destruct I as [I|[I|[I|[]]]].
  - apply in_map_iff in I as (y & Y & _). discriminate.
  - apply in_flat_map in I as (k & Ik & I). destruct (each_Some _ _ _ _ E2 k Ik) as (q & q' & Eq). eapply IH; eauto.
  - injection I as <-. eapply get_branch_scope_arms; eauto.
Qed.

(** ** The whole body *)

Lemma colls_pos s : Shape s -> 0 < length (colls s).
Proof.
  intros Sh. pose proof (sh_nested s Sh) as E. destruct (colls s); [discriminate|cbn; lia].
Qed.

Definition opening (e : env) (start : loc) (brace : nat) (t : table) : Prop :=
  exists d, diff_domain (e_bottom e) (e_dom e start) = Some d /\ t = Table brace start start d.

Lemma opening_ok e start brace : WfEnv e -> exists t, opening e start brace t /\ t_to t = start /\
  forall s, TableOf e s start brace Opening t.
Proof.
  intros W. destruct (diff_domain_Change (e_bottom e) (e_dom e start)) as (d & Ed & ND & Sp).
  - apply (W start).
  - intros p. apply (W start).
  - exists (Table brace start start d). split; [exists d; auto|]. split; auto. intros s. split; cbn; auto.
Qed.

Definition seen (s : st) : list item := items s (S (length (colls s))) 0.

Lemma seen_perm s : Shape s -> Permutation (Opening :: seen s) (all_items s).
Proof. intros Sh. constructor. apply items_perm; auto. Qed.

Lemma seen_not_opening s i : In i (seen s) -> i <> Opening.
Proof. intros I ->. eapply items_no_opening; eauto. Qed.

Lemma seen_NoDup s : Shape s -> NoDup (seen s).
Proof.
  intros Sh. eapply Permutation_NoDup; [apply Permutation_sym, items_perm; auto|].
  apply NoDup_app_intro.
  - apply FinFun.Injective_map_NoDup; [intros x y [=]; auto|apply seq_NoDup].
  - apply FinFun.Injective_map_NoDup; [intros x y [=]; auto|apply seq_NoDup].
  - intros x I1 I2. apply in_map_iff in I1 as (y & <- & _). apply in_map_iff in I2 as (z & E & _). discriminate.
Qed.

Lemma Grown_at_start t : Grown [] (push [] (t_to t) t) [t].
Proof. apply Grown_push. Qed.

Lemma body_tables_Grown e s start brace : Shape s -> WfEnv e -> HasArms s ->
  exists r t, body_tables e s start brace = Some r /\ opening e start brace t /\ t_to t = start /\
    TableOf e s start brace Opening t /\ Grown [] r (t :: tabs e s (seen s)).
Proof.
  intros Sh W HA. destruct (opening_ok e start brace W) as (t & O & Et & T). pose proof O as (d & Ed & Ot).
  unfold body_tables. rewrite Ed, <- Ot.
  destruct (insert_collection_Grown e s Sh W HA (S (length (colls s))) 0 (push [] start t)) as (r & Er & G).
  - apply colls_pos; auto.
  - lia.
  - exists r, t. split; auto. split; auto. split; auto. split; auto.
    change (t :: tabs e s (seen s)) with ([t] ++ tabs e s (seen s)). eapply Grown_trans; [|exact G].
    pose proof (Grown_at_start t) as G0. rewrite Et in G0. exact G0.
Qed.

Lemma body_tables_arms e s start brace r : Shape s -> body_tables e s start brace = Some r -> HasArms s.
Proof.
  intros Sh E b Ib. unfold body_tables in E. destruct (diff_domain (e_bottom e) (e_dom e start)); [|discriminate].
  apply In_nth_error in Ib as (bid & Eb). eapply insert_collection_arms; eauto.
  change (In (OfBranch bid) (seen s)). assert (I : In (OfBranch bid) (Opening :: seen s)).
  { eapply Permutation_in; [apply Permutation_sym, seen_perm; auto|]. right. apply in_or_app. right.
    apply in_map, in_seq. split; [lia|]. apply nth_error_Some. congruence. }
  destruct I as [I|I]; [discriminate|auto].
Qed.

Lemma all_items_seen s i : Shape s -> In i (all_items s) -> i = Opening \/ In i (seen s).
Proof.
  intros Sh I. eapply Permutation_in in I; [|apply Permutation_sym, seen_perm; auto]. destruct I; auto.
Qed.

Lemma seen_all s i : Shape s -> In i (seen s) -> In i (all_items s).
Proof. intros Sh I. eapply Permutation_in; [apply seen_perm; auto|]. right. auto. Qed.

Lemma body_tables_sound e s start brace r : Shape s -> WfEnv e -> body_tables e s start brace = Some r ->
  forall l t, In t (at_loc r l) -> exists i, In i (all_items s) /\ Ends s start i l /\ TableOf e s start brace i t.
Proof.
  intros Sh W E l t I. pose proof (body_tables_arms _ _ _ _ _ Sh E) as HA.
  destruct (body_tables_Grown e s start brace Sh W HA) as (r0 & t0 & E0 & _ & Et & T & G).
  rewrite E in E0. injection E0 as <-.
  apply (g_sound _ _ _ G) in I as [[]|[[<-|I] El]].
  - exists Opening. split; [left; auto|]. split; auto. cbn. congruence.
  - apply in_flat_map in I as (i & Ii & It).
    destruct (tab_spec e s start brace i t) as [H1 H2]; auto.
    { eapply seen_not_opening; eauto. }
    exists i. rewrite <- El. split; auto. apply seen_all; auto.
Qed.

Lemma body_tables_kept e s start brace r : Shape s -> WfEnv e -> body_tables e s start brace = Some r ->
  forall i l, In i (all_items s) -> Ends s start i l -> at_loc r l <> [].
Proof.
  intros Sh W E i l I H. pose proof (body_tables_arms _ _ _ _ _ Sh E) as HA.
  destruct (body_tables_Grown e s start brace Sh W HA) as (r0 & t0 & E0 & _ & Et & T & G).
  rewrite E in E0. injection E0 as <-.
  apply (g_some _ _ _ G); [intros x []|]. apply (g_keys _ _ _ G). right.
  apply all_items_seen in I as [->|I]; auto.
  - exists t0. split; [left; auto|]. cbn in H. congruence.
  - destruct (tab_ends e s start i l) as (t & Et' & El); auto.
    { eapply seen_not_opening; eauto. }
    exists t. split; auto. right. apply in_flat_map. exists i. split; auto. rewrite Et'. left; auto.
Qed.

Lemma Ends_dec s start i l : {Ends s start i l} + {~ Ends s start i l}.
Proof.
  destruct i as [|sid|bid]; cbn.
  - apply loc_eqd.
  - destruct (nth_error (segs s) sid) as [sg|] eqn:E.
    + destruct (loc_eqd (s_from sg) (s_to sg)) as [Eq|N].
      * right. intros (sg' & [= <-] & H & _). auto.
      * destruct (loc_eqd (s_to sg) l) as [Eq|N2].
        -- left. eauto.
        -- right. intros (sg' & [= <-] & _ & H). auto.
    + right. intros (sg' & H & _). discriminate.
  - destruct (nth_error (branches s) bid) as [b|] eqn:E.
    + destruct (loc_eqd (snd (br_reach b)) l) as [Eq|N].
      * left. eauto.
      * right. intros (b' & [= <-] & H). auto.
    + right. intros (b' & H & _). discriminate.
Qed.

Lemma tabs_at e s start brace l : Shape s -> WfEnv e -> HasArms s -> forall is, ~ In Opening is ->
  Forall2 (TableOf e s start brace) (filter (fun i => if Ends_dec s start i l then true else false) is)
    (filter (fun t => if loc_eqd (t_to t) l then true else false) (tabs e s is)).
Proof.
  intros Sh W HA. induction is as [|i is IH]; intros N; [constructor|].
  assert (NO : i <> Opening) by (intros ->; apply N; left; auto).
  change (tabs e s (i :: is)) with (tab e s i ++ tabs e s is). rewrite filter_app. cbn [filter].
  assert (IH' := IH (fun H => N (or_intror H))). clear IH.
  destruct (Ends_dec s start i l) as [H|H].
  - destruct (tab_ends e s start i l Sh W HA NO H) as (t & Et & El). rewrite Et. cbn [filter].
    destruct (loc_eqd (t_to t) l); [|congruence]. cbn [app]. constructor; auto.
    apply (tab_spec e s start brace i t); auto. rewrite Et. left; auto.
  - replace (filter _ (tab e s i)) with (@nil table); auto.
    symmetry. destruct (tab e s i) as [|t ts] eqn:E; auto.
    assert (L : ts = []).
    { destruct i as [|x|x]; cbn in E; [congruence| |].
      - unfold stab in E. destruct (nth_error (segs s) x); [|discriminate]. destruct (loc_eqd _ _); [discriminate|].
        destruct (into_diff _ _ _); [|discriminate]. injection E. auto.
      - unfold btab in E. destruct (nth_error (branches s) x); [|discriminate].
        destruct (into_diff _ _ _); [|discriminate]. destruct (get_branch_scope _ _); [|discriminate].
        injection E. auto. }
    subst ts. cbn. destruct (loc_eqd (t_to t) l) as [El|]; auto. exfalso. apply H. rewrite <- El.
    apply (tab_spec e s start brace i t); auto. rewrite E. left; auto.
Qed.

Lemma body_tables_exact e s start brace r : Shape s -> WfEnv e -> Separate s start ->
  body_tables e s start brace = Some r ->
  forall l, exists is, NoDup is /\ (forall i, In i is <-> In i (all_items s) /\ Ends s start i l) /\
    Forall2 (TableOf e s start brace) is (at_loc r l).
Proof.
  intros Sh W Sep E l. pose proof (body_tables_arms _ _ _ _ _ Sh E) as HA.
  destruct (opening_ok e start brace W) as (t & O & Et & T). pose proof O as (d & Ed & Ot).
  unfold body_tables in E. rewrite Ed, <- Ot in E.
  apply (insert_collection_Exact e s start Sh W HA Sep) in E.
  2:{ apply colls_pos; auto. }
  2:{ lia. }
  2:{ apply seen_NoDup; auto. }
  2:{ intros bid i l' Ib Hi Hl I. unfold push in I. apply akeys_aset in I as [->|[]].
      revert Hi Hl. intros Hi Hl. apply (Sep bid i Opening start Hi); cbn; auto; try discriminate. }
  specialize (E l). rewrite at_loc_push in E. cbn [at_loc aget app] in E.
  exists (filter (fun i => if Ends_dec s start i l then true else false) (Opening :: seen s)).
  split; [|split].
  - apply NoDup_filter. constructor; [apply items_no_opening|apply seen_NoDup; auto].
  - intros i. rewrite filter_In. destruct (Ends_dec s start i l) as [H|H].
    + split; intros [I _]; split; auto.
      * destruct I as [<-|I]; [left; auto|apply seen_all; auto].
      * apply all_items_seen in I as [->|I]; auto; [left; auto|right; auto].
    + split; [intros [_ X]; discriminate|intros [_ X]; contradiction].
  - rewrite E. cbn [filter].
    destruct (Ends_dec s start Opening l) as [H|H], (loc_eqd l start) as [El|El]; cbn in H; try congruence.
    + apply (Forall2_app (l1 := [Opening])); [constructor; auto|]. apply tabs_at; auto. apply items_no_opening.
    + apply (Forall2_app (l1 := [])); [constructor|]. apply tabs_at; auto. apply items_no_opening.
Qed.

(** ** Deciding [Separate] on an example *)

Definition end_of (s : st) (start : loc) (i : item) : option loc :=
  match i with
  | Opening => Some start
  | OfSeg sid => match nth_error (segs s) sid with
                 | Some sg => if loc_eqd (s_from sg) (s_to sg) then None else Some (s_to sg)
                 | None => None end
  | OfBranch bid => option_map (fun b => snd (br_reach b)) (nth_error (branches s) bid)
  end.

Lemma end_of_Ends s start i l : Ends s start i l -> end_of s start i = Some l.
Proof.
  destruct i as [|sid|bid]; cbn.
  - intros ->. auto.
  - intros (sg & -> & N & <-). destruct (loc_eqd _ _); congruence.
  - intros (b & -> & <-). auto.
Qed.

Definition item_eqd (a b : item) : {a = b} + {a <> b}.
Proof. decide equality; apply Nat.eq_dec. Defined.

Definition insides (s : st) (bid : nat) : list item :=
  match nth_error (branches s) bid with Some b => binside s (length (colls s)) b | None => [] end.

Definition separate_check (s : st) (start : loc) : bool :=
  forallb (fun bid =>
    forallb (fun i =>
      forallb (fun j =>
        memb item_eqd j (insides s bid)
        || (if item_eqd j (OfBranch bid) then true else false)
        || match j with OfBranch bid' => memb item_eqd (OfBranch bid) (insides s bid') | _ => false end
        || match end_of s start i, end_of s start j with
           | Some a, Some b => if loc_eqd a b then false else true
           | _, _ => true
           end) (all_items s)) (insides s bid)) (seq 0 (length (branches s))).

Lemma insides_iff s bid i : Shape s -> Inside s bid i <-> In i (insides s bid).
Proof.
  intros Sh. unfold insides. destruct (nth_error (branches s) bid) as [b|] eqn:E.
  - apply inside_iff; auto. intros k _. lia.
  - split; [|intros []]. intros H. apply Inside_branch in H as (b & Eb). congruence.
Qed.

Lemma Ends_item s start i l : Ends s start i l -> In i (all_items s).
Proof.
  unfold all_items. destruct i as [|sid|bid]; cbn [Ends].
  - intros _. left; auto.
  - intros (sg & E & _). right. apply in_or_app. left. apply in_map, in_seq. split; [lia|].
    apply nth_error_Some. congruence.
  - intros (b & E & _). right. apply in_or_app. right. apply in_map, in_seq. split; [lia|].
    apply nth_error_Some. congruence.
Qed.

Lemma separate_check_ok s start : Shape s -> separate_check s start = true -> Separate s start.
Proof.
  intros Sh C bid i j l Hi Hj Nb Ne Ei Ej. unfold separate_check in C.
  destruct (Inside_branch s bid i Hi) as (b & Eb).
  rewrite forallb_forall in C. specialize (C bid). rewrite forallb_forall in C.
  assert (Lb : In bid (seq 0 (length (branches s)))) by (apply in_seq; split; [lia|]; apply nth_error_Some; congruence).
  specialize (C Lb i (proj1 (insides_iff s bid i Sh) Hi)). rewrite forallb_forall in C.
  specialize (C j (Ends_item _ _ _ _ Ej)). rewrite !orb_true_iff in C.
  rewrite (end_of_Ends _ _ _ _ Ei), (end_of_Ends _ _ _ _ Ej) in C.
  destruct C as [[[C|C]|C]|C].
  - apply memb_In in C. apply Hj. apply insides_iff; auto.
  - destruct (item_eqd j (OfBranch bid)); [auto|discriminate].
  - destruct j as [| |bid']; try discriminate. apply memb_In in C. apply (Ne bid' eq_refl), insides_iff; auto.
  - destruct (loc_eqd l l); [discriminate|congruence].
Qed.
