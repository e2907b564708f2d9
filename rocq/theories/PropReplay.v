(** * C91: the changes that are shown add up *)
From Coq Require Import List Arith Bool Lia Permutation.
From Verif Require Import Base PermsModel PermsSpec PermsProofs CfgModel CfgSpec CfgProofs SegMirModel SegMirSpec SegMirProofs SegMirScopes
  TablesModel TablesSpec TablesProofs TablesExact PropSegMir PropTables ReplaySpec.
Import ListNotations.

(** ** Ways *)

Lemma NoDup_left {A} (l m : list A) : NoDup (l ++ m) -> NoDup l.
Proof.
  induction l as [|x l IH]; cbn; intros N; [constructor|]. apply NoDup_cons_iff in N as (H & N). constructor; auto.
  intros I. apply H, in_app_iff. auto.
Qed.

Lemma NoDup_right {A} (l m : list A) : NoDup (l ++ m) -> NoDup m.
Proof. induction l as [|x l IH]; cbn; intros N; auto. apply NoDup_cons_iff in N as (_ & N). auto. Qed.

Lemma nested_unique s cid b1 k1 sid1 b2 k2 sid2 : Shape s -> Arm s b1 k1 sid1 cid -> Arm s b2 k2 sid2 cid -> sid1 = sid2.
Proof.
  intros Sh (x1 & B1 & S1 & N1) (x2 & B2 & S2 & N2).
  assert (ND : NoDup (flat_map br_nested (branches s))).
  { pose proof (seq_NoDup (length (colls s)) 0) as ND. rewrite <- (sh_nested _ Sh) in ND. apply NoDup_cons_iff in ND. tauto. }
  assert (E : b1 = b2 /\ k1 = k2).
  { clear - ND B1 B2 N1 N2. revert b1 b2 B1 B2. induction (branches s) as [|y r IH]; intros b1 b2 B1 B2.
    - destruct b1; discriminate.
    - cbn [flat_map] in ND. apply NoDup_right in ND as NDr. destruct b1 as [|b1], b2 as [|b2]; cbn [nth_error] in B1, B2.
      + injection B1 as ->. injection B2 as ->. split; auto. eapply (proj1 (NoDup_nth_error (br_nested x2))).
        * apply NoDup_left in ND. auto.
        * apply nth_error_Some. congruence.
        * congruence.
      + exfalso. injection B1 as ->. apply nth_error_In in B2, N1, N2.
        assert (I : In cid (flat_map br_nested r)) by (apply in_flat_map; eauto).
        clear - ND I N1. revert ND N1. generalize (br_nested x1). intros l. induction l as [|z l IH]; cbn; intros ND [].
        * subst. apply NoDup_cons_iff in ND as (A & _). apply A, in_app_iff. auto.
        * apply NoDup_cons_iff in ND as (_ & ND). auto.
      + exfalso. injection B2 as ->. apply nth_error_In in B1, N1, N2.
        assert (I : In cid (flat_map br_nested r)) by (apply in_flat_map; eauto).
        clear - ND I N2. revert ND N2. generalize (br_nested x2). intros l. induction l as [|z l IH]; cbn; intros ND [].
        * subst. apply NoDup_cons_iff in ND as (A & _). apply A, in_app_iff. auto.
        * apply NoDup_cons_iff in ND as (_ & ND). auto.
      + destruct (IH NDr b1 b2 B1 B2) as (-> & ->). auto. }
  destruct E as (-> & ->). congruence.
Qed.

Lemma arm_positive s bid k sid cid : Shape s -> Arm s bid k sid cid -> cid <> 0.
Proof.
  intros Sh (b & B & _ & N) ->. pose proof (seq_NoDup (length (colls s)) 0) as ND. rewrite <- (sh_nested _ Sh) in ND.
  apply NoDup_cons_iff in ND as (A & _). apply A. apply in_flat_map. exists b. split; eapply nth_error_In; eauto.
Qed.

Section Exists.
  Context (s : st) (pick : nat -> choice) (Sh : Shape s) (Ch : Chained s) (PK : Picks s pick).

  (** The way through the collections with larger numbers gives the one through a list of items. *)
  Lemma way_items n :
    (forall cid c p, n < cid -> nth_error (colls s) cid = Some c -> BeginsAt s cid p ->
      exists xs jumps q, Way s pick p (c_data c) xs jumps q) ->
    forall p data q, Chain s p data q ->
    (forall bid b k, In (Branching bid) data -> nth_error (branches s) bid = Some b -> In k (br_nested b) -> n < k) ->
    exists xs jumps q', Way s pick p data xs jumps q'.
  Proof.
    intros IH. assert (ARM : forall p bid b k, nth_error (branches s) bid = Some b -> k < length (br_splits b) ->
      (forall sid, In sid (br_splits b) -> exists sg, nth_error (segs s) sid = Some sg /\ s_from sg = p) ->
      (forall k, In k (br_nested b) -> n < k) ->
      exists sid sg cid c xs jumps q, Arm s bid k sid cid /\ nth_error (segs s) sid = Some sg /\ s_from sg = p /\
        nth_error (colls s) cid = Some c /\ Way s pick (s_to sg) (c_data c) xs jumps q).
    { intros p bid b k E LK SP BL.
      destruct (nth_error (br_splits b) k) as [sid|] eqn:ES; [|apply nth_error_None in ES; lia].
      destruct (nth_error (br_nested b) k) as [cid|] eqn:EN.
      2: { apply nth_error_None in EN. rewrite (sh_arms _ Sh) in LK by (eapply nth_error_In; eauto). lia. }
      destruct (SP sid) as (sg & EG & F); [eapply nth_error_In; eauto|].
      assert (LT : n < cid) by (eapply BL, nth_error_In; eauto).
      assert (CL : cid < length (colls s)).
      { assert (I : In cid (0 :: flat_map br_nested (branches s))) by (right; apply in_flat_map; exists b; split; eapply nth_error_In; eauto).
        rewrite (sh_nested _ Sh) in I. apply in_seq in I. lia. }
      destruct (nth_error (colls s) cid) as [c|] eqn:EC; [|apply nth_error_None in EC; lia].
      assert (A : Arm s bid k sid cid) by (exists b; auto).
      destruct (IH cid c (s_to sg) LT EC) as (xs1 & jumps1 & q1 & W1); [right; exists bid, k, sid, sg; auto|].
      exists sid, sg, cid, c, xs1, jumps1, q1. auto 6. }
    intros p data q C. induction C as [p|p sid sg r q E F C IHC|p bid b r q E SP J C IHC|p bid b r q E SP J C IHC]; intros BL.
    - exists [], [], p. constructor.
    - destruct IHC as (xs & jumps & q' & W); [intros; eapply BL; eauto; right; auto|].
      exists (OfSeg sid :: xs), jumps, q'. econstructor; eauto.
    - destruct IHC as (xs & jumps & q' & W); [intros; eapply BL; eauto; right; auto|].
      pose proof (PK bid b E) as K. destruct (pick bid) as [k| |] eqn:EP; [| |contradiction].
      2: { exists (OfBranch bid :: xs), ((p, fst (br_reach b)) :: jumps), q'. apply way_whole; auto. }
      destruct (ARM p bid b k E K SP) as (sid & sg & cid & c & xs1 & jumps1 & q1 & A & G & F & EC & W1).
      { intros. eapply BL; eauto. left. auto. }
      exists (OfSeg sid :: xs1 ++ xs), (jumps1 ++ (q1, snd (br_reach b)) :: jumps), q'. eapply way_join; eauto.
    - pose proof (PK bid b E) as K. destruct (pick bid) as [k| |] eqn:EP; [|contradiction|].
      + destruct (ARM p bid b k E K SP) as (sid & sg & cid & c & xs1 & jumps1 & q1 & A & G & F & EC & W1).
        { intros. eapply BL; eauto. left. auto. }
        exists (OfSeg sid :: xs1), jumps1, q1. eapply way_out; eauto.
      + destruct IHC as (xs & jumps & q' & W); [intros; eapply BL; eauto; right; auto|].
        exists xs, jumps, q'. eapply way_past; eauto.
  Qed.

  Lemma begins_unique cid p p' : BeginsAt s cid p -> BeginsAt s cid p' -> p = p'.
  Proof.
    intros [(E & ->)|(b & k & sid & sg & A & G & <-)] [(E' & ->)|(b' & k' & sid' & sg' & A' & G' & <-)]; auto.
    - exfalso. apply (arm_positive _ _ _ _ _ Sh A'). auto.
    - exfalso. apply (arm_positive _ _ _ _ _ Sh A). auto.
    - rewrite (nested_unique _ _ _ _ _ _ _ _ Sh A A') in G. congruence.
  Qed.

  Lemma way_coll m : forall cid c p, length (colls s) <= cid + m -> nth_error (colls s) cid = Some c -> BeginsAt s cid p ->
    exists xs jumps q, Way s pick p (c_data c) xs jumps q.
  Proof.
    induction m as [|m IH]; intros cid c p L EC BG.
    - assert (cid < length (colls s)) by (apply nth_error_Some; congruence). lia.
    - destruct (Ch cid c EC) as (p' & q & BG' & C & _). rewrite <- (begins_unique _ _ _ BG BG') in C.
      destruct (way_items cid) with (p := p) (data := c_data c) (q := q) as (xs & jumps & q' & W); eauto.
      + intros cid' c' p0 LT EC' BG0. apply (IH cid' c' p0); auto. lia.
      + intros bid b k I EB IN. eapply (sh_below _ Sh); eauto. apply in_flat_map. exists (Branching bid). split; auto. left; auto.
  Qed.
End Exists.

(** Whichever arms one takes, there is a way through the whole body: from its beginning,
    along the steps that were collected. *)
Theorem C91_ways fw bd ord s pick c : Built fw bd ord s -> nth_error (colls s) 0 = Some c ->
  Picks s pick -> exists xs jumps q, Way s pick (Loc 0 0) (c_data c) xs jumps q.
Proof.
  intros B EC PK. pose proof (Shape_Built _ _ _ _ B) as Sh. apply Built_Steps in B. pose proof (Chained_Steps _ _ _ _ _ B) as Ch.
  apply (way_coll s pick Sh Ch PK (length (colls s)) 0 c (Loc 0 0)); [lia|auto|left; auto].
Qed.
Print Assumptions C91_ways.

(** ** Replaying *)

Definition ends_of (s : st) (i : item) : option (loc * loc) :=
  match i with
  | Opening => None
  | OfSeg sid => option_map (fun sg => (s_from sg, s_to sg)) (nth_error (segs s) sid)
  | OfBranch bid => option_map br_reach (nth_error (branches s) bid)
  end.

Lemma Leads_ends s i a b : Leads s i a b <-> ends_of s i = Some (a, b).
Proof.
  destruct i as [|sid|bid]; cbn; [split; [intros []|discriminate]| |].
  - destruct (nth_error (segs s) sid) as [sg|]; cbn; split; try discriminate.
    + intros (x & [= <-] & <- & <-). reflexivity.
    + intros [= <- <-]. eauto.
    + intros (x & E & _). discriminate.
  - destruct (nth_error (branches s) bid) as [b0|]; cbn; split; try discriminate.
    + intros (x & [= <-] & <- & <-). destruct (br_reach b0); reflexivity.
    + intros H. injection H as H. exists b0. rewrite H. auto.
    + intros (x & E & _). discriminate.
Qed.

Definition nothing : DataDiff :=
  diff_data (mkPD false false false false false None None None None) (mkPD false false false false false None None None None).

Definition row_of (e : env) (s : st) (p : PlaceId) (i : item) : DataDiff :=
  match ends_of s i with
  | Some (a, b) =>
    match aget Nat.eq_dec (e_dom e a) p, aget Nat.eq_dec (e_dom e b) p with
    | Some x, Some y => diff_data x y
    | _, _ => nothing
    end
  | None => nothing
  end.

Lemma read_row_diff x y : read_row (diff_data x y) (permissions x) = permissions y.
Proof. exact (after_diff_data_perms x y). Qed.

Lemma known e l p : WfEnv e -> In p (akeys (e_bottom e)) -> exists x, aget Nat.eq_dec (e_dom e l) p = Some x.
Proof.
  intros W I. destruct (W l) as (_ & K & _). apply K in I. destruct (aget Nat.eq_dec (e_dom e l) p) eqn:E; eauto.
  apply aget_None in E. contradiction.
Qed.

Definition replayed (e : env) (s : st) (p : PlaceId) (xs : list item) (a : Permissions) : Permissions :=
  fold_left (fun a d => read_row d a) (map (row_of e s p) (moving s xs)) a.

Lemma replayed_one e s p i a b xs x : WfEnv e -> In p (akeys (e_bottom e)) -> ends_of s i = Some (a, b) ->
  letters (e_dom e a) p = Some x ->
  exists y, letters (e_dom e b) p = Some y /\ replayed e s p (i :: xs) x = replayed e s p xs y.
Proof.
  intros W K E L. destruct (known e a p W K) as (u & U). destruct (known e b p W K) as (v & V).
  exists (permissions v). unfold letters in *. rewrite V. split; [reflexivity|]. rewrite U in L. injection L as <-.
  unfold replayed, moving. cbn [filter]. destruct (moves s i) eqn:M.
  - cbn [map fold_left]. unfold row_of at 2. rewrite E, U, V, read_row_diff. reflexivity.
  - destruct i as [|sid|bid]; try discriminate. cbn in M, E. destruct (nth_error (segs s) sid) as [sg|]; [|discriminate].
    injection E as <- <-. destruct (loc_eqd (s_from sg) (s_to sg)) as [EQ|]; [|discriminate].
    rewrite EQ in U. rewrite U in V. injection V as <-. reflexivity.
Qed.

Lemma replayed_app e s p xs ys a : replayed e s p (xs ++ ys) a = replayed e s p ys (replayed e s p xs a).
Proof. unfold replayed, moving. rewrite filter_app, map_app, fold_left_app. reflexivity. Qed.

Lemma replay e s pick p0 : WfEnv e -> In p0 (akeys (e_bottom e)) -> forall p data xs jumps q, Way s pick p data xs jumps q ->
  Unchanged e p0 jumps -> forall a, letters (e_dom e p) p0 = Some a ->
  letters (e_dom e q) p0 = Some (replayed e s p0 xs a).
Proof.
  intros W K.
  intros p data xs jumps q WY. induction WY as
    [p|p sid sg r xs jumps q G F WY IH|p bid b k sid sg cid c xs1 jumps1 q1 r xs jumps q EB EP A G F EC W1 IH1 J W2 IH2
    |p bid b r xs jumps q EB EP J W1 IH1
    |p bid b k sid sg cid c xs jumps q r EB EP A G F EC J W1 IH1|p bid b r xs jumps q EB EP J W1 IH1]; intros U a L.
  - exact L.
  - rewrite <- F in L. destruct (replayed_one e s p0 (OfSeg sid) (s_from sg) (s_to sg) xs a W K) with (2 := L) as (a' & L' & ->); [cbn; rewrite G; reflexivity|].
    apply IH; auto.
  - rewrite <- F in L.
    destruct (replayed_one e s p0 (OfSeg sid) (s_from sg) (s_to sg) (xs1 ++ xs) a W K) with (2 := L) as (a' & L' & ->); [cbn; rewrite G; reflexivity|].
    rewrite replayed_app.
    apply IH2; [intros x y I; apply U; apply in_app_iff; right; right; auto|].
    rewrite <- (U q1 (snd (br_reach b))) by (apply in_app_iff; right; left; auto). apply IH1; auto.
    intros x y I. apply U. apply in_app_iff. auto.
  - rewrite (U p (fst (br_reach b))) in L by (left; auto).
    destruct (replayed_one e s p0 (OfBranch bid) (fst (br_reach b)) (snd (br_reach b)) xs a W K) with (2 := L) as (a' & L' & ->).
    + cbn. rewrite EB. cbn. destruct (br_reach b); reflexivity.
    + apply IH1; auto. intros x y I. apply U. right. auto.
  - rewrite <- F in L. destruct (replayed_one e s p0 (OfSeg sid) (s_from sg) (s_to sg) xs a W K) with (2 := L) as (a' & L' & ->); [cbn; rewrite G; reflexivity|].
    apply IH1; auto.
  - apply IH1; auto.
Qed.

Lemma Forall2_find {A B} (R : A -> B -> Prop) xs ys x : Forall2 R xs ys -> In x xs -> exists y, In y ys /\ R x y.
Proof.
  intros F I. induction F as [|a b xs ys H F IH]; [destruct I|]. destruct I as [->|I].
  - exists b. split; [left; auto|auto].
  - destruct (IH I) as (y & I' & Hy). exists y. split; [right; auto|auto].
Qed.

Lemma way_ends s pick : forall p data xs jumps q, Way s pick p data xs jumps q ->
  forall i, In i xs -> exists a b, ends_of s i = Some (a, b).
Proof.
  intros p data xs jumps q WY. induction WY; intros i I.
  - destruct I.
  - destruct I as [<-|I]; eauto. cbn. rewrite H. cbn. eauto.
  - destruct I as [<-|I]; [cbn; rewrite H2; cbn; eauto|]. apply in_app_iff in I as [I|I]; eauto.
  - destruct I as [<-|I]; eauto. cbn. rewrite H. cbn. destruct (br_reach b); eauto.
  - destruct I as [<-|I]; eauto. cbn. rewrite H2. cbn. eauto.
  - eauto.
Qed.

(** Every table from [a] to [b] has the same row for a place. *)
Lemma row_unique fw bd ord s e start brace r p i d : Built fw bd ord s -> WfEnv e ->
  body_tables e s start brace = Some r -> moves s i = true -> (forall bid, i = OfBranch bid -> exists b, nth_error (branches s) bid = Some b /\ HasJoin b) ->
  RowOf r s p i d -> d = row_of e s p i.
Proof.
  intros B W E M HJ (a & b & t & L & I & Ta & Tb & IP). apply Leads_ends in L. unfold row_of. rewrite L.
  assert (NE : a <> b).
  { destruct i as [|sid|bid]; cbn in L, M; [discriminate| |].
    - destruct (nth_error (segs s) sid) as [sg|]; [|discriminate]. injection L as <- <-. destruct (loc_eqd (s_from sg) (s_to sg)); congruence.
    - destruct (HJ bid eq_refl) as (b0 & Eb & J). rewrite Eb in L. injection L as L. unfold HasJoin in J. rewrite L in J. auto. }
  assert (H : Change (e_dom e a) (e_dom e b) p d).
  { destruct (C30_sound _ _ _ _ _ _ _ _ B W E b t I) as (j & _ & _ & _ & T). destruct j as [|sid|bid].
    - destruct T as (_ & T1 & T2 & _). congruence.
    - destruct T as (sg & _ & _ & T1 & T2 & T3). apply T3 in IP. destruct IP as (IP & _). congruence.
    - destruct T as (b0 & _ & _ & T1 & T2 & T3). apply T3 in IP. destruct IP as (IP & _). congruence. }
  destruct H as (x & y & -> & -> & ->). reflexivity.
Qed.

Lemma row_shown fw bd ord s e start brace r p i : Built fw bd ord s -> WfEnv e -> Separate s start ->
  body_tables e s start brace = Some r -> In p (akeys (e_bottom e)) -> i <> Opening -> moves s i = true ->
  (exists a b, ends_of s i = Some (a, b)) -> NotHidden e s p [i] -> RowOf r s p i (row_of e s p i).
Proof.
  intros B W SP E K NO M (a & b & EE) N.
  assert (II : In i (all_items s)).
  { right. apply in_app_iff. destruct i as [|sid|bid]; [congruence|left|right]; apply in_map, in_seq; cbn in EE.
    - destruct (nth_error (segs s) sid) eqn:G; [|discriminate]. assert (sid < length (segs s)) by (apply nth_error_Some; congruence). lia.
    - destruct (nth_error (branches s) bid) eqn:G; [|discriminate]. assert (bid < length (branches s)) by (apply nth_error_Some; congruence). lia. }
  assert (EN : Ends s start i b).
  { destruct i as [|sid|bid]; cbn in EE, M |- *; [congruence| |].
    - destruct (nth_error (segs s) sid) as [sg|]; [|discriminate]. injection EE as <- <-. exists sg.
      destruct (loc_eqd (s_from sg) (s_to sg)); [discriminate|auto].
    - destruct (nth_error (branches s) bid) as [b0|]; [|discriminate]. injection EE as EE. exists b0. rewrite EE. auto. }
  destruct (C30_exact_partial _ _ _ _ _ _ _ _ B W SP E b) as (is & _ & IS & F2).
  destruct (Forall2_find _ _ _ i F2) as (t & It & T); [apply IS; auto|].
  destruct (known e a p W K) as (x & X). destruct (known e b p W K) as (y & Y).
  assert (CH : Change (e_dom e a) (e_dom e b) p (row_of e s p i)) by (exists x, y; unfold row_of; rewrite EE, X, Y; auto).
  exists a, b, t. split; [apply Leads_ends; auto|]. split; auto. destruct T as (_ & T).
  specialize (N i (or_introl eq_refl)). destruct i as [|sid|bid]; [congruence| |].
  - destruct T as (sg & G & _ & T1 & T2 & T3). cbn in EE. rewrite G in EE. injection EE as EE1 EE2. rewrite EE1 in *. rewrite EE2 in *.
    split; auto. split; auto. apply T3. split; auto. intros (sc & I1 & I2). eapply N; eauto.
  - destruct T as (b0 & G & _ & T1 & T2 & T3). cbn in EE. rewrite G in EE. injection EE as EE. rewrite EE in *. cbn [fst snd] in *.
    split; auto. split; auto. apply T3. split; auto. destruct N as (b1 & sc & G' & N1 & N2). rewrite G in G'. injection G' as <-. eauto.
Qed.

Lemma way_no_opening s pick : forall p data xs jumps q, Way s pick p data xs jumps q -> ~ In Opening xs.
Proof.
  intros p data xs jumps q WY. induction WY; intros I.
  - destruct I.
  - destruct I as [I|I]; [discriminate|auto].
  - destruct I as [I|I]; [discriminate|]. apply in_app_iff in I as [I|I]; auto.
  - destruct I as [I|I]; [discriminate|auto].
  - destruct I as [I|I]; [discriminate|auto].
  - auto.
Qed.

Lemma way_joins s pick : forall p data xs jumps q, Way s pick p data xs jumps q ->
  forall bid, In (OfBranch bid) xs -> exists b, nth_error (branches s) bid = Some b /\ HasJoin b.
Proof.
  intros p data xs jumps q WY. induction WY; intros bid0 I.
  - destruct I.
  - destruct I as [I|I]; [discriminate|eauto].
  - destruct I as [I|I]; [discriminate|]. apply in_app_iff in I as [I|I]; eauto.
  - destruct I as [[= <-]|I]; eauto.
  - destruct I as [I|I]; [discriminate|eauto].
  - eauto.
Qed.

Lemma opening_row fw bd ord s e brace r p : Built fw bd ord s -> WfEnv e -> Separate s (Loc 0 0) ->
  body_tables e s (Loc 0 0) brace = Some r -> In p (akeys (e_bottom e)) ->
  exists t d0, In t (at_loc r (Loc 0 0)) /\ t_span t = brace /\ In (p, d0) (t_data t) /\
    Change (e_bottom e) (e_dom e (Loc 0 0)) p d0.
Proof.
  intros B W SP E K. destruct (C30_exact_partial _ _ _ _ _ _ _ _ B W SP E (Loc 0 0)) as (is & _ & IS & F2).
  destruct (Forall2_find _ _ _ Opening F2) as (t & It & T); [apply IS; split; [left; auto|reflexivity]|].
  destruct T as (_ & T1 & _ & _ & T4). destruct (known e (Loc 0 0) p W K) as (y & Y).
  destruct (aget Nat.eq_dec (e_bottom e) p) as [x|] eqn:X; [|apply aget_None in X; contradiction].
  assert (CH : Change (e_bottom e) (e_dom e (Loc 0 0)) p (diff_data x y)) by (exists x, y; auto).
  exists t, (diff_data x y). split; auto. split; auto. split; auto. apply T4. auto.
Qed.

(** Every row shown for a step or a branch of the way is the change of the place over it, so no matter which one reads. *)
Theorem C91_rows_sound fw bd ord s e brace r pick c xs jumps q p :
  Built fw bd ord s -> WfEnv e -> body_tables e s (Loc 0 0) brace = Some r ->
  nth_error (colls s) 0 = Some c -> Way s pick (Loc 0 0) (c_data c) xs jumps q ->
  forall i d a b, In i (moving s xs) -> RowOf r s p i d -> Leads s i a b ->
    exists u v, letters (e_dom e a) p = Some u /\ letters (e_dom e b) p = Some v /\ read_row d u = v.
Proof.
  intros B W E EC WY i d a b I R L. apply filter_In in I as (I & M).
  pose proof R as (a' & b' & t & L' & It & _ & _ & IP).
  pose proof (row_unique _ _ _ _ _ _ _ _ p i d B W E M) as D.
  assert (HJ : forall bid, i = OfBranch bid -> exists b, nth_error (branches s) bid = Some b /\ HasJoin b)
    by (intros bid ->; eapply way_joins; eauto).
  specialize (D HJ R). apply Leads_ends in L. rewrite D. unfold row_of. rewrite L.
  assert (K : In p (akeys (e_bottom e))).
  { destruct (C30_sound _ _ _ _ _ _ _ _ B W E b' t It) as (j & _ & _ & _ & T).
    assert (C : exists x y, Change x y p d /\ exists l, y = e_dom e l).
    { destruct j as [|sid|bid].
      - destruct T as (_ & _ & _ & T). apply T in IP. eauto.
      - destruct T as (sg & _ & _ & _ & _ & T). apply T in IP. destruct IP. eauto.
      - destruct T as (sg & _ & _ & _ & _ & T). apply T in IP. destruct IP. eauto. }
    destruct C as (x & y & (u & v & _ & V & _) & l & ->). apply (W l). apply aget_Some_In in V. apply (in_map fst) in V. exact V. }
  destruct (known e a p W K) as (x & X). destruct (known e b p W K) as (y & Y).
  exists (permissions x), (permissions y). unfold letters. rewrite X, Y. split; auto. split; auto. apply read_row_diff.
Qed.
Print Assumptions C91_rows_sound.

(** Along every way, the changes shown for a place add up: starting with the
    opening brace and reading the rows of the steps in order, one knows
    its permissions at the end, and every step has a row.  Missing for the full statement: nothing must happen to the place
    in the jumps, see [C91_join_refuted]; it must not be hidden, see [C91_hidden_refuted]; and no table must be
    overwritten, see [C30_lost_refuted]. *)
Theorem C91_replay_partial fw bd ord s e brace r pick c xs jumps q p :
  Built fw bd ord s -> WfEnv e -> Separate s (Loc 0 0) -> body_tables e s (Loc 0 0) brace = Some r ->
  nth_error (colls s) 0 = Some c -> Way s pick (Loc 0 0) (c_data c) xs jumps q ->
  In p (akeys (e_bottom e)) -> NotHidden e s p xs -> Unchanged e p jumps ->
  exists t d0 a b,
    In t (at_loc r (Loc 0 0)) /\ t_span t = brace /\ In (p, d0) (t_data t) /\
    letters (e_bottom e) p = Some a /\ letters (e_dom e q) p = Some b /\
    (exists ds, Forall2 (RowOf r s p) (moving s xs) ds) /\
    forall ds, Forall2 (RowOf r s p) (moving s xs) ds -> fold_left (fun a d => read_row d a) (d0 :: ds) a = b.
Proof.
  intros B W SP E EC WY K N U.
  destruct (opening_row _ _ _ _ _ _ _ _ B W SP E K) as (t & d0 & It & T1 & I0 & x & y & X & Y & D0).
  pose proof (replay e s pick p W K _ _ _ _ _ WY U (permissions y)) as RP. unfold letters at 1 in RP. rewrite Y in RP. specialize (RP eq_refl).
  exists t, d0, (permissions x). eexists.
  split; [exact It|]. split; [exact T1|]. split; [exact I0|]. split; [unfold letters; rewrite X; reflexivity|]. split; [exact RP|].
  assert (P : forall i, In i (moving s xs) -> In i xs /\ moves s i = true) by (intros i I; apply filter_In in I; auto).
  split.
  - exists (map (row_of e s p) (moving s xs)).
    assert (R : forall i, In i (moving s xs) -> RowOf r s p i (row_of e s p i)).
    { intros i I. apply P in I as (I & M). eapply row_shown; eauto.
      - intros ->. eapply way_no_opening; eauto.
      - eapply way_ends; eauto.
      - intros j [<-|[]]. apply N; auto. }
    clear - R. induction (moving s xs) as [|i l IH]; constructor; [apply R; left; auto|apply IH; intros j I; apply R; right; auto].
  - intros ds F. cbn [fold_left]. rewrite D0, read_row_diff. unfold replayed. f_equal.
    assert (R : forall i d, In i (moving s xs) -> RowOf r s p i d -> d = row_of e s p i).
    { intros i d I R. apply P in I as (I & M). eapply row_unique; eauto. intros bid ->. eapply way_joins; eauto. }
    clear - R F. induction F as [|i d l ds H F IH]; auto. cbn. f_equal; [apply R; [left; auto|auto]|apply IH; intros j d' I; apply R; right; auto].
Qed.
Print Assumptions C91_replay_partial.

(** ** Examples *)

Module Replay.
  (** [if c { .. } else { .. }] *)
  Definition diamond : body :=
    [ Block 1 false (TSwitchInt [1; 2]); Block 1 false (TOther [3]); Block 1 false (TOther [3]); Block 1 false TReturn ].
  Definition ops : list op :=
    [OpInsert (Loc 0 1) 1; OpOpenBranch (Loc 0 1) Demo.sp; OpInsert (Loc 1 1) 2; OpInsert (Loc 2 1) 3; OpCloseBranch 0; OpInsert (Loc 3 1) 4].
  Definition final : st := Eval vm_compute in Demo.after false diamond ops.
  Lemma built : Built false diamond (fun l => l) final.
  Proof. exists 5, ops. vm_compute. reflexivity. Qed.
  Lemma separate : Separate final (Loc 0 0).
  Proof. apply separate_check_ok; [eapply Shape_Built, built|]. vm_compute. reflexivity. Qed.

  (** The same inside the block of [let x = { if c { .. } else { .. } }]. *)
  Definition let_ops : list op :=
    [OpOpenScope; OpOpenScope; OpInsert (Loc 0 1) 1; OpOpenBranch (Loc 0 1) Demo.sp; OpInsert (Loc 1 1) 2; OpInsert (Loc 2 1) 3;
     OpCloseBranch 0; OpCloseScope 2; OpCloseScope 1; OpInsert (Loc 3 1) 4].
  Definition let_final : st := Eval vm_compute in Demo.after false diamond let_ops.
  Lemma let_built : Built false diamond (fun l => l) let_final.
  Proof. exists 5, let_ops. vm_compute. reflexivity. Qed.
  Lemma let_separate : Separate let_final (Loc 0 0).
  Proof. apply separate_check_ok; [eapply Shape_Built, let_built|]. vm_compute. reflexivity. Qed.

  (** Inside [let x = if c { .. } else { .. }]. *)
  Definition if_ops : list op :=
    [OpOpenScope; OpInsert (Loc 0 1) 1; OpOpenBranch (Loc 0 1) Demo.sp; OpOpenScope; OpInsert (Loc 1 1) 2; OpCloseScope 2;
     OpInsert (Loc 2 1) 3; OpCloseBranch 0; OpCloseScope 1; OpInsert (Loc 3 1) 4].
  Definition if_final : st := Eval vm_compute in Demo.after false diamond if_ops.
  Lemma if_built : Built false diamond (fun l => l) if_final.
  Proof. exists 5, if_ops. vm_compute. reflexivity. Qed.
  Lemma if_separate : Separate if_final (Loc 0 0).
  Proof. apply separate_check_ok; [eapply Shape_Built, if_built|]. vm_compute. reflexivity. Qed.

  (** One place: it has its permissions where [f] says so. *)
  Definition e (f : loc -> bool) (locals : list (nat * list nat)) : env :=
    Env (fun l => [(0, if f l then Tab.full else Tab.dead)]) [(0, Tab.dead)] (fun p => p) locals (fun _ _ => 100).
  Lemma e_wf f locals : WfEnv (e f locals).
  Proof.
    intros l. split; [repeat constructor; cbn; intuition discriminate|].
    split; [reflexivity|repeat constructor; cbn; intuition discriminate].
  Qed.

  (** Moved in the first arm. *)
  Definition moved (l : loc) : bool :=
    match l_block l with 0 => negb (l_idx l =? 0) | 2 => true | 1 => l_idx l =? 0 | _ => false end.
  (** Assigned in both arms. *)
  Definition assigned (l : loc) : bool :=
    match l_block l with 0 => false | 1 | 2 => l_idx l =? 1 | _ => true end.

  Ltac way :=
    cbn [c_data s_to snd br_reach]; repeat match goal with
    | |- Way _ _ _ [] _ _ _ => apply way_end
    | |- Way _ _ _ (Linear _ :: _) _ _ _ => eapply way_step; [reflexivity|reflexivity|cbn]
    | |- Way _ _ _ (Branching _ :: _) _ _ _ =>
        eapply way_join; [reflexivity|reflexivity|eexists; repeat split; reflexivity|reflexivity|reflexivity|reflexivity|cbn|discriminate|cbn]
    end.

  Lemma into_0 : Way final (fun _ => Into 0) (Loc 0 0) [Linear 0; Branching 0; Linear 5]
    [OfSeg 0; OfSeg 1; OfSeg 3; OfSeg 5] [(Loc 1 1, Loc 3 0)] (Loc 3 1).
  Proof.
    eapply way_step; [reflexivity|reflexivity|]. cbn [s_to].
    apply (way_join _ _ _ 0 (Branch 0 (Loc 0 1, Loc 3 0) [1; 2] [1; 2]) 0 1 (Seg (Loc 0 1) (Loc 1 0) 7 0) 1
             (Coll [Linear 3] (Bounded (Loc 0 1) (Loc 3 0))) [OfSeg 3] [] (Loc 1 1) [Linear 5] [OfSeg 5] []); try reflexivity.
    - eexists. repeat split; reflexivity.
    - way.
    - discriminate.
    - way.
  Qed.
  Lemma into_1 : Way final (fun _ => Into 1) (Loc 0 0) [Linear 0; Branching 0; Linear 5]
    [OfSeg 0; OfSeg 2; OfSeg 4; OfSeg 5] [(Loc 2 1, Loc 3 0)] (Loc 3 1).
  Proof.
    eapply way_step; [reflexivity|reflexivity|]. cbn [s_to].
    apply (way_join _ _ _ 0 (Branch 0 (Loc 0 1, Loc 3 0) [1; 2] [1; 2]) 1 2 (Seg (Loc 0 1) (Loc 2 0) 7 0) 2
             (Coll [Linear 4] (Bounded (Loc 0 1) (Loc 3 0))) [OfSeg 4] [] (Loc 2 1) [Linear 5] [OfSeg 5] []); try reflexivity.
    - eexists. repeat split; reflexivity.
    - way.
    - discriminate.
    - way.
  Qed.
End Replay.

(** A variable that is given its value before the branch and moved in the first arm:
    the rows along the first arm say so. *)
Example C91_witness :
  let e := Replay.e Replay.moved [] in
  exists r xs jumps q,
    Built false Replay.diamond (fun l => l) Replay.final /\ WfEnv e /\ Separate Replay.final (Loc 0 0) /\
    body_tables e Replay.final (Loc 0 0) 0 = Some r /\ Picks Replay.final (fun _ => Into 0) /\
    Way Replay.final (fun _ => Into 0) (Loc 0 0) [Linear 0; Branching 0; Linear 5] xs jumps q /\
    length (moving Replay.final xs) = 4 /\ q = Loc 3 1 /\ NotHidden e Replay.final 0 xs /\ Unchanged e 0 jumps /\
    letters (e_dom e (Loc 0 1)) 0 <> letters (e_dom e q) 0.
Proof.
  intros e. eexists. exists [OfSeg 0; OfSeg 1; OfSeg 3; OfSeg 5], [(Loc 1 1, Loc 3 0)], (Loc 3 1).
  split; [apply Replay.built|]. split; [apply Replay.e_wf|]. split; [apply Replay.separate|]. split; [vm_compute; reflexivity|]. split.
  { intros [|bid] b Eb; [injection Eb as <-; cbn; lia|destruct bid; discriminate]. }
  split; [apply Replay.into_0|].
  split; [reflexivity|]. split; [reflexivity|]. split.
  { intros i [<-|[<-|[<-|[<-|[]]]]] sg sc _ _ (v & H & _); discriminate. }
  split; [|discriminate]. intros a b [[= <- <-]|[]]. reflexivity.
Qed.

(** A variable declared by [let x = if ..]: the steps inside of the arms do not show it, the branch as a whole does. *)
Example C91_whole_witness :
  let e := Replay.e Replay.assigned [(1, [0])] in
  exists r xs jumps q,
    Built false Replay.diamond (fun l => l) Replay.if_final /\ WfEnv e /\ Separate Replay.if_final (Loc 0 0) /\
    body_tables e Replay.if_final (Loc 0 0) 0 = Some r /\ Picks Replay.if_final (fun _ => Whole) /\
    Way Replay.if_final (fun _ => Whole) (Loc 0 0) [Linear 0; Branching 0; Linear 5] xs jumps q /\
    length (moving Replay.if_final xs) = 3 /\ q = Loc 3 1 /\ NotHidden e Replay.if_final 0 xs /\ Unchanged e 0 jumps /\
    letters (e_dom e (Loc 0 1)) 0 <> letters (e_dom e q) 0.
Proof.
  intros e. eexists. exists [OfSeg 0; OfBranch 0; OfSeg 5], [(Loc 0 1, Loc 0 1)], (Loc 3 1).
  split; [apply Replay.if_built|]. split; [apply Replay.e_wf|]. split; [apply Replay.if_separate|]. split; [vm_compute; reflexivity|]. split.
  { intros [|bid] b Eb; [injection Eb as <-; discriminate|destruct bid; discriminate]. }
  split.
  { eapply way_step; [reflexivity|reflexivity|]. cbn [s_to].
    apply (way_whole _ _ _ 0 (Branch 0 (Loc 0 1, Loc 3 0) [1; 2] [1; 2]) [Linear 5] [OfSeg 5] []); try reflexivity; [discriminate|].
    Replay.way. }
  split; [reflexivity|]. split; [reflexivity|]. split.
  { intros i [<-|[<-|[<-|[]]]].
    - intros sg sc [= <-] I (v & H & _). vm_compute in I. destruct I as [<-|[]]. discriminate.
    - eexists. exists 1. split; [reflexivity|]. split; [eexists _, _, _; repeat split; reflexivity|].
      exists [0]. split; [reflexivity|left; reflexivity].
    - intros sg sc [= <-] I (v & H & _). vm_compute in I. destruct I. }
  split; [|discriminate]. intros a b [[= <- <-]|[]]. reflexivity.
Qed.

(** Where arms join, something may change that no step shows.  A variable that is moved in the first arm: along the
    second one all the rows together say that it still has its permissions at the end. *)
Theorem C91_join_refuted :
  exists bd s e r c pick xs jumps q p,
    Built false bd (fun l => l) s /\ WfEnv e /\ Separate s (Loc 0 0) /\ body_tables e s (Loc 0 0) 0 = Some r /\
    nth_error (colls s) 0 = Some c /\ Picks s pick /\ Way s pick (Loc 0 0) (c_data c) xs jumps q /\
    NotHidden e s p xs /\ ~ Unchanged e p jumps /\
    forall t d0 ds a, In t (at_loc r (Loc 0 0)) -> In (p, d0) (t_data t) -> Forall2 (RowOf r s p) (moving s xs) ds ->
      letters (e_bottom e) p = Some a ->
      letters (e_dom e q) p = Some (mkP false false false) /\
      fold_left (fun a d => read_row d a) (d0 :: ds) a = mkP true true true.
Proof.
  exists Replay.diamond, Replay.final, (Replay.e Replay.moved []). eexists.
  exists (Coll [Linear 0; Branching 0; Linear 5] (Unbounded (Loc 0 0))), (fun _ => Into 1),
    [OfSeg 0; OfSeg 2; OfSeg 4; OfSeg 5], [(Loc 2 1, Loc 3 0)], (Loc 3 1), 0.
  split; [apply Replay.built|]. split; [apply Replay.e_wf|]. split; [apply Replay.separate|]. split; [vm_compute; reflexivity|].
  split; [reflexivity|]. split.
  { intros [|bid] b Eb; [injection Eb as <-; cbn; lia|destruct bid; discriminate]. }
  split; [apply Replay.into_1|]. split.
  { intros i [<-|[<-|[<-|[<-|[]]]]] sg sc _ _ (v & H & _); discriminate. }
  split; [intros U; specialize (U _ _ (or_introl eq_refl)); discriminate|].
  intros t d0 ds a It I0 F A. split; [reflexivity|]. injection A as <-.
  cbn in It. destruct It as [<-|[]]. cbn in I0. destruct I0 as [[= <-]|[]].
  match type of F with Forall2 (RowOf ?r _ _) _ _ =>
    assert (T : body_tables (Replay.e Replay.moved []) Replay.final (Loc 0 0) 0 = Some r) by (vm_compute; reflexivity);
    assert (R : forall i d, In i [OfSeg 0; OfSeg 2; OfSeg 4; OfSeg 5] -> RowOf r Replay.final 0 i d ->
      d = row_of (Replay.e Replay.moved []) Replay.final 0 i)
  end.
  { intros i d I R. eapply (row_unique _ _ _ _ _ _ _ _ _ _ _ Replay.built (Replay.e_wf _ _) T); [| |exact R].
    - destruct I as [<-|[<-|[<-|[<-|[]]]]]; reflexivity.
    - intros bid ->. destruct I as [I|[I|[I|[I|[]]]]]; discriminate. }
  assert (E : ds = map (row_of (Replay.e Replay.moved []) Replay.final 0) [OfSeg 0; OfSeg 2; OfSeg 4; OfSeg 5]).
  { change (moving Replay.final [OfSeg 0; OfSeg 2; OfSeg 4; OfSeg 5]) with [OfSeg 0; OfSeg 2; OfSeg 4; OfSeg 5] in F.
    clear - F R. induction F as [|i d l ds H F IH]; auto. cbn [map]. f_equal; [apply R; [left; auto|auto]|apply IH; intros j d' I; apply R; right; auto]. }
  rewrite E. vm_compute. reflexivity.
Qed.
Print Assumptions C91_join_refuted.

Lemma rows_empty (r : tables) p :
  forallb (fun lt => forallb (fun t => forallb (fun pd => negb (fst pd =? p) || ddiff_is_empty (snd pd)) (t_data t)) (snd lt)) r = true ->
  forall l t d, In t (at_loc r l) -> In (p, d) (t_data t) -> ddiff_is_empty d = true.
Proof.
  intros H l t d It I. unfold at_loc in It. destruct (aget loc_eqd r l) as [ts|] eqn:E; [|destruct It].
  apply aget_Some_In in E. rewrite forallb_forall in H. apply H in E. cbn in E. rewrite forallb_forall in E. apply E in It.
  rewrite forallb_forall in It. apply It in I. cbn [fst snd] in I. rewrite Nat.eqb_refl in I. exact I.
Qed.

(** A variable that is declared by [let x = { if .. }] is hidden in all steps inside of the block, and the branch inside of the
    block does not show it either: it gains its permissions, and no table shows any change of it. *)
Theorem C91_hidden_refuted :
  exists bd s e r c p,
    Built false bd (fun l => l) s /\ WfEnv e /\ Separate s (Loc 0 0) /\ body_tables e s (Loc 0 0) 0 = Some r /\
    nth_error (colls s) 0 = Some c /\
    (forall l t d, In t (at_loc r l) -> In (p, d) (t_data t) -> ddiff_is_empty d = true) /\
    letters (e_bottom e) p = Some (mkP false false false) /\
    forall k, k < 2 -> exists xs jumps q, Way s (fun _ => Into k) (Loc 0 0) (c_data c) xs jumps q /\ Unchanged e p jumps /\
      letters (e_dom e q) p = Some (mkP true true true).
Proof.
  exists Replay.diamond, Replay.let_final, (Replay.e Replay.assigned [(1, [0])]). eexists.
  exists (Coll [Linear 0; Branching 0; Linear 5] (Unbounded (Loc 0 0))), 0.
  split; [apply Replay.let_built|]. split; [apply Replay.e_wf|]. split; [apply Replay.let_separate|]. split; [vm_compute; reflexivity|].
  split; [reflexivity|]. split.
  { apply rows_empty. vm_compute. reflexivity. }
  split; [reflexivity|]. intros k K. destruct k as [|[|k]]; [| |lia].
  - eexists _, _, _. split; [Replay.way|]. split; [|reflexivity]. intros a b [[= <- <-]|[]]. reflexivity.
  - eexists _, _, _. split; [Replay.way|]. split; [|reflexivity]. intros a b [[= <- <-]|[]]. reflexivity.
Qed.
Print Assumptions C91_hidden_refuted.
