(** Lemmas about the step tables. *)
From Coq Require Import List Arith Bool Lia Permutation.
From Verif Require Import Base PermsModel PermsSpec PermsProofs FactsModel FactsProofs CfgModel SegMirModel SegMirSpec
  SegMirProofs TablesModel TablesSpec.
Import ListNotations.

Lemma flat_map_flat_map' {A B C} (f : B -> list C) (g : A -> list B) l :
  flat_map f (flat_map g l) = flat_map (fun x => flat_map f (g x)) l.
Proof. induction l as [|x l IH]; cbn; auto. rewrite flat_map_app, IH. auto. Qed.

Lemma flat_map_map' {A B C} (f : B -> list C) (g : A -> B) l :
  flat_map f (map g l) = flat_map (fun x => f (g x)) l.
Proof. induction l as [|x l IH]; cbn; auto. rewrite IH. auto. Qed.

(** ** Maps of tables *)

Lemma at_loc_push r l t l' :
  at_loc (push r l t) l' = at_loc r l' ++ if loc_eqd l' l then [t] else [].
Proof.
  unfold at_loc at 1, push. rewrite aget_aset. destruct (loc_eqd l' l) as [->|N]; auto.
  rewrite app_nil_r. auto.
Qed.

Lemma keys_push r l t k : In k (akeys (push r l t)) <-> In k (akeys r) \/ k = l.
Proof. unfold push. rewrite akeys_aset. tauto. Qed.

Lemma extend_aget m : forall r, NoDup (akeys m) -> forall k,
  aget loc_eqd (extend r m) k = match aget loc_eqd m k with Some v => Some v | None => aget loc_eqd r k end.
Proof.
  unfold extend. induction m as [|[l v] m IH]; intros r ND k; [auto|].
  cbn [akeys map fst] in ND. apply NoDup_cons_iff in ND as [NI ND]. cbn [fold_left fst snd aget].
  rewrite IH by auto. rewrite aget_aset. destruct (loc_eqd l k) as [->|N].
  - destruct (aget loc_eqd m k) as [x|] eqn:E.
    + exfalso. apply NI. apply (aget_In_keys _ _ loc_eqd). eauto.
    + destruct (loc_eqd k k); congruence.
  - destruct (loc_eqd k l); [congruence|]. auto.
Qed.

Lemma extend_NoDup m : forall r, NoDup (akeys r) -> NoDup (akeys (extend r m)).
Proof.
  unfold extend. induction m as [|[l v] m IH]; intros r ND; auto. cbn [fold_left fst snd].
  apply IH. apply NoDup_aset. auto.
Qed.

Lemma extend_keys m r k : NoDup (akeys m) -> In k (akeys (extend r m)) <-> In k (akeys r) \/ In k (akeys m).
Proof.
  intros ND. rewrite !(aget_In_keys _ _ loc_eqd), extend_aget by auto.
  destruct (aget loc_eqd m k) as [v|] eqn:E; split; intros H; eauto.
  destruct H as [H|(v & H)]; [auto|discriminate].
Qed.

Lemma at_loc_extend m r l : NoDup (akeys m) ->
  at_loc (extend r m) l = if memb loc_eqd l (akeys m) then at_loc m l else at_loc r l.
Proof.
  intros ND. unfold at_loc. rewrite extend_aget by auto.
  destruct (memb loc_eqd l (akeys m)) eqn:M.
  - apply memb_In in M. apply (aget_In_keys _ _ loc_eqd) in M as (v & E). rewrite E. auto.
  - apply memb_not_In in M. apply (aget_None _ _ loc_eqd) in M. rewrite M. auto.
Qed.

Lemma at_loc_nokey r l : ~ In l (akeys r) -> at_loc r l = [].
Proof. intros N. unfold at_loc. apply (aget_None _ _ loc_eqd) in N. rewrite N. auto. Qed.

(** ** The tables of items *)

(** The table of a segment, if it has one. *)
Definition stab (e : env) (s : st) (sid : nat) : list table :=
  match nth_error (segs s) sid with
  | None => []
  | Some sg =>
    if loc_eqd (s_from sg) (s_to sg) then []
    else match into_diff e (s_from sg) (s_to sg) with
         | None => []
         | Some diff =>
           [Table (s_span sg) (s_from sg) (s_to sg)
              (filter (fun pd => negb (memb Nat.eq_dec (e_local e (fst pd)) (locals_to_filter e s (s_scope sg)))) diff)]
         end
  end.

Definition btab (e : env) (s : st) (bid : nat) : list table :=
  match nth_error (branches s) bid with
  | None => []
  | Some b =>
    match into_diff e (fst (br_reach b)) (snd (br_reach b)), get_branch_scope s bid with
    | Some diff, Some sc =>
      [Table (e_reach_span e (fst (br_reach b)) (snd (br_reach b))) (fst (br_reach b)) (snd (br_reach b))
         (filter (fun pd => memb Nat.eq_dec (e_local e (fst pd))
            (match aget Nat.eq_dec (e_locals_at e) sc with Some v => v | None => [] end)) diff)]
    | _, _ => []
    end
  end.

Definition tab (e : env) (s : st) (i : item) : list table :=
  match i with Opening => [] | OfSeg sid => stab e s sid | OfBranch bid => btab e s bid end.

(** The items below a collection, in the order of the traversal. *)
Fixpoint items (s : st) (fuel : nat) (cid : nat) : list item :=
  match fuel with
  | 0 => []
  | S f =>
    match nth_error (colls s) cid with
    | None => []
    | Some c =>
      flat_map (fun part =>
        match part with
        | Linear sid => [OfSeg sid]
        | Branching bid =>
          match nth_error (branches s) bid with
          | None => []
          | Some b => map OfSeg (br_splits b) ++ flat_map (items s f) (br_nested b) ++ [OfBranch bid]
          end
        end) (c_data c)
    end
  end.

Definition tabs e s (l : list item) : list table := flat_map (tab e s) l.

(** ** The diffs exist *)

Lemma diff_domain_loop_NoDup rhs : forall todo diffs r,
  diff_domain_loop todo rhs diffs = Some r -> NoDup (akeys diffs) -> NoDup (akeys r).
Proof.
  induction todo as [|[k a] todo IH]; cbn; intros diffs r H ND; [congruence|].
  destruct (aget Nat.eq_dec rhs k); [|discriminate].
  destruct (aget Nat.eq_dec diffs k); [discriminate|]. apply IH in H; auto. apply NoDup_aset. auto.
Qed.

Lemma diff_domain_Change a b :
  NoDup (akeys a) -> (forall k, In k (akeys a) -> In k (akeys b)) ->
  exists r, diff_domain a b = Some r /\ NoDup (akeys r) /\ forall p d, In (p, d) r <-> Change a b p d.
Proof.
  intros ND K. destruct (diff_domain_ok a b ND K) as (r & E & G).
  exists r. split; auto.
  assert (NDr : NoDup (akeys r)) by (eapply diff_domain_loop_NoDup; [exact E|constructor]).
  split; auto. intros p d. split.
  - intros I. apply (In_aget _ _ Nat.eq_dec) in I; auto. rewrite G in I.
    destruct (aget Nat.eq_dec a p) as [x|] eqn:Ex; [|discriminate].
    destruct (aget Nat.eq_dec b p) as [y|] eqn:Ey; [|discriminate].
    injection I as <-. exists x, y. auto.
  - intros (x & y & Ex & Ey & ->). apply (aget_Some_In _ _ Nat.eq_dec). rewrite G, Ex, Ey. auto.
Qed.

Lemma into_diff_ok e a b : WfEnv e -> exists r, into_diff e a b = Some r /\
  NoDup (akeys r) /\ forall p d, In (p, d) r <-> Change (e_dom e a) (e_dom e b) p d.
Proof.
  intros W. destruct (W a) as (ND & K & _). destruct (W b) as (_ & K' & _).
  apply diff_domain_Change; auto. intros k I. apply K'. apply K. auto.
Qed.

Lemma Forall2_app_single {A} (l : list A) x : l ++ [x] <> [].
Proof. destruct l; discriminate. Qed.

(** ** What each function does to a map of tables *)

(** [r'] is [r] with the tables [ts] in their places; some may be lost. *)
Record Grown (r r' : tables) (ts : list table) : Prop := mkGrown {
  g_sound : forall l t, In t (at_loc r' l) -> In t (at_loc r l) \/ In t ts /\ t_to t = l;
  g_keys : forall l, In l (akeys r') <-> In l (akeys r) \/ exists t, In t ts /\ t_to t = l;
  g_some : (forall l, In l (akeys r) -> at_loc r l <> []) -> forall l, In l (akeys r') -> at_loc r' l <> [];
  g_nodup : NoDup (akeys r) -> NoDup (akeys r')
}.

Lemma Grown_refl r : Grown r r [].
Proof. constructor; auto. intros l. split; auto. intros [H|(t & [] & _)]; auto. Qed.

Lemma Grown_trans a b c x y : Grown a b x -> Grown b c y -> Grown a c (x ++ y).
Proof.
  intros [S1 K1 N1 D1] [S2 K2 N2 D2]. constructor; auto.
  - intros l t H. apply S2 in H as [H|[H E]]; [apply S1 in H as [H|[H E]]|]; auto;
      right; split; auto; apply in_or_app; auto.
  - intros l. rewrite K2, K1. split.
    + intros [[H|(t & I & E)]|(t & I & E)]; auto; right; exists t; split; auto; apply in_or_app; auto.
    + intros [H|(t & I & E)]; auto. apply in_app_or in I as [I|I]; eauto.
Qed.

Lemma Grown_push r t : Grown r (push r (t_to t) t) [t].
Proof.
  constructor.
  - intros l x H. rewrite at_loc_push in H. apply in_app_or in H as [H|H]; auto.
    destruct (loc_eqd l (t_to t)) as [->|]; [|destruct H]. destruct H as [->|[]]. right. cbn. auto.
  - intros l. rewrite keys_push. split.
    + intros [H| ->]; auto. right. exists t. cbn. auto.
    + intros [H|(x & [->|[]] & <-)]; auto.
  - intros H l I. rewrite at_loc_push. apply keys_push in I.
    destruct (loc_eqd l (t_to t)) as [->|N]; [apply Forall2_app_single|].
    rewrite app_nil_r. apply H. tauto.
  - apply NoDup_aset.
Qed.

Lemma Grown_extend r m ts : NoDup (akeys m) -> Grown [] m ts -> Grown r (extend r m) ts.
Proof.
  intros ND [S K N D]. constructor.
  - intros l t H. rewrite at_loc_extend in H by auto.
    destruct (memb loc_eqd l (akeys m)); auto. apply S in H as [H|H]; [destruct H|auto].
  - intros l. rewrite extend_keys, K by auto. cbn. tauto.
  - intros H l I. rewrite at_loc_extend by auto. apply extend_keys in I; auto.
    destruct (memb loc_eqd l (akeys m)) eqn:M.
    + apply N; [intros ? []|]. apply memb_In in M. auto.
    + apply memb_not_In in M. apply H. tauto.
  - apply extend_NoDup.
Qed.

Lemma each_Grown {A} (f : tables -> A -> option tables) (g : A -> list table) l :
  (forall x r, In x l -> exists r', f r x = Some r' /\ Grown r r' (g x)) ->
  forall r, exists r', each f r l = Some r' /\ Grown r r' (flat_map g l).
Proof.
  induction l as [|x l IH]; intros H r; cbn [each flat_map].
  - exists r. split; auto. apply Grown_refl.
  - destruct (H x r) as (r1 & E1 & G1); [left; auto|]. rewrite E1.
    destruct (IH (fun y r I => H y r (or_intror I)) r1) as (r2 & E2 & G2).
    exists r2. split; auto. eapply Grown_trans; eauto.
Qed.

Lemma insert_segment_Grown e s r sid : WfEnv e -> sid < length (segs s) ->
  exists r', insert_segment e s r sid = Some r' /\ Grown r r' (stab e s sid).
Proof.
  intros W L. unfold insert_segment, stab. destruct (nth_error (segs s) sid) as [sg|] eqn:E.
  2:{ apply nth_error_None in E. lia. }
  destruct (loc_eqd (s_from sg) (s_to sg)); [exists r; split; auto; apply Grown_refl|].
  destruct (into_diff_ok e (s_from sg) (s_to sg) W) as (d & Ed & _). rewrite Ed.
  eexists. split; [reflexivity|]. apply (Grown_push r (Table _ _ _ _)).
Qed.

(** The pieces of a builder are where they should be. *)
Lemma nested_lt s bid b k : Shape s -> nth_error (branches s) bid = Some b -> In k (br_nested b) ->
  k < length (colls s).
Proof.
  intros Sh E I. assert (H : In k (0 :: flat_map br_nested (branches s))).
  { right. apply in_flat_map. exists b. split; auto. eapply nth_error_In; eauto. }
  rewrite (sh_nested s Sh) in H. apply in_seq in H. lia.
Qed.

Lemma splits_lt s bid b sid : Shape s -> nth_error (branches s) bid = Some b -> In sid (br_splits b) ->
  sid < length (segs s).
Proof.
  intros Sh E I. assert (H : In sid (seq 0 (length (segs s)))).
  { apply (Permutation_in sid (sh_segs s Sh)). apply in_or_app. right. apply in_flat_map. exists b.
    split; auto. eapply nth_error_In; eauto. }
  apply in_seq in H. lia.
Qed.

Lemma linear_lt s cid c sid : Shape s -> nth_error (colls s) cid = Some c -> In (Linear sid) (c_data c) ->
  sid < length (segs s).
Proof.
  intros Sh E I. assert (H : In sid (seq 0 (length (segs s)))).
  { apply (Permutation_in sid (sh_segs s Sh)). apply in_or_app. left. apply in_flat_map. exists c.
    split; [eapply nth_error_In; eauto|]. apply in_flat_map. exists (Linear sid). cbn. auto. }
  apply in_seq in H. lia.
Qed.

Lemma branch_lt s cid c bid : Shape s -> nth_error (colls s) cid = Some c -> In (Branching bid) (c_data c) ->
  In bid (branch_ids c) /\ exists b, nth_error (branches s) bid = Some b.
Proof.
  intros Sh E I. assert (Ib : In bid (branch_ids c)).
  { apply in_flat_map. exists (Branching bid). cbn. auto. }
  split; auto. assert (H : In bid (seq 0 (length (branches s)))).
  { apply (Permutation_in bid (sh_branches s Sh)). apply in_flat_map. exists c.
    split; auto. eapply nth_error_In; eauto. }
  apply in_seq in H. destruct (nth_error (branches s) bid) eqn:Eb; eauto. apply nth_error_None in Eb. lia.
Qed.

Lemma branch_scope_ok s bid b : Shape s -> HasArms s -> nth_error (branches s) bid = Some b ->
  exists sc, get_branch_scope s bid = Some sc /\ forall sc', BranchScope s b sc' <-> sc' = sc.
Proof.
  intros Sh HA E. unfold get_branch_scope. rewrite E.
  destruct (br_splits b) as [|sid rest] eqn:Es; [exfalso; apply (HA b); auto; eapply nth_error_In; eauto|].
  assert (L : sid < length (segs s)) by (eapply splits_lt; eauto; rewrite Es; left; auto).
  destruct (nth_error (segs s) sid) as [sg|] eqn:Eg; [|apply nth_error_None in Eg; lia].
  exists (s_scope sg). cbn. split; auto. intros sc'. unfold BranchScope. rewrite Es. split.
  - intros (sid' & rest' & sg' & [= <- <-] & Eg' & <-). congruence.
  - intros ->. exists sid, rest, sg. auto.
Qed.

Lemma insert_collection_Grown e s : Shape s -> WfEnv e -> HasArms s ->
  forall fuel cid r, cid < length (colls s) -> length (colls s) - cid <= fuel ->
  exists r', insert_collection e s fuel r cid = Some r' /\ Grown r r' (tabs e s (items s fuel cid)).
Proof.
  intros Sh W HA. induction fuel as [|f IH]; intros cid r L1 L2; [lia|].
  cbn [insert_collection items]. destruct (nth_error (colls s) cid) as [c|] eqn:Ec.
  2:{ apply nth_error_None in Ec. lia. }
  unfold tabs. rewrite flat_map_flat_map'.
  apply each_Grown. intros [sid|bid] r0 Ip.
  - cbn. rewrite app_nil_r. apply insert_segment_Grown; auto. eapply linear_lt; eauto.
  - destruct (branch_lt s cid c bid Sh Ec Ip) as [Ib (b & Eb)]. rewrite Eb.
    unfold insert_branch. rewrite Eb. destruct (br_reach b) as [from to] eqn:Er.
    destruct (into_diff_ok e from to W) as (d & Ed & _). rewrite Ed.
    destruct (each_Grown (insert_segment e s) (stab e s) (br_splits b)
                (fun x r I => insert_segment_Grown e s r x W (splits_lt s bid b x Sh Eb I)) [])
      as (t1 & E1 & G1). rewrite E1.
    destruct (each_Grown (insert_collection e s f) (fun k => tabs e s (items s f k)) (br_nested b)) with (r := t1)
      as (t2 & E2 & G2).
    { intros k r1 Ik. apply IH; [eapply nested_lt; eauto|].
      pose proof (sh_below s Sh cid c bid b k Ec Ib Eb Ik). lia. }
    rewrite E2. destruct (branch_scope_ok s bid b Sh HA Eb) as (sc & Esc & _). rewrite Esc.
    eexists. split; [reflexivity|].
    rewrite !flat_map_app. rewrite flat_map_map'. cbn [flat_map tab].
    pose proof (Grown_trans _ _ _ _ _ G1 G2) as G.
    rewrite app_nil_r, app_assoc. eapply Grown_trans.
    + apply Grown_extend; [apply (g_nodup _ _ _ G); constructor|].
      rewrite flat_map_flat_map'. exact G.
    + unfold btab. rewrite Eb, Er. cbn [fst snd]. rewrite Ed, Esc. apply (Grown_push _ (Table _ _ _ _)).
Qed.

(** ** The tree of collections *)

Definition children (s : st) (cid : nat) : list nat :=
  match nth_error (colls s) cid with
  | None => []
  | Some c => flat_map (fun bid => match nth_error (branches s) bid with Some b => br_nested b | None => [] end)
                       (branch_ids c)
  end.

Fixpoint order (s : st) (fuel cid : nat) : list nat :=
  match fuel with
  | 0 => []
  | S f => cid :: flat_map (order s f) (children s cid)
  end.

Lemma children_lt s c d : Shape s -> In d (children s c) -> c < d < length (colls s).
Proof.
  intros Sh I. unfold children in I. destruct (nth_error (colls s) c) as [x|] eqn:E; [|destruct I].
  apply in_flat_map in I as (bid & Ib & I).
  destruct (nth_error (branches s) bid) as [b|] eqn:Eb; [|destruct I].
  split; [eapply sh_below; eauto|eapply nested_lt; eauto].
Qed.

Lemma map_nth_seq {A B} (f : nat -> A) (g : B -> A) (l : list B) :
  forall k, (forall i x, nth_error l i = Some x -> f (k + i) = g x) -> map f (seq k (length l)) = map g l.
Proof.
  induction l as [|x l IH]; intros k H; cbn [length seq map]; auto. f_equal.
  - rewrite <- (H 0 x eq_refl), Nat.add_0_r. auto.
  - apply IH. intros i y E. rewrite <- (H (S i) y E). f_equal. lia.
Qed.

Lemma flat_map_concat_map' {A B} (f : A -> list B) l : flat_map f l = concat (map f l).
Proof. apply flat_map_concat_map. Qed.

Lemma flat_map_nth_seq {A B} (f : nat -> list A) (g : B -> list A) (l : list B) :
  (forall i x, nth_error l i = Some x -> f i = g x) -> flat_map f (seq 0 (length l)) = flat_map g l.
Proof. intros H. rewrite !flat_map_concat_map. f_equal. apply map_nth_seq. auto. Qed.

Lemma Permutation_flat_map' {A B} (f : A -> list B) l l' :
  Permutation l l' -> Permutation (flat_map f l) (flat_map f l').
Proof. intros H. apply Permutation_flat_map. auto. Qed.

Lemma children_perm s : Shape s ->
  Permutation (flat_map (children s) (seq 0 (length (colls s)))) (seq 1 (length (colls s) - 1)).
Proof.
  intros Sh.
  rewrite (flat_map_nth_seq (children s)
    (fun c => flat_map (fun bid => match nth_error (branches s) bid with Some b => br_nested b | None => [] end)
                       (branch_ids c))).
  2:{ intros i x E. unfold children. rewrite E. auto. }
  rewrite <- flat_map_flat_map'.
  eapply perm_trans.
  { apply Permutation_flat_map'. apply (sh_branches s Sh). }
  rewrite (flat_map_nth_seq _ br_nested) by (intros i x E; rewrite E; auto).
  pose proof (sh_nested s Sh) as E. destruct (length (colls s)) as [|n]; [discriminate|].
  cbn [seq] in E. injection E as E. rewrite E. replace (S n - 1) with n by lia. auto.
Qed.

Lemma order_ge s f : Shape s -> forall c x, In x (order s f c) -> c <= x.
Proof.
  intros Sh. induction f as [|f IH]; intros c x I; [destruct I|].
  destruct I as [->|I]; auto. apply in_flat_map in I as (d & Id & I).
  apply IH in I. apply children_lt in Id; auto. lia.
Qed.

Definition cnt (k : nat) (l : list nat) : nat := count_occ Nat.eq_dec l k.

Lemma cnt_app k a b : cnt k (a ++ b) = cnt k a + cnt k b.
Proof. apply count_occ_app. Qed.
Lemma cnt_cons k x l : cnt k (x :: l) = (if x =? k then 1 else 0) + cnt k l.
Proof.
  unfold cnt. cbn. destruct (Nat.eq_dec x k) as [->|N].
  - rewrite Nat.eqb_refl. auto.
  - apply Nat.eqb_neq in N. rewrite N. auto.
Qed.
Lemma cnt_not k l : ~ In k l -> cnt k l = 0.
Proof. apply count_occ_not_In. Qed.

Lemma NoDup_app_l {A} (a b : list A) : NoDup (a ++ b) -> NoDup a.
Proof. induction a as [|x a IH]; cbn; intros H; constructor; apply NoDup_cons_iff in H as [N H]; auto.
  intros I. apply N. apply in_or_app. auto. Qed.
Lemma NoDup_app_r {A} (a b : list A) : NoDup (a ++ b) -> NoDup b.
Proof. induction a as [|x a IH]; cbn; intros H; auto. apply NoDup_cons_iff in H as [N H]; auto. Qed.
Lemma NoDup_app_disj {A} (a b : list A) x : NoDup (a ++ b) -> In x a -> In x b -> False.
Proof.
  induction a as [|y a IH]; cbn; intros H Ia Ib; [auto|]. apply NoDup_cons_iff in H as [N H].
  destruct Ia as [->|Ia]; [apply N; apply in_or_app; auto|eauto].
Qed.

Lemma NoDup_flat_map_In {A B} (f : A -> list B) l x : NoDup (flat_map f l) -> In x l -> NoDup (f x).
Proof.
  induction l as [|y l IH]; cbn; intros H I; [destruct I|].
  destruct I as [->|I]; [eapply NoDup_app_l; eauto|]. apply IH; auto. eapply NoDup_app_r; eauto.
Qed.

Lemma NoDup_flat_map_uniq {A B} (f : A -> list B) l x y z :
  NoDup (flat_map f l) -> In x l -> In y l -> In z (f x) -> In z (f y) -> x = y.
Proof.
  induction l as [|w l IH]; cbn; intros H Ix Iy Zx Zy; [destruct Ix|].
  assert (D : forall u, In u l -> In z (f w) -> In z (f u) -> False).
  { intros u Iu Z1 Z2. eapply NoDup_app_disj; [exact H|exact Z1|]. apply in_flat_map. eauto. }
  destruct Ix as [->|Ix], Iy as [->|Iy]; auto.
  - exfalso. eauto.
  - exfalso. eauto.
  - apply IH; auto. eapply NoDup_app_r; eauto.
Qed.

Lemma children_NoDup s : Shape s -> NoDup (flat_map (children s) (seq 0 (length (colls s)))).
Proof.
  intros Sh. eapply Permutation_NoDup; [apply Permutation_sym, children_perm; auto|]. apply seq_NoDup.
Qed.

Lemma order_parent s p k : Shape s -> In k (children s p) ->
  forall f c, c < length (colls s) -> length (colls s) - c <= f -> c <> k ->
  cnt k (order s f c) = cnt p (order s f c).
Proof.
  intros Sh Ik. pose proof (children_NoDup s Sh) as ND.
  assert (Lp : In p (seq 0 (length (colls s)))).
  { apply in_seq. unfold children in Ik. destruct (nth_error (colls s) p) eqn:E; [|destruct Ik].
    assert (p < length (colls s)) by (apply nth_error_Some; congruence). lia. }
  induction f as [|f IH]; intros c L1 L2 N; [lia|].
  cbn [order]. rewrite !cnt_cons.
  apply Nat.eqb_neq in N. rewrite N. rewrite Nat.add_0_l.
  assert (Q : forall L, NoDup L -> (forall d, In d L -> c < d < length (colls s)) ->
     cnt k (flat_map (order s f) L) = (if memb Nat.eq_dec k L then 1 else 0) + cnt p (flat_map (order s f) L)).
  { induction L as [|d L IHL]; intros NDL HL; [auto|].
    apply NoDup_cons_iff in NDL as [NId NDL]. cbn [flat_map]. rewrite !cnt_app, IHL; auto.
    2:{ intros x Ix. apply HL. right. auto. }
    destruct (HL d (or_introl eq_refl)) as [Hd1 Hd2].
    destruct (Nat.eq_dec d k) as [->|Nd].
    - assert (M1 : memb Nat.eq_dec k (k :: L) = true) by (apply memb_In; left; auto).
      assert (M2 : memb Nat.eq_dec k L = false) by (apply memb_not_In; auto). rewrite M1, M2.
      assert (Hk : cnt k (order s f k) = 1).
      { destruct f as [|f']; [lia|]. cbn [order]. rewrite cnt_cons, Nat.eqb_refl, cnt_not; auto.
        intros I. apply in_flat_map in I as (x & Ix & I). apply order_ge in I; auto.
        apply children_lt in Ix; auto. lia. }
      assert (Hp : cnt p (order s f k) = 0).
      { apply cnt_not. intros I. apply order_ge in I; auto. apply children_lt in Ik; auto. lia. }
      lia.
    - rewrite (IH d); auto; [|lia].
      assert (M : memb Nat.eq_dec k (d :: L) = memb Nat.eq_dec k L).
      { destruct (memb Nat.eq_dec k L) eqn:M; [apply memb_In; right; apply memb_In in M; auto|].
        apply memb_not_In. apply memb_not_In in M. intros [->|I]; auto. }
      rewrite M. lia. }
  rewrite Q.
  - f_equal. destruct (Nat.eqb_spec c p) as [->|Nc].
    + assert (M : memb Nat.eq_dec k (children s p) = true) by (apply memb_In; auto). rewrite M. auto.
    + assert (M : memb Nat.eq_dec k (children s c) = false).
      { apply memb_not_In. intros I. apply Nc.
        eapply (NoDup_flat_map_uniq (children s)); eauto. apply in_seq. lia. }
      rewrite M. auto.
  - apply (NoDup_flat_map_In (children s) (seq 0 (length (colls s)))); auto. apply in_seq. lia.
  - intros d Id. apply children_lt; auto.
Qed.

Lemma colls_nonempty s : Shape s -> 0 < length (colls s).
Proof. intros Sh. pose proof (sh_nested s Sh) as E. destruct (length (colls s)); [discriminate|lia]. Qed.

Lemma order_once s f : Shape s -> length (colls s) <= f -> forall k, k < length (colls s) ->
  cnt k (order s f 0) = 1.
Proof.
  intros Sh Lf k. induction k as [k IH] using lt_wf_ind. intros L.
  pose proof (colls_nonempty s Sh) as P.
  destruct k as [|k].
  - destruct f as [|f]; [lia|]. cbn [order]. rewrite cnt_cons, cnt_not; auto.
    intros I. apply in_flat_map in I as (x & Ix & I). apply order_ge in I; auto.
    apply children_lt in Ix; auto. lia.
  - assert (I : In (S k) (flat_map (children s) (seq 0 (length (colls s))))).
    { apply (Permutation_in (S k) (Permutation_sym (children_perm s Sh))). apply in_seq. lia. }
    apply in_flat_map in I as (p & Ip & I).
    pose proof (children_lt s p (S k) Sh I).
    rewrite (order_parent s p (S k)); auto; try lia. apply IH; lia.
Qed.

Lemma order_lt s f : Shape s -> forall c x, c < length (colls s) -> In x (order s f c) -> x < length (colls s).
Proof.
  intros Sh. induction f as [|f IH]; intros c x L I; [destruct I|].
  destruct I as [->|I]; auto. apply in_flat_map in I as (d & Id & I).
  eapply IH; [|exact I]. apply children_lt in Id; auto. lia.
Qed.

Lemma order_perm s f : Shape s -> length (colls s) <= f ->
  Permutation (order s f 0) (seq 0 (length (colls s))).
Proof.
  intros Sh L. apply (Permutation_count_occ Nat.eq_dec). intros k.
  change (cnt k (order s f 0) = cnt k (seq 0 (length (colls s)))).
  destruct (Nat.lt_ge_cases k (length (colls s))) as [Lk|Lk].
  - rewrite order_once; auto. symmetry.
    apply (NoDup_count_occ' Nat.eq_dec); [apply seq_NoDup|apply in_seq; lia].
  - rewrite !cnt_not; auto.
    + intros I. apply in_seq in I. lia.
    + intros I. apply order_lt in I; auto; [lia|]. apply colls_nonempty; auto.
Qed.

(** ** The items of the tree *)

Definition own (s : st) (cid : nat) : list item :=
  match nth_error (colls s) cid with
  | None => []
  | Some c =>
    flat_map (fun part =>
      match part with
      | Linear sid => [OfSeg sid]
      | Branching bid =>
        match nth_error (branches s) bid with
        | None => []
        | Some b => map OfSeg (br_splits b) ++ [OfBranch bid]
        end
      end) (c_data c)
  end.

Lemma Permutation_flat_map_ext {A B} (f g : A -> list B) l :
  (forall x, In x l -> Permutation (f x) (g x)) -> Permutation (flat_map f l) (flat_map g l).
Proof.
  induction l as [|x l IH]; intros H; cbn; auto. apply Permutation_app; [apply H; left; auto|].
  apply IH. intros y I. apply H. right; auto.
Qed.

Lemma flat_map_app_perm {A B} (f g : A -> list B) l :
  Permutation (flat_map (fun x => f x ++ g x) l) (flat_map f l ++ flat_map g l).
Proof.
  induction l as [|x l IH]; cbn; auto.
  rewrite <- !app_assoc. apply Permutation_app_head.
  eapply perm_trans; [apply Permutation_app_head, IH|].
  rewrite !app_assoc. apply Permutation_app_tail. apply Permutation_app_comm.
Qed.

Lemma items_order s f : Shape s -> forall c, Permutation (items s f c) (flat_map (own s) (order s f c)).
Proof.
  intros Sh. induction f as [|f IH]; intros c; [apply perm_nil|].
  cbn [items order flat_map]. unfold own at 1, children.
  destruct (nth_error (colls s) c) as [x|] eqn:E; [|apply perm_nil].
  eapply perm_trans.
  2:{ apply Permutation_app_head.
      rewrite flat_map_flat_map'. apply Permutation_flat_map_ext. intros k Ik. apply IH. }
  unfold branch_ids. rewrite !flat_map_flat_map'.
  eapply perm_trans; [|apply flat_map_app_perm].
  apply Permutation_flat_map_ext. intros [sid|bid] I; [apply Permutation_refl|].
  cbn [flat_map]. rewrite app_nil_r.
  destruct (nth_error (branches s) bid) as [b|]; [|apply perm_nil].
  rewrite <- !app_assoc. apply Permutation_app_head. apply Permutation_app_comm.
Qed.

Lemma own_perm s : Shape s ->
  Permutation (flat_map (own s) (seq 0 (length (colls s))))
              (map OfSeg (seq 0 (length (segs s))) ++ map OfBranch (seq 0 (length (branches s)))).
Proof.
  intros Sh.
  set (spl := fun bid => match nth_error (branches s) bid with Some b => br_splits b | None => [] end).
  assert (P1 : Permutation (flat_map (own s) (seq 0 (length (colls s))))
     (flat_map (fun c => map OfSeg (linear_ids c)) (colls s) ++
      flat_map (fun c => map OfSeg (flat_map spl (branch_ids c)) ++ map OfBranch (branch_ids c)) (colls s))).
  { rewrite (flat_map_nth_seq (own s) (fun c =>
      flat_map (fun part =>
      match part with
      | Linear sid => [OfSeg sid]
      | Branching bid =>
        match nth_error (branches s) bid with
        | None => []
        | Some b => map OfSeg (br_splits b) ++ [OfBranch bid]
        end
      end) (c_data c))) by (intros i x E; unfold own; rewrite E; auto).
    eapply perm_trans; [|apply flat_map_app_perm].
    apply Permutation_flat_map_ext. intros c Ic.
    apply In_nth_error in Ic as (cid & Ec).
    assert (Hb : forall bid, In bid (branch_ids c) -> exists b, nth_error (branches s) bid = Some b).
    { intros bid Ib. apply in_flat_map in Ib as ([x|x] & Ix & Jx); [destruct Jx|]. destruct Jx as [->|[]].
      apply (branch_lt s cid c bid Sh Ec Ix). }
    unfold linear_ids. unfold branch_ids in *. induction (c_data c) as [|[sid|bid] d IH]; cbn [flat_map map app].
    - constructor.
    - constructor. apply IH. intros bid I. apply Hb. cbn. auto.
    - destruct (Hb bid) as (b & Eb); [cbn; auto|].
      unfold spl at 1. rewrite Eb. rewrite map_app.
      assert (IH' := IH (fun x I => Hb x (or_intror I))). clear IH.
      rewrite <- !app_assoc. cbn [app].
      eapply perm_trans; [apply Permutation_app_head, perm_skip, IH'|].
      eapply perm_trans; [|apply Permutation_app_comm]. rewrite <- !app_assoc.
      apply Permutation_app_head. cbn [app].
      rewrite !app_comm_cons.
      eapply perm_trans; [apply (Permutation_app_comm (OfBranch bid :: _))|].
      rewrite <- app_assoc. apply Permutation_app_head. cbn.
      apply Permutation_sym, Permutation_middle. }
  eapply perm_trans; [exact P1|].
  eapply perm_trans; [apply Permutation_app_head, flat_map_app_perm|].
  assert (M : forall {A B C} (f : B -> C) (g : A -> list B) l, flat_map (fun x => map f (g x)) l = map f (flat_map g l)).
  { intros A B C f g l. induction l as [|x l IH]; cbn; auto. rewrite map_app, IH. auto. }
  rewrite !M, app_assoc, <- map_app. apply Permutation_app.
  - apply Permutation_map.
    eapply perm_trans; [|apply (sh_segs s Sh)]. apply Permutation_app_head.
    rewrite <- flat_map_flat_map'.
    eapply perm_trans; [apply Permutation_flat_map', (sh_branches s Sh)|].
    rewrite (flat_map_nth_seq spl br_splits); auto. intros i x E. unfold spl. rewrite E. auto.
  - apply Permutation_map. apply (sh_branches s Sh).
Qed.

Lemma items_perm s f : Shape s -> length (colls s) <= f ->
  Permutation (items s f 0) (map OfSeg (seq 0 (length (segs s))) ++ map OfBranch (seq 0 (length (branches s)))).
Proof.
  intros Sh L. eapply perm_trans; [apply items_order; auto|].
  eapply perm_trans; [apply Permutation_flat_map', order_perm; auto|]. apply own_perm. auto.
Qed.
