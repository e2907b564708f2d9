(** Shared, code-independent vocabulary: association lists standing for Rust
    hash maps, finite reachability, and walks in a graph.

    Nothing in this file models a particular function of /repo.  A Rust
    [HashMap] is modelled by an association list: [aget] is [get], [aset] is
    [insert] (overwriting in place, else appending).  The order of the list is
    the (arbitrary) iteration order of the map. *)

From Coq Require Import List Arith Lia Bool Permutation Relations.
Import ListNotations.

(** ** Membership as a boolean *)

Section Mem.
  Variable T : Type.
  Variable eqd : forall x y : T, {x = y} + {x <> y}.

  Definition memb (x : T) (l : list T) : bool :=
    if in_dec eqd x l then true else false.

  Lemma memb_In x l : memb x l = true <-> In x l.
  Proof. unfold memb; destruct (in_dec eqd x l); split; intros; auto; discriminate. Qed.

  Lemma memb_not_In x l : memb x l = false <-> ~ In x l.
  Proof. unfold memb; destruct (in_dec eqd x l); split; intros; auto; try discriminate; contradiction. Qed.
End Mem.
Arguments memb {T} eqd x l.
Arguments memb_In {T} eqd x l.
Arguments memb_not_In {T} eqd x l.

(** ** Association lists *)

Section Assoc.
  Variables K V : Type.
  Variable eqd : forall x y : K, {x = y} + {x <> y}.

  Fixpoint aget (m : list (K * V)) (k : K) : option V :=
    match m with
    | [] => None
    | (k', v) :: r => if eqd k k' then Some v else aget r k
    end.

  Fixpoint aset (m : list (K * V)) (k : K) (v : V) : list (K * V) :=
    match m with
    | [] => [(k, v)]
    | (k', v') :: r => if eqd k k' then (k, v) :: r else (k', v') :: aset r k v
    end.

  Definition akeys (m : list (K * V)) : list K := map fst m.

  Fixpoint adel (m : list (K * V)) (k : K) : list (K * V) :=
    match m with
    | [] => []
    | (k', v') :: r => if eqd k k' then adel r k else (k', v') :: adel r k
    end.

  Lemma aget_aset_eq m k v : aget (aset m k v) k = Some v.
  Proof.
    induction m as [|[k' v'] r IH]; cbn.
    - destruct (eqd k k); congruence.
    - destruct (eqd k k') as [->|N]; cbn.
      + destruct (eqd k' k'); congruence.
      + destruct (eqd k k'); congruence.
  Qed.

  Lemma aget_aset_neq m k k' v : k' <> k -> aget (aset m k v) k' = aget m k'.
  Proof.
    intros N. induction m as [|[k0 v0] r IH]; cbn.
    - destruct (eqd k' k); congruence.
    - destruct (eqd k k0) as [->|N0]; cbn.
      + destruct (eqd k' k0); congruence.
      + destruct (eqd k' k0); auto.
  Qed.

  Lemma aget_aset m k k' v : aget (aset m k v) k' = if eqd k' k then Some v else aget m k'.
  Proof.
    destruct (eqd k' k) as [->|N]; [apply aget_aset_eq|apply aget_aset_neq; auto].
  Qed.

  Lemma aget_adel_eq m k : aget (adel m k) k = None.
  Proof.
    induction m as [|[k' v'] r IH]; cbn; auto.
    destruct (eqd k k') as [->|N]; cbn; auto.
    destruct (eqd k k'); congruence.
  Qed.

  Lemma aget_adel_neq m k k' : k' <> k -> aget (adel m k) k' = aget m k'.
  Proof.
    intros N. induction m as [|[k0 v0] r IH]; cbn; auto.
    destruct (eqd k k0) as [->|N0]; cbn.
    - destruct (eqd k' k0); congruence.
    - destruct (eqd k' k0); auto.
  Qed.

  Lemma aget_Some_In m k v : aget m k = Some v -> In (k, v) m.
  Proof.
    induction m as [|[k' v'] r IH]; cbn; try discriminate.
    destruct (eqd k k') as [->|N]; intros H.
    - injection H as ->; auto.
    - auto.
  Qed.

  Lemma aget_None m k : aget m k = None <-> ~ In k (akeys m).
  Proof.
    induction m as [|[k' v'] r IH]; cbn.
    - tauto.
    - destruct (eqd k k') as [->|N].
      + split; intros H; [discriminate | exfalso; auto].
      + rewrite IH. split; intros H; [intros [E|E]; [congruence|auto] | auto].
  Qed.

  Lemma aget_In_keys m k : In k (akeys m) <-> exists v, aget m k = Some v.
  Proof.
    destruct (aget m k) as [v|] eqn:E.
    - split; [eauto|]. intros _. apply in_map_iff. exists (k, v).
      split; auto. apply aget_Some_In; auto.
    - apply aget_None in E. split; [tauto|]. intros [v Hv]. discriminate.
  Qed.

  Lemma In_aget m k v : NoDup (akeys m) -> In (k, v) m -> aget m k = Some v.
  Proof.
    induction m as [|[k' v'] r IH]; cbn; [tauto|].
    intros ND [E|I].
    - injection E as -> ->. destruct (eqd k k); congruence.
    - inversion ND as [|? ? NI ND']; subst.
      destruct (eqd k k') as [->|N]; auto.
      exfalso. apply NI. apply in_map_iff. exists (k', v). auto.
  Qed.

  Lemma akeys_aset m k v k' : In k' (akeys (aset m k v)) <-> k' = k \/ In k' (akeys m).
  Proof.
    induction m as [|[k0 v0] r IH]; cbn.
    - intuition.
    - destruct (eqd k k0) as [->|N]; cbn; [intuition|].
      rewrite IH. intuition.
  Qed.

  Lemma NoDup_aset m k v : NoDup (akeys m) -> NoDup (akeys (aset m k v)).
  Proof.
    induction m as [|[k0 v0] r IH]; cbn; intros ND.
    - constructor; auto.
    - inversion ND as [|? ? NI ND']; subst.
      destruct (eqd k k0) as [->|N]; cbn.
      + constructor; auto.
      + constructor; auto. intros I. apply akeys_aset in I as [->|I]; auto.
  Qed.

  Lemma NoDup_adel m k : NoDup (akeys m) -> NoDup (akeys (adel m k)).
  Proof.
    induction m as [|[k0 v0] r IH]; cbn; intros ND; auto.
    inversion ND as [|? ? NI ND']; subst.
    destruct (eqd k k0) as [->|N]; cbn; auto.
    constructor; auto. intros I. apply NI.
    clear - I. induction r as [|[k1 v1] r IH]; cbn in *; auto.
    destruct (eqd k k1); cbn in *; intuition.
  Qed.
End Assoc.
Arguments aget {K V} eqd m k.
Arguments aset {K V} eqd m k v.
Arguments adel {K V} eqd m k.
Arguments akeys {K V} m.

(** ** Finite reachability

    [closure] explores from the seeds in rounds, keeping a set of already
    processed elements and the frontier of the last round.  This is both the
    shape of a semi-naive datalog evaluation of a linear recursive rule and of
    a graph search.  [U] only bounds the number of rounds. *)

Section Closure.
  Variable T : Type.
  Variable eqd : forall x y : T, {x = y} + {x <> y}.
  Variable succ : T -> list T.

  Definition fresh (seen : list T) (cand : list T) : list T :=
    nodup eqd (filter (fun x => negb (memb eqd x seen)) cand).

  Fixpoint rounds (fuel : nat) (seen front : list T) : list T :=
    match fuel with
    | O => seen ++ front
    | S f =>
      match front with
      | [] => seen
      | _ => rounds f (seen ++ front) (fresh (seen ++ front) (flat_map succ front))
      end
    end.

  Definition closure (U seeds : list T) : list T :=
    rounds (S (length U)) [] (nodup eqd seeds).

  (** The specification: [x] is derivable from a seed in finitely many steps. *)
  Inductive derives (seeds : list T) : T -> Prop :=
  | der_seed x : In x seeds -> derives seeds x
  | der_step x y : derives seeds x -> In y (succ x) -> derives seeds y.

  Lemma fresh_In seen cand x : In x (fresh seen cand) <-> In x cand /\ ~ In x seen.
  Proof.
    unfold fresh. rewrite nodup_In, filter_In, negb_true_iff, memb_not_In. tauto.
  Qed.

  Lemma rounds_sound seeds fuel : forall seen front,
    (forall x, In x (seen ++ front) -> derives seeds x) ->
    forall x, In x (rounds fuel seen front) -> derives seeds x.
  Proof.
    induction fuel as [|f IH]; cbn; intros seen front H x I; auto.
    destruct front as [|a fr].
    - apply H. rewrite app_nil_r. auto.
    - revert x I. apply IH. intros x I.
      apply in_app_or in I as [I|I]; auto.
      apply fresh_In in I as [I _]. apply in_flat_map in I as (y & Iy & Ix).
      eapply der_step; [|exact Ix]. apply H. apply in_or_app; auto.
  Qed.

  Lemma rounds_incl fuel : forall seen front x,
    In x (seen ++ front) -> In x (rounds fuel seen front).
  Proof.
    induction fuel as [|f IH]; cbn; intros seen front x I; auto.
    destruct front as [|a fr].
    - rewrite app_nil_r in I. auto.
    - apply IH. apply in_or_app; auto.
  Qed.

  Lemma NoDup_app_intro (l1 l2 : list T) :
    NoDup l1 -> NoDup l2 -> (forall x, In x l1 -> ~ In x l2) -> NoDup (l1 ++ l2).
  Proof.
    induction l1 as [|a l1 IH]; cbn; auto. intros N1 N2 D.
    inversion N1; subst. constructor.
    - intros I. apply in_app_or in I as [I|I]; auto. eapply D; eauto.
    - apply IH; auto.
  Qed.

  Lemma rounds_closed U fuel : forall seen front,
    (forall x, In x U -> incl (succ x) U) ->
    incl (seen ++ front) U -> NoDup (seen ++ front) ->
    (forall x, In x seen -> incl (succ x) (seen ++ front)) ->
    length U < length seen + fuel ->
    forall x, In x (rounds fuel seen front) -> incl (succ x) (rounds fuel seen front).
  Proof.
    induction fuel as [|f IH]; intros seen front HU HI ND HC L.
    - exfalso. assert (length (seen ++ front) <= length U) by (apply NoDup_incl_length; auto).
      rewrite app_length in H. lia.
    - cbn. destruct front as [|a fr].
      + intros x I. rewrite app_nil_r in HC. auto.
      + remember (a :: fr) as front eqn:Efr.
        apply IH; auto.
        * intros x I. apply in_app_or in I as [I|I]; auto.
          apply fresh_In in I as [I _]. apply in_flat_map in I as (y & Iy & Ix).
          apply (HU y); auto. apply HI. apply in_or_app; auto.
        * apply NoDup_app_intro; auto.
          -- apply NoDup_nodup.
          -- intros x I1 I2. apply fresh_In in I2 as [_ I2]. auto.
        * intros x I y Iy. apply in_app_or in I as [I|I].
          -- apply in_or_app; left. apply (HC x); auto.
          -- destruct (in_dec eqd y (seen ++ front)) as [J|J].
             ++ apply in_or_app; auto.
             ++ apply in_or_app; right. apply fresh_In. split; auto.
                apply in_flat_map; eauto.
        * rewrite app_length. subst front. cbn. lia.
  Qed.

  Theorem closure_spec U seeds :
    incl seeds U -> (forall x, In x U -> incl (succ x) U) ->
    forall x, In x (closure U seeds) <-> derives seeds x.
  Proof.
    intros HS HU x. unfold closure. split.
    - apply rounds_sound. cbn. intros y I. apply nodup_In in I. constructor; auto.
    - assert (C := rounds_closed U (S (length U)) [] (nodup eqd seeds) HU).
      cbn [app length] in C.
      assert (HC : forall y, In y (rounds (S (length U)) [] (nodup eqd seeds)) ->
                 incl (succ y) (rounds (S (length U)) [] (nodup eqd seeds))).
      { apply C.
        - intros y I. apply nodup_In in I. auto.
        - apply NoDup_nodup.
        - intros y [].
        - lia. }
      induction 1 as [y I|y z D IH I].
      + apply rounds_incl. cbn. apply nodup_In; auto.
      + eapply HC; eauto.
  Qed.

  Lemma rounds_NoDup fuel : forall seen front,
    NoDup (seen ++ front) -> NoDup (rounds fuel seen front).
  Proof.
    induction fuel as [|f IH]; cbn; intros seen front ND; auto.
    destruct front as [|a fr].
    - rewrite app_nil_r in ND. auto.
    - apply IH. apply NoDup_app_intro; auto.
      + apply NoDup_nodup.
      + intros x I1 I2. apply fresh_In in I2 as [_ I2]. auto.
  Qed.

  Lemma closure_NoDup U seeds : NoDup (closure U seeds).
  Proof. apply rounds_NoDup. cbn. apply NoDup_nodup. Qed.
End Closure.
Arguments closure {T} eqd succ U seeds.
Arguments derives {T} succ seeds x.
Arguments fresh {T} eqd seen cand.
Arguments closure_spec {T} eqd succ U seeds.
Arguments closure_NoDup {T} eqd succ U seeds.

(** ** Graphs given by edge lists, and walks *)

Section Graph.
  Variable T : Type.
  Variable eqd : forall x y : T, {x = y} + {x <> y}.

  Definition nexts (E : list (T * T)) (x : T) : list T :=
    map snd (filter (fun e => if eqd (fst e) x then true else false) E).

  Lemma nexts_In E x y : In y (nexts E x) <-> In (x, y) E.
  Proof.
    unfold nexts. rewrite in_map_iff. split.
    - intros ([a b] & <- & I). apply filter_In in I as [I H]. cbn in *.
      destruct (eqd a x); subst; auto; discriminate.
    - intros I. exists (x, y). split; auto. apply filter_In. split; auto.
      cbn. destruct (eqd x x); congruence.
  Qed.

  (** Everything reachable from the seeds along the edges. *)
  Definition reach_list (E : list (T * T)) (seeds : list T) : list T :=
    closure eqd (nexts E) (seeds ++ map snd E) seeds.

  (** A walk from [x] to [y] through the listed nodes, endpoints included. *)
  Inductive walk (R : T -> T -> Prop) : T -> list T -> T -> Prop :=
  | walk_one x : walk R x [x] x
  | walk_cons x y l z : R x y -> walk R y l z -> walk R x (x :: l) z.

  Definition edge (E : list (T * T)) (x y : T) : Prop := In (x, y) E.

  Lemma walk_head R x l y : walk R x l y -> exists r, l = x :: r.
  Proof. destruct 1; eauto. Qed.

  Lemma walk_start_In R x l y : walk R x l y -> In x l.
  Proof. destruct 1; cbn; auto. Qed.

  Lemma walk_end_In R x l y : walk R x l y -> In y l.
  Proof. induction 1; cbn; auto. Qed.

  Lemma walk_snoc R x l y z : walk R x l y -> R y z -> walk R x (l ++ [z]) z.
  Proof.
    induction 1; cbn; intros.
    - econstructor; eauto. constructor.
    - econstructor; eauto.
  Qed.

  Lemma walk_app R x l1 y l2 z :
    walk R x l1 y -> walk R y l2 z -> walk R x (l1 ++ tl l2) z.
  Proof.
    induction 1 as [x|x y l z' H W IH]; cbn; intros W2.
    - destruct (walk_head _ _ _ _ W2) as [r ->]. cbn. auto.
    - econstructor; eauto.
  Qed.

  Lemma walk_split R x l y n :
    walk R x l y -> In n l ->
    exists l1 l2, walk R x l1 n /\ walk R n l2 y /\ l = l1 ++ tl l2.
  Proof.
    induction 1 as [x|x y l z H W IH]; cbn; intros I.
    - destruct I as [<-|[]]. exists [x], [x]. repeat split; constructor.
    - destruct I as [<-|I].
      + exists [x], (x :: l). split; [constructor|]. split; [econstructor; eauto|]. auto.
      + destruct (IH I) as (l1 & l2 & W1 & W2 & ->).
        exists (x :: l1), l2. split; [econstructor; eauto|]. split; auto.
  Qed.

  (** Prefix up to the first visit of [n]. *)
  Lemma walk_first R x l y n :
    walk R x l y -> In n l ->
    exists l1, walk R x (l1 ++ [n]) n /\ ~ In n l1 /\ incl (l1 ++ [n]) l.
  Proof.
    induction 1 as [x|x y l z H W IH]; cbn; intros I.
    - destruct I as [<-|[]]. exists []. cbn. split; [constructor|]. split; auto.
      intros a Ha; auto.
    - destruct (eqd x n) as [->|N].
      + exists []. cbn. split; [constructor|]. split; auto. intros a [<-|[]]; cbn; auto.
      + destruct I as [->|I]; [congruence|].
        destruct (IH I) as (l1 & W1 & N1 & S1).
        exists (x :: l1). cbn. split; [econstructor; eauto|]. split.
        * intros [->|J]; auto.
        * intros a [<-|Ha]; cbn; auto.
  Qed.

  (** Suffix from the last visit of [n]. *)
  Lemma walk_last R x l y n :
    walk R x l y -> In n l ->
    exists l2, walk R n (n :: l2) y /\ ~ In n l2 /\ incl (n :: l2) l.
  Proof.
    induction 1 as [x|x y l z H W IH]; cbn; intros I.
    - destruct I as [<-|[]]. exists []. split; [constructor|]. split; auto. intros a Ha; auto.
    - destruct (in_dec eqd n l) as [J|J].
      + destruct (IH J) as (l2 & W2 & N2 & S2). exists l2. split; auto. split; auto.
        intros a Ha. right. auto.
      + destruct I as [->|I]; [|contradiction].
        exists l. split; [econstructor; eauto|]. split; auto. intros a Ha; auto.
  Qed.

  Lemma walk_mono (R R' : T -> T -> Prop) x l y :
    (forall a b, R a b -> R' a b) -> walk R x l y -> walk R' x l y.
  Proof. intros H. induction 1; econstructor; eauto. Qed.

  Lemma derives_walk E seeds x :
    derives (nexts E) seeds x <->
    exists s l, In s seeds /\ walk (edge E) s l x.
  Proof.
    split.
    - induction 1 as [x I|x y D IH I].
      + exists x, [x]. split; auto. constructor.
      + destruct IH as (s & l & Is & W). exists s, (l ++ [y]). split; auto.
        eapply walk_snoc; eauto. apply nexts_In. auto.
    - intros (s & l & Is & W).
      assert (D : derives (nexts E) seeds s) by (constructor; auto).
      clear Is. induction W; auto.
      apply IHW. eapply der_step; eauto. apply nexts_In. auto.
  Qed.

  Theorem reach_list_spec E seeds x :
    In x (reach_list E seeds) <->
    exists s l, In s seeds /\ walk (edge E) s l x.
  Proof.
    rewrite <- derives_walk. apply closure_spec.
    - apply incl_appl, incl_refl.
    - intros y _ z Iz. apply nexts_In in Iz. apply in_or_app; right.
      apply in_map_iff. exists (y, z). auto.
  Qed.
End Graph.
Arguments nexts {T} eqd E x.
Arguments reach_list {T} eqd E seeds.
Arguments walk {T} R x l y.
Arguments edge {T} E x y.
Arguments nexts_In {T} eqd E x y.
Arguments reach_list_spec {T} eqd E seeds x.
Arguments walk_app {T} R x l1 y l2 z.
Arguments walk_snoc {T} R x l y z.
Arguments walk_split {T} R x l y n.
Arguments walk_first {T} eqd R x l y n.
Arguments walk_last {T} eqd R x l y n.
Arguments walk_head {T} R x l y.
Arguments walk_start_In {T} R x l y.
Arguments walk_end_In {T} R x l y.
Arguments walk_mono {T} R R' x l y.
Arguments derives_walk {T} eqd E seeds x.

(** A boolean helper used for deciding equality of pairs. *)
Definition pair_eqd {X Y : Type}
    (dx : forall a b : X, {a = b} + {a <> b})
    (dy : forall a b : Y, {a = b} + {a <> b}) :
    forall p q : X * Y, {p = q} + {p <> q}.
Proof. decide equality. Defined.
