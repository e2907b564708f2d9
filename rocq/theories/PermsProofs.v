(** Proofs for C01-C04. *)

From Coq Require Import List Arith Bool Lia.
From Verif Require Import Base PermsModel PermsSpec.
Import ListNotations.

(** ** C01 *)

Lemma perms_ignore_spec d :
  (p_read (permissions_ignore_liveness d) = true <-> CanRead d) /\
  (p_write (permissions_ignore_liveness d) = true <-> CanWrite d) /\
  (p_drop (permissions_ignore_liveness d) = true <-> CanOwn d).
Proof.
  destruct d as [td tw tc il pu pm lr lw ld].
  unfold CanOwn, CanWrite, CanRead, Initialised; cbn.
  destruct td, tw, il, pu, pm, lr, lw, ld; cbn;
    repeat split; intros; intuition (try discriminate; try reflexivity).
Qed.

Lemma perms_spec d :
  (p_read (permissions d) = true <-> is_live d = true /\ CanRead d) /\
  (p_write (permissions d) = true <-> is_live d = true /\ CanWrite d) /\
  (p_drop (permissions d) = true <-> is_live d = true /\ CanOwn d).
Proof.
  destruct (perms_ignore_spec d) as (R & W & O).
  unfold permissions. destruct (is_live d); cbn.
  - rewrite R, W, O. tauto.
  - intuition discriminate.
Qed.

Lemma perms_bounds d :
  (p_write (permissions d) = true -> p_read (permissions d) = true) /\
  (p_drop (permissions d) = true -> p_read (permissions d) = true) /\
  perms_le (permissions d) (max_permissions (type_writeable d) (type_droppable d)) /\
  (is_live d = false -> permissions d = bottom).
Proof.
  destruct (perms_spec d) as (R & W & O).
  unfold perms_le, max_permissions. cbn.
  rewrite R, W, O. unfold CanWrite, CanOwn.
  split; [tauto|]. split; [tauto|]. split; [split; [auto|tauto]|].
  intros H. unfold permissions. rewrite H. reflexivity.
Qed.

(** ** C02 *)

Lemma after_diff_bool a b : after_bool (diff_bool a b) a = b.
Proof. destruct a, b; reflexivity. Qed.

Lemma diff_bool_nostep a b : vs_is_empty (diff_bool a b) = true <-> a = b.
Proof. destruct a, b; cbn; intuition discriminate. Qed.

Lemma diff_bool_value a b : forall v, diff_bool a b = NoStep v -> v = Some a /\ a = b.
Proof. destruct a, b; cbn; intros v H; inversion H; auto. Qed.

Lemma after_diff_option {A} (a b : option A) : after_key (diff_option a b) = b.
Proof. destruct a, b; reflexivity. Qed.

Lemma after_diff_perms a b : after_perms (diff_perms a b) a = b.
Proof. destruct a, b; unfold after_perms; cbn; rewrite !after_diff_bool; reflexivity. Qed.

Lemma after_diff_data a b :
  type_copyable a = type_copyable b -> after_data (diff_data a b) a = b.
Proof.
  destruct a, b; unfold after_data; cbn; intros ->.
  rewrite !after_diff_bool, !after_diff_option. reflexivity.
Qed.

Lemma after_diff_data_perms a b :
  after_perms (dd_permissions (diff_data a b)) (permissions a) = permissions b.
Proof. cbn. apply after_diff_perms. Qed.

Lemma ddiff_empty_iff a b :
  ddiff_is_empty (diff_data a b) = true <-> permissions a = permissions b.
Proof.
  unfold ddiff_is_empty, pdiff_is_empty. cbn.
  rewrite !andb_true_iff, !diff_bool_nostep.
  destruct (permissions a), (permissions b); cbn. split.
  - intros (-> & -> & -> & _). reflexivity.
  - intros H; inversion H; auto.
Qed.

Lemma diff_bool_mirror a b : mirrors (diff_bool a b) (diff_bool b a).
Proof. destruct a, b; cbn; auto. Qed.

Lemma diff_option_mirror {A} (a b : option A) : mirrors (diff_option a b) (diff_option b a).
Proof. destruct a, b; cbn; auto. Qed.

Lemma ddiff_symmetric_rev a b : ddiff_symmetric (diff_data a b) (diff_data b a) = true.
Proof.
  unfold ddiff_symmetric; cbn.
  destruct (permissions a) as [r w o], (permissions b) as [r' w' o']; cbn.
  destruct r, r', w, w', o, o'; reflexivity.
Qed.

Lemma diff_domain_loop_spec rhs : forall todo diffs,
  NoDup (akeys todo) ->
  (forall k, In k (akeys todo) -> aget Nat.eq_dec diffs k = None) ->
  (forall k, In k (akeys todo) -> In k (akeys rhs)) ->
  exists r, diff_domain_loop todo rhs diffs = Some r /\
    forall k, aget Nat.eq_dec r k =
      match aget Nat.eq_dec todo k, aget Nat.eq_dec rhs k with
      | Some a, Some b => Some (diff_data a b)
      | _, _ => aget Nat.eq_dec diffs k
      end.
Proof.
  induction todo as [|[k0 a0] todo IH]; cbn [diff_domain_loop akeys map fst]; intros diffs ND HD HK.
  - exists diffs. split; auto.
  - inversion ND as [|? ? NI ND']; subst.
    assert (I0 : In k0 (akeys rhs)) by (apply HK; left; reflexivity).
    apply aget_In_keys with (eqd := Nat.eq_dec) in I0 as [b0 Hb0]. rewrite Hb0.
    rewrite HD by (left; reflexivity).
    destruct (IH (aset Nat.eq_dec diffs k0 (diff_data a0 b0))) as (r & Hr & S).
    + auto.
    + intros k Ik. rewrite aget_aset_neq; [apply HD; right; auto|].
      intros ->. contradiction.
    + intros k Ik. apply HK. right; auto.
    + exists r. split; auto. intros k. rewrite S. cbn [aget].
      destruct (Nat.eq_dec k k0) as [->|N].
      * apply aget_None with (eqd := Nat.eq_dec) in NI. fold (akeys todo) in NI.
        rewrite NI, Hb0. rewrite aget_aset_eq. reflexivity.
      * rewrite aget_aset_neq by auto. reflexivity.
Qed.

Lemma diff_domain_ok a b :
  NoDup (akeys a) -> (forall k, In k (akeys a) -> In k (akeys b)) ->
  exists r, diff_domain a b = Some r /\
    forall k, aget Nat.eq_dec r k =
      match aget Nat.eq_dec a k, aget Nat.eq_dec b k with
      | Some x, Some y => Some (diff_data x y)
      | _, _ => None
      end.
Proof.
  intros ND HK. apply (diff_domain_loop_spec b a []); auto.
Qed.

Lemma diff_domain_loop_panics rhs : forall todo diffs k,
  In k (akeys todo) -> ~ In k (akeys rhs) -> diff_domain_loop todo rhs diffs = None.
Proof.
  induction todo as [|[k0 a0] todo IH]; cbn; intros diffs k I NI; [tauto|].
  destruct (aget Nat.eq_dec rhs k0) as [b0|] eqn:E; auto.
  destruct I as [->|I].
  - exfalso. apply NI. apply aget_In_keys with (eqd := Nat.eq_dec). eauto.
  - destruct (aget Nat.eq_dec diffs k0); auto. eapply IH; eauto.
Qed.

(** ** C03 *)

Lemma join_perms_glb a b :
  let j := fst (join_perms a b) in
  perms_le j a /\ perms_le j b /\
  (forall c, perms_le c a -> perms_le c b -> perms_le c j).
Proof.
  cbn. unfold perms_le. cbn. rewrite !andb_true_iff. intuition.
Qed.

Lemma join_perms_laws a b c :
  fst (join_perms a b) = fst (join_perms b a) /\
  fst (join_perms a (fst (join_perms b c))) = fst (join_perms (fst (join_perms a b)) c) /\
  fst (join_perms a a) = a.
Proof.
  destruct a, b, c; cbn.
  rewrite !andb_assoc, !andb_diag.
  repeat split; f_equal; apply andb_comm.
Qed.

Lemma perms_eqb_eq a b : perms_eqb a b = true <-> a = b.
Proof.
  destruct a, b; unfold perms_eqb; cbn.
  rewrite !andb_true_iff, !eqb_true_iff. split.
  - intros [[-> ->] ->]; reflexivity.
  - intros H; inversion H; auto.
Qed.

Lemma join_perms_changed a b :
  snd (join_perms a b) = true <-> fst (join_perms a b) <> a.
Proof.
  cbn [join_perms snd fst]. rewrite negb_true_iff, <- not_true_iff_false, perms_eqb_eq.
  intuition.
Qed.

(** ** C04 *)

(** What the implementation really computes, for every pair of domains. *)
Lemma join_domain_loop_entries other : forall self ch,
  NoDup (akeys other) ->
  forall k, aget Nat.eq_dec (fst (fold_left join_domain_step other (self, ch))) k =
    match aget Nat.eq_dec self k with
    | Some d => Some d
    | None => aget Nat.eq_dec other k
    end.
Proof.
  induction other as [|[k0 d0] other IH]; intros self ch ND k.
  - cbn. destruct (aget Nat.eq_dec self k); reflexivity.
  - inversion ND as [|? ? NI ND']; subst.
    cbn [fold_left]. unfold join_domain_step at 2.
    destruct (aget Nat.eq_dec self k0) as [m|] eqn:E.
    + cbn. rewrite IH by auto.
      destruct (Nat.eq_dec k k0) as [->|N].
      * rewrite E. reflexivity.
      * reflexivity.
    + rewrite IH by auto. cbn.
      destruct (Nat.eq_dec k k0) as [->|N].
      * rewrite aget_aset_eq, E. reflexivity.
      * rewrite aget_aset_neq by auto. reflexivity.
Qed.

Lemma join_domain_entries self other :
  NoDup (akeys other) ->
  forall k, aget Nat.eq_dec (fst (join_domain self other)) k =
    match aget Nat.eq_dec self k with
    | Some d => Some d
    | None => aget Nat.eq_dec other k
    end.
Proof. intros; apply join_domain_loop_entries; auto. Qed.

(** A concrete pair on which the flag says "changed" forever. *)
Definition rw_data : PData := mkPD true true false true false None None None None.
Definition borrowed_data : PData := mkPD true true false true false None None (Some 0) (Some 0).

Lemma join_n_stuck n : join_n n [(0, rw_data)] [(0, borrowed_data)] = [(0, rw_data)].
Proof. induction n as [|n IH]; cbn [join_n]; [|rewrite IH]; reflexivity. Qed.

Lemma join_domain_never_stabilises :
  exists self other : Domain,
    NoDup (akeys self) /\ NoDup (akeys other) /\
    (forall n, snd (join_domain (join_n n self other) other) = true) /\
    (forall n, join_n n self other = self) /\
    (exists k d d', aget Nat.eq_dec self k = Some d /\ aget Nat.eq_dec other k = Some d' /\
       exists e, aget Nat.eq_dec (fst (join_domain self other)) k = Some e /\
         permissions e <> fst (join_perms (permissions d) (permissions d'))).
Proof.
  exists [(0, rw_data)], [(0, borrowed_data)].
  split; [repeat constructor; cbn; tauto|].
  split; [repeat constructor; cbn; tauto|].
  split; [intros n; rewrite join_n_stuck; reflexivity|].
  split; [exact join_n_stuck|].
  exists 0, rw_data, borrowed_data. split; [reflexivity|]. split; [reflexivity|].
  exists rw_data. split; [reflexivity|]. cbn. discriminate.
Qed.

(** The flag of the domain join: true iff some place of [other] is missing in
    [self] or has fewer letters there. *)
Lemma join_domain_loop_flag other : forall self ch,
  NoDup (akeys other) ->
  (snd (fold_left join_domain_step other (self, ch)) = true <->
   ch = true \/
   exists k d', In (k, d') other /\
     match aget Nat.eq_dec self k with
     | None => True
     | Some d => ~ perms_le (permissions d) (permissions d')
     end).
Proof.
  assert (LE : forall a b, snd (join_perms a b) = true <-> ~ perms_le a b).
  { intros [r w o] [r' w' o']. unfold perms_le. cbn.
    destruct r, r', w, w', o, o'; cbn; intuition discriminate. }
  induction other as [|[k0 d0] other IH]; intros self ch ND.
  - cbn. split; [auto|]. intros [H|(k & d' & [] & _)]; auto.
  - inversion ND as [|? ? NI ND']; subst. fold (akeys other) in NI, ND'.
    cbn [fold_left]. unfold join_domain_step at 2.
    destruct (aget Nat.eq_dec self k0) as [m|] eqn:E.
    + cbn [join_perms]. rewrite IH by auto. rewrite orb_true_iff.
      specialize (LE (permissions m) (permissions d0)). cbn [join_perms snd] in LE.
      rewrite LE. split.
      * intros [[H|H]|(k & d' & I & H)]; auto.
        -- right. exists k0, d0. rewrite E. cbn. auto.
        -- right. exists k, d'. cbn. auto.
      * intros [H|(k & d' & [Ek|I] & H)]; auto.
        -- injection Ek as -> ->. rewrite E in H. auto.
        -- right. eauto.
    + rewrite IH by auto. split; auto. intros _. right.
      exists k0, d0. rewrite E. cbn. auto.
Qed.

Lemma join_domain_flag self other :
  NoDup (akeys other) ->
  (snd (join_domain self other) = true <->
   exists k d', In (k, d') other /\
     match aget Nat.eq_dec self k with
     | None => True
     | Some d => ~ perms_le (permissions d) (permissions d')
     end).
Proof.
  intros ND. unfold join_domain. rewrite join_domain_loop_flag by auto.
  intuition discriminate.
Qed.

Lemma option_diff_hides_replacement :
  exists a b : option LoanKey, a <> b /\ vs_is_empty (diff_option a b) = true.
Proof. exists (Some 1), (Some 2). split; [discriminate | reflexivity]. Qed.
