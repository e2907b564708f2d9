(** * Closing branches *)
From Coq Require Import List Arith Bool Lia Permutation.
From Verif Require Import Base FactsModel CfgModel CfgSpec CfgProofs SegMirModel SegMirSpec SegMirProofs.
Import ListNotations.

(** ** The newest builder that dominates *)

Lemma ldom_trans bd A B C : WfBody bd ->
  ldominates bd A B = true -> ldominates bd B C = true -> ldominates bd A C = true.
Proof.
  intros Wf. unfold ldominates.
  destruct (Nat.eqb_spec (l_block A) (l_block B)) as [E|E],
           (Nat.eqb_spec (l_block B) (l_block C)) as [F|F],
           (Nat.eqb_spec (l_block A) (l_block C)) as [G|G]; try congruence; intros H1 H2.
  - apply Nat.leb_le in H1, H2. apply Nat.leb_le. lia.
  - exfalso. apply E. rewrite <- G in H2. apply (dominates_antisym bd); auto.
  - apply dominates_iff in H1 as [R1 D1]; auto. apply dominates_iff in H2 as [R2 D2]; auto.
    apply dominates_iff; auto. split; auto.
    exact (Dom_trans _ _ _ _ _ D1 D2).
Qed.

Lemma find_refine {A} (f g : A -> bool) l x :
  find f l = Some x -> g x = true -> (forall y, g y = true -> f y = true) -> find g l = Some x.
Proof.
  induction l as [|y r IH]; cbn; [discriminate|]. intros H G Q.
  destruct (f y) eqn:F.
  - injection H as ->. rewrite G. auto.
  - destruct (g y) eqn:Gy; auto. rewrite (Q y Gy) in F. discriminate.
Qed.

Lemma find_builder_self bd s l i b : WfBody bd ->
  find_builder bd s l = Some (i, b) -> find_builder bd s (bl_cur b) = Some (i, b).
Proof.
  intros Wf H. unfold find_builder in *.
  assert (D : ldominates bd (bl_cur b) l = true) by (apply find_some in H as [_ H]; exact H).
  eapply find_refine; eauto.
  - cbn. apply ldominates_refl.
  - intros y Hy. eapply ldom_trans; eauto.
Qed.

(** What an implicit branch does. *)
Lemma child_facts fw bd ord s location parent l s' : WfBody bd ->
  find_suitable_collection bd s location = FrNonLinear parent l ->
  open_child_branch fw bd ord s parent l = Val (s', true) ->
  exists sw i b sp pb cb,
    switch_location bd l = Some sw /\ nth_error (processing s) i = Some b /\ bl_cur b = l /\
    aget Nat.eq_dec (spanners s) parent = Some sp /\
    nth_error (branches s) parent = Some pb /\ In (bl_coll b) (br_nested pb) /\
    let s1 := branched bd s l sw (join_of bd ord sw) i b sp (spanners s) in
    nth_error (branches s1) parent = Some pb /\
    nth_error (branches s1) (length (branches s)) = Some cb /\
    s' = with_table s1 (union fw (table s1) (br_table pb) (br_table cb)).
Proof.
  intros Wf F O.
  destruct (child_branched (fun _ => True) _ _ _ _ _ _ _ _ I F O)
    as (sw & i & b & sp & pb & cb & H1 & H2 & H3 & H4 & H5 & H6).
  apply find_suitable_NonLinear in F as (i' & b' & pb' & G1 & _ & -> & G4 & G5).
  apply find_builder_self in G1; auto. assert (i' = i /\ b' = b) as [-> ->].
  { rewrite G1 in H2. injection H2 as -> ->. auto. }
  assert (pb' = pb) by congruence. subst pb'.
  exists sw, i, b, sp, pb, cb. repeat split; auto; try apply H6.
  eapply find_builder_lookup; eauto.
Qed.

(** Opening an implicit branch never returns an error. *)
Lemma child_never_err fw bd ord s location parent l r : WfBody bd ->
  find_suitable_collection bd s location = FrNonLinear parent l ->
  open_child_branch fw bd ord s parent l = Val r -> snd r = true.
Proof.
  intros Wf F O. apply open_child_Val in O as [(s' & M & ->)|(s' & c & p & q & _ & _ & _ & ->)]; auto.
  apply find_suitable_NonLinear in F as (i' & b' & pb' & G1 & _ & -> & _ & _).
  apply find_builder_self in G1; auto. unfold mk_branch in M. rewrite G1 in M.
  destruct (switch_location bd (bl_cur b')); [|discriminate].
  destruct (loc_eqd (bl_cur b') (bl_cur b')); [|congruence].
  destruct (lookup_spanner s (GetFrom parent)); discriminate.
Qed.

Lemma insert_never_err fw bd ord fuel s l span r : WfBody bd ->
  insert fw bd ord fuel s l span = Val r -> snd r = true.
Proof.
  intros Wf. revert s r. induction fuel as [|f IH]; intros s r; cbn [insert]; [discriminate|].
  destruct (find_suitable_collection bd s l) as [|parent bl|i b] eqn:F.
  - intros [= <-]. auto.
  - destruct (open_child_branch fw bd ord s parent bl) as [[s1 [|]]| |] eqn:O; cbn; try discriminate.
    + apply IH.
    + apply child_never_err with (location := l) in O; auto. discriminate.
  - destruct (insert_linear bd s i b l span) as [s1| |]; cbn; try discriminate.
    intros [= <-]. auto.
Qed.

(** ** The unification table *)

Lemma tfind_new t k : k < length t -> tfind (new_key t) k = tfind t k.
Proof. intros L. unfold tfind, new_key. rewrite nth_error_app1; auto. Qed.
Lemma tfind_new_self t : tfind (new_key t) (length t) = length t.
Proof. unfold tfind, new_key. rewrite nth_error_app2, Nat.sub_diag; auto. Qed.
Lemma trank_new t k : k < length t -> trank (new_key t) k = trank t k.
Proof. intros L. unfold trank, new_key. rewrite nth_error_app1; auto. Qed.
Lemma trank_new_self t : trank (new_key t) (length t) = 0.
Proof. unfold trank, new_key. rewrite nth_error_app2, Nat.sub_diag; auto. Qed.
Lemma new_key_length t : length (new_key t) = S (length t).
Proof. unfold new_key. rewrite app_length. cbn. lia. Qed.

Lemma nth_redirect t rank old new k :
  nth_error (redirect t rank old new) k =
  option_map (fun rn => (if fst rn =? old then new else fst rn, if k =? new then rank else snd rn))
             (nth_error t k).
Proof.
  unfold redirect. rewrite nth_error_map, nth_error_enumerate.
  destruct (nth_error t k) as [[r n]|]; auto.
Qed.
Lemma tfind_redirect t rank old new k : k < length t ->
  tfind (redirect t rank old new) k = if tfind t k =? old then new else tfind t k.
Proof.
  intros L. unfold tfind. rewrite nth_redirect. apply nth_error_Some in L.
  destruct (nth_error t k) as [[r n]|]; [auto|congruence].
Qed.
Lemma trank_redirect t rank old new k : k < length t ->
  trank (redirect t rank old new) k = if k =? new then rank else trank t k.
Proof.
  intros L. unfold trank. rewrite nth_redirect. apply nth_error_Some in L.
  destruct (nth_error t k) as [[r n]|]; [auto|congruence].
Qed.

Lemma union_child fw t p : p < length t ->
  (forall k, k < length t -> tfind t k < length t) ->
  let n := length t in
  let ra := tfind t p in
  let t' := union fw (new_key t) p n in
  exists r, (r = if fw || (0 <? trank t ra) then ra else n) /\
    (forall k, k < n -> tfind t' k = if tfind t k =? ra then r else tfind t k) /\
    tfind t' n = r /\ 0 < trank t' r /\
    (forall k, k < n -> k <> r -> trank t' k = trank t k).
Proof.
  intros Lp Lt n ra t'. pose proof (Lt p Lp) as Lra. fold ra in Lra.
  assert (Hnew : length (new_key t) = S n) by apply new_key_length.
  unfold t', union. rewrite tfind_new by auto. fold ra. unfold n. rewrite tfind_new_self.
  destruct (Nat.eqb_spec ra (length t)); [lia|]. rewrite trank_new_self, trank_new by auto.
  destruct (Nat.ltb_spec 0 (trank t ra)) as [R|R].
  - exists ra. rewrite orb_true_r. split; auto.
    repeat split.
    + intros k Lk. rewrite tfind_redirect, tfind_new by lia. specialize (Lt k Lk).
      destruct (Nat.eqb_spec (tfind t k) (length t)); [lia|].
      destruct (Nat.eqb_spec (tfind t k) ra); auto.
    + rewrite tfind_redirect by lia. rewrite tfind_new_self, Nat.eqb_refl. auto.
    + rewrite trank_redirect by lia. rewrite Nat.eqb_refl. auto.
    + intros k Lk N. rewrite trank_redirect, trank_new by lia. destruct (Nat.eqb_spec k ra); congruence.
  - destruct (Nat.ltb_spec (trank t ra) 0); [lia|]. rewrite orb_false_r. destruct fw.
    + exists ra. split; auto. repeat split.
      * intros k Lk. rewrite tfind_redirect, tfind_new by lia. specialize (Lt k Lk).
        destruct (Nat.eqb_spec (tfind t k) (length t)); [lia|].
        destruct (Nat.eqb_spec (tfind t k) ra); auto.
      * rewrite tfind_redirect by lia. rewrite tfind_new_self, Nat.eqb_refl. auto.
      * rewrite trank_redirect by lia. rewrite Nat.eqb_refl. lia.
      * intros k Lk N. rewrite trank_redirect, trank_new by lia. destruct (Nat.eqb_spec k ra); congruence.
    + exists (length t). split; auto. repeat split.
      * intros k Lk. rewrite tfind_redirect, tfind_new by lia. auto.
      * rewrite tfind_redirect by lia. rewrite tfind_new_self. destruct (length t =? ra); auto.
      * rewrite trank_redirect by lia. rewrite Nat.eqb_refl. lia.
      * intros k Lk N. rewrite trank_redirect, trank_new by lia.
        destruct (Nat.eqb_spec k (length t)); congruence.
Qed.

(** ** Owners *)

Lemma ParentBranch_mono s s' b p : Extends s s' ->
  (forall cid c, nth_error (colls s) cid = Some c -> exists c' r,
     nth_error (colls s') cid = Some c' /\ branch_ids c' = branch_ids c ++ r) ->
  ParentBranch s b p -> ParentBranch s' b p.
Proof.
  intros [E1 [y E2]] Hc (cid & c & pb & H1 & H2 & H3 & H4).
  destruct (Hc _ _ H1) as (c' & r & H5 & H6).
  exists cid, c', pb. split; auto. split; [rewrite H6; apply in_app_iff; auto|]. split; auto.
  rewrite E2. apply nth_error_prefix. auto.
Qed.

Lemma eq_sym_iff (a b : nat) : a = b <-> b = a.
Proof. split; auto. Qed.

Lemma OwnedBy_mono s s' b t :
  (forall b p, ParentBranch s b p -> ParentBranch s' b p) ->
  length (branches s) <= length (branches s') ->
  (forall b, b < length (branches s) -> (UserBranch s b <-> UserBranch s' b)) ->
  (forall b, UserBranch s b -> b < length (branches s)) ->
  OwnedBy s b t -> OwnedBy s' b t.
Proof.
  intros HP L HU HL. induction 1 as [t U|b p t Lb NU P O IH].
  - constructor. apply HU; auto.
  - econstructor; eauto; [lia|]. intros U. apply NU. apply HU; auto.
Qed.

Definition Grouped (fw : bool) (s : st) (own : nat -> nat) : Prop :=
  let n := length (branches s) in
  let T := table s in
  (forall b, b < n -> own b < n /\ UserBranch s (own b) /\ OwnedBy s b (own b)) /\
  (forall b b', b < n -> b' < n -> (tfind T b = tfind T b' <-> own b = own b')) /\
  (forall b, b < n -> tfind T b < n /\ tfind T (tfind T b) = tfind T b) /\
  (forall t, t < n -> own t = t ->
     if fw then tfind T t = t
     else ((forall b, b < n -> own b = t -> b = t) /\ tfind T t = t /\ trank T t = 0) \/
          ((exists b, b < n /\ own b = t /\ b <> t) /\ tfind T t <> t /\ 0 < trank T (tfind T t))).

Lemma OwnedBy_user s b t : UserBranch s b -> OwnedBy s b t -> t = b.
Proof. intros U O. destruct O; auto. contradiction. Qed.

Lemma OwnedBy_is_user s b t : OwnedBy s b t -> UserBranch s t.
Proof. induction 1; auto. Qed.

Lemma Grouped_user fw s own t : Grouped fw s own -> t < length (branches s) ->
  UserBranch s t -> own t = t.
Proof. intros (H & _) L U. destruct (H t L) as (_ & _ & O). eapply OwnedBy_user; eauto. Qed.

(** The new branch forms a group of its own. *)
Lemma Grouped_new fw s s' own :
  Shape s -> Grouped fw s own ->
  length (branches s') = S (length (branches s)) -> table s' = new_key (table s) ->
  (forall b t, b < length (branches s) -> OwnedBy s b t -> OwnedBy s' b t) ->
  (forall b, UserBranch s b -> UserBranch s' b) ->
  UserBranch s' (length (branches s)) ->
  Grouped fw s' (fun b => if b =? length (branches s) then b else own b).
Proof.
  intros Sh (G1 & G2 & G3 & G4) EL ET MO MU U.
  pose proof (sh_table s Sh) as TL. set (n := length (branches s)) in *.
  assert (TF : forall k, k < n -> tfind (table s') k = tfind (table s) k).
  { intros k L. rewrite ET, tfind_new; auto. lia. }
  assert (TN : tfind (table s') n = n). { rewrite ET, <- TL. apply tfind_new_self. }
  assert (TR : forall k, k < n -> trank (table s') k = trank (table s) k).
  { intros k L. rewrite ET, trank_new; auto. lia. }
  assert (TRN : trank (table s') n = 0). { rewrite ET, <- TL. apply trank_new_self. }
  unfold Grouped. rewrite EL. split; [|split; [|split]].
  - intros b L. destruct (Nat.eqb_spec b n) as [->|N].
    + split; [lia|]. split; auto. constructor. auto.
    + destruct (G1 b) as (H1 & H2 & H3); [lia|]. split; [lia|]. split; auto. apply MO; auto. lia.
  - intros b b' L L'. destruct (Nat.eqb_spec b n) as [->|N], (Nat.eqb_spec b' n) as [->|N'].
    + tauto.
    + rewrite TN, TF by lia. destruct (G3 b') as [H1 _]; [lia|]. destruct (G1 b') as (H2 & _); [lia|]. lia.
    + rewrite TN, TF by lia. destruct (G3 b) as [H1 _]; [lia|]. destruct (G1 b) as (H2 & _); [lia|]. lia.
    + rewrite !TF by lia. apply G2; lia.
  - intros b L. destruct (Nat.eq_dec b n) as [->|N].
    + rewrite !TN. lia.
    + rewrite (TF b) by lia. destruct (G3 b) as [H1 H2]; [lia|]. rewrite TF by auto. lia.
  - intros t L O. destruct (Nat.eqb_spec t n) as [->|N].
    + destruct fw; auto. left. split; auto. intros b Lb. destruct (Nat.eqb_spec b n) as [->|Nb]; auto.
      intros E. destruct (G1 b) as (H2 & _); [lia|]. lia.
    + specialize (G4 t ltac:(lia) O). destruct fw; [rewrite TF; auto; lia|].
      destruct (G3 t) as [H1 _]; [lia|].
      rewrite TF by lia. destruct G4 as [(A & B & C)|((b & A1 & A2 & A3) & B & C)]; [left|right].
      * split; [|split; auto; rewrite TR; auto; lia].
        intros b Lb. destruct (Nat.eqb_spec b n) as [->|Nb]; [lia|]. apply A. lia.
      * split; [|split; auto; rewrite TR; auto].
        exists b. split; [lia|]. destruct (Nat.eqb_spec b n); [lia|]. auto.
Qed.

(** The new branch joins the group of a visitor's branch. *)
Lemma Grouped_child fw s s' own p :
  Shape s -> Grouped fw s own -> p < length (branches s) -> UserBranch s p ->
  length (branches s') = S (length (branches s)) ->
  table s' = union fw (new_key (table s)) p (length (branches s)) ->
  (forall b t, b < length (branches s) -> OwnedBy s b t -> OwnedBy s' b t) ->
  (forall b, UserBranch s b -> UserBranch s' b) ->
  OwnedBy s' (length (branches s)) p ->
  Grouped fw s' (fun b => if b =? length (branches s) then p else own b).
Proof.
  intros Sh G Lp Up EL ET MO MU U. pose proof (Grouped_user _ _ _ _ G Lp Up) as Op.
  destruct G as (G1 & G2 & G3 & G4).
  pose proof (sh_table s Sh) as TL.
  destruct (union_child fw (table s) p) as (r & Hr & HF & HN & HR & HR').
  { lia. } { intros k L. rewrite TL in L |- *. apply G3. auto. }
  cbn zeta in *. rewrite TL in *. rewrite <- ET in *.
  set (n := length (branches s)) in *. set (ra := tfind (table s) p) in *.
  destruct (G3 p Lp) as [Lra Fra]. fold ra in Lra, Fra.
  assert (Same : forall k, k < n -> (tfind (table s) k = ra <-> own k = p)).
  { intros k L. unfold ra. rewrite (G2 k p) by auto. rewrite Op. tauto. }
  assert (Rc : r = ra \/ r = n) by (destruct (fw || (0 <? trank (table s) ra)); auto).
  assert (Ow : forall k, k < n -> own k < n) by (intros k L; apply G1; auto).
  unfold Grouped. rewrite EL. split; [|split; [|split]].
  - intros b L. destruct (Nat.eqb_spec b n) as [->|N].
    + split; [lia|]. split; auto.
    + destruct (G1 b) as (H1 & H2 & H3); [lia|]. split; [lia|]. split; auto. apply MO; auto. lia.
  - intros b b' L L'.
    assert (Q : forall k, k < n -> tfind (table s') k = r <-> own k = p).
    { intros k Lk. rewrite HF by auto. rewrite <- Same by auto.
      destruct (Nat.eqb_spec (tfind (table s) k) ra) as [E|E]; [tauto|].
      destruct (G3 k Lk) as [H1 _]. split; [|tauto]. intros E2. destruct Rc; lia. }
    destruct (Nat.eqb_spec b n) as [->|N], (Nat.eqb_spec b' n) as [->|N'].
    + tauto.
    + rewrite HN. rewrite (eq_sym_iff r). rewrite Q by lia. split; auto.
    + rewrite HN. rewrite Q by lia. tauto.
    + assert (Lb : b < n) by lia. assert (Lb' : b' < n) by lia.
      destruct (Nat.eq_dec (own b) p) as [E|E].
      * pose proof (proj2 (Q b Lb) E) as Hb. rewrite Hb, (eq_sym_iff r), (Q b' Lb'), E.
        split; auto.
      * destruct (Nat.eq_dec (own b') p) as [E'|E'].
        -- pose proof (proj2 (Q b' Lb') E') as Hb. rewrite Hb, (Q b Lb), E'. tauto.
        -- rewrite !HF by auto. rewrite <- Same in E, E' by auto.
           destruct (Nat.eqb_spec (tfind (table s) b) ra); [contradiction|].
           destruct (Nat.eqb_spec (tfind (table s) b') ra); [contradiction|]. apply G2; auto.
  - assert (Rr : tfind (table s') r = r).
    { destruct Rc as [->| ->]; auto. rewrite HF, Fra, Nat.eqb_refl by auto. auto. }
    assert (Lr : r < S n) by (destruct Rc; lia).
    intros b L. destruct (Nat.eq_dec b n) as [->|N]; [rewrite HN; auto|].
    rewrite HF by lia. destruct (Nat.eqb_spec (tfind (table s) b) ra); auto.
    destruct (G3 b) as [H1 H2]; [lia|]. split; [lia|]. rewrite HF by auto. rewrite H2.
    destruct (Nat.eqb_spec (tfind (table s) b) ra); congruence.
  - intros t L O. destruct (Nat.eqb_spec t n) as [->|N]; [lia|].
    assert (Lt : t < n) by lia. specialize (G4 t Lt O).
    destruct (Nat.eq_dec t p) as [->|Np].
    + rewrite HF by auto. fold ra. rewrite Nat.eqb_refl. fold ra in G4. destruct fw.
      * cbn in Hr. congruence.
      * right. split; [exists n; rewrite Nat.eqb_refl; lia|]. split; auto.
        destruct G4 as [(A & B & C)|(A & B & C)].
        -- replace (trank (table s) ra) with 0 in Hr by congruence. cbn in Hr. lia.
        -- apply Nat.ltb_lt in C. rewrite C in Hr. cbn in Hr. congruence.
    + assert (Nr : tfind (table s) t <> ra) by (rewrite Same; auto; lia).
      rewrite HF by auto. destruct (Nat.eqb_spec (tfind (table s) t) ra); [contradiction|].
      destruct fw; auto. destruct (G3 t Lt) as [H1 _].
      assert (Nr' : tfind (table s) t <> r) by (destruct Rc; lia).
      destruct G4 as [(A & B & C)|((b & A1 & A2 & A3) & B & C)]; [left|right].
      * split; [|split; auto; rewrite HR'; auto; congruence].
        intros b Lb. destruct (Nat.eqb_spec b n) as [->|Nb]; [lia|]. apply A. lia.
      * split; [|split; auto; rewrite HR'; auto].
        exists b. split; [lia|]. destruct (Nat.eqb_spec b n); [lia|]. auto.
Qed.

Lemma aset_keys {A} (m : list (nat * A)) k v x :
  In x (map fst (aset Nat.eq_dec m k v)) <-> x = k \/ In x (map fst m).
Proof.
  induction m as [|[a w] r IH]; cbn; [firstorder|].
  destruct (Nat.eq_dec k a) as [->|N]; cbn; [firstorder|]. rewrite IH. firstorder.
Qed.

Lemma branched_parents bd s l sw phi i b sp sps x p :
  ParentBranch s x p -> ParentBranch (branched bd s l sw phi i b sp sps) x p.
Proof.
  apply ParentBranch_mono.
  - split; eexists; reflexivity.
  - intros cid c E. unfold branched; cbn [colls].
    rewrite nth_error_app1 by (rewrite upd_length; apply nth_error_Some; congruence).
    rewrite upd_nth, E. cbn. destruct (cid =? bl_coll b).
    + eexists. exists [length (branches s)]. split; [reflexivity|]. rewrite branch_ids_snoc. reflexivity.
    + eexists. exists []. split; [reflexivity|]. rewrite app_nil_r. auto.
Qed.

Lemma branched_owned bd s l sw phi i b sp sps x t : Shape s ->
  (forall k, k < length (branches s) -> (UserBranch s k <-> In k (map fst sps))) ->
  OwnedBy s x t -> OwnedBy (branched bd s l sw phi i b sp sps) x t.
Proof.
  intros Sh HU. apply OwnedBy_mono.
  - intros. apply branched_parents; auto.
  - cbn. rewrite app_length. lia.
  - exact HU.
  - apply (sh_user s Sh).
Qed.

(** ** The collections keep their branches when a linear step is added *)
Lemma Grouped_same fw s s' own : Shape s ->
  (forall b p, ParentBranch s b p -> ParentBranch s' b p) ->
  branches s' = branches s -> table s' = table s -> spanners s' = spanners s ->
  Grouped fw s own -> Grouped fw s' own.
Proof.
  intros Sh EP E2 E3 E4 (G1 & G2 & G3 & G4). unfold Grouped. rewrite E2, E3.
  split; [|auto]. intros b L. destruct (G1 b L) as (H1 & H2 & H3). split; auto.
  unfold UserBranch in *. rewrite E4. split; auto.
  eapply OwnedBy_mono with (s := s); auto.
  - rewrite E2. auto.
  - intros k _. unfold UserBranch. rewrite E4. tauto.
  - apply (sh_user s Sh).
Qed.

Lemma OwnedBy_with_table s tb b t : OwnedBy s b t -> OwnedBy (with_table s tb) b t.
Proof.
  induction 1 as [t U|b p t L NU P O IH]; [constructor; exact U|].
  apply owned_child with p; auto.
Qed.

Lemma Grouped_prim P fw bd ord s s' : WfBody bd -> prim P fw bd ord s s' -> Shape s ->
  (exists own, Grouped fw s own) -> exists own, Grouped fw s' own.
Proof.
  intros Wf H Sh [own G]. destruct H as [s|s idx s' E|s l sp s' bid Pl Pe M|s location parent l s' Pl F O'
    |s bid s' C|s i b l span s' Pl F I].
  - exists own. eapply Grouped_same; eauto.
  - apply close_scope_Some in E as (_ & rest & _ & ->). exists own. eapply Grouped_same; eauto.
  - apply mk_branch_Some in M as (sw & i & b & sp' & Hsw & F & El & Hl & _ & ->).
    eexists. eapply Grouped_new; [exact Sh|exact G| | | | |].
    + cbn. rewrite app_length. cbn. lia.
    + reflexivity.
    + intros x t _. apply branched_owned; auto. intros k L. rewrite aset_keys. unfold UserBranch.
      split; auto. intros [->|]; auto. lia.
    + intros k U. unfold UserBranch. cbn [spanners branched]. rewrite aset_keys. auto.
    + unfold UserBranch. cbn [spanners branched]. rewrite aset_keys. auto.
  - destruct (child_facts _ _ _ _ _ _ _ _ Wf F O')
      as (sw & i & b & sp & pb & cb & Hsw & Eb & El & Hsp & Epb & Inb & H). cbn zeta in H.
    destruct H as (_ & Ecb & ->).
    assert (Tcb : br_table cb = length (branches s)).
    { cbn in Ecb. rewrite nth_error_app2, Nat.sub_diag in Ecb by lia. cbn in Ecb.
      injection Ecb as <-. apply (sh_table s Sh). }
    assert (Tpb : br_table pb = parent) by (apply (sh_tid s Sh); auto).
    assert (Lp : parent < length (branches s)) by (apply nth_error_Some; congruence).
    assert (Up : UserBranch s parent).
    { apply aget_Some_In in Hsp. unfold UserBranch. apply in_map_iff. exists (parent, sp). auto. }
    eexists. eapply Grouped_child with (p := parent); [exact Sh|exact G|exact Lp|exact Up| | | |auto|].
    + cbn. rewrite app_length. cbn. lia.
    + cbn [table with_table branched]. rewrite Tcb, Tpb. reflexivity.
    + intros x t _ O. apply OwnedBy_with_table. apply branched_owned; auto.
      intros k _. unfold UserBranch. tauto.
    + apply owned_child with parent.
      * cbn. rewrite app_length. cbn. lia.
      * intros U. apply (sh_user s Sh) in U. lia.
      * exists (bl_coll b).
        assert (Lc : bl_coll b < length (colls s)) by (apply (sh_proc_lt s Sh); eapply nth_error_In; eauto).
        apply nth_error_Some in Lc. destruct (nth_error (colls s) (bl_coll b)) as [c|] eqn:Ec; [|congruence].
        eexists. exists pb. cbn [colls branches with_table branched]. split.
        { rewrite nth_error_app1 by (rewrite upd_length; apply nth_error_Some; congruence).
          rewrite upd_nth, Ec. cbn. rewrite Nat.eqb_refl. reflexivity. }
        split; [rewrite branch_ids_snoc; apply in_app_iff; right; left; auto|].
        split; auto. rewrite nth_error_app1; auto.
      * constructor. exact Up.
  - unfold close_branch in C. destruct (nth_error (branches s) bid) as [b|]; [|discriminate].
    injection C as <-. exists own. eapply Grouped_same; eauto.
  - apply insert_linear_Val in I as (c & Ec & ->). exists own. eapply Grouped_same; eauto.
    intros x p (cid & c0 & pb & H1 & H2 & H3 & H4). cbn zeta.
    exists cid. cbn [colls branches]. rewrite upd_nth, H1. cbn. eexists. exists pb.
    split; [reflexivity|]. split; auto. destruct (cid =? bl_coll b); auto.
    rewrite branch_ids_snoc, app_nil_r. auto.
Qed.

Lemma Grouped_Steps P fw bd ord s : WfBody bd -> Steps P fw bd ord make s ->
  exists own, Grouped fw s own.
Proof.
  intros Wf. induction 1 as [|s s' H IH Hp].
  - exists id. repeat split; cbn in *; lia.
  - eapply Grouped_prim; eauto. eapply Shape_Steps; eauto.
Qed.

(** ** Everyone has one owner *)

Lemma NoDup_app_split {A} (l1 l2 : list A) : NoDup (l1 ++ l2) ->
  NoDup l1 /\ NoDup l2 /\ forall x, In x l1 -> ~ In x l2.
Proof.
  induction l1 as [|x r IH]; cbn; intros H; [split; [constructor|split; auto]|].
  inversion H as [|? ? N D]; subst. destruct (IH D) as (H1 & H2 & H3). split; [|split; auto].
  - constructor; auto. intros I. apply N, in_app_iff. auto.
  - intros y [<-|I] J; [apply N, in_app_iff; auto|eapply H3; eauto].
Qed.

Lemma flat_map_unique {A B} (f : A -> list B) l : NoDup (flat_map f l) ->
  forall i j x y b, nth_error l i = Some x -> nth_error l j = Some y -> In b (f x) -> In b (f y) -> i = j.
Proof.
  induction l as [|a r IH]; intros ND i j x y b Hi Hj Ix Iy; [destruct i; discriminate|].
  cbn in ND. apply NoDup_app_split in ND as (N1 & N2 & N3).
  destruct i as [|i], j as [|j]; cbn in Hi, Hj.
  - auto.
  - injection Hi as <-. exfalso. apply (N3 b); auto. apply in_flat_map. exists y. split; auto.
    eapply nth_error_In; eauto.
  - injection Hj as <-. exfalso. apply (N3 b); auto. apply in_flat_map. exists x. split; auto.
    eapply nth_error_In; eauto.
  - f_equal. eapply IH; eauto.
Qed.

Lemma ParentBranch_unique s b p q : Shape s -> ParentBranch s b p -> ParentBranch s b q -> p = q.
Proof.
  intros Sh (c1 & k1 & b1 & H1 & H2 & H3 & H4) (c2 & k2 & b2 & G1 & G2 & G3 & G4).
  assert (N1 : NoDup (flat_map branch_ids (colls s))).
  { eapply Permutation_NoDup; [apply Permutation_sym, (sh_branches s Sh)|apply seq_NoDup]. }
  assert (N2 : NoDup (flat_map br_nested (branches s))).
  { pose proof (seq_NoDup (length (colls s)) 0) as N. rewrite <- (sh_nested s Sh) in N.
    inversion N; auto. }
  assert (c1 = c2) by (eapply (flat_map_unique branch_ids); eauto). subst c2.
  eapply (flat_map_unique br_nested (branches s) N2); eauto.
Qed.

Lemma OwnedBy_unique s b t u : Shape s -> OwnedBy s b t -> OwnedBy s b u -> t = u.
Proof.
  intros Sh O. revert u. induction O as [t U|b p t L NU P O IH]; intros u O2.
  - symmetry. eapply OwnedBy_user; eauto.
  - destruct O2 as [|? q ? L' NU' P' O']; [contradiction|].
    apply IH. rewrite (ParentBranch_unique s b p q); auto.
Qed.

Lemma OwnedBy_lt s b t : Shape s -> OwnedBy s b t -> b < length (branches s).
Proof. intros Sh [u U|c p u L _ _ _]; auto. apply (sh_user s Sh). auto. Qed.

(** What closing does to the open builders. *)
Lemma close_processing s bid s' : close_branch s bid = Val s' ->
  exists f, processing s' = filter f (processing s).
Proof.
  unfold close_branch. destruct (nth_error (branches s) bid); [|discriminate].
  intros [= <-]. eexists. reflexivity.
Qed.

Lemma close_iff P fw bd ord s t : WfBody bd -> Steps P fw bd ord make s -> UserBranch s t ->
  exists s', close_branch s t = Val s' /\
    (forall b, In b (processing s') -> In b (processing s)) /\
    (forall b, In b (processing s) -> ~ ArmOf s t (bl_coll b) -> In b (processing s')) /\
    ((fw = true \/ ~ HasChild s t) -> forall b, In b (processing s') -> ~ ArmOf s t (bl_coll b)) /\
    (fw = false -> HasChild s t -> processing s' = processing s).
Proof.
  intros Wf R U. pose proof (Shape_Steps _ _ _ _ _ R) as Sh.
  destruct (Grouped_Steps _ _ _ _ _ Wf R) as [own G].
  assert (Lt : t < length (branches s)) by (apply (sh_user s Sh); auto).
  pose proof (Grouped_user _ _ _ _ G Lt U) as Ot. destruct G as (G1 & G2 & G3 & G4).
  unfold close_branch. pose proof Lt as Lt'. apply nth_error_Some in Lt'.
  destruct (nth_error (branches s) t) as [bt|] eqn:Et; [|congruence].
  eexists. split; [reflexivity|]. cbn [processing]. rewrite (sh_tid s Sh _ _ Et).
  set (cids := flat_map br_nested _).
  assert (Hc : forall c, In c cids <-> exists b br, nth_error (branches s) b = Some br /\
             In c (br_nested br) /\ tfind (table s) b = t).
  { intros c. unfold cids. rewrite in_flat_map. split.
    - intros (br & I & J). apply filter_In in I as [I E]. apply Nat.eqb_eq in E.
      apply In_nth_error in I as [b I]. rewrite (sh_tid s Sh _ _ I) in E. eauto.
    - intros (b & br & I & J & E). exists br. split; auto. apply filter_In. split.
      + eapply nth_error_In; eauto.
      + rewrite (sh_tid s Sh _ _ I). apply Nat.eqb_eq. auto. }
  assert (Own : forall b u, OwnedBy s b u -> own b = u).
  { intros b u O. destruct (G1 b) as (_ & _ & O'); [eapply OwnedBy_lt; eauto|].
    eapply OwnedBy_unique; eauto. }
  assert (Arm : forall c, ArmOf s t c <-> exists b br, nth_error (branches s) b = Some br /\
             In c (br_nested br) /\ tfind (table s) b = tfind (table s) t).
  { intros c. split.
    - intros (b & br & O & E & I). exists b, br. split; auto. split; auto.
      apply G2; auto; [eapply OwnedBy_lt; eauto|]. rewrite Ot. auto.
    - intros (b & br & E & I & T). assert (Lb : b < length (branches s)) by (apply nth_error_Some; congruence).
      exists b, br. split; auto. apply G2 in T; auto. rewrite Ot in T. destruct (G1 b Lb) as (_ & _ & O).
      congruence. }
  assert (Kept : forall b, In b (filter (fun cb => negb (memb Nat.eq_dec (bl_coll cb) cids)) (processing s)) <->
             In b (processing s) /\ ~ In (bl_coll b) cids).
  { intros b. rewrite filter_In, negb_true_iff. rewrite memb_not_In. tauto. }
  split; [intros b I; apply Kept in I; tauto|]. split; [|split].
  - intros b I N. apply Kept. split; auto. intros J. apply N, Arm. apply Hc in J as (b' & br & H1 & H2 & H3).
    exists b', br. split; auto. split; auto.
    assert (Lb : b' < length (branches s)) by (apply nth_error_Some; congruence).
    destruct (G3 b' Lb) as [_ Q]. rewrite H3 in Q. congruence.
  - intros D b I A. apply Kept in I as [_ I]. apply I, Hc. apply Arm in A as (b' & br & H1 & H2 & H3).
    exists b', br. split; auto. split; auto. rewrite H3. specialize (G4 t Lt Ot).
    destruct D as [->|D]; auto. destruct fw; auto. destruct G4 as [(_ & Q & _)|((b1 & A1 & A2 & A3) & _)]; auto.
    exfalso. apply D. exists b1. split; auto. rewrite <- A2. apply G1. auto.
  - intros -> (b1 & O1 & N1). specialize (G4 t Lt Ot).
    assert (Q : tfind (table s) t <> t).
    { destruct G4 as [(A & _)|(_ & Q & _)]; auto. exfalso. apply N1, A; auto. eapply OwnedBy_lt; eauto. }
    assert (Em : forall c, ~ In c cids).
    { intros c I. apply Hc in I as (b' & br & H1 & H2 & H3). apply Q.
      assert (Lb : b' < length (branches s)) by (apply nth_error_Some; congruence).
      destruct (G3 b' Lb) as [_ Z]. rewrite H3 in Z. auto. }
    clear - Em. induction (processing s) as [|b r IH]; auto. cbn [filter].
    destruct (memb Nat.eq_dec (bl_coll b) cids) eqn:M.
    + apply memb_In in M. exfalso. eapply Em; eauto.
    + cbn. rewrite IH. auto.
Qed.

Lemma freeze_iff s : Shape s -> freeze s = true <-> forall b, In b (processing s) -> bl_coll b = 0.
Proof.
  intros Sh. destruct (sh_proc s Sh) as (cur & rest & E). pose proof (sh_proc_nodup s Sh) as N.
  unfold freeze. rewrite E in *. cbn in *. inversion N as [|? ? N1 N2]; subst. split.
  - intros H b [<-|I]; auto. destruct rest; [destruct I|discriminate].
  - intros H. destruct rest as [|b r]; auto. exfalso. apply N1. left. apply H. right. left. auto.
Qed.
