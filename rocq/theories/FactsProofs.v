(** Specifications and proofs for C05-C11. *)

From Coq Require Import List Arith Bool Lia Sorted Relations.
From Verif Require Import Base PermsModel PermsSpec PermsProofs FactsModel FactsSpec.
Import ListNotations.

(** * Small list facts *)

Lemma traverse_Some {A B} (f : A -> option B) l r :
  traverse f l = Some r -> forall b, In b r <-> exists a, In a l /\ f a = Some b.
Proof.
  revert r. induction l as [|a l IH]; cbn; intros r H b.
  - injection H as <-. cbn. firstorder.
  - destruct (f a) as [b0|] eqn:E; [|discriminate].
    destruct (traverse f l) as [bs|] eqn:E'; [|discriminate].
    injection H as <-. cbn. rewrite (IH bs eq_refl b). split.
    + intros [<-|(x & I & Hx)]; eauto.
    + intros (x & [<-|I] & Hx).
      * left. congruence.
      * right; eauto.
Qed.

Lemma traverse_total {A B} (f : A -> option B) l :
  (forall a, In a l -> exists b, f a = Some b) -> exists r, traverse f l = Some r.
Proof.
  induction l as [|a l IH]; cbn; intros H; eauto.
  destruct (H a (or_introl eq_refl)) as [b ->].
  destruct IH as [r ->]; eauto.
Qed.

Lemma traverse_defined {A B} (f : A -> option B) l r :
  traverse f l = Some r -> forall a, In a l -> exists b, f a = Some b.
Proof.
  revert r. induction l as [|a l IH]; cbn; intros r H x I; [tauto|].
  destruct (f a) as [b0|] eqn:E; [|discriminate].
  destruct (traverse f l) as [bs|] eqn:E'; [|discriminate].
  destruct I as [<-|I]; eauto.
Qed.

Lemma enumerate_In {A} (l : list A) i a : In (i, a) (enumerate l) <-> nth_error l i = Some a.
Proof.
  unfold enumerate.
  assert (G : forall l k, In (i, a) (combine (seq k (length l)) l) <->
                 k <= i /\ nth_error l (i - k) = Some a).
  { clear l. induction l as [|b l IH]; cbn; intros k.
    - split; [tauto|]. intros [_ H]. destruct (i - k); discriminate.
    - rewrite IH. split.
      + intros [E|[L H]].
        * injection E as -> ->. split; [lia|]. rewrite Nat.sub_diag. reflexivity.
        * split; [lia|]. replace (i - k) with (S (i - S k)) by lia. exact H.
      + intros [L H]. destruct (Nat.eq_dec k i) as [->|N].
        * rewrite Nat.sub_diag in H. cbn in H. injection H as ->. auto.
        * right. split; [lia|]. replace (i - k) with (S (i - S k)) in H by lia. exact H. }
  rewrite G, Nat.sub_0_r. split; [tauto|]. intros; split; [lia|auto].
Qed.

(** * C09: interning *)

(** The interning table lists, for every local, exactly the paths of that local
    in increasing order. *)
Definition ctxt_ok (c : Ctxt) : Prop :=
  forall l, (match aget Nat.eq_dec (rev_lookup c) l with Some v => v | None => [] end)
    = filter (fun i => match nth_error (place_data c) i with
                       | Some q => local q =? l | None => false end)
             (seq 0 (length (place_data c))).

Lemma empty_ctxt_ok : ctxt_ok empty_ctxt.
Proof. intros l. reflexivity. Qed.

Lemma new_path_data norm c p : place_data (fst (new_path norm c p)) = place_data c ++ [norm p].
Proof. reflexivity. Qed.

Lemma new_path_ok norm c p : ctxt_ok c -> ctxt_ok (fst (new_path norm c p)).
Proof.
  intros H l. cbn [new_path fst rev_lookup place_data].
  rewrite app_length. cbn [length].
  rewrite seq_app, filter_app. cbn [seq].
  assert (E : filter (fun i => match nth_error (place_data c ++ [norm p]) i with
                       | Some q => local q =? l | None => false end)
                     (seq 0 (length (place_data c)))
            = filter (fun i => match nth_error (place_data c) i with
                       | Some q => local q =? l | None => false end)
                     (seq 0 (length (place_data c)))).
  { apply filter_ext_in. intros i I. apply in_seq in I. rewrite nth_error_app1 by lia. reflexivity. }
  rewrite E, <- H. cbn [filter Nat.add].
  rewrite nth_error_app2, Nat.sub_diag by lia. cbn [nth_error].
  destruct (Nat.eq_dec (local (norm p)) l) as [<-|N].
  - rewrite aget_aset_eq, Nat.eqb_refl. reflexivity.
  - rewrite aget_aset_neq by auto.
    apply Nat.eqb_neq in N. rewrite N, app_nil_r. reflexivity.
Qed.

Lemma register_all_app norm c ps : ctxt_ok c ->
  ctxt_ok (register_all norm c ps) /\
  place_data (register_all norm c ps) = place_data c ++ map norm ps.
Proof.
  revert c. unfold register_all. induction ps as [|p ps IH]; cbn [fold_left map]; intros c H.
  - split; auto. rewrite app_nil_r. reflexivity.
  - destruct (IH (fst (new_path norm c p))) as [H1 H2].
    + apply new_path_ok; auto.
    + split; auto. rewrite H2, new_path_data, <- app_assoc. reflexivity.
Qed.

Lemma find_first {A} (f : A -> bool) l x :
  find f l = Some x -> exists l1 l2, l = l1 ++ x :: l2 /\ f x = true /\ forall y, In y l1 -> f y = false.
Proof.
  induction l as [|a l IH]; cbn; try discriminate.
  destruct (f a) eqn:E; intros H.
  - injection H as ->. exists [], l. repeat split; auto. intros y [].
  - destruct (IH H) as (l1 & l2 & -> & Hx & Hl). exists (a :: l1), l2.
    repeat split; auto. intros y [<-|I]; auto.
Qed.

Lemma place_to_path_spec norm c p : ctxt_ok c ->
  forall i, place_to_path norm c p = Some i <->
    nth_error (place_data c) i = Some (norm p) /\
    forall j, j < i -> nth_error (place_data c) j <> Some (norm p).
Proof.
  intros OK. unfold place_to_path.
  set (f := fun path => match path_to_place c path with
                        | Some q => if place_eqd q (norm p) then true else false
                        | None => false end).
  assert (Ff : forall i, f i = true <-> nth_error (place_data c) i = Some (norm p)).
  { intros i. unfold f, path_to_place. destruct (nth_error (place_data c) i) as [q|].
    - destruct (place_eqd q (norm p)); split; intros; try congruence.
    - split; discriminate. }
  specialize (OK (local (norm p))).
  set (g := fun i => match nth_error (place_data c) i with
                     | Some q => local q =? local (norm p) | None => false end) in OK.
  assert (FG : forall i, f i = true -> In i (filter g (seq 0 (length (place_data c))))).
  { intros i Hi. apply Ff in Hi. apply filter_In. split.
    - apply in_seq. split; [lia|]. cbn. apply nth_error_Some. congruence.
    - unfold g. rewrite Hi. apply Nat.eqb_refl. }
  assert (Find : (match aget Nat.eq_dec (rev_lookup c) (local (norm p)) with
                  | None => None | Some paths => find f paths end)
               = find f (filter g (seq 0 (length (place_data c))))).
  { rewrite <- OK. destruct (aget Nat.eq_dec (rev_lookup c) (local (norm p))); reflexivity. }
  cbv zeta. rewrite Find. clear Find OK.
  assert (SRT : forall n k, StronglySorted lt (filter g (seq k n))).
  { induction n as [|n IH]; cbn; intros k; [constructor|].
    destruct (g k); auto. constructor; auto. apply Forall_forall.
    intros x I. apply filter_In in I as [I _]. apply in_seq in I. lia. }
  intros i. split.
  - intros H. apply find_first in H as (l1 & l2 & El & Hi & Hl).
    split; [apply Ff; auto|]. intros j L E.
    apply Ff in E. pose proof (FG j E) as I. rewrite El in I.
    specialize (SRT (length (place_data c)) 0). rewrite El in SRT.
    apply in_app_or in I as [I|[->|I]]; try lia.
    + rewrite (Hl j I) in E. discriminate.
    + assert (i < j); [|lia].
      clear - SRT I. induction l1 as [|a l1 IH]; cbn in SRT.
      * inversion SRT as [|? ? S F]; subst. rewrite Forall_forall in F. auto.
      * inversion SRT; auto.
  - intros [E Hmin]. destruct (find f (filter g (seq 0 (length (place_data c))))) as [k|] eqn:Ek.
    + apply find_first in Ek as (l1 & l2 & El & Hk & Hl).
      apply Ff in Hk as Hk'.
      destruct (lt_eq_lt_dec k i) as [[L| ->]|L]; auto.
      * exfalso. eapply Hmin; eauto.
      * exfalso. apply Ff in E. pose proof (FG i E) as I. rewrite El in I.
        specialize (SRT (length (place_data c)) 0). rewrite El in SRT.
        apply in_app_or in I as [I|[->|I]]; try lia.
        -- rewrite (Hl i I) in E. discriminate.
        -- assert (k < i); [|lia].
           clear - SRT I. induction l1 as [|a l1 IH]; cbn in SRT.
           ++ inversion SRT as [|? ? S F]; subst. rewrite Forall_forall in F. auto.
           ++ inversion SRT; auto.
    + exfalso. apply Ff in E. eapply find_none in Ek; [|apply FG; eauto]. congruence.
Qed.

Lemma least_index (P : nat -> Prop) (dec : forall n, {P n} + {~ P n}) n :
  P n -> exists m, P m /\ forall j, j < m -> ~ P j.
Proof.
  induction n as [n IH] using lt_wf_ind. intros H.
  destruct (Forall_dec (fun j => ~ P j) (fun j => match dec j with left p => right (fun q => q p) | right q => left q end) (seq 0 n)) as [F|F].
  - exists n. split; auto. intros j L. rewrite Forall_forall in F. apply F, in_seq. lia.
  - apply neg_Forall_Exists_neg in F.
    + apply Exists_exists in F as (j & I & NN). apply in_seq in I.
      destruct (dec j) as [Pj|NPj]; [|contradiction]. apply (IH j); auto. lia.
    + intros j. destruct (dec j); [right|left]; auto.
Qed.

Lemma place_to_path_total norm c p : ctxt_ok c ->
  ((exists i, place_to_path norm c p = Some i) <-> In (norm p) (place_data c)).
Proof.
  intros OK. split.
  - intros [i H]. apply place_to_path_spec in H as [H _]; auto. eapply nth_error_In; eauto.
  - intros I. apply In_nth_error in I as [n Hn].
    destruct (least_index (fun i => nth_error (place_data c) i = Some (norm p))) with (n := n)
      as (m & Hm & L); auto.
    { intros k. destruct (nth_error (place_data c) k) as [q|].
      - destruct (place_eqd q (norm p)) as [->|N]; [left|right]; congruence.
      - right. discriminate. }
    exists m. apply place_to_path_spec; auto.
Qed.

(** The four claims of C09 for a history of registrations. *)
Lemma interning_roundtrip norm ps x i :
  place_to_path norm (register_all norm empty_ctxt ps) x = Some i ->
  path_to_place (register_all norm empty_ctxt ps) i = Some (norm x).
Proof.
  destruct (register_all_app norm empty_ctxt ps empty_ctxt_ok) as [OK _].
  intros H. apply place_to_path_spec in H as [H _]; auto.
Qed.

Lemma interning_defined norm ps x :
  (exists i, place_to_path norm (register_all norm empty_ctxt ps) x = Some i) <->
  exists y, In y ps /\ norm y = norm x.
Proof.
  destruct (register_all_app norm empty_ctxt ps empty_ctxt_ok) as [OK D].
  rewrite place_to_path_total by auto. rewrite D. cbn. rewrite in_map_iff. firstorder.
Qed.

Lemma interning_injective norm ps x y i j :
  place_to_path norm (register_all norm empty_ctxt ps) x = Some i ->
  place_to_path norm (register_all norm empty_ctxt ps) y = Some j ->
  (i = j <-> norm x = norm y).
Proof.
  destruct (register_all_app norm empty_ctxt ps empty_ctxt_ok) as [OK _].
  intros Hx Hy. pose proof (interning_roundtrip _ _ _ _ Hx) as Rx.
  pose proof (interning_roundtrip _ _ _ _ Hy) as Ry. split.
  - intros ->. congruence.
  - intros E. unfold place_to_path in *. rewrite E in Hx. congruence.
Qed.

Lemma interning_stable norm ps more x i :
  place_to_path norm (register_all norm empty_ctxt ps) x = Some i ->
  place_to_path norm (register_all norm empty_ctxt (ps ++ more)) x = Some i /\
  (forall k pl, path_to_place (register_all norm empty_ctxt ps) k = Some pl ->
     path_to_place (register_all norm empty_ctxt (ps ++ more)) k = Some pl).
Proof.
  destruct (register_all_app norm empty_ctxt ps empty_ctxt_ok) as [OK D].
  destruct (register_all_app norm empty_ctxt (ps ++ more) empty_ctxt_ok) as [OK' D'].
  cbn in D, D'. rewrite map_app in D'.
  assert (M : forall k pl, nth_error (map norm ps) k = Some pl ->
                nth_error (map norm ps ++ map norm more) k = Some pl).
  { intros k pl E. rewrite nth_error_app1; auto. apply nth_error_Some. congruence. }
  intros H. apply place_to_path_spec in H as [H L]; auto. rewrite D in H, L. split.
  - apply place_to_path_spec; auto. rewrite D'. split; auto.
    intros j Lj. rewrite nth_error_app1; auto.
    assert (i < length (map norm ps)) by (apply nth_error_Some; congruence). lia.
  - intros k pl. unfold path_to_place. rewrite D, D'. auto.
Qed.

(** * Place-level reading of a derivation *)

Section Derivation.
  Variable inp : Inp.

  Notation norm := (in_normalize inp).
  Notation PP := (place_to_path (in_normalize inp) (the_ctxt inp)).

  Lemma the_ctxt_ok : ctxt_ok (the_ctxt inp) /\
    place_data (the_ctxt inp) = map norm (all_registered_places inp).
  Proof. destruct (register_all_app norm empty_ctxt (all_registered_places inp) empty_ctxt_ok); auto. Qed.

  Lemma PP_same x y i j : PP x = Some i -> PP y = Some j -> (i = j <-> norm x = norm y).
  Proof. apply interning_injective. Qed.

  Lemma PP_roundtrip x i : PP x = Some i -> path_to_place (the_ctxt inp) i = Some (norm x).
  Proof. apply interning_roundtrip. Qed.

  Lemma known_In y : Known inp y <-> In y (all_registered_places inp).
  Proof. unfold Known, all_registered_places. rewrite in_app_iff. tauto. Qed.

  Lemma PP_defined x : (exists i, PP x = Some i) <-> exists y, Known inp y /\ norm y = norm x.
  Proof.
    eapply iff_trans; [apply interning_defined|].
    split; intros (y & H & E); exists y; split; auto; apply known_In; auto.
  Qed.

  Lemma mpath_to_path_defined mp pl :
    nth_error (in_move_paths inp) mp = Some pl -> exists i, mpath_to_path inp mp = Some i.
  Proof.
    intros H. unfold mpath_to_path, mpath_place. rewrite H. apply PP_defined. exists pl. split; auto.
    right. eapply nth_error_In; eauto.
  Qed.

  Lemma mpath_to_path_PP mp i :
    mpath_to_path inp mp = Some i <-> exists pl, nth_error (in_move_paths inp) mp = Some pl /\ PP pl = Some i.
  Proof.
    unfold mpath_to_path, mpath_place. destruct (nth_error (in_move_paths inp) mp) as [pl|]; split.
    - eauto.
    - intros (q & [= <-] & H). auto.
    - discriminate.
    - intros (q & H & _). discriminate.
  Qed.

  Lemma mpath_norm_place_spec mp : mpath_norm_place inp mp = option_map norm (nth_error (in_move_paths inp) mp).
  Proof.
    unfold mpath_norm_place. destruct (nth_error (in_move_paths inp) mp) as [pl|] eqn:E; cbn.
    - destruct (mpath_to_path_defined mp pl E) as [i Hi]. rewrite Hi.
      apply mpath_to_path_PP in Hi as (q & Eq & Hq). rewrite E in Eq. injection Eq as <-.
      apply PP_roundtrip; auto.
    - unfold mpath_to_path, mpath_place. rewrite E. reflexivity.
  Qed.

  (** ** Proofs *)

  Lemma killed_spec m p : killed inp m p = true <-> Reassigned inp m p.
  Proof.
    unfold killed, Reassigned. destruct (nth_error (in_moves inp) m) as [[mp src]|] eqn:Em.
    - rewrite mpath_norm_place_spec. destruct (nth_error (in_move_paths inp) mp) as [moved|] eqn:Emp; cbn.
      + rewrite existsb_exists. split.
        * intros ([a q] & I & H). cbn in H. apply andb_true_iff in H as [Eq H].
          apply Nat.eqb_eq in Eq. subst q. rewrite mpath_norm_place_spec in H.
          destruct (nth_error (in_move_paths inp) a) as [t|] eqn:Ea; [|discriminate]. cbn in H.
          exists mp, src, moved, a, t. auto 10.
        * intros (mp' & src' & moved' & a & t & E1 & E2 & I & E3 & C).
          injection E1 as <- <-. rewrite Emp in E2. injection E2 as <-.
          exists (a, p). split; auto. cbn. rewrite Nat.eqb_refl, mpath_norm_place_spec, E3. auto.
      + split; [discriminate|]. intros (mp' & src' & moved' & a & t & E1 & E2 & _).
        injection E1 as <- <-. congruence.
    - split; [discriminate|]. intros (mp' & src' & moved' & a & t & E1 & _). discriminate.
  Qed.

  Lemma move_seeds_In m p : In (m, p) (move_seeds inp) <-> exists mp, nth_error (in_moves inp) m = Some (mp, p).
  Proof.
    unfold move_seeds. rewrite in_map_iff. split.
    - intros ([i [mp q]] & E & I). cbn in E. injection E as -> ->.
      apply enumerate_In in I. eauto.
    - intros [mp H]. exists (m, (mp, p)). split; auto. apply enumerate_In; auto.
  Qed.

  Lemma move_step_In m p m' p' :
    In (m', p') (move_step inp (m, p)) <->
    m' = m /\ edge (in_cfg_edge inp) p p' /\ killed inp m p' = false.
  Proof.
    unfold move_step. cbn. rewrite in_map_iff. split.
    - intros (q & E & I). injection E as -> ->. apply filter_In in I as [I H].
      apply nexts_In in I. rewrite negb_true_iff in H. auto.
    - intros (-> & E & K). exists p'. split; auto. apply filter_In. split.
      + apply nexts_In; auto.
      + rewrite K. reflexivity.
  Qed.

  Lemma move_live_exit_In m p :
    In (m, p) (move_live_exit inp) <->
    exists mp src l, nth_error (in_moves inp) m = Some (mp, src) /\
      walk (edge (in_cfg_edge inp)) src l p /\ (forall r, In r (tl l) -> ~ Reassigned inp m r).
  Proof.
    unfold move_live_exit. rewrite closure_spec.
    - split.
      + intros D.
        assert (G : forall t, derives (move_step inp) (move_seeds inp) t ->
          exists mp src l, nth_error (in_moves inp) (fst t) = Some (mp, src) /\
            walk (edge (in_cfg_edge inp)) src l (snd t) /\
            (forall r, In r (tl l) -> ~ Reassigned inp (fst t) r)).
        { clear. induction 1 as [[m p] I|[m p] [m' p'] D IH I].
          - apply move_seeds_In in I as [mp E]. cbn. exists mp, p, [p].
            split; auto. split; [constructor|]. intros r [].
          - apply move_step_In in I as (-> & E & K). cbn in *.
            destruct IH as (mp & src & l & Em & W & NR).
            exists mp, src, (l ++ [p']). split; auto. split; [eapply walk_snoc; eauto|].
            destruct (walk_head _ _ _ _ W) as [r ->]. cbn in *. intros q I.
            apply in_app_or in I as [I|[<-|[]]]; auto.
            rewrite <- killed_spec, K. discriminate. }
        apply (G (m, p) D).
      + intros (mp & src & l & Em & W & NR).
        assert (D : derives (move_step inp) (move_seeds inp) (m, src)).
        { constructor. apply move_seeds_In. eauto. }
        clear Em. revert D NR. induction W as [x|x y l z E W IH]; intros D NR; auto.
        apply IH.
        * eapply der_step; eauto. apply move_step_In. split; auto. split; auto.
          apply not_true_iff_false. rewrite killed_spec. apply NR. cbn.
          destruct (walk_head _ _ _ _ W) as [r ->]. cbn; auto.
        * intros r I. apply NR. cbn. destruct (walk_head _ _ _ _ W) as [r' ->]. cbn in *. auto.
    - intros [i p0] I. apply move_seeds_In in I as [mp' E].
      apply in_prod_iff. split.
      + apply in_seq. split; [lia|]. cbn. apply nth_error_Some. congruence.
      + apply in_or_app; left. apply in_map_iff. exists (mp', p0). split; auto.
        eapply nth_error_In; eauto.
    - intros [m0 p0] I [m1 p1] I1. apply move_step_In in I1 as (-> & E & _).
      apply in_prod_iff in I as [I _]. apply in_prod_iff. split; auto.
      apply in_or_app; right. apply in_map_iff. exists (p0, p1). auto.
  Qed.

  Lemma move_live_at_In m p : In (m, p) (move_live_at inp) <-> MoveReaches inp m p.
  Proof.
    unfold move_live_at, MoveReaches. rewrite in_flat_map. split.
    - intros ([m' q] & I & H). apply in_map_iff in H as (p2 & E & H). cbn in *.
      injection E as -> ->. apply nexts_In in H.
      apply move_live_exit_In in I as (mp & src & l & Em & W & NR).
      exists mp, src, l, q. auto.
    - intros (mp & src & l & q & Em & W & NR & E). exists (m, q). split.
      + apply move_live_exit_In. exists mp, src, l. auto.
      + apply in_map_iff. exists p. split; auto. apply nexts_In; auto.
  Qed.

  Lemma move_conflicts_In mconf :
    move_conflicts_with inp = Some mconf ->
    forall m x i, PP x = Some i -> (In (m, i) mconf <-> MoveAffects inp m x).
  Proof.
    unfold move_conflicts_with.
    destruct (traverse _ (enumerate (in_moves inp))) as [ll|] eqn:T; [|discriminate].
    intros E m x i Hx. injection E as <-. rewrite in_concat.
    pose proof (traverse_Some _ _ _ T) as TS.
    split.
    - intros (row & Irow & I). apply TS in Irow as ([j [mp src]] & Ij & Hj).
      apply enumerate_In in Ij. cbn [fst snd] in Hj.
      destruct (move_conflict_paths inp (mp, src)) as [ps|] eqn:Eps; [|discriminate].
      injection Hj as <-. apply in_map_iff in I as (p & Ep & Ip). injection Ep as -> ->.
      unfold move_conflict_paths in Eps. cbn [fst] in Eps.
      rewrite mpath_norm_place_spec in Eps.
      destruct (nth_error (in_move_paths inp) mp) as [moved|] eqn:Emp; cbn in Eps; [|discriminate].
      destruct (traverse PP (in_interior inp (norm moved))) as [l1|] eqn:T1; [|discriminate].
      destruct (traverse (mpath_to_path inp) (in_parents inp mp)) as [l2|] eqn:T2; [|discriminate].
      injection Eps as <-. apply in_app_or in Ip as [Ip|Ip].
      + apply (traverse_Some _ _ _ T1) in Ip as (pl & Ipl & Hpl).
        exists mp, src, pl. split; auto. split; [left; eauto|].
        apply (PP_same pl x i i); auto.
      + apply (traverse_Some _ _ _ T2) in Ip as (q & Iq & Hq).
        apply mpath_to_path_PP in Hq as (pl & Epl & Hpl).
        exists mp, src, pl. split; auto. split; [right; eauto|].
        apply (PP_same pl x i i); auto.
    - intros (mp & src & pl & Em & Aff & En).
      destruct (traverse_defined _ _ _ T (m, (mp, src))) as [row Hrow].
      { apply enumerate_In; auto. }
      assert (Irow : In row ll) by (apply TS; exists (m, (mp, src)); split; auto; apply enumerate_In; auto).
      exists row. split; auto. cbn [fst snd] in Hrow.
      destruct (move_conflict_paths inp (mp, src)) as [ps|] eqn:Eps; [|discriminate].
      injection Hrow as <-. apply in_map_iff. exists i. split; auto.
      unfold move_conflict_paths in Eps. cbn [fst] in Eps.
      rewrite mpath_norm_place_spec in Eps.
      destruct (nth_error (in_move_paths inp) mp) as [moved|] eqn:Emp; cbn in Eps; [|discriminate].
      destruct (traverse PP (in_interior inp (norm moved))) as [l1|] eqn:T1; [|discriminate].
      destruct (traverse (mpath_to_path inp) (in_parents inp mp)) as [l2|] eqn:T2; [|discriminate].
      injection Eps as <-. apply in_or_app.
      destruct Aff as [(moved' & E' & I)|(q & Iq & Eq)].
      + injection E' as <-. left. apply (traverse_Some _ _ _ T1). exists pl. split; auto.
        destruct (traverse_defined _ _ _ T1 pl I) as [i' Hi']. rewrite Hi'. f_equal.
        apply (PP_same pl x i' i); auto.
      + right. apply (traverse_Some _ _ _ T2). exists q. split; auto.
        destruct (traverse_defined _ _ _ T2 q Iq) as [i' Hi']. rewrite Hi'. f_equal.
        apply mpath_to_path_PP in Hi' as (pl' & Epl' & Hpl'). rewrite Eq in Epl'. injection Epl' as <-.
        apply (PP_same pl x i' i); auto.
  Qed.

  (** *** Uninitialised paths *)

  Lemma uninit_on_exit_In exits :
    uninit_on_exit inp = Some exits ->
    forall q i, In (q, i) exits <->
      exists mps mp pl, In (q, mps) (in_uninit_exit inp) /\ In mp mps /\
        nth_error (in_move_paths inp) mp = Some pl /\ PP pl = Some i.
  Proof.
    unfold uninit_on_exit.
    destruct (traverse _ (in_uninit_exit inp)) as [ll|] eqn:T; [|discriminate].
    intros E q i. injection E as <-. rewrite in_concat.
    pose proof (traverse_Some _ _ _ T) as TS. split.
    - intros (row & Irow & I). apply TS in Irow as ([q' mps] & Iq & H). cbn [fst snd] in H.
      destruct (traverse (mpath_to_path inp) mps) as [ps|] eqn:T1; [|discriminate].
      injection H as <-. apply in_map_iff in I as (p & E & Ip). injection E as -> ->.
      apply (traverse_Some _ _ _ T1) in Ip as (mp & Imp & Hmp).
      apply mpath_to_path_PP in Hmp as (pl & Epl & Hpl). exists mps, mp, pl. auto.
    - intros (mps & mp & pl & Iq & Imp & Epl & Hpl).
      destruct (traverse_defined _ _ _ T _ Iq) as [row Hrow].
      exists row. split; [apply TS; eauto|]. cbn [fst snd] in Hrow.
      destruct (traverse (mpath_to_path inp) mps) as [ps|] eqn:T1; [|discriminate].
      injection Hrow as <-. apply in_map_iff. exists i. split; auto.
      apply (traverse_Some _ _ _ T1). exists mp. split; auto. apply mpath_to_path_PP. eauto.
  Qed.

  Lemma child_path_In children :
    child_path inp = Some children ->
    forall i j, In (i, j) children <->
      exists c q plc plq, In (c, q) (in_child_path inp) /\
        nth_error (in_move_paths inp) c = Some plc /\ nth_error (in_move_paths inp) q = Some plq /\
        PP plc = Some i /\ PP plq = Some j.
  Proof.
    unfold child_path. intros T i j. rewrite (traverse_Some _ _ _ T). split.
    - intros ([c q] & I & H). cbn [fst snd] in H.
      destruct (mpath_to_path inp c) as [i'|] eqn:Ec; [|discriminate].
      destruct (mpath_to_path inp q) as [j'|] eqn:Eq; [|discriminate].
      injection H as -> ->.
      apply mpath_to_path_PP in Ec as (plc & Ec & Hc).
      apply mpath_to_path_PP in Eq as (plq & Eq & Hq).
      exists c, q, plc, plq. auto.
    - intros (c & q & plc & plq & I & Ec & Eq & Hc & Hq). exists (c, q). split; auto.
      cbn [fst snd].
      assert (Xc : mpath_to_path inp c = Some i) by (apply mpath_to_path_PP; eauto).
      assert (Xq : mpath_to_path inp q = Some j) by (apply mpath_to_path_PP; eauto).
      rewrite Xc, Xq. reflexivity.
  Qed.

  Lemma uninit_seeds_In exits i p :
    In (i, p) (uninit_seeds inp exits) <-> exists q, In (q, i) exits /\ edge (in_cfg_edge inp) q p.
  Proof.
    unfold uninit_seeds. rewrite in_flat_map. split.
    - intros ([q i'] & I & H). apply in_map_iff in H as (p2 & E & H). cbn in *.
      injection E as -> ->. apply nexts_In in H. eauto.
    - intros (q & I & E). exists (q, i). split; auto. apply in_map_iff. exists p. split; auto.
      apply nexts_In; auto.
  Qed.

  Lemma uninit_step_In children i p j p' :
    In (j, p') (uninit_step children (i, p)) <-> p' = p /\ In (i, j) children.
  Proof.
    unfold uninit_step. cbn. rewrite in_map_iff. split.
    - intros (q & E & I). injection E as -> ->. apply nexts_In in I. auto.
    - intros (-> & I). exists j. split; auto. apply nexts_In; auto.
  Qed.

  Lemma uninit_on_entry_In exits children :
    uninit_on_exit inp = Some exits -> child_path inp = Some children ->
    forall x i p, PP x = Some i ->
      (In (i, p) (uninit_on_entry inp exits children) <-> MaybeUninit inp x p).
  Proof.
    intros HE HC x i p Hx. unfold uninit_on_entry. rewrite closure_spec.
    - split.
      + intros D.
        assert (G : forall t, derives (uninit_step children) (uninit_seeds inp exits) t ->
                  forall x, PP x = Some (fst t) -> MaybeUninit inp x (snd t)).
        { clear x i p Hx D. induction 1 as [[i p] I|[i p] [j p'] D IH I]; cbn; intros x Hx.
          - apply uninit_seeds_In in I as (q & I & E).
            apply (uninit_on_exit_In _ HE) in I as (mps & mp & pl & I1 & I2 & Epl & Hpl).
            exists q, mps, mp, pl. repeat (split; auto).
            replace (norm x) with (norm pl); [apply rt_refl|].
            apply (PP_same pl x i i); auto.
          - apply uninit_step_In in I as (-> & I).
            apply (child_path_In _ HC) in I as (c & q & plc & plq & I & Ec & Eq & Hc & Hq).
            cbn in IH. destruct (IH plc Hc) as (q0 & mps & mp & pl & A1 & A2 & A3 & A4 & A5).
            exists q0, mps, mp, pl. repeat (split; auto).
            eapply rt_trans; [exact A5|]. apply rt_step.
            exists c, q, plc, plq. repeat (split; auto).
            apply (PP_same plq x j j); auto. }
        apply (G (i, p) D x Hx).
      + intros (q & mps & mp & pl & I1 & I2 & Epl & E & C).
        destruct (proj2 (PP_defined pl)) as [i0 Hi0].
        { exists pl. split; auto. right. eapply nth_error_In; eauto. }
        assert (D : derives (uninit_step children) (uninit_seeds inp exits) (i0, p)).
        { constructor. apply uninit_seeds_In. exists q. split; auto.
          apply (uninit_on_exit_In _ HE). eauto 10. }
        apply clos_rt_rtn1 in C.
        assert (G : forall y, clos_refl_trans_n1 Place (ParentLink inp) (norm pl) y ->
                  forall z j, norm z = y -> PP z = Some j ->
                  derives (uninit_step children) (uninit_seeds inp exits) (j, p)).
        { induction 1 as [|y1 y2 L C1 IH]; intros z j En Hz.
          - replace j with i0; auto. apply (PP_same pl z i0 j); auto.
          - destruct L as (c & q1 & plc & plq & Ic & Ec & Eq & Nc & Nq).
            destruct (proj2 (PP_defined plc)) as [ic Hic].
            { exists plc. split; auto. right. eapply nth_error_In; eauto. }
            assert (Dc := IH plc ic Nc Hic).
            eapply der_step; [exact Dc|]. apply uninit_step_In. split; auto.
            apply (child_path_In _ HC). exists c, q1, plc, plq. repeat (split; auto).
            destruct (proj2 (PP_defined plq)) as [iq Hiq].
            { exists plq. split; auto. right. eapply nth_error_In; eauto. }
            rewrite Hiq. f_equal. apply (PP_same plq z iq j); auto. congruence. }
        eapply G; eauto.
    - intros [i0 p0] I. apply in_prod_iff. split.
      + apply in_or_app; left. apply in_map_iff. exists (i0, p0). auto.
      + apply in_map_iff. exists (i0, p0). auto.
    - intros [i0 p0] I [i1 p1] I1. apply uninit_step_In in I1 as (-> & I1).
      apply in_prod_iff in I as [I Ip]. apply in_prod_iff. split; auto.
      apply in_or_app; right. apply in_map_iff. exists (i0, i1). auto.
  Qed.

  (** *** Loans *)

  Lemma loan_conflicts_In lconf :
    loan_conflicts_with inp = Some lconf ->
    forall l x i, PP x = Some i -> (In (l, i) lconf <-> LoanConflicts inp l x).
  Proof.
    unfold loan_conflicts_with. intros T l x i Hx. rewrite (traverse_Some _ _ _ T).
    unfold LoanConflicts. split.
    - intros ([l' y] & I & H). cbn [fst snd] in H.
      destruct (PP y) as [j|] eqn:Ey; [|discriminate]. injection H as -> ->.
      apply filter_In in I as [I C]. cbn in C. apply in_prod_iff in I as [I1 I2].
      apply known_In in I2. split; auto. exists y. repeat (split; auto). apply (PP_same y x i i); auto.
    - intros (Il & y & Iy & En & C). exists (l, y). cbn [fst snd]. split.
      + apply filter_In. split; auto. apply in_prod_iff. split; auto. apply known_In; auto.
      + destruct (proj2 (PP_defined y)) as [j Hj]; eauto. rewrite Hj.
        f_equal. f_equal. apply (PP_same y x j i); auto.
  Qed.

  Lemma loan_live_at_In l p : In (l, p) (loan_live_at inp) <-> LoanLive inp l p.
  Proof.
    unfold loan_live_at, LoanLive. rewrite in_flat_map. split.
    - intros ([q ls] & I & H). apply in_map_iff in H as (l' & E & H). cbn in *.
      injection E as -> ->. eauto.
    - intros (ls & I & H). exists (p, ls). split; auto. apply in_map_iff. eauto.
  Qed.
End Derivation.

(** * Relations and maps *)

Definition triple_lt (a b : triple) : Prop := triple_ltb a b = true.

Lemma triple_lt_trans a b c : triple_lt a b -> triple_lt b c -> triple_lt a c.
Proof.
  destruct a as [[a1 a2] a3], b as [[b1 b2] b3], c as [[c1 c2] c3].
  unfold triple_lt, triple_ltb.
  rewrite !orb_true_iff, !andb_true_iff, !orb_true_iff, !andb_true_iff,
    !Nat.ltb_lt, !Nat.eqb_eq. lia.
Qed.

Lemma triple_lt_total a b : triple_ltb a b = false -> triple_ltb b a = false -> a = b.
Proof.
  destruct a as [[a1 a2] a3], b as [[b1 b2] b3]. unfold triple_ltb.
  rewrite !orb_false_iff, !andb_false_iff, !orb_false_iff, !andb_false_iff,
    !Nat.ltb_ge, !Nat.eqb_neq. intros. assert (a1 = b1) by lia. assert (a2 = b2) by lia.
  assert (a3 = b3) by lia. subst. reflexivity.
Qed.

Lemma rel_insert_In t l u : In u (rel_insert t l) <-> u = t \/ In u l.
Proof.
  induction l as [|v l IH]; cbn; [intuition|].
  destruct (triple_ltb t v) eqn:E1; cbn; [intuition|].
  destruct (triple_ltb v t) eqn:E2; cbn; [rewrite IH; intuition|].
  pose proof (triple_lt_total _ _ E1 E2) as ->. intuition.
Qed.

Lemma rel_insert_sorted t l : StronglySorted triple_lt l -> StronglySorted triple_lt (rel_insert t l).
Proof.
  induction 1 as [|v l S IH F]; cbn; [repeat constructor|].
  destruct (triple_ltb t v) eqn:E1.
  - constructor; [constructor; auto|]. constructor; auto.
    apply Forall_forall. intros u I. rewrite Forall_forall in F.
    eapply triple_lt_trans; [exact E1|]. auto.
  - destruct (triple_ltb v t) eqn:E2; [|constructor; auto].
    constructor; auto. apply Forall_forall. intros u I. apply rel_insert_In in I as [->|I]; auto.
    rewrite Forall_forall in F; auto.
Qed.

Lemma relation_of_In l u : In u (relation_of l) <-> In u l.
Proof. induction l as [|t l IH]; cbn; [tauto|]. rewrite rel_insert_In, IH. intuition. Qed.

Lemma relation_of_sorted l : StronglySorted triple_lt (relation_of l).
Proof. induction l; cbn; [constructor|]. apply rel_insert_sorted; auto. Qed.

Lemma refine_join_In keep conf live path k pt :
  In (path, k, pt) (refine_join keep conf live) <->
  In (k, path) conf /\ In (k, pt) live /\ keep k = true.
Proof.
  unfold refine_join. rewrite relation_of_In, in_flat_map. split.
  - intros ([k' p'] & I & H). apply in_map_iff in H as (pt' & E & H). cbn in *.
    injection E as -> -> ->. apply filter_In in H as [H K]. apply nexts_In in H. auto.
  - intros (I1 & I2 & K). exists (k, path). split; auto. apply in_map_iff. exists pt.
    split; auto. apply filter_In. split; auto. apply nexts_In; auto.
Qed.

Definition is_for (path : Path) (pt : Point) (t : triple) : bool :=
  let '(pa, _, p) := t in (pa =? path) && (p =? pt).

Lemma nmap_get_insert m pa k p pt path :
  nmap_get (nmap_insert m (pa, k, p)) pt path =
  if is_for path pt (pa, k, p) then Some k else nmap_get m pt path.
Proof.
  unfold nmap_get, nmap_insert, nmap_row, is_for.
  destruct (p =? pt) eqn:Ep.
  - apply Nat.eqb_eq in Ep. subst p. rewrite aget_aset_eq.
    destruct (pa =? path) eqn:Ea; cbn.
    + apply Nat.eqb_eq in Ea. subst. apply aget_aset_eq.
    + apply Nat.eqb_neq in Ea. rewrite aget_aset_neq by auto. reflexivity.
  - apply Nat.eqb_neq in Ep. rewrite aget_aset_neq by auto. rewrite andb_false_r. reflexivity.
Qed.

Lemma nmap_get_fold l pt path : forall m,
  nmap_get (fold_left nmap_insert l m) pt path =
  match find (is_for path pt) (rev l) with
  | Some (_, k, _) => Some k
  | None => nmap_get m pt path
  end.
Proof.
  induction l as [|[[pa k] p] l IH]; cbn [fold_left rev]; intros m; [reflexivity|].
  rewrite IH, nmap_get_insert.
  assert (F : forall (f : triple -> bool) a b,
    find f (a ++ [b]) = match find f a with Some x => Some x | None => if f b then Some b else None end).
  { intros f a b. induction a as [|c a IHa]; cbn; [destruct (f b); reflexivity|].
    destruct (f c); auto. }
  rewrite F. destruct (find (is_for path pt) (rev l)) as [[[? ?] ?]|]; auto.
  destruct (is_for path pt (pa, k, p)); reflexivity.
Qed.

Lemma insert_facts_spec l pt path : StronglySorted triple_lt l ->
  match nmap_get (insert_facts l) pt path with
  | Some k => In (path, k, pt) l /\ forall k', In (path, k', pt) l -> k' <= k
  | None => forall k, ~ In (path, k, pt) l
  end.
Proof.
  intros S. unfold insert_facts. rewrite nmap_get_fold.
  destruct (find (is_for path pt) (rev l)) as [[[pa k] p]|] eqn:E.
  - assert (Hf := E). apply find_some in Hf as [I Hf].
    apply in_rev in I. unfold is_for in Hf. apply andb_true_iff in Hf as [H1 H2].
    apply Nat.eqb_eq in H1, H2. subst pa p. split; auto.
    intros k' I'.
    assert (G : (path, k', pt) = (path, k, pt) \/ triple_lt (path, k', pt) (path, k, pt)).
    { clear I. apply find_first in E as (l1 & l2 & El & _ & Hl).
      apply (f_equal (@rev triple)) in El. rewrite rev_involutive, rev_app_distr in El. cbn in El.
      subst l. apply in_app_or in I' as [I'|I'].
      - apply in_app_or in I' as [I'|[I'|[]]].
        + right. clear - S I'. rewrite <- app_assoc in S. cbn in S.
          induction (rev l2) as [|c r IH]; cbn in *; [tauto|].
          inversion S as [|? ? S' F]; subst. destruct I' as [->|I']; auto.
          rewrite Forall_forall in F. apply F. apply in_or_app; right. cbn; auto.
        + auto.
      - apply in_rev in I'. exfalso. specialize (Hl _ I'). unfold is_for in Hl.
        rewrite !Nat.eqb_refl in Hl. discriminate. }
    destruct G as [G|G]; [injection G as ->; lia|].
    unfold triple_lt, triple_ltb in G.
    rewrite !orb_true_iff, !andb_true_iff, !orb_true_iff, !andb_true_iff,
      !Nat.ltb_lt, !Nat.eqb_eq in G. lia.
  - cbn. intros k I. apply in_rev in I. eapply find_none in E; [|exact I].
    unfold is_for in E. rewrite !Nat.eqb_refl in E. discriminate.
Qed.

(** * Declaration-level rules (C08) *)

Lemma iter_projections_from_In l : forall rest pre pr e,
  In (pr, e) (iter_projections_from l pre rest) <->
  exists mid post, rest = mid ++ e :: post /\ pr = mkPlace l (pre ++ mid).
Proof.
  induction rest as [|a rest IH]; cbn; intros pre pr e.
  - split; [tauto|]. intros (mid & post & H & _). destruct mid; discriminate.
  - rewrite IH. split.
    + intros [E|(mid & post & -> & ->)].
      * injection E as <- <-. exists [], rest. rewrite app_nil_r. auto.
      * exists (a :: mid), post. rewrite <- app_assoc. auto.
    + intros (mid & post & E & ->). destruct mid as [|b mid]; cbn in E.
      * injection E as -> ->. rewrite app_nil_r. auto.
      * injection E as -> ->. right. exists mid, post. rewrite <- app_assoc. auto.
Qed.

Lemma is_indirect_In p : is_indirect p = true <-> In Deref (projection p).
Proof.
  unfold is_indirect. rewrite existsb_exists. split.
  - intros (e & I & H). destruct e; try discriminate. auto.
  - intros I. exists Deref. auto.
Qed.

Lemma never_write_spec inp x : is_never_write inp x = false <-> DeclaredWriteable inp x.
Proof.
  unfold is_never_write, DeclaredWriteable. rewrite orb_false_iff. split.
  - intros [H1 H2]. split.
    + intros ND. apply andb_false_iff in H1 as [H1|H1].
      * apply negb_false_iff in H1. apply is_indirect_In in H1. contradiction.
      * unfold is_declared_readonly in H1. apply negb_false_iff in H1. auto.
    + intros pre post E.
      assert (I : In (mkPlace (local x) pre)
                     (map fst (filter (fun pe => is_deref (snd pe)) (iter_projections x)))).
      { apply in_map_iff. exists (mkPlace (local x) pre, Deref). split; auto.
        apply filter_In. split; auto. apply iter_projections_from_In. exists pre, post. auto. }
      assert (G := H2). apply not_true_iff_false in G. rewrite existsb_exists in G.
      destruct (in_ty inp (mkPlace (local x) pre)) as [mu|d b|] eqn:T.
      * destruct mu; auto. exfalso. apply G. eexists. split; [exact I|]. rewrite T. reflexivity.
      * destruct (in_local_mut inp (local x)) eqn:L; auto. exfalso. apply G.
        eexists. split; [exact I|]. rewrite T. unfold is_declared_readonly. cbn. rewrite L. reflexivity.
      * destruct (in_local_mut inp (local x)) eqn:L; auto. exfalso. apply G.
        eexists. split; [exact I|]. rewrite T. unfold is_declared_readonly. cbn. rewrite L. reflexivity.
  - intros [H1 H2]. split.
    + apply andb_false_iff. destruct (is_indirect x) eqn:E; [left; auto|right].
      unfold is_declared_readonly. apply negb_false_iff. apply H1.
      rewrite <- is_indirect_In. congruence.
    + apply not_true_iff_false. rewrite existsb_exists. intros (pr & I & H).
      apply in_map_iff in I as ([pr' e] & <- & I). cbn in H.
      apply filter_In in I as [I D]. cbn in D. destruct e; try discriminate.
      apply iter_projections_from_In in I as (mid & post & E & ->).
      specialize (H2 mid post E). cbn in H.
      destruct (in_ty inp (mkPlace (local x) mid)) as [mu|d b|].
      * subst mu. discriminate.
      * unfold is_declared_readonly in H. cbn in H. rewrite H2 in H. discriminate.
      * unfold is_declared_readonly in H. cbn in H. rewrite H2 in H. discriminate.
Qed.

Lemma drop_enabled_spec inp x : is_drop_enabled inp x = true <-> DeclaredOwnable inp x.
Proof.
  unfold is_drop_enabled, DeclaredOwnable.
  rewrite !andb_true_iff, !negb_true_iff. split.
  - intros [[H1 H2] H3]. split; [|split].
    + rewrite <- is_indirect_In. congruence.
    + intros e I. apply not_true_iff_false in H2. rewrite existsb_exists in H2.
      cut (is_index_elem e = false); [destruct e; cbn; intros X; try discriminate X; exact Logic.I|].
      destruct (is_index_elem e) eqn:E; auto. exfalso. apply H2.
      apply in_split in I as (pre & post & Ep). exists (mkPlace (local x) pre, e). split; auto.
      apply iter_projections_from_In. exists pre, post. auto.
    + intros pre e post E box T. apply not_true_iff_false in H3. rewrite existsb_exists in H3.
      destruct box; auto. exfalso. apply H3. exists (length pre). split.
      * apply in_seq. rewrite E, app_length. cbn. lia.
      * rewrite E, firstn_app, Nat.sub_diag, firstn_all. cbn. rewrite app_nil_r, T. reflexivity.
  - intros (H1 & H2 & H3). repeat split.
    + apply not_true_iff_false. rewrite is_indirect_In. auto.
    + apply not_true_iff_false. rewrite existsb_exists. intros ([pr e] & I & H). cbn in H.
      apply iter_projections_from_In in I as (mid & post & E & _).
      assert (J : In e (projection x)) by (rewrite E; apply in_or_app; right; cbn; auto).
      specialize (H2 e J). destruct e; cbn in H; try discriminate H; exact H2.
    + apply not_true_iff_false. rewrite existsb_exists. intros (i & I & H).
      apply in_seq in I.
      assert (E : exists e, projection x = firstn i (projection x) ++ e :: skipn (S i) (projection x)).
      { destruct (nth_error (projection x) i) as [e|] eqn:N.
        - exists e. apply nth_error_split in N as (l1 & l2 & -> & L). subst i.
          rewrite firstn_app, Nat.sub_diag, firstn_all. cbn [firstn]. rewrite app_nil_r.
          f_equal. f_equal.
          replace (S (length l1)) with (length (l1 ++ [e])) by (rewrite app_length; cbn; lia).
          replace (l1 ++ e :: l2) with ((l1 ++ [e]) ++ l2) by (rewrite <- app_assoc; reflexivity).
          rewrite skipn_app, skipn_all, Nat.sub_diag. reflexivity.
        - apply nth_error_None in N. lia. }
      destruct E as [e E].
      destruct (in_ty inp (mkPlace (local x) (firstn i (projection x)))) as [?|d b|] eqn:T; try discriminate.
      apply andb_true_iff in H as [Hd Hb]. subst d. apply negb_true_iff in Hb. subst b.
      specialize (H3 _ _ _ E false T). discriminate.
Qed.

(** * The query (C05-C08, C10) *)

Section Query.
  Variable inp : Inp.
  Variable out : Output.
  Hypothesis derived : derive_permission_facts inp = Some out.

  Lemma query_inv x p d : query inp out x p = Some d ->
    exists i exits mconf children lconf,
      place_to_path (in_normalize inp) (the_ctxt inp) x = Some i /\
      uninit_on_exit inp = Some exits /\ move_conflicts_with inp = Some mconf /\
      child_path inp = Some children /\ loan_conflicts_with inp = Some lconf /\
      permissions_data_at_point inp out i p = Some d /\
      o_loan_read out = insert_facts (refine_join (in_loan_mut inp) lconf (loan_live_at inp)) /\
      o_loan_write out = insert_facts (refine_join (fun _ => true) lconf (loan_live_at inp)) /\
      o_loan_drop out = insert_facts (refine_join (fun _ => true) lconf (loan_live_at inp)) /\
      o_uninit out = uninit_on_entry inp exits children /\
      o_move out = insert_facts (refine_join (fun _ => true) mconf (move_live_at inp)).
  Proof.
    unfold query. destruct (place_to_path _ _ x) as [i|] eqn:E; [|discriminate]. intros H.
    unfold derive_permission_facts in derived.
    destruct (indices_ok inp); [|discriminate].
    destruct (uninit_on_exit inp) as [exits|]; [|discriminate].
    destruct (move_conflicts_with inp) as [mconf|]; [|discriminate].
    destruct (child_path inp) as [children|]; [|discriminate].
    destruct (loan_conflicts_with inp) as [lconf|]; [|discriminate].
    injection derived as <-. exists i, exits, mconf, children, lconf. cbn. repeat (split; auto).
  Qed.

  (** C05 *)
  Lemma query_moved x p d : query inp out x p = Some d ->
    match path_moved d with
    | Some m => MoveAffects inp m x /\ MoveReaches inp m p /\
                forall m', MoveAffects inp m' x -> MoveReaches inp m' p -> m' <= m
    | None => forall m, MoveAffects inp m x -> ~ MoveReaches inp m p
    end.
  Proof.
    intros H. destruct (query_inv x p d H) as
      (i & exits & mconf & children & lconf & Ei & E1 & E2 & E3 & E4 & Hd & _ & _ & _ & _ & Om).
    unfold permissions_data_at_point in Hd.
    destruct (path_to_place (the_ctxt inp) i) as [pl|]; [|discriminate].
    injection Hd as <-. cbn [path_moved]. rewrite Om. clear H.
    pose proof (insert_facts_spec (refine_join (fun _ => true) mconf (move_live_at inp)) p i
                  (relation_of_sorted _)) as S.
    destruct (nmap_get _ p i) as [m|].
    - destruct S as [I M]. apply refine_join_In in I as (I1 & I2 & _).
      apply (move_conflicts_In inp mconf E2 m x i Ei) in I1. apply move_live_at_In in I2.
      repeat split; auto. intros m' A R. apply M. apply refine_join_In.
      rewrite (move_conflicts_In inp mconf E2 m' x i Ei), move_live_at_In. auto.
    - intros m A R. apply (S m). apply refine_join_In.
      rewrite (move_conflicts_In inp mconf E2 m x i Ei), move_live_at_In. auto.
  Qed.

  (** C06 *)
  Lemma query_uninit x p d : query inp out x p = Some d ->
    (path_uninitialized d = true <-> MaybeUninit inp x p).
  Proof.
    intros H. destruct (query_inv x p d H) as
      (i & exits & mconf & children & lconf & Ei & E1 & E2 & E3 & E4 & Hd & _ & _ & _ & Ou & _).
    unfold permissions_data_at_point in Hd.
    destruct (path_to_place (the_ctxt inp) i) as [pl|]; [|discriminate].
    injection Hd as <-. cbn. rewrite Ou, memb_In. apply uninit_on_entry_In; auto.
  Qed.

  (** C07 *)
  Lemma refine_names keep lconf x i p :
    loan_conflicts_with inp = Some lconf ->
    place_to_path (in_normalize inp) (the_ctxt inp) x = Some i ->
    names_loan inp (fun l => keep l = true)
      (nmap_get (insert_facts (refine_join keep lconf (loan_live_at inp))) p i) x p.
  Proof.
    intros E4 Ei.
    pose proof (insert_facts_spec (refine_join keep lconf (loan_live_at inp)) p i
                  (relation_of_sorted _)) as S.
    unfold names_loan. destruct (nmap_get _ p i) as [l|].
    - destruct S as [I M]. apply refine_join_In in I as (I1 & I2 & K).
      apply (loan_conflicts_In inp lconf E4 l x i Ei) in I1. apply loan_live_at_In in I2.
      repeat split; try tauto; try apply I1.
      intros l' A R K'. apply M. apply refine_join_In.
      rewrite (loan_conflicts_In inp lconf E4 l' x i Ei), loan_live_at_In. auto.
    - intros l A R K. apply (S l). apply refine_join_In.
      rewrite (loan_conflicts_In inp lconf E4 l x i Ei), loan_live_at_In. auto.
  Qed.

  Lemma query_loans x p d : query inp out x p = Some d ->
    names_loan inp (fun l => in_loan_mut inp l = true) (loan_read_refined d) x p /\
    names_loan inp (fun _ => True) (loan_write_refined d) x p /\
    names_loan inp (fun _ => True) (loan_drop_refined d) x p.
  Proof.
    intros H. destruct (query_inv x p d H) as
      (i & exits & mconf & children & lconf & Ei & E1 & E2 & E3 & E4 & Hd & Or & Ow & Od & _ & _).
    unfold permissions_data_at_point in Hd.
    destruct (path_to_place (the_ctxt inp) i) as [pl|]; [|discriminate].
    injection Hd as <-. cbn [loan_read_refined loan_write_refined loan_drop_refined]. rewrite Or, Ow, Od. clear H.
    assert (W : names_loan inp (fun _ => True)
      (nmap_get (insert_facts (refine_join (fun _ => true) lconf (loan_live_at inp))) p i) x p).
    { pose proof (refine_names (fun _ => true) lconf x i p E4 Ei) as N.
      unfold names_loan in *. destruct (nmap_get _ p i); intuition; eauto. }
    split; [apply refine_names; auto|]. auto.
  Qed.

  (** C08 *)
  Lemma query_declared x p d : query inp out x p = Some d ->
    (type_writeable d = true <-> DeclaredWriteable inp (in_normalize inp x)) /\
    (type_droppable d = true <-> DeclaredOwnable inp (in_normalize inp x)) /\
    (is_live d = true <-> match aget Nat.eq_dec (in_var_live inp) p with
                          | Some vars => In (local (in_normalize inp x)) vars
                          | None => False end).
  Proof.
    intros H. destruct (query_inv x p d H) as
      (i & exits & mconf & children & lconf & Ei & E1 & E2 & E3 & E4 & Hd & _).
    unfold permissions_data_at_point in Hd.
    pose proof (PP_roundtrip inp x i Ei) as R. rewrite R in Hd.
    injection Hd as <-. cbn. split; [|split].
    - rewrite negb_true_iff, memb_not_In, <- never_write_spec.
      assert (O : o_never_write out =
        filter (fun path => match path_to_place (the_ctxt inp) path with
                            | Some pl => is_never_write inp pl | None => false end)
               (seq 0 (length (place_data (the_ctxt inp))))).
      { unfold derive_permission_facts in derived. destruct (indices_ok inp); [|discriminate].
        rewrite E1, E2, E3, E4 in derived. injection derived as <-. reflexivity. }
      rewrite O, filter_In, R. split.
      + intros N. destruct (is_never_write inp (in_normalize inp x)); auto. exfalso. apply N.
        split; auto. apply in_seq. split; [lia|]. cbn. apply nth_error_Some.
        unfold path_to_place in R. congruence.
      + intros -> [_ H']. discriminate.
    - apply drop_enabled_spec.
    - unfold is_live_at. destruct (aget Nat.eq_dec (in_var_live inp) p) as [vars|].
      + apply memb_In.
      + split; [discriminate|tauto].
  Qed.

  Lemma query_defined x p :
    (exists d, query inp out x p = Some d) <->
    exists y, Known inp y /\ in_normalize inp y = in_normalize inp x.
  Proof.
    rewrite <- PP_defined. unfold query. split.
    - intros [d H]. destruct (place_to_path _ _ x); [eauto|discriminate].
    - intros [i H]. rewrite H. unfold permissions_data_at_point.
      rewrite (PP_roundtrip inp x i H). eauto.
  Qed.

  Lemma query_can x p d : query inp out x p = Some d ->
    (CanRead d <-> PlaceReadable inp x p) /\
    (CanWrite d <-> LoanFree inp x p /\ PlaceReadable inp x p /\ DeclaredWriteable inp (in_normalize inp x)) /\
    (CanOwn d <-> LoanFree inp x p /\ PlaceReadable inp x p /\ DeclaredOwnable inp (in_normalize inp x)).
  Proof.
    intros H.
    pose proof (query_moved x p d H) as M.
    pose proof (query_uninit x p d H) as U.
    destruct (query_loans x p d H) as (LR & LW & LD).
    destruct (query_declared x p d H) as (TW & TD & _).
    assert (EM : path_moved d = None <-> forall m, MoveAffects inp m x -> ~ MoveReaches inp m p).
    { destruct (path_moved d) as [m|]; [|tauto]. split; [discriminate|].
      intros F. exfalso. eapply F; [apply M|apply M]. }
    assert (EU : path_uninitialized d = false <-> ~ MaybeUninit inp x p).
    { rewrite <- U. destruct (path_uninitialized d); intuition discriminate. }
    assert (ER : loan_read_refined d = None <->
      forall l, LoanConflicts inp l x -> LoanLive inp l p -> in_loan_mut inp l = false).
    { unfold names_loan in LR. destruct (loan_read_refined d) as [l|]; split; try discriminate; auto.
      - intros F. destruct LR as (A & B & C & _). rewrite (F l A B) in C. discriminate.
      - intros _ l A B. apply not_true_iff_false. eauto. }
    assert (EW : loan_write_refined d = None <-> LoanFree inp x p).
    { unfold names_loan, LoanFree in *. destruct (loan_write_refined d) as [l|]; split; try discriminate; auto.
      - intros F. destruct LW as (A & B & _). exfalso. eapply F; eauto.
      - intros _ l A B. eapply LW; eauto. }
    assert (ED : loan_drop_refined d = None <-> LoanFree inp x p).
    { unfold names_loan, LoanFree in *. destruct (loan_drop_refined d) as [l|]; split; try discriminate; auto.
      - intros F. destruct LD as (A & B & _). exfalso. eapply F; eauto.
      - intros _ l A B. eapply LD; eauto. }
    assert (R : CanRead d <-> PlaceReadable inp x p).
    { unfold CanRead, Initialised, PlaceReadable. rewrite EM, EU, ER. tauto. }
    split; [exact R|]. unfold CanWrite, CanOwn. rewrite R, TW, TD, EW, ED. tauto.
  Qed.

  Lemma query_permissions x p d : query inp out x p = Some d ->
    (p_read (permissions d) = true <-> VarLive inp x p /\ PlaceReadable inp x p) /\
    (p_write (permissions d) = true <->
       VarLive inp x p /\ LoanFree inp x p /\ PlaceReadable inp x p /\ DeclaredWriteable inp (in_normalize inp x)) /\
    (p_drop (permissions d) = true <->
       VarLive inp x p /\ LoanFree inp x p /\ PlaceReadable inp x p /\ DeclaredOwnable inp (in_normalize inp x)).
  Proof.
    intros H. destruct (query_can x p d H) as (R & W & O).
    destruct (query_declared x p d H) as (_ & _ & L). fold (VarLive inp x p) in L.
    destruct (perms_spec d) as (SR & SW & SO).
    rewrite SR, SW, SO, L, R, W, O. tauto.
  Qed.
End Query.

(** ** When the derivation does not panic *)

Lemma derive_total inp :
  facts_wf inp -> interior_registered inp ->
  exists out, derive_permission_facts inp = Some out.
Proof.
  intros (W1 & W2 & W3 & W4) IR.
  assert (MP : forall mp, mp < length (in_move_paths inp) -> exists i, mpath_to_path inp mp = Some i).
  { intros mp L. apply nth_error_Some in L.
    destruct (nth_error (in_move_paths inp) mp) as [pl|] eqn:E; [|congruence].
    eapply mpath_to_path_defined; eauto. }
  unfold derive_permission_facts.
  assert (IO : indices_ok inp = true).
  { unfold indices_ok. apply andb_true_iff. split; apply forallb_forall.
    - intros [a p] I. apply Nat.ltb_lt. eapply W1; eauto.
    - intros [mp p] I. apply Nat.ltb_lt. eapply W2; eauto. }
  rewrite IO.
  assert (T1 : exists e, uninit_on_exit inp = Some e).
  { unfold uninit_on_exit.
    destruct (traverse_total (fun pm : Point * list MPath =>
                    match traverse (mpath_to_path inp) (snd pm) with
                    | Some ps => Some (map (fun p => (fst pm, p)) ps)
                    | None => None end) (in_uninit_exit inp)) as [r ->]; eauto.
    intros [p mps] I. specialize (W4 p mps I). rewrite Forall_forall in W4. cbn.
    destruct (traverse_total (mpath_to_path inp) mps) as [r ->]; eauto. }
  assert (T2 : exists e, move_conflicts_with inp = Some e).
  { unfold move_conflicts_with.
    destruct (traverse_total (fun im : nat * (MPath * Point) =>
                    match move_conflict_paths inp (snd im) with
                    | Some ps => Some (map (fun p => (fst im, p)) ps)
                    | None => None end) (enumerate (in_moves inp))) as [r ->]; eauto.
    intros [i [mp src]] I. apply enumerate_In in I. apply nth_error_In in I. cbn.
    destruct (W2 mp src I) as [L P]. rewrite Forall_forall in P.
    unfold move_conflict_paths. cbn [fst]. rewrite mpath_norm_place_spec.
    apply nth_error_Some in L as L'.
    destruct (nth_error (in_move_paths inp) mp) as [moved|] eqn:Em; [|congruence]. cbn.
    destruct (traverse_total (place_to_path (in_normalize inp) (the_ctxt inp))
                (in_interior inp (in_normalize inp moved))) as [r1 ->].
    - intros x Ix. apply PP_defined. eapply IR; eauto.
    - destruct (traverse_total (mpath_to_path inp) (in_parents inp mp)) as [r2 ->]; eauto. }
  assert (T3 : exists e, child_path inp = Some e).
  { apply traverse_total. intros [c q] I. destruct (W3 c q I) as [Lc Lq]. cbn.
    destruct (MP c Lc) as [i ->]. destruct (MP q Lq) as [j ->]. eauto. }
  assert (T4 : exists e, loan_conflicts_with inp = Some e).
  { apply traverse_total. intros [l y] I. apply filter_In in I as [I _].
    apply in_prod_iff in I as [_ I]. apply known_In in I. cbn.
    destruct (proj2 (PP_defined inp y)) as [j Hj]; eauto. rewrite Hj. eauto. }
  destruct T1 as [? ->], T2 as [? ->], T3 as [? ->], T4 as [? ->]. eauto.
Qed.

(** * Domains at a point *)

Lemma domain_at_point_spec inp out p dom :
  permissions_domain_at_point inp out p = Some dom ->
  forall x, In x (in_places inp) ->
    exists d, query inp out x p = Some d /\ aget place_eqd dom x = Some d.
Proof.
  unfold permissions_domain_at_point. intros T x I.
  assert (Ix : In x (nodup place_eqd (in_places inp))) by (apply nodup_In; auto).
  destruct (traverse_defined _ _ _ T x Ix) as [b Hb].
  destruct (query inp out x p) as [d|] eqn:Q; [|discriminate].
  injection Hb as <-. exists d. split; auto.
  clear I. revert dom T Ix. generalize (NoDup_nodup place_eqd (in_places inp)).
  induction (nodup place_eqd (in_places inp)) as [|y l IH]; cbn; intros ND dom T Ix; [tauto|].
  inversion ND; subst.
  destruct (query inp out y p) as [dy|] eqn:Qy; [|discriminate].
  destruct (traverse _ l) as [r|] eqn:Tr; [|discriminate].
  injection T as <-. cbn. destruct (place_eqd x y) as [->|N].
  - congruence.
  - destruct Ix as [->|Ix]; [congruence|]. eapply IH; eauto.
Qed.

(** * C11: loan regions *)

Section Regions.
  Variable span : Point -> nat * nat.

  Definition lo (p : Point) : nat := fst (span p).
  Definition hi (p : Point) : nat := snd (span p).

  (** [(e, l)] names a point with the first start and one with the last end. *)
  Definition covers (r : Point * Point) (ps : list Point) : Prop :=
    In (fst r) ps /\ In (snd r) ps /\
    forall p, In p ps -> lo (fst r) <= lo p /\ hi p <= hi (snd r).

  Lemma expand_covers r ps p : covers r ps -> covers (region_expand span r p) (ps ++ [p]).
  Proof.
    intros (I1 & I2 & H). unfold region_expand, covers. cbv zeta. cbn [fst snd].
    fold (lo p) (hi p) (lo (fst r)) (hi (snd r)).
    destruct (Nat.ltb_spec (lo p) (lo (fst r))) as [E1|E1];
      destruct (Nat.ltb_spec (hi (snd r)) (hi p)) as [E2|E2];
      (split; [apply in_or_app; cbn; auto|]; split; [apply in_or_app; cbn; auto|]);
      intros q I; apply in_app_or in I as [I|[<-|[]]];
      try (specialize (H q I)); lia.
  Qed.

  Definition points_of (facts : list (Loan * Point)) (l : Loan) : list Point :=
    map snd (filter (fun f => fst f =? l) facts).

  Lemma regions_fold facts : forall h done,
    (forall l, match aget Nat.eq_dec h l with
               | Some r => covers r (points_of done l)
               | None => points_of done l = [] end) ->
    forall l, match aget Nat.eq_dec (fold_left (region_insert span) facts h) l with
              | Some r => covers r (points_of (done ++ facts) l)
              | None => points_of (done ++ facts) l = [] end.
  Proof.
    induction facts as [|[l0 p] facts IH]; cbn [fold_left]; intros h done H l.
    - rewrite app_nil_r. apply H.
    - replace (done ++ (l0, p) :: facts) with ((done ++ [(l0, p)]) ++ facts)
        by (rewrite <- app_assoc; reflexivity).
      apply IH. intros k. unfold region_insert.
      assert (P : points_of (done ++ [(l0, p)]) k =
                  if l0 =? k then points_of done k ++ [p] else points_of done k).
      { unfold points_of. rewrite filter_app, map_app. cbn. destruct (l0 =? k); cbn.
        - reflexivity.
        - rewrite app_nil_r. reflexivity. }
      rewrite P. destruct (Nat.eq_dec l0 k) as [->|N].
      + rewrite aget_aset_eq, Nat.eqb_refl. specialize (H k).
        destruct (aget Nat.eq_dec h k) as [r|].
        * apply expand_covers; auto.
        * rewrite H. cbn [app]. unfold region_expand. cbv zeta. cbn [fst snd]. rewrite !Nat.ltb_irrefl.
          unfold covers. cbn. split; auto. split; auto. intros q [<-|[]]. lia.
      + rewrite aget_aset_neq by auto. apply Nat.eqb_neq in N. rewrite N. apply H.
  Qed.

  Lemma loan_regions_spec (live : list (Point * list Loan)) l :
    match aget Nat.eq_dec (construct_loan_regions span live) l with
    | Some r =>
        (exists ls, In (fst r, ls) live /\ In l ls) /\
        (exists ls, In (snd r, ls) live /\ In l ls) /\
        (forall p ls, In (p, ls) live -> In l ls -> lo (fst r) <= lo p /\ hi p <= hi (snd r))
    | None => forall p ls, In (p, ls) live -> ~ In l ls
    end.
  Proof.
    unfold construct_loan_regions.
    set (facts := flat_map (fun pl : Point * list Loan => map (fun l => (l, fst pl)) (snd pl)) live).
    assert (F : forall l p, In (l, p) facts <-> exists ls, In (p, ls) live /\ In l ls).
    { intros k p. unfold facts. rewrite in_flat_map. split.
      - intros ([q ls] & I & H). apply in_map_iff in H as (k' & E & H). cbn in *.
        injection E as -> ->. eauto.
      - intros (ls & I & H). exists (p, ls). split; auto. apply in_map_iff. eauto. }
    assert (PO : forall p, In p (points_of facts l) <-> exists ls, In (p, ls) live /\ In l ls).
    { intros p. rewrite <- F. unfold points_of. rewrite in_map_iff. split.
      - intros ([k q] & <- & I). apply filter_In in I as [I H]. cbn in *.
        apply Nat.eqb_eq in H. subst. auto.
      - intros I. exists (l, p). split; auto. apply filter_In. split; auto. apply Nat.eqb_refl. }
    pose proof (regions_fold facts [] [] (fun _ => eq_refl) l) as R. cbn [app] in R.
    destruct (aget Nat.eq_dec _ l) as [r|].
    - destruct R as (I1 & I2 & H). split; [apply PO; auto|]. split; [apply PO; auto|].
      intros p ls Ip Il. apply H. apply PO. eauto.
    - intros p ls Ip Il. assert (X : In p (points_of facts l)) by (apply PO; eauto).
      rewrite R in X. inversion X.
  Qed.
End Regions.

(** * Order independence of the named loans (C07) *)

Lemma loan_conflicts_same i1 i2 l x :
  same_loan_facts i1 i2 -> (LoanConflicts i1 l x <-> LoanConflicts i2 l x).
Proof.
  intros (N & C & P & _ & I & A & _). unfold LoanConflicts. rewrite I, P. split.
  - intros (H & y & Iy & E & Cy). split; auto. exists y. rewrite <- A, <- C, <- !N. auto.
  - intros (H & y & Iy & E & Cy). split; auto. exists y. rewrite A, C, !N. auto.
Qed.

Lemma names_loan_unique i1 i2 (k1 k2 : Loan -> Prop) o1 o2 x p :
  same_loan_facts i1 i2 -> (forall l, k1 l <-> k2 l) ->
  names_loan i1 k1 o1 x p -> names_loan i2 k2 o2 x p -> o1 = o2.
Proof.
  intros S K. assert (LC := fun l => loan_conflicts_same i1 i2 l x S).
  destruct S as (_ & _ & _ & _ & _ & _ & LL).
  unfold names_loan. destruct o1 as [a|], o2 as [b|]; auto.
  - intros (A1 & A2 & A3 & A4) (B1 & B2 & B3 & B4).
    apply LC in A1 as A1'. apply LL in A2 as A2'. apply K in A3 as A3'.
    apply LC in B1 as B1'. apply LL in B2 as B2'. apply K in B3 as B3'.
    f_equal. specialize (A4 b B1' B2' B3'). specialize (B4 a A1' A2' A3'). lia.
  - intros (A1 & A2 & A3 & _) F. exfalso. eapply F; [apply LC; eauto|apply LL; eauto|apply K; auto].
  - intros F (A1 & A2 & A3 & _). exfalso. eapply F; [apply LC; eauto|apply LL; eauto|apply K; auto].
Qed.

Lemma query_loans_deterministic i1 i2 o1 o2 x p d1 d2 :
  same_loan_facts i1 i2 ->
  derive_permission_facts i1 = Some o1 -> derive_permission_facts i2 = Some o2 ->
  query i1 o1 x p = Some d1 -> query i2 o2 x p = Some d2 ->
  loan_read_refined d1 = loan_read_refined d2 /\
  loan_write_refined d1 = loan_write_refined d2 /\
  loan_drop_refined d1 = loan_drop_refined d2.
Proof.
  intros S D1 D2 Q1 Q2.
  destruct (query_loans i1 o1 D1 x p d1 Q1) as (R1 & W1 & P1).
  destruct (query_loans i2 o2 D2 x p d2 Q2) as (R2 & W2 & P2).
  split; [|split]; eapply names_loan_unique; eauto; try tauto.
  destruct S as (_ & _ & _ & M & _). intros l. cbn. rewrite M. tauto.
Qed.

(** * A concrete input used as witness

    fn f() { 0: s = ..; 1: r = &s; 2: u = &mut s[..]; 3: t = move s; 4: s.0 = ..; 5: return }
    with a back edge from 4 to 2.  Index projections are normalised to index 0. *)
Module Demo.
  Definition norm (p : Place) : Place :=
    mkPlace (local p) (map (fun e => match e with Index _ => Index 0 | _ => e end) (projection p)).
  Definition s := mkPlace 1 [].
  Definition s0 := mkPlace 1 [Field 0].
  Definition si := mkPlace 1 [Index 7].
  Definition r := mkPlace 2 [].
  Definition dr := mkPlace 2 [Deref].
  Definition t := mkPlace 3 [].
  Definition inp : Inp := mkInp
    [s; si; r; dr] [s; t; s0] [(0, 3)] (fun m => if m =? 2 then [0] else [])
    (fun p => if place_eqd p s then [s; s0; si] else [p]) norm
    [(0, 1); (1, 2); (2, 3); (3, 4); (4, 5); (4, 2)]
    [(0, [1]); (1, [1]); (3, [2])] [(2, 0)] [(1, 3); (0, 0)]
    (fun a b => local a =? local b)
    [7; 9] (fun l => if l =? 7 then s else si) (fun l => l =? 9)
    [(1, [7]); (2, [7; 9])]
    [(0, [1]); (1, [1; 2]); (2, [1; 2]); (3, [1; 2; 3]); (4, [1; 3]); (5, [1; 3])]
    (fun l => l =? 1) (fun p => if place_eqd p r then TRef false else TAdt true true)
    (fun _ => false).
  Definition out : Output :=
    match derive_permission_facts inp with Some o => o | None => mkOut [] [] [] [] [] [] end.
  Lemma derived : derive_permission_facts inp = Some out.
  Proof. vm_compute. reflexivity. Qed.
End Demo.

Lemma loan_regions_hull (span : Point -> nat * nat) live l :
  match aget Nat.eq_dec (construct_loan_regions span live) l with
  | Some (first, last) =>
      (exists ls, In (first, ls) live /\ In l ls) /\
      (exists ls, In (last, ls) live /\ In l ls) /\
      (forall p ls, In (p, ls) live -> In l ls ->
         fst (span first) <= fst (span p) /\ snd (span p) <= snd (span last))
  | None => forall p ls, In (p, ls) live -> ~ In l ls
  end.
Proof.
  pose proof (loan_regions_spec span live l) as H.
  destruct (aget Nat.eq_dec _ l) as [[a b]|]; exact H.
Qed.
