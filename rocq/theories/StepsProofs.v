(** Proofs for StepsSpec.v *)
From Coq Require Import List Arith Bool Lia Permutation Sorted.
From Verif Require Import Base PermsModel FactsModel FactsSpec FactsProofs SpansModel SpansSpec SpansProofs CfgModel CfgSpec CfgProofs
  SegMirModel SegMirSpec SegMirProofs SegMirScopes SegMirClose SegMirTree SegMirSound SegMirInsert HirModel HirSpec HirProofs
  HirHide HirSides TablesModel TablesSpec TablesProofs TablesExact PropFacts PropSpans PropCfg PropSegMir PropHir PropTables PropHide StepsModel StepsSpec.
Import ListNotations.

Lemma Forall2_length {A B} {R : A -> B -> Prop} {l m} : Forall2 R l m -> length l = length m.
Proof. induction 1; cbn; auto. Qed.

(** ** Domains *)

Section Domains.
  Variable env : senv.
  Hypothesis facts : derive_permission_facts (se_inp env) = Some (se_out env).

  Lemma traverse_map {A B} (f : A -> option B) l r : traverse f l = Some r -> Forall2 (fun a b => f a = Some b) l r.
  Proof.
    revert r. induction l as [|a l IH]; cbn; intros r H; [injection H as <-; constructor|].
    destruct (f a) as [b|] eqn:E; [|discriminate]. destruct (traverse f l) as [r'|]; [|discriminate]. injection H as <-. constructor; auto.
  Qed.

  Lemma place_query x p : In x (in_places (se_inp env)) -> exists d, query (se_inp env) (se_out env) x p = Some d.
  Proof. intros I. apply C10_query_defined_iff_registered. exists x. split; auto. left. auto. Qed.

  Lemma domain_at_spec l : exists ds, domain_at env l = combine (seq 0 (length (domain_places env))) ds /\
    Forall2 (fun x d => query (se_inp env) (se_out env) x (se_point env l) = Some d) (domain_places env) ds.
  Proof.
    unfold domain_at. destruct (permissions_domain_at_point (se_inp env) (se_out env) (se_point env l)) as [dom|] eqn:E.
    - unfold permissions_domain_at_point in E. apply traverse_map in E. fold (domain_places env) in E.
      exists (map snd dom). pose proof (Forall2_length E) as L. rewrite L. split; auto. clear L.
      induction E as [|x y xs ys H E IH]; cbn; constructor; auto.
      destruct (query _ _ x _) as [d|]; [|discriminate]. injection H as <-. reflexivity.
    - exfalso. unfold permissions_domain_at_point in E. fold (domain_places env) in E.
      assert (T : forall ys, (forall x, In x ys -> In x (in_places (se_inp env))) ->
        traverse (fun pl => match query (se_inp env) (se_out env) pl (se_point env l) with Some d => Some (pl, d) | None => None end) ys <> None).
      { induction ys as [|y ys IH]; intros H; cbn; [discriminate|]. destruct (place_query y (se_point env l) (H y (or_introl eq_refl))) as [d ->].
        specialize (IH (fun x I => H x (or_intror I))). destruct (traverse _ ys); congruence. }
      apply (T (domain_places env)); auto. intros x I. apply nodup_In in I. auto.
  Qed.

  Lemma akeys_combine : forall (ds : list PData) k n, length ds = n -> akeys (combine (seq k n) ds) = seq k n.
  Proof. induction ds as [|d ds IH]; intros k n <-; cbn; auto. f_equal. apply IH. auto. Qed.

  Lemma aget_combine : forall (ds : list PData) k n p, length ds = n -> aget Nat.eq_dec (combine (seq k n) ds) p = if k <=? p then nth_error ds (p - k) else None.
  Proof.
    induction ds as [|d ds IH]; intros k n p <-; cbn [length seq combine aget].
    - destruct (k <=? p), (p - k); reflexivity.
    - destruct (Nat.eq_dec p k) as [<-|N].
      + rewrite Nat.leb_refl, Nat.sub_diag. reflexivity.
      + rewrite IH by auto. destruct (Nat.leb_spec (S k) p), (Nat.leb_spec k p); try lia; auto. replace (p - k) with (S (p - S k)) by lia. reflexivity.
  Qed.

  Lemma domain_keys l : akeys (domain_at env l) = seq 0 (length (domain_places env)).
  Proof. destruct (domain_at_spec l) as (ds & -> & F). apply akeys_combine. symmetry. exact (Forall2_length F). Qed.

  Lemma bottom_keys : akeys (domain_bottom env) = seq 0 (length (domain_places env)).
  Proof. unfold domain_bottom, akeys. rewrite map_map. cbn. apply map_id. Qed.

  Lemma wf_builder h : WfEnv (table_builder env h).
  Proof.
    intros l. cbn [e_dom e_bottom table_builder]. rewrite domain_keys, bottom_keys. pose proof (seq_NoDup (length (domain_places env)) 0). tauto.
  Qed.

  Lemma Forall2_nth_l {A B} (R : A -> B -> Prop) l m : Forall2 R l m -> forall n b, nth_error m n = Some b -> exists a, nth_error l n = Some a /\ R a b.
  Proof. induction 1 as [|a b l m H F IH]; intros [|n] c E; cbn in *; try discriminate; eauto. injection E as <-. eauto. Qed.

  Lemma domain_get l p u : aget Nat.eq_dec (domain_at env l) p = Some u ->
    exists x, the_place env p = Some x /\ query (se_inp env) (se_out env) x (se_point env l) = Some u.
  Proof.
    destruct (domain_at_spec l) as (ds & -> & F). rewrite aget_combine by (symmetry; exact (Forall2_length F)). cbn [Nat.leb]. rewrite Nat.sub_0_r.
    intros E. exact (Forall2_nth_l _ _ _ F _ _ E).
  Qed.

  Lemma domain_bottom_get p u : aget Nat.eq_dec (domain_bottom env) p = Some u -> u = mkPD false false false false false None None None None.
  Proof. intros E. apply (aget_Some_In _ _ Nat.eq_dec) in E. unfold domain_bottom in E. apply in_map_iff in E as (k & E & _). injection E as _ <-. auto. Qed.

  Lemma query_state x p u : query (se_inp env) (se_out env) x p = Some u -> StateOf (se_inp env) x p u /\ LettersAt (se_inp env) x p (permissions u).
  Proof.
    intros Q. split; [|exact (C10_query_is_composition_of_facts _ _ _ _ _ facts Q)].
    pose proof (C05_moved_iff_reaching_move _ _ _ _ _ facts Q) as M. pose proof (C06_uninit_iff_nested_uninit _ _ _ _ _ facts Q) as U.
    pose proof (C07_loans_refine_conflicting_places _ _ _ _ _ facts Q) as (L1 & L2 & L3).
    pose proof (C08_declared_capabilities _ _ _ _ _ facts Q) as (T1 & T2).
    refine (conj _ (conj M (conj U (conj L1 (conj L2 (conj L3 (conj T1 T2))))))).
    clear M U L1 L2 L3 T1 T2.
    unfold query in Q. destruct (place_to_path (in_normalize (se_inp env)) (the_ctxt (se_inp env)) x) as [path|] eqn:P; [|discriminate].
    unfold permissions_data_at_point in Q. destruct (path_to_place (the_ctxt (se_inp env)) path) as [pl|] eqn:P2; [|discriminate].
    injection Q as <-. cbn [is_live]. pose proof (C09_roundtrip _ _ _ _ P) as P3. unfold the_ctxt in P2. rewrite P3 in P2. injection P2 as <-.
    unfold is_live_at, VarLive. destruct (aget Nat.eq_dec (in_var_live (se_inp env)) p); [apply memb_In|]. split; [discriminate|intros []].
  Qed.
End Domains.

Lemma turns a b : Turns (diff_bool a b) a b.
Proof. destruct a, b; cbn; auto. Qed.

Lemma turns_key (a b : option nat) : TurnsKey (diff_option a b) a b.
Proof. destruct a, b; cbn; repeat split; auto; discriminate. Qed.

Lemma change_says env a b p d : derive_permission_facts (se_inp env) = Some (se_out env) ->
  Change (domain_at env a) (domain_at env b) p d ->
  exists x, the_place env p = Some x /\ RowSays (se_inp env) x (Some (se_point env a)) (se_point env b) d.
Proof.
  intros F (u & v & U & V & ->). apply (domain_get env) in U as (x & Ex & Qu). apply (domain_get env) in V as (x' & Ex' & Qv).
  assert (x' = x) by congruence. subst x'. exists x. split; auto. destruct (query_state env F _ _ _ Qu), (query_state env F _ _ _ Qv).
  exists u, (permissions u), v, (permissions v). cbn. split; [auto|]. split; [auto|]. split; [auto|]. repeat (split; [first [apply turns|apply turns_key]|]). apply turns.
Qed.

Lemma change_says_first env b p d : derive_permission_facts (se_inp env) = Some (se_out env) ->
  Change (domain_bottom env) (domain_at env b) p d ->
  exists x, the_place env p = Some x /\ RowSays (se_inp env) x None (se_point env b) d.
Proof.
  intros F (u & v & U & V & ->). apply domain_bottom_get in U as ->. apply (domain_get env) in V as (x & Ex & Qv).
  exists x. split; auto. destruct (query_state env F _ _ _ Qv).
  exists (mkPD false false false false false None None None None), bottom, v, (permissions v). cbn. split; [repeat split|]. split; auto. split; auto. repeat (split; [first [apply (turns false)|apply (turns_key None)]|]). apply (turns false).
Qed.

(** ** Branches *)

(** Where a branch ends. *)
Definition ReachOk bd ord (s : st) : Prop :=
  forall b, In b (branches s) -> snd (br_reach b) = fst (br_reach b) \/
    exists j, least_post_dominator bd ord (l_block (fst (br_reach b))) = Some j /\ snd (br_reach b) = Loc j 0.

Lemma ReachOk_prim P fw bd ord s s' : prim P fw bd ord s s' -> ReachOk bd ord s -> ReachOk bd ord s'.
Proof.
  assert (New : forall sw phi t sids cids, phi = option_map (fun b => Loc b 0) (least_post_dominator bd ord (l_block sw)) ->
    let b := Branch t (reach_of sw phi) sids cids in
    snd (br_reach b) = fst (br_reach b) \/ exists j, least_post_dominator bd ord (l_block (fst (br_reach b))) = Some j /\ snd (br_reach b) = Loc j 0).
  { intros sw phi t sids cids ->. cbn. destruct (least_post_dominator bd ord (l_block sw)) as [j|]; cbn; eauto. }
  intros H A. destruct H as [s|s idx s' E|s l sp s' bid Pl Pe M|s location parent l s' Pl F O'|s bid s' C|s i b l span s' Pl F I].
  - exact A.
  - apply close_scope_Some in E as (_ & rest & _ & ->). exact A.
  - apply mk_branch_Some in M as (sw & i & b & sp' & Hsw & _ & _ & _ & _ & ->). intros b' I. apply in_app_iff in I as [I|[<-|[]]]; [exact (A b' I)|].
    apply New. reflexivity.
  - destruct (child_branched _ _ _ _ _ _ _ _ _ Pl F O') as (sw & i & b & sp & pb & cb & Hsw & _ & _ & _ & _ & H). cbn zeta in H.
    destruct H as (_ & _ & ->). intros b' I. apply in_app_iff in I as [I|[<-|[]]]; [exact (A b' I)|]. apply New. reflexivity.
  - unfold close_branch in C. destruct (nth_error (branches s) bid) as [b|]; [|discriminate]. injection C as <-. exact A.
  - apply insert_linear_Val in I as (c & Ec & ->). exact A.
Qed.

Lemma ReachOk_Steps P fw bd ord s : Steps P fw bd ord make s -> ReachOk bd ord s.
Proof. induction 1 as [|s s' H IH Hp]; [intros b []|]. eapply ReachOk_prim; eauto. Qed.

(** ** Tables *)

Lemma compute_done env value h : compute env value = Val (HDone h) -> visit_body env value hmake = Val h.
Proof.
  unfold compute. destruct (visit_body env value hmake) as [h'| |]; cbn; try discriminate.
  destruct (h_unsupported h'); [|discriminate]. destruct (h_fatal h'); [|discriminate]. destruct (freeze (h_st h')); [|discriminate]. congruence.
Qed.

Lemma table_origin env value h r l t p d :
  Asked env -> visit_body (se_hir env) value hmake = Val h ->
  body_tables (table_builder env h) (h_st h) (Loc 0 0) (he_lo (se_hir env) (expr_id value)) = Some r ->
  In t (at_loc r l) -> In (p, d) (t_data t) ->
  exists x from to, the_place env p = Some x /\ Origin env value x from to (t_span t) /\
    t_from t = match from with Some a => a | None => Loc 0 0 end /\ t_to t = to /\
    RowSays (se_inp env) x (option_map (se_point env) from) (se_point env to) d.
Proof.
  intros [F Wf RN Ret O Ex En Sp] V B I Ip. set (henv := se_hir env) in *. set (e := table_builder env h) in *.
  assert (We : WfEnv e) by (apply wf_builder; auto).
  assert (Bf : BuiltFrom (he_fw henv) (he_body henv) (he_ord henv) (h_st h)).
  { eapply C33_built; eauto. intros m x. apply En. }
  pose proof (BuiltFrom_Built _ _ _ _ Bf) as Bt.
  pose proof (walked _ _ _ V) as St. pose proof (Shape_Steps _ _ _ _ _ St) as Sh. pose proof (hidden_start henv value h V) as Hid.
  pose proof (SegsReach_Steps _ _ _ _ Wf RN Ret O (BuiltFrom_Steps _ _ _ _ Bf)) as SR.
  destruct (body_tables_sound _ _ _ _ _ Sh We B l t I) as (i & Ii & _ & T). destruct T as [_ T]. destruct i as [|sid|bid].
  - destruct T as (Ts & Ef & Et & R). apply R in Ip. destruct (change_says_first env _ _ _ F Ip) as (x & Px & Rx).
    exists x, None, (Loc 0 0). split; auto. split; [rewrite Ts; constructor|]. split; auto.
  - destruct T as (sg & Es & Tp & Tf & Tt & R). destruct (Hid sid sg Es) as (pl & span & w & Iw & D & Ln & Fl & _).
    pose proof (point_reachable _ _ _ Wf O Ex Iw) as Rp. cbn in Rp. apply R in Ip as [Ic Nh].
    destruct (change_says env _ _ _ _ F Ic) as (x & Px & Rx).
    assert (Hx : ~ In (local x) (w_out w)).
    { intros J. apply Nh. apply Fl in J. unfold filtered, vars in J. apply in_flat_map in J as (sc & J & K). exists sc. split; auto.
      destruct (aget Nat.eq_dec (h_locals h) sc) as [v|] eqn:A; [|destruct K]. exists v. split; auto. cbn. unfold place_local. rewrite Px. exact K. }
    pose proof (SR sg (nth_error_In _ _ Es)) as [Rf Rt].
    exists x, (Some (s_from sg)), (s_to sg). split; auto. split; [|split; auto].
    assert (Or : (exists cid c, nth_error (colls (h_st h)) cid = Some c /\ In (Linear sid) (c_data c)) \/ exists b, In b (branches (h_st h)) /\ In sid (br_splits b)).
    { assert (K : In sid (seq 0 (length (segs (h_st h))))) by (apply in_seq; split; [lia|]; apply nth_error_Some; congruence).
      apply (Permutation_in _ (Permutation_sym (sh_segs _ Sh))) in K. apply in_app_iff in K as [K|K]; [left|right; apply in_flat_map in K; exact K].
      apply in_flat_map in K as (c & Ic' & K). apply In_nth_error in Ic' as [cid Ec]. exists cid, c. split; auto.
      unfold linear_ids in K. apply in_flat_map in K as (k & Ik & K). destruct k as [j|j]; [|destruct K]. destruct K as [->|[]]. exact Ik. }
    destruct Or as [(cid & c & Ec & Il)|(b & Ib & Kb)].
    + assert (K : In sid (steps_of (h_st h))).
      { unfold steps_of. apply in_flat_map. exists c. split; [eapply nth_error_In; eauto|]. unfold linear_ids. apply in_flat_map. exists (Linear sid). split; auto. left. auto. }
      destruct (Ln K) as [Esp Dt]. rewrite Tp, Esp. eapply origin_step; eauto.
      * apply ldominates_before; auto.
      * destruct (C25_linear_sound_partial _ _ _ _ Wf RN Ret O Bf _ _ _ _ Ec Il Es) as [|[_ Bs]]; auto.
    + destruct (C85_sides henv value h Wf O Ex En V b Ib) as (sides & default & Id & Hs).
      destruct (C58_arms _ _ _ _ _ Wf Bt Ib) as (Len & _ & Arms). cbv zeta in Arms.
      apply In_nth_error in Kb as [k Kb].
      destruct (nth_error (successors (he_body henv) (l_block (fst (br_reach b)))) k) as [n|] eqn:En'.
      2:{ exfalso. apply nth_error_None in En'. assert (k < length (br_splits b)) by (apply nth_error_Some; congruence). lia. }
      destruct (Hs k n sid En' Kb) as (sg' & Es' & Sd). assert (sg' = sg) by congruence. subst sg'.
      destruct (Arms k n sid En' Kb) as (sg' & Es'' & _ & Fw & _). assert (sg' = sg) by congruence. subst sg'.
      apply (origin_side _ _ _ (s_from sg) (s_to sg) (t_span t) (l_block (fst (br_reach b))) n sides default pl span w); auto.
      * apply (C24_successors_partial _ _ _ Wf). eapply nth_error_In; eauto.
      * rewrite Tp. destruct Sd as [[S1 S2]|S2]; auto. left. split; auto. apply (aget_Some_In _ _ loc_eqd) in S2. apply in_rev. exact S2.
      * destruct (C60_split_executable _ _ _ _ b sid sg Wf RN Ret O Bf Ib) as [_ X]; auto. eapply nth_error_In; eauto.
      * apply ldominates_before; auto.
  - destruct T as (b & Eb & Tp & Tf & Tt & R). pose proof (nth_error_In _ _ Eb) as Ib. apply R in Ip as [Ic (sc & (sid & rest & sg & Ebs & Es & Esc) & v & Av & Iv)].
    destruct (change_says env _ _ _ _ F Ic) as (x & Px & Rx). exists x, (Some (fst (br_reach b))), (snd (br_reach b)). split; auto. split; [|split; auto].
    destruct (ArmsOk_Steps _ _ _ _ _ St b Ib) as [Len A]. rewrite Ebs in Len, A.
    destruct (nth_error (successors (he_body henv) (l_block (fst (br_reach b)))) 0) as [n|] eqn:En'.
    2:{ exfalso. apply nth_error_None in En'. cbn in Len. lia. }
    destruct (A 0 n sid En' eq_refl) as (sg' & Es' & _ & Sw). assert (sg' = sg) by congruence. subst sg'.
    destruct (Hid sid sg Es) as (pl & span & w & Iw & D & _ & _ & Ow). pose proof (point_reachable _ _ _ Wf O Ex Iw) as Rp. cbn in Rp.
    pose proof (SR sg (nth_error_In _ _ Es)) as [Rf Rt]. rewrite Tp. cbn [e_reach_span e table_builder].
    apply (origin_whole _ _ _ (s_from sg) (fst (br_reach b)) (snd (br_reach b)) pl span w); auto.
    + rewrite <- Ow. unfold vars. rewrite Esc. cbn in Av. rewrite Av. cbn in Iv. unfold place_local in Iv. rewrite Px in Iv. exact Iv.
    + apply ldominates_before; auto.
    + exact (switch_location_walk _ _ _ Sw).
    + destruct (ReachOk_Steps _ _ _ _ _ St b Ib) as [E|(j & Ej & E)]; [left; exact E|right]. exists j. split; auto.
      assert (Ret' : exists x0, Returns (he_body henv) x0) by (destruct Ret as (r0 & d0 & H1 & H2 & _); exists (l_block r0), d0; auto).
      exact (proj1 (C29_computed_join_is_first _ _ _ _ Wf RN Ret' O Ej)).
Qed.
