(** * Where the steps into the sides of a decision are shown *)
From Coq Require Import List Arith Bool Lia.
From Verif Require Import Base FactsModel FlowModel CfgModel CfgSpec CfgProofs SegMirModel SegMirSpec SegMirProofs SegMirScopes
  SegMirClose SegMirTree SegMirInsert HirModel HirSpec HirProofs HirHide.
Import ListNotations.

(** Every branch was split by a spanner that is kept. *)
Definition SplitBy (bd : body) (s : st) (b : branch) (sp : spanner) : Prop :=
  forall k n sid, nth_error (successors bd (l_block (fst (br_reach b)))) k = Some n -> nth_error (br_splits b) k = Some sid ->
    exists sg, nth_error (segs s) sid = Some sg /\ (s_to sg, s_span sg) = get_span bd sp (Loc n 0).
Definition Split (bd : body) (s : st) : Prop :=
  forall b, In b (branches s) -> exists k sp, In (k, sp) (spanners s) /\ SplitBy bd s b sp.

Lemma SplitBy_later bd s s' b sp : (exists new, segs s' = segs s ++ new) -> SplitBy bd s b sp -> SplitBy bd s' b sp.
Proof.
  intros [new E] H k n sid A B. destruct (H k n sid A B) as (sg & C & D). exists sg. split; [|auto]. rewrite E. apply nth_error_prefix. auto.
Qed.

Definition fresh_spanners (s : st) : Prop := forall k sp, In (k, sp) (spanners s) -> k < length (branches s).

Lemma aset_fresh {V} (m : list (nat * V)) k v x : ~ In k (map fst m) -> In x (aset Nat.eq_dec m k v) <-> x = (k, v) \/ In x m.
Proof.
  induction m as [|[a b] m IH]; cbn; intros N; [intuition congruence|]. destruct (Nat.eq_dec k a) as [->|Ne]; [intuition|].
  cbn. rewrite IH by tauto. intuition.
Qed.

Lemma branched_split bd s l sw phi i b sp sps k : Split bd s -> In (k, sp) sps -> incl (spanners s) sps ->
  Split bd (branched bd s l sw phi i b sp sps).
Proof.
  intros S0 I Inc b' J. unfold branched in J. cbn [branches] in J. apply in_app_iff in J. destruct J as [J|[<-|[]]].
  - destruct (S0 b' J) as (k' & sp' & K & X). exists k', sp'. split; [apply Inc; auto|]. eapply SplitBy_later; [|exact X]. eexists. reflexivity.
  - exists k, sp. split; [exact I|]. intros j n sid Hn Hs. cbn [br_splits br_reach reach_of fst] in *. rewrite map_length in Hs.
    assert (Lk : j < length (successors bd (l_block sw))) by (apply nth_error_Some; congruence).
    rewrite nth_error_seq in Hs by auto. injection Hs as <-. eexists. split.
    + cbn [segs branched]. rewrite nth_error_app2 by lia. replace (length (segs s) + j - length (segs s)) with j by lia.
      rewrite nth_error_map, nth_error_map, Hn. reflexivity.
    + cbn. destruct (get_span bd sp (Loc n 0)); reflexivity.
Qed.

Section S.
  Context (env : henv).
  Local Notation bd := (he_body env).
  Local Notation ord := (he_ord env).
  Local Notation fw := (he_fw env).
  Local Notation Goes := (Steps (fun _ => True) fw bd ord).

  Lemma Split_prim s s' : Shape s -> prim (fun _ => True) fw bd ord s s' -> Split bd s -> Split bd s'.
  Proof.
    intros Sh H S0. destruct H as [s|s idx s' E|s l sp s' bid Pl Pe M|s location parent l s' Pl F O'|s bid s' C|s i b l span s' Pl F I].
    - exact S0.
    - apply close_scope_Some in E. destruct E as (_ & r & _ & ->). exact S0.
    - apply mk_branch_Some in M. destruct M as (sw & i & b & sp' & _ & Fb & _ & Lk & _ & ->). cbn in Lk. injection Lk as <-.
      assert (Fr : ~ In (length (branches s)) (map fst (spanners s))).
      { intros J. apply (sh_user s Sh) in J. lia. }
      apply branched_split with (k := length (branches s)); auto.
      + apply aset_fresh; auto.
      + intros x J. apply aset_fresh; auto.
    - destruct (child_branched (fun _ => True) _ _ _ _ _ _ _ _ Pl F O') as (sw & i & b & sp & pb & cb & _ & _ & _ & Hsp & _ & H). cbn zeta in H.
      destruct H as (_ & _ & ->). apply aget_Some_In in Hsp.
      exact (branched_split bd s l sw (join_of bd ord sw) i b sp (spanners s) parent S0 Hsp (incl_refl _)).
    - unfold close_branch in C. destruct (nth_error (branches s) bid) as [b|]; [|discriminate]. injection C as <-. exact S0.
    - apply insert_linear_Val in I. destruct I as (c & Ec & ->). intros b' J. cbn [branches] in J. destruct (S0 b' J) as (k & sp & K & X).
      exists k, sp. split; [exact K|]. eapply SplitBy_later; [|exact X]. eexists. reflexivity.
  Qed.

  Lemma Split_Steps s : Goes make s -> Split bd s.
  Proof.
    induction 1 as [|s1 s2 H IH P]; [intros b []|]. eapply Split_prim; eauto. eapply Shape_Steps; eauto.
  Qed.

  (** The spanners that are kept belong to decisions. *)
  Definition of_decision (d : decision) (sp : spanner) : Prop :=
    exists m, sp = Spanner (he_entries env m) (snd d) /\ NoDup (map fst m) /\ forall l, aget loc_eqd m l = aget loc_eqd (rev (fst d)) l.
  Definition Decides (v : hst -> res hst) (ds : list decision) : Prop :=
    forall h h', v h = Val h' -> forall k sp, In (k, sp) (spanners (h_st h')) -> In (k, sp) (spanners (h_st h)) \/ exists d, In d ds /\ of_decision d sp.

  Lemma Decides_ret : Decides Val [].
  Proof. intros h h' [= <-]. auto. Qed.

  Lemma Decides_bind v1 v2 d1 d2 : Decides v1 d1 -> Decides v2 d2 -> Decides (fun h => bind (v1 h) v2) (d1 ++ d2).
  Proof.
    intros A B h h' H k sp I. apply bind_Val in H. destruct H as (h1 & H1 & H2). destruct (B _ _ H2 _ _ I) as [J|(d & J & X)].
    - destruct (A _ _ H1 _ _ J) as [K|(d & K & X)]; [auto|]. right. exists d. split; [apply in_or_app; auto|auto].
    - right. exists d. split; [apply in_or_app; auto|auto].
  Qed.

  Lemma Decides_weaken v d d' : Decides v d -> incl d d' -> Decides v d'.
  Proof. intros A I h h' H k sp J. destruct (A _ _ H _ _ J) as [K|(x & K & X)]; [auto|]. right. exists x. auto. Qed.

  Lemma Decides_before v d f : (forall h, h_st (f h) = h_st h) -> Decides v d -> Decides (fun h => v (f h)) d.
  Proof. intros F A h h' H k sp J. rewrite <- (F h). eapply A; eauto. Qed.
  Lemma Decides_after v d f : (forall h, spanners (h_st (f h)) = spanners (h_st h)) -> Decides v d -> Decides (fun h => bind (v h) (fun h1 => Val (f h1))) d.
  Proof. intros F A h h' H k sp J. apply bind_Val in H. destruct H as (h1 & H1 & H2). injection H2 as <-. rewrite F in J. eapply A; eauto. Qed.

  Lemma insert_spanners fuel l span : forall s s' ok, insert fw bd ord fuel s l span = Val (s', ok) -> spanners s' = spanners s.
  Proof.
    induction fuel as [|f IH]; intros s s' ok; cbn [insert]; [discriminate|].
    destruct (find_suitable_collection bd s l) as [|parent bl|i b] eqn:F.
    - intros [= <- _]. auto.
    - destruct (open_child_branch fw bd ord s parent bl) as [[s1 [|]]| |] eqn:O; cbn [bind]; try discriminate.
      + intros H. apply IH in H. rewrite H.
        destruct (child_branched (fun _ => True) _ _ _ _ _ _ _ _ I F O) as (sw & i & b & sp & pb & cb & _ & _ & _ & _ & _ & Z). cbn zeta in Z.
        destruct Z as (_ & _ & ->). reflexivity.
      + intros [= <- _]. apply open_child_Val in O. destruct O as [(s2 & M & [= <-])|(? & ? & ? & ? & _ & _ & _ & E)]; [|discriminate].
        apply mk_branch_None in M. subst. auto.
    - destruct (insert_linear bd s i b l span) as [s1| |] eqn:Il; cbn; try discriminate. intros [= <- _].
      apply insert_linear_Val in Il. destruct Il as (c & Ec & ->). reflexivity.
  Qed.

  Lemma ask_spanners l span h h' ok : ask env l span h = Val (h', ok) -> spanners (h_st h') = spanners (h_st h).
  Proof. intros A. apply ask_st in A. eapply insert_spanners; eauto. Qed.

  Lemma Decides_exit id : Decides (insert_at_exit env id) [].
  Proof.
    unfold insert_at_exit. destruct (node_exit env id) as [l|]; [|apply Decides_ret]. intros h h' H k sp J.
    apply bind_Val in H. destruct H as ([h1 ok] & A & H). injection H as <-. cbn [fst] in J. rewrite (ask_spanners _ _ _ _ _ A) in J. auto.
  Qed.

  Lemma Decides_branching cnd id entries default vc va dc da d :
    snd d = default -> NoDup (map fst entries) -> (forall l, aget loc_eqd entries l = aget loc_eqd (rev (fst d)) l) ->
    Decides vc dc -> Decides va da -> Decides (branching env cnd id entries default vc va) (d :: dc ++ da).
  Proof.
    intros Ed Nd Ee Vc Va h h' H k sp J. unfold branching in H. apply bind_Val in H. destruct H as ([h1 o] & P & H). unfold prelude in P.
    apply bind_Val in P. destruct P as (h0 & C & P).
    assert (From0 : In (k, sp) (spanners (h_st h0)) -> In (k, sp) (spanners (h_st h)) \/ exists d0, In d0 (d :: dc ++ da) /\ of_decision d0 sp).
    { intros I. destruct (Vc _ _ C _ _ I) as [K|(x & K & X)]; [auto|]. right. exists x. split; [right; apply in_or_app; auto|auto]. }
    fold (decided env cnd id) in P. destruct (decided env cnd id) as [l|].
    - apply bind_Val in P. destruct P as ([h2 ok] & A & P). cbn [fst snd] in P. injection P as <- <-.
      pose proof (ask_spanners _ _ _ _ _ A) as E2. destruct ok.
      + apply bind_Val in H. destruct H as ([s o] & O & H).
        assert (FromS : In (k, sp) (spanners s) -> In (k, sp) (spanners (h_st h)) \/ exists d0, In d0 (d :: dc ++ da) /\ of_decision d0 sp).
        { intros I. destruct o as [bid|].
          - unfold open_branch in O. apply mk_branch_Some in O. destruct O as (sw & i & b & sp' & _ & _ & _ & _ & _ & ->). cbn [spanners branched] in I.
            assert (Or : (k, sp) = (length (branches (h_st h2)), Spanner (he_entries env entries) default) \/ In (k, sp) (spanners (h_st h2))).
            { clear - I. revert I. generalize (spanners (h_st h2)). intros m. induction m as [|[a b] m IH]; cbn; [intuition|].
              destruct (Nat.eq_dec (length (branches (h_st h2))) a); cbn; intuition. }
            destruct Or as [Or|Or]; [|apply From0; rewrite <- E2; exact Or]. injection Or as _ ->. right. exists d. split; [left; auto|].
            exists entries. rewrite Ed. auto.
          - unfold open_branch in O. apply mk_branch_None in O. subst s. apply From0. rewrite <- E2. exact I. }
        destruct o as [bid|].
        * apply bind_Val in H. destruct H as (h3 & A3 & H). apply bind_Val in H. destruct H as (s2 & Cl & H). injection H as <-.
          cbn [h_st set_st] in J. assert (Es : spanners s2 = spanners (h_st h3)).
          { unfold close_branch in Cl. destruct (nth_error (branches (h_st h3)) bid); [|discriminate]. injection Cl as <-. reflexivity. }
          rewrite Es in J. destruct (Va _ _ A3 _ _ J) as [K|(x & K & X)]; [apply FromS; exact K|]. right. exists x. split; [right; apply in_or_app; auto|auto].
        * injection H as <-. apply FromS. exact J.
      + injection H as <-. apply From0. rewrite <- E2. exact J.
    - injection P as <- <-. injection H as <-. apply From0. exact J.
  Qed.

  Lemma pop_spanners l h : spanners (h_st (pop_hint h l)) = spanners (h_st h).
  Proof. rewrite pop_hint_st. reflexivity. Qed.

  Lemma Decides_hinted id v d : Decides v d -> Decides (hinted env id v) d.
  Proof.
    intros V. unfold hinted. destruct (node_entry env id) as [l|].
    - apply (Decides_after (fun h => v (push_hint h l)) d (fun h => pop_hint h l)); [apply pop_spanners|].
      apply (Decides_before v d (fun h => push_hint h l)); auto.
    - eapply Decides_weaken; [apply Decides_ret|]. intros x [].
  Qed.

  Lemma end_spanners scope h : spanners (h_st (fst (end_scope scope h))) = spanners (h_st h).
  Proof.
    unfold end_scope. destruct (close_scope (h_st h) scope) as [s|] eqn:C; [|reflexivity]. apply close_scope_Some in C.
    destruct C as (_ & r & _ & ->). reflexivity.
  Qed.

  Lemma Decides_stmt id v d : (forall scope, Decides (v scope) d) ->
    Decides (fun h => let '(s, scope) := open_scope (h_st h) in
       bind (v scope (set_st h s)) (fun h2 => match end_scope scope h2 with (h3, true) => insert_at_exit env id h3 | (h3, false) => Val h3 end)) d.
  Proof.
    intros V h h' H k sp J. unfold open_scope in H. apply bind_Val in H. destruct H as (h2 & H2 & H).
    assert (E : spanners (h_st h') = spanners (h_st h2)).
    { pose proof (end_spanners (next_scope (h_st h)) h2) as E. destruct (end_scope (next_scope (h_st h)) h2) as [h3 [|]]; cbn [fst] in E.
      - unfold insert_at_exit in H. destruct (node_exit env id) as [l|]; [|injection H as <-; auto].
        apply bind_Val in H. destruct H as ([h4 ok] & A & H). injection H as <-. cbn [fst]. rewrite (ask_spanners _ _ _ _ _ A). exact E.
      - injection H as <-. exact E. }
    rewrite E in J. exact (V _ _ _ H2 _ _ J).
  Qed.

  (** The hash map of entries. *)
  Lemma aget_aset_ext m m' k v : (forall l, aget loc_eqd m l = aget loc_eqd m' l) -> forall l : loc, aget loc_eqd (aset loc_eqd m k v) l = aget loc_eqd (aset loc_eqd m' k v) l :> option nat.
  Proof. intros E l. rewrite !aget_aset. destruct (loc_eqd l k); auto. Qed.

  Lemma add_entry_aget id span m sides : (forall l, aget loc_eqd m l = aget loc_eqd (rev sides) l) ->
    forall l, aget loc_eqd (add_entry env id span m) l = aget loc_eqd (rev (sides ++ side env id span)) l.
  Proof.
    intros E l. unfold add_entry, side. destruct (node_entry env id) as [x|]; [|rewrite app_nil_r; auto].
    rewrite rev_app_distr. cbn. rewrite aget_aset. destruct (loc_eqd l x); auto.
  Qed.

  Lemma arm_entries_aget ar : forall m sides, (forall l, aget loc_eqd m l = aget loc_eqd (rev sides) l) ->
    forall l, aget loc_eqd (arm_entries env ar m) l = aget loc_eqd (rev (sides ++ arm_sides env ar)) l.
  Proof.
    induction ar as [|[? ? ? ?] r IH]; intros m sides E l; cbn; [rewrite app_nil_r; auto|]. rewrite app_assoc. apply IH. apply add_entry_aget. auto.
  Qed.

  Lemma add_entry_NoDup id span m : NoDup (map fst m) -> NoDup (map fst (add_entry env id span m)).
  Proof. intros N. unfold add_entry. destruct (node_entry env id); [|auto]. apply NoDup_aset. exact N. Qed.
  Lemma arm_entries_NoDup ar : forall m, NoDup (map fst m) -> NoDup (map fst (arm_entries env ar m)).
  Proof. induction ar as [|a r IH]; intros m N; cbn; [auto|]. apply IH, add_entry_NoDup. auto. Qed.
  Ltac entries_nodup := repeat match goal with |- NoDup (map fst (match ?o with ENone => _ | ESome _ => _ end)) => destruct o end;
    repeat (apply add_entry_NoDup || apply arm_entries_NoDup); constructor.

  (** The sides of a decision are nodes. *)
  Definition Sided (ds : list decision) : Prop := forall d x, In d ds -> In x (fst d) -> OfNode env (fst x).
  Lemma Sided_nil : Sided [].
  Proof. intros d x []. Qed.
  Lemma Sided_app a b : Sided a -> Sided b -> Sided (a ++ b).
  Proof. intros A B d x I J. apply in_app_iff in I. destruct I as [I|I]; eauto. Qed.
  Lemma Sided_cons d a : (forall x, In x (fst d) -> OfNode env (fst x)) -> Sided a -> Sided (d :: a).
  Proof. intros D A e x [<-|I] J; eauto. Qed.
  Lemma side_node id span x : In x (side env id span) -> OfNode env (fst x).
  Proof. unfold side. destruct (node_entry env id) eqn:E; [|intros []]. intros [<-|[]]. exists id. auto. Qed.
  Lemma arm_sides_node ar x : In x (arm_sides env ar) -> OfNode env (fst x).
  Proof. induction ar as [|[? ? ? ?] r IH]; cbn; [intros []|]. rewrite in_app_iff. intros [I|I]; [eapply side_node; eauto|auto]. Qed.

  Lemma sided :
    (forall e, Sided (decisions_expr env e)) /\ (forall o, Sided (decisions_oexpr env o)) /\ (forall l, Sided (decisions_exprs env l)) /\
    (forall a, Sided (decisions_arm env a)) /\ (forall l, Sided (decisions_arms env l)) /\ (forall b, Sided (decisions_block env b)) /\
    (forall l, Sided (decisions_stmts env l)) /\ (forall s, Sided (decisions_stmt env s)) /\ (forall o, Sided (decisions_oblk env o)).
  Proof.
    apply hir_mind.
    - intros id c Hc t Ht o Ho. cbn [decisions_expr]. apply Sided_cons; [|repeat apply Sided_app; auto]. cbn [fst]. intros x. rewrite in_app_iff.
      intros [I|I]; [eapply side_node; eauto|]. destruct o; [destruct I|eapply side_node; eauto].
    - intros id c Hc t Ht o Ho. cbn [decisions_expr]. apply Sided_cons; [|repeat apply Sided_app; auto]. cbn [fst]. intros x. rewrite in_app_iff.
      intros [I|I]; eapply side_node; eauto.
    - intros id c Hc t Ht o Ho. cbn [decisions_expr]. apply Sided_cons; [|repeat apply Sided_app; auto]. cbn [fst]. intros x. rewrite in_app_iff.
      intros [I|I]; eapply side_node; eauto.
    - intros id d c Hc ar Ha. cbn [decisions_expr]. apply Sided_app; [|apply Sided_app; auto]. destruct (no_decision env d c ar); [apply Sided_nil|].
      apply Sided_cons; [|apply Sided_nil]. cbn [fst]. apply arm_sides_node.
    - intros id b H. exact H.
    - intros id v H. exact H.
    - intros id l H. exact H.
    - apply Sided_nil.
    - intros e H. exact H.
    - apply Sided_nil.
    - intros e He r Hr. cbn [decisions_exprs]. apply Sided_app; auto.
    - intros id pat g Hg b Hb. cbn [decisions_arm]. apply Sided_app; auto.
    - apply Sided_nil.
    - intros a Ha r Hr. cbn [decisions_arms]. apply Sided_app; auto.
    - intros ss Hs t Ht. cbn [decisions_block]. apply Sided_app; auto.
    - apply Sided_nil.
    - intros x Hx r Hr. cbn [decisions_stmts]. apply Sided_app; auto.
    - intros id i Hi el He. cbn [decisions_stmt]. apply Sided_app; auto.
    - intros id e H. exact H.
    - intros id l H. exact H.
    - apply Sided_nil.
    - intros b H. exact H.
  Qed.

  Lemma decided_all :
    (forall e, Decides (visit_expr env e) (decisions_expr env e)) /\
    (forall o, match o with ESome e => Decides (visit_expr env e) (decisions_expr env e) | ENone => True end) /\
    (forall l, Decides (visit_exprs env l) (decisions_exprs env l) /\ Decides (visit_bodies env l) (decisions_exprs env l)) /\
    (forall a, Decides (visit_arm env a) (decisions_arm env a)) /\
    (forall l, Decides (visit_arms env l) (decisions_arms env l)) /\
    (forall b, Decides (visit_block env b) (decisions_block env b)) /\
    (forall l, Decides (visit_stmts env l) (decisions_stmts env l)) /\
    (forall s, Decides (visit_stmt env s) (decisions_stmt env s)) /\
    (forall o, match o with BSome b => Decides (visit_block env b) (decisions_block env b) | BNone => True end).
  Proof.
    assert (Nil : forall l : loc, aget loc_eqd (@nil (loc * nat)) l = aget loc_eqd (rev []) l) by reflexivity.
    apply hir_mind.
    - (* EIf *) intros id cnd IHc thn IHt els IHe. cbn [visit_expr decisions_expr].
      apply Decides_branching; [reflexivity|entries_nodup| |exact IHc|].
      + cbn [fst]. destruct els as [|x].
        * rewrite app_nil_r. apply (add_entry_aget _ _ [] [] Nil).
        * apply (add_entry_aget _ _ _ (side env _ _)). apply (add_entry_aget _ _ [] [] Nil).
      + apply Decides_bind; [apply Decides_hinted; exact IHt|]. destruct els as [|x]; [apply Decides_ret|apply (Decides_hinted _ _ (decisions_expr env x)); exact IHe].
    - (* EWhile *) intros id cnd IHc thn IHt els IHe. cbn [visit_expr decisions_expr].
      apply Decides_branching; [reflexivity|entries_nodup| |exact IHc|].
      + cbn [fst]. apply (add_entry_aget _ _ _ (side env _ _)). apply (add_entry_aget _ _ [] [] Nil).
      + apply Decides_bind; apply Decides_hinted; auto.
    - (* EFor *) intros id cnd IHc none IHn some IHs. cbn [visit_expr decisions_expr].
      apply Decides_branching; [reflexivity|entries_nodup| |exact IHc|].
      + cbn [fst]. apply (add_entry_aget _ _ _ (side env _ _)). apply (add_entry_aget _ _ [] [] Nil).
      + apply Decides_bind; auto.
    - (* EMatch *) intros id d cnd IHc ar IHa. cbn [visit_expr decisions_expr]. rewrite decision_test.
      destruct (no_decision env d cnd ar).
      + cbn [app]. apply (Decides_bind _ _ (decisions_expr env cnd) (decisions_arms env ar)); auto.
      + cbn [app]. apply (Decides_branching _ _ _ _ _ _ (decisions_expr env cnd) (decisions_arms env ar)); [reflexivity|entries_nodup| |exact IHc|exact IHa]. apply (arm_entries_aget ar [] [] Nil).
    - intros id b IH. exact IH.
    - intros id v IH. cbn [visit_expr decisions_expr]. rewrite <- (app_nil_r (decisions_expr env v)). apply Decides_bind; [exact IH|apply Decides_exit].
    - intros id l IH. exact (proj1 IH).
    - exact I.
    - intros e IH. exact IH.
    - split; apply Decides_ret.
    - intros e IHe r [IHr IHb]. cbn. split.
      + apply Decides_bind; auto.
      + apply Decides_bind; [auto|]. apply (Decides_bind _ _ [] (decisions_exprs env r)); [apply Decides_exit|auto].
    - (* Arm *) intros id pat g IHg b IHb. cbn [visit_arm decisions_arm].
      assert (IHb' : forall l, Decides (fun h => bind (visit_expr env b h) (fun h2 => Val (pop_hint h2 l))) (decisions_expr env b)).
      { intros l. apply (Decides_after _ _ (fun h => pop_hint h l)); [apply pop_spanners|exact IHb]. }
      intros h h' H k sp J.
      assert (Eh : h_st (if has_guard g then unsupported h id else h) = h_st h) by (destruct (has_guard g); reflexivity).
      set (h0 := if has_guard g then unsupported h id else h) in *. clearbody h0.
      destruct (node_entry env id) as [l|]; [|injection H as <-; rewrite Eh in J; auto].
      destruct (node_entry env (expr_id b)) as [entry|].
      + apply bind_Val in H. destruct H as ([h1 ok] & A & H). cbn [fst snd] in H. pose proof (ask_spanners _ _ _ _ _ A) as E1. cbn [h_st push_hint set_hints] in E1. rewrite Eh in E1. destruct ok.
        * destruct (IHb' l _ _ H _ _ J) as [K|(x & K & X)]; [rewrite E1 in K; auto|]. right. exists x. split; [apply in_or_app; auto|auto].
        * injection H as <-. rewrite E1 in J. auto.
      + rewrite <- Eh. change (h_st h0) with (h_st (push_hint h0 l)).
        refine (Decides_bind (fun h1 => match g with ESome g0 => visit_expr env g0 h1 | ENone => Val h1 end) _ (decisions_oexpr env g) (decisions_expr env b) _ (IHb' l) _ _ H _ _ J).
        destruct g; [apply Decides_ret|exact IHg].
    - apply Decides_ret.
    - intros a IHa r IHr. cbn. apply Decides_bind; auto.
    - (* Blk *) intros ss IHs t IHt. cbn [visit_block decisions_block]. intros h h' H k sp J. unfold open_scope in H.
      apply bind_Val in H. destruct H as (h1 & H1 & H). apply bind_Val in H. destruct H as (h2 & H2 & H). injection H as <-. rewrite end_spanners in J.
      assert (T : Decides (fun h1 => match t with ESome e => bind (visit_expr env e h1) (insert_at_exit env (expr_id e)) | ENone => Val h1 end) (decisions_oexpr env t)).
      { destruct t as [|e]; [apply Decides_ret|]. change (decisions_oexpr env (ESome e)) with (decisions_expr env e). rewrite <- (app_nil_r (decisions_expr env e)). apply Decides_bind; [exact IHt|apply Decides_exit]. }
      destruct (T _ _ H2 _ _ J) as [K|(x & K & X)]; [|right; exists x; split; [apply in_or_app; auto|auto]].
      destruct (IHs _ _ H1 _ _ K) as [L|(x & L & X)]; [left; exact L|right; exists x; split; [apply in_or_app; auto|auto]].
    - apply Decides_ret.
    - intros s IHs r IHr. cbn. apply Decides_bind; auto.
    - (* SLet *) intros id init IHi els IHe. cbn [visit_stmt decisions_stmt stmt_id].
      apply (Decides_stmt id (fun scope h0 => bind (match init with ESome e => visit_expr env e (match he_locals env id with [] => h0 | ls => set_locals h0 (aset Nat.eq_dec (h_locals h0) scope ls) end) | ENone => Val (match he_locals env id with [] => h0 | ls => set_locals h0 (aset Nat.eq_dec (h_locals h0) scope ls) end) end) (fun h2 => match els with BSome b => visit_block env b h2 | BNone => Val h2 end))). intros scope.
      apply (Decides_before (fun h1 => bind (match init with ESome e => visit_expr env e h1 | ENone => Val h1 end) (fun h2 => match els with BSome b => visit_block env b h2 | BNone => Val h2 end)) _ (fun h0 => match he_locals env id with [] => h0 | ls => set_locals h0 (aset Nat.eq_dec (h_locals h0) scope ls) end)).
      + intros x. destruct (he_locals env id); reflexivity.
      + apply Decides_bind; [destruct init; [apply Decides_ret|exact IHi]|destruct els; [apply Decides_ret|exact IHe]].
    - intros id e IHe. cbn [visit_stmt decisions_stmt stmt_id]. apply (Decides_stmt id (fun scope h0 => visit_expr env e h0)). intros _. exact IHe.
    - intros id l IHl. cbn [visit_stmt decisions_stmt stmt_id]. apply (Decides_stmt id (fun scope h0 => visit_bodies env l h0)). intros _. exact (proj2 IHl).
    - exact I.
    - intros b IH. exact IH.
  Qed.
End S.
