(** * Which guards the visitor meets *)
From Coq Require Import List Arith Bool Lia.
From Verif Require Import Base FactsModel CfgModel CfgSpec SegMirModel HirModel HirSpec HirProofs.
Import ListNotations.

Definition Guards (v : hst -> res hst) (gs : list nat) (L : Prop) : Prop :=
  forall h h', v h = Val h' -> exists us es, h_unsupported h' = h_unsupported h ++ us /\ h_fatal h' = h_fatal h ++ es /\
    Subsequence us gs /\ (L -> es = [] -> us = [] -> gs = []).

(** Functions that meet none. *)
Definition Quiet (f : hst -> hst) : Prop := forall h, h_unsupported (f h) = h_unsupported h /\ exists es, h_fatal (f h) = h_fatal h ++ es.

Lemma Guards_ret : Guards Val [] True.
Proof. intros h h' [= <-]. exists [], []. rewrite !app_nil_r. repeat split; auto. constructor. Qed.

Lemma Guards_bind v1 v2 g1 g2 L1 L2 : Guards v1 g1 L1 -> Guards v2 g2 L2 -> Guards (fun h => bind (v1 h) v2) (g1 ++ g2) (L1 /\ L2).
Proof.
  intros A1 A2 h h' H. apply bind_Val in H. destruct H as (h1 & H1 & H2).
  destruct (A1 _ _ H1) as (l1 & e1 & E1 & F1 & S1 & C1), (A2 _ _ H2) as (l2 & e2 & E2 & F2 & S2 & C2).
  exists (l1 ++ l2), (e1 ++ e2). rewrite E2, E1, F2, F1, !app_assoc. split; [auto|]. split; [auto|]. split; [apply sub_app; auto|].
  intros [X Y] Z U. apply app_eq_nil in Z. apply app_eq_nil in U. rewrite C1, C2; tauto.
Qed.

Lemma Guards_weaken v g (L L' : Prop) : Guards v g L -> (L' -> L) -> Guards v g L'.
Proof. intros A I h h' H. destruct (A _ _ H) as (ls & es & B1 & B2 & B3 & B4). exists ls, es. split; [auto|split; [auto|split; auto]]. Qed.

Lemma Guards_before v g L (f : hst -> hst) : (forall h, h_unsupported (f h) = h_unsupported h /\ h_fatal (f h) = h_fatal h) ->
  Guards v g L -> Guards (fun h => v (f h)) g L.
Proof.
  intros F A h h' H. destruct (A _ _ H) as (ls & es & B1 & B2 & B3 & B4). rewrite (proj1 (F h)) in B1. rewrite (proj2 (F h)) in B2.
  exists ls, es. split; [auto|split; [auto|split; auto]].
Qed.

Lemma Guards_after v g L (f : hst -> hst) : Quiet f -> Guards v g L -> Guards (fun h => bind (v h) (fun h1 => Val (f h1))) g L.
Proof.
  intros F A h h' H. apply bind_Val in H. destruct H as (h1 & H1 & H2). injection H2 as <-.
  destruct (A _ _ H1) as (ls & es & B1 & B2 & B3 & B4). destruct (F h1) as [-> [es' ->]]. exists ls, (es ++ es'). rewrite B2, app_assoc.
  repeat split; auto. intros X Y. apply app_eq_nil in Y. apply B4; tauto.
Qed.

Lemma pop_hint_quiet l : Quiet (fun h => pop_hint h l).
Proof.
  intros h. unfold pop_hint. destruct (h_hints h) as [|x r]; [split; [auto|exists []; rewrite app_nil_r; auto]|].
  destruct (loc_eqd x l); cbn; split; auto; [exists []; rewrite app_nil_r; auto|eauto].
Qed.

Lemma ask_quiet env l span h h' ok : ask env l span h = Val (h', ok) ->
  h_unsupported h' = h_unsupported h /\ exists es, h_fatal h' = h_fatal h ++ es /\ (es = [] <-> ok = true).
Proof.
  unfold ask. intros H. apply bind_Val in H. destruct H as ([s ok'] & A & H). cbn [fst snd] in H. injection H as <- <-.
  destruct ok'; cbn; split; auto.
  - exists []. rewrite app_nil_r. tauto.
  - exists [ErrInsert l]. split; [auto|]. split; discriminate.
Qed.

Lemma Guards_exit env id : Guards (insert_at_exit env id) [] True.
Proof.
  unfold insert_at_exit. destruct (node_exit env id) as [l|]; [|apply Guards_ret].
  intros h h' H. apply bind_Val in H. destruct H as ([h1 ok] & A & H). injection H as <-. apply ask_quiet in A. destruct A as (E & es & F & _).
  exists [], es. rewrite app_nil_r. repeat split; auto. constructor.
Qed.

Lemma Guards_branching env cnd id entries default vc va gc ga Lc La :
  Guards vc gc Lc -> Guards va ga La ->
  Guards (branching env cnd id entries default vc va) (gc ++ ga) (decided env cnd id <> None /\ Lc /\ La).
Proof.
  intros Ac Aa h h' H. unfold branching in H. apply bind_Val in H. destruct H as ([h1 o] & P & H). unfold prelude in P.
  apply bind_Val in P. destruct P as (h0 & C & P). fold (decided env cnd id) in P.
  destruct (Ac _ _ C) as (l0 & e0 & E0 & F0 & S0 & C0).
  destruct (decided env cnd id) as [l|] eqn:D.
  - apply bind_Val in P. destruct P as ([h2 ok] & A & P). cbn [fst snd] in P. injection P as <- <-.
    apply ask_quiet in A. destruct A as (E1 & e1 & F1 & O1). destruct ok.
    + assert (e1 = []) by tauto. subst e1. rewrite app_nil_r in F1. apply bind_Val in H. destruct H as ([s [bid|]] & O & H).
      * apply bind_Val in H. destruct H as (h3 & A3 & H). apply bind_Val in H. destruct H as (s2 & Cl & H). injection H as <-.
        destruct (Aa _ _ A3) as (l3 & e3 & E3 & F3 & S3 & C3). cbn [h_unsupported h_fatal set_st] in *.
        exists (l0 ++ l3), (e0 ++ e3). rewrite E3, E1, E0, F3, F1, F0, !app_assoc. split; [auto|]. split; [auto|]. split; [apply sub_app; auto|].
        intros (_ & X & Y) Z U. apply app_eq_nil in Z. apply app_eq_nil in U. rewrite C0, C3; tauto.
      * injection H as <-. cbn [h_unsupported h_fatal set_st fatal]. exists l0, (e0 ++ [ErrBranch l]).
        rewrite E1, E0, F1, F0, !app_assoc. split; [auto|]. split; [auto|]. split; [apply sub_front; auto|].
        intros _ Z. apply app_eq_nil in Z. destruct Z. discriminate.
    + injection H as <-. exists l0, (e0 ++ e1). rewrite E1, E0, F1, F0, !app_assoc. split; [auto|]. split; [auto|]. split; [apply sub_front; auto|].
      intros _ Z. apply app_eq_nil in Z. destruct Z as [_ Z]. apply O1 in Z. discriminate.
  - injection P as <- <-. injection H as <-. exists l0, e0. split; [auto|]. split; [auto|]. split; [apply sub_front; auto|]. intros (X & _). congruence.
Qed.

Lemma Guards_hinted env id v g L : Guards v g L -> Guards (hinted env id v) g (found env id /\ L).
Proof.
  intros A. unfold hinted, found. destruct (node_entry env id) as [l|].
  - eapply Guards_weaken; [|intros [_ X]; exact X].
    apply (Guards_after (fun h => v (push_hint h l)) g L (fun h => pop_hint h l)); [apply pop_hint_quiet|].
    apply (Guards_before v g L (fun h => push_hint h l)); [intros h; split; reflexivity|auto].
  - intros h h' [= <-]. exists [], []. rewrite !app_nil_r. repeat split; auto; [apply sub_none|]. intros [X _]. congruence.
Qed.

Lemma end_scope_quiet scope : Quiet (fun h => fst (end_scope scope h)).
Proof.
  intros h. unfold end_scope. destruct (close_scope (h_st h) scope); cbn; split; eauto.
  exists []. rewrite app_nil_r. auto.
Qed.

Lemma Guards_stmt env id v g L : (forall scope, Guards (v scope) g L) ->
  Guards (fun h => let '(s, scope) := open_scope (h_st h) in
     bind (v scope (set_st h s)) (fun h2 => match end_scope scope h2 with (h3, true) => insert_at_exit env id h3 | (h3, false) => Val h3 end))
    g L.
Proof.
  intros A h h' H. destruct (open_scope (h_st h)) as [s scope]. apply bind_Val in H. destruct H as (h2 & H2 & H).
  destruct (A _ _ _ H2) as (l0 & e0 & E0 & F0 & S0 & C0). cbn [h_unsupported h_fatal set_st] in *.
  destruct (end_scope_quiet scope h2) as (E1 & e1 & F1). destruct (end_scope scope h2) as [h3 [|]]; cbn [fst snd] in *.
  - destruct (Guards_exit env id _ _ H) as (l2 & e2 & E2 & F2 & S2 & C2). inversion S2; subst l2.
    exists l0, (e0 ++ e1 ++ e2). rewrite E2, E1, E0, F2, F1, F0, app_nil_r, !app_assoc. split; [auto|]. split; [auto|]. split; [auto|].
    intros X Z. apply app_eq_nil in Z. destruct Z as [Z _]. apply app_eq_nil in Z. tauto.
  - injection H as <-. exists l0, (e0 ++ e1). rewrite E1, E0, F1, F0, !app_assoc. split; [auto|]. split; [auto|]. split; [auto|].
    intros X Z. apply app_eq_nil in Z. tauto.
Qed.

Lemma guarded env :
  (forall e, Guards (visit_expr env e) (guards_expr e) (located_expr env e)) /\
  (forall o, match o with ESome e => Guards (visit_expr env e) (guards_expr e) (located_expr env e) | ENone => True end) /\
  (forall l, Guards (visit_exprs env l) (guards_exprs l) (located_exprs env l) /\ Guards (visit_bodies env l) (guards_exprs l) (located_exprs env l)) /\
  (forall a, Guards (visit_arm env a) (guards_arm a) (located_arm env a)) /\
  (forall l, Guards (visit_arms env l) (guards_arms l) (located_arms env l)) /\
  (forall b, Guards (visit_block env b) (guards_block b) (located_block env b)) /\
  (forall l, Guards (visit_stmts env l) (guards_stmts l) (located_stmts env l)) /\
  (forall s, Guards (visit_stmt env s) (guards_stmt s) (located_stmt env s)) /\
  (forall o, match o with BSome b => Guards (visit_block env b) (guards_block b) (located_block env b) | BNone => True end).
Proof.
  apply hir_mind.
  - (* EIf *) intros id cnd IHc thn IHt els IHe. cbn [visit_expr guards_expr located_expr]. eapply Guards_weaken.
    + apply Guards_branching; [exact IHc|]. apply Guards_bind; [apply Guards_hinted; exact IHt|].
      instantiate (1 := match els with ESome x => found env (expr_id x) /\ located_expr env x | ENone => True end).
      destruct els as [|x]; [apply Guards_ret|apply Guards_hinted; exact IHe].
    + destruct els; cbn; tauto.
  - (* EWhile *) intros id cnd IHc thn IHt els IHe. cbn [visit_expr guards_expr located_expr]. eapply Guards_weaken.
    + apply Guards_branching; [exact IHc|]. apply Guards_bind; [apply Guards_hinted; exact IHt|apply Guards_hinted; exact IHe].
    + tauto.
  - (* EFor *) intros id cnd IHc none IHn some IHs. cbn [visit_expr guards_expr located_expr]. eapply Guards_weaken.
    + apply Guards_branching; [exact IHc|]. apply Guards_bind; [exact IHn|exact IHs].
    + tauto.
  - (* EMatch *) intros id d cnd IHc ar IHa. cbn [visit_expr guards_expr located_expr]. rewrite decision_test.
    destruct (no_decision env d cnd ar).
    + eapply Guards_weaken; [apply Guards_bind; [exact IHc|exact IHa]|tauto].
    + eapply Guards_weaken; [apply Guards_branching; [exact IHc|exact IHa]|]. intros ([X|X] & Y); [discriminate|tauto].
  - intros id b IH. exact IH.
  - (* EClosure *) intros id v IH. cbn [visit_expr guards_expr located_expr]. rewrite <- (app_nil_r (guards_expr v)).
    eapply Guards_weaken; [apply Guards_bind; [exact IH|apply Guards_exit]|tauto].
  - intros id l IH. exact (proj1 IH).
  - exact I.
  - intros e IH. exact IH.
  - split; apply Guards_ret.
  - intros e IHe r [IHr IHb]. split; cbn.
    + apply Guards_bind; auto.
    + eapply Guards_weaken; [apply (Guards_bind _ _ _ ([] ++ _)); [exact IHe|apply Guards_bind; [apply Guards_exit|exact IHb]]|tauto].
  - (* Arm *) intros id pat g IHg b IHb h h' H. cbn [visit_arm] in H. cbn [guards_arm located_arm].
    set (h0 := if has_guard g then unsupported h id else h) in H.
    assert (Q : h_fatal h0 = h_fatal h /\ h_unsupported h0 = h_unsupported h ++ match g with ESome _ => [id] | ENone => [] end).
    { unfold h0. destruct g; cbn; rewrite ?app_nil_r; auto. }
    clearbody h0. destruct Q as [Qf Qu].
    assert (G : exists us es, h_unsupported h' = h_unsupported h0 ++ us /\ h_fatal h' = h_fatal h0 ++ es /\
      Subsequence us (match g with ESome x => guards_expr x | ENone => [] end ++ guards_expr b) /\
      (found env id /\ located_oexpr env g /\ located_expr env b -> es = [] -> us = [] -> guards_expr b = [])).
    { unfold found. destruct (node_entry env id) as [l|].
      2:{ injection H as <-. exists [], []. rewrite !app_nil_r. repeat split; auto; [apply sub_none|]. intros [X _]. congruence. }
      change (h_unsupported h0) with (h_unsupported (push_hint h0 l)). change (h_fatal h0) with (h_fatal (push_hint h0 l)).
      revert H. generalize (push_hint h0 l). clear h h0 Qf Qu. intros h H.
      pose proof (Guards_after (visit_expr env b) _ _ (fun h => pop_hint h l) (pop_hint_quiet l) IHb) as IHb'.
      destruct (node_entry env (expr_id b)) as [entry|].
      - apply bind_Val in H. destruct H as ([h1 ok] & A & H). cbn [fst snd] in H. apply ask_quiet in A. destruct A as (E1 & e1 & F1 & O1). destruct ok.
        + destruct (IHb' _ _ H) as (l2 & e2 & E2 & F2 & S2 & C2). exists l2, (e1 ++ e2). rewrite E2, E1, F2, F1, !app_assoc.
          split; [auto|]. split; [auto|]. split; [apply (sub_app [] _ l2); [apply sub_none|auto]|].
          intros (_ & _ & X) Z. apply app_eq_nil in Z. apply C2; tauto.
        + injection H as <-. exists [], e1. rewrite app_nil_r. split; [auto|]. split; [auto|]. split; [apply sub_none|].
          intros _ Z. apply O1 in Z. discriminate.
      - apply bind_Val in H. destruct H as (h2 & H1 & H2).
        assert (X : Guards (fun h1 => match g with ESome g0 => visit_expr env g0 h1 | ENone => Val h1 end)
                      match g with ESome x => guards_expr x | ENone => [] end (located_oexpr env g)) by (destruct g; [apply Guards_ret|exact IHg]).
        destruct (X _ _ H1) as (l1 & e1 & E1 & F1 & S1 & C1). destruct (IHb' _ _ H2) as (l2 & e2 & E2 & F2 & S2 & C2).
        exists (l1 ++ l2), (e1 ++ e2). rewrite E2, E1, F2, F1, !app_assoc. split; [auto|]. split; [auto|]. split; [apply sub_app; auto|].
        intros (_ & Y & Z) W U. apply app_eq_nil in W. apply app_eq_nil in U. apply C2; tauto. }
    destruct G as (us & es & E & F & S1 & C).
    exists (match g with ESome _ => [id] | ENone => [] end ++ us), es. rewrite E, F, Qf, Qu, app_assoc. split; [auto|]. split; [auto|].
    destruct g as [|x]; cbn [app] in *; (split; [auto using @sub_keep|]).
    + intros X Y Z. auto.
    + discriminate.
  - apply Guards_ret.
  - intros a IHa r IHr. apply Guards_bind; auto.
  - (* Blk *) intros ss IHs t IHt. cbn [visit_block guards_block located_block]. intros h h' H. destruct (open_scope (h_st h)) as [s scope].
    change (h_unsupported h) with (h_unsupported (set_st h s)). change (h_fatal h) with (h_fatal (set_st h s)).
    revert H. generalize (set_st h s). clear h. intros h H. revert h h' H.
    apply Guards_bind; [exact IHs|].
    apply (Guards_after (fun h1 => match t with ESome e => bind (visit_expr env e h1) (insert_at_exit env (expr_id e)) | ENone => Val h1 end) _ _ (fun h => fst (end_scope scope h))).
    + apply end_scope_quiet.
    + destruct t as [|e]; [apply Guards_ret|]. cbn. rewrite <- (app_nil_r (guards_expr e)). eapply Guards_weaken; [apply Guards_bind; [exact IHt|apply Guards_exit]|]. tauto.
  - apply Guards_ret.
  - intros s IHs r IHr. apply Guards_bind; auto.
  - (* SLet *) intros id init IHi els IHe. cbn [visit_stmt guards_stmt located_stmt stmt_id].
    apply (Guards_stmt env id (fun scope h0 => bind (match init with ESome e => visit_expr env e (match he_locals env id with [] => h0 | ls => set_locals h0 (aset Nat.eq_dec (h_locals h0) scope ls) end) | ENone => Val (match he_locals env id with [] => h0 | ls => set_locals h0 (aset Nat.eq_dec (h_locals h0) scope ls) end) end) (fun h2 => match els with BSome b => visit_block env b h2 | BNone => Val h2 end))). intros scope.
    apply (Guards_before (fun h1 => bind (match init with ESome e => visit_expr env e h1 | ENone => Val h1 end) (fun h2 => match els with BSome b => visit_block env b h2 | BNone => Val h2 end)) _ _ (fun h0 => match he_locals env id with [] => h0 | ls => set_locals h0 (aset Nat.eq_dec (h_locals h0) scope ls) end)).
    + intros x. destruct (he_locals env id); split; reflexivity.
    + apply Guards_bind.
      * destruct init; [apply Guards_ret|exact IHi].
      * destruct els; [apply Guards_ret|exact IHe].
  - intros id e IHe. cbn [visit_stmt guards_stmt located_stmt stmt_id]. apply (Guards_stmt env id (fun scope h0 => visit_expr env e h0)). intros _. exact IHe.
  - intros id l IHl. cbn [visit_stmt guards_stmt located_stmt stmt_id]. apply (Guards_stmt env id (fun scope h0 => visit_bodies env l h0)). intros _. exact (proj2 IHl).
  - exact I.
  - intros b IH. exact IH.
Qed.

Lemma guarded_body env v : Guards (visit_body env v) (guards_expr v) (located_expr env v).
Proof.
  rewrite <- (app_nil_r (guards_expr v)). eapply Guards_weaken; [apply Guards_bind; [apply guarded|apply Guards_exit]|tauto].
Qed.
