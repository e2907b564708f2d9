(** Proofs for functions without decisions. *)
From Coq Require Import List Arith Bool Lia.
From Verif Require Import Base FactsModel CfgModel CfgSpec CfgProofs SegMirModel SegMirSpec HirModel HirSpec HirProofs.
Import ListNotations.

Definition follows (bd : body) (cur l : loc) : bool := ldominates bd cur l && lpost_dominates bd l cur.

(** The steps that a single open collection takes. *)
Fixpoint chain (bd : body) (cur : loc) (log : list (loc * nat)) : list (loc * loc * nat) * loc :=
  match log with
  | [] => ([], cur)
  | (l, span) :: r =>
    if follows bd cur l then let '(c, q) := chain bd l r in ((cur, l, span) :: c, q) else chain bd cur r
  end.

Lemma chain_app bd log : forall cur log',
  chain bd cur (log ++ log') =
  (fst (chain bd cur log) ++ fst (chain bd (snd (chain bd cur log)) log'), snd (chain bd (snd (chain bd cur log)) log')).
Proof.
  induction log as [|[l span] r IH]; intros cur log'; cbn [app chain fst snd]; [destruct (chain bd cur log'); reflexivity|].
  destruct (follows bd cur l); [|apply IH]. rewrite IH. destruct (chain bd l r) as [c q]. reflexivity.
Qed.

Definition triple (sg : seg) : loc * loc * nat := (s_from sg, s_to sg, s_span sg).

Record Flat (bd : body) (h : hst) : Prop := mkFlat {
  fl_colls : exists d, colls (h_st h) = [Coll d (Unbounded (Loc 0 0))] /\ d = map Linear (seq 0 (length (segs (h_st h))));
  fl_branches : branches (h_st h) = [];
  fl_processing : processing (h_st h) = [Builder 0 (snd (chain bd (Loc 0 0) (h_log h)))];
  fl_segs : map triple (segs (h_st h)) = fst (chain bd (Loc 0 0) (h_log h));
  fl_scope : 0 < next_scope (h_st h);
  fl_fatal : h_fatal h = [];
  fl_unsupported : h_unsupported h = []
}.

Definition Kept (h h' : hst) : Prop := open_scopes (h_st h') = open_scopes (h_st h) /\ h_hints h' = h_hints h.

Section Straight.
  Context (env : henv).
  Local Notation bd := (he_body env).
  Hypothesis fuel : he_fuel env <> 0.

  Lemma Flat_make : Flat bd hmake.
  Proof. constructor; cbn; auto. exists []. auto. Qed.

  Lemma ask_flat l span h : Flat bd h -> exists h', ask env l span h = Val (h', true) /\ Flat bd h' /\ Kept h h'.
  Proof.
    intros [(d & C & Ed) B P Sg N F U]. unfold ask. destruct (he_fuel env) as [|f]; [congruence|]. cbn [insert].
    unfold find_suitable_collection, find_builder, newest_first. rewrite P. cbn [enumerate].
    assert (E : rev (enumerate [Builder 0 (snd (chain bd (Loc 0 0) (h_log h)))]) = [(0, Builder 0 (snd (chain bd (Loc 0 0) (h_log h))))]) by reflexivity.
    rewrite E. cbn [find snd bl_cur]. set (cur := snd (chain bd (Loc 0 0) (h_log h))) in *.
    assert (K : forall s', s' = h_st h -> follows bd cur l = false ->
       Flat bd (logged (set_st h s') l span) /\ Kept h (logged (set_st h s') l span)).
    { intros s' -> Fo. split; [|split; reflexivity]. constructor; cbn [h_st logged set_st h_log h_fatal h_unsupported]; auto; [eauto| |];
        rewrite chain_app; fold cur; cbn [chain]; rewrite Fo; cbn [fst snd]; [auto|rewrite app_nil_r; auto]. }
    unfold follows in K. destruct (ldominates bd cur l) eqn:D.
    - cbn [bl_cur bl_coll]. destruct (lpost_dominates bd l cur) eqn:L.
      + cbn [bind]. unfold insert_linear. rewrite C. cbn [nth_error bl_coll cut c_kind bind fst snd].
        eexists. split; [reflexivity|]. split; [|split; reflexivity].
        constructor; cbn [h_st logged set_st h_log h_fatal h_unsupported colls branches processing segs next_scope]; auto.
        * eexists. split; [cbn; reflexivity|]. rewrite app_length. cbn [length]. rewrite Nat.add_1_r, seq_S, map_app, <- Ed. reflexivity.
        * rewrite P. rewrite chain_app. fold cur. cbn [chain]. unfold follows. rewrite D, L. reflexivity.
        * rewrite map_app, Sg, chain_app. fold cur. cbn [chain]. unfold follows. rewrite D, L. reflexivity.
      + unfold find_containing_branch. rewrite B. cbn [enumerate bl_coll]. cbn. eexists. split; [reflexivity|]. apply K; auto.
    - cbn. eexists. split; [reflexivity|]. apply K; auto.
  Qed.

  Lemma exit_flat id h : Flat bd h -> exists h', insert_at_exit env id h = Val h' /\ Flat bd h' /\ Kept h h'.
  Proof.
    intros H. unfold insert_at_exit. destruct (node_exit env id) as [l|]; [|exists h; repeat split; auto; apply H].
    destruct (ask_flat l (he_span env id) h H) as (h' & -> & F & K). exists h'. auto.
  Qed.

  Lemma Kept_trans a b c : Kept a b -> Kept b c -> Kept a c.
  Proof. intros [H1 H2] [H3 H4]. split; congruence. Qed.
  Lemma Kept_refl a : Kept a a. Proof. split; auto. Qed.

  (** [f] answers, from every flat state. *)
  Definition Runs (f : hst -> res hst) : Prop := forall h, Flat bd h -> exists h', f h = Val h' /\ Flat bd h' /\ Kept h h'.

  Lemma Runs_bind f g : Runs f -> Runs g -> Runs (fun h => bind (f h) g).
  Proof.
    intros F G h H. destruct (F h H) as (a & -> & Ha & Ka). destruct (G a Ha) as (b & E & Hb & Kb). exists b. cbn.
    split; auto. split; auto. eapply Kept_trans; eauto.
  Qed.
  Lemma Runs_ret : Runs (fun h => Val h).
  Proof. intros h H. exists h. split; auto. split; auto. apply Kept_refl. Qed.

  Lemma opened h : Flat bd h -> Flat bd (set_st h (fst (open_scope (h_st h)))).
  Proof. intros [C B P Sg N F U]. constructor; cbn; auto. Qed.

  Lemma closed h h' : Flat bd h -> Flat bd h' -> Kept (set_st h (fst (open_scope (h_st h)))) h' ->
    exists h2, end_scope (snd (open_scope (h_st h))) h' = (h2, true) /\ Flat bd h2 /\ Kept h h2.
  Proof.
    intros H H' [K1 K2]. unfold end_scope, close_scope. cbn [snd open_scope] in *. pose proof (fl_scope _ _ H).
    destruct (next_scope (h_st h) =? 0) eqn:E; [apply Nat.eqb_eq in E; lia|]. cbn [fst set_st h_st open_scopes open_scope] in K1.
    rewrite K1, Nat.eqb_refl. eexists. split; [reflexivity|]. destruct H' as [C B P Sg N F U]. split; [constructor; cbn; auto|]. split; cbn; auto.
  Qed.

  Definition inner (x : stmt) (scope : nat) (h0 : hst) : res hst :=
    match x with
    | SLet id init els =>
      bind (match init with
            | ESome e => visit_expr env e (match he_locals env id with [] => h0 | ls => set_locals h0 (aset Nat.eq_dec (h_locals h0) scope ls) end)
            | ENone => Val (match he_locals env id with [] => h0 | ls => set_locals h0 (aset Nat.eq_dec (h_locals h0) scope ls) end)
            end) (fun h2 => match els with BSome b => visit_block env b h2 | BNone => Val h2 end)
    | SExpr _ e => visit_expr env e h0
    | SItem _ bodies => visit_bodies env bodies h0
    end.

  Lemma Runs_stmt x : (forall scope, Runs (inner x scope)) -> Runs (visit_stmt env x).
  Proof.
    intros I h H. pose proof (opened h H) as Ho.
    assert (E : visit_stmt env x h = bind (inner x (snd (open_scope (h_st h))) (set_st h (fst (open_scope (h_st h))))) (fun h2 =>
      match end_scope (snd (open_scope (h_st h))) h2 with
      | (h3, true) => insert_at_exit env (stmt_id x) h3
      | (h3, false) => Val h3
      end)) by (destruct x; reflexivity).
    rewrite E. destruct (I (snd (open_scope (h_st h))) _ Ho) as (h1 & -> & F1 & K1). cbn [bind].
    destruct (closed h h1 H F1 K1) as (h3 & -> & F3 & K3). destruct (exit_flat (stmt_id x) h3 F3) as (h4 & -> & F4 & K4).
    exists h4. split; auto. split; auto. eapply Kept_trans; eauto.
  Qed.

  Lemma flat_all :
    (forall e, decisions_expr env e = [] -> guards_expr e = [] -> Runs (visit_expr env e)) /\
    (forall o, match o with ESome e => decisions_expr env e = [] -> guards_expr e = [] -> Runs (visit_expr env e) | ENone => True end) /\
    (forall l, decisions_exprs env l = [] -> guards_exprs l = [] -> Runs (visit_exprs env l) /\ Runs (visit_bodies env l)) /\
    (forall a, decisions_arm env a = [] -> guards_arm a = [] -> Runs (visit_arm env a)) /\
    (forall l, decisions_arms env l = [] -> guards_arms l = [] -> Runs (visit_arms env l)) /\
    (forall b, decisions_block env b = [] -> guards_block b = [] -> Runs (visit_block env b)) /\
    (forall l, decisions_stmts env l = [] -> guards_stmts l = [] -> Runs (visit_stmts env l)) /\
    (forall x, decisions_stmt env x = [] -> guards_stmt x = [] -> Runs (visit_stmt env x)) /\
    (forall o, match o with BSome b => decisions_block env b = [] -> guards_block b = [] -> Runs (visit_block env b) | BNone => True end).
  Proof.
    apply hir_mind.
    - intros id cnd H1 thn H2 els H3 D. cbn in D. discriminate.
    - intros id cnd H1 thn H2 els H3 D. cbn in D. discriminate.
    - intros id cnd H1 none H2 some H3 D. cbn in D. discriminate.
    - intros id d cnd H1 ar H2 D G. cbn in D, G. destruct (no_decision env d cnd ar) eqn:Nd; [|discriminate].
      apply app_eq_nil in D as [_ D]. apply app_eq_nil in D as [D1 D2]. apply app_eq_nil in G as [G1 G2].
      intros h H. cbn [visit_expr]. rewrite decision_test, Nd. apply (Runs_bind _ _ (H1 D1 G1) (H2 D2 G2) h H).
    - intros id b H D G. exact (H D G).
    - intros id v H D G. apply (Runs_bind _ _ (H D G)). intros h. apply exit_flat.
    - intros id l H D G. exact (proj1 (H D G)).
    - exact I.
    - intros e H. exact H.
    - intros _ _. split; apply Runs_ret.
    - intros e He l Hl D G. cbn in D, G. apply app_eq_nil in D as [D1 D2]. apply app_eq_nil in G as [G1 G2].
      destruct (Hl D2 G2) as [L1 L2]. split.
      + apply (Runs_bind _ _ (He D1 G1) L1).
      + apply (Runs_bind _ (fun h1 => bind (insert_at_exit env (expr_id e) h1) (visit_bodies env l)) (He D1 G1)).
        apply (Runs_bind (insert_at_exit env (expr_id e))); auto. intros h. apply exit_flat.
    - intros id pat g Hg b Hb D G. cbn in D, G. destruct g as [|g]; [|discriminate]. cbn in D, G. intros h H. cbn [visit_arm has_guard].
      destruct (node_entry env id) as [l|]; [|exists h; split; auto; split; auto; apply Kept_refl].
      assert (Hp : Flat bd (push_hint h l)) by (destruct H; constructor; cbn; auto).
      assert (Pop : forall h1, Flat bd h1 -> Kept (push_hint h l) h1 -> Flat bd (pop_hint h1 l) /\ Kept h (pop_hint h1 l)).
      { intros h1 F1 [K1 K2]. unfold pop_hint. cbn in K1, K2. rewrite K2. destruct (loc_eqd l l) as [_|]; [|congruence].
        split; [destruct F1; constructor; cbn; auto|]. split; cbn; auto. }
      destruct (node_entry env (expr_id b)) as [en|].
      + destruct (ask_flat en (he_lo env id) _ Hp) as (h1 & -> & F1 & K1). cbn [bind fst snd].
        destruct (Hb D G h1 F1) as (h2 & E2 & F2 & K2). exists (pop_hint h2 l).
        split; [change (bind (visit_expr env b h1) (fun h2 => Val (pop_hint h2 l)) = Val (pop_hint h2 l)); rewrite E2; reflexivity|]. apply Pop; auto. eapply Kept_trans; eauto.
      + cbn [bind]. destruct (Hb D G _ Hp) as (h2 & E2 & F2 & K2). exists (pop_hint h2 l).
        split; [change (bind (visit_expr env b (push_hint h l)) (fun h2 => Val (pop_hint h2 l)) = Val (pop_hint h2 l)); rewrite E2; reflexivity|]. apply Pop; auto.
    - intros _ _. apply Runs_ret.
    - intros a Ha l Hl D G. cbn in D, G. apply app_eq_nil in D as [D1 D2]. apply app_eq_nil in G as [G1 G2].
      apply (Runs_bind _ _ (Ha D1 G1) (Hl D2 G2)).
    - intros ss Hs t Ht D G h H. cbn in D, G. apply app_eq_nil in D as [D1 D2]. apply app_eq_nil in G as [G1 G2].
      change (exists h', bind (visit_stmts env ss (set_st h (fst (open_scope (h_st h))))) (fun h1 =>
        bind (match t with ESome e => bind (visit_expr env e h1) (insert_at_exit env (expr_id e)) | ENone => Val h1 end)
          (fun h2 => Val (fst (end_scope (snd (open_scope (h_st h))) h2)))) = Val h' /\ Flat bd h' /\ Kept h h').
      pose proof (opened h H) as Ho. destruct (Hs D1 G1 _ Ho) as (h1 & -> & F1 & K1). cbn [bind].
      assert (T : exists h2, match t with ESome e => bind (visit_expr env e h1) (insert_at_exit env (expr_id e)) | ENone => Val h1 end = Val h2 /\ Flat bd h2 /\ Kept h1 h2).
      { destruct t as [|e]; [exists h1; split; auto; split; auto; apply Kept_refl|]. cbn in D2, G2.
        apply (Runs_bind _ _ (Ht D2 G2)); auto. intros h0. apply exit_flat. }
      destruct T as (h2 & -> & F2 & K2). cbn [bind].
      destruct (closed h h2) as (h3 & E3 & F3 & K3); auto; [eapply Kept_trans; eauto|].
      rewrite E3. exists h3. auto.
    - intros _ _. apply Runs_ret.
    - intros x Hx l Hl D G. cbn in D, G. apply app_eq_nil in D as [D1 D2]. apply app_eq_nil in G as [G1 G2].
      apply (Runs_bind _ _ (Hx D1 G1) (Hl D2 G2)).
    - intros id i Hi el Hel D G. cbn in D, G. apply app_eq_nil in D as [D1 D2]. apply app_eq_nil in G as [G1 G2].
      apply Runs_stmt. intros scope. apply (Runs_bind _ (fun h2 => match el with BSome b => visit_block env b h2 | BNone => Val h2 end)).
      + intros h H. destruct i as [|e]; [|cbn in D1, G1].
        * eexists. split; [reflexivity|]. destruct (he_locals env id); (split; [destruct H; constructor; cbn; auto|split; reflexivity]).
        * destruct (he_locals env id) as [|a r]; [exact (Hi D1 G1 h H)|].
          match goal with |- exists h', visit_expr env e ?k = _ /\ _ => assert (Hk : Flat bd k) by (destruct H; constructor; cbn; auto); destruct (Hi D1 G1 k Hk) as (h1 & E1 & F1 & K1) end.
          exists h1. split; auto.
      + destruct el as [|b]; [apply Runs_ret|exact (Hel D2 G2)].
    - intros id e He D G. apply Runs_stmt. intros scope. exact (He D G).
    - intros id l Hl D G. apply Runs_stmt. intros scope. exact (proj2 (Hl D G)).
    - exact I.
    - intros b H. exact H.
  Qed.

  (** A function without decisions is always answered; its steps are the chain of the
      places asked for. *)
  Lemma straight_done value : decisions_expr env value = [] -> guards_expr value = [] ->
    exists h, compute env value = Val (HDone h) /\ Flat bd h.
  Proof.
    intros D G. unfold compute, visit_body.
    destruct (Runs_bind _ (insert_at_exit env (expr_id value)) (proj1 flat_all value D G) (fun h => exit_flat (expr_id value) h) hmake Flat_make) as (h & E & F & _).
    rewrite E. cbn [bind]. exists h. split; auto. rewrite (fl_unsupported _ _ F), (fl_fatal _ _ F). unfold freeze. rewrite (fl_processing _ _ F). reflexivity.
  Qed.
End Straight.
