(** * Lemmas about the visitor *)
From Coq Require Import List Arith Bool Lia.
From Verif Require Import Base FactsModel CfgModel CfgSpec CfgProofs SegMirModel SegMirSpec SegMirProofs SegMirScopes SegMirClose SegMirInsert HirModel HirSpec.
Import ListNotations.

Scheme expr_mind := Induction for expr Sort Prop
with oexpr_mind := Induction for oexpr Sort Prop
with exprs_mind := Induction for exprs Sort Prop
with arm_mind := Induction for arm Sort Prop
with arms_mind := Induction for arms Sort Prop
with blk_mind := Induction for blk Sort Prop
with stmts_mind := Induction for stmts Sort Prop
with stmt_mind := Induction for stmt Sort Prop
with oblk_mind := Induction for oblk Sort Prop.
Combined Scheme hir_mind from expr_mind, oexpr_mind, exprs_mind, arm_mind, arms_mind, blk_mind, stmts_mind, stmt_mind, oblk_mind.

Lemma bind_Val {A B} (x : res A) (f : A -> res B) b : bind x f = Val b -> exists a, x = Val a /\ f a = Val b.
Proof. destruct x; cbn; try discriminate. eauto. Qed.

(** The visitor's test is the specification's. *)
Lemma decision_test env d cnd ar :
  d && single ar && negb (condition_produced_switchint env (expr_id cnd)) = no_decision env d cnd ar.
Proof.
  unfold no_decision, condition_produced_switchint, is_switchint. destruct d; [|reflexivity].
  destruct ar as [|a [|b r]]; cbn [single andb]; try reflexivity.
  destruct (node_exit env (expr_id cnd)) as [l|]; [|reflexivity].
  destruct (nth_error (he_body env) (l_block l)) as [x|]; [|reflexivity]. destruct (b_term x); reflexivity.
Qed.

Section Walk.
  Context (env : henv).
  Local Notation bd := (he_body env).
  Local Notation ord := (he_ord env).
  Local Notation fw := (he_fw env).

  (** What the visitor does, as well-nested actions. *)
  Inductive Walk : hst -> hst -> Prop :=
  | W_refl h : Walk h h
  | W_trans a b c : Walk a b -> Walk b c -> Walk a c
  | W_ask l span h h' ok : OfNode env l -> ask env l span h = Val (h', ok) -> Walk h h'
  | W_guard h id : Walk h (unsupported h id)
  | W_locals h l : Walk h (set_locals h l)
  | W_scope h h1 : Walk (set_st h (fst (open_scope (h_st h)))) h1 ->
      Walk h (fst (end_scope (snd (open_scope (h_st h))) h1))
  | W_err h l sp s m : OfNode env l -> sp_entries sp = he_entries env m -> (forall x, In x m -> OfNode env (fst x)) -> open_branch bd ord (h_st h) l sp = Val (s, None) -> Walk h (fatal (set_st h s) (ErrBranch l))
  | W_branch h l sp s bid h2 s2 m : OfNode env l -> sp_entries sp = he_entries env m -> (forall x, In x m -> OfNode env (fst x)) ->
      open_branch bd ord (h_st h) l sp = Val (s, Some bid) -> Walk (set_st h s) h2 ->
      close_branch (h_st h2) bid = Val s2 -> Walk h (set_st h2 s2)
  | W_hint h l h1 : Walk (push_hint h l) h1 -> Walk h (pop_hint h1 l)
  | W_leak h l e span h1 : ask env e span (push_hint h l) = Val (h1, false) -> OfNode env e -> Walk h h1.

  Lemma Walk_exit id h h' : insert_at_exit env id h = Val h' -> Walk h h'.
  Proof.
    unfold insert_at_exit. destruct (node_exit env id) as [l|] eqn:E.
    - intros H. apply bind_Val in H. destruct H as ([h1 ok] & A & H). injection H as <-. eapply W_ask; eauto. exists id. auto.
    - intros H. injection H as <-. constructor.
  Qed.

  Lemma add_entry_of id span m x : In x (add_entry env id span m) -> (forall y, In y m -> OfNode env (fst y)) -> OfNode env (fst x).
  Proof.
    unfold add_entry. destruct (node_entry env id) as [l|] eqn:E; [|auto]. intros I H.
    assert (G : x = (l, span) \/ In x m).
    { clear - I. induction m as [|[k v] m IH]; cbn in I; [destruct I as [<-|[]]; auto|]. destruct (loc_eqd l k) as [->|N].
      - destruct I as [<-|I]; auto. right. cbn. auto.
      - destruct I as [<-|I]; [right; cbn; auto|]. destruct (IH I) as [->|J]; auto. right. cbn. auto. }
    destruct G as [->|G]; auto. exists id. auto.
  Qed.

  Lemma arm_entries_of ar : forall m x, In x (arm_entries env ar m) -> (forall y, In y m -> OfNode env (fst y)) -> OfNode env (fst x).
  Proof.
    induction ar as [|a r IH]; intros m x; cbn [arm_entries]; auto. intros I H. eapply IH; eauto. intros y J. eapply add_entry_of; eauto.
  Qed.

  Lemma Walk_branching cnd id entries default vc va h h' :
    (forall h h', vc h = Val h' -> Walk h h') -> (forall h h', va h = Val h' -> Walk h h') ->
    (forall x, In x entries -> OfNode env (fst x)) ->
    branching env cnd id entries default vc va h = Val h' -> Walk h h'.
  Proof.
    intros Vc Va En H. unfold branching in H. apply bind_Val in H. destruct H as ([h1 o] & P & H). unfold prelude in P.
    apply bind_Val in P. destruct P as (h0 & C & P). apply Vc in C. fold (decided env cnd id) in P.
    destruct (decided env cnd id) as [l|] eqn:D.
    - assert (On : OfNode env l).
      { unfold decided in D. destruct (node_exit env cnd) eqn:X; [injection D as ->; exists cnd; auto|exists id; auto]. }
      apply bind_Val in P. destruct P as ([h2 ok] & A & P). cbn [fst snd] in P. injection P as <- <-.
      assert (W2 : Walk h h2) by (eapply W_trans; [exact C|eapply W_ask; eauto]).
      destruct ok; [|injection H as <-; auto]. apply bind_Val in H. destruct H as ([s [bid|]] & O & H).
      + apply bind_Val in H. destruct H as (h3 & A3 & H). apply bind_Val in H. destruct H as (s2 & Cl & H). injection H as <-.
        eapply W_trans; [exact W2|]. eapply W_branch with (m := entries); eauto; reflexivity.
      + injection H as <-. eapply W_trans; [exact W2|]. eapply W_err with (m := entries); eauto; reflexivity.
    - injection P as <- <-. injection H as <-. auto.
  Qed.

  Lemma Walk_hinted id v h h' : (forall h h', v h = Val h' -> Walk h h') -> hinted env id v h = Val h' -> Walk h h'.
  Proof.
    intros V H. unfold hinted in H. destruct (node_entry env id) as [l|].
    - apply bind_Val in H. destruct H as (h1 & A & H). injection H as <-. apply W_hint. auto.
    - injection H as <-. constructor.
  Qed.

  Lemma visits :
    (forall e h h', visit_expr env e h = Val h' -> Walk h h') /\
    (forall o e h h', o = ESome e -> visit_expr env e h = Val h' -> Walk h h') /\
    (forall l h h', (visit_exprs env l h = Val h' -> Walk h h') /\ (visit_bodies env l h = Val h' -> Walk h h')) /\
    (forall a h h', visit_arm env a h = Val h' -> Walk h h') /\
    (forall l h h', visit_arms env l h = Val h' -> Walk h h') /\
    (forall b h h', visit_block env b h = Val h' -> Walk h h') /\
    (forall l h h', visit_stmts env l h = Val h' -> Walk h h') /\
    (forall s h h', visit_stmt env s h = Val h' -> Walk h h') /\
    (forall o b h h', o = BSome b -> visit_block env b h = Val h' -> Walk h h').
  Proof.
    apply hir_mind.
    - (* EIf *) intros id cnd IHc thn IHt els IHe h h' H. cbn [visit_expr] in H. eapply Walk_branching; [exact IHc| | |exact H].
      + intros h1 h2 A. apply bind_Val in A. destruct A as (h3 & A & B). apply Walk_hinted in A; auto. eapply W_trans; [exact A|].
        destruct els as [|x]; [injection B as <-; constructor|]. eapply Walk_hinted; [|exact B]. intros. eapply IHe; eauto.
      + intros x I. destruct els as [|y]; [eapply add_entry_of; eauto; intros z []|]. eapply add_entry_of; eauto. intros z J. eapply add_entry_of; eauto. intros w [].
    - (* EWhile *) intros id cnd IHc thn IHt els IHe h h' H. cbn [visit_expr] in H. eapply Walk_branching; [exact IHc| | |exact H].
      + intros h1 h2 A. apply bind_Val in A. destruct A as (h3 & A & B). apply Walk_hinted in A; auto. eapply W_trans; [exact A|].
        eapply Walk_hinted; [|exact B]. auto.
      + intros x I. eapply add_entry_of; eauto. intros z J. eapply add_entry_of; eauto. intros w [].
    - (* EFor *) intros id cnd IHc none IHn some IHs h h' H. cbn [visit_expr] in H. eapply Walk_branching; [exact IHc| | |exact H].
      + intros h1 h2 A. apply bind_Val in A. destruct A as (h3 & A & B). eapply W_trans; eauto.
      + intros x I. eapply add_entry_of; eauto. intros z J. eapply add_entry_of; eauto. intros w [].
    - (* EMatch *) intros id d cnd IHc ar IHa h h' H. cbn [visit_expr] in H. destruct (d && single ar && _).
      + apply bind_Val in H. destruct H as (h1 & A & B). eapply W_trans; eauto.
      + eapply Walk_branching; [exact IHc|exact IHa| |exact H]. intros x I. eapply arm_entries_of; eauto. intros w [].
    - (* EBlock *) intros id b IH h h' H. auto.
    - (* EClosure *) intros id v IH h h' H. cbn [visit_expr] in H. apply bind_Val in H. destruct H as (h1 & A & B). eapply W_trans; [eauto|]. eapply Walk_exit; eauto.
    - (* EOther *) intros id l IH h h' H. exact (proj1 (IH h h') H).
    - (* ENone *) intros e h h' H. discriminate.
    - (* ESome *) intros e IH e' h h' H. injection H as <-. auto.
    - (* Enil *) intros h h'. split; intros H; injection H as <-; constructor.
    - (* Econs *) intros e IHe r IHr h h'. split; intros H; cbn in H; apply bind_Val in H; destruct H as (h1 & A & B).
      + eapply W_trans; [eauto|]. apply (proj1 (IHr h1 h')). auto.
      + apply bind_Val in B. destruct B as (h2 & B & C). eapply W_trans; [eauto|]. eapply W_trans; [eapply Walk_exit; eauto|]. apply (proj2 (IHr h2 h')). auto.
    - (* Arm *) intros id pat g IHg b IHb h h' H. cbn [visit_arm] in H.
      set (h0 := if has_guard g then unsupported h id else h) in *.
      assert (W0 : Walk h h0) by (unfold h0; destruct (has_guard g); constructor). clearbody h0. eapply W_trans; [exact W0|].
      destruct (node_entry env id) as [l|]; [|injection H as <-; constructor].
      destruct (node_entry env (expr_id b)) as [e|] eqn:E.
      + apply bind_Val in H. destruct H as ([h1 ok] & A & H). cbn [fst snd] in H. assert (On : OfNode env e) by (exists (expr_id b); auto). destruct ok.
        * apply bind_Val in H. destruct H as (h2 & B & H). injection H as <-. apply W_hint. eapply W_trans; [eapply W_ask; eauto|auto].
        * injection H as <-. eapply W_leak; eauto.
      + apply bind_Val in H. destruct H as (h2 & A & H). apply bind_Val in H. destruct H as (h3 & B & H). injection H as <-. apply W_hint.
        eapply W_trans; [|eauto]. destruct g as [|x]; [injection A as <-; constructor|]. eapply IHg; eauto.
    - (* Anil *) intros h h' H. injection H as <-. constructor.
    - (* Acons *) intros a IHa r IHr h h' H. cbn in H. apply bind_Val in H. destruct H as (h1 & A & B). eapply W_trans; eauto.
    - (* Blk *) intros ss IHs t IHt h h' H. cbn [visit_block] in H. destruct (open_scope (h_st h)) as [s scope] eqn:O.
      apply bind_Val in H. destruct H as (h1 & A & H). apply bind_Val in H. destruct H as (h2 & B & H). injection H as <-.
      pose proof (W_scope h h2) as W. rewrite O in W. cbn [fst snd] in W. apply W. eapply W_trans; [eauto|].
      destruct t as [|e]; [injection B as <-; constructor|]. apply bind_Val in B. destruct B as (h3 & B & C).
      eapply W_trans; [eapply IHt; eauto|]. eapply Walk_exit; eauto.
    - intros h h' H. injection H as <-. constructor.
    - intros s IHs r IHr h h' H. cbn in H. apply bind_Val in H. destruct H as (h1 & A & B). eapply W_trans; eauto.
    - (* SLet *) intros id init IHi els IHe h h' H. cbn [visit_stmt] in H. destruct (open_scope (h_st h)) as [s scope] eqn:O.
      apply bind_Val in H. destruct H as (h2 & A & H). set (h1 := match he_locals env id with [] => _ | _ => _ end) in *.
      assert (W1 : Walk (set_st h s) h1) by (unfold h1; destruct (he_locals env id); constructor). clearbody h1.
      apply bind_Val in A. destruct A as (h3 & A & B).
      assert (W2 : Walk (set_st h s) h2).
      { eapply W_trans; [exact W1|]. eapply W_trans with h3.
        - destruct init as [|e]; [injection A as <-; constructor|]. eapply IHi; eauto.
        - destruct els as [|b]; [injection B as <-; constructor|]. eapply IHe; eauto. }
      pose proof (W_scope h h2) as W. rewrite O in W. cbn [fst snd] in W. specialize (W W2). destruct (end_scope scope h2) as [h4 [|]]; cbn [fst] in W.
      + eapply W_trans; [exact W|]. eapply Walk_exit; eauto.
      + injection H as <-. auto.
    - (* SExpr *) intros id e IHe h h' H. cbn [visit_stmt] in H. destruct (open_scope (h_st h)) as [s scope] eqn:O.
      apply bind_Val in H. destruct H as (h2 & A & H). apply IHe in A.
      pose proof (W_scope h h2) as W. rewrite O in W. cbn [fst snd] in W. specialize (W A). destruct (end_scope scope h2) as [h4 [|]]; cbn [fst] in W.
      + eapply W_trans; [exact W|]. eapply Walk_exit; eauto.
      + injection H as <-. auto.
    - (* SItem *) intros id l IHl h h' H. cbn [visit_stmt] in H. destruct (open_scope (h_st h)) as [s scope] eqn:O.
      apply bind_Val in H. destruct H as (h2 & A & H). apply (proj2 (IHl _ _)) in A.
      pose proof (W_scope h h2) as W. rewrite O in W. cbn [fst snd] in W. specialize (W A). destruct (end_scope scope h2) as [h4 [|]]; cbn [fst] in W.
      + eapply W_trans; [exact W|]. eapply Walk_exit; eauto.
      + injection H as <-. auto.
    - intros b h h' H. discriminate.
    - intros b IH b' h h' H. injection H as <-. auto.
  Qed.

  Lemma Walk_body v h h' : visit_body env v h = Val h' -> Walk h h'.
  Proof.
    unfold visit_body. intros H. apply bind_Val in H. destruct H as (h1 & A & B). apply visits in A. eapply W_trans; [exact A|]. eapply Walk_exit; eauto.
  Qed.
End Walk.

(** ** Histories *)

Lemma Nested_app fw bd ord fuel a os1 b os2 c :
  Nested fw bd ord fuel a os1 b -> Nested fw bd ord fuel b os2 c -> Nested fw bd ord fuel a (os1 ++ os2) c.
Proof.
  intros H G. induction H as [s|s o s1 os s2 N1 N2 E H IH|s os1 s1 s2 os3 s3 H1 IH1 E H2 IH2]; auto.
  - cbn. apply nested_other with s1; auto.
  - cbn. rewrite <- app_assoc. cbn. apply nested_scope with s1 s2; auto.
Qed.

Lemma Nested_one fw bd ord fuel s o s1 : o <> OpOpenScope -> (forall i, o <> OpCloseScope i) ->
  step fw bd ord fuel s o = Val s1 -> Nested fw bd ord fuel s [o] s1.
Proof. intros. econstructor; eauto. constructor. Qed.

Lemma run_app fw bd ord fuel os1 : forall s os2 s1 s2, run fw bd ord fuel s os1 = Val s1 -> run fw bd ord fuel s1 os2 = Val s2 -> run fw bd ord fuel s (os1 ++ os2) = Val s2.
Proof.
  induction os1 as [|o r IH]; intros s os2 s1 s2 H G; cbn in *; [congruence|].
  apply bind_Val in H. destruct H as (s3 & E & H). rewrite E. cbn. eauto.
Qed.

Lemma Nested_run fw bd ord fuel a os b : Nested fw bd ord fuel a os b -> run fw bd ord fuel a os = Val b.
Proof.
  induction 1 as [s|s o s1 os s2 N1 N2 E H IH|s os1 s1 s2 os3 s3 H1 IH1 E H2 IH2]; auto.
  - cbn. rewrite E. auto.
  - cbn [run app]. change (step fw bd ord fuel s OpOpenScope) with (Val (fst (open_scope s))). cbn [bind].
    eapply run_app; [exact IH1|]. cbn [run]. rewrite E. auto.
Qed.

Section History.
  Context (env : henv) (P : loc -> Prop).
  Hypothesis PN : forall l, OfNode env l -> P l.
  Hypothesis PE : forall m e, (forall x, In x m -> OfNode env (fst x)) -> In e (he_entries env m) -> P (fst e).
  Local Notation bd := (he_body env).
  Local Notation ord := (he_ord env).
  Local Notation fw := (he_fw env).
  Local Notation Hist := (Nested fw bd ord (he_fuel env)).

  Lemma end_scope_st idx h : h_st (fst (end_scope idx h)) = match close_scope (h_st h) idx with Some s => s | None => h_st h end.
  Proof. unfold end_scope. destruct (close_scope (h_st h) idx); reflexivity. Qed.

  Lemma ask_st l span h h' ok : ask env l span h = Val (h', ok) ->
    insert fw bd ord (he_fuel env) (h_st h) l span = Val (h_st h', ok).
  Proof.
    unfold ask. intros H. apply bind_Val in H. destruct H as ([s ok'] & A & H). cbn [fst snd] in H. injection H as <- <-. rewrite A. destruct ok'; reflexivity.
  Qed.

  Lemma pop_hint_st h l : h_st (pop_hint h l) = h_st h.
  Proof. unfold pop_hint. destruct (h_hints h) as [|x r]; auto. destruct (loc_eqd x l); reflexivity. Qed.

  Lemma Walk_Nested h h' : Walk env h h' -> exists os, Hist (h_st h) os (h_st h') /\ Forall (op_ok P) os.
  Proof.
    assert (Ask : forall l span h h' ok, OfNode env l -> ask env l span h = Val (h', ok) -> exists os, Hist (h_st h) os (h_st h') /\ Forall (op_ok P) os).
    { intros l span a b ok On A. apply ask_st in A. exists [OpInsert l span]. split.
      - apply Nested_one; try discriminate. cbn. rewrite A. reflexivity.
      - repeat constructor. apply PN. auto. }
    induction 1 as [h|a b c H1 IH1 H2 IH2|l span h h' ok On A|h id|h l|h h1 H IH|h l sp s m On Es Em O|h l sp s bid h2 s2 m On Es Em O H IH C|h l h1 H IH|h l e span h1 A On].
    - exists []. split; constructor.
    - destruct IH1 as (o1 & A1 & F1), IH2 as (o2 & A2 & F2). exists (o1 ++ o2). split; [eapply Nested_app; eauto|apply Forall_app; auto].
    - eauto.
    - exists []. split; constructor.
    - exists []. split; constructor.
    - destruct IH as (os & A & F). cbn [h_st set_st] in A. exists (OpOpenScope :: os ++ [OpCloseScope (snd (open_scope (h_st h)))]). split.
      + econstructor; [exact A| |constructor]. cbn [step]. rewrite end_scope_st. reflexivity.
      + constructor; [exact I|]. apply Forall_app. split; auto. repeat constructor.
    - cbn [h_st fatal set_st]. exists [OpOpenBranch l sp]. split.
      + apply Nested_one; try discriminate. cbn [step]. rewrite O. reflexivity.
      + repeat constructor; [auto|]. intros e I. rewrite Es in I. eapply PE; eauto.
    - destruct IH as (os & A & F). cbn [h_st set_st] in *. exists (OpOpenBranch l sp :: os ++ [OpCloseBranch bid]). split.
      + econstructor; try discriminate; [cbn [step]; rewrite O; reflexivity|]. eapply Nested_app; [exact A|]. apply Nested_one; try discriminate. auto.
      + constructor; [split; [auto|intros e I; rewrite Es in I; eapply PE; eauto]|]. apply Forall_app. split; auto. repeat constructor.
    - rewrite pop_hint_st. exact IH.
    - apply (Ask _ _ _ _ _ On A).
  Qed.

  Lemma Walk_Steps h h' : Walk env h h' -> Steps P fw bd ord (h_st h) (h_st h').
  Proof.
    intros W. destruct (Walk_Nested _ _ W) as (os & N & F). apply Nested_run in N. eapply run_Steps; eauto.
  Qed.
End History.

Lemma anything env h h' : Walk env h h' -> Steps (fun _ => True) (he_fw env) (he_body env) (he_ord env) (h_st h) (h_st h').
Proof. apply Walk_Steps; auto. Qed.

(** ** Errors, hints and scopes *)

Definition only_branch_errors (es : list herror) : Prop := forall e, In e es -> exists l, e = ErrBranch l.

Lemma Walk_sound env h h' : WfBody (he_body env) -> Walk env h h' -> SI (h_st h) ->
  open_scopes (h_st h') = open_scopes (h_st h) /\ h_hints h' = h_hints h /\
  exists es, h_fatal h' = h_fatal h ++ es /\ only_branch_errors es.
Proof.
  intros Wf W Si. split.
  { destruct (Walk_Nested env (fun _ => True)) with (h := h) (h' := h') as (os & N & _); auto. eapply nested_restores; eauto. }
  assert (Nil : forall f, exists es, f = f ++ es /\ only_branch_errors es) by (intros f; exists []; split; [symmetry; apply app_nil_r|intros e []]).
  assert (Ask : forall l span h h' ok, ask env l span h = Val (h', ok) -> ok = true /\ h_hints h' = h_hints h /\ h_fatal h' = h_fatal h).
  { intros l span a b ok A. pose proof (ask_st _ _ _ _ _ _ A) as B. apply insert_never_err in B; auto. cbn in B. subst ok.
    unfold ask in A. apply bind_Val in A. destruct A as ([s ok] & A & H). cbn [fst snd] in H. injection H as <- ->. auto. }
  assert (SIw : forall a b, Walk env a b -> SI (h_st a) -> SI (h_st b)) by (intros a b X; apply SI_Steps with (P := fun _ => True) (fw := he_fw env) (bd := he_body env) (ord := he_ord env), anything; auto).
  induction W as [h|a b c H1 IH1 H2 IH2|l span h h' ok On A|h id|h l|h h1 H IH|h l sp s m On Es Em O|h l sp s bid h2 s2 m On Es Em O H IH C|h l h1 H IH|h l e span h1 A On].
  - auto.
  - destruct (IH1 Si) as (A1 & e1 & A2 & A3), (IH2 (SIw _ _ H1 Si)) as (B1 & e2 & B2 & B3). split; [congruence|].
    exists (e1 ++ e2). split; [rewrite B2, A2, app_assoc; auto|]. intros e I. apply in_app_iff in I. destruct I; auto.
  - destruct (Ask _ _ _ _ _ A) as (_ & -> & ->). auto.
  - auto.
  - auto.
  - pose proof (open_scope_SI _ Si) as Si1. destruct (IH Si1) as (A1 & e1 & A2 & A3). cbn [h_hints h_fatal set_st] in *.
    destruct (Walk_Nested env (fun _ => True)) with (h := set_st h (fst (open_scope (h_st h)))) (h' := h1) as (os & N & _); auto.
    apply nested_restores in N; auto. unfold end_scope, close_scope. cbn [open_scope snd] in *. rewrite N. cbn [h_st set_st fst open_scopes].
    assert (Z : next_scope (h_st h) =? 0 = false).
    { apply Nat.eqb_neq. pose proof (base_open _ Si) as Z. apply (Desc_lt _ _ _ (si_desc _ Si)) in Z. lia. }
    rewrite Z. unfold open_scope. cbn [h_st set_st fst open_scopes]. rewrite Nat.eqb_refl. cbn. eauto.
  - cbn. split; [auto|]. exists [ErrBranch l]. split; [auto|]. intros e [<-|[]]. eauto.
  - apply IH. cbn [h_st set_st]. apply mk_branch_Some in O. destruct O as (sw & i & b & sp' & _ & _ & _ & _ & _ & ->). eapply SI_same; [..|exact Si]; reflexivity.
  - destruct (IH Si) as (A1 & e1 & A2 & A3). unfold pop_hint. rewrite A1. cbn [h_hints push_hint set_hints]. destruct (loc_eqd l l); [|congruence]. cbn. eauto.
  - apply Ask in A. destruct A as (A & _). discriminate.
Qed.

(** ** What is left open *)

Definition Grow (s s' : st) : Prop :=
  (forall b t, OwnedBy s b t -> OwnedBy s' b t) /\
  (forall i br, nth_error (branches s) i = Some br -> nth_error (branches s') i = Some br).

Lemma Grow_refl s : Grow s s.
Proof. split; auto. Qed.
Lemma Grow_trans a b c : Grow a b -> Grow b c -> Grow a c.
Proof. intros [A1 A2] [B1 B2]. split; auto. Qed.

Lemma ArmOf_grow s s' t c : Grow s s' -> ArmOf s t c -> ArmOf s' t c.
Proof. intros [G1 G2] (b & br & O & E & I). exists b, br. auto. Qed.
Lemma HasChild_grow s s' t : Grow s s' -> HasChild s t -> HasChild s' t.
Proof. intros [G1 G2] (b & O & N). exists b. auto. Qed.

(** The same owners, the same branches. *)
Lemma Grow_same s s' : Shape s ->
  (forall b p, ParentBranch s b p -> ParentBranch s' b p) ->
  branches s' = branches s -> spanners s' = spanners s -> Grow s s'.
Proof.
  intros Sh EP E2 E4. split.
  - intros b t. apply OwnedBy_mono; auto.
    + rewrite E2. auto.
    + intros k _. unfold UserBranch. rewrite E4. tauto.
    + apply (sh_user s Sh).
  - rewrite E2. auto.
Qed.

Lemma Grow_branched bd s l sw phi i b sp sps : Shape s ->
  (forall k, k < length (branches s) -> (UserBranch s k <-> In k (map fst sps))) ->
  Grow s (branched bd s l sw phi i b sp sps).
Proof.
  intros Sh HU. split.
  - intros x t. apply branched_owned; auto.
  - intros k br E. cbn. rewrite nth_error_app1; auto. apply nth_error_Some. congruence.
Qed.

Lemma upd_colls (l : list builder) i f : (forall b, bl_coll (f b) = bl_coll b) ->
  (forall b', In b' (upd l i f) -> exists b, In b l /\ bl_coll b' = bl_coll b) /\
  (forall b, In b l -> exists b', In b' (upd l i f) /\ bl_coll b' = bl_coll b).
Proof.
  intros F. split.
  - intros b' I. apply In_nth_error in I. destruct I as [n E]. rewrite upd_nth in E.
    destruct (nth_error l n) as [b|] eqn:N; [|discriminate]. cbn in E. injection E as <-. exists b. split; [eapply nth_error_In; eauto|].
    destruct (n =? i); auto.
  - intros b I. apply In_nth_error in I. destruct I as [n E]. eexists. split.
    + apply nth_error_In with n. rewrite upd_nth, E. reflexivity.
    + cbn. destruct (n =? i); auto.
Qed.

(** The collections that are open afterwards: those that were, and the arms of the new
    branch. *)
Definition Opens (s s' : st) (arms : nat -> Prop) : Prop :=
  (forall b', In b' (processing s') -> (exists b, In b (processing s) /\ bl_coll b' = bl_coll b) \/ arms (bl_coll b')) /\
  (forall b, In b (processing s) -> exists b', In b' (processing s') /\ bl_coll b' = bl_coll b).

Definition InBranch (s : st) (n c : nat) : Prop := exists br, nth_error (branches s) n = Some br /\ In c (br_nested br).

Lemma Opens_branched bd s l sw phi i b sp sps :
  Opens s (branched bd s l sw phi i b sp sps) (InBranch (branched bd s l sw phi i b sp sps) (length (branches s))).
Proof.
  unfold Opens. cbn [processing branched].
  destruct (upd_colls (processing s) i (fun b0 => Builder (bl_coll b0) match phi with Some p => p | None => bl_cur b0 end)) as [U1 U2]; [auto|].
  split.
  - intros b' I. apply in_app_iff in I. destruct I as [I|I]; [left; auto|right]. apply in_map_iff in I. destruct I as ([c a] & <- & I).
    cbn [bl_coll fst]. apply in_combine_l in I. eexists. split.
    + cbn [branches branched]. rewrite nth_error_app2, Nat.sub_diag by lia. reflexivity.
    + cbn. exact I.
  - intros x I. destruct (U2 x I) as (b' & J & E). exists b'. split; [|auto]. apply in_app_iff. auto.
Qed.

Lemma open_ext bd ord s l sp s' bid : Shape s -> open_branch bd ord s l sp = Val (s', Some bid) ->
  bid = length (branches s) /\ Grow s s' /\ UserBranch s' bid /\ Opens s s' (InBranch s' bid).
Proof.
  intros Sh M. unfold open_branch in M. apply mk_branch_Some in M. destruct M as (sw & i & b & sp' & Hsw & F & El & Hl & -> & ->).
  split; [auto|]. split; [|split; [|apply Opens_branched]].
  - apply Grow_branched; auto. intros k L. rewrite aset_keys. unfold UserBranch. split; auto. intros [->|]; auto. lia.
  - unfold UserBranch. cbn [spanners branched]. rewrite aset_keys. auto.
Qed.

Lemma child_ext fw bd ord s location parent l s' : WfBody bd -> Shape s ->
  find_suitable_collection bd s location = FrNonLinear parent l ->
  open_child_branch fw bd ord s parent l = Val (s', true) ->
  let n := length (branches s) in
  length (branches s') = S n /\ Grow s s' /\ UserBranch s parent /\ OwnedBy s' n parent /\ n <> parent /\
  (exists b, In b (processing s) /\ ArmOf s parent (bl_coll b)) /\ Opens s s' (InBranch s' n).
Proof.
  intros Wf Sh F O n. destruct (child_facts _ _ _ _ _ _ _ _ Wf F O)
    as (sw & i & b & sp & pb & cb & Hsw & Eb & El & Hsp & Epb & Inb & H). cbn zeta in H. destruct H as (_ & Ecb & ->).
  assert (Lp : parent < length (branches s)) by (apply nth_error_Some; congruence).
  assert (Up : UserBranch s parent).
  { apply aget_Some_In in Hsp. unfold UserBranch. apply in_map_iff. exists (parent, sp). auto. }
  assert (G : Grow s (branched bd s l sw (join_of bd ord sw) i b sp (spanners s))).
  { apply Grow_branched; auto. intros k _. unfold UserBranch. tauto. }
  split; [cbn; rewrite app_length; cbn; unfold n; lia|]. split; [|split; [exact Up|split; [|split; [unfold n; lia|split]]]].
  - destruct G as [G1 G2]. split; [|exact G2]. intros x t X. apply OwnedBy_with_table. auto.
  - apply OwnedBy_with_table. apply owned_child with parent.
    + cbn. rewrite app_length. cbn. unfold n. lia.
    + intros U. apply (sh_user s Sh) in U. unfold n in U. lia.
    + exists (bl_coll b).
      assert (Lc : bl_coll b < length (colls s)) by (apply (sh_proc_lt s Sh); eapply nth_error_In; eauto).
      apply nth_error_Some in Lc. destruct (nth_error (colls s) (bl_coll b)) as [c|] eqn:Ec; [|congruence].
      eexists. exists pb. cbn [colls branches with_table branched]. split.
      { rewrite nth_error_app1 by (rewrite upd_length; apply nth_error_Some; congruence).
        rewrite upd_nth, Ec. cbn. rewrite Nat.eqb_refl. reflexivity. }
      split; [rewrite branch_ids_snoc; apply in_app_iff; right; left; auto|].
      split; auto. rewrite nth_error_app1; auto.
    + constructor. exact Up.
  - exists b. split; [eapply nth_error_In; eauto|]. exists parent, pb. split; [constructor; auto|auto].
  - apply (Opens_branched bd s l sw (join_of bd ord sw) i b sp (spanners s)).
Qed.

Lemma linear_ext bd s i b l span s' : Shape s -> insert_linear bd s i b l span = Val s' ->
  length (branches s') = length (branches s) /\ Grow s s' /\ Opens s s' (fun _ => False).
Proof.
  intros Sh I. apply insert_linear_Val in I. destruct I as (c & Ec & ->). cbn zeta. split; [auto|]. split.
  - apply Grow_same; auto. intros x p (cid & c0 & pb & H1 & H2 & H3 & H4).
    exists cid. cbn [colls branches]. rewrite upd_nth, H1. cbn. eexists. exists pb.
    split; [reflexivity|]. split; auto. destruct (cid =? bl_coll b); auto. rewrite branch_ids_snoc, app_nil_r. auto.
  - unfold Opens. cbn [processing]. destruct (upd_colls (processing s) i (fun b0 => Builder (bl_coll b0) (cut bd (c_kind c) l))) as [U1 U2]; [auto|].
    split; auto.
Qed.

Lemma close_ext s bid s' : Shape s -> close_branch s bid = Val s' -> length (branches s') = length (branches s) /\ Grow s s' /\ Grow s' s.
Proof.
  intros Sh C. unfold close_branch in C. destruct (nth_error (branches s) bid) as [b|]; [|discriminate].
  injection C as <-. split; [auto|]. split.
  - apply Grow_same; auto.
  - split; auto. intros x t. apply OwnedBy_mono; cbn; auto; try tauto. apply (sh_user s Sh).
Qed.

Lemma scope_ext s s' : colls s' = colls s -> branches s' = branches s -> spanners s' = spanners s -> Grow s s'.
Proof.
  intros E1 E2 E3. split; [|rewrite E2; auto].
  assert (U : forall k, UserBranch s k <-> UserBranch s' k) by (intros k; unfold UserBranch; rewrite E3; tauto).
  assert (Pb : forall b p, ParentBranch s b p -> ParentBranch s' b p) by (intros b p; unfold ParentBranch; rewrite E1, E2; auto).
  induction 1 as [t X|b p t L N X O IH]; [constructor; apply U; auto|]. econstructor; eauto; [rewrite E2; auto|]. intros Y. apply N, U, Y.
Qed.

Section Left.
  Context (fw : bool) (bd : body) (ord : list nat -> list nat) (Wf : WfBody bd).
  Local Notation Reached := (Steps (fun _ => True) fw bd ord make).

  Lemma owner s b : Reached s -> b < length (branches s) -> exists t, OwnedBy s b t.
  Proof. intros R L. destruct (Grouped_Steps _ _ _ _ _ Wf R) as [own (G1 & _)]. exists (own b). apply G1. auto. Qed.

  (** Who owned nothing else keeps its owner. *)
  Lemma owned_back s s' b t : Reached s -> Reached s' -> Grow s s' -> b < length (branches s) -> OwnedBy s' b t -> OwnedBy s b t.
  Proof.
    intros R R' [G _] L O. destruct (owner s b R L) as [u X]. assert (u = t); [|subst; auto].
    eapply OwnedBy_unique; [eapply Shape_Steps; exact R'| |exact O]. auto.
  Qed.

  Lemma ArmOf_unique s t u c : Reached s -> ArmOf s t c -> ArmOf s u c -> t = u.
  Proof.
    intros R (b & br & O & E & I) (b' & br' & O' & E' & I'). pose proof (Shape_Steps _ _ _ _ _ R) as Sh.
    assert (N2 : NoDup (flat_map br_nested (branches s))).
    { pose proof (seq_NoDup (length (colls s)) 0) as N. rewrite <- (sh_nested s Sh) in N. inversion N; auto. }
    assert (b = b') by (eapply (flat_map_unique br_nested (branches s) N2); eauto). subst b'.
    eapply OwnedBy_unique; eauto.
  Qed.

  Lemma ArmOf_nonzero s t c : Reached s -> ArmOf s t c -> c <> 0.
  Proof.
    intros R (b & br & O & E & I). pose proof (Shape_Steps _ _ _ _ _ R) as Sh. apply nth_error_In in E.
    pose proof (nested_nonzero s br c Sh E I). lia.
  Qed.

  Lemma HasChild_dec s t : fw = false -> Reached s -> UserBranch s t -> HasChild s t \/ ~ HasChild s t.
  Proof.
    intros E R U. pose proof (Shape_Steps _ _ _ _ _ R) as Sh. destruct (Grouped_Steps _ _ _ _ _ Wf R) as [own G].
    assert (Lt : t < length (branches s)) by (apply (sh_user s Sh); auto).
    pose proof (Grouped_user _ _ _ _ G Lt U) as Ot. destruct G as (G1 & G2 & G3 & G4). specialize (G4 t Lt Ot). rewrite E in G4.
    destruct G4 as [(A & _)|((b & L & O & N) & _)].
    - right. intros (b & O & N). assert (Lb : b < length (branches s)) by (eapply OwnedBy_lt; eauto). apply N, A; auto.
      destruct (G1 b Lb) as (_ & _ & O'). eapply OwnedBy_unique; eauto.
    - left. exists b. split; auto. rewrite <- O. apply G1. auto.
  Qed.

  (** Every open collection is the outermost one, belongs to one of the branches [Q] being
      visited, or to a branch that was given an implicit child. *)
  Definition Live (Q : nat -> Prop) (s : st) : Prop :=
    forall b, In b (processing s) -> bl_coll b = 0 \/
      exists t, (Q t \/ (fw = false /\ HasChild s t)) /\ ArmOf s t (bl_coll b).

  (** A branch that was given an implicit child has an open collection. *)
  Definition Kept (s : st) : Prop :=
    forall t, HasChild s t -> exists b, In b (processing s) /\ ArmOf s t (bl_coll b).

  Lemma Live_opens Q s s' arms : Grow s s' -> Opens s s' arms ->
    (forall c, arms c -> exists t, (Q t \/ (fw = false /\ HasChild s' t)) /\ ArmOf s' t c) ->
    Live Q s -> Live Q s'.
  Proof.
    intros G [O _] A L b' I. destruct (O b' I) as [(b & J & E)|N]; [|right; auto].
    rewrite E. destruct (L b J) as [Z|(t & [X|[X Y]] & Z)]; [left; auto| |].
    - right. exists t. split; [auto|]. eapply ArmOf_grow; eauto.
    - right. exists t. split; [right; split; [auto|]; eapply HasChild_grow; eauto|]. eapply ArmOf_grow; eauto.
  Qed.

  Lemma Kept_opens s s' arms : Grow s s' -> Opens s s' arms ->
    (forall t, HasChild s' t -> HasChild s t \/ exists b, In b (processing s) /\ ArmOf s t (bl_coll b)) ->
    Kept s -> Kept s'.
  Proof.
    intros G [_ O] A K t H. assert (X : exists b, In b (processing s) /\ ArmOf s t (bl_coll b)) by (destruct (A t H); auto).
    destruct X as (b & I & X). destruct (O b I) as (b' & I' & E). exists b'. split; [auto|]. rewrite E. eapply ArmOf_grow; eauto.
  Qed.

  Lemma insert_left fuel l span Q : forall s r, Reached s -> insert fw bd ord fuel s l span = Val r ->
    (Live Q s -> Live Q (fst r)) /\ (Kept s -> Kept (fst r)) /\ Grow s (fst r).
  Proof.
    induction fuel as [|f IH]; intros s r R; cbn [insert]; [discriminate|]. pose proof (Shape_Steps _ _ _ _ _ R) as Sh.
    destruct (find_suitable_collection bd s l) as [|parent bl|i b] eqn:F.
    - intros [= <-]. split; [auto|split; [auto|apply Grow_refl]].
    - destruct (open_child_branch fw bd ord s parent bl) as [[s1 [|]]| |] eqn:O; cbn [bind]; try discriminate.
      + intros H. destruct (child_ext _ _ _ _ _ _ _ _ Wf Sh F O) as (Ln & G & Up & Own & Np & (b & Ib & Ab) & Op).
        assert (R1 : Reached s1) by (econstructor; [exact R|eapply prim_child; eauto]).
        destruct (IH s1 r R1 H) as (IL & IK & IG). split; [|split; [|eapply Grow_trans; eauto]].
        * intros L. apply IL. eapply Live_opens; eauto. intros c (br & E & J). exists parent. split.
          -- destruct (L b Ib) as [Z|(t & X & A)]; [exfalso; exact (ArmOf_nonzero _ _ _ R Ab Z)|].
             rewrite (ArmOf_unique s parent t _ R Ab A). destruct X as [X|[X Y]]; [auto|]. right. split; [auto|]. eapply HasChild_grow; eauto.
          -- exists (length (branches s)), br. auto.
        * intros K. apply IK. eapply Kept_opens; eauto. intros t (x & Ox & Nx).
          destruct (Nat.eq_dec x (length (branches s))) as [->|Ne].
          -- right. exists b. split; [auto|]. rewrite (OwnedBy_unique s1 _ t parent (Shape_Steps _ _ _ _ _ R1) Ox Own). auto.
          -- left. exists x. split; [|auto]. eapply owned_back; eauto. apply OwnedBy_lt in Ox; [lia|]. eapply Shape_Steps; eauto.
      + intros [= <-]. cbn. apply child_never_err with (location := l) in O; auto. discriminate.
    - destruct (insert_linear bd s i b l span) as [s1| |] eqn:E; cbn; try discriminate. intros [= <-]. cbn.
      destruct (linear_ext _ _ _ _ _ _ _ Sh E) as (Ln & G & Op).
      assert (R1 : Reached s1) by (econstructor; [exact R|eapply prim_linear; eauto]).
      split; [|split; [|auto]].
      + eapply Live_opens; eauto. intros c [].
      + eapply Kept_opens; eauto. intros t (x & Ox & Nx). left. exists x. split; [|auto]. eapply owned_back; eauto.
        apply OwnedBy_lt in Ox; [lia|]. eapply Shape_Steps; eauto.
  Qed.

  Lemma open_left s l sp s' bid Q : Reached s -> Reached s' -> open_branch bd ord s l sp = Val (s', Some bid) ->
    (Live Q s -> Live (fun t => Q t \/ t = bid) s') /\ (Kept s -> Kept s') /\ Grow s s' /\ UserBranch s' bid.
  Proof.
    intros R R' O. pose proof (Shape_Steps _ _ _ _ _ R) as Sh. pose proof (Shape_Steps _ _ _ _ _ R') as Sh'.
    destruct (open_ext _ _ _ _ _ _ _ Sh O) as (Eb & G & Us & Op).
    split; [|split; [|auto]].
    - intros L. eapply Live_opens; [exact G|exact Op| |].
      + intros c (br & E & J). exists bid. split; [auto|]. exists bid, br. split; [constructor; auto|auto].
      + intros b I. destruct (L b I) as [Z|(t & [X|X] & A)]; eauto 6.
    - intros K. eapply Kept_opens; eauto. intros t (x & Ox & Nx). left. exists x. split; [|auto].
      assert (Lx : x < length (branches s) \/ x = bid).
      { pose proof (OwnedBy_lt _ _ _ Sh' Ox) as Lx. unfold open_branch in O. apply mk_branch_Some in O.
        destruct O as (sw & i & b & sp' & _ & _ & _ & _ & _ & ->). cbn in Lx. rewrite app_length in Lx. cbn in Lx. lia. }
      destruct Lx as [Lx| ->]; [eapply owned_back; eauto|]. exfalso. apply Nx. symmetry. eapply OwnedBy_user; eauto.
  Qed.

  Lemma close_left s bid s' Q : Reached s -> Reached s' -> UserBranch s bid -> close_branch s bid = Val s' ->
    (Live (fun t => Q t \/ t = bid) s -> Live Q s') /\ (fw = false -> Kept s -> Kept s') /\ Grow s s'.
  Proof.
    intros R R' U C. pose proof (Shape_Steps _ _ _ _ _ R) as Sh. destruct (close_ext _ _ _ Sh C) as (Ln & G & G').
    destruct (close_iff _ _ _ _ _ _ Wf R U) as (s2 & C2 & Sub & Keep & Gone & Same). assert (s2 = s') by congruence. subst s2.
    split; [|split; [|auto]].
    - intros L b I. destruct (L b (Sub b I)) as [Z|(t & X & A)]; [left; auto|right]. exists t. split; [|eapply ArmOf_grow; eauto].
      destruct X as [[X| ->]|[X Y]]; [auto| |right; split; [auto|eapply HasChild_grow; eauto]].
      destruct fw eqn:Fw; [exfalso; exact (Gone (or_introl eq_refl) b I A)|]. right. split; [auto|].
      pose proof (HasChild_dec s bid) as D. rewrite Fw in D. destruct (D eq_refl R U) as [H|H]; [eapply HasChild_grow; eauto|].
      exfalso. exact (Gone (or_intror H) b I A).
    - intros Fw K t H. assert (H' : HasChild s t) by (eapply HasChild_grow; eauto).
      destruct (K t H') as (b & I & A). exists b. split; [|eapply ArmOf_grow; eauto].
      destruct (Nat.eq_dec t bid) as [->|N].
      + rewrite (Same Fw H'). auto.
      + apply Keep; [auto|]. intros A'. apply N. exact (ArmOf_unique s t bid _ R A A').
  Qed.
End Left.

Lemma Walk_left env h h' : WfBody (he_body env) -> Walk env h h' ->
  Steps (fun _ => True) (he_fw env) (he_body env) (he_ord env) make (h_st h) ->
  (forall Q, Live (he_fw env) Q (h_st h) -> Live (he_fw env) Q (h_st h')) /\
  (he_fw env = false -> Kept (h_st h) -> Kept (h_st h')) /\ Grow (h_st h) (h_st h').
Proof.
  intros Wf W R.
  assert (Go : forall a b, Walk env a b -> Steps (fun _ => True) (he_fw env) (he_body env) (he_ord env) make (h_st a) -> Steps (fun _ => True) (he_fw env) (he_body env) (he_ord env) make (h_st b)).
  { intros a b X Y. eapply Steps_trans; [exact Y|]. apply anything. auto. }
  induction W as [h|a b c H1 IH1 H2 IH2|l span h h' ok On A|h id|h l|h h1 H IH|h l sp s m On Es Em O|h l sp s bid h2 s2 m On Es Em O H IH C|h l h1 H IH|h l e span h1 A On].
  - split; [auto|split; [auto|apply Grow_refl]].
  - destruct (IH1 R) as (L1 & K1 & G1), (IH2 (Go _ _ H1 R)) as (L2 & K2 & G2). split; [auto|split; [auto|eapply Grow_trans; eauto]].
  - apply ask_st in A. split; [|split].
    + intros Q. apply (insert_left _ _ _ Wf _ _ _ Q _ _ R A).
    + intros _. apply (insert_left _ _ _ Wf _ _ _ (fun _ => True) _ _ R A).
    + apply (insert_left _ _ _ Wf _ _ _ (fun _ => True) _ _ R A).
  - split; [auto|split; [auto|apply Grow_refl]].
  - split; [auto|split; [auto|apply Grow_refl]].
  - assert (R1 : Steps (fun _ => True) (he_fw env) (he_body env) (he_ord env) make (fst (open_scope (h_st h)))) by (econstructor; [exact R|apply prim_open_scope]).
    destruct (IH R1) as (L1 & K1 & G1). cbn [h_st set_st] in *.
    assert (Ga : Grow (h_st h) (fst (open_scope (h_st h)))) by (apply scope_ext; reflexivity).
    assert (Gb : Grow (fst (open_scope (h_st h))) (h_st h)) by (apply scope_ext; reflexivity).
    assert (Gc : exists s2, h_st (fst (end_scope (snd (open_scope (h_st h))) h1)) = s2 /\ Grow (h_st h1) s2 /\ Grow s2 (h_st h1) /\ processing s2 = processing (h_st h1)).
    { eexists. split; [reflexivity|]. rewrite end_scope_st. destruct (close_scope (h_st h1) _) as [s2|] eqn:C; [|split; [apply Grow_refl|split; [apply Grow_refl|auto]]].
      apply close_scope_Some in C. destruct C as (_ & rest & _ & ->). split; [apply scope_ext; reflexivity|]. split; [apply scope_ext; reflexivity|reflexivity]. }
    destruct Gc as (s2 & -> & Gc & Gd & Pc). split; [|split; [|exact (Grow_trans _ _ _ Ga (Grow_trans _ _ _ G1 Gc))]].
    + intros Q L. apply (Live_opens _ Q (h_st h1) s2 (fun _ => False)); [auto| |intros c []|].
      * unfold Opens. rewrite Pc. split; eauto.
      * apply L1. apply (Live_opens _ Q (h_st h) _ (fun _ => False)); [auto| |intros c []|auto]. unfold Opens. cbn [processing open_scope fst]. split; eauto.
    + intros Fw K. assert (K2 : Kept (h_st h1)).
      { apply K1; auto. intros t X. destruct (K t) as (b & I & Y); [exact (HasChild_grow _ _ _ Gb X)|]. exists b. split; [auto|]. eapply ArmOf_grow; eauto. }
      intros t X. destruct (K2 t) as (b & I & Y).
      * eapply HasChild_grow; eauto.
      * exists b. rewrite Pc. split; [auto|]. eapply ArmOf_grow; eauto.
  - cbn [h_st fatal set_st]. unfold open_branch in O. apply mk_branch_None in O. subst s. split; [auto|split; [auto|apply Grow_refl]].
  - assert (R1 : Steps (fun _ => True) (he_fw env) (he_body env) (he_ord env) make s) by (econstructor; [exact R|eapply prim_open_branch; eauto]).
    destruct (IH R1) as (L1 & K1 & G1). cbn [h_st set_st] in *. pose proof (Go _ _ H R1) as R2.
    assert (R3 : Steps (fun _ => True) (he_fw env) (he_body env) (he_ord env) make s2) by (econstructor; [exact R2|eapply prim_close_branch; eauto]).
    destruct (open_left _ _ _ Wf _ _ _ _ _ (fun _ => True) R R1 O) as (_ & K0 & G0 & U0).
    assert (U2 : UserBranch (h_st h2) bid) by (eapply OwnedBy_is_user; apply G1; constructor; exact U0).
    destruct (close_left _ _ _ Wf _ _ _ (fun _ => True) R2 R3 U2 C) as (_ & K3 & G3). split; [|split; [auto|exact (Grow_trans _ _ _ G0 (Grow_trans _ _ _ G1 G3))]].
    intros Q L. destruct (close_left _ _ _ Wf _ _ _ Q R2 R3 U2 C) as (L3 & _). apply L3, L1. apply (open_left _ _ _ Wf _ _ _ _ _ Q R R1 O). auto.
  - rewrite pop_hint_st. apply IH. exact R.
  - apply ask_st in A. split; [|split].
    + intros Q. apply (insert_left _ _ _ Wf _ _ _ Q _ _ R A).
    + intros _. apply (insert_left _ _ _ Wf _ _ _ (fun _ => True) _ _ R A).
    + apply (insert_left _ _ _ Wf _ _ _ (fun _ => True) _ _ R A).
Qed.

(** ** Which steps are asked for *)

Lemma sub_all {A} (l : list A) : Subsequence l l.
Proof. induction l; [constructor|apply sub_keep; auto]. Qed.
Lemma sub_none {A} (l : list A) : Subsequence [] l.
Proof. induction l; constructor; auto. Qed.
Lemma sub_app {A} (a b c d : list A) : Subsequence a b -> Subsequence c d -> Subsequence (a ++ c) (b ++ d).
Proof. induction 1; cbn; intros; [auto|apply sub_skip|apply sub_keep]; auto. Qed.
Lemma sub_front {A} (a b c : list A) : Subsequence a b -> Subsequence a (b ++ c).
Proof. intros H. rewrite <- (app_nil_r a). apply sub_app; auto. apply sub_none. Qed.

Definition Asks (v : hst -> res hst) (pts : list point) (L : Prop) : Prop :=
  forall h h', v h = Val h' -> exists ls es, h_log h' = h_log h ++ ls /\ h_fatal h' = h_fatal h ++ es /\
    Subsequence ls (map fst pts) /\ (L -> es = [] -> ls = map fst pts).

Lemma Asks_ret : Asks Val [] True.
Proof. intros h h' [= <-]. exists [], []. rewrite !app_nil_r. repeat split; auto. constructor. Qed.

Lemma Asks_bind v1 v2 p1 p2 L1 L2 : Asks v1 p1 L1 -> Asks v2 p2 L2 -> Asks (fun h => bind (v1 h) v2) (p1 ++ p2) (L1 /\ L2).
Proof.
  intros A1 A2 h h' H. apply bind_Val in H. destruct H as (h1 & H1 & H2).
  destruct (A1 _ _ H1) as (l1 & e1 & E1 & F1 & S1 & C1), (A2 _ _ H2) as (l2 & e2 & E2 & F2 & S2 & C2).
  exists (l1 ++ l2), (e1 ++ e2). rewrite E2, E1, F2, F1, !app_assoc, map_app. split; [auto|]. split; [auto|]. split; [apply sub_app; auto|].
  intros [X Y] Z. apply app_eq_nil in Z. destruct Z as [Z1 Z2]. rewrite C1, C2; auto.
Qed.

Lemma Asks_weaken v p (L L' : Prop) : Asks v p L -> (L' -> L) -> Asks v p L'.
Proof.
  intros A I h h' H. destruct (A _ _ H) as (ls & es & B1 & B2 & B3 & B4). exists ls, es. split; [auto|split; [auto|split; auto]].
Qed.

(** A step that leaves log and errors alone, before or after. *)
Lemma Asks_before v p L (f : hst -> hst) : (forall h, h_log (f h) = h_log h /\ h_fatal (f h) = h_fatal h) -> Asks v p L -> Asks (fun h => v (f h)) p L.
Proof.
  intros F A h h' H. destruct (A _ _ H) as (ls & es & B1 & B2 & B3 & B4). rewrite (proj1 (F h)) in B1. rewrite (proj2 (F h)) in B2. exists ls, es. split; [auto|split; [auto|split; auto]].
Qed.

Lemma Asks_after v p L (f : hst -> hst) : (forall h, h_log (f h) = h_log h /\ exists es, h_fatal (f h) = h_fatal h ++ es) ->
  Asks v p L -> Asks (fun h => bind (v h) (fun h1 => Val (f h1))) p L.
Proof.
  intros F A h h' H. apply bind_Val in H. destruct H as (h1 & H1 & H2). injection H2 as <-.
  destruct (A _ _ H1) as (ls & es & B1 & B2 & B3 & B4). destruct (F h1) as [-> [es' ->]]. exists ls, (es ++ es'). rewrite B2, app_assoc.
  repeat split; auto. intros X Y. apply app_eq_nil in Y. apply B4; tauto.
Qed.

Lemma pop_hint_log h l : h_log (pop_hint h l) = h_log h /\ exists es, h_fatal (pop_hint h l) = h_fatal h ++ es.
Proof.
  unfold pop_hint. destruct (h_hints h) as [|x r]; [split; [auto|exists []; rewrite app_nil_r; auto]|].
  destruct (loc_eqd x l); cbn; split; auto; [exists []; rewrite app_nil_r; auto|eauto].
Qed.

Lemma ask_log env l span h h' ok : ask env l span h = Val (h', ok) ->
  h_log h' = h_log h ++ [(l, span)] /\ exists es, h_fatal h' = h_fatal h ++ es /\ (es = [] <-> ok = true).
Proof.
  unfold ask. intros H. apply bind_Val in H. destruct H as ([s ok'] & A & H). cbn [fst snd] in H. injection H as <- <-.
  destruct ok'; cbn; split; auto.
  - exists []. rewrite app_nil_r. tauto.
  - exists [ErrInsert l]. split; [auto|]. split; discriminate.
Qed.

Lemma Asks_exit env w id : Asks (insert_at_exit env id) (at_end env w id) True.
Proof.
  unfold insert_at_exit, at_end. destruct (node_exit env id) as [l|]; [|apply Asks_ret].
  intros h h' H. apply bind_Val in H. destruct H as ([h1 ok] & A & H). injection H as <-. apply ask_log in A. destruct A as (E & es & F & _).
  exists [(l, he_span env id)], es. repeat split; auto. apply sub_all.
Qed.

Lemma Asks_branching env w cnd id entries default vc va pc pa Lc La :
  Asks vc pc Lc -> Asks va pa La ->
  Asks (branching env cnd id entries default vc va) (pc ++ at_condition env w cnd id ++ pa) (decided env cnd id <> None /\ Lc /\ La).
Proof.
  intros Ac Aa h h' H. unfold branching in H. apply bind_Val in H. destruct H as ([h1 o] & P & H). unfold prelude in P.
  apply bind_Val in P. destruct P as (h0 & C & P). fold (decided env cnd id) in P. unfold at_condition. rewrite !map_app.
  destruct (Ac _ _ C) as (l0 & e0 & E0 & F0 & S0 & C0).
  destruct (decided env cnd id) as [l|] eqn:D.
  - apply bind_Val in P. destruct P as ([h2 ok] & A & P). cbn [fst snd] in P. injection P as <- <-.
    apply ask_log in A. destruct A as (E1 & e1 & F1 & O1). destruct ok.
    + assert (e1 = []) by tauto. subst e1. rewrite app_nil_r in F1. apply bind_Val in H. destruct H as ([s [bid|]] & O & H).
      * apply bind_Val in H. destruct H as (h3 & A3 & H). apply bind_Val in H. destruct H as (s2 & Cl & H). injection H as <-.
        destruct (Aa _ _ A3) as (l3 & e3 & E3 & F3 & S3 & C3). cbn [h_log h_fatal set_st] in *.
        exists (l0 ++ [(l, he_span env cnd)] ++ l3), (e0 ++ e3). rewrite E3, E1, E0, F3, F1, F0, !app_assoc. split; [auto|]. split; [auto|]. split.
        -- rewrite <- !app_assoc. apply sub_app; auto. apply sub_app; auto. apply sub_all.
        -- intros (_ & X & Y) Z. apply app_eq_nil in Z. rewrite C0, C3; tauto.
      * injection H as <-. cbn [h_log h_fatal set_st fatal]. exists (l0 ++ [(l, he_span env cnd)]), (e0 ++ [ErrBranch l]).
        rewrite E1, E0, F1, F0, !app_assoc. split; [auto|]. split; [auto|]. split.
        -- apply sub_front. apply sub_app; auto. apply sub_all.
        -- intros _ Z. apply app_eq_nil in Z. destruct Z. discriminate.
    + injection H as <-. exists (l0 ++ [(l, he_span env cnd)]), (e0 ++ e1). rewrite E1, E0, F1, F0, !app_assoc. split; [auto|]. split; [auto|]. split.
      * apply sub_front. apply sub_app; auto. apply sub_all.
      * intros _ Z. apply app_eq_nil in Z. destruct Z as [_ Z]. apply O1 in Z. discriminate.
  - injection P as <- <-. injection H as <-. exists l0, e0. split; [auto|]. split; [auto|]. split; [apply sub_front; auto|]. intros (X & _). congruence.
Qed.

Lemma Asks_hinted env id v p L : Asks v p L -> Asks (hinted env id v) p (found env id /\ L).
Proof.
  intros A. unfold hinted, found. destruct (node_entry env id) as [l|].
  - eapply Asks_weaken; [|intros [_ X]; exact X].
    apply (Asks_after (fun h => v (push_hint h l)) p L (fun h => pop_hint h l)); [intros h; apply pop_hint_log|].
    apply (Asks_before v p L (fun h => push_hint h l)); [intros h; split; reflexivity|auto].
  - intros h h' [= <-]. exists [], []. rewrite !app_nil_r. repeat split; auto; [apply sub_none|]. intros [X _]. congruence.
Qed.

Lemma end_scope_log scope h : h_log (fst (end_scope scope h)) = h_log h /\ exists es, h_fatal (fst (end_scope scope h)) = h_fatal h ++ es /\ (es = [] -> snd (end_scope scope h) = true).
Proof.
  unfold end_scope. destruct (close_scope (h_st h) scope); cbn; split; auto.
  - exists []. rewrite app_nil_r. auto.
  - eexists. split; [reflexivity|discriminate].
Qed.

(** A statement: a scope around the visit, then its own step. *)
Lemma Asks_stmt env w id v p L : (forall scope, Asks (v scope) p L) ->
  Asks (fun h => let '(s, scope) := open_scope (h_st h) in
     bind (v scope (set_st h s)) (fun h2 => match end_scope scope h2 with (h3, true) => insert_at_exit env id h3 | (h3, false) => Val h3 end))
    (p ++ at_end env w id) L.
Proof.
  intros A h h' H. destruct (open_scope (h_st h)) as [s scope]. rewrite map_app. apply bind_Val in H. destruct H as (h2 & H2 & H).
  destruct (A _ _ _ H2) as (l0 & e0 & E0 & F0 & S0 & C0). cbn [h_log h_fatal set_st] in *.
  destruct (end_scope_log scope h2) as (E1 & e1 & F1 & O1). destruct (end_scope scope h2) as [h3 [|]]; cbn [fst snd] in *.
  - destruct (Asks_exit env w id _ _ H) as (l2 & e2 & E2 & F2 & S2 & C2). exists (l0 ++ l2), (e0 ++ e1 ++ e2).
    rewrite E2, E1, E0, F2, F1, F0, !app_assoc. split; [auto|]. split; [auto|]. split; [apply sub_app; auto|].
    intros X Z. apply app_eq_nil in Z. destruct Z as [Z Z2]. apply app_eq_nil in Z. rewrite C0, C2; tauto.
  - injection H as <-. exists l0, (e0 ++ e1). rewrite E1, E0, F1, F0, !app_assoc. split; [auto|]. split; [auto|]. split; [apply sub_front; auto|].
    intros X Z. apply app_eq_nil in Z. destruct Z as [_ Z]. apply O1 in Z. discriminate.
Qed.

Lemma asked env :
  (forall e w, Asks (visit_expr env e) (steps_expr env w e) (located_expr env e)) /\
  (forall o w, match o with ESome e => Asks (visit_expr env e) (steps_expr env w e) (located_expr env e) | ENone => True end) /\
  (forall l w, Asks (visit_exprs env l) (steps_exprs env w l) (located_exprs env l) /\ Asks (visit_bodies env l) (steps_bodies env w l) (located_exprs env l)) /\
  (forall a w, Asks (visit_arm env a) (steps_arm env w a) (located_arm env a)) /\
  (forall l w, Asks (visit_arms env l) (steps_arms env w l) (located_arms env l)) /\
  (forall b w, Asks (visit_block env b) (steps_block env w b) (located_block env b)) /\
  (forall l w, Asks (visit_stmts env l) (steps_stmts env w l) (located_stmts env l)) /\
  (forall s w, Asks (visit_stmt env s) (steps_stmt env w s) (located_stmt env s)) /\
  (forall o w, match o with BSome b => Asks (visit_block env b) (steps_block env w b) (located_block env b) | BNone => True end).
Proof.
  apply hir_mind.
  - (* EIf *) intros id cnd IHc thn IHt els IHe w. cbn [visit_expr steps_expr located_expr]. eapply Asks_weaken.
    + apply Asks_branching; [exact (IHc _)|]. apply Asks_bind; [apply Asks_hinted; exact (IHt _)|]. instantiate (1 := match els with ESome x => found env (expr_id x) /\ located_expr env x | ENone => True end).
      destruct els as [|x]; [apply Asks_ret|apply Asks_hinted; exact (IHe _)].
    + destruct els; cbn; tauto.
  - (* EWhile *) intros id cnd IHc thn IHt els IHe w. cbn [visit_expr steps_expr located_expr]. eapply Asks_weaken.
    + apply Asks_branching; [exact (IHc _)|]. apply Asks_bind; [apply Asks_hinted; exact (IHt _)|apply Asks_hinted; exact (IHe _)].
    + tauto.
  - (* EFor *) intros id cnd IHc none IHn some IHs w. cbn [visit_expr steps_expr located_expr]. eapply Asks_weaken.
    + apply Asks_branching; [exact (IHc _)|]. apply Asks_bind; [exact (IHn _)|exact (IHs _)].
    + tauto.
  - (* EMatch *) intros id d cnd IHc ar IHa w. cbn [visit_expr steps_expr located_expr]. rewrite decision_test.
    destruct (no_decision env d cnd ar).
    + eapply Asks_weaken; [apply Asks_bind; [exact (IHc _)|exact (IHa _)]|tauto].
    + eapply Asks_weaken; [apply Asks_branching; [exact (IHc _)|exact (IHa _)]|]. intros ([X|X] & Y); [discriminate|tauto].
  - (* EBlock *) intros id b IH w. exact (IH _).
  - (* EClosure *) intros id v IH w. cbn [visit_expr steps_expr located_expr]. eapply Asks_weaken; [apply Asks_bind; [exact (IH _)|apply Asks_exit]|tauto].
  - (* EOther *) intros id l IH w. exact (proj1 (IH _)).
  - intros _. exact I.
  - intros e IH w. exact (IH _).
  - intros w. split; apply Asks_ret.
  - intros e IHe r IH w. destruct (IH w) as [IHr IHb]. split; cbn.
    + apply Asks_bind; auto.
    + eapply Asks_weaken; [apply Asks_bind; [exact (IHe _)|apply Asks_bind; [apply Asks_exit|exact IHb]]|tauto].
  - (* Arm *) intros id pat g IHg b IHb w h h' H. cbn [visit_arm] in H. cbn [steps_arm located_arm].
    set (h0 := if has_guard g then unsupported h id else h) in H.
    assert (Q : h_log h0 = h_log h /\ h_fatal h0 = h_fatal h) by (unfold h0; destruct (has_guard g); split; reflexivity). clearbody h0.
    destruct Q as [<- <-]. unfold found. destruct (node_entry env id) as [l|].
    2:{ injection H as <-. exists [], []. rewrite !app_nil_r. repeat split; auto; [apply sub_none|]. intros [X _]. congruence. }
    change (h_log h0) with (h_log (push_hint h0 l)). change (h_fatal h0) with (h_fatal (push_hint h0 l)).
    revert H. generalize (push_hint h0 l). clear h h0. intros h H.
    destruct (node_entry env (expr_id b)) as [entry|].
    + apply bind_Val in H. destruct H as ([h1 ok] & A & H). cbn [fst snd] in H. apply ask_log in A. destruct A as (E1 & e1 & F1 & O1). destruct ok.
      * pose proof (Asks_after (visit_expr env b) _ _ (fun h => pop_hint h l) (fun h2 => pop_hint_log h2 l) (IHb w)) as IHb'.
        destruct (IHb' _ _ H) as (l2 & e2 & E2 & F2 & S2 & C2). exists ((entry, he_lo env id) :: l2), (e1 ++ e2). rewrite E2, E1, F2, F1, !app_assoc, <- app_assoc.
        split; [auto|]. split; [auto|]. split; [apply sub_keep; auto|]. intros (_ & _ & X) Z. apply app_eq_nil in Z. cbn. f_equal. apply C2; tauto.
      * injection H as <-. exists [(entry, he_lo env id)], e1. split; [auto|]. split; [auto|]. split; [cbn; apply sub_keep, sub_none|].
        intros _ Z. apply O1 in Z. discriminate.
    + revert h h' H. eapply Asks_weaken.
      * apply (Asks_bind (fun h1 => match g with ESome g0 => visit_expr env g0 h1 | ENone => Val h1 end)).
        -- instantiate (1 := located_oexpr env g). destruct g; [apply Asks_ret|exact (IHg _)].
        -- apply (Asks_after (visit_expr env b) _ _ (fun h => pop_hint h l)); [intros h2; apply pop_hint_log|exact (IHb _)].
      * tauto.
  - intros w. apply Asks_ret.
  - intros a IHa r IHr w. apply Asks_bind; auto.
  - (* Blk *) intros ss IHs t IHt w. cbn [visit_block steps_block located_block]. intros h h' H. destruct (open_scope (h_st h)) as [s scope].
    change (h_log h) with (h_log (set_st h s)). change (h_fatal h) with (h_fatal (set_st h s)).
    revert H. generalize (set_st h s). clear h. intros h H. revert h h' H.
    apply Asks_bind; [exact (IHs _)|].
    apply (Asks_after (fun h1 => match t with ESome e => bind (visit_expr env e h1) (insert_at_exit env (expr_id e)) | ENone => Val h1 end) _ _ (fun h => fst (end_scope scope h))).
    + intros x. destruct (end_scope_log scope x) as (E & es & F & _). eauto.
    + destruct t as [|e]; [apply Asks_ret|]. eapply Asks_weaken; [apply Asks_bind; [exact (IHt _)|apply Asks_exit]|]. cbn. tauto.
  - intros w. apply Asks_ret.
  - intros s IHs r IHr w. apply Asks_bind; auto.
  - (* SLet *) intros id init IHi els IHe w. cbn [visit_stmt steps_stmt located_stmt stmt_id].
    apply (Asks_stmt env w id (fun scope h0 => bind (match init with ESome e => visit_expr env e (match he_locals env id with [] => h0 | ls => set_locals h0 (aset Nat.eq_dec (h_locals h0) scope ls) end) | ENone => Val (match he_locals env id with [] => h0 | ls => set_locals h0 (aset Nat.eq_dec (h_locals h0) scope ls) end) end) (fun h2 => match els with BSome b => visit_block env b h2 | BNone => Val h2 end))). intros scope.
    apply (Asks_before (fun h1 => bind (match init with ESome e => visit_expr env e h1 | ENone => Val h1 end) (fun h2 => match els with BSome b => visit_block env b h2 | BNone => Val h2 end)) _ _ (fun h0 => match he_locals env id with [] => h0 | ls => set_locals h0 (aset Nat.eq_dec (h_locals h0) scope ls) end)).
    + intros x. destruct (he_locals env id); split; reflexivity.
    + apply Asks_bind.
      * destruct init; [apply Asks_ret|exact (IHi _)].
      * destruct els; [apply Asks_ret|exact (IHe _)].
  - (* SExpr *) intros id e IHe w. cbn [visit_stmt steps_stmt located_stmt stmt_id]. apply (Asks_stmt env w id (fun scope h0 => visit_expr env e h0)). intros _. exact (IHe _).
  - (* SItem *) intros id l IHl w. cbn [visit_stmt steps_stmt located_stmt stmt_id]. apply (Asks_stmt env w id (fun scope h0 => visit_bodies env l h0)). intros _. exact (proj2 (IHl _)).
  - intros _. exact I.
  - intros b IH w. exact (IH _).
Qed.

Lemma asked_body env v : Asks (visit_body env v) (steps_body env v) (located_expr env v).
Proof. eapply Asks_weaken; [apply Asks_bind; [apply asked|apply Asks_exit]|tauto]. Qed.
