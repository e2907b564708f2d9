(** * Scopes of the segment builder *)
From Coq Require Import List Arith Bool Lia.
From Verif Require Import Base FactsModel FlowModel CfgModel CfgSpec SegMirModel SegMirSpec SegMirProofs.
Import ListNotations.

Inductive Linked (E : list (nat * nat)) : list nat -> Prop :=
| linked_base : Linked E [0]
| linked_up n p r : In (n, p) E -> Linked E (p :: r) -> Linked E (n :: p :: r).

Inductive Desc : nat -> list nat -> Prop :=
| desc_nil b : Desc b []
| desc_cons b x r : x < b -> Desc x r -> Desc b (x :: r).

Lemma Desc_lt b l x : Desc b l -> In x l -> x < b.
Proof. induction 1 as [|b y r L D IH]; intros []; subst; auto. specialize (IH H). lia. Qed.
Lemma Desc_mono b c l : Desc b l -> b <= c -> Desc c l.
Proof. intros [|? x r L D] H; constructor; auto. lia. Qed.

Lemma Linked_mono E F l : incl E F -> Linked E l -> Linked F l.
Proof. intros I. induction 1; constructor; auto. Qed.

Record SI (s : st) : Prop := mkSI {
  si_linked : Linked (scope_edges s) (open_scopes s);
  si_desc : Desc (next_scope s) (open_scopes s);
  si_edges : forall n p, In (n, p) (scope_edges s) -> p < n < next_scope s;
  si_fun : forall n p q, In (n, p) (scope_edges s) -> In (n, q) (scope_edges s) -> p = q
}.

Lemma SI_make : SI make.
Proof.
  constructor; cbn.
  - constructor.
  - repeat constructor.
  - intros n p [].
  - intros n p q [].
Qed.

Lemma SI_same s s' :
  scope_edges s' = scope_edges s -> open_scopes s' = open_scopes s -> next_scope s' = next_scope s ->
  SI s -> SI s'.
Proof. intros E1 E2 E3 [H1 H2 H3 H4]. constructor; rewrite ?E1, ?E2, ?E3; auto. Qed.

Lemma open_scope_SI s : SI s -> SI (fst (open_scope s)).
Proof.
  intros [H1 H2 H3 H4]. constructor; cbn.
  - inversion H1 as [E|n p r I L E].
    + constructor; [|constructor]. unfold current_scope. rewrite <- E. apply in_app_iff; right; left; auto.
    + constructor; [unfold current_scope; rewrite <- E; apply in_app_iff; right; left; auto|].
      rewrite E. eapply Linked_mono; [|exact H1]. apply incl_appl, incl_refl.
  - constructor; auto.
  - assert (C : current_scope s < next_scope s).
    { unfold current_scope. inversion H1 as [E|n p r I L E]; rewrite <- E in H2; inversion H2; auto. }
    intros n p I. apply in_app_iff in I as [I|[I|[]]].
    + apply H3 in I. lia.
    + injection I as <- <-. lia.
  - intros n p q I J. apply in_app_iff in I as [I|[I|[]]]; apply in_app_iff in J as [J|[J|[]]].
    + eauto.
    + injection J as <- <-. apply H3 in I. lia.
    + injection I as <- <-. apply H3 in J. lia.
    + congruence.
Qed.

(** Every primitive other than the two on scopes leaves the scopes alone. *)
Definition same_scopes (s s' : st) : Prop :=
  scope_edges s' = scope_edges s /\ open_scopes s' = open_scopes s /\ next_scope s' = next_scope s.

Lemma prim_scopes P fw bd ord s s' : prim P fw bd ord s s' ->
  s' = fst (open_scope s) \/ (exists idx, close_scope s idx = Some s') \/ same_scopes s s'.
Proof.
  intros H. destruct H as [s|s idx s' E|s l sp s' bid Pl Pe M|s location parent l s' Pl F O'
    |s bid s' C|s i b l span s' Pl F I]; eauto; right; right.
  - apply mk_branch_Some in M as (sw & i & b & sp' & _ & _ & _ & _ & _ & ->). repeat split.
  - destruct (child_branched _ _ _ _ _ _ _ _ _ Pl F O')
      as (sw & i & b & sp & pb & cb & _ & _ & _ & _ & _ & H). cbn zeta in H.
    destruct H as (_ & _ & ->). repeat split.
  - unfold close_branch in C. destruct (nth_error (branches s) bid) as [b|]; [|discriminate].
    injection C as <-. repeat split.
  - apply insert_linear_Val in I as (c & Ec & ->). repeat split.
Qed.

Lemma SI_prim P fw bd ord s s' : prim P fw bd ord s s' -> SI s -> SI s'.
Proof.
  intros H Si. apply prim_scopes in H as [->|[(idx & E)|(E1 & E2 & E3)]].
  - apply open_scope_SI; auto.
  - apply close_scope_Some in E as (N & rest & E & ->). destruct Si as [H1 H2 H3 H4].
    rewrite E in H1, H2. constructor; cbn; auto.
    + inversion H1; subst; auto. contradiction.
    + inversion H2; subst. eapply Desc_mono; eauto. lia.
  - eapply SI_same; eauto.
Qed.

Lemma prim_edges P fw bd ord s s' : prim P fw bd ord s s' ->
  incl (scope_edges s) (scope_edges s') /\ next_scope s <= next_scope s'.
Proof.
  intros H. apply prim_scopes in H as [->|[(idx & E)|(E1 & E2 & E3)]].
  - cbn. split; [apply incl_appl, incl_refl|lia].
  - apply close_scope_Some in E as (N & rest & E & ->). cbn. split; [apply incl_refl|lia].
  - rewrite E1, E3. split; [apply incl_refl|lia].
Qed.

Lemma Steps_edges P fw bd ord s s' : Steps P fw bd ord s s' ->
  incl (scope_edges s) (scope_edges s') /\ next_scope s <= next_scope s'.
Proof.
  induction 1 as [|s1 s2 _ [I L] H]; [split; [apply incl_refl|lia]|].
  apply prim_edges in H as [I' L']. split; [eapply incl_tran; eauto|lia].
Qed.

Lemma SI_Steps P fw bd ord s s' : Steps P fw bd ord s s' -> SI s -> SI s'.
Proof. induction 1; auto. intros. eapply SI_prim; eauto. Qed.

Lemma SI_Built fw bd ord s : Built fw bd ord s -> SI s.
Proof. intros B. eapply SI_Steps; [eapply Built_Steps; eauto|apply SI_make]. Qed.

(** The scopes above one that is linked. *)
Lemma linked_parents E l : Linked E l ->
  (forall n p, In (n, p) E -> p < n) ->
  (forall n p q, In (n, p) E -> In (n, q) E -> p = q) ->
  forall n r, l = n :: r -> forall p, In p (reachable_from E n) <-> In p r.
Proof.
  intros L Lt Fn. induction L as [|n q r I L IH]; intros m r' E' p.
  - injection E' as <- <-. split; [|intros []]. unfold reachable_from. rewrite reach_list_spec.
    intros (x & w & I & _). apply nexts_In in I. apply Lt in I. lia.
  - injection E' as <- <-. unfold reachable_from. rewrite reach_list_spec. split.
    + intros (x & w & Ix & W). apply nexts_In in Ix. assert (x = q) by eauto. subst x.
      inversion W as [|? y w' ? Ey W']; subst; [left; auto|]. right.
      apply (IH q r eq_refl). unfold reachable_from. rewrite reach_list_spec. exists y, w'.
      split; auto. apply nexts_In. exact Ey.
    + intros [<-|Ip].
      * exists q, [q]. split; [apply nexts_In; auto|constructor].
      * apply (IH q r eq_refl) in Ip. unfold reachable_from in Ip. rewrite reach_list_spec in Ip.
        destruct Ip as (x & w & Ix & W). exists q, (q :: w). split; [apply nexts_In; auto|].
        apply nexts_In in Ix. econstructor; eauto.
Qed.

Lemma parents_of_open s : SI s -> forall l1 n r, open_scopes s = l1 ++ n :: r ->
  forall p, In p (parent_scopes s n) <-> In p r.
Proof.
  intros [H1 H2 H3 H4] l1 n r E p.
  assert (L : Linked (scope_edges s) (n :: r)).
  { rewrite E in H1. clear - H1. induction l1 as [|x l IH]; auto. cbn in H1. apply IH.
    inversion H1; subst; auto. destruct l; discriminate. }
  eapply linked_parents; eauto. intros m q I. apply H3 in I. lia.
Qed.

Lemma Built_run fw bd ord fuel s os s' : Built fw bd ord s -> run fw bd ord fuel s os = Val s' ->
  Steps (fun _ => True) fw bd ord make s'.
Proof.
  intros B R. eapply Steps_trans; [eapply Built_Steps; eauto|].
  eapply run_Steps; [apply op_ok_all|exact R].
Qed.

(** Parents at any later time. *)
Lemma parents_later fw bd ord fuel s os s' :
  Built fw bd ord s -> run fw bd ord fuel (fst (open_scope s)) os = Val s' ->
  forall p, In p (parent_scopes s' (snd (open_scope s))) <-> In p (open_scopes s).
Proof.
  intros B R p. pose proof (open_scope_SI s (SI_Built _ _ _ _ B)) as S1.
  pose proof (run_Steps (fun _ => True) fw bd ord fuel os _ _ (op_ok_all os) R) as St.
  pose proof (SI_Steps _ _ _ _ _ _ St S1) as S2.
  destruct (Steps_edges _ _ _ _ _ _ St) as [I _].
  pose proof (Linked_mono _ _ _ I (si_linked _ S1)) as L.
  eapply linked_parents; [exact L| | |reflexivity].
  - intros n q J. apply (si_edges _ S2) in J. lia.
  - apply (si_fun _ S2).
Qed.

Lemma base_open s : SI s -> In 0 (open_scopes s).
Proof. intros [H _ _ _]. induction H; [left; auto|right; auto]. Qed.

(** Closing succeeds exactly on the scope opened last among those open. *)
Lemma close_scope_iff s idx : SI s ->
  (exists s', close_scope s idx = Some s') <->
  idx <> 0 /\ In idx (open_scopes s) /\ forall j, In j (open_scopes s) -> j <= idx.
Proof.
  intros Si. split.
  - intros [s' H]. apply close_scope_Some in H as (N & r & E & _). split; auto. rewrite E.
    split; [left; auto|]. intros j [<-|I]; auto. pose proof (si_desc _ Si) as D. rewrite E in D.
    inversion D as [|? ? ? L D']; subst. apply (Desc_lt _ _ _ D') in I. lia.
  - intros (N & I & M). unfold close_scope. destruct (Nat.eqb_spec idx 0); [contradiction|].
    pose proof (si_desc _ Si) as D. destruct (open_scopes s) as [|x r]; [destruct I|].
    inversion D as [|? ? ? L D']; subst.
    assert (x = idx).
    { destruct I as [<-|I]; auto. apply (Desc_lt _ _ _ D') in I. specialize (M x (or_introl eq_refl)). lia. }
    subst. rewrite Nat.eqb_refl. eauto.
Qed.

Lemma close_scope_result s idx s' : SI s -> close_scope s idx = Some s' ->
  forall j, In j (open_scopes s') <-> In j (open_scopes s) /\ j <> idx.
Proof.
  intros Si H. apply close_scope_Some in H as (N & r & E & ->). cbn. rewrite E. intros j.
  pose proof (si_desc _ Si) as D. rewrite E in D. inversion D as [|? ? ? L D']; subst. split.
  - intros I. split; [right; auto|]. apply (Desc_lt _ _ _ D') in I. lia.
  - intros [[<-|I] Ne]; [contradiction|auto].
Qed.

Lemma open_scope_fresh fw bd ord fuel s os s' :
  Built fw bd ord s -> run fw bd ord fuel (fst (open_scope s)) os = Val s' ->
  ~ In (snd (open_scope s)) (open_scopes s) /\ snd (open_scope s) < snd (open_scope s').
Proof.
  intros B R. pose proof (SI_Built _ _ _ _ B) as Si. split.
  - intros I. apply (Desc_lt _ _ _ (si_desc _ Si)) in I. cbn in I. lia.
  - pose proof (run_Steps (fun _ => True) fw bd ord fuel os _ _ (op_ok_all os) R) as St.
    apply Steps_edges in St as [_ L]. cbn in *. lia.
Qed.

Lemma other_ops_scopes fw bd ord fuel s o s' :
  o <> OpOpenScope -> (forall i, o <> OpCloseScope i) ->
  step fw bd ord fuel s o = Val s' -> same_scopes s s'.
Proof.
  intros N1 N2 H. destruct o as [|idx|l sp|bid|l span]; [congruence|exfalso; eapply N2; eauto| | |];
    cbn [step] in H.
  - unfold open_branch in H.
    destruct (mk_branch bd ord s l (InsertNew sp)) as [[s1 [b|]]| |] eqn:M; cbn in H; try discriminate;
      injection H as <-.
    + apply mk_branch_Some in M as (sw & i & b' & sp' & _ & _ & _ & _ & _ & ->). repeat split.
    + apply mk_branch_None in M. subst. repeat split.
  - unfold close_branch in H. destruct (nth_error (branches s) bid) as [b|]; [|discriminate].
    injection H as <-. repeat split.
  - destruct (insert fw bd ord fuel s l span) as [r| |] eqn:I; cbn in H; try discriminate.
    injection H as <-. revert s r I. induction fuel as [|f IH]; intros s r; cbn [insert]; [discriminate|].
    destruct (find_suitable_collection bd s l) as [|parent bl|i b] eqn:F.
    + intros [= <-]. repeat split.
    + destruct (open_child_branch fw bd ord s parent bl) as [[s1 [|]]| |] eqn:O; cbn; try discriminate.
      * intros H. apply IH in H.
        destruct (child_branched (fun _ => True) _ _ _ _ _ _ _ _ I F O)
          as (sw & i & b & sp & pb & cb & _ & _ & _ & _ & _ & H'). cbn zeta in H'.
        destruct H' as (_ & _ & ->). exact H.
      * intros [= <-]. cbn. apply open_child_Val in O as [(s2 & M & [= <-])|(? & ? & ? & ? & _ & _ & _ & E)];
          [|discriminate]. apply mk_branch_None in M. subst. repeat split.
    + destruct (insert_linear bd s i b l span) as [s1| |] eqn:I; cbn; try discriminate.
      intros [= <-]. apply insert_linear_Val in I as (c & Ec & ->). repeat split.
Qed.

Lemma Nested_Steps fw bd ord fuel a os b :
  Nested fw bd ord fuel a os b -> Steps (fun _ => True) fw bd ord a b.
Proof.
  induction 1 as [s|s o s1 os s2 N1 N2 E H IH|s os1 s1 s2 os2 s3 H1 IH1 E H2 IH2].
  - constructor.
  - eapply Steps_trans; [|exact IH]. eapply step_Steps; [|exact E].
    pose proof (op_ok_all [o]) as F. inversion F; auto.
  - eapply Steps_trans; [econstructor; [constructor|apply prim_open_scope]|].
    eapply Steps_trans; [exact IH1|]. eapply Steps_trans; [|exact IH2].
    eapply step_Steps; [|exact E]. exact I.
Qed.

Lemma nested_restores fw bd ord fuel s os s' : SI s ->
  Nested fw bd ord fuel s os s' -> open_scopes s' = open_scopes s.
Proof.
  intros Si H. revert Si.
  induction H as [s|s o s1 os s2 N1 N2 E H IH|s os1 s1 s2 os2 s3 H1 IH1 E H2 IH2]; intros Si; auto.
  - apply other_ops_scopes in E as (E1 & E2 & E3); auto. rewrite IH; auto. eapply SI_same; eauto.
  - specialize (IH1 (open_scope_SI s Si)). cbn [step] in E. cbn [open_scope snd] in *. injection E as E.
    assert (S1 : SI s1).
    { eapply SI_Steps; [eapply Nested_Steps; exact H1|apply open_scope_SI; auto]. }
    destruct (close_scope s1 (next_scope s)) as [s2'|] eqn:C.
    + subst s2'. pose proof C as C'. apply close_scope_Some in C as (_ & r & E & ->). rewrite IH1 in E.
      cbn in E. injection E as E. rewrite IH2; [cbn; symmetry; exact E|].
      eapply SI_prim; [|exact S1]. eapply (prim_close_scope (fun _ => True) false [] id). exact C'.
    + exfalso. unfold close_scope in C. rewrite IH1 in C. cbn [open_scope open_scopes fst snd] in C.
      destruct (Nat.eqb_spec (next_scope s) 0) as [Z|_].
      * pose proof (Desc_lt _ _ _ (si_desc _ Si) (base_open _ Si)). lia.
      * rewrite Nat.eqb_refl in C. discriminate.
Qed.
