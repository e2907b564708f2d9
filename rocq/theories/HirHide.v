(** * Which variables the steps of the visitor hide *)
From Coq Require Import List Arith Bool Lia.
From Verif Require Import Base FactsModel FlowModel CfgModel CfgSpec CfgProofs SegMirModel SegMirSpec SegMirProofs SegMirScopes
  SegMirClose SegMirTree SegMirInsert HirModel HirSpec HirProofs.
Import ListNotations.

(** ** The builder: segments and scopes are only added *)

Section Builder.
  Context (fw : bool) (bd : body) (ord : list nat -> list nat).
  Local Notation Goes := (Steps (fun _ => True) fw bd ord).

  Definition Later (s s' : st) : Prop :=
    (exists new, segs s' = segs s ++ new) /\
    (forall k, In k (steps_of s') -> k < length (segs s) -> In k (steps_of s)) /\
    (forall n p, In (n, p) (scope_edges s') -> n < next_scope s -> In (n, p) (scope_edges s)) /\
    incl (scope_edges s) (scope_edges s') /\ next_scope s <= next_scope s'.

  Lemma Later_refl s : Later s s.
  Proof. split; [exists []; rewrite app_nil_r; auto|]. split; [auto|]. split; [auto|]. split; [apply incl_refl|lia]. Qed.

  Lemma Later_trans a b c : Later a b -> Later b c -> Later a c.
  Proof.
    intros ((n1 & A1) & A2 & A3 & A4 & A5) ((n2 & B1) & B2 & B3 & B4 & B5). split; [|split; [|split; [|split]]].
    - exists (n1 ++ n2). rewrite B1, A1, app_assoc. auto.
    - intros k I L. apply A2; auto. apply B2; auto. rewrite A1, app_length. lia.
    - intros n p I L. apply A3; auto. apply B3; auto. lia.
    - eapply incl_tran; eauto.
    - lia.
  Qed.

  Lemma Later_prim s s' : Shape s -> prim (fun _ => True) fw bd ord s s' -> Later s s'.
  Proof.
    intros Sh H. destruct (prim_edges _ _ _ _ _ _ H) as [Inc Nx]. split; [|split; [|split; [|split; auto]]].
    - destruct H as [s|s idx s' E|s l sp s' bid Pl Pe M|s location parent l s' Pl F O'|s bid s' C|s i b l span s' Pl F I].
      + exists []. rewrite app_nil_r. auto.
      + apply close_scope_Some in E. destruct E as (_ & r & _ & ->). exists []. rewrite app_nil_r. auto.
      + apply mk_branch_Some in M. destruct M as (sw & i & b & sp' & _ & _ & _ & _ & _ & ->). cbn. eauto.
      + destruct (child_branched (fun _ => True) _ _ _ _ _ _ _ _ Pl F O') as (sw & i & b & sp & pb & cb & _ & _ & _ & _ & _ & H). cbn zeta in H.
        destruct H as (_ & _ & ->). cbn. eauto.
      + unfold close_branch in C. destruct (nth_error (branches s) bid) as [b|]; [|discriminate]. injection C as <-. exists []. rewrite app_nil_r. auto.
      + apply insert_linear_Val in I. destruct I as (c & Ec & ->). cbn. eauto.
    - destruct H as [s|s idx s' E|s l sp s' bid Pl Pe M|s location parent l s' Pl F O'|s bid s' C|s i b l span s' Pl F I].
      + auto.
      + apply close_scope_Some in E. destruct E as (_ & r & _ & ->). auto.
      + apply mk_branch_Some in M. destruct M as (sw & i & b & sp' & _ & Fb & _ & _ & _ & ->).
        rewrite steps_of_branched; auto. eapply find_builder_lookup; eauto.
      + destruct (child_branched (fun _ => True) _ _ _ _ _ _ _ _ Pl F O') as (sw & i & b & sp & pb & cb & _ & Fb & _ & _ & _ & H). cbn zeta in H.
        destruct H as (_ & _ & ->). change (steps_of (with_table ?x _)) with (steps_of x).
        rewrite steps_of_branched; auto. eapply find_builder_lookup; eauto.
      + unfold close_branch in C. destruct (nth_error (branches s) bid) as [b|]; [|discriminate]. injection C as <-. auto.
      + apply insert_linear_Val in I. destruct I as (c & Ec & ->). cbn zeta. intros k. unfold steps_of. cbn [colls].
        rewrite !in_flat_map. intros (c' & J & K) L. apply In_nth_error in J. destruct J as (n & En). rewrite upd_nth in En.
        destruct (nth_error (colls s) n) as [c0|] eqn:E0; [|discriminate]. cbn in En. injection En as <-.
        exists c0. split; [eapply nth_error_In; eauto|]. destruct (n =? bl_coll b); auto.
        unfold linear_ids in *. cbn [c_data] in K. rewrite flat_map_app in K. apply in_app_iff in K. destruct K as [K|K]; auto.
        cbn in K. destruct K as [<-|[]]. lia.
    - apply prim_scopes in H. destruct H as [->|[(idx & E)|(E1 & E2 & E3)]].
      + cbn. intros n p I L. apply in_app_iff in I. destruct I as [I|[I|[]]]; auto. injection I as <- <-. lia.
      + apply close_scope_Some in E. destruct E as (_ & r & _ & ->). auto.
      + rewrite E1. auto.
  Qed.

  Lemma Later_Steps s s' : Goes make s -> Goes s s' -> Later s s'.
  Proof.
    intros R H. induction H as [|s1 s2 H IH P]; [apply Later_refl|]. eapply Later_trans; [exact IH|]. apply Later_prim; auto.
    eapply Shape_Steps. eapply Steps_trans; eauto.
  Qed.

  Lemma parents_mono s s' sc : SI s' -> Later s s' -> sc < next_scope s ->
    forall p, In p (parent_scopes s' sc) <-> In p (parent_scopes s sc).
  Proof.
    intros Si' (_ & _ & E1 & E2 & _). unfold parent_scopes, reachable_from. intros L p. rewrite !reach_list_spec.
    assert (Dn : forall n q, In (n, q) (scope_edges s') -> q < n) by (intros n q I; apply (si_edges _ Si') in I; lia).
    split; intros (x & w & I & W); exists x, w; rewrite nexts_In in *.
    - assert (I' : In (sc, x) (scope_edges s)) by (apply E1; auto). split; [exact I'|].
      assert (Lx : x < next_scope s) by (apply Dn in I; lia). clear I I'. revert Lx.
      induction W as [a|a b w c Eab W IH]; intros Lx; [constructor|]. pose proof (Dn _ _ Eab). econstructor; [apply E1; eauto|apply IH; lia].
    - split; [apply E2; exact I|]. clear I. induction W as [a|a b w c Eab W IH]; [constructor|]. econstructor; [apply E2; eauto|auto].
  Qed.

  Lemma current_lt s : SI s -> current_scope s < next_scope s.
  Proof.
    intros [H1 H2 _ _]. unfold current_scope. inversion H1 as [E|n p r I L E]; rewrite <- E in H2; inversion H2; auto.
  Qed.

  Lemma scopes_lt s : Goes make s -> forall g, In g (segs s) -> s_scope g < next_scope s.
  Proof.
    induction 1 as [|s1 s2 H IH P]; [intros g []|]. pose proof (SI_Steps _ _ _ _ _ _ H SI_make) as Si.
    destruct (prim_edges _ _ _ _ _ _ P) as [_ Nx]. pose proof (current_lt _ Si) as Cl. intros g I.
    destruct P as [s|s idx s' E|s l sp s' bid Pl Pe M|s location parent l s' Pl F O'|s bid s' C|s i b l span s' Pl F Il].
    - specialize (IH g I). lia.
    - apply close_scope_Some in E. destruct E as (_ & r & _ & ->). exact (IH g I).
    - apply mk_branch_Some in M. destruct M as (sw & i & b & sp' & _ & _ & _ & _ & _ & ->). cbn in *. apply in_app_iff in I.
      destruct I as [I|I]; [apply IH; auto|]. apply in_map_iff in I. destruct I as (a & <- & _). exact Cl.
    - destruct (child_branched (fun _ => True) _ _ _ _ _ _ _ _ Pl F O') as (sw & i & b & sp & pb & cb & _ & _ & _ & _ & _ & Z). cbn zeta in Z.
      destruct Z as (_ & _ & ->). cbn in *. apply in_app_iff in I.
      destruct I as [I|I]; [apply IH; auto|]. apply in_map_iff in I. destruct I as (a & <- & _). exact Cl.
    - unfold close_branch in C. destruct (nth_error (branches s) bid) as [b|]; [|discriminate]. injection C as <-. exact (IH g I).
    - apply insert_linear_Val in Il. destruct Il as (c & Ec & ->). cbn in *. apply in_app_iff in I.
      destruct I as [I|[<-|[]]]; [apply IH; auto|exact Cl].
  Qed.

  (** What an insertion adds. *)
  Lemma insert_adds l span fuel : forall s s' ok, Goes make s -> insert fw bd ord fuel s l span = Val (s', ok) ->
    Goes s s' /\ same_scopes s s' /\
    forall sid g, length (segs s) <= sid -> nth_error (segs s') sid = Some g ->
      s_scope g = current_scope s /\ ldominates bd (s_from g) l = true /\
      (In sid (steps_of s') -> s_span g = span /\ ldominates bd (s_to g) l = true).
  Proof.
    intros s s' ok R H. assert (St : Goes s s').
    { apply (step_Steps (fun _ => True) fw bd ord fuel s (OpInsert l span) s'); [exact I|]. cbn. rewrite H. reflexivity. }
    split; [exact St|]. split.
    { apply (other_ops_scopes fw bd ord fuel s (OpInsert l span)); try discriminate. cbn. rewrite H. reflexivity. }
    clear St. revert s s' ok R H. induction fuel as [|f IH]; intros s s' ok R; cbn [insert]; [discriminate|]. pose proof (Shape_Steps _ _ _ _ _ R) as Sh.
    destruct (find_suitable_collection bd s l) as [|parent bl|i b] eqn:F.
    - intros [= <- <-] sid g L E. exfalso. assert (sid < length (segs s)) by (apply nth_error_Some; congruence). lia.
    - destruct (open_child_branch fw bd ord s parent bl) as [[s1 [|]]| |] eqn:O; cbn [bind]; try discriminate.
      + intros H. assert (R1 : Goes make s1) by (econstructor; [exact R|eapply prim_child; eauto; exact I]).
        assert (Lt : Later s1 s').
        { apply Later_Steps; auto. apply (step_Steps (fun _ => True) fw bd ord f s1 (OpInsert l span) s'); [exact I|]. cbn. rewrite H. reflexivity. }
        destruct (child_branched (fun _ => True) _ _ _ _ _ _ _ _ I F O) as (sw & i & b & sp & pb & cb & _ & Fb & Eb & _ & _ & Z). cbn zeta in Z.
        destruct Z as (_ & _ & ->). intros sid g L E.
        set (s1 := with_table _ _) in *. assert (S1 : segs s1 = segs s ++ map (fun a => Seg bl (fst a) (snd a) (current_scope s)) (map (fun n => get_span bd sp (Loc n 0)) (successors bd (l_block sw)))) by reflexivity.
        destruct (le_lt_dec (length (segs s1)) sid) as [Ge|Lt1].
        * destruct (IH s1 s' ok R1 H sid g Ge E) as (A & B & C). split; [exact A|auto].
        * destruct Lt as ((new & Sn) & Back & _). rewrite Sn, nth_error_app1 in E by auto. rewrite S1, nth_error_app2 in E by auto.
          apply nth_error_In in E. apply in_map_iff in E. destruct E as (a & <- & _). cbn. split; [auto|]. split.
          -- unfold find_suitable_collection in F. destruct (find_builder bd s l) as [[i' b']|] eqn:Fl; [|discriminate].
             destruct (lpost_dominates bd l (bl_cur b')); [discriminate|]. destruct (find_containing_branch s (bl_coll b')); [|discriminate].
             injection F as _ <-. apply find_builder_Some in Fl. tauto.
          -- intros K. apply Back in K; auto. exfalso. unfold s1 in K. change (steps_of (with_table ?x _)) with (steps_of x) in K.
             rewrite steps_of_branched in K; [|auto|eapply find_builder_lookup; eauto]. apply (steps_of_lt s sid Sh) in K. lia.
      + intros [= <- <-]. apply open_child_Val in O. destruct O as [(s2 & M & [= <-])|(? & ? & ? & ? & _ & _ & _ & E)]; [|discriminate].
        apply mk_branch_None in M. subst. intros sid g L E. exfalso. assert (sid < length (segs s)) by (apply nth_error_Some; congruence). lia.
    - destruct (insert_linear bd s i b l span) as [s1| |] eqn:Il; cbn; try discriminate. intros [= <- <-] sid g L E.
      apply insert_linear_Val in Il. destruct Il as (c & Ec & ->). cbn [segs] in E. rewrite nth_error_app2 in E by auto.
      apply nth_error_In in E. destruct E as [<-|[]]. cbn. split; [auto|].
      apply find_suitable_Linear in F. destruct F as [F _]. apply find_builder_Some in F. split; [tauto|]. intros _. split; [auto|].
      unfold cut. destruct (c_kind c) as [r phi|r]; [|apply ldominates_refl].
      destruct (ldominates bd phi l) eqn:D; [auto|apply ldominates_refl].
  Qed.
End Builder.

(** ** The visitor *)

Definition vars (h : hst) (scope : nat) : list nat :=
  match aget Nat.eq_dec (h_locals h) scope with Some v => v | None => [] end.
Definition filtered (h : hst) (scope : nat) : list nat := flat_map (vars h) (parent_scopes (h_st h) scope).
Definition here (h : hst) : within :=
  Within (vars h (current_scope (h_st h))) (flat_map (vars h) (tl (open_scopes (h_st h)))).

Section Visit.
  Context (env : henv).
  Local Notation bd := (he_body env).
  Local Notation ord := (he_ord env).
  Local Notation fw := (he_fw env).
  Local Notation Goes := (Steps (fun _ => True) fw bd ord).

  Definition Good (h : hst) : Prop :=
    Goes make (h_st h) /\ forall k, In k (akeys (h_locals h)) -> k < next_scope (h_st h).
  Definition Keeps (h h' : hst) : Prop :=
    Good h' /\ Goes (h_st h) (h_st h') /\ open_scopes (h_st h') = open_scopes (h_st h) /\
    forall sc, sc < next_scope (h_st h) -> vars h' sc = vars h sc.

  Definition Explained (pts : list point) (h : hst) (sid : nat) (g : seg) : Prop :=
    exists l span w, In (l, span, w) pts /\ ldominates bd (s_from g) l = true /\
      (In sid (steps_of (h_st h)) -> s_span g = span /\ ldominates bd (s_to g) l = true) /\
      (forall x, In x (filtered h (s_scope g)) <-> In x (w_out w)) /\ vars h (s_scope g) = w_own w.

  Definition Hides (v : hst -> res hst) (pts : within -> list point) : Prop :=
    forall h h', Good h -> v h = Val h' -> Keeps h h' /\
      forall sid g, length (segs (h_st h)) <= sid -> nth_error (segs (h_st h')) sid = Some g ->
        Explained (pts (here h)) h' sid g.

  Lemma Good_SI h : Good h -> SI (h_st h).
  Proof. intros [R _]. eapply SI_Steps; [exact R|apply SI_make]. Qed.

  Lemma Keeps_refl h : Good h -> Keeps h h.
  Proof. intros G. split; [auto|]. split; [constructor|]. auto. Qed.

  Lemma Keeps_trans a b c : Good a -> Keeps a b -> Keeps b c -> Keeps a c.
  Proof.
    intros G (A1 & A2 & A3 & A4) (B1 & B2 & B3 & B4). split; [auto|]. split; [eapply Steps_trans; eauto|]. split; [congruence|].
    intros sc L. rewrite B4, A4; auto. apply (Later_Steps _ _ _ _ _ (proj1 G)) in A2. destruct A2 as (_ & _ & _ & _ & A2). lia.
  Qed.

  Lemma Keeps_same h h' : Good h -> Goes (h_st h) (h_st h') -> same_scopes (h_st h) (h_st h') -> h_locals h' = h_locals h -> Keeps h h'.
  Proof.
    intros [R K] St (E1 & E2 & E3) El. split; [|split; [auto|split; [auto|]]].
    - split; [eapply Steps_trans; eauto|]. rewrite El, E3. auto.
    - intros sc _. unfold vars. rewrite El. auto.
  Qed.

  Lemma here_open h : Good h -> forall sc, In sc (open_scopes (h_st h)) -> sc < next_scope (h_st h).
  Proof. intros G sc I. exact (Desc_lt _ _ _ (si_desc _ (Good_SI _ G)) I). Qed.

  Lemma flat_map_same {A B} (f g : A -> list B) l : (forall x, In x l -> f x = g x) -> flat_map f l = flat_map g l.
  Proof. induction l as [|a l IH]; intros H; cbn; [auto|]. rewrite (H a), IH; cbn; auto. intros x I. apply H. right. auto. Qed.

  Lemma here_same h h' : Good h -> Keeps h h' -> here h' = here h.
  Proof.
    intros G (_ & _ & E & V). unfold here, current_scope. rewrite E. pose proof (here_open h G) as L.
    pose proof (current_lt _ (Good_SI _ G)) as Cl. unfold current_scope in Cl. f_equal.
    - apply V. auto.
    - apply flat_map_same. intros x I. apply V, L. destruct (open_scopes (h_st h)); [destruct I|right; exact I].
  Qed.

  Lemma Explained_later pts pts' h h' sid g : Good h -> Keeps h h' -> nth_error (segs (h_st h)) sid = Some g -> incl pts pts' ->
    Explained pts h sid g -> Explained pts' h' sid g.
  Proof.
    intros G K E Inc (l & span & w & I & D & S1 & F & V). destruct K as ([R' K'] & St & _ & Vs).
    pose proof (scopes_lt _ _ _ _ (proj1 G) g (nth_error_In _ _ E)) as Lg.
    assert (Si' : SI (h_st h')) by (eapply SI_Steps; [exact R'|apply SI_make]).
    pose proof (Later_Steps _ _ _ _ _ (proj1 G) St) as Lt.
    exists l, span, w. split; [auto|]. split; [auto|]. split; [|split].
    - intros J. apply S1. apply Lt; auto. apply nth_error_Some. congruence.
    - intros x. rewrite <- F. unfold filtered. rewrite !in_flat_map. pose proof (parents_mono _ _ _ Si' Lt Lg) as P.
      assert (Up : forall y, In y (parent_scopes (h_st h) (s_scope g)) -> y < next_scope (h_st h)).
      { intros y J. unfold parent_scopes, reachable_from in J. rewrite reach_list_spec in J. destruct J as (z & p & J & W). rewrite nexts_In in J.
        pose proof (si_edges _ (Good_SI _ G)) as Eg. assert (z < next_scope (h_st h)) by (apply Eg in J; lia). clear J.
        induction W as [a|a b p c Eab W IH]; auto. apply IH. apply Eg in Eab. lia. }
      split; intros (y & J & Q); exists y.
      + apply P in J. split; [auto|]. rewrite <- Vs; auto.
      + split; [apply P; auto|]. rewrite Vs; auto.
    - rewrite Vs; auto.
  Qed.

  Lemma Hides_ret : Hides Val (fun _ => []).
  Proof.
    intros h h' G [= <-]. split; [apply Keeps_refl; auto|]. intros sid g L E. exfalso.
    assert (sid < length (segs (h_st h))) by (apply nth_error_Some; congruence). lia.
  Qed.

  Lemma Hides_bind v1 v2 p1 p2 : Hides v1 p1 -> Hides v2 p2 -> Hides (fun h => bind (v1 h) v2) (fun w => p1 w ++ p2 w).
  Proof.
    intros A1 A2 h h' G H. apply bind_Val in H. destruct H as (h1 & H1 & H2).
    destruct (A1 _ _ G H1) as (K1 & X1), (A2 _ _ (proj1 K1) H2) as (K2 & X2). split; [eapply Keeps_trans; eauto|].
    intros sid g L E. rewrite (here_same _ _ G K1) in X2. destruct (le_lt_dec (length (segs (h_st h1))) sid) as [Ge|Lt].
    - specialize (X2 sid g Ge E). destruct X2 as (l & span & w & I & X). exists l, span, w. split; [apply in_or_app; auto|auto].
    - destruct K2 as (G2 & St2 & K2). destruct (Later_Steps _ _ _ _ _ (proj1 (proj1 K1)) St2) as ((new & Sn) & _).
      rewrite Sn, nth_error_app1 in E by auto. apply (Explained_later (p1 (here h)) _ h1); auto.
      + exact (proj1 K1).
      + split; [auto|split; auto].
      + apply incl_appl, incl_refl.
  Qed.

  (** Without any effect on the builder and the variables, before or after. *)
  Definition alike (f : hst -> hst) : Prop := forall h, h_st (f h) = h_st h /\ h_locals (f h) = h_locals h.

  Lemma alike_here f h : alike f -> here (f h) = here h.
  Proof. intros A. unfold here, vars. rewrite (proj1 (A h)), (proj2 (A h)). auto. Qed.
  Lemma alike_keeps f h : alike f -> Good h -> Keeps h (f h).
  Proof.
    intros A G. destruct (A h) as [E1 E2]. apply Keeps_same; auto; rewrite E1; [constructor|repeat split].
  Qed.

  Lemma Hides_before v p f : alike f -> Hides v p -> Hides (fun h => v (f h)) p.
  Proof.
    intros A V h h' G H. pose proof (alike_keeps f h A G) as K. destruct (V _ _ (proj1 K) H) as (K2 & X). split; [eapply Keeps_trans; eauto|].
    rewrite (alike_here f h A), (proj1 (A h)) in X. auto.
  Qed.

  Lemma Hides_after v p f : alike f -> Hides v p -> Hides (fun h => bind (v h) (fun h1 => Val (f h1))) p.
  Proof.
    intros A V h h' G H. apply bind_Val in H. destruct H as (h1 & H1 & H2). injection H2 as <-. destruct (V _ _ G H1) as (K & X).
    pose proof (alike_keeps f h1 A (proj1 K)) as K2. split; [eapply Keeps_trans; eauto|]. intros sid g L E. rewrite (proj1 (A h1)) in E.
    apply (Explained_later (p (here h)) _ h1); auto; [exact (proj1 K)|apply incl_refl].
  Qed.

  Lemma Hides_weaken v p q : Hides v p -> (forall w, incl (p w) (q w)) -> Hides v q.
  Proof.
    intros V I h h' G H. destruct (V _ _ G H) as (K & X). split; [auto|]. intros sid g L E. destruct (X sid g L E) as (l & span & w & J & Y).
    exists l, span, w. split; [apply I; auto|auto].
  Qed.

  Lemma ask_hides l span h h' ok : Good h -> ask env l span h = Val (h', ok) -> Keeps h h' /\
    forall sid g, length (segs (h_st h)) <= sid -> nth_error (segs (h_st h')) sid = Some g -> Explained [(l, span, here h)] h' sid g.
  Proof.
    intros G A. pose proof (ask_st _ _ _ _ _ _ A) as St. destruct (insert_adds _ _ _ _ _ _ _ _ _ (proj1 G) St) as (S1 & S2 & S3).
    assert (El : h_locals h' = h_locals h).
    { unfold ask in A. apply bind_Val in A. destruct A as ([s ok'] & _ & H). cbn [fst snd] in H. injection H as <- _. destruct ok'; reflexivity. }
    assert (K : Keeps h h') by (apply Keeps_same; auto). split; [exact K|]. intros sid g L E.
    destruct (S3 sid g L E) as (Sc & D & Ln). exists l, span, (here h). split; [left; auto|]. split; [auto|]. split; [auto|].
    rewrite <- (here_same _ _ G K). unfold here, filtered. cbn [w_out w_own].
    assert (Ec : s_scope g = current_scope (h_st h')) by (unfold current_scope in *; destruct S2 as (_ & -> & _); auto). rewrite Ec. split; [|auto].
    intros x. rewrite !in_flat_map.
    assert (P : forall p, In p (parent_scopes (h_st h') (current_scope (h_st h'))) <-> In p (tl (open_scopes (h_st h')))).
    { pose proof (si_linked _ (Good_SI _ (proj1 K))) as Lk. unfold current_scope. destruct (open_scopes (h_st h')) as [|n r] eqn:Eo; [inversion Lk|].
      apply (parents_of_open _ (Good_SI _ (proj1 K)) [] n r). exact Eo. }
    split; intros (y & J & Q); exists y; (split; [apply P; auto|auto]).
  Qed.

  Lemma Hides_exit id : Hides (insert_at_exit env id) (fun w => at_end env w id).
  Proof.
    unfold insert_at_exit, at_end. destruct (node_exit env id) as [l|]; [|apply Hides_ret].
    intros h h' G H. apply bind_Val in H. destruct H as ([h1 ok] & A & H). injection H as <-. apply ask_hides with (2 := A); auto.
  Qed.

  (** The scopes that are open are linked, so the parents of the current one are known. *)
  Lemma filtered_here h : Good h -> forall x, In x (filtered h (current_scope (h_st h))) <-> In x (w_out (here h)).
  Proof.
    intros G x. unfold here, filtered. cbn [w_out]. rewrite !in_flat_map.
    assert (P : forall p, In p (parent_scopes (h_st h) (current_scope (h_st h))) <-> In p (tl (open_scopes (h_st h)))).
    { pose proof (si_linked _ (Good_SI _ G)) as Lk. unfold current_scope. destruct (open_scopes (h_st h)) as [|n r] eqn:Eo; [inversion Lk|].
      apply (parents_of_open _ (Good_SI _ G) [] n r). exact Eo. }
    split; intros (y & J & Q); exists y; (split; [apply P; auto|auto]).
  Qed.

  Lemma open_hides l sp h s o span : Good h -> open_branch bd ord (h_st h) l sp = Val (s, o) ->
    Keeps h (set_st h s) /\
    forall sid g, length (segs (h_st h)) <= sid -> nth_error (segs s) sid = Some g -> Explained [(l, span, here h)] (set_st h s) sid g.
  Proof.
    intros G O. destruct o as [bid|].
    - pose proof O as M. unfold open_branch in M. apply mk_branch_Some in M. destruct M as (sw & i & b & sp' & _ & Fb & _ & _ & _ & Es).
      assert (St : Goes (h_st h) s) by (econstructor; [constructor|eapply prim_open_branch; eauto]).
      assert (K : Keeps h (set_st h s)).
      { apply Keeps_same; auto. cbn [h_st set_st]. rewrite Es. repeat split. }
      split; [exact K|]. intros sid g L E. exists l, span, (here h). split; [left; auto|].
      pose proof (Shape_Steps _ _ _ _ _ (proj1 G)) as Sh.
      assert (Gs : s_from g = l /\ s_scope g = current_scope (h_st h)).
      { rewrite Es in E. cbn [segs branched] in E. rewrite nth_error_app2 in E by auto. apply nth_error_In in E. apply in_map_iff in E.
        destruct E as (a & <- & _). auto. }
      destruct Gs as [-> Ec]. split; [apply ldominates_refl|]. split.
      + cbn [h_st set_st]. intros J. exfalso. rewrite Es, steps_of_branched in J; [|auto|eapply find_builder_lookup; eauto].
        apply (steps_of_lt _ _ Sh) in J. lia.
      + rewrite <- (here_same _ _ G K). assert (Ec' : s_scope g = current_scope (h_st (set_st h s))) by (rewrite Ec; cbn [h_st set_st]; rewrite Es; reflexivity).
        rewrite Ec'. split; [apply filtered_here; exact (proj1 K)|reflexivity].
    - unfold open_branch in O. apply mk_branch_None in O. subst s. split; [apply Keeps_same; auto; [constructor|repeat split]|].
      intros sid g L E. exfalso. assert (sid < length (segs (h_st h))) by (apply nth_error_Some; congruence). lia.
  Qed.

  (** Putting two parts together. *)
  Lemma join_parts h h1 h' p1 p2 : Good h -> Keeps h h1 -> Keeps h1 h' ->
    (forall sid g, length (segs (h_st h)) <= sid -> nth_error (segs (h_st h1)) sid = Some g -> Explained p1 h1 sid g) ->
    (forall sid g, length (segs (h_st h1)) <= sid -> nth_error (segs (h_st h')) sid = Some g -> Explained p2 h' sid g) ->
    Keeps h h' /\ forall sid g, length (segs (h_st h)) <= sid -> nth_error (segs (h_st h')) sid = Some g -> Explained (p1 ++ p2) h' sid g.
  Proof.
    intros G K1 K2 X1 X2. split; [eapply Keeps_trans; eauto|]. intros sid g L E. destruct (le_lt_dec (length (segs (h_st h1))) sid) as [Ge|Lt].
    - destruct (X2 sid g Ge E) as (l & span & w & I & X). exists l, span, w. split; [apply in_or_app; auto|auto].
    - pose proof K2 as (G2 & St2 & _). destruct (Later_Steps _ _ _ _ _ (proj1 (proj1 K1)) St2) as ((new & Sn) & _).
      rewrite Sn, nth_error_app1 in E by auto. apply (Explained_later p1 _ h1); auto; [exact (proj1 K1)|]. apply incl_appl, incl_refl.
  Qed.

  Lemma Explained_incl p q h sid g : incl p q -> Explained p h sid g -> Explained q h sid g.
  Proof. intros I (l & span & w & J & Y). exists l, span, w. split; [apply I; auto|auto]. Qed.

  Lemma close_keeps h bid s2 : Good h -> close_branch (h_st h) bid = Val s2 ->
    Keeps h (set_st h s2) /\ forall sid g, length (segs (h_st h)) <= sid -> nth_error (segs s2) sid = Some g -> Explained [] (set_st h s2) sid g.
  Proof.
    intros G C. assert (E : same_scopes (h_st h) s2 /\ segs s2 = segs (h_st h)).
    { unfold close_branch in C. destruct (nth_error (branches (h_st h)) bid); [|discriminate]. injection C as <-. repeat split. }
    destruct E as [E1 E2]. split.
    - apply Keeps_same; auto. econstructor; [constructor|]. eapply prim_close_branch; eauto.
    - rewrite E2. intros sid g L E. exfalso. assert (sid < length (segs (h_st h))) by (apply nth_error_Some; congruence). lia.
  Qed.

  Lemma Hides_branching cnd id entries default vc va pc pa : Hides vc pc -> Hides va pa ->
    Hides (branching env cnd id entries default vc va) (fun w => pc w ++ at_condition env w cnd id ++ pa w).
  Proof.
    intros Vc Va h h' G H. unfold branching in H. apply bind_Val in H. destruct H as ([h1 o] & P & H). unfold prelude in P.
    apply bind_Val in P. destruct P as (h0 & C & P). fold (decided env cnd id) in P. unfold at_condition.
    destruct (Vc _ _ G C) as (K0 & X0). destruct (decided env cnd id) as [l|] eqn:D.
    - apply bind_Val in P. destruct P as ([h2 ok] & A & P). cbn [fst snd] in P. injection P as <- <-.
      destruct (ask_hides _ _ _ _ _ (proj1 K0) A) as (K1 & X1). rewrite (here_same _ _ G K0) in X1.
      destruct (join_parts _ _ _ _ _ G K0 K1 X0 X1) as (K2 & X2).
      assert (Sub : forall q, incl (pc (here h) ++ [(l, he_span env cnd, here h)]) (pc (here h) ++ [(l, he_span env cnd, here h)] ++ q)).
      { intros q x I. rewrite app_assoc. apply in_or_app. auto. }
      destruct ok.
      2:{ injection H as <-. split; [exact K2|]. intros sid g L E. eapply Explained_incl; [apply Sub|]. auto. }
      apply bind_Val in H. destruct H as ([s o] & O & H).
      destruct (open_hides _ _ _ _ _ (he_span env cnd) (proj1 K2) O) as (K3 & X3). rewrite (here_same _ _ G K2) in X3.
      destruct (join_parts _ _ _ _ _ G K2 K3 X2 X3) as (K4 & X4).
      destruct o as [bid|].
      + apply bind_Val in H. destruct H as (h3 & A3 & H). apply bind_Val in H. destruct H as (s2 & Cl & H). injection H as <-.
        destruct (Va _ _ (proj1 K4) A3) as (K5 & X5). rewrite (here_same _ _ G K4) in X5.
        destruct (join_parts _ _ _ _ _ G K4 K5 X4 X5) as (K6 & X6).
        destruct (close_keeps _ _ _ (proj1 K6) Cl) as (K7 & X7).
        destruct (join_parts _ _ _ _ _ G K6 K7 X6 X7) as (K8 & X8). split; [exact K8|].
        intros sid g L E. eapply Explained_incl; [|apply X8; auto]. intros x I. rewrite !in_app_iff in *. cbn [In] in *. tauto.
      + injection H as <-. assert (K5 : Keeps h (fatal (set_st h2 s) (ErrBranch l))).
        { eapply Keeps_trans; [exact G|exact K4|]. apply Keeps_same; [exact (proj1 K4)|constructor|repeat split|reflexivity]. }
        split; [exact K5|]. intros sid g L E. eapply Explained_incl; [|eapply (Explained_later _ _ (set_st h2 s)); [exact (proj1 K4)| |exact E|apply incl_refl|apply X4; auto]].
        * intros x I. rewrite !in_app_iff in *. cbn [In] in *. tauto.
        * apply Keeps_same; [exact (proj1 K4)|constructor|repeat split|reflexivity].
    - injection P as <- <-. injection H as <-. split; [exact K0|]. intros sid g L E. eapply Explained_incl; [apply incl_appl, incl_refl|]. auto.
  Qed.

  Lemma alike_push l : alike (fun h => push_hint h l).
  Proof. intros h. split; reflexivity. Qed.
  Lemma alike_pop l : alike (fun h => pop_hint h l).
  Proof. intros h. unfold pop_hint. destruct (h_hints h) as [|x r]; [auto|]. destruct (loc_eqd x l); split; reflexivity. Qed.

  Lemma Hides_hinted id v p : Hides v p -> Hides (hinted env id v) p.
  Proof.
    intros V. unfold hinted. destruct (node_entry env id) as [l|].
    - apply (Hides_after (fun h => v (push_hint h l)) p (fun h => pop_hint h l)); [apply alike_pop|].
      apply (Hides_before v p (fun h => push_hint h l)); [apply alike_push|auto].
    - eapply Hides_weaken; [apply Hides_ret|]. intros w x [].
  Qed.

  (** A scope, with variables of its own. *)
  Lemma scope_hides h h2 ls v p : Good h -> Hides v p ->
    let s := fst (open_scope (h_st h)) in let scope := snd (open_scope (h_st h)) in
    let h1 := match ls with [] => set_st h s | _ => set_locals (set_st h s) (aset Nat.eq_dec (h_locals h) scope ls) end in
    v h1 = Val h2 ->
    exists s2, end_scope scope h2 = (set_st h2 s2, true) /\ Keeps h (set_st h2 s2) /\
      forall sid g, length (segs (h_st h)) <= sid -> nth_error (segs s2) sid = Some g -> Explained (p (enter ls (here h))) (set_st h2 s2) sid g.
  Proof.
    intros G V s scope h1 H. unfold open_scope in s, scope. cbn [fst snd] in s, scope.
    assert (Gs : Goes (h_st h) s) by (econstructor; [constructor|apply (prim_open_scope (fun _ => True) fw bd ord (h_st h))]).
    assert (Fresh : aget Nat.eq_dec (h_locals h) scope = None).
    { apply aget_None. intros I. apply (proj2 G) in I. unfold scope in I. lia. }
    assert (E1 : h_st h1 = s) by (unfold h1; destruct ls; reflexivity).
    assert (V1 : forall sc, vars h1 sc = if sc =? scope then ls else vars h sc).
    { intros sc. unfold h1, vars. destruct (Nat.eqb_spec sc scope) as [->|N]; destruct ls as [|x r]; cbn [h_locals set_st set_locals]; auto.
      - rewrite Fresh. auto.
      - rewrite aget_aset_eq. auto.
      - rewrite aget_aset_neq; auto. }
    assert (G1 : Good h1).
    { split; [rewrite E1; eapply Steps_trans; [exact (proj1 G)|exact Gs]|]. rewrite E1. intros k I. cbn [next_scope s].
      assert (J : k = scope \/ In k (akeys (h_locals h))).
      { unfold h1 in I. destruct ls; [right; exact I|]. cbn [h_locals set_st set_locals] in I. unfold akeys in I. rewrite aset_keys in I. exact I. }
      unfold s. cbn. destruct J as [->|J]; [unfold scope; lia|apply (proj2 G) in J; lia]. }
    assert (H1 : here h1 = enter ls (here h)).
    { unfold here, enter. rewrite E1. cbn [w_own w_out]. unfold current_scope at 1, s. cbn [open_scopes tl]. rewrite V1, Nat.eqb_refl. f_equal.
      assert (Ev : flat_map (vars h1) (open_scopes (h_st h)) = flat_map (vars h) (open_scopes (h_st h))).
      { apply flat_map_same. intros x I. rewrite V1. apply (here_open h G) in I. destruct (Nat.eqb_spec x scope); [unfold scope in *; lia|auto]. }
      rewrite Ev. unfold current_scope. pose proof (si_linked _ (Good_SI _ G)) as Lk. destruct (open_scopes (h_st h)); [inversion Lk|reflexivity]. }
    destruct (V _ _ G1 H) as (K & X). rewrite H1, E1 in X. destruct K as (G2 & St2 & Op & Vs). rewrite E1 in St2, Op, Vs.
    assert (Z : scope <> 0).
    { unfold scope. pose proof (base_open _ (Good_SI _ G)) as B. apply (here_open h G) in B. lia. }
    assert (C : exists s2, close_scope (h_st h2) scope = Some s2 /\ open_scopes s2 = open_scopes (h_st h) /\ segs s2 = segs (h_st h2) /\ next_scope s2 = next_scope (h_st h2) /\ scope_edges s2 = scope_edges (h_st h2) /\ steps_of s2 = steps_of (h_st h2)).
    { unfold close_scope. rewrite Op. cbn [open_scopes s]. destruct (Nat.eqb_spec scope 0); [contradiction|]. unfold scope. rewrite Nat.eqb_refl.
      eexists. split; [reflexivity|]. auto. }
    destruct C as (s2 & C & O2 & Sg2 & N2 & Ed2 & So2). exists s2. split; [unfold end_scope; rewrite C; auto|].
    assert (Kk : Keeps h (set_st h2 s2)).
    { split; [|split; [|split; [exact O2|]]].
      - split; [cbn [h_st set_st]; eapply Steps_trans; [exact (proj1 G2)|]; econstructor; [constructor|eapply prim_close_scope; eauto]|].
        cbn [h_st h_locals set_st]. rewrite N2. exact (proj2 G2).
      - cbn [h_st set_st]. eapply Steps_trans; [exact Gs|]. eapply Steps_trans; [exact St2|]. econstructor; [constructor|eapply prim_close_scope; eauto].
      - intros sc L. change (vars (set_st h2 s2) sc) with (vars h2 sc). rewrite Vs, V1; [|cbn [next_scope s]; lia].
        destruct (Nat.eqb_spec sc scope); [unfold scope in *; lia|auto]. }
    split; [exact Kk|]. intros sid g L E. rewrite Sg2 in E. destruct (X sid g L E) as (l & span & w & I & D & Ln & F & Vw).
    exists l, span, w. split; [auto|]. split; [auto|]. cbn [h_st set_st]. rewrite So2. split; [auto|]. split; [|exact Vw].
    intros x. rewrite <- F. unfold filtered, parent_scopes. cbn [h_st set_st]. rewrite Ed2. tauto.
  Qed.

  Lemma Hides_stmt id ls v p : Hides v p ->
    Hides (fun h => let '(s, scope) := open_scope (h_st h) in
       bind (v (match ls with [] => set_st h s | _ => set_locals (set_st h s) (aset Nat.eq_dec (h_locals h) scope ls) end)) (fun h2 =>
         match end_scope scope h2 with (h3, true) => insert_at_exit env id h3 | (h3, false) => Val h3 end))
      (fun w => p (enter ls w) ++ at_end env w id).
  Proof.
    intros V h h' G H. pose proof (fun h2 => scope_hides h h2 ls v p G V) as Sc. destruct (open_scope (h_st h)) as [s scope]. cbn [fst snd] in Sc.
    apply bind_Val in H. destruct H as (h2 & H2 & H). destruct (Sc h2 H2) as (s2 & E & K & X). rewrite E in H.
    destruct (Hides_exit id _ _ (proj1 K) H) as (K2 & X2). rewrite (here_same _ _ G K) in X2.
    exact (join_parts _ _ _ _ _ G K K2 X X2).
  Qed.

  Lemma Hides_block v p : Hides v p ->
    Hides (fun h => let '(s, scope) := open_scope (h_st h) in bind (v (set_st h s)) (fun h2 => Val (fst (end_scope scope h2))))
      (fun w => p (enter [] w)).
  Proof.
    intros V h h' G H. pose proof (fun h2 => scope_hides h h2 [] v p G V) as Sc. destruct (open_scope (h_st h)) as [s scope]. cbn [fst snd] in Sc.
    apply bind_Val in H. destruct H as (h2 & H2 & H). destruct (Sc h2 H2) as (s2 & E & K & X). rewrite E in H. injection H as <-. auto.
  Qed.

  Lemma bind_assoc {A B C} (x : res A) (f : A -> res B) (g : B -> res C) : bind (bind x f) g = bind x (fun a => bind (f a) g).
  Proof. destruct x; reflexivity. Qed.

  Lemma Hides_ext v v' p : (forall h, v h = v' h) -> Hides v p -> Hides v' p.
  Proof. intros E V h h' G H. rewrite <- E in H. apply V; auto. Qed.

  Lemma hidden :
    (forall e, Hides (visit_expr env e) (fun w => steps_expr env w e)) /\
    (forall o, match o with ESome e => Hides (visit_expr env e) (fun w => steps_expr env w e) | ENone => True end) /\
    (forall l, Hides (visit_exprs env l) (fun w => steps_exprs env w l) /\ Hides (visit_bodies env l) (fun w => steps_bodies env w l)) /\
    (forall a, Hides (visit_arm env a) (fun w => steps_arm env w a)) /\
    (forall l, Hides (visit_arms env l) (fun w => steps_arms env w l)) /\
    (forall b, Hides (visit_block env b) (fun w => steps_block env w b)) /\
    (forall l, Hides (visit_stmts env l) (fun w => steps_stmts env w l)) /\
    (forall s, Hides (visit_stmt env s) (fun w => steps_stmt env w s)) /\
    (forall o, match o with BSome b => Hides (visit_block env b) (fun w => steps_block env w b) | BNone => True end).
  Proof.
    apply hir_mind.
    - (* EIf *) intros id cnd IHc thn IHt els IHe. cbn [visit_expr steps_expr].
      apply (Hides_branching _ _ _ _ _ _ (fun w => steps_expr env w cnd) (fun w => steps_expr env w thn ++ steps_oexpr env w els)); [exact IHc|].
      apply (Hides_bind _ _ (fun w => steps_expr env w thn) (fun w => steps_oexpr env w els)); [apply Hides_hinted; exact IHt|].
      destruct els as [|x]; [apply Hides_ret|apply (Hides_hinted _ _ (fun w => steps_expr env w x)); exact IHe].
    - (* EWhile *) intros id cnd IHc thn IHt els IHe. cbn [visit_expr steps_expr].
      apply (Hides_branching _ _ _ _ _ _ (fun w => steps_expr env w cnd) (fun w => steps_expr env w thn ++ steps_expr env w els)); [exact IHc|].
      apply (Hides_bind _ _ (fun w => steps_expr env w thn) (fun w => steps_expr env w els)); apply Hides_hinted; auto.
    - (* EFor *) intros id cnd IHc none IHn some IHs. cbn [visit_expr steps_expr].
      apply (Hides_branching _ _ _ _ _ _ (fun w => steps_expr env w cnd) (fun w => steps_arm env w none ++ steps_arm env w some)); [exact IHc|].
      apply (Hides_bind _ _ (fun w => steps_arm env w none) (fun w => steps_arm env w some)); auto.
    - (* EMatch *) intros id d cnd IHc ar IHa. cbn [visit_expr steps_expr]. rewrite decision_test.
      destruct (no_decision env d cnd ar).
      + apply (Hides_bind _ _ (fun w => steps_expr env w cnd) (fun w => steps_arms env w ar)); auto.
      + apply (Hides_branching _ _ _ _ _ _ (fun w => steps_expr env w cnd) (fun w => steps_arms env w ar)); auto.
    - intros id b IH. exact IH.
    - (* EClosure *) intros id v IH. cbn [visit_expr steps_expr].
      apply (Hides_bind _ _ (fun w => steps_expr env w v) (fun w => at_end env w (expr_id v))); [auto|apply Hides_exit].
    - intros id l IH. exact (proj1 IH).
    - exact I.
    - intros e IH. exact IH.
    - split; apply Hides_ret.
    - intros e IHe r [IHr IHb]. cbn. split.
      + apply (Hides_bind _ _ (fun w => steps_expr env w e) (fun w => steps_exprs env w r)); auto.
      + apply (Hides_bind _ _ (fun w => steps_expr env w e) (fun w => at_end env w (expr_id e) ++ steps_bodies env w r)); auto.
        apply (Hides_bind _ _ (fun w => at_end env w (expr_id e)) (fun w => steps_bodies env w r)); [apply Hides_exit|auto].
    - (* Arm *) intros id pat g IHg b IHb. cbn [visit_arm steps_arm].
      apply (Hides_before (fun h0 => match node_entry env id with
        | None => Val h0
        | Some l =>
          match node_entry env (expr_id b) with
          | Some entry => bind (ask env entry (he_lo env id) (push_hint h0 l)) (fun r => if snd r then bind (visit_expr env b (fst r)) (fun h2 => Val (pop_hint h2 l)) else Val (fst r))
          | None => bind (match g with ESome g => visit_expr env g (push_hint h0 l) | ENone => Val (push_hint h0 l) end) (fun h2 => bind (visit_expr env b h2) (fun h3 => Val (pop_hint h3 l)))
          end
        end) _ (fun h => if has_guard g then unsupported h id else h)).
      { intros h. destruct (has_guard g); split; reflexivity. }
      destruct (node_entry env id) as [l|]; [|eapply Hides_weaken; [apply Hides_ret|intros w x []]].
      apply (Hides_before (fun h1 => match node_entry env (expr_id b) with
          | Some entry => bind (ask env entry (he_lo env id) h1) (fun r => if snd r then bind (visit_expr env b (fst r)) (fun h2 => Val (pop_hint h2 l)) else Val (fst r))
          | None => bind (match g with ESome g => visit_expr env g h1 | ENone => Val h1 end) (fun h2 => bind (visit_expr env b h2) (fun h3 => Val (pop_hint h3 l)))
          end) _ (fun h => push_hint h l)); [apply alike_push|].
      pose proof (Hides_after _ _ _ (alike_pop l) IHb) as IHb'.
      destruct (node_entry env (expr_id b)) as [entry|].
      + intros h h' G H. apply bind_Val in H. destruct H as ([h1 ok] & A & H). cbn [fst snd] in H.
        destruct (ask_hides _ _ _ _ _ G A) as (K1 & X1). destruct ok.
        * destruct (IHb' _ _ (proj1 K1) H) as (K2 & X2). rewrite (here_same _ _ G K1) in X2. exact (join_parts _ _ _ _ _ G K1 K2 X1 X2).
        * injection H as <-. split; [exact K1|]. intros sid x L E. eapply Explained_incl; [apply incl_appl, incl_refl|]. auto.
      + apply (Hides_bind (fun h1 => match g with ESome g => visit_expr env g h1 | ENone => Val h1 end) _ (fun w => steps_oexpr env w g) (fun w => steps_expr env w b)).
        * destruct g as [|x]; [apply Hides_ret|exact IHg].
        * exact IHb'.
    - apply Hides_ret.
    - intros a IHa r IHr. cbn. apply (Hides_bind _ _ (fun w => steps_arm env w a) (fun w => steps_arms env w r)); auto.
    - (* Blk *) intros ss IHs t IHt. cbn [visit_block steps_block].
      eapply Hides_ext; [|apply (Hides_block (fun h => bind (visit_stmts env ss h) (fun h1 => match t with ESome e => bind (visit_expr env e h1) (insert_at_exit env (expr_id e)) | ENone => Val h1 end))
         (fun w => steps_stmts env w ss ++ match t with ESome e => steps_expr env w e ++ at_end env w (expr_id e) | ENone => [] end))].
      + intros h. unfold open_scope. apply bind_assoc.
      + apply (Hides_bind _ _ (fun w => steps_stmts env w ss) (fun w => match t with ESome e => steps_expr env w e ++ at_end env w (expr_id e) | ENone => [] end)); [exact IHs|].
        destruct t as [|e]; [apply Hides_ret|]. apply (Hides_bind _ _ (fun w => steps_expr env w e) (fun w => at_end env w (expr_id e))); [exact IHt|apply Hides_exit].
    - apply Hides_ret.
    - intros s IHs r IHr. cbn. apply (Hides_bind _ _ (fun w => steps_stmt env w s) (fun w => steps_stmts env w r)); auto.
    - (* SLet *) intros id init IHi els IHe. cbn [visit_stmt steps_stmt stmt_id].
      eapply Hides_ext; [|apply (Hides_stmt id (he_locals env id) (fun h1 => bind (match init with ESome e => visit_expr env e h1 | ENone => Val h1 end) (fun h2 => match els with BSome b => visit_block env b h2 | BNone => Val h2 end))
        (fun w => steps_oexpr env w init ++ steps_oblk env w els))].
      { intros h. unfold open_scope. destruct (he_locals env id); reflexivity. }
      apply (Hides_bind (fun h1 => match init with ESome e => visit_expr env e h1 | ENone => Val h1 end) _ (fun w => steps_oexpr env w init) (fun w => steps_oblk env w els)).
      + destruct init; [apply Hides_ret|exact IHi].
      + destruct els; [apply Hides_ret|exact IHe].
    - (* SExpr *) intros id e IHe. cbn [visit_stmt steps_stmt stmt_id]. apply (Hides_stmt id [] (visit_expr env e) (fun w => steps_expr env w e)). exact IHe.
    - (* SItem *) intros id l IHl. cbn [visit_stmt steps_stmt stmt_id]. apply (Hides_stmt id [] (visit_bodies env l) (fun w => steps_bodies env w l)). exact (proj2 IHl).
    - exact I.
    - intros b IH. exact IH.
  Qed.

  Lemma hidden_body v : Hides (visit_body env v) (fun w => steps_expr env w v ++ at_end env w (expr_id v)).
  Proof. apply (Hides_bind _ _ (fun w => steps_expr env w v) (fun w => at_end env w (expr_id v))); [apply hidden|apply Hides_exit]. Qed.

  Lemma hidden_start v h : visit_body env v hmake = Val h ->
    forall sid g, nth_error (segs (h_st h)) sid = Some g -> Explained (steps_body env v) h sid g.
  Proof.
    intros H sid g E. assert (G : Good hmake) by (split; [constructor|intros k []]).
    apply (hidden_body v _ _ G H). cbn. lia. exact E.
  Qed.
End Visit.
