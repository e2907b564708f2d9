(** * Property C100: the steps of a whole function

    Only the statements below and StepsSpec.v have to be read, which speaks of the syntax of the
    function (HirSpec.v), its executions (CfgSpec.v, SegMirSpec.v), the facts (FactsSpec.v), the lines of
    the file ([LineEnd] in TablesSpec.v) and the reported errors (SpansSpec.v, [TrackedAs] in UsesSpec.v). *)
From Coq Require Import List Arith Bool Lia Permutation Sorted.
From Verif Require UsesSpec UsesProofs.
From Verif Require Import Base PermsModel FactsModel FactsSpec FactsProofs SpansModel SpansSpec SpansProofs CfgModel CfgSpec CfgProofs
  SegMirModel SegMirSpec SegMirProofs SegMirScopes SegMirClose SegMirTree SegMirSound SegMirInsert HirModel HirSpec HirProofs
  HirHide HirSides TablesModel TablesSpec TablesProofs TablesExact TablesPretty PropFacts PropSpans PropCfg PropSegMir PropHir PropTables PropHide
  PropGuards StepsModel StepsSpec StepsProofs.
Import ListNotations.

(** ** Answers *)

Lemma answered env st id value m order hash lines ls :
  compute_permission_steps env st id value m order hash lines = Val (Answered ls) ->
  exists h ts err, compute (se_hir env) value = Val (HDone h) /\
    body_tables (table_builder env h) (h_st h) (Loc 0 0) (he_lo (se_hir env) (expr_id value)) = Some ts /\
    error_end env st id = Some err /\
    ls = map (show env) (prettify (prettifier env err) m hash lines (order ts)).
Proof.
  unfold compute_permission_steps. intros H. apply bind_Val in H as (r & C & H). destruct r as [h| | |]; try discriminate.
  destruct (body_tables _ _ _ _) as [ts|] eqn:B; [|discriminate]. destruct (error_end env st id) as [err|] eqn:E; [|discriminate].
  injection H as <-. exists h, ts, err. auto.
Qed.

Lemma error_end_spec env st id post : UsesSpec.TrackedAs st id post ->
  exists err, error_end env st id = Some err /\
    (forall s s', FirstError post s -> se_local env s = Some s' -> err = Some (hi s')) /\
    (forall e, err = Some e -> exists s s', FirstError post s /\ se_local env s = Some s' /\ e = hi s').
Proof.
  intros (pre & -> & H). pose proof (C16_first_error pre id post id H) as C. cbv zeta in C. unfold error_end.
  destruct (get_span_of_first_error _ id) as [[s|]|]; [| |congruence].
  - destruct C as [_ F]. exists (option_map hi (se_local env s)). split; auto. split.
    + intros s1 s' F1 E. rewrite (UsesProofs.FirstError_unique _ _ _ F1 F) in E. rewrite E. reflexivity.
    + intros e E. destruct (se_local env s) as [s'|] eqn:L; [|discriminate]. injection E as <-. eauto.
  - destruct C as [_ N]. exists None. split; auto. split; [|discriminate].
    intros s s' (b & d & a & -> & E & _) _. rewrite N in E; [discriminate|]. apply in_or_app. right. left. auto.
Qed.

Lemma tables_keys env value h ts : Asked env -> visit_body (se_hir env) value hmake = Val h ->
  body_tables (table_builder env h) (h_st h) (Loc 0 0) (he_lo (se_hir env) (expr_id value)) = Some ts ->
  NoDup (akeys ts).
Proof.
  intros A V B. pose proof (Shape_Steps _ _ _ _ _ (walked _ _ _ V)) as Sh.
  destruct (body_tables_Grown (table_builder env h) (h_st h) (Loc 0 0) (he_lo (se_hir env) (expr_id value)) Sh
    (wf_builder env h) (body_tables_arms _ _ _ _ _ Sh B)) as (r & t & E & _ & _ & _ & G).
  rewrite B in E. injection E as <-. apply (g_nodup _ _ _ G). constructor.
Qed.

Lemma table_in env value h ts l v t p d : Asked env -> visit_body (se_hir env) value hmake = Val h ->
  body_tables (table_builder env h) (h_st h) (Loc 0 0) (he_lo (se_hir env) (expr_id value)) = Some ts ->
  In (l, v) ts -> In t v -> In (p, d) (t_data t) ->
  exists x from to, the_place env p = Some x /\ Origin env value x from to (t_span t) /\
    t_from t = match from with Some a => a | None => Loc 0 0 end /\ t_to t = to /\
    RowSays (se_inp env) x (option_map (se_point env) from) (se_point env to) d.
Proof.
  intros A V B I J K. pose proof (tables_keys _ _ _ _ A V B) as N. apply (table_origin env value h ts l t p d); auto.
  unfold at_loc. rewrite (In_aget _ _ loc_eqd _ _ _ N I). auto.
Qed.

Lemma row_of env value m err pos x p d from to span : 
  Shown (prettifier env err) m p d -> the_place env p = Some x -> Origin env value x from to span ->
  RowSays (se_inp env) x (option_map (se_point env) from) (se_point env to) d ->
  LineEnd (se_text env) (se_hi env span) pos ->
  RowOf env value m pos x d from to span.
Proof.
  intros (Vi & Li & Em) Px O R L. cbn in Vi. unfold place_visible in Vi. rewrite Px in Vi.
  split. { apply nth_error_In in Px. unfold domain_places in Px. apply nodup_In in Px. auto. }
  repeat (split; auto).
  - destruct R as (u & a & v & b & Hu & Hv & _ & Tl & _). destruct (dd_is_live d) as [w| |w]; cbn in Tl.
    + right. apply (proj1 (proj1 Hv)). apply Tl.
    + left. destruct Tl as [Tl _]. destruct from as [l|]; cbn in Hu; [|destruct Hu; congruence]. exists l. split; auto. apply (proj1 (proj1 (proj1 Hu))). auto.
    + destruct Tl as [E ->]. right. apply (proj1 (proj1 Hv)). rewrite <- E. destruct (is_live u); congruence.
  - intros Em'. specialize (Em Em'). clear Em'. destruct R as (u & a & v & b & _ & _ & _ & _ & _ & _ & _ & _ & _ & _ & _ & T1 & T2 & T3).
    unfold ddiff_is_empty, pdiff_is_empty in Em. unfold LetterTurns, Gained, Lost.
    destruct (pd_read (dd_permissions d)) as [w| |w] eqn:E1; cbn in Em, T1;
      [exists (High w); split; auto; left; destruct T1 as (_ & _ & ->); auto|exists Low; auto|].
    destruct (pd_write (dd_permissions d)) as [w'| |w'] eqn:E2; cbn in Em, T2;
      [exists (High w'); split; auto; left; destruct T2 as (_ & _ & ->); auto|exists Low; auto|].
    destruct (pd_drop (dd_permissions d)) as [w''| |w''] eqn:E3; cbn in Em, T3;
      [exists (High w''); split; auto; left; destruct T3 as (_ & _ & ->); auto|exists Low; auto|discriminate].
Qed.

Lemma Forall_choose {A B} (P : A -> B -> Prop) l : Forall (fun b => exists a, P a b) l -> exists xs, Forall2 P xs l.
Proof.
  induction 1 as [|b l (a & H) _ (xs & F)]; [exists []|exists (a :: xs)]; constructor; auto.
Qed.

Lemma places_NoDup env (Q : Place -> DataDiff -> Prop) xs rs :
  Forall2 (fun x pd => the_place env (fst pd) = Some x /\ Q x (snd pd)) xs rs -> NoDup (map fst rs) -> NoDup xs.
Proof.
  induction 1 as [|x pd xs rs [H _] F IH]; intros N; [constructor|]. inversion N as [|? ? Ni N']; subst. constructor; auto.
  intros I. apply Ni. clear Ni N N' IH. induction F as [|y qd xs rs [H' _] F IH]; [destruct I|]. destruct I as [->|I]; [left|right; auto].
  eapply NoDup_nth_error; [apply (NoDup_nodup place_eqd (in_places (se_inp env)))| |]; [apply nth_error_Some; unfold the_place, domain_places in H'; congruence|].
  unfold the_place, domain_places in *. congruence.
Qed.

Lemma places_sorted env err (Q : Place -> DataDiff -> Prop) xs rs :
  Forall2 (fun x pd => the_place env (fst pd) = Some x /\ Q x (snd pd)) xs rs ->
  StronglySorted (RowLe (prettifier env err)) rs -> StronglySorted PlaceLe xs.
Proof.
  induction 1 as [|x pd xs rs [H _] F IH]; intros N; [constructor|]. inversion N as [|? ? N' Le]; subst. constructor; auto.
  clear N N' IH. induction F as [|y qd xs rs [H' _] F IH]; [constructor|]. inversion Le as [|? ? L1 L2]; subst. constructor; auto.
  unfold RowLe in L1. cbn [prettifier w_local w_depth] in L1. unfold place_local, place_depth in L1. rewrite H, H' in L1. exact L1.
Qed.

Section Lines.
  Variables (env : senv) (st : DiagState) (id : nat) (post : list DiagOp) (value : expr) (m : mode).
  Variable order : tables -> tables.
  Variable hash : list (PlaceId * DataDiff) -> list (PlaceId * DataDiff).
  Variable lines : list (nat * list entry) -> list (nat * list entry).
  Hypothesis asked : Asked env.
  Hypothesis tracked : UsesSpec.TrackedAs st id post.
  Hypothesis order_ok : Shuffle order.
  Hypothesis hash_ok : Shuffle hash.
  Hypothesis lines_ok : Shuffle lines.
  Variable ls : list shown.
  Hypothesis done : compute_permission_steps env st id value m order hash lines = Val (Answered ls).

  Lemma line_ok y : In y ls ->
    sl_rows y <> [] /\ BeforeError env post (sl_pos y) /\
    (exists x d from to span, RowOf env value m (sl_pos y) x d from to span /\
       sl_from y = match from with Some a => a | None => Loc 0 0 end /\ sl_to y = to) /\
    exists xs, NoDup xs /\ StronglySorted PlaceLe xs /\
      Forall2 (fun x r => Named env x (fst r) /\ exists from to span, RowOf env value m (sl_pos y) x (snd r) from to span) xs (sl_rows y).
  Proof.
    intros I. destruct (answered _ _ _ _ _ _ _ _ _ done) as (h & ts & err & C & B & Ee & ->).
    apply in_map_iff in I as (z & <- & I). pose proof (compute_done _ _ _ C) as V.
    destruct (error_end_spec env st id post tracked) as (err' & Ee' & Er & _). rewrite Ee in Ee'. injection Ee' as <-.
    pose proof (fun l v => Permutation_in (l, v) (order_ok ts)) as Po.
    destruct (C31_rows_ordered _ _ _ _ _ _ hash_ok lines_ok I) as (Ne & So & Nd).
    destruct (prettify_first _ _ _ _ _ _ hash_ok lines_ok I) as (l0 & v0 & t0 & p0 & d0 & I0 & J0 & P0 & L0 & F0 & T0 & Ti & K0 & S0).
    destruct (C31_position _ _ _ _ _ _ hash_ok lines_ok I) as (_ & _ & Pos).
    specialize (Pos (fun l v t _ _ => asked_spans _ asked (t_span t))).
    cbn [show sl_rows sl_pos sl_from sl_to]. split; [destruct (y_rows z); [congruence|discriminate]|]. split.
    { intros s s' F E. specialize (Ti (hi s')). rewrite P0. apply Ti. cbn. eapply Er; eauto. }
    split.
    { destruct (table_in env value h ts l0 v0 t0 p0 d0) as (x & from & to & Px & Or & Ef & Et & R); auto.
      exists x, d0, from, to, (t_span t0). split; [|split; congruence].
      apply (row_of env value m err (y_pos z) x p0 d0); auto. apply (Pos l0 v0 t0); auto. rewrite <- P0. auto. }
    assert (Rows : Forall (fun pd => exists x, the_place env (fst pd) = Some x /\ exists from to span, RowOf env value m (y_pos z) x (snd pd) from to span) (y_rows z)).
    { apply Forall_forall. intros [p d] Ip. destruct (C31_rows_sound _ _ _ _ _ _ _ _ hash_ok lines_ok I Ip) as (l & v & t & I1 & I2 & I3 & E & Sh & _).
      destruct (table_in env value h ts l v t p d) as (x & from & to & Px & Or & Ef & Et & R); auto.
      exists x. split; auto. exists from, to, (t_span t). apply (row_of env value m err (y_pos z) x p d); auto. apply (Pos l v t); auto. }
    destruct (Forall_choose _ _ Rows) as (xs & F). exists xs. split; [exact (places_NoDup env (fun x d => exists from to span, RowOf env value m (y_pos z) x d from to span) _ _ F Nd)|].
    split; [exact (places_sorted env err (fun x d => exists from to span, RowOf env value m (y_pos z) x d from to span) _ _ F So)|].
    clear - F. induction F as [|x [p d] xs rs [H1 H2] F IH]; constructor; auto. cbn [fst snd] in *. split; [|exact H2].
    unfold place_name. rewrite H1. unfold Named. destruct (se_name env x); auto.
  Qed.
End Lines.

(** Every line of the answer has rows, and stands at the end of its line, not behind the first error.  No two
    stand at one end.  Its rows are those of different places, in order, named; every row is due to a step of
    the source, that ends on this line, and says how its place changes between the ends of the step.  The two
    ranges of the line's table are the ends of such a step. *)
Theorem C100_lines :
  forall env st id post value m order hash lines ls,
    Asked env -> UsesSpec.TrackedAs st id post -> Shuffle order -> Shuffle hash -> Shuffle lines ->
    compute_permission_steps env st id value m order hash lines = Val (Answered ls) ->
    NoDup (map sl_pos ls) /\
    forall y, In y ls ->
      sl_rows y <> [] /\ BeforeError env post (sl_pos y) /\
      (exists x d from to span, RowOf env value m (sl_pos y) x d from to span /\
         sl_from y = match from with Some a => a | None => Loc 0 0 end /\ sl_to y = to) /\
      exists xs, NoDup xs /\ StronglySorted PlaceLe xs /\
        Forall2 (fun x r => Named env x (fst r) /\
                   exists from to span, RowOf env value m (sl_pos y) x (snd r) from to span) xs (sl_rows y).
Proof.
  intros env st id post value m order hash lines ls A T So Sh Sl C. split; [|intros y; eapply line_ok; eauto].
  destruct (answered _ _ _ _ _ _ _ _ _ C) as (h & ts & err & _ & _ & _ & ->). rewrite map_map. cbn [show sl_pos].
  pose proof (C31_once (prettifier env err) m hash lines (order ts) Sh Sl) as N.
  assert (E : map y_line (prettify (prettifier env err) m hash lines (order ts)) =
              map (line_at (prettifier env err)) (map y_pos (prettify (prettifier env err) m hash lines (order ts)))).
  { rewrite map_map. apply map_ext_in. intros y I. apply (C31_position _ _ _ _ _ _ Sh Sl I). }
  rewrite E in N. apply NoDup_map_inv in N. exact N.
Qed.
Print Assumptions C100_lines.

(** ** Failures *)

(** The tables and lines add one failure to those of the visitor: a decision in a block that control does not
    leave. *)
Theorem C100_failures :
  forall env st id post value m order hash lines, Asked env -> UsesSpec.TrackedAs st id post ->
    match compute_permission_steps env st id value m order hash lines with
    | Val (Answered _) => exists h, compute (se_hir env) value = Val (HDone h) /\
        forall b, In b (branches (h_st h)) -> exists n, Jump (he_body (se_hir env)) (l_block (fst (br_reach b))) n
    | Val (Refused r) => compute (se_hir env) value = Val r /\ forall h, r <> HDone h
    | Panic => compute (se_hir env) value = Panic \/
        exists h b, compute (se_hir env) value = Val (HDone h) /\ In b (branches (h_st h)) /\
          forall n, ~ Jump (he_body (se_hir env)) (l_block (fst (br_reach b))) n
    | Loop => compute (se_hir env) value = Loop
    end.
Proof.
  intros env st id post value m order hash lines A T. pose proof A as [F Wf RN Ret O Ex En Sp].
  unfold compute_permission_steps. destruct (compute (se_hir env) value) as [r| |] eqn:C; cbn [bind]; auto.
  destruct r as [h| | |]; try (split; [reflexivity|discriminate]).
  pose proof (compute_done _ _ _ C) as V.
  assert (Bf : BuiltFrom (he_fw (se_hir env)) (he_body (se_hir env)) (he_ord (se_hir env)) (h_st h)).
  { eapply C33_built; eauto. intros m' x. apply En. }
  pose proof (BuiltFrom_Built _ _ _ _ Bf) as Bt.
  pose proof (C30_total_iff _ _ _ _ (table_builder env h) (Loc 0 0) (he_lo (se_hir env) (expr_id value)) Bt (wf_builder env h)) as Tot.
  assert (Arms : forall b, In b (branches (h_st h)) ->
    (br_splits b <> [] <-> exists n, Jump (he_body (se_hir env)) (l_block (fst (br_reach b))) n)).
  { intros b Ib. destruct (C58_arms _ _ _ _ _ Wf Bt Ib) as (Len & _). cbv zeta in Len. split.
    - intros N. destruct (successors (he_body (se_hir env)) (l_block (fst (br_reach b)))) as [|n ns] eqn:E.
      + destruct (br_splits b); [congruence|discriminate].
      + exists n. apply (C24_successors_partial _ _ _ Wf). rewrite E. left. auto.
    - intros (n & J) N. apply (C24_successors_partial _ _ _ Wf) in J. rewrite N in Len.
      destruct (successors _ _); [destruct J|discriminate]. }
  destruct (error_end_spec env st id post T) as (err & -> & _).
  destruct (body_tables _ _ _ _) as [ts|] eqn:B.
  - exists h. split; auto. intros b Ib. apply Arms; auto. apply (proj1 Tot); eauto.
  - right. assert (X : Exists (fun b => br_splits b = []) (branches (h_st h))).
    { apply Exists_exists. destruct (Exists_dec (fun b => br_splits b = []) (branches (h_st h))) as [X|X].
      - intros b. destruct (br_splits b); [left; auto|right; discriminate].
      - apply Exists_exists in X. auto.
      - exfalso. destruct (proj2 Tot) as (r & E); [|congruence]. intros b Ib E. apply X, Exists_exists. eauto. }
    apply Exists_exists in X as (b & Ib & E). exists h, b. split; auto. split; auto. intros n J. apply (proj2 (Arms b Ib)); eauto.
Qed.
Print Assumptions C100_failures.

(** The errors of another function are not taken for those of this one. *)
Theorem C100_other_function :
  forall env st id id' post value m order hash lines ls, UsesSpec.TrackedAs st id' post -> id <> id' ->
    compute_permission_steps env st id value m order hash lines <> Val (Answered ls).
Proof.
  intros env st id id' post value m order hash lines ls (pre & -> & H) N C. apply answered in C as (h & ts & err & _ & _ & E & _).
  pose proof (C16_first_error pre id' post id H) as F. cbv zeta in F. unfold error_end in E.
  destruct (get_span_of_first_error (diag_run (pre ++ TrackBody id' :: post)) id) as [[s|]|]; [| |discriminate].
  - destruct F as [F _]. contradiction.
  - destruct F as [F _]. contradiction.
Qed.
Print Assumptions C100_other_function.

(** A refusal names a guard of the function, a decision that could not be closed, or leaves branches open. *)
Theorem C100_refused :
  forall env st id value m order hash lines r, Asked env -> he_fw (se_hir env) = false ->
    compute_permission_steps env st id value m order hash lines = Val (Refused r) ->
    match r with
    | HDone _ => False
    | HUnsupported ids => ids <> [] /\ Subsequence ids (guards_expr value)
    | HInternal es => es <> [] /\ forall e, In e es -> exists l, e = ErrBranch l
    | HUnfrozen => exists h t, visit_body (se_hir env) value hmake = Val h /\ HasChild (h_st h) t
    end.
Proof.
  intros env st id value m order hash lines r A Fw C. unfold compute_permission_steps in C. apply bind_Val in C as (r' & C & E).
  assert (r' = r /\ forall h, r <> HDone h) as [-> Nd].
  { destruct r' as [h| | |]; try (injection E as <-; split; [reflexivity|discriminate]).
    destruct (body_tables _ _ _ _); [destruct (error_end _ _ _)|]; discriminate. }
  pose proof (C33_not_done _ _ _ (asked_body _ A) Fw C) as H. destruct r as [ids|es| |h]; auto.
  - eapply C94_reported; eauto.
  - destruct H as (h & t & H1 & _ & H2). eauto.
  - exact (Nd h eq_refl).
Qed.
Print Assumptions C100_refused.

(** ** Completeness *)

Lemma turns_not_empty d : ddiff_is_empty d = false -> (forall s, s = pd_read (dd_permissions d) \/ s = pd_write (dd_permissions d) \/ s = pd_drop (dd_permissions d) ->
  forall v, s = High v -> v = true) -> LetterTurns d.
Proof.
  unfold ddiff_is_empty, pdiff_is_empty, LetterTurns, Gained, Lost. intros E T.
  destruct (pd_read (dd_permissions d)) as [w| |w] eqn:E1; [exists (High w); split; auto; left; f_equal; eauto|exists Low; auto|].
  destruct (pd_write (dd_permissions d)) as [w'| |w'] eqn:E2; [exists (High w'); split; auto; left; f_equal; eauto|exists Low; auto|].
  destruct (pd_drop (dd_permissions d)) as [w''| |w''] eqn:E3; [exists (High w''); split; auto; left; f_equal; eauto|exists Low; auto|discriminate].
Qed.

Lemma turns_empty d : LetterTurns d -> ddiff_is_empty d = false.
Proof.
  intros (s & H & G). unfold ddiff_is_empty, pdiff_is_empty, Gained, Lost in *.
  destruct (pd_read (dd_permissions d)) as [w| |w]; auto. destruct (pd_write (dd_permissions d)) as [w'| |w']; auto.
  destruct (pd_drop (dd_permissions d)) as [w''| |w'']; auto. exfalso. destruct H as [ -> |[ -> | -> ]]; destruct G; discriminate.
Qed.

Lemma turns_not_symmetric d : LetterTurns d -> ddiff_symmetric d d = false.
Proof.
  intros (s & H & G). unfold ddiff_symmetric, Gained, Lost in *.
  destruct (pd_read (dd_permissions d)) as [w| |w]; auto. destruct (pd_write (dd_permissions d)) as [w'| |w']; auto.
  destruct (pd_drop (dd_permissions d)) as [w''| |w'']; auto. exfalso. destruct H as [ -> |[ -> | -> ]]; destruct G; discriminate.
Qed.

Lemma merge_same d ds : ddiff_symmetric d d = false -> (forall x, In x ds -> x = d) -> merge (Some d) ds = Some d.
Proof.
  intros S1. induction ds as [|x ds IH]; intros H; cbn; auto. rewrite (H x (or_introl eq_refl)), S1. apply IH. intros y I. apply H. right. auto.
Qed.

Lemma diff_letters a b v : diff_bool a b = High v -> v = true.
Proof. destruct a, b; cbn; congruence. Qed.

Lemma change_letters a b p d : Change a b p d -> forall s,
  s = pd_read (dd_permissions d) \/ s = pd_write (dd_permissions d) \/ s = pd_drop (dd_permissions d) -> forall v, s = High v -> v = true.
Proof.
  intros (x & y & _ & _ & ->) s H v ->. destruct H as [H|[H|H]]; symmetry in H; eapply diff_letters, H.
Qed.

Lemma table_change e s start brace i t p d : TableOf e s start brace i t -> In (p, d) (t_data t) -> exists a b, Change a b p d.
Proof.
  intros [_ T] I. destruct i as [|sid|bid].
  - destruct T as (_ & _ & _ & R). apply R in I. eauto.
  - destruct T as (sg & _ & _ & _ & _ & R). apply R in I as [I _]. eauto.
  - destruct T as (b & _ & _ & _ & _ & R). apply R in I as [I _]. eauto.
Qed.

Lemma table_same e s start brace i t t' : TableOf e s start brace i t -> TableOf e s start brace i t' ->
  t_span t = t_span t' /\ forall r, In r (t_data t) <-> In r (t_data t').
Proof.
  intros [_ T] [_ T']. destruct i as [|sid|bid].
  - destruct T as (-> & _ & _ & R), T' as (-> & _ & _ & R'). split; auto. intros [p d]. rewrite R, R'. reflexivity.
  - destruct T as (sg & E & -> & _ & _ & R), T' as (sg' & E' & -> & _ & _ & R'). rewrite E in E'. injection E' as <-.
    split; auto. intros [p d]. rewrite R, R'. reflexivity.
  - destruct T as (b & E & -> & _ & _ & R), T' as (b' & E' & -> & _ & _ & R'). rewrite E in E'. injection E' as <-.
    split; auto. intros [p d]. rewrite R, R'. reflexivity.
Qed.

Lemma Forall2_In_l {A B} (R : A -> B -> Prop) l m a : Forall2 R l m -> In a l -> exists b, In b m /\ R a b.
Proof. induction 1 as [|x y l m H F IH]; intros I; [destruct I|]. destruct I as [->|I]; [exists y; split; auto; left; auto|]. destruct (IH I) as (b & J & K). exists b. split; auto. right. auto. Qed.
Lemma Forall2_In_r {A B} (R : A -> B -> Prop) l m b : Forall2 R l m -> In b m -> exists a, In a l /\ R a b.
Proof. induction 1 as [|x y l m H F IH]; intros I; [destruct I|]. destruct I as [->|I]; [exists x; split; auto; left; auto|]. destruct (IH I) as (a & J & K). exists a. split; auto. right. auto. Qed.

(** A change of a visible place, worth showing, is shown on its line, unless the line ends behind the first error, or
    other steps change the place differently on the same line.
    Missing: what [Separate] excludes, where tables are lost (C30_lost_refuted), and lines with several changes (C32). *)
Theorem C100_complete_partial :
  forall env st id post value m order hash lines ls h x d span pos,
    Asked env -> UsesSpec.TrackedAs st id post -> Shuffle order -> Shuffle hash -> Shuffle lines ->
    compute_permission_steps env st id value m order hash lines = Val (Answered ls) ->
    compute (se_hir env) value = Val (HDone h) -> Separate (h_st h) (Loc 0 0) ->
    Candidate env value h x d span -> se_visible env x = true -> Worth m d -> LetterTurns d ->
    LineEnd (se_text env) (se_hi env span) pos -> pos <= length (se_text env) -> BeforeError env post pos ->
    (forall d' span', Candidate env value h x d' span' -> Worth m d' -> LineEnd (se_text env) (se_hi env span') pos -> d' = d) ->
    exists y name, In y ls /\ sl_pos y = pos /\ Named env x name /\ In (name, d) (sl_rows y).
Proof.
  intros env st id post value m order hash lines ls h x d span pos A T So Sh Sl C D Sep (i & l & t & p & Ii & El & To & Px & Ip & Es) Vi Wo Lt Le Lp Be Un.
  destruct (answered _ _ _ _ _ _ _ _ _ C) as (h' & ts & err & D' & B & Ee & ->). rewrite D in D'. injection D' as <-.
  destruct (error_end_spec env st id post T) as (err' & Ee' & _ & Er). rewrite Ee in Ee'. injection Ee' as <-.
  pose proof (compute_done _ _ _ D) as V. pose proof (Shape_Steps _ _ _ _ _ (walked _ _ _ V)) as Shp.
  pose proof (tables_keys _ _ _ _ A V B) as Nk.
  pose proof (body_tables_exact _ _ _ _ _ Shp (wf_builder env h) Sep B) as Exact.
  set (w := prettifier env err) in *.
  assert (Ends_line : forall s, LineEnd (se_text env) (se_hi env s) (line_end w s)) by (intros s; apply to_newline_spec).
  assert (Short : forall s, line_end w s <= length (se_text env)) by (intros s; apply to_newline_le, (asked_spans _ A)).
  assert (One : forall s, LineEnd (se_text env) (se_hi env s) pos -> line_end w s = pos).
  { intros s L. destruct (Ends_line s) as (E1 & E2 & E3). destruct L as (L1 & L2 & L3). specialize (Short s).
    destruct (lt_eq_lt_dec (line_end w s) pos) as [[G|G]|G]; auto; exfalso.
    - destruct E3 as [E3|E3]; [|lia]. rewrite (L2 (line_end w s)) in E3 by lia. discriminate.
    - destruct L3 as [L3|L3]; [|lia]. rewrite (E2 pos) in L3 by lia. discriminate. }
  assert (Line : forall s, line_at w (line_end w s) = line_at w pos -> LineEnd (se_text env) (se_hi env s) pos).
  { intros s E. replace pos with (line_end w s); [apply Ends_line|].
    apply (line_one_end (se_text env) (se_hi env s) (se_hi env span)); auto. }
  assert (Kept : forall d', Worth m d' -> Shown w m p d').
  { intros d' [W1 W2]. split; [cbn; unfold place_visible; rewrite Px; auto|]. split; auto. intros E. apply turns_empty. auto. }
  assert (All : forall d', In d' (rows_on w m (order ts) (line_at w pos) p) -> d' = d).
  { intros d' I. apply C31_candidates in I as (l' & v & t' & I1 & I2 & I3 & _ & (_ & Li & Em) & E).
    apply (Permutation_in _ (So ts)) in I1. pose proof (In_aget _ _ loc_eqd _ _ _ Nk I1) as G.
    destruct (Exact l') as (is & _ & His & F). unfold at_loc in F. rewrite G in F.
    destruct (Forall2_In_r _ _ _ _ F I2) as (j & Ij & Tj). apply His in Ij as [Ij Ej].
    apply (Un d' (t_span t')).
    - exists j, l', t', p. repeat (split; auto).
    - split; auto. intros E'. apply turns_not_empty; auto. destruct (table_change _ _ _ _ _ _ _ _ Tj I3) as (a & b & Ch). eapply change_letters; eauto.
    - apply Line. auto. }
  assert (Some' : In d (rows_on w m (order ts) (line_at w pos) p)).
  { apply C31_candidates. destruct (Exact l) as (is & _ & His & F).
    destruct (Forall2_In_l _ _ _ i F) as (t' & I2 & Tj); [apply His; auto|].
    destruct (table_same _ _ _ _ _ _ _ To Tj) as [E1 E2]. unfold at_loc in I2.
    destruct (aget loc_eqd ts l) as [v|] eqn:G; [|destruct I2]. apply aget_Some_In in G.
    exists l, v, t'. split; [eapply Permutation_in; [apply Permutation_sym, So|exact G]|]. split; auto. split; [apply E2; auto|].
    assert (Ep : line_end w (t_span t') = pos) by (apply One; rewrite <- E1, Es; auto).
    split; [|split; [apply Kept; auto|rewrite Ep; auto]].
    intros e Ew. cbn in Ew. rewrite Ep. destruct (Er e Ew) as (s & s' & F1 & F2 & ->). eapply Be; eauto. }
  assert (M : merge None (rows_on w m (order ts) (line_at w pos) p) = Some d).
  { destruct (rows_on w m (order ts) (line_at w pos) p) as [|d0 ds]; [destruct Some'|]. cbn [merge].
    rewrite (All d0 (or_introl eq_refl)). apply merge_same; [apply turns_not_symmetric; auto|]. intros y I. apply All. right. auto. }
  destruct (prettify_exists w m hash lines (order ts) _ p d Sl M) as (y & I & L).
  exists (show env y), (place_name env p). split; [apply in_map; auto|]. split; [|split].
  - cbn [show sl_pos]. destruct (prettify_pos w m hash lines (order ts) y Sh Sl I) as (l' & v' & t' & _ & _ & P1 & P2 & _).
    rewrite P1. apply One, Line. rewrite <- P1, <- P2. auto.
  - unfold place_name, Named. rewrite Px. destruct (se_name env x); auto.
  - cbn [show sl_rows]. apply in_map_iff. exists (p, d). split; auto.
    apply (prettify_rows w m hash lines (order ts) y p d Sh Sl I). rewrite L. auto.
Qed.
Print Assumptions C100_complete_partial.

(** [fn f() { let x = if a { s; 1 } else { 2 }; }] of PropHide.v over three lines: [x] (variable 3) begins to live
    after the [let], and [y] (variable 4) is moved in [s]. *)
Module StepsDemo.
  Definition inp : Inp :=
    mkInp [mkPlace 3 []; mkPlace 4 []; mkPlace 4 [Field 0]] [mkPlace 4 []] [(0, 10)] (fun _ => []) (fun p => [p]) (fun p => p)
      [(0, 1); (1, 10); (10, 11); (11, 12); (12, 30); (1, 20); (20, 21); (21, 30); (30, 31)] [] [] []
      (fun a b => local a =? local b) [] (fun _ => mkPlace 4 []) (fun _ => true)
      [] [(0, [4]); (1, [4]); (10, [4]); (11, [4]); (12, [4]); (20, [4]); (21, [4]); (30, [4]); (31, [3; 4])]
      (fun l => l =? 3) (fun _ => FactsModel.TOther) (fun _ => false).
  Definition env (out : Output) : senv :=
    Senv HideDemo.let_env inp out (fun l => 10 * l_block l + l_idx l) (fun _ => true)
      (fun x => if local x =? 3 then Some [120] else None)
      [false; false; false; true; false; false; false; true; false; false; false; true]
      (fun s => Nat.min 12 (s mod 100)) (fun _ _ => 77) Some.
  Definition post : list DiagOp := [Report (mkDiag (mkR 9 9) true)].
End StepsDemo.

Example C100_witness : exists out,
  let env := StepsDemo.env out in
  let st := diag_run (TrackBody 7 :: StepsDemo.post) in
  Asked env /\ UsesSpec.TrackedAs st 7 StepsDemo.post /\
  exists ls, compute_permission_steps env st 7 HideDemo.let_hir Changes (@rev _) (@rev _) (@rev _) = Val (Answered ls) /\
    map sl_pos ls = [3; 7] /\
    map (fun y => map (fun r => (fst r, dd_permissions (snd r))) (sl_rows y)) ls =
      [ [([60; 118; 97; 114; 62], mkPDiff (High true) (NoStep (Some false)) (High true));
         ([60; 118; 97; 114; 62], mkPDiff (High true) (NoStep (Some false)) (High true))];
        [([120], mkPDiff (High true) (High true) (High true));
         ([60; 118; 97; 114; 62], mkPDiff Low (NoStep (Some false)) Low)] ].
Proof.
  destruct (derive_permission_facts StepsDemo.inp) as [out|] eqn:D; [|vm_compute in D; discriminate].
  exists out. cbv zeta. split.
  - constructor; cbn [StepsDemo.env se_hir se_inp se_out se_hi se_text].
    + exact D.
    + apply HideDemo.let_wf.
    + apply returns_check_ok. vm_compute. reflexivity.
    + exists (Loc 3 1). eexists. split; [reflexivity|]. split; reflexivity.
    + intros l x. reflexivity.
    + apply PropHir.Demo.executable_check_ok; [apply HideDemo.let_wf|vm_compute; reflexivity].
    + intros m e. reflexivity.
    + intros s. apply Nat.le_min_l.
  - split; [exists []; split; [reflexivity|]; intros op [<-|[]]; eauto|].
    vm_compute in D. injection D as <-. eexists. split; [vm_compute; reflexivity|]. split; vm_compute; reflexivity.
Qed.

Example C100_complete_witness : exists out d,
  let env := StepsDemo.env out in
  derive_permission_facts (se_inp env) = Some (se_out env) /\
  compute (se_hir env) HideDemo.let_hir = Val (HDone HideDemo.let_done) /\ Separate (h_st HideDemo.let_done) (Loc 0 0) /\
  Candidate env HideDemo.let_hir HideDemo.let_done (mkPlace 3 []) d 105 /\ Worth Changes d /\ LetterTurns d /\
  LineEnd (se_text env) (se_hi env 105) 7 /\ BeforeError env StepsDemo.post 7 /\
  (forall d' span', Candidate env HideDemo.let_hir HideDemo.let_done (mkPlace 3 []) d' span' -> Worth Changes d' ->
     LineEnd (se_text env) (se_hi env span') 7 -> d' = d).
Proof.
  destruct (derive_permission_facts StepsDemo.inp) as [out|] eqn:D; [|vm_compute in D; discriminate].
  exists out, (mkDD (High true) (NoStep (Some true)) (NoStep (Some true)) (NoStep None) (NoStep (Some false)) (NoStep None) (NoStep None) (NoStep None)
    (mkPDiff (High true) (High true) (High true))). cbv zeta.
  split; [exact D|]. split; [vm_compute; reflexivity|].
  split. { apply separate_check_ok; [|vm_compute; reflexivity]. eapply Shape_Steps, walked. apply compute_done. instantiate (1 := HideDemo.let_hir). instantiate (1 := HideDemo.let_env). vm_compute. reflexivity. }
  assert (Sh : Shape (h_st HideDemo.let_done)).
  { eapply Shape_Steps, walked, compute_done. instantiate (1 := HideDemo.let_hir). instantiate (1 := HideDemo.let_env). vm_compute. reflexivity. }
  vm_compute in D. injection D as <-. split.
  { match goal with |- Candidate ?env _ ?h _ _ _ =>
      destruct (tab (table_builder env h) (h_st h) (OfSeg 6)) as [|t ts] eqn:Et; [vm_compute in Et; discriminate|];
      destruct (tab_spec (table_builder env h) (h_st h) (Loc 0 0) (he_lo HideDemo.let_env (expr_id HideDemo.let_hir)) (OfSeg 6) t) as [T1 T2]
    end; [exact Sh|apply wf_builder|intros b [<-|[]]; discriminate|discriminate|rewrite Et; left; reflexivity|].
    exists (OfSeg 6), (t_to t), t, 0. split; [right; cbn; tauto|]. split; [exact T2|]. split; [exact T1|]. split; [reflexivity|].
    vm_compute in Et. injection Et as <- _. split; [left; reflexivity|reflexivity]. }
  split; [split; [discriminate|intros _; exists (High true); split; [left|left]; reflexivity]|].
  split; [exists (High true); split; [left|left]; reflexivity|].
  split. { split; [vm_compute; lia|]. split; [intros k H; change (se_hi _ 105) with 5 in H; assert (k = 5 \/ k = 6) as [->| ->] by lia; reflexivity|left; reflexivity]. }
  split. { intros s s' (b & x & a & E & _ & <- & _) L. injection L as <-. destruct b as [|? [|]]; cbn in E; try discriminate. injection E as <- <-. cbn. lia. }
  intros d' span' (i & l & t & p & Ii & El & [_ T] & Px & Ip & Es) [_ W] L.
  assert (p = 0) as ->. { destruct p as [|[|[|p]]]; [reflexivity|vm_compute in Px; discriminate|vm_compute in Px; discriminate|]. exfalso. revert Px. vm_compute. destruct p; discriminate. }
  specialize (W eq_refl). destruct i as [|sid|bid].
  - destruct T as (_ & _ & _ & R). apply R in Ip. destruct Ip as (x & y & X & Y & ->). vm_compute in X, Y. injection X as <-. injection Y as <-.
    exfalso. destruct W as (s & H & G). vm_compute in H. unfold Gained, Lost in G. intuition congruence.
  - destruct T as (sg & E & _ & _ & _ & R). apply R in Ip as [Ip _]. destruct Ip as (x & y & X & Y & ->).
    do 8 (destruct sid as [|sid]; [vm_compute in E; injection E as <-; vm_compute in X, Y; injection X as <-; injection Y as <-;
      try reflexivity; exfalso; destruct W as (s & H & G); vm_compute in H; unfold Gained, Lost in G; intuition congruence|]).
    vm_compute in E. destruct sid; discriminate.
  - destruct T as (b & E & _ & _ & _ & R). apply R in Ip as [Ip _]. destruct Ip as (x & y & X & Y & ->).
    destruct bid as [|bid]; [|vm_compute in E; destruct bid; discriminate]. vm_compute in E. injection E as <-. vm_compute in X, Y.
    injection X as <-. injection Y as <-. exfalso. destruct W as (s & H & G). vm_compute in H. unfold Gained, Lost in G. intuition congruence.
Qed.
