(** Proofs about the interpreter as a whole. *)
From Coq Require Import String.
From Coq Require Import List Arith Bool Lia.
From Verif Require Import Base TraceModel TraceSpec TraceMachine PropTrace ValuesModel MapperModel MapperSpec PropMapper
  ReaderModel ReaderSpec ReaderProofs LocalsModel LocalsSpec PropLocals WholeModel WholeSpec.
Import ListNotations.

(** ** Depths and indices *)

Lemma user_depths_snoc l f : user_depths (l ++ [f]) = user_depths l ++ (if rf_local f then [length l] else []).
Proof.
  unfold user_depths. rewrite app_length. cbn [length]. rewrite seq_app, filter_app. f_equal.
  - apply filter_ext_in. intros d I. apply in_seq in I. rewrite nth_error_app1 by lia. auto.
  - cbn. rewrite nth_error_app2 by lia. rewrite Nat.sub_diag. cbn. auto.
Qed.

Lemma user_depths_length l : length (user_depths l) = length (filter rf_local l).
Proof.
  induction l as [|f l IH] using rev_ind; auto. rewrite user_depths_snoc, filter_app, !app_length, IH. cbn. destruct (rf_local f); auto.
Qed.

Lemma user_depths_lt l d : In d (user_depths l) -> d < length l.
Proof. unfold user_depths. rewrite filter_In, in_seq. lia. Qed.

Lemma depth_index l : forall i d, nth_error (user_depths l) i = Some d -> local_index l d = i.
Proof.
  unfold local_index. induction l as [|f l IH] using rev_ind; intros i d.
  - destruct i; discriminate.
  - rewrite user_depths_snoc. destruct (lt_dec i (length (user_depths l))) as [L|L].
    + rewrite nth_error_app1 by auto. intros E. pose proof (user_depths_lt _ _ (nth_error_In _ _ E)).
      rewrite firstn_app. replace (d - length l) with 0 by lia. cbn. rewrite app_nil_r. auto.
    + rewrite nth_error_app2 by lia. destruct (rf_local f); [|destruct (i - _); discriminate].
      destruct (i - length (user_depths l)) as [|[|k]] eqn:E; [|discriminate|discriminate]. intros [= <-].
      rewrite firstn_app, Nat.sub_diag, firstn_all. cbn. rewrite app_nil_r, <- user_depths_length. lia.
Qed.

(** ** Sharing out the values *)

Lemma map_snd_combine {A B} : forall (l : list A) (l' : list B), length l = length l' -> map snd (combine l l') = l'.
Proof. induction l as [|a l IH]; intros [|b l']; cbn; try discriminate; auto. intros [= E]. rewrite IH; auto. Qed.

Lemma map_fst_combine {A B} : forall (l : list A) (l' : list B), length l = length l' -> map fst (combine l l') = l.
Proof. induction l as [|a l IH]; intros [|b l']; cbn; try discriminate; auto. intros [= E]. rewrite IH; auto. Qed.

Lemma share_spec : forall xss vs, length vs = length (concat xss) ->
  map (map fst) (share xss vs) = xss /\ concat (map (map snd) (share xss vs)) = vs.
Proof.
  induction xss as [|xs xss IH]; intros vs L; cbn [share map concat] in *.
  - destruct vs; [auto|discriminate].
  - rewrite app_length in L. destruct (IH (skipn (length xs) vs)) as (A & B).
    { rewrite skipn_length. lia. }
    assert (F : length xs = length (firstn (length xs) vs)) by (rewrite firstn_length; lia). split.
    + rewrite map_fst_combine, A; auto.
    + rewrite map_snd_combine, B by auto. apply firstn_skipn.
Qed.

(** ** What is known does not depend on the slots *)

Lemma usual_slots m sl u8 t : Usual m u8 t -> Usual (with_slots m sl) u8 t.
Proof. induction 1; econstructor; eauto. Qed.

Lemma length_slots m sl u8 el p n : Length (with_slots m sl) u8 el p n <-> Length m u8 el p n.
Proof. reflexivity. Qed.

Lemma owns_slots m sl u8 w p t k : Owns (with_slots m sl) u8 w p t k -> Owns m u8 w p t k.
Proof. induction 1; econstructor; eauto. Qed.

Lemma holds_slots m sl u8 vars w p t : Holds (with_slots m sl) u8 vars w p t -> Holds m u8 vars w p t.
Proof.
  induction 1 as [p t I|w p ts i t H IH N|w p n ups i x t H IH N|w p n args fs k i x t H IH O N|w p n vs v vn fs i x t H IH V N N'
    |w p el n i H IH L|w p id H IH|w p id q H IH E P|p id q len el i H IH P L].
  - apply holds_var. auto.
  - apply (holds_tuple m u8 vars w p ts i t); auto.
  - apply (holds_closure m u8 vars w p n ups i x t); auto.
  - apply (holds_struct m u8 vars w p n args fs k i x t); auto. eapply owns_slots; eauto.
  - apply (holds_enum m u8 vars w p n vs v vn fs i x t); auto.
  - apply (holds_array m u8 vars w p el n i); auto.
  - apply (holds_box m u8 vars w p id); auto.
  - apply (holds_target m u8 vars w p id q); auto.
  - apply (holds_elem m u8 vars p id q len el i); auto.
Qed.

Lemma program_slots m sl u8 vars : Program m u8 vars -> Program (with_slots m sl) u8 vars.
Proof.
  intros [A B C D E]. constructor; auto.
  - intros id. destruct (B id) as [X|X]; [left; auto|right]. apply (usual_slots m sl u8 _ X).
  - intros p t I. apply usual_slots. eauto.
  - intros w p el H. apply holds_slots in H. destruct (D _ _ _ H) as (n & L). exists n. auto.
  - intros w p H. apply holds_slots in H. destruct (E _ _ H) as (n & L). exists n. auto.
Qed.

Lemma chosen_member P : forall ls i xs, Chosen P i ls xs -> forall x, In x xs ->
  exists j l name, nth_error ls j = Some l /\ P (i + j) l name /\ x = Shown (i + j) name (l_place l) (l_ty l).
Proof.
  intros ls i xs C. induction C as [i|i l r name xs H C IH|i l r xs H C IH]; intros x I.
  - destruct I.
  - destruct I as [<-|I].
    + exists 0, l, name. rewrite Nat.add_0_r. auto.
    + destruct (IH x I) as (j & l' & n' & A & B & D). exists (S j), l', n'. rewrite Nat.add_succ_r. auto.
  - destruct (IH x I) as (j & l' & n' & A & B & D). exists (S j), l', n'. rewrite Nat.add_succ_r. auto.
Qed.

Section Whole.
  Context {M Msg : Type} (mac : machine M Msg) (lay : local -> vlayout) (u8 : nat).

  (** ** One state *)

  Lemma lives_var v a fi name t : Sane lay u8 v ->
    Lives (v_allocs v) (v_frames v) a fi name t <->
    exists i l, Var lay v fi i l name /\ l_state l = LocalsModel.InMemory a /\ t = l_ty l.
  Proof.
    intros S0. split.
    - intros (f & i & l & N & NL & T & ->).
      destruct (sane_layout _ _ _ S0 f l (nth_error_In _ _ N) (nth_error_In _ _ NL)) as (W1 & W2 & W3 & W4).
      apply (C90_shown_partial _ f i l (lay l) name _ W1 W2 W3 W4) in T as (SV & HV & SL).
      exists i, l. split; [exists f; auto|]. split; auto. unfold slot_of in SL. destruct (l_state l); congruence.
    - intros (i & l & (f & N & NL & SV & HV) & ST & ->).
      destruct (sane_layout _ _ _ S0 f l (nth_error_In _ _ N) (nth_error_In _ _ NL)) as (W1 & W2 & W3 & W4).
      exists f, i, l. split; auto. split; auto. split; auto.
      apply (C90_shown_partial _ f i l (lay l) name _ W1 W2 W3 W4). unfold slot_of. rewrite ST. auto.
  Qed.

  Lemma source_name f i l n n' : SourceVar f i l n -> SourceVar f i l n' -> n = n'.
  Proof. intros [(A & B & C)|(A & B & C)] [(A' & B' & C')|(A' & B' & C')]; congruence. Qed.

  Lemma separate v : Sane lay u8 v -> Separate (v_allocs v) (v_frames v).
  Proof.
    intros S0 a fi n t fi' n' t' L L'. apply (lives_var v _ _ _ _ S0) in L as (i & l & V & ST & ->), L' as (i' & l' & V' & ST' & ->).
    destruct (sane_apart _ _ _ S0 _ _ _ _ _ _ _ _ _ V V' ST ST') as (<- & <-).
    destruct V as (f & N & NL & SV & _), V' as (f' & N' & NL' & SV' & _).
    assert (f = f') by congruence. subst f'. assert (l = l') by congruence. subst l'. split; auto. split; auto.
    eapply source_name; eauto.
  Qed.

  Lemma chosen_vars v xss :
    Forall2 (fun f xs => Chosen (fun i l name => SourceVar f i l name /\ HasValue (v_allocs v) l (lay l)) 0 (f_locals f) xs)
      (v_frames v) xss ->
    forall p t, In (p, t) (map (fun x => (sh_place x, sh_ty x)) (concat xss)) ->
      exists fi i l name, Var lay v fi i l name /\ p = l_place l /\ t = l_ty l.
  Proof.
    intros CH p t I. apply in_map_iff in I as (x & [= <- <-] & I). apply in_concat in I as (xs & IX & I).
    apply In_nth_error in IX as (fi & NX).
    assert (NF : exists f, nth_error (v_frames v) fi = Some f).
    { destruct (nth_error (v_frames v) fi) eqn:NF; [eauto|]. apply nth_error_None in NF. apply nth_lt in NX.
      apply Forall2_length in CH. lia. }
    destruct NF as (f & NF). pose proof (Forall2_nth _ _ _ _ _ _ CH NF NX) as C.
    destruct (chosen_member _ _ _ _ C x I) as (j & l & name & NL & (SV & HV) & ->). cbn [Nat.add sh_place sh_ty] in *.
    exists fi, j, l, name. split; auto. exists f. auto.
  Qed.

  Lemma state_right v depth xss vs heap : Sane lay u8 v ->
    build_state (v_mem v) (v_allocs v) depth (v_frames v) = inr (xss, (vs, heap)) ->
    exists mm, Located lay v mm /\
      Forall2 (fun f xs => Chosen (fun i l name => SourceVar f i l name /\ HasValue (v_allocs v) l (lay l)) 0 (f_locals f) xs)
        (v_frames v) xss /\
      length vs = length (concat xss) /\
      Right mm u8 (map (fun x => (sh_place x, sh_ty x)) (concat xss)) vs heap.
  Proof.
    intros S0 B. destruct (find_locals (v_allocs v) 0 (v_frames v) []) as [[xss' sl]|] eqn:E.
    2: { unfold build_state in B. rewrite E in B. discriminate. }
    assert (xss' = xss).
    { unfold build_state in B. rewrite E in B. destruct (read_all _ _ _); [discriminate|]. injection B as -> _. auto. }
    subst xss'. pose proof (C90_frames_partial _ lay _ _ _ (sane_layout _ _ _ S0) E) as CH.
    exists (with_slots (v_mem v) sl). split; [|split; auto].
    - split; [reflexivity|]. intros a fi name t. rewrite <- (lives_var v a fi name t S0).
      apply (C90_slots _ _ _ _ a fi name t (separate v S0) E).
    - eapply C90_state_partial; eauto. apply program_slots. apply (sane_program _ _ _ S0).
      apply chosen_vars; auto.
  Qed.

  Lemma find_some allocs : forall fs fi sl, (forall f l, In f fs -> In l (f_locals f) -> l_shape l <> ShUnion) ->
    exists xss sl', find_locals allocs fi fs sl = Some (xss, sl').
  Proof.
    assert (T : forall f i l, l_shape l <> ShUnion -> test_local allocs f i l <> Panics).
    { intros f i l N. unfold test_local. destruct (Nat.eqb i 0), (l_unit l), (has_debug_info f i), (l_state l), (l_zst l); try discriminate;
        destruct (l_shape l); try congruence; cbn [mem_is_initialized];
        repeat match goal with |- context [if ?b then _ else _] => destruct b end; try discriminate;
        match goal with |- context [match Some ?b with _ => _ end] => destruct b end; discriminate. }
    assert (F : forall fi f ls i sl, (forall l, In l ls -> l_shape l <> ShUnion) -> exists xs sl', find_frame allocs fi f i ls sl = Some (xs, sl')).
    { intros fi f. induction ls as [|l ls IH]; intros i sl N; cbn [find_frame]; [eauto|].
      pose proof (T f i l (N l (or_introl eq_refl))) as TL. assert (N' : forall l, In l ls -> l_shape l <> ShUnion) by (intros; apply N; right; auto).
      destruct (test_local allocs f i l) as [| |name slot]; [apply IH; auto|congruence|].
      cbv zeta. match goal with |- context [find_frame allocs fi f (S i) ls ?sl0] => destruct (IH (S i) sl0 N') as (xs & sl' & E) end.
      rewrite E. eauto. }
    induction fs as [|f fs IH]; intros fi sl N; cbn [find_locals]; [eauto|].
    destruct (F fi f (f_locals f) 0 sl) as (xs & sl1 & E); [intros; apply (N f); [left|]; auto|]. rewrite E.
    destruct (IH (S fi) sl1) as (xss & sl2 & E2); [intros f' l I; apply N; right; auto|]. rewrite E2. eauto.
  Qed.

  (** A state that can be read is read. *)
  Lemma state_read v : Sane lay u8 v -> Readable lay u8 v ->
    exists D, forall d, D <= d -> exists r, build_state (v_mem v) (v_allocs v) d (v_frames v) = inr r.
  Proof.
    intros S0 RE. destruct (find_some (v_allocs v) (v_frames v) 0 []) as (xss & sl & E).
    { intros f l IF IL. destruct (sane_layout _ _ _ S0 f l IF IL) as (_ & _ & -> & _). destruct (lay l); discriminate. }
    pose proof (C90_frames_partial _ lay _ _ _ (sane_layout _ _ _ S0) E) as CH.
    set (vars := map (fun x => (sh_place x, sh_ty x)) (concat xss)).
    assert (IV : forall p t, In (p, t) vars -> exists fi i l name, Var lay v fi i l name /\ p = l_place l /\ t = l_ty l).
    { apply (chosen_vars v xss CH). }
    assert (LO : Located lay v (with_slots (v_mem v) sl)).
    { split; [reflexivity|]. intros a fi name t. rewrite <- (lives_var v a fi name t S0).
      apply (C90_slots _ _ _ _ a fi name t (separate v S0) E). }
    destruct (read_all_runs (with_slots (v_mem v) sl) u8 vars) as (D & HD).
    { apply program_slots. apply (sane_program _ _ _ S0). auto. }
    { intros p t I. apply (RE _ vars LO IV p t I). }
    exists D. intros d L. unfold build_state. rewrite E. destruct (HD d L) as (vs & heap & R). fold vars. rewrite R. eauto.
  Qed.

  (** ** The steps *)

  Lemma moved_same depth h d x : MovedSince (evaluator mac depth) h d x <-> MovedOut mac h d x.
  Proof. induction h as [|[a b] h IH]; cbn [MovedSince MovedOut]; [reflexivity|]. rewrite IH. reflexivity. Qed.

  Lemma trace_paths m0 depth h m steps e : Trace (evaluator mac depth) h m steps e -> Path mac m0 h m ->
    forall frs, In frs steps -> frs <> [] /\ exists h m m', Path mac m0 ((m, m') :: h) m' /\
      Forall2 (Shows (evaluator mac depth) h m m') (user_depths (k_stack mac m')) frs.
  Proof.
    assert (X : forall h m m' more shown, Path mac m0 h m -> k_step mac m = inr (m', more) -> Emits (evaluator mac depth) h m m' shown ->
      forall frs, In frs shown -> frs <> [] /\ exists h m m', Path mac m0 ((m, m') :: h) m' /\
      Forall2 (Shows (evaluator mac depth) h m m') (user_depths (k_stack mac m')) frs).
    { intros h1 m1 m1' more shown P St [[_ ->]|(N & frs0 & -> & F)] frs I; [destruct I|]. destruct I as [<-|[]]. split.
      - intros ->. inversion F. cbn [evaluator mi_stack] in *. congruence.
      - exists h1, m1, m1'. split; auto. econstructor; eauto. }
    intros T. induction T as [h m m' shown St Em|h m m' shown rest e St Em T IH| | |]; intros P frs I; try (destruct I; fail).
    - eapply (X h m m' false shown); eauto.
    - apply in_app_or in I as [I|I]; [eapply (X h m m' true shown); eauto|]. apply IH; auto. econstructor; eauto.
  Qed.

  Lemma info_read m d dd set : Sane lay u8 (k_look mac m) -> length (v_frames (k_look mac m)) = length (user_depths (k_stack mac m)) ->
    (exists r, build_state (v_mem (k_look mac m)) (v_allocs (k_look mac m)) d (v_frames (k_look mac m)) = inr r) ->
    In dd (user_depths (k_stack mac m)) -> exists fr, info mac d m dd set = inr fr.
  Proof.
    intros S0 LV ([xss [vs heap]] & B) I. unfold info. rewrite B.
    destruct (state_right _ _ _ _ _ S0 B) as (mm & _ & CH & LE & _). destruct (share_spec xss vs LE) as (SF & _).
    destruct (nth_error (k_stack mac m) dd) as [rf|] eqn:Er; [|apply nth_error_None in Er; apply user_depths_lt in I; lia].
    apply In_nth_error in I as (i & N). rewrite (depth_index _ _ _ N).
    destruct (nth_error (share xss vs) i) as [xvs|] eqn:E; [eauto|]. exfalso. apply nth_error_None in E.
    apply nth_lt in N. apply Forall2_length in CH. rewrite <- SF, map_length in CH. lia.
  Qed.

  Lemma eval_enough d n m : Ends mac n m -> forall mp, eval (evaluator mac d) n mp m <> None.
  Proof.
    intros E. induction E as [m m' St|n m m' St E IH]; intros mp; cbn [eval].
    - destruct (round (evaluator mac d) mp m) as [e| |[[[out mp'] m2] more]] eqn:R; try discriminate.
      apply round_step in R as [R _]. cbn [evaluator mi_step] in R. rewrite St in R. injection R as <- <-. discriminate.
    - destruct (round (evaluator mac d) mp m) as [e| |[[[out mp'] m2] more]] eqn:R; try discriminate.
      apply round_step in R as [R _]. cbn [evaluator mi_step] in R. rewrite St in R. injection R as <- <-.
      specialize (IH mp'). destruct (eval (evaluator mac d) n mp' m') as [[e| |[rest e]]|]; congruence.
  Qed.

  (** Nothing fails. *)
  Lemma trace_succeeds m0 n m : Ends mac n m ->
    (forall h m, Path mac m0 h m -> Sane lay u8 (k_look mac m) /\ Readable lay u8 (k_look mac m) /\
       length (v_frames (k_look mac m)) = length (user_depths (k_stack mac m))) ->
    (forall h m m', Path mac m0 ((m, m') :: h) m' -> exists ms, k_moves mac m m' = inr ms) ->
    forall h, Path mac m0 h m ->
    exists D, forall d, D <= d -> forall steps e, Trace (evaluator mac d) h m steps e -> e = None.
  Proof.
    intros E SA MV.
    assert (ST : forall h m m' more, Path mac m0 h m -> k_step mac m = inr (m', more) ->
      exists D, forall d, D <= d -> forall dd set, In dd (user_depths (k_stack mac m')) -> exists fr, info mac d m' dd set = inr fr).
    { intros h m1 m' more P St. assert (P' : Path mac m0 ((m1, m') :: h) m') by (econstructor; eauto).
      destruct (SA _ _ P') as (S0 & RE & LV). destruct (state_read _ S0 RE) as (D & HD). exists D. intros d L dd set I.
      apply info_read; auto. }
    induction E as [m m' St|n m m' St E IH]; intros h P.
    - destruct (ST h m m' false P St) as (D & HD). exists D. intros d L steps e T.
      inversion T as [h1 m1 m1' sh Es|h1 m1 m1' sh rest e1 Es Em T'|h1 m1 e1 Es|h1 m1 m1' more e1 Es Em|h1 m1 m1' more dd set e1 Es I Em];
        subst; auto; cbn [evaluator mi_step mi_moves mi_info mi_stack] in *; rewrite St in Es; try discriminate Es; injection Es as <- <-.
      + destruct (MV h m m' ltac:(econstructor; eauto)). congruence.
      + destruct (HD d L dd set I). congruence.
    - destruct (ST h m m' true P St) as (D1 & HD). assert (P' : Path mac m0 ((m, m') :: h) m') by (econstructor; eauto).
      destruct (IH _ P') as (D2 & HD2). exists (D1 + D2). intros d L steps e T.
      inversion T as [h1 m1 m1' sh Es|h1 m1 m1' sh rest e1 Es Em T'|h1 m1 e1 Es|h1 m1 m1' more e1 Es Em|h1 m1 m1' more dd set e1 Es I Em];
        subst; auto; cbn [evaluator mi_step mi_moves mi_info mi_stack] in *; rewrite St in Es; try discriminate Es.
      + injection Es as <-. apply (HD2 d ltac:(lia) rest); auto.
      + injection Es as <- <-. destruct (MV h m m' P'). congruence.
      + injection Es as <- <-. destruct (HD d ltac:(lia) dd set I). congruence.
  Qed.

  (** ** The end *)

  Lemma find_locals_length allocs : forall fs fi sl xss sl', find_locals allocs fi fs sl = Some (xss, sl') -> length xss = length fs.
  Proof.
    induction fs as [|f fs IH]; intros fi sl xss sl' E; cbn [find_locals] in E; [injection E as <- _; auto|].
    destruct (find_frame allocs fi f 0 (f_locals f) sl) as [[xs sl1]|]; [|discriminate].
    destruct (find_locals allocs (S fi) fs sl1) as [[xss1 sl2]|] eqn:F; [|discriminate]. injection E as <- _. cbn. f_equal. eauto.
  Qed.

  Lemma share_length : forall xss vs, length (share xss vs) = length xss.
  Proof. induction xss; intros; cbn; auto. Qed.

  Lemma info_fails m0 h m depth d set e : Path mac m0 h m -> length (v_frames (k_look mac m)) = length (user_depths (k_stack mac m)) ->
    In d (user_depths (k_stack mac m)) -> info mac depth m d set = inl e -> Ending mac depth m0 (Some e).
  Proof.
    intros P LV I. unfold info.
    destruct (build_state _ _ _ _) as [s|[xss [vs heap]]] eqn:B.
    - destruct s as [x| |]; intros [= <-]; [eapply end_error|eapply end_panic|eapply end_panic]; eauto.
    - destruct (nth_error (k_stack mac m) d) as [rf|] eqn:Er; [|apply nth_error_None in Er; apply user_depths_lt in I; lia].
      apply In_nth_error in I as (i & N). rewrite (depth_index _ _ _ N).
      assert (LX : length xss = length (v_frames (k_look mac m))).
      { unfold build_state in B. destruct (find_locals (v_allocs (k_look mac m)) 0 (v_frames (k_look mac m)) []) as [[xss' sl]|] eqn:F; [|discriminate].
        destruct (read_all _ _ _); [discriminate|]. injection B as <- _. eapply find_locals_length; eauto. }
      destruct (nth_error (share xss vs) i) eqn:E; [discriminate|]. exfalso. apply nth_error_None in E. apply nth_lt in N.
      rewrite share_length in E. lia.
  Qed.

  Lemma trace_ending m0 depth h m steps e : Trace (evaluator mac depth) h m steps e -> Path mac m0 h m ->
    (forall h m, Path mac m0 h m -> length (v_frames (k_look mac m)) = length (user_depths (k_stack mac m))) ->
    Ending mac depth m0 e.
  Proof.
    intros T P LV.
    induction T as [h m m' shown St Em|h m m' shown rest e St Em T IH|h m e St|h m m' more e St Em|h m m' more d set e St I Em];
      cbn [evaluator mi_step mi_moves mi_info mi_stack] in *.
    - eapply end_done; eauto.
    - apply IH. econstructor; eauto.
    - eapply end_program; eauto.
    - eapply end_moves; eauto. econstructor; eauto.
    - assert (P' : Path mac m0 ((m, m') :: h) m') by (econstructor; eauto). eapply info_fails; eauto.
  Qed.
End Whole.
