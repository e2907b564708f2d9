(** Proofs for C17-C20 and C53-C55. *)

From Coq Require Import List Arith Bool Lia Sorted.
From Verif Require Import Base PermsModel FactsModel FlowModel FlowSpec FlowProofs SpansModel
  BoundariesModel BoundariesSpec.
Import ListNotations.

(** * C17 *)

Lemma is_violation_iff b :
  is_violation b = true <->
  (p_read (b_expected b) = true /\ p_read (b_actual b) = false) \/
  (p_write (b_expected b) = true /\ p_write (b_actual b) = false) \/
  (p_drop (b_expected b) = true /\ p_drop (b_actual b) = false).
Proof.
  unfold is_violation. rewrite !orb_true_iff, !andb_true_iff, !negb_true_iff. tauto.
Qed.

Lemma icons_iff b l ok :
  In (l, ok) (icons b) <-> letter_expected b l /\ (ok = true <-> letter_present b l).
Proof.
  assert (H : In (l, ok) (icons b) <->
    match l with
    | LR => p_read (b_expected b) = true /\ ok = p_read (b_actual b)
    | LW => p_write (b_expected b) = true /\ ok = p_write (b_actual b)
    | LO => p_drop (b_expected b) = true /\ ok = p_drop (b_actual b)
    | LF => is_some (b_flow b) = true /\
            ok = negb (match b_flow b with Some f => fb_violation f | None => false end)
    end).
  { unfold icons. rewrite in_map_iff. split.
    - intros (x & E & I). apply filter_In in I as [I X].
      cbn [In] in I. destruct I as [<-|[<-|[<-|[<-|[]]]]]; cbn in E, X; injection E as <- <-; auto.
    - intros H. destruct l; destruct H as [H ->];
        eexists (_, _, _); (split; [cbn; reflexivity|]); apply filter_In;
        (split; [cbn; eauto 6|exact H]). }
  rewrite H. unfold letter_expected, letter_present.
  destruct l.
  1-3: split; intros [A B]; (split; [exact A|]); [rewrite B; tauto|apply eq_true_iff_eq; exact B].
  destruct (b_flow b) as [f|]; cbn.
  - assert (X : (forall f0, Some f = Some f0 -> fb_violation f0 = false) <-> negb (fb_violation f) = true).
    { rewrite negb_true_iff. split; [auto|]. intros V g Y. injection Y as <-. auto. }
    rewrite X. split; intros [A B]; split; try discriminate; try reflexivity.
    + rewrite B. tauto.
    + apply eq_true_iff_eq. auto.
  - split; intros [A _]; [discriminate|congruence].
Qed.

(** * C18 *)

Lemma max_by_key_spec {A} (key : A -> nat) l :
  match max_by_key key l with
  | Some c => exists pre post, l = pre ++ c :: post /\
      (forall x, In x pre -> key x <= key c) /\ (forall x, In x post -> key x < key c)
  | None => l = []
  end.
Proof.
  induction l as [|x l IH]; cbn [max_by_key]; auto.
  destruct (max_by_key key l) as [y|].
  - destruct IH as (pre & post & -> & H1 & H2).
    destruct (Nat.leb_spec (key x) (key y)) as [L|L].
    + exists (x :: pre), post. split; auto. split; auto. intros z [<-|I]; auto.
    + exists [], (pre ++ y :: post). split; auto. split; [intros z []|].
      intros z I. apply in_app_iff in I as [I|[<-|I]]; auto.
      * specialize (H1 z I). lia.
      * specialize (H2 z I). lia.
  - subst l. exists [], []. repeat split; auto; intros z [].
Qed.

Lemma filter_split {A} (f : A -> bool) l : forall pre c post,
  filter f l = pre ++ c :: post ->
  exists p q, l = p ++ c :: q /\ filter f p = pre /\ filter f q = post /\ f c = true.
Proof.
  induction l as [|x l IH]; cbn; intros pre c post E.
  - destruct pre; discriminate.
  - destruct (f x) eqn:F.
    + destruct pre as [|y pre]; cbn in E; injection E as E1 E2.
      * subst x. exists [], l. repeat split; auto.
      * subst y. apply IH in E2 as (p & q & -> & H1 & H2 & H3).
        exists (x :: p), q. cbn. rewrite F. repeat split; auto. congruence.
    + apply IH in E as (p & q & -> & H1 & H2 & H3).
      exists (x :: p), q. cbn. rewrite F. repeat split; auto.
Qed.

Lemma rev_filter_max {A} (f : A -> bool) (key : A -> nat) l c :
  max_by_key key (rev (filter f l)) = Some c -> EarliestMax (fun x => f x = true) key l c.
Proof.
  intros E. pose proof (max_by_key_spec key (rev (filter f l))) as M. rewrite E in M.
  destruct M as (pre & post & R & H1 & H2).
  assert (R' : filter f l = rev post ++ c :: rev pre).
  { rewrite <- (rev_involutive (filter f l)), R, rev_app_distr. cbn. rewrite <- app_assoc. reflexivity. }
  apply filter_split in R' as (p & q & -> & Hp & Hq & Fc).
  exists p, q. split; auto. split; auto. split.
  - intros x I F. apply H2. apply in_rev. rewrite <- Hp. apply filter_In; auto.
  - intros x I F. apply H1. apply in_rev. rewrite <- Hq. apply filter_In; auto.
Qed.

Lemma find_FirstWith {A} (f : A -> bool) l c :
  find f l = Some c -> FirstWith (fun x => f x = true) l c.
Proof.
  induction l as [|x l IH]; cbn; [discriminate|]. destruct (f x) eqn:F.
  - intros E; injection E as <-. exists [], l. repeat split; auto.
  - intros E. apply IH in E as (p & q & -> & H1 & H2). exists (x :: p), q. repeat split; auto.
    intros y [<-|I]; [congruence|auto].
Qed.


Lemma FirstWith_iff {A} (P Q : A -> Prop) l c : (forall x, P x <-> Q x) -> FirstWith P l c -> FirstWith Q l c.
Proof.
  intros E (p & q & H1 & H2 & H3). exists p, q. split; auto. split; [apply E; auto|].
  intros x I X. apply (H3 x I), E; auto.
Qed.

Lemma EarliestMax_iff {A} (P Q : A -> Prop) k l (c : A) :
  (forall x, P x <-> Q x) -> EarliestMax P k l c -> EarliestMax Q k l c.
Proof.
  intros E (p & q & H1 & H2 & H3 & H4). exists p, q. split; auto. split; [apply E; auto|].
  split; intros x I X; [apply H3|apply H4]; auto; apply E; auto.
Qed.

Lemma select_spec similar cands :
  match select_candidate_location similar cands with
  | None => cands = [] \/
            (2 <= length cands /\ exists l, similar = Some l /\ forall c, In c cands -> ~ on_local l c)
  | Some c => In c cands /\
      (cands = [c] \/
       (2 <= length cands /\
        match similar with
        | Some l => FirstWith (on_local l) cands c
        | None => exists f r, cands = f :: r /\
                    EarliestMax (on_local (local (snd f))) depth cands c
        end))
  end.
Proof.
  unfold select_candidate_location. destruct (Nat.leb_spec (length cands) 1) as [L|L].
  - destruct cands as [|c [|d r]]; cbn in *; auto. lia.
  - destruct similar as [l|].
    + destruct (find (fun c => local (snd c) =? l) cands) as [c|] eqn:F.
      * split; [eapply find_some; eauto|]. right. split; [lia|]. apply find_FirstWith in F.
        eapply FirstWith_iff; [|exact F]. intros x. unfold on_local. rewrite Nat.eqb_eq. tauto.
      * right. split; [lia|]. exists l. split; auto. intros c I O.
        pose proof (find_none _ _ F c I) as N. cbn in N. apply Nat.eqb_neq in N. auto.
    + destruct cands as [|f r]; cbn [length] in L; [lia|].
      destruct (max_by_key _ _) as [c|] eqn:M.
      * split.
        -- pose proof (max_by_key_spec (fun c => length (projection (snd c)))
             (rev (filter (fun c => local (snd c) =? local (snd f)) (f :: r)))) as S.
           rewrite M in S. destruct S as (p & q & E & _).
           assert (I : In c (rev (filter (fun c => local (snd c) =? local (snd f)) (f :: r))))
             by (rewrite E; apply in_app_iff; cbn; auto).
           apply in_rev, filter_In in I. tauto.
        -- right. split; [cbn; lia|]. exists f, r. split; auto. apply rev_filter_max in M.
           eapply EarliestMax_iff; [|exact M]. intros x. unfold on_local. rewrite Nat.eqb_eq. tauto.
      * exfalso. pose proof (max_by_key_spec (fun c => length (projection (snd c)))
             (rev (filter (fun c => local (snd c) =? local (snd f)) (f :: r)))) as S.
        rewrite M in S. assert (E := f_equal (@rev _) S). rewrite rev_involutive in E. cbn in E.
        rewrite Nat.eqb_refl in E. discriminate.
Qed.

(** The choice is unique. *)
Lemma EarliestMax_unique {A} (P : A -> Prop) k (l : list A) c d :
  EarliestMax P k l c -> EarliestMax P k l d -> c = d.
Proof.
  intros (p & q & -> & Pc & C1 & C2) (p' & q' & E & Pd & D1 & D2).
  revert p' E D1. induction p as [|x p IH]; intros p' E D1.
  - destruct p' as [|y p']; cbn in E; injection E as E1 E2; auto. exfalso. subst y.
    assert (k c < k d) by (apply D1; cbn; auto).
    assert (k d <= k c); [|lia]. apply C2; auto. rewrite E2. apply in_app_iff; cbn; auto.
  - destruct p' as [|y p']; cbn in E; injection E as E1 E2.
    + exfalso. subst x. assert (k d < k c) by (apply C1; cbn; auto).
      assert (k c <= k d); [|lia]. apply D2; auto. rewrite <- E2. apply in_app_iff; cbn; auto.
    + subst y. apply (IH (fun x I => C1 x (or_intror I)) p'); auto.
      intros z I. apply D1. cbn; auto.
Qed.

(** * Candidates (C53) and the upward search (C54) *)

Lemma look_in_statement_In vis is_lhs loc s loc' p :
  In (loc', p) (look_in_statement vis is_lhs loc s) <->
  loc' = loc /\ vis p = true /\
  (Inspects s p \/ (if is_lhs then Writes s p else Reads s p)).
Proof.
  assert (One : forall q, In (loc', p) (if vis q then [(loc, q)] else []) <->
                          loc' = loc /\ vis p = true /\ q = p).
  { intros q. destruct (vis q) eqn:V; cbn; split.
    - intros [E|[]]. injection E as <- <-. auto.
    - intros (-> & _ & ->). auto.
    - intros [].
    - intros (_ & V' & ->). congruence. }
  destruct s as [lhs rv|q|q| |]; cbn [look_in_statement].
  - destruct is_lhs; cbn [andb negb].
    + destruct (vis lhs) eqn:V.
      * specialize (One lhs). rewrite V in One. rewrite One. split.
        -- intros (-> & H & ->). repeat split; auto. right. constructor.
        -- intros (-> & H & [I|W]); [inversion I|inversion W; subst]. auto.
      * cbn. split; [intros []|]. intros (-> & H & [I|W]); [inversion I|inversion W; subst]. congruence.
    + destruct rv as [ops|q|]; cbn [look_in_rvalue].
      * rewrite in_flat_map. split.
        -- intros ([q|] & I & H); cbn in H; [|destruct H]. apply One in H as (-> & V & ->).
           repeat split; auto. right. constructor; auto.
        -- intros (-> & V & [I|W]); [inversion I|inversion W; subst]. exists (Some p). split; auto.
           apply One; auto.
      * rewrite One. split.
        -- intros (-> & V & ->). repeat split; auto. right. constructor.
        -- intros (-> & V & [I|W]); [inversion I|inversion W; subst]. auto.
      * cbn. split; [intros []|]. intros (_ & _ & [I|W]); [inversion I|inversion W].
  - rewrite One. split.
    + intros (-> & V & ->). repeat split; auto. left. constructor.
    + intros (-> & V & [I|W]); [inversion I; subst; auto|destruct is_lhs; inversion W].
  - rewrite One. split.
    + intros (-> & V & ->). repeat split; auto. left. constructor.
    + intros (-> & V & [I|W]); [inversion I; subst; auto|destruct is_lhs; inversion W].
  - cbn. split; [intros []|]. intros (_ & _ & [I|W]); [inversion I|destruct is_lhs; inversion W].
  - cbn. split; [intros []|]. intros (_ & _ & [I|W]); [inversion I|destruct is_lhs; inversion W].
Qed.

Lemma candidates_In vis stmt_at ls is_lhs cs :
  paths_at_hir_id vis stmt_at (Some ls) is_lhs = Some cs ->
  forall loc p, In (loc, p) cs <->
    In loc ls /\ vis p = true /\
    (Inspects (stmt_at loc) p \/ (if is_lhs then Writes (stmt_at loc) p else Reads (stmt_at loc) p)).
Proof.
  cbn. intros E loc p. injection E as <-. rewrite in_flat_map. split.
  - intros (l & I & H). apply look_in_statement_In in H as (-> & H). auto.
  - intros (I & H). exists loc. split; auto. apply look_in_statement_In. auto.
Qed.

(** Candidates come in the order of the locations. *)
Lemma candidates_ordered vis stmt_at ls is_lhs cs :
  paths_at_hir_id vis stmt_at (Some ls) is_lhs = Some cs ->
  forall pre c1 mid c2 post, cs = pre ++ c1 :: mid ++ c2 :: post ->
  exists l1 l2 l3, ls = l1 ++ l2 ++ l3 /\
    ((l2 = [fst c1] /\ fst c1 = fst c2) \/ exists m, l2 = fst c1 :: m ++ [fst c2]).
Proof.
  cbn. intros E. injection E as <-. induction ls as [|l ls IH]; cbn; intros pre c1 mid c2 post E.
  - destruct pre; discriminate.
  - set (f := look_in_statement vis is_lhs l (stmt_at l)) in *.
    assert (F : forall c, In c f -> fst c = l).
    { intros [l' p] I. apply look_in_statement_In in I as (-> & _). reflexivity. }
    set (g := flat_map _ ls) in *.
    assert (G : forall c, In c g -> In (fst c) ls).
    { intros [l' p] I. apply in_flat_map in I as (x & I & H).
      apply look_in_statement_In in H as (-> & _). auto. }
    (* where do c1 and c2 fall? *)
    destruct (le_lt_dec (length f) (length pre)) as [L|L].
    + (* c1 in g *)
      assert (exists pre', g = pre' ++ c1 :: mid ++ c2 :: post).
      { exists (skipn (length f) pre).
        assert (X := f_equal (skipn (length f)) E). rewrite !skipn_app in X.
        rewrite skipn_all, Nat.sub_diag in X. cbn in X.
        replace (length f - length pre) with 0 in X by lia. exact X. }
      destruct H as [pre' E']. apply IH in E' as (l1 & l2 & l3 & -> & H).
      exists (l :: l1), l2, l3. auto.
    + assert (I1 : In c1 f).
      { assert (N : nth_error (f ++ g) (length pre) = Some c1).
        { rewrite E, nth_error_app2, Nat.sub_diag by lia. reflexivity. }
        rewrite nth_error_app1 in N by lia. eapply nth_error_In; eauto. }
      apply F in I1.
      assert (I2 : In c2 (f ++ g)).
      { rewrite E. apply in_app_iff. right. right. apply in_app_iff. cbn; auto. }
      apply in_app_iff in I2 as [I2|I2].
      * apply F in I2. exists [], [l], ls. split; auto. left. split; congruence.
      * apply G in I2. apply in_split in I2 as (a & b & ->).
        exists [], (l :: a ++ [fst c2]), b. split; [cbn; rewrite <- app_assoc; reflexivity|].
        right. exists a. congruence.
Qed.

Lemma find_map_spec {A B} (f : A -> option B) l :
  match find_map f l with
  | Some y => exists pre x post, l = pre ++ x :: post /\ f x = Some y /\
                forall z, In z pre -> f z = None
  | None => forall z, In z l -> f z = None
  end.
Proof.
  induction l as [|x l IH]; cbn; [intros z []|].
  destruct (f x) as [y|] eqn:F.
  - exists [], x, l. repeat split; auto. intros z [].
  - destruct (find_map f l) as [y|].
    + destruct IH as (pre & x' & post & -> & H1 & H2). exists (x :: pre), x', post.
      repeat split; auto. intros z [<-|I]; auto.
    + intros z [<-|I]; auto.
Qed.

Lemma resolve_spec vis stmt_at locs similar is_lhs h parents :
  match resolve vis stmt_at locs similar is_lhs h parents with
  | Some c => exists inner n outer, h :: parents = inner ++ n :: outer /\
      search_at vis stmt_at locs similar is_lhs n = Some c /\
      forall z, In z inner -> search_at vis stmt_at locs similar is_lhs z = None
  | None => forall z, In z (h :: parents) -> search_at vis stmt_at locs similar is_lhs z = None
  end.
Proof.
  unfold resolve. exact (find_map_spec (search_at vis stmt_at locs similar is_lhs) (h :: parents)).
Qed.

(** * C19 *)

Lemma boundaries_filter {PB} (tb : PB -> option Boundary) uses err b :
  In b (compute_permission_boundaries tb uses err) <->
  (exists u, In u uses /\ tb u = Some b) /\
  (err = None \/ b_flow b <> None \/ exists e, err = Some e /\ b_byte b <= e).
Proof.
  unfold compute_permission_boundaries. rewrite filter_In, in_flat_map.
  assert (X : (exists x, In x uses /\ In b match tb x with Some b0 => [b0] | None => [] end) <->
              exists u, In u uses /\ tb u = Some b).
  { split; intros (u & I & H); exists u; (split; [exact I|]).
    - destruct (tb u); cbn in H; [destruct H as [<-|[]]; auto|destruct H].
    - rewrite H. cbn; auto. }
  rewrite X. destruct err as [e|].
  - rewrite orb_true_iff, Nat.leb_le. split; intros [A B]; split; auto.
    + destruct B as [B|B]; [|eauto]. right; left. destruct (b_flow b); [discriminate|inversion B].
    + destruct B as [B|[B|(e' & E & B)]]; [discriminate| |].
      * left. destruct (b_flow b); [reflexivity|congruence].
      * injection E as <-. auto.
  - split; intros [A _]; auto.
Qed.

(** Order is kept: every pair of reported boundaries comes from uses in order. *)
Lemma boundaries_order {PB} (tb : PB -> option Boundary) uses err :
  forall pre b1 mid b2 post,
  compute_permission_boundaries tb uses err = pre ++ b1 :: mid ++ b2 :: post ->
  exists u1 u2 p m q, uses = p ++ u1 :: m ++ u2 :: q /\ tb u1 = Some b1 /\ tb u2 = Some b2.
Proof.
  unfold compute_permission_boundaries. set (F := filter _). intros pre b1 mid b2 post E.
  assert (S : forall us b rest pre, F (flat_map (fun pb => match tb pb with Some b => [b] | None => [] end) us)
      = pre ++ b :: rest ->
    exists p u q, us = p ++ u :: q /\ tb u = Some b /\
      F (flat_map (fun pb => match tb pb with Some b => [b] | None => [] end) q) = rest).
  { clear. induction us as [|u us IH]; cbn; intros b rest pre E.
    - destruct pre; discriminate.
    - destruct (tb u) as [x|] eqn:T; cbn in E.
      + unfold F in E. cbn [filter] in E.
        match type of E with (if ?c then _ else _) = _ => destruct c end.
        * destruct pre as [|y pre]; cbn in E; injection E as E1 E2.
          -- subst x. exists [], u, us. auto.
          -- apply (IH b rest pre) in E2 as (p & u' & q & -> & H). exists (u :: p), u', q. auto.
        * apply (IH b rest pre) in E as (p & u' & q & -> & H). exists (u :: p), u', q. auto.
      + apply (IH b rest pre) in E as (p & u' & q & -> & H). exists (u :: p), u', q. auto. }
  apply S in E as (p & u1 & q & -> & T1 & E).
  apply S in E as (m & u2 & q' & -> & T2 & _).
  exists u1, u2, p, m, q'. auto.
Qed.

Lemma filter_length {A} (f : A -> bool) l : length (filter f l) <= length l.
Proof. induction l as [|x l IH]; cbn; auto. destruct (f x); cbn; lia. Qed.

Lemma boundaries_count {PB} (tb : PB -> option Boundary) uses err :
  length (compute_permission_boundaries tb uses err) <= length uses.
Proof.
  unfold compute_permission_boundaries.
  etransitivity; [apply filter_length|].
  induction uses as [|u us IH]; cbn; auto. rewrite app_length. destruct (tb u); cbn; lia.
Qed.

(** * C20 *)

Section ExprInd.
  Variable P : Expr -> Prop.
  Hypothesis H : forall e, (forall r c, In (r, c) (children e) -> P c) -> P e.

  Lemma In_map_pair (r ro : Role) (c : Expr) l : In (r, c) (map (pair ro) l) -> r = ro /\ In c l.
  Proof. intros I. apply in_map_iff in I as (x & E & I). injection E as <- <-. auto. Qed.

  Fixpoint expr_ind' (e : Expr) : P e.
  Proof.
    pose (go := fix go (l : list Expr) : forall c, In c l -> P c :=
      match l with
      | [] => fun c I => False_ind _ I
      | x :: r => fun c I => match I with
                  | or_introl E => eq_ind x P (expr_ind' x) c E
                  | or_intror I' => go r c I'
                  end
      end).
    apply H. destruct e as [m d arms|m f r args|m u i|m l r|m l r|m i|m r sp x|m|m b|m b i|m ss t|m b|m ps];
      cbn [children]; intros ro c I.
    - destruct I as [I|I]; [injection I as <- <-; apply expr_ind'|].
      apply In_map_pair in I as [_ I]. exact (go arms c I).
    - destruct I as [I|I]; [injection I as <- <-; apply expr_ind'|].
      apply In_map_pair in I as [_ I]. exact (go args c I).
    - destruct I as [I|[]]; injection I as <- <-; apply expr_ind'.
    - destruct I as [I|[I|[]]]; injection I as <- <-; apply expr_ind'.
    - destruct I as [I|[I|[]]]; injection I as <- <-; apply expr_ind'.
    - destruct I as [I|[]]; injection I as <- <-; apply expr_ind'.
    - destruct I.
    - destruct I.
    - destruct I as [I|[]]; injection I as <- <-; apply expr_ind'.
    - destruct I as [I|[I|[]]]; injection I as <- <-; apply expr_ind'.
    - apply in_app_iff in I as [I|I].
      + revert I. refine ((fix gos (l : list (HirId * list Expr)) :
          In (ro, c) (flat_map (fun s => map (pair (StmtPart (fst s))) (snd s)) l) -> P c :=
          match l with
          | [] => fun I => False_ind _ I
          | s :: l' => fun I => _
          end) ss).
        cbn in I. apply in_app_iff in I as [I|I].
        * destruct s as [h es]. apply In_map_pair in I as [_ I]. exact (go es c I).
        * exact (gos l' I).
      + destruct t as [t|]; [|destruct I]. destruct I as [I|[]]. injection I as <- <-. apply expr_ind'.
    - destruct I as [I|[]]; injection I as <- <-; apply expr_ind'.
    - apply In_map_pair in I as [_ I]. exact (go ps c I).
  Qed.
End ExprInd.

(** A uniform reading of the visitor: the boundary of the node itself, then the
    visited children. *)
Definition own (fc : HirId) (e : Expr) : list PathBoundary :=
  match e with
  | EMatch m d _ =>
      if is_place_expr (fun b => negb (is_lit b)) d
      then [mkPB (eid d) fc false (espan d) from_discriminant] else []
  | EMethod m fx r _ =>
      if negb fx && is_place_expr (fun b => negb (is_lit b)) r
      then [mkPB (eid r) fc false (espan r) (get_adjusted_permissions (meta r))] else []
  | EAddrOf m mut i =>
      if is_syntactic_place_expr i && negb (m_expansion (meta i))
      then [mkPB (m_id m) fc false (shrink_to_lo (espan i)) (from_borrow mut)] else []
  | EAssign m l _ =>
      if is_deref l then [mkPB (eid l) fc true (shrink_to_lo (espan l)) from_assignment] else []
  | EAssignOp m l _ => [mkPB (eid l) fc true (shrink_to_lo (espan l)) from_assignment]
  | EDeref m i =>
      if is_syntactic_place_expr i && negb (m_expansion (meta i))
      then [mkPB (m_id m) fc false (shrink_to_lo (m_span m)) (get_adjusted_permissions m)] else []
  | EPath m ResLocal sp px =>
      if negb px then [mkPB (m_id m) fc false (shrink_to_lo sp) (get_adjusted_permissions m)] else []
  | _ => []
  end.

Definition skippedb (e : Expr) (r : Role) : bool :=
  match e, r with
  | EMatch _ d _, Scrutinee => is_place_expr (fun b => negb (is_lit b)) d
  | EMethod _ fx rc _, Receiver => negb fx && is_place_expr (fun b => negb (is_lit b)) rc
  | EAddrOf _ _ i, Operand => is_syntactic_place_expr i && negb (m_expansion (meta i))
  | EDeref _ i, Operand => is_syntactic_place_expr i && negb (m_expansion (meta i))
  | EAssign _ _ _, AssignTarget => true
  | EAssignOp _ _ _, AssignTarget => true
  | _, _ => false
  end.

Definition visit_child (fc : HirId) (e : Expr) (rc : Role * Expr) : list PathBoundary :=
  if skippedb e (fst rc) then [] else visit (context fc (fst rc) (snd rc)) (snd rc).

Lemma flat_map_map {A B C} (f : B -> list C) (g : A -> B) l :
  flat_map f (map g l) = flat_map (fun x => f (g x)) l.
Proof. induction l; cbn; congruence. Qed.

Lemma flat_map_ext' {A B} (f g : A -> list B) l : (forall x, f x = g x) -> flat_map f l = flat_map g l.
Proof. intros E. induction l; cbn; rewrite ?E; congruence. Qed.

Lemma flat_map_flat_map {A B C} (f : B -> list C) (g : A -> list B) l :
  flat_map f (flat_map g l) = flat_map (fun x => flat_map f (g x)) l.
Proof. induction l; cbn; auto. rewrite flat_map_app. congruence. Qed.

Lemma visit_unfold fc e : visit fc e = own fc e ++ flat_map (visit_child fc e) (children e).
Proof.
  destruct e as [m d arms|m f r args|m u i|m l r|m l r|m i|m r sp x|m|m b|m b i|m ss t|m b|m ps];
    cbn [visit own children]; unfold visit_child; cbn [flat_map fst snd skippedb].
  - destruct (is_place_expr _ d); cbn [app]; rewrite flat_map_map; reflexivity.
  - destruct (negb f && _); cbn [app]; rewrite flat_map_map; reflexivity.
  - destruct (is_syntactic_place_expr i && _); cbn [app context]; rewrite ?app_nil_r; reflexivity.
  - destruct (is_deref l); cbn [app context]; rewrite ?app_nil_r; reflexivity.
  - cbn [app context]. rewrite ?app_nil_r. reflexivity.
  - destruct (is_syntactic_place_expr i && _); cbn [app context]; rewrite ?app_nil_r; reflexivity.
  - destruct r; cbn [app]; rewrite ?app_nil_r; reflexivity.
  - reflexivity.
  - cbn [app context]. rewrite app_nil_r. reflexivity.
  - cbn [app context]. rewrite app_nil_r. reflexivity.
  - cbn [app]. rewrite flat_map_app, flat_map_flat_map. f_equal.
    + apply flat_map_ext'. intros s. rewrite flat_map_map. reflexivity.
    + destruct t; cbn; rewrite ?app_nil_r; reflexivity.
  - cbn [app context]. rewrite app_nil_r. reflexivity.
  - cbn [app]. rewrite flat_map_map. reflexivity.
Qed.

Lemma is_place_iff (allow : Expr -> bool) (adm : Expr -> Prop) :
  (forall e, allow e = true <-> adm e) -> forall e, is_place_expr allow e = true <-> IsPlace adm e.
Proof.
  intros A. apply (expr_ind' (fun e => is_place_expr allow e = true <-> IsPlace adm e)).
  intros e IH.
  destruct e as [m d arms|m f r args|m u i|m l r|m l r|m i|m r sp x|m|m b|m b i|m ss t|m b|m ps];
    cbn [is_place_expr children] in *;
    try (split; [discriminate|inversion 1]; fail).
  - split; auto. intros _. constructor.
  - destruct r; split; intros X; try discriminate; try constructor; inversion X.
  - rewrite orb_true_iff, A, (IH Part b) by (left; auto). split; [constructor; auto|inversion 1; auto].
  - rewrite orb_true_iff, A, (IH Part b) by (left; auto). split; [constructor; auto|inversion 1; auto].
Qed.

Lemma place_not_lit e : is_place_expr (fun b => negb (is_lit b)) e = true <-> IsPlace NotLiteral e.
Proof.
  apply is_place_iff. intros b. rewrite negb_true_iff. unfold NotLiteral.
  destruct b; cbn; split; try congruence; intros; try discriminate. exfalso. eapply H. reflexivity.
Qed.

Lemma visible_place e :
  is_syntactic_place_expr e && negb (m_expansion (meta e)) = true <-> VisiblePlace e.
Proof.
  unfold VisiblePlace, is_syntactic_place_expr. rewrite andb_true_iff, negb_true_iff.
  rewrite (is_place_iff _ AnyExpr); [tauto|]. unfold AnyExpr. tauto.
Qed.

Lemma adjusted_iff m p : get_adjusted_permissions m = p <-> Needs m p.
Proof.
  assert (D : forall p q, Needs m p -> Needs m q -> p = q).
  { assert (FF : forall b c, FirstAutoBorrow m b -> FirstAutoBorrow m c -> b = c).
    { intros b c (pre & post & E & N) (pre' & post' & E' & N'). rewrite E in E'. clear E.
      revert pre' N' E'. induction pre as [|x pre IH]; intros [|y pre'] N' E'; cbn in E'.
      - congruence.
      - injection E' as <- _. specialize (N' _ (or_introl eq_refl)). discriminate.
      - injection E' as -> _. specialize (N _ (or_introl eq_refl)). discriminate.
      - injection E' as _ E'. apply (IH (fun x I => N x (or_intror I)) pre'); auto.
        intros z I. apply N'. cbn; auto. }
    assert (FN : forall b, FirstAutoBorrow m b -> NoAutoBorrow m -> False).
    { intros b (pre & post & E & _) N. specialize (N (AdjBorrowRef b)).
      discriminate N. rewrite E. apply in_app_iff. cbn; auto. }
    intros p1 p2 H1 H2. inversion H1; inversion H2; subst; auto; try congruence;
      try (exfalso; eauto; fail);
      try (match goal with A : FirstAutoBorrow m ?a, B : FirstAutoBorrow m ?b |- _ =>
             specialize (FF _ _ A B); discriminate end). }
  assert (X : Needs m (get_adjusted_permissions m)).
  { unfold get_adjusted_permissions.
    pose proof (find_map_spec (fun a => match a with AdjBorrowRef b => Some b | AdjOther => None end)
                  (m_adjust m)) as F.
    destruct (find_map _ (m_adjust m)) as [b|].
    - destruct F as (pre & x & post & E & Fx & N). destruct x as [b'|]; [|discriminate].
      injection Fx as ->.
      assert (FA : FirstAutoBorrow m b).
      { exists pre, post. split; auto. intros z I. specialize (N z I). destruct z; [discriminate|auto]. }
      destruct b; [apply needs_mut|apply needs_shared]; auto.
    - assert (NA : NoAutoBorrow m).
      { intros z I. specialize (F z I). destruct z; [discriminate|auto]. }
      destruct (m_copyable m) eqn:C; [apply needs_copy|apply needs_move]; auto. }
  split; [intros <-; auto|]. intros N. apply D; auto.
Qed.

Lemma own_iff fc e pb : In pb (own fc e) <-> UseSite fc e pb.
Proof.
  destruct e as [m d arms|m f r args|m u i|m l r|m l r|m i|m r sp x|m|m b|m b i|m ss t|m b|m ps];
    cbn [own]; try (split; [intros []|inversion 1]; fail).
  - destruct (is_place_expr _ d) eqn:P.
    + apply place_not_lit in P. cbn. split.
      * intros [<-|[]]. constructor; auto.
      * inversion 1; subst. auto.
    + cbn. split; [intros []|]. inversion 1; subst.
      match goal with X : IsPlace NotLiteral d |- _ => apply place_not_lit in X; congruence end.
  - destruct f; cbn [negb andb].
    + split; [intros []|inversion 1].
    + destruct (is_place_expr _ r) eqn:P.
      * apply place_not_lit in P. cbn. split.
        -- intros [<-|[]]. constructor; auto. apply adjusted_iff; auto.
        -- inversion 1; subst. left. match goal with X : Needs _ _ |- _ => apply adjusted_iff in X; subst end.
           auto.
      * cbn. split; [intros []|]. inversion 1; subst.
        match goal with X : IsPlace NotLiteral r |- _ => apply place_not_lit in X; congruence end.
  - destruct (is_syntactic_place_expr i && _) eqn:P.
    + apply visible_place in P. cbn. split.
      * intros [<-|[]]. unfold from_borrow. 
        replace (mkP true u false) with (if u then RW_ else R_) by (destruct u; auto).
        apply use_borrow; auto.
      * inversion 1; subst. left. unfold from_borrow. destruct u; auto.
    + cbn. split; [intros []|]. inversion 1; subst.
      match goal with X : VisiblePlace i |- _ => apply visible_place in X; congruence end.
  - destruct l as [| | | | |dm di| | | | | | |]; cbn [is_deref];
      try (split; [intros []|inversion 1]; fail).
    cbn. split.
    + intros [<-|[]]. apply use_assign_deref.
    + inversion 1; subst. auto.
  - cbn. split.
    + intros [<-|[]]. apply use_assign_op.
    + inversion 1; subst. auto.
  - destruct (is_syntactic_place_expr i && _) eqn:P.
    + apply visible_place in P. cbn. split.
      * intros [<-|[]]. apply use_deref; auto. apply adjusted_iff; auto.
      * inversion 1; subst. left. match goal with X : Needs _ _ |- _ => apply adjusted_iff in X; subst end.
        auto.
    + cbn. split; [intros []|]. inversion 1; subst.
      match goal with X : VisiblePlace i |- _ => apply visible_place in X; congruence end.
  - destruct r; try (split; [intros []|inversion 1]; fail).
    destruct x; cbn; [split; [intros []|inversion 1]|]. split.
    + intros [<-|[]]. apply use_variable. apply adjusted_iff; auto.
    + inversion 1; subst. left. match goal with X : Needs _ _ |- _ => apply adjusted_iff in X; subst end.
      auto.
Qed.

Lemma skipped_iff e r : skippedb e r = true <-> Skipped e r.
Proof.
  destruct e as [m d arms|m f rc args|m u i|m l rh|m l rh|m i|m rs sp x|m|m b|m b i|m ss t|m b|m ps];
    destruct r; cbn [skippedb];
    try (split; [discriminate|inversion 1]; fail);
    try (split; [intros _; constructor|reflexivity]; fail).
  - rewrite place_not_lit. split; [constructor; auto|inversion 1; auto].
  - rewrite andb_true_iff, negb_true_iff, place_not_lit. split.
    + intros [-> P]. constructor; auto.
    + inversion 1; auto.
  - rewrite visible_place. split; [constructor; auto|inversion 1; auto].
  - rewrite visible_place. split; [constructor; auto|inversion 1; auto].
Qed.

Lemma visit_iff e : forall fc pb,
  In pb (visit fc e) <-> exists fc' e', Reached fc e fc' e' /\ UseSite fc' e' pb.
Proof.
  induction e as [e IH] using expr_ind'. intros fc pb.
  rewrite visit_unfold, in_app_iff, own_iff, in_flat_map. split.
  - intros [U|([r c] & I & V)].
    + exists fc, e. split; auto. constructor.
    + unfold visit_child in V. cbn [fst snd] in V. destruct (skippedb e r) eqn:S; [destruct V|].
      apply (IH r c I) in V as (fc' & e' & Rc & U). exists fc', e'. split; auto.
      eapply Reached_step; eauto. rewrite <- skipped_iff. congruence.
  - intros (fc' & e' & Rc & U). inversion Rc as [|? ? r c ? ? I S Rc']; subst; auto.
    right. exists (r, c). split; auto. unfold visit_child. cbn [fst snd].
    destruct (skippedb e r) eqn:S'; [apply skipped_iff in S'; contradiction|].
    apply (IH r c I). eauto.
Qed.

Lemma skipped_dec e r : Skipped e r \/ ~ Skipped e r.
Proof. rewrite <- skipped_iff. destruct (skippedb e r); auto. Qed.

(** Everything is either reached or lies in a skipped part of something reached. *)
Lemma sub_covered e : forall fc s, Sub e s ->
  (exists fc', Reached fc e fc' s) \/
  (exists fc' a r c, Reached fc e fc' a /\ In (r, c) (children a) /\ Skipped a r /\ Sub c s).
Proof.
  induction e as [e IH] using expr_ind'. intros fc s S.
  inversion S as [|? r c ? I S']; subst; [left; exists fc; constructor|].
  destruct (skipped_dec e r) as [K|K].
  - right. exists fc, e, r, c. repeat split; auto. constructor.
  - destruct (IH r c I (context fc r c) s S') as [(fc' & Rc)|(fc' & a & r' & c' & Rc & H)].
    + left. exists fc'. eapply Reached_step; eauto.
    + right. exists fc', a, r', c'. split; auto. eapply Reached_step; eauto.
Qed.

Lemma Reached_Sub fc e fc' e' : Reached fc e fc' e' -> Sub e e'.
Proof. induction 1; [constructor|econstructor; eauto]. Qed.

(** The id of a boundary is that of the use, or of its skipped first child. *)
Lemma own_id fc e pb : In pb (own fc e) ->
  own fc e = [pb] /\
  (pb_hir pb = eid e \/
   exists r c rest, children e = (r, c) :: rest /\ skippedb e r = true /\ pb_hir pb = eid c).
Proof.
  destruct e as [m d arms|m f r args|m u i|m l r|m l r|m i|m r sp x|m|m b|m b i|m ss t|m b|m ps];
    cbn [own]; try (intros []; fail).
  - destruct (is_place_expr _ d) eqn:P; [|intros []]. intros [<-|[]]. split; auto. right.
    exists Scrutinee, d, (map (pair ArmPart) arms). auto.
  - destruct (negb f && _) eqn:P; [|intros []]. intros [<-|[]]. split; auto. right.
    exists Receiver, r, (map (pair Argument) args). auto.
  - destruct (_ && _); [|intros []]. intros [<-|[]]. auto.
  - destruct (is_deref l); [|intros []]. intros [<-|[]]. split; auto. right.
    exists AssignTarget, l, [(AssignValue, r)]. auto.
  - intros [<-|[]]. split; auto. right. exists AssignTarget, l, [(AssignValue, r)]. auto.
  - destruct (_ && _); [|intros []]. intros [<-|[]]. auto.
  - destruct r; try (intros []; fail). destruct x; [intros []|]. intros [<-|[]]. auto.
Qed.

Lemma visit_id fc e pb : In pb (visit fc e) -> exists s, Sub e s /\ pb_hir pb = eid s.
Proof.
  intros I. apply visit_iff in I as (fc' & e' & Rc & U). apply own_iff, own_id in U as [_ U].
  apply Reached_Sub in Rc.
  destruct U as [U|(r & c & rest & E & _ & U)]; [eauto|].
  exists c. split; auto. clear - Rc E. induction Rc.
  - econstructor; [rewrite E; left; reflexivity|constructor].
  - econstructor; eauto.
Qed.

Lemma NoDup_app {A} (l1 l2 : list A) :
  NoDup l1 -> NoDup l2 -> (forall x, In x l1 -> ~ In x l2) -> NoDup (l1 ++ l2).
Proof.
  induction 1 as [|x l N ND IH]; cbn; auto. intros N2 D. constructor.
  - rewrite in_app_iff. intros [I|I]; [auto|]. apply (D x); cbn; auto.
  - apply IH; auto.
Qed.

Lemma visit_NoDup e : UniqueIds e -> forall fc, NoDup (map pb_hir (visit fc e)).
Proof.
  induction e as [e IH] using expr_ind'. intros U fc. inversion U as [? U1 U2 U3]; subst.
  assert (VC : forall rc x, In rc (children e) -> In x (map pb_hir (visit_child fc e rc)) ->
                 skippedb e (fst rc) = false /\ exists s, Sub (snd rc) s /\ x = eid s).
  { intros [r c] x I X. unfold visit_child in X. cbn [fst snd] in *.
    destruct (skippedb e r); [destruct X|]. split; auto.
    apply in_map_iff in X as (pb & <- & X). apply visit_id in X. auto. }
  rewrite visit_unfold, map_app. apply NoDup_app.
  - destruct (own fc e) as [|pb l] eqn:O; [constructor|].
    destruct (own_id fc e pb) as [E _]; [rewrite O; cbn; auto|]. rewrite E in O. injection O as <-.
    repeat constructor. intros [].
  - assert (G : forall l, (forall rc, In rc l -> In rc (children e)) ->
      ForallOrdPairs (fun a b => forall s1 s2, Sub (snd a) s1 -> Sub (snd b) s2 -> eid s1 <> eid s2) l ->
      NoDup (map pb_hir (flat_map (visit_child fc e) l))).
    { induction l as [|[r c] l IHl]; cbn [flat_map map]; intros Inc F; [constructor|].
      rewrite map_app. inversion F as [|? ? Fa F']; subst. apply NoDup_app.
      - unfold visit_child. cbn [fst snd]. destruct (skippedb e r); [constructor|].
        apply (IH r c); [apply Inc; left; auto|]. apply (U1 r). apply Inc; left; auto.
      - apply IHl; auto. intros rc I. apply Inc. right; auto.
      - intros x X1 X2. apply VC in X1 as (_ & s1 & S1 & ->); [|apply Inc; left; auto].
        apply in_map_iff in X2 as (pb & Epb & X2). apply in_flat_map in X2 as (rc & I & X2).
        apply (in_map pb_hir) in X2. apply VC in X2 as (_ & s2 & S2 & E2); [|apply Inc; right; auto].
        rewrite Forall_forall in Fa. apply (Fa rc I s1 s2 S1 S2). congruence. }
    apply G; auto.
  - intros x X1 X2. apply in_map_iff in X1 as (pb & <- & X1). apply own_id in X1 as [_ O].
    apply in_map_iff in X2 as (pb' & E & X2). apply in_flat_map in X2 as ([r c] & I & X2).
    apply (in_map pb_hir) in X2. apply VC in X2 as (K & s & S & Es); auto. cbn [fst snd] in *.
    destruct O as [O|(r0 & c0 & rest & Ec & K0 & O)].
    + apply (U2 r c I s S). congruence.
    + rewrite Ec in I. destruct I as [I|I]; [injection I as -> ->; congruence|].
      rewrite Ec in U3. inversion U3 as [|? ? Fa _]; subst. rewrite Forall_forall in Fa.
      apply (Fa (r, c) I c0 s); [constructor|auto|]. cbn. congruence.
Qed.

Definition pos (pb : PathBoundary) : nat := hi (pb_location pb).

Lemma StronglySorted_app {A} (R : A -> A -> Prop) l1 l2 :
  StronglySorted R l1 -> StronglySorted R l2 -> (forall x y, In x l1 -> In y l2 -> R x y) ->
  StronglySorted R (l1 ++ l2).
Proof.
  induction 1 as [|x l S IH F]; cbn; auto. intros S2 C. constructor.
  - apply IH; auto.
  - apply Forall_app. split; auto. apply Forall_forall. auto.
Qed.

Lemma visit_bounds e : InOrder e -> forall fc pb, In pb (visit fc e) ->
  lo (espan e) <= pos pb <= hi (espan e).
Proof.
  induction e as [e IH] using expr_ind'. intros O fc pb I. inversion O as [? W P C F]; subst.
  rewrite visit_unfold in I. apply in_app_iff in I as [I|I].
  - destruct e as [m d arms|m f r args|m u i|m l r|m l r|m i|m r sp x|m|m b|m b i|m ss t|m b|m ps];
      cbn [own] in I; try (destruct I; fail).
    + destruct (is_place_expr _ d); try (destruct I; fail); destruct I as [<-|[]]. unfold pos; cbn [pb_location].
      destruct (C Scrutinee d) as (Od & L); [cbn; auto|]. inversion Od; subst. lia.
    + destruct (negb f && _); try (destruct I; fail); destruct I as [<-|[]]. unfold pos; cbn [pb_location].
      destruct (C Receiver r) as (Od & L); [cbn; auto|]. inversion Od; subst. lia.
    + destruct (_ && _); try (destruct I; fail); destruct I as [<-|[]]. unfold pos; cbn [pb_location hi shrink_to_lo].
      destruct (C Operand i) as (Od & L); [cbn; auto|]. inversion Od; subst. lia.
    + destruct (is_deref l); try (destruct I; fail); destruct I as [<-|[]]. unfold pos; cbn [pb_location hi shrink_to_lo].
      destruct (C AssignTarget l) as (Od & L); [cbn; auto|]. inversion Od; subst. lia.
    + destruct I as [<-|[]]. unfold pos; cbn [pb_location hi shrink_to_lo].
      destruct (C AssignTarget l) as (Od & L); [cbn; auto|]. inversion Od; subst. lia.
    + destruct (_ && _); try (destruct I; fail); destruct I as [<-|[]]. unfold pos; cbn [pb_location hi shrink_to_lo].
      unfold espan in *; cbn in W |- *. lia.
    + destruct r; try (destruct I; fail). destruct x; try (destruct I; fail); destruct I as [<-|[]].
      unfold pos; cbn [pb_location hi shrink_to_lo]. specialize (P _ _ _ _ eq_refl). lia.
  - apply in_flat_map in I as ([r c] & I & V). unfold visit_child in V. cbn [fst snd] in V.
    destruct (skippedb e r); [destruct V|]. destruct (C r c I) as (Oc & L).
    specialize (IH r c I Oc _ _ V). lia.
Qed.

Lemma visit_sorted e : InOrder e -> forall fc,
  StronglySorted (fun a b => pos a <= pos b) (visit fc e).
Proof.
  induction e as [e IH] using expr_ind'. intros O fc. inversion O as [? W P C F]; subst.
  rewrite visit_unfold. apply StronglySorted_app.
  - destruct (own fc e) as [|pb l] eqn:Ow; [constructor|].
    destruct (own_id fc e pb) as [E _]; [rewrite Ow; cbn; auto|]. rewrite E in Ow. injection Ow as <-.
    repeat constructor.
  - assert (G : forall l, (forall rc, In rc l -> In rc (children e)) ->
      ForallOrdPairs (fun a b => hi (espan (snd a)) <= lo (espan (snd b))) l ->
      StronglySorted (fun a b => pos a <= pos b) (flat_map (visit_child fc e) l)).
    { induction l as [|[r c] l IHl]; cbn [flat_map]; intros Inc Fo; [constructor|].
      inversion Fo as [|? ? Fa Fo']; subst. apply StronglySorted_app.
      - unfold visit_child. cbn [fst snd]. destruct (skippedb e r); [constructor|].
        apply (IH r c); [apply Inc; left; auto|]. apply (C r). apply Inc; left; auto.
      - apply IHl; auto. intros rc I. apply Inc. right; auto.
      - intros x y X Y. unfold visit_child at 1 in X. cbn [fst snd] in X.
        destruct (skippedb e r); [destruct X|].
        apply visit_bounds in X; [|apply (C r); apply Inc; left; auto].
        apply in_flat_map in Y as ([r' c'] & I & Y). unfold visit_child in Y. cbn [fst snd] in Y.
        destruct (skippedb e r'); [destruct Y|].
        apply visit_bounds in Y; [|apply (C r'); apply Inc; right; auto].
        rewrite Forall_forall in Fa. specialize (Fa _ I). cbn in Fa. lia. }
    apply G; auto.
  - intros x y X Y. apply in_flat_map in Y as ([r c] & I & V). unfold visit_child in V.
    cbn [fst snd] in V. destruct (skippedb e r) eqn:K; [destruct V|].
    destruct (C r c I) as (Oc & L). pose proof (visit_bounds c Oc _ _ V) as B.
    assert (Pos : pos x = lo (espan e) \/ exists r0 c0 rest, children e = (r0, c0) :: rest /\
              skippedb e r0 = true /\ pos x <= hi (espan c0)).
    { clear - X C K I.
      destruct e as [m d arms|m f rc args|m u i|m l rh|m l rh|m i|m rs sp x0|m|m b|m b i|m ss t|m b|m ps];
      cbn [own] in X; try (destruct X; fail).
      - destruct (is_place_expr _ d) eqn:Q; try (destruct X; fail); destruct X as [<-|[]]. right. do 3 eexists.
        split; [reflexivity|]. split; [exact Q|]. unfold pos; cbn; auto.
      - destruct (negb f && _) eqn:Q; try (destruct X; fail); destruct X as [<-|[]]. right. do 3 eexists.
        split; [reflexivity|]. split; [exact Q|]. unfold pos; cbn; auto.
      - destruct (_ && _) eqn:Q; try (destruct X; fail); destruct X as [<-|[]].
        destruct I as [I|[]]. injection I as <- <-. cbn [skippedb] in K. congruence.
      - destruct (is_deref l) eqn:Q; try (destruct X; fail); destruct X as [<-|[]]. right. do 3 eexists.
        split; [reflexivity|]. split; [reflexivity|].
        destruct (C AssignTarget l) as (Ol & _); [cbn; auto|]. inversion Ol; subst.
        unfold pos; cbn. auto.
      - destruct X as [<-|[]]. right. do 3 eexists.
        split; [reflexivity|]. split; [reflexivity|].
        destruct (C AssignTarget l) as (Ol & _); [cbn; auto|]. inversion Ol; subst.
        unfold pos; cbn. auto.
      - destruct (_ && _) eqn:Q; try (destruct X; fail); destruct X as [<-|[]].
        destruct I as [I|[]]. injection I as <- <-. cbn [skippedb] in K. congruence.
      - destruct I. }
    destruct Pos as [->|(r0 & c0 & rest & Ec & K0 & Le)]; [lia|].
    rewrite Ec in I. destruct I as [I|I]; [injection I as -> ->; congruence|].
    rewrite Ec in F. inversion F as [|? ? Fa _]; subst. rewrite Forall_forall in Fa.
    specialize (Fa _ I). cbn in Fa. lia.
Qed.

(** * Flow boundaries (C55) *)

Section FlowBoundaries.
  Variables (fi : FlowIn) (rf : RegionFlows).
  Hypothesis computed : compute_flows fi = Some rf.

  (** Both ends of the constraint are constrained in the analysed body. *)
  Definition known_constraint (c : Constraint) : Prop := In (fst c) (f_subset fi).

  Lemma known_lt c : known_constraint c ->
    fst (fst c) < count_nodes (f_subset fi) /\ snd (fst c) < count_nodes (f_subset fi).
  Proof.
    destruct c as [[f t] p]. unfold known_constraint. cbn. intros I.
    split; apply count_nodes_lt; unfold Constrained; eauto.
  Qed.

  Lemma abstract_answer o : o < count_nodes (f_subset fi) ->
    exists b, origin_is_abstract rf o = Some b /\ (b = true <-> TiedToAbstract fi o).
  Proof.
    intros L. destruct (computed_inv fi rf computed) as (ph & ls & dg & T1 & T2 & T3 & E).
    unfold origin_is_abstract. rewrite E. cbn [rf_graph].
    destruct (scc (f_subset fi) o) as [s|] eqn:S.
    - eexists. split; [reflexivity|]. apply scc_Some in S as [_ ->].
      unfold is_abstract_member. cbn [rf_abstract]. rewrite memb_In, (traverse_scc_In _ _ _ T1).
      unfold TiedToAbstract. split.
      + intros (p & I & Eq). exists p. split; [apply abstract_origins_In; auto|].
        apply scc_rep_eq; auto.
      + intros (p & A & C). exists p. split; [apply abstract_origins_In; auto|].
        symmetry. apply scc_rep_eq; auto.
    - exfalso. unfold scc in S. apply Nat.ltb_lt in L. rewrite L in S. discriminate.
  Qed.

  Lemma has_abstract_spec cs : (forall c, In c cs -> known_constraint c) ->
    exists b, has_abstract_on_rhs rf cs = Some b /\
      (b = true <-> exists c, In c cs /\ TiedToAbstract fi (snd (fst c))).
  Proof.
    induction cs as [|[[f t] p] cs IH]; intros K.
    - exists false. split; auto. split; [discriminate|]. intros (c & [] & _).
    - destruct (known_lt (f, t, p)) as [_ Lt]; [apply K; left; auto|].
      destruct (abstract_answer t Lt) as (b & E & Hb). cbn [has_abstract_on_rhs]. rewrite E.
      destruct b.
      + exists true. split; auto. split; auto. intros _. exists (f, t, p). split; [left; auto|].
        apply Hb; auto.
      + destruct IH as (b' & E' & Hb'); [intros; apply K; right; auto|].
        exists b'. split; auto. rewrite Hb'. split.
        * intros (c & I & H). exists c. split; [right; auto|auto].
        * intros (c & [<-|I] & H); [|eauto]. cbn in H. apply Hb in H. discriminate.
  Qed.

  Lemma first_violation_spec ss cs : (forall c, In c cs -> known_constraint c) ->
    (first_violation rf ss cs = Some FlowOk /\ forall c, In c cs -> ~ Offends fi ss c) \/
    (exists pre c post k, cs = pre ++ c :: post /\ (forall x, In x pre -> ~ Offends fi ss x) /\
       Offends fi ss c /\ first_violation rf ss cs = Some k /\ k <> FlowOk /\
       Verdict fi (fst (fst c)) (snd (fst c)) k).
  Proof.
    induction cs as [|[[f t] p] cs IH]; intros K.
    - left. split; auto.
    - destruct (known_lt (f, t, p)) as [Lf Lt]; [apply K; left; auto|]. cbn [fst snd] in *.
      destruct (abstract_answer t Lt) as (b & E & Hb).
      destruct (proj2 (flow_kind_defined fi rf computed f t) (conj Lf Lt)) as [k Ek].
      pose proof (proj1 (flow_kind_iff fi rf computed f t k Lf Lt) Ek) as V.
      cbn [first_violation]. rewrite Ek, E.
      match goal with |- context [existsb ?f ss] => set (tst := existsb f ss) end.
      assert (T : tst = true <-> exists s, In s ss /\ (snd (fst s) = f \/ snd (fst s) = t)).
      { unfold tst. rewrite existsb_exists. split; intros (s & I & H); exists s; split; auto.
        - rewrite orb_true_iff, !Nat.eqb_eq in H. auto.
        - rewrite orb_true_iff, !Nat.eqb_eq. auto. }
      assert (VK : is_valid_flow k = true <-> Verdict fi f t FlowOk).
      { split.
        - destruct k; cbn; intros; try discriminate. auto.
        - intros W. rewrite (verdict_unique fi f t k FlowOk V W). reflexivity. }
      assert (O : b && negb (is_valid_flow k) && tst = true <-> Offends fi ss (f, t, p)).
      { unfold Offends. cbn [fst snd]. rewrite !andb_true_iff, Hb, T, negb_true_iff, <- VK.
        destruct (is_valid_flow k); intuition congruence. }
      destruct (b && negb (is_valid_flow k) && tst) eqn:C.
      + right. exists [], (f, t, p), cs, k. split; auto. split; [intros x []|].
        split; [apply O; auto|]. split; auto. split; auto.
        intros ->.
        rewrite andb_true_iff, andb_true_iff in C. destruct C as [[_ C] _]. cbn in C. discriminate.
      + assert (N : ~ Offends fi ss (f, t, p)) by (rewrite <- O; congruence).
        destruct IH as [[E' H]|(pre & c & post & k' & -> & H1 & H2)]; [intros; apply K; right; auto| |].
        * left. split; auto. intros c [<-|I]; auto.
        * right. exists ((f, t, p) :: pre), c, post, k'. split; auto. split; auto.
          intros x [<-|I]; auto.
  Qed.

  Lemma flow_permission_spec enabled ctx spec range :
    (forall cs c, ctx = Some cs -> In c cs -> known_constraint c) ->
    exists r, get_flow_permission enabled rf ctx spec range = Some r /\
    match r with
    | None => enabled = false \/ ctx = None \/ spec = None \/
              exists cs, ctx = Some cs /\ forall c, In c cs -> ~ TiedToAbstract fi (snd (fst c))
    | Some fb =>
        enabled = true /\ fb_context fb = range /\
        exists cs ss, ctx = Some cs /\ spec = Some ss /\
          (exists c, In c cs /\ TiedToAbstract fi (snd (fst c))) /\
          (fb_violation fb = true <-> exists c, In c cs /\ Offends fi ss c) /\
          (if fb_violation fb
           then exists pre c post, cs = pre ++ c :: post /\ Offends fi ss c /\
                  (forall x, In x pre -> ~ Offends fi ss x) /\
                  Verdict fi (fst (fst c)) (snd (fst c)) (fb_kind fb)
           else fb_kind fb = FlowOk)
    end.
  Proof.
    intros K. unfold get_flow_permission. destruct enabled; cbn [negb].
    2:{ exists None. split; auto. }
    destruct ctx as [cs|]; [|exists None; split; auto].
    destruct (has_abstract_spec cs) as (b & E & Hb); [intros; eapply K; eauto|]. rewrite E.
    destruct b.
    - destruct spec as [ss|]; [|exists None; split; auto].
      destruct (first_violation_spec ss cs) as [[E' H]|(pre & c & post & k & Ecs & H1 & H2 & E' & Nk & V)];
        [intros; eapply K; eauto| |]; rewrite E'; eexists; (split; [reflexivity|]); cbn [fb_violation fb_kind fb_context].
      + split; auto. split; auto. exists cs, ss. split; auto. split; auto. split; [apply Hb; auto|].
        cbn. split; auto. split; [discriminate|]. intros (c & I & O). exfalso. eapply H; eauto.
      + split; auto. split; auto. exists cs, ss. split; auto. split; auto. split; [apply Hb; auto|].
        assert (X : negb (is_valid_flow k) = true) by (destruct k; cbn; congruence).
        rewrite X. split.
        * split; auto. intros _. exists c. split; auto. rewrite Ecs. apply in_app_iff. cbn; auto.
        * exists pre, c, post. auto.
    - exists None. split; auto. right; right; right. exists cs. split; auto.
      intros c I T. assert (false = true); [|discriminate]. apply Hb. eauto.
  Qed.
End FlowBoundaries.

(** * Remaining statements *)

Lemma flagged_iff b :
  (exists l, In (l, false) (icons b)) <->
  (p_read (b_expected b) = true /\ p_read (b_actual b) = false) \/
  (p_write (b_expected b) = true /\ p_write (b_actual b) = false) \/
  (p_drop (b_expected b) = true /\ p_drop (b_actual b) = false) \/
  (exists f, b_flow b = Some f /\ fb_violation f = true).
Proof.
  split.
  - intros (l & I). apply icons_iff in I as [E P].
    assert (NP : ~ letter_present b l) by (intros X; apply P in X; discriminate).
    destruct l; cbn in *.
    + left. split; auto. destruct (p_read (b_actual b)); tauto.
    + right; left. split; auto. destruct (p_write (b_actual b)); tauto.
    + right; right; left. split; auto. destruct (p_drop (b_actual b)); tauto.
    + right; right; right. destruct (b_flow b) as [f|]; [|congruence]. exists f. split; auto.
      destruct (fb_violation f) eqn:V; auto. exfalso. apply NP. intros g X. injection X as <-. auto.
  - assert (G : forall l, letter_expected b l -> ~ letter_present b l -> exists l, In (l, false) (icons b)).
    { intros l E N. exists l. apply icons_iff. split; auto. split; [discriminate|contradiction]. }
    intros [[E A]|[[E A]|[[E A]|(f & E & V)]]].
    + apply (G LR); cbn; auto; congruence.
    + apply (G LW); cbn; auto; congruence.
    + apply (G LO); cbn; auto; congruence.
    + apply (G LF); cbn; [congruence|]. intros X. specialize (X f E). congruence.
Qed.

(** What each use kind expects. *)
Lemma expected_by_kind fc e pb : In pb (visit fc e) ->
  p_read (pb_expected pb) = true /\
  (pb_lhs pb = true -> p_write (pb_expected pb) = true /\ p_drop (pb_expected pb) = false) /\
  (p_drop (pb_expected pb) = true -> p_write (pb_expected pb) = false).
Proof.
  intros I. apply visit_iff in I as (fc' & e' & _ & U).
  assert (N : forall m p, Needs m p -> p_read p = true /\ (p_drop p = true -> p_write p = false)).
  { intros m p X. inversion X; cbn; auto. }
  inversion U; subst; cbn [pb_expected pb_lhs];
    try (match goal with X : Needs _ _ |- _ => apply N in X as [? ?] end; repeat split; auto; discriminate).
  - destruct mut; cbn; repeat split; auto; discriminate.
  - cbn; repeat split; auto; discriminate.
  - cbn; repeat split; auto; discriminate.
  - cbn; repeat split; auto; discriminate.
Qed.

(** A statement-level reading of the mutable borrow and the move. *)
Lemma borrow_expects fc m mut i : VisiblePlace i ->
  exists pb, In pb (visit fc (EAddrOf m mut i)) /\ p_write (pb_expected pb) = mut /\
    p_read (pb_expected pb) = true /\ p_drop (pb_expected pb) = false.
Proof.
  intros V. eexists. split.
  - apply visit_iff. exists fc, (EAddrOf m mut i). split; [constructor|apply use_borrow; auto].
  - destruct mut; cbn; auto.
Qed.

Lemma variable_expects fc m sp :
  exists pb, visit fc (EPath m ResLocal sp false) = [pb] /\ Needs m (pb_expected pb).
Proof. eexists. split; [reflexivity|]. cbn. apply adjusted_iff. reflexivity. Qed.

(** ** Counterexamples to C20 *)

Definition mk (i a b : nat) (copy : bool) : Meta := mkM i (mkR a b) false [] copy.

(** [(deref consume(x)).get()]: the variable [x] is moved, but gets no boundary. *)
Definition hidden_move : Expr :=
  EMethod (mk 1 0 20 true) false
    (EDeref (mk 2 1 12 false)
       (EOther (mk 3 2 12 true) [EPath (mk 4 10 11 false) ResLocal (mkR 10 11) false])) [].

Lemma hidden_move_missed :
  exists e s fc, Sub e s /\ (exists m sp, s = EPath m ResLocal sp false /\ Needs m RO_) /\
    InOrder e /\ ~ exists pb, In pb (visit fc e) /\ pb_hir pb = eid s.
Proof.
  exists hidden_move, (EPath (mk 4 10 11 false) ResLocal (mkR 10 11) false), 0.
  split; [|split; [|split]].
  - eapply Sub_step; [left; reflexivity|]. eapply Sub_step; [left; reflexivity|].
    eapply Sub_step; [left; reflexivity|]. constructor.
  - eexists _, _. split; [reflexivity|]. apply needs_move; auto. intros x [].
  - assert (O4 : InOrder (EPath (mk 4 10 11 false) ResLocal (mkR 10 11) false)).
    { constructor; cbn; auto; try lia.
      - intros m r sp x E. injection E as _ _ <- _. cbn; lia.
      - constructor. }
    assert (O3 : InOrder (EOther (mk 3 2 12 true) [EPath (mk 4 10 11 false) ResLocal (mkR 10 11) false])).
    { constructor; cbn; auto; try lia; try discriminate.
      - intros r c [E|[]]. injection E as <- <-. split; auto. cbn; lia.
      - repeat constructor. }
    assert (O2 : InOrder (EDeref (mk 2 1 12 false)
       (EOther (mk 3 2 12 true) [EPath (mk 4 10 11 false) ResLocal (mkR 10 11) false]))).
    { constructor; cbn; auto; try lia; try discriminate.
      - intros r c [E|[]]. injection E as <- <-. split; auto. cbn; lia.
      - repeat constructor. }
    constructor; cbn; auto; try lia; try discriminate.
    + intros r c [E|[]]. injection E as <- <-. split; auto. cbn; lia.
    + repeat constructor.
  - cbn. intros (pb & [<-|[]] & E). discriminate.
Qed.

(** [p.x] with a copyable field of a struct that is not copyable: the read is
    said to need ownership. *)
Lemma copy_field_needs_own :
  exists e m b, e = EField m b /\ m_copyable m = true /\
    (exists pb, visit 0 e = [pb] /\ p_drop (pb_expected pb) = true).
Proof.
  exists (EField (mk 1 0 3 true) (EPath (mk 2 0 1 false) ResLocal (mkR 0 1) false)),
    (mk 1 0 3 true), (EPath (mk 2 0 1 false) ResLocal (mkR 0 1) false).
  split; auto. split; auto. eexists. split; [reflexivity|]. reflexivity.
Qed.

Lemma constraints_exact : forall placeholders subset_base lps,
  exists cs, flow_constraints_at placeholders subset_base (Some lps) = Some cs /\
  (forall f t p, In (f, t, p) cs <->
     In (f, t, p) subset_base /\ ~ In f placeholders /\ ~ In t placeholders /\
     exists ps, In ps lps /\ In p ps) /\
  (forall ps r, lps = ps :: r -> exists a b, cs = a ++ b /\
     flow_constraints_at placeholders subset_base (Some r) = Some b /\
     forall f t p, In (f, t, p) a -> In p ps).
Proof.
  intros ph sb lps. eexists. split; [reflexivity|].
  assert (U : forall f t, is_universal_subset ph f t = false <-> ~ In f ph /\ ~ In t ph).
  { intros f t. unfold is_universal_subset. split.
    - intros E. split; intros I;
        (assert (T : existsb (fun p => (p =? f) || (p =? t)) ph = true); [|congruence]);
        apply existsb_exists; eexists; (split; [exact I|]); rewrite Nat.eqb_refl; auto with bool.
    - intros [N1 N2]. destruct (existsb (fun p => (p =? f) || (p =? t)) ph) eqn:E; auto.
      apply existsb_exists in E as (x & I & E).
      apply orb_true_iff in E as [E|E]; apply Nat.eqb_eq in E; subst; tauto. }
  split.
  - intros f t p. rewrite in_flat_map. split.
    + intros (ps & I & H). apply filter_In in H as [H E]. apply andb_true_iff in E as [E1 E2].
      apply negb_true_iff in E1. apply U in E1. apply memb_In in E2. firstorder.
    + intros (H & N1 & N2 & ps & I & Ip). exists ps. split; auto. apply filter_In. split; auto.
      apply andb_true_iff. split; [apply negb_true_iff, U; auto|apply memb_In; auto].
  - intros ps r ->. cbn [flat_map]. eexists. eexists. split; [reflexivity|]. split; [reflexivity|].
    intros f t p I. apply filter_In in I as [_ E]. apply andb_true_iff in E as [_ E]. apply memb_In in E. auto.
Qed.
