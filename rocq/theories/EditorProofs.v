(** * Lemmas about the editor *)

From Coq Require Import Ascii String.
From Coq Require Import List Arith Bool Lia.
From Verif Require Import Base PermsModel BookModel FrontSpec EditorModel EditorSpec.
Import ListNotations.

(** ** Positions *)

Lemma list_sum_cons x l : list_sum (x :: l) = x + list_sum l.
Proof. reflexivity. Qed.
Lemma units_utf16 c : length (utf16 c) = units c.
Proof. unfold utf16, units. destruct (c <? 256 * 256); auto. Qed.

Lemma position_app x y : position_after (x ++ y) = position_after x + position_after y.
Proof. unfold position_after. rewrite flat_map_app, app_length. auto. Qed.

Lemma position_line l : position_after l = line_units l.
Proof.
  unfold position_after, line_units. induction l as [|c l IH]; cbn [flat_map map]; auto.
  rewrite app_length, units_utf16, IH, list_sum_cons. auto.
Qed.

Lemma line_from_app ls r : line_from (ls ++ r) (length ls) = position_after (flat_map (fun l => l ++ [newline]) ls).
Proof.
  unfold line_from. rewrite firstn_app, Nat.sub_diag, firstn_all, firstn_O, app_nil_r.
  induction ls as [|l ls IH]; auto. cbn [map flat_map]. rewrite !position_app, list_sum_cons, IH, (position_line l).
  assert (N : position_after [newline] = 1) by (vm_compute; reflexivity). rewrite N. lia.
Qed.

Lemma units_astral a : line_units a = length a + astral a.
Proof.
  unfold line_units, astral. induction a as [|c a IH]; auto. cbn [map filter length]. rewrite list_sum_cons, IH. unfold units. destruct (c <? 256 * 256) eqn:E.
  - apply Nat.ltb_lt in E. assert (X : (256 * 256 <=? c) = false) by (apply Nat.leb_gt; exact E). rewrite X. lia.
  - apply Nat.ltb_ge in E. assert (X : (256 * 256 <=? c) = true) by (apply Nat.leb_le; exact E). rewrite X. cbn [length]. lia.
Qed.

Lemma astral_zero a : astral a = 0 <-> Forall (fun c => c < 256 * 256) a.
Proof.
  unfold astral. induction a as [|c a IH]; cbn [filter].
  - split; auto.
  - destruct (256 * 256 <=? c) eqn:E; cbn [length].
    + apply Nat.leb_le in E. split; [discriminate|]. intros H. inversion H as [|? ? H1 _]; subst. exfalso. apply (Nat.lt_irrefl c). eapply Nat.lt_le_trans; eauto.
    + apply Nat.leb_gt in E. rewrite IH. split; intros H; [constructor; auto|inversion H; auto].
Qed.

Lemma linecol_text ls a b r : linecol_to_position (Pos (length ls) (length a)) (ls ++ (a ++ b) :: r) =
  Some (position_after (flat_map (fun l => l ++ [newline]) ls) + length a).
Proof.
  unfold linecol_to_position. cbn [p_line p_column]. rewrite app_length. cbn [length].
  assert (L : length ls <? length ls + S (length r) = true) by (apply Nat.ltb_lt; lia). rewrite L, line_from_app. auto.
Qed.

Lemma linecol_none p d : linecol_to_position p d = None <-> length d <= p_line p.
Proof.
  unfold linecol_to_position. destruct (p_line p <? length d) eqn:E.
  - apply Nat.ltb_lt in E. split; [discriminate|lia].
  - apply Nat.ltb_ge in E. tauto.
Qed.

Lemma line_from_S d n l : nth_error d n = Some l -> line_from d (S n) = line_from d n + line_units l + 1.
Proof.
  unfold line_from. revert n. induction d as [|x d IH]; intros [|n] H; cbn in H; try discriminate.
  - injection H as ->. cbn. lia.
  - specialize (IH n H). rewrite !firstn_cons. cbn [map]. rewrite !list_sum_cons. lia.
Qed.

Lemma line_from_le d m n : m <= n -> line_from d m <= line_from d n.
Proof.
  intros L. induction L as [|n L IH]; auto. etransitivity; [exact IH|]. destruct (nth_error d n) as [l|] eqn:E.
  - rewrite (line_from_S _ _ _ E). lia.
  - apply nth_error_None in E. unfold line_from. rewrite !firstn_all2 by lia. auto.
Qed.

Lemma filter_seq_prefix (f : nat -> bool) n k : k <= n -> (forall i, i < k -> f i = true) -> (forall i, k <= i < n -> f i = false) ->
  length (filter f (seq 0 n)) = k.
Proof.
  intros L A Bb. replace n with (k + (n - k)) by lia. rewrite seq_app, filter_app, app_length.
  assert (X : filter f (seq 0 k) = seq 0 k).
  { clear L Bb. assert (Y : forall i, In i (seq 0 k) -> f i = true) by (intros i Hi; apply in_seq in Hi; apply A; lia).
    induction (seq 0 k) as [|x l IH]; auto. cbn. rewrite Y by (cbn; auto). f_equal. apply IH. intros; apply Y; cbn; auto. }
  assert (Z : filter f (seq (0 + k) (n - k)) = []).
  { assert (Y : forall i, In i (seq (0 + k) (n - k)) -> f i = false) by (intros i Hi; apply in_seq in Hi; apply Bb; lia).
    induction (seq (0 + k) (n - k)) as [|x l IH]; auto. cbn. rewrite Y by (cbn; auto). apply IH. intros; apply Y; cbn; auto. }
  rewrite X, Z, seq_length. cbn. lia.
Qed.

(** A position within a line belongs to that line. *)
Lemma line_at_in d n l k : nth_error d n = Some l -> line_from d n <= k <= line_from d n + line_units l -> line_at d k = Some n.
Proof.
  intros E L. assert (N : n < length d) by (apply nth_error_Some; congruence).
  assert (SS := line_from_S d n l E). assert (G := line_from_le d (S n) (length d)).
  unfold line_at, doc_length. assert (X : k <=? line_from d (length d) - 1 = true) by (apply Nat.leb_le; lia). rewrite X. f_equal.
  rewrite (filter_seq_prefix _ (length d) (S n)); [lia|lia| |].
  - intros i Hi. apply Nat.leb_le. etransitivity; [apply (line_from_le d i n); lia|lia].
  - intros i Hi. apply Nat.leb_gt. assert (line_from d (S n) <= line_from d i) by (apply line_from_le; lia). lia.
Qed.

(** ** Collecting *)

Lemma collect_some {A C} (f : A -> option C) l ys : collect f l = Some ys <-> Forall2 (fun x y => f x = Some y) l ys.
Proof.
  revert ys. induction l as [|x l IH]; intros ys; cbn [collect].
  - split; [intros H; injection H as <-; constructor|intros H; inversion H; auto].
  - destruct (f x) as [y|] eqn:E; [destruct (collect f l) as [zs|] eqn:F|].
    + split.
      * intros H. injection H as <-. constructor; auto. apply IH. auto.
      * intros H. inversion H as [|? y' ? ys' E' F']; subst. apply IH in F'. congruence.
    + split; [discriminate|]. intros H. inversion H as [|? y' ? ys' E' F']; subst. apply IH in F'. discriminate.
    + split; [discriminate|]. intros H. inversion H; subst. congruence.
Qed.

Lemma collect_exists {A C} (f : A -> option C) l : (exists ys, collect f l = Some ys) <-> forall x, In x l -> exists y, f x = Some y.
Proof.
  induction l as [|x l IH]; cbn [collect].
  - split; [intros _ x []|eauto].
  - destruct (f x) as [y|] eqn:E; [destruct (collect f l) as [zs|] eqn:F|].
    + split; [|eauto]. intros _ z [->|Hz]; [eauto|]. apply IH; eauto.
    + split; [intros (ys & H); discriminate|]. intros H. exfalso.
      assert (X : exists ys, @None (list C) = Some ys) by (apply IH; intros z Hz; apply H; cbn; auto). destruct X; discriminate.
    + split; [intros (ys & H); discriminate|]. intros H. exfalso. destruct (H x) as (y & Hy); [cbn; auto|congruence].
Qed.

Lemma collect_in {A C} (f : A -> option C) l ys y : collect f l = Some ys -> (In y ys <-> exists x, In x l /\ f x = Some y).
Proof.
  intros H. apply collect_some in H. induction H as [|x z l ys E _ IH]; cbn.
  - split; [tauto|intros (x & [] & _)].
  - rewrite IH. split.
    + intros [->|(x' & I & F)]; eauto.
    + intros (x' & [->|I] & F); [left; congruence|eauto].
Qed.

(** ** Marks *)

Lemma mark_range_some d r a b : mark_range d r = Some (a, b) <-> Forward d r a b.
Proof.
  unfold mark_range, Forward. destruct (linecol_to_position (r_start r) d) as [x|]; [destruct (linecol_to_position (r_end r) d) as [y|]|].
  - destruct (y <=? x) eqn:E.
    + apply Nat.leb_le in E. split; [discriminate|]. intros (A & Bb & L). injection A as ->. injection Bb as ->. lia.
    + apply Nat.leb_gt in E. split.
      * intros H. injection H as -> ->. auto.
      * intros (A & Bb & L). congruence.
  - split; [discriminate|intros (_ & X & _); discriminate].
  - split; [discriminate|intros (X & _); discriminate].
Qed.

Definition shown_ranges (rs : list crange) := filter (fun r => if pos_eqd (r_start r) (r_end r) then false else true) rs.
Lemma shown_ranges_in rs r : In r (shown_ranges rs) <-> In r rs /\ r_start r <> r_end r.
Proof.
  unfold shown_ranges. rewrite filter_In. destruct (pos_eqd (r_start r) (r_end r)); split; intros [A Bb]; split; auto; try discriminate.
Qed.

Lemma action_marks_some d act : (exists ms, action_marks d act = Some ms) <->
  exists p, fst act = Some p /\ (exists a b, Forward d p a b) /\ forall r, In r (snd act) -> r_start r <> r_end r -> exists a b, Forward d r a b.
Proof.
  unfold action_marks. destruct act as [[p|] rs]; cbn [fst snd].
  - fold (shown_ranges rs). destruct (mark_range d p) as [[a b]|] eqn:E; [destruct (collect (mark_range d) (shown_ranges rs)) as [ms|] eqn:F|].
    + split; [|eauto]. intros _. exists p. split; auto. split; [exists a, b; apply mark_range_some; auto|].
      intros r Hr N. destruct (proj1 (collect_exists (mark_range d) (shown_ranges rs)) (ex_intro _ ms F) r) as ([x y] & X); [apply shown_ranges_in; auto|].
      exists x, y. apply mark_range_some; auto.
    + split; [intros (ms & H); discriminate|]. intros (p' & _ & _ & H). exfalso.
      assert (X : exists ys, collect (mark_range d) (shown_ranges rs) = Some ys).
      { apply collect_exists. intros r Hr. apply shown_ranges_in in Hr. destruct (H r) as (a' & b' & F'); try tauto.
        exists (a', b'). apply mark_range_some; auto. }
      destruct X; congruence.
    + split; [intros (ms & H); discriminate|]. intros (p' & Q & (a & b & F) & _). injection Q as <-. apply mark_range_some in F. congruence.
  - split; [intros (ms & H); discriminate|]. intros (p & Q & _). discriminate.
Qed.

Lemma action_marks_in d act ms a b : action_marks d act = Some ms ->
  (In (a, b) ms <-> exists r, (fst act = Some r \/ In r (snd act) /\ r_start r <> r_end r) /\ Forward d r a b).
Proof.
  unfold action_marks. destruct act as [[p|] rs]; cbn [fst snd]; [|discriminate].
  fold (shown_ranges rs). destruct (mark_range d p) as [m|] eqn:E; [destruct (collect (mark_range d) (shown_ranges rs)) as [ms'|] eqn:F|]; try discriminate.
  intros H. injection H as <-. cbn [In]. rewrite (collect_in _ _ _ (a, b) F). split.
  - intros [->|(r & Hr & Q)].
    + exists p. split; auto. apply mark_range_some; auto.
    + exists r. apply shown_ranges_in in Hr. split; auto. apply mark_range_some; auto.
  - intros (r & [Q|Hr] & Fw).
    + injection Q as <-. apply mark_range_some in Fw. left. congruence.
    + right. exists r. split; [apply shown_ranges_in; auto|apply mark_range_some; auto].
Qed.

Lemma all_marks_some d l : (exists ms, all_marks d l = Some ms) <-> forall act, In act l -> exists ms, action_marks d act = Some ms.
Proof.
  rewrite <- collect_exists. unfold all_marks. destruct (collect (action_marks d) l) as [x|]; cbn; split; eauto; intros (m & H); discriminate.
Qed.

Lemma all_marks_in d l ms a b : all_marks d l = Some ms ->
  (In (a, b) ms <-> exists act r, In act l /\ (fst act = Some r \/ In r (snd act) /\ r_start r <> r_end r) /\ Forward d r a b).
Proof.
  unfold all_marks. destruct (collect (action_marks d) l) as [x|] eqn:E; cbn; try discriminate. intros H. injection H as <-.
  rewrite in_concat. split.
  - intros (m & Hm & Hi). apply (collect_in _ _ _ m E) in Hm. destruct Hm as (act & Ha & Q). apply (action_marks_in d act m a b Q) in Hi.
    destruct Hi as (r & Hr & Fw). exists act, r. auto.
  - intros (act & r & Ha & Hr & Fw). assert (X : exists m, action_marks d act = Some m).
    { apply (proj1 (collect_exists (action_marks d) l)); eauto. }
    destruct X as (m & Q). exists m. split; [apply (collect_in _ _ _ m E); eauto|]. apply (action_marks_in d act m a b Q). eauto.
Qed.

Lemma actions_in f act : In act (actions_of f) <->
  exists k, (exists rs, In (k, rs) (loan_regions f) /\ act = (aget Nat.eq_dec (loan_points f) k, rs)) \/
            (exists rs, In (k, rs) (move_regions f) /\ act = (aget Nat.eq_dec (move_points f) k, rs)).
Proof.
  unfold actions_of. rewrite in_app_iff, !in_map_iff. split.
  - intros [([k rs] & <- & H)|([k rs] & <- & H)]; exists k; eauto.
  - intros (k & [(rs & H & ->)|(rs & H & ->)]); [left|right]; exists (k, rs); auto.
Qed.

(** ** Substrings *)

Lemma starts_with_spec s sub : starts_with s sub = true <-> exists b, s = sub ++ b.
Proof.
  revert s. induction sub as [|x sub IH]; intros [|y s]; cbn [starts_with].
  - split; auto. intros _. exists []. auto.
  - split; auto. intros _. exists (y :: s). auto.
  - split; [discriminate|intros (b & H); discriminate].
  - rewrite andb_true_iff, Nat.eqb_eq, IH. split.
    + intros [-> (b & ->)]. exists b. auto.
    + intros (b & H). cbn in H. injection H as -> ->. eauto.
Qed.

Lemma contains_spec s sub : contains s sub = true <-> exists a b, s = a ++ sub ++ b.
Proof.
  induction s as [|x s IH]; cbn [contains]; rewrite orb_true_iff, starts_with_spec.
  - split.
    + intros [(b & H)|H]; [exists [], b; auto|discriminate].
    + intros ([|? a] & b & H); [left; eauto|discriminate].
  - rewrite IH. split.
    + intros [(b & H)|(a & b & ->)]; [exists [], b; auto|exists (x :: a), b; auto].
    + intros ([|y a] & b & H); [left; eauto|]. cbn in H. injection H as -> ->. right. eauto.
Qed.

Lemma matches_spec rx m path : valid rx m -> exists r, matches rx m path = Some r /\ (r = true <-> SelectsPart rx m path).
Proof.
  destruct m as [s|s]; cbn.
  - intros _. exists (contains path s). split; auto. apply contains_spec.
  - intros V. destruct (rx s) as [f|]; [|congruence]. exists (f path). split; auto. split.
    + intros E. exists f. auto.
    + intros (f' & E & F). congruence.
Qed.

Lemma any_match_spec rx ms path : Forall (valid rx) ms ->
  exists r, any_match rx ms path = Some r /\ (r = true <-> exists m, In m ms /\ SelectsPart rx m path).
Proof.
  induction 1 as [|m ms V _ (r & E & IH)]; cbn [any_match].
  - exists false. split; auto. split; [discriminate|intros (m & [] & _)].
  - destruct (matches_spec rx m path V) as (x & Ex & Hx). rewrite Ex, E. exists (x || r). split; auto.
    rewrite orb_true_iff, Hx, IH. split.
    + intros [A|(m' & I & A)]; [exists m|exists m']; cbn; auto.
    + intros (m' & [->|I] & A); eauto.
Qed.

Lemma any_match_none rx ms path : any_match rx ms path = None <-> exists m, In m ms /\ ~ valid rx m.
Proof.
  induction ms as [|m ms IH]; cbn [any_match].
  - split; [discriminate|intros (m & [] & _)].
  - destruct (matches rx m path) as [a|] eqn:E.
    + assert (V : valid rx m) by (destruct m as [s|s]; cbn in *; auto; destruct (rx s); [congruence|discriminate]).
      destruct (any_match rx ms path) as [b|].
      * split; [discriminate|]. intros (m' & [->|I] & N); [contradiction|]. exfalso. assert (X : Some b = None) by (apply IH; eauto). discriminate.
      * split; auto. intros _. destruct (proj1 IH eq_refl) as (m' & I & N). exists m'. cbn. auto.
    + split; auto. intros _. exists m. split; [cbn; auto|]. intros V. destruct (matches_spec rx m path V) as (r & Q & _). congruence.
Qed.

(** ** Boundaries *)

Lemma uniq_spec {X} (l : list (nat * X)) seen n x :
  In (n, x) (uniq_by_pos seen l) <->
  ~ In n seen /\ exists l1 l2, l = l1 ++ (n, x) :: l2 /\ ~ In n (map fst l1).
Proof.
  revert seen. induction l as [|[m y] l IH]; intros seen; cbn [uniq_by_pos fst].
  - split; [intros []|intros (_ & [|? l1] & l2 & H & _); discriminate].
  - destruct (existsb (Nat.eqb m) seen) eqn:E.
    + apply existsb_exists in E. destruct E as (m' & Hm & Q). apply Nat.eqb_eq in Q. subst m'. rewrite IH. split.
      * intros (N & l1 & l2 & -> & N1). split; auto. exists ((m, y) :: l1), l2. cbn. split; auto. intros [->|H]; auto.
      * intros (N & [|z l1] & l2 & H & N1); cbn in H; [injection H as -> _ _; contradiction|injection H as <- ->]. split; auto. exists l1, l2. split; auto.
        cbn in N1. tauto.
    + assert (F : ~ In m seen).
      { intros I. assert (existsb (Nat.eqb m) seen = true) by (apply existsb_exists; exists m; split; auto; apply Nat.eqb_refl). congruence. }
      cbn [In]. rewrite IH. split.
      * intros [H|(N & l1 & l2 & -> & N1)].
        -- injection H as -> ->. split; auto. exists [], l. auto.
        -- cbn in N. split; [tauto|]. exists ((m, y) :: l1), l2. cbn. tauto.
      * intros (N & [|[m' y'] l1] & l2 & H & N1); cbn in H.
        -- injection H as -> -> ->. auto.
        -- injection H as <- <- ->. cbn in N1. right. cbn. split; [tauto|]. exists l1, l2. tauto.
Qed.

Lemma collect_concat {A C} (f : A -> option C) (ls : list (list A)) ys :
  collect (collect f) ls = Some ys -> collect f (concat ls) = Some (concat ys).
Proof.
  intros H. apply collect_some in H. apply collect_some. induction H as [|l y ls ys E _ IH]; cbn; [constructor|].
  apply Forall2_app; auto. apply collect_some; auto.
Qed.

Lemma collect_map {A C D} (f : C -> option D) (g : A -> C) l : collect (fun x => f (g x)) l = collect f (map g l).
Proof. induction l as [|x l IH]; cbn; auto. rewrite IH. auto. Qed.

Lemma place_one_some {X} d (x : pos * X) n y : place_one d x = Some (n, y) -> linecol_to_position (fst x) d = Some n /\ y = snd x.
Proof.
  unfold place_one. destruct (linecol_to_position (fst x) d) as [m|]; try discriminate. destruct (line_at d m); try discriminate.
  intros H. injection H as -> ->. auto.
Qed.

Section Ed.
  Context {Bd St Tr : Type}.
  Implicit Types (e : editor Bd St Tr).

  Lemma decorations_spec d (outs : list (output Bd St)) ds : make_decorations d outs = Some ds ->
    Forall2 (fun x y => place_one d x = Some y) (flat_map o_steps outs) (d_steps ds) /\
    (exists l, Forall2 (fun x y => place_one d x = Some y) (flat_map o_boundaries outs) l /\ d_boundaries ds = uniq_by_pos [] l) /\
    d_facts ds = flat_map (fun o => actions_of (o_facts o)) outs.
  Proof.
    unfold make_decorations, place. rewrite (collect_map (collect (place_one d)) o_boundaries), (collect_map (collect (place_one d)) o_steps).
    destruct (collect _ (map o_boundaries outs)) as [bs|] eqn:E; try discriminate.
    destruct (collect _ (map o_steps outs)) as [ss|] eqn:F; try discriminate. intros H. injection H as <-. cbn [d_steps d_boundaries d_facts].
    rewrite !flat_map_concat_map. split; [|split]; auto.
    - apply collect_some, collect_concat; auto.
    - exists (concat bs). split; auto. apply collect_some, collect_concat; auto.
  Qed.

  Lemma oks_in {X} (l : list (option X)) x : In x (oks l) <-> In (Some x) l.
  Proof.
    induction l as [|[y|] l IH]; cbn; [tauto| |]; rewrite IH.
    - split; intros [H|H]; auto; left; congruence.
    - split; auto. intros [H|H]; [discriminate|auto].
  Qed.

  (** What a successful drawing of the permissions shows. *)
  Lemma render_permissions_shows e c ds e' : e_decos e = Some ds -> render_permissions e c = Some e' ->
    e_doc e' = e_doc e /\ e_decos e' = e_decos e /\ e_trace e' = e_trace e /\ e_alive e' = e_alive e /\ e_fail e' = e_fail e /\
    e_steps e' = (if c_stepper c then d_steps ds else []) /\ e_boundaries e' = (if c_boundaries c then d_boundaries ds else []) /\
    all_marks (e_doc e) (d_facts ds) = Some (e_marks e').
  Proof.
    intros D H. unfold render_permissions in H. rewrite D in H. destruct (all_marks _ _) as [ms|]; try discriminate.
    injection H as <-. cbn. rewrite D. repeat split; auto.
  Qed.

  Lemma current_of (analyse : doc -> list (option (output Bd St))) e c ds e' :
    make_decorations (e_doc e) (oks (analyse (e_doc e))) = Some ds -> e_decos e = Some ds ->
    render_permissions e c = Some e' -> Current analyse e'.
  Proof.
    intros M D R. apply decorations_spec in M. destruct M as (A & (l & Bb & C) & F).
    destruct (render_permissions_shows e c ds e' D R) as (E1 & _ & _ & _ & _ & E2 & E3 & E4). unfold Current. rewrite E1, E2, E3.
    assert (IN : forall {X} (g : output Bd St -> list (pos * X)) ys n x,
      Forall2 (fun u v => place_one (e_doc e) u = Some v) (flat_map g (oks (analyse (e_doc e)))) ys -> In (n, x) ys ->
      exists out p, In (Some out) (analyse (e_doc e)) /\ In (p, x) (g out) /\ linecol_to_position p (e_doc e) = Some n).
    { intros X g ys n x FF I. apply collect_some in FF. apply (collect_in _ _ _ (n, x) FF) in I. destruct I as ([p y] & I & Q).
      apply place_one_some in Q. destruct Q as [Q ->]. cbn in Q. apply in_flat_map in I. destruct I as (out & Io & I). apply oks_in in Io.
      exists out, p. auto. }
    split; [|split].
    - intros n s H. destruct (c_stepper c); [|destruct H]. eapply IN; eauto.
    - intros n b H. destruct (c_boundaries c); [|destruct H]. rewrite C in H. apply uniq_spec in H. destruct H as (_ & l1 & l2 & -> & _).
      eapply IN; eauto. apply in_or_app. cbn. auto.
    - intros x y H. apply (all_marks_in _ _ _ x y E4) in H. destruct H as (act & r & Ha & Hr & Fw). rewrite F in Ha.
      apply in_flat_map in Ha. destruct Ha as (out & Io & Ha). apply oks_in in Io. exists out, r. split; auto. split; auto.
      apply actions_in in Ha. destruct Ha as (k & [(rs & I & ->)|(rs & I & ->)]); exists k; cbn [fst snd] in Hr; destruct Hr as [Hr|[Hr _]].
      + left. eapply aget_Some_In; eauto.
      + right. right. exists rs. auto.
      + right. left. eapply aget_Some_In; eauto.
      + right. right. exists rs. auto.
  Qed.

  Lemma current_same analyse e e' : e_doc e' = e_doc e -> e_marks e' = e_marks e -> e_steps e' = e_steps e -> e_boundaries e' = e_boundaries e ->
    Current analyse e -> Current analyse e'.
  Proof. unfold Current. intros -> -> -> ->. auto. Qed.
End Ed.
