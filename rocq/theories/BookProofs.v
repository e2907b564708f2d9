(** * Lemmas about the book's mark-up *)

From Coq Require Import Ascii String.
From Coq Require Import List Arith Bool Lia NArith.
From Verif Require Import Base ValuesModel ValuesProofs BookModel BookSpec.
Import ListNotations.

(** ** Strings *)

Lemma blen_app a b : blen (a ++ b) = blen a + blen b.
Proof. unfold blen. rewrite flat_map_app, app_length. auto. Qed.

Lemma blen_cons_pos c s : blen s < blen (c :: s).
Proof.
  change (c :: s) with ([c] ++ s). rewrite blen_app. unfold blen. cbn [flat_map].
  rewrite app_length. assert (0 < length (utf8 c)); [|lia].
  unfold utf8. destruct (c <? 128); [cbn [length]; lia|]. destruct (c <? 2048); [cbn [length]; lia|].
  destruct (c <? 256 * 256); cbn [length]; lia.
Qed.

Lemma blen_pos s : s <> [] -> 0 < blen s.
Proof. destruct s as [|c s]; [congruence|]. intros _. pose proof (blen_cons_pos c s). lia. Qed.

Lemma app_len_eq {T} (a b c d : list T) : a ++ b = c ++ d -> length a = length c -> a = c /\ b = d.
Proof.
  revert c. induction a as [|x a IH]; intros [|y c] E L; cbn in *; try discriminate; auto.
  injection E as <- E. destruct (IH c E) as [-> ->]; auto.
Qed.

Lemma app_split {T} (a b c d : list T) : a ++ b = c ++ d -> length a <= length c ->
  exists e, c = a ++ e /\ b = e ++ d.
Proof.
  revert c. induction a as [|x a IH]; intros c E L; cbn in *; [eauto|].
  destruct c as [|y c]; cbn in *; [lia|]. injection E as <- E. destruct (IH c E) as (e & -> & ->); [lia|]. eauto.
Qed.

Lemma strip_prefix_iff p s r : strip_prefix p s = Some r <-> s = p ++ r.
Proof.
  revert s. induction p as [|c p IH]; intros s; cbn [strip_prefix app].
  - split; congruence.
  - destruct s as [|d s]; [split; discriminate|]. destruct (c =? d) eqn:E.
    + apply Nat.eqb_eq in E as <-. rewrite IH. split; congruence.
    + apply Nat.eqb_neq in E. split; [discriminate|congruence].
Qed.

Lemma strip_prefix_none p s : strip_prefix p s = None <-> forall r, s <> p ++ r.
Proof.
  destruct (strip_prefix p s) as [r|] eqn:E.
  - apply strip_prefix_iff in E. split; [discriminate|]. intros H. exfalso. eapply H; eauto.
  - split; auto. intros _ r Er. apply strip_prefix_iff in Er. congruence.
Qed.

Lemma split_once_iff c s a b : split_once c s = Some (a, b) <-> s = a ++ c :: b /\ ~ In c a.
Proof.
  revert a. induction s as [|d s IH]; intros a; cbn [split_once].
  - split; [discriminate|]. intros [E _]. destruct a; discriminate.
  - destruct (d =? c) eqn:E.
    + apply Nat.eqb_eq in E as ->. split.
      * intros [= <- <-]. split; auto.
      * intros [E N]. destruct a as [|x a]; cbn in E; [injection E as ->; auto|]. injection E as <- _. exfalso. apply N. left; auto.
    + apply Nat.eqb_neq in E. destruct (split_once c s) as [[a' b']|] eqn:Es.
      * split.
        -- intros [= <- <-]. destruct (proj1 (IH a')) as [-> N]; auto. split; auto. intros [|]; auto.
        -- intros [E1 N]. destruct a as [|x a]; cbn in E1; injection E1 as <- E1; [congruence|].
           assert (X : Some (a', b') = Some (a, b)); [|injection X as -> ->; auto]. apply IH. split; auto. intros I. apply N. right; auto.
      * split; [discriminate|]. intros [E1 N]. destruct a as [|x a]; cbn in E1; injection E1 as <- E1; [congruence|].
        assert (X : None = Some (a, b)); [|congruence]. apply IH. split; auto. intros I. apply N. right; auto.
Qed.

Lemma split_once_none c s : split_once c s = None <-> ~ In c s.
Proof.
  induction s as [|d s IH]; cbn [split_once In]; [tauto|]. destruct (d =? c) eqn:E.
  - apply Nat.eqb_eq in E. split; [discriminate|]. intros N. exfalso. auto.
  - apply Nat.eqb_neq in E. destruct (split_once c s) as [[a b]|].
    + split; [discriminate|]. intros N. assert (X : ~ In c s) by auto. apply IH in X. discriminate.
    + split; auto. intros _ [|I]; auto. apply IH in I; auto.
Qed.

Lemma split_nonempty c s : split c s <> [].
Proof. induction s as [|d s IH]; cbn; [discriminate|]. destruct (d =? c); [discriminate|]. destruct (split c s); congruence. Qed.

Lemma split_app_sep c a b : ~ In c a -> split c (a ++ c :: b) = a :: split c b.
Proof.
  induction a as [|d a IH]; intros N; cbn [app split].
  - rewrite Nat.eqb_refl. auto.
  - destruct (d =? c) eqn:E; [apply Nat.eqb_eq in E; exfalso; apply N; left; auto|].
    rewrite IH; auto. intros I. apply N. right; auto.
Qed.

Lemma split_one c a : ~ In c a -> split c a = [a].
Proof.
  induction a as [|d a IH]; intros N; cbn [split]; auto.
  destruct (d =? c) eqn:E; [apply Nat.eqb_eq in E; exfalso; apply N; left; auto|].
  rewrite IH; auto. intros I. apply N. right; auto.
Qed.

Lemma split_join c l : l <> [] -> (forall x, In x l -> ~ In c x) -> split c (join [c] l) = l.
Proof.
  induction l as [|x l IH]; intros Ne N; [congruence|]. destruct l as [|y l].
  - cbn [join]. apply split_one. apply N. left; auto.
  - change (join [c] (x :: y :: l)) with (x ++ c :: join [c] (y :: l)).
    rewrite split_app_sep by (apply N; left; auto). rewrite IH; auto; [discriminate|]. intros z I. apply N. right; auto.
Qed.

Lemma join_split c s : join [c] (split c s) = s.
Proof.
  induction s as [|d s IH]; auto. cbn [split]. destruct (d =? c) eqn:E.
  - apply Nat.eqb_eq in E as ->. pose proof (split_nonempty c s). destruct (split c s) as [|p ps] eqn:Es; [congruence|].
    change (join [c] ([] :: p :: ps)) with (c :: join [c] (p :: ps)). rewrite IH. auto.
  - pose proof (split_nonempty c s). destruct (split c s) as [|p ps]; [congruence|].
    rewrite <- IH. destruct ps; auto.
Qed.

Lemma split_no c s x : In x (split c s) -> ~ In c x.
Proof.
  revert x. induction s as [|d s IH]; intros x; cbn [split].
  - intros [<-|[]] [].
  - destruct (d =? c) eqn:E.
    + intros [<-|I]; [intros []|auto].
    + apply Nat.eqb_neq in E. destruct (split c s) as [|p ps].
      * intros [<-|[]] [|[]]. auto.
      * intros [<-|I]; [|apply IH; right; auto]. intros [|I]; auto. eapply IH; [left; reflexivity|eauto].
Qed.

(** ** Markers *)

Lemma match_marker_iff s k i rest :
  match_marker s = Some (k, i, rest) <-> exists m, IsMarker k i m /\ s = m ++ rest.
Proof.
  split.
  - unfold match_marker. destruct s as [|t [|o r]]; try discriminate.
    destruct (t =? TICK) eqn:Et; [|discriminate]. apply Nat.eqb_eq in Et as ->.
    destruct (close_of o) as [[k' c]|] eqn:Ec; [|discriminate].
    destruct (split_once c r) as [[interior [|t' rest']]|] eqn:Es; try discriminate.
    destruct (t' =? TICK) eqn:Et; [|discriminate]. apply Nat.eqb_eq in Et as ->. intros [= -> -> ->].
    apply split_once_iff in Es as [-> N]. unfold close_of in Ec.
    destruct (o =? 91) eqn:E1; [apply Nat.eqb_eq in E1 as ->; injection Ec as <- <-;
      exists (lit "`[" ++ i ++ lit "]`"); split; [constructor; auto|cbn; rewrite <- app_assoc; auto]|].
    destruct (o =? 40) eqn:E2; [apply Nat.eqb_eq in E2 as ->; injection Ec as <- <-;
      exists (lit "`(" ++ i ++ lit ")`"); split; [constructor; auto|cbn; rewrite <- app_assoc; auto]|].
    destruct (o =? 123) eqn:E3; [|discriminate]. apply Nat.eqb_eq in E3 as ->; injection Ec as <- <-.
    exists (lit "`{" ++ i ++ lit "}`"); split; [constructor; auto|cbn; rewrite <- app_assoc; auto].
  - intros (m & M & ->). destruct M as [i N|i N|i N]; cbn [lit list_ascii_of_string map app]; rewrite <- app_assoc.
    + change (match_marker (TICK :: 91 :: i ++ 93 :: TICK :: rest) = Some (Interp, i, rest)).
      unfold match_marker. rewrite Nat.eqb_refl. change (close_of 91) with (Some (Interp, 93)). cbv beta iota.
      rewrite (proj2 (split_once_iff 93 _ i (TICK :: rest)) (conj eq_refl N)). rewrite Nat.eqb_refl. auto.
    + change (match_marker (TICK :: 40 :: i ++ 41 :: TICK :: rest) = Some (Stepper, i, rest)).
      unfold match_marker. rewrite Nat.eqb_refl. change (close_of 40) with (Some (Stepper, 41)). cbv beta iota.
      rewrite (proj2 (split_once_iff 41 _ i (TICK :: rest)) (conj eq_refl N)). rewrite Nat.eqb_refl. auto.
    + change (match_marker (TICK :: 123 :: i ++ 125 :: TICK :: rest) = Some (Boundaries, i, rest)).
      unfold match_marker. rewrite Nat.eqb_refl. change (close_of 123) with (Some (Boundaries, 125)). cbv beta iota.
      rewrite (proj2 (split_once_iff 125 _ i (TICK :: rest)) (conj eq_refl N)). rewrite Nat.eqb_refl. auto.
Qed.

Lemma marker_length k i m : IsMarker k i m -> 4 <= length m.
Proof. destruct 1; rewrite !app_length; cbn; lia. Qed.

Lemma captures_some s before k i rest : captures s = Some (before, k, i, rest) ->
  exists m, IsMarker k i m /\ s = before ++ m ++ rest /\
    forall a k' i' m' b, s = a ++ m' ++ b -> IsMarker k' i' m' -> length before <= length a.
Proof.
  revert before. induction s as [|c s IH]; intros before.
  - cbn. discriminate.
  - cbn [captures]. destruct (match_marker (c :: s)) as [[[k0 i0] r0]|] eqn:Em.
    + intros [= <- -> -> ->]. apply match_marker_iff in Em as (m & M & E). exists m. split; auto. split; auto.
      intros. cbn. lia.
    + destruct (captures s) as [[[[b0 k0] i0] r0]|] eqn:Ec; [|discriminate]. intros [= <- -> -> ->].
      destruct (IH b0 eq_refl) as (m & M & E & L). exists m. split; auto. split; [rewrite E; auto|].
      intros a k' i' m' b Ea M'. destruct a as [|x a].
      * exfalso. cbn in Ea. assert (X : match_marker (c :: s) = Some (k', i', b)); [|congruence].
        apply match_marker_iff. eauto.
      * cbn in Ea. injection Ea as <- Ea. cbn. apply le_n_S. eapply L; eauto.
Qed.

Lemma captures_none s : captures s = None -> forall a k i m b, s = a ++ m ++ b -> ~ IsMarker k i m.
Proof.
  induction s as [|c s IH]; cbn [captures]; intros E a k i m b Es M.
  - apply marker_length in M. destruct a; destruct m; cbn in *; try discriminate; lia.
  - destruct (match_marker (c :: s)) as [[[k0 i0] r0]|] eqn:Em; [discriminate|].
    destruct (captures s) as [[[[b0 k0] i0] r0]|] eqn:Ec; [discriminate|].
    destruct a as [|x a]; cbn in Es.
    + assert (X : match_marker (c :: s) = Some (k, i, b)); [|congruence]. apply match_marker_iff. eauto.
    + injection Es as <- Es. eapply IH; eauto.
Qed.

Definition rec_line (line base : nat) (a : annots) (m : str * kind * str) : annots :=
  let '(t, k, i) := m in record_marker line (base + blen t) k i a.

Lemma marker_loop_spec fuel : forall line acc base a s, length s < fuel ->
  exists ms last, Cut s ms last /\
    marker_loop fuel line acc (base + blen acc) a s =
      (acc ++ text_of ms last, base + blen (acc ++ text_of ms last), fold_left (rec_line line base) (placed acc ms) a).
Proof.
  induction fuel as [|f IH]; intros line acc base a s L; [lia|]. cbn [marker_loop].
  destruct (captures s) as [[[[before k] i] rest]|] eqn:Ec.
  - destruct (captures_some _ _ _ _ _ Ec) as (m & M & -> & F).
    pose proof (marker_length _ _ _ M) as Lm. rewrite !app_length in L.
    assert (E : base + blen acc + blen before = base + blen (acc ++ before)) by (rewrite blen_app; lia). rewrite E.
    destruct (IH line (acc ++ before) base (record_marker line (base + blen (acc ++ before)) k i a) rest) as (ms & last & C & Eq); [lia|].
    exists ((before, k, i) :: ms), last. split; [eapply cut_marker; eauto|].
    rewrite Eq. cbn [text_of placed fold_left rec_line]. rewrite <- !app_assoc. auto.
  - exists [], s. split; [apply cut_last; apply captures_none; auto|].
    cbn [text_of placed fold_left]. rewrite blen_app, Nat.add_assoc. auto.
Qed.

Definition add_hidden (h : list nat) (a : annots) : annots :=
  Annots (hidden_lines a ++ h) (state_locations a) (step_lines a) (step_paths a) (bound_lines a).

Definition hid (line : nat) (s : str) : list nat :=
  match s with c :: _ => if c =? HASH then [line] else [] | [] => [] end.

Fixpoint hids (line : nat) (ls : list str) : list nat :=
  match ls with [] => [] | s :: ls' => hid line s ++ hids (S line) ls' end.

Lemma add_hidden_nil a : add_hidden [] a = a.
Proof. destruct a. unfold add_hidden. cbn. rewrite app_nil_r. auto. Qed.

Lemma add_hidden_app h1 h2 a : add_hidden h2 (add_hidden h1 a) = add_hidden (h1 ++ h2) a.
Proof. unfold add_hidden. cbn. rewrite app_assoc. auto. Qed.

Lemma record_add_hidden line idx k i h a :
  record_marker line idx k i (add_hidden h a) = add_hidden h (record_marker line idx k i a).
Proof. destruct k; auto. Qed.

Lemma rec_add_hidden line base h l a :
  fold_left (rec_line line base) l (add_hidden h a) = add_hidden h (fold_left (rec_line line base) l a).
Proof.
  revert a. induction l as [|[[t k] i] l IH]; intros a; auto. cbn [fold_left].
  rewrite <- IH. unfold rec_line at 2 4. rewrite record_add_hidden. auto.
Qed.

Lemma parse_line_spec line base a s : exists out ms, Line s out ms /\
  parse_line line base a s =
    (out, base + blen (out ++ [NL]), add_hidden (hid line s) (fold_left (rec_line line base) ms a)).
Proof.
  assert (B1 : blen [NL] = 1) by reflexivity. unfold parse_line.
  destruct (strip_prefix [HASH] s) as [t|] eqn:E1.
  - apply strip_prefix_iff in E1 as ->. exists t, []. split; [constructor|].
    cbn [hid app]. rewrite Nat.eqb_refl, blen_app, B1, Nat.add_assoc. auto.
  - rewrite strip_prefix_none in E1.
    assert (Eh : hid line s = []).
    { destruct s as [|c s]; auto. cbn. destruct (c =? HASH) eqn:E; auto. apply Nat.eqb_eq in E as ->.
      exfalso. apply (E1 s). auto. }
    rewrite Eh. destruct (strip_prefix [BSLASH; HASH] s) as [t|] eqn:E2.
    + apply strip_prefix_iff in E2 as ->. exists (HASH :: t), []. split; [constructor|].
      cbn [fold_left]. rewrite add_hidden_nil. change (HASH :: t) with ([HASH] ++ t). rewrite !blen_app, B1.
      repeat rewrite Nat.add_assoc. auto.
    + rewrite strip_prefix_none in E2.
      destruct (marker_loop_spec (S (length s)) line [] base a s) as (ms & last & C & Eq); [lia|].
      replace (base + blen []) with base in Eq by (unfold blen; cbn; lia). cbn [app] in Eq. rewrite Eq.
      exists (text_of ms last), (placed [] ms). split.
      * apply line_plain; auto.
      * rewrite add_hidden_nil, blen_app, B1, Nat.add_assoc. auto.
Qed.

Definition record_all (marks : list mark) (a : annots) : annots :=
  fold_left (fun a '(n, t, k, i) => record_marker n (blen t) k i a) marks a.

Lemma record_all_hidden marks h a : record_all marks (add_hidden h a) = add_hidden h (record_all marks a).
Proof.
  unfold record_all. revert a. induction marks as [|[[[n t] k] i] marks IH]; intros a; auto. cbn [fold_left].
  rewrite record_add_hidden. auto.
Qed.

Lemma rec_line_marks n pre ms a :
  fold_left (rec_line n (blen pre)) ms a = record_all (map (fun '(t, k, i) => (n, pre ++ t, k, i)) ms) a.
Proof.
  unfold record_all. revert a. induction ms as [|[[t k] i] ms IH]; intros a; auto. cbn [fold_left map].
  unfold rec_line at 2. rewrite blen_app. auto.
Qed.

Lemma parse_lines_spec ls : forall n pre a, exists outs marks, Doc n pre ls outs marks /\
  parse_lines n (blen pre) a ls = (outs, add_hidden (hids n ls) (record_all marks a)).
Proof.
  induction ls as [|s ls IH]; intros n pre a; cbn [parse_lines hids].
  - exists [], []. split; [constructor|]. rewrite add_hidden_nil. auto.
  - destruct (parse_line_spec n (blen pre) a s) as (out & ms & L & ->). rewrite <- blen_app.
    destruct (IH (S n) (pre ++ out ++ [NL]) (add_hidden (hid n s) (fold_left (rec_line n (blen pre)) ms a)))
      as (outs & marks & D & ->).
    exists (out :: outs), (map (fun '(t, k, i) => (n, pre ++ t, k, i)) ms ++ marks). split; [constructor; auto|].
    rewrite record_all_hidden, add_hidden_app. f_equal. f_equal. rewrite rec_line_marks.
    unfold record_all. rewrite fold_left_app. auto.
Qed.

Lemma parse_annotations_spec c : exists outs marks, Doc 1 [] (lines c) outs marks /\
  parse_annotations c = (join [NL] outs, add_hidden (hids 1 (lines c)) (record_all marks no_annots)).
Proof.
  destruct (parse_lines_spec (lines c) 1 [] no_annots) as (outs & marks & D & E).
  exists outs, marks. split; auto. unfold parse_annotations. change (parse_lines 1 0) with (parse_lines 1 (blen [])). rewrite E. auto.
Qed.

(** The specification is a function. *)
Lemma marker_fun k i m b k' i' m' b' : IsMarker k i m -> IsMarker k' i' m' -> m ++ b = m' ++ b' ->
  k = k' /\ i = i' /\ m = m' /\ b = b'.
Proof.
  intros M M' E.
  assert (X1 : match_marker (m ++ b) = Some (k, i, b)) by (apply match_marker_iff; eauto).
  assert (X2 : match_marker (m ++ b) = Some (k', i', b')) by (apply match_marker_iff; rewrite E; eauto).
  rewrite X1 in X2. injection X2 as -> -> ->. repeat split; auto. eapply app_inv_tail; eauto.
Qed.

Lemma Cut_fun s ms last : Cut s ms last -> forall ms' last', Cut s ms' last' -> ms = ms' /\ last = last'.
Proof.
  induction 1 as [s N|before k i m rest ms last M L C IH]; intros ms' last' C'.
  - inversion C' as [|b0 k0 i0 m0 r0 ms0 l0 M0 L0 C0 Es]; subst; auto. exfalso. eapply N; eauto.
  - inversion C' as [s0 N0 Es|b0 k0 i0 m0 r0 ms0 l0 M0 L0 C0 Es]; subst.
    + exfalso. eapply N0; eauto.
    + assert (E1 : length before = length b0).
      { apply Nat.le_antisymm; [eapply L; eauto; symmetry; eauto|eapply L0; eauto]. }
      destruct (app_len_eq _ _ _ _ Es) as [-> E2]; auto.
      destruct (marker_fun _ _ _ _ _ _ _ _ M0 M E2) as (-> & -> & -> & ->).
      destruct (IH _ _ C0) as [-> ->]. auto.
Qed.

Lemma Line_fun s out ms out' ms' : Line s out ms -> Line s out' ms' -> out = out' /\ ms = ms'.
Proof.
  intros L1 L2. inversion L1 as [t E|t E|s1 ms1 l1 N1 N1' C1]; subst; inversion L2 as [t' E'|t' E'|s2 ms2 l2 N2 N2' C2]; subst;
    auto; try (exfalso; eapply N1; reflexivity); try (exfalso; eapply N1'; reflexivity);
    try (exfalso; eapply N2; reflexivity); try (exfalso; eapply N2'; reflexivity).
  destruct (Cut_fun _ _ _ C1 _ _ C2) as [-> ->]. auto.
Qed.

Lemma Doc_fun n pre ls outs marks : Doc n pre ls outs marks ->
  forall outs' marks', Doc n pre ls outs' marks' -> outs = outs' /\ marks = marks'.
Proof.
  induction 1 as [n pre|n pre l ls out outs ms marks L D IH]; intros outs' marks' D'; inversion D'; subst; auto.
  match goal with H : Line l _ _ |- _ => destruct (Line_fun _ _ _ _ _ L H) as [-> ->]; clear H end.
  match goal with H : Doc _ _ ls _ _ |- _ => destruct (IH _ _ H) as [-> ->] end. auto.
Qed.

(** Where the markers stand. *)
Lemma placed_prefix ms : forall acc last t k i, In (t, k, i) (placed acc ms) ->
  exists u, acc ++ text_of ms last = t ++ u.
Proof.
  induction ms as [|[[b k0] i0] ms IH]; intros acc last t k i; cbn [placed text_of]; [intros []|].
  intros [[= <- <- <-]|I].
  - exists (text_of ms last). rewrite app_assoc. auto.
  - destruct (IH _ last _ _ _ I) as (u & E). exists u. rewrite <- E, app_assoc. auto.
Qed.

Lemma Line_prefix s out ms t k i : Line s out ms -> In (t, k, i) ms -> exists u, out = t ++ u.
Proof.
  intros L I. inversion L as [|?|s1 ms1 last N1 N2 C]; subst; try destruct I.
  destruct (placed_prefix ms1 [] last t k i I) as (u & E). eauto.
Qed.

Lemma Doc_prefix n pre ls outs marks : Doc n pre ls outs marks ->
  forall line t k i, In (line, t, k, i) marks ->
  n <= line < n + length ls /\ exists u, pre ++ join [NL] outs = t ++ u.
Proof.
  induction 1 as [n pre|n pre l ls out outs ms marks L D IH]; intros line t k i I; [destruct I|].
  apply in_app_or in I as [I|I].
  - apply in_map_iff in I as ([[t0 k0] i0] & [= <- <- <- <-] & I). split; [cbn; lia|].
    destruct (Line_prefix _ _ _ _ _ _ L I) as (u & ->).
    destruct outs as [|o outs].
    + exists u. cbn [join]. rewrite app_assoc. auto.
    + exists (u ++ [NL] ++ join [NL] (o :: outs)).
      change (join [NL] ((t0 ++ u) :: o :: outs)) with ((t0 ++ u) ++ [NL] ++ join [NL] (o :: outs)).
      rewrite <- !app_assoc. auto.
  - destruct (IH line t k i I) as (B & u & E). split; [cbn; lia|]. destruct outs as [|o outs].
    + inversion D; subst. destruct I.
    + exists u. rewrite <- E. change (join [NL] (out :: o :: outs)) with (out ++ [NL] ++ join [NL] (o :: outs)).
      rewrite <- !app_assoc. auto.
Qed.

(** ** Lines *)

Lemma lines_from_no cur s l : ~ In NL cur -> In l (lines_from cur s) -> ~ In NL l.
Proof.
  assert (D : forall x, ~ In NL x -> ~ In NL (drop_cr (rev x))).
  { intros x N I. apply N. unfold drop_cr in I. rewrite rev_involutive in I. destruct x as [|c r]; [auto|].
    destruct (c =? CR); [apply in_rev in I; right; auto|apply in_rev in I; auto]. }
  revert cur. induction s as [|c s IH]; intros cur N; cbn [lines_from].
  - destruct cur as [|x cur]; [intros []|]. intros [<-|[]] I. apply N. apply in_rev. auto.
  - destruct (c =? NL) eqn:E.
    + intros [<-|I]; [apply D; auto|apply (IH []); [intros []|auto]].
    + apply Nat.eqb_neq in E. apply IH. intros [|]; auto.
Qed.

Lemma lines_no c l : In l (lines c) -> ~ In NL l.
Proof. apply lines_from_no. auto. Qed.

Lemma Cut_incl s ms last : Cut s ms last -> forall c, In c (text_of ms last) -> In c s.
Proof.
  induction 1 as [s N|before k i m rest ms last M L C IH]; intros c; cbn [text_of]; auto.
  intros I. apply in_app_or in I as [I|I]; apply in_or_app; auto. right. apply in_or_app. auto.
Qed.

Lemma Line_incl s out ms c : Line s out ms -> In c out -> In c s.
Proof.
  intros L. inversion L as [t|t|s1 ms1 last N1 N2 C]; subst; cbn; auto.
  apply Cut_incl. auto.
Qed.

Lemma Doc_no n pre ls outs marks : Doc n pre ls outs marks -> (forall l, In l ls -> ~ In NL l) ->
  length outs = length ls /\ forall o, In o outs -> ~ In NL o.
Proof.
  induction 1 as [n pre|n pre l ls out outs ms marks L D IH]; intros N; cbn; [split; auto; intros o []|].
  destruct IH as [E1 E2]; [intros x I; apply N; right; auto|]. split; [lia|].
  intros o [<-|I]; auto. intros I. eapply (N l); [left; auto|]. eapply Line_incl; eauto.
Qed.

Lemma lines_from_split cur s : ~ In NL cur -> cur ++ s <> [] -> (forall r, s <> r ++ [NL]) ->
  length (lines_from cur s) = length (split NL (rev cur ++ s)).
Proof.
  revert cur. induction s as [|c s IH]; intros cur N Ne E; cbn [lines_from].
  - rewrite app_nil_r in *. destruct cur as [|x cur]; [congruence|]. rewrite split_one; auto.
    intros I. apply N. apply in_rev. auto.
  - destruct (c =? NL) eqn:Ec.
    + apply Nat.eqb_eq in Ec as ->. rewrite split_app_sep by (intros I; apply N; apply in_rev; auto). cbn [length]. f_equal.
      rewrite (IH []); auto.
      * intros X. cbn in X. subst s. apply (E []). auto.
      * intros r Er. apply (E (NL :: r)). rewrite Er. auto.
    + apply Nat.eqb_neq in Ec. rewrite IH; auto.
      * cbn [rev]. rewrite <- app_assoc. auto.
      * intros [|]; auto.
      * discriminate.
      * intros r Er. apply (E (c :: r)). rewrite Er. auto.
Qed.

Lemma line_count c : c <> [] -> (forall r, c <> r ++ [NL]) ->
  length (split NL (fst (parse_annotations c))) = length (split NL c).
Proof.
  intros Ne E. destruct (parse_annotations_spec c) as (outs & marks & D & ->). cbn [fst].
  destruct (Doc_no _ _ _ _ _ D (lines_no c)) as [L N].
  assert (X : length (lines c) = length (split NL c)) by (apply (lines_from_split [] c); auto).
  rewrite split_join; auto.
  - lia.
  - intros ->. pose proof (split_nonempty NL c). destruct (split NL c); [congruence|]. cbn in *. lia.
Qed.

(** ** Contents of a marker *)

Lemma Item_iff x k v : Item x k v <->
  match split_once COLON x with Some (a, b) => k = a /\ v = b | None => k = x /\ v = [] end.
Proof.
  split.
  - intros [k0 v0 N|k0 N].
    + change [58] with [COLON] in *. rewrite (proj2 (split_once_iff COLON (k0 ++ [COLON] ++ v0) k0 v0)); auto.
    + rewrite (proj2 (split_once_none COLON k0) N). auto.
  - destruct (split_once COLON x) as [[a b]|] eqn:E.
    + apply split_once_iff in E as [-> N]. intros [-> ->]. apply (item_value a b N).
    + apply split_once_none in E. intros [-> ->]. apply item_key; auto.
Qed.

Definition keyval (key x : str) : option str :=
  match split_once COLON x with
  | Some (a, b) => if str_eqd key a then Some b else None
  | None => if str_eqd key x then Some [] else None
  end.

Lemma keyval_iff x key v : Item x key v <-> keyval key x = Some v.
Proof.
  rewrite Item_iff. unfold keyval. destruct (split_once COLON x) as [[a b]|].
  - destruct (str_eqd key a) as [->|N]; split; [intros [_ ->]; auto|intros [= <-]; auto|intros [-> _]; congruence|discriminate].
  - destruct (str_eqd key x) as [->|N]; split; [intros [_ ->]; auto|intros [= <-]; auto|intros [-> _]; congruence|discriminate].
Qed.

Lemma config_item_get m x key : aget str_eqd (config_item m x) key =
  match keyval key x with Some w => Some w | None => aget str_eqd m key end.
Proof.
  unfold config_item, keyval. destruct (split_once COLON x) as [[a b]|]; rewrite aget_aset;
    [destruct (str_eqd key a)|destruct (str_eqd key x)]; auto.
Qed.

Lemma config_get key items : key <> [] -> forall v,
  aget str_eqd (fold_left config_item (filter (fun s => negb (if str_eqd s [] then true else false)) items) []) key = Some v <->
  exists pre it post, items = pre ++ it :: post /\ Item it key v /\ forall x w, In x post -> ~ Item x key w.
Proof.
  intros K. induction items as [|x items IH] using rev_ind; intros v.
  - cbn. split; [discriminate|]. intros (pre & it & post & E & _). destruct pre; discriminate.
  - rewrite filter_app, fold_left_app. cbn [filter].
    assert (E : aget str_eqd (fold_left config_item (if negb (if str_eqd x [] then true else false) then [x] else [])
      (fold_left config_item (filter (fun s => negb (if str_eqd s [] then true else false)) items) [])) key =
      match keyval key x with Some w => Some w | None =>
        aget str_eqd (fold_left config_item (filter (fun s => negb (if str_eqd s [] then true else false)) items) []) key end).
    { destruct (str_eqd x []) as [->|Nx]; cbn [negb fold_left]; [|apply config_item_get].
      unfold keyval. cbn [split_once]. destruct (str_eqd key []); [congruence|auto]. }
    rewrite E. clear E. destruct (keyval key x) as [w|] eqn:Ek.
    + split.
      * intros [= <-]. exists items, x, []. split; auto. split; [apply keyval_iff; auto|intros y w' []].
      * intros (pre & it & post & E & I & N). destruct post as [|y post] using rev_ind.
        -- apply app_inj_tail in E as [_ ->]. apply keyval_iff in I. congruence.
        -- rewrite app_comm_cons, app_assoc in E. apply app_inj_tail in E as [_ ->].
           exfalso. apply (N y w); [apply in_or_app; right; left; auto|apply keyval_iff; auto].
    + rewrite IH. split; intros (pre & it & post & E & I & N).
      * exists pre, it, (post ++ [x]). split; [rewrite E, <- app_assoc; auto|]. split; auto.
        intros y w Iy. apply in_app_or in Iy as [Iy|[<-|[]]]; auto. rewrite keyval_iff. congruence.
      * destruct post as [|y post _] using rev_ind.
        -- apply app_inj_tail in E as [_ ->]. apply keyval_iff in I. congruence.
        -- rewrite app_comm_cons, app_assoc in E. apply app_inj_tail in E as [-> ->].
           exists pre, it, post. split; auto. split; auto. intros z w Iz. apply N. apply in_or_app; auto.
Qed.

Lemma config_iff i key v : key <> [] -> aget str_eqd (config i) key = Some v <-> Configured i key v.
Proof.
  intros K. unfold config. rewrite config_get by auto. split.
  - intros (pre & it & post & E & I & N). exists (split COMMA i), pre, it, post.
    split; [rewrite join_split; auto|]. split; [apply split_no|]. auto.
  - intros (items & pre & it & post & E & C & Es & I & N).
    assert (X : split COMMA i = items).
    { rewrite E. apply split_join; auto. rewrite Es. destruct pre; discriminate. }
    rewrite X. exists pre, it, post. auto.
Qed.

(** ** What is recorded *)

Lemma hids_spec ls : forall n, HiddenLines n ls (hids n ls).
Proof.
  induction ls as [|s ls IH]; intros n; [constructor|]. cbn [hids].
  destruct s as [|c t]; [apply hidden_no; [discriminate|apply IH]|]. cbn [hid].
  destruct (c =? HASH) eqn:E.
  - apply Nat.eqb_eq in E as ->. apply hidden_yes. apply IH.
  - apply Nat.eqb_neq in E. unfold HASH in E. apply hidden_no; [congruence|apply IH].
Qed.

Lemma record_all_hids marks a : hidden_lines (record_all marks a) = hidden_lines a.
Proof.
  unfold record_all. revert a. induction marks as [|[[[n t] k] i] marks IH]; intros a; auto. cbn [fold_left].
  rewrite IH. destruct k; auto.
Qed.

Lemma record_all_locs marks a : state_locations (record_all marks a) =
  state_locations a ++ flat_map (fun '(n, t, k, i) => match k with Interp => [blen t] | _ => [] end) marks.
Proof.
  unfold record_all. revert a. induction marks as [|[[[n t] k] i] marks IH]; intros a; cbn [fold_left flat_map].
  - rewrite app_nil_r. auto.
  - rewrite IH. destruct k; cbn [record_marker state_locations app]; auto. rewrite <- app_assoc. auto.
Qed.

Lemma record_all_bounds marks a : bound_lines (record_all marks a) =
  bound_lines a ++ flat_map (fun '(n, t, k, i) => match k with Boundaries => [n] | _ => [] end) marks.
Proof.
  unfold record_all. revert a. induction marks as [|[[[n t] k] i] marks IH]; intros a; cbn [fold_left flat_map].
  - rewrite app_nil_r. auto.
  - rewrite IH. destruct k; cbn [record_marker bound_lines app]; auto. rewrite <- app_assoc. auto.
Qed.

Lemma config_none i key : key <> [] -> aget str_eqd (config i) key = None <-> forall v, ~ Configured i key v.
Proof.
  intros K. split.
  - intros E v C. apply config_iff in C; auto. congruence.
  - intros N. destruct (aget str_eqd (config i) key) as [v|] eqn:E; auto. apply config_iff in E; auto. exfalso. eapply N; eauto.
Qed.

Lemma record_all_steps marks : forall a, exists l, FocusLines marks l /\
  step_lines (record_all marks a) = step_lines a ++ l.
Proof.
  unfold record_all. induction marks as [|[[[n t] k] i] marks IH]; intros a; cbn [fold_left].
  - exists []. split; [constructor|rewrite app_nil_r; auto].
  - destruct (IH (record_marker n (blen t) k i a)) as (l & F & E). rewrite E. destruct k.
    + exists l. split; [apply focus_no; auto; left; discriminate|auto].
    + cbn [record_marker step_lines]. destruct (aget str_eqd (config i) (lit "focus")) as [v|] eqn:Ef.
      * exists (n :: l). split; [|rewrite <- app_assoc; auto].
        eapply focus_yes; eauto. apply config_iff; eauto. discriminate.
      * exists l. split; auto. apply focus_no; auto. right. apply config_none; auto. discriminate.
    + exists l. split; [apply focus_no; auto; left; discriminate|auto].
Qed.

Definition getp (p : list (nat * list matcher)) (line : nat) : list matcher :=
  match aget Nat.eq_dec p line with Some l => l | None => [] end.

Lemma getp_add p n m line : getp (add_matcher n m p) line = getp p line ++ (if Nat.eq_dec line n then [m] else []).
Proof.
  unfold getp, add_matcher. rewrite aget_aset. destruct (Nat.eq_dec line n) as [->|N]; auto. rewrite app_nil_r. auto.
Qed.

Definition Live (p : list (nat * list matcher)) : Prop := forall line, aget Nat.eq_dec p line <> Some [].

Lemma Live_add p n m : Live p -> Live (add_matcher n m p).
Proof.
  intros L line. unfold add_matcher. rewrite aget_aset. destruct (Nat.eq_dec line n); auto.
  intros E. injection E as E. destruct (match aget Nat.eq_dec p n with Some l => l | None => [] end); discriminate.
Qed.

Lemma record_all_live marks : forall a, Live (step_paths a) -> Live (step_paths (record_all marks a)).
Proof.
  unfold record_all. induction marks as [|[[[n t] k] i] marks IH]; intros a L; auto. cbn [fold_left]. apply IH.
  destruct k; auto. cbn [record_marker step_paths].
  destruct (aget str_eqd (config i) (lit "rxpaths")); destruct (aget str_eqd (config i) (lit "paths"));
    repeat apply Live_add; auto.
Qed.

Lemma record_all_paths line marks : forall a, exists l, PathsOf line marks l /\
  getp (step_paths (record_all marks a)) line = getp (step_paths a) line ++ l.
Proof.
  unfold record_all. induction marks as [|[[[n t] k] i] marks IH]; intros a; cbn [fold_left].
  - exists []. split; [constructor|rewrite app_nil_r; auto].
  - destruct (IH (record_marker n (blen t) k i a)) as (l & P & E). rewrite E. clear E.
    destruct k; [exists l; split; [apply paths_no; auto; right; discriminate|auto]|
                 |exists l; split; [apply paths_no; auto; right; discriminate|auto]].
    cbn [record_marker step_paths].
    set (p1 := match aget str_eqd (config i) (lit "paths") with
               | Some v => add_matcher n (Literal v) (step_paths a) | None => step_paths a end).
    destruct (Nat.eq_dec line n) as [->|Nn].
    + assert (X1 : exists lp, getp p1 n = getp (step_paths a) n ++ lp /\
        (lp = [] /\ (forall v, ~ Configured i (lit "paths") v) \/ exists v, Configured i (lit "paths") v /\ lp = [Literal v])).
      { unfold p1. destruct (aget str_eqd (config i) (lit "paths")) as [v|] eqn:Ep.
        - exists [Literal v]. rewrite getp_add. destruct (Nat.eq_dec n n); [|congruence]. split; auto. right.
          exists v. split; auto. apply config_iff; auto. discriminate.
        - exists []. rewrite app_nil_r. split; auto. left. split; auto. apply config_none; auto. discriminate. }
      destruct X1 as (lp & E1 & C1).
      assert (X2 : exists lr, getp (match aget str_eqd (config i) (lit "rxpaths") with
               | Some v => add_matcher n (Rx v) p1 | None => p1 end) n = getp p1 n ++ lr /\
        (lr = [] /\ (forall v, ~ Configured i (lit "rxpaths") v) \/ exists v, Configured i (lit "rxpaths") v /\ lr = [Rx v])).
      { destruct (aget str_eqd (config i) (lit "rxpaths")) as [v|] eqn:Ep.
        - exists [Rx v]. rewrite getp_add. destruct (Nat.eq_dec n n); [|congruence]. split; auto. right.
          exists v. split; auto. apply config_iff; auto. discriminate.
        - exists []. rewrite app_nil_r. split; auto. left. split; auto. apply config_none; auto. discriminate. }
      destruct X2 as (lr & E2 & C2).
      exists ((lp ++ lr) ++ l). split; [apply paths_yes; auto; constructor; auto|].
      rewrite E2, E1. rewrite <- !app_assoc. auto.
    + exists l. split; [apply paths_no; auto|]. f_equal.
      assert (X : getp p1 line = getp (step_paths a) line).
      { unfold p1. destruct (aget str_eqd (config i) (lit "paths")); auto. rewrite getp_add.
        destruct (Nat.eq_dec line n); [congruence|]. apply app_nil_r. }
      destruct (aget str_eqd (config i) (lit "rxpaths")); auto. rewrite getp_add.
      destruct (Nat.eq_dec line n); [congruence|]. rewrite app_nil_r. auto.
Qed.

(** ** Blocks *)

Lemma Symbol_iff x : Symbol x <-> forall c, In c x -> sym_stop c = false.
Proof.
  unfold Symbol, sym_stop. split.
  - intros (N1 & N2 & N3 & N4) c I.
    assert (F : forall d, ~ In d x -> (c =? d) = false).
    { intros d N. apply Nat.eqb_neq. intros ->. auto. }
    rewrite !F; auto.
  - intros H. assert (F : forall d, sym_stop d = true -> ~ In d x).
    { intros d E I. apply H in I. unfold sym_stop in E. congruence. }
    repeat split; apply F; reflexivity.
Qed.

Definition Stop (r : str) : Prop := match r with [] => True | c :: _ => sym_stop c = true end.
Definition NotFirst (c : nat) (r : str) : Prop := match r with [] => True | d :: _ => d <> c end.

Lemma parse_sym_iff s x r : parse_sym s = (x, r) <-> s = x ++ r /\ Symbol x /\ Stop r.
Proof.
  rewrite Symbol_iff. revert x. induction s as [|c s IH]; intros x; cbn [parse_sym].
  - split.
    + intros [= <- <-]. split; auto. split; [intros d []|exact I].
    + intros (E & _). symmetry in E. apply app_eq_nil in E as [-> ->]. auto.
  - destruct (sym_stop c) eqn:Ec.
    + split.
      * intros [= <- <-]. split; auto. split; [intros d []|exact Ec].
      * intros (E & N & _). destruct x as [|d x]; [cbn in E; subst r; auto|]. cbn in E. injection E as <- _.
        rewrite (N c) in Ec; [discriminate|left; auto].
    + destruct (parse_sym s) as [x0 r0] eqn:E0. split.
      * intros [= <- <-]. destruct (proj1 (IH x0) eq_refl) as (-> & N & St). split; auto. split; auto.
        intros d [<-|I]; auto.
      * intros (E & N & St). destruct x as [|d x]; [cbn in E; subst r; cbn in St; congruence|]. cbn in E.
        injection E as <- E. assert (X : (x0, r0) = (x, r)); [|injection X as -> ->; auto].
        apply IH. split; auto. split; auto. intros d I. apply N. right; auto.
Qed.

Lemma char_iff c s r : char c s = Some r <-> s = c :: r.
Proof.
  unfold char. destruct s as [|d t]; [split; discriminate|]. destruct (c =? d) eqn:E.
  - apply Nat.eqb_eq in E as ->. split; [intros [= ->]; auto|intros [= ->]; auto].
  - apply Nat.eqb_neq in E. split; [discriminate|congruence].
Qed.

Lemma char_none c s : char c s = None <-> NotFirst c s.
Proof.
  unfold char, NotFirst. destruct s as [|d t]; [split; auto|]. destruct (c =? d) eqn:E.
  - apply Nat.eqb_eq in E as ->. split; [discriminate|congruence].
  - apply Nat.eqb_neq in E. split; auto.
Qed.

Lemma more_syms_sound fuel : forall s xs r, length s <= fuel -> more_syms fuel s = (xs, r) ->
  s = concat (map (cons PLUS) xs) ++ r /\ Forall Symbol xs /\ NotFirst PLUS r /\ (Stop s -> Stop r).
Proof.
  induction fuel as [|f IH]; intros s xs r L E; cbn [more_syms] in E.
  - injection E as <- <-. destruct s; [|cbn in L; lia]. repeat split; auto. 
  - destruct (char PLUS s) as [s1|] eqn:Ec.
    + apply char_iff in Ec as ->. destruct (parse_sym s1) as [x s2] eqn:E1.
      apply parse_sym_iff in E1 as (-> & Sx & St2). destruct (more_syms f s2) as [xs0 s3] eqn:E2. injection E as <- <-.
      cbn in L. rewrite app_length in L. destruct (IH s2 xs0 s3) as (-> & F & N & St); auto; [lia|].
      split; [cbn; rewrite <- app_assoc; auto|]. split; [constructor; auto|]. split; auto.
    + injection E as <- <-. apply char_none in Ec. repeat split; auto.
Qed.

Lemma more_syms_complete xs : forall fuel r, length (concat (map (cons PLUS) xs) ++ r) <= fuel ->
  Forall Symbol xs -> Stop r -> NotFirst PLUS r -> more_syms fuel (concat (map (cons PLUS) xs) ++ r) = (xs, r).
Proof.
  induction xs as [|x xs IH]; intros fuel r L F St N; cbn [map concat app].
  - destruct fuel as [|f]; cbn [more_syms]; auto. apply char_none in N. rewrite N. auto.
  - inversion F as [|? ? Sx F']; subst. cbn in L. rewrite !app_length in L. destruct fuel as [|f]; [lia|].
    cbn [more_syms char]. rewrite Nat.eqb_refl. rewrite <- app_assoc.
    rewrite (proj2 (parse_sym_iff _ x (concat (map (cons PLUS) xs) ++ r))).
    + rewrite IH; auto. rewrite app_length. lia.
    + split; auto. split; auto. destruct xs; auto. cbn. reflexivity.
Qed.

Lemma join_plus x xs : join [PLUS] (x :: xs) = x ++ concat (map (cons PLUS) xs).
Proof.
  revert x. induction xs as [|y xs IH]; intros x; [cbn; rewrite app_nil_r; auto|].
  change (join [PLUS] (x :: y :: xs)) with (x ++ [PLUS] ++ join [PLUS] (y :: xs)). rewrite IH. cbn. auto.
Qed.

Lemma separated_sound s ops r : separated_syms s = (ops, r) ->
  s = join [PLUS] ops ++ r /\ ops <> [] /\ Forall Symbol ops /\ Stop r /\ NotFirst PLUS r.
Proof.
  unfold separated_syms. destruct (parse_sym s) as [x s1] eqn:E1. destruct (more_syms (length s) s1) as [xs s2] eqn:E2.
  intros [= <- <-]. apply parse_sym_iff in E1 as (-> & Sx & St).
  apply more_syms_sound in E2 as (-> & F & N & St2); [|rewrite app_length; lia].
  split; [rewrite join_plus, <- app_assoc; auto|]. split; [discriminate|]. split; [constructor; auto|]. split; auto.
Qed.

Lemma separated_complete ops r : ops <> [] -> Forall Symbol ops -> Stop r -> NotFirst PLUS r ->
  separated_syms (join [PLUS] ops ++ r) = (ops, r).
Proof.
  intros Ne F St N. destruct ops as [|x xs]; [congruence|]. inversion F as [|? ? Sx F']; subst.
  rewrite join_plus, <- app_assoc. unfold separated_syms.
  rewrite (proj2 (parse_sym_iff _ x (concat (map (cons PLUS) xs) ++ r))).
  - rewrite more_syms_complete; auto. rewrite !app_length. lia.
  - split; auto. split; auto. destruct xs; auto. reflexivity.
Qed.

Lemma Symbol_no_eq x : Symbol x -> ~ In EQUALS x.
Proof. intros (_ & N & _). auto. Qed.

Lemma parse_option_sound s o r : parse_option s = (o, r) ->
  exists t, OptionText o t /\ s = t ++ r /\ Stop r /\ (~ In EQUALS t -> NotFirst EQUALS r).
Proof.
  unfold parse_option. destruct (parse_sym s) as [k s1] eqn:E1. apply parse_sym_iff in E1 as (-> & Sk & St).
  destruct (char EQUALS s1) as [s2|] eqn:Ec.
  - apply char_iff in Ec as ->. destruct (parse_sym s2) as [v s3] eqn:E2. apply parse_sym_iff in E2 as (-> & Sv & St3).
    intros [= <- <-]. exists (k ++ [EQUALS] ++ v). split; [constructor; auto|]. split; [rewrite <- !app_assoc; auto|].
    split; auto. intros N. exfalso. apply N. apply in_or_app. right. left. auto.
  - intros [= <- <-]. apply char_none in Ec. exists k. split; [constructor; auto|]. auto.
Qed.

Lemma parse_option_complete o t r : OptionText o t -> Stop r -> (~ In EQUALS t -> NotFirst EQUALS r) ->
  parse_option (t ++ r) = (o, r).
Proof.
  intros T St N. unfold parse_option. destruct T as [k v Sk Sv|k Sk].
  - rewrite <- !app_assoc. rewrite (proj2 (parse_sym_iff _ k ([EQUALS] ++ v ++ r))).
    + cbn [char app]. rewrite Nat.eqb_refl. rewrite (proj2 (parse_sym_iff _ v r)); auto.
    + split; auto. split; auto. reflexivity.
  - rewrite (proj2 (parse_sym_iff _ k r)) by auto.
    rewrite (proj2 (char_none EQUALS r)); auto. apply N. apply Symbol_no_eq. auto.
Qed.

Lemma last_cons {T} (x : T) l d : l <> [] -> last (x :: l) d = last l d.
Proof. destruct l; [congruence|auto]. Qed.

Lemma parse_options_sound fuel : forall s opts r, length s <= fuel -> parse_options fuel s = (opts, r) ->
  exists ts, Forall2 OptionText opts ts /\ s = concat (map (cons COMMA) ts) ++ r /\ NotFirst COMMA r /\
    (Stop s -> Stop r) /\ (opts <> [] -> ~ In EQUALS (last ts []) -> NotFirst EQUALS r).
Proof.
  induction fuel as [|f IH]; intros s opts r L E; cbn [parse_options] in E.
  - injection E as <- <-. destruct s; [|cbn in L; lia]. exists []. repeat split; auto.
  - destruct (char COMMA s) as [s1|] eqn:Ec.
    + apply char_iff in Ec as ->. destruct (parse_option s1) as [o s2] eqn:E1.
      apply parse_option_sound in E1 as (t & T & -> & St2 & N2). destruct (parse_options f s2) as [os s3] eqn:E2.
      injection E as <- <-. cbn in L. rewrite app_length in L.
      destruct (IH s2 os s3) as (ts & F & -> & Nc & St & Ne); auto; [lia|].
      exists (t :: ts). split; [constructor; auto|]. split; [cbn; rewrite <- app_assoc; auto|]. split; auto. split; auto.
      intros _. destruct ts as [|t' ts].
      * inversion F; subst. cbn [last concat map app] in *. auto.
      * rewrite last_cons by discriminate. apply Ne. inversion F; discriminate.
    + injection E as <- <-. apply char_none in Ec. exists []. repeat split; auto. congruence.
Qed.

Lemma parse_options_complete opts ts : Forall2 OptionText opts ts -> forall fuel r,
  length (concat (map (cons COMMA) ts) ++ r) <= fuel -> Stop r -> NotFirst COMMA r ->
  (opts <> [] -> ~ In EQUALS (last ts []) -> NotFirst EQUALS r) ->
  parse_options fuel (concat (map (cons COMMA) ts) ++ r) = (opts, r).
Proof.
  induction 1 as [|o t opts ts T F IH]; intros fuel r L St Nc Ne; cbn [map concat app].
  - destruct fuel as [|f]; cbn [parse_options]; auto. apply char_none in Nc. rewrite Nc. auto.
  - cbn in L. rewrite !app_length in L. destruct fuel as [|f]; [lia|]. cbn [parse_options char].
    rewrite Nat.eqb_refl. rewrite <- app_assoc. rewrite (parse_option_complete o t); auto.
    + rewrite IH; auto; [rewrite app_length; lia|]. intros Ne0. destruct ts as [|t' ts]; [inversion F; congruence|].
      rewrite last_cons in Ne by discriminate. apply Ne. discriminate.
    + destruct ts; auto. reflexivity.
    + destruct ts as [|t' ts].
      * cbn. apply Ne. discriminate.
      * cbn. intros _. discriminate.
Qed.

Lemma take_until_iff p s a b : take_until p s = Some (a, b) <->
  s = a ++ b /\ (exists r, b = p ++ r) /\ forall x y, s = x ++ p ++ y -> length a <= length x.
Proof.
  revert a. induction s as [|c s IH]; intros a; cbn [take_until].
  - destruct (strip_prefix p []) as [r|] eqn:Es.
    + apply strip_prefix_iff in Es. split.
      * intros [= <- <-]. split; auto. split; eauto. intros. cbn. lia.
      * intros (E & _). symmetry in E. apply app_eq_nil in E as [-> ->]. auto.
    + rewrite strip_prefix_none in Es. split; [discriminate|]. intros (E & (r & ->) & _). symmetry in E.
      apply app_eq_nil in E as [-> E]. exfalso. apply (Es r). auto.
  - destruct (strip_prefix p (c :: s)) as [r|] eqn:Es.
    + apply strip_prefix_iff in Es. split.
      * intros [= <- <-]. split; auto. split; eauto. intros. cbn. lia.
      * intros (E & _ & L). assert (length a = 0) by (specialize (L [] r Es); cbn in L; lia).
        destruct a; [cbn in E; subst b; auto|discriminate].
    + rewrite strip_prefix_none in Es. destruct (take_until p s) as [[a0 b0]|] eqn:E0.
      * split.
        -- intros [= <- <-]. destruct (proj1 (IH a0) eq_refl) as (-> & (r & ->) & L). split; auto. split; eauto.
           intros x y E. destruct x as [|d x]; [exfalso; eapply Es; eauto|]. cbn in E. injection E as <- E. cbn.
           apply le_n_S. eapply L; eauto.
        -- intros (E & (r & ->) & L). destruct a as [|d a]; [exfalso; eapply Es; eauto|]. cbn in E. injection E as <- E.
           assert (X : Some (a0, b0) = Some (a, p ++ r)); [|injection X as -> ->; auto].
           apply IH. split; auto. split; eauto. intros x y Ex. specialize (L (c :: x) y). cbn in L.
           apply le_S_n. apply L. rewrite Ex. auto.
      * split; [discriminate|]. intros (E & (r & ->) & L). destruct a as [|d a]; [exfalso; eapply Es; eauto|].
        cbn in E. injection E as <- E. assert (X : None = Some (a, p ++ r)); [|discriminate].
        apply IH. split; auto. split; eauto. intros x y Ex. specialize (L (c :: x) y). cbn in L.
        apply le_S_n. apply L. rewrite Ex. auto.
Qed.

Lemma first_fence raw rest :
  (forall x y, raw ++ FENCE = x ++ FENCE ++ y -> length raw <= length x) <->
  (forall x y, raw ++ FENCE ++ rest = x ++ FENCE ++ y -> length raw <= length x).
Proof.
  split; intros H x y E.
  - destruct (le_lt_dec (length raw) (length x)) as [|L]; auto. exfalso.
    assert (X : exists z, raw ++ FENCE = (x ++ FENCE) ++ z /\ y = z ++ rest).
    { apply app_split; [rewrite <- !app_assoc; auto|]. rewrite !app_length. lia. }
    destruct X as (z & E1 & _). rewrite <- app_assoc in E1. apply H in E1. lia.
  - apply (H x (y ++ rest)). rewrite app_assoc, E, <- !app_assoc. auto.
Qed.

Lemma parse_block_iff s b rest :
  parse_block s = Some (b, rest) <-> exists text, s = text ++ rest /\ BlockText text b.
Proof.
  assert (EO : lit "```aquascope," = OPEN ++ [COMMA]) by reflexivity.
  assert (EF : lit "```" = FENCE) by reflexivity.
  split.
  - unfold parse_block. destruct (strip_prefix OPEN s) as [s1|] eqn:E1; [|discriminate]. apply strip_prefix_iff in E1 as ->.
    destruct (char COMMA s1) as [s2|] eqn:E2; [|discriminate]. apply char_iff in E2 as ->.
    destruct (separated_syms s2) as [ops s3] eqn:E3. apply separated_sound in E3 as (-> & Ne & F & St & Np).
    destruct (parse_options (length s3) s3) as [opts s4] eqn:E4.
    apply parse_options_sound in E4 as (ts & F2 & -> & Nc & St4 & Neq); [|lia]. specialize (St4 St).
    destruct (take_until FENCE s4) as [[raw s5]|] eqn:E5; [|discriminate].
    apply take_until_iff in E5 as (-> & (r & ->) & L).
    destruct (strip_prefix FENCE (FENCE ++ r)) as [s6|] eqn:E6; [|discriminate].
    apply strip_prefix_iff in E6. apply app_inv_head in E6 as <-.
    destruct (parse_annotations (trim raw)) as [c a] eqn:E7. intros [= <- <-].
    exists ((lit "```aquascope," ++ join [PLUS] ops ++ concat (map (cons COMMA) ts)) ++ raw ++ lit "```").
    split; [rewrite EO, EF, <- !app_assoc; auto|].
    eapply block_text; eauto.
    + destruct raw as [|c0 raw]; [cbn in St4; discriminate|]. exists raw. cbn [app] in *. cbn in St4, Nc.
      unfold sym_stop in St4. apply orb_prop in St4 as [St4|Sp].
      * apply orb_prop in St4 as [St4|Sn].
        -- apply orb_prop in St4 as [Sc|Se]; [apply Nat.eqb_eq in Sc; congruence|]. apply Nat.eqb_eq in Se as ->.
           right. left. split; auto. destruct opts as [|o opts]; auto. right.
           destruct (in_dec Nat.eq_dec EQUALS (last ts [])) as [|N]; auto. exfalso. apply Neq; auto. discriminate.
        -- apply Nat.eqb_eq in Sn as ->. auto.
      * apply Nat.eqb_eq in Sp as ->. right. right. split; auto. intros ->. inversion F2; subst. cbn in Np. congruence.
    + rewrite EF. apply (first_fence raw r). auto.
  - intros (text & -> & B).
    destruct B as [ops opts ts raw head c a Ne F F2 -> (r & Hr) Hf Hp].
    rewrite EF in Hf. pose proof (proj1 (first_fence raw rest) Hf) as Hf2.
    assert (Sr : forall q, Stop (raw ++ q) /\ NotFirst COMMA (raw ++ q) /\
        (opts <> [] -> ~ In EQUALS (last ts []) -> NotFirst EQUALS (raw ++ q)) /\ (opts = [] -> NotFirst PLUS (raw ++ q))).
    { intros q. destruct Hr as [->|[[-> Ho]|[-> Ho]]]; cbn; (split; [reflexivity|]); (split; [discriminate|]);
        (split; [|discriminate || congruence]); intros H1 H2; try discriminate.
      destruct Ho; congruence. }
    unfold parse_block. rewrite EO, EF, <- !app_assoc.
    rewrite (proj2 (strip_prefix_iff OPEN _ _) eq_refl). cbn [char app]. rewrite Nat.eqb_refl.
    destruct (Sr (FENCE ++ rest)) as (St & Nc & Neq & Np).
    assert (Stq : Stop (concat (map (cons COMMA) ts) ++ raw ++ FENCE ++ rest)) by (destruct ts; auto; reflexivity).
    rewrite separated_complete; auto.
    + rewrite (parse_options_complete opts ts); auto.
      rewrite (proj2 (take_until_iff FENCE _ raw (FENCE ++ rest))); [|split; auto; split; eauto].
      rewrite (proj2 (strip_prefix_iff FENCE _ _) eq_refl). rewrite Hp. auto.
    + destruct ts; [|cbn; discriminate]. cbn [map concat app]. apply Np. inversion F2; auto.
Qed.

(** ** Searching a text *)

Section Scan.
  Variable B : Type.
  Variable mt : str -> option (B * str).
  Variable T : str -> B -> Prop.
  Hypothesis mt_iff : forall s b rest, mt s = Some (b, rest) <-> exists text, s = text ++ rest /\ T text b.
  Hypothesis T_nonempty : forall text b, T text b -> text <> [].

  Fixpoint scan (fuel off : nat) (s : str) : list ((nat * nat) * B) :=
    match fuel with
    | 0 => []
    | S f =>
        match mt s with
        | Some (b, next) =>
            let off' := off + (blen s - blen next) in
            ((off, off'), b) :: scan f off' next
        | None =>
            match s with
            | c :: t => scan f (off + blen [c]) t
            | [] => []
            end
        end
    end.

  Lemma scan_at content fuel : forall pre s, content = pre ++ s ->
    forall r b, In (r, b) (scan fuel (blen pre) s) -> exists text, At content r text /\ T text b.
  Proof.
    induction fuel as [|f IH]; intros pre s E r b I; cbn [scan] in I; [destruct I|].
    destruct (mt s) as [[b0 next]|] eqn:Em.
    - apply mt_iff in Em as (text & -> & Tt). rewrite blen_app in I.
      replace (blen text + blen next - blen next) with (blen text) in I by lia. rewrite <- blen_app in I.
      destruct I as [[= <- <-]|I].
      + exists text. split; auto. exists pre, next. cbn. auto.
      + apply (IH (pre ++ text) next); auto. rewrite <- app_assoc. auto.
    - destruct s as [|c s]; [destruct I|]. rewrite <- blen_app in I.
      apply (IH (pre ++ [c]) s); auto. rewrite <- app_assoc. auto.
  Qed.

  Lemma scan_ordered fuel : forall n off s, n <= off -> Ordered n (map fst (scan fuel off s)).
  Proof.
    induction fuel as [|f IH]; intros n off s L; cbn [scan]; [constructor|].
    destruct (mt s) as [[b0 next]|] eqn:Em.
    - apply mt_iff in Em as (text & -> & Tt). cbn [map fst]. constructor; auto.
      rewrite blen_app. pose proof (blen_pos text (T_nonempty _ _ Tt)). lia.
    - destruct s as [|c s]; [constructor|]. apply IH. lia.
  Qed.

  Lemma scan_complete fuel : forall off s, length s < fuel ->
    forall x text y b, s = x ++ text ++ y -> T text b ->
    exists r b0, In (r, b0) (scan fuel off s) /\ fst r <= off + blen x < snd r /\
      (fst r = off + blen x -> b0 = b /\ snd r = off + blen (x ++ text)).
  Proof.
    induction fuel as [|f IH]; intros off s L x text y b E Tt; [lia|]. cbn [scan].
    destruct (mt s) as [[b0 next]|] eqn:Em.
    - pose proof Em as Em'. apply mt_iff in Em as (t0 & E0 & T0). pose proof (T_nonempty _ _ T0) as N0.
      assert (Eo : blen s - blen next = blen t0) by (rewrite E0, blen_app; lia). rewrite Eo.
      destruct (le_lt_dec (length t0) (length x)) as [Lx|Lx].
      + rewrite E in E0. symmetry in E0. destruct (app_split _ _ _ _ E0 Lx) as (x' & -> & En).
        destruct (IH (off + blen t0) next) with (x := x') (text := text) (y := y) (b := b) as (r & b1 & I & R1 & R2); auto.
        { assert (length s = length (t0 ++ next)) by (rewrite E, E0; auto). rewrite app_length in H.
          destruct t0; [congruence|]. cbn in H. lia. }
        exists r, b1. split; [right; auto|]. rewrite <- !app_assoc in *. rewrite !blen_app in *. split; [lia|].
        intros Er. destruct R2 as [-> E2]; [lia|]. split; auto. lia.
      + rewrite E in E0. destruct (app_split x (text ++ y) t0 next) as (e & -> & Ee); auto; [lia|].
        exists (off, off + blen (x ++ e)), b0. split; [left; auto|]. cbn [fst snd].
        assert (Ne : e <> []) by (intros ->; rewrite app_nil_r in Lx; lia).
        pose proof (blen_pos e Ne). rewrite blen_app. split; [lia|]. intros X.
        assert (x = []) by (destruct x; auto; pose proof (blen_cons_pos n x); lia). subst x. cbn [app] in *.
        assert (X2 : mt s = Some (b, y)) by (apply mt_iff; exists text; auto).
        rewrite X2 in Em'. injection Em' as -> ->. split; auto. f_equal.
        assert (Et : text = e) by (eapply app_inv_tail; eauto). rewrite Et. auto.
    - destruct s as [|c s]; [symmetry in E; apply app_eq_nil in E as [_ E]; apply app_eq_nil in E as [-> _];
        exfalso; eapply T_nonempty; eauto|].
      destruct x as [|d x].
      + exfalso. assert (X : mt (c :: s) = Some (b, y)); [|congruence]. apply mt_iff. eauto.
      + cbn in E. injection E as <- E. cbn in L.
        destruct (IH (off + blen [c]) s) with (x := x) (text := text) (y := y) (b := b) as (r & b1 & I & R1 & R2); auto; [lia|].
        change (c :: x) with ([c] ++ x). rewrite <- app_assoc, !blen_app in *.
        exists r, b1. split; auto. split; [lia|]. intros Er. destruct R2 as [-> E2]; [lia|]. split; auto. lia.
  Qed.
End Scan.

Lemma parse_all_scan fuel : forall off s, parse_all_from fuel off s = scan block parse_block fuel off s.
Proof.
  induction fuel as [|f IH]; intros off s; cbn [parse_all_from scan]; auto.
Qed.

Lemma BlockText_nonempty text b : BlockText text b -> text <> [].
Proof. destruct 1; subst. discriminate. Qed.

(** ** Permission macros *)

Definition bracket (o : option str) : option str := option_map (fun x => [91] ++ x ++ [93]) o.

Definition perm_at (s : str) : option ((option str * str) * str) :=
  match match_perm s with
  | Some (opt, perm, rest) => Some ((opt, perm), rest)
  | None => None
  end.

Definition MacroB (text : str) (b : option str * str) : Prop :=
  exists o, fst b = bracket o /\ MacroText text (o, snd b).

Lemma perm_at_iff s b rest : perm_at s = Some (b, rest) <-> exists text, s = text ++ rest /\ MacroB text b.
Proof.
  split.
  - unfold perm_at, match_perm. destruct (strip_prefix (lit "@Perm") s) as [s1|] eqn:E1; [|discriminate].
    apply strip_prefix_iff in E1 as ->. destruct (char 91 s1) as [s2|] eqn:E2.
    + apply char_iff in E2 as ->. destruct (split_once 93 s2) as [[o s3]|] eqn:E3; [|discriminate].
      apply split_once_iff in E3 as [-> No]. destruct (char 123 s3) as [s4|] eqn:E4; [|discriminate].
      apply char_iff in E4 as ->. destruct (split_once 125 s4) as [[p r]|] eqn:E5; [|discriminate].
      apply split_once_iff in E5 as [-> Np]. intros [= <- <-].
      exists (lit "@Perm[" ++ o ++ lit "]{" ++ p ++ lit "}"). split.
      * cbn. rewrite <- !app_assoc. cbn. rewrite <- !app_assoc. auto.
      * exists (Some o). split; auto. constructor; auto.
    + destruct (char 123 s1) as [s4|] eqn:E4; [|discriminate].
      apply char_iff in E4 as ->. destruct (split_once 125 s4) as [[p r]|] eqn:E5; [|discriminate].
      apply split_once_iff in E5 as [-> Np]. intros [= <- <-].
      exists (lit "@Perm{" ++ p ++ lit "}"). split.
      * cbn. rewrite <- !app_assoc. auto.
      * exists None. split; auto. constructor; auto.
  - intros (text & -> & o & Eb & M). destruct b as [ob p]. cbn in Eb, M. subst ob. unfold perm_at, match_perm.
    inversion M as [p0 Np|o0 p0 No Np]; subst.
    + assert (E : (lit "@Perm{" ++ p ++ lit "}") ++ rest = lit "@Perm" ++ 123 :: p ++ 125 :: rest)
        by (cbn; rewrite <- app_assoc; auto).
      rewrite E, (proj2 (strip_prefix_iff (lit "@Perm") _ _) eq_refl).
      rewrite (proj2 (char_none 91 _)) by (cbn; discriminate).
      rewrite (proj2 (char_iff 123 _ _) eq_refl).
      rewrite (proj2 (split_once_iff 125 _ p rest)); auto.
    + assert (E : (lit "@Perm[" ++ o0 ++ lit "]{" ++ p ++ lit "}") ++ rest =
        lit "@Perm" ++ 91 :: o0 ++ 93 :: 123 :: p ++ 125 :: rest)
        by (cbn; rewrite <- !app_assoc; cbn; rewrite <- !app_assoc; auto).
      rewrite E, (proj2 (strip_prefix_iff (lit "@Perm") _ _) eq_refl).
      rewrite (proj2 (char_iff 91 _ _) eq_refl).
      rewrite (proj2 (split_once_iff 93 _ o0 (123 :: p ++ 125 :: rest))) by auto.
      rewrite (proj2 (char_iff 123 _ _) eq_refl).
      rewrite (proj2 (split_once_iff 125 _ p rest)); auto.
Qed.

Lemma MacroB_nonempty text b : MacroB text b -> text <> [].
Proof. intros (o & _ & M). inversion M; discriminate. Qed.

Lemma parse_perms_scan fuel : forall off s, parse_perms_from fuel off s =
  map (fun '(r, (o, p)) => (r, expand o p)) (scan _ perm_at fuel off s).
Proof.
  induction fuel as [|f IH]; intros off s; cbn [parse_perms_from scan map]; auto. unfold perm_at at 1.
  destruct (match_perm s) as [[[o p] next]|]; [cbn [map]; rewrite IH; auto|]. destruct s; auto.
Qed.
