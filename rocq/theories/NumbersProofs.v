(** * Proofs about JavaScript's numbers *)
From Coq Require Import ZArith Lia Bool.
From Verif Require Import ValuesModel NumbersModel NumbersSpec.
Local Open Scope Z_scope.

Lemma pow_split a b : 0 <= a <= b -> 2 ^ b = 2 ^ (b - a) * 2 ^ a.
Proof. intros H. rewrite <- Z.pow_add_r by lia. f_equal. lia. Qed.

(** What [round_nat] looks at. *)
Lemma bracket n : 2 ^ 53 <= n -> let e := Z.log2 n - 52 in let u := 2 ^ e in let q := n / u in
  1 <= e /\ 2 <= u /\ 2 ^ 52 <= q < 2 ^ 53 /\ q * u <= n < (q + 1) * u /\ n = q * u + n mod u /\ 0 <= n mod u < u.
Proof.
  intros H. cbv zeta. assert (P : 0 < n) by (pose proof (Z.pow_pos_nonneg 2 53 eq_refl ltac:(lia)); lia).
  pose proof (Z.log2_spec n P) as [L1 L2]. assert (L : 53 <= Z.log2 n) by (apply Z.log2_le_pow2; auto).
  set (l := Z.log2 n) in *. set (u := 2 ^ (l - 52)) in *.
  assert (U : 2 <= u). { unfold u. rewrite (pow_split 1 (l - 52)) by lia. pose proof (Z.pow_pos_nonneg 2 (l - 52 - 1) eq_refl ltac:(lia)). lia. }
  assert (E1 : 2 ^ l = 2 ^ 52 * u). { unfold u. rewrite <- Z.pow_add_r by lia. f_equal. lia. }
  assert (E2 : 2 ^ Z.succ l = 2 ^ 53 * u). { unfold u. rewrite <- Z.pow_add_r by lia. f_equal. lia. }
  pose proof (Z.div_mod n u ltac:(lia)) as DM. pose proof (Z.mod_pos_bound n u ltac:(lia)) as MB.
  split; [lia|]. split; [auto|]. split; [|split; [|split; [|exact MB]]].
  - split.
    + apply Z.div_le_lower_bound; lia.
    + apply Z.div_lt_upper_bound; lia.
  - nia.
  - lia.
Qed.

Lemma double_small x : Z.abs x <= 2 ^ 53 -> Double x.
Proof. intros H. exists x, 0. rewrite Z.mul_1_r. repeat split; auto; lia. Qed.

(** No double lies between two neighbours. *)
Lemma no_between e q x : 1 <= e -> 2 ^ 52 <= q -> Double x -> x <= q * 2 ^ e \/ (q + 1) * 2 ^ e <= x.
Proof.
  intros He Hq (m & a & Ha & Hm & ->). destruct (Z_lt_le_dec a e) as [L|L].
  - left. assert (P : 0 < 2 ^ a) by (apply Z.pow_pos_nonneg; lia). 
    assert (Q : 2 ^ e = 2 ^ (e - a) * 2 ^ a) by (apply pow_split; lia).
    assert (T : 2 <= 2 ^ (e - a)). { rewrite (pow_split 1 (e - a)) by lia. pose proof (Z.pow_pos_nonneg 2 (e - a - 1) eq_refl ltac:(lia)). lia. }
    rewrite Q, Z.mul_assoc. apply Z.mul_le_mono_nonneg_r; [lia|].
    assert (2 ^ 53 = 2 ^ 52 * 2) by reflexivity. assert (2 ^ 52 * 2 <= q * 2 ^ (e - a)) by (apply Z.mul_le_mono_nonneg; lia). lia.
  - assert (P : 0 < 2 ^ e) by (apply Z.pow_pos_nonneg; lia).
    rewrite (pow_split e a) by lia. rewrite Z.mul_assoc. set (k := m * 2 ^ (a - e)).
    destruct (Z_le_gt_dec k q); [left|right]; apply Z.mul_le_mono_nonneg_r; lia.
Qed.

Lemma even_low e q : 1 <= e -> 2 ^ 52 <= q -> EvenDouble (q * 2 ^ e) -> Z.Even q.
Proof.
  intros He Hq (m & a & Ha & Hm & [k ->] & E).
  assert (P : 0 < 2 ^ e) by (apply Z.pow_pos_nonneg; lia). assert (P' : 0 < 2 ^ a) by (apply Z.pow_pos_nonneg; lia).
  destruct (Z_lt_le_dec a e) as [L|L].
  - rewrite (pow_split a e), Z.mul_assoc in E by lia. apply Z.mul_reg_r in E; [|lia].
    rewrite (pow_split 1 (e - a)) in E by lia. set (t := 2 ^ (e - a - 1)) in *.
    assert (T : 0 < t) by (apply Z.pow_pos_nonneg; lia). change (2 ^ 1) with 2 in E.
    change (2 ^ 53) with (2 * 2 ^ 52) in Hm. set (h := 2 ^ 52) in *. assert (Hh : 0 < h) by reflexivity.
    assert (q * t <= h) by nia. assert (t = 1) by nia. assert (q = h) by nia. subst q. exists (2 ^ 51). reflexivity.
  - rewrite (pow_split e a), Z.mul_assoc in E by lia. apply Z.mul_reg_r in E; [|lia].
    exists (k * 2 ^ (a - e)). lia.
Qed.

Lemma even_double e q : 0 <= e -> 0 <= q <= 2 ^ 53 -> Z.Even q -> EvenDouble (q * 2 ^ e).
Proof. intros He Hq E. exists q, e. repeat split; auto. rewrite Z.abs_eq; lia. Qed.

Lemma nearest_iff n x : 0 <= n -> Nearest n x <-> x = round_nat n.
Proof.
  intros N. unfold round_nat. destruct (Z.ltb_spec n (2 ^ 53)) as [L|L].
  - split.
    + intros [_ H]. destruct (H n) as [H1 _]; [apply double_small; lia|]. lia.
    + intros ->. split; [apply double_small; lia|]. intros y Hy. split; [lia|]. intros E. left. lia.
  - destruct (bracket n L) as (He & Hu & Hq & HB & HD & HM). cbv zeta.
    set (e := Z.log2 n - 52) in *. set (u := 2 ^ e) in *. set (q := n / u) in *. set (r := n mod u) in *.
    assert (DL : Double (q * u)) by (exists q, e; repeat split; auto; lia).
    assert (DH : Double ((q + 1) * u)) by (exists (q + 1), e; repeat split; auto; lia).
    assert (NB : forall y, Double y -> y <= q * u \/ (q + 1) * u <= y) by (intros y; apply no_between; lia).
    assert (EL : EvenDouble (q * u) <-> Z.Even q).
    { split; [apply even_low; lia|apply even_double; lia]. }
    assert (EH : EvenDouble ((q + 1) * u) <-> Z.Even (q + 1)).
    { split; [apply even_low; lia|apply even_double; lia]. }
    assert (HU : (q + 1) * u = q * u + u) by lia.
    clearbody u q r. set (a := q * u) in *. set (b := (q + 1) * u) in *. clearbody a b. clear Hq He HB.
    destruct (Z.ltb_spec (2 * r) u) as [T1|T1]; [|destruct (Z.ltb_spec u (2 * r)) as [T2|T2]].
    + split.
      * intros [D H]. destruct (NB x D) as [B|B], (H a DL) as [H1 _]; lia.
      * intros ->. split; [auto|]. intros y Dy. destruct (NB y Dy); split; intros; lia || (left; lia).
    + split.
      * intros [D H]. destruct (NB x D) as [B|B], (H b DH) as [H1 _]; lia.
      * intros ->. split; [auto|]. intros y Dy. destruct (NB y Dy); split; intros; lia || (left; lia).
    + destruct (Z.even q) eqn:Q.
      * apply Z.even_spec in Q. split.
        -- intros [D H]. destruct (NB x D) as [B|B]; [destruct (H b DH) as [H1 _]; lia|].
           assert (x = b) by (destruct (H a DL) as [H1 _]; lia). subst x. destruct (H a DL) as [_ [H2|H2]]; [lia|auto|].
           apply EH in H2. destruct Q as [k K], H2 as [k' K']. lia.
        -- intros ->. split; [auto|]. intros y Dy. destruct (NB y Dy); split; intros; try lia; right; apply EL; auto.
      * assert (Q' : ~ Z.Even q) by (rewrite <- Z.even_spec; congruence). split.
        -- intros [D H]. destruct (NB x D) as [B|B]; [|destruct (H a DL) as [H1 _]; lia].
           assert (x = a) by (destruct (H b DH) as [H1 _]; lia). subst x. destruct (H b DH) as [_ [H2|H2]]; [lia|lia|].
           elim Q'. apply EL. auto.
        -- intros ->. split; [auto|]. intros y Dy.
           assert (EvenDouble b). { apply EH. destruct (Z.Even_or_Odd q) as [C|[k ->]]; [contradiction|]. exists (k + 1). lia. }
           destruct (NB y Dy); split; intros; try lia; right; auto.
Qed.

Lemma double_opp x : Double x -> Double (- x).
Proof. intros (m & e & H & L & ->). exists (- m), e. repeat split; auto; lia. Qed.
Lemma even_opp x : EvenDouble x -> EvenDouble (- x).
Proof. intros (m & e & H & L & [k ->] & ->). exists (- (2 * k)), e. repeat split; auto; try lia. exists (- k). lia. Qed.

Lemma nearest_opp n x : Nearest n x -> Nearest (- n) (- x).
Proof.
  intros [D H]. split; [apply double_opp; auto|]. intros y Dy. destruct (H (- y) (double_opp _ Dy)) as [H1 H2].
  split; [lia|]. intros E. destruct H2 as [H2|H2]; [lia|lia|]. right. apply even_opp. auto.
Qed.

Lemma js_number_spec n x : Nearest n x <-> x = js_number n.
Proof.
  unfold js_number. destruct (Z.ltb_spec n 0) as [L|L]; [|apply nearest_iff; auto]. split.
  - intros H. apply nearest_opp, nearest_iff in H; lia.
  - intros ->. rewrite <- (Z.opp_involutive n) at 1. apply nearest_opp. apply nearest_iff; auto; lia.
Qed.

Lemma js_number_fix n : Double n -> js_number n = n.
Proof.
  intros D. symmetry. apply js_number_spec. split; [auto|]. intros y Dy. split; [lia|]. intros E. left. lia.
Qed.

Lemma js_number_double n : Double (js_number n).
Proof. exact (proj1 (proj2 (js_number_spec n _) eq_refl)). Qed.

Lemma js_number_mono a b : a <= b -> js_number a <= js_number b.
Proof.
  intros L. pose proof (proj2 (js_number_spec a _) eq_refl) as [DA HA]. pose proof (proj2 (js_number_spec b _) eq_refl) as [DB HB].
  destruct (Z.eq_dec a b) as [->|N]; [lia|]. destruct (HA _ DB) as [A _]. destruct (HB _ DA) as [B _]. lia.
Qed.

Lemma round_js n : 0 <= n -> round_nat n = js_number n.
Proof. intros H. unfold js_number. destruct (Z.ltb_spec n 0); lia. Qed.

(** Multiples of a large power of ten are far from every 64-bit number. *)
Lemma far s e x : (19 < e)%nat -> 0 < x <= 2 ^ 64 -> js_number (s * 10 ^ Z.of_nat e) <> x.
Proof.
  intros He [X0 X] E. destruct (Z_le_gt_dec s 0) as [S0|S0].
  - assert (M : js_number (s * 10 ^ Z.of_nat e) <= js_number 0).
    { apply js_number_mono. pose proof (Z.pow_nonneg 10 (Z.of_nat e) ltac:(lia)). nia. }
    change (js_number 0) with 0 in M. lia.
  - assert (P : 10 ^ 20 <= 10 ^ Z.of_nat e) by (apply Z.pow_le_mono_r; lia).
    assert (M : js_number (10 ^ 20) <= js_number (s * 10 ^ Z.of_nat e)).
    { apply js_number_mono. nia. }
    rewrite E in M. assert (C : 2 ^ 64 < js_number (10 ^ 20)) by reflexivity. lia.
Qed.

Lemma digits_spec x : 0 < x <= 2 ^ 64 -> Double x -> forall n,
  (forall (e' : nat) s', (n < e')%nat -> js_number (s' * 10 ^ Z.of_nat e') <> x) ->
  exists (e : nat) s, digits n x = s * 10 ^ Z.of_nat e /\ js_number (digits n x) = x /\
    (forall (e' : nat) s', (e < e')%nat -> js_number (s' * 10 ^ Z.of_nat e') <> x) /\
    (forall s', js_number (s' * 10 ^ Z.of_nat e) = x -> Z.abs (x - digits n x) <= Z.abs (x - s' * 10 ^ Z.of_nat e)).
Proof.
  intros X D. induction n as [|n IH]; intros F.
  - exists 0%nat, x. cbn [digits]. split; [change (10 ^ Z.of_nat 0) with 1; lia|]. split; [apply js_number_fix; auto|].
    split; [exact F|]. intros s' _. rewrite Z.sub_diag. apply Z.abs_nonneg.
  - cbn [digits]. cbv zeta. set (k := S n) in *. set (p := 10 ^ Z.of_nat k). set (t := x / p).
    assert (P : 0 < p) by (apply Z.pow_pos_nonneg; lia).
    pose proof (Z.div_mod x p ltac:(lia)) as DM. pose proof (Z.mod_pos_bound x p ltac:(lia)) as MB. fold t in DM.
    assert (T : 0 <= t) by (apply Z.div_pos; lia).
    assert (LO : 0 <= t * p <= x) by nia. assert (HI : x < t * p + p) by nia.
    rewrite !round_js by lia.
    (* any multiple that has this double *)
    assert (MUL : forall s', js_number (s' * p) = x ->
       (s' * p <= t * p /\ js_number (t * p) = x) \/ (t * p + p <= s' * p /\ js_number (t * p + p) = x)).
    { intros s' E. destruct (Z_le_gt_dec s' t) as [S1|S1].
      - left. split; [nia|]. assert (A1 : js_number (s' * p) <= js_number (t * p)) by (apply js_number_mono; nia).
        assert (A2 : js_number (t * p) <= js_number x) by (apply js_number_mono; lia). rewrite (js_number_fix x D) in A2. lia.
      - right. split; [nia|]. assert (A1 : js_number (t * p + p) <= js_number (s' * p)) by (apply js_number_mono; nia).
        assert (A2 : js_number x <= js_number (t * p + p)) by (apply js_number_mono; lia). rewrite (js_number_fix x D) in A2. lia. }
    destruct (Z.eqb_spec (js_number (t * p)) x) as [E1|E1]; destruct (Z.eqb_spec (js_number (t * p + p)) x) as [E2|E2]; cbn [andb orb negb].
    + destruct (Z.leb_spec (x - t * p) (t * p + p - x)) as [C|C]; cbn [andb].
      * exists k, t. split; [reflexivity|]. split; [auto|]. split; [exact F|]. intros s' E. fold p in E |- *. destruct (MUL s' E) as [[M _]|[M _]]; lia.
      * exists k, (t + 1). split; [fold p; lia|]. split; [auto|]. split; [exact F|]. intros s' E. fold p in E |- *. destruct (MUL s' E) as [[M _]|[M _]]; lia.
    + exists k, t. split; [reflexivity|]. split; [auto|]. split; [exact F|]. intros s' E. fold p in E |- *. destruct (MUL s' E) as [[M _]|[M M']]; [lia|congruence].
    + exists k, (t + 1). split; [fold p; lia|]. split; [auto|]. split; [exact F|]. intros s' E. fold p in E |- *. destruct (MUL s' E) as [[M M']|[M _]]; [congruence|lia].
    + apply IH. intros e' s' L E. destruct (Nat.eq_dec e' k) as [->|N]; [|apply (F e' s'); [lia|auto]].
      fold p in E. destruct (MUL s' E) as [[_ M]|[_ M]]; congruence.
Qed.

Lemma printed_opp x y : Printed x y -> Printed (- x) (- y).
Proof.
  intros [[-> ->]|(N & e & s & -> & H1 & H2 & H3)]; [left; auto|]. right. split; [lia|]. exists e, (- s).
  split; [lia|]. split; [apply nearest_opp; auto|]. split.
  - intros e' s' L H. apply nearest_opp in H. apply (H2 e' (- s') L). rewrite Z.opp_involutive in H. rewrite Z.mul_opp_l. exact H.
  - intros s' H. apply nearest_opp in H. rewrite Z.opp_involutive, <- Z.mul_opp_l in H. specialize (H3 _ H). lia.
Qed.

Lemma js_string_spec x : Double x -> Z.abs x <= 2 ^ 64 -> Printed x (js_string x).
Proof.
  assert (Pos : forall x, 0 < x <= 2 ^ 64 -> Double x -> Printed x (digits 19 x)).
  { intros z Hz D. right. split; [lia|]. destruct (digits_spec z Hz D 19) as (e & s & E & H1 & H2 & H3).
    - intros e' s' L. apply far; auto.
    - exists e, s. split; [exact E|]. split; [apply js_number_spec; auto|]. split.
      + intros e' s' L H. apply js_number_spec in H. apply (H2 e' s' L). auto.
      + intros s' H. apply js_number_spec in H. apply H3. auto. }
  intros D L. unfold js_string. destruct (Z.ltb_spec x 0) as [C|C].
  - rewrite <- (Z.opp_involutive x) at 1. apply printed_opp. apply Pos; [lia|apply double_opp; auto].
  - destruct (Z.eq_dec x 0) as [->|N]; [left; split; reflexivity|]. apply Pos; auto. lia.
Qed.

Lemma printed_nearest x y : Printed x y -> Nearest y x.
Proof.
  intros [[-> ->]|(N & e & s & -> & H1 & _)]; auto. apply js_number_spec. reflexivity.
Qed.

(** What the page shows has the same double. *)
Lemma js_bound v : Z.abs v <= 2 ^ 64 -> Z.abs (js_number v) <= 2 ^ 64.
Proof.
  intros H. assert (A : js_number v <= js_number (2 ^ 64)) by (apply js_number_mono; lia).
  assert (B : js_number (- 2 ^ 64) <= js_number v) by (apply js_number_mono; lia).
  change (js_number (2 ^ 64)) with (2 ^ 64) in A. change (js_number (- 2 ^ 64)) with (- 2 ^ 64) in B. lia.
Qed.

Lemma js_shown v : Z.abs v <= 2 ^ 64 -> Nearest v (js_number v) /\ Printed (js_number v) (js_string (js_number v)).
Proof.
  intros H. split; [apply js_number_spec; auto|]. apply js_string_spec; [apply js_number_double|apply js_bound; auto].
Qed.

Lemma printed_safe x y : Z.abs x < 2 ^ 53 -> Printed x y -> y = x.
Proof.
  intros L H. apply printed_nearest, js_number_spec in H.
  destruct (Z_le_gt_dec (Z.abs y) (2 ^ 53)) as [C|C].
  - rewrite js_number_fix in H by (apply double_small; auto). auto.
  - exfalso. destruct (Z_le_gt_dec 0 y) as [Y|Y].
    + assert (A : js_number (2 ^ 53) <= js_number y) by (apply js_number_mono; lia). change (js_number (2 ^ 53)) with (2 ^ 53) in A. lia.
    + assert (A : js_number y <= js_number (- 2 ^ 53)) by (apply js_number_mono; lia). change (js_number (- 2 ^ 53)) with (- 2 ^ 53) in A. lia.
Qed.

Lemma odd_not_double v : Z.Odd v -> 2 ^ 53 < Z.abs v -> ~ Double v.
Proof.
  intros [k K] L (m & e & He & Hm & E). destruct (Z.eq_dec e 0) as [->|N].
  - rewrite Z.mul_1_r in E. lia.
  - rewrite (pow_split 1 e) in E by lia. change (2 ^ 1) with 2 in E. lia.
Qed.

Lemma odd_not_printed v x y : Z.Odd v -> 2 ^ 53 < Z.abs v -> Nearest v x -> Printed x y -> y <> v.
Proof.
  intros O L NV P ->. pose proof (proj1 NV) as DX.
  destruct P as [[-> ->]|(N & e & s & E & H1 & H2 & H3)]; [cbn in L; lia|].
  destruct e as [|e].
  - specialize (H3 x). change (10 ^ Z.of_nat 0) with 1 in H3. rewrite Z.mul_1_r in H3.
    assert (Nx : Nearest x x) by (apply js_number_spec; symmetry; apply js_number_fix; auto).
    specialize (H3 Nx). assert (x = v) by lia. subst x. apply (odd_not_double v O L). auto.
  - rewrite Nat2Z.inj_succ, Z.pow_succ_r in E by lia. destruct O as [k K]. lia.
Qed.
