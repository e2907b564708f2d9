(** * Proofs about the cache *)

From Coq Require Import List Arith Bool Lia.
From Verif Require Import Base ValuesModel BookModel CacheModel CacheSpec.
Import ListNotations.

(** ** The hashed bytes *)

Lemma le_bytes_inj k : forall n m, n < 256 ^ k -> m < 256 ^ k -> le_bytes k n = le_bytes k m -> n = m.
Proof.
  induction k as [|k IH]; intros n m Hn Hm E.
  - cbn [Nat.pow] in *. lia.
  - cbn [le_bytes] in E. injection E as E1 E2. rewrite Nat.pow_succ_r' in Hn, Hm.
    assert (n / 256 = m / 256).
    { apply IH; [apply Nat.div_lt_upper_bound; [discriminate|exact Hn]|apply Nat.div_lt_upper_bound; [discriminate|exact Hm]|exact E2]. }
    assert (Em : n mod 256 = m mod 256) by exact E1.
    pose proof (Nat.div_mod n 256 ltac:(lia)). pose proof (Nat.div_mod m 256 ltac:(lia)). lia.
Qed.

Lemma le_bytes_length k : forall n, length (le_bytes k n) = k.
Proof. induction k; intro n; cbn [le_bytes length]; auto. Qed.

Lemma app_inj_len {T} (a b x y : list T) : length a = length b -> a ++ x = b ++ y -> a = b /\ x = y.
Proof.
  revert b. induction a as [|h a IH]; intros [|h' b] L E; try discriminate; auto.
  cbn in E. injection E as <- E. cbn in L. destruct (IH b) as [-> ->]; auto.
Qed.

Lemma cons_inj {T} (a b : T) x y : a :: x = b :: y -> a = b /\ x = y.
Proof. intros H. injection H; auto. Qed.

Ltac uncons := repeat match goal with H : _ :: _ = _ :: _ |- _ => apply cons_inj in H; destruct H end.

Lemma utf8_class c : c < 17 * (256 * 256) ->
  (c < 128 /\ utf8 c = [c])
  \/ (exists x1 x0, x1 < 32 /\ c = 64 * x1 + x0 /\ utf8 c = [192 + x1; 128 + x0])
  \/ (exists x2 x1 x0, x2 < 16 /\ c = 64 * (64 * x2 + x1) + x0 /\ utf8 c = [224 + x2; 128 + x1; 128 + x0])
  \/ (exists x3 x2 x1 x0, x3 < 5 /\ c = 64 * (64 * (64 * x3 + x2) + x1) + x0 /\
        utf8 c = [240 + x3; 128 + x2; 128 + x1; 128 + x0]).
Proof.
  intros H. unfold utf8.
  destruct (Nat.ltb_spec c 128) as [H1|H1]; [left; auto|right].
  destruct (Nat.ltb_spec c 2048) as [H2|H2]; [left|right].
  { exists (c / 64), (c mod 64). split; [apply Nat.div_lt_upper_bound; lia|]. split; [apply Nat.div_mod; lia|reflexivity]. }
  destruct (Nat.ltb_spec c (256 * 256)) as [H3|H3]; [left|right].
  { exists (c / 4096), ((c / 64) mod 64), (c mod 64). split; [apply Nat.div_lt_upper_bound; lia|]. split; [|reflexivity].
    replace (c / 4096) with (c / 64 / 64) by (rewrite Nat.div_div by lia; reflexivity).
    rewrite <- Nat.div_mod by lia. apply Nat.div_mod; lia. }
  exists (c / (4096 * 64)), ((c / 4096) mod 64), ((c / 64) mod 64), (c mod 64).
  split; [apply Nat.div_lt_upper_bound; lia|]. split; [|reflexivity].
  rewrite <- Nat.div_div by lia. replace (c / 4096) with (c / 64 / 64) by (rewrite Nat.div_div by lia; reflexivity).
  rewrite <- !Nat.div_mod by lia. reflexivity.
Qed.

Lemma utf8_inj c d x y : c < 17 * (256 * 256) -> d < 17 * (256 * 256) -> utf8 c ++ x = utf8 d ++ y -> c = d /\ x = y.
Proof.
  intros Hc Hd. apply utf8_class in Hc. apply utf8_class in Hd.
  destruct Hc as [[Hc ->]|[(x1 & x0 & Bc & Ec & ->)|[(x2 & x1 & x0 & Bc & Ec & ->)|(x3 & x2 & x1 & x0 & Bc & Ec & ->)]]];
  destruct Hd as [[Hd ->]|[(y1 & y0 & Bd & Ed & ->)|[(y2 & y1 & y0 & Bd & Ed & ->)|(y3 & y2 & y1 & y0 & Bd & Ed & ->)]]];
  cbn [app]; intro E; uncons; try (exfalso; lia); split; auto; lia.
Qed.

Lemma utf8_head c x y : c < 17 * (256 * 256) -> utf8 c ++ x = 255 :: y -> False.
Proof.
  intros Hc. apply utf8_class in Hc.
  destruct Hc as [[Hc ->]|[(x1 & x0 & Bc & Ec & ->)|[(x2 & x1 & x0 & Bc & Ec & ->)|(x3 & x2 & x1 & x0 & Bc & Ec & ->)]]];
  cbn [app]; intro E; uncons; lia.
Qed.

Lemma hash_str_inj s : forall t x y, Valid s -> Valid t -> hash_str s ++ x = hash_str t ++ y -> s = t /\ x = y.
Proof.
  unfold hash_str, Valid. induction s as [|c s IH]; intros [|d t] x y Hs Ht E.
  - cbn in E. injection E as ->. auto.
  - cbn [flat_map] in E. rewrite <- !app_assoc in E. cbn [app] in E. symmetry in E. inversion Ht; subst.
    exfalso. eapply utf8_head; [|exact E]; auto.
  - cbn [flat_map] in E. rewrite <- !app_assoc in E. cbn [app] in E. inversion Hs; subst.
    exfalso. eapply utf8_head; [|exact E]; auto.
  - cbn [flat_map] in E. rewrite <- !app_assoc in E. inversion Hs; subst. inversion Ht; subst.
    apply utf8_inj in E; auto. destruct E as [-> E].
    destruct (IH t x y) as [-> ->]; auto. rewrite <- !app_assoc. exact E.
Qed.

Lemma hash_vec_inj {T} (h : T -> list nat) (P : T -> Prop)
  (Hinj : forall a b x y, P a -> P b -> h a ++ x = h b ++ y -> a = b /\ x = y)
  l m x y : length l < 256 ^ 8 -> length m < 256 ^ 8 -> Forall P l -> Forall P m ->
  hash_vec h l ++ x = hash_vec h m ++ y -> l = m /\ x = y.
Proof.
  intros Ll Lm Pl Pm E. unfold hash_vec in E. rewrite <- !app_assoc in E.
  apply app_inj_len in E; [|rewrite !le_bytes_length; reflexivity]. destruct E as [E1 E2].
  apply (le_bytes_inj 8 _ _ Ll Lm) in E1. clear Ll Lm.
  revert m Pm E1 E2. induction l as [|a l IH]; intros [|b m] Pm L E; try discriminate; auto.
  cbn [flat_map] in E. rewrite <- !app_assoc in E. inversion Pl; subst. inversion Pm; subst.
  apply Hinj in E; auto. destruct E as [-> E].
  destruct (IH ltac:(auto) m) as [-> ->]; auto.
Qed.

Lemma hash_stream_inj b1 b2 : Possible b1 -> Possible b2 -> hash_stream b1 = hash_stream b2 ->
  operations b1 = operations b2 /\ options b1 = options b2 /\ code b1 = code b2.
Proof.
  intros [[A1 A2] [A3 A4] A5] [[B1 B2] [B3 B4] B5] E. unfold hash_stream in E.
  apply (hash_vec_inj _ Valid) in E; auto.
  2:{ intros; apply hash_str_inj; auto. }
  destruct E as [-> E].
  apply (hash_vec_inj _ (fun o => Valid (fst o) /\ Valid (snd o))) in E; auto.
  2:{ intros [a1 a2] [c1 c2] x y [P1 P2] [Q1 Q2] F. cbn [fst snd] in P1, P2, Q1, Q2. rewrite <- !app_assoc in F.
      apply hash_str_inj in F; auto. destruct F as [-> F]. apply hash_str_inj in F; auto. destruct F as [-> ->]. auto. }
  destruct E as [-> E].
  rewrite <- (app_nil_r (hash_str (code b1))), <- (app_nil_r (hash_str (code b2))) in E.
  apply hash_str_inj in E; auto. destruct E as [-> _]. auto.
Qed.

(** ** The file *)

Lemma write_end b f : pos f = length (data f) -> write_byte b f = File (data f ++ [b]) (length (data f ++ [b])).
Proof.
  intros H. unfold write_byte. rewrite H, firstn_all, Nat.sub_diag, skipn_all2 by lia. cbn [repeat app].
  rewrite app_length. cbn [length]. rewrite Nat.add_1_r. reflexivity.
Qed.

Lemma write_all bs : forall f, pos f = length (data f) ->
  apply_effects (map write_byte bs) f = File (data f ++ bs) (length (data f ++ bs)).
Proof.
  unfold apply_effects. induction bs as [|b bs IH]; intros f H; cbn [map fold_left].
  - rewrite app_nil_r. destruct f; cbn in *; subst; reflexivity.
  - rewrite write_end by auto. rewrite IH by reflexivity. cbn [data]. rewrite <- app_assoc. reflexivity.
Qed.

Lemma firstn_map {A B} (g : A -> B) l : forall n, firstn n (map g l) = map g (firstn n l).
Proof. induction l as [|a l IH]; intros [|n]; cbn; auto. f_equal. apply IH. Qed.

Definition view {V} (c : codec V) (bytes : list nat) : list (nat * V) := entries (load c bytes).

Section Codec.
  Context {V : Type} (c : codec V) (HF : Faithful c).

  Lemma view_nil : view c [] = [].
  Proof. reflexivity. Qed.

  Lemma view_enc m : view c (enc c m) = m.
  Proof.
    unfold view, load. pose proof (faithful_nonempty c HF m) as Hn. pose proof (faithful_dec c HF m) as Hd.
    destruct (enc c m) as [|b bs] eqn:E; [contradiction|]. cbn [length Nat.eqb entries]. rewrite Hd. reflexivity.
  Qed.

  Lemma view_cut m n : view c (firstn n (enc c m)) = [] \/ view c (firstn n (enc c m)) = m.
  Proof.
    destruct (firstn n (enc c m)) as [|b bs] eqn:E; [left; reflexivity|].
    destruct (skipn n (enc c m)) as [|b' bs'] eqn:E'.
    - right. rewrite <- E. pose proof (firstn_skipn n (enc c m)) as F. rewrite E', app_nil_r in F. rewrite F. apply view_enc.
    - left. unfold view, load. cbn [length Nat.eqb entries].
      rewrite (faithful_cut c HF m (b :: bs) (b' :: bs')); auto; try discriminate.
      rewrite <- E, <- E'. symmetry. apply firstn_skipn.
  Qed.

  Lemma save_data ca : dirty ca = true -> data (apply_effects (save_effects c ca) (cache_file ca)) = enc c (entries ca).
  Proof.
    intros D. unfold save_effects. rewrite D. unfold apply_effects. rewrite fold_left_app. cbn [fold_left].
    change (fold_left (fun f g => g f) ?l ?f) with (apply_effects l f). rewrite write_all by reflexivity. reflexivity.
  Qed.

  Lemma crash_data ca n :
    let d := data (apply_effects (firstn n (save_effects c ca)) (cache_file ca)) in
    d = data (cache_file ca) \/ (dirty ca = true /\ exists i, d = firstn i (enc c (entries ca))).
  Proof.
    cbn zeta. unfold save_effects. destruct (dirty ca).
    2:{ left. rewrite firstn_nil. reflexivity. }
    destruct n as [|[|n]].
    - left. reflexivity.
    - right. split; auto. exists 0. reflexivity.
    - right. split; auto. exists n. cbn [app firstn]. rewrite firstn_map. unfold apply_effects. cbn [fold_left].
      change (fold_left (fun f g => g f) ?l ?f) with (apply_effects l f). rewrite write_all by reflexivity. reflexivity.
  Qed.

  (** The link between the cache and the ideal one. *)
  Definition Linked (ca : cache V) (s : list (nat * V) * list (nat * V)) : Prop :=
    entries ca = fst s /\ view c (data (cache_file ca)) = snd s /\ (dirty ca = false -> fst s = snd s).

  Lemma linked_load bytes : Linked (load c bytes) (view c bytes, view c bytes).
  Proof. unfold Linked, view. cbn. auto. Qed.

  Lemma linked_step ca s e : Linked ca s -> exists s', ideal s e s' /\ Linked (happen c ca e) s'.
  Proof.
    destruct s as [cur saved]. intros (E1 & E2 & E3). cbn [fst snd] in *. destruct e as [k v| | |n].
    - eexists. split; [apply ideal_set|]. unfold Linked. cbn. rewrite E1. repeat split; auto. discriminate.
    - eexists. split; [apply ideal_save|]. unfold Linked. cbn [happen save entries cache_file dirty fst snd].
      split; [auto|]. split; [|auto]. destruct (dirty ca) eqn:D.
      + rewrite save_data by auto. rewrite view_enc. exact E1.
      + unfold save_effects. rewrite D. change (view c (data (cache_file ca)) = cur). rewrite E2. symmetry. auto.
    - exists (saved, saved). split; [apply ideal_reload|]. cbn [happen]. rewrite <- E2. apply linked_load.
    - cbn [happen]. pose proof (linked_load (data (apply_effects (firstn n (save_effects c ca)) (cache_file ca)))) as L.
      destruct (crash_data ca n) as [H|[D [i H]]]; rewrite H in *.
      + exists (saved, saved). split; [apply ideal_crash_old|]. rewrite <- E2. exact L.
      + destruct (view_cut (entries ca) i) as [W|W]; rewrite W in L.
        * eexists. split; [apply ideal_crash_empty|exact L].
        * exists (cur, cur). split; [apply ideal_crash_new|]. rewrite <- E1. exact L.
  Qed.

  Lemma linked_run bytes es : exists s, ideals (view c bytes, view c bytes) es s /\ Linked (fold_left (happen c) es (load c bytes)) s.
  Proof.
    induction es as [|e es IH] using rev_ind.
    - eexists. split; [apply ideals_nil|apply linked_load].
    - destruct IH as (s & I & L). rewrite fold_left_app. cbn [fold_left].
      destruct (linked_step _ _ e L) as (s' & St & L'). exists s'. split; [eapply ideals_snoc; eauto|exact L'].
  Qed.
End Codec.

(** ** Parallel processing *)

Lemma set_nth_length {T} (x : T) l : forall n, length (set_nth n x l) = length l.
Proof. induction l as [|a l IH]; intros [|n]; cbn; auto. Qed.
Lemma set_nth_same {T} (x : T) l : forall n, n < length l -> nth_error (set_nth n x l) n = Some x.
Proof. induction l as [|a l IH]; intros [|n] H; cbn in *; auto; try lia. apply IH; lia. Qed.
Lemma set_nth_other {T} (x : T) l : forall n m, n <> m -> nth_error (set_nth n x l) m = nth_error l m.
Proof. induction l as [|a l IH]; intros [|n] [|m] H; cbn; auto; try congruence. Qed.

(** ** Collisions *)

Lemma nodup_or_collision (f : nat -> nat) n :
  NoDup (map f (seq 0 n)) \/ exists i j, i < j < n /\ f i = f j.
Proof.
  induction n as [|n [IH|(i & j & H & E)]].
  - left. constructor.
  - destruct (in_dec Nat.eq_dec (f n) (map f (seq 0 n))) as [I|I].
    + right. apply in_map_iff in I. destruct I as (i & E & I). apply in_seq in I. exists i, n. split; [lia|auto].
    + left. rewrite seq_S, map_app. cbn [map Nat.add]. apply NoDup_Add with (a := f n) (l := map f (seq 0 n)).
      * rewrite <- (app_nil_r (map f (seq 0 n))) at 1. apply Add_app.
      * auto.
  - right. exists i, j. split; [lia|auto].
Qed.

Lemma pigeonhole (f : nat -> nat) N : (forall i, f i < N) -> exists i j, i < j /\ f i = f j.
Proof.
  intros H. destruct (nodup_or_collision f (S N)) as [ND|(i & j & L & E)].
  - exfalso. assert (length (map f (seq 0 (S N))) <= length (seq 0 N)).
    { apply NoDup_incl_length; auto. intros x I. apply in_map_iff in I. destruct I as (i & <- & _).
      apply in_seq. split; [lia|apply H]. }
    rewrite map_length, !seq_length in H0. lia.
  - exists i, j. split; [lia|auto].
Qed.

(** ** Invariants of parallel processing *)

Section Par.
  Context {V : Type} (key : nat -> nat) (outcome : nat -> option V) (c0 : list (nat * V)).

  Notation look := (fun m k => aget Nat.eq_dec m k).

  Definition Job (cache : list (nat * V)) (n j : nat) (s : job V) : Prop :=
    match s with
    | Waiting => True
    | Missed => look c0 (key j) = None
    | Ran v => look c0 (key j) = None /\ outcome j = Some v
    | Done v => look c0 (key j) = Some v \/
                (look c0 (key j) = None /\ exists i, i < n /\ key i = key j /\ outcome i = Some v)
    | Failed => look c0 (key j) = None /\ outcome j = None
    end.

  Definition PInv (n : nat) (st : pstate V) : Prop :=
    length (p_jobs st) = n /\
    (forall k v, look c0 k = Some v -> look (p_cache st) k = Some v) /\
    (forall k v, look (p_cache st) k = Some v -> look c0 k = Some v \/
       (look c0 k = None /\ exists i, i < n /\ key i = k /\ outcome i = Some v)) /\
    (forall j s, nth_error (p_jobs st) j = Some s -> Job (p_cache st) n j s) /\
    (forall j v, nth_error (p_jobs st) j = Some (Done v) -> look (p_cache st) (key j) <> None).

  Lemma pinv_init n : PInv n (PState c0 (repeat Waiting n)).
  Proof.
    repeat split; cbn [p_jobs p_cache]; auto.
    - apply repeat_length.
    - intros j s E. apply nth_error_In, repeat_spec in E. subst. exact I.
    - intros j v E. apply nth_error_In, repeat_spec in E. discriminate.
  Qed.

  Lemma nth_lt {T} (l : list T) j s : nth_error l j = Some s -> j < length l.
  Proof. intros H. apply nth_error_Some. congruence. Qed.

  Lemma pinv_work n st j : PInv n st -> PInv n (work key outcome st j).
  Proof.
    intros (L & K0 & K1 & J & D). unfold work.
    destruct (nth_error (p_jobs st) j) as [s|] eqn:E; [|exact (conj L (conj K0 (conj K1 (conj J D))))].
    pose proof (nth_lt _ _ _ E) as Lj. pose proof (J _ _ E) as Js.
    destruct s as [| |v|v|]; try exact (conj L (conj K0 (conj K1 (conj J D)))).
    - destruct (aget Nat.eq_dec (p_cache st) (key j)) as [v|] eqn:G.
      + repeat split; cbn [p_jobs p_cache]; auto.
        * rewrite set_nth_length; auto.
        * intros i s Ei. destruct (Nat.eq_dec j i) as [<-|N].
          -- rewrite set_nth_same in Ei by auto. injection Ei as <-. cbn [Job]. apply K1. exact G.
          -- rewrite set_nth_other in Ei by auto. exact (J _ _ Ei).
        * intros i w Ei. destruct (Nat.eq_dec j i) as [<-|N].
          -- congruence.
          -- rewrite set_nth_other in Ei by auto. eauto.
      + repeat split; cbn [p_jobs p_cache]; auto.
        * rewrite set_nth_length; auto.
        * intros i s Ei. destruct (Nat.eq_dec j i) as [<-|N].
          -- rewrite set_nth_same in Ei by auto. injection Ei as <-. cbn [Job].
             destruct (aget Nat.eq_dec c0 (key j)) as [w|] eqn:G0; auto.
             apply K0 in G0. cbn beta in G0. congruence.
          -- rewrite set_nth_other in Ei by auto. exact (J _ _ Ei).
        * intros i w Ei. destruct (Nat.eq_dec j i) as [<-|N].
          -- rewrite set_nth_same in Ei by auto. discriminate.
          -- rewrite set_nth_other in Ei by auto. eauto.
    - cbn [Job] in Js. destruct (outcome j) as [v|] eqn:O.
      + repeat split; cbn [p_jobs p_cache]; auto.
        * rewrite set_nth_length; auto.
        * intros i s Ei. destruct (Nat.eq_dec j i) as [<-|N].
          -- rewrite set_nth_same in Ei by auto. injection Ei as <-. cbn [Job]. auto.
          -- rewrite set_nth_other in Ei by auto. exact (J _ _ Ei).
        * intros i w Ei. destruct (Nat.eq_dec j i) as [<-|N].
          -- rewrite set_nth_same in Ei by auto. discriminate.
          -- rewrite set_nth_other in Ei by auto. eauto.
      + repeat split; cbn [p_jobs p_cache]; auto.
        * rewrite set_nth_length; auto.
        * intros i s Ei. destruct (Nat.eq_dec j i) as [<-|N].
          -- rewrite set_nth_same in Ei by auto. injection Ei as <-. cbn [Job]. auto.
          -- rewrite set_nth_other in Ei by auto. exact (J _ _ Ei).
        * intros i w Ei. destruct (Nat.eq_dec j i) as [<-|N].
          -- rewrite set_nth_same in Ei by auto. discriminate.
          -- rewrite set_nth_other in Ei by auto. eauto.
    - destruct Js as [C0 O]. repeat split; cbn [p_jobs p_cache].
      + rewrite set_nth_length; auto.
      + intros k w Hk. cbn beta. rewrite aget_aset. destruct (Nat.eq_dec k (key j)) as [->|N]; [congruence|]. apply K0; auto.
      + intros k w Hk. cbn beta in Hk. rewrite aget_aset in Hk. destruct (Nat.eq_dec k (key j)) as [->|N].
        * injection Hk as <-. right. split; [auto|]. exists j. repeat split; auto. lia.
        * apply K1; auto.
      + intros i s Ei. destruct (Nat.eq_dec j i) as [<-|N].
        * rewrite set_nth_same in Ei by auto. injection Ei as <-. cbn [Job]. right. split; [auto|].
          exists j. repeat split; auto. lia.
        * rewrite set_nth_other in Ei by auto. exact (J _ _ Ei).
      + intros i w Ei. cbn beta. rewrite aget_aset. destruct (Nat.eq_dec (key i) (key j)) as [_|N]; [discriminate|].
        destruct (Nat.eq_dec j i) as [<-|N']; [congruence|].
        rewrite set_nth_other in Ei by auto. eauto.
  Qed.

  Lemma pinv_process n sched : PInv n (process key outcome c0 n sched).
  Proof.
    unfold process. generalize (pinv_init n). generalize (PState c0 (repeat (@Waiting V) n)).
    induction sched as [|j sched IH]; intros st H; cbn [fold_left]; auto. apply IH, pinv_work, H.
  Qed.
End Par.

(** ** Sequential processing *)

Section Seq.
  Context {V : Type} (key : nat -> nat) (outcome : nat -> option V).
  Notation look := (fun m k => aget Nat.eq_dec m k).

  Definition Det (js : list nat) : Prop := forall i j, In i js -> In j js -> key i = key j -> outcome i = outcome j.

  Definition wanted (c : list (nat * V)) (j : nat) : option V :=
    match look c (key j) with Some v => Some v | None => outcome j end.

  Lemma sequential_spec js : forall c, Det js ->
    let '(rs, c') := sequential key outcome c js in
    rs = map (wanted c) js /\
    (forall k v, look c k = Some v -> look c' k = Some v) /\
    (forall k v, look c' k = Some v <-> look c k = Some v \/ (look c k = None /\ exists j, In j js /\ key j = k /\ outcome j = Some v)).
  Proof.
    induction js as [|j js IH]; intros c HD.
    { cbn. repeat split; auto. intros [H|(_ & j & [] & _)]; auto. }
    assert (HD' : Det js) by (intros a b Ia Ib; apply HD; right; auto).
    cbn [sequential map]. unfold wanted at 1. destruct (aget Nat.eq_dec c (key j)) as [w|] eqn:G.
    - specialize (IH c HD'). destruct (sequential key outcome c js) as [rs c']. destruct IH as (E & K & X). subst rs.
      repeat split; auto.
      + intros H. apply X in H. destruct H as [H|(H & i & Ii & Hi)]; [auto|]. right. split; [auto|]. exists i. split; [right; auto|auto].
      + intros [H|(H & i & [<-|Ii] & Hi & Oi)]; apply X; auto.
        * subst k. cbn beta in H. congruence.
        * right. split; [auto|]. exists i. auto.
    - destruct (outcome j) as [w|] eqn:O.
      + specialize (IH (aset Nat.eq_dec c (key j) w) HD').
        destruct (sequential key outcome (aset Nat.eq_dec c (key j) w) js) as [rs c']. destruct IH as (E & K & X). subst rs.
        assert (Kc : forall k v, look c k = Some v -> look c' k = Some v).
        { intros k v H. apply K. cbn beta. rewrite aget_aset. destruct (Nat.eq_dec k (key j)) as [->|N]; [congruence|auto]. }
        repeat split; auto.
        * f_equal. apply map_ext_in. intros i Ii. unfold wanted. rewrite aget_aset.
          destruct (Nat.eq_dec (key i) (key j)) as [Ek|N]; [|reflexivity].
          rewrite Ek, G. rewrite <- O. symmetry. apply HD; [right; auto|left; auto|auto].
        * intros H. apply X in H. cbn beta in H. rewrite aget_aset in H. destruct (Nat.eq_dec k (key j)) as [->|N].
          -- destruct H as [H|[H _]]; [|discriminate]. injection H as <-. right. split; [auto|]. exists j. split; [left; auto|auto].
          -- destruct H as [H|(H & i & Ii & Hi)]; [auto|]. right. split; [auto|]. exists i. split; [right; auto|auto].
        * intros [H|(H & i & Ii & Hi & Oi)]; [apply Kc; auto|]. apply X. cbn beta. rewrite aget_aset.
          destruct (Nat.eq_dec k (key j)) as [Ek|N].
          -- left. rewrite <- Oi, <- O. apply HD; [left; auto|exact Ii|congruence].
          -- destruct Ii as [<-|Ii]; [congruence|]. right. split; [auto|]. exists i. auto.
      + specialize (IH c HD'). destruct (sequential key outcome c js) as [rs c']. destruct IH as (E & K & X). subst rs.
        repeat split; auto.
        * intros H. apply X in H. destruct H as [H|(H & i & Ii & Hi)]; [auto|]. right. split; [auto|]. exists i. split; [right; auto|auto].
        * intros [H|(H & i & [<-|Ii] & Hi & Oi)]; apply X; auto; [congruence|]. right. split; [auto|]. exists i. auto.
  Qed.

  Lemma parallel_result c0 n sched j s r : Det (seq 0 n) ->
    nth_error (p_jobs (process key outcome c0 n sched)) j = Some s -> result s = Some r ->
    nth_error (fst (sequential key outcome c0 (seq 0 n))) j = Some r.
  Proof.
    intros HD E R. pose proof (pinv_process key outcome c0 n sched) as (L & K0 & K1 & J & D).
    pose proof (J _ _ E) as Js. pose proof (nth_lt _ _ _ E) as Lj. rewrite L in Lj.
    pose proof (sequential_spec (seq 0 n) c0 HD) as X. destruct (sequential key outcome c0 (seq 0 n)) as [rs c'].
    destruct X as (-> & _). cbn [fst]. rewrite nth_error_map.
    assert (N : nth_error (seq 0 n) j = Some j).
    { rewrite (nth_error_nth' _ 0) by (rewrite seq_length; auto). rewrite seq_nth by auto. reflexivity. }
    rewrite N. cbn [option_map]. unfold wanted. destruct s as [| |v|v|]; try discriminate; injection R as <-; cbn [Job] in Js.
    - destruct Js as [->|(-> & i & Li & Ki & Oi)]; [reflexivity|]. rewrite <- Oi. f_equal.
      apply HD; [apply in_seq; lia|apply in_seq; lia|auto].
    - destruct Js as [-> ->]. reflexivity.
  Qed.

  Lemma parallel_cache c0 n sched : Det (seq 0 n) ->
    (forall j s, nth_error (p_jobs (process key outcome c0 n sched)) j = Some s -> result s <> None) ->
    Same (p_cache (process key outcome c0 n sched)) (snd (sequential key outcome c0 (seq 0 n))).
  Proof.
    intros HD F. pose proof (pinv_process key outcome c0 n sched) as (L & K0 & K1 & J & D).
    pose proof (sequential_spec (seq 0 n) c0 HD) as X. destruct (sequential key outcome c0 (seq 0 n)) as [rs c'].
    destruct X as (_ & _ & X). cbn [snd]. intros k.
    set (st := process key outcome c0 n sched) in *.
    destruct (aget Nat.eq_dec c' k) as [v|] eqn:G.
    - apply X in G. destruct G as [G|(G & i & Ii & Ki & Oi)]; [apply K0; auto|].
      apply in_seq in Ii. destruct (nth_error (p_jobs st) i) as [s|] eqn:E.
      2:{ apply nth_error_None in E. lia. }
      pose proof (F _ _ E) as R. pose proof (J _ _ E) as Js. destruct s as [| |w|w|]; try (elim R; reflexivity).
      + pose proof (D _ _ E) as Dn. rewrite Ki in Dn. cbn beta in Dn.
        destruct (aget Nat.eq_dec (p_cache st) k) as [u|] eqn:Gu; [|elim Dn; reflexivity].
        apply K1 in Gu. destruct Gu as [Gu|(_ & i' & Li' & Ki' & Oi')]; [cbn beta in Gu; congruence|].
        rewrite <- Oi, <- Oi'. apply HD; [apply in_seq; lia|apply in_seq; lia|congruence].
      + cbn [Job] in Js. destruct Js; congruence.
    - destruct (aget Nat.eq_dec (p_cache st) k) as [u|] eqn:Gu; auto.
      apply K1 in Gu. assert (H : aget Nat.eq_dec c' k = Some u); [|congruence].
      apply X. destruct Gu as [Gu|(G0 & i & Li & Ki & Oi)]; [auto|]. right. split; [auto|].
      exists i. split; [apply in_seq; lia|auto].
  Qed.
End Seq.
