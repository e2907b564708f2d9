(** * Proofs about hidden lines *)
From Coq Require Import List Arith Bool Lia.
From Verif Require Import Base VeilModel VeilSpec.
Import ListNotations.
Local Open Scope list_scope.

Lemma carries_keep_inv n r p q : Carries (Keep n :: r) p q <-> (p < n /\ q = p) \/ exists p' q', p = n + p' /\ q = n + q' /\ Carries r p' q'.
Proof.
  split.
  - intros H. inversion H; subst; [left; auto|right; eauto].
  - intros [[H ->]|(p' & q' & -> & -> & H)]; [apply carries_here, H|apply carries_keep, H].
Qed.
Lemma carries_replace_inv n ins r p q : Carries (Replace n ins :: r) p q <-> exists p' q', p = n + p' /\ q = length ins + q' /\ Carries r p' q'.
Proof.
  split; [intros H; inversion H; subst; eauto|]. intros (p' & q' & -> & -> & H). apply carries_replace, H.
Qed.

Lemma map_pos_here cs : forall pos posB, map_pos cs pos pos posB = Some posB.
Proof.
  induction cs as [|[n|n ins] cs IH]; intros pos posB; cbn [map_pos]; [reflexivity| |].
  - destruct (Nat.ltb_spec pos (pos + n)); [rewrite Nat.sub_diag, Nat.add_0_r; reflexivity|]. assert (n = 0) by lia. subst n. rewrite !Nat.add_0_r. apply IH.
  - rewrite Nat.ltb_irrefl, andb_false_r. destruct (Nat.ltb_spec pos (pos + n)); [reflexivity|]. assert (n = 0) by lia. subst n. rewrite Nat.add_0_r, !Nat.eqb_refl. reflexivity.
Qed.
Lemma map_pos_carries cs : forall k posA posB q, k < list_sum (map old_len cs) ->
  (map_pos cs (posA + S k) posA posB = Some q <-> exists q', q = posB + S q' /\ Carries cs k q').
Proof.
  induction cs as [|[n|n ins] cs IH]; intros k posA posB q L; cbn [map_pos map list_sum old_len fold_right] in *; [cbn in L; lia| |].
  - destruct (Nat.ltb_spec (posA + S k) (posA + n)) as [H|H].
    + replace (posA + S k - posA) with (S k) by lia. split.
      * intros [= <-]. exists k. split; [reflexivity|]. apply carries_here. lia.
      * intros (q' & -> & C). apply carries_keep_inv in C as [[_ ->]|(p' & q0 & -> & _)]; [reflexivity|lia].
    + destruct (Nat.eq_dec (S k) n) as [E|E].
      * rewrite <- E, map_pos_here. split.
        -- intros [= <-]. exists k. split; [reflexivity|]. apply carries_here. lia.
        -- intros (q' & -> & C). apply carries_keep_inv in C as [[_ ->]|(p' & q0 & Q & _)]; [reflexivity|lia].
      * replace (posA + S k) with (posA + n + S (k - n)) by lia. fold (list_sum (map old_len cs)) in L. rewrite IH by lia. split.
        -- intros (q' & -> & C). exists (n + q'). split; [lia|]. apply carries_keep_inv. right. exists (k - n), q'. repeat split; [lia|exact C].
        -- intros (q' & -> & C). apply carries_keep_inv in C as [[Q _]|(p' & q0 & -> & -> & C)]; [lia|]. exists q0. split; [lia|]. replace (n + p' - n) with p' by lia. exact C.
  - destruct (Nat.leb_spec (posA + S k) (posA + n)) as [H|H].
    + replace (posA <? posA + S k) with true by (symmetry; apply Nat.ltb_lt; lia). cbn [andb]. split; [discriminate|]. intros (q' & _ & C). apply carries_replace_inv in C as (p' & q0 & -> & _). lia.
    + cbn [andb]. replace (posA + S k <? posA + n) with false by (symmetry; apply Nat.ltb_ge; lia). replace (posA + S k =? posA + n) with false by (symmetry; apply Nat.eqb_neq; lia). cbn [orb andb].
      replace (posA + S k) with (posA + n + S (k - n)) by lia. fold (list_sum (map old_len cs)) in L. rewrite IH by lia. split.
      * intros (q' & -> & C). exists (length ins + q'). split; [lia|]. apply carries_replace_inv. exists (k - n), q'. repeat split; [lia|exact C].
      * intros (q' & -> & C). apply carries_replace_inv in C as (p' & q0 & -> & -> & C). exists q0. split; [lia|]. replace (n + p' - n) with p' by lia. exact C.
Qed.
Lemma map_pos_goes cs t p q : Fits cs t -> p <= length t -> (map_pos cs p 0 0 = Some q <-> Goes cs p q).
Proof.
  intros F L. unfold Goes. destruct p as [|p].
  - rewrite map_pos_here. split; [intros [= <-]; auto|]. intros [[_ ->]|(p' & q' & Q & _)]; [reflexivity|discriminate Q].
  - change (S p) with (0 + S p) at 1. rewrite map_pos_carries by (unfold Fits in F; rewrite F; lia). cbn [Nat.add]. split.
    + intros (q' & -> & C). right. eauto.
    + intros [[Q _]|(p' & q' & [= <-] & -> & C)]; [discriminate Q|eauto].
Qed.

Lemma carries_nth cs : forall t p q, Carries cs p q -> list_sum (map old_len cs) <= length t -> p < length t /\ nth_error (apply cs t) q = nth_error t p.
Proof.
  induction cs as [|[n|n ins] cs IH]; intros t p q C L; cbn [map list_sum old_len fold_right apply] in *; [inversion C| |]; fold (list_sum (map old_len cs)) in L.
  - assert (Ln : length (firstn n t) = n) by (rewrite firstn_length; lia). apply carries_keep_inv in C as [[Q ->]|(p' & q' & -> & -> & C)].
    + split; [lia|]. rewrite nth_error_app1 by lia. rewrite <- (firstn_skipn n t) at 2. rewrite nth_error_app1 by lia. reflexivity.
    + destruct (IH (skipn n t) p' q' C) as [A B]; [rewrite skipn_length; lia|]. rewrite skipn_length in A. split; [lia|].
      rewrite nth_error_app2 by lia. replace (n + q' - length (firstn n t)) with q' by lia. rewrite B. rewrite <- (firstn_skipn n t) at 2. rewrite nth_error_app2 by lia. f_equal. lia.
  - apply carries_replace_inv in C as (p' & q' & -> & -> & C). assert (Ln : length (firstn n t) = n) by (rewrite firstn_length; lia).
    destruct (IH (skipn n t) p' q' C) as [A B]; [rewrite skipn_length; lia|]. rewrite skipn_length in A. split; [lia|].
    rewrite nth_error_app2 by lia. replace (length ins + q' - length ins) with q' by lia. rewrite B. rewrite <- (firstn_skipn n t) at 2. rewrite nth_error_app2 by lia. f_equal. lia.
Qed.

(** ** Lines *)
Lemma upto : forall a : list nat, exists l rest, a = l ++ rest /\ ~ In 10 l /\ (rest = [] \/ exists r, rest = 10 :: r).
Proof.
  induction a as [|c a IH]; [exists [], []; auto|]. destruct IH as (l & rest & -> & N & R). destruct (Nat.eq_dec c 10) as [->|D]; [exists [], (10 :: l ++ rest); split; [reflexivity|]; split; [intros []|right; eauto]|].
  exists (c :: l), rest. split; [reflexivity|]. split; [|exact R]. intros [Q|Q]; [congruence|exact (N Q)].
Qed.
Lemma line_iff t p : (exists l, Line t p l) <-> p = 0 \/ exists p', p = S p' /\ nth_error t p' = Some 10.
Proof.
  split.
  - intros (l & b & a & -> & <- & _ & [->|[b' ->]] & _); [auto|]. right. exists (length b'). rewrite app_length, Nat.add_comm. split; [reflexivity|].
    rewrite <- !app_assoc, nth_error_app2, Nat.sub_diag by lia. reflexivity.
  - intros [->|(p' & -> & N)].
    + destruct (upto t) as (l & rest & -> & H & R). exists l, [], rest. auto 6.
    + apply nth_error_split in N as (b & a & -> & <-). destruct (upto a) as (l & rest & -> & H & R). exists l, (b ++ [10]), rest. rewrite <- app_assoc. split; [reflexivity|].
      rewrite app_length, Nat.add_comm. eauto 6.
Qed.
Lemma line_below t p l : Line t p l -> p + length l <= length t.
Proof. intros (b & a & -> & <- & _). rewrite !app_length. lia. Qed.

Definition count (t : list nat) : nat := length (filter (Nat.eqb 10) t).
Lemma starts_spec : forall t off k p, nth_error (starts off t) k = Some p <-> exists b a, t = b ++ 10 :: a /\ p = off + S (length b) /\ count b = k.
Proof.
  induction t as [|c t IH]; intros off k p; cbn [starts].
  - destruct k; (split; [discriminate|]); intros (b & a & Q & _); destruct b; discriminate Q.
  - destruct (Nat.eqb_spec c 10) as [->|D].
    + destruct k as [|k]; cbn [nth_error].
      * split.
        -- intros [= <-]. exists [], t. repeat split. cbn. lia.
        -- intros ([|x b] & a & Q & -> & K); [cbn; f_equal; lia|]. cbn in Q. injection Q as <- _. cbn in K. discriminate K.
      * rewrite IH. split.
        -- intros (b & a & -> & -> & <-). exists (10 :: b), a. repeat split. cbn. lia.
        -- intros ([|x b] & a & Q & -> & K); [discriminate K|]. cbn in Q. injection Q as <- ->. exists b, a. repeat split; [cbn; lia|]. cbn in K. injection K as K. exact K.
    + rewrite IH. split.
      * intros (b & a & -> & -> & <-). exists (c :: b), a. split; [reflexivity|]. split; [cbn; lia|]. unfold count. cbn [filter]. destruct (Nat.eqb_spec 10 c); [congruence|reflexivity].
      * intros ([|x b] & a & Q & -> & K); cbn in Q; injection Q as -> ->; [congruence|]. exists b, a. repeat split; [cbn; lia|]. rewrite <- K. unfold count. cbn [filter]. destruct (Nat.eqb_spec 10 x); [congruence|reflexivity].
Qed.
Lemma count_app a b : count (a ++ b) = count a + count b.
Proof. unfold count. rewrite filter_app, app_length. reflexivity. Qed.
Lemma line_start_spec t n p : line_start t n = Some p <-> Numbered t n p.
Proof.
  unfold line_start, Numbered. fold count. destruct n as [|[|k]]; cbn [nth_error].
  - split; [discriminate|]. intros (l & _ & Q). lia.
  - split.
    + intros [= <-]. destruct (proj2 (line_iff t 0)) as [l H]; [auto|]. exists l. split; [exact H|reflexivity].
    + intros (l & (b & a & -> & <- & _ & [->|[b' ->]] & _) & Q); [reflexivity|].
      replace (length (b' ++ [10])) with (length (b' ++ [10]) + 0) in Q by lia. rewrite firstn_app_2, firstn_O, app_nil_r in Q. fold (count (b' ++ [10])) in Q. rewrite count_app in Q. cbn in Q. lia.
  - rewrite starts_spec. split.
    + intros (b & a & -> & -> & <-). destruct (proj2 (line_iff (b ++ 10 :: a) (S (length b)))) as [l H].
      { right. exists (length b). split; [reflexivity|]. rewrite nth_error_app2, Nat.sub_diag by lia. reflexivity. }
      exists l. split; [exact H|]. change (b ++ 10 :: a) with (b ++ [10] ++ a). rewrite app_assoc. replace (0 + S (length b)) with (length (b ++ [10]) + 0) by (rewrite app_length; cbn; lia).
      rewrite firstn_app_2, firstn_O, app_nil_r. fold (count (b ++ [10])). rewrite count_app. cbn. lia.
    + intros (l & (b & a & -> & <- & _ & [->|[b' ->]] & _) & Q); [cbn in Q; lia|]. exists b', (l ++ a). rewrite <- app_assoc. split; [reflexivity|]. split; [rewrite app_length; cbn; lia|].
      replace (length (b' ++ [10])) with (length (b' ++ [10]) + 0) in Q by lia. rewrite firstn_app_2, firstn_O, app_nil_r in Q. fold (count (b' ++ [10])) in Q. rewrite count_app in Q. cbn in Q. lia.
Qed.

Lemma goes_line cs t p q : Fits cs t -> (exists l, Line t p l) -> Goes cs p q -> exists l, Line (apply cs t) q l.
Proof.
  intros F H [[-> ->]|(p' & q' & -> & -> & C)]; apply line_iff; [auto|]. right. exists q'. split; [reflexivity|].
  apply line_iff in H as [H|(p0 & [= <-] & H)]; [discriminate H|]. destruct (carries_nth cs t p' q' C) as [_ ->]; [unfold Fits in F; lia|]. exact H.
Qed.

(** ** Histories *)
Lemma run_spec : forall es t hs, Fitting t es -> Forall (fun p => exists l, Line t p l) hs ->
  let v := fold_left on_event es (Veil t hs) in
  Forall (fun p => exists l, Line (v_text v) p l) (v_hidden v) /\
  forall q, In q (v_hidden v) <-> (exists p, In p hs /\ Moved t es p q) \/ Veiled t es q.
Proof.
  induction es as [|[cs|n] es IH]; intros t hs F H; cbn [fold_left on_event v_text v_hidden Fitting] in *.
  - split; [exact H|]. intros q. split; [intros I; left; exists q; split; [exact I|constructor]|]. intros [(p & I & M)|M]; [inversion M; subst; exact I|inversion M].
  - destruct F as [F F']. set (hs' := flat_map _ hs).
    assert (I' : forall q, In q hs' <-> exists p, In p hs /\ Goes cs p q).
    { intros q. unfold hs'. rewrite in_flat_map. rewrite Forall_forall in H. split; intros (p & I & K); exists p; (split; [exact I|]);
        destruct (H p I) as [l Hl]; apply line_below in Hl; assert (Lp : p <= length t) by lia; pose proof (map_pos_goes cs t p q F Lp) as G.
      - destruct (map_pos cs p 0 0) as [q0|]; [|destruct K]. destruct K as [->|[]]. apply G. reflexivity.
      - apply G in K. rewrite K. left. reflexivity. }
    destruct (IH (apply cs t) hs' F') as [A B].
    { apply Forall_forall. intros q I. apply I' in I as (p & I & G). rewrite Forall_forall in H. exact (goes_line cs t p q F (H p I) G). }
    split; [exact A|]. intros q. rewrite B. split.
    + intros [(p & I & M)|M]; [|right; apply veiled_later_change, M]. apply I' in I as (p0 & I & G). left. exists p0. split; [exact I|]. exact (moved_change t cs es p0 p q G M).
    + intros [(p & I & M)|M]; [|inversion M; subst; auto]. inversion M as [| |t0 cs0 es0 p0 q0 r G M']; subst. left. exists q0. split; [|exact M']. apply I'. eauto.
  - destruct (line_start t n) as [p0|] eqn:E.
    + pose proof (proj1 (line_start_spec t n p0) E) as N. destruct (IH t (hs ++ [p0]) F) as [A B].
      { apply Forall_app. split; [exact H|]. constructor; [|constructor]. destruct N as (l & Hl & _). eauto. }
      split; [exact A|]. intros q. rewrite B. split.
      * intros [(p & I & M)|M]; [|right; apply veiled_later_hide, M]. apply in_app_iff in I as [I|[<-|[]]].
        -- left. exists p. split; [exact I|]. apply moved_hide, M.
        -- right. exact (veiled_hide t n es p0 q N M).
      * intros [(p & I & M)|M].
        -- inversion M; subst. left. exists p. rewrite in_app_iff. auto.
        -- inversion M as [t0 n0 es0 p q0 N' M'|t0 n0 es0 q0 M'|]; subst; [|auto]. left. exists p. split; [|exact M']. apply in_app_iff. right. left. apply line_start_spec in N'. congruence.
    + destruct (IH t hs F H) as [A B]. split; [exact A|]. intros q. rewrite B. split.
      * intros [(p & I & M)|M]; [left; exists p; split; [exact I|apply moved_hide, M]|right; apply veiled_later_hide, M].
      * intros [(p & I & M)|M]; [inversion M; subst; eauto|]. inversion M as [t0 n0 es0 p q0 N' M'|t0 n0 es0 q0 M'|]; subst; [|auto]. apply line_start_spec in N'. congruence.
Qed.

(** ** One replacement *)
Lemma replace_fits t from to ins : from <= to -> to <= length t -> Fits (replace t from to ins) t.
Proof. intros A B. unfold Fits, replace. cbn. lia. Qed.
Lemma replace_carries t from to ins p q : from <= to -> to <= length t ->
  (Carries (replace t from to ins) p q <-> (p < from /\ q = p) \/ (to <= p < length t /\ q = p + length ins - (to - from))).
Proof.
  intros A B. unfold replace. rewrite carries_keep_inv. split.
  - intros [H|(p' & q' & -> & -> & C)]; [auto|]. right. apply carries_replace_inv in C as (p1 & q1 & -> & -> & C). apply carries_keep_inv in C as [[Q ->]|(p2 & q2 & _ & _ & C)]; [lia|inversion C].
  - intros [H|[H ->]]; [auto|]. right. exists (p - from), (p + length ins - (to - from) - from). split; [lia|]. split; [lia|]. apply carries_replace_inv.
    exists (p - to), (p - to). split; [lia|]. split; [lia|]. apply carries_here. lia.
Qed.
Lemma replace_goes t from to ins p q : from <= to -> to <= length t -> p <= length t ->
  (Goes (replace t from to ins) p q <-> (p <= from /\ q = p) \/ (to < p /\ q = p + length ins - (to - from))).
Proof.
  intros A B L. unfold Goes. destruct p as [|p].
  - split; [intros [[_ ->]|(p' & q' & Q & _)]; [left; lia|discriminate Q]|]. intros [[_ ->]|[Q _]]; [auto|lia].
  - split.
    + intros [[Q _]|(p' & q' & [= <-] & -> & C)]; [discriminate Q|]. apply replace_carries in C; [|assumption..]. lia.
    + intros H. right. destruct H as [[H ->]|[H ->]].
      * exists p, p. repeat split. apply replace_carries; lia.
      * exists p, (p + length ins - (to - from)). repeat split; [lia|]. apply replace_carries; lia.
Qed.
Lemma skipn_skipn' {A} (a b : nat) (t : list A) : a <= b -> skipn (b - a) (skipn a t) = skipn b t.
Proof. revert b t. induction a as [|a IH]; intros b t L; [rewrite Nat.sub_0_r; reflexivity|]. destruct b as [|b]; [lia|]. destruct t; [cbn [skipn]; apply skipn_nil|]. cbn [skipn Nat.sub]. apply IH. lia. Qed.
Lemma replace_text t from to ins : from <= to -> to <= length t -> apply (replace t from to ins) t = firstn from t ++ ins ++ skipn to t.
Proof.
  intros A B. unfold replace. cbn [apply]. f_equal. f_equal. rewrite skipn_skipn'. 2: exact A. rewrite firstn_all2 by (rewrite skipn_length; lia). rewrite (skipn_all2 (skipn to t)) by (rewrite skipn_length; lia). apply app_nil_r.
Qed.
