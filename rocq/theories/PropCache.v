(** * Properties of the preprocessor's cache: C46, C47, C48, C66 *)

From Coq Require Import Ascii String.
From Coq Require Import List Arith Bool Lia.
From Verif Require Import Base ValuesModel BookModel CacheModel CacheSpec CacheProofs.
Import ListNotations.

(** ** C46: the cache key separates different blocks *)

(** Two blocks feed the same bytes to the hasher iff they have the same operations,
    options and code; the annotations never matter. *)
Theorem C46_stream b1 b2 : Possible b1 -> Possible b2 ->
  (hash_stream b1 = hash_stream b2 <->
   operations b1 = operations b2 /\ options b1 = options b2 /\ code b1 = code b2).
Proof.
  intros P1 P2. split; [apply hash_stream_inj; auto|].
  intros (E1 & E2 & E3). unfold hash_stream. rewrite E1, E2, E3. reflexivity.
Qed.

Lemma small k : k < 256 -> k < 256 ^ 8.
Proof.
  intros H. apply Nat.lt_le_trans with (256 ^ 1); [rewrite Nat.pow_1_r; exact H|].
  apply Nat.pow_le_mono_r; lia.
Qed.

Lemma valid_lit s : Valid (lit s).
Proof.
  unfold Valid, lit. apply Forall_forall. intros x I. apply in_map_iff in I. destruct I as (a & <- & _).
  pose proof (nat_ascii_bounded a). lia.
Qed.

(** Splitting the text differently gives other bytes. *)
Example C46_witness :
  let b1 := Block [lit "interpreter"; lit "permissions"] [(lit "a", lit "bc")] (lit "fn main() {}") (no_annots) in
  let b2 := Block [lit "interpreterp"; lit "ermissions"] [(lit "ab", lit "c")] (lit "fn main() {}") (Annots [3] [] [] [] []) in
  Possible b1 /\ Possible b2 /\ hash_stream b1 <> hash_stream b2.
Proof.
  cbn zeta. split; [|split].
  - constructor; cbn [operations options code].
    + split; [apply small; cbn; lia|]. repeat (apply Forall_cons; [apply valid_lit|]). apply Forall_nil.
    + split; [apply small; cbn; lia|]. apply Forall_cons; [split; apply valid_lit|apply Forall_nil].
    + apply valid_lit.
  - constructor; cbn [operations options code].
    + split; [apply small; cbn; lia|]. repeat (apply Forall_cons; [apply valid_lit|]). apply Forall_nil.
    + split; [apply small; cbn; lia|]. apply Forall_cons; [split; apply valid_lit|apply Forall_nil].
    + apply valid_lit.
  - vm_compute. discriminate.
Qed.

(** The key itself is a number below some bound, so different blocks with the same
    key exist, whatever the hash function. *)
Theorem C46_collision_refuted (hash : list nat -> nat) (N : nat) : (forall s, hash s < N) ->
  exists b1 b2, Possible b1 /\ Possible b2 /\ code b1 <> code b2 /\ hash (hash_stream b1) = hash (hash_stream b2).
Proof.
  intros H. set (blk i := Block [] [] (repeat 97 i) (no_annots)).
  destruct (pigeonhole (fun i => hash (hash_stream (blk i))) N) as (i & j & L & E).
  { intros i. apply H. }
  assert (P : forall n, Possible (blk n)).
  { intros n. constructor.
    - split; [apply small; cbn; lia|constructor].
    - split; [apply small; cbn; lia|constructor].
    - apply Forall_forall. intros x I. apply repeat_spec in I. subst x. lia. }
  exists (blk i), (blk j). split; [auto|]. split; [auto|].
  split; [|exact E]. cbn [blk code]. intros F. apply (f_equal (@length nat)) in F. rewrite !repeat_length in F. lia.
Qed.

(** ** C47: the cache survives any crash without serving wrong data *)

(** Every history of sets, saves, reloads and crashes of the cache is one of an
    ideal cache, whose reload gives the entries of the last save and whose crash
    gives the old entries, the new ones or none. *)
Theorem C47_history {V} (c : codec V) (bytes : list nat) (es : list (event V)) : Faithful c ->
  exists cur saved,
    ideals (entries (load c bytes), entries (load c bytes)) es (cur, saved) /\
    (forall k, get k (fold_left (happen c) es (load c bytes)) = aget Nat.eq_dec cur k) /\
    entries (happen c (fold_left (happen c) es (load c bytes)) EReload) = saved.
Proof.
  intros HF. destruct (linked_run c HF bytes es) as ([cur saved] & I & (E1 & E2 & E3)).
  exists cur, saved. split; [exact I|]. split.
  - intros k. unfold get. rewrite E1. reflexivity.
  - exact E2.
Qed.

(** In particular: save, then end. *)
Theorem C47_saved {V} (c : codec V) (bytes : list nat) (es : list (event V)) k : Faithful c ->
  let before := fold_left (happen c) es (load c bytes) in
  get k (fold_left (happen c) (es ++ [ESave; EReload]) (load c bytes)) = get k before.
Proof.
  intros HF. cbn zeta. rewrite fold_left_app. cbn [fold_left].
  destruct (linked_run c HF bytes es) as (s & _ & L).
  destruct (linked_step c HF _ _ ESave L) as (s1 & I1 & L1). destruct (linked_step c HF _ _ EReload L1) as (s2 & I2 & L2).
  inversion I1; subst. inversion I2; subst. destruct L as (E & _). destruct L2 as (E' & _).
  unfold get. rewrite E, E'. reflexivity.
Qed.

(** A crash at any point of a save. *)
Theorem C47_crash {V} (c : codec V) (bytes : list nat) (es : list (event V)) n : Faithful c ->
  let before := fold_left (happen c) es (load c bytes) in
  let after := happen c before (ECrash n) in
  entries after = entries (happen c before EReload) \/ entries after = entries before \/ entries after = [].
Proof.
  intros HF. cbn zeta. destruct (linked_run c HF bytes es) as (s & _ & L).
  destruct (linked_step c HF _ _ (ECrash n) L) as (s1 & I1 & L1). destruct (linked_step c HF _ _ EReload L) as (s2 & I2 & L2).
  destruct L as (E & _). destruct L1 as (E1 & _). destruct L2 as (E2 & _). rewrite E, E1, E2.
  inversion I2; subst. inversion I1; subst; auto.
Qed.

(** A file of any bytes can be loaded, and used from then on. *)
Theorem C47_any_file {V} (c : codec V) (bytes : list nat) k (v : V) : Faithful c ->
  get k (fold_left (happen c) [ESet k v; ESave; EReload] (load c bytes)) = Some v.
Proof.
  intros HF. pose proof (C47_saved c bytes [ESet k v] k HF) as H. cbn zeta in H. cbn [app] in H. rewrite H.
  cbn [fold_left happen]. unfold get, set. cbn [entries]. apply aget_aset_eq.
Qed.

(** While nothing is set, neither saving, restarting nor crashing touches the file. *)
Theorem C47_unchanged {V} (c : codec V) (bytes : list nat) (es : list (event V)) :
  (forall k v, ~ In (ESet k v) es) -> data (cache_file (fold_left (happen c) es (load c bytes))) = bytes.
Proof.
  intros N. enough (H : fold_left (happen c) es (load c bytes) = load c bytes) by (rewrite H; reflexivity).
  induction es as [|e es IH]; auto. cbn [fold_left].
  replace (happen c (load c bytes) e) with (load c bytes); [apply IH; intros k v I; apply (N k v); right; auto|].
  destruct e as [k v| | |n]; cbn; auto; [exfalso; apply (N k v); left; auto|]. destruct n; reflexivity.
Qed.
Print Assumptions C47_unchanged.

(** A codec that meets the assumption: one triple per entry and a last byte. *)
Module Demo.
  Fixpoint denc (m : list (nat * nat)) : list nat := match m with [] => [0] | (k, v) :: r => 1 :: k :: v :: denc r end.
  Fixpoint ddec (l : list nat) : option (list (nat * nat)) :=
    match l with
    | [0] => Some []
    | 1 :: k :: v :: r => option_map (cons (k, v)) (ddec r)
    | _ => None
    end.
  Definition codec0 := Codec denc ddec.

  Lemma cut m : forall p q, denc m = p ++ q -> q <> [] -> ddec p = None.
  Proof.
    induction m as [|[k v] m IH]; intros p q E Q; cbn [denc] in E.
    - destruct p as [|a p]; [reflexivity|]. cbn in E. injection E as <- E. destruct p, q; try discriminate. elim Q; reflexivity.
    - destruct p as [|a [|b [|d p]]]; cbn [app] in E.
      + reflexivity.
      + injection E as <- _. reflexivity.
      + injection E as <- <- _. reflexivity.
      + injection E as <- <- <- E. cbn [ddec]. rewrite (IH p q); auto.
  Qed.

  Lemma faithful : Faithful codec0.
  Proof.
    constructor; cbn [codec0 enc dec].
    - induction m as [|[k v] m IH]; cbn [denc ddec]; [reflexivity|]. rewrite IH. reflexivity.
    - intros [|[k v] m]; discriminate.
    - intros m p q E _ Q. eapply cut; eauto.
  Qed.
End Demo.

(** A save over a longer file, a crash in the middle of a save, and a garbage file. *)
Example C47_witness :
  let run es := fold_left (happen Demo.codec0) es (load Demo.codec0 [9; 9; 9]) in
  Faithful Demo.codec0
  /\ entries (run [ESet 1 10; ESet 2 20; ESave; EReload]) = [(1, 10); (2, 20)]
  /\ entries (run [ESet 1 10; ESave; ESet 2 20; ECrash 0]) = [(1, 10)]
  /\ entries (run [ESet 1 10; ESave; ESet 2 20; ECrash 1]) = []
  /\ entries (run [ESet 1 10; ESave; ESet 2 20; ECrash 7]) = []
  /\ entries (run [ESet 1 10; ESave; ESet 2 20; ECrash 9]) = [(1, 10); (2, 20)]
  /\ entries (run [ESet 1 10; EReload]) = [].
Proof. split; [exact Demo.faithful|]. repeat split; reflexivity. Qed.

(** ** C48: parallel processing of blocks *)

(** If blocks with the same key give the same result, every schedule gives every
    block it finishes the result of sequential processing. *)
Theorem C48_results_partial {V} (key : nat -> nat) (outcome : nat -> option V) c0 n sched j s r :
  (forall i i', i < n -> i' < n -> key i = key i' -> outcome i = outcome i') ->
  nth_error (p_jobs (process key outcome c0 n sched)) j = Some s -> result s = Some r ->
  nth_error (fst (sequential key outcome c0 (seq 0 n))) j = Some r.
Proof.
  intros HD. apply parallel_result. intros a b Ia Ib. apply in_seq in Ia, Ib. apply HD; lia.
Qed.

(** That result is the block's own, unless the initial cache has an entry for it. *)
Theorem C48_own_partial {V} (key : nat -> nat) (outcome : nat -> option V) c0 n sched j s r :
  (forall i i', i < n -> i' < n -> key i = key i' -> outcome i = outcome i') ->
  nth_error (p_jobs (process key outcome c0 n sched)) j = Some s -> result s = Some r ->
  r = match aget Nat.eq_dec c0 (key j) with Some v => Some v | None => outcome j end.
Proof.
  intros HD E R. pose proof (C48_results_partial key outcome c0 n sched j s r HD E R) as H.
  assert (HD' : Det key outcome (seq 0 n)).
  { intros a b Ia Ib. apply in_seq in Ia, Ib. apply HD; lia. }
  pose proof (sequential_spec key outcome (seq 0 n) c0 HD') as X.
  destruct (sequential key outcome c0 (seq 0 n)) as [rs c']. destruct X as (-> & _). cbn [fst] in H.
  rewrite nth_error_map in H. destruct (nth_error (seq 0 n) j) as [i|] eqn:N; [|discriminate].
  assert (Lj : j < n). { rewrite <- (seq_length n 0). apply nth_error_Some. congruence. }
  rewrite (nth_error_nth' _ 0) in N by (rewrite seq_length; auto). rewrite seq_nth in N by auto. injection N as <-.
  injection H as <-. reflexivity.
Qed.

(** When all blocks are finished, the cache is that of sequential processing. *)
Theorem C48_cache_partial {V} (key : nat -> nat) (outcome : nat -> option V) c0 n sched :
  (forall i i', i < n -> i' < n -> key i = key i' -> outcome i = outcome i') ->
  (forall s, In s (p_jobs (process key outcome c0 n sched)) -> result s <> None) ->
  Same (p_cache (process key outcome c0 n sched)) (snd (sequential key outcome c0 (seq 0 n))).
Proof.
  intros HD F. apply parallel_cache.
  - intros a b Ia Ib. apply in_seq in Ia, Ib. apply HD; lia.
  - intros j s E. apply F. eapply nth_error_In; eauto.
Qed.

(** Without any assumption, at any time: entries are never lost or replaced by
    something else, and a new entry is the result of a successful block with its
    key; a failure leaves no trace. *)
Theorem C48_entries {V} (key : nat -> nat) (outcome : nat -> option V) c0 n sched k v :
  (aget Nat.eq_dec c0 k = Some v -> aget Nat.eq_dec (p_cache (process key outcome c0 n sched)) k = Some v) /\
  (aget Nat.eq_dec (p_cache (process key outcome c0 n sched)) k = Some v ->
   aget Nat.eq_dec c0 k = Some v \/ exists i, i < n /\ key i = k /\ outcome i = Some v).
Proof.
  pose proof (pinv_process key outcome c0 n sched) as (L & K0 & K1 & J & D). split; [apply K0|].
  intros H. apply K1 in H. destruct H as [H|(_ & H)]; auto.
Qed.

Theorem C48_provenance {V} (key : nat -> nat) (outcome : nat -> option V) c0 n sched j v :
  nth_error (p_jobs (process key outcome c0 n sched)) j = Some (Done v) ->
  aget Nat.eq_dec c0 (key j) = Some v \/ exists i, i < n /\ key i = key j /\ outcome i = Some v.
Proof.
  intros E. pose proof (pinv_process key outcome c0 n sched) as (L & K0 & K1 & J & D).
  pose proof (J _ _ E) as H. cbn [Job] in H. destruct H as [H|(_ & H)]; auto.
Qed.

(** No schedule is stuck: every unfinished block can be finished in three steps. *)
Theorem C48_progress {V} (key : nat -> nat) (outcome : nat -> option V) c0 n sched j : j < n ->
  exists s r, nth_error (p_jobs (process key outcome c0 n (sched ++ [j; j; j]))) j = Some s /\ result s = Some r.
Proof.
  intros Lj. unfold process. rewrite fold_left_app.
  pose proof (pinv_process key outcome c0 n sched) as (L & _). unfold process in L.
  set (st := fold_left (work key outcome) sched (PState c0 (repeat Waiting n))) in *. clearbody st.
  destruct (nth_error (p_jobs st) j) as [s|] eqn:E; [|apply nth_error_None in E; lia].
  assert (A : forall (st' : pstate V) w, length (p_jobs st') = n -> nth_error (set_nth j w (p_jobs st')) j = Some w).
  { intros. apply set_nth_same. lia. }
  assert (B : forall (st' : pstate V) w, length (p_jobs st') = n -> length (set_nth j w (p_jobs st')) = n).
  { intros. rewrite set_nth_length. auto. }
  assert (D : forall (st' : pstate V) s' r, nth_error (p_jobs st') j = Some s' -> result s' = Some r -> work key outcome st' j = st').
  { intros st' s' r E' R'. unfold work. rewrite E'. destruct s'; try discriminate; reflexivity. }
  assert (S1 : forall st', length (p_jobs st') = n ->
     (exists v, nth_error (p_jobs st') j = Some (Ran v)) ->
     exists s' r, nth_error (p_jobs (work key outcome st' j)) j = Some s' /\ result s' = Some r).
  { intros st' L' [v E']. unfold work. rewrite E'. cbn [p_jobs]. rewrite A by auto. eexists _, _. split; reflexivity. }
  assert (S2 : forall st', length (p_jobs st') = n -> nth_error (p_jobs st') j = Some Missed ->
     exists s' r, nth_error (p_jobs (work key outcome (work key outcome st' j) j)) j = Some s' /\ result s' = Some r).
  { intros st' L' E'. unfold work at 2. rewrite E'. destruct (outcome j) as [v|].
    - apply S1; cbn [p_jobs]; auto. exists v. apply A; auto.
    - erewrite D; cbn [p_jobs]; [|apply A; auto|reflexivity]. rewrite A by auto. eexists _, _. split; reflexivity. }
  cbn [fold_left]. destruct s as [| |v|v|].
  - unfold work at 3. rewrite E. destruct (aget Nat.eq_dec (p_cache st) (key j)) as [v|].
    + erewrite (D (PState _ _)); cbn [p_jobs]; [|apply A; auto|reflexivity].
      erewrite (D (PState _ _)); cbn [p_jobs]; [|apply A; auto|reflexivity]. rewrite A by auto. eexists _, _. split; reflexivity.
    + apply S2; cbn [p_jobs]; auto.
  - destruct (S2 st L E) as (s' & r & E' & R'). exists s', r. split; [|auto]. erewrite D by eauto. exact E'.
  - destruct (S1 st L) as (s' & r & E' & R'); [eauto|]. exists s', r. split; [|auto].
    erewrite (D (work key outcome (work key outcome st j) j)); [|erewrite D by eauto; eauto|eauto]. erewrite D by eauto. exact E'.
  - exists (Done v), (Some v). split; [|auto]. rewrite !(D st _ _ E eq_refl). exact E.
  - exists Failed, None. split; [|auto]. rewrite !(D st _ _ E eq_refl). exact E.
Qed.

(** If two blocks share a key but not their result (a collision, or an analysis
    that is not deterministic), one schedule gives the second block the result of
    the first, and another does not. *)
Theorem C48_collision_refuted {V} (key : nat -> nat) (outcome : nat -> option V) v w :
  key 0 = key 1 -> outcome 0 = Some v -> outcome 1 = Some w -> v <> w ->
  exists s1 s2,
    p_jobs (process key outcome [] 2 s1) = [Done v; Done v] /\
    p_jobs (process key outcome [] 2 s2) = [Done v; Done w].
Proof.
  intros K O0 O1 N. exists [0; 0; 0; 1], [0; 1; 0; 1; 0; 1]. unfold process. cbn [fold_left repeat]. split.
  - unfold work. cbn. rewrite O0. cbn. rewrite K. destruct (Nat.eq_dec (key 1) (key 1)) as [_|C]; [reflexivity|elim C; reflexivity].
  - assert (W : forall ca js j s, nth_error js j = Some s -> work key outcome (PState ca js) j =
        match s with
        | Waiting => match aget Nat.eq_dec ca (key j) with Some v => PState ca (set_nth j (Done v) js) | None => PState ca (set_nth j Missed js) end
        | Missed => match outcome j with Some v => PState ca (set_nth j (Ran v) js) | None => PState ca (set_nth j Failed js) end
        | Ran v => PState (aset Nat.eq_dec ca (key j) v) (set_nth j (Done v) js)
        | _ => PState ca js
        end).
    { intros ca js j s E. unfold work. cbn [p_jobs p_cache]. rewrite E. destruct s; reflexivity. }
    rewrite (W [] [Waiting; Waiting] 0 Waiting) by reflexivity. cbn [aget set_nth].
    rewrite (W [] [Missed; Waiting] 1 Waiting) by reflexivity. cbn [aget set_nth].
    rewrite (W [] [Missed; Missed] 0 Missed) by reflexivity. rewrite O0. cbn [set_nth].
    rewrite (W [] [Ran v; Missed] 1 Missed) by reflexivity. rewrite O1. cbn [set_nth].
    rewrite (W [] [Ran v; Ran w] 0 (Ran v)) by reflexivity. cbn [set_nth].
    rewrite (W _ [Done v; Ran w] 1 (Ran w)) by reflexivity. reflexivity.
Qed.

(** Three blocks, the first two of which are the same, the third fails; one entry
    is there from the start. *)
Example C48_witness :
  let key := fun j => match j with 0 | 1 => 7 | 2 => 8 | _ => 9 end in
  let outcome := fun j => match j with 0 | 1 => Some 70 | 3 => Some 90 | _ => None end in
  let st := process key outcome [(9, 99)] 4 [2; 0; 1; 3; 1; 0; 2; 0; 1] in
  (forall i i', i < 4 -> i' < 4 -> key i = key i' -> outcome i = outcome i')
  /\ p_jobs st = [Done 70; Done 70; Failed; Done 99] /\ p_cache st = [(9, 99); (7, 70)].
Proof.
  cbn zeta. split; [|split; reflexivity].
  intros i i' Li Li'. do 4 (destruct i as [|i]; [do 4 (destruct i' as [|i']; [cbn; try discriminate; auto|]); lia|]); lia.
Qed.

(** ** C66: what is shown was computed by the current version of the tool *)

(** Refuted: the key does not contain the version of the tool.  Whatever the old
    version returned for a block is shown for it as long as the file exists. *)
Theorem C66_stale_refuted (c : codec nat) (key : nat -> nat) (old new : nat -> option nat) n sched_old sched_new j v : Faithful c ->
  (forall i i', i < n -> i' < n -> key i = key i' -> old i = old i') ->
  j < n -> old j = Some v ->
  (forall s, In s (p_jobs (process key old [] n sched_old)) -> result s <> None) ->
  let saved := fold_left (happen c) (map (fun '(k, v) => ESet k v) (p_cache (process key old [] n sched_old)) ++ [ESave; EReload]) (load c []) in
  forall s r, nth_error (p_jobs (process key new (entries saved) n sched_new)) j = Some s -> result s = Some r -> r = Some v.
Proof.
  intros HF HD Lj O F. cbn zeta. intros s r E R.
  set (m := p_cache (process key old [] n sched_old)) in *.
  assert (Hm : aget Nat.eq_dec m (key j) = Some v).
  { pose proof (C48_cache_partial key old [] n sched_old HD F (key j)) as Sm. fold m in Sm. rewrite Sm.
    assert (HD' : Det key old (seq 0 n)).
    { intros a b Ia Ib. apply in_seq in Ia, Ib. apply HD; lia. }
    pose proof (sequential_spec key old (seq 0 n) [] HD') as X.
    destruct (sequential key old [] (seq 0 n)) as [rs c']. destruct X as (_ & _ & X). cbn [snd]. apply X.
    right. split; [reflexivity|]. exists j. split; [apply in_seq; lia|auto]. }
  set (saved := fold_left (happen c) (map (fun '(k, v) => ESet k v) m ++ [ESave; EReload]) (load c [])) in *.
  assert (G : aget Nat.eq_dec (entries saved) (key j) = Some v).
  { pose proof (C47_saved c [] (map (fun '(k, v) => ESet k v) m) (key j) HF) as H. cbn zeta in H.
    unfold get in H. fold saved in H. rewrite H. clear H saved E.
    assert (Q : forall m ca, NoDup (akeys m) ->
       aget Nat.eq_dec (entries (fold_left (happen c) (map (fun '(k, v) => ESet k v) m) ca)) (key j)
       = match aget Nat.eq_dec m (key j) with Some v => Some v | None => aget Nat.eq_dec (entries ca) (key j) end).
    { clear. induction m as [|[k w] m IH]; intros ca ND; [reflexivity|]. cbn [map fold_left happen].
      cbn in ND. inversion ND as [|? ? NI ND']; subst. rewrite IH by auto. cbn [set entries]. rewrite aget_aset. cbn [aget].
      destruct (Nat.eq_dec (key j) k) as [<-|N].
      - assert (A : aget Nat.eq_dec m (key j) = None) by (apply aget_None; auto). rewrite A. reflexivity.
      - reflexivity. }
    rewrite Q, Hm; [reflexivity|]. subst m. clear. unfold process.
    assert (P : forall sched st, NoDup (akeys (p_cache st)) -> NoDup (akeys (p_cache (fold_left (work key old) sched st)))).
    { induction sched as [|i sched IH]; intros st H; cbn [fold_left]; auto. apply IH. unfold work.
      destruct (nth_error (p_jobs st) i) as [[| |w|w|]|]; auto.
      - destruct (aget Nat.eq_dec (p_cache st) (key i)); auto.
      - destruct (old i); auto.
      - cbn [p_cache]. apply NoDup_aset; auto. }
    apply P. constructor. }
  pose proof (pinv_process key new (entries saved) n sched_new) as (L & K0 & K1 & J & D).
  pose proof (J _ _ E) as Js. destruct s as [| |w|w|]; try discriminate; cbn [Job] in Js; injection R as <-.
  - destruct Js as [Js|[Js _]]; rewrite G in Js; congruence.
  - destruct Js as [Js _]. rewrite G in Js. discriminate.
Qed.

Example C66_witness :
  let saved := fold_left (happen Demo.codec0) ([ESet 7 70] ++ [ESave; EReload]) (load Demo.codec0 []) in
  p_jobs (process (fun _ => 7) (fun _ => Some 70) [] 1 [0; 0; 0]) = [Done 70]
  /\ p_jobs (process (fun _ => 7) (fun _ => Some 71) (entries saved) 1 [0]) = [Done 70]
  /\ p_jobs (process (fun _ => 7) (fun _ => Some 71) [] 1 [0; 0; 0]) = [Done 71].
Proof. repeat split; reflexivity. Qed.

Print Assumptions C46_stream.
Print Assumptions C46_collision_refuted.
Print Assumptions C47_history.
Print Assumptions C47_saved.
Print Assumptions C47_crash.
Print Assumptions C47_any_file.
Print Assumptions C48_results_partial.
Print Assumptions C48_own_partial.
Print Assumptions C48_cache_partial.
Print Assumptions C48_entries.
Print Assumptions C48_provenance.
Print Assumptions C48_progress.
Print Assumptions C48_collision_refuted.
Print Assumptions C66_stale_refuted.
