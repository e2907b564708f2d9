(** * Proofs about building a book *)
From Coq Require Import List Arith Bool Lia.
From Verif Require Import Base BookModel RunModel CacheModel EmbedModel BuildModel EmbedSpec BuildSpec RunSpec RunProofs.
From Verif Require BookSpec PropBook CacheSpec CacheProofs PropCache PropEmbed.
Import ListNotations.

(** ** The cache during a build *)

Lemma updates_run c key outcome sched : forall st ca, entries ca = p_cache st ->
  let ca' := fold_left (happen c) (updates key outcome st sched) ca in
  entries ca' = p_cache (fold_left (work key outcome) sched st) /\ data (cache_file ca') = data (cache_file ca).
Proof.
  induction sched as [|j r IH]; intros st ca E; cbn [updates fold_left]; [auto|].
  rewrite fold_left_app. unfold work at 1 3. unfold work at 2.
  destruct (nth_error (p_jobs st) j) as [[| |v|v|]|] eqn:N; cbn [fold_left].
  - destruct (aget Nat.eq_dec (p_cache st) (key j)); apply IH; auto.
  - destruct (outcome j); apply IH; auto.
  - apply (IH _ (happen c ca (ESet (key j) v))). cbn [happen set entries p_cache]. rewrite E. reflexivity.
  - apply IH; auto.
  - apply IH; auto.
  - apply IH; auto.
Qed.

Section Files.
  Context (c : codec str) (hash : list nat -> nat) (HF : CacheSpec.Faithful c).
  Notation view := (CacheProofs.view c).

  Definition ups bytes bd := updates (job_key hash bd) (job_outcome bd)
    (PState (entries (load c bytes)) (repeat Waiting (length (blocks_of bd)))) (schedule bd).

  Lemma ups_run bytes bd : let ca := fold_left (happen c) (ups bytes bd) (load c bytes) in
    entries ca = p_cache (built c hash bytes bd) /\ data (cache_file ca) = bytes.
  Proof. apply updates_run. reflexivity. Qed.

  Lemma left_not_saved bytes bd : ends bd = NotSaved -> left_file c hash bytes bd = bytes.
  Proof.
    intros E. unfold left_file. rewrite E. cbn [last_events]. rewrite app_nil_r. apply (ups_run bytes bd).
  Qed.

  Lemma ups_linked bytes bd : CacheProofs.Linked c (fold_left (happen c) (ups bytes bd) (load c bytes)) (p_cache (built c hash bytes bd), view bytes).
  Proof.
    destruct (CacheProofs.linked_run c HF bytes (ups bytes bd)) as ([s1 s2] & _ & (A & B & D)). destruct (ups_run bytes bd) as [E F]. cbn [fst snd] in *.
    rewrite E in A. rewrite F in B. subst. unfold CacheProofs.Linked. cbn [fst snd]. rewrite F. auto.
  Qed.

  Lemma left_saved bytes bd : ends bd = Saved -> view (left_file c hash bytes bd) = p_cache (built c hash bytes bd).
  Proof.
    intros E. unfold left_file. rewrite E. cbn [last_events]. rewrite fold_left_app. cbn [fold_left].
    destruct (CacheProofs.linked_step c HF _ _ ESave (ups_linked bytes bd)) as (s & I & (_ & L & _)).
    inversion I; subst. exact L.
  Qed.

  Lemma left_any bytes bd : view (left_file c hash bytes bd) = p_cache (built c hash bytes bd) \/
    view (left_file c hash bytes bd) = view bytes \/ view (left_file c hash bytes bd) = [].
  Proof.
    destruct (ends bd) as [| |n] eqn:E.
    - left. apply left_saved; auto.
    - right. left. rewrite left_not_saved; auto.
    - unfold left_file. rewrite E. cbn [last_events]. rewrite fold_left_app. cbn [fold_left].
      destruct (CacheProofs.linked_step c HF _ _ (ECrash n) (ups_linked bytes bd)) as (s & I & (_ & L & _)).
      fold (ups bytes bd). rewrite L. inversion I; subst; cbn [snd]; auto.
  Qed.

  (** Every entry is the answer to some block. *)
  Definition Known (h : list build) (m : list (nat * str)) : Prop :=
    forall k v, aget Nat.eq_dec m k = Some v ->
      exists bd j b a, In bd h /\ nth_error (blocks_of bd) j = Some b /\ run_aquascope (around bd j) b = inr a /\
        v = text bd j a /\ k = hash (hash_stream b).

  Lemma known_more h h' m : (forall x, In x h -> In x h') -> Known h m -> Known h' m.
  Proof. intros S K k v G. destruct (K k v G) as (bd & j & b & a & I & R). exists bd, j, b, a. auto. Qed.

  Lemma outcome_known bd i v : i < length (blocks_of bd) -> job_outcome bd i = Some v ->
    exists b a, nth_error (blocks_of bd) i = Some b /\ run_aquascope (around bd i) b = inr a /\ v = text bd i a /\ job_key hash bd i = hash (hash_stream b).
  Proof.
    intros L. unfold job_outcome, job_key. destruct (nth_error (blocks_of bd) i) as [b|]; [|discriminate].
    destruct (run_aquascope (around bd i) b) as [er|a] eqn:R; [discriminate|]. intros [= <-]. exists b, a. auto.
  Qed.

  Lemma known_built h bytes bd : Known h (view bytes) -> Known (h ++ [bd]) (p_cache (built c hash bytes bd)).
  Proof.
    intros K k v G. unfold built in G. apply PropCache.C48_entries in G as [G|(i & L & <- & O)].
    - destruct (K k v G) as (bd' & j & b & a & I & R). exists bd', j, b, a. split; [apply in_or_app; auto|auto].
    - destruct (outcome_known bd i v L O) as (b & a & N & R & -> & E). exists bd, i, b, a. rewrite E. split; [apply in_or_app; cbn; auto|auto].
  Qed.

  Lemma known_left h bytes bd : Known h (view bytes) -> Known (h ++ [bd]) (view (left_file c hash bytes bd)).
  Proof.
    intros K. destruct (left_any bytes bd) as [->|[->| ->]].
    - apply known_built; auto.
    - apply (known_more h); auto. intros x I. apply in_or_app. auto.
    - intros k v G. discriminate G.
  Qed.

  Lemma known_by b0 : Fresh c b0 -> forall h, Known h (view (left_by c hash b0 h)).
  Proof.
    intros F. induction h as [|bd h IH] using rev_ind.
    - intros k v G. unfold CacheProofs.view, load in G. cbn [entries left_by fold_left] in G.
      destruct F as [->|F]; [discriminate G|]. rewrite F in G. destruct (length b0 =? 0); discriminate G.
    - unfold left_by. rewrite fold_left_app. cbn [fold_left]. apply known_left. exact IH.
  Qed.

  Lemma done_known b0 pre bd j b v : Fresh c b0 -> NoCollision hash (pre ++ [bd]) -> nth_error (blocks_of bd) j = Some b ->
    nth_error (p_jobs (built c hash (left_by c hash b0 pre) bd)) j = Some (Done v) ->
    exists bd' j' b' a, In bd' (pre ++ [bd]) /\ nth_error (blocks_of bd') j' = Some b' /\ run_aquascope (around bd' j') b' = inr a /\
      v = text bd' j' a /\ Alike b b'.
  Proof.
    intros F NC N D. unfold built in D. apply PropCache.C48_provenance in D.
    assert (E : job_key hash bd j = hash (hash_stream b)) by (unfold job_key; rewrite N; reflexivity).
    assert (X : exists bd' j' b' a, In bd' (pre ++ [bd]) /\ nth_error (blocks_of bd') j' = Some b' /\ run_aquascope (around bd' j') b' = inr a /\
      v = text bd' j' a /\ hash (hash_stream b) = hash (hash_stream b')).
    { destruct D as [D|(i & L & K & O)].
      - destruct (known_by b0 F pre _ _ D) as (bd' & j' & b' & a & I & N' & R & V & K). exists bd', j', b', a.
        split; [apply in_or_app; auto|]. repeat split; auto. congruence.
      - destruct (outcome_known bd i v L O) as (b' & a & N' & R & V & K'). exists bd, i, b', a.
        split; [apply in_or_app; cbn; auto|]. repeat split; auto. congruence. }
    destruct X as (bd' & j' & b' & a & I & N' & R & V & K). exists bd', j', b', a. do 4 (split; [auto|]).
    apply (NC bd bd' b b'); auto.
    - apply in_or_app. cbn. auto.
    - eapply nth_error_In; eauto.
    - eapply nth_error_In; eauto.
  Qed.
End Files.

(** ** The element *)

Lemma trim_end_id s : (forall p w, s = p ++ [w] -> ~ BookSpec.White w) -> trim_end s = s.
Proof.
  intros H. unfold trim_end. destruct s as [|w p _] using rev_ind; [reflexivity|].
  rewrite rev_app_distr. cbn [rev app trim_start]. destruct (is_white w) eqn:W.
  - apply PropBook.white_iff in W. elim (H p w eq_refl W).
  - cbn [rev]. rewrite rev_involutive. reflexivity.
Qed.

Lemma forall_aset l k v : Forall Distinct (map snd l) -> Distinct v -> Forall Distinct (map snd (aset str_eqd l k v)).
Proof.
  intros F D. induction l as [|[k' v'] l IH]; cbn [aset map snd]; [auto|]. cbn [map snd] in F. inversion F; subst.
  destruct (str_eqd k k'); cbn [map snd]; auto.
Qed.

Lemma run_distinct e b m : (forall s v, from_json e s = Some v -> Distinct v) -> run_aquascope e b = inr m -> Distinct (JObj m).
Proof.
  intros H R. apply run_aquascope_ok in R as [_ R]. pose proof (run_ops_ok _ _ _ _ _ _ R) as (_ & _ & _ & ND).
  constructor; [apply ND; constructor|]. clear ND.
  assert (X : forall ops i acc, run_ops e b i ops acc = inr m -> Forall Distinct (map snd acc) -> Forall Distinct (map snd m)).
  { induction ops as [|o ops IH]; intros i acc E F; cbn [run_ops] in E.
    - injection E as <-. auto.
    - destruct (run_op e b i o) as [er|j] eqn:O; [discriminate E|]. apply (IH _ _ E). apply forall_aset; auto.
      unfold run_op in O. destruct (exec e i (run_args b o)) as [|secs out err ok]; [discriminate O|].
      destruct (ends_in_time e secs out err); [|discriminate O]. destruct ok; [|discriminate O]. cbn [negb] in O.
      destruct (from_utf8 e out) as [s|]; [|discriminate O]. destruct (from_json e s) as [j0|] eqn:J; [|discriminate O].
      destruct (is_err j0); [discriminate O|]. destruct (is_build_error j0); [discriminate O|]. injection O as <-. eauto. }
  apply (X _ _ _ R). constructor.
Qed.

Lemma run_answers e b m op : run_aquascope e b = inr m -> In op (operations b) -> exists j, aget str_eqd m op = Some j.
Proof.
  intros R I. apply run_aquascope_ok in R as [_ R]. pose proof (run_ops_ok _ _ _ _ _ _ R) as (_ & _ & A & _).
  destruct (last_at _ _ I) as [i L]. destruct (A op i L) as (j & _ & G). eauto.
Qed.

Lemma in_blocks bd b : In b (blocks_of bd) -> exists content r, In (r, b) (parse_all content).
Proof.
  unfold blocks_of. intros I. apply in_flat_map in I as (content & _ & I). unfold chapter_blocks in I.
  apply in_map_iff in I as ([r b'] & <- & I). eauto.
Qed.

Lemma element_shown read write parse bd st j b v text m : Faithful write parse -> Readable read text m -> Distinct (JObj m) ->
  nth_error (blocks_of bd) j = Some b -> nth_error (p_jobs st) j = Some (Done v) -> v = text m -> code b <> [] ->
  (forall op, In op (operations b) -> exists j, aget str_eqd m op = Some j) ->
  exists attrs e, element read write bd st j = Some attrs /\ init_embed parse attrs = Some e /\ Shows b m e.
Proof.
  intros F R D N J -> C A. destruct (R D) as (W & rs & Rd & Drs & S).
  unfold element. rewrite N, J, (trim_end_id _ W), Rd.
  destruct (in_blocks bd b (nth_error_In _ _ N)) as (content & r & I).
  destruct (PropEmbed.C105_arrives write parse content r b rs F I C Drs) as (e & E & Ec & Eo & Er & Ep).
  exists (EmbedModel.process write b rs), e. split; [auto|]. split; [auto|]. constructor; auto; [|exact (PropEmbed.C105_annotations write parse content r b rs e F I Drs E C)].
  intros op o Io. assert (Iop : In op (operations b)) by (rewrite <- Eo; apply in_map_iff; exists (op, o); auto).
  destruct (A op Iop) as [x X]. destruct (Er op o Io) as [Er1 _]. rewrite S in Er1. destruct (Er1 x X) as (x' & -> & Rx).
  exists x, x'. auto.
Qed.
