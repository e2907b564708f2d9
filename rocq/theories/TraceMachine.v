(** Proofs about the evaluator: the moved places and the frames of a state. *)
From Coq Require Import List Arith Bool Lia.
From Verif Require Import Base TraceModel TraceSpec TraceProofs.
Import ListNotations.

(** ** Moved places *)

Lemma add_place_spec mp : forall d x, d < length mp -> exists mp', add_place mp d x = Some mp' /\
  length mp' = length mp /\ (forall d', d' <> d -> nth_error mp' d' = nth_error mp d') /\
  exists s s', nth_error mp d = Some s /\ nth_error mp' d = Some s' /\ forall y, In y s' <-> In y s \/ y = x.
Proof.
  induction mp as [|s mp IH]; intros d x Hd; cbn in Hd; [lia|]. destruct d as [|d]; cbn [add_place].
  - eexists. split; [reflexivity|]. split; [reflexivity|]. split.
    + intros [|d'] N; [congruence|reflexivity].
    + exists s. eexists. split; [reflexivity|]. split; [reflexivity|]. intros y.
      destruct (memb Nat.eq_dec x s) eqn:E.
      * apply memb_In in E. split; [auto|]. intros [I| ->]; auto.
      * rewrite in_app_iff. cbn. split; intros [I|I]; auto. destruct I as [<-|[]]; auto.
  - destruct (IH d x) as (mp' & -> & Hl & Ho & s0 & s' & E1 & E2 & E3); [lia|].
    eexists. split; [reflexivity|]. split; [cbn; congruence|]. split.
    + intros [|d'] N; [reflexivity|]. cbn. apply Ho. congruence.
    + exists s0, s'. auto.
Qed.

Lemma add_moves_spec ms : forall mp d, d < length mp -> exists mp', add_moves mp (S d) ms = Some mp' /\
  length mp' = length mp /\ (forall d', d' <> d -> nth_error mp' d' = nth_error mp d') /\
  exists s s', nth_error mp d = Some s /\ nth_error mp' d = Some s' /\
    forall y, In y s' <-> In y s \/ In (OfLocal y) ms.
Proof.
  induction ms as [|[|x] ms IH]; intros mp d Hd; cbn [add_moves].
  - eexists. split; [reflexivity|]. split; [reflexivity|]. split; [auto|].
    destruct (nth_error mp d) as [s|] eqn:E; [|apply nth_error_None in E; lia].
    exists s, s. split; [auto|]. split; [auto|]. intros y. cbn. tauto.
  - destruct (IH mp d Hd) as (mp' & E & Hl & Ho & s & s' & E1 & E2 & E3).
    exists mp'. split; [auto|]. split; [auto|]. split; [auto|]. exists s, s'. split; [auto|]. split; [auto|].
    intros y. rewrite E3. cbn. split; [tauto|]. intros [I|[I|I]]; auto. discriminate.
  - destruct (add_place_spec mp d x Hd) as (mp1 & -> & Hl1 & Ho1 & s & s1 & E1 & E2 & E3).
    destruct (IH mp1 d) as (mp' & E & Hl & Ho & s1' & s' & F1 & F2 & F3); [lia|].
    exists mp'. split; [auto|]. split; [lia|]. split; [intros d' N; rewrite Ho, Ho1; auto|].
    exists s, s'. split; [auto|]. split; [auto|]. intros y. rewrite F3.
    assert (s1' = s1) by congruence. subst s1'. rewrite E3. cbn. split.
    + intros [[I| ->]|I]; auto.
    + intros [I|[I|I]]; auto. injection I as ->. auto.
Qed.

Lemma length_removelast {A} (l : list A) : length (removelast l) = length l - 1.
Proof.
  induction l as [|a [|b l] IH]; auto. cbn [removelast length]. cbn [length removelast] in IH. rewrite IH. lia.
Qed.

Lemma nth_error_removelast {A} (l : list A) d : S d < length l -> nth_error (removelast l) d = nth_error l d.
Proof.
  revert d. induction l as [|a [|b l] IH]; intros d Hd; [cbn in Hd; lia|cbn in Hd; lia|].
  destruct d; [reflexivity|]. change (removelast (a :: b :: l)) with (a :: removelast (b :: l)).
  change (nth_error (removelast (b :: l)) d = nth_error (b :: l) d). apply IH. cbn in *. lia.
Qed.

Lemma StackMove_length a b : StackMove a b ->
  length b = S (length a) \/ length b = length a \/ length a = S (length b).
Proof. intros []; rewrite ?app_length; cbn; lia. Qed.

(** What [handle_moves] does. *)
Lemma handle_moves_spec {M ER V} (mi : miri M ER V) mp m m' : Proper mi ->
  StackMove (mi_stack mi m) (mi_stack mi m') -> length mp = length (mi_stack mi m) ->
  handle_moves mi mp m m' <> Crash /\
  forall mp', handle_moves mi mp m m' = Done mp' ->
    length mp' = length (mi_stack mi m') /\
    forall d, d < length (mi_stack mi m') -> exists s', nth_error mp' d = Some s' /\
      forall x, In x s' <->
        d < length (mi_stack mi m) /\
        ((length (mi_stack mi m) = S d /\ length (mi_stack mi m') = S d /\
          exists ms, mi_moves mi m m' = inr ms /\ In (OfLocal x) ms)
         \/ exists s, nth_error mp d = Some s /\ In x s).
Proof.
  intros [_ P] SM Hl. pose proof (StackMove_length _ _ SM) as L. unfold handle_moves.
  destruct (length (mi_stack mi m') ?= length (mi_stack mi m)) eqn:C.
  - apply Nat.compare_eq in C. destruct (mi_moves mi m m') as [e|ms] eqn:Em.
    { split; [discriminate|]. intros mp' X. discriminate. }
    destruct (length (mi_stack mi m)) as [|k] eqn:En.
    + apply length_zero_iff_nil in En. rewrite (P _ _ En) in Em. injection Em as <-.
      cbn. split; [discriminate|]. intros mp' [= <-]. split; [lia|]. intros d Hd. lia.
    + destruct (add_moves_spec ms mp k) as (mp1 & -> & Hl1 & Ho & s & s' & E1 & E2 & E3); [lia|].
      split; [discriminate|]. intros mp' [= <-]. split; [lia|]. intros d Hd. rewrite C in *.
      destruct (Nat.eq_dec d k) as [->|N].
      * exists s'. split; [auto|]. intros x. rewrite E3. split.
        -- intros [I|I]; split; eauto; try lia. left. eauto.
        -- intros [_ [(_ & _ & ms' & [= <-] & I)|(s0 & E & I)]]; auto. left. congruence.
      * rewrite Ho by auto. destruct (nth_error mp d) as [s0|] eqn:E0; [|apply nth_error_None in E0; lia].
        exists s0. split; [auto|]. intros x. split.
        -- intros I. split; [lia|]. eauto.
        -- intros [_ [(X & _)|(s1 & [= <-] & I)]]; auto. lia.
  - apply Nat.compare_lt_iff in C. split; [discriminate|]. intros mp' [= <-]. unfold pop_frame.
    rewrite length_removelast. split; [lia|]. intros d Hd. rewrite nth_error_removelast by lia.
    destruct (nth_error mp d) as [s0|] eqn:E0; [|apply nth_error_None in E0; lia].
    exists s0. split; [auto|]. intros x. split.
    + intros I. split; [lia|]. eauto.
    + intros [_ [(X & Y & _)|(s1 & [= <-] & I)]]; auto. lia.
  - apply Nat.compare_gt_iff in C. split; [discriminate|]. intros mp' [= <-]. unfold push_frame.
    rewrite app_length. cbn. split; [lia|]. intros d Hd.
    destruct (Nat.eq_dec d (length mp)) as [->|N].
    + rewrite nth_error_app2, Nat.sub_diag by lia. exists []. split; [auto|]. intros x. cbn. split; [intros []|]. lia.
    + rewrite nth_error_app1 by lia. destruct (nth_error mp d) as [s0|] eqn:E0; [|apply nth_error_None in E0; lia].
      exists s0. split; [auto|]. intros x. split.
      * intros I. split; [lia|]. eauto.
      * intros [_ [(X & Y & _)|(s1 & [= <-] & I)]]; auto. lia.
Qed.

Lemma round_step {M ER V} (mi : miri M ER V) mp m out mp' m' more :
  round mi mp m = Done (out, mp', m', more) ->
  mi_step mi m = inr (m', more) /\ handle_moves mi mp m m' = Done mp'.
Proof.
  unfold round. destruct (mi_step mi m) as [e|[m1 more1]]; [discriminate|].
  destruct (handle_moves mi mp m m1) as [e| |mp1] eqn:Eh; try discriminate.
  destruct (new_loc mi _ _) as [[loc|]|]; try discriminate.
  - destruct (build_frames mi mp1 m1 loc _) as [e| |[|fr frs]]; try discriminate;
      intros [= <- <- <- <-]; auto.
  - intros [= <- <- <- <-]; auto.
Qed.

Lemma Reached_aligned {M ER V} (mi : miri M ER V) m0 h mp m : Proper mi -> Reached mi m0 h mp m ->
  length mp = length (mi_stack mi m).
Proof.
  intros P R. induction R as [L|h mp m out mp' m' more R IH Er]; [auto|].
  apply round_step in Er as [Es Eh]. destruct (handle_moves_spec mi mp m m' P) as [_ X]; auto.
  { destruct P as [P _]. eapply P; eauto. }
  apply X; auto.
Qed.

Lemma Reached_moved {M ER V} (mi : miri M ER V) m0 h mp m : Proper mi -> Reached mi m0 h mp m ->
  forall d, d < length (mi_stack mi m) -> exists s, nth_error mp d = Some s /\
    forall x, In x s <-> MovedSince mi h d x.
Proof.
  intros P R. induction R as [L|h mp m out mp' m' more R IH Er]; intros d Hd.
  - assert (d = 0) by lia. subst. exists []. split; [auto|]. intros x. cbn. tauto.
  - pose proof (Reached_aligned mi m0 h mp m P R) as Al.
    apply round_step in Er as [Es Eh]. destruct (handle_moves_spec mi mp m m' P) as [_ X]; auto.
    { destruct P as [P _]. eapply P; eauto. }
    destruct (X mp' Eh) as [Hl Y]. destruct (Y d Hd) as (s' & E' & Z). exists s'. split; [auto|].
    intros x. rewrite Z. cbn [MovedSince]. split; intros [A [B|B]]; split; auto.
    + destruct (IH d A) as (s & E1 & W). destruct B as (s1 & E2 & I). assert (s1 = s) by congruence. subst.
      right. apply W. auto.
    + destruct (IH d A) as (s & E1 & W). right. exists s. split; [auto|]. apply W. auto.
Qed.

(** ** Frames *)

(** Local frames when the stack has [n] frames and [st] starts at depth [i]. *)
Definition lfs_from (n i : nat) (st : list raw_frame) : list local_frame :=
  map (fun gf => LocalFrame (fst gf =? n - 1) (fst gf) (snd gf))
      (filter (fun gf => rf_local (snd gf)) (number i st)).

Lemma number_app {A} (a b : list A) i : number i (a ++ b) = number i a ++ number (i + length a) b.
Proof.
  revert i. induction a as [|x a IH]; intros i; cbn; [rewrite Nat.add_0_r; auto|].
  rewrite IH. cbn. rewrite Nat.add_succ_r. auto.
Qed.

Lemma lfs_app n i a b : lfs_from n i (a ++ b) = lfs_from n i a ++ lfs_from n (i + length a) b.
Proof. unfold lfs_from. rewrite number_app, filter_app, map_app. auto. Qed.

Lemma lfs_one n i f : lfs_from n i [f] = if rf_local f then [LocalFrame (i =? n - 1) i f] else [].
Proof. unfold lfs_from. cbn. destruct (rf_local f); auto. Qed.

Lemma number_spec {A} (l : list A) i k x : In (k, x) (number i l) <-> i <= k /\ nth_error l (k - i) = Some x.
Proof.
  revert i. induction l as [|y l IH]; intros i; cbn.
  - split; [intros []|]. intros [_ X]. destruct (k - i); discriminate.
  - rewrite IH. split.
    + intros [[= -> ->]|[L E]].
      * rewrite Nat.sub_diag. auto.
      * split; [lia|]. replace (k - i) with (S (k - S i)) by lia. auto.
    + intros [L E]. destruct (Nat.eq_dec k i) as [->|N].
      * rewrite Nat.sub_diag in E. injection E as ->. auto.
      * right. split; [lia|]. replace (k - i) with (S (k - S i)) in E by lia. auto.
Qed.

Lemma lfs_global n i st : forall pre, length pre = i ->
  map lf_global (lfs_from n i st) =
  filter (fun d => match nth_error (pre ++ st) d with Some f => rf_local f | None => false end) (seq i (length st)).
Proof.
  revert i. induction st as [|f st IH]; intros i pre Hp; cbn; auto.
  rewrite nth_error_app2, Hp, Nat.sub_diag by lia. cbn.
  specialize (IH (S i) (pre ++ [f])). rewrite <- app_assoc in IH. cbn in IH.
  rewrite app_length, Hp in IH. cbn in IH. rewrite Nat.add_1_r in IH. specialize (IH eq_refl).
  unfold lfs_from in *. cbn. destruct (rf_local f); cbn; rewrite IH; auto.
Qed.

Lemma local_frames_global st : map lf_global (local_frames st) = user_depths st.
Proof. exact (lfs_global (length st) 0 st [] eq_refl). Qed.

Lemma local_frames_In st lf : In lf (local_frames st) ->
  nth_error st (lf_global lf) = Some (lf_frame lf) /\ lf_current lf = (lf_global lf =? length st - 1) /\
  rf_local (lf_frame lf) = true.
Proof.
  unfold local_frames. intros I. apply in_map_iff in I as ([k f] & <- & I). apply filter_In in I as [I Lc].
  apply number_spec in I as [_ E]. rewrite Nat.sub_0_r in E. auto.
Qed.

Lemma last_opt_app {A} (l : list A) x : last_opt (l ++ [x]) = Some x.
Proof. unfold last_opt. rewrite rev_app_distr. auto. Qed.

Lemma lfs_length n n' i st : length (lfs_from n i st) = length (lfs_from n' i st).
Proof. unfold lfs_from. rewrite !map_length. auto. Qed.

Lemma lfs_frames n i st : map lf_frame (lfs_from n i st) = filter rf_local st.
Proof.
  unfold lfs_from. rewrite map_map. cbn. revert i. induction st as [|f st IH]; intros i; cbn; auto.
  destruct (rf_local f); cbn; rewrite IH; auto.
Qed.

(** The part of the location computation that matters: the functions and
    locations of the user's frames. *)
Definition uf (st : list raw_frame) := filter rf_local st.

Lemma local_frames_uf st : map lf_frame (local_frames st) = uf st.
Proof. apply (lfs_frames (length st) 0 st). Qed.

Lemma last_opt_map {A B} (f : A -> B) l : last_opt (map f l) = match last_opt l with Some x => Some (f x) | None => None end.
Proof. unfold last_opt. rewrite <- map_rev. destruct (rev l); auto. Qed.

Definition loc_of (f : raw_frame) : mirloc := (rf_fun f, rf_at f).

Lemma current_local_loc_uf st : current_local_loc (local_frames st) =
  match last_opt (uf st) with Some f => Some (loc_of f) | None => None end.
Proof. unfold current_local_loc. rewrite <- local_frames_uf, last_opt_map. destruct (last_opt (local_frames st)); auto. Qed.

Lemma caller_loc_uf st : caller_loc (local_frames st) =
  match rev (uf st) with _ :: f :: _ => Some (rf_at f) | _ => None end.
Proof.
  unfold caller_loc. rewrite <- local_frames_uf, <- map_rev. destruct (rev (local_frames st)) as [|a [|b l]]; auto.
Qed.

Definition new_loc_uf {M ER V} (mi : miri M ER V) (before after : list raw_frame) : option (option mirloc) :=
  match length after ?= length before with
  | Gt => match last_opt after with
          | None => None
          | Some f => Some (Some (rf_fun f, AtSpan (mi_header mi (rf_fun f))))
          end
  | Lt => match rev before with
          | _ :: c :: _ => match last_opt after with None => None | Some f => Some (Some (rf_fun f, rf_at c)) end
          | _ => Some (match last_opt before with Some f => Some (loc_of f) | None => None end)
          end
  | Eq => Some (match last_opt before with Some f => Some (loc_of f) | None => None end)
  end.

Lemma new_loc_uf_eq {M ER V} (mi : miri M ER V) a b :
  new_loc mi (local_frames a) (local_frames b) = new_loc_uf mi (uf a) (uf b).
Proof.
  unfold new_loc, new_loc_uf. rewrite caller_loc_uf, current_local_loc_uf, <- !local_frames_uf, !map_length.
  destruct (length (local_frames b) ?= length (local_frames a)); auto.
  - destruct (rev (map lf_frame (local_frames a))) as [|x [|y l]]; auto. rewrite last_opt_map.
    destruct (last_opt (local_frames b)); auto.
  - rewrite last_opt_map. destruct (last_opt (local_frames b)); auto.
Qed.

Lemma uf_app a b : uf (a ++ b) = uf a ++ uf b.
Proof. apply filter_app. Qed.

Lemma uf_one f : uf [f] = if rf_local f then [f] else [].
Proof. reflexivity. Qed.

Lemma uf_two f g : uf [f; g] = uf [f] ++ uf [g].
Proof. exact (uf_app [f] [g]). Qed.

(** The location of the new state. *)
Lemma new_loc_spec {M ER V} (mi : miri M ER V) a b : StackMove a b ->
  (uf b = [] -> exists r, new_loc_uf mi (uf a) (uf b) = Some r) /\
  (uf b <> [] -> exists loc, new_loc_uf mi (uf a) (uf b) = Some (Some loc) /\
     forall base f, b = base ++ [f] -> rf_local f = true ->
       fst loc = rf_fun f /\ ShownAt (mi_header mi) a b (snd loc)).
Proof.
  intros SM. destruct SM as [base f f' [F1 F2]|base f f' g [F1 F2]|base c c' f [F1 F2]|f|].
  - rewrite !uf_app, !uf_one, F2. unfold new_loc_uf. destruct (rf_local f') eqn:Lf.
    + rewrite !app_length. cbn [length]. rewrite Nat.compare_refl, last_opt_app. split; [eauto|]. intros _.
      eexists. split; [reflexivity|]. intros base0 f0 E L0. apply app_inj_tail in E as [<- <-]. cbn. split; [auto|].
      apply shown_stay. split; congruence.
    + rewrite !app_nil_r, Nat.compare_refl. split; [eauto|]. intros N.
      destruct (uf base) as [|x l] eqn:Eb using rev_ind; [congruence|]. clear IHl. rewrite last_opt_app.
      eexists. split; [reflexivity|]. intros base0 f0 E L0. apply app_inj_tail in E as [<- <-]. congruence.
  - rewrite !uf_app, uf_two, !uf_one, F2. unfold new_loc_uf. destruct (rf_local g) eqn:Lg.
    + assert (C : (length (uf base ++ (if rf_local f' then [f'] else []) ++ [g]) ?= 
              length (uf base ++ (if rf_local f' then [f] else []))) = Gt).
      { apply Nat.compare_gt_iff. destruct (rf_local f'); rewrite !app_length; cbn; lia. }
      rewrite C, app_assoc, last_opt_app. split; [eauto|]. intros _. eexists. split; [reflexivity|].
      intros base0 f0 E L0. change [f'; g] with ([f'] ++ [g]) in E. rewrite app_assoc in E.
      apply app_inj_tail in E as [<- <-]. cbn. split; [auto|].
      apply shown_call. split; congruence.
    + rewrite app_nil_r.
      assert (C : (length (uf base ++ (if rf_local f' then [f'] else [])) ?= 
              length (uf base ++ (if rf_local f' then [f] else []))) = Eq).
      { apply Nat.compare_eq_iff. destruct (rf_local f'); rewrite !app_length; cbn; lia. }
      rewrite C. split; [eauto|]. intros N.
      assert (X : exists y, last_opt (uf base ++ (if rf_local f' then [f] else [])) = Some y).
      { destruct (rf_local f'); [rewrite last_opt_app; eauto|]. rewrite app_nil_r in *.
        destruct (uf base) as [|x l] eqn:Eb using rev_ind; [congruence|]. rewrite last_opt_app. eauto. }
      destruct X as (y & ->). eexists. split; [reflexivity|].
      intros base0 f0 E L0. change [f'; g] with ([f'] ++ [g]) in E. rewrite app_assoc in E.
      apply app_inj_tail in E as [<- <-]. congruence.
  - rewrite !uf_app, uf_two, !uf_one, F2. unfold new_loc_uf. destruct (rf_local f) eqn:Lf.
    + assert (C : (length (uf base ++ (if rf_local c' then [c'] else [])) ?=
              length (uf base ++ (if rf_local c' then [c] else []) ++ [f])) = Lt).
      { apply Nat.compare_lt_iff. destruct (rf_local c'); rewrite !app_length; cbn; lia. }
      rewrite C, app_assoc, rev_app_distr. cbn [rev app].
      destruct (rf_local c') eqn:Lc.
      * rewrite rev_app_distr. cbn [rev app]. rewrite last_opt_app. split; [eauto|]. intros _. eexists. split; [reflexivity|].
        intros base0 f0 E L0. apply app_inj_tail in E as [<- <-]. cbn. split; [auto|].
        apply shown_return. split; congruence.
      * rewrite !app_nil_r. destruct (uf base) as [|x l] eqn:Eb using rev_ind.
        -- cbn. split; [eauto|congruence].
        -- rewrite rev_app_distr. cbn [rev app]. rewrite last_opt_app.
           split; [eauto|]. intros _. eexists. split; [reflexivity|].
           intros base0 f0 E L0. apply app_inj_tail in E as [<- <-]. congruence.
    + rewrite app_nil_r.
      assert (C : (length (uf base ++ (if rf_local c' then [c'] else [])) ?=
              length (uf base ++ (if rf_local c' then [c] else []))) = Eq).
      { apply Nat.compare_eq_iff. destruct (rf_local c'); rewrite !app_length; cbn; lia. }
      rewrite C. split; [eauto|]. intros N. destruct (rf_local c') eqn:Lc.
      * rewrite last_opt_app. eexists. split; [reflexivity|].
        intros base0 f0 E L0. apply app_inj_tail in E as [<- <-]. cbn. split; [auto|].
        apply shown_return. split; congruence.
      * rewrite !app_nil_r in *. destruct (uf base) as [|x l] eqn:Eb using rev_ind; [congruence|].
        rewrite last_opt_app. eexists. split; [reflexivity|].
        intros base0 f0 E L0. apply app_inj_tail in E as [<- <-]. congruence.
  - cbn [uf filter]. split; [|congruence]. intros _. destruct (rf_local f); cbn; eauto.
  - cbn. split; [eauto|congruence].
Qed.

Lemma build_frames_spec {M ER V} (mi : miri M ER V) mp m loc lfs :
  (forall lf, In lf lfs -> lf_global lf < length mp) ->
  build_frames mi mp m loc lfs <> Crash /\
  forall frs, build_frames mi mp m loc lfs = Done frs ->
    Forall2 (fun lf fr => exists set, nth_error mp (lf_global lf) = Some set /\
      mi_info mi m (lf_global lf) set = inr (f_info fr) /\
      f_loc fr = if lf_current lf then loc else loc_of (lf_frame lf)) lfs frs.
Proof.
  induction lfs as [|lf lfs IH]; intros B; cbn.
  - split; [discriminate|]. intros frs [= <-]. constructor.
  - destruct IH as [N F]. { intros x I. apply B. right; auto. }
    unfold build_frame. destruct (nth_error mp (lf_global lf)) as [set|] eqn:E.
    2:{ apply nth_error_None in E. specialize (B lf (or_introl eq_refl)). lia. }
    destruct (mi_info mi m (lf_global lf) set) as [e|v] eqn:Ei; [split; [discriminate|intros ? X; discriminate]|].
    destruct (build_frames mi mp m loc lfs) as [e| |frs0] eqn:Eb; [split; [discriminate|intros ? X; discriminate]|congruence|].
    split; [discriminate|]. intros frs [= <-]. constructor; auto. exists set. cbn. auto.
Qed.

Lemma uf_user_depths st : length (uf st) = length (user_depths st).
Proof. rewrite <- local_frames_global, <- local_frames_uf, !map_length. auto. Qed.

Lemma round_spec {M ER V} (mi : miri M ER V) m0 h mp m : Proper mi -> Reached mi m0 h mp m ->
  round mi mp m <> Crash /\
  forall out mp' m' more, round mi mp m = Done (out, mp', m', more) ->
    (out = None <-> user_depths (mi_stack mi m') = []) /\
    forall frs, out = Some frs -> Forall2 (Shows mi h m m') (user_depths (mi_stack mi m')) frs.
Proof.
  intros P R.
  assert (Mv : forall mp1 m1 more1, mi_step mi m = inr (m1, more1) -> handle_moves mi mp m m1 = Done mp1 ->
    forall d set, d < length (mi_stack mi m1) -> nth_error mp1 d = Some set ->
    forall x, In x set <-> MovedSince mi ((m, m1) :: h) d x).
  { intros mp1 m1 more1 Es Eh d set Hd En x.
    destruct (handle_moves_spec mi mp m m1 P) as [_ X].
    { destruct P as [P _]. eapply P; eauto. }
    { eapply Reached_aligned; eauto. }
    destruct (X mp1 Eh) as [_ Y]. destruct (Y d Hd) as (s' & E' & Z). assert (s' = set) by congruence. subst s'.
    rewrite Z. cbn [MovedSince]. split; intros [A [B|B]]; split; auto;
      destruct (Reached_moved mi m0 h mp m P R d A) as (s & E1 & W).
    - destruct B as (s1 & E2 & I). assert (s1 = s) by congruence. subst. right. apply W. auto.
    - right. exists s. split; [auto|]. apply W. auto. }
  pose proof (Reached_aligned mi m0 h mp m P R) as Al. unfold round.
  destruct (mi_step mi m) as [e|[m1 more1]] eqn:Es; [split; [discriminate|intros ? ? ? ? X; discriminate]|].
  assert (SM : StackMove (mi_stack mi m) (mi_stack mi m1)) by (destruct P as [P _]; eapply P; eauto).
  destruct (handle_moves_spec mi mp m m1 P SM Al) as [NC HM].
  destruct (handle_moves mi mp m m1) as [e| |mp1] eqn:Eh; [split; [discriminate|intros ? ? ? ? X; discriminate]|congruence|].
  destruct (HM mp1 eq_refl) as [Al1 _]. rewrite new_loc_uf_eq.
  destruct (new_loc_spec mi _ _ SM) as [NL0 NL1].
  destruct (uf (mi_stack mi m1)) as [|u us] eqn:Eu.
  - assert (Ed : user_depths (mi_stack mi m1) = []).
    { apply length_zero_iff_nil. rewrite <- uf_user_depths, Eu. auto. }
    assert (El : local_frames (mi_stack mi m1) = []).
    { apply length_zero_iff_nil. rewrite <- (map_length lf_frame), local_frames_uf, Eu. auto. }
    destruct (NL0 eq_refl) as (r & ->). rewrite El. cbn [build_frames]. destruct r as [loc|].
    + split; [discriminate|]. intros out mp' m' more [= <- <- <- <-]. split; [rewrite Ed; tauto|]. intros frs X. discriminate.
    + split; [discriminate|]. intros out mp' m' more [= <- <- <- <-]. split; [rewrite Ed; tauto|]. intros frs X. discriminate.
  - destruct NL1 as (loc & -> & Hloc); [discriminate|].
    destruct (build_frames_spec mi mp1 m1 loc (local_frames (mi_stack mi m1))) as [NB FB].
    { intros lf I. apply local_frames_In in I as (E & _). rewrite Al1. apply nth_error_Some. congruence. }
    destruct (build_frames mi mp1 m1 loc (local_frames (mi_stack mi m1))) as [e| |frs] eqn:Eb;
      [split; [discriminate|intros ? ? ? ? X; discriminate]|congruence|].
    specialize (FB frs eq_refl).
    destruct frs as [|fr0 frs0].
    { exfalso. inversion FB as [X|]. assert (Y : length (uf (mi_stack mi m1)) = 0).
      { rewrite <- local_frames_uf, map_length, <- X. auto. }
      rewrite Eu in Y. discriminate. }
    split; [discriminate|]. intros out mp' m' more [= <- <- <- <-]. split.
    + split; [discriminate|]. intros Ed. exfalso. assert (Y : length (uf (mi_stack mi m1)) = 0).
      { rewrite uf_user_depths, Ed. auto. }
      rewrite Eu in Y. discriminate.
    + intros frs [= <-]. rewrite <- local_frames_global.
      assert (Al2 : Forall (fun lf => In lf (local_frames (mi_stack mi m1))) (local_frames (mi_stack mi m1))).
      { apply Forall_forall. auto. }
      revert FB Al2. generalize (fr0 :: frs0) as frs. generalize (local_frames (mi_stack mi m1)) at 1 3 4 as lfs.
      intros lfs frs FB. induction FB as [|lf fr lfs frs (set & E1 & E2 & E3) FB IH]; intros Al2; cbn; constructor.
      * inversion Al2 as [|? ? I _]; subst. apply local_frames_In in I as (F1 & F2 & F3).
        assert (Hlt : lf_global lf < length (mi_stack mi m1)) by (apply nth_error_Some; congruence).
        exists (lf_frame lf), set. split; [exact F1|]. split; [exact (Mv _ _ _ eq_refl Eh _ _ Hlt E1)|]. split; [exact E2|].
        destruct (lf_current lf) eqn:Ec.
        -- symmetry in F2. apply Nat.eqb_eq in F2.
           assert (Sp : exists base, mi_stack mi m1 = base ++ [lf_frame lf]).
           { destruct (mi_stack mi m1) as [|x l] eqn:Em using rev_ind; [cbn in Hlt; lia|].
             rewrite app_length in F2. cbn in F2. replace (length l + 1 - 1) with (length l) in F2 by lia.
             rewrite F2, nth_error_app2, Nat.sub_diag in F1 by lia. injection F1 as ->. eauto. }
           destruct Sp as (base & Sp). destruct (Hloc base (lf_frame lf) Sp F3) as [G1 G2].
           rewrite E3. split; [auto|]. split; [lia|]. intros _. auto.
        -- symmetry in F2. apply Nat.eqb_neq in F2. rewrite E3. cbn. split; [auto|]. split; [auto|]. lia.
      * apply IH. inversion Al2; auto.
Qed.

(** ** The whole evaluation *)

Lemma build_frames_fault {M ER V} (mi : miri M ER V) mp m loc lfs e :
  build_frames mi mp m loc lfs = Fault e -> exists lf set, In lf lfs /\ mi_info mi m (lf_global lf) set = inl e.
Proof.
  induction lfs as [|lf lfs IH]; cbn; [discriminate|]. unfold build_frame.
  destruct (nth_error mp (lf_global lf)) as [set|] eqn:En; [|discriminate].
  destruct (mi_info mi m (lf_global lf) set) as [e0|v] eqn:Ei.
  - intros [= <-]. exists lf, set. auto.
  - destruct (build_frames mi mp m loc lfs) as [e1| |frs]; try discriminate. intros [= <-].
    destruct (IH eq_refl) as (lf' & set' & I & X). exists lf', set'. auto.
Qed.

Lemma round_fault {M ER V} (mi : miri M ER V) h mp m e : round mi mp m = Fault e -> Trace mi h m [] (Some e).
Proof.
  unfold round. destruct (mi_step mi m) as [e1|[m1 more1]] eqn:Es.
  { intros [= <-]. apply trace_fault_step. auto. }
  destruct (handle_moves mi mp m m1) as [e1| |mp1] eqn:Eh; try discriminate.
  { intros [= <-]. unfold handle_moves in Eh.
    destruct (length (mi_stack mi m1) ?= length (mi_stack mi m)); try discriminate.
    destruct (mi_moves mi m m1) as [e2|ms] eqn:Em.
    - injection Eh as <-. eapply trace_fault_move; eauto.
    - destruct (add_moves mp (length (mi_stack mi m)) ms); discriminate. }
  destruct (new_loc mi _ _) as [[loc|]|]; try discriminate.
  destruct (build_frames mi mp1 m1 loc _) as [e1| |[|fr frs]] eqn:Eb; try discriminate. intros [= <-].
  apply build_frames_fault in Eb as (lf & set & I & X).
  eapply trace_fault_read; eauto. rewrite <- local_frames_global. apply in_map. auto.
Qed.

Lemma eval_spec {M ER V} (mi : miri M ER V) m0 : Proper mi -> forall fuel h mp m, Reached mi m0 h mp m ->
  eval mi fuel mp m <> Some Crash /\
  forall steps e, eval mi fuel mp m = Some (Done (steps, e)) -> Trace mi h m steps e.
Proof.
  intros P fuel. induction fuel as [|k IH]; intros h mp m R; cbn; [split; [discriminate|intros ? ? X; discriminate]|].
  destruct (round_spec mi m0 h mp m P R) as [NC RS].
  destruct (round mi mp m) as [e| |[[[out mp'] m'] more]] eqn:Er.
  - split; [discriminate|]. intros steps e' [= <- <-]. eapply round_fault; eauto.
  - congruence.
  - assert (R' : Reached mi m0 ((m, m') :: h) mp' m') by (eapply reached_next; eauto).
    destruct (IH _ _ _ R') as [NC' F].
    destruct (RS _ _ _ _ eq_refl) as [RS1 RS2]. apply round_step in Er as [Es _].
    assert (Em : Emits mi h m m' (match out with Some fs => [fs] | None => [] end)).
    { destruct out as [fs|].
      - right. split; [intros X; apply RS1 in X; discriminate|]. exists fs. auto.
      - left. split; [apply RS1; auto|auto]. }
    destruct more.
    + destruct (eval mi k mp' m') as [[[]| |[rest e]]|] eqn:Ee.
      * congruence.
      * split; [discriminate|]. intros steps e' [= <- <-].
        replace (match out with Some fs => fs :: rest | None => rest end)
          with (match out with Some fs => [fs] | None => [] end ++ rest) by (destruct out; auto).
        eapply trace_more; eauto.
      * split; [discriminate|]. intros steps e' X. discriminate.
    + split; [discriminate|]. intros steps e' [= <- <-]. eapply trace_end; eauto.
Qed.

(** ** Numbers *)

Lemma aset_length_new mm a n : aget Nat.eq_dec mm a = None ->
  length (aset (V := nat) Nat.eq_dec mm a n) = S (length mm).
Proof.
  induction mm as [|[k v] mm IH]; cbn; auto. destruct (Nat.eq_dec a k); [discriminate|]. cbn. intros X. rewrite IH; auto.
Qed.

(** A map that gives numbers out in order. *)
Definition Numbering (mm : list (nat * nat)) : Prop :=
  (forall a n, aget Nat.eq_dec mm a = Some n -> n < length mm) /\
  (forall a b n, aget Nat.eq_dec mm a = Some n -> aget Nat.eq_dec mm b = Some n -> a = b).

Lemma remap_spec mm a : Numbering mm ->
  Numbering (fst (remap mm a)) /\
  aget Nat.eq_dec (fst (remap mm a)) a = Some (snd (remap mm a)) /\
  (forall b n, aget Nat.eq_dec mm b = Some n -> aget Nat.eq_dec (fst (remap mm a)) b = Some n) /\
  length mm <= length (fst (remap mm a)) /\
  (forall n, length mm <= n -> n < length (fst (remap mm a)) -> n = snd (remap mm a)).
Proof.
  intros [N1 N2]. unfold remap. destruct (aget Nat.eq_dec mm a) as [n|] eqn:E; cbn.
  - split; [split; auto|]. split; [auto|]. split; [auto|]. split; [lia|]. lia.
  - pose proof (aset_length_new mm a (length mm) E) as L. split.
    + split.
      * intros b n. rewrite aget_aset. destruct (Nat.eq_dec b a); [intros [= <-]; lia|]. intros X. apply N1 in X. lia.
      * intros b c n. rewrite !aget_aset. destruct (Nat.eq_dec b a) as [->|Nb], (Nat.eq_dec c a) as [->|Nc]; auto.
        -- intros [= <-] X. apply N1 in X. lia.
        -- intros X [= <-]. apply N1 in X. lia.
        -- apply N2.
    + split; [rewrite aget_aset; destruct (Nat.eq_dec a a); congruence|]. split.
      * intros b n X. rewrite aget_aset. destruct (Nat.eq_dec b a) as [->|]; congruence.
      * (split; [lia|intros; lia]).
Qed.

Lemma remap_all_spec allocs : forall mm mm' ns, Numbering mm -> remap_all mm allocs = (mm', ns) ->
  Numbering mm' /\ length ns = length allocs /\
  (forall b n, aget Nat.eq_dec mm b = Some n -> aget Nat.eq_dec mm' b = Some n) /\
  (forall i a n, nth_error allocs i = Some a -> nth_error ns i = Some n -> aget Nat.eq_dec mm' a = Some n) /\
  length mm <= length mm' /\
  (forall n, length mm <= n -> n < length mm' -> In n ns).
Proof.
  induction allocs as [|a r IH]; intros mm mm' ns N E; cbn in E.
  - injection E as <- <-. split; [auto|]. split; [auto|]. split; [auto|]. split; [intros [|i] a n X; discriminate|].
    split; [lia|]. lia.
  - destruct (remap_spec mm a N) as (N1 & G1 & K1 & L1 & D1). destruct (remap mm a) as [mm1 n1]. cbn [fst snd] in *.
    destruct (remap_all mm1 r) as [mm2 ns2] eqn:E2. injection E as <- <-.
    destruct (IH mm1 mm2 ns2 N1 E2) as (N2 & L2 & K2 & G2 & LL & D2).
    split; [auto|]. split; [cbn; lia|]. split; [auto|]. split.
    + intros [|i] b n; cbn.
      * intros [= <-] [= <-]. auto.
      * apply G2.
    + split; [lia|]. intros n Hn Hn'. destruct (le_lt_dec (length mm1) n).
      * right. apply D2; auto.
      * left. symmetry. apply D1; auto.
Qed.

(** What the map holds after [seen]. *)
Definition Holds (seen : list nat) (mm : list (nat * nat)) : Prop :=
  NoDup (akeys mm) /\ (forall x, In x seen <-> In x (akeys mm)) /\
  forall x n, aget Nat.eq_dec mm x = Some n -> NumberIn seen x n.

Lemma NumberIn_app l l' a n : NumberIn l a n -> NumberIn (l ++ l') a n.
Proof. intros (pre & post & -> & N & D). exists pre, (post ++ l'). rewrite <- app_assoc. auto. Qed.

Lemma remap_Holds seen mm a : Holds seen mm ->
  Holds (seen ++ [a]) (fst (remap mm a)) /\ NumberIn (seen ++ [a]) a (snd (remap mm a)).
Proof.
  intros (N & K & G). unfold remap. destruct (aget Nat.eq_dec mm a) as [n|] eqn:E; cbn [fst snd].
  - assert (I : In a (akeys mm)) by (apply (aget_In_keys _ _ Nat.eq_dec); eauto).
    split; [|apply NumberIn_app; auto]. split; auto. split.
    + intros x. rewrite in_app_iff, K. cbn. split; [intros [X|[<-|[]]]; auto|auto].
    + intros x m X. apply NumberIn_app. auto.
  - assert (A : ~ In a seen) by (rewrite K; apply (aget_None _ _ Nat.eq_dec); auto).
    assert (P : NumberIn (seen ++ [a]) a (length mm)).
    { exists seen, []. split; auto. split; auto. exists (akeys mm). split; auto. split; [intros; symmetry; auto|]. apply map_length. }
    split; auto. split; [apply NoDup_aset; auto|]. split.
    + intros x. rewrite in_app_iff, K, !(aget_In_keys _ _ Nat.eq_dec). cbn. rewrite aget_aset.
      destruct (Nat.eq_dec x a) as [->|Nx]; [split; eauto|]. split; [intros [X|[<-|[]]]; congruence || auto|auto].
    + intros x m. rewrite aget_aset. destruct (Nat.eq_dec x a) as [->|Nx]; [intros X; injection X as <-; auto|].
      intros X. apply NumberIn_app. auto.
Qed.

Lemma remap_all_Holds allocs : forall seen mm, Holds seen mm ->
  Holds (seen ++ allocs) (fst (remap_all mm allocs)) /\
  forall i a n, nth_error allocs i = Some a -> nth_error (snd (remap_all mm allocs)) i = Some n -> NumberIn (seen ++ allocs) a n.
Proof.
  induction allocs as [|a r IH]; intros seen mm H; cbn [remap_all].
  - rewrite app_nil_r. split; auto. intros [|i] a n X; discriminate.
  - destruct (remap_Holds seen mm a H) as (H1 & P). destruct (remap mm a) as [mm1 n1]. cbn [fst snd] in *.
    destruct (IH _ _ H1) as (H2 & Q). destruct (remap_all mm1 r) as [mm2 ns]. cbn [fst snd] in *.
    rewrite <- app_assoc in *. cbn [app] in *. split; auto. intros [|i] b n; cbn; [|apply Q].
    intros X Y. injection X as <-. injection Y as <-. replace (seen ++ a :: r) with ((seen ++ [a]) ++ r) by (rewrite <- app_assoc; auto).
    apply NumberIn_app. auto.
Qed.

Lemma Holds_nil : Holds [] [].
Proof. split; [constructor|]. split; [intros; cbn; tauto|]. intros x n X. discriminate X. Qed.

Lemma NumberIn_unique l a n n' : NumberIn l a n -> NumberIn l a n' -> n = n'.
Proof.
  intros (p & q & E & N & D) (p' & q' & E' & N' & D').
  assert (X : p = p').
  { rewrite E in E'. clear - N N' E'. revert p' N' E'. induction p as [|x p IH]; intros [|y p'] N' E'; cbn in E'; auto.
    - injection E' as -> _. destruct N'. left. auto.
    - injection E' as -> _. destruct N. left. auto.
    - injection E' as -> E'. f_equal. apply IH; auto; intros I; [apply N|apply N']; right; auto. }
  subst p'. destruct D as (d & D1 & D2 & <-), D' as (d' & D1' & D2' & <-).
  assert (Y : forall d d' : list nat, NoDup d -> (forall x, In x d -> In x d') -> length d <= length d') by (intros; apply NoDup_incl_length; auto).
  apply Nat.le_antisymm; apply Y; auto; intros x I; [apply D2', D2|apply D2, D2']; auto.
Qed.

Lemma error_number_spec met a n : error_number met a = n <-> NumberIn (met ++ [a]) a n.
Proof.
  unfold error_number. destruct (remap_all_Holds met [] [] Holds_nil) as (H & _). cbn [app] in H.
  destruct (remap_Holds _ _ a H) as (_ & P). split; [intros <-; auto|]. intros Q. eapply NumberIn_unique; eauto.
Qed.
