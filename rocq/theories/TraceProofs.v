(** Proofs about the interpreter's trace. *)
From Coq Require Import List Arith Bool Lia.
From Verif Require Import Base TraceModel TraceSpec.
Import ListNotations.

(** ** Grouping *)

Lemma collect_Some {A} (l : list (option A)) r : collect l = Some r <-> l = map Some r.
Proof.
  revert r. induction l as [|[x|] l IH]; intros r; cbn.
  - split; [intros [= <-]; auto|destruct r; [auto|discriminate]].
  - destruct (collect l) as [r'|] eqn:E.
    + split.
      * intros [= <-]. cbn. f_equal. apply IH. auto.
      * destruct r as [|y r]; [discriminate|]. cbn. intros [= -> H]. apply IH in H. congruence.
    + split; [discriminate|]. destruct r as [|y r]; [discriminate|]. cbn. intros [= -> H].
      apply IH in H. discriminate.
  - split; [discriminate|]. destruct r; discriminate.
Qed.

Lemma abstract_step_iff {V H L1 L2} (f : L1 -> option L2) (s : mstep V H L1) s' :
  abstract_step f s = Some s' <-> Abstracts f s s'.
Proof.
  unfold abstract_step, Abstracts. destruct s as [frs h]. cbn.
  set (g := fun fr : frame V L1 => match f (f_loc fr) with Some l => Some (Frame (f_info fr) l) | None => None end).
  assert (K : forall r, map g frs = map Some r <->
    Forall2 (fun a b => f_info b = f_info a /\ f (f_loc a) = Some (f_loc b)) frs r).
  { induction frs as [|a frs IH]; intros [|b r]; cbn; split; intros X; try discriminate; try constructor;
      try (inversion X; fail).
    - injection X as X1 X2. unfold g in X1. destruct (f (f_loc a)) eqn:E; [|discriminate].
      injection X1 as <-. cbn. auto.
    - injection X as X1 X2. apply IH. auto.
    - inversion X as [|? ? ? ? [Y1 Y2] Y]; subst. unfold g at 1. rewrite Y2, <- Y1. apply IH in Y. rewrite Y.
      destruct b; auto. }
  destruct (collect (map g frs)) as [r|] eqn:E.
  - apply collect_Some in E. apply K in E. split.
    + intros [= <-]. cbn. auto.
    + destruct s' as [r' h']. cbn. intros [-> X]. apply K in X, E. rewrite E in X.
      assert (r = r').
      { clear - X. revert r' X. induction r as [|x r IH]; intros [|y r'] X; try discriminate; auto.
        cbn in X. injection X as -> X. f_equal. auto. }
      subst. auto.
  - split; [discriminate|]. destruct s' as [r' h']. cbn. intros [_ X]. apply K in X. apply collect_Some in X. congruence.
Qed.

Lemma abstract_step_None {V H L1 L2} (f : L1 -> option L2) (s : mstep V H L1) :
  abstract_step f s = None <-> ~ Mappable f s.
Proof.
  split.
  - intros E Mp. assert (X : exists r, Forall2 (fun a b => f_info b = f_info a /\ f (f_loc a) = Some (f_loc b)) (m_frames s) r).
    { clear E. unfold Mappable in Mp. induction (m_frames s) as [|a l IH].
      - exists []. constructor.
      - destruct IH as (r & F). { intros fr I. apply Mp. right. auto. }
        specialize (Mp a (or_introl eq_refl)). destruct (f (f_loc a)) as [x|] eqn:Ef; [|congruence].
        exists (Frame (f_info a) x :: r). constructor; auto. }
    destruct X as (r & F). assert (A : abstract_step f s = Some (MStep r (m_heap s))) by (apply abstract_step_iff; split; auto).
    congruence.
  - intros N. destruct (abstract_step f s) as [s'|] eqn:E; auto. exfalso. apply N. apply abstract_step_iff in E as [_ F].
    intros fr I. clear N. induction F as [|a b la lb [_ Hf] F IH]; [destruct I|]. destruct I as [<-|I]; auto. congruence.
Qed.

Lemma key_At {V H L} (s : mstep V H L) k : key s = Some k <-> At s k.
Proof.
  unfold key, At. split.
  - destruct (rev (m_frames s)) as [|fr r] eqn:E; [discriminate|]. intros [= <-].
    exists (rev r), fr. split; auto. rewrite <- (rev_involutive (m_frames s)), E. auto.
  - intros (o & fr & -> & <-). rewrite rev_app_distr. auto.
Qed.

Lemma key_None {V H L} (s : mstep V H L) : key s = None <-> m_frames s = [].
Proof.
  unfold key. destruct (rev (m_frames s)) as [|fr r] eqn:E.
  - split; auto. intros _. rewrite <- (rev_involutive (m_frames s)), E. auto.
  - split; [discriminate|]. intros N. rewrite N in E. discriminate.
Qed.

Lemma At_unique {V H L} (s : mstep V H L) a b : At s a -> At s b -> a = b.
Proof. rewrite <- !key_At. congruence. Qed.

(** Reading on from a group that has already begun. *)
Lemma last_of_groups_spec {V H L} eqd (l : list (mstep V H L)) : forall pre last k out,
  (forall s, In s (pre ++ [last]) -> At s k) ->
  last_of_groups eqd last k l = Some out ->
  exists runs, (pre ++ [last]) ++ l = concat runs /\ Runs runs /\
    Forall2 (fun r s => exists p, r = p ++ [s]) runs out /\
    exists tl r0, runs = ((pre ++ [last]) ++ tl) :: r0.
Proof.
  induction l as [|s l IH]; intros pre last k out A E; cbn in E.
  - injection E as <-. exists [pre ++ [last]]. rewrite !app_nil_r. cbn. rewrite app_nil_r. split; auto.
    split; [eapply runs_one; eauto; destruct pre; discriminate|].
    split; [constructor; [eauto|constructor]|]. exists [], []. rewrite app_nil_r. auto.
  - destruct (key s) as [k'|] eqn:Ek; [|discriminate]. apply key_At in Ek.
    destruct (eqd k k') as [<-|N].
    + destruct (IH (pre ++ [last]) s k out) as (runs & C & R & F & tl & r0 & Er); auto.
      { intros x I. apply in_app_or in I as [I|[<-|[]]]; auto. }
      exists runs. split; [rewrite <- C, <- !app_assoc; auto|]. split; auto. split; auto.
      exists ([s] ++ tl), r0. rewrite Er, !app_assoc. auto.
    + destruct (last_of_groups eqd s k' l) as [out'|] eqn:E'; [|discriminate]. injection E as <-.
      destruct (IH [] s k' out') as (runs & C & R & F & tl & r0 & Er); auto.
      { intros x [<-|[]]. auto. }
      exists ((pre ++ [last]) :: runs). split.
      { cbn [concat]. rewrite <- C. cbn. auto. }
      split.
      { subst runs. apply runs_cons with (l := k) (l' := k'); auto.
        - destruct pre; discriminate.
        - intros x I. inversion R as [|? ? ? Hx|? ? ? ? ? ? Hx]; subst.
          + assert (l0 = k') by (apply (At_unique s); auto; apply Hx; left; auto). subst. auto.
          + assert (l0 = k') by (apply (At_unique s); auto; apply Hx; left; auto). subst. auto. }
      split; [constructor; eauto|]. exists [], runs. rewrite app_nil_r. auto.
Qed.

Lemma last_of_groups_total {V H L} eqd (l : list (mstep V H L)) : forall last k,
  (exists out, last_of_groups eqd last k l = Some out) <-> forall s, In s l -> m_frames s <> [].
Proof.
  induction l as [|s l IH]; intros last k; cbn.
  - split; [intros _ s []|eauto].
  - destruct (key s) as [k'|] eqn:Ek.
    + assert (N : m_frames s <> []) by (intros E; apply key_None in E; congruence).
      destruct (eqd k k').
      * rewrite IH. split; [intros Hl x [<-|I]; auto|auto].
      * specialize (IH s k'). split.
        -- intros (out & E). destruct (last_of_groups eqd s k' l) eqn:E'; [|discriminate].
           intros x [<-|I]; auto. apply IH; eauto.
        -- intros Hl. destruct (proj2 IH) as (out & ->); eauto.
    + apply key_None in Ek. split; [intros (out & E); discriminate|]. intros Hl. exfalso. apply (Hl s); auto.
Qed.

(** Grouped steps, before the locations are abstracted. *)
Definition grouped {V H L} (eqd : forall a b : L, {a = b} + {a <> b}) (l : list (mstep V H L)) : option (list (mstep V H L)) :=
  match l with
  | [] => Some []
  | s :: r => match key s with None => None | Some k => last_of_groups eqd s k r end
  end.

Lemma group_steps_grouped {V H R L1 L2} eqd (f : L1 -> option L2) (t : mtrace V H R L1) :
  group_steps eqd f t = match grouped eqd (filter_map (abstract_step f) (tr_steps t)) with
                        | Some out => Some (MTrace out (tr_result t)) | None => None end.
Proof.
  unfold group_steps, grouped. destruct (filter_map _ _) as [|s r]; auto. destruct (key s); auto.
Qed.

Lemma grouped_spec {V H L} eqd (l out : list (mstep V H L)) : grouped eqd l = Some out ->
  exists runs, l = concat runs /\ Runs runs /\ Forall2 (fun r s => exists p, r = p ++ [s]) runs out.
Proof.
  unfold grouped. destruct l as [|s r].
  - intros [= <-]. exists []. split; auto. split; constructor.
  - destruct (key s) as [k|] eqn:E; [|discriminate]. intros G. apply key_At in E.
    destruct (last_of_groups_spec eqd r [] s k out) as (runs & C & R & F & _); auto.
    { intros x [<-|[]]. auto. }
    exists runs. auto.
Qed.

Lemma grouped_total {V H L} eqd (l : list (mstep V H L)) :
  (exists out, grouped eqd l = Some out) <-> forall s, In s l -> m_frames s <> [].
Proof.
  unfold grouped. destruct l as [|s r]; [split; [intros _ s []|eauto]|].
  destruct (key s) as [k|] eqn:E.
  - rewrite last_of_groups_total. split; [|intros Hl x I; apply Hl; right; auto].
    intros Hl x [<-|I]; auto. intros N. apply key_None in N. congruence.
  - apply key_None in E. split; [intros (o & X); discriminate|]. intros Hl. exfalso. apply (Hl s); auto. left; auto.
Qed.

(** The runs of a list are determined. *)
Lemma Runs_unique {V H L} (a : list (list (mstep V H L))) : forall b, Runs a -> Runs b -> concat a = concat b -> a = b.
Proof.
  assert (Hd : forall (u : list unit) (x : list (mstep V H L)) rest, Runs (x :: rest) -> x <> [] /\ Runs rest /\
    exists l : L, (forall s, In s x -> At s l) /\ match rest with [] => True | y :: _ => forall s, In s y -> ~ At s l end).
  { intros _ x rest R. inversion R as [|? l N A|? l r' l' rest' N A A' NE R']; subst.
    - split; auto. split; [constructor|]. exists l. auto.
    - split; auto. split; auto. exists l. split; auto. intros s I B.
      apply NE. eapply At_unique; eauto. }
  (* one run is not longer than the other *)
  assert (Pre : forall (x : list (mstep V H L)) y ra rb (l : L), x ++ concat ra = y ++ concat rb ->
    (forall s, In s x -> At s l) -> (forall s, In s y -> At s l) ->
    match ra with [] => True | z :: _ => z <> [] /\ forall s, In s z -> ~ At s l end ->
    match rb with [] => True | z :: _ => z <> [] /\ forall s, In s z -> ~ At s l end -> x = y).
  { intros x. induction x as [|s x IH]; intros [|s' y] ra rb l E Ax Ay Na Nb; auto.
    - exfalso. destruct ra as [|z ra]; [discriminate|]. destruct Na as [Nz Na]. destruct z as [|s z]; [congruence|].
      cbn in E. injection E as E1 E2. subst s'. apply (Na s); [left; auto|]. apply Ay. left; auto.
    - exfalso. destruct rb as [|z rb]; [cbn in E; destruct x; discriminate|]. destruct Nb as [Nz Nb].
      destruct z as [|s' z]; [congruence|]. cbn in E. injection E as E1 E2. subst s'.
      apply (Nb s); [left; auto|]. apply Ax. left; auto.
    - cbn in E. injection E as <- E. f_equal. eapply IH; eauto; intros t I; [apply Ax|apply Ay]; right; auto. }
  induction a as [|x a IH]; intros [|y b] Ra Rb E; auto.
  - apply Hd in Rb as (N & _); [|exact []]. cbn in E. destruct y; [congruence|discriminate].
  - apply Hd in Ra as (N & _); [|exact []]. cbn in E. destruct x; [congruence|discriminate].
  - destruct (Hd [] x a Ra) as (Nx & Ra' & lx & Ax & Bx). destruct (Hd [] y b Rb) as (Ny & Rb' & ly & Ay & By).
    cbn in E. assert (lx = ly).
    { destruct x as [|s x]; [congruence|]. destruct y as [|s' y]; [congruence|]. cbn in E. injection E as <- _.
      apply (At_unique s); [apply Ax|apply Ay]; left; auto. }
    subst ly. assert (x = y).
    { eapply (Pre x y a b lx); eauto.
      - destruct a as [|z a]; auto. split; auto. apply (Hd [] z a Ra').
      - destruct b as [|z b]; auto. split; auto. apply (Hd [] z b Rb'). }
    subst y. f_equal. apply app_inv_head in E. auto.
Qed.

(** Adjacent results are at different places. *)
Fixpoint Alternates {V H L} (l : list (mstep V H L)) : Prop :=
  match l with
  | s :: (s' :: _) as r => (forall k, At s k -> ~ At s' k) /\ Alternates r
  | _ => True
  end.

Lemma grouped_Alternates {V H L} eqd (l out : list (mstep V H L)) : grouped eqd l = Some out -> Alternates out /\
  (forall s, In s out -> m_frames s <> []).
Proof.
  intros G. apply grouped_spec in G as (runs & _ & R & F). clear l. revert out F.
  induction R as [|r l0 N A|r l0 r' l' rest N A A' NE R IH]; intros out F.
  - inversion F; subst. cbn. split; [exact I|intros s []].
  - inversion F as [|? s ? ? (p & ->) F']; subst. inversion F'; subst. cbn. split; auto.
    intros x [<-|[]] E. assert (B : At s l0) by (apply A; apply in_or_app; right; left; auto).
    apply key_At in B. apply key_None in E. congruence.
  - inversion F as [|? s ? out' (p & ->) F']; subst. pose proof F' as F0. inversion F' as [|? s' ? ? (p' & ->) F'']; subst.
    clear F'. rename F0 into F'.
    destruct (IH _ F') as [I1 I2].
    assert (B : At s l0) by (apply A; apply in_or_app; right; left; auto).
    assert (B' : At s' l') by (apply A'; apply in_or_app; right; left; auto).
    split.
    + split; auto. intros k K K'. apply NE. rewrite (At_unique s l0 k), (At_unique s' l' k); auto.
    + intros x [<-|I]; auto. intros E. apply key_At in B. apply key_None in E. congruence.
Qed.

Lemma last_of_groups_Alternates {V H L} eqd (l : list (mstep V H L)) : forall s k, At s k -> Alternates (s :: l) ->
  (forall x, In x l -> m_frames x <> []) -> last_of_groups eqd s k l = Some (s :: l).
Proof.
  induction l as [|x l IH]; intros s k A Al N; cbn; auto.
  destruct (key x) as [k'|] eqn:E.
  - apply key_At in E. destruct Al as [D Al]. destruct (eqd k k') as [<-|].
    + exfalso. eapply D; eauto.
    + rewrite IH; auto. intros y I. apply N. right. auto.
  - apply key_None in E. exfalso. apply (N x); auto. left; auto.
Qed.

Lemma grouped_idem {V H L} eqd (l out : list (mstep V H L)) : grouped eqd l = Some out -> grouped eqd out = Some out.
Proof.
  intros G. apply grouped_Alternates in G as [A N]. destruct out as [|s r]; auto. cbn.
  destruct (key s) as [k|] eqn:E.
  - apply key_At in E. apply last_of_groups_Alternates; auto. intros x I. apply N. right; auto.
  - apply key_None in E. exfalso. apply (N s); auto. left; auto.
Qed.

Lemma abstract_step_id {V H L} (s : mstep V H L) : abstract_step Some s = Some s.
Proof. apply abstract_step_iff. split; auto. induction (m_frames s); constructor; auto. Qed.

Lemma filter_map_id {V H L} (l : list (mstep V H L)) : filter_map (abstract_step Some) l = l.
Proof. induction l; cbn; auto. rewrite abstract_step_id. f_equal. auto. Qed.

Lemma filter_map_In {A B} (f : A -> option B) l y : In y (filter_map f l) <-> exists x, In x l /\ f x = Some y.
Proof.
  induction l as [|a l IH]; cbn; [split; [intros []|intros (x & [] & _)]|].
  destruct (f a) as [b|] eqn:E; cbn; rewrite IH; split.
  - intros [<-|(x & I & Ex)]; eauto.
  - intros (x & [<-|I] & Ex); [left; congruence|eauto].
  - intros (x & I & Ex). eauto.
  - intros (x & [<-|I] & Ex); [congruence|eauto].
Qed.

(** ** Two passes *)

Lemma abstract_step_comp {V H L1 L2 L3} (f : L1 -> option L2) (g : L2 -> option L3) (s : mstep V H L1) s1 :
  abstract_step f s = Some s1 ->
  abstract_step g s1 = abstract_step (fun l => match f l with Some l' => g l' | None => None end) s.
Proof.
  intros E. apply abstract_step_iff in E as [Eh F].
  set (h := fun l => match f l with Some l' => g l' | None => None end).
  destruct (abstract_step h s) as [s2|] eqn:E2.
  - apply abstract_step_iff. apply abstract_step_iff in E2 as [Eh2 F2]. split; [congruence|].
    revert F2. generalize (m_frames s2). clear - F h. induction F as [|a b la lb [I1 J1] F IH]; intros l F2.
    + inversion F2; subst. constructor.
    + inversion F2 as [|? c ? lc [I2 J2] F3]; subst. constructor; auto. split; [congruence|].
      unfold h in J2. rewrite J1 in J2. auto.
  - apply abstract_step_None in E2. apply abstract_step_None. intros Mp. apply E2.
    intros fr I. clear - F I Mp. unfold Mappable in Mp. induction F as [|a b la lb [I1 J1] F IH]; [destruct I|].
    destruct I as [<-|I].
    + unfold h; rewrite J1. apply Mp. left; auto.
    + apply IH; auto. intros x Ix. apply Mp. right; auto.
Qed.

Lemma abstract_step_key {V H L1 L2} (f : L1 -> option L2) (s : mstep V H L1) s1 k :
  abstract_step f s = Some s1 -> key s = Some k -> exists k', f k = Some k' /\ key s1 = Some k'.
Proof.
  intros E K. apply key_At in K as (o & fr & Ef & <-). apply abstract_step_iff in E as [_ F]. rewrite Ef in F.
  apply Forall2_app_inv_l in F as (o' & l' & F1 & F2 & E'). inversion F2 as [|? b ? ? [_ J] F3]; subst.
  inversion F3; subst. exists (f_loc b). split; auto. apply key_At. exists o', b. auto.
Qed.

Lemma abstract_step_key_None {V H L1 L2} (f : L1 -> option L2) (s : mstep V H L1) s1 :
  abstract_step f s = Some s1 -> m_frames s1 = [] <-> m_frames s = [].
Proof.
  intros E. apply abstract_step_iff in E as [_ F]. split; intros N; rewrite N in F; inversion F; auto.
Qed.

(** Grouping twice is grouping once, when the second mapping is defined. *)
Lemma last_of_groups_twice {V H L2 L3} eqd2 eqd3 (g : L2 -> option L3) (l : list (mstep V H L2)) :
  (forall s, In s l -> Mappable g s) -> 
  forall last k out, At last k -> Mappable g last ->
  last_of_groups eqd2 last k l = Some out ->
  forall last1 k1 l1, abstract_step g last = Some last1 -> key last1 = Some k1 ->
  l1 = filter_map (abstract_step g) l ->
  forall o1 or1, filter_map (abstract_step g) out = o1 :: or1 ->
  forall k2, key o1 = Some k2 -> k2 = k1 /\
  last_of_groups eqd3 o1 k2 or1 = last_of_groups eqd3 last1 k1 l1.
Proof.
  intros Mp. induction l as [|s l IH]; intros last k out A ML E last1 k1 l1 E1 K1 El o1 or1 Eo k2 K2; cbn in E.
  - injection E as <-. cbn in Eo. rewrite E1 in Eo. injection Eo as <- <-. subst l1.
    split; [congruence|]. cbn. congruence.
  - destruct (key s) as [ks|] eqn:Ks; [|discriminate].
    assert (Ms : Mappable g s) by (apply Mp; left; auto).
    destruct (abstract_step g s) as [s1|] eqn:Es.
    2:{ apply abstract_step_None in Es. contradiction. }
    destruct (abstract_step_key g s s1 ks Es Ks) as (ks1 & Gk & Ks1).
    assert (Hk : g k = Some k1).
    { apply key_At in A. destruct (abstract_step_key g last last1 k E1 A) as (x & X1 & X2). congruence. }
    cbn [filter_map] in El. rewrite Es in El. subst l1. cbn [last_of_groups]. rewrite Ks1.
    destruct (eqd2 k ks) as [<-|N].
    + assert (ks1 = k1) by congruence. subst ks1. destruct (eqd3 k1 k1); [|congruence].
      apply (IH (fun x I => Mp x (or_intror I)) s k out); auto. apply key_At; auto.
    + destruct (last_of_groups eqd2 s ks l) as [out'|] eqn:E'; [|discriminate]. injection E as <-.
      cbn [filter_map] in Eo. rewrite E1 in Eo. injection Eo as <- <-.
      assert (k2 = k1) by congruence. subst k2. split; auto.
      destruct (filter_map (abstract_step g) out') as [|o2 or2] eqn:Eo2.
      { exfalso. destruct out' as [|x out'].
        - clear - E'. revert s ks E'. induction l as [|y l IH]; intros s ks E'; cbn in E'; [discriminate|].
          destruct (key y); [|discriminate]. destruct (eqd2 ks l0); [eauto|].
          destruct (last_of_groups eqd2 y l0 l); discriminate.
        - cbn in Eo2. destruct (abstract_step g x) eqn:Ex; [discriminate|]. apply abstract_step_None in Ex. apply Ex.
          assert (Ix : In x (s :: l)).
          { clear - E'. revert s ks x out' E'. induction l as [|y l IH]; intros s ks x out' E'; cbn in E'.
            - injection E' as <- <-. left; auto.
            - destruct (key y); [|discriminate]. destruct (eqd2 ks l0).
              + right. eauto.
              + destruct (last_of_groups eqd2 y l0 l); [|discriminate]. injection E' as <- _. left; auto. }
          destruct Ix as [<-|Ix]; auto. apply Mp. right; auto. }
      assert (Ko2 : exists k3, key o2 = Some k3).
      { destruct (key o2) eqn:Ko; eauto. exfalso. apply key_None in Ko.
        assert (I2 : In o2 (filter_map (abstract_step g) out')) by (rewrite Eo2; left; auto).
        apply filter_map_In in I2 as (x & Ix & Ex). apply (abstract_step_key_None g x o2 Ex) in Ko.
        assert (G : grouped eqd2 (s :: l) = Some out') by (unfold grouped; rewrite Ks; auto).
        apply grouped_Alternates in G as [_ G]. apply (G x); auto. }
      destruct Ko2 as (k3 & Ko2).
      destruct (IH (fun x I => Mp x (or_intror I)) s ks out' (proj1 (key_At s ks) Ks) Ms E' s1 ks1 _ Es Ks1 eq_refl o2 or2 Eo2 k3 Ko2)
        as [-> IHe].
      cbn [last_of_groups]. rewrite Ko2. destruct (eqd3 k1 ks1) as [<-|N3].
      * rewrite IHe. auto.
      * rewrite IHe. auto.
Qed.

Lemma last_of_groups_In {V H L} eqd (l : list (mstep V H L)) : forall s k out x,
  last_of_groups eqd s k l = Some out -> In x out -> x = s \/ In x l.
Proof.
  induction l as [|y l IH]; intros s k out x E I; cbn in E.
  - injection E as <-. destruct I as [<-|[]]. auto.
  - destruct (key y) as [k'|]; [|discriminate]. destruct (eqd k k').
    + destruct (IH _ _ _ _ E I) as [->|J]; right; [left|right]; auto.
    + destruct (last_of_groups eqd y k' l) eqn:E'; [|discriminate]. injection E as <-.
      destruct I as [<-|I]; auto. destruct (IH _ _ _ _ E' I) as [->|J]; right; [left|right]; auto.
Qed.

Lemma grouped_In {V H L} eqd (l out : list (mstep V H L)) x : grouped eqd l = Some out -> In x out -> In x l.
Proof.
  unfold grouped. destruct l as [|s r]; [intros [= <-] []|]. destruct (key s) as [k|]; [|discriminate].
  intros E I. destruct (last_of_groups_In eqd r s k out x E I) as [->|J]; [left|right]; auto.
Qed.

Lemma grouped_twice {V H L2 L3} eqd2 eqd3 (g : L2 -> option L3) (l out : list (mstep V H L2)) :
  (forall s, In s l -> Mappable g s) -> grouped eqd2 l = Some out ->
  grouped eqd3 (filter_map (abstract_step g) out) = grouped eqd3 (filter_map (abstract_step g) l).
Proof.
  intros Mp G. pose proof (fun x => grouped_In eqd2 l out x G) as Sub.
  pose proof (proj1 (grouped_total eqd2 l) (ex_intro _ out G)) as NE.
  unfold grouped in G. destruct l as [|s r].
  { injection G as <-. auto. }
  destruct (key s) as [k|] eqn:K; [|discriminate].
  assert (Ms : Mappable g s) by (apply Mp; left; auto).
  destruct (abstract_step g s) as [s1|] eqn:Es; [|apply abstract_step_None in Es; contradiction].
  destruct (abstract_step_key g s s1 k Es K) as (k1 & _ & K1).
  destruct (filter_map (abstract_step g) out) as [|o1 or1] eqn:Eo.
  { exfalso. destruct out as [|x out].
    - clear - G. revert s k G. induction r as [|y r IH]; intros s k G; cbn in G; [discriminate|].
      destruct (key y); [|discriminate]. destruct (eqd2 k l); [eauto|]. destruct (last_of_groups eqd2 y l r); discriminate.
    - cbn in Eo. destruct (abstract_step g x) eqn:Ex; [discriminate|]. apply abstract_step_None in Ex. apply Ex.
      apply Mp. apply Sub. left; auto. }
  assert (exists k2, key o1 = Some k2) as (k2 & K2).
  { destruct (key o1) eqn:Ko; eauto. exfalso. apply key_None in Ko.
    assert (I2 : In o1 (filter_map (abstract_step g) out)) by (rewrite Eo; left; auto).
    apply filter_map_In in I2 as (x & Ix & Ex). apply (abstract_step_key_None g x o1 Ex) in Ko. apply (NE x); auto. }
  destruct (last_of_groups_twice eqd2 eqd3 g r (fun x I => Mp x (or_intror I)) s k out
    (proj1 (key_At s k) K) Ms G s1 k1 _ Es K1 eq_refl o1 or1 Eo k2 K2) as [-> E].
  cbn [filter_map]. rewrite Es. cbn [grouped]. rewrite K2, K1. exact E.
Qed.

Lemma filter_map_comp {V H L1 L2 L3} (f : L1 -> option L2) (g : L2 -> option L3) (l : list (mstep V H L1)) :
  (forall s, In s (filter_map (abstract_step f) l) -> Mappable g s) ->
  filter_map (abstract_step g) (filter_map (abstract_step f) l) =
  filter_map (abstract_step (fun x => match f x with Some y => g y | None => None end)) l.
Proof.
  set (h := fun x => match f x with Some y => g y | None => None end).
  induction l as [|s l IH]; cbn; auto. destruct (abstract_step f s) as [s1|] eqn:E; intros Mp.
  - cbn. rewrite (abstract_step_comp f g s s1 E). fold h. rewrite IH; auto. intros x I. apply Mp. right; auto.
  - destruct (abstract_step h s) as [s2|] eqn:E2; auto. exfalso. apply abstract_step_None in E. apply E.
    apply abstract_step_iff in E2 as [_ F]. intros fr I. clear - F I. induction F as [|a b la lb [_ J] F IH]; [destruct I|].
    destruct I as [<-|I]; auto. unfold h in J. destruct (f (f_loc a)); congruence.
Qed.

Lemma interpret_once {V H R L1 L2 L3} eqd2 eqd3 (f : L1 -> option L2) (g : L2 -> option L3) (t : mtrace V H R L1) :
  (forall l l', f l = Some l' -> g l' <> None) ->
  (forall s, In s (tr_steps t) -> m_frames s <> []) ->
  interpret eqd2 eqd3 f g t = group_steps eqd3 (fun x => match f x with Some y => g y | None => None end) t.
Proof.
  intros Mg NE. assert (Mp : forall s, In s (filter_map (abstract_step f) (tr_steps t)) -> Mappable g s).
  { intros s I fr J. apply filter_map_In in I as (s0 & I & E). apply abstract_step_iff in E as [_ F].
    clear - F J Mg. induction F as [|a b la lb [_ X] F IH]; [destruct J|]. destruct J as [<-|J]; eauto. }
  unfold interpret. rewrite !group_steps_grouped.
  destruct (grouped eqd2 (filter_map (abstract_step f) (tr_steps t))) as [out|] eqn:G.
  - rewrite group_steps_grouped. cbn [tr_steps tr_result]. rewrite (grouped_twice eqd2 eqd3 g _ out Mp G).
    rewrite filter_map_comp; auto.
  - exfalso. destruct (proj2 (grouped_total eqd2 (filter_map (abstract_step f) (tr_steps t)))) as (o & X); [|congruence].
    intros s I N. apply filter_map_In in I as (s0 & I & E). apply (abstract_step_key_None f s0 s E) in N.
    apply (NE s0); auto.
Qed.
