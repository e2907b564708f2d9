(** * Proofs about the page *)

From Coq Require Import Ascii String.
From Coq Require Import List Arith Bool Lia.
From Verif Require Import Base PermsModel BookModel BookSpec BookProofs EditorModel EditorSpec EditorProofs PageModel PageSpec.
Import ListNotations.

(** ** Pointing *)

Definition one (tag : option nat) (g : list cls -> list cls) (e : element) : element :=
  match tag with Some t => if el_tag e =? t then Element (el_tag e) (el_text e) (g (el_classes e)) else e | None => e end.
Lemma for_tag_one tag g es : for_tag tag g es = map (one tag g) es.
Proof. destruct tag; cbn [for_tag]; [reflexivity|]. symmetry. apply map_id. Qed.

Definition key_tags (points regions : list (nat * nat)) (key : option nat) : list nat :=
  match key with
  | None => []
  | Some k => (match aget Nat.eq_dec points k with Some t => [t] | None => [] end)
              ++ (match aget Nat.eq_dec regions k with Some t => [t] | None => [] end)
  end.
Definition lit_tags (t : target) : list nat :=
  key_tags (t_loan_points (tg_tags t)) (t_loan_regions (tg_tags t)) (tg_loan t)
  ++ key_tags (t_move_points (tg_tags t)) (t_move_regions (tg_tags t)) (tg_move t).

Definition region1 (g : list cls -> list cls) (points regions : list (nat * nat)) (key : option nat) (e : element) : element :=
  match key with
  | None => e
  | Some k => one (aget Nat.eq_dec regions k) g (one (aget Nat.eq_dec points k) g e)
  end.
Definition up (name : cls) (l : list cls) := add_cls name (add_cls ShowHidden l).
Definition down (name : cls) (l : list cls) := remove_cls name (remove_cls ShowHidden l).

Lemma show_region_one ps rs k name es : show_region ps rs k name es = map (region1 (up name) ps rs k) es.
Proof.
  destruct k; cbn [show_region]; [|symmetry; apply map_id]. cbv zeta. rewrite !for_tag_one, map_map. reflexivity.
Qed.
Lemma hide_region_one ps rs k name es : hide_region ps rs k name es = map (region1 (down name) ps rs k) es.
Proof.
  destruct k; cbn [hide_region]; [|symmetry; apply map_id]. cbv zeta. rewrite !for_tag_one, map_map. reflexivity.
Qed.

Definition on (name : cls) : list cls := add_cls name [ShowHidden].
Lemma up_nil name : up name [] = on name.
Proof. reflexivity. Qed.
Lemma up_on name : up name (on name) = on name.
Proof. destruct name; reflexivity. Qed.
Lemma down_on name : down name (on name) = [].
Proof. destruct name; reflexivity. Qed.
Lemma down_nil name : down name [] = [].
Proof. reflexivity. Qed.
Lemma on_hidden name : In ShowHidden (on name).
Proof. destruct name; cbn; auto. Qed.

(** Applying [g], which is constant after the first time, at one of some tags. *)
Lemma region1_spec g ps rs k e (x : list cls) : g (el_classes e) = x -> g x = x ->
  region1 g ps rs k e = if in_dec Nat.eq_dec (el_tag e) (key_tags ps rs k) then Element (el_tag e) (el_text e) x else e.
Proof.
  intros H H2. destruct k as [k|]; cbn [region1 key_tags]; [|destruct e; reflexivity].
  destruct e as [t tx cl]. cbn [el_tag el_classes el_text] in *.
  destruct (aget Nat.eq_dec ps k) as [a|], (aget Nat.eq_dec rs k) as [b|]; cbn [one app el_tag el_text el_classes];
    try (destruct (Nat.eqb_spec t a); cbn [el_tag el_text el_classes]);
    try (destruct (Nat.eqb_spec t b); cbn [el_tag el_text el_classes]);
    rewrite ?H, ?H2;
    match goal with |- context [in_dec ?u ?v ?w] => destruct (in_dec u v w) as [I|I]; cbn in I end; try reflexivity; exfalso; intuition congruence.
Qed.

Lemma enter_clean t es : (forall e, In e es -> el_classes e = []) ->
  enter t es = map (fun e => if in_dec Nat.eq_dec (el_tag e) (lit_tags t) then Element (el_tag e) (el_text e) (on (tg_name t)) else e) es.
Proof.
  intros C. unfold enter. rewrite !show_region_one, map_map. apply map_ext_in. intros e I. specialize (C e I).
  rewrite (region1_spec _ _ _ _ e (on (tg_name t))) by (rewrite ?C; auto using up_on). unfold lit_tags.
  destruct (in_dec Nat.eq_dec (el_tag e) (key_tags _ _ (tg_loan t))) as [J|J].
  - rewrite (region1_spec _ _ _ _ _ (on (tg_name t))) by (cbn; auto using up_on). cbn [el_tag el_text].
    destruct (in_dec _ _ (_ ++ _)) as [K|K]; [|exfalso; apply K, in_app_iff; auto].
    destruct (in_dec _ _ _); reflexivity.
  - rewrite (region1_spec _ _ _ _ _ (on (tg_name t))) by (rewrite ?C; auto using up_on).
    destruct (in_dec Nat.eq_dec (el_tag e) (key_tags _ _ (tg_move t))) as [K|K];
    destruct (in_dec _ _ (_ ++ _)) as [L|L]; auto; exfalso; rewrite in_app_iff in L; tauto.
Qed.

Lemma leave_enter t es : (forall e, In e es -> el_classes e = []) -> leave t (enter t es) = es.
Proof.
  intros C. rewrite enter_clean by auto. unfold leave. rewrite !hide_region_one, !map_map.
  rewrite <- (map_id es) at 2. apply map_ext_in. intros e I. specialize (C e I).
  assert (E : Element (el_tag e) (el_text e) [] = e) by (destruct e; cbn in *; congruence). unfold lit_tags.
  destruct (in_dec Nat.eq_dec (el_tag e) (_ ++ _)) as [L|L].
  - rewrite (region1_spec _ _ _ _ (Element _ _ (on _)) []) by (cbn [el_classes]; auto using down_on). cbn [el_tag el_text].
    destruct (in_dec Nat.eq_dec (el_tag e) (key_tags _ _ (tg_loan t))) as [J|J]; rewrite (region1_spec _ _ _ _ _ []) by (cbn [el_classes]; auto using down_on); cbn [el_tag el_text].
    + destruct (in_dec _ _ _); auto.
    + destruct (in_dec _ _ _) as [K|K]; auto. exfalso. apply in_app_iff in L. tauto.
  - rewrite (region1_spec _ _ _ _ e []) by (rewrite ?C; auto).
    destruct (in_dec _ _ _) as [J|J]; [exfalso; apply L, in_app_iff; auto|].
    rewrite (region1_spec _ _ _ _ e []) by (rewrite ?C; auto).
    destruct (in_dec _ _ _) as [K|K]; [exfalso; apply L, in_app_iff; auto|]. reflexivity.
Qed.

Lemma visits_clean ps es : Visits ps -> (forall e, In e es -> el_classes e = []) -> point_at ps es = es.
Proof.
  intros V C. induction V as [|t ps V IH]; [reflexivity|]. unfold point_at in *. cbn [fold_left]. rewrite leave_enter; auto.
Qed.

Lemma point_at_app ps qs es : point_at (ps ++ qs) es = point_at qs (point_at ps es).
Proof. apply fold_left_app. Qed.

Lemma lit_enter t es a b : (forall e, In e es -> el_classes e = []) ->
  (Lit (enter t es) a b <-> exists e, In e es /\ el_text e = (a, b) /\ In (el_tag e) (lit_tags t)).
Proof.
  intros C. rewrite enter_clean by auto. split.
  - intros (e & I & T & H). apply in_map_iff in I as (e0 & <- & I). destruct (in_dec _ _ _) as [J|J].
    + exists e0. auto.
    + rewrite (C e0 I) in H. destruct H.
  - intros (e & I & T & H). exists (Element (el_tag e) (el_text e) (on (tg_name t))). split; [|split; [exact T|apply on_hidden]].
    apply in_map_iff. exists e. split; auto. destruct (in_dec _ _ _); tauto.
Qed.

Lemma enter_same t es : (forall e, In e es -> el_classes e = []) -> (forall e, In e es -> ~ In (el_tag e) (lit_tags t)) -> enter t es = es.
Proof.
  intros C N. rewrite enter_clean by auto. rewrite <- (map_id es) at 2. apply map_ext_in. intros e I.
  destruct (in_dec _ _ _) as [J|J]; auto. elim (N e I J).
Qed.

(** ** Tags *)

Definition entry := (nat * list crange * nat * nat)%type.
Definition k_of (x : entry) := fst (fst (fst x)).
Definition rs_of (x : entry) := snd (fst (fst x)).
Definition a_of (x : entry) := snd (fst x).
Definition b_of (x : entry) := snd x.

Lemma tag_regions_spec fresh points regions : forall n n' ps qs ts,
  tag_regions fresh n points regions = (n', ps, qs, ts) ->
  exists L : list entry, n <= n' /\
    regions = map (fun x => (k_of x, rs_of x)) L /\ ps = map (fun x => (k_of x, a_of x)) L /\ qs = map (fun x => (k_of x, b_of x)) L /\
    ts = map (fun x => Tagged (a_of x) (b_of x) (aget Nat.eq_dec points (k_of x), rs_of x)) L /\
    flat_map (fun x => [a_of x; b_of x]) L = map fresh (seq n (n' - n)).
Proof.
  induction regions as [|[k rs] l IH]; intros n n' ps qs ts H; cbn [tag_regions] in H.
  - injection H as <- <- <- <-. exists []. rewrite Nat.sub_diag. repeat split; auto.
  - destruct (tag_regions fresh (S (S n)) points l) as [[[m p] q] u] eqn:E. injection H as <- <- <- <-.
    destruct (IH _ _ _ _ _ E) as (L & Le & -> & -> & -> & -> & F). exists ((k, rs, fresh n, fresh (S n)) :: L).
    split; [lia|]. repeat (split; [reflexivity|]). cbn [flat_map]. rewrite F. cbn [a_of b_of fst snd app].
    replace (m - n) with (S (S (m - S (S n)))) by lia. reflexivity.
Qed.

Lemma aget_entries (g : entry -> nat) (L : list entry) k v : NoDup (map k_of L) ->
  (aget Nat.eq_dec (map (fun x => (k_of x, g x)) L) k = Some v <-> exists x, In x L /\ k_of x = k /\ g x = v).
Proof.
  intros N. induction L as [|x L IH]; cbn [map aget].
  - split; [discriminate|]. intros (x & [] & _).
  - inversion N as [|? ? N1 N2]; subst. specialize (IH N2). cbn [fst snd]. destruct (Nat.eq_dec k (k_of x)) as [->|D].
    + split.
      * intros [= <-]. exists x. cbn; auto.
      * intros (y & [<-|I] & K & G); [congruence|]. exfalso. apply N1. rewrite <- K. apply in_map; auto.
    + rewrite IH. split; intros (y & I & K & G); exists y; cbn; auto. destruct I as [<-|I]; [congruence|auto].
Qed.

Lemma NoDup_tail {B} (a b : list B) : NoDup (a ++ b) -> NoDup b.
Proof. induction a; cbn; auto. intros N. inversion N; auto. Qed.

Lemma NoDup_flat_map_inj {A B} (g : A -> list B) l x y z : NoDup (flat_map g l) -> In x l -> In y l -> In z (g x) -> In z (g y) -> x = y.
Proof.
  induction l as [|w l IH]; cbn [flat_map]; intros N Ix Iy Zx Zy; [destruct Ix|].
  assert (D : forall u, In u (g w) -> ~ In u (flat_map g l)).
  { intros u U V. clear IH Ix Iy. induction (g w) as [|c r IHr]; [destruct U|]. cbn in N. inversion N; subst. destruct U as [->|U]; auto.
    apply H1, in_app_iff; auto. }
  assert (N2 := NoDup_tail _ _ N).
  destruct Ix as [->|Ix], Iy as [->|Iy]; auto.
  - exfalso. apply (D z Zx), in_flat_map. eauto.
  - exfalso. apply (D z Zy), in_flat_map. eauto.
Qed.

Lemma marks_in d t es e : tagged_marks d t = Some es ->
  (In e es <-> el_classes e = [] /\ exists r a b, Forward d r a b /\ el_text e = (a, b) /\
     (el_tag e = refiner_tag t /\ fst (t_action t) = Some r \/
      el_tag e = region_tag t /\ In r (snd (t_action t)) /\ r_start r <> r_end r)).
Proof.
  unfold tagged_marks. destruct (fst (t_action t)) as [p|] eqn:P; [|discriminate].
  destruct (mark_range d p) as [[a0 b0]|] eqn:M; [|discriminate].
  destruct (collect _ _) as [ms|] eqn:Q; [|discriminate]. intros [= <-].
  split.
  - intros [<-|I].
    + split; [reflexivity|]. exists p, a0, b0. apply mark_range_some in M. cbn. auto.
    + apply in_map_iff in I as ([a b] & <- & I). split; [reflexivity|]. apply (collect_in _ _ _ _ Q) in I as (r & I & R).
      apply mark_range_some in R. exists r, a, b. cbn. split; auto. split; auto. right. split; auto.
      apply filter_In in I as [I J]. split; auto. destruct (pos_eqd _ _); congruence.
  - intros (C & r & a & b & F & T & [(G & R)|(G & R & N)]).
    + left. injection R as ->. apply mark_range_some in F. rewrite F in M. injection M as <- <-. destruct e; cbn in *; congruence.
    + right. apply in_map_iff. exists (a, b). split; [destruct e; cbn in *; congruence|].
      apply (collect_in _ _ _ _ Q). exists r. split; [|apply mark_range_some; auto]. apply filter_In. split; auto.
      destruct (pos_eqd _ _); tauto.
Qed.

Lemma Forward_distinct d r a b : Forward d r a b -> r_start r <> r_end r.
Proof. intros (A & B & L) E. rewrite E in A. rewrite A in B. injection B as ->. lia. Qed.

Lemma collect_concat_in d ts es e : collect (tagged_marks d) ts = Some es ->
  (In e (concat es) <-> exists t l, In t ts /\ tagged_marks d t = Some l /\ In e l).
Proof.
  intros H. split.
  - intros I. apply in_concat in I as (l & Il & I). apply (collect_in _ _ _ _ H) in Il as (t & It & Et). eauto.
  - intros (t & l & It & Et & I). apply in_concat. exists l. split; auto. apply (collect_in _ _ _ _ H). eauto.
Qed.

(** One function: what belongs to a key has exactly the key's two tags. *)
Lemma entries_belong d points (L : list entry) (other : list tagged) es k a b :
  NoDup (map fst points) -> NoDup (map k_of L) ->
  NoDup (flat_map (fun x => [a_of x; b_of x]) L) ->
  (forall t, In t other -> forall x, In x L -> ~ In (refiner_tag t) [a_of x; b_of x] /\ ~ In (region_tag t) [a_of x; b_of x]) ->
  (forall t, In t (map (fun x => Tagged (a_of x) (b_of x) (aget Nat.eq_dec points (k_of x), rs_of x)) L) -> exists l, tagged_marks d t = Some l) ->
  (forall e, In e es <-> exists t l, (In t (map (fun x => Tagged (a_of x) (b_of x) (aget Nat.eq_dec points (k_of x), rs_of x)) L) \/ In t other) /\
                          tagged_marks d t = Some l /\ In e l) ->
  ((exists e, In e es /\ el_text e = (a, b) /\ In (el_tag e) (key_tags (map (fun x => (k_of x, a_of x)) L) (map (fun x => (k_of x, b_of x)) L) (Some k)))
   <-> Belongs d points (map (fun x => (k_of x, rs_of x)) L) k a b).
Proof.
  intros NP NK NF Dis Tot E.
  assert (KT : forall t, In t (key_tags (map (fun x => (k_of x, a_of x)) L) (map (fun x => (k_of x, b_of x)) L) (Some k)) <->
               exists x, In x L /\ k_of x = k /\ In t [a_of x; b_of x]).
  { intros t. cbn [key_tags]. rewrite in_app_iff. pose proof (aget_entries a_of L k) as HA. pose proof (aget_entries b_of L k) as HB.
    destruct (aget Nat.eq_dec (map (fun x => (k_of x, a_of x)) L) k) as [u|] eqn:Ea;
    destruct (aget Nat.eq_dec (map (fun x => (k_of x, b_of x)) L) k) as [v|] eqn:Eb; cbn [In].
    - destruct (proj1 (HA u NK) eq_refl) as (x & Ix & Kx & <-). destruct (proj1 (HB v NK) eq_refl) as (y & Iy & Ky & <-). split.
      + intros [[<-|[]]|[<-|[]]]; [exists x|exists y]; auto.
      + intros (z & Iz & Kz & [<-|[<-|[]]]).
        * left. left. assert (Q : Some (a_of x) = Some (a_of z)) by (apply HA; eauto). congruence.
        * right. left. assert (Q : Some (b_of y) = Some (b_of z)) by (apply HB; eauto). congruence.
    - exfalso. destruct (proj1 (HA u NK) eq_refl) as (x & Ix & Kx & _). assert (Q : None = Some (b_of x)) by (apply HB; eauto). discriminate.
    - exfalso. destruct (proj1 (HB v NK) eq_refl) as (x & Ix & Kx & _). assert (Q : None = Some (a_of x)) by (apply HA; eauto). discriminate.
    - split; [tauto|]. intros (x & Ix & Kx & _). assert (Q : None = Some (a_of x)) by (apply HA; eauto). discriminate. }
  split.
  - intros (e & Ie & T & Te). apply KT in Te as (x & Ix & Kx & Te). apply E in Ie as (t & l & [It|It] & M & Il).
    + apply in_map_iff in It as (y & <- & Iy). apply (marks_in _ _ _ _ M) in Il as (_ & r & a' & b' & F & T' & H).
      rewrite T in T'. injection T' as <- <-. cbn [refiner_tag region_tag t_action fst snd] in H.
      assert (x = y). { eapply NoDup_flat_map_inj with (z := el_tag e); [exact NF|auto|auto|exact Te|]. cbn. destruct H as [[H _]|[H _]]; auto. }
      subst y. exists (rs_of x), r. split; [rewrite <- Kx; apply (in_map (fun x => (k_of x, rs_of x))); auto|]. split; auto.
      destruct H as [(_ & R)|(_ & R & _)]; auto. left. rewrite Kx in R. apply aget_Some_In in R. exact R.
    + exfalso. apply (marks_in _ _ _ _ M) in Il as (_ & r & a' & b' & F & T' & H). destruct (Dis t It x Ix) as [D1 D2].
      destruct H as [(H & _)|(H & _)]; rewrite H in Te; auto.
  - intros (rs & r & Ir & H & F). apply in_map_iff in Ir as (x & Ex & Ix). injection Ex as Kx Rx.
    set (t := Tagged (a_of x) (b_of x) (aget Nat.eq_dec points (k_of x), rs_of x)).
    assert (It : In t (map (fun x => Tagged (a_of x) (b_of x) (aget Nat.eq_dec points (k_of x), rs_of x)) L)) by (apply (in_map (fun x => Tagged (a_of x) (b_of x) (aget Nat.eq_dec points (k_of x), rs_of x))); auto).
    destruct (Tot t It) as [l M].
    assert (X : forall tag, (tag = a_of x /\ In (k, r) points) \/ (tag = b_of x /\ In r rs) -> In (Element tag (a, b) []) l).
    { intros tag Htag. apply (marks_in _ _ _ _ M). split; [reflexivity|]. exists r, a, b. split; auto. split; auto. cbn [el_tag t refiner_tag region_tag t_action fst snd].
      destruct Htag as [[-> P]|[-> P]]; [left|right]; split; auto.
      - rewrite Kx. apply (In_aget _ _ Nat.eq_dec); auto.
      - subst rs. split; auto. eapply Forward_distinct; eauto. }
    destruct H as [H|H].
    + exists (Element (a_of x) (a, b) []). split; [apply E; exists t, l; split; [left; exact It|split; [exact M|apply X; auto]]|]. split; [reflexivity|]. apply KT. exists x. cbn. auto.
    + exists (Element (b_of x) (a, b) []). split; [apply E; exists t, l; split; [left; exact It|split; [exact M|apply X; auto]]|]. split; [reflexivity|]. apply KT. exists x. cbn. auto.
Qed.

(** The tags of one function are those from [n] on; so are those of its elements. *)
Lemma generate_spec fresh n f n' t ts : generate fresh n f = (n', t, ts) ->
  exists L M : list entry, n <= n' /\
    t = Tags (map (fun x => (k_of x, a_of x)) L) (map (fun x => (k_of x, b_of x)) L)
             (map (fun x => (k_of x, a_of x)) M) (map (fun x => (k_of x, b_of x)) M) /\
    loan_regions f = map (fun x => (k_of x, rs_of x)) L /\ move_regions f = map (fun x => (k_of x, rs_of x)) M /\
    ts = map (fun x => Tagged (a_of x) (b_of x) (aget Nat.eq_dec (loan_points f) (k_of x), rs_of x)) L
         ++ map (fun x => Tagged (a_of x) (b_of x) (aget Nat.eq_dec (move_points f) (k_of x), rs_of x)) M /\
    flat_map (fun x => [a_of x; b_of x]) (L ++ M) = map fresh (seq n (n' - n)).
Proof.
  unfold generate. destruct (tag_regions fresh n (loan_points f) (loan_regions f)) as [[[n1 lp] lr] ls] eqn:E1.
  destruct (tag_regions fresh n1 (move_points f) (move_regions f)) as [[[n2 mp] mr] ms] eqn:E2. intros [= <- <- <-].
  destruct (tag_regions_spec _ _ _ _ _ _ _ _ E1) as (L & L1 & -> & -> & -> & -> & F1).
  destruct (tag_regions_spec _ _ _ _ _ _ _ _ E2) as (M & L2 & -> & -> & -> & -> & F2).
  exists L, M. split; [lia|]. repeat (split; [reflexivity|]). rewrite flat_map_app, F1, F2, <- map_app. f_equal.
  replace (n2 - n) with ((n1 - n) + (n2 - n1)) by lia. rewrite seq_app. repeat f_equal. lia.
Qed.

Lemma NoDup_fresh (fresh : nat -> nat) n m : (forall a b, fresh a = fresh b -> a = b) -> NoDup (map fresh (seq n m)).
Proof. intros I. apply FinFun.Injective_map_NoDup; [exact I|apply seq_NoDup]. Qed.

Lemma element_tags d ts es e : collect (tagged_marks d) ts = Some es -> In e (concat es) ->
  el_classes e = [] /\ exists t, In t ts /\ (el_tag e = refiner_tag t \/ el_tag e = region_tag t).
Proof.
  intros H I. apply (collect_concat_in _ _ _ _ H) in I as (t & l & It & M & I). apply (marks_in _ _ _ _ M) in I as (C & r & a & b & _ & _ & G).
  split; auto. exists t. split; auto. tauto.
Qed.

Lemma tagged_tag g (L : list entry) t (h : entry -> action) : In t (map (fun x => Tagged (a_of x) (b_of x) (h x)) L) -> g = refiner_tag t \/ g = region_tag t ->
  In g (flat_map (fun x => [a_of x; b_of x]) L).
Proof.
  intros I G. apply in_map_iff in I as (x & <- & I). apply in_flat_map. exists x. split; auto. cbn in *. intuition.
Qed.

(** The elements of every function are clean and have tags of their own. *)
Lemma draw_clean fresh fs : forall n drawn, draw fresh n fs = Some drawn ->
  forall i t es, nth_error drawn i = Some (t, es) -> forall e, In e es -> el_classes e = [] /\ exists m, n <= m /\ el_tag e = fresh m.
Proof.
  induction fs as [|[d f] fs IH]; intros n drawn H i t es Hi e Ie; cbn [draw] in H.
  - injection H as <-. destruct i; discriminate.
  - destruct (generate fresh n f) as [[n' t0] ts] eqn:G. destruct (collect (tagged_marks d) ts) as [es0|] eqn:Ce; [|discriminate].
    destruct (draw fresh n' fs) as [l|] eqn:D; [|discriminate]. injection H as <-.
    destruct (generate_spec _ _ _ _ _ _ G) as (L & M & Le & _ & _ & _ & -> & F). destruct i as [|i]; cbn in Hi.
    + injection Hi as <- <-. destruct (element_tags _ _ _ _ Ce Ie) as (C & tg & It & Hg). split; auto.
      assert (X : In (el_tag e) (flat_map (fun x => [a_of x; b_of x]) (L ++ M))).
      { rewrite flat_map_app, in_app_iff. apply in_app_iff in It as [It|It]; [left|right]; exact (tagged_tag _ _ _ _ It Hg). }
      rewrite F in X. apply in_map_iff in X as (m & <- & Hm). apply in_seq in Hm. exists m. split; [lia|auto].
    + destruct (IH _ _ D _ _ _ Hi _ Ie) as (C & m & Lm & E). split; auto. exists m. split; [lia|auto].
Qed.

Lemma lit_tags_in L M name loan move g :
  In g (lit_tags (Target (Tags (map (fun x => (k_of x, a_of x)) L) (map (fun x => (k_of x, b_of x)) L)
             (map (fun x => (k_of x, a_of x)) M) (map (fun x => (k_of x, b_of x)) M)) name loan move)) ->
  In g (flat_map (fun x => [a_of x; b_of x]) (L ++ M)).
Proof.
  assert (X : forall (h : entry -> nat) (L : list entry) k v, (forall x, In (h x) [a_of x; b_of x]) ->
    aget Nat.eq_dec (map (fun x => (k_of x, h x)) L) k = Some v -> In v (flat_map (fun x => [a_of x; b_of x]) L)).
  { intros h K k v Hh E. apply aget_Some_In in E. apply in_map_iff in E as (x & Ex & I). injection Ex as _ <-. apply in_flat_map. exists x. split; auto. }
  assert (Y : forall (K : list entry) key, In g (key_tags (map (fun x => (k_of x, a_of x)) K) (map (fun x => (k_of x, b_of x)) K) key) -> In g (flat_map (fun x => [a_of x; b_of x]) K)).
  { intros K [k|] H; [|destruct H]. cbn [key_tags] in H. apply in_app_iff in H.
    destruct (aget Nat.eq_dec (map (fun x => (k_of x, a_of x)) K) k) as [u|] eqn:Ea;
    destruct (aget Nat.eq_dec (map (fun x => (k_of x, b_of x)) K) k) as [v|] eqn:Eb; cbn [In] in H; destruct H as [H|H]; try tauto; destruct H as [<-|[]];
    first [refine (X a_of _ _ _ _ Ea)|refine (X b_of _ _ _ _ Eb)]; intros; cbn; auto. }
  unfold lit_tags. cbn [tg_tags tg_loan tg_move t_loan_points t_loan_regions t_move_points t_move_regions]. rewrite flat_map_app, !in_app_iff.
  intros [H|H]; [left|right]; eapply Y; eauto.
Qed.

Lemma draw_point fresh fs (Inj : forall a b, fresh a = fresh b -> a = b) : forall n drawn, (forall d f, In (d, f) fs -> Keyed f) ->
  draw fresh n fs = Some drawn -> forall i d f t es, nth_error fs i = Some (d, f) -> nth_error drawn i = Some (t, es) ->
  forall name loan move,
  (forall a b, Lit (enter (Target t name loan move) es) a b <->
     (exists k, loan = Some k /\ Belongs d (loan_points f) (loan_regions f) k a b) \/
     (exists k, move = Some k /\ Belongs d (move_points f) (move_regions f) k a b)) /\
  (forall j t' es', j <> i -> nth_error drawn j = Some (t', es') -> enter (Target t name loan move) es' = es').
Proof.
  induction fs as [|[d0 f0] fs IH]; intros n drawn K H i d f t es Hi Hd name loan move; cbn [draw] in H; [destruct i; discriminate|].
  destruct (generate fresh n f0) as [[n' t0] ts] eqn:G. destruct (collect (tagged_marks d0) ts) as [es0|] eqn:Ce; [|discriminate].
  destruct (draw fresh n' fs) as [l|] eqn:D; [|discriminate]. injection H as <-.
  destruct (generate_spec _ _ _ _ _ _ G) as (L & M & Le & -> & EL & EM & -> & F).
  assert (All : forall j t' es', nth_error ((Tags (map (fun x => (k_of x, a_of x)) L) (map (fun x => (k_of x, b_of x)) L)
             (map (fun x => (k_of x, a_of x)) M) (map (fun x => (k_of x, b_of x)) M), concat es0) :: l) j = Some (t', es') -> forall e, In e es' -> el_classes e = []).
  { intros j t' es' Hj e Ie. refine (proj1 (draw_clean fresh ((d0, f0) :: fs) n _ _ j t' es' Hj e Ie)). cbn [draw]. rewrite G, Ce, D. reflexivity. }
  assert (ND : NoDup (flat_map (fun x => [a_of x; b_of x]) (L ++ M))) by (rewrite F; apply NoDup_fresh; auto).
  destruct i as [|i]; cbn in Hi, Hd.
  - injection Hi as <- <-. injection Hd as <- <-. destruct (K d0 f0 (or_introl eq_refl)) as (K1 & K2 & K3 & K4). split.
    + intros a b. rewrite lit_enter by exact (All 0 _ _ eq_refl).
      assert (NL : NoDup (map k_of L)) by (rewrite EL, map_map in K2; exact K2).
      assert (NM : NoDup (map k_of M)) by (rewrite EM, map_map in K4; exact K4).
      rewrite flat_map_app in ND.
      assert (NDL : NoDup (flat_map (fun x => [a_of x; b_of x]) L)) by (clear - ND; induction (flat_map _ L); [constructor|]; cbn in ND; inversion ND; subst; constructor; [rewrite in_app_iff in H1; tauto|auto]).
      assert (NDM : NoDup (flat_map (fun x => [a_of x; b_of x]) M)) by exact (NoDup_tail _ _ ND).
      assert (Dis : forall g, In g (flat_map (fun x => [a_of x; b_of x]) L) -> In g (flat_map (fun x => [a_of x; b_of x]) M) -> False).
      { clear - ND. induction (flat_map _ L) as [|y r IHr]; intros g; cbn; [tauto|]. cbn in ND. inversion ND; subst. intros [<-|I] J; [apply H1, in_app_iff; auto|eauto]. }
      assert (TotA : forall tg, In tg (map (fun x => Tagged (a_of x) (b_of x) (aget Nat.eq_dec (loan_points f0) (k_of x), rs_of x)) L ++
         map (fun x => Tagged (a_of x) (b_of x) (aget Nat.eq_dec (move_points f0) (k_of x), rs_of x)) M) -> exists l, tagged_marks d0 tg = Some l).
      { apply collect_exists. eauto. }
      assert (BL : forall k, (exists e, In e (concat es0) /\ el_text e = (a, b) /\ In (el_tag e) (key_tags (map (fun x => (k_of x, a_of x)) L) (map (fun x => (k_of x, b_of x)) L) (Some k)))
         <-> Belongs d0 (loan_points f0) (map (fun x => (k_of x, rs_of x)) L) k a b).
      { intros k. apply entries_belong with (other := map (fun x => Tagged (a_of x) (b_of x) (aget Nat.eq_dec (move_points f0) (k_of x), rs_of x)) M); auto.
        - intros tg It x Ix. assert (Z : forall g, In g [a_of x; b_of x] -> In g (flat_map (fun x => [a_of x; b_of x]) L)) by (intros; apply in_flat_map; eauto).
          split; intros J; refine (Dis _ (Z _ J) (tagged_tag _ _ _ _ It _)); auto.
        - intros tg It. apply TotA. apply in_app_iff; auto.
        - intros e. rewrite (collect_concat_in _ _ _ _ Ce). split; intros (tg & lx & It & Q); exists tg, lx; (split; [|exact Q]); rewrite in_app_iff in *; auto. }
      assert (BM : forall k, (exists e, In e (concat es0) /\ el_text e = (a, b) /\ In (el_tag e) (key_tags (map (fun x => (k_of x, a_of x)) M) (map (fun x => (k_of x, b_of x)) M) (Some k)))
         <-> Belongs d0 (move_points f0) (map (fun x => (k_of x, rs_of x)) M) k a b).
      { intros k. apply entries_belong with (other := map (fun x => Tagged (a_of x) (b_of x) (aget Nat.eq_dec (loan_points f0) (k_of x), rs_of x)) L); auto.
        - intros tg It x Ix. assert (Z : forall g, In g [a_of x; b_of x] -> In g (flat_map (fun x => [a_of x; b_of x]) M)) by (intros; apply in_flat_map; eauto).
          split; intros J; refine (Dis _ (tagged_tag _ _ _ _ It _) (Z _ J)); auto.
        - intros tg It. apply TotA. apply in_app_iff; auto.
        - intros e. rewrite (collect_concat_in _ _ _ _ Ce). split; intros (tg & lx & It & Q); exists tg, lx; (split; [|exact Q]); rewrite in_app_iff in *; tauto. }
      rewrite EL, EM. unfold lit_tags. cbn [tg_tags tg_loan tg_move t_loan_points t_loan_regions t_move_points t_move_regions]. split.
      * intros (e & Ie & Te & Ig). apply in_app_iff in Ig as [Ig|Ig].
        -- left. destruct loan as [k|]; [|destruct Ig]. exists k. split; auto. apply BL. eauto.
        -- right. destruct move as [k|]; [|destruct Ig]. exists k. split; auto. apply BM. eauto.
      * intros [(k & -> & B)|(k & -> & B)]; [apply BL in B|apply BM in B]; destruct B as (e & Ie & Te & Ig); exists e; rewrite in_app_iff; auto.
    + intros j t' es' Nj Hj. apply enter_same; [exact (All j _ _ Hj)|]. intros e Ie J. apply lit_tags_in in J. rewrite F in J.
      destruct j as [|j]; [congruence|]. cbn in Hj. destruct (draw_clean _ _ _ _ D _ _ _ Hj _ Ie) as (_ & m & Lm & Em).
      rewrite Em in J. apply in_map_iff in J as (m' & Q & Hm). apply Inj in Q. subst m'. apply in_seq in Hm. lia.
  - destruct (IH n' l (fun d f I => K d f (or_intror I)) D i d f t es Hi Hd name loan move) as [A B]. split; [exact A|].
    intros [|j] t' es' Nj Hj; cbn in Hj; [|exact (B j t' es' (fun E => Nj (f_equal S E)) Hj)]. injection Hj as <- <-.
    apply enter_same; [exact (All 0 _ _ eq_refl)|]. intros e Ie J.
    (* the tags of the target are later ones *)
    assert (T : forall fs n drawn, draw fresh n fs = Some drawn -> forall i t es, nth_error drawn i = Some (t, es) -> forall g, In g (lit_tags (Target t name loan move)) -> exists m, n <= m /\ g = fresh m).
    { clear - Inj. induction fs as [|[d f] fs IH]; intros n drawn H i t es Hi g Hg; cbn [draw] in H; [injection H as <-; destruct i; discriminate|].
      destruct (generate fresh n f) as [[n' t0] ts] eqn:G. destruct (collect (tagged_marks d) ts) as [es0|]; [|discriminate].
      destruct (draw fresh n' fs) as [l|] eqn:D; [|discriminate]. injection H as <-.
      destruct (generate_spec _ _ _ _ _ _ G) as (L & M & Le & -> & _ & _ & _ & F). destruct i as [|i]; cbn in Hi.
      - injection Hi as <- _. apply lit_tags_in in Hg. rewrite F in Hg. apply in_map_iff in Hg as (m & <- & Hm). apply in_seq in Hm. exists m. split; [lia|auto].
      - destruct (IH _ _ D _ _ _ Hi _ Hg) as (m & Lm & ->). exists m. split; [lia|auto]. }
    destruct (T _ _ _ D _ _ _ Hd _ J) as (m & Lm & Em).
    destruct (element_tags _ _ _ _ Ce Ie) as (_ & tg & It & Hg).
    assert (X : In (el_tag e) (flat_map (fun x => [a_of x; b_of x]) (L ++ M))).
    { rewrite flat_map_app, in_app_iff. apply in_app_iff in It as [It|It]; [left|right]; exact (tagged_tag _ _ _ _ It Hg). }
    rewrite F in X. apply in_map_iff in X as (m' & Q & Hm). rewrite Em in Q. apply Inj in Q. subst m'. apply in_seq in Hm. lia.
Qed.

(** ** Lines *)

Lemma cm_lines_plain s : ~ In CR s -> forall cur, cm_lines cur s = match split NL s with [] => [rev cur] | l :: r => (rev cur ++ l) :: r end.
Proof.
  induction s as [|c s IH]; intros N cur.
  - cbn. rewrite app_nil_r. reflexivity.
  - assert (N' : ~ In CR s) by (intros I; apply N; cbn; auto). assert (Nc : c <> CR) by (intros ->; apply N; cbn; auto).
    cbn [cm_lines split]. destruct (Nat.eqb_spec c NL) as [->|D].
    + rewrite (IH N' []). cbn [rev app]. destruct (split NL s) as [|l r] eqn:E; [elim (split_nonempty NL s E)|]. rewrite app_nil_r. reflexivity.
    + apply Nat.eqb_neq in Nc. rewrite Nc. rewrite (IH N' (c :: cur)).
      destruct (split NL s) as [|l r] eqn:E; [elim (split_nonempty NL s E)|]. cbn [rev]. rewrite <- app_assoc. reflexivity.
Qed.
Lemma cm_doc_plain s : ~ In CR s -> cm_doc s = split NL s.
Proof.
  intros N. unfold cm_doc. rewrite cm_lines_plain by auto. destruct (split NL s) as [|l r] eqn:E; [elim (split_nonempty NL s E)|reflexivity].
Qed.

(** There are at least as many lines as there are newlines. *)
Lemma cm_lines_length : forall n s, length s <= n -> forall cur, length (split NL s) <= length (cm_lines cur s).
Proof.
  induction n as [|n IH]; intros [|c s] Hn cur; cbn [length] in Hn; try (cbn; lia).
  cbn [cm_lines split]. destruct (Nat.eqb_spec c NL) as [->|D].
  - cbn [length]. specialize (IH s ltac:(lia) []). lia.
  - pose proof (split_nonempty NL s) as Ns.
    match goal with |- ?l <= _ => assert (E : l = length (split NL s)) by (destruct (split NL s); [congruence|reflexivity]); rewrite E; clear E Ns end.
    destruct (Nat.eqb_spec c CR) as [->|D2]; [|apply IH; lia].
    destruct s as [|e s]; [cbn; lia|]. destruct (Nat.eqb_spec e NL) as [->|D3].
    + cbn [split length] in *. rewrite Nat.eqb_refl. cbn [length]. specialize (IH s ltac:(lia) []). lia.
    + cbn [length] in *. specialize (IH (e :: s) ltac:(cbn; lia) []). lia.
Qed.

Lemma Doc_length n pre ls outs marks : Doc n pre ls outs marks -> length outs = length ls.
Proof. intros D. induction D; cbn; auto. Qed.
Lemma Doc_incl n pre ls outs marks c : Doc n pre ls outs marks -> (forall l, In l ls -> ~ In c l) -> forall o, In o outs -> ~ In c o.
Proof.
  intros D. induction D as [|n pre l ls out outs ms marks L D IH]; intros N o; [intros []|]. intros [<-|I] J.
  - apply (N l (or_introl eq_refl)). eapply Line_incl; eauto.
  - eapply IH; eauto. intros l' I'. apply N. right. auto.
Qed.
Lemma In_join c ls : In c (join [NL] ls) -> c = NL \/ exists l, In l ls /\ In c l.
Proof.
  induction ls as [|l ls IH]; [intros []|]. destruct ls as [|l' ls'].
  - cbn. eauto.
  - cbn [join]. intros I. apply in_app_iff in I as [I|I]; [right; exists l; cbn; auto|].
    apply in_app_iff in I as [[<-|[]]|I]; auto. destruct (IH I) as [->|(x & Ix & Jx)]; auto. right. exists x. cbn; auto.
Qed.
Lemma lines_nonempty c : c <> [] -> lines c <> [].
Proof.
  unfold lines. intros H. assert (X : forall s cur, cur ++ s <> [] -> lines_from cur s <> []).
  { induction s as [|x s IH]; intros cur N; cbn [lines_from].
    - rewrite app_nil_r in N. destruct cur; congruence.
    - destruct (x =? NL); [discriminate|]. apply IH. discriminate. }
  apply X. auto.
Qed.

(** The document of the page has the lines of the program. *)
Lemma page_lines n pre code outs marks : code <> [] -> Doc n pre (lines code) outs marks ->
  (forall l, In l (lines code) -> ~ In CR l) -> cm_doc (join [NL] outs) = outs.
Proof.
  intros Ne D C. rewrite cm_doc_plain.
  - apply split_join.
    + intros ->. apply Doc_length in D. apply (lines_nonempty code Ne). destruct (lines code); [auto|discriminate].
    + eapply Doc_incl; eauto. intros l I. apply (lines_no code). auto.
  - intros I. apply In_join in I as [E|(l & I & J)]; [vm_compute in E; discriminate|]. revert J. eapply Doc_incl; eauto.
Qed.

Lemma HiddenLines_in n ls l : HiddenLines n ls l -> forall k, In k l <-> exists i t, nth_error ls i = Some (HASH :: t) /\ k = n + i.
Proof.
  intros H. induction H as [n|n t ls l H IH|n s ls l N H IH]; intros k.
  - split; [intros []|]. intros ([|i] & t & E & _); discriminate.
  - cbn [In]. rewrite IH. split.
    + intros [<-|(i & u & E & ->)]; [exists 0, t; split; [reflexivity|lia]|]. exists (S i), u. split; [exact E|lia].
    + intros ([|i] & u & E & ->); [left; lia|]. right. exists i, u. split; [exact E|lia].
  - rewrite IH. split.
    + intros (i & u & E & ->). exists (S i), u. split; [exact E|lia].
    + intros ([|i] & u & E & ->); [cbn in E; injection E as ->; elim (N u eq_refl)|]. exists i, u. split; [exact E|lia].
Qed.

Lemma line_from_lt d m n : m < n -> n <= length d -> line_from d m < line_from d n.
Proof.
  intros L B. destruct (nth_error d m) as [l|] eqn:E; [|apply nth_error_None in E; lia].
  pose proof (line_from_S d m l E). pose proof (line_from_le d (S m) n ltac:(lia)). lia.
Qed.
Lemma line_from_inj d m n : m < length d -> n < length d -> line_from d m = line_from d n -> m = n.
Proof.
  intros A B E. destruct (Nat.lt_trichotomy m n) as [L|[L|L]]; auto; [pose proof (line_from_lt d m n L)|pose proof (line_from_lt d n m L)]; lia.
Qed.

Lemma hide_lines_spec d ls : (forall n, In n ls -> 1 <= n <= length d) -> exists ps, hide_lines d ls = Some ps /\
  forall k, k < length d -> (In (line_from d k) ps <-> In (S k) ls).
Proof.
  intros H. unfold hide_lines. set (g := fun n => if (1 <=? n) && (n <=? length d) then Some (line_from d (n - 1)) else None).
  assert (G : forall n, In n ls -> g n = Some (line_from d (n - 1))).
  { intros n I. destruct (H n I) as [A B]. unfold g. apply Nat.leb_le in A, B. rewrite A, B. reflexivity. }
  destruct (proj2 (collect_exists g ls)) as [ps E]; [intros n I; eauto|]. exists ps. split; [exact E|].
  intros k Hk. rewrite (collect_in _ _ _ _ E). split.
  - intros (n & I & Gn). rewrite (G n I) in Gn. injection Gn as Q. destruct (H n I). apply line_from_inj in Q; try lia. replace (S k) with n by lia. auto.
  - intros I. exists (S k). split; auto. rewrite (G _ I). do 2 f_equal. lia.
Qed.

Lemma InLine_at d k n : InLine d k n -> line_at d n = Some k.
Proof.
  intros (before & l & after & a & b & -> & <- & -> & ->).
  apply line_at_in with (l := a ++ b); [rewrite nth_error_app2, Nat.sub_diag by lia; reflexivity|].
  rewrite line_from_app. unfold text_before. rewrite position_app, <- !position_line, position_app. lia.
Qed.

Lemma FocusLines_in marks l : FocusLines marks l -> forall n, In n l <-> exists i v, MarkedAt marks n Stepper i /\ Configured i (lit "focus") v.
Proof.
  intros F. induction F as [|n0 t i v ms l Cf F IH|n0 t k i ms l Cf F IH]; intros n.
  - split; [intros []|]. intros (i & v & (t & []) & _).
  - cbn [In]. rewrite IH. split.
    + intros [<-|(i' & v' & (t' & I) & C')]; [exists i, v; split; [exists t; left; reflexivity|auto]|].
      exists i', v'. split; [exists t'; right; auto|auto].
    + intros (i' & v' & (t' & [E|I]) & C'); [injection E as -> _ _; auto|]. right. exists i', v'. split; [exists t'; auto|auto].
  - rewrite IH. split.
    + intros (i' & v' & (t' & I) & C'). exists i', v'. split; [exists t'; right; auto|auto].
    + intros (i' & v' & (t' & [E|I]) & C').
      * injection E as _ _ -> ->. destruct Cf as [N|N]; [congruence|elim (N v' C')].
      * exists i', v'. split; [exists t'; auto|auto].
Qed.
