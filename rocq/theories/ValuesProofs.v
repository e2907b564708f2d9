(** Proofs about how memory is shown. *)
From Coq Require Import List Arith Bool Lia ZArith.
From Verif Require Import Base TraceModel ValuesModel ValuesSpec.
Import ListNotations.

(** ** Arrays *)

Lemma collect_state_app {S E T} (mk : nat -> S -> (E + T) * S) a b s :
  collect_state mk (a ++ b) s =
  match collect_state mk a s with
  | (inl e, s1) => (inl e, s1)
  | (inr xs, s1) => match collect_state mk b s1 with
                    | (inl e, s2) => (inl e, s2)
                    | (inr ys, s2) => (inr (xs ++ ys), s2)
                    end
  end.
Proof.
  revert s. induction a as [|i a IH]; intros s; cbn.
  - destruct (collect_state mk b s) as [[e|ys] s2]; auto.
  - destruct (mk i s) as [[e|x] s1]; auto. rewrite IH.
    destruct (collect_state mk a s1) as [[e|xs] s2]; auto.
    destruct (collect_state mk b s2) as [[e|ys] s3]; auto.
Qed.

Lemma shown_long n : 12 < n -> shown_indices n = seq 0 (ABBREV_MAX - 1) ++ [n - 1].
Proof. intros L. unfold shown_indices. apply Nat.leb_gt in L. rewrite L. reflexivity. Qed.

Lemma abbrev_new_spec {S E T} n (mk : nat -> S -> (E + T) * S) s :
  match abbrev_new n mk s with
  | (inl e, s') => collect_state mk (shown_indices n) s = (inl e, s')
  | (inr a, s') => collect_state mk (shown_indices n) s = (inr (elements a), s') /\ (complete a <-> n <= 12)
  end.
Proof.
  unfold abbrev_new. destruct (n <=? ABBREV_MAX) eqn:Le.
  - unfold shown_indices. change 12 with ABBREV_MAX. rewrite Le. apply Nat.leb_le in Le.
    destruct (collect_state mk (seq 0 n) s) as [[e|xs] s1]; auto. cbn. split; auto. tauto.
  - apply Nat.leb_gt in Le. rewrite shown_long by exact Le. rewrite collect_state_app.
    destruct (collect_state mk (seq 0 (ABBREV_MAX - 1)) s) as [[e|xs] s1]; auto. cbn [collect_state].
    destruct (mk (n - 1) s1) as [[e|x] s2]; auto. split; auto. cbn. unfold ABBREV_MAX in Le. split; [tauto|lia].
Qed.

Lemma shown_indices_bound n i : In i (shown_indices n) -> i < n.
Proof.
  unfold shown_indices. destruct (n <=? 12) eqn:Le.
  - rewrite in_seq. lia.
  - apply Nat.leb_gt in Le. intros I. cbn in I. lia.
Qed.

Lemma collect_state_inr {S E T} (mk : nat -> S -> (E + T) * S) idxs : forall s xs s',
  collect_state mk idxs s = (inr xs, s') -> length xs = length idxs.
Proof.
  induction idxs as [|i r IH]; intros s xs s'; cbn.
  - intros [= <- <-]. auto.
  - destruct (mk i s) as [[e|x] s1]; [discriminate|]. destruct (collect_state mk r s1) as [[e|ys] s2] eqn:E1; [discriminate|].
    intros [= <- <-]. cbn. f_equal. eauto.
Qed.

(** ** Layouts *)

Lemma layout_ind' (P : layout -> Prop) :
  (forall s, P (Prim s)) -> (forall s, P (Opaque s)) -> (forall s, P (EnumL s)) -> (forall s, P (Other s)) ->
  (forall s fs, (forall o f, In (o, f) fs -> P f) -> P (Agg s fs)) ->
  (forall n e, P e -> P (Arr n e)) -> forall l, P l.
Proof.
  intros H1 H2 H3 H4 H5 H6. fix IH 1. intros [s|s|s|s|s fs|n e].
  - apply H1.
  - apply H2.
  - apply H3.
  - apply H4.
  - apply H5. induction fs as [|[o' f'] fs IHf]; intros o f I; [destruct I|]. destruct I as [E|I].
    + injection E as _ <-. apply IH.
    + eapply IHf; eauto.
  - apply H6. apply IH.
Qed.

Fixpoint loc_fields (target i : nat) (fs : list (nat * layout)) (offset : nat) : option (list seg) :=
  match fs with
  | [] => Some []
  | (_, f) :: rest =>
    if target <? offset + size f then
      match locate target f offset with Some p => Some (Field i :: p) | None => None end
    else loc_fields target (S i) rest (offset + size f)
  end.

Lemma locate_agg target s fs offset : locate target (Agg s fs) offset =
  if offset =? target then Some [] else loc_fields target 0 fs offset.
Proof.
  cbn [locate]. destruct (offset =? target); auto. generalize 0 as i. revert offset.
  induction fs as [|[o f] fs IH]; intros offset i; cbn; auto. rewrite IH. auto.
Qed.

Lemma obj_bound l : Contiguous l -> forall p t x, obj l p = Some (t, x) -> t <= size l.
Proof.
  induction l as [s|s|s|s|s fs IH|n e IH] using layout_ind'; intros C p t x E;
    destruct p as [|[i|i|a b] p]; cbn [obj] in E; try discriminate; try (injection E as <- <-; lia).
  - destruct (nth_error fs i) as [[o f]|] eqn:En; [|discriminate].
    destruct (obj f p) as [[t' y]|] eqn:Eo; [|discriminate E]. injection E as Et Ex; subst t x.
    inversion C as [| |? Pk Cf|]; subst. cbn.
    assert (I : In (o, f) fs) by (eapply nth_error_In; eauto).
    specialize (IH o f I (Cf o f I) p t' y Eo).
    assert (X : forall at_ fs i, packed at_ fs -> nth_error fs i = Some (o, f) -> o + size f <= at_ + sum_sizes fs).
    { clear. intros at_ fs. revert at_. induction fs as [|[o1 f1] fs IHf]; intros at_ [|i] Pk En; try discriminate; cbn in *.
      - injection En as -> ->. destruct Pk as [-> _]. lia.
      - destruct Pk as [-> Pk]. specialize (IHf _ _ Pk En). lia. }
    specialize (X 0 fs i Pk En). lia.
  - destruct (i <? n) eqn:L; [|discriminate]. apply Nat.ltb_lt in L.
    destruct (obj e p) as [[t' y]|] eqn:Eo; [|discriminate]. injection E as <- <-.
    inversion C; subst. specialize (IH H0 p t' y Eo). cbn. nia.
Qed.

(** Field [i] starts at [o]; the loop over the fields finds the field that holds
    the target. *)
Lemma loc_fields_spec target fs : forall at_ i0 base, packed at_ fs ->
  base + at_ <= target -> target < base + at_ + sum_sizes fs ->
  exists i o f, nth_error fs i = Some (o, f) /\ base + o <= target /\ target < base + o + size f /\
    loc_fields target i0 fs (base + at_) =
      match locate target f (base + o) with Some p => Some (Field (i0 + i) :: p) | None => None end.
Proof.
  induction fs as [|[o f] fs IH]; intros at_ i0 base Pk Lo Hi; cbn [packed sum_sizes loc_fields] in *; [lia|].
  destruct Pk as [-> Pk]. destruct (target <? base + at_ + size f) eqn:L.
  - apply Nat.ltb_lt in L. exists 0, at_, f. rewrite Nat.add_0_r. split; [auto|]. split; [lia|]. split; [lia|]. auto.
  - apply Nat.ltb_ge in L.
    destruct (IH (at_ + size f) (S i0) base Pk) as (i & o & f' & En & A & B & E); try lia.
    exists (S i), o, f'. rewrite Nat.add_assoc in E. rewrite E. rewrite Nat.add_succ_r. split; [auto|].
    split; [lia|]. split; [lia|]. auto.
Qed.

Lemma packed_order at_ fs : packed at_ fs -> forall i j o f o' f', nth_error fs i = Some (o, f) ->
  nth_error fs j = Some (o', f') -> i < j -> o + size f <= o'.
Proof.
  revert at_. induction fs as [|[o1 f1] fs IH]; intros at_ Pk i j o f o' f' Ei Ej L; [destruct i; discriminate|].
  destruct Pk as [-> Pk]. destruct j as [|j]; [lia|]. cbn in Ej. destruct i as [|i]; cbn in Ei.
  - injection Ei as <- <-.
    assert (X : forall b fs j, packed b fs -> nth_error fs j = Some (o', f') -> b <= o').
    { clear. intros b fs. revert b. induction fs as [|[o1 f1] fs IH]; intros b [|j] Pk E; try discriminate; cbn in *.
      - injection E as -> ->. destruct Pk as [-> _]. auto.
      - destruct Pk as [_ Pk]. specialize (IH _ _ Pk E). lia. }
    eapply X; eauto.
  - eapply (IH _ Pk i j); eauto. lia.
Qed.

Lemma locate_spec l : Contiguous l -> forall p t base, Starts l p t -> t < size l ->
  exists q, locate (base + t) l base = Some q /\ Starts l q t /\
    forall k, k < length q -> ~ Starts l (firstn k q) t.
Proof.
  induction l as [s|s|s|s|s fs IH|n e IH] using layout_ind'; intros C p t base (x & E) Lt.
  - destruct p as [|[i|i|a b] p]; cbn [obj] in E; try discriminate. injection E as <- <-. exists [].
    rewrite Nat.add_0_r. cbn. rewrite Nat.eqb_refl. split; auto. split; [eexists; reflexivity|]. intros k; lia.
  - destruct p as [|[i|i|a b] p]; cbn [obj] in E; try discriminate. injection E as <- <-. exists [].
    rewrite Nat.add_0_r. cbn. rewrite Nat.eqb_refl. split; auto. split; [eexists; reflexivity|]. intros k; lia.
  - inversion C.
  - inversion C.
  - rewrite locate_agg. destruct (base =? base + t) eqn:Z.
    { apply Nat.eqb_eq in Z. assert (t = 0) by lia. subst. exists []. split; auto. split; [eexists; reflexivity|].
      intros k; cbn; lia. }
    apply Nat.eqb_neq in Z. inversion C as [| |? Pk Cf|]; subst. cbn [size] in Lt.
    destruct (loc_fields_spec (base + t) fs 0 0 base Pk) as (i & o & f & En & A & B & EL); [lia|lia|].
    rewrite Nat.add_0_r in EL. rewrite EL.
    assert (I : In (o, f) fs) by (eapply nth_error_In; eauto).
    assert (Cx : Contiguous f) by (eapply Cf; eauto).
    (* the target starts an object of this field *)
    assert (X : exists p', Starts f p' (t - o)).
    { destruct p as [|[j|j|a b] p]; cbn [obj] in E; try discriminate.
      { injection E as <- <-. lia. }
      destruct (nth_error fs j) as [[o' f']|] eqn:Ej; [|discriminate].
      destruct (obj f' p) as [[t' y]|] eqn:Eo; [|discriminate]. injection E as <- <-.
      assert (Bd : t' <= size f').
      { eapply obj_bound; eauto. eapply Cf. eapply nth_error_In; eauto. }
      destruct (lt_eq_lt_dec j i) as [[L| ->]|L].
      - pose proof (packed_order 0 fs Pk j i o' f' o f Ej En L). exists []. assert (o' + t' = o) by lia.
        replace (o' + t' - o) with 0 by lia. eexists. reflexivity.
      - assert (o' = o /\ f' = f) as [-> ->] by (split; congruence). exists p. replace (o + t' - o) with t' by lia.
        eexists. eauto.
      - pose proof (packed_order 0 fs Pk i j o f o' f' En Ej L). lia. }
    destruct X as (p' & S').
    destruct (IH o f I Cx p' (t - o) (base + o) S') as (q & E1 & E2 & E3); [lia|].
    replace (base + o + (t - o)) with (base + t) in E1 by lia. rewrite E1.
    exists (Field i :: q). split; auto. split.
    + destruct E2 as (y & E2). exists y. cbn [obj]. rewrite En, E2. f_equal. f_equal. lia.
    + intros [|k] Hk (y & Ey); cbn [obj firstn] in Ey.
      * injection Ey as Ey _. lia.
      * rewrite En in Ey. destruct (obj f (firstn k q)) as [[t2 y2]|] eqn:E4; [|discriminate].
        injection Ey as Et ->. apply (E3 k); [cbn in Hk; lia|]. exists y. rewrite E4. f_equal. f_equal. lia.
  - cbn [locate]. destruct (base =? base + t) eqn:Z.
    { apply Nat.eqb_eq in Z. assert (t = 0) by lia. subst. exists []. split; auto. split; [eexists; reflexivity|].
      intros k; cbn; lia. }
    apply Nat.eqb_neq in Z. replace (base + t <? base) with false by (symmetry; apply Nat.ltb_ge; lia).
    cbn [size] in Lt. destruct (size e) as [|z] eqn:Es; [lia|].
    replace (base + t - base) with t by lia.
    inversion C as [| | |? ? Ce]; subst.
    set (d := t / S z). assert (Hd : t = S z * d + t mod S z) by (apply Nat.div_mod; lia).
    assert (Hm : t mod S z < S z) by (apply Nat.mod_upper_bound; lia). set (r := t mod S z) in *.
    assert (Dn : d < n) by (apply Nat.div_lt_upper_bound; [lia|]; nia).
    assert (X : exists p', Starts e p' r).
    { destruct p as [|[j|j|a b] p]; cbn [obj] in E; try discriminate.
      { injection E as <- <-. lia. }
      destruct (j <? n) eqn:Lj; [|discriminate]. apply Nat.ltb_lt in Lj.
      destruct (obj e p) as [[t' y]|] eqn:Eo; [|discriminate]. injection E as Et <-.
      pose proof (obj_bound e Ce p t' y Eo) as Bd. rewrite Es in *.
      destruct (Nat.eq_dec t' (S z)) as [->|N].
      - exists []. assert (r = 0).
        { unfold r. rewrite <- Et. replace (j * S z + S z) with ((j + 1) * S z) by lia. apply Nat.mod_mul. lia. }
        rewrite H. eexists. reflexivity.
      - exists p. assert (r = t').
        { unfold r. rewrite <- Et. rewrite Nat.add_comm, Nat.mod_add by lia. apply Nat.mod_small. lia. }
        rewrite H. eexists. eauto. }
    destruct X as (p' & S').
    destruct (IH Ce p' r (base + d * S z) S') as (q & E1 & E2 & E3); [lia|].
    replace (base + d * S z + r) with (base + t) in E1 by lia. rewrite E1.
    exists (Index d :: q). split; auto. assert (Ld : (d <? n) = true) by (apply Nat.ltb_lt; auto). split.
    + destruct E2 as (y & E2). exists y. cbn [obj]. rewrite Ld, E2, Es. f_equal. f_equal. lia.
    + intros [|k] Hk (y & Ey); cbn [obj firstn] in Ey.
      * injection Ey as Ey _. lia.
      * rewrite Ld in Ey. destruct (obj e (firstn k q)) as [[t2 y2]|] eqn:E4; [|discriminate].
        rewrite Es in Ey. injection Ey as Et ->. apply (E3 k); [cbn in Hk; lia|]. exists y. rewrite E4. f_equal. f_equal. lia.
Qed.

(** ** Strings *)

Lemma utf8_length c : length (utf8 c) = 1 <-> c < 128.
Proof.
  unfold utf8. destruct (c <? 128) eqn:L.
  - apply Nat.ltb_lt in L. cbn [length]. tauto.
  - apply Nat.ltb_ge in L. destruct (c <? 2048); [|destruct (c <? 256 * 256)]; cbn [length]; split; intros; lia.
Qed.

Lemma utf8_pos c : 1 <= length (utf8 c).
Proof. unfold utf8. destruct (c <? 128); [|destruct (c <? 2048); [|destruct (c <? 256 * 256)]]; cbn [length]; lia. Qed.

Lemma show_string_length s : length s <= length (show_string s) /\
  (length (show_string s) = length s -> Forall (fun c => c < 128) s).
Proof.
  induction s as [|c s [A B]]; unfold show_string in *; cbn [flat_map]; [split; [auto|constructor]|].
  rewrite app_length. cbn [length]. pose proof (utf8_pos c). split; [lia|]. intros E. constructor.
  - apply utf8_length. lia.
  - apply B. lia.
Qed.

Lemma show_string_iff s : show_string s = s <-> Forall (fun c => c < 128) s.
Proof.
  split.
  - intros E. apply show_string_length. rewrite E. auto.
  - intros F. induction F as [|c s L F IH]; unfold show_string in *; cbn [flat_map]; auto. rewrite IH.
    unfold utf8. apply Nat.ltb_lt in L. rewrite L. auto.
Qed.

(** ** The heap *)

Lemma val_ind' (P : val -> Prop) :
  (forall n, P (VData n)) -> (forall vs, (forall v, In v vs -> P v) -> P (VParts vs)) ->
  (forall a off ty meta, P (VPtr a off ty meta)) -> forall v, P v.
Proof.
  intros H1 H2 H3. fix IH 1. intros [n|vs|a off ty meta].
  - apply H1.
  - apply H2. induction vs as [|x vs IHv]; intros v I; [destruct I|]. destruct I as [<-|I]; [apply IH|exact (IHv v I)].
  - apply H3.
Qed.

Definition place (st : mmap) : nat -> option (segment * nat) := aget Nat.eq_dec (mm_place st).

Definition Extends (p p' : nat -> option (segment * nat)) : Prop :=
  forall a x, p a = Some x -> p' a = Some x.

Lemma Shown_mono m p p' : Extends p p' -> forall v mv, Shown m p v mv -> Shown m p' v mv.
Proof.
  intros X. induction v as [n|vs IH|a off ty meta] using val_ind'; intros mv S0; inversion S0; subst.
  - constructor.
  - constructor. revert mvs S0 H0. induction vs as [|v vs IHv]; intros mvs _ F; inversion F; subst; constructor.
    + apply IH; auto. left; auto.
    + apply IHv; auto.
      * intros w I. apply IH. right; auto.
      * constructor. auto.
  - eapply shown_ptr; eauto.
  - eapply shown_dangling; eauto.
Qed.

Section Heap.
  Variable m : memory.
  Variable rank : nat -> nat.
  Hypothesis acyclic : forall a off ty b, PointsTo b (mem_val m a off ty) -> rank b < rank a.

  (** What a read does to the state. *)
  Definition Step (r : nat) (st st' : mmap) : Prop :=
    Extends (place st) (place st') /\
    (exists more, mm_heap st' = mm_heap st ++ more) /\
    (forall a, place st a = None -> place st' a <> None -> rank a < r).

  Lemma Step_refl r st : Step r st st.
  Proof. split; [intros a x; auto|]. split; [exists []; rewrite app_nil_r; auto|]. intros a N N'. congruence. Qed.

  Lemma Step_trans r st1 st2 st3 : Step r st1 st2 -> Step r st2 st3 -> Step r st1 st3.
  Proof.
    intros (A1 & (h1 & B1) & C1) (A2 & (h2 & B2) & C2). split; [intros a x E; auto|]. split.
    - exists (h1 ++ h2). rewrite B2, B1, app_assoc. auto.
    - intros a N N'. destruct (place st2 a) as [y|] eqn:E.
      + apply C1; congruence.
      + apply C2; auto.
  Qed.

  Definition Good (rd : mmap -> val -> res (mval * mmap)) : Prop :=
    forall r st v mv st', Fits m (place st) (mm_heap st) -> (forall b, PointsTo b v -> rank b < r) ->
    rd st v = Ok (mv, st') ->
    Fits m (place st') (mm_heap st') /\ Step r st st' /\ Shown m (place st') v mv.

  Lemma read_seq_good rd : Good rd -> forall r vs st mvs st', Fits m (place st) (mm_heap st) ->
    (forall v b, In v vs -> PointsTo b v -> rank b < r) ->
    read_seq rd st vs = Ok (mvs, st') ->
    Fits m (place st') (mm_heap st') /\ Step r st st' /\ Forall2 (Shown m (place st')) vs mvs.
  Proof.
    intros G r vs. induction vs as [|v vs IH]; intros st mvs st' F B E; cbn in E.
    - injection E as <- <-. split; auto. split; [apply Step_refl|constructor].
    - destruct (rd st v) as [[mv st1]| |] eqn:E1; try discriminate.
      destruct (read_seq rd st1 vs) as [[mvs1 st2]| |] eqn:E2; try discriminate. injection E as <- <-.
      destruct (G r st v mv st1 F) as (F1 & S1 & W1); auto.
      { intros b Hb. apply (B v b); auto. left; auto. }
      destruct (IH st1 mvs1 st2 F1) as (F2 & S2 & W2); auto.
      { intros w b I. apply B. right; auto. }
      split; auto. split; [eapply Step_trans; eauto|]. constructor; auto.
      eapply Shown_mono; [|exact W1]. apply S2.
  Qed.

  Lemma make_pointer_ok st a off meta mv st' : make_pointer m st a off meta = Ok (mv, st') ->
    st' = st /\ exists sg ty parts, place st a = Some (sg, ty) /\
      locate_address_in_type (mem_layout m ty) (mem_size m a) meta off = Some parts /\ mv = MPointer sg parts meta.
  Proof.
    unfold make_pointer. fold (place st a). destruct (place st a) as [[sg ty]|]; [|discriminate].
    destruct (locate_address_in_type _ _ _ _) as [parts|] eqn:El; [|discriminate]. intros [= <- <-].
    split; auto. exists sg, ty, parts. auto.
  Qed.

  (** A new allocation is registered. *)
  Lemma place_set st a x h n b : place (Mmap h (aset Nat.eq_dec (mm_place st) a x) n) b =
    if Nat.eq_dec b a then Some x else place st b.
  Proof. unfold place. cbn [mm_place]. apply aget_aset. Qed.

  Lemma register_stack st a f l ty n : Fits m (place st) (mm_heap st) -> place st a = None ->
    mem_dead m a = false -> mem_kind m a = KStack (Some (f, l, ty)) ->
    let st' := Mmap (mm_heap st) (aset Nat.eq_dec (mm_place st) a (Stack f l, ty)) n in
    Fits m (place st') (mm_heap st') /\ Extends (place st) (place st').
  Proof.
    intros F N D K st'. assert (X : Extends (place st) (place st')).
    { intros b x E. unfold st'. rewrite place_set. destruct (Nat.eq_dec b a) as [->|]; congruence. }
    split; auto. destruct F as [F1 F2 F3 F4]. constructor.
    - intros b sg ty0. unfold st'. rewrite place_set. destruct (Nat.eq_dec b a) as [->|]; [|apply F1].
      intros [= <- <-]. split; auto. right. eauto.
    - intros b i ty0. unfold st' at 1. rewrite place_set. destruct (Nat.eq_dec b a) as [->|]; [discriminate|].
      intros E. destruct (F2 b i ty0 E) as (off & mv & E1 & E2). exists off, mv. split; auto. eapply Shown_mono; eauto.
    - intros b c i t1 t2. unfold st'. rewrite !place_set.
      destruct (Nat.eq_dec b a); [discriminate|]. destruct (Nat.eq_dec c a); [discriminate|]. apply F3.
    - intros i L. destruct (F4 i L) as (b & t1 & E). exists b, t1. auto.
  Qed.

  Lemma register_heap st a off ty mv n : Fits m (place st) (mm_heap st) -> place st a = None ->
    mem_dead m a = false -> mem_kind m a = KHeap -> Shown m (place st) (mem_val m a off ty) mv ->
    let st' := Mmap (mm_heap st ++ [mv]) (aset Nat.eq_dec (mm_place st) a (Heap (length (mm_heap st)), ty)) n in
    Fits m (place st') (mm_heap st') /\ Extends (place st) (place st').
  Proof.
    intros F N D K W st'. assert (X : Extends (place st) (place st')).
    { intros b x E. unfold st'. rewrite place_set. destruct (Nat.eq_dec b a) as [->|]; congruence. }
    split; auto. destruct F as [F1 F2 F3 F4].
    assert (Bd : forall b i ty0, place st b = Some (Heap i, ty0) -> i < length (mm_heap st)).
    { intros b i ty0 E. destruct (F2 b i ty0 E) as (o & mv0 & E1 & _). apply nth_error_Some. congruence. }
    constructor.
    - intros b sg ty0. unfold st'. rewrite place_set. destruct (Nat.eq_dec b a) as [->|]; [|apply F1].
      intros [= <- <-]. split; auto. left. eauto.
    - intros b i ty0. unfold st' at 1. rewrite place_set. destruct (Nat.eq_dec b a) as [->|].
      + intros [= <- <-]. exists off, mv. cbn [mm_heap st']. rewrite nth_error_app2, Nat.sub_diag by lia. split; auto.
        eapply Shown_mono; eauto.
      + intros E. destruct (F2 b i ty0 E) as (o & mv0 & E1 & E2). exists o, mv0. cbn [mm_heap st'].
        rewrite nth_error_app1 by (eapply Bd; eauto). split; auto. eapply Shown_mono; eauto.
    - intros b c i t1 t2. unfold st'. rewrite !place_set.
      destruct (Nat.eq_dec b a) as [->|], (Nat.eq_dec c a) as [->|]; auto.
      + intros [= <- <-] E. apply Bd in E. lia.
      + intros E [= <- <-]. apply Bd in E. lia.
      + apply F3.
    - intros i L. cbn [mm_heap st'] in L. rewrite app_length in L. cbn in L.
      destruct (Nat.eq_dec i (length (mm_heap st))) as [->|Ni].
      + exists a, ty. unfold st'. rewrite place_set. destruct (Nat.eq_dec a a); congruence.
      + destruct (F4 i) as (b & t1 & E); [lia|]. exists b, t1. auto.
  Qed.

  Lemma read_pointer_good rd : Good rd -> forall r st a off ty meta mv st',
    Fits m (place st) (mm_heap st) -> rank a < r -> mem_dead m a = false ->
    read_pointer rd m st a off ty meta = Ok (mv, st') ->
    Fits m (place st') (mm_heap st') /\ Step r st st' /\ Shown m (place st') (VPtr a off ty meta) mv.
  Proof.
    intros G r st a off ty meta mv st' F B D E. unfold read_pointer in E. fold (place st a) in E.
    destruct (place st a) as [x|] eqn:Ep.
    { apply make_pointer_ok in E as (-> & sg & ty' & parts & E1 & E2 & ->). split; auto. split; [apply Step_refl|].
      eapply shown_ptr; eauto. }
    destruct (rd st (mem_val m a off ty)) as [[mv1 st1]| |] eqn:E1; try discriminate.
    destruct (G (rank a) st (mem_val m a off ty) mv1 st1 F) as (F1 & (X1 & (h1 & H1) & R1) & W1); auto.
    { intros b Hb. eapply acyclic; eauto. }
    assert (N1 : place st1 a = None).
    { destruct (place st1 a) eqn:E2; auto. exfalso. assert (rank a < rank a); [|lia]. apply R1; congruence. }
    destruct (mem_kind m a) as [[[[f l] ty']|]| |] eqn:K; try discriminate.
    - apply make_pointer_ok in E as (-> & sg & ty0 & parts & E2 & E3 & ->).
      destruct (register_stack st1 a f l ty' (mm_numbers st1) F1 N1 D K) as (F2 & X2). split; auto. split.
      + split; [intros b y Eb; apply X2, X1; auto|]. split; [exists h1; auto|].
        intros b Nb Nb'. rewrite place_set in Nb'. destruct (Nat.eq_dec b a) as [->|]; auto.
        assert (rank b < rank a) by (apply R1; auto). lia.
      + eapply shown_ptr; eauto.
    - destruct (remap (mm_numbers st1) a) as [nums n]. injection E as <- <-. split; auto. split.
      + split; auto. split; [exists h1; auto|]. intros b Nb Nb'. assert (rank b < rank a) by (apply R1; auto). lia.
      + apply shown_dangling. auto.
    - apply make_pointer_ok in E as (-> & sg & ty0 & parts & E2 & E3 & ->).
      destruct (register_heap st1 a off ty mv1 (mm_numbers st1) F1 N1 D K W1) as (F2 & X2). split; auto. split.
      + split; [intros b y Eb; apply X2, X1; auto|].
        split; [exists (h1 ++ [mv1]); cbn [mm_heap]; rewrite H1, app_assoc; auto|].
        intros b Nb Nb'. rewrite place_set in Nb'. destruct (Nat.eq_dec b a) as [->|]; auto.
        assert (rank b < rank a) by (apply R1; auto). lia.
      + eapply shown_ptr; eauto.
  Qed.

  Lemma read_good fuel : Good (read m fuel).
  Proof.
    induction fuel as [|f IH]; intros r st v mv st' F B E; cbn in E; [discriminate|].
    destruct v as [n|vs|a off ty meta].
    - injection E as <- <-. split; auto. split; [apply Step_refl|constructor].
    - destruct (read_seq (read m f) st vs) as [[mvs st1]| |] eqn:E1; try discriminate. injection E as <- <-.
      destruct (read_seq_good (read m f) IH r vs st mvs st1 F) as (F1 & S1 & W1); auto.
      { intros v b I Hb. apply B. econstructor; eauto. }
      split; auto. split; auto. constructor; auto.
    - destruct (mem_dead m a) eqn:D.
      + destruct (remap (mm_numbers st) a) as [nums n]. injection E as <- <-. split; auto. split; [exact (Step_refl r st)|].
        apply shown_dangling. auto.
      + eapply read_pointer_good; eauto. apply B. constructor.
  Qed.

  (** Enough fuel. *)
  Lemma read_seq_more rd st vs : (forall v st, In v vs -> rd st v <> More) -> read_seq rd st vs <> More.
  Proof.
    revert st. induction vs as [|v vs IH]; intros st N; cbn; [discriminate|].
    destruct (rd st v) as [[mv st1]| |] eqn:E; try discriminate.
    - destruct (read_seq rd st1 vs) as [[mvs st2]| |] eqn:E2; try discriminate.
      exfalso. apply (IH st1); auto. intros w s I. apply N. right; auto.
    - exfalso. apply (N v st); auto. left; auto.
  Qed.

  Lemma read_enough r : forall v, (forall b, PointsTo b v -> rank b < r) ->
    exists F, forall fuel, F <= fuel -> forall st, read m fuel st v <> More.
  Proof.
    induction r as [r IHr] using lt_wf_ind. intros v. induction v as [n|vs IH|a off ty meta] using val_ind'; intros B.
    - exists 1. intros [|f] L st; [lia|]. cbn. discriminate.
    - assert (X : exists F, forall v, In v vs -> forall fuel, F <= fuel -> forall st, read m fuel st v <> More).
      { clear IHr. induction vs as [|v vs IHv]; [exists 0; intros v []|].
        destruct IHv as (F1 & H1).
        - intros w I. apply IH. right; auto.
        - intros b P. apply B. inversion P; subst. econstructor; [right; eauto|auto].
        - destruct (IH v (or_introl eq_refl)) as (F2 & H2).
          { intros b P. apply B. econstructor; [left; reflexivity|auto]. }
          exists (max F1 F2). intros w [<-|I] fuel L st; [apply H2; lia|apply H1; auto; lia]. }
      destruct X as (F & H). exists (S F). intros [|f] L st; [lia|]. cbn.
      pose proof (read_seq_more (read m f) st vs) as N.
      destruct (read_seq (read m f) st vs) as [[mvs st1]| |]; try discriminate.
      exfalso. apply N; auto. intros v s I. apply H; auto. lia.
    - assert (La : rank a < r) by (apply B; constructor).
      destruct (IHr (rank a) La (mem_val m a off ty)) as (F & H).
      { intros b P. eapply acyclic; eauto. }
      exists (S F). intros [|f] L st; [lia|]. cbn. destruct (mem_dead m a).
      + destruct (remap (mm_numbers st) a). discriminate.
      + unfold read_pointer. assert (NM : forall st2, make_pointer m st2 a off meta <> More).
        { intros st2. unfold make_pointer. destruct (aget Nat.eq_dec (mm_place st2) a) as [[sg t]|]; [|discriminate].
          destruct (locate_address_in_type _ _ _ _); discriminate. }
        destruct (aget Nat.eq_dec (mm_place st) a); [apply NM|].
        specialize (H f (le_S_n _ _ L) st).
        destruct (read m f st (mem_val m a off ty)) as [[mv st1]| |]; try discriminate; [|congruence].
        destruct (mem_kind m a) as [[[[fr l] ty']|]| |]; try discriminate; try apply NM.
        destruct (remap (mm_numbers st1) a). discriminate.
  Qed.
End Heap.

(** Finitely many values point to allocations of bounded rank. *)
Lemma ptr_bound rank v : exists r, forall b, PointsTo b v -> rank b < r.
Proof.
  induction v as [n|vs IH|a off ty meta] using val_ind'.
  - exists 0. intros b P. inversion P.
  - assert (X : exists r, forall v b, In v vs -> PointsTo b v -> rank b < r).
    { induction vs as [|v vs IHv]; [exists 0; intros v b []|].
      destruct IHv as (r1 & H1); [intros w I; apply IH; right; auto|].
      destruct (IH v (or_introl eq_refl)) as (r2 & H2). exists (max r1 r2).
      intros w b [<-|I] P; [specialize (H2 b P); lia|specialize (H1 w b I P); lia]. }
    destruct X as (r & X). exists r. intros b P. inversion P; subst. eauto.
  - exists (S (rank a)). intros b P. inversion P; subst. lia.
Qed.

Lemma ptrs_bound rank vs : exists r, forall v b, In v vs -> PointsTo b v -> rank b < r.
Proof.
  induction vs as [|v vs (r1 & H1)]; [exists 0; intros v b []|].
  destruct (ptr_bound rank v) as (r2 & H2). exists (max r1 r2).
  intros w b [<-|I] P; [specialize (H2 b P); lia|specialize (H1 w b I P); lia].
Qed.
