(** Proofs about the reader of values. *)
From Coq Require Import String.
From Coq Require Import List Arith Bool ZArith Lia.
From Verif Require Import Base TraceModel ValuesModel ReaderModel ReaderSpec.
Import ListNotations.
Local Open Scope string_scope.
Local Open Scope list_scope.

(** Fields and elements are where the specification says. *)
Lemma field_is m p t v i : field m p t v i = field_place m p t v i. Proof. reflexivity. Qed.
Lemma element_is p size i : element p size i = nth_place p size i. Proof. reflexivity. Qed.

Lemma last_kind_app ks k : last_kind (ks ++ [k]) = Some k.
Proof.
  induction ks as [|a r IH]; auto. cbn [app last_kind]. destruct r as [|b r']; auto.
Qed.

Lemma bind_inr {A B} (x : rd A) (f : A -> rd B) s b s' : bind x f s = (inr b, s') ->
  exists a s1, x s = (inr a, s1) /\ f a s1 = (inr b, s').
Proof. unfold bind. destruct (x s) as [[e|a] s1]; [discriminate|]. eauto. Qed.

Lemma show_cut k z : Cut k z (show k z).
Proof.
  destruct k; cbn [Cut show]; auto.
  - unfold show_uint. split; [apply Z.mod_pos_bound; lia|]. exists (z / 2 ^ 64)%Z.
    pose proof (Z.div_mod z (2 ^ 64)) as D. lia.
  - unfold show_int. cbv zeta. pose proof (Z.mod_pos_bound z (2 ^ 64)) as B. pose proof (Z.div_mod z (2 ^ 64)) as D.
    destruct (z mod 2 ^ 64 <? 2 ^ 63)%Z eqn:L.
    + apply Z.ltb_lt in L. split; [lia|]. exists (z / 2 ^ 64)%Z. lia.
    + apply Z.ltb_ge in L. split; [lia|]. exists (z / 2 ^ 64 + 1)%Z. lia.
Qed.

(** ** More objects *)

Lemma aims_mono m os o' q sg parts : Aims m os q sg parts -> Aims m (os ++ o') q sg parts.
Proof.
  intros (t & K & L). exists t. split; auto. destruct sg as [[f x]|i]; auto.
  destruct K as (K & p & c & N & E). split; auto. exists p, c. split; auto.
  rewrite nth_error_app1; auto. apply nth_error_Some. rewrite N. discriminate.
Qed.

Lemma denotes_mono m u8 os o' w p t v : Denotes m u8 os w p t v -> Denotes m u8 (os ++ o') w p t v.
Proof.
  intros D. induction D.
  - eapply d_scalar; eauto.
  - apply d_uninit; auto.
  - apply d_box; auto.
  - apply d_tuple; auto.
  - apply d_closure; eauto.
  - eapply d_struct; eauto.
  - eapply d_enum; eauto.
  - apply d_array_all; auto.
  - apply d_array_some; auto.
  - apply d_points; auto. apply aims_mono; auto.
  - eapply d_hidden; eauto.
  - eapply d_dangling; eauto.
  - eapply d_nowhere; eauto.
Qed.

Lemma contents_mono m u8 os o' p c v : Contents m u8 os p c v -> Contents m u8 (os ++ o') p c v.
Proof.
  intros C. destruct C.
  - apply c_value. apply denotes_mono; auto.
  - apply c_elems. apply denotes_mono; auto.
  - apply c_chars_all; auto.
  - apply c_chars_some; auto.
Qed.

Lemma Forall2_imp {A B} (P Q : A -> B -> Prop) l l' : (forall a b, P a b -> Q a b) -> Forall2 P l l' -> Forall2 Q l l'.
Proof. intros I F. induction F; constructor; auto. Qed.

Lemma Forall2_length {A B} (P : A -> B -> Prop) l l' : Forall2 P l l' -> length l = length l'.
Proof. intros F. induction F; cbn [length]; auto. Qed.

Lemma Forall2_nth {A B} (P : A -> B -> Prop) l l' i a b : Forall2 P l l' -> nth_error l i = Some a -> nth_error l' i = Some b -> P a b.
Proof.
  intros F. revert i. induction F as [|x y l l' Pxy F IH]; intros i; destruct i as [|i]; cbn [nth_error]; try discriminate.
  - intros [= <-] [= <-]. auto.
  - apply IH.
Qed.

Section Reader.
Variables (m : mem) (u8 : nat) (vars : list (place * ty)).
Hypothesis PR : Program m u8 vars.

Record Inv (os : objects) (s : mstate) : Prop := {
  inv_heap : Forall2 (fun x v => Contents m u8 os (fst x) (snd x) v) os (s_heap s);
  inv_real : Forall (Real m u8 vars) os;
  inv_place : forall a sg t, aget Nat.eq_dec (s_place s) a = Some (sg, t) ->
    match sg with
    | inl (f, x) => m_kind m a = AStack /\ m_slot m a = Some (f, x, t)
    | inr i => m_kind m a = AHeap /\ exists p c, nth_error os i = Some (p, c) /\ p_alloc p = a /\ t = type_of m c
    end
}.

(** The reader keeps the invariant, and [Q] holds of the result and of any later objects. *)
Definition Keeps {A} (x : rd A) (Q : objects -> A -> Prop) : Prop :=
  forall s a s' os, x s = (inr a, s') -> Inv os s -> exists o', Inv (os ++ o') s' /\ Q (os ++ o') a.

Definition Mono {A} (Q : objects -> A -> Prop) : Prop := forall os o' a, Q os a -> Q (os ++ o') a.

Lemma keeps_ret {A} (a : A) (Q : objects -> A -> Prop) : (forall os, Q os a) -> Keeps (ret a) Q.
Proof. intros H s b s' os [= <- <-] I. exists []. rewrite app_nil_r. auto. Qed.

Lemma keeps_halt {A} e (Q : objects -> A -> Prop) : Keeps (halt e) Q.
Proof. intros s a s' os [=]. Qed.

Lemma keeps_bind {A B} (x : rd A) (f : A -> rd B) (Q : objects -> A -> Prop) (R : objects -> B -> Prop) :
  Mono Q -> Keeps x Q -> (forall a, Keeps (f a) (fun os b => Q os a -> R os b)) -> Keeps (bind x f) R.
Proof.
  intros M X F s b s' os E I. apply bind_inr in E as (a & s1 & E1 & E2).
  destruct (X _ _ _ _ E1 I) as (o1 & I1 & Q1). destruct (F a _ _ _ _ E2 I1) as (o2 & I2 & R2).
  exists (o1 ++ o2). rewrite app_assoc. split; auto.
Qed.

Lemma keeps_imp {A} (x : rd A) (Q R : objects -> A -> Prop) : Keeps x Q -> (forall os a, Q os a -> R os a) -> Keeps x R.
Proof. intros K I s a s' os E J. destruct (K _ _ _ _ E J) as (o & J1 & J2). eauto. Qed.

(** *** Arrays *)

Lemma keeps_collect (mk : nat -> rd mvalue) (Q : nat -> objects -> mvalue -> Prop) idx :
  (forall i, Mono (Q i)) -> (forall i, In i idx -> Keeps (mk i) (Q i)) ->
  Keeps (collect_state mk idx) (fun os vs => Forall2 (fun i v => Q i os v) idx vs).
Proof.
  intros M K. induction idx as [|i r IH]; intros s vs s' os; cbn [collect_state].
  - intros [= <- <-] I. exists []. rewrite app_nil_r. auto.
  - destruct (mk i s) as [[e|v] s1] eqn:E1; [discriminate|].
    destruct (collect_state mk r s1) as [[e|vs1] s2] eqn:E2; [discriminate|]. intros [= <- <-] I.
    destruct (K i (or_introl eq_refl) _ _ _ _ E1 I) as (o1 & I1 & Q1).
    destruct (IH (fun j J => K j (or_intror J)) _ _ _ _ E2 I1) as (o2 & I2 & Q2).
    exists (o1 ++ o2). rewrite app_assoc. split; auto. constructor; auto. apply M; auto.
Qed.

Lemma seq_nth_all {P : nat -> mvalue -> Prop} n vs : Forall2 P (seq 0 n) vs ->
  length vs = n /\ forall i v, nth_error vs i = Some v -> P i v.
Proof.
  intros F. split; [apply Forall2_length in F; rewrite seq_length in F; auto|].
  intros i v N. assert (L : i < n). { apply Forall2_length in F. rewrite seq_length in F. rewrite F. apply nth_error_Some. rewrite N. discriminate. }
  eapply Forall2_nth; eauto. rewrite (nth_error_nth' _ 0) by (rewrite seq_length; auto). rewrite seq_nth; auto.
Qed.

Definition Listed (Q : nat -> objects -> mvalue -> Prop) (n : nat) (os : objects) (a : abbreviated mvalue) : Prop :=
  match a with
  | AllOf vs => n <= 12 /\ length vs = n /\ forall i v, nth_error vs i = Some v -> Q i os v
  | Only vs l => 12 < n /\ length vs = 11 /\ (forall i v, nth_error vs i = Some v -> Q i os v) /\ Q (n - 1) os l
  end.

Lemma keeps_abbrev (mk : nat -> rd mvalue) (Q : nat -> objects -> mvalue -> Prop) n :
  (forall i, Mono (Q i)) -> (forall i, i < n -> Keeps (mk i) (Q i)) -> Keeps (abbrev_new n mk) (Listed Q n).
Proof.
  intros M K s a s' os. unfold abbrev_new, ABBREV_MAX. destruct (Nat.leb n 12) eqn:L.
  - apply Nat.leb_le in L. destruct (collect_state mk (seq 0 n) s) as [[e|vs] s1] eqn:E; [discriminate|].
    intros [= <- <-] I. assert (KK : forall i, In i (seq 0 n) -> Keeps (mk i) (Q i)). { intros i J. apply in_seq in J. apply K. lia. }
    destruct (keeps_collect mk Q (seq 0 n) M KK _ _ _ _ E I) as (o & I1 & F).
    exists o. split; auto. apply seq_nth_all in F as (F1 & F2). cbn [Listed]. auto.
  - apply Nat.leb_gt in L. change (12 - 1) with 11.
    destruct (collect_state mk (seq 0 11) s) as [[e|vs] s1] eqn:E; [discriminate|].
    destruct (mk (n - 1) s1) as [[e|l] s2] eqn:E2; [discriminate|]. intros [= <- <-] I.
    assert (KK : forall i, In i (seq 0 11) -> Keeps (mk i) (Q i)). { intros i J. apply in_seq in J. apply K. lia. }
    destruct (keeps_collect mk Q (seq 0 11) M KK _ _ _ _ E I) as (o & I1 & F).
    destruct (K (n - 1) ltac:(lia) _ _ _ _ E2 I1) as (o2 & I2 & Q2).
    exists (o ++ o2). rewrite app_assoc. split; auto. apply seq_nth_all in F as (F1 & F2). cbn [Listed].
    split; [auto|]. split; [auto|]. split; [|auto]. intros i v N. apply M. auto.
Qed.

Lemma keeps_array (rd1 : place -> ty -> rd mvalue) (Q : nat -> objects -> mvalue -> Prop) base stride n el :
  (forall i, Mono (Q i)) -> (forall i, i < n -> Keeps (rd1 (element base stride i) el) (Q i)) ->
  Keeps (read_array rd1 base stride n el) (fun os v => exists a, v = MArray a /\ Listed Q n os a).
Proof.
  intros M K s v s' os. unfold read_array.
  destruct (abbrev_new n _ s) as [[e|a] s1] eqn:E; [discriminate|]. intros [= <- <-] I.
  destruct (keeps_abbrev _ Q n M K _ _ _ _ E I) as (o & I1 & L). exists o. split; eauto.
Qed.

(** *** Fields *)

Lemma keeps_tuple (rd1 : place -> ty -> rd mvalue) w p t ts : forall i,
  (forall j ft, nth_error ts j = Some ft -> Keeps (rd1 (field m p t None (i + j)) ft)
     (fun os v => Denotes m u8 os w (field m p t None (i + j)) ft v)) ->
  Keeps (read_tuple rd1 m p t i ts) (fun os vs => length vs = length ts /\
    forall j ft v, nth_error ts j = Some ft -> nth_error vs j = Some v -> Denotes m u8 os w (field m p t None (i + j)) ft v).
Proof.
  induction ts as [|ft ts IH]; intros i K; cbn [read_tuple].
  - apply keeps_ret. intros os. split; auto. intros j ft v N. destruct j; discriminate.
  - eapply (keeps_bind _ _ (fun os v => Denotes m u8 os w (field m p t None i) ft v)).
    + intros os o' a. apply denotes_mono.
    + specialize (K 0 ft eq_refl). rewrite Nat.add_0_r in K. exact K.
    + intros v. eapply (keeps_bind _ _ (fun os vs => length vs = length ts /\
        forall j ft v, nth_error ts j = Some ft -> nth_error vs j = Some v -> Denotes m u8 os w (field m p t None (S i + j)) ft v)).
      * intros os o' vs (L & D). split; auto. intros. apply denotes_mono. eauto.
      * apply IH. intros j ft' N. specialize (K (S j) ft' N). rewrite Nat.add_succ_r in K. exact K.
      * intros vs. apply keeps_ret. intros os (L & D) D0. split; [cbn [length]; lia|].
        intros j ft' v' N1 N2. destruct j as [|j]; cbn [nth_error] in N1, N2.
        -- injection N1 as <-. injection N2 as <-. rewrite Nat.add_0_r. auto.
        -- rewrite Nat.add_succ_r. eapply D; eauto.
Qed.

Definition kept (i : nat) (fs : list (string * ty)) : list (nat * (string * ty)) :=
  filter (fun x => negb (m_zst m (snd (snd x)))) (combine (seq i (length fs)) fs).

Lemma keeps_fields (rd1 : place -> ty -> rd mvalue) w p t v fs : forall i,
  (forall j n ft, nth_error fs j = Some (n, ft) -> Keeps (rd1 (field m p t v (i + j)) ft)
     (fun os x => Denotes m u8 os w (field m p t v (i + j)) ft x)) ->
  Keeps (process_fields rd1 m p t v i fs) (fun os vs =>
    Forall2 (fun x y => fst y = fst (snd x) /\ Denotes m u8 os w (field m p t v (fst x)) (snd (snd x)) (snd y)) (kept i fs) vs).
Proof.
  induction fs as [|[n ft] fs IH]; intros i K; cbn [process_fields].
  - apply keeps_ret. intros os. constructor.
  - assert (K' : forall j n ft, nth_error fs j = Some (n, ft) -> Keeps (rd1 (field m p t v (S i + j)) ft)
      (fun os x => Denotes m u8 os w (field m p t v (S i + j)) ft x)).
    { intros j n' ft' N. specialize (K (S j) n' ft' N). rewrite Nat.add_succ_r in K. exact K. }
    unfold kept. cbn [length seq combine filter snd]. destruct (m_zst m ft); cbn [negb]; [apply IH; auto|].
    eapply (keeps_bind _ _ (fun os x => Denotes m u8 os w (field m p t v i) ft x)).
    + intros os o' a. apply denotes_mono.
    + specialize (K 0 n ft eq_refl). rewrite Nat.add_0_r in K. exact K.
    + intros x. eapply (keeps_bind _ _ (fun os vs =>
        Forall2 (fun x y => fst y = fst (snd x) /\ Denotes m u8 os w (field m p t v (fst x)) (snd (snd x)) (snd y)) (kept (S i) fs) vs)).
      * intros os o' vs F. eapply Forall2_imp; [|exact F]. intros a b (E & D). split; auto. apply denotes_mono; auto.
      * apply IH. exact K'.
      * intros vs. apply keeps_ret. intros os F D. constructor; auto.
Qed.

Lemma fields_spec w p t v fs os vs :
  Forall2 (fun x y => fst y = fst (snd x) /\ Denotes m u8 os w (field m p t v (fst x)) (snd (snd x)) (snd y)) (kept 0 fs) vs ->
  map fst vs = map (fun x => fst (snd x)) (shown_fields m fs) /\
  forall j i x ft y val, nth_error (shown_fields m fs) j = Some (i, (x, ft)) -> nth_error vs j = Some (y, val) ->
    Denotes m u8 os w (field m p t v i) ft val.
Proof.
  intros F. change (kept 0 fs) with (shown_fields m fs) in F. split.
  - induction F as [|a b l l' (E & _) F IH]; cbn [map]; auto. rewrite E, IH. auto.
  - intros j i x ft y val N1 N2. pose proof (Forall2_nth _ _ _ _ _ _ F N1 N2) as (_ & D). exact D.
Qed.

(** *** Pointers *)

Lemma aims_point q s v s' os : Inv os s -> point m q s = (inr v, s') ->
  s' = s /\ exists sg parts, v = MPtr sg parts (p_meta q) /\ Aims m os q sg parts.
Proof.
  intros I. unfold point. destruct (aget Nat.eq_dec (s_place s) (p_alloc q)) as [[sg t]|] eqn:E; [|discriminate].
  destruct (locate_address_in_type _ _ _ _) as [parts|] eqn:L; [|discriminate]. intros [= <- <-]. split; auto.
  exists sg, parts. split; auto. exists t. split; auto. apply (inv_place _ _ I) in E. auto.
Qed.

Definition Agrees (ks : list hkind) (w : within) : Prop :=
  (Elsewhere (last_kind ks) /\ Elsewhere w) \/ last_kind ks = w.

Lemma agrees_type ks w id : Agrees ks w ->
  match last_kind ks with Some (HVec _ el) => m_ty m el | _ => m_ty m id end = type_of m (content_of m w id).
Proof.
  intros [([E|E] & [F|F])|E]; try (rewrite E, F; reflexivity).
  rewrite E. destruct w as [[n|n el|]|]; reflexivity.
Qed.

Lemma keeps_pointer rd1 ks w p id q : Holds m u8 vars w p (TPtr id) -> m_ptr m p = Points q -> Agrees ks w ->
  (forall s v s' os, aget Nat.eq_dec (s_place s) (p_alloc q) = None -> read_alloc rd1 m ks q (m_ty m id) s = (inr v, s') ->
     Inv os s -> exists o', Inv (os ++ o') s' /\ Contents m u8 (os ++ o') q (content_of m w id) v) ->
  Keeps (read_pointer rd1 m ks q (m_ty m id)) (fun os v => Denotes m u8 os w p (TPtr id) v).
Proof.
  intros H P A K s v s' os. unfold read_pointer.
  destruct (aget Nat.eq_dec (s_place s) (p_alloc q)) as [e|] eqn:D.
  - intros E I. destruct (aims_point _ _ _ _ _ I E) as (-> & sg & parts & -> & AM).
    exists []. rewrite app_nil_r. split; auto. apply d_points; auto.
  - intros E I. apply bind_inr in E as (x & s1 & E1 & E2). destruct (K _ _ _ _ D E1 I) as (o1 & I1 & C1).
    destruct (m_kind m (p_alloc q)) eqn:MK; [| |discriminate].
    + destruct (m_slot m (p_alloc q)) as [[[f y] lt]|] eqn:SL.
      * apply bind_inr in E2 as (u & s2 & E2 & E3). injection E2 as _ <-.
        assert (I2 : Inv (os ++ o1) (MState (s_heap s1) (aset Nat.eq_dec (s_place s1) (p_alloc q) (inl (f, y), lt)) (s_numbers s1))).
        { constructor; cbn [s_heap s_place]; [apply (inv_heap _ _ I1)|apply (inv_real _ _ I1)|].
          intros a sg t. rewrite aget_aset. destruct (Nat.eq_dec a (p_alloc q)) as [->|].
          - intros [= <- <-]. auto.
          - apply (inv_place _ _ I1). }
        destruct (aims_point _ _ _ _ _ I2 E3) as (-> & sg & parts & -> & AM).
        exists o1. split; auto. apply d_points; auto.
      * unfold unallocated in E2. destruct (remap (s_numbers s1) (p_alloc q)) as [nums n]. injection E2 as <- <-.
        exists o1. split; [|eapply d_hidden; eauto].
        constructor; cbn [s_heap s_place]; apply I1.
    + apply bind_inr in E2 as (u & s2 & E2 & E3). injection E2 as _ <-.
      rewrite (agrees_type _ _ _ A) in E3.
      pose proof (Forall2_length _ _ _ (inv_heap _ _ I1)) as LL.
      assert (I2 : Inv ((os ++ o1) ++ [(q, content_of m w id)]) (MState (s_heap s1 ++ [x])
          (aset Nat.eq_dec (s_place s1) (p_alloc q) (inr (length (s_heap s1)), type_of m (content_of m w id))) (s_numbers s1))).
      { constructor; cbn [s_heap s_place].
        - apply Forall2_app.
          + eapply Forall2_imp; [|apply (inv_heap _ _ I1)]. intros a b. apply contents_mono.
          + constructor; [|constructor]. cbn [fst snd]. apply contents_mono. auto.
        - apply Forall_app. split; [apply (inv_real _ _ I1)|]. constructor; [|constructor].
          exists w, p, id. cbn [fst snd]. auto.
        - intros a sg t. rewrite aget_aset. destruct (Nat.eq_dec a (p_alloc q)) as [->|].
          + intros [= <- <-]. split; auto. exists q, (content_of m w id). split; auto.
            rewrite <- LL. rewrite nth_error_app2 by lia. rewrite Nat.sub_diag. auto.
          + intros G. apply (inv_place _ _ I1) in G. destruct sg as [[f y]|i]; auto.
            destruct G as (G1 & p' & c & G2 & G3). split; auto. exists p', c. split; auto.
            rewrite nth_error_app1; auto. apply nth_error_Some. rewrite G2. discriminate. }
      destruct (aims_point _ _ _ _ _ I2 E3) as (-> & sg & parts & -> & AM).
      exists (o1 ++ [(q, content_of m w id)]). rewrite app_assoc. split; auto. apply d_points; auto.
Qed.

(** *** The owner of a buffer *)

Lemma read_len f ks p el n o s s' : Length m u8 el p n ->
  read_vec_len (read m f ks) m p (vec u8 el) [("buf", rawvec u8); ("len", TPrim PUint)] s = (inr o, s') ->
  o = Some n /\ s' = s.
Proof.
  intros (z & Z1 & Z2). unfold read_vec_len. cbn [field_by_name String.eqb Ascii.eqb Bool.eqb].
  destruct f as [|f]; cbn [read]; [discriminate|]. rewrite field_is, Z1. cbn [show ret]. intros [= <- <-].
  unfold show_uint. rewrite Z2. auto.
Qed.

(** The types among the fields of a vector, and of a string. *)
Inductive Buf (str : bool) : ty -> Prop :=
| buf_prim k : Buf str (TPrim k)
| buf_ptr : Buf str (TPtr u8)
| buf_vec : str = true -> Buf str (vec u8 u8)
| buf_struct n args fs : n <> "String" -> n <> "Vec" -> (forall x t, In (x, t) fs -> Buf str t) -> Buf str (TStruct n args fs).

Definition is_str (k : hkind) : bool := match k with HString _ => true | _ => false end.

Definition Elts (k : hkind) : Prop := match k with HVec _ el => Owned u8 (m_ty m el) | _ => True end.

(** When the reader's stack fits to where we are. *)
Inductive Fit (ks : list hkind) (w : within) (t : ty) : Prop :=
| fit_else : Elsewhere (last_kind ks) -> Elsewhere w -> Fit ks w t
| fit_buf k : last_kind ks = Some k -> w = Some k -> k <> HBox -> Elts k -> Buf (is_str k) t -> Fit ks w t
| fit_owned n el : last_kind ks = Some (HVec n el) -> Elsewhere w -> Owned u8 t -> Fit ks w t
| fit_prim k : Elsewhere w -> t = TPrim k -> Fit ks w t.

Lemma elsewhere_not_string w : Elsewhere w -> ~ InString w.
Proof. intros [->| ->] (n & E); discriminate. Qed.

Lemma vec_name el : vec u8 el = TStruct "Vec" [el] [("buf", rawvec u8); ("len", TPrim PUint)].
Proof. reflexivity. Qed.

Lemma struct_neq a b : a <> b -> String.eqb a b = false.
Proof. apply String.eqb_neq. Qed.

Lemma buf_unique str : Buf str (unique u8).
Proof.
  apply buf_struct; try discriminate. intros x t [[= <- <-]|[[= <- <-]|[]]].
  - apply buf_struct; try discriminate. intros y t' [[= <- <-]|[]]. apply buf_ptr.
  - apply buf_struct; try discriminate. intros y t' [].
Qed.

Lemma buf_rawvec str : Buf str (rawvec u8).
Proof.
  apply buf_struct; try discriminate. intros x t [[= <- <-]|[[= <- <-]|[]]].
  - apply buf_struct; try discriminate. intros y t' [[= <- <-]|[[= <- <-]|[[= <- <-]|[]]]].
    + apply buf_unique.
    + apply buf_struct; try discriminate. intros z t'' [[= <- <-]|[]]. apply buf_prim.
    + apply buf_struct; try discriminate. intros z t'' [].
  - apply buf_struct; try discriminate. intros y t' [].
Qed.

Lemma usual_unique id : Usual m u8 (unique id).
Proof.
  apply usual_struct; try discriminate. intros x t [[= <- <-]|[[= <- <-]|[]]].
  - apply usual_struct; try discriminate. intros y t' [[= <- <-]|[]]. apply usual_ptr.
  - apply usual_struct; try discriminate. intros y t' [].
Qed.

Lemma usual_rawvec : Usual m u8 (rawvec u8).
Proof.
  apply usual_struct; try discriminate. intros x t [[= <- <-]|[[= <- <-]|[]]].
  - apply usual_struct; try discriminate. intros y t' [[= <- <-]|[[= <- <-]|[[= <- <-]|[]]]].
    + apply usual_unique.
    + apply usual_struct; try discriminate. intros z t'' [[= <- <-]|[]]. apply usual_prim.
    + apply usual_struct; try discriminate. intros z t'' [].
  - apply usual_struct; try discriminate. intros y t' [].
Qed.

(** The struct rule: which kind the reader pushes, and that the fields fit. *)
Lemma struct_kind f ks w p n args fs : Holds m u8 vars w p (TStruct n args fs) -> Usual m u8 (TStruct n args fs) ->
  Fit ks w (TStruct n args fs) ->
  forall k s s', own_kind (read m f ks) m ks p (TStruct n args fs) n args fs s = (inr k, s') ->
  s' = s /\ Owns m u8 w p (TStruct n args fs) k /\
  forall x t, In (x, t) fs -> Usual m u8 t /\ Fit (match k with Some k => ks ++ [k] | None => ks end) (inside w k) t.
Proof.
  intros H U F k s s'. inversion U as [| | |E|el O E| |n' a' fs' N1 N2 U' E| | | | |]; subst.
  - (* a string *)
    change (TStruct "String" [] [("vec", vec u8 u8)]) with (string_ty u8) in *.
    destruct (prog_strings _ _ _ PR _ _ H) as (len & L).
    unfold own_kind. cbn [String.eqb Ascii.eqb Bool.eqb field_by_name vec]. intros X.
    apply bind_inr in X as (o & s1 & X1 & X2). apply (read_len _ _ _ _ _ _ _ _ L) in X1 as (-> & ->).
    cbn [option_map ret] in X2. injection X2 as <- <-. split; auto. split; [apply owns_string; auto|].
    intros x t [[= <- <-]|[]]. split; [apply usual_vec; rewrite (prog_byte _ _ _ PR); constructor|].
    cbn [inside]. eapply fit_buf; [apply last_kind_app|reflexivity|discriminate|exact I|]. apply buf_vec. auto.
  - (* a vector *)
    change (TStruct "Vec" [el] [("buf", rawvec u8); ("len", TPrim PUint)]) with (vec u8 el) in *.
    destruct (prog_lengths _ _ _ PR _ _ _ H) as (len & L).
    unfold own_kind. cbn [String.eqb Ascii.eqb Bool.eqb]. intros X.
    apply bind_inr in X as (o & s1 & X1 & X2). apply (read_len _ _ _ _ _ _ _ _ L) in X1 as (-> & ->).
    assert (US : forall x t, In (x, t) [("buf", rawvec u8); ("len", TPrim PUint)] -> Usual m u8 t).
    { intros x t [[= <- <-]|[[= <- <-]|[]]]; [apply usual_rawvec|constructor]. }
    assert (BU : forall str x t, In (x, t) [("buf", rawvec u8); ("len", TPrim PUint)] -> Buf str t).
    { intros str x t [[= <- <-]|[[= <- <-]|[]]]; [apply buf_rawvec|apply buf_prim]. }
    assert (PUSH : (forall n, last_kind ks <> Some (HString n)) -> ~ InString w ->
      s' = s /\ Owns m u8 w p (vec u8 el) k /\
      forall x t, In (x, t) [("buf", rawvec u8); ("len", TPrim PUint)] ->
        Usual m u8 t /\ Fit (match k with Some k => ks ++ [k] | None => ks end) (inside w k) t).
    { intros NS NI. assert (X3 : ret (Some (HVec len el)) s = (inr k, s')).
      { destruct (last_kind ks) as [[j|j el'|]|]; auto. destruct (NS j); auto. }
      injection X3 as <- <-. split; auto. split; [apply owns_vec; auto|]. intros x t I. split; [eapply US; eauto|].
      cbn [inside]. eapply fit_buf; [apply last_kind_app|reflexivity|discriminate|exact O|]. eapply BU; eauto. }
    destruct F as [F1 F2|k0 F1 F2 F3 F5 F4|j el' F1 F2 F3|k0 F1 F2].
    + apply PUSH; [intros j E; destruct F1 as [F1|F1]; rewrite F1 in E; discriminate|apply elsewhere_not_string; auto].
    + destruct k0 as [j|j el'|]; [|inversion F4; subst; try discriminate; try congruence|congruence].
      rewrite F1 in X2. injection X2 as <- <-. split; auto. split; [apply owns_inner; exists j; auto|].
      intros x t I. split; [eapply US; eauto|]. cbn [inside]. eapply fit_buf; eauto. 
    + apply PUSH; [intros i E; rewrite F1 in E; discriminate|apply elsewhere_not_string; auto].
    + discriminate F2.
  - (* another struct *)
    unfold own_kind. rewrite (struct_neq _ _ N1), (struct_neq _ _ N2). intros [= <- <-].
    split; auto. split; [apply owns_other; auto|]. intros x t I. split; [eapply U'; eauto|]. cbn [inside].
    destruct F as [F1 F2|k0 F1 F2 F3 F5 F4|j el' F1 F2 F3|k0 F1 F2].
    + apply fit_else; auto.
    + eapply fit_buf; eauto. inversion F4; subst; eauto; congruence.
    + eapply fit_owned; eauto. inversion F3; subst; eauto; congruence.
    + discriminate F2.
Qed.

(** *** Reading *)

Lemma keeps_prim f ks w p k : Keeps (read m f ks p (TPrim k)) (fun os v => Denotes m u8 os w p (TPrim k) v).
Proof.
  destruct f as [|f]; cbn [read]; [apply keeps_halt|]. destruct (m_scalar m p k) as [z| |e] eqn:E.
  - apply keeps_ret. intros os. eapply d_scalar; eauto. apply show_cut.
  - apply keeps_ret. intros os. apply d_uninit; auto.
  - apply keeps_halt.
Qed.

(** A [str] that has not been found is read for ever. *)
Lemma str_never f : forall ks q s v s', Elsewhere (last_kind ks) -> aget Nat.eq_dec (s_place s) (p_alloc q) = None ->
  read m f ks q TStr s <> (inr v, s').
Proof.
  induction f as [|f IH]; intros ks q s v s' L G; cbn [read]; [discriminate|].
  unfold read_pointer. rewrite G. intros E. apply bind_inr in E as (x & s1 & E1 & _).
  apply (IH ks q s x s1 L G). unfold read_alloc in E1. destruct L as [L|L]; rewrite L in E1; exact E1.
Qed.

Lemma fit_tuple ks w ts t : Fit ks w (TTuple ts) -> In t ts -> Fit ks w t.
Proof.
  intros [F1 F2|k F1 F2 F3 F5 F4|j el F1 F2 F3|k F1 F2] I.
  - apply fit_else; auto.
  - inversion F4.
  - eapply fit_owned; eauto. inversion F3; subst; auto.
  - discriminate.
Qed.

Lemma fit_closure ks w n ups x t : Fit ks w (TClosure n ups) -> In (x, t) ups -> Fit ks w t.
Proof.
  intros [F1 F2|k F1 F2 F3 F5 F4|j el F1 F2 F3|k F1 F2] I.
  - apply fit_else; auto.
  - inversion F4.
  - eapply fit_owned; eauto. inversion F3; subst; eauto.
  - discriminate.
Qed.

Lemma fit_enum ks w n vs vn fs x t : Fit ks w (TEnum n vs) -> In (vn, fs) vs -> In (x, t) fs -> Fit ks w t.
Proof.
  intros [F1 F2|k F1 F2 F3 F5 F4|j el F1 F2 F3|k F1 F2] I J.
  - apply fit_else; auto.
  - inversion F4.
  - eapply fit_owned; eauto. inversion F3; subst; eauto.
  - discriminate.
Qed.

Lemma fit_array ks w el n : Fit ks w (TArray el n) -> Fit ks w el.
Proof.
  intros [F1 F2|k F1 F2 F3 F5 F4|j el' F1 F2 F3|k F1 F2].
  - apply fit_else; auto.
  - inversion F4.
  - eapply fit_owned; eauto. inversion F3; subst; auto.
  - discriminate.
Qed.

Lemma denotes_array os w p el n a :
  Listed (fun i os v => Denotes m u8 os w (element p (m_size m el) i) el v) n os a ->
  Denotes m u8 os w p (TArray el n) (MArray a).
Proof.
  destruct a as [vs|vs l]; cbn [Listed].
  - intros (A & B & C). apply d_array_all; auto.
  - intros (A & B & C & D). apply d_array_some; auto.
Qed.

Lemma chars os q t n a : t = TPrim PUint ->
  Listed (fun i os v => Denotes m u8 os None (element q (m_size m t) i) t v) n os a ->
  forallb is_uint (elems a) = true -> Contents m u8 os q (CChars n t) (MArray (abbrev_map to_char a)).
Proof.
  intros ET.
  assert (B : forall p v, Denotes m u8 os None p t v -> is_uint v = true -> Byte m p (to_char v)).
  { intros p v D U. subst t. inversion D; subst; try discriminate.
    exists z, z'. auto. }
  destruct a as [vs|vs l]; cbn [Listed elems abbrev_map].
  - intros (X & Y & Z) F. apply c_chars_all; auto; [rewrite map_length; auto|].
    intros i v N. rewrite nth_error_map in N. destruct (nth_error vs i) as [v0|] eqn:N0; [|discriminate].
    injection N as <-. apply B; auto. eapply forallb_forall in F; eauto. eapply nth_error_In; eauto.
  - intros (X & Y & Z & W) F. rewrite forallb_app in F. apply andb_prop in F as (F1 & F2). cbn [forallb] in F2.
    apply andb_prop in F2 as (F2 & _). apply c_chars_some; auto; [rewrite map_length; auto|].
    intros i v N. rewrite nth_error_map in N. destruct (nth_error vs i) as [v0|] eqn:N0; [|discriminate].
    injection N as <-. apply B; auto. eapply forallb_forall in F1; eauto. eapply nth_error_In; eauto.
Qed.

Lemma read_keeps f : forall ks w p t, Holds m u8 vars w p t -> Usual m u8 t -> Fit ks w t ->
  Keeps (read m f ks p t) (fun os v => Denotes m u8 os w p t v).
Proof.
  induction f as [|f IH]; intros ks w p t H U F; [apply keeps_halt|].
  assert (DM : forall w p t, Mono (fun os v => Denotes m u8 os w p t v)) by (intros w0 p0 t0 os o' a; apply denotes_mono).
  destruct t as [k|id|ts|n args fs|n vs|el c| |el|id|n ups|].
  - apply keeps_prim.
  - cbn [read]. eapply keeps_bind; [apply (DM (Some HBox) (field m p (TBox id) None 0) (unique id))| |].
    + apply IH; [eapply holds_box; eauto|apply usual_unique|].
      apply fit_else; [rewrite last_kind_app|]; right; auto.
    + intros v. apply keeps_ret. intros os D. apply d_box; auto.
  - cbn [read]. eapply keeps_bind; [|apply (keeps_tuple _ w)|].
    + intros os o' vs (A & B). split; auto. intros. apply denotes_mono. eauto.
    + intros j ft N. pose proof (nth_error_In _ _ N) as IN. apply IH.
      * eapply holds_tuple; eauto.
      * inversion U; subst; auto.
      * eapply fit_tuple; eauto.
    + intros vs. apply keeps_ret. intros os (A & B). apply d_tuple; auto.
  - cbn [read]. intros s v s' os E I. apply bind_inr in E as (k & s1 & E1 & E2).
    destruct (struct_kind _ _ _ _ _ _ _ H U F _ _ _ E1) as (-> & OW & SUB). revert s v s' os E2 I E1. intros s v s' os E2 I _.
    revert s v s' os E2 I.
    change (Keeps (bind (process_fields (read m f (match k with Some k => ks ++ [k] | None => ks end)) m p (TStruct n args fs) None 0 fs)
      (fun vs => ret (MAdt n None vs k))) (fun os v => Denotes m u8 os w p (TStruct n args fs) v)).
    eapply keeps_bind; [|apply (keeps_fields _ (inside w k))|].
    + intros os o' vs FA. eapply Forall2_imp; [|exact FA]. intros a b (A & B). split; auto. apply denotes_mono; auto.
    + intros j x ft N. pose proof (nth_error_In _ _ N) as IN. destruct (SUB _ _ IN) as (U1 & F1). apply IH; auto.
      eapply holds_struct; eauto.
    + intros vs. apply keeps_ret. intros os FA. apply fields_spec in FA as (A & B). eapply d_struct; eauto.
  - cbn [read]. destruct (m_variant m p) as [i|] eqn:V; [|apply keeps_halt].
    destruct (nth_error vs i) as [[vn fs]|] eqn:NV; [|apply keeps_halt]. pose proof (nth_error_In _ _ NV) as INV.
    eapply keeps_bind; [|apply (keeps_fields _ w)|].
    + intros os o' xs FA. eapply Forall2_imp; [|exact FA]. intros a b (A & B). split; auto. apply denotes_mono; auto.
    + intros j x ft N. pose proof (nth_error_In _ _ N) as IN. apply IH.
      * eapply holds_enum; eauto.
      * inversion U; subst; eauto.
      * eapply fit_enum; eauto.
    + intros xs. apply keeps_ret. intros os FA. apply fields_spec in FA as (A & B). eapply d_enum; eauto.
  - cbn [read]. eapply keeps_imp; [apply (keeps_array _ (fun i os v => Denotes m u8 os w (element p (m_size m el) i) el v))|].
    + intros i. apply DM.
    + intros i L. apply IH; [eapply holds_array; eauto|inversion U; subst; auto|eapply fit_array; eauto].
    + intros os v (a & -> & L). apply denotes_array. auto.
  - inversion U.
  - apply keeps_halt.
  - cbn [read]. destruct (m_ptr m p) as [q|[a|]|e|e] eqn:MP; try apply keeps_halt.
    2: { intros s v s' os. unfold unallocated. destruct (remap (s_numbers s) a) as [nums x]. intros [= <- <-] I.
         exists []. rewrite app_nil_r. split; [constructor; cbn [s_heap s_place]; apply I|eapply d_dangling; eauto]. }
    2: { apply keeps_ret. intros os. apply d_nowhere; auto. }
    destruct F as [F1 F2|k F1 F2 F3 F5 F4|j el F1 F2 F3|k F1 F2]; [| |inversion F3|discriminate].
    + apply keeps_pointer; auto; [left; auto|]. intros s v s' os G E I.
      assert (CE : content_of m w id = CValue (m_ty m id)) by (destruct F2 as [F2|F2]; rewrite F2; reflexivity).
      assert (RA : read m f ks q (m_ty m id) s = (inr v, s')).
      { unfold read_alloc in E. destruct F1 as [F1|F1]; rewrite F1 in E; exact E. }
      destruct (prog_types _ _ _ PR id) as [TS|US].
      * rewrite TS in RA. destruct (str_never f ks q s v s' F1 G RA).
      * destruct (IH ks None q (m_ty m id) (holds_target _ _ _ _ _ _ _ H F2 MP) US (fit_else _ _ _ F1 (or_introl eq_refl)) _ _ _ _ RA I) as (o & I1 & D).
        exists o. split; auto. rewrite CE. apply c_value; auto.
    + subst w. apply keeps_pointer; auto; [right; auto|]. intros s v s' os G E I. unfold read_alloc in E. rewrite F1 in E.
      destruct k as [len|len el|]; [| |congruence]; cbn [content_of].
      * inversion F4; subst. apply bind_inr in E as (x & s1 & E1 & E2).
        pose proof (prog_byte _ _ _ PR) as TB.
        destruct (keeps_array (read m f ks) (fun i os v => Denotes m u8 os None (element q (m_size m (m_ty m u8)) i) (m_ty m u8) v)
          q (m_size m (m_ty m u8)) len (m_ty m u8)) with (1 := fun i => DM None (element q (m_size m (m_ty m u8)) i) (m_ty m u8))
          (3 := E1) (4 := I) as (o & I1 & a & -> & L).
        { intros i _. rewrite TB. apply keeps_prim. }
        destruct (forallb is_uint (elems a)) eqn:FU; [|discriminate]. injection E2 as <- <-.
        exists o. split; auto. apply chars; auto.
      * destruct (keeps_array (read m f ks) (fun i os v => Denotes m u8 os None (element q (m_size m (m_ty m el)) i) (m_ty m el) v)
          q (m_size m (m_ty m el)) len (m_ty m el)) with (1 := fun i => DM None (element q (m_size m (m_ty m el)) i) (m_ty m el))
          (3 := E) (4 := I) as (o & I1 & a & -> & L).
        { intros i IL. apply IH.
          - eapply holds_elem; eauto.
          - destruct (prog_types _ _ _ PR el) as [TS|US]; auto. cbn [Elts] in F5. rewrite TS in F5. inversion F5.
          - eapply fit_owned; eauto. left; auto. }
        exists o. split; auto. apply c_elems. apply denotes_array. auto.
  - cbn [read]. eapply keeps_bind; [|apply (keeps_tuple _ w)|].
    + intros os o' vs (A & B). split; auto. intros. apply denotes_mono. eauto.
    + intros j ft N. rewrite nth_error_map in N. destruct (nth_error ups j) as [[x t]|] eqn:N0; [|discriminate]. injection N as <-.
      pose proof (nth_error_In _ _ N0) as IN. apply IH.
      * eapply holds_closure; eauto.
      * inversion U; subst; eauto.
      * eapply fit_closure; eauto.
    + intros vs. apply keeps_ret. intros os (A & B). rewrite map_length in A. apply d_closure.
      * clear - A. revert vs A. induction ups as [|[x t] r IHr]; intros [|v vs]; cbn [length map combine fst]; try discriminate; auto.
        intros [= A]. rewrite IHr; auto.
      * intros i x t y v N1 N2. apply (B i t v); [rewrite nth_error_map, N1; auto|].
        clear - N2. revert i vs N2. generalize (map fst ups). induction l as [|z l IHl]; intros i [|v0 vs]; cbn [combine]; destruct i as [|i]; cbn [nth_error]; try discriminate.
        -- intros [= _ <-]. auto.
        -- apply IHl.
  - apply keeps_halt.
Qed.

Lemma locals_keeps f ls : (forall p t, In (p, t) ls -> In (p, t) vars) ->
  Keeps (read_locals m f ls) (fun os vs => Forall2 (fun x v => Denotes m u8 os None (fst x) (snd x) v) ls vs).
Proof.
  induction ls as [|[p t] ls IH]; intros S0; cbn [read_locals]; [apply keeps_ret; constructor|].
  assert (IN : In (p, t) vars) by (apply S0; left; auto).
  eapply (keeps_bind _ _ (fun os v => Denotes m u8 os None p t v)).
  - intros os o' a. apply denotes_mono.
  - apply read_keeps; [apply holds_var; auto|eapply prog_vars; eauto|]. apply fit_else; left; auto.
  - intros v. eapply keeps_bind; [|apply IH; intros; apply S0; right; auto|].
    + intros os o' vs FA. eapply Forall2_imp; [|exact FA]. intros a b. apply denotes_mono.
    + intros vs. apply keeps_ret. intros os FA D. constructor; auto.
Qed.

Lemma read_all_right f vs heap : read_all m f vars = inr (vs, heap) -> Right m u8 vars vs heap.
Proof.
  unfold read_all. destruct (read_locals m f vars (MState [] [] [])) as [[e|vs'] s'] eqn:E; [discriminate|]. intros [= <- <-].
  assert (I0 : Inv [] (MState [] [] [])) by (constructor; cbn [s_heap s_place]; [constructor|constructor|discriminate]).
  destruct (locals_keeps f vars (fun p t I => I) _ _ _ _ E I0) as (os & I1 & D). cbn [app] in *.
  exists os. split; auto. split; apply I1.
Qed.

(** *** Reading succeeds *)

Definition Runs {A} (x : rd A) : Prop := forall s os, Inv os s -> exists a s', x s = (inr a, s').

Lemma runs_ret {A} (a : A) : Runs (ret a).
Proof. intros s os _. exists a, s. auto. Qed.

Lemma runs_bind {A B} (x : rd A) (f : A -> rd B) (Q : objects -> A -> Prop) : Runs x -> Keeps x Q ->
  (forall a s os, Inv os s -> Q os a -> exists b s', f a s = (inr b, s')) -> Runs (bind x f).
Proof.
  intros R K F s os I. destruct (R s os I) as (a & s1 & E). destruct (K _ _ _ _ E I) as (o & I1 & Q1).
  destruct (F a s1 (os ++ o) I1 Q1) as (b & s2 & E2). exists b, s2. unfold bind. rewrite E. auto.
Qed.

Lemma runs_collect (mk : nat -> rd mvalue) (Q : nat -> objects -> mvalue -> Prop) idx :
  (forall i, In i idx -> Runs (mk i)) -> (forall i, In i idx -> Keeps (mk i) (Q i)) -> Runs (collect_state mk idx).
Proof.
  induction idx as [|i r IH]; intros R K s os I; cbn [collect_state]; [eauto|].
  destruct (R i (or_introl eq_refl) s os I) as (v & s1 & E). rewrite E.
  destruct (K i (or_introl eq_refl) _ _ _ _ E I) as (o & I1 & _).
  destruct (IH (fun j J => R j (or_intror J)) (fun j J => K j (or_intror J)) s1 _ I1) as (vs & s2 & E2). rewrite E2. eauto.
Qed.

Lemma runs_array (rd1 : place -> ty -> rd mvalue) (Q : nat -> objects -> mvalue -> Prop) base stride n el :
  (forall i, Mono (Q i)) ->
  (forall i, i < n -> Runs (rd1 (element base stride i) el)) -> (forall i, i < n -> Keeps (rd1 (element base stride i) el) (Q i)) ->
  Runs (read_array rd1 base stride n el).
Proof.
  intros M R K s os I. unfold read_array, abbrev_new, ABBREV_MAX. destruct (Nat.leb n 12) eqn:L.
  - destruct (runs_collect (fun i => rd1 (element base stride i) el) Q (seq 0 n)) with (3 := I) as (vs & s1 & E).
    + intros i J. apply in_seq in J. apply R. lia.
    + intros i J. apply in_seq in J. apply K. lia.
    + rewrite E. eauto.
  - apply Nat.leb_gt in L. change (12 - 1) with 11.
    assert (K' : forall i, In i (seq 0 11) -> Keeps (rd1 (element base stride i) el) (Q i)).
    { intros i J. apply in_seq in J. apply K. lia. }
    destruct (runs_collect (fun i => rd1 (element base stride i) el) Q (seq 0 11)) with (2 := K') (3 := I) as (vs & s1 & E).
    { intros i J. apply in_seq in J. apply R. lia. }
    rewrite E. destruct (keeps_collect (fun i => rd1 (element base stride i) el) Q (seq 0 11) M K' _ _ _ _ E I) as (o & I1 & _).
    destruct (R (n - 1) ltac:(lia) s1 _ I1) as (l & s2 & E2). rewrite E2. eauto.
Qed.

Lemma runs_tuple (rd1 : place -> ty -> rd mvalue) w p t ts : forall i,
  (forall j ft, nth_error ts j = Some ft -> Runs (rd1 (field m p t None (i + j)) ft) /\
     Keeps (rd1 (field m p t None (i + j)) ft) (fun os v => Denotes m u8 os w (field m p t None (i + j)) ft v)) ->
  Runs (read_tuple rd1 m p t i ts).
Proof.
  induction ts as [|ft ts IH]; intros i K; cbn [read_tuple]; [apply runs_ret|].
  pose proof (K 0 ft eq_refl) as (R0 & K0). rewrite Nat.add_0_r in R0, K0.
  eapply runs_bind; [exact R0|exact K0|]. intros v s os I _.
  assert (K' : forall j ft, nth_error ts j = Some ft -> Runs (rd1 (field m p t None (S i + j)) ft) /\
     Keeps (rd1 (field m p t None (S i + j)) ft) (fun os v => Denotes m u8 os w (field m p t None (S i + j)) ft v)).
  { intros j ft' N. specialize (K (S j) ft' N). rewrite Nat.add_succ_r in K. exact K. }
  destruct (IH (S i) K' s os I) as (vs & s1 & E). unfold bind. rewrite E. unfold ret. eauto.
Qed.

Lemma runs_fields (rd1 : place -> ty -> rd mvalue) w p t v fs : forall i,
  (forall j n ft, nth_error fs j = Some (n, ft) -> m_zst m ft = false -> Runs (rd1 (field m p t v (i + j)) ft) /\
     Keeps (rd1 (field m p t v (i + j)) ft) (fun os x => Denotes m u8 os w (field m p t v (i + j)) ft x)) ->
  Runs (process_fields rd1 m p t v i fs).
Proof.
  induction fs as [|[n ft] fs IH]; intros i K; cbn [process_fields]; [apply runs_ret|].
  assert (K' : forall j n ft, nth_error fs j = Some (n, ft) -> m_zst m ft = false -> Runs (rd1 (field m p t v (S i + j)) ft) /\
     Keeps (rd1 (field m p t v (S i + j)) ft) (fun os x => Denotes m u8 os w (field m p t v (S i + j)) ft x)).
  { intros j n' ft' N Z. specialize (K (S j) n' ft' N Z). rewrite Nat.add_succ_r in K. exact K. }
  destruct (m_zst m ft) eqn:Z; [apply IH; auto|].
  pose proof (K 0 n ft eq_refl Z) as (R0 & K0). rewrite Nat.add_0_r in R0, K0.
  eapply runs_bind; [exact R0|exact K0|]. intros x s os I _.
  destruct (IH (S i) K' s os I) as (vs & s1 & E). unfold bind. rewrite E. unfold ret. eauto.
Qed.

Lemma runs_point q s os : Inv os s -> Resolves m u8 vars q -> (exists e, aget Nat.eq_dec (s_place s) (p_alloc q) = Some e) ->
  exists v s', point m q s = (inr v, s').
Proof.
  intros I (R1 & R2) ([sg t] & E). unfold point. rewrite E.
  assert (L : locate_address_in_type (m_layout m t) (m_asize m (p_alloc q)) (p_meta q) (p_off q) <> None).
  { apply (inv_place _ _ I) in E. destruct sg as [[f x]|i].
    - destruct E as (_ & E). eapply R1; eauto.
    - destruct E as (_ & p & c & N & A & ->). apply (R2 (p, c)); auto. pose proof (inv_real _ _ I) as RE.
      rewrite Forall_forall in RE. apply RE. eapply nth_error_In; eauto. }
  destruct (locate_address_in_type _ _ _ _); [eauto|congruence].
Qed.

Lemma runs_pointer rd1 ks w p id q : Holds m u8 vars w p (TPtr id) -> m_ptr m p = Points q -> Agrees ks w ->
  m_kind m (p_alloc q) <> AOther -> Resolves m u8 vars q ->
  Runs (read_alloc rd1 m ks q (m_ty m id)) ->
  (forall s v s' os, aget Nat.eq_dec (s_place s) (p_alloc q) = None -> read_alloc rd1 m ks q (m_ty m id) s = (inr v, s') ->
     Inv os s -> exists o', Inv (os ++ o') s' /\ Contents m u8 (os ++ o') q (content_of m w id) v) ->
  Runs (read_pointer rd1 m ks q (m_ty m id)).
Proof.
  intros H MP A NK RS R K s os I. pose proof (keeps_pointer rd1 ks w p id q H MP A K) as KP. clear KP. unfold read_pointer.
  destruct (aget Nat.eq_dec (s_place s) (p_alloc q)) as [e|] eqn:D.
  - eapply runs_point; eauto.
  - destruct (R s os I) as (x & s1 & E1). destruct (K _ _ _ _ D E1 I) as (o1 & I1 & C1). unfold bind. rewrite E1.
    destruct (m_kind m (p_alloc q)) eqn:MK; [| |congruence].
    + destruct (m_slot m (p_alloc q)) as [[[f y] lt]|] eqn:SL.
      * cbn [set_place]. eapply (runs_point q _ (os ++ o1)); auto.
        -- constructor; cbn [s_heap s_place]; [apply (inv_heap _ _ I1)|apply (inv_real _ _ I1)|].
           intros a sg t. rewrite aget_aset. destruct (Nat.eq_dec a (p_alloc q)) as [->|].
           ++ intros [= <- <-]. auto.
           ++ apply (inv_place _ _ I1).
        -- cbn [s_place]. rewrite aget_aset_eq. eauto.
      * unfold unallocated. destruct (remap (s_numbers s1) (p_alloc q)). eauto.
    + rewrite (agrees_type _ _ _ A). cbn [push_heap]. unfold push_heap.
      eapply (runs_point q _ ((os ++ o1) ++ [(q, content_of m w id)])); auto.
      * pose proof (Forall2_length _ _ _ (inv_heap _ _ I1)) as LL. constructor; cbn [s_heap s_place].
        -- apply Forall2_app.
           ++ eapply Forall2_imp; [|apply (inv_heap _ _ I1)]. intros a b. apply contents_mono.
           ++ constructor; [|constructor]. cbn [fst snd]. apply contents_mono. auto.
        -- apply Forall_app. split; [apply (inv_real _ _ I1)|]. constructor; [|constructor].
           exists w, p, id. cbn [fst snd]. auto.
        -- intros a sg t. rewrite aget_aset. destruct (Nat.eq_dec a (p_alloc q)) as [->|].
           ++ intros [= <- <-]. split; auto. exists q, (content_of m w id). split; auto.
              rewrite <- LL. rewrite nth_error_app2 by lia. rewrite Nat.sub_diag. auto.
           ++ intros G. apply (inv_place _ _ I1) in G. destruct sg as [[f y]|i]; auto.
              destruct G as (G1 & p' & c & G2 & G3). split; auto. exists p', c. split; auto.
              rewrite nth_error_app1; auto. apply nth_error_Some. rewrite G2. discriminate.
      * cbn [s_place]. rewrite aget_aset_eq. eauto.
Qed.

Lemma runs_prim f ks p k : 0 < f -> (forall e, m_scalar m p k <> BadScalar e) -> Runs (read m f ks p (TPrim k)).
Proof.
  intros L N s os _. destruct f as [|f]; [lia|]. cbn [read]. destruct (m_scalar m p k) as [z| |e] eqn:E; unfold ret; eauto.
  destruct (N e); auto.
Qed.

(** With [n] units of fuel or more, the value is read. *)
Definition Enough (n : nat) (w : within) (p : place) (t : ty) : Prop :=
  forall f ks, n <= f -> Holds m u8 vars w p t -> Usual m u8 t -> Fit ks w t -> Runs (read m f ks p t).

Lemma enough_le n n' w p t : n <= n' -> Enough n w p t -> Enough n' w p t.
Proof. intros L E f ks LF. apply E. lia. Qed.

(** A bound for finitely many. *)
Lemma bound (P : nat -> nat -> Prop) k : (forall i n n', n <= n' -> P i n -> P i n') ->
  (forall i, i < k -> exists n, P i n) -> exists n, forall i, i < k -> P i n.
Proof.
  intros M. induction k as [|k IH]; intros E; [exists 0; intros; lia|].
  destruct IH as (n & N); [intros; apply E; lia|]. destruct (E k ltac:(lia)) as (n' & N').
  exists (n + n'). intros i L. destruct (Nat.eq_dec i k) as [->|].
  - eapply M; [|exact N']. lia.
  - eapply M; [|apply N; lia]. lia.
Qed.

Lemma read_len_runs f ks p el n s : Length m u8 el p n ->
  read_vec_len (read m (S f) ks) m p (vec u8 el) [("buf", rawvec u8); ("len", TPrim PUint)] s = (inr (Some n), s).
Proof.
  intros (z & Z1 & ->). unfold read_vec_len. cbn [field_by_name String.eqb Ascii.eqb Bool.eqb read]. rewrite field_is, Z1. reflexivity.
Qed.

Ltac change_len RL :=
  match type of RL with
  | ?l = _ => match goal with |- context [read_vec_len ?a ?b ?c ?d ?e ?s] => change (read_vec_len a b c d e s) with l end
  end.

Lemma own_kind_runs f ks w p n args fs k : Holds m u8 vars w p (TStruct n args fs) -> Usual m u8 (TStruct n args fs) ->
  Fit ks w (TStruct n args fs) -> Owns m u8 w p (TStruct n args fs) k -> 0 < f ->
  forall s, exists k', own_kind (read m f ks) m ks p (TStruct n args fs) n args fs s = (inr k', s) /\
    Owns m u8 w p (TStruct n args fs) k'.
Proof.
  intros H U F O L s. destruct f as [|f]; [lia|].
  assert (X : exists k' s', own_kind (read m (S f) ks) m ks p (TStruct n args fs) n args fs s = (inr k', s')).
  { inversion O as [len LN E|el len NS LN E|el IS E|n' a' fs' N1 N2 E]; subst.
    - exists (Some (HString len)), s. pose proof (read_len_runs f ks _ _ _ s LN) as RL.
      unfold own_kind, bind. cbn [String.eqb Ascii.eqb Bool.eqb field_by_name vec] in *.
      change_len RL. rewrite RL. reflexivity.
    - pose proof (read_len_runs f ks _ _ _ s LN) as RL.
      unfold own_kind, bind. cbn [String.eqb Ascii.eqb Bool.eqb vec] in *. change_len RL. rewrite RL. unfold ret.
      destruct (last_kind ks) as [[j|j el'|]|]; eauto.
    - destruct (prog_lengths _ _ _ PR _ _ _ H) as (len & LN). pose proof (read_len_runs f ks _ _ _ s LN) as RL.
      unfold own_kind, bind. cbn [String.eqb Ascii.eqb Bool.eqb vec] in *. change_len RL. rewrite RL. unfold ret.
      destruct (last_kind ks) as [[j|j el'|]|]; eauto.
    - unfold own_kind. rewrite (struct_neq _ _ N1), (struct_neq _ _ N2). unfold ret. eauto. }
  destruct X as (k' & s' & X). destruct (struct_kind _ _ _ _ _ _ _ H U F _ _ _ X) as (-> & OW & _). eauto.
Qed.

Lemma length_fun el p n n' : Length m u8 el p n -> Length m u8 el p n' -> n = n'.
Proof. intros (z & A & B) (z' & A' & B'). rewrite A in A'. injection A' as ->. congruence. Qed.

Lemma owns_fun w p t k k' : Owns m u8 w p t k -> Owns m u8 w p t k' -> k = k'.
Proof.
  intros A B. inversion A; subst; inversion B; subst; try congruence; try contradiction; try discriminate.
  - f_equal. f_equal. eapply length_fun; eauto.
  - f_equal. f_equal. eapply length_fun; eauto.
Qed.

Lemma nth_lt {A} (l : list A) i x : nth_error l i = Some x -> i < length l.
Proof. intros N. apply nth_error_Some. rewrite N. discriminate. Qed.

Lemma ready_enough w p t : Ready m u8 vars w p t -> exists n, Enough n w p t.
Proof.
  intros R. induction R as [w p k N|w p id R (n & IH)|w p ts R IH|w p n ups R IH|w p n args fs k O R IH|w p n vs v vn fs V NV R IH
    |w p el n R IH|w p id q EW MP NK RS R (n & IH)|p id q len el MP NK RS R IH|p id q len MP NK RS R|w p id a MP].
  - exists 1. intros f ks L _ _ _. apply runs_prim; auto.
  - exists (S n). intros f ks L H U F. destruct f as [|f]; [lia|]. cbn [read].
    assert (FB : Fit (ks ++ [HBox]) (Some HBox) (unique id)) by (apply fit_else; [rewrite last_kind_app|]; right; auto).
    pose proof (holds_box _ _ _ _ _ _ H) as HB.
    eapply runs_bind; [apply IH; auto; [lia|apply usual_unique]|apply (read_keeps f _ (Some HBox)); auto; apply usual_unique|].
    intros a s os I _. unfold ret. eauto.
  - destruct (bound (fun i n => forall t, nth_error ts i = Some t -> Enough n w (field m p (TTuple ts) None i) t) (length ts)) as (N & B).
    { intros i n n' L E t Nt. eapply enough_le; eauto. }
    { intros i L. destruct (nth_error ts i) as [t|] eqn:E; [|exists 0; discriminate]. destruct (IH i t E) as (n & X).
      exists n. intros t' [= <-]. auto. }
    exists (S N). intros f ks L H U F. destruct f as [|f]; [lia|]. cbn [read].
    assert (EA : forall j ft, nth_error ts j = Some ft -> Runs (read m f ks (field m p (TTuple ts) None (0 + j)) ft) /\
      Keeps (read m f ks (field m p (TTuple ts) None (0 + j)) ft) (fun os v => Denotes m u8 os w (field m p (TTuple ts) None (0 + j)) ft v)).
    { intros j ft Nj. pose proof (nth_error_In _ _ Nj) as IN. pose proof (holds_tuple _ _ _ _ _ _ _ _ H Nj) as HJ.
      assert (UJ : Usual m u8 ft) by (inversion U; subst; auto). pose proof (fit_tuple _ _ _ _ F IN) as FJ.
      split; [apply (B j (nth_lt _ _ _ Nj)); auto; lia|apply read_keeps; auto]. }
    eapply runs_bind; [eapply runs_tuple; exact EA|apply (keeps_tuple _ w); apply EA|]. intros a s os I _. unfold ret. eauto.
  - destruct (bound (fun i n0 => forall x t, nth_error ups i = Some (x, t) -> Enough n0 w (field m p (TClosure n ups) None i) t) (length ups)) as (N & B).
    { intros i n0 n' L E x t Nt. eapply enough_le; eauto. }
    { intros i L. destruct (nth_error ups i) as [[x t]|] eqn:E; [|exists 0; discriminate]. destruct (IH i x t E) as (n0 & X).
      exists n0. intros x' t' [= <- <-]. auto. }
    exists (S N). intros f ks L H U F. destruct f as [|f]; [lia|]. cbn [read].
    assert (EA : forall j ft, nth_error (map snd ups) j = Some ft -> Runs (read m f ks (field m p (TClosure n ups) None (0 + j)) ft) /\
      Keeps (read m f ks (field m p (TClosure n ups) None (0 + j)) ft) (fun os v => Denotes m u8 os w (field m p (TClosure n ups) None (0 + j)) ft v)).
    { intros j ft Nm. rewrite nth_error_map in Nm. destruct (nth_error ups j) as [[x t]|] eqn:Nj; [|discriminate]. injection Nm as <-.
      pose proof (nth_error_In _ _ Nj) as IN. pose proof (holds_closure _ _ _ _ _ _ _ _ _ _ H Nj) as HJ.
      assert (UJ : Usual m u8 t) by (inversion U; subst; eauto). pose proof (fit_closure _ _ _ _ _ _ F IN) as FJ.
      split; [apply (B j (nth_lt _ _ _ Nj) x t); auto; lia|apply read_keeps; auto]. }
    eapply runs_bind; [eapply runs_tuple; exact EA|apply (keeps_tuple _ w); apply EA|]. intros a s os I _. unfold ret. eauto.
  - destruct (bound (fun i n0 => forall x t, nth_error fs i = Some (x, t) -> m_zst m t = false ->
      Enough n0 (inside w k) (field m p (TStruct n args fs) None i) t) (length fs)) as (N & B).
    { intros i n0 n' L E x t Nt Z. eapply enough_le; eauto. }
    { intros i L. destruct (nth_error fs i) as [[x t]|] eqn:E; [|exists 0; discriminate].
      destruct (m_zst m t) eqn:Z; [exists 0; intros x' t' [= <- <-]; congruence|]. destruct (IH i x t E Z) as (n0 & X).
      exists n0. intros x' t' [= <- <-] _. auto. }
    exists (S (S N)). intros f ks L H U F. destruct f as [|f]; [lia|]. cbn [read]. intros s os I.
    destruct (own_kind_runs f ks _ _ _ _ _ _ H U F O ltac:(lia) s) as (k' & EK & O'). unfold bind at 1. rewrite EK.
    destruct (struct_kind _ _ _ _ _ _ _ H U F _ _ _ EK) as (_ & _ & SUB).
    rewrite (owns_fun _ _ _ _ _ O' O) in *. clear k' EK O'. revert s os I.
    set (ks' := match k with Some k => ks ++ [k] | None => ks end) in *.
    change (Runs (bind (process_fields (read m f ks') m p (TStruct n args fs) None 0 fs) (fun vs => ret (MAdt n None vs k)))).
    assert (EA : forall j x ft, nth_error fs j = Some (x, ft) ->
      (m_zst m ft = false -> Runs (read m f ks' (field m p (TStruct n args fs) None (0 + j)) ft)) /\
      Keeps (read m f ks' (field m p (TStruct n args fs) None (0 + j)) ft)
        (fun os v => Denotes m u8 os (inside w k) (field m p (TStruct n args fs) None (0 + j)) ft v)).
    { intros j x ft Nj. pose proof (nth_error_In _ _ Nj) as IN. destruct (SUB _ _ IN) as (UJ & FJ).
      pose proof (holds_struct _ _ _ _ _ _ _ _ _ _ _ _ H O Nj) as HJ. split; [|apply read_keeps; auto].
      intros Z. apply (B j (nth_lt _ _ _ Nj) x ft); auto; lia. }
    eapply runs_bind; [apply (runs_fields _ (inside w k))|apply (keeps_fields _ (inside w k))|].
    + intros j x ft Nj Z. destruct (EA j x ft Nj) as (A1 & A2). auto.
    + intros j x ft Nj. apply (EA j x ft Nj).
    + intros a s os I _. unfold ret. eauto.
  - destruct (bound (fun i n0 => forall x t, nth_error fs i = Some (x, t) -> m_zst m t = false ->
      Enough n0 w (field m p (TEnum n vs) (Some v) i) t) (length fs)) as (N & B).
    { intros i n0 n' L E x t Nt Z. eapply enough_le; eauto. }
    { intros i L. destruct (nth_error fs i) as [[x t]|] eqn:E; [|exists 0; discriminate].
      destruct (m_zst m t) eqn:Z; [exists 0; intros x' t' [= <- <-]; congruence|]. destruct (IH i x t E Z) as (n0 & X).
      exists n0. intros x' t' [= <- <-] _. auto. }
    exists (S N). intros f ks L H U F. destruct f as [|f]; [lia|]. cbn [read]. rewrite V, NV.
    pose proof (nth_error_In _ _ NV) as INV.
    assert (EA : forall j x ft, nth_error fs j = Some (x, ft) ->
      (m_zst m ft = false -> Runs (read m f ks (field m p (TEnum n vs) (Some v) (0 + j)) ft)) /\
      Keeps (read m f ks (field m p (TEnum n vs) (Some v) (0 + j)) ft)
        (fun os x => Denotes m u8 os w (field m p (TEnum n vs) (Some v) (0 + j)) ft x)).
    { intros j x ft Nj. pose proof (nth_error_In _ _ Nj) as IN. pose proof (fit_enum _ _ _ _ _ _ _ _ F INV IN) as FJ.
      assert (UJ : Usual m u8 ft) by (inversion U; subst; eauto).
      pose proof (holds_enum _ _ _ _ _ _ _ _ _ _ _ _ _ H V NV Nj) as HJ. split; [|apply read_keeps; auto].
      intros Z. apply (B j (nth_lt _ _ _ Nj) x ft); auto; lia. }
    eapply runs_bind; [apply (runs_fields _ w)|apply (keeps_fields _ w)|].
    + intros j x ft Nj Z. destruct (EA j x ft Nj) as (A1 & A2). auto.
    + intros j x ft Nj. apply (EA j x ft Nj).
    + intros a s os I _. unfold ret. eauto.
  - destruct (bound (fun i n0 => Enough n0 w (element p (m_size m el) i) el) n) as (N & B).
    { intros i n0 n' L E. eapply enough_le; eauto. }
    { intros i L. apply IH; auto. }
    exists (S N). intros f ks L H U F. destruct f as [|f]; [lia|]. cbn [read].
    assert (UJ : Usual m u8 el) by (inversion U; subst; auto). pose proof (fit_array _ _ _ _ F) as FJ.
    apply (runs_array _ (fun i os v => Denotes m u8 os w (element p (m_size m el) i) el v)).
    + intros i os o' a. apply denotes_mono.
    + intros i LI. apply (B i LI); auto; [lia|eapply holds_array; eauto].
    + intros i LI. apply read_keeps; auto. eapply holds_array; eauto.
  - exists (S n). intros f ks L H U F. destruct f as [|f]; [lia|]. cbn [read]. rewrite MP.
    assert (F1 : Elsewhere (last_kind ks)).
    { destruct F as [F1 F2|k F1 F2 F3 F5 F4|j el F1 F2 F3|k F1 F2]; auto; [|inversion F3|discriminate].
      destruct EW as [EW|EW]; congruence. }
    assert (RA : forall s, read_alloc (read m f ks) m ks q (m_ty m id) s = read m f ks q (m_ty m id) s).
    { intros s. unfold read_alloc. destruct F1 as [F1|F1]; rewrite F1; auto. }
    pose proof (holds_target _ _ _ _ _ _ _ H EW MP) as HT.
    destruct (prog_types _ _ _ PR id) as [TS|US]; [rewrite TS in R; inversion R|].
    pose proof (fit_else ks None (m_ty m id) F1 (or_introl eq_refl)) as FT.
    apply (runs_pointer _ _ w p); auto; [left; auto| |].
    + intros s os I. rewrite RA. apply (IH f ks ltac:(lia) HT US FT s os I).
    + intros s x s' os _ E I. rewrite RA in E. destruct (read_keeps f ks None q _ HT US FT _ _ _ _ E I) as (o & I1 & D).
      exists o. split; auto. destruct EW as [EW|EW]; rewrite EW; apply c_value; auto.
  - destruct (bound (fun i n0 => Enough n0 None (element q (m_size m (m_ty m el)) i) (m_ty m el)) len) as (N & B).
    { intros i n0 n' L E. eapply enough_le; eauto. }
    { intros i L. apply IH; auto. }
    exists (S N). intros f ks L H U F. destruct f as [|f]; [lia|]. cbn [read]. rewrite MP.
    assert (X : last_kind ks = Some (HVec len el) /\ Owned u8 (m_ty m el)).
    { destruct F as [F1 F2|k F1 F2 F3 F5 F4|j el' F1 F2 F3|k F1 F2]; [destruct F2; discriminate| |inversion F3|discriminate].
      injection F2 as <-. auto. }
    destruct X as (LK & OE).
    assert (UE : Usual m u8 (m_ty m el)).
    { destruct (prog_types _ _ _ PR el) as [TS|US]; auto. rewrite TS in OE. inversion OE. }
    assert (EA : forall i, i < len -> Runs (read m f ks (element q (m_size m (m_ty m el)) i) (m_ty m el)) /\
      Keeps (read m f ks (element q (m_size m (m_ty m el)) i) (m_ty m el)) (fun os v => Denotes m u8 os None (element q (m_size m (m_ty m el)) i) (m_ty m el) v)).
    { intros i LI. pose proof (holds_elem _ _ _ _ _ _ _ _ _ H MP LI) as HE.
      assert (FE : Fit ks None (m_ty m el)) by (eapply fit_owned; eauto; left; auto).
      split; [apply (B i LI); auto; lia|apply read_keeps; auto]. }
    assert (M : forall i, Mono (fun os v => Denotes m u8 os None (element q (m_size m (m_ty m el)) i) (m_ty m el) v)).
    { intros i os o' a. apply denotes_mono. }
    apply (runs_pointer _ _ (Some (HVec len el)) p); auto; [right; auto| |].
    + unfold read_alloc. rewrite LK. eapply runs_array; [exact M|intros; apply EA; auto|intros; apply EA; auto].
    + unfold read_alloc. rewrite LK. intros s x s' os _ E I.
      destruct (keeps_array _ _ _ _ _ _ M (fun i LI => proj2 (EA i LI)) _ _ _ _ E I) as (o & I1 & a & -> & LL).
      exists o. split; auto. cbn [content_of]. apply c_elems. apply denotes_array. auto.
  - exists 2. intros f ks L H U F. destruct f as [|f]; [lia|]. cbn [read]. rewrite MP.
    assert (X : last_kind ks = Some (HString len) /\ id = u8).
    { destruct F as [F1 F2|k F1 F2 F3 F5 F4|j el' F1 F2 F3|k F1 F2]; [destruct F2; discriminate| |inversion F3|discriminate].
      injection F2 as <-. inversion F4; subst. auto. }
    destruct X as (LK & ->). pose proof (prog_byte _ _ _ PR) as TB.
    assert (M : forall i, Mono (fun os v => Denotes m u8 os None (element q (m_size m (m_ty m u8)) i) (m_ty m u8) v)).
    { intros i os o' a. apply denotes_mono. }
    assert (EA : forall i, i < len -> Runs (read m f ks (element q (m_size m (m_ty m u8)) i) (m_ty m u8)) /\
      Keeps (read m f ks (element q (m_size m (m_ty m u8)) i) (m_ty m u8)) (fun os v => Denotes m u8 os None (element q (m_size m (m_ty m u8)) i) (m_ty m u8) v)).
    { intros i LI. rewrite TB. split; [|apply keeps_prim]. apply runs_prim; [lia|]. intros e. destruct (R i LI) as (z & E).
      rewrite TB in E. rewrite element_is, E. discriminate. }
    assert (UI : forall i v os, i < len -> Denotes m u8 os None (element q (m_size m (m_ty m u8)) i) (m_ty m u8) v -> is_uint v = true).
    { intros i x os LI D. destruct (R i LI) as (z & E). rewrite TB in D, E. rewrite element_is in D. inversion D; subst; auto. congruence. }
    apply (runs_pointer _ _ (Some (HString len)) p); auto; [right; auto| |].
    + unfold read_alloc. rewrite LK. eapply runs_bind.
      * eapply runs_array; [exact M|intros; apply EA; auto|intros; apply EA; auto].
      * apply (keeps_array _ _ _ _ _ _ M (fun i LI => proj2 (EA i LI))).
      * intros a s os I (b & -> & LL). assert (FU : forallb is_uint (elems b) = true).
        { apply forallb_forall. intros x IX. destruct b as [xs|xs l]; cbn [elems Listed] in *.
          - destruct LL as (A1 & A2 & A3). apply In_nth_error in IX as (i & Ni). apply (UI i x os); auto.
            rewrite <- A2. eapply nth_lt; eauto.
          - destruct LL as (A1 & A2 & A3 & A4). apply in_app_iff in IX as [IX|[<-|[]]].
            + apply In_nth_error in IX as (i & Ni). apply (UI i x os); auto. apply nth_lt in Ni. lia.
            + apply (UI (len - 1) l os); auto. lia. }
        rewrite FU. unfold ret. eauto.
    + unfold read_alloc. rewrite LK. intros s x s' os _ E I. apply bind_inr in E as (y & s1 & E1 & E2).
      destruct (keeps_array _ _ _ _ _ _ M (fun i LI => proj2 (EA i LI)) _ _ _ _ E1 I) as (o & I1 & a & -> & LL).
      destruct (forallb is_uint (elems a)) eqn:FU; [|discriminate]. injection E2 as <- <-.
      exists o. split; auto. cbn [content_of]. apply chars; auto.
  - exists 1. intros f ks L H U F. destruct f as [|f]; [lia|]. cbn [read]. rewrite MP. destruct a as [a|]; [|apply runs_ret].
    intros s os _. unfold unallocated. destruct (remap (s_numbers s) a). eauto.
Qed.

Lemma read_all_runs : (forall p t, In (p, t) vars -> Ready m u8 vars None p t) ->
  exists n, forall f, n <= f -> exists vs heap, read_all m f vars = inr (vs, heap).
Proof.
  intros R. assert (X : forall ls, (forall p t, In (p, t) ls -> In (p, t) vars) ->
    exists n, forall f, n <= f -> Runs (read_locals m f ls)).
  { induction ls as [|[p t] ls IH]; intros S0; [exists 0; intros; apply runs_ret|].
    destruct IH as (n & IH); [intros; apply S0; right; auto|]. assert (IN : In (p, t) vars) by (apply S0; left; auto).
    destruct (ready_enough _ _ _ (R p t IN)) as (n' & EN). exists (n + n'). intros f L. cbn [read_locals].
    assert (H : Holds m u8 vars None p t) by (apply holds_var; auto). pose proof (prog_vars _ _ _ PR _ _ IN) as U.
    assert (F : Fit [] None t) by (apply fit_else; left; auto).
    eapply runs_bind; [apply EN; auto; lia|apply (read_keeps f [] None p t); auto|].
    intros a s os I _. destruct (IH f ltac:(lia) s os I) as (vs & s1 & E). unfold bind. rewrite E. unfold ret. eauto. }
  destruct (X vars (fun p t I => I)) as (n & N). exists n. intros f L. unfold read_all.
  assert (I0 : Inv [] (MState [] [] [])) by (constructor; cbn [s_heap s_place]; [constructor|constructor|discriminate]).
  destruct (N f L _ _ I0) as (vs & s' & E). rewrite E. eauto.
Qed.

End Reader.
