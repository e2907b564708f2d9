(** * Proofs about traces as JSON *)
From Coq Require Import Ascii String.
From Coq Require Import List Arith ZArith Bool Lia.
From Verif Require Import Base ValuesModel ReaderModel BookModel RunModel NumbersModel NumbersSpec NumbersProofs EmbedSpec LookModel WireModel WireSpec.
From Verif Require JsonSpec JsonModel JsonProofs.
Import ListNotations.
Local Open Scope string_scope.
Local Open Scope list_scope.

(** ** Induction on values *)
Section Induction.
  Context (P : mvalue -> Prop).
  Context (Hscalar : forall k z, P (MScalar k z)) (Htuple : forall vs, Forall P vs -> P (MTuple vs)).
  Context (Hall : forall vs, Forall P vs -> P (MArray (AllOf vs))) (Honly : forall vs v, Forall P vs -> P v -> P (MArray (Only vs v))).
  Context (Hadt : forall n x fs k, Forall (fun f => P (snd f)) fs -> P (MAdt n x fs k)).
  Context (Hptr : forall sg ps r, P (MPtr sg ps r)) (Hdead : forall a, P (MUnalloc a)).
  Fixpoint mvalue_all (v : mvalue) : P v :=
    let go := fix go l := match l return Forall P l with [] => Forall_nil _ | x :: r => Forall_cons x (mvalue_all x) (go r) end in
    match v with
    | MScalar k z => Hscalar k z
    | MTuple vs => Htuple vs (go vs)
    | MArray (AllOf vs) => Hall vs (go vs)
    | MArray (Only vs x) => Honly vs x (go vs) (mvalue_all x)
    | MAdt n x fs k => Hadt n x fs k
        ((fix gof l := match l return Forall (fun f => P (snd f)) l with [] => Forall_nil _ | f :: r => Forall_cons f (mvalue_all (snd f)) (gof r) end) fs)
    | MPtr sg ps r => Hptr sg ps r
    | MUnalloc a => Hdead a
    end.
End Induction.

(** ** Texts *)
Lemma lit_inj a b : lit a = lit b -> a = b.
Proof.
  unfold lit. intros E. rewrite <- (string_of_list_ascii_of_string a), <- (string_of_list_ascii_of_string b). f_equal.
  revert E. generalize (list_ascii_of_string a) as l, (list_ascii_of_string b) as m. induction l as [|x l IH]; intros [|y m]; cbn [map]; try discriminate; [reflexivity|].
  intros [= E1 E2]. f_equal; [|apply IH, E2]. rewrite <- (ascii_nat_embedding x), <- (ascii_nat_embedding y), E1. reflexivity.
Qed.

(** ** Members *)
Lemma member_fun k j x y : Member k j x -> Member k j y -> x = y.
Proof. intros (l & -> & E) (l' & E' & F). injection E' as <-. congruence. Qed.
Lemma tagged_fun t t' j x y : Tagged t j x -> Tagged t' j y -> t = t' /\ x = y.
Proof.
  intros [A B] [A' B']. split; [|eapply member_fun; eauto]. pose proof (member_fun _ _ _ _ A A') as E. injection E as E. apply lit_inj, E.
Qed.
Lemma tagged_type t j x : Tagged t j x -> Member "type" j (JStr (lit t)).
Proof. intros [A _]. exact A. Qed.
Lemma type_fun t t' j : Member "type" j (JStr (lit t)) -> Member "type" j (JStr (lit t')) -> t = t'.
Proof. intros A A'. pose proof (member_fun _ _ _ _ A A') as E. injection E as E. apply lit_inj, E. Qed.
Lemma member_reads k j x j' : Member k j x -> Reads j j' -> exists x', Member k j' x' /\ Reads x x'.
Proof.
  intros (l & -> & E) R. inversion R as [| | | | | | |l0 l' A B E1 E2]; subst. destruct (A _ _ E) as (x' & G & H). exists x'. split; [|exact H]. exists l'. auto.
Qed.
Lemma reads_str_inv s j : Reads (JStr s) j -> j = JStr s.
Proof. intros R. inversion R. reflexivity. Qed.
Lemma text_reads k j s j' : Member k j (JStr s) -> Reads j j' -> Member k j' (JStr s).
Proof. intros M R. destruct (member_reads _ _ _ _ M R) as (x & M' & Rx). apply reads_str_inv in Rx. subst x. exact M'. Qed.
Lemma nat_reads n j : Size n -> Reads (JNum n) j -> j = JNum n.
Proof.
  intros S R. inversion R as [| |n0 n' N| | | | |]; subst. f_equal. apply js_number_spec in N. rewrite js_number_fix in N; [lia|].
  exists (Z.of_nat n), 0%Z. unfold Size in S. lia.
Qed.
Lemma num_reads k j n j' : Size n -> Member k j (JNum n) -> Reads j j' -> Member k j' (JNum n).
Proof. intros S M R. destruct (member_reads _ _ _ _ M R) as (x & M' & Rx). apply nat_reads in Rx; [|exact S]. subst x. exact M'. Qed.
Lemma tagged_reads t j x j' : Tagged t j x -> Reads j j' -> exists x', Tagged t j' x' /\ Reads x x'.
Proof.
  intros [A B] R. destruct (member_reads _ _ _ _ B R) as (x' & M & Rx). exists x'. split; [|exact Rx]. split; [eapply text_reads; eauto|exact M].
Qed.
Lemma arr_reads l j : Reads (JArr l) j -> exists l', j = JArr l' /\ Forall2 Reads l l'.
Proof. intros R. inversion R; subst. eauto. Qed.

(** ** What is written has the form *)
Lemma member_at k l x : aget str_eqd l (lit k) = Some x -> Member k (JObj l) x.
Proof. intros E. exists l. auto. Qed.
Lemma tagged_has t x : Tagged t (tagged t x) x.
Proof. split; apply member_at; reflexivity. Qed.
Lemma items_map {A B} (R : json -> B -> Prop) (f : A -> json) (g : A -> B) l : Forall (fun a => R (f a) (g a)) l -> Items R (JArr (map f l)) (map g l).
Proof. intros F. exists (map f l). split; [reflexivity|]. induction F; cbn [map]; constructor; auto. Qed.
Lemma items_id {A} (R : json -> A -> Prop) (f : A -> json) l : Forall (fun a => R (f a) a) l -> Items R (JArr (map f l)) l.
Proof. intros F. rewrite <- (map_id l) at 2. apply (items_map R f (fun a => a)). exact F. Qed.
Lemma all_true {A} (P : A -> Prop) l : (forall a, P a) -> Forall P l.
Proof. intros H. apply Forall_forall. auto. Qed.

Lemma seg_conforms s : SegC (jseg s) s.
Proof. destruct s; apply tagged_has. Qed.
Lemma segment_conforms sg : SegmentC (jsegment sg) sg.
Proof.
  destruct sg as [[f l]|i]; cbn [SegmentC jsegment]; eexists; (split; [apply tagged_has|]); [split|]; apply member_at; reflexivity.
Qed.
Lemma kind_conforms k : KindC (jkind k) k.
Proof. destruct k; cbn [KindC jkind]; [eexists; split; [apply tagged_has|apply member_at; reflexivity] ..|apply member_at; reflexivity]. Qed.
Lemma opt_conforms {A} (R : json -> A -> Prop) f o : (forall a, R (f a) a) -> Opt R (jopt f o) o.
Proof. destruct o; cbn; auto. Qed.

Section Conforming.
  Context (short : Z -> bool * nat * Z) (real : bool -> nat -> Z -> Z) (HP : Prints short real).

  Lemma value_conforms v : Real v -> Conforms real (jvalue short v) v.
  Proof.
    induction v as [k z|vs H|vs H|vs v H Hv|n x fs k H|sg ps r|a] using mvalue_all; intros Re; inversion Re; subst; cbn [jvalue].
    - match goal with H : Ranged _ _ |- _ => rename H into G end. destruct k; cbn [Ranged jscalar] in *.
      + destruct G as [-> | ->]; [apply (co_bool real _ false)|apply (co_bool real _ true)]; apply tagged_has.
      + remember (Z.to_nat z) as i eqn:Ei. replace z with (Z.of_nat i) by lia. constructor. apply tagged_has.
      + remember (Z.to_nat z) as i eqn:Ei. replace z with (Z.of_nat i) by lia. constructor. apply tagged_has.
      + unfold jint. destruct (Z.ltb_spec z 0) as [L|L].
        * remember (pred (Z.to_nat (- z))) as i eqn:Ei. replace z with (- Z.of_nat (S i))%Z by lia. constructor. apply tagged_has.
        * remember (Z.to_nat z) as i eqn:Ei. replace z with (Z.of_nat i) by lia. constructor. apply tagged_has.
      + unfold jfloat. destruct (Z.eqb_spec ((z / 2 ^ 52) mod 2 ^ 11) 2047) as [E|E].
        * apply co_null; [apply tagged_has|exact E].
        * pose proof (HP z G E) as HPz. destruct (short z) as [[b m] e]. remember (real b m e) as y eqn:Ey in HPz. subst z y. constructor; [apply tagged_has|].
          exact E.
    - apply (co_tuple real _ (JArr (map (jvalue short) vs))); [apply tagged_has|]. apply items_id.
      rewrite Forall_forall in *. auto.
    - eapply co_all; [apply tagged_has|apply tagged_has|]. apply items_id. rewrite Forall_forall in *. auto.
    - eapply co_only; [apply tagged_has|apply tagged_has| |auto]. apply items_id. rewrite Forall_forall in *. auto.
    - eapply co_adt; [apply tagged_has|apply member_at; reflexivity|apply member_at; reflexivity|apply opt_conforms; reflexivity|
        apply member_at; reflexivity| |apply member_at; reflexivity|apply opt_conforms, kind_conforms].
      apply items_id. rewrite Forall_forall in *. intros f I. exists (jvalue short (snd f)). split; [reflexivity|]. apply H; auto.
    - eapply co_ptr; [apply tagged_has|apply member_at; reflexivity|apply member_at; reflexivity|apply segment_conforms|
        apply member_at; reflexivity| |apply member_at; reflexivity|apply opt_conforms; reflexivity].
      apply items_id, all_true, seg_conforms.
    - eapply co_dead; [apply tagged_has|apply member_at; reflexivity|apply opt_conforms; reflexivity].
  Qed.
  Lemma range_conforms r : RangeC (jrange r) r.
  Proof.
    destruct r as [[a b] f]. do 3 eexists. split; [apply member_at; reflexivity|]. split; [split; apply member_at; reflexivity|].
    split; [apply member_at; reflexivity|]. split; [split; apply member_at; reflexivity|]. split; apply member_at; reflexivity.
  Qed.
  Lemma local_conforms l : RealLocal l -> LocalC real (jlocal short l) l.
  Proof.
    intros [R _]. do 2 eexists. split; [apply member_at; reflexivity|]. split; [apply member_at; reflexivity|]. split; [apply value_conforms, R|].
    split; [apply member_at; reflexivity|]. apply items_id, all_true. intros p. apply items_id, all_true, seg_conforms.
  Qed.
  Lemma frame_conforms f : RealFrame f -> FrameC real (jframe short f) f.
  Proof.
    intros (_ & _ & R). do 3 eexists. split; [apply member_at; reflexivity|]. split; [apply member_at; reflexivity|]. split; [apply range_conforms|].
    split; [apply member_at; reflexivity|]. split; [apply range_conforms|]. split; [apply member_at; reflexivity|]. apply items_id.
    eapply Forall_impl; [|exact R]. apply local_conforms.
  Qed.
  Lemma step_conforms s : RealStep s -> StepC real (jstep short s) s.
  Proof.
    intros [R1 R2]. do 4 eexists. split; [apply member_at; reflexivity|]. split; [apply member_at; reflexivity|].
    split; [apply items_id; eapply Forall_impl; [|exact R1]; apply frame_conforms|].
    split; [apply member_at; reflexivity|]. split; [apply member_at; reflexivity|]. apply items_id. eapply Forall_impl; [|exact R2]. apply value_conforms.
  Qed.
  Lemma result_conforms r : ResultC (jresult r) r.
  Proof.
    destruct r as [|a|m]; cbn [ResultC jresult]; [apply member_at; reflexivity|do 2 eexists|eexists].
    - split; [apply tagged_has|]. split; [apply tagged_has|apply member_at; reflexivity].
    - split; apply tagged_has.
  Qed.
  Lemma trace_conforms t : RealTrace t -> TraceC real (jtrace short t) t.
  Proof.
    intros [R _]. do 2 eexists. split; [apply member_at; reflexivity|]. split; [apply items_id; eapply Forall_impl; [|exact R]; apply step_conforms|].
    split; [apply member_at; reflexivity|apply result_conforms].
  Qed.
End Conforming.

(** ** A form has one meaning *)
Lemma items_fun {A} (R : json -> A -> Prop) (Q : A -> A -> Prop) l : Forall (fun a => forall j b, R j a -> R j b -> Q a b) l ->
  forall j l', Items R j l -> Items R j l' -> Forall2 Q l l'.
Proof.
  intros F j l' (js & -> & I) (js' & E & I'). injection E as <-. revert l' I'.
  induction I as [|x a js l Ra I IH]; intros l' I'; inversion I'; subst; [constructor|]. inversion F; subst. constructor; eauto.
Qed.
Lemma items_eq {A} (R : json -> A -> Prop) : (forall j a b, R j a -> R j b -> a = b) -> forall j l l', Items R j l -> Items R j l' -> l = l'.
Proof.
  intros U j l l' I I'. pose proof (items_fun R eq l (all_true _ l (fun a j b => U j a b)) j l' I I') as F. clear I I'. induction F; congruence.
Qed.
Lemma seg_fun j a b : SegC j a -> SegC j b -> a = b.
Proof. destruct a, b; cbn [SegC]; intros A B; destruct (tagged_fun _ _ _ _ _ A B) as [E E']; try discriminate E; congruence. Qed.
Ltac one_tag :=
  match goal with
  | A : Tagged ?t ?j ?x, B : Tagged ?t' ?j ?y |- _ =>
      let E := fresh "E" in let F := fresh "F" in
      destruct (tagged_fun _ _ _ _ _ A B) as [E F]; first [discriminate E|clear B; clear E; try discriminate F; try (injection F as F); subst]
  | A : Member ?k ?j ?x, B : Member ?k ?j ?y |- _ =>
      let F := fresh "F" in pose proof (member_fun _ _ _ _ A B) as F; clear B; try discriminate F; try (injection F as F); subst
  | A : lit _ = lit _ |- _ => apply lit_inj in A; subst
  end.
Lemma segment_fun j a b : SegmentC j a -> SegmentC j b -> a = b.
Proof.
  destruct a as [[f l]|i], b as [[f' l']|i']; cbn [SegmentC].
  - intros (x & T & M & N) (y & T' & M' & N'). repeat one_tag. reflexivity.
  - intros (x & T & M & N) (y & T' & M'). repeat one_tag.
  - intros (x & T & M) (y & T' & M' & N'). repeat one_tag.
  - intros (x & T & M) (y & T' & M'). repeat one_tag. reflexivity.
Qed.
Lemma not_null_kind k : ~ KindC JNull k.
Proof. destruct k; cbn [KindC]; [intros (b & ((l & E & _) & _) & _); discriminate E ..|intros (l & E & _); discriminate E]. Qed.
Lemma kind_fun j k k' : Opt KindC j k -> Opt KindC j k' -> SameKind k k'.
Proof.
  destruct k as [k|], k' as [k'|]; cbn [Opt].
  - destruct k as [n|n el|], k' as [n'|n' el'|]; cbn [KindC].
    + intros (x & T & M) (y & T' & M'). repeat one_tag. left. reflexivity.
    + intros (x & T & M) (y & T' & M'). repeat one_tag.
    + intros (x & [T _] & M) T'. pose proof (type_fun _ _ _ T T') as E. discriminate E.
    + intros (x & T & M) (y & T' & M'). repeat one_tag.
    + intros (x & T & M) (y & T' & M'). repeat one_tag. right. eauto.
    + intros (x & [T _] & M) T'. pose proof (type_fun _ _ _ T T') as E. discriminate E.
    + intros T (x & [T' _] & M). pose proof (type_fun _ _ _ T T') as E. discriminate E.
    + intros T (x & [T' _] & M). pose proof (type_fun _ _ _ T T') as E. discriminate E.
    + intros _ _. left. reflexivity.
  - intros K ->. exfalso. exact (not_null_kind _ K).
  - intros -> K. exfalso. exact (not_null_kind _ K).
  - left. reflexivity.
Qed.
Lemma text_fun j a b : Opt TextC j a -> Opt TextC j b -> a = b.
Proof. destruct a, b; cbn [Opt]; unfold TextC; try congruence. intros -> [= E]. apply lit_inj in E. congruence. Qed.
Lemma nat_fun j a b : Opt NatC j a -> Opt NatC j b -> a = b.
Proof. destruct a, b; cbn [Opt]; unfold NatC; congruence. Qed.

Section Meaning.
  Context (real : bool -> nat -> Z -> Z).
  Lemma value_fun v : forall j w, Conforms real j v -> Conforms real j w -> Alike eq v w.
  Proof.
    induction v as [k z|vs H|vs H|vs v H Hv|n x fs k H|sg ps r|a] using mvalue_all; intros j w A B.
    - inversion A; subst; inversion B; subst; repeat one_tag; constructor; cbn [SameScalar]; auto.
    - inversion A; subst; inversion B; subst; repeat one_tag. constructor. eapply items_fun; eauto.
    - inversion A; subst; inversion B; subst; repeat one_tag. constructor. eapply items_fun; eauto.
    - inversion A; subst; inversion B; subst; repeat one_tag. constructor; [|eauto]. eapply items_fun; eauto.
    - inversion A; subst; inversion B; subst; repeat one_tag.
      match goal with P : Opt TextC ?j ?a, Q : Opt TextC ?j ?b |- _ => pose proof (text_fun _ _ _ P Q); subst end.
      constructor; [|eapply kind_fun; eauto]. eapply items_fun; [|eassumption|eassumption].
      eapply Forall_impl; [|exact H]. intros f IH p g (u & -> & Cu) (u' & E & Cu'). injection E as E <-. apply lit_inj in E. split; [exact E|eauto].
    - inversion A; subst; inversion B; subst; repeat one_tag.
      match goal with P : SegmentC ?j ?a, Q : SegmentC ?j ?b |- _ => pose proof (segment_fun _ _ _ P Q); subst end.
      match goal with P : Opt NatC ?j ?a, Q : Opt NatC ?j ?b |- _ => pose proof (nat_fun _ _ _ P Q); subst end.
      match goal with P : Items SegC ?j ?a, Q : Items SegC ?j ?b |- _ => pose proof (items_eq _ seg_fun _ _ _ P Q); subst end. constructor.
    - inversion A; subst; inversion B; subst; repeat one_tag.
      match goal with P : Opt NatC ?j ?a, Q : Opt NatC ?j ?b |- _ => pose proof (nat_fun _ _ _ P Q); subst end. constructor.
  Qed.
  Lemma pos_fun j a b : PosC j a -> PosC j b -> a = b.
  Proof. destruct a, b. cbn. intros [A1 A2] [B1 B2]. cbn [fst snd] in *. repeat one_tag. reflexivity. Qed.
  Lemma range_fun j a b : RangeC j a -> RangeC j b -> a = b.
  Proof.
    destruct a as [[a1 a2] a3], b as [[b1 b2] b3]. intros (x & y & z & A1 & A2 & A3 & A4 & A5 & A6) (x' & y' & z' & B1 & B2 & B3 & B4 & B5 & B6). repeat one_tag.
    rewrite (pos_fun _ _ _ A2 B2), (pos_fun _ _ _ A4 B4). reflexivity.
  Qed.
  Lemma local_fun j a b : LocalC real j a -> LocalC real j b -> AlikeLocal eq a b.
  Proof.
    intros (v & m & A1 & A2 & A3 & A4 & A5) (v' & m' & B1 & B2 & B3 & B4 & B5). repeat one_tag.
    split; [assumption|]. split; [eapply value_fun; eauto|]. eapply items_eq; [|eassumption|eassumption]. intros. eapply items_eq; eauto using seg_fun.
  Qed.
  Lemma frame_fun j a b : FrameC real j a -> FrameC real j b -> AlikeFrame eq a b.
  Proof.
    intros (u & p & l & A1 & A2 & A3 & A4 & A5 & A6 & A7) (u' & p' & l' & B1 & B2 & B3 & B4 & B5 & B6 & B7). repeat one_tag.
    split; [assumption|]. split; [eapply range_fun; eauto|]. split; [eapply range_fun; eauto|].
    eapply items_fun; [|eassumption|eassumption]. apply all_true. intros. eapply local_fun; eauto.
  Qed.
  Lemma step_fun j a b : StepC real j a -> StepC real j b -> AlikeStep eq a b.
  Proof.
    intros (u & p & l & q & A1 & A2 & A3 & A4 & A5 & A6) (u' & p' & l' & q' & B1 & B2 & B3 & B4 & B5 & B6). repeat one_tag.
    split; (eapply items_fun; [|eassumption|eassumption]); apply all_true; intros; [eapply frame_fun|eapply value_fun]; eauto.
  Qed.
  Lemma result_fun j a b : ResultC j a -> ResultC j b -> a = b.
  Proof.
    destruct a, b; cbn [ResultC]; try reflexivity.
    - intros T (x & y & [T' _] & _). pose proof (type_fun _ _ _ T T') as E. discriminate E.
    - intros T (x & [T' _] & _). pose proof (type_fun _ _ _ T T') as E. discriminate E.
    - intros (x & y & [T' _] & _) T. pose proof (type_fun _ _ _ T T') as E. discriminate E.
    - intros (x & y & A1 & A2 & A3) (x' & y' & B1 & B2 & B3). repeat one_tag. reflexivity.
    - intros (x & y & A1 & A2 & A3) (x' & B1 & B2). repeat one_tag.
    - intros (x & [T' _] & _) T. pose proof (type_fun _ _ _ T T') as E. discriminate E.
    - intros (x & A1 & A2) (x' & y' & B1 & B2 & B3). repeat one_tag.
    - intros (x & A1 & A2) (x' & B1 & B2). repeat one_tag. reflexivity.
  Qed.
  Lemma trace_fun j a b : TraceC real j a -> TraceC real j b -> AlikeTrace eq a b.
  Proof.
    intros (u & p & A1 & A2 & A3 & A4) (u' & p' & B1 & B2 & B3 & B4). repeat one_tag.
    split; [|eapply result_fun; eauto]. eapply items_fun; [|eassumption|eassumption]. apply all_true. intros. eapply step_fun; eauto.
  Qed.
End Meaning.

(** ** What the page reads *)
Lemma items_reads {A} (R : json -> A -> Prop) (Q : A -> A -> Prop) l :
  Forall (fun a => forall j j', R j a -> Reads j j' -> exists b, R j' b /\ Q a b) l ->
  forall j j', Items R j l -> Reads j j' -> exists l', Items R j' l' /\ Forall2 Q l l'.
Proof.
  intros F j j' (js & -> & I) Rd. apply arr_reads in Rd. destruct Rd as (js' & -> & Rd). 
  cut (exists l', Forall2 R js' l' /\ Forall2 Q l l'). { intros (l' & X & Y). exists l'. split; [exists js'; auto|exact Y]. }
  revert js' Rd. induction I as [|x a js l Ra I IH]; intros js' Rd.
  - inversion Rd. exists []. auto.
  - inversion Rd as [|? y ? ys Rx Rr]; subst. inversion F as [|? ? Fa Fr]; subst. destruct (IH Fr ys Rr) as (m & X & Y).
    destruct (Fa x y Ra Rx) as (b & Rb & Qb). exists (b :: m). auto.
Qed.
Lemma items_same {A} (R : json -> A -> Prop) l :
  Forall (fun a => forall j j', R j a -> Reads j j' -> R j' a) l -> forall j j', Items R j l -> Reads j j' -> Items R j' l.
Proof.
  intros F j j' I Rd. destruct (items_reads R eq l) with (j := j) (j' := j') as (l' & X & Y); [|exact I|exact Rd|].
  - eapply Forall_impl; [|exact F]. intros a H x y Rx Rxy. exists a. eauto.
  - assert (l = l') as -> by (clear - Y; induction Y; congruence). exact X.
Qed.
Lemma seg_reads s j j' : SizeSeg s -> SegC j s -> Reads j j' -> SegC j' s.
Proof.
  destruct s; cbn [SizeSeg SegC]; intros Sz T R; destruct (tagged_reads _ _ _ _ T R) as (x & T' & Rx).
  - apply nat_reads in Rx; [subst; exact T'|exact Sz].
  - apply nat_reads in Rx; [subst; exact T'|exact Sz].
  - apply arr_reads in Rx. destruct Rx as (l & -> & F). destruct Sz as [S1 S2].
    inversion F as [|? a ? ? R1 F1]; subst. inversion F1 as [|? b ? ? R2 F2]; subst. inversion F2; subst.
    apply nat_reads in R1; [|exact S1]. apply nat_reads in R2; [|exact S2]. subst. exact T'.
Qed.
Lemma segs_reads l j j' : Forall SizeSeg l -> Items SegC j l -> Reads j j' -> Items SegC j' l.
Proof. intros F. apply items_same. eapply Forall_impl; [|exact F]. intros a Sz x y. apply seg_reads, Sz. Qed.
Lemma segment_reads sg j j' : match sg with inl (f, _) => Size f | inr i => Size i end -> SegmentC j sg -> Reads j j' -> SegmentC j' sg.
Proof.
  destruct sg as [[f l]|i]; cbn [SegmentC]; intros Sz.
  - intros (b & T & M & N) R. destruct (tagged_reads _ _ _ _ T R) as (x & T' & Rx). exists x. split; [exact T'|].
    split; [eapply num_reads; eauto|eapply text_reads; eauto].
  - intros (b & T & M) R. destruct (tagged_reads _ _ _ _ T R) as (x & T' & Rx). exists x. split; [exact T'|]. eapply num_reads; eauto.
Qed.
Lemma kind_reads k j j' : (forall l, k = Some (HString l) \/ (exists el, k = Some (HVec l el)) -> Size l) -> Opt KindC j k -> Reads j j' -> Opt KindC j' k.
Proof.
  destruct k as [[n|n el|]|]; cbn [Opt KindC]; intros Sz.
  - intros (b & T & M) R. destruct (tagged_reads _ _ _ _ T R) as (x & T' & Rx). exists x. split; [exact T'|]. eapply num_reads; eauto.
  - intros (b & T & M) R. destruct (tagged_reads _ _ _ _ T R) as (x & T' & Rx). exists x. split; [exact T'|]. eapply num_reads; eauto.
  - apply text_reads.
  - intros -> R. inversion R. reflexivity.
Qed.
Lemma texto_reads o j j' : Opt TextC j o -> Reads j j' -> Opt TextC j' o.
Proof. destruct o; cbn [Opt]; unfold TextC; intros -> R; inversion R; reflexivity. Qed.
Lemma nato_reads o j j' : SizeOpt o -> Opt NatC j o -> Reads j j' -> Opt NatC j' o.
Proof. destruct o; cbn [Opt SizeOpt]; unfold NatC; intros Sz -> R; [apply nat_reads; assumption|inversion R; reflexivity]. Qed.

Section Reading.
  Context (real : bool -> nat -> Z -> Z).
  Lemma nearest_self z : (0 <= z < 2 ^ 53)%Z -> forall z', Nearest z z' -> z' = z.
  Proof.
    intros L z' N. apply js_number_spec in N. rewrite js_number_fix in N; [exact N|]. exists z, 0%Z. lia.
  Qed.
  Lemma value_reads v : Real v -> forall j j', Conforms real j v -> Reads j j' -> exists w, Conforms real j' w /\ Alike Nearest v w.
  Proof.
    induction v as [k z|vs H|vs H|vs v H Hv|n x fs k H|sg ps r|a] using mvalue_all; intros Re j j' A R; inversion Re; subst.
    - match goal with H : Ranged _ _ |- _ => rename H into G end.
      inversion A; subst; cbn [Ranged] in G; match goal with T : Tagged _ _ _ |- _ => destruct (tagged_reads _ _ _ _ T R) as (y & T' & Ry) end;
        inversion Ry; subst.
      + exists (MScalar PBool (if b then 1 else 0)). split; [constructor; exact T'|]. constructor. reflexivity.
      + match goal with N : Nearest _ _ |- _ => apply nearest_self in N; [|lia]; rename N into E end.
        match goal with E : Z.of_nat ?a = Z.of_nat ?b |- _ => assert (a = b) by lia; subst end. eexists. split; [apply co_char; exact T'|]. constructor. reflexivity.
      + eexists. split; [apply co_uint; exact T'|]. constructor. assumption.
      + eexists. split; [apply co_int; exact T'|]. constructor. assumption.
      + eexists. split; [apply co_neg; exact T'|]. constructor. assumption.
      + eexists. split; [apply co_float; [exact T'|assumption]|]. constructor. left. reflexivity.
      + exists (MScalar PFloat z). split; [apply co_null; assumption|]. constructor. left. reflexivity.
    - inversion A; subst. match goal with T : Tagged "Tuple" _ _ |- _ => destruct (tagged_reads _ _ _ _ T R) as (y & T' & Ry) end.
      destruct (items_reads (Conforms real) (Alike Nearest) vs) with (j := x) (j' := y) as (ws & I & F); [|assumption|assumption|].
      { rewrite Forall_forall in *. intros v I j0 j0'. apply H; auto. }
      exists (MTuple ws). split; [eapply co_tuple; eauto|constructor; exact F].
    - inversion A; subst. match goal with T : Tagged "Array" _ _ |- _ => destruct (tagged_reads _ _ _ _ T R) as (x' & T' & Rx) end.
      match goal with T : Tagged "All" _ _ |- _ => destruct (tagged_reads _ _ _ _ T Rx) as (y' & T2 & Ry) end.
      destruct (items_reads (Conforms real) (Alike Nearest) vs) with (j := y) (j' := y') as (ws & I & F); [|assumption|assumption|].
      { rewrite Forall_forall in *. intros v I j0 j0'. apply H; auto. }
      exists (MArray (AllOf ws)). split; [eapply co_all; eauto|constructor; exact F].
    - inversion A; subst.
      match goal with T : Tagged "Array" _ _ |- _ => destruct (tagged_reads _ _ _ _ T R) as (x' & T' & Rx) end.
      match goal with T : Tagged "Only" _ _ |- _ => destruct (tagged_reads _ _ _ _ T Rx) as (y' & T2 & Ry) end.
      apply arr_reads in Ry. destruct Ry as (l & -> & Fl). inversion Fl as [|? y1 ? ? R1 F1]; subst. inversion F1 as [|? z1 ? ? R2 F2]; subst. inversion F2; subst.
      destruct (items_reads (Conforms real) (Alike Nearest) vs) with (j := y) (j' := y1) as (ws & I & F); [|assumption|assumption|].
      { rewrite Forall_forall in *. intros u I j0 j0'. apply H; auto. }
      destruct (Hv ltac:(assumption) z z1) as (w & Cw & Aw); [assumption|assumption|].
      exists (MArray (Only ws w)). split; [eapply co_only; eauto|constructor; assumption].
    - inversion A; subst.
      match goal with T : Tagged "Adt" _ _ |- _ => destruct (tagged_reads _ _ _ _ T R) as (b' & T' & Rb) end.
      match goal with T : Member "name" _ _ |- _ => pose proof (text_reads _ _ _ _ T Rb) as M1 end.
      match goal with T : Member "variant" _ _ |- _ => destruct (member_reads _ _ _ _ T Rb) as (xj' & M2 & R2) end.
      match goal with T : Member "fields" _ _ |- _ => destruct (member_reads _ _ _ _ T Rb) as (fj' & M3 & R3) end.
      match goal with T : Member "alloc_kind" _ _ |- _ => destruct (member_reads _ _ _ _ T Rb) as (kj' & M4 & R4) end.
      match goal with T : Items _ fj fs |- _ => rename T into I0 end.
      edestruct (items_reads (fun p f => exists u, p = JArr [JStr (lit (fst f)); u] /\ Conforms real u (snd f))
        (fun f g => fst f = fst g /\ Alike Nearest (snd f) (snd g)) fs) as (gs & I & F); [|exact I0|exact R3|].
      { rewrite Forall_forall in *. intros f I j0 j0' (u & -> & Cu) Rp. apply arr_reads in Rp. destruct Rp as (l & -> & Fl).
        inversion Fl as [|? y1 ? ? R1 F1]; subst. inversion F1 as [|? z1 ? ? R2' F2]; subst. inversion F2; subst. apply reads_str_inv in R1. subst y1.
        destruct (H f I) with (j := u) (j' := z1) as (w & Cw & Aw); auto. exists (fst f, w). cbn [fst snd]. split; [exists z1; auto|auto]. }
      exists (MAdt n x gs k). split; [|constructor; [exact F|left; reflexivity]].
      eapply co_adt; [exact T'|exact M1|exact M2|eapply texto_reads; eauto|exact M3|exact I|exact M4|eapply kind_reads; eauto].
    - inversion A; subst.
      match goal with T : Tagged "Pointer" _ _ |- _ => destruct (tagged_reads _ _ _ _ T R) as (b' & T' & Rb) end.
      match goal with T : Member "path" _ _ |- _ => destruct (member_reads _ _ _ _ T Rb) as (p' & M1 & R1) end.
      match goal with T : Member "segment" _ _ |- _ => destruct (member_reads _ _ _ _ T R1) as (s' & M2 & R2) end.
      match goal with T : Member "parts" _ _ |- _ => destruct (member_reads _ _ _ _ T R1) as (q' & M3 & R3) end.
      match goal with T : Member "range" _ _ |- _ => destruct (member_reads _ _ _ _ T Rb) as (r' & M4 & R4) end.
      exists (MPtr sg ps r). split; [|constructor].
      eapply co_ptr; [exact T'|exact M1|exact M2|eapply segment_reads; eauto|exact M3|eapply segs_reads; eauto|exact M4|eapply nato_reads; eauto].
    - inversion A; subst.
      match goal with T : Tagged "Unallocated" _ _ |- _ => destruct (tagged_reads _ _ _ _ T R) as (b' & T' & Rb) end.
      match goal with T : Member "alloc_id" _ _ |- _ => destruct (member_reads _ _ _ _ T Rb) as (p' & M1 & R1) end.
      exists (MUnalloc a). split; [|constructor]. eapply co_dead; [exact T'|exact M1|eapply nato_reads; eauto].
  Qed.
  Lemma range_reads r j j' : SizeRange r -> RangeC j r -> Reads j j' -> RangeC j' r.
  Proof.
    destruct r as [[a b] f]. intros (S1 & S2 & S3 & S4 & S5) (x & y & z & A1 & (A2 & A2') & A3 & (A4 & A4') & A5 & A6) R.
    destruct (member_reads _ _ _ _ A1 R) as (x' & M1 & R1). destruct (member_reads _ _ _ _ A3 R) as (y' & M3 & R3).
    destruct (member_reads _ _ _ _ A5 R) as (z' & M5 & R5). exists x', y', z'.
    split; [exact M1|]. split; [split; eapply num_reads; eauto|]. split; [exact M3|]. split; [split; eapply num_reads; eauto|].
    split; [exact M5|]. eapply num_reads; eauto.
  Qed.
  Lemma local_reads l j j' : RealLocal l -> LocalC real j l -> Reads j j' -> exists l', LocalC real j' l' /\ AlikeLocal Nearest l l'.
  Proof.
    intros [Re Sz] (v & m & A1 & A2 & A3 & A4 & A5) R.
    destruct (member_reads _ _ _ _ A2 R) as (v' & M2 & R2). destruct (member_reads _ _ _ _ A4 R) as (m' & M4 & R4).
    destruct (value_reads _ Re _ _ A3 R2) as (w & Cw & Aw). exists (MLocal (l_name l) w (l_moved l)). split; [|split; [reflexivity|split; [exact Aw|reflexivity]]].
    exists v', m'. split; [eapply text_reads; eauto|]. split; [exact M2|]. split; [exact Cw|]. split; [exact M4|].
    eapply items_same; [|exact A5|exact R4]. eapply Forall_impl; [|exact Sz]. intros a Sa x y. apply segs_reads, Sa.
  Qed.
  Lemma frame_reads f j j' : RealFrame f -> FrameC real j f -> Reads j j' -> exists g, FrameC real j' g /\ AlikeFrame Nearest f g.
  Proof.
    intros (S1 & S2 & Re) (b & p & l & A1 & A2 & A3 & A4 & A5 & A6 & A7) R.
    destruct (member_reads _ _ _ _ A2 R) as (b' & M2 & R2). destruct (member_reads _ _ _ _ A4 R) as (p' & M4 & R4).
    destruct (member_reads _ _ _ _ A6 R) as (l' & M6 & R6).
    destruct (items_reads (LocalC real) (AlikeLocal Nearest) (w_locals f)) with (2 := A7) (3 := R6) as (ls & I & F).
    { eapply Forall_impl; [|exact Re]. intros a Ra x y. apply local_reads, Ra. }
    exists (WFrame (w_name f) (w_body f) (w_loc f) ls). split; [|repeat split; exact F].
    exists b', p', l'. split; [eapply text_reads; eauto|]. split; [exact M2|]. split; [eapply range_reads; eauto|]. split; [exact M4|].
    split; [eapply range_reads; eauto|]. split; [exact M6|exact I].
  Qed.
  Lemma step_reads s j j' : RealStep s -> StepC real j s -> Reads j j' -> exists s', StepC real j' s' /\ AlikeStep Nearest s s'.
  Proof.
    intros (Re & Rh) (st & fs & h & ls & A1 & A2 & A3 & A4 & A5 & A6) R.
    destruct (member_reads _ _ _ _ A1 R) as (st' & M1 & R1). destruct (member_reads _ _ _ _ A2 R1) as (fs' & M2 & R2).
    destruct (member_reads _ _ _ _ A4 R) as (h' & M4 & R4). destruct (member_reads _ _ _ _ A5 R4) as (ls' & M5 & R5).
    destruct (items_reads (FrameC real) (AlikeFrame Nearest) (w_frames s)) with (2 := A3) (3 := R2) as (gs & I & F).
    { eapply Forall_impl; [|exact Re]. intros a Ra x y. apply frame_reads, Ra. }
    destruct (items_reads (Conforms real) (Alike Nearest) (w_heap s)) with (2 := A6) (3 := R5) as (hs & I' & F').
    { eapply Forall_impl; [|exact Rh]. intros a Ra x y. apply value_reads, Ra. }
    exists (WStep gs hs). split; [|split; assumption]. exists st', fs', h', ls'. auto 7.
  Qed.
  Lemma result_reads r j j' : (forall a, r = WUseAfterFree a -> Size a) -> ResultC j r -> Reads j j' -> ResultC j' r.
  Proof.
    destruct r as [|a|m]; cbn [ResultC]; intros Sz.
    - apply text_reads.
    - intros (x & y & T & T2 & M) R. destruct (tagged_reads _ _ _ _ T R) as (x' & T' & Rx). destruct (tagged_reads _ _ _ _ T2 Rx) as (y' & T2' & Ry).
      exists x', y'. split; [exact T'|]. split; [exact T2'|]. eapply num_reads; eauto.
    - intros (x & T & T2) R. destruct (tagged_reads _ _ _ _ T R) as (x' & T' & Rx). destruct (tagged_reads _ _ _ _ T2 Rx) as (y' & T2' & Ry).
      apply reads_str_inv in Ry. subst y'. eauto.
  Qed.
  Lemma trace_reads t j j' : RealTrace t -> TraceC real j t -> Reads j j' -> exists t', TraceC real j' t' /\ AlikeTrace Nearest t t'.
  Proof.
    intros (Re & Sz) (ss & r & A1 & A2 & A3 & A4) R.
    destruct (member_reads _ _ _ _ A1 R) as (ss' & M1 & R1). destruct (member_reads _ _ _ _ A3 R) as (r' & M3 & R3).
    destruct (items_reads (StepC real) (AlikeStep Nearest) (w_steps t)) with (2 := A2) (3 := R1) as (us & I & F).
    { eapply Forall_impl; [|exact Re]. intros a Ra x y. apply step_reads, Ra. }
    exists (WTrace us (w_result t)). split; [|split; [exact F|reflexivity]]. exists ss', r'. split; [exact M1|]. split; [exact I|]. split; [exact M3|].
    eapply result_reads; eauto.
  Qed.
End Reading.

(** ** What is drawn *)
Lemma kind_special fs k k' : SameKind k k' -> special_ptr fs k = special_ptr fs k'.
Proof. intros [->|(n & el & el' & -> & ->)]; reflexivity. Qed.

Lemma nearest_look z z' : Nearest z z' -> js_number z = js_number z'.
Proof. intros N. apply js_number_spec in N. subst z'. symmetry. apply js_number_fix, js_number_double. Qed.

Section Drawing.
Context (R : Z -> Z -> Prop) (HR : forall z z', R z z' -> js_number z = js_number z').
(** Fields of values that are alike. *)
Definition AlikeFields (fs gs : list (string * mvalue)) : Prop := Forall2 (fun f g => fst f = fst g /\ Alike R (snd f) (snd g)) fs gs.
Definition AlikeO (o o' : option mvalue) : Prop := match o, o' with Some v, Some w => Alike R v w | None, None => True | _, _ => False end.
Definition AlikeFO (o o' : option (list (string * mvalue))) : Prop := match o, o' with Some v, Some w => AlikeFields v w | None, None => True | _, _ => False end.
Lemma alike_get fs gs k : AlikeFields fs gs -> AlikeO (aget string_dec fs k) (aget string_dec gs k).
Proof.
  induction 1 as [|[a v] [b w] fs gs [E A] F IH]; cbn; [trivial|]. cbn [fst snd] in *. subst b. destruct (string_dec k a); [exact A|exact IH].
Qed.
Lemma alike_field fs gs k : AlikeFields fs gs -> AlikeFO (read_field fs k) (read_field gs k).
Proof.
  intros F. apply (alike_get _ _ k) in F. unfold read_field. destruct (aget string_dec fs k), (aget string_dec gs k); cbn [AlikeO] in F; try contradiction; [|exact Logic.I].
  inversion F; subst; cbn; auto.
Qed.
Lemma alike_bind o o' f : AlikeFO o o' -> (forall fs gs, AlikeFields fs gs -> AlikeFO (f fs) (f gs)) -> AlikeFO (obind o f) (obind o' f).
Proof. intros A H. destruct o, o'; cbn [AlikeFO obind] in *; try contradiction; auto. Qed.
Lemma alike_first o o' : AlikeFO o o' -> AlikeO (obind o first_field) (obind o' first_field).
Proof.
  destruct o, o'; cbn [AlikeFO obind]; try contradiction; [|auto]. intros F. inversion F as [|[a v] [b w] ? ? [E A] G]; subst; cbn; auto.
Qed.
Lemma alike_vec fs gs : AlikeFields fs gs -> AlikeFO (read_vec fs) (read_vec gs).
Proof. intros F. unfold read_vec, read_unique. repeat (apply alike_bind; [apply alike_field; assumption|intros]). apply alike_field. assumption. Qed.
Definition AlikeOO (o o' : option (option mvalue)) : Prop := match o, o' with Some v, Some w => AlikeO v w | None, None => True | _, _ => False end.
Lemma alike_some o o' : AlikeO o o' -> AlikeOO (option_map Some o) (option_map Some o').
Proof. destruct o, o'; cbn; auto. Qed.
Lemma alike_special fs gs k k' : AlikeFields fs gs -> SameKind k k' -> AlikeOO (special_ptr fs k) (special_ptr gs k').
Proof.
  intros F K. rewrite <- (kind_special gs _ _ K). destruct k as [[n|n el|]|]; cbn [special_ptr]; [| | |exact Logic.I]; apply alike_some, alike_first.
  - apply alike_bind; [apply alike_field, F|apply alike_vec].
  - apply alike_vec, F.
  - apply alike_bind; [apply alike_field, F|intros; apply alike_field; assumption].
Qed.
Lemma alike_small c v w : Alike R v w -> small_inside c v = small_inside c w.
Proof.
  intros A. inversion A; subst; try reflexivity. cbn [small_inside]. destruct c; [reflexivity|].
  match goal with F : Forall2 _ fs gs, K : SameKind _ _ |- _ => pose proof (alike_special _ _ _ _ F K) as Sp end.
  destruct (special_ptr fs k) as [[?|]|], (special_ptr gs k') as [[?|]|]; cbn in *; try contradiction; reflexivity.
Qed.
Lemma all_some_pointwise {A B T} (Q : A -> B -> Prop) (f : A -> option T) (g : B -> option T) : (forall a b, Q a b -> f a = g b) ->
  forall l m, Forall2 Q l m -> all_some (map f l) = all_some (map g m).
Proof. intros H l m F. induction F as [|a b l m Qab F IH]; cbn [map all_some]; [reflexivity|]. rewrite (H a b Qab), IH. reflexivity. Qed.
Lemma fields_names fs gs : AlikeFields fs gs -> map fst fs = map fst gs.
Proof. intros F. induction F as [|f g fs gs [E _] _ IH]; cbn; congruence. Qed.
Lemma fields_values fs gs : AlikeFields fs gs -> Forall2 (Alike R) (map snd fs) (map snd gs).
Proof. intros F. induction F as [|f g fs gs [_ A] _ IH]; cbn; auto. Qed.

Definition body (again : mvalue -> option look) (c : bool) (name : string) (fields : list (string * mvalue)) : option look :=
  match fields with
  | [("0", f)] => obind (small_inside c f) (fun sm => option_map (LOne sm name) (again f))
  | ("0", _) :: _ => option_map (LNamedRow name) (all_some (map again (map snd fields)))
  | _ => option_map (fun l => LNamed name (combine (map fst fields) l)) (all_some (map again (map snd fields)))
  end.
Lemma body_cases again c name fs :
  (exists f, fs = [("0", f)] /\ body again c name fs = obind (small_inside c f) (fun sm => option_map (LOne sm name) (again f))) \/
  (hd_error (map fst fs) = Some "0" /\ length fs <> 1 /\ body again c name fs = option_map (LNamedRow name) (all_some (map again (map snd fs)))) \/
  (hd_error (map fst fs) <> Some "0" /\ body again c name fs = option_map (fun l => LNamed name (combine (map fst fs) l)) (all_some (map again (map snd fs)))).
Proof.
  destruct fs as [|[s f] r]; [right; right; split; [discriminate|reflexivity]|].
  destruct (string_dec s "0") as [->|N].
  - destruct r as [|g r]; [left; exists f; split; reflexivity|right; left]. split; [reflexivity|]. split; [cbn; lia|reflexivity].
  - right; right. split; [cbn; congruence|]. destruct s as [|a s]; [reflexivity|].
    destruct a as [[] [] [] [] [] [] [] []]; try reflexivity. destruct s; [contradiction|reflexivity].
Qed.
Lemma body_alike (again : mvalue -> option look) c name fs gs : (forall v w, Alike R v w -> again v = again w) ->
  AlikeFields fs gs -> body again c name fs = body again c name gs.
Proof.
  intros H F. pose proof (fields_names _ _ F) as N. pose proof (all_some_pointwise _ again again H _ _ (fields_values _ _ F)) as V.
  assert (L : length fs = length gs) by (rewrite <- (map_length fst fs), N, map_length; reflexivity).
  destruct (body_cases again c name fs) as [(f & -> & ->)|[(A1 & A2 & ->)|(A1 & ->)]].
  - destruct gs as [|[k g] [|? ?]]; try discriminate L. cbn in N. injection N as <-. cbn [body].
    inversion F as [|? ? ? ? [_ A] _]; subst. cbn [snd] in A. rewrite (alike_small c _ _ A), (H _ _ A). reflexivity.
  - destruct (body_cases again c name gs) as [(f & -> & _)|[(B1 & B2 & ->)|(B1 & _)]].
    + rewrite L in A2. cbn in A2. congruence.
    + rewrite V. reflexivity.
    + congruence.
  - destruct (body_cases again c name gs) as [(f & -> & _)|[(B1 & B2 & _)|(B1 & ->)]].
    + rewrite N in A1. cbn in A1. congruence.
    + congruence.
    + rewrite N, V. reflexivity.
Qed.
Lemma look_adt n ft c err name x fs k : look_at (S n) ft c err (MAdt name x fs k) =
  match special_ptr fs k with
  | None => None
  | Some ptr =>
    match (if c then None else ptr) with
    | Some p => look_at n ft c err p
    | None => if negb c && String.eqb name "Iter" then obind (obind (read_field fs "ptr") first_field) (look_at n ft c err)
              else body (look_at n ft c err) c (match x with Some y => y | None => name end) fs
    end
  end.
Proof. reflexivity. Qed.

Lemma look_alike ft c err n : forall v w, Alike R v w -> look_at n ft c err v = look_at n ft c err w.
Proof.
  induction n as [|n IH]; intros v w A; [reflexivity|]. inversion A as [k z z' Sc|vs ws F|vs ws F|vs ws u y F Au|nm x fs gs k k' F K|sg ps r|a]; subst.
  - destruct k; cbn [SameScalar] in Sc; try (subst; reflexivity); cbn [look_at].
    + rewrite (HR _ _ Sc). reflexivity.
    + rewrite (HR _ _ Sc). reflexivity.
    + destruct Sc as [->|[N N']]; [reflexivity|]. unfold float_text. unfold NotFinite in *. rewrite N, N'. reflexivity.
  - cbn [look_at]. rewrite (all_some_pointwise _ _ _ IH _ _ F). reflexivity.
  - cbn [look_at]. rewrite (all_some_pointwise _ _ _ IH _ _ F). reflexivity.
  - cbn [look_at]. rewrite (all_some_pointwise _ _ _ IH _ _ F), (IH _ _ Au). reflexivity.
  - rewrite !look_adt. pose proof (alike_special _ _ _ _ F K) as Sp. pose proof (alike_first _ _ (alike_field _ _ "ptr" F)) as P.
    pose proof (body_alike (look_at n ft c err) c (match x with Some y => y | None => nm end) _ _ IH F) as Bd.
    assert (Rest : (if negb c && String.eqb nm "Iter" then obind (obind (read_field fs "ptr") first_field) (look_at n ft c err)
                    else body (look_at n ft c err) c (match x with Some y => y | None => nm end) fs) =
                   (if negb c && String.eqb nm "Iter" then obind (obind (read_field gs "ptr") first_field) (look_at n ft c err)
                    else body (look_at n ft c err) c (match x with Some y => y | None => nm end) gs)).
    { destruct (negb c && String.eqb nm "Iter"); [|exact Bd].
      destruct (obind (read_field fs "ptr") first_field), (obind (read_field gs "ptr") first_field); cbn [AlikeO obind] in *; try contradiction; auto. }
    destruct (special_ptr fs k) as [[p|]|], (special_ptr gs k') as [[q|]|]; cbn [AlikeOO AlikeO] in Sp; try contradiction; destruct c; auto.
  - reflexivity.
  - reflexivity.
Qed.
Lemma state_alike n ft c err s s' : AlikeStep R s s' -> look_state n ft c err (snap s) = look_state n ft c err (snap s').
Proof.
  intros [F G]. unfold look_state, snap. cbn [sn_frames sn_heap]. rewrite !map_map.
  rewrite (all_some_pointwise _ _ _ (fun a b H => look_alike ft c err n a b H) _ _ G).
  erewrite all_some_pointwise; [reflexivity| |exact F]. intros f g (E & _ & _ & Fl). unfold look_frame. cbn [fr_name fr_locals]. rewrite E. f_equal.
  apply all_some_pointwise with (Q := AlikeLocal R); [|exact Fl]. intros l l' (En & A & Em). unfold look_local.
  rewrite En, Em, (look_alike ft c err n _ _ A). reflexivity.
Qed.

End Drawing.

(** ** No key twice, and no character that is not one *)
Definition Good (j : json) : Prop := Distinct j /\ forall x, JsonSpec.Occurs x j -> Forall (fun c => c < 256) x.
Lemma lit_bytes s : Forall (fun c => c < 256) (lit s).
Proof. unfold lit. apply Forall_map, all_true. intros a. apply nat_ascii_bounded. Qed.
Lemma good_str s : Good (jtext s).
Proof. split; [constructor|]. intros x O. inversion O; subst. apply lit_bytes. Qed.
Lemma good_arr l : Forall Good l -> Good (JArr l).
Proof.
  intros F. rewrite Forall_forall in F. split.
  - constructor. apply Forall_forall. intros j I. apply F, I.
  - intros x O. inversion O; subst. eapply F; eauto.
Qed.
Lemma good_map {A} (f : A -> json) l : (forall a, In a l -> Good (f a)) -> Good (JArr (map f l)).
Proof. intros H. apply good_arr, Forall_map, Forall_forall. exact H. Qed.
Lemma good_obj (l : list (string * json)) : NoDup (map fst l) -> Forall (fun f => Good (snd f)) l -> Good (JObj (map (fun f => (lit (fst f), snd f)) l)).
Proof.
  intros N F. rewrite Forall_forall in F. split.
  - constructor.
    + rewrite map_map. cbn [fst]. rewrite <- (map_map fst lit). apply FinFun.Injective_map_NoDup; [|exact N]. intros a b. apply lit_inj.
    + apply Forall_map, Forall_map, Forall_forall. intros f I. apply F, I.
  - intros x O. inversion O as [| |? j I|? k j I Oj]; subst; apply in_map_iff in I; destruct I as ([s y] & [= E1 E2] & I); subst; [apply lit_bytes|].
    exact (proj2 (F _ I) x Oj).
Qed.
Ltac nodup := repeat (constructor; [cbn; intuition discriminate|]); constructor.
Lemma good_tagged t x : Good x -> Good (tagged t x).
Proof. intros G. apply (good_obj [("type", jtext t); ("value", x)]); [nodup|]. repeat constructor; try apply good_str; apply G. Qed.
Lemma good_plain j : match j with JNull | JBool _ | JNum _ | JNeg _ | JReal _ _ _ => True | _ => False end -> Good j.
Proof. destruct j; try contradiction; intros _; (split; [constructor|intros x O; inversion O]). Qed.
Lemma good_opt {A} (f : A -> json) o : (forall a, Good (f a)) -> Good (jopt f o).
Proof. intros H. destruct o; [apply H|apply good_plain; exact Logic.I]. Qed.
Lemma good_num n : Good (JNum n).
Proof. apply good_plain. exact Logic.I. Qed.
Lemma good_seg s : Good (jseg s).
Proof. destruct s; apply good_tagged; try apply good_num. apply good_arr. repeat constructor; apply good_num. Qed.
Lemma good_segment sg : Good (jsegment sg).
Proof.
  destruct sg as [[f l]|i]; apply good_tagged.
  - apply (good_obj [("frame", JNum f); ("local", jtext l)]); [nodup|]. constructor; [apply good_num|constructor; [apply good_str|constructor]].
  - apply (good_obj [("index", JNum i)]); [nodup|]. constructor; [apply good_num|constructor].
Qed.
Lemma good_path sg ps : Good (jpath sg ps).
Proof.
  apply (good_obj [("segment", jsegment sg); ("parts", JArr (map jseg ps))]); [nodup|]. constructor; [apply good_segment|].
  constructor; [apply good_map; intros; apply good_seg|constructor].
Qed.
Lemma good_tag t : Good (tag t).
Proof. apply (good_obj [("type", jtext t)]); [nodup|]. constructor; [apply good_str|constructor]. Qed.
Lemma good_kind k : Good (jkind k).
Proof.
  destruct k as [n|n el|]; [apply good_tagged ..|apply good_tag]; (apply (good_obj [("len", JNum n)]); [nodup|]); constructor; try apply good_num; constructor.
Qed.

Section Writing.
  Context (short : Z -> bool * nat * Z).
  Lemma good_scalar k z : Good (jscalar short k z).
  Proof.
    destruct k; apply good_tagged, good_plain; try exact Logic.I.
    - unfold jint. destruct (z <? 0)%Z; exact Logic.I.
    - unfold jfloat. destruct (_ =? 2047)%Z; [exact Logic.I|]. destruct (short z) as [[? ?] ?]. exact Logic.I.
  Qed.
  Lemma good_value v : Good (jvalue short v).
  Proof.
    induction v as [k z|vs H|vs H|vs v H Hv|n x fs k H|sg ps r|a] using mvalue_all; cbn [jvalue].
    - apply good_scalar.
    - apply good_tagged, good_map. apply Forall_forall. exact H.
    - apply good_tagged, good_tagged, good_map. apply Forall_forall. exact H.
    - apply good_tagged, good_tagged, good_arr. constructor; [apply good_map, Forall_forall; exact H|constructor; [exact Hv|constructor]].
    - apply good_tagged. apply (good_obj [("name", _); ("variant", _); ("fields", _); ("alloc_kind", _)]); [nodup|].
      constructor; [apply good_str|]. constructor; [apply good_opt, good_str|]. constructor; [|constructor; [apply good_opt, good_kind|constructor]].
      rewrite Forall_forall in H. apply good_map. intros f I. apply good_arr. constructor; [apply good_str|constructor; [apply H, I|constructor]].
    - apply good_tagged. apply (good_obj [("path", _); ("range", _)]); [nodup|]. constructor; [apply good_path|].
      constructor; [apply good_opt, good_num|constructor].
    - apply good_tagged. apply (good_obj [("alloc_id", _)]); [nodup|]. constructor; [apply good_opt, good_num|constructor].
  Qed.
  Lemma good_pos p : Good (jpos p).
  Proof. apply (good_obj [("line", _); ("column", _)]); [nodup|]. repeat (constructor; [apply good_num|]). constructor. Qed.
  Lemma good_range r : Good (jrange r).
  Proof.
    destruct r as [[a b] f]. apply (good_obj [("start", _); ("end", _); ("filename", _)]); [nodup|].
    constructor; [apply good_pos|]. constructor; [apply good_pos|]. constructor; [|constructor].
    apply (good_obj [("private_use_as_methods_instead", _)]); [nodup|]. constructor; [apply good_num|constructor].
  Qed.
  Lemma good_local l : Good (jlocal short l).
  Proof.
    apply (good_obj [("name", _); ("value", _); ("moved_paths", _)]); [nodup|]. constructor; [apply good_str|]. constructor; [apply good_value|].
    constructor; [|constructor]. apply good_map. intros p _. apply good_map. intros; apply good_seg.
  Qed.
  Lemma good_frame f : Good (jframe short f).
  Proof.
    apply (good_obj [("name", _); ("body_span", _); ("location", _); ("locals", _)]); [nodup|]. constructor; [apply good_str|].
    constructor; [apply good_range|]. constructor; [apply good_range|]. constructor; [|constructor]. apply good_map. intros; apply good_local.
  Qed.
  Lemma good_step s : Good (jstep short s).
  Proof.
    apply (good_obj [("stack", _); ("heap", _)]); [nodup|]. constructor; [|constructor; [|constructor]].
    - apply (good_obj [("frames", _)]); [nodup|]. constructor; [|constructor]. apply good_map. intros; apply good_frame.
    - apply (good_obj [("locations", _)]); [nodup|]. constructor; [|constructor]. apply good_map. intros; apply good_value.
  Qed.
  Lemma good_result r : Good (jresult r).
  Proof.
    destruct r as [|a|m]; [apply good_tag|apply good_tagged, good_tagged ..]; [|apply good_str].
    apply (good_obj [("alloc_id", _)]); [nodup|]. constructor; [apply good_num|constructor].
  Qed.
  Lemma good_trace t : Good (jtrace short t).
  Proof.
    apply (good_obj [("steps", _); ("result", _)]); [nodup|]. constructor; [|constructor; [apply good_result|constructor]]. apply good_map. intros; apply good_step.
  Qed.
  Lemma good_answer t : Good (answer short t).
  Proof. apply (good_obj [("Ok", _)]); [nodup|]. constructor; [apply good_trace|constructor]. Qed.

  (** ** How deep *)
  Lemma deep_at (l : list (str * json)) k x n : In (k, x) l -> JsonSpec.Deep x n -> JsonSpec.Deep (JObj l) (S n).
  Proof. apply JsonSpec.deep_member. Qed.
  Lemma deep_tagged t x n : JsonSpec.Deep x n -> JsonSpec.Deep (tagged t x) (S n).
  Proof. apply (deep_at _ (lit "value")). cbn. auto. Qed.
  Lemma deep_structs v n : Structs v n -> JsonSpec.Deep (jvalue short v) (4 * n - 1).
  Proof.
    induction 1 as [n x fs k|n x fs k f u i I St IH]; cbn [jvalue].
    - change (4 * 1 - 1) with 3. apply deep_tagged. apply (deep_at _ (lit "fields") (JArr (map (fun f => JArr [jtext (fst f); jvalue short (snd f)]) fs)));
        [cbn; auto|constructor].
    - assert (1 <= i) by (clear - St; induction St; lia). replace (4 * S i - 1) with (S (S (S (S (4 * i - 1))))) by lia.
      apply deep_tagged. apply (deep_at _ (lit "fields") (JArr (map (fun f => JArr [jtext (fst f); jvalue short (snd f)]) fs))); [cbn; auto|].
      apply (JsonSpec.deep_item _ (JArr [jtext f; jvalue short u])); [|apply (JsonSpec.deep_item _ (jvalue short u)); [cbn; auto|exact IH]].
      exact (in_map (fun f => JArr [jtext (fst f); jvalue short (snd f)]) fs (f, u) I).
  Qed.
  Lemma deep_map {A} (f : A -> json) l a n : In a l -> JsonSpec.Deep (f a) n -> JsonSpec.Deep (JArr (map f l)) (S n).
  Proof. intros I. apply JsonSpec.deep_item, in_map, I. Qed.
  Lemma deep_variable t v n : OfVariable t v -> JsonSpec.Deep (jvalue short v) n -> JsonSpec.Deep (answer short t) (9 + n).
  Proof.
    intros (s & f & l & I1 & I2 & I3 & <-) D. apply (deep_at _ (lit "Ok") (jtrace short t)); [cbn; auto|].
    apply (deep_at _ (lit "steps") (JArr (map (jstep short) (w_steps t)))); [cbn; auto|]. apply (deep_map _ _ s); [exact I1|].
    apply (deep_at _ (lit "stack") (JObj [(lit "frames", JArr (map (jframe short) (w_frames s)))])); [cbn; auto|].
    apply (deep_at _ (lit "frames") (JArr (map (jframe short) (w_frames s)))); [cbn; auto|]. apply (deep_map _ _ f); [exact I2|].
    apply (deep_at _ (lit "locals") (JArr (map (jlocal short) (w_locals f)))); [cbn; auto|]. apply (deep_map _ _ l); [exact I3|].
    apply (deep_at _ (lit "value") (jvalue short (l_value l))); [cbn; auto|exact D].
  Qed.
  Lemma deep_heap t v n : OnHeap t v -> JsonSpec.Deep (jvalue short v) n -> JsonSpec.Deep (answer short t) (6 + n).
  Proof.
    intros (s & I1 & I2) D. apply (deep_at _ (lit "Ok") (jtrace short t)); [cbn; auto|].
    apply (deep_at _ (lit "steps") (JArr (map (jstep short) (w_steps t)))); [cbn; auto|]. apply (deep_map _ _ s); [exact I1|].
    apply (deep_at _ (lit "heap") (JObj [(lit "locations", JArr (map (jvalue short) (w_heap s)))])); [cbn; auto|].
    apply (deep_at _ (lit "locations") (JArr (map (jvalue short) (w_heap s)))); [cbn; auto|]. apply (deep_map _ _ v); [exact I2|exact D].
  Qed.

  Import JsonModel.
  Lemma depth_arr l n : Forall (fun j => depth j <= n) l -> depth (JArr l) <= S n.
  Proof. intros F. cbn [depth]. apply le_n_S, list_max_le, Forall_map, F. Qed.
  Lemma depth_map {A} (f : A -> json) l n : (forall a, In a l -> depth (f a) <= n) -> depth (JArr (map f l)) <= S n.
  Proof. intros H. apply depth_arr, Forall_map, Forall_forall, H. Qed.
  Lemma depth_obj (l : list (str * json)) n : Forall (fun f => depth (snd f) <= n) l -> depth (JObj l) <= S n.
  Proof. intros F. cbn [depth]. apply le_n_S, list_max_le, Forall_map, F. Qed.
  Lemma depth_tagged t x n : depth x <= n -> depth (tagged t x) <= S n.
  Proof. intros H. apply depth_obj. constructor; [cbn; lia|constructor; [exact H|constructor]]. Qed.
  Lemma depth_seg s : depth (jseg s) <= 2.
  Proof. destruct s; cbn; lia. Qed.
  Lemma depth_more j n m : depth j <= n -> n <= m -> depth j <= m.
  Proof. lia. Qed.
  Lemma depth_path sg ps : depth (jpath sg ps) <= 4.
  Proof.
    apply depth_obj. constructor; [destruct sg as [[? ?]|?]; cbn; lia|]. constructor; [|constructor]. apply depth_map. intros s _. apply depth_seg.
  Qed.
  Lemma depth_value v : forall n, ~ Levels v (S n) -> depth (jvalue short v) <= 6 + 4 * n.
  Proof.
    assert (Base : forall v, exists w, Levels v 0 /\ v = w) by (intros v0; exists v0; split; [constructor|reflexivity]).
    induction v as [k z|vs H|vs H|vs v H Hv|name x fs k H|sg ps r|a] using mvalue_all; intros n N; cbn [jvalue].
    - apply depth_more with 1; [|lia]. destruct k; apply depth_tagged; try (cbn; lia).
      + unfold jint. destruct (z <? 0)%Z; cbn; lia.
      + unfold jfloat. destruct (_ =? 2047)%Z; [cbn; lia|]. destruct (short z) as [[? ?] ?]. cbn; lia.
    - destruct n as [|n].
      { exfalso. apply N. destruct vs as [|u vs]; [apply (lv_tuple _ (MUnalloc None)); [auto|constructor]|apply (lv_tuple _ u); [left; left; reflexivity|constructor]]. }
      apply depth_more with (2 + (6 + 4 * n)); [|lia]. apply depth_tagged, depth_map. intros u I. rewrite Forall_forall in H. apply H; [exact I|].
      intros L. apply N. apply (lv_tuple _ u); auto.
    - destruct n as [|n].
      { exfalso. apply N. destruct vs as [|u vs]; [apply (lv_all _ (MUnalloc None)); [auto|constructor]|apply (lv_all _ u); [left; left; reflexivity|constructor]]. }
      apply depth_more with (3 + (6 + 4 * n)); [|lia]. apply depth_tagged, depth_tagged, depth_map. intros u I. rewrite Forall_forall in H. apply H; [exact I|].
      intros L. apply N. apply (lv_all _ u); auto.
    - destruct n as [|n]; [exfalso; apply N; apply (lv_only _ _ v); [left; reflexivity|constructor]|].
      apply depth_more with (4 + (6 + 4 * n)); [|lia]. apply depth_tagged, depth_tagged, depth_arr. constructor; [|constructor; [|constructor]].
      + apply depth_map. intros u I. rewrite Forall_forall in H. apply H; [exact I|]. intros L. apply N. apply (lv_only _ _ u); [right; exact I|exact L].
      + apply depth_more with (6 + 4 * n); [|lia]. apply Hv. intros L. apply N. apply (lv_only _ _ v); [left; reflexivity|exact L].
    - destruct n as [|n].
      { exfalso. apply N. destruct fs as [|f fs]; [apply (lv_adt _ _ _ _ (MUnalloc None)); [auto|constructor]|
          apply (lv_adt _ _ _ _ (snd f)); [left; left; reflexivity|constructor]]. }
      apply depth_more with (2 + (2 + (6 + 4 * n))); [|lia]. apply depth_tagged, depth_obj. constructor; [cbn; lia|]. constructor; [destruct x; cbn; lia|].
      constructor; [|constructor; [destruct k as [[?|? ?|]|]; cbn; lia|constructor]]. apply depth_map. intros f I. apply depth_arr.
      constructor; [cbn; lia|constructor; [|constructor]]. rewrite Forall_forall in H. apply H; [exact I|]. intros L. apply N.
      apply (lv_adt _ _ _ _ (snd f)); [left; apply in_map, I|exact L].
    - apply depth_more with (2 + 4); [|lia]. apply depth_tagged, depth_obj. constructor; [apply depth_path|]. constructor; [destruct r; cbn; lia|constructor].
    - apply depth_more with 2; [|lia]. apply depth_tagged, depth_obj. constructor; [destruct a; cbn; lia|constructor].
  Qed.
  Lemma depth_answer t n : (forall v, OfVariable t v \/ OnHeap t v -> ~ Levels v (S n)) -> depth (answer short t) <= 9 + (6 + 4 * n).
  Proof.
    intros N. apply depth_obj. constructor; [|constructor]. apply depth_obj. constructor; [|constructor; [|constructor]].
    2: { apply depth_more with 4; [|lia]. destruct (w_result t); cbn; lia. }
    apply depth_map. intros s Is. apply depth_obj. constructor; [|constructor; [|constructor]].
    - apply depth_obj. constructor; [|constructor]. apply depth_map. intros f If. apply depth_obj.
      constructor; [cbn; lia|]. constructor; [destruct (w_body f) as [[[? ?] [? ?]] ?]; cbn; lia|]. constructor; [destruct (w_loc f) as [[[? ?] [? ?]] ?]; cbn; lia|].
      constructor; [|constructor]. apply depth_map. intros l Il. apply depth_obj. constructor; [cbn; lia|]. constructor; [|constructor; [|constructor]].
      + apply depth_value, N. left. exists s, f, l. auto.
      + apply depth_more with 4; [|lia]. apply depth_map. intros p _. apply depth_map. intros q _. apply depth_seg.
    - apply depth_more with (2 + (6 + 4 * n)); [|lia]. apply depth_obj. constructor; [|constructor]. apply depth_map. intros v Iv. apply depth_value, N. right. exists s. auto.
  Qed.
End Writing.
