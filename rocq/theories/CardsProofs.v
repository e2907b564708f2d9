From Coq Require Import List Bool Arith NArith Lia.
Import ListNotations.
From Verif Require Import Base CardsModel CardsSpec.

Lemma unfold_snoc h : forall k t e, unfold_page k (h ++ [(t, e)]) =
  match unfold_page k h with Some k' => happen t (advance t k') e | None => None end.
Proof.
  induction h as [|[t' e'] h IH]; intros k t e; cbn [List.app unfold_page].
  - destruct (happen t (advance t k) e); reflexivity.
  - destruct (happen t' (advance t' k) e'); [apply IH|reflexivity].
Qed.

Lemma all_missing_snoc h : forall t e, all_missing (h ++ [(t, e)]) = all_missing h + all_missing [(t, e)].
Proof.
  induction h as [|[t' e'] h IH]; intros t e; [reflexivity|]. cbn [List.app].
  specialize (IH t e). remember (all_missing [(t, e)]) as z eqn:Z. clear Z.
  destruct e' as [i| |[ok err out]]; cbn [all_missing]; try exact IH.
  destruct ok; [|exact IH]. destruct out as [fs|]; [|exact IH]. rewrite IH. lia.
Qed.

(** ** Turning to a tab *)
Lemma front_change i j k : InFront (k_tabs k) i -> InFront (k_panes k) i -> j < 2 ->
  exists k', change_tab j k = Some k' /\ InFront (k_tabs k') j /\ InFront (k_panes k') j /\
    k_build k' = k_build k /\ k_due k' = k_due k /\ k_card k' = k_card k /\ k_msg k' = k_msg k /\ k_text k' = k_text k /\ k_alerts k' = k_alerts k.
Proof.
  intros A B L. destruct k as [ts ps b d c m s a]; cbn [k_tabs k_panes] in *.
  assert (J : j = 0 \/ j = 1) by lia.
  destruct A as [[-> ->]|[-> ->]]; destruct B as [[E ->]|[E ->]]; try discriminate E;
    destruct J as [-> | ->]; (eexists; split; [reflexivity|]); unfold InFront; cbn; tauto.
Qed.

(** ** The failures of an answer *)
Definition turns (fs : list failure) : Prop := In BuildError fs \/ exists m, In (AnalysisError m) fs.

Lemma failures t fs : forall k i, InFront (k_tabs k) i -> InFront (k_panes k) i ->
  exists k', handle_all t k (map Failure fs) = Some k' /\
    (exists i', InFront (k_tabs k') i' /\ InFront (k_panes k') i' /\ ((turns fs /\ i' = 1) \/ (~ turns fs /\ i' = i))) /\
    ((k_card k' = true /\ exists xs ys, fs = xs ++ AnalysisError (k_msg k') :: ys /\ forall m, ~ In (AnalysisError m) ys) \/
     (k_card k' = k_card k /\ k_msg k' = k_msg k /\ forall m, ~ In (AnalysisError m) fs)) /\
    k_text k' = k_text k /\
    k_alerts k' = missing fs + k_alerts k /\
    ((In BuildError fs /\ k_build k' = true /\ forall d, In d (k_due k') <-> In d (k_due k) \/ d = (t + 5000)%N) \/
     (~ In BuildError fs /\ k_build k' = k_build k /\ k_due k' = k_due k)).
Proof.
  unfold turns. induction fs as [|f fs IH]; intros k i A B.
  - exists k. split; [reflexivity|]. split.
    + exists i. split; [auto|]. split; [auto|]. right. split; [|reflexivity]. intros [[]|[m []]].
    + split; [right; auto|]. split; [reflexivity|]. split; [reflexivity|]. right. split; [intros []|]. auto.
  - destruct f as [| |m|].
    + set (k1 := Cards (k_tabs k) (k_panes k) (k_build k) (k_due k) (k_card k) (k_msg k) (k_text k) (S (k_alerts k))).
      destruct (IH k1 i A B) as (k' & E & (i' & A' & B' & T) & C & X & Y & Z). exists k'. split; [exact E|].
      split; [exists i'; split; [auto|]; split; [auto|]|split; [|split; [exact X|split]]].
      * destruct T as [[T ->]|[T ->]]; [left|right]; (split; [|reflexivity]).
        -- destruct T as [T|[m T]]; [left; right; auto|right; exists m; right; auto].
        -- intros [[F|F]|[m [F|F]]]; try discriminate F; apply T; [left; auto|right; exists m; auto].
      * destruct C as [(C & xs & ys & -> & N)|(C & M & N)]; [left; split; [auto|]; exists (FileNotFound :: xs), ys; auto|].
        right. split; [auto|]. split; [auto|]. intros m [F|F]; [discriminate F|]. apply (N m F).
      * rewrite Y. cbn [k_alerts k1 missing]. lia.
      * destruct Z as [(Z & Z1 & Z2)|(Z & Z1 & Z2)]; [left; split; [right; auto|auto]|right]. split; [|auto]. intros [F|F]; [discriminate F|auto].
    + destruct (front_change i 1 k A B ltac:(lia)) as (k1 & E1 & A1 & B1 & Q1 & Q2 & Q3 & Q4 & Q5 & Q6).
      set (k2 := Cards (k_tabs k1) (k_panes k1) true (k_due k1 ++ [(t + 5000)%N]) (k_card k1) (k_msg k1) (k_text k1) (k_alerts k1)).
      destruct (IH k2 1 A1 B1) as (k' & E & (i' & A' & B' & T) & C & X & Y & Z). exists k'.
      split; [cbn [map handle_all handle]; rewrite E1; exact E|].
      split; [exists i'; split; [auto|]; split; [auto|]|split; [|split; [|split]]].
      * left. split; [left; left; reflexivity|]. destruct T as [[_ ->]|[_ ->]]; reflexivity.
      * destruct C as [(C & xs & ys & -> & N)|(C & M & N)]; [left; split; [auto|]; exists (BuildError :: xs), ys; auto|].
        right. cbn [k2 k_card k_msg] in C, M. split; [congruence|]. split; [congruence|]. intros m [F|F]; [discriminate F|]. apply (N m F).
      * rewrite X. exact Q5.
      * rewrite Y. cbn [k2 k_alerts missing]. lia.
      * left. split; [left; reflexivity|]. cbn [k2 k_build k_due] in Z. destruct Z as [(Z & Z1 & Z2)|(Z & Z1 & Z2)].
        -- split; [auto|]. intros d. rewrite Z2, in_app_iff, Q2. cbn [In]. split; [intros [[F|[F|[]]]|F]; auto|]. intros [F|F]; auto.
        -- split; [auto|]. intros d. rewrite Z2, in_app_iff, Q2. cbn [In]. split; [intros [F|[F|[]]]; auto|]. intros [F|F]; auto.
    + destruct (front_change i 1 k A B ltac:(lia)) as (k1 & E1 & A1 & B1 & Q1 & Q2 & Q3 & Q4 & Q5 & Q6).
      set (k2 := Cards (k_tabs k1) (k_panes k1) (k_build k1) (k_due k1) true m (k_text k1) (k_alerts k1)).
      destruct (IH k2 1 A1 B1) as (k' & E & (i' & A' & B' & T) & C & X & Y & Z). exists k'.
      split; [cbn [map handle_all handle]; rewrite E1; exact E|].
      split; [exists i'; split; [auto|]; split; [auto|]|split; [|split; [|split]]].
      * left. split; [right; exists m; left; reflexivity|]. destruct T as [[_ ->]|[_ ->]]; reflexivity.
      * left. destruct C as [(C & xs & ys & -> & N)|(C & M & N)].
        -- split; [auto|]. exists (AnalysisError m :: xs), ys. auto.
        -- cbn [k2 k_card k_msg] in C, M. split; [auto|]. exists [], fs. rewrite M. auto.
      * rewrite X. exact Q5.
      * rewrite Y. cbn [k2 k_alerts missing]. lia.
      * cbn [k2 k_build k_due] in Z. destruct Z as [(Z & Z1 & Z2)|(Z & Z1 & Z2)].
        -- left. split; [right; auto|]. split; [auto|]. intros d. rewrite Z2, Q2. tauto.
        -- right. split; [intros [F|F]; [discriminate F|auto]|]. split; congruence.
    + destruct (IH k i A B) as (k' & E & (i' & A' & B' & T) & C & X & Y & Z). exists k'. split; [exact E|].
      split; [exists i'; split; [auto|]; split; [auto|]|split; [|split; [exact X|split]]].
      * destruct T as [[T ->]|[T ->]]; [left|right]; (split; [|reflexivity]).
        -- destruct T as [T|[m T]]; [left; right; auto|right; exists m; right; auto].
        -- intros [[F|F]|[m [F|F]]]; try discriminate F; apply T; [left; auto|right; exists m; auto].
      * destruct C as [(C & xs & ys & -> & N)|(C & M & N)]; [left; split; [auto|]; exists (OtherError :: xs), ys; auto|].
        right. split; [auto|]. split; [auto|]. intros m [F|F]; [discriminate F|]. apply (N m F).
      * exact Y.
      * destruct Z as [(Z & Z1 & Z2)|(Z & Z1 & Z2)]; [left; split; [right; auto|auto]|right]. split; [|auto]. intros [F|F]; [discriminate F|auto].
Qed.

(** ** One happening *)
Definition Changed {X} (says : happening -> X -> Prop) (e : happening) (old new : X) : Prop :=
  says e new \/ (new = old /\ forall y, ~ says e y).

Lemma lists_inv err fs f : Lists (Arrives (Ans true err (Some fs))) f <-> In f fs.
Proof. split; [intros (e & g & E & I); injection E as -> ->; auto|]. intros H. exists err, fs. auto. Qed.

Lemma happens t k e i : InFront (k_tabs k) i -> InFront (k_panes k) i -> (forall j, e = Click j -> j < 2) ->
  exists k', happen t k e = Some k' /\
    (exists i', InFront (k_tabs k') i' /\ InFront (k_panes k') i' /\ Changed Brings e i i') /\
    Changed Opens e (k_card k) (k_card k') /\ Changed Explains e (k_msg k) (k_msg k') /\ Changed Prints e (k_text k) (k_text k') /\
    k_alerts k' = all_missing [(t, e)] + k_alerts k /\
    ((Lists e BuildError /\ k_build k' = true /\ forall d, In d (k_due k') <-> In d (k_due k) \/ d = (t + 5000)%N) \/
     (~ Lists e BuildError /\ k_build k' = k_build k /\ k_due k' = k_due k)).
Proof.
  intros A B P. destruct e as [j| |[ok err out]].
  - destruct (front_change i j k A B (P j eq_refl)) as (k' & E & A' & B' & Q1 & Q2 & Q3 & Q4 & Q5 & Q6).
    exists k'. split; [exact E|]. split; [exists j; split; [auto|]; split; [auto|]; left; left; reflexivity|].
    split; [right; split; [auto|]; intros y [[F _]|(_ & m & e & f & F & _)]; discriminate F|].
    split; [right; split; [auto|]; intros y (a & b & c & F & _); discriminate F|].
    split; [right; split; [auto|]; intros y (a & b & F & _); discriminate F|].
    split; [exact Q6|]. right. split; [intros (e & f & F & _); discriminate F|]. auto.
  - eexists. split; [reflexivity|]. cbn [k_tabs k_panes k_card k_msg k_text k_alerts k_build k_due].
    split; [exists i; split; [auto|]; split; [auto|]; right; split; [auto|]; intros y [F|[_ [(a & b & F & _)|(m & a & b & F & _)]]]; discriminate F|].
    split; [left; left; auto|].
    split; [right; split; [auto|]; intros y (a & b & c & F & _); discriminate F|].
    split; [right; split; [auto|]; intros y (a & b & F & _); discriminate F|].
    split; [reflexivity|]. right. split; [intros (e & f & F & _); discriminate F|]. auto.
  - assert (None_listed : ok = false \/ out = None -> forall f, ~ Lists (Arrives (Ans ok err out)) f).
    { intros [-> | ->] f (a & b & F & _); discriminate F. }
    destruct ok.
    + destruct out as [fs|].
      * set (k1 := Cards (k_tabs k) (k_panes k) (k_build k) (k_due k) (k_card k) (k_msg k) err (k_alerts k)).
        destruct (failures t fs k1 i A B) as (k' & E & (i' & A' & B' & T) & C & X & Y & Z).
        exists k'. split; [exact E|].
        split; [exists i'; split; [auto|]; split; [auto|]|].
        { destruct T as [[T ->]|[T ->]]; [left; right; split; [auto|]|right; split; [auto|]].
          - destruct T as [T|[m T]]; [left; apply lists_inv; auto|right; exists m; apply lists_inv; auto].
          - intros y [F|[_ [F|(m & F)]]]; [discriminate F| |]; apply lists_inv in F; apply T; [left; auto|right; exists m; auto]. }
        split; [|split; [|split; [|split]]].
        -- destruct C as [(C & xs & ys & E' & N)|(C & M & N)]; [left; right; split; [auto|]|right; split; [auto|]].
           ++ exists (k_msg k'). apply lists_inv. rewrite E'. apply in_or_app. right. left. reflexivity.
           ++ intros y [[F _]|(_ & m & F)]; [discriminate F|]. apply lists_inv in F. apply (N m F).
        -- destruct C as [(C & xs & ys & E' & N)|(C & M & N)]; [left; exists err, xs, ys; split; [congruence|auto]|right; split; [auto|]].
           intros y (a & b & c & F & _). injection F as -> ->. apply (N y). apply in_or_app. right. left. reflexivity.
        -- left. rewrite X. exists true, (Some fs). split; [reflexivity|]. right. discriminate.
        -- rewrite Y. cbn [k1 k_alerts all_missing]. lia.
        -- cbn [k1 k_build k_due] in Z. destruct Z as [(Z & Z1 & Z2)|(Z & Z1 & Z2)]; [left|right]; (split; [|auto]); rewrite lists_inv; auto.
      * specialize (None_listed (or_intror eq_refl)). exists k. split; [reflexivity|].
        split; [exists i; split; [auto|]; split; [auto|]; right; split; [auto|]; intros y [F|[_ [F|(m & F)]]]; [discriminate F| |]; apply None_listed in F; auto|].
        split; [right; split; [auto|]; intros y [[F _]|(_ & m & F)]; [discriminate F|apply None_listed in F; auto]|].
        split; [right; split; [auto|]; intros y (a & b & c & F & _); discriminate F|].
        split; [right; split; [auto|]; intros y (a & b & F & G); injection F as <- _ <-; destruct G as [G|G]; [discriminate G|congruence]|].
        split; [reflexivity|]. right. split; [apply None_listed|]. auto.
    + specialize (None_listed (or_introl eq_refl)). eexists. split; [reflexivity|]. cbn [k_tabs k_panes k_card k_msg k_text k_alerts k_build k_due].
      split; [exists i; split; [auto|]; split; [auto|]; right; split; [auto|]; intros y [F|[_ [F|(m & F)]]]; [discriminate F| |]; apply None_listed in F; auto|].
      split; [right; split; [auto|]; intros y [[F _]|(_ & m & F)]; [discriminate F|apply None_listed in F; auto]|].
      split; [right; split; [auto|]; intros y (a & b & c & F & _); discriminate F|].
      split; [left; exists false, out; auto|].
      split; [reflexivity|]. right. split; [apply None_listed|]. auto.
Qed.

(** ** What was said last *)
Lemma shows_snoc {X} (says : happening -> X -> Prop) h t e d x y :
  Shows says h d x -> Changed says e x y -> Shows says (h ++ [(t, e)]) d y.
Proof.
  intros H [C|[-> N]].
  - left. exists h, t, e, []. split; [reflexivity|]. split; [exact C|]. intros t' e' z [].
  - destruct H as [(pre & t0 & e0 & post & -> & S0 & L)|[V ->]].
    + left. exists pre, t0, e0, (post ++ [(t, e)]). split; [rewrite <- app_assoc; reflexivity|]. split; [exact S0|].
      intros t' e' z I. apply in_app_or in I. destruct I as [I|[I|[]]]; [apply (L t' e' z I)|]. injection I as <- <-. apply N.
    + right. split; [|reflexivity]. intros t' e' z I. apply in_app_or in I. destruct I as [I|[I|[]]]; [apply (V t' e' z I)|]. injection I as <- <-. apply N.
Qed.

Lemma split_same {A} (pre : list A) : forall pre' x x' post post', pre ++ x :: post = pre' ++ x' :: post' ->
  (pre = pre' /\ x = x' /\ post = post') \/ In x' post \/ In x post'.
Proof.
  induction pre as [|a pre IH]; intros [|b pre'] x x' post post' E; cbn in E; injection E as E1 E2.
  - left. auto.
  - right. left. rewrite E2. apply in_or_app. right. left. reflexivity.
  - right. right. rewrite <- E2. apply in_or_app. right. left. reflexivity.
  - destruct (IH pre' x x' post post' E2) as [(-> & -> & ->)|[F|F]]; [left; subst; auto|right; left; auto|right; right; auto].
Qed.

Lemma shows_functional {X} (says : happening -> X -> Prop) h d x y : (forall e a b, says e a -> says e b -> a = b) ->
  Shows says h d x -> Shows says h d y -> x = y.
Proof.
  intros Fn [(p & t & e & q & E & S1 & L1)|[V1 ->]] [(p' & t' & e' & q' & E' & S2 & L2)|[V2 ->]].
  - rewrite E in E'. destruct (split_same _ _ _ _ _ _ E') as [(_ & F & _)|[F|F]].
    + injection F as _ <-. eapply Fn; eauto.
    + destruct (L1 _ _ _ F S2).
    + destruct (L2 _ _ _ F S1).
  - destruct (V2 t e x); [rewrite E; apply in_or_app; right; left; reflexivity|exact S1].
  - destruct (V1 t' e' y); [rewrite E'; apply in_or_app; right; left; reflexivity|exact S2].
  - reflexivity.
Qed.

Lemma brings_functional e a b : Brings e a -> Brings e b -> a = b.
Proof.
  intros [->|[-> H]] [E|[-> H']]; try reflexivity.
  - congruence.
  - destruct H' as [(x & y & F & _)|(m & x & y & F & _)]; discriminate F.
  - subst. destruct H as [(x & y & F & _)|(m & x & y & F & _)]; discriminate F.
Qed.
Lemma opens_functional e a b : Opens e a -> Opens e b -> a = b.
Proof.
  intros [[-> ->]|[-> H]] [[E ->]|[-> H']]; try reflexivity.
  - destruct H' as (m & x & y & F & _); discriminate F.
  - subst. destruct H as (m & x & y & F & _); discriminate F.
Qed.
Lemma explains_functional e a b : Explains e a -> Explains e b -> a = b.
Proof.
  intros (r & f & g & -> & N) (r' & f' & g' & E & N'). injection E as _ E.
  destruct (split_same _ _ _ _ _ _ E) as [(_ & F & _)|[F|F]]; [congruence|destruct (N _ F)|destruct (N' _ F)].
Qed.
Lemma prints_functional e a b : Prints e a -> Prints e b -> a = b.
Proof. intros (o & r & -> & _) (o' & r' & E & _). congruence. Qed.

(** ** Every history *)
Lemma until_snoc t t' h e : Until t (h ++ [(t', e)]) -> Until t' h /\ (t' <= t)%N.
Proof.
  intros U. remember (h ++ [(t', e)]) as l eqn:E. destruct U as [|t t1 h1 e1 U L].
  - destruct h; discriminate E.
  - apply app_inj_tail in E. destruct E as [-> E]. injection E as -> _. auto.
Qed.
Lemma until_le t t' h : Until t h -> (t <= t')%N -> Until t' h.
Proof. intros [|? ? ? ? U L] L'; constructor; [exact U|]. lia. Qed.
Lemma until_in t h t' e : Until t h -> In (t', e) h -> (t' <= t)%N.
Proof.
  intros U. induction U as [|t t1 h e1 U IH L]; [intros []|]. intros I. apply in_app_or in I.
  destruct I as [I|[I|[]]]; [specialize (IH I); lia|]. injection I as -> _. exact L.
Qed.

(** The build error's card, without the machinery. *)
Definition Lit (t : N) (h : history) : Prop :=
  exists s, BuildErrorAt h s /\ forall s', BuildErrorAt h s' -> ~ (s < s' + 5000 /\ s' + 5000 <= t)%N.

Definition Inv (t : N) (h : history) (k : cards) : Prop :=
  (exists i, InFront (k_tabs k) i /\ InFront (k_panes k) i /\ Shows Brings h 0 i) /\
  Shows Opens h false (k_card k) /\ Shows Explains h [] (k_msg k) /\ Shows Prints h [] (k_text k) /\
  k_alerts k = all_missing h /\
  (k_build k = true <-> Lit t h) /\
  (forall d, In d (k_due k) <-> (t < d)%N /\ exists s, BuildErrorAt h s /\ d = (s + 5000)%N).

Lemma inv_advance t t' h k : Until t h -> (t <= t')%N -> Inv t h k -> Inv t' h (advance t' k).
Proof.
  intros U L (F & O & M & T & Al & B & D). unfold Inv. cbn [advance k_tabs k_panes k_build k_due k_card k_msg k_text k_alerts].
  repeat (split; [assumption|]). split.
  - rewrite andb_true_iff, negb_true_iff, B. split.
    + intros [(s & S1 & S2) X]. exists s. split; [exact S1|]. intros s' S' [L1 L2].
      destruct (N.le_gt_cases (s' + 5000) t) as [C|C]; [apply (S2 s' S'); lia|].
      assert (I : In (s' + 5000)%N (k_due k)) by (apply D; split; [lia|exists s'; auto]).
      assert (Y : existsb (fun d => (d <=? t')%N) (k_due k) = true) by (apply existsb_exists; exists (s' + 5000)%N; split; [exact I|apply N.leb_le; lia]).
      congruence.
    + intros (s & S1 & S2). split.
      * exists s. split; [exact S1|]. intros s' S' [L1 L2]. apply (S2 s' S'). lia.
      * apply not_true_iff_false. intros Y. apply existsb_exists in Y. destruct Y as (d & I & Y). apply N.leb_le in Y.
        apply D in I. destruct I as (G & s' & S' & ->). destruct S1 as (e & I & Li). pose proof (until_in _ _ _ _ U I).
        apply (S2 s' S'). lia.
  - intros d. rewrite filter_In, negb_true_iff, N.leb_gt, D. split; [intros [[_ X] G]; auto|]. intros [G X]. split; [split; [lia|auto]|auto].
Qed.

Lemma build_snoc h t e s : BuildErrorAt (h ++ [(t, e)]) s <-> BuildErrorAt h s \/ (s = t /\ Lists e BuildError).
Proof.
  unfold BuildErrorAt. split.
  - intros (e' & I & Li). apply in_app_or in I. destruct I as [I|[I|[]]]; [left; exists e'; auto|]. injection I as <- <-. auto.
  - intros [(e' & I & Li)|[-> Li]]; [exists e'; split; [apply in_or_app; auto|auto]|]. exists e. split; [apply in_or_app; right; left; reflexivity|auto].
Qed.

Lemma inv_happen t h k e : Inv t h k -> (forall j, e = Click j -> j < 2) ->
  exists k', happen t k e = Some k' /\ Inv t (h ++ [(t, e)]) k'.
Proof.
  intros ((i & F1 & F2 & F3) & O & M & T & Al & B & D) P.
  destruct (happens t k e i F1 F2 P) as (k' & E & (i' & A1 & A2 & A3) & CO & CM & CT & CA & CB).
  exists k'. split; [exact E|]. split; [exists i'; split; [auto|]; split; [auto|]; eapply shows_snoc; eauto|].
  split; [eapply shows_snoc; eauto|]. split; [eapply shows_snoc; eauto|]. split; [eapply shows_snoc; eauto|].
  split; [rewrite all_missing_snoc, CA, Al; lia|].
  destruct CB as [(Li & B1 & B2)|(Li & B1 & B2)].
  - split.
    + split; [intros _|auto]. exists t. split; [apply build_snoc; auto|]. intros s' _ C. lia.
    + intros d. rewrite B2, D. split.
      * intros [[G (s & S1 & ->)]| ->]; [split; [auto|]; exists s; split; [apply build_snoc; auto|auto]|].
        split; [lia|]. exists t. split; [apply build_snoc; auto|reflexivity].
      * intros [G (s & S1 & ->)]. apply build_snoc in S1. destruct S1 as [S1|[-> _]]; [left; split; [auto|]; exists s; auto|right; reflexivity].
  - assert (Same : forall s, BuildErrorAt (h ++ [(t, e)]) s <-> BuildErrorAt h s).
    { intros s. rewrite build_snoc. tauto. }
    split.
    + rewrite B1, B. unfold Lit. split; intros (s & S1 & S2); exists s; (split; [apply Same; auto|]); intros s' S'; apply S2; apply Same; auto.
    + intros d. rewrite B2, D. split; intros [G (s & S1 & ->)]; (split; [auto|]); exists s; (split; [apply Same; auto|reflexivity]).
Qed.

Lemma history_inv h : forall t, Until t h -> Possible h -> exists k, page_at t h = Some k /\ Inv t h k.
Proof.
  assert (Main : forall t, Until t h -> Possible h -> exists k, unfold_page loaded h = Some k /\ Inv t h (advance t k)).
  { induction h as [|[t' e] h' IH] using rev_ind; intros t U P.
    - exists loaded. split; [reflexivity|]. unfold Inv. cbn.
      split; [exists 0; split; [left; auto|]; split; [left; auto|]; right; split; [intros t' e y []|reflexivity]|].
      split; [right; split; [intros t' e y []|reflexivity]|]. split; [right; split; [intros t' e y []|reflexivity]|].
      split; [right; split; [intros t' e y []|reflexivity]|]. split; [reflexivity|]. split.
      + split; [discriminate|]. intros (s & (e & C0 & _) & _). destruct C0.
      + intros d. split; [intros []|]. intros [_ (s & (e & C0 & _) & _)]. destruct C0.
    - pose proof (until_snoc _ _ _ _ U) as [U' L].
      destruct (IH t' U') as (k & E & I); [intros t0 i J; apply (P t0 i); apply in_or_app; auto|].
      destruct (inv_happen t' h' (advance t' k) e I) as (k' & E' & I'); [intros j ->; apply (P t' j); apply in_or_app; right; left; reflexivity|].
      exists k'. split; [rewrite unfold_snoc, E; exact E'|]. eapply inv_advance; [|exact L|exact I'].
      constructor; [exact U'|lia]. }
  intros t U P. destruct (Main t U P) as (k & E & I). exists (advance t k). unfold page_at. rewrite E. auto.
Qed.

Lemma advance_twice t k : advance t (advance t k) = advance t k.
Proof.
  unfold advance. cbn [k_tabs k_panes k_build k_due k_card k_msg k_text k_alerts].
  assert (E : existsb (fun d => (d <=? t)%N) (filter (fun d => negb (d <=? t)%N) (k_due k)) = false).
  { apply not_true_iff_false. intros X. apply existsb_exists in X. destruct X as (d & I & X).
    apply filter_In in I. destruct I as [_ I]. rewrite X in I. discriminate I. }
  assert (F : forall l, filter (fun d => negb (d <=? t)%N) (filter (fun d => negb (d <=? t)%N) l) = filter (fun d => negb (d <=? t)%N) l).
  { induction l as [|d l IH]; [reflexivity|]. cbn [filter]. destruct (negb (d <=? t)%N) eqn:G; [|exact IH]. cbn [filter]. rewrite G, IH. reflexivity. }
  rewrite E, F, andb_true_r. reflexivity.
Qed.
