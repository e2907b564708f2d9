(** * Proofs about the controls *)
From Coq Require Import List Arith Bool Lia.
From Verif Require Import Base BookModel LessonModel ToolsModel ToolsSpec.
From Verif Require EditorModel.
Import ListNotations.
Local Open Scope list_scope.

Lemma after_snoc bs es e : after bs (es ++ [e]) = on_event (after bs es) e.
Proof. unfold after. rewrite fold_left_app. reflexivity. Qed.
Lemma nth_update {A} i f : forall (l : list A) j, nth_error (update i f l) j = if Nat.eq_dec i j then option_map f (nth_error l j) else nth_error l j.
Proof.
  induction i as [|i IH]; intros [|x l] [|j]; cbn [update nth_error].
  all: try (rewrite IH; destruct (Nat.eq_dec i j), (Nat.eq_dec (S i) (S j)); try reflexivity; lia).
  all: match goal with |- context [Nat.eq_dec ?a ?b] => destruct (Nat.eq_dec a b) end; try reflexivity; congruence.
Qed.
Lemma in_add x y l : In y (add_listener x l) <-> y = x \/ In y l.
Proof. unfold add_listener. destruct (in_dec listener_eqd x l) as [I|I]; [|rewrite in_app_iff; cbn]; intuition congruence. Qed.
Lemma in_remove x y l : In y (remove_listener x l) <-> y <> x /\ In y l.
Proof. unfold remove_listener. rewrite filter_In. destruct (listener_eqd x y); intuition congruence. Qed.

(** ** The listeners *)
Definition has (bs : list block) (i : nat) (w : window) (n : nat) : Prop := exists b, nth_error bs i = Some b /\ aget window_eqd (k_open b) w = Some n.
Record Sound (g : page) : Prop := {
  so_editors : In OfEditors (g_listeners g) <-> g_focus g <> None;
  so_windows : forall n, In (OfWindow n) (g_listeners g) <-> exists i w, has (g_blocks g) i w n;
  so_below : forall i w n, has (g_blocks g) i w n -> n < g_next g;
  so_once : forall i w i' w' n, has (g_blocks g) i w n -> has (g_blocks g) i' w' n -> i = i' /\ w = w' }.

Lemma has_update i f bs : (forall b, nth_error bs i = Some b -> k_open (f b) = k_open b) -> forall j w n, has (update i f bs) j w n <-> has bs j w n.
Proof.
  intros F j w n. unfold has. split; intros (b & N & A); rewrite nth_update in *; destruct (Nat.eq_dec i j) as [<-|D]; eauto.
  - destruct (nth_error bs i) as [b0|] eqn:E; [|discriminate N]. cbn in N. injection N as <-. rewrite (F b0 eq_refl) in A. eauto.
  - rewrite N. cbn. eexists. split; [reflexivity|]. rewrite (F b N). exact A.
Qed.
Lemma sound_blocks g bs : (forall i w n, has bs i w n <-> has (g_blocks g) i w n) -> Sound g -> Sound (on_blocks g bs).
Proof.
  intros H [A B C D]. split; cbn.
  - exact A.
  - intros n. rewrite B. split; intros (i & w & K); exists i, w; apply H, K.
  - intros i w n K. apply H in K. eauto.
  - intros i w i' w' n K K'. apply H in K. apply H in K'. eauto.
Qed.
Lemma sound_rest g clip reports keys : Sound g -> Sound (Page (g_blocks g) (g_focus g) (g_listeners g) (g_next g) clip reports keys).
Proof. intros [A B C D]. split; assumption. Qed.

Lemma has_set i o bs b : nth_error bs i = Some b -> forall j w n,
  has (update i (set_open o) bs) j w n <-> (j = i /\ aget window_eqd o w = Some n) \/ (j <> i /\ has bs j w n).
Proof.
  intros E j w n. unfold has. split.
  - intros (b' & N & A). rewrite nth_update in N. destruct (Nat.eq_dec i j) as [<-|D]; [left|right; split; [congruence|eauto]].
    rewrite E in N. cbn in N. injection N as <-. split; [reflexivity|exact A].
  - intros [[-> A]|[D (b' & N & A)]].
    + eexists. rewrite nth_update. destruct (Nat.eq_dec i i); [|contradiction]. rewrite E. cbn. split; [reflexivity|exact A].
    + exists b'. rewrite nth_update. destruct (Nat.eq_dec i j); [congruence|]. auto.
Qed.

Lemma sound_open i w b g : nth_error (g_blocks g) i = Some b -> aget window_eqd (k_open b) w = None -> Sound g -> Sound (open_window i w b g).
Proof.
  intros E O [A B C D]. unfold open_window.
  assert (H : forall j v n, has (update i (set_open (aset window_eqd (k_open b) w (g_next g))) (g_blocks g)) j v n <->
    (j = i /\ v = w /\ n = g_next g) \/ has (g_blocks g) j v n).
  { intros j v n. rewrite (has_set i _ _ b E). destruct (window_eqd v w) as [->|Dv].
    - rewrite aget_aset_eq. split.
      + intros [[-> [= <-]]|[Dj K]]; auto.
      + intros [(-> & _ & ->)|K]; [auto|]. right. split; [|exact K]. intros ->. destruct K as (b' & N & Q). congruence.
    - rewrite aget_aset_neq by congruence. split.
      + intros [[-> K]|[Dj K]]; [right; exists b; auto|auto].
      + intros [(_ & Q & _)|K]; [congruence|]. destruct (Nat.eq_dec j i) as [->|Dj]; [left|auto]. destruct K as (b' & N & Q). split; [reflexivity|]. congruence. }
  split; cbn.
  - rewrite in_add, <- A. split; [intros [Q|Q]; [discriminate Q|exact Q]|auto].
  - intros n. rewrite in_add, B. split.
    + intros [[= ->]|(j & v & K)]; [exists i, w|exists j, v]; apply H; auto.
    + intros (j & v & K). apply H in K as [(_ & _ & ->)|K]; [auto|]. right. eauto.
  - intros j v n K. apply H in K as [(_ & _ & ->)|K]; [lia|]. apply C in K. lia.
  - intros j v j' v' n K K'. apply H in K. apply H in K'. destruct K as [(-> & -> & ->)|K], K' as [(-> & -> & Q)|K']; auto.
    + apply C in K'. lia.
    + apply C in K. lia.
    + eauto.
Qed.
Lemma sound_close i w b g : nth_error (g_blocks g) i = Some b -> Sound g -> Sound (close_window i w b g).
Proof.
  intros E [A B C D]. unfold close_window. destruct (aget window_eqd (k_open b) w) as [n0|] eqn:O; [|split; assumption].
  assert (Hb : has (g_blocks g) i w n0) by (exists b; auto).
  assert (H : forall j v n, has (update i (set_open (adel window_eqd (k_open b) w)) (g_blocks g)) j v n <-> n <> n0 /\ has (g_blocks g) j v n).
  { intros j v n. rewrite (has_set i _ _ b E). split.
    - intros [[-> K]|[Dj K]].
      + destruct (window_eqd v w) as [->|Dv]; [rewrite aget_adel_eq in K; discriminate K|]. rewrite aget_adel_neq in K by congruence.
        assert (Hv : has (g_blocks g) i v n) by (exists b; auto). split; [|exact Hv]. intros ->. destruct (D _ _ _ _ _ Hv Hb). contradiction.
      + split; [|exact K]. intros ->. destruct (D _ _ _ _ _ K Hb). contradiction.
    - intros [N K]. destruct (Nat.eq_dec j i) as [->|Dj]; [left|auto]. split; [reflexivity|]. destruct K as (b' & N' & Q). rewrite E in N'. injection N' as <-.
      destruct (window_eqd v w) as [->|Dv]; [congruence|]. rewrite aget_adel_neq by congruence. exact Q. }
  split; cbn.
  - rewrite in_remove, <- A. split; [intros [_ Q]; exact Q|]. intros Q. split; [discriminate|exact Q].
  - intros n. rewrite in_remove, B. split.
    + intros [N (j & v & K)]. exists j, v. apply H. split; [congruence|exact K].
    + intros (j & v & K). apply H in K as [N K]. split; [congruence|eauto].
  - intros j v n K. apply H in K as [_ K]. eauto.
  - intros j v j' v' n K K'. apply H in K as [_ K]. apply H in K' as [_ K']. eauto.
Qed.

Lemma edit_open d b : k_open (edit_block d b) = k_open b.
Proof. unfold edit_block. destruct (k_fixed b); reflexivity. Qed.
Lemma eye_open b : k_open (eye_block b) = k_open b.
Proof. unfold eye_block. destruct (k_eye b); reflexivity. Qed.

Lemma sound_event e g : Sound g -> Sound (on_event g e).
Proof.
  intros Sd. destruct e; cbn [on_event].
  - destruct Sd as [A B C D]. unfold on_focus. split; cbn; auto.
    + destruct target as [t|]; [rewrite in_add; split; [discriminate|auto]|]. split; [|congruence].
      destruct (g_focus g); [rewrite in_remove; tauto|]. intros Q. apply A in Q. congruence.
    + intros n. rewrite <- B. destruct target, (g_focus g); rewrite ?in_add, ?in_remove; split; try tauto; intuition congruence.
  - apply sound_rest, Sd.
  - apply sound_blocks; [|exact Sd]. apply has_update. intros b _. apply edit_open.
  - unfold on_copy. destruct (nth_error (g_blocks g) i); [apply sound_rest|]; exact Sd.
  - apply sound_blocks; [|exact Sd]. apply has_update. intros b _. apply eye_open.
  - unfold on_toggle. destruct (nth_error (g_blocks g) i) as [b|] eqn:E; [|exact Sd]. destruct (k_extra b); [|exact Sd].
    destruct (aget window_eqd (k_open b) w) eqn:O; [apply sound_close|apply sound_open]; assumption.
  - unfold on_close. destruct (nth_error (g_blocks g) i) as [b|] eqn:E; [apply sound_close|]; assumption.
  - unfold on_submit. destruct (nth_error (g_blocks g) i) as [b|] eqn:E; [|exact Sd]. destruct (aget window_eqd (k_open b) Bug) eqn:O; [|exact Sd].
    apply sound_close; [exact E|]. apply sound_rest, Sd.
Qed.
Lemma sound_after bs es : Fresh bs -> Sound (after bs es).
Proof.
  intros F. induction es as [|e es IH] using rev_ind; [|rewrite after_snoc; apply sound_event, IH].
  assert (K : forall i w n, ~ has bs i w n).
  { intros i w n (b & N & A). unfold Fresh in F. rewrite Forall_forall in F. destruct (F b (nth_error_In _ _ N)) as (c & f & x & y & ->). discriminate A. }
  split; cbn.
  - split; [intros []|congruence].
  - intros n. split; [intros []|]. intros (i & w & H). destruct (K i w n H).
  - intros i w n H. destruct (K i w n H).
  - intros i w i' w' n H. destruct (K i w n H).
Qed.

(** ** The blocks, one by one *)
Definition open_block (e : event) (i : nat) (w : window) (on : bool) : bool :=
  match e with
  | Toggle j v => if same i j w v then negb on else on
  | Close j v => if same i j w v then false else on
  | Submit j _ => if same i j w Bug then false else on
  | _ => on
  end.
Definition is_open (b : block) (w : window) : bool := match aget window_eqd (k_open b) w with Some _ => true | None => false end.
Definition doc_after (e : event) (i : nat) (b : block) : EditorModel.doc :=
  match e with Edit j d => if Nat.eqb i j && negb (k_fixed b) then d else k_doc b | _ => k_doc b end.
Definition hidden_after (e : event) (i : nat) (b : block) : bool :=
  match e with Eye j => if Nat.eqb i j && k_eye b then negb (k_hidden b) else k_hidden b | _ => k_hidden b end.
Lemma same_true i w : same i i w w = true.
Proof. unfold same. rewrite Nat.eqb_refl. destruct (window_eqd w w); [reflexivity|contradiction]. Qed.
Lemma same_false i j w v : i <> j \/ w <> v -> same i j w v = false.
Proof. unfold same. intros H. destruct (Nat.eqb_spec i j) as [->|]; [|reflexivity]. destruct (window_eqd w v) as [->|]; [|reflexivity]. intuition. Qed.

Record Next (e : event) (i : nat) (b b' : block) : Prop := {
  nx_code : k_code b' = k_code b; nx_fixed : k_fixed b' = k_fixed b; nx_extra : k_extra b' = k_extra b; nx_eye : k_eye b' = k_eye b;
  nx_doc : k_doc b' = doc_after e i b; nx_hidden : k_hidden b' = hidden_after e i b;
  nx_open : forall w, is_open b' w = (k_extra b && open_block e i w (is_open b w))%bool }.

Lemma adel_open b w v : is_open (set_open (adel window_eqd (k_open b) w) b) v = if window_eqd v w then false else is_open b v.
Proof. unfold is_open. cbn. destruct (window_eqd v w) as [->|D]; [rewrite aget_adel_eq; reflexivity|rewrite aget_adel_neq by congruence; reflexivity]. Qed.
Lemma aset_open b w n v : is_open (set_open (aset window_eqd (k_open b) w n) b) v = if window_eqd v w then true else is_open b v.
Proof. unfold is_open. cbn. destruct (window_eqd v w) as [->|D]; [rewrite aget_aset_eq; reflexivity|rewrite aget_aset_neq by congruence; reflexivity]. Qed.

Lemma close_blocks i w b g j bj : nth_error (g_blocks g) i = Some b -> nth_error (g_blocks g) j = Some bj ->
  exists b', nth_error (g_blocks (close_window i w b g)) j = Some b' /\ k_code b' = k_code bj /\ k_fixed b' = k_fixed bj /\ k_extra b' = k_extra bj /\ k_eye b' = k_eye bj /\
    k_doc b' = k_doc bj /\ k_hidden b' = k_hidden bj /\ forall v, is_open b' v = if same j i v w then false else is_open bj v.
Proof.
  intros E Ej. unfold close_window. destruct (aget window_eqd (k_open b) w) as [n|] eqn:O.
  - cbn. rewrite nth_update. destruct (Nat.eq_dec i j) as [<-|D].
    + rewrite E in Ej. injection Ej as <-. rewrite E. cbn [option_map]. eexists. split; [reflexivity|]. repeat split. intros v. rewrite adel_open. unfold same. rewrite Nat.eqb_refl. destruct (window_eqd v w); reflexivity.
    + exists bj. rewrite Ej. repeat split. intros v. rewrite same_false by auto. reflexivity.
  - exists bj. repeat split; [exact Ej|]. intros v. unfold same. destruct (Nat.eqb_spec j i) as [->|]; [|reflexivity]. destruct (window_eqd v w) as [->|]; [|reflexivity].
    cbn. rewrite E in Ej. injection Ej as <-. unfold is_open. rewrite O. reflexivity.
Qed.

Lemma next_block g e i b : nth_error (g_blocks g) i = Some b -> (k_extra b = false -> forall w, is_open b w = false) ->
  exists b', nth_error (g_blocks (on_event g e)) i = Some b' /\ Next e i b b'.
Proof.
  intros E X.
  assert (Same : (forall w, open_block e i w (is_open b w) = is_open b w) -> doc_after e i b = k_doc b -> hidden_after e i b = k_hidden b -> Next e i b b).
  { intros H1 H2 H3. split; auto. intros w. rewrite H1. destruct (k_extra b); [reflexivity|]. apply (X eq_refl). }
  assert (AB : forall w x, x = is_open b w -> x = (k_extra b && x)%bool) by (intros w x ->; destruct (k_extra b); [reflexivity|apply (X eq_refl)]).
  destruct e; cbn [on_event].
  - exists b. split; [exact E|]. apply Same; reflexivity.
  - exists b. split; [exact E|]. apply Same; reflexivity.
  - cbn. rewrite nth_update. destruct (Nat.eq_dec i0 i) as [->|D].
    + rewrite E. cbn. eexists. split; [reflexivity|]. unfold edit_block. destruct (k_fixed b) eqn:F.
      * apply Same; try reflexivity. cbn. rewrite F, andb_false_r. reflexivity.
      * split; cbn; auto. rewrite Nat.eqb_refl, F. reflexivity. intros w. apply (AB w). reflexivity.
    + exists b. split; [exact E|]. apply Same; try reflexivity. cbn. destruct (Nat.eqb_spec i i0); [congruence|reflexivity].
  - exists b. split; [unfold on_copy; destruct (nth_error (g_blocks g) i0); exact E|]. apply Same; reflexivity.
  - cbn. rewrite nth_update. destruct (Nat.eq_dec i0 i) as [->|D].
    + rewrite E. cbn. eexists. split; [reflexivity|]. unfold eye_block. destruct (k_eye b) eqn:F.
      * split; cbn; auto. rewrite Nat.eqb_refl, F. reflexivity. intros w. apply (AB w). reflexivity.
      * apply Same; try reflexivity. cbn. rewrite F, andb_false_r. reflexivity.
    + exists b. split; [exact E|]. apply Same; try reflexivity. cbn. destruct (Nat.eqb_spec i i0); [congruence|reflexivity].
  - unfold on_toggle. destruct (nth_error (g_blocks g) i0) as [b0|] eqn:E0; [destruct (k_extra b0) eqn:X0; [destruct (aget window_eqd (k_open b0) w) as [n|] eqn:O|]|].
    + destruct (close_blocks i0 w b0 g i b E0 E) as (b' & N & A1 & A2 & A3 & A4 & A5 & A6 & A7). exists b'. split; [exact N|]. split; auto. intros v. rewrite A7. cbn.
      destruct (Nat.eq_dec i i0) as [->|D].
      * rewrite E in E0. injection E0 as ->. rewrite X0. cbn. unfold same. rewrite Nat.eqb_refl. destruct (window_eqd v w) as [->|]; [|reflexivity]. unfold is_open. rewrite O. reflexivity.
      * rewrite same_false by auto. apply (AB v). reflexivity.
    + unfold open_window. cbn. rewrite nth_update. destruct (Nat.eq_dec i0 i) as [->|D].
      * rewrite E in E0. injection E0 as ->. rewrite E. cbn [option_map]. eexists. split; [reflexivity|]. split; auto. intros v. rewrite aset_open, X0. cbn.
        unfold same. rewrite Nat.eqb_refl. destruct (window_eqd v w) as [->|]; [|reflexivity]. unfold is_open. rewrite O. reflexivity.
      * exists b. split; [exact E|]. apply Same; try reflexivity. intros v. cbn. rewrite same_false by auto. reflexivity.
    + exists b. split; [exact E|]. split; auto. intros v. cbn. destruct (Nat.eq_dec i i0) as [->|D].
      * rewrite E in E0. injection E0 as ->. rewrite X0. apply (X X0).
      * rewrite same_false by auto. apply (AB v). reflexivity.
    + exists b. split; [exact E|]. apply Same; try reflexivity. intros v. cbn. rewrite same_false; [reflexivity|]. left. congruence.
  - unfold on_close. destruct (nth_error (g_blocks g) i0) as [b0|] eqn:E0.
    + destruct (close_blocks i0 w b0 g i b E0 E) as (b' & N & A1 & A2 & A3 & A4 & A5 & A6 & A7). exists b'. split; [exact N|]. split; auto. intros v. rewrite A7. cbn.
      destruct (same i i0 v w); [rewrite andb_false_r; reflexivity|]. apply (AB v). reflexivity.
    + exists b. split; [exact E|]. apply Same; try reflexivity. intros v. cbn. rewrite same_false; [reflexivity|]. left. congruence.
  - unfold on_submit. destruct (nth_error (g_blocks g) i0) as [b0|] eqn:E0; [destruct (aget window_eqd (k_open b0) Bug) as [n|] eqn:O|].
    + set (g' := Page (g_blocks g) (g_focus g) (g_listeners g) (g_next g) (g_clip g) (g_reports g ++ [(k_code b0, feedback)]) (g_keys g)).
      destruct (close_blocks i0 Bug b0 g' i b E0 E) as (b' & N & A1 & A2 & A3 & A4 & A5 & A6 & A7). exists b'. split; [exact N|]. split; auto. intros v. rewrite A7. cbn.
      destruct (same i i0 v Bug); [rewrite andb_false_r; reflexivity|]. apply (AB v). reflexivity.
    + exists b. split; [exact E|]. apply Same; try reflexivity. intros v. cbn. unfold same. destruct (Nat.eqb_spec i i0) as [->|]; [|reflexivity]. destruct (window_eqd v Bug) as [->|]; [|reflexivity].
      cbn. rewrite E in E0. injection E0 as ->. unfold is_open. rewrite O. reflexivity.
    + exists b. split; [exact E|]. apply Same; try reflexivity. intros v. cbn. rewrite same_false; [reflexivity|]. left. congruence.
Qed.

Lemma length_update {A} i f : forall l : list A, length (update i f l) = length l.
Proof. induction i as [|i IH]; intros [|x l]; cbn; auto. Qed.
Lemma close_length i w b g : length (g_blocks (close_window i w b g)) = length (g_blocks g).
Proof. unfold close_window. destruct (aget _ _ _); cbn; [apply length_update|reflexivity]. Qed.
Lemma event_length g e : length (g_blocks (on_event g e)) = length (g_blocks g).
Proof.
  destruct e; cbn [on_event]; try reflexivity; try apply length_update.
  - unfold on_copy. destruct (nth_error _ _); reflexivity.
  - unfold on_toggle. destruct (nth_error _ _) as [b|]; [|reflexivity]. destruct (k_extra b); [|reflexivity]. destruct (aget _ _ _); [apply close_length|apply length_update].
  - unfold on_close. destruct (nth_error _ _); [apply close_length|reflexivity].
  - unfold on_submit. destruct (nth_error _ _) as [b|]; [|reflexivity]. destruct (aget _ _ _); [|reflexivity]. rewrite close_length. reflexivity.
Qed.
Lemma switch_snoc i w e : forall es on, switch i w on (es ++ [e]) = open_block e i w (switch i w on es).
Proof. induction es as [|x es IH]; intros on; cbn [switch List.app]; [destruct e; reflexivity|apply IH]. Qed.
Lemma winks_snoc i es e : winks i (es ++ [e]) = winks i es + match e with Eye j => if Nat.eqb i j then 1 else 0 | _ => 0 end.
Proof. induction es as [|x es IH]; cbn [winks List.app]; [destruct e; lia|]. destruct x; rewrite IH; lia. Qed.

Record Now (bs : list block) (es : list event) (i : nat) (b0 b : block) : Prop := {
  nw_code : k_code b = k_code b0; nw_fixed : k_fixed b = k_fixed b0; nw_extra : k_extra b = k_extra b0; nw_eye : k_eye b = k_eye b0;
  nw_doc : Lines bs es i (k_doc b);
  nw_hidden : k_hidden b = (negb (k_eye b0) || Nat.even (winks i es))%bool;
  nw_open : forall w, is_open b w = (k_extra b0 && switch i w false es)%bool }.
Lemma now_after bs es i b0 : Fresh bs -> nth_error bs i = Some b0 -> exists b, nth_error (g_blocks (after bs es)) i = Some b /\ Now bs es i b0 b.
Proof.
  intros F E. induction es as [|e es IH] using rev_ind.
  - exists b0. split; [exact E|]. unfold Fresh in F. rewrite Forall_forall in F. pose proof (F b0 (nth_error_In _ _ E)) as (c & f & x & y & Q).
    split; auto.
    + apply lines_first; auto.
    + rewrite Q. cbn. rewrite orb_true_r. reflexivity.
    + intros w. rewrite Q. cbn. rewrite andb_false_r. reflexivity.
  - destruct IH as (b & N & [C Fx X Y D H O]). rewrite after_snoc.
    destruct (next_block (after bs es) e i b N) as (b' & N' & [C' Fx' X' Y' D' H' O']).
    { intros K w. rewrite O, <- X, K. reflexivity. }
    exists b'. split; [exact N'|]. split; try congruence.
    + rewrite D'. unfold doc_after. assert (Keep : (forall d, e <> Edit i d) \/ k_fixed b0 = true -> Lines bs (es ++ [e]) i (k_doc b)).
      { intros K. inversion D as [b1 N1 K1 Q|b1 d before later N1 F1 Es L Q].
        - rewrite E in N1. injection N1 as <-. apply lines_first; [exact E|]. destruct K1 as [K1|K1]; [auto|]. destruct K as [K|K]; [|auto]. right. intros d I. apply in_app_iff in I as [I|[I|[]]]; [exact (K1 d I)|exact (K d I)].
        - rewrite E in N1. injection N1 as <-. destruct K as [K|K]; [|congruence]. eapply (lines_edited _ _ _ b0 _ before (later ++ [e])); auto.
          + rewrite Es, <- app_assoc. reflexivity.
          + intros d' I. apply in_app_iff in I as [I|[I|[]]]; [exact (L d' I)|exact (K d' I)]. }
      destruct e; try (apply Keep; left; discriminate). destruct (Nat.eqb_spec i i0) as [<-|Di]; cbn [andb]; [|apply Keep; left; congruence].
      destruct (k_fixed b) eqn:Fb; cbn [negb]; [apply Keep; right; congruence|]. apply (lines_edited _ _ _ b0 _ es []); [exact E|congruence|reflexivity|intros d' []].
    + rewrite H'. unfold hidden_after. rewrite winks_snoc. destruct e; rewrite ?Nat.add_0_r; try exact H.
      destruct (Nat.eqb_spec i i0) as [<-|Di]; cbn [andb]; [|rewrite Nat.add_0_r; exact H]. rewrite Y, Nat.even_add. destruct (k_eye b0); cbn [negb orb] in *; [|exact H]. rewrite H.
      destruct (Nat.even (winks i es)); reflexivity.
    + intros w. rewrite O', O, X, switch_snoc. destruct (k_extra b0); reflexivity.
Qed.
Lemma some_block bs es i b : nth_error (g_blocks (after bs es)) i = Some b -> exists b0, nth_error bs i = Some b0.
Proof.
  intros N. assert (L : length (g_blocks (after bs es)) = length bs).
  { clear N. induction es as [|e es IH] using rev_ind; [reflexivity|]. rewrite after_snoc, event_length. exact IH. }
  destruct (nth_error bs i) eqn:E; [eauto|]. apply nth_error_None in E. assert (i < length (g_blocks (after bs es))) by (apply nth_error_Some; congruence). lia.
Qed.

(** ** Focus *)
Lemma focus_snoc g e : g_focus (on_event g e) = match e with Focus t => t | _ => g_focus g end.
Proof.
  destruct e; cbn [on_event]; try reflexivity.
  - unfold on_copy. destruct (nth_error _ _); reflexivity.
  - unfold on_toggle. destruct (nth_error _ _) as [b|]; [|reflexivity]. destruct (k_extra b); [|reflexivity]. unfold close_window. destruct (aget _ _ _); reflexivity.
  - unfold on_close. destruct (nth_error _ _); [|reflexivity]. unfold close_window. destruct (aget _ _ _); reflexivity.
  - unfold on_submit. destruct (nth_error _ _) as [b|]; [|reflexivity]. destruct (aget window_eqd (k_open b) Bug) eqn:O; [|reflexivity]. unfold close_window. rewrite O. reflexivity.
Qed.
Lemma typing_iff bs es : g_focus (after bs es) <> None <-> Typing es.
Proof.
  induction es as [|e es IH] using rev_ind.
  - split; [cbn; congruence|]. intros (a & i & b & Q & _). destruct a; discriminate Q.
  - rewrite after_snoc, focus_snoc. assert (K : (forall t, e <> Focus t) -> Typing (es ++ [e]) <-> Typing es).
    { intros N. split.
      - intros (a & i & b & Q & L). destruct b as [|x b _] using rev_ind; [apply app_inj_tail in Q as [_ Q]; destruct (N _ Q)|].
        rewrite app_comm_cons, app_assoc in Q. apply app_inj_tail in Q as [-> ->]. exists a, i, b. split; [reflexivity|]. intros t I. apply (L t), in_app_iff. auto.
      - intros (a & i & b & -> & L). exists a, i, (b ++ [e]). split; [rewrite <- app_assoc; reflexivity|]. intros t I. apply in_app_iff in I as [I|[I|[]]]; [exact (L t I)|exact (N t I)]. }
    destruct e; try (rewrite K by discriminate; exact IH). clear K IH. destruct target as [i|].
    + split; [|discriminate]. intros _. exists es, i, []. split; [reflexivity|]. intros t [].
    + split; [congruence|]. intros (a & i & b & Q & L). destruct b as [|x b _] using rev_ind; [apply app_inj_tail in Q as [_ Q]; discriminate Q|].
      rewrite app_comm_cons, app_assoc in Q. apply app_inj_tail in Q as [_ <-]. destruct (L None). apply in_app_iff. right. left. reflexivity.
Qed.
Lemma opened_iff bs es i w : Fresh bs -> (Opened bs es i w <-> exists n, has (g_blocks (after bs es)) i w n).
Proof.
  intros F. split.
  - intros [(b0 & N0 & X) Sw]. destruct (now_after bs es i b0 F N0) as (b & N & W). pose proof (nw_open _ _ _ _ _ W w) as O. rewrite X, Sw in O. unfold is_open in O.
    destruct (aget window_eqd (k_open b) w) as [n|] eqn:A; [|discriminate O]. exists n, b. auto.
  - intros (n & b & N & A). destruct (some_block bs es i b N) as (b0 & N0). destruct (now_after bs es i b0 F N0) as (b' & N' & W). rewrite N in N'. injection N' as <-.
    pose proof (nw_open _ _ _ _ _ W w) as O. unfold is_open in O. rewrite A in O. symmetry in O. apply andb_true_iff in O as [O1 O2]. split; [eauto|exact O2].
Qed.
Lemma quiet_iff bs es : Fresh bs -> (g_listeners (after bs es) = [] <-> ~ Typing es /\ forall i w, ~ Opened bs es i w).
Proof.
  intros F. destruct (sound_after bs es F) as [A B _ _]. rewrite <- (typing_iff bs). split.
  - intros Q. rewrite Q in *. split; [intros K; apply A in K; destruct K|]. intros i w K. apply (opened_iff bs es i w F) in K as [n K]. destruct (proj2 (B n)). eauto.
  - intros [Q1 Q2]. destruct (g_listeners (after bs es)) as [|[|n] r] eqn:E; [reflexivity| |].
    + destruct Q1. apply A. left. reflexivity.
    + destruct (proj1 (B n)) as (i & w & K); [left; reflexivity|]. destruct (Q2 i w). apply opened_iff; eauto.
Qed.
