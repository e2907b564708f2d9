(** * Proofs about the start of the preprocessor *)
From Coq Require Import Ascii String.
From Coq Require Import List Arith Bool Lia.
From Verif Require Import Base BookModel RunModel StartModel StartSpec.
From Verif Require BookSpec JsonModel JsonSpec JsonProofs PropBook.
Import ListNotations.
Local Open Scope list_scope.

Lemma decode_some b s : JsonModel.decode b = Some s <-> Utf8 b s.
Proof. apply JsonProofs.decode_iff. Qed.

Lemma decode_none b : JsonModel.decode b = None <-> forall s, ~ Utf8 b s.
Proof.
  split.
  - intros E s H. apply decode_some in H. congruence.
  - intros N. destruct (JsonModel.decode b) as [s|] eqn:E; [|reflexivity]. elim (N s). apply decode_some, E.
Qed.

Lemma utf8_same b s t : Utf8 b s -> Utf8 b t -> s = t.
Proof. intros A B. apply decode_some in A, B. congruence. Qed.

Lemma env_var_some v k s : env_var v k = Some s <-> Reads v k s.
Proof.
  unfold env_var, Reads, Has. split.
  - destruct (aget str_eqd v k) as [b|]; [|discriminate]. intros E. exists b. split; [reflexivity|]. apply decode_some, E.
  - intros (b & -> & U). apply decode_some, U.
Qed.

Lemma env_var_none v k : env_var v k = None <-> forall s, ~ Reads v k s.
Proof.
  split.
  - intros E s H. apply env_var_some in H. congruence.
  - intros N. destruct (env_var v k) as [s|] eqn:E; [|reflexivity]. elim (N s). apply env_var_some, E.
Qed.

Lemma trim_start_spec s : exists a, s = a ++ trim_start s /\ Forall BookSpec.White a /\ forall c r, trim_start s = c :: r -> ~ BookSpec.White c.
Proof.
  induction s as [|c s (a & E & F & N)]; cbn [trim_start].
  - exists []. repeat split; [constructor|discriminate].
  - destruct (is_white c) eqn:W.
    + exists (c :: a). split; [cbn; f_equal; exact E|]. split; [constructor; [apply PropBook.white_iff, W|exact F]|exact N].
    + exists []. split; [reflexivity|]. split; [constructor|]. intros c' r [= <- <-] H. apply PropBook.white_iff in H. congruence.
Qed.

Lemma trim_end_spec s : NoTail s (trim_end s).
Proof.
  unfold trim_end. destruct (trim_start_spec (rev s)) as (a & E & F & N). exists (rev a). split; [|split].
  - rewrite <- rev_app_distr, <- E, rev_involutive. reflexivity.
  - apply Forall_rev, F.
  - intros c r Er. apply (N c (rev r)). apply (f_equal (@rev nat)) in Er. rewrite rev_involutive, rev_app_distr in Er. exact Er.
Qed.

Lemma trim_start_white a x : Forall BookSpec.White a -> trim_start (a ++ x) = trim_start x.
Proof. induction 1 as [|c a W _ IH]; [reflexivity|]. cbn [List.app trim_start]. apply PropBook.white_iff in W. rewrite W. exact IH. Qed.

Lemma trim_end_iff s t : trim_end s = t <-> NoTail s t.
Proof.
  split; [intros <-; apply trim_end_spec|]. intros (ws & -> & F & N). unfold trim_end. rewrite rev_app_distr, trim_start_white by (apply Forall_rev, F).
  destruct (rev t) as [|c r] eqn:E.
  - apply (f_equal (@rev nat)) in E. rewrite rev_involutive in E. rewrite E. reflexivity.
  - cbn [trim_start]. assert (Et : t = rev r ++ [c]) by (rewrite <- (rev_involutive t), E; reflexivity).
    rewrite (proj2 (PropBook.not_white_iff c) (N c (rev r) Et)). rewrite <- E. apply rev_involutive.
Qed.

Lemma output_good w c t : run_and_get_output w c = Good t <-> Says w c t.
Proof.
  unfold run_and_get_output, Says. split.
  - destruct (w c) as [|secs out err []]; [discriminate| |destruct (JsonModel.decode err); discriminate].
    destruct (JsonModel.decode out) as [s|] eqn:D; [|discriminate]. intros E. assert (Et : trim_end s = t) by congruence.
    exists secs, out, err, s. split; [reflexivity|]. split; [apply decode_some, D|apply trim_end_iff, Et].
  - intros (secs & out & err & s & -> & U & N). apply decode_some in U. rewrite U. apply trim_end_iff in N. rewrite N. reflexivity.
Qed.

Lemma output_panics w c : run_and_get_output w c = Panics <-> Garbled w c.
Proof.
  unfold run_and_get_output, Garbled. split.
  - destruct (w c) as [|secs out err []]; [discriminate|destruct (JsonModel.decode out); discriminate|].
    destruct (JsonModel.decode err) eqn:D; [discriminate|]. intros _. exists secs, out, err. split; [reflexivity|apply decode_none, D].
  - intros (secs & out & err & -> & N). apply decode_none in N. rewrite N. reflexivity.
Qed.

Lemma printed_good w c t : printed w c = Good t <-> Says w c t.
Proof.
  unfold printed, Says. split.
  - destruct (w c) as [|secs out err []]; cbn [negb]; [discriminate| |discriminate].
    destruct (JsonModel.decode out) as [s|] eqn:D; [|discriminate]. intros E. assert (Et : trim_end s = t) by congruence.
    exists secs, out, err, s. split; [reflexivity|]. split; [apply decode_some, D|apply trim_end_iff, Et].
  - intros (secs & out & err & s & -> & U & N). cbn [negb]. apply decode_some in U. rewrite U. apply trim_end_iff in N. rewrite N. reflexivity.
Qed.

Lemma printed_calm w c : printed w c <> Panics.
Proof. unfold printed. destruct (w c) as [|secs out err []]; cbn [negb]; try discriminate. destruct (JsonModel.decode out); discriminate. Qed.

Lemma toolchain_shipped : toolchain shipped = Good ours.
Proof. vm_compute. reflexivity. Qed.

Lemma sysroot_good v w s : miri_sysroot shipped v w = Good s <-> Sysroot v w s.
Proof.
  unfold miri_sysroot, Sysroot. destruct (env_var v (lit "MIRI_SYSROOT")) as [x|] eqn:E.
  - apply env_var_some in E. split.
    + intros [= <-]. left. exact E.
    + intros [R|[N _]]; [|elim (N x E)]. destruct E as (b & H & U), R as (b' & H' & U'). unfold Has in *. assert (Eb : b' = b) by congruence. subst b'.
      f_equal. exact (utf8_same _ _ _ U U').
  - pose proof (proj1 (env_var_none _ _) E) as N. rewrite toolchain_shipped. cbv zeta. rewrite printed_good. split.
    + intros H. right. split; [exact N|exact H].
    + intros [R|[_ H]]; [elim (N s R)|exact H].
Qed.

Lemma sysroot_calm v w : miri_sysroot shipped v w <> Panics.
Proof. unfold miri_sysroot. destruct (env_var _ _); [discriminate|]. rewrite toolchain_shipped. apply printed_calm. Qed.

Lemma rustc_good v w s : rustc shipped v w = Good s <-> Compiler v w s.
Proof.
  unfold rustc, Compiler. destruct (env_var v (lit "RUSTC_PATH")) as [x|] eqn:E.
  - apply env_var_some in E. split.
    + intros [= <-]. left. exact E.
    + intros [R|[N _]]; [|elim (N x E)]. destruct E as (b & H & U), R as (b' & H' & U'). unfold Has in *. assert (Eb : b' = b) by congruence. subst b'.
      f_equal. exact (utf8_same _ _ _ U U').
  - pose proof (proj1 (env_var_none _ _) E) as N. rewrite toolchain_shipped, output_good. split.
    + intros H. right. split; [exact N|exact H].
    + intros [R|[_ H]]; [elim (N s R)|exact H].
Qed.

Lemma aget_set v k x k' : aget str_eqd (set_var v k x) k' = if str_eqd k' (lit k) then Some x else aget str_eqd v k'.
Proof. apply aget_aset. Qed.

Lemma child_has p v k : (forall b, SetBy p k b -> Has (child_vars p v) k (Some b)) /\
  ((forall b, ~ SetBy p k b) -> Has (child_vars p v) k (aget str_eqd v k)).
Proof.
  unfold child_vars, Has. cbv zeta. rewrite !aget_set. split.
  - intros b S0. destruct S0; repeat (destruct (str_eqd _ _) as [Q|Q]; [first [reflexivity | exfalso; vm_compute in Q; discriminate Q]|first [elim Q; reflexivity|clear Q]]).
  - intros N. repeat (destruct (str_eqd k _) as [Q|Q]; [subst k; exfalso; eapply N; constructor|clear Q]). reflexivity.
Qed.
