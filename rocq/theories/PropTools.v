(** * C123: the controls around a program *)
From Coq Require Import Ascii String.
From Coq Require Import List Arith Bool Lia.
From Verif Require Import Base BookModel LessonModel ToolsModel ToolsSpec ToolsProofs.
From Verif Require EditorModel EditorSpec LessonSpec LessonProofs.
Import ListNotations.
Local Open Scope list_scope.

Lemma close_rest i w b g : g_keys (close_window i w b g) = g_keys g /\ g_clip (close_window i w b g) = g_clip g /\ g_reports (close_window i w b g) = g_reports g.
Proof. unfold close_window. destruct (aget _ _ _); auto. Qed.
Lemma event_keys g e : (forall c, e <> Key c) -> g_keys (on_event g e) = g_keys g.
Proof.
  intros N. destruct e; cbn [on_event]; try reflexivity; [destruct (N c eq_refl)| | | |].
  - unfold on_copy. destruct (nth_error _ _); reflexivity.
  - unfold on_toggle. destruct (nth_error _ _) as [b|]; [|reflexivity]. destruct (k_extra b); [|reflexivity]. destruct (aget _ _ _); [apply close_rest|reflexivity].
  - unfold on_close. destruct (nth_error _ _); [apply close_rest|reflexivity].
  - unfold on_submit. destruct (nth_error _ _) as [b|]; [|reflexivity]. destruct (aget window_eqd (k_open b) Bug); [|reflexivity].
    rewrite (proj1 (close_rest i Bug b _)). reflexivity.
Qed.

(** C123. A key comes to the book exactly when the reader is not in an editor and no window is open, whatever happened before; nothing
    else comes there. *)
Theorem C123_keys bs es e : Fresh bs ->
  (forall c, e = Key c -> ~ Typing es -> (forall i w, ~ Opened bs es i w) -> g_keys (after bs (es ++ [e])) = g_keys (after bs es) ++ [c]) /\
  ((forall c, e <> Key c) \/ Typing es \/ (exists i w, Opened bs es i w) -> g_keys (after bs (es ++ [e])) = g_keys (after bs es)).
Proof.
  intros F. rewrite after_snoc. pose proof (quiet_iff bs es F) as Q. split.
  - intros c -> T O. cbn [on_event on_key g_keys]. rewrite (proj2 Q (conj T O)). reflexivity.
  - intros H. destruct e; try (apply event_keys; discriminate). destruct H as [H|H]; [destruct (H c eq_refl)|]. cbn [on_event on_key g_keys].
    destruct (g_listeners (after bs es)) eqn:E; [|reflexivity]. destruct (proj1 Q eq_refl) as [T O]. destruct H as [H|(i & w & H)]; [contradiction|destruct (O i w H)].
Qed.

(** The lines of an editor as a text. *)
Lemma join_lines (d : list str) : d <> [] -> exists ls last, d = ls ++ [last] /\ join [10] d = EditorSpec.text_before ls last.
Proof.
  intros N. destruct (exists_last N) as (ls & last & ->). exists ls, last. split; [reflexivity|]. clear N. unfold EditorSpec.text_before. induction ls as [|l ls IH]; [cbn; reflexivity|].
  cbn [List.app flat_map]. rewrite <- !app_assoc, <- IH. destruct ls; reflexivity.
Qed.

(** C123. Copying a program puts the text of its editor on the clipboard, all lines of it. *)
Theorem C123_copy bs es i d : Fresh bs -> Lines bs es i d -> d <> [] -> Forall (fun l => ~ In 10 l /\ ~ In 13 l) d ->
  exists t, LessonSpec.InEditor t d /\ g_clip (after bs (es ++ [Copy i])) = Some t.
Proof.
  intros F L N P. rewrite after_snoc. cbn [on_event]. unfold on_copy.
  assert (B0 : exists b0, nth_error bs i = Some b0) by (destruct L; eauto). destruct B0 as (b0 & N0).
  destruct (now_after bs es i b0 F N0) as (b & Nb & W). rewrite Nb. cbn [g_clip].
  assert (E : k_doc b = d).
  { pose proof (nw_doc _ _ _ _ _ W) as D. destruct L as [b1 N1 K1|b1 d before later N1 F1 -> L1]; inversion D as [b2 N2 K2 Q|b2 d2 bf lt N2 F2 Es L2 Q].
    - congruence.
    - destruct K1 as [K1|K1]; [congruence|]. destruct (K1 (k_doc b)). rewrite Es, in_app_iff. right. left. reflexivity.
    - destruct K2 as [K2|K2]; [congruence|]. destruct (K2 d). rewrite in_app_iff. right. left. reflexivity.
    - clear - Es L1 L2. revert bf Es. induction before as [|x before IH]; intros [|y bf] Es; cbn in Es; injection Es; intros E1 E2.
      + congruence.
      + subst. destruct (L1 (k_doc b)). rewrite in_app_iff. right. left. reflexivity.
      + subst. destruct (L2 d). rewrite in_app_iff. right. left. reflexivity.
      + exact (IH bf E1). }
  rewrite E. destruct (join_lines d N) as (ls & last & Ed & J). exists (join [10] d). split; [|reflexivity]. exists ls, last. auto.
Qed.

(** C123. As long as nothing was written into it, this is the program of the book. *)
Theorem C123_original bs es i b code fixed extra eye : Fresh bs -> nth_error bs i = Some b -> b = new_block code fixed extra eye -> ~ In 13 code ->
  fixed = true \/ (forall d, ~ In (Edit i d) es) -> g_clip (after bs (es ++ [Copy i])) = Some code.
Proof.
  intros F N E C K. destruct (LessonProofs.text_of_spec code C) as (ls & last & D & T & P).
  destruct (C123_copy bs es i (text_of code) F) as (t & (ls' & last' & D' & T' & _) & G).
  - assert (Q : k_doc b = text_of code) by (rewrite E; reflexivity). rewrite <- Q. apply lines_first; [exact N|]. rewrite E. exact K.
  - rewrite D. destruct ls; discriminate.
  - exact P.
  - rewrite G. rewrite D in D'. apply app_inj_tail in D' as [<- <-]. congruence.
Qed.

(** C123. Hidden lines are hidden, except after an odd number of clicks on the eye; each program has its own eye. *)
Theorem C123_eye bs es i b : Fresh bs -> nth_error (g_blocks (after bs es)) i = Some b ->
  exists b0, nth_error bs i = Some b0 /\ (k_hidden b = false <-> k_eye b0 = true /\ Nat.odd (winks i es) = true).
Proof.
  intros F N. destruct (some_block bs es i b N) as (b0 & N0). destruct (now_after bs es i b0 F N0) as (b' & N' & W). rewrite N in N'. injection N' as <-.
  exists b0. split; [exact N0|]. rewrite (nw_hidden _ _ _ _ _ W). unfold Nat.odd. destruct (k_eye b0), (Nat.even (winks i es)); cbn; intuition discriminate.
Qed.

(** C123. A report is sent by the form of a program, while its window is open; it has the code of this program as it was at first.  Then the
    window is closed. *)
Theorem C123_report bs es e : Fresh bs ->
  (forall i f b, e = Submit i f -> nth_error bs i = Some b -> Opened bs es i Bug ->
     g_reports (after bs (es ++ [e])) = g_reports (after bs es) ++ [(k_code b, f)] /\ ~ Opened bs (es ++ [e]) i Bug) /\
  ((forall i f, e = Submit i f -> ~ Opened bs es i Bug) -> g_reports (after bs (es ++ [e])) = g_reports (after bs es)).
Proof.
  intros F. split.
  - intros i f b -> N O. split.
    + rewrite after_snoc. cbn [on_event]. unfold on_submit. destruct (now_after bs es i b F N) as (b' & N' & W). rewrite N'.
      apply (opened_iff bs es i Bug F) in O as (n & b'' & N'' & A). assert (b'' = b') by congruence. subst b''. rewrite A.
      rewrite (proj2 (proj2 (close_rest i Bug b' _))). cbn [g_reports]. rewrite (nw_code _ _ _ _ _ W). reflexivity.
    + intros [_ K]. rewrite switch_snoc in K. cbn in K. rewrite same_true in K. discriminate K.
  - intros H. rewrite after_snoc. destruct e; cbn [on_event]; try reflexivity.
    + unfold on_copy. destruct (nth_error _ _); reflexivity.
    + unfold on_toggle. destruct (nth_error _ _) as [b|]; [|reflexivity]. destruct (k_extra b); [|reflexivity]. destruct (aget _ _ _); [apply close_rest|reflexivity].
    + unfold on_close. destruct (nth_error _ _); [apply close_rest|reflexivity].
    + unfold on_submit. destruct (nth_error (g_blocks (after bs es)) i) as [b|] eqn:N; [|reflexivity]. destruct (aget window_eqd (k_open b) Bug) as [n|] eqn:A; [|reflexivity].
      destruct (H i feedback eq_refl). apply (opened_iff bs es i Bug F). exists n, b. auto.
Qed.

(** C123, that a report says what the reader saw: after an edit it has another program. *)
Theorem C123_report_refuted bs es i f b d t : Fresh bs -> nth_error bs i = Some b -> Opened bs es i Bug -> Lines bs es i d -> LessonSpec.InEditor t d -> t <> k_code b ->
  exists code, g_reports (after bs (es ++ [Submit i f])) = g_reports (after bs es) ++ [(code, f)] /\ code <> t.
Proof.
  intros F N O L T D. exists (k_code b). split; [|congruence]. exact (proj1 (proj1 (C123_report bs es _ F) i f b eq_refl N O)).
Qed.

Module Tools.
  Definition bs : list block := [new_block (lit "fn f() {}") false true false; new_block (lit "#a") true true true].
  Example C123_fresh : Fresh bs.
  Proof. repeat constructor; do 4 eexists; reflexivity. Qed.
  (** The reader goes from one editor to the other, opens a window and types. *)
  Definition es : list event := [Key 1; Focus (Some 0); Key 2; Edit 0 [lit "fn g() {}"; lit "x"]; Focus (Some 1); Key 3; Eye 1; Toggle 0 Bug; Focus None; Key 4; Toggle 1 Question; Close 0 Bug; Key 5;
    Toggle 1 Question; Key 6; Toggle 0 Bug].
  Example C123_witness : g_keys (after bs es) = [1; 6] /\ Opened bs es 0 Bug /\ ~ Typing es /\ Lines bs es 0 [lit "fn g() {}"; lit "x"].
  Proof.
    split; [vm_compute; reflexivity|]. split; [split; [eexists; split; reflexivity|reflexivity]|]. split.
    - rewrite <- (typing_iff bs). vm_compute. intros K. exact (K eq_refl).
    - eapply (lines_edited _ _ _ _ _ [Key 1; Focus (Some 0); Key 2]); [reflexivity|reflexivity|reflexivity|]. intros d I. cbn in I. intuition discriminate.
  Qed.
  Example C123_witness_report : g_reports (after bs (es ++ [Submit 0 (lit "bug")])) = [(lit "fn f() {}", lit "bug")] /\
    g_clip (after bs (es ++ [Copy 0])) = Some (join [10] [lit "fn g() {}"; lit "x"]) /\ g_clip (after bs (es ++ [Copy 1])) = Some (lit "#a").
  Proof. vm_compute. repeat split. Qed.
  Example C123_witness_eye : exists b, nth_error (g_blocks (after bs es)) 1 = Some b /\ k_hidden b = false.
  Proof. vm_compute. eexists. split; reflexivity. Qed.
End Tools.

Print Assumptions C123_keys.
Print Assumptions C123_copy.
Print Assumptions C123_original.
Print Assumptions C123_eye.
Print Assumptions C123_report.
Print Assumptions C123_report_refuted.
