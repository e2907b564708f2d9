(** C125: the stand-alone page around the editor. *)
From Coq Require Import List Bool Arith NArith Lia.
Import ListNotations.
From Verif Require Import Base CardsModel CardsSpec CardsProofs.

(** *** C125 — the tabs: whatever happened, the page did not break; one tab and the pane of
    the same number are in front: the one clicked on last, or Stderr if a build or internal
    error came after that. *)
Theorem C125_tabs t h : Until t h -> Possible h ->
  exists k i, page_at t h = Some k /\ InFront (k_tabs k) i /\ InFront (k_panes k) i /\
    forall j, i = j <-> Shows Brings h 0 j.
Proof.
  intros U P. destruct (history_inv h t U P) as (k & E & (i & F1 & F2 & F3) & _). exists k, i. split; [exact E|]. split; [auto|]. split; [auto|].
  intros j. split; [intros <-; auto|]. intros S'. eapply shows_functional; eauto using brings_functional.
Qed.
Print Assumptions C125_tabs.

(** The internal error's card is open when such an error came after it was last closed, and
    says what the last one said; the Stderr pane has the error output of the last answer that
    could be read; each file not found has been told in an alert. *)
Theorem C125_texts t h k : Until t h -> Possible h -> page_at t h = Some k ->
  (forall b, k_card k = b <-> Shows Opens h false b) /\
  (forall m, k_msg k = m <-> Shows Explains h [] m) /\
  (forall s, k_text k = s <-> Shows Prints h [] s) /\
  k_alerts k = all_missing h.
Proof.
  intros U P E. destruct (history_inv h t U P) as (k' & E' & _ & O & M & T & A & _). replace k' with k in * by congruence.
  split; [|split; [|split; [|exact A]]]; intros x; (split; [intros <-; assumption|]); intros X.
  - apply (shows_functional Opens h false _ _ opens_functional O X).
  - apply (shows_functional Explains h [] _ _ explains_functional M X).
  - apply (shows_functional Prints h [] _ _ prints_functional T X).
Qed.
Print Assumptions C125_texts.

(** Right after an answer with a build or internal error, Stderr is in front with the error
    output of that answer. *)
Theorem C125_answer t h err fs : Until t h -> Possible h ->
  In BuildError fs \/ (exists m, In (AnalysisError m) fs) ->
  exists k, page_at t (h ++ [(t, Arrives (Ans true err (Some fs)))]) = Some k /\
    InFront (k_tabs k) 1 /\ InFront (k_panes k) 1 /\ k_text k = err.
Proof.
  intros U P B. set (e := Arrives (Ans true err (Some fs))).
  assert (U' : Until t (h ++ [(t, e)])) by (constructor; [exact U|lia]).
  assert (P' : Possible (h ++ [(t, e)])).
  { intros t' j I. apply in_app_or in I. destruct I as [I|[I|[]]]; [apply (P t' j I)|discriminate I]. }
  assert (L : forall X (says : happening -> X -> Prop) x, says e x -> Latest says (h ++ [(t, e)]) x).
  { intros X says x S0. exists h, t, e, []. split; [reflexivity|]. split; [exact S0|]. intros t' e' y []. }
  destruct (C125_tabs _ _ U' P') as (k & i & E & F1 & F2 & F3). exists k. split; [exact E|].
  assert (i = 1) as ->.
  { apply F3. left. apply L. right. split; [reflexivity|]. destruct B as [B|[m B]]; [left|right; exists m]; apply lists_inv; auto. }
  split; [auto|]. split; [auto|]. apply (C125_texts _ _ _ U' P' E). left. apply L. exists true, (Some fs). split; [reflexivity|]. right. discriminate.
Qed.
Print Assumptions C125_answer.

(** The build error's card is shown when there has been a build error, and since then no
    five seconds counted from any build error have ended. *)
Theorem C125_build_card t h k : Until t h -> Possible h -> page_at t h = Some k ->
  (k_build k = true <->
   exists s, BuildErrorAt h s /\ forall s', BuildErrorAt h s' -> ~ (s < s' + 5000 /\ s' + 5000 <= t)%N).
Proof.
  intros U P E. destruct (history_inv h t U P) as (k' & E' & _ & _ & _ & _ & _ & B & _). replace k' with k in * by congruence. exact B.
Qed.
Print Assumptions C125_build_card.

(** So when build errors come together or at least five seconds apart, the card is shown for
    five seconds after each, and at no other time. *)
Theorem C125_five_seconds_partial t h k : Until t h -> Possible h -> page_at t h = Some k ->
  (forall s s', BuildErrorAt h s -> BuildErrorAt h s' -> s < s' -> s + 5000 <= s')%N ->
  (k_build k = true <-> exists s, BuildErrorAt h s /\ (s <= t < s + 5000)%N).
Proof.
  intros U P E Apart. rewrite (C125_build_card t h k U P E). split.
  - intros (s & B & N). exists s. split; [exact B|]. destruct B as (e & I & Li). pose proof (until_in _ _ _ _ U I).
    split; [auto|]. apply N.nle_gt. intros C. apply (N s); [exists e; auto|lia].
  - intros (s & B & L1 & L2). exists s. split; [exact B|]. intros s' B' [C1 C2].
    destruct (N.lt_trichotomy s s') as [C|[->|C]]; [specialize (Apart s s' B B' C); lia|lia|specialize (Apart s' s B' B C); lia].
Qed.
Print Assumptions C125_five_seconds_partial.

(** But the clock of an earlier build error takes away the card of a later one. *)
Theorem C125_five_seconds_refuted t h k s1 s2 : Until t h -> Possible h -> page_at t h = Some k ->
  BuildErrorAt h s1 -> BuildErrorAt h s2 -> (s1 < s2)%N -> (forall s, BuildErrorAt h s -> s <= s2)%N ->
  (s2 < s1 + 5000 <= t)%N -> k_build k = false.
Proof.
  intros U P E B1 B2 L Last [C1 C2]. apply not_true_iff_false. rewrite (C125_build_card t h k U P E).
  intros (s & B & N). apply (N s1 B1). specialize (Last s B). lia.
Qed.
Print Assumptions C125_five_seconds_refuted.

(** A later answer without errors, to either button, closes nothing and turns back no tab,
    while the error output that the card speaks of is replaced. *)
Theorem C125_success_refuted t h k err : Until t h -> Possible h -> page_at t h = Some k ->
  exists k', page_at t (h ++ [(t, Arrives (Ans true err (Some [])))]) = Some k' /\
    k_tabs k' = k_tabs k /\ k_panes k' = k_panes k /\ k_card k' = k_card k /\ k_msg k' = k_msg k /\ k_build k' = k_build k /\
    k_text k' = err.
Proof.
  intros U P E. unfold page_at in *. rewrite unfold_snoc. destruct (unfold_page loaded h) as [k0|]; [|discriminate E].
  injection E as <-. eexists. split; [reflexivity|]. cbn [happen reports a_success a_stdout a_stderr handle_all handle map].
  repeat (split; [reflexivity|]). split; [|reflexivity]. exact (f_equal k_build (advance_twice t k0)).
Qed.
Print Assumptions C125_success_refuted.

(** Of several internal errors in one answer only the last can be read. *)
Theorem C125_messages_refuted t h err fs m1 gs m2 rest : Until t h -> Possible h ->
  (forall m, ~ In (AnalysisError m) rest) ->
  exists k, page_at t (h ++ [(t, Arrives (Ans true err (Some (fs ++ AnalysisError m1 :: gs ++ AnalysisError m2 :: rest))))]) = Some k /\
    k_card k = true /\ k_msg k = m2.
Proof.
  intros U P N. set (e := Arrives (Ans true err (Some (fs ++ AnalysisError m1 :: gs ++ AnalysisError m2 :: rest)))).
  assert (U' : Until t (h ++ [(t, e)])) by (constructor; [exact U|lia]).
  assert (P' : Possible (h ++ [(t, e)])).
  { intros t' j I. apply in_app_or in I. destruct I as [I|[I|[]]]; [apply (P t' j I)|discriminate I]. }
  destruct (C125_tabs _ _ U' P') as (k & i & E & _). exists k. split; [exact E|].
  destruct (C125_texts _ _ _ U' P' E) as (O & M & _). split; [apply O|apply M]; left; exists h, t, e, []; (split; [reflexivity|]; split; [|intros t' e' y []]).
  - right. split; [reflexivity|]. exists m2. apply lists_inv. apply in_or_app. right. right. apply in_or_app. right. left. reflexivity.
  - exists err, (fs ++ AnalysisError m1 :: gs), rest. split; [|exact N]. unfold e. rewrite <- app_assoc. reflexivity.
Qed.
Print Assumptions C125_messages_refuted.

(** And an answer that reports success but cannot be read changes nothing at all: not even
    its error output is shown. *)
Theorem C125_unread_refuted t h err : page_at t (h ++ [(t, Arrives (Ans true err None))]) = page_at t h.
Proof. unfold page_at. rewrite unfold_snoc. destruct (unfold_page loaded h) as [k|]; [|reflexivity]. cbn [option_map happen reports a_success a_stdout handle_all]. rewrite advance_twice. reflexivity. Qed.
Print Assumptions C125_unread_refuted.

(** A history: two build errors two seconds apart, an internal error, a look at the code. *)
Definition demo : history :=
  [(100%N, Arrives (Ans true [1] (Some [BuildError]))); (2100%N, Arrives (Ans true [2] (Some [OtherError; BuildError; AnalysisError [7]; AnalysisError [8]])));
   (3000%N, Click 0); (4000%N, Arrives (Ans false [3] None)); (4500%N, Arrives (Ans true [4] None))].
Example C125_witness : Until 5200 demo /\ Until 5000 demo /\ Possible demo /\
  option_map (fun k => (k_tabs k, k_build k, k_card k, k_msg k, k_text k)) (page_at 5000 demo) = Some ([(0, true); (1, false)], true, true, [8], [3]) /\
  option_map k_build (page_at 5200 demo) = Some false.
Proof.
  assert (W : forall t, (4500 <= t)%N -> Until t demo).
  { intros t L. unfold demo.
    change [(100%N, Arrives (Ans true [1] (Some [BuildError]))); (2100%N, Arrives (Ans true [2] (Some [OtherError; BuildError; AnalysisError [7]; AnalysisError [8]])));
   (3000%N, Click 0); (4000%N, Arrives (Ans false [3] None)); (4500%N, Arrives (Ans true [4] None))] with
     ((((([] ++ [(100%N, Arrives (Ans true [1] (Some [BuildError])))]) ++ [(2100%N, Arrives (Ans true [2] (Some [OtherError; BuildError; AnalysisError [7]; AnalysisError [8]])))]) ++
       [(3000%N, Click 0)]) ++ [(4000%N, Arrives (Ans false [3] None))]) ++ [(4500%N, Arrives (Ans true [4] None))]).
    repeat (constructor; [|try lia]). constructor. }
  split; [apply W; lia|]. split; [apply W; lia|]. split; [|split; reflexivity].
  intros t i I. cbn in I. repeat (destruct I as [I|I]; [injection I; intros; try lia; try discriminate; subst; auto|]); try discriminate. destruct I.
Qed.
Example C125_witness_times : BuildErrorAt demo 100 /\ BuildErrorAt demo 2100 /\ (forall s, BuildErrorAt demo s -> s <= 2100)%N.
Proof.
  split; [eexists; split; [left; reflexivity|apply lists_inv; left; reflexivity]|].
  split; [eexists; split; [right; left; reflexivity|apply lists_inv; right; left; reflexivity]|].
  intros s (e & I & (a & b & -> & X)). cbn in I.
  repeat (destruct I as [I|I]; [first [discriminate I|injection I as <- <- <-; lia]|]). destruct I.
Qed.
