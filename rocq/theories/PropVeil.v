(** * C124: hidden lines while a program is edited *)
From Coq Require Import List Arith Bool Lia.
From Verif Require Import Base VeilModel VeilSpec VeilProofs.
Import ListNotations.
Local Open Scope list_scope.

(** C124. After any edits, what is hidden are whole lines of the text, and exactly those that were hidden once and whose break
    in front was kept by every edit since. *)
Theorem C124_hidden t es : Fitting t es ->
  (forall q, In q (v_hidden (after t es)) -> exists l, Line (v_text (after t es)) q l) /\
  forall q, In q (v_hidden (after t es)) <-> Veiled t es q.
Proof.
  intros F. destruct (run_spec es t [] F (Forall_nil _)) as [A B]. fold (after t es) in A, B. rewrite Forall_forall in A. split; [exact A|].
  intros q. rewrite B. split; [intros [(p & [] & _)|H]; exact H|auto].
Qed.

Lemma fitting_snoc : forall es t cs, Fitting t es -> Fits cs (fold_left (fun t e => match e with Change cs => apply cs t | Hide _ => t end) es t) -> Fitting t (es ++ [Change cs]).
Proof. induction es as [|[c|n] es IH]; intros t cs F H; cbn in *; [auto|destruct F; split; auto|auto]. Qed.
Lemma after_text : forall es t hs, v_text (fold_left on_event es (Veil t hs)) = fold_left (fun t e => match e with Change cs => apply cs t | Hide _ => t end) es t.
Proof. induction es as [|[c|n] es IH]; intros t hs; cbn [fold_left on_event v_text v_hidden]; [reflexivity|apply IH|]. destruct (line_start t n); apply IH. Qed.
Lemma after_snoc t es e : after t (es ++ [e]) = on_event (after t es) e.
Proof. unfold after. rewrite fold_left_app. reflexivity. Qed.

Lemma edit_spec t es from to ins : Fitting t es -> from <= to -> to <= length (v_text (after t es)) ->
  let v := after t es in let v' := after t (es ++ [Change (replace (v_text v) from to ins)]) in
  Fitting t (es ++ [Change (replace (v_text v) from to ins)]) /\
  v_text v' = firstn from (v_text v) ++ ins ++ skipn to (v_text v) /\
  forall q, In q (v_hidden v') <-> (In q (v_hidden v) /\ q <= from) \/ exists p, In p (v_hidden v) /\ to < p /\ q = p + length ins - (to - from).
Proof.
  intros F A B v v'. split; [apply fitting_snoc; [exact F|]; rewrite <- (after_text es t []); apply replace_fits; assumption|].
  unfold v'. rewrite after_snoc. fold v. cbn [on_event v_text v_hidden]. split; [apply replace_text; assumption|].
  intros q. rewrite in_flat_map. destruct (C124_hidden t es F) as [Ln _]. fold v in Ln, B.
  assert (G : forall p, In p (v_hidden v) -> map_pos (replace (v_text v) from to ins) p 0 0 = Some q <-> (p <= from /\ q = p) \/ (to < p /\ q = p + length ins - (to - from))).
  { intros p I. destruct (Ln p I) as [l Hl]. apply line_below in Hl. rewrite (map_pos_goes _ (v_text v)) by (try apply replace_fits; try assumption; lia). apply replace_goes; try assumption. lia. }
  split.
  - intros (p & I & K). specialize (G p I). destruct (map_pos (replace (v_text v) from to ins) p 0 0) as [q0|]; [|destruct K]. destruct K as [->|[]].
    destruct (proj1 G eq_refl) as [[L ->]|H]; [auto|right; eauto].
  - intros [[I L]|(p & I & H)]; [exists q|exists p]; (split; [exact I|]); rewrite (proj2 (G _ I)); auto; left; reflexivity.
Qed.

(** C124. A replacement of the text from [from] to [to]: lines that begin at or before it stay hidden, lines that begin behind it move with
    the text, a line whose break is in it is shown from then on, and no line that begins in the new text is hidden. *)
Theorem C124_edit t es from to ins v v' : Fitting t es -> v = after t es -> from <= to -> to <= length (v_text v) ->
  v' = after t (es ++ [Change (replace (v_text v) from to ins)]) ->
  v_text v' = firstn from (v_text v) ++ ins ++ skipn to (v_text v) /\
  forall q, In q (v_hidden v') <-> (In q (v_hidden v) /\ q <= from) \/ exists p, In p (v_hidden v) /\ to < p /\ q = p + length ins - (to - from).
Proof. intros F -> A B ->. exact (proj2 (edit_spec t es from to ins F A B)). Qed.

(** C124. An edit before or behind a hidden line, and its break, leaves this line as it is, and hidden. *)
Theorem C124_untouched t es from to ins v v' p l : Fitting t es -> v = after t es -> from <= to -> to <= length (v_text v) ->
  v' = after t (es ++ [Change (replace (v_text v) from to ins)]) ->
  Line (v_text v) p l -> In p (v_hidden v) -> to < p \/ p + length l < from ->
  exists q, Line (v_text v') q l /\ In q (v_hidden v').
Proof.
  intros F -> A B -> (b & a & E & L & N & Hb & Ha) I H. destruct (edit_spec t es from to ins F A B) as (_ & T & K). cbv zeta in *. set (v := after t es) in *. rewrite T. clear T.
  destruct H as [H|H].
  - exists (p + length ins - (to - from)). split; [|apply K; right; eauto].
    destruct Hb as [->|[b' ->]]; [cbn in L; lia|]. rewrite app_length in L. cbn in L.
    assert (S1 : skipn to (v_text v) = skipn to b' ++ 10 :: l ++ a).
    { rewrite E, <- app_assoc, skipn_app. replace (to - length b') with 0 by lia. reflexivity. }
    assert (F1 : firstn from (v_text v) = firstn from b') by (rewrite E, <- app_assoc, firstn_app; replace (from - length b') with 0 by lia; apply app_nil_r).
    rewrite S1, F1. exists ((firstn from b' ++ ins ++ skipn to b') ++ [10]), a. split; [rewrite <- !app_assoc; reflexivity|]. split; [|eauto].
    rewrite !app_length, firstn_length, skipn_length. cbn. lia.
  - exists p. split; [|apply K; left; split; [exact I|lia]].
    destruct Ha as [->|[a' ->]].
    + rewrite app_nil_r in E. rewrite E, app_length in B. lia.
    + assert (F1 : firstn from (v_text v) = b ++ l ++ 10 :: firstn (from - length b - length l - 1) a').
      { rewrite E, firstn_app, (firstn_all2 b) by lia. f_equal. rewrite firstn_app, (firstn_all2 l) by lia. f_equal. replace (from - length b - length l) with (S (from - length b - length l - 1)) at 1 by lia. reflexivity. }
      rewrite F1. eexists b, _. split; [rewrite <- !app_assoc; reflexivity|]. split; [exact L|]. split; [exact N|]. split; [exact Hb|]. right. eexists. reflexivity.
Qed.

(** C124, that hidden lines stay hidden and nothing else is hidden: a line [x] that is written in front of a hidden line is hidden instead of it. *)
Theorem C124_before_refuted t es v v' p l x : Fitting t es -> v = after t es -> Line (v_text v) p l -> In p (v_hidden v) -> ~ In 10 x ->
  v' = after t (es ++ [Change (replace (v_text v) p p (x ++ [10]))]) ->
  Line (v_text v') p x /\ In p (v_hidden v') /\ Line (v_text v') (p + length x + 1) l /\ ~ In (p + length x + 1) (v_hidden v').
Proof.
  intros F -> (b & a & E & L & N & Hb & Ha) I X ->. destruct (edit_spec t es p p (x ++ [10]) F) as (_ & T & K); [lia|rewrite E, app_length; lia|]. cbv zeta in *. set (v := after t es) in *.
  assert (T' : v_text (after t (es ++ [Change (replace (v_text v) p p (x ++ [10]))])) = b ++ (x ++ [10]) ++ l ++ a).
  { rewrite T, E. rewrite <- L at 1 2. rewrite firstn_app, Nat.sub_diag, firstn_all, firstn_O, app_nil_r, skipn_app, skipn_all, Nat.sub_diag. reflexivity. }
  rewrite T'. clear T T'. split; [|split; [|split]].
  - exists b, (10 :: l ++ a). split; [rewrite <- app_assoc; reflexivity|]. split; [exact L|]. split; [exact X|]. split; [exact Hb|eauto].
  - apply K. left. auto.
  - exists (b ++ x ++ [10]), a. split; [rewrite <- !app_assoc; reflexivity|]. split; [rewrite !app_length; cbn; lia|]. split; [exact N|]. split; [|exact Ha]. right. exists (b ++ x). apply app_assoc.
  - intros Q. apply K in Q as [[_ Q]|(p' & _ & Q1 & Q2)]; [lia|]. rewrite app_length in Q2. cbn in Q2. lia.
Qed.

(** C124, that undoing an edit restores the page: when the break in front of a hidden line is deleted and then put back, the text is as before and the line
    is not hidden any more. *)
Theorem C124_undo_refuted t es v v' v'' p : Fitting t es -> v = after t es -> In (S p) (v_hidden v) ->
  v' = after t (es ++ [Change (replace (v_text v) p (S p) [])]) ->
  v'' = after t (es ++ [Change (replace (v_text v) p (S p) [])] ++ [Change (replace (v_text v') p p [10])]) ->
  v_text v'' = v_text v /\ ~ In (S p) (v_hidden v'').
Proof.
  intros F -> I -> ->. set (v := after t es). destruct (C124_hidden t es F) as [Ln _]. fold v in Ln. destruct (Ln _ I) as [l Hl].
  assert (B : S p <= length (v_text v)) by (apply line_below in Hl; lia).
  assert (C : nth_error (v_text v) p = Some 10).
  { destruct (proj1 (line_iff (v_text v) (S p))) as [Q|(p' & [= <-] & Q)]; [eauto|discriminate Q|exact Q]. }
  destruct (edit_spec t es p (S p) [] F) as (F1 & T1 & K1); [lia|exact B|]. cbv zeta in *. fold v in F1, T1, K1. set (es1 := es ++ [Change (replace (v_text v) p (S p) [])]) in *. set (v1 := after t es1) in *.
  apply nth_error_split in C as (b & a & E & L).
  assert (T1' : v_text v1 = b ++ a).
  { rewrite T1, E, <- L, firstn_app, Nat.sub_diag, firstn_all, firstn_O, app_nil_r. cbn [List.app]. change (b ++ 10 :: a) with (b ++ [10] ++ a). rewrite app_assoc.
    replace (S (length b)) with (length (b ++ [10])) by (rewrite app_length; cbn; lia). rewrite skipn_app, skipn_all, Nat.sub_diag. reflexivity. }
  destruct (edit_spec t es1 p p [10] F1) as (_ & T2 & K2); [lia|fold v1; rewrite T1', app_length; lia|]. cbv zeta in *. fold v1 in T2, K2. rewrite app_assoc. fold es1. split.
  - rewrite T2, T1', E, <- L, firstn_app, Nat.sub_diag, firstn_all, firstn_O, app_nil_r, skipn_app, skipn_all, Nat.sub_diag. reflexivity.
  - intros Q. apply K2 in Q as [[_ Q]|(p' & Q & Q1 & Q2)]; [lia|]. cbn [length] in Q2. assert (p' = p) by lia. lia.
Qed.

Module Demo124.
  (** [use a;] is hidden; the reader writes in front of the last line, then behind the first. *)
  Definition t : list nat := [117; 10; 120; 10; 121].
  Definition es : list event := [Hide 1; Hide 2; Change (replace t 4 4 [97; 10])].
  Example C124_witness : Fitting t es /\ v_hidden (after t es) = [0; 2] /\ Line (v_text (after t es)) 2 [120].
  Proof. split; [cbn; repeat split|]. split; [reflexivity|]. exists [117; 10], [10; 97; 10; 121]. repeat split; [cbn; intuition discriminate|right; exists [117]; reflexivity|right; eexists; reflexivity]. Qed.
  Example C124_witness_before : v_hidden (after t (es ++ [Change (replace (v_text (after t es)) 2 2 [122; 10])])) = [0; 2] /\ v_text (after t (es ++ [Change (replace (v_text (after t es)) 2 2 [122; 10])])) = [117; 10; 122; 10; 120; 10; 97; 10; 121].
  Proof. split; reflexivity. Qed.
End Demo124.

Print Assumptions C124_hidden.
Print Assumptions C124_edit.
Print Assumptions C124_untouched.
Print Assumptions C124_before_refuted.
Print Assumptions C124_undo_refuted.
