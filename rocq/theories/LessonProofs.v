(** * Proofs about marked programs *)
From Coq Require Import Ascii String.
From Coq Require Import List Arith Bool ZArith Lia.
From Verif Require Import Base BookModel BookSpec RunModel EmbedModel LessonModel LessonSpec.
From Verif Require EditorModel EditorSpec FrontSpec ValuesModel PropBook.
Import ListNotations.
Local Open Scope list_scope.

(** ** The document *)

Lemma lines_in_spec s : forall cur, ~ In 10 cur -> ~ In 13 cur -> ~ In 13 s ->
  exists ls last, lines_in cur s = ls ++ [last] /\ EditorSpec.text_before ls last = rev cur ++ s /\ Forall (fun l => ~ In 10 l /\ ~ In 13 l) (lines_in cur s).
Proof.
  induction s as [|c s IH]; intros cur N10 N13 NS; cbn [lines_in].
  - exists [], (rev cur). split; [reflexivity|]. split; [cbn; rewrite app_nil_r; reflexivity|]. constructor; [|constructor]. rewrite <- !in_rev. auto.
  - assert (NS' : ~ In 13 s) by (intros I; apply NS; right; exact I).
    destruct (Nat.eqb_spec c 10) as [->|C10].
    + destruct (IH []) as (ls & last & E & T & F); [intros []|intros []|exact NS'|]. exists (rev cur :: ls), last. rewrite E. split; [reflexivity|]. split.
      * unfold EditorSpec.text_before in *. cbn [flat_map]. rewrite <- !app_assoc. cbn [rev] in T. rewrite T. reflexivity.
      * rewrite <- E. constructor; [|exact F]. rewrite <- !in_rev. auto.
    + destruct (Nat.eqb_spec c 13) as [->|C13]; [elim NS; left; reflexivity|].
      destruct (IH (c :: cur)) as (ls & last & E & T & F); [intros [H|H]; auto|intros [H|H]; auto|exact NS'|]. exists ls, last. split; [exact E|]. split; [|exact F].
      rewrite T. cbn [rev]. rewrite <- app_assoc. reflexivity.
Qed.

Lemma text_of_spec c : ~ In 13 c -> InEditor c (text_of c).
Proof. intros N. destruct (lines_in_spec c [] (fun x => x) (fun x => x) N) as (ls & last & E & T & F). exists ls, last. auto. Qed.

Lemma unix_lines s t : Unix s t -> forall cur, lines_in cur s = lines_in cur t.
Proof.
  induction 1 as [|s t U IH|s t U IH N|c s t N U IH]; intros cur; cbn [lines_in].
  - reflexivity.
  - cbn. rewrite IH. reflexivity.
  - cbn. destruct s as [|d s']; [rewrite IH; reflexivity|]. destruct (Nat.eqb_spec d 10) as [->|]; [elim (N s'); reflexivity|]. rewrite IH. reflexivity.
  - destruct (c =? 10); [rewrite IH; reflexivity|]. destruct (Nat.eqb_spec c 13); [congruence|]. apply IH.
Qed.

Lemma unix_clean s t : Unix s t -> ~ In 13 t.
Proof. induction 1; intros I; cbn [In] in I; firstorder; discriminate. Qed.

Lemma unix_total n : forall s, length s <= n -> exists t, Unix s t.
Proof.
  induction n as [|n IH]; intros [|c s] L; cbn [length] in L; try lia; try (exists []; constructor).
  destruct (Nat.eq_dec c 13) as [->|N].
  - destruct s as [|d s'].
    + exists [10]. apply Unix_cr; [constructor|]. discriminate.
    + destruct (Nat.eq_dec d 10) as [->|D].
      * destruct (IH s') as [t U]; [cbn [length] in L; lia|]. exists (10 :: t). apply Unix_crlf, U.
      * destruct (IH (d :: s')) as [t U]; [lia|]. exists (10 :: t). apply Unix_cr; [exact U|]. intros u E. congruence.
  - destruct (IH s) as [t U]; [lia|]. exists (c :: t). apply Unix_other; assumption.
Qed.

(** ** Marks *)

Lemma interp_texts (marks : list mark) :
  flat_map (fun '(n, t, k, i) => match k with Interp => [blen t] | _ => [] end) marks =
  map blen (map (fun m => snd (fst (fst m))) (filter (fun m => match snd (fst m) with Interp => true | _ => false end) marks)).
Proof. induction marks as [|[[[n t] k] i] l IH]; [reflexivity|]. cbn [flat_map filter fst snd]. destruct k; cbn [List.app map fst snd]; rewrite IH; reflexivity. Qed.

Lemma authored content r b : In (r, b) (parse_all content) -> exists ts, Authored content r (code b) ts /\
  state_locations (annotations b) = map blen ts /\ forall t, In t ts -> exists u, code b = t ++ u.
Proof.
  intros I. destruct (PropBook.C43_ranges content r b I) as (text & A & B). inversion B as [ops opts otexts raw head c a O1 O2 O3 Eh Rw Fe Pa Et Eb]; subst.
  destruct (PropBook.C41_positions_partial (trim raw)) as (outs & marks & D & Ec & Es & Pf). rewrite Pa in Ec, Es, Pf. cbn [fst snd] in Ec, Es, Pf.
  exists (map (fun m => snd (fst (fst m))) (filter (fun m => match snd (fst m) with Interp => true | _ => false end) marks)). split; [|split].
  - exists (join [43] ops ++ concat (map (cons 44) otexts)), raw, (trim raw), (lines (trim raw)), outs, marks.
    split; [exact A|]. split; [apply PropBook.C43_trim|]. split; [apply PropBook.C41_source_lines; reflexivity|]. split; [exact D|]. split; [exact Ec|reflexivity].
  - cbn [annotations]. rewrite Es. apply interp_texts.
  - intros t It. apply in_map_iff in It as ([[[n t'] k] i] & <- & It). apply filter_In in It as [It _]. exact (Pf n t' k i It).
Qed.

Lemma char_sizes c : (c < 128 -> length (ValuesModel.utf8 c) = length (FrontSpec.utf16 c)) /\ (128 <= c -> length (FrontSpec.utf16 c) < length (ValuesModel.utf8 c)).
Proof.
  unfold ValuesModel.utf8, FrontSpec.utf16. destruct (c <? 128) eqn:A; [apply Nat.ltb_lt in A|apply Nat.ltb_ge in A].
  - assert (B : c < 256 * 256) by lia. apply Nat.ltb_lt in B. rewrite B. split; [reflexivity|lia].
  - split; [lia|]. intros _. destruct (c <? 2048) eqn:B; [apply Nat.ltb_lt in B|].
    + assert (D : c < 256 * 256) by lia. apply Nat.ltb_lt in D. rewrite D. cbn [length]. lia.
    + destruct (c <? 256 * 256); cbn [length]; lia.
Qed.

Lemma bytes_units t : EditorSpec.position_after t <= blen t /\ (blen t = EditorSpec.position_after t <-> Ascii t).
Proof.
  unfold EditorSpec.position_after, blen. induction t as [|c t [L E]]; cbn [flat_map].
  - split; [lia|]. split; [constructor|reflexivity].
  - rewrite !app_length. destruct (char_sizes c) as [A B]. destruct (Nat.lt_ge_cases c 128) as [C|C].
    + rewrite (A C). split; [lia|]. split.
      * intros H. constructor; [exact C|]. apply E. lia.
      * intros H. inversion H; subst. apply E in H3. lia.
    + specialize (B C). split; [lia|]. split; [lia|]. intros H. inversion H; subst. lia.
Qed.

Lemma blen_app a b : blen (a ++ b) = blen a + blen b.
Proof. unfold blen. rewrite flat_map_app, app_length. reflexivity. Qed.
