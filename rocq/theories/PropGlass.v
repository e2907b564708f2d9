(** * C122: the switch between the short and the full form of values *)
From Coq Require Import Ascii String.
From Coq Require Import List Arith Bool Lia.
From Verif Require Import Base BookModel RunModel EmbedModel FrontModel FrontSpec EmbedSpec GlassModel GlassSpec GlassProofs.
From Verif Require PropFront BuildSpec.
Import ListNotations.
Local Open Scope list_scope.

Lemma after_snoc steps works options es e : after steps works options (es ++ [e]) = on_event steps works e (after steps works options es).
Proof. unfold after. rewrite fold_left_app. reflexivity. Qed.
Lemma clicks_app a b : clicks (a ++ b) = clicks a + clicks b.
Proof. induction a as [|[] a IH]; cbn [clicks List.app]; rewrite ?IH; reflexivity. Qed.
Lemma after_good steps works options es : Good steps works (after steps works options es).
Proof.
  induction es as [|e es IH] using rev_ind; [apply start_good|]. rewrite after_snoc. apply event_spec, IH.
Qed.
Lemma inside_nil : ~ Inside [].
Proof. intros (a & b & E & _). destruct a; discriminate E. Qed.
Lemma inside_snoc es e : Inside (es ++ [e]) <-> match e with Enter => True | Leave => False | Click => Inside es end.
Proof.
  split.
  - intros (a & b & E & N). destruct b as [|x b _] using rev_ind.
    + apply app_inj_tail in E as [_ ->]. exact Logic.I.
    + rewrite app_comm_cons, app_assoc in E. apply app_inj_tail in E as [-> ->]. destruct x; [exact Logic.I| |].
      * apply N, in_app_iff. right. left. reflexivity.
      * exists a, b. split; [reflexivity|]. intros Q. apply N, in_app_iff. left. exact Q.
  - destruct e; [intros _|intros []|intros (a & b & -> & N)].
    + exists es, []. split; [reflexivity|]. intros [].
    + exists a, (b ++ [Click]). split; [rewrite <- app_assoc; reflexivity|]. intros Q. apply in_app_iff in Q as [Q|[Q|[]]]; [exact (N Q)|discriminate Q].
Qed.

Lemma history steps works options es :
  match shown (after steps works options es) with
  | Removed => interpreter_view (first_form options) steps = None \/ (0 < clicks es /\ interpreter_view (negb (first_form options)) steps = None)
  | Mounted c v t ps => c = xorb (first_form options) (Nat.odd (clicks es)) /\ (v = true <-> Inside es) /\
      interpreter_view (first_form options) steps <> None /\ (0 < clicks es -> interpreter_view (negb (first_form options)) steps <> None)
  end.
Proof.
  induction es as [|e es IH] using rev_ind.
  - unfold after, start. cbn [fold_left].
    destruct (pass_good steps works (first_form options) false 0 (map (fun _ => []) steps)) as [_ P]; [apply map_length|intros b I; apply in_map_iff in I as (s & <- & _); reflexivity|].
    destruct (interpreter_view (first_form options) steps) eqn:E.
    + destruct P as [ps ->]. cbn [clicks Nat.odd]. rewrite xorb_false_r. repeat split; try discriminate; try (cbn; lia). intros Q. destruct (inside_nil Q).
    + rewrite P. left. reflexivity.
  - rewrite after_snoc. destruct (event_spec steps works e _ (after_good steps works options es)) as [_ H].
    destruct (shown (after steps works options es)) as [c v t ps|] eqn:E.
    + destruct IH as (Hc & Hv & F & S1). cbv zeta in H. destruct H as [H0 H1]. rewrite clicks_app.
      assert (K : match e with Click => negb c | _ => c end = xorb (first_form options) (Nat.odd (clicks es + clicks [e]))).
      { rewrite Nat.odd_add, Hc. destruct e; cbn [clicks]; rewrite ?xorb_false_r; try reflexivity. destruct (first_form options), (Nat.odd (clicks es)); reflexivity. }
      rewrite K in H0, H1. set (c' := xorb (first_form options) (Nat.odd (clicks es + clicks [e]))) in *.
      assert (Q : c' = first_form options \/ (0 < clicks es + clicks [e] /\ c' = negb (first_form options))).
      { unfold c'. destruct (clicks es + clicks [e]) as [|n] eqn:En; [left; cbn; apply xorb_false_r|]. destruct (Nat.odd (S n)); [right; split; [lia|apply xorb_true_r]|left; apply xorb_false_r]. }
      destruct (interpreter_view c' steps) as [ds|] eqn:Ed.
      * destruct H1 as (t' & ps' & ->); [discriminate|]. split; [reflexivity|]. split; [|split; [exact F|]].
        -- rewrite inside_snoc. destruct e; [tauto| |exact Hv]. split; [discriminate|intros []].
        -- intros L. destruct (clicks es) as [|n] eqn:En; [|apply S1; lia]. destruct e; cbn [clicks] in L; try lia.
           assert (C : c' = negb (first_form options)) by (unfold c'; cbn; apply xorb_true_r). rewrite <- C, Ed. discriminate.
      * rewrite H0 by reflexivity. destruct Q as [Q|[Q1 Q2]]; [left; congruence|right; split; [exact Q1|congruence]].
    + rewrite H, E. destruct IH as [IH|[L IH]]; [left; exact IH|right]. rewrite clicks_app. split; [lia|exact IH].
Qed.

(** C122. After any clicks and movements of the pointer, the page has every state of the trace, drawn in the form that the option and the number of
    clicks give, with the arrows of this form and no others: none is left of an earlier form, none is lost outside the states.
    The button can be seen when the pointer is in the view. *)
Theorem C122_shows steps works options es w c v t ps :
  w = after steps works options es -> shown w = Mounted c v t ps ->
  c = xorb (first_form options) (Nat.odd (clicks es)) /\ (v = true <-> Inside es) /\ body w = [] /\
  exists ds, interpreter_view c steps = Some ds /\ length ds = length steps /\ Showing works t ds ps.
Proof.
  intros -> E. pose proof (history steps works options es) as H. rewrite E in H. destruct H as (A & B & _).
  destruct (after_good steps works options es) as [G1 G2]. rewrite E in G2. destruct G2 as (ds & D1 & D2 & _).
  split; [exact A|]. split; [exact B|]. split; [exact G1|]. exists ds. split; [exact D1|]. split; [apply (view_nodup _ _ _ D1)|exact D2].
Qed.

(** C122. The view disappears exactly if one of the forms that were asked for cannot be drawn, and then it leaves no arrow behind. *)
Theorem C122_gone steps works options es w : w = after steps works options es ->
  (shown w = Removed <->
   interpreter_view (first_form options) steps = None \/ (0 < clicks es /\ interpreter_view (negb (first_form options)) steps = None)) /\
  body w = [].
Proof.
  intros ->. split; [|apply after_good]. pose proof (history steps works options es) as H.
  destruct (shown (after steps works options es)) as [c v t ps|]; [|split; auto]. destruct H as (_ & _ & A & B). split; [discriminate|]. intros [C|[L C]]; [contradiction|]. destruct (B L C).
Qed.

(** C122. If both forms can be drawn, the view never disappears; and after an even number of further clicks, all states stand there as before. *)
Theorem C122_back steps works options es es' :
  (forall c s, In s steps -> step_view c s <> None) -> Nat.even (clicks es') = true ->
  exists c v t ps v' t' ps', shown (after steps works options es) = Mounted c v t ps /\ shown (after steps works options (es ++ es')) = Mounted c v' t' ps' /\
    map p_items ps' = map p_items ps.
Proof.
  intros D Ev.
  assert (V : forall c, interpreter_view c steps <> None).
  { intros c. unfold interpreter_view. revert D. generalize steps as l. induction l as [|s l IH]; intros D; cbn [map all_some]; [discriminate|].
    destruct (step_view c s) eqn:E; [|destruct (D c s (or_introl eq_refl) E)]. destruct (all_some (map (step_view c) l)) eqn:Er; [discriminate|].
    exfalso. apply IH; [|reflexivity]. intros c' s' I. apply D. right. exact I. }
  assert (M : forall e, exists c v t ps, shown (after steps works options e) = Mounted c v t ps).
  { intros e. destruct (shown (after steps works options e)) as [c v t ps|] eqn:E; [eauto 6|].
    destruct (C122_gone steps works options e _ eq_refl) as [[G _] _]. destruct (G E) as [Q|[_ Q]]; destruct (V _ Q). }
  destruct (M es) as (c & v & t & ps & E). destruct (M (es ++ es')) as (c' & v' & t' & ps' & E').
  destruct (C122_shows steps works options es _ c v t ps eq_refl E) as (A & _ & _ & ds & I & _ & L & P).
  destruct (C122_shows steps works options (es ++ es') _ c' v' t' ps' eq_refl E') as (A' & _ & _ & ds' & I' & _ & L' & P').
  assert (Q : c' = c).
  { rewrite A', A, clicks_app, Nat.odd_add. rewrite <- (Nat.negb_even (clicks es')), Ev. cbn. rewrite xorb_false_r. reflexivity. }
  subst c'. exists c, v, t, ps, v', t', ps'. split; [exact E|]. split; [rewrite E', Q; reflexivity|].
  assert (Qd : ds' = ds) by congruence. subst ds'.
  assert (K : forall qs tt, length qs = length ds -> (forall k p d, nth_error qs k = Some p -> nth_error ds k = Some d -> p_items p = fst d /\ Arrows works tt k (snd d) (p_box p)) -> map p_items qs = map fst ds).
  { clear. intros qs tt L H. assert (H' : forall k p d, nth_error qs k = Some p -> nth_error ds k = Some d -> p_items p = fst d) by (intros k p d A B; apply (H k p d A B)).
    clear H. revert ds L H'. induction qs as [|q qs IH]; intros [|d ds] L H'; try discriminate L; [reflexivity|]. cbn [map]. f_equal; [apply (H' 0 q d); reflexivity|].
    apply IH; [cbn in L; lia|]. intros k p d' A B. exact (H' (S k) p d' A B). }
  rewrite (K ps' t' L' P'), (K ps t L P). reflexivity.
Qed.

(** C122. The full form is first shown if the last option of the block with the name [concreteTypes] has a text that is not empty. *)
Theorem C122_option_partial b m e : BuildSpec.Shows b m e ->
  (first_form (page_options e) = true <-> exists v, v <> [] /\ LastOption (options b) (lit "concreteTypes") v).
Proof.
  intros Sh. pose proof (fun v => BuildSpec.shows_options _ _ _ Sh (lit "concreteTypes") v) as K. unfold first_form.
  destruct (aget str_eqd (page_options e) (lit "concreteTypes")) as [v|].
  - destruct v as [|x v].
    + split; [discriminate|]. intros (v' & N & L). apply K in L. congruence.
    + split; [|reflexivity]. intros _. exists (x :: v). split; [discriminate|]. apply K. reflexivity.
  - split; [discriminate|]. intros (v' & N & L). apply K in L. discriminate L.
Qed.

(** C122, that the option says which form is shown first: [concreteTypes=false] shows the full form. *)
Theorem C122_option_refuted b m e : BuildSpec.Shows b m e ->
  LastOption (options b) (lit "concreteTypes") (lit "false") -> first_form (page_options e) = true.
Proof. intros Sh L. apply (C122_option_partial b m e Sh). exists (lit "false"). split; [discriminate|exact L]. Qed.

(** C122, that the button only changes the form: if the states can be drawn in the first form only, the first click removes all of them, and no click
    brings them back. *)
Theorem C122_click_refuted steps works options es : interpreter_view (negb (first_form options)) steps = None -> In Click es ->
  shown (after steps works options es) = Removed.
Proof.
  intros N I. apply (C122_gone steps works options es _ eq_refl). right. split; [|exact N].
  induction es as [|e es IH]; [destruct I|]. destruct I as [->|I]; [cbn; lia|]. specialize (IH I). destruct e; cbn [clicks]; lia.
Qed.

Module Glass.
  Import PropFront.
  Definition opts (v : string) : list (str * str) := [(lit "concreteTypes", lit v)].
  (** Two states; the second arrow of the first state fails in the first pass. *)
  Definition ok (t k : nat) (a : arrow) : bool := negb (Nat.eqb t 0 && Nat.eqb k 0 && Nat.eqb (a_src a) 1).
  Example C122_witness : exists c v t ps,
    shown (after [Demo52.good; Demo52.good] ok [] [Enter; Click; Leave; Click; Click]) = Mounted c v t ps /\
    c = true /\ v = false /\ length ps = 2 /\ exists p, nth_error ps 1 = Some p /\ p_box p <> [].
  Proof. vm_compute. do 4 eexists. split; [reflexivity|]. repeat split. eexists. split; [reflexivity|]. discriminate. Qed.
  Example C122_witness_gone : shown (after [Demo52.good; Demo52.field] ok (opts "false") [Enter; Leave]) <> Removed /\
    shown (after [Demo52.good; Demo52.field] ok (opts "false") [Enter; Click; Click]) = Removed.
  Proof. split; [vm_compute; discriminate|vm_compute; reflexivity]. Qed.
  Example C122_witness_forms : forall c, interpreter_view c [Demo52.good; Demo52.good] <> None.
  Proof. intros []; vm_compute; discriminate. Qed.
End Glass.

Print Assumptions C122_shows.
Print Assumptions C122_gone.
Print Assumptions C122_back.
Print Assumptions C122_option_partial.
Print Assumptions C122_option_refuted.
Print Assumptions C122_click_refuted.
