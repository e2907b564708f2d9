(** * C86, C87: states are shown at their statements; how an execution ended *)
From Coq Require Import List Arith Bool Lia.
From Verif Require Import Base CfgModel CfgSpec CfgProofs TraceModel TraceSpec TraceProofs PropCfg TraceMachine PropTrace
  MapperModel MapperSpec.
Import ListNotations.

(** ** C23: a location belongs to one node *)

Lemma gather_entry bd ic hir_of id ls l :
  In (id, ls) (gather bd ic hir_of) -> (In l ls <-> Gathered bd ic l /\ hir_of l = id).
Proof.
  intros I. assert (ND : NoDup (akeys (gather bd ic hir_of))) by (apply record_fold_keys; constructor).
  pose proof (gather_iff bd ic hir_of id l) as G.
  rewrite (In_aget _ _ Nat.eq_dec _ _ _ ND I) in G. exact G.
Qed.

(** The check that a debug build makes never fails. *)
Theorem C23_check_passes :
  forall bd ignore_cleanup hir_of, check_invariants (gather bd ignore_cleanup hir_of) = true.
Proof.
  intros bd ic hir_of. unfold check_invariants. apply forallb_forall. intros [h1 s1] I1.
  apply negb_true_iff. apply not_true_iff_false. intros X. apply existsb_exists in X as ([h2 s2] & I2 & X).
  cbn [fst snd] in X. apply andb_true_iff in X as [N X]. apply existsb_exists in X as (l & L1 & L2).
  apply negb_true_iff, Nat.eqb_neq in N. apply memb_In in L2.
  apply (gather_entry _ _ _ _ _ l I1) in L1. apply (gather_entry _ _ _ _ _ l I2) in L2.
  destruct L1 as [_ <-], L2 as [_ <-]. auto.
Qed.
Print Assumptions C23_check_passes.

(** ** C86 *)

Lemma steppable_iff f n : In n (steppable (fn_value f)) <-> Statement f n.
Proof.
  unfold Statement. destruct (fn_value f) as [ss t|]; cbn [steppable].
  - rewrite in_app_iff. split.
    + intros [I|I]; exists ss, t; split; auto. destruct t as [e|]; [destruct I as [->|[]]; auto|destruct I].
    + intros (ss' & t' & [= <- <-] & [I| ->]); auto. right. cbn. auto.
  - split; [intros []|]. intros (ss & t & E & _). discriminate.
Qed.

Lemma node_pairs_iff f id l n :
  In (l, n) (node_pairs f id) <->
  n = id /\ ValidLoc (fn_body f) l /\ Operational (fn_body f) l /\ Within f (fn_hir f l) id.
Proof.
  unfold node_pairs, Within.
  assert (At : forall x, In x (node_locations (gather (fn_body f) false (fn_hir f)) (fn_parents f) id Nested) <->
    ValidLoc (fn_body f) x /\ (fn_hir f x = id \/ In id (fn_parents f (fn_hir f x)))).
  { intros x. rewrite C23_gathered. unfold Gathered. split.
    - intros [[V _] [E|[_ E]]]; auto.
    - intros [V [E|E]]; (split; [split; [auto|discriminate]|auto]). }
  destruct (get_mir_locations _ _ _) as [m|] eqn:G.
  - destruct (get_mir_locations_shape _ _ _ _ (fun x I => proj1 (proj1 (At x) I)) G) as (_ & _ & Vals & _).
    rewrite in_map_iff. split.
    + intros (x & [= -> <-] & I). apply Vals in I as [I O]. apply At in I as [V W]. auto.
    + intros (-> & V & O & W). exists l. split; auto. apply Vals. split; auto. apply At. auto.
  - split; [intros []|]. intros (_ & V & _ & W). exfalso.
    assert (I : In l (node_locations (gather (fn_body f) false (fn_hir f)) (fn_parents f) id Nested)) by (apply At; auto).
    unfold get_mir_locations in G. destruct (node_locations _ _ _ _); [destruct I|discriminate].
Qed.

Lemma collect_map (ps : list (loc * nat)) : forall m l n,
  aget loc_eqd (fold_left (fun m p => aset loc_eqd m (fst p) (snd p)) ps m) l = Some n ->
  In (l, n) ps \/ aget loc_eqd m l = Some n.
Proof.
  induction ps as [|[k v] ps IH]; cbn [fold_left fst snd]; intros m l n H; auto.
  apply IH in H as [H|H]; [left; right; auto|]. rewrite aget_aset in H.
  destruct (loc_eqd l k) as [->|N]; auto. injection H as ->. left. left. auto.
Qed.

Lemma collect_map_some (ps : list (loc * nat)) : forall m l,
  (exists n, In (l, n) ps) \/ aget loc_eqd m l <> None ->
  aget loc_eqd (fold_left (fun m p => aset loc_eqd m (fst p) (snd p)) ps m) l <> None.
Proof.
  induction ps as [|[k v] ps IH]; cbn [fold_left fst snd]; intros m l H.
  - destruct H as [(n & [])|H]; auto.
  - apply IH. destruct H as [(n & [[= -> ->]|I])|H]; [| |].
    + right. rewrite aget_aset_eq. discriminate.
    + left. eauto.
    + right. rewrite aget_aset. destruct (loc_eqd l k); [discriminate|auto].
Qed.

Lemma body_mapping_iff f l n : Order (fn_nodes f) -> Tree f ->
  (aget loc_eqd (body_mapping f) l = Some n <->
   ValidLoc (fn_body f) l /\ Operational (fn_body f) l /\ Statement f n /\ Within f (fn_hir f l) n).
Proof.
  intros O T. unfold body_mapping.
  assert (P : forall x, In (l, x) (flat_map (node_pairs f) (fn_nodes f (nodup Nat.eq_dec (steppable (fn_value f))))) <->
    ValidLoc (fn_body f) l /\ Operational (fn_body f) l /\ Statement f x /\ Within f (fn_hir f l) x).
  { intros x. rewrite in_flat_map. split.
    - intros (id & I & J). apply node_pairs_iff in J as (-> & V & Op & W). apply (O _), nodup_In, steppable_iff in I. auto.
    - intros (V & Op & St & W). exists x. split; [apply (O _), nodup_In, steppable_iff; auto|]. apply node_pairs_iff. auto. }
  split.
  - intros H. apply collect_map in H as [H|H]; [apply P; auto|discriminate].
  - intros H. pose proof (proj2 (P n) H) as I.
    destruct (aget loc_eqd (fold_left _ _ _) l) as [n'|] eqn:G.
    + pose proof G as G'. apply collect_map in G' as [G'|G']; [|discriminate]. apply P in G'. f_equal.
      destruct H as (_ & _ & S1 & W1), G' as (_ & _ & S2 & W2). apply (T (fn_hir f l)); auto.
    + exfalso. apply collect_map_some in G; auto. left. eauto.
Qed.

(** A location is shown where it should be, whatever the iteration orders. *)
Theorem C86_shown_iff :
  forall prog ml hl, (forall inst, Order (fn_nodes (prog inst)) /\ Tree (prog inst)) ->
    (abstract_loc prog ml = Some hl <-> ShownAs prog ml hl).
Proof.
  intros prog [inst [n|sp]] hl W; cbn [abstract_loc].
  - destruct (W inst) as [O T]. destruct (fn_span (prog inst) (fn_loc (prog inst) n) =? fn_brace (prog inst)) eqn:B.
    + apply Nat.eqb_eq in B. split; [intros [= <-]; constructor; auto|]. intros H. inversion H; subst; auto. contradiction.
    + apply Nat.eqb_neq in B. split.
      * destruct (aget loc_eqd _ _) as [s|] eqn:A; [|discriminate]. intros [= <-].
        apply (body_mapping_iff _ _ _ O T) in A as (V & Op & St & Wi). constructor; auto.
      * intros H. inversion H as [i n0 Es|i n0 s f0 l0 Ns V Op St Wi|]; subst; [contradiction|]. subst f0 l0.
        rewrite (proj2 (body_mapping_iff (prog inst) _ s O T)); auto.
  - split; [intros [= <-]; constructor|]. intros H. inversion H; subst; auto.
Qed.
Print Assumptions C86_shown_iff.

Lemma to_range_iff {R} (nr sr : nat -> nat -> option R) hl r : to_range nr sr hl = Some r <-> InText nr sr hl r.
Proof.
  destruct hl as [o [n|s]]; unfold to_range; cbn; split; intros H; try (constructor; auto; fail); inversion H; subst; auto.
Qed.

Lemma grouped_member {V H R L1 L2} eqd (f : L1 -> option L2) (t : mtrace V H R L1) t' s' :
  group_steps eqd f t = Some t' -> In s' (tr_steps t') -> exists s, In s (tr_steps t) /\ Abstracts f s s'.
Proof.
  intros G I. apply C34_groups_iff in G as (_ & kept & runs & K & E & _ & F).
  assert (J : In s' kept).
  { rewrite E. apply in_concat. clear - F I. induction F as [|run x runs l (e & ->) F IH]; [destruct I|].
    destruct I as [<-|I].
    - exists (e ++ [x]). split; [left; auto|apply in_app_iff; right; left; auto].
    - destruct (IH I) as (r & A & B). exists r. split; [right; auto|auto]. }
  clear - K J. induction K as [|s s0 l l' A K IH|s l l' N K IH]; [destruct J| |].
  - destruct J as [<-|J]; [exists s; cbn; auto|]. destruct (IH J) as (x & I & B). exists x. cbn. auto.
  - destruct (IH J) as (x & I & B). exists x. cbn. auto.
Qed.

Lemma Forall2_compose {A B C} (P : A -> B -> Prop) (Q : B -> C -> Prop) (W : A -> C -> Prop) l1 l2 l3 :
  (forall a b c, P a b -> Q b c -> W a c) -> Forall2 P l1 l2 -> Forall2 Q l2 l3 -> Forall2 W l1 l3.
Proof.
  intros K F. revert l3. induction F as [|a b la lb X F IH]; intros l3 G; inversion G; subst; constructor; eauto.
Qed.

(** Every shown state is one of the execution, each frame at the text of the
    statement that it executes. *)
Theorem C86_states_shown :
  forall V Res R (eqr : forall a b : R, {a = b} + {a <> b}) prog node_range span_range
      (t : mtrace V unit Res mirloc) t',
    (forall inst, Order (fn_nodes (prog inst)) /\ Tree (prog inst)) ->
    interpret hirloc_eqd eqr (abstract_loc prog) (to_range node_range span_range) t = Some t' ->
    tr_result t' = tr_result t /\
    forall s', In s' (tr_steps t') -> exists s, In s (tr_steps t) /\ Depicts prog node_range span_range s s'.
Proof.
  intros V Res R eqr prog nr sr t t' W H. unfold interpret in H.
  destruct (group_steps hirloc_eqd (abstract_loc prog) t) as [t1|] eqn:G1; [|discriminate].
  split.
  - apply C34_groups_iff in G1 as [E1 _], H as [E2 _]. congruence.
  - intros s' I. destruct (grouped_member _ _ _ _ _ H I) as (s1 & I1 & [_ A1]).
    destruct (grouped_member _ _ _ _ _ G1 I1) as (s & I0 & [_ A0]). exists s. split; auto. unfold Depicts.
    apply (Forall2_compose _ _ _ _ _ _ (fun a b c P Q => conj (eq_trans (proj1 Q) (proj1 P))
      (ex_intro _ (f_loc b) (conj (proj1 (C86_shown_iff prog _ _ W) (proj2 P)) (proj1 (to_range_iff nr sr _ _) (proj2 Q))))) A0 A1).
Qed.
Print Assumptions C86_states_shown.

Lemma Keeps_Kept {V L1 L2} (f : L1 -> option L2) (shown : L1 -> L2 -> Prop) :
  (forall a b, f a = Some b <-> shown a b) ->
  forall (l : list (mstep V unit L1)) l', Keeps shown l l' <-> Kept f l l'.
Proof.
  intros E l l'.
  assert (D : forall s : mstep V unit L1, (exists fr, In fr (m_frames s) /\ forall p, ~ shown (f_loc fr) p) <-> ~ Mappable f s).
  { intros s. split.
    - intros (fr & I & N) M. destruct (f (f_loc fr)) as [p|] eqn:Ef; [|apply (M fr I); auto]. apply (N p), E. auto.
    - intros N. unfold Mappable in N. induction (m_frames s) as [|fr frs IH]; [exfalso; apply N; intros x []|].
      destruct (f (f_loc fr)) as [p|] eqn:Ef.
      + destruct IH as (x & I & Nx).
        { intros M. apply N. intros y [<-|I]; [congruence|auto]. }
        exists x. split; [right; auto|auto].
      + exists fr. split; [left; auto|]. intros p X. apply E in X. congruence. }
  split; intros K; induction K as [|s s' l l' A K IH|s l l' N K IH]; try (constructor; auto; fail).
  - apply kept_keep; auto. split; [destruct (m_heap s), (m_heap s'); auto|].
    clear - A E. induction A as [|a b la lb [X Y] A IH]; constructor; auto. split; auto. apply E. auto.
  - apply kept_drop; auto. apply D. auto.
  - destruct A as [_ A]. apply keeps_keep; auto.
    clear - A E. induction A as [|a b la lb [X Y] A IH]; constructor; auto. split; auto. apply E. auto.
  - apply keeps_drop; auto. apply D. auto.
Qed.

Lemma Condensed_iff {V R L1 L2} eqd (f : L1 -> option L2) (shown : L1 -> L2 -> Prop) (t : mtrace V unit R L1) t' :
  (forall a b, f a = Some b <-> shown a b) ->
  (group_steps eqd f t = Some t' <-> tr_result t' = tr_result t /\ Condensed shown (tr_steps t) (tr_steps t')).
Proof.
  intros E. rewrite C34_groups_iff. unfold Condensed. split.
  - intros (Er & kept & runs & K & -> & Rn & F). split; auto. exists runs. split; auto. apply (Keeps_Kept f); auto.
  - intros (Er & runs & K & Rn & F). split; auto. exists (concat runs), runs. split; auto. apply (Keeps_Kept f shown); auto.
Qed.

(** What is shown, exactly: the states at statements of the user, condensed by statement and then
    by range of text. *)
Theorem C86_states_iff :
  forall V Res R (eqr : forall a b : R, {a = b} + {a <> b}) prog node_range span_range
      (t : mtrace V unit Res mirloc) t',
    (forall inst, Order (fn_nodes (prog inst)) /\ Tree (prog inst)) ->
    (interpret hirloc_eqd eqr (abstract_loc prog) (to_range node_range span_range) t = Some t' <->
     tr_result t' = tr_result t /\
     exists middle, Condensed (ShownAs prog) (tr_steps t) middle /\
       Condensed (InText node_range span_range) middle (tr_steps t')).
Proof.
  intros V Res R eqr prog nr sr t t' W. unfold interpret.
  pose proof (fun a b => C86_shown_iff prog a b W) as Sh. pose proof (to_range_iff nr sr) as Tx. split.
  - destruct (group_steps hirloc_eqd (abstract_loc prog) t) as [t1|] eqn:G1; [|discriminate]. intros G2.
    apply (Condensed_iff _ _ _ _ _ Sh) in G1 as [E1 C1]. apply (Condensed_iff _ _ _ _ _ Tx) in G2 as [E2 C2].
    split; [congruence|eauto].
  - intros (Er & mid & C1 & C2).
    rewrite (proj2 (Condensed_iff hirloc_eqd _ _ t (MTrace mid (tr_result t)) Sh)); [|auto].
    apply (Condensed_iff _ _ _ _ _ Tx). auto.
Qed.
Print Assumptions C86_states_iff.

(** If the text of everything shown is in the function it belongs to (no
    macros), a state all of whose frames are shown leaves a state at the same
    text.  Missing from the property: states with a frame that is nowhere. *)
Theorem C86_states_covered_partial :
  forall V Res R (eqr : forall a b : R, {a = b} + {a <> b}) prog node_range span_range
      (t : mtrace V unit Res mirloc) s outer fr,
    (forall inst, Order (fn_nodes (prog inst)) /\ Tree (prog inst)) ->
    (forall ml hl, ShownAs prog ml hl -> exists r, InText node_range span_range hl r) ->
    (forall s, In s (tr_steps t) -> m_frames s <> []) ->
    In s (tr_steps t) -> m_frames s = outer ++ [fr] ->
    (forall fr, In fr (m_frames s) -> exists hl, ShownAs prog (f_loc fr) hl) ->
    exists t' s' hl r, interpret hirloc_eqd eqr (abstract_loc prog) (to_range node_range span_range) t = Some t' /\
      In s' (tr_steps t') /\ ShownAs prog (f_loc fr) hl /\ InText node_range span_range hl r /\ At s' r.
Proof.
  intros V Res R eqr prog nr sr t s outer fr W Tx NE I Ef Sh.
  assert (Tx' : forall l l', abstract_loc prog l = Some l' -> to_range nr sr l' <> None).
  { intros l l' E. apply C86_shown_iff in E; auto. destruct (Tx _ _ E) as (r & Er). apply to_range_iff in Er. congruence. }
  rewrite (C34_two_passes_partial hirloc_eqd eqr (abstract_loc prog) (to_range nr sr) t Tx' NE).
  set (g := fun l => match abstract_loc prog l with Some l' => to_range nr sr l' | None => None end).
  destruct (proj2 (C34_total_iff eqr g t)) as (t' & G). { intros x J _. auto. }
  assert (Mp : Mappable g s).
  { intros x J. destruct (Sh x J) as (hl & A). apply C86_shown_iff in A; auto. unfold g. rewrite A. eapply Tx'; eauto. }
  pose proof G as G0. apply C34_groups_iff in G as (_ & kept & runs & K & E & Rn & F).
  assert (Ks : exists sk, In sk kept /\ Abstracts g s sk).
  { clear - K I Mp. induction K as [|x x' l l' A K IH|x l l' N K IH]; [destruct I| |].
    - destruct I as [->|I]; [exists x'; cbn; auto|]. destruct (IH I) as (sk & J & B). exists sk. cbn. auto.
    - destruct I as [->|I]; [contradiction|auto]. }
  destruct Ks as (sk & Ik & [_ Ab]). rewrite Ef in Ab.
  apply Forall2_app_inv_l in Ab as (lo & l1 & Fo & F1 & Esk). inversion F1 as [|a b la lb [_ Hb] F2]; subst. inversion F2; subst.
  assert (Atk : At sk (f_loc b)) by (exists lo, b; auto).
  destruct (Sh fr) as (hl & A). { rewrite Ef. apply in_app_iff. right. left. auto. }
  assert (A' := proj2 (C86_shown_iff prog _ _ W) A). unfold g in Hb. rewrite A' in Hb.
  apply in_concat in Ik as (run & Ir & Ik).
  assert (U : forall (x : mstep V unit R) p q, At x p -> At x q -> p = q).
  { intros x p q (o1 & f1 & E1 & <-) (o2 & f2 & E2 & <-). rewrite E1 in E2. apply app_inj_tail in E2 as [_ ->]. auto. }
  assert (X : exists s', In s' (tr_steps t') /\ At s' (f_loc b)).
  { assert (Al : forall x, In x run -> At x (f_loc b)).
    { clear - Rn Ir Ik Atk U. induction Rn as [|r0 l N Al|r0 l r' l' rest N Al Al' NE Rn IH]; [destruct Ir| |].
      - destruct Ir as [->|[]]. intros x J. rewrite (U sk _ _ Atk (Al sk Ik)). auto.
      - destruct Ir as [->|Ir]; [|auto]. intros x J. rewrite (U sk _ _ Atk (Al sk Ik)). auto. }
    clear - F Ir Al. induction F as [|r0 x runs l (e & ->) F IH]; [destruct Ir|]. destruct Ir as [<-|Ir].
    - exists x. split; [left; auto|]. apply Al, in_app_iff. right. left. auto.
    - destruct (IH Ir) as (s' & J & B). exists s'. split; [right; auto|auto]. }
  destruct X as (s' & Is' & As'). exists t', s', hl, (f_loc b). rewrite to_range_iff in Hb. auto.
Qed.
Print Assumptions C86_states_covered_partial.

Lemma filter_map_filter {A B} (f : A -> option B) (p : A -> bool) l :
  (forall x, In x l -> p x = false -> f x = None) -> filter_map f (filter p l) = filter_map f l.
Proof.
  induction l as [|x l IH]; cbn [filter filter_map]; intros N; auto.
  destruct (p x) eqn:P; cbn [filter_map].
  - rewrite IH; auto. intros y I. apply N. right; auto.
  - rewrite (N x (or_introl eq_refl) P). apply IH. intros y I. apply N. right; auto.
Qed.

(** Not all states are shown: nothing is shown of what happens while a closure
    whose body is not a block runs, in that closure or in whatever it calls.
    The trace is the same as if these states did not exist. *)
Theorem C86_expression_body_refuted :
  forall V Res R (eqr : forall a b : R, {a = b} + {a <> b}) prog node_range span_range
      (t : mtrace V unit Res mirloc) (seen : mstep V unit mirloc -> bool),
    (forall inst, Order (fn_nodes (prog inst))) ->
    (forall s, In s (tr_steps t) -> seen s = false -> exists fr, In fr (m_frames s) /\ InExpressionBody prog fr) ->
    interpret hirloc_eqd eqr (abstract_loc prog) (to_range node_range span_range) t =
    interpret hirloc_eqd eqr (abstract_loc prog) (to_range node_range span_range)
      (MTrace (filter seen (tr_steps t)) (tr_result t)).
Proof.
  intros V Res R eqr prog nr sr t seen O N. unfold interpret, group_steps at 1 3. cbn [tr_steps tr_result].
  rewrite filter_map_filter; auto. intros s Is E. destruct (N s Is E) as (fr & I & inst & n & El & Ev & Ns).
  apply abstract_step_None. intros M. apply (M fr I). rewrite El. cbn [abstract_loc].
  apply Nat.eqb_neq in Ns. rewrite Ns. unfold body_mapping. rewrite Ev. cbn [steppable nodup].
  destruct (aget loc_eqd _ _) as [x|] eqn:A; auto. exfalso. apply collect_map in A as [A|A]; [|discriminate].
  apply in_flat_map in A as (id & I' & _). apply (O inst []) in I'. destruct I'.
Qed.
Print Assumptions C86_expression_body_refuted.

(** A program:
<<
    fn g(x: i32) -> i32 { let y = x; y }
    fn main() { let f = |x| g(x); let r = f(1); }
>>
    Function 0 is [main] (statements 1 and 2, node 3 inside 2), 1 the closure (whose body is node 4),
    2 is [g] (statement 5, tail 6). *)
Module Demo.
  Definition straight (n : nat) : body := [Block n false TReturn].
  Definition order (l : list nat) : list nat := l.
  Definition rorder (l : list nat) : list nat := rev l.
  Definition main_fn : fn :=
    Fn 100 (VBlock [1; 2] None) (straight 3) (Loc 0)
       (fun l => match l_idx l with 0 => 1 | 1 => 3 | 2 => 2 | _ => 100 end)
       (fun x => match x with 3 => [2; 100] | 1 | 2 => [100] | _ => [] end)
       (fun l => match l_idx l with 3 => 59 | n => n end) 59 order order.
  Definition closure_fn : fn :=
    Fn 101 VOther (straight 1) (Loc 0) (fun _ => 4) (fun _ => [101]) (fun l => 20 + l_idx l) 29 order rorder.
  Definition g_fn : fn :=
    Fn 102 (VBlock [5] (Some 6)) (straight 2) (Loc 0)
       (fun l => match l_idx l with 0 => 5 | 1 => 6 | _ => 102 end)
       (fun x => match x with 5 | 6 => [102] | _ => [] end)
       (fun l => match l_idx l with 2 => 49 | n => 40 + n end) 49 order rorder.
  Definition prog (inst : nat) : fn := match inst with 0 => main_fn | 1 => closure_fn | _ => g_fn end.
  Definition at_ (inst n : nat) : frame nat mirloc := Frame (inst * 10 + n) (inst, AtLoc n).
  Definition st (frs : list (frame nat mirloc)) : mstep nat unit mirloc := MStep frs tt.
  (** The closure is made and called, calls [g], which runs; back in [main]. *)
  Definition run : mtrace nat unit unit mirloc :=
    MTrace [st [at_ 0 0]; st [at_ 0 1; at_ 1 0]; st [at_ 0 1; at_ 1 0; at_ 2 0]; st [at_ 0 1; at_ 1 0; at_ 2 1];
            st [at_ 0 1; at_ 1 1]; st [at_ 0 2]; st [at_ 0 3]] tt.
  (** The same with a plain call of [g]. *)
  Definition run_direct : mtrace nat unit unit mirloc :=
    MTrace [st [at_ 0 0]; st [at_ 0 1; at_ 2 0]; st [at_ 0 1; at_ 2 1]; st [at_ 0 2]; st [at_ 0 3]] tt.
  Definition ranges (o n : nat) : option (nat * nat) := Some (o, n).
  Definition eqr : forall a b : nat * nat, {a = b} + {a <> b}. Proof. repeat decide equality. Defined.
  Definition shown (t : mtrace nat unit unit mirloc) := interpret hirloc_eqd eqr (abstract_loc prog) (to_range ranges ranges) t.
  Definition seen (s : mstep nat unit mirloc) : bool := negb (existsb (fun fr => fst (f_loc fr) =? 1) (m_frames s)).
  (** Where the innermost frames of the shown states are. *)
  Definition places (o : option (mtrace nat unit unit (nat * nat))) : list (list (nat * nat)) :=
    match o with Some t => map (fun s => map f_loc (m_frames s)) (tr_steps t) | None => [] end.

  Lemma order_ok : Order order. Proof. intros l x. reflexivity. Qed.
  Lemma rorder_ok : Order rorder. Proof. intros l x. symmetry. apply in_rev. Qed.
  Lemma prog_ok inst : Order (fn_nodes (prog inst)) /\ Tree (prog inst).
  Proof.
    destruct inst as [|[|inst]]; cbn [prog]; (split; [apply order_ok || apply rorder_ok|]);
      intros x n n' (ss & t & E & S1) (ss' & t' & E' & S2); try discriminate;
      injection E as <- <-; injection E' as <- <-; unfold Within; cbn [fn_parents main_fn g_fn];
      (destruct S1 as [S1|S1]; cbn [In] in S1; [|try (injection S1 as <-)]);
      (destruct S2 as [S2|S2]; cbn [In] in S2; [|try (injection S2 as <-)]); try discriminate;
      destruct (x =? 1) eqn:X1; destruct (x =? 2) eqn:X2; destruct (x =? 3) eqn:X3; destruct (x =? 5) eqn:X5; destruct (x =? 6) eqn:X6;
      repeat match goal with H : (_ =? _) = true |- _ => apply Nat.eqb_eq in H | H : (_ =? _) = false |- _ => apply Nat.eqb_neq in H end;
      subst; try lia; cbn [In]; intros W1 W2; try lia;
      do 8 (destruct x as [|x]; cbn [In] in *; try lia).
  Qed.
End Demo.

(** The call of [g] in node 3 is shown at statement 2, the end at the brace. *)
Example C86_witness :
  (forall inst, Order (fn_nodes (Demo.prog inst)) /\ Tree (Demo.prog inst)) /\
  ShownAs Demo.prog (0, AtLoc 1) (100, inl 2) /\ ShownAs Demo.prog (0, AtLoc 3) (100, inr 59) /\
  ~ (exists hl, ShownAs Demo.prog (1, AtLoc 0) hl) /\
  Demo.places (Demo.shown Demo.run_direct) =
    [[(100, 1)]; [(100, 2); (102, 5)]; [(100, 2); (102, 6)]; [(100, 2)]; [(100, 59)]].
Proof.
  split; [apply Demo.prog_ok|]. split; [|split; [|split]].
  - apply C86_shown_iff; [apply Demo.prog_ok|vm_compute; reflexivity].
  - apply C86_shown_iff; [apply Demo.prog_ok|vm_compute; reflexivity].
  - intros (hl & H). apply C86_shown_iff in H; [|apply Demo.prog_ok]. vm_compute in H. discriminate.
  - vm_compute. reflexivity.
Qed.

(** The states of [g] called by the closure are lost; one that is shown at the
    same place is the last of the run. *)
Example C86_witness_closure :
  (forall s, In s (tr_steps Demo.run) -> Demo.seen s = false ->
     exists fr, In fr (m_frames s) /\ InExpressionBody Demo.prog fr) /\
  length (filter Demo.seen (tr_steps Demo.run)) = 3 /\
  Demo.places (Demo.shown Demo.run) = [[(100, 1)]; [(100, 2)]; [(100, 59)]].
Proof.
  split; [|split; vm_compute; reflexivity].
  intros s I E. cbn [tr_steps Demo.run In] in I.
  destruct I as [<-|[<-|[<-|[<-|[<-|[<-|[<-|[]]]]]]]]; try discriminate E;
    first [exists (Demo.at_ 1 0); split; [solve [repeat (solve [left; reflexivity] || right)]|]
          |exists (Demo.at_ 1 1); split; [solve [repeat (solve [left; reflexivity] || right)]|]];
    (eexists; eexists; split; [reflexivity|split; [reflexivity|vm_compute; discriminate]]).
Qed.

(** ** C87: how an execution ended *)

(** If a trace is shown, it is the condensed execution until it ended or
    did something undefined, and the user is told which. *)
Theorem C87_shown :
  forall M V Msg R (eqr : forall a b : R, {a = b} + {a <> b}) prog node_range span_range
      (mi : miri M (ierror Msg) V) m0 fuel t,
    Proper mi -> length (mi_stack mi m0) = 1 ->
    (forall inst, Order (fn_nodes (prog inst)) /\ Tree (prog inst)) ->
    interpret_program eqr prog node_range span_range mi fuel m0 = Some (Done t) ->
    exists steps e middle, Trace mi [] m0 steps e /\ Told e (tr_result t) /\
      Condensed (ShownAs prog) (map (fun frs => MStep frs tt) steps) middle /\
      Condensed (InText node_range span_range) middle (tr_steps t).
Proof.
  intros M V Msg R eqr prog nr sr mi m0 fuel t P L W H. unfold interpret_program in H.
  destruct (eval mi fuel [[]] m0) as [[e|  |[steps e]]|] eqn:Ev; try discriminate.
  exists steps, e.
  destruct (match e with None => Done RSuccess | Some e0 => beautify_error e0 end) as [msg| |r] eqn:B; try discriminate.
  destruct (interpret _ _ _ _ _) as [t1|] eqn:I; [|discriminate]. injection H as ->.
  apply C86_states_iff in I as (E & mid & C1 & C2); auto. cbn [tr_result tr_steps] in *. exists mid.
  split; [apply (C40_trace mi m0 fuel); auto|]. split; auto.
  rewrite E. destruct e as [[a met|[m|]|[m|]]|]; cbn in B; try discriminate; injection B as <-; constructor; auto. apply error_number_spec. auto.
Qed.
Print Assumptions C87_shown.

(** And if the execution ends by itself or in undefined behaviour that has a
    text, a trace is shown. *)
Theorem C87_told :
  forall M V Msg R (eqr : forall a b : R, {a = b} + {a <> b}) prog node_range span_range
      (mi : miri M (ierror Msg) V) m0 fuel steps e r,
    Proper mi -> length (mi_stack mi m0) = 1 ->
    eval mi fuel [[]] m0 = Some (Done (steps, e)) -> Told e r ->
    exists t, interpret_program eqr prog node_range span_range mi fuel m0 = Some (Done t) /\ tr_result t = r.
Proof.
  intros M V Msg R eqr prog nr sr mi m0 fuel steps e r P L Ev T. unfold interpret_program. rewrite Ev.
  assert (B : match e with None => Done RSuccess | Some e0 => beautify_error e0 end = Done r).
  { destruct T as [|a met n T|m]; try reflexivity. apply error_number_spec in T. cbn. congruence. }
  rewrite B. unfold interpret.
  assert (X : exists t', group_steps hirloc_eqd (abstract_loc prog) (MTrace (map (fun frs => MStep frs tt) steps) r) = Some t').
  { apply C34_total_iff. intros s I _. cbn in I. apply in_map_iff in I as (frs & <- & I). cbn. eapply C40_nonempty; eauto. }
  destruct X as (t1 & G1). rewrite G1.
  assert (Y : exists t', group_steps eqr (to_range nr sr) t1 = Some t').
  { apply C34_total_iff. intros s I _ N. destruct (grouped_member _ _ _ _ _ G1 I) as (s0 & I0 & [_ A]).
    rewrite N in A. inversion A as [Z|]. symmetry in Z. revert Z. cbn in I0.
    apply in_map_iff in I0 as (frs & <- & I0). cbn. eapply C40_nonempty; eauto. }
  destruct Y as (t2 & G2). rewrite G2. exists t2. split; auto.
  apply C34_groups_iff in G1 as [E1 _], G2 as [E2 _]. cbn in E1. congruence.
Qed.
Print Assumptions C87_told.

(** Any other end -- the program exits or aborts, or does what the interpreter
    does not support -- is answered with a message and no state at all, however many
    states there were. *)
Theorem C87_stopped_refuted :
  forall M V Msg R (eqr : forall a b : R, {a = b} + {a <> b}) prog node_range span_range
      (mi : miri M (ierror Msg) V) m0 fuel steps msg,
    eval mi fuel [[]] m0 = Some (Done (steps, Some (NotUndefined (Some msg)))) ->
    interpret_program eqr prog node_range span_range mi fuel m0 = Some (Fault msg).
Proof. intros M V Msg R eqr prog nr sr mi m0 fuel steps msg Ev. unfold interpret_program. rewrite Ev. reflexivity. Qed.
Print Assumptions C87_stopped_refuted.

(** An error whose message is not a text makes the tool panic. *)
Theorem C87_message_refuted :
  forall M V Msg R (eqr : forall a b : R, {a = b} + {a <> b}) prog node_range span_range
      (mi : miri M (ierror Msg) V) m0 fuel steps e,
    e = Undefined None \/ e = NotUndefined None ->
    eval mi fuel [[]] m0 = Some (Done (steps, Some e)) ->
    interpret_program eqr prog node_range span_range mi fuel m0 = Some Crash.
Proof.
  intros M V Msg R eqr prog nr sr mi m0 fuel steps e E Ev. unfold interpret_program. rewrite Ev.
  destruct E as [-> | ->]; reflexivity.
Qed.
Print Assumptions C87_message_refuted.

(** A machine that runs two statements of [main] and then fails as said. *)
Module Failing.
  Definition main (l : nat) := RawFrame 0 true (AtLoc l).
  Definition mi (e : ierror nat) : miri nat (ierror nat) nat :=
    Miri (fun m => [main (min m 2)]) (fun m => if m <? 2 then inr (S m, true) else inl e) (fun _ _ => inr [])
         (fun f => 100 + f) (fun m k moved => inr m).
  Lemma proper e : Proper (mi e).
  Proof.
    split; [|intros m m' E; discriminate E]. intros m m' more H. cbn [mi mi_step mi_stack] in *. destruct (m <? 2); [|discriminate H]. injection H as <- _.
    apply (move_stay []). split; reflexivity.
  Qed.
  Definition answer e := interpret_program Demo.eqr Demo.prog Demo.ranges Demo.ranges (mi e) 9 0.
  Definition summary (o : option (outcome nat (mtrace nat unit (mresult nat) (nat * nat)))) :=
    match o with
    | Some (Done t) => Some (Done (map (fun s => map (fun fr => (f_info fr, f_loc fr)) (m_frames s)) (tr_steps t), tr_result t))
    | Some (Fault msg) => Some (Fault msg)
    | Some Crash => Some Crash
    | None => None
    end.
End Failing.

Example C87_witness :
  Proper (Failing.mi (UseAfterFree 7 [])) /\ length (mi_stack (Failing.mi (UseAfterFree 7 [])) 0) = 1 /\
  Failing.summary (Failing.answer (UseAfterFree 7 [])) = Some (Done ([[(1, (100, 1))]; [(2, (100, 2))]], RFreed 0)) /\
  Failing.summary (Failing.answer (Undefined (Some 3))) = Some (Done ([[(1, (100, 1))]; [(2, (100, 2))]], ROther 3)) /\
  Failing.summary (Failing.answer (NotUndefined (Some 3))) = Some (Fault 3) /\
  Failing.summary (Failing.answer (Undefined None)) = Some Crash.
Proof. split; [apply Failing.proper|]. repeat split; vm_compute; reflexivity. Qed.
