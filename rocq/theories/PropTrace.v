(** * Properties of the interpreter's trace *)

From Coq Require Import List Arith Bool Lia.
From Verif Require Import Base TraceModel TraceSpec TraceProofs TraceMachine.
Import ListNotations.

(** ** C34: grouping *)

Lemma Kept_filter_map {V H L1 L2} (f : L1 -> option L2) (l : list (mstep V H L1)) l' :
  Kept f l l' <-> l' = filter_map (abstract_step f) l.
Proof.
  split.
  - intros K. induction K as [|s s' l l' A K IH|s l l' N K IH]; cbn; auto.
    + apply abstract_step_iff in A. rewrite A. congruence.
    + apply abstract_step_None in N. rewrite N. auto.
  - intros ->. induction l as [|s l IH]; cbn; [constructor|].
    destruct (abstract_step f s) as [s'|] eqn:E.
    + constructor; auto. apply abstract_step_iff; auto.
    + apply kept_drop; auto. apply abstract_step_None; auto.
Qed.

(** Grouping succeeds iff no mappable step is without a frame. *)
Theorem C34_total_iff {V H R L1 L2} eqd (f : L1 -> option L2) (t : mtrace V H R L1) :
  (exists t', group_steps eqd f t = Some t') <->
  forall s, In s (tr_steps t) -> Mappable f s -> m_frames s <> [].
Proof.
  rewrite group_steps_grouped.
  assert (G : (exists t', match grouped eqd (filter_map (abstract_step f) (tr_steps t)) with
    | Some out => Some (MTrace out (tr_result t)) | None => None end = Some t') <->
    exists out, grouped eqd (filter_map (abstract_step f) (tr_steps t)) = Some out).
  { destruct (grouped eqd _); split; intros (x & E); eauto; discriminate. }
  rewrite G, grouped_total. split.
  - intros A s I Mp. destruct (abstract_step f s) as [s'|] eqn:E; [|apply abstract_step_None in E; contradiction].
    intros N. apply (A s'); [apply filter_map_In; eauto|]. apply (abstract_step_key_None f s s' E). auto.
  - intros A s' I N. apply filter_map_In in I as (s & I & E). apply (A s I).
    + intros fr J X. assert (Y : ~ Mappable f s) by (intros Y; apply (Y fr J X)).
      apply abstract_step_None in Y. congruence.
    + apply (abstract_step_key_None f s s' E). auto.
Qed.
Print Assumptions C34_total_iff.

(** The result is, in order, the last step of each maximal run of kept steps at
    one place; the result of the program is kept. *)
Theorem C34_groups_iff {V H R L1 L2} eqd (f : L1 -> option L2) (t : mtrace V H R L1) t' :
  group_steps eqd f t = Some t' <->
  tr_result t' = tr_result t /\
  exists kept runs, Kept f (tr_steps t) kept /\ kept = concat runs /\ Runs runs /\
    Forall2 (fun run s => exists earlier, run = earlier ++ [s]) runs (tr_steps t').
Proof.
  rewrite group_steps_grouped. split.
  - destruct (grouped eqd _) as [out|] eqn:G; [|discriminate]. intros [= <-]. cbn. split; auto.
    apply grouped_spec in G as (runs & E & Rn & F). exists (filter_map (abstract_step f) (tr_steps t)), runs.
    split; [apply Kept_filter_map; auto|auto].
  - intros (Er & kept & runs & K & E & Rn & F). apply Kept_filter_map in K. rewrite <- K.
    destruct (proj2 (grouped_total eqd kept)) as (out & G).
    { intros s I N. rewrite E in I. apply in_concat in I as (r & I & J).
      assert (X : exists l, At s l).
      { clear - Rn I J. induction Rn as [|r0 l N A|r0 l r' l' rest N A A' NE Rn IH]; [destruct I| |].
        - destruct I as [<-|[]]. eauto.
        - destruct I as [<-|I]; eauto. }
      destruct X as (l & X). apply key_At in X. apply key_None in N. congruence. }
    rewrite G. apply grouped_spec in G as (runs' & E' & Rn' & F').
    assert (runs = runs') by (apply Runs_unique; auto; congruence). subst runs'.
    assert (out = tr_steps t').
    { clear - F F'. revert F'. generalize out. induction F as [|r s rs ss (p & Ep) F IH]; intros o F'; inversion F' as [|? s' ? ss' (p' & Ep') F'']; subst; auto.
      apply app_inj_tail in Ep' as [_ ->]. f_equal. apply IH. auto. }
    subst out. destruct t' as [st re]. cbn in *. congruence.
Qed.
Print Assumptions C34_groups_iff.

(** No two adjacent steps are at the same place. *)
Theorem C34_adjacent {V H R L1 L2} eqd (f : L1 -> option L2) (t : mtrace V H R L1) t' :
  group_steps eqd f t = Some t' ->
  forall l1 s s' l2 k k', tr_steps t' = l1 ++ s :: s' :: l2 -> At s k -> At s' k' -> k <> k'.
Proof.
  rewrite group_steps_grouped. destruct (grouped eqd _) as [out|] eqn:G; [|discriminate]. intros [= <-]. cbn.
  apply grouped_Alternates in G as [A _]. intros l1 s s' l2 k k' E B B' ->. subst out.
  induction l1 as [|x l1 IH]; cbn in A.
  - destruct A as [A _]. eapply A; eauto.
  - apply IH. destruct l1; apply A.
Qed.
Print Assumptions C34_adjacent.

(** Grouping again changes nothing. *)
Theorem C34_idempotent {V H R L1 L2} eqd (f : L1 -> option L2) (t : mtrace V H R L1) t' :
  group_steps eqd f t = Some t' -> group_steps eqd Some t' = Some t'.
Proof.
  rewrite group_steps_grouped. destruct (grouped eqd _) as [out|] eqn:G; [|discriminate]. intros [= <-].
  rewrite group_steps_grouped. cbn. rewrite filter_map_id, (grouped_idem eqd _ out G). auto.
Qed.
Print Assumptions C34_idempotent.

(** The two passes of the interpreter -- by program node, then by source range --
    do what one pass by source range does, if every node found has a range. *)
Theorem C34_two_passes_partial {V H R L1 L2 L3} eqd2 eqd3 (f : L1 -> option L2) (g : L2 -> option L3)
    (t : mtrace V H R L1) :
  (forall l l', f l = Some l' -> g l' <> None) ->
  (forall s, In s (tr_steps t) -> m_frames s <> []) ->
  interpret eqd2 eqd3 f g t = group_steps eqd3 (fun l => match f l with Some l' => g l' | None => None end) t.
Proof. apply interpret_once. Qed.
Print Assumptions C34_two_passes_partial.

(** Otherwise they may lose a state: the first pass keeps the last step of a run,
    the second drops it because of an outer frame inside a macro. *)
Theorem C34_two_passes_refuted :
  exists (g : nat -> option nat) (t : mtrace unit unit unit nat),
    (forall s, In s (tr_steps t) -> m_frames s <> []) /\
    interpret Nat.eq_dec Nat.eq_dec Some g t = Some (MTrace [] tt) /\
    group_steps Nat.eq_dec g t <> Some (MTrace [] tt).
Proof.
  exists (fun l => if l =? 9 then None else Some l).
  exists (MTrace [MStep [Frame tt 1; Frame tt 5] tt; MStep [Frame tt 9; Frame tt 5] tt] tt).
  split; [intros s [<-|[<-|[]]]; discriminate|]. split; [reflexivity|]. vm_compute. discriminate.
Qed.
Print Assumptions C34_two_passes_refuted.

(** Five steps: places 1, 1, unmappable, 2, 1. *)
Module Grouping.
  Definition st (h l : nat) : mstep unit nat nat := MStep [Frame tt 7; Frame tt l] h.
  Definition f (l : nat) := if l =? 9 then None else Some l.
  Definition t : mtrace unit nat unit nat := MTrace [st 0 1; st 1 1; st 2 9; st 3 1; st 4 2; st 5 1] tt.

  Example C34_witness : group_steps Nat.eq_dec f t = Some (MTrace [st 3 1; st 4 2; st 5 1] tt).
  Proof. reflexivity. Qed.
  Example C34_witness_two_passes :
    interpret Nat.eq_dec Nat.eq_dec f (fun l => Some (l / 2)) t =
    Some (MTrace [MStep [Frame tt 3; Frame tt 0] 3; MStep [Frame tt 3; Frame tt 1] 4; MStep [Frame tt 3; Frame tt 0] 5] tt).
  Proof. reflexivity. Qed.
End Grouping.

(** ** A machine: [main] moves its variable 1, calls a library function, which
    calls a function of the user, which moves its variable 3; then it returns. *)
Module Machine.
  Definition main (l : nat) := RawFrame 1 true (AtLoc l).
  Definition lib (l : nat) := RawFrame 9 false (AtLoc l).
  Definition user (l : nat) := RawFrame 2 true (AtLoc l).
  Definition stacks : list (list raw_frame) :=
    [ [main 0]; [main 1]; [main 1; lib 0]; [main 1; lib 0; user 0]; [main 1; lib 0; user 1];
      [main 1; lib 1]; [main 2]; [main 3] ].
  Definition moves (m : nat) : list moved :=
    match m with 0 => [OfLocal 1] | 3 => [InMemory; OfLocal 3] | 1 => [OfLocal 2] | _ => [] end.
  Definition mi : miri nat nat (list nat) :=
    Miri (fun m => nth m stacks []) (fun m => inr (S m, m <? 8)) (fun m _ => inr (moves m))
         (fun f => 100 + f) (fun m k moved => inr moved).

  Lemma proper : Proper mi.
  Proof.
    split.
    - intros m m' more [= <- _].
      destruct m as [|[|[|[|[|[|[|[|m]]]]]]]]; cbn.
      + apply (move_stay []). split; reflexivity.
      + apply (move_call []). split; reflexivity.
      + apply (move_call [main 1]). split; reflexivity.
      + apply (move_stay [main 1; lib 0]). split; reflexivity.
      + apply (move_return [main 1] (lib 0) (lib 1) (user 1)). split; reflexivity.
      + apply (move_return [] (main 1) (main 2) (lib 1)). split; reflexivity.
      + apply (move_stay []). split; reflexivity.
      + apply move_exit.
      + destruct m; apply move_idle.
    - intros m m' E. cbn in *. destruct m as [|[|[|[|m]]]]; try discriminate; reflexivity.
  Qed.

  Example trace : eval mi 20 [[]] 0 = Some (Done ([
    [Frame [1] (1, AtLoc 0)];
    [Frame [1] (1, AtLoc 1)];
    [Frame [1] (1, AtLoc 1); Frame [] (2, AtSpan 102)];
    [Frame [1] (1, AtLoc 1); Frame [3] (2, AtLoc 0)];
    [Frame [1] (1, AtLoc 1)];
    [Frame [1] (1, AtLoc 1)];
    [Frame [1] (1, AtLoc 2)] ], None)).
  Proof. vm_compute. reflexivity. Qed.

  Lemma reached4 : exists h, Reached mi 0 h [[1]; []; [3]] 4.
  Proof.
    assert (R0 : Reached mi 0 [] [[]] 0) by (apply reached_start; reflexivity).
    eapply reached_next in R0; [|vm_compute; reflexivity].
    eapply reached_next in R0; [|vm_compute; reflexivity].
    eapply reached_next in R0; [|vm_compute; reflexivity].
    eapply reached_next in R0; [|vm_compute; reflexivity]. eauto.
  Qed.
End Machine.

(** ** C38: moved variables *)

(** One set of moved variables for each frame. *)
Theorem C38_aligned {M E V} (mi : miri M E V) m0 h mp m : Proper mi -> Reached mi m0 h mp m ->
  length mp = length (mi_stack mi m).
Proof. apply Reached_aligned. Qed.
Print Assumptions C38_aligned.

(** A variable of a frame is in the frame's set iff a statement of that frame
    moved it as a local since the frame was pushed.  Missing from the property:
    the variable may have been assigned again, be in memory, or be moved by a
    call. *)
Theorem C38_moved_partial {M E V} (mi : miri M E V) m0 h mp m : Proper mi -> Reached mi m0 h mp m ->
  forall d, d < length (mi_stack mi m) -> exists set, nth_error mp d = Some set /\
    forall x, In x set <-> MovedSince mi h d x.
Proof. apply Reached_moved. Qed.
Print Assumptions C38_moved_partial.

(** Whatever a step does, for example assign [x] again, [x] stays in the set as
    long as the frame is there. *)
Theorem C38_reassign_refuted {M E V} (mi : miri M E V) m0 h mp m out mp' m' more :
  Proper mi -> Reached mi m0 h mp m -> round mi mp m = Done (out, mp', m', more) ->
  forall d set x, nth_error mp d = Some set -> In x set -> d < length (mi_stack mi m') ->
  exists set', nth_error mp' d = Some set' /\ In x set'.
Proof.
  intros P R Er d set x En I Hd.
  assert (Hd0 : d < length (mi_stack mi m)).
  { rewrite <- (Reached_aligned mi m0 h mp m P R). apply nth_error_Some. congruence. }
  destruct (Reached_moved mi m0 h mp m P R d Hd0) as (s & E1 & W). assert (s = set) by congruence. subst s.
  destruct (Reached_moved mi m0 _ mp' m' P (reached_next mi m0 h mp m out mp' m' more R Er) d Hd) as (s' & E2 & W').
  exists s'. split; auto. apply W'. cbn [MovedSince]. split; auto. right. apply W. auto.
Qed.
Print Assumptions C38_reassign_refuted.

(** A step that calls a function records none of the moves of its arguments. *)
Theorem C38_call_refuted {M E V} (mi : miri M E V) m0 h mp m out mp' m' more :
  Proper mi -> Reached mi m0 h mp m -> round mi mp m = Done (out, mp', m', more) ->
  length (mi_stack mi m') = S (length (mi_stack mi m)) ->
  mp' = mp ++ [[]].
Proof.
  intros P R Er L. apply round_step in Er as [_ Eh]. unfold handle_moves in Eh.
  destruct (length (mi_stack mi m') ?= length (mi_stack mi m)) eqn:C.
  - apply Nat.compare_eq in C. lia.
  - apply Nat.compare_lt_iff in C. lia.
  - injection Eh as <-. auto.
Qed.
Print Assumptions C38_call_refuted.

(** A moved variable that lives in memory, because it has been borrowed, is not
    recorded. *)
Theorem C38_memory_refuted {M E V} (mi : miri M E V) mp m m' ms :
  mi_moves mi m m' = inr ms -> (forall x, In x ms -> x = InMemory) ->
  length (mi_stack mi m') = length (mi_stack mi m) ->
  handle_moves mi mp m m' = Done mp.
Proof.
  intros Em A L. unfold handle_moves. rewrite L, Nat.compare_refl, Em.
  assert (X : forall n, add_moves mp n ms = Some mp).
  { intros n. clear - A. induction ms as [|x ms IH]; cbn; auto. rewrite (A x (or_introl eq_refl)).
    apply IH. intros y I. apply A. right; auto. }
  rewrite X. auto.
Qed.
Print Assumptions C38_memory_refuted.

Example C38_witness : exists h, Reached Machine.mi 0 h [[1]; []; [3]] 4 /\ Proper Machine.mi /\
  MovedSince Machine.mi h 2 3 /\ ~ MovedSince Machine.mi h 0 2.
Proof.
  destruct Machine.reached4 as (h & R). exists h. split; [auto|]. split; [apply Machine.proper|].
  split.
  - destruct (C38_moved_partial _ _ _ _ _ Machine.proper R 2) as (s & E & W); [cbn; lia|]. apply W.
    cbn in E. injection E as <-. left; auto.
  - destruct (C38_moved_partial _ _ _ _ _ Machine.proper R 0) as (s & E & W); [cbn; lia|]. rewrite <- W.
    cbn in E. injection E as <-. intros [X|[]]; discriminate.
Qed.

(** ** C39: numbers of allocations *)

(** Within one state, equal numbers iff the same allocation. *)
Theorem C39_within_state_partial allocs i j a b n n' :
  nth_error allocs i = Some a -> nth_error allocs j = Some b ->
  nth_error (snd (remap_all [] allocs)) i = Some n -> nth_error (snd (remap_all [] allocs)) j = Some n' ->
  n = n' <-> a = b.
Proof.
  intros Ea Eb En En'. destruct (remap_all [] allocs) as [mm ns] eqn:E. cbn [snd] in *.
  destruct (remap_all_spec allocs [] mm ns) as ([N1 N2] & L & _ & G & _); auto.
  { split; intros; discriminate. }
  pose proof (G i a n Ea En) as X. pose proof (G j b n' Eb En') as Y. split.
  - intros ->. eapply N2; eauto.
  - intros ->. congruence.
Qed.
Print Assumptions C39_within_state_partial.

(** A number counts the allocations met before. *)
Theorem C39_number_iff allocs i a n : nth_error allocs i = Some a ->
  (nth_error (snd (remap_all [] allocs)) i = Some n <-> NumberIn allocs a n).
Proof.
  intros E. destruct (remap_all_Holds allocs [] [] Holds_nil) as (_ & P). split; [apply P; auto|]. intros Q.
  destruct (nth_error (snd (remap_all [] allocs)) i) as [m|] eqn:F.
  - f_equal. eapply NumberIn_unique; [|exact Q]. exact (P i a m E F).
  - apply nth_error_None in F. destruct (remap_all [] allocs) as [mm ns] eqn:R.
    destruct (remap_all_spec allocs [] mm ns) as (_ & L & _); auto; [split; intros; discriminate|].
    assert (i < length allocs) by (apply nth_error_Some; congruence). cbn in F. lia.
Qed.
Print Assumptions C39_number_iff.

(** The numbers of a state are 0, 1, 2, ... without a gap, and every dangling
    pointer gets one. *)
Theorem C39_dense allocs :
  length (snd (remap_all [] allocs)) = length allocs /\
  forall n n', In n (snd (remap_all [] allocs)) -> n' < n -> In n' (snd (remap_all [] allocs)).
Proof.
  destruct (remap_all [] allocs) as [mm ns] eqn:E. cbn [snd] in *.
  destruct (remap_all_spec allocs [] mm ns) as ([N1 N2] & L & _ & G & _ & D); auto.
  { split; intros; discriminate. }
  split; auto. intros n n' I Lt. apply D; [cbn; lia|]. apply In_nth_error in I as (i & Ei).
  destruct (nth_error allocs i) as [a|] eqn:Ea.
  - pose proof (N1 a n (G i a n Ea Ei)). lia.
  - apply nth_error_None in Ea. assert (i < length ns) by (apply nth_error_Some; congruence). lia.
Qed.
Print Assumptions C39_dense.

(** From one state to the next a number changes its allocation, and an allocation
    its number. *)
Theorem C39_across_states_refuted : exists states,
  (exists i j k l a n n', nth_error states i = Some k /\ nth_error states j = Some l /\
     nth_error (number_states states) i = Some n /\ nth_error (number_states states) j = Some n' /\
     In (a, 1) (combine k n) /\ In (a, 0) (combine l n')) /\
  (exists i j k l a b n n', nth_error states i = Some k /\ nth_error states j = Some l /\
     nth_error (number_states states) i = Some n /\ nth_error (number_states states) j = Some n' /\
     a <> b /\ In (a, 0) (combine k n) /\ In (b, 0) (combine l n')).
Proof.
  exists [[10; 20]; [20]]. split.
  - exists 0, 1, [10; 20], [20], 20, [0; 1], [0]. cbn. intuition.
  - exists 0, 1, [10; 20], [20], 10, 20, [0; 1], [0]. cbn. intuition discriminate.
Qed.
Print Assumptions C39_across_states_refuted.

(** The number of a use after free counts what was met in the state that could not be read
    to its end ([met]). *)
Theorem C39_error_number_iff met a n : error_number met a = n <-> NumberIn (met ++ [a]) a n.
Proof. apply error_number_spec. Qed.
Print Assumptions C39_error_number_iff.

(** So when the program itself fails it is always 0, also when the last state shows the freed
    allocation with another number. *)
Theorem C39_error_refuted :
  (forall alloc, error_number [] alloc = 0) /\
  exists last alloc, In (alloc, 1) (combine last (snd (remap_all [] last))) /\
    error_number [] alloc <> 1.
Proof.
  split; [reflexivity|]. exists [10; 20], 20. split; [cbn; auto|discriminate].
Qed.
Print Assumptions C39_error_refuted.

Example C39_error_witness : error_number [30; 10; 30] 20 = 2 /\ error_number [30; 10; 30] 10 = 1.
Proof. split; reflexivity. Qed.

Example C39_witness : snd (remap_all [] [30; 10; 30; 20]) = [0; 1; 0; 2].
Proof. reflexivity. Qed.

(** ** C40: the states of a trace *)

(** The trace of every execution consists of the states shown for its steps, as
    specified by [Trace]: one non-empty stack for each step of the machine after
    which a function of the user is running. *)
Theorem C40_trace {M E V} (mi : miri M E V) m0 fuel steps e : Proper mi -> length (mi_stack mi m0) = 1 ->
  eval mi fuel [[]] m0 = Some (Done (steps, e)) -> Trace mi [] m0 steps e.
Proof. intros P L. apply (eval_spec mi m0 P fuel). apply reached_start. auto. Qed.
Print Assumptions C40_trace.

(** Every state has a frame, and its frames are those of the user's functions. *)
Theorem C40_nonempty {M E V} (mi : miri M E V) m0 fuel steps e : Proper mi -> length (mi_stack mi m0) = 1 ->
  eval mi fuel [[]] m0 = Some (Done (steps, e)) -> forall frs, In frs steps -> frs <> [] /\
  exists h m m', Forall2 (Shows mi h m m') (user_depths (mi_stack mi m')) frs.
Proof.
  intros P L Ev. apply C40_trace in Ev; auto.
  assert (X : forall h m m' shown, Emits mi h m m' shown -> forall frs, In frs shown -> frs <> [] /\
    exists h m m', Forall2 (Shows mi h m m') (user_depths (mi_stack mi m')) frs).
  { intros h m m' shown [[_ ->]|(N & frs0 & -> & F)] frs I; [destruct I|]. destruct I as [<-|[]]. split; eauto.
    intros ->. inversion F. congruence. }
  clear L. induction Ev as [h m m' shown _ Em|h m m' shown rest e _ Em _ IH| | |]; intros frs I; try (destruct I; fail); eauto.
  apply in_app_or in I as [I|I]; eauto.
Qed.
Print Assumptions C40_nonempty.

(** The evaluator does not panic. *)
Theorem C40_no_crash {M E V} (mi : miri M E V) m0 fuel : Proper mi -> length (mi_stack mi m0) = 1 ->
  eval mi fuel [[]] m0 <> Some Crash.
Proof. intros P L. apply (eval_spec mi m0 P fuel [] [[]] m0). apply reached_start. auto. Qed.
Print Assumptions C40_no_crash.

(** Where the innermost frame is shown is determined. *)
Theorem C40_location_unique header before after p q :
  ShownAt header before after p -> ShownAt header before after q -> p = q.
Proof.
  intros A B. destruct A as [base f f' S1|base f f' g S1|base c c' f S1];
    inversion B as [base2 f2 f2' S2 Ea Eb|base2 f2 f2' g2 S2 Ea Eb|base2 c2 c2' f2 S2 Ea Eb];
    pose proof (f_equal (@length _) Ea) as La; pose proof (f_equal (@length _) Eb) as Lb;
    rewrite !app_length in La, Lb; cbn in La, Lb; try lia.
  - apply app_inj_tail in Ea as [_ ->]. auto.
  - change [f'; g] with ([f'] ++ [g]) in Eb. change [f2'; g2] with ([f2'] ++ [g2]) in Eb.
    rewrite !app_assoc in Eb. apply app_inj_tail in Eb as [_ ->]. auto.
  - change [c; f] with ([c] ++ [f]) in Ea. change [c2; f2] with ([c2] ++ [f2]) in Ea.
    rewrite !app_assoc in Ea. apply app_inj_tail in Ea as [Ea _]. apply app_inj_tail in Ea as [_ ->]. auto.
Qed.
Print Assumptions C40_location_unique.

(** With no empty stack in the trace, grouping does not panic either. *)
Theorem C40_grouping_total {M E V L2} eqd (mi : miri M E V) m0 fuel steps e (f : mirloc -> option L2) :
  Proper mi -> length (mi_stack mi m0) = 1 -> eval mi fuel [[]] m0 = Some (Done (steps, e)) ->
  exists t', group_steps eqd f (MTrace (map (fun frs => MStep frs tt) steps) e) = Some t'.
Proof.
  intros P L Ev. apply C34_total_iff. intros s I _. cbn in I. apply in_map_iff in I as (frs & <- & I). cbn.
  eapply C40_nonempty; eauto.
Qed.
Print Assumptions C40_grouping_total.

Example C40_witness : Trace Machine.mi [] 0 [
    [Frame [1] (1, AtLoc 0)];
    [Frame [1] (1, AtLoc 1)];
    [Frame [1] (1, AtLoc 1); Frame [] (2, AtSpan 102)];
    [Frame [1] (1, AtLoc 1); Frame [3] (2, AtLoc 0)];
    [Frame [1] (1, AtLoc 1)];
    [Frame [1] (1, AtLoc 1)];
    [Frame [1] (1, AtLoc 2)] ] None.
Proof. apply (C40_trace Machine.mi 0 20); [apply Machine.proper|reflexivity|apply Machine.trace]. Qed.
