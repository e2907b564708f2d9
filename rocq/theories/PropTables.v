(** * Properties of the step tables: nothing lost, one entry per line, merging *)

From Coq Require Import List Arith Bool Lia Permutation Sorted.
From Verif Require Import Base PermsModel PermsSpec PermsProofs FactsModel CfgModel CfgSpec CfgProofs SegMirModel SegMirSpec
  SegMirProofs SegMirSound SegMirScopes SegMirClose SegMirTerm SegMirTree SegMirInsert PropSegMir TablesModel TablesSpec TablesProofs TablesExact TablesPretty.
Import ListNotations.

Module Tab.
  (** Permissions of an initialised, live, owned variable, and of a dead one. *)
  Definition full : PData := mkPD true true false true false None None None None.
  Definition dead : PData := mkPD true true false false false None None None None.
  Definition lent : PData := mkPD true true false true false None None (Some 0) (Some 0).
  Definition read : PData := mkPD false false false true false None None None None.
  Definition written : PData := mkPD false true false true false None None None None.

  (** Two places; place 0 is live from the first location of block [k] on, place
      1 belongs to a variable declared in scope 1. *)
  Definition e (k : nat) : env :=
    Env (fun l => [(0, if k <=? l_block l then full else dead); (1, if l_idx l =? 0 then full else lent)])
        [(0, dead); (1, dead)] (fun p => p) [(1, [1])] (fun a b => 100).

  Lemma e_wf k : WfEnv (e k).
  Proof.
    intros l. split; [|split].
    - repeat constructor; cbn; intuition discriminate.
    - intros p. reflexivity.
    - repeat constructor; cbn; intuition discriminate.
  Qed.

  (** A loop whose header is also the target of its own switch. *)
  Definition spin : body :=
    [ Block 1 false (TOther [1]); Block 2 false (TSwitchInt [1; 2]); Block 1 false TReturn].
  Lemma spin_wf : WfBody spin. Proof. apply wf_check_ok. reflexivity. Qed.
  Definition spin_ops : list op :=
    [OpInsert (Loc 1 0) 9; OpInsert (Loc 1 1) 9; OpOpenBranch (Loc 1 1) Demo.sp].
  Definition spin_st : st := Eval vm_compute in Demo.after false spin spin_ops.
  Lemma spin_built : BuiltFrom false spin (fun l => l) spin_st.
  Proof.
    exists 5, spin_ops. split; [apply op_check_ok; [apply spin_wf|vm_compute; reflexivity]|].
    vm_compute. reflexivity.
  Qed.

  (** A branch opened where the function returns. *)
  Definition flat : body := [ Block 1 false TReturn ].
  Lemma flat_wf : WfBody flat. Proof. apply wf_check_ok. reflexivity. Qed.
End Tab.

(** ** C30: no step is lost *)

(** The tables of a body can be made exactly when every branch has an arm. *)
Theorem C30_total_iff :
  forall fw bd ord s e start brace, Built fw bd ord s -> WfEnv e ->
    ((exists r, body_tables e s start brace = Some r) <-> HasArms s).
Proof.
  intros fw bd ord s e start brace B W. apply Shape_Built in B. split.
  - intros (r & E). eapply body_tables_arms; eauto.
  - intros HA. destruct (body_tables_Grown e s start brace B W HA) as (r & t & E & _). eauto.
Qed.
Print Assumptions C30_total_iff.

(** Every table shown at a location is that of the opening brace, a segment or a
    branch that ends there: its rows are the changes between its two states,
    without (segment) or only with (branch) the variables of its scopes. *)
Theorem C30_sound :
  forall fw bd ord s e start brace r, Built fw bd ord s -> WfEnv e ->
    body_tables e s start brace = Some r ->
    forall l t, In t (at_loc r l) ->
      exists i, In i (all_items s) /\ Ends s start i l /\ TableOf e s start brace i t.
Proof. intros fw bd ord s e start brace r B W E. eapply body_tables_sound; eauto. eapply Shape_Built; eauto. Qed.
Print Assumptions C30_sound.

(** Wherever something ends, some table is kept. *)
Theorem C30_end_kept :
  forall fw bd ord s e start brace r, Built fw bd ord s -> WfEnv e ->
    body_tables e s start brace = Some r ->
    forall i l, In i (all_items s) -> Ends s start i l -> at_loc r l <> [].
Proof. intros fw bd ord s e start brace r B W E. eapply body_tables_kept; eauto. eapply Shape_Built; eauto. Qed.
Print Assumptions C30_end_kept.

(** Nothing is lost and nothing is added when no branch contains something that
    ends where something outside it ends.  Missing for the full statement: the
    other bodies, see [C30_lost_refuted]. *)
Theorem C30_exact_partial :
  forall fw bd ord s e start brace r, Built fw bd ord s -> WfEnv e -> Separate s start ->
    body_tables e s start brace = Some r ->
    forall l, exists is, NoDup is /\ (forall i, In i is <-> In i (all_items s) /\ Ends s start i l) /\
      Forall2 (TableOf e s start brace) is (at_loc r l).
Proof. intros fw bd ord s e start brace r B W S0 E. eapply body_tables_exact; eauto. eapply Shape_Built; eauto. Qed.
Print Assumptions C30_exact_partial.

Example C30_witness :
  Built false Demo.loops (fun l => l) Demo.loops_st /\ HasArms Demo.loops_st /\
  Separate Demo.loops_st (Loc 0 0) /\ length (branches Demo.loops_st) = 2 /\
  exists r, body_tables (Tab.e 4) Demo.loops_st (Loc 0 0) 0 = Some r /\
    length (at_loc r (Loc 4 0)) = 2 /\ length (at_loc r (Loc 6 0)) = 1.
Proof.
  assert (B : Built false Demo.loops (fun l => l) Demo.loops_st) by apply BuiltFrom_Built, Demo.loops_built.
  split; auto. split.
  { intros b [<-|[<-|[]]]; discriminate. }
  split.
  { apply separate_check_ok; [eapply Shape_Built; eauto|]. vm_compute. reflexivity. }
  split; [reflexivity|]. eexists. split; [vm_compute; reflexivity|]. split; reflexivity.
Qed.

(** The step into a loop header is dropped when the branch inside the loop leads
    back to the header: the tables of the branch replace what was there. *)
Theorem C30_lost_refuted :
  exists bd s e r sid sg p d, WfBody bd /\ BuiltFrom false bd (fun l => l) s /\ WfEnv e /\
    body_tables e s (Loc 0 0) 0 = Some r /\
    nth_error (segs s) sid = Some sg /\ In (Linear sid) (flat_map c_data (colls s)) /\
    Change (e_dom e (s_from sg)) (e_dom e (s_to sg)) p d /\ ddiff_is_empty d = false /\
    (forall sc, ~ DeclaredIn e sc p) /\
    (forall l t, In t (at_loc r l) -> In (p, d) (t_data t) -> False) /\
    forall l t, In t (at_loc r l) -> (t_from t, t_to t) <> (s_from sg, s_to sg).
Proof.
  exists Tab.spin, Tab.spin_st, (Tab.e 1). eexists. exists 0. eexists. exists 0. eexists.
  split; [apply Tab.spin_wf|]. split; [apply Tab.spin_built|]. split; [apply Tab.e_wf|].
  split; [vm_compute; reflexivity|]. split; [reflexivity|]. split; [left; reflexivity|].
  split. { do 2 eexists. split; [reflexivity|]. split; reflexivity. }
  split; [reflexivity|]. split.
  { intros sc (v & H & I). cbn in H. destruct (Nat.eq_dec sc 1); [|discriminate H].
    injection H as <-. cbn in I. destruct I as [I|[]]. discriminate. }
  assert (Only : forall (r : tables) l t, In t (at_loc r l) -> In t (flat_map snd r)).
  { intros r l t I. unfold at_loc in I. destruct (aget loc_eqd r l) as [v|] eqn:E; [|destruct I].
    apply aget_Some_In in E. apply in_flat_map. exists (l, v). auto. }
  split.
  - intros l t I. apply Only in I. cbn in I. intros J.
    repeat (destruct I as [<-|I]; [cbn in J; repeat (destruct J as [J|J]; [discriminate|]); destruct J|]).
    destruct I.
  - intros l t I. apply Only in I. cbn in I.
    repeat (destruct I as [<-|I]; [cbn; discriminate|]). destruct I.
Qed.
Print Assumptions C30_lost_refuted.

(** A branch without an arm: making the tables panics. *)
Theorem C30_panic_refuted :
  exists bd s e start brace, WfBody bd /\ BuiltFrom false bd (fun l => l) s /\ WfEnv e /\
    body_tables e s start brace = None.
Proof.
  exists Tab.flat. eexists. exists (Tab.e 1), (Loc 0 0), 0. split; [apply Tab.flat_wf|].
  split.
  { exists 5, [OpOpenBranch (Loc 0 0) Demo.sp].
    split; [apply op_check_ok; [apply Tab.flat_wf|vm_compute; reflexivity]|]. vm_compute. reflexivity. }
  split; [apply Tab.e_wf|]. vm_compute. reflexivity.
Qed.
Print Assumptions C30_panic_refuted.

(** ** C26: filtering by scope *)

(** The table a segment gets leaves out exactly the variables declared in a scope
    that was open around the scope of the segment ([C26_parents] says which these
    are). *)
Theorem C26_filtered :
  forall fw bd ord s e r sid sg r', Built fw bd ord s -> WfEnv e ->
    nth_error (segs s) sid = Some sg -> s_from sg <> s_to sg -> insert_segment e s r sid = Some r' ->
    exists t, at_loc r' (s_to sg) = at_loc r (s_to sg) ++ [t] /\
      forall p d, In (p, d) (t_data t) <->
        Change (e_dom e (s_from sg)) (e_dom e (s_to sg)) p d /\
        ~ exists sc, In sc (parent_scopes s (s_scope sg)) /\ DeclaredIn e sc p.
Proof.
  intros fw bd ord s e r sid sg r' B W E N I. unfold insert_segment in I. rewrite E in I.
  destruct (loc_eqd (s_from sg) (s_to sg)); [congruence|].
  destruct (into_diff_ok e (s_from sg) (s_to sg) W) as (d0 & Ed & ND & Sp). rewrite Ed in I.
  injection I as <-. eexists. split.
  { rewrite at_loc_push. destruct (loc_eqd (s_to sg) (s_to sg)); [reflexivity|congruence]. }
  intros p x. cbn [t_data]. rewrite filter_In, Sp. cbn [fst snd].
  rewrite negb_true_iff, memb_not_In, in_locals_to_filter. unfold DeclaredIn. firstorder.
Qed.
Print Assumptions C26_filtered.

Example C26_filtered_witness :
  exists s r t1 t2, Built false Demo.loops (fun l => l) s /\ s_scope (Seg (Loc 0 0) (Loc 0 1) 3 2) = 2 /\
    nth_error (segs s) 0 = Some (Seg (Loc 0 0) (Loc 0 1) 3 2) /\ parent_scopes s 2 = [1; 0] /\
    insert_segment (Tab.e 0) s [] 0 = Some r /\ at_loc r (Loc 0 1) = [t1] /\ map fst (t_data t1) = [0] /\
    insert_segment (Env (e_dom (Tab.e 0)) (e_bottom (Tab.e 0)) (fun p => p) [] (fun _ _ => 0)) s [] 0 = Some t2 /\
    map (fun t => map fst (t_data t)) (at_loc t2 (Loc 0 1)) = [[0; 1]].
Proof.
  do 4 eexists. split.
  { exists 5, [OpOpenScope; OpOpenScope; OpInsert (Loc 0 1) 3]. vm_compute. reflexivity. }
  split; [reflexivity|]. split; [reflexivity|]. split; [reflexivity|]. split; [vm_compute; reflexivity|].
  split; [reflexivity|]. split; [reflexivity|]. split; [vm_compute; reflexivity|]. reflexivity.
Qed.

(** ** C31: one entry per line, only visible changes, before the first error *)

(** A line has at most one entry, whatever the order of the hash maps. *)
Theorem C31_once :
  forall w m hash lines ts, Shuffle hash -> Shuffle lines -> NoDup (map y_line (prettify w m hash lines ts)).
Proof. exact prettify_once. Qed.
Print Assumptions C31_once.

(** An entry has a row; its rows are sorted by variable, then by depth, and no
    place has two. *)
Theorem C31_rows_ordered :
  forall w m hash lines ts y, Shuffle hash -> Shuffle lines -> In y (prettify w m hash lines ts) ->
    y_rows y <> [] /\ StronglySorted (RowLe w) (y_rows y) /\ NoDup (map fst (y_rows y)).
Proof.
  intros w m hash lines ts y Hh Hl I. destruct (prettify_In _ _ _ _ _ _ Hh Hl I) as (es & Ie & Iy).
  destruct (show_line_spec w hash _ y Hh Iy) as (f & r & _ & _ & _ & _ & _ & P & N & S0).
  split; auto. split; auto. eapply Permutation_NoDup; [apply Permutation_map, Permutation_sym, P|].
  apply combined_spec.
Qed.
Print Assumptions C31_rows_ordered.

(** Every row is the row of a table on that line, is visible, is not about a
    place that is dead all along, changes something in the mode for changes, and
    its table does not end after the first error. *)
Theorem C31_rows_sound :
  forall w m hash lines ts y p d, Shuffle hash -> Shuffle lines ->
    In y (prettify w m hash lines ts) -> In (p, d) (y_rows y) ->
    exists l v t, In (l, v) ts /\ In t v /\ In (p, d) (t_data t) /\
      y_line y = line_at w (line_end w (t_span t)) /\ Shown w m p d /\
      forall hi, w_error w = Some hi -> w_hi w (t_span t) <= hi.
Proof.
  intros w m hash lines ts y p d Hh Hl I J. apply (prettify_rows w m hash lines ts y p d Hh Hl I) in J.
  apply merge_In in J as [J|J]; [discriminate|]. apply rows_on_In in J as (l & v & t & I1 & I2 & I3 & T & Sh & E).
  exists l, v, t. repeat (split; auto). intros hi Eh. apply T in Eh.
  destruct (to_newline_spec (w_text w) (w_hi w (t_span t))) as [L _]. unfold line_end in Eh. lia.
Qed.
Print Assumptions C31_rows_sound.

(** The entry is placed at the end of the line, the same for all tables on it. *)
Theorem C31_position :
  forall w m hash lines ts y, Shuffle hash -> Shuffle lines -> In y (prettify w m hash lines ts) ->
    (exists p, LineEnd (w_text w) p (y_pos y)) /\ y_line y = line_at w (y_pos y) /\
    ((forall l v t, In (l, v) ts -> In t v -> w_hi w (t_span t) <= length (w_text w)) ->
     forall l v t, In (l, v) ts -> In t v -> line_at w (line_end w (t_span t)) = y_line y ->
       LineEnd (w_text w) (w_hi w (t_span t)) (y_pos y)).
Proof.
  intros w m hash lines ts y Hh Hl I.
  destruct (prettify_pos w m hash lines ts y Hh Hl I) as (l0 & v0 & t0 & I1 & I2 & P & L & _).
  split; [exists (w_hi w (t_span t0)); rewrite P; apply to_newline_spec|]. split; auto.
  intros B l v t J1 J2 E. replace (y_pos y) with (line_end w (t_span t)); [apply to_newline_spec|].
  eapply (line_one_end (w_text w)).
  - apply to_newline_spec.
  - rewrite P. apply to_newline_spec.
  - apply to_newline_le. eauto.
  - rewrite P. apply to_newline_le. eauto.
  - rewrite L in E. exact E.
Qed.
Print Assumptions C31_position.

(** A visible change that is alone on its line for its place is shown, unless its
    line ends after the first error. *)
Theorem C31_complete :
  forall w m hash lines ts line p d, Shuffle hash -> Shuffle lines ->
    rows_on w m ts line p = [d] ->
    exists y, In y (prettify w m hash lines ts) /\ y_line y = line /\ In (p, d) (y_rows y).
Proof.
  intros w m hash lines ts line p d Hh Hl E.
  assert (M : merge None (rows_on w m ts line p) = Some d) by (rewrite E; auto).
  destruct (prettify_exists w m hash lines ts line p d Hl M) as (y & I & L).
  exists y. split; auto. split; auto. apply (prettify_rows w m hash lines ts y p d Hh Hl I). rewrite L. auto.
Qed.
Print Assumptions C31_complete.

(** [rows_on] are the rows that deserve to be shown on a line. *)
Theorem C31_candidates :
  forall w m ts line p d, In d (rows_on w m ts line p) <->
    exists l v t, In (l, v) ts /\ In t v /\ In (p, d) (t_data t) /\ InTime w t /\ Shown w m p d /\
      line_at w (line_end w (t_span t)) = line.
Proof. exact rows_on_In. Qed.
Print Assumptions C31_candidates.

Module Lines.
  (** Two lines of three characters; the spans are positions. *)
  Definition w (err : option nat) : world :=
    World [false; false; true; false; false; true] (fun s => s) err (fun p => negb (p =? 9)) (fun p => p) (fun p => 0).
  Definition gain := diff_data Tab.dead Tab.full.
  Definition loss := diff_data Tab.full Tab.dead.
  Definition t1 : table := Table 1 (Loc 0 0) (Loc 0 1) [(2, gain); (1, gain); (9, gain)].
  Definition t2 : table := Table 4 (Loc 0 1) (Loc 0 2) [(1, loss); (3, diff_data Tab.full Tab.full)].
  Definition ts : tables := [(Loc 0 1, [t1]); (Loc 0 2, [t2])].
End Lines.

Lemma Shuffle_id {A} : Shuffle (fun l : list A => l).
Proof. intros l. apply Permutation_refl. Qed.
Lemma Shuffle_rev {A} : Shuffle (@rev A).
Proof. intros l. apply Permutation_sym, Permutation_rev. Qed.

Example C31_witness :
  prettify (Lines.w (Some 5)) Changes (@rev _) (@rev _) Lines.ts =
    [Display 1 5 (Loc 0 1) (Loc 0 2) [(1, Lines.loss)];
     Display 0 2 (Loc 0 0) (Loc 0 1) [(1, Lines.gain); (2, Lines.gain)]] /\
  map y_line (prettify (Lines.w (Some 2)) Changes (@rev _) (@rev _) Lines.ts) = [0].
Proof. split; reflexivity. Qed.

(** Steps on the line of the first error that end before it are dropped, unless
    the error reaches the end of the line. *)
Theorem C31_error_line_refuted :
  exists w ts t p d, In t (flat_map snd ts) /\ In (p, d) (t_data t) /\ Shown w Changes p d /\
    (exists hi, w_error w = Some hi /\ w_hi w (t_span t) < hi) /\
    prettify w Changes (fun l => l) (fun l => l) ts = [].
Proof.
  exists (Lines.w (Some 1)), [(Loc 0 1, [Table 0 (Loc 0 0) (Loc 0 1) [(1, Lines.gain)]])]. eexists. exists 1, Lines.gain.
  split; [left; reflexivity|]. split; [left; reflexivity|]. split.
  { split; [reflexivity|]. split; [discriminate|reflexivity]. }
  split; [exists 1; split; [reflexivity|cbn; lia]|]. reflexivity.
Qed.
Print Assumptions C31_error_line_refuted.

(** ** C32: merging *)

(** The row of a place on a line is what is left of its changes after each
    change that undoes the one held is cancelled with it. *)
Theorem C32_merged :
  forall w m hash lines ts y p d, Shuffle hash -> Shuffle lines -> In y (prettify w m hash lines ts) ->
    (In (p, d) (y_rows y) <-> merge None (rows_on w m ts (y_line y) p) = Some d).
Proof. exact prettify_rows. Qed.
Print Assumptions C32_merged.

(** A line has an entry exactly when something is left for some place. *)
Theorem C32_line_iff :
  forall w m hash lines ts line, Shuffle hash -> Shuffle lines ->
    ((exists y, In y (prettify w m hash lines ts) /\ y_line y = line) <->
     exists p d, merge None (rows_on w m ts line p) = Some d).
Proof.
  intros w m hash lines ts line Hh Hl. split.
  - intros (y & I & <-). destruct (C31_rows_ordered w m hash lines ts y Hh Hl I) as [N _].
    destruct (y_rows y) as [|[p d] r] eqn:E; [congruence|]. exists p, d.
    apply (prettify_rows w m hash lines ts y p d Hh Hl I). rewrite E. left; auto.
  - intros (p & d & H). eapply prettify_exists; eauto.
Qed.
Print Assumptions C32_line_iff.

(** Two changes in a row are both hidden exactly when they lead back to the same
    permissions. *)
Theorem C32_two_cancel :
  forall x y z, merge None (changes x [y; z]) = None <-> permissions x = permissions z.
Proof.
  intros x y z. cbn [changes merge]. rewrite <- (symmetric_chain x y z).
  destruct (ddiff_symmetric (diff_data y z) (diff_data x y)); split; congruence.
Qed.
Print Assumptions C32_two_cancel.

(** The merged row is the net change when the place only goes back and forth
    between two states, and the changes come in the order in which they happen.  Missing
    for the full statement: more than two states, and the other orders. *)
Theorem C32_net_partial :
  forall x ys a b,
    (forall y, In y (x :: ys) -> permissions y = a \/ permissions y = b) ->
    (forall d, In d (changes x ys) -> ddiff_is_empty d = false) ->
    Net (merge None (changes x ys)) (permissions x) (permissions (last ys x)).
Proof. intros x ys a b H D. apply (merge_two_states ys x a b H D). Qed.
Print Assumptions C32_net_partial.

Example C32_net_witness :
  let ys := [Tab.full; Tab.dead; Tab.full] in
  (forall y, In y (Tab.dead :: ys) -> permissions y = permissions Tab.dead \/ permissions y = permissions Tab.full) /\
  (forall d, In d (changes Tab.dead ys) -> ddiff_is_empty d = false) /\
  merge None (changes Tab.dead ys) = Some Lines.gain /\
  merge None (changes Tab.dead [Tab.full; Tab.dead]) = None.
Proof.
  cbn zeta. split; [|split; [|split; reflexivity]].
  - intros y [<-|[<-|[<-|[<-|[]]]]]; auto.
  - intros d [<-|[<-|[<-|[]]]]; reflexivity.
Qed.

(** When every place changes at most once per line, the rows do not depend on the
    order of any hash map. *)
Theorem C32_order_partial :
  forall w m hash lines hash' lines' ts ts' y y',
    Shuffle hash -> Shuffle lines -> Shuffle hash' -> Shuffle lines' -> Permutation ts ts' ->
    (forall line p, length (rows_on w m ts line p) <= 1) ->
    In y (prettify w m hash lines ts) -> In y' (prettify w m hash' lines' ts') -> y_line y = y_line y' ->
    Permutation (y_rows y) (y_rows y').
Proof.
  intros w m hash lines hash' lines' ts ts' y y' H1 H2 H3 H4 P L I I' E.
  apply NoDup_Permutation.
  - apply NoDup_map_inv with (f := fst). exact (proj2 (proj2 (C31_rows_ordered _ _ _ _ _ _ H1 H2 I))).
  - apply NoDup_map_inv with (f := fst). exact (proj2 (proj2 (C31_rows_ordered _ _ _ _ _ _ H3 H4 I'))).
  - intros [p d]. rewrite (prettify_rows _ _ _ _ _ _ p d H1 H2 I), (prettify_rows _ _ _ _ _ _ p d H3 H4 I'), <- E.
    assert (Q : Permutation (rows_on w m ts (y_line y) p) (rows_on w m ts' (y_line y) p)).
    { unfold rows_on. do 2 apply Permutation_flat_map. auto. }
    specialize (L (y_line y) p). destruct (rows_on w m ts (y_line y) p) as [|a [|b r]].
    + apply Permutation_nil in Q. rewrite Q. tauto.
    + apply Permutation_length_1_inv in Q. rewrite Q. tauto.
    + cbn in L. lia.
Qed.
Print Assumptions C32_order_partial.

Example C32_order_witness : forall line p, length (rows_on (Lines.w None) Changes Lines.ts line p) <= 1.
Proof.
  intros line p. unfold rows_on. cbn. destruct line as [|[|line]]; cbn; try lia;
    destruct p as [|[|[|[|p]]]]; cbn; try lia; do 6 (try (destruct p as [|p]; cbn; try lia)).
Qed.

(** Gaining reading and then writing on one line shows the gain of reading only. *)
Theorem C32_net_refuted :
  exists x y z d, merge None (changes x [y; z]) = Some d /\ ~ Net (Some d) (permissions x) (permissions z) /\
    (forall d', In d' (changes x [y; z]) -> ddiff_is_empty d' = false).
Proof.
  exists Tab.dead, Tab.read, Tab.written. eexists. split; [reflexivity|]. split.
  - intros (_ & _ & H & _). discriminate.
  - intros d [<-|[<-|[]]]; reflexivity.
Qed.
Print Assumptions C32_net_refuted.

(** The same tables in another order give another result: a gain, a loss and a
    gain are shown as a gain or as nothing. *)
Theorem C32_order_refuted :
  exists w ts ts', Permutation ts ts' /\ NoDup (map fst ts) /\
    prettify w Changes (fun l => l) (fun l => l) ts <> [] /\
    prettify w Changes (fun l => l) (fun l => l) ts' = [].
Proof.
  set (a := (Loc 0 0, [Table 0 (Loc 0 0) (Loc 0 0) [(1, Lines.gain)]])).
  set (b := (Loc 0 1, [Table 0 (Loc 0 0) (Loc 0 1) [(1, Lines.loss)]])).
  set (c := (Loc 0 2, [Table 0 (Loc 0 1) (Loc 0 2) [(1, Lines.gain)]])).
  exists (Lines.w None), [a; b; c], [a; c; b]. split; [apply perm_skip, perm_swap|].
  split; [|split].
  - change (NoDup [Loc 0 0; Loc 0 1; Loc 0 2]). repeat constructor; cbn; intuition discriminate.
  - vm_compute. discriminate.
  - reflexivity.
Qed.
Print Assumptions C32_order_refuted.

(** In the mode that shows everything, two rows without a change cancel, and a
    row without a change hides a later change. *)
Theorem C32_all_mode_refuted :
  merge None (changes Tab.full [Tab.full; Tab.full]) = None /\
  merge None (changes Tab.full [Tab.full; Tab.lent]) = Some (diff_data Tab.full Tab.full) /\
  should_keep All (diff_data Tab.full Tab.full) = true /\
  permissions Tab.full <> permissions Tab.lent.
Proof. split; [reflexivity|]. split; [reflexivity|]. split; [reflexivity|]. discriminate. Qed.
Print Assumptions C32_all_mode_refuted.
