(** From tables to lines. *)
From Coq Require Import List Arith Bool Lia Permutation Sorted.
From Verif Require Import Base PermsModel PermsSpec PermsProofs CfgModel SegMirModel TablesModel TablesSpec TablesProofs.
Import ListNotations.

(** ** Line ends *)

Lemma to_newline_spec text : forall p, LineEnd text p (to_newline text p).
Proof.
  induction text as [|nl text IH]; intros p.
  - cbn. split; [auto|]. split; [intros; lia|right; cbn; lia].
  - destruct p as [|p]; cbn [to_newline].
    + destruct nl.
      * split; [auto|]. split; [intros; lia|left; auto].
      * destruct (IH 0) as (H1 & H2 & H3). split; [lia|]. split.
        -- intros [|k] Hk; auto. cbn. apply H2. lia.
        -- destruct H3 as [H3|H3]; [left; auto|right; cbn; lia].
    + destruct (IH p) as (H1 & H2 & H3). split; [lia|]. split.
      * intros [|k] Hk; [lia|]. cbn. apply H2. lia.
      * destruct H3 as [H3|H3]; [left; auto|right; cbn; lia].
Qed.

Lemma LineEnd_unique text p a b : LineEnd text p a -> LineEnd text p b ->
  a <= length text -> b <= length text -> a = b.
Proof.
  intros (A1 & A2 & A3) (B1 & B2 & B3) La Lb.
  destruct (lt_eq_lt_dec a b) as [[L|]|L]; auto; exfalso.
  - destruct A3 as [A3|A3]; [|lia]. rewrite B2 in A3 by lia. discriminate.
  - destruct B3 as [B3|B3]; [|lia]. rewrite A2 in B3 by lia. discriminate.
Qed.

Definition nls (text : list bool) (p : nat) : nat := length (filter (fun b => b) (firstn p text)).

Lemma nls_mono text : forall a b, a <= b -> nls text a <= nls text b.
Proof.
  unfold nls. induction text as [|x text IH]; intros a b H.
  - rewrite !firstn_nil. auto.
  - destruct a; cbn; [lia|]. destruct b; [lia|]. cbn. destruct x; cbn; [apply le_n_S|]; apply IH; lia.
Qed.

Lemma nls_lt text : forall a b, a < b -> nth_error text a = Some true -> nls text a < nls text b.
Proof.
  unfold nls. induction text as [|x text IH]; intros a b H E; [destruct a; discriminate|].
  destruct b; [lia|]. destruct a; cbn in E |- *.
  - injection E as ->. cbn. lia.
  - destruct x; cbn; [apply -> Nat.succ_lt_mono|]; apply IH; auto; lia.
Qed.

(** On one line there is one line end. *)
Lemma line_one_end text p q a b : LineEnd text p a -> LineEnd text q b -> a <= length text -> b <= length text ->
  nls text a = nls text b -> a = b.
Proof.
  intros (A1 & A2 & A3) (B1 & B2 & B3) La Lb E.
  destruct (lt_eq_lt_dec a b) as [[L|]|L]; auto; exfalso.
  - destruct A3 as [A3|A3]; [|lia]. pose proof (nls_lt text a b L A3). lia.
  - destruct B3 as [B3|B3]; [|lia]. pose proof (nls_lt text b a L B3). lia.
Qed.

Lemma to_newline_le text : forall p, p <= length text -> to_newline text p <= length text.
Proof.
  induction text as [|nl text IH]; intros p H; cbn in *; auto.
  destruct p as [|p]; [destruct nl|]; [lia| |]; apply le_n_S, IH; lia.
Qed.

(** ** Grouping by line *)

Definition keep_rows (w : world) (m : mode) (t : table) : list (PlaceId * DataDiff) :=
  filter (fun pd => w_visible w (fst pd) && should_keep m (snd pd)) (t_data t).

Definition mk_entry (w : world) (m : mode) (t : table) : entry :=
  Entry (t_from t) (t_to t) (line_end w (t_span t)) (keep_rows w m t).

Definition in_time (w : world) (t : table) : bool :=
  match w_error w with Some hi => line_end w (t_span t) <=? hi | None => true end.

Definition on_line (w : world) (m : mode) (line : nat) (t : table) : bool :=
  (match keep_rows w m t with [] => false | _ => true end) && in_time w t
  && (line_at w (line_end w (t_span t)) =? line).

Definition entries_of (acc : list (nat * list entry)) (line : nat) : list entry :=
  match aget Nat.eq_dec acc line with Some v => v | None => [] end.

Lemma filter_table_entries w m acc t line :
  entries_of (filter_table w m acc t) line =
  entries_of acc line ++ (if on_line w m line t then [mk_entry w m t] else []).
Proof.
  unfold filter_table, on_line, in_time, mk_entry. fold (keep_rows w m t).
  replace (match w_error w with Some hi => line_end w (t_span t) <=? hi | None => true end)
    with (negb (match w_error w with Some hi => hi <? line_end w (t_span t) | None => false end)).
  2:{ destruct (w_error w) as [hi|]; auto. rewrite Nat.ltb_antisym, negb_involutive. auto. }
  set (rows := keep_rows w m t).
  assert (R : (match rows with [] => false | _ :: _ => true end) = negb (match rows with [] => true | _ :: _ => false end))
    by (destruct rows; auto).
  rewrite R. set (b := match rows with [] => true | _ :: _ => false end).
  set (c := match w_error w with Some hi => hi <? line_end w (t_span t) | None => false end).
  destruct b, c; cbn [orb negb andb]; try (rewrite app_nil_r; auto; fail).
  unfold entries_of. rewrite aget_aset. rewrite Nat.eqb_sym.
  destruct (Nat.eq_dec line (line_at w (line_end w (t_span t)))) as [->|N].
  - rewrite Nat.eqb_refl. auto.
  - apply Nat.eqb_neq in N. rewrite N, app_nil_r. auto.
Qed.

Lemma filter_table_keys w m acc t : NoDup (akeys acc) -> NoDup (akeys (filter_table w m acc t)).
Proof.
  intros H. unfold filter_table. destruct (_ || _); auto. apply NoDup_aset. auto.
Qed.

Lemma semi_entries w m ts line :
  entries_of (semi_filtered w m ts) line = map (mk_entry w m) (filter (on_line w m line) (flat_map snd ts)).
Proof.
  unfold semi_filtered. set (l := flat_map snd ts).
  enough (G : forall acc, entries_of (fold_left (filter_table w m) l acc) line =
    entries_of acc line ++ map (mk_entry w m) (filter (on_line w m line) l)) by apply (G []).
  induction l as [|t l IH]; intros acc; cbn [fold_left].
  - cbn. rewrite app_nil_r. auto.
  - rewrite IH, filter_table_entries, <- app_assoc. f_equal. cbn [filter]. destruct (on_line w m line t); auto.
Qed.

Lemma semi_keys w m ts : NoDup (akeys (semi_filtered w m ts)).
Proof.
  unfold semi_filtered. set (l := flat_map snd ts).
  assert (G : forall acc, NoDup (akeys acc) -> NoDup (akeys (fold_left (filter_table w m) l acc))).
  { induction l as [|t l IH]; intros acc H; cbn [fold_left]; auto. apply IH, filter_table_keys, H. }
  apply G. constructor.
Qed.

(** ** Combining *)

Definition of_place (p : PlaceId) (rows : list (PlaceId * DataDiff)) : list DataDiff :=
  map snd (filter (fun pd => fst pd =? p) rows).

Lemma combine_row_aget acc q d p : NoDup (akeys acc) ->
  aget Nat.eq_dec (combine_row acc (q, d)) p =
  if q =? p then merge (aget Nat.eq_dec acc p) [d] else aget Nat.eq_dec acc p.
Proof.
  intros ND. unfold combine_row. cbn [fst snd]. destruct (Nat.eqb_spec q p) as [->|N].
  - destruct (aget Nat.eq_dec acc p) as [old|] eqn:E; cbn.
    + destruct (ddiff_symmetric d old); auto. apply aget_adel_eq.
    + apply aget_aset_eq.
  - destruct (aget Nat.eq_dec acc q) as [old|].
    + destruct (ddiff_symmetric d old); auto. apply aget_adel_neq. auto.
    + apply aget_aset_neq. auto.
Qed.

Lemma combine_row_keys acc pd : NoDup (akeys acc) -> NoDup (akeys (combine_row acc pd)).
Proof.
  intros ND. unfold combine_row. destruct (aget _ _ _); [destruct (ddiff_symmetric _ _)|]; auto.
  - apply NoDup_adel; auto.
  - apply NoDup_aset; auto.
Qed.

Lemma merge_app a b : forall acc, merge acc (a ++ b) = merge (merge acc a) b.
Proof.
  induction a as [|d a IH]; intros acc; cbn; auto.
  destruct acc as [old|]; [destruct (ddiff_symmetric d old)|]; apply IH.
Qed.

Lemma combine_rows rows : forall acc, NoDup (akeys acc) ->
  NoDup (akeys (fold_left combine_row rows acc)) /\
  forall p, aget Nat.eq_dec (fold_left combine_row rows acc) p = merge (aget Nat.eq_dec acc p) (of_place p rows).
Proof.
  induction rows as [|[q d] rows IH]; intros acc ND; cbn [fold_left].
  - split; auto.
  - destruct (IH _ (combine_row_keys acc (q, d) ND)) as [H1 H2]. split; auto.
    intros p. rewrite H2, combine_row_aget by auto. unfold of_place. cbn [filter fst].
    destruct (q =? p); auto. rewrite <- merge_app. auto.
Qed.

Lemma combined_spec es : NoDup (akeys (combined es)) /\
  forall p d, In (p, d) (combined es) <-> merge None (of_place p (flat_map n_rows es)) = Some d.
Proof.
  destruct (combine_rows (flat_map n_rows es) [] (NoDup_nil _)) as [ND G].
  split; auto. intros p d. specialize (G p). cbn [aget] in G. rewrite <- G. split.
  - apply In_aget. auto.
  - apply aget_Some_In.
Qed.

(** ** Sorting *)

Lemma key_le_iff w a b : key_le w a b = true <-> RowLe w a b.
Proof.
  unfold key_le, RowLe. rewrite orb_true_iff, andb_true_iff, Nat.ltb_lt, Nat.eqb_eq, Nat.leb_le. tauto.
Qed.

Lemma key_le_false w a b : key_le w a b = false -> RowLe w b a.
Proof.
  intros H. assert (N : ~ RowLe w a b) by (rewrite <- key_le_iff; congruence).
  unfold RowLe in *. lia.
Qed.

Lemma RowLe_trans w a b c : RowLe w a b -> RowLe w b c -> RowLe w a c.
Proof. unfold RowLe. lia. Qed.

Lemma insert_row_perm w x l : Permutation (insert_row w x l) (x :: l).
Proof.
  induction l as [|y l IH]; cbn; auto. destruct (key_le w x y); auto.
  eapply perm_trans; [apply perm_skip, IH|]. apply perm_swap.
Qed.

Lemma insert_row_sorted w x l : StronglySorted (RowLe w) l -> StronglySorted (RowLe w) (insert_row w x l).
Proof.
  induction 1 as [|y l H IH F]; cbn.
  - constructor; constructor.
  - destruct (key_le w x y) eqn:E.
    + apply key_le_iff in E. constructor; [constructor; auto|]. constructor; auto.
      eapply Forall_impl; [|exact F]. intros z. apply RowLe_trans. auto.
    + apply key_le_false in E. constructor; auto. apply Forall_forall. intros z Iz.
      eapply Permutation_in in Iz; [|apply insert_row_perm]. destruct Iz as [<-|Iz]; auto.
      eapply Forall_forall in F; eauto.
Qed.

Lemma sort_rows_perm w l : Permutation (sort_rows w l) l.
Proof.
  induction l as [|x l IH]; cbn; auto. eapply perm_trans; [apply insert_row_perm|]. auto.
Qed.

Lemma sort_rows_sorted w l : StronglySorted (RowLe w) (sort_rows w l).
Proof. induction l; cbn; [constructor|]. apply insert_row_sorted. auto. Qed.

(** ** Lines *)

Lemma show_line_spec w hash le y : Shuffle hash -> In y (show_line w hash le) ->
  exists first rest, snd le = first :: rest /\ y_line y = fst le /\ y_pos y = n_pos first /\
    y_from y = n_from first /\ y_to y = n_to first /\
    Permutation (y_rows y) (combined (snd le)) /\ y_rows y <> [] /\ StronglySorted (RowLe w) (y_rows y).
Proof.
  intros Hh I. unfold show_line in I. destruct (snd le) as [|first rest] eqn:E; [destruct I|].
  destruct (combined (first :: rest)) as [|r rs] eqn:C; [destruct I|]. destruct I as [<-|[]].
  exists first, rest. cbn.
  assert (P : Permutation (sort_rows w (hash (r :: rs))) (r :: rs))
    by (eapply perm_trans; [apply sort_rows_perm|apply Hh]).
  repeat (split; auto).
  - intros N. rewrite N in P. apply Permutation_nil in P. discriminate.
  - apply sort_rows_sorted.
Qed.

Lemma show_line_some w hash le : snd le <> [] -> combined (snd le) <> [] -> exists y, In y (show_line w hash le).
Proof.
  unfold show_line. destruct (snd le) as [|first rest]; [congruence|]. intros _.
  destruct (combined (first :: rest)); [congruence|]. eexists. left. reflexivity.
Qed.

Lemma rows_on_entries w m ts line p :
  of_place p (flat_map n_rows (entries_of (semi_filtered w m ts) line)) = rows_on w m ts line p.
Proof.
  rewrite semi_entries. unfold rows_on. set (l := flat_map snd ts). induction l as [|t l IH]; auto.
  cbn [filter flat_map]. rewrite <- IH. clear IH. unfold on_line at 1. fold (in_time w t).
  set (c := (line_at w (line_end w (t_span t)) =? line)).
  assert (K : map snd (filter (fun pd => (fst pd =? p) && w_visible w p && should_keep m (snd pd)) (t_data t)) =
              of_place p (keep_rows w m t)).
  { unfold of_place, keep_rows. induction (t_data t) as [|[q d] r IH]; auto. cbn [filter fst snd].
    destruct (Nat.eqb_spec q p) as [->|N]; cbn [andb].
    - destruct (w_visible w p && should_keep m d) eqn:E; cbn [filter fst]; [rewrite Nat.eqb_refl; cbn; f_equal|]; auto.
    - destruct (w_visible w q && should_keep m d); cbn [filter fst]; auto.
      apply Nat.eqb_neq in N. rewrite N. auto. }
  rewrite K. clear K.
  destruct (in_time w t) eqn:Et, c; cbn [andb];
    try (replace (_ && false && _) with false by (destruct (keep_rows w m t); auto);
         replace (_ && _ && false) with false by (destruct (keep_rows w m t); auto)); cbn [map flat_map app]; auto.
  - destruct (keep_rows w m t) as [|r rs] eqn:E; cbn [andb map flat_map]; auto.
    unfold of_place. rewrite filter_app, map_app. cbn [mk_entry n_rows]. rewrite E. auto.
  - rewrite andb_false_r. auto.
  - rewrite andb_false_r. auto.
  - rewrite andb_false_r. auto.
Qed.

Lemma semi_In w m ts line es : In (line, es) (semi_filtered w m ts) ->
  es = entries_of (semi_filtered w m ts) line.
Proof.
  intros I. unfold entries_of. rewrite (In_aget _ _ Nat.eq_dec _ line es); auto. apply semi_keys.
Qed.

Lemma prettify_In w m hash lines ts y : Shuffle hash -> Shuffle lines -> In y (prettify w m hash lines ts) ->
  exists es, In (y_line y, es) (semi_filtered w m ts) /\ In y (show_line w hash (y_line y, es)).
Proof.
  intros Hh Hl I. apply in_flat_map in I as ([line es] & I & Iy).
  destruct (show_line_spec w hash _ y Hh Iy) as (f & r & _ & E & _). cbn in E. subst line.
  exists es. split; auto. eapply Permutation_in; [apply Hl|exact I].
Qed.

(** The rows of a line are the merged changes. *)
Lemma prettify_rows w m hash lines ts y p d : Shuffle hash -> Shuffle lines -> In y (prettify w m hash lines ts) ->
  (In (p, d) (y_rows y) <-> merge None (rows_on w m ts (y_line y) p) = Some d).
Proof.
  intros Hh Hl I. destruct (prettify_In _ _ _ _ _ _ Hh Hl I) as (es & Ie & Iy).
  destruct (show_line_spec w hash _ y Hh Iy) as (f & r & _ & _ & _ & _ & _ & P & _). cbn [snd] in P.
  apply semi_In in Ie. rewrite <- rows_on_entries, <- Ie.
  destruct (combined_spec es) as [_ C]. rewrite <- C. split; apply Permutation_in; auto using Permutation_sym.
Qed.

Lemma prettify_exists w m hash lines ts line p d : Shuffle lines ->
  merge None (rows_on w m ts line p) = Some d -> exists y, In y (prettify w m hash lines ts) /\ y_line y = line.
Proof.
  intros Hl H. rewrite <- rows_on_entries in H.
  destruct (combined_spec (entries_of (semi_filtered w m ts) line)) as [_ C]. apply C in H. clear C.
  assert (N : combined (entries_of (semi_filtered w m ts) line) <> []) by (intros E; rewrite E in H; destruct H).
  unfold entries_of in N. destruct (aget Nat.eq_dec (semi_filtered w m ts) line) as [es|] eqn:E; [|cbn in N; congruence].
  apply aget_Some_In in E. destruct (show_line_some w hash (line, es)) as (y & Iy); auto.
  { cbn. intros ->. apply N. auto. }
  exists y. split.
  - apply in_flat_map. exists (line, es). split; auto. eapply Permutation_in; [apply Permutation_sym, Hl|auto].
  - unfold show_line in Iy. cbn [fst snd] in Iy. destruct es as [|e0 er]; [destruct Iy|].
    destruct (combined (e0 :: er)); [destruct Iy|]. destruct Iy as [<-|[]]. auto.
Qed.

Lemma show_line_lines w hash le : (length (show_line w hash le) <= 1) /\ forall y, In y (show_line w hash le) -> y_line y = fst le.
Proof.
  unfold show_line. destruct (snd le) as [|f r]; [split; [cbn; auto|intros y []]|].
  destruct (combined (f :: r)); [split; [cbn; auto|intros y []]|].
  split; auto. intros y [<-|[]]. auto.
Qed.

Lemma prettify_once w m hash lines ts : Shuffle hash -> Shuffle lines -> NoDup (map y_line (prettify w m hash lines ts)).
Proof.
  intros Hh Hl. unfold prettify.
  assert (ND : NoDup (akeys (lines (semi_filtered w m ts)))).
  { unfold akeys. eapply Permutation_NoDup; [apply Permutation_map, Permutation_sym, Hl|]. apply semi_keys. }
  induction (lines (semi_filtered w m ts)) as [|le l IH]; cbn; [constructor|].
  cbn in ND. inversion ND as [|? ? N1 N2]; subst. rewrite map_app. apply NoDup_app_intro; auto.
  - destruct (show_line_lines w hash le) as [L _]. destruct (show_line w hash le) as [|y [|z r]]; cbn in *.
    + constructor.
    + constructor; [auto|constructor].
    + lia.
  - intros x I1 I2. apply in_map_iff in I1 as (y1 & E1 & I1). apply in_map_iff in I2 as (y2 & E2 & I2).
    apply (proj2 (show_line_lines w hash le)) in I1. apply in_flat_map in I2 as (le2 & I2 & I3).
    apply (proj2 (show_line_lines w hash le2)) in I3. apply N1. unfold akeys.
    replace (fst le) with (fst le2) by congruence. apply in_map. auto.
Qed.

(** Where merged changes come from. *)
Lemma merge_In ds : forall acc d, merge acc ds = Some d -> acc = Some d \/ In d ds.
Proof.
  induction ds as [|x ds IH]; intros acc d H; cbn in H; auto.
  destruct acc as [old|].
  - destruct (ddiff_symmetric x old); apply IH in H as [H|H]; auto; try discriminate; right; right; auto.
  - apply IH in H as [H|H]; [injection H as <-; right; left; auto|right; right; auto].
Qed.

Lemma should_keep_iff m d : should_keep m d = true <->
  dd_is_live d <> NoStep (Some false) /\ (m = Changes -> ddiff_is_empty d = false).
Proof.
  unfold should_keep. rewrite negb_true_iff, orb_false_iff, andb_false_iff. split.
  - intros [H1 H2]. split; [intros E; rewrite E in H1; discriminate|].
    intros ->. destruct H2 as [H2|H2]; [discriminate|auto].
  - intros [H1 H2]. split.
    + destruct (dd_is_live d) as [| |[[|]|]]; auto. congruence.
    + destruct m; auto.
Qed.

Lemma in_time_iff w t : in_time w t = true <-> InTime w t.
Proof.
  unfold in_time, InTime. destruct (w_error w) as [hi|].
  - rewrite Nat.leb_le. split; [intros H h [= <-]; auto|intros H; auto].
  - split; [discriminate|auto].
Qed.

Lemma rows_on_In w m ts line p d : In d (rows_on w m ts line p) <->
  exists l v t, In (l, v) ts /\ In t v /\ In (p, d) (t_data t) /\ InTime w t /\ Shown w m p d /\
    line_at w (line_end w (t_span t)) = line.
Proof.
  unfold rows_on. rewrite in_flat_map. split.
  - intros (t & It & I). apply in_flat_map in It as ([l v] & I1 & I2). fold (in_time w t) in I.
    destruct (line_at w (line_end w (t_span t)) =? line) eqn:El; [|destruct I].
    destruct (in_time w t) eqn:Et; [|destruct I]. cbn [andb] in I.
    apply in_map_iff in I as ([q x] & <- & I). apply filter_In in I as [I F]. cbn in F |- *.
    rewrite !andb_true_iff, Nat.eqb_eq in F. destruct F as [[-> V] K].
    exists l, v, t. apply in_time_iff in Et. apply Nat.eqb_eq in El. apply should_keep_iff in K as [K1 K2].
    repeat (split; auto).
  - intros (l & v & t & I1 & I2 & I3 & HT & (V & K1 & K2) & El). exists t. split.
    { apply in_flat_map. exists (l, v). auto. }
    fold (in_time w t). apply in_time_iff in HT. rewrite HT, El, Nat.eqb_refl. cbn [andb].
    apply in_map_iff. exists (p, d). split; auto. apply filter_In. split; auto. cbn.
    rewrite Nat.eqb_refl, V. cbn. apply should_keep_iff. auto.
Qed.

(** The position shown for a line. *)
Lemma prettify_pos w m hash lines ts y : Shuffle hash -> Shuffle lines -> In y (prettify w m hash lines ts) ->
  exists l v t, In (l, v) ts /\ In t v /\ y_pos y = line_end w (t_span t) /\ y_line y = line_at w (y_pos y) /\
    y_from y = t_from t /\ y_to y = t_to t /\ InTime w t.
Proof.
  intros Hh Hl I. destruct (prettify_In _ _ _ _ _ _ Hh Hl I) as (es & Ie & Iy).
  destruct (show_line_spec w hash _ y Hh Iy) as (f & r & E & _ & P & F & T & _). cbn [snd] in E.
  apply semi_In in Ie. rewrite semi_entries in Ie. subst es.
  assert (If : In f (map (mk_entry w m) (filter (on_line w m (y_line y)) (flat_map snd ts)))) by (rewrite E; left; auto).
  apply in_map_iff in If as (t & <- & It). apply filter_In in It as [It O].
  apply in_flat_map in It as ([l v] & I1 & I2). exists l, v, t. cbn in *.
  unfold on_line in O. rewrite !andb_true_iff, Nat.eqb_eq, in_time_iff in O.
  repeat (split; auto); try tauto. rewrite P. symmetry. tauto.
Qed.

(** ** Merging a chain of states *)

Lemma symmetric_sym a b : ddiff_symmetric a b = ddiff_symmetric b a.
Proof.
  unfold ddiff_symmetric.
  assert (V : forall A (x y : ValueStep A), vs_symmetric x y = vs_symmetric y x) by (intros A [] []; auto).
  rewrite (V _ (pd_read _)), (V _ (pd_write _)), (V _ (pd_drop _)). auto.
Qed.

(** Two changes in a row cancel exactly when they lead back. *)
Lemma symmetric_chain x y z : ddiff_symmetric (diff_data y z) (diff_data x y) = true <-> permissions x = permissions z.
Proof.
  unfold ddiff_symmetric. cbn.
  destruct (permissions x) as [a b c], (permissions y) as [a' b' c'], (permissions z) as [a'' b'' c'']. cbn.
  assert (V : forall u v t, vs_symmetric (diff_bool v t) (diff_bool u v) = eqb u t) by (intros [] [] []; auto).
  rewrite !V, !andb_true_iff, !eqb_true_iff. split.
  - intros [[-> ->] ->]. auto.
  - intros [=]. auto.
Qed.

(** Several changes of a place that goes back and forth between two states. *)
Lemma merge_two_states ys : forall x a b,
  (forall y, In y (x :: ys) -> permissions y = a \/ permissions y = b) ->
  (forall d, In d (changes x ys) -> ddiff_is_empty d = false) ->
  Net (merge None (changes x ys)) (permissions x) (permissions (last ys x)) /\
  forall u, permissions u <> permissions x -> (permissions u = a \/ permissions u = b) ->
    Net (merge (Some (diff_data u x)) (changes x ys)) (permissions u) (permissions (last ys x)).
Proof.
  induction ys as [|y ys IH]; intros x a b H D.
  - cbn. split; auto. intros u N _. split; auto.
    destruct (permissions u) as [r w o], (permissions x) as [r' w' o']; cbn. destruct r, r', w, w', o, o'; auto.
  - assert (Nxy : permissions x <> permissions y).
    { intros E. apply ddiff_empty_iff in E. rewrite (D (diff_data x y)) in E by (left; auto). discriminate. }
    destruct (IH y a b) as [IH1 IH2].
    { intros z Iz. apply H. right. auto. }
    { intros d Id. apply D. right. auto. }
    assert (Hx := H x (or_introl eq_refl)). assert (Hy := H y (or_intror (or_introl eq_refl))).
    replace (last (y :: ys) x) with (last ys y).
    2:{ clear. destruct ys as [|z ys]; auto. cbn [last]. revert z.
        induction ys as [|t ys IH]; intros z; auto. cbn [last] in *. apply IH. }
    split.
    + cbn [changes merge]. apply IH2; auto.
    + intros u Nu Hu. cbn [changes merge].
      assert (E : permissions u = permissions y) by (destruct Hu, Hx, Hy; congruence).
      rewrite (proj2 (symmetric_chain u x y) E). rewrite E. auto.
Qed.

(** The table that gives an entry its position has a row that deserves to be shown. *)
Lemma prettify_first w m hash lines ts y : Shuffle hash -> Shuffle lines -> In y (prettify w m hash lines ts) ->
  exists l v t p d, In (l, v) ts /\ In t v /\ y_pos y = line_end w (t_span t) /\ y_line y = line_at w (y_pos y) /\
    y_from y = t_from t /\ y_to y = t_to t /\ InTime w t /\ In (p, d) (t_data t) /\ Shown w m p d.
Proof.
  intros Hh Hl I. destruct (prettify_In _ _ _ _ _ _ Hh Hl I) as (es & Ie & Iy).
  destruct (show_line_spec w hash _ y Hh Iy) as (f & r & E & _ & P & F & T & _). cbn [snd] in E.
  apply semi_In in Ie. rewrite semi_entries in Ie. subst es.
  assert (If : In f (map (mk_entry w m) (filter (on_line w m (y_line y)) (flat_map snd ts)))) by (rewrite E; left; auto).
  apply in_map_iff in If as (t & <- & It). apply filter_In in It as [It O].
  apply in_flat_map in It as ([l v] & I1 & I2). exists l, v, t. cbn in *.
  unfold on_line in O. rewrite !andb_true_iff, Nat.eqb_eq, in_time_iff in O. destruct O as [[O1 O2] O3].
  destruct (keep_rows w m t) as [|[p d] ks] eqn:K; [discriminate|]. exists p, d.
  assert (Ik : In (p, d) (keep_rows w m t)) by (rewrite K; left; auto). unfold keep_rows in Ik. apply filter_In in Ik as [Ik Ev].
  cbn [fst snd] in Ev. apply andb_true_iff in Ev as [Ev Es]. apply should_keep_iff in Es as [Es1 Es2].
  repeat (split; auto). congruence.
Qed.
