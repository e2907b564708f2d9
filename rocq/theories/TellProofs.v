(** * Proofs about the answer for one function *)
From Coq Require Import Ascii String.
From Coq Require Import List Arith Bool Lia.
From Verif Require Import Base PermsModel PermsProofs FactsModel FactsSpec FactsProofs FlowModel FlowSpec SpansModel SpansSpec BoundariesModel
  BoundariesSpec BoundariesProofs PropBoundaries UsesModel UsesSpec UsesProofs CfgModel SegMirModel HirModel TablesModel TablesSpec StepsModel TellModel TellSpec.
From Verif Require BookModel StepsSpec StepsProofs DrawModel DrawSpec EditorModel EditorSpec PropEditor.
Import ListNotations.

Section Function.
  Variable k : asked.
  Hypothesis Snd : Sound k.
  Notation f := (k_fn k).
  Notation env := (fn_uses (k_fn k)).

  Lemma state_of x p u : query (ue_inp env) (ue_out env) x p = Some u -> StepsSpec.StateOf (ue_inp env) x p u.
  Proof.
    intros Q. destruct (sound_uses _ Snd) as (D & _).
    set (se := Senv (se_hir (fn_steps f)) (ue_inp env) (ue_out env) (se_point (fn_steps f)) (se_visible (fn_steps f)) (se_name (fn_steps f))
      (se_text (fn_steps f)) (se_hi (fn_steps f)) (se_reach (fn_steps f)) (se_local (fn_steps f))).
    exact (proj1 (StepsProofs.query_state se D x p u Q)).
  Qed.

  Lemma data_spec pb b d : boundary_with_data env pb = Some (Some (b, d)) ->
    path_to_perm_boundary env pb = Some (Some b) /\
    exists loc x, Resolves env pb loc x /\ ActualPermissions (ue_inp env) x (ue_start env loc) (b_actual b) /\
      StepsSpec.StateOf (ue_inp env) x (ue_start env loc) d.
  Proof.
    unfold boundary_with_data. destruct (path_to_perm_boundary env pb) as [[b'|]|] eqn:P; [|discriminate|discriminate].
    pose proof (C54_nearest_ancestor (ue_visible env) (ue_stmt env) (ue_locs env) (ue_similar env) (pb_lhs pb)
      (pb_hir pb) (ue_parents env (pb_hir pb))) as R.
    unfold path_to_perm_boundary in P. destruct (resolve _ _ _ _ _ _ _) as [[loc x]|]; [|discriminate].
    destruct (query (ue_inp env) (ue_out env) x (ue_start env loc)) as [u|] eqn:Q; [|discriminate]. cbn [option_map]. intros [= <- <-].
    split; [reflexivity|]. exists loc, x. split; [exact R|]. split; [|apply state_of; exact Q].
    destruct (flow_of _ _ _) as [fl|]; [|discriminate]. destruct (ue_chars _ _) as [c|]; [|discriminate]. destruct (ue_bytes _ _) as [y|]; [|discriminate].
    injection P as <-. cbn [b_actual].
    destruct (query_can (ue_inp env) (ue_out env) (proj1 (sound_uses _ Snd)) x (ue_start env loc) u Q) as (A1 & A2 & A3).
    destruct (perms_ignore_spec u) as (P1 & P2 & P3). unfold ActualPermissions. rewrite P1, P2, P3, A1, A2, A3. tauto.
  Qed.

  Lemma data_some pb b : path_to_perm_boundary env pb = Some (Some b) -> exists d, boundary_with_data env pb = Some (Some (b, d)).
  Proof.
    intros P. unfold boundary_with_data. rewrite P. unfold path_to_perm_boundary in P.
    destruct (resolve _ _ _ _ _ _ _) as [[loc x]|]; [|discriminate].
    destruct (query (ue_inp env) (ue_out env) x (ue_start env loc)) as [u|]; [|discriminate]. cbn [option_map]. eauto.
  Qed.

  Definition keep (err : option nat) (b : Boundary * PData) : bool :=
    match err with None => true | Some e => is_some (b_flow (fst b)) || (b_byte (fst b) <=? e) end.

  Lemma function_boundaries_in bs b d : function_boundaries f (k_state k) = Some bs ->
    (In (b, d) bs <-> Kept env (k_errors k) b /\ exists pb, In pb (get_path_boundaries (fn_body f)) /\ boundary_with_data env pb = Some (Some (b, d))).
  Proof.
    unfold function_boundaries. destruct (first_error_end env (k_state k) (fn_id f)) as [err|] eqn:E; [|discriminate].
    destruct (traverse _ _) as [rs|] eqn:T; [|discriminate]. intros [= <-]. rewrite filter_In, in_flat_map.
    rewrite <- (kept_spec env (k_state k) (fn_id f) (k_errors k) (sound_errors _ Snd) b err E). cbn [fst].
    assert (K : (match err with None => true | Some e => is_some (b_flow b) || (b_byte b <=? e) end) = true <->
      (err = None \/ b_flow b <> None \/ exists n, err = Some n /\ b_byte b <= n)).
    { destruct err as [e|]; [|tauto]. rewrite orb_true_iff, Nat.leb_le. split.
      - intros [H|H]; [|eauto]. right. left. destruct (b_flow b); [discriminate|discriminate H].
      - intros [H|[H|(n & [= <-] & H)]]; [discriminate H| |auto]. left. destruct (b_flow b); [reflexivity|congruence]. }
    rewrite K. split.
    - intros [(r & Ir & Ib) H]. split; [exact H|]. destruct r as [r|]; [|destruct Ib]. destruct Ib as [->|[]].
      apply (traverse_Some _ _ _ T) in Ir. exact Ir.
    - intros [H (pb & Ip & P)]. split; [|exact H]. exists (Some (b, d)). split; [|left; reflexivity]. apply (traverse_Some _ _ _ T). eauto.
  Qed.

  Lemma boundaries_none : function_boundaries f (k_state k) = None -> boundaries_of env (k_state k) (fn_id f) (fn_body f) = None.
  Proof.
    unfold function_boundaries, boundaries_of. destruct (first_error_end env (k_state k) (fn_id f)) as [err|]; [|reflexivity].
    destruct (traverse (path_to_perm_boundary env) (get_path_boundaries (fn_body f))) as [rs|] eqn:T; [|reflexivity].
    enough (exists bs, traverse (boundary_with_data env) (get_path_boundaries (fn_body f)) = Some bs) as [bs ->] by discriminate.
    revert rs T. induction (get_path_boundaries (fn_body f)) as [|pb l IH]; cbn [traverse]; intros rs T; [eauto|].
    destruct (path_to_perm_boundary env pb) as [r|] eqn:P; [|discriminate]. destruct (traverse (path_to_perm_boundary env) l) as [rs'|]; [|discriminate].
    destruct (IH rs' eq_refl) as [bs ->]. enough (exists x, boundary_with_data env pb = Some x) as [x ->] by eauto.
    destruct r as [b|]; [destruct (data_some _ _ P) as [d D]; eauto|]. unfold boundary_with_data. rewrite P. eauto.
  Qed.

  Lemma flow_one ctx use r fb : FlowRequired env (k_flow k) ctx use r -> FlowRequired env (k_flow k) ctx use (Some fb) -> r <> None.
  Proof.
    intros R (En & Lu & (c & (H & T)) & _) ->. cbn in R. destruct R as [R|[R|[R|R]]]; [congruence| |congruence|exact (R c H T)].
    destruct H as (_ & _ & _ & ls & l & L & _). congruence.
  Qed.

  Lemma ends_one pb c y c' y' : EndsAt f pb c y -> EndsAt f pb c' y' -> c = c' /\ y = y'.
  Proof.
    intros (s & rc & ry & L & C & B & <- & <-) (s' & rc' & ry' & L' & C' & B' & <- & <-).
    assert (s' = s) by (destruct L as [L|[L ->]], L' as [L'|[L' ->]]; congruence). subst s'. split; congruence.
  Qed.

  (** Sound. *)
  Lemma told_use bs b d : function_boundaries f (k_state k) = Some bs -> In (b, d) bs ->
    exists pb loc x c y, UseOf f pb loc x /\ EndsAt f pb c y /\ b_location b = c /\ b_byte b = y /\ Visible k pb /\
      ActualPermissions (ue_inp env) x (ue_start env loc) (b_actual b) /\ StepsSpec.StateOf (ue_inp env) x (ue_start env loc) d /\
      b_expected b = pb_expected pb /\ FlowRequired env (k_flow k) (pb_context pb) (pb_hir pb) (b_flow b).
  Proof.
    intros E I. apply (function_boundaries_in _ _ _ E) in I. destruct I as [Kp (pb & Ip & P)].
    destruct (data_spec _ _ _ P) as (Q & loc & x & R & A & U). pose proof (path_spec env (k_flow k) (sound_uses _ Snd) pb) as S'. rewrite Q in S'.
    destruct S' as (_ & Ex & Fl & (s & rc & ry & L & C & B & E1 & E2)). apply visit_iff in Ip as (fc & e & Re & Us).
    assert (EA : EndsAt f pb (b_location b) (b_byte b)) by (exists s, rc, ry; auto).
    exists pb, loc, x, (b_location b), (b_byte b). split; [split; [eauto|exact R]|]. split; [exact EA|]. split; [reflexivity|]. split; [reflexivity|].
    split; [|auto]. destruct Kp as [H|[H|(z & H & [H'|(z' & r & H1 & H2 & H3)])]].
    - left. destruct (b_flow b) as [fb|]; [eauto|congruence].
    - right. left. exact H.
    - right. right. eauto.
    - right. right. exists z. split; [exact H|]. right. exists z', r, (b_location b), (b_byte b). auto.
  Qed.

  (** Complete. *)
  Lemma all_told bs fc e pb : function_boundaries f (k_state k) = Some bs ->
    Reached (eid (fn_body f)) (fn_body f) fc e -> UseSite fc e pb -> Visible k pb ->
    Unresolved env pb \/ exists b d, In (b, d) bs /\ EndsAt f pb (b_location b) (b_byte b).
  Proof.
    intros E Re Us V. assert (Ip : In pb (get_path_boundaries (fn_body f))) by (apply visit_iff; eauto).
    assert (Df : exists r, boundary_with_data env pb = Some r).
    { unfold function_boundaries in E. destruct (first_error_end env _ _); [|discriminate]. destruct (traverse _ _) as [rs|] eqn:T; [|discriminate].
      exact (traverse_defined _ _ _ T _ Ip). }
    destruct Df as (r & Df). pose proof (path_spec env (k_flow k) (sound_uses _ Snd) pb) as S'.
    destruct (path_to_perm_boundary env pb) as [[b|]|] eqn:P.
    - destruct (data_some _ _ P) as (d & D). destruct S' as (_ & Ex & Fl & (s & rc & ry & L & C & B & E1 & E2)).
      assert (EA : EndsAt f pb (b_location b) (b_byte b)) by (exists s, rc, ry; auto).
      right. exists b, d. split; [|exact EA]. apply (function_boundaries_in _ _ _ E). split; [|eauto].
      destruct V as [(fb & H)|[H|(z & H & [H'|(z' & q & c & y & H1 & H2 & H3 & H4)])]].
      + left. exact (flow_one _ _ _ _ Fl H).
      + right. left. exact H.
      + right. right. eauto.
      + right. right. exists z. split; [exact H|]. right. exists z', q. destruct (ends_one _ _ _ _ _ EA H3) as [_ ->]. auto.
    - left. exact S'.
    - unfold boundary_with_data in Df. rewrite P in Df. discriminate.
  Qed.
End Function.

(** ** Rows *)

Lemma turns_eq s a b : StepsSpec.Turns s a b -> s = diff_bool a b.
Proof. destruct s as [v| |v]; cbn; [intros (-> & -> & ->)|intros (-> & ->)|intros (-> & ->)]; try reflexivity. destruct b; reflexivity. Qed.
Lemma turns_key_eq s a b : StepsSpec.TurnsKey s a b -> s = diff_option a b.
Proof.
  destruct s as [v| |v]; cbn; [intros (-> & ->)|intros (N & ->)|intros (N & ->)]; try reflexivity.
  - destruct a; [reflexivity|congruence].
  - destruct a, b; try reflexivity; exfalso; [destruct N as [_ N]|destruct N as [N _]]; specialize (N eq_refl); discriminate N.
Qed.

Lemma mark_turns s a b : StepsSpec.Turns s a b -> EditorModel.letter_mark s = DrawSpec.drawn_as a b.
Proof. intros T. rewrite (turns_eq _ _ _ T). destruct a, b; reflexivity. Qed.
Lemma unwrap_turns s a b : StepsSpec.TurnsKey s a b -> EditorModel.unwrap s = b.
Proof. intros T. rewrite (turns_key_eq _ _ _ T). destruct a, b; reflexivity. Qed.

Lemma tells_step f x from to d r :
  StepsSpec.RowSays (se_inp (fn_steps f)) x (option_map (se_point (fn_steps f)) from) (se_point (fn_steps f) to) d ->
  (fn_mode f = Changes -> StepsSpec.LetterTurns d) ->
  r = DrawModel.DrawnRow (EditorModel.row_icon d) (EditorModel.row_marks d) (EditorModel.row_keys d) -> TellsStep f x from to r.
Proof.
  intros (u & a & v & b & Fr & Sv & Lb & T1 & _ & _ & T4 & T5 & T6 & T7 & T8 & T9 & T10 & T11) M ->.
  exists u, a, v, b. split; [destruct from; exact Fr|]. split; [exact Sv|]. split; [exact Lb|]. cbn [DrawModel.w_marks DrawModel.w_icon DrawModel.w_keys].
  split; [unfold EditorModel.row_marks; rewrite (mark_turns _ _ _ T9), (mark_turns _ _ _ T10), (mark_turns _ _ _ T11); reflexivity|].
  split.
  { replace (EditorModel.row_icon d) with (EditorModel.row_icon (diff_data u v)); [apply PropEditor.C77_icon|].
    unfold EditorModel.row_icon, EditorModel.visual_facts. rewrite (turns_eq _ _ _ T1), (turns_key_eq _ _ _ T4), (turns_eq _ _ _ T5), (turns_key_eq _ _ _ T6), (turns_key_eq _ _ _ T7).
    reflexivity. }
  split.
  { pose proof (unwrap_turns _ _ _ T4) as K4. pose proof (unwrap_turns _ _ _ T6) as K6. pose proof (unwrap_turns _ _ _ T7) as K7. pose proof (unwrap_turns _ _ _ T8) as K8.
    unfold EditorModel.row_keys. cbv zeta. repeat apply f_equal2; assumption. }
  intros Mo E. specialize (M Mo). subst b. destruct M as (s & H & G). unfold StepsSpec.Gained, StepsSpec.Lost in G.
  destruct H as [-> |[-> | ->]]; [rewrite (turns_eq _ _ _ T9) in G; destruct (p_read a)|rewrite (turns_eq _ _ _ T10) in G; destruct (p_write a)|rewrite (turns_eq _ _ _ T11) in G; destruct (p_drop a)];
    destruct G as [G|G]; discriminate G.
Qed.

(** ** Names *)
Lemma name_written n : Forall (fun c => c < 256) n -> BookModel.lit (write_name n) = n.
Proof.
  intros H. unfold BookModel.lit, write_name. rewrite list_ascii_of_string_of_list_ascii, map_map. induction H as [|c n Hc _ IH]; cbn [map]; [reflexivity|].
  rewrite IH, nat_ascii_embedding by exact Hc. reflexivity.
Qed.
