(** * C131: the editor as a component *)
From Coq Require Import List Arith Lia.
From Verif Require Import MountModel MountSpec.
Import ListNotations.

Lemma oks_marks {A E} (rs : list (A + E)) : MarksOf rs (oks rs).
Proof. induction rs as [|[a|e] rs IH]; cbn; constructor; exact IH. Qed.

Lemma effect_fst {C T A E} (p : props C T A E) : fst (effect p) =
  Piece (Some (p_code p, match p_perms p with Some rs => oks rs | None => [] end)) true (match p_steps p with Some (inl t) => Some t | _ => None end).
Proof. unfold effect, new_editor. destruct p as [c [[t|e]|] [rs|]]; reflexivity. Qed.

Lemma happen_mount {C T A E} (c : comp C T A E) p : c_props c = None -> happen c (Mount p) = Comp [fst (effect p)] (Some p) (c_told c ++ snd (effect p)) (c_gone c).
Proof. intros H. unfold happen. rewrite H. destruct (effect p). reflexivity. Qed.
Lemma happen_again {C T A E} (c : comp C T A E) p : c_props c = Some p -> happen c Again = Comp (fst (effect p) :: clean (c_div c)) (Some p) (c_told c ++ snd (effect p)) (c_gone c).
Proof. intros H. unfold happen. rewrite H. destruct (effect p). reflexivity. Qed.

Lemma history_snoc {C T A E} (es : list (event C T A E)) e : history (es ++ [e]) = happen (history es) e.
Proof. unfold history. rewrite fold_left_app. reflexivity. Qed.

Lemma updates_div {C T A E} (us : list (event C T A E)) : Forall IsUpdate us -> forall c, c_div (fold_left happen us c) = c_div c /\ c_told (fold_left happen us c) = c_told c.
Proof.
  induction 1 as [|u us [p ->] F IH]; intros c; [auto|]. cbn [fold_left]. destruct (IH (happen c (Update p))) as [-> ->]. unfold happen. destruct (c_props c); auto.
Qed.

(** The invariant: only the newest piece may have a view. *)
Lemma invariant {C T A E} (es : list (event C T A E)) : let c := history es in
  match c_props c with
  | None => c_div c = []
  | Some _ => exists pc r v, c_div c = pc :: r /\ pc_view pc = Some v /\ forall x, In x r -> pc_view x = None
  end /\ forall x, In x (c_gone c) -> pc_view x = None.
Proof.
  cbv zeta. induction es as [|e es IH] using rev_ind; [cbn; split; [reflexivity|intros x []]|]. rewrite history_snoc. destruct IH as [I G]. set (c := history es) in *.
  destruct (c_props c) as [p0|] eqn:P; destruct e as [p|p| |]; try (unfold happen; rewrite P; rewrite ?P; split; [exact I|exact G]).
  - rewrite (happen_again c p0 P). cbn [c_props c_div c_gone]. split; [|exact G]. destruct I as (pc & r & v & Ed & Ev & Er). rewrite Ed. cbn [clean]. rewrite effect_fst.
    eexists _, _, _. split; [reflexivity|]. split; [reflexivity|]. intros x [<-|J]; [reflexivity|apply Er, J].
  - unfold happen. rewrite P. cbn [c_props c_div c_gone]. split; [reflexivity|]. destruct I as (pc & r & v & Ed & Ev & Er). rewrite Ed. cbn [clean]. intros x J.
    destruct J as [<-|J]; [reflexivity|]. apply in_app_or in J as [J|J]; [apply Er, J|apply G, J].
  - rewrite (happen_mount c p P). cbn [c_props c_div c_gone]. split; [|exact G]. rewrite effect_fst. eexists _, _, _. split; [reflexivity|]. split; [reflexivity|]. intros x [].
Qed.

(** The component shows the properties it was put on the page with. *)
Theorem C131_shows :
  forall C T A E (es us : list (event C T A E)) p, ~ OnPage (history es) -> Forall IsUpdate us -> Shows (history (es ++ Mount p :: us)) p.
Proof.
  intros C T A E es us p N F. assert (P : c_props (history es) = None) by (destruct (c_props (history es)) eqn:Q; [exfalso; apply N; unfold OnPage; congruence|reflexivity]).
  unfold Shows, Views, Traces. unfold history. rewrite fold_left_app. cbn [fold_left]. fold (history es). destruct (updates_div us F (happen (history es) (Mount p))) as [-> _].
  rewrite (happen_mount _ _ P). cbn [c_div flat_map]. rewrite effect_fst. cbn [pc_view pc_trace app]. split.
  - eexists. split; [reflexivity|]. destruct (p_perms p); [apply oks_marks|reflexivity].
  - destruct (p_steps p) as [[t|e]|]; reflexivity.
Qed.
Print Assumptions C131_shows.

(** In every history there is one view while it is on the page, and none at other
    times, on the page or elsewhere. *)
Theorem C131_one_view :
  forall C T A E (es : list (event C T A E)), let c := history es in
    (OnPage c -> LiveViews c = 1 /\ length (Views c) = 1) /\ (~ OnPage c -> LiveViews c = 0 /\ Views c = [] /\ Traces c = []).
Proof.
  intros C T A E es. cbv zeta. destruct (invariant es) as [I G]. set (c := history es) in *. unfold OnPage, LiveViews, Views, Traces.
  assert (Z : forall l : list (piece C T A), (forall x, In x l -> pc_view x = None) ->
    filter (fun pc => match pc_view pc with Some _ => true | None => false end) l = [] /\ flat_map (fun pc => match pc_view pc with Some v => [v] | None => [] end) l = []).
  { induction l as [|x l IH]; intros H; [auto|]. cbn. rewrite (H x (or_introl eq_refl)). apply IH. intros y J. apply H. right. exact J. }
  destruct (c_props c).
  - split; [intros _|intros N; exfalso; apply N; discriminate]. destruct I as (pc & r & v & -> & Ev & Er). cbn. rewrite Ev. rewrite filter_app.
    destruct (Z r Er) as [-> ->]. destruct (Z _ G) as [-> _]. auto.
  - split; [intros N; exfalso; apply N; reflexivity|intros _]. rewrite I. cbn [app flat_map]. destruct (Z _ G) as [-> _]. auto.
Qed.
Print Assumptions C131_one_view.

(** New properties are not shown: the old code stays. *)
Theorem C131_stale_refuted :
  forall C T A E (es : list (event C T A E)) p p', ~ OnPage (history es) -> p_code p <> p_code p' ->
    ~ Shows (history (es ++ [Mount p; Update p'])) p'.
Proof.
  intros C T A E es p p' N D [(ms & V & _) _]. destruct (C131_shows C T A E es [Update p'] p N) as [(ms' & V' & _) _]; [constructor; [exists p'; reflexivity|constructor]|].
  rewrite V' in V. injection V as V _. contradiction.
Qed.
Print Assumptions C131_stale_refuted.

(** When the effect is done again, the traces of the former times stay on the page. *)
Theorem C131_again_refuted :
  forall C T A E (es : list (event C T A E)) p t n, ~ OnPage (history es) -> p_steps p = Some (inl t) ->
    Traces (history (es ++ Mount p :: repeat Again n)) = repeat t (S n).
Proof.
  intros C T A E es p t n N St. assert (P : c_props (history es) = None) by (destruct (c_props (history es)) eqn:Q; [exfalso; apply N; unfold OnPage; congruence|reflexivity]).
  assert (K : c_props (history (es ++ Mount p :: repeat Again n)) = Some p /\ Traces (history (es ++ Mount p :: repeat Again n)) = repeat t (S n)); [|apply K].
  induction n as [|n [IH1 IH2]].
  - cbn [repeat]. rewrite history_snoc, (happen_mount _ _ P). split; [reflexivity|]. unfold Traces. cbn [c_div flat_map]. rewrite effect_fst, St. reflexivity.
  - assert (R : es ++ Mount p :: repeat Again (S n) = (es ++ Mount p :: repeat Again n) ++ [Again]).
    { rewrite <- app_assoc. cbn [app]. f_equal. f_equal. change (repeat (@Again C T A E) (S n)) with (Again :: repeat (@Again C T A E) n). apply repeat_cons. }
    rewrite R, history_snoc, (happen_again _ p IH1). split; [reflexivity|]. unfold Traces in *. cbn [c_div flat_map]. rewrite effect_fst, St. cbn [pc_trace app].
    change (repeat t (S (S n))) with (t :: repeat t (S n)). rewrite <- IH2. f_equal. destruct (c_div (history (es ++ Mount p :: repeat Again n))) as [|pc r]; reflexivity.
Qed.
Print Assumptions C131_again_refuted.

(** The roots of the buttons are never given back: whatever happens, there are no
    fewer than before, and every time the component is put on the page there is one more. *)
Theorem C131_roots_refuted :
  forall C T A E (es : list (event C T A E)) e, LiveRoots (history es) <= LiveRoots (history (es ++ [e])) /\
    (forall p, e = Mount p -> ~ OnPage (history es) -> LiveRoots (history (es ++ [e])) = S (LiveRoots (history es))).
Proof.
  intros C T A E es e. rewrite history_snoc. destruct (invariant es) as [I _]. set (c := history es) in *. unfold LiveRoots, OnPage.
  assert (Cl : forall l : list (piece C T A), length (filter pc_root (clean l)) = length (filter pc_root l)) by (intros [|x l]; [reflexivity|cbn; destruct (pc_root x); reflexivity]).
  assert (Le : forall l k : list (piece C T A), length (filter pc_root (clean l ++ k)) = length (filter pc_root (l ++ k))) by (intros l k; rewrite !filter_app, !app_length, Cl; reflexivity).
  split.
  - destruct (c_props c) as [p0|] eqn:P; destruct e as [p|p| |]; try (unfold happen; rewrite P; cbn [c_div c_gone app]; rewrite ?Le; reflexivity).
    + rewrite (happen_again c p0 P). cbn [c_div c_gone app]. rewrite effect_fst. cbn [filter pc_root length]. rewrite Le. lia.
    + rewrite (happen_mount c p P). cbn [c_div c_gone app]. rewrite I, effect_fst. cbn [filter pc_root length app]. lia.
  - intros p -> N. destruct (c_props c) as [p0|] eqn:P; [exfalso; apply N; discriminate|]. rewrite (happen_mount c p P). cbn [c_div c_gone app]. rewrite I, effect_fst. reflexivity.
Qed.
Print Assumptions C131_roots_refuted.

(** What could not be run or analysed is reported, in order, once for every time. *)
Theorem C131_told :
  forall C T A E (es us : list (event C T A E)) p, ~ OnPage (history es) -> Forall IsUpdate us ->
    exists e2, c_told (history (es ++ Mount p :: us)) = c_told (history es) ++ match p_steps p with Some (inr e) => [e] | _ => [] end ++ e2 /\
      match p_perms p with None => e2 = [] | Some rs => ErrorsOf rs e2 end.
Proof.
  intros C T A E es us p N F. assert (P : c_props (history es) = None) by (destruct (c_props (history es)) eqn:Q; [exfalso; apply N; unfold OnPage; congruence|reflexivity]).
  exists (match p_perms p with Some rs => errs rs | None => [] end). split.
  - unfold history at 1. rewrite fold_left_app. cbn [fold_left]. fold (history es). destruct (updates_div us F (happen (history es) (Mount p))) as [_ ->].
    rewrite (happen_mount _ _ P). cbn [c_told]. f_equal. unfold effect, new_editor. destruct p as [c [[t|e]|] [rs|]]; reflexivity.
  - destruct (p_perms p) as [rs|]; [|reflexivity]. induction rs as [|[a|e] rs IH]; cbn; constructor; exact IH.
Qed.
Print Assumptions C131_told.

(** A component with a trace, one analysed function and one that was not. *)
Example C131_witness :
  let p : props nat nat nat nat := Props 7 (Some (inl 5)) (Some [inl 1; inr 2]) in
  ~ OnPage (@history nat nat nat nat [Mount p; Unmount]) /\ Views (history [Mount p]) = [(7, [1])] /\ c_told (history [Mount p; Again]) = [2; 2] /\
  Traces (history [Mount p; Again]) = [5; 5] /\ LiveRoots (history [Mount p; Unmount; Mount p; Unmount]) = 2 /\ p_code p <> p_code (Props 8 None None : props nat nat nat nat).
Proof. cbv zeta. repeat split; try reflexivity; [intros N; apply N; reflexivity|discriminate]. Qed.
