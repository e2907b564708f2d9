(** * Proofs for the kept tables *)

From Coq Require Import List Arith Bool Lia.
From Verif Require Import EditorModel EditorSpec EditorProofs KeptModel KeptSpec.
Import ListNotations.

Section Kept.
  Context {Bd St Tr : Type}.
  Implicit Types (l old new : list (nat * St)).

  Lemma redraw_nil keeps new : redraw keeps [] new = new.
  Proof. induction new as [|[n s] r IH]; cbn; congruence. Qed.

  Lemma redraw_same keeps l : redraw keeps l l = l.
  Proof. induction l as [|[n s] r IH]; cbn [redraw take]; auto. rewrite Nat.eqb_refl, IH. destruct (keeps n); auto. Qed.

  Lemma redraw_places keeps new : forall old, map fst (redraw keeps old new) = map fst new.
  Proof. induction new as [|[n s] r IH]; intros old; cbn [redraw]; auto. destruct (take n old) as [[s' o']|]; cbn [map fst]; rewrite IH; auto. Qed.

  Lemma take_at n l s l' : take n l = Some (s, l') ->
    at_place n l = s :: at_place n l' /\ forall m, m <> n -> at_place m l' = at_place m l.
  Proof.
    revert l'. induction l as [|[m x] r IH]; intros l' H; cbn [take] in H; [discriminate|]. destruct (Nat.eqb_spec n m) as [->|N].
    - injection H as <- <-. split.
      + unfold at_place. cbn [filter fst]. rewrite Nat.eqb_refl. auto.
      + intros m' N'. unfold at_place. cbn [filter fst]. destruct (Nat.eqb_spec m m'); [congruence|auto].
    - destruct (take n r) as [[s' r']|] eqn:E; cbn [option_map] in H; [|discriminate]. injection H as -> <-.
      destruct (IH _ eq_refl) as [A B]. unfold at_place in *. cbn [filter fst]. split.
      + destruct (Nat.eqb_spec m n); [congruence|auto].
      + intros m' N'. destruct (m =? m'); cbn [map]; rewrite (B m' N'); auto.
  Qed.
  Lemma take_none n l : take n l = None -> at_place n l = [].
  Proof.
    induction l as [|[m x] r IH]; cbn [take]; auto. destruct (Nat.eqb_spec n m) as [->|N]; [discriminate|].
    destruct (take n r) as [[s' r']|] eqn:E; [discriminate|]. intros _. unfold at_place. cbn [filter fst]. destruct (Nat.eqb_spec m n); [congruence|auto].
  Qed.
  Lemma take_in n l s l' : take n l = Some (s, l') -> In (n, s) l /\ incl l' l.
  Proof.
    revert l'. induction l as [|[m x] r IH]; intros l' H; cbn [take] in H; [discriminate|]. destruct (Nat.eqb_spec n m) as [->|N].
    - injection H as <- <-. split; [left; auto|right; auto].
    - destruct (take n r) as [[s' r']|] eqn:E; cbn [option_map] in H; [|discriminate]. injection H as -> <-.
      destruct (IH _ eq_refl) as [A B]. split; [right; auto|]. intros y [<-|I]; [left; auto|right; auto].
  Qed.

  (** What is drawn at a place: as many of the old tables as there are new ones, then
      the rest of the new ones. *)
  Lemma redraw_at keeps n new : forall old, at_place n (redraw keeps old new) =
    if keeps n then firstn (length (at_place n new)) (at_place n old) ++ skipn (length (at_place n old)) (at_place n new) else at_place n new.
  Proof.
    assert (Y : forall (x : St) q, at_place n ((n, x) :: q) = x :: at_place n q).
    { intros x q. unfold at_place. cbn [filter fst]. rewrite Nat.eqb_refl. auto. }
    assert (X : forall m (x : St) q, m <> n -> at_place n ((m, x) :: q) = at_place n q).
    { intros m x q N. unfold at_place. cbn [filter fst]. destruct (Nat.eqb_spec m n); [congruence|auto]. }
    induction new as [|[m s] r IH]; intros old; cbn [redraw].
    - change (at_place n (@nil (nat * St))) with (@nil St). cbn [length firstn]. rewrite skipn_nil. destruct (keeps n); auto.
    - destruct (take m old) as [[s' o']|] eqn:T.
      + destruct (take_at _ _ _ _ T) as [A B]. destruct (Nat.eq_dec m n) as [->|N].
        * rewrite A, !Y. cbn [length firstn skipn List.app]. rewrite IH. destruct (keeps n); auto.
        * rewrite !X, IH, B by auto. auto.
      + apply take_none in T. destruct (Nat.eq_dec m n) as [->|N].
        * rewrite !Y, IH, T. cbn [length skipn]. rewrite !firstn_nil. cbn [List.app]. destruct (keeps n); auto.
        * rewrite !X, IH by auto. auto.
  Qed.

  Lemma redraw_in keeps new : forall old n s, In (n, s) (redraw keeps old new) -> In (n, s) new \/ In (n, s) old.
  Proof.
    induction new as [|[m x] r IH]; intros old n s H; cbn [redraw] in H; [destruct H|]. destruct (take m old) as [[s' o']|] eqn:T.
    - destruct (take_in _ _ _ _ T) as [A B]. destruct H as [H|H].
      + injection H as <- <-. destruct (keeps m); [right; auto|left; left; auto].
      + destruct (IH _ _ _ H) as [I|I]; [left; right; auto|right; auto].
    - destruct H as [H|H]; [left; left; auto|]. destruct (IH _ _ _ H) as [I|I]; [left; right; auto|right; auto].
  Qed.

  (** The pages do not depend on what is kept. *)
  Lemma view_pages keeps keeps' analyse (execute : doc -> option Tr) evs : forall k (v v1 : view Bd St Tr) w,
    v_page v = v_page v1 -> view_run keeps analyse execute k v evs = Some w ->
    exists w1, view_run keeps' analyse execute k v1 evs = Some w1 /\ v_page w1 = v_page w.
  Proof.
    induction evs as [|ev r IH]; intros k v v1 w E H; cbn [view_run] in *.
    - injection H as <-. eauto.
    - unfold view_step in *. rewrite <- E. destruct (step _ _ (v_page v) ev) as [p|]; [|discriminate]. eapply IH; [|eauto]. reflexivity.
  Qed.
  Lemma view_run_app keeps analyse (execute : doc -> option Tr) evs1 : forall k (v : view Bd St Tr) evs2,
    view_run keeps analyse execute k v (evs1 ++ evs2) =
    match view_run keeps analyse execute k v evs1 with Some v1 => view_run keeps analyse execute (k + length evs1) v1 evs2 | None => None end.
  Proof.
    induction evs1 as [|ev r IH]; intros k v evs2; cbn [view_run List.app length].
    - rewrite Nat.add_0_r. auto.
    - destruct (view_step _ _ _ k v ev); auto. rewrite IH. rewrite Nat.add_succ_r. auto.
  Qed.

  (** A table the page asks for is the one of the analysis, or all stay as they were. *)
  Lemma answer_steps analyse (execute : doc -> option Tr) (p : page Bd St Tr) c p' :
    p_wait p = Some (e_doc (p_ed p), c) -> step analyse execute p (Answer true) = Some p' ->
    e_doc (p_ed p') = e_doc (p_ed p) /\ p_wait p' = None /\
    (e_steps (p_ed p') = e_steps (p_ed p) \/ e_steps (p_ed p') = [] \/
     exists ds, make_decorations (e_doc (p_ed p)) (oks (analyse (e_doc (p_ed p)))) = Some ds /\ e_steps (p_ed p') = d_steps ds).
  Proof.
    intros W H. cbn [step] in H. rewrite W in H.
    destruct (render_operation (p_ed p) (Analysis (analyse (e_doc (p_ed p)))) c) as [e done] eqn:R. injection H as <-. cbn [p_ed p_wait].
    unfold render_operation in R. destruct (e_alive (p_ed p)) eqn:AL; cbn [negb] in R.
    - cbn [e_doc set_fail] in R. destruct (make_decorations (e_doc (p_ed p)) _) as [ds|] eqn:M.
      + assert (G : forall e1 e2 : editor Bd St Tr, e_decos e1 = Some ds -> render_permissions e1 c = Some e2 ->
          e_doc e2 = e_doc e1 /\ e_decos e2 = Some ds /\ (e_steps e2 = [] \/ exists ds', Some ds = Some ds' /\ e_steps e2 = d_steps ds')).
        { intros e1 e2 D Q. destruct (render_permissions_shows e1 c ds e2 D Q) as (X1 & X2 & _ & _ & _ & X3 & _).
          split; auto. split; [congruence|]. destruct (c_stepper c); [right; eauto|left; auto]. }
        destruct (render_permissions (set_decos (set_fail (p_ed p) (c_fail c)) ds) c) as [e2|] eqn:R2; injection R as <- <-.
        * destruct (G (set_decos (set_fail (p_ed p) (c_fail c)) ds) e2 eq_refl R2) as (X1 & X2 & X3). destruct (render_permissions e2 c) as [e3|] eqn:R3; [|auto].
          destruct (G _ _ X2 R3) as (Y1 & Y2 & Y3). split; [rewrite Y1, X1; reflexivity|auto].
        * auto.
      + injection R as <- <-. auto.
    - injection R as <- <-. auto.
  Qed.

  Lemma other_steps analyse (execute : doc -> option Tr) (p : page Bd St Tr) ev p' :
    step analyse execute p ev = Some p' -> (forall d, ev <> Edit d) -> (forall ok, ev <> Answer ok) -> e_doc (p_ed p') = e_doc (p_ed p) /\ e_steps (p_ed p') = e_steps (p_ed p).
  Proof.
    intros H N1 N2. destruct ev as [d|c|ok| |c|ok|]; cbn [step] in H; try (exfalso; eapply N1; reflexivity); try (exfalso; eapply N2; reflexivity).
    - destruct (p_wait p); [discriminate|]. injection H as <-. auto.
    - destruct (p_wait p); [|discriminate]. injection H as <-. auto.
    - destruct (p_run p); [discriminate|]. injection H as <-. auto.
    - destruct (p_run p) as [[d c]|]; [|discriminate]. injection H as <-. cbn [p_ed]. destruct ok; auto.
      unfold render_operation. destruct (e_alive (p_ed p)); cbn [negb fst]; [|auto]. destruct (execute d); auto.
    - destruct (p_run p); [|discriminate]. injection H as <-. auto.
  Qed.

  (** The invariant of histories in order. *)
  Lemma run_right keeps (analyse : nat -> doc -> list (option (output Bd St))) (execute : doc -> option Tr) : (forall k d, analyse k d = analyse 0 d) ->
    forall evs k v waiting,
    (waiting = true <-> p_wait (v_page v) <> None) -> (forall d c, p_wait (v_page v) = Some (d, c) -> d = e_doc (p_ed (v_page v))) ->
    v_drawn v = e_steps (p_ed (v_page v)) ->
    (e_steps (p_ed (v_page v)) = [] \/ exists ds, make_decorations (e_doc (p_ed (v_page v))) (oks (analyse 0 (e_doc (p_ed (v_page v))))) = Some ds /\ e_steps (p_ed (v_page v)) = d_steps ds) ->
    orderly waiting evs -> forall w, view_run keeps analyse execute k v evs = Some w -> v_drawn w = e_steps (p_ed (v_page w)).
  Proof.
    intros SA. induction evs as [|ev evs IH]; intros k v waiting W D Dr C O w H; cbn [view_run] in H.
    - injection H as <-. auto.
    - unfold view_step in H. destruct (step (analyse k) execute (v_page v) ev) as [p1|] eqn:St1; [|discriminate].
      assert (G : forall waiting', (waiting' = true <-> p_wait p1 <> None) -> (forall d c, p_wait p1 = Some (d, c) -> d = e_doc (p_ed p1)) ->
        (forall d, ev <> Edit d) -> (forall ok, ev <> Answer ok) -> orderly waiting' evs -> v_drawn w = e_steps (p_ed (v_page w))).
      { intros w' W' D' N1 N2 O'. destruct (other_steps _ _ _ _ _ St1 N1 N2) as [E1 E2].
        refine (IH (S k) (View p1 (redraw (keeps k) (v_drawn v) (e_steps (p_ed p1)))) w' W' D' _ _ O' w H); cbn [v_page v_drawn].
        - rewrite Dr, E2. apply redraw_same.
        - rewrite E1, E2. exact C. }
      destruct ev as [d|c|ok| |c|ok|]; cbn [orderly] in O.
      + destruct O as [-> O]. injection St1 as <-. refine (IH _ _ false _ _ _ _ O w H); cbn [v_page v_drawn p_wait p_ed edit e_steps redraw]; [exact W| |auto|auto].
        intros d' c' E. exfalso. destruct W as [_ W]. assert (false = true) by (apply W; congruence). discriminate.
      + cbn [step] in St1. destruct (p_wait (v_page v)) eqn:E; [discriminate|]. injection St1 as <-. eapply (G true); try discriminate; [..|exact O]; cbn [p_wait p_ed].
        * split; auto. discriminate.
        * intros d' c' Q. congruence.
      + destruct O as [-> O]. destruct (p_wait (v_page v)) as [[d c]|] eqn:E; [|cbn [step] in St1; rewrite E in St1; discriminate].
        rewrite (D d c eq_refl) in E. destruct (answer_steps _ _ _ _ _ E St1) as (E1 & E2 & E3). rewrite SA in E3.
        refine (IH (S k) (View p1 (redraw (keeps k) (v_drawn v) (e_steps (p_ed p1)))) false _ _ _ _ O w H); cbn [v_page v_drawn].
        * rewrite E2. split; [discriminate|congruence].
        * rewrite E2. discriminate.
        * rewrite Dr. destruct E3 as [E3|[E3|(ds & E3 & E4)]].
          -- rewrite E3. apply redraw_same.
          -- rewrite E3. auto.
          -- destruct C as [C|(ds' & C1 & C2)]; [rewrite C; apply redraw_nil|]. rewrite E4. assert (ds' = ds) by congruence. subst ds'. rewrite C2. apply redraw_same.
        * rewrite E1. destruct E3 as [E3|[E3|(ds & E3 & E4)]]; [rewrite E3; exact C|auto|right; eauto].
      + cbn [step] in St1. destruct (p_wait (v_page v)) as [[d c]|] eqn:E; [|discriminate]. injection St1 as <-. eapply (G false); try discriminate; [..|exact O]; cbn [p_wait p_ed].
        * split; [discriminate|congruence].
      + cbn [step] in St1. destruct (p_run (v_page v)); [discriminate|]. injection St1 as <-. eapply (G waiting); try discriminate; [..|exact O]; auto.
      + eapply (G waiting); try discriminate; [| |exact O].
        * cbn [step] in St1. destruct (p_run (v_page v)) as [[d c]|]; [|discriminate]. injection St1 as <-. exact W.
        * destruct (other_steps _ _ _ _ _ St1) as [E1 _]; try discriminate. intros d' c' Q. rewrite E1.
          cbn [step] in St1. destruct (p_run (v_page v)) as [[d c]|]; [|discriminate]. injection St1 as <-. exact (D _ _ Q).
      + cbn [step] in St1. destruct (p_run (v_page v)); [|discriminate]. injection St1 as <-. eapply (G waiting); try discriminate; [..|exact O]; auto.
  Qed.
End Kept.

(** ** Tags *)

Section Tags.
  Context {Bd St : Type} (k : nat).
  Definition tagged {X} (l : list (nat * X)) : list (nat * (X * nat)) := map (fun '(n, x) => (n, (x, k))) l.

  Lemma oks_map {X Y} (f : X -> Y) l : oks (map (option_map f) l) = map f (oks l).
  Proof. induction l as [|[x|] l IH]; cbn; congruence. Qed.

  Lemma collect_map {A B C} (g : A -> B) (f : B -> option C) l : collect f (map g l) = collect (fun x => f (g x)) l.
  Proof. induction l as [|x l IH]; cbn; auto. rewrite IH. auto. Qed.
  Lemma collect_then {A B C} (f : A -> option B) (g : B -> C) l : collect (fun x => option_map g (f x)) l = option_map (map g) (collect f l).
  Proof. induction l as [|x l IH]; cbn; auto. rewrite IH. destruct (f x); auto. cbn. destruct (collect f l); auto. Qed.
  Lemma collect_ext {A B} (f g : A -> option B) l : (forall x, f x = g x) -> collect f l = collect g l.
  Proof. intros E. induction l as [|x l IH]; cbn; auto. rewrite E, IH. auto. Qed.

  Lemma place_tagged {X} d (l : list (pos * X)) : place d (map (fun '(p, x) => (p, (x, k))) l) = option_map tagged (place d l).
  Proof.
    unfold place, tagged. rewrite collect_map, <- collect_then. apply collect_ext. intros [p x]. unfold place_one. cbn [fst snd].
    destruct (linecol_to_position p d); auto. destruct (line_at d n); auto.
  Qed.
  Lemma uniq_tagged {X} (l : list (nat * X)) : forall seen, uniq_by_pos seen (tagged l) = tagged (uniq_by_pos seen l).
  Proof. induction l as [|[n x] l IH]; intros seen; cbn; auto. rewrite !IH. destruct (existsb _ seen); auto. Qed.
  Lemma concat_tagged {X} (l : list (list (nat * X))) : concat (map tagged l) = tagged (concat l).
  Proof. induction l as [|x l IH]; cbn; auto. rewrite IH. unfold tagged. rewrite map_app. auto. Qed.

  Lemma decorations_tagged d (outs : list (output Bd St)) ds : make_decorations d outs = Some ds ->
    make_decorations d (map (tag_output k) outs) = Some (Decos (tagged (d_steps ds)) (tagged (d_boundaries ds)) (d_facts ds)).
  Proof.
    unfold make_decorations. rewrite !collect_map. unfold tag_output. cbn [o_boundaries o_steps].
    rewrite (collect_ext _ (fun o => option_map tagged (place d (o_boundaries o))) outs) by (intros; apply place_tagged).
    rewrite (collect_ext (fun o => place d (map (fun '(p, s) => (p, (s, k))) (o_steps o))) (fun o => option_map tagged (place d (o_steps o))) outs) by (intros; apply place_tagged).
    rewrite !collect_then. destruct (collect _ outs) as [bs|]; cbn [option_map]; [|discriminate].
    destruct (collect _ outs) as [ss|]; cbn [option_map]; [|discriminate]. intros H. injection H as <-. cbn [d_steps d_boundaries d_facts].
    rewrite !concat_tagged, uniq_tagged. f_equal. f_equal. rewrite flat_map_concat_map, map_map, <- flat_map_concat_map. reflexivity.
  Qed.
End Tags.

(** Keeping everything of an earlier drawing with other tags. *)
Lemma redraw_tags {X} k k' (l : list (nat * X)) : redraw (fun _ => true) (tagged k l) (tagged k' l) = tagged k l.
Proof. induction l as [|[n x] l IH]; cbn [tagged map redraw take]; auto. rewrite Nat.eqb_refl. f_equal. exact IH. Qed.
