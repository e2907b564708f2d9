(** * Proofs about an execution on the page *)
From Coq Require Import Ascii String.
From Coq Require Import List Arith Bool ZArith Lia Permutation Sorting.Sorted.
From Verif Require Import Base ValuesModel ReaderModel NumbersModel LookModel WireModel WireSpec WireProofs ScreenModel.
From Verif Require TraceModel TraceSpec TraceMachine MapperModel MapperSpec LocalsModel LocalsSpec WholeModel WholeSpec WholeProofs EditorModel EditorSpec EditorProofs FrontModel FrontProofs
  LookSpec LookProofs JsonModel PropWire ScreenSpec.
Import ListNotations.
Local Open Scope list_scope.
Import ScreenSpec.

(** ** Places *)

Lemma place_spot d p n : place d p = Some n <-> Spot d p n.
Proof.
  unfold place, EditorModel.linecol_to_position. cbn [EditorModel.p_line EditorModel.p_column]. split.
  - destruct (Nat.ltb_spec (fst p) (length d)) as [L|]; [|discriminate]. intros [= <-].
    destruct (nth_error d (fst p)) as [x|] eqn:E; [|apply nth_error_None in E; lia].
    destruct (nth_error_split _ _ E) as (ls & rest & -> & Q). exists ls, x, rest. split; [reflexivity|]. split; [exact Q|].
    rewrite <- Q at 1. rewrite EditorProofs.line_from_app. unfold EditorSpec.text_before. rewrite app_nil_r. reflexivity.
  - intros (ls & x & rest & -> & Q & ->). rewrite app_length. cbn [length].
    destruct (Nat.ltb_spec (fst p) (length ls + S (length rest))) as [L|L]; [|lia]. f_equal.
    rewrite <- Q at 1. rewrite EditorProofs.line_from_app. unfold EditorSpec.text_before. rewrite app_nil_r. reflexivity.
Qed.
Lemma starts d r n : place d (start_of r) = Some n <-> Begins d r n.
Proof.
  rewrite place_spot. unfold Begins, start_of. split.
  - destruct r as [[a b] f]. cbn. intros H. eauto.
  - intros (a & b & f & -> & H). exact H.
Qed.
Lemma finishes d r n : place d (end_of r) = Some n <-> Finishes d r n.
Proof.
  rewrite place_spot. unfold Finishes, end_of. split.
  - destruct r as [[a b] f]. cbn. intros H. eauto.
  - intros (a & b & f & -> & H). exact H.
Qed.

(** ** Choosing states *)

Lemma last_opt_iff {A} (l : list A) x : TraceModel.last_opt l = Some x <-> exists o, l = o ++ [x].
Proof.
  split; [|intros [o ->]; apply TraceMachine.last_opt_app]. unfold TraceModel.last_opt. destruct (rev l) as [|y r] eqn:E; [discriminate|]. intros [= <-].
  exists (rev r). rewrite <- (rev_involutive l), E. reflexivity.
Qed.

Lemma hits_spec d mark s b : hits d mark s = Some b -> (b = true <-> FitsStep d mark s).
Proof.
  unfold hits. destruct (TraceModel.last_opt (w_frames s)) as [f|] eqn:El; [|discriminate]. cbn [obind]. apply last_opt_iff in El as [o El].
  destruct (place d (start_of (w_body f))) as [lo|] eqn:E1; [|discriminate]. cbn [obind].
  assert (K : forall b, (b = true <-> MarkFits d (w_body f) (w_loc f) mark) -> (b = true <-> FitsStep d mark s)).
  { intros b0 H. rewrite H. split; [intros F; exists o, f; auto|]. intros (o' & f' & E' & F). rewrite El in E'. apply app_inj_tail in E' as [_ <-]. exact F. }
  destruct (Nat.leb_spec lo mark) as [L|L].
  - destruct (place d (end_of (w_body f))) as [hi|] eqn:E2; [|discriminate]. cbn [obind option_map].
    destruct (place d (start_of (w_loc f))) as [l|] eqn:E3; [|discriminate]. cbn [option_map]. intros [= <-]. apply K.
    rewrite andb_true_iff, Nat.leb_le, Nat.ltb_lt. split.
    + intros [A B]. exists lo, hi, l. rewrite <- !starts, <- finishes. do 3 (split; [assumption|]). split; [split; assumption|exact B].
    + intros (lo' & hi' & l' & A & B & C & D & E). rewrite <- starts in A, C. rewrite <- finishes in B.
      rewrite E2 in B. rewrite E3 in C. injection B as <-. injection C as <-. split; [apply D|exact E].
  - cbn [obind]. destruct (place d (start_of (w_loc f))) as [l|] eqn:E3; [|discriminate]. cbn [option_map andb]. intros [= <-]. apply K.
    split; [discriminate|]. intros (lo' & hi' & l' & A & _ & _ & D & _). rewrite <- starts, E1 in A. injection A as <-. lia.
Qed.

Lemma indexed_some d steps mark n m s : indexed d steps mark = Some (n, (m, s)) ->
  m = mark /\ exists k, n = S k /\ nth_error steps k = Some s /\ LastFits d steps mark k.
Proof.
  unfold indexed. destruct (FrontModel.find_index _ _ _) as [[[j x]|]|] eqn:E; try discriminate.
  intros H. injection H as <- <- <-. split; auto.
  apply FrontProofs.find_index_some in E. destruct E as (k & -> & A & B & C). cbn [plus].
  assert (L : k < length steps) by (rewrite <- rev_length; apply nth_error_Some; congruence).
  exists (length steps - S k). split; [lia|]. rewrite FrontProofs.nth_error_rev in A by auto. split; auto. split.
  - exists x. split; auto. apply (hits_spec _ _ _ _ B). auto.
  - intros j s' Lj Ej F. assert (Lj2 : j < length steps) by (apply nth_error_Some; congruence).
    assert (P : hits d mark s' = Some false).
    { apply (C (length steps - S j)); [lia|]. rewrite FrontProofs.nth_error_rev by lia.
      replace (length steps - S (length steps - S j)) with j by lia. auto. }
    apply (hits_spec _ _ _ _ P) in F. discriminate.
Qed.

Lemma all_some_spec {A B} (f : A -> option B) l : forall r, all_some (map f l) = Some r <-> Forall2 (fun a b => f a = Some b) l r.
Proof.
  induction l as [|a l IH]; cbn; intros r.
  - split; [intros H; injection H as <-; constructor|]. intros H. inversion H. auto.
  - destruct (f a) as [b|] eqn:E.
    + destruct (all_some (map f l)) as [r'|] eqn:E'; cbn.
      * split.
        -- intros H. injection H as <-. constructor; auto. apply IH. auto.
        -- intros H. inversion H as [|? y ? r2 Ey F2]; subst. apply IH in F2. congruence.
      * split; [discriminate|]. intros H. inversion H as [|? y ? r2 Ey F2]; subst. apply IH in F2. congruence.
    + split; [discriminate|]. intros H. inversion H; subst. congruence.
Qed.

Lemma filter_steps_spec d steps marks ms ss : filter_steps d steps marks = Some (ms, ss) ->
  exists ks, Forall2 (LastFits d steps) ms ks /\ Forall2 (fun k s => nth_error steps k = Some s) ks ss /\
    Permutation ms marks /\ StronglySorted le ks.
Proof.
  unfold filter_steps. destruct (all_some _) as [ix|] eqn:E; try discriminate.
  cbn [option_map]. intros H. injection H as <- <-. apply all_some_spec in E.
  set (so := FrontModel.sort_by fst ix). assert (P : Permutation so ix) by apply FrontProofs.sort_by_perm.
  set (good := fun x : nat * (nat * wstep) => exists k, fst x = S k /\ nth_error steps k = Some (snd (snd x)) /\ LastFits d steps (fst (snd x)) k).
  assert (Q : Forall good ix).
  { clear so P. induction E as [|m x ms ix Em _ IH]; constructor; auto.
    destruct x as [n [m' s]]. apply indexed_some in Em. destruct Em as [-> (k & -> & A & B)]. exists k. cbn. auto. }
  assert (MM : map (fun x => fst (snd x)) ix = marks).
  { clear so P Q. induction E as [|m x ms ix Em _ IH]; cbn; auto. f_equal; auto.
    destruct x as [n [m' s]]. apply indexed_some in Em. tauto. }
  assert (Q' : Forall good so) by (rewrite P; exact Q).
  exists (map (fun x => pred (fst x)) so). split; [|split; [|split]].
  - clear - Q'. induction Q' as [|x l (k & E1 & E2 & E3) _ IH]; cbn; constructor; auto. rewrite E1. auto.
  - clear - Q'. induction Q' as [|x l (k & E1 & E2 & E3) _ IH]; cbn; constructor; auto. rewrite E1. auto.
  - rewrite P, MM. auto.
  - assert (SS := FrontProofs.sort_by_sorted fst ix). fold so in SS. clear - SS.
    induction SS as [|x l _ IH F]; cbn; constructor; auto. rewrite Forall_map.
    eapply Forall_impl; [|exact F]. cbn. lia.
Qed.

(** ** Pictures *)

Lemma forall2_map_l {A B C} (R : B -> C -> Prop) (f : A -> B) l : forall m, Forall2 R (map f l) m -> Forall2 (fun a c => R (f a) c) l m.
Proof. induction l as [|a l IH]; intros m H; inversion H; subst; constructor; auto. Qed.

(** What is drawn of a state, row by row. *)
Lemma look_state_rows n ft c err s pic : look_state n ft c err s = Some pic ->
  Forall2 (fun fr f => fst f = fr_name fr /\
     Forall2 (fun l row => fst (fst row) = l_name l /\ (snd (fst row) = true <-> In [] (l_moved l)) /\ LookSpec.Looks ft c err (l_value l) (snd row)) (fr_locals fr) (snd f))
    (sn_frames s) (fst pic) /\
  Forall2 (LookSpec.Looks ft c err) (sn_heap s) (snd pic).
Proof.
  unfold look_state. destruct (all_some (map (look_frame _) _)) as [fs|] eqn:E; [|discriminate]. cbn [obind].
  destruct (all_some (map (look_at n ft c err) _)) as [hs|] eqn:E'; [|discriminate]. cbn [option_map]. intros [= <-]. cbn [fst snd].
  apply all_some_spec in E, E'. split.
  - revert E. generalize fs. induction (sn_frames s) as [|fr l IH]; intros gs E; inversion E as [|? y ? r Ey Er]; subst; constructor; auto.
    unfold look_frame in Ey. destruct (all_some _) as [rows|] eqn:R; [|discriminate]. injection Ey as <-. cbn [fst snd]. split; [reflexivity|].
    apply all_some_spec in R. revert R. generalize rows. induction (fr_locals fr) as [|x xs IHx]; intros rs R; inversion R as [|? y ? r0 Hy Hr]; subst; constructor; auto.
    unfold look_local in Hy. destruct (look_at n ft c err (l_value x)) as [k|] eqn:K; [|discriminate]. injection Hy as <-. cbn [fst snd].
    split; [reflexivity|]. split; [|exists n; exact K]. rewrite existsb_exists. split.
    + intros (p & I & Hp). destruct p; [exact I|discriminate].
    + intros I. exists []. auto.
  - revert E'. generalize hs. induction (sn_heap s) as [|v l IH]; intros gs E'; inversion E' as [|? y ? r Ey Er]; subst; constructor; auto. exists n. exact Ey.
Qed.

Lemma forall2_nth {A B} (R : A -> B -> Prop) l m : Forall2 R l m -> forall i a b, nth_error l i = Some a -> nth_error m i = Some b -> R a b.
Proof. induction 1 as [|x y l m Rxy F IH]; intros [|i] a b; cbn; try discriminate; [congruence|apply IH]. Qed.
Lemma forall2_len {A B} (R : A -> B -> Prop) l m : Forall2 R l m -> length l = length m.
Proof. induction 1; cbn; congruence. Qed.
Lemma nth_some {A} (l : list A) i : i < length l -> exists a, nth_error l i = Some a.
Proof. intros L. destruct (nth_error l i) eqn:E; [eauto|]. apply nth_error_None in E. lia. Qed.
Lemma nth_below {A} (l : list A) i a : nth_error l i = Some a -> i < length l.
Proof. intros E. apply nth_error_Some. congruence. Qed.
Lemma names_len {A B} (f : A -> string) (g : B -> string) l m : map f l = map g m -> length l = length m.
Proof. intros E. rewrite <- (map_length f l), E. apply map_length. Qed.
Lemma snoc_nth {A} (l : list A) n : length l = S n -> exists a, l = firstn n l ++ [a] /\ nth_error l n = Some a.
Proof.
  intros L. destruct (nth_some l n) as [a E]; [lia|]. exists a. split; [|exact E]. destruct (nth_error_split _ _ E) as (x & y & -> & Q).
  destruct y; [|rewrite app_length in L; cbn in L; lia]. rewrite <- Q, firstn_app, Nat.sub_diag, firstn_all. cbn. rewrite app_nil_r. reflexivity.
Qed.

Section Seeing.
  Context {M : Type} (mac : WholeModel.machine M string) (lay : LocalsModel.local -> LocalsSpec.vlayout) (u8 : nat)
    (prog : nat -> MapperModel.fn) (node_range span_range : nat -> nat -> option wrange) (names : nat -> string) (bodies : nat -> wrange).
  Lemma seen n ft c err m0 s pic outer f : WholeSpec.Pictured mac lay u8 prog node_range span_range m0 s ->
    TraceModel.m_frames s = outer ++ [f] -> look_state n ft c err (snap (wire_step names bodies s)) = Some pic ->
    Seen mac lay u8 prog node_range span_range names bodies ft c err m0 pic (bodies (WholeModel.fr_fun (TraceModel.f_info f))) (TraceModel.f_loc f).
  Proof.
    intros (h & m & m' & PA & mm & xss & vss & heap & LO & CH & RI & L1 & L2 & L3 & FR) EO LK.
    apply look_state_rows in LK as [FF FH]. unfold snap, wire_step in FF, FH. cbn [w_frames w_heap sn_frames sn_heap] in FF, FH. rewrite map_map in FF.
    pose proof (forall2_len _ _ _ FF) as LF. rewrite map_length in LF.
    assert (HP : match TraceModel.m_frames s with g :: _ => WholeModel.fr_heap (TraceModel.f_info g) | [] => [] end = heap).
    { destruct (TraceModel.m_frames s) as [|g r] eqn:E; [destruct outer; discriminate EO|]. cbn [length] in L1, L2, L3.
      destruct (nth_some (TraceSpec.user_depths (WholeModel.k_stack mac m')) 0) as [d Ed]; [lia|]. destruct (nth_some xss 0) as [xs Ex]; [lia|].
      destruct (nth_some vss 0) as [vs Ev]; [lia|]. destruct (FR 0 g d xs vs eq_refl Ed Ex Ev) as [(_ & _ & _ & Hh & _) _]. exact Hh. }
    rewrite HP in FH. exists h, m, m'. split; [exact PA|]. cbv zeta. exists mm, xss, vss, heap. do 4 (split; [assumption|]). do 3 (split; [lia|]). split.
    - intros i d fr xs vs Ed Ef Ex Ev. destruct (nth_some (TraceModel.m_frames s) i) as [g Eg]; [apply nth_below in Ef; lia|].
      destruct (FR i g d xs vs Eg Ed Ex Ev) as [((rf & Erf & Efun) & En & Evs & _ & Mv) _].
      assert (Eg' : nth_error (map (fun x => MFrame (w_name (wire_frame names bodies x)) (w_locals (wire_frame names bodies x))) (TraceModel.m_frames s)) i =
        Some (MFrame (w_name (wire_frame names bodies g)) (w_locals (wire_frame names bodies g)))) by (rewrite nth_error_map, Eg; reflexivity).
      destruct (forall2_nth _ _ _ FF i _ _ Eg' Ef) as [EN FL]. unfold wire_frame in EN, FL. cbn [fr_name fr_locals w_name w_locals] in EN, FL.
      apply forall2_map_l in FL. pose proof (forall2_len _ _ _ FL) as LL. pose proof (names_len _ _ _ _ En) as LX.
      split; [exists rf; split; [exact Erf|rewrite EN, Efun; reflexivity]|]. split; [rewrite <- Evs, map_length; exact LX|]. split; [lia|].
      intros j x v row Jx Jv Jr. destruct (nth_some (WholeModel.fr_locals (TraceModel.f_info g)) j) as [y Jy]; [apply nth_below in Jr; lia|].
      destruct (forall2_nth _ _ _ FL j _ _ Jy Jr) as (A & B & C). cbn [wire_local l_name l_moved l_value] in A, B, C.
      assert (Nx : WholeModel.v_name y = LocalsModel.sh_name x).
      { apply (f_equal (fun l => nth_error l j)) in En. rewrite !nth_error_map, Jy, Jx in En. injection En as En. exact En. }
      assert (Vx : WholeModel.v_value y = v) by (rewrite <- Evs, nth_error_map, Jy in Jv; injection Jv as Jv; exact Jv).
      split; [congruence|]. split; [|rewrite <- Vx; exact C]. rewrite B, <- (Mv j x y Jx Jy). destruct (WholeModel.v_moved y); cbn; [tauto|]. split; [intros []|discriminate].
    - rewrite EO, app_length in L1. cbn [length] in L1. destruct (snoc_nth (TraceSpec.user_depths (WholeModel.k_stack mac m')) (length outer)) as (d & Ed & En); [lia|].
      rewrite EO, app_length in LF, L2, L3. cbn [length] in LF, L2, L3. destruct (nth_some xss (length outer)) as [xs Ex]; [lia|]. destruct (nth_some vss (length outer)) as [vs Ev]; [lia|].
      assert (Ef : nth_error (TraceModel.m_frames s) (length outer) = Some f) by (rewrite EO, nth_error_app2, Nat.sub_diag by lia; reflexivity).
      destruct (FR (length outer) f d xs vs Ef En Ex Ev) as [((rf & Erf & Efun) & _) PL].
      eexists. exists d, rf. split; [exact Ed|]. split; [exact Erf|]. split; [rewrite Efun; reflexivity|exact PL].
  Qed.
End Seeing.

(** ** The page's trace *)

(** Two states are the same for the page. *)
Definition Same (s s' : wstep) : Prop :=
  map (fun f => (w_body f, w_loc f)) (w_frames s) = map (fun f => (w_body f, w_loc f)) (w_frames s') /\
  forall n ft c err, look_state n ft c err (snap s) = look_state n ft c err (snap s').

Lemma alike_same (R : Z -> Z -> Prop) (H : forall z z', R z z' -> js_number z = js_number z') s s' : AlikeStep R s s' -> Same s s'.
Proof.
  intros A. split; [|intros; apply (state_alike R H); exact A]. destruct A as [F _]. induction F as [|f g l m (_ & B & L & _) F IH]; cbn; [reflexivity|]. rewrite B, L, IH. reflexivity.
Qed.

Lemma last_opt_same s s' : map (fun f => (w_body f, w_loc f)) (w_frames s) = map (fun f => (w_body f, w_loc f)) (w_frames s') ->
  option_map (fun f => (w_body f, w_loc f)) (TraceModel.last_opt (w_frames s)) = option_map (fun f => (w_body f, w_loc f)) (TraceModel.last_opt (w_frames s')).
Proof.
  intros E. unfold TraceModel.last_opt. apply (f_equal (@rev _)) in E. rewrite <- !map_rev in E.
  destruct (rev (w_frames s)), (rev (w_frames s')); cbn in *; congruence.
Qed.
Lemma hits_same d mark s s' : Same s s' -> hits d mark s = hits d mark s'.
Proof.
  intros [E _]. apply last_opt_same in E. unfold hits. destruct (TraceModel.last_opt (w_frames s)) as [f|], (TraceModel.last_opt (w_frames s')) as [g|]; try discriminate E; [|reflexivity].
  cbn [option_map] in E. injection E as E1 E2. cbn [obind]. rewrite E1, E2. reflexivity.
Qed.
Lemma find_same d mark i l m : Forall2 Same l m ->
  match FrontModel.find_index (hits d mark) i l, FrontModel.find_index (hits d mark) i m with
  | Some (Some (j, s)), Some (Some (j', s')) => j = j' /\ Same s s'
  | Some None, Some None | None, None => True
  | _, _ => False
  end.
Proof.
  intros F. revert i. induction F as [|s s' l m Ss F IH]; intros i; cbn [FrontModel.find_index]; [exact I|]. rewrite (hits_same d mark s s' Ss).
  destruct (hits d mark s') as [[]|]; [auto|apply IH|exact I].
Qed.
Lemma forall2_rev {A B} (R : A -> B -> Prop) l m : Forall2 R l m -> Forall2 R (rev l) (rev m).
Proof. induction 1; cbn; [constructor|]. apply Forall2_app; [assumption|]. constructor; [assumption|constructor]. Qed.

Definition SameMark (x x' : nat * (nat * wstep)) : Prop := fst x = fst x' /\ fst (snd x) = fst (snd x') /\ Same (snd (snd x)) (snd (snd x')).
Lemma indexed_same d l m mark : Forall2 Same l m ->
  match indexed d l mark, indexed d m mark with Some x, Some x' => SameMark x x' | None, None => True | _, _ => False end.
Proof.
  intros F. pose proof (find_same d mark 0 _ _ (forall2_rev _ _ _ F)) as H. unfold indexed. rewrite (forall2_len _ _ _ F).
  destruct (FrontModel.find_index _ _ (rev l)) as [[[j s]|]|], (FrontModel.find_index _ _ (rev m)) as [[[j' s']|]|]; try contradiction; auto.
  destruct H as [-> H]. repeat split; auto; apply H.
Qed.
Lemma indexed_all d l m marks : Forall2 Same l m ->
  match all_some (map (indexed d l) marks), all_some (map (indexed d m) marks) with Some x, Some x' => Forall2 SameMark x x' | None, None => True | _, _ => False end.
Proof.
  intros F. induction marks as [|k marks IH]; cbn [map all_some]; [constructor|]. pose proof (indexed_same d l m k F) as H.
  destruct (indexed d l k), (indexed d m k); try contradiction; auto.
  destruct (all_some (map (indexed d l) marks)), (all_some (map (indexed d m) marks)); try contradiction; cbn [option_map]; auto.
Qed.
Lemma insert_same x x' : SameMark x x' -> forall l m, Forall2 SameMark l m -> Forall2 SameMark (FrontModel.insert_by fst x l) (FrontModel.insert_by fst x' m).
Proof.
  intros Sx l m F. induction F as [|y y' l m Sy F IH]; cbn [FrontModel.insert_by]; [constructor; [exact Sx|constructor]|].
  destruct Sx as [E X]. destruct Sy as [E' Y]. rewrite E, E'. destruct (fst x' <=? fst y'); repeat (constructor; auto); try (split; auto); apply X || apply Y.
Qed.
Lemma sort_same l m : Forall2 SameMark l m -> Forall2 SameMark (FrontModel.sort_by fst l) (FrontModel.sort_by fst m).
Proof. induction 1 as [|x y l m Sx F IH]; [constructor|]. unfold FrontModel.sort_by in *. cbn [fold_right]. apply insert_same; assumption. Qed.

Lemma chosen_same d l m marks : Forall2 Same l m ->
  match chosen d l marks, chosen d m marks with Some (ps, ss), Some (ps', ss') => ps = ps' /\ Forall2 Same ss ss' | None, None => True | _, _ => False end.
Proof.
  intros F. unfold chosen. destruct marks as [|k marks].
  - assert (E : all_some (map (fun s => obind (TraceModel.last_opt (w_frames s)) (fun f => place d (end_of (w_loc f)))) l) =
                all_some (map (fun s => obind (TraceModel.last_opt (w_frames s)) (fun f => place d (end_of (w_loc f)))) m)).
    { apply (all_some_pointwise Same); [|exact F]. intros s s' [E _]. apply last_opt_same in E.
      destruct (TraceModel.last_opt (w_frames s)) as [f|], (TraceModel.last_opt (w_frames s')) as [g|]; try discriminate E; [|reflexivity].
      cbn [option_map] in E. injection E as E1 E2. cbn [obind]. rewrite E2. reflexivity. }
    rewrite E. match goal with |- context [all_some ?z] => destruct (all_some z) as [q|] end; cbn [option_map]; [split; [reflexivity|exact F]|exact I].
  - unfold filter_steps. pose proof (indexed_all d l m (k :: marks) F) as H.
    destruct (all_some (map (indexed d l) (k :: marks))) as [x|], (all_some (map (indexed d m) (k :: marks))) as [x'|]; try contradiction; cbn [option_map]; [|exact I].
    apply sort_same in H. split.
    + induction H as [|a b x1 x2 (_ & E & _) H IH]; cbn [map]; congruence.
    + induction H as [|a b x1 x2 (_ & _ & Q) H IH]; cbn [map]; constructor; auto.
Qed.

Lemma numbered_same l m : Forall2 Same l m -> forall i, Forall2 (fun x y => fst x = fst y /\ Same (snd x) (snd y)) (combine (seq i (length l)) l) (combine (seq i (length m)) m).
Proof. induction 1 as [|s s' l m Ss F IH]; intros i; cbn [length seq combine]; constructor; auto. Qed.

Lemma screen_same d marks n ft c t t' : Forall2 Same (w_steps t) (w_steps t') -> w_result t = w_result t' -> screen d marks n ft c t = screen d marks n ft c t'.
Proof.
  intros F E. unfold screen. pose proof (chosen_same d _ _ marks F) as H. rewrite E.
  destruct (chosen d (w_steps t) marks) as [[ps ss]|], (chosen d (w_steps t') marks) as [[ps' ss']|]; try contradiction; [|reflexivity]. destruct H as [-> G]. cbn [obind].
  rewrite (forall2_len _ _ _ G). f_equal. apply all_some_pointwise with (Q := fun x y => fst x = fst y /\ Same (snd x) (snd y)).
  - intros x y [Ex Sx]. unfold draw_panel. rewrite Ex. cbn [w_steps w_result]. rewrite (forall2_len _ _ _ G). f_equal.
    assert (EE : error_at (WTrace ss (w_result t')) (fst y) = error_at (WTrace ss' (w_result t')) (fst y)) by (unfold error_at; cbn [w_result w_steps]; rewrite (forall2_len _ _ _ G); reflexivity).
    rewrite EE. apply Sx.
  - rewrite <- (forall2_len _ _ _ G) at 1. apply numbered_same, G.
Qed.

(** The page shows of the trace it reads what it would show of the tool's own. *)
Lemma page_same d marks n ft c short real t t' : Prints short real -> RealTrace t -> ScreenSpec.Arrived short real t t' ->
  screen d marks n ft c t' = screen d marks n ft c t.
Proof.
  intros P R (j & x & J & MM & C). destruct (PropWire.read_trace short real t j P R J) as (x' & t2 & M' & C' & F & Er). pose proof (member_fun _ _ _ _ MM M') as <-.
  destruct (PropWire.C112_one_meaning real x t' t2 C C') as [F' Er'].
  rewrite (screen_same d marks n ft c t' t2); [symmetry; apply screen_same| |].
  - clear - F. induction F as [|a b l m A F IH]; constructor; auto. exact (alike_same _ nearest_look _ _ A).
  - exact Er.
  - clear - F'. induction F' as [|a b l m A F IH]; constructor; auto. exact (alike_same eq (fun z z' (e : z = z') => f_equal js_number e) _ _ A).
  - exact Er'.
Qed.

(** ** Everything that is legible is shown *)

Lemma heights (vs : list mvalue) : exists N, Forall (fun v => LookProofs.height v <= N) vs.
Proof.
  induction vs as [|v vs [N H]]; [exists 0; constructor|]. exists (Nat.max (LookProofs.height v) N). constructor; [lia|].
  eapply Forall_impl; [|exact H]. cbn. lia.
Qed.
Lemma legible_state ft c s : LookSpec.StateLegible c s -> exists N, forall n err, N <= n -> exists pic, look_state n ft c err s = Some pic.
Proof.
  intros [LF LH]. destruct (heights (sn_heap s ++ map l_value (flat_map fr_locals (sn_frames s)))) as [N H]. exists (S N). intros n err Ln. apply Forall_app in H as [HH HF].
  assert (K : forall v, LookProofs.height v <= N -> LookSpec.Legible c v -> exists l, look_at n ft c err v = Some l).
  { intros v Hv L. destruct (LookProofs.legible_shown ft c err N v Hv L) as [l E]. exists l. exact (LookProofs.look_mono ft c err (S N) n v l Ln E). }
  unfold look_state. destruct (LookProofs.all_some_forall (look_frame (look_at n ft c err)) (sn_frames s)) as [fs E].
  { rewrite Forall_forall in *. intros fr If. unfold look_frame. destruct (LookProofs.all_some_forall (look_local (look_at n ft c err)) (fr_locals fr)) as [ls E].
    - rewrite Forall_forall. intros l Il. specialize (LF fr If). rewrite Forall_forall in LF. destruct (K (l_value l)) as [k Ek].
      + apply HF, in_map, in_flat_map. eauto.
      + apply LF, Il.
      + unfold look_local. rewrite Ek. cbn. eauto.
    - rewrite E. cbn. eauto. }
  rewrite E. cbn [obind]. destruct (LookProofs.all_some_forall (look_at n ft c err) (sn_heap s)) as [hs E'].
  { rewrite Forall_forall in *. intros v Iv. apply K; auto. }
  rewrite E'. cbn. eauto.
Qed.
Lemma legible_steps ft c steps : Forall (fun s => LookSpec.StateLegible c (snap s)) steps ->
  exists N, forall n err s, N <= n -> In s steps -> exists pic, look_state n ft c err (snap s) = Some pic.
Proof.
  induction 1 as [|s steps L H [N IH]]; [exists 0; intros n err s _ []|]. destruct (legible_state ft c (snap s) L) as [N' H']. exists (Nat.max N N').
  intros n err s' Ln [<-|I]; [apply H'; lia|apply IH; [lia|exact I]].
Qed.

(** ** What is shown *)

Lemma combine_nth {A} (l : list A) : forall b i a, nth_error l i = Some a -> nth_error (combine (seq b (length l)) l) i = Some (b + i, a).
Proof.
  induction l as [|y l IH]; intros b [|i] a E; cbn in *; try discriminate; [injection E as ->; rewrite Nat.add_0_r; reflexivity|].
  rewrite (IH (S b) i a E). f_equal. f_equal. lia.
Qed.
Lemma combine_len {A} (l : list A) b : length (combine (seq b (length l)) l) = length l.
Proof. rewrite combine_length, seq_length. lia. Qed.

(** One panel for each state that was chosen, and one number. *)
Lemma screen_panels d marks n ft c t ws ps : screen d marks n ft c t = Some (ws, ps) ->
  exists ranges steps, chosen d (w_steps t) marks = Some (ranges, steps) /\ length ps = length steps /\ length ws = length ranges /\ map k_pos ws = ranges /\
    (forall i w, nth_error ws i = Some w -> k_label w = S i /\
       (k_fail w = true <-> S i = length steps /\ error_text (w_result t) <> None)) /\
    forall i p, nth_error ps i = Some p -> exists s, nth_error steps i = Some s /\ p_label p = S i /\
      (S i = length steps -> p_error p = error_text (w_result t)) /\ (S i <> length steps -> p_error p = None) /\
      look_state n ft c (error_at (WTrace steps (w_result t)) i) (snap s) = Some (p_picture p).
Proof.
  unfold screen. destruct (chosen d (w_steps t) marks) as [[ranges steps]|] eqn:Ch; [|discriminate]. cbn [obind].
  destruct (all_some _) as [qs|] eqn:E; [|discriminate]. cbn [option_map]. intros [= <- <-]. exists ranges, steps. split; [reflexivity|].
  apply all_some_spec in E. pose proof (forall2_len _ _ _ E) as L. rewrite combine_len in L. split; [symmetry; exact L|].
  split; [rewrite map_length, combine_len; reflexivity|].
  assert (LR : length ranges = length steps).
  { clear E L. unfold chosen in Ch. destruct marks as [|k marks].
    - destruct (all_some _) as [q|] eqn:Eq; [|discriminate]. injection Ch as <- <-. apply all_some_spec, forall2_len in Eq. symmetry. exact Eq.
    - apply filter_steps_spec in Ch as (ks & A & B & _). apply forall2_len in A, B. congruence. }
  split; [|split].
  - rewrite map_map. cbn [draw_marker k_pos]. generalize 0. induction ranges as [|r ranges IH] in |- *; intros b; cbn; [reflexivity|]. rewrite IH. reflexivity.
  - intros i w Hw. rewrite nth_error_map in Hw. destruct (nth_error ranges i) as [r|] eqn:Er.
    + rewrite (combine_nth _ 0 _ _ Er) in Hw. injection Hw as <-. cbn [draw_marker k_label k_fail fst snd plus]. split; [lia|]. apply nth_below in Er.
      rewrite andb_true_iff, Nat.eqb_eq. assert (Q : i = length steps - 1 <-> S i = length steps) by lia. rewrite Q.
      destruct (error_text (w_result t)); split; intros [A B]; split; auto; try discriminate; congruence.
    + apply nth_error_None in Er. assert (N : nth_error (combine (seq 0 (length ranges)) ranges) i = None) by (apply nth_error_None; rewrite combine_len; exact Er).
      rewrite N in Hw. discriminate.
  - intros i p Hp. destruct (nth_some steps i) as [s Es]; [apply nth_below in Hp; lia|]. exists s. split; [exact Es|].
    pose proof (forall2_nth _ _ _ E i _ _ (combine_nth _ 0 _ _ Es) Hp) as Q. unfold draw_panel in Q. cbn [fst snd plus w_steps w_result] in Q.
    destruct (look_state _ _ _ _ _) as [pic|] eqn:Lk; [|discriminate]. injection Q as <-. cbn [p_label p_error p_picture]. split; [lia|].
    apply nth_below in Es. destruct (Nat.eqb_spec i (length steps - 1)) as [A|A]; (split; [|split; [|reflexivity]]); intros; auto; lia.
Qed.

(** Where the numbers stand. *)
Lemma forall2_mono {A B} (R Q : A -> B -> Prop) l m : (forall a b, In a l -> R a b -> Q a b) -> Forall2 R l m -> Forall2 Q l m.
Proof. intros H F. induction F as [|a b l m Rab F IH]; constructor; [apply H; cbn; auto|apply IH; intros; apply H; cbn; auto]. Qed.
Lemma forall2_flip {A B} (R : A -> B -> Prop) l m : Forall2 R l m -> Forall2 (fun b a => R a b) m l.
Proof. induction 1; constructor; auto. Qed.
Lemma forall2_join {A B C} (R : A -> B -> Prop) (Q : B -> C -> Prop) l m k : Forall2 R l m -> Forall2 Q m k -> Forall2 (fun a c => exists b, R a b /\ Q b c) l k.
Proof. intros F. revert k. induction F as [|a b l m Rab F IH]; intros k G; inversion G; subst; constructor; eauto. Qed.
Lemma chosen_spec d steps marks ranges ss : chosen d steps marks = Some (ranges, ss) ->
  Forall2 (fun r s => In s steps /\ exists outer f, w_frames s = outer ++ [f] /\
    (marks = [] -> Finishes d (w_loc f) r) /\ (marks <> [] -> MarkFits d (w_body f) (w_loc f) r)) ranges ss.
Proof.
  unfold chosen. destruct marks as [|k marks].
  - destruct (all_some _) as [q|] eqn:Eq; [|discriminate]. intros [= <- <-]. apply all_some_spec in Eq. apply forall2_flip.
    eapply forall2_mono; [|exact Eq]. cbn beta. intros s r Is E. split; [exact Is|]. destruct (TraceModel.last_opt (w_frames s)) as [f|] eqn:El; [|discriminate].
    apply last_opt_iff in El as [o El]. exists o, f. split; [exact El|]. split; [intros _; apply finishes; exact E|congruence].
  - intros H. apply filter_steps_spec in H as (ks & A & B & _). eapply forall2_mono; [|exact (forall2_join _ _ _ _ _ A B)]. cbn beta.
    intros r s _ (j & ((s' & E & o & f & Ef & MF) & _) & E'). rewrite E in E'. injection E' as <-. split; [eapply nth_error_In; exact E|].
    exists o, f. split; [exact Ef|]. split; [discriminate|intros _; exact MF].
Qed.

(** ** Whether anything is shown *)

Lemma in_text_hits d mark s : InText d s -> exists b, hits d mark s = Some b.
Proof.
  intros (o & f & lo & hi & l & E & A & B & C). apply starts in A. apply finishes in B. apply starts in C. unfold hits.
  rewrite E, TraceMachine.last_opt_app. cbn [obind]. rewrite A. cbn [obind]. destruct (Nat.leb lo mark); [rewrite B|]; cbn [option_map obind]; rewrite C; cbn [option_map]; eauto.
Qed.
Lemma indexed_fits d steps mark : (forall s, In s steps -> InText d s) ->
  ((exists x, indexed d steps mark = Some x) <-> exists s, In s steps /\ FitsStep d mark s).
Proof.
  intros T. split.
  - intros [[n [m s]] E]. apply indexed_some in E as (_ & k & _ & N & (s' & N' & F) & _). exists s'. split; [apply (nth_error_In _ _ N')|exact F].
  - intros (s & I & F). destruct (FrontProofs.find_index_none (hits d mark) (rev steps) 0) as [A B].
    { intros x Ix. apply in_rev in Ix. exact (in_text_hits d mark x (T x Ix)). }
    unfold indexed. destruct A as [A|(j & x & A)]; [|rewrite A; eauto]. exfalso.
    pose proof (proj1 B A s (proj1 (in_rev _ _) I)) as H. apply hits_spec in H. apply H in F. discriminate F.
Qed.
Lemma all_some_in {A B} (f : A -> option B) l r a : all_some (map f l) = Some r -> In a l -> exists b, f a = Some b.
Proof. intros E I. apply all_some_spec in E. induction E as [|x y l r Ex F IH]; [destruct I|]. destruct I as [->|I]; eauto. Qed.
Lemma marked_shown d marks c ft w : marks <> [] -> (forall s, In s (w_steps w) -> InText d s) -> Forall (fun s => LookSpec.StateLegible c (snap s)) (w_steps w) ->
  ((exists n ws ps, screen d marks n ft c w = Some (ws, ps)) <-> forall mark, In mark marks -> exists s, In s (w_steps w) /\ FitsStep d mark s).
Proof.
  intros N T LG. split.
  - intros (n & ws & ps & SC) mark I. apply screen_panels in SC as (ranges & ss & Ch & _). unfold chosen in Ch. destruct marks as [|k marks]; [congruence|].
    unfold filter_steps in Ch. destruct (all_some (map (indexed d (w_steps w)) (k :: marks))) as [ix|] eqn:E; [|discriminate].
    apply (indexed_fits d _ mark T). exact (all_some_in _ _ _ _ E I).
  - intros H. destruct (legible_steps ft c _ LG) as [n HN]. exists n.
    assert (Ch : exists ranges ss, chosen d (w_steps w) marks = Some (ranges, ss) /\ forall s, In s ss -> In s (w_steps w)).
    { destruct (LookProofs.all_some_forall (indexed d (w_steps w)) marks) as [ix E].
      { rewrite Forall_forall. intros mark I. apply (indexed_fits d _ mark T). auto. }
      destruct marks as [|k marks]; [congruence|]. destruct (filter_steps d (w_steps w) (k :: marks)) as [[rs ss]|] eqn:Ef; [|unfold filter_steps in Ef; rewrite E in Ef; discriminate Ef].
      exists rs, ss. split; [exact Ef|]. intros s I. apply filter_steps_spec in Ef as (ks & _ & F & _). clear - F I.
      induction F as [|q s' ks ss Hq F IH]; [destruct I|]. destruct I as [->|I]; [apply (nth_error_In _ _ Hq)|auto]. }
    destruct Ch as (ranges & ss & Ch & Sub). unfold screen. rewrite Ch. cbn [obind].
    match goal with |- context [all_some (map ?f ?l)] => destruct (LookProofs.all_some_forall f l) as [ps Ep] end.
    { rewrite Forall_forall. intros [i s] I. apply in_combine_r in I. unfold draw_panel. cbn [fst snd].
      destruct (HN n (error_at (WTrace ss (w_result w)) i) s (le_n _) (Sub s I)) as [pic Epic]. rewrite Epic. cbn. eauto. }
    rewrite Ep. cbn [option_map]. eauto.
Qed.
