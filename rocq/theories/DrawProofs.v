(** * Proofs about the page drawing the permission analysis from the parsed answer *)
From Coq Require Import Ascii String.
From Coq Require Import List Arith ZArith Bool Lia.
From Verif Require Import Base PermsModel BookModel RunModel EmbedSpec WireModel WireSpec WireProofs ReportModel ReportSpec ReportProofs DrawModel DrawSpec.
From Verif Require EditorModel BoundariesModel.
Import ListNotations.
Local Open Scope string_scope.
Local Open Scope list_scope.

Lemma dot_member k j x : Member k j x -> dot k j = Some x.
Proof. intros (l & -> & E). exact E. Qed.
Lemma dot_may {A} k j (R : json -> A -> Prop) o : May k j R o -> match o with Some a => exists x, dot k j = Some x /\ R x a | None => dot k j = None end.
Proof. destruct o as [a|]; cbn [May]; [intros (x & M & H); exists x; auto using dot_member|intros (l & -> & E); exact E]. Qed.
Lemma number_may k j o : May k j NatC o -> number_or (dot k j) = Some o.
Proof. intros M. apply dot_may in M. destruct o as [a|]; [destruct M as (x & -> & ->)|rewrite M]; reflexivity. Qed.
Lemma truth_member k j b : Member k j (JBool b) -> truth (dot k j) = Some b.
Proof. intros M. rewrite (dot_member _ _ _ M). reflexivity. Qed.
Lemma pos_got j p : PosC j p -> get_pos j = Some (EditorModel.Pos (fst p) (snd p)).
Proof. intros [A B]. unfold get_pos. rewrite (dot_member _ _ _ A), (dot_member _ _ _ B). reflexivity. Qed.
Lemma all_got {A B} (R : json -> A -> Prop) (f : json -> option B) (g : A -> B) : (forall j a, R j a -> f j = Some (g a)) ->
  forall js l, Forall2 R js l -> all f js = Some (map g l).
Proof. intros H js l F. induction F as [|j a js l Rj F IH]; cbn [all map]; [reflexivity|]. rewrite (H _ _ Rj). cbn [obind]. rewrite IH. reflexivity. Qed.
Lemma items_got {A B} k j (R : json -> A -> Prop) (f : json -> option B) (g : A -> B) l : (forall j a, R j a -> f j = Some (g a)) ->
  Has k j (Items R) l -> obind (items (dot k j)) (all f) = Some (map g l).
Proof. intros H (x & M & js & -> & F). rewrite (dot_member _ _ _ M). cbn [items obind]. eapply all_got; eauto. Qed.

Lemma flags_got j o : May "expecting_flow" j FlowC o -> flow_flags (dot "expecting_flow" j) =
  Some (match o with Some f => (true, if f_violation f then false else true) | None => (false, true) end).
Proof.
  intros M. apply dot_may in M. destruct o as [f|]; [destruct M as (x & -> & T & _)|rewrite M]; [|reflexivity].
  cbn [flow_flags]. rewrite (truth_member _ _ _ T). cbn [option_map]. destruct (f_violation f); reflexivity.
Qed.
Lemma boundary_got j b : BoundC j b -> page_boundary j = Some (boundary_of b).
Proof.
  intros ((x1 & M1 & A1) & (x2 & M2 & (R2 & W2 & D2)) & (x3 & M3 & (R3 & W3 & D3)) & (x4 & M4 & (_ & _ & _ & _ & _ & K1 & K2 & K3 & K4)) & M5).
  unfold page_boundary. rewrite (dot_member _ _ _ M1), (dot_member _ _ _ M2), (dot_member _ _ _ M3), (dot_member _ _ _ M4), (flags_got _ _ M5). cbn [obind].
  rewrite (pos_got _ _ A1), (truth_member _ _ _ R2), (truth_member _ _ _ W2), (truth_member _ _ _ D2), (truth_member _ _ _ R3), (truth_member _ _ _ W3), (truth_member _ _ _ D3).
  rewrite (number_may _ _ _ K1), (number_may _ _ _ K2), (number_may _ _ _ K3), (number_may _ _ _ K4). cbn [obind option_map].
  unfold boundary_of, letters_of. destruct b as [p [[] [] []] [a1 a2 a3] d [f|]]; reflexivity.
Qed.

Lemma mark_got k j s : Has k j (ChangeC BoolC) s -> obind (dot k j) step_mark = Some (EditorModel.letter_mark s).
Proof.
  intros (x & M & C). rewrite (dot_member _ _ _ M). cbn [obind]. unfold step_mark. destruct s as [v| |o]; cbn [ChangeC] in C.
  - destruct C as [T _]. rewrite (dot_member _ _ _ T). reflexivity.
  - rewrite (dot_member _ _ _ C). reflexivity.
  - destruct C as [T V]. rewrite (dot_member _ _ _ T). apply dot_may in V. destruct o as [v|].
    + destruct V as (y & E & ->). cbn. rewrite E. destruct v; reflexivity.
    + cbn. rewrite V. reflexivity.
Qed.
Lemma icon_got {A} (R : json -> A -> Prop) k j s u d : Has k j (ChangeC R) s -> fact_icon j k u d = Some (EditorModel.change s u d).
Proof.
  intros (x & M & C). unfold fact_icon. rewrite (dot_member _ _ _ M). cbn [obind]. unfold step_icon. destruct s as [v| |o]; cbn [ChangeC] in C.
  - destruct C as [T _]. rewrite (dot_member _ _ _ T). reflexivity.
  - rewrite (dot_member _ _ _ C). reflexivity.
  - destruct C as [T _]. rewrite (dot_member _ _ _ T). reflexivity.
Qed.
Lemma key_got k j s : Has k j (ChangeC NatC) s -> obind (dot k j) step_key = Some (EditorModel.unwrap s).
Proof.
  intros (x & M & C). rewrite (dot_member _ _ _ M). cbn [obind]. unfold step_key. destruct s as [v| |o]; cbn [ChangeC] in C.
  - destruct C as [T (y & V & ->)]. rewrite (dot_member _ _ _ T), (dot_member _ _ _ V). reflexivity.
  - rewrite (dot_member _ _ _ C). reflexivity.
  - destruct C as [T V]. rewrite (dot_member _ _ _ T), (number_may _ _ _ V). reflexivity.
Qed.
Lemma diff_got j d : DiffC j d -> page_diff j = Some (DrawnRow (EditorModel.row_icon d) (EditorModel.row_marks d) (EditorModel.row_keys d)).
Proof.
  intros (A1 & A2 & A3 & A4 & A5 & A6 & A7 & A8 & (p & Mp & P1 & P2 & P3)). unfold page_diff.
  rewrite (icon_got _ _ _ _ _ _ A4), (icon_got _ _ _ _ _ _ A6), (icon_got _ _ _ _ _ _ A7), (icon_got _ _ _ _ _ _ A1), (icon_got _ _ _ _ _ _ A5), (dot_member _ _ _ Mp).
  cbn [obind]. rewrite (mark_got _ _ _ P1), (mark_got _ _ _ P2), (mark_got _ _ _ P3), (key_got _ _ _ A4), (key_got _ _ _ A6), (key_got _ _ _ A7), (key_got _ _ _ A8).
  cbn [obind option_map]. f_equal. unfold EditorModel.row_marks, EditorModel.row_keys, EditorModel.row_icon, EditorModel.visual_facts. f_equal.
  destruct (EditorModel.change (dd_path_moved d)); [reflexivity|]. destruct (EditorModel.change (dd_loan_read d)); [reflexivity|].
  destruct (EditorModel.change (dd_loan_write d)); [reflexivity|]. destruct (EditorModel.change (dd_is_live d)); [reflexivity|].
  destruct (EditorModel.change (dd_path_uninitialized d)); reflexivity.
Qed.
Lemma row_got j r : RowC j r -> page_row j = Some (row_of r).
Proof. intros (x & -> & D). cbn [page_row]. rewrite (diff_got _ _ D). reflexivity. Qed.
Lemma table_got j t : TableC j t -> page_table j = Some (map row_of (t_rows t)).
Proof. intros (_ & _ & H). unfold page_table. eapply items_got; [exact row_got|exact H]. Qed.
Lemma line_got j l : LineC j l -> page_line j = Some (line_of l).
Proof.
  intros [(x & M & Rx) H]. unfold page_line. rewrite (items_got _ _ _ _ (fun t => map row_of (t_rows t)) _ table_got H), (dot_member _ _ _ M). cbn [obind].
  unfold line_of. destruct (l_loc l) as [[a [n c]] f]. destruct Rx as (_ & y & _ & _ & _ & My & Py & _). rewrite (dot_member _ _ _ My). cbn [obind].
  rewrite (pos_got _ _ Py). reflexivity.
Qed.
Lemma output_got j o : Distinct j -> ReportC j o -> RealReport o -> exists x, Shows o x /\
  page_output j = Some (EditorModel.actions_of (EditorModel.o_facts x), EditorModel.o_boundaries x, EditorModel.o_steps x).
Proof.
  intros D C Re. destruct (actions_got _ _ D C Re) as (f & I1 & I2 & I3 & I4 & E). exists (EditorModel.Output f (map boundary_of (o_bounds o)) (map line_of (o_lines o))).
  split; [unfold Shows; cbn; auto 8|]. unfold page_output. rewrite E. cbn [obind]. destruct C as (_ & B & L & _).
  rewrite (items_got _ _ _ _ _ _ boundary_got B), (items_got _ _ _ _ _ _ line_got L). reflexivity.
Qed.
Lemma error_got j e : FailureC j e -> page_error j = Some (match e with BuildError _ => ToldBuild | AnalysisError m => ToldAnalysis (lit m) end).
Proof.
  destruct e as [r|m]; intros [T C]; unfold page_error; rewrite (dot_member _ _ _ T); cbn; [reflexivity|]. rewrite (dot_member _ _ _ C). reflexivity.
Qed.
Lemma no_member k j : (exists l, j = JObj l) -> (~ exists x, Member k j x) -> dot k j = None.
Proof. intros (l & ->) N. cbn. destruct (aget str_eqd l (lit k)) as [x|] eqn:E; [|reflexivity]. exfalso. apply N. exists x, l. auto. Qed.
Lemma results_got js l : Forall2 OutcomeC js l -> Forall Distinct js -> Forall RealResult l -> exists outs, Forall2 Shows (analysed l) outs /\
  page_results js = Some (map (fun x => (EditorModel.actions_of (EditorModel.o_facts x), EditorModel.o_boundaries x, EditorModel.o_steps x)) outs, failed l).
Proof.
  induction 1 as [|j r js l C F IH]; intros Ds Re.
  - exists []. split; [constructor|reflexivity].
  - inversion Ds as [|? ? D1 Ds']; subst. inversion Re as [|? ? R1 Re']; subst. destruct (IH Ds' Re') as (outs & Sh & E). destruct r as [o|e].
    + destruct C as [(y & M & C) _]. destruct (output_got y o) as (x & Sx & Ex); [eapply distinct_member; eauto|exact C|exact R1|].
      exists (x :: outs). split; [constructor; assumption|]. cbn [page_results analysed failed]. rewrite (dot_member _ _ _ M), Ex. cbn [obind]. rewrite E. reflexivity.
    + destruct C as [(y & M & C) N]. exists outs. split; [exact Sh|]. cbn [page_results failed].
      rewrite (no_member "Ok" j); [|destruct M as (k & -> & _); eauto|exact N]. rewrite (dot_member _ _ _ M). cbn [obind]. rewrite (error_got _ _ C). cbn [obind]. rewrite E.
      destruct e; reflexivity.
Qed.
Lemma collect_map {A B C} (f : B -> option C) (g : A -> B) l : EditorModel.collect f (map g l) = EditorModel.collect (fun a => f (g a)) l.
Proof. induction l as [|a l IH]; cbn; [reflexivity|]. rewrite IH. reflexivity. Qed.
Lemma decos_got js l : Forall2 OutcomeC js l -> Forall Distinct js -> Forall RealResult l -> exists outs, Forall2 Shows (analysed l) outs /\
  forall d, page_decos d (JArr js) = Some (EditorModel.make_decorations d outs, failed l).
Proof.
  intros F D Re. destruct (results_got js l F D Re) as (outs & Sh & E). exists outs. split; [exact Sh|]. intros d. unfold page_decos. cbn [items obind]. rewrite E.
  cbn [option_map fst snd]. rewrite !collect_map, flat_map_concat_map, map_map, <- flat_map_concat_map. reflexivity.
Qed.
Lemma shows_same o o' x x' : SameReport o o' -> Shows o x -> Shows o' x' -> x = x'.
Proof.
  intros (_ & Eb & El & S1 & S2 & S3 & S4) (A1 & A2 & A3 & A4 & A5 & A6) (B1 & B2 & B3 & B4 & B5 & B6). destruct x as [[p r q t] b s], x' as [[p' r' q' t'] b' s']. cbn in *.
  rewrite (order_same _ _ _ _ _ S1 A1 B1), (order_same _ _ _ _ _ S2 A2 B2), (order_same _ _ _ _ _ S3 A3 B3), (order_same _ _ _ _ _ S4 A4 B4).
  subst. rewrite Eb, El. reflexivity.
Qed.
Lemma shows_all l l' : Forall2 SameResult l l' -> forall xs xs', Forall2 Shows (analysed l) xs -> Forall2 Shows (analysed l') xs' -> xs = xs' /\ failed l = failed l'.
Proof.
  induction 1 as [|r r' l l' H F IH]; intros xs xs' A B.
  - inversion A; inversion B; subst; auto.
  - destruct r as [o|e], r' as [o'|e']; cbn [SameResult] in H; try contradiction; cbn [analysed] in *.
    + inversion A as [|? x ? xs1 A1 A2]; inversion B as [|? x' ? xs1' B1 B2]; subst. destruct (IH _ _ A2 B2) as [-> E]. rewrite (shows_same _ _ _ _ H A1 B1). auto.
    + subst e'. destruct (IH _ _ A B) as [-> E]. split; [reflexivity|]. destruct e; cbn [failed]; rewrite E; reflexivity.
Qed.

(** ** In what is drawn *)
Lemma analysed_in l o : In o (analysed l) <-> In (inl o) l.
Proof.
  induction l as [|[x|e] l IH]; cbn [analysed In]; [tauto| |].
  - rewrite IH. split; intros [H|H]; auto; left; congruence.
  - rewrite IH. split; [auto|]. intros [H|H]; [discriminate H|exact H].
Qed.
Lemma forall2_in {A B} (R : A -> B -> Prop) l m a : Forall2 R l m -> In a l -> exists b, In b m /\ R a b.
Proof. induction 1 as [|x y l m H F IH]; cbn [In]; [tauto|]. intros [->|I]; [eauto|]. destruct (IH I) as (b & Ib & Rb). eauto. Qed.
Lemma forall2_back {A B} (R : A -> B -> Prop) l m b : Forall2 R l m -> In b m -> exists a, In a l /\ R a b.
Proof. induction 1 as [|x y l m H F IH]; cbn [In]; [tauto|]. intros [->|I]; [eauto|]. destruct (IH I) as (a & Ia & Ra). eauto. Qed.
Lemma collect_in {A C} (f : A -> option C) l ys x : EditorModel.collect f l = Some ys -> In x l -> exists y, f x = Some y /\ In y ys.
Proof.
  revert ys. induction l as [|a l IH]; intros ys; cbn [EditorModel.collect In]; [tauto|]. destruct (f a) as [y|] eqn:E; [|discriminate].
  destruct (EditorModel.collect f l) as [r|]; [|discriminate]. intros [= <-] [->|I]; [exists y; cbn; auto|]. destruct (IH r eq_refl I) as (z & Ez & Iz). exists z. cbn. auto.
Qed.
Lemma collect_back {A C} (f : A -> option C) l ys y : EditorModel.collect f l = Some ys -> In y ys -> exists x, In x l /\ f x = Some y.
Proof.
  revert ys. induction l as [|a l IH]; intros ys; cbn [EditorModel.collect In]; [intros [= <-] []|]. destruct (f a) as [z|] eqn:E; [|discriminate].
  destruct (EditorModel.collect f l) as [r|]; [|discriminate]. intros [= <-] [->|I]; [eauto|]. destruct (IH r eq_refl I) as (x & Ix & Ex). eauto.
Qed.
Lemma uniq_in {X} l : forall seen (x : nat * X), In x (EditorModel.uniq_by_pos seen l) -> In x l.
Proof.
  induction l as [|a l IH]; intros seen x; cbn [EditorModel.uniq_by_pos In]; [tauto|]. destruct (existsb _ _); [intros H; right; eapply IH; eauto|].
  cbn [In]. intros [->|H]; [auto|right; eapply IH; eauto].
Qed.
Lemma uniq_pos {X} l : forall seen n (x : X), In (n, x) l -> In n seen \/ exists y, In (n, y) (EditorModel.uniq_by_pos seen l).
Proof.
  induction l as [|a l IH]; intros seen n x; cbn [EditorModel.uniq_by_pos In]; [tauto|]. destruct (existsb _ seen) eqn:E.
  - intros [->|H]; [|eapply IH; eauto]. left. apply existsb_exists in E. destruct E as (m & I & Em). apply Nat.eqb_eq in Em. cbn [fst] in Em. subst m. exact I.
  - intros [->|H]; [right; exists x; left; reflexivity|]. destruct (IH (fst a :: seen) n x H) as [[<-|I]|(y & I)]; [|auto|].
    + right. exists (snd a). left. destruct a; reflexivity.
    + right. exists y. right. exact I.
Qed.
Lemma place_in {X} d (x : EditorModel.pos * X) r : EditorModel.place_one d x = Some r ->
  EditorModel.linecol_to_position (fst x) d = Some (fst r) /\ snd r = snd x.
Proof. unfold EditorModel.place_one. destruct (EditorModel.linecol_to_position _ _); [|discriminate]. destruct (EditorModel.line_at _ _); [|discriminate]. intros [= <-]. auto. Qed.
Lemma decorated {Bd St} d (outs : list (@EditorModel.output Bd St)) ds : EditorModel.make_decorations d outs = Some ds ->
  exists bs ss, EditorModel.collect (fun o => EditorModel.place d (EditorModel.o_boundaries o)) outs = Some bs /\
    EditorModel.collect (fun o => EditorModel.place d (EditorModel.o_steps o)) outs = Some ss /\
    EditorModel.d_steps ds = concat ss /\ EditorModel.d_boundaries ds = EditorModel.uniq_by_pos [] (concat bs).
Proof.
  unfold EditorModel.make_decorations. destruct (EditorModel.collect _ outs) as [bs|]; [|discriminate]. destruct (EditorModel.collect _ outs) as [ss|]; [|discriminate].
  intros [= <-]. exists bs, ss. auto.
Qed.
