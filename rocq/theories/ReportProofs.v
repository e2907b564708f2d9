(** * Proofs about the permission analysis as JSON *)
From Coq Require Import Ascii String.
From Coq Require Import List Arith ZArith Bool Lia.
From Verif Require Import Base PermsModel BookModel RunModel NumbersModel NumbersSpec NumbersProofs EmbedSpec WireModel WireSpec WireProofs ReportModel ReportSpec.
From Verif Require EditorModel FlowModel EmbedModel JsonSpec JsonModel JsonProofs.
Import ListNotations.
Local Open Scope string_scope.
Local Open Scope list_scope.

Lemma decimal_inj n m : EmbedModel.decimal n = EmbedModel.decimal m -> n = m.
Proof. intros E. pose proof (JsonProofs.key_number_decimal n) as A. rewrite E, JsonProofs.key_number_decimal in A. congruence. Qed.

(** ** Written as it should be *)
Lemma has_at {A} k l (R : json -> A -> Prop) a x : aget str_eqd l (lit k) = Some x -> R x a -> Has k (JObj l) R a.
Proof. intros E H. exists x. split; [apply member_at, E|exact H]. Qed.
Lemma may_at {A} k l (R : json -> A -> Prop) (f : A -> json) o :
  aget str_eqd l (lit k) = option_map f o -> (forall a, o = Some a -> R (f a) a) -> May k (JObj l) R o.
Proof. intros E H. destruct o as [a|]; cbn in *; [exists (f a); split; [apply member_at, E|auto]|exists l; auto]. Qed.
Lemma map_at {A} (R : json -> A -> Prop) (f : A -> json) m : NoDup (map fst m) -> (forall n a, In (n, a) m -> R (f a) a) -> MapC R (jmap f m) m.
Proof.
  intros N H. eexists. split; [reflexivity|]. split; [exact N|].
  set (l := map (fun e => (EmbedModel.decimal (fst e), f (snd e))) m).
  assert (Nl : NoDup (akeys l)).
  { unfold akeys, l. rewrite map_map. cbn [fst]. rewrite <- (map_map fst EmbedModel.decimal). apply FinFun.Injective_map_NoDup; [|exact N].
    intros a b. apply decimal_inj. }
  split.
  - intros n a I. exists (f a). split; [|eapply H, I]. apply In_aget; [exact Nl|]. apply in_map_iff. exists (n, a). auto.
  - intros k x E. apply aget_Some_In, in_map_iff in E. destruct E as ([n a] & [= <- <-] & I). exists n. split; [reflexivity|]. apply in_map_iff. exists (n, a). auto.
Qed.
Lemma perms_form p : PermsC (jperms p) p.
Proof. repeat split; apply member_at; reflexivity. Qed.
Lemma data_form d : DataC (jdata d) d.
Proof.
  destruct d as [a1 a2 a3 a4 a5 a6 a7 a8 a9]. unfold DataC, jdata, jobj. cbn [type_droppable type_writeable type_copyable is_live path_uninitialized path_moved loan_read_refined loan_write_refined loan_drop_refined].
  do 5 (split; [apply member_at; reflexivity|]).
  split; [|split; [|split]]; apply (may_at _ _ _ JNum); try reflexivity; destruct a6, a7, a8, a9; reflexivity.
Qed.
Lemma edge_form k : EdgeC (jedge k) k.
Proof. destruct k; reflexivity. Qed.
Ltac has := eapply has_at; [reflexivity|].
Lemma flow_form f : FlowC (jflow f) f.
Proof. split; [apply member_at; reflexivity|]. split; has; [apply range_conforms|apply edge_form]. Qed.
Lemma pos_form p : PosC (jpos p) p.
Proof. split; apply member_at; reflexivity. Qed.
Lemma bound_form b : BoundC (jbound b) b.
Proof.
  split; [has; apply pos_form|]. split; [has; apply perms_form|]. split; [has; apply perms_form|]. split; [has; apply data_form|].
  apply (may_at _ _ _ jflow); [destruct (b_flow b); reflexivity|]. intros f _. apply flow_form.
Qed.
Lemma change_form {A} (R : json -> A -> Prop) f s : (forall a, R (f a) a) -> ChangeC R (jchange f s) s.
Proof.
  intros H. destruct s as [v| |o]; cbn [ChangeC jchange].
  - split; [apply member_at; reflexivity|]. has. apply H.
  - apply member_at; reflexivity.
  - split; [apply member_at; destruct o; reflexivity|]. apply (may_at _ _ _ f); [destruct o; reflexivity|]. auto.
Qed.
Lemma diff_form d : DiffC (jdiff d) d.
Proof.
  assert (B : forall s, ChangeC BoolC (jchange JBool s) s) by (intros s; apply change_form; reflexivity).
  assert (N : forall s, ChangeC NatC (jchange JNum s) s) by (intros s; apply change_form; reflexivity).
  unfold DiffC. do 8 (split; [has; first [apply B|apply N]|]). has. split; [has; apply B|]. split; has; apply B.
Qed.
Lemma row_form r : RowC (jrow r) r.
Proof. eexists. split; [reflexivity|]. apply diff_form. Qed.
Lemma table_form t : TableC (jtable t) t.
Proof. split; [has; apply range_conforms|]. split; has; [apply range_conforms|]. apply items_id, all_true, row_form. Qed.
Lemma line_form l : LineC (jline l) l.
Proof. split; has; [apply range_conforms|]. apply items_id, all_true, table_form. Qed.
Lemma refiner_form r : RefinerC (jrefiner r) r.
Proof. destruct r; (split; [apply member_at; reflexivity|]); intros (x & l & [= <-] & E); discriminate E. Qed.
Lemma region_form r : RegionC (jregion r) r.
Proof. split; has; [apply refiner_form|]. apply items_id, all_true, range_conforms. Qed.
Lemma report_form o : RealReport o -> ReportC (jreport o) o.
Proof.
  intros (_ & _ & _ & [N1 _] & [N2 _] & [N3 _] & [N4 _]). split; [has; apply range_conforms|]. split; [has; apply items_id, all_true, bound_form|].
  split; [has; apply items_id, all_true, line_form|]. split; [has; apply map_at; [exact N1|intros; apply range_conforms]|].
  split; [has; apply map_at; [exact N2|intros; apply region_form]|]. split; [has; apply map_at; [exact N3|intros; apply range_conforms]|].
  has; apply map_at; [exact N4|intros; apply region_form].
Qed.
Lemma failure_form e : FailureC (jfailure e) e.
Proof.
  destruct e as [r|m]; (split; [apply member_at; reflexivity|]); [has; apply opt_conforms, range_conforms|apply member_at; reflexivity].
Qed.
Lemma outcome_form r : RealResult r -> OutcomeC (jresult1 r) r.
Proof.
  destruct r as [o|e]; intros Re; (split; [has|intros (x & l & [= <-] & E); discriminate E]); [apply report_form, Re|apply failure_form].
Qed.

(** ** One meaning *)
Definition Fun {A} (R : json -> A -> Prop) : Prop := forall j a b, R j a -> R j b -> a = b.
Lemma has_fun {A} k (R : json -> A -> Prop) j a b : Fun R -> Has k j R a -> Has k j R b -> a = b.
Proof. intros F (x & M & H) (y & M' & H'). pose proof (member_fun _ _ _ _ M M') as <-. eapply F; eauto. Qed.
Lemma may_fun {A} k (R : json -> A -> Prop) j a b : Fun R -> May k j R a -> May k j R b -> a = b.
Proof.
  intros F. destruct a as [a|], b as [b|]; cbn [May].
  - intros H H'. f_equal. eapply (has_fun k R j); eauto.
  - intros (x & (l & -> & E) & _) (l' & [= <-] & E'). congruence.
  - intros (l' & -> & E') (x & (l & [= <-] & E) & _). congruence.
  - reflexivity.
Qed.
Lemma bool_fun k j a b : Member k j (JBool a) -> Member k j (JBool b) -> a = b.
Proof. intros A B. pose proof (member_fun _ _ _ _ A B). congruence. Qed.
Lemma natc_fun : Fun NatC.
Proof. intros j a b -> [= ->]. reflexivity. Qed.
Lemma boolc_fun : Fun BoolC.
Proof. intros j a b -> [= ->]. reflexivity. Qed.
Lemma items_one {A} (R : json -> A -> Prop) : Fun R -> Fun (Items R).
Proof. intros F j a b. apply items_eq. exact F. Qed.
Lemma perms_fun : Fun PermsC.
Proof. intros j [a1 a2 a3] [b1 b2 b3] (A & B & C) (A' & B' & C'). cbn in *. f_equal; eapply bool_fun; eauto. Qed.
Lemma data_fun : Fun DataC.
Proof.
  intros j [a1 a2 a3 a4 a5 a6 a7 a8 a9] [b1 b2 b3 b4 b5 b6 b7 b8 b9] (A1 & A2 & A3 & A4 & A5 & A6 & A7 & A8 & A9) (B1 & B2 & B3 & B4 & B5 & B6 & B7 & B8 & B9).
  cbn [type_droppable type_writeable type_copyable is_live path_uninitialized path_moved loan_read_refined loan_write_refined loan_drop_refined] in *.
  f_equal; try (eapply bool_fun; eassumption); eapply may_fun; try eassumption; apply natc_fun.
Qed.
Lemma edge_fun : Fun EdgeC.
Proof. intros j a b. destruct a, b; cbn [EdgeC]; intros -> E; try reflexivity; discriminate E. Qed.
Lemma range_one : Fun RangeC.
Proof. intros j a b. apply range_fun. Qed.
Lemma flow_fun : Fun FlowC.
Proof.
  intros j [a1 a2 a3] [b1 b2 b3] (A & B & C) (A' & B' & C'). cbn [f_violation f_context f_kind] in *.
  f_equal; [eapply bool_fun; eauto|eapply has_fun; [apply range_one|eauto|eauto]|eapply has_fun; [apply edge_fun|eauto|eauto]].
Qed.
Ltac same L := eapply has_fun; [apply L|eassumption|eassumption].
Lemma pos_one : Fun PosC.
Proof. intros j a b. apply pos_fun. Qed.
Lemma bound_fun : Fun BoundC.
Proof.
  intros j [a1 a2 a3 a4 a5] [b1 b2 b3 b4 b5] (A1 & A2 & A3 & A4 & A5) (B1 & B2 & B3 & B4 & B5). cbn [b_pos b_exp b_act b_data b_flow] in *.
  f_equal; [same pos_one|same perms_fun|same perms_fun|same data_fun|eapply may_fun; [apply flow_fun|eauto|eauto]].
Qed.
Lemma change_fun {A} (R : json -> A -> Prop) : Fun R -> Fun (ChangeC R).
Proof.
  intros F j a b. destruct a as [v| |o], b as [w| |o']; cbn [ChangeC]; intros H H'; repeat match goal with H : _ /\ _ |- _ => destruct H end;
    match goal with A : Member "type" j ?x, B : Member "type" j ?y |- _ =>
      first [constr_eq x y; fail 1|pose proof (member_fun _ _ _ _ A B) as E; discriminate E] | _ => idtac end.
  - f_equal. same F.
  - reflexivity.
  - f_equal. eapply may_fun; eauto.
Qed.
Lemma changeb_fun : Fun (ChangeC BoolC). Proof. apply change_fun, boolc_fun. Qed.
Lemma changen_fun : Fun (ChangeC NatC). Proof. apply change_fun, natc_fun. Qed.
Lemma permsdiff_fun : Fun PermsDiffC.
Proof. intros j [a1 a2 a3] [b1 b2 b3] (A & B & C) (A' & B' & C'). cbn [pd_read pd_write pd_drop] in *. f_equal; same changeb_fun. Qed.
Lemma diff_fun : Fun DiffC.
Proof.
  intros j [a1 a2 a3 a4 a5 a6 a7 a8 a9] [b1 b2 b3 b4 b5 b6 b7 b8 b9] (A1 & A2 & A3 & A4 & A5 & A6 & A7 & A8 & A9) (B1 & B2 & B3 & B4 & B5 & B6 & B7 & B8 & B9).
  cbn [dd_is_live dd_type_droppable dd_type_writeable dd_path_moved dd_path_uninitialized dd_loan_read dd_loan_write dd_loan_drop dd_permissions] in *.
  f_equal; first [same changeb_fun|same changen_fun|same permsdiff_fun].
Qed.
Lemma row_fun : Fun RowC.
Proof.
  intros j [n d] [n' d'] (x & -> & H) (y & E & H'). cbn [fst snd] in *. injection E as E <-. apply lit_inj in E as ->. f_equal. eapply diff_fun; eauto.
Qed.
Lemma table_fun : Fun TableC.
Proof.
  intros j [a1 a2 a3] [b1 b2 b3] (A & B & C) (A' & B' & C'). cbn [t_from t_to t_rows] in *.
  f_equal; [same range_one|same range_one|eapply has_fun; [apply items_one, row_fun|eauto|eauto]].
Qed.
Lemma line_fun : Fun LineC.
Proof.
  intros j [a1 a2] [b1 b2] (A & B) (A' & B'). cbn [l_loc l_tables] in *. f_equal; [same range_one|eapply has_fun; [apply items_one, table_fun|eauto|eauto]].
Qed.
Lemma refiner_fun : Fun RefinerC.
Proof.
  intros j [a|a] [b|b] [A N] [B N']; try (exfalso; eauto; fail); pose proof (member_fun _ _ _ _ A B) as [= ->]; reflexivity.
Qed.
Lemma region_fun : Fun RegionC.
Proof.
  intros j [a1 a2] [b1 b2] (A & B) (A' & B'). cbn [r_by r_ranges] in *. f_equal; [same refiner_fun|eapply has_fun; [apply items_one, range_one|eauto|eauto]].
Qed.
Lemma map_half {A} (R : json -> A -> Prop) j m m' e : Fun R -> MapC R j m -> MapC R j m' -> In e m -> In e m'.
Proof.
  intros F (l & -> & _ & H1 & _) (l' & [= <-] & _ & H1' & H2') I. destruct e as [n a]. destruct (H1 _ _ I) as (x & E & Rx).
  destruct (H2' _ _ E) as (n' & En & I'). apply decimal_inj in En as <-. apply in_map_iff in I'. destruct I' as ([n' b] & En & I'). cbn in En. subst n'.
  destruct (H1' _ _ I') as (y & E' & Ry). rewrite E in E'. injection E' as <-. rewrite (F _ _ _ Rx Ry). exact I'.
Qed.
Lemma map_same {A} (R : json -> A -> Prop) k j m m' : Fun R -> Has k j (MapC R) m -> Has k j (MapC R) m' -> SameMap m m'.
Proof.
  intros F (x & M & H) (y & M' & H') e. pose proof (member_fun _ _ _ _ M M') as <-.
  split; intros I; [exact (map_half R x m m' e F H H' I)|exact (map_half R x m' m e F H' H I)].
Qed.
Lemma report_fun j o o' : ReportC j o -> ReportC j o' -> SameReport o o'.
Proof.
  intros (A1 & A2 & A3 & A4 & A5 & A6 & A7) (B1 & B2 & B3 & B4 & B5 & B6 & B7).
  split; [same range_one|]. split; [eapply has_fun; [apply items_one, bound_fun|eauto|eauto]|]. split; [eapply has_fun; [apply items_one, line_fun|eauto|eauto]|].
  split; [eapply map_same; [apply range_one|eauto|eauto]|]. split; [eapply map_same; [apply region_fun|eauto|eauto]|].
  split; [eapply map_same; [apply range_one|eauto|eauto]|eapply map_same; [apply region_fun|eauto|eauto]].
Qed.
Lemma range_not_null r : ~ RangeC JNull r.
Proof. destruct r as [[a b] f]. intros (x & _ & _ & (l & E & _) & _). discriminate E. Qed.
Lemma failure_fun : Fun FailureC.
Proof.
  intros j [r|m] [r'|m'] [T A] [T' B]; try (pose proof (member_fun _ _ _ _ T T') as E; discriminate E).
  - f_equal. eapply has_fun; [|exact A|exact B]. intros x a b. destruct a as [a|], b as [b|]; cbn [Opt]; intros H H'.
    + f_equal. eapply range_one; eauto.
    + subst x. exfalso. eapply range_not_null; eauto.
    + subst x. exfalso. eapply range_not_null; eauto.
    + reflexivity.
  - pose proof (member_fun _ _ _ _ A B) as E. injection E as E. apply lit_inj in E as ->. reflexivity.
Qed.
Lemma outcome_fun j r r' : OutcomeC j r -> OutcomeC j r' -> SameResult r r'.
Proof.
  destruct r as [o|e], r' as [o'|e']; intros [(x & M & H) N] [(y & M' & H') N']; cbn [SameResult]; try (apply N; eauto; fail); try (apply N'; eauto; fail);
    pose proof (member_fun _ _ _ _ M M') as <-; [eapply report_fun; eauto|eapply failure_fun; eauto].
Qed.

(** ** Read as it was written *)
Definition Stable {A} (P : A -> Prop) (R : json -> A -> Prop) : Prop := forall a j j', P a -> R j a -> Reads j j' -> R j' a.
Lemma has_reads {A} (P : A -> Prop) k (R : json -> A -> Prop) a j j' : Stable P R -> P a -> Has k j R a -> Reads j j' -> Has k j' R a.
Proof. intros F Pa (x & M & H) Rd. destruct (member_reads _ _ _ _ M Rd) as (x' & M' & Rx). exists x'. split; [exact M'|]. eapply F; eauto. Qed.
Lemma may_reads {A} (P : A -> Prop) k (R : json -> A -> Prop) a j j' : Stable P R -> (forall x, a = Some x -> P x) -> May k j R a -> Reads j j' -> May k j' R a.
Proof.
  intros F Pa H Rd. destruct a as [a|]; cbn [May] in *; [apply (has_reads P _ _ _ j); auto|].
  destruct H as (l & -> & E). inversion Rd as [| | | | | | |l0 l' A1 B1 E1 E2]; subst. exists l'. split; [reflexivity|]. apply B1, E.
Qed.
Lemma absent_reads k j j' : (~ exists x, Member k j x) -> Reads j j' -> ~ exists x, Member k j' x.
Proof.
  intros N Rd (x & l' & -> & E). inversion Rd as [| | | | | | |l l1 A1 B1 E1 E2]; subst. destruct (aget str_eqd l (lit k)) as [y|] eqn:G.
  - apply N. exists y, l. auto.
  - rewrite (B1 _ G) in E. discriminate.
Qed.
Lemma bool_reads k j b j' : Member k j (JBool b) -> Reads j j' -> Member k j' (JBool b).
Proof. intros M R. destruct (member_reads _ _ _ _ M R) as (x & M' & Rx). inversion Rx; subst. exact M'. Qed.
Lemma natc_reads : Stable Size NatC.
Proof. intros a j j' Sa -> Rd. apply nat_reads; auto. Qed.
Lemma boolc_reads : Stable (fun _ => True) BoolC.
Proof. intros a j j' _ -> Rd. inversion Rd. reflexivity. Qed.
Lemma items_stable {A} (P : A -> Prop) R : Stable P R -> Stable (Forall P) (Items R).
Proof.
  intros F a j j' Pa (js & -> & H) Rd. apply arr_reads in Rd. destruct Rd as (js' & -> & Rd). exists js'. split; [reflexivity|].
  revert js' Rd Pa. induction H as [|x y l m Rxy H IH]; intros js' Rd Pa; inversion Rd; inversion Pa; subst; constructor; auto. eapply F; eauto.
Qed.
Lemma perms_reads : Stable (fun _ => True) PermsC.
Proof. intros a j j' _ (A & B & C) Rd. repeat split; eapply bool_reads; eauto. Qed.
Lemma size_some o : SizeOpt o -> forall x, o = Some x -> Size x.
Proof. intros H x ->. exact H. Qed.
Lemma data_reads : Stable SizeData DataC.
Proof.
  intros a j j' (Z1 & Z2 & Z3 & Z4) (A1 & A2 & A3 & A4 & A5 & A6 & A7 & A8 & A9) Rd. unfold DataC. do 5 (split; [eapply bool_reads; eassumption|]).
  split; [|split; [|split]]; (eapply may_reads; [apply natc_reads|apply size_some|eassumption|exact Rd]); assumption.
Qed.
Lemma edge_reads : Stable (fun _ => True) EdgeC.
Proof. intros a j j' _ H Rd. destruct a; cbn [EdgeC] in *; subst j; inversion Rd; reflexivity. Qed.
Lemma range_stable : Stable SizeRange RangeC.
Proof. intros a j j'. apply range_reads. Qed.
Ltac keeps L := eapply has_reads; [apply L| |eassumption|eassumption]; try exact Logic.I; try assumption.
Lemma flow_reads : Stable (fun f => SizeRange (f_context f)) FlowC.
Proof. intros a j j' Pa (A & B & C) Rd. split; [eapply bool_reads; eauto|]. split; [keeps range_stable|keeps edge_reads]. Qed.
Lemma pos_reads : Stable (fun p => Size (fst p) /\ Size (snd p)) PosC.
Proof. intros a j j' [P1 P2] (A & B) Rd. split; eapply num_reads; eauto. Qed.
Lemma bound_reads : Stable SizeBound BoundC.
Proof.
  intros a j j' (P1 & P2 & P3 & P4) (A1 & A2 & A3 & A4 & A5) Rd. split; [keeps pos_reads; split; assumption|]. split; [keeps perms_reads|]. split; [keeps perms_reads|].
  split; [keeps data_reads|]. eapply may_reads; [apply flow_reads|exact P4|eauto|eauto].
Qed.
Definition OfChange {A} (P : A -> Prop) (s : ValueStep A) : Prop := match s with High v => P v | Low => True | NoStep o => forall x, o = Some x -> P x end.
Lemma change_reads {A} (P : A -> Prop) R : Stable P R -> Stable (OfChange P) (ChangeC R).
Proof.
  intros F a j j' Pa H Rd. destruct a as [v| |o]; cbn [ChangeC OfChange] in *.
  - destruct H as [T H]. split; [eapply text_reads; eauto|]. keeps F.
  - eapply text_reads; eauto.
  - destruct H as [T H]. split; [eapply text_reads; eauto|]. eapply may_reads; eauto.
Qed.
Lemma changeb_reads : Stable (fun _ => True) (ChangeC BoolC).
Proof. intros a j j' _. apply (change_reads (fun _ => True) _ boolc_reads). destruct a; cbn; auto. Qed.
Lemma changen_reads : Stable SizeChange (ChangeC NatC).
Proof. intros a j j' Pa. apply (change_reads Size _ natc_reads). destruct a as [v| |o]; cbn in *; auto. apply size_some, Pa. Qed.
Lemma permsdiff_reads : Stable (fun _ => True) PermsDiffC.
Proof. intros a j j' _ (A & B & C) Rd. split; [keeps changeb_reads|]. split; keeps changeb_reads. Qed.
Lemma diff_reads : Stable SizeDiff DiffC.
Proof.
  intros a j j' (P1 & P2 & P3 & P4) (A1 & A2 & A3 & A4 & A5 & A6 & A7 & A8 & A9) Rd. unfold DiffC.
  split; [keeps changeb_reads|]. split; [keeps changeb_reads|]. split; [keeps changeb_reads|]. split; [keeps changen_reads|]. split; [keeps changeb_reads|].
  split; [keeps changen_reads|]. split; [keeps changen_reads|]. split; [keeps changen_reads|keeps permsdiff_reads].
Qed.
Lemma row_reads : Stable (fun r => SizeDiff (snd r)) RowC.
Proof.
  intros a j j' Pa (x & -> & H) Rd. apply arr_reads in Rd. destruct Rd as (l & -> & Rd). inversion Rd as [|? y ? l1 R1 Rd1]; subst.
  inversion Rd1 as [|? z ? l2 R2 Rd2]; subst. inversion Rd2; subst. apply reads_str_inv in R1 as ->. exists z. split; [reflexivity|]. eapply diff_reads; eauto.
Qed.
Lemma table_reads : Stable SizeTable TableC.
Proof. intros a j j' (P1 & P2 & P3) (A & B & C) Rd. split; [keeps range_stable|]. split; [keeps range_stable|]. keeps (items_stable _ _ row_reads). Qed.
Lemma line_reads : Stable SizeLine LineC.
Proof. intros a j j' (P1 & P2) (A & B) Rd. split; [keeps range_stable|]. keeps (items_stable _ _ table_reads). Qed.
Lemma refiner_reads : Stable (fun r => match r with ByLoan k | ByMove k => Size k end) RefinerC.
Proof. intros a j j' Pa H Rd. destruct a; destruct H as [M N]; (split; [eapply num_reads; eauto|eapply absent_reads; eauto]). Qed.
Lemma region_reads : Stable SizeRegion RegionC.
Proof. intros a j j' (P1 & P2) (A & B) Rd. split; [keeps refiner_reads|keeps (items_stable _ _ range_stable)]. Qed.
Lemma map_reads {A} (P : A -> Prop) R : Stable P R -> Stable (SizeMap P) (MapC R).
Proof.
  intros F m j j' [_ Pm] (l & -> & N & H1 & H2) Rd. inversion Rd as [| | | | | | |l0 l' A1 B1 E1 E2]; subst. exists l'. split; [reflexivity|]. split; [exact N|]. split.
  - intros n a I. destruct (H1 _ _ I) as (x & E & Rx). destruct (A1 _ _ E) as (x' & E' & Rdx). exists x'. split; [exact E'|].
    eapply F; eauto. rewrite Forall_forall in Pm. apply (Pm _ I).
  - intros k x E. destruct (aget str_eqd l k) as [y|] eqn:G; [apply (H2 _ _ G)|]. rewrite (B1 _ G) in E. discriminate.
Qed.
Lemma report_reads : Stable RealReport ReportC.
Proof.
  intros o j j' (P1 & P2 & P3 & P4 & P5 & P6 & P7) (A1 & A2 & A3 & A4 & A5 & A6 & A7) Rd.
  split; [keeps range_stable|]. split; [keeps (items_stable _ _ bound_reads)|]. split; [keeps (items_stable _ _ line_reads)|].
  split; [keeps (map_reads _ _ range_stable)|]. split; [keeps (map_reads _ _ region_reads)|]. split; [keeps (map_reads _ _ range_stable)|keeps (map_reads _ _ region_reads)].
Qed.
Lemma failure_reads e j j' : RealResult (inr e) -> FailureC j e -> Reads j j' -> FailureC j' e.
Proof.
  intros Pe H Rd. destruct e as [r|m]; destruct H as [T H]; (split; [eapply text_reads; eauto|]).
  - destruct H as (x & M & H). destruct (member_reads _ _ _ _ M Rd) as (x' & M' & Rx). exists x'. split; [exact M'|].
    destruct r as [r|]; cbn [Opt] in *; [eapply range_stable; eauto|]. subst x. inversion Rx. reflexivity.
  - eapply text_reads; eauto.
Qed.
Lemma outcome_reads : Stable RealResult OutcomeC.
Proof.
  intros r j j' Pr H Rd. destruct r as [o|e]; destruct H as [(x & M & H) N]; destruct (member_reads _ _ _ _ M Rd) as (x' & M' & Rx);
    (split; [exists x'; split; [exact M'|]|eapply absent_reads; eauto]); [eapply report_reads; eauto|eapply failure_reads; eauto].
Qed.

(** ** What is written can be read *)
Lemma good_fields l : NoDup (map fst l) -> Forall (fun f => Good (snd f)) l -> Good (jobj l).
Proof. apply good_obj. Qed.
Lemma decimal_bytes n : Forall (fun c => c < 256) (EmbedModel.decimal n).
Proof. eapply Forall_impl; [|exact (JsonProofs.number_ascii _ _ (JsonSpec.nu_nat n _ (JsonProofs.decimal_numeral n)))]. cbn. lia. Qed.
Lemma good_keys {A} (f : A -> json) m : NoDup (map fst m) -> (forall a, Good (f a)) -> Good (jmap f m).
Proof.
  intros N F. split.
  - constructor.
    + rewrite map_map. cbn [fst]. rewrite <- (map_map fst EmbedModel.decimal). apply FinFun.Injective_map_NoDup; [|exact N]. intros a b. apply decimal_inj.
    + apply Forall_map, Forall_map, Forall_forall. intros e _. apply F.
  - intros x O. inversion O as [| |? j I|? k j I Oj]; subst; apply in_map_iff in I; destruct I as ([n a] & [= E1 E2] & I); subst; [apply decimal_bytes|].
    exact (proj2 (F a) x Oj).
Qed.
Lemma good_bool b : Good (JBool b).
Proof. apply good_plain. exact Logic.I. Qed.
Fixpoint distinct (l : list string) : bool := match l with [] => true | a :: r => negb (existsb (String.eqb a) r) && distinct r end.
Lemma distinct_nodup l : distinct l = true -> NoDup l.
Proof.
  induction l as [|a l IH]; cbn [distinct]; intros H; constructor; apply andb_true_iff in H; destruct H as [H1 H2]; [|auto].
  intros I. apply negb_true_iff in H1. assert (E : existsb (String.eqb a) l = true) by (apply existsb_exists; exists a; rewrite String.eqb_refl; auto). congruence.
Qed.
Ltac fields := apply good_fields; [apply distinct_nodup; reflexivity|repeat (apply Forall_cons; [cbn [snd]; try apply good_bool; try apply good_range; try apply good_str; auto using good_num|]); try apply Forall_nil].
Lemma good_perms p : Good (jperms p).
Proof. fields. Qed.
Lemma good_data d : Good (jdata d).
Proof.
  destruct d as [a1 a2 a3 a4 a5 a6 a7 a8 a9]. unfold jdata. cbn [type_droppable type_writeable type_copyable is_live path_uninitialized path_moved loan_read_refined loan_write_refined loan_drop_refined].
  destruct a6, a7, a8, a9; cbn [jmay List.app]; fields.
Qed.
Lemma good_flow f : Good (jflow f).
Proof. fields. Qed.
Lemma good_bound b : Good (jbound b).
Proof.
  destruct b as [p a c d [f|]]; unfold jbound; cbn [b_pos b_exp b_act b_data b_flow jmay List.app];
    (apply good_fields; [apply distinct_nodup; reflexivity|]); (apply Forall_cons; [apply good_pos|]); (apply Forall_cons; [apply good_perms|]);
    (apply Forall_cons; [apply good_perms|]); (apply Forall_cons; [apply good_data|]); [apply Forall_cons; [apply good_flow|]|]; apply Forall_nil.
Qed.
Lemma good_change {A} (f : A -> json) s : (forall a, Good (f a)) -> Good (jchange f s).
Proof. intros F. destruct s as [v| |[v|]]; cbn [jchange jmay]; fields. Qed.
Lemma good_diff d : Good (jdiff d).
Proof.
  assert (B : forall s, Good (jchange JBool s)) by (intros s; apply good_change, good_bool).
  assert (N : forall s, Good (jchange JNum s)) by (intros s; apply good_change, good_num).
  unfold jdiff. fields. fields.
Qed.
Lemma good_row r : Good (jrow r).
Proof. apply good_arr. constructor; [apply good_str|constructor; [apply good_diff|constructor]]. Qed.
Lemma good_table t : Good (jtable t).
Proof. fields. apply good_map. intros r _. apply good_row. Qed.
Lemma good_line l : Good (jline l).
Proof. fields. apply good_map. intros t _. apply good_table. Qed.
Lemma good_region r : Good (jregion r).
Proof. fields; [destruct (r_by r); cbn [jrefiner]; fields|]. apply good_map. intros x _. apply good_range. Qed.
Lemma good_report o : RealReport o -> Good (jreport o).
Proof.
  intros (_ & _ & _ & [N1 _] & [N2 _] & [N3 _] & [N4 _]). unfold jreport. fields.
  - apply good_map. intros b _. apply good_bound.
  - apply good_map. intros l _. apply good_line.
  - apply good_keys; [exact N1|apply good_range].
  - apply good_keys; [exact N2|apply good_region].
  - apply good_keys; [exact N3|apply good_range].
  - apply good_keys; [exact N4|apply good_region].
Qed.
Lemma good_outcome r : RealResult r -> Good (jresult1 r).
Proof.
  destruct r as [o|[x|m]]; intros Re; cbn [jresult1 jfailure]; fields; [apply good_report, Re| |]; fields. apply good_opt, good_range.
Qed.
Lemma good_reports l : Forall RealResult l -> Good (reports l).
Proof. intros F. rewrite Forall_forall in F. apply good_map. intros r I. apply good_outcome, F, I. Qed.

Lemma depth_fields l n : Forall (fun f => JsonModel.depth (snd f) <= n) l -> JsonModel.depth (jobj l) <= S n.
Proof. intros F. apply depth_obj, Forall_map. exact F. Qed.
Lemma depth_keys {A} (f : A -> json) m n : (forall a, JsonModel.depth (f a) <= n) -> JsonModel.depth (jmap f m) <= S n.
Proof. intros F. apply depth_obj, Forall_map, Forall_forall. intros e _. apply F. Qed.
Ltac parts := apply depth_fields; repeat (apply Forall_cons; [cbn [snd]|]); try apply Forall_nil.
Lemma depth_range r n : 2 <= n -> JsonModel.depth (jrange r) <= n.
Proof. destruct r as [[a b] f]. intros H. cbn. lia. Qed.
Lemma depth_change {A} (f : A -> json) s n : (forall a, JsonModel.depth (f a) = 0) -> 1 <= n -> JsonModel.depth (jchange f s) <= n.
Proof. intros F H. destruct s as [v| |[v|]]; cbn; rewrite ?F; cbn; lia. Qed.
Lemma depth_diff d : JsonModel.depth (jdiff d) <= 3.
Proof. unfold jdiff. parts; try (apply depth_change; [reflexivity|lia]). parts; (apply depth_change; [reflexivity|lia]). Qed.
Lemma depth_data d n : 1 <= n -> JsonModel.depth (jdata d) <= n.
Proof.
  intros H. destruct d as [a1 a2 a3 a4 a5 a6 a7 a8 a9]. unfold jdata. cbn [type_droppable type_writeable type_copyable is_live path_uninitialized path_moved loan_read_refined loan_write_refined loan_drop_refined].
  destruct a6, a7, a8, a9; cbn; lia.
Qed.
Lemma depth_bound b n : 4 <= n -> JsonModel.depth (jbound b) <= n.
Proof.
  intros H. destruct n as [|n]; [lia|]. destruct b as [p a c d [f|]]; unfold jbound; cbn [b_pos b_exp b_act b_data b_flow jmay List.app]; 
    (apply depth_fields; (apply Forall_cons; [cbn; lia|]); (apply Forall_cons; [cbn; lia|]); (apply Forall_cons; [cbn; lia|]);
      (apply Forall_cons; [cbn [snd]; apply depth_data; lia|])); [apply Forall_cons; [cbn [snd]|]|]; try apply Forall_nil.
  destruct n as [|n]; [lia|]. unfold jflow. parts; [cbn; lia|apply depth_range; lia|destruct (f_kind f); cbn; lia].
Qed.
Lemma depth_line l : JsonModel.depth (jline l) <= 8.
Proof.
  parts; [apply depth_range; lia|]. apply depth_map. intros t _. parts; [apply depth_range; lia|apply depth_range; lia|].
  apply depth_map. intros r _. apply depth_arr. constructor; [cbn; lia|constructor; [apply depth_diff|constructor]].
Qed.
Lemma depth_region r n : 4 <= n -> JsonModel.depth (jregion r) <= n.
Proof.
  intros H. destruct n as [|n]; [lia|]. parts; [destruct (r_by r); cbn; lia|]. destruct n as [|n]; [lia|]. apply depth_map. intros x _. apply depth_range. lia.
Qed.
Lemma depth_reports l : JsonModel.depth (reports l) <= 12.
Proof.
  apply depth_map. intros [o|e] _; cbn [jresult1]; parts.
  - parts; [apply depth_range; lia|apply depth_map; intros b _; apply depth_bound; lia|apply depth_map; intros x _; apply depth_line|
      apply depth_keys; intros x; apply depth_range; lia|apply depth_keys; intros x; apply depth_region; lia|
      apply depth_keys; intros x; apply depth_range; lia|apply depth_keys; intros x; apply depth_region; lia].
  - destruct e as [[x|]|m]; cbn [jfailure]; parts; try (cbn; lia). apply depth_range. lia.
Qed.

(** ** The loops of the page *)
Lemma range_got j r : RangeC j r -> get_range j = Some (range_of r).
Proof.
  destruct r as [[[l c] [l' c']] f]. intros (x & y & z & (k & -> & E1) & ((k1 & -> & A1) & (k2 & E2 & A2)) & (k3 & E3 & A3) & ((k4 & -> & A4) & (k5 & E5 & A5)) & _).
  injection E2 as <-. injection E3 as <-. injection E5 as <-. cbn [fst snd] in *.
  unfold get_range, dot. rewrite E1, A3. cbn [obind]. unfold get_pos, dot. rewrite A1, A2, A4, A5. reflexivity.
Qed.
Lemma ranges_got js rs : Forall2 RangeC js rs -> all get_range js = Some (map range_of rs).
Proof. induction 1 as [|j r js rs H F IH]; cbn [all map]; [reflexivity|]. rewrite (range_got _ _ H). cbn [obind]. rewrite IH. reflexivity. Qed.
Lemma all_map {A B C} (f : B -> option C) (g : A -> B) (h : A -> C) l : (forall a, In a l -> f (g a) = Some (h a)) -> all f (map g l) = Some (map h l).
Proof.
  induction l as [|a l IH]; cbn [all map]; intros H; [reflexivity|]. rewrite (H a (or_introl eq_refl)). cbn [obind]. rewrite IH; [reflexivity|].
  intros b I. apply H. right. exact I.
Qed.
Lemma insert_in x y l : In y (insert_key x l) <-> y = x \/ In y l.
Proof.
  induction l as [|z l IH]; cbn [insert_key].
  - cbn. split; intros [H|H]; auto.
  - destruct (Nat.leb (fst x) (fst z)); cbn [In]; [|rewrite IH]; clear IH; (split; [intros [H|[H|H]]|intros [H|[H|H]]]); auto.
Qed.
Lemma insert_asc x l : ~ In (fst x) (map fst l) -> Ascending (map fst l) -> Ascending (map fst (insert_key x l)).
Proof.
  induction l as [|z l IH]; cbn [insert_key map]; intros N As.
  - split; [intros b []|exact Logic.I].
  - destruct (Nat.leb_spec (fst x) (fst z)) as [L|L]; cbn [map Ascending] in *; destruct As as [A1 A2].
    + split; [|auto]. intros b [<- |I]; [|specialize (A1 _ I); lia]. cbn in N. destruct (Nat.eq_dec (fst x) (fst z)); [exfalso; apply N; left; congruence|lia].
    + split.
      * intros b I. apply in_map_iff in I. destruct I as (y & <- & I). apply insert_in in I as [-> |I]; [exact L|]. apply A1, in_map, I.
      * apply IH; [|exact A2]. intros I. apply N. right. exact I.
Qed.
Lemma sort_in y l : In y (fold_right insert_key [] l) <-> In y l.
Proof. induction l as [|x l IH]; cbn [fold_right]; [reflexivity|]. rewrite insert_in, IH. cbn [In]. split; intros [H|H]; auto. Qed.
Lemma sort_asc l : NoDup (map fst l) -> Ascending (map fst (fold_right insert_key [] l)).
Proof.
  induction l as [|x l IH]; cbn [fold_right map]; intros N; [exact Logic.I|]. inversion N as [|? ? N1 N2]; subst. apply insert_asc; [|auto].
  intros I. apply N1. apply in_map_iff in I. destruct I as (y & <- & I). apply in_map, sort_in, I.
Qed.
Lemma asc_nodup l : Ascending l -> NoDup l.
Proof. induction l as [|a l IH]; cbn [Ascending]; intros H; constructor; [|tauto]. intros I. apply H in I. lia. Qed.
Lemma index_decimal n : (Z.of_nat n < 2 ^ 32 - 1)%Z -> index (EmbedModel.decimal n) = Some n.
Proof. intros H. unfold index. rewrite JsonProofs.key_number_decimal. destruct (Z.ltb_spec (Z.of_nat n) 4294967295) as [L|L]; [reflexivity|]. lia. Qed.
(** Keys that are indices are visited in their order. *)
Lemma for_in_keys (l : list (str * json)) ns : NoDup (map fst l) -> map fst l = map EmbedModel.decimal ns -> Forall (fun n => (Z.of_nat n < 2 ^ 32 - 1)%Z) ns ->
  exists ks, for_in l = map EmbedModel.decimal ks /\ Ascending ks /\ forall k, In k ks <-> In k ns.
Proof.
  intros N E F. assert (E1 : flat_map (fun e => match index (fst e) with Some n => [(n, fst e)] | None => [] end) l = map (fun n => (n, EmbedModel.decimal n)) ns).
  { clear N. revert ns E F. induction l as [|[k x] l IH]; intros [|n ns]; cbn [map flat_map fst]; try discriminate; [reflexivity|].
    intros [= -> E] F. inversion F; subst. rewrite index_decimal by assumption. cbn [List.app]. rewrite IH with ns by assumption. reflexivity. }
  assert (E2 : flat_map (fun e => match index (fst e) with Some _ => [] | None => [fst e] end) l = []).
  { clear N E1. revert ns E F. induction l as [|[k x] l IH]; intros [|n ns]; cbn [map flat_map fst]; try discriminate; [reflexivity|].
    intros [= -> E] F. inversion F; subst. rewrite index_decimal by assumption. cbn [List.app]. apply IH with ns; assumption. }
  assert (Nn : NoDup ns) by (rewrite E in N; apply NoDup_map_inv in N; exact N).
  unfold for_in. rewrite E1, E2, app_nil_r. set (s := fold_right insert_key [] (map (fun n => (n, EmbedModel.decimal n)) ns)). exists (map fst s).
  split; [|split].
  - rewrite map_map. apply map_ext_in. intros [n k] I. apply sort_in, in_map_iff in I. destruct I as (m & [= <- <-] & _). reflexivity.
  - apply sort_asc. rewrite map_map. cbn [fst]. rewrite map_id. exact Nn.
  - intros k. split; intros I.
    + apply in_map_iff in I. destruct I as ([n x] & <- & I). apply sort_in, in_map_iff in I. destruct I as (m & [= <- <-] & I). exact I.
    + apply in_map_iff. exists (k, EmbedModel.decimal k). split; [reflexivity|]. apply sort_in, in_map_iff. exists k. auto.
Qed.
Lemma keys_of {A} (R : json -> A -> Prop) l m : MapC R (JObj l) m -> NoDup (map fst l) -> exists ns, map fst l = map EmbedModel.decimal ns /\ forall n, In n ns <-> In n (map fst m).
Proof.
  intros (l0 & [= <-] & _ & H1 & H2) N.
  assert (G : forall l', (forall e, In e l' -> In e l) -> exists ns, map fst l' = map EmbedModel.decimal ns /\ forall n, In n ns -> In n (map fst m)).
  { induction l' as [|[k x] l' IH]; intros Sub; [exists []; split; [reflexivity|intros n []]|]. destruct IH as (ns & E & H); [intros e I; apply Sub; right; exact I|].
    destruct (H2 k x) as (n & -> & I); [apply In_aget; [exact N|apply Sub; left; reflexivity]|]. exists (n :: ns). split; [cbn [map fst]; rewrite E; reflexivity|].
    intros n' [<- |I']; auto. }
  destruct (G l (fun e I => I)) as (ns & E & H). exists ns. split; [exact E|]. intros n. split; [apply H|]. intros I. apply in_map_iff in I. destruct I as ([n' a] & <- & I).
  destruct (H1 _ _ I) as (x & Ex & _). apply aget_Some_In in Ex. cbn [fst]. assert (I' : In (EmbedModel.decimal n') (map EmbedModel.decimal ns)).
  { rewrite <- E. apply in_map_iff. exists (EmbedModel.decimal n', x). auto. }
  apply in_map_iff in I'. destruct I' as (n2 & E2 & I2). apply decimal_inj in E2 as <-. exact I2.
Qed.

Section Order.
  Context {A B : Type} (f : A -> B) (m : list (nat * A)) (N : NoDup (map fst m)).
  Definition at_keys (ks : list nat) : list (nat * B) := flat_map (fun k => match aget Nat.eq_dec m k with Some a => [(k, f a)] | None => [] end) ks.
  Lemma at_keys_fst ks : (forall k, In k ks -> In k (map fst m)) -> map fst (at_keys ks) = ks.
  Proof.
    induction ks as [|k ks IH]; cbn [at_keys flat_map]; intros H; [reflexivity|]. destruct (aget Nat.eq_dec m k) as [a|] eqn:G.
    - cbn [List.app map fst]. f_equal. apply IH. intros k' I. apply H. right. exact I.
    - exfalso. apply aget_None in G. apply G, H. left. reflexivity.
  Qed.
  Lemma at_keys_order ks : Ascending ks -> (forall k, In k ks <-> In k (map fst m)) -> InOrder f m (at_keys ks).
  Proof.
    intros As H. split; [rewrite at_keys_fst; [exact As|apply H]|]. intros k b. unfold at_keys. rewrite in_flat_map. split.
    - intros (k' & I & G). destruct (aget Nat.eq_dec m k') as [a|] eqn:E; [|destruct G]. destruct G as [[= <- <-]|[]]. exists a. split; [|reflexivity].
      apply aget_Some_In in E. exact E.
    - intros (a & I & ->). exists k. split; [apply H, in_map_iff; exists (k, a); auto|]. rewrite (In_aget _ _ Nat.eq_dec m k a N I). left. reflexivity.
  Qed.
  Lemma order_exists : exists m', InOrder f m m'.
  Proof.
    set (s := fold_right insert_key [] (map (fun e => (fst e, [])) m)). exists (at_keys (map fst s)). apply at_keys_order.
    - apply sort_asc. rewrite map_map. exact N.
    - intros k. split; intros I.
      + apply in_map_iff in I. destruct I as ([n x] & <- & I). apply sort_in, in_map_iff in I. destruct I as (e & [= <- <-] & I). cbn [fst]. apply (in_map fst), I.
      + apply in_map_iff in I. destruct I as (e & <- & I). change (fst e) with (fst (fst e, [] : str)). apply in_map, sort_in, in_map_iff. exists e. auto.
  Qed.
  Lemma order_get m' k : InOrder f m m' -> aget Nat.eq_dec m' k = option_map f (aget Nat.eq_dec m k).
  Proof.
    intros [As H]. destruct (aget Nat.eq_dec m k) as [a|] eqn:G; cbn [option_map].
    - apply In_aget; [apply asc_nodup, As|]. apply H. exists a. split; [|reflexivity]. apply aget_Some_In in G. exact G.
    - destruct (aget Nat.eq_dec m' k) as [b|] eqn:G'; [|reflexivity]. apply aget_Some_In, H in G'. destruct G' as (a & I & _).
      apply aget_None in G. exfalso. apply G. apply in_map_iff. exists (k, a). auto.
  Qed.
End Order.
Lemma asc_unique {B} (l l' : list (nat * B)) : Ascending (map fst l) -> Ascending (map fst l') -> (forall k b, In (k, b) l <-> In (k, b) l') -> l = l'.
Proof.
  revert l'. induction l as [|[k b] l IH]; intros [|[k' b'] l'] A A' H; [reflexivity|exfalso; apply (H k' b'); left; reflexivity|exfalso; apply (H k b); left; reflexivity|].
  cbn [map fst Ascending] in A, A'. destruct A as [A1 A2], A' as [A1' A2'].
  assert (E : (k, b) = (k', b')).
  { destruct (proj1 (H k b) (or_introl eq_refl)) as [E|I]; [congruence|]. destruct (proj2 (H k' b') (or_introl eq_refl)) as [E|I']; [congruence|].
    pose proof (A1' k (in_map fst _ _ I)). pose proof (A1 k' (in_map fst _ _ I')). lia. }
  injection E as <- <-. f_equal. apply IH; auto. intros n c. specialize (H n c). split; intros I.
  - destruct (proj1 H (or_intror I)) as [[= <- <-]|I']; [|exact I']. specialize (A1 k (in_map fst _ _ I)). lia.
  - destruct (proj2 H (or_intror I)) as [[= <- <-]|I']; [|exact I']. specialize (A1' k (in_map fst _ _ I)). lia.
Qed.
Lemma order_same {A B} (f : A -> B) m m2 l l2 : SameMap m m2 -> InOrder f m l -> InOrder f m2 l2 -> l = l2.
Proof.
  intros Sm [A1 H1] [A2 H2]. apply asc_unique; auto. intros k b. rewrite H1, H2. split; intros (a & I & E); exists a; (split; [apply Sm, I|exact E]).
Qed.

Lemma loop_runs pj rj m1 m2 : MapC RangeC pj m1 -> MapC RegionC rj m2 -> Distinct rj -> NoDup (map fst m2) -> Forall (fun e => (Z.of_nat (fst e) < 2 ^ 32 - 1)%Z) m2 ->
  exists p r, InOrder range_of m1 p /\ InOrder (fun x => map range_of (r_ranges x)) m2 r /\
    loop pj rj = Some (map (fun '(k, rs) => (aget Nat.eq_dec p k, rs)) r).
Proof.
  intros P R D N2 F. pose proof P as (ps & -> & N1 & P1 & P2). pose proof R as (rs & -> & _ & R1 & R2). inversion D as [| | | | | | |? Nr _]; subst.
  destruct (keys_of _ _ _ R Nr) as (ns & Ens & Hns). destruct (for_in_keys rs ns Nr Ens) as (ks & Ek & As & Hk).
  { rewrite Forall_forall in *. intros n I. apply Hns in I. apply in_map_iff in I. destruct I as (e & <- & I). apply (F _ I). }
  assert (Hk2 : forall k, In k ks <-> In k (map fst m2)) by (intros k; rewrite Hk; apply Hns).
  destruct (order_exists range_of m1 N1) as (p & Op). exists p, (at_keys (fun x => map range_of (r_ranges x)) m2 ks).
  split; [exact Op|]. split; [apply at_keys_order; auto|]. unfold loop. rewrite Ek.
  set (h := fun k => match aget Nat.eq_dec m2 k with Some a => map range_of (r_ranges a) | None => [] end).
  rewrite (all_map _ EmbedModel.decimal (fun k => (aget Nat.eq_dec p k, h k))).
  - f_equal. transitivity (map (fun '(k, rs) => (aget Nat.eq_dec p k, rs)) (map (fun k => (k, h k)) ks)); [rewrite map_map; reflexivity|]. f_equal.
    assert (Sub : forall k, In k ks -> In k (map fst m2)) by apply Hk2. clear - Sub. induction ks as [|k ks IH]; [reflexivity|]. cbn [map at_keys flat_map]. unfold h at 1.
    destruct (aget Nat.eq_dec m2 k) as [a|] eqn:G.
    + cbn [List.app]. f_equal. apply IH. intros k' I. apply Sub. right. exact I.
    + exfalso. apply aget_None in G. apply G, Sub. left. reflexivity.
  - intros k I. apply Hk2, aget_In_keys with (eqd := Nat.eq_dec) in I. destruct I as (a & Ga). destruct (R1 k a) as (x & Ex & Rx); [apply aget_Some_In in Ga; exact Ga|].
    assert (Ep : match aget str_eqd ps (EmbedModel.decimal k) with Some q => option_map Some (get_range q) | None => Some None end = Some (aget Nat.eq_dec p k)).
    { rewrite (order_get range_of m1 p k Op). destruct (aget Nat.eq_dec m1 k) as [q|] eqn:Gq.
      - destruct (P1 k q) as (y & Ey & Ry); [apply aget_Some_In in Gq; exact Gq|]. rewrite Ey, (range_got _ _ Ry). reflexivity.
      - destruct (aget str_eqd ps (EmbedModel.decimal k)) as [y|] eqn:Ey; [|reflexivity]. exfalso. destruct (P2 _ _ Ey) as (n & En & I). apply decimal_inj in En as <-.
        apply aget_None in Gq. apply Gq, I. }
    rewrite Ep. cbn [obind]. rewrite Ex. cbn [obind]. destruct Rx as [_ (y & (l & -> & El) & (js & -> & Fj))]. unfold dot. rewrite El. cbn [obind].
    rewrite (ranges_got _ _ Fj). unfold h. rewrite Ga. reflexivity.
Qed.
Lemma distinct_member k j x : Distinct j -> Member k j x -> Distinct x.
Proof.
  intros D (l & -> & E). inversion D as [| | | | | | |? _ F]; subst. apply aget_Some_In in E. rewrite Forall_forall in F. apply F, in_map_iff. exists (lit k, x). auto.
Qed.
Lemma actions_got j o : Distinct j -> ReportC j o -> RealReport o -> exists f,
  InOrder range_of (o_lpoints o) (EditorModel.loan_points f) /\ InOrder (fun r => map range_of (r_ranges r)) (o_lregions o) (EditorModel.loan_regions f) /\
  InOrder range_of (o_mpoints o) (EditorModel.move_points f) /\ InOrder (fun r => map range_of (r_ranges r)) (o_mregions o) (EditorModel.move_regions f) /\
  page_actions j = Some (EditorModel.actions_of f).
Proof.
  intros D (_ & _ & _ & (x4 & M4 & A4) & (x5 & M5 & A5) & (x6 & M6 & A6) & (x7 & M7 & A7)) (_ & _ & _ & P4 & [N5 P5] & P6 & [N7 P7]).
  destruct (loop_runs x4 x5 _ _ A4 A5) as (p & r & O1 & O2 & L1); [eapply distinct_member; eauto|exact N5|eapply Forall_impl; [|exact P5]; cbn; tauto|].
  destruct (loop_runs x6 x7 _ _ A6 A7) as (p' & r' & O3 & O4 & L2); [eapply distinct_member; eauto|exact N7|eapply Forall_impl; [|exact P7]; cbn; tauto|].
  exists (EditorModel.Facts p r p' r'). do 4 (split; [assumption|]). unfold page_actions, dot.
  destruct M4 as (l & -> & E4). destruct M5 as (l5 & [= <-] & E5). destruct M6 as (l6 & [= <-] & E6). destruct M7 as (l7 & [= <-] & E7).
  rewrite E4, E5, E6, E7. cbn [obind]. rewrite L1. cbn [obind]. rewrite L2. reflexivity.
Qed.
