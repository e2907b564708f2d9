(** * Proofs: what a value looks like *)
From Coq Require Import String.
From Coq Require Import List Arith Bool ZArith Lia.
From Verif Require Import Base TraceModel ValuesModel ReaderModel NumbersModel NumbersProofs LookModel LookSpec.
From Verif Require PropNumbers.
Import ListNotations.
Local Open Scope string_scope.
Local Open Scope list_scope.

(** ** Lists *)

Lemma all_some_both {A B T} (f : A -> option T) (g : B -> option T) vs : forall ws ls,
  all_some (map f vs) = Some ls -> all_some (map g ws) = Some ls ->
  Forall2 (fun v w => exists l, f v = Some l /\ g w = Some l) vs ws.
Proof.
  induction vs as [|v vs IH]; intros ws ls H1 H2; cbn in H1.
  - injection H1 as <-. destruct ws as [|w ws]; [constructor|]. cbn in H2. destruct (g w); [|discriminate].
    destruct (all_some (map g ws)); discriminate.
  - destruct (f v) as [l|] eqn:F; [|discriminate]. destruct (all_some (map f vs)) as [l1|] eqn:F1; [|discriminate].
    cbn in H1. injection H1 as <-. destruct ws as [|w ws]; cbn in H2; [discriminate|].
    destruct (g w) as [l'|] eqn:G; [|discriminate]. destruct (all_some (map g ws)) as [l2|] eqn:G1; [|discriminate].
    cbn in H2. injection H2 as -> ->. constructor; eauto.
Qed.

Lemma all_some_length {A T} (f : A -> option T) vs : forall ls, all_some (map f vs) = Some ls -> length ls = length vs.
Proof.
  induction vs as [|v vs IH]; intros ls H; cbn in H; [injection H as <-; auto|].
  destruct (f v); [|discriminate]. destruct (all_some (map f vs)); [|discriminate]. injection H as <-. cbn. auto.
Qed.

Lemma combine_inj {A B} (ks : list A) : forall (l l' : list B), length l = length ks -> length l' = length ks ->
  combine ks l = combine ks l' -> l = l'.
Proof.
  induction ks as [|k ks IH]; intros [|a l] [|b l'] H1 H2 E; cbn in *; try discriminate; auto.
  injection E as -> E. f_equal. apply IH; auto.
Qed.

Lemma all_some_forall {A T} (f : A -> option T) vs : Forall (fun v => exists l, f v = Some l) vs -> exists ls, all_some (map f vs) = Some ls.
Proof.
  induction 1 as [|v vs [l F] H [ls IH]]; cbn; [eauto|]. rewrite F, IH. cbn. eauto.
Qed.

(** ** Fields *)

Lemma field_aget v k u : FieldAt v k u -> exists n x fs kd, v = MAdt n x fs kd /\ aget string_dec fs k = Some u.
Proof.
  intros (n & x & before & after & kd & -> & N). exists n, x, (before ++ (k, u) :: after), kd. split; auto.
  induction before as [|[k' v'] before IH]; cbn.
  - destruct (string_dec k k); congruence.
  - cbn in N. destruct (string_dec k' k) as [->|D]; [tauto|]. destruct (string_dec k k'); [congruence|]. apply IH. tauto.
Qed.

Lemma field_read n x fs kd k u m y gs kd' : FieldAt (MAdt n x fs kd) k u -> u = MAdt m y gs kd' -> read_field fs k = Some gs.
Proof.
  intros F ->. destruct (field_aget _ _ _ F) as (n' & x' & fs' & kd'' & E & G). injection E as <- <- <- <-.
  unfold read_field. rewrite G. auto.
Qed.

Lemma field_adt v k u : FieldAt v k u -> exists n x fs kd, v = MAdt n x fs kd.
Proof. intros (n & x & b & a & kd & -> & _). eauto. Qed.

Lemma first_adt v u : FirstOf v u -> exists n x fs kd, v = MAdt n x fs kd /\ first_field fs = Some u.
Proof. intros (n & x & k & r & kd & ->). do 4 eexists. split; [eauto|]. reflexivity. Qed.

Ltac chain :=
  repeat match goal with
  | H : Along _ (_ :: _) _ |- _ => destruct H as (? & ? & H)
  | H : Along _ [] _ |- _ => cbn in H; subst
  | H : FirstOf _ _ |- _ => apply first_adt in H; destruct H as (? & ? & ? & ? & ? & ?); subst
  end.

Ltac adts :=
  repeat match goal with
  | H : FieldAt ?v _ _ |- _ => is_var v; destruct (field_adt _ _ _ H) as (? & ? & ? & ? & ?); subst v
  end.

Ltac reads :=
  repeat match goal with
  | H : FieldAt (MAdt _ _ _ _) _ (MAdt _ _ _ _) |- _ => pose proof (field_read _ _ _ _ _ _ _ _ _ _ H eq_refl); clear H
  end.

Lemma stands_special n x fs k p : Stands (MAdt n x fs (Some k)) p -> special_ptr fs (Some k) = Some (Some p).
Proof.
  intros S. inversion S; subst; chain; adts.
  - reads. unfold special_ptr, read_vec, read_unique.
    repeat match goal with H : read_field _ _ = Some _ |- _ => rewrite H; clear H; cbn end.
    match goal with H : first_field _ = Some _ |- _ => rewrite H end. auto.
  - reads. unfold special_ptr, read_vec, read_unique.
    repeat match goal with H : read_field _ _ = Some _ |- _ => rewrite H; clear H; cbn end.
    match goal with H : first_field _ = Some _ |- _ => rewrite H end. auto.
  - reads. unfold special_ptr, read_unique.
    repeat match goal with H : read_field _ _ = Some _ |- _ => rewrite H; clear H; cbn end.
    match goal with H : first_field _ = Some _ |- _ => rewrite H end. auto.
Qed.

Lemma stands_adt v p : Stands v p -> exists n x fs k, v = MAdt n x fs k.
Proof. intros S. inversion S; eauto. Qed.

Section LOOK.
Variable ft : Z -> list nat.
Variable err : option nat.

Lemma look_stands v p n : Stands v p -> look_at (S n) ft false err v = look_at n ft false err p.
Proof.
  intros S. destruct (stands_adt _ _ S) as (nm & x & fs & [k|] & ->).
  - cbn [look_at]. rewrite (stands_special _ _ _ _ _ S). auto.
  - inversion S; subst. chain; adts. reads. cbn [look_at special_ptr]. cbn.
    match goal with H : read_field _ _ = Some _ |- _ => rewrite H; clear H; cbn end.
    match goal with H : first_field _ = Some _ |- _ => rewrite H end. auto.
Qed.

(** The part of [look_at] for structs that are shown by their fields. *)
Definition fields_look (again : mvalue -> option look) (c : bool) (nm : string) (fields : list (string * mvalue)) : option look :=
  match fields with
  | [("0", f)] => obind (small_inside c f) (fun sm => option_map (LOne sm nm) (again f))
  | ("0", _) :: _ => option_map (LNamedRow nm) (all_some (map again (map snd fields)))
  | _ => option_map (fun l => LNamed nm (combine (map fst fields) l)) (all_some (map again (map snd fields)))
  end.

Definition shown_name (n : string) (x : option string) : string := match x with Some y => y | None => n end.

Lemma look_fields c n nm x fs k :
  (c = true /\ (k <> None -> exists p, Stands (MAdt nm x fs k) p) \/ Open (MAdt nm x fs k)) ->
  look_at (S n) ft c err (MAdt nm x fs k) = fields_look (look_at n ft c err) c (shown_name nm x) fs.
Proof.
  intros [[-> H]|(n' & x' & fs' & E & D)].
  - destruct k as [k|].
    + destruct (H ltac:(discriminate)) as [p S]. cbn [look_at]. rewrite (stands_special _ _ _ _ _ S). reflexivity.
    + reflexivity.
  - injection E as <- <- <- ->. cbn [look_at special_ptr]. destruct c; [reflexivity|]. cbn [negb andb].
    destruct (String.eqb_spec nm "Iter"); [contradiction|]. reflexivity.
Qed.

Definition name_of (l : look) : option string :=
  match l with LOne _ n _ | LNamedRow n _ | LNamed n _ => Some n | _ => None end.

(** The three forms. *)
Inductive Form (nm : string) (fs : list (string * mvalue)) : Prop :=
| F_one f : fs = [("0", f)] -> Form nm fs
| F_row f g r : fs = ("0", f) :: g :: r -> Form nm fs
| F_table : (forall f r, fs <> ("0", f) :: r) -> Form nm fs.

Lemma form nm fs : Form nm fs.
Proof.
  destruct fs as [|[k f] [|g r]].
  - apply F_table. discriminate.
  - destruct (string_dec k "0") as [->|D]; [eapply F_one; eauto|]. apply F_table. intros f' r E. injection E as E _ _. auto.
  - destruct (string_dec k "0") as [->|D]; [eapply F_row; eauto|]. apply F_table. intros f' r' E. injection E as E _ _. auto.
Qed.

Lemma table_look again c nm fs : (forall f r, fs <> ("0", f) :: r) ->
  fields_look again c nm fs = option_map (fun l => LNamed nm (combine (map fst fs) l)) (all_some (map again (map snd fs))).
Proof.
  intros N. unfold fields_look. destruct fs as [|[k f] r]; auto.
  destruct (string_dec k "0") as [->|D]; [exfalso; eapply N; eauto|].
  destruct k as [|[[|] [|] [|] [|] [|] [|] [|] [|]] [|a k]]; auto; try (destruct r; reflexivity).
  exfalso. apply D. reflexivity.
Qed.

Lemma fields_name again c nm fs l : fields_look again c nm fs = Some l -> name_of l = Some nm.
Proof.
  intros H. destruct (form nm fs) as [f ->|f g r ->|N].
  - cbn in H. destruct (small_inside c f); [|discriminate]. cbn in H. destruct (again f); [|discriminate]. injection H as <-. auto.
  - cbn [fields_look] in H. destruct (all_some _); [|discriminate]. injection H as <-. auto.
  - rewrite table_look in H by auto. destruct (all_some _); [|discriminate]. injection H as <-. auto.
Qed.

Lemma fields_both again again' c nm fs gs l : map fst fs = map fst gs ->
  fields_look again c nm fs = Some l -> fields_look again' c nm gs = Some l ->
  exists ls, all_some (map again (map snd fs)) = Some ls /\ all_some (map again' (map snd gs)) = Some ls.
Proof.
  intros K H1 H2. destruct (form nm fs) as [f ->|f g r ->|N].
  - destruct gs as [|[k g] [|? ?]]; try discriminate. cbn in K. injection K as <-.
    cbn in H1, H2. destruct (small_inside c f); [|discriminate]. destruct (small_inside c g); [|discriminate]. cbn in H1, H2.
    cbn. destruct (again f); [|discriminate]. destruct (again' g); [|discriminate]. cbn in *. exists [l0]. split; congruence.
  - destruct gs as [|[k g1] [|g2 gs]]; try discriminate. cbn in K. injection K as <- K1 K2.
    cbn [fields_look] in H1, H2. destruct (all_some (map again _)) as [l1|]; [|discriminate].
    destruct (all_some (map again' _)) as [l2|]; [|discriminate]. cbn in H1, H2. exists l1. split; congruence.
  - assert (N' : forall f r, gs <> ("0", f) :: r).
    { intros f r ->. destruct fs as [|[k g] fs]; [discriminate|]. cbn in K. injection K as -> K. eapply N; eauto. }
    rewrite table_look in H1, H2 by auto.
    destruct (all_some (map again _)) as [l1|] eqn:E1; [|discriminate].
    destruct (all_some (map again' _)) as [l2|] eqn:E2; [|discriminate]. cbn in H1, H2.
    exists l1. split; auto. f_equal. injection H1 as <-. injection H2 as H2. rewrite <- K in H2.
    apply all_some_length in E1. apply all_some_length in E2. rewrite map_length in E1, E2.
    apply combine_inj in H2; auto; rewrite ?map_length; auto.
    rewrite E2, <- (map_length fst gs), <- K, map_length. auto.
Qed.

(** ** Paths *)

Lemma last_case {A} (l : list A) : l = [] \/ exists q a, l = q ++ [a].
Proof. destruct l as [|a l _] using rev_ind; eauto. Qed.

Lemma pop_snoc q a : pop_first (q ++ [a]) = match a with Index 0 => q | _ => q ++ [a] end.
Proof. unfold pop_first. rewrite rev_app_distr. cbn. destruct a as [|[|]|]; auto. apply rev_involutive. Qed.

Lemma range_snoc sg q a : point_to_range sg (q ++ [a]) =
  match a with Subslice _ hi => Some (sg, map seg_step q ++ [AtIndex hi]) | _ => None end.
Proof.
  unfold point_to_range. rewrite rev_app_distr. cbn. destruct a as [|[|]|lo hi]; auto.
  rewrite pop_snoc, map_app. cbn. rewrite removelast_last. auto.
Qed.

Definition NoSlice (ps : list seg) : Prop := forall lo hi, ~ In (Subslice lo hi) ps.

Lemma steps_inj ps : forall qs, NoSlice ps -> NoSlice qs -> map seg_step ps = map seg_step qs -> ps = qs.
Proof.
  induction ps as [|p ps IH]; intros [|q qs] N1 N2 E; cbn in E; try discriminate; auto.
  injection E as E1 E2. f_equal.
  - destruct p, q; cbn in E1; try discriminate; try congruence; exfalso;
      try (eapply N1; left; reflexivity); eapply N2; left; reflexivity.
  - apply IH; auto; intros lo hi I; [eapply N1|eapply N2]; right; eauto.
Qed.

Lemma plain_init q a : PlainPath (q ++ [a]) -> NoSlice q.
Proof.
  intros P lo hi I. apply in_split in I. destruct I as (x & y & ->).
  specialize (P x (y ++ [a]) lo hi). rewrite <- app_assoc in P. specialize (P eq_refl). destruct y; discriminate.
Qed.

Lemma noslice_snoc q a : NoSlice q -> (forall lo hi, a <> Subslice lo hi) -> NoSlice (q ++ [a]).
Proof. intros N D lo hi I. apply in_app_or in I. destruct I as [I|[E|[]]]; [eapply N; eauto|eapply D; eauto]. Qed.

Definition Zero (a : seg) : Prop := a = Index 0.
Lemma zero_dec a : {a = Index 0} + {a <> Index 0}.
Proof. destruct a as [|[|]|]; (left; reflexivity) || (right; discriminate). Qed.

Lemma pop_other q a : a <> Index 0 -> pop_first (q ++ [a]) = q ++ [a].
Proof. intros D. rewrite pop_snoc. destruct a as [|[|]|]; congruence. Qed.

Lemma snoc_ne_nil {A} (q : list A) a : q ++ [a] <> [].
Proof. destruct q; discriminate. Qed.

Lemma not_zero_last q a : a <> Index 0 -> forall qs, q ++ [a] <> qs ++ [Index 0].
Proof. intros D qs E. apply app_inj_tail in E. tauto. Qed.

Lemma nil_not_zero : forall qs : list seg, [] <> qs ++ [Index 0].
Proof. intros qs E. symmetry in E. apply (snoc_ne_nil qs _ E). Qed.

Lemma point_same sg sg' ps ps' : PlainPath ps -> PlainPath ps' ->
  point_to sg ps = point_to sg' ps' -> point_to_range sg ps = point_to_range sg' ps' -> sg = sg' /\ SamePlace ps ps'.
Proof.
  intros P P' E R. unfold point_to in E. injection E as <- E. split; auto.
  destruct (last_case ps) as [->|(q & a & ->)]; destruct (last_case ps') as [->|(q' & a' & ->)].
  - constructor.
  - rewrite range_snoc in R. change (point_to_range sg []) with (@None aim) in R.
    rewrite pop_snoc in E. change (pop_first []) with (@nil seg) in E. cbn in E.
    destruct a' as [i|[|i]|lo hi]; [| |  |discriminate].
    + destruct q'; discriminate.
    + destruct q'; [|discriminate]. apply (sp_first []). apply nil_not_zero.
    + destruct q'; discriminate.
  - rewrite range_snoc in R. change (point_to_range sg []) with (@None aim) in R.
    rewrite pop_snoc in E. change (pop_first []) with (@nil seg) in E. cbn in E.
    destruct a as [i|[|i]|lo hi]; [| |  |discriminate].
    + destruct q; discriminate.
    + destruct q; [|discriminate]. apply (sp_first' []). apply nil_not_zero.
    + destruct q; discriminate.
  - rewrite !range_snoc in R. apply plain_init in P as N. apply plain_init in P' as N'.
    assert (SL : forall x : seg, {lh | x = Subslice (fst lh) (snd lh)} + {forall lo hi, x <> Subslice lo hi}).
    { intros [i|i|lo hi]; [right; discriminate|right; discriminate|left; exists (lo, hi); auto]. }
    destruct (SL a) as [[[lo hi] ->]|S].
    + destruct a' as [i|i|lo' hi']; try discriminate. injection R as R. cbn in R, E.
      rewrite !pop_snoc, !map_app in E. cbn in E. apply app_inj_tail in R. destruct R as [R1 R2].
      apply app_inj_tail in E. destruct E as [_ E]. injection R2 as <-. injection E as <-.
      apply steps_inj in R1; auto. subst. constructor.
    + destruct (SL a') as [[[lo hi] ->]|S'].
      { destruct a as [i|i|lo' hi']; try discriminate. exfalso. eapply S. reflexivity. }
      destruct (zero_dec a) as [->|Z]; destruct (zero_dec a') as [->|Z'].
      * rewrite !pop_snoc in E. apply steps_inj in E; auto. subst. constructor.
      * rewrite pop_snoc, (pop_other q' a') in E by auto. apply steps_inj in E; auto using noslice_snoc. subst.
        apply sp_first'. apply not_zero_last. auto.
      * rewrite (pop_other q a), pop_snoc in E by auto. apply steps_inj in E; auto using noslice_snoc. subst.
        apply sp_first. apply not_zero_last. auto.
      * rewrite (pop_other q a), (pop_other q' a') in E by auto. apply steps_inj in E; auto using noslice_snoc.
        rewrite E. constructor.
Qed.

Lemma same_point sg ps ps' : PlainPath ps -> PlainPath ps' -> SamePlace ps ps' ->
  point_to sg ps = point_to sg ps' /\ point_to_range sg ps = point_to_range sg ps'.
Proof.
  assert (M : forall ps, PlainPath (ps ++ [Index 0]) -> (forall qs, ps <> qs ++ [Index 0]) ->
    point_to sg ps = point_to sg (ps ++ [Index 0]) /\ point_to_range sg ps = point_to_range sg (ps ++ [Index 0])).
  { intros qs P N. unfold point_to. rewrite range_snoc, pop_snoc.
    destruct (last_case qs) as [->|(q & a & ->)]; [auto|].
    assert (a <> Index 0) by (intros ->; apply (N q); auto). rewrite pop_other, range_snoc by auto. split; auto.
    destruct a as [i|i|lo hi]; auto. exfalso. specialize (P q [Index 0] lo hi). rewrite <- app_assoc in P. specialize (P eq_refl). discriminate. }
  intros P P' S. inversion S; subst; auto. destruct (M ps') as [A B]; auto.
Qed.

(** ** Scalars *)

Lemma number_exact z : (Z.abs z < 2 ^ 53)%Z -> js_string (js_number z) = z.
Proof.
  intros L. pose proof (proj1 (PropNumbers.C103_exact_partial z L)) as E. unfold page_int in E.
  assert (S : show_int z = z); [|rewrite S in E; auto].
  unfold show_int. destruct (Z.le_gt_cases 0 z).
  - rewrite Z.mod_small by lia. destruct (Z.ltb_spec z (2 ^ 63)); lia.
  - rewrite <- (Z.mod_add z 1) by lia. rewrite Z.mod_small by lia. destruct (Z.ltb_spec (z + 1 * 2 ^ 64) (2 ^ 63)); lia.
Qed.

Lemma char_exact z : PlainScalar PChar z -> char_unit z = z.
Proof. intros [R D]. unfold char_unit. rewrite Z.mod_small by lia. destruct (Z.eqb_spec z 32); congruence. Qed.

Lemma float_exact z : PlainScalar PFloat z -> float_text ft z = Some (ft z).
Proof.
  intros (R & D & F). unfold float_text. destruct (Z.eqb_spec ((z / 2 ^ 52) mod 2 ^ 11) 2047); [contradiction|].
  destruct (Z.eqb_spec z (2 ^ 63)); congruence.
Qed.

Lemma scalar_same (DI : Distinct ft) c k z y n n' l : PlainScalar k z -> PlainScalar k y ->
  look_at n ft c err (MScalar k z) = Some l -> look_at n' ft c err (MScalar k y) = Some l -> z = y.
Proof.
  destruct n as [|n]; [discriminate|]. destruct n' as [|n']; [discriminate|].
  intros P Q. destruct k; cbn [look_at].
  - intros A B. rewrite <- A in B. destruct P as [->| ->], Q as [->| ->]; auto; discriminate.
  - rewrite !char_exact by auto. congruence.
  - rewrite !number_exact by auto. congruence.
  - rewrite !number_exact by auto. congruence.
  - rewrite !float_exact by auto. cbn. intros A B. rewrite <- A in B. injection B as B. symmetry. apply DI; auto.
Qed.

(** ** Different values look different *)

Definition PtrLike (p : mvalue) : Prop := (exists sg ps r, p = MPtr sg ps r /\ PlainPath ps) \/ exists a, p = MUnalloc a.

Lemma ptr_name c n p l : PtrLike p -> look_at n ft c err p = Some l -> name_of l = None.
Proof.
  destruct n as [|n]; [discriminate|]. intros [(sg & ps & r & -> & _)|[a ->]] H; cbn [look_at] in H.
  - destruct (if c then r else None) as [[|k]|]; injection H as <-; auto.
  - injection H as <-. auto.
Qed.

Lemma ptr_same c n n' p q l : PtrLike p -> PtrLike q -> look_at n ft c err p = Some l -> look_at n' ft c err q = Some l -> Agree c p q.
Proof.
  destruct n as [|n]; [discriminate|]. destruct n' as [|n']; [discriminate|].
  intros [(sg & ps & r & -> & P)|[a ->]] [(sg' & ps' & r' & -> & P')|[a' ->]] H H'; cbn [look_at] in H, H'.
  - assert (E : point_to sg ps = point_to sg' ps' /\ point_to_range sg ps = point_to_range sg' ps' /\ SameLength c r r').
    { unfold SameLength. destruct c.
      - destruct r as [[|k]|]; destruct r' as [[|k']|]; rewrite <- H in H'; try discriminate; injection H'; intros; subst;
          (split; [unfold point_to; congruence|]); (split; [congruence|]); intros _ m; split; congruence.
      - rewrite <- H in H'. injection H'; intros. split; [unfold point_to; congruence|]. split; [congruence|]. discriminate. }
    destruct E as (A & B & L). destruct (point_same _ _ _ _ P P' A B) as [<- S]. constructor; auto.
  - destruct (if c then r else None) as [[|k]|]; rewrite <- H in H'; discriminate.
  - destruct (if c then r' else None) as [[|k]|]; rewrite <- H in H'; discriminate.
  - constructor.
Qed.

Lemma legible_adt c nm x fs k : Legible c (MAdt nm x fs k) ->
  (c = false /\ exists p, Stands (MAdt nm x fs k) p /\ PtrLike p) \/
  ((c = true /\ (k <> None -> exists p, Stands (MAdt nm x fs k) p) \/ Open (MAdt nm x fs k)) /\ Forall (fun f => Legible c (snd f)) fs).
Proof.
  intros H. inversion H; subst.
  - left. split; auto. exists (MPtr sg ps r). split; auto. left. eauto.
  - left. split; auto. exists (MUnalloc a). split; auto. right. eauto.
  - right. split; auto.
Qed.

Lemma shaped_keys e (F : list (string * ty)) fs :
  Forall2 (fun f v => fst f = fst v /\ Shaped e (snd f) (snd v)) F fs -> map fst F = map fst fs.
Proof. induction 1 as [|f v F fs [E _] _ IH]; cbn; congruence. Qed.

Definition Differs e c (n : nat) : Prop := forall n' t v w l, Named t -> Shaped e t v -> Shaped e t w -> Legible c v -> Legible c w ->
  look_at n ft c err v = Some l -> look_at n' ft c err w = Some l -> Agree c v w.

Lemma fields_agree e c n n' (F : list (string * ty)) fs gs ls : Differs e c n -> Forall (fun f => Named (snd f)) F ->
  Forall2 (fun f v => fst f = fst v /\ Shaped e (snd f) (snd v)) F fs ->
  Forall2 (fun f v => fst f = fst v /\ Shaped e (snd f) (snd v)) F gs ->
  Forall (fun f => Legible c (snd f)) fs -> Forall (fun f => Legible c (snd f)) gs ->
  all_some (map (look_at n ft c err) (map snd fs)) = Some ls ->
  all_some (map (look_at n' ft c err) (map snd gs)) = Some ls ->
  Forall2 (fun f g => fst f = fst g /\ Agree c (snd f) (snd g)) fs gs.
Proof.
  intros D N SF SG LF LG A B. pose proof (all_some_both _ _ _ _ _ A B) as H. clear A B.
  revert gs SG LG H. induction SF as [|f v F fs [K S] SF IH]; intros gs SG LG H; inversion SG; subst; [constructor|].
  inversion N; subst. inversion LF; subst. inversion LG; subst. cbn in H. inversion H; subst.
  match goal with H : exists l, _ |- _ => destruct H as (l & L1 & L2) end.
  match goal with H : fst f = fst _ /\ _ |- _ => destruct H as [K' S'] end.
  constructor; [|auto]. split; [congruence|]. eapply D; eauto.
Qed.

Lemma list_agree e c n n' ts vs ws ls : Differs e c n -> Forall Named ts ->
  Forall2 (Shaped e) ts vs -> Forall2 (Shaped e) ts ws -> Forall (Legible c) vs -> Forall (Legible c) ws ->
  all_some (map (look_at n ft c err) vs) = Some ls -> all_some (map (look_at n' ft c err) ws) = Some ls ->
  Forall2 (Agree c) vs ws.
Proof.
  intros D N SF SG LF LG A B. pose proof (all_some_both _ _ _ _ _ A B) as H. clear A B.
  revert ws SG LG H. induction SF as [|t v ts vs S SF IH]; intros ws SG LG H; inversion SG; subst; [constructor|].
  inversion N; subst. inversion LF; subst. inversion LG; subst. inversion H; subst.
  match goal with H : exists l, _ |- _ => destruct H as (l & L1 & L2) end.
  constructor; [|auto]. eapply D; eauto.
Qed.

Lemma same_list e el vs : Forall (Shaped e el) vs -> Forall2 (Shaped e) (repeat el (length vs)) vs.
Proof. induction 1; cbn; constructor; auto. Qed.
Lemma named_repeat el n : Named el -> Forall Named (repeat el n).
Proof. intros N. induction n; cbn; constructor; auto. Qed.

(** Structs of the same name, with the same fields if they are shown with the same name. *)
Lemma adt_agree e c n n' nm x x' fs gs k k' l : Differs e c n ->
  Legible c (MAdt nm x fs k) -> Legible c (MAdt nm x' gs k') ->
  (shown_name nm x = shown_name nm x' -> x = x' /\ exists F, Forall (fun f => Named (snd f)) F /\
    Forall2 (fun f v => fst f = fst v /\ Shaped e (snd f) (snd v)) F fs /\
    Forall2 (fun f v => fst f = fst v /\ Shaped e (snd f) (snd v)) F gs) ->
  (nm = "Iter" -> k = None /\ k' = None) ->
  look_at (S n) ft c err (MAdt nm x fs k) = Some l -> look_at n' ft c err (MAdt nm x' gs k') = Some l ->
  Agree c (MAdt nm x fs k) (MAdt nm x' gs k').
Proof.
  intros D L1 L2 T I H1 H2. destruct n' as [|n']; [discriminate|].
  destruct (legible_adt _ _ _ _ _ L1) as [(C & p & Sp & P)|[O F1]];
    destruct (legible_adt _ _ _ _ _ L2) as [(C' & q & Sq & Q)|[O' F2]].
  - subst c. rewrite (look_stands _ p _ Sp) in H1. rewrite (look_stands _ q _ Sq) in H2.
    eapply ag_stands; eauto; [|eapply ptr_same; eauto].
    assert (O : forall y hs h r, Stands (MAdt nm y hs h) r -> h = None -> nm = "Iter") by (intros y hs h r St ->; inversion St; auto).
    unfold Owner. split; intros (a & b & d & h & E); injection E as <- <- <- ->.
    + destruct k' as [k'|]; [eauto|]. pose proof (O _ _ _ _ Sq eq_refl) as X. destruct (I X). discriminate.
    + destruct k as [k|]; [eauto|]. pose proof (O _ _ _ _ Sp eq_refl) as X. destruct (I X). discriminate.
  - subst c. rewrite (look_stands _ p _ Sp) in H1. rewrite look_fields in H2 by auto.
    apply fields_name in H2. apply ptr_name in H1; auto. congruence.
  - subst c. rewrite (look_stands _ q _ Sq) in H2. rewrite look_fields in H1 by auto.
    apply fields_name in H1. apply ptr_name in H2; auto. congruence.
  - rewrite look_fields in H1, H2 by auto. pose proof (fields_name _ _ _ _ _ H1) as N1. pose proof (fields_name _ _ _ _ _ H2) as N2.
    rewrite N1 in N2. injection N2 as N2. destruct (T N2) as (<- & F & NF & SF & SG).
    assert (K : map fst fs = map fst gs) by (rewrite <- (shaped_keys _ _ _ SF); apply (shaped_keys _ _ _ SG)).
    destruct (fields_both _ _ _ _ _ _ _ K H1 H2) as (ls & A & B).
    apply ag_fields; [|eapply fields_agree; eauto].
    destruct O as [[-> _]|O]; [auto|]. destruct O' as [[-> _]|O']; auto.
Qed.

Lemma nodup_name {A} (l : list (string * A)) n a b : NoDup (map fst l) -> In (n, a) l -> In (n, b) l -> a = b.
Proof.
  induction l as [|[k c] l IH]; cbn; [tauto|]. intros N. inversion N; subst.
  intros [E|I] [E'|I']; try congruence; [| |auto].
  - injection E as <- <-. exfalso. match goal with H : ~ In _ _ |- _ => apply H end. apply (in_map fst) in I'. auto.
  - injection E' as <- <-. exfalso. match goal with H : ~ In _ _ |- _ => apply H end. apply (in_map fst) in I. auto.
Qed.

Lemma forall_filter {A} (P : A -> Prop) f l : Forall P l -> Forall P (filter f l).
Proof. induction 1; cbn; auto. destruct (f x); auto. Qed.

Lemma scalar_not_dead c k z n n' a l : PlainScalar k z -> look_at n ft c err (MScalar k z) = Some l -> look_at n' ft c err (MUnalloc a) = Some l -> False.
Proof.
  destruct n as [|n]; [discriminate|]. destruct n' as [|n']; [discriminate|]. intros P. destruct k; cbn [look_at]; try congruence.
  rewrite float_exact by auto. cbn. congruence.
Qed.

Lemma differs (DI : Distinct ft) e c n : Differs e c n.
Proof.
  induction n as [|n IH]; intros n' t v w l N S1 S2 L1 L2 H1 H2; [discriminate|].
  destruct S1.
  - inversion S2; subst.
    + inversion L1; subst; try match goal with H : Stands (MScalar _ _) _ |- _ => inversion H end.
      inversion L2; subst; try match goal with H : Stands (MScalar _ _) _ |- _ => inversion H end.
      assert (z = z0) by (eapply scalar_same; eauto). subst. constructor.
    + inversion L1; subst; try match goal with H : Stands (MScalar _ _) _ |- _ => inversion H end.
      exfalso. eapply scalar_not_dead; eauto.
  - inversion S2; subst; [|constructor].
    inversion L2; subst; try match goal with H : Stands (MScalar _ _) _ |- _ => inversion H end.
    exfalso. eapply scalar_not_dead; eauto.
  - inversion S2; subst. eapply adt_agree; eauto; [|discriminate]. intros _. split; auto. exists [("0", unique id)].
    split; [|split; constructor; auto].
    constructor; auto. cbn. repeat (constructor; cbn).
  - inversion S2; subst. inversion N; subst.
    destruct n' as [|n']; [discriminate|]. cbn [look_at] in H1, H2.
    destruct (all_some (map _ vs)) as [l1|] eqn:A; [|discriminate].
    destruct (all_some (map _ vs0)) as [l2|] eqn:B; [|discriminate]. cbn in H1, H2. rewrite <- H1 in H2. injection H2 as ->.
    constructor.
    inversion L1; subst; try match goal with H : Stands (MTuple _) _ |- _ => inversion H end.
    inversion L2; subst; try match goal with H : Stands (MTuple _) _ |- _ => inversion H end.
    eapply list_agree; eauto.
  - inversion S2; subst. inversion N; subst. eapply adt_agree; eauto; [intros _; split; auto|].
    2: { intros ->. split; match goal with |- ?k = None => match goal with H : OwnerOf _ _ k |- _ => inversion H; auto; discriminate end end. }
    exists (filter (fun f => negb (e (snd f))) fs). split; auto using forall_filter.
  - inversion S2; subst. inversion N; subst. eapply adt_agree; eauto. cbn. intros <-. split; auto.
    exists (filter (fun f => negb (e (snd f))) fs). split; [|split; auto].
    + apply forall_filter. match goal with H : Forall (fun v => Forall _ _) vars |- _ => rewrite Forall_forall in H; apply (H (vn, fs)); auto end.
    + match goal with H : In (vn, ?g) vars, H' : In (vn, fs) vars |- Forall2 _ _ vs0 => rewrite (nodup_name vars vn fs g) by auto end. auto.
  - inversion L1; subst; try match goal with H : Stands (MArray _) _ |- _ => inversion H end.
    inversion S2; subst.
    2: { destruct n' as [|n']; [discriminate|]. cbn [look_at] in H1, H2. destruct (all_some (map _ vs)) as [l1|]; [|discriminate].
      destruct (all_some (map _ vs0)) as [l2|]; [|discriminate]. cbn in H1, H2. destruct (look_at n' ft c err x); [|discriminate]. rewrite <- H1 in H2. discriminate. }
    inversion L2; subst; try match goal with H : Stands (MArray _) _ |- _ => inversion H end.
    inversion N; subst.
    destruct n' as [|n']; [discriminate|]. cbn [look_at] in H1, H2.
    destruct (all_some (map _ vs)) as [l1|] eqn:A; [|discriminate].
    destruct (all_some (map _ vs0)) as [l2|] eqn:B; [|discriminate]. cbn in H1, H2. rewrite <- H1 in H2. injection H2 as ->.
    constructor. eapply (list_agree e c n n' (repeat el (length vs))); eauto using named_repeat, same_list.
    match goal with H : length vs0 = length vs |- _ => rewrite <- H end. apply same_list. auto.
  - inversion L1; subst; try match goal with H : Stands (MArray _) _ |- _ => inversion H end.
    destruct n' as [|n']; [discriminate|]. cbn [look_at] in H1. destruct (all_some (map _ vs)) as [l1|] eqn:A; [|discriminate].
    cbn [obind] in H1. destruct (look_at n ft c err x) as [k1|] eqn:X; [|discriminate]. cbn [option_map] in H1.
    inversion S2; subst; cbn [look_at] in H2; destruct (all_some (map _ vs0)) as [l2|] eqn:B; try discriminate; cbn [option_map obind] in H2.
    { rewrite <- H1 in H2. discriminate. }
    destruct (look_at n' ft c err x0) as [k2|] eqn:Y; [|discriminate]. cbn [option_map] in H2. rewrite <- H1 in H2. injection H2 as -> ->.
    inversion L2; subst; try match goal with H : Stands (MArray _) _ |- _ => inversion H end. inversion N; subst.
    assert (Ln : length vs = length vs0).
    { rewrite <- (all_some_length _ _ _ A), <- (all_some_length _ _ _ B). auto. }
    apply ag_long; [|eapply IH; eauto]. eapply (list_agree e c n n' (repeat el (length vs))); eauto using named_repeat, same_list.
    rewrite Ln. apply same_list. auto.
  - assert (PtrLike (MPtr sg parts r)) by (inversion L1; subst; try match goal with H : Stands (MPtr _ _ _) _ |- _ => inversion H end; left; eauto).
    inversion S2; subst.
    + eapply ptr_same; eauto. inversion L2; subst; try match goal with H : Stands (MPtr _ _ _) _ |- _ => inversion H end; left; eauto.
    + eapply ptr_same; eauto. right. eauto.
  - inversion S2; subst; [|constructor]. eapply ptr_same; eauto; [right; eauto|].
    inversion L2; subst; try match goal with H : Stands (MPtr _ _ _) _ |- _ => inversion H end; left; eauto.
  - assert (PtrLike (MPtr sg parts r)) by (inversion L1; subst; try match goal with H : Stands (MPtr _ _ _) _ |- _ => inversion H end; left; eauto).
    inversion S2; subst.
    + eapply ptr_same; eauto. inversion L2; subst; try match goal with H : Stands (MPtr _ _ _) _ |- _ => inversion H end; left; eauto.
    + eapply ptr_same; eauto. right. eauto.
  - inversion S2; subst; [|constructor]. eapply ptr_same; eauto; [right; eauto|].
    inversion L2; subst; try match goal with H : Stands (MPtr _ _ _) _ |- _ => inversion H end; left; eauto.
  - inversion S2; subst. inversion N; subst. eapply adt_agree; eauto.
Qed.
End LOOK.

(** ** Values that agree look alike *)

Lemma stands_fun v p q : Stands v p -> Stands v q -> p = q.
Proof.
  intros A B. destruct (stands_adt _ _ A) as (n & x & fs & [k|] & ->).
  - apply stands_special in A. apply stands_special in B. congruence.
  - assert (E : forall r, Stands (MAdt n x fs None) r -> obind (read_field fs "ptr") first_field = Some r).
    { intros r S. inversion S; subst. chain; adts. reads.
      match goal with H : read_field _ _ = Some _ |- _ => rewrite H; clear H; cbn end. auto. }
    apply E in A. apply E in B. congruence.
Qed.

Lemma open_not_stands v p : Open v -> ~ Stands v p.
Proof. intros (n & x & fs & -> & D) S. inversion S. congruence. Qed.

Lemma owner_small n x fs k p : Stands (MAdt n x fs k) p -> small_inside false (MAdt n x fs k) = Some (match k with Some _ => true | None => false end).
Proof. intros S. unfold small_inside. destruct k; [rewrite (stands_special _ _ _ _ _ S)|]; auto. Qed.

Section ALIKE.
Variable ft : Z -> list nat.

Lemma small_same c v w : Agree c v w -> small_inside c v = small_inside c w.
Proof.
  intros A. destruct c.
  - destruct v, w; auto.
  - inversion A; subst; auto.
    + destruct (stands_adt _ _ H0) as (n & x & fs & k & ->). destruct (stands_adt _ _ H1) as (n' & x' & fs' & k' & ->).
      rewrite (owner_small _ _ _ _ _ H0), (owner_small _ _ _ _ _ H1). unfold Owner in H2. destruct k, k'; auto.
      * destruct H2 as [H2 _]. destruct H2 as (? & ? & ? & ? & E); [eauto|discriminate].
      * destruct H2 as [_ H2]. destruct H2 as (? & ? & ? & ? & E); [eauto|discriminate].
    + destruct H as [|[(? & ? & ? & E & _) (? & ? & ? & E' & _)]]; [discriminate|].
      injection E as _ _ _ ->. injection E' as _ _ _ ->. auto.
Qed.

Lemma alike c n : forall v w, Agree c v w -> Legible c v -> Legible c w -> look_at n ft c None v = look_at n ft c None w.
Proof.
  induction n as [|n IH]; intros v w A L1 L2; [reflexivity|].
  assert (LI : forall vs ws, Forall2 (Agree c) vs ws -> Forall (Legible c) vs -> Forall (Legible c) ws ->
    map (look_at n ft c None) vs = map (look_at n ft c None) ws).
  { induction 1 as [|v' w' vs ws A' H IHl]; intros F1 F2; [auto|]. inversion F1; subst. inversion F2; subst. cbn. f_equal; auto. }
  destruct A.
  - auto.
  - reflexivity.
  - assert (P : PlainPath ps) by (inversion L1; subst; try match goal with H : Stands (MPtr _ _ _) _ |- _ => inversion H end; auto).
    assert (P' : PlainPath ps') by (inversion L2; subst; try match goal with H : Stands (MPtr _ _ _) _ |- _ => inversion H end; auto).
    destruct (same_point sg _ _ P P' H) as [E R]. cbn [look_at]. rewrite E, R. destruct c; [|auto].
    specialize (H0 eq_refl). destruct r as [[|k]|]; destruct r' as [[|k']|]; auto.
    + discriminate (proj2 (H0 k') eq_refl).
    + discriminate (proj1 (H0 k) eq_refl).
    + pose proof (proj1 (H0 k) eq_refl) as X. injection X as ->. auto.
    + discriminate (proj1 (H0 k) eq_refl).
    + discriminate (proj2 (H0 k') eq_refl).
  - cbn [look_at]. rewrite (LI vs ws); auto.
    + inversion L1; subst; auto; match goal with H : Stands (MTuple _) _ |- _ => inversion H end.
    + inversion L2; subst; auto; match goal with H : Stands (MTuple _) _ |- _ => inversion H end.
  - cbn [look_at]. rewrite (LI vs ws); auto.
    + inversion L1; subst; auto; match goal with H : Stands (MArray _) _ |- _ => inversion H end.
    + inversion L2; subst; auto; match goal with H : Stands (MArray _) _ |- _ => inversion H end.
  - inversion L1; subst; try match goal with H : Stands (MArray _) _ |- _ => inversion H end.
    inversion L2; subst; try match goal with H : Stands (MArray _) _ |- _ => inversion H end.
    cbn [look_at]. rewrite (LI vs ws), (IH x y); auto.
  - subst c. rewrite (look_stands _ _ _ _ n H0), (look_stands _ _ _ _ n H1). apply IH; auto.
    + destruct (stands_adt _ _ H0) as (a & b & d & k & ->). destruct (legible_adt _ _ _ _ _ L1) as [(_ & r & S & P)|[[[]|O] _]]; [|discriminate|].
      * rewrite (stands_fun _ _ _ H0 S). destruct P as [(? & ? & ? & -> & P)|(? & ->)]; [apply le_ptr|apply le_dead]; auto.
      * exfalso. eapply open_not_stands; eauto.
    + destruct (stands_adt _ _ H1) as (a & b & d & k & ->). destruct (legible_adt _ _ _ _ _ L2) as [(_ & r & S & P)|[[[]|O] _]]; [|discriminate|].
      * rewrite (stands_fun _ _ _ H1 S). destruct P as [(? & ? & ? & -> & P)|(? & ->)]; [apply le_ptr|apply le_dead]; auto.
      * exfalso. eapply open_not_stands; eauto.
  - assert (F1 : (c = true /\ (k <> None -> exists p, Stands (MAdt n0 x fs k) p) \/ Open (MAdt n0 x fs k)) /\ Forall (fun f => Legible c (snd f)) fs).
    { destruct (legible_adt _ _ _ _ _ L1) as [(C & p & S & _)|F]; [|exact F]. exfalso.
      destruct H as [|[O _]]; [congruence|]. eapply open_not_stands; eauto. }
    assert (F2 : (c = true /\ (k' <> None -> exists p, Stands (MAdt n0 x gs k') p) \/ Open (MAdt n0 x gs k')) /\ Forall (fun f => Legible c (snd f)) gs).
    { destruct (legible_adt _ _ _ _ _ L2) as [(C & p & S & _)|F]; [|exact F]. exfalso.
      destruct H as [|[_ O]]; [congruence|]. eapply open_not_stands; eauto. }
    destruct F1 as [O1 F1]. destruct F2 as [O2 F2]. rewrite !look_fields by auto.
    assert (K : map fst fs = map fst gs).
    { clear - H0. induction H0 as [|f g fs gs [E _] H IHl]; cbn; congruence. }
    assert (M : map (look_at n ft c None) (map snd fs) = map (look_at n ft c None) (map snd gs)).
    { apply LI.
      - clear - H0. induction H0 as [|f g fs gs [_ E] H IHl]; cbn; constructor; auto.
      - clear - F1. induction F1; cbn; constructor; auto.
      - clear - F2. induction F2; cbn; constructor; auto. }
    destruct (form "" fs) as [f ->|f g r ->|N].
    + inversion H0 as [|? [k0 f'] ? ? [E A] R]; subst. inversion R; subst. cbn in E, A. subst k0. cbn [fields_look].
      rewrite (small_same _ _ _ A). cbn in M. injection M as M. rewrite M. auto.
    + destruct gs as [|[k0 f'] [|g' gs]]; try discriminate. cbn in K. injection K as <- _ _. cbn [fields_look]. rewrite M. auto.
    + rewrite !table_look; auto.
      * rewrite M, K. auto.
      * intros f r ->. destruct fs as [|[k0 f'] fs]; [discriminate|]. cbn in K. injection K as -> _. eapply N; eauto.
Qed.
End ALIKE.

(** ** More depth does not change the look *)

Lemma all_some_mono {A T} (f g : A -> option T) vs : forall ls, (forall v l, In v vs -> f v = Some l -> g v = Some l) ->
  all_some (map f vs) = Some ls -> all_some (map g vs) = Some ls.
Proof.
  induction vs as [|v vs IH]; intros ls M H; cbn in *; auto.
  destruct (f v) as [l|] eqn:F; [|discriminate]. rewrite (M v l) by auto.
  destruct (all_some (map f vs)) as [r|] eqn:R; [|discriminate]. rewrite (IH r); auto.
Qed.

Lemma look_mono ft c err n : forall m v l, n <= m -> look_at n ft c err v = Some l -> look_at m ft c err v = Some l.
Proof.
  induction n as [|n IH]; intros [|m] v l L H; try discriminate; try lia.
  assert (M : forall v l, look_at n ft c err v = Some l -> look_at m ft c err v = Some l) by (intros; apply IH; auto; lia).
  assert (A : forall vs ls, all_some (map (look_at n ft c err) vs) = Some ls -> all_some (map (look_at m ft c err) vs) = Some ls).
  { intros vs ls. apply all_some_mono. intros. auto. }
  cbn [look_at] in *. destruct v as [k z|vs|[vs|vs x]|nm x fs k|sg ps r|a]; auto.
  - destruct (all_some (map (look_at n ft c err) vs)) as [r|] eqn:E; [|discriminate]. rewrite (A _ _ E). auto.
  - destruct (all_some (map (look_at n ft c err) vs)) as [r|] eqn:E; [|discriminate]. rewrite (A _ _ E). auto.
  - destruct (all_some (map (look_at n ft c err) vs)) as [r|] eqn:E; [|discriminate]. rewrite (A _ _ E). cbn in *.
    destruct (look_at n ft c err x) as [k|] eqn:X; [|discriminate]. rewrite (M _ _ X). auto.
  - destruct (special_ptr fs k) as [o|]; [|discriminate]. destruct (if c then None else o) as [p|]; [auto|].
    destruct (negb c && String.eqb nm "Iter").
    + destruct (obind (read_field fs "ptr") first_field) as [p|]; [|discriminate]. cbn in *. auto.
    + set (sn := match x with Some y => y | None => nm end) in *.
      change (fields_look (look_at n ft c err) c sn fs = Some l) in H. change (fields_look (look_at m ft c err) c sn fs = Some l).
      destruct (form sn fs) as [f ->|f g r ->|N].
      * cbn in *. destruct (small_inside c f); [|discriminate]. cbn in *.
        destruct (look_at n ft c err f) as [k'|] eqn:X; [|discriminate]. rewrite (M _ _ X). auto.
      * cbn [fields_look] in *. destruct (all_some (map (look_at n ft c err) _)) as [q|] eqn:E; [|discriminate]. rewrite (A _ _ E). auto.
      * rewrite table_look in * by auto. destruct (all_some (map (look_at n ft c err) _)) as [q|] eqn:E; [|discriminate]. rewrite (A _ _ E). auto.
Qed.

Lemma looks_fun ft c err v l l' : Looks ft c err v l -> Looks ft c err v l' -> l = l'.
Proof.
  intros [n H] [m H']. apply (look_mono _ _ _ _ (n + m)) in H; [|lia]. apply (look_mono _ _ _ _ (n + m)) in H'; [|lia]. congruence.
Qed.

(** ** Legible values are shown *)

Fixpoint height (v : mvalue) : nat :=
  match v with
  | MTuple vs => S (list_max (map height vs))
  | MArray (AllOf vs) => S (list_max (map height vs))
  | MArray (Only vs x) => S (list_max (height x :: map height vs))
  | MAdt _ _ fs _ => S (list_max (map (fun f => height (snd f)) fs))
  | _ => 1
  end.

Lemma max_in {A} (f : A -> nat) l x : In x l -> f x <= list_max (map f l).
Proof.
  intros I. pose proof (proj1 (list_max_le (map f l) (list_max (map f l))) (le_n _)) as F.
  rewrite Forall_forall in F. apply F. apply in_map. auto.
Qed.

Lemma small_shown c v : Legible c v -> exists b, small_inside c v = Some b.
Proof.
  intros L. destruct v as [ | | |n x fs k| | ]; try (eexists; reflexivity). unfold small_inside. destruct c; [eauto|].
  destruct (legible_adt _ _ _ _ _ L) as [(_ & p & S & _)|[[[D _]|(? & ? & ? & E & _)] _]]; [|discriminate|].
  - destruct k; [rewrite (stands_special _ _ _ _ _ S)|]; cbn; eauto.
  - injection E as <- <- <- ->. cbn. eauto.
Qed.

Lemma legible_shown ft c err k : forall v, height v <= k -> Legible c v -> exists l, look_at (S k) ft c err v = Some l.
Proof.
  induction k as [|k IH]; intros v Hh L.
  { destruct v as [ | |[|]| | | ]; cbn in Hh; lia. }
  assert (A : forall vs, list_max (map height vs) <= k -> Forall (Legible c) vs -> exists ls, all_some (map (look_at (S k) ft c err) vs) = Some ls).
  { intros vs Hm F. apply all_some_forall. rewrite Forall_forall in *. intros v' I. apply IH; auto. pose proof (max_in height _ _ I). lia. }
  assert (PL : forall p n, PtrLike p -> exists l, look_at (S n) ft c err p = Some l).
  { intros p n [(sg & ps & r & -> & _)|(a & ->)]; cbn [look_at]; [|eauto]. destruct (if c then r else None) as [[|]|]; eauto. }
  assert (AD : forall nm x fs kd, v = MAdt nm x fs kd -> exists l, look_at (S (S k)) ft c err v = Some l).
  { intros nm x fs kd ->. destruct (legible_adt _ _ _ _ _ L) as [(-> & p & S & P)|[O F]].
    - rewrite (look_stands _ _ _ p _ S). auto.
    - rewrite look_fields by auto.
      assert (B : exists ls, all_some (map (look_at (S k) ft c err) (map snd fs)) = Some ls).
      { apply A. - cbn in Hh. rewrite map_map. lia.
        - clear - F. induction F; cbn; constructor; auto. }
      destruct B as [ls B]. destruct (form "" fs) as [f ->|f g r ->|N].
      + cbn [fields_look]. inversion F; subst. destruct (small_shown c f) as [b ->]; [auto|]. cbn [obind].
        destruct (IH f) as [l ->]; [cbn in Hh; lia|auto|]. cbn. eauto.
      + cbn [fields_look]. rewrite B. cbn. eauto.
      + rewrite table_look, B by auto. cbn. eauto. }
  destruct L.
  - destruct k0; cbn [look_at]; eauto. rewrite float_exact by auto. cbn. eauto.
  - cbn [look_at]. eauto.
  - apply PL. left. eauto.
  - destruct (A vs) as [ls E]; auto. { cbn in Hh. lia. }
    change (look_at (S (S k)) ft c err (MTuple vs)) with (option_map LRow (all_some (map (look_at (S k) ft c err) vs))). rewrite E. cbn. eauto.
  - destruct (A vs) as [ls E]; auto. { cbn in Hh. lia. }
    change (look_at (S (S k)) ft c err (MArray (AllOf vs))) with (option_map (fun l => LCells l None) (all_some (map (look_at (S k) ft c err) vs))).
    rewrite E. cbn. eauto.
  - cbn [height] in Hh. assert (M : height x <= k /\ list_max (map height vs) <= k).
    { change (list_max (height x :: map height vs)) with (Nat.max (height x) (list_max (map height vs))) in Hh. lia. }
    destruct M as [Mx Mv]. destruct (A vs Mv) as [ls E]; auto. destruct (IH x Mx) as [l X]; auto.
    change (look_at (S (S k)) ft c err (MArray (Only vs x))) with
      (obind (all_some (map (look_at (S k) ft c err) vs)) (fun l => option_map (fun k => LCells l (Some k)) (look_at (S k) ft c err x))).
    rewrite E, X. cbn. eauto.
  - destruct (stands_adt _ _ H0) as (? & ? & ? & ? & ->). eapply AD; eauto.
  - destruct (stands_adt _ _ H0) as (? & ? & ? & ? & ->). eapply AD; eauto.
  - eapply AD; eauto.
Qed.

(** ** What the reader gives has the form of its type *)

Definition Gives {A} (x : rd A) (P : A -> Prop) : Prop := forall s v s', x s = (inr v, s') -> P v.

Lemma gives_ret {A} (a : A) (P : A -> Prop) : P a -> Gives (ret a) P.
Proof. intros H s v s' E. injection E as <- _. auto. Qed.
Lemma gives_halt {A} e (P : A -> Prop) : Gives (halt e) P.
Proof. intros s v s' E. discriminate. Qed.
Lemma gives_bind {A B} (x : rd A) (f : A -> rd B) (P : A -> Prop) (Q : B -> Prop) :
  Gives x P -> (forall a, P a -> Gives (f a) Q) -> Gives (bind x f) Q.
Proof. intros G H s v s' E. unfold bind in E. destruct (x s) as [[e|a] s1] eqn:X; [discriminate|]. eapply H; eauto. Qed.
Lemma gives_imp {A} (x : rd A) (P Q : A -> Prop) : Gives x P -> (forall a, P a -> Q a) -> Gives x Q.
Proof. intros G H s v s' E. eauto. Qed.

Section SHAPE.
Variable m : mem.
Notation sh := (Shaped (m_zst m)).

Lemma gives_tuple rd1 p t ts : (forall q t', In t' ts -> Gives (rd1 q t') (sh t')) -> forall i,
  Gives (read_tuple rd1 m p t i ts) (Forall2 sh ts).
Proof.
  induction ts as [|ft r IH]; intros H i; cbn [read_tuple]; [apply gives_ret; constructor|].
  eapply gives_bind; [apply H; left; auto|]. intros v Sv. eapply gives_bind; [apply IH; intros; apply H; right; auto|].
  intros vs Svs. apply gives_ret. constructor; auto.
Qed.

Lemma gives_fields rd1 p t v fs : (forall q n t', In (n, t') fs -> Gives (rd1 q t') (sh t')) -> forall i,
  Gives (process_fields rd1 m p t v i fs)
    (Forall2 (fun f v => fst f = fst v /\ sh (snd f) (snd v)) (filter (fun f => negb (m_zst m (snd f))) fs)).
Proof.
  induction fs as [|[n ft] r IH]; intros H i; cbn [process_fields filter snd]; [apply gives_ret; constructor|].
  destruct (m_zst m ft); cbn [negb].
  - apply IH. intros. eapply H. right. eauto.
  - eapply gives_bind; [eapply H; left; eauto|]. intros x Sx. eapply gives_bind; [apply IH; intros; eapply H; right; eauto|].
    intros xs Sxs. apply gives_ret. constructor; auto.
Qed.

Lemma gives_collect (mk : nat -> rd mvalue) P idx : (forall i, Gives (mk i) P) -> Gives (collect_state mk idx) (fun l => length l = length idx /\ Forall P l).
Proof.
  intros H. induction idx as [|i r IH]; intros s v s' E; cbn in E; [injection E as <- <-; auto|].
  destruct (mk i s) as [[e|x] s1] eqn:X; [discriminate|]. destruct (collect_state mk r s1) as [[e|xs] s2] eqn:XS; [discriminate|].
  injection E as <- <-. destruct (IH _ _ _ XS). cbn. split; [auto|]. constructor; auto. eapply H; eauto.
Qed.

Lemma gives_array rd1 base stride n el : (forall q, Gives (rd1 q el) (sh el)) -> Gives (read_array rd1 base stride n el) (sh (TArray el n)).
Proof.
  intros H s v s' E. unfold read_array in E. destruct (abbrev_new n _ s) as [[e|a] s1] eqn:A; [discriminate|]. injection E as <- <-.
  unfold abbrev_new, ABBREV_MAX in A. destruct (Nat.leb n 12) eqn:L.
  - destruct (collect_state _ (seq 0 n) s) as [[e|l] s2] eqn:C; [discriminate|]. injection A as <- <-.
    apply (gives_collect _ (sh el)) in C as [C1 C2]; [|intros; apply H]. rewrite seq_length in C1. constructor; auto.
  - apply Nat.leb_gt in L. change (12 - 1) with 11 in A. destruct (collect_state _ (seq 0 11) s) as [[e|l] s2] eqn:C; [discriminate|].
    destruct (rd1 _ el s2) as [[e|x] s3] eqn:X; [discriminate|]. injection A as <- <-.
    apply (gives_collect _ (sh el)) in C as [C1 C2]; [|intros; apply H]. rewrite seq_length in C1.
    apply sh_long; auto; [lia|]. eapply H; eauto.
Qed.

Definition Pointerish (v : mvalue) : Prop := (exists sg ps r, v = MPtr sg ps r) \/ exists a, v = MUnalloc a.

Lemma gives_point q : Gives (point m q) Pointerish.
Proof.
  intros s v s' E. unfold point in E. destruct (aget Nat.eq_dec (s_place s) (p_alloc q)) as [[sg t]|]; [|discriminate].
  destruct (locate_address_in_type _ _ _ _); [|discriminate]. injection E as <- <-. left. eauto.
Qed.

Lemma gives_pointer rd1 ks q t : Gives (read_pointer rd1 m ks q t) Pointerish.
Proof.
  intros s v s' E. unfold read_pointer in E. destruct (aget _ _ _); [eapply gives_point; eauto|].
  revert E. apply (gives_bind _ _ (fun _ => True)); [intros ? ? ? ?; auto|]. intros a _.
  destruct (m_kind m (p_alloc q)).
  - destruct (m_slot m (p_alloc q)) as [[[fr lo] lt]|].
    + apply (gives_bind _ _ (fun _ => True)); [intros ? ? ? ?; auto|]. intros _ _. apply gives_point.
    + intros s1 v1 s2 E. unfold unallocated in E. destruct (remap _ _). injection E as <- <-. right. eauto.
  - apply (gives_bind _ _ (fun _ => True)); [intros ? ? ? ?; auto|]. intros _ _. apply gives_point.
  - apply gives_halt.
Qed.

Lemma gives_kind rd1 ks p t name args fs : Gives (own_kind rd1 m ks p t name args fs) (OwnerOf name args).
Proof.
  unfold own_kind. destruct (String.eqb_spec name "String") as [->|N].
  - destruct (field_by_name "vec" 0 fs) as [[i vt]|]; [|apply gives_halt]. destruct vt; try apply gives_halt.
    apply (gives_bind _ _ (fun _ => True)); [intros ? ? ? ?; auto|]. intros o _. apply gives_ret. destruct o; constructor; auto.
  - destruct (String.eqb_spec name "Vec") as [->|N']; [|apply gives_ret; constructor].
    apply (gives_bind _ _ (fun _ => True)); [intros ? ? ? ?; auto|]. intros [len|] _; [|apply gives_ret; constructor].
    destruct (last_kind ks) as [[| |]|]; try (apply gives_ret; constructor); destruct args as [|el rest]; try apply gives_halt;
      apply gives_ret; econstructor; eauto.
Qed.

Lemma read_shaped f : forall ks p t, Gives (read m f ks p t) (sh t).
Proof.
  induction f as [|f IH]; intros ks p t; [apply gives_halt|]. cbn [read]. destruct t.
  - destruct (m_scalar m p k); [apply gives_ret; constructor|apply gives_ret; constructor|apply gives_halt].
  - eapply gives_bind; [apply IH|]. intros v S. apply gives_ret. constructor. auto.
  - eapply gives_bind; [apply gives_tuple; intros; apply IH|]. intros vs S. apply gives_ret. constructor. auto.
  - eapply gives_bind; [apply gives_kind|]. intros k O. eapply gives_bind; [apply gives_fields; intros; apply IH|].
    intros vs S. apply gives_ret. constructor; auto.
  - destruct (m_variant m p) as [i|]; [|apply gives_halt]. destruct (nth_error variants i) as [[vn fs]|] eqn:E; [|apply gives_halt].
    eapply gives_bind; [apply gives_fields; intros; apply IH|]. intros vs S. apply gives_ret. econstructor; eauto. eapply nth_error_In; eauto.
  - apply gives_array. intros. apply IH.
  - eapply gives_imp; [apply gives_pointer|]. intros v [(sg & ps & r & ->)|[a ->]]; constructor.
  - apply gives_halt.
  - destruct (m_ptr m p) as [q|[a|]|e|e]; try apply gives_halt.
    + eapply gives_imp; [apply gives_pointer|]. intros v [(sg & ps & r & ->)|[a ->]]; constructor.
    + intros s v s' E. unfold unallocated in E. destruct (remap _ _). injection E as <- <-. constructor.
    + apply gives_ret. constructor.
  - eapply gives_bind; [apply gives_tuple; intros; apply IH|]. intros vs S. apply gives_ret. constructor.
    clear - S. revert vs S. induction upvars as [|[n t] u IHu]; intros vs S; inversion S; subst; cbn; constructor; auto.
  - apply gives_halt.
Qed.

Lemma locals_shaped f ls : Gives (read_locals m f ls) (Forall2 sh (map snd ls)).
Proof.
  induction ls as [|[p t] r IH]; cbn [read_locals]; [apply gives_ret; constructor|].
  eapply gives_bind; [apply read_shaped|]. intros v S. eapply gives_bind; [apply IH|]. intros vs Ss. apply gives_ret. constructor; auto.
Qed.
End SHAPE.

Lemma shaped_ext e e' : (forall t, e t = e' t) -> forall t v, Shaped e' t v -> Shaped e t v.
Proof.
  intros Z. assert (SH : forall k t v, height v <= k -> Shaped e' t v -> Shaped e t v); [|intros t v; apply (SH _ t v (le_n _))].
  induction k as [|k IH]; intros t v H Sv. { destruct v as [ | |[|]| | | ]; cbn in H; lia. }
  assert (LT : forall ts vs, (forall x, In x vs -> height x <= k) -> Forall2 (Shaped e') ts vs -> Forall2 (Shaped e) ts vs).
  { intros ts vs Hm F2. induction F2; constructor; [apply IH; auto; apply Hm; left; auto|]. apply IHF2. intros x0 I. apply Hm. right. auto. }
  assert (FL : forall F fs, list_max (map (fun x : string * mvalue => height (snd x)) fs) <= k ->
    Forall2 (fun f v => fst f = fst v /\ Shaped e' (snd f) (snd v)) F fs ->
    Forall2 (fun f v => fst f = fst v /\ Shaped e (snd f) (snd v)) F fs).
  { intros F fs Hm F2. assert (Hf : forall x, In x fs -> height (snd x) <= k).
    { intros x I. pose proof (max_in (fun x : string * mvalue => height (snd x)) _ _ I) as M. cbn beta in M. lia. }
    clear Hm. induction F2 as [|a b F fs [A B] F2 IHF]; [constructor|].
    constructor; [split; [auto|]; apply IH; [apply Hf; left; auto|auto]|]. apply IHF. intros x I. apply Hf. right. auto. }
  assert (FI : forall F : list (string * ty), filter (fun f => negb (e (snd f))) F = filter (fun f => negb (e' (snd f))) F).
  { intros F. apply filter_ext. intros a. rewrite Z. auto. }
  assert (FA : forall el vs, (forall x, In x vs -> height x <= k) -> Forall (Shaped e' el) vs -> Forall (Shaped e el) vs).
  { intros el vs Hm F. rewrite Forall_forall in *. intros x I. apply IH; auto. }
  destruct Sv; cbn [height] in H; try (constructor; fail).
  - constructor. apply IH; [cbn in H; lia|auto].
  - constructor. apply LT; [|auto]. intros x I. pose proof (max_in height _ _ I). lia.
  - constructor; [auto|]. rewrite FI. apply FL; [lia|auto].
  - econstructor; [eauto|]. rewrite FI. apply FL; [lia|auto].
  - constructor; [auto|]. apply FA; [|auto]. intros x I. pose proof (max_in height _ _ I). lia.
  - constructor; [auto| |].
    + apply FA; [|auto]. intros y I. pose proof (max_in height (x :: vs) y (or_intror I)) as M. cbn [map] in M. lia.
    + apply IH; [|auto]. pose proof (max_in height (x :: vs) x (or_introl eq_refl)) as M. cbn [map] in M. lia.
  - constructor. apply FL; [lia|auto].
Qed.
