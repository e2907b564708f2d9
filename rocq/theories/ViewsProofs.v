(** * Lemmas: what is told of a place at a point is unique *)
From Coq Require Import List Arith Bool Lia.
From Verif Require Import Base PermsModel FactsModel FactsSpec BoundariesModel UsesModel UsesSpec CfgModel StepsModel TellModel TellSpec ViewsSpec.
From Verif Require StepsSpec DrawModel DrawSpec EditorModel.
Import ListNotations.

(** The letter, as the steps have it, and as the uses have it. *)
Definition there (inp : Inp) (x : Place) (p : Point) (L : Letter) : Prop :=
  match L with
  | LR => PlaceReadable inp x p
  | LW => LoanFree inp x p /\ PlaceReadable inp x p /\ DeclaredWriteable inp (in_normalize inp x)
  | LO => LoanFree inp x p /\ PlaceReadable inp x p /\ DeclaredOwnable inp (in_normalize inp x)
  | LF => False
  end.

Lemma use_there f fi pb loc x s L v : TellsUse f fi pb loc x s -> L <> LF -> In (L, v) (DrawModel.k_icons s) ->
  (v = true <-> there (ue_inp (fn_uses f)) x (ue_start (fn_uses f) loc) L).
Proof.
  intros (R & W & O & _) N I. destruct L; [apply R in I|apply W in I|apply O in I|congruence]; exact (proj2 I).
Qed.

Lemma row_there f x from to r p L v : TellsStep f x from to r -> RowTells f from to r p L v ->
  (v = true <-> VarLive (se_inp (fn_steps f)) x p /\ there (se_inp (fn_steps f)) x p L).
Proof.
  intros (u & a & w & b & A & _ & B & M & _) [l L' m -> Mk|L' m Mk].
  - destruct A as (_ & A1 & A2 & A3). unfold MarkOf in Mk. rewrite M in Mk. cbn [fst snd] in Mk.
    assert (E : forall a b, was_there (DrawSpec.drawn_as a b) = a) by (intros [] []; reflexivity).
    destruct L'; try contradiction; subst m; rewrite E; cbn [there]; tauto.
  - destruct B as (B1 & B2 & B3). unfold MarkOf in Mk. rewrite M in Mk. cbn [fst snd] in Mk.
    assert (E : forall a b, is_there (DrawSpec.drawn_as a b) = b) by (intros [] []; reflexivity).
    destruct L'; try contradiction; subst m; rewrite E; cbn [there]; tauto.
Qed.

Lemma loan_unique inp keep x p o o' : names_loan inp keep o x p -> names_loan inp keep o' x p -> o = o'.
Proof.
  destruct o as [l|], o' as [l'|]; cbn; intros H H'; auto.
  - destruct H as (C & Li & K & M), H' as (C' & Li' & K' & M'). f_equal. apply Nat.le_antisymm; auto.
  - destruct H as (C & Li & K & M). exfalso. eapply H'; eauto.
  - destruct H' as (C & Li & K & M). exfalso. eapply H; eauto.
Qed.

Definition keys_of (u : PData) : DrawModel.keys * DrawModel.keys * DrawModel.keys :=
  ((loan_read_refined u, path_moved u), (loan_write_refined u, path_moved u), (loan_drop_refined u, path_moved u)).

Lemma keys_unique inp x p u v : StepsSpec.StateOf inp x p u -> StepsSpec.StateOf inp x p v -> keys_of u = keys_of v.
Proof.
  intros (_ & M & _ & R & W & D & _) (_ & M' & _ & R' & W' & D' & _). unfold keys_of.
  rewrite (loan_unique _ _ _ _ _ _ R R'), (loan_unique _ _ _ _ _ _ W W'), (loan_unique _ _ _ _ _ _ D D').
  assert (E : path_moved u = path_moved v); [|rewrite E; reflexivity].
  destruct (path_moved u) as [m|], (path_moved v) as [m'|]; auto.
  - destruct M as (A & B & C), M' as (A' & B' & C'). f_equal. apply Nat.le_antisymm; auto.
  - destruct M as (A & B & C). exfalso. eapply M'; eauto.
  - destruct M' as (A & B & C). exfalso. eapply M; eauto.
Qed.

Lemma use_keys f fi pb loc x s : TellsUse f fi pb loc x s ->
  exists u, StepsSpec.StateOf (ue_inp (fn_uses f)) x (ue_start (fn_uses f) loc) u /\ DrawModel.k_keys s = keys_of u.
Proof. intros (_ & _ & _ & _ & u & H & K). exists u. auto. Qed.

Lemma step_keys f x from to r : TellsStep f x from to r ->
  exists u, StepsSpec.StateOf (se_inp (fn_steps f)) x (se_point (fn_steps f) to) u /\ DrawModel.w_keys r = keys_of u.
Proof. intros (u & a & v & b & _ & H & _ & _ & _ & K & _). exists v. auto. Qed.
