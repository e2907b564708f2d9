(** * Proofs about snapshots *)
From Coq Require Import List Arith Permutation Sorted Lia.
From Verif Require Import SnapModel SnapSpec.
Import ListNotations.

Lemma sorted_unique {A} (R : A -> A -> Prop) : forall l1 l2,
  (forall x y, In x l1 -> In y l1 -> R x y -> R y x -> x = y) ->
  StronglySorted R l1 -> StronglySorted R l2 -> Permutation l1 l2 -> l1 = l2.
Proof.
  induction l1 as [|a l1 IH]; intros l2 An S1 S2 P; [symmetry; apply Permutation_nil, P|].
  destruct l2 as [|b l2]; [apply Permutation_sym, Permutation_nil in P; discriminate|].
  assert (Q : a = b).
  { assert (Ia : In a (b :: l2)) by (eapply Permutation_in; [exact P|left; reflexivity]).
    assert (Ib : In b (a :: l1)) by (eapply Permutation_in; [apply Permutation_sym, P|left; reflexivity]).
    destruct Ia as [Ia|Ia]; [symmetry; exact Ia|]. destruct Ib as [Ib|Ib]; [exact Ib|].
    inversion S1 as [|x l H1 F1]; subst. inversion S2 as [|x l H2 F2]; subst. rewrite Forall_forall in F1, F2.
    apply An; [left; reflexivity|right; exact Ib|apply F1, Ib|apply F2, Ia]. }
  subst b. f_equal. apply IH.
  - intros x y I J. apply An; right; assumption.
  - inversion S1; assumption.
  - inversion S2; assumption.
  - apply Permutation_cons_inv in P. exact P.
Qed.

Lemma key_inj {A K} (key : A -> K) l : NoDup (map key l) -> forall x y, In x l -> In y l -> key x = key y -> x = y.
Proof.
  induction l as [|a l IH]; cbn; intros N x y I J E; [destruct I|]. inversion N as [|k ks Nk Nl]; subst.
  destruct I as [<-|I], J as [<-|J]; auto.
  - exfalso. apply Nk. rewrite E. apply in_map, J.
  - exfalso. apply Nk. rewrite <- E. apply in_map, I.
Qed.

Lemma sorts_unique {A K} (le : K -> K -> Prop) (key : A -> K) f g l1 l2 :
  (forall a b, le a b -> le b a -> a = b) -> SortsBy le key f -> SortsBy le key g -> Permutation l1 l2 -> NoDup (map key l1) -> f l1 = g l2.
Proof.
  intros An F G P N. destruct (F l1) as [P1 S1], (G l2) as [P2 S2].
  apply (sorted_unique (fun x y => le (key x) (key y))); [|exact S1|exact S2|].
  - intros x y I J H1 H2. apply (key_inj key l1 N); [eapply Permutation_in; [apply Permutation_sym, P1|exact I]|eapply Permutation_in; [apply Permutation_sym, P1|exact J]|].
    apply An; assumption.
  - eapply Permutation_trans; [apply Permutation_sym, P1|]. eapply Permutation_trans; [exact P|exact P2].
Qed.

Lemma WordLe_antisym v w : WordLe v w -> WordLe w v -> v = w.
Proof.
  intros H. induction H as [w|a b v w L|a v w H IH]; intros G.
  - inversion G. reflexivity.
  - exfalso. inversion G; subst; lia.
  - inversion G; subst; [lia|]. f_equal. apply IH. assumption.
Qed.

Lemma snapshot_map {D} rows lines (o : output D) : snapshot rows lines o = lines (map (fun p => (fst p, rows (concat (snd p)))) o).
Proof. unfold snapshot, normalize. rewrite map_map. reflexivity. Qed.

Lemma app_sep (a b c d : list nat) : ~ In 64 a -> ~ In 64 c -> a ++ [64] ++ b = c ++ [64] ++ d -> a = c /\ b = d.
Proof.
  revert c. induction a as [|x a IH]; intros [|y c] Na Nc E; cbn in E.
  - injection E as <-. auto.
  - injection E as <- E. exfalso. apply Nc. left. reflexivity.
  - injection E as -> E. exfalso. apply Na. left. reflexivity.
  - injection E as <- E. destruct (IH c) as [-> ->]; [intros I; apply Na; right; exact I|intros I; apply Nc; right; exact I|exact E|]. auto.
Qed.

(** Insertion, as an example of a sort, and the same with equal keys turned round. *)
Fixpoint put {A} (leb : A -> A -> bool) (x : A) (l : list A) : list A :=
  match l with [] => [x] | y :: r => if leb x y then x :: l else y :: put leb x r end.
Definition sort {A} (leb : A -> A -> bool) (l : list A) : list A := fold_right (put leb) [] l.

Lemma put_perm {A} leb (x : A) l : Permutation (x :: l) (put leb x l).
Proof.
  induction l as [|y l IH]; cbn; [apply Permutation_refl|]. destruct (leb x y); [apply Permutation_refl|].
  eapply Permutation_trans; [apply perm_swap|apply perm_skip, IH].
Qed.

Lemma sort_perm {A} leb (l : list A) : Permutation l (sort leb l).
Proof. induction l as [|x l IH]; cbn; [constructor|]. eapply Permutation_trans; [apply perm_skip, IH|apply put_perm]. Qed.

Lemma put_sorted {A} (R : A -> A -> Prop) leb (x : A) l : (forall a b, leb a b = true -> R a b) -> (forall a b, leb a b = false -> R b a) ->
  (forall a b c, R a b -> R b c -> R a c) -> StronglySorted R l -> StronglySorted R (put leb x l).
Proof.
  intros T F Tr. induction l as [|y l IH]; intros S0; cbn; [constructor; constructor|]. inversion S0 as [|z zs H1 H2]; subst. destruct (leb x y) eqn:E.
  - constructor; [exact S0|]. constructor; [apply T, E|]. eapply Forall_impl; [|exact H2]. intros c. apply Tr, T, E.
  - constructor; [apply IH, H1|]. apply Forall_forall. intros c I. apply (Permutation_in c (Permutation_sym (put_perm leb x l))) in I. destruct I as [<-|I]; [apply F, E|].
    rewrite Forall_forall in H2. apply H2, I.
Qed.

Lemma sort_sorted {A} (R : A -> A -> Prop) leb l : (forall a b, leb a b = true -> R a b) -> (forall a b, leb a b = false -> R b a) ->
  (forall a b c, R a b -> R b c -> R a c) -> StronglySorted R (sort leb l).
Proof. intros T F Tr. induction l as [|x l IH]; cbn; [constructor|]. apply put_sorted; assumption. Qed.

Fixpoint word_leb (v w : list nat) : bool :=
  match v, w with [], _ => true | _ :: _, [] => false | a :: v, b :: w => if Nat.ltb a b then true else if Nat.eqb a b then word_leb v w else false end.

Lemma word_leb_true v w : word_leb v w = true -> WordLe v w.
Proof.
  revert w. induction v as [|a v IH]; intros w; [constructor|]. destruct w as [|b w]; cbn [word_leb]; [discriminate|].
  destruct (Nat.ltb_spec a b); [constructor; assumption|]. destruct (Nat.eqb_spec a b) as [->|]; [intros E; constructor; apply IH, E|discriminate].
Qed.

Lemma word_leb_false v w : word_leb v w = false -> WordLe w v.
Proof.
  revert w. induction v as [|a v IH]; intros w; [discriminate|]. destruct w as [|b w]; cbn [word_leb]; [intros _; constructor|].
  destruct (Nat.ltb_spec a b); [discriminate|]. destruct (Nat.eqb_spec a b) as [->|]; [intros E; constructor; apply IH, E|intros _; constructor; lia].
Qed.

Lemma WordLe_trans a b c : WordLe a b -> WordLe b c -> WordLe a c.
Proof.
  intros H. revert c. induction H as [w|a b v w L|a v w H IH]; intros c G; [constructor| |].
  - inversion G; subst; constructor; lia.
  - inversion G; subst; [constructor; assumption|constructor; apply IH; assumption].
Qed.

Definition rows_sort {D} : list (row D) -> list (row D) := sort (fun x y => word_leb (fst x) (fst y)).
Definition rows_sort_back {D} (l : list (row D)) : list (row D) := rows_sort (rev l).
Definition lines_sort {D} : snap D -> snap D := sort (fun x y => Nat.leb (fst x) (fst y)).

Lemma rows_sort_ok {D} : SortsBy WordLe fst (@rows_sort D).
Proof.
  intros l. split; [apply sort_perm|]. apply sort_sorted; [intros a b; apply word_leb_true|intros a b; apply word_leb_false|]. intros a b c. apply WordLe_trans.
Qed.
Lemma rows_sort_back_ok {D} : SortsBy WordLe fst (@rows_sort_back D).
Proof.
  intros l. destruct (rows_sort_ok (rev l)) as [P Q]. split; [|exact Q]. eapply Permutation_trans; [apply Permutation_rev|exact P].
Qed.
Lemma lines_sort_ok {D} : SortsBy le fst (@lines_sort D).
Proof.
  intros l. split; [apply sort_perm|]. apply sort_sorted; [intros a b; apply Nat.leb_le|intros a b E; apply Nat.leb_gt in E; lia|]. intros a b c. apply Nat.le_trans.
Qed.
