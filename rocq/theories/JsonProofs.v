(** * Proofs about JSON *)
From Coq Require Import Ascii String.
From Coq Require Import List Arith ZArith Bool Decimal DecimalNat Lia Permutation.
From Coq Require DecimalFacts.
From Verif Require Import Base ValuesModel BookModel RunModel NumbersModel NumbersSpec NumbersProofs EmbedModel EmbedSpec CacheModel JsonModel JsonSpec.
From Verif Require BuildSpec CacheSpec BookSpec.
Import ListNotations.
Local Open Scope list_scope.

Scheme Text_mut := Induction for Text Sort Prop
  with Padded_mut := Induction for Padded Sort Prop
  with Elements_mut := Induction for Elements Sort Prop
  with Members_mut := Induction for Members Sort Prop.
Combined Scheme text_mutind from Text_mut, Padded_mut, Elements_mut, Members_mut.

(** ** White space *)
Lemma is_space_iff c : is_space c = true <-> In c [32; 9; 10; 13].
Proof.
  unfold is_space. rewrite !orb_true_iff, !Nat.eqb_eq. cbn [In]. intuition.
Qed.
Lemma skip_space w s : Space w -> skip (w ++ s) = skip s.
Proof. induction 1 as [|c w H _ IH]; [reflexivity|]. cbn [List.app skip]. apply is_space_iff in H. rewrite H. exact IH. Qed.
Lemma skip_split s : exists w, Space w /\ s = w ++ skip s.
Proof.
  induction s as [|c s (w & H & E)]; [exists []; split; [constructor|reflexivity]|]. cbn [skip]. destruct (is_space c) eqn:C.
  - exists (c :: w). split; [constructor; [apply is_space_iff; exact C|exact H]|]. cbn. congruence.
  - exists []. split; [constructor|reflexivity].
Qed.
Definition Black (s : str) : Prop := match s with c :: _ => is_space c = false | [] => False end.
Lemma skip_black s : Black s -> skip s = s.
Proof. destruct s as [|c s]; [intros []|]. cbn. intros ->. reflexivity. Qed.
Lemma skip_all w : Space w -> skip w = [].
Proof. intros H. rewrite <- (app_nil_r w), skip_space by exact H. reflexivity. Qed.
Lemma skip_nil s : skip s = [] -> Space s.
Proof. intros H. destruct (skip_split s) as (w & W & E). rewrite H, app_nil_r in E. subst w. exact W. Qed.

(** ** Strings *)
Lemma hex_unhex h n : Hex h n <-> unhex h = Some n.
Proof.
  unfold Hex, unhex. split.
  - intros H.
    destruct (Nat.leb_spec 48 h), (Nat.leb_spec h 57), (Nat.leb_spec 97 h), (Nat.leb_spec h 102), (Nat.leb_spec 65 h), (Nat.leb_spec h 70);
      cbn [andb]; try lia; f_equal; lia.
  - destruct (Nat.leb_spec 48 h), (Nat.leb_spec h 57), (Nat.leb_spec 97 h), (Nat.leb_spec h 102), (Nat.leb_spec 65 h), (Nat.leb_spec h 70);
      cbn [andb]; try discriminate; intros E; injection E as <-; lia.
Qed.

Lemma unescape_iff e c : unescape e = Some c <-> In (e, c) [(34, 34); (92, 92); (47, 47); (98, 8); (102, 12); (110, 10); (114, 13); (116, 9)].
Proof.
  unfold unescape. cbn [In]. split.
  - destruct (Nat.eqb_spec e 34); [intros [= <-]; subst; auto 12|]. destruct (Nat.eqb_spec e 92); [intros [= <-]; subst; auto 12|].
    destruct (Nat.eqb_spec e 47); [intros [= <-]; subst; auto 12|]. cbn [orb].
    destruct (Nat.eqb_spec e 98); [intros [= <-]; subst; auto 12|]. destruct (Nat.eqb_spec e 102); [intros [= <-]; subst; auto 12|].
    destruct (Nat.eqb_spec e 110); [intros [= <-]; subst; auto 12|]. destruct (Nat.eqb_spec e 114); [intros [= <-]; subst; auto 12|].
    destruct (Nat.eqb_spec e 116); [intros [= <-]; subst; auto 12|]. discriminate.
  - intros H. repeat (destruct H as [[= <- <-]|H]; [reflexivity|]). destruct H.
Qed.

Lemma unit_of_iff h1 h2 h3 h4 u : unit_of h1 h2 h3 h4 = Some u <->
  exists a b c d, Hex h1 a /\ Hex h2 b /\ Hex h3 c /\ Hex h4 d /\ ~ (a = 13 /\ 8 <= b) /\ u = ((a * 16 + b) * 16 + c) * 16 + d.
Proof.
  unfold unit_of. split.
  - destruct (unhex h1) as [a|] eqn:A; [|discriminate]. destruct (unhex h2) as [b|] eqn:B; [|discriminate].
    destruct (unhex h3) as [c|] eqn:C; [|discriminate]. destruct (unhex h4) as [d|] eqn:D; [|discriminate].
    apply hex_unhex in A, B, C, D. destruct (Nat.eqb_spec a 13), (Nat.leb_spec 8 b); cbn [andb]; try discriminate;
      intros E; assert (u = ((a * 16 + b) * 16 + c) * 16 + d) by congruence; exists a, b, c, d; repeat (split; [assumption|]); (split; [lia|assumption]).
  - intros (a & b & c & d & A & B & C & D & N & ->). apply hex_unhex in A, B, C, D. rewrite A, B, C, D.
    destruct (Nat.eqb_spec a 13), (Nat.leb_spec 8 b); cbn [andb]; try reflexivity. lia.
Qed.

Lemma pair_of_iff h1 h2 h3 h4 k1 k2 k3 k4 u : pair_of h1 h2 h3 h4 k1 k2 k3 k4 = Some u <->
  exists b c d y z w, Hex h1 13 /\ Hex h2 (8 + b) /\ b < 4 /\ Hex h3 c /\ Hex h4 d /\
    Hex k1 13 /\ Hex k2 (12 + y) /\ y < 4 /\ Hex k3 z /\ Hex k4 w /\
    u = (64 + b * 256 + c * 16 + d) * 1024 + (y * 256 + z * 16 + w).
Proof.
  unfold pair_of. split.
  - destruct (unhex h1) as [a|] eqn:A; [|discriminate]. destruct (unhex h2) as [b|] eqn:B; [|discriminate].
    destruct (unhex h3) as [c|] eqn:C; [|discriminate]. destruct (unhex h4) as [d|] eqn:D; [|discriminate].
    destruct (unhex k1) as [x|] eqn:X; [|discriminate]. destruct (unhex k2) as [y|] eqn:Y; [|discriminate].
    destruct (unhex k3) as [z|] eqn:Z; [|discriminate]. destruct (unhex k4) as [w|] eqn:W; [|discriminate].
    apply hex_unhex in A, B, C, D, X, Y, Z, W.
    destruct (Nat.eqb_spec a 13) as [->|]; [|discriminate]. destruct (Nat.leb_spec 8 b) as [B1|]; [|discriminate].
    destruct (Nat.ltb_spec b 12) as [B2|]; [|discriminate]. destruct (Nat.eqb_spec x 13) as [->|]; [|discriminate].
    destruct (Nat.leb_spec 12 y) as [Y1|]; [|discriminate]. cbn [andb]. intros E.
    assert (Y2 : y < 16) by (unfold Hex in Y; lia).
    exists (b - 8), c, d, (y - 12), z, w. replace (8 + (b - 8)) with b by lia. replace (12 + (y - 12)) with y by lia.
    do 10 (split; [assumption || lia|]).
    assert (E2 : u = (64 + ((b - 8) * 16 + c) * 16 + d) * 1024 + (((y - 12) * 16 + z) * 16 + w)) by congruence.
    rewrite E2. f_equal; [f_equal; lia|lia].
  - intros (b & c & d & y & z & w & A & B & B2 & C & D & X & Y & Y2 & Z & W & ->).
    apply hex_unhex in A, B, C, D, X, Y, Z, W. rewrite A, B, C, D, X, Y, Z, W.
    rewrite Nat.eqb_refl. destruct (Nat.leb_spec 8 (8 + b)); [|lia]. destruct (Nat.ltb_spec (8 + b) 12); [|lia].
    destruct (Nat.leb_spec 12 (12 + y)); [|lia]. cbn [andb]. f_equal. replace (8 + b - 8) with b by lia.
    replace (12 + y - 12) with y by lia. f_equal; [f_equal; lia|lia].
Qed.
(** What is read as a pair is not read as one unit. *)
Lemma pair_not_unit h1 h2 h3 h4 b : Hex h1 13 -> Hex h2 (8 + b) -> unit_of h1 h2 h3 h4 = None.
Proof.
  intros A B. unfold unit_of. apply hex_unhex in A, B. rewrite A, B. destruct (unhex h3); [|reflexivity]. destruct (unhex h4); reflexivity.
Qed.

Lemma char_body c s r x t : Char c s -> string_body r = Some (x, t) -> string_body (s ++ r) = Some (c :: x, t).
Proof.
  intros H R. destruct H as [c H1 H2 H3|c e H|h1 h2 h3 h4 a b c d A B C D N|h1 h2 h3 h4 k1 k2 k3 k4 b c d y z w A B B2 C D X Y Y2 Z W]; cbn [List.app string_body].
  - apply Nat.eqb_neq in H2, H3. rewrite H2, H3. apply Nat.ltb_ge in H1. rewrite H1, R. reflexivity.
  - apply unescape_iff in H. cbn [Nat.eqb]. destruct (Nat.eqb_spec e 117) as [->|]; [discriminate H|]. rewrite H, R. reflexivity.
  - cbn [Nat.eqb]. assert (U : unit_of h1 h2 h3 h4 = Some (((a * 16 + b) * 16 + c) * 16 + d)) by (apply unit_of_iff; exists a, b, c, d; auto 10).
    rewrite U, R. reflexivity.
  - rewrite (pair_not_unit h1 h2 h3 h4 b A B).
    assert (U : pair_of h1 h2 h3 h4 k1 k2 k3 k4 = Some ((64 + b * 256 + c * 16 + d) * 1024 + (y * 256 + z * 16 + w)))
      by (apply pair_of_iff; exists b, c, d, y, z, w; do 10 (split; [assumption|]); reflexivity).
    cbn [Nat.eqb andb]. rewrite U, R. reflexivity.
Qed.
Lemma body_of x ss t : Forall2 Char x ss -> string_body (concat ss ++ 34 :: t) = Some (x, t).
Proof.
  induction 1 as [|c s x ss H _ IH]; [reflexivity|]. cbn [concat]. rewrite <- app_assoc. apply char_body; assumption.
Qed.

Lemma body_sound : forall n s x t, length s <= n -> string_body s = Some (x, t) -> exists ss, Forall2 Char x ss /\ s = concat ss ++ 34 :: t.
Proof.
  induction n as [|n IH]; intros s x t L; [destruct s; [discriminate|cbn in L; lia]|].
  destruct s as [|c r]; [discriminate|]. cbn [string_body length] in *.
  assert (G : forall u pre r0, Char u pre -> length r0 <= n -> more u (string_body r0) = Some (x, t) ->
    exists ss, Forall2 Char x ss /\ pre ++ r0 = concat ss ++ 34 :: t).
  { intros u pre r0 Hu L0. unfold more. destruct (string_body r0) as [[y t']|] eqn:R; [|discriminate]. intros E.
    assert (x = u :: y) by congruence. assert (t' = t) by congruence. subst x t'. clear E.
    destruct (IH r0 y t L0 R) as (ss & F & ->). exists (pre :: ss). split; [constructor; assumption|].
    cbn [concat]. rewrite app_assoc. reflexivity. }
  destruct (Nat.eqb_spec c 34) as [->|N1].
  { intros [= <- <-]. exists []. split; [constructor|reflexivity]. }
  destruct (Nat.eqb_spec c 92) as [->|N2].
  - destruct r as [|e r1]; [discriminate|]. cbn [length] in L. destruct (Nat.eqb_spec e 117) as [->|N3].
    + destruct r1 as [|h1 [|h2 [|h3 [|h4 r2]]]]; try discriminate. cbn [length] in L.
      destruct (unit_of h1 h2 h3 h4) as [u|] eqn:U.
      * apply unit_of_iff in U. destruct U as (a & b & c & d & A & B & C & D & N & ->). intros E.
        apply (G (((a * 16 + b) * 16 + c) * 16 + d) [92; 117; h1; h2; h3; h4] r2); [constructor; assumption|lia|exact E].
      * destruct r2 as [|q [|v [|k1 [|k2 [|k3 [|k4 r3]]]]]]; try discriminate. cbn [length] in L.
        destruct (Nat.eqb_spec q 92) as [->|]; [|discriminate]. destruct (Nat.eqb_spec v 117) as [->|]; [|discriminate].
        cbn [andb]. destruct (pair_of h1 h2 h3 h4 k1 k2 k3 k4) as [u|] eqn:P; [|discriminate]. intros E.
        apply (G u [92; 117; h1; h2; h3; h4; 92; 117; k1; k2; k3; k4] r3); [|lia|exact E].
        apply pair_of_iff in P. destruct P as (b & c & d & y & z & w & A & B & B2 & C & D & X & Y & Y2 & Z & W & ->).
        apply ch_pair; assumption.
    + destruct (unescape e) as [u|] eqn:U; [|discriminate]. apply unescape_iff in U. intros E.
      apply (G u [92; e] r1); [constructor; exact U|lia|exact E].
  - destruct (Nat.ltb_spec c 32) as [|H]; [discriminate|]. intros E. apply (G c [c] r); [constructor; assumption|lia|exact E].
Qed.

Lemma quoted_body x s t : Quoted x s -> exists r, s ++ t = 34 :: r /\ string_body r = Some (x, t).
Proof.
  intros (ss & F & ->). exists (concat ss ++ 34 :: t). split; [|apply body_of; exact F].
  cbn [List.app]. rewrite <- app_assoc. reflexivity.
Qed.
Lemma body_quoted r x t : string_body r = Some (x, t) -> exists s, Quoted x s /\ 34 :: r = s ++ t.
Proof.
  intros H. destruct (body_sound _ r x t (le_n _) H) as (ss & F & ->). exists (34 :: concat ss ++ [34]).
  split; [exists ss; auto|]. cbn [List.app]. rewrite <- app_assoc. reflexivity.
Qed.

(** ** Numbers *)
Lemma is_digit_iff c : is_digit c = true <-> 48 <= c <= 57.
Proof. unfold is_digit. rewrite andb_true_iff, !Nat.leb_le. tauto. Qed.
(** Not the rest of a number. *)
Definition Ends (t : str) : Prop := match t with c :: _ => ~ (48 <= c <= 57) /\ c <> 46 /\ c <> 101 /\ c <> 69 | [] => True end.
Definition NoDigit (t : str) : Prop := match t with c :: _ => ~ (48 <= c <= 57) | [] => True end.
Lemma digits_of_all s t : Forall (fun c => 48 <= c <= 57) s -> NoDigit t -> digits (s ++ t) = (s, t).
Proof.
  intros H E. induction H as [|c s C _ IH]; cbn [List.app digits].
  - destruct t as [|c t]; [reflexivity|]. cbn [digits]. destruct (is_digit c) eqn:D; [|reflexivity].
    apply is_digit_iff in D. contradiction.
  - apply is_digit_iff in C. rewrite C, IH. reflexivity.
Qed.
Lemma digits_split s : let (d, t) := digits s in s = d ++ t /\ Forall (fun c => 48 <= c <= 57) d.
Proof.
  induction s as [|c s IH]; cbn [digits]; [split; [reflexivity|constructor]|]. destruct (is_digit c) eqn:C.
  - destruct (digits s) as [d t]. destruct IH as [-> F]. split; [reflexivity|]. constructor; [apply is_digit_iff; exact C|exact F].
  - split; [reflexivity|constructor].
Qed.
Lemma natural_of n s t : Numeral n s -> NoDigit t -> natural (s ++ t) = Some (s, t).
Proof.
  intros ((F & N) & Z & _) E. unfold natural. rewrite digits_of_all by assumption.
  destruct s as [|c [|d s]]; [contradiction|reflexivity|]. destruct (Nat.eqb_spec c 48) as [->|]; [|reflexivity].
  specialize (Z _ eq_refl). discriminate Z.
Qed.
Lemma natural_sound s ds t : natural s = Some (ds, t) -> Numeral (amount ds) ds /\ s = ds ++ t.
Proof.
  unfold natural. pose proof (digits_split s) as S0. destruct (digits s) as [d u]. destruct S0 as [-> F].
  destruct d as [|c [|c' d]]; [discriminate| |].
  - intros E. assert (ds = [c] /\ u = t) as [-> ->] by (split; congruence). split; [|reflexivity]. split; [split; [exact F|discriminate]|].
    split; [|reflexivity]. intros r [= _ <-]. reflexivity.
  - destruct (Nat.eqb_spec c 48) as [->|N]; [discriminate|]. intros E. assert (ds = c :: c' :: d /\ u = t) as [-> ->] by (split; congruence).
    split; [|reflexivity]. split; [split; [exact F|discriminate]|]. split; [|reflexivity]. intros r [= E0 _]. contradiction.
Qed.
(** No point follows; no letter of an exponent follows. *)
Definition NoPoint (t : str) : Prop := match t with c :: _ => c <> 46 | [] => True end.
Definition NoLetter (t : str) : Prop := match t with c :: _ => c <> 101 /\ c <> 69 | [] => True end.
Lemma fraction_of f ft t : Fraction f ft -> NoDigit t -> (ft = [] -> NoPoint t) -> fraction (ft ++ t) = Some (f, t).
Proof.
  intros H E P. destruct H as [|f [F N]].
  - specialize (P eq_refl). destruct t as [|c t]; [reflexivity|]. cbn [List.app fraction]. apply Nat.eqb_neq in P. rewrite P. reflexivity.
  - cbn [List.app fraction Nat.eqb]. rewrite digits_of_all by assumption. destruct f; [contradiction|reflexivity].
Qed.
Lemma fraction_sound s f t : fraction s = Some (f, t) -> exists ft, Fraction f ft /\ s = ft ++ t /\ (f = [] <-> ft = []).
Proof.
  unfold fraction. destruct s as [|c r].
  - intros E. assert (f = [] /\ t = []) as [-> ->] by (split; congruence). exists []. split; [constructor|]. split; [reflexivity|tauto].
  - destruct (Nat.eqb_spec c 46) as [->|N].
    + pose proof (digits_split r) as S0. destruct (digits r) as [d u]. destruct S0 as [-> F]. destruct d as [|a d]; [discriminate|].
      intros E. assert (f = a :: d /\ u = t) as [-> ->] by (split; congruence). exists (46 :: a :: d).
      split; [constructor; split; [exact F|discriminate]|]. split; [reflexivity|]. split; discriminate.
    + intros E. assert (f = [] /\ t = c :: r) as [-> ->] by (split; congruence). exists []. split; [constructor|]. split; [reflexivity|tauto].
Qed.
Lemma exponent_of e et t : Exponent e et -> Ends t -> exists x, exponent (et ++ t) = Some (x, t) /\
  (x = None /\ et = [] /\ e = 0%Z \/ x = Some e /\ et <> []).
Proof.
  intros H E. assert (ND : NoDigit t) by (destruct t as [|c t]; [exact Logic.I|exact (proj1 E)]).
  destruct H as [|c sg k ds C K [F N]].
  - exists None. split; [|auto]. destruct t as [|c t]; [reflexivity|]. cbn [List.app exponent]. destruct E as (_ & _ & E1 & E2).
    apply Nat.eqb_neq in E1, E2. rewrite E1, E2. reflexivity.
  - exists (Some (k * Z.of_nat (amount ds))%Z). split; [|right; split; [reflexivity|discriminate]]. cbn [List.app exponent].
    replace ((c =? 101) || (c =? 69)) with true by (cbn [In] in C; destruct C as [<-|[<-|[]]]; reflexivity).
    rewrite <- app_assoc. cbn [In] in K.
    assert (X : digits (ds ++ t) = (ds, t)) by (apply digits_of_all; assumption).
    assert (Y : forall d : bool, match ds with [] => None | _ :: _ => Some (Some (if d then (- Z.of_nat (amount ds))%Z else Z.of_nat (amount ds)), t) end =
       Some (Some (if d then (- Z.of_nat (amount ds))%Z else Z.of_nat (amount ds)), t)) by (destruct ds; [contradiction|reflexivity]).
    destruct K as [K|[K|[K|[]]]]; injection K as <- <-.
    + cbn [List.app]. destruct ds as [|a ds]; [contradiction|]. cbn [List.app] in *. inversion F as [|? ? A _]; subst.
      replace (a =? 45) with false by (symmetry; apply Nat.eqb_neq; lia). replace (a =? 43) with false by (symmetry; apply Nat.eqb_neq; lia).
      rewrite X. rewrite Z.mul_1_l. reflexivity.
    + cbn [List.app Nat.eqb]. rewrite X. rewrite Z.mul_1_l. apply (Y false).
    + cbn [List.app Nat.eqb]. rewrite X. replace (-1 * Z.of_nat (amount ds))%Z with (- Z.of_nat (amount ds))%Z by lia. apply (Y true).
Qed.
Lemma exponent_sound s x t : exponent s = Some (x, t) -> exists et, s = et ++ t /\
  (x = None /\ et = [] \/ exists e, x = Some e /\ Exponent e et /\ et <> []).
Proof.
  assert (Z0 : forall s : str, Some (None, s) = Some (x, t) -> exists et, s = et ++ t /\
    (x = None /\ et = [] \/ exists e, x = Some e /\ Exponent e et /\ et <> [])).
  { intros u E. assert (x = None /\ u = t) as [-> ->] by (split; congruence). exists []. split; [reflexivity|auto]. }
  unfold exponent. destruct s as [|c r]; [apply Z0|]. destruct ((c =? 101) || (c =? 69)) eqn:C; [|apply Z0]. clear Z0.
  assert (Ci : In c [69; 101]).
  { apply orb_true_iff in C. rewrite !Nat.eqb_eq in C. cbn. destruct C; auto. }
  assert (G : forall sg k r1 (neg : bool), In (sg, k) [([], 1%Z); ([43], 1%Z); ([45], (-1)%Z)] -> r = sg ++ r1 -> k = (if neg then (-1)%Z else 1%Z) ->
    match digits r1 with ([], _) => None | ((_ :: _) as ds, t) => Some (Some (if neg then (- Z.of_nat (amount ds))%Z else Z.of_nat (amount ds)), t) end = Some (x, t) ->
    exists et, c :: r = et ++ t /\ (x = None /\ et = [] \/ exists e, x = Some e /\ Exponent e et /\ et <> [])).
  { intros sg k r1 neg K -> Ek. pose proof (digits_split r1) as S0. destruct (digits r1) as [d u]. destruct S0 as [-> F].
    destruct d as [|a d]; [discriminate|]. intros E.
    assert (u = t) as -> by congruence.
    assert (Ex : x = Some (k * Z.of_nat (amount (a :: d)))%Z).
    { remember (amount (a :: d)) as am eqn:Q. clear Q. injection E as E. subst k x. f_equal. destruct neg; lia. }
    exists (c :: sg ++ a :: d). split; [cbn [List.app]; rewrite <- app_assoc; reflexivity|]. right.
    exists (k * Z.of_nat (amount (a :: d)))%Z. split; [exact Ex|]. split; [|discriminate]. constructor; [exact Ci|exact K|split; [exact F|discriminate]]. }
  destruct r as [|d r']; [apply (G [] 1%Z [] false); [cbn; auto|reflexivity|reflexivity]|].
  destruct (Nat.eqb_spec d 45) as [->|N1]; [apply (G [45] (-1)%Z r' true); [cbn; auto|reflexivity|reflexivity]|].
  destruct (Nat.eqb_spec d 43) as [->|N2]; [apply (G [43] 1%Z r' false); [cbn; auto|reflexivity|reflexivity]|].
  apply (G [] 1%Z (d :: r') false); [cbn; auto|reflexivity|reflexivity].
Qed.

Lemma frac_head f ft u : Fraction f ft -> NoDigit u -> NoDigit (ft ++ u).
Proof. intros [|g G] N; [exact N|]. cbn. lia. Qed.
Lemma exp_head e et t : Exponent e et -> Ends t -> NoDigit (et ++ t) /\ NoPoint (et ++ t).
Proof.
  intros [|c sg k ds C _ _] E; cbn [List.app].
  - destruct t as [|c t]; [cbn; auto|]. destruct E as (E1 & E2 & _). cbn. auto.
  - cbn [In] in C. cbn. lia.
Qed.
(** The parts of a number one after another. *)
Lemma number_parts b w m f ft e et t : Numeral m w -> Fraction f ft -> Exponent e et -> Ends t ->
  exists x, number (sign b ++ w ++ ft ++ et ++ t) = Some (number_of b w f x, t) /\ (x = None /\ et = [] /\ e = 0%Z \/ x = Some e /\ et <> []).
Proof.
  intros W F X E. destruct (exponent_of e et t X E) as (x & Ex & Hx). exists x. split; [|exact Hx]. clear Hx.
  destruct (exp_head e et t X E) as [H1 H2]. unfold number.
  assert (M : minus (sign b ++ w ++ ft ++ et ++ t) = (b, w ++ ft ++ et ++ t)).
  { destruct b; [reflexivity|]. cbn [sign List.app]. destruct W as ((Fw & Nw) & _). destruct w as [|c w]; [contradiction|]. cbn [List.app minus].
    inversion Fw; subst. replace (c =? 45) with false by (symmetry; apply Nat.eqb_neq; lia). reflexivity. }
  rewrite M, (natural_of m w _ W) by (apply (frac_head f); assumption). rewrite (fraction_of f ft _ F H1) by auto. rewrite Ex. reflexivity.
Qed.
Lemma fraction_nil f ft : Fraction f ft -> (f = [] <-> ft = []).
Proof. intros [|g [_ N]]; [tauto|]. split; [contradiction|discriminate]. Qed.
Lemma numeral_number j s t : Number j s -> Ends t -> number (s ++ t) = Some (j, t).
Proof.
  intros H E. destruct H as [n s N|n s N| |b w m f ft e et W F X NE].
  - destruct (number_parts false s n [] [] 0%Z [] t N no_fraction no_exponent E) as (x & P & [(-> & _)|(-> & []) ]); [|reflexivity].
    cbn [sign List.app] in P. rewrite P. cbn [number_of]. destruct N as (_ & _ & ->). reflexivity.
  - destruct (number_parts true s _ [] [] 0%Z [] t N no_fraction no_exponent E) as (x & P & [(-> & _)|(-> & []) ]); [|reflexivity].
    cbn [sign List.app] in P. cbn [List.app]. rewrite P. cbn [number_of]. destruct N as (_ & _ & N). change (amount_of s) with (amount s). rewrite <- N. reflexivity.
  - assert (N : Numeral 0 [48]). { split; [split; [constructor; [lia|constructor]|discriminate]|]. split; [intros r [= <-]; reflexivity|reflexivity]. }
    destruct (number_parts true [48] _ [] [] 0%Z [] t N no_fraction no_exponent E) as (x & P & [(-> & _)|(-> & []) ]); [|reflexivity].
    exact P.
  - rewrite <- !app_assoc. destruct (number_parts b w m f ft e et t W F X E) as (x & -> & H). do 2 f_equal.
    assert (L : amount_of (List.app w f) = amount (w ++ f)) by reflexivity.
    destruct H as [(-> & -> & ->)|(-> & H)].
    + rewrite app_nil_r in NE. destruct f as [|a f]; [|reflexivity]. exfalso. apply NE, (fraction_nil _ _ F). reflexivity.
    + destruct f as [|a f]; reflexivity.
Qed.
Lemma number_numeral j s t : number s = Some (j, t) -> exists ds, Number j ds /\ s = ds ++ t.
Proof.
  unfold number. destruct (minus s) as [b r] eqn:M. destruct (natural r) as [[w u]|] eqn:N; [|discriminate].
  apply natural_sound in N. destruct N as [N ->]. destruct (fraction u) as [[f u1]|] eqn:F; [|discriminate].
  apply fraction_sound in F. destruct F as (ft & F & -> & Fn). destruct (exponent u1) as [[x u2]|] eqn:X; [|discriminate].
  apply exponent_sound in X. destruct X as (et & -> & X). intros E.
  assert (u2 = t) as -> by congruence. assert (Ej : j = number_of b w f x) by congruence. clear E.
  assert (s = sign b ++ w ++ ft ++ et ++ t) as ->.
  { unfold minus in M. destruct s as [|c s].
    - apply pair_equal_spec in M. destruct M as [<- M]. exact M.
    - destruct (Nat.eqb_spec c 45) as [->|]; apply pair_equal_spec in M; destruct M as [<- M]; [cbn; rewrite M; reflexivity|exact M]. }
  exists (sign b ++ w ++ ft ++ et). split; [|rewrite <- !app_assoc; reflexivity]. subst j.
  assert (R : forall e, Exponent e et -> ft ++ et <> [] -> Number (JReal b (amount (w ++ f)) (e - Z.of_nat (length f))) (sign b ++ w ++ ft ++ et)).
  { intros e Xe NE. apply (nu_real b w (amount w) f ft e et); assumption. }
  destruct X as [(-> & ->)|(e & -> & Xe & Ne)].
  - destruct f as [|a f].
    + rewrite (proj1 Fn eq_refl). cbn [List.app number_of]. rewrite app_nil_r. change (amount_of w) with (amount w). destruct b; cbn [sign List.app].
      * destruct (amount w) as [|n] eqn:A; [|constructor; exact N].
        assert (w = [48]) as ->; [|constructor].
        destruct N as ((Fw & Nw) & Zw & _). destruct w as [|c w]; [contradiction|]. inversion Fw as [|? ? C Fr]; subst.
        assert (G : forall l a, a <= fold_left (fun a c => 10 * a + (c - 48)) l a).
        { induction l as [|y l IH]; intros a; [apply le_n|]. cbn [fold_left]. specialize (IH (10 * a + (y - 48))). lia. }
        unfold amount in A. cbn [fold_left] in A. specialize (G w (10 * 0 + (c - 48))). assert (c = 48) as -> by lia. rewrite (Zw w eq_refl). reflexivity.
      * constructor. exact N.
    + apply (R 0%Z no_exponent). rewrite app_nil_r. intros Z. apply Fn in Z. discriminate Z.
  - replace (number_of b w f (Some e)) with (JReal b (amount (w ++ f)) (e - Z.of_nat (length f))) by (destruct f; reflexivity).
    apply R; [exact Xe|]. intros Z. apply app_eq_nil in Z. tauto.
Qed.

(** ** The reader takes what the grammar allows *)
Lemma after_app w s : after w (w ++ s) = Some s.
Proof. induction w as [|a w IH]; [reflexivity|]. cbn [List.app after]. rewrite Nat.eqb_refl. exact IH. Qed.
Lemma after_sound w : forall s t, after w s = Some t -> s = w ++ t.
Proof.
  induction w as [|a w IH]; intros s t; cbn [after]; [intros [= ->]; reflexivity|]. destruct s as [|b s]; [discriminate|].
  destruct (Nat.eqb_spec a b) as [->|]; [|discriminate]. intros H. apply IH in H. cbn. congruence.
Qed.


(** The first character of a number, and of a text. *)
Lemma number_first j s : Number j s -> exists c r, s = c :: r /\ (48 <= c <= 57 \/ c = 45) /\ IsNumber j.
Proof.
  assert (G : forall m w r, Numeral m w -> exists c r', w ++ r = c :: r' /\ (48 <= c <= 57 \/ c = 45)).
  { intros m w r ((F & N) & _). destruct w as [|c w]; [contradiction|]. inversion F; subst. exists c, (w ++ r). auto. }
  intros [n t N|n t N| |b w m f ft e et W F X NE].
  - destruct (G n t [] N) as (c & r & E & C). rewrite app_nil_r in E. exists c, r. cbn. auto.
  - exists 45, t. cbn. auto.
  - exists 45, [48]. cbn. auto.
  - destruct b; cbn [sign List.app]; [exists 45, (w ++ ft ++ et); cbn; auto|]. destruct (G m w (ft ++ et) W) as (c & r & E & C). exists c, r. cbn. auto.
Qed.
Lemma text_black j s : Text j s -> exists c r, s = c :: r /\ is_space c = false /\ c <> 93 /\ c <> 125 /\ (48 <= c <= 57 \/ c = 45 -> IsNumber j).
Proof.
  assert (G : forall c r, In c [110; 116; 102; 34; 91; 123] ->
    exists c' r', c :: r = c' :: r' /\ is_space c' = false /\ c' <> 93 /\ c' <> 125 /\ (48 <= c' <= 57 \/ c' = 45 -> IsNumber j)).
  { intros c r H. exists c, r. split; [reflexivity|]. cbn [In] in H.
    split; [destruct (is_space c) eqn:E; [apply is_space_iff in E; cbn [In] in E; lia|reflexivity]|].
    split; [lia|]. split; [lia|]. intros L. exfalso. lia. }
  intros H. destruct H as [| | |j s N|x s (ss & F & ->)|w W|l s E|w W|l s M]; try (apply G; cbn; tauto). clear G.
  destruct (number_first j s N) as (c & r & -> & C & K). exists c, r. split; [reflexivity|].
  split; [|split; [lia|split; [lia|auto]]]. destruct (is_space c) eqn:E; [|reflexivity].
  apply is_space_iff in E. cbn [In] in E. lia.
Qed.

Lemma space_ends w t : Space w -> Ends t -> Ends (w ++ t).
Proof.
  intros W E. destruct W as [|c w C W]; [exact E|]. cbn [List.app Ends]. cbn [In] in C. lia.
Qed.

Definition complete_text j s := forall fuel w t, length s <= fuel -> Space w -> (IsNumber j -> Ends t) -> value (S fuel) (w ++ s ++ t) = Some (j, t).
Definition complete_padded j s := forall fuel t, length s <= fuel -> (IsNumber j -> Ends t) ->
  exists w', Space w' /\ value (S fuel) (s ++ t) = Some (j, w' ++ t).
Definition complete_elements l s := forall fuel k t, length s <= fuel -> length s <= k ->
  (exists d r, skip (s ++ 93 :: t) = d :: r /\ d <> 93) /\ elements (value (S fuel)) (S k) (s ++ 93 :: t) = Some (l, t).
Definition complete_members l s := forall fuel k t, length s <= fuel -> length s <= k ->
  (exists d r, skip (s ++ 125 :: t) = d :: r /\ d <> 125) /\ members (value (S fuel)) (S k) (s ++ 125 :: t) = Some (l, t).

Lemma value_unfold fuel s : value (S fuel) s =
    match skip s with
    | [] => None
    | c :: r =>
      if c =? 34 then match string_body r with Some (x, t) => Some (JStr x, t) | None => None end
      else if c =? 91 then
        match skip r with
        | [] => None
        | d :: r' => if d =? 93 then Some (JArr [], r')
                     else match elements (value fuel) (length s) r with Some (l, t) => Some (JArr l, t) | None => None end
        end
      else if c =? 123 then
        match skip r with
        | [] => None
        | d :: r' => if d =? 125 then Some (JObj [], r')
                     else match members (value fuel) (length s) r with Some (l, t) => Some (JObj l, t) | None => None end
        end
      else if is_digit c || (c =? 45) then number (c :: r)
      else if c =? 110 then option_map (pair JNull) (after (lit "ull") r)
      else if c =? 116 then option_map (pair (JBool true)) (after (lit "rue") r)
      else if c =? 102 then option_map (pair (JBool false)) (after (lit "alse") r)
      else None
    end.
Proof. reflexivity. Qed.

Lemma padded_first j s t : Padded j s -> exists d r, skip (s ++ t) = d :: r /\ d <> 93 /\ d <> 125.
Proof.
  destruct 1 as [w j s w' W T W']. destruct (text_black j s T) as (c & r & -> & B & N1 & N2 & _).
  exists c, (r ++ w' ++ t). split; [|auto]. rewrite <- !app_assoc, skip_space by exact W. cbn [List.app]. apply skip_black. exact B.
Qed.
Lemma skip_padded w t d r : Space w -> skip t = d :: r -> skip (w ++ t) = d :: r.
Proof. intros W E. rewrite skip_space; assumption. Qed.

Lemma key_ok w k s w' t : Space w -> Quoted k s -> Space w' -> key ((w ++ s ++ w' ++ 58 :: t)) = Some (k, t).
Proof.
  intros W Q W'. unfold key. rewrite skip_space by exact W. destruct (quoted_body k s (w' ++ 58 :: t) Q) as (r & -> & B).
  cbn [skip is_space Nat.eqb orb]. rewrite B, skip_space by exact W'. reflexivity.
Qed.

Lemma reader_complete :
  (forall j s, Text j s -> complete_text j s) /\ (forall j s, Padded j s -> complete_padded j s) /\
  (forall l s, Elements l s -> complete_elements l s) /\ (forall l s, Members l s -> complete_members l s).
Proof.
  apply text_mutind; unfold complete_text, complete_padded, complete_elements, complete_members.
  - intros fuel w t _ W _. rewrite value_unfold, skip_space by exact W. reflexivity.
  - intros fuel w t _ W _. rewrite value_unfold, skip_space by exact W. reflexivity.
  - intros fuel w t _ W _. rewrite value_unfold, skip_space by exact W. reflexivity.
  - intros j s N fuel w t _ W E. rewrite value_unfold, skip_space by exact W.
    destruct (text_black _ _ (tx_num j s N)) as (c0 & r0 & E0 & B & _).
    destruct (number_first j s N) as (c & r & -> & C & K). pose proof (numeral_number j _ t N (E K)) as NN.
    injection E0 as <- <-. cbn [List.app] in *. rewrite skip_black by exact B.
    replace (c =? 34) with false by (symmetry; apply Nat.eqb_neq; lia). replace (c =? 91) with false by (symmetry; apply Nat.eqb_neq; lia).
    replace (c =? 123) with false by (symmetry; apply Nat.eqb_neq; lia).
    replace (is_digit c || (c =? 45)) with true; [exact NN|].
    symmetry. apply orb_true_iff. rewrite is_digit_iff, Nat.eqb_eq. exact C.
  - intros x s Q fuel w t _ W _. rewrite value_unfold, skip_space by exact W. destruct (quoted_body x s t Q) as (r & -> & B).
    cbn [skip is_space Nat.eqb orb]. rewrite B. reflexivity.
  - intros w W fuel w0 t _ W0 _. rewrite value_unfold, skip_space by exact W0. cbn [List.app skip is_space Nat.eqb orb].
    rewrite <- app_assoc, skip_space by exact W. reflexivity.
  - intros l s E IH fuel w t L W _. rewrite value_unfold. remember (length (w ++ (91 :: s ++ [93]) ++ t)) as k eqn:K. rewrite skip_space by exact W.
    cbn [List.app skip is_space Nat.eqb orb]. rewrite <- app_assoc. cbn [List.app].
    rewrite !app_length in K. cbn [length] in K, L. rewrite app_length in K, L. cbn [length] in K, L.
    destruct fuel as [|fuel]; [lia|]. destruct k as [|k]; [lia|].
    destruct (IH fuel k t) as [(d & r & -> & D) ->]; [lia|lia|]. apply Nat.eqb_neq in D. rewrite D. reflexivity.
  - intros w W fuel w0 t _ W0 _. rewrite value_unfold, skip_space by exact W0. cbn [List.app skip is_space Nat.eqb orb].
    rewrite <- app_assoc, skip_space by exact W. reflexivity.
  - intros l s E IH fuel w t L W _. rewrite value_unfold. remember (length (w ++ (123 :: s ++ [125]) ++ t)) as k eqn:K. rewrite skip_space by exact W.
    cbn [List.app skip is_space Nat.eqb orb]. rewrite <- app_assoc. cbn [List.app].
    rewrite !app_length in K. cbn [length] in K, L. rewrite app_length in K, L. cbn [length] in K, L.
    destruct fuel as [|fuel]; [lia|]. destruct k as [|k]; [lia|].
    destruct (IH fuel k t) as [(d & r & -> & D) ->]; [lia|lia|]. apply Nat.eqb_neq in D. rewrite D. reflexivity.
  - intros w j s w' W T IH W' fuel t L E. exists w'. split; [exact W'|]. rewrite <- !app_assoc. rewrite !app_length in L.
    apply IH; [lia|exact W|]. intros N. apply space_ends; auto.
  - intros j s P IH fuel k t L K. split.
    + destruct (padded_first j s (93 :: t) P) as (d & r & E & N & _). eauto.
    + destruct (IH fuel (93 :: t) L) as (w' & W' & V); [intros _; cbn; lia|]. cbn [elements]. rewrite V, skip_space by exact W'. reflexivity.
  - intros j s l u P IH E IHl fuel k t L K. rewrite <- app_assoc. cbn [List.app]. rewrite app_length in L, K. cbn [length] in L, K. split.
    + destruct (padded_first j s (44 :: u ++ 93 :: t) P) as (d & r & E1 & N & _). eauto.
    + destruct (IH fuel (44 :: u ++ 93 :: t)) as (w' & W' & V); [lia|intros _; cbn; lia|].
      destruct k as [|k]; [lia|]. destruct (IHl fuel k t) as [_ Hl]; [lia|lia|].
      remember (S k) as k1 eqn:Ek. cbn [elements]. rewrite V, skip_space by exact W'. cbn [skip is_space Nat.eqb orb]. subst k1. rewrite Hl. reflexivity.
  - intros n j s w w' u W Q W' P IH fuel k t L K. rewrite <- !app_assoc in *. cbn [List.app] in *.
    rewrite !app_length in L, K. cbn [length] in L, K. split.
    + destruct (quoted_body n s (w' ++ 58 :: u ++ 125 :: t) Q) as (r & E & _). exists 34, r. split; [|discriminate].
      rewrite skip_space, E by exact W. reflexivity.
    + destruct (IH fuel (125 :: t)) as (w1 & W1 & V); [lia|intros _; cbn; lia|].
      cbn [members]. rewrite (key_ok w n s w' _ W Q W'). rewrite V, skip_space by exact W1. reflexivity.
  - intros n j s w w' u l v W Q W' P IH M IHm fuel k t L K. rewrite <- !app_assoc in *. cbn [List.app] in *.
    rewrite <- ?app_assoc in *. cbn [List.app] in *.
    rewrite !app_length in L, K. cbn [length] in L, K. rewrite ?app_length in L, K. cbn [length] in L, K. split.
    + destruct (quoted_body n s (w' ++ 58 :: u ++ 44 :: v ++ 125 :: t) Q) as (r & E & _). exists 34, r. split; [|discriminate].
      rewrite skip_space, E by exact W. reflexivity.
    + destruct (IH fuel (44 :: v ++ 125 :: t)) as (w1 & W1 & V); [lia|intros _; cbn; lia|].
      destruct k as [|k]; [lia|]. destruct (IHm fuel k t) as [_ Hm]; [lia|lia|].
      remember (S k) as k1 eqn:Ek. cbn [members]. rewrite (key_ok w n s w' _ W Q W'). rewrite V, skip_space by exact W1.
      cbn [skip is_space Nat.eqb orb]. subst k1. rewrite Hm. reflexivity.
Qed.

(** ** And only that *)
Definition sound_at (val : str -> option (json * str)) : Prop :=
  forall s j t, val s = Some (j, t) -> exists w u, Space w /\ Text j u /\ s = w ++ u ++ t.

Lemma elements_sound val : sound_at val -> forall k s l t, elements val k s = Some (l, t) -> exists u, Elements l u /\ s = u ++ 93 :: t.
Proof.
  intros V. induction k as [|k IH]; intros s l t; [discriminate|]. cbn [elements].
  destruct (val s) as [[j r]|] eqn:E; [|discriminate]. apply V in E. destruct E as (w & u & W & T & ->).
  destruct (skip_split r) as (w' & W' & Er). destruct (skip r) as [|c r'] eqn:Sk; [discriminate|].
  destruct (Nat.eqb_spec c 44) as [->|N].
  - unfold more. destruct (elements val k r') as [[l' t']|] eqn:El; [|discriminate]. intros [= <- <-]. apply IH in El.
    destruct El as (u' & El & ->). exists ((w ++ u ++ w') ++ 44 :: u'). split; [constructor; [constructor; assumption|exact El]|].
    rewrite Er. rewrite <- !app_assoc. reflexivity.
  - destruct (Nat.eqb_spec c 93) as [->|]; [|discriminate]. intros [= <- <-]. exists (w ++ u ++ w').
    split; [constructor; constructor; assumption|]. rewrite Er, <- !app_assoc. reflexivity.
Qed.
Lemma key_sound s k t : key s = Some (k, t) -> exists w q w', Space w /\ Quoted k q /\ Space w' /\ s = w ++ q ++ w' ++ 58 :: t.
Proof.
  unfold key. destruct (skip_split s) as (w & W & E). destruct (skip s) as [|c r]; [discriminate|].
  destruct (Nat.eqb_spec c 34) as [->|]; [|discriminate]. destruct (string_body r) as [[x r']|] eqn:B; [|discriminate].
  destruct (skip_split r') as (w' & W' & E'). destruct (skip r') as [|d r'']; [discriminate|].
  destruct (Nat.eqb_spec d 58) as [->|]; [|discriminate]. intros [= -> ->]. apply body_quoted in B. destruct B as (q & Q & Eq).
  exists w, q, w'. repeat (split; [assumption|]). rewrite E, Eq, E'. reflexivity.
Qed.
Lemma members_sound val : sound_at val -> forall k s l t, members val k s = Some (l, t) -> exists u, Members l u /\ s = u ++ 125 :: t.
Proof.
  intros V. induction k as [|k IH]; intros s l t; [discriminate|]. cbn [members].
  destruct (key s) as [[n r0]|] eqn:K; [|discriminate]. apply key_sound in K. destruct K as (w1 & q & w2 & W1 & Q & W2 & ->).
  destruct (val r0) as [[j r]|] eqn:E; [|discriminate]. apply V in E. destruct E as (w & u & W & T & ->).
  destruct (skip_split r) as (w' & W' & Er). destruct (skip r) as [|c r'] eqn:Sk; [discriminate|].
  destruct (Nat.eqb_spec c 44) as [->|N].
  - unfold more. destruct (members val k r') as [[l' t']|] eqn:El; [|discriminate]. intros [= <- <-]. apply IH in El.
    destruct El as (u' & El & ->). exists ((w1 ++ q ++ w2 ++ 58 :: (w ++ u ++ w')) ++ 44 :: u').
    split; [constructor; try assumption; constructor; assumption|].
    rewrite Er. rewrite <- !app_assoc. cbn [List.app]. rewrite <- !app_assoc. reflexivity.
  - destruct (Nat.eqb_spec c 125) as [->|]; [|discriminate]. intros [= <- <-]. exists (w1 ++ q ++ w2 ++ 58 :: (w ++ u ++ w')).
    split; [constructor; try assumption; constructor; assumption|]. rewrite Er, <- !app_assoc. cbn [List.app]. rewrite <- !app_assoc. reflexivity.
Qed.

Lemma reader_sound : forall fuel, sound_at (value fuel).
Proof.
  induction fuel as [|fuel IH]; intros s j t; [discriminate|]. rewrite value_unfold.
  destruct (skip_split s) as (w & W & E). remember (length s) as k eqn:K. destruct (skip s) as [|c r]; [discriminate|].
  rewrite E. clear E K. intros H. exists w. cut (exists u, Text j u /\ c :: r = u ++ t).
  { intros (u & T & E). exists u. rewrite E. auto. }
  revert H.
  destruct (Nat.eqb_spec c 34) as [->|_].
  { destruct (string_body r) as [[x r']|] eqn:B; [|discriminate]. intros [= <- <-]. apply body_quoted in B.
    destruct B as (q & Q & B). exists q. split; [constructor; exact Q|exact B]. }
  destruct (Nat.eqb_spec c 91) as [->|_].
  { destruct (skip_split r) as (w' & W' & E). destruct (skip r) as [|d r']; [discriminate|]. destruct (Nat.eqb_spec d 93) as [->|_].
    - intros [= <- <-]. exists (91 :: w' ++ [93]). split; [constructor; exact W'|]. rewrite E. cbn [List.app]. rewrite <- app_assoc. reflexivity.
    - clear E. destruct (elements (value fuel) k r) as [[l r'']|] eqn:El; [|discriminate]. intros [= <- <-].
      apply (elements_sound _ IH) in El. destruct El as (u & El & ->). exists (91 :: u ++ [93]). split; [constructor; exact El|].
      cbn [List.app]. rewrite <- app_assoc. reflexivity. }
  destruct (Nat.eqb_spec c 123) as [->|_].
  { destruct (skip_split r) as (w' & W' & E). destruct (skip r) as [|d r']; [discriminate|]. destruct (Nat.eqb_spec d 125) as [->|_].
    - intros [= <- <-]. exists (123 :: w' ++ [125]). split; [constructor; exact W'|]. rewrite E. cbn [List.app]. rewrite <- app_assoc. reflexivity.
    - clear E. destruct (members (value fuel) k r) as [[l r'']|] eqn:El; [|discriminate]. intros [= <- <-].
      apply (members_sound _ IH) in El. destruct El as (u & El & ->). exists (123 :: u ++ [125]). split; [constructor; exact El|].
      cbn [List.app]. rewrite <- app_assoc. reflexivity. }
  destruct (is_digit c || (c =? 45)).
  { intros N. apply number_numeral in N. destruct N as (ds & N & E). exists ds. split; [constructor; exact N|exact E]. }
  destruct (Nat.eqb_spec c 110) as [->|_].
  { destruct (after (lit "ull") r) as [r'|] eqn:A; [|discriminate]. intros [= <- <-]. apply after_sound in A. subst r.
    exists (lit "null"). split; [constructor|reflexivity]. }
  destruct (Nat.eqb_spec c 116) as [->|_].
  { destruct (after (lit "rue") r) as [r'|] eqn:A; [|discriminate]. intros [= <- <-]. apply after_sound in A. subst r.
    exists (lit "true"). split; [constructor|reflexivity]. }
  destruct (Nat.eqb_spec c 102) as [->|_]; [|discriminate].
  destruct (after (lit "alse") r) as [r'|] eqn:A; [|discriminate]. intros [= <- <-]. apply after_sound in A. subst r.
  exists (lit "false"). split; [constructor|reflexivity].
Qed.

Lemma parse_iff s j : parse_text s = Some j <-> Padded j s.
Proof.
  unfold parse_text. split.
  - destruct (value _ s) as [[x r]|] eqn:V; [|discriminate]. apply reader_sound in V. destruct V as (w & u & W & T & ->).
    destruct (skip r) eqn:K; [|discriminate]. intros [= ->]. apply skip_nil in K. constructor; assumption.
  - intros P. destruct (proj1 (proj2 reader_complete) j s P (length s) [] (le_n _)) as (w' & W' & V); [intros _; exact Logic.I|].
    rewrite app_nil_r in V. rewrite V, app_nil_r, skip_all by exact W'. reflexivity.
Qed.

(** ** The writer *)
Lemma hex_digit_hex n : n < 16 -> Hex (hex_digit n) n.
Proof. intros L. unfold hex_digit, Hex. destruct (Nat.ltb_spec n 10); lia. Qed.
Lemma escape_char c : Char c (escape c).
Proof.
  unfold escape.
  destruct (Nat.eqb_spec c 34) as [->|N1]; [apply ch_letter; cbn; tauto|]. destruct (Nat.eqb_spec c 92) as [->|N2]; [apply ch_letter; cbn; tauto|].
  destruct (Nat.eqb_spec c 8) as [->|]; [apply ch_letter; cbn; tauto|]. destruct (Nat.eqb_spec c 9) as [->|]; [apply ch_letter; cbn; tauto|].
  destruct (Nat.eqb_spec c 10) as [->|]; [apply ch_letter; cbn; tauto|]. destruct (Nat.eqb_spec c 12) as [->|]; [apply ch_letter; cbn; tauto|].
  destruct (Nat.eqb_spec c 13) as [->|]; [apply ch_letter; cbn; tauto|]. destruct (Nat.ltb_spec c 32) as [L|L].
  - pose proof (Nat.div_mod c 16 ltac:(lia)) as D. pose proof (Nat.mod_upper_bound c 16 ltac:(lia)) as U.
    pose proof (Nat.div_lt_upper_bound c 16 16 ltac:(lia) ltac:(lia)) as V.
    replace c with (((0 * 16 + 0) * 16 + c / 16) * 16 + c mod 16) at 1 by lia.
    apply ch_hex; [left; lia|left; lia|apply hex_digit_hex; exact V|apply hex_digit_hex; exact U|lia].
  - apply ch_plain; assumption.
Qed.
Lemma quote_quoted s : Quoted s (quote s).
Proof.
  exists (map escape s). split; [|unfold quote; rewrite flat_map_concat_map; reflexivity].
  induction s as [|c s IH]; cbn [map]; constructor; [apply escape_char|exact IH].
Qed.

(** The digits of a number. *)
Lemma of_uint_fold d : forall acc, Nat.of_uint_acc d acc = fold_left (fun a c => 10 * a + (c - 48)) (digits_of d) acc.
Proof.
  assert (T : forall n, Nat.tail_mul 10 n = 10 * n) by (intros n; rewrite Nat.tail_mul_spec; reflexivity).
  induction d as [|d IH|d IH|d IH|d IH|d IH|d IH|d IH|d IH|d IH|d IH]; intros acc; cbn [Nat.of_uint_acc digits_of fold_left]; [reflexivity|..];
    rewrite IH, T; f_equal; lia.
Qed.
Lemma digits_of_digits d : Forall (fun c => 48 <= c <= 57) (digits_of d).
Proof. induction d; cbn [digits_of]; constructor; auto; lia. Qed.
Lemma decimal_numeral n : Numeral n (decimal n).
Proof.
  unfold decimal.
  assert (U : unorm (Nat.to_uint n) = Nat.to_uint n).
  { rewrite <- Unsigned.to_of, Unsigned.of_to. reflexivity. }
  assert (NN : Nat.to_uint n <> Nil).
  { intros E. rewrite E in U. discriminate U. }
  split; [split; [apply digits_of_digits|destruct (Nat.to_uint n); cbn [digits_of]; (contradiction || discriminate)]|]. split.
  - intros r E. destruct (Nat.to_uint n) as [|d|d|d|d|d|d|d|d|d|d]; cbn [digits_of] in E; try (discriminate E || (injection E as E; discriminate)).
    injection E as <-. destruct d as [|d|d|d|d|d|d|d|d|d|d]; try reflexivity; exfalso;
      match type of U with unorm (D0 ?x) = _ => 
        assert (B : nb_digits (unorm x) <= nb_digits x) by (apply DecimalFacts.nb_digits_unorm; discriminate);
        change (unorm (D0 x)) with (unorm x) in U; rewrite U in B; cbn [nb_digits] in B; lia
      end.
  - rewrite <- (Unsigned.of_to n) at 1. unfold Nat.of_uint. apply of_uint_fold.
Qed.

Lemma signed_exponent z : Exponent z (101 :: signed z).
Proof.
  unfold signed. destruct (Z.ltb_spec z 0) as [L|L].
  - destruct (decimal_numeral (Z.to_nat (- z))) as (D & _ & E).
    replace z with (-1 * Z.of_nat (amount (decimal (Z.to_nat (- z)))))%Z at 1 by (rewrite <- E; lia).
    apply (some_exponent 101 [45]); [cbn; auto|cbn; auto|exact D].
  - destruct (decimal_numeral (Z.to_nat z)) as (D & _ & E).
    replace z with (1 * Z.of_nat (amount (decimal (Z.to_nat z))))%Z at 1 by (rewrite <- E; lia).
    apply (some_exponent 101 []); [cbn; auto|cbn; auto|exact D].
Qed.
Lemma real_written b m e : Number (JReal b m e) (to_string (JReal b m e)).
Proof.
  pose proof (nu_real b (decimal m) m [] [] e (101 :: signed e) (decimal_numeral m) no_fraction (signed_exponent e)) as N.
  rewrite app_nil_r in N. cbn [length] in N. rewrite Z.sub_0_r in N. replace (amount (decimal m)) with m in N by apply (decimal_numeral m).
  apply N. discriminate.
Qed.
Lemma number_ascii j s : Number j s -> Forall (fun c => 32 <= c < 128) s.
Proof.
  assert (D : forall s, Digits s -> Forall (fun c => 32 <= c < 128) s) by (intros u [F _]; eapply Forall_impl; [|exact F]; cbn; lia).
  intros [n t [N _]|n t [N _]| |b w m f ft e et [W _] F X _].
  - apply D, N.
  - constructor; [lia|apply D, N].
  - repeat constructor; lia.
  - apply Forall_app. split; [destruct b; repeat constructor; lia|]. apply Forall_app. split; [apply D, W|]. apply Forall_app. split.
    + destruct F as [|f F]; [constructor|]. constructor; [lia|apply D, F].
    + destruct X as [|c sg k ds C K X]; [constructor|]. cbn [In] in C, K. constructor; [lia|]. apply Forall_app.
      split; [|apply D, X]. destruct K as [K|[K|[K|[]]]]; injection K as <- _; repeat constructor; lia.
Qed.

(** ** Induction on values *)
Section Induction.
  Context (P : json -> Prop).
  Context (Hnull : P JNull) (Hbool : forall b, P (JBool b)) (Hnum : forall n, P (JNum n)) (Hneg : forall n, P (JNeg n))
    (Hreal : forall b m e, P (JReal b m e)) (Hstr : forall s, P (JStr s)).
  Context (Harr : forall l, Forall P l -> P (JArr l)) (Hobj : forall l, Forall P (map snd l) -> P (JObj l)).
  Fixpoint json_all (j : json) : P j :=
    match j with
    | JNull => Hnull
    | JBool b => Hbool b
    | JNum n => Hnum n
    | JNeg n => Hneg n
    | JReal b m e => Hreal b m e
    | JStr s => Hstr s
    | JArr l => Harr l ((fix go l := match l return Forall P l with [] => Forall_nil _ | x :: r => Forall_cons x (json_all x) (go r) end) l)
    | JObj l => Hobj l ((fix go l := match l return Forall P (map snd l) with [] => Forall_nil _ | (k, x) :: r => Forall_cons x (json_all x) (go r) end) l)
    end.
End Induction.

Lemma text_padded j s : Text j s -> Padded j s.
Proof. intros T. rewrite <- (app_nil_r s). apply (padded [] j s []); [constructor|exact T|constructor]. Qed.

Lemma elements_join l : l <> [] -> Forall (fun j => Text j (to_string j)) l -> Elements l (join [44] (map to_string l)).
Proof.
  induction l as [|a l IH]; [contradiction|]. intros _ F. inversion F as [|? ? A B]; subst. destruct l as [|b l].
  - cbn [map join]. apply el_one, text_padded, A.
  - change (join [44] (map to_string (a :: b :: l))) with (to_string a ++ 44 :: join [44] (map to_string (b :: l))).
    apply el_more; [apply text_padded, A|]. apply IH; [discriminate|exact B].
Qed.
Definition member (kv : str * json) : str := quote (fst kv) ++ 58 :: to_string (snd kv).
Lemma members_join l : l <> [] -> Forall (fun j => Text j (to_string j)) (map snd l) -> Members l (join [44] (map member l)).
Proof.
  induction l as [|[k a] l IH]; [contradiction|]. intros _ F. inversion F as [|? ? A B]; subst. cbn [snd] in A. destruct l as [|b l].
  - cbn [map join]. apply (me_one k a (quote k) [] [] (to_string a)); [constructor|apply quote_quoted|constructor|apply text_padded, A].
  - change (join [44] (map member ((k, a) :: b :: l))) with (([] ++ quote k ++ [] ++ 58 :: to_string a) ++ 44 :: join [44] (map member (b :: l))).
    apply me_more; [constructor|apply quote_quoted|constructor|apply text_padded, A|]. apply IH; [discriminate|exact B].
Qed.

Lemma written j : Text j (to_string j).
Proof.
  induction j as [|b|n|n|b m e|s|l H|l H] using json_all.
  - constructor.
  - destruct b; constructor.
  - apply tx_num, nu_nat, decimal_numeral.
  - apply tx_num, (nu_neg n), decimal_numeral.
  - apply tx_num, real_written.
  - apply tx_str, quote_quoted.
  - destruct l as [|a l]; [apply (tx_arr0 []); constructor|]. apply tx_arr, elements_join; [discriminate|exact H].
  - destruct l as [|a l]; [apply (tx_obj0 []); constructor|]. apply tx_obj, members_join; [discriminate|exact H].
Qed.
Lemma round_trip j : parse_text (to_string j) = Some j.
Proof. apply parse_iff, text_padded, written. Qed.

(** ** Nothing may be missing, and nothing follow *)
Lemma value_whole j s t fuel : Text j s -> ~ IsNumber j -> length s <= fuel -> value (S fuel) (s ++ t) = Some (j, t).
Proof. intros T N L. apply (proj1 reader_complete j s T fuel [] t L); [constructor|contradiction]. Qed.

Lemma cut j s p q : Text j s -> ~ IsNumber j -> s = p ++ q -> q <> [] -> parse_text p = None.
Proof.
  intros T N E Q. destruct (parse_text p) as [j'|] eqn:P; [|reflexivity]. exfalso. apply parse_iff in P. destruct P as [w j' u w' W U W'].
  destruct (text_black j s T) as (c & r & Es & B & _ & _ & D). destruct (text_black j' u U) as (c' & r' & Eu & B' & _ & _ & D').
  assert (w = []) as ->.
  { destruct W as [|a w A W]; [reflexivity|]. rewrite Es in E. injection E as -> _. apply is_space_iff in A. congruence. }
  cbn [List.app] in E. rewrite <- app_assoc in E.
  assert (N' : ~ IsNumber j').
  { intros I. apply N, D. assert (F : Number j' u) by (destruct j'; try contradiction; inversion U; assumption).
    apply number_first in F. destruct F as (c2 & r2 & F & C & _). rewrite Es, F in E. injection E as -> _. exact C. }
  pose proof (value_whole j s [] (length s) T N (le_n _)) as V1. rewrite app_nil_r in V1.
  assert (L : length u <= length s) by (rewrite E, !app_length; lia).
  pose proof (value_whole j' u (w' ++ q) (length s) U N' L) as V2. rewrite <- E in V2. rewrite V1 in V2.
  injection V2 as _ V2. destruct w'; [cbn in V2; congruence|discriminate V2].
Qed.
Lemma alone j s w t : Text j s -> ~ IsNumber j -> Space w -> parse_text (w ++ s ++ t) <> None -> Space t.
Proof.
  intros T N W. unfold parse_text.
  rewrite (proj1 reader_complete j s T (length (w ++ s ++ t)) w t); [|rewrite !app_length; lia|exact W|contradiction].
  destruct (skip t) eqn:E; [intros _; apply skip_nil; exact E|congruence].
Qed.

Lemma escape_printable c : Forall (fun c => 32 <= c) (escape c).
Proof.
  unfold escape. repeat (match goal with |- context [if ?b then _ else _] => destruct b eqn:? end; [repeat constructor; lia|]).
  destruct (Nat.ltb_spec c 32) as [L|L]; [|repeat constructor; lia].
  assert (H : forall n, 32 <= hex_digit n) by (intros n; unfold hex_digit; destruct (n <? 10); lia).
  repeat constructor; try lia; apply H.
Qed.
Lemma quote_printable s : Forall (fun c => 32 <= c) (quote s).
Proof.
  unfold quote. apply Forall_app. split; [repeat constructor; lia|]. apply Forall_app. split; [|repeat constructor; lia].
  induction s as [|c s IH]; [constructor|]. cbn [flat_map]. apply Forall_app. split; [apply escape_printable|exact IH].
Qed.
Lemma join_printable l : Forall (Forall (fun c => 32 <= c)) l -> Forall (fun c => 32 <= c) (join [44] l).
Proof.
  induction l as [|a l IH]; [constructor|]. intros F. inversion F as [|? ? A B]; subst. destruct l as [|b l]; [exact A|].
  change (join [44] (a :: b :: l)) with (a ++ 44 :: join [44] (b :: l)). apply Forall_app. split; [exact A|]. constructor; [lia|]. apply IH, B.
Qed.
Lemma printable j : Forall (fun c => 32 <= c) (to_string j).
Proof.
  induction j as [|b|n|n|b m e|s|l H|l H] using json_all.
  - repeat constructor; cbn; lia.
  - destruct b; repeat constructor; cbn; lia.
  - eapply Forall_impl; [|exact (number_ascii _ _ (nu_nat n _ (decimal_numeral n)))]. cbn. lia.
  - eapply Forall_impl; [|exact (number_ascii _ _ (nu_neg n _ (decimal_numeral (S n))))]. cbn. lia.
  - eapply Forall_impl; [|exact (number_ascii _ _ (real_written b m e))]. cbn. lia.
  - apply quote_printable.
  - cbn [to_string]. apply Forall_app. split; [repeat constructor; lia|]. apply Forall_app. split; [|repeat constructor; lia].
    apply join_printable. apply Forall_map. exact H.
  - cbn [to_string]. apply Forall_app. split; [repeat constructor; lia|]. apply Forall_app. split; [|repeat constructor; lia].
    apply join_printable. apply Forall_map. rewrite Forall_map in H. eapply Forall_impl; [|exact H]. intros [k v] V. cbn [fst snd] in *.
    apply Forall_app. split; [apply quote_printable|]. constructor; [lia|exact V].
Qed.

(** ** Members with the same key *)
Lemma aget_aset (m : list (str * json)) k v k' : aget str_eqd (aset str_eqd m k v) k' = if str_eqd k' k then Some v else aget str_eqd m k'.
Proof.
  induction m as [|[a x] m IH]; cbn [aset aget].
  - destruct (str_eqd k' k); reflexivity.
  - destruct (str_eqd k a) as [->|N]; cbn [aget].
    + destruct (str_eqd k' a) as [->|]; reflexivity.
    + rewrite IH. destruct (str_eqd k' a) as [->|]; [|reflexivity]. destruct (str_eqd a k); [congruence|reflexivity].
Qed.
Lemma keys_aset (m : list (str * json)) k v : NoDup (map fst m) -> NoDup (map fst (aset str_eqd m k v)).
Proof.
  assert (K : forall k0, In k0 (map fst (aset str_eqd m k v)) -> k0 = k \/ In k0 (map fst m)).
  { intros k0. induction m as [|[a x] m IH]; cbn [aset]; [cbn; intuition|]. destruct (str_eqd k a) as [->|]; cbn [map fst In]; intuition. }
  induction m as [|[a x] m IH]; intros D; cbn [aset]; [repeat constructor; intros []|]. cbn [map fst] in D. inversion D as [|? ? D1 D2]; subst.
  destruct (str_eqd k a) as [->|N]; cbn [map fst]; [constructor; assumption|]. constructor; [|apply IH; [|exact D2]].
  - intros I. assert (J : forall k0, In k0 (map fst (aset str_eqd m k v)) -> k0 = k \/ In k0 (map fst m)).
    { clear. intros k0. induction m as [|[a x] m IH]; cbn [aset]; [cbn; intuition|]. destruct (str_eqd k a) as [->|]; cbn [map fst In]; intuition. }
    destruct (J a I); [congruence|contradiction].
  - clear. intros k0. induction m as [|[a x] m IH]; cbn [aset]; [cbn; intuition|]. destruct (str_eqd k a) as [->|]; cbn [map fst In]; intuition.
Qed.
Lemma fold_aset_keys (l : list (str * json)) : forall acc, NoDup (map fst acc) ->
  NoDup (map fst (fold_left (fun m kv => aset str_eqd m (fst kv) (snd kv)) l acc)).
Proof. induction l as [|[k v] l IH]; intros acc D; [exact D|]. cbn [fold_left]. apply IH, keys_aset, D. Qed.
Lemma last_of_keys l : NoDup (map fst (last_of l)).
Proof. apply fold_aset_keys. constructor. Qed.
Lemma last_of_snoc l k v k' : aget str_eqd (last_of (l ++ [(k, v)])) k' = if str_eqd k' k then Some v else aget str_eqd (last_of l) k'.
Proof. unfold last_of. rewrite fold_left_app. cbn [fold_left fst snd]. apply aget_aset. Qed.
Lemma last_of_get l k v : aget str_eqd (last_of l) k = Some v <-> exists pre post, l = pre ++ (k, v) :: post /\ ~ In k (map fst post).
Proof.
  induction l as [|[k0 v0] l IH] using rev_ind.
  - cbn. split; [discriminate|]. intros ([|] & post & E & _); discriminate E.
  - rewrite last_of_snoc. destruct (str_eqd k k0) as [->|N].
    + split.
      * intros [= ->]. exists l, []. split; [reflexivity|intros []].
      * intros (pre & post & E & Np). destruct post as [|x post] using rev_ind.
        -- apply app_inj_tail in E. destruct E as [_ E]. congruence.
        -- exfalso. change (pre ++ (k0, v) :: post ++ [x]) with (pre ++ ((k0, v) :: post) ++ [x]) in E. rewrite app_assoc in E.
           apply app_inj_tail in E. destruct E as [_ <-]. apply Np. rewrite map_app. apply in_or_app. right. cbn. auto.
    + rewrite IH. split.
      * intros (pre & post & -> & Np). exists pre, (post ++ [(k0, v0)]). split; [rewrite <- app_assoc; reflexivity|].
        rewrite map_app. intros I. apply in_app_or in I. destruct I as [I|[I|[]]]; [contradiction|]. cbn in I. congruence.
      * intros (pre & post & E & Np). destruct post as [|x post] using rev_ind.
        -- apply app_inj_tail in E. destruct E as [_ E]. congruence.
        -- clear IHpost. change (pre ++ (k, v) :: post ++ [x]) with (pre ++ ((k, v) :: post) ++ [x]) in E. rewrite app_assoc in E.
           apply app_inj_tail in E. destruct E as [-> _]. exists pre, post. split; [reflexivity|]. intros I. apply Np. rewrite map_app. apply in_or_app. auto.
Qed.
Lemma aset_new (m : list (str * json)) k v : ~ In k (map fst m) -> aset str_eqd m k v = m ++ [(k, v)].
Proof.
  induction m as [|[a x] m IH]; intros N; [reflexivity|]. cbn [aset]. destruct (str_eqd k a) as [->|]; [cbn in N; tauto|].
  cbn [List.app]. rewrite IH; [reflexivity|]. intros I. apply N. cbn. auto.
Qed.
Lemma last_of_distinct l : NoDup (map fst l) -> last_of l = l.
Proof.
  induction l as [|[k v] l IH] using rev_ind; intros D; [reflexivity|]. unfold last_of. rewrite fold_left_app.
  rewrite map_app in D. cbn [map fst] in D. pose proof (NoDup_remove_1 _ _ _ D) as D1. pose proof (NoDup_remove_2 _ _ _ D) as D2.
  rewrite app_nil_r in D1, D2. fold (last_of l). rewrite IH by exact D1. cbn [fold_left fst snd]. apply aset_new. exact D2.
Qed.

Lemma keys_map (g : json -> json) (l : list (str * json)) : map fst (map (fun kv => (fst kv, g (snd kv))) l) = map fst l.
Proof. rewrite map_map. reflexivity. Qed.
Lemma fold_aset_in (l : list (str * json)) : forall acc x,
  In x (fold_left (fun m kv => aset str_eqd m (fst kv) (snd kv)) l acc) -> In x acc \/ In (snd x) (map snd l).
Proof.
  assert (A : forall (m : list (str * json)) k v x, In x (aset str_eqd m k v) -> In x m \/ snd x = v).
  { intros m k v x. induction m as [|[a y] m IH]; cbn [aset]; [intros [<-|[]]; auto|]. destruct (str_eqd k a); cbn [In]; intros [<-|I]; cbn; auto.
    destruct (IH I); auto. }
  induction l as [|[k v] l IH]; intros acc x I; [auto|]. cbn [fold_left fst snd] in I. apply IH in I. destruct I as [I|I]; [|cbn; auto].
  apply A in I. cbn [map snd In]. destruct I as [I|I]; [auto|]. right. left. congruence.
Qed.
Lemma rounded_distinct num j : Distinct (rounded num j).
Proof.
  induction j as [|b|n|n|b m e|s|l H|l H] using json_all; cbn [rounded]; try constructor.
  - apply Forall_map. exact H.
  - apply last_of_keys.
  - rewrite Forall_map in H. apply Forall_forall. intros x I. apply in_map_iff in I. destruct I as (y & <- & I). apply fold_aset_in in I.
    destruct I as [[]|I]. rewrite map_map in I. cbn [snd] in I. apply in_map_iff in I. destruct I as (z & <- & I). rewrite Forall_forall in H. apply H. exact I.
Qed.
Lemma rounded_id j : Distinct j -> rounded (fun n => n) j = j.
Proof.
  induction j as [|b|n|n|b m e|s|l H|l H] using json_all; intros D; try reflexivity; cbn [rounded].
  - f_equal. inversion D; subst. rewrite Forall_forall in H, H1. rewrite <- (map_id l) at 2. apply map_ext_in. auto.
  - f_equal. inversion D as [| | | | | | |l' D1 D2]; subst. rewrite last_of_distinct by (rewrite keys_map; exact D1).
    rewrite Forall_map in H, D2. rewrite Forall_forall in H, D2. rewrite <- (map_id l) at 2. apply map_ext_in.
    intros [k v] I. cbn [fst snd]. f_equal. apply (H (k, v) I). apply (D2 (k, v) I).
Qed.
Lemma aget_map (g : json -> json) l k : aget str_eqd (map (fun p : str * json => (fst p, g (snd p))) l) k = option_map g (aget str_eqd l k).
Proof. induction l as [|[k' v] l IH]; [reflexivity|]. cbn [map aget fst snd]. destruct (str_eqd k k'); auto. Qed.
Lemma aget_in (l : list (str * json)) k v : aget str_eqd l k = Some v -> In (k, v) l.
Proof. induction l as [|[k' v'] l IH]; cbn [aget]; [discriminate|]. destruct (str_eqd k k') as [->|]; [intros [= ->]; cbn; auto|cbn; auto]. Qed.

Definition js_nat (n : nat) : nat := Z.to_nat (js_number (Z.of_nat n)).
Lemma js_nat_nearest n : Nearest (Z.of_nat n) (Z.of_nat (js_nat n)).
Proof.
  unfold js_nat. rewrite Z2Nat.id; [apply js_number_spec; auto|]. replace 0%Z with (js_number 0) by reflexivity. apply js_number_mono. lia.
Qed.
Lemma js_neg_nearest n : Nearest (- Z.of_nat (S n)) (- Z.of_nat (S (pred (js_nat (S n))))).
Proof.
  pose proof (js_nat_nearest (S n)) as N. assert (P : 1 <= js_nat (S n)).
  { unfold js_nat. assert (1 <= js_number (Z.of_nat (S n)))%Z; [|lia]. replace 1%Z with (js_number 1) by reflexivity. apply js_number_mono. lia. }
  replace (S (pred (js_nat (S n)))) with (js_nat (S n)) by lia. apply nearest_opp. exact N.
Qed.
Lemma reads_rounded j : Distinct j -> Reads j (rounded js_nat j).
Proof.
  induction j as [|b|n|n|b m e|s|l H|l H] using json_all; intros D; cbn [rounded].
  - constructor.
  - constructor.
  - constructor. apply js_nat_nearest.
  - constructor. apply js_neg_nearest.
  - constructor.
  - constructor.
  - constructor. inversion D as [| | | | | |l' D1|]; subst. clear D. induction H as [|x l Hx _ IH]; cbn [map]; [constructor|].
    inversion D1; subst. constructor; auto.
  - inversion D as [| | | | | | |l' D1 D2]; subst. rewrite last_of_distinct by (rewrite keys_map; exact D1).
    rewrite Forall_map in H, D2. rewrite Forall_forall in H, D2. constructor.
    + intros k v G. exists (rounded js_nat v). rewrite aget_map, G. split; [reflexivity|]. apply aget_in in G. apply (H (k, v) G), (D2 (k, v) G).
    + intros k G. rewrite aget_map, G. reflexivity.
Qed.

(** ** The cache *)
Lemma key_number_decimal n : key_number (decimal n) = Some n.
Proof.
  unfold key_number. pose proof (natural_of n (decimal n) [] (decimal_numeral n) Logic.I) as E. rewrite app_nil_r in E. rewrite E.
  f_equal. symmetry. apply (decimal_numeral n).
Qed.
Lemma cache_back m : cache_of (map (fun kv => (decimal (fst kv), JStr (snd kv))) m) = Some m.
Proof. induction m as [|[k v] m IH]; [reflexivity|]. cbn [map cache_of fst snd]. rewrite key_number_decimal, IH. reflexivity. Qed.
Lemma cache_faithful zip unzip : Zips zip unzip -> CacheSpec.Faithful (cache_codec zip unzip).
Proof.
  intros [Z1 Z2 Z3]. split; cbn [enc dec cache_codec].
  - intros m. rewrite Z1, round_trip. unfold cache_json. apply cache_back.
  - intros m. apply Z2.
  - intros m p q E _ Q. destruct (Z3 _ p q E Q) as [W|(r & R & T)].
    + destruct (unzip p) as [t w]. cbn [snd] in W. subst w. reflexivity.
    + destruct (unzip p) as [t w]. cbn [fst] in T. rewrite (cut (cache_json m) _ t r (written _)); [destruct w; reflexivity|exact id|exact T|exact R].
Qed.

(** ** Depth *)
Lemma list_max_in l x : In x l -> x <= list_max l.
Proof. intros I. pose proof (proj1 (list_max_le l (list_max l)) (le_n _)) as F. rewrite Forall_forall in F. apply F. exact I. Qed.
Lemma deep_depth j n : Deep j n -> n <= depth j.
Proof.
  induction 1 as [j|l|l|l x n I _ IH|l k x n I _ IH]; [apply Nat.le_0_l|cbn [depth]; lia|cbn [depth]; lia|..]; cbn [depth]; apply le_n_S.
  - pose proof (list_max_in (map depth l) (depth x) (in_map depth l x I)). lia.
  - pose proof (list_max_in (map (fun kv => depth (snd kv)) l) (depth x) (in_map (fun kv => depth (snd kv)) l (k, x) I)). lia.
Qed.
Lemma list_max_attained l : list_max l = 0 \/ In (list_max l) l.
Proof.
  induction l as [|a l IH]; [left; reflexivity|]. change (list_max (a :: l)) with (Nat.max a (list_max l)).
  destruct (Nat.max_spec a (list_max l)) as [[L ->]|[L ->]]; [|right; left; reflexivity].
  destruct IH as [E|I]; [lia|]. right. right. exact I.
Qed.
Lemma depth_deep j : Deep j (depth j).
Proof.
  induction j as [|b|n|n|b m e|s|l H|l H] using json_all; try constructor; cbn [depth].
  - destruct (list_max_attained (map depth l)) as [->|I]; [constructor|]. apply in_map_iff in I. destruct I as (x & <- & I).
    rewrite Forall_forall in H. apply (deep_item l x); auto.
  - destruct (list_max_attained (map (fun kv => depth (snd kv)) l)) as [->|I]; [constructor|]. apply in_map_iff in I. destruct I as ([k x] & <- & I).
    rewrite Forall_map, Forall_forall in H. apply (deep_member l k x); [exact I|]. apply (H (k, x) I).
Qed.
Lemma deep_less j n : Deep j n -> forall m, m <= n -> Deep j m.
Proof.
  induction 1 as [j|l|l|l x n I _ IH|l k x n I _ IH]; intros m L.
  - destruct m; [constructor|lia].
  - destruct m as [|[|m]]; [constructor|constructor|lia].
  - destruct m as [|[|m]]; [constructor|constructor|lia].
  - destruct m as [|m]; [constructor|]. apply (deep_item l x); [exact I|apply IH; lia].
  - destruct m as [|m]; [constructor|]. apply (deep_member l k x); [exact I|apply IH; lia].
Qed.
Lemma deep_iff j n : Deep j n <-> n <= depth j.
Proof. split; [apply deep_depth|]. intros L. apply (deep_less j (depth j)); [apply depth_deep|exact L]. Qed.

Lemma from_str_iff s j : from_str s = Some j <-> exists j0, Padded j0 s /\ ~ Deep j0 128 /\ j = rounded (fun n => n) j0.
Proof.
  unfold from_str. split.
  - destruct (parse_text s) as [j0|] eqn:P; [|discriminate]. apply parse_iff in P. destruct (Nat.ltb_spec (depth j0) 128) as [L|L]; [|discriminate].
    intros E. exists j0. split; [exact P|]. split; [rewrite deep_iff; lia|congruence].
  - intros (j0 & P & D & ->). apply parse_iff in P. rewrite P. rewrite deep_iff in D. destruct (Nat.ltb_spec (depth j0) 128); [reflexivity|lia].
Qed.

Lemma last_of_has l k : In k (map fst l) -> In k (map fst (last_of l)).
Proof.
  induction l as [|[k0 v0] l IH] using rev_ind; [intros []|]. intros I.
  assert (G : aget str_eqd (last_of (l ++ [(k0, v0)])) k <> None).
  { rewrite last_of_snoc. destruct (str_eqd k k0) as [->|N]; [discriminate|]. rewrite map_app in I. apply in_app_or in I.
    destruct I as [I|[I|[]]]; [|cbn in I; congruence]. apply IH in I. clear IH.
    induction (last_of l) as [|[a x] m IHm]; [destruct I|]. cbn [aget]. destruct (str_eqd k a) as [->|]; [discriminate|].
    apply IHm. destruct I as [I|I]; [cbn in I; congruence|exact I]. }
  destruct (aget str_eqd (last_of (l ++ [(k0, v0)])) k) as [v|] eqn:E; [|contradiction]. apply aget_in in E.
  apply in_map_iff. exists (k, v). auto.
Qed.
Lemma aget_of_in (l : list (str * json)) k v : NoDup (map fst l) -> In (k, v) l -> aget str_eqd l k = Some v.
Proof.
  induction l as [|[a x] l IH]; intros D I; [destruct I|]. cbn [map fst] in D. inversion D as [|? ? D1 D2]; subst. cbn [aget].
  destruct I as [I|I]; [injection I as -> ->; destruct (str_eqd k k); [reflexivity|contradiction]|].
  destruct (str_eqd k a) as [->|]; [|auto]. exfalso. apply D1. apply in_map_iff. exists (a, v). auto.
Qed.
Lemma means_rounded j : Means j (rounded (fun n => n) j).
Proof.
  induction j as [|b|n|n|b m e|s|l H|l H] using json_all; cbn [rounded]; try constructor.
  - induction H; cbn [map]; constructor; auto.
  - apply last_of_keys.
  - intros k I. apply last_of_has. rewrite keys_map. exact I.
  - intros k v' I. apply aget_of_in in I; [|apply last_of_keys]. apply last_of_get in I. destruct I as (pre' & post' & E & N).
    apply map_eq_app in E. destruct E as (pre & r & -> & Epre & E). destruct r as [|[k1 v] post]; [discriminate E|].
    cbn [map fst snd] in E. injection E as -> <- Epost. exists pre, v, post. split; [reflexivity|]. split.
    + intros I. apply N. rewrite <- Epost, keys_map. exact I.
    + rewrite Forall_map in H. rewrite Forall_forall in H. apply (H (k, v)). apply in_or_app. right. left. reflexivity.
Qed.

(** ** Bytes *)
Lemma low x y : y < 64 -> (x * 64 + y) / 64 = x /\ (x * 64 + y) mod 64 = y.
Proof.
  intros L. assert (D : (x * 64 + y) / 64 = x) by (rewrite Nat.div_add_l by lia; rewrite Nat.div_small by exact L; lia).
  split; [exact D|]. pose proof (Nat.div_mod (x * 64 + y) 64 ltac:(lia)) as M. rewrite D in M. lia.
Qed.
Lemma split64 c : exists x y, y < 64 /\ c = x * 64 + y.
Proof. exists (c / 64), (c mod 64). pose proof (Nat.div_mod c 64 ltac:(lia)). pose proof (Nat.mod_upper_bound c 64 ltac:(lia)). lia. Qed.
Lemma div4096 c : c / 4096 = c / 64 / 64.
Proof. rewrite Nat.div_div by lia. reflexivity. Qed.
Lemma utf8_1 c : c < 128 -> utf8 c = [c].
Proof. intros L. unfold utf8. destruct (Nat.ltb_spec c 128); [reflexivity|lia]. Qed.
Lemma utf8_2 x y : y < 64 -> 128 <= x * 64 + y < 2048 -> utf8 (x * 64 + y) = [192 + x; 128 + y].
Proof.
  intros L B. unfold utf8. destruct (Nat.ltb_spec (x * 64 + y) 128); [lia|]. destruct (Nat.ltb_spec (x * 64 + y) 2048); [|lia].
  destruct (low x y L) as [-> ->]. reflexivity.
Qed.
Lemma utf8_3 x y z : y < 64 -> z < 64 -> 2048 <= (x * 64 + y) * 64 + z < 256 * 256 -> utf8 ((x * 64 + y) * 64 + z) = [224 + x; 128 + y; 128 + z].
Proof.
  intros L L' B. remember ((x * 64 + y) * 64 + z) as c eqn:Ec. unfold utf8. destruct (Nat.ltb_spec c 128); [lia|]. destruct (Nat.ltb_spec c 2048); [lia|].
  destruct (Nat.ltb_spec c (256 * 256)); [|lia]. rewrite div4096. destruct (low (x * 64 + y) z L') as [E1 E2]. rewrite <- Ec in E1, E2. rewrite E1, E2.
  destruct (low x y L) as [-> ->]. reflexivity.
Qed.
Lemma utf8_4 w x y z : x < 64 -> y < 64 -> z < 64 -> 256 * 256 <= ((w * 64 + x) * 64 + y) * 64 + z ->
  utf8 (((w * 64 + x) * 64 + y) * 64 + z) = [240 + w; 128 + x; 128 + y; 128 + z].
Proof.
  intros L L' L'' B. remember (((w * 64 + x) * 64 + y) * 64 + z) as c eqn:Ec. unfold utf8.
  destruct (Nat.ltb_spec c 128); [lia|]. destruct (Nat.ltb_spec c 2048); [lia|]. destruct (Nat.ltb_spec c (256 * 256)); [lia|].
  rewrite <- (Nat.div_div c 4096 64), div4096 by lia.
  destruct (low ((w * 64 + x) * 64 + y) z L'') as [E1 E2]. rewrite <- Ec in E1, E2. rewrite E1, E2.
  destruct (low (w * 64 + x) y L') as [-> ->]. destruct (low w x L) as [-> ->]. reflexivity.
Qed.
Lemma between_iff a b c : between a b c = true <-> a <= b <= c.
Proof. unfold between. rewrite andb_true_iff, !Nat.leb_le. tauto. Qed.
Lemma second_iff a b : second a b = true <->
  128 <= b <= 191 /\ (a = 224 -> 160 <= b) /\ (a = 237 -> b <= 159) /\ (a = 240 -> 144 <= b) /\ (a = 244 -> b <= 143).
Proof.
  unfold second. destruct (Nat.eqb_spec a 224); [rewrite between_iff; lia|]. destruct (Nat.eqb_spec a 237); [rewrite between_iff; lia|].
  destruct (Nat.eqb_spec a 240); [rewrite between_iff; lia|]. destruct (Nat.eqb_spec a 244); rewrite between_iff; lia.
Qed.
Lemma between_true a b c : a <= b <= c -> between a b c = true.
Proof. apply between_iff. Qed.
Lemma between_false a b c : ~ (a <= b <= c) -> between a b c = false.
Proof. intros H. destruct (between a b c) eqn:E; [|reflexivity]. apply between_iff in E. contradiction. Qed.

Lemma decode_char c r : Scalar c -> decode (utf8 c ++ r) = push c (decode r).
Proof.
  intros Sc. unfold Scalar in Sc. destruct (Nat.lt_ge_cases c 128) as [L|L].
  { rewrite utf8_1 by exact L. cbn [List.app decode]. apply Nat.ltb_lt in L. rewrite L. reflexivity. }
  destruct (split64 c) as (x & z & Lz & ->). destruct (Nat.lt_ge_cases (x * 64 + z) 2048) as [L1|L1].
  { rewrite utf8_2 by lia. cbn [List.app decode]. replace (192 + x <? 128) with false by (symmetry; apply Nat.ltb_ge; lia).
    rewrite (between_true 194) by lia. rewrite (between_true 128) by lia. f_equal. lia. }
  destruct (split64 x) as (w & y & Ly & ->). destruct (Nat.lt_ge_cases ((w * 64 + y) * 64 + z) (256 * 256)) as [L2|L2].
  { rewrite utf8_3 by lia. cbn [List.app decode]. replace (224 + w <? 128) with false by (symmetry; apply Nat.ltb_ge; lia).
    rewrite (between_false 194) by lia. rewrite (between_true 224) by lia. rewrite (between_true 128) by lia.
    assert (second (224 + w) (128 + y) = true) as -> by (apply second_iff; lia). cbn [andb]. f_equal. lia. }
  destruct (split64 w) as (v & u & Lu & ->). rewrite utf8_4 by lia. cbn [List.app decode].
  replace (240 + v <? 128) with false by (symmetry; apply Nat.ltb_ge; lia).
  rewrite (between_false 194) by lia. rewrite (between_false 224) by lia. rewrite (between_true 240) by lia.
  assert (second (240 + v) (128 + u) = true) as -> by (apply second_iff; lia). rewrite !(between_true 128) by lia. cbn [andb]. f_equal. lia.
Qed.
Lemma decode_utf8 s : Forall Scalar s -> decode (flat_map utf8 s) = Some s.
Proof. induction 1 as [|c s C _ IH]; [reflexivity|]. cbn [flat_map]. rewrite decode_char, IH by exact C. reflexivity. Qed.
Lemma decode_sound : forall n bytes s, length bytes <= n -> decode bytes = Some s -> Forall Scalar s /\ bytes = flat_map utf8 s.
Proof.
  induction n as [|n IH]; intros bytes s L; [destruct bytes; [intros [= <-]; split; [constructor|reflexivity]|cbn in L; lia]|].
  destruct bytes as [|a r]; [intros [= <-]; split; [constructor|reflexivity]|]. cbn [length decode] in *.
  assert (G : forall c pre r0, Scalar c -> utf8 c = pre -> length r0 <= n -> push c (decode r0) = Some s -> Forall Scalar s /\ pre ++ r0 = flat_map utf8 s).
  { intros c pre r0 C U L0. unfold push. destruct (decode r0) as [t|] eqn:D; [|discriminate]. intros E. assert (s = c :: t) by congruence. subst s.
    destruct (IH r0 t L0 D) as [F ->]. split; [constructor; assumption|]. cbn [flat_map]. rewrite U. reflexivity. }
  destruct (Nat.ltb_spec a 128) as [La|La].
  { intros E. apply (G a [a] r); [left; lia|apply utf8_1, La|lia|exact E]. }
  destruct (between 194 a 223) eqn:B2.
  { apply between_iff in B2. destruct r as [|b r1]; [discriminate|]. cbn [length] in L. destruct (between 128 b 191) eqn:Bb; [|discriminate].
    apply between_iff in Bb. intros E. apply (G ((a - 192) * 64 + (b - 128)) [a; b] r1); [left; lia| |lia|exact E]. rewrite utf8_2 by lia. f_equal; [lia|f_equal; lia]. }
  destruct (between 224 a 239) eqn:B3.
  { apply between_iff in B3. destruct r as [|b [|c r2]]; try discriminate. cbn [length] in L. destruct (second a b) eqn:Bb; [|discriminate].
    destruct (between 128 c 191) eqn:Bc; [|discriminate]. apply second_iff in Bb. apply between_iff in Bc. cbn [andb]. intros E.
    apply (G (((a - 224) * 64 + (b - 128)) * 64 + (c - 128)) [a; b; c] r2); [unfold Scalar; lia| |lia|exact E].
    rewrite utf8_3 by lia. f_equal; [lia|]. f_equal; [lia|]. f_equal; lia. }
  destruct (between 240 a 244) eqn:B4; [|discriminate].
  apply between_iff in B4. destruct r as [|b [|c [|d r3]]]; try discriminate. cbn [length] in L. destruct (second a b) eqn:Bb; [|discriminate].
  destruct (between 128 c 191) eqn:Bc; [|discriminate]. destruct (between 128 d 191) eqn:Bd; [|discriminate].
  apply second_iff in Bb. apply between_iff in Bc, Bd. cbn [andb]. intros E.
  apply (G ((((a - 240) * 64 + (b - 128)) * 64 + (c - 128)) * 64 + (d - 128)) [a; b; c; d] r3); [unfold Scalar; lia| |lia|exact E].
  rewrite utf8_4 by lia. f_equal; [lia|]. f_equal; [lia|]. f_equal; [lia|]. f_equal; lia.
Qed.
Lemma decode_iff bytes s : decode bytes = Some s <-> Forall Scalar s /\ bytes = flat_map utf8 s.
Proof. split; [apply (decode_sound (length bytes)), le_n|]. intros [F ->]. apply decode_utf8, F. Qed.

Lemma scalar_ascii c : c < 128 -> Scalar c.
Proof. intros L. left. lia. Qed.
Lemma ascii_all s : Forall (fun c => c < 128) s -> Forall Scalar s.
Proof. apply Forall_impl. apply scalar_ascii. Qed.
Lemma escape_scalar c : Scalar c -> Forall Scalar (escape c).
Proof.
  intros C. unfold escape. repeat (match goal with |- context [if ?b then _ else _] => destruct b eqn:? end; [apply ascii_all; repeat constructor; lia|]).
  destruct (Nat.ltb_spec c 32) as [L|L]; [|constructor; [exact C|constructor]].
  apply ascii_all. assert (H : forall n, n < 16 -> hex_digit n < 128) by (intros n; unfold hex_digit; destruct (n <? 10); lia).
  do 4 (constructor; [lia|]). constructor; [apply H, Nat.div_lt_upper_bound; lia|]. constructor; [apply H, Nat.mod_upper_bound; lia|constructor].
Qed.
Lemma quote_scalar s : Forall Scalar s -> Forall Scalar (quote s).
Proof.
  intros F. unfold quote. apply Forall_app. split; [apply ascii_all; repeat constructor; lia|]. apply Forall_app. split; [|apply ascii_all; repeat constructor; lia].
  induction F as [|c s C _ IH]; [constructor|]. cbn [flat_map]. apply Forall_app. split; [apply escape_scalar, C|exact IH].
Qed.
Lemma join_scalar l : Forall (Forall Scalar) l -> Forall Scalar (join [44] l).
Proof.
  induction l as [|a l IH]; [constructor|]. intros F. inversion F as [|? ? A B]; subst. destruct l as [|b l]; [exact A|].
  change (join [44] (a :: b :: l)) with (a ++ 44 :: join [44] (b :: l)). apply Forall_app. split; [exact A|]. constructor; [apply scalar_ascii; lia|]. apply IH, B.
Qed.
Lemma to_string_scalar j : (forall x, Occurs x j -> Forall Scalar x) -> Forall Scalar (to_string j).
Proof.
  induction j as [|b|n|n|b m e|s|l H|l H] using json_all; intros O.
  - apply ascii_all. repeat constructor; cbn; lia.
  - apply ascii_all. destruct b; repeat constructor; cbn; lia.
  - apply ascii_all. eapply Forall_impl; [|exact (number_ascii _ _ (nu_nat n _ (decimal_numeral n)))]. cbn. lia.
  - apply ascii_all. eapply Forall_impl; [|exact (number_ascii _ _ (nu_neg n _ (decimal_numeral (S n))))]. cbn. lia.
  - apply ascii_all. eapply Forall_impl; [|exact (number_ascii _ _ (real_written b m e))]. cbn. lia.
  - apply quote_scalar, O. constructor.
  - cbn [to_string]. apply Forall_app. split; [apply ascii_all; repeat constructor; lia|]. apply Forall_app. split; [|apply ascii_all; repeat constructor; lia].
    apply join_scalar. apply Forall_map. rewrite Forall_forall in *. intros j I. apply H; [exact I|]. intros x X. apply O. apply (occurs_item x l j); assumption.
  - cbn [to_string]. apply Forall_app. split; [apply ascii_all; repeat constructor; lia|]. apply Forall_app. split; [|apply ascii_all; repeat constructor; lia].
    apply join_scalar. apply Forall_map. rewrite Forall_map in H. rewrite Forall_forall in H. apply Forall_forall. intros [k v] I. cbn [fst snd].
    apply Forall_app. split; [apply quote_scalar, O; apply (occurs_key k l v I)|]. constructor; [apply scalar_ascii; lia|].
    apply (H (k, v) I). intros x X. apply O. apply (occurs_member x l k v); assumption.
Qed.
