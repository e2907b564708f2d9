From Coq Require Import Ascii String.
From Coq Require Import List Arith Bool Lia.
From Verif Require Import Base PermsModel BookModel BookSpec BookProofs PropBook ChecksModel ChecksSpec.
Import ListNotations.

(** ** Words *)
Lemma words_gap g s : Forall White g -> words [] (g ++ s) = words [] s.
Proof. induction 1 as [|c g W _ IH]; [reflexivity|]. cbn [List.app words]. apply white_iff in W. rewrite W. exact IH. Qed.
Lemma words_word w : forall acc s, (forall c, In c w -> ~ White c) -> words acc (w ++ s) = words (acc ++ w) s.
Proof.
  induction w as [|c w IH]; intros acc s N; [cbn; rewrite app_nil_r; reflexivity|]. cbn [List.app words].
  pose proof (N c (or_introl eq_refl)) as C. apply not_white_iff in C. rewrite C. rewrite IH; [rewrite <- app_assoc; reflexivity|].
  intros d I. apply N. right. exact I.
Qed.
Lemma words_ends w rest : w <> [] -> (rest = [] \/ exists c r, rest = c :: r /\ White c) -> words w rest = w :: words [] rest.
Proof.
  intros N [->|(c & r & -> & W)]; destruct w as [|a w]; try congruence; [reflexivity|]. apply white_iff in W. cbn [words]. rewrite W. reflexivity.
Qed.

Lemma two_words x var ps : Two x var ps -> exists rest, words [] x = var :: ps :: rest.
Proof.
  intros (g & h & rest & -> & [V1 V2] & [P1 P2] & G & H & Hn & R). exists (words [] rest).
  rewrite words_gap by exact G. rewrite words_word by exact V2. cbn [List.app].
  rewrite words_ends; [|exact V1|]. 2:{ destruct h as [|c h]; [congruence|]. right. exists c, (h ++ ps ++ rest). split; [reflexivity|]. inversion H; auto. }
  f_equal. rewrite words_gap by exact H. rewrite words_word by exact P2. cbn [List.app]. apply words_ends; auto.
Qed.

(** A word that has begun. *)
Lemma word_begun s : forall acc v l, acc <> [] -> words acc s = v :: l ->
  exists v' tail, v = acc ++ v' /\ s = v' ++ tail /\ (forall c, In c v' -> ~ White c) /\
    (tail = [] \/ exists c r, tail = c :: r /\ White c) /\ words [] tail = l.
Proof.
  induction s as [|c s IH]; intros acc v l N E; cbn [words] in E.
  - destruct acc as [|a acc]; [congruence|]. injection E as <- <-. exists [], []. rewrite app_nil_r.
    split; [reflexivity|]. split; [reflexivity|]. split; [intros c []|]. auto.
  - destruct (is_white c) eqn:W.
    + destruct acc as [|a acc]; [congruence|]. injection E as <- E. exists [], (c :: s). rewrite app_nil_r.
      split; [reflexivity|]. split; [reflexivity|]. split; [intros d []|]. split; [right; exists c, s; split; [reflexivity|]; apply white_iff; exact W|].
      cbn [words]. rewrite W. exact E.
    + destruct (IH (acc ++ [c]) v l) as (v' & tail & -> & -> & V & T & L); [destruct acc; discriminate|exact E|].
      exists (c :: v'), tail. split; [rewrite <- app_assoc; reflexivity|]. split; [reflexivity|]. split; [|auto].
      intros d [<-|I]; [apply not_white_iff; exact W|auto].
Qed.
Lemma word_first s : forall v l, words [] s = v :: l ->
  exists g tail, s = g ++ v ++ tail /\ Forall White g /\ Word v /\ (tail = [] \/ exists c r, tail = c :: r /\ White c) /\ words [] tail = l.
Proof.
  induction s as [|c s IH]; intros v l E; [discriminate E|]. cbn [words] in E. destruct (is_white c) eqn:W.
  - destruct (IH v l E) as (g & tail & -> & G & R). exists (c :: g), tail. split; [reflexivity|]. split; [constructor; [apply white_iff; exact W|exact G]|exact R].
  - destruct (word_begun s [c] v l ltac:(discriminate) E) as (v' & tail & -> & -> & V & T & L).
    exists [], tail. split; [reflexivity|]. split; [constructor|]. split; [split; [discriminate|]|auto].
    intros d [<-|I]; [apply not_white_iff; exact W|auto].
Qed.
Lemma words_two x var ps rest : words [] x = var :: ps :: rest -> Two x var ps.
Proof.
  intros E. destruct (word_first x var _ E) as (g & tail & -> & G & V & T & L).
  destruct (word_first tail ps rest L) as (h & tail' & -> & H & P & T' & _).
  exists g, h, tail'. split; [reflexivity|]. split; [exact V|]. split; [exact P|]. split; [exact G|]. split; [exact H|]. split; [|exact T'].
  intros ->. cbn [List.app] in T. destruct P as [P1 P2]. destruct ps as [|c ps]; [congruence|].
  destruct T as [T|(d & r & T & W)]; [discriminate T|]. injection T as -> _. apply (P2 d); [left; reflexivity|exact W].
Qed.

(** ** Letters *)
Lemma mentions_iff l u s : mentions l u s = true <-> In l s \/ In u s.
Proof.
  unfold mentions. rewrite existsb_exists. split.
  - intros (c & I & E). apply orb_true_iff in E. rewrite !Nat.eqb_eq in E. destruct E; subst; auto.
  - intros [I|I]; eexists; (split; [exact I|]); rewrite Nat.eqb_refl; auto using orb_true_r.
Qed.
Lemma perms_says s p : Says s p <-> p = perms_of s.
Proof.
  unfold Says, perms_of. destruct p as [r w d]; cbn [p_read p_write p_drop]. split.
  - intros (A & B & C). f_equal; apply eq_true_iff_eq; rewrite ?orb_true_iff, ?mentions_iff; [exact A|exact B|rewrite C; tauto].
  - intros E. injection E as -> -> ->. rewrite orb_true_iff, !mentions_iff. tauto.
Qed.

(** ** Reading a file *)
Lemma opening_chars : opening = [96; 91]. Proof. reflexivity. Qed.
Lemma closing_chars : closing = [93; 96]. Proof. reflexivity. Qed.

Lemma quiet_tail c p next : Quiet (c :: p) next -> Quiet p next.
Proof.
  intros Q a b E. assert (L : length (c :: p) <= length (c :: a)); [|cbn in L; lia].
  apply (Q (c :: a) b). cbn [List.app]. destruct E as [-> | ->]; auto.
Qed.
Lemma quiet_head c d p next r : Quiet (c :: p) next -> p ++ next = d :: r -> ((c =? 96) && (d =? 91) = false) /\ ((c =? 93) && (d =? 96) = false).
Proof.
  intros Q E. split; apply not_true_iff_false; intros X; apply andb_true_iff in X; rewrite !Nat.eqb_eq in X; destruct X as [-> ->].
  - assert (L : length (96 :: p) <= 0); [|cbn in L; lia]. apply (Q [] r). left. cbn [List.app]. rewrite E. reflexivity.
  - assert (L : length (93 :: p) <= 0); [|cbn in L; lia]. apply (Q [] r). right. cbn [List.app]. rewrite E. reflexivity.
Qed.
Lemma quiet_cons c t next : Quiet t next -> (forall d r, t ++ next = d :: r -> (c =? 96) && (d =? 91) = false /\ (c =? 93) && (d =? 96) = false) -> Quiet (c :: t) next.
Proof.
  intros Q H a b E. destruct a as [|x a]; [exfalso|].
  - rewrite opening_chars, closing_chars in E. cbn [List.app] in E.
    destruct E as [E|E]; injection E as -> E; destruct (H _ _ E) as [H1 H2]; [discriminate H1|discriminate H2].
  - cbn [List.app length] in *. apply le_n_S. apply (Q a b). destruct E as [E|E]; injection E as _ E; auto.
Qed.

Lemma scan_plain p : forall out m, Quiet p [] -> scan None p out m = inr (out ++ p, m).
Proof.
  induction p as [|c p IH]; intros out m Q; [cbn; rewrite app_nil_r; reflexivity|].
  pose proof (IH (out ++ [c]) m (quiet_tail _ _ _ Q)) as E. rewrite <- app_assoc in E. cbn [List.app] in E. rewrite <- E.
  destruct p as [|d p]; [reflexivity|]. destruct (quiet_head c d (d :: p) [] p Q ltac:(rewrite app_nil_r; reflexivity)) as [A B].
  cbn [scan]. rewrite A, B. reflexivity.
Qed.
Lemma scan_to_note p rest : forall out m, Quiet p opening -> scan None (p ++ opening ++ rest) out m = scan (Some []) rest (out ++ p) m.
Proof.
  induction p as [|c p IH]; intros out m Q; [rewrite app_nil_r; reflexivity|].
  pose proof (IH (out ++ [c]) m (quiet_tail _ _ _ Q)) as E. rewrite <- app_assoc in E. cbn [List.app] in E. rewrite <- E.
  destruct (p ++ opening) as [|d r] eqn:D; [destruct p; discriminate D|].
  destruct (quiet_head c d p opening r Q D) as [A B].
  replace ((c :: p) ++ opening ++ rest) with (c :: d :: r ++ rest); [|cbn [List.app]; f_equal; rewrite app_assoc, D; reflexivity].
  replace (p ++ opening ++ rest) with (d :: r ++ rest) by (rewrite app_assoc, D; reflexivity).
  cbn [scan]. rewrite A, B. reflexivity.
Qed.

Lemma closes_tail c x : Closes (c :: x) -> Closes x.
Proof. intros Q a b E. assert (L : length (c :: x) <= length (c :: a)); [|cbn in L; lia]. apply (Q (c :: a) b). cbn [List.app]. rewrite E. reflexivity. Qed.
Lemma scan_inside x rest : forall acc out m, Closes x -> scan (Some acc) (x ++ closing ++ rest) out m =
  match words [] (acc ++ x) with
  | var :: ps :: _ => scan None rest (out ++ var) (aset range_eqd m (blen out, blen (out ++ var)) (perms_of ps))
  | _ => inl Panic
  end.
Proof.
  induction x as [|c x IH]; intros acc out m Q; [rewrite app_nil_r; reflexivity|].
  pose proof (IH (acc ++ [c]) out m (closes_tail _ _ Q)) as E. rewrite <- app_assoc in E. cbn [List.app] in E. rewrite <- E.
  destruct (x ++ closing) as [|d r] eqn:D; [destruct x; discriminate D|].
  assert (A : (c =? 93) && (d =? 96) = false).
  { apply not_true_iff_false; intros X; apply andb_true_iff in X; rewrite !Nat.eqb_eq in X; destruct X as [-> ->].
    assert (L : length (93 :: x) <= 0); [|cbn in L; lia]. apply (Q [] r). cbn [List.app]. rewrite D. reflexivity. }
  replace ((c :: x) ++ closing ++ rest) with (c :: d :: r ++ rest); [|cbn [List.app]; f_equal; rewrite app_assoc, D; reflexivity].
  replace (x ++ closing ++ rest) with (d :: r ++ rest) by (rewrite app_assoc, D; reflexivity).
  cbn [scan]. rewrite A. reflexivity.
Qed.

(** Each annotation has its own key. *)
Definition Behind (m : wanted) (out : str) : Prop := forall a b p, In ((a, b), p) m -> a < b /\ b <= blen out.
Lemma aset_new m out var p : Behind m out -> var <> [] ->
  aset range_eqd m (blen out, blen (out ++ var)) p = m ++ [((blen out, blen (out ++ var)), p)] /\
  Behind (m ++ [((blen out, blen (out ++ var)), p)]) (out ++ var).
Proof.
  intros B N. pose proof (blen_pos var N) as V. split.
  - assert (G : forall l, (forall a b q, In ((a, b), q) l -> a < b /\ b <= blen out) ->
      aset range_eqd l (blen out, blen (out ++ var)) p = l ++ [((blen out, blen (out ++ var)), p)]).
    { induction l as [|[[a b] q] l IH]; intros H; [reflexivity|]. cbn [aset List.app].
      destruct (range_eqd (blen out, blen (out ++ var)) (a, b)) as [E|_]; [|rewrite IH; [reflexivity|]; intros; eapply H; right; eauto].
      destruct (H a b q (or_introl eq_refl)). injection E as E1 E2. lia. }
    apply G. exact B.
  - intros a b q I. apply in_app_or in I. rewrite blen_app. destruct I as [I|[I|[]]]; [specialize (B _ _ _ I); lia|].
    injection I as <- <- _. rewrite blen_app. lia.
Qed.
Lemma behind_app m out p : Behind m out -> Behind m (out ++ p).
Proof. intros B a b q I. specialize (B _ _ _ I). rewrite blen_app. lia. Qed.

Lemma file_scan before src clean w : File before src clean w -> forall m, Behind m before ->
  scan None src before m = inr (before ++ clean, m ++ w).
Proof.
  induction 1 as [before p Q|before p x var ps perms src clean w Q C T S0 F IH]; intros m B.
  - rewrite scan_plain by exact Q. rewrite app_nil_r. reflexivity.
  - rewrite scan_to_note by exact Q. rewrite scan_inside by exact C. cbn [List.app].
    destruct (two_words _ _ _ T) as (rest & ->). apply perms_says in S0. subst perms.
    assert (V : var <> []) by (destruct T as (? & ? & ? & _ & [V _] & _); exact V).
    destruct (aset_new m (before ++ p) var (perms_of ps) (behind_app _ _ p B) V) as [-> B'].
    rewrite <- !app_assoc in *. rewrite IH by exact B'. rewrite <- !app_assoc. reflexivity.
Qed.

Lemma file_cons before c t clean w : File (before ++ [c]) t clean w ->
  (forall d r, t = d :: r -> (c =? 96) && (d =? 91) = false /\ (c =? 93) && (d =? 96) = false) -> File before (c :: t) (c :: clean) w.
Proof.
  intros F H. inversion F as [p Q E1 E2 E3|p x var ps perms src cl m Q C T S0 F' E1 E2 E3]; subst.
  - constructor. apply quiet_cons; [exact Q|]. intros d r E. rewrite app_nil_r in E. apply (H d r E).
  - rewrite <- app_assoc in F'. cbn [List.app] in F'.
    replace (before ++ [c] ++ p ++ var) with (before ++ (c :: p) ++ var) in F' by reflexivity.
    replace (blen ((before ++ [c]) ++ p)) with (blen (before ++ (c :: p))) by (rewrite <- app_assoc; reflexivity).
    replace (blen ((before ++ [c]) ++ p ++ var)) with (blen (before ++ (c :: p) ++ var)) by (rewrite <- app_assoc; reflexivity).
    change (c :: p ++ opening ++ x ++ closing ++ src) with ((c :: p) ++ opening ++ x ++ closing ++ src).
    change (c :: p ++ var ++ cl) with ((c :: p) ++ var ++ cl).
    apply File_note with (ps := ps); auto. apply quiet_cons; [exact Q|]. intros d r E. apply (H d (r ++ x ++ closing ++ src)). rewrite app_assoc, E. reflexivity.
Qed.

Lemma closes_cons c x : Closes x -> (forall d r, x ++ closing = d :: r -> (c =? 93) && (d =? 96) = false) -> Closes (c :: x).
Proof.
  intros Q H a b E. destruct a as [|y a]; [exfalso|].
  - rewrite closing_chars in E at 2. cbn [List.app] in E. injection E as -> E. specialize (H _ _ E). discriminate H.
  - cbn [List.app length] in *. apply le_n_S. injection E as _ E. apply (Q a b E).
Qed.
Lemma inside_scan s : forall acc out m res, scan (Some acc) s out m = inr res ->
  exists x var ps more rest, s = x ++ closing ++ rest /\ Closes x /\ words [] (acc ++ x) = var :: ps :: more /\
    scan None rest (out ++ var) (aset range_eqd m (blen out, blen (out ++ var)) (perms_of ps)) = inr res.
Proof.
  induction s as [|c s IH]; intros acc out m res E; [discriminate E|].
  assert (Go : scan (Some (acc ++ [c])) s out m = inr res -> (forall d r, s = d :: r -> (c =? 93) && (d =? 96) = false) ->
    exists x var ps more rest, c :: s = x ++ closing ++ rest /\ Closes x /\ words [] (acc ++ x) = var :: ps :: more /\
    scan None rest (out ++ var) (aset range_eqd m (blen out, blen (out ++ var)) (perms_of ps)) = inr res).
  { intros E' H. destruct (IH _ _ _ _ E') as (x & var & ps & more & rest & -> & C & W & R).
    exists (c :: x), var, ps, more, rest. split; [reflexivity|]. split; [|split; [rewrite <- app_assoc in W; exact W|exact R]].
    apply closes_cons; [exact C|]. intros d r D. apply (H d (r ++ rest)). rewrite app_assoc, D. reflexivity. }
  destruct s as [|d r]; [apply Go; [exact E|intros; discriminate]|].
  cbn [scan] in E. destruct ((c =? 93) && (d =? 96)) eqn:K.
  - apply andb_true_iff in K. rewrite !Nat.eqb_eq in K. destruct K as [-> ->].
    destruct (words [] acc) as [|var [|ps more]] eqn:W; try discriminate E.
    exists [], var, ps, more, r. split; [reflexivity|]. split; [intros a b _; cbn; lia|]. split; [rewrite app_nil_r; exact W|exact E].
  - apply Go; [exact E|]. intros d' r' X. injection X as <- _. exact K.
Qed.

Lemma scan_file n : forall s out m clean m', length s <= n -> Behind m out -> scan None s out m = inr (clean, m') ->
  exists cl w, clean = out ++ cl /\ m' = m ++ w /\ File out s cl w.
Proof.
  induction n as [|n IH]; intros s out m clean m' L B E; (destruct s as [|c s];
    [injection E as <- <-; exists [], []; rewrite !app_nil_r; split; [reflexivity|]; split; [reflexivity|]; constructor; intros a b _; cbn; lia|]).
  - cbn in L. lia.
  - cbn [length] in L.
    assert (Go : scan None s (out ++ [c]) m = inr (clean, m') -> (forall d r, s = d :: r -> (c =? 96) && (d =? 91) = false /\ (c =? 93) && (d =? 96) = false) ->
      exists cl w, clean = out ++ cl /\ m' = m ++ w /\ File out (c :: s) cl w).
    { intros E' H. destruct (IH s (out ++ [c]) m clean m' ltac:(lia) (behind_app _ _ _ B) E') as (cl & w & -> & -> & F).
      exists (c :: cl), w. split; [rewrite <- app_assoc; reflexivity|]. split; [reflexivity|]. apply file_cons; auto. }
    destruct s as [|d r]; [apply Go; [exact E|intros; discriminate]|].
    cbn [scan] in E. destruct ((c =? 96) && (d =? 91)) eqn:K1.
    + apply andb_true_iff in K1. rewrite !Nat.eqb_eq in K1. destruct K1 as [-> ->].
      destruct (inside_scan _ _ _ _ _ E) as (x & var & ps & more & rest & -> & C & W & R). cbn [List.app] in W.
      pose proof (words_two _ _ _ _ W) as T. assert (V : var <> []) by (destruct T as (? & ? & ? & _ & [V _] & _); exact V).
      destruct (aset_new m out var (perms_of ps) B V) as [A B']. rewrite A in R.
      assert (L' : length rest <= n) by (cbn [length] in L; rewrite !app_length in L; lia).
      destruct (IH rest (out ++ var) _ clean m' L' B' R) as (cl & w & -> & -> & F).
      exists (var ++ cl), (((blen (out ++ []), blen (out ++ [] ++ var)), perms_of ps) :: w).
      split; [rewrite <- app_assoc; reflexivity|]. split; [rewrite app_nil_r, <- app_assoc; reflexivity|].
      change (96 :: 91 :: x ++ closing ++ rest) with ([] ++ opening ++ x ++ closing ++ rest).
      change (var ++ cl) with ([] ++ var ++ cl). apply File_note with (ps := ps); auto; [intros a b _; cbn; lia|apply perms_says; reflexivity].
    + destruct ((c =? 93) && (d =? 96)) eqn:K2; [discriminate E|].
      apply Go; [exact E|]. intros d' r' X. injection X as <- _. auto.
Qed.

(** ** Checking *)
Lemma retain_some body m : forall m', retain body m = Some m' ->
  (forall r p, In (r, p) m -> body r = NoPlace \/ body r = Computed p) /\
  (forall r p, In (r, p) m' <-> In (r, p) m /\ body r = NoPlace).
Proof.
  induction m as [|[r p] m IH]; intros m' E; cbn [retain] in E.
  - injection E as <-. split; [intros r p []|]. intros r p. split; [intros []|intros [[] _]].
  - destruct (body r) as [| |q] eqn:B; [|discriminate E|].
    + destruct (retain body m) as [l|]; [|discriminate E]. injection E as <-. destruct (IH l eq_refl) as [I1 I2]. split.
      * intros r' p' [X|I]; [injection X as <- <-; auto|auto].
      * intros r' p'. cbn [In]. rewrite I2. split; [intros [X|[I X]]; [injection X as <- <-; auto|auto]|]. intros [[X|I] Y]; auto.
    + destruct (permissions_eqd p q) as [->|]; [|discriminate E]. destruct (IH m' E) as [I1 I2]. split.
      * intros r' p' [X|I]; [injection X as <- <-; auto|auto].
      * intros r' p'. cbn [In]. rewrite I2. split; [intros [I X]; auto|]. intros [[X|I] Y]; [injection X as <- <-; congruence|auto].
Qed.
Lemma retain_fine body m : (forall r p, In (r, p) m -> body r = NoPlace \/ body r = Computed p) -> exists m', retain body m = Some m'.
Proof.
  induction m as [|[r p] m IH]; intros H; [exists []; reflexivity|]. cbn [retain].
  destruct IH as (l & E); [intros r' p' I; apply H; right; exact I|].
  destruct (H r p (or_introl eq_refl)) as [-> | ->]; rewrite E; [exists ((r, p) :: l); reflexivity|].
  destruct (permissions_eqd p p); [exists l; reflexivity|congruence].
Qed.
Lemma right_cons b bodies r p : Right (b :: bodies) r p <-> b r = Computed p \/ (b r = NoPlace /\ Right bodies r p).
Proof.
  unfold Right, Has. split.
  - intros (pre & x & post & E & N & X). destruct pre as [|y pre]; injection E as <- ->; [auto|]. right. split.
    + destruct (b r) eqn:D; [reflexivity| |]; exfalso; apply (N b (or_introl eq_refl)); rewrite D; discriminate.
    + exists pre, x, post. split; [reflexivity|]. split; [intros b' I; apply N; right; exact I|exact X].
  - intros [X|(X & pre & x & post & -> & N & Y)]; [exists [], b, bodies; split; [reflexivity|]; split; [intros b' []|exact X]|].
    exists (b :: pre), x, post. split; [reflexivity|]. split; [|exact Y]. intros b' [<-|I]; [rewrite X; auto|auto].
Qed.
Lemma bodies_right bodies : forall m, check_bodies bodies m = Some [] <-> forall r p, In (r, p) m -> Right bodies r p.
Proof.
  induction bodies as [|b bodies IH]; intros m; cbn [check_bodies].
  - split; [intros E; injection E as ->; intros r p []|]. intros H. destruct m as [|[r p] m]; [reflexivity|].
    destruct (H r p (or_introl eq_refl)) as (pre & x & post & E & _). destruct pre; discriminate E.
  - split.
    + destruct (retain b m) as [m'|] eqn:E; [|discriminate]. intros C r p I. destruct (retain_some b m m' E) as [I1 I2].
      apply right_cons. destruct (I1 r p I) as [X|X]; [right|auto]. split; [exact X|]. apply (proj1 (IH m') C). apply I2. auto.
    + intros H. destruct (retain_fine b m) as (m' & E).
      { intros r p I. specialize (H r p I). apply right_cons in H. tauto. }
      rewrite E. apply IH. intros r p I. apply (retain_some b m m' E) in I. destruct I as [I X]. specialize (H r p I). apply right_cons in H.
      destruct H as [H|[_ H]]; [congruence|exact H].
Qed.
