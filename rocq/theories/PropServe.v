(** * Property C107: the server and the page find each other *)
From Coq Require Import Ascii String.
From Coq Require Import List Arith Bool Lia NArith.
From Verif Require Import Base BookModel RunModel RunSpec RunProofs ServeModel ServeSpec.
Import ListNotations.

(** ** Digits *)

Lemma digit_spec c d : digit c = Some d <-> c = 48 + d /\ d <= 9.
Proof.
  unfold digit. destruct (Nat.leb_spec 48 c); cbn [andb]; [destruct (Nat.leb_spec c 57)|]; split; try discriminate.
  - intros E. injection E as <-. lia.
  - intros [-> _]. f_equal. lia.
  - lia.
  - lia.
Qed.

(** Digits behind digits whose number is [a]. *)
Inductive From (a : N) : list nat -> N -> Prop :=
| from_nil : From a [] a
| from_more s n d : From a s n -> d <= 9 -> From a (s ++ [48 + d]) (10 * n + N.of_nat d).

Lemma from_cons a d s n : d <= 9 -> From (10 * a + N.of_nat d) s n -> From a ((48 + d) :: s) n.
Proof.
  intros D F. induction F as [|s n e F IH E].
  - apply (from_more a [] a d); [constructor|auto].
  - apply (from_more a ((48 + d) :: s)); auto.
Qed.
Lemma from_app a s n t m : From a s n -> From n t m -> From a (s ++ t) m.
Proof.
  intros F G. induction G as [|t m d G IH D]; [rewrite app_nil_r; auto|]. rewrite app_assoc. constructor; auto.
Qed.
Lemma from_inv a s n : From a s n -> s = [] /\ n = a \/ exists d t, s = (48 + d) :: t /\ d <= 9 /\ From (10 * a + N.of_nat d) t n.
Proof.
  induction 1 as [|s n d F IH D]; [left; auto|]. right. destruct IH as [[-> ->]|(e & t & -> & E & G)].
  - exists d, []. cbn. repeat split; auto. constructor.
  - exists e, (t ++ [48 + d]). repeat split; auto. constructor; auto.
Qed.
Lemma from_le a s n : From a s n -> (a <= n)%N.
Proof. induction 1; lia. Qed.
Lemma digits_from s n : Digits s n <-> From 0 s n /\ s <> [].
Proof.
  split.
  - induction 1 as [d D|s n d F [IH N] D].
    + split; [|discriminate]. apply (from_more 0 [] 0 d); [constructor|auto].
    + split; [constructor; auto|]. destruct s; discriminate.
  - intros [F N]. induction F as [|s n d F IH D]; [congruence|]. destruct s as [|c s].
    + apply from_inv in F as [[_ ->]|(e & t & E & _)]; [|discriminate]. apply digits_one. auto.
    + apply digits_more; auto. apply IH. discriminate.
Qed.
Lemma from_fun a s n m : From a s n -> From a s m -> n = m.
Proof.
  revert a n m. induction s as [|c s IH]; intros a n m F G.
  - apply from_inv in F as [[_ ->]|(? & ? & E & _)]; [|discriminate]. apply from_inv in G as [[_ ->]|(? & ? & E & _)]; [|discriminate]. auto.
  - apply from_inv in F as [[E _]|(d & t & E & _ & F)]; [discriminate|]. apply from_inv in G as [[E' _]|(d' & t' & E' & _ & G)]; [discriminate|].
    injection E as -> <-. injection E' as E' <-. assert (d' = d) as -> by lia. eauto.
Qed.
Lemma digits_sign t n : ~ Digits (43 :: t) n.
Proof. intros D. apply digits_from in D as [F _]. apply from_inv in F as [[E _]|(d & t' & E & _)]; [discriminate|]. injection E as E. lia. Qed.
Lemma numeral_fun s n m : Numeral s n -> Numeral s m -> n = m.
Proof.
  intros [D|(t & -> & D)] [E|(t' & E & E')].
  - apply digits_from in D as [D _]. apply digits_from in E as [E _]. eapply from_fun; eauto.
  - subst. destruct (digits_sign _ _ D).
  - destruct (digits_sign _ _ E).
  - injection E as <-. apply digits_from in D as [D _]. apply digits_from in E' as [E' _]. eapply from_fun; eauto.
Qed.

Lemma u16_digits_spec s : forall a n, u16_digits a s = Some n <-> From a s n /\ (s = [] \/ n < 2 ^ 16)%N.
Proof.
  induction s as [|c s IH]; intros a n; cbn [u16_digits].
  - split; [intros E; injection E as <-; split; [constructor|left; auto]|].
    intros [F _]. apply from_inv in F as [[_ ->]|(? & ? & E & _)]; [auto|discriminate].
  - change (2 ^ 16)%N with 65536%N in *. split.
    + destruct (digit c) as [d|] eqn:D; [|discriminate]. apply digit_spec in D as [-> D].
      destruct (N.ltb_spec 65535 (10 * a + N.of_nat d)); [discriminate|]. intros E. apply IH in E as [F L].
      split; [apply from_cons; auto|]. right. destruct L as [->|L]; auto.
      apply from_inv in F as [[_ ->]|(? & ? & X & _)]; [lia|discriminate].
    + intros [F [X|L]]; [discriminate|]. apply from_inv in F as [[X _]|(d & t & X & D & F)]; [discriminate|]. injection X as Ec <-.
      assert (digit c = Some d) as -> by (apply digit_spec; split; [exact Ec|auto]).
      pose proof (from_le _ _ _ F). destruct (N.ltb_spec 65535 (10 * a + N.of_nat d)); [lia|]. apply IH. auto.
Qed.

Lemma parse_u16_spec s n : parse_u16 s = Some n <-> Numeral s n /\ (n < 2 ^ 16)%N.
Proof.
  destruct s as [|c r].
  - split; [discriminate|]. intros [[D|(t & E & _)] _]; [|discriminate]. apply digits_from in D as [_ D]. congruence.
  - unfold parse_u16. destruct (Nat.eqb_spec c 43) as [->|N].
    + destruct r as [|e r].
      * split; [discriminate|]. intros [[D|(t & E & D)] _]; [destruct (digits_sign _ _ D)|]. injection E as <-. apply digits_from in D as [_ D]. congruence.
      * rewrite u16_digits_spec. split.
        -- intros [F [E|L]]; [discriminate|]. split; auto. right. exists (e :: r). split; auto. apply digits_from. split; auto. discriminate.
        -- intros [[D|(t & E & D)] L]; [destruct (digits_sign _ _ D)|]. injection E as <-. apply digits_from in D as [D _]. auto.
    + rewrite u16_digits_spec. split.
      * intros [F [E|L]]; [discriminate|]. split; auto. left. apply digits_from. split; auto. discriminate.
      * intros [[D|(t & E & D)] L]; [|congruence]. apply digits_from in D as [D _]. auto.
Qed.

(** The port is the one that was asked for, and 8008 if none was. *)
Theorem C107_port_iff :
  forall v n, server_port v = n <-> PortSet v n \/ ((forall m, ~ PortSet v m) /\ n = 8008%N).
Proof.
  intros v n. destruct v as [| |s].
  - cbn. split; [intros <-; right; split; auto; intros m (s & E & _); discriminate|]. intros [(s & E & _)|[_ ->]]; [discriminate|auto].
  - cbn. split; [intros <-; right; split; auto; intros m (s & E & _); discriminate|]. intros [(s & E & _)|[_ ->]]; [discriminate|auto].
  - cbn [server_port]. destruct (parse_u16 s) as [p|] eqn:P.
    + apply parse_u16_spec in P as [P L]. split.
      * intros <-. left. exists s. auto.
      * intros [(t & E & Q & _)|[Q _]]; [injection E as <-; eapply numeral_fun; eauto|]. exfalso. apply (Q p). exists s. auto.
    + assert (X : forall m, ~ PortSet (Text s) m).
      { intros m (t & E & Q & L). injection E as <-. assert (parse_u16 s = Some m) by (apply parse_u16_spec; auto). congruence. }
      split; [intros <-; right; auto|]. intros [Q|[_ ->]]; auto. destruct (X n Q).
Qed.
Print Assumptions C107_port_iff.

(** Refuted: a number that is too large, or has a blank behind or before it, is ignored silently. *)
Theorem C107_port_refuted :
  (forall s n, Numeral s n -> (2 ^ 16 <= n)%N -> server_port (Text s) = 8008%N) /\
  (forall s n, Numeral s n -> server_port (Text (s ++ [10])) = 8008%N /\ server_port (Text (32 :: s)) = 8008%N).
Proof.
  split.
  - intros s n D L. apply C107_port_iff. right. split; auto. intros m (t & E & Q & M). injection E as <-.
    rewrite (numeral_fun _ _ _ D Q) in L. lia.
  - intros s n _. split; apply C107_port_iff; right; split; auto; intros m (t & E & Q & M); injection E as <-.
    + assert (X : forall u k, ~ Digits (u ++ [10]) k).
      { intros u k D. inversion D as [d X E|u' k' d D' X E].
        - destruct u as [|? [|]]; try discriminate E. all: injection E as E; lia.
        - apply app_inj_tail in E as [_ E]. lia. }
      destruct Q as [Q|(t & E & Q)]; [eapply X; eauto|]. destruct s as [|c s]; [discriminate|]. injection E as _ <-. eapply X; eauto.
    + destruct Q as [Q|(t & E & _)]; [|discriminate]. apply digits_from in Q as [Q _].
      apply from_inv in Q as [[E _]|(d & t & E & _)]; [discriminate|]. injection E as E. lia.
Qed.
Print Assumptions C107_port_refuted.

(** ** The address *)

Lemma octet_digits_spec s : forall a n, octet_digits a s = Some n <-> From (N.of_nat a) s (N.of_nat n).
Proof.
  induction s as [|c s IH]; intros a n; cbn [octet_digits].
  - split; [intros E; injection E as <-; constructor|]. intros F. apply from_inv in F as [[_ E]|(? & ? & E & _)]; [|discriminate]. apply Nnat.Nat2N.inj in E. congruence.
  - split.
    + destruct (digit c) as [d|] eqn:D; [|discriminate]. apply digit_spec in D as [-> D]. intros E. apply IH in E. apply from_cons; auto.
      replace (10 * N.of_nat a + N.of_nat d)%N with (N.of_nat (10 * a + d)) by lia. auto.
    + intros F. apply from_inv in F as [[X _]|(d & t & X & D & F)]; [discriminate|]. injection X as Ec <-.
      assert (digit c = Some d) as -> by (apply digit_spec; split; [exact Ec|auto]). apply IH.
      replace (N.of_nat (10 * a + d)) with (10 * N.of_nat a + N.of_nat d)%N by lia. auto.
Qed.

Lemma from_long a s n : From a s n -> (a * 10 ^ N.of_nat (length s) <= n)%N.
Proof.
  induction 1 as [|s n d F IH D]; [cbn; lia|]. rewrite app_length. cbn [length]. rewrite Nat.add_1_r, Nnat.Nat2N.inj_succ, N.pow_succ_r'. lia.
Qed.

Lemma octet_spec s n : octet s = Some n <-> Octet s n.
Proof.
  unfold Octet. rewrite digits_from. destruct s as [|c r]; [split; [discriminate|intros ([_ X] & _); congruence]|].
  unfold octet. split.
  - destruct (Nat.ltb_spec 3 (length (c :: r))); [discriminate|].
    destruct ((c =? 48) && negb (length r =? 0)) eqn:Z; [discriminate|].
    destruct (octet_digits 0 (c :: r)) as [m|] eqn:O; [|discriminate]. destruct (Nat.leb_spec m 255); [|discriminate].
    intros E. injection E as <-. apply octet_digits_spec in O. split; [split; [exact O|discriminate]|]. split; [lia|].
    destruct (Nat.eqb_spec c 48) as [->|N]; cbn [andb] in Z; [left|right; intros t E; congruence].
    destruct r; [auto|discriminate].
  - intros ([F _] & L & Z).
    assert (Z' : (c =? 48) && negb (length r =? 0) = false).
    { destruct (Nat.eqb_spec c 48) as [->|]; auto. destruct Z as [E|Z]; [injection E as ->; auto|]. destruct (Z r eq_refl). }
    assert (Lr : ~ 3 < length (c :: r)).
    { cbn [length]. intros L3. destruct Z as [E|Z]; [injection E as _ ->; cbn in L3; lia|].
      apply from_inv in F as [[E _]|(d & t & E & D & F)]; [discriminate|]. injection E as -> <-.
      assert (1 <= d) by (destruct d; [destruct (Z r eq_refl)|lia]). apply from_long in F.
      assert (10 ^ 3 <= 10 ^ N.of_nat (length r))%N by (apply N.pow_le_mono_r; lia). change (10 ^ 3)%N with 1000%N in *. nia. }
    destruct (Nat.ltb_spec 3 (length (c :: r))); [lia|]. rewrite Z'.
    assert (octet_digits 0 (c :: r) = Some n) as -> by (apply octet_digits_spec; auto).
    destruct (Nat.leb_spec n 255); [auto|lia].
Qed.

Lemma from_no_dot a s n : From a s n -> ~ In 46 s.
Proof. induction 1; [intros []|]. rewrite in_app_iff. intros [I|[E|[]]]; [auto|lia]. Qed.
Lemma octet_no_dot s n : Octet s n -> ~ In 46 s.
Proof. intros (D & _). apply digits_from in D as [D _]. eapply from_no_dot; eauto. Qed.

Lemma split_app c a s : ~ In c a -> split c (a ++ [c] ++ s) = a :: split c s.
Proof.
  induction a as [|x a IH]; intros N; cbn [List.app split].
  - rewrite Nat.eqb_refl. auto.
  - destruct (Nat.eqb_spec x c) as [->|]; [destruct N; left; auto|]. cbn [List.app] in IH. rewrite IH by (intros I; apply N; right; auto). auto.
Qed.
Lemma split_none c s : ~ In c s -> split c s = [s].
Proof.
  induction s as [|x s IH]; intros N; cbn [split]; auto. destruct (Nat.eqb_spec x c) as [->|]; [destruct N; left; auto|].
  rewrite IH by (intros I; apply N; right; auto). auto.
Qed.
Lemma split_text c s : exists a r, split c s = a :: r /\ s = a ++ flat_map (fun x => c :: x) r.
Proof.
  induction s as [|x s (a & r & E & ->)]; [exists [], []; auto|]. cbn [split]. rewrite E. destruct (Nat.eqb_spec x c) as [->|].
  - exists [], (a :: r). auto.
  - exists (x :: a), r. auto.
Qed.

Lemma parse_v4_spec s i : parse_v4 s = Some i <-> Dotted s i.
Proof.
  split.
  - unfold parse_v4. destruct (split_text 46 s) as (a & r & E & Es). rewrite E. destruct r as [|b [|c [|d [|? r]]]]; try discriminate.
    destruct (octet a) as [na|] eqn:Ha; [|discriminate]. destruct (octet b) as [nb|] eqn:Hb; [|discriminate].
    destruct (octet c) as [nc|] eqn:Hc; [|discriminate]. destruct (octet d) as [nd|] eqn:Hd; [|discriminate].
    intros X. injection X as <-. exists na, nb, nc, nd, a, b, c, d. rewrite <- !octet_spec. repeat (split; auto).
    rewrite Es. cbn. rewrite app_nil_r, <- ?app_assoc. auto.
  - intros (a & b & c & d & ta & tb & tc & td & -> & A & B & C & D & ->). unfold parse_v4.
    rewrite !split_app by (eapply octet_no_dot; eauto). rewrite split_none by (eapply octet_no_dot; eauto).
    apply octet_spec in A, B, C, D. rewrite A, B, C, D. auto.
Qed.

(** The server listens at the address that was asked for, 127.0.0.1 if none was, and at its port; with an address it cannot read
    it does not start. *)
Theorem C107_address :
  forall v6 address port,
    let s := match address with Text s => s | _ => lit "127.0.0.1" end in
    (forall i, Dotted s i -> listens v6 address port = Some (i, server_port port)) /\
    (forall x, (forall i, ~ Dotted s i) -> v6 s = Some x -> listens v6 address port = Some (V6 x, server_port port)) /\
    ((forall i, ~ Dotted s i) -> v6 s = None -> listens v6 address port = None).
Proof.
  intros v6 address port. cbv zeta. unfold listens, server_address, parse_ip.
  assert (N : forall s, (forall i, ~ Dotted s i) -> parse_v4 s = None).
  { intros s H. destruct (parse_v4 s) as [i|] eqn:E; auto. apply parse_v4_spec in E. destruct (H i E). }
  repeat split.
  - intros i D. apply parse_v4_spec in D. rewrite D. reflexivity.
  - intros x H E. rewrite (N _ H), E. reflexivity.
  - intros H E. rewrite (N _ H), E. reflexivity.
Qed.
Print Assumptions C107_address.

(** Refuted: the name of a host is no address, whatever the reader of version 6, which knows letters a to f, makes of others. *)
Theorem C107_host_refuted :
  forall v6 port s, ~ In 46 s -> v6 s = None -> listens v6 (Text s) port = None.
Proof.
  intros v6 port s N V. destruct (C107_address v6 (Text s) port) as (_ & _ & H). apply H; auto.
  intros i (a & b & c & d & ta & tb & tc & td & _ & _ & _ & _ & _ & ->). apply N. rewrite !in_app_iff. cbn. tauto.
Qed.
Print Assumptions C107_host_refuted.

(** ** The routes *)

(** Every request gets the answer of its path and method. *)
Theorem C107_routes :
  forall e m path body,
    let r := Request m path body in
    (path = lit "/hi" -> m = GET -> handle e r = Answer 200 (BText (lit "HELLO!"))) /\
    (path = lit "/hi" -> m <> GET -> handle e r = Answer 405 (BText [])) /\
    (path = lit "/permissions" \/ path = lit "/interpreter" -> m <> POST -> handle e r = Answer 405 (BText [])) /\
    (path <> lit "/hi" -> path <> lit "/permissions" -> path <> lit "/interpreter" ->
       handle e r = Answer 404 (BText (lit "No route " ++ path))).
Proof.
  intros e m path body. cbv zeta. unfold handle. cbn [r_path r_method]. repeat split.
  - intros -> ->. reflexivity.
  - intros -> M. destruct m; try reflexivity. congruence.
  - intros [-> | ->] M; destruct m; try reflexivity; congruence.
  - intros A B C. unfold route_of. destruct (str_eqd path (lit "/hi")); [contradiction|]. destruct (str_eqd path (lit "/permissions")); [contradiction|].
    destruct (str_eqd path (lit "/interpreter")); [contradiction|]. reflexivity.
Qed.
Print Assumptions C107_routes.

(** ** The page *)

(** A page and a server for which nothing was set find each other, and the page asks for its operation. *)
Theorem C107_default :
  forall v6 op code config, op = lit "permissions" \/ op = lit "interpreter" ->
    let (target, r) := call_backend default_url op code config in
    listens v6 Unset Unset = Some target /\ Asks r op config /\ r_body r = Some (code, config).
Proof.
  intros v6 op code config O. cbn. split; [reflexivity|]. split; [|auto]. split; [auto|]. split; [cbn; rewrite app_nil_r; auto|].
  split; [auto|]. exists code. auto.
Qed.
Print Assumptions C107_default.

(** For a server behind a path the last part of the path is dropped unless a slash stands behind it: the operation takes its place. *)
Theorem C107_path_refuted :
  forall i port dirs last op code config,
    r_path (snd (call_backend (Url i port (dirs ++ [last])) op code config)) = flat_map (fun s => lit "/" ++ s) dirs ++ lit "/" ++ op /\
    fst (call_backend (Url i port (dirs ++ [last])) op code config) = (i, port).
Proof.
  intros i port dirs last op code config. split; [|reflexivity]. cbn [call_backend snd r_path resolve u_path].
  rewrite removelast_last. unfold path_text. rewrite flat_map_app. cbn [flat_map]. rewrite app_nil_r. reflexivity.
Qed.
Print Assumptions C107_path_refuted.

(** An operation the server does not know is refused as a text, which the page cannot read. *)
Theorem C107_other_operation :
  forall e u op code config, removelast (u_path u) = [] -> op <> lit "permissions" -> op <> lit "interpreter" -> op <> lit "hi" ->
    page_of (handle e (snd (call_backend u op code config))) = PRejected.
Proof.
  intros e u op code config U A B C. unfold call_backend. cbn [snd resolve u_path]. rewrite U. cbn [path_text flat_map List.app].
  rewrite app_nil_r. destruct (C107_routes e POST (47 :: op) (Some (code, config))) as (_ & _ & _ & R). rewrite R; [reflexivity| | |].
  - intros E. apply C. injection E as ->. reflexivity.
  - intros E. apply A. injection E as ->. reflexivity.
  - intros E. apply B. injection E as ->. reflexivity.
Qed.
Print Assumptions C107_other_operation.

Example C107_witness :
  listens (fun _ => None) (Text (lit "0.0.0.0")) (Text (lit "+08009")) = Some (V4 0 0 0 0, 8009%N) /\
  listens (fun _ => None) (Text (lit "localhost")) Unset = None /\
  listens (fun _ => None) (Text (lit "127.0.0.01")) Unset = None /\
  server_port (Text (lit "65536")) = 8008%N /\ server_port (Text (lit "65535")) = 65535%N /\
  PortSet (Text (lit "80")) 80%N /\ Dotted (lit "127.0.0.1") (V4 127 0 0 1) /\
  r_path (snd (call_backend (Url (V4 10 0 0 1) 80%N [lit "aquascope"]) (lit "permissions") [] None)) = lit "/permissions" /\
  r_path (snd (call_backend (Url (V4 10 0 0 1) 80%N [lit "aquascope"; []]) (lit "permissions") [] None)) = lit "/aquascope/permissions".
Proof.
  repeat split; try (vm_compute; reflexivity).
  - exists (lit "80"). split; auto. split; [|vm_compute; reflexivity]. apply parse_u16_spec. vm_compute. reflexivity.
  - apply parse_v4_spec. vm_compute. reflexivity.
Qed.
