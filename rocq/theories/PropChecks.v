(** C126: the project's own checks of permissions. *)
From Coq Require Import Ascii String.
From Coq Require Import List Arith Bool Lia.
From Verif Require Import Base PermsModel BookModel BookSpec BookProofs ChecksModel ChecksSpec ChecksProofs.
Import ListNotations.

(** *** C126 — reading a test file gives exactly the program without the annotations, and for
    each annotation the bytes of its use and the permissions it says; all other files are
    refused. *)
Theorem C126_parse src clean m : parse_test src = inr (clean, m) <-> File [] src clean m.
Proof.
  unfold parse_test. split.
  - intros E. destruct (scan_file (length src) src [] [] clean m (le_n _) ltac:(intros a b p []) E) as (cl & w & -> & -> & F). exact F.
  - intros F. rewrite (file_scan [] src clean m F []) by (intros a b p []). reflexivity.
Qed.
Print Assumptions C126_parse.

(** So what is wanted is wanted of a use that is annotated, and stands at these bytes of the program. *)
Theorem C126_positions src clean m r p : parse_test src = inr (clean, m) -> In (r, p) m ->
  exists x var ps a b, src = a ++ opening ++ x ++ closing ++ b /\ Two x var ps /\ Says ps p /\ At clean r var.
Proof.
  rewrite C126_parse. intros F I.
  enough (G : exists x var ps a b, src = a ++ opening ++ x ++ closing ++ b /\ Two x var ps /\ Says ps p /\ At ([] ++ clean) r var) by exact G.
  revert I. induction F as [before q Q|before q x var ps perms src clean m Q C T S0 F IH]; [intros []|]. intros [I|I].
  - injection I as <- <-. exists x, var, ps, q, src. split; [reflexivity|]. split; [exact T|]. split; [exact S0|].
    exists (before ++ q), clean. rewrite <- !app_assoc. auto.
  - destruct (IH I) as (x' & var' & ps' & a & b & -> & T' & S' & A). exists x', var', ps', (q ++ opening ++ x ++ closing ++ a), b.
    rewrite <- !app_assoc in *. split; [reflexivity|]. auto.
Qed.
Print Assumptions C126_positions.

(** No two annotations are for the same bytes, so none is lost. *)
Theorem C126_all_kept src clean m : parse_test src = inr (clean, m) -> NoDup (map fst m) /\
  forall a b p, In ((a, b), p) m -> a < b /\ b <= blen clean.
Proof.
  rewrite C126_parse. intros F.
  enough (G : NoDup (map fst m) /\ forall a b p, In ((a, b), p) m -> blen [] <= a /\ a < b /\ b <= blen ([] ++ clean)).
  { split; [apply G|]. intros a b p I. apply G in I. cbn [List.app] in I. tauto. }
  induction F as [before q Q|before q x var ps perms src clean m Q C T S0 F [N IH]]; [split; [constructor|intros a b p []]|].
  assert (V : 0 < blen var) by (apply blen_pos; destruct T as (? & ? & ? & _ & [V _] & _); exact V).
  rewrite !blen_app in *. split.
  - cbn [map fst]. constructor; [|exact N]. intros I. apply in_map_iff in I. destruct I as ([[a b] p] & E & I). cbn [fst] in E.
    apply IH in I. injection E as -> ->. rewrite ?blen_app in *. lia.
  - intros a b p [I|I]; [injection I as <- <- _; rewrite ?blen_app; lia|]. apply IH in I. rewrite ?blen_app in *. lia.
Qed.
Print Assumptions C126_all_kept.

(** If the compiler gets as far as the analysis of the program, the test passes just when
    the file can be read and every use has the permissions that its annotation says, in the
    first function with a place for it. *)
Theorem C126_checked_partial compiler src :
  (forall clean m, parse_test src = inr (clean, m) -> compiler clean <> None) ->
  (refinement_test compiler src = true <->
   exists clean m bodies, File [] src clean m /\ compiler clean = Some bodies /\ forall r p, In (r, p) m -> Right bodies r p).
Proof.
  intros Reached. unfold refinement_test. split.
  - destruct (parse_test src) as [|[clean m]] eqn:E; [discriminate|]. specialize (Reached clean m eq_refl).
    destruct (compiler clean) as [bodies|] eqn:K; [|congruence]. intros H. exists clean, m, bodies.
    split; [apply C126_parse; exact E|]. split; [exact K|]. apply bodies_right. destruct (check_bodies bodies m) as [[|]|]; try discriminate H. reflexivity.
  - intros (clean & m & bodies & F & K & R). apply C126_parse in F. rewrite F, K. apply bodies_right in R. rewrite R. reflexivity.
Qed.
Print Assumptions C126_checked_partial.

(** But a program that the compiler gives up before that passes, whatever is written in it. *)
Theorem C126_unchecked_refuted compiler src clean m : File [] src clean m -> compiler clean = None -> refinement_test compiler src = true.
Proof. intros F K. apply C126_parse in F. unfold refinement_test. rewrite F, K. reflexivity. Qed.
Print Assumptions C126_unchecked_refuted.

(** An annotation right behind a closing bracket is not understood, and the file is refused. *)
Theorem C126_bracket_refuted p x rest : Quiet p [] -> parse_test (p ++ lit "]" ++ opening ++ x ++ closing ++ rest) = inl Bail.
Proof.
  intros Q. unfold parse_test.
  assert (G : forall q out m, Quiet q [] -> scan None (q ++ 93 :: 96 :: 91 :: x ++ closing ++ rest) out m = inl Bail).
  { induction q as [|c q IH]; intros out m Q'; [reflexivity|].
    pose proof (IH (out ++ [c]) m (quiet_tail _ _ _ Q')) as E.
    destruct q as [|d q].
    - cbn [List.app] in *. remember (93 :: 96 :: 91 :: x ++ closing ++ rest) as t eqn:T. cbn [scan]. rewrite T in *. 
      replace ((c =? 96) && (93 =? 91)) with false by (symmetry; apply andb_false_r).
      replace ((c =? 93) && (93 =? 96)) with false by (symmetry; apply andb_false_r). exact E.
    - destruct (quiet_head c d (d :: q) [] q Q' ltac:(rewrite app_nil_r; reflexivity)) as [A B].
      cbn [List.app] in *. cbn [scan]. rewrite A, B. exact E. }
  apply (G p [] [] Q).
Qed.
Print Assumptions C126_bracket_refuted.

(** Letters other than these are passed over: a zero for the letter O asks for no ownership,
    and the word "read" asks for ownership. *)
Theorem C126_letters_refuted s : (forall c, In c s -> c <> 114 /\ c <> 82 /\ c <> 119 /\ c <> 87 /\ c <> 111 /\ c <> 79 /\ c <> 100 /\ c <> 68) ->
  forall t u p, Says (t ++ s ++ u) p <-> Says (t ++ u) p.
Proof.
  intros N t u p. unfold Says. assert (G : forall c, In c [114; 82; 119; 87; 111; 79; 100; 68] -> (In c (t ++ s ++ u) <-> In c (t ++ u))).
  { intros c K. rewrite !in_app_iff. split; [intros [I|[I|I]]; auto|tauto]. specialize (N c I). cbn [In] in K. lia. }
  rewrite !G by (cbn [In]; tauto). tauto.
Qed.
Print Assumptions C126_letters_refuted.

(** A directory passes just when it can be read and every file whose name begins as ONLY says
    passes; so it passes also when no name does. *)
Theorem C126_directory only dir : run_in_dir only dir = true <->
  exists files, dir = Some files /\ forall name ok, In (name, ok) files ->
    (forall o, only = Some o -> exists r, name = o ++ r) -> ok = true.
Proof.
  assert (B : forall o n, begins o n = true <-> exists r, n = o ++ r).
  { induction o as [|a o IH]; intros n; cbn [begins List.app]; [split; [intros _; exists n; reflexivity|auto]|].
    destruct n as [|b n]; [split; [discriminate|intros (r & E); discriminate E]|]. rewrite andb_true_iff, Nat.eqb_eq, IH.
    split; [intros [-> (r & ->)]; exists r; reflexivity|]. intros (r & E). injection E as -> ->. split; [reflexivity|exists r; reflexivity]. }
  unfold run_in_dir. destruct dir as [files|]; [|split; [discriminate|intros (f & E & _); discriminate E]].
  rewrite negb_true_iff.
  assert (G : any_failed only files = false <-> forall name ok, In (name, ok) files -> (forall o, only = Some o -> exists r, name = o ++ r) -> ok = true).
  { induction files as [|[name ok] files IH]; cbn [any_failed]; [split; [intros _ n o []|auto]|]. rewrite orb_false_iff, IH. split.
    - intros [A C] n o [I|I] H; [|apply (C n o I H)]. injection I as <- <-. destruct only as [s|].
      + assert (K : begins s name = true) by (apply B; apply H; reflexivity). rewrite K in A. cbn in A. apply negb_false_iff in A. exact A.
      + apply negb_false_iff in A. exact A.
    - intros H. split; [|intros n o I; apply H; right; exact I]. destruct only as [s|].
      + destruct (begins s name) eqn:K; [|reflexivity]. cbn. rewrite (H name ok (or_introl eq_refl)); [reflexivity|]. intros o E. injection E as <-. apply B. exact K.
      + rewrite (H name ok (or_introl eq_refl)); [reflexivity|]. intros o E. discriminate E. }
  rewrite G. split; [intros H; exists files; auto|]. intros (f & E & H). injection E as <-. exact H.
Qed.
Print Assumptions C126_directory.

(** A line of the project's own tests, with a zero, and its reading. *)
Definition demo : str := lit "let _a = &`[*x R-0]`;".
Example C126_witness : parse_test demo = inr (lit "let _a = &*x;", [((10, 12), mkP true false false)]) /\
  parse_test (lit "`[x RW]` `[y  -]`") = inr (lit "x y", [((0, 1), mkP true true false); ((2, 3), mkP false false false)]) /\
  parse_test (lit "a]` b") = inl Bail /\ parse_test (lit "`[x]`") = inl Panic /\ parse_test (lit "`[x R") = inl Bail.
Proof. repeat split; vm_compute; reflexivity. Qed.
Example C126_witness_read : perms_of (lit "read") = mkP true false true /\ perms_of (lit "none") = mkP false false true.
Proof. split; vm_compute; reflexivity. Qed.
Example C126_witness_check :
  refinement_test (fun _ => Some [fun _ => NoPlace; fun r => if range_eqd r (10, 12) then Computed (mkP true false false) else NoPlace]) demo = true /\
  refinement_test (fun _ => Some [fun _ => Computed (mkP true true false)]) demo = false /\
  refinement_test (fun _ => Some [fun _ => NoPlace]) demo = false /\
  refinement_test (fun _ => None) demo = true.
Proof. repeat split; vm_compute; reflexivity. Qed.
