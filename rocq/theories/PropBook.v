(** * Properties of the book's mark-up *)

From Coq Require Import Ascii String.
From Coq Require Import List Arith NArith Bool Lia.
From Verif Require Import Base ValuesModel ValuesProofs BookModel BookSpec BookProofs.
Import ListNotations.

(** ** C41: the cleaned code and the positions of the markers *)

(** The lines that are looked at are those of the source. *)
Theorem C41_source_lines code ls : SourceLines code ls <-> ls = lines code.
Proof.
  assert (Rv : forall (l : str) c, rev (rev l ++ [c]) = c :: l) by (intros; rewrite rev_app_distr, rev_involutive; reflexivity).
  assert (D1 : forall r, drop_cr (r ++ [13]) = r).
  { intros r. unfold drop_cr. rewrite rev_app_distr. cbn [rev List.app]. change (13 =? CR) with true. apply rev_involutive. }
  assert (D2 : forall l, (forall r, l <> r ++ [13]) -> drop_cr l = l).
  { intros l N. unfold drop_cr. destruct (rev l) as [|c r] eqn:E; auto. destruct (Nat.eqb_spec c CR) as [->|]; auto.
    elim (N (rev r)). rewrite <- (rev_involutive l), E. reflexivity. }
  assert (App : forall l cur s, ~ In 10 l -> lines_from cur (l ++ 10 :: s) = drop_cr (rev cur ++ l) :: lines_from [] s).
  { induction l as [|c l IH]; intros cur s N; cbn [List.app lines_from].
    - change (10 =? NL) with true. rewrite app_nil_r. auto.
    - destruct (Nat.eqb_spec c NL) as [->|]; [elim N; left; auto|]. rewrite IH by (intros I; apply N; right; auto).
      cbn [rev]. rewrite <- app_assoc. reflexivity. }
  assert (Last : forall l cur, ~ In 10 l -> lines_from cur l = match rev cur ++ l with [] => [] | x => [x] end).
  { induction l as [|c l IH]; intros cur N; cbn [lines_from].
    - rewrite app_nil_r. destruct cur as [|c cur]; auto. destruct (rev (c :: cur)) eqn:E; auto.
      apply (f_equal (@length nat)) in E. rewrite rev_length in E. discriminate.
    - destruct (Nat.eqb_spec c NL) as [->|]; [elim N; left; auto|]. rewrite IH by (intros I; apply N; right; auto).
      cbn [rev]. rewrite <- app_assoc. reflexivity. }
  split.
  - induction 1 as [|l Ne N|l s ls N E _ IH|l s ls N _ IH]; unfold lines in *; auto.
    + rewrite Last by auto. cbn [rev List.app]. destruct l; [contradiction|auto].
    + rewrite App by auto. cbn [rev List.app]. rewrite D2, IH by auto. auto.
    + change (l ++ 13 :: 10 :: s) with (l ++ [13] ++ 10 :: s). rewrite app_assoc, App.
      * cbn [rev List.app]. rewrite D1, IH. auto.
      * rewrite in_app_iff. intros [I|[I|[]]]; [auto|discriminate].
  - intros ->. remember (length code) as n eqn:L. assert (Le : length code <= n) by lia. clear L. revert code Le.
    induction n as [|n IH]; intros code Le.
    + destruct code; [constructor|cbn in Le; lia].
    + destruct (in_dec Nat.eq_dec 10 code) as [I|N].
      * assert (Sp : exists l s, code = l ++ 10 :: s /\ ~ In 10 l).
        { clear - I. induction code as [|c code IHc]; [destruct I|]. destruct (Nat.eq_dec c 10) as [->|Nc].
          - exists [], code. split; [auto|intros []].
          - destruct I as [I|I]; [contradiction|]. destruct (IHc I) as (l & s & -> & N). exists (c :: l), s. split; auto. intros [E|J]; auto. }
        destruct Sp as (l & s & -> & N). unfold lines. rewrite App by auto. cbn [rev List.app]. rewrite app_length in Le. cbn [length] in Le.
        destruct (list_eq_dec Nat.eq_dec (firstn 1 (rev l)) [13]) as [E|E].
        -- assert (El : exists r, l = r ++ [13]).
           { destruct (rev l) as [|c r] eqn:Er; [discriminate|]. cbn [firstn] in E. injection E as ->. exists (rev r). rewrite <- (rev_involutive l), Er. reflexivity. }
           destruct El as (r & ->). rewrite D1, <- app_assoc. apply source_crlf; [intros J; apply N, in_app_iff; auto|]. apply IH. lia.
        -- assert (N' : forall r, l <> r ++ [13]) by (intros r ->; apply E; rewrite rev_app_distr; reflexivity).
           rewrite D2 by auto. apply source_lf; auto. apply IH. lia.
      * destruct code as [|c t]; [constructor|]. unfold lines. rewrite Last by auto. cbn [rev List.app]. apply source_last; [discriminate|auto].
Qed.
Print Assumptions C41_source_lines.

(** The cleaned code consists of the lines of the program; the recorded positions
    are the byte lengths of the texts before the interpreter markers; each such
    text is what the cleaned code starts with. *)
Theorem C41_positions_partial code : exists outs marks,
  Doc 1 [] (lines code) outs marks /\
  fst (parse_annotations code) = join [10] outs /\
  state_locations (snd (parse_annotations code)) =
    flat_map (fun '(n, t, k, i) => match k with Interp => [blen t] | _ => [] end) marks /\
  forall n t k i, In (n, t, k, i) marks -> exists u, fst (parse_annotations code) = t ++ u.
Proof.
  destruct (parse_annotations_spec code) as (outs & marks & D & ->). exists outs, marks. split; auto. split; auto.
  split; [cbn [snd add_hidden state_locations]; rewrite record_all_locs; auto|].
  intros n t k i I. destruct (Doc_prefix _ _ _ _ _ D n t k i I) as (_ & u & E). exists u. auto.
Qed.
Print Assumptions C41_positions_partial.

(** The lines and markers of a text are determined. *)
Theorem C41_unique n pre ls outs marks outs' marks' :
  Doc n pre ls outs marks -> Doc n pre ls outs' marks' -> outs = outs' /\ marks = marks'.
Proof. intros D D'. eapply Doc_fun; eauto. Qed.
Print Assumptions C41_unique.

(** The number of lines is unchanged. *)
Theorem C41_line_count code : code <> [] -> (forall r, code <> r ++ [10]) ->
  length (split 10 (fst (parse_annotations code))) = length (split 10 code).
Proof. apply line_count. Qed.
Print Assumptions C41_line_count.

(** A recorded position is the number of characters before the marker iff these
    are all ASCII. *)
Theorem C41_characters_iff (t : str) : blen t = length t <-> Forall (fun c => c < 128) t.
Proof.
  destruct (show_string_length t) as [L E]. unfold blen. change (flat_map utf8 t) with (show_string t). split; [exact E|].
  intros F. apply show_string_iff in F. rewrite F. auto.
Qed.
Print Assumptions C41_characters_iff.

Theorem C41_characters_refuted :
  parse_annotations ([233] ++ lit "`[]`") = ([233], Annots [] [2] [] [] []).
Proof. reflexivity. Qed.
Print Assumptions C41_characters_refuted.

(** The cleaned code can contain markers: those in hidden lines, and those that
    arise when another one is removed. *)
Theorem C41_leftover_refuted :
  parse_annotations (lit "#x`[]`") = (lit "x`[]`", Annots [1] [] [] [] []) /\
  parse_annotations (lit "``{}`[]`") = (lit "`[]`", Annots [] [] [] [] [1]).
Proof. split; reflexivity. Qed.
Print Assumptions C41_leftover_refuted.

Example C41_witness :
  parse_annotations (lit "#fn main() {" ++ [NL] ++ lit "let x = 1;`(focus,paths:x,rxpaths:y)`" ++ [NL] ++
                     lit "`[]`let y = 2;`{}`" ++ [NL] ++ lit "#}") =
  (lit "fn main() {" ++ [NL] ++ lit "let x = 1;" ++ [NL] ++ lit "let y = 2;" ++ [NL] ++ lit "}",
   Annots [1; 4] [23] [2] [(2, [Literal (lit "x"); Rx (lit "y")])] [3]).
Proof. reflexivity. Qed.

(** ** C42: the lines of the annotations *)

Theorem C42_lines_partial code : exists outs marks,
  Doc 1 [] (lines code) outs marks /\
  HiddenLines 1 (lines code) (hidden_lines (snd (parse_annotations code))) /\
  FocusLines marks (step_lines (snd (parse_annotations code))) /\
  bound_lines (snd (parse_annotations code)) =
    flat_map (fun '(n, t, k, i) => match k with Boundaries => [n] | _ => [] end) marks /\
  (forall line, exists l, PathsOf line marks l /\
     aget Nat.eq_dec (step_paths (snd (parse_annotations code))) line = match l with [] => None | _ => Some l end) /\
  forall n t k i, In (n, t, k, i) marks -> 1 <= n <= length (lines code).
Proof.
  destruct (parse_annotations_spec code) as (outs & marks & D & ->). exists outs, marks.
  cbn [snd add_hidden hidden_lines step_lines bound_lines step_paths]. split; auto.
  split; [rewrite record_all_hids; apply hids_spec|].
  split; [destruct (record_all_steps marks no_annots) as (l & F & E); rewrite E; auto|].
  split; [rewrite record_all_bounds; auto|]. split.
  - intros line. destruct (record_all_paths line marks no_annots) as (l & P & E). exists l. split; auto.
    assert (L : Live (step_paths (record_all marks no_annots))) by (apply record_all_live; intros n; discriminate).
    unfold getp in E. cbn [no_annots step_paths aget app] in E. specialize (L line).
    destruct (aget Nat.eq_dec (step_paths (record_all marks no_annots)) line) as [l'|]; subst; auto.
    destruct l; congruence.
  - intros n t k i I. destruct (Doc_prefix _ _ _ _ _ D n t k i I) as (B & _). lia.
Qed.
Print Assumptions C42_lines_partial.

(** Malformed markers, and markers with unknown items, are not reported: the first
    stay in the code, the second are ignored. *)
Theorem C42_malformed_refuted :
  parse_annotations (lit "x`(focus)") = (lit "x`(focus)", no_annots) /\
  parse_annotations (lit "x`(focsu)`") = (lit "x", no_annots).
Proof. split; reflexivity. Qed.
Print Assumptions C42_malformed_refuted.

(** A comma cannot be part of a value. *)
Theorem C42_comma_refuted :
  parse_annotations (lit "`(rxpaths:a{1,2})`") = ([], Annots [] [] [] [(1, [Rx (lit "a{1")])] []).
Proof. reflexivity. Qed.
Print Assumptions C42_comma_refuted.

Example C42_witness :
  snd (parse_annotations (lit "a`(focus,paths:x,paths:y)`b`{}``(paths:z)`" ++ [NL] ++ lit "\#c" ++ [NL] ++ lit "#d")) =
  Annots [3] [] [1] [(1, [Literal (lit "y"); Literal (lit "z")])] [1].
Proof. reflexivity. Qed.

(** ** C43: blocks *)

(** A block is recognised at the start of a text iff there is one, and then it is
    the one that is there. *)
Theorem C43_block_iff s b rest :
  parse_block s = Some (b, rest) <-> exists text, s = text ++ rest /\ BlockText text b.
Proof. apply parse_block_iff. Qed.
Print Assumptions C43_block_iff.

(** Every range found holds the text of the block; the ranges are in order and
    disjoint; no block outside another one is missed. *)
Theorem C43_ranges content r b : In (r, b) (parse_all content) ->
  exists text, At content r text /\ BlockText text b.
Proof.
  unfold parse_all. rewrite parse_all_scan. change 0 with (blen []).
  apply (scan_at block parse_block BlockText parse_block_iff content (S (length content)) [] content). auto.
Qed.
Print Assumptions C43_ranges.

Theorem C43_ordered content : Ordered 0 (map fst (parse_all content)).
Proof.
  unfold parse_all. rewrite parse_all_scan.
  apply (scan_ordered block parse_block BlockText parse_block_iff BlockText_nonempty). auto.
Qed.
Print Assumptions C43_ordered.

Theorem C43_complete content pre text post b : content = pre ++ text ++ post -> BlockText text b ->
  exists r b0, In (r, b0) (parse_all content) /\ fst r <= blen pre < snd r /\
    (fst r = blen pre -> b0 = b /\ snd r = blen (pre ++ text)).
Proof.
  intros E B. unfold parse_all. rewrite parse_all_scan.
  destruct (scan_complete block parse_block BlockText parse_block_iff BlockText_nonempty (S (length content)) 0 content)
    with (x := pre) (text := text) (y := post) (b := b) as (r & b0 & I & R); auto. eauto.
Qed.
Print Assumptions C43_complete.

(** The code of a block is what is between the options and the closing fence,
    without the white space around it, before the annotations are removed. *)
Lemma white_iff c : is_white c = true <-> White c.
Proof.
  unfold is_white, White. cbn [In]. rewrite !orb_true_iff, !andb_true_iff, !N.eqb_eq, !N.leb_le, !Nat.leb_le, !Nat.eqb_eq.
  lia.
Qed.

Lemma not_white_iff c : is_white c = false <-> ~ White c.
Proof. rewrite <- white_iff. destruct (is_white c); intuition discriminate. Qed.

Theorem C43_trim s : Trimmed s (trim s).
Proof.
  assert (H : forall s, exists a, s = a ++ trim_start s /\ Forall White a /\
    forall c r, trim_start s = c :: r -> ~ White c).
  { induction s0 as [|c s0 (a & E & F & N)]; cbn [trim_start].
    - exists []. repeat split; auto. discriminate.
    - destruct (is_white c) eqn:W.
      + apply white_iff in W. exists (c :: a). split; [cbn; rewrite <- E; auto|]. split; auto.
      + apply not_white_iff in W. exists []. repeat split; auto. intros d r [= <- <-]. auto. }
  unfold trim. destruct (H s) as (a & Ea & Fa & Na). destruct (H (rev (trim_start s))) as (b & Eb & Fb & Nb).
  set (t := trim_start (rev (trim_start s))) in *.
  assert (E : trim_start s = rev t ++ rev b).
  { rewrite <- rev_app_distr, <- Eb, rev_involutive. auto. }
  exists a, (rev b). split; [rewrite <- E; auto|]. split; [|split].
  - apply Forall_app. split; auto. apply Forall_rev. auto.
  - intros c r Er. apply (Na c (r ++ rev b)). rewrite E, Er. auto.
  - intros c r Er. apply (Nb c (rev r)). rewrite <- (rev_involutive t), Er, rev_app_distr. auto.
Qed.
Print Assumptions C43_trim.

(** The closing fence is not found when it stands right after the options: it
    becomes part of an operation. *)
Theorem C43_inline_refuted :
  map (fun '(r, b) => (r, operations b, code b))
    (parse_all (lit "```aquascope,permissions```" ++ [NL] ++ lit "text ```rust")) =
  [((0, 36), [lit "permissions```"], lit "text")].
Proof. vm_compute. reflexivity. Qed.
Print Assumptions C43_inline_refuted.

(** What follows a second equals sign becomes code. *)
Theorem C43_leftover_refuted :
  map (fun '(r, b) => (options b, code b))
    (parse_all (lit "```aquascope,interpreter,a=b=c" ++ [NL] ++ lit "x" ++ [NL] ++ lit "```")) =
  [([(lit "a", lit "b")], lit "=c" ++ [NL] ++ lit "x")].
Proof. vm_compute. reflexivity. Qed.
Print Assumptions C43_leftover_refuted.

Example C43_witness :
  parse_all (lit "Hi ```aquascope,interpreter+stepper,foo=bar,baz" ++ [NL] ++ lit "content`[]`!" ++ [NL] ++ lit "``` ho") =
  [((3, 64), Block [lit "interpreter"; lit "stepper"] [(lit "foo", lit "bar"); (lit "baz", lit "true")]
               (lit "content!") (Annots [] [7] [] [] []))].
Proof. vm_compute. reflexivity. Qed.

(** ** C45: permission macros *)

(** Every macro is found, at its place; the ranges are in order. *)
Lemma perms_in content r x : In (r, x) (parse_perms content) <->
  exists o p, In (r, (o, p)) (scan _ perm_at (S (length content)) 0 content) /\ x = expand o p.
Proof.
  unfold parse_perms. rewrite parse_perms_scan, in_map_iff. split.
  - intros ([r0 [o p]] & [= <- <-] & I). eauto.
  - intros (o & p & I & ->). exists (r, (o, p)). auto.
Qed.

Lemma expand_spec o p :
  match expand (bracket o) p with
  | Html h => Markup o p h
  | InvalidPermission q => q = p /\ (forall l, ~ Letter p l)
  | Unimplemented => (exists l, Letter p l) /\ exists x, o = Some x /\ x <> lit "gained" /\ x <> lit "lost" /\ x <> lit "missing"
  end.
Proof.
  unfold expand. destruct (memb str_eqd p VALID) eqn:V.
  - apply memb_In in V. assert (L : exists l, Letter p l /\ match p with c :: _ => [to_upper c] | [] => [] end = l).
    { destruct V as [<-|[<-|[<-|[<-|[]]]]]; eexists; (split; [constructor|reflexivity]). }
    destruct L as (l & L & El). rewrite El. destruct o as [x|]; cbn [bracket option_map].
    + assert (Br : forall y, [91] ++ x ++ [93] = [91] ++ y ++ [93] <-> x = y).
      { intros y. split; [|congruence]. intros E. apply app_inv_head in E. apply app_inv_tail in E. auto. }
      destruct (str_eqd ([91] ++ x ++ [93]) (lit "[gained]")) as [E|N1].
      { apply (Br (lit "gained")) in E as ->. change (Markup (Some (lit "gained")) p
          (lit "<span><span class=""perm-diff-add"">+</span><span class=""perm " ++ ((p ++ lit """>" ++ l ++ lit "</span>") ++ lit "</span>"))).
        rewrite <- !app_assoc. constructor. auto. }
      destruct (str_eqd ([91] ++ x ++ [93]) (lit "[lost]")) as [E|N2].
      { apply (Br (lit "lost")) in E as ->. change (Markup (Some (lit "lost")) p
          (lit "<span class=""perm-diff-sub-container""><div class=""perm-diff-sub""></div><span class=""perm "
             ++ ((p ++ lit """>" ++ l ++ lit "</span>") ++ lit "</span>"))).
        rewrite <- !app_assoc. constructor. auto. }
      destruct (str_eqd ([91] ++ x ++ [93]) (lit "[missing]")) as [E|N3].
      { apply (Br (lit "missing")) in E as ->. apply markup_missing. auto. }
      split; [eauto|]. exists x. split; auto. repeat split; intros ->; [apply N1|apply N2|apply N3]; reflexivity.
    + apply markup_plain. auto.
  - apply memb_not_In in V. split; auto. intros l L. apply V. destruct L; cbn; auto.
Qed.

Theorem C45_expands content r x : In (r, x) (parse_perms content) ->
  exists text o p, At content r text /\ MacroText text (o, p) /\
  match x with
  | Html h => Markup o p h
  | InvalidPermission q => q = p /\ (forall l, ~ Letter p l)
  | Unimplemented => (exists l, Letter p l) /\ exists y, o = Some y /\ y <> lit "gained" /\ y <> lit "lost" /\ y <> lit "missing"
  end.
Proof.
  intros I. apply perms_in in I as (o & p & I & ->).
  destruct (scan_at _ perm_at MacroB perm_at_iff content (S (length content)) [] content eq_refl r (o, p) I)
    as (text & A & o' & Eo & M). cbn in Eo, M. exists text, o', p. split; auto. split; auto. rewrite Eo. apply expand_spec.
Qed.
Print Assumptions C45_expands.

Theorem C45_complete content pre text post o p : content = pre ++ text ++ post -> MacroText text (o, p) ->
  exists r x, In (r, x) (parse_perms content) /\ fst r <= blen pre < snd r.
Proof.
  intros E M.
  destruct (scan_complete _ perm_at MacroB perm_at_iff MacroB_nonempty (S (length content)) 0 content)
    with (x := pre) (text := text) (y := post) (b := (bracket o, p)) as (r & [o' p'] & I & R & _); auto.
  { exists o. split; auto. }
  exists r, (expand o' p'). split; auto. apply perms_in. eauto.
Qed.
Print Assumptions C45_complete.

(** An unknown option crashes the preprocessor. *)
Theorem C45_crash_refuted : parse_perms (lit "@Perm[Gained]{read}") = [((0, 19), Unimplemented)].
Proof. vm_compute. reflexivity. Qed.
Print Assumptions C45_crash_refuted.

Lemma At_fun content r t t' : At content r t -> At content r t' -> t = t'.
Proof.
  intros (p1 & q1 & E1 & A1 & B1) (p2 & q2 & E2 & A2 & B2).
  assert (M : forall u v w z : str, u ++ v = w ++ z -> blen u = blen w -> u = w /\ v = z).
  { intros u. induction u as [|c u IH]; intros v [|d w] z E L; cbn [app] in E.
    - auto.
    - pose proof (blen_cons_pos d w). change (blen []) with 0 in L. lia.
    - pose proof (blen_cons_pos c u). change (blen []) with 0 in L. lia.
    - injection E as <- E. change (c :: u) with ([c] ++ u) in *. change (c :: w) with ([c] ++ w) in *. rewrite !blen_app in L.
      destruct (IH v w z E) as [-> ->]; [lia|]. auto. }
  destruct (M p1 (t ++ q1) p2 (t' ++ q2)) as [-> E]; [congruence|congruence|].
  rewrite blen_app in *. apply (M t q1 t' q2); auto. lia.
Qed.

Lemma MacroText_fun text o p o' p' : MacroText text (o, p) -> MacroText text (o', p') -> o = o' /\ p = p'.
Proof.
  intros M M'.
  assert (X : perm_at (text ++ []) = Some ((bracket o, p), [])) by (apply perm_at_iff; exists text; split; [auto|exists o; auto]).
  assert (X' : perm_at (text ++ []) = Some ((bracket o', p'), [])) by (apply perm_at_iff; exists text; split; [auto|exists o'; auto]).
  rewrite X in X'. injection X' as Eo ->. split; auto.
  destruct o as [x|], o' as [x'|]; cbn in Eo; try discriminate; auto. injection Eo as Eo. apply app_inv_tail in Eo as ->. auto.
Qed.

(** It crashes iff a macro for a valid permission has an unknown option. *)
Theorem C45_crash_iff_partial content :
  (exists r, In (r, Unimplemented) (parse_perms content)) <->
  exists r x text y p l, In (r, x) (parse_perms content) /\ At content r text /\ MacroText text (Some y, p) /\
    Letter p l /\ y <> lit "gained" /\ y <> lit "lost" /\ y <> lit "missing".
Proof.
  split.
  - intros (r & I). destruct (C45_expands content r _ I) as (text & o & p & A & M & (l & L) & y & -> & N1 & N2 & N3).
    exists r, Unimplemented, text, y, p, l. auto 10.
  - intros (r & x & text & y & p & l & I & A & M & L & N1 & N2 & N3). exists r.
    destruct (C45_expands content r x I) as (text' & o' & p' & A' & M' & H).
    rewrite (At_fun _ _ _ _ A' A) in M'. destruct (MacroText_fun _ _ _ _ _ M' M) as [-> ->].
    destruct x as [h|q|]; auto.
    + inversion H; subst; congruence.
    + destruct H as [_ H]. exfalso. eapply H; eauto.
Qed.
Print Assumptions C45_crash_iff_partial.

Example C45_witness :
  parse_perms (lit "a @Perm[lost]{own} b @Perm{red}") =
  [((2, 18), Html (lit "<span class=""perm-diff-sub-container""><div class=""perm-diff-sub""></div><span class=""perm own"">O</span></span>"));
   ((21, 31), InvalidPermission (lit "red"))].
Proof. vm_compute. reflexivity. Qed.

(** ** C44: replacements *)

Lemma Ordered_disjoint n l : Ordered n l -> ForallOrdPairs Disjoint l /\ forall r, In r l -> n <= fst r /\ fst r < snd r.
Proof.
  induction 1 as [n|n a b l La Lb O [IH1 IH2]]; [split; [constructor|intros r []]|]. split.
  - constructor; auto. apply Forall_forall. intros r I. left. cbn. apply IH2; auto.
  - intros r [<-|I]; [cbn; auto|]. destruct (IH2 r I). split; [lia|auto].
Qed.

Lemma perms_ordered content : Ordered 0 (map fst (parse_perms content)).
Proof.
  unfold parse_perms. rewrite parse_perms_scan, map_map.
  rewrite map_ext with (g := fst); [|intros [r [o p]]; auto].
  apply (scan_ordered _ perm_at MacroB perm_at_iff MacroB_nonempty). auto.
Qed.

(** Blocks do not overlap each other, nor do macros. *)
Theorem C44_each_partial content :
  ForallOrdPairs Disjoint (map fst (parse_all content)) /\ ForallOrdPairs Disjoint (map fst (parse_perms content)).
Proof.
  split; [apply (Ordered_disjoint 0 _ (C43_ordered content))|apply (Ordered_disjoint 0 _ (perms_ordered content))].
Qed.
Print Assumptions C44_each_partial.

Lemma At_inside content a b c d t1 t2 : At content (a, b) t1 -> At content (c, d) t2 -> a <= c -> c < b -> t2 <> [] ->
  exists x y ch, t1 = x ++ ch :: y /\ exists z, t2 = ch :: z.
Proof.
  intros (p1 & q1 & E1 & A1 & B1) (p2 & q2 & E2 & A2 & B2) L1 L2 N. cbn in *.
  assert (M : forall u v w z : str, u ++ v = w ++ z -> blen u <= blen w -> exists e, w = u ++ e /\ v = e ++ z).
  { intros u v w z E L. destruct (le_lt_dec (length u) (length w)) as [Lw|Lw].
    - apply app_split; auto.
    - symmetry in E. destruct (app_split _ _ _ _ E) as (e & -> & ->); [lia|].
      assert (e = []) by (destruct e as [|x e]; auto; rewrite blen_app in L; pose proof (blen_cons_pos x e); lia).
      subst e. exists []. rewrite !app_nil_r. auto. }
  destruct (M p1 (t1 ++ q1) p2 (t2 ++ q2)) as (e & Ep & Eq); [congruence|lia|]. subst p2.
  destruct (le_lt_dec (length t1) (length e)) as [Le|Le].
  - destruct (app_split _ _ _ _ Eq Le) as (f & -> & _). rewrite !blen_app in *. lia.
  - symmetry in Eq. destruct (app_split _ _ _ _ Eq) as (f & -> & Ef); [lia|].
    destruct f as [|ch f]; [rewrite app_length in Le; cbn in Le; lia|].
    exists e, f, ch. split; auto. destruct t2 as [|ch2 z]; [congruence|]. cbn in Ef. injection Ef as -> _. eauto.
Qed.

(** No two replacements overlap if no block contains an at sign and no macro
    contains a tick. *)
Theorem C44_disjoint_partial content :
  (forall r b text, In (r, b) (parse_all content) -> At content r text -> ~ In 64 text) ->
  (forall r x text, In (r, x) (parse_perms content) -> At content r text -> ~ In TICK text) ->
  ForallOrdPairs Disjoint (replaced content).
Proof.
  intros H1 H2. unfold replaced. destruct (C44_each_partial content) as [D1 D2].
  assert (X : forall r s, In r (map fst (parse_all content)) -> In s (map fst (parse_perms content)) -> Disjoint r s).
  { intros r s Ir Is. apply in_map_iff in Ir as ([r0 b] & <- & Ir). apply in_map_iff in Is as ([s0 x] & <- & Is). cbn.
    destruct (C43_ranges content r0 b Ir) as (t1 & A1 & T1).
    destruct (C45_expands content s0 x Is) as (t2 & o & p & A2 & T2 & _).
    assert (N1 : t1 <> []) by (eapply BlockText_nonempty; eauto).
    assert (F1 : exists z, t1 = TICK :: z) by (destruct T1; subst; eexists; reflexivity).
    assert (F2 : exists z, t2 = 64 :: z) by (inversion T2; subst; eexists; reflexivity).
    destruct F1 as (z1 & F1). destruct F2 as (z2 & F2). unfold Disjoint.
    destruct r0 as [a b0], s0 as [c d]. cbn [fst snd] in *.
    destruct (le_lt_dec b0 c) as [|L1]; auto. destruct (le_lt_dec d a) as [|L2]; auto. exfalso.
    destruct (le_lt_dec a c) as [L|L].
    - destruct (At_inside content a b0 c d t1 t2 A1 A2 L L1) as (u & v & ch & E & z & Ez); [rewrite F2; discriminate|].
      assert (ch = 64) by congruence. subst ch. eapply (H1 (a, b0)); eauto. rewrite E. apply in_or_app. right. left. auto.
    - destruct (At_inside content c d a b0 t2 t1 A2 A1) as (u & v & ch & E & z & Ez); auto; [lia|].
      assert (ch = TICK) by congruence. subst ch. eapply (H2 (c, d)); eauto. rewrite E. apply in_or_app. right. left. auto. }
  revert D1 X. generalize (map fst (parse_all content)) as l. induction l as [|r l IH]; intros D1 X; auto.
  inversion D1 as [|? ? F D1']; subst. cbn. constructor.
  - apply Forall_app. split; auto. apply Forall_forall. intros s Is. apply X; auto. left; auto.
  - apply IH; auto. intros r' s Ir Is. apply X; auto. right; auto.
Qed.
Print Assumptions C44_disjoint_partial.

(** A macro in the code of a block is replaced as well. *)
Theorem C44_overlap_refuted :
  replaced (lit "```aquascope,stepper" ++ [NL] ++ lit "// @Perm{read}" ++ [NL] ++ lit "```") = [(0, 39); (24, 35)].
Proof. vm_compute. reflexivity. Qed.
Print Assumptions C44_overlap_refuted.

Example C44_witness :
  replaced (lit "@Perm{own} ```aquascope,stepper" ++ [NL] ++ lit "x ``` @Perm{read}") = [(11, 37); (0, 10); (38, 49)].
Proof. vm_compute. reflexivity. Qed.
