(** * Theorems: a mark in the book shows the state there *)
From Coq Require Import Ascii String.
From Coq Require Import List Arith Bool ZArith Lia Permutation Sorting.Sorted.
From Verif Require Import Base BookModel BookSpec RunModel EmbedModel EmbedSpec LessonModel LessonSpec LessonProofs.
From Verif Require RunSpec RunProofs BuildModel BuildSpec CacheModel CacheSpec PropEmbed PropJson JsonModel JsonSpec EditorModel EditorSpec WireModel WireSpec WireProofs PropWire
  WholeModel ScreenModel ScreenSpec ScreenProofs PropScreen PropWhole PropMapper PropRun PropBuild JsonProofs.
Import ListNotations.
Local Open Scope list_scope.

(** ** C121 *)

(** The tool's answer to the block is the execution of its program. *)
Theorem C121_told env p print secs b m : RunSpec.Runs env p print secs -> run_aquascope env b = inr m -> In (lit "interpreter") (operations b) ->
  exists fails v, (fails = true <-> exists w, In (lit "shouldFail", w) (options b)) /\ execution p fails = Some (inl v) /\
    aget str_eqd m (lit "interpreter") = Some (JObj [(lit "Ok", v)]).
Proof.
  intros Rn Rr Io. apply RunProofs.run_aquascope_ok in Rr as [_ Rr]. apply RunProofs.run_ops_ok in Rr as (_ & _ & C & _).
  destruct (RunProofs.last_at _ _ Io) as [i L]. destruct (C _ i L) as (j & J & G). cbn [Nat.add] in J.
  pose proof (RunProofs.run_op_tool env b p print secs i (lit "interpreter") Rn) as K. rewrite J in K.
  destruct (parse_args (run_args b (lit "interpreter"))) as [c|] eqn:P; [|discriminate K]. destruct (tool_run p c) as [j0|] eqn:T; [|discriminate K].
  assert (X : should_fail c = has_option (lit "shouldFail") b /\ cmd c = CInterpreter).
  { unfold run_args in P. destruct (has_option (lit "shouldFail") b), (has_option (lit "showFlows") b); vm_compute in P; try discriminate P; injection P as <-; auto. }
  destruct X as [X1 X2]. unfold tool_run in T. rewrite X1, X2 in T. exists (has_option (lit "shouldFail") b).
  destruct (execution p (has_option (lit "shouldFail") b)) as [[v|u]|]; [| |discriminate T]; injection T as <-; [|discriminate K]. exists v.
  split; [|split; [reflexivity|]].
  - unfold has_option. rewrite existsb_exists. split.
    + intros ([k w] & I & E). cbn [fst] in E. destruct (str_eqd k (lit "shouldFail")) as [->|]; [exists w; exact I|discriminate].
    + intros [w I]. exists (lit "shouldFail", w). split; [exact I|]. cbn [fst]. destruct (str_eqd _ _); congruence.
  - destruct (is_err _) in K; [discriminate K|]. destruct (is_build_error _) in K; [discriminate K|]. injection K as <-. exact G.
Qed.
Print Assumptions C121_told.

(** The editor shows the code of the block. *)
Theorem C121_editor c : ~ In 13 c -> InEditor c (text_of c).
Proof. exact (text_of_spec c). Qed.
Print Assumptions C121_editor.

(** Whatever line ends it has: the editor takes LF, CR LF and CR for one each. *)
Theorem C121_line_ends c : exists t, Unix c t /\ InEditor t (text_of c) /\ forall t', Unix c t' -> t' = t.
Proof.
  destruct (unix_total (length c) c (le_n _)) as [t U]. exists t. split; [exact U|]. split.
  - unfold text_of. rewrite (unix_lines c t U []). apply (text_of_spec t), (unix_clean c t U).
  - clear -U. induction U as [|s t U IH|s t U IH N|x s t N U IH]; intros t' V; inversion V; subst; try congruence; try (f_equal; auto; fail).
Qed.
Print Assumptions C121_line_ends.

(** Two lines with the line end of Windows, and a CR alone. *)
Example C121_line_ends_witness : Unix [97; 13; 10; 98; 13; 13; 10] [97; 10; 98; 10; 10] /\ text_of [97; 13; 10; 98; 13; 13; 10] = [[97]; [98]; []; []].
Proof.
  split; [|reflexivity]. apply Unix_other; [discriminate|]. apply Unix_crlf. apply Unix_other; [discriminate|]. apply Unix_cr; [|discriminate].
  apply Unix_crlf. constructor.
Qed.

(** The page has one position for each mark of the author.  It is behind the text before the mark if this text is ASCII, and
    only then: the position counts bytes, the editor counts units of UTF-16. *)
Theorem C121_marks_partial content r b m e : In (r, b) (parse_all content) -> BuildSpec.Shows b m e -> Exact (state_locations (annotations b)) ->
  exists ts, Authored content r (m_code e) ts /\ length (page_states e) = length ts /\
    forall i t p, nth_error ts i = Some t -> nth_error (page_states e) i = Some p ->
      (exists u, m_code e = t ++ u) /\ EditorSpec.position_after t <= p /\ (p = EditorSpec.position_after t <-> Ascii t).
Proof.
  intros I Sh Ex. destruct (authored content r b I) as (ts & A & E & Pf). exists ts. rewrite (BuildSpec.shows_code _ _ _ Sh). split; [exact A|].
  destruct (BuildSpec.shows_annotations _ _ _ Sh) as (_ & PS & _). rewrite (PS Ex), E. split; [apply map_length|]. intros i t p Nt Np.
  rewrite nth_error_map, Nt in Np. injection Np as <-. split; [apply Pf, (nth_error_In _ _ Nt)|]. exact (bytes_units t).
Qed.
Print Assumptions C121_marks_partial.

Lemma ascii_prefix t u : Ascii (t ++ u) -> Ascii t.
Proof. unfold Ascii. intros A. apply Forall_app in A. tauto. Qed.

(** All of one block. *)
Theorem C121_lesson_partial short real content r b m e v : In (r, b) (parse_all content) -> BuildSpec.Shows b m e ->
  In (lit "interpreter") (operations b) -> aget str_eqd m (lit "interpreter") = Some (JObj [(lit "Ok", v)]) ->
  Ascii (code b) -> ~ In 13 (code b) -> (Z.of_nat (length (code b)) < 2 ^ 53)%Z -> WireSpec.Prints short real ->
  TrueTo short real content r e v.
Proof.
  intros I Sh Io G As NC Sm PR M mac lay u8 prog nr sr names bodies m0 fuel depth t Ev IW P L Or Sa RE.
  destruct (authored content r b I) as (ts & A & E & Pf).
  assert (Ep : state_locations (annotations b) = map EditorSpec.position_after ts).
  { rewrite E. apply map_ext_in. intros x Ix. apply bytes_units. destruct (Pf x Ix) as (u & Eu). rewrite Eu in As. apply (ascii_prefix _ _ As). }
  assert (Ex : Exact (state_locations (annotations b))).
  { intros q Iq. rewrite E in Iq. apply in_map_iff in Iq as (x & <- & Ix). destruct (Pf x Ix) as (u & Eu).
    assert (B : blen (code b) = length (code b)).
    { clear - As. induction As as [|c l C _ IH]; [reflexivity|]. unfold blen in *. cbn [flat_map]. rewrite app_length. cbn [length]. rewrite IH.
      unfold ValuesModel.utf8. apply Nat.ltb_lt in C. rewrite C. reflexivity. }
    assert (LE : blen x <= length (code b)) by (rewrite <- B, Eu, blen_app; lia). lia. }
  destruct (BuildSpec.shows_annotations _ _ _ Sh) as (_ & PS & _). specialize (PS Ex). rewrite Ep in PS.
  rewrite <- (BuildSpec.shows_ops _ _ _ Sh) in Io. apply in_map_iff in Io as ([op o] & Eo & Io). cbn [fst] in Eo. subst op. split.
  { destruct (BuildSpec.shows_responses _ _ _ Sh _ _ Io) as (j & j' & _ & -> & _). intros N.
    assert (X : In j' (executions e)) by (apply in_flat_map; exists (lit "interpreter", Some j'); split; [exact Io|]; cbn [fst snd]; destruct (str_eqd _ _); [left; reflexivity|congruence]).
    rewrite N in X. exact X. }
  clear o Io. exists ts, (text_of (m_code e)). rewrite (BuildSpec.shows_code _ _ _ Sh). split; [exact A|]. split; [apply text_of_spec, NC|]. intros j' Ij.
  apply in_flat_map in Ij as ([op o] & Io & Ij). cbn [fst snd] in Ij. destruct (str_eqd op (lit "interpreter")) as [->|]; [|destruct Ij].
  destruct o as [j0|]; [|destruct Ij]. destruct Ij as [->|[]].
  destruct (BuildSpec.shows_responses _ _ _ Sh _ _ Io) as (j & j0 & G' & Q & Rd). injection Q as <-. rewrite G in G'. injection G' as <-. rewrite Ev in Rd.
  change (Reads (WireModel.answer short (ScreenModel.wire names bodies t)) j') in Rd.
  destruct (PropWire.read_trace short real _ j' PR RE Rd) as (x & t' & Mm & TC & AT).
  assert (AR : ScreenSpec.Arrived short real (ScreenModel.wire names bodies t) t') by (exists j', x; auto).
  exists x, t'. do 3 (split; [assumption|]).
  split.
  2:{ intros steps ft c N IT LG. unfold lesson. rewrite PS, (BuildSpec.shows_code _ _ _ Sh).
      rewrite (PropScreen.C120_marked_partial short real _ t' _ (map EditorSpec.position_after ts) c ft PR RE AR); [|destruct ts; [congruence|discriminate]|exact IT|exact LG].
      split; [intros H txt I0; apply H, in_map, I0|]. intros H mark I0. apply in_map_iff in I0 as (txt & <- & I0). auto. }
  intros n ft c ws ps SC. unfold lesson in SC. rewrite PS, (BuildSpec.shows_code _ _ _ Sh) in SC.
  destruct (PropScreen.C120_states_partial mac lay u8 prog nr sr names bodies short real ft m0 fuel depth t t' _ _ n c ws ps P L Or Sa IW PR RE AR SC) as [Lw K].
  assert (PM : ts <> [] -> Permutation (map ScreenModel.k_pos ws) (map EditorSpec.position_after ts) /\
     exists ks, StronglySorted le ks /\ Forall2 (ScreenSpec.LastFits (text_of (code b)) (WireModel.w_steps (ScreenModel.wire names bodies t))) (map ScreenModel.k_pos ws) ks).
  { intros N. destruct (PropScreen.C120_marks mac prog nr sr names bodies short real ft m0 fuel depth t t' _ _ n c ws ps IW PR RE AR SC) as (Pm & ks & So & F & _).
    - destruct ts; [congruence|discriminate].
    - split; [exact Pm|]. exists ks. auto. }
  split; [exact Lw|]. split; [exact PM|]. intros i w p Nw Np. destruct (K i w p Nw Np) as (K1 & K2 & err & body & at_ & Se & Er & Fi & Mk).
  split; [exact K1|]. split; [exact K2|]. exists err, body, at_. split; [exact Se|]. split; [exact Er|]. split.
  - intros ->. apply Fi. reflexivity.
  - intros N. split; [apply Mk; destruct ts; [congruence|discriminate]|]. destruct (PM N) as [Pm _].
    assert (Ik : In (ScreenModel.k_pos w) (map EditorSpec.position_after ts)) by (apply (Permutation_in _ Pm), in_map, (nth_error_In _ _ Nw)).
    apply in_map_iff in Ik as (txt & Et & It). exists txt. auto.
Qed.
Print Assumptions C121_lesson_partial.

(** All of a chapter, whatever was built before. *)
Theorem C121_book_partial zip unzip hash b0 pre bd k content l short real : JsonSpec.Zips zip unzip ->
  BuildSpec.Fresh (JsonModel.cache_codec zip unzip) b0 -> BuildSpec.NoCollision hash (pre ++ [bd]) -> (forall x, In x (pre ++ [bd]) -> PropJson.Written x) ->
  nth_error (BuildModel.chapters bd) k = Some content -> (forall r b, In (r, b) (parse_all content) -> code b <> []) ->
  BuildModel.replacements JsonModel.from_str JsonModel.to_string bd
    (BuildModel.built (JsonModel.cache_codec zip unzip) hash (BuildModel.left_by (JsonModel.cache_codec zip unzip) hash b0 pre) bd) k = Some l ->
  (forall x j, In x (pre ++ [bd]) -> exists p print secs, RunSpec.Runs (BuildModel.around x j) p print secs) ->
  WireSpec.Prints short real ->
  exists es, init_blocks JsonModel.js_parse (BuildModel.elements l) = (es, false) /\ length es = length (parse_all content) /\
    forall i r b e, nth_error (parse_all content) i = Some (r, b) -> nth_error es i = Some e ->
      In (lit "interpreter") (operations b) -> Ascii (code b) -> ~ In 13 (code b) -> (Z.of_nat (length (code b)) < 2 ^ 53)%Z ->
      exists x j b' p print secs fails v, In x (pre ++ [bd]) /\ nth_error (BuildModel.blocks_of x) j = Some b' /\ BuildSpec.Alike b b' /\
        RunSpec.Runs (BuildModel.around x j) p print secs /\ (fails = true <-> exists w, In (lit "shouldFail", w) (options b)) /\
        execution p fails = Some (inl v) /\ TrueTo short real content r e v.
Proof.
  intros Z F N W C NE R Rn PR. destruct (PropJson.C111_book_partial zip unzip hash b0 pre bd k content l Z F N W C NE R) as (_ & es & Ei & Fs).
  exists es. split; [exact Ei|]. split.
  { clear - Fs. rewrite <- (map_length snd). revert Fs. generalize (map snd (parse_all content)). intros l1 Fs. induction Fs; cbn; congruence. }
  intros i r b e Nb Ne Io As NC Sm.
  destruct (PropWire.forall2_nth _ _ _ Fs i b e (map_nth_error snd i _ Nb) Ne) as (x & b' & m & Ix & Al & (j & Nj & Ra) & Sh).
  destruct (Rn x j Ix) as (p & print & secs & Rx). destruct Al as (Al1 & Al2 & Al3).
  destruct (C121_told _ p print secs b' m Rx Ra) as (fails & v & Ef & Ev & G); [rewrite <- Al1; exact Io|].
  exists x, j, b', p, print, secs, fails, v. split; [exact Ix|]. split; [exact Nj|]. split; [split; [exact Al1|split; [exact Al2|exact Al3]]|]. split; [exact Rx|].
  split; [rewrite Al2; exact Ef|]. split; [exact Ev|].
  exact (C121_lesson_partial short real content r b m e v (nth_error_In _ _ Nb) Sh Io G As NC Sm PR).
Qed.
Print Assumptions C121_book_partial.

(** ** A marked program *)

Module LessonDemo.
  Definition nl : str := [10].
  Definition plain : str := lit "xxxxxxxx" ++ nl.
  (** The program of C120 with marks in its third and its seventh line. *)
  Definition content : str :=
    lit "```aquascope,interpreter" ++ nl ++ plain ++ plain ++ lit "xxxxxxx`[]`x" ++ nl ++ plain ++ plain ++ plain ++ lit "xxxxxx`[]`xx" ++ nl ++
    plain ++ plain ++ lit "xxxxxxxx" ++ nl ++ lit "```".
  Definition v : json := WireModel.jtrace PropWire.Demo.short PropScreen.Demo.run.
  Definition p := PropRun.Demo.prog true [inl JNull] (Some (inl v)).
  Definition world : env := Env true (Some true) true (fun _ => tool JsonModel.print 3 p) (100 * 100) JsonModel.decode JsonModel.from_str.
  Definition bd := BuildModel.Build [content] (fun _ => world) (fun _ m => JsonModel.to_string (JObj m)) [0; 0; 0; 0] BuildModel.Saved.
  Definition codec := JsonModel.cache_codec PropJson.JsonDemo.zip PropJson.JsonDemo.unzip.

  Lemma answers c j : tool_run p c = Some j -> j = JArr [JObj [(lit "Ok", JNull)]] \/ j = WireModel.answer PropWire.Demo.short PropScreen.Demo.run.
  Proof. destruct c as [sf [fl| | |]]; intros E; try discriminate E; injection E as <-; auto. Qed.
  Lemma shallow : JsonModel.depth (WireModel.answer PropWire.Demo.short PropScreen.Demo.run) <= 50.
  Proof. apply Nat.leb_le. vm_compute. reflexivity. Qed.
  Lemma runs : RunSpec.Runs world p JsonModel.print 3.
  Proof.
    apply PropJson.C111_runs; try reflexivity; [repeat split|lia|]. intros c j R. destruct (answers c j R) as [-> | ->].
    - split; [repeat constructor; cbn; intuition|]. split; [rewrite JsonProofs.deep_iff; cbn; lia|]. split; [apply PropJson.BookDemo.scalar_strings; vm_compute; reflexivity|apply Nat.leb_le; vm_compute; reflexivity].
    - split; [apply WireProofs.good_answer|]. split; [rewrite JsonProofs.deep_iff; pose proof shallow; lia|].
      split; [apply PropJson.BookDemo.scalar_strings; vm_compute; reflexivity|apply Nat.leb_le; vm_compute; reflexivity].
  Qed.
  Lemma written : PropJson.Written bd.
  Proof.
    split; [|split].
    - exists (fun _ m => m). split; [reflexivity|]. intros. apply Permutation_refl.
    - reflexivity.
    - intros b m k j (i & N & R) Ij. change (BuildModel.around bd i) with world in R.
      apply RunProofs.run_aquascope_ok in R. destruct R as [_ R]. apply RunProofs.run_ops_ok in R.
      destruct R as (_ & B & C & D). assert (G : aget str_eqd m k = Some j) by (apply JsonProofs.aget_of_in; [apply D; constructor|exact Ij]).
      destruct (in_dec str_eqd k (operations b)) as [Ik|Nk]; [|rewrite (B k Nk) in G; discriminate G].
      destruct (RunProofs.last_at _ _ Ik) as [q L]. destruct (C k q L) as (j' & E & G'). assert (j' = j) by congruence. subst j'.
      rewrite (RunProofs.run_op_tool world b p JsonModel.print 3 _ k runs) in E. destruct (parse_args (run_args b k)) as [c|].
      2:{ destruct (run_op world b (0 + q) k); discriminate E. }
      destruct (tool_run p c) as [j1|] eqn:T; [|destruct (run_op world b (0 + q) k); discriminate E].
      destruct (is_err j1); [discriminate E|]. destruct (is_build_error j1); [discriminate E|]. injection E as ->.
      rewrite JsonProofs.deep_iff. destruct (answers c j T) as [-> | ->]; [cbn; lia|pose proof shallow; lia].
  Qed.
  Definition blocks := parse_all content.
End LessonDemo.

(** All hypotheses of the theorem about a chapter hold, and what the tool says is the execution of C120: the mark in the seventh line has the
    number 1 and a state of [g], the mark in the third line the number 2. *)
Example C121_witness :
  let st := BuildModel.built LessonDemo.codec PropBuild.BuildDemo.hash (BuildModel.left_by LessonDemo.codec PropBuild.BuildDemo.hash [] []) LessonDemo.bd in
  JsonSpec.Zips PropJson.JsonDemo.zip PropJson.JsonDemo.unzip /\ BuildSpec.Fresh LessonDemo.codec [] /\
  BuildSpec.NoCollision PropBuild.BuildDemo.hash [LessonDemo.bd] /\ PropJson.Written LessonDemo.bd /\
  RunSpec.Runs LessonDemo.world LessonDemo.p JsonModel.print 3 /\ WireSpec.Prints PropWire.Demo.short PropWire.Demo.real /\
  exists l r b e, BuildModel.replacements JsonModel.from_str JsonModel.to_string LessonDemo.bd st 0 = Some l /\
    parse_all LessonDemo.content = [(r, b)] /\ operations b = [lit "interpreter"] /\ Ascii (code b) /\ ~ In 13 (code b) /\ length (code b) = 89 /\
    init_blocks JsonModel.js_parse (BuildModel.elements l) = ([e], false) /\ page_states e = [25; 60] /\ text_of (m_code e) = PropScreen.Demo.text /\
    WireSpec.RealTrace PropScreen.Demo.run /\
    forall t', ScreenSpec.Arrived PropWire.Demo.short PropWire.Demo.real PropScreen.Demo.run t' ->
      option_map fst (lesson e 5 PropScreen.Demo.ft false t') = Some [ScreenModel.Marker 60 1 false; ScreenModel.Marker 25 2 false].
Proof.
  cbv zeta. split; [exact PropJson.JsonDemo.zips|]. split; [left; reflexivity|]. split; [|split; [exact LessonDemo.written|split; [exact LessonDemo.runs|split; [exact PropWire.Demo.prints|]]]].
  { intros x x' b b' [<-|[]] [<-|[]] Ib Ib' _. assert (Q : exists b0, BuildModel.blocks_of LessonDemo.bd = [b0]) by (eexists; vm_compute; reflexivity).
    destruct Q as [b0 Q]. rewrite Q in Ib, Ib'. destruct Ib as [<-|[]], Ib' as [<-|[]]. repeat split. }
  do 4 eexists. split; [vm_compute; reflexivity|]. split; [vm_compute; reflexivity|]. split; [reflexivity|].
  split; [apply Forall_forall; intros c Ic; apply Nat.ltb_lt; revert c Ic; apply forallb_forall; vm_compute; reflexivity|].
  split; [intros X; match type of X with In _ ?l => assert (F : forallb (fun c => negb (Nat.eqb c 13)) l = true) by (vm_compute; reflexivity) end; rewrite forallb_forall in F; specialize (F 13 X); discriminate F|]. split; [reflexivity|].
  split; [vm_compute; reflexivity|]. split; [vm_compute; reflexivity|]. split; [vm_compute; reflexivity|]. split; [exact PropScreen.Demo.run_real|].
  intros t' AR. unfold lesson. rewrite (ScreenProofs.page_same _ _ _ _ _ _ _ _ _ PropWire.Demo.prints PropScreen.Demo.run_real AR). vm_compute. reflexivity.
Qed.

(** A letter of two bytes before the mark: it is meant behind the fourth letter, and shown behind the fifth. *)
Example C121_bytes_witness :
  let content := lit "```aquascope,interpreter" ++ [10; 97; 233; 98; 99] ++ lit "`[]`def" ++ [10] ++ lit "```" in
  exists r b, parse_all content = [(r, b)] /\ code b = [97; 233; 98; 99] ++ lit "def" /\ state_locations (annotations b) = [5] /\
    EditorSpec.position_after [97; 233; 98; 99] = 4 /\ Authored content r (code b) [[97; 233; 98; 99]].
Proof.
  cbv zeta. eexists _, _. split; [vm_compute; reflexivity|]. split; [reflexivity|]. split; [reflexivity|]. split; [reflexivity|].
  match goal with |- Authored ?c ?r (code ?b) _ => assert (I : In (r, b) (parse_all c)) by (vm_compute; auto); destruct (authored c r b I) as (ts & A & E & Pf) end.
  assert (Q : ts = [[97; 233; 98; 99]]); [|rewrite Q in A; exact A].
  assert (E5 : [5] = map blen ts) by exact E. clear E. destruct ts as [|t [|t2 ts]]; try discriminate E5. destruct (Pf t (or_introl eq_refl)) as (u & Eu). cbn [code] in Eu. f_equal.
  assert (B : blen t = 5) by (cbn [map] in E5; congruence). clear - B Eu. destruct t as [|x1 t]; [vm_compute in B; discriminate B|]. injection Eu as <- Eu.
  destruct t as [|x2 t]; [vm_compute in B; discriminate B|]. injection Eu as <- Eu. destruct t as [|x3 t]; [vm_compute in B; discriminate B|]. injection Eu as <- Eu.
  destruct t as [|x4 t]; [vm_compute in B; discriminate B|]. injection Eu as <- Eu. destruct t as [|x5 t]; [reflexivity|]. exfalso. injection Eu as <- Eu.
  change (blen ([97; 233; 98; 99; 100] ++ t) = 5) in B. rewrite blen_app in B. assert (X : blen [97; 233; 98; 99; 100] = 6) by reflexivity. rewrite X in B. lia.
Qed.
