(** * Theorems: JSON that is written is read back *)
From Coq Require Import Ascii String.
From Coq Require Import List Arith ZArith Bool Lia Permutation.
From Verif Require Import Base BookModel RunModel NumbersModel NumbersSpec EmbedModel EmbedSpec CacheModel JsonModel JsonSpec JsonProofs.
From Verif Require BookSpec RunSpec PropRun ValuesModel CacheSpec BuildModel BuildSpec BuildProofs PropBook PropEmbed PropBuild.
Import ListNotations.
Local Open Scope list_scope.

(** ** C111 *)

(** What the tool and the preprocessor write is a text of the value. *)
Theorem C111_writes j : Text j (to_string j).
Proof. exact (written j). Qed.

(** The readers take exactly the texts, with white space around them. *)
Theorem C111_takes s : (exists j, Padded j s) <-> parse_text s <> None.
Proof.
  split.
  - intros (j & P). apply parse_iff in P. rewrite P. discriminate.
  - destruct (parse_text s) as [j|] eqn:E; [|contradiction]. intros _. exists j. apply parse_iff, E.
Qed.
(** A text has one value, and a value is written in one way. *)
Theorem C111_one_value s j j' : Padded j s -> Padded j' s -> j = j'.
Proof. intros P P'. apply parse_iff in P, P'. congruence. Qed.
Theorem C111_injective j j' : to_string j = to_string j' -> j = j'.
Proof. intros E. apply (C111_one_value (to_string j)); [|rewrite E]; apply text_padded, written. Qed.

(** The preprocessor reads a text if it is less than 128 deep, and of each object it takes the last member of each name. *)
Theorem C111_reads s j0 : Padded j0 s -> ~ Deep j0 128 -> exists j, from_str s = Some j /\ Means j0 j.
Proof.
  intros P D. exists (rounded (fun n => n) j0). split; [apply from_str_iff; eauto|apply means_rounded].
Qed.
Theorem C111_reads_only s j : from_str s = Some j -> Distinct j /\ exists j0, Padded j0 s /\ ~ Deep j0 128 /\ Means j0 j.
Proof.
  intros H. apply from_str_iff in H. destruct H as (j0 & P & D & ->). split; [apply rounded_distinct|].
  exists j0. split; [exact P|]. split; [exact D|apply means_rounded].
Qed.

(** Every character can be written in ASCII, with escapes, and is read back from them; a single surrogate is refused. *)
Lemma hex_exists n : n < 16 -> Hex (hex_digit n) n.
Proof. exact (hex_digit_hex n). Qed.
Lemma hex_small n : n < 16 -> hex_digit n < 128.
Proof. intros L. unfold hex_digit. destruct (Nat.ltb_spec n 10); lia. Qed.
Theorem C111_escapes c : Scalar c ->
  exists s, Forall (fun x => x < 128) s /\ Quoted [c] (34 :: s ++ [34]) /\ parse_text (34 :: s ++ [34]) = Some (JStr [c]).
Proof.
  intros Sc.
  assert (E : exists s, Forall (fun x => x < 128) s /\ Char c s).
  { destruct (Nat.lt_ge_cases c (64 * 1024)) as [L|L].
    - pose proof (Nat.div_mod c 16 ltac:(lia)) as E0. pose proof (Nat.mod_upper_bound c 16 ltac:(lia)) as U0.
      pose proof (Nat.div_mod (c / 16) 16 ltac:(lia)) as E1. pose proof (Nat.mod_upper_bound (c / 16) 16 ltac:(lia)) as U1.
      pose proof (Nat.div_mod (c / 16 / 16) 16 ltac:(lia)) as E2. pose proof (Nat.mod_upper_bound (c / 16 / 16) 16 ltac:(lia)) as U2.
      set (d0 := c mod 16) in *. set (q0 := c / 16) in *. set (d1 := q0 mod 16) in *. set (q1 := q0 / 16) in *.
      set (d2 := q1 mod 16) in *. set (d3 := q1 / 16) in *.
      assert (U3 : d3 < 16) by lia.
      exists [92; 117; hex_digit d3; hex_digit d2; hex_digit d1; hex_digit d0]. split.
      + repeat (constructor; [first [apply hex_small; assumption|lia]|]). constructor.
      + replace c with (((d3 * 16 + d2) * 16 + d1) * 16 + d0) by lia.
        apply ch_hex; try (apply hex_exists; assumption).
        intros [A B]. unfold Scalar in Sc. lia.
    - set (m := c - 64 * 1024). assert (Em : c = 64 * 1024 + m) by (subst m; lia).
      pose proof (Nat.div_mod m 16 ltac:(lia)) as E0. pose proof (Nat.mod_upper_bound m 16 ltac:(lia)) as U0.
      pose proof (Nat.div_mod (m / 16) 16 ltac:(lia)) as E1. pose proof (Nat.mod_upper_bound (m / 16) 16 ltac:(lia)) as U1.
      pose proof (Nat.div_mod (m / 16 / 16) 4 ltac:(lia)) as E2. pose proof (Nat.mod_upper_bound (m / 16 / 16) 4 ltac:(lia)) as U2.
      pose proof (Nat.div_mod (m / 16 / 16 / 4) 16 ltac:(lia)) as E3. pose proof (Nat.mod_upper_bound (m / 16 / 16 / 4) 16 ltac:(lia)) as U3.
      pose proof (Nat.div_mod (m / 16 / 16 / 4 / 16) 16 ltac:(lia)) as E4. pose proof (Nat.mod_upper_bound (m / 16 / 16 / 4 / 16) 16 ltac:(lia)) as U4.
      set (w := m mod 16) in *. set (q0 := m / 16) in *. set (z := q0 mod 16) in *. set (q1 := q0 / 16) in *.
      set (y := q1 mod 4) in *. set (q2 := q1 / 4) in *. set (d := q2 mod 16) in *. set (q3 := q2 / 16) in *.
      set (cc := q3 mod 16) in *. set (b := q3 / 16) in *.
      assert (U5 : b < 4) by (unfold Scalar in Sc; lia).
      exists [92; 117; hex_digit 13; hex_digit (8 + b); hex_digit cc; hex_digit d; 92; 117; hex_digit 13; hex_digit (12 + y); hex_digit z; hex_digit w].
      split.
      + repeat (constructor; [first [apply hex_small; first [assumption|lia]|lia]|]). constructor.
      + replace c with ((64 + b * 256 + cc * 16 + d) * 1024 + (y * 256 + z * 16 + w)) by lia.
        apply ch_pair; try assumption; apply hex_exists; first [assumption|lia]. }
  destruct E as (s & A & C). exists s. split; [exact A|].
  assert (Q : Quoted [c] (34 :: s ++ [34])) by (exists [s]; split; [constructor; [exact C|constructor]|cbn [concat]; rewrite app_nil_r; reflexivity]).
  split; [exact Q|]. apply parse_iff, text_padded, tx_str. exact Q.
Qed.
Theorem C111_single h1 h2 h3 h4 b : Hex h1 13 -> Hex h2 (8 + b) -> parse_text [34; 92; 117; h1; h2; h3; h4; 34] = None.
Proof.
  intros A B. unfold parse_text. cbn [length value skip is_space Nat.eqb orb string_body].
  rewrite (pair_not_unit h1 h2 h3 h4 b A B). reflexivity.
Qed.

(** So it reads what the tool wrote, also with the line end. *)
Theorem C111_round_trip_partial j w w' : Distinct j -> ~ Deep j 128 -> Space w -> Space w' -> from_str (w ++ to_string j ++ w') = Some j.
Proof.
  intros D N W W'. apply from_str_iff. exists j. split; [constructor; [exact W|apply written|exact W']|]. split; [exact N|].
  symmetry. apply rounded_id, D.
Qed.
(** But nothing that is deeper. *)
Theorem C111_deep_refuted j s : Deep j 128 -> Padded j s -> from_str s = None.
Proof.
  intros D P. destruct (from_str s) as [j'|] eqn:E; [|reflexivity]. exfalso. apply from_str_iff in E. destruct E as (j0 & P0 & N & _).
  rewrite (C111_one_value s j0 j P0 P) in N. contradiction.
Qed.
(** And the answer of the tool may be just shallow enough for the preprocessor, and not the map
    of the answers that it puts in the cache. *)
Theorem C111_map_refuted j k : Distinct j -> Deep j 127 -> ~ Deep j 128 ->
  from_str (to_string j) = Some j /\ from_str (to_string (JObj [(k, j)])) = None.
Proof.
  intros D D1 D2. split.
  - rewrite <- (app_nil_r (to_string j)). apply (C111_round_trip_partial j [] []); auto; constructor.
  - apply (C111_deep_refuted (JObj [(k, j)])); [|apply text_padded, written]. apply (deep_member _ k j); [cbn; auto|exact D1].
Qed.

(** A text that is cut off is not read as something else, unless it is a number; *)
Theorem C111_cut j s p q : Text j s -> ~ IsNumber j -> s = p ++ q -> q <> [] -> parse_text p = None.
Proof. intros T N. apply (cut j); assumption. Qed.
(** and nothing but white space may stand beside it. *)
Theorem C111_alone j w t : ~ IsNumber j -> Space w -> parse_text (w ++ to_string j ++ t) <> None -> Space t.
Proof. intros N W. apply (alone j _ w t); [apply written|exact N|exact W]. Qed.

(** It is one line. *)
Theorem C111_one_line j c : In c (to_string j) -> 32 <= c.
Proof. pose proof (printable j) as P. rewrite Forall_forall in P. apply P. Qed.

(** The bytes of a text are read as this text, and nothing else as a text. *)
Theorem C111_bytes bytes s : decode bytes = Some s <-> Forall Scalar s /\ bytes = flat_map ValuesModel.utf8 s.
Proof. apply decode_iff. Qed.

(** ** What the other theorems assume of JSON *)

(** The preprocessor reads what the tool prints: the hypothesis of C49, C67-C71 and C102, in a world where
    the commands are runs of the tool. *)
Theorem C111_runs e p secs : RunSpec.SetUp e -> (forall i args, exec e i args = tool print secs p args) -> secs < 10 ->
  from_utf8 e = decode -> from_json e = from_str ->
  (forall c j, tool_run p c = Some j ->
     Distinct j /\ ~ Deep j 128 /\ (forall x, Occurs x j -> Forall Scalar x) /\ length (print j) <= pipe e) ->
  RunSpec.Runs e p print secs.
Proof.
  intros SU X T U J A. constructor; auto. intros c j R. destruct (A c j R) as (D & N & O & L). split; [exact L|].
  exists (to_string j ++ [10]). split.
  - rewrite U. apply decode_iff. split; [|reflexivity]. apply Forall_app. split; [apply to_string_scalar, O|].
    constructor; [left; lia|constructor].
  - rewrite J. apply (C111_round_trip_partial j [] [10]); [exact D|exact N|constructor|]. constructor; [cbn; auto|constructor].
Qed.

(** The page reads what the preprocessor writes: the hypothesis of C105. *)
Theorem C111_page : Faithful to_string js_parse.
Proof.
  intros j D. split.
  - intros E. pose proof (written j) as T. destruct (text_black j _ T) as (c & r & E' & _). congruence.
  - exists (rounded js_nat j). split; [|apply reads_rounded, D]. unfold js_parse. rewrite round_trip. reflexivity.
Qed.

(** The preprocessor reads the map of responses, in whatever order the hash map gives them: the
    hypothesis of C108. *)
Theorem C111_readable order m : (forall k j, In (k, j) m -> ~ Deep j 127) -> Permutation m (order m) ->
  BuildSpec.Readable from_str (fun m => to_string (JObj (order m))) m.
Proof.
  intros Sh P D. assert (Do : Distinct (JObj (order m))).
  { inversion D as [| | | | | | |l D1 D2]; subst. constructor.
    - eapply Permutation_NoDup; [apply Permutation_map; exact P|exact D1].
    - eapply Permutation_Forall; [apply Permutation_map; exact P|exact D2]. }
  split.
  - intros s w E. cbn [to_string] in E. rewrite app_assoc in E. apply app_inj_tail in E. destruct E as [_ <-].
    intros W. apply PropBook.white_iff in W. discriminate W.
  - exists (order m). split; [|split; [exact Do|]].
    + rewrite <- (app_nil_r (to_string _)). apply (C111_round_trip_partial _ [] []); [exact Do| |constructor|constructor].
      rewrite deep_iff. cbn [depth]. assert (L : list_max (map (fun kv => depth (snd kv)) (order m)) <= 126); [|lia].
      apply list_max_le. apply Forall_map. apply Forall_forall. intros [k j] I. cbn [snd].
      apply (Permutation_in _ (Permutation_sym P)) in I. specialize (Sh k j I). rewrite deep_iff in Sh. lia.
    + intros k. inversion D as [| | | | | | |l D1 _]; subst. inversion Do as [| | | | | | |l D3 _]; subst.
      destruct (aget str_eqd m k) as [v|] eqn:E.
      * apply aget_of_in; [exact D3|]. apply aget_in in E. apply (Permutation_in _ P), E.
      * destruct (aget str_eqd (order m) k) as [v|] eqn:E'; [|reflexivity]. apply aget_in in E'.
        apply (Permutation_in _ (Permutation_sym P)) in E'. apply (aget_of_in _ _ _ D1) in E'. congruence.
Qed.

(** The cache file, if gzip does what it should: the hypothesis of C46-C48, C66 and C108. *)
Theorem C111_cache zip unzip : Zips zip unzip -> CacheSpec.Faithful (cache_codec zip unzip).
Proof. apply cache_faithful. Qed.

(** ** A book, with JSON as it is *)

(** The responses of a build are written as they are, in some order, and none is too deep. *)
Definition Written (bd : BuildModel.build) : Prop :=
  (exists order, (forall j m, BuildModel.text bd j m = to_string (JObj (order j m))) /\ forall j m, Permutation m (order j m)) /\
  (forall j s, from_json (BuildModel.around bd j) s = from_str s) /\
  forall b m k j, BuildSpec.Gave bd b m -> In (k, j) m -> ~ Deep j 127.

Lemma written_sound h : (forall bd, In bd h -> Written bd) -> BuildSpec.Sound h.
Proof.
  intros W bd j s v I R. destruct (W bd I) as (_ & F & _). rewrite F in R. exact (proj1 (C111_reads_only s v R)).
Qed.
Lemma written_readable h : (forall bd, In bd h -> Written bd) -> BuildSpec.AllReadable from_str h.
Proof.
  intros W bd j b m I N R. destruct (W bd I) as ((order & T & P) & _ & Sh). unfold BuildSpec.Readable. rewrite T.
  apply (C111_readable (order j) m); [|apply P]. intros k x Ix. apply (Sh b m k x); [exists j; auto|exact Ix].
Qed.

(** Whatever was built before: the blocks of a page show what the tool said.  Nothing is assumed of
    JSON, only of gzip and of the hash. *)
Theorem C111_book_partial zip unzip hash b0 pre bd k content l : Zips zip unzip ->
  BuildSpec.Fresh (cache_codec zip unzip) b0 -> BuildSpec.NoCollision hash (pre ++ [bd]) -> (forall x, In x (pre ++ [bd]) -> Written x) ->
  nth_error (BuildModel.chapters bd) k = Some content -> (forall r b, In (r, b) (parse_all content) -> code b <> []) ->
  BuildModel.replacements from_str to_string bd
    (BuildModel.built (cache_codec zip unzip) hash (BuildModel.left_by (cache_codec zip unzip) hash b0 pre) bd) k = Some l ->
  map fst l = map fst (parse_all content) ++ map fst (parse_perms content) /\
  exists es, init_blocks js_parse (BuildModel.elements l) = (es, false) /\
    Forall2 (fun b e => exists bd' b' m, In bd' (pre ++ [bd]) /\ BuildSpec.Alike b b' /\ BuildSpec.Gave bd' b' m /\ BuildSpec.Shows b m e)
      (map snd (parse_all content)) es.
Proof.
  intros Z F N W C NE R.
  apply (PropBuild.C108_page (cache_codec zip unzip) hash from_str to_string js_parse (C111_cache zip unzip Z) C111_page b0 pre bd k content l F N); auto.
  - apply written_sound, W.
  - apply written_readable, W.
Qed.

(** ** Witnesses *)
Module JsonDemo.
  Definition q : nat := 34.
  (** An answer with all kinds of values, a quote, a backslash, a line end, a bell and a letter beyond ASCII. *)
  Definition answer : json :=
    JObj [ (lit "ok", JArr [JNum 0; JNum 120; JBool true; JBool false; JNull; JArr []; JObj []]);
           (lit "text", JStr ([q; 92; 10; 7; 233] ++ lit "x")) ].
  Definition answer_text : str :=
    lit "{" ++ q :: lit "ok" ++ q :: lit ":[0,120,true,false,null,[],{}]," ++ q :: lit "text" ++ q :: lit ":" ++
    q :: 92 :: q :: 92 :: 92 :: 92 :: lit "n" ++ 92 :: lit "u0007" ++ 233 :: lit "x" ++ q :: lit "}".
  Fixpoint nested (n : nat) : json := match n with 0 => JNum 1 | S n => JArr [nested n] end.
  Lemma nested_depth n : depth (nested n) = n.
  Proof. induction n as [|n IH]; [reflexivity|]. cbn [nested depth map]. change (list_max [depth (nested n)]) with (Nat.max (depth (nested n)) 0). lia. Qed.
  Lemma nested_distinct n : Distinct (nested n).
  Proof. induction n; cbn [nested]; repeat constructor; auto. Qed.

  (** A stream that ends in a mark: cut off, it has no mark. *)
  Definition zip (t : str) : list nat := map S t ++ [0].
  Fixpoint unzip (bytes : list nat) : str * bool :=
    match bytes with [] => ([], false) | 0 :: _ => ([], true) | S c :: r => let (t, b) := unzip r in (c :: t, b) end.
  Lemma zips : Zips zip unzip.
  Proof.
    constructor; unfold zip.
    - induction t as [|c t IH]; [reflexivity|]. cbn [map List.app unzip]. rewrite IH. reflexivity.
    - intros [|c t]; discriminate.
    - intros t p q E Q. left. revert t E. induction p as [|c p IH]; intros t E; [reflexivity|]. destruct t as [|a t].
      + cbn in E. injection E as <- E. destruct p; [cbn in E; congruence|discriminate E].
      + cbn [map List.app] in E. injection E as <- E. cbn [unzip]. specialize (IH t E). destruct (unzip p). exact IH.
  Qed.
End JsonDemo.

Example C111_witness : to_string JsonDemo.answer = JsonDemo.answer_text /\ Distinct JsonDemo.answer /\ ~ Deep JsonDemo.answer 128 /\
  from_str (JsonDemo.answer_text ++ [10]) = Some JsonDemo.answer /\
  from_str (lit "{ " ++ JsonDemo.q :: lit "a" ++ JsonDemo.q :: lit " : 1 , " ++ JsonDemo.q :: 92 :: lit "u0061" ++ JsonDemo.q :: lit ":[ 2 ]}") =
    Some (JObj [(lit "a", JArr [JNum 2])]) /\
  parse_text (lit "[1") = None /\ parse_text (lit "[1]x") = None /\ parse_text (lit "[01]") = None /\ parse_text (lit "[1,]") = None.
Proof.
  split; [vm_compute; reflexivity|]. split; [repeat constructor; cbn; intuition discriminate|]. split; [rewrite deep_iff; cbn; lia|].
  split; [vm_compute; reflexivity|]. split; [vm_compute; reflexivity|]. repeat split; vm_compute; reflexivity.
Qed.
(** A number that is cut off is another number. *)
Example C111_number_witness : parse_text (lit "12") = Some (JNum 12) /\ parse_text (lit "1") = Some (JNum 1) /\
  parse_text (lit "-7") = Some (JNeg 6) /\ parse_text (lit "-0") = Some (JReal true 0 0) /\ parse_text (lit "-1.50e+3") = Some (JReal true 150 1) /\
  parse_text (lit "1.5e-7") = Some (JReal false 15 (-8)) /\ parse_text (lit "1.0") = Some (JReal false 10 (-1)) /\
  parse_text (lit "1.") = None /\ parse_text (lit "-") = None /\ parse_text (lit "1e") = None /\ parse_text (lit "-01") = None /\
  from_str (to_string (JArr [JNeg 6; JReal true 15 (-8)])) = Some (JArr [JNeg 6; JReal true 15 (-8)]) /\
  to_string (JReal true 15 (-8)) = lit "-15e-8".
Proof. repeat split; vm_compute; reflexivity. Qed.
Example C111_deep_witness : (forall n, 128 <= n -> Deep (JsonDemo.nested n) 128) /\ ~ Deep (JsonDemo.nested 127) 128 /\
  Deep (JsonDemo.nested 127) 127 /\ Distinct (JsonDemo.nested 127).
Proof.
  rewrite !deep_iff, JsonDemo.nested_depth. split; [intros n L; apply deep_iff; rewrite JsonDemo.nested_depth; exact L|].
  split; [lia|]. split; [lia|apply JsonDemo.nested_distinct].
Qed.
(** A world, and a book in it. *)
Module BookDemo.
  Definition p := PropRun.Demo.prog true [inl (JObj [(lit "name", JStr (lit "caf" ++ [233]))])] (Some (inl (JArr [JNum 7; JNull]))).
  Definition world : env := Env true (Some true) true (fun _ => tool print 3 p) 100 decode from_str.
  Definition text (j : nat) (m : list (str * json)) : str := to_string (JObj (if Nat.even j then m else List.rev m)).
  Definition first := BuildModel.Build [PropBuild.BuildDemo.one] (fun _ => world) text [0; 0; 0] (BuildModel.Killed 7).
  Definition second := BuildModel.Build [PropBuild.BuildDemo.one; PropBuild.BuildDemo.two] (fun _ => world) text [1; 0; 1; 0; 1; 0; 0] BuildModel.Saved.
  Definition third := BuildModel.Build [PropBuild.BuildDemo.two; PropBuild.BuildDemo.one'] (fun _ => world) text [1; 0] BuildModel.NotSaved.
  Definition codec := cache_codec JsonDemo.zip JsonDemo.unzip.
  Definition history := [first; second; third].

  Fixpoint strings (j : json) : list str :=
    match j with
    | JStr s => [s]
    | JArr l => flat_map strings l
    | JObj l => flat_map (fun kv => fst kv :: strings (snd kv)) l
    | _ => []
    end.
  Lemma occurs_strings x j : Occurs x j -> In x (strings j).
  Proof.
    induction 1 as [|l j I _ IH|l j I|l k j I _ IH]; cbn [strings].
    - cbn. auto.
    - apply in_flat_map. exists j. auto.
    - apply in_flat_map. exists (x, j). cbn. auto.
    - apply in_flat_map. exists (k, j). cbn. auto.
  Qed.
  Lemma scalar_strings j : forallb (forallb (fun c => c <? 256)) (strings j) = true -> forall x, Occurs x j -> Forall Scalar x.
  Proof.
    intros H x O. apply occurs_strings in O. rewrite forallb_forall in H. specialize (H x O). rewrite forallb_forall in H.
    apply Forall_forall. intros c I. specialize (H c I). apply Nat.ltb_lt in H. left. lia.
  Qed.
  Lemma answers c j : tool_run p c = Some j -> j = JArr [JObj [(lit "Ok", JObj [(lit "name", JStr (lit "caf" ++ [233]))])]] \/
    j = JObj [(lit "Ok", JArr [JNum 7; JNull])].
  Proof. destruct c as [sf [fl| | |]]; cbn; intros E; try discriminate E; injection E as <-; auto. Qed.
  Lemma runs : RunSpec.Runs world p print 3.
  Proof.
    apply C111_runs; try reflexivity; [repeat split|lia|]. intros c j R. destruct (answers c j R) as [-> | ->].
    - split; [repeat constructor; cbn; intuition|]. split; [rewrite deep_iff; cbn; lia|]. split; [apply scalar_strings; vm_compute; reflexivity|vm_compute; lia].
    - split; [repeat constructor; cbn; intuition|]. split; [rewrite deep_iff; cbn; lia|]. split; [apply scalar_strings; vm_compute; reflexivity|vm_compute; lia].
  Qed.
  Lemma written bd : In bd history -> Written bd.
  Proof.
    intros I. split; [|split].
    - exists (fun j m => if Nat.even j then m else List.rev m). split.
      + intros j m. cbn [In history] in I. destruct I as [<-|[<-|[<-|[]]]]; reflexivity.
      + intros j m. destruct (Nat.even j); [apply Permutation_refl|apply Permutation_rev].
    - intros j s. cbn [In history] in I. destruct I as [<-|[<-|[<-|[]]]]; reflexivity.
    - intros b m k j (i & N & R) Ij.
      assert (A : BuildModel.around bd i = world) by (cbn [In history] in I; destruct I as [<-|[<-|[<-|[]]]]; reflexivity).
      rewrite A in R. apply RunProofs.run_aquascope_ok in R. destruct R as [_ R]. apply RunProofs.run_ops_ok in R.
      destruct R as (_ & B & C & D). assert (G : aget str_eqd m k = Some j) by (apply aget_of_in; [apply D; constructor|exact Ij]).
      destruct (in_dec str_eqd k (operations b)) as [Ik|Nk]; [|rewrite (B k Nk) in G; discriminate G].
      destruct (RunProofs.last_at _ _ Ik) as [q L]. destruct (C k q L) as (j' & E & G'). assert (j' = j) by congruence. subst j'.
      rewrite (RunProofs.run_op_tool world b p print 3 _ k runs) in E. destruct (parse_args (run_args b k)) as [c|].
      2:{ destruct (run_op world b (0 + q) k); discriminate E. }
      destruct (tool_run p c) as [j1|] eqn:T; [|destruct (run_op world b (0 + q) k); discriminate E].
      destruct (is_err j1); [discriminate E|]. destruct (is_build_error j1); [discriminate E|]. injection E as ->.
      destruct (answers c j T) as [-> | ->]; rewrite deep_iff; cbn; lia.
  Qed.
End BookDemo.

Example C111_runs_witness : RunSpec.Runs BookDemo.world BookDemo.p print 3.
Proof. exact BookDemo.runs. Qed.
(** All hypotheses of the theorem about books hold, and the third build shows what the tool said. *)
Example C111_book_witness :
  let st := BuildModel.built BookDemo.codec PropBuild.BuildDemo.hash
              (BuildModel.left_by BookDemo.codec PropBuild.BuildDemo.hash [] [BookDemo.first; BookDemo.second]) BookDemo.third in
  Zips JsonDemo.zip JsonDemo.unzip /\ BuildSpec.Fresh BookDemo.codec [] /\ (forall bd, In bd BookDemo.history -> Written bd) /\
  BuildSpec.NoCollision PropBuild.BuildDemo.hash BookDemo.history /\
  exists l, BuildModel.replacements from_str to_string BookDemo.third st 1 = Some l /\
    map m_rendered (fst (init_blocks js_parse (BuildModel.elements l))) =
      [[(lit "interpreter", Some (JObj [(lit "Ok", JArr [JNum 7; JNull])]));
        (lit "permissions", Some (JArr [JObj [(lit "Ok", JObj [(lit "name", JStr (lit "caf" ++ [233]))])]]))]].
Proof.
  cbv zeta. split; [exact JsonDemo.zips|]. split; [left; reflexivity|]. split; [exact BookDemo.written|]. split.
  { assert (X : forall bd, In bd BookDemo.history -> exists bd0, In bd0 PropBuild.BuildDemo.history /\ BuildModel.blocks_of bd = BuildModel.blocks_of bd0).
    { intros bd I. cbn [In BookDemo.history] in I. destruct I as [<-|[<-|[<-|[]]]].
      - exists PropBuild.BuildDemo.first. unfold BuildModel.blocks_of. cbn [BuildModel.chapters BookDemo.first PropBuild.BuildDemo.first]. split; [left; reflexivity|reflexivity].
      - exists PropBuild.BuildDemo.second. unfold BuildModel.blocks_of. cbn [BuildModel.chapters BookDemo.second PropBuild.BuildDemo.second]. split; [right; left; reflexivity|reflexivity].
      - exists PropBuild.BuildDemo.third. unfold BuildModel.blocks_of. cbn [BuildModel.chapters BookDemo.third PropBuild.BuildDemo.third]. split; [right; right; left; reflexivity|reflexivity]. }
    pose proof PropBuild.C108_witness as W. cbv zeta in W. destruct W as (_ & NC & _).
    intros bd bd' b b' I I' J J'. destruct (X bd I) as (bd0 & I0 & E0). destruct (X bd' I') as (bd1 & I1 & E1). rewrite E0 in J. rewrite E1 in J'.
    exact (NC bd0 bd1 b b' I0 I1 J J'). }
  eexists. split; [vm_compute; reflexivity|vm_compute; reflexivity].
Qed.
Example C111_zip_witness : Zips JsonDemo.zip JsonDemo.unzip.
Proof. exact JsonDemo.zips. Qed.

Print Assumptions C111_writes.
Print Assumptions C111_takes.
Print Assumptions C111_one_value.
Print Assumptions C111_injective.
Print Assumptions C111_reads.
Print Assumptions C111_reads_only.
Print Assumptions C111_escapes.
Print Assumptions C111_single.
Print Assumptions C111_round_trip_partial.
Print Assumptions C111_deep_refuted.
Print Assumptions C111_map_refuted.
Print Assumptions C111_cut.
Print Assumptions C111_alone.
Print Assumptions C111_one_line.
Print Assumptions C111_bytes.
Print Assumptions C111_runs.
Print Assumptions C111_page.
Print Assumptions C111_readable.
Print Assumptions C111_cache.
Print Assumptions C111_book_partial.
