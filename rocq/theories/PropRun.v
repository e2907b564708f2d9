(** * Properties of running the analysis: C49, C50, C67, C68, C69, C70, C71 *)

From Coq Require Import Ascii String.
From Coq Require Import List Arith Bool Lia.
From Verif Require BookSpec.
From Verif Require Import Base ValuesModel BookModel CacheModel CacheProofs PropCache RunModel RunSpec RunProofs.
Import ListNotations.

(** ** C49: a block succeeds only if every requested operation succeeded *)

Theorem C49_iff e b :
  (exists m, run_aquascope e b = inr m) <->
  SetUp e /\ forall i op, nth_error (operations b) i = Some op -> exists j, Succeeded e b i op j.
Proof.
  split.
  - intros [m H]. apply run_aquascope_ok in H. destruct H as [SU H]. split; [auto|].
    intros i op Hi. apply run_ops_ok in H. destruct H as (A & _). destruct (A i op Hi) as [j J].
    exists j. apply run_op_iff. exact J.
  - intros [SU H]. rewrite run_aquascope_setup by auto. apply run_ops_total.
    intros k op Hk. destruct (H k op Hk) as [j J]. exists j. apply run_op_iff. exact J.
Qed.

(** The map has exactly one entry per distinct operation: its last response. *)
(** The error says what went wrong first. *)
Theorem C49_error_iff e b er : run_aquascope e b = inl er <-> Fails e b er.
Proof.
  split.
  - unfold run_aquascope. destruct (temp_ok e) eqn:T; cbn [negb]; [|intros [= <-]; constructor; auto].
    destruct (cargo_new e) as [[|]|] eqn:C; [|intros [= <-]; constructor; auto|intros [= <-]; constructor; auto].
    destruct (write_ok e) eqn:W; cbn [negb]; [|intros [= <-]; constructor; auto].
    intros H. apply run_ops_fails in H. destruct H as (k & op & N & E & B). apply (fails_op e b k op).
    + repeat split; auto.
    + exact N.
    + apply op_fails_iff. exact E.
    + intros k' o L H. destruct (B k' o L H) as [j J]. exists j. apply run_op_iff. exact J.
  - intros [T|T C|T C|T C W|i op er' SU N E B].
    + unfold run_aquascope. rewrite T. reflexivity.
    + unfold run_aquascope. rewrite T, C. reflexivity.
    + unfold run_aquascope. rewrite T, C. reflexivity.
    + unfold run_aquascope. rewrite T, C, W. reflexivity.
    + rewrite run_aquascope_setup by auto. apply run_ops_fails. exists i, op. split; [auto|]. split; [apply op_fails_iff; exact E|].
      intros k o L H. destruct (B k o L H) as [j J]. exists j. apply run_op_iff. exact J.
Qed.

Theorem C49_map e b m : run_aquascope e b = inr m ->
  NoDup (akeys m) /\
  (forall op, In op (akeys m) <-> In op (operations b)) /\
  (forall op i j, LastAt (operations b) op i -> Succeeded e b i op j -> aget str_eqd m op = Some j).
Proof.
  intros H. apply run_aquascope_ok in H. destruct H as [_ H]. apply run_ops_ok in H. destruct H as (A & B & C & D).
  split; [apply D; constructor|]. split.
  - intros op. split.
    + intros I. destruct (in_dec str_eqd op (operations b)) as [J|J]; auto.
      apply aget_In_keys with (eqd := str_eqd) in I. destruct I as [v E]. rewrite B in E by auto. discriminate.
    + intros I. destruct (last_at _ _ I) as [i L]. destruct (C op i L) as (j & _ & E).
      apply aget_In_keys with (eqd := str_eqd). eauto.
  - intros op i j L Sj. destruct (C op i L) as (j' & R & E). apply run_op_iff in Sj. cbn [Nat.add] in R. congruence.
Qed.

(** A failure is not cached: a key is in the cache at the end only if it was there
    at the start, or one of its blocks succeeded. *)
Theorem C49_not_cached (key : nat -> nat) (envs : nat -> env) (blocks : nat -> block) c0 n sched k m :
  let outcome j := match run_aquascope (envs j) (blocks j) with inr m => Some m | inl _ => None end in
  aget Nat.eq_dec (p_cache (process key outcome c0 n sched)) k = Some m ->
  aget Nat.eq_dec c0 k = Some m \/ exists i, i < n /\ key i = k /\ run_aquascope (envs i) (blocks i) = inr m.
Proof.
  cbn zeta. intros H. apply (C48_entries key _ c0 n sched k m) in H. destruct H as [H|(i & L & K & O)]; auto.
  right. exists i. split; [auto|]. split; [auto|]. destruct (run_aquascope (envs i) (blocks i)); congruence.
Qed.

(** A process that would succeed but writes more than a pipe holds is reported as
    a timeout, whatever it computes. *)
Theorem C49_large_output_refuted e b op r secs out err : SetUp e -> operations b = op :: r ->
  exec e 0 (run_args b op) = Proc secs out err true -> pipe e < length out ->
  run_aquascope e b = inl ETimeout.
Proof.
  intros SU O E L. rewrite run_aquascope_setup by auto. rewrite O. cbn [run_ops]. unfold run_op. rewrite E.
  unfold ends_in_time. destruct (Nat.leb_spec (length out) (pipe e)) as [H|H]; [lia|].
  rewrite andb_false_r, andb_false_l. reflexivity.
Qed.

(** An environment that runs a program. *)
Module Demo.
  Definition obj (k : string) (j : json) := JObj [(lit k, j)].
  Definition progv (ex : bool) (vs : list verdict) (x : option (json + unit)) := Program ex (fun _ => vs) (fun _ => x).
  Definition prog (ex : bool) (bs : list (json + json)) (x : option (json + unit)) := progv ex (map Analysed bs) x.
  Definition print (j : json) : list nat := match j with JArr _ => [1] | _ => [2] end.
  Definition read (p : program) (s : str) : option json :=
    match s with
    | [1] => tool_run p (Cli false (CPermissions false))
    | _ => tool_run p (Cli false CInterpreter)
    end.
  Definition world (p : program) := Env true (Some true) true (fun _ => tool print 3 p) 100 Some (read p).
  Definition blk (ops : list string) (opts : list (string * string)) :=
    Block (map lit ops) (map (fun '(a, b) => (lit a, lit b)) opts) (lit "fn main() {}") no_annots.

  Lemma runs ex vs x : Runs (world (progv ex vs x)) (progv ex vs x) print 3.
  Proof.
    constructor.
    - repeat split.
    - reflexivity.
    - lia.
    - intros [sf [fl| | |]] j E; cbn in E; try discriminate.
      + assert (Q : exists es, j = JArr es).
        { destruct ex; [|injection E as <-; eauto]. destruct (analyze_bodies vs []); [|discriminate]. injection E as <-. eauto. }
        destruct Q as [es ->]. split; [cbn; lia|]. exists [1]. split; [reflexivity|exact E].
      + split; [|exists [2]; split].
        * destruct x as [[v|]|]; try discriminate; injection E as <-; cbn; lia.
        * destruct x as [[v|]|]; try discriminate; injection E as <-; reflexivity.
        * destruct x as [[v|]|]; try discriminate; injection E as <-; reflexivity.
  Qed.
End Demo.

(** Two operations, both of which succeed; the second fails; an error in one body. *)
Example C49_witness :
  let ok := Demo.prog true [inl (JNum 1)] (Some (inl (JNum 2))) in
  let bad := Demo.prog true [inl (JNum 1)] None in
  let err := Demo.prog true [inl (JNum 1); inr (JNum 5)] (Some (inl (JNum 2))) in
  let b := Demo.blk ["permissions"; "interpreter"]%string [] in
  run_aquascope (Demo.world ok) b =
    inr [(lit "permissions", JArr [Demo.obj "Ok" (JNum 1)]); (lit "interpreter", Demo.obj "Ok" (JNum 2))]
  /\ run_aquascope (Demo.world bad) b = inl EFailed
  /\ run_aquascope (Demo.world err) b = inl EReported
  /\ (let e := Env true (Some true) true (fun _ _ => Proc 1 (repeat 7 101) [] true) 100 Some (fun _ => Some (JNum 1)) in
      SetUp e /\ run_aquascope e b = inl ETimeout).
Proof. vm_compute. repeat split. Qed.

(** ** C67: a program that does not compile is not shown as analysed *)

(** It holds for the interpreter, and for analysis errors in any body. *)
Theorem C67_interpreter_partial e b p print secs : Runs e p print secs ->
  In (lit "interpreter") (operations b) ->
  (execution p (has_option (lit "shouldFail") b) = None \/ execution p (has_option (lit "shouldFail") b) = Some (inr tt)) ->
  exists er, run_aquascope e b = inl er.
Proof.
  intros R I X. destruct (run_aquascope e b) as [er|m] eqn:E; [eauto|]. exfalso.
  apply run_aquascope_ok in E. destruct E as [_ E]. apply run_ops_ok in E. destruct E as (A & _).
  apply In_nth_error in I. destruct I as [k K]. destruct (A k _ K) as [j J].
  rewrite (run_op_tool e b p print secs _ _ R) in J.
  rewrite parse_run in J. cbn zeta in J.
  destruct (str_eqd (lit "interpreter") (lit "permissions")) as [C|_]; [vm_compute in C; discriminate|].
  destruct (has_option (lit "showFlows") b); [destruct (run_op e b (0 + k) (lit "interpreter")); discriminate|].
  destruct (str_eqd (lit "interpreter") (lit "interpreter")) as [_|C]; [|elim C; reflexivity].
  unfold tool_run in J. cbn [cmd should_fail] in J. destruct X as [X|X]; rewrite X in J.
  - destruct (run_op e b (0 + k) (lit "interpreter")); discriminate.
  - discriminate.
Qed.

Theorem C67_body_error_partial e b p print secs x : Runs e p print secs ->
  In (lit "permissions") (operations b) -> expands p = true ->
  In (Analysed (inr x)) (bodies p (has_option (lit "showFlows") b)) ->
  ~ In Fatal (bodies p (has_option (lit "showFlows") b)) ->
  exists er, run_aquascope e b = inl er.
Proof.
  intros R I Ex X NF. destruct (run_aquascope e b) as [er|m] eqn:E; [eauto|]. exfalso.
  apply run_aquascope_ok in E. destruct E as [_ E]. apply run_ops_ok in E. destruct E as (A & _).
  apply In_nth_error in I. destruct I as [k K]. destruct (A k _ K) as [j J].
  rewrite (run_op_tool e b p print secs _ _ R) in J.
  assert (P : parse_args (run_args b (lit "permissions"))
              = Some (Cli (has_option (lit "shouldFail") b) (CPermissions (has_option (lit "showFlows") b)))).
  { unfold run_args. destruct (has_option (lit "shouldFail") b), (has_option (lit "showFlows") b); reflexivity. }
  rewrite P in J. unfold tool_run in J. cbn [cmd] in J. rewrite Ex in J.
  destruct (analyze_bodies (bodies p (has_option (lit "showFlows") b)) []) as [es|] eqn:AB; cbn [option_map] in J.
  - apply (analyze_bodies_iff _ NF) in AB. assert (Q : is_err (JArr es) = true).
    { cbn [is_err]. apply existsb_exists. destruct (Forall2_In _ _ _ AB _ X) as (j' & I' & E). inversion E; subst.
      eexists. split; [exact I'|reflexivity]. }
    rewrite Q in J. discriminate.
  - destruct (run_op e b (0 + k) (lit "permissions")); discriminate.
Qed.

(** Refuted: a program that is rejected before its analysis (say, it cannot be
    parsed) gives an empty list for [permissions], which counts as a success. *)
Theorem C67_rejected_refuted e b p print secs : Runs e p print secs ->
  operations b = [lit "permissions"] -> expands p = false ->
  run_aquascope e b = inr [(lit "permissions", JArr [])].
Proof.
  intros R O Ex. rewrite run_aquascope_setup by apply R. rewrite O. cbn [run_ops].
  rewrite (run_op_tool e b p print secs _ _ R).
  assert (P : parse_args (run_args b (lit "permissions"))
              = Some (Cli (has_option (lit "shouldFail") b) (CPermissions (has_option (lit "showFlows") b)))).
  { unfold run_args. destruct (has_option (lit "shouldFail") b), (has_option (lit "showFlows") b); reflexivity. }
  rewrite P. unfold tool_run. cbn [cmd]. rewrite Ex. reflexivity.
Qed.

Example C67_witness :
  let p := Demo.prog false [] None in
  Runs (Demo.world p) p Demo.print 3
  /\ run_aquascope (Demo.world p) (Demo.blk ["permissions"]%string []) = inr [(lit "permissions", JArr [])]
  /\ run_aquascope (Demo.world p) (Demo.blk ["interpreter"]%string []) = inl EFailed
  /\ run_aquascope (Demo.world p) (Demo.blk ["permissions"; "interpreter"]%string []) = inl EFailed.
Proof. split; [apply Demo.runs|]. vm_compute. repeat split. Qed.

(** ** C102: the answer has one entry for every function *)

(** The tool prints an answer exactly when the analysis of every body has a result, and the
    answer has their entries in order.  Missing: programs that are rejected before the analysis
    ([C67_rejected_refuted]) or in the middle of it ([C102_truncated_refuted]). *)
Theorem C102_complete_partial print secs p (flows sf : bool) : expands p = true -> ~ In Fatal (bodies p flows) ->
  forall ok out err,
  tool print secs p ((if sf then [lit "--should-fail"] else []) ++ [lit "permissions"] ++ (if flows then [lit "--show-flows"] else []))
    = Proc secs out err ok ->
  (ok = true <-> exists es, Forall2 Entry (bodies p flows) es) /\
  (forall es, Forall2 Entry (bodies p flows) es -> out = print (JArr es)) /\
  (ok = false -> out = []).
Proof.
  intros Ex NF ok out err T.
  assert (K : tool print secs p ((if sf then [lit "--should-fail"] else []) ++ [lit "permissions"] ++ (if flows then [lit "--show-flows"] else []))
    = match analyze_bodies (bodies p flows) [] with Some es => Proc secs (print (JArr es)) [] true | None => Proc secs [] [] false end).
  { destruct sf, flows; unfold tool; cbn [app];
      match goal with |- context[parse_args ?a] => let v := eval vm_compute in (parse_args a) in change (parse_args a) with v end;
      unfold tool_run; cbn [cmd]; rewrite Ex; destruct (analyze_bodies (bodies p _) []); reflexivity. }
  rewrite K in T. pose proof (analyze_bodies_iff _ NF) as AB. destruct (analyze_bodies (bodies p flows) []) as [es|].
  - injection T as <- <- <-. pose proof (proj1 (AB es) eq_refl) as F. split; [split; [eauto|auto]|]. split; [|discriminate].
    intros es' F'. apply AB in F'. injection F' as <-. reflexivity.
  - injection T as <- <- <-. split; [split; [discriminate|]|].
    + intros [es F]. apply AB in F. discriminate.
    + split; [|auto]. intros es F. apply AB in F. discriminate.
Qed.

(** A body whose analysis panics costs the answers of all other bodies, and the book is not built. *)
Theorem C102_panic e b p print secs pre es post : Runs e p print secs ->
  In (lit "permissions") (operations b) -> expands p = true ->
  bodies p (has_option (lit "showFlows") b) = pre ++ Panics :: post -> Forall2 Entry pre es ->
  exists er, run_aquascope e b = inl er.
Proof.
  intros R I Ex B F. destruct (run_aquascope e b) as [er|m] eqn:E; [eauto|]. exfalso.
  apply run_aquascope_ok in E. destruct E as [_ E]. apply run_ops_ok in E. destruct E as (A & _).
  apply In_nth_error in I. destruct I as [k K]. destruct (A k _ K) as [j J].
  rewrite (run_op_tool e b p print secs _ _ R), parse_run in J. cbn zeta in J.
  destruct (str_eqd (lit "permissions") (lit "permissions")) as [_|C]; [|elim C; reflexivity].
  unfold tool_run in J. cbn [cmd] in J. rewrite Ex, B, (analyze_bodies_app _ _ F) in J. cbn in J.
  match type of J with match ?x with _ => _ end = _ => destruct x; discriminate end.
Qed.

(** Refuted: if rustc gives up in the middle, the answers so far are printed as if they were all;
    the preprocessor takes them when none of them is an error. *)
Theorem C102_truncated_refuted e b p print secs pre es post : Runs e p print secs ->
  operations b = [lit "permissions"] -> expands p = true ->
  bodies p (has_option (lit "showFlows") b) = pre ++ Fatal :: post ->
  Forall2 Entry pre es -> (forall x, ~ In (Analysed (inr x)) pre) ->
  run_aquascope e b = inr [(lit "permissions", JArr es)].
Proof.
  intros R O Ex B F N. rewrite run_aquascope_setup by apply R. rewrite O. cbn [run_ops].
  rewrite (run_op_tool e b p print secs _ _ R), parse_run. cbn zeta.
  destruct (str_eqd (lit "permissions") (lit "permissions")) as [_|C]; [|elim C; reflexivity].
  unfold tool_run. cbn [cmd]. rewrite Ex, B, (analyze_bodies_app _ _ F). cbn [analyze_bodies option_map]. rewrite app_nil_r.
  assert (Q : is_err (JArr es) = false).
  { clear - F N. cbn [is_err]. induction F as [|v j pre es E F IH]; [reflexivity|]. cbn [existsb].
    rewrite IH by (intros x I; apply (N x); right; auto). destruct E as [v|x]; [reflexivity|]. elim (N x). left. reflexivity. }
  rewrite Q. reflexivity.
Qed.

(** All bodies have a result, one panics, and rustc gives up at the second of three. *)
Example C102_witness :
  let w vs := run_aquascope (Demo.world (Demo.progv true vs None)) (Demo.blk ["permissions"]%string []) in
  let a n := Analysed (inl (JNum n)) in
  Runs (Demo.world (Demo.progv true [a 1; Fatal; a 3] None)) (Demo.progv true [a 1; Fatal; a 3] None) Demo.print 3
  /\ w [a 1; a 2; a 3] = inr [(lit "permissions", JArr [Demo.obj "Ok" (JNum 1); Demo.obj "Ok" (JNum 2); Demo.obj "Ok" (JNum 3)])]
  /\ w [a 1; Panics; a 3] = inl EFailed
  /\ w [a 1; Fatal; a 3] = inr [(lit "permissions", JArr [Demo.obj "Ok" (JNum 1)])].
Proof. split; [apply Demo.runs|]. vm_compute. repeat split. Qed.

(** ** C68: every operation can be combined with every option *)

(** The options reach the analysis as written, except that [showFlows] makes the
    command line of [interpreter] invalid; other operations are rejected. *)
Theorem C68_options_partial b op :
  parse_args (run_args b op) =
  let sf := has_option (lit "shouldFail") b in
  let flows := has_option (lit "showFlows") b in
  if str_eqd op (lit "permissions") then Some (Cli sf (CPermissions flows))
  else if flows then None
  else if str_eqd op (lit "interpreter") then Some (Cli sf CInterpreter)
  else if str_eqd op (lit "preload") then Some (Cli sf CPreload)
  else if str_eqd op (lit "rustc-version") then Some (Cli sf CRustcVersion)
  else None.
Proof. exact (parse_run b op). Qed.

(** Refuted: a block that asks for [interpreter] and [showFlows] fails for every
    program. *)
Theorem C68_flows_refuted e b p print secs : Runs e p print secs ->
  In (lit "interpreter") (operations b) -> has_option (lit "showFlows") b = true ->
  exists er, run_aquascope e b = inl er.
Proof.
  intros R I F. destruct (run_aquascope e b) as [er|m] eqn:E; [eauto|]. exfalso.
  apply run_aquascope_ok in E. destruct E as [_ E]. apply run_ops_ok in E. destruct E as (A & _).
  apply In_nth_error in I. destruct I as [k K]. destruct (A k _ K) as [j J].
  rewrite (run_op_tool e b p print secs _ _ R), C68_options_partial in J. cbn zeta in J. rewrite F in J.
  destruct (str_eqd (lit "interpreter") (lit "permissions")) as [C|_]; [vm_compute in C; discriminate|].
  destruct (run_op e b (0 + k) (lit "interpreter")); discriminate.
Qed.

Example C68_witness :
  let p := Demo.prog true [inl (JNum 1)] (Some (inl (JNum 2))) in
  run_aquascope (Demo.world p) (Demo.blk ["interpreter"]%string [("showFlows", "")]%string) = inl EFailed
  /\ run_aquascope (Demo.world p) (Demo.blk ["interpreter"]%string [("boundaries", "")]%string) = inr [(lit "interpreter", Demo.obj "Ok" (JNum 2))]
  /\ run_aquascope (Demo.world p) (Demo.blk ["permissions"]%string [("showFlows", "")]%string) = inr [(lit "permissions", JArr [Demo.obj "Ok" (JNum 1)])].
Proof. vm_compute. repeat split. Qed.

(** ** C69: borrow checking is switched off only when asked for *)

(** Nothing but the presence of the option matters. *)
Theorem C69_presence_partial b op :
  (In (lit "--should-fail") (run_args b op) <-> op = lit "--should-fail" \/ exists v, In (lit "shouldFail", v) (options b)) /\
  (forall config, In (lit "--should-fail") (server_args (lit "interpreter") config) <->
     exists l v, config = Some (JObj l) /\ aget str_eqd l (lit "shouldFail") = Some v).
Proof.
  split.
  - assert (H : has_option (lit "shouldFail") b = true <-> exists v, In (lit "shouldFail", v) (options b)).
    { unfold has_option. rewrite existsb_exists. split.
      - intros ([k v] & I & E). cbn [fst] in E. destruct (str_eqd k (lit "shouldFail")) as [->|]; [eauto|discriminate].
      - intros [v I]. eexists. split; [exact I|]. cbn [fst]. destruct (str_eqd (lit "shouldFail") (lit "shouldFail")); congruence. }
    rewrite <- H. unfold run_args. rewrite !in_app_iff. cbn [In].
    destruct (has_option (lit "shouldFail") b), (has_option (lit "showFlows") b); cbn [In]; split; intros X;
      repeat match goal with X : _ \/ _ |- _ => destruct X | X : False |- _ => destruct X end; auto; try discriminate;
      match goal with X : lit _ = lit _ |- _ => vm_compute in X; discriminate end.
  - intros config. unfold server_args.
    destruct (str_eqd (lit "interpreter") (lit "permissions")) as [C|_]; [vm_compute in C; discriminate|].
    unfold wants_failure. destruct config as [c|].
    + destruct (is_some (jget (lit "shouldFail") c)) eqn:E.
      * split; [|cbn; auto]. intros _. apply is_some_iff in E. destruct E as [v E]. destruct c; try discriminate. eexists _, _. split; [reflexivity|exact E].
      * split.
        -- cbn [app In]. intros [X|[]]. vm_compute in X. discriminate.
        -- intros (l & v & [= ->] & E'). cbn [jget] in E. rewrite E' in E. discriminate.
    + split.
      * cbn [app In]. intros [X|[]]. vm_compute in X. discriminate.
      * intros (l & v & X & _). discriminate.
Qed.

(** Refuted: [shouldFail=false] switches it off, and so does the web page whether
    or not its box "passes the borrow checker" is ticked. *)
Theorem C69_value_refuted b op v : In (lit "shouldFail", v) (options b) ->
  In (lit "--should-fail") (run_args b op) /\
  forall passes, server_args (lit "interpreter") (page_config passes) = [lit "--should-fail"; lit "interpreter"].
Proof.
  intros I. split.
  - destruct (C69_presence_partial b op) as [[_ P] _]. apply P. right. exists v. exact I.
  - intros [|]; vm_compute; reflexivity.
Qed.

(** So a program the borrow checker rejects is executed although the box is
    ticked, and the page says so in its request. *)
Theorem C69_page_refuted print secs p v passes :
  execution p false = None -> execution p true = Some (inl v) ->
  (exists l, page_config passes = Some (JObj l) /\ aget str_eqd l (lit "shouldFail") = Some (JBool (negb passes))) /\
  tool print secs p (server_args (lit "interpreter") (page_config passes)) = Proc secs (print (jresult (inl v))) [] true /\
  tool print secs p [lit "interpreter"] = Proc secs [] [] false.
Proof.
  intros E1 E2. split; [eexists; split; reflexivity|]. split.
  - change (server_args (lit "interpreter") (page_config passes)) with [lit "--should-fail"; lit "interpreter"].
    unfold tool. change (parse_args [lit "--should-fail"; lit "interpreter"]) with (Some (Cli true CInterpreter)).
    unfold tool_run. cbn [cmd should_fail]. rewrite E2. reflexivity.
  - unfold tool. change (parse_args [lit "interpreter"]) with (Some (Cli false CInterpreter)).
    unfold tool_run. cbn [cmd should_fail]. rewrite E1. reflexivity.
Qed.

Example C69_witness :
  run_args (Demo.blk ["interpreter"]%string [("shouldFail", "false")]%string) (lit "interpreter") = [lit "--should-fail"; lit "interpreter"]
  /\ run_args (Demo.blk ["interpreter"]%string [("horizontal", "true")]%string) (lit "interpreter") = [lit "interpreter"]
  /\ server_args (lit "interpreter") None = [lit "interpreter"]
  /\ let p := Program true (fun _ => []) (fun sf => if sf then Some (inl (JNum 3)) else None) in
     execution p false = None /\ execution p true = Some (inl (JNum 3)).
Proof. vm_compute. repeat split. Qed.

(** ** C50: the server answers every request *)

(** When the analysis is run and ends in time, its outputs are returned. *)
Theorem C50_ok_iff e r op config out err : Asks r op config ->
  (exists success, handle e r = Answer 200 (BResponse success out err)) <->
  ContainerMade e /\ s_write_ok e = true /\ s_sysroot_ok e = true /\ Ended e (s_exec e (server_args op config)) out err.
Proof.
  intros A. rewrite (handle_asks e r op config A). split.
  - intros [su H]. destruct (new_container e) as [[]| |] eqn:C; try discriminate. cbn [sbind] in H.
    split; [apply container_iff; auto|]. unfold run_in_container in H.
    destruct (s_write_ok e); [|discriminate]. destruct (s_sysroot_ok e); [|discriminate]. cbn [negb] in H.
    destruct (exec_output e (s_exec e (server_args op config))) as [[o x]| |] eqn:X; try discriminate. cbn [sbind] in H.
    injection H as _ <- <-. repeat split; auto. apply ended_iff; auto.
  - intros (C & W & Y & X). apply container_iff in C. apply ended_iff in X. rewrite C. cbn [sbind].
    unfold run_in_container. rewrite W, Y. cbn [negb]. rewrite X. cbn [sbind]. eauto.
Qed.

(** What is run is what was asked for. *)
Theorem C50_operation config :
  parse_args (server_args (lit "permissions") config) = Some (Cli false (CPermissions false)) /\
  exists sf, parse_args (server_args (lit "interpreter") config) = Some (Cli sf CInterpreter) /\
    (sf = true <-> exists l v, config = Some (JObj l) /\ aget str_eqd l (lit "shouldFail") = Some v).
Proof.
  split; [reflexivity|]. destruct (C69_presence_partial (Block [] [] [] no_annots) []) as [_ P]. specialize (P config).
  unfold server_args in *. change (if str_eqd (lit "interpreter") (lit "permissions") then true else false) with false in *.
  destruct (str_eqd (lit "interpreter") (lit "permissions")) as [C|_]; [vm_compute in C; discriminate|].
  destruct (wants_failure config).
  - exists true. split; [reflexivity|]. rewrite <- P. cbn [app In]. tauto.
  - exists false. split; [reflexivity|]. split; [discriminate|]. intros X. apply P in X. cbn [app In] in X. destruct X as [X|[]]. vm_compute in X. discriminate.
Qed.

(** Anything that takes too long, cannot be started or written is answered with
    an error status. *)
Theorem C50_failure e r op config : Asks r op config ->
  (s_temp_ok e = false \/ s_new e = NoSpawn \/ (exists secs o x ok, s_new e = Proc secs o x ok /\ 20 <= secs)) \/
  (ContainerMade e /\
   (s_write_ok e = false \/ s_sysroot_ok e = false \/ s_exec e (server_args op config) = NoSpawn \/
    exists secs o x ok, s_exec e (server_args op config) = Proc secs o x ok /\ 20 <= secs)) ->
  exists b, handle e r = Answer 500 b.
Proof.
  assert (T : forall p, p = NoSpawn \/ (exists secs o x ok, p = Proc secs o x ok /\ 20 <= secs) -> exec_output e p = SErr).
  { intros p [->|(secs & o & x & ok & -> & L)]; [reflexivity|]. unfold exec_output. destruct (Nat.ltb_spec secs 20); [lia|reflexivity]. }
  intros A H. rewrite (handle_asks e r op config A). destruct H as [H|[C H]].
  - assert (N : new_container e = SErr).
    { unfold new_container. destruct H as [->|H]; [reflexivity|]. destruct (s_temp_ok e); [|reflexivity]. cbn [negb]. rewrite T by auto. reflexivity. }
    rewrite N. cbn [sbind]. eauto.
  - apply container_iff in C. rewrite C. cbn [sbind]. unfold run_in_container.
    destruct (s_write_ok e); [|cbn; eauto]. destruct (s_sysroot_ok e); [|cbn; eauto]. cbn [negb].
    destruct H as [H|[H|H]]; try discriminate. rewrite T by auto. cbn [sbind]. eauto.
Qed.

(** There is no other answer to a request to run an operation than the outputs, an
    error, or none at all. *)
Theorem C50_answers e r op config : Asks r op config ->
  (exists su out err, handle e r = Answer 200 (BResponse su out err)) \/ (exists b, handle e r = Answer 500 b) \/ handle e r = Dropped.
Proof.
  intros A. rewrite (handle_asks e r op config A). destruct (new_container e) as [[]| |]; cbn [sbind]; eauto.
  unfold run_in_container. destruct (s_write_ok e); [|cbn; eauto]. destruct (s_sysroot_ok e); [|cbn; eauto]. cbn [negb].
  destruct (exec_output e (s_exec e (server_args op config))) as [[o x]| |]; cbn [sbind]; eauto.
Qed.

Theorem C50_unknown e r :
  (exists b, handle e r = Answer 404 b) <->
  ~ In (r_path r) [lit "/hi"; lit "/permissions"; lit "/interpreter"].
Proof.
  unfold handle, route_of. cbn [In].
  destruct (str_eqd (r_path r) (lit "/hi")) as [E|N1].
  { split; [|intros H; elim H; auto]. destruct (r_method r); intros [b H]; discriminate. }
  destruct (str_eqd (r_path r) (lit "/permissions")) as [E|N2].
  { split; [|intros H; elim H; auto]. destruct (r_method r); intros [b H]; try discriminate.
    unfold endpoint in H. destruct (r_body r) as [[c o]|]; [|discriminate].
    destruct (sbind (new_container e) (fun _ => run_in_container e (lit "permissions") o)); discriminate. }
  destruct (str_eqd (r_path r) (lit "/interpreter")) as [E|N3].
  { split; [|intros H; elim H; auto]. destruct (r_method r); intros [b H]; try discriminate.
    unfold endpoint in H. destruct (r_body r) as [[c o]|]; [|discriminate].
    destruct (sbind (new_container e) (fun _ => run_in_container e (lit "interpreter") o)); discriminate. }
  split; [|intros _; destruct (r_method r); eauto]. intros _ [H|[H|[H|[]]]]; congruence.
Qed.

(** Refuted: a request that cannot be read is answered with the status of success. *)
Theorem C50_bad_request_refuted e r op : r_method r = POST -> r_path r = lit "/" ++ op ->
  op = lit "permissions" \/ op = lit "interpreter" -> r_body r = None ->
  handle e r = Answer 200 BError.
Proof.
  intros M P O B. unfold handle. rewrite P, M, B. destruct O as [-> | ->]; reflexivity.
Qed.

(** Refuted: there is no answer at all when [cargo new] prints a warning, or the
    analysis prints something that is not text. *)
Theorem C50_no_answer_refuted e r op config : Asks r op config ->
  (s_temp_ok e = true /\ exists out err c, Ended e (s_new e) out err /\ In c err /\ ~ BookSpec.White c) \/
  (ContainerMade e /\ s_write_ok e = true /\ s_sysroot_ok e = true /\
   exists secs o x ok, s_exec e (server_args op config) = Proc secs o x ok /\ secs < 20 /\ (s_utf8 e o = None \/ s_utf8 e x = None)) ->
  handle e r = Dropped.
Proof.
  intros A H. rewrite (handle_asks e r op config A). destruct H as [(T & out & err & c & En & I & N1)|(C & W & Y & secs & o & x & ok & X & L & U)].
  - unfold new_container. rewrite T. cbn [negb]. apply ended_iff in En. rewrite En. cbn [sbind].
    rewrite (proj2 (blank_not err)) by eauto. reflexivity.
  - apply container_iff in C. rewrite C. cbn [sbind]. unfold run_in_container. rewrite W, Y. cbn [negb]. rewrite X.
    unfold exec_output. apply Nat.ltb_lt in L. rewrite L. cbn [negb]. destruct U as [->| ->]; [reflexivity|]. destruct (s_utf8 e o); reflexivity.
Qed.

(** Refuted: whether the analysis succeeded is not looked at; a failed run that
    printed something is reported as a success. *)
Theorem C50_exit_refuted e r op config secs o x out err ok : Asks r op config ->
  ContainerMade e -> s_write_ok e = true -> s_sysroot_ok e = true ->
  s_exec e (server_args op config) = Proc secs o x ok -> secs < 20 -> s_utf8 e o = Some out -> s_utf8 e x = Some err ->
  handle e r = Answer 200 (BResponse (negb (blank out)) out err).
Proof.
  intros A C W Y X L U U'. rewrite (handle_asks e r op config A). apply container_iff in C. rewrite C. cbn [sbind].
  unfold run_in_container. rewrite W, Y. cbn [negb]. rewrite X. unfold exec_output. apply Nat.ltb_lt in L. rewrite L. cbn [negb].
  rewrite U, U'. reflexivity.
Qed.

Module ServerDemo.
  Definition utf8_ (l : list nat) : option str := if forallb (fun c => c <? 128) l then Some l else None.
  Definition world (warn : list nat) (p : proc) := SEnv true (Proc 1 [] warn true) true true (fun _ => p) utf8_.
  Definition req (path : string) (b : option (str * option json)) := Request POST (lit path) b.
  Definition ask := req "/interpreter" (Some (lit "fn main() {}", None)).
End ServerDemo.

Example C50_witness :
  Asks ServerDemo.ask (lit "interpreter") None
  /\ ContainerMade (ServerDemo.world [10] NoSpawn)
  /\ handle (ServerDemo.world [10] (Proc 5 (lit "{}") [] true)) ServerDemo.ask = Answer 200 (BResponse true (lit "{}") [])
  /\ handle (ServerDemo.world [] (Proc 5 (lit "oops") (lit "error") false)) ServerDemo.ask = Answer 200 (BResponse true (lit "oops") (lit "error"))
  /\ handle (ServerDemo.world [] (Proc 5 [10] (lit "error") false)) ServerDemo.ask = Answer 200 (BResponse false [10] (lit "error"))
  /\ handle (ServerDemo.world [] (Proc 20 [] [] true)) ServerDemo.ask = Answer 500 (BText [])
  /\ handle (ServerDemo.world [] (Proc 5 [200] [] true)) ServerDemo.ask = Dropped
  /\ handle (ServerDemo.world (lit "warning") (Proc 5 [] [] true)) ServerDemo.ask = Dropped
  /\ handle (ServerDemo.world [] NoSpawn) (ServerDemo.req "/interpreter" None) = Answer 200 BError
  /\ handle (ServerDemo.world [] NoSpawn) (Request GET (lit "/hi") None) = Answer 200 (BText (lit "HELLO!"))
  /\ handle (ServerDemo.world [] NoSpawn) (Request GET (lit "/permissions") None) = Answer 405 (BText []).
Proof.
  split; [repeat split; [right; reflexivity|eexists; reflexivity]|].
  split; [split; [reflexivity|]; exists [], [10]; split; [exists 1, [], [10], true; repeat split; lia|intros c [<-|[]]; vm_compute; tauto]|].
  vm_compute. repeat split.
Qed.

(** ** C70: a run that exceeds its time is ended *)

(** What is left behind by one request: nothing, as long as commands end in time. *)
Theorem C70_in_time_partial e r : 
  (forall secs o x ok, s_new e = Proc secs o x ok -> secs < 20) ->
  (forall args secs o x ok, s_exec e args = Proc secs o x ok -> secs < 20) ->
  leftovers e r = 0.
Proof.
  assert (Z : forall p, (forall secs o x ok, p = Proc secs o x ok -> secs < 20) -> left_running p = 0).
  { intros [|secs o x ok] H; [reflexivity|]. cbn [left_running]. specialize (H _ _ _ _ eq_refl). apply Nat.ltb_lt in H. rewrite H. reflexivity. }
  intros H1 H2. unfold leftovers. destruct (route_of (r_path r)); auto. destruct (r_method r); auto.
  destruct (r_body r) as [[c config]|]; auto. destruct (s_temp_ok e); auto. cbn [negb]. rewrite Z by auto.
  destruct (new_container e); auto. destruct (s_write_ok e && s_sysroot_ok e); auto. rewrite Z; auto. eauto.
Qed.

(** Refuted: each request whose analysis runs too long leaves a process running,
    so any number of them can be running at once. *)
Theorem C70_left_running_refuted (reqs : list (senv * request)) :
  (forall e r, In (e, r) reqs -> exists op config secs o x ok, Asks r op config /\ ContainerMade e /\
     s_write_ok e = true /\ s_sysroot_ok e = true /\ s_exec e (server_args op config) = Proc secs o x ok /\ 20 <= secs) ->
  fold_right (fun '(e, r) n => leftovers e r + n) 0 reqs = length reqs /\
  forall e r, In (e, r) reqs -> exists b, handle e r = Answer 500 b.
Proof.
  intros H. split.
  - induction reqs as [|[e r] reqs IH]; [reflexivity|]. cbn [fold_right length]. rewrite IH by (intros; apply H; right; auto).
    destruct (H e r (or_introl eq_refl)) as (op & config & secs & o & x & ok & A & C & W & Y & X & L).
    destruct (asks_route _ _ _ A) as [R M]. destruct A as (_ & _ & _ & code & B).
    unfold leftovers. rewrite R, M, B. assert (C' := C). apply container_iff in C'. rewrite C'. destruct C as (T & out & err & (s0 & o0 & x0 & ok0 & N & L0 & _) & _).
    rewrite T, W, Y, N, X. cbn [negb andb left_running]. apply Nat.ltb_lt in L0. rewrite L0. destruct (Nat.ltb_spec secs 20); [lia|reflexivity].
  - intros e r I. destruct (H e r I) as (op & config & secs & o & x & ok & A & C & W & Y & X & L).
    eapply C50_failure; [exact A|]. right. split; [auto|]. right. right. right. exists secs, o, x, ok. auto.
Qed.

Example C70_witness :
  let bad := (ServerDemo.world [] (Proc 50 [] [] true), ServerDemo.ask) in
  fold_right (fun '(e, r) n => leftovers e r + n) 0 [bad; bad; bad] = 3
  /\ leftovers (ServerDemo.world [] (Proc 5 [] [] true)) ServerDemo.ask = 0.
Proof. vm_compute. split; reflexivity. Qed.

(** ** C71: the page tells its user when a request failed *)

(** The page shows the output exactly when the analysis ended in time and printed
    something, and passes on standard error exactly when it ended in time and
    printed nothing; otherwise nothing is reported. *)
Theorem C71_reported_iff e r op config : Asks r op config ->
  (forall s, page_of (handle e r) = PShow s <->
     ContainerMade e /\ s_write_ok e = true /\ s_sysroot_ok e = true /\
     exists err, Ended e (s_exec e (server_args op config)) s err /\ exists c, In c s /\ ~ BookSpec.White c) /\
  (forall s, page_of (handle e r) = PStderr s <->
     ContainerMade e /\ s_write_ok e = true /\ s_sysroot_ok e = true /\
     exists out, Ended e (s_exec e (server_args op config)) out s /\ forall c, In c out -> BookSpec.White c) /\
  (~ (ContainerMade e /\ s_write_ok e = true /\ s_sysroot_ok e = true /\ exists out err, Ended e (s_exec e (server_args op config)) out err) ->
   page_of (handle e r) = PRejected).
Proof.
  intros A. rewrite (handle_asks e r op config A).
  assert (K : forall out err, sbind (new_container e) (fun _ => run_in_container e op config) = Go (BResponse (negb (blank out)) out err) <->
    ContainerMade e /\ s_write_ok e = true /\ s_sysroot_ok e = true /\ Ended e (s_exec e (server_args op config)) out err).
  { intros out err. split.
    - intros H. destruct (new_container e) as [[]| |] eqn:C; try discriminate. cbn [sbind] in H.
      split; [apply container_iff; auto|]. unfold run_in_container in H.
      destruct (s_write_ok e); [|discriminate]. destruct (s_sysroot_ok e); [|discriminate]. cbn [negb] in H.
      destruct (exec_output e (s_exec e (server_args op config))) as [[o x]| |] eqn:X; try discriminate. cbn [sbind] in H.
      injection H as _ <- <-. repeat split; auto. apply ended_iff; auto.
    - intros (C & W & Y & X). apply container_iff in C. apply ended_iff in X. rewrite C. cbn [sbind].
      unfold run_in_container. rewrite W, Y. cbn [negb]. rewrite X. reflexivity. }
  assert (Sh : forall b, sbind (new_container e) (fun _ => run_in_container e op config) = Go b -> exists out err, b = BResponse (negb (blank out)) out err).
  { intros b H. destruct (new_container e) as [[]| |]; try discriminate. cbn [sbind] in H. unfold run_in_container in H.
    destruct (negb (s_write_ok e)); [discriminate|]. destruct (negb (s_sysroot_ok e)); [discriminate|].
    destruct (exec_output e (s_exec e (server_args op config))) as [[o x]| |]; try discriminate. injection H as <-. eauto. }
  pose proof blank_not as NB.
  split; [|split]; [intros s; split|intros s; split|].
  - intros H. destruct (sbind (new_container e) (fun _ => run_in_container e op config)) as [b| |] eqn:Q; try discriminate.
    destruct (Sh b eq_refl) as (out & err & ->). destruct (proj1 (K out err) eq_refl) as (C & W & Y & X).
    destruct (blank out) eqn:B; [discriminate|]. cbn in H. injection H as <-. split; [exact C|]. split; [auto|]. split; [auto|]. exists err. split; [auto|]. apply NB. auto.
  - intros (C & W & Y & err & X & B). apply NB in B. rewrite (proj2 (K s err)) by auto. rewrite B. reflexivity.
  - intros H. destruct (sbind (new_container e) (fun _ => run_in_container e op config)) as [b| |] eqn:Q; try discriminate.
    destruct (Sh b eq_refl) as (out & err & ->). destruct (proj1 (K out err) eq_refl) as (C & W & Y & X).
    destruct (blank out) eqn:B; [|discriminate]. cbn in H. injection H as <-. split; [exact C|]. split; [auto|]. split; [auto|]. exists out. split; [auto|]. apply blank_iff. auto.
  - intros (C & W & Y & out & X & B). apply blank_iff in B. rewrite (proj2 (K out s)) by auto. rewrite B. reflexivity.
  - intros N. destruct (sbind (new_container e) (fun _ => run_in_container e op config)) as [b| |] eqn:Q; try reflexivity.
    exfalso. destruct (Sh b eq_refl) as (out & err & ->). destruct (proj1 (K out err) eq_refl) as (C & W & Y & X). apply N. eauto 8.
Qed.

(** Refuted: a run that took too long, and a request the server could not read. *)
Theorem C71_unreported_refuted e r op config secs o x ok : Asks r op config -> ContainerMade e ->
  s_write_ok e = true -> s_sysroot_ok e = true ->
  s_exec e (server_args op config) = Proc secs o x ok -> 20 <= secs ->
  page_of (handle e r) = PRejected /\
  page_of (handle e (Request POST (r_path r) None)) = PUndefined.
Proof.
  intros A C W Y X L. split.
  - rewrite (handle_asks e r op config A). apply container_iff in C. rewrite C. cbn [sbind]. unfold run_in_container.
    rewrite W, Y. cbn [negb]. rewrite X. unfold exec_output. destruct (Nat.ltb_spec secs 20); [lia|]. reflexivity.
  - rewrite (C50_bad_request_refuted e (Request POST (r_path r) None) op); auto; apply A.
Qed.

Example C71_witness :
  page_of (handle (ServerDemo.world [] (Proc 5 (lit "{}") [] true)) ServerDemo.ask) = PShow (lit "{}")
  /\ page_of (handle (ServerDemo.world [] (Proc 5 [] (lit "error") false)) ServerDemo.ask) = PStderr (lit "error")
  /\ page_of (handle (ServerDemo.world [] (Proc 25 [] [] true)) ServerDemo.ask) = PRejected
  /\ page_of (handle (ServerDemo.world [] (Proc 5 [200] [] true)) ServerDemo.ask) = PRejected.
Proof. vm_compute. repeat split. Qed.

Print Assumptions C49_iff.
Print Assumptions C49_error_iff.
Print Assumptions C49_map.
Print Assumptions C49_not_cached.
Print Assumptions C49_large_output_refuted.
Print Assumptions C67_interpreter_partial.
Print Assumptions C67_body_error_partial.
Print Assumptions C67_rejected_refuted.
Print Assumptions C102_complete_partial.
Print Assumptions C102_panic.
Print Assumptions C102_truncated_refuted.
Print Assumptions C68_options_partial.
Print Assumptions C68_flows_refuted.
Print Assumptions C69_presence_partial.
Print Assumptions C69_value_refuted.
Print Assumptions C69_page_refuted.
Print Assumptions C50_ok_iff.
Print Assumptions C50_operation.
Print Assumptions C50_failure.
Print Assumptions C50_answers.
Print Assumptions C50_unknown.
Print Assumptions C50_bad_request_refuted.
Print Assumptions C50_no_answer_refuted.
Print Assumptions C50_exit_refuted.
Print Assumptions C70_in_time_partial.
Print Assumptions C70_left_running_refuted.
Print Assumptions C71_reported_iff.
Print Assumptions C71_unreported_refuted.
