(** * Proofs about running the analysis *)

From Coq Require Import Ascii String.
From Coq Require Import List Arith Bool Lia.
From Verif Require BookSpec PropBook.
From Verif Require Import Base ValuesModel BookModel RunModel RunSpec.
Import ListNotations.

Lemma is_some_iff {T} (o : option T) : is_some o = true <-> exists x, o = Some x.
Proof. destruct o as [x|]; cbn; split; try discriminate; eauto. intros [x H]; discriminate. Qed.

Lemma reports_iff j : Reports j <-> is_err j = true \/ is_build_error j = true.
Proof.
  split.
  - intros [l x E|l m x I E|l E].
    + left. cbn [is_err jget]. rewrite E. reflexivity.
    + left. cbn [is_err]. apply existsb_exists. exists (JObj m). split; [auto|]. cbn [jget]. rewrite E. reflexivity.
    + right. unfold is_build_error. cbn [jget]. rewrite E. destruct (str_eqd (lit "BuildError") (lit "BuildError")); congruence.
  - intros [E|E].
    + destruct j as [|b|n|n|b m z|s|l|l]; try discriminate; cbn [is_err] in E.
      * apply existsb_exists in E. destruct E as (x & I & E). apply is_some_iff in E. destruct E as [y E].
        destruct x as [| | | | | | |m]; try discriminate. eapply reports_some; eauto.
      * apply is_some_iff in E. destruct E as [y E]. eapply reports_err; eauto.
    + unfold is_build_error in E. destruct j as [|b|n|n|b m z|s|l|l]; try discriminate. cbn [jget] in E.
      destruct (aget str_eqd l (lit "type")) as [[| | | | |s| |]|] eqn:G; try discriminate.
      destruct (str_eqd s (lit "BuildError")) as [->|]; try discriminate. apply reports_build; auto.
Qed.

Lemma run_op_iff e b i op j : run_op e b i op = inr j <-> Succeeded e b i op j.
Proof.
  unfold run_op, Succeeded. split.
  - destruct (exec e i (run_args b op)) as [|secs out err ok]; [discriminate|].
    unfold ends_in_time. destruct (Nat.ltb_spec secs 10) as [H1|H1]; [|discriminate].
    destruct (Nat.leb_spec (length out) (pipe e)) as [H2|H2]; [|discriminate].
    destruct (Nat.leb_spec (length err) (pipe e)) as [H3|H3]; [|discriminate]. cbn [andb negb].
    destruct ok; [|discriminate]. cbn [negb].
    destruct (from_utf8 e out) as [s|] eqn:U; [|discriminate]. destruct (from_json e s) as [j'|] eqn:J; [|discriminate].
    destruct (is_err j') eqn:E1; [discriminate|]. destruct (is_build_error j') eqn:E2; [discriminate|].
    intros [= <-]. exists secs, out, err, s. repeat split; auto. intros R. apply reports_iff in R. destruct R; congruence.
  - intros (secs & out & err & s & -> & H1 & H2 & H3 & U & J & R).
    unfold ends_in_time. apply Nat.ltb_lt in H1. apply Nat.leb_le in H2, H3. rewrite H1, H2, H3. cbn [andb negb].
    rewrite U, J. destruct (is_err j) eqn:E1; [elim R; apply reports_iff; auto|].
    destruct (is_build_error j) eqn:E2; [elim R; apply reports_iff; auto|]. reflexivity.
Qed.

Lemma op_fails_iff e b i op er : run_op e b i op = inl er <-> OpFails e b i op er.
Proof.
  split.
  - unfold run_op. destruct (exec e i (run_args b op)) as [|secs out err ok] eqn:X; [intros [= <-]; constructor; auto|].
    unfold ends_in_time.
    destruct (Nat.ltb_spec secs 10) as [H1|H1]; [|intros [= <-]; eapply fails_timeout; eauto].
    destruct (Nat.leb_spec (length out) (pipe e)) as [H2|H2]; [|intros [= <-]; eapply fails_timeout; eauto].
    destruct (Nat.leb_spec (length err) (pipe e)) as [H3|H3]; [|intros [= <-]; eapply fails_timeout; eauto].
    cbn [andb negb]. assert (W : Wrote e b i op ok out) by (exists secs, err; auto).
    destruct ok; cbn [negb]; [|intros [= <-]; eapply fails_exit; eauto].
    destruct (from_utf8 e out) as [s|] eqn:U; [|intros [= <-]; eapply fails_utf8; eauto].
    destruct (from_json e s) as [j|] eqn:J; [|intros [= <-]; eapply fails_json; eauto].
    destruct (is_err j) eqn:E.
    + intros [= <-]. eapply fails_reported; eauto. destruct j as [|q|n|n|q m z|t|l|l]; try discriminate; cbn [is_err] in E.
      * apply existsb_exists in E. destruct E as (x & I & E). apply is_some_iff in E. destruct E as [y E].
        destruct x as [| | | | | | |m]; try discriminate. right. eauto 8.
      * apply is_some_iff in E. destruct E as [y E]. left. eauto.
    + destruct (is_build_error j) eqn:B; [|discriminate]. intros [= <-]. unfold is_build_error in B.
      destruct j as [|q|n|n|q m z|t|l|l]; try discriminate. cbn [jget is_err] in *.
      destruct (aget str_eqd l (lit "type")) as [[| | | | |t| |]|] eqn:G; try discriminate.
      destruct (str_eqd t (lit "BuildError")) as [->|]; try discriminate. eapply fails_build; eauto.
      destruct (aget str_eqd l (lit "Err")); [discriminate|reflexivity].
  - assert (W : forall ok out, Wrote e b i op ok out -> run_op e b i op =
      if negb ok then inl EFailed else match from_utf8 e out with
         | None => inl EUtf8
         | Some s => match from_json e s with
           | None => inl EJson
           | Some j => if is_err j then inl EReported else if is_build_error j then inl EBuild else inr j end end).
    { intros ok out (secs & err & X & H1 & H2 & H3). unfold run_op, ends_in_time. rewrite X. apply Nat.ltb_lt in H1. apply Nat.leb_le in H2, H3.
      rewrite H1, H2, H3. reflexivity. }
    intros [X|secs out err ok X H|out H|out H U|out s H U J|out s j H U J R|out s l H U J N B].
    + unfold run_op. rewrite X. reflexivity.
    + unfold run_op, ends_in_time. rewrite X.
      destruct (Nat.ltb_spec secs 10), (Nat.leb_spec (length out) (pipe e)), (Nat.leb_spec (length err) (pipe e)); try reflexivity. lia.
    + rewrite (W _ _ H). reflexivity.
    + rewrite (W _ _ H), U. reflexivity.
    + rewrite (W _ _ H), U, J. reflexivity.
    + rewrite (W _ _ H), U, J. assert (E : is_err j = true); [|rewrite E; reflexivity].
      destruct R as [(l & x & -> & E)|(l & m & x & -> & I & E)]; cbn [is_err jget].
      * rewrite E. reflexivity.
      * apply existsb_exists. exists (JObj m). split; [auto|]. cbn [jget]. rewrite E. reflexivity.
    + rewrite (W _ _ H), U, J. cbn [negb is_err jget is_build_error]. rewrite N. cbn [is_some].
      unfold is_build_error. cbn [jget]. rewrite B. destruct (str_eqd (lit "BuildError") (lit "BuildError")); [reflexivity|congruence].
Qed.

Lemma run_ops_fails e b ops er : forall i acc, run_ops e b i ops acc = inl er <->
  exists k op, nth_error ops k = Some op /\ run_op e b (i + k) op = inl er /\
    forall k' o, k' < k -> nth_error ops k' = Some o -> exists j, run_op e b (i + k') o = inr j.
Proof.
  induction ops as [|o ops IH]; intros i acc; cbn [run_ops].
  - split; [discriminate|]. intros ([|k] & op & H & _); discriminate.
  - destruct (run_op e b i o) as [er'|j] eqn:R.
    + split.
      * intros [= ->]. exists 0, o. rewrite Nat.add_0_r. split; [reflexivity|]. split; [auto|]. intros k' o' L. lia.
      * intros ([|k] & op & H & E & B).
        -- injection H as <-. rewrite Nat.add_0_r in E. congruence.
        -- destruct (B 0 o) as [j J]; [lia|reflexivity|]. rewrite Nat.add_0_r in J. congruence.
    + rewrite IH. split.
      * intros (k & op & H & E & B). exists (S k), op. rewrite Nat.add_succ_r. split; [auto|]. split; [auto|].
        intros [|k'] o' L H'; [injection H' as <-; rewrite Nat.add_0_r; eauto|]. rewrite Nat.add_succ_r. apply (B k'); [lia|auto].
      * intros ([|k] & op & H & E & B); [injection H as <-; rewrite Nat.add_0_r in E; congruence|].
        exists k, op. rewrite Nat.add_succ_r in E. split; [auto|]. split; [auto|].
        intros k' o' L H'. destruct (B (S k') o') as [j' J]; [lia|auto|]. rewrite Nat.add_succ_r in J. eauto.
Qed.

Lemma run_ops_ok e b ops : forall i acc m, run_ops e b i ops acc = inr m ->
  (forall k op, nth_error ops k = Some op -> exists j, run_op e b (i + k) op = inr j) /\
  (forall op, ~ In op ops -> aget str_eqd m op = aget str_eqd acc op) /\
  (forall op k, LastAt ops op k -> exists j, run_op e b (i + k) op = inr j /\ aget str_eqd m op = Some j) /\
  (NoDup (akeys acc) -> NoDup (akeys m)).
Proof.
  induction ops as [|o ops IH]; intros i acc m E; cbn [run_ops] in E.
  - injection E as <-. split; [intros [|k] op H; discriminate|]. split; [auto|]. split; [|auto].
    intros op k [H _]. destruct k; discriminate.
  - destruct (run_op e b i o) as [er|j] eqn:R; [discriminate|].
    destruct (IH _ _ _ E) as (A & B & C & D). split; [|split; [|split]].
    + intros [|k] op H.
      * injection H as <-. rewrite Nat.add_0_r. eauto.
      * cbn in H. destruct (A k op H) as [j' Hj]. exists j'. rewrite Nat.add_succ_r. exact Hj.
    + intros op N. cbn in N. rewrite B by tauto. apply aget_aset_neq. intros ->. apply N; auto.
    + intros op k [H L]. destruct k as [|k].
      * injection H as <-. exists j. rewrite Nat.add_0_r. split; [auto|].
        rewrite B; [apply aget_aset_eq|]. intros I. apply In_nth_error in I. destruct I as [k' K'].
        apply (L (S k')); [lia|exact K'].
      * cbn in H. destruct (C op k) as (j' & Hj & Hm).
        { split; [auto|]. intros i' Li. apply (L (S i')). lia. }
        exists j'. rewrite Nat.add_succ_r. auto.
    + intros ND. apply D. apply NoDup_aset. auto.
Qed.

Lemma run_ops_total e b ops : forall i acc,
  (forall k op, nth_error ops k = Some op -> exists j, run_op e b (i + k) op = inr j) -> exists m, run_ops e b i ops acc = inr m.
Proof.
  induction ops as [|o ops IH]; intros i acc H; cbn [run_ops]; [eauto|].
  destruct (H 0 o eq_refl) as [j J]. rewrite Nat.add_0_r in J. rewrite J. apply IH.
  intros k op Hk. destruct (H (S k) op Hk) as [j' J']. rewrite Nat.add_succ_r in J'. eauto.
Qed.

Lemma run_aquascope_setup e b : SetUp e -> run_aquascope e b = run_ops e b 0 (operations b) [].
Proof. intros (H1 & H2 & H3). unfold run_aquascope. rewrite H1, H2, H3. reflexivity. Qed.

Lemma run_aquascope_ok e b m : run_aquascope e b = inr m -> SetUp e /\ run_ops e b 0 (operations b) [] = inr m.
Proof.
  unfold run_aquascope, SetUp. destruct (temp_ok e); [|discriminate]. destruct (cargo_new e) as [[|]|]; try discriminate.
  destruct (write_ok e); [|discriminate]. cbn [negb]. auto.
Qed.

Lemma last_at ops op : In op ops -> exists i, LastAt ops op i.
Proof.
  induction ops as [|o ops IH]; intros I; [destruct I|].
  destruct (in_dec str_eqd op ops) as [J|J].
  - destruct (IH J) as (i & H & L). exists (S i). split; [exact H|]. intros [|i'] Li; [lia|]. apply L. lia.
  - destruct I as [->|I]; [|contradiction]. exists 0. split; [reflexivity|]. intros [|i'] Li E; [lia|].
    cbn in E. apply nth_error_In in E. contradiction.
Qed.

(** The tool in the preprocessor. *)
Lemma run_op_tool e b p print secs i op : Runs e p print secs ->
  run_op e b i op =
  match parse_args (run_args b op) with
  | None => match run_op e b i op with inl er => inl er | inr _ => inl EFailed end
  | Some c =>
    match tool_run p c with
    | None => match run_op e b i op with inl er => inl er | inr _ => inl EFailed end
    | Some j => if is_err j then inl EReported else if is_build_error j then inl EBuild else inr j
    end
  end.
Proof.
  intros [SU EX T RD]. unfold run_op. rewrite EX. unfold tool.
  destruct (parse_args (run_args b op)) as [c|] eqn:P.
  - destruct (tool_run p c) as [j|] eqn:R.
    + destruct (RD c j R) as (F & s & U & J). unfold ends_in_time. apply Nat.ltb_lt in T. apply Nat.leb_le in F. rewrite T, F. cbn.
      rewrite U, J. destruct (is_err j); auto.
    + unfold ends_in_time. apply Nat.ltb_lt in T. rewrite T. cbn. reflexivity.
  - unfold ends_in_time. apply Nat.ltb_lt in T. rewrite T. cbn. reflexivity.
Qed.

Lemma ended_iff e p out err : exec_output e p = Go (out, err) <-> Ended e p out err.
Proof.
  unfold exec_output, Ended. split.
  - destruct p as [|secs o r ok]; [discriminate|]. destruct (Nat.ltb_spec secs 20) as [H|H]; [|discriminate]. cbn [negb].
    destruct (s_utf8 e o) as [o'|] eqn:U; [|discriminate]. destruct (s_utf8 e r) as [r'|] eqn:U'; [|discriminate].
    intros [= <- <-]. exists secs, o, r, ok. auto.
  - intros (secs & o & r & ok & -> & H & U & U'). apply Nat.ltb_lt in H. rewrite H. cbn [negb]. rewrite U, U'. reflexivity.
Qed.

Lemma blank_iff s : blank s = true <-> forall c, In c s -> BookSpec.White c.
Proof. unfold blank. rewrite forallb_forall. split; intros H c I; apply PropBook.white_iff; auto. Qed.

Lemma blank_not s : blank s = false <-> exists c, In c s /\ ~ BookSpec.White c.
Proof.
  split.
  - unfold blank. induction s as [|c s IH]; [discriminate|]. cbn [forallb]. intros B. apply andb_false_iff in B. destruct B as [B|B].
    + exists c. split; [left; auto|apply PropBook.not_white_iff; auto].
    + destruct (IH B) as (c' & I & N). exists c'. split; [right; auto|auto].
  - intros (c & I & N). destruct (blank s) eqn:B; [|auto]. elim N. exact (proj1 (blank_iff s) B c I).
Qed.

Lemma analyze_bodies_ends l : forall out, analyze_bodies l out =
  match analyze_bodies l [] with Some r => Some (out ++ r) | None => None end.
Proof.
  induction l as [|[r| |] l IH]; intros out; cbn [analyze_bodies].
  - rewrite app_nil_r. reflexivity.
  - rewrite IH, (IH ([] ++ [jresult r])). destruct (analyze_bodies l []) as [x|]; [|reflexivity].
    rewrite <- app_assoc. reflexivity.
  - rewrite app_nil_r. reflexivity.
  - reflexivity.
Qed.

Lemma Forall2_In {A B} (R : A -> B -> Prop) l m : Forall2 R l m -> forall x, In x l -> exists y, In y m /\ R x y.
Proof.
  induction 1 as [|a b l m H F IH]; intros x I; [destruct I|]. destruct I as [<-|I]; [exists b; split; [left|]; auto|].
  destruct (IH x I) as (y & J & Y). exists y. split; [right|]; auto.
Qed.

Lemma entry_result r : Entry (Analysed r) (jresult r).
Proof. destruct r; constructor. Qed.

Lemma entry_inv v j : Entry v j -> exists r, v = Analysed r /\ j = jresult r.
Proof. intros [x|x]; eexists; split; reflexivity. Qed.

Lemma analyze_bodies_app a es : Forall2 Entry a es -> forall l,
  analyze_bodies (a ++ l) [] = match analyze_bodies l [] with Some r => Some (es ++ r) | None => None end.
Proof.
  induction 1 as [|v j a es E F IH]; intros l; cbn [app].
  - destruct (analyze_bodies l []); reflexivity.
  - apply entry_inv in E. destruct E as (r & -> & ->). cbn [analyze_bodies app]. rewrite analyze_bodies_ends, IH.
    destruct (analyze_bodies l []); reflexivity.
Qed.

Lemma analyze_bodies_iff l : ~ In Fatal l -> forall es, analyze_bodies l [] = Some es <-> Forall2 Entry l es.
Proof.
  induction l as [|[r| |] l IH]; intros N es; cbn [analyze_bodies app].
  - split; [intros [= <-]; constructor|intros F; inversion F; reflexivity].
  - rewrite analyze_bodies_ends. assert (N' : ~ In Fatal l) by (intros I; apply N; right; auto). split.
    + destruct (analyze_bodies l []) as [x|] eqn:E; [|discriminate]. intros [= <-]. cbn [app]. constructor; [apply entry_result|].
      apply (IH N'). auto.
    + intros F. inversion F as [|v j a b E F' E1 E2]; subst. apply (IH N') in F'. rewrite F'.
      apply entry_inv in E. destruct E as (r' & [= <-] & ->). reflexivity.
  - elim N. left. reflexivity.
  - split; [discriminate|]. intros F. inversion F as [|v j a b E F' E1 E2]; subst. inversion E.
Qed.

Lemma container_iff e : new_container e = Go tt <-> ContainerMade e.
Proof.
  unfold new_container, ContainerMade. split.
  - destruct (s_temp_ok e); [|discriminate]. cbn [negb]. destruct (exec_output e (s_new e)) as [[o r]| |] eqn:E; try discriminate.
    cbn [sbind]. destruct (blank r) eqn:B; [|discriminate]. intros _. split; [auto|]. exists o, r.
    split; [apply ended_iff; auto|apply blank_iff; auto].
  - intros (-> & o & r & E & B). cbn [negb]. apply ended_iff in E. rewrite E. cbn [sbind]. apply blank_iff in B. rewrite B. reflexivity.
Qed.

Lemma asks_route r op config : Asks r op config -> route_of (r_path r) = ROp op /\ r_method r = POST.
Proof. intros (M & P & O & _). split; [|auto]. rewrite P. destruct O as [-> | ->]; reflexivity. Qed.

Lemma handle_asks e r op config : Asks r op config ->
  handle e r = match sbind (new_container e) (fun _ => run_in_container e op config) with
               | Go x => Answer 200 x | SErr => Answer 500 (BText []) | Panic => Dropped end.
Proof.
  intros A. destruct (asks_route _ _ _ A) as [R M]. destruct A as (_ & _ & _ & code & B).
  unfold handle. rewrite R, M, B. reflexivity.
Qed.

(** What the command line says. *)
Lemma parse_run b op :
  parse_args (run_args b op) =
  let sf := has_option (lit "shouldFail") b in
  let flows := has_option (lit "showFlows") b in
  if str_eqd op (lit "permissions") then Some (Cli sf (CPermissions flows))
  else if flows then None
  else if str_eqd op (lit "interpreter") then Some (Cli sf CInterpreter)
  else if str_eqd op (lit "preload") then Some (Cli sf CPreload)
  else if str_eqd op (lit "rustc-version") then Some (Cli sf CRustcVersion)
  else None.
Proof.
  cbn zeta. unfold run_args.
  destruct (has_option (lit "shouldFail") b), (has_option (lit "showFlows") b); cbn [app].
  - unfold parse_args. destruct (str_eqd (lit "--should-fail") (lit "--should-fail")) as [_|N]; [|elim N; reflexivity].
    unfold parse_command. destruct (str_eqd op (lit "permissions")) as [->|N]; reflexivity.
  - unfold parse_args. destruct (str_eqd (lit "--should-fail") (lit "--should-fail")) as [_|N]; [|elim N; reflexivity].
    unfold parse_command. repeat match goal with |- context [if str_eqd op ?x then _ else _] => destruct (str_eqd op x); [reflexivity|] end. reflexivity.
  - unfold parse_args. destruct (str_eqd op (lit "--should-fail")) as [->|N].
    + reflexivity.
    + unfold parse_command. destruct (str_eqd op (lit "permissions")) as [->|N']; reflexivity.
  - unfold parse_args. destruct (str_eqd op (lit "--should-fail")) as [->|N].
    + reflexivity.
    + unfold parse_command. repeat match goal with |- context [if str_eqd op ?x then _ else _] => destruct (str_eqd op x); [reflexivity|] end. reflexivity.
Qed.
