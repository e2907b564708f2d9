(** * Theorems: from the block of the book to the block of the page *)
From Coq Require Import Ascii String.
From Coq Require Import List Arith ZArith Lia Bool Decimal DecimalNat.
From Verif Require Import Base BookModel BookProofs RunModel RunSpec RunProofs EditorModel NumbersModel NumbersSpec NumbersProofs EmbedModel EmbedSpec.
From Verif Require PropRun.
Import ListNotations.

(** ** Decimal names *)

Lemma digits_inj a : forall b, digits_of a = digits_of b -> a = b.
Proof. induction a; destruct b; cbn [digits_of]; intros H; try discriminate H; auto; injection H as H; f_equal; auto. Qed.
Lemma decimal_inj a b : decimal a = decimal b -> a = b.
Proof. intros H. apply digits_inj in H. rewrite <- (Unsigned.of_to a), <- (Unsigned.of_to b). congruence. Qed.

Lemma aget_decimal {X Y} (f : X -> Y) (l : list (nat * X)) n :
  aget str_eqd (map (fun '(k, x) => (decimal k, f x)) l) (decimal n) = option_map f (aget Nat.eq_dec l n).
Proof.
  induction l as [|[k x] l IH]; [reflexivity|]. cbn [map aget]. 
  destruct (str_eqd (decimal n) (decimal k)) as [E|E]; destruct (Nat.eq_dec n k) as [E'|E']; auto.
  - apply decimal_inj in E. contradiction.
  - subst. contradiction.
Qed.

(** ** Options *)

Lemma config_map_spec opts k v : aget str_eqd (config_map opts) k = Some v <-> LastOption opts k v.
Proof.
  unfold config_map. induction opts as [|[k0 v0] opts IH] using rev_ind.
  - cbn. split; [discriminate|]. intros (pre & post & E & _). destruct pre; discriminate.
  - rewrite fold_left_app. cbn [fold_left fst snd]. rewrite aget_aset. destruct (str_eqd k k0) as [->|N].
    + split.
      * intros [= ->]. exists opts, []. split; [reflexivity|]. intros v' [].
      * intros (pre & post & E & L). destruct post as [|y post _] using rev_ind.
        -- apply app_inj_tail in E as [_ E]. congruence.
        -- rewrite app_comm_cons, app_assoc in E. apply app_inj_tail in E as [_ <-]. elim (L v0). apply in_or_app. right. cbn. auto.
    + rewrite IH. split.
      * intros (pre & post & -> & L). exists pre, (post ++ [(k0, v0)]). rewrite <- app_assoc. split; [reflexivity|].
        intros v' I. apply in_app_or in I as [I|[I|[]]]; [apply (L v' I)|congruence].
      * intros (pre & post & E & L). destruct post as [|y post _] using rev_ind.
        -- apply app_inj_tail in E as [_ E]. congruence.
        -- rewrite app_comm_cons, app_assoc in E. apply app_inj_tail in E as [-> _]. exists pre, post. split; [reflexivity|].
           intros v' I. apply (L v'). apply in_or_app. auto.
Qed.

Lemma config_map_nodup opts : NoDup (akeys (config_map opts)).
Proof.
  unfold config_map. induction opts as [|o opts IH] using rev_ind; [constructor|]. rewrite fold_left_app. cbn [fold_left]. apply NoDup_aset. auto.
Qed.

(** ** Annotations *)

Lemma paths_nodup marks : forall a, NoDup (akeys (step_paths a)) -> NoDup (akeys (step_paths (record_all marks a))).
Proof.
  unfold record_all. induction marks as [|[[[n t] k] i] marks IH]; intros a L; auto. cbn [fold_left]. apply IH.
  destruct k; auto. cbn [record_marker step_paths]. unfold add_matcher.
  destruct (aget str_eqd (config i) (lit "rxpaths")); destruct (aget str_eqd (config i) (lit "paths"));
    repeat apply NoDup_aset; auto.
Qed.

Lemma parsed_nodup c : NoDup (akeys (step_paths (snd (parse_annotations c)))).
Proof.
  destruct (parse_annotations_spec c) as (outs & marks & _ & ->). cbn [snd].
  change (NoDup (akeys (step_paths (record_all marks no_annots)))). apply paths_nodup. constructor.
Qed.

Lemma nodup_decimal {X Y} (f : X -> Y) (l : list (nat * X)) : NoDup (akeys l) -> NoDup (map fst (map (fun '(k, x) => (decimal k, f x)) l)).
Proof.
  intros H. rewrite map_map. replace (map (fun x => fst (let '(k, x0) := x in (decimal k, f x0))) l) with (map decimal (akeys l)).
  - induction H as [|k ks N H IH]; cbn; constructor; auto. intros I. apply in_map_iff in I as (y & E & I). apply decimal_inj in E. congruence.
  - unfold akeys. rewrite map_map. apply map_ext. intros []. reflexivity.
Qed.

Lemma distinct_nums l : Distinct (jnums l).
Proof. constructor. rewrite Forall_map. apply Forall_forall. intros. constructor. Qed.

Ltac keys := cbv [map fst lit list_ascii_of_string nat_of_ascii N.to_nat]; vm_compute; repeat constructor; cbn [In]; intuition discriminate.

Lemma distinct_matcher m : Distinct (jmatcher m).
Proof. destruct m; (apply distinct_obj; [keys|cbn [map snd]; repeat constructor]). Qed.
Lemma distinct_annots a : NoDup (akeys (step_paths a)) -> Distinct (jannots a).
Proof.
  intros H. apply distinct_obj; [keys|]. cbn [map snd]. repeat apply Forall_cons; try apply Forall_nil; try apply distinct_nums.
  - apply distinct_obj; [keys|]. cbn [map snd]. repeat constructor. apply Forall_map, Forall_forall. intros. constructor.
  - apply distinct_obj; [keys|]. cbn [map snd]. repeat apply Forall_cons; try apply Forall_nil; try apply distinct_nums.
    apply distinct_obj; [apply nodup_decimal; auto|]. apply Forall_map, Forall_map, Forall_forall. intros [n ms] _. cbn [snd].
    constructor. apply Forall_map, Forall_forall. intros m _. apply distinct_matcher.
  - apply distinct_obj; [keys|]. cbn [map snd]. repeat constructor. apply Forall_map, Forall_forall. intros. constructor.
Qed.

(** ** Reading *)

Lemma reads_texts l l' : Forall2 Reads (map JStr l) l' -> texts l' = l.
Proof.
  revert l'. induction l as [|s l IH]; intros l' H; inversion H as [|x y r r' A B E1 E2]; subst; auto.
  cbn. inversion A; subst. cbn. f_equal. auto.
Qed.

Lemma reads_field l j' k v : Reads (JObj l) j' -> aget str_eqd l k = Some v -> exists v', jget k j' = Some v' /\ Reads v v'.
Proof. intros H E. inversion H as [| | | | | | |l0 l' A B E1 E2]; subst. destruct (A k v E) as (v' & G & R). exists v'. split; auto. Qed.
Lemma reads_no_field l j' k : Reads (JObj l) j' -> aget str_eqd l k = None -> jget k j' = None.
Proof. intros H E. inversion H as [| | | | | | |l0 l' A B E1 E2]; subst. cbn [jget]. auto. Qed.

Lemma reads_nums l j' : Exact l -> Reads (jnums l) j' -> numbers (Some j') = l.
Proof.
  intros X H. unfold jnums in H. inversion H as [| | | | | |l0 l' F E1 E2|]; subst. clear H. cbn [numbers].
  revert l' F. induction l as [|n l IH]; intros l' F; inversion F as [|x y r r' A B E1 E2]; subst; auto.
  inversion A as [| |n0 n' N E1 E2| | | | |]; subst. cbn. f_equal; [|apply IH; auto; intros m I; apply X; cbn; auto].
  apply js_number_spec in N. rewrite js_number_fix in N.
  - lia.
  - apply double_small. specialize (X n (or_introl eq_refl)). lia.
Qed.

Lemma reads_matchers ms l' : Forall2 Reads (map jmatcher ms) l' -> flat_map matcher_of l' = ms.
Proof.
  revert l'. induction ms as [|m ms IH]; intros l' H; inversion H as [|x y r r' A B E1 E2]; subst; auto.
  cbn [flat_map]. rewrite (IH _ B). unfold matcher_of.
  destruct m as [s|s]; cbn [jmatcher] in A.
  - destruct (reads_field _ _ (lit "type") (JStr (lit "Literal")) A eq_refl) as (t & T & RT).
    destruct (reads_field _ _ (lit "value") (JStr s) A eq_refl) as (v & V & RV).
    rewrite T, V. inversion RT; subst. inversion RV; subst. reflexivity.
  - destruct (reads_field _ _ (lit "type") (JStr (lit "Regex")) A eq_refl) as (t & T & RT).
    destruct (reads_field _ _ (lit "value") (JStr s) A eq_refl) as (v & V & RV).
    rewrite T, V. inversion RT; subst. inversion RV; subst. reflexivity.
Qed.

Lemma parse_written write parse j : Faithful write parse -> Distinct j -> exists j', maybe_parse parse (Some (write j)) = Some (Some j') /\ Reads j j'.
Proof.
  intros F D. destruct (F j D) as (N & j' & P & R). exists j'. split; auto. unfold maybe_parse. destruct (write j) as [|c t]; [congruence|]. rewrite P. auto.
Qed.

(** Everything the page reads of an element, for a block that can be written. *)
Lemma embed_read write parse b rs : Faithful write parse -> NoDup (akeys (step_paths (annotations b))) -> Distinct (JObj rs) -> code b <> [] ->
  exists e jr jc ja, init_embed parse (process write b rs) = Some e /\ m_code e = code b /\ m_button e = false /\
    m_rendered e = map (fun op => (op, jget op jr)) (operations b) /\ Reads (JObj rs) jr /\
    m_config e = Some jc /\ Reads (JObj (map (fun '(k, v) => (k, JStr v)) (config_map (options b)))) jc /\
    m_annotations e = Some ja /\ Reads (jannots (annotations b)) ja.
Proof.
  intros F ND DR NE.
  destruct (parse_written write parse (JStr (code b)) F (distinct_str _)) as (j1 & P1 & R1).
  destruct (parse_written write parse (jannots (annotations b)) F (distinct_annots _ ND)) as (ja & P2 & R2).
  destruct (parse_written write parse (JArr (map JStr (operations b))) F) as (j3 & P3 & R3).
  { constructor. apply Forall_map, Forall_forall. intros. constructor. }
  destruct (parse_written write parse (JObj rs) F DR) as (jr & P4 & R4).
  destruct (parse_written write parse (JObj (map (fun '(k, v) => (k, JStr v)) (config_map (options b)))) F) as (jc & P5 & R5).
  { apply distinct_obj.
    - rewrite map_map. replace (map _ (config_map (options b))) with (akeys (config_map (options b))); [apply config_map_nodup|].
      unfold akeys. apply map_ext. intros []. reflexivity.
    - apply Forall_map, Forall_map, Forall_forall. intros [k v] _. constructor. }
  destruct (parse_written write parse (JBool true) F (distinct_bool _)) as (j6 & P6 & R6).
  assert (A : forall k, aget str_eqd (process write b rs) k =
    if str_eqd k (lit "class") then Some (lit "aquascope-embed") else if str_eqd k (lit "data-code") then Some (write (JStr (code b)))
    else if str_eqd k (lit "data-annotations") then Some (write (jannots (annotations b)))
    else if str_eqd k (lit "data-operations") then Some (write (JArr (map JStr (operations b))))
    else if str_eqd k (lit "data-responses") then Some (write (JObj rs))
    else if str_eqd k (lit "data-config") then Some (write (JObj (map (fun '(k, v) => (k, JStr v)) (config_map (options b)))))
    else if str_eqd k (lit "data-no-interact") then Some (write (JBool true)) else None) by reflexivity.
  assert (G1 : aget str_eqd (process write b rs) (lit "data-code") = Some (write (JStr (code b)))) by (rewrite A; reflexivity).
  assert (G2 : aget str_eqd (process write b rs) (lit "data-annotations") = Some (write (jannots (annotations b)))) by (rewrite A; reflexivity).
  assert (G3 : aget str_eqd (process write b rs) (lit "data-operations") = Some (write (JArr (map JStr (operations b))))) by (rewrite A; reflexivity).
  assert (G4 : aget str_eqd (process write b rs) (lit "data-responses") = Some (write (JObj rs))) by (rewrite A; reflexivity).
  assert (G5 : aget str_eqd (process write b rs) (lit "data-config") = Some (write (JObj (map (fun '(k, v) => (k, JStr v)) (config_map (options b)))))) by (rewrite A; reflexivity).
  assert (G6 : aget str_eqd (process write b rs) (lit "data-no-interact") = Some (write (JBool true))) by (rewrite A; reflexivity).
  inversion R1; subst j1. inversion R6; subst j6. inversion R3 as [| | | | | |l l' F3 E1 E2|]; subst. apply reads_texts in F3.
  unfold init_embed. rewrite G1, G2, G3, G4, G5, G6, P1, P2, P3, P4, P5, P6.
  destruct (code b) as [|c r] eqn:EC; [congruence|].
  eexists _, jr, jc, ja. split; [reflexivity|]. cbn [m_code m_button m_rendered m_config m_annotations]. rewrite F3.
  split; [auto|]. split; [auto|]. split; [auto|]. auto.
Qed.

Definition strings (x : str * json) : list (str * str) := let '(k, j) := x in match j with JStr v => [(k, v)] | _ => [] end.
Lemma aget_strings l k : (forall v, aget str_eqd l k = Some (JStr v) ->
    aget str_eqd (flat_map strings l) k = Some v) /\
  (aget str_eqd l k = None -> aget str_eqd (flat_map strings l) k = None).
Proof.
  induction l as [|[k0 j] l [IH1 IH2]]; [split; [discriminate|auto]|].
  assert (C : forall v t, aget str_eqd ((k0, v) :: t) k = if str_eqd k k0 then Some v else aget str_eqd (t : list (str * str)) k) by reflexivity.
  change (aget str_eqd ((k0, j) :: l) k) with (if str_eqd k k0 then Some j else aget str_eqd l k).
  change (flat_map strings ((k0, j) :: l)) with (strings (k0, j) ++ flat_map strings l).
  split; [intros v H|intros H]; destruct (str_eqd k k0) as [E|N].
  - injection H as ->. cbn [strings List.app]. rewrite C. destruct (str_eqd k k0); [reflexivity|congruence].
  - destruct j; cbn [strings List.app]; try (apply IH1; exact H). rewrite C. destruct (str_eqd k k0); [congruence|auto].
  - discriminate.
  - destruct j; cbn [strings List.app]; try (apply IH2; exact H). rewrite C. destruct (str_eqd k k0); [congruence|auto].
Qed.

Lemma options_read opts jc e : m_config e = Some jc -> Reads (JObj (map (fun '(k, v) => (k, JStr v)) (config_map opts))) jc ->
  forall k v, aget str_eqd (page_options e) k = Some v <-> LastOption opts k v.
Proof.
  intros E R k v. rewrite <- config_map_spec. unfold page_options. rewrite E. inversion R as [| | | | | | |l l' A B E1 E2]; subst.
  assert (M : aget str_eqd (map (fun '(k, v) => (k, JStr v)) (config_map opts)) k = option_map JStr (aget str_eqd (config_map opts) k)).
  { clear. induction (config_map opts) as [|[k0 v0] l IH]; [reflexivity|]. cbn [map aget]. destruct (str_eqd k k0); auto. }
  change (fun '(k, j) => match j with JStr v => [(k, v)] | _ => [] end) with strings. destruct (aget_strings l' k) as [S1 S2]. destruct (aget str_eqd (config_map opts) k) as [w|]; cbn [option_map] in M.
  - destruct (A k _ M) as (w' & G & RW). inversion RW; subst. rewrite (S1 w G). tauto.
  - rewrite (S2 (B k M)). split; discriminate.
Qed.

(** ** C105: a block of the book arrives on the page *)

Lemma parsed_block content r b : In (r, b) (parse_all content) -> NoDup (akeys (step_paths (annotations b))).
Proof.
  unfold parse_all. rewrite parse_all_scan. generalize (S (length content)). intros fuel. generalize 0 as off. revert content.
  induction fuel as [|f IH]; intros s off I; [destruct I|]. cbn [scan] in I.
  destruct (parse_block s) as [[b0 rest]|] eqn:P.
  - cbn [In] in I. destruct I as [I|I]; [|eapply IH; eauto]. injection I as _ <-.
    clear - P. unfold parse_block in P.
    repeat match type of P with
    | match ?x with _ => _ end = _ => destruct x eqn:?; try discriminate
    | (let '(_, _) := ?x in _) = _ => destruct x eqn:?
    end. all: injection P as <- _.
    all: cbn [annotations]. all: match goal with H : parse_annotations ?t = (_, ?a) |- _ => change a with (snd (a, a)); replace a with (snd (parse_annotations t)) by (rewrite H; reflexivity) end; apply parsed_nodup.
  - destruct s as [|c s]; [destruct I|]. eapply IH; eauto.
Qed.

(** The element that is written for a block of the book is read as this block: its code, its
    operations in order with the response of each, its options. *)
Theorem C105_arrives write parse content r b rs : Faithful write parse ->
  In (r, b) (parse_all content) -> code b <> [] -> Distinct (JObj rs) ->
  exists e, init_embed parse (process write b rs) = Some e /\
    m_code e = code b /\
    map fst (m_rendered e) = operations b /\
    (forall op o, In (op, o) (m_rendered e) ->
       (forall j, aget str_eqd rs op = Some j -> exists j', o = Some j' /\ Reads j j') /\ (aget str_eqd rs op = None -> o = None)) /\
    (forall k v, aget str_eqd (page_options e) k = Some v <-> LastOption (options b) k v).
Proof.
  intros F I NE D. destruct (embed_read write parse b rs F (parsed_block _ _ _ I) D NE) as (e & jr & jc & ja & E & C & _ & R & RR & Ec & Rc & _).
  exists e. split; [auto|]. split; [auto|]. split.
  - rewrite R, map_map. cbn [fst]. apply map_id.
  - split.
    + intros op o Io. rewrite R in Io. apply in_map_iff in Io as (op' & Q & _). injection Q as -> <-. split.
      * intros j J. exact (reads_field rs jr op j RR J).
      * intros J. exact (reads_no_field rs jr op RR J).
    + exact (options_read (options b) jc e Ec Rc).
Qed.

(** So are its annotations. *)
Theorem C105_annotations write parse content r b rs e : Faithful write parse ->
  In (r, b) (parse_all content) -> Distinct (JObj rs) -> init_embed parse (process write b rs) = Some e -> code b <> [] ->
  let a := annotations b in
  (Exact (hidden_lines a) -> page_hidden e = hidden_lines a) /\
  (Exact (state_locations a) -> page_states e = state_locations a) /\
  (Exact (step_lines a) -> page_step_lines e = step_lines a) /\
  (Exact (bound_lines a) -> page_bound_lines e = bound_lines a) /\
  (forall line, page_matchers e line = aget Nat.eq_dec (step_paths a) line).
Proof.
  intros F I D E NE a. destruct (embed_read write parse b rs F (parsed_block _ _ _ I) D NE) as (e' & jr & jc & ja & E' & _ & _ & _ & _ & _ & _ & Ea & Ra).
  rewrite E in E'. injection E' as <-. fold a in Ra. unfold jannots in Ra.
  destruct (reads_field _ _ (lit "hidden_lines") _ Ra eq_refl) as (j1 & G1 & R1).
  destruct (reads_field _ _ (lit "interp") _ Ra eq_refl) as (j2 & G2 & R2).
  destruct (reads_field _ _ (lit "stepper") _ Ra eq_refl) as (j3 & G3 & R3).
  destruct (reads_field _ _ (lit "boundaries") _ Ra eq_refl) as (j4 & G4 & R4).
  destruct (reads_field _ _ (lit "state_locations") _ R2 eq_refl) as (j5 & G5 & R5).
  destruct (reads_field _ _ (lit "focused_lines") _ R3 eq_refl) as (j6 & G6 & R6).
  destruct (reads_field _ _ (lit "focused_paths") _ R3 eq_refl) as (j7 & G7 & R7).
  destruct (reads_field _ _ (lit "focused_lines") _ R4 eq_refl) as (j8 & G8 & R8).
  unfold page_hidden, page_states, page_step_lines, page_bound_lines, page_matchers. rewrite Ea. unfold field.
  rewrite G1, G2, G3, G4, G5, G6, G7, G8.
  split; [intros X; apply reads_nums; auto|]. split; [intros X; apply reads_nums; auto|]. split; [intros X; apply reads_nums; auto|].
  split; [intros X; apply reads_nums; auto|]. intros line.
  pose proof (aget_decimal (fun ms => JArr (map jmatcher ms)) (step_paths a) line) as AD.
  destruct (aget Nat.eq_dec (step_paths a) line) as [ms|]; cbn [option_map] in AD.
  - destruct (reads_field _ _ _ _ R7 AD) as (j9 & G9 & R9). rewrite G9. inversion R9 as [| | | | | |l l' F9 E1 E2|]; subst.
    f_equal. apply reads_matchers. auto.
  - rewrite (reads_no_field _ _ _ R7 AD). auto.
Qed.

(** What the options of the book ask for on the page: the last value counts. *)
Theorem C105_settings write parse content r b rs e : Faithful write parse ->
  In (r, b) (parse_all content) -> Distinct (JObj rs) -> init_embed parse (process write b rs) = Some e -> code b <> [] ->
  (c_stepper (cfg_of (page_options e)) = true <-> LastOption (options b) (lit "stepper") (lit "true")) /\
  (c_boundaries (cfg_of (page_options e)) = true <-> LastOption (options b) (lit "boundaries") (lit "true")) /\
  (c_hide (cfg_of (page_options e)) = true <-> exists v, v <> [] /\ LastOption (options b) (lit "hideCode") v) /\
  (c_fail (cfg_of (page_options e)) = true <-> exists v, v <> [] /\ LastOption (options b) (lit "shouldFail") v).
Proof.
  intros F I D E NE. destruct (embed_read write parse b rs F (parsed_block _ _ _ I) D NE) as (e' & jr & jc & ja & E' & _ & _ & _ & _ & Ec & Rc & _).
  rewrite E in E'. injection E' as <-. pose proof (options_read (options b) jc e Ec Rc) as O.
  assert (A : forall k, is_true (aget str_eqd (page_options e) k) = true <-> LastOption (options b) k (lit "true")).
  { intros k. rewrite <- O. unfold is_true. destruct (aget str_eqd (page_options e) k) as [x|]; [|split; discriminate].
    destruct (str_eqd x (lit "true")) as [->|N]; split; auto; try discriminate. intros [= Q]. contradiction. }
  assert (B : forall k, truthy (aget str_eqd (page_options e) k) = true <-> exists v, v <> [] /\ LastOption (options b) k v).
  { intros k. unfold truthy. split.
    - destruct (aget str_eqd (page_options e) k) as [[|c t]|] eqn:G; try discriminate. intros _. exists (c :: t). split; [discriminate|]. apply O. auto.
    - intros (v & N & L). apply O in L. rewrite L. destruct v; [congruence|auto]. }
  unfold cfg_of. cbn [c_stepper c_boundaries c_hide c_fail]. split; [apply A|]. split; [apply A|]. split; apply B.
Qed.

(** A block without code cannot be read. *)
Theorem C105_empty_refuted write parse b rs : Faithful write parse -> code b = [] -> init_embed parse (process write b rs) = None.
Proof.
  intros F C. destruct (parse_written write parse (JStr []) F (distinct_str _)) as (j & P & R). inversion R; subst j.
  unfold init_embed. assert (G : aget str_eqd (process write b rs) (lit "data-code") = Some (write (JStr []))) by (rewrite <- C; reflexivity).
  rewrite G, P. destruct (maybe_parse parse (aget str_eqd (process write b rs) (lit "data-no-interact"))); auto.
Qed.

(** On a page of the book nothing is asked of a server: there is no button, and the tool has
    answered every operation. *)
Theorem C105_no_server write parse content r b env p print secs rs e : Faithful write parse ->
  In (r, b) (parse_all content) -> code b <> [] -> Runs env p print secs -> run_aquascope env b = inr rs -> Distinct (JObj rs) ->
  init_embed parse (process write b rs) = Some e ->
  m_button e = false /\ forall op o, In (op, o) (m_rendered e) -> ~ Falsy o /\ asks_server o = false.
Proof.
  intros F I NE Rn Rr D E. destruct (embed_read write parse b rs F (parsed_block _ _ _ I) D NE) as (e' & jr & jc & ja & E' & _ & Bt & R & RR & _).
  rewrite E in E'. injection E' as <-. split; [auto|]. intros op o Io. rewrite R in Io. apply in_map_iff in Io as (op' & Q & Iop). injection Q as -> <-.
  apply run_aquascope_ok in Rr as [_ Rr]. apply run_ops_ok in Rr as (_ & _ & C & _).
  destruct (last_at _ _ Iop) as [i L]. destruct (C op i L) as (j & J & G). cbn [Nat.add] in J.
  destruct (reads_field rs jr op j RR G) as (j' & G' & Rj). rewrite G'.
  pose proof (run_op_tool env b p print secs i op Rn) as K. rewrite J in K.
  destruct (parse_args (run_args b op)) as [c|]; [|discriminate K]. destruct (tool_run p c) as [j0|] eqn:T; [|discriminate K].
  assert (S : (exists l, j0 = JArr l) \/ exists l, j0 = JObj l).
  { unfold tool_run in T. destruct (cmd c) as [fl| | |]; try discriminate T.
    - destruct (expands p); [|injection T as <-; eauto]. destruct (analyze_bodies (bodies p fl) []); [|discriminate T]. injection T as <-. eauto.
    - destruct (execution p (should_fail c)) as [[v|u]|]; [| |discriminate T]; injection T as <-; right; unfold jresult; eauto. }
  destruct (is_err j0); [discriminate K|]. destruct (is_build_error j0); [discriminate K|]. injection K as ->.
  destruct S as [[l ->]|[l ->]]; inversion Rj; subst; (split; [intros K; inversion K|reflexivity]).
Qed.

(** Elsewhere a response is asked of the server if and only if JavaScript takes it for false. *)
Theorem C105_asks : forall o, asks_server o = true <-> Falsy o.
Proof.
  intros o. split.
  - destruct o as [[|[]|[|n]|n|b [|m] e|[|a s]|l|l]|]; cbn; try discriminate; constructor.
  - intros []; reflexivity.
Qed.

(** A block may leave out all but the code and the operations, or leave them empty; then it has a button, and nothing is rendered. *)
Theorem C105_optional (parse : str -> option json) (attrs : list (str * str)) c (code : str) ops (tc to : str) :
  let without k := aget str_eqd attrs (lit k) = None \/ aget str_eqd attrs (lit k) = Some [] in
  aget str_eqd attrs (lit "data-code") = Some tc -> tc <> [] -> parse tc = Some (JStr (c :: code)) ->
  aget str_eqd attrs (lit "data-operations") = Some to -> to <> [] -> parse to = Some (JArr ops) ->
  without "data-no-interact"%string -> without "data-responses"%string -> without "data-config"%string -> without "data-annotations"%string ->
  init_embed parse attrs = Some (Embed (c :: code) true [] None None).
Proof.
  intros without C NC PC O NO PO W1 W2 W3 W4. unfold init_embed. cbv zeta.
  assert (G : forall k, without k -> maybe_parse parse (aget str_eqd attrs (lit k)) = Some None) by (intros k [->| ->]; reflexivity).
  rewrite (G _ W1), (G _ W2), (G _ W3), (G _ W4), C, O. unfold maybe_parse. destruct tc; [congruence|]. destruct to; [congruence|]. rewrite PC, PO. reflexivity.
Qed.
Print Assumptions C105_optional.

(** All blocks of a chapter arrive if each has code. *)
Theorem C105_page write parse content answers es threw : Faithful write parse ->
  map fst answers = map snd (parse_all content) -> (forall b rs, In (b, rs) answers -> code b <> [] /\ Distinct (JObj rs)) ->
  init_blocks parse (map (fun '(b, rs) => process write b rs) answers) = (es, threw) ->
  threw = false /\ map m_code es = map (fun p => code (snd p)) (parse_all content) /\
  map (fun e => map fst (m_rendered e)) es = map (fun p => operations (snd p)) (parse_all content).
Proof.
  intros F M D. rewrite <- (map_map snd code), <- (map_map snd operations), <- M.
  assert (I : forall b, In b (map fst answers) -> exists r, In (r, b) (parse_all content)).
  { intros b Ib. rewrite M in Ib. apply in_map_iff in Ib as ([r b'] & <- & J). exists r. auto. }
  clear M. revert es threw. induction answers as [|[b rs] l IH]; intros es threw E; cbn [map init_blocks] in E.
  - injection E as <- <-. auto.
  - destruct (D b rs) as [NE Dr]; [cbn; auto|]. destruct (I b) as [r Ir]; [cbn; auto|].
    destruct (C105_arrives write parse content r b rs F Ir NE Dr) as (e & Ee & C & O & _). rewrite Ee in E.
    destruct (init_blocks parse (map (fun '(b, rs) => process write b rs) l)) as [es' t'] eqn:B. injection E as <- <-.
    destruct (IH) with (es := es') (threw := t') as (T & A1 & A2); auto.
    + intros b0 rs0 J. apply D. cbn. auto.
    + intros b0 J. apply I. cbn. auto.
    + cbn [map]. cbn [fst]. rewrite C, O, A1, A2. auto.
Qed.

(** A block without code stops the page: it and all blocks after it are missing. *)
Theorem C105_stops_refuted write parse before b rs after : Faithful write parse -> code b = [] ->
  exists es, init_blocks parse (List.app before (process write b rs :: after)) = (es, true) /\ List.length es <= List.length before.
Proof.
  intros F C. induction before as [|a l IH]; cbn [List.app init_blocks].
  - rewrite (C105_empty_refuted write parse b rs F C). exists []. auto.
  - destruct (init_embed parse a) as [e|]; [|exists []; cbn; split; [auto|lia]].
    destruct IH as (es & -> & L). exists (e :: es). cbn [List.length]. split; [auto|lia].
Qed.

(** ** A way of writing and reading that is faithful *)
Module Codec.
  Definition wstr (s : str) : str := List.length s :: s.
  Fixpoint write (j : json) : str :=
    match j with
    | JNull => [0]
    | JBool b => [1; if b then 1 else 0]
    | JNum n => [2; n]
    | JNeg n => [6; n]
    | JReal b m e => [7; if b then 1 else 0; m; Z.to_nat e; Z.to_nat (- e)]
    | JStr s => 3 :: wstr s
    | JArr l => 4 :: List.length l :: flat_map write l
    | JObj l => 5 :: List.length l :: flat_map (fun p => List.app (wstr (fst p)) (write (snd p))) l
    end.
  Section Round.
  (** What becomes of a number that is read. *)
  Context (rnd : nat -> nat).
  Fixpoint rounded (j : json) : json :=
    match j with
    | JNum n => JNum (rnd n)
    | JNeg n => JNeg (pred (rnd (S n)))
    | JArr l => JArr (map rounded l)
    | JObj l => JObj (map (fun p => (fst p, rounded (snd p))) l)
    | j => j
    end.
  Fixpoint items {X} (d : str -> option (X * str)) (n : nat) (s : str) : option (list X * str) :=
    match n with
    | 0 => Some ([], s)
    | S n => match d s with
             | Some (x, r) => match items d n r with Some (l, t) => Some (x :: l, t) | None => None end
             | None => None
             end
    end.
  Fixpoint read (f : nat) (s : str) : option (json * str) :=
    match f with
    | 0 => None
    | S f =>
      match s with
      | 0 :: r => Some (JNull, r)
      | 1 :: b :: r => Some (JBool (b =? 1), r)
      | 2 :: n :: r => Some (JNum (rnd n), r)
      | 6 :: n :: r => Some (JNeg (pred (rnd (S n))), r)
      | 7 :: b :: m :: e :: e' :: r => Some (JReal (b =? 1) m (Z.of_nat e - Z.of_nat e'), r)
      | 3 :: n :: r => Some (JStr (firstn n r), skipn n r)
      | 4 :: n :: r => match items (read f) n r with Some (l, t) => Some (JArr l, t) | None => None end
      | 5 :: n :: r =>
          match items (fun s => match s with
                                | k :: r => match read f (skipn k r) with Some (j, t) => Some ((firstn k r, j), t) | None => None end
                                | [] => None
                                end) n r with Some (l, t) => Some (JObj l, t) | None => None end
      | _ => None
      end
    end.
  Definition parse_with (s : str) : option json := match read (List.length s) s with Some (j, []) => Some j | _ => None end.

  Lemma items_ok {X} (d : str -> option (X * str)) (w : X -> str) (g : X -> X) l :
    (forall x t, In x l -> d (List.app (w x) t) = Some (g x, t)) ->
    forall t, items d (List.length l) (List.app (flat_map w l) t) = Some (map g l, t).
  Proof.
    induction l as [|x l IH]; intros H t; [reflexivity|]. cbn [List.length flat_map items map]. rewrite <- app_assoc, H by (cbn; auto).
    rewrite IH; auto. intros y u I. apply H. cbn. auto.
  Qed.
  Lemma flat_length {X} (w : X -> str) l x : In x l -> List.length (w x) <= List.length (flat_map w l).
  Proof. induction l as [|y l IH]; cbn [In flat_map]; [tauto|]. rewrite app_length. intros [->|I]; [lia|]. apply IH in I. lia. Qed.
  Lemma firstn_here (s t : str) : firstn (List.length s) (List.app s t) = s.
  Proof. rewrite firstn_app, firstn_all, Nat.sub_diag. cbn [firstn]. apply app_nil_r. Qed.
  Lemma skipn_here (s t : str) : skipn (List.length s) (List.app s t) = t.
  Proof. rewrite skipn_app, skipn_all, Nat.sub_diag. reflexivity. Qed.

  Lemma read_ok f : forall j t, List.length (write j) <= f -> read f (List.app (write j) t) = Some (rounded j, t).
  Proof.
    induction f as [|f IH]; intros j t L.
    - destruct j; cbn [write List.length wstr] in L; lia.
    - destruct j as [|b|n|n|b m e|s|l|l]; cbn [write List.app rounded].
      + reflexivity.
      + destruct b; reflexivity.
      + reflexivity.
      + reflexivity.
      + cbn [read]. replace (Z.of_nat (Z.to_nat e) - Z.of_nat (Z.to_nat (- e)))%Z with e by lia. destruct b; reflexivity.
      + cbn [wstr List.app read]. rewrite firstn_here, skipn_here. reflexivity.
      + cbn [read]. rewrite (items_ok (read f) write rounded); auto.
        intros x u I. apply IH. pose proof (flat_length write l x I). cbn [write List.length] in L. lia.
      + cbn [read]. rewrite (items_ok _ _ (fun p => (fst p, rounded (snd p)))); auto.
        intros [k x] u I. pose proof (flat_length (fun p => List.app (wstr (fst p)) (write (snd p))) l (k, x) I) as K.
        cbn [write List.length] in L. cbn [fst snd] in *. rewrite app_length in K. cbn [wstr List.length List.app] in *.
        rewrite <- app_assoc, firstn_here, skipn_here, IH by lia. reflexivity.
  Qed.

  Lemma parse_with_ok j : parse_with (write j) = Some (rounded j).
  Proof. unfold parse_with. pose proof (read_ok _ j [] (le_n _)) as R. rewrite app_nil_r in R. rewrite R. auto. Qed.
  End Round.

  (** As JavaScript reads them. *)
  Definition rnd (n : nat) : nat := Z.to_nat (js_number (Z.of_nat n)).
  Definition parse := parse_with rnd.

  Lemma rnd_nearest n : Nearest (Z.of_nat n) (Z.of_nat (rnd n)).
  Proof.
    unfold rnd. rewrite Z2Nat.id; [apply js_number_spec; auto|]. replace 0%Z with (js_number 0) by reflexivity. apply js_number_mono. lia.
  Qed.
  Lemma rnd_neg n : Nearest (- Z.of_nat (S n)) (- Z.of_nat (S (pred (rnd (S n))))).
  Proof.
    pose proof (rnd_nearest (S n)) as N. assert (P : 1 <= rnd (S n)).
    { unfold rnd. assert (1 <= js_number (Z.of_nat (S n)))%Z; [|lia]. replace 1%Z with (js_number 1) by reflexivity. apply js_number_mono. lia. }
    replace (S (pred (rnd (S n)))) with (rnd (S n)) by lia. apply nearest_opp. exact N.
  Qed.
  Lemma aget_map (g : json -> json) l k : aget str_eqd (map (fun p : str * json => (fst p, g (snd p))) l) k = option_map g (aget str_eqd l k).
  Proof. induction l as [|[k' v] l IH]; [reflexivity|]. cbn [map aget fst snd]. destruct (str_eqd k k'); auto. Qed.
  Lemma aget_in (l : list (str * json)) k v : aget str_eqd l k = Some v -> In (k, v) l.
  Proof. induction l as [|[k' v'] l IH]; cbn [aget]; [discriminate|]. destruct (str_eqd k k') as [->|]; [intros [= ->]; cbn; auto|cbn; auto]. Qed.

  Lemma reads_rounded f : forall j, List.length (write j) <= f -> Reads j (rounded rnd j).
  Proof.
    induction f as [|f IH]; intros j L.
    - destruct j; cbn [write List.length wstr] in L; lia.
    - destruct j as [|b|n|n|b m e|s|l|l]; cbn [rounded]; try constructor.
      + apply rnd_nearest.
      + apply rnd_neg.
      + assert (K : forall x, In x l -> Reads x (rounded rnd x)).
        { intros x I. apply IH. pose proof (flat_length write l x I). cbn [write List.length] in L. lia. }
        clear L. induction l as [|x l IHl]; cbn [map]; constructor; [apply K; cbn; auto|apply IHl; intros y I; apply K; cbn; auto].
      + intros k v G. exists (rounded rnd v). rewrite aget_map, G. split; [auto|]. apply IH. apply aget_in in G.
        pose proof (flat_length (fun p => List.app (wstr (fst p)) (write (snd p))) l (k, v) G) as K.
        cbn [write List.length] in L. cbn [fst snd] in K. rewrite app_length in K. cbn [wstr List.length] in K. lia.
      + intros k G. rewrite aget_map, G. auto.
  Qed.

  Lemma faithful : Faithful write parse.
  Proof.
    intros j _. split; [destruct j; discriminate|]. exists (rounded rnd j). split; [|apply (reads_rounded _ j (le_n _))].
    apply parse_with_ok.
  Qed.
End Codec.

Module EmbedDemo.
  Definition nl : str := [10].
  Definition content : str :=
    List.app (lit "```aquascope,interpreter+permissions,stepper=false,stepper=true,hideCode") (List.app nl
    (List.app (lit "fn main() {`(focus,paths:x)`") (List.app nl (List.app (lit "#let x = 1;") (List.app nl (List.app (lit "}`[]`") (List.app nl (lit "```")))))))).
  Definition blk : option block := match parse_all content with (_, b) :: _ => Some b | [] => None end.
  Definition responses : list (str * json) := [(lit "permissions", JArr []); (lit "interpreter", JObj [(lit "Ok", JNum 9)])].
End EmbedDemo.

(** [Codec.faithful] meets the first hypothesis of the theorems, this block the others. *)
Example C105_witness : exists r b, In (r, b) (parse_all EmbedDemo.content) /\ code b <> [] /\ Distinct (JObj EmbedDemo.responses) /\
  exists e, init_embed Codec.parse (process Codec.write b EmbedDemo.responses) = Some e /\
    page_hidden e = [2] /\ page_states e = [24] /\ page_step_lines e = [1] /\ page_matchers e 1 = Some [Literal (lit "x")] /\ page_matchers e 2 = None /\
    cfg_of (page_options e) = Cfg true false true false /\
    m_rendered e = [(lit "interpreter", Some (JObj [(lit "Ok", JNum 9)])); (lit "permissions", Some (JArr []))].
Proof.
  destruct (parse_all EmbedDemo.content) as [|[r b] l] eqn:E; [vm_compute in E; discriminate E|].
  exists r, b. split; [cbn; auto|]. vm_compute in E. injection E as _ <- _.
  split; [discriminate|]. split.
  - constructor; [repeat constructor; cbn; intuition discriminate|]. cbn [map snd EmbedDemo.responses].
    repeat constructor. cbn. tauto.
  - eexists. split; [vm_compute; reflexivity|]. vm_compute. repeat split.
Qed.
(** A block without code is accepted by the preprocessor. *)
Example C105_empty_witness :
  let content := List.app (lit "```aquascope,interpreter") (List.app [10] (lit "```")) in
  map (fun p => code (snd p)) (parse_all content) = [[]] /\
  init_blocks Codec.parse (map (fun p => process Codec.write (snd p) []) (List.app (parse_all content) (parse_all EmbedDemo.content))) = ([], true).
Proof. vm_compute. split; reflexivity. Qed.

Example C105_no_server_witness :
  let p := PropRun.Demo.prog true [inl (JNum 1)] (Some (inl (JNum 2))) in
  exists r b rs, In (r, b) (parse_all EmbedDemo.content) /\ code b <> [] /\ Runs (PropRun.Demo.world p) p PropRun.Demo.print 3 /\
    run_aquascope (PropRun.Demo.world p) b = inr rs /\ Distinct (JObj rs) /\ map fst rs = [lit "interpreter"; lit "permissions"].
Proof.
  intros p. destruct (parse_all EmbedDemo.content) as [|[r b] l] eqn:E; [vm_compute in E; discriminate E|].
  vm_compute in E. injection E as _ <- _.
  eexists r, _, _. split; [cbn; auto|]. split; [discriminate|]. split; [apply PropRun.Demo.runs|]. split; [vm_compute; reflexivity|].
  split; [|vm_compute; reflexivity].
  constructor; cbn [map fst snd]; repeat constructor; cbn; intuition discriminate.
Qed.

Print Assumptions C105_arrives.
Print Assumptions C105_annotations.
Print Assumptions C105_settings.
Print Assumptions C105_empty_refuted.
Print Assumptions C105_no_server.
Print Assumptions C105_asks.
Print Assumptions C105_page.
Print Assumptions C105_stops_refuted.
