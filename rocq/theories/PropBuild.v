(** * Theorems: building a book, again and again *)
From Coq Require Import Ascii String.
From Coq Require Import List Arith Bool Lia.
From Verif Require Import Base BookModel RunModel CacheModel EmbedModel BuildModel EmbedSpec BuildSpec BuildProofs RunSpec RunProofs.
From Verif Require BookSpec CacheSpec CacheProofs PropBook PropCache PropEmbed PropRun.
Import ListNotations.

(** ** C108: what a page of the book shows is what the tool said *)

Section Book.
  Context (c : codec str) (hash : list nat -> nat) (read : str -> option json) (write : json -> str) (parse : str -> option json).
  Hypothesis HC : CacheSpec.Faithful c.
  Hypothesis HW : Faithful write parse.

  (** Whatever was built before, however those builds ended and in whatever order the workers
      ran: the element of a finished block shows this block, with an answer that the tool gave
      in this or an earlier build to a block with the same operations, options and code. *)
  Theorem C108_provenance b0 pre bd j b v :
    Fresh c b0 -> NoCollision hash (pre ++ [bd]) -> Sound (pre ++ [bd]) -> AllReadable read (pre ++ [bd]) ->
    let st := built c hash (left_by c hash b0 pre) bd in
    nth_error (blocks_of bd) j = Some b -> code b <> [] -> nth_error (p_jobs st) j = Some (Done v) ->
    exists bd' b' m attrs e, In bd' (pre ++ [bd]) /\ Alike b b' /\ Gave bd' b' m /\
      element read write bd st j = Some attrs /\ init_embed parse attrs = Some e /\ Shows b m e.
  Proof.
    intros F NC So Re st N C D. subst st. destruct (done_known c hash HC b0 pre bd j b v F NC N D) as (bd' & j' & b' & m & I & N' & R & V & A).
    assert (Di : Distinct (JObj m)) by (apply (run_distinct (around bd' j') b' m); [intros s w; apply (So bd' j' s w I)|auto]).
    destruct (element_shown read write parse bd _ j b v (text bd' j') m HW (Re bd' j' b' m I N' R) Di N D V C) as (attrs & e & E1 & E2 & E3).
    { intros op Io. apply (run_answers (around bd' j') b' m op R). destruct A as (<- & _). auto. }
    exists bd', b', m, attrs, e. do 2 (split; [auto|]). split; [exists j'; auto|]. auto.
  Qed.

  (** If the tool always says the same about the same block, it is what it says about it now. *)
  Theorem C108_current b0 pre bd j b v m :
    Fresh c b0 -> NoCollision hash (pre ++ [bd]) -> Sound (pre ++ [bd]) -> AllReadable read (pre ++ [bd]) -> Steady (pre ++ [bd]) ->
    let st := built c hash (left_by c hash b0 pre) bd in
    nth_error (blocks_of bd) j = Some b -> code b <> [] -> nth_error (p_jobs st) j = Some (Done v) ->
    run_aquascope (around bd j) b = inr m ->
    exists attrs e, element read write bd st j = Some attrs /\ init_embed parse attrs = Some e /\ Shows b m e.
  Proof.
    intros F NC So Re Sy st N C D R. destruct (C108_provenance b0 pre bd j b v F NC So Re N C D) as (bd' & b' & m' & attrs & e & I & A & G & E1 & E2 & E3).
    assert (m = m') as -> by (apply (Sy bd bd' b b'); auto; [apply in_or_app; cbn; auto|exists j; auto]). eauto.
  Qed.

  Lemma collect_nth {T} (l : list (option T)) : forall r, collect l = Some r -> l = map Some r.
  Proof.
    induction l as [|[x|] l IH]; intros r E; cbn [collect] in E.
    - injection E as <-. reflexivity.
    - destruct (collect l) as [xs|]; [|discriminate E]. injection E as <-. cbn [map]. f_equal. auto.
    - discriminate E.
  Qed.
  Lemma collect_none {T} (l : list (option T)) : collect l = None -> In None l.
  Proof.
    induction l as [|[x|] l IH]; intros E; cbn [collect] in E; [discriminate E| |cbn; auto].
    destruct (collect l) as [xs|]; [discriminate E|]. cbn. auto.
  Qed.

  Lemma chapter_job chapters k content n b : nth_error chapters k = Some content -> nth_error (chapter_blocks content) n = Some b ->
    nth_error (flat_map chapter_blocks chapters) (List.length (flat_map chapter_blocks (firstn k chapters)) + n) = Some b.
  Proof.
    revert k. induction chapters as [|x l IH]; intros [|k] E N; try discriminate E; cbn [nth_error firstn flat_map List.length Nat.add] in *.
    - injection E as ->. rewrite nth_error_app1; auto. apply nth_error_Some. congruence.
    - rewrite app_length, nth_error_app2 by lia. rewrite <- (IH k E N). f_equal. lia.
  Qed.

  Lemma macros_no_element (l : list ((nat * nat) * html)) ms p :
    map (fun '(r, o) => match o with Html h => Some (r, Macro h) | _ => None end) p = map Some ms ->
    map fst ms = map (@fst (nat * nat) outcome) p /\ elements ms = [].
  Proof.
    revert ms. induction p as [|[r o] p IH]; intros [|x ms] E; cbn [map] in E; try discriminate E; [auto|].
    injection E as E1 E2. destruct (IH ms E2) as [A B]. destruct o; try discriminate E1. injection E1 as <-.
    cbn [map fst elements flat_map]. split; [congruence|exact B].
  Qed.

  Lemma elements_combine (rs : list (nat * nat)) (es : list (list (str * str))) : List.length rs = List.length es ->
    elements (combine rs (map Element es)) = es /\ map fst (combine rs (map Element es)) = rs.
  Proof.
    revert es. induction rs as [|r rs IH]; intros [|e es] L; try discriminate L; [auto|].
    injection L as L. destruct (IH es L) as [A B]. cbn [map combine elements flat_map fst app]. split; [f_equal; exact A|f_equal; exact B].
  Qed.

  Lemma elements_app l l' : elements (l ++ l') = elements l ++ elements l'.
  Proof. apply flat_map_app. Qed.

  Lemma replacements_spec bd st k l : replacements read write bd st k = Some l ->
    exists content es, nth_error (chapters bd) k = Some content /\ map fst l = replaced content /\ elements l = es /\
      map (element read write bd st) (seq (List.length (flat_map chapter_blocks (firstn k (chapters bd)))) (List.length (parse_all content))) = map Some es.
  Proof.
    unfold replacements. destruct (nth_error (chapters bd) k) as [content|]; [|discriminate].
    destruct (collect (map (element read write bd st) _)) as [es|] eqn:E; [|discriminate].
    destruct (collect (map _ (parse_perms content))) as [ms|] eqn:M; [|discriminate]. intros [= <-].
    apply collect_nth in E, M. destruct (macros_no_element [] ms _ M) as [M1 M2].
    assert (L : List.length (map fst (parse_all content)) = List.length es).
    { apply (f_equal (@List.length _)) in E. rewrite !map_length, seq_length in E. rewrite map_length. auto. }
    destruct (elements_combine _ _ L) as [A B].
    exists content, es. split; [auto|]. rewrite map_app, elements_app, A, B, M1, M2, app_nil_r. auto.
  Qed.

  Lemma element_done bd st j attrs : element read write bd st j = Some attrs ->
    exists b v, nth_error (blocks_of bd) j = Some b /\ nth_error (p_jobs st) j = Some (Done v).
  Proof.
    unfold element. destruct (nth_error (blocks_of bd) j) as [b|]; [|discriminate].
    destruct (nth_error (p_jobs st) j) as [[| |v|v|]|]; try discriminate. eauto.
  Qed.

  (** A chapter for which the build has a result: the ranges of its blocks and macros are
      replaced, and the page shows its blocks in order. *)
  Theorem C108_page b0 pre bd k content l :
    Fresh c b0 -> NoCollision hash (pre ++ [bd]) -> Sound (pre ++ [bd]) -> AllReadable read (pre ++ [bd]) ->
    nth_error (chapters bd) k = Some content -> (forall r b, In (r, b) (parse_all content) -> code b <> []) ->
    replacements read write bd (built c hash (left_by c hash b0 pre) bd) k = Some l ->
    map fst l = map fst (parse_all content) ++ map fst (parse_perms content) /\
    exists es, init_blocks parse (elements l) = (es, false) /\
      Forall2 (fun b e => exists bd' b' m, In bd' (pre ++ [bd]) /\ Alike b b' /\ Gave bd' b' m /\ Shows b m e) (map snd (parse_all content)) es.
  Proof.
    intros F NC So Re Ek Co H. destruct (replacements_spec _ _ _ _ H) as (content' & es & Ek' & Ra & El & Es).
    rewrite Ek in Ek'. injection Ek' as <-. split; [exact Ra|]. rewrite El. clear H Ra El l.
    set (first := List.length (flat_map chapter_blocks (firstn k (chapters bd)))) in *.
    assert (X : forall n b, nth_error (chapter_blocks content) n = Some b -> nth_error (blocks_of bd) (first + n) = Some b)
      by (intros n b N; apply (chapter_job (chapters bd) k content n b Ek N)).
    assert (Co' : forall b, In b (chapter_blocks content) -> code b <> []).
    { intros b I. unfold chapter_blocks in I. apply in_map_iff in I as ([r b'] & <- & I). eapply Co; eauto. }
    change (map snd (parse_all content)) with (chapter_blocks content).
    replace (List.length (parse_all content)) with (List.length (chapter_blocks content)) in Es by (unfold chapter_blocks; apply map_length).
    clearbody first. clear Ek Co. revert first es X Es. induction (chapter_blocks content) as [|b bs IH]; intros first es X Es; cbn [List.length seq map] in Es.
    - destruct es; [|discriminate Es]. exists []. cbn. auto.
    - destruct es as [|attrs es]; [discriminate Es|]. cbn [map] in Es. injection Es as E Es.
      pose proof (X 0 b eq_refl) as N. rewrite Nat.add_0_r in N.
      destruct (element_done _ _ _ _ E) as (b1 & v & N1 & D). 
      destruct (C108_provenance b0 pre bd first b v F NC So Re N (Co' b (or_introl eq_refl)) D) as (bd' & b' & m & attrs' & e & I & A & G & E1 & E2 & E3).
      rewrite E in E1. injection E1 as <-.
      destruct (IH (fun x I => Co' x (or_intror I)) (S first) es) as (es' & B & Fa).
      + intros n x Nx. rewrite Nat.add_succ_l, <- Nat.add_succ_r. apply X. exact Nx.
      + exact Es.
      + exists (e :: es'). cbn [init_blocks]. rewrite E2, B. split; [auto|]. constructor; [|auto]. exists bd', b', m. auto.
  Qed.

  (** Two builds of a chapter, with different histories, caches, schedules and books around it,
      show the same. *)
  Theorem C108_same b0 pre bd k l b0' pre' bd' k' l' content es es' :
    let h := (pre ++ [bd]) ++ (pre' ++ [bd']) in
    Fresh c b0 -> Fresh c b0' -> NoCollision hash h -> Sound h -> AllReadable read h -> Steady h ->
    nth_error (chapters bd) k = Some content -> nth_error (chapters bd') k' = Some content ->
    (forall r b, In (r, b) (parse_all content) -> code b <> []) ->
    replacements read write bd (built c hash (left_by c hash b0 pre) bd) k = Some l ->
    replacements read write bd' (built c hash (left_by c hash b0' pre') bd') k' = Some l' ->
    fst (init_blocks parse (elements l)) = es -> fst (init_blocks parse (elements l')) = es' ->
    map fst l = map fst l' /\
    exists ms, Forall2 (fun b m => exists bd0 b1, In bd0 h /\ Alike b b1 /\ Gave bd0 b1 m) (map snd (parse_all content)) ms /\
      Forall2 (fun bm e => Shows (fst bm) (snd bm) e) (combine (map snd (parse_all content)) ms) es /\
      Forall2 (fun bm e => Shows (fst bm) (snd bm) e) (combine (map snd (parse_all content)) ms) es'.
  Proof.
    intros h F F' NC So Re Sy Ek Ek' Co H H' Es Es'.
    assert (I1 : forall x, In x (pre ++ [bd]) -> In x h) by (intros x I; apply in_or_app; auto).
    assert (I2 : forall x, In x (pre' ++ [bd']) -> In x h) by (intros x I; apply in_or_app; auto).
    destruct (C108_page b0 pre bd k content l F) as (R1 & es1 & B1 & F1); auto.
    { intros x y b b' Ix Iy. apply NC; auto. } { intros x j s v Ix. apply (So x); auto. } { intros x j b m Ix. apply (Re x); auto. }
    destruct (C108_page b0' pre' bd' k' content l' F') as (R2 & es2 & B2 & F2); auto.
    { intros x y b b' Ix Iy. apply NC; auto. } { intros x j s v Ix. apply (So x); auto. } { intros x j b m Ix. apply (Re x); auto. }
    rewrite B1 in Es. rewrite B2 in Es'. cbn [fst] in Es, Es'. subst es1 es2. split; [congruence|]. clear R1 R2 B1 B2 H H' Co Ek Ek'.
    revert es es' F1 F2. induction (map snd (parse_all content)) as [|b bs IH]; intros es es' F1 F2; inversion F1; subst; inversion F2; subst.
    - exists []. cbn. auto.
    - destruct (IH _ _ H3 H5) as (ms & A & B & D). clear IH H3 H5.
      destruct H1 as (x & b1 & m & Ix & Al & G & Sh). destruct H2 as (x' & b2 & m' & Ix' & Al' & G' & Sh').
      assert (m = m') as <-.
      { apply (Sy x x' b1 b2); auto. destruct Al as (? & ? & ?), Al' as (? & ? & ?). repeat split; congruence. }
      exists (m :: ms). cbn [combine]. split; [|split]; constructor; auto. exists x, b1. auto.
  Qed.

  (** A chapter has a result unless a block of it is unfinished, the analysis of a block of it
      failed in this build, or a macro of it is wrong. *)
  Theorem C108_written b0 pre bd k content :
    Fresh c b0 -> NoCollision hash (pre ++ [bd]) -> Sound (pre ++ [bd]) -> AllReadable read (pre ++ [bd]) ->
    let st := built c hash (left_by c hash b0 pre) bd in
    nth_error (chapters bd) k = Some content -> replacements read write bd st k = None ->
    (exists r o, In (r, o) (parse_perms content) /\ forall h, o <> Html h) \/
    exists n j b s, nth_error (map snd (parse_all content)) n = Some b /\ nth_error (blocks_of bd) j = Some b /\ nth_error (p_jobs st) j = Some s /\
      (CacheSpec.result s = None \/ exists er, s = Failed /\ run_aquascope (around bd j) b = inl er).
  Proof.
    intros F NC So Re st Ek. unfold replacements. rewrite Ek.
    destruct (collect (map (element read write bd st) _)) as [es|] eqn:E.
    - destruct (collect (map _ (parse_perms content))) as [ms|] eqn:M; [discriminate|]. intros _. left.
      apply collect_none in M. apply in_map_iff in M as ([r o] & Q & I). exists r, o. split; [auto|]. intros h ->. discriminate Q.
    - intros _. right. apply collect_none in E. apply in_map_iff in E as (j & Q & I). apply in_seq in I.
      set (first := List.length (flat_map chapter_blocks (firstn k (chapters bd)))) in *.
      destruct (nth_error (chapter_blocks content) (j - first)) as [b|] eqn:N.
      2:{ exfalso. apply nth_error_None in N. unfold chapter_blocks in N. rewrite map_length in N. lia. }
      pose proof (chapter_job (chapters bd) k content _ b Ek N) as Nj. fold first in Nj.
      replace (first + (j - first)) with j in Nj by lia. fold (blocks_of bd) in Nj.
      pose proof (CacheProofs.pinv_process (job_key hash bd) (job_outcome bd) (entries (load c (left_by c hash b0 pre))) (List.length (blocks_of bd)) (schedule bd)) as (L & _ & _ & J & _).
      fold (built c hash (left_by c hash b0 pre) bd) in L, J. fold st in L, J.
      destruct (nth_error (p_jobs st) j) as [s|] eqn:Js.
      2:{ exfalso. apply nth_error_None in Js. assert (j < List.length (blocks_of bd)) by (apply nth_error_Some; congruence). lia. }
      exists (j - first), j, b, s. split; [exact N|]. split; [exact Nj|]. split; [auto|].
      destruct s as [| |v|v|]; try (left; reflexivity).
      + exfalso. destruct (done_known c hash HC b0 pre bd j b v F NC Nj Js) as (bd' & j' & b' & m & Ib & N' & R & V & A).
        assert (Di : Distinct (JObj m)) by (apply (run_distinct (around bd' j') b' m); [intros s w; apply (So bd' j' s w Ib)|auto]).
        destruct (Re bd' j' b' m Ib N' R Di) as (W & rs & Rd & _). unfold element in Q. rewrite Nj, Js, V, (trim_end_id _ W), Rd in Q. discriminate Q.
      + right. pose proof (J j Failed Js) as [_ O]. unfold job_outcome in O. rewrite Nj in O.
        destruct (run_aquascope (around bd j) b) as [er|m]; [|discriminate O]. exists er. auto.
  Qed.

  (** What was finished in a build whose cache was saved is not analysed in the next one: for
      any schedule the block with the same hash is waiting or has this text. *)
  Theorem C108_not_again bytes bd bd' j j' b b' v s :
    ends bd = Saved -> nth_error (blocks_of bd) j = Some b -> nth_error (blocks_of bd') j' = Some b' -> Alike b b' ->
    nth_error (p_jobs (built c hash bytes bd)) j = Some (Done v) ->
    nth_error (p_jobs (built c hash (left_file c hash bytes bd) bd')) j' = Some s ->
    s = Waiting \/ exists w, s = Done w /\ aget Nat.eq_dec (p_cache (built c hash bytes bd)) (hash (hash_stream b)) = Some w.
  Proof.
    intros E N N' (A1 & A2 & A3) D D'.
    pose proof (CacheProofs.pinv_process (job_key hash bd) (job_outcome bd) (entries (load c bytes)) (List.length (blocks_of bd)) (schedule bd)) as (_ & _ & _ & _ & G).
    fold (built c hash bytes bd) in G. specialize (G j v D). cbn beta in G.
    pose proof (left_saved c hash HC bytes bd E) as V.
    pose proof (CacheProofs.pinv_process (job_key hash bd') (job_outcome bd') (entries (load c (left_file c hash bytes bd))) (List.length (blocks_of bd')) (schedule bd')) as (_ & _ & _ & J & _).
    specialize (J j' s D'). unfold CacheProofs.view in V. rewrite V in J.
    assert (K : job_key hash bd' j' = hash (hash_stream b)).
    { unfold job_key. rewrite N'. unfold hash_stream. rewrite A1, A2, A3. reflexivity. }
    assert (K0 : job_key hash bd j = hash (hash_stream b)) by (unfold job_key; rewrite N; reflexivity).
    rewrite K0 in G. unfold CacheProofs.Job in J. rewrite K in J.
    destruct (aget Nat.eq_dec (p_cache (built c hash bytes bd)) (hash (hash_stream b))) as [w|]; [|elim G; reflexivity].
    destruct s as [| |x|x|]; auto.
    - discriminate J.
    - destruct J as [J _]. discriminate J.
    - destruct J as [J|[J _]]; [|discriminate J]. right. exists x. split; [auto|congruence].
    - destruct J as [J _]. discriminate J.
  Qed.

  (** Refuted: nothing is analysed again.  After a build that did not get to saving the next
      one does what it would have done without it; what was not in the file is analysed again
      although it was finished. *)
  Theorem C108_lost_refuted bytes bd bd' : ends bd = NotSaved ->
    built c hash (left_file c hash bytes bd) bd' = built c hash bytes bd' /\
    forall j b, schedule bd' = [j] -> nth_error (blocks_of bd') j = Some b -> Fresh c bytes ->
      nth_error (p_jobs (built c hash (left_file c hash bytes bd) bd')) j = Some Missed.
  Proof.
    intros E. rewrite (left_not_saved c hash bytes bd E). split; [reflexivity|]. intros j b S N F.
    assert (L : j < List.length (blocks_of bd')) by (apply nth_error_Some; congruence).
    assert (V : entries (load c bytes) = []).
    { unfold load. cbn [entries]. destruct F as [->|F]; [reflexivity|]. rewrite F. destruct (List.length bytes =? 0); reflexivity. }
    unfold built, CacheModel.process. rewrite S, V. cbn [fold_left]. unfold work. cbn [p_jobs p_cache].
    assert (W : nth_error (repeat (@Waiting str) (List.length (blocks_of bd'))) j = Some Waiting).
    { destruct (nth_error (repeat (@Waiting str) (List.length (blocks_of bd'))) j) as [w|] eqn:Q.
      - apply nth_error_In, repeat_spec in Q. congruence.
      - apply nth_error_None in Q. rewrite repeat_length in Q. lia. }
    rewrite W. cbn [aget p_jobs]. apply CacheProofs.set_nth_same. rewrite repeat_length. auto.
  Qed.
End Book.


(** The tool is steady if it is always the same. *)
Lemma run_alike e b b' : Alike b b' -> run_aquascope e b = run_aquascope e b'.
Proof.
  intros (O & P & _). unfold run_aquascope. rewrite O. destruct (temp_ok e); [|auto]. destruct (cargo_new e) as [[|]|]; auto.
  destruct (write_ok e); [|auto]. cbn [negb]. clear O. generalize 0 (@nil (str * json)).
  induction (operations b') as [|op l IH]; intros i acc; [reflexivity|]. cbn [run_ops].
  assert (R : run_op e b i op = run_op e b' i op) by (unfold run_op, run_args, has_option; rewrite P; reflexivity).
  rewrite R. destruct (run_op e b' i op); auto.
Qed.
Lemma steady_same e h : (forall bd j b m, In bd h -> run_aquascope (around bd j) b = inr m -> around bd j = e) -> Steady h.
Proof.
  intros H bd bd' b b' m m' I I' A (j & _ & R) (j' & _ & R'). pose proof (H _ _ _ _ I R) as E. pose proof (H _ _ _ _ I' R') as E'.
  rewrite E in R. rewrite E' in R'. rewrite (run_alike e b b' A) in R. congruence.
Qed.

(** ** A history of builds *)
Module BuildDemo.
  (** A way to write the cache file. *)
  Fixpoint denc (m : list (nat * str)) : list nat := match m with [] => [0] | (k, v) :: r => 1 :: k :: List.length v :: v ++ denc r end.
  Fixpoint ddec (f : nat) (l : list nat) : option (list (nat * str)) :=
    match f with
    | 0 => None
    | S f =>
      match l with
      | [0] => Some []
      | 1 :: k :: n :: r => if n <=? List.length r then option_map (cons (k, firstn n r)) (ddec f (skipn n r)) else None
      | _ => None
      end
    end.
  Definition codec0 : codec str := Codec denc (fun l => ddec (List.length l) l).

  Lemma back m : forall f, List.length (denc m) <= f -> ddec f (denc m) = Some m.
  Proof.
    induction m as [|[k v] m IH]; intros [|f] L; cbn [denc List.length] in L; try lia; cbn [denc ddec]; [reflexivity|].
    rewrite app_length in L. assert (A : (List.length v <=? List.length (v ++ denc m)) = true) by (apply Nat.leb_le; rewrite app_length; lia). rewrite A.
    rewrite firstn_app, firstn_all, Nat.sub_diag, skipn_app, skipn_all, Nat.sub_diag. cbn [firstn skipn app]. rewrite app_nil_r, IH by lia. reflexivity.
  Qed.
  Lemma cut m : forall f p q, denc m = p ++ q -> q <> [] -> ddec f p = None.
  Proof.
    induction m as [|[k v] m IH]; intros [|f] p q E Q; try reflexivity; cbn [denc] in E.
    - destruct p as [|a p]; [reflexivity|]. cbn in E. injection E as <- E. destruct p, q; try discriminate E. elim Q; reflexivity.
    - destruct p as [|a [|b [|d p]]]; cbn [app] in E.
      + reflexivity.
      + injection E as <- _. reflexivity.
      + injection E as <- <- _. reflexivity.
      + injection E as <- <- <- E. cbn [ddec]. destruct (List.length v <=? List.length p) eqn:L; [|reflexivity].
        apply Nat.leb_le in L.
        assert (X : skipn (List.length v) (v ++ denc m) = skipn (List.length v) (p ++ q)) by congruence.
        rewrite skipn_app, skipn_all, Nat.sub_diag in X. cbn [app skipn] in X. rewrite skipn_app in X.
        replace (List.length v - List.length p) with 0 in X by lia. cbn [skipn] in X. rewrite (IH f _ q X Q). reflexivity.
  Qed.
  Lemma faithful : CacheSpec.Faithful codec0.
  Proof.
    constructor; cbn [codec0 enc dec].
    - intros m. apply back. auto.
    - intros [|[k v] m]; discriminate.
    - intros m p q E _ Q. eapply cut; eauto.
  Qed.

  (** A way to write the responses. *)
  Definition text0 (m : list (str * json)) : str := PropEmbed.Codec.write (JObj m) ++ [125].
  Definition read0 (s : str) : option json := match List.rev s with 125 :: r => PropEmbed.Codec.parse_with (fun n => n) (List.rev r) | _ => None end.
  Lemma rounded_id f : forall j, List.length (PropEmbed.Codec.write j) <= f -> PropEmbed.Codec.rounded (fun n => n) j = j.
  Proof.
    induction f as [|f IH]; intros j L.
    - destruct j; cbn [PropEmbed.Codec.write List.length PropEmbed.Codec.wstr] in L; lia.
    - destruct j as [|b|n|n|b m e|s|l|l]; cbn [PropEmbed.Codec.rounded]; try reflexivity.
      + f_equal. rewrite <- (map_id l) at 2. apply map_ext_in. intros x I. apply IH.
        pose proof (PropEmbed.Codec.flat_length PropEmbed.Codec.write l x I). cbn [PropEmbed.Codec.write List.length] in L. lia.
      + f_equal. rewrite <- (map_id l) at 2. apply map_ext_in. intros [k x] I. cbn [fst snd]. rewrite IH; [reflexivity|].
        pose proof (PropEmbed.Codec.flat_length (fun p => List.app (PropEmbed.Codec.wstr (fst p)) (PropEmbed.Codec.write (snd p))) l (k, x) I) as K.
        cbn [PropEmbed.Codec.write List.length fst snd] in *. rewrite app_length in K. cbn [PropEmbed.Codec.wstr List.length] in K. lia.
  Qed.
  Lemma readable m : Readable read0 text0 m.
  Proof.
    intros D. split.
    - intros s w E. unfold text0 in E. apply app_inj_tail in E as [_ <-]. intros W. apply PropBook.white_iff in W. discriminate W.
    - exists m. split; [|auto]. unfold read0, text0. rewrite rev_app_distr. cbn [List.rev List.app]. rewrite rev_involutive.
      rewrite PropEmbed.Codec.parse_with_ok, (rounded_id _ _ (le_n _)). reflexivity.
  Qed.

  Definition nl : str := [10].
  Definition chapter (l : list string) : str := List.app (flat_map (fun s => List.app (lit s) nl) l) nl.
  Definition one : str := chapter ["# One @Perm{read}"; "```aquascope,interpreter+permissions"; "fn main() {`(focus,paths:x)`"; "}`[]`"; "```"]%string.
  Definition one' : str := chapter ["# Also one"; "```aquascope,interpreter+permissions"; "fn main() {"; "}"; "```"]%string.
  Definition two : str := chapter ["# Two"; "```aquascope,interpreter"; "fn main() { f(); }"; "```"; "@Perm[gained]{own}"]%string.
  Definition p := PropRun.Demo.prog true [inl (JNum 1)] (Some (inl (JNum 2))).
  Definition good : env := PropRun.Demo.world p.
  (** No temporary directory can be made. *)
  Definition bad : env := Env false (Some true) true (fun _ _ => NoSpawn) 100 Some (fun _ => None).
  Definition first := Build [one] (fun _ => good) (fun _ => text0) [0; 0; 0] (Killed 7).
  Definition second := Build [one; two] (fun _ => good) (fun _ => text0) [1; 0; 1; 0; 1; 0; 0] Saved.
  Definition third := Build [two; one'] (fun _ => bad) (fun _ => text0) [1; 0] NotSaved.
  Definition hash (s : list nat) : nat := List.length s.
  Definition history : list build := [first; second; third].
End BuildDemo.

(** A build that is killed while saving, one that is saved, and one in which the tool does not
    work and everything comes from the cache: all hypotheses hold, and the third has both
    chapters. *)
Example C108_witness :
  let bytes := left_by BuildDemo.codec0 BuildDemo.hash [] [BuildDemo.first; BuildDemo.second] in
  let st := built BuildDemo.codec0 BuildDemo.hash bytes BuildDemo.third in
  Fresh BuildDemo.codec0 [] /\ NoCollision BuildDemo.hash BuildDemo.history /\ Sound BuildDemo.history /\
  AllReadable BuildDemo.read0 BuildDemo.history /\ Steady BuildDemo.history /\
  map (fun b => List.length (operations b)) (blocks_of BuildDemo.third) = [1; 2] /\
  Forall (fun b => code b <> []) (blocks_of BuildDemo.third) /\
  left_by BuildDemo.codec0 BuildDemo.hash [] [BuildDemo.first] <> [] /\
  entries (load BuildDemo.codec0 (left_by BuildDemo.codec0 BuildDemo.hash [] [BuildDemo.first])) = [] /\
  map (fun s => match s with Done _ => true | _ => false end) (p_jobs st) = [true; true] /\
  (exists l, replacements BuildDemo.read0 PropEmbed.Codec.write BuildDemo.third st 0 = Some l /\ List.length l = 2 /\ List.length (elements l) = 1) /\
  (exists l, replacements BuildDemo.read0 PropEmbed.Codec.write BuildDemo.third st 1 = Some l /\
     map m_rendered (fst (init_blocks PropEmbed.Codec.parse (elements l))) =
       [[(lit "interpreter", Some (JObj [(lit "Ok", JNum 2)])); (lit "permissions", Some (JArr [JObj [(lit "Ok", JNum 1)]]))]]).
Proof.
  cbv zeta. split; [left; reflexivity|]. split.
  { assert (X : forall bd b, In bd BuildDemo.history -> In b (blocks_of bd) ->
      In b (blocks_of BuildDemo.second ++ blocks_of BuildDemo.third)).
    { intros bd b I J. apply in_or_app. cbn [In BuildDemo.history] in I. destruct I as [<-|[<-|[<-|[]]]]; [left|left; exact J|right; exact J].
      assert (E : blocks_of BuildDemo.second = blocks_of BuildDemo.first ++ chapter_blocks BuildDemo.two) by (vm_compute; reflexivity).
      rewrite E. apply in_or_app. left. exact J. }
    intros bd bd' b b' I I' J J' H. apply X in J; auto. apply X in J'; auto. clear X I I'. revert b b' J J' H.
    remember (blocks_of BuildDemo.second ++ blocks_of BuildDemo.third) as l eqn:E. vm_compute in E. subst l. intros b b' J J' H. cbn [In] in J, J'.
    repeat (destruct J as [<-|J]; [repeat (destruct J' as [<-|J']; [vm_compute in H; first [discriminate H|repeat split]|]); destruct J'|]). destruct J. }
  split.
  { intros bd j s v I. cbn [In BuildDemo.history] in I. destruct I as [<-|[<-|[<-|[]]]]; cbn [around BuildDemo.first BuildDemo.second BuildDemo.third].
    1,2: cbn [from_json BuildDemo.good PropRun.Demo.world]; unfold PropRun.Demo.read; intros H.
    1,2: assert (Q : v = JArr [JObj [(lit "Ok", JNum 1)]] \/ v = JObj [(lit "Ok", JNum 2)])
           by (destruct s as [|[|[|n]] [|m r]]; vm_compute in H; injection H as <-; vm_compute; auto).
    1,2: destruct Q as [-> | ->]; repeat constructor; cbn; tauto.
    discriminate. }
  split.
  { intros bd j b m I _ _. cbn [In BuildDemo.history] in I. destruct I as [<-|[<-|[<-|[]]]]; apply BuildDemo.readable. }
  split.
  { apply (steady_same BuildDemo.good). intros bd j b m I. cbn [In BuildDemo.history] in I. destruct I as [<-|[<-|[<-|[]]]]; intros R; [reflexivity|reflexivity|discriminate R]. }
  split; [vm_compute; reflexivity|]. split; [vm_compute; repeat constructor; discriminate|].
  split; [vm_compute; discriminate|]. split; [vm_compute; reflexivity|]. split; [vm_compute; reflexivity|].
  split; eexists; (split; [vm_compute; reflexivity|]); vm_compute; repeat split.
Qed.

(** The second build finished the block of [one]; had it not saved, it would be analysed again. *)
Example C108_lost_witness :
  let lost := Build (chapters BuildDemo.second) (around BuildDemo.second) (text BuildDemo.second) (schedule BuildDemo.second) NotSaved in
  let again := Build [BuildDemo.one] (fun _ => BuildDemo.good) (fun _ => BuildDemo.text0) [0] Saved in
  map (fun s => match s with Done _ => true | _ => false end) (p_jobs (built BuildDemo.codec0 BuildDemo.hash [] lost)) = [true; true] /\
  p_jobs (built BuildDemo.codec0 BuildDemo.hash (left_file BuildDemo.codec0 BuildDemo.hash [] lost) again) = [Missed] /\
  map (fun s => match s with Done _ => true | _ => false end)
    (p_jobs (built BuildDemo.codec0 BuildDemo.hash (left_file BuildDemo.codec0 BuildDemo.hash [] BuildDemo.second) again)) = [true].
Proof. vm_compute. repeat split. Qed.

Print Assumptions C108_provenance.
Print Assumptions C108_current.
Print Assumptions C108_page.
Print Assumptions C108_same.
Print Assumptions C108_written.
Print Assumptions C108_not_again.
Print Assumptions C108_lost_refuted.
