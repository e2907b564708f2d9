(** * Theorems: the trace goes to the page in JSON *)
From Coq Require Import Ascii String.
From Coq Require Import List Arith ZArith Bool Lia.
From Verif Require Import Base ValuesModel ReaderModel BookModel RunModel NumbersModel NumbersSpec NumbersProofs EmbedSpec LookModel WireModel WireSpec WireProofs.
From Verif Require JsonSpec JsonModel JsonProofs PropJson.
Import ListNotations.
Local Open Scope string_scope.
Local Open Scope list_scope.

(** ** C112 *)

(** What the tool writes has the form that the page's types declare. *)
Theorem C112_form short real t : Prints short real -> RealTrace t -> TraceC real (jtrace short t) t.
Proof. intros P. apply trace_conforms, P. Qed.
(** A value of this form stands for one trace. *)
Theorem C112_one_meaning real j t t' : TraceC real j t -> TraceC real j t' -> AlikeTrace eq t t'.
Proof. apply trace_fun. Qed.
(** So traces that differ are written differently. *)
Theorem C112_injective short real t t' : Prints short real -> RealTrace t -> RealTrace t' ->
  JsonModel.to_string (answer short t) = JsonModel.to_string (answer short t') -> AlikeTrace eq t t'.
Proof.
  intros P R R' E. apply PropJson.C111_injective in E. injection E as E E'. apply (C112_one_meaning real (jtrace short t)); [apply C112_form; auto|].
  unfold jtrace. rewrite E, E'. apply C112_form; auto.
Qed.

(** The page reads the trace, but for the numbers that are no doubles. *)
Lemma read_trace short real t j : Prints short real -> RealTrace t -> EmbedSpec.Reads (answer short t) j ->
  exists x t', Member "Ok" j x /\ TraceC real x t' /\ AlikeTrace Nearest t t'.
Proof.
  intros P R Rd. destruct (member_reads "Ok" (answer short t) (jtrace short t) j) as (x & M & Rx); [apply member_at; reflexivity|exact Rd|].
  destruct (trace_reads real t _ _ R (trace_conforms short real P t R) Rx) as (t' & C & A). exists x, t'. auto.
Qed.
Lemma page_reads short real t j : Prints short real -> RealTrace t -> JsonModel.js_parse (JsonModel.to_string (answer short t)) = Some j ->
  exists x t', Member "Ok" j x /\ TraceC real x t' /\ AlikeTrace Nearest t t'.
Proof.
  intros P R J. destruct (good_answer short t) as [D _]. destruct (PropJson.C111_page _ D) as (_ & j' & J' & Rd). rewrite J in J'. injection J' as <-.
  exact (read_trace short real t j P R Rd).
Qed.
Theorem C112_page short real t : Prints short real -> RealTrace t -> exists j x t',
  JsonModel.js_parse (JsonModel.to_string (answer short t)) = Some j /\ Member "Ok" j x /\ TraceC real x t' /\ AlikeTrace Nearest t t'.
Proof.
  intros P R. destruct (good_answer short t) as [D _]. destruct (PropJson.C111_page _ D) as (_ & j & J & _). exists j.
  destruct (page_reads short real t j P R J) as (x & t' & H). exists x, t'. tauto.
Qed.

Lemma forall2_nth {A B} (R : A -> B -> Prop) l m : Forall2 R l m -> forall i a b, nth_error l i = Some a -> nth_error m i = Some b -> R a b.
Proof. induction 1 as [|x y l m Rxy F IH]; intros [|i] a b; cbn; try discriminate; [congruence|apply IH]. Qed.
Lemma forall2_len {A B} (R : A -> B -> Prop) l m : Forall2 R l m -> length l = length m.
Proof. induction 1; cbn; congruence. Qed.
(** And it draws what it would draw of the trace itself, at every step. *)
Theorem C112_drawn short real t j x t' : Prints short real -> RealTrace t ->
  JsonModel.js_parse (JsonModel.to_string (answer short t)) = Some j -> Member "Ok" j x -> TraceC real x t' ->
  length (w_steps t') = length (w_steps t) /\
  forall i s s' n ft c, nth_error (w_steps t) i = Some s -> nth_error (w_steps t') i = Some s' ->
    look_state n ft c (error_at t' i) (snap s') = look_state n ft c (error_at t i) (snap s).
Proof.
  intros P R J M C. destruct (page_reads short real t j P R J) as (x' & t2 & M' & C' & F & Er). pose proof (member_fun _ _ _ _ M M') as <-.
  destruct (C112_one_meaning real x t' t2 C C') as [F' Er'].
  assert (L : length (w_steps t') = length (w_steps t)) by (rewrite (forall2_len _ _ _ F), (forall2_len _ _ _ F'); reflexivity).
  split; [exact L|]. intros i s s' n ft c Hs Hs'. assert (E : error_at t' i = error_at t i) by (unfold error_at; rewrite Er', <- Er, L; reflexivity). rewrite E.
  assert (exists s2, nth_error (w_steps t2) i = Some s2) as [s2 Hs2].
  { destruct (nth_error (w_steps t2) i) eqn:G; [eauto|]. apply nth_error_None in G. rewrite <- (forall2_len _ _ _ F) in G. apply nth_error_None in G. congruence. }
  rewrite (state_alike eq (fun z z' (e : z = z') => f_equal js_number e) n ft c (error_at t i) s' s2 (forall2_nth _ _ _ F' _ _ _ Hs' Hs2)).
  symmetry. apply (state_alike Nearest nearest_look). exact (forall2_nth _ _ _ F _ _ _ Hs Hs2).
Qed.

(** The error is drawn at the last step and nowhere else. *)
Theorem C112_error t i a : error_at t i = Some a <-> w_result t = WUseAfterFree a /\ S i = length (w_steps t).
Proof.
  unfold error_at. destruct (w_result t) as [|b|m]; try (split; [discriminate|intros [E _]; discriminate E]).
  destruct (Nat.eqb_spec (S i) (length (w_steps t))) as [E|N].
  - split; [intros [= ->]; auto|intros [[= ->] _]; reflexivity].
  - split; [discriminate|intros [_ E]; contradiction].
Qed.

(** The preprocessor reads the bytes that the tool prints, if no value has 29 tuples, arrays and structs one in
    another. *)
Theorem C112_shallow_partial short t : (forall v, OfVariable t v \/ OnHeap t v -> ~ Levels v 29) ->
  exists s, JsonModel.decode (JsonModel.print (answer short t)) = Some s /\ JsonModel.from_str s = Some (answer short t).
Proof.
  intros N. destruct (good_answer short t) as [D O]. exists (List.app (JsonModel.to_string (answer short t)) [10]). split.
  - apply JsonProofs.decode_iff. split; [|reflexivity]. apply Forall_app. split; [|constructor; [left; lia|constructor]].
    apply JsonProofs.to_string_scalar. intros x Ox. eapply Forall_impl; [|exact (O x Ox)]. intros c L. left. cbn beta in L. lia.
  - apply (PropJson.C111_round_trip_partial _ [] [10]); [exact D| |constructor|constructor; [cbn; auto|constructor]].
    rewrite JsonProofs.deep_iff. pose proof (depth_answer short t 28 N). lia.
Qed.
(** With one level less also as one of several responses, as the theorems about books (C111) require. *)
Theorem C112_response_partial short t : (forall v, OfVariable t v \/ OnHeap t v -> ~ Levels v 28) -> ~ JsonSpec.Deep (answer short t) 127.
Proof. intros N. rewrite JsonProofs.deep_iff. pose proof (depth_answer short t 27 N). lia. Qed.
(** It cannot read a trace in which a variable holds 30 structs one in another, or the heap 31. *)
Theorem C112_deep_refuted short t v n s : Structs v n -> OfVariable t v /\ 30 <= n \/ OnHeap t v /\ 31 <= n ->
  JsonSpec.Padded (answer short t) s -> JsonModel.from_str s = None.
Proof.
  intros St H P. apply (PropJson.C111_deep_refuted (answer short t)); [|exact P]. pose proof (deep_structs short v n St) as D.
  destruct H as [[H L]|[H L]].
  - apply (JsonProofs.deep_less _ _ (deep_variable short t v _ H D)). lia.
  - apply (JsonProofs.deep_less _ _ (deep_heap short t v _ H D)). lia.
Qed.

(** ** A case *)
Module Demo.
  Local Open Scope Z_scope.
  (** Any injective way to write doubles will do here. *)
  Definition short (z : Z) : bool * nat * Z := (false, 1%nat, z).
  Definition real (b : bool) (m : nat) (e : Z) : Z := e.
  Lemma prints : Prints short real.
  Proof. intros z _ _. reflexivity. Qed.

  (** A pair of 2^53 + 1 and a NaN, a string on the heap, a pointer to it; the run ends in a use after free. *)
  Definition pair := MTuple [MScalar PUint (2 ^ 53 + 1); MScalar PFloat (2047 * 2 ^ 52 + 1)].
  Definition ptr := MPtr (inr 0%nat) [Index 0; Subslice 1 2] (Some 2%nat).
  Definition step1 := WStep [WFrame "main" (0, 0, (4, 1), 0)%nat (1, 2, (1, 9), 0)%nat [MLocal "x" pair []; MLocal "p" ptr [[Field 1]]]] [MArray (AllOf [MScalar PUint 104; MScalar PUint 105])].
  Definition run := WTrace [step1; step1] (WUseAfterFree 7).
  Lemma run_real : RealTrace run.
  Proof.
    assert (S1 : RealStep step1).
    { split.
      - constructor; [|constructor]. split; [|split]; [cbn; unfold Size; lia ..|].
        constructor; [|constructor; [|constructor]]; (split; [|repeat constructor]).
        + constructor. constructor; [constructor; cbn; lia|]. constructor; [constructor; cbn; lia|constructor].
        + constructor; [cbn; unfold Size; lia| |cbn; unfold Size; lia]. constructor; [cbn; unfold Size; lia|].
          constructor; [cbn; unfold Size; lia|constructor].
      - constructor; [|constructor]. constructor. constructor; [constructor; cbn; lia|]. constructor; [constructor; cbn; lia|constructor]. }
    split; [repeat (constructor; [exact S1|]); constructor|]. cbn. intros a [= <-]. unfold Size. lia.
  Qed.
  Fixpoint nested (n : nat) : mvalue := MAdt "S" None match n with O => [] | S m => [("0"%string, nested m)] end None.
  Definition held (v : mvalue) := WTrace [WStep [WFrame "main" (0, 0, (0, 1), 0)%nat (0, 0, (0, 1), 0)%nat [MLocal "x" v []]] []] WSuccess.
  Lemma nested_structs n : Structs (nested n) (S n).
  Proof. induction n as [|n IH]; [constructor|]. eapply st_more; [left; reflexivity|exact IH]. Qed.
  Lemma nested_levels n : ~ Levels (nested n) (S (S n)).
  Proof.
    induction n as [|n IH]; intros L; inversion L as [| | | |? ? ? ? v k H Lv]; subst; cbn [map snd] in H.
    - destruct H as [[]|[_ H]]. discriminate H.
    - destruct H as [[<-|[]]|[H _]]; [exact (IH Lv)|discriminate H].
  Qed.
End Demo.
(** The page gets another number for 2^53 + 1, and draws the same. *)
Example C112_witness : exists j x t',
  JsonModel.js_parse (JsonModel.to_string (answer Demo.short Demo.run)) = Some j /\ Member "Ok" j x /\ TraceC Demo.real x t' /\ AlikeTrace Nearest Demo.run t' /\
  t' <> Demo.run.
Proof.
  destruct (C112_page _ _ _ Demo.prints Demo.run_real) as (j & x & t' & J & M & C & A). exists j, x, t'. do 4 (split; [assumption|]).
  intros ->. destruct A as [F _]. inversion F as [|? ? ? ? [G _] _]; subst. inversion G as [|? ? ? ? (_ & _ & _ & L) _]; subst.
  inversion L as [|? ? ? ? (_ & V & _) _]; subst. cbn in V. inversion V as [|? ? W| | | | |]; subst. inversion W as [|? ? ? ? Sc _]; subst. inversion Sc as [? ? ? N| | | | | |]; subst.
  cbn in N. destruct N as [(m & e & E1 & E2 & E3) _]. apply (odd_not_double (2 ^ 53 + 1)); [exists (2 ^ 52)%Z; reflexivity|lia|]. exists m, e. auto.
Qed.
Example C112_shallow_witness short : exists s, JsonModel.decode (JsonModel.print (answer short (Demo.held (Demo.nested 27)))) = Some s /\
  JsonModel.from_str s = Some (answer short (Demo.held (Demo.nested 27))).
Proof.
  apply C112_shallow_partial. intros v [(s & f & l & [<-|[]] & [<-|[]] & [<-|[]] & <-)|(s & [<-|[]] & [])]. apply Demo.nested_levels.
Qed.
Example C112_deep_witness short : JsonModel.from_str (JsonModel.to_string (answer short (Demo.held (Demo.nested 29)))) = None.
Proof.
  apply (C112_deep_refuted short (Demo.held (Demo.nested 29)) (Demo.nested 29) 30); [apply Demo.nested_structs| |apply JsonProofs.text_padded, JsonProofs.written].
  left. split; [|lia]. do 3 eexists. split; [left; reflexivity|]. split; [left; reflexivity|]. split; [left; reflexivity|reflexivity].
Qed.

Print Assumptions C112_form.
Print Assumptions C112_one_meaning.
Print Assumptions C112_injective.
Print Assumptions C112_page.
Print Assumptions C112_drawn.
Print Assumptions C112_error.
Print Assumptions C112_shallow_partial.
Print Assumptions C112_response_partial.
Print Assumptions C112_deep_refuted.
