(** * C96: what a displayed boundary says about the function *)
From Coq Require Import List Arith Bool Lia Sorted.
From Verif Require Import Base PermsModel FactsModel FactsSpec FlowModel FlowSpec SpansModel SpansSpec
  BoundariesModel BoundariesSpec UsesModel UsesSpec UsesProofs.
Import ListNotations.

(** Every boundary describes a use of the function, and stands where it may stand. *)
Theorem C96_sound : forall env fi st id post body bs b,
  Analysed env fi -> TrackedAs st id post ->
  boundaries_of env st id body = Some bs -> In b bs ->
  Kept env post b /\
  exists fc e pb, Reached (eid body) body fc e /\ UseSite fc e pb /\ Describes env fi pb b.
Proof. intros env fi st id post body bs b A T. exact (boundaries_sound env fi A st id post T body bs b). Qed.
Print Assumptions C96_sound.

(** Every use is described by a boundary, shown exactly when it is kept; or no statement of
    the compiled function, for the use or any node around it, tells its place. *)
Theorem C96_complete : forall env fi st id post body bs fc e pb,
  Analysed env fi -> TrackedAs st id post ->
  boundaries_of env st id body = Some bs ->
  Reached (eid body) body fc e -> UseSite fc e pb ->
  Unresolved env pb \/ exists b, Describes env fi pb b /\ (Kept env post b <-> In b bs).
Proof. intros env fi st id post body bs fc e pb A T. exact (boundaries_complete env fi A st id post T body bs fc e pb). Qed.
Print Assumptions C96_complete.

(** Two boundaries for the same place and location agree on the permissions that are there. *)
Theorem C96_actual_unique : forall inp x p a b,
  ActualPermissions inp x p a -> ActualPermissions inp x p b -> a = b.
Proof.
  intros inp x p [r1 w1 d1] [r2 w2 d2] (A1 & A2 & A3) (B1 & B2 & B3). cbn in *.
  f_equal; apply eq_true_iff_eq; [rewrite A1, B1|rewrite A2, B2|rewrite A3, B3]; tauto.
Qed.
Print Assumptions C96_actual_unique.

(** They come in the order of the source text. *)
Theorem C96_source_order : forall env st id body bs,
  InOrder body ->
  (forall s s', ue_local env s = Some s' -> s' = s) ->
  (forall s t c d, hi s <= hi t -> ue_chars env s = Some c -> ue_chars env t = Some d -> hi c <= hi d) ->
  boundaries_of env st id body = Some bs ->
  StronglySorted (fun a b => b_location a <= b_location b) bs.
Proof. exact boundaries_sorted. Qed.
Print Assumptions C96_source_order.

(** It only fails over a span without a position in the text or a place unknown to the facts. *)
Theorem C96_crash_culprit : forall env fi st id post body,
  Analysed env fi -> TrackedAs st id post ->
  boundaries_of env st id body = None ->
  (exists s s', FirstError post s /\ ue_local env s = Some s' /\ ue_bytes env s' = None) \/
  exists fc e pb, Reached (eid body) body fc e /\ UseSite fc e pb /\ Culprit env pb.
Proof. intros env fi st id post body A T. exact (boundaries_crash env fi A st id post T body). Qed.
Print Assumptions C96_crash_culprit.

(** So it answers when all mentioned places are known and all spans are positions of the text. *)
Theorem C96_answers : forall env fi st id post body,
  Analysed env fi -> TrackedAs st id post ->
  (forall s, ue_chars env s <> None /\ ue_bytes env s <> None) ->
  (forall loc x, ue_visible env x = true ->
     Inspects (ue_stmt env loc) x \/ Writes (ue_stmt env loc) x \/ Reads (ue_stmt env loc) x ->
     exists y, Known (ue_inp env) y /\ in_normalize (ue_inp env) y = in_normalize (ue_inp env) x) ->
  exists bs, boundaries_of env st id body = Some bs.
Proof.
  intros env fi st id post body A T Sp Kn. destruct (boundaries_of env st id body) as [bs|] eqn:E; [eauto|]. exfalso.
  destruct (C96_crash_culprit _ _ _ _ _ _ A T E) as [(s & s' & _ & _ & X)|(fc & e & pb & _ & _ & C)]; [exact (proj2 (Sp s') X)|].
  destruct C as [(loc & x & R & N)|[(s & _ & X)|(s & _ & [X|X])]]; try (apply (Sp s) in X; auto).
  apply N. destruct R as (inner & n & outer & _ & (ls & cands & L & (M & _) & (Pi & _)) & _).
  apply M in Pi as (_ & V & H). apply (Kn loc x V). destruct H as [H|H]; auto. destruct (pb_lhs pb); auto.
Qed.
Print Assumptions C96_answers.

(** [let r = &mut x; x.push(..); r; z]: the receiver lacks every permission because [x] is
    borrowed, and breaks a flow; [r] stands after the error and is hidden; [z] stands after it as well but
    its statement flows into a lifetime parameter. *)
Module Demo.
  Definition v (i a : nat) := EPath (mkM i (mkR a (a + 1)) false [] false) ResLocal (mkR a (a + 1)) false.
  Definition body := EBlock (mkM 1 (mkR 0 60) false [] true)
    [ (100, [EMethod (mkM 10 (mkR 20 28) false [] true) false
               (EPath (mkM 11 (mkR 20 21) false [AdjBorrowRef true] false) ResLocal (mkR 20 21) false) []]);
      (101, [v 12 30]); (102, [v 13 40]) ] None.
  Definition inp (places : list Place) : Inp :=
    mkInp places [mkPlace 2 []] [] (fun _ => []) (fun p => [p]) (fun p => p)
      [(0, 1); (1, 2)] [] [] [] (fun a b => local a =? local b) [0] (fun _ => mkPlace 1 []) (fun _ => true)
      [(0, [0]); (2, [0])] [] (fun l => l =? 1) (fun _ => TOther) (fun _ => false).
  Definition fi := mkFlowIn [(0, 1); (1, 2); (2, 3); (3, 2)] [3] [] [] [mkBorrow 1 false false true true] [] true.
  Definition all := [mkPlace 1 []; mkPlace 2 []; mkPlace 3 []].
  Definition env places out rf : uenv := Uenv (inp places) out rf true [3] [(0, 1, 0); (1, 2, 10); (1, 2, 12)]
    (fun p => local p <? 4)
    (fun l => match l with
              | 0 => SkAssign (mkPlace 5 []) (RvPlace (mkPlace 1 []))
              | 1 => SkAssign (mkPlace 6 []) (RvOperands [None; Some (mkPlace 2 [])])
              | 2 => SkFakeRead (mkPlace 3 [])
              | _ => SkTerminator end)
    (fun h => match h with 11 => Some [0] | 101 => Some [1] | 100 => Some [5] | 102 => Some [6] | 13 => Some [2] | _ => None end)
    (fun h => match h with 12 => [101; 1] | _ => [] end) (fun _ => None)
    (fun l => 2 * l) (fun l => 2 * l + 1) (fun h => mkR h (h + 5)) (mkR 0 60) (fun s => Some s) (fun s => Some s)
    (fun s => Some s).
  Definition post := [Report (mkDiag (mkR 22 25) true); Report (mkDiag (mkR 20 24) true)].
End Demo.

Example C96_witness : exists out rf,
  let env := Demo.env Demo.all out rf in
  let st := diag_run (TrackBody 7 :: Demo.post) in
  Analysed env Demo.fi /\ TrackedAs st 7 Demo.post /\
  boundaries_of env st 7 Demo.body = Some [
    mkB 21 21 RW_ (mkP false false false) (Some (mkFB true (mkR 100 105) LocalOutlivesUniversal));
    mkB 40 40 RO_ (mkP true false true) (Some (mkFB false (mkR 102 107) FlowOk))] /\
  boundaries_of env (diag_run [TrackBody 7]) 7 Demo.body = Some [
    mkB 21 21 RW_ (mkP false false false) (Some (mkFB true (mkR 100 105) LocalOutlivesUniversal));
    mkB 30 30 RO_ (mkP true false true) None;
    mkB 40 40 RO_ (mkP true false true) (Some (mkFB false (mkR 102 107) FlowOk))].
Proof.
  destruct (derive_permission_facts (Demo.inp Demo.all)) as [out|] eqn:D; [|vm_compute in D; discriminate].
  destruct (compute_flows Demo.fi) as [rf|] eqn:F; [|vm_compute in F; discriminate].
  exists out, rf. cbv zeta. split.
  - split; [exact D|]. split; [exact F|]. intros c [<-|[<-|[<-|[]]]]; cbn; auto.
  - split; [exists []; split; [reflexivity|]; intros op [<-|[<-|[]]]; eauto|].
    vm_compute in D, F. injection D as <-. injection F as <-. split; vm_compute; reflexivity.
Qed.

(** It does fail, over a place the facts do not know. *)
Example C96_crash_witness : exists out rf,
  let env := Demo.env [mkPlace 1 []] out rf in
  Analysed env Demo.fi /\ TrackedAs (diag_run [TrackBody 7]) 7 [] /\
  boundaries_of env (diag_run [TrackBody 7]) 7 Demo.body = None.
Proof.
  destruct (derive_permission_facts (Demo.inp [mkPlace 1 []])) as [out|] eqn:D; [|vm_compute in D; discriminate].
  destruct (compute_flows Demo.fi) as [rf|] eqn:F; [|vm_compute in F; discriminate].
  exists out, rf. cbv zeta. split.
  - split; [exact D|]. split; [exact F|]. intros c [<-|[<-|[<-|[]]]]; cbn; auto.
  - split; [exists []; split; [reflexivity|]; intros op []|].
    vm_compute in D, F. injection D as <-. injection F as <-. vm_compute. reflexivity.
Qed.
