(** * What is drawn and what should be *)

From Coq Require Import List Arith Bool.
From Verif Require Import EditorModel KeptModel.
Import ListNotations.

(** No edit in a piece of a history. *)
Definition NoEdit (evs : list event) : Prop := forall d, ~ In (Edit d) evs.

(** The tables at a place, in order. *)
Definition at_place {X} (n : nat) (l : list (nat * X)) : list X := map snd (filter (fun x => fst x =? n) l).

Section Histories.
  Context {Bd St Tr : Type}.

  (** A table the page asked for after some event behind the last edit. *)
  Definition AskedSince (analyse : nat -> doc -> list (option (output Bd St))) (execute : doc -> option Tr) (d0 : doc) (evs : list event) (n : nat) (s : St) : Prop :=
    exists before after v, evs = before ++ after /\ NoEdit after /\
      view_run (fun _ _ => false) analyse execute 0 (view_start d0) before = Some v /\ In (n, s) (e_steps (p_ed (v_page v))).
End Histories.
