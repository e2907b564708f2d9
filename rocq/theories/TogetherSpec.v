(** * What it means that runs do not disturb each other *)
From Coq Require Import List.
From Verif Require Import TogetherModel.
Import ListNotations.

(** The schedule [es] is possible and leads to [w]. *)
Definition Leads (es : list event) (w : world) : Prop := happens start es = Some w.

(** In [w] the [i]-th run is [r]. *)
Definition IsRun (w : world) (i : nat) (r : run) : Prop := nth_error (w_runs w) i = Some r.

(** Whatever was read of main.rs was the program [t]. *)
Definition Only (t : text) (seen : list (option text)) : Prop := forall x, In x seen -> x = Some t.

(** The process [p] is a `cargo new` that has not come to making its project. *)
Definition Unborn (w : world) (p : nat) : Prop :=
  exists d seen, pget (w_procs w) p = Some (Proc d CargoNew seen None).

(** In the world [w], the run [r] waits for such a process. *)
Definition Early (w : world) (r : run) : Prop :=
  exists d p, r_phase r = Making d p /\ Unborn w p.

(** No run is given up on, by a timeout or a crash, before its `cargo new` has
    made the project (or was killed). *)
Definition Patient (es : list event) : Prop :=
  forall es1 e es2 w i r,
    es = es1 ++ e :: es2 -> Leads es1 w -> IsRun w i r ->
    (e = GiveUp i \/ e = Crash) -> ~ Early w r.

(** The run has ended, or never began. *)
Definition Over (r : run) : Prop :=
  r_phase r = Done \/ r_phase r = Failed \/ r_phase r = Crashed \/ r_phase r = Fresh.

(** There is the directory [d]. *)
Definition Exists (w : world) (d : nat) : Prop := dget (w_dirs w) d <> None.

(** The run [r] works in the directory [d]. *)
Definition WorksIn (r : run) (d : nat) : Prop :=
  (exists p, r_phase r = Making d p) \/ r_phase r = Made d \/ (exists rest, r_phase r = Ready d rest) \/
  (exists p op rest, r_phase r = Waiting d p op rest).

(** The run has ended. *)
Definition Ended (r : run) : Prop := r_phase r = Done \/ r_phase r = Failed \/ r_phase r = Crashed.

(** [s] is [r], of which only the phase may be another. *)
Definition SameRun (r s : run) : Prop := r_code s = r_code r /\ r_ops s = r_ops r /\ r_answers s = r_answers r.
