(** * Runs at the same time: their directories, processes and files

    Models how the server and the preprocessor run the tool, many times at once,
    on one file system.  The server handles requests concurrently
    (crates/aquascope_serve/src/server.rs 84-96, container.rs 44-161), the
    preprocessor runs the blocks of a book in parallel
    (crates/mdbook-aquascope/src/preprocessor.rs 46-128, and [par_iter] in
    [replacements]).

    A run goes through the phases of [Container::new] and
    [Container::permissions]/[interpreter], or of [run_aquascope].  Time is a
    sequence of events; every event that is possible may come next, so a
    sequence of events is a schedule. *)
From Coq Require Import List Arith Bool.
From Verif Require Import Base.
Import ListNotations.

(** Texts of programs and the operations are numbers here: only whether they
    are the same matters. *)
Definition text := nat.
Definition oper := nat.

(** What is in a temporary directory: nothing ([tempdir()], container.rs 51,
    preprocessor.rs 49), or the project that `cargo new` makes, of which only
    src/main.rs is modelled (container.rs 119-120, preprocessor.rs 51-53).
    Simplification: the directory `target` is not modelled, so a command's
    answer is taken to depend on main.rs only. *)
Inductive content :=
| Bare
| Project (main : text).

(** The main.rs that `cargo new` writes. *)
Definition hello : text := 0.

(** A command (container.rs 119-120 and 200-235; preprocessor.rs 51-56 and
    63-87). *)
Inductive job :=
| CargoNew
| Analyse (op : oper).

(** A process: the directory it was started in, what it does, what it has read
    of main.rs up to now (at any number of moments), and whether it has ended,
    with success or not.  It refers to its directory by name: cargo asks for
    the current directory once and goes on with absolute paths. *)
Record proc := Proc {
  p_dir : nat;
  p_job : job;
  p_seen : list (option text);
  p_end : option bool
}.

(** Where a run is. [Making]: it waits for `cargo new` (container.rs 122,
    preprocessor.rs 51-56).  [Made]: main.rs is to be written (container.rs
    157, preprocessor.rs 61).  [Ready]: the commands that are left to start
    (one at the server; preprocessor.rs 64).  [Waiting]: it waits for a command
    (container.rs 82, preprocessor.rs 92-98). *)
Inductive phase :=
| Fresh
| Making (d pid : nat)
| Made (d : nat)
| Ready (d : nat) (rest : list oper)
| Waiting (d pid : nat) (op : oper) (rest : list oper)
| Done
| Failed
| Crashed.

(** A run: the program it was asked about, the operations, where it is, and the
    answers it has: per operation what the command had read. *)
Record run := Run {
  r_code : text;
  r_ops : list oper;
  r_phase : phase;
  r_answers : list (oper * list (option text))
}.

Record world := World {
  w_dirs : list (nat * content);
  w_procs : list (nat * proc);
  w_next : nat;
  w_runs : list run
}.

Definition start : world := World [] [] 0 [].

Definition dget (m : list (nat * content)) := aget Nat.eq_dec m.
Definition dset (m : list (nat * content)) := aset Nat.eq_dec m.
Definition ddel (m : list (nat * content)) := adel Nat.eq_dec m.
Definition pget (m : list (nat * proc)) := aget Nat.eq_dec m.
Definition pset (m : list (nat * proc)) := aset Nat.eq_dec m.
Definition pdel (m : list (nat * proc)) := adel Nat.eq_dec m.

Fixpoint put (l : list run) (i : nat) (x : run) : list run :=
  match l, i with
  | [], _ => []
  | _ :: l', 0 => x :: l'
  | y :: l', S i' => y :: put l' i' x
  end.

(** What can happen.
    - [Submit]: a request arrives, or a block's turn comes.
    - [Open i d]: run [i] makes its temporary directory, with the name [d], and
      starts `cargo new` in it.
    - [Create p]: the `cargo new` with number [p] makes its project.
    - [MadeIt i]: run [i] learns that its `cargo new` has ended.
    - [Write i]: run [i] writes its program.
    - [Launch i]: run [i] starts its next command.
    - [Look p]: the command [p] reads main.rs.
    - [End p]: the command [p] ends.
    - [Take i]: run [i] takes the answer of its command.
    - [Finish i]: run [i] has all its answers.
    - [GiveUp i]: run [i] ends with an error: a timeout (container.rs 81-93,
      preprocessor.rs 92-95), any other failing call, or the client has gone
      and the handler is dropped.
    - [Kill p]: a process dies ([child.kill()], preprocessor.rs 93, or from
      outside).
    - [Crash]: the server or the preprocessor dies. *)
Inductive event :=
| Submit (code : text) (ops : list oper)
| Open (i d : nat)
| Create (p : nat)
| MadeIt (i : nat)
| Write (i : nat)
| Launch (i : nat)
| Look (p : nat)
| End (p : nat)
| Take (i : nat)
| Finish (i : nat)
| GiveUp (i : nat)
| Kill (p : nat)
| Crash.

(** The directory that a run holds: the [TempDir] lives in [Container]
    (container.rs 44-47) or in a local variable (preprocessor.rs 49). *)
Definition held (ph : phase) : option nat :=
  match ph with
  | Making d _ | Made d | Ready d _ | Waiting d _ _ _ => Some d
  | Fresh | Done | Failed | Crashed => None
  end.

(** Dropping the [TempDir] removes the directory with all that is in it. *)
Definition dropped (ds : list (nat * content)) (ph : phase) : list (nat * content) :=
  match held ph with Some d => ddel ds d | None => ds end.

Definition running (ph : phase) : bool :=
  match ph with Done | Failed | Crashed => false | _ => true end.

(** The run [r], now in phase [ph]. *)
Definition at_phase (r : run) (ph : phase) : run := Run (r_code r) (r_ops r) ph (r_answers r).

(** Run [i] ends with an error: its directory is removed, its process is not
    ended (container.rs 81: no [kill_on_drop]; preprocessor.rs 93 kills cargo,
    which [Kill] may do, and not the processes that cargo has started). *)
Definition give_up (w : world) (i : nat) (r : run) : world :=
  World (dropped (w_dirs w) (r_phase r)) (w_procs w) (w_next w) (put (w_runs w) i (at_phase r Failed)).

(** One event; [None] if it cannot happen. *)
Definition happen (w : world) (e : event) : option world :=
  match e with
  | Submit code ops =>
      Some (World (w_dirs w) (w_procs w) (w_next w) (w_runs w ++ [Run code ops Fresh []]))
  | Open i d =>
      (* tempdir(): makes a directory that was not there, or tries another name *)
      match nth_error (w_runs w) i with
      | Some r =>
          match r_phase r, dget (w_dirs w) d with
          | Fresh, None =>
              Some (World (dset (w_dirs w) d Bare)
                          (pset (w_procs w) (w_next w) (Proc d CargoNew [] None))
                          (S (w_next w))
                          (put (w_runs w) i (at_phase r (Making d (w_next w)))))
          | _, _ => None
          end
      | None => None
      end
  | Create p =>
      (* cargo new refuses a directory that has the project; it makes the
         directories on the way to it *)
      match pget (w_procs w) p with
      | Some (Proc d CargoNew seen None) =>
          match dget (w_dirs w) d with
          | Some (Project _) =>
              Some (World (w_dirs w) (pset (w_procs w) p (Proc d CargoNew seen (Some false))) (w_next w) (w_runs w))
          | _ =>
              Some (World (dset (w_dirs w) d (Project hello)) (pset (w_procs w) p (Proc d CargoNew seen (Some true))) (w_next w) (w_runs w))
          end
      | _ => None
      end
  | MadeIt i =>
      (* container.rs 122-133 (an error message panics), preprocessor.rs 57-59 *)
      match nth_error (w_runs w) i with
      | Some r =>
          match r_phase r with
          | Making d p =>
              match pget (w_procs w) p with
              | Some (Proc _ _ _ (Some true)) =>
                  Some (World (w_dirs w) (w_procs w) (w_next w) (put (w_runs w) i (at_phase r (Made d))))
              | Some (Proc _ _ _ (Some false)) => Some (give_up w i r)
              | _ => None
              end
          | _ => None
          end
      | None => None
      end
  | Write i =>
      (* container.rs 152-155, preprocessor.rs 61: fails if there is no project *)
      match nth_error (w_runs w) i with
      | Some r =>
          match r_phase r with
          | Made d =>
              match dget (w_dirs w) d with
              | Some (Project _) =>
                  Some (World (dset (w_dirs w) d (Project (r_code r))) (w_procs w) (w_next w)
                              (put (w_runs w) i (at_phase r (Ready d (r_ops r)))))
              | _ => Some (give_up w i r)
              end
          | _ => None
          end
      | None => None
      end
  | Launch i =>
      match nth_error (w_runs w) i with
      | Some r =>
          match r_phase r with
          | Ready d (op :: rest) =>
              Some (World (w_dirs w)
                          (pset (w_procs w) (w_next w) (Proc d (Analyse op) [] None))
                          (S (w_next w))
                          (put (w_runs w) i (at_phase r (Waiting d (w_next w) op rest))))
          | _ => None
          end
      | None => None
      end
  | Look p =>
      match pget (w_procs w) p with
      | Some (Proc d (Analyse op) seen None) =>
          let here := match dget (w_dirs w) d with Some (Project t) => Some t | _ => None end in
          Some (World (w_dirs w) (pset (w_procs w) p (Proc d (Analyse op) (seen ++ [here]) None)) (w_next w) (w_runs w))
      | _ => None
      end
  | End p =>
      match pget (w_procs w) p with
      | Some (Proc d (Analyse op) seen None) =>
          Some (World (w_dirs w) (pset (w_procs w) p (Proc d (Analyse op) seen (Some true))) (w_next w) (w_runs w))
      | _ => None
      end
  | Take i =>
      (* container.rs 82-101, preprocessor.rs 98-125 *)
      match nth_error (w_runs w) i with
      | Some r =>
          match r_phase r with
          | Waiting d p op rest =>
              match pget (w_procs w) p with
              | Some (Proc _ _ seen (Some _)) =>
                  Some (World (w_dirs w) (w_procs w) (w_next w)
                              (put (w_runs w) i (Run (r_code r) (r_ops r) (Ready d rest) (r_answers r ++ [(op, seen)]))))
              | _ => None
              end
          | _ => None
          end
      | None => None
      end
  | Finish i =>
      match nth_error (w_runs w) i with
      | Some r =>
          match r_phase r with
          | Ready d [] =>
              Some (World (dropped (w_dirs w) (r_phase r)) (w_procs w) (w_next w) (put (w_runs w) i (at_phase r Done)))
          | _ => None
          end
      | None => None
      end
  | GiveUp i =>
      match nth_error (w_runs w) i with
      | Some r => if running (r_phase r) then Some (give_up w i r) else None
      | None => None
      end
  | Kill p => Some (World (w_dirs w) (pdel (w_procs w) p) (w_next w) (w_runs w))
  | Crash =>
      (* the directories stay, the processes go on *)
      Some (World (w_dirs w) (w_procs w) (w_next w)
                  (map (fun r => if running (r_phase r) then at_phase r Crashed else r) (w_runs w)))
  end.

(** A schedule. *)
Fixpoint happens (w : world) (es : list event) : option world :=
  match es with
  | [] => Some w
  | e :: es' => match happen w e with Some w' => happens w' es' | None => None end
  end.
