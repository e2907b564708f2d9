(** Test files as they are written: text with annotations in it. *)
From Coq Require Import Ascii String.
From Coq Require Import List Arith Bool Lia.
From Verif Require Import Base PermsModel BookModel BookSpec ChecksModel.
Import ListNotations.

Definition opening : str := lit "`[".
Definition closing : str := lit "]`".

(** No delimiter begins within [p], when [p] is followed by [next]. *)
Definition Quiet (p next : str) : Prop :=
  forall a b, p ++ next = a ++ opening ++ b \/ p ++ next = a ++ closing ++ b -> length p <= length a.
(** The first closing delimiter after an opening one is behind [x]. *)
Definition Closes (x : str) : Prop := forall a b, x ++ closing = a ++ closing ++ b -> length x <= length a.

Definition Word (w : str) : Prop := w <> [] /\ forall c, In c w -> ~ White c.
(** An annotation's first two words. *)
Definition Two (x var ps : str) : Prop :=
  exists g h rest, x = g ++ var ++ h ++ ps ++ rest /\ Word var /\ Word ps /\ Forall White g /\ Forall White h /\ h <> [] /\
    (rest = [] \/ exists c r, rest = c :: r /\ White c).

(** The letters: R, W, and O or (as before) D, small or large. *)
Definition Says (s : str) (p : Permissions) : Prop :=
  (p_read p = true <-> In 114 s \/ In 82 s) /\
  (p_write p = true <-> In 119 s \/ In 87 s) /\
  (p_drop p = true <-> (In 111 s \/ In 79 s) \/ (In 100 s \/ In 68 s)).

(** [File before src clean m]: the rest of a file, the rest of the program in it, and what is
    wanted at which bytes of the program; [before] is the program in front. *)
Inductive File (before : str) : str -> str -> wanted -> Prop :=
| File_plain p : Quiet p [] -> File before p p []
| File_note p x var ps perms src clean m : Quiet p opening -> Closes x -> Two x var ps -> Says ps perms ->
    File (before ++ p ++ var) src clean m ->
    File before (p ++ opening ++ x ++ closing ++ src) (p ++ var ++ clean)
      (((blen (before ++ p), blen (before ++ p ++ var)), perms) :: m).

(** A body has a place for a use. *)
Definition Has (body : nat * nat -> found) (r : nat * nat) : Prop := body r <> NoPlace.
(** The first body with a place for a use computes these permissions. *)
Definition Right (bodies : list (nat * nat -> found)) (r : nat * nat) (p : Permissions) : Prop :=
  exists pre b post, bodies = pre ++ b :: post /\ (forall b', In b' pre -> ~ Has b' r) /\ b r = Computed p.
