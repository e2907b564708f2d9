(** * What it means that a book is built right *)
From Coq Require Import List Arith.
From Verif Require Import Base BookModel RunModel CacheModel EmbedModel BuildModel EmbedSpec.
From Verif Require BookSpec.
Import ListNotations.

(** Blocks that ask the same: the annotations do not matter. *)
Definition Alike (b b' : block) : Prop :=
  operations b = operations b' /\ options b = options b' /\ code b = code b'.

(** Block number [j] of the build is [b], and its analysis there gives the map [m]. *)
Definition Gave (bd : build) (b : block) (m : list (str * json)) : Prop :=
  exists j, nth_error (blocks_of bd) j = Some b /\ run_aquascope (around bd j) b = inr m.

(** No two blocks that ask something different have the same key. *)
Definition NoCollision (hash : list nat -> nat) (h : list build) : Prop :=
  forall bd bd' b b', In bd h -> In bd' h -> In b (blocks_of bd) -> In b' (blocks_of bd') ->
    hash (hash_stream b) = hash (hash_stream b') -> Alike b b'.

(** The tool gives blocks that ask the same the same answer, whenever it gives one. *)
Definition Steady (h : list build) : Prop :=
  forall bd bd' b b' m m', In bd h -> In bd' h -> Alike b b' -> Gave bd b m -> Gave bd' b' m' -> m = m'.

(** The parser of JSON makes no objects with a key twice. *)
Definition Sound (h : list build) : Prop :=
  forall bd j s v, In bd h -> from_json (around bd j) s = Some v -> Distinct v.

(** The text of a map of responses is read as an object with these responses, and it does not
    end in white space. *)
Definition Readable (read : str -> option json) (text : list (str * json) -> str) (m : list (str * json)) : Prop :=
  Distinct (JObj m) ->
  (forall s w, text m = s ++ [w] -> ~ BookSpec.White w) /\
  exists rs, read (text m) = Some (JObj rs) /\ Distinct (JObj rs) /\ forall k, aget str_eqd rs k = aget str_eqd m k.
(** So it is with the responses of all builds. *)
Definition AllReadable (read : str -> option json) (h : list build) : Prop :=
  forall bd j b m, In bd h -> nth_error (blocks_of bd) j = Some b -> run_aquascope (around bd j) b = inr m -> Readable read (text bd j) m.

(** What is on the page is this block with these responses: its code, its operations in order,
    each with its response as JavaScript reads it, its options, and the annotations of this block, also if the responses were
    computed for another one with the same code. *)
Record Shows (b : block) (m : list (str * json)) (e : embed) : Prop := {
  shows_code : m_code e = code b;
  shows_ops : map fst (m_rendered e) = operations b;
  shows_responses : forall op o, In (op, o) (m_rendered e) -> exists j j', aget str_eqd m op = Some j /\ o = Some j' /\ Reads j j';
  shows_options : forall k v, aget str_eqd (page_options e) k = Some v <-> LastOption (options b) k v;
  shows_annotations : let a := annotations b in
    (Exact (hidden_lines a) -> page_hidden e = hidden_lines a) /\ (Exact (state_locations a) -> page_states e = state_locations a) /\
    (Exact (step_lines a) -> page_step_lines e = step_lines a) /\ (Exact (bound_lines a) -> page_bound_lines e = bound_lines a) /\
    forall line, page_matchers e line = aget Nat.eq_dec (step_paths a) line }.

(** There is no cache file, or none that can be read. *)
Definition Fresh (c : codec str) (bytes : list nat) : Prop := bytes = [] \/ dec c bytes = None.
