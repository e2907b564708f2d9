(** * Model of building a book, again and again

    Source: M = crates/mdbook-aquascope/src (preprocessor.rs, main.rs).  The chapters are parsed
    (BookModel), the blocks are looked up in the cache or analysed by any number of workers
    (CacheModel, RunModel), the cache is written at the end, and the elements are read by the
    page (EmbedModel). *)
From Coq Require Import List Arith Bool.
From Verif Require Import Base BookModel RunModel CacheModel EmbedModel.
Import ListNotations.

(** How a build ends.  M/main.rs 50-52 [finish] saves the cache.  mdbook-preprocessor-utils
    decides whether it is called, so every build may end in every way: saved, not saved, or
    killed after some effects of the save. *)
Inductive ending := Saved | NotSaved | Killed (n : nat).

(** One build: the chapters, the world around the analysis of each block and the text it makes
    of its map (which depends on the order of a hash map), the schedule of the workers, the end. *)
Record build := Build {
  chapters : list str;
  around : nat -> env;
  text : nat -> list (str * json) -> str;
  schedule : list nat;
  ends : ending }.

(** M/preprocessor.rs 179: the blocks of a chapter, and of all chapters.  Simplification: the
    workers of different chapters are workers of one pool; chapters one after the other are one
    of the schedules. *)
Definition chapter_blocks (content : str) : list block := map snd (parse_all content).
Definition blocks_of (bd : build) : list block := flat_map chapter_blocks (chapters bd).

(** [str::trim_end] *)
Definition trim_end (s : str) : str := rev (trim_start (rev s)).

Section Build.
  (** [c]: gzip and JSON of the cache file; [hash]: the hasher of cache.rs 22-27; [read]:
      [serde_json::from_str]; [write]: the JSON of an attribute. *)
  Context (c : codec str) (hash : list nat -> nat) (read : str -> option json) (write : json -> str).

  (** M/cache.rs 22-29: the key of the block of a job *)
  Definition job_key (bd : build) (j : nat) : nat :=
    match nth_error (blocks_of bd) j with Some b => hash (hash_stream b) | None => 0 end.
  (** M/preprocessor.rs 127, 139: what its analysis returns *)
  Definition job_outcome (bd : build) (j : nat) : option str :=
    match nth_error (blocks_of bd) j with
    | Some b => match run_aquascope (around bd j) b with inr m => Some (text bd j m) | inl _ => None end
    | None => None
    end.

  (** M/preprocessor.rs 29-43, 131-150, 175-188: the state after the schedule, when the cache
      file had these bytes. *)
  Definition built (bytes : list nat) (bd : build) : pstate str :=
    CacheModel.process (job_key bd) (job_outcome bd) (entries (load c bytes)) (length (blocks_of bd)) (schedule bd).

  (** M/preprocessor.rs 141-145: the calls of [Cache::set], in the order of the schedule. *)
  Fixpoint updates (key : nat -> nat) (outcome : nat -> option str) (st : pstate str) (sched : list nat) : list (event str) :=
    match sched with
    | [] => []
    | j :: r =>
      match nth_error (p_jobs st) j with
      | Some (Ran v) => [ESet (key j) v]
      | _ => []
      end ++ updates key outcome (work key outcome st j) r
    end.

  Definition last_events (e : ending) : list (event str) :=
    match e with Saved => [ESave] | NotSaved => [] | Killed n => [ECrash n] end.

  (** The bytes of the cache file after a build. *)
  Definition left_file (bytes : list nat) (bd : build) : list nat :=
    data (cache_file (fold_left (happen c)
      (updates (job_key bd) (job_outcome bd) (PState (entries (load c bytes)) (repeat Waiting (length (blocks_of bd)))) (schedule bd)
       ++ last_events (ends bd)) (load c bytes))).
  (** And after several. *)
  Definition left_by (bytes : list nat) (h : list build) : list nat := fold_left left_file h bytes.

  (** M/preprocessor.rs 148-173: the element of a finished job.  Simplification: a value that is
      not an object is treated like a text that cannot be read. *)
  Definition element (bd : build) (st : pstate str) (j : nat) : option (list (str * str)) :=
    match nth_error (blocks_of bd) j, nth_error (p_jobs st) j with
    | Some b, Some (Done v) =>
      match read (trim_end v) with Some (JObj rs) => Some (EmbedModel.process write b rs) | _ => None end
    | _, _ => None
    end.

  (** All or nothing: [collect] into a [Result]. *)
  Fixpoint collect {T} (l : list (option T)) : option (list T) :=
    match l with
    | [] => Some []
    | o :: r => match o, collect r with Some x, Some xs => Some (x :: xs) | _, _ => None end
    end.

  (** What stands in place of a range of the chapter. *)
  Inductive html := Element (attrs : list (str * str)) | Macro (h : str).

  (** M/preprocessor.rs 175-188 [replacements] of the chapter number [k].  Simplification: the
      [todo!()] of a macro (a panic) is an error like the others. *)
  Definition replacements (bd : build) (st : pstate str) (k : nat) : option (list ((nat * nat) * html)) :=
    match nth_error (chapters bd) k with
    | None => None
    | Some content =>
      let first := length (flat_map chapter_blocks (firstn k (chapters bd))) in
      let blocks := collect (map (element bd st) (seq first (length (parse_all content)))) in
      let macros := collect (map (fun '(r, o) => match o with Html h => Some (r, Macro h) | _ => None end) (parse_perms content)) in
      match blocks, macros with
      | Some es, Some ms => Some (combine (map fst (parse_all content)) (map Element es) ++ ms)
      | _, _ => None
      end
    end.
End Build.

(** The elements that the script of the page finds, in order. *)
Definition elements (l : list ((nat * nat) * html)) : list (list (str * str)) :=
  flat_map (fun '(_, h) => match h with Element a => [a] | Macro _ => [] end) l.
