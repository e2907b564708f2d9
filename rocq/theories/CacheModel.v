(** * Model of the preprocessor's cache

    Sources: M/cache.rs, M/block.rs (the derived hash), M/preprocessor.rs
    (process_code, replacements). *)

From Coq Require Import List Arith Bool.
From Verif Require Import Base ValuesModel BookModel.
Import ListNotations.

(** ** What is hashed *)

(** [Hasher::write_usize]: the little-endian bytes of a number. *)
Fixpoint le_bytes (k n : nat) : list nat :=
  match k with 0 => [] | S k' => n mod 256 :: le_bytes k' (n / 256) end.

(** [Hash for str]: the bytes and a byte that occurs in no string. *)
Definition hash_str (s : str) : list nat := flat_map utf8 s ++ [255].

(** [Hash for Vec]: the length and the elements. *)
Definition hash_vec {T} (h : T -> list nat) (l : list T) : list nat := le_bytes 8 (length l) ++ flat_map h l.

(** block.rs 19-25, annotations.rs 56-62: the derived hash of a block; the
    annotations contribute nothing. *)
Definition hash_stream (b : block) : list nat :=
  hash_vec hash_str (operations b)
  ++ hash_vec (fun '(k, v) => hash_str k ++ hash_str v) (options b)
  ++ hash_str (code b).

(** ** The cache file *)

(** A file: its bytes and the position of the cursor. *)
Record file := File { data : list nat; pos : nat }.

(** [File::set_len(0)] does not move the cursor. *)
Definition set_len0 (f : file) : file := File [] (pos f).
(** [Seek::rewind] *)
Definition rewind (f : file) : file := File (data f) 0.
(** [Write::write] at the cursor; a gap is filled with zeros. *)
Definition write_byte (b : nat) (f : file) : file :=
  File (firstn (pos f) (data f) ++ repeat 0 (pos f - length (data f)) ++ [b] ++ skipn (S (pos f)) (data f)) (S (pos f)).

(** gzip and JSON, not modelled. *)
Record codec (V : Type) := Codec {
  enc : list (nat * V) -> list nat;
  dec : list nat -> option (list (nat * V)) }.
Arguments Codec {V}. Arguments enc {V}. Arguments dec {V}.

(** cache.rs 15-20 [Cache] *)
Record cache (V : Type) := Cache { cache_file : file; entries : list (nat * V); dirty : bool }.
Arguments Cache {V}. Arguments cache_file {V}. Arguments entries {V}. Arguments dirty {V}.

(** cache.rs 31-53 [Cache::load] of a file with these bytes.  After reading, the
    cursor is at the end. *)
Definition load {V} (c : codec V) (bytes : list nat) : cache V :=
  let es := if length bytes =? 0 then [] else match dec c bytes with Some m => m | None => [] end in
  Cache (File bytes (length bytes)) es false.

(** cache.rs 55-57 [Cache::get], for the hash of the key *)
Definition get {V} (k : nat) (ca : cache V) : option V := aget Nat.eq_dec (entries ca) k.

(** cache.rs 59-62 [Cache::set] *)
Definition set {V} (k : nat) (v : V) (ca : cache V) : cache V :=
  Cache (cache_file ca) (aset Nat.eq_dec (entries ca) k v) true.

(** cache.rs 64-76 [Cache::save]: what it does to the file, one effect at a time.
    [dirty] is never reset. *)
Definition save_effects {V} (c : codec V) (ca : cache V) : list (file -> file) :=
  if dirty ca then [set_len0; rewind] ++ map write_byte (enc c (entries ca)) else [].
Definition apply_effects (fs : list (file -> file)) (f : file) : file := fold_left (fun f g => g f) fs f.
Definition save {V} (c : codec V) (ca : cache V) : cache V :=
  Cache (apply_effects (save_effects c ca) (cache_file ca)) (entries ca) (dirty ca).

(** What can happen: a set, a save, the end of the process (and the next start),
    or its death after some effects of a save. *)
Inductive event (V : Type) := ESet (k : nat) (v : V) | ESave | EReload | ECrash (n : nat).
Arguments ESet {V}. Arguments ESave {V}. Arguments EReload {V}. Arguments ECrash {V}.

Definition happen {V} (c : codec V) (ca : cache V) (e : event V) : cache V :=
  match e with
  | ESet k v => set k v ca
  | ESave => save c ca
  | EReload => load c (data (cache_file ca))
  | ECrash n => load c (data (apply_effects (firstn n (save_effects c ca)) (cache_file ca)))
  end.

(** ** Parallel processing *)

(** preprocessor.rs 131-150: the state of the processing of one block: not
    started, not in the cache, analysed, finished, failed. *)
Inductive job (V : Type) := Waiting | Missed | Ran (v : V) | Done (v : V) | Failed.
Arguments Waiting {V}. Arguments Missed {V}. Arguments Ran {V}. Arguments Done {V}. Arguments Failed {V}.

Record pstate (V : Type) := PState { p_cache : list (nat * V); p_jobs : list (job V) }.
Arguments PState {V}. Arguments p_cache {V}. Arguments p_jobs {V}.

Fixpoint set_nth {T} (n : nat) (x : T) (l : list T) : list T :=
  match l, n with
  | [], _ => []
  | _ :: r, 0 => x :: r
  | y :: r, S n' => y :: set_nth n' x r
  end.

(** One step of the worker that has block [j].  The read lock protects the
    lookup, the write lock the update (133-136, 141-145); nothing is locked while
    the analysis runs.  [key j] is the hash of block [j], [outcome j] what
    [run_aquascope] returns for it. *)
Definition work {V} (key : nat -> nat) (outcome : nat -> option V) (st : pstate V) (j : nat) : pstate V :=
  match nth_error (p_jobs st) j with
  | Some Waiting =>
      match aget Nat.eq_dec (p_cache st) (key j) with
      | Some v => PState (p_cache st) (set_nth j (Done v) (p_jobs st))
      | None => PState (p_cache st) (set_nth j Missed (p_jobs st))
      end
  | Some Missed =>
      match outcome j with
      | Some v => PState (p_cache st) (set_nth j (Ran v) (p_jobs st))
      | None => PState (p_cache st) (set_nth j Failed (p_jobs st))
      end
  | Some (Ran v) => PState (aset Nat.eq_dec (p_cache st) (key j) v) (set_nth j (Done v) (p_jobs st))
  | _ => st
  end.

(** preprocessor.rs 175-188: [n] blocks, with any schedule of the workers.
    Simplification: after a failure rayon may leave other blocks unprocessed;
    such a run is one with a schedule that ends earlier. *)
Definition process {V} (key : nat -> nat) (outcome : nat -> option V) (c0 : list (nat * V)) (n : nat) (sched : list nat) : pstate V :=
  fold_left (work key outcome) sched (PState c0 (repeat Waiting n)).
