(** * The start of the preprocessor and the environment of the tool

    Sources: W/lib.rs (cited as W), M/preprocessor.rs
    ([new], [run_aquascope]), S/container.rs ([permissions_command],
    [interpreter_command]). *)
From Coq Require Import Ascii String.
From Coq Require Import List Arith Bool.
From Verif Require Import Base BookModel RunModel.
From Verif Require JsonModel.
Import ListNotations.
Local Open Scope list_scope.

(** The variables of a process.  Values are bytes; names and arguments are kept
    as texts.  Paths are texts: [PathBuf::from] and [env] change nothing. *)
Definition vars := list (str * list nat).

(** A command: its program, its arguments and its variables.  The directory is
    left out (it is part of Together). *)
Record command := Command { c_program : str; c_args : list str; c_vars : vars }.

(** The world around: what a command does.  Simplification: at one start a
    command does the same whenever it is run. *)
Definition world := command -> proc.

(** A [Result], or a panic. *)
Inductive result (T : Type) := Good (x : T) | Bad | Panics.
Arguments Good {T}. Arguments Bad {T}. Arguments Panics {T}.

(** The operator [?]. *)
Definition bind {A B} (x : result A) (f : A -> result B) : result B :=
  match x with Good a => f a | Bad => Bad | Panics => Panics end.

(** [std::env::var]: an error also if the value is not Unicode. *)
Definition env_var (v : vars) (k : str) : option str :=
  match aget str_eqd v k with Some b => JsonModel.decode b | None => None end.

(** [Command::env]: the variable of the child is set, others are inherited. *)
Definition set_var (v : vars) (k : string) (x : list nat) : vars := aset str_eqd v (lit k) x.

(** [str::trim_end] *)
Definition trim_end (s : str) : str := rev (trim_start (rev s)).

(** W 7-17 [run_and_get_output] *)
Definition run_and_get_output (w : world) (c : command) : result str :=
  match w c with
  | NoSpawn => Bad
  | Proc _ out err ok =>
    if ok then match JsonModel.decode out with Some s => Good (trim_end s) | None => Bad end
    else match JsonModel.decode err with Some _ => Bad | None => Panics end
  end.

(** [toml::Value]; other values than texts and tables are not told apart. *)
Inductive toml := TText (s : str) | TTable (l : list (str * toml)) | TOther.

(** [toml::Value::get] with a text. *)
Definition tget (t : toml) (k : str) : option toml :=
  match t with TTable l => aget str_eqd l k | _ => None end.

(** W 38-50 [toolchain], of the parsed file, if it could be parsed. *)
Definition toolchain (config : option toml) : result str :=
  match config with
  | None => Bad
  | Some t =>
    match tget t (lit "toolchain") with
    | None => Bad
    | Some t1 =>
      match tget t1 (lit "channel") with
      | None => Bad
      | Some (TText s) => Good s
      | Some _ => Panics
      end
    end
  end.

(** W 5 [TOOLCHAIN_TOML], crates/aquascope_workspace_utils/rust-toolchain.toml *)
Definition shipped : option toml :=
  Some (TTable [(lit "toolchain", TTable [(lit "channel", TText (lit "nightly-2024-12-15")); (lit "components", TOther)])]).

(** W 19-36 [rustc] *)
Definition rustc (config : option toml) (v : vars) (w : world) : result str :=
  match env_var v (lit "RUSTC_PATH") with
  | Some s => Good s
  | None =>
    match toolchain config with
    | Panics => Panics
    | Good t => run_and_get_output w (Command (lit "rustup") [lit "which"; lit "--toolchain"; t; lit "rustc"] v)
    | Bad => run_and_get_output w (Command (lit "which") [lit "rustc"] v)
    end
  end.

(** W 60-67: the end of [miri_sysroot]. *)
Definition printed (w : world) (c : command) : result str :=
  match w c with
  | NoSpawn => Bad
  | Proc _ out _ ok =>
    if negb ok then Bad
    else match JsonModel.decode out with Some s => Good (trim_end s) | None => Bad end
  end.

(** W 52-68 [miri_sysroot] *)
Definition miri_sysroot (config : option toml) (v : vars) (w : world) : result str :=
  match env_var v (lit "MIRI_SYSROOT") with
  | Some s => Good s
  | None =>
    let ask pre := printed w (Command (lit "cargo") (pre ++ [lit "miri"; lit "setup"; lit "--print-sysroot"]) v) in
    match toolchain config with
    | Panics => Panics
    | Good t => ask [lit "+" ++ t]
    | Bad => ask []
    end
  end.

(** preprocessor.rs 21-25; the cache is modelled in Cache. *)
Record preprocessor := Preprocessor { p_sysroot : str; p_libdir : str }.

(** preprocessor.rs 28-42 [new]; whether the cache can be loaded is an input. *)
Definition new (config : option toml) (v : vars) (w : world) (cache_ok : bool) : result preprocessor :=
  bind (miri_sysroot config v w) (fun s =>
  bind (rustc config v w) (fun r =>
  bind (run_and_get_output w (Command r [lit "--print"; lit "target-libdir"] v)) (fun l =>
  if cache_ok then Good (Preprocessor s l) else Bad))).

(** The bytes of a text. *)
Definition bytes (s : str) : list nat := flat_map ValuesModel.utf8 s.

(** preprocessor.rs 66-71 *)
Definition child_vars (p : preprocessor) (v : vars) : vars :=
  let v := set_var v "SYSROOT" (bytes (p_sysroot p)) in
  let v := set_var v "MIRI_SYSROOT" (bytes (p_sysroot p)) in
  let v := set_var v "DYLD_LIBRARY_PATH" (bytes (p_libdir p)) in
  let v := set_var v "LD_LIBRARY_PATH" (bytes (p_libdir p)) in
  set_var v "RUST_BACKTRACE" (lit "1").

(** preprocessor.rs 64-84 *)
Definition tool_command (p : preprocessor) (v : vars) (args : list str) : command :=
  Command (lit "cargo") (lit "aquascope" :: args) (child_vars p v).

(** The world of [run_aquascope] of Run, with these commands. *)
Definition around (p : preprocessor) (v : vars) (w : world) (temp write : bool) (new : option bool) (pipe : nat) : env :=
  Env temp new write (fun _ args => w (tool_command p v args)) pipe JsonModel.decode JsonModel.from_str.

(** container.rs 194-206 [permissions_command], 208-226 [interpreter_command] *)
Definition server_command (config : option toml) (v : vars) (w : world) (op : str) (options : option json) : result command :=
  let log := if str_eqd op (lit "permissions") then lit "trace" else lit "debug" in
  let v1 := set_var (set_var v "RUST_LOG" log) "RUST_BACKTRACE" (lit "1") in
  bind (miri_sysroot config v w) (fun s =>
  Good (Command (lit "cargo") (lit "--quiet" :: lit "aquascope" :: server_args op options) (set_var v1 "MIRI_SYSROOT" (bytes s)))).
