(** * Model of running the analysis: the preprocessor, the command line, the server

    Sources: M/preprocessor.rs (run_aquascope), F/plugin.rs (arguments and
    output), S/server.rs, S/container.rs, S/main.rs, and the request made by
    frontend/packages/aquascope-standalone/src/index.tsx. *)

From Coq Require Import Ascii String.
From Coq Require Import List Arith ZArith Bool.
From Verif Require Import Base ValuesModel BookModel.
Import ListNotations.

(** [serde_json::Value].  [JNeg n] is the number -(n + 1); [JReal neg m e] is m * 10^e with a sign, a number that
    is written with a fraction or an exponent, or minus zero. *)
Inductive json :=
  JNull | JBool (b : bool) | JNum (n : nat) | JNeg (n : nat) | JReal (neg : bool) (m : nat) (e : Z) | JStr (s : str) | JArr (l : list json) | JObj (l : list (str * json)).

(** [Value::get] with a string: nothing unless the value is an object. *)
Definition jget (k : str) (j : json) : option json :=
  match j with JObj l => aget str_eqd l k | _ => None end.
Definition is_some {T} (o : option T) : bool := match o with Some _ => true | None => false end.

(** What a command does: it cannot be started, or it runs for some seconds, writes
    to its two outputs and exits successfully or not. *)
Inductive proc := NoSpawn | Proc (secs : nat) (out err : list nat) (ok : bool).

(** ** The preprocessor *)

(** The world around [run_aquascope]: whether a temporary directory can be made,
    how [cargo new] ends (cannot start, exit status), whether the source can be
    written, what the n-th command does, how much a pipe holds, and the decoders. *)
Record env := Env {
  temp_ok : bool;
  cargo_new : option bool;
  write_ok : bool;
  exec : nat -> list str -> proc;
  pipe : nat;
  from_utf8 : list nat -> option str;
  from_json : str -> option json }.

(** The errors of [run_aquascope], in the order of the code. *)
Inductive run_error := ETemp | ECargoSpawn | ECargo | EWrite | ESpawn | ETimeout | EFailed | EUtf8 | EJson | EReported | EBuild.

(** preprocessor.rs 74, 81 *)
Definition has_option (k : str) (b : block) : bool := existsb (fun o => if str_eqd (fst o) k then true else false) (options b).

(** preprocessor.rs 64-84: the arguments after [cargo aquascope]. *)
Definition run_args (b : block) (op : str) : list str :=
  (if has_option (lit "shouldFail") b then [lit "--should-fail"] else [])
  ++ [op]
  ++ (if has_option (lit "showFlows") b then [lit "--show-flows"] else []).

(** preprocessor.rs 88-91 [wait_timeout]: nobody reads the pipes while waiting, so
    a process that writes more than a pipe holds does not end. *)
Definition ends_in_time (e : env) (secs : nat) (out err : list nat) : bool :=
  (secs <? 10) && (length out <=? pipe e) && (length err <=? pipe e).

(** preprocessor.rs 105-109 *)
Definition is_err (j : json) : bool :=
  match j with
  | JObj _ => is_some (jget (lit "Err") j)
  | JArr l => existsb (fun x => is_some (jget (lit "Err") x)) l
  | _ => false
  end.

(** preprocessor.rs 118-122 *)
Definition is_build_error (j : json) : bool :=
  match jget (lit "type") j with Some (JStr s) => if str_eqd s (lit "BuildError") then true else false | _ => false end.

(** preprocessor.rs 86-124: one operation, the [i]-th.  Simplification: a failing
    [kill], [wait] or decoding of an error message is an error all the same. *)
Definition run_op (e : env) (b : block) (i : nat) (op : str) : run_error + json :=
  match exec e i (run_args b op) with
  | NoSpawn => inl ESpawn
  | Proc secs out err ok =>
    if negb (ends_in_time e secs out err) then inl ETimeout
    else if negb ok then inl EFailed
    else match from_utf8 e out with
         | None => inl EUtf8
         | Some s =>
           match from_json e s with
           | None => inl EJson
           | Some j => if is_err j then inl EReported else if is_build_error j then inl EBuild else inr j
           end
         end
  end.

(** preprocessor.rs 62-125 *)
Fixpoint run_ops (e : env) (b : block) (i : nat) (ops : list str) (acc : list (str * json)) : run_error + list (str * json) :=
  match ops with
  | [] => inr acc
  | op :: r => match run_op e b i op with inl er => inl er | inr j => run_ops e b (S i) r (aset str_eqd acc op j) end
  end.

(** preprocessor.rs 45-128 [run_aquascope]; the map is returned instead of its text. *)
Definition run_aquascope (e : env) (b : block) : run_error + list (str * json) :=
  if negb (temp_ok e) then inl ETemp
  else match cargo_new e with
       | None => inl ECargoSpawn
       | Some false => inl ECargo
       | Some true => if negb (write_ok e) then inl EWrite else run_ops e b 0 (operations b) []
       end.

(** ** The command line tool *)

(** plugin.rs 40-54 [AquascopeCommand]; the include mode is never passed. *)
Inductive command := CPermissions (show_flows : bool) | CInterpreter | CPreload | CRustcVersion.
(** plugin.rs 30-38 [AquascopePluginArgs] *)
Record cli := Cli { should_fail : bool; cmd : command }.

(** What clap derives from 30-54: a flag before the command and one after
    [permissions]; anything else is rejected.  Simplification: clap's own
    [--help], [--version] and [help], and the include mode, are left out. *)
Definition parse_command (args : list str) : option command :=
  match args with
  | [c] =>
      if str_eqd c (lit "permissions") then Some (CPermissions false)
      else if str_eqd c (lit "interpreter") then Some CInterpreter
      else if str_eqd c (lit "preload") then Some CPreload
      else if str_eqd c (lit "rustc-version") then Some CRustcVersion
      else None
  | [c; f] =>
      if str_eqd c (lit "permissions") then if str_eqd f (lit "--show-flows") then Some (CPermissions true) else None else None
  | _ => None
  end.
Definition parse_args (args : list str) : option cli :=
  match args with
  | a :: r => if str_eqd a (lit "--should-fail") then option_map (Cli true) (parse_command r) else option_map (Cli false) (parse_command args)
  | [] => None
  end.

(** How the analysis of a body ends: with a result, with rustc's fatal error, or with any
    other panic. *)
Inductive verdict := Analysed (r : json + json) | Fatal | Panics.

(** What rustc and Miri find out about the program: whether it gets through macro
    expansion, the analysis of each body with and without flows, and the
    execution, depending on whether borrow checking is switched off; [None] if
    there is none because the program was rejected before. *)
Record program := Program {
  expands : bool;
  bodies : bool -> list verdict;
  execution : bool -> option (json + unit) }.

(** serde's representation of [Result]. *)
Definition jresult (r : json + json) : json :=
  match r with inl v => JObj [(lit "Ok", v)] | inr x => JObj [(lit "Err", x)] end.
(** analysis/mod.rs: [AquascopeError::BuildError], tagged by its name. *)
Definition jbuild_error : json := JObj [(lit "type", JStr (lit "BuildError")); (lit "range", JNull)].

(** plugin.rs 227-252 [after_expansion] under 162-183 [run_with_callbacks]: the bodies are
    analysed one after the other, and the results are pushed to a vector that outlives the
    compilation.  [catch_fatal_errors] ends the compilation at a fatal error and passes any
    other panic on; [None] is such a panic. *)
Fixpoint analyze_bodies (l : list verdict) (output : list json) : option (list json) :=
  match l with
  | [] => Some output
  | Analysed r :: t => analyze_bodies t (output ++ [jresult r])
  | Fatal :: _ => Some output
  | Panics :: _ => None
  end.

(** plugin.rs 107-147 [run]: what is printed, and whether the tool succeeds;
    the result of the compilation itself is ignored (130, 137). *)
Definition tool_run (p : program) (c : cli) : option json :=
  match cmd c with
  | CPermissions flows => if expands p then option_map JArr (analyze_bodies (bodies p flows) []) else Some (JArr [])
  | CInterpreter =>
      match execution p (should_fail c) with
      | None => None
      | Some (inl v) => Some (jresult (inl v))
      | Some (inr _) => Some (jresult (inr jbuild_error))
      end
  | _ => None
  end.

(** The tool as a process: [print] is what serde writes, in [secs] seconds.  For
    [preload] and [rustc-version] nothing is printed that is JSON. *)
Definition tool (print : json -> list nat) (secs : nat) (p : program) (args : list str) : proc :=
  match parse_args args with
  | None => Proc secs [] [] false
  | Some c => match tool_run p c with Some j => Proc secs (print j) [] true | None => Proc secs [] [] false end
  end.

(** ** The server *)

Inductive method := GET | POST | OtherMethod.
(** main.rs 60-64 [SingleFileRequest], or nothing if the body is not one. *)
Record request := Request { r_method : method; r_path : str; r_body : option (str * option json) }.

(** main.rs 66-71 [ServerResponse], [ErrorJson] or plain text. *)
Inductive body := BText (s : str) | BError | BResponse (success : bool) (out err : str).
(** A response with a status, or a panic in the handler: the connection ends without one. *)
Inductive answer := Answer (status : nat) (b : body) | Dropped.

(** The world around one request. *)
Record senv := SEnv {
  s_temp_ok : bool;
  s_new : proc;
  s_write_ok : bool;
  s_sysroot_ok : bool;
  s_exec : list str -> proc;
  s_utf8 : list nat -> option str }.

(** container.rs: what a step of the handler does. *)
Inductive step (T : Type) := Go (x : T) | SErr | Panic.
Arguments Go {T}. Arguments SErr {T}. Arguments Panic {T}.
Definition sbind {A B} (x : step A) (f : A -> step B) : step B :=
  match x with Go a => f a | SErr => SErr | Panic => Panic end.

(** container.rs 82-105 [exec_output]: the outputs are read while waiting; the
    exit status is not looked at. *)
Definition exec_output (e : senv) (p : proc) : step (str * str) :=
  match p with
  | NoSpawn => SErr
  | Proc secs out err _ =>
    if negb (secs <? 20) then SErr
    else match s_utf8 e out, s_utf8 e err with
         | Some o, Some r => Go (o, r)
         | _, _ => Panic
         end
  end.

(** [str::trim().is_empty()]: only white space. *)
Definition blank (s : str) : bool := forallb is_white s.

(** container.rs 50-60, 107-130 [Container::new] *)
Definition new_container (e : senv) : step unit :=
  if negb (s_temp_ok e) then SErr
  else sbind (exec_output e (s_new e)) (fun '(_, err) => if blank err then Go tt else Panic).

(** container.rs 207-226; the value of the option is not looked at. *)
Definition wants_failure (config : option json) : bool :=
  match config with Some c => is_some (jget (lit "shouldFail") c) | None => false end.

(** container.rs 194-226: the arguments after [cargo --quiet aquascope]. *)
Definition server_args (op : str) (config : option json) : list str :=
  if str_eqd op (lit "permissions") then [lit "permissions"]
  else (if wants_failure config then [lit "--should-fail"] else []) ++ [lit "interpreter"].

(** container.rs 152-192 [permissions], [interpreter] *)
Definition run_in_container (e : senv) (op : str) (config : option json) : step body :=
  if negb (s_write_ok e) then SErr
  else if negb (s_sysroot_ok e) then SErr
  else sbind (exec_output e (s_exec e (server_args op config))) (fun '(o, r) => Go (BResponse (negb (blank o)) o r)).

(** server.rs 50-96, 121-131; main.rs 87-92: an endpoint.  The text of errors is
    left out. *)
Definition endpoint (e : senv) (op : str) (b : option (str * option json)) : answer :=
  match b with
  | None => Answer 200 BError
  | Some (_, config) =>
    match sbind (new_container e) (fun _ => run_in_container e op config) with
    | Go r => Answer 200 r
    | SErr => Answer 500 (BText [])
    | Panic => Dropped
    end
  end.

(** server.rs 22-32: the routes. *)
Inductive route := RHi | ROp (op : str) | RNone.
Definition route_of (path : str) : route :=
  if str_eqd path (lit "/hi") then RHi
  else if str_eqd path (lit "/permissions") then ROp (lit "permissions")
  else if str_eqd path (lit "/interpreter") then ROp (lit "interpreter")
  else RNone.

(** server.rs 22-32, 98-104.  Simplification: HEAD and the OPTIONS answered by the
    CORS layer are left out. *)
Definition handle (e : senv) (r : request) : answer :=
  match route_of (r_path r), r_method r with
  | RHi, GET => Answer 200 (BText (lit "HELLO!"))
  | ROp op, POST => endpoint e op (r_body r)
  | RNone, _ => Answer 404 (BText (lit "No route " ++ r_path r))
  | _, _ => Answer 405 (BText [])
  end.

(** container.rs 86-98: when the time is over the future of [Command::output] is
    dropped; without [kill_on_drop] the process goes on. *)
Definition left_running (p : proc) : nat :=
  match p with Proc secs _ _ _ => if secs <? 20 then 0 else 1 | NoSpawn => 0 end.
(** How many processes one request leaves behind. *)
Definition leftovers (e : senv) (r : request) : nat :=
  match route_of (r_path r), r_method r, r_body r with
  | ROp op, POST, Some (_, config) =>
      if negb (s_temp_ok e) then 0
      else left_running (s_new e) +
           match new_container e with
           | Go _ => if s_write_ok e && s_sysroot_ok e then left_running (s_exec e (server_args op config)) else 0
           | _ => 0
           end
  | _, _, _ => 0
  end.

(** index.tsx 133-140: the configuration the web page sends with "interpreter". *)
Definition page_config (passes_borrow_checker : bool) : option json :=
  Some (JObj [(lit "shouldFail", JBool (negb passes_borrow_checker))]).

(** lib.tsx 241-308: what the page does with an answer: it shows the outputs,
    reports standard error, reports nothing but [undefined], or the promise is
    rejected because the body is not JSON (or there is none). *)
Inductive page := PShow (out : str) | PStderr (err : str) | PUndefined | PRejected.
Definition page_of (a : answer) : page :=
  match a with
  | Answer _ (BResponse true o _) => PShow o
  | Answer _ (BResponse false _ r) => PStderr r
  | Answer _ BError => PUndefined
  | Answer _ (BText _) => PRejected
  | Dropped => PRejected
  end.
