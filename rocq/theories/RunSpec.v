(** * Specification of running the analysis *)

From Coq Require Import Ascii String.
From Coq Require Import List Arith.
From Verif Require BookSpec.
From Verif Require Import Base BookModel RunModel.
Import ListNotations.

(** A response reports an error: it is an error, contains one, or is a build error. *)
Inductive Reports : json -> Prop :=
| reports_err l x : aget str_eqd l (lit "Err") = Some x -> Reports (JObj l)
| reports_some l m x : In (JObj m) l -> aget str_eqd m (lit "Err") = Some x -> Reports (JArr l)
| reports_build l : aget str_eqd l (lit "type") = Some (JStr (lit "BuildError")) -> Reports (JObj l).

(** The [i]-th operation succeeded with response [j]. *)
Definition Succeeded (e : env) (b : block) (i : nat) (op : str) (j : json) : Prop :=
  exists secs out err text,
    exec e i (run_args b op) = Proc secs out err true /\ secs < 10 /\
    length out <= pipe e /\ length err <= pipe e /\
    from_utf8 e out = Some text /\ from_json e text = Some j /\ ~ Reports j.

(** The project could be set up. *)
Definition SetUp (e : env) : Prop := temp_ok e = true /\ cargo_new e = Some true /\ write_ok e = true.

(** The command of the [i]-th operation wrote [out], in time. *)
Definition Wrote (e : env) (b : block) (i : nat) (op : str) (ok : bool) (out : list nat) : Prop :=
  exists secs err, exec e i (run_args b op) = Proc secs out err ok /\ secs < 10 /\ length out <= pipe e /\ length err <= pipe e.

(** How the [i]-th operation can fail. *)
Inductive OpFails (e : env) (b : block) (i : nat) (op : str) : run_error -> Prop :=
| fails_spawn : exec e i (run_args b op) = NoSpawn -> OpFails e b i op ESpawn
| fails_timeout secs out err ok : exec e i (run_args b op) = Proc secs out err ok ->
    10 <= secs \/ pipe e < length out \/ pipe e < length err -> OpFails e b i op ETimeout
| fails_exit out : Wrote e b i op false out -> OpFails e b i op EFailed
| fails_utf8 out : Wrote e b i op true out -> from_utf8 e out = None -> OpFails e b i op EUtf8
| fails_json out s : Wrote e b i op true out -> from_utf8 e out = Some s -> from_json e s = None -> OpFails e b i op EJson
| fails_reported out s j : Wrote e b i op true out -> from_utf8 e out = Some s -> from_json e s = Some j ->
    (exists l x, j = JObj l /\ aget str_eqd l (lit "Err") = Some x) \/
    (exists l m x, j = JArr l /\ In (JObj m) l /\ aget str_eqd m (lit "Err") = Some x) -> OpFails e b i op EReported
| fails_build out s l : Wrote e b i op true out -> from_utf8 e out = Some s -> from_json e s = Some (JObj l) ->
    aget str_eqd l (lit "Err") = None -> aget str_eqd l (lit "type") = Some (JStr (lit "BuildError")) -> OpFails e b i op EBuild.

(** How a block can fail: while its project is set up, or at its first operation that fails. *)
Inductive Fails (e : env) (b : block) : run_error -> Prop :=
| fails_temp : temp_ok e = false -> Fails e b ETemp
| fails_cargo_spawn : temp_ok e = true -> cargo_new e = None -> Fails e b ECargoSpawn
| fails_cargo : temp_ok e = true -> cargo_new e = Some false -> Fails e b ECargo
| fails_write : temp_ok e = true -> cargo_new e = Some true -> write_ok e = false -> Fails e b EWrite
| fails_op i op er : SetUp e -> nth_error (operations b) i = Some op -> OpFails e b i op er ->
    (forall k o, k < i -> nth_error (operations b) k = Some o -> exists j, Succeeded e b k o j) -> Fails e b er.

(** [i] is the last place where [op] occurs. *)
Definition LastAt (ops : list str) (op : str) (i : nat) : Prop :=
  nth_error ops i = Some op /\ forall i', i < i' -> nth_error ops i' <> Some op.

(** The commands are runs of the tool on program [p] that take less than ten
    seconds, and whose output fits into a pipe and can be read back. *)
Record Runs (e : env) (p : program) (print : json -> list nat) (secs : nat) : Prop := {
  runs_setup : SetUp e;
  runs_exec : forall i args, exec e i args = tool print secs p args;
  runs_in_time : secs < 10;
  runs_reads : forall c j, tool_run p c = Some j ->
    length (print j) <= pipe e /\ exists s, from_utf8 e (print j) = Some s /\ from_json e s = Some j }.

(** The entry of a body whose analysis has a result. *)
Inductive Entry : verdict -> json -> Prop :=
| entry_ok v : Entry (Analysed (inl v)) (JObj [(lit "Ok", v)])
| entry_err x : Entry (Analysed (inr x)) (JObj [(lit "Err", x)]).

(** A request to run an operation. *)
Definition Asks (r : request) (op : str) (config : option json) : Prop :=
  r_method r = POST /\ r_path r = lit "/" ++ op /\ (op = lit "permissions" \/ op = lit "interpreter") /\
  exists code, r_body r = Some (code, config).

(** The command ended in time and its outputs are text. *)
Definition Ended (e : senv) (p : proc) (out err : str) : Prop :=
  exists secs o r ok, p = Proc secs o r ok /\ secs < 20 /\ s_utf8 e o = Some out /\ s_utf8 e r = Some err.

(** The container could be made. *)
Definition ContainerMade (e : senv) : Prop :=
  s_temp_ok e = true /\ exists out err, Ended e (s_new e) out err /\ forall c, In c err -> BookSpec.White c.
