(** * What it means that the tool is run with the right toolchain *)
From Coq Require Import Ascii String.
From Coq Require Import List.
From Verif Require Import Base BookModel RunModel StartModel.
From Verif Require BookSpec JsonSpec.
Import ListNotations.
Local Open Scope list_scope.

(** The bytes [b] are the text [s] in UTF-8. *)
Definition Utf8 (b : list nat) (s : str) : Prop := Forall JsonSpec.Scalar s /\ b = flat_map ValuesModel.utf8 s.

(** In [v] the variable [k] has the value [b], or none. *)
Definition Has (v : vars) (k : str) (b : option (list nat)) : Prop := aget str_eqd v k = b.

(** ... and it can be read as the text [s]. *)
Definition Reads (v : vars) (k : str) (s : str) : Prop := exists b, Has v k (Some b) /\ Utf8 b s.

(** [t] is [s] without the white space at its end. *)
Definition NoTail (s t : str) : Prop :=
  exists ws, s = t ++ ws /\ Forall BookSpec.White ws /\ forall c r, t = r ++ [c] -> ~ BookSpec.White c.

(** The command [c] succeeds and prints [t], and perhaps an end of line. *)
Definition Says (w : world) (c : command) (t : str) : Prop :=
  exists secs out err s, w c = Proc secs out err true /\ Utf8 out s /\ NoTail s t.

(** The toolchain that Aquascope was made for. *)
Definition ours : str := lit "nightly-2024-12-15".

(** Miri's standard library: what the user says, else what our toolchain says. *)
Definition Sysroot (v : vars) (w : world) (s : str) : Prop :=
  Reads v (lit "MIRI_SYSROOT") s \/
  (forall x, ~ Reads v (lit "MIRI_SYSROOT") x) /\
  Says w (Command (lit "cargo") [lit "+nightly-2024-12-15"; lit "miri"; lit "setup"; lit "--print-sysroot"] v) s.

(** The compiler: what the user says, else that of our toolchain. *)
Definition Compiler (v : vars) (w : world) (r : str) : Prop :=
  Reads v (lit "RUSTC_PATH") r \/
  (forall x, ~ Reads v (lit "RUSTC_PATH") x) /\
  Says w (Command (lit "rustup") [lit "which"; lit "--toolchain"; ours; lit "rustc"] v) r.

(** The directory with the libraries of the compiler [r]. *)
Definition Libraries (v : vars) (w : world) (r l : str) : Prop :=
  Says w (Command r [lit "--print"; lit "target-libdir"] v) l.

(** The command [c] fails with a message that is not UTF-8. *)
Definition Garbled (w : world) (c : command) : Prop :=
  exists secs out err, w c = Proc secs out err false /\ forall s, ~ Utf8 err s.

(** The variables that the preprocessor sets for the tool. *)
Inductive SetBy (p : preprocessor) : str -> list nat -> Prop :=
| set_sysroot : SetBy p (lit "SYSROOT") (flat_map ValuesModel.utf8 (p_sysroot p))
| set_miri : SetBy p (lit "MIRI_SYSROOT") (flat_map ValuesModel.utf8 (p_sysroot p))
| set_dyld : SetBy p (lit "DYLD_LIBRARY_PATH") (flat_map ValuesModel.utf8 (p_libdir p))
| set_ld : SetBy p (lit "LD_LIBRARY_PATH") (flat_map ValuesModel.utf8 (p_libdir p))
| set_backtrace : SetBy p (lit "RUST_BACKTRACE") (lit "1").

(** Two environments of the preprocessor differ only in what it sets itself. *)
Definition AlikeBut (p : preprocessor) (v v' : vars) : Prop :=
  forall k, aget str_eqd v k = aget str_eqd v' k \/ exists b, SetBy p k b.

(** What a command does depends on the values of its variables only, not on how
    the environment is represented. *)
Definition Extensional (w : world) : Prop :=
  forall q a v v', (forall k, aget str_eqd v k = aget str_eqd v' k) -> w (Command q a v) = w (Command q a v').
