(** * C128: the tool is run with the toolchain it was made for *)
From Coq Require Import Ascii String.
From Coq Require Import List Arith Bool Lia.
From Verif Require Import Base BookModel RunModel StartModel StartSpec StartProofs.
From Verif Require BookSpec JsonModel JsonSpec JsonProofs PropBook RunProofs.
Import ListNotations.
Local Open Scope list_scope.

(** The preprocessor starts exactly if it learns where Miri's library, the compiler and its libraries are and can read its cache;
    and what it then takes for them is that. *)
Theorem C128_start v w cache_ok p :
  new shipped v w cache_ok = Good p <->
  cache_ok = true /\ Sysroot v w (p_sysroot p) /\ exists r, Compiler v w r /\ Libraries v w r (p_libdir p).
Proof.
  unfold new, bind, Libraries. split.
  - destruct (miri_sysroot shipped v w) as [s| |] eqn:A; [|discriminate|discriminate].
    destruct (rustc shipped v w) as [r| |] eqn:B; [|discriminate|discriminate].
    destruct (run_and_get_output w _) as [l| |] eqn:D; [|discriminate|discriminate].
    destruct cache_ok; [|discriminate]. intros [= <-]. apply sysroot_good in A. apply rustc_good in B. apply output_good in D.
    split; [reflexivity|]. split; [exact A|]. exists r. split; [exact B|exact D].
  - intros (-> & A & r & B & D). apply sysroot_good in A. apply rustc_good in B. apply output_good in D. rewrite A, B, D. destruct p. reflexivity.
Qed.
Print Assumptions C128_start.

(** There is at most one such place, so that two starts with the same environment agree. *)
Theorem C128_unique v w s s' r r' l l' :
  (Sysroot v w s -> Sysroot v w s' -> s = s') /\ (Compiler v w r -> Compiler v w r' -> r = r') /\ (Libraries v w r l -> Libraries v w r l' -> l = l').
Proof.
  split; [|split]; intros A B.
  - apply sysroot_good in A, B. congruence.
  - apply rustc_good in A, B. congruence.
  - apply output_good in A, B. congruence.
Qed.
Print Assumptions C128_unique.

(** It never panics but for one reason: a question to rustup or to the compiler fails with a message that is not UTF-8. *)
Theorem C128_panics v w cache_ok :
  new shipped v w cache_ok = Panics <->
  (exists s, Sysroot v w s) /\
  ((forall x, ~ Reads v (lit "RUSTC_PATH") x) /\ Garbled w (Command (lit "rustup") [lit "which"; lit "--toolchain"; ours; lit "rustc"] v) \/
   exists r, Compiler v w r /\ Garbled w (Command r [lit "--print"; lit "target-libdir"] v)).
Proof.
  unfold new, bind. split.
  - destruct (miri_sysroot shipped v w) as [s| |] eqn:A; [|discriminate|elim (sysroot_calm v w A)]. apply sysroot_good in A.
    destruct (rustc shipped v w) as [r| |] eqn:B; [|discriminate|].
    + destruct (run_and_get_output w _) as [l| |] eqn:D; [destruct cache_ok; discriminate|discriminate|].
      intros _. split; [exists s; exact A|]. right. exists r. split; [apply rustc_good, B|apply output_panics, D].
    + intros _. split; [exists s; exact A|]. left. unfold rustc in B. destruct (env_var v (lit "RUSTC_PATH")) eqn:E; [discriminate|].
      rewrite toolchain_shipped in B. split; [apply env_var_none, E|apply output_panics, B].
  - intros ((s & A) & [[N G]|(r & B & G)]); apply sysroot_good in A; rewrite A; apply output_panics in G.
    + unfold rustc. apply env_var_none in N. rewrite N, toolchain_shipped, G. reflexivity.
    + apply rustc_good in B. rewrite B, G. reflexivity.
Qed.
Print Assumptions C128_panics.

(** The tool is called the same way for every block and operation: with the library and the libraries found at the start,
    whatever the user's own values are, and else with the variables of the user. *)
Theorem C128_children p v b op k :
  let c := tool_command p v (run_args b op) in
  c_program c = lit "cargo" /\
  c_args c = lit "aquascope" :: run_args b op /\
  (forall x, SetBy p k x -> Has (c_vars c) k (Some x)) /\
  ((forall x, ~ SetBy p k x) -> Has (c_vars c) k (aget str_eqd v k)).
Proof. cbv zeta. split; [reflexivity|]. split; [reflexivity|]. exact (child_has p v k). Qed.
Print Assumptions C128_children.

(** So a block gives the same answer in all environments that differ only in these variables. *)
Theorem C128_same_answers p v v' w temp write cargo pipe b :
  Extensional w -> AlikeBut p v v' ->
  run_aquascope (around p v w temp write cargo pipe) b = run_aquascope (around p v' w temp write cargo pipe) b.
Proof.
  intros X A. assert (E : forall args, w (tool_command p v args) = w (tool_command p v' args)).
  { intros args. apply X. intros k. destruct (child_has p v k) as [S1 N1]. destruct (child_has p v' k) as [S2 N2]. unfold Has in *.
    assert (D : (exists b, SetBy p k b) \/ forall b, ~ SetBy p k b).
    { destruct (str_eqd k (lit "SYSROOT")) as [->|N0]; [left; eexists; constructor|].
      destruct (str_eqd k (lit "MIRI_SYSROOT")) as [->|N3]; [left; eexists; constructor|].
      destruct (str_eqd k (lit "DYLD_LIBRARY_PATH")) as [->|N4]; [left; eexists; constructor|].
      destruct (str_eqd k (lit "LD_LIBRARY_PATH")) as [->|N5]; [left; eexists; constructor|].
      destruct (str_eqd k (lit "RUST_BACKTRACE")) as [->|N6]; [left; eexists; constructor|].
      right. intros x H. destruct H; congruence. }
    destruct D as [(x & H)|N]; [rewrite (S1 x H), (S2 x H); reflexivity|]. rewrite (N1 N), (N2 N). destruct (A k) as [Q|(x & H)]; [exact Q|elim (N x H)]. }
  assert (O : forall ops i acc, run_ops (around p v w temp write cargo pipe) b i ops acc = run_ops (around p v' w temp write cargo pipe) b i ops acc).
  { induction ops as [|op ops IH]; intros i acc; cbn [run_ops]; [reflexivity|].
    assert (R : run_op (around p v w temp write cargo pipe) b i op = run_op (around p v' w temp write cargo pipe) b i op).
    { unfold run_op. cbn [around exec]. rewrite E. reflexivity. }
    rewrite R. destruct (run_op (around p v' w temp write cargo pipe) b i op); [reflexivity|apply IH]. }
  unfold run_aquascope. cbn [around temp_ok cargo_new write_ok]. destruct temp; [|reflexivity]. cbn [negb]. destruct cargo as [[]|]; try reflexivity.
  destruct write; [|reflexivity]. cbn [negb]. apply O.
Qed.
Print Assumptions C128_same_answers.

(** The server calls the tool if and only if it learns where Miri's library is: the same one that the preprocessor would take
    in the same environment.  Of the other variables it sets two, how much is logged. *)
Theorem C128_server v w op options :
  (forall c, server_command shipped v w op options = Good c ->
     exists s, Sysroot v w s /\ c_program c = lit "cargo" /\ c_args c = lit "--quiet" :: lit "aquascope" :: server_args op options /\
       Has (c_vars c) (lit "MIRI_SYSROOT") (Some (flat_map ValuesModel.utf8 s)) /\
       Has (c_vars c) (lit "RUST_BACKTRACE") (Some (lit "1")) /\
       Has (c_vars c) (lit "RUST_LOG") (Some (if str_eqd op (lit "permissions") then lit "trace" else lit "debug")) /\
       forall k, ~ In k [lit "MIRI_SYSROOT"; lit "RUST_BACKTRACE"; lit "RUST_LOG"] -> Has (c_vars c) k (aget str_eqd v k)) /\
  ((exists c, server_command shipped v w op options = Good c) <-> exists s, Sysroot v w s) /\
  server_command shipped v w op options <> Panics.
Proof.
  unfold server_command. cbv zeta. destruct (miri_sysroot shipped v w) as [s| |] eqn:A; cbn [bind].
  - apply sysroot_good in A. split; [|split; [|discriminate]].
    + intros c E. apply (f_equal (fun r => match r with Good x => x | _ => c end)) in E. cbv beta iota in E. subst c. exists s. split; [exact A|]. split; [reflexivity|]. split; [reflexivity|]. cbn [c_vars]. unfold Has.
      split; [|split; [|split]].
      * rewrite aget_set. destruct (str_eqd _ _) as [_|Q]; [reflexivity|elim Q; reflexivity].
      * rewrite !aget_set. destruct (str_eqd _ _) as [Q|_]; [vm_compute in Q; discriminate Q|]. destruct (str_eqd _ _) as [_|Q]; [reflexivity|elim Q; reflexivity].
      * rewrite !aget_set. destruct (str_eqd (lit "RUST_LOG") _) as [Q|_]; [vm_compute in Q; discriminate Q|].
        destruct (str_eqd (lit "RUST_LOG") _) as [Q|_]; [vm_compute in Q; discriminate Q|]. destruct (str_eqd (lit "RUST_LOG") _) as [_|Q]; [reflexivity|elim Q; reflexivity].
      * intros k N. cbn [In] in N. rewrite !aget_set. repeat (destruct (str_eqd k _) as [Q|_]; [elim N; rewrite Q; auto|]). reflexivity.
    + split; intros _; [exists s; exact A|eexists; reflexivity].
  - split; [discriminate|]. split; [|discriminate]. split; [intros [c E]; discriminate|]. intros [s B]. apply sysroot_good in B. congruence.
  - elim (sysroot_calm v w A).
Qed.
Print Assumptions C128_server.

(** It says nothing about the libraries: the tool of the server has whatever search path the server has, and that of the
    preprocessor never has the user's. *)
Theorem C128_libraries_refuted v w op options c l p args :
  server_command shipped v w op options = Good c -> Has v (lit "LD_LIBRARY_PATH") l ->
  Has (c_vars c) (lit "LD_LIBRARY_PATH") l /\
  Has (c_vars (tool_command p v args)) (lit "LD_LIBRARY_PATH") (Some (flat_map ValuesModel.utf8 (p_libdir p))).
Proof.
  intros E H. destruct (C128_server v w op options) as (K & _ & _). destruct (K c E) as (s & _ & _ & _ & _ & _ & _ & O). split.
  - unfold Has in *. rewrite <- H. apply O. cbn [In]. intros [Q|[Q|[Q|[]]]]; vm_compute in Q; discriminate Q.
  - destruct (child_has p v (lit "LD_LIBRARY_PATH")) as [S0 _]. exact (S0 _ (set_ld p)).
Qed.
Print Assumptions C128_libraries_refuted.

(** The two places need not belong to one toolchain: where Miri's library is given by the user, any libraries may go with it. *)
Theorem C128_mixed_refuted v s l :
  Reads v (lit "MIRI_SYSROOT") s -> (forall x, ~ Reads v (lit "RUSTC_PATH") x) -> Forall JsonSpec.Scalar l -> (forall c r, l = r ++ [c] -> ~ BookSpec.White c) ->
  exists w, new shipped v w true = Good (Preprocessor s l).
Proof.
  intros R N F NW. exists (fun _ => Proc 0 (flat_map ValuesModel.utf8 l) [] true). apply C128_start. cbn [p_sysroot p_libdir].
  assert (G : forall c, Says (fun _ => Proc 0 (flat_map ValuesModel.utf8 l) [] true) c l).
  { intros c. exists 0, (flat_map ValuesModel.utf8 l), [], l. split; [reflexivity|]. split; [split; [exact F|reflexivity]|].
    exists []. rewrite app_nil_r. split; [reflexivity|]. split; [constructor|exact NW]. }
  split; [reflexivity|]. split; [left; exact R|]. exists l. split; [right; split; [exact N|apply G]|apply G].
Qed.
Print Assumptions C128_mixed_refuted.

(** A directory whose name ends with white space is not found: another one is taken. *)
Theorem C128_blank_refuted v w secs err dir p :
  (forall x, ~ Reads v (lit "MIRI_SYSROOT") x) ->
  w (Command (lit "cargo") [lit "+nightly-2024-12-15"; lit "miri"; lit "setup"; lit "--print-sysroot"] v) =
    Proc secs (flat_map ValuesModel.utf8 (dir ++ [32; 10])) err true ->
  new shipped v w true = Good p -> p_sysroot p <> dir ++ [32].
Proof.
  intros N W E. apply C128_start in E as (_ & [R|[_ (secs' & out & err' & s & W' & U & ws & Es & F & NW)]] & _); [elim (N _ R)|].
  rewrite W in W'. injection W' as _ Eo _. intros Ep. apply (NW 32 dir Ep). apply PropBook.white_iff. reflexivity.
Qed.
Print Assumptions C128_blank_refuted.

(** A user of a Mac with an own library path; the toolchain is asked for all else. *)
Module StartDemo.
  Definition mine : vars := [(lit "HOME", lit "/u"); (lit "LD_LIBRARY_PATH", lit "/opt/lib"); (lit "SYSROOT", lit "/old")].
  Definition says (s : string) : proc := Proc 1 (lit s ++ [10]) [] true.
  Definition w (c : command) : proc :=
    if str_eqd (c_program c) (lit "cargo") then says "/miri"
    else if str_eqd (c_program c) (lit "rustup") then says "/tc/rustc"
    else if str_eqd (c_program c) (lit "/tc/rustc") then says "/tc/lib" else NoSpawn.
  Definition pre : preprocessor := Preprocessor (lit "/miri") (lit "/tc/lib").
End StartDemo.

Example C128_witness :
  new shipped StartDemo.mine StartDemo.w true = Good StartDemo.pre /\
  map (fun k => aget str_eqd (child_vars StartDemo.pre StartDemo.mine) (lit k)) ["HOME"; "LD_LIBRARY_PATH"; "SYSROOT"; "PATH"]%string =
    [Some (lit "/u"); Some (lit "/tc/lib"); Some (lit "/miri"); None] /\
  (forall x, ~ Reads StartDemo.mine (lit "MIRI_SYSROOT") x) /\ Extensional StartDemo.w /\
  AlikeBut StartDemo.pre StartDemo.mine [(lit "HOME", lit "/u")] /\
  exists c, server_command shipped StartDemo.mine StartDemo.w (lit "interpreter") None = Good c /\
    aget str_eqd (c_vars c) (lit "LD_LIBRARY_PATH") = Some (lit "/opt/lib").
Proof.
  split; [vm_compute; reflexivity|]. split; [vm_compute; reflexivity|]. split; [apply env_var_none; vm_compute; reflexivity|].
  split; [intros q a v v' _; reflexivity|]. split.
  - intros k. unfold StartDemo.mine. cbn [aget]. destruct (str_eqd k (lit "HOME")); [left; reflexivity|].
    destruct (str_eqd k (lit "LD_LIBRARY_PATH")) as [->|]; [right; eexists; constructor|].
    destruct (str_eqd k (lit "SYSROOT")) as [->|]; [right; eexists; constructor|]. left. reflexivity.
  - eexists. split; [vm_compute; reflexivity|vm_compute; reflexivity].
Qed.

(** A variable that is set to nothing is taken for an answer. *)
Example C128_empty_witness : exists p, new shipped ((lit "MIRI_SYSROOT", []) :: StartDemo.mine) StartDemo.w true = Good p /\ p_sysroot p = [].
Proof. eexists. split; [vm_compute; reflexivity|reflexivity]. Qed.
