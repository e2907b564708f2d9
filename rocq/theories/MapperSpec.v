(** * What the way back from the running program to its source should do *)
From Coq Require Import List Arith.
From Verif Require Import Base CfgModel CfgSpec TraceModel TraceSpec MapperModel.
Import ListNotations.

(** [n] is a statement of the function's body, or the expression at its end.
    A closure such as [|x| x + 1] has none. *)
Definition Statement (f : fn) (n : nat) : Prop :=
  exists stmts tail, fn_value f = VBlock stmts tail /\ (In n stmts \/ tail = Some n).

(** The node is [n] or inside it. *)
Definition Within (f : fn) (x n : nat) : Prop := x = n \/ In n (fn_parents f x).

(** The source is a tree: statements of one block do not overlap. *)
Definition Tree (f : fn) : Prop :=
  forall x n n', Statement f n -> Statement f n' -> Within f x n -> Within f x n' -> n = n'.

(** Where a location is shown: the closing brace, if this is what the compiler
    gives as its place (there the variables are dropped), else the
    statement it was compiled from; a location the compiler only made up for
    its own analysis, or of no statement, nowhere. *)
Inductive ShownAs (prog : nat -> fn) : mirloc -> hirloc -> Prop :=
| shown_brace inst n : fn_span (prog inst) (fn_loc (prog inst) n) = fn_brace (prog inst) ->
    ShownAs prog (inst, AtLoc n) (fn_owner (prog inst), inr (fn_brace (prog inst)))
| shown_statement inst n s : let f := prog inst in let l := fn_loc f n in
    fn_span f l <> fn_brace f -> ValidLoc (fn_body f) l -> Operational (fn_body f) l ->
    Statement f s -> Within f (fn_hir f l) s ->
    ShownAs prog (inst, AtLoc n) (fn_owner f, inl s)
| shown_span inst sp : ShownAs prog (inst, AtSpan sp) (fn_owner (prog inst), inr sp).

(** The range of text for that. *)
Inductive InText {R} (node_range span_range : nat -> nat -> option R) : hirloc -> R -> Prop :=
| text_node o n r : node_range o n = Some r -> InText node_range span_range (o, inl n) r
| text_span o s r : span_range o s = Some r -> InText node_range span_range (o, inr s) r.

(** A shown state stands for a state of the execution: the same frames, each at
    the text of its location. *)
Definition Depicts {V R} (prog : nat -> fn) (node_range span_range : nat -> nat -> option R)
    (s : mstep V unit mirloc) (s' : mstep V unit R) : Prop :=
  Forall2 (fun fr fr' => f_info fr' = f_info fr /\
    exists hl, ShownAs prog (f_loc fr) hl /\ InText node_range span_range hl (f_loc fr'))
    (m_frames s) (m_frames s').

(** The states all of whose frames are shown somewhere, in order, there. *)
Inductive Keeps {V L1 L2} (shown : L1 -> L2 -> Prop) : list (mstep V unit L1) -> list (mstep V unit L2) -> Prop :=
| keeps_nil : Keeps shown [] []
| keeps_keep s s' l l' :
    Forall2 (fun fr fr' => f_info fr' = f_info fr /\ shown (f_loc fr) (f_loc fr')) (m_frames s) (m_frames s') ->
    Keeps shown l l' -> Keeps shown (s :: l) (s' :: l')
| keeps_drop s l l' : (exists fr, In fr (m_frames s) /\ forall p, ~ shown (f_loc fr) p) ->
    Keeps shown l l' -> Keeps shown (s :: l) l'.

(** Of these, the last of every run at one place. *)
Definition Condensed {V L1 L2} (shown : L1 -> L2 -> Prop) (l : list (mstep V unit L1)) (l' : list (mstep V unit L2)) : Prop :=
  exists runs, Keeps shown l (concat runs) /\ Runs runs /\
    Forall2 (fun run s => exists earlier, run = earlier ++ [s]) runs l'.

(** The frame runs a function whose body is not a block, before its end. *)
Definition InExpressionBody {V} (prog : nat -> fn) (fr : frame V mirloc) : Prop :=
  exists inst n, f_loc fr = (inst, AtLoc n) /\ fn_value (prog inst) = VOther /\
    fn_span (prog inst) (fn_loc (prog inst) n) <> fn_brace (prog inst).

(** What the user is told about how an execution ended. *)
Inductive Told {Msg} : option (ierror Msg) -> mresult Msg -> Prop :=
| told_success : Told None RSuccess
| told_freed a met n : NumberIn (met ++ [a]) a n -> Told (Some (UseAfterFree a met)) (RFreed n)
| told_other m : Told (Some (Undefined (Some m))) (ROther m).
