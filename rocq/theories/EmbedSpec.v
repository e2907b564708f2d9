(** * What it means that a block arrives on the page *)
From Coq Require Import Ascii String.
From Coq Require Import List ZArith.
From Verif Require Import Base BookModel RunModel NumbersSpec.
Import ListNotations.

(** [Reads j j']: [j'] is how JavaScript understands the JSON value [j].  Whole numbers are doubles, others are as they
    are written;
    the order of the properties of an object does not matter. *)
Inductive Reads : json -> json -> Prop :=
| reads_null : Reads JNull JNull
| reads_bool b : Reads (JBool b) (JBool b)
| reads_num n n' : Nearest (Z.of_nat n) (Z.of_nat n') -> Reads (JNum n) (JNum n')
| reads_neg n n' : Nearest (- Z.of_nat (S n)) (- Z.of_nat (S n')) -> Reads (JNeg n) (JNeg n')
| reads_real b m e : Reads (JReal b m e) (JReal b m e)
| reads_str s : Reads (JStr s) (JStr s)
| reads_arr l l' : Forall2 Reads l l' -> Reads (JArr l) (JArr l')
| reads_obj l l' :
    (forall k v, aget str_eqd l k = Some v -> exists v', aget str_eqd l' k = Some v' /\ Reads v v') ->
    (forall k, aget str_eqd l k = None -> aget str_eqd l' k = None) -> Reads (JObj l) (JObj l').

(** No object has a key twice. *)
Inductive Distinct : json -> Prop :=
| distinct_null : Distinct JNull
| distinct_bool b : Distinct (JBool b)
| distinct_num n : Distinct (JNum n)
| distinct_neg n : Distinct (JNeg n)
| distinct_real b m e : Distinct (JReal b m e)
| distinct_str s : Distinct (JStr s)
| distinct_arr l : Forall Distinct l -> Distinct (JArr l)
| distinct_obj l : NoDup (map fst l) -> Forall Distinct (map snd l) -> Distinct (JObj l).

(** What is assumed of writing JSON into an attribute and reading it: the text is not empty,
    and JavaScript reads the value. *)
Definition Faithful (write : json -> str) (parse : str -> option json) : Prop :=
  forall j, Distinct j -> write j <> [] /\ exists j', parse (write j) = Some j' /\ Reads j j'.

(** The last option with this name has this value. *)
Definition LastOption (options : list (str * str)) (k v : str) : Prop :=
  exists pre post, options = pre ++ (k, v) :: post /\ forall v', ~ In (k, v') post.

(** Numbers that are doubles. *)
Definition Exact (l : list nat) : Prop := forall n, In n l -> (Z.of_nat n < 2 ^ 53)%Z.

(** What JavaScript takes for false: nothing, [null], [false], zero and the empty text. *)
Inductive Falsy : option json -> Prop :=
| falsy_none : Falsy None
| falsy_null : Falsy (Some JNull)
| falsy_false : Falsy (Some (JBool false))
| falsy_zero : Falsy (Some (JNum 0))
| falsy_real b e : Falsy (Some (JReal b 0 e))
| falsy_text : Falsy (Some (JStr [])).
