(** * JSON texts, by RFC 8259 *)
From Coq Require Import Ascii String.
From Coq Require Import List Arith ZArith.
From Verif Require Import BookModel RunModel.
Import ListNotations.
Local Open Scope list_scope.

(** White space: space, tab, line feed, carriage return. *)
Definition Space (s : str) : Prop := Forall (fun c => In c [32; 9; 10; 13]) s.

(** A hexadecimal digit and its value. *)
Definition Hex (h n : nat) : Prop := (n < 10 /\ h = 48 + n) \/ (10 <= n < 16 /\ (h = 97 + (n - 10) \/ h = 65 + (n - 10))).

(** [Char c s]: in a string, [s] stands for [c].  The characters: 34 quote, 92 backslash, 47 slash, 117 u; 98 b, 102 f, 110 n,
    114 r, 116 t.  A character beyond the first 64 * 1024 may be written as two surrogates of ten bits each, D800 to DBFF and DC00 to DFFF. *)
Inductive Char : nat -> str -> Prop :=
| ch_plain c : 32 <= c -> c <> 34 -> c <> 92 -> Char c [c]
| ch_letter c e : In (e, c) [(34, 34); (92, 92); (47, 47); (98, 8); (102, 12); (110, 10); (114, 13); (116, 9)] -> Char c [92; e]
| ch_hex h1 h2 h3 h4 a b c d : Hex h1 a -> Hex h2 b -> Hex h3 c -> Hex h4 d -> ~ (a = 13 /\ 8 <= b) ->
    Char (((a * 16 + b) * 16 + c) * 16 + d) [92; 117; h1; h2; h3; h4]
| ch_pair h1 h2 h3 h4 k1 k2 k3 k4 b c d y z w : Hex h1 13 -> Hex h2 (8 + b) -> b < 4 -> Hex h3 c -> Hex h4 d ->
    Hex k1 13 -> Hex k2 (12 + y) -> y < 4 -> Hex k3 z -> Hex k4 w ->
    Char ((64 + b * 256 + c * 16 + d) * 1024 + (y * 256 + z * 16 + w)) [92; 117; h1; h2; h3; h4; 92; 117; k1; k2; k3; k4].
Definition Quoted (x s : str) : Prop := exists ss, Forall2 Char x ss /\ s = 34 :: concat ss ++ [34].

(** Digits and the number they stand for. *)
Definition Digits (s : str) : Prop := Forall (fun c => 48 <= c <= 57) s /\ s <> [].
Definition amount (s : str) : nat := fold_left (fun a c => 10 * a + (c - 48)) s 0.
(** A natural number in decimal, without a zero in front. *)
Definition Numeral (n : nat) (s : str) : Prop := Digits s /\ (forall r, s = 48 :: r -> r = []) /\ n = amount s.
(** A fraction, by its digits, and an exponent; both may be missing.  43 is plus, 45 minus, 46 the point, 69 and 101 the
    letter e. *)
Inductive Fraction : str -> str -> Prop :=
| no_fraction : Fraction [] []
| some_fraction f : Digits f -> Fraction f (46 :: f).
Inductive Exponent : Z -> str -> Prop :=
| no_exponent : Exponent 0 []
| some_exponent c sign k ds : In c [69; 101] -> In (sign, k) [([], 1%Z); ([43], 1%Z); ([45], (-1)%Z)] -> Digits ds ->
    Exponent (k * Z.of_nat (amount ds)) (c :: sign ++ ds).
Definition sign (b : bool) : str := if b then [45] else [].
(** Numbers: natural, negative, minus zero, and those with a fraction or an exponent. *)
Inductive Number : json -> str -> Prop :=
| nu_nat n s : Numeral n s -> Number (JNum n) s
| nu_neg n s : Numeral (S n) s -> Number (JNeg n) (45 :: s)
| nu_zero : Number (JReal true 0 0) (lit "-0")
| nu_real b w m f ft e et : Numeral m w -> Fraction f ft -> Exponent e et -> ft ++ et <> [] ->
    Number (JReal b (amount (w ++ f)) (e - Z.of_nat (length f))) (sign b ++ w ++ ft ++ et).
Definition IsNumber (j : json) : Prop := match j with JNum _ | JNeg _ | JReal _ _ _ => True | _ => False end.

(** [Text j s]: [s] is a text of the value [j], without white space around; [Padded] with it. *)
Inductive Text : json -> str -> Prop :=
| tx_null : Text JNull (lit "null")
| tx_true : Text (JBool true) (lit "true")
| tx_false : Text (JBool false) (lit "false")
| tx_num j s : Number j s -> Text j s
| tx_str x s : Quoted x s -> Text (JStr x) s
| tx_arr0 w : Space w -> Text (JArr []) (91 :: w ++ [93])
| tx_arr l s : Elements l s -> Text (JArr l) (91 :: s ++ [93])
| tx_obj0 w : Space w -> Text (JObj []) (123 :: w ++ [125])
| tx_obj l s : Members l s -> Text (JObj l) (123 :: s ++ [125])
with Padded : json -> str -> Prop :=
| padded w j s w' : Space w -> Text j s -> Space w' -> Padded j (w ++ s ++ w')
with Elements : list json -> str -> Prop :=
| el_one j s : Padded j s -> Elements [j] s
| el_more j s l t : Padded j s -> Elements l t -> Elements (j :: l) (s ++ 44 :: t)
with Members : list (str * json) -> str -> Prop :=
| me_one k j s w w' t : Space w -> Quoted k s -> Space w' -> Padded j t -> Members [(k, j)] (w ++ s ++ w' ++ 58 :: t)
| me_more k j s w w' t l u : Space w -> Quoted k s -> Space w' -> Padded j t -> Members l u ->
    Members ((k, j) :: l) ((w ++ s ++ w' ++ 58 :: t) ++ 44 :: u).

(** [Means j j']: of the members of an object with the same key the last counts. *)
Inductive Means : json -> json -> Prop :=
| means_null : Means JNull JNull
| means_bool b : Means (JBool b) (JBool b)
| means_num n : Means (JNum n) (JNum n)
| means_neg n : Means (JNeg n) (JNeg n)
| means_real b m e : Means (JReal b m e) (JReal b m e)
| means_str s : Means (JStr s) (JStr s)
| means_arr l l' : Forall2 Means l l' -> Means (JArr l) (JArr l')
| means_obj l l' : NoDup (map fst l') -> (forall k, In k (map fst l) -> In k (map fst l')) ->
    (forall k v', In (k, v') l' -> exists pre v post, l = pre ++ (k, v) :: post /\ ~ In k (map fst post) /\ Means v v') ->
    Means (JObj l) (JObj l').

(** There are [n] arrays and objects one in another. *)
Inductive Deep : json -> nat -> Prop :=
| deep_any j : Deep j 0
| deep_arr l : Deep (JArr l) 1
| deep_obj l : Deep (JObj l) 1
| deep_item l x n : In x l -> Deep x n -> Deep (JArr l) (S n)
| deep_member l k x n : In (k, x) l -> Deep x n -> Deep (JObj l) (S n).

(** A Unicode scalar value: below D800 (216 * 256), or from E000 (224 * 256) to 10FFFF. *)
Definition Scalar (c : nat) : Prop := c < 216 * 256 \/ 224 * 256 <= c < 17 * (256 * 256).
(** The string is in the value, as a string or as a name. *)
Inductive Occurs (x : str) : json -> Prop :=
| occurs_str : Occurs x (JStr x)
| occurs_item l j : In j l -> Occurs x j -> Occurs x (JArr l)
| occurs_key l j : In (x, j) l -> Occurs x (JObj l)
| occurs_member l k j : In (k, j) l -> Occurs x j -> Occurs x (JObj l).

(** What is assumed of gzip: the stream of a text gives it back; a stream that is cut off is reported, or gives less. *)
Record Zips (zip : str -> list nat) (unzip : list nat -> str * bool) : Prop := {
  zip_back : forall t, unzip (zip t) = (t, true);
  zip_nonempty : forall t, zip t <> [];
  zip_cut : forall t p q, zip t = p ++ q -> q <> [] ->
    snd (unzip p) = false \/ exists r, r <> [] /\ t = fst (unzip p) ++ r }.
