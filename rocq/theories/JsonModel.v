(** * JSON as it is written and read

    The tool prints its answer with [serde_json::to_string] (crates/aquascope_front/src/plugin.rs 157-159), the
    preprocessor reads it with [serde_json::from_str] and writes the answers of a block in the same way
    (M/preprocessor.rs 104, 127, 148-149), the cache writes and reads a map of such texts (M/cache.rs 42, 70), and the page reads its
    attributes with [JSON.parse] (frontend/packages/aquascope-embed/src/main.tsx 181-182).  The other models take these
    functions as arguments; here they are.  serde_json's compact writer, and the grammar of
    RFC 8259 as serde_json takes it: of surrogates only pairs are read.  Simplification:
    [JSON.parse] also reads escapes of single surrogates, which neither the tool nor the preprocessor writes. *)
From Coq Require Import Ascii String.
From Coq Require Import List Arith ZArith Bool Decimal.
From Verif Require Import Base ValuesModel BookModel RunModel NumbersModel EmbedModel CacheModel.
Import ListNotations.

(** ** Writing *)

Definition hex_digit (n : nat) : nat := if n <? 10 then 48 + n else 87 + n.

(** serde_json's [ESCAPE] table: quote, backslash, and control characters, some of which have a letter. *)
Definition escape (c : nat) : str :=
  if c =? 34 then [92; 34]
  else if c =? 92 then [92; 92]
  else if c =? 8 then [92; 98]
  else if c =? 9 then [92; 116]
  else if c =? 10 then [92; 110]
  else if c =? 12 then [92; 102]
  else if c =? 13 then [92; 114]
  else if c <? 32 then [92; 117; 48; 48; hex_digit (c / 16); hex_digit (c mod 16)]
  else [c].
Definition quote (s : str) : str := List.app [34] (List.app (flat_map escape s) [34]).

(** [serde_json::to_string], [CompactFormatter].  Simplification: a float is written as its digits and a power of ten, and not
    by [ryu], which puts a point between the digits: another text of the same number. *)
Definition signed (z : Z) : str := if (z <? 0)%Z then 45 :: decimal (Z.to_nat (- z)) else decimal (Z.to_nat z).
Fixpoint to_string (j : json) : str :=
  match j with
  | JNull => lit "null"
  | JBool true => lit "true"
  | JBool false => lit "false"
  | JNum n => decimal n
  | JNeg n => 45 :: decimal (S n)
  | JReal b m e => List.app (if b then [45] else []) (List.app (decimal m) (101 :: signed e))
  | JStr s => quote s
  | JArr l => List.app [91] (List.app (join [44] (map to_string l)) [93])
  | JObj l => List.app [123] (List.app (join [44] (map (fun kv => List.app (quote (fst kv)) (List.app [58] (to_string (snd kv)))) l)) [125])
  end.

(** ** Reading *)

Definition is_space (c : nat) : bool := (c =? 32) || (c =? 9) || (c =? 10) || (c =? 13).
Fixpoint skip (s : str) : str :=
  match s with [] => [] | c :: r => if is_space c then skip r else s end.

Definition unhex (c : nat) : option nat :=
  if (48 <=? c) && (c <=? 57) then Some (c - 48)
  else if (97 <=? c) && (c <=? 102) then Some (c - 87)
  else if (65 <=? c) && (c <=? 70) then Some (c - 55)
  else None.
(** The unit of four hexadecimal digits, no surrogate. *)
Definition unit_of (a b c d : nat) : option nat :=
  match unhex a, unhex b, unhex c, unhex d with
  | Some a, Some b, Some c, Some d =>
    if (a =? 13) && (8 <=? b) then None else Some (((a * 16 + b) * 16 + c) * 16 + d)
  | _, _, _, _ => None
  end.
(** The character of two surrogates: after the digit d, one of 8 to b and one of c to f. *)
Definition pair_of (h1 h2 h3 h4 k1 k2 k3 k4 : nat) : option nat :=
  match unhex h1, unhex h2, unhex h3, unhex h4, unhex k1, unhex k2, unhex k3, unhex k4 with
  | Some a, Some b, Some c, Some d, Some x, Some y, Some z, Some w =>
    if (a =? 13) && (8 <=? b) && (b <? 12) && (x =? 13) && (12 <=? y)
    then Some ((64 + ((b - 8) * 16 + c) * 16 + d) * 1024 + (((y - 12) * 16 + z) * 16 + w)) else None
  | _, _, _, _, _, _, _, _ => None
  end.
(** The character of an escape with a letter. *)
Definition unescape (e : nat) : option nat :=
  if (e =? 34) || (e =? 92) || (e =? 47) then Some e
  else if e =? 98 then Some 8
  else if e =? 102 then Some 12
  else if e =? 110 then Some 10
  else if e =? 114 then Some 13
  else if e =? 116 then Some 9
  else None.

Definition more {A B} (a : A) (o : option (list A * B)) : option (list A * B) :=
  match o with Some (l, r) => Some (a :: l, r) | None => None end.

(** A string after its first quote, and what follows. *)
Fixpoint string_body (s : str) : option (str * str) :=
  match s with
  | [] => None
  | c :: r =>
    if c =? 34 then Some ([], r)
    else if c =? 92 then
      match r with
      | [] => None
      | e :: r1 =>
        if e =? 117 then
          match r1 with
          | h1 :: h2 :: h3 :: h4 :: r2 =>
            match unit_of h1 h2 h3 h4 with
            | Some u => more u (string_body r2)
            | None =>
              match r2 with
              | b :: u :: k1 :: k2 :: k3 :: k4 :: r3 =>
                if (b =? 92) && (u =? 117)
                then match pair_of h1 h2 h3 h4 k1 k2 k3 k4 with Some u => more u (string_body r3) | None => None end else None
              | _ => None
              end
            end
          | _ => None
          end
        else match unescape e with Some u => more u (string_body r1) | None => None end
      end
    else if c <? 32 then None
    else more c (string_body r)
  end.

(** The digits at the front. *)
Definition is_digit (c : nat) : bool := (48 <=? c) && (c <=? 57).
Fixpoint digits (s : str) : str * str :=
  match s with
  | [] => ([], [])
  | c :: r => if is_digit c then let (d, t) := digits r in (c :: d, t) else ([], s)
  end.
Definition amount_of (ds : str) : nat := fold_left (fun a c => 10 * a + (c - 48)) ds 0.
(** Digits without a zero in front. *)
Definition natural (s : str) : option (str * str) :=
  let (ds, t) := digits s in
  match ds with
  | [] => None
  | c :: _ :: _ => if c =? 48 then None else Some (ds, t)
  | [_] => Some (ds, t)
  end.
(** A sign; the digits after a point, if there is one; an exponent, if there is one. *)
Definition minus (s : str) : bool * str :=
  match s with c :: r => if c =? 45 then (true, r) else (false, s) | [] => (false, []) end.
Definition fraction (s : str) : option (str * str) :=
  match s with
  | c :: r => if c =? 46 then match digits r with ([], _) => None | (f, t) => Some (f, t) end else Some ([], s)
  | [] => Some ([], [])
  end.
Definition exponent (s : str) : option (option Z * str) :=
  match s with
  | c :: r =>
    if (c =? 101) || (c =? 69) then
      let (neg, r1) := match r with d :: r' => if d =? 45 then (true, r') else if d =? 43 then (false, r') else (false, r) | [] => (false, []) end in
      match digits r1 with
      | ([], _) => None
      | (ds, t) => Some (Some (if neg then (- Z.of_nat (amount_of ds))%Z else Z.of_nat (amount_of ds)), t)
      end
    else Some (None, s)
  | [] => Some (None, [])
  end.
(** serde_json's [parse_integer], [parse_number], [parse_decimal], [parse_exponent]: without fraction and exponent it is whole,
    unless it is minus zero. *)
Definition number_of (neg : bool) (ds f : str) (x : option Z) : json :=
  match f, x with
  | [], None =>
    if neg then match amount_of ds with 0 => JReal true 0 0 | S n => JNeg n end else JNum (amount_of ds)
  | _, _ => JReal neg (amount_of (List.app ds f)) ((match x with Some e => e | None => 0 end) - Z.of_nat (length f))
  end.
Definition number (s : str) : option (json * str) :=
  let (neg, r) := minus s in
  match natural r with
  | None => None
  | Some (ds, t) =>
    match fraction t with
    | None => None
    | Some (f, t1) => match exponent t1 with Some (x, t2) => Some (number_of neg ds f x, t2) | None => None end
    end
  end.

(** The rest after a word. *)
Fixpoint after (w s : str) : option str :=
  match w, s with
  | [], _ => Some s
  | a :: w', b :: s' => if a =? b then after w' s' else None
  | _ :: _, [] => None
  end.

Section Parts.
  Variable val : str -> option (json * str).

  (** After the bracket of an array that is not empty. *)
  Fixpoint elements (k : nat) (s : str) : option (list json * str) :=
    match k with
    | 0 => None
    | S k' =>
      match val s with
      | None => None
      | Some (v, r) =>
        match skip r with
        | c :: r' => if c =? 44 then more v (elements k' r') else if c =? 93 then Some ([v], r') else None
        | [] => None
        end
      end
    end.

  (** A key and a colon. *)
  Definition key (s : str) : option (str * str) :=
    match skip s with
    | c :: r =>
      if c =? 34 then
        match string_body r with
        | Some (k, r') => match skip r' with d :: r'' => if d =? 58 then Some (k, r'') else None | [] => None end
        | None => None
        end
      else None
    | [] => None
    end.
  Fixpoint members (k : nat) (s : str) : option (list (str * json) * str) :=
    match k with
    | 0 => None
    | S k' =>
      match key s with
      | None => None
      | Some (n, r0) =>
        match val r0 with
        | None => None
        | Some (v, r) =>
          match skip r with
          | c :: r' => if c =? 44 then more (n, v) (members k' r') else if c =? 125 then Some ([(n, v)], r') else None
          | [] => None
          end
        end
      end
    end.
End Parts.

(** A value and what follows; [fuel] bounds the nesting. *)
Fixpoint value (fuel : nat) (s : str) : option (json * str) :=
  match fuel with
  | 0 => None
  | S n =>
    match skip s with
    | [] => None
    | c :: r =>
      if c =? 34 then match string_body r with Some (x, t) => Some (JStr x, t) | None => None end
      else if c =? 91 then
        match skip r with
        | [] => None
        | d :: r' => if d =? 93 then Some (JArr [], r')
                     else match elements (value n) (length s) r with Some (l, t) => Some (JArr l, t) | None => None end
        end
      else if c =? 123 then
        match skip r with
        | [] => None
        | d :: r' => if d =? 125 then Some (JObj [], r')
                     else match members (value n) (length s) r with Some (l, t) => Some (JObj l, t) | None => None end
        end
      else if is_digit c || (c =? 45) then number (c :: r)
      else if c =? 110 then option_map (pair JNull) (after (lit "ull") r)
      else if c =? 116 then option_map (pair (JBool true)) (after (lit "rue") r)
      else if c =? 102 then option_map (pair (JBool false)) (after (lit "alse") r)
      else None
    end
  end.

(** A whole text, with the members of objects as they are written. *)
Definition parse_text (s : str) : option json :=
  match value (S (length s)) s with
  | Some (j, r) => match skip r with [] => Some j | _ :: _ => None end
  | None => None
  end.

(** Of members with the same key the last counts. *)
Definition last_of (l : list (str * json)) : list (str * json) :=
  fold_left (fun m kv => aset str_eqd m (fst kv) (snd kv)) l [].
Fixpoint rounded (num : nat -> nat) (j : json) : json :=
  match j with
  | JNum n => JNum (num n)
  | JNeg n => JNeg (pred (num (S n)))
  | JArr l => JArr (map (rounded num) l)
  | JObj l => JObj (last_of (map (fun kv => (fst kv, rounded num (snd kv))) l))
  | _ => j
  end.

(** How deep arrays and objects are nested. *)
Fixpoint depth (j : json) : nat :=
  match j with
  | JArr l => S (list_max (map depth l))
  | JObj l => S (list_max (map (fun kv => depth (snd kv)) l))
  | _ => 0
  end.

(** [serde_json::from_str] to a [Value]: [remaining_depth] is 128 and must not become 0.  Simplifications: whole numbers
    beyond 64 bits, which become floats, stay; floats stay, though one that is too large is an error, and without the
    feature [float_roundtrip] the last digit may change; the members of an object stay in the order of the text. *)
Definition from_str (s : str) : option json :=
  match parse_text s with
  | Some j => if depth j <? 128 then Some (rounded (fun n => n) j) else None
  | None => None
  end.
(** [JSON.parse]: whole numbers are doubles; floats stay, as they are doubles when they are written. *)
Definition js_parse (s : str) : option json := option_map (rounded (fun n => Z.to_nat (js_number (Z.of_nat n)))) (parse_text s).

(** ** The cache *)

(** M/cache.rs 64-76, 42-46: a [HashMap<u64, String>], whose keys are strings of digits, as
    bytes that are compressed.  [unzip]: what can be read before the end or an error of the stream, and whether there was
    none.  Simplification: the text is a list of characters and not of bytes; an entry written twice is kept twice. *)
Definition cache_json (m : list (nat * str)) : json := JObj (map (fun kv => (decimal (fst kv), JStr (snd kv))) m).
Definition key_number (s : str) : option nat := match natural s with Some (ds, []) => Some (amount_of ds) | _ => None end.
Fixpoint cache_of (l : list (str * json)) : option (list (nat * str)) :=
  match l with
  | [] => Some []
  | (k, JStr v) :: r => match key_number k, cache_of r with Some n, Some m => Some ((n, v) :: m) | _, _ => None end
  | _ :: _ => None
  end.
Definition cache_codec (zip : str -> list nat) (unzip : list nat -> str * bool) : codec str :=
  {| enc := fun m => zip (to_string (cache_json m));
     dec := fun bytes =>
       let (t, whole) := unzip bytes in
       if whole then match parse_text t with Some (JObj l) => cache_of l | _ => None end else None |}.

(** ** Bytes *)

(** M/preprocessor.rs 103 [String::from_utf8]: Rust's table of the bytes that may follow the first. *)
Definition between (a b c : nat) : bool := (a <=? b) && (b <=? c).
Definition push {A} (a : A) (o : option (list A)) : option (list A) := match o with Some l => Some (a :: l) | None => None end.
Definition second (a b : nat) : bool :=
  if a =? 224 then between 160 b 191
  else if a =? 237 then between 128 b 159
  else if a =? 240 then between 144 b 191
  else if a =? 244 then between 128 b 143
  else between 128 b 191.
Fixpoint decode (bytes : list nat) : option str :=
  match bytes with
  | [] => Some []
  | a :: r =>
    if a <? 128 then push a (decode r)
    else if between 194 a 223 then
      match r with
      | b :: r1 => if between 128 b 191 then push ((a - 192) * 64 + (b - 128)) (decode r1) else None
      | _ => None
      end
    else if between 224 a 239 then
      match r with
      | b :: c :: r2 => if second a b && between 128 c 191 then push (((a - 224) * 64 + (b - 128)) * 64 + (c - 128)) (decode r2) else None
      | _ => None
      end
    else if between 240 a 244 then
      match r with
      | b :: c :: d :: r3 =>
        if second a b && between 128 c 191 && between 128 d 191
        then push ((((a - 240) * 64 + (b - 128)) * 64 + (c - 128)) * 64 + (d - 128)) (decode r3) else None
      | _ => None
      end
    else None
  end.

(** plugin.rs 157-159 [postprocess]: the bytes that are printed. *)
Definition print (j : json) : list nat := flat_map utf8 (List.app (to_string j) [10]).
