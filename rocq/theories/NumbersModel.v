(** * Model of how the page shows numbers

    Sources: crates/aquascope/src/interpreter/mvalue.rs 114-124 and 457-464,
    frontend/packages/aquascope-editor/src/editor-utils/interpreter.tsx 291-296.  The tool
    writes numbers as JSON, the page reads them as JavaScript numbers and shows
    [value.value.toString()]. *)
From Coq Require Import ZArith Bool.
From Verif Require Import ValuesModel.
Local Open Scope Z_scope.

(** [JSON.parse] of a natural number: the nearest double, of two the one with an even
    significand.  The significand has 53 bits; exponents are large enough for 64-bit numbers. *)
Definition round_nat (n : Z) : Z :=
  if n <? 2 ^ 53 then n
  else
    let u := 2 ^ (Z.log2 n - 52) in
    let q := n / u in
    let r := n mod u in
    if 2 * r <? u then q * u
    else if u <? 2 * r then (q + 1) * u
    else if Z.even q then q * u else (q + 1) * u.

(** With a sign. *)
Definition js_number (n : Z) : Z := if n <? 0 then - round_nat (- n) else round_nat n.

(** [Number.prototype.toString] of a natural number below 10^21 (ECMA-262, Number::toString): as
    few digits as determine the double, of these the closest, filled up with zeros.  [e] is how
    many zeros are tried.  Simplification: of two equally close ones the smaller. *)
Fixpoint digits (e : nat) (x : Z) : Z :=
  match e with
  | O => x
  | S e' =>
    let p := 10 ^ Z.of_nat e in
    let lo := x / p * p in
    let hi := lo + p in
    if (round_nat lo =? x) && (negb (round_nat hi =? x) || (x - lo <=? hi - x)) then lo
    else if round_nat hi =? x then hi
    else digits e' x
  end.
Definition js_string (x : Z) : Z := if x <? 0 then - digits 19 (- x) else digits 19 x.

(** interpreter.tsx 291-296: the number on the page, for an unsigned and a signed number of the
    program. *)
Definition page_uint (v : Z) : Z := js_string (js_number (show_uint v)).
Definition page_int (v : Z) : Z := js_string (js_number (show_int v)).
