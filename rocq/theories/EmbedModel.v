(** * Model of how a block of the book gets to the page

    Sources: M = crates/mdbook-aquascope/src, W = frontend/packages/aquascope-embed/src/main.tsx,
    L = frontend/packages/aquascope-editor/src/lib.tsx.  The preprocessor writes an element with
    data attributes, each of them JSON, and the script of the page reads them. *)
From Coq Require Import Ascii String.
From Coq Require Import List Arith ZArith Bool Decimal.
From Verif Require Import Base BookModel RunModel NumbersModel.
Import ListNotations.

(** ** What is written *)

(** The digits of a number: [MdLinePos] as the key of a JSON object, and a number as the name of
    a property. *)
Fixpoint digits_of (d : uint) : str :=
  match d with
  | Nil => []
  | D0 d => 48 :: digits_of d | D1 d => 49 :: digits_of d | D2 d => 50 :: digits_of d | D3 d => 51 :: digits_of d
  | D4 d => 52 :: digits_of d | D5 d => 53 :: digits_of d | D6 d => 54 :: digits_of d | D7 d => 55 :: digits_of d
  | D8 d => 56 :: digits_of d | D9 d => 57 :: digits_of d
  end.
Definition decimal (n : nat) : str := digits_of (Nat.to_uint n).

(** M/annotations.rs 19-25 [PathMatcher], tagged *)
Definition jmatcher (m : matcher) : json :=
  match m with
  | Literal s => JObj [(lit "type", JStr (lit "Literal")); (lit "value", JStr s)]
  | Rx s => JObj [(lit "type", JStr (lit "Regex")); (lit "value", JStr s)]
  end.
Definition jnums (l : list nat) : json := JArr (map JNum l).
(** M/annotations.rs 27-54, as serde writes them *)
Definition jannots (a : annots) : json :=
  JObj [ (lit "hidden_lines", jnums (hidden_lines a));
         (lit "interp", JObj [(lit "state_locations", jnums (state_locations a))]);
         (lit "stepper", JObj [ (lit "focused_lines", jnums (step_lines a));
                                (lit "focused_paths", JObj (map (fun '(n, ms) => (decimal n, JArr (map jmatcher ms))) (step_paths a))) ]);
         (lit "boundaries", JObj [(lit "focused_lines", jnums (bound_lines a))]) ].

(** M/preprocessor.rs 160-164: the options as a hash map. *)
Definition config_map (options : list (str * str)) : list (str * str) :=
  fold_left (fun m o => aset str_eqd m (fst o) (snd o)) options [].

Section Embed.
  (** [write]: serde_json's text of a value; [parse]: [JSON.parse].  Escaping by
      mdbook-preprocessor-utils, mdBook and the browser's parser in between are taken to give
      the attribute back as it was. *)
  Context (write : json -> str) (parse : str -> option json).

  (** M/preprocessor.rs 151-176 [process_code], from where the responses are there. *)
  Definition process (b : block) (responses : list (str * json)) : list (str * str) :=
    [ (lit "class", lit "aquascope-embed");
      (lit "data-code", write (JStr (code b)));
      (lit "data-annotations", write (jannots (annotations b)));
      (lit "data-operations", write (JArr (map JStr (operations b))));
      (lit "data-responses", write (JObj responses));
      (lit "data-config", write (JObj (map (fun '(k, v) => (k, JStr v)) (config_map (options b)))));
      (lit "data-no-interact", write (JBool true)) ].

  (** ** What the page reads *)

  (** W 181-182 [maybeParseJson]: outside, [JSON.parse] throws; inside, [undefined]. *)
  Definition maybe_parse (s : option str) : option (option json) :=
    match s with
    | None | Some [] => Some None
    | Some s => match parse s with Some j => Some (Some j) | None => None end
    end.

  (** The strings in an array. *)
  Definition texts (l : list json) : list str := flat_map (fun j => match j with JStr s => [s] | _ => [] end) l.

  (** What there is of a block on the page: the code, whether there is a button to compute it
      again, the operations rendered with their responses, the settings and the annotations. *)
  Record embed := Embed {
    m_code : str;
    m_button : bool;
    m_rendered : list (str * option json);
    m_config : option json;
    m_annotations : option json }.

  (** W 177-263.  [None]: it throws.  Simplification: a value of another type than expected is
      treated like a missing one, a missing response is not looked up in the prototype. *)
  Definition init_embed (attrs : list (str * str)) : option embed :=
    let get k := maybe_parse (aget str_eqd attrs k) in
    match get (lit "data-no-interact"), get (lit "data-code") with
    | Some ni, Some (Some (JStr (c :: r))) =>
      match get (lit "data-operations"), get (lit "data-responses"), get (lit "data-config"), get (lit "data-annotations") with
      | Some (Some (JArr ops)), Some responses, Some config, Some annots =>
        Some (Embed (c :: r)
                (match ni with Some (JBool true) => false | _ => true end)
                (match responses with None => [] | Some rs => map (fun op => (op, jget op rs)) (texts ops) end)
                config annots)
      | _, _, _, _ => None
      end
    | _, _ => None
    end.

  (** W 176-177, 263: the blocks of the page in order.  What one throws leaves [forEach]; the
      flag says that this happened. *)
  Fixpoint init_blocks (elems : list (list (str * str))) : list embed * bool :=
    match elems with
    | [] => ([], false)
    | a :: r =>
      match init_embed a with
      | None => ([], true)
      | Some e => let (es, threw) := init_blocks r in (e :: es, threw)
      end
    end.
End Embed.

(** L 290-306: a response that JavaScript takes for false is asked of the server. *)
Definition asks_server (o : option json) : bool :=
  match o with
  | None | Some JNull | Some (JBool false) | Some (JNum 0) | Some (JReal _ 0 _) | Some (JStr []) => true
  | _ => false
  end.

(** The settings as the page looks them up. *)
Definition page_options (e : embed) : list (str * str) :=
  match m_config e with
  | Some (JObj l) => flat_map (fun '(k, j) => match j with JStr v => [(k, v)] | _ => [] end) l
  | _ => []
  end.

(** L 310-313, 325, 354-358: the annotations as the page looks them up. *)
Definition field (k : str) (o : option json) : option json := match o with Some j => jget k j | None => None end.
Definition numbers (o : option json) : list nat :=
  match o with Some (JArr l) => flat_map (fun j => match j with JNum n => [n] | _ => [] end) l | _ => [] end.
Definition page_hidden (e : embed) : list nat := numbers (field (lit "hidden_lines") (m_annotations e)).
Definition page_states (e : embed) : list nat := numbers (field (lit "state_locations") (field (lit "interp") (m_annotations e))).
Definition page_step_lines (e : embed) : list nat := numbers (field (lit "focused_lines") (field (lit "stepper") (m_annotations e))).
Definition page_bound_lines (e : embed) : list nat := numbers (field (lit "focused_lines") (field (lit "boundaries") (m_annotations e))).
(** frontend/packages/aquascope-editor/src/editor-utils/stepper.tsx 423-429; a line without
    matchers has no such property *)
Definition matcher_of (j : json) : list matcher :=
  match jget (lit "type") j, jget (lit "value") j with
  | Some (JStr t), Some (JStr v) => if str_eqd t (lit "Literal") then [Literal v] else [Rx v]
  | _, _ => []
  end.
Definition page_matchers (e : embed) (line : nat) : option (list matcher) :=
  match field (decimal line) (field (lit "focused_paths") (field (lit "stepper") (m_annotations e))) with
  | Some (JArr l) => Some (flat_map matcher_of l)
  | _ => None
  end.
