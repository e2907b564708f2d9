(** * Model of the parsers of the mdBook preprocessor

    Sources: M/annotations.rs, M/block.rs, M/permissions.rs.
    Text is a list of Unicode scalar values.  Offsets are byte offsets in the
    UTF-8 encoding, as in Rust. *)

From Coq Require Import Ascii String.
From Coq Require Import List Arith Bool NArith.
From Verif Require Import Base ValuesModel.
Import ListNotations.

Definition str := list nat.
Definition str_eqd : forall a b : str, {a = b} + {a <> b} := list_eq_dec Nat.eq_dec.

(** A literal. *)
Definition lit (s : string) : str := map nat_of_ascii (list_ascii_of_string s).

(** [str::len] *)
Definition blen (s : str) : nat := length (flat_map utf8 s).

(** Characters: tick, hash, backslash, comma, colon, equals, newline, carriage
    return, plus, at. *)
Definition TICK := 96. Definition HASH := 35. Definition BSLASH := 92. Definition COMMA := 44.
Definition COLON := 58. Definition EQUALS := 61. Definition NL := 10. Definition CR := 13.
Definition PLUS := 43.

(** [str::strip_prefix] *)
Fixpoint strip_prefix (p s : str) : option str :=
  match p, s with
  | [], _ => Some s
  | c :: p', d :: s' => if c =? d then strip_prefix p' s' else None
  | _, [] => None
  end.

(** [str::split_once] at a character: what comes before and after its first
    occurrence. *)
Fixpoint split_once (c : nat) (s : str) : option (str * str) :=
  match s with
  | [] => None
  | d :: t => if d =? c then Some ([], t)
              else match split_once c t with Some (a, b) => Some (d :: a, b) | None => None end
  end.

(** [str::split] at a character. *)
Fixpoint split (c : nat) (s : str) : list str :=
  match s with
  | [] => [[]]
  | d :: t => if d =? c then [] :: split c t
              else match split c t with [] => [[d]] | p :: ps => (d :: p) :: ps end
  end.

(** [str::lines]: the text between the newlines, without a carriage return before
    the newline; no empty last line. *)
Definition drop_cr (l : str) : str :=
  match rev l with
  | c :: r => if c =? CR then rev r else l
  | [] => l
  end.

Fixpoint lines_from (cur s : str) : list str :=
  match s with
  | [] => match cur with [] => [] | _ => [rev cur] end
  | c :: t => if c =? NL then drop_cr (rev cur) :: lines_from [] t else lines_from (c :: cur) t
  end.
Definition lines (s : str) : list str := lines_from [] s.

(** ** Annotations *)

Inductive kind := Interp | Stepper | Boundaries.

(** annotations.rs 65-67: the character after the tick that opens a marker, and
    the one before the tick that closes it. *)
Definition close_of (o : nat) : option (kind * nat) :=
  if o =? 91 then Some (Interp, 93)
  else if o =? 40 then Some (Stepper, 41)
  else if o =? 123 then Some (Boundaries, 125)
  else None.

(** annotations.rs 69-83: the regular expression, matched at the start of the text
    (a tick, an opening character, anything but the closing character, the closing
    character, a tick). *)
Definition match_marker (s : str) : option (kind * str * str) :=
  match s with
  | t :: o :: r =>
      if t =? TICK then
        match close_of o with
        | Some (k, c) =>
            match split_once c r with
            | Some (interior, t' :: rest) => if t' =? TICK then Some (k, interior, rest) else None
            | _ => None
            end
        | None => None
        end
      else None
  | _ => None
  end.

(** [Regex::captures]: the leftmost match: the text before it, the match, the text
    after it. *)
Fixpoint captures (s : str) : option (str * kind * str * str) :=
  match match_marker s with
  | Some (k, interior, rest) => Some ([], k, interior, rest)
  | None =>
      match s with
      | [] => None
      | c :: t => match captures t with
                  | Some (before, k, interior, rest) => Some (c :: before, k, interior, rest)
                  | None => None
                  end
      end
  end.

(** annotations.rs 19-25 [PathMatcher] *)
Inductive matcher := Literal (s : str) | Rx (s : str).

(** annotations.rs 27-54 [AquascopeAnnotations] *)
Record annots := Annots {
  hidden_lines : list nat;
  state_locations : list nat;
  step_lines : list nat;
  step_paths : list (nat * list matcher);
  bound_lines : list nat }.
Definition no_annots := Annots [] [] [] [] [].

(** annotations.rs 116-123: the configuration in a marker, a hash map. *)
Definition config_item (m : list (str * str)) (s : str) : list (str * str) :=
  match split_once COLON s with
  | Some (a, b) => aset str_eqd m a b
  | None => aset str_eqd m s []
  end.
Definition config (interior : str) : list (str * str) :=
  fold_left config_item (filter (fun s => negb (if str_eqd s [] then true else false)) (split COMMA interior)) [].

(** annotations.rs 131-138: [add_matcher] *)
Definition add_matcher (line : nat) (m : matcher) (p : list (nat * list matcher)) :=
  aset Nat.eq_dec p line (match aget Nat.eq_dec p line with Some l => l | None => [] end ++ [m]).

(** annotations.rs 125-150: what one marker records. *)
Definition record_marker (line idx : nat) (k : kind) (interior : str) (a : annots) : annots :=
  let cfg := config interior in
  match k with
  | Interp => Annots (hidden_lines a) (state_locations a ++ [idx]) (step_lines a) (step_paths a) (bound_lines a)
  | Stepper =>
      let sl := match aget str_eqd cfg (lit "focus") with Some _ => step_lines a ++ [line] | None => step_lines a end in
      let p1 := match aget str_eqd cfg (lit "paths") with
                | Some v => add_matcher line (Literal v) (step_paths a) | None => step_paths a end in
      let p2 := match aget str_eqd cfg (lit "rxpaths") with
                | Some v => add_matcher line (Rx v) p1 | None => p1 end in
      Annots (hidden_lines a) (state_locations a) sl p2 (bound_lines a)
  | Boundaries => Annots (hidden_lines a) (state_locations a) (step_lines a) (step_paths a) (bound_lines a ++ [line])
  end.

(** annotations.rs 102-154: the loop over the markers of a line.  The fragments are
    joined at once.  [fuel] bounds the number of iterations by the length of the
    line. *)
Fixpoint marker_loop (fuel line : nat) (out : str) (idx : nat) (a : annots) (s : str) : str * nat * annots :=
  match fuel with
  | 0 => (out, idx, a)
  | S f =>
      match captures s with
      | Some (before, k, interior, rest) =>
          let idx' := idx + blen before in
          marker_loop f line (out ++ before) idx' (record_marker line idx' k interior a) rest
      | None => (out ++ s, idx + blen s, a)
      end
  end.

(** annotations.rs 88-157: one line. *)
Definition parse_line (line idx : nat) (a : annots) (s : str) : str * nat * annots :=
  let '(out, idx', a') :=
    match strip_prefix [HASH] s with
    | Some suffix =>
        (suffix, idx + blen suffix,
         Annots (hidden_lines a ++ [line]) (state_locations a) (step_lines a) (step_paths a) (bound_lines a))
    | None =>
        match strip_prefix [BSLASH; HASH] s with
        | Some suffix => ([HASH] ++ suffix, idx + blen [HASH] + blen suffix, a)
        | None => marker_loop (S (length s)) line [] idx a s
        end
    end in
  (out, idx' + 1, a').

Fixpoint parse_lines (line idx : nat) (a : annots) (ls : list str) : list str * annots :=
  match ls with
  | [] => ([], a)
  | s :: ls' =>
      let '(out, idx', a') := parse_line line idx a s in
      let '(outs, a'') := parse_lines (S line) idx' a' ls' in
      (out :: outs, a'')
  end.

(** annotations.rs 160-162: the lines are joined with newlines. *)
Fixpoint join (sep : str) (ls : list str) : str :=
  match ls with
  | [] => []
  | [l] => l
  | l :: ls' => l ++ sep ++ join sep ls'
  end.

(** annotations.rs 64-164 [parse_annotations].  It never fails. *)
Definition parse_annotations (code : str) : str * annots :=
  let '(outs, a) := parse_lines 1 0 no_annots (lines code) in
  (join [NL] outs, a).

(** ** Blocks *)

(** block.rs 28-31 [parse_sym]: all characters up to one of four. *)
Definition sym_stop (c : nat) : bool := (c =? COMMA) || (c =? EQUALS) || (c =? NL) || (c =? PLUS).
Fixpoint parse_sym (s : str) : str * str :=
  match s with
  | [] => ([], [])
  | c :: t => if sym_stop c then ([], s) else let '(x, r) := parse_sym t in (c :: x, r)
  end.

(** nom [char] *)
Definition char (c : nat) (s : str) : option str :=
  match s with d :: t => if c =? d then Some t else None | [] => None end.

(** nom [separated_list1] of symbols, separated by plus signs.  [fuel] is the
    length of the input. *)
Fixpoint more_syms (fuel : nat) (s : str) : list str * str :=
  match fuel with
  | 0 => ([], s)
  | S f => match char PLUS s with
           | None => ([], s)
           | Some s1 => let '(x, s2) := parse_sym s1 in let '(xs, s3) := more_syms f s2 in (x :: xs, s3)
           end
  end.
Definition separated_syms (s : str) : list str * str :=
  let '(x, s1) := parse_sym s in let '(xs, s2) := more_syms (length s) s1 in (x :: xs, s2).

(** block.rs 38-41: one option, [key=value] or [key]. *)
Definition parse_option (s : str) : (str * str) * str :=
  let '(k, s1) := parse_sym s in
  match char EQUALS s1 with
  | Some s2 => let '(v, s3) := parse_sym s2 in ((k, v), s3)
  | None => ((k, lit "true"), s1)
  end.

(** nom [many0] of options, each after a comma. *)
Fixpoint parse_options (fuel : nat) (s : str) : list (str * str) * str :=
  match fuel with
  | 0 => ([], s)
  | S f => match char COMMA s with
           | None => ([], s)
           | Some s1 => let '(o, s2) := parse_option s1 in let '(os, s3) := parse_options f s2 in (o :: os, s3)
           end
  end.

(** nom [take_until]: what comes before the first occurrence of the pattern, and
    the rest from there. *)
Fixpoint take_until (p s : str) : option (str * str) :=
  match strip_prefix p s with
  | Some _ => Some ([], s)
  | None => match s with
            | [] => None
            | c :: t => match take_until p t with Some (a, b) => Some (c :: a, b) | None => None end
            end
  end.

(** [char::is_whitespace] *)
Definition is_white (c : nat) : bool :=
  (9 <=? c) && (c <=? 13) || (c =? 32) || (c =? 133) || (c =? 160)
  || let n := N.of_nat c in
     ((n =? 5760) || ((8192 <=? n) && (n <=? 8202)) || (n =? 8232) || (n =? 8233) || (n =? 8239)
      || (n =? 8287) || (n =? 12288))%N.

(** [str::trim] *)
Fixpoint trim_start (s : str) : str :=
  match s with c :: t => if is_white c then trim_start t else s | [] => [] end.
Definition trim (s : str) : str := rev (trim_start (rev (trim_start s))).

(** block.rs 19-25 [AquascopeBlock] *)
Record block := Block {
  operations : list str;
  options : list (str * str);
  code : str;
  annotations : annots }.

Definition FENCE := [TICK; TICK; TICK].
Definition OPEN := FENCE ++ lit "aquascope".

(** block.rs 27-56 [AquascopeBlock::parse]: the block at the start of the text and
    the text after it. *)
Definition parse_block (s : str) : option (block * str) :=
  match strip_prefix OPEN s with
  | None => None
  | Some s1 =>
      match char COMMA s1 with
      | None => None
      | Some s2 =>
          let '(ops, s3) := separated_syms s2 in
          let '(opts, s4) := parse_options (length s3) s3 in
          match take_until FENCE s4 with
          | None => None
          | Some (raw, s5) =>
              match strip_prefix FENCE s5 with
              | None => None
              | Some s6 =>
                  let '(c, a) := parse_annotations (trim raw) in
                  Some (Block ops opts c a, s6)
              end
          end
      end
  end.

(** block.rs 58-77 [AquascopeBlock::parse_all].  [off] is the byte offset of the
    remaining text.  [fuel] bounds the iterations by the length of the text. *)
Fixpoint parse_all_from (fuel off : nat) (s : str) : list ((nat * nat) * block) :=
  match fuel with
  | 0 => []
  | S f =>
      match parse_block s with
      | Some (b, next) =>
          let off' := off + (blen s - blen next) in
          ((off, off'), b) :: parse_all_from f off' next
      | None =>
          match s with
          | c :: t => parse_all_from f (off + blen [c]) t
          | [] => []
          end
      end
  end.
Definition parse_all (content : str) : list ((nat * nat) * block) :=
  parse_all_from (S (length content)) 0 content.

(** ** Permission macros *)

(** permissions.rs 14-16: the regular expression at the start of the text: the
    option with its brackets, the permission, the text after it. *)
Definition match_perm (s : str) : option (option str * str * str) :=
  match strip_prefix (lit "@Perm") s with
  | None => None
  | Some s1 =>
      let braces (opt : option str) (s2 : str) :=
        match char 123 s2 with
        | None => None
        | Some s3 => match split_once 125 s3 with
                     | Some (perm, rest) => Some (opt, perm, rest)
                     | None => None
                     end
        end in
      match char 91 s1 with
      | Some s2 => match split_once 93 s2 with
                   | Some (o, s3) => braces (Some ([91] ++ o ++ [93])) s3
                   | None => None
                   end
      | None => braces None s1
      end
  end.

(** What happens for one macro. *)
Inductive outcome := Html (h : str) | InvalidPermission (p : str) | Unimplemented.

(** permissions.rs 7 [VALID_PERMISSIONS] *)
Definition VALID : list str := [lit "read"; lit "write"; lit "own"; lit "flow"].

(** [char::to_ascii_uppercase] *)
Definition to_upper (c : nat) : nat := if (97 <=? c) && (c <=? 122) then c - 32 else c.

Definition QUOTE : str := [34].
(** permissions.rs 20-41 *)
Definition expand (opt : option str) (perm : str) : outcome :=
  if memb str_eqd perm VALID then
    let letter := match perm with c :: _ => [to_upper c] | [] => [] end in
    let perm_html := lit "<span class=" ++ QUOTE ++ lit "perm " ++ perm ++ QUOTE ++ lit ">" ++ letter ++ lit "</span>" in
    match opt with
    | None => Html perm_html
    | Some o =>
        if str_eqd o (lit "[gained]") then
          Html (lit "<span><span class=" ++ QUOTE ++ lit "perm-diff-add" ++ QUOTE ++ lit ">+</span>" ++ perm_html ++ lit "</span>")
        else if str_eqd o (lit "[lost]") then
          Html (lit "<span class=" ++ QUOTE ++ lit "perm-diff-sub-container" ++ QUOTE ++ lit "><div class=" ++ QUOTE
                ++ lit "perm-diff-sub" ++ QUOTE ++ lit "></div>" ++ perm_html ++ lit "</span>")
        else if str_eqd o (lit "[missing]") then
          Html (lit "<span class=" ++ QUOTE ++ lit "perm missing " ++ perm ++ QUOTE ++ lit ">" ++ letter ++ lit "</span>")
        else Unimplemented
    end
  else InvalidPermission perm.

(** permissions.rs 11-42 [parse_perms]: all leftmost matches that do not overlap. *)
Fixpoint parse_perms_from (fuel off : nat) (s : str) : list ((nat * nat) * outcome) :=
  match fuel with
  | 0 => []
  | S f =>
      match match_perm s with
      | Some (opt, perm, next) =>
          let off' := off + (blen s - blen next) in
          ((off, off'), expand opt perm) :: parse_perms_from f off' next
      | None =>
          match s with
          | c :: t => parse_perms_from f (off + blen [c]) t
          | [] => []
          end
      end
  end.
Definition parse_perms (content : str) : list ((nat * nat) * outcome) :=
  parse_perms_from (S (length content)) 0 content.

(** preprocessor.rs 175-188 [replacements]: the ranges that are replaced. *)
Definition replaced (content : str) : list (nat * nat) :=
  map fst (parse_all content) ++ map fst (parse_perms content).
