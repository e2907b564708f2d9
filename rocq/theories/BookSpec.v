(** * Specification of the book's mark-up *)

From Coq Require Import Ascii String.
From Coq Require Import List Arith NArith.
From Verif Require Import Base BookModel.
Import ListNotations.

(** Characters are code points: line feed 10, carriage return 13, hash 35, plus 43, comma 44, colon 58, equals 61,
    backslash 92. *)

(** ** Markers *)

(** [IsMarker k i m]: the text [m] is a marker of kind [k] with contents [i]. *)
Inductive IsMarker : kind -> str -> str -> Prop :=
| is_interp i : ~ In 93 i -> IsMarker Interp i (lit "`[" ++ i ++ lit "]`")
| is_stepper i : ~ In 41 i -> IsMarker Stepper i (lit "`(" ++ i ++ lit ")`")
| is_boundaries i : ~ In 125 i -> IsMarker Boundaries i (lit "`{" ++ i ++ lit "}`").

(** [Cut s ms last]: the line [s] consists of the markers [ms], each with the text
    before it, and the text [last].  A marker is the first one in the rest of the
    line. *)
Inductive Cut : str -> list (str * kind * str) -> str -> Prop :=
| cut_last s : (forall a k i m b, s = a ++ m ++ b -> ~ IsMarker k i m) -> Cut s [] s
| cut_marker before k i m rest ms last :
    IsMarker k i m ->
    (forall a k' i' m' b, before ++ m ++ rest = a ++ m' ++ b -> IsMarker k' i' m' -> length before <= length a) ->
    Cut rest ms last ->
    Cut (before ++ m ++ rest) ((before, k, i) :: ms) last.

(** The text of a line without its markers, and the markers, each with all the
    text that comes before it. *)
Fixpoint text_of (ms : list (str * kind * str)) (last : str) : str :=
  match ms with
  | [] => last
  | (before, _, _) :: ms' => before ++ text_of ms' last
  end.
Fixpoint placed (acc : str) (ms : list (str * kind * str)) : list (str * kind * str) :=
  match ms with
  | [] => []
  | (before, k, i) :: ms' => (acc ++ before, k, i) :: placed (acc ++ before) ms'
  end.

(** [Line s out ms]: the line [s] of the book is the line [out] of the program, in
    which the markers [ms] stand. *)
Inductive Line : str -> str -> list (str * kind * str) -> Prop :=
| line_hidden t : Line (35 :: t) t []
| line_escaped t : Line (92 :: 35 :: t) (35 :: t) []
| line_plain s ms last :
    (forall t, s <> 35 :: t) -> (forall t, s <> 92 :: 35 :: t) ->
    Cut s ms last -> Line s (text_of ms last) (placed [] ms).

(** The lines of a text end with a line feed, or a carriage return and a line feed; the last one
    need not end. *)
Inductive SourceLines : str -> list str -> Prop :=
| source_none : SourceLines [] []
| source_last l : l <> [] -> ~ In 10 l -> SourceLines l [l]
| source_lf l s ls : ~ In 10 l -> (forall r, l <> r ++ [13]) -> SourceLines s ls -> SourceLines (l ++ 10 :: s) (l :: ls)
| source_crlf l s ls : ~ In 10 l -> SourceLines s ls -> SourceLines (l ++ 13 :: 10 :: s) (l :: ls).

(** A marker of a program: its line, the text of the program before it, its kind
    and its contents. *)
Definition mark := (nat * str * kind * str)%type.

(** [Doc n pre ls outs marks]: the lines [ls], the first of which is line [n] and
    comes after the text [pre], are the lines [outs] of the program with the
    markers [marks]. *)
Inductive Doc : nat -> str -> list str -> list str -> list mark -> Prop :=
| doc_nil n pre : Doc n pre [] [] []
| doc_cons n pre l ls out outs ms marks :
    Line l out ms ->
    Doc (S n) (pre ++ out ++ [10]) ls outs marks ->
    Doc n pre (l :: ls) (out :: outs) (map (fun '(t, k, i) => (n, pre ++ t, k, i)) ms ++ marks).

(** [Configured i key v]: the contents [i] of a marker set [key] to [v].  The
    contents are items between commas, of the form key:value or key; the last item
    for a key counts. *)
Inductive Item : str -> str -> str -> Prop :=
| item_value k v : ~ In 58 k -> Item (k ++ [58] ++ v) k v
| item_key k : ~ In 58 k -> Item k k [].

Definition Configured (i key v : str) : Prop :=
  exists items pre it post,
    i = join [44] items /\ (forall x, In x items -> ~ In 44 x) /\
    items = pre ++ it :: post /\ Item it key v /\
    forall x w, In x post -> ~ Item x key w.

(** The lines a stepper marker with the item [focus] stands on. *)
Inductive FocusLines : list mark -> list nat -> Prop :=
| focus_nil : FocusLines [] []
| focus_yes n t i v ms l : Configured i (lit "focus") v -> FocusLines ms l ->
    FocusLines ((n, t, Stepper, i) :: ms) (n :: l)
| focus_no n t k i ms l : k <> Stepper \/ (forall v, ~ Configured i (lit "focus") v) -> FocusLines ms l ->
    FocusLines ((n, t, k, i) :: ms) l.

(** The path matchers that the contents of a stepper marker ask for. *)
Inductive MatchersOf (i : str) : list matcher -> Prop :=
| matchers_of p r :
    (p = [] /\ (forall v, ~ Configured i (lit "paths") v) \/ exists v, Configured i (lit "paths") v /\ p = [Literal v]) ->
    (r = [] /\ (forall v, ~ Configured i (lit "rxpaths") v) \/ exists v, Configured i (lit "rxpaths") v /\ r = [Rx v]) ->
    MatchersOf i (p ++ r).

(** The matchers for a line. *)
Inductive PathsOf (line : nat) : list mark -> list matcher -> Prop :=
| paths_nil : PathsOf line [] []
| paths_yes t i ms l0 l : MatchersOf i l0 -> PathsOf line ms l -> PathsOf line ((line, t, Stepper, i) :: ms) (l0 ++ l)
| paths_no n t k i ms l : n <> line \/ k <> Stepper -> PathsOf line ms l -> PathsOf line ((n, t, k, i) :: ms) l.

(** [HiddenLines n ls l]: [l] are the numbers of the hidden lines among [ls], the
    first of which has number [n]. *)
Inductive HiddenLines : nat -> list str -> list nat -> Prop :=
| hidden_nil n : HiddenLines n [] []
| hidden_yes n t ls l : HiddenLines (S n) ls l -> HiddenLines n ((35 :: t) :: ls) (n :: l)
| hidden_no n s ls l : (forall t, s <> 35 :: t) -> HiddenLines (S n) ls l -> HiddenLines n (s :: ls) l.

(** ** Blocks *)

Definition Symbol (x : str) : Prop := ~ In 44 x /\ ~ In 61 x /\ ~ In 10 x /\ ~ In 43 x.

(** The text of an option. *)
Inductive OptionText : str * str -> str -> Prop :=
| option_pair k v : Symbol k -> Symbol v -> OptionText (k, v) (k ++ [61] ++ v)
| option_flag k : Symbol k -> OptionText (k, lit "true") k.

(** [BlockText text b]: the text is one block: an opening fence with operations and
    options, the code, and a closing fence, the first one after the options.
    What follows the options starts with a character that cannot belong to them. *)
Inductive BlockText : str -> block -> Prop :=
| block_text ops opts otexts raw head c a :
    ops <> [] -> Forall Symbol ops -> Forall2 OptionText opts otexts ->
    head = lit "```aquascope," ++ join [43] ops ++ concat (map (cons 44) otexts) ->
    (exists r, raw = 10 :: r \/
       raw = 61 :: r /\ (opts = [] \/ In 61 (last otexts [])) \/
       raw = 43 :: r /\ opts <> []) ->
    (forall x y, raw ++ lit "```" = x ++ lit "```" ++ y -> length raw <= length x) ->
    parse_annotations (trim raw) = (c, a) ->
    BlockText (head ++ raw ++ lit "```") (Block ops opts c a).

(** The white space characters of Unicode. *)
Definition White (c : nat) : Prop :=
  In (N.of_nat c) [9; 10; 11; 12; 13; 32; 133; 160; 5760; 8192; 8193; 8194; 8195; 8196; 8197; 8198; 8199;
                   8200; 8201; 8202; 8232; 8233; 8239; 8287; 12288]%N.

(** [Trimmed s t]: [t] is [s] without the white space around it. *)
Definition Trimmed (s t : str) : Prop :=
  exists a b, s = a ++ t ++ b /\ Forall White (a ++ b) /\
    (forall c r, t = c :: r -> ~ White c) /\ (forall c r, t = r ++ [c] -> ~ White c).

(** ** Permission macros *)

Inductive MacroText : str -> option str * str -> Prop :=
| macro_plain p : ~ In 125 p -> MacroText (lit "@Perm{" ++ p ++ lit "}") (None, p)
| macro_option o p : ~ In 93 o -> ~ In 125 p ->
    MacroText (lit "@Perm[" ++ o ++ lit "]{" ++ p ++ lit "}") (Some o, p).

(** What a reader sees for a permission. *)
Inductive Letter : str -> str -> Prop :=
| letter_read : Letter (lit "read") (lit "R")
| letter_write : Letter (lit "write") (lit "W")
| letter_own : Letter (lit "own") (lit "O")
| letter_flow : Letter (lit "flow") (lit "F").

Inductive Markup : option str -> str -> str -> Prop :=
| markup_plain p l : Letter p l ->
    Markup None p (lit "<span class=""perm " ++ p ++ lit """>" ++ l ++ lit "</span>")
| markup_gained p l : Letter p l ->
    Markup (Some (lit "gained")) p
      (lit "<span><span class=""perm-diff-add"">+</span><span class=""perm " ++ p ++ lit """>" ++ l ++ lit "</span></span>")
| markup_lost p l : Letter p l ->
    Markup (Some (lit "lost")) p
      (lit "<span class=""perm-diff-sub-container""><div class=""perm-diff-sub""></div><span class=""perm "
        ++ p ++ lit """>" ++ l ++ lit "</span></span>")
| markup_missing p l : Letter p l ->
    Markup (Some (lit "missing")) p (lit "<span class=""perm missing " ++ p ++ lit """>" ++ l ++ lit "</span>").

(** ** Ranges *)

(** [At content (a, b) text]: the text between the byte offsets. *)
Definition At (content : str) (r : nat * nat) (text : str) : Prop :=
  exists pre post, content = pre ++ text ++ post /\ blen pre = fst r /\ blen (pre ++ text) = snd r.

Definition Disjoint (r s : nat * nat) : Prop := snd r <= fst s \/ snd s <= fst r.

(** Ordered and without overlap. *)
Inductive Ordered : nat -> list (nat * nat) -> Prop :=
| ordered_nil n : Ordered n []
| ordered_cons n a b l : n <= a -> a < b -> Ordered b l -> Ordered n ((a, b) :: l).
