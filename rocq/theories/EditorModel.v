(** * Model of the editor and of the pages that use it

    Sources, in frontend/packages:
    M = aquascope-editor/src/editor-utils/misc.tsx,
    P = aquascope-editor/src/editor-utils/permissions.tsx,
    B = aquascope-editor/src/editor-utils/boundaries.tsx,
    S = aquascope-editor/src/editor-utils/stepper.tsx,
    L = aquascope-editor/src/lib.tsx,
    W = aquascope-embed/src/main.tsx,
    I = aquascope-standalone/src/index.tsx.
    A function that may throw returns [None] when it does.  Hidden lines and the
    tags in the document are in PageModel.v; not modelled: colours and animations. *)

From Coq Require Import Ascii String.
From Coq Require Import List Arith Bool.
From Verif Require Import Base PermsModel BookModel.
Import ListNotations.

(** ** Text and positions *)

(** The editor's document: its lines, each a list of characters (code points). *)
Definition line := list nat.
Definition doc := list line.

(** The length of a character in a JavaScript string. *)
Definition units (c : nat) : nat := if c <? 256 * 256 then 1 else 2.
Definition line_units (l : line) : nat := list_sum (map units l).

(** CodeMirror's [Text.line(n + 1).from] and [Text.length]. *)
Definition line_from (d : doc) (n : nat) : nat := list_sum (map (fun l => line_units l + 1) (firstn n d)).
Definition doc_length (d : doc) : nat := line_from d (length d) - 1.

(** bindings/CharPos.ts, CharRange.ts *)
Record pos := Pos { p_line : nat; p_column : nat }.
Record crange := CRange { r_start : pos; r_end : pos }.
Definition pos_eqd : forall x y : pos, {x = y} + {x <> y}.
Proof. decide equality; apply Nat.eq_dec. Defined.

(** M 327-328 [linecolToPosition]; [Text.line] throws for a line that is not there. *)
Definition linecol_to_position (p : pos) (d : doc) : option nat :=
  if p_line p <? length d then Some (line_from d (p_line p) + p_column p) else None.

(** CodeMirror's [Text.lineAt(pos).number - 1]; throws behind the end. *)
Definition line_at (d : doc) (n : nat) : option nat :=
  if n <=? doc_length d
  then Some (length (filter (fun k => line_from d k <=? n) (seq 0 (length d))) - 1)
  else None.

(** ** Loans and moves *)

(** mod.rs 257-270 [AnalysisOutput], the four tables. *)
Record facts := Facts {
  loan_points : list (nat * crange);
  loan_regions : list (nat * list crange);
  move_points : list (nat * crange);
  move_regions : list (nat * list crange)
}.

(** M 156-206 [generateAnalysisDecorationFacts]: for every region the point of its
    key ([None]: undefined) and the ranges.  Tags left out. *)
Definition action := (option crange * list crange)%type.
Definition actions_of (f : facts) : list action :=
  map (fun '(k, rs) => (aget Nat.eq_dec (loan_points f) k, rs)) (loan_regions f)
  ++ map (fun '(k, rs) => (aget Nat.eq_dec (move_points f) k, rs)) (move_regions f).

Fixpoint collect {A C} (f : A -> option C) (l : list A) : option (list C) :=
  match l with
  | [] => Some []
  | x :: r => match f x, collect f r with Some y, Some ys => Some (y :: ys) | _, _ => None end
  end.

(** CodeMirror's [Decoration.mark(..).range(from, to)] throws if the range is empty. *)
Definition mark_range (d : doc) (r : crange) : option (nat * nat) :=
  match linecol_to_position (r_start r) d, linecol_to_position (r_end r) d with
  | Some a, Some b => if b <=? a then None else Some (a, b)
  | _, _ => None
  end.

(** M 128-154 [loanFactsToDecoration] *)
Definition action_marks (d : doc) (a : action) : option (list (nat * nat)) :=
  match fst a with
  | None => None
  | Some p =>
    match mark_range d p,
          collect (mark_range d) (filter (fun r => if pos_eqd (r_start r) (r_end r) then false else true) (snd a)) with
    | Some m, Some ms => Some (m :: ms)
    | _, _ => None
    end
  end.

(** M 122-126, 91-103 *)
Definition all_marks (d : doc) (l : list action) : option (list (nat * nat)) :=
  option_map (@concat (nat * nat)) (collect (action_marks d) l).

(** ** Rows of a step table *)

Inductive icon := SignOut | Recycle | ArrowRight | RotateLeft | LevelUp | LevelDown.

(** S 142-223: the facts in order, with the icons for [High] and [Low]. *)
Definition change {A} (v : ValueStep A) (up down : icon) : option icon :=
  match v with High _ => Some up | Low => Some down | NoStep _ => None end.
Definition visual_facts (d : DataDiff) : list (option icon) :=
  [ change (dd_path_moved d) SignOut Recycle;
    change (dd_loan_read d) ArrowRight RotateLeft;
    change (dd_loan_write d) ArrowRight RotateLeft;
    change (dd_is_live d) LevelUp LevelDown;
    change (dd_path_uninitialized d) SignOut Recycle ].
(** S 225-243: the first that applies *)
Fixpoint first_icon (l : list (option icon)) : option icon :=
  match l with [] => None | Some i :: _ => Some i | None :: r => first_icon r end.
Definition row_icon (d : DataDiff) : option icon := first_icon (visual_facts d).

(** S 46-90: how a letter is drawn. *)
Inductive mark := Present | Absent | Removed | Added.
Definition letter_mark (s : ValueStep bool) : mark :=
  match s with
  | NoStep (Some true) => Present
  | NoStep _ => Absent
  | Low => Removed
  | High _ => Added
  end.
Definition row_marks (d : DataDiff) : mark * mark * mark :=
  (letter_mark (pd_read (dd_permissions d)), letter_mark (pd_write (dd_permissions d)), letter_mark (pd_drop (dd_permissions d))).

(** S 245-268: the loan and the move shown when the pointer is on a letter. *)
Definition unwrap {A} (v : ValueStep A) : option A :=
  match v with NoStep o => o | High x => Some x | Low => None end.
Definition row_keys (d : DataDiff) : (option nat * option nat) * (option nat * option nat) * (option nat * option nat) :=
  let move := unwrap (dd_path_moved d) in
  ((unwrap (dd_loan_read d), move), (unwrap (dd_loan_write d), move), (unwrap (dd_loan_drop d), move)).

(** ** Which rows are in focus *)

(** Does a string occur in another ([String.match] with an escaped literal)? *)
Fixpoint starts_with (s sub : str) : bool :=
  match sub, s with
  | [], _ => true
  | a :: sub', b :: s' => (a =? b) && starts_with s' sub'
  | _ :: _, [] => false
  end.
Fixpoint contains (s sub : str) : bool :=
  starts_with s sub || match s with [] => false | _ :: s' => contains s' sub end.

(** S 416-428: the regular expression.  [rx] stands for JavaScript's: [None] if the
    expression is not one.  Simplification: the alternatives are taken one by one. *)
Definition matches (rx : str -> option (str -> bool)) (m : matcher) (path : str) : option bool :=
  match m with
  | Literal s => Some (contains path s)
  | Rx s => option_map (fun f => f path) (rx s)
  end.
Fixpoint any_match (rx : str -> option (str -> bool)) (ms : list matcher) (path : str) : option bool :=
  match ms with
  | [] => Some false
  | m :: r => match matches rx m path, any_match rx r path with Some a, Some b => Some (a || b) | _, _ => None end
  end.
Definition in_focus (rx : str -> option (str -> bool)) (ms : option (list matcher)) (path : str) : option bool :=
  match ms with
  | None | Some [] => Some true
  | Some l => any_match rx l path
  end.

(** S 351-357: the rows in focus and the others, [_.partition]. *)
Fixpoint split_rows {A} (f : str -> option bool) (rows : list (str * A)) : option (list (str * A) * list (str * A)) :=
  match rows with
  | [] => Some ([], [])
  | r :: l =>
    match f (fst r), split_rows f l with
    | Some true, Some (a, b) => Some (r :: a, b)
    | Some false, Some (a, b) => Some (a, r :: b)
    | _, _ => None
    end
  end.

(** S 405-408: is the line's table open? *)
Definition line_open (focused_lines : list nat) (number : nat) : bool :=
  match focused_lines with [] => true | _ => existsb (Nat.eqb number) focused_lines end.

(** ** The editor *)

(** What the page knows of the settings: checked boxes (I 127-137), or the
    configuration of the block (P 62-63: must be "true"; L 256, 306: any value but
    the empty one). *)
Record cfg := Cfg { c_stepper : bool; c_boundaries : bool; c_hide : bool; c_fail : bool }.
Definition no_cfg : cfg := Cfg false false false false.
Definition is_true (o : option str) : bool := match o with Some s => if str_eqd s (lit "true") then true else false | None => false end.
Definition truthy (o : option str) : bool := match o with Some (_ :: _) => true | _ => false end.
Definition cfg_of (options : list (str * str)) : cfg :=
  Cfg (is_true (aget str_eqd options (lit "stepper"))) (is_true (aget str_eqd options (lit "boundaries")))
      (truthy (aget str_eqd options (lit "hideCode"))) (truthy (aget str_eqd options (lit "shouldFail"))).

Section Editor.
  (** What a boundary, a line of steps and a trace contain. *)
  Context {Bd St Tr : Type}.

  (** The analysis of one body. *)
  Record output := Output { o_facts : facts; o_boundaries : list (pos * Bd); o_steps : list (pos * St) }.

  (** P 18-22 [PermissionsDecorations] *)
  Record decos := Decos { d_steps : list (nat * St); d_boundaries : list (nat * Bd); d_facts : list action }.

  (** B 193-203, S 457-468; the widgets ask for their line (B 155, S 389). *)
  Definition place_one {X} (d : doc) (x : pos * X) : option (nat * X) :=
    match linecol_to_position (fst x) d with
    | Some n => match line_at d n with Some _ => Some (n, snd x) | None => None end
    | None => None
    end.
  Definition place {X} (d : doc) (l : list (pos * X)) : option (list (nat * X)) := collect (place_one d) l.

  (** lodash's [uniqBy(_, d => d.from)] *)
  Fixpoint uniq_by_pos {X} (seen : list nat) (l : list (nat * X)) : list (nat * X) :=
    match l with
    | [] => []
    | x :: r => if existsb (Nat.eqb (fst x)) seen then uniq_by_pos seen r else x :: uniq_by_pos (fst x :: seen) r
    end.

  (** P 25-54 [makePermissionsDecorations] *)
  Definition make_decorations (d : doc) (outs : list output) : option decos :=
    match collect (fun o => place d (o_boundaries o)) outs, collect (fun o => place d (o_steps o)) outs with
    | Some bs, Some ss => Some (Decos (concat ss) (uniq_by_pos [] (concat bs)) (flat_map (fun o => actions_of (o_facts o)) outs))
    | _, _ => None
    end.

  (** L 115-122, and the fields of the view (L 147-158).  [e_trace] is what the
      interpreter's container shows, [e_alive] says that the code is there. *)
  Record editor := Editor {
    e_doc : doc;
    e_marks : list (nat * nat);
    e_steps : list (nat * St);
    e_boundaries : list (nat * Bd);
    e_decos : option decos;
    e_trace : option Tr;
    e_alive : bool;
    e_fail : bool
  }.
  Definition new_editor (d : doc) : editor := Editor d [] [] [] None None true false.

  (** P 56-75 [renderPermissions]: one transaction, so all of it or nothing. *)
  Definition render_permissions (e : editor) (c : cfg) : option editor :=
    match e_decos e with
    | None => Some e
    | Some ds =>
      match all_marks (e_doc e) (d_facts ds) with
      | None => None
      | Some ms => Some (Editor (e_doc e) ms (if c_stepper c then d_steps ds else []) (if c_boundaries c then d_boundaries ds else [])
                           (e_decos e) (e_trace e) (e_alive e) (e_fail e))
      end
    end.

  (** An edit: L 93-107 and M 91-107 remove what is shown; what was computed and the
      diagrams stay. *)
  Definition edit (e : editor) (d : doc) : editor :=
    Editor d [] [] [] (e_decos e) (e_trace e) (e_alive e) (e_fail e).

  (** The answers to the two operations. *)
  Inductive response := Analysis (bodies : list (option output)) | Execution (trace : option Tr).

  Fixpoint oks {X} (l : list (option X)) : list X :=
    match l with [] => [] | Some x :: r => x :: oks r | None :: r => oks r end.

  Definition set_fail (e : editor) (b : bool) : editor :=
    Editor (e_doc e) (e_marks e) (e_steps e) (e_boundaries e) (e_decos e) (e_trace e) (e_alive e) (e_fail e || b).
  Definition set_decos (e : editor) (ds : decos) : editor :=
    Editor (e_doc e) (e_marks e) (e_steps e) (e_boundaries e) (Some ds) (e_trace e) (e_alive e) (e_fail e).
  Definition set_trace (e : editor) (t : Tr) (hide : bool) : editor :=
    Editor (e_doc e) (e_marks e) (e_steps e) (e_boundaries e) (e_decos e) (Some t) (if hide then false else e_alive e) (e_fail e).

  (** L 267-352 [renderOperation], from where the response is there.  The second
      component: it ended without throwing.  An unmounted React root throws when
      rendered (L 311, 256-259).  Simplification: showing the trace itself does not
      throw (see FrontModel for that). *)
  Definition render_operation (e : editor) (r : response) (c : cfg) : editor * bool :=
    let e1 := set_fail e (c_fail c) in
    if negb (e_alive e) then (e1, false)
    else match r with
         | Execution (Some t) => (set_trace e1 t (c_hide c), true)
         | Execution None => (e1, true)
         | Analysis bodies =>
           match make_decorations (e_doc e1) (oks bodies) with
           | None => (e1, false)
           | Some ds =>
             match render_permissions (set_decos e1 ds) c with
             | None => (set_decos e1 ds, false)
             | Some e2 => (e2, true)
             end
           end
         end.

  (** ** The stand-alone page *)

  (** [p_wait], [p_run]: the requests under way, with the code sent and the settings. *)
  Record page := Page { p_ed : editor; p_wait : option (doc * cfg); p_run : option (doc * cfg) }.

  (** [Answer ok]: the server's answer to the analysis, with its [success];
      [Lost]: the request itself fails, [fetch] or reading the answer throws. *)
  Inductive event :=
  | Edit (d : doc) | Ask (c : cfg) | Answer (ok : bool) | Lost
  | AskRun (c : cfg) | AnswerRun (ok : bool) | LostRun.

  (** What the server says about a program. *)
  Context (analyse : doc -> list (option output)) (execute : doc -> option Tr).

  (** I 112-125: a button is disabled while its request is under way; L 224-234;
      L 283-299: without success only a report. *)
  Definition step (p : page) (ev : event) : option page :=
    match ev with
    | Edit d => Some (Page (edit (p_ed p) d) (p_wait p) (p_run p))
    | Ask c => match p_wait p with None => Some (Page (p_ed p) (Some (e_doc (p_ed p), c)) (p_run p)) | Some _ => None end
    | Answer ok =>
      match p_wait p with
      | None => None
      | Some (d, c) =>
        let '(e, done) := if ok then render_operation (p_ed p) (Analysis (analyse d)) c else (p_ed p, true) in
        let e' := if done then match render_permissions e c with Some e2 => e2 | None => e end else e in
        Some (Page e' None (p_run p))
      end
    | Lost => match p_wait p with None => None | Some _ => Some (Page (p_ed p) None (p_run p)) end
    | AskRun c => match p_run p with None => Some (Page (p_ed p) (p_wait p) (Some (e_doc (p_ed p), c))) | Some _ => None end
    | AnswerRun ok =>
      match p_run p with
      | None => None
      | Some (d, c) =>
        let e := if ok then fst (render_operation (p_ed p) (Execution (execute d)) c) else p_ed p in
        Some (Page e (p_wait p) None)
      end
    | LostRun => match p_run p with None => None | Some _ => Some (Page (p_ed p) (p_wait p) None) end
    end.
  Fixpoint run (p : page) (evs : list event) : option page :=
    match evs with
    | [] => Some p
    | ev :: r => match step p ev with Some p' => run p' r | None => None end
    end.
  Definition start (d : doc) : page := Page (new_editor d) None None.

  (** ** The book's pages *)

  Record eblock := EBlock { k_code : str; k_doc : doc; k_responses : list response; k_options : list (str * str) }.

  (** W 251-263: the operations one after the other; one that throws only rejects its
      own promise.  Simplification: there is a response for every operation. *)
  Definition render_all (e : editor) (rs : list response) (c : cfg) : editor := fold_left (fun e r => fst (render_operation e r c)) rs e.
  Definition init_block (b : eblock) : editor := render_all (new_editor (k_doc b)) (k_responses b) (cfg_of (k_options b)).

  (** W 176-269: block after block; a block without code throws (W 199-200). *)
  Fixpoint init_blocks (l : list eblock) : list editor :=
    match l with
    | [] => []
    | b :: r => match k_code b with [] => [] | _ => init_block b :: init_blocks r end
    end.

  (** W 265-267: the refresh button, with new answers and no settings. *)
  Definition refresh (e : editor) (answers : list response) : editor := render_all e answers no_cfg.
End Editor.
Arguments output : clear implicits.
Arguments decos : clear implicits.
Arguments editor : clear implicits.
Arguments response : clear implicits.
Arguments page : clear implicits.
Arguments eblock : clear implicits.
