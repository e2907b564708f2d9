(** * Model of the step tables

    Models crates/aquascope/src/analysis/stepper/table_builder.rs and
    [MirSegment] of stepper/mod.rs.  Hash maps are association lists; the
    iteration order of a hash map is the order of the list, about which the
    theorems assume nothing. *)
From Coq Require Import List Arith Bool.
From Verif Require Import Base PermsModel CfgModel SegMirModel.
Import ListNotations.

(** table_builder.rs 14-20 [Table]; a span is a number. *)
Record table := Table {
  t_span : nat;
  t_from : loc;
  t_to : loc;
  t_data : list (PlaceId * DataDiff)
}.

(** table_builder.rs 22-30 [Tables] *)
Definition tables := list (loc * list table).

(** What the builder asks of the analysis: table_builder.rs 32-37
    [TableBuilder] without the segments.  [e_dom l] is
    [permissions_domain_at_point] of the point of [l]. *)
Record env := Env {
  e_dom : loc -> Domain;
  e_bottom : Domain;
  e_local : PlaceId -> nat;
  e_locals_at : list (nat * list nat);
  e_reach_span : loc -> loc -> nat
}.

(** [result.entry(l).or_default()] *)
Definition at_loc (r : tables) (l : loc) : list table :=
  match aget loc_eqd r l with Some v => v | None => [] end.

(** [result.entry(l).or_default().push(t)] *)
Definition push (r : tables) (l : loc) (t : table) : tables :=
  aset loc_eqd r l (at_loc r l ++ [t]).

(** [HashMap::extend] *)
Definition extend (r m : tables) : tables :=
  fold_left (fun r lv => aset loc_eqd r (fst lv) (snd lv)) m r.

(** stepper/mod.rs 326-335 [into_diff], and table_builder.rs 108-112; [None] is
    a panic. *)
Definition into_diff (e : env) (from to : loc) : option (list (PlaceId * DataDiff)) :=
  diff_domain (e_dom e from) (e_dom e to).

(** table_builder.rs 73-81 [locals_to_filter] *)
Definition locals_to_filter (e : env) (s : st) (scope : nat) : list nat :=
  flat_map (fun sid => match aget Nat.eq_dec (e_locals_at e) sid with Some v => v | None => [] end)
           (parent_scopes s scope).

(** table_builder.rs 94-134 [insert_segment] *)
Definition insert_segment (e : env) (s : st) (r : tables) (sid : nat) : option tables :=
  match nth_error (segs s) sid with
  | None => None
  | Some sg =>
    let to_filter := locals_to_filter e s (s_scope sg) in
    if loc_eqd (s_from sg) (s_to sg) then Some r
    else match into_diff e (s_from sg) (s_to sg) with
         | None => None
         | Some diff =>
           let diff' := filter (fun pd => negb (memb Nat.eq_dec (e_local e (fst pd)) to_filter)) diff in
           Some (push r (s_to sg) (Table (s_span sg) (s_from sg) (s_to sg) diff'))
         end
  end.

(** A [for] loop whose body may panic. *)
Fixpoint each {A} (f : tables -> A -> option tables) (r : tables) (l : list A) : option tables :=
  match l with
  | [] => Some r
  | x :: rest => match f r x with Some r' => each f r' rest | None => None end
  end.

(** table_builder.rs 144-196 [insert_branch]; [rec] is [insert_collection]. *)
Definition insert_branch (rec : tables -> nat -> option tables) (e : env) (s : st) (r : tables) (bid : nat)
  : option tables :=
  match nth_error (branches s) bid with
  | None => None
  | Some b =>
    let '(from, to) := br_reach b in
    match into_diff e from to with
    | None => None
    | Some entire_diff =>
      match each (insert_segment e s) [] (br_splits b) with
      | None => None
      | Some temp =>
        match each rec temp (br_nested b) with
        | None => None
        | Some temp_middle =>
          match get_branch_scope s bid with
          | None => None
          | Some scope_here =>
            let all_attached :=
              match aget Nat.eq_dec (e_locals_at e) scope_here with Some v => v | None => [] end in
            let attached_here :=
              filter (fun pd => memb Nat.eq_dec (e_local e (fst pd)) all_attached) entire_diff in
            Some (push (extend r temp_middle) to
                    (Table (e_reach_span e from to) from to attached_here))
          end
        end
      end
    end
  end.

(** table_builder.rs 83-92 [insert_collection].  The recursion is on the tree
    of collections; [None] is a panic, also when the fuel runs out. *)
Fixpoint insert_collection (e : env) (s : st) (fuel : nat) (r : tables) (cid : nat) : option tables :=
  match fuel with
  | 0 => None
  | S f =>
    match nth_error (colls s) cid with
    | None => None
    | Some c =>
      each (fun r part =>
              match part with
              | Linear sid => insert_segment e s r sid
              | Branching bid => insert_branch (insert_collection e s f) e s r bid
              end) r (c_data c)
    end
  end.

(** table_builder.rs 41-68: the tables of a body, before they are prettified.
    [brace] is the span of the opening brace. *)
Definition body_tables (e : env) (s : st) (start : loc) (brace : nat) : option tables :=
  match diff_domain (e_bottom e) (e_dom e start) with
  | None => None
  | Some first_diff =>
    insert_collection e s (S (length (colls s)))
      (push [] start (Table brace start start first_diff)) 0
  end.

(** ** Prettifying *)

(** stepper/mod.rs 29-33 [PermIncludeMode] *)
Inductive mode := Changes | All.

(** What the function asks of the compiler.  [w_text] tells for every byte of
    the source whether it is a newline; [w_hi] is the end of a span, [w_loc_span]
    the span of a location; [w_error] is the end of the first error, if there is
    one (errors.rs, from the same body). *)
Record world := World {
  w_text : list bool;
  w_hi : nat -> nat;
  w_error : option nat;
  w_visible : PlaceId -> bool;
  w_local : PlaceId -> nat;
  w_depth : PlaceId -> nat
}.

(** [span_extend_to_line(span).shrink_to_hi()] of a span ending at [pos]: the
    next newline, or the end of the text. *)
Fixpoint to_newline (text : list bool) (pos : nat) : nat :=
  match text, pos with
  | [], _ => pos
  | nl :: rest, 0 => if nl then 0 else S (to_newline rest 0)
  | _ :: rest, S p => S (to_newline rest p)
  end.

Definition line_end (w : world) (span : nat) : nat := to_newline (w_text w) (w_hi w span).

(** [lookup_line(pos)]: the number of newlines before the position. *)
Definition line_at (w : world) (pos : nat) : nat := length (filter (fun b => b) (firstn pos (w_text w))).

(** table_builder.rs 213-216 [should_keep] *)
Definition should_keep (m : mode) (d : DataDiff) : bool :=
  negb (match dd_is_live d with NoStep (Some false) => true | _ => false end
        || (match m with Changes => true | All => false end && ddiff_is_empty d)).

(** An entry of [semi_filtered]: the segment, the span (its line's end) and the
    rows. *)
Record entry := Entry { n_from : loc; n_to : loc; n_pos : nat; n_rows : list (PlaceId * DataDiff) }.

(** table_builder.rs 240-279: one table. *)
Definition filter_table (w : world) (m : mode) (acc : list (nat * list entry)) (t : table)
  : list (nat * list entry) :=
  let pos := line_end w (t_span t) in
  let rows := filter (fun pd => w_visible w (fst pd) && should_keep m (snd pd)) (t_data t) in
  if match rows with [] => true | _ => false end
     || match w_error w with Some hi => hi <? pos | None => false end
  then acc
  else let line := line_at w pos in
       aset Nat.eq_dec acc line
         (match aget Nat.eq_dec acc line with Some v => v | None => [] end
            ++ [Entry (t_from t) (t_to t) pos rows]).

(** table_builder.rs 240-279: all tables, in the iteration order of the map. *)
Definition semi_filtered (w : world) (m : mode) (ts : tables) : list (nat * list entry) :=
  fold_left (filter_table w m) (flat_map snd ts) [].

(** table_builder.rs 323-345: one row enters the combined table. *)
Definition combine_row (acc : list (PlaceId * DataDiff)) (pd : PlaceId * DataDiff)
  : list (PlaceId * DataDiff) :=
  match aget Nat.eq_dec acc (fst pd) with
  | None => aset Nat.eq_dec acc (fst pd) (snd pd)
  | Some old => if ddiff_symmetric (snd pd) old then adel Nat.eq_dec acc (fst pd) else acc
  end.

Definition combined (es : list entry) : list (PlaceId * DataDiff) :=
  fold_left combine_row (flat_map n_rows es) [].

(** table_builder.rs 356-357: the sort key, and a stable sort. *)
Definition key_le (w : world) (a b : PlaceId * DataDiff) : bool :=
  (w_local w (fst a) <? w_local w (fst b))
  || ((w_local w (fst a) =? w_local w (fst b)) && (w_depth w (fst a) <=? w_depth w (fst b))).

Fixpoint insert_row (w : world) (x : PlaceId * DataDiff) (l : list (PlaceId * DataDiff)) :=
  match l with
  | [] => [x]
  | y :: r => if key_le w x y then x :: l else y :: insert_row w x r
  end.

Definition sort_rows (w : world) (l : list (PlaceId * DataDiff)) : list (PlaceId * DataDiff) :=
  fold_right (insert_row w) [] l.

(** stepper/mod.rs 52-67 [PermissionsLineDisplay] with its one table.  The
    segment of the first entry stands for its two ranges. *)
Record display := Display {
  y_line : nat;
  y_pos : nat;
  y_from : loc;
  y_to : loc;
  y_rows : list (PlaceId * DataDiff)
}.

(** table_builder.rs 298-372: one line.  [hash] is the iteration order of the
    combined table. *)
Definition show_line (w : world) (hash : list (PlaceId * DataDiff) -> list (PlaceId * DataDiff))
    (le : nat * list entry) : list display :=
  match snd le with
  | [] => []
  | first :: _ =>
    match combined (snd le) with
    | [] => []
    | rows => [Display (fst le) (n_pos first) (n_from first) (n_to first) (sort_rows w (hash rows))]
    end
  end.

(** table_builder.rs 204-374 [prettify_permission_steps].  [lines] is the
    iteration order of the grouped lines. *)
Definition prettify (w : world) (m : mode)
    (hash : list (PlaceId * DataDiff) -> list (PlaceId * DataDiff))
    (lines : list (nat * list entry) -> list (nat * list entry)) (ts : tables) : list display :=
  flat_map (show_line w hash) (lines (semi_filtered w m ts)).
