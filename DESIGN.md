# Aquascope in Rocq: design, plan and trusted base

The model is a set of small, total, computable Gallina functions, one per Rust
(or TypeScript) function, each with a comment citing the file and lines it
models.  Properties are stated against separate specifications (path-based,
set-based, or relational) and proved for all inputs.

Path prefixes used below and in the sources:

* `A/` = `crates/aquascope/src/`
* `M/` = `crates/mdbook-aquascope/src/`
* `S/` = `crates/aquascope_serve/src/`
* `W/` = `crates/aquascope_workspace_utils/src/`
* `E/` = `frontend/packages/aquascope-editor/src/`

## File layout (rocq/theories)

`Base.v` holds association lists, graph walks and the fixed-point engine.  For
every area `X` there are up to four kinds of files:

* `XModel.v`  - the model, function by function, with citations;
* `XSpec.v`   - the specification: what the property theorems are stated with
  (paths, executions, sets, relations), not the model's own helpers;
* `XProofs.v` (for the segment builder also `SegMirScopes/Close/Tree.v`, for the
  facts `FactsEngine.v` and others) - lemmas;
* `PropX.v`   - the property theorems `Cnn_...`, each followed by
  `Print Assumptions` and by `Example`s showing that a concrete, non-trivial
  input meets the hypotheses.

| Area | Code | Properties |
|------|------|------------|
| Perms | A/analysis/permissions/{mod,utils}.rs | C01-C04 |
| Facts | A/analysis/permissions/{output,context,utils}.rs, A/analysis/mod.rs | C05-C11 |
| Flow | A/analysis/permissions/flow.rs | C12, C13 |
| Spans | A/analysis/mod.rs, A/errors/ | C14-C16, C95 |
| Boundaries | A/analysis/boundaries/, E/editor-utils/boundaries.tsx | C17-C20, C53-C55 |
| Uses | A/analysis/boundaries/mod.rs 436-571, 710-826: the boundaries of a whole function | C96 |
| Cfg | A/analysis/ir_mapper/ | C21-C24, C29, C56, C57 |
| SegMir | A/analysis/stepper/segmented_mir.rs | C25-C28, C58-C61 |
| Tables | A/analysis/stepper/table_builder.rs | C30-C32 |
| Hir | A/analysis/stepper/hir_steps.rs | C33, C83, C84, C85 |
| Trace | A/interpreter/{mod,mapper,step}.rs | C34, C38-C40 |
| Mapper | A/interpreter/{mod,mapper,step}.rs, A/analysis/ir_mapper/mod.rs | C86, C87, C23 |
| Reader | A/interpreter/{mvalue,miri_utils,step}.rs | C88, C89 |
| Locals | A/interpreter/step.rs | C90 |
| Replay | A/analysis/stepper/ (builder and tables together) | C91 |
| Mono | A/analysis/permissions/output.rs, context.rs (two programs compared) | C92 |
| Whole | A/interpreter/mod.rs, step.rs (Trace, Locals, Reader and Mapper put together) | C93 |
| Guards | A/analysis/stepper/hir_steps.rs (what is unsupported) | C94 |
| Values | A/interpreter/{mvalue,miri_utils}.rs | C35-C37, C62-C65 |
| Book | M/{annotations,block,permissions,preprocessor}.rs | C41-C45 |
| Cache | M/{cache,preprocessor}.rs | C46-C48, C66 |
| Run | M/preprocessor.rs, crates/aquascope_front/src/plugin.rs, S/ | C49, C50, C67-C71, C102 |
| Front | E/editor-utils/interpreter.tsx | C51, C52, C72, C73 |
| Editor | E/lib.tsx, E/editor-utils/, aquascope-embed, aquascope-standalone | C74-C82, C104 |
| Page | E/editor-utils/{misc,permissions,boundaries,stepper}.tsx, E/lib.tsx, with Book | C97-C99 |
| Steps | A/analysis/stepper/mod.rs, hir_steps.rs, with Hir, SegMir, Facts, Tables, Spans | C100 |
| Straight | the same, for functions without decisions | C101 |
| Numbers | numbers from A/interpreter/mvalue.rs to E/editor-utils/interpreter.tsx | C103 |
| Embed | M/preprocessor.rs `process_code`, aquascope-embed/src/main.tsx | C105 |
| Again | table_builder.rs `prettify_permission_steps` under two iteration orders (the model is that of Steps) | C106 |
| Serve | S/main.rs `Config`, E/lib.tsx `callBackendWithCode`, standalone/vite.config.ts (with the server of Run) | C107 |
| Build | M/preprocessor.rs `process_code`, `replacements`, `save_cache`; M/main.rs `finish` (composition of Book, Cache, Run and Embed over a history of builds) | C108 |
| Look | E/interpreter.tsx `ValueView`, `AdtView`, `PointerView`, `AbbreviatedView`, `LocalsView`, `FrameView`, `HeapView` (what stands in the cells) over the values of Reader | C109 |
| Arrows | E/interpreter.tsx `renderArrows` (which arrows, their ends, colors and groups), misc.tsx `evenlySpaceAround`, over the pictures of Look | C110 |
| Json | `serde_json::to_string`, `from_str`, `JSON.parse`, `String::from_utf8` where plugin.rs, preprocessor.rs, cache.rs and the page call them | C111 |
| Wire | interpreter/mvalue.rs and step.rs types with their `Serialize`, plugin.rs `postprocess` on a trace, the TypeScript bindings | C112 |
| Report | the types of analysis/, permissions/, boundaries/ and stepper/ that are `Serialize`, plugin.rs `postprocess` on their list, misc.tsx `generateAnalysisDecorationFacts` on the parsed object | C113 |
| Draw | lib.tsx 343-366, permissions.tsx `makePermissionsDecorations`, boundaries.tsx `PermStack`, stepper.tsx `PermChar`, `PermDiffRow`, `makeStepDecorations` and the standalone page's report of errors, on the parsed object | C114 |
| Through | executions and the finished segments of segmented_mir.rs (no new model) | C115 |
| Together | the temporary directories, projects and processes of container.rs 44-161 and preprocessor.rs 46-128, many runs at once | C116 |
| Tell | analysis/mod.rs 285-326 `AquascopeAnalysis::run`: the boundaries and steps of a function put into its result, and with Report, Json and Draw on to the page | C117 |
| Kept | stepper.tsx 381-397 `PermissionStepLineWidget.eq` and what the editor component keeps of the tables drawn before | C118 |
| Lights | the way from the borrow checker's facts to the text lit under the pointer: Tell, Draw and Page put together (misc.tsx 156-272, boundaries.tsx 64-106, stepper.tsx 95-102) | C119 |
| Screen | the way from the steps of the machine to the states on the page: Whole, Wire and Look put together, with the choice of the states and the numbers beside the code (interpreter/step.rs; interpreter.tsx 762-846, 671-760) | C120 |
| Lesson | a marked program of a book on its page: Book, Run, Build, Json, Embed and Screen put together, with the document of the editor (lib.tsx 138-142, 258-329; main.tsx 231-240) | C121 |
| Glass | the button that switches between short and full values, with the arrows through all redraws (interpreter.tsx 455-668, 712-760) | C122 |
| Tools | the controls around the programs of a page: keys of the book, copying, the eye, windows and reports (embed main.tsx 28-213, setup.ts 35-63; lib.tsx 68-93) | C123 |
| Veil | hidden lines through edits (misc.tsx 208-224, lib.tsx 310-315, with CodeMirror's changes and `mapPos`) | C124 |
| Cards | the stand-alone page: tabs, error cards with their clocks, the Stderr text (index.tsx 35-108, index.html, lib.tsx 294-352) | C125 |
| Checks | the project's permission tests: the reader of annotated programs, the comparison, directories of tests (test_utils.rs 67-304, 415-514) | C126 |
| Views | no new code: boundaries and step tables of one page compared with each other (over Tell, Uses, Steps, Draw) | C127 |
| Start | W/lib.rs (all functions), M/preprocessor.rs 28-42 and 64-84, S/container.rs 194-226: how the toolchain is found and the variables of the tool | C128 |
| Valid | A/analysis/stepper/segmented_mir.rs 862-1085 (`test_exts`), ir_mapper/body_graph.rs 59-67: the project's own test of the steps | C129 |
| Snap | A/test_utils.rs 306-391, crates/aquascope/tests/{stepper,boundaries}.rs: the snapshots of the steps and boundaries | C130 |
| Mount | E/lib.tsx 364-393 `EditorComponent` with the constructor, `destroy` and `renderOperation`; React's effects as events | C131 |

Names: `Cnn_..._partial` proves part of the property (the comment says what is
missing); `Cnn_..._refuted` proves that the full statement is false of the code
as modelled; the other `Cnn_...` theorems are proved as stated.

## Plan per property

| Id | What is modelled | How it is proved |
|----|------------------|------------------|
| C01 | permission derivation from the data record | case analysis against a Prop-level spec |
| C02 | all `Difference` impls, domain maps as association lists | case analysis; map extensionality by induction on the domain |
| C03 | `join` on permissions | boolean algebra |
| C04 | `join` on domains, including the join into a temporary copy | positive part: untouched/copied places; the full claim is refuted by a witness |
| C05 | the datalog loop for `move_live_at`, the shift by one edge, `move_refined` | generic saturation engine proved equal to the inductive least relation; then path characterisation |
| C06 | the datalog loop for `path_maybe_uninitialized_on_entry` | same engine |
| C07 | loan joins and the map filling | relation membership, sortedness of the relation gives the maximal key |
| C08 | `is_never_write` over projection lists | induction over projections against a declarative spec |
| C09 | `new_path`, `place_to_path`, `path_to_place` | invariant over registration sequences |
| C10 | `permissions_data_at_point` over the output of the whole derivation | composition of C01, C05-C09 |
| C11 | `construct_loan_regions` | fold invariant (min / max) |
| C12 | `flow_from_sources`, transitive relation | DFS = reachability; closure of a transitive relation |
| C13 | `flow_kind` | decision procedure against a relational spec; false positive refuted by witness |
| C14 | `smooth_elements` for both instances | fold invariant over sorted lists, coverage set |
| C15 | `key_to_spans`, `construct_loan_info`, `construct_move_info` | from C14; the visibility test is refuted by witness |
| C16 | diagnostics state machine | invariant over histories |
| C17 | `is_violation`, expected permission table | case analysis |
| C18 | `select_candidate_location` | list induction |
| C19 | the filter of `compute_permission_boundaries` | list reasoning |
| C20 | `visit_expr` over an expression tree type | structural induction |
| C21 | `AllPostDominators::build` over any graph | dominance by removal = path definition |
| C22 | `ldominates`, `lpost_dominates` | location paths |
| C23 | `get_mir_locations` | from C21/C22, antisymmetry gives uniqueness |
| C24 | `CleanedBody` | direct; imaginary edges refuted by witness |
| C25 | segmented MIR builder | invariant over operation sequences |
| C26 | scope stack and scope graph | invariant over operation sequences |
| C27 | branch table, union-find, freeze | invariant over operation sequences, parametrised by the union-find root policy |
| C28 | `find_next_switchint`, `insert` with fuel | refuted by witnesses for every fuel; positive part under acyclicity |
| C29 | `least_post_dominator` | from C21/C22 |
| C30 | `TableBuilder` | structural induction on segment trees; overwriting refuted by witness |
| C31, C32 | `prettify_permission_steps` | list reasoning; order dependence refuted by witness |
| C33 | HIR walker | structural induction with a builder invariant |
| C34 | `group_steps` | list induction against a run decomposition |
| C35 | `Abbreviated` | list/arith reasoning |
| C36, C37 | `locate_address_in_type`, `locate` | induction on layouts; refutations by witness |
| C38 | `MovedPlaces`, `handle_moves` | invariant over executions; re-assignment refuted |
| C39 | `remap_alloc_id`, `build_heap` reset | invariant; refutation |
| C40 | `local_frames`, `step` | case analysis over executions |
| C41, C42 | `parse_annotations` on byte strings | induction on lines; char offset refuted for non-ASCII |
| C43 | `parse`, `parse_all` | parser as functions on suffixes, induction on length |
| C44, C45 | `replacements`, `parse_perms` | disjointness; overlap and panic refuted by witness |
| C46 | derived `Hash` byte stream | prefix-freeness of encodings |
| C47 | cache file state machine with crash points | invariant; codec as parameters |
| C48 | worker threads as an interleaving semantics | invariant over schedules |
| C49 | `run_aquascope` | list induction |
| C50 | request handling | case analysis |
| C51, C52 | frontend `filterSteps`, pointer selectors | list reasoning; refutations |
| C53 | the candidate places of a node | set equality with the places used by its statements |
| C54 | the search for the nearest enclosing node | induction over the chain of parents |
| C55 | flow boundaries | from C12/C13 |
| C56, C57 | location post-dominance, `location_successor` | location paths |
| C58 | builder of segments | invariant over operation sequences: every item once, children later |
| C59 | `insert`, implicit branches | case analysis under the builder's invariant; refuted by witness |
| C60 | split segments | paths through forced steps; domination refuted by witness |
| C61 | `insert` | induction on the recursion, relation between the states before and after |
| C62, C63 | numbers and strings | arithmetic on bytes; UTF-8 |
| C64, C65 | discovery of the heap | invariant over the reading of values; refutations by witness |
| C66 | key and contents of the cache | refuted for every hash function |
| C67-C69 | outcome of the driver, command line | case analysis over programs and options |
| C70, C71 | server and page | case analysis over runs; refutations |
| C72, C73 | numbering of arrows, characters | lodash's `groupBy` by induction; arithmetic |
| C74-C76 | positions, marks, widgets | arithmetic on UTF-16 lengths; list reasoning |
| C77, C78 | rows and focus | case analysis over diffs; list reasoning |
| C79, C80 | the page as a state machine | invariant over event histories; refutations |
| C81, C82 | the book's pages | list induction; refutations |
| C83 | HIR walker | mutual structural induction, log of the steps asked for |
| C84 | HIR walker, builder and tables | mutual induction: the scope of every segment has the parents of its place in the source; joined with the exactness of tables (C30) |
| C85 | HIR walker, builder | invariant: every branch was split by the spanner of a decision |
| C86 | the map from locations to statements, grouping | exact characterisation of the map for every hash order; composed with C34; refuted for closures without a block |
| C87 | the end of an execution | composition of C40 with the translation of errors; refutations |
| C88 | the reader of values, by types | induction on the fuel: memory map and heap are an invariant, every value denotes what memory holds (an inductive specification) |
| C89 | the same | induction on an inductive predicate "in order"; refutations for the types that are not read |
| C90 | the choice of the variables shown | case analysis with an exact test on bytes; list induction over frames; refutations |
| C91 | builder and tables together | induction over the tree of collections for the ways; induction over a way, with the exactness of tables (C30); refutations |
| C92 | the derivation and the query, on two inputs | each condition of the facts' specification is monotone; composed with C05-C10 |
| C93 | the evaluator of C40 with the state of C90 read by C88 and shown by C86 | composition: each emitted state is read once, shared out to the frames by their number; termination by induction on the steps to the end |
| C94 | the visitor of C33 and C83 | mutual induction over the syntax tree: the reports are a subsequence of the guarded arms, and none is missing if everything is located |
| C95 | the diagnostics log of C16 | induction over the reports since the body was begun; refuted by one warning |
| C96 | UsesModel: visitor, search, facts, flows and error log composed as in `compute_permission_boundaries` | each part by its own theorem (C05-C10, C13, C16, C19, C20, C53-C55), joined use by use |
| C97 | PageModel: tags of loans and moves, elements of all functions of a page, class names added and removed by the pointer | tags are fresh, so an element has a key's tag iff its text belongs to the key; entering then leaving is the identity |
| C98 | CodeMirror's split into lines, hidden and focused lines of the annotations | the page's lines are the book's when no line has a carriage return; else refuted |
| C99 | redrawing of widgets that compare equal | invariant over histories of answers and edits; refuted for step tables |
| C100 | StepsModel: the whole of compute_permission_steps, with Hir, SegMir, Facts, Tables and Spans | every row of a table is traced back to a step of the source (C25, C58, C84, C85) and its two domains to the facts (C05-C11); lines by C31, errors by C16 |
| C101 | Hir, SegMir, Tables and Steps models, for functions without decisions | invariant over the visitor by mutual induction: one open collection, whose segments are a chain of the places asked for; then C83, C22 and C100_complete_partial |
| C102 | analysis of the bodies one after the other, each with a result, a fatal error or a panic | induction over the bodies; refuted for fatal errors |
| C103 | the double `JSON.parse` gives and the digits `toString` prints, on integers | exact description of the nearest double and of the printed digits; refuted beyond 2^53 |
| C104 | requests under way as part of the page's state | invariant over histories: the open request is the last one without an answer |
| C105 | the element written for a block and the script that reads it, for any faithful way to write JSON | composition: what is read is what was written (`Reads`), field by field; refuted for blocks without code |
| C106 | two runs of the model of C100 with different iteration orders of the hash maps | where all changes of a place on a line are one, the merged row is independent of the order; sorted lists with the same elements are equal; refuted in general by a function on a single line and by a variable with two fields |
| C107 | `u16::from_str`, the parser of addresses of version 4 (version 6 is an oracle), the routes of the server, and the URL of a request | parsers: exactly the numerals below 2^16 and the dotted octets, by induction on the digits from the right; routes by cases; composition with `Asks` of C50 |
| C108 | a build: all blocks of all chapters as jobs of CacheModel, each with its own environment, then saved, not saved or killed while saving; a history is a list of builds over the bytes of the file; the elements are those of EmbedModel | invariant over histories: every entry that can be read from the file is the text of an answer of an earlier build; composition with C47, C48, C49 and C105; the witness is a history of three builds |
| C109 | the elements drawn for a value of ReaderModel as a tree, and for a state; numbers by NumbersModel; the text of a double that is not zero is an argument, of which only injectivity is assumed | induction on the depth over pairs of values of one type; the reader gives values of the form of their type (induction on its fuel); the converse by the same induction; `_refuted` for all values that are not told apart |
| C110 | the pointers of a picture in the order of the document with the counts per end, `_.groupBy` by the string of an object, and the attributes of each arrow; percentages are exact rationals, a division by zero has no value | each arrow is given by its position: induction on the list of pointers with the counts so far; `_refuted` for all pictures in which the case occurs |
| C111 | the compact writer, a recursive reader on characters, the limit of depth, the table of UTF-8; the grammar of RFC 8259 as an inductive relation | the reader takes exactly the grammar (mutual induction on derivations one way, induction on fuel the other); what is written is in the grammar; prefixes by determinism; then the assumptions of C49, C105 and C108 about JSON are discharged; refuted for depth 128 |
| C112 | the JSON that `serde` derives for the types of a trace; the form that the TypeScript bindings declare, as a relation that ignores the order of members | induction on values: what is written has the form, a form has one meaning, reading a number as its nearest double keeps the form; pictures of values that differ so are equal (induction on the fuel of the drawing); depth by induction on values |
| C113 | the JSON that `serde` derives for the types of the analysis, with members left out and maps by decimal keys; `for .. in` with its order of integer keys; the declared form as a relation | one lemma per type for each of: has the form, one meaning, kept by the page's reading; the loop by insertion sort of the keys; depth bound by types |
| C114 | the components as functions on the parsed JSON, undefined members included | one lemma per component from the declared form (C113), composed with the models of drawing of C17, C76 and C77 |
| C115 | SegMir and Cfg models | induction over the chain of a collection (C25_chained); linear steps by C25, joins by C29 and the forced way to the switch (C58) |
| C116 | Together: worlds of directories, processes and runs, events | invariant over schedules: directories held are there and distinct, a process that a run waits for has only read its program; a second invariant of patient schedules; a run alone is built from the answers |
| C117 | Tell: functions with their facts, the result of each | composition: what is drawn is in the answer (C114), the answer is the printed results (C113), the results describe the uses (C96) and steps (C100), with the data of each boundary kept |
| C118 | Kept: the page of Editor with the tables that are drawn; which ones the view keeps is an argument | invariant over histories; exact count of the tables at each place; refutations for all programs |
| C119 | Lights: the marks of all functions of a page made from the printed tables; the letters as targets of the pointer | composition of C117, C114, C97 and C14: a character of the program is lit iff it is in the text of the newest loan that takes the permission |
| C120 | Screen: `wire` of the trace of `interpret_whole`, `filter_steps`, `chosen`, `draw_marker`, `draw_panel` | composition of C93, C112 and C109 with lemmas on `findIndex` over the reversed list and on the stable sort; the specification names the states of the machine and the positions in the text |
| C121 | Lesson: `text_of` (the document of an editor), `lesson` (the states drawn for an element with its annotations) | composition of C41, C50, C105, C111 and C120; induction for the lines of the document and for the lengths in bytes and in UTF-16 units |
| C122 | Glass: `take` (first child of the body), `render_ptr`, `clean_up`, `effects`, `pass`, `on_event` | invariant over histories: the body has no arrows between passes and each container exactly those of its list; induction over the events for the form |
| C123 | Tools: listeners on the root element with their identities, focus, windows, clipboard, reports | invariant over histories: the listeners are exactly that of the editors while one has the focus and one for each open window, with distinct numbers; the specification knows only the history |
| C124 | Veil: changes as sections kept or replaced, the mapping of a decoration of a line, the field | the mapping equals a relation on kept units (induction on sections); induction over histories for an inductive description of the hidden lines |
| C125 | Cards: the elements with their classes, timers by due time, the error handler, histories with times | invariant over histories: what was said last on each matter; timers are exactly the build errors less than five seconds old |
| C126 | Checks: the scanner over characters with byte offsets, words, `retain` over the bodies, a directory; the places and permissions of a range in a body are an oracle | the scanner equals an inductive description of files (induction on the text, both directions); the fold over the bodies equals an iff |
| C127 | Views: composition over Tell; what a drawn letter says about a place at a point | both views are reduced to the facts of the place at the point, which are unique; a page on which they differ |
| C128 | Start: `env::var`, `toolchain`, `rustc`, `miri_sysroot`, `new`, the variables of a command; what commands do is an oracle | decision rules as equivalences, by cases on the oracle, with the decoder of C111 and trimming |
| C129 | Valid: `explode`, the checks of collections, branches and segments, `validate`, over Cfg and SegMir | locations on the way of a step by paths; induction over the tree of collections (every one is under the first); dominators by C21-C24's lemmas |
| C130 | Snap: the flattening of the tables, the two sorts (arguments), the names of the stored files, the comparison | sorted permutations with distinct keys are equal; permutations through maps |
| C131 | Mount: the effect and its cleanup, and what they leave in the element; React is the sequence of events | invariant over histories: only the newest editor has a view; counts |

## Trusted base

* Coq 8.16.1's kernel (with `vm_compute`, used in witnesses), its parser and
  the build.
* `Print Assumptions` stands after every property theorem.  For every one it
  prints "Closed under the global context": no axioms, not even the standard
  library's.  No plugins, functors, module types or kernel flags are used.
* That the model says what the code does.  It was written by reading /repo at
  the pinned commit; nothing of it was extracted or run.  Every definition
  cites the lines it models, and says where it simplifies.
* What the code calls is an argument of the model, not an axiom: a record of
  functions or a list of inputs, about which theorems assume only what they
  state as hypotheses.  These are:
  - rustc: polonius facts, move data, types and places (`Inp` of FactsModel),
    MIR bodies (`body` of CfgModel), HIR (`expr` of HirModel and the tree of
    BoundariesModel), spans and line tables, diagnostics; Miri (`TraceModel`,
    memory in `ValuesModel`);
  - dominators and post-dominators (rustc, rustc_utils) are modelled by their
    meaning: reachable, and not reachable without the dominator;
  - JavaScript's numbers: rounding to the nearest double (ties to even) and the shortest
    digits, as IEEE 754 and ECMA-262 define them (NumbersModel, integers only);
  - JSON in the attributes of the page's elements: any writer and reader with `Faithful`
    (EmbedSpec), which those of JsonModel have (C111_page); the escaping by mdbook-preprocessor-utils, mdBook and the browser is
    taken to give the attribute back as it was;
  - ena's unification table: union by rank, the second of two equals stays;
    theorems hold for both choices where they say so;
  - iteration orders of hash maps: arbitrary functions `ord`;
  - gzip and JSON (CacheModel): any codec that reads back what it wrote and
    rejects proper prefixes, which JSON as in JsonModel does over a gzip that reports or
    shortens what is cut off (C111_cache, `Zips`); the 64-bit hash: any function;
  - the libraries serde_json and std's UTF-8 (JsonModel): written from their documentation,
    floats are written with a power of ten and read exactly, escapes of single surrogates are refused by both readers (JSON.parse would read them);
  - ryu and the reading of a double from its text (WireModel `short`, WireSpec `real`): any two functions with
    `Prints`, that is, a finite double is read back from its text;
  - processes, docker, files: outcomes chosen by the environment; a file is a
    list of bytes with a cursor, a crash can come between any two writes;
  - for runs at the same time (TogetherModel): `tempdir` gives a name that nothing has, `cargo new`
    refuses a project that is there and makes missing directories, processes use absolute paths, and a
    command's answer depends on what it reads of main.rs (not on `target`);
  - regular expressions and the fuzzy matcher: arbitrary functions;
  - CodeMirror, React, lodash: the few functions used, by their documentation.

Recurring simplifications: machine integers are `nat` (sizes and offsets do not
overflow) unless a property is about their width; a panic or an exception is an
error value and ends the run; log output is left out.

## What is modelled and what is not

Modelled: everything in the table of areas above that decides what is
computed, shown, cached or answered.  Not modelled:

* A/analysis/permissions/context.rs and output.rs: the construction of the
  polonius input by rustc (it is the input record).
* A/analysis/mod.rs: the traversal of a crate's bodies by rustc.
* A/analysis/{find_bindings,scrape_hir}.rs (collect nodes; not called by the rest).
* A/interpreter/mod.rs: the replaced compiler queries (`fake_mir_borrowck`,
  `fake_optimized_mir`); the texts of Miri's errors.
* A/test_utils.rs 392-413 (snapshots of the interpreter: the whole trace), A/bin/export-ts.rs: tests and
  code generation.
* M/main.rs: the mdBook protocol around the preprocessor; asset copying.
* S/shell.rs (never used), the text of docker commands.
* Drawing itself: styles, animations, the routes of arrows between their ends (LeaderLine), the width of the mark under a range, tooltips.

## Findings

Behaviour of the code that contradicts what a user would expect, each proved of
the model by the theorem in parentheses.

Permissions and boundaries:
* joining two permission domains loses the join of shared places (C04);
* a diff does not show that one loan or move key replaces another (C02);
* a placeholder flow constraint, and hence a declared flow, can be rejected (C13);
* smoothing with empty spans drops or misplaces ranges (C14);
* the visibility test of move anchors is inverted, A/analysis/mod.rs 322-325 (C15);
* `is_violation` ignores flow violations (C17);
* moves in skipped receivers get no boundary; copying a field is said to need
  ownership (C20).

Control flow and steps:
* imaginary edges are never removed (C24);
* in functions that never return exits and joins are arbitrary (C23, C29), and no
  join is found if one arm panics (C29);
* a step in an arm can lead backwards (C25), so that nobody runs through the steps of that arm (C115);
* closing a branch closes nothing once it has an implicit child, so the body
  gets no steps at all (C27, C33): `if a { b && { s; true }; }`;
* an implicit branch inside an implicit branch panics (C59, C33);
* the search for a switch never ends when control is forced around a cycle (C28,
  C33): `match x { _ => loop {} }`;
* inserting a step need not end (C28); a step is silently dropped when no open
  arm can hold it (C61); the start of a split need not dominate its end (C60);
* what changes where the arms of a branch join (a variable moved in one of them)
  is shown by no step (C91); a variable declared by `let x = { if .. }` is
  hidden in the arms and not shown by the branch, so that no step shows that it
  gains its permissions (C91);
* tables of a branch overwrite tables of the same end location (C30); a branch
  without arms panics (C30);
* steps before an error on the error's line are dropped (C31); steps merged on a
  line are not the net change and depend on iteration order (C32);
* an `if` or `match` whose condition has no exit and which has no entry is
  skipped with all that is in it (C83).
- hir_steps.rs 462-477: the step from a switch goes to the first entry, in the order of a
  hash map, that the target dominates.  Where a pattern needs a second switch
  (`Some(1)`, `Some(_)`), the first one has a target that leads to two arms; one of them
  is taken and all steps inside the other are dropped without a message (C85).

Interpreter:
* grouping twice can lose a state (C34);
* nothing is shown while a closure whose body is not a block runs, neither of it nor of
  what it calls: `v.iter().map(|x| f(x))` hides `f` (C86);
* a program that exits, aborts or does something not supported loses its whole trace,
  and an error whose message is not yet translated makes the tool panic (C87);
* moved places stay moved after re-assignment; moves into calls and of variables
  in memory are not seen (C38);
* allocation numbers change between states; the number in an error is always 0 (C39);
* locating a pointer panics with padding, is wrong with reordered fields, panics
  for enums (C36); slices are right only for bytes and panic at a buffer's start (C37);
* 128-bit integers are cut (C62), non-ASCII strings shown byte by byte (C63),
  cyclic memory is read for ever (C64), an object shows only what the first
  pointer sees (C65);
* a reference to a string that no `String` owns, as every literal, is read for ever;
  such a slice, and a user's type called `Vec` or `String`, panic; `Box<()>` and types
  the reader does not know make the state disappear; what the references in a vector
  point to is read as the buffer of the vector (C89);
* a reference to what is in a variant of an enum (`if let Some(r) = &x`) is not expressed as a path: `AddressLocator::locate`
  reaches `todo!()`, and the whole trace is lost (C36, C89_payload_refuted);
* a borrowed variable whose type has padding is never shown, and pointers to it
  look freed; variables captured by a closure are not shown; a borrowed union
  panics (C90).

Book and server:
* a mark for a state in code that is not executed takes all states off the page (C120_marked_partial);
* marker positions are byte offsets; some markers stay in the code (C41); malformed
  markers are not reported (C42); a closing fence on the same line is read as part
  of the operation (C43); a macro in a block overlaps it (C44); an unknown `@Perm`
  option crashes (C45);
* cache keys collide and do not depend on the tool's version (C46, C66);
* output larger than a pipe's buffer is reported as a timeout (C49);
* a fatal error of rustc in the middle of the analysis leaves the answers so far, a success (C102);
* a program that does not parse gives `[]`, a success (C67); `showFlows` with the
  interpreter always fails (C68); `shouldFail=false` means true (C69);
* the server answers unreadable requests with 200 and panics with nothing (C50),
  leaves timed-out processes running (C70), and the page does not tell (C71);
* a `cargo new` that the server gave up on goes on: it makes the removed directory
  again, which nobody removes, or makes the request fail that got a directory of
  the same name (C116).
* an answer nested 128 deep or more, such as a struct in a struct some thirty times, is printed by the
  tool and cannot be read by the preprocessor; one level less is read, put into the cache,
  and then not read from there (C111).
* a variable that holds 30 structs one in another (or an object on the heap with 31) makes the tool's answer deeper than
  serde_json reads, and the preprocessor fails on it (C112).

Front end:
* the error is shown with the last state shown, not where it happened (C51);
* at `x += ..` the boundary draws the permissions of `x` although its old value is not needed any
  more, and a step table that tells of the same point does not: only the steps look at liveness
  (C127_dead_refuted);
* the server calls the tool with whatever library path it has itself, the preprocessor with that of the
  compiler (C128_libraries_refuted); with `MIRI_SYSROOT` set and `RUSTC_PATH` not, the two places may
  belong to different toolchains (C128_mixed_refuted); an empty `MIRI_SYSROOT` is taken for a place;
* the test of the steps promises a step for each target of a switch and does not check it
  (C129_switches_refuted); the way of a step into one arm includes the other arm and all that follows, so
  nothing after a branch is ever missing (C129_after_refuted, C129_stops_refuted);
* the snapshots of the steps do not tell in which table a row is (C130_tables_refuted), may depend on an
  unstable sort (C130_order_refuted), and are shared by functions of one name (C130_same_name_refuted);
* the editor component does not follow its properties (C131_stale_refuted); `destroy` leaves the trace and
  the React root of the buttons behind (C131_again_refuted, C131_roots_refuted);
* a permission test whose program does not compile passes unchecked
  (C126_unchecked_refuted), and an annotation's unknown letters are passed over, as in `R-0` of
  tests/refinement/refine_basic_4.test, which has a zero (C126_letters_refuted);
* on the stand-alone page the clock of an earlier build error takes away the card of a
  later one (C125_five_seconds_refuted), a success leaves the error and its tab in front but
  replaces the error output (C125_success_refuted), of several internal errors only the last
  is shown (C125_messages_refuted), and an answer that is not JSON shows nothing
  (C125_unread_refuted);
* a line written in front of a hidden line is hidden instead of it
  (C124_before_refuted), and undo does not hide a line again (C124_undo_refuted);
* a bug report has the program as it was loaded, not the one on the screen
  (C123_report_refuted);
* the button for inner fields removes all states for good if one cannot be drawn in the
  other form (C122_click_refuted), and `concreteTypes=false` switches the full form on
  (C122_option_refuted);
* a pointer to something not drawn removes the whole display (C52), and so does a
  float that is infinite or not a number (C52_not_finite_refuted);
* integers beyond 2^53 are shown rounded: `u64::MAX` as 18446744073709552000 (C103);
* arrows are not numbered by kind (C72); characters beyond U+FFFF are wrong (C73,
  C74);
* one move makes all loans and moves of the program invisible (C75), so that on a
  page where anything lights up no move ever does (C119_moves_refuted); the second
  boundary at a position is never shown (C76);
* focus by name selects every path containing it (C78);
* late answers draw old annotations into new code (C79); the should-fail sign
  stays (C80); an empty block stops the page with all blocks behind it, hiding code
  stops later operations (C81, C105); refreshing loses steps and boundaries (C82);
* a carriage return inside a line of the book shifts the hidden and focused lines
  of the page (C98);
* a second answer without an edit can leave tables of the first on the page, whose
  letters then highlight nothing (C99, C118_tags_refuted); with an edit between request and answer these are
  tables of other code, which stay when the new code has been analysed (C118_late_refuted);
* the answer of the stepper depends on the iteration order of hash maps whose keys are hashed by address
  (C106): with several changes of a place on a line its row appears in one run and not in another, the rows
  of the fields of a variable swap, and the locations of a line are those of any of its steps;
* the server ignores a port it cannot read and takes 8008, does not start for the name of a host, and the
  page drops the last part of the path of its server (C107);
* what was analysed in a build of a book is lost if the build does not get to saving, for example because
  one block of it failed, since the cache is only written by `finish` (C108);
* values that differ may look the same on the page: arrays of more than 12 elements with the same first eleven and the same last, of whatever
  lengths; a space and U+00A0; vectors and strings with one pointer and other capacities or lengths, iterators with other ends;
  uninitialised data and pointers to freed memory; 0.0 and -0.0; a variable of which a part has been moved and one of which nothing has (C109);
* a pointer into a `Vec` or `String` itself is shown as one to the whole (C36), and one into memory of the
  compiler for locations of callers panics (C89).
* `renderArrows` groups pointers with `_.groupBy(pointers, "group")`, where `group` is an object: all pointers get the key `[object Object]`, so there is one group, and the staggering of arrows from the stack to the heap counts all arrows (C110_stagger_refuted). For a lone pointer to a cell `evenlySpaceAround` computes 0/0, and the anchor is asked to be at `NaN%` (C110_single_refuted). Five arrows to one cell reach beyond it (C110_edge_refuted).

## Testing the theorems

`seeded/LOG.jsonl` lists wrong programs: an edit of one definition of the model,
the claim it breaks, the theorems that no longer compile, and the theorems that
were tightened because they still did.  `outcome` says how an attempt ended:
"caught", "survived" (no theorem failed; the edit was run again after the
tightening, as a later line), "caught, but not by ..." (some theorem failed, but
not one about the claim), or "not evaluated" (the edit did not type check, or the
script that rebuilds could not go on).  Lines without it were caught.  The lines
of the attempts that were not caught at once were added later, from the saved
output, so they do not stand in the order of the attempts.

Lines whose claim begins with "generated edit" come from a script that changes one
token or clause of a definition at a time: comparisons, constructors of the same
type, exchanged arguments, dropped arms.  For these the build stopped at the first
lemma or theorem that failed, which is what `failed` names; it need not be the
theorem of a claim.  Edits that do not type check (about half) are not listed.
For every edit that survived the line says why no claim becomes false, or which
theorem was tightened.
