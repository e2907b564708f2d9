{"id": "C01", "title": "Displayed permissions follow exactly from the refinement facts", "statement": "For every place at every program point, the R/W/O permissions Aquascope derives from the recorded data are: R iff the place is definitely initialised (neither moved nor possibly uninitialised) and no read-refining loan is live; W iff R holds, the type/declaration allows writes and no write-refining loan is live; O iff R holds, the place is droppable and no drop-refining loan is live. If the place is not live none of them is shown. Hence W implies R, O implies R, and nothing exceeds the declared maximum.", "quantifier": "all values of the permission data record (all combinations of flags and loan/move keys)", "why_tests_cant": "The record has unbounded loan and move keys and 2^6 flag combinations; the tests snapshot a few programs and never check the implications between the letters.", "anchors": ["crates/aquascope/src/analysis/permissions/mod.rs: PermissionsData::permissions, permissions_ignore_liveness", "crates/aquascope/src/analysis/permissions/context.rs: max_permissions"]}
{"id": "C02", "title": "A step diff is exactly the change between two states", "statement": "For any two permission states of the same places, the diff shown in a step table (a) applied to the earlier state gives the later state for every R/W/O and boolean fact, (b) reports 'no change' for a permission iff it is equal before and after, (c) is the mirror image of the diff computed in the other direction, and (d) computing the diff panics iff the earlier state mentions a place the later one lacks.", "quantifier": "all pairs of permission states over any finite set of places", "why_tests_cant": "States are unbounded maps; only a handful of program snapshots are tested.", "anchors": ["crates/aquascope/src/analysis/stepper/mod.rs: Difference impls, PermissionsDataDiff::is_empty, ValueStep"]}
{"id": "C03", "title": "Joining permissions is a greatest lower bound with an exact change flag", "statement": "Joining the permissions of two control-flow predecessors keeps exactly the letters both have; it is commutative, associative and idempotent, and the returned flag is true iff the stored value changed.", "quantifier": "all permission triples", "why_tests_cant": "Algebraic law over all values; no test touches it.", "anchors": ["crates/aquascope/src/analysis/permissions/utils.rs: JoinSemiLattice for Permissions"]}
{"id": "C04", "title": "Joining permission domains lowers every shared place", "statement": "Joining a permission domain into another leaves every place present in both with the join of the two permissions, leaves the others untouched or copied, and reports a change iff the domain changed, so that iterating to a fixpoint terminates.", "quantifier": "all pairs of permission domains", "why_tests_cant": "Domains are unbounded maps and termination of a fixpoint iteration is not observable in a finite test.", "anchors": ["crates/aquascope/src/analysis/permissions/utils.rs: JoinSemiLattice for PermissionsDomain"]}
{"id": "C05", "title": "A place is reported moved at exactly the points a move can reach", "statement": "A place is reported as moved at a program point iff some move of an overlapping place can reach that point along control-flow edges without an intervening assignment that conflicts with the moved place; the move it names is one of those moves.", "quantifier": "all control-flow graphs, move-outs, assignment sets and conflict relations", "why_tests_cant": "Reachability over arbitrary (cyclic) graphs; a finite test suite fixes the graphs.", "anchors": ["crates/aquascope/src/analysis/permissions/output.rs: derive_permission_facts (move_live_at, move_refined)"]}
{"id": "C06", "title": "Uninitialised sub-places make every enclosing place uninitialised", "statement": "A place is reported possibly-uninitialised on entry to a point iff it, or some place nested in it at any depth along the recorded parent links, may be uninitialised on exit of some predecessor point.", "quantifier": "all parent forests (any depth), control-flow relations and seed facts", "why_tests_cant": "Depth and graph are unbounded.", "anchors": ["crates/aquascope/src/analysis/permissions/output.rs: derive_permission_facts (path_maybe_uninitialized_on_entry)"]}
{"id": "C07", "title": "Live loans refine exactly the conflicting places", "statement": "At a point where a loan is live, a conflicting place loses W and O; it loses R iff the loan is mutable. A place with no live conflicting loan loses nothing. The loan key attached to a place names a loan that is live there and conflicts with it, and the choice among several is deterministic (independent of the order in which the facts were produced).", "quantifier": "all loans, liveness relations, conflict relations and fact orders", "why_tests_cant": "Ranges over all relations and hash/iteration orders.", "anchors": ["crates/aquascope/src/analysis/permissions/output.rs: derive_permission_facts (loan_*_refined, insert_facts)"]}
{"id": "C08", "title": "Write capability of a place follows the declared mutability rules", "statement": "A place is write-enabled iff (a) when it is not behind a dereference its variable is mutable, and (b) none of the prefixes it dereferences is a shared reference, and (c) when it dereferences something that is not a reference (such as a Box) its variable is not declared read-only.", "quantifier": "all places with any projection list and any local declarations/types", "why_tests_cant": "Projection lists are unbounded.", "anchors": ["crates/aquascope/src/analysis/permissions/output.rs: never_write computation", "crates/aquascope/src/analysis/permissions/context.rs: is_declared_readonly, is_path_write_enabled"]}
{"id": "C09", "title": "Place/path interning is a faithful round trip", "statement": "After any sequence of registrations, looking up the path of a registered place and converting it back yields the same place; two places get the same path iff they are equal after normalisation; earlier paths never change meaning; looking up an unregistered place fails loudly.", "quantifier": "all registration sequences including duplicates", "why_tests_cant": "Quantifies over all histories of an append-only table.", "anchors": ["crates/aquascope/src/analysis/permissions/context.rs: new_path, place_to_path, path_to_place"]}
{"id": "C10", "title": "Permission query at a point is the composition of all facts", "statement": "For every registered place and point, the permissions returned by the query are those given by the program facts themselves: W at a point iff the place may be written by declaration, is initialised, not reached by a move, live-loan free, and (for the display) live.", "quantifier": "all programs' fact sets, all places, all points", "why_tests_cant": "Composition of several fixpoints over arbitrary graphs.", "anchors": ["crates/aquascope/src/analysis/permissions/context.rs: permissions_data_at_point, permissions_domain_at_point"]}
{"id": "C11", "title": "Loan regions span the loan's whole live range", "statement": "For each loan the reported region is the smallest range (by first start, last end) enclosing the spans of all points where the loan is live; every loan that is live at some mapped point gets a region.", "quantifier": "all loan-live facts in any order", "why_tests_cant": "Order and number of facts unbounded.", "anchors": ["crates/aquascope/src/analysis/permissions/context.rs: construct_loan_regions"]}
{"id": "C12", "title": "Abstract/local sources of a region are exactly the regions that flow into it", "statement": "For every constraint graph and set of source regions, a region is said to contain a source iff there is a chain of flow constraints from the source to the region; adding transitive closure changes nothing.", "quantifier": "all constraint graphs and source sets", "why_tests_cant": "Arbitrary cyclic graphs.", "anchors": ["crates/aquascope/src/analysis/permissions/flow.rs: flow_from_sources, RegionFlows::contains_*"]}
{"id": "C13", "title": "Flow permission verdict follows the documented rules", "statement": "For a flow between two regions: it is allowed if they are in one cycle; otherwise it is LocalOutlivesUniversal iff a local region flows into the source and the target is tied to an abstract region; otherwise MissingUniversalConstraint iff some abstract region of the source is not declared to flow into some abstract region of the target; otherwise LocalInvalidatedAtExit iff a local loan region whose place is invalidated at exit flows into the source; otherwise allowed. A body whose abstract flows are all declared never gets MissingUniversalConstraint.", "quantifier": "all constraint graphs, placeholder sets and declared relations", "why_tests_cant": "Graph-theoretic statement over all inputs.", "anchors": ["crates/aquascope/src/analysis/permissions/flow.rs: RegionFlows::flow_kind"]}
{"id": "C14", "title": "Merging ranges preserves exactly the covered text", "statement": "Smoothing a list of ranges yields ranges sorted by start, pairwise disjoint and non-touching, covering exactly the characters covered by the input; it does not depend on the order of the input and smoothing twice changes nothing.", "quantifier": "all finite lists of ranges", "why_tests_cant": "Lists of any length and arrangement.", "anchors": ["crates/aquascope/src/analysis/mod.rs: smooth_elements, Bounded for Span / CharRange"]}
{"id": "C15", "title": "Loan and move highlights contain only visible spans of the region", "statement": "The highlighted ranges of a loan lie within the loan's extent and cover every recorded visible span of it; every move that has a visible source span is given a highlight anchor.", "quantifier": "all point sets, span assignments", "why_tests_cant": "All span maps.", "anchors": ["crates/aquascope/src/analysis/mod.rs: key_to_spans, points_to_spans, construct_loan_info, construct_move_info, is_span_visible"]}
{"id": "C16", "title": "The first error of the current body is found whatever the diagnostic order", "statement": "After any history of bodies and diagnostics, the reported first error is the error-level diagnostic of the current body with the smallest start, and none iff the body has no error-level diagnostic; warnings and diagnostics of earlier bodies never matter.", "quantifier": "all histories of track-body / diagnostic / query events", "why_tests_cant": "Histories unbounded.", "anchors": ["crates/aquascope/src/errors/mod.rs: track_diagnostic, track_body_diagnostics, errors_exist, get_span_of_first_error"]}
{"id": "C17", "title": "A boundary is a violation iff an expected permission is missing", "statement": "A boundary is flagged iff some expected letter is not in the actual permissions or the flow requirement is violated; a use kind always expects R; writes and mutable borrows additionally W; moves additionally O.", "quantifier": "all expected/actual combinations and use kinds", "why_tests_cant": "Implication over the complete space, used by every displayed boundary.", "anchors": ["crates/aquascope/src/analysis/boundaries/mod.rs: PermissionsBoundary::is_violation, ExpectedPermissions"]}
{"id": "C18", "title": "Choice of the MIR place behind a source expression", "statement": "When several MIR operations stem from one expression, the chosen one is among them, is the unique one if there is one, prefers the source variable named by the expression, and otherwise is the earliest one of maximal projection depth on the first candidate's variable; with no candidates none is chosen.", "quantifier": "all candidate lists and all similarity oracles", "why_tests_cant": "Lists unbounded.", "anchors": ["crates/aquascope/src/analysis/boundaries/mod.rs: select_candidate_location"]}
{"id": "C19", "title": "Boundaries after the first error are suppressed, all others kept", "statement": "The reported boundaries are, in order, exactly those that have no preceding error, i.e. that start no later than the first error's end, or that carry a flow requirement; each comes from exactly one use site.", "quantifier": "all boundary lists and error positions", "why_tests_cant": "All lists.", "anchors": ["crates/aquascope/src/analysis/boundaries/mod.rs: compute_permission_boundaries"]}
{"id": "C20", "title": "Every place use in an expression tree gets the right boundary", "statement": "Walking any expression tree records, in source order, a boundary for every variable read, method receiver, borrow, assignment through a dereference, and match scrutinee, and with the permission that the syntactic context requires; no sub-expression outside the documented exceptions is skipped.", "quantifier": "all expression trees", "why_tests_cant": "Trees unbounded.", "anchors": ["crates/aquascope/src/analysis/boundaries/path_visitor.rs: HirExprScraper::visit_expr, get_adjusted_permissions"]}
{"id": "C21", "title": "Post-dominance table means 'on every path to every exit'", "statement": "A block is reported to post-dominate a node iff the node can reach every return block and each path from the node to a return block passes through it; a function that never returns is covered separately.", "quantifier": "all control-flow graphs and exit sets", "why_tests_cant": "Arbitrary graphs.", "anchors": ["crates/aquascope/src/analysis/ir_mapper/post_dominators.rs: AllPostDominators::build, is_postdominated_by"]}
{"id": "C22", "title": "Location dominance is a partial order with the path meaning", "statement": "Location A dominates B iff every execution path from the function entry that reaches B has passed A; on reachable locations this is reflexive, antisymmetric and transitive, and the dominators of a location are totally ordered.", "quantifier": "all control-flow graphs and all locations", "why_tests_cant": "Arbitrary graphs with loops.", "anchors": ["crates/aquascope/src/analysis/ir_mapper/mod.rs: ldominates, lpost_dominates, dominates, post_dominates"]}
{"id": "C23", "title": "MIR locations of a source node have a well defined entry and exit", "statement": "The locations returned for a source node are exactly its operational locations (not in a false-edge-only block, not in a block ending in unreachable), sorted within each block; the entry dominates all of them, the exit post-dominates all of them, and both are independent of hash-map iteration order.", "quantifier": "all location sets, graphs and iteration orders", "why_tests_cant": "Hash order nondeterminism and arbitrary graphs.", "anchors": ["crates/aquascope/src/analysis/ir_mapper/mod.rs: get_mir_locations", "crates/aquascope/src/analysis/ir_mapper/mir_locations.rs"]}
{"id": "C24", "title": "The cleaned control-flow graph only has real, non-cleanup edges", "statement": "Successors and predecessors in the cleaned graph never mention cleanup or unreachable blocks, never follow an imaginary (false) edge, and are converse of each other on kept blocks.", "quantifier": "all bodies", "why_tests_cant": "All graphs.", "anchors": ["crates/aquascope/src/analysis/ir_mapper/body_graph.rs: CleanedBody successors/predecessors, keep_block"]}
{"id": "C25", "title": "Linear segments are sound steps", "statement": "After every sequence of builder operations, every linear segment's start dominates its end and its end post-dominates its start, and consecutive segments of a collection are chained end to start.", "quantifier": "all graphs and all operation sequences", "why_tests_cant": "Quantifies over operation histories and graphs.", "anchors": ["crates/aquascope/src/analysis/stepper/segmented_mir.rs: insert, mk_branch, validate"]}
{"id": "C26", "title": "Scopes form a tree that mirrors the open/close history", "statement": "For every well-nested history, the parents of a scope are exactly the scopes that were open when it was opened; closing out of order or closing the base scope is an error; a place filtered from a step is exactly one declared in a strictly enclosing scope.", "quantifier": "all open/close histories", "why_tests_cant": "Histories unbounded.", "anchors": ["crates/aquascope/src/analysis/stepper/segmented_mir.rs: open_scope, close_scope, parent_scopes", "crates/aquascope/src/analysis/stepper/table_builder.rs: locals_to_filter"]}
{"id": "C27", "title": "Branches are closed completely, and only then can the result be frozen", "statement": "Closing a branch leaves no collection of that branch (or of its implicit children) open and leaves all others open; freezing succeeds iff exactly the outermost collection is open.", "quantifier": "all operation histories", "why_tests_cant": "Histories unbounded; depends on union-find representative choice.", "anchors": ["crates/aquascope/src/analysis/stepper/segmented_mir.rs: open_branch, open_child_branch, close_branch, freeze"]}
{"id": "C28", "title": "Building steps terminates", "statement": "Inserting a location and opening a branch always terminate (result or error), for every function body.", "quantifier": "all graphs, including infinite loops in user code", "why_tests_cant": "Non-termination is not observable by finite tests.", "anchors": ["crates/aquascope/src/analysis/stepper/segmented_mir.rs: find_next_switchint, insert"]}
{"id": "C29", "title": "The join point of a branch is the nearest common post-dominator", "statement": "The join computed for a switch, if any, is a location every path through the branch must pass, is dominated by the branch, and is the first such; it is absent iff there is none.", "quantifier": "all graphs", "why_tests_cant": "Arbitrary graphs.", "anchors": ["crates/aquascope/src/analysis/stepper/segmented_mir.rs: least_post_dominator"]}
{"id": "C30", "title": "No permission step is lost when branch tables are assembled", "statement": "Every segment whose end states differ contributes its diff to the final tables at its end location, for every segment tree.", "quantifier": "all segment trees", "why_tests_cant": "Trees unbounded.", "anchors": ["crates/aquascope/src/analysis/stepper/table_builder.rs: insert_collection, insert_segment, insert_branch"]}
{"id": "C31", "title": "Line tables show each line once, only visible changes, before the first error", "statement": "After prettifying, each source line has at most one entry; in Changes mode every shown row has a non-empty diff; rows whose place is dead throughout are never shown; nothing starting after the first error is shown; rows are ordered by variable then depth.", "quantifier": "all sets of step tables and modes", "why_tests_cant": "All tables and hash orders.", "anchors": ["crates/aquascope/src/analysis/stepper/table_builder.rs: prettify_permission_steps"]}
{"id": "C32", "title": "Merging several steps on one line yields the net change", "statement": "When several steps of one place fall on one line, the shown diff is the net effect: opposite changes cancel, a single change is shown as is, and the result does not depend on hash-map iteration order.", "quantifier": "all multisets of diffs and all orders", "why_tests_cant": "Hash order nondeterminism.", "anchors": ["crates/aquascope/src/analysis/stepper/table_builder.rs: prettify_permission_steps (combine)", "crates/aquascope/src/analysis/stepper/mod.rs: is_symmetric_diff"]}
{"id": "C33", "title": "Walking a function body leaves the builder balanced", "statement": "For every function body the walk closes every scope and branch it opened, or reports an error; on success the collected segments can be frozen.", "quantifier": "all HIR trees and all node-location oracles", "why_tests_cant": "Trees unbounded.", "anchors": ["crates/aquascope/src/analysis/stepper/hir_steps.rs: visit_block, visit_stmt, visit_expr, visit_arm"]}
{"id": "C34", "title": "Interpreter trace grouping keeps the last state of every source location run", "statement": "Grouping a trace yields, in order, the last step of each maximal run of steps at the same source location, dropping only steps with an unmappable frame; no two adjacent steps share a location; grouping is idempotent and the program result is kept.", "quantifier": "all traces", "why_tests_cant": "Traces unbounded.", "anchors": ["crates/aquascope/src/interpreter/mapper.rs: group_steps", "crates/aquascope/src/interpreter/mod.rs: interpret"]}
{"id": "C35", "title": "Abbreviated arrays show the right elements", "statement": "An array or vector of n elements is shown completely when n <= 12, else as its first 11 elements and its last one; only in-bounds elements are read; the first read error is propagated.", "quantifier": "all lengths and element readers", "why_tests_cant": "All n.", "anchors": ["crates/aquascope/src/interpreter/mvalue.rs: Abbreviated::new, map"]}
{"id": "C36", "title": "Pointers are resolved to the object they point into", "statement": "For an address inside an allocation, the displayed path selects a sub-object whose memory offset is the address, for every type layout.", "quantifier": "all (nested) layouts and offsets", "why_tests_cant": "Layouts are unbounded.", "anchors": ["crates/aquascope/src/interpreter/miri_utils.rs: AddressLocator::locate, locate_address_in_type"]}
{"id": "C37", "title": "A slice pointer shows exactly the elements of the slice", "statement": "A slice of n>0 elements starting at element i of a buffer is shown as the range i..i+n-1, for every element size.", "quantifier": "all i, n, element sizes", "why_tests_cant": "All numbers.", "anchors": ["crates/aquascope/src/interpreter/miri_utils.rs: AddressLocator::locate (Subslice)"]}
{"id": "C38", "title": "Moved variables are tracked per stack frame", "statement": "Over any execution the move sets stay aligned with the call stack (one per frame); a variable is shown moved iff a statement of its own frame moved it and it has not been re-assigned since.", "quantifier": "all executions", "why_tests_cant": "Executions unbounded.", "anchors": ["crates/aquascope/src/interpreter/step.rs: MovedPlaces, handle_moves"]}
{"id": "C39", "title": "Allocation numbers identify allocations", "statement": "Within one trace the number shown for a freed allocation identifies it: equal numbers iff the same allocation, and the number reported with a use-after-free error is the one shown in the last state.", "quantifier": "all executions and allocation orders", "why_tests_cant": "Executions unbounded.", "anchors": ["crates/aquascope/src/interpreter/step.rs: remap_alloc_id, build_heap, beautify_error", "crates/aquascope/src/interpreter/mvalue.rs: read_pointer"]}
{"id": "C40", "title": "Each trace step shows a non-empty stack of user frames", "statement": "Every step of the trace has at least one frame, all frames belong to user code in call order, and the last one is at the statement just executed (or the call that is in progress).", "quantifier": "all executions (call/return sequences)", "why_tests_cant": "Executions unbounded.", "anchors": ["crates/aquascope/src/interpreter/step.rs: local_frames, step, eval"]}
{"id": "C41", "title": "Interpreter markers are placed where the author put them", "statement": "For every code block, the cleaned code is the input with markers and hide prefixes removed line by line, the number of lines is unchanged, and each recorded state marker is the character offset in the cleaned code where the marker stood.", "quantifier": "all strings", "why_tests_cant": "All inputs.", "anchors": ["crates/mdbook-aquascope/src/annotations.rs: parse_annotations"]}
{"id": "C42", "title": "Annotations are collected for the right lines", "statement": "Hidden lines, focused lines and focused paths are recorded with the 1-based number of the line they stand on, in order; every malformed marker is an error; a well-formed block never fails.", "quantifier": "all strings", "why_tests_cant": "All inputs.", "anchors": ["crates/mdbook-aquascope/src/annotations.rs: parse_annotations, config parsing"]}
{"id": "C43", "title": "All aquascope blocks of a page are found, in order and disjoint", "statement": "The block ranges are in bounds, ordered and pairwise disjoint; each range's text is one complete fenced block and no block starting outside another is missed.", "quantifier": "all page contents", "why_tests_cant": "All inputs.", "anchors": ["crates/mdbook-aquascope/src/block.rs: AquascopeBlock::parse, parse_all"]}
{"id": "C44", "title": "Replacements never overlap", "statement": "The ranges replaced in a chapter (diagrams and permission macros) are pairwise disjoint, so splicing them is well defined.", "quantifier": "all page contents", "why_tests_cant": "All inputs.", "anchors": ["crates/mdbook-aquascope/src/preprocessor.rs: replacements", "crates/mdbook-aquascope/src/permissions.rs: parse_perms"]}
{"id": "C45", "title": "Permission macros expand exactly and never crash", "statement": "Each @Perm occurrence is replaced by markup for exactly the listed permissions, an unknown permission is reported as an error, and no input crashes the preprocessor.", "quantifier": "all strings", "why_tests_cant": "All inputs.", "anchors": ["crates/mdbook-aquascope/src/permissions.rs: parse_perms"]}
{"id": "C46", "title": "The cache key separates different blocks", "statement": "Two blocks feed the same bytes to the hash iff they have the same operations, configuration and code (annotations never matter).", "quantifier": "all pairs of blocks", "why_tests_cant": "All pairs of strings.", "anchors": ["crates/mdbook-aquascope/src/block.rs: derive(Hash)", "crates/mdbook-aquascope/src/annotations.rs: Hash for AquascopeAnnotations", "crates/mdbook-aquascope/src/cache.rs"]}
{"id": "C47", "title": "The cache survives any crash without serving wrong data", "statement": "After any history of gets, sets, saves and reloads, a reload yields exactly the entries of the last save; if the process dies at any byte of a save, the next load yields the old entries, the new entries or an empty cache, never anything else. As long as no result is added, the file is not touched.", "quantifier": "all histories and all crash points", "why_tests_cant": "Crash points and histories unbounded.", "anchors": ["crates/mdbook-aquascope/src/cache.rs: load, get, set, save"]}
{"id": "C48", "title": "Parallel processing of blocks is equivalent to sequential processing", "statement": "For every interleaving of the worker threads, every block is rendered with its own analysis result, failures are never cached, and the final cache contains exactly the initial entries plus the results of the successful blocks.", "quantifier": "all schedules, block lists and initial caches", "why_tests_cant": "Schedules.", "anchors": ["crates/mdbook-aquascope/src/preprocessor.rs: process_code, replacements", "crates/mdbook-aquascope/src/cache.rs"]}
{"id": "C49", "title": "A block succeeds only if every requested operation succeeded", "statement": "Running a block returns a response map iff every operation's process exited successfully with parseable output that reports no error; the map has exactly one entry per distinct operation; otherwise an error is returned that says what failed first, and nothing is cached.", "quantifier": "all operation lists, configurations and process outputs", "why_tests_cant": "All process behaviours.", "anchors": ["crates/mdbook-aquascope/src/preprocessor.rs: run_aquascope"]}
{"id": "C50", "title": "Server answers every request with a status reflecting the outcome", "statement": "Every request gets exactly one response, errors are reported with an error status, each run uses a fresh container, and a run exceeding the time limit is reported as an error.", "quantifier": "all requests and container behaviours", "why_tests_cant": "All behaviours.", "anchors": ["crates/aquascope_serve/src/server.rs", "crates/aquascope_serve/src/container.rs", "crates/aquascope_serve/src/main.rs"]}
{"id": "C51", "title": "Marked steps shown to the reader are the last matching states", "statement": "For marks in the code, the shown steps are, for each mark, the last step whose innermost frame encloses the mark and has started before it; they are shown in execution order; an undefined-behaviour banner is shown only on the state where execution stopped.", "quantifier": "all traces and mark lists", "why_tests_cant": "All traces.", "anchors": ["frontend/packages/aquascope-editor/src/editor-utils/interpreter.tsx: filterSteps, InterpreterView, renderInterpreter"]}
{"id": "C52", "title": "Every displayed pointer has a displayed target", "statement": "Each pointer drawn in a state refers to a cell that is drawn in the same state.", "quantifier": "all states", "why_tests_cant": "All states.", "anchors": ["frontend/packages/aquascope-editor/src/editor-utils/interpreter.tsx: PointerView, AbbreviatedView, LocalsView", "crates/aquascope/src/interpreter/mvalue.rs: Abbreviated::new, read_pointer"]}
{"id": "C53", "title": "Candidate places are the visible places the node's statements use", "statement": "The places considered for a use are exactly the source-visible places read by an assignment (for an assignment target: written by it), fake-read or discriminant-set at the node's locations, listed in location order.", "quantifier": "all statement lists, location lists and visibility oracles", "why_tests_cant": "All bodies.", "anchors": ["crates/aquascope/src/analysis/boundaries/mod.rs: paths_at_hir_id"]}
{"id": "C54", "title": "A use is resolved at the nearest enclosing node that has a place", "statement": "The place of a use is searched at the node itself, then at its ancestors from inner to outer; the first node that yields a place decides, and a use is dropped only if no ancestor yields one.", "quantifier": "all ancestor chains and location maps", "why_tests_cant": "All trees.", "anchors": ["crates/aquascope/src/analysis/boundaries/mod.rs: path_to_perm_boundary"]}
{"id": "C55", "title": "A flow boundary is shown iff data flows into a lifetime parameter, and blamed on the first offending flow", "statement": "With flow permissions enabled, a use gets a flow requirement iff its statement contains a constraint into a region tied to a lifetime parameter; it is a violation iff one of these constraints is an invalid flow connected to the use, and then carries the verdict of the first such constraint; the query never panics.", "quantifier": "all constraint sets and region graphs", "why_tests_cant": "All graphs.", "anchors": ["crates/aquascope/src/analysis/boundaries/mod.rs: get_flow_permission, flow_constraints_at_hir_id"]}
{"id": "C56", "title": "Location post-dominance has the path meaning", "statement": "Location P post-dominates N iff every execution from N to a return passes P, whenever all returns can be reached from N.", "quantifier": "all control-flow graphs and all locations", "why_tests_cant": "All graphs.", "anchors": ["crates/aquascope/src/analysis/ir_mapper/mod.rs: lpost_dominates, post_dominates"]}
{"id": "C57", "title": "The successor of a location is the only place execution continues", "statement": "If a successor location is reported then execution continues there and nowhere else; if none is reported then execution stops there or has a choice.", "quantifier": "all bodies and locations", "why_tests_cant": "All graphs.", "anchors": ["crates/aquascope/src/analysis/ir_mapper/body_graph.rs: location_successor"]}
{"id": "C58", "title": "The collected segments form a tree", "statement": "After every sequence of builder operations every segment, branch and collection has exactly one place in the result: a segment is one step of one collection or one split of one branch, a branch is one item of one collection, a collection is the outermost one or one arm of one branch; a branch has exactly one split and one arm per target of its switch, in order.", "quantifier": "all function bodies and all histories of builder operations", "why_tests_cant": "All histories.", "anchors": ["crates/aquascope/src/analysis/stepper/segmented_mir.rs: SegmentedMirBuilder, BranchData, CollectionData"]}
{"id": "C59", "title": "Inserting a step never fails and never crashes", "statement": "Inserting a location that can be executed never returns an error and never panics, whatever was built before.", "quantifier": "all function bodies, histories and locations", "why_tests_cant": "All histories.", "anchors": ["crates/aquascope/src/analysis/stepper/segmented_mir.rs: insert, open_child_branch"]}
{"id": "C60", "title": "Splits lead from the branch into its arms", "statement": "Control can go from the start of every split segment to its end, and the end of a split can only be reached through its start.", "quantifier": "all function bodies and histories", "why_tests_cant": "All histories.", "anchors": ["crates/aquascope/src/analysis/stepper/segmented_mir.rs: mk_branch, BranchSpannable"]}
{"id": "C61", "title": "Every inserted step is recorded with its span and scope", "statement": "Inserting a location keeps all earlier segments, and records exactly one new step with the given source span and the innermost open scope, ending at the location (or at the join all ways to it pass), unless no open branch arm can hold it.", "quantifier": "all function bodies, histories, locations and spans", "why_tests_cant": "All histories.", "anchors": ["crates/aquascope/src/analysis/stepper/segmented_mir.rs: insert, find_suitable_collection"]}
{"id": "C62", "title": "Numbers are shown with their value", "statement": "Every integer in memory is shown with its value, for every integer type.", "quantifier": "all integers of all widths", "why_tests_cant": "All values.", "anchors": ["crates/aquascope/src/interpreter/mvalue.rs: read (Uint, Int)"]}
{"id": "C63", "title": "A string is shown as its characters", "statement": "The characters shown for a string are the characters of the string.", "quantifier": "all strings", "why_tests_cant": "All strings.", "anchors": ["crates/aquascope/src/interpreter/mvalue.rs: read (str), MValue::Char"]}
{"id": "C64", "title": "One heap object is shown for each heap allocation", "statement": "Reading the memory ends; two pointers are shown to the same target iff they point into the same allocation; every shown heap object belongs to an allocation, and every value shown is the value in memory.", "quantifier": "all memories", "why_tests_cant": "All memories, including shared and cyclic ones.", "anchors": ["crates/aquascope/src/interpreter/mvalue.rs: read, read_pointer, make_pointer, build_heap"]}
{"id": "C65", "title": "A heap object shows all the data of its allocation", "statement": "The object shown for a heap allocation contains the whole allocation, whichever pointer to it is read first.", "quantifier": "all memories and all sets of local variables", "why_tests_cant": "All memories.", "anchors": ["crates/aquascope/src/interpreter/mvalue.rs: read_pointer"]}
{"id": "C66", "title": "Displayed results come from the current tool", "statement": "What is rendered for a block is what the installed version of the analysis gives for it, also when a cache file from an earlier build exists.", "quantifier": "all cache files, old and new versions of the tool and schedules", "why_tests_cant": "staleness only shows with a cache written by an older version", "anchors": ["crates/mdbook-aquascope/src/cache.rs: hash, load", "crates/mdbook-aquascope/src/preprocessor.rs: process_code"]}
{"id": "C67", "title": "A program that does not compile is not shown as analysed", "statement": "Running a block on a program that the compiler rejects, or one of whose bodies cannot be analysed, returns an error.", "quantifier": "all blocks, programs and compiler outcomes", "why_tests_cant": "needs every stage at which the compiler can reject a program", "anchors": ["crates/aquascope_front/src/plugin.rs: run, after_expansion", "crates/mdbook-aquascope/src/preprocessor.rs: run_aquascope"]}
{"id": "C68", "title": "Every operation can be combined with every option", "statement": "The command line the preprocessor builds for an operation is accepted by the tool and carries exactly the options of the block.", "quantifier": "all operation names and option lists", "why_tests_cant": "the two sides of the command line are tested separately", "anchors": ["crates/mdbook-aquascope/src/preprocessor.rs: run_aquascope", "crates/aquascope_front/src/plugin.rs: AquascopePluginArgs, AquascopeCommand"]}
{"id": "C69", "title": "Borrow checking is switched off only when asked for", "statement": "The interpreter runs a program the borrow checker rejects only if the block or the web page says that it should fail.", "quantifier": "all option lists, request configurations and programs", "why_tests_cant": "needs the page, the server and the tool together", "anchors": ["crates/mdbook-aquascope/src/preprocessor.rs: run_aquascope", "crates/aquascope_serve/src/container.rs: interpreter_command", "frontend/packages/aquascope-standalone/src/index.tsx: renderInterpreter", "crates/aquascope/src/interpreter/mod.rs: InterpretCallbacks"]}
{"id": "C70", "title": "A run that exceeds its time is ended", "statement": "After the server has answered, no process started for the request is running.", "quantifier": "all sequences of requests and process behaviours", "why_tests_cant": "leaks only show after many slow requests", "anchors": ["crates/aquascope_serve/src/container.rs: exec_output"]}
{"id": "C71", "title": "The page tells its user when a request failed", "statement": "Whatever happens to a request, the page either shows a result or reports an error message.", "quantifier": "all requests and server behaviours", "why_tests_cant": "depends on the server's failure modes and the page's handling of each", "anchors": ["frontend/packages/aquascope-editor/src/lib.tsx: callBackendWithCode, renderOperation", "crates/aquascope_serve/src/server.rs", "crates/aquascope_serve/src/main.rs: IntoResponse for Error"]}
{"id": "C72", "title": "Arrows are numbered within their own kind", "statement": "The colour and the bend of an arrow depend on its number among the arrows between the same two regions (stack or heap), so that arrows of one kind can be told apart.", "quantifier": "all lists of pointers in a state", "why_tests_cant": "depends on how many pointers of each kind a state has", "anchors": ["frontend/packages/aquascope-editor/src/editor-utils/interpreter.tsx: renderArrows, renderPtr"]}
{"id": "C73", "title": "A character value is shown as that character", "statement": "A value of type char is shown as the character itself (a space as a visible blank).", "quantifier": "all characters", "why_tests_cant": "all of Unicode", "anchors": ["frontend/packages/aquascope-editor/src/editor-utils/interpreter.tsx: ValueView"]}
{"id": "C74", "title": "Annotations are placed at the characters they are about", "statement": "A line and column the analysis reports is turned into the editor position before exactly that character.", "quantifier": "all documents and positions in them", "why_tests_cant": "all texts, including characters of two UTF-16 units", "anchors": ["frontend/packages/aquascope-editor/src/editor-utils/misc.tsx: linecolToPosition"]}
{"id": "C75", "title": "Loans and moves can be highlighted", "statement": "For every loan and move the analysis reports, its place and the code it covers are marked in the editor, and nothing else.", "quantifier": "all documents and analysis results", "why_tests_cant": "depends on the form of every reported range", "anchors": ["frontend/packages/aquascope-editor/src/editor-utils/misc.tsx: loanFactsToDecoration, generateAnalysisDecorationFacts, showLoanRegion"]}
{"id": "C76", "title": "Every step and every boundary is shown", "statement": "All steps and boundaries of all functions are shown, at their positions.", "quantifier": "all documents and analysis results", "why_tests_cant": "depends on coincidences of positions", "anchors": ["frontend/packages/aquascope-editor/src/editor-utils/permissions.tsx: makePermissionsDecorations, renderPermissions", "frontend/packages/aquascope-editor/src/editor-utils/boundaries.tsx: makeBoundaryDecorations", "frontend/packages/aquascope-editor/src/editor-utils/stepper.tsx: makeStepDecorations"]}
{"id": "C77", "title": "A row tells what changed", "statement": "Each letter of a row shows whether the permission was there before and is there after; its icon names the most important fact that changed, and a row with a changed letter has an icon; pointing at a letter highlights the loan or move after the step.", "quantifier": "all pairs of permission states", "why_tests_cant": "all combinations of the nine columns", "anchors": ["frontend/packages/aquascope-editor/src/editor-utils/stepper.tsx: makePermInDiffRow, makePathRow, visualFacts"]}
{"id": "C78", "title": "Focus selects the rows that are named", "statement": "With focused paths exactly the rows selected are shown first and the others can be unfolded; no row is lost.", "quantifier": "all rows, matchers and focused lines", "why_tests_cant": "all strings and expressions", "anchors": ["frontend/packages/aquascope-editor/src/editor-utils/stepper.tsx: StepTable, StepLineWidget, makeStepDecorations"]}
{"id": "C79", "title": "What is shown belongs to the code in the editor", "statement": "At every moment, all steps, boundaries and marks shown are those of the analysis of the code shown; diagrams are of an execution of that code.", "quantifier": "all histories of edits, requests and answers", "why_tests_cant": "all interleavings of editing with slow or failing requests", "anchors": ["frontend/packages/aquascope-editor/src/lib.tsx: renderPermissions, renderOperation, hideAnalysisOnChange", "frontend/packages/aquascope-standalone/src/index.tsx"]}
{"id": "C80", "title": "The should-fail sign belongs to the code", "statement": "The sign that code does not compile is shown iff the code last analysed or run should fail.", "quantifier": "all histories of edits and runs", "why_tests_cant": "depends on earlier runs", "anchors": ["frontend/packages/aquascope-editor/src/lib.tsx: renderOperation"]}
{"id": "C81", "title": "Every block of a page is shown with all its operations", "statement": "Each block of a page becomes an editor showing the results of all its operations.", "quantifier": "all pages, blocks, operations and options", "why_tests_cant": "depends on the other blocks and on the order of operations", "anchors": ["frontend/packages/aquascope-embed/src/main.tsx: initAquascopeBlocks", "frontend/packages/aquascope-editor/src/lib.tsx: renderOperation, renderInterpreter"]}
{"id": "C82", "title": "Refreshing keeps the settings", "statement": "After the refresh button the block shows what it showed for the same answers when the page was loaded.", "quantifier": "all blocks, edits and answers", "why_tests_cant": "depends on the options of the block", "anchors": ["frontend/packages/aquascope-embed/src/main.tsx: initAquascopeBlocks", "frontend/packages/aquascope-editor/src/lib.tsx: renderOperation, renderInterpreter"]}
{"id": "C83", "title": "Every statement, block result, condition and arm gets one step, in source order", "statement": "For every function, the permission steps that are recorded are those at the end of each statement, block result and body, after each condition and at the start of each match arm, each once and in source order; none is left out if every decision and each of its sides has a place in the compiled code.", "quantifier": "all source trees, control-flow graphs and attributions of locations to source nodes", "why_tests_cant": "Tests look at the steps of a handful of programs; order and completeness have to hold for arbitrarily nested control flow and for whatever locations the compiler attributes to a node.", "anchors": ["crates/aquascope/src/analysis/stepper/hir_steps.rs: HirStepPoints, visit_expr, visit_stmt, visit_block, visit_arm, expr_condition_prelude", "crates/aquascope/src/analysis/ir_mapper/mod.rs: get_mir_locations"]}
{"id": "C84", "title": "A variable is not shown as changing while its initialiser runs", "statement": "In the permission tables of a let whose initialiser contains blocks, the steps inside the blocks do not show the variables being declared and show every other change; the table at the end of a decision that is the initialiser shows exactly the changes of these variables.", "quantifier": "all source trees, control-flow graphs, attributions of locations and permission states", "why_tests_cant": "Initialisers nest arbitrarily; a test sees one nesting.", "anchors": ["crates/aquascope/src/analysis/stepper/hir_steps.rs: visit_stmt, visit_block, locals_at_scope", "crates/aquascope/src/analysis/stepper/table_builder.rs: locals_to_filter, insert_segment, insert_branch"]}
{"id": "C85", "title": "The step into an arm is shown at that arm", "statement": "For every decision (if, loop, match) the step into each of its sides is shown at the beginning of that side (a block's brace, the end of the pattern), and every arm has its steps.", "quantifier": "all source trees, control-flow graphs and attributions of locations, all iteration orders of the hash maps used", "why_tests_cant": "Patterns need arbitrarily nested switches, and the outcome depends on the iteration order of a hash map.", "anchors": ["crates/aquascope/src/analysis/stepper/hir_steps.rs: handle_expr_if, handle_expr_match, visit_expr", "crates/aquascope/src/analysis/stepper/segmented_mir.rs: open_branch, mk_branch"]}
{"id": "C86", "title": "Every state of an execution is shown at the statement it executes", "statement": "A state of the execution is shown with each of its frames at the text of the statement of that frame's function which it executes (at the closing brace while variables are dropped), independent of hash order, and every state at a statement of the user's code leaves a state shown there.", "quantifier": "all programs, control-flow graphs, attributions of locations, executions and iteration orders", "why_tests_cant": "Executions and programs are unbounded, and the map is built in the order of a hash set.", "anchors": ["crates/aquascope/src/interpreter/mapper.rs: FindSteppableNodes, build_body_mapping, is_cleanup, abstract_loc", "crates/aquascope/src/interpreter/mod.rs: interpret"]}
{"id": "C87", "title": "An execution that fails is shown up to the failure", "statement": "However an execution ends, the states up to its end are shown, and the user is told how it ended.", "quantifier": "all programs, executions and kinds of errors", "why_tests_cant": "A program can fail after any number of steps, in any of the interpreter's ways.", "anchors": ["crates/aquascope/src/interpreter/step.rs: eval, beautify_error", "crates/aquascope/src/interpreter/mod.rs: interpret"]}
{"id": "C88", "title": "A value is shown as memory holds it", "statement": "If a state of an execution is shown, every variable is shown with the value that memory holds at its place, read by its type, field by field and element by element; every object of the heap is what a pointer of the program points to, and every pointer is shown to point there.", "quantifier": "all types, memories, variables and graphs of pointers", "why_tests_cant": "Values are unbounded trees and graphs of types; a test sees a few.", "anchors": ["crates/aquascope/src/interpreter/mvalue.rs: Reader, read, read_pointer, read_alloc, read_array, read_vec_len", "crates/aquascope/src/interpreter/miri_utils.rs: field_by_name", "crates/aquascope/src/interpreter/step.rs: build_stack, build_heap"]}
{"id": "C89", "title": "Every state of a correct program can be shown", "statement": "For every state of a program without undefined behaviour, reading the values of its variables ends with values: without a panic, an error or running for ever.", "quantifier": "all types, memories, variables and graphs of pointers", "why_tests_cant": "Depends on every combination of types and on the shape of the pointer graph.", "anchors": ["crates/aquascope/src/interpreter/mvalue.rs: Reader, read, read_pointer, read_alloc, read_vec_len", "crates/aquascope/src/interpreter/miri_utils.rs: field_by_name"]}
{"id": "C90", "title": "Exactly the live and initialised variables are shown", "statement": "In every state, each frame shows exactly those variables of the source that are live and initialised, each once, in the order of their declaration; a pointer to one of them is shown as pointing to it.", "quantifier": "all frames, layouts of types, states of memory and debug information", "why_tests_cant": "Depends on the layout of every type (padding, fields, unions) and on which bytes have been written.", "anchors": ["crates/aquascope/src/interpreter/step.rs: test_local, mem_is_initialized, find_locals, build_stack"]}
{"id": "C91", "title": "The changes shown along a way through a function add up", "statement": "Whichever arms one follows through a function, reading the permission changes shown at the opening brace and at the steps on the way, in order, gives the permissions that every place has at the end.", "quantifier": "all control-flow graphs, sequences of steps and branches, choices of arms, permission states and places", "why_tests_cant": "Ways through a program are unbounded in number and length, and the outcome depends on which variables are hidden where.", "anchors": ["crates/aquascope/src/analysis/stepper/table_builder.rs: insert_segment, insert_branch, insert_collection, finalize_body", "crates/aquascope/src/analysis/stepper/segmented_mir.rs: SegmentedMirBuilder", "crates/aquascope/src/analysis/permissions/mod.rs: diff"]}
{"id": "C92", "title": "Permissions shrink as restrictions are added, and depend on nothing else", "statement": "If a program borrows for longer, moves more, assigns less or keeps fewer variables alive, and is otherwise the same, no place has a permission that it did not have before. Two descriptions of the same facts, in whatever order and however often each is listed, give the same answer, including the move and the loan that are named.", "quantifier": "all pairs of fact sets over the same body, places and points", "why_tests_cant": "It compares two programs, for all of them and for all orders of hash sets.", "anchors": ["crates/aquascope/src/analysis/permissions/output.rs: derive_permission_facts", "crates/aquascope/src/analysis/permissions/context.rs: permissions_data_at_point"]}
{"id": "C93", "title": "What is shown of a run is what happened in it", "statement": "For every program that is run, each state shown is a state of the execution: the running functions of the user in the order of the calls, each at the place in the text where it is, with exactly its variables that have a value, their values as memory holds them, and marked as moved exactly if they were moved since the call. A program that ends normally is shown to its end.", "quantifier": "all machines, executions of any length, memories, types and functions", "why_tests_cant": "It composes the evaluation loop, the choice of variables, the reader and the mapping to the text over unbounded executions.", "anchors": ["crates/aquascope/src/interpreter/mod.rs: interpret", "crates/aquascope/src/interpreter/step.rs: eval, step, build_step, build_stack, build_frame, build_heap", "crates/aquascope/src/interpreter/mapper.rs: Mapper"]}
{"id": "C94", "title": "Match guards are reported as unsupported, and nothing else is", "statement": "If a function has an arm with a guard, the answer names the arm as unsupported and shows no steps; if it has none, nothing is reported as unsupported.", "quantifier": "all functions and control-flow graphs", "why_tests_cant": "The visitor can leave out parts of a function, and with them their guards; this depends on where every node has its locations.", "anchors": ["crates/aquascope/src/analysis/stepper/hir_steps.rs: visit_arm, visit_expr, report_unsupported, get_unsupported_feature", "crates/aquascope/src/analysis/stepper/mod.rs: compute_permission_steps"]}
{"id": "C95", "title": "Whether a body has errors depends on the errors of that body alone", "statement": "Asked whether errors exist, the tool answers yes iff an error was reported since the current body was begun; warnings do not count, nor do reports of earlier bodies.", "quantifier": "all histories of track-body / diagnostic events", "why_tests_cant": "Histories unbounded.", "anchors": ["crates/aquascope/src/errors/mod.rs: errors_exist, track_diagnostic, track_body_diagnostics"]}
{"id": "C96", "title": "Every use of a place is judged by the state of the program where it happens", "statement": "A boundary is shown for each use of a place in the function, in source order: what the use expects, which of the permissions the place has at the compiled statement of the use, and whether the flows of the statement it belongs to are allowed. A use is left out only if no statement compiled from it or from a node around it mentions a place, or if it stands after the end of the first error and takes part in no flow. The tool fails only over a place the facts do not know or a span outside the text.", "quantifier": "all functions, control-flow graphs, facts, lifetime constraints and diagnostics", "why_tests_cant": "It composes the expression visitor, the search for the place, the permission facts, the flow analysis and the error log, for all of them.", "anchors": ["crates/aquascope/src/analysis/boundaries/mod.rs: compute_permission_boundaries, path_to_perm_boundary, get_flow_permission, flow_constraints_at_hir_id", "crates/aquascope/src/analysis/boundaries/path_visitor.rs: get_path_boundaries", "crates/aquascope/src/errors/mod.rs: get_span_of_first_error"]}
{"id": "C97", "title": "Pointing at a letter highlights what takes the permission, and nothing else", "statement": "While the pointer is on a letter R, W or O of a boundary or of a row, exactly the text of the loan that takes this permission there and of the move of the place is highlighted: where it happens and where it takes effect. Other functions and editors on the page do not change. When the pointer leaves, everything is as before. A live, initialized place without a permission that its declaration allows always has a loan or a move to show.", "quantifier": "all pages with any functions and editors, loans, moves, states and histories of the pointer", "why_tests_cant": "Pages, keys and histories are unbounded; the keys of different functions collide.", "anchors": ["frontend/packages/aquascope-editor/src/editor-utils/misc.tsx: generateAnalysisDecorationFacts, loanFactsToDecoration, showLoanRegion, hideLoanRegion, showMoveRegion, hideMoveRegion", "frontend/packages/aquascope-editor/src/editor-utils/boundaries.tsx: PermStack", "frontend/packages/aquascope-editor/src/editor-utils/stepper.tsx: PermChar"]}
{"id": "C98", "title": "The lines hidden and opened on the page are those marked in the book", "statement": "On the page the program has the lines of the book's block without markers; a line is hidden iff it begins with # in the book, the boundaries of a line are open iff the line is marked, the table of a line is open iff it has the focus or no line has, and is filtered by the paths given on that line. Hiding lines never fails.", "quantifier": "all programs", "why_tests_cant": "Book and page split the program into lines by different rules; all texts must be considered.", "anchors": ["crates/mdbook-aquascope/src/annotations.rs: parse_annotations", "frontend/packages/aquascope-editor/src/lib.tsx: setupEditor", "frontend/packages/aquascope-editor/src/editor-utils/misc.tsx: hiddenLines", "frontend/packages/aquascope-editor/src/editor-utils/stepper.tsx: PermissionStepLineWidget.toDOM", "frontend/packages/aquascope-editor/src/editor-utils/boundaries.tsx: BoundaryPointWidget.toDOM"]}
{"id": "C99", "title": "What is shown is drawn from the last answer", "statement": "After any history of answers and edits, every boundary and every table on the page is drawn from the last answer.", "quantifier": "all histories of answers and edits, and all choices of the editor which equal widgets to keep", "why_tests_cant": "Histories are unbounded, and what the editor keeps is its own choice.", "anchors": ["frontend/packages/aquascope-editor/src/editor-utils/stepper.tsx: PermissionStepLineWidget.eq", "frontend/packages/aquascope-editor/src/editor-utils/boundaries.tsx: BoundaryPointWidget.eq", "frontend/packages/aquascope-editor/src/editor-utils/misc.tsx: makeDecorationField"]}
{"id": "C100", "title": "Every row of the steps of a function is a true change over a step of its source", "statement": "Every line of the answer is at the end of a line of the file that is not behind the first error, and no two are at the same. Each of its rows has the name of a different visible place of the function, in order. There is a step of the source that ends on this line (the opening brace, a condition, a statement, a result, the entry of an arm, or a decision as a whole), whose ends are executed in this order, and the row says exactly how everything known about the place changes between them: liveness, moves, initialization, loans, the declaration, and the letters. A change over a step is shown. No steps are answered only for a named reason.", "quantifier": "all functions, facts, reported errors, modes and iteration orders of hash maps", "why_tests_cant": "It composes the visitor, the builder of segments, the facts, the tables, the display and the error log, for all of them.", "anchors": ["crates/aquascope/src/analysis/stepper/mod.rs: compute_permission_steps", "crates/aquascope/src/analysis/stepper/hir_steps.rs: compute_permission_steps", "crates/aquascope/src/analysis/stepper/table_builder.rs: TableBuilder, prettify_permission_steps", "crates/aquascope/src/analysis/permissions/context.rs: permissions_domain_at_point, domain_bottom"]}
{"id": "C101", "title": "A function without decisions is shown every change of its permissions", "statement": "A function without if, while, for, match and guards always gets an answer. Its steps are a single line from its beginning, each from where the one before has ended. If its places are executed in the order of the source then every statement, result and body has its step, and every change of the letters of a visible place over a step is shown on the line where the step ends, unless the line ends behind the first error, a let that declares the place is being evaluated around the step, or the place changes more than once on the line.", "quantifier": "all functions without decisions, facts, reported errors, modes and iteration orders of hash maps", "why_tests_cant": "Functions are unbounded, and it composes the visitor, the builder of segments, the facts, the tables and the display.", "anchors": ["crates/aquascope/src/analysis/stepper/mod.rs: compute_permission_steps", "crates/aquascope/src/analysis/stepper/hir_steps.rs: visit_block, visit_stmt, visit_expr, insert_at", "crates/aquascope/src/analysis/stepper/segmented_mir.rs: insert, find_suitable_collection", "crates/aquascope/src/analysis/stepper/table_builder.rs: TableBuilder, prettify_permission_steps"]}
{"id": "C102", "title": "The answer of the analysis has one entry for every function", "statement": "The tool prints an answer for permissions exactly when the analysis of every function has a result, and then the answer has one entry per function, in order. If the analysis of a function crashes then nothing is printed and the book is not built.", "quantifier": "all programs, outcomes of the analysis of their functions, and options", "why_tests_cant": "The number of functions and the way each analysis ends are unbounded.", "anchors": ["crates/aquascope_front/src/plugin.rs: after_expansion, run_with_callbacks, postprocess", "crates/mdbook-aquascope/src/preprocessor.rs: run_aquascope"]}
{"id": "C103", "title": "A number is shown as itself", "statement": "A value of an integer type of up to 64 bits is shown on the page with its own digits.", "quantifier": "all 64-bit numbers, signed and unsigned", "why_tests_cant": "There are 2^64 numbers, and the ones that are shown wrong are large and look plausible.", "anchors": ["crates/aquascope/src/interpreter/mvalue.rs: MValue, Reader::read", "frontend/packages/aquascope-editor/src/editor-utils/interpreter.tsx: ValueView"]}
{"id": "C104", "title": "Answers go with their requests", "statement": "On the stand-alone page a button can be pressed exactly while no request of it is under way. After any history the diagrams shown are those of the last run that has any, of the text that was in the editor when that run was asked for; the annotations computed last are those of the text of when the analysis was asked for.", "quantifier": "all histories of edits, requests, answers and lost requests", "why_tests_cant": "Histories are unbounded and the two buttons interleave in any way.", "anchors": ["frontend/packages/aquascope-standalone/src/index.tsx: withLoadingButton", "frontend/packages/aquascope-editor/src/lib.tsx: renderOperation, renderPermissions"]}
{"id": "C105", "title": "A block of the book arrives on the page", "statement": "Every block of a chapter that has code is on the page, in order, with its own code, its operations in their order and the response of each, its options where the last value of a name counts, and its annotations. The page asks no server for it and has no button for it.", "quantifier": "all chapters, blocks, options, annotations and responses, and all ways to write JSON that JavaScript reads back", "why_tests_cant": "Chapters, options and responses are unbounded; it composes the preprocessor, JSON, the attributes of the element and the script of the page.", "anchors": ["crates/mdbook-aquascope/src/preprocessor.rs: process_code", "crates/mdbook-aquascope/src/annotations.rs: AquascopeAnnotations", "frontend/packages/aquascope-embed/src/main.tsx: initAquascopeBlocks", "frontend/packages/aquascope-editor/src/lib.tsx: renderOperation"]}
{"id": "C106", "title": "Analysing a function twice gives the same steps", "statement": "Whether a function gets an answer, and the reason if it does not, is the same in every run. Two answers for the same function have the same lines with the same rows in the same order.", "quantifier": "all functions, facts, reported errors, modes, and pairs of iteration orders of the hash maps", "why_tests_cant": "The orders come from the addresses of interned places and differ from run to run; a test sees one of them.", "anchors": ["crates/aquascope/src/analysis/stepper/table_builder.rs: prettify_permission_steps", "crates/aquascope/src/analysis/stepper/mod.rs: compute_permission_steps"]}
{"id": "C107", "title": "The server and the page find each other", "statement": "The server listens at the address and port it was given, 127.0.0.1 and 8008 if none were, and answers every path and method with its status. A page and a server for which nothing was set find each other, and the page's request is one for its operation.", "quantifier": "all values of the environment variables, paths, methods, base URLs, operations, programs and settings", "why_tests_cant": "Texts of variables, paths and URLs are unbounded.", "anchors": ["crates/aquascope_serve/src/main.rs: Config::from_env, Config::socket_address", "crates/aquascope_serve/src/server.rs: serve, fallback", "frontend/packages/aquascope-editor/src/lib.tsx: callBackendWithCode, DEFAULT_SERVER_URL", "frontend/packages/aquascope-standalone/vite.config.ts"]}
{"id": "C108", "title": "A page of the book shows what the tool said", "statement": "However often a book is built, however the builds before ended (saved, not saved, killed while saving) and in whatever order the workers ran: a chapter that has a result has all its blocks on the page, in order, each with an answer that the tool gave in this or an earlier build to a block with the same operations, options and code. If the tool always gives the same answer, two builds of a chapter show the same, and what was finished in an earlier build is not analysed again. A chapter has a result unless a block of it is unfinished or fails in this build, or a macro is wrong.", "quantifier": "all books, histories of builds, schedules of the workers, ends of builds, states of the environment of each analysis, ways to write the cache file and JSON that can be read back", "why_tests_cant": "Histories, books and schedules are unbounded; it composes the parser, the cache, its file, the workers, the tool and the page.", "anchors": ["crates/mdbook-aquascope/src/preprocessor.rs: process_code, replacements, save_cache", "crates/mdbook-aquascope/src/cache.rs: Cache", "crates/mdbook-aquascope/src/main.rs: finish", "crates/mdbook-aquascope/src/block.rs: parse_all"]}
{"id": "C109", "title": "Values that differ look different", "statement": "What the page draws for a variable or an object of the heap determines its value: two values of the same type that look the same are the same, and two states of a program whose pictures are the same are the same state.", "quantifier": "all types, all pairs of values of a type, all memories, all pairs of states with any number of frames, variables and objects", "why_tests_cant": "It is about pairs of values of arbitrary size; tests compare few values with few pictures.", "anchors": ["frontend/packages/aquascope-editor/src/editor-utils/interpreter.tsx: ValueView, AdtView, PointerView, AbbreviatedView, LocalsView, specialPtr", "crates/aquascope/src/interpreter/mvalue.rs: Reader::read, Abbreviated::new"]}
{"id": "C110", "title": "Arrows can be told apart and followed", "statement": "Every pointer that is drawn has one arrow. Arrows to the same cell end at different points, evenly spaced around the middle of the cell; neighbouring arrows have different colors; arrows from moved variables are pale; arrows from the stack to the heap are staggered by their place among those.", "quantifier": "all pictures of a state with any number of frames, variables, objects and pointers", "why_tests_cant": "The numbers of pointers to a cell and of pointers before one are unbounded.", "anchors": ["frontend/packages/aquascope-editor/src/editor-utils/interpreter.tsx: renderArrows", "frontend/packages/aquascope-editor/src/editor-utils/misc.tsx: evenlySpaceAround, lerp"]}
{"id": "C111", "title": "Answers survive the way through JSON", "statement": "The text the tool prints for an answer is one line of JSON, in UTF-8, and the preprocessor and the page read this answer back from it. A text has one meaning, two answers never have the same text, a text that is cut off or has anything else around it is refused and not read as another answer, and of names that are given twice the last counts.", "quantifier": "all JSON values of any depth, all strings of Unicode characters, all texts and byte sequences, all places to cut", "why_tests_cant": "Values, strings and texts are unbounded and every cut point and every escape counts.", "anchors": ["crates/aquascope_front/src/plugin.rs: postprocess", "crates/mdbook-aquascope/src/preprocessor.rs: run_aquascope, process_code", "crates/mdbook-aquascope/src/cache.rs: Cache::load, Cache::save", "frontend/packages/aquascope-embed/src/main.tsx: maybeParseJson"]}
{"id": "C112", "title": "A trace arrives on the page as it was recorded", "statement": "The answer the interpreter prints has the form that the TypeScript types of the page declare, and stands for one trace: no two traces that differ are printed alike. The page reads this trace, with each number rounded to the nearest double, and draws at every step exactly what it would draw of the trace itself; the preprocessor reads the bytes of the answer back unchanged.", "quantifier": "all traces with any number of steps, frames, variables, objects and values of any depth, and all ways to print doubles that can be read back", "why_tests_cant": "Traces and values are unbounded, and every nesting of variants of a value is its own case of the format.", "anchors": ["crates/aquascope/src/interpreter/mvalue.rs: MValue, Abbreviated, MPath, MHeapAllocKind", "crates/aquascope/src/interpreter/step.rs: MTrace, MStep, MFrame, MLocal, MResult, MUndefinedBehavior", "crates/aquascope_front/src/plugin.rs: postprocess", "frontend/packages/aquascope-editor/src/editor-utils/interpreter.tsx: InterpreterView"]}
{"id": "C113", "title": "A permission analysis arrives on the page as it was computed", "statement": "The answer the permission analysis prints has the form that the TypeScript types of the page declare, and stands for one list of results: no two lists that differ are printed alike. The page reads exactly these results and takes from each its loans and moves in the order of their keys, whatever the order in which the tool wrote its hash maps; the preprocessor reads the bytes of the answer back unchanged, however long it is.", "quantifier": "all lists of results, with any number of boundaries, steps, tables, rows, loans, moves and ranges, and all orders of the hash maps", "why_tests_cant": "Results are unbounded, the order of a hash map differs from run to run, and each combination of members that are left out is its own case of the format.", "anchors": ["crates/aquascope/src/analysis/mod.rs: AnalysisOutput, AquascopeError", "crates/aquascope/src/analysis/permissions/mod.rs: PermissionsData, Refiner, RefinementRegion", "crates/aquascope/src/analysis/boundaries/mod.rs: PermissionsBoundary, FlowBoundary", "crates/aquascope/src/analysis/stepper/mod.rs: ValueStep, PermissionsDataDiff, PermissionsLineDisplay", "crates/aquascope_front/src/plugin.rs: postprocess", "frontend/packages/aquascope-editor/src/editor-utils/misc.tsx: generateAnalysisDecorationFacts"]}
{"id": "C114", "title": "The page draws what the permission analysis found", "statement": "From the answer the tool prints, the page draws at the end of each line the tables of that line, each row with its path, with every letter as it was before and is after the step, and with the loans and the move behind each letter. At every boundary of the analysis a boundary is drawn, and every boundary drawn shows exactly the expected permissions of one at that place, as missing exactly where the place does not have them. Every failure is told to the user, in order, and the order of the tool's hash maps does not show.", "quantifier": "all lists of results, with any number of bodies, boundaries, lines, tables and rows, all texts and all orders of the hash maps", "why_tests_cant": "Answers are unbounded, and every combination of permissions, changes and members that are left out is drawn by its own branch.", "anchors": ["frontend/packages/aquascope-editor/src/lib.tsx: Editor.renderOperation", "frontend/packages/aquascope-editor/src/editor-utils/permissions.tsx: makePermissionsDecorations", "frontend/packages/aquascope-editor/src/editor-utils/boundaries.tsx: PermStack, makeBoundaryDecorations", "frontend/packages/aquascope-editor/src/editor-utils/stepper.tsx: PermChar, PermDiffRow, StepTable, makeStepDecorations", "frontend/packages/aquascope-standalone/src/index.tsx"]}
{"id": "C115", "title": "An execution runs through the steps in order", "statement": "Take any execution of a function that returns. It can be cut into pieces, one for each step of the function's outermost table in the order of the table: the first piece starts where the function starts, each piece starts where the one before it ended and ends where its step ends, and a branch lasts until the arms join. Where a branch was opened, the execution takes exactly one arm and runs through the steps of that arm in the same way. So no step is skipped, and none is taken out of turn.", "quantifier": "all bodies, all sequences of calls of the builder with executable locations, all executions that return, with any number of rounds of any loop", "why_tests_cant": "Executions and bodies are unbounded; the project's own check compares blocks of a finished table and is only compiled for tests.", "anchors": ["crates/aquascope/src/analysis/stepper/segmented_mir.rs: SegmentedMirBuilder::insert, open_branch, close_branch, freeze, validate", "crates/aquascope/src/analysis/stepper/segmented_mir.rs: BodyCFG::least_post_dominator"]}
{"id": "C116", "title": "Runs at the same time do not disturb each other", "statement": "The server answers many requests at once, and a book's blocks are analysed in parallel. However these runs interleave, and whichever of them time out, fail or are abandoned, each answer is computed from the program of its own request or block and from nothing else, each run that ends well has an answer for each of its operations, which it could have had alone, no two runs share a directory, no run fails because of another one, and when all runs have ended no directory is left.", "quantifier": "all numbers of runs with any programs and operations, all interleavings of their steps and of the reads of their processes, all choices of names for the directories, and all points at which a run is given up on, a process dies or the whole program crashes", "why_tests_cant": "The schedules are unbounded, and the interference needs a process that outlives its run and a name that comes up again.", "anchors": ["crates/aquascope_serve/src/container.rs: Container::new, cargo_new, write_source_code, exec_output", "crates/aquascope_serve/src/server.rs: with_container", "crates/mdbook-aquascope/src/preprocessor.rs: run_aquascope, replacements"]}
{"id": "C117", "title": "The page tells the facts of the program", "statement": "Every boundary on the page belongs to a use of a place in an analysed function that is not hidden behind the first error. It stands at the place of that use; the letters drawn are the permissions that the use needs; R, W and O are drawn as present exactly if the program's moves, initialisations, loans and declarations give the place that permission there; F is drawn exactly if the statement flows into a lifetime parameter, and as missing exactly if such a flow that the use takes part in is not allowed; and the loans and the move under the pointer are those that took the permissions away. Every such use has a boundary at its place. Every row of a table of steps belongs to a step of the function that ends on that line; its letters are the permissions before and after the step, and its icon and what is under the pointer are what changed. Every function that could not be analysed is told of, and no other.", "quantifier": "all programs with any number of functions of any size, all facts of the borrow checker, all errors reported, all orders of the hash maps, and all texts that the page shows", "why_tests_cant": "It is a statement about the whole way from the compiler's facts to the pixels; functions, facts and texts are unbounded, and tests compare a few programs with recorded pictures.", "anchors": ["crates/aquascope/src/analysis/mod.rs: AquascopeAnalysis::run", "crates/aquascope/src/analysis/boundaries/mod.rs: compute_permission_boundaries, path_to_perm_boundary", "crates/aquascope/src/analysis/stepper/mod.rs: compute_permission_steps", "crates/aquascope_front/src/plugin.rs: postprocess", "frontend/packages/aquascope-editor/src/editor-utils/permissions.tsx: makePermissionsDecorations", "frontend/packages/aquascope-editor/src/editor-utils/boundaries.tsx", "frontend/packages/aquascope-editor/src/editor-utils/stepper.tsx"]}
{"id": "C118", "title": "The step tables on the page belong to the code on it", "statement": "After every history of edits, requests and answers the step tables drawn in the code are the ones the analysis gives for the code in the editor: once the code has been analysed again, nothing that was drawn for other code is left. (C99 is about one answer after another; here the answers come for code that was in the editor when the button was pressed.)", "quantifier": "all histories of edits, requests, answers and lost answers, all programs and settings, and whatever the editor component decides to keep or to draw again", "why_tests_cant": "A table is drawn anew only if the view believes it changed. Whether it does depends on the whole history since the last edit; a test looks at one request.", "anchors": ["frontend/packages/aquascope-editor/src/editor-utils/stepper.tsx: PermissionStepLineWidget", "frontend/packages/aquascope-editor/src/lib.tsx: Editor.renderPermissions, resetMarkedRangesOnEdit", "frontend/packages/aquascope-editor/src/editor-utils/permissions.tsx: renderPermissions"]}
{"id": "C119", "title": "Pointing at a letter shows the reason in the code", "statement": "When the pointer is on a letter R, W or O of a boundary or of a row of a step table, the text that lights up is the reason why the permission is missing: the text of the newest loan that, according to the borrow checker, takes this permission from this place at this point - the borrow itself and the operations from the first to the last point where the loan is live - or the move that took it. If no loan takes it nothing of a loan lights up. This holds whatever letters of this page or of others the pointer has been on before.", "quantifier": "all programs with any number of functions and loans, all facts of the borrow checker, all orders of the hash maps, all texts, and all histories of the pointer entering and leaving letters", "why_tests_cant": "It composes the facts, the choice of one loan among many, the printing, the tags of the elements and the class names that the pointer sets; a test looks at one program and one letter.", "anchors": ["frontend/packages/aquascope-editor/src/editor-utils/misc.tsx: generateAnalysisDecorationFacts, loanFactsToDecoration, showRegion, hideRegion", "frontend/packages/aquascope-editor/src/editor-utils/boundaries.tsx: PermStack", "frontend/packages/aquascope-editor/src/editor-utils/stepper.tsx: PermChar", "crates/aquascope/src/analysis/mod.rs: AquascopeAnalysis::construct_loan_info, construct_move_info", "crates/aquascope/src/analysis/permissions/output.rs: compute"]}
{"id": "C120", "title": "The reader of the page sees the execution", "statement": "Every state that the page shows of a run is a state that the execution of the program went through: each running function of the user stands there under its name, in the order of the calls; each variable in scope that has a value has a row with its name, crossed out exactly if the variable was moved, and with the value that memory held for it; the objects of the heap stand beside. Without marks all states are shown in order, each numbered in the code at the end of the statement where the innermost function was. With marks there is one state for each mark, in the order of the execution: the last whose innermost function has the mark in its body, behind the beginning of where it was. The last state shown, and no other, says how the execution failed. A program that comes to its end is shown to its end.", "quantifier": "all programs with any number of functions and calls, all states of memory, all lengths of executions, all ways to fail, all texts of the page and all lists of marks", "why_tests_cant": "It is a statement about the whole way from the steps of the machine to the page; executions, memories and values are unbounded, and tests look at the JSON of a few programs.", "anchors": ["crates/aquascope/src/interpreter/step.rs: VisEvaluator::eval, MStep, MFrame, MTrace", "crates/aquascope/src/interpreter/mapper.rs: Mapper::abstract_loc, group_steps", "crates/aquascope_front/src/plugin.rs", "frontend/packages/aquascope-editor/src/editor-utils/interpreter.tsx: filterSteps, renderInterpreter, StepView, StackView, LocalsView, ValueView"]}
{"id": "C121", "title": "A mark in the book shows the state there", "statement": "An author who puts the marks for states into a program of a book gets, on the page, one number right behind each of the marked texts and no other, and the picture with this number is the last state of the execution of this program in which the function around the mark is at a place before the mark; the numbers count in the order of the execution. Without marks, every state of the execution has its number where the innermost function is. The program on the page is the one that the author wrote, without the marks. This holds for every block of every chapter, whatever was built before and whatever is in the cache.", "quantifier": "all chapters with any number of blocks, all programs and executions, all placements of marks, all histories of builds with their crashes and schedules, and all texts of the program including letters beyond ASCII", "why_tests_cant": "It composes the parser of the book, the run of the tool, the cache, the JSON, the element on the page and the drawing; books, programs and histories are unbounded.", "anchors": ["crates/mdbook-aquascope/src/annotations.rs: parse_annotations", "crates/mdbook-aquascope/src/preprocessor.rs: run_aquascope, process_code, replacements", "frontend/packages/aquascope-embed/src/main.tsx: initAquascopeBlocks", "frontend/packages/aquascope-editor/src/lib.tsx: Editor.renderInterpreter, renderOperation", "frontend/packages/aquascope-editor/src/editor-utils/interpreter.tsx: filterSteps, renderInterpreter"]}
{"id": "C122", "title": "The switch for inner fields shows the same states", "statement": "The button over the states of an execution switches between the short and the full form of values. After any number of clicks and movements of the pointer the page has all states of the execution, in the form that the option concreteTypes and the number of clicks give, with exactly the arrows of the form that is shown now: no arrow is left of a form shown before, none is lost and none is there twice. An even number of clicks changes nothing. The button can be seen while the pointer is over the states.", "quantifier": "all traces with any number of states and pointers, all values of the options, all histories of clicks and movements, and whatever arrows the drawing library fails to draw at any time", "why_tests_cant": "The arrows are moved out of the body of the page by looking for the first one there and removed again by each redraw; whether the right ones are moved and removed depends on the whole history.", "anchors": ["frontend/packages/aquascope-editor/src/editor-utils/interpreter.tsx: InterpreterView, renderArrows"]}
{"id": "C123", "title": "The controls of a program work in any order", "statement": "While the reader types in an editor of a book, or a window is open over it, no key comes to the shortcuts of the book; at all other times every key does, and going from one editor to another or closing windows in any order does not change that. Copying puts the whole text of the editor on the clipboard, and this is the program of the book if nothing was written into it. The eye of each program shows its hidden lines after an odd number of clicks. A report has the program that it is about.", "quantifier": "all pages with any number of programs, all histories of focus changes, keys, edits, copies, clicks, windows opened and closed and reports", "why_tests_cant": "Keys are held back by listeners that are added and removed by events of many editors and windows; whether one is left over or missing depends on the whole history.", "anchors": ["frontend/packages/aquascope-embed/src/setup.ts: suppressKeyEvents", "frontend/packages/aquascope-embed/src/main.tsx: useCaptureMdbookShortcuts, ContextProvider, BugReporter", "frontend/packages/aquascope-editor/src/lib.tsx: CopyButton, HideButton"]}
{"id": "C124", "title": "Hidden lines stay hidden while the program is edited", "statement": "The lines of a program that the book hides stay hidden, and no others, while the reader edits the program around them: what is hidden are always whole lines; an edit elsewhere leaves a hidden line as it is and hidden, wherever the text moves; text that the reader writes is never hidden; and undoing an edit gives back what was there.", "quantifier": "all texts, all sets of hidden lines, and all histories of edits, each with any number of replacements of any size", "why_tests_cant": "The editor maps positions through each edit; which line a position stands for depends on all edits since, and every boundary of a replacement counts.", "anchors": ["frontend/packages/aquascope-editor/src/editor-utils/misc.tsx: hiddenLines, hideLine", "frontend/packages/aquascope-editor/src/lib.tsx: Editor.renderOperation"]}
{"id": "C125", "title": "The stand-alone page shows its errors, each for as long as it says", "statement": "On the stand-alone page one tab and its pane are always in front, the one chosen last or Stderr when an error came after that; a build error is shown for five seconds, each one; an internal error is shown, with its message, until the user closes it or an analysis succeeds; and the error output beside an error is that of the request that had it.", "quantifier": "all histories of clicks on tabs and on the cross, of answers to either button with any number of errors, at any times", "why_tests_cant": "Two buttons, the user and the clocks of all errors so far act on the same few elements in any order and at any distance in time.", "anchors": ["frontend/packages/aquascope-standalone/src/index.tsx: changeTab, the error handler, analysisErrClose", "frontend/packages/aquascope-standalone/index.html", "frontend/packages/aquascope-editor/src/lib.tsx: Editor.renderOperation"]}
{"id": "C126", "title": "A passing permission test has checked every annotation", "statement": "When the project's permission tests pass on a file with annotated uses, the program without the annotations is what was analysed, every annotation was compared with the permissions computed for exactly that use, and all were equal; an annotation that cannot be understood makes the test fail.", "quantifier": "all test files, with any text and any number of annotations, all results of the compiler and the analysis, and all directories of such files", "why_tests_cant": "The tests are what everything else is judged by; that they can fail at all is a statement about all files and all results.", "anchors": ["crates/aquascope/src/test_utils.rs: split_test_source, parse_test_source, test_refinements_in_file, run_in_dir, compile"]}
{"id": "C127", "title": "The pictures of a place on the page agree with each other", "statement": "Whatever the page shows about the permissions of one place of a function at one point of its execution is the same everywhere: at two uses, in two rows of the step tables (where one step ends and the next begins, what the first leaves is what the second finds), and at a use and in a row. This holds for the letters and for the loans and moves under the pointer.", "quantifier": "all programs, all pages shown for them, all pairs of boundaries and rows on a page", "why_tests_cant": "The two views come from different queries, run through different code, and are printed and drawn separately; a test compares each with an expected picture and never one with the other.", "anchors": ["crates/aquascope/src/analysis/boundaries/mod.rs: path_to_perm_boundary", "crates/aquascope/src/analysis/permissions/mod.rs: permissions, permissions_ignore_liveness", "crates/aquascope/src/analysis/stepper/table_builder.rs", "frontend/packages/aquascope-editor/src/editor-utils/boundaries.tsx", "frontend/packages/aquascope-editor/src/editor-utils/stepper.tsx"]}
{"id": "C128", "title": "The tool runs with the toolchain it was made for", "statement": "The preprocessor starts exactly if it can find out where Miri's standard library, the compiler and the compiler's libraries are: from the user's variables, else from the toolchain that Aquascope was made for and from no other. It calls the tool with these for every block, whatever values the user has for the same variables, so that these do not change an answer; other variables are passed on. The server uses the same standard library as the preprocessor.", "quantifier": "all environments, all behaviours of the commands that are asked, all blocks and operations", "why_tests_cant": "A test runs in the one environment it happens to have, with one toolchain; what happens with other variables, with missing or failing commands and with outputs that are not text is not seen.", "anchors": ["crates/aquascope_workspace_utils/src/lib.rs: run_and_get_output, rustc, toolchain, miri_sysroot", "crates/mdbook-aquascope/src/preprocessor.rs: AquascopePreprocessor::new, run_aquascope", "crates/aquascope_serve/src/container.rs: permissions_command, interpreter_command"]}
{"id": "C129", "title": "What the project's own test of the steps guarantees", "statement": "If the test of the finished steps of a function passes, every linear step is always passed from its start to its end, every step into an arm starts where control has been, and every location of the function is on the way of some step; if the test fails, the reason it names is really the case, and if the function can return from everywhere, exactly the right structures pass. Every switch has a step for each of its targets.", "quantifier": "all function bodies, all structures of steps that can be built for them", "why_tests_cant": "This is the test itself: whether it lets wrong structures pass is not seen by running it on the right ones.", "anchors": ["crates/aquascope/src/analysis/stepper/segmented_mir.rs: test_exts::{explode_block, explode, is_valid_collection, is_valid_split_segment, is_valid_segment, is_valid_branch, validate}", "crates/aquascope/src/analysis/stepper/hir_steps.rs: tests::compile_and_run", "crates/aquascope/src/analysis/ir_mapper/body_graph.rs: blocks"]}
{"id": "C130", "title": "What equal snapshots of the steps guarantee", "statement": "Two versions of the tool that both pass the snapshot test of the steps with the same stored files show, for every function, the same rows on the same lines; and the same rows give the same snapshot, in whatever order they were computed. Functions have stored files of their own, and differences in the tables of a step are noticed. The same holds for the boundaries.", "quantifier": "all outputs of the steps, all functions of a file, all stored files, all orders in which an unstable sort may leave equal keys", "why_tests_cant": "This is the test itself: what it cannot tell apart is not seen by running it.", "anchors": ["crates/aquascope/src/test_utils.rs: analysis_snapshot_tag, test_steps_in_file, test_boundaries_in_file", "crates/aquascope/tests/stepper.rs: stepper", "crates/aquascope/tests/boundaries.rs: boundaries"]}
{"id": "C131", "title": "The editor component shows its properties and cleans up after itself", "statement": "A page that uses the editor as a component sees, whatever happened before, one editor with the code of the component's properties, the marks of the functions that were analysed and the trace, and is told of every error; while the component is not on the page nothing of it is left. New properties are shown.", "quantifier": "all properties, all histories of being put on the page, given new properties, run again and taken off", "why_tests_cant": "A test renders the component once; what remains after other histories is not seen.", "anchors": ["frontend/packages/aquascope-editor/src/lib.tsx: EditorComponent, Editor.constructor, Editor.destroy, Editor.renderOperation, Editor.renderInterpreter"]}
