{"id": "C01", "title": "Timestamp shifts are scoped", "statement": "Timestamp.current() after a (possibly nested) `with Timestamp.offset(...)` block equals Timestamp.current() before it, whether the block returned or raised, and inside the block it is shifted by exactly the sum of the enclosing offsets.", "quantifier": "every nesting of offset blocks, every pair of offsets, every point at which an exception escapes", "why_tests_cant": "tests try a few nestings; the claim is over all program trees and all crash points", "anchors": ["core/ipyflow/data_model/timestamp.py:Timestamp.current,Timestamp.offset"]}
{"id": "C02", "title": "Timestamps order executions totally", "statement": "Comparing timestamps is a strict total order in which a statement executed later compares greater, equality coincides with having the same cell and statement number, and the uninitialized timestamp is below every timestamp that reports itself initialized.", "quantifier": "all pairs and triples of timestamps", "why_tests_cant": "order laws quantify over all triples of integers pairs", "anchors": ["core/ipyflow/data_model/timestamp.py:Timestamp.__eq__,is_initialized,uninitialized"]}
{"id": "C03", "title": "Cell dependency edges agree from both ends", "statement": "Whenever no cell is mid-execution, a cell lists P among its parents through symbol s exactly when P lists the cell among its children through s; while a cell is executing, its recorded parents are always visible among the children of those parents.", "quantifier": "every history of cell executions, re-executions, usage recordings, dangling-edge cleanups, and edge initialisations from notebook metadata", "why_tests_cant": "the invariant is about every interleaving of edge additions and removals over an unbounded session", "anchors": ["core/ipyflow/slicing/mixin.py:SliceableMixin.add_parent_edges,remove_parent_edges", "core/ipyflow/data_model/cell.py:Cell.create_and_track", "core/ipyflow/flow.py:NotebookFlow.add_data_dep,_remove_dangling_parent_edges,_initialize_cell_parents"]}
{"id": "C04", "title": "No cell is its own parent and no two cells are mutually parent and child", "statement": "In every reachable session state no current cell has itself among its parents, and if P is a parent of C then C is not a parent of P (per slicing context).", "quantifier": "every history of executions and recorded usages", "why_tests_cant": "depends on the whole history of edge insertions, including re-executions that inherit edges", "anchors": ["core/ipyflow/slicing/mixin.py:SliceableMixin.add_parent_edges", "core/ipyflow/data_model/cell.py:Cell.create_and_track"]}
{"id": "C05", "title": "No edge without symbols", "statement": "Every parent or child entry that a cell or statement reports carries at least one symbol; removing the last symbol of an edge removes the edge from both ends, and removing symbols never affects other edges.", "quantifier": "every history of additions and removals, every symbol set", "why_tests_cant": "all sets and all histories", "anchors": ["core/ipyflow/slicing/mixin.py:SliceableMixin.add_parent_edges,remove_parent_edges"]}
{"id": "C06", "title": "A memoized re-run leaves consistent edges", "statement": "After a cell is skipped because a memoized run is reused, its parents are those of the reused run, and no cell that is no longer a parent still lists it as a child.", "quantifier": "every prior edge set of the cell and of the reused run", "why_tests_cant": "bug only shows for particular edge sets and depends on object aliasing between the removed set and the stored set", "anchors": ["core/ipyflow/shell/interactiveshell.py:_handle_memoization", "core/ipyflow/slicing/mixin.py:SliceableMixin.remove_parent_edges"]}
{"id": "C07", "title": "Renaming a placeholder cell preserves the dependency graph", "statement": "When a cell executed under a placeholder id receives its real notebook id, looking it up under the new id gives the same cell, the old id is gone, and the parent/child graph is the old graph with the id substituted, so that every recorded parent id still resolves to a cell.", "quantifier": "every session state and every fresh new id", "why_tests_cant": "ranges over all graph shapes and over all versions of the affected cells", "anchors": ["core/ipyflow/data_model/cell.py:Cell.update_id", "core/ipyflow/comm_manager.py:_handle_notify_content_changed_impl"]}
{"id": "C08", "title": "A slice is exactly the backward dependency closure", "statement": "make_slice / make_multi_slice returns precisely the seeds and the executions reachable from them by following recorded parent edges (in any enabled slicing mode), where following an edge to a cell that has been re-executed since resolves to the latest execution not newer than the one being explained.", "quantifier": "all dependency graphs (including cyclic ones), all seed lists, all settings of static/dynamic slicing", "why_tests_cant": "soundness and completeness of a closure over arbitrary graphs", "anchors": ["core/ipyflow/slicing/mixin.py:_make_slice_helper,make_multi_slice", "core/ipyflow/config.py:iter_slicing_contexts"]}
{"id": "C09", "title": "A slice never reaches into the future", "statement": "No element of the slice of a single seed is newer than the seed, unless it was explicitly marked as an override (widget) statement or its edge was reached through one.", "quantifier": "all graphs, all version histories", "why_tests_cant": "universally quantified over graphs and re-execution histories", "anchors": ["core/ipyflow/slicing/mixin.py:_make_slice_helper"]}
{"id": "C10", "title": "Slices are ordered, duplicate free and compositional", "statement": "The slice list is strictly increasing in timestamp, does not depend on the order or multiplicity of the seeds, and the slice of a union of seeds contains exactly the union of their slices; with seed_only it is exactly the set of seeds.", "quantifier": "all seed lists and graphs", "why_tests_cant": "ranges over permutations and unions of arbitrary seed lists", "anchors": ["core/ipyflow/slicing/mixin.py:make_multi_slice"]}
{"id": "C11", "title": "Slicing always completes", "statement": "Computing a slice terminates on every dependency graph, including cyclic ones, and does not raise.", "quantifier": "all dependency graphs and version histories", "why_tests_cant": "termination on all graphs; crash freedom needs an invariant linking edges and version histories", "anchors": ["core/ipyflow/slicing/mixin.py:_make_slice_helper"]}
{"id": "C12", "title": "Re-running a slice reproduces the value", "statement": "If statements run in order and every read of a variable records a dependency on the statement that last wrote it, then running only the statements of a slice, in slice order, from the initial environment gives every statement of the slice the same inputs and outputs as in the full session.", "quantifier": "every finite history of deterministic statements with data-dependent reads and writes, every seed", "why_tests_cant": "quantifies over all programs and histories", "anchors": ["core/ipyflow/flow.py:add_data_dep", "core/ipyflow/data_model/symbol.py:update_usage_info,update_usage_info_one_timestamp,refresh", "core/ipyflow/slicing/mixin.py:make_multi_slice", "core/ipyflow/data_model/symbol.py:Symbol.code"]}
{"id": "C13", "title": "Slice text lists each cell once, in execution order", "statement": "The text of a slice lists the cells in strictly increasing execution counter, each with its header once, with the statements of each cell in execution order; nothing from outside the slice appears and nothing in it is lost.", "quantifier": "all slices and contents, with and without headers", "why_tests_cant": "all lists of statements", "anchors": ["core/ipyflow/slicing/mixin.py:make_cell_dict_from_closure,Slice._get_slice_text_from_slice"]}
{"id": "C14", "title": "Slicing a memo-skipped execution slices the run it reused", "statement": "Formatting a slice from an execution that was skipped due to memoization starts from the reused execution (same statement number), and other seeds are untouched.", "quantifier": "all seed sets mixing counters and timestamps", "why_tests_cant": "set-valued mapping over arbitrary seeds", "anchors": ["core/ipyflow/slicing/mixin.py:_process_memoized_seeds,format_multi_slice"]}
{"id": "C15", "title": "The cell registry is a faithful execution log", "statement": "After any session: the execution counter never decreases; at_counter(k) returns the execution numbered k; from_id(i) returns the most recent execution of cell i; following prev from it enumerates all earlier executions of i in strictly decreasing counter order; and history lists exactly their counters.", "quantifier": "every sequence of executions, re-executions and untracked-cell creations", "why_tests_cant": "unbounded sequences of registry operations", "anchors": ["core/ipyflow/data_model/cell.py:Cell.create_and_track,at_counter,from_id,history"]}
{"id": "C16", "title": "Notebook positions form a consistent index", "statement": "After the frontend reports the notebook order, every reported cell is found at its position, positions are distinct, iterating in position order visits exactly the reported cells in increasing position, and a temporary override of the positions is undone on exit even if an exception escapes.", "quantifier": "every sequence of reported orders, every flow direction", "why_tests_cant": "sequences of reorderings with additions and deletions of cells", "anchors": ["core/ipyflow/data_model/cell.py:set_cell_positions,at_position,iterate_over_notebook_in_position_order,_override_position_index_for_current_flow_semantics"]}
{"id": "C17", "title": "DAG waiting set is the least consistent one", "statement": "With a DAG schedule, after checking, a checked cell is waiting exactly when a chain of (directional) parent edges through checked cells leads from it to a cell that was ready (or already waiting) before; the computation terminates on every graph and the result does not depend on the order in which cells are listed.", "quantifier": "all dependency graphs, all initial ready/waiting sets, all cell orders", "why_tests_cant": "fixpoint of an iteration over arbitrary graphs", "anchors": ["core/ipyflow/frontend.py:_compute_dag_based_waiters"]}
{"id": "C18", "title": "Reactive scheduling cannot deadlock in an acyclic notebook", "statement": "If some checked cell needs re-execution and the parent relation has no cycle (always the case with in-order semantics), at least one cell is still reported ready after waiting cells are removed.", "quantifier": "all acyclic dependency graphs and ready sets", "why_tests_cant": "existence claim over all acyclic graphs; needs well-founded induction", "anchors": ["core/ipyflow/frontend.py:_compute_dag_based_waiters", "core/ipyflow/data_model/cell.py:directional_parents"]}
{"id": "C19", "title": "Reported cell sets are consistent", "statement": "In every checker result: a cell is never both ready and waiting; every new-ready cell is ready; with allow_new_ready off no new-ready cell is sent to the frontend; cells failing the type check are reported as waiting; and a cell reported waiting is no longer marked ready.", "quantifier": "all sets of cells, schedules, flow directions and checker outcomes", "why_tests_cant": "invariant of the whole checking pipeline for all inputs", "anchors": ["core/ipyflow/frontend.py:_check_one_cell,_compute_dag_based_waiters,to_json"]}
{"id": "C20", "title": "Waiter links point to exactly the runnable cells that unblock a cell", "statement": "For each waiting cell the reported waiter links are exactly the non-waiting cells reachable from it through ready-making links that pass only through waiting cells, ready-maker links are the inverse relation, and the computation terminates.", "quantifier": "all link graphs over waiting and non-waiting cells, all iteration orders", "why_tests_cant": "transitive-closure loop with an unusual change test; result must be right for every graph and set order", "anchors": ["core/ipyflow/frontend.py:_compute_waiter_and_ready_maker_links,_compute_ready_making_cells"]}
{"id": "C21", "title": "Reported parents and children are inverse relations", "statement": "In the response sent to the frontend, cell A is in cell_children of B exactly when B is in cell_parents of A, for all checked cells, and every checked cell has an entry in both maps.", "quantifier": "all sets of checked cells and filtered parents", "why_tests_cant": "relation over arbitrary graphs", "anchors": ["core/ipyflow/frontend.py:_compute_filtered_parents,to_json"]}
{"id": "C22", "title": "In-order semantics is respected", "statement": "With in-order flow, every reported parent or ready-making cell lies strictly above the cell that depends on it, no cell at or above the last executed cell is reported newly ready, and for each update only the lowest parent above the cell is kept.", "quantifier": "all graphs, positions and timestamps", "why_tests_cant": "all position assignments", "anchors": ["core/ipyflow/data_model/cell.py:directional_parents,get_latest_parent_by_ts_map", "core/ipyflow/frontend.py:_compute_filtered_parents,_check_one_cell,_compute_ready_making_cells"]}
{"id": "C23", "title": "Updating a symbol marks exactly its stale dependents as waiting", "statement": "After an update of a symbol, propagation terminates on every (possibly cyclic) dependency graph; symbols updated in the same cell and the symbols on the right-hand side are never marked; and every other symbol that depends, directly or transitively, on an updated symbol is marked waiting unless it opted out of warnings.", "quantifier": "all dependency graphs, namespaces and alias sets", "why_tests_cant": "graph traversal with several mutually recursive functions sharing a seen-set", "anchors": ["core/ipyflow/data_model/utils/update_protocol.py:UpdateProtocol"]}
{"id": "C24", "title": "Symbol dependency edges are symmetric and overwriting drops stale ones", "statement": "After any sequence of symbol updates, p is a parent of s exactly when s is a child of p, no symbol is its own parent, an overwriting update leaves exactly the new dependencies as parents, and a mutating one only adds.", "quantifier": "every sequence of updates with every dependency set", "why_tests_cant": "unbounded histories", "anchors": ["core/ipyflow/data_model/symbol.py:update_deps,collect_self_garbage"]}
{"id": "C25", "title": "rdeps and rusers are exact transitive closures", "statement": "rdeps(x) (rusers(x)) returns exactly the non-anonymous symbols reachable from x by one or more parent (child) steps, without x itself, terminating on cyclic graphs; y is in rusers(x) iff x is in rdeps(y).", "quantifier": "all symbol graphs", "why_tests_cant": "closure over arbitrary graphs", "anchors": ["core/ipyflow/api/lift.py:_traverse,deps,users,rdeps,rusers"]}
{"id": "C26", "title": "Static liveness is sound", "statement": "For a cell, every global variable that some execution path may read before writing it is reported live, and every variable reported dead is written on every path that completes normally.", "quantifier": "all programs in the modelled statement language, all execution paths and stores", "why_tests_cant": "soundness of a static analysis over all programs and paths", "anchors": ["core/ipyflow/analysis/live_refs.py:ComputeLiveSymbolRefs"]}
{"id": "C27", "title": "Static analysis of a cell terminates", "statement": "Computing live and dead references terminates for every cell, including cells defining and calling (mutually) recursive functions.", "quantifier": "all programs", "why_tests_cant": "termination over all programs", "anchors": ["core/ipyflow/analysis/live_refs.py:visit_Call,_visiting_func_calls"]}
{"id": "C28", "title": "Memoized results are reused only for identical inputs", "statement": "A memoized result is reused only if the cell text is identical to that of the earlier run, that run happened earlier, and every recorded input has the same value (or is provably unchanged) now.", "quantifier": "all memo tables, inputs and value structures", "why_tests_cant": "ranges over all nested value structures and memo tables", "anchors": ["core/ipyflow/data_model/cell.py:get_memoized_counter,_maybe_memoize_params", "core/ipyflow/data_model/symbol.py:make_memoize_comparable_for_obj,_make_list_eq"]}
{"id": "C29", "title": "Element symbols track list elements", "statement": "If the tracked element symbols of a list mirror the list's elements, they still do after append, extend, insert, remove, pop, del and clear: the symbol at index i describes the object at index i.", "quantifier": "all lists, all positions accepted by Python (including negative and out-of-range ones), all operation sequences", "why_tests_cant": "all list lengths, positions and sequences of operations", "anchors": ["core/ipyflow/tracing/external_calls/list_handlers.py", "core/ipyflow/data_model/namespace.py:shuffle_symbols_upward_from,_shuffle_symbols_downward_to,delete_symbol_for_name"]}
{"id": "C30", "title": "Unpacking targets are matched to the right elements", "statement": "For a literal or unpacking with at most one starred element, each non-starred target is associated with exactly the element Python assigns to it and the starred one with exactly the elements Python collects into it.", "quantifier": "all numbers of targets, star positions and container lengths", "why_tests_cant": "all lengths and positions", "anchors": ["core/ipyflow/tracing/utils.py:match_container_obj_or_namespace_with_literal_nodes"]}
{"id": "C31", "title": "Every comm request is answered properly and never breaks the kernel", "statement": "Any request of a registered type gets exactly one response carrying its type and a success flag, with success false and an error when the handler raises; unknown types get no response and are remembered; registering over an existing type without overwrite is refused and leaves the old handler in place; a no-response handler sends nothing.", "quantifier": "all request sequences, handlers and handler outcomes", "why_tests_cant": "all sequences of registrations and requests, all handler behaviours", "anchors": ["core/ipyflow/comm_manager.py:CommManager.handle,register_comm_handler"]}
{"id": "C32", "title": "Content updates are atomic per cell and leave no active cell behind", "statement": "When the frontend reports new contents, a cell whose new text does not parse keeps its old text and check result while the others are updated, and after a schedule request the active cell is cleared on every path including errors.", "quantifier": "all content maps, all patterns of syntax errors, all exceptions", "why_tests_cant": "all subsets of failing cells and crash points", "anchors": ["core/ipyflow/comm_manager.py:_recompute_ast_for_cells,handle_compute_exec_schedule"]}
{"id": "C33", "title": "Placeholder cells are matched to notebook cells injectively", "statement": "When notebook ids arrive, each placeholder execution is given at most one new id, each new id is given to at most one placeholder, only to one with identical text, in notebook order and oldest execution first; ids already known are never reassigned.", "quantifier": "all lists of placeholders and notebook cells", "why_tests_cant": "greedy matching over arbitrary lists with duplicates", "anchors": ["core/ipyflow/comm_manager.py:_handle_notify_content_changed_impl", "core/ipyflow/data_model/cell.py:with_placeholder_ids"]}
{"id": "C34", "title": "Settings always hold legal values", "statement": "Whatever strings are given to the configuration or the %flow magics, each setting holds one of its documented values; unknown strings select the default or leave the setting unchanged with an error; toggling reactivity twice restores the mode; and incremental reactivity is never combined with a schedule that does not support it.", "quantifier": "all command sequences and all argument strings", "why_tests_cant": "unbounded command sequences", "anchors": ["core/ipyflow/config.py:EnumWithDefault", "core/ipyflow/line_magics.py:set_exec_mode,set_exec_schedule,set_flow_direction,set_reactivity", "core/ipyflow/flow.py:toggle_reactivity"]}
{"id": "C35", "title": "Cell tags and the tag index agree", "statement": "from_tag(t) returns exactly the current cells carrying tag t, after any sequence of executions, tag additions and tag removals.", "quantifier": "every sequence of tag operations and re-executions", "why_tests_cant": "unbounded histories", "anchors": ["core/ipyflow/line_magics.py:tag", "core/ipyflow/data_model/cell.py:create_and_track,from_tag"]}
{"id": "C36", "title": "The frontend closure is exact reachability", "statement": "Computing the cells to execute from a set of seeds yields exactly the seeds (when inclusive) and the cells reachable along the child (or parent) relation, with no duplicates, in notebook or dependency order, terminating on cyclic graphs.", "quantifier": "all graphs and seed lists", "why_tests_cant": "closure over arbitrary graphs", "anchors": ["frontend/labextension/src/store.ts:computeRawTransitiveClosure,computeTransitiveClosure"]}
{"id": "C37", "title": "Dependency order runs parents before children", "statement": "When the frontend sorts cells by dependency order and the dependency relation is acyclic, every cell comes after all of its (direct or transitive) parents.", "quantifier": "all acyclic graphs, all notebook orders", "why_tests_cant": "topological order over arbitrary acyclic graphs", "anchors": ["frontend/labextension/src/store.ts:computeTopoOrderIdx,cellIdsToCells"]}
{"id": "C38", "title": "A reactive round executes each cell at most once and ends", "statement": "Within one reactive round, for every sequence of kernel responses, no cell is submitted twice and the number of submissions is bounded by the number of cells, after which the round is closed.", "quantifier": "all sequences of kernel responses (schedules)", "why_tests_cant": "adversarial schedules of messages", "anchors": ["frontend/labextension/src/index.ts:comm.onMsg handler", "frontend/labextension/src/store.ts:executeCells"]}
{"id": "C39", "title": "Watchpoints fire exactly when their predicate holds", "statement": "The passing watchpoints are exactly the registered ones whose predicate is absent or true for the new value, in registration order; the collection can only grow through add.", "quantifier": "all watchpoint lists and predicates", "why_tests_cant": "all lists and predicates", "anchors": ["core/ipyflow/tracing/watchpoint.py"]}
{"id": "C40", "title": "User exception handlers cannot swallow repeated interrupts", "statement": "The exception types substituted for a handler never include KeyboardInterrupt, SystemExit or BaseException once the interrupt threshold is reached, are never empty, and otherwise catch exactly what the user wrote.", "quantifier": "all handler type expressions and interrupt counts", "why_tests_cant": "all type tuples", "anchors": ["core/ipyflow/tracing/interrupt_tracer.py"]}
{"id": "C41", "title": "Captured output equals displayed output", "statement": "Everything written while capturing is both shown and recorded, in order; entering and leaving the capture any number of times restores the original streams, and leaving twice is harmless.", "quantifier": "all sequences of writes, enters and exits", "why_tests_cant": "unbounded histories", "anchors": ["core/ipyflow/tracing/output_recorder.py"]}
{"id": "C42", "title": "Debounced schedule requests coalesce without being lost", "statement": "Of any burst of widget changes within the delay exactly the last one triggers a schedule computation, and a change after the timer fired starts a new one.", "quantifier": "all timings of calls and timer firings", "why_tests_cant": "all interleavings of calls and timer events", "anchors": ["core/ipyflow/utils/misc_utils.py:debounce", "core/ipyflow/data_model/symbol.py:_debounced_exec_schedule"]}
{"id": "C43", "title": "Declared argument mutations hit the argument Python binds", "statement": "For an annotation declaring that parameter p is mutated, the symbol updated at a call is the one bound to p by Python's calling convention (positional or keyword), and nothing is updated when p is not supplied.", "quantifier": "all signatures (positional-only, regular, keyword-only; function or method) and all legal calls", "why_tests_cant": "all signatures and call shapes", "anchors": ["core/ipyflow/annotations/compiler.py:_arg_position_in_signature,_mutate_argument,_make_mutate_name_handler"]}
{"id": "C44", "title": "Exported DAG metadata is consistent", "statement": "In create_dag_metadata, parent_cells and child_cells are inverse relations without self edges, and every symbol input of a cell is an output of the parent it names.", "quantifier": "all usage histories", "why_tests_cant": "all usage tables", "anchors": ["core/ipyflow/experimental/dag.py:create_dag_metadata"]}
{"id": "C45", "title": "Reference equality is an equivalence consistent with hashing", "statement": "Symbol references used as set members behave as values: equality is reflexive, symmetric and transitive and equal references hash equally.", "quantifier": "all triples of references with and without scope / source range", "why_tests_cant": "relation laws over all triples", "anchors": ["core/ipyflow/analysis/symbol_ref.py:SymbolRef.__eq__,__hash__,canonical"]}
{"id": "C46", "title": "Name lookup follows Python scoping", "statement": "Looking a name up in a scope returns the binding of the innermost enclosing scope that binds it, skipping class (namespace) scopes where Python does, and never a binding from an unrelated scope.", "quantifier": "all scope chains and bindings", "why_tests_cant": "all chains", "anchors": ["core/ipyflow/data_model/scope.py:lookup_symbol_by_name,lookup_symbol_by_name_this_indentation"]}
{"id": "C47", "title": "Statement-level slice text shows only the statement slice", "statement": "cell.slice(stmts=True) returns the text of exactly the statements in the statement-level backward closure of the cell's statements.", "quantifier": "all cells, all statement dependency graphs", "why_tests_cant": "quantifies over all graphs; the result looks plausible on notebooks whose cells hold one statement each", "anchors": ["core/ipyflow/data_model/cell.py:slice,compute_slice_stmts", "core/ipyflow/slicing/mixin.py:format_multi_slice"]}
{"id": "C48", "title": "Exactly the out-of-date cells are reported ready", "statement": "A checked cell is reported ready exactly when it is not waiting and it needs to run: some parent it still uses ran after it and supplied the current value of a used symbol (with in-order flow only the lowest such parent counts), or a declared edge comes from a cell that ran to one that never did, or, for the liveness schedules, its text uses a value newer than its last run. Neither the order in which parents are stored nor the early exits of the loop change the answer.", "quantifier": "all registries, timestamps, positions, schedules and flow directions", "why_tests_cant": "an equivalence over all edge sets, orders and timestamps; early loop exits depend on iteration order", "anchors": ["core/ipyflow/frontend.py:_compute_readiness", "core/ipyflow/data_model/cell.py:get_latest_parent_by_ts_map"]}
{"id": "C49", "title": "Asking for memoization never breaks a cell", "statement": "Recording a memoized run and looking for an earlier run to reuse always return normally: for every value a user can bind to an input (nested, shared, self-containing) they terminate and raise nothing.", "quantifier": "all values, including cyclic ones, and all memo tables", "why_tests_cant": "ranges over all finite and cyclic object graphs", "anchors": ["core/ipyflow/data_model/symbol.py:make_memoize_comparable_for_obj", "core/ipyflow/data_model/cell.py:get_memoized_counter,_maybe_memoize_params"]}
{"id": "C50", "title": "The kernel is told when a reactive round ends", "statement": "Whenever a reactive round in which cells were submitted ends, the frontend sends exactly one reactivity_cleanup request, so that the kernel forgets the updates that the round was about.", "quantifier": "all message sequences and modes", "why_tests_cant": "depends on the interleaving of cell completions and kernel messages over arbitrary rounds", "anchors": ["frontend/labextension/src/index.ts:981-1001", "frontend/labextension/src/store.ts:104-110", "core/ipyflow/comm_manager.py:handle_reactivity_cleanup"]}
{"id": "C51", "title": "Assigned variables are reported modified", "statement": "Every global variable that some execution path of a cell may assign is among those that the static analysis of the cell reports as modified.", "quantifier": "all cells (statement lists of any size and nesting) and all execution paths", "why_tests_cant": "ranges over all programs and all their paths, including exceptional ones", "anchors": ["core/ipyflow/analysis/live_refs.py:54-467"]}
{"id": "C52", "title": "References denote what their expressions denote", "statement": "If the reference built from an expression resolves to a symbol, the symbol is the one of the object that the expression evaluates to; and if every step of the expression has a symbol, the reference resolves to the last one.", "quantifier": "all expressions, scopes, namespaces and objects", "why_tests_cant": "ranges over all expressions and all object graphs", "anchors": ["core/ipyflow/analysis/symbol_ref.py:32-84,163-319", "core/ipyflow/data_model/scope.py:151-192", "core/ipyflow/data_model/namespace.py:240-285"]}
{"id": "C53", "title": "Stores go to the scope Python stores to", "statement": "The store of a plain name is recorded in the scope in which Python binds it, according to global and nonlocal declarations, in every nesting of functions and classes.", "quantifier": "all nestings of scopes and all declarations", "why_tests_cant": "ranges over all nestings", "anchors": ["core/ipyflow/tracing/ipyflow_tracer.py:510-542", "core/ipyflow/data_model/scope.py:101-114", "core/ipyflow/data_model/statement.py:263-303"]}
{"id": "C54", "title": "The kernel reports exactly the stale parents", "statement": "With the DAG based schedules and in-order semantics, a parent is reported stale for a cell exactly if something the cell has from it was written after the parent ran, and stale once another cell has run exactly if that cell is above the child and writes something the child has from the parent; the two tables keyed by child and by executed cell say the same, and with pulled updates the frontend runs these parents.", "quantifier": "all notebooks, nestings of symbols and sequences of checks", "why_tests_cant": "ranges over all notebooks, orders of cells and usages", "anchors": ["core/ipyflow/frontend.py:254-304", "core/ipyflow/data_model/symbol.py:614-619", "core/ipyflow/data_model/cell.py:189-198", "core/ipyflow/data_model/cell.py:435-437"]}
{"id": "C55", "title": "The table of aliases is exact", "statement": "Whatever is stored, deleted, renamed, resynchronised or collected, the set kept for an object contains exactly the symbols whose object it is; each name in a scope leads to a symbol that is kept, is listed under its object and no other, and knows its name and scope; and the namespace kept for an object is a namespace of this object.", "quantifier": "all histories of stores, deletions, renamings, resynchronisations, mutations and collections, all shapes of nested and shared data", "why_tests_cant": "ranges over all histories, sharing patterns and nestings, including namespaces that are moved to a new object while they are being updated", "anchors": ["core/ipyflow/data_model/symbol.py:674-758", "core/ipyflow/data_model/symbol.py:792-817", "core/ipyflow/data_model/symbol.py:1404-1444", "core/ipyflow/data_model/namespace.py:287-423", "core/ipyflow/data_model/scope.py:367-449", "core/ipyflow/utils/misc_utils.py:12-16"]}
{"id": "C56", "title": "Garbage collection takes what is gone and nothing else", "statement": "Deleting a symbol marks it, the namespaces of objects no remaining symbol holds, their members, and so on, and nothing else; a collection takes the marked symbols and those the re-run cell had left without a name together with what goes with them, frees only their names, changes nothing else and comes to an end also on cyclic data; a variable that was assigned and not deleted since is still known after any number of collections.", "quantifier": "all histories and states, cyclic data included", "why_tests_cant": "ranges over all graphs of objects and all histories", "anchors": ["core/ipyflow/flow.py:616-648", "core/ipyflow/data_model/symbol.py:630-698", "core/ipyflow/data_model/namespace.py:158-175", "core/ipyflow/data_model/scope.py:442-449"]}
{"id": "C57", "title": "Waiting at a position is answered rightly, cached or not", "statement": "A symbol is said to be waiting at a position of the notebook exactly if it is waiting and some symbol it was made from, by a cell not below that position, was written later by a cell not below that cell, or was itself waiting there, or a member of its namespace is; the answer does not depend on which questions were asked before, and every question is answered.", "quantifier": "all dependency graphs, positions and sequences of questions", "why_tests_cant": "ranges over all graphs, cyclic ones included, and all orders in which the answers get cached", "anchors": ["core/ipyflow/data_model/symbol.py:937-998", "core/ipyflow/data_model/symbol.py:415-416", "core/ipyflow/frontend.py:432-437", "core/ipyflow/analysis/resolved_symbols.py:188-189"]}
{"id": "C58", "title": "Assignments are recorded in the scope of the frame that makes them", "statement": "While tracing is on, the call stack that the tracer keeps names exactly the frames that are running, in order, whatever calls, returns, exceptions and pauses of tracing came before; a statement's effects are recorded in the scope of the frame that ran it; tracing resumes when control is back in a frame the tracer knows; and at the end of each top level statement tracing is on and the scope is the global one.", "quantifier": "all sequences of calls, returns, exceptions, statements and pauses of tracing", "why_tests_cant": "ranges over all interleavings of traced and untraced calls and all ways of leaving them", "anchors": ["core/ipyflow/tracing/ipyflow_tracer.py:85-143", "core/ipyflow/tracing/ipyflow_tracer.py:333-498", "core/ipyflow/tracing/ipyflow_tracer.py:1258-1282", "core/ipyflow/tracing/ipyflow_tracer.py:1501-1530", "core/ipyflow/tracing/ipyflow_tracer.py:1582-1665", "core/ipyflow/tracing/ipyflow_tracer.py:1727-1796"]}
{"id": "C59", "title": "Parameters depend on what was passed for them", "statement": "When a traced function is called, each of its parameters has a symbol in the scope of the call, and that symbol depends on exactly the expression that Python bound to the parameter: the argument at its position, the keyword with its name, or else its default.", "quantifier": "all function signatures and all calls", "why_tests_cant": "ranges over all combinations of parameter kinds, defaults, positional and keyword arguments", "anchors": ["core/ipyflow/data_model/symbol.py:819-878", "core/ipyflow/data_model/symbol.py:910-933"]}
{"id": "C60", "title": "A value depends on exactly what its expression reads", "statement": "When a traced statement assigns the value of an expression, the assigned symbol depends on exactly those symbols that Python reads to evaluate the expression: names (except the variables of a comprehension), places such as a.b or a[0], indices, called functions and their arguments, and starred operands.", "quantifier": "all expressions, nested to any depth, and all symbol tables", "why_tests_cant": "ranges over all expression trees, including comprehensions nested in each other with shadowed names", "anchors": ["core/ipyflow/tracing/symbol_resolver.py:39-219", "core/ipyflow/tracing/symbol_resolver.py:275-293", "core/ipyflow/tracing/ipyflow_tracer.py:616-632", "core/ipyflow/tracing/ipyflow_tracer.py:1147-1167"]}
{"id": "C61", "title": "Variables that an expression reads are recorded as used", "statement": "Resolving the right-hand side of a traced statement records a use of every variable whose value the expression takes, and of nothing that it does not read.", "quantifier": "all expressions, nested to any depth, and all symbol tables", "why_tests_cant": "ranges over all expression trees; a missed use silently drops a cell from slices and from reactive execution", "anchors": ["core/ipyflow/tracing/symbol_resolver.py:39-219", "core/ipyflow/tracing/symbol_resolver.py:275-293"]}
{"id": "C62", "title": "What a called function reads is live in the cell that calls it", "statement": "The symbols that are live in a cell are those that the cell reads and those read by the functions that run when it runs, however deep the calls go. The search ends also if functions call each other recursively. With in-order flow, symbols that are not there yet are let pass exactly if the executed cell lies outside the span from the cell's first parent to the cell.", "quantifier": "all cells, all functions and all call graphs", "why_tests_cant": "ranges over all call graphs, including cyclic ones, and all orders in which sets are iterated", "anchors": ["core/ipyflow/analysis/live_refs.py:487-576", "core/ipyflow/analysis/live_refs.py:579-660"]}
{"id": "C63", "title": "A cell waits for a name iff the cell, or a function it runs, reads an unknown name", "statement": "A reference is reported as unresolved, so that the cell is shown as waiting, if and only if it occurs in the cell or in a function that runs when the cell runs, is not local, resolves to no symbol, and is neither a builtin nor a parameter.", "quantifier": "all cells, all functions and all call graphs", "why_tests_cant": "ranges over all call graphs and all references in them", "anchors": ["core/ipyflow/analysis/live_refs.py:487-576", "core/ipyflow/analysis/live_refs.py:579-660", "core/ipyflow/frontend.py:437-444"]}
{"id": "C64", "title": "Reactivity is passed on along calls", "statement": "If a function is called reactively, then everything that it reads, directly or through functions it calls (unless they are blocked), is read reactively; and only what is marked reactive where it is read, or is read by a function called reactively, is. The same holds for cascading reactivity.", "quantifier": "all call graphs and all markings with reactivity", "why_tests_cant": "ranges over all chains of calls, and all combinations of marks on them", "anchors": ["core/ipyflow/analysis/live_refs.py:487-576", "core/ipyflow/analysis/live_refs.py:579-660", "core/ipyflow/analysis/resolved_symbols.py:80-113"]}
{"id": "C65", "title": "Reading through calls counts as use", "statement": "When usage is updated, a use is recorded for the symbol at the end of every non-local reference in the cell, unless the tracer had recorded one already, and of every non-local reference in each function that runs, with the number of the statement in the cell from which it runs; nothing else is recorded.", "quantifier": "all cells, all functions and all call graphs", "why_tests_cant": "ranges over all call graphs and all references in them", "anchors": ["core/ipyflow/analysis/live_refs.py:487-576", "core/ipyflow/analysis/live_refs.py:579-660"]}
{"id": "C66", "title": "Every name that a statement binds is tracked", "statement": "After any sequence of statements, exactly the names that are bound have symbols, and the symbol of a name was last updated at the last statement that bound the name: as a target, as the name of a function, class or module, or with := anywhere in its expressions.", "quantifier": "all sequences of statements, all expressions nested in them", "why_tests_cant": "ranges over all nestings of := in all kinds of statements, and all histories of bindings", "anchors": ["core/ipyflow/analysis/symbol_edges.py:15-121", "core/ipyflow/analysis/utils.py:10-48", "core/ipyflow/data_model/statement.py:523-574", "core/ipyflow/data_model/statement.py:592-715"]}
{"id": "C67", "title": "A name depends on everything its value was computed from", "statement": "If a statement is run in two states that agree on what a name is recorded to depend on afterwards (for names set by the same statement: on what those depend on), and on the name itself if its old value is used, then it gives the name the same value in both. Dependencies that its value does not come from are not recorded; what the old value depended on is kept if it is used.", "quantifier": "all statements, all states, all meanings of operators", "why_tests_cant": "is about pairs of runs, for all states and all expressions", "anchors": ["core/ipyflow/analysis/symbol_edges.py:15-121", "core/ipyflow/analysis/utils.py:10-48", "core/ipyflow/data_model/statement.py:523-574", "core/ipyflow/data_model/statement.py:592-715", "core/ipyflow/data_model/symbol.py:1042-1059"]}
{"id": "C68", "title": "Each library call is handled once, with its own arguments and result", "statement": "When a statement finishes, exactly the calls it made to functions that are not traced are handled, each once, in the order in which they returned, and each with its own positional and keyword arguments and its own result; calls that raised are not handled.", "quantifier": "all nestings of calls, callbacks and traced functions, all exceptions and handlers of exceptions", "why_tests_cant": "ranges over all trees of calls and all places where an exception may be raised and caught", "anchors": ["core/ipyflow/tracing/external_calls/__init__.py:24-101", "core/ipyflow/tracing/external_calls/base_handlers.py:40-345", "core/ipyflow/tracing/ipyflow_tracer.py:299-321", "core/ipyflow/tracing/ipyflow_tracer.py:1105-1281"]}
{"id": "C69", "title": "A library call marks as changed what it may have changed", "statement": "A method without annotation marks the variables of its object as changed, and as depending on the arguments, if and only if it returns None or the object; a function of a module that returns None marks the module and the arguments it may have changed; an annotated one marks what the annotation says, whatever it returns.", "quantifier": "all calls, all tables of aliases, all results", "why_tests_cant": "ranges over all configurations of aliases, arguments and results", "anchors": ["core/ipyflow/tracing/external_calls/__init__.py:24-101", "core/ipyflow/tracing/external_calls/base_handlers.py:40-345", "core/ipyflow/tracing/ipyflow_tracer.py:299-321", "core/ipyflow/tracing/ipyflow_tracer.py:1105-1281"]}
{"id": "C70", "title": "A call gets the handler that was annotated for it", "statement": "An annotation of a method applies to every call of the method on an instance of the class, or of a subclass without an annotation of its own; an annotation of a function applies to every call of the function. Classes and functions of the notebook, loggers and print get no handler.", "quantifier": "all class hierarchies, all sets of annotations, all calls", "why_tests_cant": "ranges over all hierarchies and all orders of registration", "anchors": ["core/ipyflow/tracing/external_calls/__init__.py:24-101", "core/ipyflow/tracing/external_calls/base_handlers.py:40-345", "core/ipyflow/tracing/ipyflow_tracer.py:299-321", "core/ipyflow/tracing/ipyflow_tracer.py:1105-1281", "core/ipyflow/annotations/compiler.py:338-360"]}
{"id": "C71", "title": "What a mark on a used name means", "statement": "In a reference such as a.b.c, a mark `$` or `$$` makes its part and everything after it reactive (cascading, for `$$`), and a mark `$:` makes its part and everything after it blocked; a blocked part never makes the cell run again. Without marks, a part is reactive if its symbol was stored with a mark or cascades, and blocked if its symbol was stored with `$:` since it last changed.", "quantifier": "all references, all placements of marks, all states of the session", "why_tests_cant": "ranges over all combinations of marks along references of any length and all states", "anchors": ["core/ipyflow/analysis/symbol_ref.py:87-142", "core/ipyflow/analysis/symbol_ref.py:428-540", "core/ipyflow/analysis/resolved_symbols.py:59-127", "core/ipyflow/data_model/cell.py:730-739"]}
{"id": "C72", "title": "What a mark on a stored name means", "statement": "`$x = \u2026` makes users of x run again after this run only; `$$x = \u2026` does until the round of reactive runs ends or x gets an unrelated value; `$:x = \u2026` keeps users of x from running until x is stored again without the mark. For targets such as x.y the same holds of the part that is marked, and what is around it counts as updated.", "quantifier": "all histories of runs, updates, marked stores and ends of rounds", "why_tests_cant": "ranges over all histories", "anchors": ["core/ipyflow/data_model/statement.py:305-340", "core/ipyflow/data_model/symbol.py:1083-1105", "core/ipyflow/flow.py:453-463", "core/ipyflow/flow.py:559-562", "core/ipyflow/comm_manager.py:361-366"]}
{"id": "C73", "title": "`$$` is carried on to what is computed from it, for one round", "statement": "A value counts as cascading exactly if it was computed, directly or through other cells, from something marked `$$` in the current round, after the cell that uses it last ran. When the round ends nothing cascades any more. This can be worked out however symbols contain each other.", "quantifier": "all histories, all ways in which symbols contain each other (cycles included)", "why_tests_cant": "ranges over all histories and all object graphs", "anchors": ["core/ipyflow/data_model/symbol.py:374-412", "core/ipyflow/data_model/symbol.py:502-505", "core/ipyflow/data_model/symbol.py:1083-1105", "core/ipyflow/data_model/namespace.py:185-194"]}
{"id": "C74", "title": "code(x) shows the last write of x and of everything in it", "statement": "After any history of writes, the code asked for a variable takes in the statement that last wrote it and, for each thing it holds at any depth, the statement that last wrote that. The timestamp of a variable is that of the last write of it or of something directly in it. All this can be worked out however objects hold each other.", "quantifier": "all histories of writes, all object graphs (cycles included)", "why_tests_cant": "ranges over all histories and all object graphs", "anchors": ["core/ipyflow/data_model/symbol.py:277-321", "core/ipyflow/data_model/symbol.py:323-372", "core/ipyflow/data_model/symbol.py:1327-1402"]}
{"id": "C75", "title": "code(x, version=k) shows x as of its k-th version", "statement": "The versions of a variable are the times it, or something in it, was written, in order and each once; version k is made up of the writes that were the last at that time; asking for a version that does not exist is an IndexError.", "quantifier": "all histories of writes, all versions", "why_tests_cant": "ranges over all histories and version numbers", "anchors": ["core/ipyflow/data_model/symbol.py:323-372", "core/ipyflow/data_model/symbol.py:1327-1402", "core/ipyflow/api/lift.py"]}
{"id": "C76", "title": "A use depends on the last write before it", "statement": "When a statement uses a variable, it is recorded to depend on the last write of the variable and of everything in it, if earlier than the statement. A use found by looking at a cell's code depends on each write back to the last one made by a cell still in the notebook. A blocked use is not recorded. Uses change no version.", "quantifier": "all histories, all object graphs, all sets of visible cells", "why_tests_cant": "ranges over all histories, object graphs and sets of cells", "anchors": ["core/ipyflow/data_model/symbol.py:225-230", "core/ipyflow/data_model/symbol.py:1240-1325", "core/ipyflow/flow.py:427-451", "core/ipyflow/data_model/cell.py:170-173"]}
{"id": "C77", "title": "The annotation made for a value is a type of the value", "statement": "For every value (other than containers that contain themselves) a type annotation is made, the value has that type, and the annotation names the types that occur in the value's contents, no fewer and no more (an integer beside floats counts as a float).", "quantifier": "all values of any depth, all iteration orders of sets, all states of typing's cache of aliases", "why_tests_cant": "values are nested without bound and set order is not fixed", "anchors": ["core/ipyflow/data_model/utils/annotation_utils.py:14-79", "core/ipyflow/data_model/symbol.py:597-601"]}
{"id": "C78", "title": "The text of an annotation means that type and nothing else", "statement": "The annotation string that is given to the type checker reads as exactly one type, and the value it was made for has that type.", "quantifier": "all values, all scopes in which the text is read, all orders of sets", "why_tests_cant": "ranges over all nested annotations and all scopes", "anchors": ["core/ipyflow/data_model/utils/annotation_utils.py:82-123", "core/ipyflow/data_model/symbol.py:597-601"]}
{"id": "C79", "title": "The type checking verdict on a cell is that on the program as it stands", "statement": "With mark_typecheck_failures_unsafe set, whenever a cell is checked it is reported to typecheck iff the type checker accepts its present contents together with those of the present cells it depends on and the present types of the variables it uses, whatever was run, edited or rebound since the last check.", "quantifier": "all histories of runs, edits, rebindings and checks; all type checkers", "why_tests_cant": "ranges over all histories between two checks", "anchors": ["core/ipyflow/data_model/cell.py:811-931", "core/ipyflow/data_model/symbol.py:711-735", "core/ipyflow/comm_manager.py:249-272"]}
{"id": "C80", "title": "What a run patches is put back however the run ends", "statement": "IPython's lists of input and AST transformers, pyccolo's exec and eval, IPython's run_line_magic and run_cell_magic and the filters of tracer classes are, after a run of a cell, what they were before it, whatever the cell does to other things and whatever raises during the run.", "quantifier": "all cells, all points at which something raises, all class hierarchies and lists of tracers", "why_tests_cant": "ranges over all fault positions and class hierarchies", "anchors": ["core/ipyflow/shell/interactiveshell.py:120-241", "core/ipyflow/shell/interactiveshell.py:482-494", "core/ipyflow/utils/ipython_utils.py:29-49", "core/ipyflow/tracing/ipyflow_tracer.py:276-291"]}
{"id": "C81", "title": "A transformer that a cell adds to IPython stays in effect", "statement": "If a cell appends to get_ipython().ast_transformers or input_transformers_post, the addition is in effect for the cells run after it.", "quantifier": "all cells and settings", "why_tests_cant": "ranges over all cells and settings", "anchors": ["core/ipyflow/utils/ipython_utils.py:29-49", "core/ipyflow/shell/interactiveshell.py:393-460"]}
{"id": "C82", "title": "Tracers and import hooks are in place exactly while a cell runs", "statement": "Between runs no tracer is on and sys.meta_path has no entry of pyccolo; while a cell is run exactly the registered tracers are on and pyccolo's entry is in front; other entries stay as cells leave them. A tracer that is deregistered gets no event from then on.", "quantifier": "all histories of runs, including ones that register and deregister tracers and change sys.meta_path", "why_tests_cant": "ranges over all histories of runs", "anchors": ["core/ipyflow/shell/interactiveshell.py:105-110", "core/ipyflow/shell/interactiveshell.py:243-341", "core/ipyflow/line_magics.py:493-541"]}
{"id": "C83", "title": "The result of a run cell is never lost", "statement": "If the cell has been run and gave a result, the run returns that result even if ipyflow's own bookkeeping raises, and the exception is kept for inspection.", "quantifier": "all points at which something raises, all cells", "why_tests_cant": "ranges over all fault positions", "anchors": ["core/ipyflow/shell/interactiveshell.py:393-460", "core/ipyflow/flow.py:477-486"]}
{"id": "C84", "title": "A cell is taken to be what it contains", "statement": "After any history of runs, edits and checks, the statements that the kernel analyses for a cell (liveness, readiness, slices) are those of the text that the cell contains.", "quantifier": "all histories of runs, notifications of contents and checks, all texts", "why_tests_cant": "ranges over all histories; the tree of a cell is cached and overridden in several places", "anchors": ["core/ipyflow/data_model/cell.py:661-678", "core/ipyflow/tracing/flow_ast_rewriter.py:28-49", "core/ipyflow/shell/interactiveshell.py:494-533", "core/ipyflow/shell/interactiveshell.py:625-644", "core/ipyflow/comm_manager.py:245-275"]}
{"id": "C85", "title": "A reused run has the dependencies of the run it reuses", "statement": "When a memoized run is reused, the cell and each of its statements get the dependencies that they have in the reused run, so that slices through it are complete.", "quantifier": "all histories of runs and edits", "why_tests_cant": "ranges over all histories", "anchors": ["core/ipyflow/shell/interactiveshell.py:625-644", "core/ipyflow/data_model/cell.py:228-232", "core/ipyflow/data_model/cell.py:320-360"]}
{"id": "C86", "title": "A run that is held back shows the last result and can be forced", "statement": "With warnings of uses out of order on, a cell that uses something from below is not executed but shows the result that it had when it was last executed; running it again unchanged executes it.", "quantifier": "all histories of runs", "why_tests_cant": "ranges over all histories of runs", "anchors": ["core/ipyflow/shell/interactiveshell.py:535-624", "core/ipyflow/data_model/cell.py:362-420"]}
{"id": "C87", "title": "Loading and unloading take effect", "statement": "Once a cell has run, the shell and the kernel are ipyflow's if the last command was to load the extension and are what they were before if it was to unload it; exactly the cells run while it is loaded are tracked, and switching makes no run fail.", "quantifier": "all histories of loads, unloads and runs, also inside of each other", "why_tests_cant": "ranges over all interleavings of commands with the beginnings and ends of runs", "anchors": ["core/ipyflow/shell/__init__.py:22-38", "core/ipyflow/__init__.py:34-70", "core/ipyflow/shell/interactiveshell.py:83-103", "core/ipyflow/shell/interactiveshell.py:364-393", "core/ipyflow/kernel/kernel.py:137-158"]}
{"id": "C88", "title": "The number of a cell is the number of its prompt", "statement": "cells(n) is the cell that ran as In[n], for every n that was run while the extension was loaded, however often it was unloaded and loaded again.", "quantifier": "all histories of loads, unloads and runs with and without history", "why_tests_cant": "ranges over all histories; two counters are kept and repaired in different places", "anchors": ["core/ipyflow/shell/interactiveshell.py:83-96", "core/ipyflow/data_model/cell.py:362-420", "core/ipyflow/utils/ipython_utils.py:21-26"]}
{"id": "C89", "title": "The current version of a cell is its last run", "statement": "Looking a cell up by the id that the frontend gives it yields its last run, however often the extension was unloaded and loaded again.", "quantifier": "all histories of loads, unloads and runs", "why_tests_cant": "ranges over all histories", "anchors": ["core/ipyflow/shell/interactiveshell.py:564-578", "core/ipyflow/data_model/cell.py:362-420"]}
{"id": "C90", "title": "Cells of a session without ids are different cells", "statement": "If the frontend gives no ids, as in a terminal, every cell that is run is a cell of its own, with the number of its prompt as its id; no cell is taken to be a new version of an unrelated one.", "quantifier": "all histories of loads, unloads and runs", "why_tests_cant": "ranges over all histories; depends on where the extension was loaded", "anchors": ["core/ipyflow/shell/interactiveshell.py:564-578", "core/ipyflow/shell/interactiveshell.py:83-96", "core/ipyflow/data_model/cell.py:362-420"]}
{"id": "C91", "title": "Only frames of the instrumentation are left out of a traceback", "statement": "What is shown of a traceback is its first frame and all others, in their order, that do not belong to the instrumentation; other tracebacks are not changed and showing it again shows the same.", "quantifier": "all tracebacks", "why_tests_cant": "ranges over all tracebacks of any length; the list is changed while it is walked", "anchors": ["core/ipyflow/shell/interactiveshell.py:705-737"]}
{"id": "C92", "title": "Only long outputs of old runs are dropped", "statement": "The last output of every cell is kept; of a run that was followed by another run of the cell it is kept unless it is longer than the limit.", "quantifier": "all histories of runs, all outputs", "why_tests_cant": "ranges over all histories and outputs", "anchors": ["core/ipyflow/shell/interactiveshell.py:646-671"]}
{"id": "C93", "title": "The function made of a slice computes what the slice computes", "statement": "Calling the function that to_function makes of a cell or slice gives what running the text gives, with the arguments in place of the variables of their names, and leaves the variables of the notebook as they are.", "quantifier": "all texts, arguments, values of variables and callers", "why_tests_cant": "ranges over all programs and states; tests use one expression that is symmetric in its variables", "anchors": ["core/ipyflow/slicing/mixin.py:165-196", "core/ipyflow/tracing/ipyflow_tracer.py:261-277", "core/ipyflow/data_model/cell.py:980-981", "core/ipyflow/data_model/statement.py:249-250"]}
{"id": "C94", "title": "An uninstrumented function runs no instrumented code", "statement": "Making an uninstrumented copy of a function ends, and neither the copy nor any function it calls, directly or not, is instrumented; what was there is not changed.", "quantifier": "all functions and all graphs of functions that use each other", "why_tests_cant": "ranges over all graphs of functions, with recursion and sharing", "anchors": ["core/ipyflow/tracing/uninstrument.py:19-105", "core/ipyflow/patches/cloudpickle_patch.py:11-24", "core/ipyflow/patches/pyspark_patch.py:11-22", "core/ipyflow/tracing/ipyflow_tracer.py:1171-1175"]}
{"id": "C95", "title": "An uninstrumented function does what the function does", "statement": "The copy, which is passed to functions outside the notebook in place of a lambda expression, has the same code and refers to the same objects or to copies that do the same, now and after later assignments.", "quantifier": "all functions, graphs of functions and later assignments", "why_tests_cant": "ranges over all graphs of functions and all histories of assignments after the copy was made", "anchors": ["core/ipyflow/tracing/uninstrument.py:19-105", "core/ipyflow/tracing/ipyflow_tracer.py:1171-1175"]}
{"id": "C96", "title": "Statements and their dependencies are recorded faithfully", "statement": "At any point of a session, there is a record for exactly the times at which a statement ran or a widget was moved; the statement at a time has another as its parent exactly if a dependency between their times was found, both statements agree about it, and every statement named is on record.", "quantifier": "all sequences of statements, dependencies of either kind, moves of widgets and reused runs", "why_tests_cant": "ranges over all histories; tests look at the text of a few slices", "anchors": ["core/ipyflow/data_model/statement.py:50-155", "core/ipyflow/data_model/statement.py:171-191", "core/ipyflow/slicing/mixin.py:300-358", "core/ipyflow/flow.py:427-451", "core/ipyflow/shell/interactiveshell.py:514-519", "core/ipyflow/shell/interactiveshell.py:626-642"]}
{"id": "C97", "title": "A moved widget takes the place of its earlier position only", "statement": "When a widget is moved, a statement that sets its value is recorded at the end of the cell that made it, in place of the one for an earlier move; what depended on the earlier one depends on it, and no other statement or dependency is lost.", "quantifier": "all sessions, widgets and sequences of moves", "why_tests_cant": "ranges over all histories before the move and all graphs of statements around it; tests move one widget once or twice", "anchors": ["core/ipyflow/data_model/symbol.py:1185-1219", "core/ipyflow/data_model/statement.py:117-155", "core/ipyflow/slicing/mixin.py:339-358", "core/ipyflow/data_model/cell.py:680-686"]}
{"id": "C98", "title": "The slice of a statement reproduces what it used", "statement": "The slice of a statement consists of the statements that it depends on, directly or not, with the position of each widget at the time, can always be made, and can be run.", "quantifier": "all sessions, statements and slicing contexts", "why_tests_cant": "ranges over all histories; tests compare a few slices with texts", "anchors": ["core/ipyflow/slicing/mixin.py:421-452", "core/ipyflow/data_model/statement.py:117-191", "core/ipyflow/data_model/symbol.py:1185-1219"]}
{"id": "C99", "title": "Reading a chain records what was read, with the objects that were read", "statement": "When x.a[i].f(y.b).c is evaluated the program's own result or exception is unchanged; afterwards every symbol refers to the object it stands for or to what it referred to before, everything read but not called at once has a symbol with the object read, and what counts as used by the chain was read in it.", "quantifier": "all programs of names, attributes, subscripts and calls nested in any way, all heaps and all symbols known before", "why_tests_cant": "ranges over all nestings of chains and all states of the tracer in between; tests evaluate a few chains", "anchors": ["core/ipyflow/tracing/ipyflow_tracer.py:544-608", "core/ipyflow/tracing/ipyflow_tracer.py:777-817", "core/ipyflow/tracing/ipyflow_tracer.py:910-1069", "core/ipyflow/tracing/ipyflow_tracer.py:1196-1282"]}
{"id": "C100", "title": "A call is taken for a call of what is called", "statement": "For every call in an expression, the object and the method name from which its effects are inferred are the ones the function was read from.", "quantifier": "all nestings of chains and calls, all heaps", "why_tests_cant": "ranges over all nestings; tests call methods in simple positions", "anchors": ["core/ipyflow/tracing/ipyflow_tracer.py:1178-1193", "core/ipyflow/tracing/ipyflow_tracer.py:1196-1250"]}
{"id": "C101", "title": "Assigning to an element records that element", "statement": "An assignment to x.a.b or x.a[i] is recorded for that attribute or subscript of the object that x.a is, for each target of the assignment.", "quantifier": "all lists of targets, heaps and symbols known before", "why_tests_cant": "ranges over all chains, all values and all namespaces around the object; tests assign to a few elements with values found nowhere else", "anchors": ["core/ipyflow/tracing/ipyflow_tracer.py:544-608", "core/ipyflow/tracing/ipyflow_tracer.py:984-1000", "core/ipyflow/data_model/namespace.py:360-377"]}
{"id": "C102", "title": "A cell is recorded to write exactly what it assigned", "statement": "After a cell ran, the symbols recorded as its writes are those its statements assigned; one is recorded as a dynamic write if in some statement its last assignment was not one that is visible in the text, otherwise as a static write, and never as both.", "quantifier": "all runs: lists of assignments and ends of statements, with any namespaces at each assignment", "why_tests_cant": "ranges over all orders of static and dynamic assignments and all nestings of namespaces; tests assign a few plain variables", "anchors": ["core/ipyflow/data_model/scope.py:336-367", "core/ipyflow/tracing/ipyflow_tracer.py:1528-1530", "core/ipyflow/data_model/symbol.py:606-612", "core/ipyflow/data_model/symbol.py:1311-1325"]}
{"id": "C103", "title": "What is declared about a library takes effect whenever it is declared", "statement": "After any session of imports and registrations of annotations, each function and each method of an imported module has the handler that was declared for it last, whether it was declared before or after the import, and none that was not declared for it.", "quantifier": "all sessions: lists of imports and of registered files and directories, all declarations with version conditions nested in any way, all modules", "why_tests_cant": "ranges over all orders of imports and declarations; tests register one directory before the import", "anchors": ["core/ipyflow/annotations/compiler.py:176-237", "core/ipyflow/annotations/compiler.py:239-312", "core/ipyflow/annotations/compiler.py:315-376", "core/ipyflow/line_magics.py:545-556", "core/ipyflow/tracing/ipyflow_tracer.py:819-821"]}
{"id": "C104", "title": "Imports give symbols to exactly the names they bind", "statement": "After an import statement the name it binds has a symbol with the bound object, and the symbols of other variables are what they were; so after any session of imports each symbol of a variable has the variable's object.", "quantifier": "all sessions of import statements, all sets of loaded modules, all symbols known before", "why_tests_cant": "ranges over all packages, module names and orders of imports with and without aliases; tests import a few modules once", "anchors": ["core/ipyflow/tracing/ipyflow_tracer.py:705-775", "core/ipyflow/data_model/statement.py:598-668", "core/ipyflow/analysis/symbol_edges.py:108-113"]}
{"id": "C105", "title": "What a cell does while tracing is off is made up for", "statement": "After a cell ran, each global variable that has a symbol is the symbol's object, and each variable that is another object than before has a symbol that counts as updated by this cell, even if the assignment happened while tracing was disabled (later iterations of a loop, repeated calls); a variable to which nothing happened keeps its symbol unchanged.", "quantifier": "all cells: lists of statements with any traced and untraced assignments, deletions and changes of lists, with any names in their texts, and a last statement that raises", "why_tests_cant": "ranges over all interleavings of traced and untraced assignments and all aliases; tests run a few loops", "anchors": ["core/ipyflow/tracing/ipyflow_tracer.py:1534-1580", "core/ipyflow/data_model/symbol.py:1404-1444", "core/ipyflow/shell/interactiveshell.py:675-693", "core/ipyflow/flow.py:592-594"]}
{"id": "C106", "title": "The kind of a symbol and the body followed for a call are those of its last binding", "statement": "After any history of bindings, a name counts as a function, class, import, module or plain variable according to its last binding, and the function body whose names count as used when the name is called is the body of the function the name is bound to; no body is followed if it is no function.", "quantifier": "all histories of function definitions, lambdas, class definitions, imports, assignments with any dependencies, and deletions, for all names", "why_tests_cant": "ranges over all orders in which a name can be rebound to things of different kinds and functions copied from name to name; tests bind a name once or twice", "anchors": ["core/ipyflow/data_model/scope.py:194-229", "core/ipyflow/data_model/scope.py:369-453", "core/ipyflow/data_model/symbol.py:796-811", "core/ipyflow/data_model/symbol.py:1119-1122", "core/ipyflow/analysis/live_refs.py:592-602"]}
{"id": "C107", "title": "The slice widget copies and shows the slice's text", "statement": "In the widget that shows a slice, a click on 'Copy code' puts the contents of the slice's cells, one below the other, into the clipboard, a click on 'Copy cells' the text of the slice with its headers, and what is visible is each cell's number and contents, with links only around the numbers.", "quantifier": "all slices: any numbers of cells with any contents, positions, interfaces, with or without headers and formatting", "why_tests_cant": "ranges over all texts of cells; tests look at the widget of a few slices, and none click a link", "anchors": ["core/ipyflow/slicing/mixin.py:78-149"]}
{"id": "C108", "title": "A displayed name leads to the symbol it is displayed for", "statement": "The name that is displayed for a symbol (in messages, by %flow deps, by %flow code, in the schedule for the frontend, and in the statement recorded when a widget changes), read as a Python expression, is the reference to that symbol; two symbols that are reached in different ways have different displayed names.", "quantifier": "all symbols: any depth of attributes and subscripts, all names and integers", "why_tests_cant": "ranges over all nestings of containers and all names; tests look at a few names", "anchors": ["core/ipyflow/data_model/scope.py:493-510", "core/ipyflow/data_model/namespace.py:178-184", "core/ipyflow/data_model/namespace.py:228-239", "core/ipyflow/data_model/symbol.py:1196-1199"]}
{"id": "C109", "title": "Turning the capture off and on loses nothing", "statement": "While the debugger is attached, the recorded dependencies of all cells stay as they were and no schedule is computed; when it is disconnected, the capture is as it was before. However the capture is turned off and on, by the debugger or by %flow off and %flow on in cells, a cell lists a parent exactly when the parent lists it as a child.", "quantifier": "all sessions: any runs, uses, switches and debugger requests in any order", "why_tests_cant": "ranges over all interleavings of runs with switches, including switches in the middle of a run", "anchors": ["core/ipyflow/kernel/kernel.py:120-135", "core/ipyflow/shell/interactiveshell.py:394-459", "core/ipyflow/shell/interactiveshell.py:676-702", "core/ipyflow/line_magics.py:196-209", "core/ipyflow/comm_manager.py:136-146"]}
{"id": "C110", "title": "Which cell last updated a variable", "statement": "Asked for the cell that last updated a variable, the kernel names the cell whose run assigned it last, under the id by which that cell is known now, however many cells ran or were renamed since. When the frontend reports that a variable was set behind the kernel's back, the report is accepted exactly if the object is another one, and the variable is then attributed to the cell that was run last. Nothing is said about variables never assigned, or deleted.", "quantifier": "all sessions: any runs, assignments, deletions, renamings and requests in any order", "why_tests_cant": "ranges over all histories, of any length, between the assignment and the request", "anchors": ["core/ipyflow/comm_manager.py:376-421", "core/ipyflow/data_model/cell.py:490-520", "core/ipyflow/data_model/symbol.py:316-321"]}
