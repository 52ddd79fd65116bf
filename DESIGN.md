# Formal model of ipyflow: design

## Shape of the development

`rocq/theories/` holds, per area, up to four kinds of file:

* `*Model.v`: Gallina functions that mirror the Python/TypeScript functions,
  branch by branch. Every definition cites the file and lines it models and
  says what it leaves out. No proofs.
* `*Spec.v`: small independent specifications (reachability, order,
  "what Python does") that do not mention the model's helpers.
* `*Proofs.v`: lemmas.
* `*Props.v`: only the property theorems, each
  followed by `Print Assumptions` and by a concrete `Example` that
  meets the hypotheses.

Conventions:

* Python dicts are insertion-ordered association lists. Assignment to an
  existing key updates in place, a new key goes to the end.
* Python sets are lists. The list order stands for the arbitrary iteration
  order of a set. Theorems are either order independent or are stated for every order.
* Exceptions are values (`result`/`option`), never totalised away: a `KeyError` or
  `AttributeError` in the code is an error value in the model.
* Loops whose termination is not structural take fuel. Running out of fuel
  is a separate error value, and a theorem shows it is never returned when
  the fuel is at least an explicit bound.
* If the English property is false of the code, the development contains a
  theorem `..._refuted` with a concrete witness and a theorem `..._partial`
  for the strongest true restriction found. The manifest status is then `partial`.

## Trusted base

* Coq 8.16.1's kernel (and `coqchk`).
* `Print Assumptions` is printed under every property theorem: it says "Closed under the
  global context" for all of them. So no theorem depends on any axiom. (The checker of the whole
  build also lists seven parameters of `Coq.ssr.ssrunder.Under_rel`. They belong to a library
  module of Coq that gets loaded with `lia`; no theorem uses them.)
* The hand translation from Python/TypeScript to Gallina. It is not
  machine checked. Citations in the model files make it reviewable.

Not modelled anywhere: CPython and IPython themselves, pyccolo
instrumentation (which events fire when), threads, the Jupyter transport,
rendering/CSS code in the frontend, persistence of pickled values.

## Plan per property

| id | modelled | how proved |
|----|----------|------------|
| C01 | `Timestamp` globals and `offset` as a program tree with raises | induction on the tree |
| C02 | tuple comparison of timestamps | order laws by case analysis and `lia` |
| C03 | cells as versioned records with parent/child dicts, ops = exec, add edge, finish, init | invariant over op lists |
| C04 | same model | invariant |
| C05 | same model | invariant |
| C06 | `_handle_memoization` with the set object shared between caller and store, and the same function without sharing | refutation by witness, partial theorem for the unshared variant |
| C07 | `update_id` | relational statement old graph / new graph; refutation for old versions |
| C08 | `_make_slice_helper` recursion with closure set, version chains | DFS invariant, soundness + completeness against inductive reachability |
| C09 | same | induction on reachability |
| C10 | sort by timestamp | permutation + sortedness, extensionality of closure |
| C11 | fuel bound; error value for missing `prev` | measure; exact crash condition; refutation for unconditional claim |
| C12 | interaction-tree statements over a flat store, tracker recording last writers | simulation between full run and slice run |
| C13 | grouping and text assembly | list lemmas |
| C14 | `_process_memoized_seeds` | set equality |
| C15 | registry dicts and `create_and_track` | invariant over op lists |
| C16 | `set_cell_positions` | partial + refuted |
| C17 | fixpoint loop | monotone iteration, least fixpoint, order independence |
| C18 | same | well-founded induction |
| C19 | checker pipeline | invariant |
| C20 | links loop | partial (no self links) + refuted |
| C21 | `to_json` maps | list lemmas |
| C22 | directional parents and filtering | list lemmas |
| C23 | `UpdateProtocol` with seen-set | DFS invariants, fuel bound |
| C24 | `update_deps` | invariant over op lists |
| C25 | `_traverse` | closure correctness |
| C26 | visitor on a statement language with branches, loops, assignments | soundness wrt. path semantics |
| C27 | call expansion | refuted, with a partial for acyclic calls |
| C28 | value trees, comparables | partial + refuted |
| C29 | namespace dict and list handlers | refinement to Python lists; refutations |
| C30 | matching generator | partial + refuted |
| C31 | handler table | case analysis over op lists |
| C32 | content update loop | list induction |
| C33 | greedy matching | invariant |
| C34 | config state machine | invariant over command lists; refuted for incremental/schedule |
| C35 | tag dicts | partial + refuted |
| C36 | `store.ts` closure | DFS invariant |
| C37 | topological numbering | induction |
| C38 | reactive round state machine | measure over message sequences |
| C39 | watchpoint list | list lemmas |
| C40 | handler-type rewriting | case analysis |
| C41 | tee stream state machine | invariant |
| C42 | debounce timers | invariant over event traces |
| C43 | argument positions and call binding | spec of Python binding |
| C44 | DAG metadata builder | list lemmas |
| C45 | equality | refuted (transitivity) + partial |
| C46 | scopes and namespaces by id, lookup in both | induction on the chain of scopes against Python's rule; refuted for class bodies |
| C47 | statement-level slices printed with the statements' text | refuted by a witness |
| C48 | readiness of cells from the checker's output | exact characterisation |
| C49 | `make_memoize_comparable`, recording and searching | totality theorem for acyclic values, refuted for others |
| C50 | closing of a round | case analysis; refuted for lazy mode |
| C51 | same as C26, what is assigned | induction on the visitor's depth; refuted for reads of the assigned name, `:=`, exception names |
| C52 | the visitor that builds references, chain resolution | induction on the expression against an evaluation relation; refuted for `x[-i]`, `x[i+1]`, `(a or b).h`, `f()().h`, `d.a` beside `d['a']`, `x[1]()` |
| C53 | where stores go, symbol tables of scopes | case analysis against Python's rule, induction on nesting; refuted for nonlocal names bound further out, in methods, in functions defined twice |
| C54 | tables of stale parents in frontend.py over any sequence of checks | loop invariants against a relational specification; composed with C36 |
| C55 | `aliases`, `namespaces` and the scopes' dictionaries under every operation that touches them | invariant over operation lists; two refutations |
| C56 | `mark_garbage`, `collect_self_garbage`, `gc` | marks = least set of a rule system; history invariant; two refutations |
| C57 | `is_waiting`, `is_waiting_at_position` with its cache, sequences of questions | search = least fixed point; cache invariants; three refutations |
| C58 | the tracer's call stack, depth counters and switch beside the interpreter's frames, as a step function over events | invariant over event lists; re-synchronisation for every history; five refutations |
| C59 | definition and call as records of names and expressions; matching and symbol creation branch by branch | exactness against Python's binding rules for ordinary signatures; soundness for any call; five refutations |
| C60 | expressions as trees; the visitor that resolves right-hand sides, branch by branch | for fine expressions, by induction on the expression: resolved iff read by Python's evaluation; refutations for the other shapes |
| C61 | as C60, with the uses recorded on the way | same induction: every variable taken is recorded, nothing unread is |
| C62 | references with the symbols they resolve to; the loop over the cell's references and the worklist of called functions | invariant of the worklist; exactness against an inductive definition of which functions run; termination on finite programs |
| C63 | as C62, with the unresolved references | same invariant; refuted for positional-only parameters |
| C64 | as C62, with the flags for reactivity that are changed on the way | same invariant; exactness against inductive definitions of reactive calls |
| C65 | as C62, with the uses recorded | same invariant |
| C66 | the visitor that lists a statement's targets with the expressions they come from, and how each is recorded; beside it an evaluator for statements with := | invariant over sessions: the table against the log of bindings; refuted for the places the visitor does not look at, and those it looks at too eagerly |
| C67 | as C66, with what a right-hand side resolves to | noninterference by induction on expressions, for a set of names closed under recorded dependencies; upper bound; refuted for order, siblings, while loops, class keywords |
| C68 | the candidates on the lexical call stack, the list of calls and the flag for a pending result, as an event machine; programs as trees of calls with callbacks and exceptions | mutual induction over expressions, arguments, bodies and blocks; refuted for calls that raise |
| C69 | the standard handler and the annotated ones of `base_handlers.py` as lists of calls of `update_deps` | exact characterisation of the symbols marked; composed with C68; refuted for `dict.pop` and the like, for calls that raised, and for upserts without a module |
| C70 | `resolve_external_call` and the registration of handlers | lookup against the nearest annotated class; registration by induction on the annotations; refuted for shared functions and for bound methods |
| C71 | `SymbolRef.gen_resolved_symbols` and its live version, `ResolvedSymbol` | exact characterisation by positions of marks in the reference; refuted for `$x.$:y` |
| C72 | `_handle_reactive_store`, the sets it fills and all that empties them, as a machine over histories | one store: induction over the parts of the target; session: induction over the history; refuted within one run |
| C73 | `cascading_reactive_cell_num` over the graph of namespaces and the bumps in `update_deps` | depth-first search invariant; completeness and soundness against an inductive definition; refuted for siblings |
| C74 | `refresh`, `_take_timestamp_snapshots`, `timestamp`, `_compute_namespace_timestamps`, `_get_timestamps_for_version` over histories | induction over the history and one invariant for the shared depth-first search; refuted for variables without a time of their own |
| C75 | the same, with versions | snapshots equal the list of writes for plain variables; last write by a bound for parts; refuted for writes of parts |
| C76 | `update_usage_info`, `get_namespace_symbols` | exact set of new dependencies and dictionary entries; refuted for the version noted for a static use |
| C77 | `get_type_annotation` and its helpers, with `typing`'s `==`, `Union` and cache | induction over values; set order and cache quantified over |
| C78 | `make_annotation_string` | grammar with a meaning, shown unambiguous; refuted for nested classes, classes named like built in ones, and respelled aliases |
| C79 | `_typechecks`, `_build_typecheck_slice`, `invalidate_typecheck_result`, `update_obj_ref` over histories | invariant between two checks: discarded or nothing that matters has changed; refuted for edits, types of contents, two rebindings |
| C80 | `_patch_tracer_filters`, `_patch_pyccolo_exec_eval`, `inner_tracing_context`, transformer contexts, with faults at any point | every context restores: attributes stay or become explicit with the value they inherit; refuted for a tracer before one derived from it |
| C81 | same model; a cell that appends to a list of transformers | proved with dataflow off, refuted with it on |
| C82 | `_tracing_context`, `_restore_meta_path`, `cleanup_tracers`, `register_tracer` over histories of runs | invariant between runs and while running; refuted for entries put in front, faults, `%%capture` first, registration with dataflow off |
| C83 | `_ipyflow_run_cell` with faults at any point | case analysis over faults; refuted for faults before the cell and for interrupts |
| C84 | `to_ast` with its cache, all places that override the tree, `_recompute_ast_for_cells`, over histories | invariant: the tree of every cell that is not spoiled is that of the text it was made for; refuted for held back and reused runs |
| C85 | `_get_content_for_memoized_run`, `_handle_memoization`, table of runs shared by all cells | invariant that recorded runs have sound trees and one record per statement; refuted if texts changed in between |
| C86 | `before_run_cell`, `Out` | invariant on `Out` at the counter of each current cell; forcing by induction over what is not a run; refuted without ids and after quiet reuse |
| C87 | load, unload, `inject`, `_maybe_eject` of shell and kernel, beginnings and ends of runs as events, in any order | invariant relating class and last command for all histories; simulation with the expected list of tracked runs for orderly ones; refuted otherwise |
| C88 | both counters, `create_and_track` with its repair | for every run with history; lookups by the simulation; refuted for runs inside of runs |
| C89 | `_current_cell_by_cell_id`, `active_cell_id` | simulation; refuted for runs inside of runs |
| C90 | placeholder ids and the counter after `inject` | invariant relating the counters; refuted if loaded by a run without history |
| C91 | `filter_hidden_frames` on a heap of traceback objects | induction over the list while it is changed; refuted for user paths that contain "pyccolo" |
| C92 | `_handle_output` over histories of runs | induction over histories; refuted with dataflow off in between and for data without length |
| C93 | `to_function` on the lines of a text, the analysis of C26, calls with arguments, evaluation of a fragment with local and global variables | simulation of the function by the cell, with the events that the analysis is sound for; refuted for positions, `None`, last lines, names of modules, other callers |
| C94 | `uninstrument` on a heap of functions, global dictionaries and closure cells | measure for the depth; induction over the tree of uses for cleanness; refuted for recursion, sharing, closures, failing texts |
| C95 | the same, with later assignments | invariant: the copy unfolds to the same tree to any depth; refuted after later assignments |
| C96 | `create_and_track`, `add_data_dep` for statements, deferred static parents, the edges of the slicing mixin, reuse of parents by skipped runs, as a monad of effects that may stop half way | refinement of all fitting histories to a set of facts told by times; refuted for reused runs of statements with parents |
| C97 | `_observe_widget` and the branch of `create_and_track` that replaces | loops over edges with an invariant that exchanges one statement for another; refuted after the text was edited, and after reused runs |
| C98 | the same, seen by the slicing of C08 | closure over the facts, exact condition for completing; refuted: the statement that makes the widget is missing |
| C99 | `attrsub_tracer`, `_clear_info_and_maybe_lookup_or_create_complex_symbol`, `after_complex_symbol`, `before_call`, `after_call`, driven by an evaluator that emits the events in their order | mutual induction over expressions, chains and arguments against an evaluator without a tracer; refuted for chains inside later slices, for `None` and after a caught exception |
| C100 | the saved data that `before_call` takes for what is called | the same induction, exact list of calls; refuted for calls inside later slices |
| C101 | the store branch of `attrsub_tracer`, `resolve_store_data_for_target`, `get_earliest_ancestor_containing` | induction over targets; characterisation of the search; refuted when the value is found further out |
| C102 | the end of `upsert_symbol_for_name`, `get_namespace_symbols`, the end of `after_stmt` | invariant over runs; exact characterisation for plain variables by induction over runs; refuted for containers and attributes |
| C103 | `register_annotations_from_source`, `handle_string_annotation`, `register_annotations_directory`, `register_annotations_file`, `compile_classes`, `compile_functions`, `compile_and_register_handlers_for_module` | invariant over sessions against the flattened list of declarations; refuted for single files, repeated classes, docstrings and inherited methods |
| C104 | `create_if_not_exists_module_symbol`, the import part of `_make_lval_symbols_old` | simulation of sessions of imports against Python's binding rules; refuted for modules' own names, dotted imports after aliases and modules with another `__name__` |
| C105 | `_handle_skipped_sub_statements`, `after_module_stmt`, `resync_if_necessary`, the end of a cell | invariant over the events of a cell; refuted for calls, deletions, raising statements, changes that keep the length, and empty lists |
| C106 | `_resolve_symbol_type`, `_upsert_symbol_for_name_inner`, `update_stmt_node`, the copy of call scopes in `update_deps` | invariant over histories of bindings; refuted for functions rebound to other things, names of modules, imports over variables, functions that come from no variable |
| C107 | `_make_slice_widget`, `_get_slice_text_from_slice` on characters; a browser's reading of the page as the specification | round trip through escaping, attribute, percent-decoding and string literal, by induction on texts; refuted for quotes, percent signs, characters outside of the basic plane, tags |
| C108 | `full_namespace_path`, `make_namespace_qualified_name` on characters; a reader of references as the specification | the reader inverts the display, by induction on the steps; refuted for string keys and for objects first bound in another way |
| C109 | the switch of the capture in `do_debug_request`, `%flow on`/`off`, `_ipyflow_run_cell` and `after_run_cell`, over the session model | induction on the actions, through the invariant of sessions; refuted for `%flow off` in the middle of a run, `%flow on` under the debugger, and a capture that was off before |
| C110 | `handle_get_last_updated_cell_id` and `handle_upsert_symbol` over the session model | the execution log of C15: an entry stays in it under the current id of the cell; refuted when the counter is moved back |

## Areas

What each area models, what it leaves out, and the conditions of its theorems.

### Timestamp (C01, C02)
`timestamp.py`. Offsets are programs with raises and nested `with` blocks.

### Session (C03-C07, C15)
`slicing/mixin.py` edges and `cell.py` registry. Events: execute, replay of a memoized run, add or
remove an edge, finish, rename, untraced run. A history brackets events: one cell runs at a
time. `any_session` allows every bracketed history. `restricted` (in `SessionSpec.v`) adds: a counter
fix-up moves forward; a self use is recorded only while the cell executes; metadata does not
list a cell as its own parent; a memoized replay or an untraced run happens in a run without
parents of its own; a new id is unused and both contexts are enabled while renaming.
Refutations stand next to the partial theorems.
Not modelled: which edges the tracer decides to add (they are arbitrary events).

### Slice (C08-C11, C13, C14, C47)
`slicing/mixin.py` slices over versioned cells and statements. `SliceSession.v` shows that the
session model yields worlds that satisfy the hypotheses. Texts are strings.
Not modelled: the formatting by `black`, and the HTML of the widget.

### Pos (C16)
`set_cell_positions`, `_override_position_index`. Programs with raises.

### Front (C17-C22, C48)
`frontend.py`. The analysis of one cell (`check_and_resolve_symbols`) is an input function.
Conditions: cells are registered under their id, positions are distinct.
Not modelled: unsafe order usages, phantom cells, the three stale-parent maps.

### Replay (C12)
Cells are deterministic programs over flat variables (interaction trees). Each access
is its own statement. Conditions: reads see the current version (`reads_current`) and
edges point back in time (`one_way`).

### Sym (C24, C25)
`symbol.py` `update_deps` edges, garbage collection, closures.

### Upd (C23)
`update_protocol.py`. The world (aliases, namespaces, containment) is an input. Conditions: what is
referred to exists (`closed`), aliases and namespaces fit together (`coherent`).
Not modelled: the refresh of aliases and their timestamps.

### Memo (C28, C49)
`make_memoize_comparable` on numbers, strings, bytes, lists, tuples, sets, dicts, arrays and
opaque objects, with identity, sharing and cycles; recording and searching of runs.
Arrays are compared by an arbitrary function. Fuel stands for the stack.
Not modelled: functions, classes, widgets, numpy scalars.

### Store (C36, C37)
`store.ts` closures, the topological order, sorting, and the slice shown by `index.ts`.
JavaScript's `sort` is an insertion sort here: it is stable, and the comparator is consistent under the
theorems' conditions. Condition for pull mode to end: parents are not circular (`no_circles`);
for its completeness: every parent has its own row (`parents_listed`), the two nested maps
agree (`maps_agree`).

### Round (C38, C50)
The handler of `compute_exec_schedule` messages in `index.ts`. Messages are arbitrary: sets, graph,
notebook and mode may change with each. Cells deferred until the connection (`deferredCells`) are
modelled; the theorems are about rounds without them. Not modelled: toggling the mode after an
alternate-mode execution, highlighting, saving of metadata.

### Live (C26, C27, C51)
`ComputeLiveSymbolRefs` in `live_refs.py` with the chains of `symbol_ref.py`, on a syntax tree with the
statements and expressions of Python: assignments of all kinds, functions, classes, branches, loops
with `else`, `with`, `try`, comprehensions, `lambda`, `:=`. Against it stands a semantics of
execution paths (`LiveSpec.v`): which globals are read and written, in order, where every
expression may raise, every test may come out either way, and calls of functions that the cell defines
may run their bodies. The cells of the soundness theorem are delimited by `fine`; each restriction has a
refutation. Fuel stands for Python's stack; `ends` says that all larger fuel gives the same.
Not modelled: reactive `$` names, `any_order` mode, `match`, star imports, `global`, `async`.

### Comm (C31-C33)
`comm_manager.py`: dispatch of requests with arbitrary handlers, the dynamic handler that registers
handlers, `_recompute_ast_for_cells` with arbitrary parse and check functions that may raise,
`handle_compute_exec_schedule` around arbitrary parts, and the matching of placeholders.
Conditions: the cached tree of a cell belongs to text that parses (`parsed`), ids of the notebook are
not placeholders (`apart`), positions and numbers of executions are distinct.
Not modelled: what the other handlers do (`upsert_symbol`, `bump_timestamp`, ...).

### Elem (C29)
The integer keys of a list's namespace (`namespace.py`), the list handlers and `del x[i]`. The lists are
Python's, with an arbitrary `==`. Statements may make several calls; handlers run at the end of
the statement on the list as it is then. The theorems are about one call in a statement, or any number of `append`
and `extend` calls. Not modelled: slices
(`x[a:b] = ...`, `del x[a:b]`), `sort`, `reverse`, `x += y`, calls in loops (a statement is traced once per
execution of a cell) and the propagation of updates, which belongs to Upd.

### Unpack (C30)
`match_container_obj_or_namespace_with_literal_nodes`, the storing of unpacking targets (nested, with extra
dependencies for calls) and `after_literal`. Python's rule for unpacking is the relation `unpacks`; what
Python binds is `assigns`. The world (namespaces, objects of symbols) is an input. Conditions:
containers that are taken apart are tracked (`tracked`). Not modelled: `for` targets, `enumerate`/`zip`,
starred targets that are not names, targets that are attributes or subscripts.

### Conf (C34)
The enums with their defaults, the constructor's and `initialize`'s treatment of settings, and the
`%flow` magic from the line that the user types to the setting, with Python's string operations on ASCII.
Commands that change no setting are an arbitrary function. Not modelled: settings that no command changes,
the readiness of cells that `%flow mode` resets, files that output is redirected to.

### Tag (C35)
The cell registry as far as tags need it: objects with identity, their id, counter, tags and previous version;
the index as CPython sets that keep the hash with which a member was added, for an arbitrary hash function;
`create_and_track`, `update_id`, `%flow tag`, `%flow slice --tag $t`, `clear` and the cells that a tagged cell forces
to react. Not modelled: parsing of the magic's arguments, edges and positions (see Session and Pos).

### Watch (C39)
The list of watchpoints with its own and its inherited methods, `passing` as the loop over a list that predicates may
change, and the path from a finished statement to the debugger. A predicate is an arbitrary function of its arguments
and the list: it may raise and change the list. Not modelled: what pyccolo does with an exception that a handler raises.

### Intr (C40)
`InterruptTracer` over an arbitrary hierarchy of types that satisfies what is true of Python's (record `python`), with
the counters of interrupts per clause. Not modelled: pyccolo's passing a bare `except:` as BaseException.

### Out (C41)
`Tee`, `StdstreamProxy`, `CaptureOutputTee`, `TeeDisplayPublisher`, `OutputRecorder` and the two places of the shell that
use them. All captures ever made, and all that the user sees, are part of the state. The recursion of proxies is run
with a limit, as Python does. Not modelled: `flush`, `set_parent`, `__setattr__` of the proxy, the displayhook, a
shell that is absent, and streams that raise.

### Deb (C42)
`debounce` and `_debounced_exec_schedule` as an interleaving of one calling thread and one thread per timer, with
discrete time; `threading.Timer` as CPython implements it. Steps are single accesses of the shared state; threads may be
arbitrarily late. Not modelled: calls from more than one thread, and what is computed (see Comm).

### Anno (C43)
`AnnoModel.v` models the compilation of annotations into handlers (`annotations/compiler.py` 33-173, 223-237) and what a
compiled handler does at a call. Arguments are lists of optional symbols, as the tracer hands them over. `AnnoSpec.v` says
which argument Python's calling convention binds to a parameter (by position or by keyword). Not modelled: starred
arguments in a call, the finding of modules and classes, string annotations that name a handler class.
Proved: for each legal call exactly the bound argument's symbol is updated, and nothing if the parameter is not supplied.
Refuted: first parameters that are not called self, methods called through the class, starred parameters, self in tuples.

### Dag (C44)
`DagModel.v` models `create_dag_metadata` (`experimental/dag.py` 10-89) with `get_top_level`, `imported_module` and
`get_import_string` (`data_model/symbol.py` 453-537). The tables of usages are arbitrary data. Cell numbers are shifted by one.
Type annotations are opaque. `DagSpec.v` says what a variable at top level holds and what is a use, from the tables alone.
Proved: the export is exactly what the usages say; parents and children are inverse; inputs are outputs of parents; it
succeeds on sound tables. Refuted: self-containing objects exhaust recursion; duplicate names in an import statement; cycles.

### Ref (C45)
`RefModel.v` models atoms, symbol references, their equality, hashing and canonical form (`analysis/symbol_ref.py` 87-160,
325-426, 485-516; `utils/mixins.py` 5-6) and Python sets of references as lists with stored hashes. Hash functions of values and
tuples are arbitrary functions that fit Python's equality. Scopes and source ranges are opaque. Atoms are not mutated after hashing.

### Scope (C46, C52, C53)
`ScopeModel.v` models scopes and namespaces by id, lookup in both (`data_model/scope.py` 91-134, `data_model/namespace.py` 240-285),
the resolution of chains (`data_model/scope.py` 151-192), the visitor that builds a reference from an expression
(`analysis/symbol_ref.py` 32-84, 183-319), where a store of a plain name goes (`tracing/ipyflow_tracer.py` 510-542) and which symbol
table a scope gets (`data_model/scope.py` 101-114, `data_model/statement.py` 290-300). `ScopeSpec.v` states Python's rules for reading
and storing names, and evaluates expressions over objects with attributes and items. Namespaces are assumed to mirror
objects (`mirrors`); that tracing keeps them so is not modelled here. Not modelled: reactive marks of atoms, the resolution of
stores to attributes and subscripts, name mangling, `skip_cloned_lookup`.

### Stale (C54)
`StaleModel.v` models `_compute_stale_parents` and `_compute_stale_parent_makers` (`frontend.py` 254-304), which are run for each checked
cell (456-457), `traverse_up_namespaces` (`data_model/symbol.py` 614-619), `directional_parents` for the in-order setting and the
order by position (`data_model/cell.py` 189-198, 435-437). Each check sees an arbitrary state; what checking itself records is
modelled elsewhere (Live, Session). `StaleSpec.v` says in terms of usages, positions and writes when a parent is stale.
Proved: after any sequence of checks the tables hold exactly what was stale at the checks, they agree with each other, no check
fails on sound states; composed with C36, the frontend runs the stale parents when it pulls updates. `C54_last_partial`
assumes that only usages are added between checks.

### Alias (C55, C56)
`AliasModel.v` models `aliases` and `namespaces` (`flow.py` 181-182), `update_obj_ref`, `_handle_aliases`, `_refresh_cached_obj`,
`mark_garbage`, `collect_self_garbage`, `resync_if_necessary` (`data_model/symbol.py` 674-758, 792-817, 1404-1444), `mark_garbage`,
`put`, `fresh_copy`, `_remap_sym`, deletions and `transfer_symbols_to` of namespaces (`data_model/namespace.py` 158-175, 221-227,
287-423), the inner `_upsert` and deletion of scopes (`data_model/scope.py` 367-449), `gc` and `all_symbols` (`flow.py` 616-648).
What objects have as attributes and items is an argument of each operation. Not modelled: widgets, cached type checks, reference counts,
`is_new_garbage` for anything but arrays (it is False in the code), and ids of objects that Python gives out again after the object has
gone: an id stands for the object. `AliasSpec.v` has the relations (`listed`, `holds`, `bound`, `placed`) and the rules for what goes.
Proved: `C55_exact`, `C55_bound`, `C55_space` for all histories that complete. `C55_aborted_refuted`: an exception between
`update_obj_ref` and the refresh in `update_deps` leaves the symbol listed under a former object for good.
`C55_duped_refuted`: `UpdateProtocol.__call__` extends the set of the table in place (`|=`), so other symbols get listed under the object.
`C56_mark`, `C56_gc`, `C56_total`: marking and collecting are exact and terminate. `C56_cycle_refuted`: a list that contains itself is
never collected. `C56_variables_partial` needs that no variable is stored again between its deletion and the next collection, and that
deleted symbols are not given new objects; `C56_refuted`: `del x; x = 2` in one cell loses the new `x` when the cell ends, because the
symbol of the old one pops the name. Seen but not modelled: a memoized run may call `update_obj_ref` on a symbol that was collected,
which lists it again without a name.

### Wait (C57)
`WaitModel.v` models `is_waiting`, `is_shallow_stale`, `_is_ready_or_waiting_at_position_impl` and `is_waiting_at_position` with the cache per
symbol (`data_model/symbol.py` 415-416, 937-998). Timestamps are the counters of their cells, as nothing else of them is read. The state of the
session (symbols, positions, settings) is an argument of each question and arbitrary. `WaitSpec.v` defines waiting and waiting at a position
inductively. Proved: `C57_waiting`; `C57_sound` (yes is right for any sequence of questions); `C57_exact` (also no, where no answer depends on
itself); `C57_first` (the first question after a cell was run is answered rightly on any graph); `C57_total`. The sequences are such that
nothing changes as long as the counter is the same. `C57_cycle_refuted`: the False entered to stop loops is seen by other symbols whose
answers are then cached, so `a = b + c; b = a` gives wrong answers depending on the order of questions. `C57_precheck_refuted`: the
precheck asks when the cell already has its counter (`shell/interactiveshell.py` 560-595), so its answers are still used after the cell has
changed the symbols. `C57_endless_refuted`: after `%flow clear` a list that contains itself makes `is_waiting` recurse for ever.

### Trace (C58)
`TraceModel.v` models how `DataflowTracer` knows which frame runs: the depth counters of `StackFrameManager`, `call_stack` with the fields
used to find a frame again, the call and return transitions, switching tracing off and on, `before_stmt`, `after_stmt`, `after_call`
(`tracing/ipyflow_tracer.py` 85-143, 333-498, 1258-1282, 1501-1530, 1582-1665, 1727-1796). The interpreter's own frames are kept beside it. Which
events come is pyccolo's business and assumed: call, return and exception events from instrumented files while tracing is on,
statement events always; loop guards, which suppress statement events, are not modelled. Whether a call is "the same as last time" is
an arbitrary flag of the event. Scopes are named by the frame they were made for. Everything else the handlers do is left out.
Proved: `C58_scope_partial`, `C58_recorded_partial`, `C58_resume_partial` for all histories within `tame` and if no frame below the
notebook's counts as the user's; `C58_resync` for every history. Refuted otherwise: `C58_exit_refuted` (an exception leaves a traced frame
while tracing is off and `__exit__` of a notebook class runs next: its assignments go to the scope of the frame that was left);
`C58_header_refuted` (`if a:` with a notebook-defined `__bool__` seen before: the body of `__bool__` is recorded as global code);
`C58_handler_refuted` (`before_stmt` restores the depth 0 at top level, line 1601 has no `empty_stack_call_depth`: the next call
counts as the frame of a top level statement, so its assignments become global variables); `C58_base_refuted` and
`C58_resume_refuted` (`user_call_depth` of the top level is 1 by definition, but asyncio, tornado and runpy frames are counted when the frame
is looked up again: a handler gets the scope of the function that raised, and tracing does not resume within the statement).

### Args (C59)
`ArgsModel.v` models `get_definition_args`, `_match_call_args_with_definition_args` and `create_symbols_for_call_args`
(`data_model/symbol.py` 819-878, 910-933). A parameter is matched with the expression, not with the symbols that expression loads; which call
node is found (879-909) and the cases where none is are left out. `ArgsSpec.v` states Python's binding rules.
Proved: `C59_partial` (ordinary parameters; parameters with defaults are given by keyword and, if there are any, no others are),
`C59_sound_partial` (every call, no positional-only parameters: names exact, no foreign dependency). Refuted otherwise:
`C59_default_refuted` (a positional argument for a parameter with default is lost, the unused default takes its place),
`C59_keyword_refuted` (one keyword-only argument, or a keyword for a parameter without default beside ones with default, and every
match is dropped), `C59_posonly_refuted`, `C59_self_refuted` (arguments shifted by one), `C59_variadic_refuted`.

### Rval (C60, C61)
`RvalModel.v` models `ResolveRvalSymbols` and `resolve_rval_symbols` (`tracing/symbol_resolver.py` 39-219, 275-293) as one recursive function
over expressions, with the list of symbols, the names killed by comprehensions and the uses recorded on the way; the tracer's table of loaded
symbols (`ipyflow_tracer.py` 500-508, 616-632) and the symbol table are parameters, as is the answer of the static analysis that steps in if
nothing is found. `yield`, `await`, named expressions, assignment statements, and starred dict items are left out. `RvalSpec.v` says what
Python's evaluation reads (`reads`), with comprehension scoping. Proved for fine expressions: `C60_partial`, `C61_partial`;
`C60_argument_partial` for arguments of library calls. Refuted otherwise: `C60_index_refuted` (the variable i in `a[i]`),
`C60_base_refuted` (`f(x).a.b`, `(p + q).a`), `C60_curried_refuted` (`f(x)(y)`), `C60_iterable_refuted` (`[x for x in x]`),
`C60_star_refuted`, `C60_argument_refuted` (`append(x + a[0])` loses x), `C61_star_refuted`.

### Chain (C62, C63, C64, C65)
`ChainModel.v` models `get_live_symbols_and_cells_for_references` and `_compute_call_chain_live_symbols_and_cells` (`analysis/live_refs.py`
487-660) with the properties of `ResolvedSymbol` (`analysis/resolved_symbols.py` 80-182). Which references are live in a body (C11) and which
symbols a reference resolves to (C38) are given; facts about symbols are tables; the flags for reactivity, which the loop changes, are explicit.
Classes have no body here, as in the code (constructors are not followed). `ChainSpec.v` defines which functions run and what is read.
Proved: `C62_total` (the search ends for every finite program), `C62_partial`, `C62_cells_partial`, `C62_span_partial`, `C63_partial`,
`C64_partial`, `C65_partial`; all but the first and third assume that functions found under local names were defined when this cell ran.
Refuted otherwise: `C62_local_refuted` (two cells call f, which calls a function defined inside it: what that one reads is live only in
the cell that ran last), `C63_posonly_refuted` (a cell that calls `def f(p, /): return p` waits for p for ever).

### Bind (C66, C67)
`BindModel.v` models `GetSymbolEdges` (`analysis/symbol_edges.py`), `stmt_contains_lval` (`analysis/utils.py` 10-48), `_make_lval_symbols`,
`_make_lval_symbols_old`, `_handle_store` for names and `handle_dependencies` (`data_model/statement.py` 523-574, 592-715), and the part of
`update_deps` that decides which dependencies stay. One scope; targets are names; lambdas resolve to nothing (in the code: to a symbol of
their own); comprehensions, try, match, async with, starred imports and imports with a dot are left out. `BindSpec.v` has an evaluator with
uninterpreted operators, runs of statements (loops go around at most once) and sessions. An if, a with and the head of a for loop are
recorded when the body is entered, everything else at its end (`ipyflow_tracer.py` 1583-1599).
Proved: `C66_partial` (exact, for := where it is looked for and surely evaluated), `C66_seen_partial` (complete, also where it may not be
evaluated), `C67_partial` (noninterference), `C67_only_partial`, `C67_kept_partial`.
Refuted: `C66_unseen_refuted` (`y = (x := 5)` leaves x without a symbol; also in for, with, class keywords, annotations),
`C66_assert_refuted` (`def f(x=(y := 5))` fails an assertion and f has no symbol), `C66_untouched_refuted` (`x: int` marks x as updated and
forgets its dependencies; so does `c and (x := 1)` when c is false), `C66_while_refuted`, `C67_order_refuted` (of `(x := a), (x := b)` the
first is recorded last), `C67_sibling_refuted`, `C67_while_refuted` (`total += n` in a while loop with := forgets what total depended on),
`C67_keyword_refuted`.

### Ext (C68, C69, C70)
`ExtModel.v` models `resolve_external_call` (`tracing/external_calls/__init__.py`), the handler classes of `base_handlers.py` except what
`NamespaceClear` and list methods do to elements (area Elem) and handlers of single arguments (area Anno), `before_call`, `argument`,
`after_call`, `_resolve_external_call` and the part of `after_stmt_reset_hook` that concerns them, and
`compile_and_register_handlers_for_module`. The handlers of a statement are all run in one environment: what one of them does to the tables
of aliases is not seen by the next. Calls of `update_deps` are recorded, not performed (areas Sym, Upd). Tracing is on throughout, and each
statement finishes at most once. `ExtSpec.v` has programs as trees of calls; a called function or a callback that is traced is a block.
Proved: `C68_partial` (exact if nothing raises), `C68_any_partial` (own arguments, own result if the call returned, at most once, complete for
statements that complete, whatever raises), `C69_method_partial`, `C69_function_partial`, `C69_nothing_partial`, `C69_annotated_partial`,
`C69_seen_partial` (from a program to the marks), `C70_method_partial`, `C70_function_partial`, `C70_registered_partial`,
`C70_registered_function_partial`, `C70_left_alone_partial`.
Refuted: `C68_raised_refuted` (the handler of a call that raised stays, and takes the next result it sees for its own), `C68_late_refuted`,
`C69_raised_refuted`, `C69_pop_refuted` (`d.pop(k)` marks nothing), `C69_upsert_none_refuted`, `C70_shared_refuted`, `C70_bound_refuted`
(`random.seed`), `C70_module_refuted`.

### Mark (C71, C72, C73)
`MarkModel.v` models the marks of `Atom`, `gen_symbols_for_attrsub_chain`, both versions of `gen_resolved_symbols`, the properties of
`ResolvedSymbol` (`is_mutating` is a parameter), `_handle_reactive_store`, the part of `update_deps` that concerns reactivity,
`cascading_reactive_cell_num` with `max_cascading_reactive_cell_num`, the clearing of the sets when a cell is run, and
`handle_reactivity_cleanup`. Whether an update overwrites, what it gives the current timestamp to and whether a `$$` was among what the
statement read (`u_casc`) are parameters of the update (areas Sym, Upd, Rval). Symbols are not collected. Only references that are not killed
are considered for C71, with all intermediate parts asked for.
Proved: `C71_partial` (exact if no `$:` follows a `$`), `C71_any_partial` (exact otherwise, with what the code does), `C72_store_partial`,
`C72_session_partial`, `C73_complete_partial`, `C73_sound_partial`, `C73_exact_partial`, `C73_total_partial`, `C73_round_partial`.
Refuted: `C71_refuted` (`$x.$:y`: the `$:` is lost), `C72_same_run_refuted` (`$:x = 1; x = 2` in one cell keeps x held),
`C72_overwritten_refuted` (`$x = 1; x = 2` in one cell keeps x stored), `C72_unknown_refuted` (a symbol that was never updated is held without
any `$:`), `C73_sibling_refuted` (`$$x.a = 1` makes `x.b` cascade).

### Vers (C74, C75, C76)
`VersModel.v` models `_get_initialized_timestamp`, `shallow_timestamp`, `timestamp`, `updated_timestamps`, `_compute_namespace_timestamps`,
`_get_timestamps_for_version`, `_take_timestamp_snapshots`, `refresh`, `update_usage_info`, `update_usage_info_one_timestamp` and
`get_namespace_symbols`. The object graph may be different at every event. The searches share one recursion (`visit`). Not modelled: overriding
timestamps of widgets, the lists of cells told of a new timestamp, waiting symbols, what `add_data_dep` does with the dependency (areas Slice,
Dag), the formatting of the slice (area Slice). Whether the cell of a timestamp is visible is a parameter of the use.
Assumed of histories (`ordered`): time does not run backwards, and nothing is written before it is created. `plain`: the variable is written by
refreshes that take snapshots.
Proved: `C74_partial`, `C74_time_partial`, `C74_total`, `C75_plain`, `C75_parts_partial`, `C76_dynamic_partial`, `C76_static_partial`,
`C76_blocked`, `C76_reads_only`.
Refuted: `C74_refuted` (a variable without a time of its own: writes of its parts are left out), `C75_refuted` (`x = …; x.a = 1; x.a = 2`:
`code(x, version=-2)` leaves out `x.a = 1`; `_snapshot_timestamp_ubounds` is written but never read), `C76_refuted` (the version noted for a
static use may be that of a cell that is gone).

### Typ (C77, C78)
`TypModel.v` models all of `data_model/utils/annotation_utils.py`: `_get_contained_type_annotations`, `_resolve_container_types`,
`_resolve_tuple_types`, `get_type_annotation`, `make_annotation_string`; and of the standard library's `typing` (Python 3.10 to 3.13) the equality of
aliases, flattening and removal of duplicates in `Union`, `Optional`, `__args__` and `__name__`. The order of sets and the answer of `typing`'s cache
are parameters (`world`), assumed only to be a permutation and an equal alias (`fair`). Values are finite trees: a list that contains itself, on
which the code recurses until Python's limit, is left out. Texts are lists of tokens; identifiers are not taken apart into characters.
`TypSpec.v` says what it is to have a type (`has_type`, with int accepted for float), to have it precisely (`exact`), and what a text means in a
scope (`means`).
Proved: `C77`, `C77_exact`, `C78_partial` (assuming that the cache does not respell aliases, that `typing`'s names and the classes of the value are in
sight under the names written).
Refuted: `C78_nested_refuted` (`__name__` is written for a nested class, not `__qualname__`), `C78_shadow_refuted` (a notebook class called `int`),
`C78_cache_refuted` (`List[Optional[None, int]]` once `List[Union[None, int]]` is in the cache).

### Chk (C79)
`ChkModel.v` models `_build_typecheck_slice`, `_typechecks`, `invalidate_typecheck_result`, the part of `check_and_resolve_symbols` that notes where
symbols are live, the part of `update_obj_ref` that discards verdicts, `_refresh_cached_obj`, and edits by the comm manager. The type checker,
`type(obj)` and annotation strings are arbitrary functions (annotation strings: area Typ). What is live is an argument of each check (areas Live,
Scope). An exception of the subprocess, which counts as success, is not modelled.
Proved: `C79_open`, `C79_run` (the first check after a run, whatever happened since), `C79_partial` (contents unchanged, at most one rebinding of each live variable, to another class or with the same annotation).
Refuted: `C79_edit_refuted` (an edit of the cell keeps the old verdict), `C79_contents_refuted` (`[1]` rebound to `["a"]`), `C79_twice_refuted`
(`update_obj_ref` clears `cells_where_live` even when it discards nothing, so a second rebinding discards nothing), and in area Typ
`C78_import_refuted` (declarations use `List`, `Dict`, … which nothing imports).

### Run (C80-C83)
`RunModel.v` models `_ipyflow_run_cell`, `_tracing_context` and the context managers in it, `_restore_meta_path`, `cleanup_tracers`,
`ast_transformer_context`, `input_transformer_context`, `dataflow_tracing_disabled_patch`, and `register_tracer`/`deregister_tracer`
as computations on a world that may raise; an oracle says at which calls of code outside the model something raises; a cell is any computation.
Attributes are looked up along a class order, so that patching an inherited attribute is modelled faithfully. Lists of transformers are objects with addresses.
Assumed of pyccolo, whose source is not at hand: `multi_context` nests its managers; `tracing_non_context` turns a tracer on, puts one entry in front of
`sys.meta_path` if asked to, and returns a function that undoes both; `_enable_tracing`/`_disable_tracing` turn a tracer on and off.
Not modelled: `run_cell_async`'s shortcut for silent and empty cells, instances of tracers, `%%capture`'s symbol, logging.
Proved: `C80_partial`, `C81_partial`, `C82_partial`, `C82_guard`, `C82_register`, `C83_partial`.
Refuted: `C80_inherit_refuted` (with a base class registered in front of a derived one, the derived class is left with the base's patched filter, and
gets no events once the base is deregistered), `C81_refuted` (additions to `ast_transformers` go to a temporary list), `C82_front_refuted`
(`sys.meta_path.insert(0, …)` in a cell leaves pyccolo's entry on the path), `C82_fault_refuted`, `C82_capture_refuted` (`OutputRecorder` gets no
callback if the first cell is `%%capture`), `C82_untraced_refuted`, `C83_before_refuted` (UnboundLocalError hides the exception), `C83_interrupt_refuted`.

### Text (C84-C86)
`TextModel.v` models `create_and_track`, `to_ast`, `statements`, `get_memoized_counter`, `get_transformed_memoized_content`, `before_run_cell`,
`_get_content_for_memoized_run`, `_handle_memoization`, the end of `after_run_cell`, `DataflowAstRewriter.visit` as far as it sets the tree of a cell, and
`_recompute_ast_for_cells`, over histories of runs, notifications and checks. Parsing is an arbitrary partial function from texts to lists of
statements. Chosen by the history: whether inputs of recorded runs are unchanged (C28), what the checker finds (C22), what runs compute.
Not modelled: new ids for placeholder cells, repair of the cell counter, contents that consist of nothing but `%%memoize`, one of the two slicing contexts.
`TextSpec.v` says which cells are spoiled: those for which something else than their text was executed when they were last run.
Proved: `C84_partial` (all cells that are not spoiled), `C85_partial`, `C86_partial`, `C86_cause`, `C86_again`.
Refuted: `C84_held_refuted` (after a run that is held back the cell is taken to be `pass` or `Out.get(n)`, until it is edited or executed),
`C84_reuse_refuted` (`_handle_memoization` takes the tree of the run before, not of the run that is reused), `C85_refuted` and `C85_edited_refuted`
(so that dependencies of statements are lost if that text was shorter or longer, or if the reused cell has been edited), `C86_unnamed_refuted` (without
ids from the frontend a run never counts as a repetition), `C86_quiet_refuted`.

### Load (C87-C90)
`LoadModel.v` models `load_ipython_extension`, `unload_ipython_extension` (both files), `inject` and `_maybe_eject` of shell and kernel, `run_cell_async` and
`do_execute` as far as they decide what is tracked and eject, and `create_and_track` with both counters. A session is any list of loads, unloads, beginnings
and ends of runs, so that runs inside of runs, commands outside of runs and runs that raise are included.
Assumed of IPython, whose source is not at hand: `execution_count` goes up at the end of a run that is not silent and keeps its history;
`displayhook.exec_result` is set while code is executed and reset at the end, also at the end of an inner run.
Not modelled: comm messages, `_initialize` (registered tracers), runs whose `before_run_cell` raises, other previous classes than one.
`LoadSpec.v` gives, from the events alone, which runs are to be tracked under which number and id, and which sessions are orderly.
Proved: for all histories `C87_asked`, `C87_end`, `C87_settled`, `C87_native`, `C88_number`; for orderly ones `C87_partial`, `C88_partial`, `C89_partial`, `C90_partial`.
Refuted: `C87_refuted` (loaded and unloaded in one cell: the next cell is tracked), `C87_nested_refuted` (a cell that unloads and then calls `run_cell` ends with an
AttributeError), `C88_nested_refuted` (two cells with one number), `C89_refuted` (a text run inside of a cell becomes the new version of that cell),
`C90_refuted` (the extension loaded by a run without history: the first two cells get the same id).

### Shown (C91, C92)
`ShownModel.v` models `filter_hidden_frames` and `showtraceback` on a heap of traceback objects that are changed in place, with file names as strings, and `_handle_output`
over histories of runs. Not modelled: `_get_exc_info`, what IPython does with the traceback, showing the output again for a run that is held back,
counters of cells (a history is the list of runs of an id).
Proved: `C91_shown`, `C91_again`, `C91_partial`, `C92_own`, `C92_partial`.
Refuted: `C91_refuted` (files in a directory whose name contains "pyccolo"), `C92_disabled_refuted` (a run with dataflow off in between: the long output stays),
`C92_refuted` (a datum without length raises, and the output of the new run is not kept).

### Func (C93)
`FuncModel.v` models `Slice.to_function` on texts given as lines (several statements on a line, comments, statements of several lines with what their last line is when
parsed alone), with `analyze` of `LiveModel.v` for the live references, and the call: binding of arguments, the lines put before the text, local and global names.
Evaluation covers constants, names, operators (arbitrary partial functions), displays, `or`, assignments to names, augmented ones, `if` and `while`; values have no state.
Not modelled: strings of several lines (which indenting changes), calls and attributes, the name of the function, that tracing is off during the call.
`FuncSpec.v` gives what the notebook shows for the text, the fragment, and what names may not clash.
Proved: `C93_partial`, `C93_params_partial` (the parameters are complete, by soundness of the analysis), `C93_distinct`.
Refuted: `C93_order_refuted` (parameters in the order of a set), `C93_none_refuted`, `C93_last_line_refuted` (`a; b` gives `a`, expressions of several lines give `None`,
`x = a; b` and a final comment give no function), `C93_names_refuted`, `C93_globals_refuted` (called from another module; undefined variable that is not read).

### Strip (C94, C95)
`StripModel.v` models `uninstrument`, `_make_uninstrumented_function` and `_get_uninstrumented_decorator` on a heap of functions (code, `__globals__`, `co_names`, cells),
with the set `seen` that is passed on and the sources in the order in which they are tried. Whether the text of a source runs is given.
Not modelled: defaults and decorators (evaluated again), attributes of functions, classes, coroutines.
Proved: `C94_ends`, `C94_own`, `C94_partial` (every function used in one place only, no closures), `C95_partial` (same unfolding when made), `C95_later_partial`.
Refuted: `C94_refuted` (recursion, sharing, closures, a first text that fails), `C94_raised_refuted` (a function wrapped in an object of another class),
`C95_refuted` (later assignments to globals or closure variables are not seen).

### Stmt (C96, C97, C98)
`StmtModel.v` models the registers of statements by time and by id, `create_and_track` with both branches, `add_parent_edges`, `replace_parent_edges`,
`replace_child_edges`, the static dependencies that wait for their statement, `_observe_widget` as far as statements go, and what `_handle_memoization` does to the
parents of statements, with the aliasing of the set passed to `remove_parent_edges`. An exception ends an event and leaves what was done.
Not modelled: frames and calls, class scopes, the edges between cells (C05, C06), the schedule that a move starts, which timestamps a symbol has.
`StmtSpec.v` tells a session by times alone: which statements ran, which dependencies were found, which wait; `fits` says what the tracer and the parser ensure
(nodes are new, the first statement at a time is one of the cell, static dependencies come first) and leaves out the two cases that are refuted.
Proved: `C96_known_partial`, `C96_partial`, `C96_agree_partial`, `C96_closed_partial`, `C96_one_way_partial`, `C96_completes_partial`, `C97_partial`, `C98_partial`,
`C98_when_partial`, `C98_moved_partial`.
Refuted: `C96_refuted` (a skipped run whose statement has parents leaves a child behind), `C97_place_refuted` (the place is computed from the present text of the cell: after
the user deleted a statement it is that of one that ran, which is lost), `C97_half_refuted` (the child left behind makes a later move raise half way; slices raise from then on),
`C98_refuted` (the slice has `w.value = 3` but not the statement that makes `w`).

### Follow (C99, C100, C101)
`FollowModel.v` models the state with which the tracer follows a chain (`first_obj_id_in_chain`, `top_level_node_id_for_chain`, `saved_complex_symbol_load_data`,
`active_scope`, the lexical stack pushed by calls), the symbols of scopes and namespaces by place, and what is loaded, called and stored. Evaluation in a fixed world emits the
events in the order recorded in `core/test/test_trace_events.py`: the value of a subscript, then its slice, then the event of the subscript.
Not modelled: the bodies of called functions, classes of the notebook (cloned namespaces), modules, usage records, effects of the program on the heap between the events of one expression,
how the parent of a namespace is chosen (given as the list of namespaces above an object).
`FollowSpec.v` evaluates without a tracer and lists what was read and called. `plain` says that slices after the first step are names or constants; arguments of calls are free.
Proved: `C99_value_partial`, `C99_idle_partial`, `C99_objects_partial`, `C99_loaded_partial`, `C99_found_partial`, `C100_partial`, `C101_saved_partial`, `C101_partial`, `C101_where_partial`.
Refuted: `C99_slice_refuted` (`x.a[y.b]` leaves the symbol of `x.a` with the object of `y`, and what it reads is loaded at another node), `C99_none_refuted` (`x.a.__class__` with `x.a` `None`),
`C99_caught_refuted` (after `x.a.missing` was caught, the next chain makes a symbol for it), `C100_refuted` (`x.a[f(1)]` takes `f` for the method `a` of `x`),
`C101_refuted` (`x.y.w = 5` is recorded as `x.w` if 5 is an attribute of `x` already).

### Wrote (C102)
`WroteModel.v` models the loop at the end of `upsert_symbol_for_name`, over the symbol and what `get_namespace_symbols(recurse=True)` gives (with its set of seen symbols; fuel is Python's stack),
and the end of `after_stmt`. A run is a list of assignments, each with the namespaces of that moment and the answer of `_compute_is_static_write`, and of ends of statements. Not modelled: how that answer is computed
and the check of the text that the readers of these sets make.
`WroteSpec.v` says which symbols were assigned, which are elements of something assigned, and in which statements the last assignment was not static.
Proved: `C102_disjoint_partial`, `C102_plain_partial` (exact, for variables without elements), `C102_sound_partial`, `C102_elements_partial`, `C102_container_partial`, `C102_nothing_partial`.
Refuted: `C102_refuted` (`x = [1, 2]` records the elements and not `x`; `x = []` records nothing), `C102_attribute_refuted` (assigning a plain value to an attribute or element is never recorded):
the test of the containing namespace, meant to leave out symbols of the class, also leaves out the symbol itself.

### Decl (C103)
`DeclModel.v` models the registration of annotations (statement by statement, nested version conditions, what stays after an exception) and their compilation for a module, with the two tables of handlers.
A session is a list of imports (seen by the tracer or not) and of registrations of directories and single files. Not modelled: how one function is compiled to a handler (AnnoModel), the evaluation of the header of a string (its outcome is given),
changes of a module's attributes.
`DeclSpec.v` flattens the declarations of a session and says which one is the last for a name; `timely` says that nothing raises, the module's imports are seen and no single file about it is registered after its import.
Proved: `C103_functions_partial` (exact), `C103_order_partial`, `C103_methods_partial`.
Refuted: `C103_file_refuted` (`%flow register_annotations file` has no effect on a module that is imported already; for a directory it has), `C103_class_refuted` (of two classes of one name only the last is compiled, so
an earlier one counts only if the module was imported in between), `C103_docstring_refuted` (a string without a second line raises, and a directory's registration stops), `C103_inherited_refuted` (`getattr` finds inherited functions, and the handler is set for the base class's function).

### Import (C104)
`ImportModel.v` models the symbols made for the packages on the way to a module (with angle brackets if the import has an `as`) and for the target of an import. `ImportSpec.v` states Python's rule of what an import binds, sessions of imports, and `harmless`: the package's own name, if it gets a symbol though
the statement does not bind it, is a variable with that package.
Not modelled: dependencies and timestamps, starred imports, relative imports (their module is looked up without the dots), what the frame declares global.
Proved: `C104_bound_partial`, `C104_dotted_partial`, `C104_others_partial`, `C104_modules_partial`, `C104_found_partial`, `C104_session_partial`.
Refuted: `C104_from_refuted` (after `json = 5`, `from json import dumps` gives the symbol `json` to the module; the end of the cell puts the object right but the symbol has been updated), `C104_dotted_refuted` (`import numpy as np; import numpy.linalg` binds `numpy`, which gets no symbol),
`C104_renamed_refuted` (`import os.path` makes a symbol `posixpath` and none for `os`), `C104_missing_refuted` (a package on the way that is not in `sys.modules`: no symbol is returned, but those before it have been made).

### Skip (C105)
`SkipModel.v` models variables, symbols (object, cached length, cell of the update), element symbols of lists, and the events of a cell with tracing on or off; at the end of each module statement the names of its text are resynchronised if tracing was off at some time, at the end of the cell all symbols updated by it.
Simplifications: tracing is off only within module statements (the flag is set by the untraced events themselves); the cached object of a symbol is its object; names found by the static analysis are given; dependencies, the symbol `_` and symbols of other scopes are left out.
`SkipSpec.v`: `in_sync`, `textual` (what is assigned without tracing is among the names assigned in the statement's text, nothing is deleted without tracing).
Proved: `C105_value_partial`, `C105_updated_partial`, `C105_quiet_partial`, `C105_cached_partial`, `C105_length_partial`, `C105_safe_partial`, `C105_elements_partial`.
Refuted: `C105_call_refuted` (an untraced call that assigns a global the statement does not name), `C105_deleted_refuted` (an untraced `del`), `C105_raised_refuted` (a statement that raises is not made up for), `C105_items_refuted` (untraced `y[0] = 9`: the length is the same),
`C105_empty_refuted` (`containing_obj[-1]` raises `IndexError` for a list that is empty by now, and the rest of the hook is skipped).

### Kind (C106)
`KindModel.v` models the symbols of one scope (kind, object, followed definition, whether there is a call scope) and the events that bind or delete a name.
Simplifications: a name with its subscript flag is a number; the order of a set of dependencies is the order of a list (the theorems hold for all orders); symbols copied from a class to an instance, class instances and the edges between symbols are left out.
`KindSpec.v`: the variables (`env_of`), what a call runs (`runs`), the kind of the last binding (`last_kind`), and the conditions `usual`, `tracked`, `nameless`.
Proved: `C106_kind_partial`, `C106_object_partial`, `C106_body_partial`, `C106_def_partial`, `C106_others_partial`.
Refuted: `C106_stale_refuted` (`def f(): ...; f = 5`: `func_def_stmt` is never cleared), `C106_module_refuted` (`import m; def m(): ...`: a module's symbol keeps its type, so the definition is not recorded), `C106_import_refuted` (`x = 5; from m import x` stays a plain variable; `g = f; from m import g` still follows `f`),
`C106_unknown_refuted` (a function that comes from a container or a call without a symbol).

### Copy (C107)
`CopyModel.v` builds the page of the slice widget as a list of code points: `unicode_escape`, the two copy links, the linked headers, the contents.
Simplifications: `black` is any function on texts; `strip` knows the ASCII white space only; a slice is a list of cells in the order of their counters.
`CopySpec.v` is a small browser: the address of the n-th link, percent-decoding of `javascript:` addresses, the value of a string literal of JavaScript, the text outside of tags. Character references (`&lt;`) are not replaced, so the theorems are about texts without `&`; of the escapes of JavaScript those that `unicode_escape` yields are modelled.
What is to be copied (`is_code`, `is_text`, `numbered`, `trimmed`) is stated without the model's functions.
Proved: `C107_copy_partial`, `C107_code_partial`, `C107_texts`, `C107_shown_partial`.
Refuted: `C107_quotes_refuted` (nothing escapes quotes: a slice with a string literal cannot be copied), `C107_percent_refuted` (`x%25` is copied as `x%`), `C107_plane_refuted` (`\U0001f600` is no escape in JavaScript), `C107_tags_refuted` (`<z or z>` is taken for a tag).

### Name (C108)
`NameModel.v` builds the displayed name of a symbol from the names and flags of the namespaces around it.
Simplifications: names are strings or integers; `isdecimal` knows the ASCII digits; the namespaces around a symbol are given as a list.
`NameSpec.v` reads a name, attributes and integer subscripts character by character; `named` says that a namespace has the name of the step that leads to it and the flag of the first way its object was bound.
Proved: `C108_reads_partial`, `C108_variable_partial`, `C108_unique_partial`.
Refuted: `C108_key_refuted` (`d["a"]` is displayed as `d[a]`; the statement recorded for a widget in a dict reads another variable), `C108_same_refuted` (`d[1]` and `d["1"]`), `C108_alias_refuted` (the flag is that of the first alias of the object).

### Attach (C109)
`AttachModel.v` adds the setting `dataflow_enabled` to the sessions of `SessionModel.v`: a run is traced if the setting is on when it starts, and ends with the removal of old edges if it is on when it ends, or, untraced, by taking over the parents of the previous version.
Simplifications: the check before a run is part of its uses, the check after it is left out, no symbol is dangling, a comm is open.
Proved: `C109_attached_partial`, `C109_detached_partial`, `C109_agree_partial`.
Refuted: `C109_flow_on_refuted`, `C109_detached_refuted` (the debugger turns the capture on although the user had turned it off), `C109_midway_refuted` (a run with `%flow off` in it is traced but old edges are not removed: the sessions of C03 assume that each run is finished).

### Conf, continued (C34)
`ConfFlagProps.v` states the switches (`%flow on`, `warn_ooo` and so on) and that documented values given to the constructor and to an initialisation are taken.

### Where (C110)
`WhereModel.v` adds global variables and symbols with timestamps to the sessions of `SessionModel.v`.
Simplifications: the timestamp of a symbol is one cell number (that of the latest update of it or of a member), dependencies given to an upsert are left out, traced code assigns and deletes single names.
The statements split the history at the last run before the assignment, and follow the id of the cell through the renamings since; sessions are those of C15 (`restricted`).
