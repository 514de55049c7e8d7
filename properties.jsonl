{"id": "C01", "title": "From-scratch consistency of the incremental engine", "statement": "For an editor program using cell/thunk/set/force/force_map/ns/structural/put under the DCG engine, every value returned by a force equals the value that re-evaluating every thunk from scratch (no cache) against the current cell contents would return; whenever the from-scratch evaluation terminates normally, the incremental one also terminates and does not panic. Holds for programs obeying the engine's naming discipline (a name is not re-bound to different content inside one demand, not switched between cell and thunk, etc.).", "quantifier": "all editor programs (any interleaving and number of edits, allocations, re-allocations and demands), all thunk bodies, all starting states reachable by such programs", "why_tests_cant": "the bug class is stale caches after some particular sequence of edits/dirty/clean phases over an arbitrary dynamic dependency graph; tests only exercise a handful of graphs and edit sequences", "anchors": ["src/engine.rs: force, loc_produce, clean_comp, dirty_pred_observers, dirty_alloc, set_, cell, thunk"]}
{"id": "C02", "title": "Store agreement: incremental and from-scratch runs leave the same cells and thunks", "statement": "After a disciplined program, the set of allocated locations, every cell's content, and every thunk's function and argument are exactly those the from-scratch evaluation leaves, although the incremental engine skipped re-running most thunks that allocate them.", "quantifier": "all disciplined editor programs and reachable states", "why_tests_cant": "cached thunks' allocations are not replayed; only an invariant over all histories shows that skipping them is harmless", "anchors": ["src/engine.rs: cell, thunk, clean_comp, AllocCell, AllocNominalThunk"]}
{"id": "C03", "title": "Demand-driven evaluation", "statement": "A force runs only thunks that the from-scratch evaluation of the same demand would run; nothing outside the demanded sub-graph is evaluated, however much of the graph is dirty.", "quantifier": "all disciplined demands in all reachable states", "why_tests_cant": "depends on every cleaning order over arbitrary graphs", "anchors": ["src/engine.rs: force, clean_comp, ForceDep::clean"]}
{"id": "C04", "title": "Each thunk runs at most once per demand", "statement": "During one outermost force no thunk body is executed twice, even when it is demanded by many others and even when cleaning gives up and re-executes.", "quantifier": "all disciplined demands in all reachable states", "why_tests_cant": "sharing and the clean-then-re-execute path interact; a DAG blow-up only shows on particular graph shapes", "anchors": ["src/engine.rs: force, loc_produce, clean_comp"]}
{"id": "C05", "title": "Repeating a demand does no work", "statement": "Forcing a thunk again with no intervening edit returns the same value and executes no thunk body and changes no cell, thunk or dependency information.", "quantifier": "all reachable states, all thunks", "why_tests_cant": "holds only if the cleaning phase really leaves everything reachable from the thunk clean, for every graph", "anchors": ["src/engine.rs: force, clean_comp"]}
{"id": "C06", "title": "No-op edits are invisible", "statement": "set with the value already held, or re-allocating a cell with the same value or a thunk with the same function and argument, from the editor, changes nothing: no edge is dirtied, no cache dropped.", "quantifier": "all states, all locations and values", "why_tests_cant": "universal over engine states", "anchors": ["src/engine.rs: set_, cell, thunk"]}
{"id": "C07", "title": "Editing operations never evaluate user code", "statement": "cell, set, thunk and put never run a thunk body: all evaluation happens under force (lazy change propagation).", "quantifier": "all engine states and arguments", "why_tests_cant": "universal over states", "anchors": ["src/engine.rs: cell, set, thunk, set_, dirty_alloc"]}
{"id": "C08", "title": "Change propagation (dirtying) always terminates and only flips dirty bits", "statement": "set/cell/thunk terminate in every state; besides the edited location itself they change nothing but dirty bits, from clean to dirty.", "quantifier": "all engine states including cyclic dependency graphs", "why_tests_cant": "dirtying is a recursive graph walk with no visited set other than the dirty bits; termination must be shown for every graph", "anchors": ["src/engine.rs: dirty_pred_observers, dirty_alloc"]}
{"id": "C09", "title": "Dirty-bit soundness (dirty implies all observers dirty; clean implies up to date)", "statement": "Between editor operations of a disciplined program: if a thunk has an outdated dependency then every thunk that observed it has a dirty edge to it, and every edge marked clean records exactly what re-observing or re-allocating its target now would yield.", "quantifier": "all reachable states, all edges", "why_tests_cant": "graph-global invariant over every history", "anchors": ["src/engine.rs: dirty_pred_observers, clean_comp, reflect::Succ.dirty doc in src/reflect.rs"]}
{"id": "C10", "title": "Dependency edges are symmetric and never dangle", "statement": "Between editor operations every successor edge has a matching predecessor entry at its target and vice versa, and all targets exist; so the engine's internal `dangling` panics are unreachable for disciplined programs.", "quantifier": "all reachable states", "why_tests_cant": "revoke/insert of edges happens at every re-execution; needs induction over histories", "anchors": ["src/engine.rs: revoke_succs, loc_produce, lookup_abs, get_succ_mut"]}
{"id": "C11", "title": "Cells hold what was last written", "statement": "After cell(n,v) or set(c,v) from the editor, forcing that cell yields v, and the content of every other location is unchanged.", "quantifier": "all states and values, given the location is (or becomes) a cell", "why_tests_cant": "universal over states", "anchors": ["src/engine.rs: cell, set_, force"]}
{"id": "C12", "title": "Art identity is determined by namespace and name", "statement": "Two nominal allocations (cell or thunk) denote the same art iff they use equal names in equal namespaces; distinct namespaces or names never alias.", "quantifier": "all names, namespaces and states", "why_tests_cant": "injectivity over an unbounded set of names", "anchors": ["src/engine.rs: ns, cell, thunk, loc_of_id, Path, Loc"]}
{"id": "C13", "title": "ns, structural and force restore their context", "statement": "When ns, structural, force, force_map or a whole editor program returns normally, the current namespace, the structural flag and the stack of executing thunks are exactly what they were before.", "quantifier": "all programs, bodies and states", "why_tests_cant": "universal over bodies with arbitrary nesting", "anchors": ["src/engine.rs: ns, structural, loc_produce"]}
{"id": "C14", "title": "set inside a thunk always panics", "statement": "A set executed while some thunk is being evaluated panics and leaves all content unchanged (only the outer editor may mutate).", "quantifier": "all states with a non-empty stack", "why_tests_cant": "universal over states", "anchors": ["src/engine.rs: set"]}
{"id": "C15", "title": "Dynamic type safety of names", "statement": "A location's result type never changes during a program without panics, and accessing it (cell, set, nominal thunk, force, force_map) at a different type panics instead of reinterpreting memory.", "quantifier": "all states, locations and types; disciplined or not", "why_tests_cant": "the engine uses unsafe transmute guarded by a run-time check; absence of any bypass is universal (structural thunks bypass it: see the partial note)", "anchors": ["src/engine.rs: res_node_of_loc, assert_graphnode_res_type, thunk"]}
{"id": "C16", "title": "Re-using a name for a different function panics", "statement": "Allocating a nominal thunk at a location holding a thunk with another program point panics and changes nothing.", "quantifier": "all states", "why_tests_cant": "universal over states", "anchors": ["src/engine.rs: thunk (Memozied functions not equal)"]}
{"id": "C17", "title": "Cycles: unexpected cycle panics; force_cycle returns its default", "statement": "Forcing a thunk that is currently executing panics when no cycle value was given and returns exactly the cycle value otherwise; cells never count as cycles.", "quantifier": "all states with the thunk on the stack", "why_tests_cant": "universal over stacks", "anchors": ["src/engine.rs: force, force_cycle"]}
{"id": "C18", "title": "force_map prunes irrelevant changes", "statement": "If a cell changes but the projection f of its value does not, then observers through force_map with f are not dirtied by the edit.", "quantifier": "all states, cells, projections", "why_tests_cant": "universal over projections and graphs", "anchors": ["src/engine.rs: force_map, ForceMapDep, check_force_map_dep, dirty_pred_observers"]}
{"id": "C19", "title": "Several projections of one cell: one projection per thunk and cell is tracked, more are not", "statement": "A thunk that observes each of its cells either through one force_map projection or (any number of times) through force is from-scratch consistent: it never returns a value computed from an outdated projection. The restriction is needed: a thunk that observes one cell through two force_map projections, or through force_map and then force, can return a stale value after an edit.", "quantifier": "all disciplined programs, thunks and projections (positive part); two concrete programs (necessity)", "why_tests_cant": "needs a particular edit/observe combination", "anchors": ["src/engine.rs: force_map, get_succ_mut, force (is_dup)"]}
{"id": "C20", "title": "Structurally named thunks: consistent if they only touch structural names, or with the purity optimisation off", "statement": "Programs with structurally named thunks are from-scratch consistent if, with use_purity_optimization on (the default), such thunks observe and allocate only structurally named arts; with the optimisation off there is no such restriction. With it on, a structurally named thunk that reads a mutable cell can be cached forever and return a stale value.", "quantifier": "all disciplined programs with the optimisation on or off (positive part); a concrete program (necessity)", "why_tests_cant": "depends on history: first force versus later ones", "anchors": ["src/engine.rs: force (is_pure, use_purity_optimization)"]}
{"id": "C21", "title": "A name must not change between cell and thunk", "statement": "Programs that never re-use the name of a cell for a thunk of the same type, or vice versa, get what they wrote (cells hold the last value, demands are from-scratch consistent). Re-using it is not detected: a cell allocated over a thunk keeps the thunk, and a thunk allocated over a cell loses the observers, so that later demands are stale.", "quantifier": "all disciplined programs and states (positive part); two concrete programs (necessity)", "why_tests_cant": "history dependent", "anchors": ["src/engine.rs: cell (do_insert), thunk (Node::Mut case)"]}
{"id": "C22", "title": "Observations through force_abs are never invalidated", "statement": "If a cell is observed only through force_abs then setting it, to any value, marks no edge dirty and changes nothing but the cell, in every engine state; so a thunk observing it keeps its cached result and a later demand can be stale. (force_map, in contrast, is tracked: C18, C19.)", "quantifier": "all states, cells and values; a concrete stale program", "why_tests_cant": "universal over states and families of abstractions", "anchors": ["src/engine.rs: force_abs, ForceAbsDep, dirty_pred_observers"]}
{"id": "C23", "title": "Cycle values: harmless while unused, cached once used", "statement": "force_cycle behaves exactly like force (and is from-scratch consistent) as long as no cycle occurs. If a cycle occurs, the values computed from the cycle default are cached and are returned by later demands in which no cycle occurs.", "quantifier": "all disciplined programs (positive part); a concrete program (leak)", "why_tests_cant": "order of demands matters", "anchors": ["src/engine.rs: force, force_cycle, test_cycles"]}
{"id": "C24", "title": "NameChoice under the DCG engine: Nominal and Structural allocate, Eager and Naive always panic", "statement": "thunk with NameChoice::Nominal or Structural at an unused location returns that location's art and stores exactly the given function and arguments; with NameChoice::Eager or Naive (as produced by eager!, or thunk!/memo! with an absent name) it panics in every engine state, changing nothing.", "quantifier": "all engine states, functions and arguments", "why_tests_cant": "quantifies over every state", "anchors": ["src/engine.rs: thunk (NameChoice::Eager, Naive)", "src/macros.rs: thunk!, memo!, eager!"]}
{"id": "C25", "title": "Art equality: equal arts are interchangeable, except those made by thunk_map", "statement": "Two equal cells or thunks (not made by thunk_map) show the client the same: a client program cannot distinguish them. Two arts made by thunk_map are always equal, whatever the functions, and so equal arts can yield different values when forced.", "quantifier": "all arts, stores and client programs of the naive engine; a concrete pair of equal thunk_map arts with different values", "why_tests_cant": "equality of closures", "anchors": ["src/engine.rs: EnumArt::eq, NaiveThunk::eq, thunk_map"]}
{"id": "C26", "title": "Structural mode: consistent if thunks are always forced in the same mode", "statement": "If every demand happens outside structural blocks, or the whole engine runs in structural mode, results are from-scratch consistent. The structural flag leaks into thunks forced inside a structural block: the same thunk may yield different results depending on which mode first forced it.", "quantifier": "all disciplined programs in either mode (positive part); a concrete program (leak)", "why_tests_cant": "the flag is ambient and results are cached", "anchors": ["src/engine.rs: structural, loc_produce"]}
{"id": "C27", "title": "Within one demand a name must not be re-bound after it was observed", "statement": "Programs in which, within one demand, no location is bound to different content after having been observed or allocated are from-scratch consistent. The restriction is needed: if a thunk reads a cell and a callee then re-allocates it with another value in the same demand, the engine caches the outdated result without noticing.", "quantifier": "all disciplined programs (positive part); a concrete program (necessity)", "why_tests_cant": "in-extent mutation order", "anchors": ["src/engine.rs: loc_produce (newly-built DCG edge should be clean), dirty_alloc"]}
{"id": "C28", "title": "A thunk must not allocate its own location", "statement": "In programs where no thunk body allocates its own location the dependency graph never contains a self edge and no editor operation hits the engine's internal assertions. A thunk body that re-allocates itself with the same content is accepted, but a later edit of that thunk panics.", "quantifier": "all disciplined programs and reachable states (positive part); a concrete program (crash)", "why_tests_cant": "only shows at a later edit", "anchors": ["src/engine.rs: dirty_alloc assert, thunk"]}
{"id": "C29", "title": "A panic of user code inside a thunk disables set for ever", "statement": "If user code panics during a demand made from the editor, the engine (when the panic is caught) keeps believing that a thunk is executing: from then on, whatever the client does with the engine, every set on every cell panics and changes nothing.", "quantifier": "all engine states, demands, panic points and all later uses of the engine", "why_tests_cant": "crash-point quantified", "anchors": ["src/engine.rs: loc_produce, set"]}
{"id": "C30", "title": "Name algebra: forks, pairs and constructors give distinct names", "statement": "name_fork, name_fork3, name_fork4, name_pair, name_of_* are deterministic, their symbols are injective in their arguments, and all outputs of a fork are pairwise distinct and distinct from the input. The outputs can be forked on independently: however each is forked further, descendants of different outputs never coincide.", "quantifier": "all names", "why_tests_cant": "infinitely many names", "anchors": ["src/engine.rs: name_unit, name_pair, name_fork, name_fork3, name_fork4, name_of_usize, name_of_isize, name_of_string, name_of_str"]}
{"id": "C31", "title": "Effect traces are balanced", "statement": "Every engine operation that returns normally leaves the trace stack at the depth it found it, so dcg_reflect_end after dcg_reflect_begin never fails its assertion.", "quantifier": "all programs and states", "why_tests_cant": "every early return must be matched", "anchors": ["src/engine.rs: dcg_effect_begin, dcg_effect_end, dcg_reflect_begin, dcg_reflect_end, clean_comp"]}
{"id": "C32", "title": "trace_count counts exactly the effects of the trace", "statement": "The counters computed by trace_count equal the number of corresponding effects in the trace forest.", "quantifier": "all traces", "why_tests_cant": "unbounded trees", "anchors": ["src/reflect.rs: trace::trace_count"]}
{"id": "C33", "title": "Structural sharing is sound when hashes do not collide", "statement": "Two structurally identified allocations in the same namespace share an art iff their contents (function and argument, or value) are equal, provided the hash is injective on them; with a collision the second silently gets the first's content.", "quantifier": "all contents and hash functions", "why_tests_cant": "quantifies over hash functions", "anchors": ["src/engine.rs: thunk (NameChoice::Structural), cell (Structural)"]}
{"id": "C34", "title": "The naive engine computes the from-scratch semantics", "statement": "Under Engine::Naive, cell/put hold their value forever, thunk defers and force re-runs; results equal the from-scratch semantics of the same pure program.", "quantifier": "all programs of the naive API", "why_tests_cant": "universal over programs", "anchors": ["src/engine.rs: NaiveThunk, put, cell, thunk, force"]}
{"id": "C35", "title": "Switching engines is an exchange", "statement": "use_engine/init_dcg/init_naive return exactly the engine that was active and install exactly the one given; engine_is_naive and engine_is_dcg agree with it.", "quantifier": "all engines and sequences of switches", "why_tests_cant": "sequences unbounded", "anchors": ["src/engine.rs: manage"]}
{"id": "C36", "title": "Bit string arithmetic", "statement": "pow, flip, is_set, prepend and shift_left of the bitstring module implement the intended bit operations for every length within range, and preserve the length/value bound.", "quantifier": "all bit strings and lengths within i64 range", "why_tests_cant": "2^63 inputs and boundary overflow", "anchors": ["src/catalog/bitstring.rs"]}
{"id": "C37", "title": "List functions compute their specification", "statement": "For every list (with any names and articulations in it) and every function: map, filter, reverse, fold, append, push/pop, is_empty, list_of_vec/vec_of_list return exactly the elements the mathematical function does, in order, and exactly which names they keep is fixed (the eager versions keep them all in place, the lazy ones and append drop those of the mapped list, reverse moves them to the front); merge returns a stable sorted permutation of two sorted lists, and the three mergesorts a stable sorted permutation of any tree's leaves.", "quantifier": "all lists, element types, functions, total orders", "why_tests_cant": "unbounded lists; stability and permutation quantify over all inputs", "anchors": ["src/catalog/collections.rs: list_map_lazy, list_map_eager, list_map_eager2, list_filter_lazy, list_filter_eager, list_reverse, list_fold, list_append, list_merge, vec_of_list, list_of_vec, mergesort_list_of_tree"]}
{"id": "C38", "title": "Level trees keep the sequence", "statement": "tree_of_list terminates, its assertion never fails, the tree contains exactly the list's elements and names in order; the level of each node is the number of trailing zeros of the hash of its name (32 levels up) or of the element it separates, levels never increase towards the leaves, and the tree depends only on the sequence of elements and names, not on how the list was built or edited; list_of_tree inverts it; monoid_of_tree is the in-order product whatever the shape of the tree; eager/prune/filter trees keep exactly the (selected) elements in order. filter_list_of_tree keeps the right elements, but names only behind the last element, and filter_tree_of_tree drops names although its documentation promises to retain them.", "quantifier": "all lists and trees, all hash functions deciding the levels, both directions", "why_tests_cant": "unbounded trees whose shape depends on hashes", "anchors": ["src/catalog/collections.rs: tree_of_list, tree_of_list_rec, list_of_tree, monoid_of_tree, eager_tree_of_tree, prune_tree_of_tree, filter_tree_of_tree, filter_list_of_tree, tree_fold_seq, tree_fold_up"]}
{"id": "C39", "title": "list_gen never produces elements", "statement": "list_gen(len, ..) returns the empty list for every length and element function (its loop never runs), instead of a list of len elements; with overflow checks list_gen(0, ..) panics.", "quantifier": "all lengths and element functions", "why_tests_cant": "claimed for all lengths", "anchors": ["src/catalog/collections.rs: list_gen"]}
{"id": "C40", "title": "is_name answers for elements", "statement": "is_name(l) is true exactly when the first token of l is an element, and false when it is a name: the opposite of what its name says (and why filter_list_of_tree loses names).", "quantifier": "all lists", "why_tests_cant": "claimed for all lists, through any number of articulations", "anchors": ["src/catalog/collections.rs: is_name, filter_list_of_tree"]}
{"id": "C41", "title": "Reflection of values through their debug strings", "statement": "parse_val terminates on every string, and for every printable value (integers, strings without quotes and backslashes, enums, structs, tuples, vectors, names built from unit/usize/string by pairing and forking, articulations with such names) parsing its debug string gives exactly the reflected value, locations included. Outside this class it fails: it panics on every articulation identified structurally, every name made from an isize and every float; backslashes come back doubled; a user constructor String(s) is taken for a name; hashes of hash names are lost.", "quantifier": "all values of any size and nesting (positive part); all members of each failing class", "why_tests_cant": "unbounded nested values, every string", "anchors": ["src/parse_val.rs: parse_val, lex, parse_val_rec, parse_vals, parse_fields, parse_art_val, name_of_val, name_option_of_val", "src/engine.rs: Debug for Name, Loc, ArtId, Path, EnumArt"]}
{"id": "C42", "title": "Tries: membership is exact, but nothing can be added", "statement": "In every trie whose leaves are placed by their hash bits, mem(t,x) is true iff x is an element; find never returns anything but the element asked for; split_atomic keeps elements and placement; fold visits the elements left to right; the empty trie is empty; a trie called empty has no elements. But extend (hence add, singleton, and trie_of_list of a non-empty list) panics on every input.", "quantifier": "all tries, hashes and elements", "why_tests_cant": "the path of an element is any 64-bit hash; tries are unbounded", "anchors": ["src/catalog/trie.rs: find, split_atomic, is_empty, empty, extend, mem, fold, trie_fold, trie_of_list"]}
{"id": "C43", "title": "The built-in well-formedness check never fails on a disciplined program, and what it guarantees", "statement": "With the built-in check enabled (ADAPTON_CHECK_DCG: wf::check_dcg at the beginning and end of every cell, set, thunk and force, by the editor and inside the thunks being evaluated alike), a disciplined program never fails a check, every check ends, and the program returns what it returns without the checks, whatever order the memo table is visited in. Conversely, whenever the check accepts a state, of any program at all, no running thunk is out of date and everything that observes an out-of-date thunk, directly or not, has a dirty edge to it. With force_cycle the check need not end: after two thunks that demand each other are edited it recurses for ever, although the program without checks returns.", "quantifier": "all disciplined programs and later demands, every operation at every depth of evaluation, all iteration orders of the hash map; for the guarantee, all states", "why_tests_cant": "graph invariant over histories, at every intermediate state of every evaluation", "anchors": ["src/engine.rs: wf::check_dcg, wf::clean, wf::dirty, wf::add_constraint; the calls in cell, set, thunk, force"]}
{"id": "C44", "title": "Cycle detection covers evaluation but not change propagation", "statement": "A force of a thunk that is on the stack of executing thunks always panics (C17), and a demand whose from-scratch evaluation meets no cycle never does. But if an edit makes a thunk depend on itself and the cycle is closed while cleaning, the incremental engine can return a value where a fresh evaluation panics.", "quantifier": "all disciplined programs (positive part); a concrete program (missed cycle)", "why_tests_cant": "only shows when the cycle is closed during cleaning rather than during evaluation", "anchors": ["src/engine.rs: force (is_cycle), clean_comp"]}
{"id": "C45", "title": "Fresh program-wide name counter", "statement": "bump_name_counter returns each number at most once, so names made from it are pairwise distinct.", "quantifier": "all call sequences", "why_tests_cant": "unbounded sequences", "anchors": ["src/macros.rs: bump_name_counter, NAME_COUNTER"]}
{"id": "C46", "title": "Locality of edits", "statement": "If a thunk is up to date and does not (transitively) depend on a cell, setting that cell to any value leaves the thunk up to date: the next demand returns the cached value, runs nothing and changes nothing.", "quantifier": "all reachable states, thunks, cells and values", "why_tests_cant": "quantifies over all dependency graphs", "anchors": ["src/engine.rs: dirty_pred_observers, force, clean_comp"]}
{"id": "C47", "title": "The effect trace shows every evaluation", "statement": "For every program that returns normally, the number of times user code of thunks was run equals the number of Force(CompCacheMiss) and CleanEval effects in the trace it records.", "quantifier": "all programs and states", "why_tests_cant": "every path through cleaning and evaluation must record its effect", "anchors": ["src/engine.rs: dcg_effect_begin!, force, clean_comp, ForceDep::clean", "src/reflect.rs: trace"]}
{"id": "C48", "title": "Association lists are finite maps and sets", "statement": "For lists of pairs used as maps: find returns the most recent binding of a key, update changes exactly that key, fold visits every binding from the innermost out; as sets: membership after add, in the empty set and in an intersection is what set theory says.", "quantifier": "all maps, sets, keys, values", "why_tests_cant": "unbounded maps with shadowed bindings, names and articulations in between", "anchors": ["src/catalog/collections.rs: MapIntro, MapElim, SetIntro, SetElim for List"]}
{"id": "C49", "title": "Incremental list pipelines are right after any edits", "statement": "An editor makes and overwrites list cells in any order (cell, set; inserting, deleting, replacing any piece of a named list, sharing pieces between lists) and between the edits runs queries: pipelines of list_map_eager, list_map_lazy, list_filter_eager, list_filter_lazy, list_reverse, tree_of_list followed by list_of_tree, by filter_list_of_tree or by filter_tree_of_tree and list_of_tree, list_append with another list on either side, ending in vec_of_list, list_fold, is_empty, a lookup of a key (find, for lists of pairs), list_map_eager2, or tree_of_list followed by monoid_of_tree, eager_tree_of_tree, mergesort_list_of_tree, mergesort_list_of_tree2 (trees made left to right; for the other direction see C59) or mergesort_list_of_tree3; each call in its own namespace. Every query returns the answer for the lists as they are at that moment (a map, filter, sum, stable sort, first binding of the key, ... of the current elements), never a stale one, and nothing panics, whatever was cached by earlier queries. Condition: at each query the lists are finite and the names of each are distinct and not forks or rev-pairs, and the extra name given to mergesort_list_of_tree3 is not in the list.", "quantifier": "all edit/query histories, all lists, pipelines of any length, element functions, hash functions", "why_tests_cant": "the cache contents depend on the whole history; which thunks are re-used depends on all earlier lists", "anchors": ["src/catalog/collections.rs: list_map_eager, list_filter_eager, list_reverse, tree_of_list_rec, tree_fold_up, tree_fold_seq, list_merge, mergesort_list_of_tree, mergesort_list_of_tree2, mergesort_list_of_tree3, tree_fold_up_nm_dn, filter_tree_of_tree, bin_arts_niltest, list_append, MapElim::find for List", "src/engine.rs: thunk, cell, set, force"]}
{"id": "C50", "title": "List functions need their own namespace", "statement": "list_map_eager, list_filter_eager and list_reverse panic (cycle) on every list with at least one name that was built by list_of_vec (or name_art) in the same namespace; the lazy versions panic when their result is used, tree_of_list with a type error. (In a namespace of their own they are right: C49.)", "quantifier": "all lists with a name, all continuations", "why_tests_cant": "claimed for all lists, not only those tried", "anchors": ["src/catalog/collections.rs: list_map_eager, list_filter_eager, list_reverse, list_of_vec, name_art", "src/engine.rs: thunk over an existing cell, force cycle check"]}
{"id": "C51", "title": "Pruning a tree is not incremental", "statement": "prune_tree_of_tree loses list elements after an edit: its result cells are allocated under the same names, in the same namespace, as the thunks that memoise its recursion. (One run on a fresh engine is right: C38.)", "quantifier": "a concrete edit session", "why_tests_cant": "only appears on the second query of a history", "anchors": ["src/catalog/collections.rs: prune_tree_of_tree, bin_arts_niltest, tree_fold_up"]}
{"id": "C52", "title": "The output of mergesort cannot be made into a tree again incrementally", "statement": "The names in the list that mergesort_list_of_tree returns are iterated forks, whose depth changes with the elements; tree_of_list forks them again for its thunks. A pipeline sort, tree_of_list, monoid_of_tree that works on each of two lists on its own panics with a type error on the second list after the first.", "quantifier": "a concrete edit session", "why_tests_cant": "only appears on the second query of a history", "anchors": ["src/catalog/collections.rs: mergesort_list_of_tree, list_merge, tree_of_list_rec"]}
{"id": "C53", "title": "Recording effects is transparent, and its begin/end protocol", "statement": "Recording the trace never changes what the engine does: with or without dcg_reflect_begin every program has the same outcome and leaves the same graph. dcg_reflect_end after a begin returns the effects made since that begin, as a forest, and ends recording; a nested begin panics, an end without begin panics, and neither changes anything. If user code panics inside a thunk while recording, then begin and end both panic for ever after; a panic of the editor outside of all thunks does no harm.", "quantifier": "all histories of begin, end and client programs, including ones in which the client catches panics", "why_tests_cant": "histories are unbounded and include panics at every point inside evaluations", "anchors": ["src/engine.rs: reflect_dcg::dcg_reflect_begin, dcg_reflect_end, TRACES, dcg_effect!, dcg_effect_begin!, dcg_effect_end!"]}
{"id": "C54", "title": "A snapshot of the graph is faithful", "statement": "dcg_reflect_now returns, whatever the order of the hash table: exactly one node per node of the graph, at its reflected location, with its predecessors, successors (target, effect, dirty flag), program point and reflected value, the stack outermost first and the current namespace; in states reached by disciplined clients its edges are symmetric, lead to nodes of the snapshot, and its force edges have no cycle. It panics if a single node holds a value whose Debug output the parser does not take (for instance a structurally named articulation).", "quantifier": "all engine states, all values", "why_tests_cant": "all graphs and all values in them", "anchors": ["src/engine.rs: reflect_dcg::dcg_reflect_now, impl reflect::Reflect for DCG, Loc, CompNode, MutNode, Frame", "src/reflect.rs: DCG, Node, Succ, Pred", "src/parse_val.rs: parse_val"]}
{"id": "C55", "title": "The shape of recorded traces", "statement": "Every effect in a trace is attributed to the thunk that did it or to the editor, at every depth: inside a forced cache hit on x only the edges of x are cleaned; a CleanRec on edge x to y brings y up to date and then ends with exactly one of CleanEdge on that edge or CleanEval (re-evaluating x, after which no further edge of x is cleaned); inside an evaluation of x, first edges of x are removed and then come only the forces and allocations x does; inside an allocation or an edit only observers of the changed location are dirtied, transitively, and only a changed content dirties anything.", "quantifier": "all programs, all engine states", "why_tests_cant": "traces of unbounded depth through mutual recursion of evaluation, cleaning and dirtying", "anchors": ["src/engine.rs: dcg_effect_begin!, dcg_effect_end!, force, clean_comp, ForceDep::clean, dirty_pred_observers, dirty_alloc, revoke_succs, cell, thunk, set", "src/reflect.rs: Effect::CleanRec, CleanEdge, CleanEval, Dirty, Remove"]}
{"id": "C56", "title": "Early cutoff: only thunks with a changed input are run again", "statement": "After any disciplined history, a demand runs a thunk only if it has no cached value, or its argument was changed, or one of the things its last run forced now gives a different value (a different projection, for force_map), or one of its own allocations has been given another content by somebody else. So a thunk whose inputs were recomputed but came out equal is not run, and neither is anything above it. Cached values are not lost: edits keep all of them, except that allocating a thunk's name again with another argument drops that thunk's value; a demand keeps the value and the dependencies of every thunk it does not run and leaves a value for every thunk it runs.", "quantifier": "all disciplined histories, all demands, all thunks, all hash functions", "why_tests_cant": "which thunks must run depends on the whole history and on values computed during the demand", "anchors": ["src/engine.rs: ForceDep::clean, ForceMapDep::clean, clean_comp, loc_produce, force, set, cell, thunk"]}
{"id": "C57", "title": "Panics of user code surface exactly when from-scratch evaluation panics", "statement": "For a program that obeys the discipline until its user code panics (if it does), the incremental engine panics with the user's panic exactly when from-scratch evaluation does, and otherwise returns the from-scratch value. The same holds for every single demand after a disciplined history: a demand never answers from the cache, or from partial re-evaluation, when from-scratch evaluation would panic; and change propagation never runs into a panic that from-scratch evaluation would not run into.", "quantifier": "all programs whose user code may panic anywhere, all disciplined histories, all demands, all hash functions", "why_tests_cant": "whether stale dependencies are evaluated first (and panic spuriously) depends on the order of change propagation over unbounded histories", "anchors": ["src/engine.rs: force, loc_produce, clean_comp, ForceDep::clean, dirty_pred_observers", "src/engine.rs: set, cell, thunk"]}
{"id": "C58", "title": "After a caught panic the engine is not usable", "statement": "When user code panics during a demand and the client catches the panic, some thunk that was being evaluated can never be demanded again: every later demand of it panics with a cycle (or type) error whatever the client does in between, even if the inputs are repaired and from-scratch evaluation succeeds. Other thunks may return stale values: the same demand made twice can panic the first time and silently return an old cached value the second time.", "quantifier": "all engine states, all programs, all later histories", "why_tests_cant": "crash points: the panic can happen anywhere, and the claim ranges over all later histories", "anchors": ["src/engine.rs: loc_produce, force, DCG.stack, clean_comp"]}
{"id": "C59", "title": "mergesort_list_of_tree2 makes an endless list", "statement": "mergesort_list_of_tree2 uses each name of the tree both for a leaf and for a merge, which the documentation of tree_fold_up_nm_dn forbids. For trees built with tree_of_list(Right, ...) a merge can then allocate the thunk it is itself the body of: sorting 1, 3, name, 5 gives the list 1, 3, 3, 3, ... whose tail is itself; vec_of_list on it never returns, and with a limit n returns n tokens of it. (Without the engine the same calls give 1, 3, 5: C37.)", "quantifier": "a concrete list; all limits and all budgets for reading the result", "why_tests_cant": "non-termination: no run of any length settles it", "anchors": ["src/catalog/collections.rs: mergesort_list_of_tree2, tree_fold_up_nm_dn, list_merge, list_merge_wrapper, vec_of_list"]}
{"id": "C60", "title": "Dirtying is exact; the nominal firewall", "statement": "After any disciplined history, changing a cell with set, or re-allocating a cell's name with another value or a thunk's name with another argument, dirties exactly: the edges to the changed location whose recorded view differs from what the location yields now, and the observing edges that lead to a thunk with such a view; every edge newly dirtied is recorded as one Dirty effect and no other Dirty effect is recorded. So an up-to-date thunk that does not lead, observation by observation, to a changed view stays up to date. In the documentation's nominal-firewall program (for any functions in place of square and format), for every sequence of inputs, all answers are right, the input's reader runs once per change of the input, the formatter once per change of the square, and the outer thunk once per change of the text.", "quantifier": "all disciplined histories, all edits, all edges; all functions and all input sequences for the firewall program", "why_tests_cant": "the set of edges dirtied is a closure over graphs of any shape built by any history", "anchors": ["src/engine.rs: dirty_pred_observers, dirty_alloc, set, cell, thunk", "src/lib.rs: Nominal Firewalls (867-1015)"]}
{"id": "C61", "title": "force_cycle explores cyclic graphs", "statement": "The documentation's graph exploration (a thunk per node, named by the node, that allocates the thunks of its adjacent nodes, forces each with force_cycle and the same cycle value, and combines the answers) returns on every finite directed graph, whatever its cycles, the result of a depth-first search in which a node being visited answers the cycle value and a finished one its answer; it runs exactly the nodes reachable from the start, each exactly once, and never panics; with the documentation's combining function the answer is a vector containing exactly the reachable nodes. Over a whole session of explorations no node runs twice; but answers into which a cycle value went are kept, so a later exploration from another node can miss nodes that a new engine's exploration returns.", "quantifier": "all finite graphs, all start nodes and sequences of start nodes, all combining functions and cycle values", "why_tests_cant": "termination and exactly-once over graphs of every shape and size", "anchors": ["src/engine.rs: force_cycle, force, DCG.stack, loc_produce", "src/lib.rs: Nominal Cycles (727-865)"]}
{"id": "C62", "title": "A demand runs exactly the thunks it must", "statement": "After any disciplined history, the thunks that a demand runs are, each once, exactly those thunks of the from-scratch evaluation of the demand that had no value, or were given another argument, or whose last run saw something that now looks different (through the function given to force_map), or one of whose own allocations has been changed by somebody else. So a demand runs nothing exactly if there is no such thunk. In the documentation's demand-driven example (for every division, zero test, initial inputs and sequence of edits and demands) all answers are right; the division runs exactly at the demands where the denominator is not zero and the division was not last computed for the same two inputs, whatever happened in between; the check runs exactly when the denominator, or the quotient it uses, has changed since the previous demand.", "quantifier": "all disciplined histories, all demands, all thunks; all functions and all sessions for the example program", "why_tests_cant": "both directions range over all graphs and histories: a missed re-run is a stale answer, a superfluous one is lost incrementality", "anchors": ["src/engine.rs: force, clean_comp, ForceDep::clean, ForceMapDep::clean, AllocDependency::clean, loc_produce, dirty_pred_observers", "src/lib.rs: Demand-driven change propagation (296-395)"]}
{"id": "C63", "title": "The macros and the identity of thunks", "statement": "A thunk! or memo! with a name that already stands for a thunk here: if the text of its function or body differs, it panics and nothing happens; if text and arguments are the same, what the function captures and the arguments after ;; are ignored altogether, in every state and at every depth. thunk!([ident] body) and let_memo! have the same text whatever the body: there the new body itself is ignored, without a panic, and the value is that of the first body; so a function of a cell written with let_memo! returns for a second cell the value for the first one, while written with memo! and the cell as an argument it returns the right values. With the optional name None, every form of thunk! and memo! panics in every state, while cell!([None]? v) makes a cell outside of the graph that always gives v.", "quantifier": "all engine states, all bodies, captured values, arguments and continuations", "why_tests_cant": "which thunk a name stands for depends on the whole history; the claim ranges over all pairs of bodies", "anchors": ["src/macros.rs: thunk!, memo!, let_memo!, let_thunk!, let_cell!, cell!, get!, eager!", "src/engine.rs: thunk, TDCG::thunk memo matching"]}
{"id": "C64", "title": "The incremental cost of list_map_eager and list_filter_eager", "statement": "An editor repeatedly builds a list with names (cells) and applies list_map_eager or list_filter_eager to it in a namespace. In every round the engine holds the resulting list, and the thunks run are exactly these, each once: thunk n runs unless it was last computed, however many rounds ago, for the same elements up to the next name, the same next name, and the same resulting elements and following name after that. Hence processing the same list again runs nothing; replacing any part mid of a list of any length by mid' runs at most (number of names in mid') + 2 thunks, + 1 if the name after the unchanged front is kept; and undoing a replacement by parts with other names runs at most 2, however long the removed part.", "quantifier": "all functions and predicates, all lists with distinct names, all sequences of edits and rounds, both settings of the purity optimisation", "why_tests_cant": "the bound must hold for every list length and every history; tests check single lengths", "anchors": ["src/catalog/collections.rs: list_map_eager, list_filter_eager, list_of_vec, ListElim for List", "src/engine.rs: force, cell, thunk, ns"]}
{"id": "C65", "title": "A demand does not see the namespace", "statement": "What force returns, whether it fails and with which panic, which computations run and what the graph becomes do not depend on the namespace in which force is called, and an answered force leaves the namespace as it was: ns(n, || force(a)) is force(a), in every state.", "quantifier": "all engine states, all computations, all namespaces", "why_tests_cant": "a thunk body changes the namespace to its own and restores it; the claim is about every nesting of such changes", "anchors": ["src/engine.rs: ns, TDCG::force, loc_produce"]}
{"id": "C66", "title": "Nominal memoization: when a named call is computed", "statement": "For any function f of its arguments and any sequence of calls get!(thunk!([name] f; args)) by the editor, under names not yet in use: every call returns f of its arguments; f runs, once, in exactly the calls that are the first with their name or whose arguments differ from those of the latest call with that name; and trace_count of the recorded effects gives exactly that many fresh, unchanged and changed allocations by the editor, as many demands as calls, and nothing allocated by the archivist, dirtied, cleaned or re-evaluated.", "quantifier": "all functions, all sequences of names and arguments, all idle engine states", "why_tests_cant": "the claim is about every sequence of calls; the documentation shows four calls", "anchors": ["src/lib.rs: Nominal memoization", "src/macros.rs: thunk!, get!", "src/engine.rs: TDCG::thunk, TDCG::force", "src/reflect.rs: trace::trace_count"]}
{"id": "C67", "title": "The incremental cost of folding a tree", "statement": "For any monoid, any history of trees built and folded with monoid_of_tree (or copied with eager_tree_of_tree) under arbitrary names, in the library's layout of two reference cells per name: every fold returns the value of its tree, and the thunks that run are exactly those that were last computed (however long ago) from a different tree down to the next names or different results for the subtrees there. So replacing a subtree runs at most the thunks above it and its own; if its value stays the same, at most the innermost one above it and its own; folding the same tree again runs none; and changing one leaf of a perfect tree with N leaves runs at most log2 N.", "quantifier": "all monoids (element, operation), all sequences of trees, all replaced subtrees and places, both purity settings", "why_tests_cant": "the claim bounds the work for every edit of every tree after every history; the repository measures a few sizes", "anchors": ["src/catalog/collections.rs: tree_fold_up, monoid_of_tree, eager_tree_of_tree, bin_arts_niltest", "src/engine.rs: TDCG::thunk, TDCG::force, loc_produce, dirty_pred_observers", "src/macros.rs: memo!"]}
{"id": "C68", "title": "Nominal independence: the incremental cost of list_reverse", "statement": "For any history of lists built and reversed with list_reverse under arbitrary distinct API names: every reversal returns a list that reads, through the references the engine answers, as the input reversed, and the thunks that run are exactly those that were last computed from different elements up to the next name, a different next name or a different answer of the next thunk, or whose accumulator cell for the next name another thunk has overwritten since. What stands in front of a name does not matter: changing the elements in front of the first name changes every accumulator and runs no thunk; changing one chunk that is not the last runs exactly its own thunk; replacing k chunks by k' runs at most k' + 2, undoing that at most 3.", "quantifier": "all sequences of lists, all names, all replaced segments and places, both purity settings", "why_tests_cant": "nominal independence is a claim about all edits after all histories; the documentation only illustrates it", "anchors": ["src/catalog/collections.rs: list_reverse, list_of_vec", "src/engine.rs: TDCG::cell, TDCG::thunk, TDCG::force, loc_produce, dirty_alloc", "src/lib.rs: documentation, section Nominal independence", "src/macros.rs: eager!"]}
{"id": "C69", "title": "Arts never dangle", "statement": "Rust code cannot make up an art: it gets them from cell and thunk, or out of values. For any history of such client programs -- disciplined or not, with wrong types, name clashes, cycles, panics that the client catches -- no operation ever panics with 'dangling pointer': every art inside a result, a cell, an argument or a cached value denotes a node, and an art that cell or thunk handed out can be forced for ever after. Nothing is ever reclaimed: the memo table only grows, for all programs. All list and tree functions of the catalog keep to this, whatever closures they are given. An art of another engine dangles.", "quantifier": "all programs and thunk bodies that only use arts they were given, all histories and outcomes, both flags, all hash functions", "why_tests_cant": "reachability of every art in every history, including those after panics, is a closure property of all executions", "anchors": ["src/engine.rs: lookup_abs, TDCG::cell, TDCG::thunk, TDCG::force, loc_produce, revoke_succs, AbsArt", "src/catalog/collections.rs: all functions"]}
{"id": "C70", "title": "The calculator: infix to postfix to value", "statement": "A tree of tokens whose leaves, from left to right and wherever there are names or articulations, are an arithmetic expression written in the usual way (products bind tighter than sums, operators of one kind associate to the left, parentheses) is turned by postfix_of_infix into its reverse Polish notation; evaluate_postfix of the tree made of that gives exactly the value of the expression in Rust's isize arithmetic: the mathematical value if nothing overflows, and a panic exactly where that arithmetic panics. On any tokens at all, postfix_of_infix panics only for a closing parenthesis without an opening one: its assertion never fails. From characters the same holds if every literal is zero or is below 100 and not a multiple of ten; every other literal is read as a smaller number ('20' as 2, '123' as 33).", "quantifier": "all expressions of any size and nesting, all trees of tokens or characters (also meaningless ones), all placements of names, both settings of overflow checks, all hashes", "why_tests_cant": "unboundedly many expressions, tree shapes and operator stacks; the wrong reading of numerals was missed by the file's tests, which print instead of asserting", "anchors": ["src/catalog/arith_parse.rs: precedence_check, check_ops, tok_of_char, postfix_of_infix, evaluate_postfix", "src/catalog/collections.rs: tree_fold_seq, tree_of_list"]}
{"id": "C71", "title": "The printed forms of names and locations", "statement": "string_of_name prints exactly the atoms of a name joined by dashes, so two names whose strings contain no dash (and whose numbers are not negative) print alike exactly if they have the same atoms in the same order; names made from one name by forking never print alike. string_of_loc prints alike exactly if the paths and names print alike one by one, provided no string contains an underscore. The verbose (Debug) form distinguishes all names made of plain strings and usizes, and all arts so named. Otherwise different names do print alike: the nesting of pairs is lost, forks look like pairs, numbers like strings, all names of hashes look the same - so all structurally named locations of a namespace print the same -, and in the DOT file (ADAPTON_WRITE_DCG) all cells of the root namespace named by strings have the same identifier, because quotes are not escaped.", "quantifier": "all names of any nesting, all paths, all strings", "why_tests_cant": "unboundedly many names; equality of printed forms is a property of pairs of inputs", "anchors": ["src/engine.rs: reflect_dcg::string_of_name, string_of_path, string_of_loc, write_namesym; Debug for Name, Loc, ArtId, Path; wf::write_dcg_file"]}
{"id": "C72", "title": "Recorded dependencies: duplicate edges", "statement": "reflect.rs documents that the engine stores no duplicate edges. After any history of programs (returning, panicking or interrupted) no thunk has an edge recorded by force to a location it had observed before; a force that returns adds exactly one edge, holding the value returned, to the executing thunk if that thunk had not observed the location before, and none if it had (hash-consed values and structural thunks without edges are never recorded). So without force_map and force_abs a thunk observes each location through at most one edge, and a snapshot shows at most one force edge per thunk and location. The documented claim does not hold for allocations - making the same cell twice in a thunk stores two edges, of which a change dirties only the first - nor for force_map, which stores an edge per call.", "quantifier": "all programs, histories, caught panics, thunks, locations", "why_tests_cant": "the edges of a thunk depend on everything it did; any code path could add a second edge", "anchors": ["src/engine.rs: force (is_dup), force_map, cell, thunk, loc_produce", "src/reflect.rs: Succ.is_dup"]}
