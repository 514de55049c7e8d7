# property -> (what is modelled, how it is proved)
D = {
"C01": ("whole engine (`Engine.v`) vs `RefSem.v`; hypothesis `disciplined` (`Discipline.v`)", "simulation (Rel/Steps/Ops/Replay/Sim/Main), induction on nesting depth; syntactic classes in `Static.v` and `Memo.v`"),
"C02": ("memo table projected to cell contents and suspended applications", "corollary of the simulation relation"),
"C03": ("ghost log `runs` vs. the log of the from-scratch demand", "log inclusion carried through the simulation"),
"C04": ("ghost log `runs`", "NoDup carried through the simulation (a finished thunk stays clean within a demand)"),
"C05": ("`force`, `clean_comp`", "clean-subgraph predicate, induction on the acyclic graph"),
"C06": ("`set_`, `cell`, `thunk` in arbitrary states", "case analysis of the allocation functions"),
"C07": ("all API calls except forces; programs without forces", "structural induction on programs; runs unchanged"),
"C08": ("dirtying with computed fuel, arbitrary states", "measure: number of clean edges; induction"),
"C09": ("edges of reached states", "projection of the invariant, restated without its helpers"),
"C10": ("edges of reached states", "projection of the invariant"),
"C11": ("`cell`/`set` followed by `force`", "direct, using C08"),
"C12": ("`cell`/`thunk` in a namespace", "direct"),
"C13": ("all programs, arbitrary states", "fuel induction"),
"C14": ("`set` with non-empty stack", "direct"),
"C15": ("type tags of nodes; all programs and states", "fuel induction: tags never change"),
"C16": ("`thunk` at an existing thunk", "direct"),
"C17": ("`force` at a location on the stack", "direct, and case analysis of cells"),
"C18": ("`force_map` edges and dirtying", "induction over observers"),
"C19": ("projections as observations", "C01 under S5; two counterexample programs"),
"C20": ("purity optimisation", "C01 under S6 or with the optimisation off; counterexample"),
"C21": ("`cell` over thunk, `thunk` over cell", "C01 under S2; counterexamples"),
"C22": ("`force_abs` edges", "universal: no edge is dirtied; counterexample"),
"C23": ("`force_cycle`", "C01 under S9; counterexample"),
"C24": ("`NameChoice`", "case analysis, all states"),
"C25": ("`EnumArt::eq`, `NaiveThunk::eq`, `thunk_map` on the naive engine", "relational argument over client programs; counterexample"),
"C26": ("structural flag", "C01 under S10 in both base modes; counterexample"),
"C27": ("re-binding inside a demand", "C01 under S1; counterexample"),
"C28": ("self allocation", "invariant (no self edges) under S13; counterexample"),
"C29": ("outcome states of panics", "induction over any later client use: the stack never becomes empty"),
"C30": ("name constructors with symbols", "injectivity, induction on fork paths"),
"C31": ("trace recorder over the event log", "balancedness by induction on evaluation; recorder simulation"),
"C32": ("`trace_count` over trace forests", "mutual induction on forests"),
"C33": ("structural allocation, arbitrary hash functions", "allocation facts plus persistence by induction on programs"),
"C34": ("naive engine: arts are values/closures", "simulation with `RefSem`"),
"C35": ("thread-local engine slot and its borrow flag", "direct, plus isolation of sessions by induction"),
"C36": ("bitstring.rs with machine bounds", "arithmetic on `Z` bits"),
"C37": ("collections.rs lists with explicit names/articulations, value level", "induction on lists/trees"),
"C38": ("level trees, any hash function", "well-founded induction on the list; fold homomorphism"),
"C39": ("`list_gen` loop with its inverted condition", "direct, universal"),
"C40": ("`is_name`", "direct, universal"),
"C41": ("lexer and parser of parse_val.rs, specification `print` of `Debug`", "induction on values with continuation; termination by token count"),
"C42": ("trie.rs, hash bits as parameter", "induction on the trie"),
"C43": ("`wf::check_dcg` in any visiting order (`WfCheck.v`), the engine that calls it at the beginning and end of its operations (`Watch.v`)", "the simulation (`Sim.v`-`Main.v`) is carried out for the engine with an arbitrary test that the simulation relation implies; the invariant of the relation, which allows for running thunks, implies that the check passes; nodes carry at most one dirty edge per target (`okd`) in every state; converse by induction on the recursion of the check (`Checked.v`)"),
"C44": ("cycle check on the stack", "C17, C01; counterexample for cleaning"),
"C45": ("the thread-local counter", "induction on the calls"),
"C46": ("`set` then `force`", "reachability in the graph, C08 frame"),
"C47": ("event log vs ghost log", "fuel induction on evaluation"),
"C48": ("association lists of collections.rs", "induction on lists"),
"C49": ("`Cat.v`: the catalog functions with all their engine calls; editor sessions (`CatSpec.v`)", "weakest-precondition rules for the disciplined semantics over a layout of the locations a query will use (`Layout`, `CatEv`); each function laid out by induction (`CatTol`, `CatFold`, `CatSeq`, `CatMerge`, `CatNm`, `CatFilt`, `CatList`); layouts are duplicate-free and kind-stable across edits (`CatNames`, `CatKinds`, `CatNmKinds`); then C01"),
"C50": ("the same programs in one namespace", "execution of the engine on the state `list_of_vec` leaves, induction on the elements before the first name; examples for the other functions"),
"C51": ("the same", "counterexample"),
"C52": ("the same", "counterexample"),
"C53": ("`TRACES` beside the engine, calls and answers as a history (`Recording.v`)", "the engine's state never depends on the log; depth invariant of the recorder's stack through panics"),
"C54": ("`impl Reflect` for the graph, any iteration order (`Reflected.v`)", "induction on the table's entries; C41 for values, C10 for edges"),
"C55": ("grammar of traces (`TraceShape.v`)", "fuel induction with a Hoare-style judgement attributing each effect; mutual induction on the grammar"),
"C56": ("the graph before and after a demand, compared (`Cutoff.v`)", "an invariant carried through the main simulation (`Rel.v`: `Just`): every thunk run so far was run for a reason, which stays a reason, and the others are as they were"),
"C57": ("the discipline with one more outcome, a user panic (`Panic.v`)", "panics as values: a guarded copy of the program returns a fresh value `e` instead of panicking; the engine runs both in lockstep until the panic (`Lockstep.v`), and C01 applies to the copy (`Crash.v`)"),
"C58": ("the engine state left by a panic (`Crash.v`)", "invariant: the frames found and thunks stay, whatever happens later (`Limits.v`, `Types.v`); counterexamples"),
"C59": ("`Cat.v`, `vec_of_list` with a limit (`CatLoop.v`)", "the state after the first force of the thunk is computed; afterwards every force is a clean cache hit (C05), induction on the number of tokens read"),
"C60": ("the edges before and after an edit, compared (`Dirtying.v`); the firewall program of lib.rs with arbitrary functions (`Firewall.v`)", "upper bound: induction on the traversal; lower bound: the invariant of the reached state; for the program, symbolic execution of discipline and specification, inversion of the recorded traces, C56, and induction on the inputs"),
"C61": ("the exploration program of lib.rs over an arbitrary graph, combining function and cycle value (`Cycles.v`), run by the engine model; `dfs` as the specification", "an invariant tying the engine's table and stack to the search's finished and open nodes; induction on the search depth; termination by the pigeonhole bound on the open nodes"),
"C62": ("the graph before and after a demand, compared, and the from-scratch log (`Exact.v`); the switching program of lib.rs with arbitrary functions (`Switch.v`)", "one direction is C56; for the other the main simulation carries that every thunk of the from-scratch log is fresh at the end and every thunk not run is unchanged up to cleaned edges; for the program, inversion of the recorded traces and induction on the session"),
"C63": ("the expansion of each macro as a client program (`Macros.v`)", "equations of the allocation on a memo match, for every state; symbolic execution for the two-cell programs"),
"C64": ("`list_map_eager` and `list_filter_eager` as in `Cat.v`, the editor as a client program (`rounds`)", "what each thunk recorded, from the invariant (`chunk_recorded`); C62's exact set of runs gives the thunks that run in one round; induction over the rounds; counting for the bounds"),
"C65": ("the engine", "each operation of force commutes with a change of the namespace (`NsFree.v`), by induction on the fuel"),
"C66": ("the calls as a client program (`NomMemo.v`)", "symbolic execution of one call in each of the three cases, in any state; induction over the calls; counting over the explicit forest of effects"),
"C67": ("sessions of an editor that builds trees and folds them (`IncTree.v`); what each thunk was last computed from", "the demand runs exactly the thunks of C62; an induction over the tree inverts what each thunk has recorded; edits touch only cells; cost by induction over the place of the edit"),
"C68": ("sessions of an editor that builds lists and reverses them (`IncRev.v`); what each thunk was last computed from, and which accumulator cells were overwritten", "the demand runs exactly the thunks of C62; induction over the list inverts what each thunk has recorded; overwriting a cell dirties exactly the allocation edges to it; the result is read through `gives`"),
"C69": ("client programs that only use locations they were given (`scoped`, a small separate definition); histories of them with any outcomes (`Dangling.v`)", "invariant: every location in the table and on the stack is in the table; a weakest-precondition pass over every function of the engine; the catalog is scoped, function by function (`DanglingEx.v`)"),
"C70": ("all of `arith_parse.rs` except the tests and `generate_balanced_string`, at the value level with names and articulations (`Arith.v`); specification: the usual grammar (`written`), `rust_value`, `value`, `decimal`", "names are forgotten by a relation through `tree_fold_seq`; loop invariant of the operator stack by induction on the grammar; depth counting for the panic; arithmetic of the digits"),
"C71": ("`write_namesym`, `string_of_name/path/loc`, `Debug for Loc`, the cell lines of `write_dcg_file` (`Printing.v`; bytes); specification: `parts`, `avoids`, `forked`, `dot_id`", "induction on names; joining with a separator that does not occur is injective; the verbose form from C41_parse_print"),
"C72": ("the engine model as it is (`Engine.v`); specification in `NoDups.v`: `no_dup_force`, `observed`, `reached` (histories with caught panics)", "an invariant of all nodes and frames kept by every operation whatever its outcome (`pa`); between the duplicate test of `force` and the recording of the edge the executing frame is unchanged (`Context.v`); counterexamples by computation"),
}
