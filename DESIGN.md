# Formal model of adapton.rust in Rocq (Coq 8.16.1)

Source: /repo (Adapton/adapton.rust, pinned, read as text).  Model and proofs: `rocq/theories`
(logical name `Verif`).  `properties.jsonl` lists the properties, `MANIFEST.json` the theorems for
each, `seeded/LOG.jsonl` the wrong programs the theorems were tested against.
(This file is generated by `tools/gen_design.py` from `tools/design_head.md`, the per-property lines in
`tools/design_props.py` and `MANIFEST.json`.)

## 1. Layout

Read in this order: the program (`Base`, `Comp`, `Engine`), the specification (`RefSem`, `Discipline`,
`Spec`), the theorems.  Files marked *proof* contain only lemmas.

| file | content |
|---|---|
| `Base.v` | names, paths, locations, dynamic types, program points, values |
| `Comp.v` | client programs: a tree of public API calls with Coq continuations |
| `Engine.v` | **the DCG engine of `src/engine.rs`, function by function**, an executable state machine |
| `RefSem.v` | **specification**: from-scratch store semantics (no caches, edges, dirty bits, frames) |
| `Discipline.v` | **specification**: the naming discipline S1–S13, an instrumented from-scratch run |
| `Spec.v` | **specification**: the vocabulary of the statements (`returns`, `from_scratch`, `disciplined`, `reached`, …) |
| `Fuel.v`, `DiscRef.v`, `SpecFacts.v` | *proof*: budget monotonicity; a disciplined run is a from-scratch run; functionality of the specification |
| `Graph.v`, `Rel.v` | *proof*: edges, dirtying; the invariant and the relation engine state – store |
| `Watch.v` | the engine of `Engine.v` with a test of its state at the beginning and end of its operations |
| `Steps.v`, `Steps2.v`, `Ops.v`, `Replay.v`, `Sim.v`, `Sim2.v`, `Main.v` | *proof*: the simulation |
| `Consistency.v` | theorems C01–C04, C09, C10 (and the positive halves of C19–C28) |
| `Static.v` | C01 for a syntactic class of programs, without any dynamic hypothesis |
| `Memo.v`, `MemoEx.v` | the same for programs whose thunks allocate thunks and cells, the name determining the content; memoised Fibonacci for all arguments and histories |
| `Demands.v` | C05, C06, C09–C11, C46 |
| `Uncond.v`, `Edits.v`, `Context.v`, `Types.v`, `NodeInv.v` | *proof*: facts about arbitrary engine states |
| `EngineProps.v` | C07, C08, C12–C18 |
| `Limits.v` | C22, C24, C29 (universal negative facts) |
| `Demo.v`, `Refuted.v` | concrete programs on which the code breaks the unrestricted claim: C19–C23, C26–C29, C44 |
| `Necessity.v` | every clause of the discipline is needed (`every_clause_needed`) |
| `Examples.v` | concrete states and programs meeting the hypotheses of the theorems |
| `TraceTree.v`, `TraceCount.v`, `TraceRuns.v` | effect traces and `reflect::trace::trace_count`: C31, C32, C47 |
| `WfCheck.v` | `wf::check_dcg`: C43 |
| `Checked.v` | C43: the engine with the check switched on, what the check guarantees, where it never ends |
| `Share.v` | structural naming: C33 |
| `Naive.v` | the naive engine and art equality: C25, C34 |
| `Manage.v` | `manage::use_engine`, `init_dcg`, `init_naive`: C35 |
| `Names.v` | name constructors and the name counter: C30, C45 |
| `BitString.v` | `catalog/bitstring.rs`: C36 |
| `Lists.v`, `Trees.v` | `catalog/collections.rs`: C37–C40, C48 |
| `Trie.v` | `catalog/trie.rs`: C42 |
| `Parse.v` | `parse_val.rs` against a specification of Rust's `Debug` printing: C41 |
| `Cat.v` | `catalog/collections.rs` again, now with every engine call (cells, thunks, memo, namespaces) as client programs |
| `Layout.v`, `CatEv.v` | lists and trees laid out in the store; evaluation rules (`wp`) for the disciplined semantics |
| `CatTol.v`, `CatFold.v`, `CatSeq.v`, `CatMerge.v`, `CatNm.v`, `CatFilt.v`, `CatList.v` | each catalog function: what it returns and which locations it uses |
| `CatNames.v`, `CatKinds.v`, `CatNmKinds.v` | those locations are distinct, and always used in the same way |
| `CatSpec.v`, `CatSessions.v`, `CatExamples.v` | specification of edit/query sessions; C49; a concrete session |
| `CatRefuted.v` | C50, C51, C52 |
| `CatLoop.v` | C59 |
| `Recording.v` | C53 |
| `Reflected.v` | C54 |
| `TraceShape.v` | C55 |
| `Cutoff.v` | C56 |
| `Dirtying.v` | C60: which edges an edit dirties |
| `Exact.v` | C62 |
| `Switch.v` | C62: the documentation's switching program, all functions, all sessions |
| `NsFree.v` | C65: a demand does not see the namespace |
| `IncMap.v`, `IncMapEx.v` | C64: exactly which thunks run when a list is mapped again, cost of an edit; examples |
| `IncTree.v`, `IncTreeEx.v` | C67: which thunks of a tree fold run, for all trees and histories; logarithmic cost of a leaf edit |
| `IncRev.v`, `IncRevEx.v` | C68: which thunks of `list_reverse` run, for all lists and histories; nominal independence |
| `Dangling.v`, `DanglingEx.v` | C69: arts never dangle, for all scoped programs; the catalog is scoped |
| `Arith.v` | C70: the calculator of arith_parse.rs, all expressions and token trees |
| `Printing.v` | C71: the printed forms of names and locations, when they identify |
| `NoDups.v`, `NoDupsSnap.v` | C72: duplicate edges, in the graph and in snapshots |
| `NomMemo.v` | C66: the documentation's nominal memoization, all functions, all sequences of calls |
| `Macros.v` | the macros of macros.rs as client programs; C63 |
| `Firewall.v` | C60: the documentation's nominal-firewall program, all functions, all input sequences |
| `Cycles.v` | C61: the documentation's exploration of cyclic graphs with force_cycle, all finite graphs |
| `Panic.v` | **specification**: programs whose user code may panic (`tame`) |
| `Lockstep.v` | *proof*: panics as values |
| `Crash.v` | C57, C58 |

## 2. How things are modelled

* **Engine.**  `dcg` = memo table (`gmap loc node`), stack of frames, current path, the two flags that
  matter, plus two ghost logs (thunk bodies run, trace events).  An engine function is a function
  `dcg → out A * dcg`; a Rust panic is an outcome *with the state at the panic* (nothing is rolled back
  in Rust either).  The mutually recursive `force` / `loc_produce` / `clean` take fuel, a Coq artefact:
  theorems say "for every large enough budget" and never count running out of it as a result; budgets
  are monotone (`Fuel.v`).  Dirtying has its own fuel, *computed from the state* and proved sufficient in
  every state, so its termination is a theorem (C08).
* **Client programs.**  Thunk bodies and the editor are the same type `comp`; `code : progpt → arg →
  spurious → comp` is a parameter of everything (type class `Prog`), as are the two hash functions.
  No theorem assumes anything about them except where the statement says so (C33: injectivity).
* **Reference semantics.**  A store maps locations to cell contents or suspended applications; `force` of
  a thunk always re-runs its body.
* **Main proof (C01–C04, C09, C10).**  One simulation: an invariant on engine states (edge symmetry, every
  effectively clean edge is valid, each cached result is explained by a run of the body through the
  recorded edges), total correctness by induction on the nesting depth of the reference evaluation;
  cleaning is proved by induction on the recorded trace, with a restart lemma for the
  give-up-and-re-execute path.
* **Negative results.**  The code does not satisfy several natural claims.  They are recorded as
  properties whose statement says exactly when the claim holds (proved) and that the restriction is
  needed (theorem `.._refuted`: a concrete client program, run both by the engine model and from scratch,
  with different observable results; where possible a universal theorem, e.g. C22, C24, C29, C39, C42).
* **Catalog code** (lists, trees, tries, bit strings, parser) is modelled at the value level: an
  articulation is replaced by the value forcing it yields.  That this is what the engine returns is C01
  (for the class of programs of the discipline); `Cat.v` models the list and tree functions again with every
  allocation, memoisation and namespace they use, and C49–C52 are about those.

## 3. Trusted base

* Coq 8.16.1's kernel (with `vm_compute` conversions used in concrete examples), and the correspondence
  of the hand-written definitions with the Rust text, which the comments cite line by line.
* Axioms: **`Print Assumptions` reports "Closed under the global context" for every theorem named in
  MANIFEST.json** (`python3 tools/audit.py` re-checks this).  The libraries loaded (std++, and the
  ssreflect tactics of Coq itself) declare `Coq.ssr.ssrunder.Under_rel.*`; no theorem depends on them.
* No axioms, no `Admitted`, no functors, no disabled kernel checks.

### Modelled

`src/engine.rs`: names (291–460, 2180–2290), `lookup_abs` … `get_succ_mut` (785–1304),
`dirty_pred_observers`, `dirty_alloc`, `set_`, `check_cell_change` (1306–1400), `ns`, `structural`, `cell`,
`set`, `thunk`, `force`, `force_cycle`, `force_map`, `force_abs` (1503–2085), `loc_produce`, `clean_comp`,
all `DCGDep` implementations (933–1258), the public wrappers (2327–2573), `NaiveThunk`, `thunk_map` and
`EnumArt::eq` (`Naive.v`), `manage` (`Manage.v`), `wf::check_dcg` (`WfCheck.v`), trace emission (180–289);
`src/reflect.rs`: effects and `trace_count`; `src/macros.rs`: the name counter and the expansions of the macros (`Macros.v`);
`reflect_dcg` and `dcg_reflect_begin/end/now` (`Recording.v`, `Reflected.v`); `src/parse_val.rs`; `src/catalog/{collections,bitstring,trie,arith_parse}.rs`.

### Not modelled, or simplified

* `RefCell` borrows, except in `Manage.v` (where a borrow held across user code is the property).
* `usize`/`isize` are unbounded in the engine and name models (bounded in `BitString.v`).
* Hashing of names: a `Name` is its symbol and a hash which is a function of it; `Loc`'s hash field is
  dropped (a function of the other two).  Hashes of values and applications are arbitrary functions.
* Rust closures: the environment a closure captures is part of the *spurious* argument; `Eq` on values is
  structural equality.
* Flags and environment variables other than `use_purity_optimization`,
  `ignore_nominal_use_structural`, `check_dcg_is_wf` (the last one in `WfCheck.v`, `Watch.v` and `Checked.v`); printing, logging,
  `gmlog`; in the snapshot of `dcg_reflect_now` the fields `Succ.value` and `is_dup` (`Reflected.v`).
* Macros are read as the API calls they expand to (written out for C63 in `Macros.v`).
* Panics in `Drop`/allocation failure/stack overflow; threads (the engine is thread local).
* `catalog/arith_parse.rs` and `catalog/fixpoints.rs` are not compiled by the crate (not in `catalog/mod.rs`).  The
  first is modelled from its text (`Arith.v`; not `generate_balanced_string`, which only prints), the second consists of
  functions whose bodies are `panic!("")` and is not modelled; `lib.rs` holds documentation.
* The functions of `Engine.v` are total; Rust non-termination is "no budget suffices".

## 4. Properties

For each: what is modelled, how it is proved; theorem names are those of MANIFEST.json.

**C01 From-scratch consistency of the incremental engine** (proved).  Modelled: whole engine (`Engine.v`) vs `RefSem.v`; hypothesis `disciplined` (`Discipline.v`).  Proof: simulation (Rel/Steps/Ops/Replay/Sim/Main), induction on nesting depth; syntactic classes in `Static.v` and `Memo.v`.  `Consistency.v`: `C01_from_scratch_consistency`, `C01_no_other_outcome`, `from_scratch_functional`.  `Static.v`: `C01_readers`, `static_disciplined`.  `Memo.v`: `C01_memoized`, `memo_disciplined`.  `MemoEx.v`: `C01_memoized_fib`.  `Examples.v`: `ex_disciplined`, `ex_value`, `ex_structural_disciplined`, `ex_readers_ok`.  `Necessity.v`: `relaxed_all`, `every_clause_needed`.  For every program obeying the naming discipline (Discipline.v, clauses S1-S13): the engine returns exactly the from-scratch value, leaves the from-scratch store, and is idle again; never panics. every_clause_needed: dropping any single clause admits a program on which the engine is wrong. C01_readers needs no dynamic discipline hypothesis for a syntactic class of programs (cells + read-only thunks); C01_memoized likewise for a class whose thunks allocate and demand further thunks (memoised functions: the name determines function and arguments), and C01_memoized_fib is its instance for all arguments and all edit histories of a recursive memoised function, with no hypothesis left.

**C02 Store agreement: incremental and from-scratch runs leave the same cells and thunks** (proved).  Modelled: memo table projected to cell contents and suspended applications.  Proof: corollary of the simulation relation.  `Consistency.v`: `C02_store_agreement`.  Every location: same kind, type, content.

**C03 Demand-driven evaluation** (proved).  Modelled: ghost log `runs` vs. the log of the from-scratch demand.  Proof: log inclusion carried through the simulation.  `Consistency.v`: `C03_demand_driven`, `demand_after_history`, `demand_from_scratch_functional`.  `Examples.v`: `ex_demand_disciplined`, `ex_demand`, `ex_demand_runs`.  The thunks run are among those the from-scratch evaluation of the same demand runs.

**C04 Each thunk runs at most once per demand** (proved).  Modelled: ghost log `runs`.  Proof: NoDup carried through the simulation (a finished thunk stays clean within a demand).  `Consistency.v`: `C04_at_most_once`.  `Examples.v`: `ex_demand`, `ex_demand_runs`.  `MemoEx.v`: `C04_memoized_fib`.  NoDup of the bodies run by one outermost force. C04_memoized_fib: its use for a memoised recursive function, every query is linear after every history.

**C05 Repeating a demand does no work** (proved).  Modelled: `force`, `clean_comp`.  Proof: clean-subgraph predicate, induction on the acyclic graph.  `Demands.v`: `C05_repeat_demand`, `C05_clean_cache_hit`.  `Examples.v`: `ex_repeat`, `ex_cache_hit`.

**C06 No-op edits are invisible** (proved).  Modelled: `set_`, `cell`, `thunk` in arbitrary states.  Proof: case analysis of the allocation functions.  `Demands.v`: `C06_set_same`, `C06_cell_same`, `C06_thunk_same`, `C06_thunk_same_structural`.  `Examples.v`: `ex_cell_a`, `ex_modes`, `ex_thunk_sum`, `ex_thunk_struct`.  Unconditional in the engine state; only trace events may be added.

**C07 Editing operations never evaluate user code** (proved).  Modelled: all API calls except forces; programs without forces.  Proof: structural induction on programs; runs unchanged.  `EngineProps.v`: `C07_edits_do_not_evaluate`, `C07_set_does_not_evaluate`, `C07_thunk_does_not_evaluate`, `C07_edit_programs_do_not_evaluate`.  `Examples.v`: `ex_no_demand`.

**C08 Change propagation (dirtying) always terminates and only flips dirty bits** (proved).  Modelled: dirtying with computed fuel, arbitrary states.  Proof: measure: number of clean edges; induction.  `EngineProps.v`: `C08_set_only_dirties`, `C08_thunk_only_dirties`, `C08_cell_only_dirties`, `C08_cell_over_thunk`.  All engine states, also ill-formed ones; termination = never OFuel with the computed dirty_fuel.

**C09 Dirty-bit soundness (dirty implies all observers dirty; clean implies up to date)** (proved).  Modelled: edges of reached states.  Proof: projection of the invariant, restated without its helpers.  `Demands.v`: `C09_clean_edges_up_to_date`, `C09_dirty_propagated`.  `Examples.v`: `ex_clean_edges`, `ex_dirty_edges`.

**C10 Dependency edges are symmetric and never dangle** (proved).  Modelled: edges of reached states.  Proof: projection of the invariant.  `Demands.v`: `C10_edges_symmetric`, `C10_no_self_edges`.  `WfCheck.v`: `C10_acyclic`.  `Consistency.v`: `C01_no_other_outcome`.  Dangling panics excluded by C01_no_other_outcome.

**C11 Cells hold what was last written** (proved).  Modelled: `cell`/`set` followed by `force`.  Proof: direct, using C08.  `Demands.v`: `C11_set_get`, `C11_cell_get`.  `Examples.v`: `ex_set`.

**C12 Art identity is determined by namespace and name** (proved).  Modelled: `cell`/`thunk` in a namespace.  Proof: direct.  `EngineProps.v`: `C12_art_identity`.  `Examples.v`: `ex_identity`.

**C13 ns, structural and force restore their context** (proved).  Modelled: all programs, arbitrary states.  Proof: fuel induction.  `EngineProps.v`: `C13_context_restored`, `C13_force_context`.

**C14 set inside a thunk always panics** (proved).  Modelled: `set` with non-empty stack.  Proof: direct.  `EngineProps.v`: `C14_set_in_thunk_panics`.

**C15 Dynamic type safety of names** (proved).  Modelled: type tags of nodes; all programs and states.  Proof: fuel induction: tags never change.  `EngineProps.v`: `C15_types_never_change`, `C15_force_checked`, `C15_force_map_checked`, `C15_force_abs_checked`, `C15_set_checked`, `C15_cell_checked`, `C15_thunk_checked`, `C15_force_at_type`.  Structural thunk allocation does not check the type of an existing location (engine.rs:1660-1683); the type error then surfaces at the force: C15_force_checked.

**C16 Re-using a name for a different function panics** (proved).  Modelled: `thunk` at an existing thunk.  Proof: direct.  `EngineProps.v`: `C16_different_function_panics`.

**C17 Cycles: unexpected cycle panics; force_cycle returns its default** (proved).  Modelled: `force` at a location on the stack.  Proof: direct, and case analysis of cells.  `EngineProps.v`: `C17_cycle_panics`, `C17_force_cycle_default`, `C17_no_false_cycle`, `C17_cells_are_no_cycles`.

**C18 force_map prunes irrelevant changes** (proved).  Modelled: `force_map` edges and dirtying.  Proof: induction over observers.  `EngineProps.v`: `C18_force_map_prunes`, `C18_nothing_dirtied`.

**C19 Several projections of one cell: one projection per thunk and cell is tracked, more are not** (proved).  Modelled: projections as observations.  Proof: C01 under S5; two counterexample programs.  `Consistency.v`: `C01_from_scratch_consistency`.  `Demands.v`: `C09_clean_edges_up_to_date`.  `Refuted.v`: `C19_two_projections_refuted`, `C19_projection_then_force_refuted`.  `Necessity.v`: `every_clause_needed`, `ex_one_projection`.  `Examples.v`: `ex_disciplined`.  Positive part: C01 under clause S5; the two refuted theorems show the clause is needed.

**C20 Structurally named thunks: consistent if they only touch structural names, or with the purity optimisation off** (proved).  Modelled: purity optimisation.  Proof: C01 under S6 or with the optimisation off; counterexample.  `Consistency.v`: `C01_from_scratch_consistency`.  `Refuted.v`: `C20_structural_thunks_refuted`.  `Necessity.v`: `every_clause_needed`, `ex_structural_reads_off`.  `Examples.v`: `ex_structural_disciplined`.  Positive part: C01 with opt = true under S6, and with opt = false where S6 is void.

**C21 A name must not change between cell and thunk** (proved).  Modelled: `cell` over thunk, `thunk` over cell.  Proof: C01 under S2; counterexamples.  `Consistency.v`: `C01_from_scratch_consistency`.  `Demands.v`: `C11_cell_get`.  `EngineProps.v`: `C08_cell_over_thunk`.  `Refuted.v`: `C21_cell_over_thunk_refuted`, `C21_thunk_over_cell_refuted`.  `Necessity.v`: `every_clause_needed`.  Positive part: C01 under S2, and C11_cell_get.

**C22 Observations through force_abs are never invalidated** (proved).  Modelled: `force_abs` edges.  Proof: universal: no edge is dirtied; counterexample.  `Limits.v`: `C22_never_dirtied`, `ex_abs_only`.  `Refuted.v`: `C22_force_abs_refuted`.

**C23 Cycle values: harmless while unused, cached once used** (proved).  Modelled: `force_cycle`.  Proof: C01 under S9; counterexample.  `Consistency.v`: `C01_from_scratch_consistency`.  `EngineProps.v`: `C17_no_false_cycle`, `C17_force_cycle_default`.  `Refuted.v`: `C23_cycle_values_leak_refuted`.  `Necessity.v`: `every_clause_needed`.  Positive part: C01 under S9 (Discipline ignores the cycle value).

**C24 NameChoice under the DCG engine: Nominal and Structural allocate, Eager and Naive always panic** (proved).  Modelled: `NameChoice`.  Proof: case analysis, all states.  `Limits.v`: `C24_eager_naive_panic`, `C24_other_choices`.

**C25 Art equality: equal arts are interchangeable, except those made by thunk_map** (proved).  Modelled: `EnumArt::eq`, `NaiveThunk::eq`, `thunk_map` on the naive engine.  Proof: relational argument over client programs; counterexample.  `Naive.v`: `C25_equality_is_what_is_seen`, `C25_equal_arts_interchangeable`, `C25_thunk_map_value`, `C25_thunk_map_arts_all_equal`, `C25_equal_arts_differ_refuted`, `ex_same_code`, `ex_same_client`.

**C26 Structural mode: consistent if thunks are always forced in the same mode** (proved).  Modelled: structural flag.  Proof: C01 under S10 in both base modes; counterexample.  `Consistency.v`: `C01_from_scratch_consistency`.  `Refuted.v`: `C26_structural_mode_leaks_refuted`.  `Necessity.v`: `every_clause_needed`.  `Examples.v`: `ex_structural_disciplined`.  Positive part: C01 under S10, for both base modes.

**C27 Within one demand a name must not be re-bound after it was observed** (proved).  Modelled: re-binding inside a demand.  Proof: C01 under S1; counterexample.  `Consistency.v`: `C01_from_scratch_consistency`.  `Refuted.v`: `C27_read_then_overwrite_refuted`.  `Necessity.v`: `every_clause_needed`.  Positive part: C01 under S1.

**C28 A thunk must not allocate its own location** (proved).  Modelled: self allocation.  Proof: invariant (no self edges) under S13; counterexample.  `Demands.v`: `C10_no_self_edges`.  `Consistency.v`: `C01_no_other_outcome`.  `Refuted.v`: `C28_self_allocation_refuted`.  Positive part under S13.

**C29 A panic of user code inside a thunk disables set for ever** (proved).  Modelled: outcome states of panics.  Proof: induction over any later client use: the stack never becomes empty.  `Limits.v`: `C29_no_set_after_user_panic`, `ex_user_panic`.  `Refuted.v`: `C29_panic_poisons_engine_refuted`.  Universal: any state, demand, panic point and any later use.

**C30 Name algebra: forks, pairs and constructors give distinct names** (proved).  Modelled: name constructors with symbols.  Proof: injectivity, induction on fork paths.  `Names.v`: `C30_symbol_determines_name`, `C30_injective`, `C30_disjoint`, `C30_fork`, `C30_fork3`, `C30_fork4`, `C30_pair_new`, `C30_fork_paths`, `C30_fork_independent`, `C30_fork3_independent`, `C30_fork4_independent`.  Names are identified with their symbols; hashes of names are assumed collision free (Base.v).

**C31 Effect traces are balanced** (proved).  Modelled: trace recorder over the event log.  Proof: balancedness by induction on evaluation; recorder simulation.  `TraceCount.v`: `C31_traces_balanced`, `C31_recorder_never_fails`.

**C32 trace_count counts exactly the effects of the trace** (proved).  Modelled: `trace_count` over trace forests.  Proof: mutual induction on forests.  `TraceCount.v`: `C32_trace_count`, `C32_debug_extents_refuted`.  Exact for traces the engine records; Debug extents (never emitted by the engine) would be counted as dirty effects.

**C33 Structural sharing is sound when hashes do not collide** (proved).  Modelled: structural allocation, arbitrary hash functions.  Proof: allocation facts plus persistence by induction on programs.  `Share.v`: `C33_same_art`, `C33_same_cell`, `C33_content`, `C33_forever`, `C33_cell_content`, `ex_perfect`, `ex_shared`.  `Refuted.v`: `S8_hash_collision_merges`.

**C34 The naive engine computes the from-scratch semantics** (proved).  Modelled: naive engine: arts are values/closures.  Proof: simulation with `RefSem`.  `Naive.v`: `C34_naive_from_scratch`, `C34_engines_agree`, `C34_data`, `C34_naive_is_immutable`, `ex_writes_once`, `ex_small_disciplined`, `ex_no_spurious`.

**C35 Switching engines is an exchange** (proved).  Modelled: thread-local engine slot and its borrow flag.  Proof: direct, plus isolation of sessions by induction.  `Manage.v`: `C35_exchange`, `C35_init_dcg`, `C35_init_naive`, `C35_not_while_running`, `C35_engines_isolated`, `ex_sessions`.

**C36 Bit string arithmetic** (proved).  Modelled: bitstring.rs with machine bounds.  Proof: arithmetic on `Z` bits.  `BitString.v`: `C36_pow`, `C36_pow_negative`, `C36_flip`, `C36_flip_sign`, `C36_is_set`, `C36_prepend`, `C36_prepend_value`, `C36_prepend_not_a_bit`, `C36_shift_left`, `C36_max_len`, `C36_bits_roundtrip`, `ex_bits`.

**C37 List functions compute their specification** (proved).  Modelled: collections.rs lists with explicit names/articulations, value level.  Proof: induction on lists/trees.  `Lists.v`: `C37_map_lazy`, `C37_map_eager`, `C37_map_eager2`, `C37_filter_lazy`, `C37_filter_eager`, `C37_reverse`, `C37_reverse_elems`, `C37_fold`, `C37_append`, `C37_is_empty`, `C37_pop`, `C37_push_pop`, `C37_vec_roundtrip`, `C37_vec_all`, `C37_vec_limit`, `C37_merge_elems`, `C37_merge_rest`, `C37_merge_permutation`, `C37_merge_sorted`, `C37_merge_stable`.  `Trees.v`: `C37_mergesort`, `C37_mergesort2`, `C37_mergesort3`, `ex_tree_of_list`.  Value level: an articulation is the value that forcing it gives.

**C38 Level trees keep the sequence** (proved).  Modelled: level trees, any hash function.  Proof: well-founded induction on the list; fold homomorphism.  `Trees.v`: `C38_tree_of_list`, `C38_list_of_tree`, `C38_roundtrip`, `C38_monoid`, `C38_monoid_shape`, `C38_canonical`, `C38_history_independent`, `C38_eager`, `C38_eager_canonical`, `C38_prune`, `C38_filter_tree`, `C38_filter_tree_names_refuted`, `C38_filter_list`, `C38_is_empty`, `C38_lev_of_tree`, `ex_tree_of_list`.  Value level, any hash function.

**C39 list_gen never produces elements** (proved).  Modelled: `list_gen` loop with its inverted condition.  Proof: direct, universal.  `Lists.v`: `C39_list_gen_empty`.

**C40 is_name answers for elements** (proved).  Modelled: `is_name`.  Proof: direct, universal.  `Lists.v`: `C40_is_name_inverted`, `C40_is_name_refuted`.

**C41 Reflection of values through their debug strings** (proved).  Modelled: lexer and parser of parse_val.rs, specification `print` of `Debug`.  Proof: induction on values with continuation; termination by token count.  `Parse.v`: `C41_parse_print`, `C41_terminates`, `C41_structural_art_panics`, `C41_isize_panics`, `C41_float_panics`, `C41_escapes_not_undone`, `C41_backslash_refuted`, `C41_user_constructor_refuted`, `C41_hash64_lost`, `ex_data_ok`, `ex_data_print`.  print (Parse.v) is the specification of Rust's derived Debug output and of the Debug impls of engine.rs.

**C42 Tries: membership is exact, but nothing can be added** (proved).  Modelled: trie.rs, hash bits as parameter.  Proof: induction on the trie.  `Trie.v`: `C42_mem`, `C42_mem_placement_needed`, `C42_find_sound`, `C42_split_atomic`, `C42_split_atomic_mem`, `C42_split_atomic_other`, `C42_fold`, `C42_is_empty_sound`, `C42_is_empty_refuted`, `C42_empty`, `C42_extend_panics`, `C42_of_list_panics`, `ex_trie_ok`, `ex_split`.

**C43 The built-in well-formedness check never fails on a disciplined program, and what it guarantees** (proved).  Modelled: `wf::check_dcg` in any visiting order (`WfCheck.v`), the engine that calls it at the beginning and end of its operations (`Watch.v`).  Proof: the simulation (`Sim.v`-`Main.v`) is carried out for the engine with an arbitrary test that the simulation relation implies; the invariant of the relation, which allows for running thunks, implies that the check passes; nodes carry at most one dirty edge per target (`okd`) in every state; converse by induction on the recursion of the check (`Checked.v`).  `WfCheck.v`: `C43_check_passes`, `ex_check`.  `Checked.v`: `C43_checked_engine`, `C43_checked_demand`, `C43_check_sound`, `C43_check_sound_running`, `C43_checked_before_and_after`, `C43_checked_inside`, `C43_circle_refuted`, `ex_checked`, `ex_checked_bites`, `ex_checked_bites_inside`, `ex_check_sound`.  The calls of the check inside the engine are modelled in Watch.v, where the whole engine is run with a test at the places where engine.rs calls it; the positive claim excludes force_cycle (not disciplined): C43_circle_refuted. The DOT file that check_dcg can also write (flag write_dcg) is not modelled.

**C44 Cycle detection covers evaluation but not change propagation** (proved).  Modelled: cycle check on the stack.  Proof: C17, C01; counterexample for cleaning.  `EngineProps.v`: `C17_cycle_panics`, `C17_no_false_cycle`.  `Consistency.v`: `C01_no_other_outcome`.  `Refuted.v`: `C44_missed_cycle_refuted`.

**C45 Fresh program-wide name counter** (proved).  Modelled: the thread-local counter.  Proof: induction on the calls.  `Names.v`: `C45_fresh_names`, `C45_not_reserved_refuted`.  The counter's names are pairwise distinct, but collide with names the client makes with name_of_usize.

**C46 Locality of edits** (proved).  Modelled: `set` then `force`.  Proof: reachability in the graph, C08 frame.  `Demands.v`: `C46_unrelated_set`.  `Examples.v`: `ex_unrelated`.

**C47 The effect trace shows every evaluation** (proved).  Modelled: event log vs ghost log.  Proof: fuel induction on evaluation.  `TraceRuns.v`: `C47_trace_shows_evaluations`.

**C48 Association lists are finite maps and sets** (proved).  Modelled: association lists of collections.rs.  Proof: induction on lists.  `Lists.v`: `C48_find_is_first_binding`, `C48_find_update`, `C48_find_empty`, `C48_fold`, `C48_mem_add`, `C48_mem_empty`, `C48_mem_inter`.

**C49 Incremental list pipelines are right after any edits** (proved).  Modelled: `Cat.v`: the catalog functions with all their engine calls; editor sessions (`CatSpec.v`).  Proof: weakest-precondition rules for the disciplined semantics over a layout of the locations a query will use (`Layout`, `CatEv`); each function laid out by induction (`CatTol`, `CatFold`, `CatSeq`, `CatMerge`, `CatNm`, `CatFilt`, `CatList`); layouts are duplicate-free and kind-stable across edits (`CatNames`, `CatKinds`, `CatNmKinds`); then C01.  `CatSessions.v`: `C49_sessions`.  `CatSpec.v`: `denotes_functional`.  `CatExamples.v`: `ex_session_valid`, `ex_session_results`, `ex_lookups_valid`, `ex_lookups_results`.  The catalog functions are modelled with their engine calls (Cat.v); F bounds the recursion depth inside one thunk body.

**C50 List functions need their own namespace** (proved).  Modelled: the same programs in one namespace.  Proof: execution of the engine on the state `list_of_vec` leaves, induction on the elements before the first name; examples for the other functions.  `CatRefuted.v`: `C50_map_same_namespace`, `C50_filter_same_namespace`, `C50_reverse_same_namespace`, `C50_map_lazy_same_namespace`, `C50_filter_lazy_same_namespace`, `C50_others`, `ex_named`, `ex_no_name`.  The eager and lazy list functions for all lists with a name; tree_of_list and folding on examples (C50_others).

**C51 Pruning a tree is not incremental** (proved).  Modelled: the same.  Proof: counterexample.  `CatRefuted.v`: `C51_prune_refuted`.

**C52 The output of mergesort cannot be made into a tree again incrementally** (proved).  Modelled: the same.  Proof: counterexample.  `CatRefuted.v`: `C52_resort_refuted`.

**C53 Recording effects is transparent, and its begin/end protocol** (proved).  Modelled: `TRACES` beside the engine, calls and answers as a history (`Recording.v`).  Proof: the engine's state never depends on the log; depth invariant of the recorder's stack through panics.  `Recording.v`: `C53_recording_transparent`, `C53_protocol`, `C53_nested_begin`, `C53_end_without_begin`, `C53_user_panic_disables_recording`, `C53_outer_panic_harmless`, `ex_ran`, `ex_recording_panic`.

**C54 A snapshot of the graph is faithful** (proved).  Modelled: `impl Reflect` for the graph, any iteration order (`Reflected.v`).  Proof: induction on the table's entries; C41 for values, C10 for edges.  `Reflected.v`: `C54_snapshot_faithful`, `C54_snapshot_shows`, `C54_cell_value`, `C54_thunk_value`, `C54_panics`, `C54_panics_on_structural_art`, `C54_snapshot_edges`, `C54_hash_names_refuted`, `ex_snapshot`.  The values cached on edges (Succ.value) and is_dup are left out of the snapshot model.

**C55 The shape of recorded traces** (proved).  Modelled: grammar of traces (`TraceShape.v`).  Proof: fuel induction with a Hoare-style judgement attributing each effect; mutual induction on the grammar.  `TraceShape.v`: `C55_trace_grammar`, `C55_every_node`, `ex_trace_counts`, `ex_demand_recorded`.

**C56 Early cutoff: only thunks with a changed input are run again** (proved).  Modelled: the graph before and after a demand, compared (`Cutoff.v`).  Proof: an invariant carried through the main simulation (`Rel.v`: `Just`): every thunk run so far was run for a reason, which stays a reason, and the others are as they were.  `Cutoff.v`: `C56_reason_to_rerun`, `C56_early_cutoff`, `C56_demand_remembers`, `C56_edits_remember`, `ex_cutoff`, `ex_cutoff_runs`, `ex_remembered`.

**C57 Panics of user code surface exactly when from-scratch evaluation panics** (proved).  Modelled: the discipline with one more outcome, a user panic (`Panic.v`).  Proof: panics as values: a guarded copy of the program returns a fresh value `e` instead of panicking; the engine runs both in lockstep until the panic (`Lockstep.v`), and C01 applies to the copy (`Crash.v`).  `Crash.v`: `C57_same_outcome`, `C57_panics_exactly_when`, `C57_demand`, `C57_no_stale_answer`, `C57_demand_example`, `C57_program_example`.

**C58 After a caught panic the engine is not usable** (proved).  Modelled: the engine state left by a panic (`Crash.v`).  Proof: invariant: the frames found and thunks stay, whatever happens later (`Limits.v`, `Types.v`); counterexamples.  `Crash.v`: `C58_panicked_thunk_is_lost`, `C58_stale_after_panic_refuted`, `C58_no_recovery_refuted`.  `Limits.v`: `ex_user_panic`.

**C59 mergesort_list_of_tree2 makes an endless list** (proved).  Modelled: `Cat.v`, `vec_of_list` with a limit (`CatLoop.v`).  Proof: the state after the first force of the thunk is computed; afterwards every force is a clean cache hit (C05), induction on the number of tokens read.  `CatLoop.v`: `C59_mergesort2_refuted`, `ex_sort2_left`.

**C60 Dirtying is exact; the nominal firewall** (proved).  Modelled: the edges before and after an edit, compared (`Dirtying.v`); the firewall program of lib.rs with arbitrary functions (`Firewall.v`).  Proof: upper bound: induction on the traversal; lower bound: the invariant of the reached state; for the program, symbolic execution of discipline and specification, inversion of the recorded traces, C56, and induction on the inputs.  `Dirtying.v`: `C60_set_dirties_exactly`, `C60_cell_dirties_exactly`, `C60_thunk_dirties_exactly`, `C60_firewall`.  `Firewall.v`: `C60_nominal_firewall`, `C60_firewall_sessions`, `ex_doc_firewall`, `ex_firewall`, `ex_set_a_dirt`, `ex_realloc_hyps`.

**C61 force_cycle explores cyclic graphs** (proved).  Modelled: the exploration program of lib.rs over an arbitrary graph, combining function and cycle value (`Cycles.v`), run by the engine model; `dfs` as the specification.  Proof: an invariant tying the engine's table and stack to the search's finished and open nodes; induction on the search depth; termination by the pigeonhole bound on the open nodes.  `Cycles.v`: `C61_explores`, `C61_sessions`, `C61_vector`, `C61_doc_example`, `C61_kept_answers_refuted`, `dfs_total`, `doc_closed`.  C61_explores / C61_sessions: the engine's values and run log for every finite graph. The specification is the search dfs at the head of Cycles.v; C61_vector says it without dfs. C61_kept_answers_refuted: the last sentence of the property, on the documentation's graph.

**C62 A demand runs exactly the thunks it must** (proved).  Modelled: the graph before and after a demand, compared, and the from-scratch log (`Exact.v`); the switching program of lib.rs with arbitrary functions (`Switch.v`).  Proof: one direction is C56; for the other the main simulation carries that every thunk of the from-scratch log is fresh at the end and every thunk not run is unchanged up to cleaned edges; for the program, inversion of the recorded traces and induction on the session.  `Exact.v`: `C62_runs_exactly`, `C62_nothing_to_do`.  `Switch.v`: `C62_switching`, `C62_switching_sessions`, `ex_doc_switching`, `ex_runs_exactly`.

**C63 The macros and the identity of thunks** (proved).  Modelled: the expansion of each macro as a client program (`Macros.v`).  Proof: equations of the allocation on a memo match, for every state; symbolic execution for the two-cell programs.  `Macros.v`: `C63_ident_body_ignored`, `C63_let_memo_body_ignored`, `C63_captured_ignored`, `C63_spurious_ignored`, `C63_text_changed_panics`, `C63_none`, `C63_second_body_gets_first_value`, `C63_captured_variable`, `C63_argument`, `ex_second_use`.

**C64 The incremental cost of list_map_eager and list_filter_eager** (proved).  Modelled: `list_map_eager` and `list_filter_eager` as in `Cat.v`, the editor as a client program (`rounds`).  Proof: what each thunk recorded, from the invariant (`chunk_recorded`); C62's exact set of runs gives the thunks that run in one round; induction over the rounds; counting for the bounds.  `IncMap.v`: `C64_map_round`, `C64_sessions`, `C64_one_more`, `C64_edit_cost`, `C64_same_again`, `C64_undo_cost`, `C64_incremental`.  `IncMapEx.v`: `ex_im_hyps`, `ex_im_theorem`.  each run of elements between two names is shorter than the recursion bound F of the model, which is arbitrary

**C65 A demand does not see the namespace** (proved).  Modelled: the engine.  Proof: each operation of force commutes with a change of the namespace (`NsFree.v`), by induction on the fuel.  `NsFree.v`: `C65_force_any_namespace`, `C65_ns_of_force`, `force_ignores_namespace`.  `IncMapEx.v`: `ex_any_namespace`.

**C66 Nominal memoization: when a named call is computed** (proved).  Modelled: the calls as a client program (`NomMemo.v`).  Proof: symbolic execution of one call in each of the three cases, in any state; induction over the calls; counting over the explicit forest of effects.  `NomMemo.v`: `C66_nominal_memo`, `ex_doc_nominal`.

**C67 The incremental cost of folding a tree** (proved).  Modelled: sessions of an editor that builds trees and folds them (`IncTree.v`); what each thunk was last computed from.  Proof: the demand runs exactly the thunks of C62; an induction over the tree inverts what each thunk has recorded; edits touch only cells; cost by induction over the place of the edit.  `IncTree.v`: `C67_fold_round`, `C67_sessions`, `C67_one_more`, `C67_edit_cost`, `C67_same_again`, `C67_incremental`, `C67_log_cost`.  `IncTreeEx.v`: `ex_it_hyps`, `ex_it_counts`, `ex_it_engine`, `ex_it_theorem`.  the recursion bound of the model must exceed the height of the trees

**C68 Nominal independence: the incremental cost of list_reverse** (proved).  Modelled: sessions of an editor that builds lists and reverses them (`IncRev.v`); what each thunk was last computed from, and which accumulator cells were overwritten.  Proof: the demand runs exactly the thunks of C62; induction over the list inverts what each thunk has recorded; overwriting a cell dirties exactly the allocation edges to it; the result is read through `gives`.  `IncRev.v`: `C68_reverse_round`, `C68_sessions`, `C68_one_more`, `C68_edit_cost`, `C68_change_one`, `C68_same_again`, `C68_undo_cost`, `C68_incremental`, `C68_front_is_free`, `reads_fun`.  `IncRevEx.v`: `ex_ir_hyps`, `ex_ir_theorem`, `nu_good`.  names of the input are API names not of the form rev·k, which list_reverse uses for its own cells; chunks shorter than the recursion bound of the model; ex_ir_counts and ex_ir_engine show the bounds are reached

**C69 Arts never dangle** (proved).  Modelled: client programs that only use locations they were given (`scoped`, a small separate definition); histories of them with any outcomes (`Dangling.v`).  Proof: invariant: every location in the table and on the stack is in the table; a weakest-precondition pass over every function of the engine; the catalog is scoped, function by function (`DanglingEx.v`).  `Dangling.v`: `C69_no_dangling`, `C69_results_live`, `C69_closed`, `C69_nothing_forgotten`, `C69_table_grows`, `C69_cell_for_ever`, `C69_thunk_for_ever`, `C69_other_engine`.  `DanglingEx.v`: `C69_catalog_scoped`, `C69_ex`.  the privacy of the fields of AbsArt and Loc is the hypothesis scoped: locations known to a program come from the engine

**C70 The calculator: infix to postfix to value** (proved).  Modelled: all of `arith_parse.rs` except the tests and `generate_balanced_string`, at the value level with names and articulations (`Arith.v`); specification: the usual grammar (`written`), `rust_value`, `value`, `decimal`.  Proof: names are forgotten by a relation through `tree_fold_seq`; loop invariant of the operator stack by induction on the grammar; depth counting for the panic; arithmetic of the digits.  `Arith.v`: `C70_panics_iff_unmatched`, `C70_postfix`, `C70_tokens`, `C70_tokens_value`, `C70_text`, `C70_text_misread`, `C70_numerals_refuted`, `C70_ex`, `C70_ex_misread`, `C70_ex_unmatched`.  arith_parse.rs is not compiled by the crate (catalog/mod.rs does not list it); modelled from its text, at the value level, on top of the models of tree_fold_seq and tree_of_list (C38). The positive claim about literals holds exactly for those the theorem names: C70_numerals_refuted

**C71 The printed forms of names and locations** (proved).  Modelled: `write_namesym`, `string_of_name/path/loc`, `Debug for Loc`, the cell lines of `write_dcg_file` (`Printing.v`; bytes); specification: `parts`, `avoids`, `forked`, `dot_id`.  Proof: induction on names; joining with a separator that does not occur is injective; the verbose form from C41_parse_print.  `Printing.v`: `C71_atoms`, `C71_names_exact`, `C71_forks`, `C71_locations_exact`, `C71_debug_names`, `C71_debug_arts`, `C71_dot_exact`, `C71_names_refuted`, `C71_locations_refuted`, `C71_dot_refuted`, `ex_printed`, `ex_printed_meets`.  The documentation calls the concise form human-readable and does not promise injectivity, but it is used for CSS classes of nodes; the positive theorems say exactly when it identifies.

**C72 Recorded dependencies: duplicate edges** (proved).  Modelled: the engine model as it is (`Engine.v`); specification in `NoDups.v`: `no_dup_force`, `observed`, `reached` (histories with caught panics).  Proof: an invariant of all nodes and frames kept by every operation whatever its outcome (`pa`); between the duplicate test of `force` and the recording of the edge the executing frame is unchanged (`Context.v`); counterexamples by computation.  `NoDups.v`: `C72_no_duplicate_force`, `C72_observed_once`, `C72_force_records`, `C72_allocations_refuted`, `C72_projections_refuted`, `ex_dups_no_maps`, `ex_dups_reached`, `ex_force_records`.  `NoDupsSnap.v`: `C72_snapshot`, `ex_snap_dups`.  Unconditional: any client code, any engine state reached, also with leftover frames after a caught panic. The flag is_dup of a traced force is is_dup of Engine.v (is_dup_observed); the constant false at allocations and force_map is what the two refuted theorems are about.

