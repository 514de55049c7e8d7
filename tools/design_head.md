# Formal model of adapton.rust in Rocq (Coq 8.16.1)

Source: /repo (Adapton/adapton.rust, pinned, read as text).  Model and proofs: `rocq/theories`
(logical name `Verif`).  `properties.jsonl` lists the properties, `MANIFEST.json` the theorems for
each, `seeded/LOG.jsonl` the wrong programs the theorems were tested against.
(This file is generated by `tools/gen_design.py` from `tools/design_head.md`, the per-property lines in
`tools/design_props.py` and `MANIFEST.json`.)

## 1. Layout

Read in this order: the program (`Base`, `Comp`, `Engine`), the specification (`RefSem`, `Discipline`,
`Spec`), the theorems.  Files marked *proof* contain only lemmas.

| file | content |
|---|---|
| `Base.v` | names, paths, locations, dynamic types, program points, values |
| `Comp.v` | client programs: a tree of public API calls with Coq continuations |
| `Engine.v` | **the DCG engine of `src/engine.rs`, function by function**, an executable state machine |
| `RefSem.v` | **specification**: from-scratch store semantics (no caches, edges, dirty bits, frames) |
| `Discipline.v` | **specification**: the naming discipline S1–S13, an instrumented from-scratch run |
| `Spec.v` | **specification**: the vocabulary of the statements (`returns`, `from_scratch`, `disciplined`, `reached`, …) |
| `Fuel.v`, `DiscRef.v`, `SpecFacts.v` | *proof*: budget monotonicity; a disciplined run is a from-scratch run; functionality of the specification |
| `Graph.v`, `Rel.v` | *proof*: edges, dirtying; the invariant and the relation engine state – store |
| `Watch.v` | the engine of `Engine.v` with a test of its state at the beginning and end of its operations |
| `Steps.v`, `Steps2.v`, `Ops.v`, `Replay.v`, `Sim.v`, `Sim2.v`, `Main.v` | *proof*: the simulation |
| `Consistency.v` | theorems C01–C04, C09, C10 (and the positive halves of C19–C28) |
| `Static.v` | C01 for a syntactic class of programs, without any dynamic hypothesis |
| `Memo.v`, `MemoEx.v` | the same for programs whose thunks allocate thunks and cells, the name determining the content; memoised Fibonacci for all arguments and histories |
| `Demands.v` | C05, C06, C09–C11, C46 |
| `Uncond.v`, `Edits.v`, `Context.v`, `Types.v`, `NodeInv.v` | *proof*: facts about arbitrary engine states |
| `EngineProps.v` | C07, C08, C12–C18 |
| `Limits.v` | C22, C24, C29 (universal negative facts) |
| `Demo.v`, `Refuted.v` | concrete programs on which the code breaks the unrestricted claim: C19–C23, C26–C29, C44 |
| `Necessity.v` | every clause of the discipline is needed (`every_clause_needed`) |
| `Examples.v` | concrete states and programs meeting the hypotheses of the theorems |
| `TraceTree.v`, `TraceCount.v`, `TraceRuns.v` | effect traces and `reflect::trace::trace_count`: C31, C32, C47 |
| `WfCheck.v` | `wf::check_dcg`: C43 |
| `Checked.v` | C43: the engine with the check switched on, what the check guarantees, where it never ends |
| `Share.v` | structural naming: C33 |
| `Naive.v` | the naive engine and art equality: C25, C34 |
| `Manage.v` | `manage::use_engine`, `init_dcg`, `init_naive`: C35 |
| `Names.v` | name constructors and the name counter: C30, C45 |
| `BitString.v` | `catalog/bitstring.rs`: C36 |
| `Lists.v`, `Trees.v` | `catalog/collections.rs`: C37–C40, C48 |
| `Trie.v` | `catalog/trie.rs`: C42 |
| `Parse.v` | `parse_val.rs` against a specification of Rust's `Debug` printing: C41 |
| `Cat.v` | `catalog/collections.rs` again, now with every engine call (cells, thunks, memo, namespaces) as client programs |
| `Layout.v`, `CatEv.v` | lists and trees laid out in the store; evaluation rules (`wp`) for the disciplined semantics |
| `CatTol.v`, `CatFold.v`, `CatSeq.v`, `CatMerge.v`, `CatNm.v`, `CatFilt.v`, `CatList.v` | each catalog function: what it returns and which locations it uses |
| `CatNames.v`, `CatKinds.v`, `CatNmKinds.v` | those locations are distinct, and always used in the same way |
| `CatSpec.v`, `CatSessions.v`, `CatExamples.v` | specification of edit/query sessions; C49; a concrete session |
| `CatRefuted.v` | C50, C51, C52 |
| `CatLoop.v` | C59 |
| `Recording.v` | C53 |
| `Reflected.v` | C54 |
| `TraceShape.v` | C55 |
| `Cutoff.v` | C56 |
| `Dirtying.v` | C60: which edges an edit dirties |
| `Exact.v` | C62 |
| `Switch.v` | C62: the documentation's switching program, all functions, all sessions |
| `NsFree.v` | C65: a demand does not see the namespace |
| `IncMap.v`, `IncMapEx.v` | C64: exactly which thunks run when a list is mapped again, cost of an edit; examples |
| `IncTree.v`, `IncTreeEx.v` | C67: which thunks of a tree fold run, for all trees and histories; logarithmic cost of a leaf edit |
| `IncRev.v`, `IncRevEx.v` | C68: which thunks of `list_reverse` run, for all lists and histories; nominal independence |
| `Dangling.v`, `DanglingEx.v` | C69: arts never dangle, for all scoped programs; the catalog is scoped |
| `Arith.v` | C70: the calculator of arith_parse.rs, all expressions and token trees |
| `Printing.v` | C71: the printed forms of names and locations, when they identify |
| `NoDups.v`, `NoDupsSnap.v` | C72: duplicate edges, in the graph and in snapshots |
| `NomMemo.v` | C66: the documentation's nominal memoization, all functions, all sequences of calls |
| `Macros.v` | the macros of macros.rs as client programs; C63 |
| `Firewall.v` | C60: the documentation's nominal-firewall program, all functions, all input sequences |
| `Cycles.v` | C61: the documentation's exploration of cyclic graphs with force_cycle, all finite graphs |
| `Panic.v` | **specification**: programs whose user code may panic (`tame`) |
| `Lockstep.v` | *proof*: panics as values |
| `Crash.v` | C57, C58 |

## 2. How things are modelled

* **Engine.**  `dcg` = memo table (`gmap loc node`), stack of frames, current path, the two flags that
  matter, plus two ghost logs (thunk bodies run, trace events).  An engine function is a function
  `dcg → out A * dcg`; a Rust panic is an outcome *with the state at the panic* (nothing is rolled back
  in Rust either).  The mutually recursive `force` / `loc_produce` / `clean` take fuel, a Coq artefact:
  theorems say "for every large enough budget" and never count running out of it as a result; budgets
  are monotone (`Fuel.v`).  Dirtying has its own fuel, *computed from the state* and proved sufficient in
  every state, so its termination is a theorem (C08).
* **Client programs.**  Thunk bodies and the editor are the same type `comp`; `code : progpt → arg →
  spurious → comp` is a parameter of everything (type class `Prog`), as are the two hash functions.
  No theorem assumes anything about them except where the statement says so (C33: injectivity).
* **Reference semantics.**  A store maps locations to cell contents or suspended applications; `force` of
  a thunk always re-runs its body.
* **Main proof (C01–C04, C09, C10).**  One simulation: an invariant on engine states (edge symmetry, every
  effectively clean edge is valid, each cached result is explained by a run of the body through the
  recorded edges), total correctness by induction on the nesting depth of the reference evaluation;
  cleaning is proved by induction on the recorded trace, with a restart lemma for the
  give-up-and-re-execute path.
* **Negative results.**  The code does not satisfy several natural claims.  They are recorded as
  properties whose statement says exactly when the claim holds (proved) and that the restriction is
  needed (theorem `.._refuted`: a concrete client program, run both by the engine model and from scratch,
  with different observable results; where possible a universal theorem, e.g. C22, C24, C29, C39, C42).
* **Catalog code** (lists, trees, tries, bit strings, parser) is modelled at the value level: an
  articulation is replaced by the value forcing it yields.  That this is what the engine returns is C01
  (for the class of programs of the discipline); `Cat.v` models the list and tree functions again with every
  allocation, memoisation and namespace they use, and C49–C52 are about those.

## 3. Trusted base

* Coq 8.16.1's kernel (with `vm_compute` conversions used in concrete examples), and the correspondence
  of the hand-written definitions with the Rust text, which the comments cite line by line.
* Axioms: **`Print Assumptions` reports "Closed under the global context" for every theorem named in
  MANIFEST.json** (`python3 tools/audit.py` re-checks this).  The libraries loaded (std++, and the
  ssreflect tactics of Coq itself) declare `Coq.ssr.ssrunder.Under_rel.*`; no theorem depends on them.
* No axioms, no `Admitted`, no functors, no disabled kernel checks.

### Modelled

`src/engine.rs`: names (291–460, 2180–2290), `lookup_abs` … `get_succ_mut` (785–1304),
`dirty_pred_observers`, `dirty_alloc`, `set_`, `check_cell_change` (1306–1400), `ns`, `structural`, `cell`,
`set`, `thunk`, `force`, `force_cycle`, `force_map`, `force_abs` (1503–2085), `loc_produce`, `clean_comp`,
all `DCGDep` implementations (933–1258), the public wrappers (2327–2573), `NaiveThunk`, `thunk_map` and
`EnumArt::eq` (`Naive.v`), `manage` (`Manage.v`), `wf::check_dcg` (`WfCheck.v`), trace emission (180–289);
`src/reflect.rs`: effects and `trace_count`; `src/macros.rs`: the name counter and the expansions of the macros (`Macros.v`);
`reflect_dcg` and `dcg_reflect_begin/end/now` (`Recording.v`, `Reflected.v`); `src/parse_val.rs`; `src/catalog/{collections,bitstring,trie,arith_parse}.rs`.

### Not modelled, or simplified

* `RefCell` borrows, except in `Manage.v` (where a borrow held across user code is the property).
* `usize`/`isize` are unbounded in the engine and name models (bounded in `BitString.v`).
* Hashing of names: a `Name` is its symbol and a hash which is a function of it; `Loc`'s hash field is
  dropped (a function of the other two).  Hashes of values and applications are arbitrary functions.
* Rust closures: the environment a closure captures is part of the *spurious* argument; `Eq` on values is
  structural equality.
* Flags and environment variables other than `use_purity_optimization`,
  `ignore_nominal_use_structural`, `check_dcg_is_wf` (the last one in `WfCheck.v`, `Watch.v` and `Checked.v`); printing, logging,
  `gmlog`; in the snapshot of `dcg_reflect_now` the fields `Succ.value` and `is_dup` (`Reflected.v`).
* Macros are read as the API calls they expand to (written out for C63 in `Macros.v`).
* Panics in `Drop`/allocation failure/stack overflow; threads (the engine is thread local).
* `catalog/arith_parse.rs` and `catalog/fixpoints.rs` are not compiled by the crate (not in `catalog/mod.rs`).  The
  first is modelled from its text (`Arith.v`; not `generate_balanced_string`, which only prints), the second consists of
  functions whose bodies are `panic!("")` and is not modelled; `lib.rs` holds documentation.
* The functions of `Engine.v` are total; Rust non-termination is "no budget suffices".

## 4. Properties

For each: what is modelled, how it is proved; theorem names are those of MANIFEST.json.

