# Design

Subject: the Rust crate `rangemap` pinned in `/repo` (read as text, never built).
Prover: Coq/Rocq 8.16.1, standard library only. Build: `cd rocq && coq_makefile -f _CoqProject -o Makefile && make -j4`.

## Modelling decisions

* **Keys** are an arbitrary type with `cmp : K -> K -> comparison` satisfying Rust's
  `Ord` contract (`TotalOrd`, `Order.v`): a total *pre*order. `cmp x y = Eq` does not
  imply `x = y` (e.g. `NotNan(-0.0)` / `NotNan(0.0)`).
* **Values** are an arbitrary type with `veqb` satisfying `PartialEq`'s contract:
  symmetric and transitive (`PartialEquiv`), *not* assumed reflexive (`V: PartialEq`).
  Theorems that need `V: Eq` carry the hypothesis `forall v, veqb v v = true`.
* **Panics** are an explicit outcome; the state at the moment of the panic is kept, so
  histories include calls whose panic was caught. **Loops** run on fuel; `OutOfFuel` is
  a separate outcome which the theorems exclude (so termination is proved).
* **`BTreeMap`** is the list of its entries in iteration order (`BTree.v`), following
  std's documented behaviour (insert on an equal key keeps the old key object;
  `range` panics on ill-formed bounds). `SearchTree.v` justifies the list scan: for any
  search tree shape the descent finds the same cut, provided the entries are sorted in
  the order used for the search (which is proved for both orders used, C22).
* **Histories**: `op := insert | remove | clear | extend`, executed from the empty map;
  "reachable" = result of some history. Sets add `&` and `|`: `C49_closed` / `C56_closed`
  show that every expression over histories, `|` and `&` is again the result of a history,
  so the theorems about histories cover operator results too.
* **Inclusive map**. `RangeInclusiveMap` is modelled separately, function by function
  (`IMapModel.v`), with the step functions as partial operations whose only law
  (`StepLaws`) speaks about keys that have a neighbour. The proofs go through a
  simulation (`ISim.v`): the inclusive map over `K` with range `s..=e` runs in lock step
  with the half-open *model* over "cuts" (`Cuts.v`), the positions just before and just
  after a key; the cut after `k` and the cut before `k+1` compare equal. The simulation is
  about every intermediate state and outcome, not about a specification, so a bug in
  `IMapModel.v` breaks it.
* **Sets** are modelled as the one-field wrappers they are (`SetModel.v`, `ISetModel.v`);
  the union and intersection iterators of `operations.rs` as state machines over two
  peekable iterators (`OpsModel.v`), proved once for both range types via the positions of
  the ends of a range in a total order (`OpsProofs.v`).
* **Step functions** (`StepModel.v`). Integers: bounded `Z` with debug (panic) and release
  (wrap) arithmetic, all eleven types with an impl. Floats: `NotNan` as bit patterns; order and equality
  are those of the decoded `SpecFloat` values (stdlib, no axioms), `next_up`/`next_down` on bits.
* **Interrupted updates** (`CrashModel.v`): user code (`Ord`, `Clone`, `PartialEq`, step
  functions, iterators) may panic anywhere between two modifications of the `BTreeMap`; the
  same functions over a recording monad, with the proof that forgetting the record gives the
  plain model back (`C62_record_faithful`).
* **Clone** is the identity in `MapModel.v`/`IMapModel.v`. `CloneModel.v` writes the same functions
  with every `.clone()` a call of user code that sees a running count (so clones may differ from the
  original and from each other); C73/C74 show that a lawful clone changes nothing visible.
  `CloneSetModel.v` does so for the sets and `operations.rs` (C79/C80); there `collect` inserts each
  item as it is produced, as the code does.
* **Specification** (`Spec.v`) speaks of the point function `K -> option V` computed
  from the history alone (last writer wins), of lists of (range, value) pairs, and of
  keys inside ranges; it shares no helper with the model other than the range and
  order types.
* Coalescing may replace a stored value by an equal (`==`) new one, so lookups are
  compared with `same_val a b := a = b \/ veqb a b = true`; where `==` is identity this
  is equality (corollaries are given).

## Files

| file | content |
| --- | --- |
| `Order.v` `Outcome.v` `BTree.v` `Ranges.v` `History.v` | orders, effects, std's BTreeMap and ranges, histories |
| `Spec.v` `SpecExact.v` `SpecProg.v` `SpecOps.v` `SpecHalt.v` `SpecStep.v` | specifications, independent of the model |
| `MapModel.v` `IMapModel.v` `SetModel.v` `ISetModel.v` `OpsModel.v` `StepModel.v` `DenseModel.v` `CrashModel.v` `CrashSetModel.v` `CloneModel.v` `CloneSetModel.v` `WrapperModel.v` `WorkModel.v` `FuzzModel.v` `PropModel.v` `ProgModel.v` `OpsCostModel.v` `AskModel.v` `HaltModel.v` `AskIterModel.v` `WithinModel.v` | executable models, each definition citing file:lines |
| `ListLemmas.v` `IterFacts.v` `SearchTree.v` `Instances.v` | generic lemmas, double-ended iterators, search trees, concrete instances |
| `MapProofs.v` `MapRemove.v` `MapFacts.v` `MapIter.v` `MapMore.v` `MapProps.v` | lemmas about `RangeMap` |
| `ISim.v` `Cuts.v` `IFacts.v` `IMapProps.v` | simulation by cuts, lemmas about `RangeInclusiveMap` |
| `OpsProofs.v` `SetFacts.v` `SetProps.v` `ISetProps.v` | set operations and sets |
| `StepFacts.v` `Natural.v` `Cross.v` `CrossProps.v` `DenseFacts.v` | step functions, relabelling, integer agreement, test oracle |
| `CrashFacts.v` `CrashSim.v` `CrashProps.v` `CrashAny.v` `CrashSet.v` `Cost.v` `ExhaustedCrash.v` `ExhaustedAny.v` `ExhaustedEq.v` `WorkFacts.v` `QueryWork.v` `AnyEq.v` `AnyFacts.v` `AnyCrash.v` `AnyCrashIncl.v` `AskFacts.v` `AskSim.v` `AskIncl.v` `LawFacts.v` `CrossMore.v` `CrossProg.v` `RelabelIncl.v` `StepPanic.v` `StepPanicSet.v` `ProgPanic.v` `ProgSub.v` `ProgRuns.v` `WithinFacts.v` `INatural.v` `OpsNatural.v` `StepSub.v` `HaltFacts.v` `HaltIncl.v` `HaltOps.v` `HaltTally.v` `AskIter.v` | interrupted updates, number of modifications and of BTreeMap calls, all with exhausted ranges; arbitrary `==`, arbitrary answers of `==`/`!=`; step laws are necessary; half-open and inclusive queries agree over integers |
| `CloneFacts.v` `CloneProps.v` `CloneSetFacts.v` `CloneSetProps.v` `WrapperFacts.v` | user-supplied `Clone`; key wrappers, `overlaps`/`touches` |
| `OrdFacts.v` `DebugModel.v` `DebugFacts.v` `PrettyFacts.v` `Exhausted.v` `ExhaustedSet.v` `Tiling.v` `OpsRest.v` `FuzzFacts.v` `PropFacts.v` `MapExact.v` `IExact.v` `ProgFacts.v` `ProgAny.v` `ISetAny.v` `OpsAny.v` `CloneCount.v` `CloneBound.v` `OpsCost.v` `OpsClones.v` | order on maps, `Debug` text, exhausted ranges in maps and sets, tiling of queries, set operations on advanced iterators, fuzz targets, property tests, exact entries after updates, programs, set operations on any iterators, numbers of clones |
| `P_Map.v` `P_IMap.v` `P_Set.v` `P_ISet.v` `P_Exhausted.v` `P_Rest.v` `P_Step.v` `P_Cross.v` `P_Crash.v` `P_CrashSet.v` `P_AnyCrash.v` `P_Ask.v` `P_Halt.v` `P_AskIter.v` `P_StepBad.v` `P_StepSub.v` `P_Cost.v` `P_Work.v` `P_Order.v` `P_Query.v` `P_Debug.v` `P_Pretty.v` `P_Clone.v` `P_CloneSet.v` `P_Wrapper.v` `P_AnyEq.v` `P_Laws.v` `P_Agree.v` `P_Fuzz.v` `P_Prop.v` `P_Exact.v` `P_Prog.v` `P_Ops.v` `P_CloneCost.v` `P_OpsCost.v` | property theorems only: `Theorem`, `exact lemma`, `Print Assumptions`, and non-vacuity `Example`s |

## Per property

Every line: what is modelled; how proved.

* C01 `insert/remove/clear/extend/get`; invariant + refinement of the point function, induction over the history.
* C02, C03 outcome of `insert`/`remove` on every reachable map; decomposition of the map around the range, induction on the part to the right, fuel shown sufficient.
* C04, C05 the invariant itself (strongly sorted, touching => different values); `C05_between_equal_values` spells out what lies between two entries with equal values.
* C06, C07 lookup lemma on sorted lists; maximality from the invariant by case analysis on neighbours.
* C08 canonicity: two sorted coalesced lists with the same point function are element-wise equal.
* C09 corollaries of C01 + C08 (`V: Eq`); `C09_laws_observed` and `C33_laws_observed` state the laws through `get` for values that need not equal themselves.
* C10, C11 iterator as state machine `gp_next`; induction on the remaining entries; doc claim refuted by a witness.
* C12-C14 iterator as state machine with `next`/`next_back`; the set of remaining items is an interval of the sorted list; refutation for empty queries.
* C15, C16 list facts on the invariant; schedules by induction.
* C17 `extend`/`from_iter`/`from` as folds of insert.
* C18, C19 serde modelled as the sequence of elements exchanged; inserting a sorted coalesced list rebuilds it. Byte formats are out of scope (serde's data model only).
* C20 hash modelled as the sequence of writes; C21 lexicographic order of the expanded entries.
* C22 order-by-end = order-by-start on the invariant; arbitrary search trees (`SearchTree.v`).
* C23 minimality by an injection from entries to pieces of any other representation; growth bounds from the insert/remove decomposition.
* C24 from the decomposition lemma.
* C25-C44 same, for `RangeInclusiveMap`, with step functions lawful only where a neighbour exists; C38 refutations by witnesses, and the general behaviour with exhausted ranges by a homomorphism that clears the flags (`Exhausted.v`; for interrupted calls and the number of modifications `ExhaustedCrash.v`, which removes the restriction to unexhausted ranges from C63, C72, C76; `ExhaustedAny.v` removes it from C22, C26-C30, C34-C37, C39, C40, C43, C44 and C66: overlapping yields the stored entries themselves because no two entries of a map differ only in the flag); C43 by showing that the step functions are only called where a neighbour exists (two runs are equal).
* C45-C57 sets are maps to `()` (C53-C57 with exhausted ranges: `ISetAny.v`); union/intersection iterators as state machines over two entry lists. The union is pinned down by `welded`: it joins overlapping ranges and only those, so merely touching pieces stay separate (C51).
* C58 integers as bounded `Z`, overflow = panic or wrap; C59 floats as bit patterns with their decoded order (decoding: sign, exponent, fraction as in IEEE 754; a step and the step back cancel).
* C60 both maps are related to a half-open map over `Z`: the half-open one by relabelling (C67), the inclusive one by the cut simulation with cuts `k`, `k + 1`. Keys are anything standing for integers; instantiated with every primitive integer type in both build modes.
* C61 filter then extend. 
* C62, C63 every map that an interrupted update can leave behind is recorded. `C62_record_faithful`/`C62_record_complete` say what the record is: it starts with the map before the call, ends with the map after it, and changes by one entry at a time. Half-open: a trace invariant shows that each one is well formed and coalesced and is the old map minus some of its keys (or the completed call); a well-formed map is the result of inserting its entries, hence reachable. Inclusive: every recorded state simulates a recorded state of the half-open update over cuts. "Only keys of the call's own range can be affected" is false: `C62_only_own_range_refuted`, `C63_only_own_range_refuted` (a neighbour is removed before it is reinserted). What is never affected: an entry that the call neither overlaps nor coalesces with is, identically, in every recorded map (the recorded maps form a chain of single `BTreeMap` insertions and removals, none of which concerns such an entry). An interrupted `extend` is inside one of its inserts (`crash_for_each`). With exhausted ranges (`CrashAny.v`): a well-formed inclusive map, whatever its flags, is the result of inserting its entries (`IWF`, `irebuild_from` of C97), so interrupted histories reach nothing new.
* C64 instances with a non-reflexive `veqb`. C65 `dense.rs` modelled in full (`DenseModel.v`), overflow checks included: the oracle is a sorted list with one entry per key; its coalescing iterator yields a canonical range list with the same point function, hence (C08's canonicity) the range map's entries. With a value that is not `==` itself the oracle splits ranges: `C65_oracle_nan_refuted`.
* C66 the single-step chain of C62/C63 again: the entry itself survives, not just an equal one.
* C67 relabelling is a homomorphism of every model function (`Natural.v`), for all states, without any law; for the inclusive map through the description of updates as functions on entry lists (C95), which respect the relabelling, and a simulation of the queries (`RelabelIncl.v`); exhausted ranges included. Sets, `|`, `&` and the iterators: `OpsNatural.v`, first for any range type through the traits' methods, then for both sets. Programs of C96 (`h_prog` in `ProgRuns.v`; no law) and of C97 (`n_prog` in `ProgSub.v`, which excepts stops in a step function; `iprog_runs` excludes those).
* C68 `lex_cmp`/`lex_pcmp` against the declarative `lex_before`/`lex_stuck` of `Spec.v` (split at the first difference); no law is assumed of the comparisons.
* C69 `DebugModel.v` models the compact form of `core::fmt`'s `debug_map`/`debug_set` builders as a state machine over the text written; the builders' documented behaviour and that of `Debug for Range`/`RangeInclusive` are trusted. Delimited texts (`Spec.v`) are the only assumption of the separation theorems; `C69_integers` discharges it for decimal integers.
* C70 the assertion of the fuzz targets `rangemap_gaps.rs` and `rangemap_inclusive_gaps.rs`, for all maps. `tiles`/`tilesi`/`clip`/`clipi` are in `Spec.v`; proved in `Tiling.v` from C09 and C10 (C33, C34) alone: merge the two ascending lists, then every key of the query lies in exactly one of them.
* C71, C72 counted on the record of C62/C63 (`length (fst (rmx_exec …))`, `modifications`). `Cost.v`: a cost logic with the number of entries as potential. A removal costs nothing (the entry it drops paid when it was inserted), an insertion 2; a call inserts at most three entries (left piece, right piece, the new range) because once a right piece has been written the loop stops at it. Inclusive: the record is simulated step by step (`CrashSim.v`), so it is as long. The bounds are attained (examples). `C71_at_least` is the lower bound, `C71_bounded_call_refuted` the unboundedness of single calls. The work inside `BTreeMap` is not modelled.
* C73, C74 `CloneModel.v` threads a clone counter through every model function; `csim` (`CloneFacts.v`) is a simulation up to two arbitrary relations on keys and values that comparisons and `==` respect; instantiated with `alike_key`/`alike` (`Spec.v`) for the theorems and with equality for `C73_identity`/`C74_identity` (identity clones give the maps of all other theorems). `C73_unlawful_clone_refuted`, `C74_unlawful_clone_refuted`: without the law for keys the claim is false.
* C75, C76 `WrapperModel.v` models the wrappers of `range_wrapper.rs` in full; `ord_contract` in `Spec.v`. The Borrow law at every moment: the maps of histories with interrupted calls (`rmx_run`) are exactly the maps at some moment between two modifications, and they are reachable (C62, C63), hence sorted by both ends (C22).
* C77, C78 `share`, `joined` in `Spec.v`, on arbitrary ranges; proved directly in `WrapperFacts.v`.
* C79, C80 as C73/C74, on `CloneSetModel.v`; the simulation (`CloneSetFacts.v`) is generic in the range type, as `operations.rs` is. Results are stated through `runs_of`/`pieces_of`, which do not see labels of keys, so no relation to the plain model is needed in the statements. With exhausted ranges (`C80_*_same`, `C80_*_exhausted`) the relation to the plain model is stated, whose behaviour C81 gives.
* C81 `ExhaustedSet.v`: updates, queries and intersection by the homomorphism of C38; the union proof of `OpsProofs.v` redone for a `merge` that may refuse a range starting at the end of an exhausted one. Four refutations by witnesses.
* C82 `OpsRest.v`: a schedule leaves a contiguous part of a sorted list; the generic union and intersection lemmas then apply unchanged.
* C83, C84 `WorkModel.v`: the update functions over a monad that also records every `range`, every item taken from a range iterator, and every `insert`/`remove`/`clear`; proved to compute the same results and, among the calls, the same modifications as `CrashModel.v` (C62), by unfolding; loops: each further search follows a removal, by induction on the fuel; then C71/C72.
* C85 `DebugModel.v` (second half): `split_inclusive`, `PadAdapter::write_str` with its `on_newline` state, `DebugMap`/`DebugSet` in alternate mode; the pad adapter indents the concatenation of what is written to it (induction over the text), indenting is injective, then as C69.
* C86, C87 `QueryWork.v`: items taken are counted by the length of the list standing for the `BTreeMap` range iterator; each call of `next_back` (`gaps`: `next`) lowers the number of entries behind (overlapping) the query by all it takes but one. That `BTreeMap::range` finds its first item without walking there is std's.
* C88, C89 `AnyEq.v` `AnyFacts.v`: the invariant without its value clause is the invariant for an `==` that is never true; `remove` and the queries never call `==`, so their lemmas apply at that instance and only `insert` is proved again; inclusive maps by the simulation over cuts, which needs no law of `==` either. Exhausted ranges (`ExhaustedEq.v`): such a map, flags included, is the one built from its own entries with an `==` that is never true, so the lemmas of `ExhaustedAny.v` apply.
* C90 `LawFacts.v`: sufficiency is C25/C53; necessity by computing `remove` on a one-entry map for arbitrary step functions.
* C91 `CrossMore.v`: each side's answer is a list of runs (or of pieces and their inner points, for the union) by C10/C34, C46/C54, C47/C55; a list of separated integer intervals is determined by what it covers, a list of touching ones by that and its inner points. `CrossProg.v`: a program of `SpecProg.v` leaves what some history of calls leaves, and the histories for the two kinds of range correspond call by call, so the maps agree down to the very values kept.
* C92 the four fuzz targets transcribed (`FuzzModel.v`; `sort_by_key` is insertion sort, `collect` has fuel, the `peekable` loop walks neighbours); from C05/C29 and C70: a list tiling the query is strictly ascending by start, so it is what the sort returns. `arbitrary`'s decoding of bytes into operations is not modelled: all operation lists are covered.
* C93 the crate's `#[proptest]` and `quickcheck!` functions transcribed (`PropModel.v`): shared bodies parametric in the collection, instantiated four times; fuel for every `collect`/`for` over an iterator; `SipHasher` any function of what is written; key and value types are parameters instead of `u8`/`u64`/`String`/`NotNan<f64>`. Proved from the theorems of the four collections. Not modelled: `proptest`'s and `quickcheck`'s choice of inputs and shrinking; tests with fixed inputs (see `Conformance.v`).
* C94 the entries left by `insert`/`remove`, written on plain lists (`SpecExact.v`: parts before and after a key, joined entries, widened range); proved equal (Leibniz) to the model's result by running both loops exactly (`MapExact.v`). `C94_history` turns this into a reference implementation without a search tree; `C94_rebuild` follows since entries of one map neither join nor cut each other.
* C95 the same for inclusive ranges, proved directly on the search tree (`IExact.v`), so key objects and exhausted flags are those of the specification; all ranges.
* C96, C97 programs are a mutual inductive type (`SpecProg.v`) with a pointwise meaning; `ProgModel.v` runs them on the models, iterators drained with fuel `len + 2` (`C96_gap_count`: enough); mutual induction, each step reduced to a history. Closures passed to the iterator adaptors must respect `==` (`C96_respect_needed` shows why); without that, the `_any_closure` theorems (`ProgRuns.v`): such a program has no meaning key by key, but it runs, and what it makes is made by some history. C97: exhausted ranges included (`ProgAny.v`): `_any` theorems, and the laws say `cmp` = Equal always, `==` if no exhausted range went in. `C97_lawless_steps_refuted`: with step functions that panic the same kinds of program panic, so the absence of panics is a consequence of `StepLaws`.
* C98, C99 `OpsAny.v`: the lemmas of `OpsProofs.v` redone without assuming the iterators are a set's: items may overlap, nest or be empty, an iterator may resume after `None`, and a counter in its state bounds how often it is asked. Fuel is any bound on the number of items. The impls take one iterator type for both sides (operations.rs:135, 218), so does the model. Only `Union` is declared `FusedIterator`. Users reach these with a set's `Iter` only (C82); this is the contract of the module itself. C99: positions are before/after each key, so no step functions; exhausted items are allowed (`merge` asks `contains`, which leaves out an exhausted range's end; everything else goes by the bounds).
* C100, C101 `CloneCount.v`: the clone model (which numbers the clones) is run in step with the work model (which records the `BTreeMap` calls), with a budget: each clone is charged to a search (3), an insertion or a removal (2). `CloneBound.v` adds C71/C83 for the amortised bounds; the potential is 5 per entry. A stored key is cloned as its two bounds.
* C102 `OpsCostModel.v`: `operations.rs` with every comparison of two keys a call of user code whose answer is an arbitrary function of the number of the call and the two keys; no law of `Ord` is assumed. `OpsCost.v`: forgetting the count gives `OpsModel.v` (with a lawful order), and a budget per range taken bounds the count. An operator such as `<=`, `max` is one comparison.
* C103, C104 `OpsClones.v`: the same budget argument on `CloneSetModel.v`, with the potential of C100/C101 for the insertions into the new set.
* C105, C106 `CrashSetModel.v` passes every update on to the crash model of the map, as the sets do; `CrashSet.v` carries C62/C63 over along that (`sx_exec`, `sx_run`), with membership instead of lookups.
* C107, C108 `AnyCrash.v` redoes the crash analysis with the structural invariant only (`WF cmp never`, no law of `==`): every recorded state but the last only loses keys (`goodE_insert`), and the entries that can be affected are those that touch the range or touch an `==`-valued entry touching it (`near_hit`); `AnyCrashIncl.v` carries it over by the cut simulation and by clearing the flags. `C107_only_touching_refuted`: with an unlawful `==`, `insert` may merge an entry that does not touch the inserted range.
* C109, C110 `AskModel.v`: the updates over a monad that takes the answers of `==` (map.rs:448, inclusive_map.rs:471) and `!=` (map.rs:340, inclusive_map.rs:351) from a list of booleans; a call that needs another answer is `OutOfFuel` (still running). `AskFacts.v`: one loop round keeps the loop invariant whatever the answer, and every answer `true` removes an entry or ends the loop, so few of them can occur before it returns; `AskSim.v`/`AskIncl.v`: the inclusive loop asks the same questions in the same order. `C109_function`/`C110_function` tie the model to `CrashModel.v`. `C109_insert_always_returns_refuted`: `==` and `!=` both never true make `insert` spin.
* C111-C114 `HaltModel.v`: `Overlapping`, `Gaps`, `Union`, `Intersection` over a monad that records, for every call of user code, its kind and the fields of the iterator at that moment (those left behind if it panics); the calls and their order are read off the code (`Range::contains`: start, then end). `*_erase`: forgetting the record gives the plain models. `HaltFacts.v`/`HaltIncl.v`: at each recorded state the iterator stands for what it stood for before, less at most one entry or gap. `HaltOps.v`: `Union` keeps a partly assembled piece in a local variable, `Intersection` calls user code before it takes anything. Not modelled: iterators underneath that panic themselves (those of the sets call no user code), and panics while the iterator is made. `*_calls` (`HaltTally.v`): the record is complete: the recorded comparisons and clones are as many as those of the models that count them (`AskIterModel.v`, `CloneModel.v`, `OpsCostModel.v`, `CloneSetModel.v`), and where no step is recorded the step functions make no difference.
* C115, C116 `AskIterModel.v`: `Overlapping` and `Gaps` with each comparison of two keys a call whose answer is an arbitrary function of its number and the keys, `borrow` an arbitrary function of the number of comparisons so far, any step functions; the entries of the `BTreeMap` iterator underneath are any list. `AskIter.v`. `C11x_model` ties it to the plain models, `C11x_borrow` to reachable maps and `RangeMap::overlapping`. Not modelled: what a `BTreeMap` search does with an unlawful order (unspecified by std), so making the iterator has a lawful order.
* C117 `StepPanic.v`: the model over step functions `pst` that are `st` or panic, against the recording model (`CrashModel.v`) over `st`; then the theorems on interrupted updates (C63). The step functions are pure: whether they panic depends on the key only (panics depending on the call are C62, C63, C113, C114). Sets and set programs: `StepPanicSet.v`, through the map to `()`; union and intersection take no step, so `|` and `&` can only be stopped while the result is collected. A stopped update inside a set program is caught, as elsewhere; such a program gains no members if it removes nothing (`C117_set_expressions_gain_nothing`; with removals false: `C117_set_gain_nothing_refuted`); which members it has lost is not stated. Programs of C97: `ProgPanic.v`, mutual induction; a panic in an `extend`, `collect`, gap iterator or removal loop ends the program, a panic in a single update is caught (`mprog_calls`, `sprog_calls` list those).
* C118 `WithinModel.v`: `insert`, `remove`, `extend` with the rounds of the loops a parameter (same text as `IMapModel.v`); `C118_rounds` ties them to each other and to `im_exec`. `WithinFacts.v`: a measure (entries, plus entries starting at or below the end of the new range) for honest step functions, explicit hanging calls for the others. `reached` (`SpecStep.v`) are the maps left by calls that returned or panicked. Sets are the maps over `unit`.
* C119 `lawful_on`, `ops_on` (`SpecStep.v`). `INatural.v`: the model commutes with any order-preserving map of keys under which steps correspond, unless the source stops in a step function. `StepSub.v`: the keys in use as a type of their own, over which the steps are lawful; the theorems there carry over (`sub_run`). Lookups of keys not in use and `overlapping` are proved on any ordered list (`asc_lookup`, `asc_overlapping`), no steps involved. `C119_exact`, `C119_set_exact`: the condition is needed; `C119_all_keys`: for all keys it is `StepLaws`. `C119_last_writer_wins`, `C119_eq_extensional` ask for ranges that are not exhausted, as C61 does. `C119_set_expressions`: the evaluation over the keys in use carried over by `OpsNatural.v`. Programs of C97: `ProgSub.v` carries `imrun`/`isrun` along the same maps of keys (`n_prog`), then C97 over the keys in use; closures must respect `==`, as there. `C119_programs_any_closure` asks nothing of the closures: the program ends in what calls over the keys in use give (`on_prog_runs` in `ProgRuns.v`). `C119_apply_any_closure`, `C119_where_any_closure` say which value the closure sees.

Not modelled (one line each): memory layout, allocation failure, time complexity (beyond C71, C72, C83, C84, C86, C87, C100-C104),
`const fn`-ness, `unsafe` (the crate has none), auto traits,
lifetimes/borrowing (enforced by rustc).

## Trusted base

* Coq's kernel (and `vm_compute` for concrete witnesses).
* No axioms: every property theorem is followed by `Print Assumptions`, all "Closed under the global context" unless listed here.
* The reading of `/repo` into the model files, definition by definition; `Clone` is the identity outside `CloneModel.v`/`CloneSetModel.v`; `PartialOrd`/`PartialEq` on keys agree with `Ord`, and `!=` on values is the negation of `==` (not in `AskModel.v`, where both answer anything). Evidence for the reading: `Conformance.v` translates all of the crate's own `#[test]`s (130 in the four type modules, all but the four `always_default` ones, which assert nothing; the four of `std_ext.rs`, the one of `operations.rs`) and evaluates them on the model: every assertion holds. The assertions were translated by a script, the float and permutation tests by hand. This file is not a property and supports no claim of the manifest.
* The behaviour of std's `BTreeMap`, `Range`, `RangeInclusive`, iterator adaptors, `core::cmp::{min,max}` as stated in `BTree.v`, `Ranges.v`, `Order.v`; for C62/C63 also that `BTreeMap::insert`/`remove` call `Ord::cmp` only while searching, before they change the tree; for C111-C114 that `btree_map::{Iter, Range}` call no user code once made.
* serde/quickcheck glue: only the sequence of elements passed.

## Mutation testing: how the records were made, and their limits

* `seeded/LOG.jsonl`: edits written by hand, with the claim each should break. `theorems_failed` was **not** observed theorem by theorem. For entries whose `how` says the build stops at a proof, the build was seen to fail at `first_failing_proofs`; `theorems_failed` is every manifest theorem whose text reaches one of those names, a search over identifiers that (except in the entries with an `outcome`) does not tell apart lemmas of the same name in different files and so can list too many; theorems in files that do not even import the failing one were removed (48, from four entries), and so were those reached only through a tactic or notation that another section of the same file gives the same name (749, from 24 entries). A proof that stops does not show that the statement has become false. Where `how` says the build was carried on (`ph01`–`ph09`, `pt09`–`pt11`), each failing proof was left out in the scratch copy and the build continued, so `first_failing_proofs` lists every proof that stops by itself, not only the first; `theorems_failed` adds the theorems that use them. `pt04` stops proof scripts only (the statements stay true), `pt07` is equivalent and still builds. For entries whose `how` says "refuted by exhaustive evaluation", the statements were transcribed and evaluated on small instances of the edited model; those listed under `theorems_not_rebuilt` were not rebuilt.
* Until 16 November the log held only edits that were caught: the script that wrote it skipped the others. Besides, about 4000 edits made by rule (`seeded/SWEEPS.jsonl`, one line each) had not been recorded at all. 166 of those survived their sweep, as did two of the edits made by hand. Every survivor (167 distinct edits) was then rebuilt, on 16 November, against the theorems of commit 7217bae, and is in the log under an id `resurvey:…`: 126 stop some proof, 41 still build. Of the 41, 33 were judged equivalent, each with its reason in `claim` (appending nothing, more fuel, a bound the comparison does not read, a case that cannot occur, …). The other eight were: four in the `gaps` fuzz targets, which would assert less or report another panic, tightened by `C92_example_gaps_alarms`, now stopped (`fz01`–`fz04`); two more there that are equivalent (`fz05`, `fz06`); `op_clones` allowing `clear` a clone, for which `C100_clear`, `C101_clear` now state the exact count (the edit itself still builds: an upper bound may be loosened); and `state_after` swallowing panics, stopped by `C97_lawless_steps_refuted` (`pr01`). The 126 were not analysed one by one: those from the sweep `auto` changed no evaluated statement on small instances, so many are harmless edits that the proof merely does not follow (more fuel, for instance). Edits that do not compile or could not be applied are in the log too, with that outcome. Entries without `outcome` are from before and were all caught.
* In `SWEEPS.jsonl` the sweep `auto` did not rebuild any proof (its `survived` means that no evaluated statement was false on small instances); the others stop at the first file that fails. `ill-typed` edits do not compile and say nothing. No claim was written down for these edits, so a `killed` line shows that some proof notices the edit, not which English claim it breaks.
