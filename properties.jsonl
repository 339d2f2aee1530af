{"id": "C01", "title": "RangeMap: last writer wins at every key", "statement": "After any history of calls on a RangeMap, get(&k) is the value of the last insert whose range contained k, unless a later remove covered k or a later clear happened, in which case it is None. Calls that panicked contribute nothing; an extend that panicked contributes its valid prefix.", "quantifier": "all histories of insert/remove/clear/extend calls (including calls that panicked and were caught), all lawful key orders K: Ord, all values V with symmetric+transitive PartialEq; every key k", "why_tests_cant": "unbounded histories and arbitrary overlap patterns; keys may be incomparable by identity (equal but distinguishable)", "anchors": [{"file": "src/map.rs", "symbol": "RangeMap::insert"}, {"file": "src/map.rs", "symbol": "RangeMap::remove"}, {"file": "src/map.rs", "symbol": "RangeMap::get"}, {"file": "src/map.rs", "symbol": "RangeMap::clear"}, {"file": "src/map.rs", "symbol": "RangeMap::extend"}]}
{"id": "C02", "title": "RangeMap::insert panics exactly on start >= end and then changes nothing", "statement": "insert(s..e, v) returns normally iff s < e; otherwise it panics and leaves the map exactly as it was. It never loops forever and never trips BTreeMap::range's own panics.", "quantifier": "all histories of insert/remove/clear/extend calls (including calls that panicked and were caught), all lawful key orders K: Ord, all values V with symmetric+transitive PartialEq; every range s..e and value v", "why_tests_cant": "termination and absence of internal panics are universal claims over all reachable maps", "anchors": [{"file": "src/map.rs", "symbol": "RangeMap::insert"}, {"file": "src/map.rs", "symbol": "RangeMap::adjust_touching_ranges_for_insert"}]}
{"id": "C03", "title": "RangeMap::remove panics exactly on start >= end and then changes nothing", "statement": "remove(s..e) returns normally iff s < e; otherwise it panics and leaves the map exactly as it was. It never loops forever and never trips BTreeMap::range's own panics.", "quantifier": "all histories of insert/remove/clear/extend calls (including calls that panicked and were caught), all lawful key orders K: Ord, all values V with symmetric+transitive PartialEq; every range s..e", "why_tests_cant": "termination and absence of internal panics are universal claims over all reachable maps", "anchors": [{"file": "src/map.rs", "symbol": "RangeMap::remove"}, {"file": "src/map.rs", "symbol": "RangeMap::adjust_overlapping_ranges_for_remove"}]}
{"id": "C04", "title": "RangeMap iterates over non-empty, pairwise disjoint, ascending ranges", "statement": "For every reachable RangeMap the ranges yielded by iter() are non-empty, strictly ascending and pairwise disjoint.", "quantifier": "all histories of insert/remove/clear/extend calls (including calls that panicked and were caught), all lawful key orders K: Ord, all values V with symmetric+transitive PartialEq", "why_tests_cant": "invariant over unbounded histories", "anchors": [{"file": "src/map.rs", "symbol": "RangeMap::iter"}, {"file": "src/map.rs", "symbol": "RangeMap::insert"}, {"file": "src/map.rs", "symbol": "RangeMap::remove"}]}
{"id": "C05", "title": "RangeMap keeps equal-valued adjacent ranges coalesced", "statement": "No two ranges yielded by iter() with equal values touch: between any two stored ranges with equal values there is an uncovered or differently-valued key range (and the first key after the earlier one is such a key).", "quantifier": "all histories of insert/remove/clear/extend calls (including calls that panicked and were caught), all lawful key orders K: Ord, all values V with symmetric+transitive PartialEq", "why_tests_cant": "invariant over unbounded histories; depends on every insert/remove interleaving", "anchors": [{"file": "src/map.rs", "symbol": "RangeMap::insert"}, {"file": "src/map.rs", "symbol": "RangeMap::adjust_touching_ranges_for_insert"}]}
{"id": "C06", "title": "RangeMap lookups agree with iteration", "statement": "get_key_value(&k) returns (r,v) iff (r,v) is yielded by iter() and r contains k; there is at most one such entry; get and contains_key agree with it; none of them panics.", "quantifier": "all histories of insert/remove/clear/extend calls (including calls that panicked and were caught), all lawful key orders K: Ord, all values V with symmetric+transitive PartialEq; every key", "why_tests_cant": "the binary search visits one candidate only; correctness is a claim about all reachable maps", "anchors": [{"file": "src/map.rs", "symbol": "RangeMap::get_key_value"}, {"file": "src/map.rs", "symbol": "RangeMap::get"}, {"file": "src/map.rs", "symbol": "RangeMap::contains_key"}]}
{"id": "C07", "title": "RangeMap::get_key_value returns the maximal run", "statement": "The range returned for k is the largest range around k all of whose keys map to a value equal to get(&k): extending it at either end by any non-empty range would include a key that is unmapped or maps to a different value.", "quantifier": "all histories of insert/remove/clear/extend calls (including calls that panicked and were caught), all lawful key orders K: Ord, all values V with symmetric+transitive PartialEq; every covered key k, every larger range", "why_tests_cant": "quantifies over all larger ranges and all histories", "anchors": [{"file": "src/map.rs", "symbol": "RangeMap::get_key_value"}, {"file": "src/map.rs", "symbol": "RangeMap::insert"}]}
{"id": "C08", "title": "RangeMap == is extensional", "statement": "For any two reachable RangeMaps a and b, a == b iff for every key both are unmapped or both are mapped to equal values - regardless of how they were built.", "quantifier": "all pairs of histories; all keys; V: Eq (reflexive PartialEq)", "why_tests_cant": "quantifies over pairs of unbounded histories and all keys", "anchors": [{"file": "src/map.rs", "symbol": "RangeMap::eq"}, {"file": "src/map.rs", "symbol": "RangeMap::insert"}, {"file": "src/map.rs", "symbol": "RangeMap::remove"}]}
{"id": "C09", "title": "RangeMap update laws", "statement": "insert is idempotent; inserting then removing the same range equals removing it; removing twice equals removing once; an insert covered by a later insert is invisible; inserts (removes) over disjoint ranges commute - all up to == when V: Eq; without Eq, up to what get can tell (same value or == values at every key).", "quantifier": "all histories of insert/remove/clear/extend calls (including calls that panicked and were caught), all lawful key orders K: Ord, all values V with symmetric+transitive PartialEq; all ranges and values", "why_tests_cant": "equational laws over all reachable maps and arguments", "anchors": [{"file": "src/map.rs", "symbol": "RangeMap::insert"}, {"file": "src/map.rs", "symbol": "RangeMap::remove"}, {"file": "src/map.rs", "symbol": "RangeMap::eq"}]}
{"id": "C10", "title": "RangeMap::gaps yields exactly the maximal uncovered subranges", "statement": "Draining gaps(&outer) yields ascending, disjoint, non-touching, non-empty ranges inside outer; a key lies in one of them iff it lies in outer and is not covered; each one is maximal. After None the iterator keeps returning None and the drain terminates.", "quantifier": "all histories of insert/remove/clear/extend calls (including calls that panicked and were caught), all lawful key orders K: Ord, all values V with symmetric+transitive PartialEq; every outer range; every number of next() calls", "why_tests_cant": "universal over maps, outer ranges and iterator steps", "anchors": [{"file": "src/map.rs", "symbol": "RangeMap::gaps"}, {"file": "src/map.rs", "symbol": "Gaps::next"}]}
{"id": "C11", "title": "RangeMap::gaps of an empty outer range", "statement": "If outer.start >= outer.end then gaps(&outer) yields nothing at all. (The documentation says a single empty gap is returned when start == end and no stored range overlaps; that is false.)", "quantifier": "all histories of insert/remove/clear/extend calls (including calls that panicked and were caught), all lawful key orders K: Ord, all values V with symmetric+transitive PartialEq; every empty or backward outer range", "why_tests_cant": "documentation claim over all maps; no unit test contradicts it", "anchors": [{"file": "src/map.rs", "symbol": "RangeMap::gaps"}, {"file": "src/map.rs", "symbol": "Gaps::next"}]}
{"id": "C12", "title": "RangeMap::overlapping and overlaps are exact", "statement": "For a non-empty query q, overlapping(q) yields exactly the entries of iter() sharing a key position with q (start < q.end and q.start < end), in ascending order, and overlaps(&q) is true iff there is one; neither panics.", "quantifier": "all histories of insert/remove/clear/extend calls (including calls that panicked and were caught), all lawful key orders K: Ord, all values V with symmetric+transitive PartialEq; every non-empty query range", "why_tests_cant": "depends on searching the tree by range END although it is ordered by START", "anchors": [{"file": "src/map.rs", "symbol": "RangeMap::overlapping"}, {"file": "src/map.rs", "symbol": "RangeMap::overlaps"}, {"file": "src/map.rs", "symbol": "Overlapping::next"}]}
{"id": "C13", "title": "RangeMap::overlapping is a lawful double-ended fused iterator", "statement": "For every interleaving of next and next_back calls, overlapping(q) yields each overlapping entry at most once, fronts ascending and backs descending, as a deque of the exact overlap list would; once it returns None it returns None forever.", "quantifier": "all histories of insert/remove/clear/extend calls (including calls that panicked and were caught), all lawful key orders K: Ord, all values V with symmetric+transitive PartialEq; every query range (also empty ones); every finite schedule of next/next_back", "why_tests_cant": "all schedules", "anchors": [{"file": "src/map.rs", "symbol": "Overlapping::next"}, {"file": "src/map.rs", "symbol": "Overlapping::next_back"}]}
{"id": "C14", "title": "RangeMap::overlapping with an empty query", "statement": "For any query, including empty or backward ones, overlapping(q) yields exactly the entries with q.start < end and start < q.end. Hence an empty q = k..k strictly inside a stored range reports that range although q overlaps nothing ('overlapping an empty range yields nothing' is false).", "quantifier": "all histories of insert/remove/clear/extend calls (including calls that panicked and were caught), all lawful key orders K: Ord, all values V with symmetric+transitive PartialEq; every query", "why_tests_cant": "boundary behaviour over all maps", "anchors": [{"file": "src/map.rs", "symbol": "RangeMap::overlapping"}, {"file": "src/map.rs", "symbol": "RangeMap::overlaps"}]}
{"id": "C15", "title": "RangeMap first/last_range_value are the extreme entries", "statement": "first_range_value() (last_range_value()) is None iff the map is empty, otherwise the entry whose range is below (above) every other entry's range; no covered key lies outside first.start..last.end.", "quantifier": "all histories of insert/remove/clear/extend calls (including calls that panicked and were caught), all lawful key orders K: Ord, all values V with symmetric+transitive PartialEq", "why_tests_cant": "invariant-dependent", "anchors": [{"file": "src/map.rs", "symbol": "RangeMap::first_range_value"}, {"file": "src/map.rs", "symbol": "RangeMap::last_range_value"}]}
{"id": "C16", "title": "RangeMap len/is_empty/iter/into_iter/size_hint agree", "statement": "len() is the number of entries iter()/into_iter() yields under any interleaving of next/next_back; size_hint is exact at each step; is_empty() iff len()==0 iff no key is covered; after clear() no key is covered.", "quantifier": "all histories of insert/remove/clear/extend calls (including calls that panicked and were caught), all lawful key orders K: Ord, all values V with symmetric+transitive PartialEq; every schedule", "why_tests_cant": "all schedules and histories", "anchors": [{"file": "src/map.rs", "symbol": "RangeMap::len"}, {"file": "src/map.rs", "symbol": "RangeMap::is_empty"}, {"file": "src/map.rs", "symbol": "RangeMap::clear"}, {"file": "src/map.rs", "symbol": "Iter::next_back"}, {"file": "src/map.rs", "symbol": "IntoIter::next_back"}]}
{"id": "C17", "title": "RangeMap bulk construction equals successive inserts", "statement": "extend/from_iter/From<[_;N]>/range_map! behave as inserting the pairs in order: later pairs win; they panic iff some range has start >= end; a panicking extend leaves the valid prefix inserted.", "quantifier": "all histories of insert/remove/clear/extend calls (including calls that panicked and were caught), all lawful key orders K: Ord, all values V with symmetric+transitive PartialEq; every finite sequence of pairs", "why_tests_cant": "unbounded sequences", "anchors": [{"file": "src/map.rs", "symbol": "RangeMap::extend"}, {"file": "src/map.rs", "symbol": "RangeMap::from_iter"}, {"file": "src/map.rs", "symbol": "RangeMap::from"}]}
{"id": "C18", "title": "RangeMap serde round trip", "statement": "Deserializing what serialize wrote rebuilds exactly the same entry list (same ranges, same values, hence == when V: Eq); the announced length is the number of elements.", "quantifier": "all histories of insert/remove/clear/extend calls (including calls that panicked and were caught), all lawful key orders K: Ord, all values V with symmetric+transitive PartialEq", "why_tests_cant": "all reachable maps; depends on canonicity of the stored form", "anchors": [{"file": "src/map.rs", "symbol": "RangeMap::serialize"}, {"file": "src/map.rs", "symbol": "RangeMapVisitor::visit_seq"}]}
{"id": "C19", "title": "RangeMap deserialization of arbitrary input", "statement": "Deserializing a sequence of ((s,e),v) elements: equals inserting them in order if all s<e; returns the deserializer's error if one occurs before any bad range; panics (rather than returning Err) iff a range with s >= e comes first.", "quantifier": "every finite input sequence of elements and errors", "why_tests_cant": "all inputs", "anchors": [{"file": "src/map.rs", "symbol": "RangeMapVisitor::visit_seq"}, {"file": "src/map.rs", "symbol": "RangeMap::insert"}]}
{"id": "C20", "title": "RangeMap Hash is consistent with Eq", "statement": "a == b implies that hash writes the same sequence to the hasher (K and V hash consistently with their Eq); and if the writes of K and V are prefix-free and separate unequal keys/values, so are the map's: hash(a) followed by anything equals hash(b) followed by anything only if a == b (so a map can be a field of a hashed struct).", "quantifier": "all pairs of reachable maps, all lawful Hash impls of K and V", "why_tests_cant": "all maps and user Hash impls", "anchors": [{"file": "src/map.rs", "symbol": "RangeMap::hash"}, {"file": "src/map.rs", "symbol": "RangeMap::eq"}]}
{"id": "C21", "title": "RangeMap Ord/PartialOrd form a lawful total order consistent with Eq", "statement": "cmp on reachable maps is reflexive, antisymmetric (dual), transitive and cmp == Equal iff a == b; partial_cmp agrees with cmp.", "quantifier": "all triples of reachable maps; lawful Ord on K and V", "why_tests_cant": "all triples", "anchors": [{"file": "src/map.rs", "symbol": "RangeMap::cmp"}, {"file": "src/map.rs", "symbol": "RangeMap::partial_cmp"}, {"file": "src/map.rs", "symbol": "RangeMap::eq"}]}
{"id": "C22", "title": "Searching by range end is consistent with the storage order (half-open and inclusive)", "statement": "On every reachable map the order of entries by end is the same as by start, so any binary/B-tree search by end through Borrow finds the same cut as a linear scan, whatever the shape of the tree.", "quantifier": "all histories of insert/remove/clear/extend calls (including calls that panicked and were caught), all lawful key orders K: Ord, all values V with symmetric+transitive PartialEq; every search tree shape holding the entries; every query", "why_tests_cant": "std requires Borrow'ed orders to be consistent; only an invariant proof can show it", "anchors": [{"file": "src/range_wrapper.rs", "symbol": "RangeEndWrapper"}, {"file": "src/range_wrapper.rs", "symbol": "RangeStartWrapper"}, {"file": "src/map.rs", "symbol": "RangeMap::overlapping"}, {"file": "src/inclusive_map.rs", "symbol": "RangeInclusiveMap::overlapping"}]}
{"id": "C23", "title": "RangeMap representation is minimal and grows boundedly", "statement": "When V: Eq, among all lists of disjoint (range, value) pairs describing the same key->value function, iter() has the fewest entries; one insert adds at most 2 entries, one remove at most 1.", "quantifier": "all histories of insert/remove/clear/extend calls (including calls that panicked and were caught), all lawful key orders K: Ord, all values V with symmetric+transitive PartialEq; every other representation", "why_tests_cant": "quantifies over all representations", "anchors": [{"file": "src/map.rs", "symbol": "RangeMap::len"}, {"file": "src/map.rs", "symbol": "RangeMap::insert"}, {"file": "src/map.rs", "symbol": "RangeMap::remove"}]}
{"id": "C24", "title": "RangeMap updates leave untouched entries identical", "statement": "insert(s..e,v)/remove(s..e) keep, as identical entries, every stored entry that does not touch (insert) or overlap (remove) s..e, and every entry that only touches s..e with a different value.", "quantifier": "all histories of insert/remove/clear/extend calls (including calls that panicked and were caught), all lawful key orders K: Ord, all values V with symmetric+transitive PartialEq; all ranges", "why_tests_cant": "all maps and arguments", "anchors": [{"file": "src/map.rs", "symbol": "RangeMap::insert"}, {"file": "src/map.rs", "symbol": "RangeMap::remove"}]}
{"id": "C25", "title": "RangeInclusiveMap: last writer wins at every key", "statement": "After any history of calls on a RangeInclusiveMap with non-exhausted ranges, get(&k) is the value of the last insert whose range contained k, unless a later remove or clear covered k. Calls that panicked contribute nothing; an extend that panicked contributes its valid prefix.", "quantifier": "all histories of insert/remove/clear/extend calls (including calls that panicked and were caught), all lawful key orders K: Ord, all values V with symmetric+transitive PartialEq; all lawful step functions; every key", "why_tests_cant": "unbounded histories; correctness relies on user-supplied successor/predecessor", "anchors": [{"file": "src/inclusive_map.rs", "symbol": "RangeInclusiveMap::insert"}, {"file": "src/inclusive_map.rs", "symbol": "RangeInclusiveMap::remove"}, {"file": "src/inclusive_map.rs", "symbol": "RangeInclusiveMap::get"}]}
{"id": "C26", "title": "RangeInclusiveMap::insert panics exactly on start > end and then changes nothing", "statement": "Also if the map holds, or the argument is, an exhausted range: insert(s..=e, v) returns normally iff s <= e; otherwise it panics and leaves the map exactly as it was. It never loops forever, never trips BTreeMap::range's panics and never calls add_one/sub_one where there is no successor/predecessor.", "quantifier": "all histories of insert/remove/clear/extend calls (including calls that panicked and were caught), all lawful key orders K: Ord, all values V with symmetric+transitive PartialEq; all step functions lawful wherever a neighbour exists; also ranges at the extremes of the key type", "why_tests_cant": "termination/overflow at type extremes over all maps", "anchors": [{"file": "src/inclusive_map.rs", "symbol": "RangeInclusiveMap::insert"}, {"file": "src/inclusive_map.rs", "symbol": "RangeInclusiveMap::adjust_touching_ranges_for_insert"}, {"file": "src/std_ext.rs", "symbol": "RangeInclusiveExt::touches"}]}
{"id": "C27", "title": "RangeInclusiveMap::remove panics exactly on start > end and then changes nothing", "statement": "Also if the map holds, or the argument is, an exhausted range: remove(s..=e) returns normally iff s <= e; otherwise it panics and leaves the map exactly as it was. It never loops forever and never overflows a step function.", "quantifier": "all histories of insert/remove/clear/extend calls (including calls that panicked and were caught), all lawful key orders K: Ord, all values V with symmetric+transitive PartialEq; all step functions lawful wherever a neighbour exists", "why_tests_cant": "termination/overflow at type extremes over all maps", "anchors": [{"file": "src/inclusive_map.rs", "symbol": "RangeInclusiveMap::remove"}, {"file": "src/inclusive_map.rs", "symbol": "RangeInclusiveMap::adjust_overlapping_ranges_for_remove"}]}
{"id": "C28", "title": "RangeInclusiveMap iterates over non-empty, pairwise disjoint, ascending ranges", "statement": "For every reachable RangeInclusiveMap (exhausted ranges included) the ranges yielded by iter() satisfy start <= end, are strictly ascending and pairwise disjoint.", "quantifier": "all histories of insert/remove/clear/extend calls (including calls that panicked and were caught), all lawful key orders K: Ord, all values V with symmetric+transitive PartialEq", "why_tests_cant": "invariant over unbounded histories", "anchors": [{"file": "src/inclusive_map.rs", "symbol": "RangeInclusiveMap::iter"}, {"file": "src/inclusive_map.rs", "symbol": "RangeInclusiveMap::insert"}, {"file": "src/inclusive_map.rs", "symbol": "RangeInclusiveMap::remove"}]}
{"id": "C29", "title": "RangeInclusiveMap keeps equal-valued adjacent ranges coalesced", "statement": "Between any two stored ranges with equal values there is a key that is uncovered or has another value; exhausted ranges included.", "quantifier": "all histories of insert/remove/clear/extend calls (including calls that panicked and were caught), all lawful key orders K: Ord, all values V with symmetric+transitive PartialEq; all lawful step functions", "why_tests_cant": "invariant over unbounded histories", "anchors": [{"file": "src/inclusive_map.rs", "symbol": "RangeInclusiveMap::insert"}, {"file": "src/inclusive_map.rs", "symbol": "RangeInclusiveMap::adjust_touching_ranges_for_insert"}]}
{"id": "C30", "title": "RangeInclusiveMap lookups agree with iteration", "statement": "get_key_value(&k) returns (r,v) iff (r,v) is yielded by iter() and r contains k (r.contains: an exhausted range does not contain its end); at most one such entry; get and contains_key agree; none of them panics.", "quantifier": "all histories of insert/remove/clear/extend calls (including calls that panicked and were caught), all lawful key orders K: Ord, all values V with symmetric+transitive PartialEq; every key", "why_tests_cant": "one candidate only is inspected", "anchors": [{"file": "src/inclusive_map.rs", "symbol": "RangeInclusiveMap::get_key_value"}, {"file": "src/inclusive_map.rs", "symbol": "RangeInclusiveMap::get"}, {"file": "src/inclusive_map.rs", "symbol": "RangeInclusiveMap::contains_key"}]}
{"id": "C31", "title": "RangeInclusiveMap::get_key_value returns the maximal run", "statement": "With non-exhausted ranges, the range returned for k is the largest inclusive range around k all of whose keys map to a value equal to get(&k).", "quantifier": "all histories of insert/remove/clear/extend calls (including calls that panicked and were caught), all lawful key orders K: Ord, all values V with symmetric+transitive PartialEq; every larger range", "why_tests_cant": "quantifies over all larger ranges", "anchors": [{"file": "src/inclusive_map.rs", "symbol": "RangeInclusiveMap::get_key_value"}, {"file": "src/inclusive_map.rs", "symbol": "RangeInclusiveMap::insert"}]}
{"id": "C32", "title": "RangeInclusiveMap == is extensional", "statement": "For reachable a, b (non-exhausted ranges, V: Eq), a == b iff every key is unmapped in both or mapped to equal values.", "quantifier": "all pairs of histories; all keys", "why_tests_cant": "pairs of unbounded histories", "anchors": [{"file": "src/inclusive_map.rs", "symbol": "RangeInclusiveMap::eq"}, {"file": "src/inclusive_map.rs", "symbol": "RangeInclusiveMap::insert"}]}
{"id": "C33", "title": "RangeInclusiveMap update laws", "statement": "insert/remove idempotence, insert-then-remove = remove, covered insert invisible, disjoint updates commute - all up to == when V: Eq; without Eq, up to what get can tell. For non-exhausted ranges.", "quantifier": "all histories of insert/remove/clear/extend calls (including calls that panicked and were caught), all lawful key orders K: Ord, all values V with symmetric+transitive PartialEq", "why_tests_cant": "equational laws over all reachable maps", "anchors": [{"file": "src/inclusive_map.rs", "symbol": "RangeInclusiveMap::insert"}, {"file": "src/inclusive_map.rs", "symbol": "RangeInclusiveMap::remove"}]}
{"id": "C34", "title": "RangeInclusiveMap::gaps yields exactly the maximal uncovered subranges", "statement": "With or without exhausted ranges, draining gaps(&outer) yields ascending, pairwise non-adjacent, non-empty ranges inside outer; a key lies in one of them iff it is in outer and uncovered; fused; terminates.", "quantifier": "all histories of insert/remove/clear/extend calls (including calls that panicked and were caught), all lawful key orders K: Ord, all values V with symmetric+transitive PartialEq; every outer range; every number of next() calls", "why_tests_cant": "all maps, outer ranges and steps", "anchors": [{"file": "src/inclusive_map.rs", "symbol": "RangeInclusiveMap::gaps"}, {"file": "src/inclusive_map.rs", "symbol": "Gaps::next"}]}
{"id": "C35", "title": "RangeInclusiveMap::gaps never steps past the extremes of the key type", "statement": "Draining gaps(&outer) never calls add_one on a key without successor nor sub_one on a key without predecessor, for any outer range including ones reaching the maximum/minimum key, and yields nothing for a backward outer range.", "quantifier": "all histories of insert/remove/clear/extend calls (including calls that panicked and were caught), all lawful key orders K: Ord, all values V with symmetric+transitive PartialEq; every outer range", "why_tests_cant": "overflow at the extremes in all reachable maps", "anchors": [{"file": "src/inclusive_map.rs", "symbol": "Gaps::next"}, {"file": "src/inclusive_map.rs", "symbol": "RangeInclusiveMap::gaps"}]}
{"id": "C36", "title": "RangeInclusiveMap::overlapping/overlaps are exact for all schedules", "statement": "With or without exhausted ranges, for a query q with start <= end, overlapping(q) yields exactly the entries sharing a key with q, in order, under any interleaving of next/next_back; fused; overlaps(&q) iff there is one (with non-exhausted ranges: iff some key of q is contained).", "quantifier": "all histories of insert/remove/clear/extend calls (including calls that panicked and were caught), all lawful key orders K: Ord, all values V with symmetric+transitive PartialEq; every such query; every schedule", "why_tests_cant": "search by END in a tree ordered by START; all schedules", "anchors": [{"file": "src/inclusive_map.rs", "symbol": "RangeInclusiveMap::overlapping"}, {"file": "src/inclusive_map.rs", "symbol": "RangeInclusiveMap::overlaps"}, {"file": "src/inclusive_map.rs", "symbol": "Overlapping::next"}, {"file": "src/inclusive_map.rs", "symbol": "Overlapping::next_back"}]}
{"id": "C37", "title": "RangeInclusiveMap::overlapping with a backward query", "statement": "For any query overlapping(q) yields exactly the entries with q.start <= end and start <= q.end; so for a backward q it yields the entries containing the whole gap q.end..=q.start, not nothing.", "quantifier": "all histories of insert/remove/clear/extend calls (including calls that panicked and were caught), all lawful key orders K: Ord, all values V with symmetric+transitive PartialEq; every query", "why_tests_cant": "boundary behaviour over all maps", "anchors": [{"file": "src/inclusive_map.rs", "symbol": "RangeInclusiveMap::overlapping"}]}
{"id": "C38", "title": "RangeInclusiveMap and exhausted ranges", "statement": "'insert of a range r makes get(&k) return v for every k with r.start() <= k <= r.end()' is false for a range whose iteration was exhausted: insert accepts it (no panic) although it is empty, stores it, and the key is not found; == and cmp then disagree; and a remove that cuts such an entry makes its last key appear. In general the flag changes nothing else: updates (outcome included, and all intermediate maps), overlapping, gaps and cmp behave as with the same ranges un-iterated, and lookups differ exactly at the end of an entry stored with the flag, and serde drops the flag.", "quantifier": "exists an exhausted range; all histories with and without such ranges", "why_tests_cant": "state hidden inside RangeInclusive, not expressible with a..=b literals", "anchors": [{"file": "src/inclusive_map.rs", "symbol": "RangeInclusiveMap::insert"}, {"file": "src/inclusive_map.rs", "symbol": "RangeInclusiveMap::get_key_value"}, {"file": "src/inclusive_map.rs", "symbol": "RangeInclusiveMap::eq"}, {"file": "src/inclusive_map.rs", "symbol": "RangeInclusiveMap::cmp"}]}
{"id": "C39", "title": "RangeInclusiveMap first/last/len/iter/into_iter agree", "statement": "first/last_range_value are the extreme entries; len/is_empty/size_hint/iter/into_iter agree under any schedule of next/next_back; clear empties. (is_empty iff no key is contained: for non-exhausted ranges.)", "quantifier": "all histories of insert/remove/clear/extend calls (including calls that panicked and were caught), all lawful key orders K: Ord, all values V with symmetric+transitive PartialEq; every schedule", "why_tests_cant": "all schedules and histories", "anchors": [{"file": "src/inclusive_map.rs", "symbol": "RangeInclusiveMap::first_range_value"}, {"file": "src/inclusive_map.rs", "symbol": "RangeInclusiveMap::last_range_value"}, {"file": "src/inclusive_map.rs", "symbol": "RangeInclusiveMap::len"}, {"file": "src/inclusive_map.rs", "symbol": "Iter::next_back"}, {"file": "src/inclusive_map.rs", "symbol": "IntoIter::next_back"}]}
{"id": "C40", "title": "RangeInclusiveMap bulk construction equals successive inserts", "statement": "extend/from_iter/From/range_inclusive_map! behave, exhausted ranges included, as inserting the pairs in order, panic iff some range has start > end, and a panicking extend keeps the valid prefix.", "quantifier": "all histories of insert/remove/clear/extend calls (including calls that panicked and were caught), all lawful key orders K: Ord, all values V with symmetric+transitive PartialEq; every finite sequence", "why_tests_cant": "unbounded sequences", "anchors": [{"file": "src/inclusive_map.rs", "symbol": "RangeInclusiveMap::extend"}, {"file": "src/inclusive_map.rs", "symbol": "RangeInclusiveMap::from_iter"}, {"file": "src/inclusive_map.rs", "symbol": "RangeInclusiveMap::from"}]}
{"id": "C41", "title": "RangeInclusiveMap serde round trip and arbitrary input", "statement": "With non-exhausted ranges, deserializing what serialize wrote rebuilds the same entries; on arbitrary input it equals successive inserts, returns the first error, or panics iff a range with start > end comes first.", "quantifier": "all histories of insert/remove/clear/extend calls (including calls that panicked and were caught), all lawful key orders K: Ord, all values V with symmetric+transitive PartialEq; every finite input", "why_tests_cant": "all maps, all inputs", "anchors": [{"file": "src/inclusive_map.rs", "symbol": "RangeInclusiveMap::serialize"}, {"file": "src/inclusive_map.rs", "symbol": "RangeInclusiveMapVisitor::visit_seq"}]}
{"id": "C42", "title": "RangeInclusiveMap Hash/Ord/PartialOrd are consistent with Eq", "statement": "On reachable maps built from non-exhausted ranges: a == b implies equal hash writes, and for prefix-free hashes of keys and values the writes of unequal maps are prefix-free too; cmp is a lawful total order and is Equal iff a == b; partial_cmp agrees.", "quantifier": "all tuples of reachable maps", "why_tests_cant": "all maps", "anchors": [{"file": "src/inclusive_map.rs", "symbol": "RangeInclusiveMap::hash"}, {"file": "src/inclusive_map.rs", "symbol": "RangeInclusiveMap::cmp"}, {"file": "src/inclusive_map.rs", "symbol": "RangeInclusiveMap::partial_cmp"}]}
{"id": "C43", "title": "RangeInclusiveMap is independent of step-function behaviour at the extremes", "statement": "Whether add_one/sub_one panic, wrap or saturate at the maximum/minimum key (debug vs release build), every call has the same result: two step-function pairs agreeing wherever a neighbour exists give identical maps and results.", "quantifier": "all pairs of step functions agreeing on keys having a neighbour; all histories", "why_tests_cant": "debug and release builds differ exactly here; tests run one of them", "anchors": [{"file": "src/inclusive_map.rs", "symbol": "RangeInclusiveMap::insert"}, {"file": "src/inclusive_map.rs", "symbol": "RangeInclusiveMap::remove"}, {"file": "src/inclusive_map.rs", "symbol": "Gaps::next"}, {"file": "src/std_ext.rs", "symbol": "StepLite"}]}
{"id": "C44", "title": "RangeInclusiveMap representation is minimal and grows boundedly", "statement": "When V: Eq, iter() has the fewest entries among all disjoint-range lists describing the same function; one insert adds at most 2 entries, one remove at most 1.", "quantifier": "all histories of insert/remove/clear/extend calls (including calls that panicked and were caught), all lawful key orders K: Ord, all values V with symmetric+transitive PartialEq; every other representation", "why_tests_cant": "quantifies over all representations", "anchors": [{"file": "src/inclusive_map.rs", "symbol": "RangeInclusiveMap::len"}, {"file": "src/inclusive_map.rs", "symbol": "RangeInclusiveMap::insert"}, {"file": "src/inclusive_map.rs", "symbol": "RangeInclusiveMap::remove"}]}
{"id": "C45", "title": "RangeSet membership: last update wins", "statement": "After any history, contains(&k) iff the last insert/remove/clear affecting k was an insert; insert/remove panic iff start >= end and then change nothing.", "quantifier": "all histories; all keys", "why_tests_cant": "unbounded histories", "anchors": [{"file": "src/set.rs", "symbol": "RangeSet::insert"}, {"file": "src/set.rs", "symbol": "RangeSet::remove"}, {"file": "src/set.rs", "symbol": "RangeSet::contains"}]}
{"id": "C46", "title": "RangeSet is stored as its maximal runs", "statement": "iter() yields non-empty, ascending ranges that neither overlap nor touch; get(&k) is the maximal range of members around k; two sets are == iff they have the same members; equal sets make the same hasher writes and the writes of different sets are not even prefixes of each other (for lawful, prefix-free key hashes).", "quantifier": "all histories; all keys", "why_tests_cant": "invariant over unbounded histories", "anchors": [{"file": "src/set.rs", "symbol": "RangeSet::iter"}, {"file": "src/set.rs", "symbol": "RangeSet::get"}, {"file": "src/set.rs", "symbol": "RangeSet::eq"}]}
{"id": "C47", "title": "RangeSet::union iterates over the union", "statement": "Draining a.union(&b) yields non-empty, ascending, pairwise disjoint ranges covering exactly the keys in a or b; ranges are joined where they overlap and only there: each range of a and b lies in one yielded range, and every key inside a yielded range is strictly inside a range of a or of b; terminates and is fused.", "quantifier": "all pairs of reachable sets; every number of next() calls", "why_tests_cant": "all pairs of sets", "anchors": [{"file": "src/set.rs", "symbol": "RangeSet::union"}, {"file": "src/operations.rs", "symbol": "Union::next"}]}
{"id": "C48", "title": "RangeSet::intersection iterates over the intersection", "statement": "Draining a.intersection(&b) yields non-empty, ascending, pairwise disjoint and non-touching ranges covering exactly the keys in both a and b; terminates and is fused.", "quantifier": "all pairs of reachable sets; every number of next() calls", "why_tests_cant": "all pairs of sets", "anchors": [{"file": "src/set.rs", "symbol": "RangeSet::intersection"}, {"file": "src/operations.rs", "symbol": "Intersection::next"}]}
{"id": "C49", "title": "RangeSet | and & compute union and intersection", "statement": "&a | &b and &a & &b never panic; their members are exactly the keys in a or b, resp. in a and b; and they are canonical (maximal runs).", "quantifier": "all pairs of reachable sets", "why_tests_cant": "all pairs of sets", "anchors": [{"file": "src/set.rs", "symbol": "RangeSet::bitor"}, {"file": "src/set.rs", "symbol": "RangeSet::bitand"}]}
{"id": "C50", "title": "RangeSet Boolean algebra laws", "statement": "| and & are commutative, associative, idempotent, absorptive and distribute over each other, with the empty set as unit/zero - up to ==.", "quantifier": "all triples of reachable sets", "why_tests_cant": "all triples of sets", "anchors": [{"file": "src/set.rs", "symbol": "RangeSet::bitor"}, {"file": "src/set.rs", "symbol": "RangeSet::bitand"}]}
{"id": "C51", "title": "RangeSet::union does not promise coalesced output", "statement": "'union yields maximal runs' is false: for merely adjacent ranges of the two operands (0..5 and 5..10) the union iterator yields both pieces. It never yields overlapping pieces.", "quantifier": "exists two sets", "why_tests_cant": "not contradicted by any unit test", "anchors": [{"file": "src/operations.rs", "symbol": "Union::next"}, {"file": "src/operations.rs", "symbol": "RangeMerge::merge"}]}
{"id": "C52", "title": "RangeSet queries and bulk operations", "statement": "gaps/overlapping/overlaps/first/last/len/is_empty/clear/iter/into_iter/extend/from_iter/serde of RangeSet satisfy the same exactness statements as RangeMap with () values, for all schedules.", "quantifier": "all histories, queries and schedules", "why_tests_cant": "all sets, queries and schedules", "anchors": [{"file": "src/set.rs", "symbol": "RangeSet::gaps"}, {"file": "src/set.rs", "symbol": "RangeSet::overlapping"}, {"file": "src/set.rs", "symbol": "RangeSet::overlaps"}, {"file": "src/set.rs", "symbol": "RangeSet::first"}, {"file": "src/set.rs", "symbol": "RangeSet::last"}, {"file": "src/set.rs", "symbol": "RangeSet::extend"}, {"file": "src/set.rs", "symbol": "RangeSetVisitor::visit_seq"}]}
{"id": "C53", "title": "RangeInclusiveSet membership: last update wins", "statement": "After any history, contains(&k) iff the last insert/remove/clear affecting k was an insert; insert/remove panic iff start > end and then change nothing. With ranges iterated to exhaustion the same holds for what the stored ranges cover.", "quantifier": "all histories; all keys; all lawful step functions (for what contains says of exhausted ranges see C81)", "why_tests_cant": "unbounded histories", "anchors": [{"file": "src/inclusive_set.rs", "symbol": "RangeInclusiveSet::insert"}, {"file": "src/inclusive_set.rs", "symbol": "RangeInclusiveSet::remove"}, {"file": "src/inclusive_set.rs", "symbol": "RangeInclusiveSet::contains"}]}
{"id": "C54", "title": "RangeInclusiveSet is stored as its maximal runs", "statement": "iter() yields non-empty ascending ranges with a non-member between any two; get(&k) is the maximal range of members around k; == iff same members; cmp is Equal iff same members; hasher writes are the same iff the members are, and are prefix-free (for lawful, prefix-free key hashes).", "quantifier": "all histories; all keys (the exact ranges, get None, ==-completeness and hash agreement for ranges not iterated to exhaustion, see C81 for the others; maximality, ==-soundness, cmp and hash separation for all)", "why_tests_cant": "invariant over unbounded histories", "anchors": [{"file": "src/inclusive_set.rs", "symbol": "RangeInclusiveSet::iter"}, {"file": "src/inclusive_set.rs", "symbol": "RangeInclusiveSet::get"}, {"file": "src/inclusive_set.rs", "symbol": "RangeInclusiveSet::eq"}]}
{"id": "C55", "title": "RangeInclusiveSet union and intersection iterators are exact", "statement": "Draining union/intersection yields non-empty, ascending, disjoint ranges covering exactly the keys in a or b / in a and b; the union joins ranges where they overlap and only there; the intersection yields maximal runs; terminates, fused.", "quantifier": "all pairs of reachable sets (union: ranges not iterated to exhaustion, see C81 for the others)", "why_tests_cant": "all pairs of sets", "anchors": [{"file": "src/inclusive_set.rs", "symbol": "RangeInclusiveSet::union"}, {"file": "src/inclusive_set.rs", "symbol": "RangeInclusiveSet::intersection"}, {"file": "src/operations.rs", "symbol": "Union::next"}, {"file": "src/operations.rs", "symbol": "Intersection::next"}]}
{"id": "C56", "title": "RangeInclusiveSet | and & compute union and intersection and satisfy the Boolean laws", "statement": "&a | &b, &a & &b never panic, have exactly the expected members, are canonical and satisfy the distributive-lattice laws up to == (up to cmp if exhausted ranges were inserted).", "quantifier": "all pairs/triples of reachable sets, ranges iterated to exhaustion included", "why_tests_cant": "all sets", "anchors": [{"file": "src/inclusive_set.rs", "symbol": "RangeInclusiveSet::bitor"}, {"file": "src/inclusive_set.rs", "symbol": "RangeInclusiveSet::bitand"}]}
{"id": "C57", "title": "RangeInclusiveSet queries and bulk operations", "statement": "gaps/overlapping/overlaps/first/last/len/is_empty/clear/iter/into_iter/extend/from_iter/serde satisfy the same exactness statements as RangeInclusiveMap with () values; serde drops the exhausted flag and nothing else.", "quantifier": "all histories, queries and schedules, ranges iterated to exhaustion included", "why_tests_cant": "all sets, queries and schedules", "anchors": [{"file": "src/inclusive_set.rs", "symbol": "RangeInclusiveSet::gaps"}, {"file": "src/inclusive_set.rs", "symbol": "RangeInclusiveSet::overlapping"}, {"file": "src/inclusive_set.rs", "symbol": "RangeInclusiveSet::first"}, {"file": "src/inclusive_set.rs", "symbol": "RangeInclusiveSet::last"}, {"file": "src/inclusive_set.rs", "symbol": "RangeInclusiveSetVisitor::visit_seq"}]}
{"id": "C58", "title": "Integer StepLite impls satisfy the step contract", "statement": "For every built-in integer type, add_one/sub_one give the adjacent integer for every value except MAX/MIN, in both overflow-checking and wrapping builds.", "quantifier": "all eleven integer types with an impl (isize has none), all values, both overflow modes", "why_tests_cant": "2^128 values", "anchors": [{"file": "src/std_ext.rs", "symbol": "StepLite::add_one"}, {"file": "src/std_ext.rs", "symbol": "StepLite::sub_one"}, {"file": "src/std_ext.rs", "symbol": "impl_step_lite"}]}
{"id": "C59", "title": "NotNan<f32>/NotNan<f64> StepLite impls give adjacent floats", "statement": "For every non-NaN float x with a greater float, add_one(x) is the least float greater than x (and dually sub_one); +0.0 and -0.0 behave alike; infinities saturate; from a finite float a step and the step back give an equal float.", "quantifier": "all non-NaN bit patterns of both widths", "why_tests_cant": "2^64 bit patterns", "anchors": [{"file": "src/std_ext.rs", "symbol": "impl_step_lite_not_nan"}, {"file": "src/std_ext.rs", "symbol": "StepLite for NotNan"}]}
{"id": "C60", "title": "RangeMap and RangeInclusiveMap over integers agree", "statement": "Running the same history on a RangeMap<int> with s..e+1 and on a RangeInclusiveMap<int> with s..=e gives maps with the same lookups and corresponding entries (s..e+1 <-> s..=e), as long as e is not the maximum.", "quantifier": "all histories over integer keys", "why_tests_cant": "pairs of implementations over unbounded histories", "anchors": [{"file": "src/map.rs", "symbol": "RangeMap::insert"}, {"file": "src/inclusive_map.rs", "symbol": "RangeInclusiveMap::insert"}, {"file": "src/map.rs", "symbol": "RangeMap::remove"}, {"file": "src/inclusive_map.rs", "symbol": "RangeInclusiveMap::remove"}]}
{"id": "C61", "title": "quickcheck Arbitrary never panics", "statement": "Building an arbitrary map/set from any generated vector of (range, value) pairs never panics (empty and backward ranges are filtered out first) and yields a valid map.", "quantifier": "every generated vector", "why_tests_cant": "random tests sample finitely many vectors", "anchors": [{"file": "src/map.rs", "symbol": "RangeMap::arbitrary"}, {"file": "src/inclusive_map.rs", "symbol": "RangeInclusiveMap::arbitrary"}, {"file": "src/set.rs", "symbol": "RangeSet::arbitrary"}, {"file": "src/inclusive_set.rs", "symbol": "RangeInclusiveSet::arbitrary"}]}
{"id": "C62", "title": "RangeMap stays structurally valid if user code panics mid-update", "statement": "If a user-supplied Ord/Clone/PartialEq impl panics in the middle of insert/remove, the map left behind still iterates over non-empty, ascending, disjoint ranges and can be used; every entry that the call neither overlaps nor coalesces with is still there, identically; keys outside the updated range may, however, have been lost ('a panicking insert only affects keys in its range' is false). An interrupted extend stands at a state of the insert of one of its items, all earlier items having been inserted.", "quantifier": "every point at which the update may be interrupted; every reachable map", "why_tests_cant": "crash points are not controllable by unit tests of the public API", "anchors": [{"file": "src/map.rs", "symbol": "RangeMap::insert"}, {"file": "src/map.rs", "symbol": "RangeMap::remove"}, {"file": "src/map.rs", "symbol": "RangeMap::adjust_touching_ranges_for_insert"}]}
{"id": "C63", "title": "RangeInclusiveMap stays structurally valid if user code panics mid-update", "statement": "As C62 for RangeInclusiveMap, including panics of user-supplied step functions; also if exhausted ranges are stored or inserted: the map left behind is one that some history of completed calls reaches.", "quantifier": "every point at which the update may be interrupted", "why_tests_cant": "crash points are not controllable by unit tests", "anchors": [{"file": "src/inclusive_map.rs", "symbol": "RangeInclusiveMap::insert"}, {"file": "src/inclusive_map.rs", "symbol": "RangeInclusiveMap::remove"}]}
{"id": "C64", "title": "Maps with non-reflexive values", "statement": "With V: PartialEq only (e.g. f64 NaN), all of C01-C07 still hold, but 'm == m' is false for a map holding a value with v != v, and inserting such a value over itself is not coalesced.", "quantifier": "all histories; exists a map", "why_tests_cant": "IEEE NaN-like values over all histories", "anchors": [{"file": "src/map.rs", "symbol": "RangeMap::insert"}, {"file": "src/map.rs", "symbol": "RangeMap::eq"}]}
{"id": "C65", "title": "The dense test oracle is faithful", "statement": "The reference implementation used by the crate's own property tests (one entry per key) computes the same lookup function as RangeMap/RangeInclusiveMap for every sequence of inserts over integers, and its to_vec/to_end_exclusive_vec the same entries. Two dense maps are == iff the inserts describe the same function. Converting any RangeMap or RangeInclusiveMap that calls can produce and iterating gives back its entries (of a RangeInclusiveMap, those not stored as an exhausted range).", "quantifier": "all sequences of inserts over integer keys", "why_tests_cant": "the tests compare on random samples only", "anchors": [{"file": "src/dense.rs", "symbol": "DenseU32RangeMap"}, {"file": "src/inclusive_map.rs", "symbol": "RangeInclusiveMap::insert"}]}
{"id": "C66", "title": "RangeInclusiveMap updates leave untouched entries alone", "statement": "insert(s..=e,v)/remove(s..=e) keep every stored entry that does not touch (insert) or overlap (remove) s..=e, and every entry that only touches s..=e with a different value, identically: the same bounds, the same value and the same exhausted flag.", "quantifier": "all histories of insert/remove/clear/extend calls (including calls that panicked and were caught), all lawful key orders K: Ord, all values V with symmetric+transitive PartialEq; all ranges; all lawful step functions", "why_tests_cant": "all maps and arguments", "anchors": [{"file": "src/inclusive_map.rs", "symbol": "RangeInclusiveMap::insert"}, {"file": "src/inclusive_map.rs", "symbol": "RangeInclusiveMap::remove"}]}
{"id": "C67", "title": "Behaviour depends on keys only through Ord and on values only through ==", "statement": "Relabelling keys along any order embedding and values along any map that preserves and reflects == commutes with every operation: histories, outcomes, lookups, overlapping, gaps and equality. For RangeInclusiveMap the embedding must also respect the step functions; bounds then correspond up to ==, the exhausted flag exactly. The same holds for sets: histories, the union and intersection iterators (for both kinds, without any step function involved) and programs combining sets with | and &; for RangeInclusiveSet programs exactly, if the steps correspond wherever the original ones return. So it does for the programs of C96 and C97, which build maps and sets out of each other (values not relabelled, as the programs' closures act on them).", "quantifier": "all pairs of key types and embeddings; all histories, exhausted ranges included; all queries and schedules", "why_tests_cant": "quantifies over key types; tests use a handful of concrete types", "anchors": [{"file": "src/map.rs", "symbol": "RangeMap::insert"}, {"file": "src/map.rs", "symbol": "RangeMap::remove"}, {"file": "src/map.rs", "symbol": "RangeMap::overlapping"}, {"file": "src/map.rs", "symbol": "RangeMap::gaps"}, {"file": "src/inclusive_map.rs", "symbol": "RangeInclusiveMap::insert"}]}
{"id": "C68", "title": "Ord and PartialOrd compare entries lexicographically by start, end, value", "statement": "cmp/partial_cmp decide by the first pair of entries (from the lowest up) that do not compare equal: by start, then end, then value; a map that runs out of entries first is smaller; Equal iff all entries pairwise compare equal; partial_cmp is None iff the first non-equal components are incomparable, and later incomparable entries do not matter. The same for sets, on ranges.", "quantifier": "all four types; all maps and sets; all comparisons, lawful or not", "why_tests_cant": "quantifies over pairs of maps and over user comparisons", "anchors": [{"file": "src/map.rs", "symbol": "RangeMap::cmp"}, {"file": "src/map.rs", "symbol": "RangeMap::partial_cmp"}, {"file": "src/inclusive_map.rs", "symbol": "RangeInclusiveMap::cmp"}, {"file": "src/inclusive_map.rs", "symbol": "RangeInclusiveMap::partial_cmp"}, {"file": "src/set.rs", "symbol": "RangeSet::cmp"}, {"file": "src/inclusive_set.rs", "symbol": "RangeInclusiveSet::cmp"}]}
{"id": "C69", "title": "Debug prints the entries in order, and tells maps apart", "statement": "format!(\"{:?}\") prints {start..end: value, ...} (inclusive: start..=end; sets: {start..end, ...}) in iteration order, from the texts of keys and values; equal maps whose parts print alike print the same; maps with different entries print differently if the texts of keys and values are delimited (no text of one can be mistaken for the beginning of another with its delimiter), e.g. for integers.", "quantifier": "all four types; all maps and sets; all Debug impls of keys and values", "why_tests_cant": "the tests check three literal strings", "anchors": [{"file": "src/map.rs", "symbol": "RangeMap::fmt"}, {"file": "src/inclusive_map.rs", "symbol": "RangeInclusiveMap::fmt"}, {"file": "src/set.rs", "symbol": "RangeSet::fmt"}, {"file": "src/inclusive_set.rs", "symbol": "RangeInclusiveSet::fmt"}]}
{"id": "C70", "title": "Gaps and overlapping ranges tile the query", "statement": "What gaps(outer) yields, together with what overlapping(outer) yields clipped to outer, sorted by start, fills outer exactly: the first begins where outer begins, each begins where the one before ended (inclusive: no key lies in between), the last ends where outer ends, and none is empty. If outer is empty there are no gaps and nothing of the overlapping ranges is left after clipping.", "quantifier": "all four types; all histories, exhausted ranges included; all query ranges, empty ones included", "why_tests_cant": "this is what the fuzz targets assert of random u8 maps", "anchors": [{"file": "fuzz/fuzz_targets/rangemap_gaps.rs", "symbol": "fuzz_target"}, {"file": "fuzz/fuzz_targets/rangemap_inclusive_gaps.rs", "symbol": "fuzz_target"}, {"file": "src/map.rs", "symbol": "RangeMap::gaps"}, {"file": "src/map.rs", "symbol": "RangeMap::overlapping"}, {"file": "src/inclusive_map.rs", "symbol": "RangeInclusiveMap::gaps"}, {"file": "src/inclusive_map.rs", "symbol": "RangeInclusiveMap::overlapping"}, {"file": "src/set.rs", "symbol": "RangeSet::gaps"}, {"file": "src/inclusive_set.rs", "symbol": "RangeInclusiveSet::gaps"}]}
{"id": "C71", "title": "RangeMap updates make amortised constantly many BTreeMap modifications", "statement": "Every insert makes at most 6 BTreeMap insertions/removals plus the number of entries by which the map shrinks (minus those by which it grows), every remove at most 4 plus that number, clear 1, extend 6 per item; so the total over any history is at most 6 per inserted range + 4 per remove + 1 per clear, whatever the order. 'A single call makes boundedly many modifications' is false. A call makes at least as many as the entries it adds or drops.", "quantifier": "all histories; all calls; exists no bound for single calls", "why_tests_cant": "a bound on the work of all histories", "anchors": [{"file": "src/map.rs", "symbol": "RangeMap::insert"}, {"file": "src/map.rs", "symbol": "RangeMap::remove"}, {"file": "src/map.rs", "symbol": "RangeMap::adjust_touching_ranges_for_insert"}, {"file": "src/map.rs", "symbol": "RangeMap::adjust_overlapping_ranges_for_remove"}]}
{"id": "C72", "title": "RangeInclusiveMap updates make amortised constantly many BTreeMap modifications", "statement": "As C71 for RangeInclusiveMap, for all lawful step functions.", "quantifier": "all histories; all calls", "why_tests_cant": "a bound on the work of all histories", "anchors": [{"file": "src/inclusive_map.rs", "symbol": "RangeInclusiveMap::insert"}, {"file": "src/inclusive_map.rs", "symbol": "RangeInclusiveMap::remove"}, {"file": "src/inclusive_map.rs", "symbol": "RangeInclusiveMap::adjust_touching_ranges_for_insert"}, {"file": "src/inclusive_map.rs", "symbol": "RangeInclusiveMap::adjust_overlapping_ranges_for_remove"}]}
{"id": "C73", "title": "RangeMap with a user-supplied Clone", "statement": "If a cloned key compares Equal to the original and == cannot tell a cloned value from the original (clones may otherwise differ, also from call to call), a history gives the same entries up to the clones as with the identity as clone, each call returns or panics in the same way, get returns the last value written (up to ==), overlapping the entries that meet the query, gaps the maximal uncovered ranges, map.clone() a map that is == to the original; two histories whose arguments differ only so give maps that differ only so. If a clone compares differently to its original, lookups can be wrong.", "quantifier": "all histories; all key and value types; all lawful stateful clones; all schedules; exists an unlawful clone", "why_tests_cant": "Clone is user code; tests use integers and strings, whose clones are identical", "anchors": [{"file": "src/map.rs", "symbol": "RangeMap::insert"}, {"file": "src/map.rs", "symbol": "RangeMap::remove"}, {"file": "src/map.rs", "symbol": "RangeMap::get_key_value"}, {"file": "src/map.rs", "symbol": "RangeMap::overlapping"}, {"file": "src/map.rs", "symbol": "RangeMap::gaps"}, {"file": "src/map.rs", "symbol": "Gaps::next"}, {"file": "src/map.rs", "symbol": "RangeMap::clone"}]}
{"id": "C74", "title": "RangeInclusiveMap with a user-supplied Clone", "statement": "As C73 for RangeInclusiveMap, for all lawful step functions; with exhausted ranges get answers as with identical clones.", "quantifier": "all histories; all key and value types; all lawful step functions; all lawful stateful clones; all schedules; exists an unlawful clone", "why_tests_cant": "Clone is user code; tests use integers and strings, whose clones are identical", "anchors": [{"file": "src/inclusive_map.rs", "symbol": "RangeInclusiveMap::insert"}, {"file": "src/inclusive_map.rs", "symbol": "RangeInclusiveMap::remove"}, {"file": "src/inclusive_map.rs", "symbol": "RangeInclusiveMap::get_key_value"}, {"file": "src/inclusive_map.rs", "symbol": "RangeInclusiveMap::overlapping"}, {"file": "src/inclusive_map.rs", "symbol": "RangeInclusiveMap::gaps"}, {"file": "src/inclusive_map.rs", "symbol": "Gaps::next"}, {"file": "src/inclusive_map.rs", "symbol": "RangeInclusiveMap::clone"}]}
{"id": "C75", "title": "RangeStartWrapper/RangeEndWrapper: lawful orders, and a Borrow that is lawful on stored ranges", "statement": "Each wrapper's ==, partial_cmp and cmp satisfy Ord's contract if those of the key type do. Borrow's contract (the borrowed end wrapper compares like the start wrapper) is false for arbitrary ranges, but holds for any two keys that are together in a map at any moment of any call, also between two modifications of the BTreeMap and after interrupted calls; no two of them have equal starts or equal ends. So BTreeMap searches by either wrapper give the same result whatever the tree's shape, in the middle of a call too.", "quantifier": "all key types with a lawful Ord; all histories of complete and interrupted calls; every two stored ranges; every search tree shape; exists ranges violating Borrow", "why_tests_cant": "the claim is made in a comment only; an invariant of every intermediate state", "anchors": [{"file": "src/range_wrapper.rs", "symbol": "RangeStartWrapper"}, {"file": "src/range_wrapper.rs", "symbol": "RangeEndWrapper"}, {"file": "src/map.rs", "symbol": "RangeMap::insert"}, {"file": "src/map.rs", "symbol": "RangeMap::remove"}]}
{"id": "C76", "title": "RangeInclusiveStartWrapper/RangeInclusiveEndWrapper: lawful orders, and a Borrow that is lawful on stored ranges", "statement": "As C75 for the inclusive wrappers and RangeInclusiveMap, for all lawful step functions.", "quantifier": "all key types with a lawful Ord and step functions; all histories of complete and interrupted calls, exhausted ranges included; every two stored ranges; every search tree shape; exists ranges violating Borrow", "why_tests_cant": "the claim is made in a comment only; an invariant of every intermediate state", "anchors": [{"file": "src/range_wrapper.rs", "symbol": "RangeInclusiveStartWrapper"}, {"file": "src/range_wrapper.rs", "symbol": "RangeInclusiveEndWrapper"}, {"file": "src/inclusive_map.rs", "symbol": "RangeInclusiveMap::insert"}, {"file": "src/inclusive_map.rs", "symbol": "RangeInclusiveMap::remove"}]}
{"id": "C77", "title": "RangeExt::overlaps and touches say what their names say", "statement": "a.overlaps(b) iff some key lies in both, for all ranges, empty or backward ones included. For non-empty a and b, a.touches(b) iff one range has exactly the keys of a and b; false if one of them is empty. Both are symmetric, and overlapping ranges touch.", "quantifier": "all key types with a lawful Ord; all pairs of ranges", "why_tests_cant": "quantifies over all keys and candidate ranges, for any key type", "anchors": [{"file": "src/std_ext.rs", "symbol": "RangeExt::overlaps"}, {"file": "src/std_ext.rs", "symbol": "RangeExt::touches"}]}
{"id": "C78", "title": "RangeInclusiveExt::overlaps and touches say what their names say", "statement": "a.overlaps(b) iff some key lies in both (the flag of an exhausted range aside: it is not looked at, though such a range contains no last key). touches never asks for a successor that does not exist, so it never panics; for non-empty a and b, a.touches(b) iff one range has exactly the keys of a and b. Both are symmetric, and overlapping ranges touch.", "quantifier": "all key types with a lawful Ord and step functions; all pairs of ranges", "why_tests_cant": "quantifies over all keys and candidate ranges, for any key type and step function", "anchors": [{"file": "src/std_ext.rs", "symbol": "RangeInclusiveExt::overlaps"}, {"file": "src/std_ext.rs", "symbol": "RangeInclusiveExt::touches"}]}
{"id": "C79", "title": "RangeSet, union and intersection with a user-supplied Clone", "statement": "If a cloned key compares Equal to the original (clones may otherwise differ, also from call to call), then after any history the stored ranges are the maximal runs of the members and contains answers membership; each call returns or panics as with identical clones; union yields ascending disjoint pieces covering exactly the union, intersection the maximal runs of the intersection; any program of calls, | and & gives the set its operations denote. If a clone compares differently to its original, the answers can be wrong.", "quantifier": "all histories; all programs of calls, | and &; all key types with a lawful Ord; all lawful stateful clones; exists an unlawful clone", "why_tests_cant": "Clone is user code; tests use integers, whose clones are identical", "anchors": [{"file": "src/set.rs", "symbol": "RangeSet::insert"}, {"file": "src/set.rs", "symbol": "RangeSet::remove"}, {"file": "src/set.rs", "symbol": "RangeSet::contains"}, {"file": "src/set.rs", "symbol": "RangeSet::union"}, {"file": "src/set.rs", "symbol": "RangeSet::intersection"}, {"file": "src/operations.rs", "symbol": "Union::next"}, {"file": "src/operations.rs", "symbol": "Intersection::next"}, {"file": "src/operations.rs", "symbol": "RangeMerge::merge"}, {"file": "src/operations.rs", "symbol": "RangeIntersect::intersect"}]}
{"id": "C80", "title": "RangeInclusiveSet, union and intersection with a user-supplied Clone", "statement": "As C79 for RangeInclusiveSet, for all lawful step functions. With exhausted ranges among the arguments the stored ranges and the pieces of unions are, up to the clones, those with identical clones (as C81 describes them), by their bounds the maximal runs of the members, and contains answers as with identical clones.", "quantifier": "all histories and programs, exhausted ranges included; all key types with a lawful Ord and step functions; all lawful stateful clones; exists an unlawful clone", "why_tests_cant": "Clone is user code; tests use integers, whose clones are identical", "anchors": [{"file": "src/inclusive_set.rs", "symbol": "RangeInclusiveSet::insert"}, {"file": "src/inclusive_set.rs", "symbol": "RangeInclusiveSet::remove"}, {"file": "src/inclusive_set.rs", "symbol": "RangeInclusiveSet::contains"}, {"file": "src/inclusive_set.rs", "symbol": "RangeInclusiveSet::union"}, {"file": "src/inclusive_set.rs", "symbol": "RangeInclusiveSet::intersection"}, {"file": "src/operations.rs", "symbol": "Union::next"}, {"file": "src/operations.rs", "symbol": "Intersection::next"}, {"file": "src/operations.rs", "symbol": "RangeMerge::merge"}, {"file": "src/operations.rs", "symbol": "RangeIntersect::intersect"}]}
{"id": "C81", "title": "RangeInclusiveSet and exhausted ranges", "statement": "With ranges whose iteration was exhausted among the arguments: updates, gaps, overlapping, overlaps, intersection and cmp behave as with the same ranges un-iterated; lookups miss exactly the last key of each range stored with the flag; union yields pieces that cover exactly the union, each starting after the one before it or, if that one is exhausted, at its end; programs of calls, | and & still denote the right set (by bounds; cmp is Equal iff they denote the same set); serde drops the flag. False are: the pieces of a union are disjoint; a | b contains what b contains; a & b contains only what a and b contain; a | b == b | a.", "quantifier": "all histories and programs, exhausted ranges included; exists sets with exhausted ranges", "why_tests_cant": "state hidden inside RangeInclusive, not expressible with a..=b literals", "anchors": [{"file": "src/inclusive_set.rs", "symbol": "RangeInclusiveSet::insert"}, {"file": "src/inclusive_set.rs", "symbol": "RangeInclusiveSet::contains"}, {"file": "src/inclusive_set.rs", "symbol": "RangeInclusiveSet::get"}, {"file": "src/inclusive_set.rs", "symbol": "RangeInclusiveSet::union"}, {"file": "src/inclusive_set.rs", "symbol": "RangeInclusiveSet::intersection"}, {"file": "src/inclusive_set.rs", "symbol": "RangeInclusiveSet::bitor"}, {"file": "src/inclusive_set.rs", "symbol": "RangeInclusiveSet::bitand"}, {"file": "src/operations.rs", "symbol": "RangeMerge::merge"}, {"file": "src/operations.rs", "symbol": "Union::next"}]}
{"id": "C82", "title": "Union::new and Intersection::new on advanced iterators", "statement": "Calling Union::new or Intersection::new directly with two iterators that have been advanced any number of steps from either end (for inclusive sets even of sets with different step functions): the union covers exactly the keys of the remaining ranges, in ascending disjoint pieces (up to exhausted ranges as in C81; of half-open sets, joined exactly where ranges overlap); the intersection yields the maximal runs of the keys in both remainders; neither panics or yields more items than remain.", "quantifier": "all histories of both sets, all schedules of next and next_back calls on each iterator, all pairs of lawful step functions", "why_tests_cant": "product of histories and schedules", "anchors": [{"file": "src/operations.rs", "symbol": "Union::new"}, {"file": "src/operations.rs", "symbol": "Intersection::new"}, {"file": "src/operations.rs", "symbol": "Union::next"}, {"file": "src/operations.rs", "symbol": "Intersection::next"}, {"file": "src/set.rs", "symbol": "Iter::next"}, {"file": "src/set.rs", "symbol": "Iter::next_back"}, {"file": "src/inclusive_set.rs", "symbol": "Iter::next"}, {"file": "src/inclusive_set.rs", "symbol": "Iter::next_back"}]}
{"id": "C83", "title": "RangeMap updates make amortised constantly many BTreeMap calls", "statement": "Every insert and remove searches the BTreeMap (range) at most two times more than it removes entries, takes at most one item more from the iterators than it searches, and makes at most 3 calls (range, item taken, insert, remove) per modification plus 3 (insert) or 4 (remove); so with C71 the number of all calls a history makes is at most 21 per range inserted, 16 per remove and 1 per clear, minus 3 per entry left in the map.", "quantifier": "all histories; all calls", "why_tests_cant": "a bound on the work of all histories", "anchors": [{"file": "src/map.rs", "symbol": "RangeMap::insert"}, {"file": "src/map.rs", "symbol": "RangeMap::remove"}, {"file": "src/map.rs", "symbol": "RangeMap::extend"}, {"file": "src/map.rs", "symbol": "RangeMap::adjust_touching_ranges_for_insert"}, {"file": "src/map.rs", "symbol": "RangeMap::adjust_overlapping_ranges_for_remove"}]}
{"id": "C84", "title": "RangeInclusiveMap updates make amortised constantly many BTreeMap calls", "statement": "As C83 for RangeInclusiveMap, for all lawful step functions, exhausted ranges included.", "quantifier": "all histories; all calls", "why_tests_cant": "a bound on the work of all histories", "anchors": [{"file": "src/inclusive_map.rs", "symbol": "RangeInclusiveMap::insert"}, {"file": "src/inclusive_map.rs", "symbol": "RangeInclusiveMap::remove"}, {"file": "src/inclusive_map.rs", "symbol": "RangeInclusiveMap::extend"}, {"file": "src/inclusive_map.rs", "symbol": "RangeInclusiveMap::adjust_touching_ranges_for_insert"}, {"file": "src/inclusive_map.rs", "symbol": "RangeInclusiveMap::adjust_overlapping_ranges_for_remove"}]}
{"id": "C85", "title": "Pretty Debug ({:#?}) indents the entries by lines, and tells maps apart", "statement": "format!(\"{:#?}\") prints {} for an empty map or set, and otherwise {, one entry 'start..end: value,' per line (inclusive: start..=end; sets: 'start..end,') in iteration order, and }, where every line of an entry's text, also of nested multi-line values, is indented by four spaces, however many pieces the texts are written in; equal maps whose parts print alike print the same; maps with different entries print differently if the texts of keys and values are delimited, e.g. for integers.", "quantifier": "all four types; all maps and sets; all Debug impls of keys and values, multi-line ones included", "why_tests_cant": "the tests check no pretty output", "anchors": [{"file": "src/map.rs", "symbol": "RangeMap::fmt"}, {"file": "src/inclusive_map.rs", "symbol": "RangeInclusiveMap::fmt"}, {"file": "src/set.rs", "symbol": "RangeSet::fmt"}, {"file": "src/inclusive_set.rs", "symbol": "RangeInclusiveSet::fmt"}]}
{"id": "C86", "title": "RangeMap queries seek, and take no more items than needed", "statement": "overlapping(q) and gaps(q) start at the first entry that ends after q's start, whatever lies before it. Each next of overlapping takes one item from the BTreeMap iterator, and any schedule of next and next_back takes at most one per call plus the entries starting at or after q's end; n calls of next on gaps take at most n items besides the entries overlapping q. 'next_back takes boundedly many items' is false: the first one walks over everything behind q.", "quantifier": "all histories, queries and schedules; exists no bound for next_back", "why_tests_cant": "a bound on the work of all queries", "anchors": [{"file": "src/map.rs", "symbol": "RangeMap::overlapping"}, {"file": "src/map.rs", "symbol": "RangeMap::gaps"}, {"file": "src/map.rs", "symbol": "Overlapping::next"}, {"file": "src/map.rs", "symbol": "Overlapping::next_back"}, {"file": "src/map.rs", "symbol": "Gaps::next"}]}
{"id": "C87", "title": "RangeInclusiveMap queries seek, and take no more items than needed", "statement": "As C86 for RangeInclusiveMap, for all lawful step functions, exhausted ranges included.", "quantifier": "all histories, queries and schedules", "why_tests_cant": "a bound on the work of all queries", "anchors": [{"file": "src/inclusive_map.rs", "symbol": "RangeInclusiveMap::overlapping"}, {"file": "src/inclusive_map.rs", "symbol": "RangeInclusiveMap::gaps"}, {"file": "src/inclusive_map.rs", "symbol": "Overlapping::next"}, {"file": "src/inclusive_map.rs", "symbol": "Overlapping::next_back"}, {"file": "src/inclusive_map.rs", "symbol": "Gaps::next"}]}
{"id": "C88", "title": "RangeMap with an unlawful ==", "statement": "If == on the values obeys no law at all (neither symmetric nor transitive), the map is still sound: insert and remove return on valid and panic on invalid ranges; exactly the keys the history maps are mapped; a key just inserted reads back the inserted value, another key keeps its value or, if its old value was == to the inserted one and it now shares the inserted range's entry, takes that one; so each value read is linked by steps of == to the last one written there; iteration, lookup, gaps, overlapping and overlaps are exact. False without the laws: the value read is == to the one written; touching entries with == values are coalesced.", "quantifier": "all histories, ranges, queries and schedules; all functions as ==; exists a non-transitive ==", "why_tests_cant": "PartialEq is user code; tests use lawful value types", "anchors": [{"file": "src/map.rs", "symbol": "RangeMap::insert"}, {"file": "src/map.rs", "symbol": "RangeMap::remove"}, {"file": "src/map.rs", "symbol": "RangeMap::get_key_value"}, {"file": "src/map.rs", "symbol": "RangeMap::gaps"}, {"file": "src/map.rs", "symbol": "RangeMap::overlapping"}, {"file": "src/map.rs", "symbol": "RangeMap::adjust_touching_ranges_for_insert"}]}
{"id": "C89", "title": "RangeInclusiveMap with an unlawful ==", "statement": "As C88 for RangeInclusiveMap, for all lawful step functions; with exhausted ranges among the arguments the claims about values read hold of the entries with their flags cleared, and lookups additionally miss exactly the last key of each entry stored with the flag.", "quantifier": "all histories, exhausted ranges included, queries and schedules; all lawful step functions; all functions as ==; exists a non-transitive ==", "why_tests_cant": "PartialEq is user code; tests use lawful value types", "anchors": [{"file": "src/inclusive_map.rs", "symbol": "RangeInclusiveMap::insert"}, {"file": "src/inclusive_map.rs", "symbol": "RangeInclusiveMap::remove"}, {"file": "src/inclusive_map.rs", "symbol": "RangeInclusiveMap::get_key_value"}, {"file": "src/inclusive_map.rs", "symbol": "RangeInclusiveMap::gaps"}, {"file": "src/inclusive_map.rs", "symbol": "RangeInclusiveMap::overlapping"}, {"file": "src/inclusive_map.rs", "symbol": "RangeInclusiveMap::adjust_touching_ranges_for_insert"}]}
{"id": "C90", "title": "Step laws are exactly what correctness needs", "statement": "For any total order on the keys, RangeInclusiveMap answers get correctly after every history iff add_one/sub_one satisfy the step laws (where a greater/smaller key exists they return a neighbour with no key in between); likewise RangeInclusiveSet and contains. One insert and one single-key remove suffice to expose any violation. Consequently over a dense order no step functions are correct. False: steps that never fail, are monotone and mutually inverse suffice.", "quantifier": "all key types with a total order, all step functions, all ==-laws-abiding value types with a value; exists total mutually inverse steps for which a key is lost", "why_tests_cant": "user-supplied StepFns are code the tests never see; no finite set of key types shows necessity", "anchors": [{"file": "src/inclusive_map.rs", "symbol": "RangeInclusiveMap::insert"}, {"file": "src/inclusive_map.rs", "symbol": "RangeInclusiveMap::remove"}, {"file": "src/inclusive_map.rs", "symbol": "RangeInclusiveMap::adjust_overlapping_ranges_for_remove"}, {"file": "src/inclusive_set.rs", "symbol": "RangeInclusiveSet::contains"}, {"file": "src/std_ext.rs", "symbol": "StepFns"}, {"file": "src/std_ext.rs", "symbol": "StepLite"}]}
{"id": "C91", "title": "Queries of RangeMap/RangeInclusiveMap and of the two kinds of set over integers agree", "statement": "If the same calls are made on a half-open map with s..e+1 and on an inclusive one with s..=e, then gaps, overlapping (any schedule of next/next_back), overlaps, get_key_value, first/last and len answer alike for corresponding queries, valid or not; so do the two kinds of set, including their union and intersection iterators (piece by piece) and every program of inserts, removes, clears, extends, | and &. So do programs that build maps and sets out of each other (SpecProg): the maps have corresponding entries with the very same values, even if the program's closures tell == values apart.", "quantifier": "all histories and programs over integer-like keys, all queries and schedules; all integer types in both build modes", "why_tests_cant": "pairs of implementations over unbounded histories", "anchors": [{"file": "src/map.rs", "symbol": "RangeMap::gaps"}, {"file": "src/inclusive_map.rs", "symbol": "RangeInclusiveMap::gaps"}, {"file": "src/map.rs", "symbol": "RangeMap::overlapping"}, {"file": "src/inclusive_map.rs", "symbol": "RangeInclusiveMap::overlapping"}, {"file": "src/map.rs", "symbol": "RangeMap::get_key_value"}, {"file": "src/inclusive_map.rs", "symbol": "RangeInclusiveMap::get_key_value"}, {"file": "src/set.rs", "symbol": "RangeSet::union"}, {"file": "src/inclusive_set.rs", "symbol": "RangeInclusiveSet::union"}, {"file": "src/set.rs", "symbol": "RangeSet::intersection"}, {"file": "src/inclusive_set.rs", "symbol": "RangeInclusiveSet::intersection"}, {"file": "src/set.rs", "symbol": "RangeSet::bitor"}, {"file": "src/inclusive_set.rs", "symbol": "RangeInclusiveSet::bitor"}]}
{"id": "C92", "title": "The crate's fuzz targets can never fail", "statement": "Run on any input whatsoever, the targets rangemap_coalesce and rangemap_gaps do not panic, and rangemap_inclusive_coalesce and rangemap_inclusive_gaps panic exactly when an operation's range is backward: no two neighbouring entries with equal values touch, gaps and truncated overlapping ranges sorted by start tile the query end to end, an empty or backward query leaves nothing, and the targets' own arithmetic (start - 1, end + 1) never overflows.", "quantifier": "all operation lists and queries over u8 keys and values, with or without overflow checks (and over every lawful key type with an identity-like order)", "why_tests_cant": "the targets sample the inputs; the theorem covers all of them", "anchors": [{"file": "fuzz/fuzz_targets/rangemap_coalesce.rs", "symbol": "Op::apply"}, {"file": "fuzz/fuzz_targets/rangemap_gaps.rs", "symbol": "Op::apply"}, {"file": "fuzz/fuzz_targets/rangemap_inclusive_coalesce.rs", "symbol": "Op::apply"}, {"file": "fuzz/fuzz_targets/rangemap_inclusive_gaps.rs", "symbol": "Op::apply"}, {"file": "src/map.rs", "symbol": "RangeMap::gaps"}, {"file": "src/map.rs", "symbol": "RangeMap::overlapping"}, {"file": "src/inclusive_map.rs", "symbol": "RangeInclusiveMap::gaps"}, {"file": "src/inclusive_map.rs", "symbol": "RangeInclusiveMap::overlapping"}]}
{"id": "C93", "title": "The crate's property tests can never fail, except on ranges the crate rejects", "statement": "Run on any generated input, every #[proptest] function of map.rs, inclusive_map.rs, set.rs, inclusive_set.rs and std_ext.rs passes (first/last are what min_by_key/max_by_key find, len/is_empty/clear agree with iteration, iter/into_iter/overlapping backwards are the reverse of forwards, the map looks up what the last containing range assigned, == implies equal hashes, Ord agrees with == and PartialOrd, the pieces of unions and intersections never overlap and contain what they should, float steps are reversible and go the right way), and panics exactly when a range it collects or inserts is rejected by the crate (for RangeMap that includes start == end, which its generator does not leave out); every quickcheck! function passes on every input.", "quantifier": "all inputs of each test, over every lawful key and value type and step functions; every float format", "why_tests_cant": "the tests sample the inputs; the theorems cover all of them", "anchors": [{"file": "src/map.rs", "symbol": "Arbitrary::arbitrary_with"}, {"file": "src/inclusive_map.rs", "symbol": "Arbitrary::arbitrary_with"}, {"file": "src/set.rs", "symbol": "Arbitrary::arbitrary_with"}, {"file": "src/inclusive_set.rs", "symbol": "Arbitrary::arbitrary_with"}, {"file": "src/std_ext.rs", "symbol": "steps_are_reversible"}, {"file": "src/std_ext.rs", "symbol": "steps_move_in_the_right_direction"}]}
{"id": "C94", "title": "RangeMap and RangeSet updates leave exactly these entries", "statement": "insert(r, v) leaves, in order: of every entry that is not joined the part before r; one entry with value v whose range is r widened to take in the entries that have an equal value and overlap or touch r; of every entry that is not joined the part after r; an uncut entry is left as it was, bound for bound. remove(r) leaves the parts before and after r. So the entries after any history are those computed by these rules on plain lists, and collecting a map's entries in any order gives the same map again.", "quantifier": "all histories; all valid ranges and values; all orders of the entries; all key types with a lawful Ord, == need not be reflexive", "why_tests_cant": "exact result lists over unbounded histories; tests compare a few literal maps", "anchors": [{"file": "src/map.rs", "symbol": "RangeMap::insert"}, {"file": "src/map.rs", "symbol": "RangeMap::remove"}, {"file": "src/map.rs", "symbol": "RangeMap::from_iter"}, {"file": "src/map.rs", "symbol": "RangeMap::extend"}, {"file": "src/map.rs", "symbol": "RangeMap::adjust_touching_ranges_for_insert"}, {"file": "src/map.rs", "symbol": "RangeMap::adjust_overlapping_ranges_for_remove"}, {"file": "src/set.rs", "symbol": "RangeSet::insert"}, {"file": "src/set.rs", "symbol": "RangeSet::remove"}]}
{"id": "C95", "title": "RangeInclusiveMap and RangeInclusiveSet updates leave exactly these entries", "statement": "As C94 for RangeInclusiveMap: the parts left of a cut entry end at the key before r's start and begin at the key after r's end; entries are joined if they have an equal value and no key lies between them and r. The new entry's range is r itself, exhausted flag included, unless it was joined with something; joined ranges and the parts left of cut entries are not exhausted; all other entries keep their flag. Building a map from its entries in any order gives the identical map, flags included.", "quantifier": "all histories and valid ranges, exhausted ones included; all values; all orders of the entries; all key types with a lawful Ord and step functions", "why_tests_cant": "exact result lists over unbounded histories; tests compare a few literal maps", "anchors": [{"file": "src/inclusive_map.rs", "symbol": "RangeInclusiveMap::insert"}, {"file": "src/inclusive_map.rs", "symbol": "RangeInclusiveMap::remove"}, {"file": "src/inclusive_map.rs", "symbol": "RangeInclusiveMap::from_iter"}, {"file": "src/inclusive_map.rs", "symbol": "RangeInclusiveMap::extend"}, {"file": "src/inclusive_map.rs", "symbol": "RangeInclusiveMap::adjust_touching_ranges_for_insert"}, {"file": "src/inclusive_map.rs", "symbol": "RangeInclusiveMap::adjust_overlapping_ranges_for_remove"}, {"file": "src/inclusive_set.rs", "symbol": "RangeInclusiveSet::insert"}, {"file": "src/inclusive_set.rs", "symbol": "RangeInclusiveSet::remove"}]}
{"id": "C96", "title": "Programs combining RangeMaps and RangeSets mean what they say", "statement": "Any program that starts from empty maps and sets and combines them with updates, extend by another collection, removing a set's ranges, filling or collecting gaps, mapping values, selecting ranges by value, | and & runs without panicking (calls on empty ranges aside) and gives the collection its key-by-key meaning denotes, with maximal ranges; two programs give == collections iff their meanings agree. So complement (gaps) obeys De Morgan and double negation, difference, override and partition laws hold, a filled map has no gaps, and collected gaps are the complement of the keys. gaps yields at most len() + 1 ranges. Closures must not tell == values apart; if they do, every program still runs to a collection that some history of calls makes, mapping values keeps the keys and gives each key the image of the value stored for it, and selecting by value gives the keys of the entries selected.", "quantifier": "all programs; all key types with a lawful Ord; all values; all ranges", "why_tests_cant": "all compositions of public methods", "anchors": [{"file": "src/map.rs", "symbol": "RangeMap::extend"}, {"file": "src/map.rs", "symbol": "RangeMap::remove"}, {"file": "src/map.rs", "symbol": "RangeMap::gaps"}, {"file": "src/map.rs", "symbol": "RangeMap::into_iter"}, {"file": "src/map.rs", "symbol": "RangeMap::from_iter"}, {"file": "src/set.rs", "symbol": "RangeSet::extend"}, {"file": "src/set.rs", "symbol": "RangeSet::remove"}, {"file": "src/set.rs", "symbol": "RangeSet::gaps"}, {"file": "src/set.rs", "symbol": "RangeSet::from_iter"}, {"file": "src/set.rs", "symbol": "RangeSet::bitor"}, {"file": "src/set.rs", "symbol": "RangeSet::bitand"}]}
{"id": "C97", "title": "Programs combining RangeInclusiveMaps and RangeInclusiveSets mean what they say", "statement": "As C96 for the inclusive collections and all lawful step functions. If a program inserts ranges iterated to exhaustion, it still runs, the ranges of its result cover what it means, lookups hide exactly the last key of each exhausted range of the result, and cmp (instead of ==) decides whether two programs mean the same.", "quantifier": "all programs; all key types with a lawful Ord and step functions; all values; all ranges", "why_tests_cant": "all compositions of public methods", "anchors": [{"file": "src/inclusive_map.rs", "symbol": "RangeInclusiveMap::extend"}, {"file": "src/inclusive_map.rs", "symbol": "RangeInclusiveMap::remove"}, {"file": "src/inclusive_map.rs", "symbol": "RangeInclusiveMap::gaps"}, {"file": "src/inclusive_map.rs", "symbol": "RangeInclusiveMap::into_iter"}, {"file": "src/inclusive_map.rs", "symbol": "RangeInclusiveMap::from_iter"}, {"file": "src/inclusive_set.rs", "symbol": "RangeInclusiveSet::extend"}, {"file": "src/inclusive_set.rs", "symbol": "RangeInclusiveSet::remove"}, {"file": "src/inclusive_set.rs", "symbol": "RangeInclusiveSet::gaps"}, {"file": "src/inclusive_set.rs", "symbol": "RangeInclusiveSet::from_iter"}, {"file": "src/inclusive_set.rs", "symbol": "RangeInclusiveSet::bitor"}, {"file": "src/inclusive_set.rs", "symbol": "RangeInclusiveSet::bitand"}]}
{"id": "C98", "title": "Union and Intersection over any two iterators of Ranges", "statement": "Over any two iterators, whatever they do after their first None: Union covers exactly the keys of both, joins ranges only where they overlap, and never panics; if both are sorted by start (as Union::new requires; ranges may overlap, nest or be empty) the pieces are disjoint and ascending. Intersection of two sorted iterators covers exactly the keys in both, in non-empty pieces sorted by start, each within a range of either side; disjoint if the inputs are. Both stay at None once there, and both are lazy: after n calls each side has been asked for at most one item beyond those behind the pieces yielded. Unsorted inputs lose keys of the intersection and make pieces of the union overlap (witnesses).", "quantifier": "all iterators over ranges, all key types with a lawful Ord; fused and panic-free for all item types, orders and merge functions", "why_tests_cant": "no test passes anything but a set's iterator", "anchors": [{"file": "src/operations.rs", "symbol": "Union::next"}, {"file": "src/operations.rs", "symbol": "Intersection::next"}, {"file": "src/operations.rs", "symbol": "Union::new"}, {"file": "src/operations.rs", "symbol": "Intersection::new"}]}
{"id": "C99", "title": "Union and Intersection over any two iterators of RangeInclusives", "statement": "As C98 for RangeInclusive items; no step function is involved, so touching ranges are not joined. Any items may be exhausted: keys go by the bounds, and pieces of the union lie apart except that an exhausted one may end where the next begins (pieces of the intersection are never exhausted; those of the union are not if no item is).", "quantifier": "all iterators over inclusive ranges, all key types with a lawful Ord", "why_tests_cant": "no test passes anything but a set's iterator", "anchors": [{"file": "src/operations.rs", "symbol": "Union::next"}, {"file": "src/operations.rs", "symbol": "Intersection::next"}, {"file": "src/operations.rs", "symbol": "Union::new"}, {"file": "src/operations.rs", "symbol": "Intersection::new"}]}
{"id": "C100", "title": "RangeMap makes amortised constantly many clones", "statement": "If clones are lawful (C73), an insert clones at most 3 keys or values per search of the BTreeMap plus 2 per modification, less 3 (a bound that is met); a remove at most 3 per search plus 2 per entry it writes back, less 1; an invalid range clones nothing. So a history clones at most 33 times per range inserted, 25 per remove, never for a clear, minus 5 per entry left in the map. get, overlapping and gaps clone the key twice, Gaps::next twice per gap and not at all at the end, map.clone() three times per entry. False: a single call makes a bounded number of clones.", "quantifier": "all histories and calls; all key and value types; all lawful stateful clones; exists no bound for one call", "why_tests_cant": "a bound over all histories", "anchors": [{"file": "src/map.rs", "symbol": "RangeMap::insert"}, {"file": "src/map.rs", "symbol": "RangeMap::remove"}, {"file": "src/map.rs", "symbol": "RangeMap::extend"}, {"file": "src/map.rs", "symbol": "RangeMap::get_key_value"}, {"file": "src/map.rs", "symbol": "RangeMap::overlapping"}, {"file": "src/map.rs", "symbol": "RangeMap::gaps"}, {"file": "src/map.rs", "symbol": "Gaps::next"}, {"file": "src/map.rs", "symbol": "RangeMap::clone"}]}
{"id": "C101", "title": "RangeInclusiveMap makes amortised constantly many clones", "statement": "As C100 for RangeInclusiveMap, for all lawful step functions, exhausted ranges included: an insert may clone two keys more (touches clones); 35 per range inserted; Gaps::next clones at most twice.", "quantifier": "all histories and calls; all key and value types; all lawful step functions; all lawful stateful clones", "why_tests_cant": "a bound over all histories", "anchors": [{"file": "src/inclusive_map.rs", "symbol": "RangeInclusiveMap::insert"}, {"file": "src/inclusive_map.rs", "symbol": "RangeInclusiveMap::remove"}, {"file": "src/inclusive_map.rs", "symbol": "RangeInclusiveMap::extend"}, {"file": "src/inclusive_map.rs", "symbol": "RangeInclusiveMap::get_key_value"}, {"file": "src/inclusive_map.rs", "symbol": "RangeInclusiveMap::overlapping"}, {"file": "src/inclusive_map.rs", "symbol": "RangeInclusiveMap::gaps"}, {"file": "src/inclusive_map.rs", "symbol": "Gaps::next"}, {"file": "src/inclusive_map.rs", "symbol": "RangeInclusiveMap::clone"}, {"file": "src/std_ext.rs", "symbol": "RangeInclusiveExt::touches"}]}
{"id": "C102", "title": "Union and Intersection compare keys linearly often, whatever the comparisons answer", "statement": "Whatever answers the keys' comparison methods give (even contradictory ones, or different ones each time), every next of Union and of Intersection returns, without a panic and without looping for ever, after at most 5 (4) comparisons for each range it takes from the two sides; a next that yields something takes one or more. Run to the end over sets of m and n ranges, Union compares at most 5(m+n) times and yields at most m+n ranges, Intersection at most 4(m+n-1) times and m+n-1 ranges, and not at all if a side is empty. Both kinds of set.", "quantifier": "all sets (any lists of ranges), all states of the iterators, all answers of the comparisons", "why_tests_cant": "no test counts comparisons or runs an Ord that contradicts itself", "anchors": [{"file": "src/operations.rs", "symbol": "Union::next"}, {"file": "src/operations.rs", "symbol": "Intersection::next"}, {"file": "src/operations.rs", "symbol": "RangeMerge::merge"}, {"file": "src/operations.rs", "symbol": "RangeIntersect::intersect"}, {"file": "src/operations.rs", "symbol": "RangeOrder::order_start"}, {"file": "src/operations.rs", "symbol": "RangeOrder::order_end"}, {"file": "src/set.rs", "symbol": "RangeSet::union"}, {"file": "src/set.rs", "symbol": "RangeSet::intersection"}, {"file": "src/inclusive_set.rs", "symbol": "RangeInclusiveSet::union"}, {"file": "src/inclusive_set.rs", "symbol": "RangeInclusiveSet::intersection"}]}
{"id": "C103", "title": "RangeSet's | and & take linearly many clones and BTreeMap calls", "statement": "Union::next and Intersection::next clone at most two keys for each range they take from the two sides, whatever the comparisons and clones give. With lawful clones, a | b and a & b of sets of m and n ranges make at most 35(m+n) clones, less 5 for each range of the result; the pieces they insert into the new set number at most m+n (m+n-1), and inserting them makes at most 21 calls on the BTreeMap for each.", "quantifier": "all sets, all key types with a lawful Ord, all lawful stateful clones", "why_tests_cant": "a bound over all sets", "anchors": [{"file": "src/set.rs", "symbol": "RangeSet::bitor"}, {"file": "src/set.rs", "symbol": "RangeSet::bitand"}, {"file": "src/set.rs", "symbol": "RangeSet::from_iter"}, {"file": "src/set.rs", "symbol": "RangeSet::extend"}, {"file": "src/operations.rs", "symbol": "Union::next"}, {"file": "src/operations.rs", "symbol": "Intersection::next"}]}
{"id": "C104", "title": "RangeInclusiveSet's | and & take linearly many clones and BTreeMap calls", "statement": "As C103 for RangeInclusiveSet, exhausted ranges included, with 37(m+n) clones.", "quantifier": "all sets, all key types with a lawful Ord, all lawful step functions, all lawful stateful clones", "why_tests_cant": "a bound over all sets", "anchors": [{"file": "src/inclusive_set.rs", "symbol": "RangeInclusiveSet::bitor"}, {"file": "src/inclusive_set.rs", "symbol": "RangeInclusiveSet::bitand"}, {"file": "src/inclusive_set.rs", "symbol": "RangeInclusiveSet::from_iter"}, {"file": "src/inclusive_set.rs", "symbol": "RangeInclusiveSet::extend"}, {"file": "src/operations.rs", "symbol": "Union::next"}, {"file": "src/operations.rs", "symbol": "Intersection::next"}]}
{"id": "C105", "title": "RangeSet stays a valid set if user code panics mid-update", "statement": "If Ord::cmp or Clone panics in the middle of insert/remove/extend, the set left behind is one that some history of completed calls reaches: it stores the maximal runs of its members. An interrupted insert is complete or has only lost members, an interrupted remove has only lost members; stored ranges that the call does not touch (remove: overlap) are still there; an interrupted extend stands at a state of one of its inserts. 'An interrupted insert loses no member' is false.", "quantifier": "every point at which the update may be interrupted; every history of completed and interrupted calls", "why_tests_cant": "crash points are not controllable by unit tests of the public API", "anchors": [{"file": "src/set.rs", "symbol": "RangeSet::insert"}, {"file": "src/set.rs", "symbol": "RangeSet::remove"}, {"file": "src/set.rs", "symbol": "RangeSet::extend"}, {"file": "src/map.rs", "symbol": "RangeMap::insert"}, {"file": "src/map.rs", "symbol": "RangeMap::remove"}]}
{"id": "C106", "title": "RangeInclusiveSet stays a valid set if user code panics mid-update", "statement": "As C105 for RangeInclusiveSet, including panics of the step functions, exhausted ranges included; members are the keys between the bounds of the stored ranges.", "quantifier": "every point at which the update may be interrupted; every history of completed and interrupted calls; all lawful step functions", "why_tests_cant": "crash points are not controllable by unit tests", "anchors": [{"file": "src/inclusive_set.rs", "symbol": "RangeInclusiveSet::insert"}, {"file": "src/inclusive_set.rs", "symbol": "RangeInclusiveSet::remove"}, {"file": "src/inclusive_set.rs", "symbol": "RangeInclusiveSet::extend"}, {"file": "src/inclusive_map.rs", "symbol": "RangeInclusiveMap::insert"}, {"file": "src/inclusive_map.rs", "symbol": "RangeInclusiveMap::remove"}]}
{"id": "C107", "title": "RangeMap with an unlawful == stays sound when user code panics mid-update", "statement": "V::eq may be any total function of its two arguments (neither symmetric nor transitive), and any update may be interrupted by a panic of Ord::cmp, V::eq or Clone, any number of times. The entries stay ordered, disjoint and non-empty, lookups stay exact, and every later insert/remove returns with the outcome it has on a map never interrupted. An interrupted insert is complete or has only lost keys; an entry with a gap to the inserted range, and to every ==-valued entry without such a gap, survives. An interrupted remove only loses keys and no entry it does not overlap. (That an entry not touching the inserted range always survives is refuted.)", "quantifier": "every ==; every point of interruption; every history of completed and interrupted calls; all totally ordered keys", "why_tests_cant": "combination of an unlawful PartialEq with every crash point", "anchors": [{"file": "src/map.rs", "symbol": "RangeMap::insert"}, {"file": "src/map.rs", "symbol": "RangeMap::remove"}, {"file": "src/map.rs", "symbol": "RangeMap::adjust_touching_ranges_for_insert"}, {"file": "src/map.rs", "symbol": "RangeMap::adjust_overlapping_ranges_for_remove"}]}
{"id": "C108", "title": "RangeInclusiveMap with an unlawful == stays sound when user code panics mid-update", "statement": "As C107 for RangeInclusiveMap, including panics of the step functions; ranges may be exhausted; a gap is a key strictly between.", "quantifier": "every ==; every point of interruption; every history of completed and interrupted calls; all lawful step functions", "why_tests_cant": "combination of an unlawful PartialEq with every crash point", "anchors": [{"file": "src/inclusive_map.rs", "symbol": "RangeInclusiveMap::insert"}, {"file": "src/inclusive_map.rs", "symbol": "RangeInclusiveMap::remove"}, {"file": "src/inclusive_map.rs", "symbol": "RangeInclusiveMap::adjust_touching_ranges_for_insert"}, {"file": "src/inclusive_map.rs", "symbol": "RangeInclusiveMap::adjust_overlapping_ranges_for_remove"}]}
{"id": "C109", "title": "RangeMap updates are sound whatever == and != answer", "statement": "Let ==/!= on values answer each question arbitrarily (stateful, != not the negation of ==, clones not == to their originals). After any calls with any answers, each interrupted anywhere or completed, entries are ordered, disjoint, non-empty, lookups are exact and the map is one that completed calls reach with an == that is never true. insert of an invalid range panics before asking; of a valid range it never panics whatever the answers; if it returns, every key of r maps to v, the stored range holds r and otherwise only keys that were mapped, other keys are unchanged, and there are at most 2 entries more. With more than len+2 answers true it returns; it need not return if all answers are false. Interrupted, it has only lost keys. remove asks nothing. If the answers come from a function the modifications are those of the ordinary model.", "quantifier": "every list of answers; every point of interruption; every history", "why_tests_cant": "tests use PartialEq impls that are functions and mutually consistent; the space of answer sequences is unbounded and one of them makes insert loop forever", "anchors": [{"file": "src/map.rs", "symbol": "RangeMap::insert"}, {"file": "src/map.rs", "symbol": "RangeMap::remove"}, {"file": "src/map.rs", "symbol": "RangeMap::adjust_touching_ranges_for_insert"}]}
{"id": "C110", "title": "RangeInclusiveMap updates are sound whatever == and != answer", "statement": "As C109 for RangeInclusiveMap; ranges may be exhausted.", "quantifier": "every list of answers; every point of interruption; every history; all lawful step functions", "why_tests_cant": "as C109", "anchors": [{"file": "src/inclusive_map.rs", "symbol": "RangeInclusiveMap::insert"}, {"file": "src/inclusive_map.rs", "symbol": "RangeInclusiveMap::remove"}, {"file": "src/inclusive_map.rs", "symbol": "RangeInclusiveMap::adjust_touching_ranges_for_insert"}]}
{"id": "C111", "title": "RangeMap and RangeSet: Overlapping and Gaps used again after user code panicked in one of their calls", "statement": "If comparisons, clones or borrow panic inside calls of next/next_back and the panics are caught, the calls that return behave as Overlapping over the overlapping entries with at most one left out per panic, from either end. Gaps: as the gaps of the map with some entries left out (at most one per panicking comparison), with some gaps left out; together at most one per panic. So if only clones panic, every gap returned is inside the query and free of mapped keys; if a comparison panics that is false (witness), and repeating an interrupted call need not return the item it was about to return (witness).", "quantifier": "every history, any == on values, every query, every schedule of calls from both ends, every set of calls of user code that panic", "why_tests_cant": "every point of interruption in every sequence of calls", "anchors": [{"file": "src/map.rs", "symbol": "Overlapping::next"}, {"file": "src/map.rs", "symbol": "Overlapping::next_back"}, {"file": "src/map.rs", "symbol": "Gaps::next"}, {"file": "src/set.rs", "symbol": "Gaps::next"}, {"file": "src/set.rs", "symbol": "Overlapping::next"}]}
{"id": "C112", "title": "RangeInclusiveMap and RangeInclusiveSet: Overlapping and Gaps used again after user code panicked in one of their calls", "statement": "As C111; panicking step functions count as clones do (they lose gaps only).", "quantifier": "as C111; ranges may be exhausted; all lawful step functions", "why_tests_cant": "as C111", "anchors": [{"file": "src/inclusive_map.rs", "symbol": "Overlapping::next"}, {"file": "src/inclusive_map.rs", "symbol": "Overlapping::next_back"}, {"file": "src/inclusive_map.rs", "symbol": "Gaps::next"}, {"file": "src/inclusive_set.rs", "symbol": "Gaps::next"}, {"file": "src/inclusive_set.rs", "symbol": "Overlapping::next"}]}
{"id": "C113", "title": "Union and Intersection of Ranges used again after user code panicked in one of their calls", "statement": "Union loses the piece it was assembling: each side splits in order into ranges kept and ranges lost, the lost ones lie in at most one piece per panic, and the calls that return yield the union of those kept (exact coverage, joining only what overlaps, in turn if both sides are sorted). Intersection loses nothing: the calls that return yield what they would without any panic. For sets: pieces of the kept ranges; the exact intersection. One panic in Union can lose several ranges (witness).", "quantifier": "any two iterators, every set of calls of user code that panic; all pairs of reachable sets", "why_tests_cant": "every point of interruption", "anchors": [{"file": "src/operations.rs", "symbol": "Union::next"}, {"file": "src/operations.rs", "symbol": "Intersection::next"}, {"file": "src/operations.rs", "symbol": "RangeMerge::merge"}, {"file": "src/operations.rs", "symbol": "RangeIntersect::intersect"}]}
{"id": "C114", "title": "Union and Intersection of RangeInclusives used again after user code panicked in one of their calls", "statement": "As C113 for RangeInclusive, exhausted or not.", "quantifier": "as C113", "why_tests_cant": "as C113", "anchors": [{"file": "src/operations.rs", "symbol": "Union::next"}, {"file": "src/operations.rs", "symbol": "Intersection::next"}, {"file": "src/operations.rs", "symbol": "RangeMerge::merge"}, {"file": "src/operations.rs", "symbol": "RangeIntersect::intersect"}]}
{"id": "C115", "title": "RangeMap and RangeSet: Overlapping and Gaps whatever the keys' comparisons and the query's Borrow answer", "statement": "Every call returns. Overlapping takes each entry once, from the two ends, one comparison each; it gives an entry exactly if that comparison said it starts before the end of the range then borrowed. A gap given always runs from an end (or where the iterator stood) to the next start (or to the query's end); at most two comparisons per entry and one per call. With a lawful order and a query that borrows different ranges: every entry given is stored, ends after the start borrowed second when the iterator was made and starts before an end borrowed later. Not so: that Overlapping is fused (witness with a lawful order), that Gaps ends (witness).", "quantifier": "all comparison functions of the number of the call and the two keys; all borrow functions; every schedule; every list of entries", "why_tests_cant": "arbitrary user code that breaks its contracts cannot be enumerated", "anchors": [{"file": "src/map.rs", "symbol": "Overlapping::next"}, {"file": "src/map.rs", "symbol": "Overlapping::next_back"}, {"file": "src/map.rs", "symbol": "Gaps::next"}, {"file": "src/map.rs", "symbol": "RangeMap::overlapping"}, {"file": "src/set.rs", "symbol": "Gaps::next"}, {"file": "src/set.rs", "symbol": "Overlapping::next"}]}
{"id": "C116", "title": "RangeInclusiveMap and RangeInclusiveSet: Overlapping and Gaps whatever comparisons, Borrow and step functions answer", "statement": "As C115; a call of Gaps panics only if a step function does.", "quantifier": "as C115; any step functions; ranges may be exhausted", "why_tests_cant": "as C115", "anchors": [{"file": "src/inclusive_map.rs", "symbol": "Overlapping::next"}, {"file": "src/inclusive_map.rs", "symbol": "Overlapping::next_back"}, {"file": "src/inclusive_map.rs", "symbol": "Gaps::next"}, {"file": "src/inclusive_map.rs", "symbol": "RangeInclusiveMap::overlapping"}, {"file": "src/inclusive_set.rs", "symbol": "Gaps::next"}, {"file": "src/inclusive_set.rs", "symbol": "Overlapping::next"}]}
{"id": "C117", "title": "RangeInclusiveMap, RangeInclusiveSet: step functions that panic on keys where the laws want an answer", "statement": "Let step functions be lawful ones except that they panic on some keys. Then each call does exactly what it does over the lawful ones or panics inside a step function and leaves behind one of the maps the lawful call goes through; the map stays valid, ascending and coalesced after any such history and is one some lawful history makes; no call runs forever; an insertion or removal stopped this way has only lost keys, only of entries it has to do with, and gained none; Gaps yields what it yields over the lawful functions or panics; and a history in which no step function panicked is exactly the lawful one. The same for sets; there | and & of any two sets give the lawful result or panic inside a step function, and a program combining sets gives a set that some lawful history makes (the lawful result, if none of its updates was stopped) or panics inside a step function; if it removes nothing, the set has no member its meaning does not have (with a removal it can: witness). Likewise the programs of C97 that build maps and sets out of each other (extend, collect, gaps, removal loops, filters): the result is what a lawful history makes, and the lawful result if none of the updates was stopped, or the program panics inside a step function.", "quantifier": "all lawful step functions and every choice of keys on which they panic instead, all histories, ranges possibly exhausted, any lawful order and ==", "why_tests_cant": "The step functions of the test suite never panic in the middle of a map; the set of keys to panic on ranges over all subsets of an arbitrary key type.", "anchors": [{"file": "src/inclusive_map.rs", "symbol": "RangeInclusiveMap::insert"}, {"file": "src/inclusive_map.rs", "symbol": "RangeInclusiveMap::remove"}, {"file": "src/inclusive_map.rs", "symbol": "RangeInclusiveMap::adjust_touching_ranges_for_insert"}, {"file": "src/inclusive_map.rs", "symbol": "RangeInclusiveMap::adjust_overlapping_ranges_for_remove"}, {"file": "src/inclusive_map.rs", "symbol": "Gaps::next"}, {"file": "src/std_ext.rs", "symbol": "StepFns"}]}
{"id": "C118", "title": "RangeInclusiveMap, RangeInclusiveSet: exactly which step functions make an update run forever", "statement": "For values of which some two differ, every insert, remove, extend and clear on every map that calls can produce comes back (returns or panics) if and only if: for every x < y, add_one(x), if it answers, is above x and at most y, and sub_one(y), if it answers, is at least x. The loops then take at most twice the number of entries plus two rounds. For sets the condition is weaker: add_one never goes from a key that has a greater one back to a key that is not above it and has a smaller one; insertion into a set always comes back.", "quantifier": "all step functions (total functions to a key or a panic), every total preorder on the keys, any ==, all maps reachable by calls that came back", "why_tests_cant": "Whether a call returns is not observable by a test that waits for it; the step functions range over all functions on an arbitrary key type.", "anchors": [{"file": "src/inclusive_map.rs", "symbol": "RangeInclusiveMap::insert"}, {"file": "src/inclusive_map.rs", "symbol": "RangeInclusiveMap::remove"}, {"file": "src/inclusive_map.rs", "symbol": "RangeInclusiveMap::extend"}, {"file": "src/inclusive_set.rs", "symbol": "RangeInclusiveSet::remove"}, {"file": "src/std_ext.rs", "symbol": "StepFns"}]}
{"id": "C119", "title": "RangeInclusiveMap, RangeInclusiveSet: step functions that are right only among the keys in use (e.g. page-sized steps)", "statement": "Let P be any set of keys such that for x < y in P, add_one(x) is a key s of P with x < s <= y, and for y < x in P, sub_one(x) is a key p of P with y <= p < x; nothing is asked about other keys. Then for every history of calls whose ranges have bounds in P: stored ranges are in order, not backward and have bounds in P; calls panic only for backward ranges; get/contains of every key in P is the last writer's; get_key_value of any key at all finds exactly the stored range that contains it, and overlapping/overlaps of any query exactly the stored ranges it meets; equal values are stored apart only if a key of P lies between; == (for values equal to themselves) holds iff the maps agree on P; gaps within a range with bounds in P are exactly the maximal runs of keys of P not stored. Programs that combine such sets with | and & are evaluated without panic, to a set that a history of calls over P also produces, with exactly the expected keys of P; two such programs are == iff they have the same keys of P. So are the programs of C97 that build maps and sets out of each other, all of whose ranges have bounds in P: every lookup of a key in P answers the meaning, and == decides whether the meanings agree on P (closures respecting ==); with any closures at all they run without panic to a map or set that a history of calls over P also produces, and mapping or filtering by value applies the closure to the value stored at each key of P. Conversely, if bounds stay in P and lookups of keys in P are right for all such histories, the steps have the property stated. With all keys in P this is the usual requirement. A range with a bound outside P can store a backward range and lose keys (witness).", "quantifier": "all key types, total preorders, sets P, step functions, values, histories, exhausted ranges included for shape, lookups and gaps", "why_tests_cant": "a family of step functions not tested at all, and an exact characterisation of which work", "anchors": [{"file": "src/inclusive_map.rs", "symbol": "RangeInclusiveMap::insert"}, {"file": "src/inclusive_map.rs", "symbol": "RangeInclusiveMap::remove"}, {"file": "src/inclusive_map.rs", "symbol": "RangeInclusiveMap::extend"}, {"file": "src/inclusive_map.rs", "symbol": "RangeInclusiveMap::get_key_value"}, {"file": "src/inclusive_map.rs", "symbol": "RangeInclusiveMap::overlapping"}, {"file": "src/inclusive_map.rs", "symbol": "RangeInclusiveMap::gaps"}, {"file": "src/inclusive_map.rs", "symbol": "RangeInclusiveMap::eq"}, {"file": "src/inclusive_set.rs", "symbol": "RangeInclusiveSet::contains"}, {"file": "src/inclusive_set.rs", "symbol": "RangeInclusiveSet::insert"}, {"file": "src/inclusive_set.rs", "symbol": "RangeInclusiveSet::remove"}, {"file": "src/std_ext.rs", "symbol": "StepFns"}]}
