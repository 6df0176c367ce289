# Formal model of NVIDIA/sortedmap in Rocq (Coq 8.16.1)

All Coq files are in `rocq/theories/`; build with
`coq_makefile -f _CoqProject -o Makefile && make -j4` in `rocq/`.
`properties.jsonl` is the list of properties (English), `MANIFEST.json` maps each to its theorems,
`seeded/LOG.jsonl` records the wrong programs the theorems were tested against.

## 1. Trusted base

* Coq 8.16.1's kernel (including its `vm_compute` machine, used for the concrete examples and the refutations).
  No kernel check is switched off, there are no plugins of our own, no `Admitted`, no axiom, no `Parameter`, no
  section-less `Variable`, no functor or module type.
* Libraries: Coq's standard library, std++, and Iris (only `iris.bi` and `iris.proofmode`: the proof mode for a
  separation logic that is *defined* in `HProp.v`; nothing of Iris's step-indexed logic or its ghost state is used).
* Axioms: **none**. `Print Assumptions` after each property theorem prints `Closed under the global context`
  (table in section 7).
* That the model says what the Go code does. Each definition in `Compare.v`, `Llrb.v`, `LlrbDump.v`, `BTree.v`,
  `Threads.v` cites the lines it models; section 3 lists what is left out or simplified.
* That `Spec.v` (sorted lists), the specification half of `Machine.v`, `Client.v` and `Crowd.v` (what a client
  sees) and the statements in `Props*.v` say what the English properties say. These files are short and
  meant to be read; none of the rest needs to be.

## 2. What is modelled

| Go | model | what it is |
|---|---|---|
| `common_api.go` all seven comparators | `Compare.v` | functions on a universe of dynamic key types; `CompareInt` wraps at 64 bits; `time.Time` has an optional monotonic reading |
| `llrb_tree.go`, `llrb_tree_api.go`, `llrb_validate.go`: every function | `Llrb.v` | nodes with colour and length; nil dereference = `LPanic`; comparator error = `None`; recursion budget `LFuel` proved never to run out |
| `llrb_dump.go`: every function | `LlrbDump.v` | what is printed, piece by piece; DumpKey is a function that may fail |
| `btree_dump.go`: every function | `BTree.v`: `bt_Dump`, `dumpNode` | what is printed, line by line, and the child errors that are dropped |
| `btree_api.go`: `NewBPlusTreeCache`, `NewBPlusTree`, `OldBPlusTree` | `BTree.v`: `newCache`, `bt_New`, `bt_Old` | |
| `btree.go:111-1036`: every method of a tree | `BTree.v`: `bt_*` | |
| `btree.go:1040-1063`: `UpdateLimits` | `BTree.v`: `cache_UpdateLimits` | |
| `btree.go:1067-3117`: every helper | `BTree.v`, under the same names | |
| `btree.go:2481-2521`: the drainer | `BTree.v`: `drainerSelect`, `drainerEvict` | its two halves, one under the cache mutex, one under a tree lock |
| `btree_validate.go` | `BTree.v`: `bt_Validate`, `validateNode`, `validatePrefixSum` | |
| `tree.Lock/Unlock`, goroutines | `Threads.v` | any number of threads, one step at a time |
| `GetNode`, `PutNode`, `DiscardNode` | the `disk` field and the oracle `orc` of a state | a map from locations to bytes; at each callback the oracle decides whether the process dies there, whether the callback fails, and where `PutNode` puts a block |

The Go heap is explicit in `BTree.v`: nodes, prefix-sum pointers, cache elements, trees and the cache are maps
from pointers to records; following a nil or dangling pointer is the outcome `Panic`. Every property theorem
about B+Trees is about runs of these functions, and `C16`, `C37_no_panic` say that `Panic` and `Fuel` never happen.

## 3. What is simplified, and how

In the code model (`BTree.v`, `Llrb.v`):

* `uint64`/`int` counters in memory are unbounded integers. Numbers written to storage must fit in 64 bits
  (`limit`), else the run stops with `Env`, which is not a `Panic` and about which nothing is claimed.
* `PutNode` returns a location that is not in use and fits in 64 bits, with a nonzero object number; else `Env`.
* One node cache; each tree is attached to it or not.
* The results other than `err` of a call that returns an error are dropped, and the text of errors too.
* Compare and the pack/unpack callbacks are pure functions. The B+Tree theorems assume (`lawful`, `Client.v`) that
  on the keys `dom` and values `domV` a client uses, Compare is a total order, and unpacking undoes packing.
  (That Compare may *fail* is modelled, and used in C07/C08/C63 for the LLRB tree, and in C49/C50/C64/C65 for calls on a B+Tree with
  a key that Compare rejects or during which it fails; the other B+Tree theorems are about keys on which Compare does not fail.)
* Go's random map iteration order in Prune is an arbitrary permutation chosen by the oracle.
* `Dump` of a B+Tree: the lines are records, not text; memory addresses in them are not recorded; DumpKey and DumpValue
  do not fail.

In the world (`Machine.v`, `Threads.v`):

* What a program may do is `legal`. Excluded: using a tree after `Discard`, after a failed delete, failed Prune or
  failed Discard (those are the subject of C33-C35), or after the process died; opening a version of a tree while
  another handle of the same tree is in use; `NewBPlusTree` with an odd or too small capacity (C38 covers it).
  The drainer's evictions are part of a history only while no tree is damaged and no handle has been dropped
  without `Discard` (C31 says what happens otherwise).
* The process may die before every storage callback, and between any two steps (threads). A callback itself is
  atomic: a block is stored or discarded in full, or not at all.
* A stretch under the mutex of the node cache is one step. Everything that touches the lists takes that mutex,
  and nothing done under it waits for anything else (`markNode*` call no callback and take no other lock; the
  drainer releases it before it takes a tree lock, btree.go:2499-2507), so this mutex cannot take
  part in a deadlock.
* A callback is one step and does not call the same tree again (in Go that would deadlock at once).
* `NewBPlusTree`/`OldBPlusTree` take no lock; nobody else can have the new handle before they return, which is
  modelled as holding its lock.
* The mutexes of the LLRB trees inside B+Tree nodes are never contended (they are only used under the tree lock) and
  are not modelled. An LLRB tree that threads share is the subject of C61: there a step is one access to the root of the tree
  with the work on nodes that follows it; Dump is not part of that model.
* FetchLocation takes no lock in the code, and takes none in the model: each of its reads is a step.

## 4. Structure of the development

1. **Yardsticks** (no code): `Spec` (sorted lists), the specification half of `Machine` (families of versions of
   sorted lists, what may be asked, what must come back), `Client`, `Crowd` (what clients see), `Picture`, `Format`,
   `Cache` (readings of a state: tree shape, block contents, cache lists).
2. **Code**: `Compare`, `Llrb`, `LlrbDump`, `LlrbThreads`, `BTree`, `Threads`.
3. **Comparators, LLRB**: `CompareProof`; `LlrbProof`, `LlrbDelete`, `LlrbApi`, `LlrbProps`: 2-3-tree invariant and
   refinement to `Spec`; `LlrbErrors`, `LlrbFailed` (comparisons that fail), `LlrbAsked` (how many there are).
4. **Logic**: `HProp` (a separation logic over the state of `BTree.v`, linear in stored blocks and list membership),
   `Wp` (weakest preconditions), `Wpt` (the same for a program interrupted after each step).
5. **B+Tree, one call**: `Lru`, `Kv`, `Codec`, `Ghost`, `Order`, `PsTree`, `Rep` (representation predicate), `Load`,
   `Search`, `Update`, `Plug`, `Insert`, `Borrow`, `Merge`, `Rebal`, `Api`, `Walk`, `Touch`, `Maint`, `Report`, `Open`.
6. **Histories**: `Pres`, `Local`, `Still` (what any call in any state preserves), `World` (invariant), `Hist`
   (`hist_ok`: every legal history goes right), `Disk`, `Seat`, `History`, `Footprint`, `Sweep`, `Aside`, `CacheHist`,
   `Cost`, `Ticks`, `Writes` (what calls cost), `Dumped`, `Blame` (Dump), `Foreign`, `Strangers` (rejected keys), `Frees`,
   `Wakes` (memory and the drainer), `Damage`, `Hurt` (blocks that postNode did not write),
   `Recent`, `Way` (which nodes a lookup uses).
7. **Threads**: `Calls`, `Steady`, `Parts`, `Conc`, `Joint` (invariant), `Sched`, `Start`, `Moves` (each kind of move keeps
   it), `Lives`, `Free` (consequences).
8. **Executable runs** for non-vacuity examples and counterexamples: `Sample`, `Runs`, `Crew`.
9. **Property theorems**: `Props*.v`, each `Theorem … Proof. exact ….`, followed by `Print Assumptions`, with
   `Example …_nonvacuous` beside them.

## 5. Property by property

* **C01-C04, C39 (LLRB)**: for every sequence of calls and every comparator that is a total order on the keys used,
  the model's answers equal those of `Spec` (induction on the sequence, invariant: red-black + sizes + sorted);
  `LPanic`/`LFuel` never occur. **C05**: height from the 2-3 invariant. **C06**: Validate accepts exactly the well-formed
  trees. **C07**: a Put whose Compare fails changes nothing. **C08**: *refuted* for deletes; the part that fails in the
  search pass is proved.
* **C09-C12**: directly on the comparators. **C10** *refuted* (64-bit overflow) with an exact characterisation of when the
  answer is right; **C11** *refuted* (monotonic readings mixed).
* **C13-C16, C18, C19, C32, C36, C38, C39**: `hist_ok`, lifted to statements about what a client sees along any
  history, with crashes, failing callbacks, several trees, and evictions. **C15** by comparing both with `Spec`.
* **C17, C22, C24, C26, C27, C28, C41**: with `Picture`: the tree as it lies in memory and on storage, read off a state
  without the logic; it is unique (`pictured` is functional).
* **C20, C21, C23, C25, C40**: versions on storage. **C23** *refuted* (Prune with unsaved changes discards nodes of the
  last checkpoint); proved for trees without unsaved changes, also when Prune fails or the process dies in it.
* **C29**: a pure reader/writer of blocks, shown to agree with loadNode/postNode.
* **C30, C31**: `Cache`: the lists pointer by pointer. Both *refuted* after a Discard that cannot read a node (stray
  nodes; the drainer then spins or panics); proved in all other histories.
* **C33, C34, C35**: *refuted*, each with a run; what remains true is proved.
* **C37**: an invariant over configurations of threads: the memory splits into disjoint parts, one per tree, each
  either at rest (satisfies the sequential representation predicate) or described by a weakest precondition of
  what its thread has left to do. Linearisation point: the last step.
* **C42**: *refuted* (FetchLocation without lock may return a location that was never stored, or panic during a
  concurrent Discard); proved while no other call is running on the tree.
* **C43, C44**: hits, misses and callbacks counted along each loop, with the height of the picture of the tree as
  bound; the monotonicity of the counters by a structural induction over all of the model.
* **C45**: callbacks of Flush = growth of the storage (structural); growth = modified nodes (C22's exact footprint).
* **C46**: the loop invariant of dumpNode: printed so far = a subsequence of what is stored so far, equal unless a child's
  error was dropped; a dropped error means that a callback failed (`Blame.v`). **C47**: *refuted* with a run.
* **C48**: induction over the tree.
* **C49**: LLRB maps: `LlrbErrors.v`, induction over the tree, for two comparators that agree where the first does not fail. B+Trees: `Foreign.v` follows each call down to the first comparison, which fails; `Strangers.v` lifts this to histories: the
  state after the call satisfies the invariant of the world before it (after PatchByKey, of the world after a failed
  Touch), so `hist_ok` applies to whatever follows. **C50**: *refuted* with a run.
* **C51**: the walk of flushNode/purgeNode (`Walk.v`) gives the picture after the call; `Frees.v` reads the cache lists off it. `C51_nothing_held`: what is left is the root's record, unloaded and without entries (needs that unloaded nodes have none, part of the representation invariant in `Rep.v`).
* **C52**: `Wakes.v`: a structural induction over the model: every step that changes the lists is followed by a look at the limit.
  **C53**: *refuted* with a run.
* **C54, C55**: `Damage.v`: weakest preconditions of loadNode on a block about which nothing is known; the reader of
  C29 fails on every proper prefix and every extension of a written block. **C56, C57**: *refuted* with runs.
  What Validate does guarantee (`C56_validated_partial`) is proved in `Sound.v`: weakest preconditions of Validate, without those
  checks that the theorem does not need, on storage about which nothing is known.
* **C58**: `Hurt.v`: a simulation, by structural induction over all of the model, between a run on damaged and one on undamaged
  storage; they can differ only after loadNode met a damaged block, and then it returns an error.
* **C59**: `Recent.v`: every descent is a sequence of visits, each of which moves one node to the recent end of its list
  (`Cache.v`); what the sequence does to the lists is computed from that. `Way.v`: descents that check, at every step,
  that they go to a child are shown, in the program logic, not to panic, so the ways are ways down the tree. The victim is then
  read off the head of the clean list.
* **C60**: `Mute.v`: by induction on the program, a call either makes no callback or would, on another storage of the same size, ask for a block that is not there; `Mem.v`: the latter contradicts the specification of the call (an I/O error is returned only if a callback failed) when the tree owns no blocks, and no event but a Flush of the tree gives it blocks.
* **C61**: `LlrbThreads.v`: each call cut into its accesses to the root; a forward simulation from the threads to a sorted list that
  carries out each call at one moment. *Refuted* with runs for Reset; that no order of the calls explains the
  answers of the run is shown by an exhaustive search that is proved complete.
* **C62**: `LlrbAsked.v`: the Compare calls of each method as a list of pairs of keys, written down along the code. Two theorems tie
  it to the model: a comparison function that agrees on the listed pairs gives the same run (so none is missing), and the list is
  short (colour invariant of `LlrbDelete.v`, at most three comparisons per level of delete, at most two levels per black level).
* **C63**: `LlrbFailed.v`: restructuring keeps the entries in order whatever Compare says (for every tree and comparator); with a
  comparator that fails or agrees, each function fails or does the same; the second pass of Put meets
  no key above the new one that the first pass did not meet (rotations along the way of an insertion); a lookup depends on the order of the entries only.
  Compare remains a function: within a call it answers the same for the same pair.
* **C64**: *refuted* by three runs of `BTree.v` in which Compare fails in one call and works in all others (`PropsHalf.v`). What holds is C49.
* **C65**: for lookups that make no storage callback, a relation between the runs of the same `BTree.v` program with two sets of callbacks, closed under sequencing (`Gentle.v`): the same, or Compare's error with nothing but the order of the cache's lists and its counters changed, so that the invariant of the histories holds on; uses the facts about one node's LLRB tree of C63 and the storage-call counts of `Cost.v`. For lookups that read from storage the claim is *refuted* by a run (`PropsLook.v`).
* **C66**: no function of `BTree.v` but UpdateLimits changes the two limits, in any state and whatever the outcome (`Limits.v`); then by induction over the run.

## 6. Findings about the code

Violations of properties a user relies on, each with a machine-checked run:

| id | finding |
|---|---|
| C08 | a failing Compare in the second pass of an LLRB delete leaves wrong lengths and colours; a later delete of another key then succeeds and takes a third entry with it (`C08_later_loss_refuted`) |
| C10 | CompareInt subtracts and overflows |
| C11 | CompareTime mixes monotonic and wall clock readings: not transitive |
| C23 | Prune while there are unsaved changes discards nodes of the last checkpoint |
| C30, C31 | Discard ignores discardNode's error: nodes stay on the cache lists, the drainer spins for ever or panics |
| C33 | a delete that fails while restructuring can lose another entry after an eviction |
| C34 | a failed Prune forgets nothing: the retry discards again what is already discarded |
| C35 | Discard does not report the failure to read a node, leaks its blocks, and cannot be retried |
| C42 | FetchLocation takes no lock: torn location; nil dereference during Discard |
| C47 | Dump returns no error although nodes could not be read and their entries are missing |
| C50 | PatchByKey marks the leaf and all nodes above it modified before it looks for the key: a call refused by Compare makes a stored tree of one node modified |
| C53 | updates never start the drainer: the cache can stay above its high limit with clean nodes that could be evicted |
| C56 | Validate does not compare keys of different nodes: two leaf blocks exchanged on storage give a tree that Validate accepts and in which GetByKey does not find keys that GetByIndex shows |
| C57 | OldBPlusTree accepts an inner node without children; GetByKey and Put on the tree panic |
| C61 | LLRB Reset takes no lock: a Put that overlaps with it brings the removed entries back; Put, deletes and Len that overlap with it can panic |
| C64 | a Put into a B+Tree during which Compare fails loses the entries that a split is moving, or, because the error of the insertion into the parent is dropped (btree.go:1151), returns success and loses the new node with all its entries; a DeleteByKey during which it fails makes a later delete lose another entry, unnoticed by Validate |
| C65 | a lookup that reads an inner node from storage drops the error of Compare (btree.go:2854): GetByKey reports a key that is there as absent, without an error, the entries below stay invisible in memory, and the next modification and Flush make the loss permanent |

Smaller ones, visible in the model: `validatePrefixSum` validates the left child twice and never the right one
(`btree_validate.go`), so C18 claims acceptance only; PatchByKey marks nodes dirty even if the key is absent; `TouchItem` past the
end returns 0. FetchLayoutReport, Validate and
Dump load nodes without counting misses. loadNode ignores the answer of Put for the keys of an inner node: of two
children with equal keys on a damaged block the second is dropped without an error.

## 7. Print Assumptions, theorem by theorem

Printed by the build; every entry is `Closed under the global context` (no axioms).

| file | theorem | assumptions |
|---|---|---|
| `PropsAsked.v` | `C62_comparisons` | none |
| `PropsCache.v` | `C30_lists` | none |
| `PropsCache.v` | `C30_unique` | none |
| `PropsCache.v` | `C30_has_all` | none |
| `PropsCache.v` | `C30_no_others_partial` | none |
| `PropsCache.v` | `C30_refuted` | none |
| `PropsCache.v` | `C30_apart` | none |
| `PropsCache.v` | `C30_updates` | none |
| `PropsCache.v` | `C30_order` | none |
| `PropsCache.v` | `C31_select` | none |
| `PropsCache.v` | `C31_evict_partial` | none |
| `PropsCache.v` | `C31_stops_partial` | none |
| `PropsCache.v` | `C31_limits` | none |
| `PropsCache.v` | `C31_refuted` | none |
| `PropsCache.v` | `C31_panic_refuted` | none |
| `PropsCompare.v` | `C09_total_orders` | none |
| `PropsCompare.v` | `C09_agree_with_order` | none |
| `PropsCompare.v` | `C10_compare_int_refuted` | none |
| `PropsCompare.v` | `C10_compare_int_partial` | none |
| `PropsCompare.v` | `C10_compare_int_order_partial` | none |
| `PropsCompare.v` | `C11_compare_time_refuted` | none |
| `PropsCompare.v` | `C11_compare_time_partial` | none |
| `PropsCompare.v` | `C12_foreign_types` | none |
| `PropsConc.v` | `C37_answers_of_a_sorted_map` | none |
| `PropsConc.v` | `C37_new_tree_is_a_sorted_map` | none |
| `PropsConc.v` | `C37_calls_happen_while_they_run` | none |
| `PropsConc.v` | `C37_every_call_is_right` | none |
| `PropsConc.v` | `C37_no_panic` | none |
| `PropsConc.v` | `C37_one_call_at_a_time` | none |
| `PropsConc.v` | `C37_no_deadlock` | none |
| `PropsConc.v` | `C37_calls_end` | none |
| `PropsConc.v` | `C37_versions_are_kept` | none |
| `PropsConc.v` | `C37_versions_can_be_opened` | none |
| `PropsConc.v` | `C37_opening_fails_only_if_a_callback_fails` | none |
| `PropsConc.v` | `C42_refuted` | none |
| `PropsConc.v` | `C42_panic_refuted` | none |
| `PropsConc.v` | `C42_while_the_tree_is_at_rest_partial` | none |
| `PropsCost.v` | `C43_reads` | none |
| `PropsCost.v` | `C44_stats` | none |
| `PropsCost.v` | `C44_touch` | none |
| `PropsCost.v` | `C44_counters` | none |
| `PropsCost.v` | `C45_flush` | none |
| `PropsCost.v` | `C45_prune` | none |
| `PropsDamage.v` | `C54_refused` | none |
| `PropsDamage.v` | `C55_open_safe` | none |
| `PropsDamage.v` | `C56_validate_order_refuted` | none |
| `PropsDamage.v` | `C56_validated_partial` | none |
| `PropsDamage.v` | `C57_panic_refuted` | none |
| `PropsDamage.v` | `C58_same_answers` | none |
| `PropsDamage.v` | `C58_cut_blocks` | none |
| `PropsDump.v` | `C46_dump` | none |
| `PropsDump.v` | `C46_dump_ends` | none |
| `PropsDump.v` | `C47_dump_reports_errors_refuted` | none |
| `PropsDump.v` | `C48_llrb_dump` | none |
| `PropsDump.v` | `C48_llrb_dump_fails` | none |
| `PropsDump.v` | `C48_llrb_dump_lines` | none |
| `PropsDump.v` | `C48_llrb_dump_faithful` | none |
| `PropsErrors.v` | `C49_llrb_foreign_key` | none |
| `PropsErrors.v` | `C49_llrb_errors_reported` | none |
| `PropsFail.v` | `C32_failed_calls` | none |
| `PropsFail.v` | `C33_refuted` | none |
| `PropsFail.v` | `C33_failed_delete_partial` | none |
| `PropsFail.v` | `C34_refuted` | none |
| `PropsFail.v` | `C34_failed_prune_partial` | none |
| `PropsFail.v` | `C35_refuted` | none |
| `PropsFail.v` | `C35_first_discard_partial` | none |
| `PropsFail.v` | `C36_isolation` | none |
| `PropsFail.v` | `C36_same_answers` | none |
| `PropsFailed.v` | `C63_no_entry_lost` | none |
| `PropsFailed.v` | `C63_entries_kept` | none |
| `PropsFailed.v` | `C08_later_loss_refuted` | none |
| `PropsForeign.v` | `C49_foreign_key` | none |
| `PropsForeign.v` | `C49_touch_keeps` | none |
| `PropsForeign.v` | `C50_refused_call_keeps_stored_refuted` | none |
| `PropsFormat.v` | `C29_round_trip` | none |
| `PropsFormat.v` | `C29_injective` | none |
| `PropsFormat.v` | `C29_blocks` | none |
| `PropsFrees.v` | `C51_flush_frees` | none |
| `PropsFrees.v` | `C51_purge_frees` | none |
| `PropsFrees.v` | `C51_nothing_held` | none |
| `PropsFrees.v` | `C51_others_partial` | none |
| `PropsFrees.v` | `C51_alone_partial` | none |
| `PropsFrees.v` | `C52_reads_wake` | none |
| `PropsFrees.v` | `C52_open_wakes` | none |
| `PropsFrees.v` | `C53_refuted` | none |
| `PropsHalf.v` | `C64_failed_compare_refuted` | none |
| `PropsHalf.v` | `C64_failed_put_refuted` | none |
| `PropsHalf.v` | `C64_silent_put_refuted` | none |
| `PropsLimits.v` | `C66_limits_last_given` | none |
| `PropsLimits.v` | `C66_new_cache` | none |
| `PropsLlrb.v` | `C01_llrb_is_a_sorted_map` | none |
| `PropsLlrb.v` | `C02_index_order` | none |
| `PropsLlrb.v` | `C03_bisect` | none |
| `PropsLlrb.v` | `C04_llrb_no_panic` | none |
| `PropsLlrb.v` | `C05_logarithmic` | none |
| `PropsLlrb.v` | `C06_validate` | none |
| `PropsLlrb.v` | `C07_failed_put` | none |
| `PropsLlrb.v` | `C08_failed_delete_refuted` | none |
| `PropsLlrb.v` | `C08_failed_delete_partial` | none |
| `PropsLlrb.v` | `C39_llrb_patch` | none |
| `PropsLook.v` | `C65_no_reads_partial` | none |
| `PropsLook.v` | `C65_failed_lookup_refuted` | none |
| `PropsMem.v` | `C60_no_callbacks` | none |
| `PropsMem.v` | `C60_owns_nothing` | none |
| `PropsPicture.v` | `C17_shape` | none |
| `PropsPicture.v` | `C17_capacity` | none |
| `PropsPicture.v` | `C17_report` | none |
| `PropsPicture.v` | `C17_height` | none |
| `PropsPicture.v` | `C28_layout` | none |
| `PropsPicture.v` | `C22_prune` | none |
| `PropsPicture.v` | `C22_prune_exact` | none |
| `PropsPicture.v` | `C24_accounting` | none |
| `PropsPicture.v` | `C24_apart` | none |
| `PropsPicture.v` | `C24_flush_prune` | none |
| `PropsPicture.v` | `C24_discard` | none |
| `PropsPicture.v` | `C24_all_discarded` | none |
| `PropsPicture.v` | `C26_touch` | none |
| `PropsPicture.v` | `C27_progress` | none |
| `PropsPicture.v` | `C27_covers` | none |
| `PropsPicture.v` | `C27_rewrites` | none |
| `PropsPicture.v` | `C41_storage_effects` | none |
| `PropsPicture.v` | `C41_bystander` | none |
| `PropsRecent.v` | `C59_path` | none |
| `PropsRecent.v` | `C59_looks` | none |
| `PropsRecent.v` | `C59_spared` | none |
| `PropsShared.v` | `C61_shared_map_refuted` | none |
| `PropsShared.v` | `C61_panic_refuted` | none |
| `PropsShared.v` | `C61_shared_map_partial` | none |
| `PropsShared.v` | `C61_no_deadlock_partial` | none |
| `PropsShared.v` | `C61_calls_end` | none |
| `PropsStore.v` | `C20_reopen` | none |
| `PropsStore.v` | `C21_checkpoint_survives` | none |
| `PropsStore.v` | `C23_refuted` | none |
| `PropsStore.v` | `C23_prune_partial` | none |
| `PropsStore.v` | `C25_flush_of_unchanged_tree` | none |
| `PropsStore.v` | `C40_location_of_flushed_tree` | none |
| `PropsStore.v` | `C40_location_of_opened_tree` | none |
| `PropsStore.v` | `C40_location_of_modified_tree` | none |
| `PropsStore.v` | `C40_location_of_new_tree` | none |
| `PropsTree.v` | `C13_new_tree_is_a_sorted_map` | none |
| `PropsTree.v` | `C13_old_tree_is_a_sorted_map` | none |
| `PropsTree.v` | `C13_tree_is_a_sorted_map` | none |
| `PropsTree.v` | `C14_positions` | none |
| `PropsTree.v` | `C15_interchangeable` | none |
| `PropsTree.v` | `C16_calls_end` | none |
| `PropsTree.v` | `C18_validate` | none |
| `PropsTree.v` | `C19_evictions_are_invisible` | none |
| `PropsTree.v` | `C19_purge_works` | none |
| `PropsTree.v` | `C38_capacity` | none |
| `PropsTree.v` | `C39_btree_patches` | none |
