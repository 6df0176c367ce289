{"id": "C01", "title": "LLRB map behaves as a sorted map", "statement": "For a map made by NewLLRBTree with a comparator that is a total order on the keys used, every sequence of Put, GetByKey, GetByIndex, PatchByKey, PatchByIndex, DeleteByKey, DeleteByIndex, BisectLeft, BisectRight, Len and Reset calls returns exactly what the same sequence returns on a strictly sorted list of (key,value) pairs: Put on a present key returns ok=false and changes nothing, deletes and patches of absent keys/indices return ok=false and change nothing.", "quantifier": "all comparators that are total orders on the keys used, all finite call sequences, all keys, values and indices", "why_tests_cant": "The set of call sequences and tree shapes is infinite; a test only samples some of them.", "anchors": ["llrb_tree.go: Put, GetByKey, GetByIndex, PatchByKey, PatchByIndex, DeleteByKey, DeleteByIndex, Len, Reset, insert, delete, deleteMin", "llrb_tree_api.go: NewLLRBTree"]}
{"id": "C02", "title": "Index order is strictly ascending key order (LLRB)", "statement": "In every reachable LLRB map, GetByIndex(i) succeeds exactly for 0 <= i < Len(), and i < j implies that the key at i compares strictly below the key at j; every key returned by GetByIndex is found by GetByKey with the same value.", "quantifier": "all reachable maps, all indices", "why_tests_cant": "Needs every tree shape and every index.", "anchors": ["llrb_tree.go: GetByIndex, GetByKey, Len"]}
{"id": "C03", "title": "Bisect positions (LLRB)", "statement": "BisectLeft(key) and BisectRight(key) return (i,true) when key is at index i. When key is absent, BisectLeft returns (r-1,false) and BisectRight returns (r,false) with r the number of keys below key, including r=0 (BisectLeft = -1) and r=Len().", "quantifier": "all reachable maps, all keys", "why_tests_cant": "Needs every tree shape and all gaps between keys.", "anchors": ["llrb_tree.go: BisectLeft, BisectRight", "common_api.go: SortedMap"]}
{"id": "C04", "title": "LLRB operations never panic or loop", "statement": "With a comparator that is a total order on the keys used, no call on an LLRB map dereferences a nil child or fails to terminate, in any reachable state.", "quantifier": "all reachable maps, all calls and arguments", "why_tests_cant": "The rotations dereference children without nil checks; safety rests on the red-black invariant for every shape.", "anchors": ["llrb_tree.go: delete, deleteMin, colorFlip, rotateLeft, rotateRight, moveRedLeft, moveRedRight, fixUp"]}
{"id": "C05", "title": "LLRB depth is logarithmic", "statement": "After any history the number of key comparisons of any single lookup in an LLRB map holding n entries is at most 2*log2(n+1).", "quantifier": "all histories of inserts and deletes", "why_tests_cant": "Worst-case shapes are adversarial; sampling shuffles does not reach them.", "anchors": ["llrb_tree.go: insert, delete, fixUp", "llrb_tree.go: GetByKey"]}
{"id": "C06", "title": "LLRB Validate is exact on reachable maps", "statement": "Validate returns no error on every reachable LLRB map. On an arbitrary tree it returns no error exactly when each node's recorded size equals the number of nodes below it.", "quantifier": "all reachable maps; for the converse all trees", "why_tests_cant": "Universal over histories and over trees.", "anchors": ["llrb_validate.go: Validate, validate", "llrb_tree.go: postInsertAdjustLen, preDeleteByKeyAdjustLen, preDeleteByIndexAdjustLen"]}
{"id": "C07", "title": "A failed LLRB Put changes nothing", "statement": "If Put on an LLRB map returns an error because the comparator failed on some comparison, the map is unchanged: every later call returns what it would have returned had Put not been called.", "quantifier": "all maps, all (possibly failing) comparators, all keys", "why_tests_cant": "Comparators may fail at any node of the search path.", "anchors": ["llrb_tree.go: Put, insert, postInsertAdjustLen"]}
{"id": "C08", "title": "A failed LLRB delete changes nothing", "statement": "If DeleteByKey or DeleteByIndex on an LLRB map returns an error because the comparator failed, the map is unchanged.", "quantifier": "all maps, all (possibly failing) comparators", "why_tests_cant": "Comparators may fail at any node, including nodes reached only through rotations.", "anchors": ["llrb_tree.go: DeleteByIndex, DeleteByKey, delete"]}
{"id": "C09", "title": "Built-in comparators are total orders", "statement": "CompareUint16, CompareUint32, CompareUint64, CompareString and CompareByteSlice order all keys of their type totally: antisymmetric, transitive, zero exactly on equal keys, and agreeing with the numeric or bytewise lexicographic order.", "quantifier": "all pairs and triples of keys of the type", "why_tests_cant": "The domains are astronomically large.", "anchors": ["common_api.go: CompareUint16, CompareUint32, CompareUint64, CompareString, CompareByteSlice"]}
{"id": "C10", "title": "CompareInt orders all ints", "statement": "CompareInt(a,b) is negative, zero or positive exactly as a is below, equal to or above b, for all 64-bit ints.", "quantifier": "all pairs of 64-bit ints", "why_tests_cant": "2^128 pairs; the failing ones are at the extremes.", "anchors": ["common_api.go: CompareInt"]}
{"id": "C11", "title": "CompareTime orders all times", "statement": "CompareTime is a total order (up to equal instants) on all time.Time values.", "quantifier": "all triples of time.Time values", "why_tests_cant": "Monotonic-clock readings make order depend on how the values were obtained.", "anchors": ["common_api.go: CompareTime"]}
{"id": "C12", "title": "Comparators reject foreign key types", "statement": "Each built-in comparator returns an error exactly when one of its arguments is not of its type.", "quantifier": "all pairs of keys of any dynamic type", "why_tests_cant": "All dynamic types.", "anchors": ["common_api.go: CompareInt, CompareUint16, CompareUint32, CompareUint64, CompareString, CompareByteSlice, CompareTime"]}
{"id": "C13", "title": "B+Tree behaves as a sorted map", "statement": "For a B+Tree made by NewBPlusTree (any even maxKeysPerNode >= 4) or reopened by OldBPlusTree, with a total-order comparator and lossless pack/unpack callbacks, every sequence of Put/Get/Patch/Delete/Bisect/Len calls, interleaved with Flush, Purge, Touch, TouchItem, Prune, FetchLayoutReport, FetchDimensionsReport, Validate and background evictions, returns exactly what the same calls return on a strictly sorted list.", "quantifier": "all node capacities, all histories, all keys and indices, all eviction schedules, all store behaviours that honour the callback contract", "why_tests_cant": "Infinite histories; node splits/merges/evictions interact with each other.", "anchors": ["btree.go: Put, GetByKey, GetByIndex, PatchByKey, PatchByIndex, DeleteByKey, DeleteByIndex, Len, insertHere, rebalanceHere", "btree_api.go: NewBPlusTree, OldBPlusTree"]}
{"id": "C14", "title": "Index and bisect positions (B+Tree)", "statement": "In every reachable B+Tree GetByIndex, PatchByIndex, DeleteByIndex, BisectLeft and BisectRight use the rank of the key among all keys of the whole tree, exactly as in C02 and C03, although ranks are computed from per-node running sums.", "quantifier": "all reachable trees, all indices and keys", "why_tests_cant": "The running sums are maintained incrementally through every split, merge, borrow, load and eviction.", "anchors": ["btree.go: BisectLeft, BisectRight, GetByIndex, arrangePrefixSumTree, arrangePrefixSumTreeRecursively, updatePrefixSumTreeLeafToRootRecursively"]}
{"id": "C15", "title": "The two implementations are interchangeable", "statement": "The same sequence of SortedMap calls on an LLRB map and on a B+Tree (any capacity, any interleaved maintenance calls) gives the same results.", "quantifier": "all call sequences", "why_tests_cant": "Infinite call sequences.", "anchors": ["common_api.go: SortedMap"]}
{"id": "C16", "title": "B+Tree calls never panic", "statement": "With well-behaved callbacks no API call on a live B+Tree panics (nil dereference, failed type assertion, slice index, LRU logic panics) or fails to terminate, and no \"Logic error\" is returned, in any reachable state.", "quantifier": "all reachable trees, all calls, all eviction schedules", "why_tests_cant": "Universal over states and schedules.", "anchors": ["btree.go: markNodeUsed, markNodeEvicted, markNodeToBeDiscarded, rebalanceHere, insertHere, purgeNode"]}
{"id": "C17", "title": "Occupancy and height bounds", "statement": "Every reachable B+Tree has all leaves at the same depth, at most maxKeysPerNode keys in each node and at least maxKeysPerNode/2 in each non-root node; FetchDimensionsReport reports that depth and the item count, and with n items the height is at most max(1, log2 n).", "quantifier": "all capacities and histories", "why_tests_cant": "Split/merge boundary cases depend on history.", "anchors": ["btree.go: insertHere, rebalanceHere, FetchDimensionsReport"]}
{"id": "C18", "title": "B+Tree Validate accepts every reachable tree", "statement": "Validate returns no error on every reachable B+Tree (unless GetNode fails).", "quantifier": "all histories", "why_tests_cant": "Universal over histories.", "anchors": ["btree_validate.go: Validate, validate, validatePrefixSum"]}
{"id": "C19", "title": "Eviction and purge are invisible", "statement": "Purge(false), Purge(true) on a fully flushed tree, and any background eviction at any time between calls leave the contents unchanged: all later calls return the same results as if it had not happened.", "quantifier": "all states, all victims, all points in a history", "why_tests_cant": "Schedules of the background goroutine cannot be enumerated.", "anchors": ["btree.go: purgeNode, btreeNodeCacheDrainer, loadNode"]}
{"id": "C20", "title": "Flush then reopen restores the map", "statement": "After Flush(andPurge) returns location L, OldBPlusTree(L) yields a tree with exactly the same entries, item counts and node capacity.", "quantifier": "all reachable trees, all pack/unpack callbacks that round-trip, all stores", "why_tests_cant": "Infinite states and codecs.", "anchors": ["btree.go: Flush, flushNode, postNode, loadNode", "btree_api.go: OldBPlusTree"]}
{"id": "C21", "title": "A flushed checkpoint survives later changes", "statement": "After Flush returns location L, whatever calls follow on the tree (without Prune or Discard), including failed ones, a crash at any point between or inside callbacks followed by OldBPlusTree(L) yields exactly the entries present when Flush returned.", "quantifier": "all histories after a Flush, all crash points", "why_tests_cant": "Crash points inside operations cannot be enumerated by tests.", "anchors": ["btree.go: postNode, placeNodeOnStaleOnDiskReferenceList, pruneWhileLocked"]}
{"id": "C22", "title": "Prune after Flush discards only unreachable nodes", "statement": "If Prune is called when the tree has no unflushed changes, every location passed to DiscardNode is unreachable from the tree's current location, and reopening the tree afterwards still yields its contents.", "quantifier": "all histories", "why_tests_cant": "Needs all histories of stale-reference bookkeeping.", "anchors": ["btree.go: Prune, pruneWhileLocked, markNodeDirty, markNodeToBeDiscarded"]}
{"id": "C23", "title": "Prune never harms the last checkpoint", "statement": "Prune called at any time leaves the location returned by the last Flush loadable.", "quantifier": "all histories", "why_tests_cant": "Depends on ordering of changes, Flush and Prune.", "anchors": ["btree.go: Prune, placeNodeOnStaleOnDiskReferenceList"]}
{"id": "C24", "title": "No storage leak", "statement": "At every point each location returned by PutNode and not yet discarded is either part of the tree or scheduled for the next Prune, never both; after Flush and Prune the stored locations are exactly those of the tree; after Discard none is left.", "quantifier": "all histories of one tree with a store that does not fail", "why_tests_cant": "Accounting over all histories.", "anchors": ["btree.go: placeNodeOnStaleOnDiskReferenceList, postNode, discardNode, Discard, Prune"]}
{"id": "C25", "title": "Flush of an unchanged tree writes nothing", "statement": "Flush when nothing was modified since the previous successful Flush makes no PutNode call and returns the same location.", "quantifier": "all reachable trees", "why_tests_cant": "Depends on dirty tracking over all histories.", "anchors": ["btree.go: flushNode, postNode, markNodeClean"]}
{"id": "C26", "title": "Touch rewrites every node", "statement": "After Touch, the next Flush writes every node of the tree to a new location and Prune then discards every old location; contents are unchanged.", "quantifier": "all reachable trees", "why_tests_cant": "All tree shapes and load states.", "anchors": ["btree.go: Touch, touchNode"]}
{"id": "C27", "title": "A TouchItem sweep covers the tree", "statement": "Starting at 0 and feeding each returned index back to TouchItem until it reaches Len() terminates, returns strictly increasing indices, and leaves every node of a non-empty tree marked for rewriting; contents are unchanged. TouchItem(i) with i >= Len() returns 0.", "quantifier": "all reachable trees", "why_tests_cant": "All shapes.", "anchors": ["btree.go: TouchItem, touchLoadedNodeToRoot"]}
{"id": "C28", "title": "FetchLayoutReport is exact", "statement": "FetchLayoutReport maps each object number to the total length of the tree's stored (clean) nodes in that object and leaves the contents unchanged.", "quantifier": "all reachable trees", "why_tests_cant": "All shapes, load states.", "anchors": ["btree.go: FetchLayoutReport, updateLayoutReport"]}
{"id": "C29", "title": "On-disk node format round-trips", "statement": "Serialising any node and parsing the bytes gives the same node (item count, root and leaf flags, capacity, entries or child references), and parsing consumes the whole payload.", "quantifier": "all nodes, all values below 2^64, all lossless pack/unpack callbacks", "why_tests_cant": "Infinite domain.", "anchors": ["btree.go: postNode, loadNode, onDiskNodeStruct, onDiskReferenceToNodeStruct"]}
{"id": "C30", "title": "Node cache lists are exact", "statement": "After any sequence of node-cache updates, Stats().CleanLRUItems and DirtyLRUItems are the lengths of the clean and dirty lists, each list is a well-formed doubly linked list in least-recently-used order, no node is on two lists, and exactly the loaded nodes of the attached trees are on them, clean nodes on the clean list and modified nodes on the dirty list.", "quantifier": "all sequences of updates, any number of trees sharing the cache", "why_tests_cant": "Pointer surgery has many boundary cases (head, tail, singleton) in all combinations.", "anchors": ["btree.go: markNodeUsed, markNodeClean, markNodeDirty, markNodeEvicted, markNodeToBeDiscarded, Stats"]}
{"id": "C31", "title": "The drainer stops at the low limit", "statement": "Each eviction round of the background drainer removes at least one node from the clean list, evicts only unmodified nodes, never panics, and when it stops either no clean node is left or the total is at most EvictLowLimit.", "quantifier": "all states, all interleavings with API calls between its lock regions", "why_tests_cant": "Interleavings.", "anchors": ["btree.go: btreeNodeCacheDrainer, UpdateLimits, markNodeClean, purgeNode"]}
{"id": "C32", "title": "I/O errors leave the contents intact (all calls but deletes)", "statement": "If any call other than DeleteByKey, DeleteByIndex, Prune and Discard returns an error because GetNode or PutNode failed, the contents are unchanged and the tree stays fully usable.", "quantifier": "all states, all failure points", "why_tests_cant": "Failure points times states.", "anchors": ["btree.go: Put, GetByKey, Flush, flushNode, postNode, loadNode, touchNode"]}
{"id": "C33", "title": "I/O errors during deletes leave the contents intact", "statement": "If DeleteByKey or DeleteByIndex returns an error because GetNode failed, either the delete has not happened or exactly that entry is gone, and no other entry is ever lost.", "quantifier": "all states, all failure points", "why_tests_cant": "Failure points times states times later evictions.", "anchors": ["btree.go: DeleteByKey, DeleteByIndex, rebalanceHere"]}
{"id": "C34", "title": "Prune can be retried after a failed discard", "statement": "If Prune returns an error because DiscardNode failed once, calling it again completes, discarding each stale location exactly once.", "quantifier": "all stale sets, all failure points", "why_tests_cant": "Map iteration order and failure point are arbitrary.", "anchors": ["btree.go: pruneWhileLocked"]}
{"id": "C35", "title": "Discard reports failure and can be retried", "statement": "If Discard cannot load some node it returns an error; if DiscardNode failed, Discard can be called again.", "quantifier": "all states, all failure points", "why_tests_cant": "Failure points times states.", "anchors": ["btree.go: Discard, discardNode, markNodeToBeDiscarded"]}
{"id": "C36", "title": "Trees sharing a cache are isolated", "statement": "Calls on one tree, and evictions triggered by it, never change the contents of another tree that shares its node cache.", "quantifier": "all sets of trees sharing one cache, all interleaved histories", "why_tests_cant": "Infinite interleavings.", "anchors": ["btree.go: btreeNodeCacheStruct, btreeNodeCacheDrainer", "btree_api.go: NewBPlusTreeCache"]}
{"id": "C37", "title": "Threads: atomic calls, no deadlock", "statement": "API calls from any number of threads and the background evictions never deadlock, no call panics or runs for ever, and each call on a tree is atomic with respect to other calls and evictions: the answers are those of one call after the other, in an order that respects time. Versions that Flush stored stay readable whatever else runs at the same time and whenever the process dies. (FetchLocation, which takes no lock, may run at any time; what it returns is C42.)", "quantifier": "all numbers of threads and trees, all schedules", "why_tests_cant": "Schedules cannot be enumerated.", "anchors": ["btree.go: btreeNodeCacheDrainer, incCacheHits, markNodeUsed, markNodeClean, all API functions"]}
{"id": "C38", "title": "NewBPlusTree validates its capacity", "statement": "NewBPlusTree panics exactly when maxKeysPerNode is odd or below 4.", "quantifier": "all uint64 values", "why_tests_cant": "2^64 values.", "anchors": ["btree_api.go: NewBPlusTree"]}
{"id": "C39", "title": "Patches change one value only", "statement": "PatchByKey and PatchByIndex change the value of exactly the addressed entry; keys, order, length and all other values stay, in both implementations.", "quantifier": "all reachable maps", "why_tests_cant": "All shapes.", "anchors": ["llrb_tree.go: PatchByKey, PatchByIndex", "btree.go: PatchByKey, PatchByIndex"]}
{"id": "C40", "title": "FetchLocation reflects persistence", "statement": "FetchLocation returns the last flushed location while the tree has no unflushed change, and (0,0,0) as soon as it has one.", "quantifier": "all histories", "why_tests_cant": "All histories of dirty tracking.", "anchors": ["btree.go: FetchLocation, placeNodeOnStaleOnDiskReferenceList, postNode"]}
{"id": "C41", "title": "Who touches storage", "statement": "Only Flush writes to storage, and it never changes or removes a stored block; only Prune and Discard remove blocks, and they write none. No call on one tree changes a block or a cached node of another tree.", "quantifier": "all states, all calls, all ways a call can end", "why_tests_cant": "Must hold in every state, on every error path and at every crash point.", "anchors": ["btree.go: postNode, discardNode, pruneWhileLocked, Flush, Prune, Discard, Put, DeleteByKey"]}
{"id": "C42", "title": "FetchLocation from any thread", "statement": "FetchLocation may be called at any time from any thread; it returns the location of a version that was stored (by Flush) or opened, or (0,0,0), never anything else.", "quantifier": "all numbers of threads, all schedules", "why_tests_cant": "It reads three fields without the tree lock; the window is a few instructions wide.", "anchors": ["btree.go: FetchLocation", "btree_api.go: BPlusTree.FetchLocation"]}
{"id": "C43", "title": "Nodes read per call are bounded by the height of the tree", "statement": "On a B+Tree with L levels, a Get, Put, Patch, Bisect, TouchItem or FetchDimensionsReport call makes at most L storage callbacks, a Delete at most 1+3(L-1), Len at most one and FetchLocation none, whether the call succeeds or fails and whatever was evicted before; and L is at most logarithmic (base maxKeysPerNode/2) in the number of entries.", "quantifier": "all histories, trees, calls and keys, all patterns of evictions and callback failures", "why_tests_cant": "A bound over all trees and eviction patterns; tests count nothing.", "anchors": ["btree.go: GetByKey, GetByIndex, Put, PatchByKey, DeleteByKey, rebalanceHere, BisectLeft, BisectRight", "btree_api.go: GetNode callback"]}
{"id": "C44", "title": "Stats counters are exact", "statement": "While a tree is attached to a cache, each call on an item, Touch and FetchDimensionsReport adds to cacheMisses exactly the number of nodes it asked the storage for, each visit to a node counts exactly once as hit or miss, so a successful lookup on L levels adds L in total; calls on unattached trees count nothing; the counters never decrease; Flush, Purge, Prune, Validate, FetchLayoutReport, UpdateLimits and the drainer leave them alone.", "quantifier": "all histories, trees, calls, outcomes", "why_tests_cant": "The counters are the sum over the whole history; a missed or double count on one path goes unseen.", "anchors": ["btree.go: incCacheHits, incCacheMisses", "btree_api.go: BPlusTreeCache.Stats"]}
{"id": "C45", "title": "Flush and Prune make no superfluous storage calls", "statement": "A successful Flush makes exactly one storage callback for each modified node; a successful Prune makes exactly one for each block waiting to be discarded.", "quantifier": "all histories and trees", "why_tests_cant": "Depends on the set of modified nodes of an arbitrary history.", "anchors": ["btree.go: flushNode, postNode, pruneWhileLocked"]}
{"id": "C46", "title": "Dump prints the whole map and nothing else", "statement": "A Dump of a B+Tree during which no storage callback fails prints exactly the entries of the map in the order of their keys, and the storage location of every node that is not modified. Whatever fails, what a successful Dump prints is a subsequence of that, Dump comes back with an error only if a callback failed, and the tree, its entries and its stored blocks are unchanged.", "quantifier": "all histories, trees and behaviours of the storage", "why_tests_cant": "Depends on the shape of an arbitrary tree, on which nodes are loaded, and on where a callback fails.", "anchors": ["btree_dump.go: Dump, dumpNode"]}
{"id": "C47", "title": "A successful Dump is complete", "statement": "If Dump of a B+Tree returns no error, it has printed every entry of the map.", "quantifier": "all histories, trees and behaviours of the storage", "why_tests_cant": "A failure to read must be reported wherever it happens. (False: see the theorem.)", "anchors": ["btree_dump.go: dumpNode"]}
{"id": "C48", "title": "Dump of an LLRB tree is complete and faithful", "statement": "If DumpKey succeeds on every key, Dump of an LLRBTree succeeds, its drawing shows the keys from the last to the first, no deeper than a balanced tree, and its list shows each key once; two trees with the same dump have the same nodes in the same places with the same colours and sizes, if no key is printed as nil. If DumpKey fails on some key, Dump returns an error. Each line of the list names a node's colour, key, left and right child and size, and the branches of the drawing show on which side of its parent each node is.", "quantifier": "all histories of calls, all DumpKey functions", "why_tests_cant": "Ranges over all shapes a balanced tree can take and all positions of a key that cannot be printed.", "anchors": ["llrb_dump.go: Dump, dumpInFlatForm, dumpInTreeForm, dumpInTreeFormNode"]}
{"id": "C49", "title": "A key that Compare rejects is refused without harm", "statement": "Put, GetByKey, PatchByKey, DeleteByKey, BisectLeft and BisectRight on a B+Tree with entries, given a key that Compare cannot compare with the tree's keys, return an error (Compare's, unless a storage callback failed) and never panic. Whatever the program does afterwards behaves as if the call had not been made: same entries, same stored versions, same results of maintenance. The only trace is left by PatchByKey, after which the tree may have to be written again. On an LLRB map with entries the same calls return an error and change nothing; and whatever the pairs of keys for which Compare fails, an LLRB call that returns no error did not rely on a comparison that failed.", "quantifier": "all histories, trees, rejected keys, behaviours of the storage and continuations; all comparators (LLRB)", "why_tests_cant": "Depends on where in an arbitrary tree the comparison fails, and on everything that may be done later.", "anchors": ["btree.go: Put, GetByKey, PatchByKey, DeleteByKey, BisectLeft, BisectRight", "llrb_tree.go: Put, GetByKey, PatchByKey, DeleteByKey, DeleteByIndex, BisectLeft, BisectRight"]}
{"id": "C50", "title": "A refused call does not make a stored tree modified", "statement": "If a call on a B+Tree fails because Compare rejects the key, a Flush right after it writes nothing that a Flush before it would not have written.", "quantifier": "all histories, trees and rejected keys", "why_tests_cant": "Ranges over all trees and calls. (False for PatchByKey: see the theorem.)", "anchors": ["btree.go: PatchByKey", "btree.go: touchLoadedNodeToRoot"]}
{"id": "C51", "title": "Flush(true) and Purge free the tree's memory", "statement": "After Flush with andPurge, and after Purge(true), no node of the tree is held in memory by the cache, and the tree itself holds no entries and no nodes but its unloaded root. After Purge(false) the modified nodes are still held, and no clean ones; whatever was modified before is still in memory. If the tree is the only one that uses the cache, and no call has failed, Stats then counts no nodes at all.", "quantifier": "all histories, trees (any size, any mix of loaded, unloaded, clean and modified nodes) and other trees on the same cache", "why_tests_cant": "Ranges over every combination of which nodes are loaded and which are modified.", "anchors": ["btree.go: Flush, flushNode, Purge, purgeNode", "btree.go: Stats"]}
{"id": "C52", "title": "Reading starts the cache drainer", "statement": "After a lookup, report, Validate, Flush or Purge that read or wrote a node, and after opening a stored tree, either the cache is within its high limit or the drainer is running.", "quantifier": "all states of a tree that uses a cache, all calls of these kinds", "why_tests_cant": "Depends on where the size of the cache crosses the limit in the middle of a call.", "anchors": ["btree.go: loadNode, markNodeClean", "btree.go: btreeNodeCacheDrainer"]}
{"id": "C53", "title": "The drainer runs whenever the cache is too large", "statement": "Whenever the cache holds more nodes than its high limit and at least one of them is clean, the drainer is running.", "quantifier": "all histories", "why_tests_cant": "Ranges over all histories and trees on the cache. (False: updates do not start it. See the theorem.)", "anchors": ["btree.go: markNodeDirty, initNodeAsEvicted", "btree.go: btreeNodeCacheDrainer"]}
{"id": "C54", "title": "A truncated or lengthened root block is refused", "statement": "If the root block of a stored tree has lost bytes at its end, or has more bytes behind it, OldBPlusTree returns an error; it does not return a tree, panic or hang.", "quantifier": "all histories, stored trees, numbers of bytes lost, bytes appended and contents of the rest of the storage; Unpack callbacks that fail on a partial key or value", "why_tests_cant": "Ranges over all blocks and all places to cut them.", "anchors": ["btree_api.go: OldBPlusTree", "btree.go: loadNode"]}
{"id": "C55", "title": "Opening a tree is safe on any storage contents", "statement": "OldBPlusTree ends without a panic on any bytes GetNode returns, and it returns a tree only if the bytes have the form of a node.", "quantifier": "all histories before it, all storage contents; Unpack callbacks that do not use more bytes than they were given", "why_tests_cant": "Ranges over all byte strings.", "anchors": ["btree_api.go: OldBPlusTree", "btree.go: loadNode"]}
{"id": "C56", "title": "Validate checks the order of the keys", "statement": "If Validate accepts a tree, every key that GetByIndex shows is found by GetByKey.", "quantifier": "all storage contents that a tree can be opened from", "why_tests_cant": "Ranges over all damaged trees. (False: see the theorem.)", "anchors": ["btree_validate.go: Validate, validate"]}
{"id": "C57", "title": "Calls on an opened tree do not panic", "statement": "If OldBPlusTree accepts what it finds on storage, calls on the tree return answers or errors; they do not panic.", "quantifier": "all storage contents", "why_tests_cant": "Ranges over all byte strings and calls. (False: see the theorem.)", "anchors": ["btree.go: loadNode", "btree.go: GetByKey, Put"]}
{"id": "C58", "title": "Unreadable blocks are not taken for data", "statement": "If blocks on storage were replaced by bytes that cannot be read as nodes (for example, they lost bytes at the end, or got more), calls other than Discard and Dump still give the answers they would give on the undamaged storage, up to the first call that returns an error. Blocks of a tree's nodes that lose bytes at the end or get more cannot be read.", "quantifier": "all states and sequences of calls, all sets of damaged blocks", "why_tests_cant": "Ranges over all trees, damages and sequences of calls; the damaged block can be met in the middle of any call.", "anchors": ["btree.go: loadNode, GetByKey, Put, DeleteByKey, BisectLeft, Flush, Prune"]}
{"id": "C59", "title": "The cache evicts what was not used for the longest time", "statement": "GetByKey, GetByIndex, BisectLeft, BisectRight and FetchDimensionsReport of a tree attached to a cache move the nodes they go through, from the root down to a leaf, to the recent ends of the cache's lists, and leave the other nodes in the order they had. So the node evicted next is none of those nodes while another clean node is there: it is, of the others, the one used the longest time ago.", "quantifier": "all histories, trees, keys and indices", "why_tests_cant": "Ranges over all states of the cache, all trees and all lookups; the order shows only in later evictions.", "anchors": ["btree.go: GetByKey, GetByIndex, BisectLeft, BisectRight, FetchDimensionsReport", "btree.go: markNodeUsed, markNodeClean, btreeNodeCacheDrainer"]}
{"id": "C60", "title": "A tree that is only in memory uses no storage", "statement": "No call on a tree made by NewBPlusTree and never flushed makes a storage callback, and none fails (Purge(true), which refuses trees with unsaved changes, aside), whatever else goes on: other trees on the same cache stored, read, evicted or discarded, limits changed. (Not covered: Dump and Discard, which hide errors.)", "quantifier": "all histories in which the tree was never flushed, all calls on it but Flush, Dump and Discard", "why_tests_cant": "Ranges over all histories, also of the other trees that share the cache; one node wrongly evicted or taken for a stored one shows only when it is next used.", "anchors": ["btree_api.go: NewBPlusTree", "btree.go: loadNode, markNodeDirty, Prune, btreeNodeCacheDrainer"]}
{"id": "C61", "title": "Threads may share an LLRB map", "statement": "Threads that share a map made by NewLLRBTree see calls that happen all at once: for every history of calls and answers there are moments, each between a call and its return, such that a sorted list that carries out each call at its moment gives the same answers. No call panics, no call waits for ever. (False of this code: Reset takes no lock, so a Put that it overtakes brings back the entries it removed, and Put, DeleteByKey, DeleteByIndex and Len can follow a nil root. Proved for programs in which no Reset overlaps with one of those four.)", "quantifier": "all numbers of threads, all programs, all schedules", "why_tests_cant": "A test runs a few schedules; a Reset must fall between two accesses of another call to the root.", "anchors": ["llrb_tree.go: Reset, Put, DeleteByIndex, DeleteByKey, Len, GetByKey", "llrb_tree_api.go: LLRBTree"]}
{"id": "C62", "title": "Updates of an LLRB map compare logarithmically many keys", "statement": "After any history, every call on an LLRB map of n entries, Put, PatchByKey, DeleteByKey and DeleteByIndex included, calls Compare at most 8*log2(n+2) times, and what the call does and returns depends on no other pair of keys.", "quantifier": "all histories, all calls, all total orders", "why_tests_cant": "The worst shapes for a delete, which restructures on the way down and compares again, are not reached by sampling.", "anchors": ["llrb_tree.go: insert, postInsertAdjustLen, preDeleteByKeyAdjustLen, delete, deleteMin, moveRedRight, rotateRight", "llrb_tree.go: Put, PatchByKey, DeleteByKey, DeleteByIndex"]}
{"id": "C63", "title": "A failing Compare loses no entry of an LLRB map", "statement": "If during a call on an LLRB map Compare fails for some pairs of keys, whichever they are, then the call does not panic, and either it returns an error, all entries are still in the map, in order, and GetByKey finds each key with the value it had; or it does and returns exactly what it would have had Compare not failed. (After an error, lengths and positions are not covered: a failed delete leaves wrong lengths, C08.)", "quantifier": "all histories before the call, all calls, all sets of pairs of keys for which Compare fails", "why_tests_cant": "The comparison that fails can be any of those made while the tree is half restructured.", "anchors": ["llrb_tree.go: DeleteByKey, DeleteByIndex, Put, delete, insert, preDeleteByKeyAdjustLen, postInsertAdjustLen, moveRedLeft, moveRedRight"]}
{"id": "C64", "title": "A failing Compare does not harm a B+Tree", "statement": "If during Put or DeleteByKey on a B+Tree Compare fails for some pair of keys, the call returns its error, or it did not need that comparison; and all entries are still there, and stay there whatever is called afterwards. (False of this code: a Put that splits a node loses the entries it is moving; a Put that splits a leaf and fails to enter it into the parent returns success although the new leaf and all its entries are lost; after a failed DeleteByKey a later delete of another key succeeds, takes a third entry with it, and Validate finds nothing wrong. What holds: C49, for a key that Compare rejects from the first comparison on.)", "quantifier": "all histories, all keys, all pairs of keys for which Compare fails during the call", "why_tests_cant": "Only a Compare that fails while nodes are being rearranged shows it; the built-in comparators never do.", "anchors": ["btree.go: Put, DeleteByKey, insertHere", "llrb_tree.go: delete, DeleteByKey, Put"]}
{"id": "C65", "title": "A lookup in a B+Tree during which Compare fails returns the error, not a wrong answer", "statement": "If during GetByKey, GetByIndex, BisectLeft, BisectRight or Len on a B+Tree Compare fails for some pair of keys, the call returns Compare's error or, if it did not need that comparison, the answer it would have given; and no entry is lost. (False of this code when the call reads an inner node from storage: a present key is reported absent without an error, stays so, and the next Flush makes the loss permanent. Proved for calls that make no storage callback.)", "quantifier": "all histories, all keys and indexes, all sets of pairs of keys for which Compare fails", "why_tests_cant": "Depends on which nodes are in memory and on which of the many comparisons fails.", "anchors": ["btree.go: GetByKey, GetByIndex, BisectLeft, BisectRight, Len, loadNode", "llrb_tree.go: Put"]}
{"id": "C66", "title": "The cache's limits are those last given", "statement": "From NewBPlusTreeCache(low, high) on, whatever is called and whatever the drainer does, Stats reports as EvictLowLimit and EvictHighLimit the limits of the last UpdateLimits, or low and high if there was none. A new cache is empty and its counters are zero.", "quantifier": "all sequences of calls and drainer rounds, successful or failing, all limits", "why_tests_cant": "All sequences of calls.", "anchors": ["btree_api.go: NewBPlusTreeCache", "btree.go: UpdateLimits, Stats"]}
