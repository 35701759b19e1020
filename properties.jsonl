{"id": "C01", "title": "Epoch reclamation never hands out an item a live guard may still use", "statement": "If an id is retired through a guard, then no drain obtained from Registry::try_advance yields that retirement while any guard whose Registry::guard call had returned before the retirement is still held.", "quantifier": "all numbers of guard slots, all numbers of threads/guards, all interleavings of guard, drop, retire, try_advance and drain pops, all ids", "why_tests_cant": "Depends on the interleaving of atomic steps of arbitrarily many threads; a test observes only a handful of schedules.", "anchors": ["diskann-inmem/src/epoch.rs: Registry::guard, Registry::try_advance, Guard::retire, Guard::drop, Drain::pop"]}
{"id": "C02", "title": "Every retirement is drained at most once and never lost", "statement": "Each call of Guard::retire(i) contributes exactly one pending copy of i: over any execution the ids popped from drains plus the ids still pending are exactly the ids retired (as a multiset), each popped copy corresponds to a distinct earlier retirement. When no guard is held, a bounded number of advance-and-drain rounds hands out every pending id.", "quantifier": "all executions of the registry", "why_tests_cant": "Depends on the interleaving of atomic steps of arbitrarily many threads; a test observes only a handful of schedules.", "anchors": ["diskann-inmem/src/epoch.rs: Guard::retire, Drain::pop, Registry::try_advance"]}
{"id": "C03", "title": "Guards own their slot exclusively and pin the epoch", "statement": "Two guards that are held at the same time never share a registry slot, and while a guard that joined at epoch e is held the registry epoch is e or e+1; so at most two epochs are active at any time.", "quantifier": "all executions of the registry", "why_tests_cant": "Depends on the interleaving of atomic steps of arbitrarily many threads; a test observes only a handful of schedules.", "anchors": ["diskann-inmem/src/epoch.rs: Registry::guard_inner, Registry::can_advance, Registry::try_advance_inner"]}
{"id": "C04", "title": "A live drain has an exact size", "statement": "While a drain is alive nobody else adds to or removes from the ids it will yield, no second drain exists and the epoch does not move; so its reported length is exactly the number of ids it still yields.", "quantifier": "all executions of the registry", "why_tests_cant": "Depends on the interleaving of atomic steps of arbitrarily many threads; a test observes only a handful of schedules.", "anchors": ["diskann-inmem/src/epoch.rs: Drain::len, ExactSizeIterator for Drain"]}
{"id": "C05", "title": "No vector is overwritten while a reader can still see it", "statement": "While a Reader of the in-memory store is alive, the bytes of every vector slice it has obtained from read(i) stay unchanged until the Reader is dropped: no writer gets mutable access to slot i in that period.", "quantifier": "all interleavings of readers, writers (acquire/write/publish/drop), retires and drains, all store sizes", "why_tests_cant": "Depends on the interleaving of atomic steps of arbitrarily many threads; a test observes only a handful of schedules.", "anchors": ["diskann-inmem/src/store.rs: Store::reader, Reader::read, Store::acquire, Slot::publish, Store::retire, Store::try_drain", "diskann-inmem/src/epoch.rs", "diskann-inmem/src/tag.rs"]}
{"id": "C06", "title": "Slots have a unique writer", "statement": "At any moment at most one live Slot handle (mutable access) exists for a given store index, and no reader can newly read an index while a Slot for it is live.", "quantifier": "all interleavings of store operations", "why_tests_cant": "Depends on the interleaving of atomic steps of arbitrarily many threads; a test observes only a handful of schedules.", "anchors": ["diskann-inmem/src/store.rs: Store::acquire, Store::try_acquire, Slot"]}
{"id": "C07", "title": "The store's internal concurrency assertions never fire", "statement": "The 'CONCURRENCY VIOLATION' assertions executed while draining retired slots never fail, so draining never panics.", "quantifier": "all interleavings of store operations", "why_tests_cant": "Depends on the interleaving of atomic steps of arbitrarily many threads; a test observes only a handful of schedules.", "anchors": ["diskann-inmem/src/store.rs: Store::try_drain"]}
{"id": "C08", "title": "Frozen points are permanent", "statement": "The reserved (start) points created with the store stay readable forever with unchanged contents: they can never be acquired for writing, retired or recycled.", "quantifier": "all interleavings of store operations", "why_tests_cant": "Depends on the interleaving of atomic steps of arbitrarily many threads; a test observes only a handful of schedules.", "anchors": ["diskann-inmem/src/store.rs: Store::new, Store::retire, Slot::freeze", "diskann-inmem/src/tag.rs: Tag::is_reserved"]}
{"id": "C09", "title": "Retiring succeeds exactly once per publication", "statement": "For each publication of index i at most one retire(i) succeeds; retire fails on an index that is not published, already retiring, owned by a writer, frozen or out of bounds; after a successful retire no new read of i succeeds until i is published again.", "quantifier": "all interleavings of store operations", "why_tests_cant": "Depends on the interleaving of atomic steps of arbitrarily many threads; a test observes only a handful of schedules.", "anchors": ["diskann-inmem/src/store.rs: Store::retire, Reader::read"]}
{"id": "C10", "title": "Acquire finds free space when there is some", "statement": "When no other operation is in flight and no reader is held, Store::acquire succeeds if and only if some non-reserved slot is free or awaiting reclamation, whatever the preceding history.", "quantifier": "all histories of store operations ending in a quiescent state, all store sizes", "why_tests_cant": "The failure would only appear after particular histories of the free list hints (recycled queue overflow, scan cursor positions).", "anchors": ["diskann-inmem/src/freelist.rs: Freelist::pop, Freelist::scan, Freelist::push", "diskann-inmem/src/store.rs: Store::acquire, Store::scan_acquire, Store::try_drain"]}
{"id": "C11", "title": "External/internal id maps are mutually inverse", "statement": "After any history of IdMap insertions and deletions, the forward map (external to internal) and the backward map (internal to external) are inverse partial bijections, and a failing insertion changes neither.", "quantifier": "all histories of insert/delete/occupied_entry operations, all ids", "why_tests_cant": "The claim is over all inputs of unbounded size; a test checks finitely many.", "anchors": ["diskann-inmem/src/ids.rs: IdMap"]}
{"id": "C12", "title": "Provider ids name live vectors", "statement": "After any interleaving of set_element/delete/readers, an external id maps to an internal id only if that slot was written with that external id's vector and is live; a failed set leaves no mapping and returns the slot; a delete either removes both the mapping and the vector or neither.", "quantifier": "all interleavings of provider operations", "why_tests_cant": "Depends on the interleaving of atomic steps of arbitrarily many threads; a test observes only a handful of schedules.", "anchors": ["diskann-inmem/src/provider.rs: SetElement, Delete, Translate"]}
{"id": "C13", "title": "Adjacency storage of the in-memory store is exact", "statement": "Neighbors::get after set/append returns exactly the list last set plus everything successfully appended; rejected operations change nothing; operations on one id never affect another id.", "quantifier": "all sequences of set/append/get with any ids, lengths and capacities", "why_tests_cant": "The claim is over all inputs of unbounded size; a test checks finitely many.", "anchors": ["diskann-inmem/src/neighbors.rs: Neighbors"]}
{"id": "C14", "title": "The bounded priority queue keeps the best candidates", "statement": "After any sequence of insertions into a fixed-capacity NeighborPriorityQueue the content is sorted by distance, never exceeds the capacity, contains no NaN, and consists of the capacity smallest distances among everything inserted.", "quantifier": "all insertion sequences, capacities and distances (including NaN and infinities)", "why_tests_cant": "The claim is over all inputs of unbounded size; a test checks finitely many.", "anchors": ["diskann/src/neighbor/queue.rs: NeighborPriorityQueue::insert"]}
{"id": "C15", "title": "The queue expands best-first, each candidate once", "statement": "closest_notvisited returns the closest entry among the first L that has not been returned yet, never returns the same queue entry twice, and reports exhaustion exactly when all of the first L entries have been returned, under any mix of insertions and expansions.", "quantifier": "all sequences of insert / closest_notvisited / has_notvisited_node", "why_tests_cant": "The claim is over all inputs of unbounded size; a test checks finitely many.", "anchors": ["diskann/src/neighbor/queue.rs: closest_notvisited, has_notvisited_node"]}
{"id": "C16", "title": "Adjacency lists never hold duplicates", "statement": "After any history of public AdjacencyList operations (push, extend_from_slice, from_iter_untrusted, remap, truncate, resize ...) the list has no duplicate ids and push reports whether the id was new.", "quantifier": "all operation histories and ids", "why_tests_cant": "The claim is over all inputs of unbounded size; a test checks finitely many.", "anchors": ["diskann/src/graph/adjacencylist.rs: AdjacencyList"]}
{"id": "C17", "title": "Backedge buffering keeps exactly the set of pending sources", "statement": "Buffering back edges during a batch insertion records for every target exactly the set of distinct sources pushed to it, in first-push order, independent of inline or heap representation.", "quantifier": "all push sequences", "why_tests_cant": "The claim is over all inputs of unbounded size; a test checks finitely many.", "anchors": ["diskann/src/graph/internal/backedge.rs: BackedgeBuffer", "diskann/src/graph/index.rs: aggregate_backedges"]}
{"id": "C18", "title": "Candidate pools are the closest candidates, sorted", "statement": "The pool handed to pruning is sorted by distance, limited to the configured size, consists of the given candidates, and no candidate left out is closer than one kept (for candidate lists without NaN distances).", "quantifier": "all NaN-free candidate lists and limits", "why_tests_cant": "The claim is over all inputs of unbounded size; a test checks finitely many.", "anchors": ["diskann/src/graph/internal/sorted_neighbors.rs: SortedNeighbors"]}
{"id": "C19", "title": "Pruning returns a bounded duplicate-free subset of the pool", "statement": "For a pool of distinct candidates and alpha below f32::MAX, robust prune never panics and outputs at most the pruned degree many ids, all distinct, all from the candidate pool, never the node itself; with saturation on it fills up to the degree as long as the pool has candidates.", "quantifier": "all pools of distinct candidates, distance functions, degrees and alphas below f32::MAX", "why_tests_cant": "The claim is over all inputs of unbounded size; a test checks finitely many.", "anchors": ["diskann/src/graph/index.rs: occlude_list, robust_prune_list, robust_prune_with", "diskann/src/graph/internal/prune.rs"]}
{"id": "C20", "title": "Pruning respects the alpha-occlusion rule", "statement": "With the triangle-inequality rule a candidate kept by robust prune at a scale of the alpha ladder is not occluded at that scale by any closer neighbour kept before, a candidate that is dropped while the degree bound is not reached is occluded by some kept closer neighbour at the configured maximal alpha, and the result equals the textbook algorithm's. With the inner-product rule a dropped candidate is occluded by a kept closer neighbour at a scale within 0.01 of alpha.", "quantifier": "all pools, distance functions and alpha", "why_tests_cant": "The claim is over all inputs of unbounded size; a test checks finitely many.", "anchors": ["diskann/src/graph/index.rs: occlude_list", "diskann/src/graph/config/mod.rs: PruneKind::update_occlude_factor"]}
{"id": "C21", "title": "Pruning terminates", "statement": "Robust prune terminates for every pool and every alpha below f32::MAX, with IEEE single precision arithmetic.", "quantifier": "all pools, distance functions and alphas below f32::MAX", "why_tests_cant": "Non-termination on special float values is outside sampled inputs.", "anchors": ["diskann/src/graph/index.rs: occlude_list", "diskann/src/graph/config/mod.rs: Config"]}
{"id": "C22", "title": "Greedy search returns reachable, unique, correctly scored, sorted results", "statement": "The result of graph search contains no id twice, only ids reachable from the start points, each with its true distance to the query, sorted by distance, at most L of them; and every result list is locally complete: all neighbours of each returned node were considered.", "quantifier": "all graphs, queries/distance functions, L, beam widths and start sets", "why_tests_cant": "The claim is over all inputs of unbounded size; a test checks finitely many.", "anchors": ["diskann/src/graph/index.rs: search_internal", "diskann/src/graph/search/scratch.rs"]}
{"id": "C23", "title": "Greedy search terminates with bounded work", "statement": "Search terminates on every graph; it expands each node at most once and computes the distance of each node at most once, so the reported comparison count equals the number of distinct nodes seen.", "quantifier": "all graphs, queries, L, beam widths", "why_tests_cant": "The claim is over all inputs of unbounded size; a test checks finitely many.", "anchors": ["diskann/src/graph/index.rs: search_internal", "diskann/src/graph/search/scratch.rs"]}
{"id": "C24", "title": "Reachability count is exact", "statement": "count_reachable_nodes returns exactly the number of nodes reachable from the given start points along stored edges.", "quantifier": "all graphs and start sets", "why_tests_cant": "The claim is over all inputs of unbounded size; a test checks finitely many.", "anchors": ["diskann/src/graph/index.rs: count_reachable_nodes"]}
{"id": "C25", "title": "Range search returns only in-range results", "statement": "Every id returned by a range search has distance at most the radius and, if an inner radius is given, greater than the inner radius; no id is returned twice; everything explored in the second phase within range is returned up to the configured maximum.", "quantifier": "all graphs, queries, radii and parameters", "why_tests_cant": "The claim is over all inputs of unbounded size; a test checks finitely many.", "anchors": ["diskann/src/graph/search/range_search.rs"]}
{"id": "C26", "title": "Pages of a paged search do not overlap", "statement": "The concatenation of successive pages of one paged search contains no id twice and no page exceeds the requested size; a page shorter than requested means that every node reachable from the start points has been returned, and all later pages are empty.", "quantifier": "all graphs, queries, page sizes and numbers of pages", "why_tests_cant": "The claim is over all inputs of unbounded size; a test checks finitely many.", "anchors": ["diskann/src/graph/index.rs: paged_search, next_search_results"]}
{"id": "C27", "title": "Stored graphs stay within degree, without self loops or duplicates", "statement": "After any history of inserts, deletes, consolidations and prunes, every stored adjacency list has no duplicate, no self loop and at most max_degree entries.", "quantifier": "all operation histories", "why_tests_cant": "The claim is over all inputs of unbounded size; a test checks finitely many.", "anchors": ["diskann/src/graph/index.rs: insert, multi_insert, add_edge_and_prune, consolidate_vector, inplace_delete, prune_range"]}
{"id": "C28", "title": "Deleting a node removes references to it from the processed neighbours", "statement": "After inplace_delete of p, the adjacency list of p is empty and no processed in-neighbour still lists p.", "quantifier": "all graphs and nodes", "why_tests_cant": "The claim is over all inputs of unbounded size; a test checks finitely many.", "anchors": ["diskann/src/graph/index.rs: inplace_delete_inner, return_refs_to_deleted_vertex, drop_deleted_neighbors"]}
{"id": "C29", "title": "Work partitioning covers every item exactly once", "statement": "partition(n,k) yields consecutive disjoint ranges covering 0..n whose sizes differ by at most one; arc_chunks concatenates to the input; the dynamic balancer hands every item to exactly one worker.", "quantifier": "all n, k, chunk sizes and all schedules of workers", "why_tests_cant": "The claim is over all inputs of unbounded size; a test checks finitely many.", "anchors": ["diskann/src/utils/async_tools.rs: partition, arc_chunks, DynamicBalancer, around"]}
{"id": "C30", "title": "Index keys of attribute values preserve order and are unambiguous", "statement": "For a given field, comparing encoded keys bytewise orders integers numerically and floats numerically; distinct (field, value) pairs get distinct keys (fields without NUL).", "quantifier": "all fields and values", "why_tests_cant": "The claim is over all inputs of unbounded size; a test checks finitely many.", "anchors": ["diskann-label-filter/src/traits/key_codec.rs"]}
{"id": "C31", "title": "Index-evaluated filters agree with direct evaluation", "statement": "Evaluating a supported filter expression through the inverted index returns exactly the ids of the documents on which direct evaluation of the same expression is true.", "quantifier": "all filter expressions in the supported fragment, all document collections", "why_tests_cant": "The claim is over all inputs of unbounded size; a test checks finitely many.", "anchors": ["diskann-label-filter/src/kv_index/query_evaluator_impl.rs", "diskann-label-filter/src/kv_index/generic_index.rs", "diskann-label-filter/src/parser/evaluator.rs"]}
{"id": "C32", "title": "The inverted index reflects exactly the current documents", "statement": "After any history of insert, update and delete, the posting list of (field, value) is exactly the set of current documents having that attribute.", "quantifier": "all operation histories", "why_tests_cant": "The claim is over all inputs of unbounded size; a test checks finitely many.", "anchors": ["diskann-label-filter/src/kv_index/inverted_index_provider_impl.rs"]}
{"id": "C33", "title": "Parsed filters mean what the JSON says", "statement": "The expression obtained from a JSON filter is satisfied by exactly those documents that satisfy every condition in the filter; unsupported input is rejected rather than silently ignored.", "quantifier": "all JSON filters and documents", "why_tests_cant": "The claim is over all inputs of unbounded size; a test checks finitely many.", "anchors": ["diskann-label-filter/src/parser/query_parser.rs"]}
{"id": "C34", "title": "Key lists survive serialization", "statement": "Decoding an encoded key list gives back the list, and decoding arbitrary bytes never reads out of bounds.", "quantifier": "all key lists and byte strings", "why_tests_cant": "The claim is over all inputs of unbounded size; a test checks finitely many.", "anchors": ["diskann-label-filter/src/kv_index/generic_index.rs: serialize_key_list, deserialize_key_list"]}
{"id": "C35", "title": "Internal ids are never handed out twice", "statement": "The free space map never returns from next_id an id that is in use, under any interleaving of next_id, mark_used and mark_free.", "quantifier": "all interleavings of operations, all reuse settings", "why_tests_cant": "Depends on the interleaving of atomic steps of arbitrarily many threads; a test observes only a handful of schedules.", "anchors": ["diskann-garnet/src/fsm.rs: FreeSpaceMap::next_id, mark_free, mark_used"]}
{"id": "C36", "title": "Free space map accounting and restart", "statement": "The used count equals the number of ids marked used, and reloading the map from its persisted blocks yields the same used ids, a next id above all of them and never hands out a used id.", "quantifier": "all operation histories and crash points between persisted block writes", "why_tests_cant": "Crash points and histories are unbounded.", "anchors": ["diskann-garnet/src/fsm.rs: FreeSpaceMap::load_state, total_used"]}
{"id": "C37", "title": "Pooled objects have one holder", "statement": "An object pool never gives the same object to two holders at once, and the number of pooled objects never exceeds max(initial, capacity).", "quantifier": "all schedules of get/drop", "why_tests_cant": "Depends on the interleaving of atomic steps of arbitrarily many threads; a test observes only a handful of schedules.", "anchors": ["diskann-utils/src/object_pool.rs: ObjectPool"]}
{"id": "C38", "title": "A written disk index reads back exactly", "statement": "For every data set, graph and associated data, reading node i through the sector layout of the file produced by create_disk_layout gives exactly vector i, neighbour list i and associated data i.", "quantifier": "all dimensions, degrees, block sizes, numbers of points, data", "why_tests_cant": "The claim is over all inputs of unbounded size; a test checks finitely many.", "anchors": ["diskann-disk/src/storage/disk_index_writer.rs: create_disk_layout", "diskann-disk/src/search/provider/disk_sector_graph.rs"]}
{"id": "C39", "title": "Disk header round trip", "statement": "Parsing the bytes of a serialized header gives back the header; too short input is rejected; max_degree recovers the degree used by the writer.", "quantifier": "all headers and byte strings", "why_tests_cant": "The claim is over all inputs of unbounded size; a test checks finitely many.", "anchors": ["diskann-disk/src/data_model/graph_header.rs", "diskann-disk/src/data_model/graph_metadata.rs", "diskann-disk/src/data_model/graph_layout_version.rs"]}
{"id": "C40", "title": "Cached reads are plain sequential reads", "statement": "A sequence of reads through CachedReader returns exactly the consecutive bytes of the file for every cache size, and fails exactly when it would pass the end of the file.", "quantifier": "all files, cache sizes and read sequences", "why_tests_cant": "The claim is over all inputs of unbounded size; a test checks finitely many.", "anchors": ["diskann-disk/src/storage/cached_reader.rs"]}
{"id": "C41", "title": "Cached writes are plain sequential writes", "statement": "After any sequence of writes and a final flush through CachedWriter the file content is the concatenation of the written buffers and the reported size is its length.", "quantifier": "all write sequences and cache sizes", "why_tests_cant": "The claim is over all inputs of unbounded size; a test checks finitely many.", "anchors": ["diskann-disk/src/storage/cached_writer.rs"]}
{"id": "C42", "title": "Saved graphs load back identically", "statement": "load_graph of the bytes produced by save_graph yields the same adjacency lists, degree and start point count; a save interrupted before its final header update never loads as a partial graph.", "quantifier": "all graphs and crash points", "why_tests_cant": "The claim is over all inputs of unbounded size; a test checks finitely many.", "anchors": ["diskann-providers/src/storage/bin.rs: save_graph, load_graph"]}
{"id": "C43", "title": "Saved vectors load back identically", "statement": "load_from_bin of the bytes produced by save_to_bin yields the same vectors; a save interrupted before its final header update loads as an empty set.", "quantifier": "all vector sets and crash points", "why_tests_cant": "The claim is over all inputs of unbounded size; a test checks finitely many.", "anchors": ["diskann-providers/src/storage/bin.rs: save_to_bin, load_from_bin"]}
{"id": "C44", "title": "The delete table is an exact concurrent set", "statement": "is_deleted(i) answers true exactly if the last completed delete/undelete of i was a delete; operations on other ids never interfere, under any interleaving.", "quantifier": "all interleavings and ids", "why_tests_cant": "Depends on the interleaving of atomic steps of arbitrarily many threads; a test observes only a handful of schedules.", "anchors": ["diskann-providers/src/model/graph/provider/async_/table_delete_provider.rs"]}
{"id": "C45", "title": "Appending neighbours keeps lists duplicate free and bounded", "statement": "append_vector on a duplicate-free stored list yields the old list followed by the new distinct ids in order, truncated at capacity, without duplicates.", "quantifier": "all lists and capacities", "why_tests_cant": "The claim is over all inputs of unbounded size; a test checks finitely many.", "anchors": ["diskann-providers/src/model/graph/provider/async_/simple_neighbor_provider.rs: append_vector_sync"]}
{"id": "C46", "title": "Bit-packed vectors store values exactly", "statement": "Setting an element of a dense or bit-transposed packed vector changes that element and no other, for every bit width; get returns the value last set, and all accesses stay in bounds.", "quantifier": "all lengths, indices, widths and values", "why_tests_cant": "The claim is over all inputs of unbounded size; a test checks finitely many.", "anchors": ["diskann-quantization/src/bits/slice.rs", "diskann-quantization/src/bits/packing.rs"]}
{"id": "C47", "title": "PQ chunk offsets partition the dimensions", "statement": "A list of chunk offsets is accepted exactly when it starts at 0 and is strictly increasing with at least two entries; the chunks it describes are non-empty, disjoint, consecutive and together cover every dimension exactly once, and the evenly split offsets differ in size by at most one.", "quantifier": "all offset lists, dimensions and chunk counts", "why_tests_cant": "The claim is over all inputs of unbounded size; a test checks finitely many.", "anchors": ["diskann-quantization/src/views.rs (ChunkOffsetsBase::new, ChunkViewImpl)"]}
{"id": "C48", "title": "The static node cache returns what was inserted", "statement": "After inserting distinct nodes up to the capacity of the static node cache, looking up a node returns exactly the vector, neighbour list and associated data inserted for it, and looking up any other id returns nothing; inserting beyond the capacity fails. Inserting a node again updates it.", "quantifier": "all insertion sequences, capacities and data", "why_tests_cant": "The claim is over all inputs of unbounded size; a test checks finitely many.", "anchors": ["diskann-disk/src/data_model/cache.rs: Cache::insert, get_vector, get_adjacency_list, get_associated_data"]}
{"id": "C49", "title": "Matrix and multi-vector files round trip and reject truncation", "statement": "read_bin of what write_bin wrote gives the same matrix and ignores trailing bytes; every strict prefix is rejected; any byte string is accepted exactly when its header fits the bytes present. load_multivec_bin gives back the matrices of a multi-vector file and rejects every strict prefix and empty matrices.", "quantifier": "all matrices, element sizes, byte strings and truncation points", "why_tests_cant": "The claim is over all inputs of unbounded size; a test checks finitely many.", "anchors": ["diskann-utils/src/io.rs: read_bin, write_bin, Metadata", "diskann-providers/src/utils/file_util.rs: load_multivec_bin"]}
{"id": "C50", "title": "Skipping and batching in the vector iterator equal plain iteration", "statement": "Any sequence of next, nth and next_n calls on a vector file, with or without associated data and even if truncated, returns exactly what the same calls on the list of complete records return.", "quantifier": "all files, truncations and call histories", "why_tests_cant": "The claim is over all inputs of unbounded size; a test checks finitely many.", "anchors": ["diskann-providers/src/utils/vector_data_iterator.rs: VectorDataIterator::new, next, nth, next_n, skip_elements"]}
{"id": "C51", "title": "Aligned vector storage hands out disjoint, aligned, in-bounds slices", "statement": "For every element size dividing 64, every number of vectors and dimension and wherever the allocation lies, each index below the capacity gives a slice of the dimension asked for, inside the allocation, starting on a 64-byte boundary and disjoint from every other index's slice; other indices panic.", "quantifier": "all element sizes, capacities, dimensions, allocation addresses and indices", "why_tests_cant": "The claim is over all inputs of unbounded size; a test checks finitely many.", "anchors": ["diskann-providers/src/model/graph/provider/async_/common.rs: AlignedMemoryVectorStore::with_capacity, get_slice, get_mut_slice"]}
{"id": "C52", "title": "Graphs exported for the disk index name existing points only", "statement": "After any history of neighbour updates on points and start points, the graph exported for the disk index has one list per point, equal to the stored list with the start point replaced by the given point, and every id in it is a point.", "quantifier": "all histories, sizes and start points", "why_tests_cant": "The claim is over all inputs of unbounded size; a test checks finitely many.", "anchors": ["diskann-providers/src/model/graph/provider/async_/simple_neighbor_provider.rs: DiskAdaptor", "diskann-providers/src/model/graph/provider/async_/common.rs: StartPoints"]}
{"id": "C53", "title": "Freed ids are reused before new ones are minted", "statement": "With reuse enabled, calls made one at a time and a store that does not fail, an id never handed out before is handed out only when every smaller id is in use, so ids stay below the largest number of ids ever in use together.", "quantifier": "all histories of next_id, mark_free and restarts", "why_tests_cant": "The claim is over all inputs of unbounded size; a test checks finitely many.", "anchors": ["diskann-garnet/src/fsm.rs: FreeSpaceMap::next_id, refill_fast_free_list, load_state"]}
{"id": "C54", "title": "Enabling quantization leaves no vector unquantized", "statement": "Once quantization is enabled every id handed out is to be quantized, and every id in use that was handed out earlier lies in the range that exactly one backfill task works on.", "quantifier": "all schedules, restarts, numbers of tasks and ids", "why_tests_cant": "Depends on the interleaving of atomic steps of arbitrarily many threads; a test observes only a handful of schedules.", "anchors": ["diskann-garnet/src/fsm.rs: FreeSpaceMap::enable_quantization, max_id_for_backfill", "diskann-garnet/src/provider.rs: backfill_quant_vectors"]}
{"id": "C55", "title": "Saved data loads back as it was", "statement": "Loading what was saved, at the type it was saved as, gives the same data (up to which NaN a NaN is), in memory and through the manifest, whatever order maps list their entries in.", "quantifier": "all types built from the supported parts, all data of them", "why_tests_cant": "The claim is over all inputs of unbounded size; a test checks finitely many.", "anchors": ["diskann-record/src/save/mod.rs: Saveable, save_fields!", "diskann-record/src/load/mod.rs: Loadable, load_fields!", "diskann-record/src/value.rs: Value, Record"]}
{"id": "C56", "title": "Numbers are narrowed exactly or refused", "statement": "Reading a stored number as an integer or float type gives that very number, and it is refused only if the type cannot hold it.", "quantifier": "all numbers, all target types", "why_tests_cant": "The claim is over all inputs of unbounded size; a test checks finitely many.", "anchors": ["diskann-record/src/number.rs: Number::as_u8 .. as_f64, int!, float!, try_cast!"]}
{"id": "C57", "title": "A load answers with data of the type asked for, or refuses", "statement": "Whatever a manifest holds, a load that succeeds gives data of the requested type, taken from a record of the requested version and from the entries with the requested names; and loading from the manifest answers as loading from memory.", "quantifier": "all manifests, all types", "why_tests_cant": "The claim is over all inputs of unbounded size; a test checks finitely many.", "anchors": ["diskann-record/src/load/mod.rs: Loadable, load_fields!", "diskann-record/src/load/context.rs: Object::field, single_key", "diskann-record/src/version.rs: Version"]}
{"id": "C58", "title": "A save that succeeded reads back, for good", "statement": "When saving to a directory reports success, every artifact opened was finished, and each handle handed out reads back exactly the bytes written to it, then and after whatever saves, failures and crashes follow.", "quantifier": "all saving programs, all numbers of saves, all schedules, failing file operations and crash points without two overlapping saves to one manifest", "why_tests_cant": "Depends on the interleaving of atomic steps of arbitrarily many threads; a test observes only a handful of schedules.", "anchors": ["diskann-record/src/backend/disk.rs: DiskSaveContext, DiskWriter, DiskLoadContext::read", "diskann-record/src/save/mod.rs: save_to_disk"]}
{"id": "C59", "title": "A manifest is replaced whole or not at all", "statement": "What stands at a manifest path is what stood there before, or the complete manifest of the last save that reported success; it changes only at the step where a save succeeds. Loading it gives the saved value and its artifacts.", "quantifier": "all programs, schedules, failing file operations and crash points without two overlapping saves to one manifest", "why_tests_cant": "Depends on the interleaving of atomic steps of arbitrarily many threads; a test observes only a handful of schedules.", "anchors": ["diskann-record/src/backend/disk.rs: DiskSaveContext::finish, temporary_metadata", "diskann-record/src/load/mod.rs: load_from_disk"]}
{"id": "C60", "title": "Saving touches only its own files, and failing leaves none", "statement": "No file that was there before is changed or removed by any save, other than manifests and their temporary files; and every file that is new belongs to a save that did not fail cleanly.", "quantifier": "all programs, schedules, failing file operations and crash points without two overlapping saves to one manifest", "why_tests_cant": "Depends on the interleaving of atomic steps of arbitrarily many threads; a test observes only a handful of schedules.", "anchors": ["diskann-record/src/backend/disk.rs: DiskSaveContext::write, Drop for DiskSaveContext"]}
{"id": "C61", "title": "Artifact names are distinct and stay inside the directory; memory and disk agree", "statement": "Within a save every artifact has its own name, whatever the keys, and neither a key nor a handle reaches outside the directory. The backend in memory reads back exactly what was written, and a save to disk in which nothing fails gives the same handles and bytes as the same save in memory.", "quantifier": "all programs, keys, handles and manifests", "why_tests_cant": "The claim is over all inputs of unbounded size; a test checks finitely many.", "anchors": ["diskann-record/src/backend/disk.rs: DiskSaveContext::write, DiskLoadContext::read", "diskann-record/src/backend/memory.rs: MemorySaveContext, MemoryLoadContext"]}
{"id": "C62", "title": "Diverse search is sound and always ends", "statement": "A diverse search never panics and ends; its results are distinct, in order of distance, at most l, each reachable, with its true distance and an attribute value. No node is expanded twice.", "quantifier": "all graphs, distances, attribute assignments, start points, parameters and histories of insertions and removals with distinct ids", "why_tests_cant": "The claim is over all inputs of unbounded size; a test checks finitely many.", "anchors": ["diskann/src/graph/search/diverse_search.rs: Diverse::search", "diskann/src/neighbor/diverse_priority_queue.rs: DiverseNeighborQueue::insert, closest_notvisited, post_process"]}
{"id": "C63", "title": "Diverse search returns the closest of each attribute value", "statement": "When no two candidates are at the same distance, no attribute value has more than k results, and the first total results are exactly those of the ideal answer over everything scored: rank by distance, keep the k closest of every value, take the first total.", "quantifier": "all histories and searches without ties", "why_tests_cant": "The claim is over all inputs of unbounded size; a test checks finitely many.", "anchors": ["diskann/src/neighbor/diverse_priority_queue.rs: DiverseNeighborQueue::new, insert, post_process", "diskann/src/neighbor/queue.rs: NeighborPriorityQueue::remove, retain"]}
{"id": "C64", "title": "Inline filtered search returns the closest accepted nodes it scanned", "statement": "The results are distinct, accepted by the filter, reachable, carry their true distance, and are the l closest accepted ones of everything scanned (the start points and the neighbours of all expanded nodes). The filter does not change the navigation. The search ends without a panic. If the list can hold all reachable nodes the answer is exact.", "quantifier": "all graphs, distances, filters, start points, parameters, early stops and adaptive L functions", "why_tests_cant": "The claim is over all inputs of unbounded size; a test checks finitely many.", "anchors": ["diskann/src/graph/search/inline_filter_search.rs: InlineFilterSearch, inline_filter_search_internal, compute_adaptive_l, AdaptiveL::new", "diskann/src/graph/glue.rs: FilteredAccessor::expand_beam_filtered"]}
{"id": "C65", "title": "Multi-hop filtered search returns the closest accepted nodes it scanned", "statement": "Rejected start points are only entry points. The results are the l closest accepted ones of everything scanned, without duplicates. No node is expanded twice, only rejected nodes get the second hop, at most degree/2 per expansion, and behind them only accepted nodes are scored. The search ends without a panic.", "quantifier": "all graphs, distances, filters, start points, parameters and early stops", "why_tests_cant": "The claim is over all inputs of unbounded size; a test checks finitely many.", "anchors": ["diskann/src/graph/search/multihop_filter_search.rs: multihop_filter_search_internal, MultihopFilterSearch", "diskann/src/graph/glue.rs: FilteredAccessor::expand_beam_accept_only"]}
{"id": "C66", "title": "Filtered range search is sound and complete", "statement": "Every result is accepted, within the radius, outside the inner radius, reachable and unique; there are at most the maximum. Unless the maximum is reached, every accepted node in range that was scanned in the first phase, or is linked to a seed of the second phase through nodes within the slack limit, is returned. The search ends without a panic.", "quantifier": "all graphs, distances, filters, start points, radii and limits", "why_tests_cant": "The claim is over all inputs of unbounded size; a test checks finitely many.", "anchors": ["diskann/src/graph/search/filtered_range_search.rs: FilteredRange::search, filtered_range_search_internal"]}
{"id": "C67", "title": "Brute force search is exact", "statement": "The flat search writes the k closest of all scanned vectors that have a distance, closest first, as many as the output takes, and reports the numbers of comparisons and of results. A scan that fails gives an error and no results.", "quantifier": "all scans, k, output buffers and post processors", "why_tests_cant": "The claim is over all inputs of unbounded size; a test checks finitely many.", "anchors": ["diskann/src/flat/index.rs: FlatIndex::knn_search"]}
{"id": "C68", "title": "Output buffers keep the first results that fit", "statement": "A result buffer never panics. It stores what it is offered in order until it is full, keeps ids, distances, data and vectors aligned, leaves the other positions untouched, and answers exactly whether it is full, how many items were stored and how many more it takes. Slices of different lengths are rejected.", "quantifier": "all slices and all sequences of pushes and extensions", "why_tests_cant": "The claim is over all inputs of unbounded size; a test checks finitely many.", "anchors": ["diskann/src/graph/search_output_buffer.rs: IdDistance, IdDistanceAssociatedData", "diskann/src/neighbor/mod.rs: BackInserter, SearchOutputBuffer for Vec", "diskann-disk/src/search/provider/disk_provider.rs: SearchOutput"]}
{"id": "C69", "title": "Post processors write exactly the processed candidates", "statement": "Copying, dropping start points, deleted ids or non-matching ids, translating to external ids and reranking each write exactly the candidates that qualify, in order (reranked ones closest first with their full-precision distance), as many as fit, and report how many they wrote. Missing vectors are skipped and failing reads fail the search.", "quantifier": "all candidates, output buffers, deletion states, id maps, filters and distances", "why_tests_cant": "The claim is over all inputs of unbounded size; a test checks finitely many.", "anchors": ["diskann/src/graph/glue.rs: CopyIds, FilterStartPoints, Pipeline", "diskann-providers/src/model/graph/provider/async_/postprocess.rs: RemoveDeletedIdsAndCopy", "diskann-providers/src/model/graph/provider/async_/inmem/full_precision.rs: Rerank, DeterminantDiversity", "diskann-bftree/src/provider.rs: Rerank", "diskann-inmem/src/provider.rs: Translate", "diskann-garnet/src/provider.rs: CopyExternalIds, Rerank", "diskann-label-filter/src/inline_beta_search/inline_beta_filter.rs: FilterResults"]}
{"id": "C70", "title": "Disk search returns stored, allowed points with true distances", "statement": "A search of a disk index returns the best k of the points it found: each is stored, passes the filter, carries its own associated data (and vector, if asked for) and its full-precision distance, is reachable from the medoid when the graph is walked, appears once, and closer points come first (except for diverse selection, which returns the points selected). It fails only when a read fails, never runs out of work, and refuses bad arguments.", "quantifier": "all indexes, vertex providers, queries, search modes, filters, k, list sizes, beam widths and io limits", "why_tests_cant": "The claim is over all inputs of unbounded size; a test checks finitely many.", "anchors": ["diskann-disk/src/search/provider/disk_provider.rs: DiskIndexSearcher::search, search_with_indexed_vectors, RerankAndFilter, DeterminantDiversityAndFilter, DiskAccessor"]}
{"id": "C71", "title": "Flat disk search is exact when the candidates fit", "statement": "A flat scan computes a PQ distance for every accepted point, takes the L closest, and returns the k closest of those by full-precision distance; if the accepted points fit in L they are the true nearest neighbours among the accepted points. It reads no node during the scan.", "quantifier": "all indexes, filters, k and L", "why_tests_cant": "The claim is over all inputs of unbounded size; a test checks finitely many.", "anchors": ["diskann-disk/src/search/provider/disk_provider.rs: flat_search, pq_distances"]}
{"id": "C72", "title": "The io limit bounds the graph walk and does not otherwise change it", "statement": "A search reads at most io_limit nodes while walking the graph, each once, and reports their number; when the limit covers the index, candidates, hops and comparisons are those of the in-memory search of the same graph under PQ distances.", "quantifier": "all indexes, limits, modes and providers", "why_tests_cant": "The claim is over all inputs of unbounded size; a test checks finitely many.", "anchors": ["diskann-disk/src/search/provider/disk_provider.rs: IOTracker, DiskAccessor::expand_beam, terminate_early"]}
{"id": "C73", "title": "Results do not depend on where nodes come from", "statement": "Two vertex providers that serve the same index give the same results and statistics; a node cache holding stored nodes changes nothing; searching the file written for some content gives exactly what searching the content itself would.", "quantifier": "all pairs of providers, caches, file contents, block sizes and provider states", "why_tests_cant": "The claim is over all inputs of unbounded size; a test checks finitely many.", "anchors": ["diskann-disk/src/search/provider/cached_disk_vertex_provider.rs: CachedDiskVertexProvider", "diskann-disk/src/search/provider/disk_vertex_provider.rs: DiskVertexProvider", "diskann-disk/src/search/traits/vertex_provider.rs: VertexProvider"]}
{"id": "C74", "title": "Determinant-diversity selection returns distinct candidates", "statement": "The selection returns positions of candidates, none twice, exactly min(k, number of candidates) of them, for any values including NaN and infinities; it fails only when the query has another dimension or the number of distances is not that of the candidates. Parameters are accepted exactly if power is finite and positive and eta is finite and not negative.", "quantifier": "all candidate matrices, distances, queries, k, parameters and arithmetics", "why_tests_cant": "The claim is over all inputs of unbounded size; a test checks finitely many.", "anchors": ["diskann-providers/src/model/graph/provider/determinant_diversity.rs: determinant_diversity, greedy_orthogonal_select, DeterminantDiversityParams::new"]}
{"id": "C75", "title": "Determinant-diversity selection is greedy for volume", "statement": "In exact arithmetic every choice is, of the candidates not yet chosen, one whose relevance-weighted vector is farthest from the space spanned by the weighted vectors already chosen; relevance is positive and does not grow with distance.", "quantifier": "all candidate matrices, distances and parameters, over the real numbers", "why_tests_cant": "The claim is over all inputs of unbounded size; a test checks finitely many.", "anchors": ["diskann-providers/src/model/graph/provider/determinant_diversity.rs: greedy_orthogonal_select, distance_to_similarity"]}
{"id": "C76", "title": "Diversity post processing loses and invents no candidates", "statement": "With diverse post processing, the results of an in-memory or disk search are its candidates (those the filter lets pass, on disk), each once, in another order and with their own distances and data; post processing does not fail when vectors and query have the same dimension.", "quantifier": "all candidates, filters, vectors, queries, parameters, arithmetics and vertex providers", "why_tests_cant": "The claim is over all inputs of unbounded size; a test checks finitely many.", "anchors": ["diskann-providers/src/model/graph/provider/async_/inmem/full_precision.rs: DeterminantDiversity::post_process", "diskann-disk/src/search/provider/disk_provider.rs: DeterminantDiversityAndFilter::post_process"]}
{"id": "C77", "title": "A working-set fill makes available exactly what was asked for", "statement": "After a fill every key asked for has the overlay's value, or the one already cached, or the one the fetch function returned; the fetch function is called only for keys that are in neither and returns at most one value per key; a failing fetch stops the fill and keeps what was fetched. With one source of values, neither caching, eviction, hash order nor the past can be seen.", "quantifier": "all capacities, overlays, histories of operations, fetch functions, keys and hash orders", "why_tests_cant": "The claim is over all inputs of unbounded size; a test checks finitely many.", "anchors": ["diskann/src/graph/workingset/map.rs: Map::fill, prepare, insert, get_mut, clear, contains_key, View::get, Overlay::from_batch, Builder::build"]}
{"id": "C78", "title": "A working set stays within its capacity", "statement": "After a fill a working set holds no more entries than its capacity, or than the distinct keys asked for if these are more; keys asked for are never evicted, and nothing is evicted while all entries and keys fit.", "quantifier": "all histories with fewer than 2^32 - 1 fills, capacities, overlays, fetch functions and hash orders", "why_tests_cant": "The claim is over all inputs of unbounded size; a test checks finitely many.", "anchors": ["diskann/src/graph/workingset/map.rs: Map::prepare, promote, evict, new_generation, Capacity::resolve"]}
{"id": "C79", "title": "A sharded build assigns every vector to its k closest shards", "statement": "The closest-centers search returns k different centers and, absent NaN, no other center is closer; it fails only if there are fewer than k. The id file of each shard lists in ascending order exactly the vectors that have it among their k closest shards, so every vector is in exactly k shards. The number of shards is the first candidate within the memory budget, odd and at least three.", "quantifier": "all datasets of fewer than 2^32 - 10000 vectors, distances, heaps, numbers of shards and k, cache sizes", "why_tests_cant": "The claim is over all inputs of unbounded size; a test checks finitely many.", "anchors": ["diskann-disk/src/utils/math_util.rs: compute_closest_centers", "diskann-disk/src/utils/partition.rs: shard_data_into_clusters_only_ids, estimate_initial_partition_count, find_partition_size"]}
{"id": "C80", "title": "The data of a shard is exactly the vectors of its ids", "statement": "Reading chosen vectors of a dataset file hands over exactly these, in the order asked, until an id does not exist or the consumer fails, also over several calls; a file whose size contradicts its header is refused. The data file of a shard holds the dataset's vectors of the shard's ids, in their order, under a correct header.", "quantifier": "all dataset files, id lists, consumers and sequences of calls", "why_tests_cant": "The claim is over all inputs of unbounded size; a test checks finitely many.", "anchors": ["diskann-providers/src/utils/sampling.rs: SampleVectorReader::new, read_vectors", "diskann-disk/src/build/builder/core.rs: retrieve_shard_data_from_ids"]}
{"id": "C81", "title": "Merging shard graphs keeps every node and only real edges, as many as the degree allows", "statement": "If the ids of the shards cover 0..n-1, merging succeeds whatever the random shuffles and leaves a loadable graph file of n lists with the exact size in its header: the list of a node has no duplicates, contains only neighbors of the node in some shard, and has all of them or as many as the degree bound; the start point is the last shard's. Partitioning a dataset and merging the graphs of nonempty shards therefore yields a graph over all vectors.", "quantifier": "all shard graphs and id maps, degree bounds, shuffles and cache sizes", "why_tests_cant": "The claim is over all inputs of unbounded size; a test checks finitely many.", "anchors": ["diskann-disk/src/build/builder/core.rs: merge_shards, read_idmap"]}
{"id": "C82", "title": "The Hadamard transform is the scaled Sylvester matrix on every architecture", "statement": "For every length that is a power of two and every implementation, coordinate i of the result is row i of Sylvester's matrix times the input divided by the square root of the length, in exact arithmetic; so it preserves inner products, is its own inverse, and the implementations agree. Exactly the lengths that are not a power of two are refused.", "quantifier": "all lengths, vectors and architectures", "why_tests_cant": "The claim is over all inputs of unbounded size; a test checks finitely many.", "anchors": ["diskann-quantization/src/algorithms/hadamard.rs: hadamard_transform, micro_kernel_64"]}
{"id": "C83", "title": "Transforms have the documented dimensions, never panic, and are isometries when they say so", "statement": "A constructed transform takes the given dimension, returns the documented one and reports preserving norms exactly in the documented cases. It refuses exactly vectors of the wrong length and otherwise never panics. If it reports preserving norms, it preserves inner products and distances, whatever the destination held; otherwise it returns the chosen coordinates of one that does, scaled by the square root of the ratio of dimensions.", "quantifier": "all kinds of transform, dimensions, target dimensions, random signs and subsamples, vectors", "why_tests_cant": "The claim is over all inputs of unbounded size; a test checks finitely many.", "anchors": ["diskann-quantization/src/algorithms/transforms/mod.rs: Transform::new, transform_into", "diskann-quantization/src/algorithms/transforms/padding_hadamard.rs: PaddingHadamard", "diskann-quantization/src/algorithms/transforms/double_hadamard.rs: DoubleHadamard"]}
{"id": "C84", "title": "A stored transform reads back as the same transform, and only valid parts are accepted", "statement": "Storing any constructed transform and reading it back gives the same transform. Parts are accepted exactly if every sign is a sign bit, lengths are ordered and (when required) a power of two, and the chosen indices are nonempty, strictly increasing and in range.", "quantifier": "all transforms of dimensions up to 2^31, all parts", "why_tests_cant": "The claim is over all inputs of unbounded size; a test checks finitely many.", "anchors": ["diskann-quantization/src/algorithms/transforms/padding_hadamard.rs: try_from_parts, pack, try_unpack", "diskann-quantization/src/algorithms/transforms/double_hadamard.rs: try_from_parts, pack, try_unpack"]}
{"id": "C85", "title": "Scalar compression stores nearest codes and refuses exactly what it says", "statement": "In exact arithmetic every stored code is a nearest n-bit code, the compensation belongs to the stored codes, a coordinate in the range of the quantizer is off by at most half a step, and compressing what codes stand for returns the codes. Compression panics exactly for wrong lengths, reports an error exactly for inputs with a NaN, and always writes codes that fit, even for infinities and NaN.", "quantifier": "all widths 1-8, scales, shifts and vectors", "why_tests_cant": "The claim is over all inputs of unbounded size; a test checks finitely many.", "anchors": ["diskann-quantization/src/scalar/quantizer.rs: ScalarQuantizer::compress, compress_into"]}
{"id": "C86", "title": "Compensated scalar distances are the distances of the reconstructed vectors; training spans the documented range", "statement": "In exact arithmetic the compensated squared distance, inner product and cosine of two code vectors are those of the vectors they stand for, and the scores have the documented sign; distances refuse exactly unequal lengths. Training gives the range of the stated number of largest standard deviations around each mean, and vectors within it are compressed with at most half a step of error. Rescaling gives the mean norm and keeps the direction.", "quantifier": "all widths, quantizers, pairs of code vectors, training sets and queries", "why_tests_cant": "The claim is over all inputs of unbounded size; a test checks finitely many.", "anchors": ["diskann-quantization/src/scalar/vectors.rs: CompensatedSquaredL2, CompensatedIP, CompensatedCosineNormalized", "diskann-quantization/src/scalar/train.rs: ScalarQuantizationParameters::train", "diskann-quantization/src/scalar/quantizer.rs: ScalarQuantizer::rescale"]}
{"id": "C87", "title": "Min-max compression picks nearest codes on the documented range and reports the true loss", "statement": "In exact arithmetic the range is the documented one, every code is a nearest one on its grid, the metadata belongs to the codes, the loss is the squared error, and decompression returns what the codes stand for; with a grid scale of at least one and more than one bit the error is at most half a step. Compression panics exactly for wrong lengths and reports an error exactly if the transformed vector contains a NaN; codes always fit.", "quantifier": "all widths, grid scales, transforms and vectors", "why_tests_cant": "The claim is over all inputs of unbounded size; a test checks finitely many.", "anchors": ["diskann-quantization/src/minmax/quantizer.rs: get_range, compress", "diskann-quantization/src/minmax/vectors.rs: decompress_into"]}
{"id": "C88", "title": "Min-max distances are the distances of the reconstructed vectors", "statement": "In exact arithmetic the inner product, squared distance and cosines of two code vectors of any widths, or of a full-precision query and a code vector, are those of the vectors they stand for, and the scores have the documented sign. They refuse exactly unequal lengths; a query is refused exactly for wrong lengths or a NaN.", "quantifier": "all pairs of code vectors, widths, queries", "why_tests_cant": "The claim is over all inputs of unbounded size; a test checks finitely many.", "anchors": ["diskann-quantization/src/minmax/vectors.rs: MinMaxIP, MinMaxL2Squared, MinMaxCosine, MinMaxCosineNormalized, FullQuery"]}
{"id": "C89", "title": "Recompression to fewer bits picks nearest codes on the documented range", "statement": "In exact arithmetic the new codes are the nearest ones to the values of the old codes on the documented grid and the new metadata belongs to them; with grid scale one the range is kept and no value moves by more than half a new step. Exactly a destination of another dimension is refused.", "quantifier": "all source and target widths, grid scales, code vectors", "why_tests_cant": "The claim is over all inputs of unbounded size; a test checks finitely many.", "anchors": ["diskann-quantization/src/minmax/recompress.rs: recompress_kernel, Recompressor"]}
{"id": "C90", "title": "Every distance kernel computes its distance for every length", "statement": "On every architecture and element type, for every dimension, the squared distance, inner product, L1 norm and the three sums of the cosine kernel are, in exact arithmetic, the textbook sums over all coordinates: no coordinate is skipped or counted twice by the unrolled loops, peeled loads and masked tails. In any arithmetic a kernel answers, reading only inside the vectors, exactly when the lengths agree, and panics otherwise.", "quantifier": "all architectures, element types, lengths and vectors", "why_tests_cant": "The claim is over all inputs of unbounded size; a test checks finitely many.", "anchors": ["diskann-vector/src/distance/simd.rs: simd_op, Strategy1x1, Strategy2x1, Strategy4x1, Strategy4x2, Strategy2x4, L2, IP, L1Norm, CosineStateless"]}
{"id": "C91", "title": "A distance fed piece by piece is the distance of the whole", "statement": "In exact arithmetic, feeding a resumable distance any sequence of pairs of slices and then reading it gives the distance of the concatenated vectors.", "quantifier": "all sequences of slices, architectures, element types", "why_tests_cant": "The claim is over all inputs of unbounded size; a test checks finitely many.", "anchors": ["diskann-vector/src/distance/simd.rs: Resumable, ResumableL2, ResumableIP"]}
{"id": "C92", "title": "Distances of 8-bit vectors are the integer distances rounded to the nearest f32", "statement": "For i8 and u8 vectors the squared distance and inner product returned are the exact integer result rounded to the nearest f32, hence exact up to 2^24, as long as the result fits the 32-bit accumulator; it always does up to 33025 dimensions. The three sums of the cosine kernel are exact under the same condition.", "quantifier": "all architectures, lengths and i8 or u8 vectors", "why_tests_cant": "The claim is over all inputs of unbounded size; a test checks finitely many.", "anchors": ["diskann-vector/src/distance/simd.rs: L2, IP, CosineStateless for i8 and u8, as_f32_lossy"]}
{"id": "C93", "title": "Rounded distances stay symmetric, non-negative and in range", "statement": "In IEEE binary32 arithmetic the squared distance, inner product and cosine do not change when the arguments are exchanged; the squared distance of finite vectors is never NaN or negative and is zero from a vector to itself; a cosine similarity is always a number between -1 and 1.", "quantifier": "all architectures, element types, lengths and vectors including infinities and NaN where stated", "why_tests_cant": "The claim is over all inputs of unbounded size; a test checks finitely many.", "anchors": ["diskann-vector/src/distance/simd.rs: L2, IP, CosineStateless, FullCosineAccumulator::sum"]}
{"id": "C94", "title": "Distances of bit-packed vectors are the distances of their elements", "statement": "For unsigned elements of every width from 1 to 8 bits and every length, squared distance and inner product of two packed vectors are exactly the integer sums over the unpacked elements, on every architecture, as long as the result fits; likewise the products of 8-bit with 4-, 2- and 1-bit vectors. Bits of the last byte beyond the length never matter. Unequal lengths are an error. No byte outside the vectors is read.", "quantifier": "all architectures, widths, lengths, contents and junk bits", "why_tests_cant": "The claim is over all inputs of unbounded size; a test checks finitely many.", "anchors": ["diskann-quantization/src/bits/distances.rs: SquaredL2, InnerProduct, bitvector_op, load_one, load_two, load_three"]}
{"id": "C95", "title": "Hamming distance and the transposed product are exact", "statement": "For one-bit vectors the Hamming distance is the number of differing elements for every length; the inner product of a bit-transposed 4-bit vector with a one-bit vector is the exact integer sum for every length.", "quantifier": "all lengths, contents and junk bits", "why_tests_cant": "The claim is over all inputs of unbounded size; a test checks finitely many.", "anchors": ["diskann-quantization/src/bits/distances.rs: Hamming, BitVectorOp, InnerProduct for BitTranspose"]}
{"id": "C96", "title": "The distance of two 8-bit vectors is the nearest f32 to the exact sum", "statement": "Squared distance and inner product of two 8-bit packed vectors are, while the exact sum is below 2^31, the integer value of the f32 nearest to it; hence exact up to 2^24.", "quantifier": "all architectures, lengths and contents", "why_tests_cant": "The claim is over all inputs of unbounded size; a test checks finitely many.", "anchors": ["diskann-quantization/src/bits/distances.rs: SquaredL2 and InnerProduct for 8 bits"]}
{"id": "C97", "title": "The product of an f32 vector with a bit-packed one covers every element once", "statement": "On every architecture, for every width from 1 to 8 bits and every length, the inner product of an f32 vector with a packed vector is, in exact arithmetic, the sum of the products over all elements; in IEEE arithmetic the rounded result, which is always produced without reading outside the vectors, depends on the elements alone and never on unused bits. Unequal lengths are an error.", "quantifier": "all architectures, widths, lengths, f32 values including infinities and NaN, contents and junk bits", "why_tests_cant": "The claim is over all inputs of unbounded size; a test checks finitely many.", "anchors": ["diskann-quantization/src/bits/distances.rs: InnerProduct for &[f32] and USlice, load_one, load_two, load_three, load_four"]}
{"id": "C98", "title": "The block-transposed layout stores every element exactly once", "statement": "For every number of rows, columns, row stride, block height and column packing, building the block-transposed copy of a strided matrix allocates the stated capacity, reading element (row, column) of the copy gives that element of the source, distinct elements live at distinct offsets inside the allocation, every other offset holds the default value, and indexing outside the matrix panics.", "quantifier": "all shapes, strides, group and packing sizes and contents", "why_tests_cant": "The claim is over all inputs of unbounded size; a test checks finitely many.", "anchors": ["diskann-quantization/src/multi_vector/block_transposed.rs: BlockTransposed::from_strided, linear_index, compute_capacity, Index", "diskann-utils/src/strided.rs: StridedView::try_shrink_from"]}
{"id": "C99", "title": "Product-quantization codes name a pivot of minimal distance", "statement": "A pivot table built from any matrix of pivots and any chunk offsets codes every chunk of a vector by a pivot that minimises the compared distance among all pivots, or fails naming the first chunk that has no finite minimum, with the earlier codes written and the later bytes untouched; more than 256 pivots and wrong lengths are the documented errors. In exact arithmetic it never fails and the pivot is a nearest one.", "quantifier": "all pivot matrices, offsets, vectors (infinities and NaN included) and output contents", "why_tests_cant": "The claim is over all inputs of unbounded size; a test checks finitely many.", "anchors": ["diskann-quantization/src/product/tables/transposed/pivots.rs: Chunk::find_closest", "diskann-quantization/src/product/tables/transposed/table.rs: TransposedTable::from_parts, CompressInto", "diskann-quantization/src/algorithms/kmeans/common.rs: square_norm"]}
{"id": "C100", "title": "Compressing a batch gives every row the code it gets alone", "statement": "When no compared distance is NaN or f32::MAX, compressing a matrix of vectors succeeds iff every row alone compresses, with the same bytes, and otherwise reports the first chunk on which some row fails and the first such row. Shape mismatches are errors that leave the output untouched. In exact arithmetic the batch never fails and every code is a nearest pivot.", "quantifier": "all pivot matrices, offsets, batch sizes, rows and output contents", "why_tests_cant": "The claim is over all inputs of unbounded size; a test checks finitely many.", "anchors": ["diskann-quantization/src/product/tables/transposed/table.rs: TransposedTable::compress_batch, CompressInto for matrices", "diskann-quantization/src/product/tables/transposed/pivots.rs: Chunk::find_closest_batch"]}
{"id": "C101", "title": "The table of distances from a query has every entry", "statement": "Computing the distances from a query to all pivots fills every entry of the output, whatever it held, with the chosen kernel of the query's chunk and the pivot's chunk; in exact arithmetic this is the squared distance or the negated inner product. Wrong shapes panic.", "quantifier": "all pivot matrices, offsets, queries, kernels and output contents", "why_tests_cant": "The claim is over all inputs of unbounded size; a test checks finitely many.", "anchors": ["diskann-quantization/src/product/tables/transposed/table.rs: TransposedTable::process_into", "diskann-quantization/src/product/tables/transposed/pivots.rs: Chunk::process_into"]}
{"id": "C102", "title": "The basic table codes every chunk by its nearest pivot, the first on ties", "statement": "Compressing with a basic pivot table gives every chunk the pivot with the least computed distance, the lowest index among equal ones, skipping NaN distances; or fails naming the first chunk without a finite least distance, with the earlier codes written and the later bytes untouched. More than 256 pivots and wrong lengths are the documented errors. In exact arithmetic it never fails and the pivot is truly nearest.", "quantifier": "all architectures, pivot matrices, offsets, vectors (infinities and NaN included) and output contents", "why_tests_cant": "The claim is over all inputs of unbounded size; a test checks finitely many.", "anchors": ["diskann-quantization/src/product/tables/basic.rs: BasicTable::new, CompressInto"]}
{"id": "C103", "title": "Distances from codes are distances of the decoded vectors", "statement": "For every metric, the distance between a query and a code, between two codes, and by a precomputed query table, is in exact arithmetic the distance of the decoded vectors (squared L2 for the normalized cosine by table); calls panic exactly on wrong lengths and on bytes that name no pivot; the previous contents of a pooled buffer never matter; inflating a code gives the one vector it stands for.", "quantifier": "all architectures, metrics, pivot matrices, offsets, queries, codes and buffer contents", "why_tests_cant": "The claim is over all inputs of unbounded size; a test checks finitely many.", "anchors": ["diskann-providers/src/model/pq/distance/dynamic.rs: QueryComputer, DistanceComputer, VTable", "diskann-providers/src/model/pq/distance/l2.rs: TableL2", "diskann-providers/src/model/pq/distance/innerproduct.rs: TableIP", "diskann-providers/src/model/pq/distance/cosine.rs: DirectCosine", "diskann-providers/src/model/pq/fixed_chunk_pq_table.rs: FixedChunkPQTable::populate_chunk_distances_impl, pq_dist_lookup_single, inflate_vector"]}
{"id": "C104", "title": "Distances of many points equal those of single lookups", "statement": "Computing the distances of a list of point ids writes, for each id in order, bit for bit the distance the lookup of its code gives, and leaves the rest of the scratch buffers; short buffers are errors; unknown ids panic. With 256 pivots the disk search's distances are, in exact arithmetic, those of the query and the decoded vectors.", "quantifier": "all id lists, numbers of chunks, tables, codes and scratch contents", "why_tests_cant": "The claim is over all inputs of unbounded size; a test checks finitely many.", "anchors": ["diskann-providers/src/model/pq/fixed_chunk_pq_table.rs: compute_pq_distance, pq_dist_lookup, aggregate_coords, add_distance_for_a_tile", "diskann-disk/src/search/pq/quantizer_preprocess.rs: quantizer_preprocess"]}
{"id": "C105", "title": "Codes of two table versions are compared under their own tables", "statement": "A table pair is refused exactly when the versions are equal; a vector of an unknown version gives no answer; otherwise a query and a code, or two codes of the same or different versions in either order, are at the distance, in exact arithmetic, of the vectors decoded with the table of each one's version.", "quantifier": "all metrics, tables of one dimension, versions, queries and codes", "why_tests_cant": "The claim is over all inputs of unbounded size; a test checks finitely many.", "anchors": ["diskann-providers/src/model/pq/distance/multi.rs: MultiTable, MultiDistanceComputer"]}
{"id": "C106", "title": "A Lloyd step assigns every point to its first nearest center and moves centers to means", "statement": "From any number of steps to the next: every point is assigned the first center of least computed distance, and every center becomes the f64 mean of its points (zero without points); a point without a finite distance is a panic; no access is out of bounds. The first step starts from the given centers.", "quantifier": "all datasets and centers of one dimension, numbers of rows that do or do not fill blocks, numbers of steps, arithmetics ordered as f32", "why_tests_cant": "The claim is over all inputs of unbounded size; a test checks finitely many.", "anchors": ["diskann-quantization/src/algorithms/kmeans/lloyds.rs: lloyds, lloyds_inner, distances_in_place, update_centroids"]}
{"id": "C107", "title": "In exact arithmetic Lloyd's algorithm computes nearest centers, means and cost, and never gets worse", "statement": "In exact arithmetic the assignments of the last step are the first nearest of the previous centers, the residual is the sum of squared distances to them, the new centers are the means; the residual never grows with more steps, and the returned centers cost at most the returned residual.", "quantifier": "all finite datasets, non-empty sets of centers and numbers of steps", "why_tests_cant": "The claim is over all inputs of unbounded size; a test checks finitely many.", "anchors": ["diskann-quantization/src/algorithms/kmeans/lloyds.rs: lloyds"]}
{"id": "C108", "title": "k-means++ picks different rows with weight proportional to the squared distance, and counts them right", "statement": "Whatever the random draws, the centers written are rows of the dataset, the first being the drawn one, no row index twice, each at a computed positive distance from the earlier ones; unused centers are zero; the error names the number selected, and says the dataset is too small exactly if every row was taken. In exact arithmetic each pick is the row in whose share of the summed squared distances to the earlier picks the sample falls, and with k different rows the number selected is the smaller of k and the number of centers.", "quantifier": "all datasets, numbers of centers, first rows and samples; arithmetics ordered as f32 (first part), all finite datasets (second part)", "why_tests_cant": "The claim is over all inputs of unbounded size; a test checks finitely many.", "anchors": ["diskann-quantization/src/algorithms/kmeans/plusplus.rs: kmeans_plusplus_into, kmeans_plusplus_into_inner, update_distances"]}
{"id": "C109", "title": "Training of product-quantization pivots works chunk by chunk on the chunk's own columns", "statement": "The pivots of a chunk are k-means++ followed by Lloyd's steps on the matrix of the chunk's columns, with the chunk's own generator, whatever the other columns are; the first failing chunk decides the error; a cancelation is reported; in the flattened table piece i of pivot j is center j of chunk i. In exact arithmetic training succeeds for every dataset, and the pivots of a chunk are at least as good as the sampled rows they started from.", "quantifier": "all non-empty datasets, chunk offsets, numbers of centers and steps, random choices, answers of the cancelation token", "why_tests_cant": "The claim is over all inputs of unbounded size; a test checks finitely many.", "anchors": ["diskann-quantization/src/product/train.rs: LightPQTrainingParameters::train, SimplePivots::flatten"]}
{"id": "C110", "title": "The reported k-recall-at-n is the mean fraction of wanted neighbours found", "statement": "The recall call succeeds exactly on acceptable input and otherwise reports a true reason. In exact arithmetic the average is the mean, over the queries with ground truth, of the number of distinct wanted ids (the first k of the ground truth and those tied with the k-th) among the first n results, capped by and divided by the smaller of k and the ground truth's size. It lies between 0 and 1, is 1 exactly if every such query is complete, never falls when results are added, and with fixed-size ground truth takes one division.", "quantifier": "all ground truths, distances, results, k, n and modes", "why_tests_cant": "The claim is over all inputs of unbounded size; a test checks finitely many.", "anchors": ["diskann-benchmark-core/src/recall.rs: knn, RecallMetrics, ComputeRecallError, GroundTruthMode"]}
{"id": "C111", "title": "The reported average precision is the fraction of ground truth entries found", "statement": "The average precision of range searches is the number of ground truth entries found in the results of their query over the number of all ground truth entries; it lies between 0 and 1 and is 1 exactly if all entries are found.", "quantifier": "all results and ground truths", "why_tests_cant": "The claim is over all inputs of unbounded size; a test checks finitely many.", "anchors": ["diskann-benchmark-core/src/recall.rs: average_precision"]}
{"id": "C112", "title": "A loaded runbook only inserts absent tags and only replaces or deletes present ones", "statement": "A runbook is accepted exactly if every stage makes sense for the tags present at that time: insertions name only absent tags, replacements and deletions only present ones. Its number of points is then the largest number of tags present at any time, or the declared one if larger, and its largest tag the largest one ever inserted. A loaded runbook runs the file's numbered entries in order of their numbers. Neither call panics.", "quantifier": "all lists of stages with non-empty ranges; all mappings", "why_tests_cant": "The claim is over all inputs of unbounded size; a test checks finitely many.", "anchors": ["diskann-benchmark-core/src/streaming/executors/bigann/runbook.rs: RunBook::load, RunBook::new", "diskann-benchmark-core/src/streaming/executors/bigann/validate.rs: Validate", "diskann-benchmark-core/src/streaming/executors/bigann/parsing.rs"]}
{"id": "C113", "title": "A streaming run keeps every tag with its own vector", "statement": "Running an accepted runbook with enough slots succeeds: the index is only asked to insert into free slots and to search, replace or delete filled ones; at every search the ground truth is translated to the slots that hold those tags' vectors; and at the end each tag in use has a slot of its own holding the vector the stages gave it, and no other slot holds one. One slot more than the runbook's points is enough if slots are reused at once, the benchmark's headroom of (1 + 2 threshold) if later, with thresholds below a half and no tag inserted twice.", "quantifier": "all valid lists of stages, datasets, ground truths, thresholds and hash set orders", "why_tests_cant": "The claim is over all inputs of unbounded size; a test checks finitely many.", "anchors": ["diskann-benchmark/src/utils/streaming.rs: TagSlotManager", "diskann-benchmark/src/index/streaming/managed.rs: Managed", "diskann-benchmark-core/src/streaming/executors/bigann/withdata.rs: WithData", "diskann-benchmark-core/src/streaming/executors/bigann/runbook.rs: run_with_internal"]}
{"id": "C114", "title": "Computed ground truth is exact", "statement": "For every query the ground truth tool keeps the k closest of all base points after the skipped ones and all inserted points that the query's filter lets pass, closest first, whatever the batch size; points whose distance is not a number never appear. The range version returns exactly the allowed points within the radius, in the order of the data.", "quantifier": "all datasets, queries, inserts, filters, batch sizes, k, radii and distance functions", "why_tests_cant": "The claim is over all inputs of unbounded size; a test checks finitely many.", "anchors": ["diskann-tools/src/utils/ground_truth.rs: compute_ground_truth_from_data, compute_range_ground_truth_from_data"]}
{"id": "C115", "title": "Ground truth files read back what was computed", "statement": "Ground truth with k entries per query, written by the tool, is read back by the tool's and by the benchmark's loader as the same ids (and distances) in the same order, and asking for more than k is an error; lists of any lengths written in the range format are read back unchanged by both loaders. Together with C114: computing, writing and loading yields the ids of the closest points of each query.", "quantifier": "all query results, list lengths, ids and distances that fit the file's 32-bit fields", "why_tests_cant": "The claim is over all inputs of unbounded size; a test checks finitely many.", "anchors": ["diskann-tools/src/utils/ground_truth.rs: write_ground_truth, write_range_search_ground_truth", "diskann-tools/src/utils/search_index_utils.rs: load_truthset, load_range_truthset", "diskann-benchmark/src/utils/datafiles.rs: load_groundtruth, load_range_groundtruth"]}
{"id": "C116", "title": "Recall of the tools and the disk benchmark is the stated fraction", "statement": "calculate_recall returns 100 times the mean over the queries of the wanted ids (the first k of the ground truth and those tied with the k-th) among the first n results, each counted once and at most k, over k. calculate_filtered_search_recall returns the mean of 100 times the wanted ids among the results over the larger of min(k, ground truth size) and the number of different results, 100 for queries without ground truth; it lies between 0 and 100; k = 0 and wrong numbers of queries are errors. The disk benchmark reports these values for the results of its searches.", "quantifier": "all ground truths, distances, results, k and n", "why_tests_cant": "The claim is over all inputs of unbounded size; a test checks finitely many.", "anchors": ["diskann-tools/src/utils/search_index_utils.rs: calculate_recall, calculate_filtered_search_recall", "diskann-benchmark/src/disk_index/search.rs: DiskSearchResult::new, search_disk_index"]}
{"id": "C117", "title": "Neighbour lists in the bf-tree change atomically under every interleaving", "statement": "However threads interleave, the answers to get_neighbors, set_neighbors and append_vector on the bf-tree index are those of running the operations one at a time in some order that keeps each thread's own order. An append adds exactly the new distinct ids that fit, keeps the old ones and loses no concurrent append. Every operation finishes: some thread can always step while work is left. Two ids share a lock only when their stripes coincide.", "quantifier": "all programs of all threads, all schedules, all ids and lists", "why_tests_cant": "The claim is over all inputs of unbounded size; a test checks finitely many.", "anchors": ["diskann-bftree/src/neighbors.rs: NeighborProvider, NeighborAccessor", "diskann-bftree/src/locks.rs: StripedLocks"]}
{"id": "C118", "title": "Full and quantized vectors of a bf-tree index stay together under every interleaving", "statement": "However threads interleave and whenever the tree drops deleted entries, setting, deleting and reading full vectors behave as if done one at a time in an order that keeps each thread's own order; the status of an id is valid exactly if its vector is there. When no thread is changing an id, its stored code is the code of its stored vector, or both are absent, provided compressing does not fail. A code that is read always belongs to one vector that was set for that id. Without deletes a code is never visible without a full vector.", "quantifier": "all programs of all threads, all schedules, purges, compressors and stripe assignments", "why_tests_cant": "The claim is over all inputs of unbounded size; a test checks finitely many.", "anchors": ["diskann-bftree/src/provider.rs: SetElement, Delete", "diskann-bftree/src/vectors.rs: VectorProvider", "diskann-bftree/src/quant.rs: QuantVectorProvider"]}
{"id": "C119", "title": "The slice heap always shows a greatest element and loses none", "statement": "SliceHeap::new permutes a non-empty slice so that peek is a greatest element and fails exactly on an empty slice. Every update_root applies its function to a greatest element, keeps all others and again leaves a greatest element first, for any sequence of updates; none of the unchecked accesses is out of bounds and sifting always ends.", "quantifier": "all element types with a total order, all slices, all sequences of update functions", "why_tests_cant": "The claim is over all inputs of unbounded size; a test checks finitely many.", "anchors": ["diskann-quantization/src/algorithms/heap.rs: SliceHeap"]}
{"id": "C120", "title": "Spherical compression picks the scale whose codes match the vector best", "statement": "For every vector that is not zero and two or more bits, the search for the scale ends, makes no bad access and returns a positive scale. The lattice point this scale rounds the vector to has at least the cosine similarity of the point of every other scale. The stored code of a component stands for its lattice coordinate with the sign of the component and fits in the bits, so the codes have the greatest cosine similarity any scale gives.", "quantifier": "all dimensions, all vectors, all bit widths, all competing scales", "why_tests_cant": "The claim is over all inputs of unbounded size; a test checks finitely many.", "anchors": ["diskann-quantization/src/spherical/quantizer.rs: maximize_cosine_similarity, compress_via_maximum_cosine", "diskann-quantization/src/algorithms/heap.rs: SliceHeap"]}
{"id": "C121", "title": "Compensated spherical distances are off only by the error of one inner product", "statement": "For every pair of vectors compressed by the spherical quantizer, the distance between two stored vectors, between a full precision query and a stored vector, and between a quantized query and a stored vector equals the true distance of the scaled vectors, except for the error of the inner product of the vectors the codes stand for, counted twice for squared L2. A quantized query is within half a step of the full one in every component. The distance from a full query in the direction of a stored vector is exact when norms are kept, that of a stored vector to itself is never too large, and those of a vector at the centre are exact whatever bits were there before. Compression succeeds when the codes cannot add up to more than sixteen bits.", "quantifier": "all dimensions, vectors, centres, pre-scales, transforms, bit widths and metrics", "why_tests_cant": "The claim is over all inputs of unbounded size; a test checks finitely many.", "anchors": ["diskann-quantization/src/spherical/vectors.rs: kernel, CompensatedSquaredL2, CompensatedIP, CompensatedCosine, DataMeta::new", "diskann-quantization/src/spherical/quantizer.rs: preprocess, compress_into_with, finish_compressing, compress_via_maximum_cosine"]}
{"id": "C122", "title": "Multi-vector scores do not depend on tiles, panels or caches", "statement": "For every query and every non-empty document of the same dimension, compute_max_sim writes for each query vector the negated greatest inner product with any document vector, whatever the lane count, the panel size, the cache budgets and the sizes of query and document, without reading or writing outside its buffers. The prepared kernels and the reference kernel agree. A buffer of the wrong length is an error, a document without vectors gives f32::MAX everywhere, a different dimension panics, and the Chamfer distance is the sum of the scores.", "quantifier": "all queries, documents, dimensions, panel sizes, cache budgets and element types", "why_tests_cant": "The claim is over all inputs of unbounded size; a test checks finitely many.", "anchors": ["diskann-quantization/src/multi_vector/distance/kernels/tiled_reduce.rs: tiled_reduce, FullReduce::new", "diskann-quantization/src/multi_vector/distance/kernels/f32/mod.rs: max_ip_kernel", "diskann-quantization/src/multi_vector/distance/factory.rs: compute_max_sim", "diskann-quantization/src/multi_vector/distance/fallback.rs: max_sim_kernel, MaxSim, Chamfer"]}
{"id": "C123", "title": "Flattening a document lists every leaf once under its path", "statement": "For every JSON document, separator and root prefix, flattening gives one entry for each leaf, named by the keys and array positions on the way to it, and no other entries. When no key has the separator in it the names are distinct, so the map version loses nothing and a name determines the path; otherwise the map keeps the last value. Flattening panics exactly when the document contains a null.", "quantifier": "all JSON documents, nesting depths, separators and prefixes", "why_tests_cant": "The claim is over all inputs of unbounded size; a test checks finitely many.", "anchors": ["diskann-label-filter/src/utils/flatten_utils.rs: flatten_json_pointers_with_config, flatten_json_pointers_map_with_config", "diskann-label-filter/src/attribute.rs: AttributeValue::try_from"]}
{"id": "C124", "title": "The medoid is the row nearest to the mean, and start points are what the strategy says", "statement": "For every set of vectors, the medoid computed in memory or from a file is the first of the rows nearest to the mean; in exact arithmetic it is the row whose squared distances to all rows add up to the least. With sampling it is the row nearest to the mean of the sample, and sampling everything changes nothing. The number of start points is the number announced; sampled start points are rows at different positions; an error is returned exactly when the data has too few rows.", "quantifier": "all data sets, dimensions, samples, strategies and arithmetics with a strict comparison", "why_tests_cant": "The claim is over all inputs of unbounded size; a test checks finitely many.", "anchors": ["diskann-utils/src/sampling/medoid.rs: ComputeMedoid", "diskann-providers/src/utils/medoid.rs: find_medoid_from_file, find_medoid_with_sampling, find_nearest_vector_with_id", "diskann/src/graph/start_point.rs: StartPointStrategy::compute, count"]}
{"id": "C125", "title": "Latin hypercube samples take one value from every stratum in every column", "statement": "For every data set, number of samples up to the number of rows and every outcome of the random generator, the samples have in each column exactly one value from each of the equal strata of rows, in some order. More samples than rows is a panic; rows left over by the division have no influence.", "quantifier": "all data sets, sample counts and random draws", "why_tests_cant": "The claim is over all inputs of unbounded size; a test checks finitely many.", "anchors": ["diskann-utils/src/sampling/latin_hypercube.rs: SampleLatinHyperCube::sample_latin_hypercube"]}
{"id": "C126", "title": "Searching in parallel gives each query what searching one after the other gives", "statement": "For every set of searches, number of tasks and fixed or varying number of ids, the collected results have one row and one output for each query, in the order of the queries, equal to what that search gives alone with a list of that capacity. If searches fail the error is that of the first failing query. Aggregating any mixture of fixed and varying results reads as the parts put end to end.", "quantifier": "all searches (any adaptive sequence of buffer calls), query counts, task counts and capacities", "why_tests_cant": "The claim is over all inputs of unbounded size; a test checks finitely many.", "anchors": ["diskann-benchmark-core/src/search/api.rs: search, search_inner, search_batch_fixed, search_batch_dynamic, Collector", "diskann-benchmark-core/src/search/ids.rs: Bounded, IdAggregator", "diskann-benchmark-core/src/internal/buffer.rs: Buffer"]}
{"id": "C127", "title": "Bitmaps of a filtered ground truth run hold exactly the selected documents", "statement": "For every list of labelled documents with distinct ids and every list of filters, if the run succeeds it gives one bitmap for each filter, in order, with the ids of exactly the documents the filter selects: comparisons need the field, numbers compare as doubles, and a negation ranges over the documents that have the fields mentioned. A run succeeds exactly when flattening lists no name twice, each field has values of one type, integers are doubles, and every condition suits the values of its field.", "quantifier": "all documents, labels, filters of any depth and numbers of each", "why_tests_cant": "The claim is over all inputs of unbounded size; a test checks finitely many.", "anchors": ["diskann-tools/src/utils/compute_bitmap.rs: compute_query_bitmaps, eval_query_using_accelerators, compute_universe, compute_global_label_set, BTreeAccelerator, InvertedIndexAccelerator"]}
