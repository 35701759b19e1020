# Formal model of microsoft/DiskANN in Rocq (Coq 8.16.1)

This document is the plan and the statement of the trusted base.  Each area of
the code base has one directory under `rocq/theories/`:

* `Model.v`  – the code, function by function, with file:line citations;
* `Spec.v`   – the small independent specification the theorems refer to;
* `Proofs.v` – lemmas, invariants;
* `Props.v`  – only the property theorems, each closed with `exact`, followed by
  `Print Assumptions`, and an `Example` showing that its premises are satisfiable.

## Conventions

* Rust integers are `nat`, `N` or `Z`; wherever the property depends on wrap-around
  or saturation the model reduces explicitly modulo 2^w.
* `panic!`, failed `assert!` and out-of-bounds indexing are explicit error values.
* Distances (`f32`) are modelled either as an abstract type with an arbitrary
  comparison (theorems quantify over it and state the order laws they need), or as
  an explicit type with NaN.  Distance computation itself is an arbitrary function
  argument of the model: theorems hold for every such function.
* Concurrency: sequentially consistent interleaving of atomic steps, with unboundedly
  many threads, slots and steps; one model step per atomic access.  Weak-memory
  effects (Relaxed/Acquire/Release reordering) are NOT modelled: this is the main gap
  of the concurrent theorems.
* `crossbeam` queues, `parking_lot`/`std` locks and `DashMap` are modelled by their
  linearizable specification.

## Plan per property

| id | modelled | proof |
|----|----------|-------|
| C01-C04 | `Epoch`: registry slots, epoch, hint, four retire queues, drain mutex; every atomic access of `guard_inner`, `can_advance`, `try_advance_inner`, `retire`, `pop`, drops is one step of an agent | invariant over reachable states, properties stated on event traces |
| C05-C10 | `Store`: tags, mirrors, data, freelist on top of the Epoch model | invariant; C10 by sequential execution of `acquire` from quiescent states |
| C11-C12 | `IdMap`: forward/backward maps, provider set/delete as lock-step transitions | invariant |
| C13 | `InmemNeighbors`: flat buffer with length prefix | refinement to a map of lists |
| C14-C15 | `Queue`: arrays, cursor, visited flags | refinement to a sorted list of entries |
| C16-C18 | `Adjacency`, `Backedge`, `SortedNeighbors` | induction over operations |
| C19-C21 | `Prune`: `occlude_list` and its scale ladder with abstract arithmetic | invariants of the loops |
| C22-C26 | `Search`: visited set, queue, beam expansion, range search, paging, BFS | invariants, termination measure |
| C29, C47 | `Work` | arithmetic, invariant over schedules |
| C30-C34 | `Label`: codec, JSON filter AST, parser, KV index | order/injectivity lemmas, refinement |
| C35-C36 | `Fsm`: bitmap, fast free list, id minter | invariant over interleavings |
| C37 | `Pool` | invariant |
| C38-C43 | `Disk`, `GraphFile`: byte-level writers and readers | round trip |
| C48 | `Disk`: node cache | invariant over insertions |
| C44-C45 | `Providers` | bit-level lemmas |
| C46 | `Bits` | bit-level lemmas |
| C49-C50 | `GraphFile`: matrix files, multi-vector files, vector iterator | round trip, refinement to a list iterator |
| C37, C44-C45, C51-C52 | `Pool`, `Tables`: object pool, delete table, aligned store, neighbor provider | invariants over all schedules, refinement to a map |
| C46 | `Bits`: packed vectors bit for bit | bit-level frame lemmas, then refinement to a list by induction on the operations |
| C11 | `IdMap`: forward/backward maps with their shard locks | invariant over all interleavings |
| C12 | `Provider`: set_element, delete and lookups composed from `Store` and `IdMap` | invariant over all interleavings of the composed system |
| C13 | `InmemNeighbors`: sharded locks over one word buffer | invariant relating buffer words to the abstract lists of the history, by induction over all schedules |
| C30, C34 | `Keys`: DefaultKeyCodec, range bounds, reverse keys, key lists; `Lib/F64`: exact values of doubles | algebraic laws over all byte strings, integers and bit patterns |
| C31, C32, C33 | `Labels`: JSON values, parser, evaluator, flattening, inverted index over a failing key-value store, query evaluation | invariant over histories with failures and retries; structural induction on JSON and filters; C30 for key ranges |
| C35, C36, C53, C54 | `Fsm`: FreeSpaceMap as a transition system of any number of threads over a persistent store, with failures and crashes | invariant by induction over actions; load by a fold over all ids |
| C27, C28 | `Graph`: the operations of `index.rs` as programs over a provider, any number overlapping, each provider call atomic and fallible | a Kripke-style invariant of programs, preserved by every step; weakest preconditions for one operation alone |
| C55, C56, C57 | `Record`: numbers, versions, manifest values, serialisation to and from the JSON document, saving and loading of typed data | structural induction over types and values; float casts by exact arithmetic in units of 2^-1074 |
| C58, C59, C60, C61 | `RecordDisk`: any number of saves over one file system, one file operation per step, each of which may fail, with crashes between any two; saved code is any function of what it has seen | an invariant that gives every file an owner; the backend in memory by simulation |
| C62, C63 | `Diverse`: the queue with one global and one local list per attribute value, and the search loop over it | the lists against a ranking of everything inserted: the closest of each value, then cut to the list size |
| C64-C66 | `Filtered`: inline, multi-hop and range search with a filter, over the graph and the queue of `Search` | invariant: the queue is a run of insertions and removals over exactly the scanned nodes; simulation with the unfiltered loop; frontier invariant as for C24 |
| C67-C69 | `Output`: flat search, the output buffers and the post processors | each buffer is a function of the list of stored items; every post processor is reduced to one extension of that list |
| C70-C73 | `DiskSearch`: searching a disk index, with any vertex provider, the cached provider and the byte-level provider of `Disk` | a provider is specified by what it holds after a batch is loaded; the outcome of every stage is computed once, independently of the provider; the in-memory theorems about the queue and the graph walk are reused with the read budget |
| C74-C76 | `DetDiv`: the determinant-diversity selection and the post processors that use it | indices by induction over the selection loop for any arithmetic; in exact arithmetic the loop keeps what remains of every candidate outside the span of the chosen ones, so the cached norms are distances from that span; the disk post processor through the theorems of `DiskSearch` |
| C77-C78 | `WorkingSet`: the default working set of prune and multi-insert | a fill by induction over the keys with a log of the closure's calls; histories of operations keep keys distinct, disjoint from the overlay and with generations not after the current one |
| C79-C81 | `Shards`: partitioning a dataset, copying the vectors of a shard, merging the graphs of shards | closest centers from the heap's contract; the writers as lists of calls, replayed on a plain file (C41); the merge by an invariant on what each reader still has to give, against the groups of the sorted (node, shard) pairs; composed end to end |
| C82-C84 | `Rotate`: the Hadamard transform (scalar and 64-element kernels), the padding, double and null transforms, their stored form | arithmetic as a record; in exact arithmetic the kernels compute the recursive transform, which is multiplication by Sylvester's matrix, an isometry and an involution; the double transform as a composition of isometries on overlapping ranges; acceptance characterised exactly |
| C85-C89 | `Quant`: scalar and min-max quantization: compression, training, rescaling, decompression, recompression and the compensated distances | arithmetic as a record, exact arithmetic with the IEEE special values as an instance; rounding after clamping gives a nearest grid point; the distance identities by induction on the vectors; rejection by cases in any arithmetic |
| C90-C93 | `Simd`: the driver of the distance kernels (five unrolling strategies, peeled loads, epilogues) and the kernels for four architectures and f32, f16, i8, u8 | one theorem about the driver: an accumulator that represents a sum in a commutative ring represents the whole sum at the end; exact arithmetic is the ring itself, integers are taken modulo 2^32, predicates kept by every step use the one-element ring; symmetry by running two drivers side by side; the laws of IEEE arithmetic from Flocq |
| C94-C96 | `BitDist`: every integer distance between bit-packed vectors, from bytes to the u32 returned, on the four architectures | a load is a word, the k-th field of a word is the k-th element (from the Bits area); each unrolled loop keeps a sum of lanes equal to the sum over the elements consumed; 16- and 32-bit wrap-around is removed by range bounds; the bit-wise kernels by popcount over xor and and |
| C97 | `BitDist` (`Full`): the products of f32 vectors with bit-packed ones | the lanes of a shifted word are elements; in any arithmetic where zero absorbs a code each kernel equals one written over the elements alone; that one is the sum in a commutative ring; IEEE arithmetic absorbs |
| C98 | `Pq`: the block-transposed matrix | the filling loops are a concatenation whose positions are mixed-radix numbers |
| C99 | `Pq`: `Chunk::find_closest`, `TransposedTable` | lanes track minima of interleaved candidates; padding lanes are infinite; the order laws are proved for binary32; an embedding of an ordered ring gives the exact version |
| C100 | `Pq`: `compress_batch` | the batched tracking equals the single one when every proxy is a number; the delegate calls are the chunk-major list of positions |
| C101 | `Pq`: `process_into` | every block stores the kernel of its pivots |
| C102 | `Pq`: `BasicTable` | the scan keeps the first minimum; kernels commute with the embedding of an ordered ring, shown for the whole driver |
| C103 | `Pq`: `DistanceComputer`, `QueryComputer`, `inflate_vector` | pieces of the decoded vector concatenate; sums over pieces are sums over the concatenation; the table loop overwrites every cell |
| C104 | `Pq`: `compute_pq_distance`, `quantizer_preprocess` | the tiles keep, per point, the sum of a prefix of the looked-up distances |
| C105 | `Pq`: `MultiTable` | case analysis on the versions; symmetry of the metrics |
| C106 | `Kmeans`: `lloyds`, `distances_in_place`, `update_centroids` | the blocked scan keeps, lane by lane, the first minimum over the centers; counts and sums are folds over the members |
| C107 | `Kmeans`: the same over the rationals with infinities and NaN | lanes sum to the cost; the mean minimizes the sum of squares; nearest centers minimize the cost |
| C108 | `Kmeans`: `kmeans_plusplus` (`update_distances`, the selection loop) | the running minima and their total are folds over the picks; a pick has a positive minimum, so it differs from the picks before |
| C109 | `Kmeans`: `train_chunk`, `train`, `flatten` | the strided view of a chunk and the matrix of its columns have the same rows, so every stage computes the same on both; flattening keeps finished columns and zeros apart |
| C110 | `Recall`: `knn` | sets as duplicate-free lists; the map by denominator preserves the sum of hits over denominators; rational order facts |
| C111 | `Recall`: `average_precision` | fold to sums of per-query counts |
| C112 | `Runbook`: `runbook_new`, `load` | the validator's ranges are kept as a set of tags; induction over the stages; sorting by key |
| C113 | `Runbook`: `g_run` | an invariant ties slots, tags, what each slot holds and the content of each tag; one lemma per assignment, deletion and consolidation; induction over the stages |
| C114 | `Truth`: `compute`, `compute_range` | each queue is the insertion of all allowed points in order (invariant over batches, queries and inserts), then the queue lemma of C01 |
| C115 | `Truth`: `write_gt`, `write_range` and the four loaders | drain of a queue lists it in order; words round trip; split of the concatenation into rows |
| C116 | `Recall`: `calculate_recall`, `calculate_filtered`, `disk_recall` | the tie loop over a slice yields the same set as C110's; sums as means of exact fractions |
| C117 | `BfTree`: `get`, `set_internal`, `set`, `push_all`, lock stripes, threads and interleavings | invariant over every schedule: a lock has one holder, what the holder has read is still stored; the history of accesses is the linearization |
| C118 | `BfTree`: `vstep`, `vmove`: `set_element`, `delete`, lock-free reads of both stores, purges | invariant over every schedule: each stripe has one holder; outside its second half the stores agree |
| C119 | `Spherical`: `SliceHeap`: `sift_down`, `heapify`, `heap_new`, `peek`, `update_root` | the order holds at every parent but the current one, and across it; unchecked accesses return `None` and never do |
| C120 | `Spherical`: `maximize_cosine_similarity` on the slice heap, the rounding of `compress_via_maximum_cosine` | the heap shows the smallest critical scale, so every reachable lattice point is visited; among three equal steps the middle is never best, so ties do not matter; the top beats the start, which is not compared |
| C121 | `Spherical`: `preprocess`, the three `compress_into_with`, `DataMeta::new`, `kernel` and the compensated distances for squared L2, inner product and cosine | the fused sums are the inner products of the rebuilt vectors, by induction on the components; the centre drops out; Cauchy-Schwarz for a vector and itself; rounding to half a step for quantized queries |
| C122 | `MultiVec`: `FullReduce::new`, `tiled_reduce` with its four loops, the micro-kernels and `Reduce`, `convert`, `max_ip_kernel`, the prepared and reference `compute_max_sim`, `MaxSim` and `Chamfer` | an invariant saying how many documents each query row has seen, moved by every loop; the order of documents never changes, so associativity of the maximum is enough; block-transposed rows from C102 |
| C123 | `Labels`: `flatten_json_pointers` and the map version, with any root prefix | objects and arrays as lists of named children, then induction on the document; field names determine paths because names have no separator and decimal positions are injective |
| C124 | `Medoid`: `compute_medoid`, `find_medoid_from_file`, `find_medoid_with_sampling`, `StartPointStrategy::compute` | the scan by induction from the end; the row nearest to the mean has the least total because the mixed terms cancel at the mean |
| C125 | `Medoid/Model2`: `sample_latin_hypercube` | a swap of two cells permutes one column and leaves the others; induction over the swaps |
| C126 | `Batch`: output buffers, `Bounded`, `IdAggregator`, `search_batch_fixed`, `search_batch_dynamic`, `search_inner`, `Collector` | simulation of buffers by bounded lists, by induction on the search; invariant of the aggregator; ranges from C29 put end to end |
| C127 | `Bitmap`: `compute_query_bitmaps` and all it calls | membership in the accelerators' maps by induction on the documents; induction on the filter; leaves from C123 |

Properties found to be false of the faithful model are kept in their full form and
refuted by a theorem `..._refuted` with a concrete witness; the strongest true
variant is proved beside it.

## Trusted base

* The Coq 8.16.1 kernel (including `vm_compute`, used for concrete examples and
  refutations only), and the correspondence between the Rust source and `Model.v` files,
  which is by reading.
* Axioms: almost every theorem is `Closed under the global context`.  Theorems that
  mention IEEE 754 arithmetic (Flocq's definitions over the standard library's reals)
  or real numbers rest on axioms of the standard library:
  * `ClassicalDedekindReals.sig_not_dec`, `ClassicalDedekindReals.sig_forall_dec`,
    `FunctionalExtensionality.functional_extensionality_dep` and `Classical_Prop.classic`:
    `C19_duplicate_candidates_refuted`, `C19_infinite_alpha_refuted`, `C20_equals_textbook_prune`,
    `C20_inner_product_kept_refuted`, `C21_pruning_terminates`, `C21_nan_alpha_refuted`, the refuted
    theorems of C27 and C28, all theorems of C93, `C97_ieee`, and the theorems on f32 of C99 and later
    (their names or statements mention `f32`);
  * the same without `Classical_Prop.classic`: all theorems of C82, C83, C85 to C89 and C121;
  * `sig_forall_dec` and `functional_extensionality_dep`: `C75_greedy`, `C75_relevance`.

  No axiom is added by this development.
* Each `Props.v` prints the assumptions of every property theorem.

## What is modelled and what is not

| area | modelled (`/repo`) | not modelled |
|------|--------------------|--------------|
| `Epoch` | diskann-inmem `epoch.rs`: `guard`, `retire`, `can_advance`, `try_advance`, drain, drops, one step per atomic access | weak memory; allocation failure |
| `Queue` | diskann `neighbor/queue.rs`: fixed and auto-resizing priority queue, SIMD lower bound | `DiverseNeighborQueue`, memory layout of the backing buffer |
| `Adjacency` | diskann `graph/internal` adjacency lists, back edge buffers, `SortedNeighbors` | serialization of lists |
| `Prune` | diskann `graph/index.rs` `occlude_list`, `robust_prune*`, alpha ladder; IEEE arithmetic | async accessors (working-set fetches are a function argument) |
| `Search` | diskann `graph/index.rs` `search_internal`, `paged_search`, `count_reachable_nodes`; `graph/search/{knn_search,range_search,paged,scratch}.rs`; default `expand_beam`/`start_point_distances` of `glue.rs` | async scheduling (the search awaits its own calls in order), custom strategies overriding `expand_beam`, inline/multihop filters, diverse search; the distance function and the graph are arbitrary function arguments that do not change during one search |
| `Work` | diskann `utils/async_tools.rs` (`around`, `DynamicBalancer`, `arc_chunks`, `partition`); diskann-quantization `views.rs` (`ChunkOffsets`, `ChunkView`) | task spawning |
| `Disk` | diskann-disk `graph_header.rs`, `graph_metadata.rs`, `graph_layout_version.rs`, `cached_reader.rs`, `cached_writer.rs` (with I/O faults), `disk_index_writer.rs` (`create_disk_layout` and its helpers), `disk_sector_graph.rs`, `disk_vertex_provider.rs`, `data_model/cache.rs`, on byte lists | aligned/asynchronous I/O (a read returns the bytes of the file), PQ data, u64 overflow of file offsets (excluded by hypothesis) |
| `GraphFile` | diskann-providers `storage/bin.rs` (`save_graph`, `load_graph`, `save_to_bin`, `load_from_bin`), `utils/vector_data_iterator.rs`, `utils/file_util.rs` (`load_multivec_bin`); diskann-utils `io.rs` | reordering of writes by the operating system, allocation of huge buffers announced by a header, `bincode` |
| `Tables` | diskann-providers `async_/table_delete_provider.rs`, `async_/common.rs` (`AlignedMemoryVectorStore`, `StartPoints`), `async_/simple_neighbor_provider.rs` (provider and `DiskAdaptor`) | weak memory, lock poisoning, the float computation of the row width, usize overflow |
| `Pool` | diskann-utils `object_pool.rs` | lock poisoning, panics in an object's own drop |
| `Bits` | diskann-quantization `bits/packing.rs`, `bits/slice.rs` (encode, decode, pack, unpack, new, boxed, get, set, byte view) | unchecked access on other paths, poly/allocator plumbing, unsafe `get_unchecked` callers |
| `Store` | diskann-inmem `store.rs` (`new`, `reader`, `read`, `acquire`, `scan_acquire`, `slot`, `try_acquire`, `publish`, `Slot::drop`, `retire`, `try_drain`), `tag.rs`, `freelist.rs`, one step per atomic access | weak memory; allocation; the neighbor lists stored alongside |
| `IdMap` | diskann-inmem `ids.rs` (`insert`, `occupied_entry`, `Entry::delete`, drop, lookups); one step per lock or map access | `DashMap` internals (a shard is a lock plus a map), weak memory |
| `Provider` | diskann-inmem `provider.rs` (`set_element`, `delete`, id lookups, readers) on top of `Store` and `IdMap` | the layer's conversion of a vector (an arbitrary outcome), search accessors, counters, `status_by_internal_id` |
| `InmemNeighbors` | diskann-inmem `neighbors.rs` (all operations), `buffer.rs` addressing, `append_vector` of `provider.rs` | allocation, lock poisoning, the debug-only uniqueness check of `AdjacencyList` (Adjacency models it) |
| `Keys` | diskann-label-filter `key_codec.rs`, key lists and range bounds of `generic_index.rs`, `AttributeValue` | `decode_field_value_key` (a `todo!()` in the code), capacity reservation of `deserialize_key_list` |
| `Labels` | diskann-label-filter `parser/*` (query_parser, evaluator, ast), `utils/flatten_utils.rs`, `kv_index/*` (insert, delete, update, get_posting_list, evaluate_query), `RoaringPostingList` as sets | roaring's byte format (any lawful serialization), key-value stores (a map whose calls may fail), order of attributes in a HashMap (any order), regular JSON text parsing |
| `Fsm` | diskann-garnet `fsm.rs` entire, `backfill_quant_vectors` ranges of `provider.rs` | Garnet's store (atomic operations that may fail without effect; `exists` does not fail), lock poisoning, weak memory orders, the quantizer |
| `Graph` | `graph/index.rs`: insert, search_and_prune, multi_insert, bootstrap, add_edge_and_prune, robust_prune*, inplace_delete, multi_inplace_delete, drop_deleted_neighbors, consolidate_vector, prune_range, drop_adj_list; the append of the four providers | what searches find, retrieved vectors, status of ids, hash order and work split are arguments; vectors, id translation and search are elsewhere or not modelled |
| `Record` | diskann-record `number.rs`, `version.rs`, `value.rs`, the `Saveable`/`Loadable` implementations of `save/mod.rs` and `load/mod.rs`, `save_fields!`, `load_fields!`, `Object` lookups of `load/context.rs`, error kinds | serde_json's text form: a hypothesis (`text_layer`: reads back what it prints, up to a nesting depth; the crate uses default features, so a recursion limit of 128 and no `float_roundtrip`, and exact float text is part of that hypothesis), user-written `load_legacy`, borrowing |
| `RecordDisk` | diskann-record `backend/disk.rs`, `backend/memory.rs`, `save/context.rs` (writers), `save_to_disk`, `load_from_disk` | the device: nothing is synced, so power loss is not covered; BufWriter's delay (a write acts at once); the manifest's text (any function, C55); directories exist and are not aliased |
| `Diverse` | diskann `neighbor/diverse_priority_queue.rs`, `graph/search/diverse_search.rs` | the post processor (it gets the candidates; C22 models the plain ones); search records |
| `Filtered` | diskann `graph/search/inline_filter_search.rs`, `multihop_filter_search.rs`, `filtered_range_search.rs`, `glue.rs` (filtered expansion) | the float operations in `compute_adaptive_l` (arguments), the sorts (arguments with the standard contract), search records |
| `Output` | diskann `flat/index.rs`, `graph/search_output_buffer.rs`, `neighbor/mod.rs` (buffers), `graph/glue.rs` (post processing); diskann-providers `postprocess.rs`, `full_precision.rs` (post processors); diskann-bftree, diskann-inmem, diskann-garnet `provider.rs` (post processors); diskann-label-filter `inline_beta_filter.rs`; diskann-disk `disk_provider.rs` (`SearchOutput`) | the scan itself (its items are an argument), distances, sorts (standard contract), u32 counters, async scheduling |
| `DiskSearch` | diskann-disk `search/provider/disk_provider.rs` (accessor, strategies, `search`, `search_with_indexed_vectors`), `cached_disk_vertex_provider.rs`, `search/traits/vertex_provider.rs` | PQ and full-precision distance computation (functions of id and vector), the diversity selection (an argument; see `DetDiv`), timers, u32 counters, query statistics other than counts, scratch pooling |
| `DetDiv` | diskann-providers `model/graph/provider/determinant_diversity.rs`, the post processors in `async_/inmem/full_precision.rs` (`DeterminantDiversity`) and diskann-disk `disk_provider.rs` (`DeterminantDiversityAndFilter`) | floating-point rounding in the greedy claim (C75 is over the reals), `powf` and `sqrt` (arguments), the SIMD dot product (an argument; the sum of products in C75) |
| `WorkingSet` | diskann `graph/workingset/map.rs` | projections (`Projection`, `Project`, `Reborrow`) are the identity; the hash map is a list of entries with distinct keys and an arbitrary visiting order |
| `Shards` | diskann-disk `utils/partition.rs`, `utils/math_util.rs` (closest centers), `build/builder/core.rs` (shard data, `merge_shards`), diskann-providers `utils/sampling.rs` | k-means, memory estimates and distances are parameters; building a shard's graph is any function giving lists over the shard's positions; storage errors other than short files are left out; i32 shard counts are not bounded (debug builds panic at 2^31) |
| `Rotate` | diskann-quantization `algorithms/hadamard.rs`, `algorithms/transforms/` (`mod`, `utils`, `null`, `padding_hadamard`, `double_hadamard`), `utils.rs` (`is_strictly_monotonic`) | random signs and subsamples are parameters; allocation failures and the random-rotation transform (needs the optional linear algebra feature) are left out; rounding is left out where a theorem assumes exact arithmetic; the flatbuffer is its tables |
| `Quant` | diskann-quantization `scalar/` (`mod`, `quantizer`, `vectors`, `train`), `utils.rs` (means and variances), `minmax/` (`quantizer`, `vectors`, `recompress`) | the integer and float kernels on packed codes are arguments; the transform of min-max is an argument; rounding is left out where a theorem assumes exact arithmetic; signed zeros are one; the serialised form and allocation are left out |
| `Simd` | diskann-vector `distance/simd.rs`: `simd_op`, `Strategy1x1`-`Strategy2x4`, `Loader`, the schemas `L2`, `IP`, `L1Norm`, `CosineStateless` with `FullCosineAccumulator`, `Resumable` for V4, V3, Neon and scalar | one register is the list of its lanes; the order of pairs inside the Neon i8 and u8 L2 kernels is replaced by consecutive pairs; f16 elements enter through an arbitrary conversion to f32; `as_f32_lossy` gives the value, not the bits |
| `BitDist` | diskann-quantization `bits/distances.rs`: `SquaredL2`, `InnerProduct`, `Hamming` on `BitSlice` of 1 to 8 bits, the 8x4, 8x2, 8x1 and bit-transposed 4x1 products, for V4, V3, Neon and scalar | one register is the list of its lanes; a load of u32 lanes is a load of bytes, four to a lane |
| `BitDist` (`Full`) | diskann-quantization `bits/distances.rs`: `InnerProduct` for `&[f32]` and `USlice` of 1 to 8 bits, V3 kernels for 1, 2 and 4 bits, scalar fallback, retargeting | shuffles and conversions are tables of small integers; the arithmetic shift of the 4-bit kernel is a logical one |
| `Pq` | diskann-quantization `multi_vector/block_transposed.rs` (layout, construction, element access), `product/tables/transposed/` (`Chunk`, `TransposedTable`), `product/tables/basic.rs`, `algorithms/kmeans/common.rs` (`square_norm`); diskann-providers `model/pq/` (distance tables and lookups); diskann-disk `search/pq/` | registers are lists of lanes; the f32 operations are an argument; `MultiQueryComputer` is not modelled |
| `Kmeans` | diskann-quantization/src/algorithms/kmeans/lloyds.rs (`distances_in_place`, `update_centroids`, `lloyds_inner`, `lloyds`); plusplus.rs (`update_distances`, `kmeans_plusplus_into_inner`, `kmeans_plusplus_into`); product/train.rs (`train`, `PQTrainer`, `flatten`) | f32 and f64 operations and random draws are arguments; u32 counts are unbounded; `u32::MAX` is `None`; the parallel trainer is modelled as its sequential meaning |
| `Recall` | diskann-benchmark-core/src/recall.rs (`knn`, `average_precision`) | ids with a decided equality; distances with any `==`; f64 operations are arguments; counts are unbounded; rows of distances may differ in length, which includes the strided views of the code |
| `Runbook` | diskann-benchmark-core/src/streaming/executors/bigann/{validate,runbook,parsing}.rs, diskann-benchmark/src/utils/streaming.rs, diskann-benchmark/src/index/streaming/managed.rs | the parsed YAML is given as a tree; finding the ground truth file is an argument; numbers are unbounded except for the cast of YAML integers; hash maps as functions, the order of a hash set is an argument |
| `Truth` | diskann-tools/src/utils/ground_truth.rs, the readers of its files in search_index_utils.rs and diskann-benchmark/src/utils/datafiles.rs | vectors and their distance are arguments; the parallel loop over queries is a map; progress output |
| `BfTree` | diskann-bftree/src/neighbors.rs, locks.rs, and the vector stores of provider.rs, vectors.rs, quant.rs | the bf-tree crate is a map with atomic reads and inserts; save and load, configuration |
| `Spherical` | diskann-quantization `algorithms/heap.rs`; `spherical/quantizer.rs` and `vectors.rs`: choice of codes, compression, distances | exact or real arithmetic: rounding and overflow of f32 and f16; training; `iface.rs` |
| `MultiVec` | diskann-quantization `multi_vector/distance`: tiled kernel, kernels of factory.rs, double loop of fallback.rs, MaxSim and Chamfer | the f32 operations are an argument; registers are lists of lanes; `matrix.rs` |
| `Medoid` | diskann-utils `sampling/medoid.rs`, `sampling/latin_hypercube.rs`; diskann-providers `utils/medoid.rs`; diskann `graph/start_point.rs` | the generators are arguments; vectors of a given norm (`sampling/mod.rs`); file formats |
| `Batch` | diskann-benchmark-core `search/api.rs`, `search/ids.rs`, `internal/buffer.rs` | latencies, repetitions, the tokio runtime; tasks are functions of their range |
| `Bitmap` | diskann-tools `utils/compute_bitmap.rs` | maps are lists of entries; which of several errors is reported; the panic on null is an error |

## Findings (refuted properties)

* C03: an undisturbed `guard()` may report Unavailable with a free slot when the 64-bit
  hint wraps.
* C14: a queue of capacity 0 panics on the first insert.
* C15: `drain_best` and `remove` break "expanded at most once" / exact removal.
* C16: release builds trust the callers of the trusted list operations.
* C19: an id twice in the pool is returned twice by the inner product rule; alpha at or
  above f32::MAX makes pruning panic or return a candidate twice.
* C20: the inner product rule keeps candidates it documents as removed entirely.
* C21: a NaN alpha is accepted by the configuration and pruning never ends.
* C25: the hop count reported by a range search counts the first phase twice; its
  comparison count omits the second phase; a NaN `range_slack` passes validation.
* C26: caller-given `init_ids` of a paged search are never returned, against the comment
  in the code.  The page cache (`computed_result`) is never non-empty between calls.
* C29: `partition(usize::MAX, 1, 0)` overflows.
* C38: blocks of 80 to 103 bytes are accepted but the 104-byte header overwrites the first
  node; an index smaller than a 4096-byte sector is written but its header cannot be read;
  a vertex processed twice in one batch shifts the neighbour lists and associated data of
  later vertices.  Debug builds abort on a node without neighbours.
* C39: `max_degree` multiplies the dimension without overflow check.
* C41: after a failed write, the cached bytes are written again by the next flush or drop.
* C48: inserting a cached node again keeps its old neighbour list and misaligns the lists of
  nodes inserted later.
* C42: a crash inside the final 12-byte header update can load as a part of the graph (or
  panic); a configured degree below the real one is saved and makes `load_graph` panic.  A
  save interrupted earlier loads as an empty graph, without error.
* C43: a truncated vector file loads without error with fewer vectors than announced; a crash
  inside the final header update can load as a part of the vectors.
* C51: an element type whose alignment is below its size can get an allocation that cannot be
  aligned; the `usize::MAX` returned by `align_offset` is used unchecked.
* C52: the export for the disk index replaces one start point only; with several start points
  the exported graph names ids it does not contain.  `StartPoints::new` truncates the number
  of start points to 32 bits.
* **C10** (`C10_acquire_after_overlapping_calls_refuted`): `scan_acquire` pushes every available slot of
  the chunk after the one it claims to the recycle queue without checking whether it is already
  there.  A concurrent drain can push the same slots, so the queue then holds each twice.  Once
  the slots have been taken through the first copies, the second copies are stale, and each of
  the 20 attempts of a later `acquire` pops one of them: it returns no slot although one is free
  and nothing else is running.
* C12: `set_element` inserts the id mapping before it publishes the slot; a lookup in between
  returns an internal id that no reader can read, and a `delete` in between fails.
* C13: `append_vector` neither removes duplicates nor re-checks under the lock, so two clients that
  append the same neighbour leave it twice in the list; a debug build then panics when a reader
  finishes the list (uniqueness check), a release build returns the duplicate.
* C30: `-0.0` and `0.0` get different keys; a missing value (`Empty`) and the empty string share one;
  a field name with a NUL can collide with another field.
* C34: `deserialize_key_list` reserves capacity for the count in the header before reading a single
  key: four corrupt bytes can ask for about 96 GiB. Bytes after the last key are ignored.
* C31: on the index `x > t` includes doubles equal to `t` and `x <= t` excludes them; thresholds are
  truncated for integers, so `1 < 1.5` is missed; integers above 2^53 are compared exactly on the index
  and rounded in direct evaluation; `0.0 == -0.0` is missed; distinct integers from 2^63 on share a key;
  `a.0` reaches array elements and `a.b` reaches the key `a/b` on the index only; `$ne` and `$not` are
  errors; an empty conjunction matches nothing. `BfTreeStore::range`, the only shipped store's range scan,
  always returns an error, so range filters fail on it. Flattening panics on a null and does not escape
  the separator in keys.
* C32: inserting an existing document leaves its old postings for good; a delete after a failed insert
  reports success and leaves postings; ids 2^32 apart share postings.
* C33: entries next to `$and`/`$or`/`$not` are ignored, as are conditions that are not objects and an
  `$and`/`$or` without an array beside a `$not`.
* C35: minting wraps at 2^32: when every id is in use, `next_id` returns id 0 again with Ok. An unreadable
  block at startup ends the scan silently, and ids in use are handed out again.
* C53: `has_free_ids` can be cleared by a scan that found nothing after another caller freed an id and set it;
  later calls then mint new ids although a freed one is queued.
* C54: with more than 2^20 tasks the start of a backfill range can wrap to 0.
* C27: when the vector of a source is missing while its back edges are pruned, `add_edge_and_prune` stores the
  list left in the scratch by the previous source, which can contain the source itself (a self loop). The in-memory
  crate appends without looking for repetitions, so overlapping operations store an edge twice. `multi_insert` of a
  node already in the graph can store it twice with the inner product rule.
* C28: `inplace_delete` skips an in-neighbour whose vector is missing and returns Ok. `multi_inplace_delete` removes
  the batch from the old list but not from the replacement edges, so a node can get a fresh edge to a deleted one.
  An overlapping insert can link the deleted node again.
* C55: `Option<Option<T>>`: `Some(None)` is saved as null and loads as `None`. The strings "nan", "inf" and
  "neg_inf" save, and then fail to load from a manifest (they are read as numbers). `Record::from_iter` does not
  check for reserved keys: such a record saves, and then does not load or loses the entry.
* C56: `try_cast!` checks by casting back, and float-to-integer casts saturate: 2^64 as u64 gives 2^64-1, 2^63 as
  i64 gives 2^63-1, and u64::MAX, i64::MAX as floats give 2^64, 2^63, although each should be refused.
* C57: so i64::MAX read as a float succeeds (wrongly) in memory and is refused from a manifest.
* C58: nothing stops the manifest path from being the name of an artifact ("000-x" in the same directory): the save
  reports success and the artifact is overwritten by the manifest.
* C59: the temporary file of a manifest is shared by all saves to it. A save that finds it there fails, and its
  `Drop` deletes it although it belongs to another save; with a third save, the first one renames the third one's
  half-written file into place and reports success over an empty manifest.
* C60: so also a file `<manifest>.temp` of anybody else is deleted by the save it makes fail. After a crash, the
  artifacts stay, and every later save with the same keys in that directory fails until they are removed by hand.
* C61: the key "a/" passes the one-component check, works in memory, and always fails on disk. (The documentation
  says that a key with several components is an error; the code saves such an artifact without its key.)
* C62: the error for a diverse k above the total k exists but is never returned. A diverse queue made directly with
  l*k < total gets local lists of size 0 and panics on its first insertion.
* C63: with two candidates at the same distance, evicting the farther one of a full attribute value only looks at the
  first entry at that distance, so the evicted candidate can stay in the list, and more than k results share a value.
* C64: the inline filtered search returns matches at a NaN distance, which the unfiltered search never does. `AdaptiveL::new`
  accepts a NaN maximum scale, and the search then panics as soon as it samples a match. When adaptive L raises L by less than
  the number of start points the list shrinks, because the resized one has no room for them.
* C66: filtered range search cuts the matches to the maximum before it drops those inside the inner radius, so it can return
  fewer results than it has, even none. When the radius is negative (inner product) the slack factor makes the limit smaller
  than the radius.
* C69: `Translate` of diskann-inmem counts a result only if the buffer still has room after it, so whenever the results fill the
  buffer, as they do in a normal k-NN search, it reports one result fewer than it wrote. The `DeterminantDiversity` reranker of the
  in-memory provider, unlike `Rerank`, has no deletion check and writes deleted ids.
* C70: when fewer than k points are found, the result list of `search` is filled up with entries of id 0 at distance 0.0, which look like
  perfect matches of point 0, even if point 0 is filtered out; only the result count in the statistics tells. C71: a flat scan
  with list size 0 panics while a graph search reports an error. C72: the io limit bounds the reads of the graph walk only; the
  candidates that the walk did not read are read for reranking on top of it, and are not counted.
* C75: the comment in `greedy_orthogonal_select` says that NaN norms are passed over when the next candidate is chosen; treating NaN as equal
  makes the later one win, so a NaN norm hides larger norms before it and a candidate with a small norm is chosen. C76: the
  in-memory diversity post processor, unlike the other in-memory ones, filters neither deleted ids nor start points out of the
  results (and the benchmark uses it without a filter in front).
* C78: generations of the working set are 32-bit and wrap, so after 2^32 fills an old entry passes for a current one and the capacity is exceeded.
  `prepare` documents that unpinned entries are evicted as needed; keys of the overlay and keys given twice count as entries to be added, so
  entries are evicted although everything would fit.
* C79: nothing keeps a shard from being left without vectors (equal vectors, or more centers than clusters); the merge then indexes an
  empty id map and panics, after the shards were built.
* C80: `SampleVectorReader::read_vectors` updates its position only after the closure succeeded, so after a failing closure the next call
  reads the wrong vectors.
* C81: the start point of the merged graph is that of the last shard alone; nodes reachable in every shard need not be reachable in the
  merged graph.
* C84: `DoubleHadamard::try_from_parts` bounds the subsampled indices by the length of the second signs, but the intermediate vector is only
  as long as the larger of the input and output dimensions; accepted parts (for example signs of lengths 2 and 4 with index 3) panic in
  every transform.  A stored quantizer can so pass loading and crash at the first query.
* C84: the debug assertion in the same function (fewer indices than signs), said to be implied by the checks, is not: choosing every
  coordinate passes the checks and fails the assertion.
* C86: training a scalar quantizer on data whose columns are all constant succeeds with scale 0; compressing one of the training rows then
  returns success with a NaN compensation, and its inner products are NaN.
* C87: with the null transform, min-max compression accepts a vector with an infinite coordinate: it reports success and loss zero, and what is
  stored decompresses to NaN (NaN inputs are refused, and the doc of the loss says it is the error).
* C92: two u8 vectors of 33026 dimensions with every difference 255 overflow the 32-bit accumulator of the x86 kernels; the squared distance
  returned is negative.  Above 2^24 distances of 8-bit vectors are rounded to f32, so different distances tie (260 dimensions are enough).
* C93: cosine similarity clamps with `1.0.min(v)` and `(-1.0).max(..)`, which drop a NaN: opposite finite vectors whose norms overflow
  (a coordinate of 2^64) get similarity 1, and so does any pair with a NaN coordinate.
* C96: the distance of two 8-bit slices has an integer result type but is computed by the f32 kernel and converted back, so above 2^24 it is
  rounded; 260 elements are enough for a wrong squared distance.
* C99: `Chunk::find_closest` says ties go to the lowest index, but the lanes are compared in lane order: of pivots 1 and 8 at the same distance it returns 8. With f32 rounding a vector equal to pivot 1 can be coded as pivot 0 (4097 among 4096 and 4097), and a vector equal to the only pivot (2^70) is refused as infinity or NaN although its distance is 0, because the norm and the product overflow.
* C100: `find_closest_batch` says it has the semantics of `find_closest`. A NaN proxy at pivot 0 hides pivot 8 from the batch but not from the single call, so the two give different codes; a proxy equal to `f32::MAX` fails alone and succeeds in a batch.
* C103: for the metric `CosineNormalized` a `QueryComputer` uses squared L2 and a `DistanceComputer` uses 1 - cosine. The comment says the order is preserved for normalized vectors; decoded vectors are not normalized, and the two can order two codes oppositely (`C103_same_order_refuted`).
* C104: `pq_dist_lookup` reads 256 distances per chunk while the scratch holds as many as there are pivots, so a disk search with a table of fewer than 256 pivots, which the constructors accept, always panics (`C104_disk_refuted_fewer_pivots`).
* C105: `MultiTable::two` compares versions but not dimensions; codes of tables of different dimensions are compared with coordinates dropped (`C105_dimensions_refuted`).
* C106: `lloyds` panics (an index of u32::MAX into the counts) for a row with NaN, for a row whose computed squared norm overflows, and for no centers with data (`C106_total_refuted_nan`, `C106_total_refuted_no_centers`).
* C107: the assignments and the residual returned by `lloyds` are those of the centers before the last update, not of the returned ones (`C107_assignment_refuted`); with `max_reps = 0` it returns center 0 for every point and residual 0 (`C107_no_steps_refuted`).
* C108: `kmeans_plusplus_into` panics when asked for no centers of a non-empty dataset (`C108_no_centers_refuted`), although for an empty dataset the same request succeeds (`C108_empty`).
* C109: `train` documents an error for NaN and infinities; with one center k-means++ never looks at a distance and `lloyds_inner` panics (`C109_nan_refuted`).
* C109: with an empty training set the first chunk returns an error while every later one panics on a slice beyond the end, so the result depends on the order in which rayon runs the chunks (`C109_empty_refuted`). The doc comment also asks for `data.nrows() != schema.dim()` where the code checks `ncols`.
* C110: `knn` puts the first k ground truth ids into a set but divides by k: with a repeated id in the ground truth, results identical to it score below 1 (`C110_perfect_refuted`). A run whose queries all lack ground truth reports recall 0 (`C110_no_truth_refuted`).
* C111: `average_precision` divides by the number of ground truth entries: it is a recall, and wrong results never lower it (`C111_precision_refuted`). Without ground truth it is 0/0 (`C111_empty_refuted`).
* C112: the documented numbering of stages (from 0, without gaps) is not checked (`C112_gaps_refuted`); `max_pts: -1` is accepted as 2^64 - 1 (`C112_negative_refuted`); a replacement of tags by a different number of vectors is accepted (`C112_replace_refuted`).
* C113: with deferred reclaiming, a tag that is deleted and inserted again before the next maintenance loses its new slot at that maintenance: `consolidate` removes the tag found at the old slot. A runbook that was accepted then fails with an unknown tag (`C113_reinsert_refuted`). `RunbookParams::validate` accepts consolidation thresholds of 1 or more, with which maintenance never happens and a valid run of fresh tags ends without slots (`C113_threshold_refuted`).
* C114: with `skip_base`, ids of the ground truth count from the first point that is not skipped, so they are not rows of the base file and not the ids of an index over it (`C114_skip_refuted`).
* C115: ground truth without filters for more neighbours than there are points (or than have a distance that is a number) panics when written (`C115_few_refuted`); inserted points have no associated data, so the tool panics when one of them is a neighbour and associated data is to be written (`C115_inserted_refuted`).
* C116: the disk benchmark fills missing results with id 0 and counts them: a search that returns nothing has recall 50 % in `C116_padding_refuted`, because point 0 is a true neighbour. `calculate_recall` does not compare k with the columns of the ground truth: the rows of other queries count, and the last query panics (`C116_columns_refuted`).
* C118: the comment on `set_element` promises no "quantized ghost with no full-precision backing data", but `delete` removes the full vector first: a search between the two finds the code only (`C118_ghost_refuted`). If compressing fails, `set_element` returns an error after replacing the full vector; the code of the old vector stays, so approximate and exact distances belong to different vectors until the next set (`C118_failed_refuted`); the comment calls this benign.
* C121: a query that is quantized with `(max - min) / hi` as its step gets a step of zero when all
  components of the transformed vector are equal (quantizer.rs 1188). Compression returns `Ok`, and
  every distance is NaN (`C121_flat_refuted`, and `C121_query_nan` says exactly when). A query of one
  component always does this.
* C121: the sum of the codes is kept in sixteen bits (vectors.rs 287-289). With eight bits and 515
  components, of two vectors on opposite sides of the centre at least one cannot be compressed,
  however small they are (`C121_wide_refuted`); the message, which advises to scale the data down,
  does not help.
* C121: the distance of a stored vector to itself is never above the true one, and in general below
  it, so a squared distance can be negative (`C121_self`, as a note in the documentation says). When the
  transform does not keep norms, a full query equal to a stored vector is not at its true distance
  either (`C121_sampled` gives the difference).
* C122: `MaxSim::evaluate` with a document without vectors returns `Ok` and leaves the scores as they
  were, while `compute_max_sim` fills them with `f32::MAX`, and `Chamfer` of the same document is 0,
  better than any document with a positive distance (`C122_stale_refuted`, `C122_chamfer`).
* C123: the documentation of `flatten_json_pointers` says that keys are escaped per RFC 6901 and that
  empty containers get an entry. Neither is done: a member `a/b` overwrites the nested `a`, `b` in the
  map (`C123_escape_refuted`), and a document of empty containers has no entries
  (`C123_empty_refuted`). A null anywhere is a panic (`C123_null`). `include_array_indices` has no effect.
* C124: `compute_medoid` is documented to return a row of the data. When every squared distance to the
  mean is infinite, NaN or at least `f32::MAX` it returns zeros (`C124_zero_refuted`), and so it does
  without rows. `find_medoid_from_file` divides by the number of points in the header and stops without
  an error where the file ends, so a truncated file silently gives the wrong medoid
  (`C124_truncated_refuted`). The `max_sample_size` of `find_medoid_with_sampling` is no maximum, and a
  sample that happens to be empty is an error on a non-empty file (`C124_sample_refuted`).
* C125: `sample_latin_hypercube` panics on an empty range when more samples are asked for than there are
  rows, so `StartPointStrategy::LatinHyperCube` panics where `RandomSamples` returns an error
  (`C125_panics`). The strata are `nrows / num_samples` rows each, so up to `num_samples - 1` rows at the
  end, nearly half of the data at worst, never have an influence (`C125_tail`).
* C127: in the ground truth tool a negated condition selects only documents that have the field, while
  evaluating the filter on a document without the field gives true (`C127_negation_refuted`; a unit test
  expects this). Under a negation, a field that no document has empties the result if it is mentioned
  first and is ignored if mentioned later, so swapping the operands of an OR changes the result
  (`C127_order_refuted`). The check that an integer is exactly a double accepts `i64::MAX`, because the
  cast back saturates (`C127_largest_refuted`).
