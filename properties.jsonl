{"id": "C01", "title": "extend appends exactly the given pairs", "statement": "If Transaction::extend on a stream builder returns Ok, then Forest::collect of the new snapshot is collect of the old snapshot followed by exactly the given key/value pairs, in order; nothing already stored is lost, reordered or duplicated.", "quantifier": "every builder state reachable by any history of API calls, every config, every iterator of key/value pairs, every store and cache state", "why_tests_cant": "leaf splitting, level raising and sealing depend on compressed sizes and on the shape left behind by the whole history; tests sample a few shapes with one config", "anchors": ["banyan/src/forest/write.rs: extend_above, extend0, extend_leaf, extend_branch, fill_node, new_branch", "banyan/src/tree.rs: Transaction::extend, collect_from"]}
{"id": "C02", "title": "extend_unpacked appends exactly the given pairs", "statement": "If Transaction::extend_unpacked returns Ok, then collect of the new snapshot is collect of the old one followed by exactly the given pairs, in order.", "quantifier": "every reachable builder state, every config and input sequence", "why_tests_cant": "as C01: shapes and histories are unbounded", "anchors": ["banyan/src/forest/write.rs: extend_unpacked0", "banyan/src/tree.rs: Transaction::extend_unpacked"]}
{"id": "C03", "title": "pack changes the layout, never the content", "statement": "If Transaction::pack returns Ok on a builder reached by extend, extend_unpacked, pack, retain and rolled back transactions, then collect of the snapshot is the same before and after (including which offsets are purged).", "quantifier": "every such history, every config", "why_tests_cant": "roots and remainder are selected by a level cursor threaded through the whole tree; only an invariant over all histories settles that they always tile the tree", "anchors": ["banyan/src/tree.rs: pack, tree_from_roots", "banyan/src/forest/write.rs: simplify_roots, find_valid_branch", "banyan/src/forest/read.rs: roots0, collect0"]}
{"id": "C04", "title": "pack produces a packed tree", "statement": "After pack returns Ok, Forest::is_packed of the snapshot is Ok(true).", "quantifier": "every history of extend, extend_unpacked, pack, retain, rollback; every config", "why_tests_cant": "packedness is a recursive property of arbitrarily deep trees", "anchors": ["banyan/src/tree.rs: pack, is_packed", "banyan/src/forest/read.rs: is_packed0", "banyan/src/forest/write.rs: simplify_roots"]}
{"id": "C05", "title": "count and random access agree with the content", "statement": "Tree::count is the number of entries of collect; Forest::get(offset) is Ok(None) for offset >= count and otherwise returns exactly the entry collect has at that offset (Ok(None) for a purged one); collect_from(offset) is collect with the first `offset` entries dropped.", "quantifier": "every reachable tree, every offset", "why_tests_cant": "offset arithmetic over arbitrary tree shapes, including purged subtrees", "anchors": ["banyan/src/forest/read.rs: get0, collect0", "banyan/src/tree.rs: get, collect, collect_from, count"]}
{"id": "C06", "title": "filtered iteration returns exactly the matching entries, in order", "statement": "For a query that honours the Query contract, iter_filtered / iter_filtered_chunked / stream_filtered yield exactly the (offset, key, value) triples of the non-purged entries that match, each once, in ascending offset order.", "quantifier": "every reachable tree, every query obeying the contract", "why_tests_cant": "pruning decisions at every level and the explicit traversal stack make this a statement about all trees and all queries", "anchors": ["banyan/src/forest/read.rs: TreeIter, ChunkVisitor, iter_filtered0, stream_filtered0", "banyan/src/tree.rs: iter_filtered, iter_filtered_chunked, iter_from"]}
{"id": "C07", "title": "reverse iteration is the mirror image of forward iteration", "statement": "iter_filtered_chunked_reverse yields chunks in descending offset order; flattening the chunks back to front gives exactly the forward result reversed.", "quantifier": "every reachable tree, every query obeying the contract", "why_tests_cant": "as C06, for the backward cursor", "anchors": ["banyan/src/forest/read.rs: TreeIter::new_rev, next_fallible", "banyan/src/tree.rs: iter_filtered_chunked_reverse, iter_filtered_reverse"]}
{"id": "C08", "title": "chunk ranges tile the tree for every query", "statement": "For any query whatsoever, the ranges of the chunks of iter_filtered_chunked are adjacent and cover 0..count without gap or overlap (forward ascending, reverse descending), and every triple in a chunk has its offset inside the chunk's range.", "quantifier": "every reachable tree, every query (also unsound ones)", "why_tests_cant": "quantifies over arbitrary queries and tree shapes", "anchors": ["banyan/src/forest/read.rs: TreeIter::next_fallible, skip", "banyan/src/forest/mod.rs: FilteredChunk"]}
{"id": "C09", "title": "traversal ends after the first error", "statement": "Once iter_filtered_chunked (either direction) has yielded an error, the next call yields None; the chunks before the error are a prefix of the chunks an undamaged store would give.", "quantifier": "every tree, every query, every set of missing blocks", "why_tests_cant": "needs all positions of the failure in all traversals", "anchors": ["banyan/src/forest/read.rs: impl Iterator for TreeIter"]}
{"id": "C10", "title": "writing histories never trip an internal assertion", "statement": "extend on a packed builder, extend_unpacked, pack and retain never panic on an internal assertion, for a config with max_leaf_count >= 1, max_key_branches >= 1 and max_summary_branches >= 2.", "quantifier": "every history of those calls, every such config, every input", "why_tests_cant": "assertions on levels and sealing depend on the exact shape after arbitrary histories", "anchors": ["banyan/src/forest/write.rs: assert! in extend_leaf, extend_branch, new_branch, extend_above, simplify_roots, find_valid_branch", "banyan/src/forest/mod.rs: Config"]}
{"id": "C11", "title": "extend is safe on any builder", "statement": "extend (or push) may be called on a builder after any mix of extend and extend_unpacked calls without panicking.", "quantifier": "every history of extend and extend_unpacked", "why_tests_cant": "the unit tests never mix the two calls", "anchors": ["banyan/src/forest/write.rs: extend0, extend_branch, new_branch", "banyan/src/tree.rs: extend, push"]}
{"id": "C12", "title": "self check finds nothing to complain about", "statement": "Forest::check_invariants returns Ok of an empty message list for every builder reached by extend, extend_unpacked, pack, retain and rollback.", "quantifier": "every such history, every config", "why_tests_cant": "quantifies over all histories; the tests only run the self check on samples", "anchors": ["banyan/src/forest/read.rs: check_invariants0", "banyan/src/tree.rs: check_invariants, assert_invariants"]}
{"id": "C13", "title": "keystream bytes are never used twice by a builder", "statement": "The cipher byte ranges recorded in the blocks handed to BlockWriter::put during the life of one stream builder are pairwise disjoint, and all lie below the builder's current cipher offset; this includes blocks written by operations that failed or were rolled back.", "quantifier": "every history of builder operations with any outcomes (success, error, rollback)", "why_tests_cant": "a single overlap is a two-time pad; tests check a handful of trees, never failure points", "anchors": ["banyan/src/stream_builder.rs: CipherOffset::reserve", "banyan/src/store/zstd_dag_cbor_seq.rs: into_encrypted", "banyan/src/forest/write.rs: extend_leaf, persist_branch"]}
{"id": "C14", "title": "reloading a builder continues after every byte of the tree", "statement": "load_stream_builder(link of the current root) yields a builder whose cipher offset is the end of the root block's byte range and is not below the end of any block reachable from that root; if every operation so far succeeded and the root is a branch written last, it equals the live builder's offset.", "quantifier": "every history of operations", "why_tests_cant": "needs an argument about the write order of all blocks of arbitrary trees", "anchors": ["banyan/src/tree.rs: load_stream_builder", "banyan/src/forest/read.rs: create_index_from_link", "banyan/src/stream_builder.rs: StreamBuilderState"]}
{"id": "C15", "title": "restarting from a persisted root never reuses keystream", "statement": "After a crash or rollback, a builder loaded from the last persisted root link never encrypts with keystream bytes that some block handed to the store before the crash already used.", "quantifier": "every crash point in every history", "why_tests_cant": "crash points are not enumerated by tests", "anchors": ["banyan/src/tree.rs: load_stream_builder", "banyan/src/stream_builder.rs: transaction (\"consumed offsets are not rolled back\")"]}
{"id": "C16", "title": "the root link of a builder can be reloaded with the same content", "statement": "For a builder whose root is a branch, load_tree and load_stream_builder of link() succeed and reading the result gives the same content as the live builder; for load_stream_builder the recomputed index agrees with the live one on level, count, sealed, summaries and value_bytes.", "quantifier": "every reachable builder whose root is a branch", "why_tests_cant": "all shapes and all histories", "anchors": ["banyan/src/tree.rs: load_tree, load_stream_builder", "banyan/src/forest/read.rs: create_index_from_link"]}
{"id": "C17", "title": "every non-empty builder has a loadable root link", "statement": "After any successful history the root link of a non-empty, unpurged builder can be loaded again with load_tree / load_stream_builder.", "quantifier": "every history", "why_tests_cant": "the failing shape arises only for one particular fill state", "anchors": ["banyan/src/tree.rs: tree_from_roots, pack, load_tree", "banyan/src/forest/read.rs: create_index_from_link, roots0"]}
{"id": "C18", "title": "snapshots are immutable", "statement": "Whatever happens after a snapshot was taken (extend, extend_unpacked, pack, retain, repair, rollback, failures, other readers, cache evictions), every read of the snapshot gives the same result as before.", "quantifier": "every snapshot of every history, every continuation and every cache behaviour", "why_tests_cant": "quantifies over all continuations", "anchors": ["banyan/src/stream_builder.rs: snapshot", "banyan/src/tree.rs: Tree", "banyan/src/forest/write.rs: put_block"]}
{"id": "C19", "title": "failed writes leave the builder's content unchanged", "statement": "If extend, push, extend_unpacked, retain or repair returns Err, the root of the builder is unchanged.", "quantifier": "every builder state, every failure point (missing block, full store, oversized item)", "why_tests_cant": "failure points are unbounded; tests use an infallible in-memory store", "anchors": ["banyan/src/tree.rs: extend, extend_unpacked, retain, repair"]}
{"id": "C20", "title": "a failed pack leaves the builder's content unchanged", "statement": "If pack returns Err, the root of the builder is unchanged.", "quantifier": "every builder state, every failure point", "why_tests_cant": "tests never fail inside pack", "anchors": ["banyan/src/tree.rs: pack, tree_from_roots"]}
{"id": "C21", "title": "dropping a stream transaction restores the builder", "statement": "Dropping a StreamTransaction without commit restores exactly the root the builder had when the transaction was opened, whatever was done through it; the cipher offset never goes back. commit keeps the new root.", "quantifier": "every history inside a transaction", "why_tests_cant": "all operation sequences inside a transaction", "anchors": ["banyan/src/stream_builder.rs: StreamTransaction, Drop, commit"]}
{"id": "C22", "title": "retain keeps everything that matches and shifts nothing", "statement": "After retain(query) returns Ok, the count is unchanged and every offset either holds the same entry as before or is purged; offsets whose entry matches the query (under the Query contract) are never purged by the call.", "quantifier": "every reachable tree, every query obeying the contract", "why_tests_cant": "pruning is driven by summaries at every level of arbitrary trees", "anchors": ["banyan/src/forest/write.rs: retain0", "banyan/src/tree.rs: retain"]}
{"id": "C23", "title": "retain never purges the unsealed or unpacked part", "statement": "After retain on a reachable builder, pack still succeeds unless the store fails: no entry outside the sealed packed roots is purged.", "quantifier": "every reachable tree, every query", "why_tests_cant": "the level cursor threaded through retain0 has to agree with the one in roots0 on all trees", "anchors": ["banyan/src/forest/write.rs: retain0", "banyan/src/forest/read.rs: roots0", "banyan/src/tree.rs: pack"]}
{"id": "C24", "title": "repair only forgets what cannot be loaded", "statement": "repair keeps count and every entry that is still readable, purges only subtrees whose block cannot be loaded, and the repaired tree can be read completely without error; if every block is loadable the root is unchanged and the report is empty.", "quantifier": "every tree, every set of lost blocks", "why_tests_cant": "all subsets of lost blocks", "anchors": ["banyan/src/forest/write.rs: repair0", "banyan/src/tree.rs: repair"]}
{"id": "C25", "title": "pack is safe after repair", "statement": "pack after repair either fails or preserves the content.", "quantifier": "every tree, every set of lost blocks", "why_tests_cant": "needs an unusual combination of shape and loss", "anchors": ["banyan/src/forest/write.rs: repair0", "banyan/src/forest/read.rs: roots0", "banyan/src/tree.rs: pack"]}
{"id": "C26", "title": "damaged stores yield errors, never wrong data", "statement": "With any set of blocks missing from the store and any cache state, get / collect / iteration on a snapshot either return what the undamaged store would return or an error.", "quantifier": "every snapshot, every subset of lost blocks, every coherent cache content", "why_tests_cant": "all damage patterns", "anchors": ["banyan/src/forest/read.rs: get_block, load_branch_cached_from_link, get0, collect0, TreeIter"]}
{"id": "C27", "title": "the branch cache is transparent", "statement": "For any cache capacity and eviction behaviour (including a disabled cache), every read gives the same result as with no cache at all, as long as the store can serve the blocks.", "quantifier": "every read, every eviction policy and cache content produced by earlier calls", "why_tests_cant": "depends on the full history of cache fills", "anchors": ["banyan/src/store/branch_cache.rs: BranchCache", "banyan/src/forest/read.rs: load_branch_cached_from_link"]}
{"id": "C28", "title": "MemStore behaves as a bounded content addressed map", "statement": "get returns exactly the data last put under the digest, put never exceeds max_size (sum of the stored block lengths), an Err from put changes nothing, and put of a block already present is idempotent.", "quantifier": "every sequence of put and get, every max_size (for a collision free digest)", "why_tests_cant": "all sequences", "anchors": ["banyan/src/store/mem_store.rs: MemStore"]}
{"id": "C29", "title": "MemCache is transparent over a content addressed store", "statement": "With writes going through MemWriter, MemCache::get returns exactly what the wrapped store returns for every link the store has, whatever was evicted; only blocks of at most max_size bytes are ever cached; disabled caches behave as the bare store.", "quantifier": "every sequence of writes, reads, offers of true blocks and evictions", "why_tests_cant": "all sequences and eviction orders", "anchors": ["banyan/src/store/mem_cache.rs: MemCache, MemWriter"]}
{"id": "C30", "title": "encrypted blocks round-trip", "statement": "decrypt(encrypt(seq, key, nonce, offset)) returns the same compressed data and links and the byte range offset..offset+len, for every offset without wrap-around; a wrap-around panics on writing and is an error on reading.", "quantifier": "every sequence, key, nonce and offset", "why_tests_cant": "all byte strings and offsets", "anchors": ["banyan/src/store/zstd_dag_cbor_seq.rs: into_encrypted, encrypt, decrypt, IpldNode"]}
{"id": "C31", "title": "leaf sequences round-trip and their accessors agree", "statement": "items of a filled sequence are the items of the seed sequence followed by the accepted values; count is their number, get(i) is the i-th of them, select(mask) the masked ones.", "quantifier": "every seed, every iterator of values, every limits, every mask", "why_tests_cant": "all masks and item sequences", "anchors": ["banyan/src/store/zstd_dag_cbor_seq.rs: fill, items, count, get, select, shrink_to_fit"]}
{"id": "C32", "title": "leaf limits are respected and progress is made", "statement": "fill never takes a leaf above max_leaf_count items or above max_uncompressed_leaf_size bytes, reports full whenever items are left over, takes at least one item when starting from an empty leaf (max_leaf_count >= 1), and only fails for an item that is larger than max_uncompressed_leaf_size.", "quantifier": "every seed, every limits, every values", "why_tests_cant": "boundary conditions over unbounded inputs", "anchors": ["banyan/src/store/zstd_dag_cbor_seq.rs: fill"]}
{"id": "C33", "title": "nodes respect the configured fan-out", "statement": "In every tree built by extend, extend_unpacked and pack, no level 1 branch has more than max_key_branches children, no higher branch more than max(max_summary_branches, 2) children, and no leaf more than max_leaf_count keys; leafs are not empty.", "quantifier": "every reachable tree, every config", "why_tests_cant": "all histories", "anchors": ["banyan/src/forest/write.rs: extend_branch, new_branch, extend_unpacked0", "banyan/src/store/zstd_dag_cbor_seq.rs: fill"]}
{"id": "C34", "title": "index records survive serialization", "statement": "Decoding the serialized children of a branch gives the same index records; the byte format of leaf and branch records is a CBOR map with the keys in canonical order, and records with keys in any order are accepted.", "quantifier": "every index record whose fields fit their integer types", "why_tests_cant": "all records", "anchors": ["banyan/src/index.rs: LeafIndex, BranchIndex, Index (DagCbor)", "banyan/tests/build_check.rs: leaf_index_wire_format, branch_index_wire_format"]}
{"id": "C35", "title": "every reference is visible without the keys", "statement": "The unencrypted links section of a block written for a leaf contains every IPLD link occurring in the leaf's values; that of a branch contains the link of every non-purged child and every link occurring in its key sequences or summaries.", "quantifier": "every block written by any history", "why_tests_cant": "all values and trees", "anchors": ["banyan/src/store/zstd_dag_cbor_seq.rs: scrape_links, fill, from_iter_ipld"]}
{"id": "C36", "title": "query combinators compute and/or", "statement": "AndQuery matches exactly where both parts match, OrQuery exactly where at least one part matches; both satisfy the Query contract whenever their parts do; AllQuery matches everything and EmptyQuery nothing.", "quantifier": "every pair of queries obeying the contract, every index, every prior mask", "why_tests_cant": "all masks and nestings", "anchors": ["banyan/src/query.rs: AndQuery, OrQuery, AllQuery, EmptyQuery", "banyan/src/util.rs: or_with, clear"]}
{"id": "C37", "title": "offset range queries are exact", "statement": "OffsetRangeQuery(range) matches exactly the offsets contained in the range, for every kind of bounds, and its branch test never rejects a subtree containing such an offset.", "quantifier": "every range (included, excluded, unbounded bounds), every index and offset", "why_tests_cant": "all bound combinations", "anchors": ["banyan/src/query.rs: OffsetRangeQuery", "banyan/src/util.rs: lt, intersects"]}
{"id": "C38", "title": "stream_trees delivers every matching entry exactly once", "statement": "Given a sequence of growing trees of one stream, stream_trees_chunked delivers each matching entry of the range exactly once, in ascending order; after a failing tree the next tree resumes exactly where delivery stopped.", "quantifier": "every growing sequence of trees, every range and query, every failure position", "why_tests_cant": "all interleavings of growth and failures", "anchors": ["banyan/src/forest/stream.rs: stream_trees_chunked, stream_trees"]}
{"id": "C39", "title": "stream_trees_chunked ends at its inclusive upper bound", "statement": "If the trees contain range.end(), the stream terminates after the chunk containing it and delivers nothing above range.end(); the chunk ranges it has delivered reach past range.end().", "quantifier": "every sequence of trees, every range", "why_tests_cant": "all ranges and shapes", "anchors": ["banyan/src/forest/stream.rs: stream_trees_chunked", "banyan/src/util.rs: take_until_condition"]}
{"id": "C40", "title": "stream_trees_chunked_reverse delivers every matching entry at most once", "statement": "Given a sequence of trees of one stream, stream_trees_chunked_reverse delivers each matching entry of the range at most once, in descending chunk order, also when a tree fails and the next one takes over.", "quantifier": "every sequence of trees, every failure position", "why_tests_cant": "needs a failure between two chunks", "anchors": ["banyan/src/forest/stream.rs: stream_trees_chunked_reverse"]}
{"id": "C41", "title": "index iteration visits exactly the selected nodes", "statement": "iter_index yields, in depth first order, exactly the root and every child whose bit survived the query at its parent; iter_index_reverse yields the same nodes with the children of each branch visited right to left.", "quantifier": "every reachable tree, every query", "why_tests_cant": "all shapes and queries", "anchors": ["banyan/src/forest/index_iter.rs: IndexIter", "banyan/src/tree.rs: iter_index, iter_index_reverse"]}
{"id": "C42", "title": "index iteration ends after an error", "statement": "Once iter_index has yielded an error it ends.", "quantifier": "every tree, every set of missing blocks", "why_tests_cant": "tests never damage the store", "anchors": ["banyan/src/forest/index_iter.rs: impl Iterator for IndexIter"]}
{"id": "C43", "title": "the index key alone suffices for structure, and the value key is not needed", "statement": "iter_index, retain, repair of branches, roots, is_packed, left_roots and dump_graph give the same results for any two secrets that share the index key.", "quantifier": "every tree and every pair of value keys", "why_tests_cant": "non-interference over all inputs", "anchors": ["banyan/src/forest/mod.rs: Secrets", "banyan/src/forest/read.rs: load_branch_from_link, roots0, is_packed0", "banyan/src/forest/write.rs: retain0"]}
{"id": "C44", "title": "every written block can be read back", "statement": "Any block written by a successful extend, extend_unpacked or pack under a config accepted by Config::validate can be loaded and decoded again from the store.", "quantifier": "every history, every key and value size", "why_tests_cant": "needs blocks above 16 MiB", "anchors": ["banyan/src/store/thread_local_zstd.rs: MAX_CAPACITY, decompress_and_transform", "banyan/src/store/zstd_dag_cbor_seq.rs: from_iter_ipld, fill", "banyan/src/forest/mod.rs: Config::validate"]}
{"id": "C45", "title": "extend terminates for every valid config", "statement": "extend, extend_unpacked and pack terminate for every config accepted by Config::validate and every finite input.", "quantifier": "every config accepted by validate, every input", "why_tests_cant": "non-termination is not observable by tests", "anchors": ["banyan/src/forest/mod.rs: Config::validate", "banyan/src/forest/write.rs: extend_above, extend_branch", "banyan/src/store/zstd_dag_cbor_seq.rs: fill"]}
{"id": "C46", "title": "tag indexes round-trip", "statement": "TagIndex::from_elements(xs) returns xs[i] from get(i) for every i; encode followed by decode gives back the same index; decode never produces an index whose lookups go out of bounds.", "quantifier": "every list of tag sets, every byte string offered to decode", "why_tests_cant": "all inputs", "anchors": ["banyan-utils/src/tag_index.rs: TagIndex::from_elements, get, encode, decode"]}
{"id": "C47", "title": "tag index matching agrees with set semantics", "statement": "TagIndex::matching(dnf) returns exactly the positions whose tag set contains some conjunction of the query.", "quantifier": "every index and every dnf", "why_tests_cant": "all tag sets and queries", "anchors": ["banyan-utils/src/tag_index.rs: TagIndex::matching, map_to_index_set"]}
{"id": "C48", "title": "conversion to disjunctive normal form preserves meaning", "statement": "For every expression without empty And/Or, a tag set satisfies Expression::dnf(e) iff it satisfies e; Dnf::expression converts back with the same meaning; simplify preserves meaning.", "quantifier": "every expression and every tag set", "why_tests_cant": "all expressions", "anchors": ["banyan-utils/src/tag_index.rs: Expression::dnf, simplify, Dnf::expression, insert_unless_redundant"]}
{"id": "C49", "title": "the disjunctive normal form is unique", "statement": "Two expressions that are satisfied by the same tag sets have equal Dnf.", "quantifier": "every pair of expressions", "why_tests_cant": "all expressions", "anchors": ["banyan-utils/src/tag_index.rs: Dnf (doc: unique representation), insert_unless_redundant"]}
{"id": "C50", "title": "tag queries match what their keys describe", "statement": "DnfQuery accepts a key iff one of its query keys contains it (time range within, tags a superset), independently of which other tags occur in the same leaf.", "quantifier": "every query, every key sequence", "why_tests_cant": "depends on tags missing from the leaf's string table", "anchors": ["banyan-utils/src/tags.rs: DnfQuery::map_into, TranslatedDnfQuery, Key::contains"]}
{"id": "C51", "title": "tag queries never prune matching keys", "statement": "DnfQuery satisfies the Query contract: whenever it accepts a key it also accepts every summary of a sequence containing that key.", "quantifier": "every query, every key sequence", "why_tests_cant": "needs events without tags, or multi-key queries", "anchors": ["banyan-utils/src/tags.rs: Key::intersects, Key::contains, KeySeq::summarize"]}
{"id": "C52", "title": "key sequences with tags round-trip and summarize soundly", "statement": "The KeySeq of banyan-utils returns the keys it was built from, and its summary's time range and tag set cover every key of the sequence, also through several levels of summaries.", "quantifier": "every list of keys", "why_tests_cant": "all inputs", "anchors": ["banyan-utils/src/tags.rs: KeySeq, from_iter, get, summarize"]}
{"id": "C53", "title": "graph dump is the tree", "statement": "dump_graph numbers the nodes 0..n-1 in depth first order and returns exactly one edge into every node but the root, from its parent.", "quantifier": "every reachable tree", "why_tests_cant": "all shapes", "anchors": ["banyan/src/tree.rs: dump_graph0"]}
{"id": "C54", "title": "left roots are prefixes of the tree", "statement": "Every tree returned by left_roots holds a prefix of the content of the tree, in ascending size, the last being the tree itself.", "quantifier": "every reachable tree", "why_tests_cant": "all shapes", "anchors": ["banyan/src/tree.rs: left_roots, left_roots0"]}
{"id": "C55", "title": "the threaded stream equals the sequential stream under every schedule", "statement": "For every interleaving of producer threads and consumer, stream_trees_chunked_threaded delivers the same chunks in the same order as a sequential traversal would.", "quantifier": "every schedule of producer and consumer steps, every channel occupancy", "why_tests_cant": "schedules are not enumerated by tests", "anchors": ["banyan/src/forest/stream.rs: stream_trees_chunked_threaded", "banyan/src/util.rs: ToStreamExt::into_stream"]}
{"id": "C56", "title": "packed trees have a shape determined by their content", "statement": "Two packed builders with the same config and the same entries, built by different splits of the entries over several extend calls, have the same structure (levels, sealed flags, keys per leaf), when leaf boundaries are determined by max_leaf_count.", "quantifier": "every way to split an input into extend calls", "why_tests_cant": "README claim over all histories", "anchors": ["README.md: Tree structure", "banyan/src/forest/write.rs: extend_above, extend0"]}
{"id": "C57", "title": "iter_filtered_reverse yields entries in descending order", "statement": "The items of iter_filtered_reverse have strictly descending offsets.", "quantifier": "every tree and query", "why_tests_cant": "holds for trees whose chunks have at most one matching entry, so small tests pass", "anchors": ["banyan/src/forest/read.rs: iter_filtered_reverse", "banyan/src/tree.rs: Forest::iter_filtered_reverse"]}
{"id": "C58", "title": "is_packed does not depend on how a tree was obtained", "statement": "Two trees with the same root link and the same content give the same answer to is_packed, whether the tree is a snapshot of a builder or was loaded with load_tree.", "quantifier": "every history and every way to obtain a tree with a given link", "why_tests_cant": "quantifies over all histories", "anchors": ["banyan/src/forest/read.rs: create_index_from_link", "banyan/src/tree.rs: load_tree, is_packed"]}
{"id": "C59", "title": "values are hidden from those who do not have the value key", "statement": "Leaf blocks are encrypted with the value key and branch blocks with the index key. For the leaf blocks written over a whole history, restarts included (each from a tree its writer had finished), any other texts of the same lengths are explained by some keystream, so the blocks say nothing about values beyond compressed lengths to someone who cannot tell the keystream of the value key from others, even with the index key.", "quantifier": "every history, every restart from the last written tree, every family of alternative texts", "why_tests_cant": "it quantifies over all histories and all alternative plain texts; a test can only look at the bytes of a few blocks", "anchors": ["banyan/src/forest/write.rs: extend_leaf, persist_branch", "banyan/src/store/zstd_dag_cbor_seq.rs: encrypt", "banyan/src/util.rs: nonce", "banyan/src/forest/mod.rs: Secrets"]}
{"id": "C60", "title": "writes succeed when the store does", "statement": "In a history that loses no block, extend and push on a packed builder, extend_unpacked, pack and retain return Ok for all values whose encoding fits a leaf and has well-formed links. The only errors are the store's own refusal of a block; no error is invented. repair succeeds in the same sense even when blocks were lost. Numbers beyond 64 bits are excluded.", "quantifier": "every reachable state, every list of entries, every query, every store", "why_tests_cant": "a test shows success for a few states; this excludes spurious failure in all of them", "anchors": ["banyan/src/forest/write.rs: extend0, extend_above, extend_unpacked0, retain0, repair0", "banyan/src/stream_builder.rs: StreamBuilder", "banyan/src/forest/mod.rs: Transaction"]}
{"id": "C61", "title": "retain forgets every sealed leaf without a match", "statement": "After a successful retain, go through the nodes that index iteration lists: up to the first unsealed leaf, every leaf that still has its block holds at least one matching entry. If nothing matches and no leaf is unsealed, no entry can be read any more.", "quantifier": "every reachable state, every query that decides entries by offset and key", "why_tests_cant": "that data really is dropped must hold for every shape of tree and every query; a test looks at a few", "anchors": ["banyan/src/forest/write.rs: retain0", "banyan/src/stream_builder.rs: retain"]}
{"id": "C62", "title": "retain purges whole branches", "statement": "A sealed branch in the packed part of a tree none of whose entries match is purged as a whole by retain.", "quantifier": "every packed tree, every query", "why_tests_cant": "it depends on the order in which nodes of all levels are visited", "anchors": ["banyan/src/forest/write.rs: retain0"]}
{"id": "C63", "title": "Reads and writes need only the blocks on their way", "statement": "get succeeds whenever the blocks on the way from the root to the asked offset are in the store, and filtered iteration in either direction gives all matches whenever the branches with a selected child and the leaves with a match are in the store, no matter which other blocks were lost. collect_from an offset succeeds whenever the blocks on the way to each of the entries from that offset on are there, and is_packed whenever the unsealed branches at the right edge of the tree are. retain reads no leaf: it succeeds whenever the branches of the tree are there. extend of a packed builder succeeds whenever the unsealed nodes at the right edge of the tree are there, and extend_unpacked needs no block of the tree; writes can still fail because the store refuses a block.", "quantifier": "every reachable state, after any loss of blocks and any cache contents; every offset, every query that decides entries by offset and key, every number of steps", "why_tests_cant": "which blocks a read touches depends on the shape of the tree, the query and the cache", "anchors": ["banyan/src/forest/read.rs: get0, collect0, is_packed0, TreeIter::next, load_leaf, load_branch_cached", "banyan/src/forest/write.rs: retain0, extend_above, extend0, extend_unpacked0", "banyan/src/tree.rs: get, collect_from, is_packed", "banyan/src/forest/mod.rs"]}
{"id": "C64", "title": "Writing reuses the sealed part of the tree", "statement": "After a successful extend or push every sealed node of the old tree is a node of the new tree, with the same link; after extend_unpacked every node is. pack keeps every sealed node below the roots it starts from, and for a packed tree every sealed node.", "quantifier": "every reachable state, after any loss of blocks and any cache contents; every list of entries", "why_tests_cant": "which nodes are rewritten depends on the shape of the tree, which any history can give", "anchors": ["banyan/src/forest/write.rs: extend0, extend_above, extend_branch, extend_unpacked0, simplify_roots", "banyan/src/tree.rs: pack, extend, extend_unpacked, roots, tree_from_roots"]}
{"id": "C65", "title": "pack of a packed tree does nothing", "statement": "pack of a builder whose tree is already packed leaves its root as it is and writes no block.", "quantifier": "every reachable state with a packed tree", "why_tests_cant": "it depends on the shape of the tree", "anchors": ["banyan/src/tree.rs: pack, roots, tree_from_roots"]}
{"id": "C66", "title": "Writing hands a bounded number of blocks to the store", "statement": "extend with n entries, successful or not, hands at most 3n + 2h blocks to the store, where h is the level of the root, and a successful one at most 2n + h + max(h, h'), with h' the level afterwards; push at most 2h + 3; extend_unpacked at most 3n + 1, whatever the size of the tree; pack at most 3 for each root it starts from, 3 for each entry those roots do not cover, and 2h.", "quantifier": "every reachable state, after any loss of blocks and any cache contents; every list of entries, every outcome including errors of the store", "why_tests_cant": "the number of rewritten nodes depends on the shape of the tree, on how well the entries compress and on where the store fails", "anchors": ["banyan/src/forest/write.rs: extend_above, extend0, extend_branch, fill_node, extend_leaf, leaf_from_iter, new_branch, extend_unpacked0, simplify_roots", "banyan/src/tree.rs: extend, push, extend_unpacked, pack"]}
{"id": "C67", "title": "Reading asks the store for few blocks", "statement": "get asks the store for at most one block per level of the tree, so for at most log2(n) + 3 blocks on a packed tree of n entries; is_packed for at most one block per level above the leaves; collect and collect_from for no more blocks than dump_graph lists nodes.", "quantifier": "every reachable state, every snapshot and the builder's tree, every offset, any cache contents, successful or not, and whichever way the requests are counted", "why_tests_cant": "the number of blocks depends on the shape of the tree and on what the cache holds", "anchors": ["banyan/src/forest/read.rs: get0, collect0, is_packed0, load_branch_cached, load_leaf", "banyan/src/tree.rs: get, collect, collect_from, is_packed"]}
{"id": "C68", "title": "Packed trees are low", "statement": "A packed tree whose root is at level 2 + n has more than max_key_branches * max_summary_branches^n entries, so the level is at most log2 of the number of entries plus 2 and push writes at most 2 log2 of that number plus 7 blocks. On the other hand each extend_unpacked of at least one item to a tree with entries makes it at least one level higher.", "quantifier": "every state reachable without repair, after any mix of extend, extend_unpacked, pack, retain, rollback and reload; every configuration", "why_tests_cant": "it must hold for every history and every configuration; tests build a few trees", "anchors": ["banyan/src/forest/write.rs: extend_above, extend_branch, extend_unpacked0, simplify_roots, new_branch", "banyan/src/tree.rs: extend, push, extend_unpacked, pack, is_packed"]}
{"id": "C69", "title": "Filtered iteration asks the store only for what the query needs", "statement": "Chunked iteration with a query, in either direction, asks the store only for the leaves with a match and for the branches with a child that the query selects. With a cache that keeps branches each of these blocks is asked for at most once; with any cache a branch is asked for at most once per child.", "quantifier": "every reachable state, every snapshot and the builder's tree, every query that selects what it promises, any cache contents, any number of items taken, whether or not blocks are missing, and whichever requests are counted (all of them, those for one block, or their sizes)", "why_tests_cant": "the blocks depend on the tree, the query and the cache; ops_counting.rs counts them for three queries on one tree", "anchors": ["banyan/src/forest/read.rs: ForestIter::next_fallible, load_branch_cached, load_leaf_from_link", "banyan/src/tree.rs: iter_filtered_chunked, iter_filtered_chunked_reverse", "banyan-utils/tests/ops_counting.rs"]}
{"id": "C70", "title": "Appending, purging and repairing leave no garbage", "statement": "After a successful extend, push, extend_unpacked, retain or repair every block that the call handed to the store is part of the tree that the builder now holds.", "quantifier": "every forest and builder, whatever their contents, every list of entries and every query, provided no branch block is too large to be read back", "why_tests_cant": "which blocks are written depends on the shape of the tree, on the entries and on what the query purges; a store does not tell which blocks are unused", "anchors": ["banyan/src/forest/write.rs: extend_above, extend0, extend_branch, extend_unpacked0, retain0, repair0, persist_branch", "banyan/src/tree.rs: extend, push, extend_unpacked, retain, repair"]}
{"id": "C71", "title": "Packing leaves no garbage", "statement": "After a successful pack every block that the call handed to the store is part of the tree that the builder now holds.", "quantifier": "every reachable state", "why_tests_cant": "depends on the shape of the tree that is packed", "anchors": ["banyan/src/tree.rs: pack, tree_from_roots", "banyan/src/forest/write.rs: simplify_roots"]}
{"id": "C72", "title": "A self check that finds nothing vouches for the tree", "statement": "If check_invariants returns no message, then every node of the builder's tree agrees with its block: a leaf block holds as many values as the node has keys; a branch has the summaries of its children, children of lower levels, and is sealed exactly when it is full of sealed children of the level below; and the count of the builder is the number of its entries. If every node agrees with its block, check_invariants returns no message.", "quantifier": "every store content, also blocks written by others, every cache content that agrees with the blocks, every builder, every configuration", "why_tests_cant": "the tests only run the check on trees that are right; that it would report every wrong one is a statement about all stores", "anchors": ["banyan/src/forest/read.rs: check_invariants0", "banyan/src/tree.rs: check_invariants, load_stream_builder", "banyan/src/forest/mod.rs: branch_sealed"]}
{"id": "C73", "title": "The recorded sizes are the sizes of the blocks", "statement": "For every tree of a stream of which nothing is purged, value_bytes is the total number of encrypted bytes in its leaf blocks and key_bytes is the total size of its branch blocks. retain and repair leave value_bytes as it was.", "quantifier": "every tree reachable by any history of appends, packs, reloads, transactions and failures; for value_bytes also any history with retain and repair", "why_tests_cant": "quantifies over all histories and shapes; the tests never look at these numbers", "anchors": ["banyan/src/index.rs: LeafIndex::value_bytes, BranchIndex::key_bytes, Index::value_bytes, Index::key_bytes", "banyan/src/forest/write.rs: extend_leaf, new_branch, persist_branch, retain0, repair0", "banyan/src/forest/read.rs: create_index_from_link"]}
{"id": "C74", "title": "Compact sequences hand out what was put in", "statement": "For a compact sequence whose len and get show the items of a list, the default methods to_vec, select, first, last, count and is_empty describe the same list: to_vec returns it, select returns the items whose bit is set (and panics exactly when there are fewer bits than items), first and last return its ends and panic when it is empty. VecSeq, UnitSeq and KeySeq show the items they are collected from and survive their encoding. A tree with VecSeq keys and UnitSeq summaries meets all that banyan asks of its types.", "quantifier": "every sequence implementation and item type, every list of items, every bit mask, every size of usize", "why_tests_cant": "quantifies over all implementations, lists and masks", "anchors": ["banyan/src/index.rs: CompactSeq, VecSeq, UnitSeq, Summarizable<()>", "banyan-utils/src/tags.rs: KeySeq"]}
{"id": "C75", "title": "Decoded key sequences can be read", "statement": "A key sequence with tags that was encoded decodes to the same keys. Every sequence the decoder accepts can be read without panic.", "quantifier": "every list of keys; every byte string the decoder accepts", "why_tests_cant": "the decoder takes arbitrary bytes from the network; tests only decode what they encoded", "anchors": ["banyan-utils/src/tags.rs: KeySeq, KeySeq::get", "banyan-utils/src/tag_index.rs: Decode for TagIndex", "banyan/src/index.rs: CompactSeq::to_vec"]}
{"id": "C76", "title": "Dumping blocks prints the values of the stream", "statement": "dump_cbor and dump_json of the leaves of a stream with the value key print, leaf after leaf, exactly the values of the stream in order, one per line. dump_cbor of a branch with the index key prints the records of its children. Any other block that is one cbor item is printed as that item. If more bytes follow the item, dump_cbor reports an error and dump_json prints the item alone.", "quantifier": "every stream reachable by any history without lost blocks, every node of its tree, every way of displaying items; every foreign block", "why_tests_cant": "quantifies over all histories, trees and values; the dump functions have no tests", "anchors": ["banyan-utils/src/dump.rs: dump_json, dump_cbor", "banyan/src/store/zstd_dag_cbor_seq.rs: decrypt, items, items_ipld"]}
{"id": "C77", "title": "Queries that err on one side", "statement": "If a query keeps, of every leaf, all entries that must be found and none that may not be found, and never drops a branch below which there is an entry that must be found, then filtered iteration, forwards or backwards, returns entries of the stream in order: all those that must be found, and only those that may be found.", "quantifier": "every such query and pair of predicates, every stream reachable by any history, with lost blocks (what is returned follows this list up to the first error) or without (all of it is returned)", "why_tests_cant": "quantifies over all queries, histories and trees", "anchors": ["banyan/src/query.rs: Query", "banyan/src/forest/index_iter.rs, stream.rs: iter_filtered_chunked, iter_filtered_chunked_reverse"]}
{"id": "C78", "title": "Searching a stream of tagged events", "statement": "Trees with the key type of banyan-utils (time range and tags) meet all that banyan asks of its types. A query for tags and times over such a stream returns entries in order, each accepted by the query, and it returns every entry that the query accepts.", "quantifier": "every stream of tagged events reachable by any history, with any set of up to 2^32 tags, every query, forwards and backwards, every value and link type", "why_tests_cant": "quantifies over all histories, tag sets and queries; whether an entry is found depends on which other entries share its leaf", "anchors": ["banyan-utils/src/tags.rs: TT, Key, KeySeq, DnfQuery", "banyan-utils/src/tag_index.rs: map_to_index", "banyan/src/forest/index_iter.rs, stream.rs: iter_filtered_chunked"]}
{"id": "C79", "title": "A stream behaves like a list", "statement": "Every run of operations on a stream, with whatever outcomes, is step by step a run of a machine on lists of entries: a successful append adds its pairs at the end, a failed one changes nothing; pack keeps the entries, and if it fails leaves a prefix of them; retain purges some entries, none of which the query asks for; repair purges some entries; dropping a transaction restores the entries from when it was begun; loading a link gives the entries of the snapshot it came from; a snapshot keeps its entries for ever; reads, self checks, lost blocks, evictions and other users of the forest change nothing. After every step every read of the stream and of every snapshot gives what the machine says, or an error; without lost blocks it gives no error.", "quantifier": "every sequence of operations on a new stream, every outcome, every store and cache behaviour, every configuration accepted", "why_tests_cant": "quantifies over all finite histories with all outcomes", "anchors": ["banyan/src/tree.rs: Transaction, StreamTransaction", "banyan/src/stream_builder.rs", "banyan/src/forest/write.rs, read.rs"]}
{"id": "C80", "title": "Others at work during an operation do no harm", "statement": "Whatever other users write to the store and read from it, and whatever they read from and put in the branch cache, between any two accesses of the operations of a stream, every run of operations on the stream is a run of the machine on lists of C79, provided that what others leave in the cache for a link is what the stream itself would have read there, or belongs to a block that the stream cannot read. If the store loses nothing, no read fails.", "quantifier": "every sequence of operations on a new stream, every schedule of accesses by others, also in the middle of operations, every configuration accepted", "why_tests_cant": "quantifies over all interleavings with all behaviours of other users", "anchors": ["banyan/src/store/mod.rs: ReadOnlyStore, BlockWriter", "banyan/src/store/branch_cache.rs: BranchCache", "banyan/src/forest/read.rs: load_branch_cached"]}
{"id": "C81", "title": "Streams written at the same time do not notice each other", "statement": "Any number of streams are written and read at the same time in one forest, with a common store and a common branch cache, their accesses to store and cache interleaved in any way. If no block in the store can be read with two different index keys in use, then the run of each stream is a run of its own machine on lists, as if it were alone. Streams may also have the same secrets.", "quantifier": "every number of streams, every sequence of operations on each, every interleaving of their accesses to store and cache", "why_tests_cant": "quantifies over all schedules of concurrent streams", "anchors": ["banyan/src/forest/mod.rs: Forest, Transaction", "banyan/src/store/branch_cache.rs: BranchCache", "banyan/src/forest/read.rs: load_branch_cached"]}
{"id": "C82", "title": "Links survive printing and storing", "statement": "The text a link is printed as is parsed as the same link, whatever else the parser accepts; it has 59 characters, starts with bafyrei, and different links have different texts. A link stored in a block takes 41 bytes and is decoded as the same link, whatever follows. Bytes are accepted as a link only if they start with the bytes of that link: no other content type, hash function, version or spelling of the numbers is taken for a link of the tree. In a block only a byte string with tag 42 that starts with a zero and the bytes of the link is read as a link. The laws that the theorems about trees require of links hold for these links.", "quantifier": "every digest of 32 bytes, every text and byte string offered to the parsers, every behaviour of the decoders of other text encodings", "why_tests_cant": "2^256 links and all byte strings", "anchors": ["banyan-utils/src/tags.rs: Sha256Digest, From<Sha256Digest> for Cid, TryFrom<Cid>, FromStr, Display, Encode, Decode"]}
{"id": "C83", "title": "The stores of banyan-utils keep blocks under their digests", "statement": "SqliteStore: in every sequence of reads and writes a successful read returns bytes whose digest is the link asked for, a successful write returns the digest of the block, and a block that was there at the start or was written successfully is never reported as missing. IpfsStore on a node that follows its documentation: a write does not panic and returns the digest of a block the node then has, or an error; a read of a block the node has returns it or an error, and a read of a block the node does not have returns an error.", "quantifier": "every sequence of reads and writes, every pattern of failures of the database or node, every digest function", "why_tests_cant": "quantifies over all histories and failures of external services", "anchors": ["banyan-utils/src/sqlite.rs: SqliteStore", "banyan-utils/src/ipfs.rs: IpfsStore, block_get, block_put"]}
{"id": "C84", "title": "The configuration can be changed when a stream is loaded again", "statement": "A stream may be loaded from any of its links with any valid configuration, any number of times, with any operations in between. Every such run is a run of the machine on lists of C79, which has no configuration: appending appends, packing, retaining and repairing do to the entries what they do with one configuration, and every read gives the entries. Loading from the current link keeps the entries and the packed form. No internal assertion fails where none fails with one configuration, and pack produces the packed form. check_invariants reports nothing.", "quantifier": "every sequence of operations and reloads, every sequence of valid configurations, every outcome of store accesses", "why_tests_cant": "quantifies over all histories and all sequences of configurations", "anchors": ["banyan/src/tree.rs: load_stream_builder", "banyan/src/forest/mod.rs: Config, branch_sealed", "banyan/src/forest/write.rs: extend0, retain0, repair0", "banyan/src/forest/read.rs: check_invariants0"]}
{"id": "C85", "title": "recv-stream prints what send-stream sent", "statement": "send-stream appends one event per round, packs the tree when it gets too deep, and publishes the link of its tree. recv-stream loads the trees behind the links it gets and streams their events. With the same keys: whatever the store does, and in whatever order and how often messages arrive or get lost, the receiver delivers events 0, 1, 2, ... in order, each once, nothing else. While the store keeps its blocks it delivers every event up to the newest message it took. Every round publishes a link, also the first one; the link of round j stays a tree of exactly the first j+1 events. The depth of the tree stays below 100 or logarithmic in the number of events, and a round fails only when the store refuses a block.", "quantifier": "every interleaving of rounds, deliveries, stream steps, evictions and losses, every sequence of events, every store", "why_tests_cant": "quantifies over all interleavings of two programs and all delivery orders", "anchors": ["banyan-utils/src/bin/cli.rs: SendStream, RecvStream", "banyan/src/stream_builder.rs: level, link", "banyan/src/forest/stream.rs: stream_trees"]}
{"id": "C86", "title": "Passphrases given to both ends give both ends the same keys", "statement": "When send-stream and recv-stream are started with the same passphrases, the receiver delivers what C85 says.", "quantifier": "every pair of passphrases, every run as in C85", "why_tests_cant": "quantifies over all passphrases and runs", "anchors": ["banyan-utils/src/bin/cli.rs: main, RecvStream, SendStream"]}
{"id": "C87", "title": "Different passphrases give different keys", "statement": "create_chacha_key gives a key of 32 bytes for every text, and different keys for different texts.", "quantifier": "every pair of texts", "why_tests_cant": "quantifies over all pairs of texts", "anchors": ["banyan-utils/src/lib.rs: create_chacha_key"]}
{"id": "C88", "title": "The text of an expression means what the expression means", "statement": "Printing a boolean expression over tags gives a text that, read with the usual rules (quoted tags with doubled quotation marks, '&' binds tighter than '|', brackets), matches the same sets of tags as the expression. So two expressions with the same text match the same tags, also when tags contain quotation marks, operators or brackets. All functions of the API that make expressions give expressions for which this holds.", "quantifier": "every expression, every tag text, every set of tags", "why_tests_cant": "quantifies over all nestings and all texts of tags", "anchors": ["banyan-utils/src/tag_index.rs: Display for Expression, child_to_string"]}
{"id": "C89", "title": "A published link reaches the subscribers of its topic as the same link", "statement": "The node understands the requests that publish and subscribe send, whatever bytes topic and data contain, and both name the same topic. When links are published under any topics, a subscriber gets exactly the links published under its topic, in order. Messages that are no links and errors of the connection are skipped; the subscriber goes on whatever is published.", "quantifier": "every topic, every data, every sequence of publications, every way the connection cuts the response into chunks", "why_tests_cant": "quantifies over all byte strings and all chunk boundaries of the connection", "anchors": ["banyan-utils/src/ipfs.rs: pubsub_pub, pubsub_sub, Base64Blob, IpfsPubsubEventIo", "banyan-utils/src/bin/cli.rs: RecvStream, SendStream"]}
{"id": "C90", "title": "Reading a block does not depend on what the thread read before", "statement": "Each thread decompresses blocks into a buffer it keeps. Whatever a thread read before, also when that failed or a decoder of values panicked: a block is read as exactly its decompressed bytes, nothing is left of earlier blocks, blocks up to 16 MiB can be read whatever size the compressed data announces, and larger ones are an error. A decoder of values that itself reads another sequence panics, and the thread can be used afterwards.", "quantifier": "every sequence of earlier uses of the thread, every data, every transform", "why_tests_cant": "quantifies over all histories of a thread and all contents left in the buffer", "anchors": ["banyan/src/store/thread_local_zstd.rs: decompress_and_transform, DecompressionState"]}
{"id": "C91", "title": "The printed dump of a tree is its graph", "statement": "dump prints one line for each node of the tree, in depth first order (the order of dump_graph), indented by its depth, with the count, sizes, flag, link and number of children of the node. A purged node is printed without descending. If a block cannot be read the output stops there and an error is returned, and what was printed before is right. It succeeds while the store keeps its blocks.", "quantifier": "every history of the stream, every snapshot, every failure of the store", "why_tests_cant": "quantifies over all trees and all points of failure", "anchors": ["banyan/src/tree.rs: Forest::dump", "banyan/src/forest/read.rs: dump0", "banyan/src/index.rs: Display for NodeInfo"]}
{"id": "C92", "title": "The trees made with the command line program", "statement": "After any number of runs of the commands build (with and without base, balanced and unbalanced), pack, forget and repair with one store, each tree that was printed reads as what its command says: the base tree plus the batches in order, the same entries packed, the entries of the tree with at most those below the offset forgotten, or with unreadable ones purged. Earlier trees are unchanged. No read of any tree gives anything else, and while the store keeps its blocks all reads succeed. Without repair no command ends in a failed assertion, and each succeeds unless the store refuses a block or a number overflows.", "quantifier": "every sequence of commands and every outcome of each, with other users adding blocks and blocks disappearing between them, every choice of values", "why_tests_cant": "sequences of commands and failures are unbounded", "anchors": ["banyan-utils/src/bin/cli.rs: main, build_tree", "banyan/src/tree.rs: assert_invariants, load_stream_builder, extend, extend_unpacked, pack, retain, repair"]}
{"id": "C93", "title": "What the reading commands of the command line program print", "statement": "For every tree made with the program, given by its link: dump-values prints the entries that are not purged, with their offsets and in order, all of them if it succeeds and the first ones if it reports an error. stream prints every thousandth of them, filter every thousandth of the entries its query finds, after one line for each node of the tree in depth first order, with the indentation of its depth. When blocks are missing an error is reported. graph prints one statement per node, numbered in depth first order, and one edge into every node but the root, and does not panic. None of them writes. While the store keeps its blocks all succeed.", "quantifier": "every session of commands, every tree made in it, every loss of blocks, every query that keeps what it must", "why_tests_cant": "all trees, sessions and losses", "anchors": ["banyan-utils/src/bin/cli.rs: main (DumpValues, Stream, Filter, Graph)", "banyan-utils/src/dump.rs: graph, ForestWithTree", "banyan/src/tree.rs: load_tree, iter_from, stream_filtered, dump_graph"]}
{"id": "C94", "title": "Keys, key sequences and tag indexes survive JSON", "statement": "Writing a TagIndex, Key, TimeData or KeySeq with serde_json and reading the text gives back the same value, whatever bytes the tags contain. Reading a TagIndex from any text gives an error or an index in which no lookup panics. A text that lists tags and, for each element, positions in that list, is accepted exactly if all positions are valid, and element i of the index then is the set of the tags at the listed positions.", "quantifier": "every tag index built, decoded or read, every key and key sequence, every text", "why_tests_cant": "all strings, numbers and texts", "anchors": ["banyan-utils/src/tag_index.rs: Serialize for TagIndex, Deserialize for TagIndex, Decode for TagIndex", "banyan-utils/src/tags.rs: Key, TimeData, KeySeq (derived Serialize and Deserialize)"]}
{"id": "C95", "title": "filter prints the built entries that carry a tag", "statement": "The command build gives its entry number i the tag fizzbuzz if 3 and 5 divide i, fizz if only 3 does, buzz if only 5 does, and a long fourth tag otherwise. The command filter with some of these tags, on a tree made by build, pack and forget, prints entries of that tree which carry one of the tags and are not purged: the first, the thousand and first and so on of all of them, in order, with their offsets. On a newly built tree of n entries these are the entries below n with the tag. It reports an error or stops early only if a block is missing or a read fails, and it writes nothing.", "quantifier": "every session of build, pack and forget commands with any arguments, with blocks of others and lost blocks in between, every tree made in it, every list of tags", "why_tests_cant": "all sessions, sizes and tags; the result depends on how entries fall into leaves", "anchors": ["banyan-utils/src/bin/cli.rs: build_tree, Tagger, Command::Filter", "banyan-utils/src/tags.rs: Key::single, Key::filter_tags, DnfQuery"]}
{"id": "C96", "title": "bench counts the entries it has written", "statement": "The command bench with a count of n writes n entries with the tags of build, checks the tree, reads all of it and prints two numbers: how many entries with a number below n have the tag fizz, and how many of those with a number of at most n / 10 have the tag fizzbuzz, that is (n + 2) / 3 - (n + 14) / 15 and, for n > 0, n / 150 + 1. If the store can be read, only a failed write can keep it from printing both numbers; then it prints none, and it does not end in a failed assertion.", "quantifier": "every count that fits a u64, every pair of passphrases, every store with whatever blocks it holds, every way of dividing the entries into leaves", "why_tests_cant": "all counts, stores and compressed sizes; the result depends on how entries fall into leaves and branches", "anchors": ["banyan-utils/src/bin/cli.rs: Command::Bench, bench_build", "banyan/src/forest/read.rs: iter_filtered", "banyan-utils/src/tags.rs: Key::range, DnfQuery"]}
{"id": "C97", "title": "Transactions with a writer of their own can be committed later, or dropped", "statement": "A transaction made with Forest::transaction may send its blocks to a writer of its own. No operation in it changes what the store of the forest holds. When the blocks that the writer accepted have been put into that store, all reads of every tree of the transaction succeed there and give its content, and go on doing so whatever is done with the forest later; after extend that content is the old entries followed by the given ones. Before that, or when only some blocks were stored, reads of those trees give the content or an error, and all trees from before the transaction read as they did. Inside the transaction all reads succeed if its reader also sees the blocks of the writer; if it does not, a second operation can fail although every block was accepted.", "quantifier": "every history of the stream before, every sequence of operations in the transaction with any outcomes, other users adding blocks meanwhile, every content-addressed store and writer, every set of blocks stored, every later history", "why_tests_cant": "needs every interleaving of operations, commit or drop, and partial commits; the tests of the repository only use one store as reader and writer", "anchors": ["banyan/src/forest/mod.rs: Forest::transaction, Transaction, into_writer, writer, writer_mut", "banyan/src/store/mod.rs: BlockWriter, ReadOnlyStore", "banyan/src/tree.rs: Transaction::extend"]}
{"id": "C98", "title": "Trees can be copied, and garbage collected, without their keys", "statement": "Starting from the link of a tree's root and following the links in the clear text headers of the blocks, anybody finds all blocks of the tree. From any content addressed store that has what is found this way, with an empty cache or that of the writer, all reads of the tree succeed and give what they give from the original store; the tree can be loaded by its link from such a store, to be read or to be continued. If keys, summaries and values contain no links, nothing else is found: every link that is found is that of a node of the tree, so that blocks of forgotten nodes are not among them.", "quantifier": "every history of the stream that loses no blocks, every tree known to it, every store that has what is found, whatever else it has or lacks, every cache content that is empty or that of the writer", "why_tests_cant": "needs every tree and every set of kept blocks; the test of the repository checks only that links of random values appear somewhere in the blocks", "anchors": ["banyan/src/store/zstd_dag_cbor_seq.rs: scrape_links, ZstdDagCborSeq::fill, from_iter_ipld, encrypt", "banyan/src/forest/read.rs: load_branch_cached, load_leaf, create_index_from_link", "banyan/tests/link_scraping.rs: links_get_properly_scraped"]}
{"id": "C99", "title": "retain and repair rewrite and read each node at most once", "statement": "retain hands at most one block to the store for each branch of the tree, and no leaf, and asks the store for at most one block for each branch, so it reads no values. repair hands over at most one block for each branch, and no leaf, and asks for at most one block for each node. Both hold for every outcome, also after blocks were lost; the nodes are those that dump_graph lists, for example before the loss.", "quantifier": "every reachable state, after any loss of blocks and any cache contents, every query, every outcome including errors of the store, whichever way the requests are counted", "why_tests_cant": "the number of rewritten and visited nodes depends on the shape of the tree, on the query, on what was lost and on where the store fails", "anchors": ["banyan/src/forest/write.rs: retain0, repair0, persist_branch", "banyan/src/stream_builder.rs: retain, repair", "banyan/src/forest/read.rs: load_branch, load_leaf, dump_graph0"]}
