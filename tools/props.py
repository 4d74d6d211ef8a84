import json
P=[]
def p(title,statement,quantifier,why,anchors):
    P.append(dict(id="C%02d"%(len(P)+1),title=title,statement=statement,quantifier=quantifier,why_tests_cant=why,anchors=anchors))
W="banyan/src/forest/write.rs"; R="banyan/src/forest/read.rs"; T="banyan/src/tree.rs"; I="banyan/src/index.rs"
Z="banyan/src/store/zstd_dag_cbor_seq.rs"; SB="banyan/src/stream_builder.rs"; FM="banyan/src/forest/mod.rs"; Q="banyan/src/query.rs"; U="banyan/src/util.rs"; ST="banyan/src/forest/stream.rs"; II="banyan/src/forest/index_iter.rs"
TG="banyan-utils/src/tags.rs"; TI="banyan-utils/src/tag_index.rs"
p("extend appends exactly the given pairs",
 "If Transaction::extend on a stream builder returns Ok, then Forest::collect of the new snapshot is collect of the old snapshot followed by exactly the given key/value pairs, in order; nothing already stored is lost, reordered or duplicated.",
 "every builder state reachable by any history of API calls, every config, every iterator of key/value pairs, every store and cache state",
 "leaf splitting, level raising and sealing depend on compressed sizes and on the shape left behind by the whole history; tests sample a few shapes with one config",
 [W+": extend_above, extend0, extend_leaf, extend_branch, fill_node, new_branch",T+": Transaction::extend, collect_from"])
p("extend_unpacked appends exactly the given pairs",
 "If Transaction::extend_unpacked returns Ok, then collect of the new snapshot is collect of the old one followed by exactly the given pairs, in order.",
 "every reachable builder state, every config and input sequence","as C01: shapes and histories are unbounded",
 [W+": extend_unpacked0",T+": Transaction::extend_unpacked"])
p("pack changes the layout, never the content",
 "If Transaction::pack returns Ok on a builder reached by extend, extend_unpacked, pack, retain and rolled back transactions, then collect of the snapshot is the same before and after (including which offsets are purged).",
 "every such history, every config","roots and remainder are selected by a level cursor threaded through the whole tree; only an invariant over all histories settles that they always tile the tree",
 [T+": pack, tree_from_roots",W+": simplify_roots, find_valid_branch",R+": roots0, collect0"])
p("pack produces a packed tree",
 "After pack returns Ok, Forest::is_packed of the snapshot is Ok(true).",
 "every history of extend, extend_unpacked, pack, retain, rollback; every config","packedness is a recursive property of arbitrarily deep trees",
 [T+": pack, is_packed",R+": is_packed0",W+": simplify_roots"])
p("count and random access agree with the content",
 "Tree::count is the number of entries of collect; Forest::get(offset) is Ok(None) for offset >= count and otherwise returns exactly the entry collect has at that offset (Ok(None) for a purged one); collect_from(offset) is collect with the first `offset` entries dropped.",
 "every reachable tree, every offset","offset arithmetic over arbitrary tree shapes, including purged subtrees",
 [R+": get0, collect0",T+": get, collect, collect_from, count"])
p("filtered iteration returns exactly the matching entries, in order",
 "For a query that honours the Query contract, iter_filtered / iter_filtered_chunked / stream_filtered yield exactly the (offset, key, value) triples of the non-purged entries that match, each once, in ascending offset order.",
 "every reachable tree, every query obeying the contract","pruning decisions at every level and the explicit traversal stack make this a statement about all trees and all queries",
 [R+": TreeIter, ChunkVisitor, iter_filtered0, stream_filtered0",T+": iter_filtered, iter_filtered_chunked, iter_from"])
p("reverse iteration is the mirror image of forward iteration",
 "iter_filtered_chunked_reverse yields chunks in descending offset order; flattening the chunks back to front gives exactly the forward result reversed.",
 "every reachable tree, every query obeying the contract","as C06, for the backward cursor",
 [R+": TreeIter::new_rev, next_fallible",T+": iter_filtered_chunked_reverse, iter_filtered_reverse"])
p("chunk ranges tile the tree for every query",
 "For any query whatsoever, the ranges of the chunks of iter_filtered_chunked are adjacent and cover 0..count without gap or overlap (forward ascending, reverse descending), and every triple in a chunk has its offset inside the chunk's range.",
 "every reachable tree, every query (also unsound ones)","quantifies over arbitrary queries and tree shapes",
 [R+": TreeIter::next_fallible, skip",FM+": FilteredChunk"])
p("traversal ends after the first error",
 "Once iter_filtered_chunked (either direction) has yielded an error, the next call yields None; the chunks before the error are a prefix of the chunks an undamaged store would give.",
 "every tree, every query, every set of missing blocks","needs all positions of the failure in all traversals",
 [R+": impl Iterator for TreeIter"])
p("writing histories never trip an internal assertion",
 "extend on a packed builder, extend_unpacked, pack and retain never panic on an internal assertion, for a config with max_leaf_count >= 1, max_key_branches >= 1 and max_summary_branches >= 2.",
 "every history of those calls, every such config, every input","assertions on levels and sealing depend on the exact shape after arbitrary histories",
 [W+": assert! in extend_leaf, extend_branch, new_branch, extend_above, simplify_roots, find_valid_branch",FM+": Config"])
p("extend is safe on any builder",
 "extend (or push) may be called on a builder after any mix of extend and extend_unpacked calls without panicking.",
 "every history of extend and extend_unpacked","the unit tests never mix the two calls",
 [W+": extend0, extend_branch, new_branch",T+": extend, push"])
p("self check finds nothing to complain about",
 "Forest::check_invariants returns Ok of an empty message list for every builder reached by extend, extend_unpacked, pack, retain and rollback.",
 "every such history, every config","quantifies over all histories; the tests only run the self check on samples",
 [R+": check_invariants0",T+": check_invariants, assert_invariants"])
p("keystream bytes are never used twice by a builder",
 "The cipher byte ranges recorded in the blocks handed to BlockWriter::put during the life of one stream builder are pairwise disjoint, and all lie below the builder's current cipher offset; this includes blocks written by operations that failed or were rolled back.",
 "every history of builder operations with any outcomes (success, error, rollback)","a single overlap is a two-time pad; tests check a handful of trees, never failure points",
 [SB+": CipherOffset::reserve",Z+": into_encrypted",W+": extend_leaf, persist_branch"])
p("reloading a builder continues after every byte of the tree",
 "load_stream_builder(link of the current root) yields a builder whose cipher offset is the end of the root block's byte range and is not below the end of any block reachable from that root; if every operation so far succeeded and the root is a branch written last, it equals the live builder's offset.",
 "every history of operations","needs an argument about the write order of all blocks of arbitrary trees",
 [T+": load_stream_builder",R+": create_index_from_link",SB+": StreamBuilderState"])
p("restarting from a persisted root never reuses keystream",
 "After a crash or rollback, a builder loaded from the last persisted root link never encrypts with keystream bytes that some block handed to the store before the crash already used.",
 "every crash point in every history","crash points are not enumerated by tests",
 [T+": load_stream_builder",SB+": transaction (\"consumed offsets are not rolled back\")"])
p("the root link of a builder can be reloaded with the same content",
 "For a builder whose root is a branch, load_tree and load_stream_builder of link() succeed and reading the result gives the same content as the live builder; for load_stream_builder the recomputed index agrees with the live one on level, count, sealed, summaries and value_bytes.",
 "every reachable builder whose root is a branch","all shapes and all histories",
 [T+": load_tree, load_stream_builder",R+": create_index_from_link"])
p("every non-empty builder has a loadable root link",
 "After any successful history the root link of a non-empty, unpurged builder can be loaded again with load_tree / load_stream_builder.",
 "every history","the failing shape arises only for one particular fill state",
 [T+": tree_from_roots, pack, load_tree",R+": create_index_from_link, roots0"])
p("snapshots are immutable",
 "Whatever happens after a snapshot was taken (extend, extend_unpacked, pack, retain, repair, rollback, failures, other readers, cache evictions), every read of the snapshot gives the same result as before.",
 "every snapshot of every history, every continuation and every cache behaviour","quantifies over all continuations",
 [SB+": snapshot",T+": Tree",W+": put_block"])
p("failed writes leave the builder's content unchanged",
 "If extend, push, extend_unpacked, retain or repair returns Err, the root of the builder is unchanged.",
 "every builder state, every failure point (missing block, full store, oversized item)","failure points are unbounded; tests use an infallible in-memory store",
 [T+": extend, extend_unpacked, retain, repair"])
p("a failed pack leaves the builder's content unchanged",
 "If pack returns Err, the root of the builder is unchanged.",
 "every builder state, every failure point","tests never fail inside pack",
 [T+": pack, tree_from_roots"])
p("dropping a stream transaction restores the builder",
 "Dropping a StreamTransaction without commit restores exactly the root the builder had when the transaction was opened, whatever was done through it; the cipher offset never goes back. commit keeps the new root.",
 "every history inside a transaction","all operation sequences inside a transaction",
 [SB+": StreamTransaction, Drop, commit"])
p("retain keeps everything that matches and shifts nothing",
 "After retain(query) returns Ok, the count is unchanged and every offset either holds the same entry as before or is purged; offsets whose entry matches the query (under the Query contract) are never purged by the call.",
 "every reachable tree, every query obeying the contract","pruning is driven by summaries at every level of arbitrary trees",
 [W+": retain0",T+": retain"])
p("retain never purges the unsealed or unpacked part",
 "After retain on a reachable builder, pack still succeeds unless the store fails: no entry outside the sealed packed roots is purged.",
 "every reachable tree, every query","the level cursor threaded through retain0 has to agree with the one in roots0 on all trees",
 [W+": retain0",R+": roots0",T+": pack"])
p("repair only forgets what cannot be loaded",
 "repair keeps count and every entry that is still readable, purges only subtrees whose block cannot be loaded, and the repaired tree can be read completely without error; if every block is loadable the root is unchanged and the report is empty.",
 "every tree, every set of lost blocks","all subsets of lost blocks",
 [W+": repair0",T+": repair"])
p("pack is safe after repair",
 "pack after repair either fails or preserves the content.",
 "every tree, every set of lost blocks","needs an unusual combination of shape and loss",
 [W+": repair0",R+": roots0",T+": pack"])
p("damaged stores yield errors, never wrong data",
 "With any set of blocks missing from the store and any cache state, get / collect / iteration on a snapshot either return what the undamaged store would return or an error.",
 "every snapshot, every subset of lost blocks, every coherent cache content","all damage patterns",
 [R+": get_block, load_branch_cached_from_link, get0, collect0, TreeIter"])
p("the branch cache is transparent",
 "For any cache capacity and eviction behaviour (including a disabled cache), every read gives the same result as with no cache at all, as long as the store can serve the blocks.",
 "every read, every eviction policy and cache content produced by earlier calls","depends on the full history of cache fills",
 ["banyan/src/store/branch_cache.rs: BranchCache",R+": load_branch_cached_from_link"])
p("MemStore behaves as a bounded content addressed map",
 "get returns exactly the data last put under the digest, put never exceeds max_size (sum of the stored block lengths), an Err from put changes nothing, and put of a block already present is idempotent.",
 "every sequence of put and get, every max_size (for a collision free digest)","all sequences",
 ["banyan/src/store/mem_store.rs: MemStore"])
p("MemCache is transparent over a content addressed store",
 "With writes going through MemWriter, MemCache::get returns exactly what the wrapped store returns for every link the store has, whatever was evicted; only blocks of at most max_size bytes are ever cached; disabled caches behave as the bare store.",
 "every sequence of writes, reads, offers of true blocks and evictions","all sequences and eviction orders",
 ["banyan/src/store/mem_cache.rs: MemCache, MemWriter"])
p("encrypted blocks round-trip",
 "decrypt(encrypt(seq, key, nonce, offset)) returns the same compressed data and links and the byte range offset..offset+len, for every offset without wrap-around; a wrap-around panics on writing and is an error on reading.",
 "every sequence, key, nonce and offset","all byte strings and offsets",
 [Z+": into_encrypted, encrypt, decrypt, IpldNode"])
p("leaf sequences round-trip and their accessors agree",
 "items of a filled sequence are the items of the seed sequence followed by the accepted values; count is their number, get(i) is the i-th of them, select(mask) the masked ones.",
 "every seed, every iterator of values, every limits, every mask","all masks and item sequences",
 [Z+": fill, items, count, get, select, shrink_to_fit"])
p("leaf limits are respected and progress is made",
 "fill never takes a leaf above max_leaf_count items or above max_uncompressed_leaf_size bytes, reports full whenever items are left over, takes at least one item when starting from an empty leaf (max_leaf_count >= 1), and only fails for an item that is larger than max_uncompressed_leaf_size.",
 "every seed, every limits, every values","boundary conditions over unbounded inputs",
 [Z+": fill"])
p("nodes respect the configured fan-out",
 "In every tree built by extend, extend_unpacked and pack, no level 1 branch has more than max_key_branches children, no higher branch more than max(max_summary_branches, 2) children, and no leaf more than max_leaf_count keys; leafs are not empty.",
 "every reachable tree, every config","all histories",
 [W+": extend_branch, new_branch, extend_unpacked0",Z+": fill"])
p("index records survive serialization",
 "Decoding the serialized children of a branch gives the same index records; the byte format of leaf and branch records is a CBOR map with the keys in canonical order, and records with keys in any order are accepted.",
 "every index record whose fields fit their integer types","all records",
 [I+": LeafIndex, BranchIndex, Index (DagCbor)","banyan/tests/build_check.rs: leaf_index_wire_format, branch_index_wire_format"])
p("every reference is visible without the keys",
 "The unencrypted links section of a block written for a leaf contains every IPLD link occurring in the leaf's values; that of a branch contains the link of every non-purged child and every link occurring in its key sequences or summaries.",
 "every block written by any history","all values and trees",
 [Z+": scrape_links, fill, from_iter_ipld"])
p("query combinators compute and/or",
 "AndQuery matches exactly where both parts match, OrQuery exactly where at least one part matches; both satisfy the Query contract whenever their parts do; AllQuery matches everything and EmptyQuery nothing.",
 "every pair of queries obeying the contract, every index, every prior mask","all masks and nestings",
 [Q+": AndQuery, OrQuery, AllQuery, EmptyQuery",U+": or_with, clear"])
p("offset range queries are exact",
 "OffsetRangeQuery(range) matches exactly the offsets contained in the range, for every kind of bounds, and its branch test never rejects a subtree containing such an offset.",
 "every range (included, excluded, unbounded bounds), every index and offset","all bound combinations",
 [Q+": OffsetRangeQuery",U+": lt, intersects"])
p("stream_trees delivers every matching entry exactly once",
 "Given a sequence of growing trees of one stream, stream_trees_chunked delivers each matching entry of the range exactly once, in ascending order; after a failing tree the next tree resumes exactly where delivery stopped.",
 "every growing sequence of trees, every range and query, every failure position","all interleavings of growth and failures",
 [ST+": stream_trees_chunked, stream_trees"])
p("stream_trees_chunked ends at its inclusive upper bound",
 "If the trees contain range.end(), the stream terminates after the chunk containing it and delivers nothing above range.end(); the chunk ranges it has delivered reach past range.end().",
 "every sequence of trees, every range","all ranges and shapes",
 [ST+": stream_trees_chunked",U+": take_until_condition"])
p("stream_trees_chunked_reverse delivers every matching entry at most once",
 "Given a sequence of trees of one stream, stream_trees_chunked_reverse delivers each matching entry of the range at most once, in descending chunk order, also when a tree fails and the next one takes over.",
 "every sequence of trees, every failure position","needs a failure between two chunks",
 [ST+": stream_trees_chunked_reverse"])
p("index iteration visits exactly the selected nodes",
 "iter_index yields, in depth first order, exactly the root and every child whose bit survived the query at its parent; iter_index_reverse yields the same nodes with the children of each branch visited right to left.",
 "every reachable tree, every query","all shapes and queries",
 [II+": IndexIter",T+": iter_index, iter_index_reverse"])
p("index iteration ends after an error",
 "Once iter_index has yielded an error it ends.",
 "every tree, every set of missing blocks","tests never damage the store",
 [II+": impl Iterator for IndexIter"])
p("the index key alone suffices for structure, and the value key is not needed",
 "iter_index, retain, repair of branches, roots, is_packed, left_roots and dump_graph give the same results for any two secrets that share the index key.",
 "every tree and every pair of value keys","non-interference over all inputs",
 [FM+": Secrets",R+": load_branch_from_link, roots0, is_packed0",W+": retain0"])
p("every written block can be read back",
 "Any block written by a successful extend, extend_unpacked or pack under a config accepted by Config::validate can be loaded and decoded again from the store.",
 "every history, every key and value size","needs blocks above 16 MiB",
 ["banyan/src/store/thread_local_zstd.rs: MAX_CAPACITY, decompress_and_transform",Z+": from_iter_ipld, fill",FM+": Config::validate"])
p("extend terminates for every valid config",
 "extend, extend_unpacked and pack terminate for every config accepted by Config::validate and every finite input.",
 "every config accepted by validate, every input","non-termination is not observable by tests",
 [FM+": Config::validate",W+": extend_above, extend_branch",Z+": fill"])
p("tag indexes round-trip",
 "TagIndex::from_elements(xs) returns xs[i] from get(i) for every i; encode followed by decode gives back the same index; decode never produces an index whose lookups go out of bounds.",
 "every list of tag sets, every byte string offered to decode","all inputs",
 [TI+": TagIndex::from_elements, get, encode, decode"])
p("tag index matching agrees with set semantics",
 "TagIndex::matching(dnf) returns exactly the positions whose tag set contains some conjunction of the query.",
 "every index and every dnf","all tag sets and queries",
 [TI+": TagIndex::matching, map_to_index_set"])
p("conversion to disjunctive normal form preserves meaning",
 "For every expression without empty And/Or, a tag set satisfies Expression::dnf(e) iff it satisfies e; Dnf::expression converts back with the same meaning; simplify preserves meaning.",
 "every expression and every tag set","all expressions",
 [TI+": Expression::dnf, simplify, Dnf::expression, insert_unless_redundant"])
p("the disjunctive normal form is unique",
 "Two expressions that are satisfied by the same tag sets have equal Dnf.",
 "every pair of expressions","all expressions",
 [TI+": Dnf (doc: unique representation), insert_unless_redundant"])
p("tag queries match what their keys describe",
 "DnfQuery accepts a key iff one of its query keys contains it (time range within, tags a superset), independently of which other tags occur in the same leaf.",
 "every query, every key sequence","depends on tags missing from the leaf's string table",
 [TG+": DnfQuery::map_into, TranslatedDnfQuery, Key::contains"])
p("tag queries never prune matching keys",
 "DnfQuery satisfies the Query contract: whenever it accepts a key it also accepts every summary of a sequence containing that key.",
 "every query, every key sequence","needs events without tags, or multi-key queries",
 [TG+": Key::intersects, Key::contains, KeySeq::summarize"])
p("key sequences with tags round-trip and summarize soundly",
 "The KeySeq of banyan-utils returns the keys it was built from, and its summary's time range and tag set cover every key of the sequence, also through several levels of summaries.",
 "every list of keys","all inputs",
 [TG+": KeySeq, from_iter, get, summarize"])
p("graph dump is the tree",
 "dump_graph numbers the nodes 0..n-1 in depth first order and returns exactly one edge into every node but the root, from its parent.",
 "every reachable tree","all shapes",
 [T+": dump_graph0"])
p("left roots are prefixes of the tree",
 "Every tree returned by left_roots holds a prefix of the content of the tree, in ascending size, the last being the tree itself.",
 "every reachable tree","all shapes",
 [T+": left_roots, left_roots0"])
p("the threaded stream equals the sequential stream under every schedule",
 "For every interleaving of producer threads and consumer, stream_trees_chunked_threaded delivers the same chunks in the same order as a sequential traversal would.",
 "every schedule of producer and consumer steps, every channel occupancy","schedules are not enumerated by tests",
 [ST+": stream_trees_chunked_threaded",U+": ToStreamExt::into_stream"])
p("packed trees have a shape determined by their content",
 "Two packed builders with the same config and the same entries, built by different splits of the entries over several extend calls, have the same structure (levels, sealed flags, keys per leaf), when leaf boundaries are determined by max_leaf_count.",
 "every way to split an input into extend calls","README claim over all histories",
 ["README.md: Tree structure",W+": extend_above, extend0"])
open("/verif/properties.jsonl","w").write("\n".join(json.dumps(x) for x in P)+"\n")
print(len(P))
