{
"C10": {"note": "Premise: a config with max_leaf_count >= 1 (config_ok). The overflow of the 64 bit cipher offset remains a possible panic."},
"C11": {"note": "Refuted by a witness (C11_refuted): extend and push panic on an assertion after extend_unpacked. What holds: C10_extend (a packed builder) and the _partial theorems here."},
"C15": {"note": "Refuted by a witness: after a rollback (or a failed write) and a reload, two different blocks share keystream bytes under one key. The _partial theorems give the case in which reuse is excluded: the reload starts from what the last write produced."},
"C17": {"note": "Refuted by a witness: pack of a tree with one full leaf makes the leaf the root, whose link cannot be loaded. C17_appended_partial: after every successful append the link can be loaded. C17_packed_partial: also after pack of a tree with at least two levels of branches."},
"C20": {"note": "Refuted by a witness: a failed pack leaves a truncated tree. The _partial theorem: what is left is a prefix of the content."},
"C25": {"note": "Refuted by a witness: after repair of an unsealed branch, pack moves and duplicates entries. The _partial theorem: the number of entries is kept."},
"C28": {"note": "All parts proved but one, refuted by a witness: a full store refuses a block it already holds. The size bound needs a collision free digest; C28_collision_refuted shows why."},
"C40": {"note": "Refuted by a witness: after a failure the first entry of a chunk is delivered twice. The _partial theorems: everything else, with and without failures."},
"C42": {"note": "Refuted by a witness: an index iterator that failed fails for ever and never ends. C41 describes what it yields when the store recovers."},
"C44": {"note": "Refuted by a witness for branches: a key of 16 MiB gives a branch block that is written and cannot be read back. The _partial theorems: every leaf block, and exactly which branch blocks, can be read."},
"C45": {"note": "Refuted by a witness: Config::validate accepts max_leaf_count = 0, and then extend makes no progress. The _partial theorem: with max_leaf_count >= 1 everything terminates."},
"C49": {"note": "Refuted by a witness. The _partial theorems: unique for irredundant forms and for expressions in which no tag occurs twice."},
"C50": {"note": "Refuted by a witness: a tag of one disjunct that does not occur in the leaf makes all disjuncts fail. The _partial theorems: what is accepted is right, and the answer is exact when all tags of the query occur in the leaf. C50_leaf gives the answer of the code for every query and leaf."},
"C51": {"note": "Refuted by two witnesses: untagged keys, and keys with an inverted time range, are pruned. The _partial theorem covers all other keys."},
"C56": {"note": "Premise leaves_by_count: leaves fill up by number of entries, not by size, which is the condition in the statement. The streams may use different secrets, stores and values."},
"C57": {"note": "Refuted by a witness: the entries ascend inside the descending chunks. The _partial theorem: the chunks descend, and every matching entry is delivered once."},
"C58": {"note": "Refuted by a witness: a tree loaded from a link always claims to be packed. The _partial theorem: what a packed snapshot says is kept by loading."},
"C60": {"note": "Premises: reads of blocks the store holds succeed (ReliableReads), branch blocks decode (small_branches, see C20), key and summary sequences have no malformed links (types_good). Overflow panics are excluded, not disproved."},
"C61": {"note": "Leaves after the first unsealed leaf are not looked at by retain; the statement stops there. Purged leaves and branches have no link."},
"C62": {"note": "Refuted by a witness: once retain visited a leaf it purges no branch, only leaves. The _partial theorem: a sealed root that the query excludes is purged as a whole, without reading a block."},
"C63": {"note": "Premise ReliableReads: the store answers reads of blocks it holds. A purged node needs no block. For writes: small_branches as in C60; C63_extend is about histories without repair, as repaired trees can make extend panic (C11, C25)."},
"C64": {"note": "A node is identified by its index record, which includes the link. Premise small_branches: no branch block above the decompression limit was written (C44)."},
"C65": {"note": "Refuted: a packed tree with an unsealed root is written again, with another link. Proved for sealed roots, which includes every loaded tree."},
"C66": {"note": "Premise: max_key_branches is at least 2, as in every configuration the crate offers. Counts blocks handed to put, accepted or not."},
"C67": {"note": "For any count of the requests that grows by at most one with each. The logarithmic bound is for the builder's tree in histories without repair."},
"C68": {"note": "For the builder's tree: a snapshot loaded by link calls itself packed always (C58). The bound for push needs max_key_branches of at least 2. After repair a purged root calls itself packed whatever its shape was."},
"C69": {"note": "The premise that gives the bound needs the blocks of the selected branches to be decodable, not to be in the store. A cache that keeps what it is given is a premise of the first theorem only; the example shows that both bounds are reached."},
"C70": {"note": "No invariant of the forest or the builder is needed. The premise small_branches says that the branch blocks can be read back (see C44)."},
"C71": {"note": "Refuted in general: if entries follow the roots and the branch written above the roots is not sealed, the append that ends pack replaces it, and its block is garbage at once (C71_refuted). Proved when no entries follow the roots that roots() lists (C71_pack_partial)."},
"C72": {"note": "Everything but the count is proved, in both directions (C72_no_message_partial, C72_message_partial). The part about the count is false of the code: the check never compares the count of a branch with its children, and a crafted tree with wrong counts passes (C72_refuted)."},
"C73": {"note": "Proved for value_bytes in all histories (C73_values, C73_retain, C73_repair) and for both sizes in histories without retain and repair (C73_bytes_partial, an equivalence). For key_bytes after retain it is false of the code: the rewritten branch keeps the size of its old block, and load_tree of its own link reports another number (C73_refuted)."},
"C74": {"note": "The struct framing of derived codecs and estimated_size are not modelled."},
"C75": {"note": "The round trip is proved (C75_codec), and a decoded sequence is readable exactly if no column is too short (C75_read_partial). That every accepted sequence is readable is false of the code: there are bytes the decoder accepts for which to_vec panics (C75_refuted)."},
"C76": {"note": "How an item is displayed (cbor diagnostic notation, dag-json) is a parameter; what is written before an error is not modelled."},
"C78": {"note": "Everything found is accepted (C78_found), and every accepted entry is found that has a tag, carries all the tags the query mentions and has a time range that is not upside down (C78_exact_partial). That every accepted entry is found is false of the code (C78_refuted): the query gives up on a leaf that does not know one of its tags."},
"C79": {"note": "After repair was called the machine promises of pack only that it keeps the number of entries if it succeeds (see C25)."},
"C81": {"note": "Interleaving is at the level of single accesses to store and cache, which are behind locks. The premise on keys is needed because the cache is keyed by the link alone."},
"C83": {"note": "Proved for SqliteStore and for writes to IPFS. Refuted for reads from IPFS: the HTTP status is ignored, so for a missing block the text of the error message is returned as the block (C83_ipfs_get_refuted). C83_ipfs_get_partial covers reads of blocks the node has."},
"C84": {"note": "Proved for entries, packed form and assertions. Refuted for check_invariants: it compares the flags of branches written with an earlier configuration with the current one and complains (C84_check_refuted). C84_check_partial: it complains about nothing else."},
"C86": {"note": "Refuted by the code: recv-stream always uses the default keys (C86_passphrases_refuted). C86_no_passphrases_partial: with no or empty passphrases C85 holds."},
"C87": {"note": "Refuted by the code: only the first 32 bytes count and trailing zeros do not (C87_injective_refuted). C87_injective_partial: injective on texts of at most 32 bytes that do not end in a zero byte."},
"C88": {"note": "Refuted by the code for expressions built by hand: an Or of one Or inside an And loses its brackets (C88_refuted). C88_text_partial and C88_same_text_partial: holds for non-empty expressions without an Or directly inside an Or; C88_flat: the functions of the API make only such expressions."},
"C89": {"note": "Refuted by the code: a chunk of the body that is not exactly one event makes the subscriber panic (C89_reader_refuted for serde_json and every event, C89_chunks_refuted). C89_messages_partial and C89_arrive_partial: holds when each chunk is one event, for every JSON reader that reads the events of the node, which serde_json does (C89_event); C89_queries and C89_base64 hold without conditions."},
"C92": {"note": "Refuted by the code: build --base of a tree built unbalanced may panic (C92_base_refuted). C92_no_assert_partial and C92_done_partial: holds when the base of a balanced build is packed (trees made by balanced builds and by pack are, C92_contents) and no tree was repaired; the contents hold without conditions (C92_contents, C92_contents_total)."},
"C93": {"note": "Refuted by the code: stream and filter end with success when a block is missing (C93_stream_refuted). C93_stream_partial and C93_filter_partial: what is printed is right as far as it goes, and complete while the store keeps its blocks; C93_dump_values and C93_graph hold without conditions. C93_filter_dump: the lines filter prints before the entries."},
"C94": {"note": "Refuted by the code in the last part: a table of tags that is not sorted is accepted and its elements get other tags (C94_refuted). C94_meaning_partial: right for sorted tables, which banyan writes; the round trips and the absence of panics hold without conditions."},
"C95": {"note": "Refuted by the code for several tags (C95_refuted, C95_nothing). C95_filter_partial and C95_new: exact for one tag, in sessions without repair. C95_sound: for any list of tags whatever is printed carries one of them. C95_entry: the key and value of an entry of build."}
}
