{"claims": [
{"property": "C01", "status": "proved", "theorems": ["C01_extend_appends", "C01_extend_entries", "C01_push_appends", "C01_content_readable"], "note": ""},
{"property": "C02", "status": "proved", "theorems": ["C02_extend_unpacked_appends", "C02_extend_unpacked_entries"], "note": ""},
{"property": "C03", "status": "proved", "theorems": ["C03_pack_keeps_content", "C03_pack_keeps_entries"], "note": ""},
{"property": "C04", "status": "proved", "theorems": ["C04_pack_packs", "C04_pack_packs_total"], "note": ""},
{"property": "C05", "status": "proved", "theorems": ["C05_views", "C05_agree", "C05_total"], "note": ""},
{"property": "C06", "status": "proved", "theorems": ["C06_filtered", "C06_total", "C06_items", "C06_iter_from"], "note": ""},
{"property": "C07", "status": "proved", "theorems": ["C07_reverse", "C07_total"], "note": ""},
{"property": "C08", "status": "proved", "theorems": ["C08_tile"], "note": ""},
{"property": "C09", "status": "proved", "theorems": ["C09_error_ends"], "note": ""},
{"property": "C10", "status": "proved", "theorems": ["C10_extend", "C10_extend_unpacked", "C10_pack", "C10_retain", "C10_repair", "C10_extend_keeps_packed", "C10_retain_keeps_packed"], "note": "Premise: a config with max_leaf_count >= 1 (config_ok). The overflow of the 64 bit cipher offset remains a possible panic."},
{"property": "C11", "status": "partial", "theorems": ["C11_refuted", "C11_without_unpacked_partial", "C11_after_pack_partial"], "note": "Refuted by a witness (C11_refuted): extend and push panic on an assertion after extend_unpacked. What holds: C10_extend (a packed builder) and the _partial theorems here."},
{"property": "C12", "status": "proved", "theorems": ["C12_check_invariants", "C12_check_invariants_total"], "note": ""},
{"property": "C13", "status": "proved", "theorems": ["C13_step", "C13_disjoint"], "note": ""},
{"property": "C14", "status": "proved", "theorems": ["C14_reload_offset", "C14_current"], "note": ""},
{"property": "C15", "status": "partial", "theorems": ["C15_restart_partial", "C15_refuted", "C15_restarts_partial"], "note": "Refuted by a witness: after a rollback (or a failed write) and a reload, two different blocks share keystream bytes under one key. The _partial theorems give the case in which reuse is excluded: the reload starts from what the last write produced."},
{"property": "C16", "status": "proved", "theorems": ["C16_load_tree", "C16_load_tree_total", "C16_load_builder", "C16_load_builder_total"], "note": ""},
{"property": "C17", "status": "partial", "theorems": ["C17_appended_partial", "C17_refuted", "C17_packed_partial"], "note": "Refuted by a witness: pack of a tree with one full leaf makes the leaf the root, whose link cannot be loaded. C17_appended_partial: after every successful append the link can be loaded. C17_packed_partial: also after pack of a tree with at least two levels of branches."},
{"property": "C18", "status": "proved", "theorems": ["C18_immutable", "C18_total", "C18_structure"], "note": ""},
{"property": "C19", "status": "proved", "theorems": ["C19_extend", "C19_push", "C19_extend_unpacked", "C19_retain", "C19_repair", "C19_content_kept"], "note": ""},
{"property": "C20", "status": "partial", "theorems": ["C20_prefix_partial", "C20_refuted"], "note": "Refuted by a witness: a failed pack leaves a truncated tree. The _partial theorem: what is left is a prefix of the content."},
{"property": "C21", "status": "proved", "theorems": ["C21_drop_restores", "C21_drop_content", "C21_commit_keeps"], "note": ""},
{"property": "C22", "status": "proved", "theorems": ["C22_retain", "C22_retain_any_query"], "note": ""},
{"property": "C23", "status": "proved", "theorems": ["C23_pack_after_retain", "C23_pack_after_retain_content"], "note": ""},
{"property": "C24", "status": "proved", "theorems": ["C24_repair", "C24_repaired_readable", "C24_nothing_to_repair", "C24_readable_kept"], "note": ""},
{"property": "C25", "status": "partial", "theorems": ["C25_count_partial", "C25_refuted"], "note": "Refuted by a witness: after repair of an unsealed branch, pack moves and duplicates entries. The _partial theorem: the number of entries is kept."},
{"property": "C26", "status": "proved", "theorems": ["C26_damage", "C26_iter"], "note": ""},
{"property": "C27", "status": "proved", "theorems": ["C27_cache_transparent", "C27_iter"], "note": ""},
{"property": "C28", "status": "partial", "theorems": ["C28_get", "C28_link", "C28_bounded", "C28_refuses", "C28_error", "C28_again_partial", "C28_refuted", "C28_collision_refuted"], "note": "All parts proved but one, refuted by a witness: a full store refuses a block it already holds. The size bound needs a collision free digest; C28_collision_refuted shows why."},
{"property": "C29", "status": "proved", "theorems": ["C29_transparent", "C29_never_wrong", "C29_small", "C29_failure", "C29_write", "C29_disabled", "C29_is_a_store"], "note": ""},
{"property": "C30", "status": "proved", "theorems": ["C30_roundtrip", "C30_wrong_key", "C30_writes", "C30_wraps_writing", "C30_in_streams", "C30_wraps_reading", "C30_made"], "note": ""},
{"property": "C31", "status": "proved", "theorems": ["C31_accessors", "C31_too_large", "C31_fill_takes", "C31_fill_starts"], "note": ""},
{"property": "C32", "status": "proved", "theorems": ["C32_limits", "C32_fails_only_for_large"], "note": ""},
{"property": "C33", "status": "proved", "theorems": ["C33_fan_out", "C33_sealed"], "note": ""},
{"property": "C34", "status": "proved", "theorems": ["C34_roundtrip", "C34_any_order", "C34_canonical"], "note": ""},
{"property": "C35", "status": "proved", "theorems": ["C35_visible", "C35_branch"], "note": ""},
{"property": "C36", "status": "proved", "theorems": ["C36_all", "C36_empty", "C36_and", "C36_or"], "note": ""},
{"property": "C37", "status": "proved", "theorems": ["C37_offset_range", "C37_exact"], "note": ""},
{"property": "C38", "status": "proved", "theorems": ["C38_once", "C38_complete", "C38_items"], "note": ""},
{"property": "C39", "status": "proved", "theorems": ["C39_end", "C39_ended", "C39_reached"], "note": ""},
{"property": "C40", "status": "partial", "theorems": ["C40_descending_partial", "C40_no_failure_partial", "C40_refuted"], "note": "Refuted by a witness: after a failure the first entry of a chunk is delivered twice. The _partial theorems: everything else, with and without failures."},
{"property": "C41", "status": "proved", "theorems": ["C41_index", "C41_total", "C41_same_nodes", "C41_determined"], "note": ""},
{"property": "C42", "status": "partial", "theorems": ["C42_refuted", "C42_resumes_partial"], "note": "Refuted by a witness: an index iterator that failed fails for ever and never ends. C41 describes what it yields when the store recovers."},
{"property": "C43", "status": "proved", "theorems": ["C43_is_packed", "C43_left_roots", "C43_dump_graph", "C43_roots", "C43_iter_index", "C43_retain", "C43_repair", "C43_load"], "note": ""},
{"property": "C44", "status": "partial", "theorems": ["C44_leaf_partial", "C44_branch_partial", "C44_refuted"], "note": "Refuted by a witness for branches: a key of 16 MiB gives a branch block that is written and cannot be read back. The _partial theorems: every leaf block, and exactly which branch blocks, can be read."},
{"property": "C45", "status": "partial", "theorems": ["C45_terminates_partial", "C45_refuted"], "note": "Refuted by a witness: Config::validate accepts max_leaf_count = 0, and then extend makes no progress. The _partial theorem: with max_leaf_count >= 1 everything terminates."},
{"property": "C46", "status": "proved", "theorems": ["C46_get", "C46_codec", "C46_in_bounds"], "note": ""},
{"property": "C47", "status": "proved", "theorems": ["C47_matching"], "note": ""},
{"property": "C48", "status": "proved", "theorems": ["C48_dnf", "C48_empty", "C48_operators", "C48_back", "C48_simplify"], "note": ""},
{"property": "C49", "status": "partial", "theorems": ["C49_refuted", "C49_partial", "C49_read_once_partial"], "note": "Refuted by a witness. The _partial theorems: unique for irredundant forms and for expressions in which no tag occurs twice."},
{"property": "C50", "status": "partial", "theorems": ["C50_key", "C50_key_intersects", "C50_accepted_partial", "C50_exact_partial", "C50_leaf", "C50_refuted"], "note": "Refuted by a witness: a tag of one disjunct that does not occur in the leaf makes all disjuncts fail. The _partial theorems: what is accepted is right, and the answer is exact when all tags of the query occur in the leaf. C50_leaf gives the answer of the code for every query and leaf."},
{"property": "C51", "status": "partial", "theorems": ["C51_partial", "C51_refuted", "C51_inverted_refuted"], "note": "Refuted by two witnesses: untagged keys, and keys with an inverted time range, are pruned. The _partial theorem covers all other keys."},
{"property": "C52", "status": "proved", "theorems": ["C52_get", "C52_summarize", "C52_covers"], "note": ""},
{"property": "C53", "status": "proved", "theorems": ["C53_dump_graph", "C53_dump_graph_total"], "note": ""},
{"property": "C54", "status": "proved", "theorems": ["C54_left_roots"], "note": ""},
{"property": "C55", "status": "proved", "theorems": ["C55_sequential", "C55_once", "C55_complete", "C55_no_deadlock"], "note": ""},
{"property": "C56", "status": "proved", "theorems": ["C56_shape", "C56_height"], "note": "Premise leaves_by_count: leaves fill up by number of entries, not by size, which is the condition in the statement. The streams may use different secrets, stores and values."},
{"property": "C57", "status": "partial", "theorems": ["C57_refuted", "C57_items_partial"], "note": "Refuted by a witness: the entries ascend inside the descending chunks. The _partial theorem: the chunks descend, and every matching entry is delivered once."},
{"property": "C58", "status": "partial", "theorems": ["C58_refuted", "C58_builder_partial", "C58_tree_partial"], "note": "Refuted by a witness: a tree loaded from a link always claims to be packed. The _partial theorem: what a packed snapshot says is kept by loading."},
{"property": "C59", "status": "proved", "theorems": ["C59_keys", "C59_hidden", "C59_hidden_all"], "note": ""},
{"property": "C60", "status": "proved", "theorems": ["C60_extend", "C60_push", "C60_extend_unpacked", "C60_pack", "C60_retain", "C60_repair", "C60_unbounded"], "note": "Premises: reads of blocks the store holds succeed (ReliableReads), branch blocks decode (small_branches, see C20), key and summary sequences have no malformed links (types_good). Overflow panics are excluded, not disproved."},
{"property": "C61", "status": "proved", "theorems": ["C61_retain_forgets", "C61_nothing_left"], "note": "Leaves after the first unsealed leaf are not looked at by retain; the statement stops there. Purged leaves and branches have no link."},
{"property": "C62", "status": "partial", "theorems": ["C62_root_partial", "C62_refuted"], "note": "Refuted by a witness: once retain visited a leaf it purges no branch, only leaves. The _partial theorem: a sealed root that the query excludes is purged as a whole, without reading a block."},
{"property": "C63", "status": "proved", "theorems": ["C63_get", "C63_filtered", "C63_collect_from", "C63_is_packed", "C63_extend", "C63_extend_unpacked", "C63_retain"], "note": "Premise ReliableReads: the store answers reads of blocks it holds. A purged node needs no block. For writes: small_branches as in C60; C63_extend is about histories without repair, as repaired trees can make extend panic (C11, C25)."},
{"property": "C64", "status": "proved", "theorems": ["C64_extend", "C64_extend_unpacked", "C64_pack", "C64_pack_packed"], "note": "A node is identified by its index record, which includes the link. Premise small_branches: no branch block above the decompression limit was written (C44)."},
{"property": "C65", "status": "partial", "theorems": ["C65_sealed_partial", "C65_refuted"], "note": "Refuted: a packed tree with an unsealed root is written again, with another link. Proved for sealed roots, which includes every loaded tree."},
{"property": "C66", "status": "proved", "theorems": ["C66_extend", "C66_extend_any", "C66_push", "C66_extend_unpacked", "C66_pack"], "note": "Premise: max_key_branches is at least 2, as in every configuration the crate offers. Counts blocks handed to put, accepted or not."},
{"property": "C67", "status": "proved", "theorems": ["C67_get", "C67_is_packed", "C67_collect", "C67_packed"], "note": "For any count of the requests that grows by at most one with each. The logarithmic bound is for the builder's tree in histories without repair."},
{"property": "C68", "status": "proved", "theorems": ["C68_height", "C68_log", "C68_unpacked", "C68_push"], "note": "For the builder's tree: a snapshot loaded by link calls itself packed always (C58). The bound for push needs max_key_branches of at least 2. After repair a purged root calls itself packed whatever its shape was."},
{"property": "C69", "status": "proved", "theorems": ["C69_kept", "C69_any_cache"], "note": "The premise that gives the bound needs the blocks of the selected branches to be decodable, not to be in the store. A cache that keeps what it is given is a premise of the first theorem only; the example shows that both bounds are reached."},
{"property": "C70", "status": "proved", "theorems": ["C70_extend", "C70_push", "C70_extend_unpacked", "C70_retain", "C70_repair"], "note": "No invariant of the forest or the builder is needed. The premise small_branches says that the branch blocks can be read back (see C44)."},
{"property": "C71", "status": "partial", "theorems": ["C71_pack_partial", "C71_refuted"], "note": "Refuted in general: if entries follow the roots and the branch written above the roots is not sealed, the append that ends pack replaces it, and its block is garbage at once (C71_refuted). Proved when no entries follow the roots that roots() lists (C71_pack_partial)."},
{"property": "C72", "status": "partial", "theorems": ["C72_no_message_partial", "C72_message_partial", "C72_refuted"], "note": "Everything but the count is proved, in both directions (C72_no_message_partial, C72_message_partial). The part about the count is false of the code: the check never compares the count of a branch with its children, and a crafted tree with wrong counts passes (C72_refuted)."},
{"property": "C73", "status": "partial", "theorems": ["C73_values", "C73_bytes_partial", "C73_retain", "C73_repair", "C73_refuted"], "note": "Proved for value_bytes in all histories (C73_values, C73_retain, C73_repair) and for both sizes in histories without retain and repair (C73_bytes_partial, an equivalence). For key_bytes after retain it is false of the code: the rewritten branch keeps the size of its old block, and load_tree of its own link reports another number (C73_refuted)."},
{"property": "C74", "status": "proved", "theorems": ["C74_defaults", "C74_vecseq", "C74_unitseq", "C74_keyseq", "C74_plain"], "note": "The struct framing of derived codecs and estimated_size are not modelled."},
{"property": "C75", "status": "partial", "theorems": ["C75_codec", "C75_read_partial", "C75_refuted"], "note": "The round trip is proved (C75_codec), and a decoded sequence is readable exactly if no column is too short (C75_read_partial). That every accepted sequence is readable is false of the code: there are bytes the decoder accepts for which to_vec panics (C75_refuted)."},
{"property": "C76", "status": "proved", "theorems": ["C76_cbor", "C76_json", "C76_branch", "C76_other", "C76_rest"], "note": "How an item is displayed (cbor diagnostic notation, dag-json) is a parameter; what is written before an error is not modelled."},
{"property": "C77", "status": "proved", "theorems": ["C77_near", "C77_total"], "note": ""},
{"property": "C78", "status": "partial", "theorems": ["C78_laws", "C78_found", "C78_exact_partial", "C78_refuted"], "note": "Everything found is accepted (C78_found), and every accepted entry is found that has a tag, carries all the tags the query mentions and has a time range that is not upside down (C78_exact_partial). That every accepted entry is found is false of the code (C78_refuted): the query gives up on a leaf that does not know one of its tags."},
{"property": "C79", "status": "proved", "theorems": ["C79_refines", "C79_refines_total", "C79_appended"], "note": "After repair was called the machine promises of pack only that it keeps the number of entries if it succeeds (see C25)."},
{"property": "C80", "status": "proved", "theorems": ["C80_undisturbed", "C80_undisturbed_total"], "note": ""},
{"property": "C81", "status": "proved", "theorems": ["C81_concurrent", "C81_concurrent_total"], "note": "Interleaving is at the level of single accesses to store and cache, which are behind locks. The premise on keys is needed because the cache is keyed by the link alone."},
{"property": "C82", "status": "proved", "theorems": ["C82_printed", "C82_text", "C82_distinct", "C82_stored", "C82_only", "C82_stored_only", "C82_cid", "C82_laws", "C82_letters"], "note": ""},
{"property": "C83", "status": "partial", "theorems": ["C83_sqlite", "C83_ipfs_put", "C83_ipfs_get_partial", "C83_ipfs_get_refuted"], "note": "Proved for SqliteStore and for writes to IPFS. Refuted for reads from IPFS: the HTTP status is ignored, so for a missing block the text of the error message is returned as the block (C83_ipfs_get_refuted). C83_ipfs_get_partial covers reads of blocks the node has."},
{"property": "C84", "status": "partial", "theorems": ["C84_refines", "C84_refines_total", "C84_reopen", "C84_no_assert", "C84_pack", "C84_check_partial", "C84_check_refuted"], "note": "Proved for entries, packed form and assertions. Refuted for check_invariants: it compares the flags of branches written with an earlier configuration with the current one and complains (C84_check_refuted). C84_check_partial: it complains about nothing else."},
{"property": "C85", "status": "proved", "theorems": ["C85_delivered", "C85_published", "C85_sender", "C85_level", "C85_continues"], "note": ""},
{"property": "C86", "status": "partial", "theorems": ["C86_passphrases_refuted", "C86_no_passphrases_partial"], "note": "Refuted by the code: recv-stream always uses the default keys (C86_passphrases_refuted). C86_no_passphrases_partial: with no or empty passphrases C85 holds."},
{"property": "C87", "status": "partial", "theorems": ["C87_key_length", "C87_injective_refuted", "C87_injective_partial"], "note": "Refuted by the code: only the first 32 bytes count and trailing zeros do not (C87_injective_refuted). C87_injective_partial: injective on texts of at most 32 bytes that do not end in a zero byte."},
{"property": "C88", "status": "partial", "theorems": ["C88_text_partial", "C88_same_text_partial", "C88_flat", "C88_refuted"], "note": "Refuted by the code for expressions built by hand: an Or of one Or inside an And loses its brackets (C88_refuted). C88_text_partial and C88_same_text_partial: holds for non-empty expressions without an Or directly inside an Or; C88_flat: the functions of the API make only such expressions."},
{"property": "C89", "status": "partial", "theorems": ["C89_base64", "C89_base64_text", "C89_queries", "C89_messages_partial", "C89_arrive_partial", "C89_chunks_refuted", "C89_event", "C89_reader_refuted"], "note": "Refuted by the code: a chunk of the body that is not exactly one event makes the subscriber panic (C89_reader_refuted for serde_json and every event, C89_chunks_refuted). C89_messages_partial and C89_arrive_partial: holds when each chunk is one event, for every JSON reader that reads the events of the node, which serde_json does (C89_event); C89_queries and C89_base64 hold without conditions."},
{"property": "C90", "status": "proved", "theorems": ["C90_transform", "C90_decompress", "C90_panic"], "note": ""},
{"property": "C91", "status": "proved", "theorems": ["C91_dump", "C91_dump_total"], "note": ""},
{"property": "C92", "status": "partial", "theorems": ["C92_contents", "C92_contents_total", "C92_no_assert_partial", "C92_done_partial", "C92_base_refuted"], "note": "Refuted by the code: build --base of a tree built unbalanced may panic (C92_base_refuted). C92_no_assert_partial and C92_done_partial: holds when the base of a balanced build is packed (trees made by balanced builds and by pack are, C92_contents) and no tree was repaired; the contents hold without conditions (C92_contents, C92_contents_total)."},
{"property": "C93", "status": "partial", "theorems": ["C93_dump_values", "C93_stream_partial", "C93_filter_partial", "C93_graph", "C93_stream_refuted", "C93_filter_dump"], "note": "Refuted by the code: stream and filter end with success when a block is missing (C93_stream_refuted). C93_stream_partial and C93_filter_partial: what is printed is right as far as it goes, and complete while the store keeps its blocks; C93_dump_values and C93_graph hold without conditions. C93_filter_dump: the lines filter prints before the entries."},
{"property": "C94", "status": "partial", "theorems": ["C94_index", "C94_key", "C94_keyseq", "C94_in_bounds", "C94_meaning_partial", "C94_refuted"], "note": "Refuted by the code in the last part: a table of tags that is not sorted is accepted and its elements get other tags (C94_refuted). C94_meaning_partial: right for sorted tables, which banyan writes; the round trips and the absence of panics hold without conditions."},
{"property": "C95", "status": "partial", "theorems": ["C95_entry", "C95_filter_partial", "C95_new", "C95_sound", "C95_nothing", "C95_refuted"], "note": "Refuted by the code for several tags (C95_refuted, C95_nothing). C95_filter_partial and C95_new: exact for one tag, in sessions without repair. C95_sound: for any list of tags whatever is printed carries one of them. C95_entry: the key and value of an entry of build."},
{"property": "C96", "status": "proved", "theorems": ["C96_bench", "C96_numbers"], "note": ""},
{"property": "C97", "status": "proved", "theorems": ["C97_commit", "C97_extend", "C97_untouched", "C97_earlier", "C97_blind"], "note": ""},
{"property": "C98", "status": "proved", "theorems": ["C98_replica", "C98_load", "C98_only"], "note": ""},
{"property": "C99", "status": "proved", "theorems": ["C99_retain", "C99_repair", "C99_nodes"], "note": ""}
]}
