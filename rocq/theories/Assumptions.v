(** Generated by tools/mkmanifest.py: what every theorem rests on. *)
From Verif Require PropsWrite PropsRead PropsQuery PropsMaintain PropsIter PropsIndex PropsShape PropsRefuted PropsSeq PropsLog PropsTerm PropsLarge PropsKeys PropsStore PropsTags PropsKeyTags PropsStream PropsCanon PropsPartial PropsSecret PropsProgress PropsForget PropsLocal PropsReuse PropsCost PropsHeight PropsAsk PropsWaste PropsCheck PropsBytes PropsCompact PropsDump PropsNear PropsTagged PropsRefine PropsShared PropsLinks PropsIo PropsConfig PropsCli PropsDisplay PropsPubsub PropsThreadZstd PropsDumpTree PropsCommands PropsReadCommands PropsJson PropsEvents PropsFilter PropsBench PropsTransaction PropsReplica PropsSweep PropsTail PropsKeep PropsFilterDump.
(** One term that contains all of them, since one pass over the library is enough. *)
Definition all_theorems :=
  (0,
   @Verif.PropsWrite.C01_extend_appends,
   @Verif.PropsWrite.C01_extend_entries,
   @Verif.PropsWrite.C01_push_appends,
   @Verif.PropsWrite.C01_content_readable,
   @Verif.PropsWrite.C02_extend_unpacked_appends,
   @Verif.PropsWrite.C02_extend_unpacked_entries,
   @Verif.PropsWrite.C03_pack_keeps_content,
   @Verif.PropsWrite.C03_pack_keeps_entries,
   @Verif.PropsWrite.C04_pack_packs,
   @Verif.PropsWrite.C04_pack_packs_total,
   @Verif.PropsRead.C05_views,
   @Verif.PropsRead.C05_agree,
   @Verif.PropsRead.C05_total,
   @Verif.PropsIter.C06_filtered,
   @Verif.PropsIter.C06_total,
   @Verif.PropsIter.C06_items,
   @Verif.PropsIter.C06_iter_from,
   @Verif.PropsIter.C07_reverse,
   @Verif.PropsIter.C07_total,
   @Verif.PropsIter.C08_tile,
   @Verif.PropsIter.C09_error_ends,
   @Verif.PropsWrite.C10_extend,
   @Verif.PropsWrite.C10_extend_unpacked,
   @Verif.PropsWrite.C10_pack,
   @Verif.PropsWrite.C10_retain,
   @Verif.PropsWrite.C10_repair,
   @Verif.PropsWrite.C10_extend_keeps_packed,
   @Verif.PropsWrite.C10_retain_keeps_packed,
   @Verif.PropsRefuted.C11_refuted,
   @Verif.PropsPartial.C11_without_unpacked_partial,
   @Verif.PropsPartial.C11_after_pack_partial,
   @Verif.PropsWrite.C12_check_invariants,
   @Verif.PropsWrite.C12_check_invariants_total,
   @Verif.PropsShape.C13_step,
   @Verif.PropsShape.C13_disjoint,
   @Verif.PropsShape.C14_reload_offset,
   @Verif.PropsShape.C14_current,
   @Verif.PropsShape.C15_restart_partial,
   @Verif.PropsRefuted.C15_refuted,
   @Verif.PropsPartial.C15_restarts_partial,
   @Verif.PropsRead.C16_load_tree,
   @Verif.PropsRead.C16_load_tree_total,
   @Verif.PropsRead.C16_load_builder,
   @Verif.PropsRead.C16_load_builder_total,
   @Verif.PropsShape.C17_appended_partial,
   @Verif.PropsRefuted.C17_refuted,
   @Verif.PropsCli.C17_packed_partial,
   @Verif.PropsRead.C18_immutable,
   @Verif.PropsRead.C18_total,
   @Verif.PropsRead.C18_structure,
   @Verif.PropsWrite.C19_extend,
   @Verif.PropsWrite.C19_push,
   @Verif.PropsWrite.C19_extend_unpacked,
   @Verif.PropsWrite.C19_retain,
   @Verif.PropsWrite.C19_repair,
   @Verif.PropsWrite.C19_content_kept,
   @Verif.PropsRefuted.C20_prefix_partial,
   @Verif.PropsRefuted.C20_refuted,
   @Verif.PropsMaintain.C21_drop_restores,
   @Verif.PropsMaintain.C21_drop_content,
   @Verif.PropsMaintain.C21_commit_keeps,
   @Verif.PropsMaintain.C22_retain,
   @Verif.PropsMaintain.C22_retain_any_query,
   @Verif.PropsMaintain.C23_pack_after_retain,
   @Verif.PropsMaintain.C23_pack_after_retain_content,
   @Verif.PropsMaintain.C24_repair,
   @Verif.PropsMaintain.C24_repaired_readable,
   @Verif.PropsMaintain.C24_nothing_to_repair,
   @Verif.PropsMaintain.C24_readable_kept,
   @Verif.PropsRefuted.C25_count_partial,
   @Verif.PropsRefuted.C25_refuted,
   @Verif.PropsRead.C26_damage,
   @Verif.PropsIter.C26_iter,
   @Verif.PropsRead.C27_cache_transparent,
   @Verif.PropsIter.C27_iter,
   @Verif.PropsStore.C28_get,
   @Verif.PropsStore.C28_link,
   @Verif.PropsStore.C28_bounded,
   @Verif.PropsStore.C28_refuses,
   @Verif.PropsStore.C28_error,
   @Verif.PropsStore.C28_again_partial,
   @Verif.PropsStore.C28_refuted,
   @Verif.PropsStore.C28_collision_refuted,
   @Verif.PropsStore.C29_transparent,
   @Verif.PropsStore.C29_never_wrong,
   @Verif.PropsStore.C29_small,
   @Verif.PropsStore.C29_failure,
   @Verif.PropsStore.C29_write,
   @Verif.PropsStore.C29_disabled,
   @Verif.PropsStore.C29_is_a_store,
   @Verif.PropsSeq.C30_roundtrip,
   @Verif.PropsSeq.C30_wrong_key,
   @Verif.PropsSeq.C30_writes,
   @Verif.PropsSeq.C30_wraps_writing,
   @Verif.PropsSeq.C30_in_streams,
   @Verif.PropsSeq.C30_wraps_reading,
   @Verif.PropsSeq.C30_made,
   @Verif.PropsSeq.C31_accessors,
   @Verif.PropsSeq.C31_too_large,
   @Verif.PropsSeq.C31_fill_takes,
   @Verif.PropsSeq.C31_fill_starts,
   @Verif.PropsSeq.C32_limits,
   @Verif.PropsSeq.C32_fails_only_for_large,
   @Verif.PropsShape.C33_fan_out,
   @Verif.PropsShape.C33_sealed,
   @Verif.PropsSeq.C34_roundtrip,
   @Verif.PropsSeq.C34_any_order,
   @Verif.PropsSeq.C34_canonical,
   @Verif.PropsLog.C35_visible,
   @Verif.PropsLog.C35_branch,
   @Verif.PropsQuery.C36_all,
   @Verif.PropsQuery.C36_empty,
   @Verif.PropsQuery.C36_and,
   @Verif.PropsQuery.C36_or,
   @Verif.PropsQuery.C37_offset_range,
   @Verif.PropsQuery.C37_exact,
   @Verif.PropsStream.C38_once,
   @Verif.PropsStream.C38_complete,
   @Verif.PropsStream.C38_items,
   @Verif.PropsStream.C39_end,
   @Verif.PropsStream.C39_ended,
   @Verif.PropsStream.C39_reached,
   @Verif.PropsStream.C40_descending_partial,
   @Verif.PropsStream.C40_no_failure_partial,
   @Verif.PropsStream.C40_refuted,
   @Verif.PropsIndex.C41_index,
   @Verif.PropsIndex.C41_total,
   @Verif.PropsIndex.C41_same_nodes,
   @Verif.PropsIndex.C41_determined,
   @Verif.PropsIndex.C42_refuted,
   @Verif.PropsPartial.C42_resumes_partial,
   @Verif.PropsKeys.C43_is_packed,
   @Verif.PropsKeys.C43_left_roots,
   @Verif.PropsKeys.C43_dump_graph,
   @Verif.PropsKeys.C43_roots,
   @Verif.PropsKeys.C43_iter_index,
   @Verif.PropsKeys.C43_retain,
   @Verif.PropsKeys.C43_repair,
   @Verif.PropsKeys.C43_load,
   @Verif.PropsLog.C44_leaf_partial,
   @Verif.PropsLog.C44_branch_partial,
   @Verif.PropsLarge.C44_refuted,
   @Verif.PropsTerm.C45_terminates_partial,
   @Verif.PropsTerm.C45_refuted,
   @Verif.PropsTags.C46_get,
   @Verif.PropsTags.C46_codec,
   @Verif.PropsTags.C46_in_bounds,
   @Verif.PropsTags.C47_matching,
   @Verif.PropsTags.C48_dnf,
   @Verif.PropsTags.C48_empty,
   @Verif.PropsTags.C48_operators,
   @Verif.PropsTags.C48_back,
   @Verif.PropsTags.C48_simplify,
   @Verif.PropsTags.C49_refuted,
   @Verif.PropsTags.C49_partial,
   @Verif.PropsTags.C49_read_once_partial,
   @Verif.PropsKeyTags.C50_key,
   @Verif.PropsKeyTags.C50_key_intersects,
   @Verif.PropsKeyTags.C50_accepted_partial,
   @Verif.PropsKeyTags.C50_exact_partial,
   @Verif.PropsKeyTags.C50_leaf,
   @Verif.PropsKeyTags.C50_refuted,
   @Verif.PropsKeyTags.C51_partial,
   @Verif.PropsKeyTags.C51_refuted,
   @Verif.PropsKeyTags.C51_inverted_refuted,
   @Verif.PropsKeyTags.C52_get,
   @Verif.PropsKeyTags.C52_summarize,
   @Verif.PropsKeyTags.C52_covers,
   @Verif.PropsRead.C53_dump_graph,
   @Verif.PropsRead.C53_dump_graph_total,
   @Verif.PropsRead.C54_left_roots,
   @Verif.PropsStream.C55_sequential,
   @Verif.PropsStream.C55_once,
   @Verif.PropsStream.C55_complete,
   @Verif.PropsStream.C55_no_deadlock,
   @Verif.PropsCanon.C56_shape,
   @Verif.PropsCanon.C56_height,
   @Verif.PropsRefuted.C57_refuted,
   @Verif.PropsPartial.C57_items_partial,
   @Verif.PropsRefuted.C58_refuted,
   @Verif.PropsPartial.C58_builder_partial,
   @Verif.PropsPartial.C58_tree_partial,
   @Verif.PropsSecret.C59_keys,
   @Verif.PropsSecret.C59_hidden,
   @Verif.PropsSecret.C59_hidden_all,
   @Verif.PropsProgress.C60_extend,
   @Verif.PropsProgress.C60_push,
   @Verif.PropsProgress.C60_extend_unpacked,
   @Verif.PropsProgress.C60_pack,
   @Verif.PropsProgress.C60_retain,
   @Verif.PropsProgress.C60_repair,
   @Verif.PropsProgress.C60_unbounded,
   @Verif.PropsForget.C61_retain_forgets,
   @Verif.PropsForget.C61_nothing_left,
   @Verif.PropsForget.C62_root_partial,
   @Verif.PropsForget.C62_refuted,
   @Verif.PropsLocal.C63_get,
   @Verif.PropsLocal.C63_filtered,
   @Verif.PropsTail.C63_collect_from,
   @Verif.PropsTail.C63_is_packed,
   @Verif.PropsKeep.C63_extend,
   @Verif.PropsKeep.C63_extend_unpacked,
   @Verif.PropsKeep.C63_retain,
   @Verif.PropsReuse.C64_extend,
   @Verif.PropsReuse.C64_extend_unpacked,
   @Verif.PropsReuse.C64_pack,
   @Verif.PropsReuse.C64_pack_packed,
   @Verif.PropsReuse.C65_sealed_partial,
   @Verif.PropsReuse.C65_refuted,
   @Verif.PropsCost.C66_extend,
   @Verif.PropsCost.C66_extend_any,
   @Verif.PropsCost.C66_push,
   @Verif.PropsCost.C66_extend_unpacked,
   @Verif.PropsCost.C66_pack,
   @Verif.PropsHeight.C67_get,
   @Verif.PropsHeight.C67_is_packed,
   @Verif.PropsHeight.C67_collect,
   @Verif.PropsHeight.C67_packed,
   @Verif.PropsHeight.C68_height,
   @Verif.PropsHeight.C68_log,
   @Verif.PropsHeight.C68_unpacked,
   @Verif.PropsHeight.C68_push,
   @Verif.PropsAsk.C69_kept,
   @Verif.PropsAsk.C69_any_cache,
   @Verif.PropsWaste.C70_extend,
   @Verif.PropsWaste.C70_push,
   @Verif.PropsWaste.C70_extend_unpacked,
   @Verif.PropsWaste.C70_retain,
   @Verif.PropsWaste.C70_repair,
   @Verif.PropsWaste.C71_pack_partial,
   @Verif.PropsWaste.C71_refuted,
   @Verif.PropsCheck.C72_no_message_partial,
   @Verif.PropsCheck.C72_message_partial,
   @Verif.PropsCheck.C72_refuted,
   @Verif.PropsBytes.C73_values,
   @Verif.PropsBytes.C73_bytes_partial,
   @Verif.PropsBytes.C73_retain,
   @Verif.PropsBytes.C73_repair,
   @Verif.PropsBytes.C73_refuted,
   @Verif.PropsCompact.C74_defaults,
   @Verif.PropsCompact.C74_vecseq,
   @Verif.PropsCompact.C74_unitseq,
   @Verif.PropsCompact.C74_keyseq,
   @Verif.PropsCompact.C74_plain,
   @Verif.PropsCompact.C75_codec,
   @Verif.PropsCompact.C75_read_partial,
   @Verif.PropsCompact.C75_refuted,
   @Verif.PropsDump.C76_cbor,
   @Verif.PropsDump.C76_json,
   @Verif.PropsDump.C76_branch,
   @Verif.PropsDump.C76_other,
   @Verif.PropsDump.C76_rest,
   @Verif.PropsNear.C77_near,
   @Verif.PropsNear.C77_total,
   @Verif.PropsTagged.C78_laws,
   @Verif.PropsTagged.C78_found,
   @Verif.PropsTagged.C78_exact_partial,
   @Verif.PropsTagged.C78_refuted,
   @Verif.PropsRefine.C79_refines,
   @Verif.PropsRefine.C79_refines_total,
   @Verif.PropsRefine.C79_appended,
   @Verif.PropsShared.C80_undisturbed,
   @Verif.PropsShared.C80_undisturbed_total,
   @Verif.PropsShared.C81_concurrent,
   @Verif.PropsShared.C81_concurrent_total,
   @Verif.PropsLinks.C82_printed,
   @Verif.PropsLinks.C82_text,
   @Verif.PropsLinks.C82_distinct,
   @Verif.PropsLinks.C82_stored,
   @Verif.PropsLinks.C82_only,
   @Verif.PropsLinks.C82_stored_only,
   @Verif.PropsLinks.C82_cid,
   @Verif.PropsLinks.C82_laws,
   @Verif.PropsLinks.C82_letters,
   @Verif.PropsIo.C83_sqlite,
   @Verif.PropsIo.C83_ipfs_put,
   @Verif.PropsIo.C83_ipfs_get_partial,
   @Verif.PropsIo.C83_ipfs_get_refuted,
   @Verif.PropsConfig.C84_refines,
   @Verif.PropsConfig.C84_refines_total,
   @Verif.PropsConfig.C84_reopen,
   @Verif.PropsConfig.C84_no_assert,
   @Verif.PropsConfig.C84_pack,
   @Verif.PropsConfig.C84_check_partial,
   @Verif.PropsConfig.C84_check_refuted,
   @Verif.PropsCli.C85_delivered,
   @Verif.PropsCli.C85_published,
   @Verif.PropsCli.C85_sender,
   @Verif.PropsCli.C85_level,
   @Verif.PropsCli.C85_continues,
   @Verif.PropsCli.C86_passphrases_refuted,
   @Verif.PropsCli.C86_no_passphrases_partial,
   @Verif.PropsCli.C87_key_length,
   @Verif.PropsCli.C87_injective_refuted,
   @Verif.PropsCli.C87_injective_partial,
   @Verif.PropsDisplay.C88_text_partial,
   @Verif.PropsDisplay.C88_same_text_partial,
   @Verif.PropsDisplay.C88_flat,
   @Verif.PropsDisplay.C88_refuted,
   @Verif.PropsPubsub.C89_base64,
   @Verif.PropsPubsub.C89_base64_text,
   @Verif.PropsPubsub.C89_queries,
   @Verif.PropsPubsub.C89_messages_partial,
   @Verif.PropsPubsub.C89_arrive_partial,
   @Verif.PropsPubsub.C89_chunks_refuted,
   @Verif.PropsEvents.C89_event,
   @Verif.PropsEvents.C89_reader_refuted,
   @Verif.PropsThreadZstd.C90_transform,
   @Verif.PropsThreadZstd.C90_decompress,
   @Verif.PropsThreadZstd.C90_panic,
   @Verif.PropsDumpTree.C91_dump,
   @Verif.PropsDumpTree.C91_dump_total,
   @Verif.PropsCommands.C92_contents,
   @Verif.PropsCommands.C92_contents_total,
   @Verif.PropsCommands.C92_no_assert_partial,
   @Verif.PropsCommands.C92_done_partial,
   @Verif.PropsCommands.C92_base_refuted,
   @Verif.PropsReadCommands.C93_dump_values,
   @Verif.PropsReadCommands.C93_stream_partial,
   @Verif.PropsReadCommands.C93_filter_partial,
   @Verif.PropsReadCommands.C93_graph,
   @Verif.PropsReadCommands.C93_stream_refuted,
   @Verif.PropsFilterDump.C93_filter_dump,
   @Verif.PropsJson.C94_index,
   @Verif.PropsJson.C94_key,
   @Verif.PropsJson.C94_keyseq,
   @Verif.PropsJson.C94_in_bounds,
   @Verif.PropsJson.C94_meaning_partial,
   @Verif.PropsJson.C94_refuted,
   @Verif.PropsFilter.C95_entry,
   @Verif.PropsFilter.C95_filter_partial,
   @Verif.PropsFilter.C95_new,
   @Verif.PropsFilter.C95_sound,
   @Verif.PropsFilter.C95_nothing,
   @Verif.PropsFilter.C95_refuted,
   @Verif.PropsBench.C96_bench,
   @Verif.PropsBench.C96_numbers,
   @Verif.PropsTransaction.C97_commit,
   @Verif.PropsTransaction.C97_extend,
   @Verif.PropsTransaction.C97_untouched,
   @Verif.PropsTransaction.C97_earlier,
   @Verif.PropsTransaction.C97_blind,
   @Verif.PropsReplica.C98_replica,
   @Verif.PropsReplica.C98_load,
   @Verif.PropsReplica.C98_only,
   @Verif.PropsSweep.C99_retain,
   @Verif.PropsSweep.C99_repair,
   @Verif.PropsSweep.C99_nodes).
Print Assumptions all_theorems.
