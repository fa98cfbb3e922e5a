{"claims": [
 {"property": "C01", "status": "partial", "theorems": ["C01_partial", "C01_without_select_for", "C01_refuted"], "note": "Outright for histories without SELECT ... FOR locks; with locks under the condition that no committed locker's mark lies between an uncommitted or later version and a newer one (F19); the full statement is refuted."},
 {"property": "C02", "status": "partial", "theorems": ["C02_partial", "C02_without_select_for", "C02_refuted"], "note": "As C01: outright without SELECT ... FOR, otherwise under the F19 condition at both reads; refuted in general."},
 {"property": "C03", "status": "partial", "theorems": ["C03_partial", "C03_without_select_for", "C03_no_versions_left", "C03_others_untouched"], "note": "What others read is as if the transaction had never run (F19 condition, or outright without SELECT ... FOR); no version of it is left; each undo step keeps every entry of others. Missing: others' locks stay effective (F20, C05_refuted)."},
 {"property": "C04", "status": "partial", "theorems": ["C04_savepoints_partial", "C04_savepoints_after_change_partial", "C04_savepoints_flat_partial", "C04_transaction_abort_restores", "C04_savepoint_search_succeeds", "C04_branches_cover_all_records", "C04_savepoints_refuted"], "note": "The full statement is false of the code (finding F1, C04_savepoints_refuted). Proved for every covered program, for every program that changes a row before its first savepoint, and for every program without nested savepoints; whole-transaction abort, record search and branch coverage are proved for every program."},
 {"property": "C05", "status": "partial", "theorems": ["C05_partial", "C05_writers", "C05_refuted", "C05_refuted_with_snapshots"], "note": "Under the condition that flags are right or no lock is buried below a finished version in the states of the history; writers exclude each other outright; full statement refuted in two ways (F20)."},
 {"property": "C06", "status": "partial", "theorems": ["C06_lookup_partial", "C06_nothing_lost", "C06_granted_held"], "note": "Lookup exact under the condition of C05; keeping of versions and locks and the mode left to the requester hold outright."},
 {"property": "C07", "status": "proved", "theorems": ["C07_lookup_returns_recorded", "C07_lookup_of_old_transaction", "C07_lookup_undisturbed", "C07_final_status_stays", "C07_assertions_hold"], "note": "ring, buffers, drain, shortcut and horizon as one transition system; lookups linearizable; recovery and rewind lookups not modelled"},
 {"property": "C08", "status": "partial", "theorems": ["C08_flush_durable_partial", "C08_quiet_status_durable_partial", "C08_status_kept_partial", "C08_flush_durable_refuted_reload", "C08_flush_durable_refuted_share", "C08_flush_durable_refuted_clean"], "note": "Proved for every schedule in which none of three situations arises: a store into or reload of the page being flushed, two live pages sharing one ring page, a partial drain marking a cached page with unwritten stores clean. Each of the three alone breaks the property; the refuted theorems are the witnesses."},
 {"property": "C09", "status": "proved", "theorems": ["C09_numbers_unique", "C09_holders_distinct", "C09_slot_free"], "note": "same model"},
 {"property": "C10", "status": "proved", "theorems": ["C10_held_ids_distinct", "C10_slots_exact", "C10_acquired_id_fresh_and_past", "C10_release_exact", "C10_xact_end_releases_all"], "note": "all interleavings of any number of backends; every logical_xid_buffers setting"},
 {"property": "C11", "status": "partial", "theorems": ["C11_horizon_below_running", "C11_horizons_monotone", "C11_run_horizon_exact", "C11_horizon_safe_for_snapshots_partial", "C11_horizon_safe_for_snapshots_refuted", "C11_horizon_below_snapshot_xmin_refuted", "C11_release_removes_only_that_snapshot"], "note": "horizon never passes a running transaction, moves forward and is exact at rest: proved. Safety for snapshots holds unless registered snapshots of one process tie in undo location with different xmin; then the code violates it (F9, refuted by a witness run)"},
 {"property": "C12", "status": "partial", "theorems": ["C12_unfinished_undo_retained_partial", "C12_snapshot_undo_retained_partial", "C12_writer_above_reserved_minimum_partial", "C12_undo_retained_no_group_insert", "C12_horizon_monotone", "C12_unfinished_undo_retained_refuted"], "note": "The published minimum never passes undo that an unfinished transaction or a registered snapshot needs, and writers stay above the reserved minimum, as long as no group insert races with a scan (hazard list empty); full for schedules without group insert; the minimum is monotone. The full statement is refuted by the group-insert race (F11)."},
 {"property": "C13", "status": "partial", "theorems": ["C13_undo_read_partial", "C13_undisturbed_read_partial", "C13_undo_read_without_flush", "C13_reload_refuted", "C13_shared_bit_refuted", "C13_marked_clean_refuted", "C13_write_if_exists_refuted"], "note": "Proved for every schedule free of four recorded hazards, and in full for schedules without the checkpoint flush and without undo_write_if_exists; the four hazards are reachable and break the property (findings F3, F4, F12, F13)."},
 {"property": "C14", "status": "proved", "theorems": ["C14_records_disjoint", "C14_record_contiguous", "C14_ring_exclusive", "C14_reservation_honoured", "C14_no_panic", "C14_one_retry", "C14_assertions_hold", "C14_filling_not_evicted", "C14_accounting"], "note": "Every schedule of reservations, evictions, background writes, releases and group inserts, any ring size and any number of processes: records are disjoint and contiguous in the ring, unwritten bytes never share a ring cell, reserved space is honoured, the PANIC needs less than twice the size reserved, at most one skip, the code's assertions hold."},
 {"property": "C15", "status": "proved", "theorems": ["C15_retained_blocks_untouched", "C15_dead_blocks_discarded", "C15_dead_files_discarded", "C15_horizon_move_keeps_retained", "C15_horizon_move_discards_rest", "C15_no_orphan_files", "C15_no_orphan_files_unaligned_refuted"], "note": "Safety and completeness for all ranges and sizes. The stronger 'no orphan files' claim of the code comment is proved for boundaries outside last blocks and refuted in general (finding F7)."},
 {"property": "C16", "status": "proved", "theorems": ["C16_command_of_version_exact", "C16_sees_own_iff_earlier_command"], "note": "All programs of commands, own and foreign allocations; the doubling of the command array is not modelled."},
 {"property": "C17", "status": "proved", "theorems": ["C17_leaf", "C17_downlink", "C17_ends", "C17_next", "C17_prev", "C17_foreach", "C17_found_iff_present", "C17_lower_bound"], "note": "For any layout of a page's items over its chunks (empty chunks included) and any comparison that agrees with the order: leaf search finds the first item not below the key, inner search the last child not above it (strictly below for a high key), stepping and walking visit each item once. Instantiated with the comparison of index keys and of scan bounds (multi-column, ASC/DESC, NULLS FIRST/LAST): a key is found iff present; a lower bound starts the scan at the first qualifying item."},
 {"property": "C18", "status": "proved", "theorems": ["C18_contents", "C18_others", "C18_inside", "C18_layout", "C18_locate", "C18_reorg", "C18_respread", "C18_run"], "note": "For every page that init, btree_page_reorg and any sequence of inserts, replacements, deletes (with merging of chunks) and chunk splits can make, word by word of its memory: it reads as the specification says, the other items keep flags, words and order, nothing outside the page is written; btree_page_reorg keeps the items given, whether they lie in the page or elsewhere. Which of the possible cuts page_split_chunk_if_needed takes is left open; the ratios in btree_page_reorg are compared exactly, not as float4."},
 {"property": "C19", "status": "proved", "theorems": ["C19_lookup", "C19_rows_sound", "C19_rows_complete", "C19_balanced", "C19_separators", "C19_separators_first"], "note": "Model of one tree with arbitrarily interleaved page-at-a-time searches, writes, splits with a late downlink, root growth and merges. Lookups are linearizable; leaves hold exactly the map; all leaves at one depth; separators bound the rows below them. Page bytes, sizes and eviction are not in this model."},
 {"property": "C20", "status": "partial", "theorems": ["C20_forward_scan", "C20_backward_scan_partial", "C20_exact_when_quiet", "C20_refuted_backward_after_merge", "C20_refuted_backward_lost_row"], "note": "Forward scans proved for every schedule. Backward scans proved unless the search retried after noting a low key or a commit-number scan landed on a page that does not end at its low key; both cases are refuted (F65, F66). Pages are read live; page images are C26, row visibility C21."},
 {"property": "C21", "status": "partial", "theorems": ["C21_contents_partial", "C21_prefix", "C21_separators_partial", "C21_page_sizes", "C21_top_split_loses_rows_refuted", "C21_low_fillfactor_refuted", "C21_depth_refuted"], "note": "For every stream of legal tuples and every fillfactor from 40 to 100 the build succeeds, every page fits its block with its high key, and the tree holds a prefix of the stream in order. When the closing loop does not split the top page it holds exactly the stream and the separators divide the key range correctly. Missing because the code violates it: a top page split by the closing loop loses the last rows (F55); low fillfactors give an undefined split (F56) or overrun the level stack (F57). The depth limit for fillfactors of 40 and up is not bounded."},
 {"property": "C22", "status": "partial", "theorems": ["C22_latch_exclusive", "C22_locked_flag", "C22_open_page_is_published", "C22_validated_copy", "C22_no_lost_wakeup", "C22_wait_list", "C22_posts_kept_partial", "C22_posts_kept_refuted_tuple", "C22_posts_kept_refuted_relock", "C22_relock_waits_refuted", "C22_oldest_first_refuted"], "note": "Mutual exclusion, validated copies and absence of lost wake-ups proved for all schedules. Conservation of semaphore posts holds without lock_page_with_tuple and relock_page and is refuted with them (F15); relock waiting (F14) and oldest-first wake-up (F16) refuted."},
 {"property": "C23", "status": "proved", "theorems": ["C23_latched_reference", "C23_copied_reference", "C23_generation"], "note": "Until the 31-bit generation wraps, as the statement says."},
 {"property": "C24", "status": "proved", "theorems": ["C24_in_memory_downlink", "C24_on_disk_downlink", "C24_extent_length", "C24_io_downlink", "C24_downlink_kinds", "C24_downlinks_injective", "C24_xact_info", "C24_leaf_tuple_header", "C24_undo_location", "C24_chunk_descriptor", "C24_file_extent", "C24_s3_checkpoint_number", "C24_page_item", "C24_csn_special", "C24_csn_normal", "C24_ptr_special", "C24_ptr_aligned", "C24_page_state_total", "C24_page_state", "C24_csn_level_2_31_refuted"], "note": "Every packed word transcribed with the C operators; decode after encode for all values in range, kinds disjoint, page-state updates change only their fields. Boundary: a nesting level of 2^31 would alias the rewind flag of a status word (C24_csn_level_2_31_refuted)."},
 {"property": "C25", "status": "partial", "theorems": ["C25_chunk_partial", "C25_downlink_partial", "C25_refuted_nan", "C25_refuted_unique_prefix", "C25_refuted_upper_exclusive", "C25_refuted_descending"], "note": "Proved for tuples on indexes all of whose columns are unique columns, leftmost/rightmost and a described class of bounds, without NaN; refuted for NaN in a later column, lower bounds on the prefix of a secondary unique index, excluded upper bounds and unbounded descending columns. Concurrent page changes (retry) are not modelled."},
 {"property": "C26", "status": "partial", "theorems": ["C26_point_partial", "C26_pages_partial", "C26_rows_sound_partial", "C26_forward_range_partial", "C26_forward_first_partial", "C26_backward_range_partial", "C26_backward_last_partial", "C26_refuted_late_horizon", "C26_refuted_forward_scan", "C26_refuted_backward_scan", "C26_refuted_backward_skip"], "note": "point reads, soundness of rows, forward and backward ranges of one read, for every history in which a merge decides and drops at one horizon; a forward range needs that no high key was widened. Refuted without these: F67, F68, F69, F70"},
 {"property": "C27", "status": "proved", "theorems": ["C27_extents_exclusive", "C27_blocks_conserved", "C27_no_fatal", "C27_get_extent_best_fit", "C27_free_extent_coalesces", "C27_split_for_map_exact", "C27_local_pop_exact", "C27_local_push_exact"], "note": "all interleavings of any number of backends for exclusivity, conservation and absence of FATAL; sequential theorems for best fit and coalescing"},
 {"property": "C28", "status": "partial", "theorems": ["C28_image_intact_partial", "C28_restart_reads_image_partial", "C28_blocks_distinct_partial", "C28_new_block_outside_image_partial", "C28_scan_blocks_not_reused_partial"], "note": "Uncompressed trees: blocks of the image named by the control file are never overwritten, a restart at any point reads the image back, no two pages share a block, no used block is on a free list, and a running scan keeps blocks from being given to other pages. Missing: compressed extents, files in S3 and device mode; writes are assumed to reach the file before the control file (fsync). For compressed trees the loop that returns extents of old .tmp files does not end when old files are kept (F58)."},
 {"property": "C29", "status": "proved", "theorems": ["C29_writers", "C29_writers_program_order", "C29_reopened_writers", "C29_readers", "C29_readers_complete", "C29_round_trip", "C29_reader_reopened", "C29_open_succeeds"], "note": "Writers and readers under every schedule of lock sections and page I/O; several sessions; opening errors and I/O failures (PANIC in the code) are outside the model."},
 {"property": "C30", "status": "proved", "theorems": ["C30_reads_see_last_writes", "C30_special_options", "C30_at_rest", "C30_write_range", "C30_read_range", "C30_sync_range"], "note": "Block cache of o_buffers.c: reads through the cache return the last write of every byte under every schedule; ranges split exactly; sync covers the range."},
 {"property": "C31", "status": "partial", "theorems": ["C31_write_survives_probe_refuted", "C31_write_survives_probe_partial"], "note": "False of the code in general (finding F5): C31_write_survives_probe_refuted gives a schedule that loses a write; the partial theorem proves it when no missing_ok probe of the same block runs concurrently."},
 {"property": "C32", "status": "proved", "theorems": ["C32_one_owner", "C32_hand_out_free", "C32_counters_exact", "C32_descend_where_found", "C32_reservation_covered", "C32_search_finds"], "note": "Usage map and page pool reservations under arbitrary interleavings of atomic steps; the search for a free page is proved to succeed when no counter update is in flight."},
 {"property": "C33", "status": "partial", "theorems": ["C33_roundtrip", "C33_unambiguous", "C33_truncated", "C33_unknown_kind", "C33_newer_version", "C33_writer_partial", "C33_end_logged_partial", "C33_buffer_bound", "C33_refuted"], "note": "Byte-level part proved in full: every container round-trips, every truncation delivers a prefix and is reported, unknown record kinds and newer versions are reported. Writer part: what replay delivers is what the session's calls asked for, with the right transaction, relation, replica identity and bytes, and the buffer never overflows; partial because a transaction that ends with nothing to log while its XID record is buffered leaves a stale flag, after which C33_refuted shows a committed row logged without a transaction (finding F21)."},
 {"property": "C34", "status": "partial", "theorems": ["C34_crash_recovery_partial", "C34_from_checkpoint_partial", "C34_all_or_nothing_partial", "C34_released_savepoint_refuted", "C34_checkpoint_savepoint_refuted", "C34_checkpoint_savepoint_abort_refuted", "C34_subabort_order_refuted"], "note": "Proved for every client interleaving, durable log prefix and checkpoint position, with savepoints, joint commits and aborts. Missing: savepoint patterns counted as hazards (refuted, F22, F23) and the window between the two halves of a subtransaction abort (refuted, F24)."},
 {"property": "C35", "status": "proved", "theorems": ["C35_parallel_is_serial", "C35_any_two_runs_agree", "C35_replay_finishes", "C35_parallel_recovery_partial"], "note": "Any key-to-worker assignment, schedule and log that serial replay does not block on: same rows and versions. Composed with C34 (which is partial) in C35_parallel_recovery_partial."},
 {"property": "C36", "status": "partial", "theorems": ["C36_partial", "C36_one_at_a_time", "C36_any_image", "C36_refuted"], "note": "Proved for every history, every moment each row is captured and every durable log prefix, provided recovery does not wait for ever: contents are those of each record applied once, and every committed change is in the version chain exactly once. It does not wait when the log shows one transaction at a time. In general it can (C36_refuted, finding F25)."},
 {"property": "C37", "status": "partial", "theorems": ["C37_columns_in_order_partial", "C37_one_column_partial", "C37_size_exact", "C37_version_kept", "C37_set_version", "C37_last_identifier", "C37_refuted_added_column_null", "C37_refuted_added_column_beyond"], "note": "Byte-level model of forming and reading rows, for every descriptor, any mix of row versions and any sequence of reads sharing the descriptor's offset cache: columns read in order give the formed value, null flag or default; single-column reads are right for stored columns; sizes exact; version changes keep all columns; trailing identifier found. Missing: single-column reads of columns added after the row was stored, refuted (F44)."},
 {"property": "C38", "status": "partial", "theorems": ["C38_value_partial", "C38_exact_partial", "C38_store_partial", "C38_write_read_partial", "C38_replace", "C38_refuted_leftover", "C38_refuted_leftover_own", "C38_refuted_key_image"], "note": "Every reader gets back the value of the row version it holds, for all values, piece sizes and histories, assuming equal keys have images of one size and the value does not end on a piece boundary while chunks of a longer older value are still in the tree; both assumptions are shown necessary (refuted cases). Live chunks are exactly those of the newest version; deleting leaves none; stores never fail; system tree replacement leaves exactly the new value. Savepoint rollback, compression and the choice of columns are not modelled."},
 {"property": "C39", "status": "partial", "theorems": ["C39_complete", "C39_exact_partial", "C39_empty", "C39_scan_partial", "C39_lists", "C39_update", "C39_refuted_mixed_row", "C39_refuted_row_exact"], "note": "Scan keys to key range, list stepping, and the filter applied to fetched tuples: every row satisfying all conditions is returned and every row returned satisfies them, for any number of columns, directions and NULL placement. Missing: row comparisons over columns of different directions, and row comparisons beside equalities on all columns; both are refuted."},
 {"property": "C40", "status": "partial", "theorems": ["C40_concurrent_inserts_unique", "C40_snapshots_unique", "C40_refused_for_a_live_row", "C40_cleared_insert_succeeds", "C40_primary_key_unique", "C40_unique_index_partial", "C40_refuted_include_null", "C40_refuted_nulls_not_distinct_update"], "note": "Proved for every interleaving of inserts, deletes, commits, rollbacks and page-wise checks of one unique index, for running transactions and for every snapshot; and for sequences of statements down to the values compared. Refuted for included columns that are NULL and for updates under NULLS NOT DISTINCT. Missing: deferred constraints."},
 {"property": "C41", "status": "partial", "theorems": ["C41_indexes_agree_partial", "C41_every_index_maintained", "C41_delete_succeeds_partial", "C41_update_succeeds_partial", "C41_insert_succeeds_partial", "C41_refuted_repeated_column_update", "C41_refuted_repeated_column_delete", "C41_refuted_repeated_column_null"], "note": "Proved for every sequence of inserts, updates and deletes over any set of indexes, predicates and comparison functions, provided no index repeats a column. Refuted for an index with a repeated column: updates leave stale entries, deletes fail, NULLs are stored as values."},
 {"property": "C42", "status": "proved", "theorems": ["C42_exact", "C42_emit", "C42_empty", "C42_range", "C42_next", "C42_walk", "C42_fixed_exact", "C42_fixed_emit", "C42_fixed_empty", "C42_fixed_range", "C42_fixed_next", "C42_fixed_step"], "note": "both modes; page skipping on top of it is C51"},
 {"property": "C43", "status": "partial", "theorems": ["C43_key_width", "C43_order", "C43_injective", "C43_decode", "C43_float_bits", "C43_next_key", "C43_int_order", "C43_int_decode", "C43_tid_order_partial", "C43_tid_refuted", "C43_tid_collision"], "note": "all types proved except row identifiers in blocks from 65536 on, where the code is wrong (F17)"},
 {"property": "C44", "status": "partial", "theorems": ["C44_no_missing", "C44_order_kept", "C44_exact_own_payload_partial", "C44_exact_one_writer_partial", "C44_unique_check_partial", "C44_two_writers_refuted", "C44_update_refuted", "C44_nulls_not_distinct_refuted", "C44_unique_scan_order_refuted"], "note": "Proved for every schedule of writers, rollbacks, scan progress and reopening of spool files: no row is missing; every captured change is replayed once and changes of one entry in the order made; the index is exact when at most one backend captured changes (or with any number if replay used each entry's own payload) and no indexed column is updated after the build has started; unique validation of a list in key order is exact for NULLS DISTINCT. Refuted for the code as it is: two spool files share one payload buffer; updates of indexed columns are not captured; NULLS NOT DISTINCT validation; validation scan order. Not modelled: the invalidation that makes writers see the placeholder, crash in the middle, WAL of the build."},
 {"property": "C45", "status": "partial", "theorems": ["C45_once_partial", "C45_data_partial", "C45_kept_partial", "C45_wait_partial", "C45_wait_ends_partial", "C45_refuted_wraparound", "C45_refuted_late_clear", "C45_refuted_overrun"], "note": "Exactly-once picking in order, at-most-once execution, contents kept while pending, waits return only after all earlier tasks finished and do return; all under the condition that the queue does not come round to a length word still to be cleared. Without it, and for tasks wrapping around the buffer end, refuted."},
 {"property": "C46", "status": "partial", "theorems": ["C46_locks", "C46_eviction", "C46_in_use_partial", "C46_contents_partial", "C46_refuted_download_replayed", "C46_refuted_two_uploads", "C46_refuted_upload_replayed", "C46_written_part_uploaded_partial", "C46_refuted_second_part_not_uploaded"], "note": "Lock counting and the start of eviction are proved for every interleaving. Contents are proved provided a finished download or upload is not repeated by a restarted worker and no second upload is scheduled while one runs; each proviso is shown necessary by a refutation. The header buffer cache is abstracted to an atomic word. A write within one part schedules the upload of its part; refuted for a write that crosses a part boundary."},
 {"property": "C47", "status": "proved", "theorems": ["C47_table_round_trip", "C47_index_round_trip", "C47_table_other_major", "C47_table_cut_short", "C47_table_followed", "C47_index_cut_short_partial", "C47_refuted_index_cut_short"], "note": "Byte form of OTable and OIndex records: what is written is read back unchanged by a server of the same major version (nodeToString/stringToNode are taken to be inverse); another major version gets everything but the expression trees, and marks the table; a record cut short, or with bytes after its end, is never accepted for a table. For an index a record that lacks exactly its last byte is accepted with state VALID (F59)."},
 {"property": "C48", "status": "partial", "theorems": ["C48_root_order", "C48_table_order", "C48_index_order", "C48_free_order", "C48_free_request", "C48_refuted_table_tablespace", "C48_cache_order_partial", "C48_cache_prefix_partial", "C48_refuted_cache_order", "C48_xid_order_partial", "C48_refuted_xid_order", "C48_table_range", "C48_index_range", "C48_cache_range_partial", "C48_tables_visited", "C48_indices_visited", "C48_refuted_visit"], "note": "Missing: cache keys and transaction ids 2^31 or more apart (refuted: circles), tablespaces of tables (refuted), the last relfilenode (refuted); the trees themselves."},
 {"property": "C49", "status": "partial", "theorems": ["C49_rewind_exact", "C49_wait_ends", "C49_kept_until_window", "C49_accepted_target", "C49_state_partial", "C49_to_transaction_partial", "C49_undo_kept_partial", "C49_large_transaction_hangs", "C49_refuted_commit_order", "C49_refuted_older_transaction", "C49_refuted_future_xid", "C49_refuted_undo_dropped"], "note": "Proved for every ring size >= one page of entries and every schedule of backends, evictions, restores and the worker: the walk undoes exactly the queued transactions after the stop point, newest first, with all subtransactions; the wait before it ends; entries leave only outside the configured window; accepted targets are newer than everything that left. Partial: row contents need queue order = commit order and growing identifiers, undo retention needs entries written in time; each condition is shown necessary by a refuted theorem. Restart of the queue from a checkpoint and heap undo are not modelled."},
 {"property": "C50", "status": "partial", "theorems": ["C50_page_read_back", "C50_page_roundtrip", "C50_blocks_cover", "C50_checksum_checked", "C50_control_written", "C50_control_damage_rejected", "C50_control_truncated_rejected", "C50_control_versions", "C50_refuted_emptied_control", "C50_refuted_s3_reuse"], "note": "Pages: for every configuration (compression, checksums, object store, device), every history of rewrites, relocations, growths and shrinks of a page interleaved with writes of other pages elsewhere, the parent's downlink reads the last page back; blocks cover data; images are returned only with a matching checksum. Control file: written files are accepted, any change of up to four adjacent bytes and any truncation to a non-empty prefix is rejected. Refuted: an emptied control file passes for a fresh cluster; in object-store mode checkpoints whose numbers are equal modulo 256 share files. Missing: I/O errors and file lengths, torn writes, and zstd itself (assumed lossless)."},
 {"property": "C51", "status": "partial", "theorems": ["C51_page_skip_partial", "C51_page_skip_refuted", "C51_page_kept", "C51_fixed_page_skip_partial", "C51_fixed_page_skip_refuted"], "note": "false of the code for the greatest key on the rightmost page (F18), proved for all other keys"},
 {"property": "C52", "status": "partial", "theorems": ["C52_files_partial", "C52_durable_partial", "C52_backup_partial", "C52_refuted_postponed", "C52_refuted_postponed_reached", "C52_refuted_leak", "C52_refuted_innocent"], "note": "Missing: carrying out postponed removals (refuted: it cannot succeed), retention for rewind, recovery."},
 {"property": "C53", "status": "partial", "theorems": ["C53_at_most_once_partial", "C53_at_least_once_partial", "C53_exactly_once_partial", "C53_one_worker_misses_nothing", "C53_row_missed_refuted", "C53_row_twice_refuted", "C53_range_at_most_once_partial", "C53_range_row_missed_refuted", "C53_array_keeps_entries_partial", "C53_array_entry_lost_refuted"], "note": "Refuted four times: an on-disk leaf can be missed (F71), rows can be returned twice after a merge of the leftmost internal page (F72), a scan with an upper bound by one participating process leaves out the on-disk leaves it has queued (F73), and with more participants than the first segment has entries a second growth of the shared array loses entries (F74). Proved outside these: at most once at every moment, with any range condition, if the leftmost internal page is not loaded again; without a range condition, at least once at the end if the array is not sorted while a worker has still to add a downlink; one worker never misses a row of a scan without condition; the growing array keeps every entry with at most as many participants as its first capacity. The array model and the scan model are separate. Not modelled: bitmap callbacks, sampling, ordered and backward scans."},
 {"property": "C54", "status": "proved", "theorems": ["C54_leaf_rows", "C54_own_write_seen", "C54_old_row_seen"], "note": "For one leaf and any sequence of historical pages that covers it. The snapshot row of an item (C01) and the historical pages (C26) are inputs; bitmap callbacks and partial reads are not modelled."},
 {"property": "C55", "status": "partial", "theorems": ["C55_bitmap_leaf_rows", "C55_bitmap_history_partial", "C55_wanted_row_missed_refuted"], "note": "Proved for a leaf without history, with chunk loads that fail at any point. For a leaf with a historical page refuted (F75: the comparison reads the first columns of the historical row instead of its key) and proved under the hypothesis that the key is read right, as it is when the key columns come first in the table; one historical page. The bitmap (C42) and the iterator used for resumption (C20) are taken as exact; C51 is about the choice of the leaves."}
]}
