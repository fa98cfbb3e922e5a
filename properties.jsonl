{"id": "C01", "title": "Snapshot reads see exactly the last committed version", "statement": "A row read under a snapshot returns the newest version of the row whose writer either is the reader itself (restricted to commands the snapshot may see) or committed before the snapshot was taken; it returns nothing if that version is a delete or if no such version exists. Uncommitted, aborted and later-committed versions never leak.", "quantifier": "every version chain (any length, any mix of writers, locks, deletes), every commit/abort status assignment, every snapshot", "why_tests_cant": "the chain length, interleaving of committed / aborted / in-progress / lock-only entries and the snapshot position form an unbounded space; tests only sample short chains", "anchors": ["src/btree/iterator.c:o_find_tuple_version", "src/transam/oxid.c:oxid_match_snapshot", "src/btree/undo.c:get_prev_leaf_header_and_tuple_from_undo", "include/btree/btree.h:XACT_INFO_MAP_CSN"]}
{"id": "C02", "title": "Snapshot stability", "statement": "Two reads of the same row under the same snapshot return the same answer no matter which other transactions begin, write, lock, commit, abort or roll back to savepoints between the two reads.", "quantifier": "every history of row operations by other transactions between two reads, every snapshot", "why_tests_cant": "needs all interleavings of other transactions between the two reads", "anchors": ["src/btree/iterator.c:o_find_tuple_version", "src/btree/undo.c:page_item_rollback", "src/transam/oxid.c:oxid_match_snapshot"]}
{"id": "C03", "title": "Rollback restores the previous state", "statement": "When a transaction rolls back, every row it inserted, updated, deleted or locked is exactly as if the transaction had never touched it; rows and locks of other transactions are unaffected.", "quantifier": "every sequence of row operations of the transaction, every pre-state, interleaved with lock-only entries of other transactions", "why_tests_cant": "restoration must hold for every order of operations on every row; a test suite checks a few", "anchors": ["src/btree/undo.c:page_item_rollback", "src/btree/undo.c:modify_undo_callback", "src/btree/undo.c:lock_undo_callback", "src/transam/undo.c:walk_undo_range"]}
{"id": "C04", "title": "ROLLBACK TO SAVEPOINT undoes exactly the changes made after the savepoint", "statement": "After ROLLBACK TO SAVEPOINT s every change made since s is undone, and every change made before s (including changes of released inner savepoints) is still in effect; RELEASE changes nothing visible.", "quantifier": "every properly nested sequence of SAVEPOINT, RELEASE, ROLLBACK TO and row changes, any depth", "why_tests_cant": "the nesting structure is unbounded, and whether any row has been changed before the first SAVEPOINT matters", "anchors": ["src/transam/undo.c:undo_subxact_callback", "src/transam/undo.c:search_for_undo_sub_location", "src/transam/undo.c:rollback_to_savepoint", "src/transam/undo.c:add_subxact_undo_item", "src/transam/undo.c:update_subxact_undo_location_on_commit"]}
{"id": "C05", "title": "Conflicting row locks are never held together", "statement": "A row lock is granted only if no other in-progress transaction holds a conflicting lock on the row, where conflicts follow the FOR KEY SHARE / FOR SHARE / FOR NO KEY UPDATE / FOR UPDATE table; in every reachable state, any two locks held on one row by different in-progress transactions are compatible.", "quantifier": "every sequence of lock, update, delete, commit, abort and savepoint-rollback steps by any number of transactions on a row", "why_tests_cant": "mutual exclusion is over all interleavings and lock-chain shapes", "anchors": ["src/btree/undo.c:row_lock_conflicts", "include/btree/btree.h:ROW_LOCKS_CONFLICT", "src/btree/modify.c:o_btree_modify_handle_conflicts", "src/btree/modify.c:o_btree_modify_lock"]}
{"id": "C06", "title": "Own lock bookkeeping is exact", "statement": "The lock lookup reports the strongest lock the asking transaction already holds on the row, and dropping redundant entries never removes or weakens another transaction's lock, never removes a row version, and leaves the requester with at least the mode requested.", "quantifier": "every lock/version chain and every requesting transaction and mode", "why_tests_cant": "chain shapes are unbounded", "anchors": ["src/btree/undo.c:row_lock_conflicts", "src/btree/undo.c:remove_redundant_row_locks", "src/btree/undo.c:find_non_lock_only_undo_record"]}
{"id": "C07", "title": "Transaction status lookups return the last recorded status", "statement": "Looking up the status of a transaction that is not older than the global horizon returns the status most recently recorded for it, no matter how lookups and recordings interleave with the background draining of the in-memory status ring to buffers.", "quantifier": "every interleaving of begin, commit, abort, lookup and drain steps; any ring size; any number of transactions", "why_tests_cant": "the drain races with readers and writers at instruction granularity", "anchors": ["src/transam/oxid.c:map_oxid", "src/transam/oxid.c:set_oxid_csn", "src/transam/oxid.c:write_xidsmap", "src/transam/oxid.c:get_current_oxid"]}
{"id": "C08", "title": "A checkpoint flush makes every transaction status durable and loses none", "statement": "When the checkpoint-time flush of the status map over a range returns, the on-disk copy holds the status of each transaction in the range, and no status recorded concurrently is lost from memory or disk.", "quantifier": "every ring occupancy and alignment of the drained frontier, every interleaving with concurrent status recordings", "why_tests_cant": "depends on page alignment, ring wrap-around and exact timing", "anchors": ["src/transam/oxid.c:flush_dirty_xidsmap_range", "src/transam/oxid.c:fsync_xidmap_range", "src/utils/o_buffers.c:o_buffers_write_page_direct"]}
{"id": "C09", "title": "Transaction numbers are unique and their status slots never collide", "statement": "Every started transaction receives a number never given to another transaction, and its in-memory status slot is not in use by any other transaction whose status still lives in memory.", "quantifier": "every interleaving of transaction starts by any number of backends with status draining and horizon advance", "why_tests_cant": "concurrency plus ring wrap-around", "anchors": ["src/transam/oxid.c:get_current_oxid", "src/transam/oxid.c:advance_oxids", "src/transam/oxid.c:write_xidsmap"]}
{"id": "C10", "title": "Logical transaction ids of concurrent holders are distinct", "statement": "Two backends (or nested subtransactions) holding logical transaction ids at the same time never hold the same id, every id handed out lies before the current snapshot horizon and is a normal transaction id, and releasing an id makes exactly that id available.", "quantifier": "every sequence of acquire/release by any number of holders, every horizon value including 32-bit wraparound", "why_tests_cant": "2^32 horizon values times allocation bitmaps", "anchors": ["src/transam/oxid.c:acquire_logical_xid", "src/transam/oxid.c:release_logical_xid"]}
{"id": "C11", "title": "The global transaction horizon never passes a running transaction and is safe for every snapshot", "statement": "The global horizon only moves forward and never exceeds the number of an unfinished transaction; and every transaction below it finished before each usable (active or registered) snapshot was taken, so that treating it as long committed gives each snapshot the right answer.", "quantifier": "every interleaving of transaction start/finish, snapshot take/register/release, xmin reset and step-by-step horizon recomputation, any number of processes and snapshots", "why_tests_cant": "the recomputation scans other processes without locking them; the dangerous interleavings are rare and need several snapshots per process", "anchors": ["src/transam/oxid.c:advance_global_xmin", "src/transam/oxid.c:advance_run_xmin", "src/transam/undo.c:orioledb_snapshot_hook", "src/transam/undo.c:orioledb_reset_xmin_hook", "src/transam/undo.c:undoLocCmp"]}
{"id": "C12", "title": "Undo needed by a transaction or snapshot is retained", "statement": "An undo record written by an unfinished transaction, or reachable from a snapshot taken before it became obsolete, is never declared reclaimable: the retention horizon never exceeds the retain location published by any backend.", "quantifier": "every interleaving of publishing a retain location, recomputing minima and releasing", "why_tests_cant": "lock-free publish/validate protocol; races are rare and timing dependent", "anchors": ["src/transam/undo.c:set_my_reserved_location", "src/transam/undo.c:set_my_snapshot_retain_location", "src/transam/undo.c:update_min_undo_locations", "include/transam/undo.h:UNDO_REC_EXISTS"]}
{"id": "C13", "title": "Undo reads return what was written", "statement": "Reading an undo location that is still retained returns the bytes last written there, no matter how the record has moved between the in-memory ring, the buffer cache and disk.", "quantifier": "every interleaving of writes, in-place updates, evictions, checkpoint flushes and cache evictions; any ring/page alignment", "why_tests_cant": "data moves through three stores with dirty bits; corner cases need exact alignment and timing", "anchors": ["src/transam/undo.c:undo_read", "src/transam/undo.c:undo_write_internal", "src/transam/undo.c:evict_undo_to_disk", "src/transam/undo.c:flush_dirty_undo_range", "src/utils/o_buffers.c:o_buffers_rw"]}
{"id": "C14", "title": "Undo record allocation never overlaps or overruns", "statement": "Undo records allocated by any backends are pairwise disjoint, contiguous in the ring, and never overwrite ring bytes that are still in use; the space reserved in advance always suffices.", "quantifier": "every interleaving of reservations and allocations with any sizes, any ring size", "why_tests_cant": "ring-boundary behaviour depends on exact offsets and concurrent allocations", "anchors": ["src/transam/undo.c:reserve_undo_size_extended", "src/transam/undo.c:get_undo_record", "src/transam/undo.c:release_undo_size"]}
{"id": "C15", "title": "File cleanup never discards retained data", "statement": "Cleaning up old undo / transaction-status files discards no block holding an item inside the checkpoint-retained range or at or above the running-transaction horizon, and does discard every whole block that lies completely in the newly dead region.", "quantifier": "all cleanup ranges, retain ranges, item sizes and file sizes", "why_tests_cant": "off-by-one errors at block/file boundaries show only for specific alignments", "anchors": ["src/utils/o_buffers.c:unlink_unretained_o_buffers", "src/utils/o_buffers.c:o_buffers_unlink_blocks_range"]}
{"id": "C16", "title": "A statement does not see its own changes; later statements do", "statement": "Within a transaction, the command number recovered for a row version is the command that wrote it, so a statement's scan sees versions written by strictly earlier commands only.", "quantifier": "every sequence of commands and undo allocations, every location", "why_tests_cant": "all sequences of commands and lookups", "anchors": ["src/transam/undo.c:undo_location_get_command", "src/transam/undo.c:update_command_undo_location", "src/transam/undo.c:current_command_get_undo_location"]}
{"id": "C17", "title": "Index search finds a key iff it is present", "statement": "Searching a page for a key yields the first item not less than the key (or the last downlink not greater), for any distribution of items over the page's chunks.", "quantifier": "every well-formed page, every key, every search direction", "why_tests_cant": "all page layouts and keys", "anchors": ["src/btree/find.c:btree_page_search", "src/btree/find.c:btree_page_binary_search_chunks", "src/btree/find.c:btree_page_search_items", "src/btree/page_chunks.c:page_item_fill_locator"]}
{"id": "C18", "title": "Page updates preserve all other items", "statement": "Inserting, resizing or deleting an item on a page, splitting/merging its chunks and reorganising it keep every other item's bytes, order and flags, and never write outside the page.", "quantifier": "every well-formed page and every operation that the fit check accepts", "why_tests_cant": "byte-level layout: all chunk configurations and sizes", "anchors": ["src/btree/page_chunks.c:page_locator_insert_item", "src/btree/page_chunks.c:page_locator_delete_item", "src/btree/page_chunks.c:page_split_chunk", "src/btree/page_chunks.c:btree_page_reorg", "src/btree/page_chunks.c:page_locator_fits_item"]}
{"id": "C19", "title": "The tree behaves as an ordered map", "statement": "After any sequence of inserts, updates, deletes, page splits, merges and root growth, looking up a key returns exactly what the last operation on that key left, and the tree remains balanced with correct separator keys.", "quantifier": "every operation sequence, any tree size/depth, every split/merge decision", "why_tests_cant": "unbounded histories", "anchors": ["src/btree/insert.c:o_btree_insert_item", "src/btree/split.c:perform_page_split", "src/btree/merge.c:merge_pages", "src/btree/find.c:find_page"]}
{"id": "C20", "title": "Range scans return every key in range exactly once, in order", "statement": "A forward or backward scan over a key range returns each key of the range present at the scan's snapshot exactly once and in key order, even when pages split or merge between the page loads of the scan.", "quantifier": "every tree, every range, both directions, every schedule of concurrent splits and merges", "why_tests_cant": "splits/merges may happen between any two steps of the scan", "anchors": ["src/btree/iterator.c:o_btree_iterator_fetch_internal", "src/btree/iterator.c:btree_iterator_check_load_next_page", "src/btree/find.c:find_right_page", "src/btree/find.c:find_left_page"]}
{"id": "C21", "title": "Bulk index build equals the input", "statement": "Building an index from a sorted stream produces a tree whose in-order contents are exactly the stream, with correct separators and every page within its size limit.", "quantifier": "every sorted input stream of any length and item sizes", "why_tests_cant": "unbounded inputs; page-boundary cases", "anchors": ["src/btree/build.c:put_item_to_stack", "src/btree/build.c:stack_page_split", "src/btree/build.c:btree_write_index_data"]}
{"id": "C22", "title": "Page latch: exclusive writers, no torn reads, no lost wakeups", "statement": "At most one backend holds a page's write latch; a reader that validates its copy has a copy that was a committed state of the page; a backend queued on the latch is eventually made the holder or woken when the latch is released.", "quantifier": "every interleaving of latch, queue, unlatch, block-reads and optimistic copy steps of any number of backends", "why_tests_cant": "atomic-instruction interleavings", "anchors": ["src/btree/page_state.c:lock_page_or_queue", "src/btree/page_state.c:unlock_page_internal", "src/btree/page_state.c:page_block_reads", "src/btree/page_contents.c:try_copy_page"]}
{"id": "C23", "title": "Stale page references are detected", "statement": "A reference to an in-memory page taken before the page was evicted, merged away or reused never validates afterwards (until the 31-bit generation counter wraps).", "quantifier": "every history of allocate/free/reuse of a page slot of fewer than 2^31-1 reuses", "why_tests_cant": "requires reasoning over all reuse histories, including counter wraparound", "anchors": ["include/orioledb.h:O_PAGE_CHANGE_COUNT_INC", "include/btree/page_contents.h:DOWNLINK_GET_IN_MEMORY_CHANGECOUNT", "src/btree/find.c:find_page"]}
{"id": "C24", "title": "Packed references and headers decode to what was encoded", "statement": "Downlinks (in-memory, on-disk, being-read), right links, row headers, page state words, checkpoint extents and transaction-status words decode to exactly the fields they were built from, the different kinds are never confused, and no field spills into another.", "quantifier": "all field values in range", "why_tests_cant": "2^64 bit patterns", "anchors": ["include/btree/page_contents.h", "include/btree/btree.h", "include/btree/page_state.h", "include/orioledb.h:FileExtent", "src/transam/oxid.c:COMMITSEQNO_SPECIAL macros"]}
{"id": "C25", "title": "Accelerated key search equals the general search", "statement": "Where the accelerated array search for fixed-width keys applies, it selects the same position as the comparison-function search.", "quantifier": "every sorted key array of every supported type, every search key, lower and upper bound variants", "why_tests_cant": "all arrays and keys, including duplicates and extreme values", "anchors": ["src/btree/fastpath.c:int4_array_search", "src/btree/fastpath.c:fastpath_find_chunk", "src/btree/fastpath.c:tid_cmp"]}
{"id": "C26", "title": "Historical pages are reconstructed exactly", "statement": "Reading a page as of an older snapshot after the page has been split, merged or compacted yields exactly the items (and key range) the page had for the reader's key at that time.", "quantifier": "every sequence of splits/merges/compactions of a page, every reader key and snapshot", "why_tests_cant": "all histories of structure modifications", "anchors": ["src/btree/undo.c:get_page_from_undo", "src/btree/undo.c:reconstruct_split_diff", "src/btree/undo.c:reconstruct_merge_diff_half", "src/btree/page_contents.c:read_page_from_undo"]}
{"id": "C27", "title": "Free-space allocator never hands out a block twice", "statement": "An extent returned by the allocator is disjoint from every extent currently in use and from every extent still free; freeing merges neighbours without losing or duplicating a block; total free space is conserved.", "quantifier": "every sequence of allocate/free, and every interleaving of their individual index updates by concurrent backends", "why_tests_cant": "two-index update protocol under concurrency; all extent patterns", "anchors": ["src/catalog/free_extents.c:get_extent", "src/catalog/free_extents.c:free_extent", "src/catalog/free_extents.c:local_free_extents_pop"]}
{"id": "C28", "title": "Blocks of the last completed checkpoint are never overwritten", "statement": "At every moment every block referenced by the last completed checkpoint still holds the contents that checkpoint wrote, so a crash at any point recovers from an intact image.", "quantifier": "every interleaving of page writes, checkpoint phases and crashes", "why_tests_cant": "the crash point is arbitrary", "anchors": ["src/btree/io.c:get_free_disk_extent", "src/btree/io.c:get_free_disk_offset", "src/checkpoint/checkpoint.c:free_extent_for_checkpoint", "src/checkpoint/checkpoint.c:can_use_checkpoint_extents", "src/catalog/free_extents.c:add_free_extents_from_tmp"]}
{"id": "C29", "title": "Sequential file buffers are FIFO", "statement": "Values written through a sequential buffer are read back from the resulting file in the same order, none lost, duplicated or torn, across page switches, finalisation and reopening at an offset.", "quantifier": "every sequence of writes of any length and value, and interleavings of concurrent writers", "why_tests_cant": "page-boundary and concurrency cases", "anchors": ["src/utils/seq_buf.c:seq_buf_rw", "src/utils/seq_buf.c:seq_buf_switch_page", "src/utils/seq_buf.c:seq_buf_finalize", "src/utils/seq_buf.c:seq_buf_read_pages"]}
{"id": "C30", "title": "The file buffer cache is transparent", "statement": "A read through the cache returns for each byte the last value written to it, regardless of which buffers were evicted in between, and after a sync the file holds those values.", "quantifier": "every sequence of reads, writes, evictions and syncs over any offsets and sizes; any group count", "why_tests_cant": "all access patterns and victim choices", "anchors": ["src/utils/o_buffers.c:get_buffer", "src/utils/o_buffers.c:o_buffers_rw", "src/utils/o_buffers.c:o_buffers_sync", "src/utils/o_buffers.c:o_buffers_write_page_direct"]}
{"id": "C31", "title": "Cached buffers survive concurrent probes of missing files", "statement": "A write through the cache is never lost because another backend concurrently probes the same block with the 'may be missing' option.", "quantifier": "every interleaving of two backends inside the cache lookup", "why_tests_cant": "the window is a few instructions wide", "anchors": ["src/utils/o_buffers.c:get_buffer", "src/utils/o_buffers.c:o_buffers_rw"]}
{"id": "C32", "title": "A page frame is handed to one owner at a time", "statement": "The page-usage map hands out a free frame to at most one requester, and its hierarchical counters always equal the counts they summarise, so a search descends only where a matching frame can be.", "quantifier": "every sequence (and atomic-step interleaving) of allocations, releases and usage changes; any pool size", "why_tests_cant": "all pool sizes and histories", "anchors": ["src/utils/ucm.c:ucm_occupy_free_page", "src/utils/ucm.c:ucm_inc_recursive", "src/utils/ucm.c:init_ucm", "src/utils/page_pool.c:o_ppool_alloc_page"]}
{"id": "C33", "title": "WAL records are parsed as they were written", "statement": "Parsing a WAL container yields exactly the sequence of logical records that was appended, with the same fields and tuple bytes, for every mix of record kinds and flags; truncated or foreign input is reported rather than misread.", "quantifier": "every sequence of records with arbitrary fields and tuple lengths", "why_tests_cant": "unbounded sequences and contents", "anchors": ["src/recovery/wal.c:add_local_modify", "src/recovery/wal.c:flush_local_wal", "src/recovery/wal_reader.c:wal_parse_container", "include/recovery/wal.h"]}
{"id": "C34", "title": "Crash recovery yields exactly the committed transactions", "statement": "Replaying the log after a crash at any point produces the table contents of exactly the transactions whose commit record was durable, in commit-consistent order; others leave no trace.", "quantifier": "every history, every crash point (log prefix), every checkpoint position", "why_tests_cant": "the crash point is arbitrary", "anchors": ["src/recovery/recovery.c:replay_on_record", "src/recovery/recovery.c:recovery_finish_current_oxid", "src/recovery/recovery.c:recovery_finish", "src/recovery/recovery.c:apply_btree_modify_record"]}
{"id": "C35", "title": "Parallel replay equals serial replay", "statement": "Distributing log records over several workers by key yields the same final contents as replaying them serially.", "quantifier": "every log, every number of workers, every worker schedule, every key-to-worker hash", "why_tests_cant": "worker schedules are unbounded", "anchors": ["src/recovery/recovery.c:worker_send_modify", "src/recovery/recovery.c:workers_send_finish", "src/recovery/worker.c:recovery_queue_process"]}
{"id": "C36", "title": "Replaying already-applied records is harmless", "statement": "Replaying a record whose effect is already in the checkpointed image leaves the contents as if it was applied exactly once.", "quantifier": "every log and every per-page checkpoint cut", "why_tests_cant": "any subset of a log suffix may already be reflected in the image", "anchors": ["src/recovery/recovery.c:recovery_insert_primary_callback", "src/recovery/recovery.c:recovery_delete_primary_callback", "src/recovery/recovery.c:recovery_insert_overwrite_callback"]}
{"id": "C37", "title": "Rows survive formatting", "statement": "Forming a row from column values and reading any column back returns the original value and null flag, for every descriptor (fixed, variable-width, nullable) and with missing trailing columns filled with defaults.", "quantifier": "all tuple descriptors and all values", "why_tests_cant": "unbounded descriptor/value combinations; alignment cases", "anchors": ["src/tuple/format.c:o_tuple_fill", "src/tuple/format.c:o_new_tuple_size", "src/tuple/format.c:o_tuple_read_next_field", "src/tuple/format.c:o_toast_nocachegetattr"]}
{"id": "C38", "title": "Large values survive chunked storage", "statement": "A large value stored in chunks is returned unchanged; updating it to a longer or shorter value leaves exactly the new value; deleting leaves no chunk; a row version sees the value version that belongs to it.", "quantifier": "all values, all chunk sizes, all sequences of insert/update/delete, all version histories", "why_tests_cant": "chunk-boundary cases and version histories", "anchors": ["src/tuple/toast.c:generic_toast_insert_optional_wal", "src/tuple/toast.c:generic_toast_update_optional_wal", "src/tuple/toast.c:generic_toast_delete_optional_wal", "src/tuple/toast.c:generic_toast_get", "src/tuple/toast.c:o_toast_cmp"]}
{"id": "C39", "title": "Scan bounds cover exactly the qualifying keys", "statement": "The key range derived from a set of scan conditions contains every key that satisfies all of them, and a condition reported as exactly represented is satisfied by every key in the range.", "quantifier": "all combinations of operators, constants, directions, nulls and column orderings", "why_tests_cant": "combinatorial explosion of conditions", "anchors": ["src/tableam/key_range.c:o_key_data_to_key_range", "src/tableam/key_range.c:o_fill_row_key_bound"]}
{"id": "C40", "title": "Unique constraints hold for every history", "statement": "At no time do two live (committed or same-transaction) rows with the same unique key coexist; an insert that would create one waits for or fails against the other.", "quantifier": "every interleaving of inserts, deletes, commits and aborts on a unique index", "why_tests_cant": "race outcomes depend on the interleaving", "anchors": ["src/btree/modify.c:o_btree_insert_unique", "src/btree/modify.c:o_btree_modify_handle_conflicts", "src/btree/modify.c:page_unique_check"]}
{"id": "C41", "title": "Secondary indexes agree with the table", "statement": "After any sequence of inserts, updates and deletes, each index contains exactly one entry for each live row satisfying its predicate, with that row's key, and nothing else.", "quantifier": "every operation sequence, any set of indexes, predicates and key functions", "why_tests_cant": "unbounded histories", "anchors": ["src/tableam/operations.c:o_tbl_indices_overwrite", "src/tableam/operations.c:o_tbl_indices_reinsert", "src/tableam/operations.c:o_tbl_indices_delete", "src/tableam/operations.c:o_update_secondary_index"]}
{"id": "C42", "title": "Key bitmaps are exact sets", "statement": "A key bitmap contains exactly the keys inserted; union and intersection are exact; stepping returns the members in ascending order without skipping any, and a reported empty range really is empty.", "quantifier": "all insertion sequences and queries", "why_tests_cant": "unbounded sets", "anchors": ["src/tableam/key_bitmap.c:o_keybitmap_insert", "src/tableam/key_bitmap.c:o_keybitmap_union", "src/tableam/key_bitmap.c:o_keybitmap_intersect", "src/tableam/key_bitmap.c:o_keybitmap_get_next", "src/tableam/key_bitmap.c:o_keybitmap_range_is_valid"]}
{"id": "C43", "title": "Primary keys map to bitmap keys monotonically and reversibly", "statement": "Encoding a primary key for bitmap scans preserves key order, is injective, and decoding returns the original key.", "quantifier": "all key values of the supported types", "why_tests_cant": "2^64 values, sign boundaries", "anchors": ["src/tableam/bitmap_scan.c:val_get_uint64", "src/tableam/bitmap_scan.c:uint64_get_val", "src/tableam/bitmap_scan.c:o_pk_encode_one", "src/tableam/bitmap_scan.c:o_pk_decode_one"]}
{"id": "C44", "title": "Concurrent index creation captures every change", "statement": "An index created concurrently with writes contains, when it becomes valid, exactly the entries implied by the table, no matter how captured changes are spread over writers and replayed.", "quantifier": "all interleavings of writers with the build scan and the replay, all spool splits", "why_tests_cant": "interleavings", "anchors": ["src/catalog/cic_spool.c:cic_spool_read_next", "src/catalog/cic_spool.c:cic_spool_replay_into", "src/catalog/cic_spool.c:cic_replay_insert_callback"]}
{"id": "C45", "title": "Object-store task queue processes each task exactly once", "statement": "Each task put on the object-store queue is picked by exactly one worker, tasks are never overwritten while pending, and waiting for a location returns only after all earlier tasks were finished.", "quantifier": "every interleaving of producers and workers, any queue and task sizes", "why_tests_cant": "lock-free ring buffer interleavings", "anchors": ["src/s3/queue.c:s3_queue_put_task", "src/s3/queue.c:s3_queue_try_pick_task", "src/s3/queue.c:s3_queue_erase_task", "src/s3/queue.c:s3_queue_wait_for_location"]}
{"id": "C46", "title": "File parts are never evicted or overwritten while in use", "statement": "A cached file part is never evicted while locked by a user or while it has unwritten changes, and the state transitions never lose a lock.", "quantifier": "every interleaving of the part-state transitions", "why_tests_cant": "compare-and-swap interleavings", "anchors": ["src/s3/headers.c:s3_header_lock_part", "src/s3/headers.c:s3_header_unlock_part", "src/s3/headers.c:s3_header_mark_part_loading", "src/s3/headers.c:eviction_callback"]}
{"id": "C47", "title": "Catalog metadata survives serialisation", "statement": "Table and index metadata written to the system catalog and read back is unchanged.", "quantifier": "all metadata values", "why_tests_cant": "unbounded structures", "anchors": ["src/catalog/o_tables.c:serialize_o_table", "src/catalog/o_tables.c:deserialize_o_table", "src/catalog/o_indices.c:serialize_o_index", "src/catalog/o_indices.c:deserialize_o_index"]}
{"id": "C48", "title": "Catalog key order is a total order", "statement": "The comparison functions of the system catalogs are total orders consistent with key equality, and a prefix key positions a scan before/after all of its entries as intended.", "quantifier": "all pairs and triples of keys", "why_tests_cant": "all key triples", "anchors": ["src/catalog/sys_trees.c:o_table_chunk_cmp", "src/catalog/sys_trees.c:o_index_chunk_cmp", "src/catalog/sys_trees.c:free_tree_off_len_cmp", "src/catalog/sys_trees.c:free_tree_len_off_cmp"]}
{"id": "C49", "title": "Rewind restores the state after the chosen transaction", "statement": "Rewinding to a transaction undoes exactly the transactions committed after it, in reverse order, and the rewind queue keeps every transaction within the configured window across evictions.", "quantifier": "every history and every rewind target within the window, any queue sizes", "why_tests_cant": "unbounded histories", "anchors": ["src/rewind/rewind.c:do_rewind", "src/rewind/rewind.c:add_to_rewind_buffer", "src/rewind/rewind.c:evict_rewind_items", "src/rewind/rewind.c:try_restore_evicted_rewind_page"]}
{"id": "C50", "title": "Compressed and checksummed pages are read back unchanged or rejected", "statement": "A page written with or without compression is read back byte-identical, the number of file blocks used covers the data, and a corrupted control file is rejected.", "quantifier": "all page contents and compression outcomes", "why_tests_cant": "all byte strings", "anchors": ["src/btree/io.c:write_page_to_disk", "src/btree/io.c:read_page_from_disk", "src/checkpoint/control.c:check_checkpoint_control", "include/orioledb.h:FileExtentLen"]}
{"id": "C51", "title": "Bitmap scans skip only pages without wanted rows", "statement": "When a bitmap scan decides from a page's key bounds that it need not be read, no key of the bitmap lies on that page; and a page that is read for the bitmap holds the position of some wanted key.", "quantifier": "all bitmaps and all page bounds, including the open bounds of the first and the last page", "why_tests_cant": "depends on extreme key values and page boundaries", "anchors": ["src/tableam/bitmap_scan.c:o_bitmap_is_range_valid", "src/tableam/bitmap_scan.c:o_bitmap_get_next_key", "src/btree/scan.c:get_next_downlink"]}
{"id": "C52", "title": "Creating, dropping and rewriting storage keeps exactly the right files", "statement": "After any history of transactions with savepoints that create, drop, truncate or rewrite tables and indexes, a table or index has files on disk exactly if it is committed, was created by a running transaction, or its removal waits for the end of a base backup. What a committed transaction created was flushed before its commit, no file that existed when a backup began is removed during it, and postponed removals are carried out after it.", "quantifier": "all interleavings of creations, drops, replacements, savepoints, commits, aborts and backups by any number of transactions, any number of trees per relation, any record capacity", "why_tests_cant": "the records of a relation are split by capacity, undone in parts at savepoints and postponed during backups; tests run a few of the combinations and do not look for files left behind or removed too early", "anchors": ["src/btree/undo.c: add_undo_relnode, btree_relnode_undo_callback, add_pending_truncate, check_pending_truncates", "src/transam/undo.c: walk_undo_stack, precommit_undo_stack"]}
{"id": "C53", "title": "A sequential scan reads every row exactly once", "statement": "A sequential scan of a table, by one process or by any number of parallel workers, that runs to its end has read every part of the key space exactly once: no row is returned by two workers or twice by one, and no row is left out, whatever splits and merges the tree undergoes while it is scanned and whether its pages are in memory, being read or on disk. A scan with a range condition does the same for the rows of the range.", "quantifier": "all numbers of workers, all interleavings of their steps, all sequences of internal page images that a changing tree can present, all outcomes of the page reads", "why_tests_cant": "the outcome depends on the order of single atomic operations of the workers and on merges between two page loads; tests see one schedule", "anchors": ["src/btree/scan.c: get_next_downlink, load_next_internal_page, get_current_downlink_key, iterate_internal_page, add_on_disk_downlink, switch_to_disk_scan, load_next_disk_leaf_page"]}
{"id": "C54", "title": "A scan of a leaf that changed after the snapshot returns the rows of the snapshot and its own writes", "statement": "When a sequential scan reads a part of a table that has been changed since its snapshot, it returns each key of that part at most once and in key order: a row that its own transaction has written in its newest version, any other row as it was at the snapshot, including rows deleted or moved away since, and nothing that belongs to a neighbouring part.", "quantifier": "all contents of the current leaf, all sequences of historical pages that stood in its place, all positions of page boundaries", "why_tests_cant": "the merge of current and historical pages depends on how page boundaries moved and on which keys both sides have; tests try a few layouts", "anchors": ["src/btree/scan.c: btree_seq_scan_getnext_internal, load_first_historical_page, load_next_historical_page"]}
{"id": "C55", "title": "A bitmap scan returns every wanted row of a leaf once, also when a partial read fails", "statement": "For a leaf that it reads, a bitmap scan returns every row whose key is in the bitmap, no row twice and in key order, even if a concurrent change of the page makes a later part of the leaf unreadable and the scan has to resume with an index lookup; if nothing fails it returns no row outside the bitmap.", "quantifier": "all leaves and divisions into chunks, all bitmaps, all points of failure of chunk loads", "why_tests_cant": "failures of chunk loads are races with writers; which rows are repeated or skipped depends on chunk boundaries, gaps in the bitmap and the point of failure", "anchors": ["src/btree/scan.c: adjust_location_with_next_key, apply_next_key, btree_seq_scan_getnext_internal, btree_seq_scan_get_tuple_from_iterator"]}
