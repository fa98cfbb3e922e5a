# Formal model of OrioleDB in Coq — design

## 1. Layout and conventions

* `rocq/theories/<Area>Model.v`  – executable Gallina definitions that follow the C code function by
  function. Every definition cites the file and lines it models; simplifications are stated there.
* `rocq/theories/<Area>Spec.v`   – small independent specification (only when the property needs more
  than stdlib vocabulary).
* `rocq/theories/<Area>Proofs.v` – lemmas.
* `rocq/theories/<Area>Props.v`  – the property theorems, nothing else: statement, `exact lemma`,
  `Print Assumptions`, and an `Example` exhibiting a concrete non-trivial case that meets the
  hypotheses.

Modelling rules:

* Integers are `Z`/`N`; wraparound is written out where the C type can wrap.
* Concurrency: each atomic step of the C code (one atomic instruction, or one critical section) is one
  step of a transition system; a theorem about schedules quantifies over every finite list of steps
  (every interleaving) by `fold_left` or by a reachability relation, never over a bounded number.
  Memory is sequentially consistent (the code inserts barriers where it relies on ordering; weak memory
  is not modelled).
* Pieces of the environment (PostgreSQL executor, file system calls, LZ/zstd, hash functions,
  comparison functions of user types) are arguments of the model (functions or oracles), with their
  contract as an explicit hypothesis of the theorem.
* A crash drops everything volatile and keeps what was made durable.

## 2. Trusted base

* Coq 8.16.1 kernel (and `vm_compute`/`lia` certificates checked by it).
* `Print Assumptions` is run under every property theorem. Expected answer: "Closed under the global
  context". Any standard-library axiom that shows up is listed in section 5.
* The correspondence between the C code and the Gallina definitions (by reading; each definition cites
  its lines). Not modelled: the C memory model, PostgreSQL itself, the operating system.

## 3. Plan per property

| id | model | proof method |
|----|-------|--------------|
| C01 | version chain = page tuple header + undo list; `o_find_tuple_version` loop over a chain; status map given by a function | induction over the chain, equality with a specification "newest visible version" |
| C02 | same model + row operations of other transactions (push version, push lock, rollback, commit) | invariant: visible version unchanged by any op of another transaction that commits after the snapshot |
| C03 | per-row chain operations and the undo walk that reverts them | induction over the operation list: rollback ∘ ops = identity |
| C04 | undo stack with subtransaction items, `search_for_undo_sub_location`, branch items | invariant over all savepoint programs, refinement to a stack-of-lists specification; code violates the full claim (finding F1) → `_refuted` witness and conditional theorem |
| C05 | lock chain, `row_lock_conflicts`, grant step | inductive invariant: held locks pairwise compatible |
| C06 | same | induction over the chain |
| C07 | xid ring + buffers + frontiers, each atomic step a transition | inductive invariant, refinement to a map oxid→status |
| C08 | page-level flush with dirty bitmap | sequential theorem (no concurrent writer): everything durable; concurrent claim refuted by witness (F3, F4) |
| C09 | nextXid fetch-add, ring occupancy | inductive invariant |
| C10 | bitmap allocator, 32-bit arithmetic | arithmetic mod 2^32 + invariant over acquire/release |
| C11 | per-process xmin slots, min computation as multi-step scan | inductive invariant with scan-in-progress ghost state |
| C12 | publish/validate protocol steps and minima recomputation | inductive invariant over interleavings |
| C13 | ring/caches/disk byte stores | invariant: logical content function = overlay of the stores |
| C14 | advanceReserved/lastUsed/written counters | inductive invariant |
| C15 | `unlink_unretained_o_buffers` case analysis | pure arithmetic, all ranges |
| C16 | command array append + binary search | induction, loop invariant of the binary search |
| C17 | page as list of chunks; search loops | loop invariants; equality with "first not less" |
| C18 | memory of a page as words, with chunk descriptors, arrays, keys; insert, resize, delete, chunk merge and split, reorganisation | refinement: the page represents a list of groups of items, and each operation commutes with the operation on the list; the two passes of the reorganisation keep each item readable until it is in place |
| C19 | multi-level tree of pages with separators | invariants preserved by insert/split/merge; refinement to map |
| C20 | iterator state + tree that may change between steps | invariant: returned ++ remaining = spec |
| C21 | stack of open pages with byte sizes; downlinks carry their pages (`Build*.v`) | fold invariants for sizes, contents and separators; bounds on the split loop; refutations |
| C22 | page state word + waiter list as transition system | inductive invariant |
| C23 | change-count increments | arithmetic mod 2^31 |
| C24 | bit-field encode/decode | `Z.testbit`/`lia` round trips |
| C25 | array search loops | equality with specification search |
| C26 | pages, page-level undo records, snapshots and their readers; any interleaving of writes, commits, aborts, splits, merges, compactions, retention | invariant: every chain a snapshot can still need leads to an image exact on the range it answers for; refutations for scans (F67-F70) |
| C27 | two indexes as finite sets, steps of get/free | inductive invariant (disjointness, conservation) |
| C28 | block map with checkpoint phases | inductive invariant over all steps incl. crash |
| C29 | two-page buffer over a chunked file | refinement to a list of values |
| C30 | buffer groups over a block file | refinement to a byte function |
| C31 | two-process step system | refuted by witness (F5) + conditional theorem |
| C32 | nibble-counter tree | invariant: inner counter = number of children non-zero |
| C33 | byte encoders/decoders of all record kinds | round-trip by induction over record list |
| C34 | recovery transaction table over the log | refinement to "apply committed transactions" |
| C35 | per-worker queues by key hash | commutation of operations on different keys |
| C36 | replay callbacks on a per-key state | idempotence/monotonicity lemma, induction over the log |
| C37 | form and read rows at byte level, with the offset cache of the descriptor | layout lemma per column, invariant on the cache over any read sequence; refutations by witness |
| C38 | chunk map keyed by (key, offset) | induction over chunks |
| C39 | per-column bound computation | order reasoning over an arbitrary total order |
| C40 | unique-insert protocol on version chains | inductive invariant |
| C41 | table map + index maps | invariant over operation lists |
| C42 | radix tree of bitmaps | refinement to sets of N |
| C43 | sign-flip arithmetic | `lia` mod 2^64 |
| C44 | spool capture, rollback entries, merging reader, replay, covering pass, unique validation | order of merged entries + exact contents for any schedule (invariant over writers); refutations for the shared buffer, uncaptured updates and the validation |
| C45 | ring of tasks as transition system | inductive invariant |
| C46 | part-state word transitions | inductive invariant |
| C47 | serialisers | round-trip |
| C48 | comparators | order axioms |
| C49 | rewind queue (rings, file, worker, backward walk), target checks, undo of row versions | invariants over all schedules; walk = specification by induction on the queue; refutations for commit order, older transactions, future identifiers, late entries |
| C50 | page write/read with compression oracle | round-trip |
| C51 | page-bound callback over the key bitmap | from C42; refuted for the greatest key (F18) |
| C52 | undo records of relation storage, their callbacks, the file of postponed removals in bytes | catalog beside the program; invariant over all histories; postponed removals refuted (F38) |
| C53 | shared state of a parallel sequential scan, any number of workers, page images chosen by the environment | account of every key: read, held by a worker, queued, not handed out; refutations F71, F72, F73, F74 |
| C54 | the merge of one leaf with its historical pages as a recursive function over both item lists | induction over the turns of the loop: output ascending, and exactly the rows due |
| C55 | the walk over the chunks of a leaf driven by the next wanted key, chunk loads that fail at any turn, resumption by an iterator | induction over the turns: the rows still due are the wanted rows after the last key processed; with a historical page, the lemmas of C54 restricted to the bitmap; refutation F75 |

## 4. Findings (code behaviour that contradicts a property)

* **F1** (C04). `minParentSubId` (src/transam/undo.c:90, 3019-3031) is set when the first subtransaction
  item is recorded and never lowered. `BEGIN; SAVEPOINT a; INSERT r0; SAVEPOINT b; RELEASE b; RELEASE a;
  INSERT r1; SAVEPOINT c; INSERT r2; ROLLBACK TO c` reverts r0 and r1 too.
* **F2** (C34). `walk_undo_stack` (undo.c:1488) stores the retain location of undo type 0 whatever
  the undo type being walked is.
* **F3** (C08/C13). `flush_dirty_xidsmap_range` / `flush_dirty_undo_range` read the straddling page from
  the buffer cache and later overwrite cache and disk with it; a concurrent store below the drained
  frontier in between is lost.
* **F4** (C08). When the drained frontier is not page aligned and the ring is nearly full, the first and
  last logical pages share one physical page and one dirty bit; the last partial page is not flushed.
* **F5** (C31). `get_buffer` with `missing_ok` invalidates the buffer after releasing the group lock; a
  second backend that already matched the buffer then writes into an invalidated buffer
  (proved: `C31_write_survives_probe_refuted`).
* **F6** (C32). `ucm_next_blkno` compares against `UCM_LEVELS` instead of `UCM_USAGE_LEVELS`; harmless for the only
  caller (mask 1).

* **F7** (C15). A cleanup boundary strictly inside the last block of a file leaves that file on disk forever, contrary
  to the comment o_buffers.c:623-625 (proved: `C15_no_orphan_files_unaligned_refuted`).
* **F8** (C29). `seq_buf_read_pages` keeps a file length in an `int`; files of 2 GB and more are truncated. The model
  uses unbounded offsets, so the theorems of C29 are about files below 2 GB.

* **F9** (C11, C02). `undoLocCmp` (undo.c:3464-3475) orders registered snapshots by undo location only, and
  `orioledb_reset_xmin_hook` takes the xmin of the snapshot on top of each heap. The location is the shared minimum
  `minProcTransactionRetainLocation`, which changes rarely, so snapshots normally tie. PostgreSQL's pairing heap keeps no
  insertion order among equal keys: with registered snapshots S0, S1, S2 (for example three open cursors in READ
  COMMITTED), releasing S0 puts S2 on top, the process publishes S2's xmin, and the global horizon passes
  transactions that committed after S1 was taken; S1 then sees them as frozen
  (proved: `C11_horizon_safe_for_snapshots_refuted`).
* **F10** (C08). A partial drain of a page whose dirty bit is clear writes the block cache with `mark_clean`, which
  resets the dirty flag of the whole cached page (o_buffers.c:390-392). A status that was recorded directly in that
  cached page since the last flush is then never written back: flush, record a drained transaction, drain part of
  the same page, flush again. No concurrency needed (proved: `C08_flush_durable_refuted_clean`).
  F3 and F4 are proved too: `C08_flush_durable_refuted_reload`, `C08_flush_durable_refuted_share`.
* **F11** (C12). Group insert: `add_new_undo_stack_item_to_process` (btree/undo.c:448-492) stores the waiter's
  `transactionUndoRetainLocation` without the change-count handshake of `set_my_reserved_location`. If a running
  `update_min_undo_locations` has already read the waiter's slot and the inserting transaction ends before the scan
  reaches its own slot, the published minimum exceeds the waiter's undo location, so its undo may be dropped while it
  is unfinished (proved: `C12_unfinished_undo_retained_refuted`).
* **F12** (C13). The same as F10 for undo: a page is partly drained and flushed; an in-place update of its drained part
  dirties the cached page; draining the rest while the ring's dirty bit is clear writes the block cache with
  `mark_clean`, so the update is never written back (proved: `C13_marked_clean_refuted`). F3 and F4 hold for undo as
  well: `C13_reload_refuted`, `C13_shared_bit_refuted`.
* **F13** (C13). `undo_write_if_exists` (undo.c:3355-3458) publishes a reservation and rechecks only
  `writeInProgressLocation`. The minimum computed by `update_min_undo_locations` over retain locations ignores
  `reservedUndoLocation`, and outside an eviction it moves both frontiers to that minimum without waiting for
  reservations (undo.c:672-690). When the record is no longer retained, the frontier can pass it after the recheck, its ring
  cells can go to a new record, and the late `memcpy` overwrites that record (proved:
  `C13_write_if_exists_refuted`).
* **F14** (C22). `page_wait_for_changecount` takes the remembered page state as `uint32` (page_state.c:681) while the
  change count sits in bits 20-51, so only its low 12 bits survive. Once a page has changed 4096 times `relock_page`
  no longer waits for a change: it spins through unlock and lock (proved: `C22_relock_waits_refuted`).
* **F15** (C22). Semaphore posts absorbed while waiting for a latch are lost, so another user of the process
  semaphore can sleep forever: `lock_page_with_tuple` leaves `extraWaits` at -1 after each `while (extraWaits-- > 0)`
  (page_state.c:582-585) and then counts from there; `page_wait_for_changecount` returns at page_state.c:696 without
  giving back what it absorbed (proved: `C22_posts_kept_refuted_tuple`, `C22_posts_kept_refuted_relock`).
* **F16** (C22). The comment at page_state.c:1073 says the release wakes the oldest exclusive waiter, but the list starts
  at the newest: under contention an early waiter can be passed over indefinitely (proved: `C22_oldest_first_refuted`).
* **F17** (C43). `val_get_uint64` (bitmap_scan.c:182) shifts the block number of a row identifier by 16 in 32-bit
  arithmetic, so blocks from 65536 on lose their upper half: (65536, 1) and (0, 1) get the same bitmap key, and the key
  decodes to the wrong row. A table without primary key reaches block 65536 after about 134 million insertions; bitmap
  scans on it then miss rows. Proved: `C43_tid_refuted`, `C43_tid_collision`; right below that block (`C43_tid_order_partial`).
* **F18** (C51). `o_bitmap_is_range_valid` (bitmap_scan.c:1803) replaces a missing upper bound by UINT64_MAX (24 bytes 0xFF),
  but the range test excludes its upper bound. On the rightmost page a wanted row with key 2^63-1 (bigint), or an all-0xFF
  composite key, is skipped together with its page. Proved: `C51_page_skip_refuted`, `C51_fixed_page_skip_refuted`.
* **F19** (C01, C02, C03). `o_find_tuple_version` (iterator.c:705-895) tests each header of the chain, lock-only ones included,
  for "committed before my snapshot" and then takes the row image found there; only the locks at the head are skipped. Transaction 2 updates
  a row, transaction 3 takes a KEY SHARE lock, 2 updates again, 3 commits: everybody now reads the first, uncommitted update of 2, until 2 rolls
  back. Proved: `C01_refuted`, `C02_refuted`; right when no such mark exists (`C01_partial`), in particular without SELECT ... FOR.
* **F20** (C05, C03). The flag "locks below" can be cleared above a live lock, which then no longer conflicts with anything.
  (a) `clean_chain_has_locks_flag` (btree/undo.c:1684-1730) called from a rollback after the last snapshot was dropped compares
  undo locations with an invalid retain location and clears the page header only, whatever lies below. (b) With all snapshots held, a stale flag
  deep in the chain makes a walk under an older snapshot clear flags of headers above a newer lock. Either way a DELETE is granted
  beside a KEY SHARE lock. Proved: `C05_refuted`, `C05_refuted_with_snapshots`.

* **F21** (C33). `wal_commit` and `wal_rollback` with no material changes (wal.c:240-246, 301-307) empty the local buffer but leave
  `contains_xid` (and `contains_switch_xid`) set. A session whose transaction wrote only such records (a function taking row locks inside
  a PL/pgSQL EXCEPTION block writes XID and SAVEPOINT) writes its next transaction's changes and commit without an XID record, so
  replay attributes them to no transaction. Proved: `C33_refuted`. Observation: a container version whose low byte is below 16 (256 is the first)
  would be read as the unversioned format.

* **F22** (C34). RELEASE SAVEPOINT is not logged, and the search for a savepoint item in the undo stack of a replaying transaction
  (search_for_undo_sub_location, undo.c:2846-2906) takes a mismatching top item for "roll back the whole transaction".
  `BEGIN; INSERT r0; SAVEPOINT a; INSERT r1; SAVEPOINT b; INSERT r2; RELEASE b; ROLLBACK TO a; COMMIT` loses r0 when replayed.
  Proved: `C34_released_savepoint_refuted`.

* **F23** (C34). walk_checkpoint_stacks (recovery.c:1770-1840) frees the checkpointed undo stack of a transaction even when called for a
  SAVEPOINT or ROLLBACK TO SAVEPOINT record. A transaction unfinished at the checkpoint that takes a savepoint afterwards and then aborts (or is
  cut by the crash) keeps its changes from before the checkpoint. Proved: `C34_checkpoint_savepoint_refuted`, `C34_checkpoint_savepoint_abort_refuted`.

* **F24** (C34). A subtransaction abort (undo_subxact_callback, undo.c:2987-3060) releases its rows in memory before its rollback record is logged.
  The log may read "X modifies k; Y modifies k; Y commits; X rolls back to savepoint", and the replay of Y's record waits for X for ever.
  Proved: `C34_subabort_order_refuted`.

* **F25** (C36). Replay can wait for ever. Transaction 2 logs a record; 1 changes row k and commits; 2 changes k; the checkpoint image gets k with the version of 2. When the record of 1 on k is replayed, 2 is already known to be running (recovery_map_oxid_csn, recovery.c:1619-1631, treats only transactions without any replayed record as aborted), so the change waits for 2, whose commit is later in the same log (the comment at modify.c:639-671 admits the non-converging retry). `C36_refuted`.
* **F26** (C25). The accelerated search of fixed-width keys compares floats with C operators; a NaN in any key column but the first makes it descend into the child starting at the NaN although the key is below (`C25_refuted_nan`), so an existing row is not found.
* **F27** (C25). The accelerated search looks only at the unique columns of a secondary unique index. A lower bound `a >= 5` then skips children that hold entries `(5, pk)` when a later child starts with another entry `(5, pk')` (one of them deleted but still needed by a snapshot): `C25_refuted_unique_prefix`.
* **F28** (C25). Excluded upper bounds and unbounded descending columns also select another child (`C25_refuted_upper_exclusive`, `C25_refuted_descending`); the former is harmless for backward scans, the latter starts past the entries of the range.
* **F29** (C39). A row comparison over index columns of different directions is turned into a bound by the direction of its first column only (`o_key_data_to_key_range`, `row_key_tuple_is_valid`): `(a, b) > (1, 2)` on an index `(a, b DESC)` misses `(1, 5)` and returns `(1, 0)`. Refuted as `C39_refuted_mixed_row`.
* **F30** (C39). When equalities cover every column the scan is a point lookup that skips the filter, and a row comparison present in the same scan is not consulted: `a = 1 AND b = 2 AND (a, b) > (3, 4)` returns `(1, 2)`. Refuted as `C39_refuted_row_exact`.
* **F31** (C46). `s3_header_mark_part_scheduled_for_write` does not look at the writing flag, so a second upload of a part can be queued and begun while the first runs; the end of the first clears the one writing flag, the part counts as clean, is evicted and zeroed, and the second upload stores zeroes (or the first, older, contents arrive last). Refuted as `C46_refuted_two_uploads`.
* **F32** (C46). A worker restarted after an error repeats the task in its slot. A repeated download writes the object over the local part before it looks at the status, losing changes made since the part was marked loaded (`C46_refuted_download_replayed`); a repeated upload can store the zeroes of a part evicted meanwhile (`C46_refuted_upload_replayed`).
* **F33** (C45). `s3_queue_get_task` assembles a task that runs over the end of the circular buffer from two chunks, and the first `memcpy` has its arguments exchanged (queue.c:252-254): it copies the fresh allocation into the queue. The worker carries out a task whose first part is uninitialised memory (`C45_refuted_wraparound`).
* **F34** (C45). `s3_queue_erase_task` first advances the erased location and then clears the length word of the erased task (queue.c:308-312). A producer waiting for the space may have written its own length there in between; the clear then hides that task for ever, together with all tasks behind it (`C45_refuted_late_clear`). Another eraser that arrives at the same word one lap later can take the old flagged length for a task that was never put and move the erased location past the insert location, so waiting for a location returns early (`C45_refuted_overrun`).
* **F35** (C48). `o_sys_cache_key_cmp` (catalog/o_sys_cache.c:2268) assigns the difference of two Datums to an int. Object ids 2^31 or more apart compare the wrong way round, and three ids form a circle, so the cache tree is not ordered once the oid counter passed 2^31. Theorem `C48_refuted_cache_order`.
* **F36** (C48). The catalog of undo locations by transaction id compares with `TransactionIdPrecedes`, which is no order on ids more than 2^31 apart (`C48_refuted_xid_order`).
* **F37** (C48). `o_table_chunk_cmp` and the free extent comparators leave out the tablespace although include/orioledb.h:273-281 makes it part of a tree's identity (`C48_refuted_table_tablespace`). `o_tables_foreach_oids` does not terminate if relfilenode 2^32-1 is in use, as the next key wraps to the start of the database (`C48_refuted_visit`).
* **F38** (C52). `add_pending_truncate` (btree/undo.c:775) writes the number of trees and the trees at file offset 0 instead of the running offset, and passes the address of the pointer instead of the trees. After any DDL commit during a base backup the list in the file is shorter than its recorded length. Every later `check_pending_truncates` therefore ends the background writer with FATAL and the list is never emptied, so the files of dropped tables stay (`C52_refuted_postponed`, `C52_refuted_postponed_reached`, `C52_refuted_leak`). The bytes it does read are stack contents, which may name a table nobody dropped (`C52_refuted_innocent`).
* **F39** (C38). Reading a large value whose length is a whole number of pieces fails when a deleted chunk of a longer older value is still in the tree. `generic_toast_get` only stops at a piece shorter than the maximum, and `o_find_tuple_version` does not look at the deleted mark when a callback is given (iterator.c:857), as it is for every read of a table's large values; the left chunk is returned, the length does not match, and the read returns NULL, which `o_detoast` passes on. Proved as `C38_refuted_leftover` (after commit) and `C38_refuted_leftover_own` (same transaction); `C38_ex_cleaned` shows the read working again after the space is reused.
* **F40** (C38). The size of the pieces depends on the length of the stored primary key, and the read computes it from the key of the row version. An update which rewrites the key to an equal but shorter image (numeric scale, nondeterministic collation) and keeps the large value leaves the chunks in the old piece size; the read then stops at the first piece and returns NULL. Proved as `C38_refuted_key_image`.
* **F41** (C50). `get_checkpoint_control_data` (control.c:55) takes a control file of zero bytes for "no checkpoint was ever made": this kind of damage is not rejected (`C50_refuted_emptied_control`). The descriptor is also left open on this path.
* **F42** (C50). In object-store mode `S3_GET_CHKP_NUM` keeps eight bits of the checkpoint number (orioledb.h:420), while every checkpoint starts giving out blocks from zero (checkpoint.c:2152). A page written by checkpoint N+256 lands on the bytes of a page of checkpoint N that may still be referenced (`C50_refuted_s3_reuse`).
* **F43** (C46). `btree_smgr_write` (io.c:676-688) decides which second part to upload from the value of `amount` left by its loop, not from the size of the write. When a compressed image crosses a part boundary with its larger share in the first part, the second part is written locally and not scheduled for upload (`C46_refuted_second_part_not_uploaded`).
* **F44** (C37). Reading one column of a stored row (`o_fastgetattr`) does not look at the number of columns the row was stored with. For a row stored before `ALTER TABLE … ADD COLUMN … DEFAULT`, a header-less row gives null instead of the default, a row with a null bitmap gives whatever the bitmap padding says, and a row with a header but no nulls gives a pointer past its end once a newer row has made the descriptor remember the column's offset. Reading the columns in order (`o_tuple_read_next_field`, used for query slots) is correct. Callers that ask for such columns: logical decoding of tables with out-of-line columns (`o_convert_toast_pointers`, logical.c:169-176, loops over all current columns of the old row) and `orioledb_tbl_structure` (func.c:88).
* **F45** (C49). A commit becomes visible before its place in the rewind queue is reserved. Another backend can change the same row, commit and reserve first. The rewind then undoes the older change first, finds a newer version on top, skips it, and the older value stays (`C49_refuted_commit_order`).
* **F46** (C49). The walk stops at the first entry whose identifier is smaller than the target. A transaction that began before the target and committed after it stops the rewind at once, and nothing is undone (`C49_refuted_older_transaction`).
* **F47** (C49). With a future heap identifier and a valid OrioleDB identifier the function warns that it goes by the OrioleDB one only, but still passes the heap one on. The walk then stops at the first entry with a heap identifier (`C49_refuted_future_xid`).
* **F48** (C49). The undo retain location is put in an entry when the entry is written, not when its place is taken. A transaction behind it can finish in between, and the undo it needs for a rewind is given up while it is still in the window (`C49_refuted_undo_dropped`).
* **F49** (C49). A transaction whose subtransactions need at least as many entries as the ring holds waits for space for ever, inside a critical section (`C49_large_transaction_hangs`).
* Read but not modelled (C49): a rewind on an empty queue waits ten seconds for the worker and fails; the rewinding backend holds the eviction lock the worker may need; the checkpointer copies the queue while the worker may be emptying cells.
* **F50** (C44). The merging reader of the concurrent-build spool peeks every file into one shared payload buffer (cic_spool.c:293-332, 417-460). With two or more spool files an operation is replayed with another file's tuple. A row deleted by one session during CREATE INDEX CONCURRENTLY can stay in the valid index (`C44_two_writers_refuted`).
* **F51** (C44). UPDATE of an indexed column during the build is not captured (handler.c:838-890, operations.c:2085-2154): it changes the half-built tree directly. A captured insert of the old key replayed later leaves two entries for the row (`C44_update_refuted`); if the old entry is only in the spool, the UPDATE statement fails.
* **F52** (C44). The unique validation with NULLS NOT DISTINCT rejects any adjacent pair in which either side has a NULL, even if the other side is a value (indices.c:1009-1033, `C44_nulls_not_distinct_refuted`).
* **F53** (C44). The unique validation assumes key order, but its scan visits leaves in memory first and leaves on disk by file offset (btree/scan.c, not ordered); a duplicate across two leaves is missed and the index becomes valid (`C44_unique_scan_order_refuted`).
* **F54** (C44, read only, no theorem). `cic_spool_drop_dir(tableOids, oxid)` at the end (indices.c:1081) uses the third phase's transaction number, while the directory was created with the build phase's; the directory stays until the next restart.
* **F55** (C21). `btree_write_index_data` (build.c:349-367) remembers the root level before its closing loop. If the downlink that the loop puts into the root page splits it, the root level grows by one, the loop ends, and the right half left in the stack is neither written nor linked: the rows below it are missing from the new index. Seven rows with keys of the largest size do it at the default fillfactor (`C21_top_split_loses_rows_refuted`).
* **F56** (C21). `put_item_to_stack` applies the fillfactor to an empty page too. At fillfactor 10 a 600-byte row asks for a split of a page without rows; `btree_page_split_find_location` returns false and the location is used uninitialised outside assertion builds (`C21_low_fillfactor_refuted`).
* **F57** (C21). At fillfactor 10 with keys near 300 bytes each page above the leaves holds a single downlink, so every new leaf adds a level and the stack array of ORIOLEDB_MAX_DEPTH entries is overrun (`C21_depth_refuted`).
* **F58** (C28). For compressed trees `add_free_extents_from_tmp` (`src/catalog/free_extents.c:551-640`) moves on to the next checkpoint number only when the `.tmp` file does not exist. With `orioledb.remove_old_checkpoint_files = off` the file stays, so the loop reads the same file again and again, adding the same extents each time, while the meta lock is held. Its `remove` argument is not used. Found by reading; not modelled (compressed trees are outside the C28 model).
* **F59** (C47). `deserialize_o_index` (`src/catalog/o_indices.c:1064-1088`) treats the last byte of the record, the state of a concurrent build, as optional. A reader that sees all chunks but a last chunk of one byte, the situation the retry loop in `o_indices_get_extended` is there for, gets an index in state VALID although it is still being built (`C47_refuted_index_cut_short`). For tables every record cut short is refused.
* **F60** (C41). An index that names a column twice, such as (c1, c1, c2), stores the column once. `orioledb_aminsert` removes the repeated value before it appends the row identifier (handler.c:721-754); `orioledb_amupdate` and `orioledb_amdelete` do not. The row identifier then overwrites c2 in the key they form. An UPDATE of c2 compares two equal keys and leaves the old entry (`C41_refuted_repeated_column_update`); a DELETE does not find its entry and fails (`C41_refuted_repeated_column_delete`).
* **F61** (C41). The same loop of `orioledb_aminsert` moves `values` but not `isnull`, so a NULL in a column after the repeated one is stored as the value 0 (`C41_refuted_repeated_column_null`). For a by-reference type this is a null pointer dereference.
* **F62** (C40). The uniqueness check is skipped for a tuple with a NULL, and `o_has_nulls` looks at the whole leaf tuple. For UNIQUE (c1) INCLUDE (c2) two rows with the same c1 are accepted when c2 is NULL (`C40_refuted_include_null`).
* **F63** (C40). `o_update_secondary_index` does not look at `nulls_not_distinct` (operations.c:2132), which `o_tbl_index_insert` does (operations.c:2536). Under NULLS NOT DISTINCT an UPDATE can make a second row with a NULL key (`C40_refuted_nulls_not_distinct_update`).
* **F64** (C40, read in the code, not modelled). In the slow path of `o_btree_insert_unique` a deferred constraint (`checkUnique` not UNIQUE_CHECK_YES) that finds a conflict releases the uniqueness lock (modify.c:1529) and goes on; the lock is released a second time at the end (modify.c:1601), which is an error of a lock not held. With UNIQUE_CHECK_EXISTING the page found again for the full key is locked, but the page of the first search is unlocked (modify.c:1594), and these can differ.
* **F65** (C20). A merge that drops no row, while no reader retains the undo of either page, keeps no page image and freezes the page (merge.c:150-215). find_left_page cuts a page at the low key it came from only when the snapshot is COMMITSEQNO_INPROGRESS (find.c:1810-1829). A backward scan with an ordinary snapshot that has returned the right page, then finds it merged into the left one, returns its rows a second time (`C20_refuted_backward_after_merge`).
* **F66** (C20). step_upward_level (find.c:1276-1294) does not forget the low key noted by follow_rightlink, and the step down from a level-1 page does not clear LOKEY_SIBLING (find.c:984-991). If the leaf reached by a right link is itself split and linked before it is read, the search retries from the parent with the stale low key; the backward scan continues left of it and loses the rows of a whole page, with splits only (`C20_refuted_backward_lost_row`).
* **F67** (C26). A differential split whose page's older history is a full image: both halves lead to the same wide historical page, but the identity of an image is the first differential record and the side it took (page_contents.c:92-98), so the iterator does not see that they are one page. A backward scan of an older snapshot returns its rows once per leaf (`C26_refuted_backward_scan`; find.c:1807 compares the identities).
* **F68** (C26). A merge decides at one horizon whether a tuple will be dropped (merge.c:173-183, page_op_drops_tuple) and drops tuples at a later one (merge.c:686-692). If the oldest running transaction moves in between, no full image is kept and an older snapshot loses a row (`C26_refuted_late_horizon`). The `C26_*_partial` theorems assume the two horizons agree (`calm`).
* **F69** (C26). `reconstruct_merge_diff_half` gives the left half the merge boundary as high key (undo.c:1309-1316) even if the carried page was cut below it by a later split. `find_right_page` continues from the image's high key, so a forward scan of an older snapshot steps over the rows in between (`C26_refuted_forward_scan`).
* **F70** (C26). A differential split above a differential merge: both halves of the merge, read through the left page, carry the identity of the split record. `find_left_page` takes the second half for the page it has just shown and goes past it: a backward scan of an older snapshot loses rows (`C26_refuted_backward_skip`).
* **F71** (C53). `iterate_internal_page` takes itself off `downlinksWritersInProgress` before it calls `add_on_disk_downlink` (scan.c:2098-2101, 2127); the comment in `get_next_downlink` (1434-1440) and the wait in `switch_to_disk_scan` (836) rely on the opposite order. Another worker can see no writer, sort the array without the downlink, use it up and advance the shared index past its end; the downlink is then written behind the index and its leaf is read by nobody. A parallel sequential scan silently misses all rows of an on-disk leaf (`C53_row_missed_refuted`).
* **F72** (C53). If the leftmost internal page was handed out up to its high key and then merges with its right neighbour (merge.c:763 keeps the leftmost flag), the next load finds the item at that high key in the leftmost page. `get_current_downlink_key` (scan.c:974-988) then takes the low key of that item as open, because the page is leftmost and the offset is the start offset. If the leaf of the item changed or is being read or written, the iterator made for the range begins at the first row of the tree, and all rows before are returned a second time, also by a scan of one process (`C53_row_twice_refuted`).
* **F73** (C53). A parallel index scan with an upper bound ends the scan of a worker at the first leaf row above the bound (scan.c:3023-3032, 2911-2920: status `BTreeSeqScanFinished`). On-disk leaves of the range are read only afterwards, in the order of their addresses. If only one process takes part (no worker could be started), all on-disk leaves that it has put into the array are never read; in the disk phase a row above the bound ends the scan with the other on-disk leaves unread (`C53_range_row_missed_refuted`).
* **F74** (C53). The shared array of on-disk downlinks grows in `add_on_disk_downlink` by copying from the segment the worker is attached to (scan.c:779-782), and that segment is not compared with the current one after the exclusive lock is taken. The check at 762 uses the index taken before, which counts indexes that other workers are about to give back. With more participants than the first segment has entries (at least 17 workers over capacity, first segment of 16), a worker whose index is twice the old capacity grows the array a second time from the old segment. Entries added since the first growth are lost, and their leaves are not read (`C53_array_entry_lost_refuted`). Comparing the handles again before the copy would close it.
* **F75** (C55). `apply_next_key` compares the row at the position in the leaf with the row at the position in the historical page and names the second one `BTreeKeyNonLeafKey` (scan.c:2738-2740), but both are leaf tuples. For a primary key `OIndexKeyAttnumToTupleAttnum` (include/tableam/descr.h:236-256) and `o_idx_cmp_tuples` (tree.c:637-697) then read the first columns of the historical row in place of its key. If the key columns are not the first columns of the table, the greater of the two keys can be taken for the lesser, and a bitmap scan moves past a row that is in the bitmap and belongs to the snapshot (`C55_wanted_row_missed_refuted`). With `BTreeKeyLeafTuple` there, `C55_bitmap_history_partial` applies.

## 5. Axioms

None. Every `Print Assumptions` in the `*Props.v` files answers "Closed under the global context". `vcheck` also
lists seven constants `Coq.ssr.ssrunder.Under_rel.*`: they are fields of a module type of the standard library that
enters the environment through library imports; no theorem here depends on them.

## 6. What is modelled

| module | code | not modelled |
|---|---|---|
| LogicalXid* | transam/oxid.c logical xid allocation | shared memory layout |
| Extents* | checkpoint free extent trees and allocation | locking (each call is one step) |
| Savepoint* | transam/undo.c subtransaction stack items, rollback to savepoint | contents of undo records |
| Command* | transam/undo.c command ids and their lookup | contents of undo records |
| Unlink* | utils/o_buffers.c unlink_old, the cleanup pairs of oxid.c and undo.c | file system errors |
| SeqBuf* | utils/seq_buf.c | `int` overflow (F8), I/O errors |
| OBuf* | utils/o_buffers.c get_buffer, rw, sync, special options | errors other than a missing file |
| Ucm* | utils/ucm.c (estimate, init, ucm_inc, occupy_free_page), page_pool.c reservations and allocation | next_blkno/epoch, the eviction itself, local pools |
| XidMap* | src/transam/oxid.c: get_current_oxid 1619-1727, set_oxid_csn 772-814, map_oxid 876-933, write_xidsmap 955-1054 (without dirty bits), advance_global_xmin 1443-1557 (horizon as any value ≤ runXmin), advance_run_xmin 1841-1860, commit/abort/precommit status recording | commitPtr half, dirty bitmap, recovery (advance_oxids), rewind flag; o_buffers is plain memory (C30) |
| Xmin* | src/transam/undo.c 2375-2411, 2774-2779, 3464-3555 (snapshot hooks), oxid.c 1443-1494 (horizon scan), PostgreSQL's pairing heap | statuses as plain variables; checkpointer's own xmin; parallel workers |
| XidFlush* | src/transam/oxid.c: dirty bitmap 184-266, set_oxid_csn 772-814, write_xidsmap 955-1054 with dirty bits (one page per step), advance_global_xmin's short cut 1499-1527, flush_dirty_xidsmap_range 1078-1203, fsync_xidmap_range 1209-1219; o_buffers_write_page_direct, o_buffers_sync | commitPtr half and torn slots; block-cache locking (C31); order in which o_buffers_sync visits cached pages; removal of files |
| UndoRet* | src/transam/undo.c: update_min_undo_locations 500-690, set_my_reserved_location, set_my_retain_location, walk/abort/commit transitions of the per-process slots, snapshot registration, group insert (btree/undo.c 448-492) | contents of undo records; checkpoint's and recovery's own reservations |
| UndoAlloc* | src/transam/undo.c: reserve_undo_size_extended 2021-2091, steal/giveup 2094-2118, get_undo_record 2155-2203, release 2216-2246, evict_undo_to_disk 1844-1973 (frontiers only), bgwriter.c 185-201 | page writes of an eviction (C13); the scan of update_min_undo_locations (C12), represented by any values it may publish |
| UndoRead* | src/transam/undo.c: dirty bits 225-290, evict_undo_to_disk 1844-1973 with page writes, flush_dirty_undo_range 1680-1838, undo_read 3216-3340, undo_write_internal 3360-3458, the frontier jump 672-690; o_buffers read/write/direct write 228-473 | checkpoint-retained ranges and missing files in UNDO_REC_EXISTS; the rewind floor; block-cache locking (C31); minima are guards proved in C12, space in C14 |
| Packed* | include/btree/page_contents.h 84-98, 173-175, 290-324; include/btree/btree.h 453-493; include/btree/page_state.h 20-40; include/orioledb.h 145-149, 349-353, 422-435; src/transam/oxid.c 43-70; include/transam/oxid.h 201; the words published in btree/page_state.c 154, 1126-1142 | compiler bit-field layout taken as least significant first |
| `Latch*.v` | page_state.c: lock_page, try_lock_page, lock_page_with_tuple (queueing, bail-out, group insert result), relock_page, page_wait_for_changecount, page_wait_for_read_enable, page_block_reads, unlock_page(_internal), mark_waiter_tuples_inserted; page_contents.c try_copy_page; generation counter on eviction, free and reuse | the walk of the wait list is one step; the group-insert page work itself; memory ordering weaker than sequential consistency; one slot at a time |
| `PkEnc*.v` | src/tableam/bitmap_scan.c 150-700: int64/uint64 conversion, row identifiers, the fixed-type table, encode/decode of a column and of a composite key, eligibility, next key | how the columns are taken out of a tuple (C37) and put back (o_form_tuple); datums are integers or byte strings |
| `KeyBm*.v` | src/tableam/key_bitmap.c (all of it), bitmap_scan.c 1803-1943 | the adaptive radix tree is the ordered map it implements; memory management |
| `Row*.v` | btree/undo.c: row_lock_conflicts 1745-1990, remove_redundant_row_locks 1992-2085, clean_chain_has_locks_flag 1684-1730, find_non_lock_only_undo_record, page_item_rollback 152-310, modify_undo_callback, lock_undo_callback 635-775; btree/modify.c: conflict handling, insert/update/delete/lock 115-1075; btree/iterator.c: o_find_tuple_version 705-895; snapshots' retain location | one row; the walk of one call is one step (the page is locked); branches of page_item_rollback for key changes; page merges and evictions |
| `Wal*.v` | recovery/wal.c (all record writers, local buffer, flush, commit, rollback, joint commit), recovery/wal_reader.c (all parsers, header, flags, scan, old versions), attribution part of recovery.c replay_on_record, undo.c autonomous transactions' use of the buffer | logical-xid attribution (SWITCH records are transparent); tablespace of a relation is carried but not part of the identity; calls during recovery; XLogInsert itself |
| `Rec*.v` | recovery.c: replay_on_record 4645-5200, recovery_switch_to_oxid, recovery_finish_current_oxid 2331-2449, checkpoint_rollback_to_savepoint, recovery_savepoint, recovery_rollback_to_savepoint, callbacks, recovery_finish 1902-2130, read_xids, walk_checkpoint_stacks 1770-1840, o_xact_redo_hook; the primary's order of row changes and log records | a row is a stack of versions of one key; the WAL container format (Wal*.v); the fuzzy checkpoint (a checkpoint here is an instant); heap transaction verdicts at the end of recovery |
| `RecPar*.v` | recovery.c: spread_idx_modify, worker_send_modify 5438, workers_send_savepoint 5581, workers_send_rollback_to_savepoint 5615, workers_send_oxid_finish 5652; worker.c recovery_queue_process 371-805; recovery_finish per worker | queue batching (unbounded lists), descriptor messages, index builds, bridge items, checkpoint stacks of workers; waits of the leader only restrict schedules |
| `Idem*.v` | recovery callbacks recovery_insert_primary_callback, recovery_insert_deleted_primary_callback, recovery_delete_primary_callback (recovery.c), retry loop of btree/modify.c 486-700, versions of operations.c 2709, 2754, 2914, recovery_map_oxid_csn 1618-1631, recovery_finish | one version chain per row; each row captured at its own moment; savepoints (Rec*.v); secondary indexes and TOAST overwrite callbacks |
| `Key*.v` | tableam/tree.c 572-878: comparison of index keys, bounds with keys, bounds with bounds | values are integers in the order of the column's comparator; no cross-type comparators or exclusion operators; included columns (skipped by the code) left out |
| `PageSearch*.v` | btree/find.c 2087-2250, page_find_downlink and page_find_item (slow paths), btree/page_chunks.c 365-467, 1506-1543, locator macros of page_contents.h | byte layout (C18), partial page reads, following right links |
| `Fastpath*.v` | fastpath.c: key preparation, column narrowing, chunk and child selection, against the general search of `PageSearch*.v`/`Key*.v` | retry on concurrent page changes, byte layout checks (given as flags) |
| `Range*.v` | `key_range.c` (scan keys to bounds, row comparisons, exact and empty ranges, list updates) and `index_scan.c` (`is_tuple_valid`, `row_key_tuple_is_valid`, list membership, exact prefix length) | skip arrays, exclusion operators, cross-type comparators, the order in which the lists of several columns are advanced |
| `S3Part*.v` | `s3/headers.c` part word, bit for bit, with lock, unlock, load, schedule, write, evict; the read and write tasks of `s3/worker.c` with restarts; interleaving at each access to word, file or object | the header buffer cache (compare-and-swap is taken as atomic on the word), the loaded parts counter, unlinking of empty files, torn reads of a part being written |
| `S3Queue*.v` | s3/queue.c: put, pick, get, erase, wait, word-level circular buffer, any number of processes interleaved at each access of a counter, length word or body | condition variables (a wait is a repeated test), memory ordering weaker than program order, worker restart with its stored location, lengths that are not multiples of 4 |
| `CatOrd*.v` | the key comparisons of the root info, table, index, free extent, cache and transaction id catalogs; next keys of multi-chunk entries; the loops visiting all tables and indices | the trees holding the catalogs (C19), the comparators of user data (C11); a visit sees a fixed catalog |
| `RelFiles*.v` | undo records of relation storage and their split, callbacks at precommit, commit, abort and rollback to a savepoint, flushing of new files, postponed removals during backups at byte level | rewind retention (C49), in-memory pages, recovery, failing system calls; a tree's segments are one file; relation locks and fresh relfilenodes are caller assumptions (`allowed`) |
| `Toast*.v` | chunk keys and their order (`o_toast_cmp`, `tableGetNextKey`), splitting, insert, delete, update and read loops of toast.c, undo decision for chunks rewritten by one transaction, `tableVersionCallback` with `o_find_tuple_version`, column rules of slot.c (keep, delete, insert), row version numbers, commit, rollback, reuse of space | compression and the choice which columns are stored out of line (`tts_orioledb_toast`), pages of the TOAST tree, rollback to a savepoint, trees created by the same transaction, other writers' in-progress versions, WAL records of the chunks |
| `PageIo*.v` | get_write_img, write_page_to_disk, read_page_from_disk, the choice of place in perform_page_io, btree_smgr_write/read with segments and parts, on-disk headers and downlinks as bytes, checksum checks; control file read, check and write with a bit-level CRC-32C | zstd (assumed lossless), the block checksum function (arbitrary), I/O errors, file lengths, torn writes, the block allocator's answers (C29, C30) |
| `TupleFmt*.v` | src/tuple/format.c (o_tuple_init_reader, o_tuple_next_field_offset, o_tuple_read_next_field, o_tuple_get_last_iptr, o_toast_nocachegetattr, o_tuple_compute_data_size, o_new_tuple_size, o_tuple_fill, o_form_tuple, o_tuple_get_version, o_tuple_set_version), format.h (header layout, o_fastgetattr, o_tuple_size), o_indices.c fillFixedFormatSpec: all at byte level with the descriptor's offset cache | expanded objects, PostgreSQL out-of-line pointers, choice of compression method, o_tuple_set_ctid, cstrings starting with byte 1 |
| `Rewind*.v` | rewind queue: reservation, waiting for space, eviction of pages of entries to a file, fast moves, restore, filling, the filled-up-to counter, the completing worker, the backward walk with subtransactions, stop tests, target checks, undo of row versions, retain locations | queue file across restart, xid files of the checkpoint, heap undo beyond identifiers, lock waits, time limits |
| `Cic*.v` | spool append/reverse/merge/replay, in-progress build scan, covering pass, unique validation, row locks and rollback of writers (cic_spool.c, indices.c:818-1085, operations.c capture hooks) | catalog invalidation that makes writers capture, bulk load internals, byte format of spool files, crash cleanup, predicates of partial indexes |
| `Build*.v` | put_item_to_stack, stack_page_split, the closing loop, the split location loop, the fit test with fillfactor, page sizes in bytes | file extents, the float ratio for target 0 (unreachable), the metapage, bridge indexes, parallel sorting, the depth limit |
| `Cow*.v` | block allocation and release of one uncompressed tree: `get_free_disk_offset`, `get_free_disk_extent_copy_blkno`, `free_extent_for_checkpoint`, `get_checkpoint_number`, `perform_page_io`, autonomous images, the checkpoint's phases, its map (`finalize_chkp_map`), control file, restart, running scans | compressed extents, S3 and device files, temporary trees, the page contents (a number stands for them), fsync (writes are taken to reach the file in order); page locks are modelled by making each page write one step; trees that are skipped because they are clean |
| `CatSer*.v` | `serialize_o_table(_index)`, `deserialize_o_table(_index)`, `serialize_o_index`, `deserialize_o_index`, strings, nodes, missing-attribute values, byte by byte with bounds checks; reading by another major version | the contents of the fixed structures (their bytes are copied), `nodeToString`/`stringToNode`/`datumGetSize` (assumed inverse, sizes given), the chunking of records (see `Toast*.v`), `o_table_refresh_expressions` |
| `SecIx*.v` | the leaf columns of a secondary index (add_index_fields, nUniqueFields), the arrays of values and null flags that aminsert, amupdate and amdelete form, removal of repeated columns, append_rowid_values, is_keys_eq, o_update_secondary_index, o_tbl_index_insert/delete, the choice of the uniqueness check; index trees are sets of entries compared by arbitrary comparison functions | the executor's calls (PostgreSQL), deferred uniqueness checks, exclusion constraints, bridged indexes, TOASTed values, tuple bytes, concurrent statements |
| `Uniq*.v` | o_btree_insert_unique with UNIQUE_CHECK_YES: hashed uniqueness locks, the check page by page (any page bounds, other sessions acting between pages), the verdict on each entry, waiting and retry, the insertion, errors; deletions, commits, rollbacks in undo order, savepoint rollbacks | pages and their locks (a page image is read at one instant), in-place replacement of a transaction's own versions without undo, deferred checks, recovery |
| `Btr*.v` | btree/find.c 504-1294, 1528-1900; insert.c 188-262, 801-955, 1580-1763; split.c 436-512; merge.c 71-280, 643-790; iterator.c 940-1060, 1801-1955 as steps of sessions on shared pages | bytes and sizes (C18), page images (C26), row versions (C21), eviction, page locks (a write of a leaf, a split and a merge are one step each), which key a split chooses, merging across parents; a search restarted from its saved path ends in the model only if the schedule lets it |
| `PgImg*.v` | read_page_from_undo, get_page_from_undo, reconstruct_merge_diff_half, reconstruct_split_diff, page_add_image_to_undo, make_merge_undo_image, page_op_drops_tuple, the choice of image in o_btree_insert_split and btree_try_merge_pages, perform_page_compaction, perform_page_split, merge_pages, retention of page-level undo, find_right_page and find_left_page of one snapshot | bytes and page space (C18), the page lock (an operation on a page is one step), row undo (an item carries its versions), non-leaf pages, the key/low-key pair read by sequential scans (`page_lokey`), in-progress readers, when a page is split or merged (any time) |
| `PgChunk*.v`, `PgReorg*.v` | The memory of one page as 16-bit words, its chunk descriptors with the widths of their bit fields, item arrays and chunk high keys; `page_locator_insert_item`, `page_locator_resize_item`, `page_locator_delete_item`, `page_merge_chunks`, `page_split_chunk`, the space tests of `page_locator_fits_item` and `page_split_chunk_if_needed`, `init_page_first_chunk`, `page_item_fill_locator`, the reading macros, `btree_page_reorg` with its choice of chunks, its forward and backward moves and its keys, `split_page_by_chunks` | which of the possible cuts `page_split_chunk_if_needed` takes (any that fits is allowed); rounding of the float4 ratios in `btree_page_reorg` (compared exactly; the bound that keeps the last key below 512 has 4 bytes of slack); the key made from an item is a parameter; `chunkKeysFixed`, `maxKeyLen`; partially read pages; the header counters other than sizes and counts |
| `ParScan*.v` | btree/scan.c: the two shared images of internal pages, the handing out of downlinks, iterators at gaps, the array of on-disk downlinks with its count of writers, sort and index; any number of workers, any schedule | the reading of the rows of a range (one step here), range conditions, bitmap callbacks, sampling, ordered and backward scans, partial page reads, growth of the shared array (see `ParArr*.v`) |
| `ParRange*.v` | btree/scan.c: range condition on top of `ParScan*.v`: downlinks before and past the range, the end of a worker at a row past the range | keys with several columns (the range is an interval of integers), the test of every row in index_scan.c |
| `ParArr*.v` | btree/scan.c:705-795, `add_on_disk_downlink` of parallel scans: taking and giving back indexes, attachment to segments, growth of the shared array | entries are integers; taking an index and writing the entry is one operation; the error for too many segments; not joined with `ParScan*.v`, where adding an entry is one step |
| `LeafMerge*.v` | btree/scan.c:2776-3040, `btree_seq_scan_getnext_internal` for one leaf: live leaf and historical pages, own versions, page changes, both ends | keys are integers; the row of an item for the snapshot is given (C01), the historical pages are given and follow each other (C26); range conditions (C53), bitmap callbacks, partial reads |
| `LeafBitmap*.v` | btree/scan.c:2599-2773 and 2926-3036: `adjust_location_with_next_key`, `apply_next_key`, resumption after a failed partial read | keys are integers, all items are rows of the snapshot, no historical image (`LeafMerge*.v`), the bitmap is an ascending list (C42), the iterator returns the rows of the leaf in order (C20); one point of failure in a turn |
| `LeafBmHist*.v` | btree/scan.c: `apply_next_key` over a leaf and a historical page, in the loop of `btree_seq_scan_getnext_internal`; the value read by the comparison at 2738-2740 is a parameter | as for `LeafMerge*.v` and `LeafBitmap*.v`; one historical page; a leaf with history is never read partially (2171-2198), so there are no failures here |
