(** Model of the packed 64-bit words of orioledb: downlinks, right links, row headers,
    page-state words, chunk descriptors, page items, file extents and
    transaction-status words.  The macros are transcribed with the C operators on
    unsigned integers ([Z.land], [Z.lor], shifts, truncation by casts); bit-fields are
    laid out from the least significant bit, as the supported compilers do. *)
From Coq Require Import ZArith List Bool.
From Verif Require Import Base.
Import ListNotations.
Open Scope Z_scope.

Definition u64 (x : Z) : Z := x mod 2 ^ 64.
Definition u32 (x : Z) : Z := x mod 2 ^ 32.
Definition u16 (x : Z) : Z := x mod 2 ^ 16.
Definition c_not (x : Z) : Z := u64 (Z.lnot x).      (* ~ on uint64 *)
Definition shl64 (x k : Z) : Z := u64 (Z.shiftl x k).

(** include/btree/page_contents.h:303-324 *)
Definition DISK_BIT : Z := 0x8000000000000000.
Definition IO_BUF_MASK : Z := 0xFFFFFFFF00000000.
Definition dl_blkno (d : Z) : Z := u32 d.
Definition dl_changecount (d : Z) : Z := Z.land (u32 (Z.shiftr d 32)) 0x7FFFFFFF.
Definition make_in_memory (blkno cc : Z) : Z := Z.lor (u64 blkno) (shl64 (u64 cc) 32).
Definition is_in_memory (d : Z) : bool := Z.land d DISK_BIT =? 0.
Definition is_in_io (d : Z) : bool := Z.land d IO_BUF_MASK =? IO_BUF_MASK.
Definition is_on_disk (d : Z) : bool := negb (is_in_memory d) && negb (is_in_io d).
Definition make_io (locknum : Z) : Z := Z.lor (u64 locknum) IO_BUF_MASK.
Definition dl_io_locknum (d : Z) : Z := u32 (Z.land d 0xFFFFFFFF).
Definition make_on_disk (len off : Z) : Z := Z.lor (Z.lor (shl64 (u64 len) 48) (u64 off)) DISK_BIT.
Definition dl_off (d : Z) : Z := Z.land d 0xFFFFFFFFFFFF.
Definition dl_len (d : Z) : Z := u16 (Z.shiftr (Z.land d 0x7FFF000000000000) 48).
Definition InvalidDiskDownlink : Z := 0xFFFFFFFFFFFFFFFF.
Definition InvalidRightLink : Z := 0xFFFFFFFFFFFFFFFF.

(** include/orioledb.h:427-435: length in 512-byte blocks of a written page *)
Definition BLCKSZ : Z := 8192.
Definition COMP_BLCKSZ : Z := 512.
Definition CompressedSize (sz : Z) : Z := if sz =? BLCKSZ then BLCKSZ else sz + 16 + COMP_BLCKSZ - 1.
Definition FileExtentLen (sz : Z) : Z := CompressedSize sz / COMP_BLCKSZ.
(** include/orioledb.h:422-425 *)
Definition s3_chkp_num (off : Z) : Z := Z.shiftr (Z.land off 0xFF00000000) 32.

(** include/btree/btree.h:453-493 *)
Definition LOCK_ONLY_BIT : Z := 0x1000000000000000.
Definition LOCK_MODE_MASK : Z := 0x0C00000000000000.
Definition LOCK_OXID_MASK : Z := 0x03FFFFFFFFFFFFFF.
Definition xi_oxid (x : Z) : Z := Z.land x LOCK_OXID_MASK.
Definition xi_mode (x : Z) : Z := Z.shiftr (Z.land x LOCK_MODE_MASK) 58.
Definition xi_lock_only (x : Z) : bool := negb (Z.land x LOCK_ONLY_BIT =? 0).
Definition make_xact_info (oxid mode : Z) (lockonly : bool) : Z :=
  Z.lor (Z.lor (u64 oxid) (shl64 (u64 mode) 58)) (if lockonly then LOCK_ONLY_BIT else 0).

(** Bit-fields: a list of (width, value), least significant first. *)
Fixpoint pack (fs : list (Z * Z)) : Z :=
  match fs with [] => 0 | (w, v) :: r => v mod 2 ^ w + 2 ^ w * pack r end.
Fixpoint unpack (ws : list Z) (x : Z) : list Z :=
  match ws with [] => [] | w :: r => x mod 2 ^ w :: unpack r (x / 2 ^ w) end.

(** BTreeLeafTuphdr, page_contents.h:290-297: two words *)
Definition tuphdr1 (xactInfo deleted chainHasLocks : Z) : Z := pack [(61, xactInfo); (2, deleted); (1, chainHasLocks)].
Definition tuphdr2 (undoLocation formatFlags : Z) : Z := pack [(62, undoLocation); (2, formatFlags)].
(** BTreePageChunkDesc, page_contents.h:84-98 *)
Definition chunk_desc (shortLocation offset hikeyShortLocation keysFixed hikeyFlags : Z) : Z :=
  pack [(12, shortLocation); (10, offset); (7, hikeyShortLocation); (1, keysFixed); (2, hikeyFlags)].
Definition loc_get_short (l : Z) : Z := l / 4.
Definition short_get_loc (s : Z) : Z := s * 4.
(** FileExtent, orioledb.h:349-353 *)
Definition file_extent (len off : Z) : Z := pack [(16, len); (48, off)].
(** page_contents.h:173-175; LocationIndex is 16 bits *)
Definition item_offset (i : Z) : Z := Z.land i 0x3FFF.
Definition item_flags (i : Z) : Z := Z.shiftr i 14.
Definition item_set_flags (i flags : Z) : Z :=
  if flags =? 0 then Z.land i (Z.lnot (Z.shiftl 1 14)) else Z.lor i (Z.shiftl 1 14).

(** orioledb.h:145-149 *)
Definition InvalidUndoLocation : Z := 0x2000000000000000.
Definition undo_valid (l : Z) : bool := Z.land l InvalidUndoLocation =? 0.
Definition undo_value (l : Z) : Z := Z.land l 0x1FFFFFFFFFFFFFFF.

(** src/transam/oxid.c:43-70 *)
Definition CSN_SPECIAL_BIT : Z := 0x8000000000000000.
Definition CSN_RETAINED : Z := 0x4000000000000000.
Definition csn_is_special (c : Z) : bool := negb (Z.land c CSN_SPECIAL_BIT =? 0).
Definition csn_status (c : Z) : Z := Z.land c 1.
Definition csn_level (c : Z) : Z := Z.land (Z.shiftr c 31) 0xFFFFFFFF.
Definition csn_procnum (c : Z) : Z := Z.land (Z.shiftr c 15) 0xFFFF.
Definition csn_make_special (procnum level status : Z) : Z :=
  Z.lor (Z.lor (Z.lor CSN_SPECIAL_BIT (shl64 (u64 procnum) 15)) (shl64 (u64 level) 31)) status.
(** oxid.c:1902 and the reads of oxid.c:896, 930 *)
Definition csn_store (csn : Z) (rewind : bool) : Z := Z.lor csn (if rewind then CSN_RETAINED else 0).
Definition csn_load (raw : Z) : Z := Z.land raw (c_not CSN_RETAINED).
Definition csn_retained (raw : Z) : bool := negb (Z.land raw CSN_RETAINED =? 0).

Definition ptr_is_special (c : Z) : bool := negb (Z.land c 1 =? 0).
Definition ptr_status (c : Z) : Z := Z.land c 2.
Definition ptr_level (c : Z) : Z := Z.land (Z.shiftr c 31) 0xFFFFFFFF.
Definition ptr_procnum (c : Z) : Z := Z.land (Z.shiftr c 15) 0xFFFF.
Definition ptr_make_special (procnum level status : Z) : Z :=
  Z.lor (Z.lor (Z.lor 1 (shl64 (u64 procnum) 15)) (shl64 (u64 level) 31)) status.
(** include/transam/oxid.h:201 *)
Definition ptr_align (p : Z) : Z := p + Z.land p 1.

(** include/btree/page_state.h:20-40 *)
Definition PS_LOCKED : Z := 0x0000000000040000.
Definition PS_NO_READ : Z := 0x0000000000080000.
Definition PS_CC_ONE : Z := 0x0000000000100000.
Definition PS_CC_MASK : Z := 0x000FFFFFFFF00000.
Definition PS_USAGE_MASK : Z := 0x00F0000000000000.
Definition PS_TAIL_MASK : Z := 0x000000000003FFFF.
Definition ps_is_locked (s : Z) : bool := negb (Z.land s PS_LOCKED =? 0).
Definition ps_read_blocked (s : Z) : bool := negb (Z.land s PS_NO_READ =? 0).
Definition ps_lock (s : Z) : Z := Z.lor s PS_LOCKED.
Definition ps_block_read (s : Z) : Z := Z.lor (Z.lor s PS_LOCKED) PS_NO_READ.
Definition ps_usage (s : Z) : Z := Z.shiftr (Z.land s PS_USAGE_MASK) 52.
Definition ps_set_usage (s u : Z) : Z := Z.lor (Z.land s (c_not PS_USAGE_MASK)) (shl64 (u64 u) 52).
Definition ps_tail (s : Z) : Z := Z.land s PS_TAIL_MASK.
(** page_state.c:154-156: enqueue *)
Definition ps_set_tail (s procno : Z) : Z := Z.lor (Z.land s (c_not PS_TAIL_MASK)) procno.
(** page_state.c:1126-1142: the word published by unlock_page *)
Definition ps_unlock (s newTail : Z) : Z :=
  let n := Z.land s (c_not (Z.lor (Z.lor PS_TAIL_MASK PS_LOCKED) PS_NO_READ)) in
  let n := if ps_read_blocked s
           then Z.lor (Z.land n (c_not PS_CC_MASK)) (Z.land (u64 (Z.land n PS_CC_MASK + PS_CC_ONE)) PS_CC_MASK)
           else n in
  Z.lor n newTail.
