(** * Model: page images on disk, with and without compression, and the
    checkpoint control file.

    Modelled code: src/btree/io.c (get_write_img, write_page_to_disk,
    read_page_from_disk, perform_page_io, btree_smgr_write, btree_smgr_read,
    page checksum checks), include/orioledb.h (headers, FileExtent macros),
    include/btree/page_contents.h (on-disk downlinks),
    src/checkpoint/control.c (read, check and write of the control file).

    Bytes are integers 0..255; buffers are lists of bytes; addresses are
    integers. *)
From Coq Require Import ZArith List Bool Lia.
From Verif Require Import Base.
Import ListNotations.
Open Scope Z_scope.

(** include/orioledb.h:122-128, 388 (sizes of blocks, segments, object-store
    parts and of the page header); 103-104 (format versions). *)
Definition BLCKSZ : Z := 8192.
Definition COMPSZ : Z := 512.
Definition SEGSZ : Z := 1073741824.
Definition PARTSZ : Z := 1048576.
Definition HDRSZ : Z := 16.
Definition PAGE_VERSION : Z := 1.
Definition COMPRESS_VERSION : Z := 1.

(** Little-endian bytes of a fixed-width field (the layout of the C structs on
    the supported platforms), and its value. *)
Fixpoint le (n : nat) (v : Z) : list Z :=
  match n with
  | O => []
  | S n' => v mod 256 :: le n' (v / 256)
  end.

Fixpoint unle (l : list Z) : Z :=
  match l with
  | [] => 0
  | b :: r => b + 256 * unle r
  end.

(** Sub-buffer: [n] bytes of [l] from position [a]. *)
Definition sub (l : list Z) (a n : Z) : list Z :=
  firstn (Z.to_nat n) (skipn (Z.to_nat a) l).

(** ** Headers *)

(** OrioleDBOndiskPageHeader, include/orioledb.h:380-408. The two reserved
    fields are always zero and not kept in the record. *)
Record ohdr : Type := mkOhdr {
  oh_chkp : Z;      (* checkpointNum, 4 bytes *)
  oh_csize : Z;     (* compress_page_size, 2 bytes *)
  oh_cver : Z;      (* compress_version, 1 byte *)
  oh_pver : Z;      (* page_version, 1 byte *)
  oh_sum : Z        (* checkSum, 2 bytes *)
}.

(** Memory image of OrioleDBOndiskPageHeader (16 bytes). *)
Definition enc_ohdr (h : ohdr) : list Z :=
  le 4 (oh_chkp h) ++ le 2 (oh_csize h) ++ le 1 (oh_cver h) ++
  le 1 (oh_pver h) ++ le 2 (oh_sum h) ++ le 2 0 ++ le 4 0.

(** The cast [*((OrioleDBOndiskPageHeader * ) img)], io.c:1427, 1453. *)
Definition dec_ohdr (l : list Z) : ohdr :=
  mkOhdr (unle (sub l 0 4)) (unle (sub l 4 2)) (unle (sub l 6 1))
         (unle (sub l 7 1)) (unle (sub l 8 2)).

(** OrioleDBPageHeader as left by read_page_from_disk, io.c:1524-1525: zeroed,
    then checkpointNum (bytes 12..15) restored. include/orioledb.h:370-375. *)
Definition mem_hdr (chkp : Z) : list Z := le 8 0 ++ le 4 0 ++ le 4 chkp.

(** ** File extents and downlinks *)

Record extent : Type := mkExt { e_len : Z; e_off : Z }.

(** CompressedSize and FileExtentLen, include/orioledb.h:432-435. *)
Definition compressed_size (sz : Z) : Z :=
  if sz =? BLCKSZ then BLCKSZ else sz + HDRSZ + COMPSZ - 1.
Definition file_extent_len (sz : Z) : Z := compressed_size sz / COMPSZ.

(** MAKE_ON_DISK_DOWNLINK, DOWNLINK_GET_DISK_OFF, DOWNLINK_GET_DISK_LEN,
    include/btree/page_contents.h:302, 313-315. The fields of the extent are
    a 16-bit length and a 48-bit offset, so the disjunction of the shifted
    fields is a sum when the length is below 2^15. *)
Definition mk_downlink (e : extent) : Z :=
  Z.lor (Z.lor (Z.shiftl (e_len e) 48) (e_off e)) (2 ^ 63).
Definition dl_off (d : Z) : Z := Z.land d 281474976710655.
Definition dl_len (d : Z) : Z := Z.shiftr (Z.land d 9223090561878065152) 48.

(** FileExtentIsValid, include/orioledb.h:427-431. *)
Definition extent_valid (e : extent) : bool :=
  negb (e_len e =? 0) && (e_off e <? 281474976710655).

(** S3_GET_CHKP_NUM, S3_OFFSET_MASK, include/orioledb.h:419-422. *)
Definition s3_chkp (off : Z) : Z := Z.shiftr (Z.land off 1095216660480) 32.
Definition s3_off (off : Z) : Z := Z.land off 4294967295.

(** ** Storage *)

(** Configuration of the tree and of the server: desc->compress valid,
    orioledb_s3_mode, use_device or use_mmap (the two flat address spaces
    behave the same), orioledb_checksums_enabled. *)
Record config : Type := mkCfg {
  c_comp : bool; c_s3 : bool; c_dev : bool; c_sums : bool
}.

(** Contents of the storage: bytes of the data files of one tree, addressed by
    checkpoint number of the file name (0 outside object-store mode), segment
    number and offset in the segment file; and bytes of the raw device. Every
    address holds some byte: file lengths and input-output errors are not
    modelled. *)
Record disk : Type := mkDisk {
  d_files : Z -> Z -> Z -> Z;
  d_dev : Z -> Z
}.

(** Raw device: memcpy, pwrite and pread, io.c:611-624, 707-720. *)
Definition put (m : Z -> Z) (off : Z) (l : list Z) : Z -> Z :=
  fun a => if (off <=? a) && (a <? off + Z.of_nat (length l))
           then nth (Z.to_nat (a - off)) l 0 else m a.
Definition get (m : Z -> Z) (off n : Z) : list Z :=
  map (fun i => m (off + Z.of_nat i)) (seq 0 (Z.to_nat n)).

(** One OFileWrite to one segment file, io.c:652-655, 664-667. *)
Definition file_put (fs : Z -> Z -> Z -> Z) (chkp seg off : Z) (l : list Z)
  : Z -> Z -> Z -> Z :=
  fun c s a => if (c =? chkp) && (s =? seg) then put (fs chkp seg) off l a else fs c s a.

(** Header space of a segment file in object-store mode, io.c:653. *)
Definition shift_of (cfg : config) : Z := if c_s3 cfg then BLCKSZ else 0.
Definition gran (cfg : config) : Z := if c_s3 cfg then PARTSZ else SEGSZ.

(** The loop of btree_smgr_write, io.c:638-674: the buffer is cut at every
    multiple of the granularity. Locks of the parts and the load id are left
    to the model of C43 and C46. *)
Fixpoint smgr_wloop (fuel : nat) (cfg : config) (fs : Z -> Z -> Z -> Z)
    (chkp : Z) (l : list Z) (off : Z) : Z -> Z -> Z -> Z :=
  match fuel with
  | O => fs
  | S f =>
      let n := Z.of_nat (length l) in
      if n <=? 0 then fs
      else
        let seg := off / SEGSZ in
        if (off + n) / gran cfg =? off / gran cfg then
          file_put fs chkp seg (off mod SEGSZ + shift_of cfg) l
        else
          let stp := gran cfg - off mod gran cfg in
          let fs' := file_put fs chkp seg (off mod SEGSZ + shift_of cfg)
                       (firstn (Z.to_nat stp) l) in
          smgr_wloop f cfg fs' chkp (skipn (Z.to_nat stp) l) (off + stp)
  end.

(** btree_smgr_write, io.c:600-693. *)
Definition smgr_write (cfg : config) (d : disk) (chkp : Z) (l : list Z) (off : Z) : disk :=
  if c_dev cfg then mkDisk (d_files d) (put (d_dev d) off l)
  else mkDisk (smgr_wloop (length l + 1) cfg (d_files d) chkp l off) (d_dev d).

(** The loop of btree_smgr_read, io.c:734-777. *)
Fixpoint smgr_rloop (fuel : nat) (cfg : config) (fs : Z -> Z -> Z -> Z)
    (chkp : Z) (n off : Z) : list Z :=
  match fuel with
  | O => []
  | S f =>
      if n <=? 0 then []
      else
        let seg := off / SEGSZ in
        if (off + n) / gran cfg =? off / gran cfg then
          get (fs chkp seg) (off mod SEGSZ + shift_of cfg) n
        else
          let stp := gran cfg - off mod gran cfg in
          get (fs chkp seg) (off mod SEGSZ + shift_of cfg) stp ++
          smgr_rloop f cfg fs chkp (n - stp) (off + stp)
  end.

(** btree_smgr_read, io.c:695-780. *)
Definition smgr_read (cfg : config) (d : disk) (chkp n off : Z) : list Z :=
  if c_dev cfg then get (d_dev d) off n
  else smgr_rloop (Z.to_nat n + 1) cfg (d_files d) chkp n off.

(** ** Checksums, versions *)

Section Codec.

(** zstd: compression of a page and decompression of a buffer, None standing
    for an error code. *)
Variable zc : list Z -> list Z.
Variable zd : list Z -> option (list Z).

(** oriole_checksum_block, io.c:1309-1336: some function of the first
    [len] rows of 32 words of the image. *)
Variable block_sum : list Z -> Z.

Definition csum_rows (sz : Z) : Z := sz / (4 * 32).

(** [oriole_checksum_block(buf, oriole_checksum_block_len(sz)) % 65535 + 1],
    io.c:1346, 1580, 1629. *)
Definition page_sum (img : list Z) (sz : Z) : Z :=
  block_sum (sub img 0 (csum_rows sz * 128)) mod 65535 + 1.

(** The field checkSum of the image set to zero, io.c:1344. *)
Definition clear_sum (img : list Z) : list Z :=
  sub img 0 8 ++ [0; 0] ++ skipn 10 img.

(** check_orioledb_page_checksum, io.c:1338-1363. *)
Definition sum_ok (h : ohdr) (img : list Z) (sz : Z) : bool :=
  page_sum (clear_sum img) sz =? oh_sum h.

(** ** Writing *)

(** get_write_img, io.c:1906-1929. The result is the buffer and the size; the
    compressed data sit at the beginning of the static buffer of compress.c,
    the rest of which holds whatever was there before ([junk]). *)
Definition get_write_img (cfg : config) (page junk : list Z) : list Z * Z :=
  if c_comp cfg then
    let z := zc page in
    let sz := Z.of_nat (length z) in
    if sz >? BLCKSZ - COMPSZ - HDRSZ then (page, BLCKSZ) else (z ++ junk, sz)
  else (page, BLCKSZ).

(** Position of an extent: checkpoint number in the file name and first block,
    io.c:1552-1558 (write), 1406-1410 (read). *)
Definition ext_file (cfg : config) (off : Z) : Z := if c_s3 cfg then s3_chkp off else 0.
Definition ext_blk (cfg : config) (off : Z) : Z := if c_s3 cfg then s3_off off else off.

(** Bytes per block of an extent, io.c:1570-1573, 1596. *)
Definition blk_bytes (cfg : config) : Z :=
  if c_comp cfg then COMPSZ else if c_dev cfg then COMPSZ else BLCKSZ.

(** write_page_to_disk, io.c:1538-1664. *)
Definition write_page (cfg : config) (d : disk) (e : extent) (chkp : Z)
    (img : list Z) (size : Z) : disk :=
  let f := ext_file cfg (e_off e) in
  let pos := ext_blk cfg (e_off e) * blk_bytes cfg in
  if negb (c_comp cfg) then
    let body := sub img HDRSZ (BLCKSZ - HDRSZ) in
    let h0 := mkOhdr chkp 0 0 PAGE_VERSION 0 in
    let sum := if c_sums cfg then page_sum (enc_ohdr h0 ++ body) BLCKSZ else 0 in
    smgr_write cfg d f (enc_ohdr (mkOhdr chkp 0 0 PAGE_VERSION sum) ++ body) pos
  else
    let h0 := mkOhdr chkp size COMPRESS_VERSION PAGE_VERSION 0 in
    let plain := size =? BLCKSZ in
    let image_size := if plain then BLCKSZ else e_len e * COMPSZ in
    let body0 := if plain then skipn (Z.to_nat HDRSZ) img else img in
    let sum := if c_sums cfg
               then page_sum (enc_ohdr h0 ++ sub body0 0 (image_size - HDRSZ)) image_size
               else 0 in
    let d1 := smgr_write cfg d f
                (enc_ohdr (mkOhdr chkp size COMPRESS_VERSION PAGE_VERSION sum)) pos in
    smgr_write cfg d1 f (sub body0 0 (image_size - HDRSZ)) (pos + HDRSZ).

(** ** Reading *)

(** OReadPageResultOk with the image, OReadPageResultChecksumFailed, and the
    two ways the server stops: FATAL for an unknown version and PANIC of
    o_decompress_page. Input-output errors are not modelled. *)
Inductive read_res : Type :=
| ROk (img : list Z)
| RSum
| RVersion
| RCorrupt.

(** read_page_from_disk, io.c:1385-1533. *)
Definition read_page (cfg : config) (d : disk) (downlink : Z) : read_res :=
  let off := dl_off downlink in
  let len := dl_len downlink in
  let f := ext_file cfg off in
  let pos := ext_blk cfg off * blk_bytes cfg in
  if negb (c_comp cfg) then
    let img := smgr_read cfg d f BLCKSZ pos in
    let h := dec_ohdr img in
    if negb (oh_pver h =? PAGE_VERSION) then RVersion
    else if c_sums cfg && negb (sum_ok h img BLCKSZ) then RSum
    else ROk (mem_hdr (oh_chkp h) ++ skipn (Z.to_nat HDRSZ) img)
  else if negb (len =? BLCKSZ / COMPSZ) then
    let buf := smgr_read cfg d f (len * COMPSZ) pos in
    let h := dec_ohdr buf in
    if negb (oh_pver h =? PAGE_VERSION) then RVersion
    else if c_sums cfg && negb (sum_ok h buf (len * COMPSZ)) then RSum
    else if negb (oh_cver h =? COMPRESS_VERSION) then RVersion
    else match zd (sub buf HDRSZ (oh_csize h)) with
         | None => RCorrupt
         | Some img => ROk (mem_hdr (oh_chkp h) ++ skipn (Z.to_nat HDRSZ) img)
         end
  else
    let hb := smgr_read cfg d f HDRSZ pos in
    let h := dec_ohdr hb in
    let body := smgr_read cfg d f (BLCKSZ - HDRSZ) (pos + HDRSZ) in
    if negb (oh_pver h =? PAGE_VERSION) then RVersion
    else if c_sums cfg && negb (sum_ok h (hb ++ body) BLCKSZ) then RSum
    else ROk (mem_hdr (oh_chkp h) ++ body).

(** ** Writing a page of the pool *)

(** Length of the extent asked from the allocator, io.c:1118, 1147, 1165, 1171. *)
Definition want_len (cfg : config) (size : Z) : Z :=
  if c_comp cfg then file_extent_len size else 1.

(** A page of the pool with its place on disk: page_desc->fileExtent, the
    checkpointNum of its header and the downlink its parent holds. *)
Record pstate : Type := mkP {
  p_disk : disk;
  p_ext : extent;
  p_chkp : Z;
  p_link : Z
}.

(** perform_page_io, io.c:1953-2166. [newoff] is the answer of the block
    allocator, used only when blocks are asked. The parent's downlink is
    replaced when dirty_parent is set (checkpoint.c and io.c store the
    returned downlink in that case; otherwise the parent already holds it). *)
Definition perform_io (cfg : config) (s : pstate) (page junk : list Z)
    (chkp newoff : Z) : pstate :=
  let '(img, size) := get_write_img cfg page junk in
  let newlen := want_len cfg size in
  let fresh := mkExt newlen newoff in
  let less := p_chkp s <? chkp in
  let '(e, dirty) :=
    if less then (fresh, true)
    else if negb (c_comp cfg) then (p_ext s, false)
    else if e_len (p_ext s) <? newlen then (fresh, true)
    else if e_len (p_ext s) >? newlen then (mkExt newlen (e_off (p_ext s)), true)
    else (p_ext s, false) in
  mkP (write_page cfg (p_disk s) e chkp img size) e
      (if less then chkp else p_chkp s)
      (if dirty then mk_downlink e else p_link s).

(** Steps of a page's life: written by a checkpoint or an eviction, while
    other pages are written elsewhere. *)
Inductive pop : Type :=
| PWrite (page junk : list Z) (chkp newoff : Z)
| POther (e : extent) (chkp : Z) (page junk : list Z).

Definition pstep (cfg : config) (s : pstate) (o : pop) : pstate :=
  match o with
  | PWrite page junk chkp newoff => perform_io cfg s page junk chkp newoff
  | POther e chkp page junk =>
      let '(img, size) := get_write_img cfg page junk in
      mkP (write_page cfg (p_disk s) e chkp img size) (p_ext s) (p_chkp s) (p_link s)
  end.

End Codec.

(** ** Allocation in object-store mode *)

(** get_free_disk_extent, io.c:1116-1136: blocks are taken from the counter of
    the checkpoint, and the number of the checkpoint goes above bit 32 of the
    offset, which is kept in 48 bits. checkpoint_init_new_seq_bufs sets the
    counter of the next checkpoint to zero (checkpoint.c:2150-2154). *)
Definition s3_alloc (cfg : config) (datalen chkp size : Z) : extent :=
  mkExt (want_len cfg size) (Z.lor datalen (Z.shiftl chkp 32) mod 281474976710656).

(** ** Uploads scheduled by a write in object-store mode *)

(** What is left of [amount] after the loop of btree_smgr_write, io.c:638-674:
    the last round leaves the loop without decreasing it. *)
Fixpoint wloop_amount (fuel : nat) (g amount off : Z) : Z :=
  match fuel with
  | O => amount
  | S f =>
      if amount <=? 0 then amount
      else if (off + amount) / g =? off / g then amount
      else let stp := g - off mod g in wloop_amount f g (amount - stp) (off + stp)
  end.

(** The parts handed to btree_smgr_schedule_s3_write, io.c:676-688, as
    numbers of 1 MB parts from the beginning of the tree's data. *)
Definition scheduled (amount off : Z) : list Z :=
  let left := wloop_amount (Z.to_nat amount + 1) PARTSZ amount off in
  off / PARTSZ ::
  (if off / PARTSZ =? (off + left - 1) / PARTSZ then [] else [(off + left - 1) / PARTSZ]).

(** ** The control file *)

(** CheckpointControl, include/checkpoint/control.h: what matters for the
    checks is the position of four fields; the rest is data. Offsets for the
    64-bit layout: controlIdentifier 0, lastCheckpointNumber 8,
    controlFileVersion 12, lastCSN 16, lastXid 24, lastUndoLocation 32, three
    log positions 40..63, mmapDataLength 64, undoInfo 72..119, retain fields
    120..151, binaryVersion 152, s3Mode 156, checksums_enabled 157, pgVersion
    160, crc 164; size 168. *)
Definition CTL_SIZE : Z := 168.
Definition CTL_CRC : Z := 164.
Definition CTL_FILE : Z := 8192.
Definition CTL_VERSION : Z := 2.

(** CRC-32C over bytes, bit by bit, reflected polynomial 0x82F63B78
    (PostgreSQL's INIT_CRC32C, COMP_CRC32C, FIN_CRC32C used at control.c:95-97
    and 136-138). *)
Definition POLY : Z := 2197175160.
Definition crc_bit (s : Z) : Z :=
  Z.lxor (Z.shiftr s 1) (if Z.odd s then POLY else 0).
Fixpoint iter_bit (n : nat) (s : Z) : Z :=
  match n with O => s | S n' => iter_bit n' (crc_bit s) end.
Definition crc_byte (s b : Z) : Z := iter_bit 8 (Z.lxor s b).
Definition crc32c (l : list Z) : Z :=
  Z.lxor (fold_left crc_byte l 4294967295) 4294967295.

(** Outcome of get_checkpoint_control_data and check_checkpoint_control. *)
Inductive ctl_res : Type :=
| CNone                 (* no checkpoint yet *)
| CShort                (* ERROR: could not read data from control file *)
| CBadVersion           (* FATAL *)
| CBadCrc               (* ERROR *)
| CBadBinary            (* FATAL *)
| CBadMode              (* FATAL *)
| COk (ctl : list Z).

(** check_checkpoint_control, control.c:75-126. [binver] is
    ORIOLEDB_BINARY_VERSION and [s3] the configured mode. *)
Definition check_control (binver : Z) (s3 : bool) (ctl : list Z) : ctl_res :=
  if negb (unle (sub ctl 12 4) =? CTL_VERSION) then CBadVersion
  else if negb (crc32c (sub ctl 0 CTL_CRC) =? unle (sub ctl CTL_CRC 4)) then CBadCrc
  else if negb (unle (sub ctl 152 4) =? binver) then CBadBinary
  else if negb (Bool.eqb (negb (unle (sub ctl 156 1) =? 0)) s3) then CBadMode
  else COk ctl.

(** get_checkpoint_control_data, control.c:28-66; the file is None when it
    does not exist. *)
Definition read_control (binver : Z) (s3 : bool) (file : option (list Z)) : ctl_res :=
  match file with
  | None => CNone
  | Some l =>
      let got := sub l 0 CTL_SIZE in
      let n := Z.of_nat (length got) in
      if n =? 0 then CNone
      else if negb (n =? CTL_SIZE) then CShort
      else check_control binver s3 got
  end.

(** write_checkpoint_control, control.c:131-161: stamps the server version,
    computes the CRC, pads the structure with zeros. The buffer replaces the
    first 8192 bytes of the file. *)
Definition stamp_control (pgver : Z) (ctl : list Z) : list Z :=
  let c := sub ctl 0 160 ++ le 4 pgver in
  c ++ le 4 (crc32c c).
Definition write_control (pgver : Z) (ctl : list Z) (file : option (list Z)) : option (list Z) :=
  let buffer := stamp_control pgver ctl ++ repeat 0 (Z.to_nat (CTL_FILE - CTL_SIZE)) in
  let old := match file with None => [] | Some l => l end in
  Some (buffer ++ skipn (Z.to_nat CTL_FILE) old).
