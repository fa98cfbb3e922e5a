(** Discarding old undo / transaction-status blocks.

    Models src/utils/o_buffers.c:508-537 (o_buffers_wipe), 579-618
    (o_buffers_unlink_blocks_range), 642-716 (unlink_unretained_o_buffers) and the
    pairs of calls at src/transam/undo.c:741-755 and src/transam/oxid.c:1546-1555.

    Simplifications: contents are abstracted to "block b is still there" (one map
    for the files, one for dirty buffers); the 16-buffer groups are one map; a file
    that does not exist is a file without blocks; int64 arithmetic is exact (all
    arguments are non-negative in the callers, so C division is Z.div). *)
From Coq Require Import ZArith List Bool.
From Verif Require Import Base.
Import ListNotations.
Open Scope Z_scope.

Record fs := mkFs {
  f_disk : Z -> bool;        (* block is present in its file *)
  f_dirty : Z -> bool        (* block has a dirty buffer *)
}.

(** o_buffers_wipe, o_buffers.c:508-537. *)
Definition wipe (s : fs) (first last : Z) : fs :=
  mkFs (f_disk s) (fun b => f_dirty s b && negb ((first <=? b) && (b <=? last))).

(** unlink_file: every block of the file goes. *)
Definition unlink_file (bpf : Z) (s : fs) (fileno : Z) : fs :=
  mkFs (fun b => f_disk s b && negb (b / bpf =? fileno)) (f_dirty s).

(** punch_fd_hole over blocks [from, to] (absolute block numbers; the code passes
    offset and length relative to the file, 610-611). *)
Definition punch (bpf : Z) (s : fs) (fileno off len : Z) : fs :=
  mkFs (fun b => f_disk s b &&
          negb ((b / bpf =? fileno) && (off <=? b mod bpf) && (b mod bpf <? off + len)))
       (f_dirty s).

(** The body of the loop at 600-617, for one file; offsets in blocks. *)
Definition unlink_one (sparse : bool) (bpf first last : Z) (s : fs) (fileno : Z) : fs :=
  let ffirst := fileno * bpf in
  let flast := ffirst + bpf - 1 in
  let from := Z.max first ffirst in
  let to := Z.min last flast in
  if (from =? ffirst) && (to =? flast) then unlink_file bpf s fileno
  else if sparse then punch bpf s fileno (from - ffirst) (to - from + 1)
  else s.

(** firstFile, firstFile+1, ..., lastFile. *)
Definition zrange (a b : Z) : list Z :=
  map (fun i => a + Z.of_nat i) (seq 0 (Z.to_nat (b - a + 1))).

(** o_buffers_unlink_blocks_range, 579-618. *)
Definition unlink_range (sparse : bool) (bpf : Z) (s : fs) (first last : Z) : fs :=
  if last <? first then s
  else fold_left (unlink_one sparse bpf first last) (zrange (first / bpf) (last / bpf))
                 (wipe s first last).

(** unlink_unretained_o_buffers, 642-716. *)
Definition unlink_unretained (sparse : bool) (bpf ipb : Z) (s : fs)
    (cstart cend ckstart ckend trx : Z) : fs :=
  if cend <=? cstart then s
  else
    let retainStart := if ckstart <? ckend then Z.min ckstart trx else trx in
    let finish := Z.min cend retainStart in
    let s1 :=
      if cstart <? finish then
        let firstBlock := (cstart + ipb - 1) / ipb in
        let lastBlock := finish / ipb - 1 in
        let retainBlock := retainStart / ipb in
        let leadFile := firstBlock / bpf in
        let firstBlock := if (leadFile + 1) * bpf <=? retainBlock then leadFile * bpf else firstBlock in
        unlink_range sparse bpf s firstBlock lastBlock
      else s in
    if (ckstart <? ckend) && (ckend <? trx) then
      let gapStart := Z.max cstart ckend in
      let gapEnd := Z.min cend trx in
      if gapStart <? gapEnd then
        let firstBlock := (gapStart + ipb - 1) / ipb in
        let lastBlock := gapEnd / ipb - 1 in
        let retainBlock := trx / ipb in
        let chkpEndBlock := (ckend + ipb - 1) / ipb in
        let leadFile := firstBlock / bpf in
        let leadFileFirst := leadFile * bpf in
        let firstBlock := if (chkpEndBlock <=? leadFileFirst) && (leadFileFirst + bpf <=? retainBlock)
                          then leadFileFirst else firstBlock in
        unlink_range sparse bpf s1 firstBlock lastBlock
      else s1
    else s1.

(** The two calls of update_min_undo_locations (undo.c:741-755); the calls of
    advance_global_xmin (oxid.c:1546-1555) are the same in the other order. *)
Definition cleanup_pair (sparse : bool) (bpf ipb : Z) (s : fs)
    (oldClean oldCkS oldCkE newCkS newCkE newMin : Z) : fs :=
  unlink_unretained sparse bpf ipb
    (unlink_unretained sparse bpf ipb s oldClean newMin newCkS newCkE newMin)
    oldCkS oldCkE newCkS newCkE newMin.
