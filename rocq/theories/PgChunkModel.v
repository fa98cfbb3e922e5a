(** The layout of a B-tree page: the item arrays and items of its chunks, the
    chunk descriptors and the chunk high keys.
    src/btree/page_chunks.c, include/btree/page_contents.h.
    Memory maps a byte offset in the page to the 16-bit word there; item arrays
    hold words, items and keys are sequences of words, and everything is read at
    even offsets.  The header fields and the descriptors are kept outside the
    memory.  A loop over independent elements is one pointwise update.
    [chunkKeysFixed], [maxKeyLen] and the counters of the header are left out. *)
From Coq Require Import ZArith List Bool Lia.
From Verif Require Import Base.
Import ListNotations.
Open Scope Z_scope.

(** ORIOLEDB_BLCKSZ; offsetof(BTreePageHeader, chunkDesc), the fields of
    include/btree/page_contents.h:124-153 and include/orioledb.h:371-376. *)
Definition blcksz := 8192.
Definition desc_at := 56.

(** MAXALIGN; sizeof(LocationIndex) is 2, sizeof(BTreePageChunkDesc) is 4. *)
Definition ma (x : Z) : Z := (x + 7) / 8 * 8.
Definition arr_sz (n : Z) : Z := ma (2 * n).
Definition descs_end (cc : Z) : Z := ma (desc_at + 4 * cc).

Definition mem := Z -> Z.

(** memmove and memcpy. *)
Definition move (d s n : Z) (m : mem) : mem :=
  fun a => if (d <=? a) && (a <? d + n) then m (a - d + s) else m a.

(** A LocationIndex is 16 bits wide. *)
Definition w16 (x : Z) : Z := x mod 65536.

(** ITEM_GET_OFFSET, ITEM_GET_FLAGS, ITEM_SET_FLAGS (which changes bit 14 only).
    include/btree/page_contents.h:175-177. *)
Definition off_of (w : Z) : Z := w mod 16384.
Definition flags_of (w : Z) : Z := w / 16384.
Definition with_flags (w f : Z) : Z :=
  w mod 16384 + (if f =? 0 then 0 else 16384) + w / 32768 * 32768.

(** for (i = 0; i < n; i++) items[i] += s *)
Definition bump (b n s : Z) (m : mem) : mem :=
  fun a => if (b <=? a) && (a <? b + 2 * n) then w16 (m a + s) else m a.

(** for (i = n; i > 0; i--) items[i] = items[i - 1] + s, the array at [b] *)
Definition shift_up (b n s : Z) (m : mem) : mem :=
  fun a => if (b + 2 <=? a) && (a <? b + 2 + 2 * n) then w16 (m (a - 2) + s) else m a.

(** for (i = 0; i < n; i++) items[i] = items[i + 1] + s, the array at [b] *)
Definition shift_down (b n s : Z) (m : mem) : mem :=
  fun a => if (b <=? a) && (a <? b + 2 * n) then w16 (m (a + 2) + s) else m a.

Definition put (a w : Z) (m : mem) : mem := upd m a (w16 w).

(** memcpy from outside the page. *)
Definition copy_in (a : Z) (ws : list Z) (m : mem) : mem :=
  fun x => if (a <=? x) && (x <? a + 2 * Z.of_nat (length ws)) then nth (Z.to_nat ((x - a) / 2)) ws 0 else m x.

(** BTreePageChunkDesc: locations in units of 4 bytes; fields 12, 10, 7 and 2 bits
    wide.  include/btree/page_contents.h:84-99. *)
Record desc := mkDesc { d_loc : Z; d_off : Z; d_hk : Z; d_hf : Z }.
Definition mkd (loc off hk hf : Z) : desc :=
  mkDesc (loc mod 4096) (off mod 1024) (hk mod 128) (hf mod 4).
Definition short (l : Z) : Z := l / 4.

Record page := mkPage {
  pg_m : mem;
  pg_d : Z -> desc;
  pg_cc : Z;          (* chunksCount *)
  pg_n : Z;           (* itemsCount *)
  pg_hend : Z;        (* hikeysEnd *)
  pg_size : Z;        (* dataSize *)
  pg_right : bool;    (* RIGHTMOST *)
  pg_lim : Z }.       (* BTREE_PAGE_HIKEYS_END: 256 or 512 *)

(** src/btree/page_chunks.c:364-387 (page_chunk_fill_locator) *)
Definition loc_at (p : page) (c : Z) : Z := 4 * d_loc (pg_d p c).
Definition chunk_n (p : page) (c : Z) : Z :=
  if c + 1 <? pg_cc p then d_off (pg_d p (c + 1)) - d_off (pg_d p c) else pg_n p - d_off (pg_d p c).
Definition chunk_sz (p : page) (c : Z) : Z :=
  if c + 1 <? pg_cc p then loc_at p (c + 1) - loc_at p c else pg_size p - loc_at p c.

(** src/btree/page_chunks.c:565-590 (page_locator_get_item_size) *)
Definition item_size (p : page) (c i : Z) : Z :=
  let b := loc_at p c in
  let o := off_of (pg_m p (b + 2 * i)) in
  if i + 1 <? chunk_n p c then off_of (pg_m p (b + 2 * (i + 1))) - o
  else (if c + 1 <? pg_cc p then loc_at p (c + 1) else pg_size p) - (o + b).

(** src/btree/page_chunks.c:469-541 (page_locator_insert_item) *)
Definition insert_item (p : page) (c i size : Z) : page :=
  let b := loc_at p c in let n := chunk_n p c in
  let ishift := arr_sz (n + 1) - arr_sz n in
  let dshift := ishift + size in
  let first := b + arr_sz n in
  let ip := if i <? n then b + off_of (pg_m p (b + 2 * i)) else b + chunk_sz p c in
  let e := pg_size p in
  let m1 := move (ip + dshift) ip (e - ip) (pg_m p) in
  let m2 := if ishift =? 0 then m1 else bump b i ishift (move (first + ishift) first (ip - first) m1) in
  let m3 := shift_up (b + 2 * i) (n - i) dshift m2 in
  let m4 := put (b + 2 * i) (ip - b + ishift) m3 in
  let d' := fun j => let x := pg_d p j in
    if (c <? j) && (j <? pg_cc p) then mkd (d_loc x + short dshift) (d_off x + 1) (d_hk x) (d_hf x) else x in
  mkPage m4 d' (pg_cc p) (pg_n p + 1) (pg_hend p) (pg_size p + dshift) (pg_right p) (pg_lim p).

(** Copy header and tuple into the item and set its flags.
    src/btree/insert.c:1500-1507 *)
Definition fill_item (p : page) (c i f : Z) (ws : list Z) : page :=
  let b := loc_at p c in
  let a := b + off_of (pg_m p (b + 2 * i)) in
  let m1 := copy_in a ws (pg_m p) in
  mkPage (put (b + 2 * i) (with_flags (m1 (b + 2 * i)) f) m1) (pg_d p) (pg_cc p) (pg_n p) (pg_hend p)
    (pg_size p) (pg_right p) (pg_lim p).

(** src/btree/page_chunks.c:592-649 (page_locator_resize_item) *)
Definition resize_item (p : page) (c i size : Z) : page :=
  let b := loc_at p c in let n := chunk_n p c in
  let dshift := size - item_size p c i in
  if dshift =? 0 then p
  else
    let next := if i + 1 <? n then b + off_of (pg_m p (b + 2 * (i + 1))) else b + chunk_sz p c in
    let e := pg_size p in
    let m1 := move (next + dshift) next (e - next) (pg_m p) in
    let m2 := bump (b + 2 * (i + 1)) (n - (i + 1)) dshift m1 in
    let d' := fun j => let x := pg_d p j in
      if (c <? j) && (j <? pg_cc p) then mkd (d_loc x + short dshift) (d_off x) (d_hk x) (d_hf x) else x in
    mkPage m2 d' (pg_cc p) (pg_n p) (pg_hend p) (pg_size p + dshift) (pg_right p) (pg_lim p).

(** src/btree/page_chunks.c:651-779 (page_merge_chunks): chunks [c] and [c + 1].
    The saved words of the second array are computed from the page as it was. *)
Definition merge_chunks (p : page) (c : Z) : page :=
  let b1 := loc_at p c in let b2 := loc_at p (c + 1) in
  let n1 := chunk_n p c in let n2 := chunk_n p (c + 1) in
  let data1 := b1 + arr_sz n1 in let end1 := b1 + chunk_sz p c in
  let data2 := b2 + arr_sz n2 in let e := pg_size p in
  let s1 := arr_sz (n1 + n2) - arr_sz n1 in
  let s2 := arr_sz n1 + arr_sz n2 - arr_sz (n1 + n2) in
  let tmp := fun a => w16 (pg_m p (a - (b1 + 2 * n1) + b2) - arr_sz n2 + arr_sz (n1 + n2) + (end1 - data1)) in
  let m1 := if s1 =? 0 then pg_m p else move (data1 + s1) data1 (end1 - data1) (bump b1 n1 s1 (pg_m p)) in
  let m2 := if s2 =? 0 then m1 else move (data2 - s2) data2 (e - data2) m1 in
  let m3 := fun a => if (b1 + 2 * n1 <=? a) && (a <? b1 + 2 * n1 + 2 * n2) then tmp a else m2 a in
  let hk := fun j => 4 * d_hk (pg_d p j) in
  let hs := descs_end (pg_cc p) - descs_end (pg_cc p - 1) in
  let hs2 := hs + hk (c + 1) - hk c in
  let m4 := if 0 <? hs then move (hk 0 - hs) (hk 0) (hk c - hk 0) m3 else m3 in
  let m5 := move (hk c - hs) (hk (c + 1)) (pg_hend p - hk (c + 1)) m4 in
  let d' := fun j =>
    if j <? c then let x := pg_d p j in mkd (d_loc x) (d_off x) (d_hk x - short hs) (d_hf x)
    else if j =? c then let x := pg_d p j in mkd (d_loc x) (d_off x) (d_hk x - short hs) (d_hf (pg_d p (c + 1)))
    else if j <? pg_cc p - 1 then let x := pg_d p (j + 1) in
      mkd (d_loc x - short s2) (d_off x) (d_hk x - short hs2) (d_hf x)
    else pg_d p j in
  mkPage m5 d' (pg_cc p - 1) (pg_n p) (pg_hend p - hs2) (e - s2) (pg_right p) (pg_lim p).

(** src/btree/page_chunks.c:781-860 (page_locator_delete_item), before the merge *)
Definition remove_item (p : page) (c i : Z) : page :=
  let b := loc_at p c in let n := chunk_n p c in
  let size := item_size p c i in
  let ishift := arr_sz n - arr_sz (n - 1) in
  let dshift := ishift + size in
  let first := b + arr_sz n in
  let ip := b + off_of (pg_m p (b + 2 * i)) in
  let e := pg_size p in
  let m1 := shift_down (b + 2 * i) (n - 1 - i) (- dshift) (pg_m p) in
  let m2 := if ishift =? 0 then m1 else bump b i (- ishift) (move (first - ishift) first (ip - first) m1) in
  let m3 := move (ip - ishift) (ip + size) (e - ip - size) m2 in
  let d' := fun j => let x := pg_d p j in
    if (c <? j) && (j <? pg_cc p) then mkd (d_loc x - short dshift) (d_off x - 1) (d_hk x) (d_hf x) else x in
  mkPage m3 d' (pg_cc p) (pg_n p - 1) (pg_hend p) (e - dshift) (pg_right p) (pg_lim p).

Definition delete_item (p : page) (c i : Z) : page :=
  let q := remove_item p c i in
  if chunk_n p c - 1 =? 0 then
    if 0 <? c then merge_chunks q (c - 1)
    else if c + 1 <? pg_cc q then merge_chunks q c
    else q
  else q.

(** src/btree/page_chunks.c:862-1000 (page_split_chunk) and 1134-1141 (the copy of
    the new high key): chunk [c] is cut at item [i]; the key has flags [f] and is
    [ws], filled up with zeros. *)
Definition split_chunk (p : page) (c i f : Z) (ws : list Z) : page :=
  let hsize := 2 * Z.of_nat (length ws) in
  let b := loc_at p c in let n := chunk_n p c in
  let l := i in let r := n - i in
  let first := b + arr_sz n in
  let ip := b + off_of (pg_m p (b + 2 * i)) in
  let e := pg_size p in
  let ls := arr_sz n - arr_sz l in
  let rs := off_of (pg_m p (b + 2 * i)) - arr_sz r in
  let rp := ip - arr_sz n + arr_sz l in
  let tmp := fun a => w16 (pg_m p (a - rp + (b + 2 * i)) - rs) in
  let m1 := move (first - ls) first (ip - first) (bump b i (- ls) (pg_m p)) in
  let ds := arr_sz r + arr_sz l - arr_sz n in
  let m2 := move (ip + ds) ip (e - ip) m1 in
  let m3 := fun a => if (rp <=? a) && (a <? rp + 2 * r) then tmp a else m2 a in
  let cs := descs_end (pg_cc p + 1) - descs_end (pg_cc p) in
  let hs := cs + hsize in
  let h0 := 4 * d_hk (pg_d p 0) in let hc := 4 * d_hk (pg_d p c) in
  let m4 := move (hc + hs) hc (pg_hend p - hc) m3 in
  let m5 := move (h0 + cs) h0 (hc - h0) m4 in
  let d' := fun j =>
    if j <? c then let x := pg_d p j in mkd (d_loc x) (d_off x) (d_hk x + short cs) (d_hf x)
    else if j =? c then let x := pg_d p j in mkd (d_loc x) (d_off x) (d_hk x + short cs) f
    else if j =? c + 1 then let x := pg_d p c in
      mkd (short rp) (d_off x + l) ((d_hk x + short cs) mod 128 + short hsize) (d_hf x)
    else if j <=? pg_cc p then let x := pg_d p (j - 1) in
      mkd (d_loc x + short ds) (d_off x) (d_hk x + short hs) (d_hf x)
    else pg_d p j in
  let m6 := copy_in ((d_hk (pg_d p c) + short cs) mod 128 * 4) ws m5 in
  mkPage m6 d' (pg_cc p + 1) (pg_n p) (pg_hend p + hs) (e + ds) (pg_right p) (pg_lim p).

(** src/btree/page_chunks.c:339-362 (init_page_first_chunk), with the high key put
    in its place; [lim] is 256 on a leaf, 512 above. *)
Definition init (m : mem) (lim : Z) (right : bool) (f : Z) (ws : list Z) : page :=
  let h := descs_end 1 in
  let hend := h + 2 * Z.of_nat (length ws) in
  let size := if lim <? hend then hend else lim in
  mkPage (copy_in h ws m) (fun _ => mkd (short size) 0 (short h) f) 1 0 hend size right lim.

(** The free space of the page and what an item needs.
    src/btree/page_chunks.c:223-262 (page_locator_fits_item) *)
Definition fits_new (p : page) (c size : Z) : bool :=
  size + (arr_sz (chunk_n p c + 1) - arr_sz (chunk_n p c)) <=? blcksz - pg_size p.
Definition fits_instead (p : page) (c i size : Z) : bool :=
  size - item_size p c i <=? blcksz - pg_size p.

(** May chunk [c] be cut at item [i] with a key of that size?  Which of the
    possible cuts is taken, if any, is left open.
    src/btree/page_chunks.c:1024-1090 (page_split_chunk_if_needed) *)
Definition may_split (p : page) (c i hsize : Z) : bool :=
  (pg_hend p <? pg_lim p) && (1 <=? i) && (i <? chunk_n p c) &&
  (let free := pg_lim p - pg_hend p in
   let free1 := if pg_right p && (pg_lim p =? 512) && (4 <=? free) then free - 4 else free in
   let ns := descs_end (pg_cc p + 1) - descs_end (pg_cc p) in
   let free2 := if ns <? free1 then free1 - ns else 0 in
   hsize <=? free2) &&
  (arr_sz i + arr_sz (chunk_n p c - i) - arr_sz (chunk_n p c) <=? blcksz - pg_size p).

(** The sizes of items and keys are aligned. *)
Definition aligned (ws : list Z) : bool := (length ws mod 4 =? 0)%nat && (1 <=? length ws)%nat.

Inductive op :=
| Insert (c i f : Z) (ws : list Z)
| Replace (c i f : Z) (ws : list Z)
| Delete (c i : Z)
| Cut (c i f : Z) (ws : list Z).

Definition flag_ok (f : Z) : bool := (f =? 0) || (f =? 1).
Definition in_chunk (p : page) (c : Z) : bool := (0 <=? c) && (c <? pg_cc p).

Definition step (p : page) (o : op) : page :=
  match o with
  | Insert c i f ws =>
      let size := 2 * Z.of_nat (length ws) in
      if in_chunk p c && (0 <=? i) && (i <=? chunk_n p c) && aligned ws && flag_ok f && fits_new p c size
      then fill_item (insert_item p c i size) c i f ws else p
  | Replace c i f ws =>
      let size := 2 * Z.of_nat (length ws) in
      if in_chunk p c && (0 <=? i) && (i <? chunk_n p c) && aligned ws && flag_ok f && fits_instead p c i size
      then fill_item (resize_item p c i size) c i f ws else p
  | Delete c i =>
      if in_chunk p c && (0 <=? i) && (i <? chunk_n p c) then delete_item p c i else p
  | Cut c i f ws =>
      if in_chunk p c && aligned ws && flag_ok f && may_split p c i (2 * Z.of_nat (length ws))
      then split_chunk p c i f ws else p
  end.

(* ------------------------------------------------- reading *)

Definition read_words (m : mem) (a : Z) (n : nat) : list Z := map (fun j => m (a + 2 * Z.of_nat j)) (seq 0 n).

(** BTREE_PAGE_LOCATOR_GET_ITEM, BTREE_PAGE_GET_ITEM_FLAGS, BTREE_PAGE_GET_ITEM_SIZE.
    include/btree/page_contents.h:195-214 *)
Definition item_at (p : page) (c i : Z) : Z * list Z :=
  let w := pg_m p (loc_at p c + 2 * i) in
  (flags_of w, read_words (pg_m p) (loc_at p c + off_of w) (Z.to_nat (item_size p c i / 2))).

(** The high key of a chunk, up to where the next one starts.
    src/btree/find.c:2160-2170, src/btree/page_contents.c:802-828 *)
Definition key_at (p : page) (c : Z) : Z * list Z :=
  let a := 4 * d_hk (pg_d p c) in
  let e := if c + 1 <? pg_cc p then 4 * d_hk (pg_d p (c + 1)) else pg_hend p in
  (d_hf (pg_d p c), read_words (pg_m p) a (Z.to_nat ((e - a) / 2))).

Definition contents (p : page) : list (list (Z * list Z) * (Z * list Z)) :=
  map (fun c => (map (fun i => item_at p (Z.of_nat c) (Z.of_nat i)) (seq 0 (Z.to_nat (chunk_n p (Z.of_nat c)))),
                 key_at p (Z.of_nat c)))
      (seq 0 (Z.to_nat (pg_cc p))).

(** The locator of the item with a given number.
    src/btree/page_chunks.c:389-405 (page_item_fill_locator) *)
Fixpoint find_chunk (n : nat) (p : page) (k c : Z) : Z :=
  match n with
  | O => c
  | S n' => if (c <? pg_cc p - 1) && (d_off (pg_d p (c + 1)) <=? k) then find_chunk n' p k (c + 1) else c
  end.
Definition locate (p : page) (k : Z) : Z * Z :=
  let c := find_chunk (Z.to_nat (pg_cc p)) p k 0 in (c, k - d_off (pg_d p c)).
