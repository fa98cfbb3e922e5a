(** Sequential file buffers: the files that carry lists of free file blocks.

    Models src/utils/seq_buf.c: init_seq_buf 73-133, seq_buf_check_open_file
    174-234 (only that it may release the lock), seq_buf_wait_prev_page 246-263,
    seq_buf_finish_prev_page 265-342, seq_buf_switch_page 350-409, seq_buf_rw
    414-443, seq_buf_finalize 491-546, seq_buf_get_offset 610-622,
    seq_buf_try_replace 627-692, seq_buf_read_pages 694-768; and the reader side of
    get_free_disk_offset, src/btree/io.c:1061-1101 (decrement the counter, then read).

    Everything between two lock operations on shared->lock is one step; each file
    read or write is one step.  Positions inside a page are relative to
    SEQBUF_DATA_OFF; [C] is SEQBUF_CHUNK_SIZE and [d] the size of the values
    (4 or 8).  Simplifications: I/O errors PANIC in the code, so the state
    SeqBufPrevPageError is not modelled; opening the file is only a point where the
    lock is released; off_t is unbounded. *)
From Coq Require Import ZArith List Bool.
From Verif Require Import Base.
Import ListNotations.
Open Scope Z_scope.

Definition bytes := Z -> Z.

(** memcpy(page + loc, data, n) and OFileWrite(file, data, n, loc). *)
Definition put (f : bytes) (loc n : Z) (data : bytes) : bytes :=
  fun i => if (loc <=? i) && (i <? loc + n) then data (i - loc) else f i.

(** ** Writing *)
Inductive wpc :=
| WIdle
| WTry (v : bytes)               (* at the top of the loop of seq_buf_rw, 423 *)
| WOpen (fpn : Z) (v : bytes)    (* after seq_buf_check_open_file, 366 *)
| WWait (fpn : Z) (v : bytes)    (* in seq_buf_wait_prev_page, 254-260 *)
| WIO (v : bytes)                (* 397: lock released, about to write the previous page *)
| WSet (v : bytes).              (* 400: written, about to set SeqBufPrevPageDone *)

Record wst := mkWst {
  w_pg : bool -> bytes;          (* pages[0], pages[1] *)
  w_cur : bool;                  (* curPageNum *)
  w_fpn : Z;                     (* filePageNum *)
  w_loc : Z;                     (* location - SEQBUF_DATA_OFF *)
  w_busy : bool;                 (* prevPageState = SeqBufPrevPageInProgress *)
  w_off : Z;                     (* evictOffset *)
  w_file : bytes;                (* file contents *)
  w_len : Z;                     (* file length *)
  w_pc : Z -> wpc;               (* where each process is *)
  w_log : list (Z * bytes);      (* ghost: (process, value) written, in order of the lock *)
  w_beg : list (Z * bytes)       (* ghost: (process, value) calls of seq_buf_write_* started *)
}.

(** init_seq_buf with write = true (88-98): a new file with a header of [hdr] bytes
    ([off] = 0) or a file reopened at [off] ([hdr] = 0). *)
Definition winit (pg : bool -> bytes) (file : bytes) (len off hdr : Z) : wst :=
  mkWst pg false 0 hdr false off file len (fun _ => WIdle) [] [].

Definition set_wpc (s : wst) (p : Z) (c : wpc) : wst :=
  mkWst (w_pg s) (w_cur s) (w_fpn s) (w_loc s) (w_busy s) (w_off s) (w_file s) (w_len s)
        (upd (w_pc s) p c) (w_log s) (w_beg s).

Definition upd_page (pg : bool -> bytes) (b : bool) (f : bytes) : bool -> bytes :=
  fun c => if Bool.eqb c b then f else pg c.

(** 390-395: switch to the other page. *)
Definition wswitch (s : wst) (p : Z) (v : bytes) : wst :=
  mkWst (w_pg s) (negb (w_cur s)) (w_fpn s + 1) 0 true (w_off s) (w_file s) (w_len s)
        (upd (w_pc s) p (WIO v)) (w_log s) (w_beg s).

Inductive wop := WBegin (p : Z) (v : bytes) | WStep (p : Z).

Definition wstep (C d : Z) (s : wst) (o : wop) : wst :=
  match o with
  | WBegin p v =>
      match w_pc s p with
      | WIdle => mkWst (w_pg s) (w_cur s) (w_fpn s) (w_loc s) (w_busy s) (w_off s) (w_file s) (w_len s)
                       (upd (w_pc s) p (WTry v)) (w_log s) (w_beg s ++ [(p, v)])
      | _ => s
      end
  | WStep p =>
      match w_pc s p with
      | WIdle => s
      | WTry v =>                                        (* 423-441 *)
          if w_loc s + d <=? C then
            mkWst (upd_page (w_pg s) (w_cur s) (put (w_pg s (w_cur s)) (w_loc s) d v))
                  (w_cur s) (w_fpn s) (w_loc s + d) (w_busy s) (w_off s) (w_file s) (w_len s)
                  (upd (w_pc s) p WIdle) (w_log s ++ [(p, v)]) (w_beg s)
          else set_wpc s p (WOpen (w_fpn s) v)
      | WOpen fpn v =>                                   (* 366-388 *)
          if negb (w_fpn s =? fpn) then set_wpc s p (WTry v)
          else if w_busy s then set_wpc s p (WWait fpn v)
          else wswitch s p v
      | WWait fpn v =>                                   (* 254-260, 375-380 *)
          if w_busy s then s
          else if negb (w_fpn s =? fpn) then set_wpc s p (WTry v)
          else wswitch s p v
      | WIO v =>                                         (* 272-279 *)
          let o := C * (w_fpn s - 1) + w_off s in
          mkWst (w_pg s) (w_cur s) (w_fpn s) (w_loc s) (w_busy s) (w_off s)
                (put (w_file s) o C (w_pg s (negb (w_cur s)))) (Z.max (w_len s) (o + C))
                (upd (w_pc s) p (WSet v)) (w_log s) (w_beg s)
      | WSet v =>                                        (* 400-405 *)
          mkWst (w_pg s) (w_cur s) (w_fpn s) (w_loc s) false (w_off s) (w_file s) (w_len s)
                (upd (w_pc s) p (WTry v)) (w_log s) (w_beg s)
      end
  end.

(** seq_buf_finalize 491-546: waits until no page write is in progress (None), then
    writes the current page; result: file, its length, the returned offset. *)
Definition wfinalize (C : Z) (s : wst) : option (bytes * Z * Z) :=
  if w_busy s then None
  else
    let o := C * w_fpn s + w_off s in
    Some (put (w_file s) o (w_loc s) (w_pg s (w_cur s)),
          (if 0 <? w_loc s then Z.max (w_len s) (o + w_loc s) else w_len s),
          o + w_loc s).

(** ** Reading *)
Inductive rpc :=
| RIdle
| RTry
| ROpen (fpn : Z)
| RWait (fpn : Z)
| RIO
| RSet.

Record rst := mkRst {
  r_pg : bool -> bytes;
  r_cur : bool;
  r_fpn : Z;
  r_loc : Z;
  r_free : Z;                    (* freeBytesNum *)
  r_busy : bool;
  r_off : Z;
  r_file : bytes;
  r_len : Z;
  r_pc : Z -> rpc;
  r_num : Z;                     (* numFreeBlocks *)
  r_got : list (Z * bytes);      (* ghost: (process, value) in order of the lock *)
  r_panic : bool
}.

(** OFileRead of at most C bytes at o into a page pre-filled with 0xFF. *)
Definition chunk (C : Z) (file : bytes) (len o : Z) : bytes :=
  fun i => if (0 <=? i) && (i <? Z.min C (len - o)) then file (o + i) else 255.

(** init_seq_buf with write = false (106-110) and seq_buf_read_pages 694-768; also
    seq_buf_try_replace (off = 0, hdr = 0).  None is a failure to open. *)
Definition rinit (C : Z) (pg : bool -> bytes) (file : bytes) (len off hdr num : Z) : option rst :=
  if (len <? hdr) || (len <? off) then None
  else
    let l := len - off in
    if ((len =? 0) || (l =? 0)) && (hdr =? 0)
    then Some (mkRst pg false 0 hdr 0 false off file len (fun _ => RIdle) num [] false)
    else
      let n1 := if C <? l then C else l in
      let free := l - n1 in
      let n2 := if C <? l then (if C <? l - C then C else l - C) else 0 in
      let p1 : bytes := fun i => if (0 <=? i) && (i <? n1) then file (off + i) else 255 in
      let p2 : bytes := fun i => if (0 <=? i) && (i <? n2) then file (off + n1 + i) else 255 in
      Some (mkRst (fun b => if b then p2 else p1) false 0 hdr (free - n2) false off file len
                  (fun _ => RIdle) num [] false).

Definition set_rpc (s : rst) (p : Z) (c : rpc) : rst :=
  mkRst (r_pg s) (r_cur s) (r_fpn s) (r_loc s) (r_free s) (r_busy s) (r_off s) (r_file s) (r_len s)
        (upd (r_pc s) p c) (r_num s) (r_got s) (r_panic s).

Definition rswitch (s : rst) (p : Z) : rst :=
  mkRst (r_pg s) (negb (r_cur s)) (r_fpn s + 1) 0 (r_free s) true (r_off s) (r_file s) (r_len s)
        (upd (r_pc s) p RIO) (r_num s) (r_got s) (r_panic s).

Inductive rop := RBegin (p : Z) | RStep (p : Z).

Definition rstep (C d : Z) (s : rst) (o : rop) : rst :=
  match o with
  | RBegin p =>                                          (* io.c:1063-1072 *)
      match r_pc s p with
      | RIdle => if 0 <? r_num s
                 then mkRst (r_pg s) (r_cur s) (r_fpn s) (r_loc s) (r_free s) (r_busy s) (r_off s)
                            (r_file s) (r_len s) (upd (r_pc s) p RTry) (r_num s - 1) (r_got s) (r_panic s)
                 else s
      | _ => s
      end
  | RStep p =>
      match r_pc s p with
      | RIdle => s
      | RTry =>
          if r_loc s + d <=? C then
            mkRst (r_pg s) (r_cur s) (r_fpn s) (r_loc s + d) (r_free s) (r_busy s) (r_off s) (r_file s)
                  (r_len s) (upd (r_pc s) p RIdle) (r_num s)
                  (r_got s ++ [(p, fun j => r_pg s (r_cur s) (r_loc s + j))]) (r_panic s)
          else set_rpc s p (ROpen (r_fpn s))
      | ROpen fpn =>
          if negb (r_fpn s =? fpn) then set_rpc s p RTry
          else if r_busy s then set_rpc s p (RWait fpn)
          else rswitch s p
      | RWait fpn =>
          if r_busy s then s
          else if negb (r_fpn s =? fpn) then set_rpc s p RTry
          else rswitch s p
      | RIO =>                                           (* 285-339 *)
          if 0 <? r_free s then
            let o := C * (r_fpn s + 1) + r_off s in
            let n := Z.max 0 (Z.min C (r_len s - o)) in
            let bad := (n =? 0) || ((C <=? r_free s) && negb (n =? C)) ||
                       ((r_free s <? C) && negb (r_free s =? n)) in
            mkRst (upd_page (r_pg s) (negb (r_cur s)) (chunk C (r_file s) (r_len s) o)) (r_cur s) (r_fpn s)
                  (r_loc s) (r_free s - n) (r_busy s) (r_off s) (r_file s) (r_len s)
                  (upd (r_pc s) p RSet) (r_num s) (r_got s) (r_panic s || bad)
          else set_rpc s p RSet
      | RSet =>
          mkRst (r_pg s) (r_cur s) (r_fpn s) (r_loc s) (r_free s) false (r_off s) (r_file s) (r_len s)
                (upd (r_pc s) p RTry) (r_num s) (r_got s) (r_panic s)
      end
  end.

(** seq_buf_get_offset 610-622. *)
Definition r_offset (C : Z) (s : rst) : Z := C * r_fpn s + r_off s + r_loc s.
Definition w_offset (C : Z) (s : wst) : Z := C * w_fpn s + w_off s + w_loc s.

(** ** A file written in several sessions
    The owner finalises the buffer (seq_buf_finalize), remembers the returned offset
    and later reopens the file at that offset: evictOffset argument of init_seq_buf
    73-98 (with no header), as done when the data of an evicted tree is loaded back.
    Each session is a schedule; [pg] are the two pages' initial contents.  Result:
    the file, its length, and (ghost) all values in the order written. *)
Definition session (C d : Z) (hdr : Z) (fl : bytes * Z) (x : (bool -> bytes) * list wop) : option (bytes * Z * list bytes) :=
  let s := run (wstep C d) (winit (fst x) (fst fl) (snd fl) (snd fl) hdr) (snd x) in
  match wfinalize C s with
  | Some (f, len, _) => Some (f, len, map snd (w_log s))
  | None => None
  end.

Fixpoint sessions (C d : Z) (hdr : Z) (fl : bytes * Z) (xs : list ((bool -> bytes) * list wop))
  : option (bytes * Z * list bytes) :=
  match xs with
  | [] => Some (fst fl, snd fl, [])
  | x :: r =>
      match session C d hdr fl x with
      | Some (f, len, vs) =>
          match sessions C d 0 (f, len) r with
          | Some (f', len', vs') => Some (f', len', vs ++ vs')
          | None => None
          end
      | None => None
      end
  end.

