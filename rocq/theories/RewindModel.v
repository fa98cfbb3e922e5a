(** Model of the rewind queue and of the rewind itself (src/rewind/rewind.c,
    include/rewind/rewind.h): two rings in shared memory, a file between
    them, concurrent committing backends, the worker that completes old
    entries, and the backward walk that undoes transactions. *)
From Coq Require Import ZArith List Bool Lia.
From Verif Require Import Base.
Import ListNotations.
Open Scope Z_scope.

(** sizeof(RewindItem) with three undo logs, and ORIOLEDB_BLCKSZ
    (rewind.h:57-69, orioledb.h). *)
Definition SZ : Z := 120.
Definition BLK : Z := 8192.
(** REWIND_DISK_BUFFER_LENGTH (rewind.h:79). *)
Definition LEN : Z := BLK / SZ.
(** SUBXIDS_PER_ITEM (rewind.h:43). *)
Definition SUBS : Z := 25.

(** The settings: capacity of each ring (rewind_circular_buffer_size,
    orioledb.c:1275-1280), orioledb.rewind_max_transactions and
    orioledb.rewind_max_time in microseconds. *)
Record cfg := mkCfg { c_n : Z; c_maxt : Z; c_maxage : Z }.

(** A transaction as the queue sees it.  An identifier of 0 stands for
    "none" (InvalidOXid, InvalidTransactionId).  [t_loc] is the place of its
    undo records (one undo log instead of three); [t_writes] are the rows it
    writes, oldest first. *)
Record tx := mkTx {
  t_oxid : Z; t_xid : Z; t_subs : list Z; t_loc : Z; t_writes : list (Z * Z)
}.

(** RewindItem / SubxidsItem (rewind.h:57-77); [Empty] is EMPTY_ITEM_TAG.  Of
    a subxids item only the array cells that were filled are kept. *)
Inductive item :=
| Empty
| Main (oxid xid nsub loc retain time : Z)
| Subx (oxid nsub : Z) (l : list Z).

(** Number of items of a transaction (rewind.c:1633). *)
Definition nitems (t : tx) : Z :=
  let n := Z.of_nat (length (t_subs t)) in
  if n =? 0 then 1 else 2 + (n - 1) / SUBS.

(** The [k]-th item (rewind.c:1697-1830): the main item, then the
    subtransactions in pieces of SUBXIDS_PER_ITEM. *)
Definition item_at (t : tx) (retain now k : Z) : item :=
  let n := Z.of_nat (length (t_subs t)) in
  if k =? 0 then Main (t_oxid t) (t_xid t) n (t_loc t) retain now
  else Subx (t_oxid t) n
         (firstn (Z.to_nat SUBS) (skipn (Z.to_nat (SUBS * (k - 1))) (t_subs t))).

(** Where a backend is: in a transaction; after its commit became visible
    (undo.c:2679); after reserving its positions; after looking for space;
    filling; in the loop that moves addPosFilledUpto. *)
Inductive pc :=
| Idle | Active | Committed
| Space | SpaceEv (free af : Z)
| Fill (k : Z)
| BCas (cur : Z) | BTag (cur : Z).

Record proc := mkProc { p_pc : pc; p_tx : tx; p_start : Z }.

(** Where the worker is in its loop (rewind.c:1253-1420). *)
Inductive wpc := W0 | W1 | W2.

(** RewindMeta, the rings and the file (rewind.h:81-118).  The last group is
    bookkeeping that nothing reads: the committed transactions in commit
    order, the reservations, what was written where and when, and what the
    worker completed. *)
Record st := mkSt {
  s_add : Z -> item; s_comp : Z -> item; s_disk : Z -> item;
  s_ar : Z; s_af : Z; s_e : Z; s_r : Z; s_c : Z;
  s_co : Z;                      (* complete_oxid, 0 = not set *)
  s_procs : Z -> proc; s_wpc : wpc;
  s_top : Z;                     (* next undo location *)
  s_live : list Z;               (* undo locations of unfinished transactions *)
  s_mpr : Z;                     (* minProcRetainLocation *)
  s_mrr : Z;                     (* minRewindRetainLocation *)
  s_db : Z -> list (Z * Z);      (* row -> versions (writer, value), newest first *)
  s_ulog : Z -> list (Z * Z);    (* undo records of a transaction *)
  s_commits : list tx;
  s_resv : list (Z * tx);
  s_hist : Z -> item;
  s_done : list (Z * item * Z * Z)
}.

Definition set_add s v := mkSt v (s_comp s) (s_disk s) (s_ar s) (s_af s) (s_e s) (s_r s) (s_c s) (s_co s) (s_procs s) (s_wpc s) (s_top s) (s_live s) (s_mpr s) (s_mrr s) (s_db s) (s_ulog s) (s_commits s) (s_resv s) (s_hist s) (s_done s).
Definition set_pc s p c := mkSt (s_add s) (s_comp s) (s_disk s) (s_ar s) (s_af s) (s_e s) (s_r s) (s_c s) (s_co s)
  (upd (s_procs s) p (mkProc c (p_tx (s_procs s p)) (p_start (s_procs s p)))) (s_wpc s) (s_top s) (s_live s) (s_mpr s) (s_mrr s) (s_db s) (s_ulog s) (s_commits s) (s_resv s) (s_hist s) (s_done s).
Definition set_af s v := mkSt (s_add s) (s_comp s) (s_disk s) (s_ar s) v (s_e s) (s_r s) (s_c s) (s_co s) (s_procs s) (s_wpc s) (s_top s) (s_live s) (s_mpr s) (s_mrr s) (s_db s) (s_ulog s) (s_commits s) (s_resv s) (s_hist s) (s_done s).
Definition set_wpc s w := mkSt (s_add s) (s_comp s) (s_disk s) (s_ar s) (s_af s) (s_e s) (s_r s) (s_c s) (s_co s) (s_procs s) w (s_top s) (s_live s) (s_mpr s) (s_mrr s) (s_db s) (s_ulog s) (s_commits s) (s_resv s) (s_hist s) (s_done s).
(** The rings, the file, evictPos and restorePos. *)
Definition set_q s add comp disk e r := mkSt add comp disk (s_ar s) (s_af s) e r (s_c s) (s_co s) (s_procs s) (s_wpc s) (s_top s) (s_live s) (s_mpr s) (s_mrr s) (s_db s) (s_ulog s) (s_commits s) (s_resv s) (s_hist s) (s_done s).
Definition set_mpr s v := mkSt (s_add s) (s_comp s) (s_disk s) (s_ar s) (s_af s) (s_e s) (s_r s) (s_c s) (s_co s) (s_procs s) (s_wpc s) (s_top s) (s_live s) v (s_mrr s) (s_db s) (s_ulog s) (s_commits s) (s_resv s) (s_hist s) (s_done s).

Definition no_tx : tx := mkTx 0 0 [] 0 [].

(** rewind_init_shmem (rewind.c:978-1054). *)
Definition init : st :=
  mkSt (fun _ => Empty) (fun _ => Empty) (fun _ => Empty) 0 0 0 0 0 0
       (fun _ => mkProc Idle no_tx 0) W0 0 [] 0 0
       (fun _ => []) (fun _ => []) [] [] (fun _ => Empty) [].

(** The fast path that moves items from one ring to the other, one at a time
    (rewind.c:1154-1183 and 1452-1483): while restorePos = evictPos, the
    completion ring has room and there is a filled item. *)
Fixpoint fast_move (c : cfg) (fuel : nat) (upto : Z) (s : st) : st :=
  match fuel with
  | O => s
  | Datatypes.S f =>
      if (s_r s =? s_e s) && (s_r s - s_c s <? c_n c) && (s_e s <? upto) then
        fast_move c f upto
          (set_q s (upd (s_add s) (s_e s mod c_n c) Empty)
                   (upd (s_comp s) (s_r s mod c_n c) (s_add s (s_e s mod c_n c)))
                   (s_disk s) (s_e s + 1) (s_r s + 1))
      else s
  end.

(** o_buffers_read of [cnt] items at position [pos] into ring cells starting
    at [slot], in closed form. *)
Definition read_range (disk ring : Z -> item) (slot pos cnt : Z) : Z -> item :=
  fun x => if (slot <=? x) && (x <? slot + cnt) then disk (pos + (x - slot)) else ring x.

(** o_buffers_write of [cnt] ring cells starting at [slot] to position [pos]. *)
Definition write_range (disk ring : Z -> item) (slot pos cnt : Z) : Z -> item :=
  fun p => if (pos <=? p) && (p <? pos + cnt) then ring (slot + (p - pos)) else disk p.

(** Cells that the cleaning loop of evict_rewind_items empties
    (rewind.c:1531-1539), in closed form. *)
Definition clean_range (c : cfg) (ring : Z -> item) (e : Z) : Z -> item :=
  fun x => if (0 <=? x) && (x <? c_n c) && ((x - e) mod c_n c <? LEN) then Empty else ring x.

(** o_buffers_unlink_blocks_range of every block fully below restorePos
    (rewind.c:1186-1201).  An item that has bytes in such a block is lost.
    Blocks that were already removed before are removed again here. *)
Definition punch (s : st) : st :=
  let last := s_r s * SZ / BLK - 1 in
  set_q s (s_add s) (s_comp s)
        (fun p => if p * SZ <? (last + 1) * BLK then Empty else s_disk s p) (s_e s) (s_r s).

(** try_restore_evicted_rewind_page (rewind.c:1089-1202).  The part under
    rewindEvictLock is one step. *)
Definition restore (c : cfg) (s : st) : st :=
  let s1 :=
    if (s_r s <? s_e s) && (LEN <=? c_n c - (s_r s - s_c s)) then
      let start := s_r s mod c_n c in
      let to_end := c_n c - start in
      let comp' :=
        if to_end <? LEN then
          read_range (s_disk s) (read_range (s_disk s) (s_comp s) start (s_r s) to_end)
                     0 (s_r s + to_end) (LEN - to_end)
        else read_range (s_disk s) (s_comp s) start (s_r s) LEN in
      set_q s (s_add s) comp' (s_disk s) (s_e s) (s_r s + LEN)
    else fast_move c (Z.to_nat (c_n c)) (s_af s) s in
  punch s1.

(** evict_rewind_items (rewind.c:1434-1565) for a caller that got the lock;
    [af] is the value of addPosFilledUpto the caller has read. *)
Definition evict (c : cfg) (af : Z) (s : st) : st :=
  if (s_r s =? s_e s) && (s_r s - s_c s <? c_n c) && (s_e s <=? af) then
    fast_move c (Z.to_nat (c_n c)) af s
  else if s_e s + LEN <? af then
    let start := s_e s mod c_n c in
    let to_end := c_n c - start in
    let disk' :=
      if to_end <? LEN then
        write_range (write_range (s_disk s) (s_add s) start (s_e s) to_end) (s_add s)
                    0 (s_e s + to_end) (LEN - to_end)
      else write_range (s_disk s) (s_add s) start (s_e s) LEN in
    set_q s (clean_range c (s_add s) (s_e s)) (s_comp s) disk' (s_e s + LEN) (s_r s)
  else s.

(** The test that asks for an eviction (rewind.c:1662). *)
Definition wants_evict (c : cfg) (free : Z) : bool :=
  (free <=? LEN * 4) || ((c_n c <? LEN * 8) && (free <=? LEN)).

(** Writing rows: each write puts a version on top of the row's chain.  The
    model applies the writes when the transaction commits. *)
Definition push (o : Z) (db : Z -> list (Z * Z)) (w : Z * Z) : Z -> list (Z * Z) :=
  upd db (fst w) ((o, snd w) :: db (fst w)).
Definition apply_tx (db : Z -> list (Z * Z)) (t : tx) : Z -> list (Z * Z) :=
  if t_oxid t =? 0 then db else fold_left (push (t_oxid t)) (t_writes t) db.

(** modify_undo_callback (btree/undo.c:516-630): the top version is taken
    away if it belongs to the transaction, otherwise nothing happens. *)
Definition unpush (o : Z) (db : Z -> list (Z * Z)) (w : Z * Z) : Z -> list (Z * Z) :=
  match db (fst w) with
  | (o', _) :: rest => if o' =? o then upd db (fst w) rest else db
  | [] => db
  end.

Inductive op :=
| OStart (p : Z) (t : tx)      (* a backend starts a transaction *)
| OCommit (p : Z)              (* its commit becomes visible *)
| OReserve (p : Z)             (* add_to_rewind_buffer: fetch-add of addPosReserved *)
| OSpace (p : Z)               (* reads evictPos and addPosFilledUpto *)
| OEvict (p : Z) (got : bool)  (* evicts if it wants to and gets the lock *)
| OFill (p now : Z)            (* fills one item *)
| OBump (p : Z)                (* one step of the loop on addPosFilledUpto *)
| ORetain (m : Z)              (* minProcRetainLocation moves forward *)
| OWTop | OWDecide (now : Z) | OWRest.

(** add_to_rewind_buffer (rewind.c:1608-1868), the commit before it
    (undo.c:2677-2690) and the worker loop (rewind.c:1253-1420), one shared
    memory access per step.  Subtransactions are recorded only for a
    transaction with a heap identifier (save_precommit_xid_subxids,
    rewind.c:1575-1592).  Identifiers are unsigned.  The developer-only switches skipCheck and
    force_complete are off. *)
Definition step (c : cfg) (s : st) (o : op) : st :=
  match o with
  | OStart p t =>
      if t_oxid t <? 0 then s else
      match p_pc (s_procs s p) with
      | Idle =>
          let t' := mkTx (t_oxid t) (t_xid t) (if t_xid t =? 0 then [] else t_subs t) (s_top s) (t_writes t) in
          mkSt (s_add s) (s_comp s) (s_disk s) (s_ar s) (s_af s) (s_e s) (s_r s) (s_c s) (s_co s)
               (upd (s_procs s) p (mkProc Active t' 0)) (s_wpc s)
               (s_top s + 1) (s_top s :: s_live s) (s_mpr s) (s_mrr s) (s_db s)
               (upd (s_ulog s) (s_top s) (t_writes t)) (s_commits s) (s_resv s) (s_hist s) (s_done s)
      | _ => s
      end
  | OCommit p =>
      match p_pc (s_procs s p) with
      | Active =>
          let t := p_tx (s_procs s p) in
          mkSt (s_add s) (s_comp s) (s_disk s) (s_ar s) (s_af s) (s_e s) (s_r s) (s_c s) (s_co s)
               (upd (s_procs s) p (mkProc Committed t 0)) (s_wpc s)
               (s_top s) (s_live s) (s_mpr s) (s_mrr s) (apply_tx (s_db s) t) (s_ulog s)
               (s_commits s ++ [t]) (s_resv s) (s_hist s) (s_done s)
      | _ => s
      end
  | OReserve p =>
      match p_pc (s_procs s p) with
      | Committed =>
          let t := p_tx (s_procs s p) in
          mkSt (s_add s) (s_comp s) (s_disk s) (s_ar s + nitems t) (s_af s) (s_e s) (s_r s) (s_c s) (s_co s)
               (upd (s_procs s) p (mkProc Space t (s_ar s))) (s_wpc s)
               (s_top s) (s_live s) (s_mpr s) (s_mrr s) (s_db s) (s_ulog s)
               (s_commits s) (s_resv s ++ [(s_ar s, t)]) (s_hist s) (s_done s)
      | _ => s
      end
  | OSpace p =>
      match p_pc (s_procs s p) with
      | Space =>
          let pr := s_procs s p in
          set_pc s p (SpaceEv (c_n c - (p_start pr + nitems (p_tx pr) - s_e s)) (s_af s))
      | _ => s
      end
  | OEvict p got =>
      match p_pc (s_procs s p) with
      | SpaceEv free af =>
          let s1 := if wants_evict c free && got then evict c af s else s in
          set_pc s1 p (if 1 <=? free then Fill 0 else Space)
      | _ => s
      end
  | OFill p now =>
      match p_pc (s_procs s p) with
      | Fill k =>
          let t := p_tx (s_procs s p) in
          let pos := p_start (s_procs s p) + k in
          let it := item_at t (s_mpr s) now k in
          mkSt (upd (s_add s) (pos mod c_n c) it) (s_comp s) (s_disk s) (s_ar s) (s_af s) (s_e s) (s_r s) (s_c s)
               (if (k =? 0) && (s_co s =? 0) then t_oxid t else s_co s)
               (upd (s_procs s) p
                  (mkProc (if k + 1 =? nitems t then BCas (p_start (s_procs s p)) else Fill (k + 1))
                          t (p_start (s_procs s p)))) (s_wpc s)
               (s_top s) (s_live s) (s_mpr s) (s_mrr s) (s_db s) (s_ulog s)
               (s_commits s) (s_resv s) (upd (s_hist s) pos it) (s_done s)
      | _ => s
      end
  | OBump p =>
      let pr := s_procs s p in
      let finish :=
        mkSt (s_add s) (s_comp s) (s_disk s) (s_ar s) (s_af s) (s_e s) (s_r s) (s_c s) (s_co s)
             (upd (s_procs s) p (mkProc Idle (p_tx pr) (p_start pr))) (s_wpc s)
             (s_top s) (remove Z.eq_dec (t_loc (p_tx pr)) (s_live s)) (s_mpr s) (s_mrr s) (s_db s) (s_ulog s)
             (s_commits s) (s_resv s) (s_hist s) (s_done s) in
      match p_pc pr with
      | BCas cur =>
          if s_af s =? cur then set_pc (set_af s (cur + 1)) p (BTag (cur + 1))
          else if (p_start pr <=? s_af s) && (s_af s <? p_start pr + nitems (p_tx pr))
               then set_pc s p (BCas (s_af s))
               else finish
      | BTag cur =>
          match s_add s (cur mod c_n c) with
          | Empty => finish
          | _ => set_pc s p (BCas cur)
          end
      | _ => s
      end
  | ORetain m =>
      if (s_mpr s <=? m) && (m <=? s_top s) && forallb (fun l => m <=? l) (s_live s)
      then set_mpr s m else s
  | OWTop =>
      match s_wpc s with
      | W0 => if s_c s <? s_af s
              then set_wpc (if s_r s <=? s_c s then restore c s else s) W1
              else s
      | _ => s
      end
  | OWDecide now =>
      match s_wpc s with
      | W1 =>
          let it := s_comp s (s_c s mod c_n c) in
          let finish co mrr :=
            mkSt (s_add s) (upd (s_comp s) (s_c s mod c_n c) Empty) (s_disk s)
                 (s_ar s) (s_af s) (s_e s) (s_r s) (s_c s + 1) co
                 (s_procs s) W2 (s_top s) (s_live s) (s_mpr s) mrr (s_db s) (s_ulog s)
                 (s_commits s) (s_resv s) (s_hist s)
                 (s_done s ++ [(s_c s, it, now, s_af s - s_c s)]) in
          match it with
          | Main oxid xid nsub loc retain time =>
              if (c_maxage c <=? now - time) || (c_maxt c <? s_af s - s_c s) then
                if oxid =? 0 then finish (s_co s) (s_mrr s)
                else finish (Z.max oxid (s_co s)) retain
              else set_wpc s W0
          | _ => finish (s_co s) (s_mrr s)
          end
      | _ => s
      end
  | OWRest =>
      match s_wpc s with
      | W2 => set_wpc (restore c s) W0
      | _ => s
      end
  end.

(** One undone transaction: its identifiers, its undo location and the
    subtransactions handed to TransactionIdAbortTree. *)
Record undone := mkUndone { u_oxid : Z; u_xid : Z; u_subs : list Z; u_loc : Z }.

(** The inner loop of do_rewind over one subxids item (rewind.c:503-520),
    back to front; [SUBS] turns at most.  Returns the gathered list and the
    number still missing. *)
Fixpoint gather (fuel : nat) (l : list Z) (cnt : Z) (acc : list Z) : list Z * Z :=
  match fuel with
  | O => (acc, cnt)
  | Datatypes.S f =>
      let cnt := cnt - 1 in
      let acc := nth (Z.to_nat (cnt mod SUBS)) l 0 :: acc in
      if cnt =? 0 then (acc, 0)
      else if cnt mod SUBS =? 0 then (acc, cnt)
      else gather f l cnt acc
  end.

(** Local variables of do_rewind: [d_base], [d_k] for the block read from
    the file, the subtransactions gathered so far. *)
Record dstate := mkD { d_base : Z; d_k : Z; d_nsub : Z; d_cnt : Z; d_got : bool; d_subs : list Z }.

(** do_rewind (rewind.c:388-665).  [stop oxid xid time] is the stop test of
    the mode.  [fuel] is the number of positions from completePos to [pos]. *)
Fixpoint rewind_loop (c : cfg) (s : st) (stop : Z -> Z -> Z -> bool) (fuel : nat) (pos : Z) (d : dstate)
  : list undone :=
  match fuel with
  | O => []
  | Datatypes.S f =>
      let '(it, d) :=
        if s_e s <=? pos then (s_add s (pos mod c_n c), d)
        else if s_r s <=? pos then
          let '(base, k) := if d_k d =? 0 then (pos - LEN + 1, LEN) else (d_base d, d_k d) in
          (s_disk s (base + (k - 1)), mkD base (k - 1) (d_nsub d) (d_cnt d) (d_got d) (d_subs d))
        else (s_comp s (pos mod c_n c), d) in
      match it with
      | Subx _ n l =>
          let cnt0 := if d_nsub d =? 0 then n else d_cnt d in
          let acc0 := if d_nsub d =? 0 then [] else d_subs d in
          let '(acc, cnt) := gather (Z.to_nat SUBS) l cnt0 acc0 in
          rewind_loop c s stop f (pos - 1)
            (mkD (d_base d) (d_k d) (if d_nsub d =? 0 then n else d_nsub d) cnt
                 (if cnt =? 0 then true else d_got d) acc)
      | Main oxid xid _ loc _ time =>
          if stop oxid xid time then []
          else mkUndone oxid xid (if negb (xid =? 0) && d_got d then d_subs d else []) loc
               :: rewind_loop c s stop f (pos - 1)
                    (if negb (xid =? 0) && d_got d
                     then mkD (d_base d) (d_k d) 0 (d_cnt d) false []
                     else d)
      | Empty => mkUndone 0 0 [] 0 :: rewind_loop c s stop f (pos - 1) d
      end
  end.

Definition do_rewind (c : cfg) (s : st) (stop : Z -> Z -> Z -> bool) : list undone :=
  rewind_loop c s stop (Z.to_nat (s_af s - s_c s)) (s_af s - 1) (mkD 0 0 0 0 false []).

(** The undo of one entry (rewind.c:571-606): its undo records newest first;
    nothing for a transaction without OrioleDB changes. *)
Definition undo_entry (s : st) (db : Z -> list (Z * Z)) (u : undone) : Z -> list (Z * Z) :=
  if u_oxid u =? 0 then db else fold_left (unpush (u_oxid u)) (rev (s_ulog s (u_loc u))) db.

(** The rows after the rewind. *)
Definition rewound (c : cfg) (s : st) (stop : Z -> Z -> Z -> bool) : Z -> list (Z * Z) :=
  fold_left (undo_entry s) (do_rewind c s stop) (s_db s).

(** TransactionIdPrecedes of PostgreSQL on 32-bit identifiers. *)
Definition precedes (a b : Z) : bool :=
  if (a <? 3) || (b <? 3) then a <? b else 2147483648 <=? (a - b) mod 4294967296.

(** The stop tests (rewind.c:545-566): by time, by transaction, by timestamp. *)
Definition stop_time (started secs : Z) : Z -> Z -> Z -> bool :=
  fun _ _ time => secs * 1000000 <=? started - time.
Definition stop_xid (rxid roxid : Z) : Z -> Z -> Z -> bool :=
  fun oxid xid _ =>
    (negb (rxid =? 0) && negb (xid =? 0) && precedes xid rxid)
    || (negb (roxid =? 0) && negb (oxid =? 0) && (oxid <? roxid)).
Definition stop_stamp (ts : Z) : Z -> Z -> Z -> bool :=
  fun _ _ time => time <? ts.

(** The checks on a transaction target before anything is done
    (rewind.c:741-798).  [cur_xid] is the identifier of the calling
    transaction, [finished] is xid_is_finished of the target, [oldest] the
    horizon of heap transactions. *)
Inductive answer := Refused | Accepted.
Definition check_target (s : st) (rxid roxid cur_xid oldest : Z) (finished : bool) : answer :=
  let future_x := negb (precedes rxid cur_xid) in
  if (rxid =? 0) && (roxid =? 0) then Refused
  else if negb (rxid =? 0) && future_x && (roxid =? 0) then Refused
  else if negb (rxid =? 0) && negb future_x && precedes rxid oldest then Refused
  else if negb (roxid =? 0) && negb finished && (rxid =? 0) then Refused
  else if negb (roxid =? 0) && finished && (roxid <=? s_co s) then Refused
  else if negb (roxid =? 0) && negb (rxid =? 0) && negb finished && future_x then Refused
  else Accepted.
