(** Model of the checkpoint-time flush of the transaction-status map
    (src/transam/oxid.c): the ring of statuses with one dirty bit per page, the
    block cache and the file behind it, processes recording statuses, the drain
    of the ring, the short cut of the horizon scan, and fsync_xidmap_range.

    Simplifications, valid for the whole file:
    - only the csn half of OXidMapItem is modelled (see XidMapModel.v); a value
      is a number;
    - "nobody could change the csn value concurrently" (oxid.c:793-795): at most
      one recording per transaction number runs at a time, so the recorder is
      named by the transaction number;
    - the compare-and-swap of set_oxid_csn succeeds iff the slot has not been
      exchanged out yet: that is what the finer XidMapModel.v establishes;
    - one page of the drain is one step (its slots, its dirty bit and its buffer
      write); XidMapModel.v has the finer steps;
    - the block cache holds any set of pages; loading and evicting a page can
      happen at any time and are one step each (OBufModel.v has the protocol);
    - commits, aborts and lookups of transactions below the horizon are not
      constrained; removal of their files is in UnlinkModel.v. *)
From Coq Require Import ZArith List Bool.
From Verif Require Import Base.
Import ListNotations.
Open Scope Z_scope.

(** set_oxid_csn (oxid.c:772-814) and the first store of get_current_oxid
    (oxid.c:1699-1726). *)
Inductive rpc :=
| RIdle
| RCas (v : Z)              (* read the old value and writeInProgressXmin (777-780) *)
| RMark (v : Z)             (* slot written, dirty bit not yet set (784) *)
| RRe (v : Z)               (* dirty bit set, about to re-check (788) *)
| RSlow (v : Z)             (* waits for a concurrent drain (803-807) *)
| RWr (v : Z).              (* about to write to the block cache (810) *)

Inductive lock := LFree | LFlush | LDrain (c m : Z).

(** fsync_xidmap_range (oxid.c:1209-1219) over [fa, fb): between two pages, copying
    a page, before the cache refresh, before the file write of
    o_buffers_write_page_direct (o_buffers.c:457-473), in o_buffers_sync. *)
Inductive fpc :=
| FIdle
| FLoop (pos hi : Z)
| FCopy (pos hi k : Z) (loc : Z -> Z)
| FW1 (pos hi : Z) (loc : Z -> Z)
| FW2 (pos hi : Z) (loc : Z -> Z)
| FSync (q : Z)
| FDone.

(** Ghost: the three situations in which the flush goes wrong (DESIGN.md F3, F4, F10). *)
Inductive hazard :=
| HReload      (* a page is stored into or reloaded in the cache while its flush is under way *)
| HShare       (* a ring page is used, or flushed, for a page while it still belongs to an older one *)
| HClean.      (* the drain marks clean a cached page that has unwritten stores *)

Record st := mk {
  ring : Z -> Z;                    (* xidBuffer[].csn *)
  bit : Z -> bool;                  (* xidBufferDirty, by ring page *)
  W : Z;                            (* writtenXmin *)
  I : Z;                            (* writeInProgressXmin *)
  G : Z;                            (* horizon: nobody asks below it *)
  cache : Z -> option ((Z -> Z) * bool);   (* by page: contents (by number), dirty *)
  file : Z -> Z;                    (* by number *)
  dur : Z -> Z;                     (* by number: contents as of the last FileSync *)
  ini : Z -> bool;                  (* the first status has been stored *)
  lk : lock;                        (* xidMapWriteLock *)
  pcs : Z -> rpc;
  fl : fpc;
  fa : Z; fb : Z;                   (* range of the fsync call *)
  fin : Z -> option Z;              (* ghost: status of the last completed recording *)
  cand : Z -> list Z;               (* ghost: statuses not superseded before the fsync call;
                                       empty if none was recorded before it *)
  haz : list hazard                 (* ghost *)
}.

Section Model.
Variables (S : Z)      (* XID_SLOTS_PER_PAGE *)
          (N : Z).     (* XID_BUFFER_NPAGES *)
Definition C : Z := N * S.                       (* xid_circular_buffer_size *)
Definition FROZEN : Z := 3.                      (* any value: the mark of an empty slot *)
Definition slot (x : Z) : Z := x mod C.
Definition rp (x : Z) : Z := (x mod C) / S.      (* XID_BUFFER_PAGE_INDEX, oxid.c:180-182 *)
Definition down (x : Z) : Z := x - x mod S.      (* oxid.c:1104, 999 *)
Definition up (x : Z) : Z := (x + S - 1) / S * S. (* oxid.c:1105-1106 *)

Inductive op :=
| OInit (x v : Z) | OSet (x v : Z) | OCas (x : Z) | OMark (x : Z) | ORe (x : Z) | OWait (x : Z) | OWr (x : Z)
| OLoad (q : Z) | OEvict (q : Z)
| ODrain (m : Z) | ODPage | ODEnd
| OFast (g : Z)
| FBegin (a b : Z) | FLock | FUnlock | FPage | FSlot | FPut1 | FPut2 | FLoopEnd | FSyncPage | FSyncEnd | FRet.

Definition set_pc s x c := mk (ring s) (bit s) (W s) (I s) (G s) (cache s) (file s) (dur s) (ini s) (lk s) (upd (pcs s) x c) (fl s) (fa s) (fb s) (fin s) (cand s) (haz s).
Definition set_ring s x v := mk (upd (ring s) (slot x) v) (bit s) (W s) (I s) (G s) (cache s) (file s) (dur s) (ini s) (lk s) (pcs s) (fl s) (fa s) (fb s) (fin s) (cand s) (haz s).
Definition set_bit s b v := mk (ring s) (upd (bit s) b v) (W s) (I s) (G s) (cache s) (file s) (dur s) (ini s) (lk s) (pcs s) (fl s) (fa s) (fb s) (fin s) (cand s) (haz s).
Definition set_cache s q c := mk (ring s) (bit s) (W s) (I s) (G s) (upd (cache s) q c) (file s) (dur s) (ini s) (lk s) (pcs s) (fl s) (fa s) (fb s) (fin s) (cand s) (haz s).
Definition set_file s f := mk (ring s) (bit s) (W s) (I s) (G s) (cache s) f (dur s) (ini s) (lk s) (pcs s) (fl s) (fa s) (fb s) (fin s) (cand s) (haz s).
Definition set_ini s x := mk (ring s) (bit s) (W s) (I s) (G s) (cache s) (file s) (dur s) (upd (ini s) x true) (lk s) (pcs s) (fl s) (fa s) (fb s) (fin s) (cand s) (haz s).
Definition set_lk s l := mk (ring s) (bit s) (W s) (I s) (G s) (cache s) (file s) (dur s) (ini s) l (pcs s) (fl s) (fa s) (fb s) (fin s) (cand s) (haz s).
Definition set_fl s c := mk (ring s) (bit s) (W s) (I s) (G s) (cache s) (file s) (dur s) (ini s) (lk s) (pcs s) c (fa s) (fb s) (fin s) (cand s) (haz s).
Definition set_fin s x v := mk (ring s) (bit s) (W s) (I s) (G s) (cache s) (file s) (dur s) (ini s) (lk s) (pcs s) (fl s) (fa s) (fb s) (upd (fin s) x (Some v)) (cand s) (haz s).
Definition add_cand s x v := mk (ring s) (bit s) (W s) (I s) (G s) (cache s) (file s) (dur s) (ini s) (lk s) (pcs s) (fl s) (fa s) (fb s) (fin s) (upd (cand s) x (match cand s x with [] => [] | l => v :: l end)) (haz s).
Definition hit (s : st) (b : bool) (h : hazard) : st :=
  if b then mk (ring s) (bit s) (W s) (I s) (G s) (cache s) (file s) (dur s) (ini s) (lk s) (pcs s) (fl s) (fa s) (fb s) (fin s) (cand s) (h :: haz s)
  else s.

(** Writing a whole page [pos, pos+S) of a file or a page image. *)
Definition page_put (f : Z -> Z) (q : Z) (d : Z -> Z) : Z -> Z := fun x => if x / S =? q then d x else f x.
Definition range_put (f : Z -> Z) (a b : Z) (d : Z -> Z) : Z -> Z := fun x => if (a <=? x) && (x <? b) then d x else f x.

(** What o_buffers_read returns for a page. *)
Definition page_of (s : st) (q : Z) : Z -> Z := match cache s q with Some (d, _) => d | None => file s end.
Definition cdirty (s : st) (q : Z) : bool := match cache s q with Some (_, b) => b | None => false end.

(** Is the flush between the dirty-bit test and the file write of page q?  (ghost) *)
Definition mid (s : st) (q : Z) : bool :=
  match fl s with
  | FCopy pos _ _ _ | FW1 pos _ _ | FW2 pos _ _ => pos / S =? q
  | _ => false
  end.

(** Slots [x, x+n) all stored / all recordings of [x, x+n) over. *)
Fixpoint occupied (s : st) (x : Z) (n : nat) : bool :=
  match n with O => true | Datatypes.S n' => ini s x && occupied s (x + 1) n' end.
Fixpoint quiet (s : st) (x : Z) (n : nat) : bool :=
  match n with O => true | Datatypes.S n' => (match pcs s x with RIdle => true | _ => false end) && quiet s (x + 1) n' end.

(** The drain has exchanged out every slot below this. *)
Definition cur (s : st) : Z := match lk s with LDrain c _ => c | _ => W s end.

(** clear_xid_dirty_range, oxid.c:247-266: pages wholly inside [a, b). *)
Definition clear_bits (f : Z -> bool) (a b : Z) (r : Z) : bool :=
  if existsb (fun k => rp (up a + Z.of_nat k * S) =? r) (seq 0 (Z.to_nat ((down b - up a) / S))) then false else f r.

(** pending value of a recorder, for the ghost set [cand] *)
Definition pend (c : rpc) : list Z :=
  match c with RIdle => [] | RCas v | RMark v | RRe v | RSlow v | RWr v => [v] end.

Definition flush_active (s : st) : bool := match fl s with FIdle => false | _ => true end.

Definition step (s : st) (o : op) : st :=
  match o with
  (* oxid.c:1644-1655 (space for x in the ring), 1672-1701 *)
  | OInit x v =>
      match pcs s x with
      | RIdle =>
          if negb (ini s x) && (W s <=? x) && (x <? W s + C - 1) && (I s <=? x)
          then hit (set_pc (add_cand (set_ini (set_ring s x v) x) x v) x (RMark v)) (down (W s) + C <=? x) HShare
          else s
      | _ => s
      end
  (* oxid.c:777-780 *)
  | OSet x v =>
      match pcs s x with
      | RIdle =>
          if ini s x && (G s <=? x)
          then add_cand (set_pc s x (if I s <=? x then RCas v else RSlow v)) x v
          else s
      | _ => s
      end
  (* oxid.c:782-783; on failure the slot has been drained meanwhile *)
  | OCas x =>
      match pcs s x with
      | RCas v => if cur s <=? x then set_pc (set_ini (set_ring s x v) x) x (RMark v) else set_pc s x (RSlow v)
      | _ => s
      end
  (* oxid.c:784, 184-198 *)
  | OMark x =>
      match pcs s x with RMark v => set_pc (set_bit s (rp x) true) x (RRe v) | _ => s end
  (* oxid.c:788-789 *)
  | ORe x =>
      match pcs s x with
      | RRe v => if I s <=? x then set_fin (set_pc s x RIdle) x v else set_pc s x (RSlow v)
      | _ => s
      end
  (* oxid.c:803-807 *)
  | OWait x =>
      match pcs s x with
      | RSlow v => if (x <? W s) || (match lk s with LFree => true | _ => false end) then set_pc s x (RWr v) else s
      | _ => s
      end
  (* oxid.c:810-812: o_buffers_write of one slot *)
  | OWr x =>
      match pcs s x with
      | RWr v =>
          let q := x / S in
          hit (set_fin (set_pc (set_cache s q (Some (upd (page_of s q) x v, true))) x RIdle) x v) (mid s q) HReload
      | _ => s
      end
  (* o_buffers.c:228-327: load on a miss *)
  | OLoad q =>
      match cache s q with
      | None => hit (set_cache s q (Some (file s, false))) (mid s q) HReload
      | Some _ => s
      end
  (* o_buffers.c:296-311: a victim is written if dirty *)
  | OEvict q =>
      match cache s q with
      | None => s
      | Some (d, b) => set_cache (if b then set_file s (page_put (file s) q d) else s) q None
      end
  (* oxid.c:968-993; any range the loop can choose *)
  | ODrain m =>
      match lk s with
      | LFree =>
          if (W s <? m) && (m <=? W s + C) && occupied s (W s) (Z.to_nat (m - W s))
          then mk (ring s) (bit s) (W s) m (G s) (cache s) (file s) (dur s) (ini s) (LDrain (W s) m) (pcs s) (fl s) (fa s) (fb s) (fin s) (cand s) (haz s)
          else s
      | _ => s
      end
  (* oxid.c:997-1048: one page *)
  | ODPage =>
      match lk s with
      | LDrain c m =>
          if c <? m then
            let base := down c in
            let e := Z.min (base + S) m in
            let full := (c =? base) && (e =? base + S) in
            let dirty := bit s (rp c) in
            let s1 := mk (fun i => if existsb (fun k => slot (c + Z.of_nat k) =? i) (seq 0 (Z.to_nat (e - c))) then FROZEN else ring s i)
                         (if full then upd (bit s) (rp c) false else bit s)
                         (W s) (I s) (G s)
                         (upd (cache s) (c / S)
                              (Some (range_put (page_of s (c / S)) c e (fun x => ring s (slot x)), dirty)))
                         (file s) (dur s) (ini s) (LDrain e m) (pcs s) (fl s) (fa s) (fb s) (fin s) (cand s) (haz s) in
            hit s1 (negb dirty && cdirty s (c / S)) HClean
          else s
      | _ => s
      end
  (* oxid.c:1050-1053 *)
  | ODEnd =>
      match lk s with
      | LDrain c m =>
          if c =? m
          then mk (ring s) (bit s) m (I s) (G s) (cache s) (file s) (dur s) (ini s) LFree (pcs s) (fl s) (fa s) (fb s) (fin s) (cand s) (haz s)
          else s
      | _ => s
      end
  (* oxid.c:1499-1527; all numbers below the horizon g are finished, and the
     checkpointer publishes its range start as its xmin (checkpoint.c:1756-1757),
     so g does not pass it while the call runs *)
  | OFast g =>
      match lk s with
      | LFree =>
          if (W s =? I s) && (W s <? g) && occupied s (W s) (Z.to_nat (g - W s)) && quiet s (G s) (Z.to_nat (g - G s))
             && (if flush_active s then g <=? fa s else true)
          then mk (fun i => if existsb (fun k => slot (W s + Z.of_nat k) =? i) (seq 0 (Z.to_nat (g - W s))) then FROZEN else ring s i)
                  (clear_bits (bit s) (W s) g)
                  g g g (cache s) (file s) (dur s) (ini s) LFree (pcs s) (fl s) (fa s) (fb s) (fin s) (cand s) (haz s)
          else s
      | _ => s
      end
  (* oxid.c:1211 and 1099-1110; the caller is the checkpointer *)
  | FBegin a b =>
      match fl s with
      | FIdle =>
          if (G s <=? a) && (a <? b) then
            let x0 := Z.max a (W s) in
            let lo := down x0 in
            let hi := Z.min (up b) (lo + C) in
            mk (ring s) (bit s) (W s) (I s) (G s) (cache s) (file s) (dur s) (ini s) (lk s) (pcs s)
               (if b <=? x0 then FSync (a / S) else FLoop lo hi)
               a b (fin s) (fun x => match fin s x with Some f => f :: pend (pcs s x) | None => [] end) (haz s)
          else s
      | _ => s
      end
  (* oxid.c:1118, 1202; batches of any length *)
  | FLock => match fl s, lk s with FLoop _ _, LFree => set_lk s LFlush | _, _ => s end
  | FUnlock => match fl s, lk s with FLoop _ _, LFlush => set_lk s LFree | _, _ => s end
  (* oxid.c:1127-1164: skip, test and clear, preload *)
  | FPage =>
      match fl s, lk s with
      | FLoop pos hi, LFlush =>
          if pos <? hi then
            if pos + S <=? W s then set_fl s (FLoop (pos + S) hi)
            else if negb (bit s (rp pos)) then set_fl s (FLoop (pos + S) hi)
            else
              let s1 := hit (set_bit s (rp pos) false) (down (W s) + C <=? pos) HShare in
              if pos <? W s then
                let s2 := match cache s (pos / S) with Some _ => s1 | None => set_cache s1 (pos / S) (Some (file s, false)) end in
                set_fl s2 (FCopy pos hi 0 (page_of s (pos / S)))
              else set_fl s1 (FCopy pos hi 0 (fun _ => 0))
          else s
      | _, _ => s
      end
  (* oxid.c:1183-1198 *)
  | FSlot =>
      match fl s with
      | FCopy pos hi k loc =>
          if k <? S
          then set_fl s (FCopy pos hi (k + 1)
                 (if (pos <? W s) && (pos + k <? W s) then loc else upd loc (pos + k) (ring s (slot (pos + k)))))
          else set_fl s (FW1 pos hi loc)
      | _ => s
      end
  (* o_buffers.c:457-471 *)
  | FPut1 =>
      match fl s with
      | FW1 pos hi loc =>
          set_fl (match cache s (pos / S) with Some _ => set_cache s (pos / S) (Some (loc, false)) | None => s end)
                 (FW2 pos hi loc)
      | _ => s
      end
  (* o_buffers.c:473 *)
  | FPut2 =>
      match fl s with
      | FW2 pos hi loc => set_fl (set_file s (page_put (file s) (pos / S) loc)) (FLoop (pos + S) hi)
      | _ => s
      end
  (* oxid.c:1113, 1202: leave the loop *)
  | FLoopEnd =>
      match fl s with
      | FLoop pos hi =>
          if hi <=? pos
          then match lk s with
               | LFlush => set_fl (set_lk s LFree) (FSync (fa s / S))
               | _ => set_fl s (FSync (fa s / S))
               end
          else s
      | _ => s
      end
  (* o_buffers.c:476-505, 552-557; pages in ascending order instead of cache order *)
  | FSyncPage =>
      match fl s with
      | FSync q =>
          if q <=? (fb s - 1) / S
          then set_fl (match cache s q with
                       | Some (d, true) => set_cache (set_file s (page_put (file s) q d)) q (Some (d, false))
                       | _ => s
                       end) (FSync (q + 1))
          else s
      | _ => s
      end
  (* o_buffers.c:559-567: FileSync of every file that holds part of the range *)
  | FSyncEnd =>
      match fl s with
      | FSync q =>
          if (fb s - 1) / S <? q
          then set_fl (mk (ring s) (bit s) (W s) (I s) (G s) (cache s) (file s) (range_put (dur s) (fa s) (fb s) (file s))
                          (ini s) (lk s) (pcs s) (fl s) (fa s) (fb s) (fin s) (cand s) (haz s)) FDone
          else s
      | _ => s
      end
  | FRet => match fl s with FDone => set_fl s FIdle | _ => s end
  end.

(** An empty map whose first number is [w]. *)
Definition init (w : Z) : st :=
  mk (fun _ => FROZEN) (fun _ => false) w w w (fun _ => None) (fun _ => 0) (fun _ => 0) (fun _ => false)
     LFree (fun _ => RIdle) FIdle 0 0 (fun _ => None) (fun _ => []) [].

End Model.
