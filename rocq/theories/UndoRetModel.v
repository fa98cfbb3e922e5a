(** Model of undo retention: how backends publish the undo locations they need
    and how the shared minima are recomputed (src/transam/undo.c:568-757,
    1087-1182, 1564-1576, 2155-2203, 2229-2311, 2375-2411, 3478-3555;
    include/transam/undo.h:357-359).

    One undo log, [n] processes, one step per shared read or write.
    Simplifications: InvalidUndoLocation (larger than every location) is [None];
    the catalog retain location of logical decoding and the rewind horizon are
    left out (rewind is C49); space in the ring is C14's subject, so an
    allocation here only advances lastUsedLocation. *)
From Coq Require Import ZArith List Bool.
From Verif Require Import Base.
Import ListNotations.
Open Scope Z_scope.

(** Where a process stands. *)
Inductive pcs :=
| Idle
| RRead (ow : bool)              (* set_my_reserved_location: loop start, undo.c:1106 *)
| RRes (ow : bool) (lu : Z)      (* :1108 *)
| RTx (ow : bool) (lu : Z)       (* :1110-1118 *)
| REven (ow : bool) (lu : Z)     (* :1120-1122 *)
| RChk1 (ow : bool) (lu : Z)     (* :1131 *)
| RChk2 (ow : bool) (lu : Z)     (* :1133 *)
| Ready                          (* location reserved, get_undo_record goes on *)
| Have (l : Z) (t : option Z)    (* record allocated, for itself or for waiter t *)
| Rel                            (* linked; about to release the reservation *)
| SRead                          (* set_my_snapshot_retain_location: :1152 *)
| SWrite (r : Z)                 (* :1153-1157 *)
| SEven (r : Z)                  (* :1159-1161 *)
| SChk (r : Z)                   (* :1167 *)
| Waiting                        (* queued on a page lock with a tuple to insert *)
| Served.                        (* a lock holder is inserting that tuple *)

(** The recomputation of the minima (undo.c:568-662). *)
Inductive scan :=
| ScNone
| ScLast                                        (* :625-626 *)
| ScLoop (i : Z) (k : Z) (aR aT aS : Z)         (* :628-640; k = which of the three fields *)
| ScPub (k : Z) (aR aT aS : Z).                 (* :651-663; k = which write *)
(* aR = minReservedLocation, aT = minTransactionRetainLocation,
   aS = minRetainLocation *)

(** A held snapshot: its retain location (the heap node of undo.c:3538-3540)
    and, for the specification only, the transactions finished when it was taken. *)
Record hsnap := mkH { hid : Z; hloc : Z; hfin : list Z }.
(** An undo record linked into a transaction's undo stack. *)
Record rec := mkR { rloc : Z; rown : Z }.

(** Situation outside the handshake: a transaction that handed a record to a
    waiter ends within the same recomputation. *)
Inductive hazard := HHandEnd (p : Z).

Record st := mkSt {
  lastu : Z;                    (* lastUsedLocation *)
  res : Z -> option Z;          (* reservedUndoLocation *)
  txr : Z -> option Z;          (* transactionUndoRetainLocation *)
  snp : Z -> option Z;          (* snapshotRetainUndoLocation *)
  minR : Z;                     (* minProcReservedLocation *)
  minT : Z;                     (* minProcTransactionRetainLocation *)
  minS : Z;                     (* minProcRetainLocation *)
  cc : Z;                       (* minUndoLocationsChangeCount *)
  ck0 : Z; ck1 : Z;             (* checkpointRetainStart/EndLocation *)
  sc : scan;
  pc : Z -> pcs;
  held : Z -> list hsnap;       (* snapshots of the process: active or registered *)
  (* for the specification only *)
  cur : Z -> Z;                 (* the transaction the process runs *)
  nxt : Z;
  fin : list Z;                 (* finished transactions *)
  recs : list rec;
  hand : Z -> bool;             (* handed a record during this recomputation *)
  haz : list hazard;
}.

Definition set_pc (s : st) (p : Z) (c : pcs) : st :=
  mkSt (lastu s) (res s) (txr s) (snp s) (minR s) (minT s) (minS s) (cc s) (ck0 s) (ck1 s)
       (sc s) (upd (pc s) p c) (held s) (cur s) (nxt s) (fin s) (recs s) (hand s) (haz s).
Definition set_res (s : st) (p : Z) (v : option Z) : st :=
  mkSt (lastu s) (upd (res s) p v) (txr s) (snp s) (minR s) (minT s) (minS s) (cc s) (ck0 s) (ck1 s)
       (sc s) (pc s) (held s) (cur s) (nxt s) (fin s) (recs s) (hand s) (haz s).
Definition set_txr (s : st) (p : Z) (v : option Z) : st :=
  mkSt (lastu s) (res s) (upd (txr s) p v) (snp s) (minR s) (minT s) (minS s) (cc s) (ck0 s) (ck1 s)
       (sc s) (pc s) (held s) (cur s) (nxt s) (fin s) (recs s) (hand s) (haz s).
Definition set_snp (s : st) (p : Z) (v : option Z) : st :=
  mkSt (lastu s) (res s) (txr s) (upd (snp s) p v) (minR s) (minT s) (minS s) (cc s) (ck0 s) (ck1 s)
       (sc s) (pc s) (held s) (cur s) (nxt s) (fin s) (recs s) (hand s) (haz s).
Definition set_sc (s : st) (x : scan) : st :=
  mkSt (lastu s) (res s) (txr s) (snp s) (minR s) (minT s) (minS s) (cc s) (ck0 s) (ck1 s)
       x (pc s) (held s) (cur s) (nxt s) (fin s) (recs s) (hand s) (haz s).
Definition set_mins (s : st) (r t m : Z) : st :=
  mkSt (lastu s) (res s) (txr s) (snp s) r t m (cc s) (ck0 s) (ck1 s)
       (sc s) (pc s) (held s) (cur s) (nxt s) (fin s) (recs s) (hand s) (haz s).
Definition set_cc (s : st) (c : Z) (h : Z -> bool) : st :=
  mkSt (lastu s) (res s) (txr s) (snp s) (minR s) (minT s) (minS s) c (ck0 s) (ck1 s)
       (sc s) (pc s) (held s) (cur s) (nxt s) (fin s) (recs s) h (haz s).
Definition set_held (s : st) (p : Z) (l : list hsnap) : st :=
  mkSt (lastu s) (res s) (txr s) (snp s) (minR s) (minT s) (minS s) (cc s) (ck0 s) (ck1 s)
       (sc s) (pc s) (upd (held s) p l) (cur s) (nxt s) (fin s) (recs s) (hand s) (haz s).
Definition set_last (s : st) (v : Z) : st :=
  mkSt v (res s) (txr s) (snp s) (minR s) (minT s) (minS s) (cc s) (ck0 s) (ck1 s)
       (sc s) (pc s) (held s) (cur s) (nxt s) (fin s) (recs s) (hand s) (haz s).
Definition add_rec (s : st) (r : rec) : st :=
  mkSt (lastu s) (res s) (txr s) (snp s) (minR s) (minT s) (minS s) (cc s) (ck0 s) (ck1 s)
       (sc s) (pc s) (held s) (cur s) (nxt s) (fin s) (r :: recs s) (hand s) (haz s).
Definition set_hand (s : st) (p : Z) (b : bool) : st :=
  mkSt (lastu s) (res s) (txr s) (snp s) (minR s) (minT s) (minS s) (cc s) (ck0 s) (ck1 s)
       (sc s) (pc s) (held s) (cur s) (nxt s) (fin s) (recs s) (upd (hand s) p b) (haz s).
Definition set_ck (s : st) (a b : Z) : st :=
  mkSt (lastu s) (res s) (txr s) (snp s) (minR s) (minT s) (minS s) (cc s) a b
       (sc s) (pc s) (held s) (cur s) (nxt s) (fin s) (recs s) (hand s) (haz s).

(** The transaction of [p] ends: bookkeeping of the specification. *)
Definition end_tx (s : st) (p : Z) : st :=
  mkSt (lastu s) (res s) (txr s) (snp s) (minR s) (minT s) (minS s) (cc s) (ck0 s) (ck1 s)
       (sc s) (pc s) (held s) (upd (cur s) p (nxt s)) (nxt s + 1) (cur s p :: fin s) (recs s) (hand s)
       (if hand s p then HHandEnd p :: haz s else haz s).

Definition omin (a : Z) (o : option Z) : Z := match o with Some v => Z.min a v | None => a end.
Definition scanning (s : st) : bool := match sc s with ScNone => false | _ => true end.

(** get_undo_record (undo.c:2155-2203) up to set_my_reserved_location's entry
    (:1095-1102): the transaction's retain location is overwritten only if it was
    invalid on entry. *)
Definition r_begin (s : st) (p : Z) : st :=
  match pc s p with
  | Idle => set_pc s p (RRead (match txr s p with None => true | Some _ => false end))
  | _ => s
  end.

(** set_my_reserved_location, one shared access per step (undo.c:1104-1136). *)
Definition r_step (s : st) (p : Z) : st :=
  match pc s p with
  | RRead ow => set_pc s p (RRes ow (lastu s))
  | RRes ow lu => set_pc (set_res s p (Some lu)) p (RTx ow lu)
  | RTx ow lu => set_pc (if ow then set_txr s p (Some lu) else s) p (REven ow lu)
  | REven ow lu => if Z.even (cc s) then set_pc s p (RChk1 ow lu) else s
  | RChk1 ow lu => if lu <? minR s then set_pc s p (RRead ow) else set_pc s p (RChk2 ow lu)
  | RChk2 ow lu => if lu <? minT s then set_pc s p (RRead ow) else set_pc s p Ready
  | _ => s
  end.

(** get_undo_record: the fetch-and-add (undo.c:2175), with [skip] bytes given up
    at the end of the ring (:2184-2201).  With [t = Some q] the record is for
    waiter [q] (group insert, undo.c:2270-2311 and btree/undo.c:448-492). *)
Definition alloc (n : Z) (s : st) (p skip size : Z) (t : option Z) : st :=
  match pc s p with
  | Ready =>
      if (0 <=? skip) && (0 <? size) then
        match t with
        | None => set_pc (set_last s (lastu s + skip + size)) p (Have (lastu s + skip) None)
        | Some q =>
            match pc s q with
            | Waiting => if (0 <=? q) && (q <? n) then
                set_pc (set_pc (set_last s (lastu s + skip + size)) q Served) p (Have (lastu s + skip) (Some q))
              else s
            | _ => s
            end
        end
      else s
  | _ => s
  end.

(** add_new_undo_stack_item (undo.c:2249-2268) and
    add_new_undo_stack_item_to_process (:2290-2311). *)
Definition link (s : st) (p : Z) : st :=
  match pc s p with
  | Have l None => set_pc (add_rec s (mkR l (cur s p))) p Rel
  | Have l (Some q) =>
      let s1 := if scanning s then set_hand s p true else s in
      let s2 := match txr s q with None => set_txr s1 q (Some l) | Some _ => s1 end in
      set_pc (set_pc (add_rec s2 (mkR l (cur s q))) p Rel) q Idle
  | _ => s
  end.

(** release_reserved_undo_location (undo.c:2240-2246) *)
Definition release (s : st) (p : Z) : st :=
  match pc s p with
  | Rel => set_pc (set_res s p None) p Idle
  | _ => s
  end.

(** free_retained_undo_location at the end of a transaction (undo.c:1568-1576) *)
Definition finish (s : st) (p : Z) : st :=
  match pc s p with
  | Idle => end_tx (set_txr s p None) p
  | _ => s
  end.

(** A backend queues for a group insert; it may also give up waiting. *)
Definition wait (s : st) (p : Z) : st :=
  match pc s p with Idle => set_pc s p Waiting | Waiting => set_pc s p Idle | _ => s end.

(** orioledb_snapshot_hook's retain part: set_my_snapshot_retain_location
    (undo.c:1142-1173).  [i] names the snapshot. *)
Definition s_begin (s : st) (p : Z) : st :=
  match pc s p with Idle => set_pc s p SRead | _ => s end.
Definition s_step (s : st) (p i : Z) : st :=
  match pc s p with
  | SRead => set_pc s p (SWrite (minT s))
  | SWrite r =>
      match snp s p with
      | None => set_pc (set_snp s p (Some r)) p (SEven r)
      | Some v => if r <? v then set_pc (set_snp s p (Some r)) p (SEven r) else set_pc s p (SEven r)
      end
  | SEven r => if Z.even (cc s) then set_pc s p (SChk r) else s
  | SChk r => if r <? minS s then set_pc s p SRead
              else set_pc (set_held s p (mkH i r (fin s) :: held s p)) p Idle
  | _ => s
  end.

(** A snapshot is no longer used (undo_snapshot_deregister_hook, undo.c:3486-3503). *)
Definition drop (s : st) (p i : Z) : st :=
  set_held s p (filter (fun h => negb (hid h =? i)) (held s p)).

(** orioledb_reset_xmin_hook for this log (undo.c:2386-2407): the smallest held
    location is published if it is larger than the published one. *)
Fixpoint hmin (l : list hsnap) : option Z :=
  match l with
  | [] => None
  | h :: r => match hmin r with None => Some (hloc h) | Some v => Some (Z.min (hloc h) v) end
  end.
Definition reset (s : st) (p : Z) : st :=
  match pc s p with
  | Idle =>
      match hmin (held s p) with
      | None => set_snp s p None
      | Some v => match snp s p with
                  | Some w => if w <? v then set_snp s p (Some v) else s
                  | None => s
                  end
      end
  | _ => s
  end.

(** update_min_undo_locations (undo.c:568-663), one shared access per step,
    under minUndoLocationsMutex (so there is one at a time). *)
Definition u_begin (s : st) : st :=
  match sc s with ScNone => set_sc (set_cc s (cc s + 1) (fun _ => false)) ScLast | _ => s end.
Definition u_step (n : Z) (s : st) : st :=
  match sc s with
  | ScNone => s
  | ScLast => set_sc s (ScLoop 0 0 (lastu s) (lastu s) (lastu s))
  | ScLoop i k aR aT aS =>
      if i <? n then
        if k =? 0 then set_sc s (ScLoop i 1 (omin aR (res s i)) aT aS)
        else if k =? 1 then set_sc s (ScLoop i 2 aR (omin aT (txr s i)) (omin aS (txr s i)))
        else set_sc s (ScLoop (i + 1) 0 aR aT (omin aS (snp s i)))
      else set_sc s (ScPub 0 aR (Z.max (minT s) aT) (Z.max (minS s) aS))
  | ScPub k aR aT aS =>
      if k =? 0 then set_sc (set_mins s aR (minT s) (minS s)) (ScPub 1 aR aT aS)
      else if k =? 1 then set_sc (set_mins s (minR s) (minT s) aS) (ScPub 2 aR aT aS)
      else if k =? 2 then set_sc (set_mins s (minR s) aT (minS s)) (ScPub 3 aR aT aS)
      else set_sc (set_cc s (cc s + 1) (fun _ => false)) ScNone
  end.

(** UNDO_REC_EXISTS (include/transam/undo.h:357-359) *)
Definition rec_exists (s : st) (l : Z) : bool :=
  (minS s <=? l) || ((ck0 s <=? l) && (l <? ck1 s)).

Inductive op :=
| RBegin (p : Z) | RStep (p : Z) | Alloc (p skip size : Z) (t : option Z) | Link (p : Z) | Release (p : Z)
| Finish (p : Z) | Wait (p : Z)
| SBegin (p : Z) | SStep (p i : Z) | Drop (p i : Z) | Reset (p : Z)
| UBegin | UStep
| Ckpt (a b : Z).   (* the checkpointer moves the range it retains *)

Definition inr (n p : Z) : bool := (0 <=? p) && (p <? n).

Definition step (n : Z) (s : st) (o : op) : st :=
  match o with
  | RBegin p => if inr n p then r_begin s p else s
  | RStep p => if inr n p then r_step s p else s
  | Alloc p k z t => if inr n p then alloc n s p k z t else s
  | Link p => if inr n p then link s p else s
  | Release p => if inr n p then release s p else s
  | Finish p => if inr n p then finish s p else s
  | Wait p => if inr n p then wait s p else s
  | SBegin p => if inr n p then s_begin s p else s
  | SStep p i => if inr n p then s_step s p i else s
  | Drop p i => if inr n p then drop s p i else s
  | Reset p => if inr n p then reset s p else s
  | UBegin => u_begin s
  | UStep => u_step n s
  | Ckpt a b => set_ck s a b
  end.

(** Start: nothing published, minima at the first location (undo.c:230-300). *)
Definition init (n l : Z) : st :=
  mkSt l (fun _ => None) (fun _ => None) (fun _ => None) l l l 0 0 0 ScNone (fun _ => Idle)
       (fun _ => []) (fun p => p) n [] [] (fun _ => false) [].
