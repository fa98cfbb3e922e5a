(** Model of the transaction-status map: the in-memory ring of statuses, the
    buffers behind it, and the processes that start transactions, record
    statuses, look statuses up and drain the ring (src/transam/oxid.c).

    Simplifications, valid for the whole file:
    - only the csn half of OXidMapItem is modelled (the commitPtr half is
      written and read by the same code, oxid.c:819-862, next to it);
    - the buffer layer (o_buffers) is a plain memory cell per transaction
      number: property C30 is what justifies that;
    - a "context" is one (process, autonomous nesting level) pair; contexts
      run independently, which includes every real schedule;
    - recovery (advance_oxids, recovery_map_oxid_csn) and rewind are left out;
    - one step of the model is one atomic instruction on shared memory, one
      buffer access, or a section under the spin lock xminMutex. *)
From Coq Require Import ZArith List Bool.
From Verif Require Import Base.
Import ListNotations.
Open Scope Z_scope.

(** Status values stored in a slot: COMMITSEQNO_FROZEN (also the mark of an
    empty slot), COMMITSEQNO_MAKE_SPECIAL(process, level, status)
    (oxid.c:43-57), COMMITSEQNO_ABORTED, and a normal csn. *)
Inductive csn :=
| Frozen
| Special (p : Z) (committing : bool)
| Aborted
| Normal (n : Z).

(** A status no later recording replaces: not special, not the empty mark
    (the test of advance_run_xmin, oxid.c:1856). *)
Definition final (v : csn) : bool :=
  match v with Aborted | Normal _ => true | _ => false end.

Definition csn_eqb (a b : csn) : bool :=
  match a, b with
  | Frozen, Frozen => true
  | Special p c, Special q d => (p =? q) && Bool.eqb c d
  | Aborted, Aborted => true
  | Normal m, Normal n => m =? n
  | _, _ => false
  end.

(** What a context is doing. *)
Inductive pc :=
| PIdle                              (* no transaction *)
| PStart (x : Z)                     (* number taken (oxid.c:1626), waiting for ring space *)
| PStart2 (x : Z)                    (* slot written (oxid.c:1699), about to check the drain frontier *)
| PStart3 (x : Z)                    (* drained meanwhile: waits for the drain (oxid.c:1714-1718) *)
| PStart4 (x : Z)                    (* about to write to the buffers (oxid.c:1721-1726) *)
| PRun (x : Z)                       (* transaction running *)
| PSet1 (x : Z) (v : csn)            (* set_oxid_csn: about to read the old value (oxid.c:777) *)
| PSet2 (x : Z) (v old : csn)        (* about to read writeInProgressXmin (oxid.c:779) *)
| PSet3 (x : Z) (v old : csn)        (* about to compare-and-swap (oxid.c:782) *)
| PSet4 (x : Z) (v : csn)            (* swap succeeded, about to re-check (oxid.c:788) *)
| PSetW (x : Z) (v : csn)            (* waits for a concurrent drain (oxid.c:803-807) *)
| PSetB (x : Z) (v : csn)            (* about to write to the buffers (oxid.c:810) *)
| PAdv (x : Z)                       (* final status recorded: advance_run_xmin reads runXmin (oxid.c:1849) *)
| PAdvCas (x r : Z)                  (* about to swap runXmin r -> r+1 (oxid.c:1852) *)
| PAdvMap (x r : Z).                 (* waits for the lookup of r (oxid.c:1856) *)

(** What a lookup (map_oxid, oxid.c:876-933) is doing. *)
Inductive rst :=
| RIdle
| R1 (x : Z)                         (* about to read the ring slot (oxid.c:895) *)
| R2 (x : Z) (v : csn)               (* about to read writeInProgressXmin (oxid.c:901) *)
| R3 (x : Z)                         (* waits for the drain (oxid.c:907-911) *)
| R4 (x : Z)                         (* about to read the buffers (oxid.c:914) *)
| R5 (x : Z) (v : csn)               (* about to re-read globalXmin (oxid.c:919) *)
| RDone (x : Z) (v : csn).           (* returned v *)

(** The holder of xidMapWriteLock. *)
Inductive lock :=
| LFree
| LHold                                       (* held, nothing in flight *)
| LDrain (c e m : Z) (loc : Z -> csn)         (* write_xidsmap: slots below c exchanged out, buffers written below e, target m *)
| LFast (c g : Z).                            (* advance_global_xmin: slots below c reset, target g *)

(** Ghost log of what happened, newest first: recordings, lookup calls
    and numbers handed out. *)
Inductive ev :=
| Rec (x : Z) (v : csn)
| Beg (r x : Z)
| Take (p x : Z).

Record st := mk {
  ring : Z -> csn;      (* xidBuffer[].csn *)
  buf : Z -> csn;       (* o_buffers contents, tag OXID_BUFFERS_TAG *)
  nextXid : Z;
  W : Z;                (* writtenXmin *)
  I : Z;                (* writeInProgressXmin *)
  G : Z;                (* globalXmin *)
  R : Z;                (* runXmin *)
  lk : lock;            (* xidMapWriteLock *)
  pcs : Z -> pc;
  rds : Z -> rst;
  log : list ev;
}.

(** xid_circular_buffer_size is a parameter. *)
Section Model.
Variable size : Z.

(** oxid % xid_circular_buffer_size. *)
Definition slot (x : Z) : Z := x mod size.

Inductive op :=
| OBegin (p : Z)                 (* get_current_oxid: fetch_add *)
| OInit (p : Z)                  (* write the first status into the slot *)
| OChk (p : Z)                   (* check writeInProgressXmin after it *)
| OWait (p : Z)                  (* get past the wait for the drain *)
| OBufW (p : Z)                  (* write the status to the buffers *)
| OPrecommit (p : Z)             (* current_oxid_precommit calls set_oxid_csn *)
| ORevert (p : Z)                (* current_oxid_clear_committing *)
| OCommit (p n : Z)              (* current_oxid_commit, csn n *)
| OAbort (p : Z)                 (* current_oxid_abort *)
| OReadOld (p : Z)
| OChkI (p : Z)
| OCas (p : Z)
| OReChk (p : Z)
| OAdvRead (p : Z)
| OAdvCas (p : Z)
| OAdvFin (p : Z)
| OLook (r x : Z)                (* map_oxid called *)
| ORing (r : Z)
| ORChk (r : Z)
| ORWait (r : Z)
| ORBuf (r : Z)
| ORG (r : Z)
| OLock                          (* take xidMapWriteLock *)
| OUnlock
| ODrain (m : Z)                 (* write_xidsmap picks its range *)
| OExch                          (* exchange one slot *)
| OFlush (e : Z)                 (* write a run of exchanged slots to the buffers *)
| ODrained                       (* publish writtenXmin *)
| OGlob (g : Z)                  (* advance_global_xmin publishes a horizon *)
| OFast (g : Z)                  (* its shortcut takes the lock *)
| OFrz                           (* resets one slot *)
| OFastEnd
| OScrub (x : Z) (v : csn).      (* files below the horizon are removed *)

Definition set_pc (s : st) (p : Z) (c : pc) : st :=
  mk (ring s) (buf s) (nextXid s) (W s) (I s) (G s) (R s) (lk s) (upd (pcs s) p c) (rds s) (log s).
Definition set_rd (s : st) (p : Z) (c : rst) : st :=
  mk (ring s) (buf s) (nextXid s) (W s) (I s) (G s) (R s) (lk s) (pcs s) (upd (rds s) p c) (log s).
Definition set_lk (s : st) (l : lock) : st :=
  mk (ring s) (buf s) (nextXid s) (W s) (I s) (G s) (R s) l (pcs s) (rds s) (log s).
Definition set_ring (s : st) (x : Z) (v : csn) : st :=
  mk (upd (ring s) (slot x) v) (buf s) (nextXid s) (W s) (I s) (G s) (R s) (lk s) (pcs s) (rds s) (log s).
Definition set_buf (s : st) (f : Z -> csn) : st :=
  mk (ring s) f (nextXid s) (W s) (I s) (G s) (R s) (lk s) (pcs s) (rds s) (log s).
Definition set_I (s : st) (i : Z) : st :=
  mk (ring s) (buf s) (nextXid s) (W s) i (G s) (R s) (lk s) (pcs s) (rds s) (log s).
Definition set_W (s : st) (w : Z) : st :=
  mk (ring s) (buf s) (nextXid s) w (I s) (G s) (R s) (lk s) (pcs s) (rds s) (log s).
Definition set_G (s : st) (g : Z) : st :=
  mk (ring s) (buf s) (nextXid s) (W s) (I s) g (R s) (lk s) (pcs s) (rds s) (log s).
Definition set_R (s : st) (r : Z) : st :=
  mk (ring s) (buf s) (nextXid s) (W s) (I s) (G s) r (lk s) (pcs s) (rds s) (log s).
Definition set_next (s : st) (n : Z) : st :=
  mk (ring s) (buf s) n (W s) (I s) (G s) (R s) (lk s) (pcs s) (rds s) (log s).
Definition put (s : st) (e : ev) : st :=
  mk (ring s) (buf s) (nextXid s) (W s) (I s) (G s) (R s) (lk s) (pcs s) (rds s) (e :: log s).

Definition lock_free (s : st) : bool := match lk s with LFree => true | _ => false end.

(** Are all slots of [x, x+n) occupied?  (the loop of write_xidsmap, oxid.c:977-981) *)
Fixpoint occupied (s : st) (x : Z) (n : nat) : bool :=
  match n with
  | O => true
  | S n' => negb (csn_eqb (ring s (slot x)) Frozen) && occupied s (x + 1) n'
  end.

(** One step.  A step that is not enabled leaves the state unchanged. *)
Definition step (s : st) (o : op) : st :=
  match o with
  (* oxid.c:1626: pg_atomic_fetch_add_u64(&nextXid, 1) *)
  | OBegin p =>
      match pcs s p with
      | PIdle => set_pc (put (set_next s (nextXid s + 1)) (Take p (nextXid s))) p (PStart (nextXid s))
      | _ => s
      end
  (* oxid.c:1644-1655 (leave the loop once newOxid < writtenXmin + size - 1),
     1672-1700 (write the in-progress status) *)
  | OInit p =>
      match pcs s p with
      | PStart x =>
          if x <? W s + size - 1
          then set_pc (put (set_ring s x (Special p false)) (Rec x (Special p false))) p (PStart2 x)
          else s
      | _ => s
      end
  (* oxid.c:1712 *)
  | OChk p =>
      match pcs s p with
      | PStart2 x => if x <? I s then set_pc s p (PStart3 x) else set_pc s p (PRun x)
      | _ => s
      end
  (* oxid.c:1714-1718, 803-807: no wait below writtenXmin, otherwise the
     shared lock has to be granted *)
  | OWait p =>
      match pcs s p with
      | PStart3 x => if (x <? W s) || lock_free s then set_pc s p (PStart4 x) else s
      | PSetW x v => if (x <? W s) || lock_free s then set_pc s p (PSetB x v) else s
      | _ => s
      end
  (* oxid.c:1721-1726 and 810-812 *)
  | OBufW p =>
      match pcs s p with
      | PStart4 x =>
          set_pc (set_buf s (upd (buf s) x (Special p false))) p (PRun x)
      | PSetB x v =>
          set_pc (put (set_buf s (upd (buf s) x v)) (Rec x v)) p
                 (if final v then PAdv x else PRun x)
      | _ => s
      end
  (* oxid.c:1806-1815, 1971-1984, 1893-1897, 1917 *)
  | OPrecommit p =>
      match pcs s p with PRun x => set_pc s p (PSet1 x (Special p true)) | _ => s end
  | ORevert p =>
      match pcs s p with PRun x => set_pc s p (PSet1 x (Special p false)) | _ => s end
  | OCommit p n =>
      match pcs s p with PRun x => set_pc s p (PSet1 x (Normal n)) | _ => s end
  | OAbort p =>
      match pcs s p with PRun x => set_pc s p (PSet1 x Aborted) | _ => s end
  (* oxid.c:777 *)
  | OReadOld p =>
      match pcs s p with PSet1 x v => set_pc s p (PSet2 x v (ring s (slot x))) | _ => s end
  (* oxid.c:779-780 *)
  | OChkI p =>
      match pcs s p with
      | PSet2 x v old => if I s <=? x then set_pc s p (PSet3 x v old) else set_pc s p (PSetW x v)
      | _ => s
      end
  (* oxid.c:782-783 *)
  | OCas p =>
      match pcs s p with
      | PSet3 x v old =>
          if csn_eqb (ring s (slot x)) old
          then set_pc (put (set_ring s x v) (Rec x v)) p (PSet4 x v)
          else set_pc s p (PSetW x v)
      | _ => s
      end
  (* oxid.c:788-789 *)
  | OReChk p =>
      match pcs s p with
      | PSet4 x v =>
          if I s <=? x then set_pc s p (if final v then PAdv x else PRun x) else set_pc s p (PSetW x v)
      | _ => s
      end
  (* oxid.c:1849-1850 *)
  | OAdvRead p =>
      match pcs s p with
      | PAdv x => if R s =? x then set_pc s p (PAdvCas x x) else set_pc s p PIdle
      | _ => s
      end
  (* oxid.c:1852-1856: on success the lookup of the next number starts *)
  | OAdvCas p =>
      match pcs s p with
      | PAdvCas x r =>
          if R s =? r
          then put (set_rd (set_pc (set_R s (r + 1)) p (PAdvMap x (r + 1))) p (R1 (r + 1))) (Beg p (r + 1))
          else set_pc s p PIdle
      | _ => s
      end
  (* oxid.c:1856-1858: the result of the lookup decides *)
  | OAdvFin p =>
      match pcs s p, rds s p with
      | PAdvMap x r, RDone y v =>
          if y =? r then (if final v then set_pc s p (PAdvCas x r) else set_pc s p PIdle) else s
      | _, _ => s
      end
  (* oxid.c:876: callers hold a number found in a row or undo record; lookup r
     is done by context r, unless that one is inside advance_run_xmin *)
  | OLook r x =>
      match pcs s r with
      | PAdvMap _ _ => s
      | _ => if (0 <=? x) && (x <? W s + size) then put (set_rd s r (R1 x)) (Beg r x) else s
      end
  (* oxid.c:895 *)
  | ORing r => match rds s r with R1 x => set_rd s r (R2 x (ring s (slot x))) | _ => s end
  (* oxid.c:901-902 *)
  | ORChk r =>
      match rds s r with
      | R2 x v => if I s <=? x then set_rd s r (RDone x v) else set_rd s r (R3 x)
      | _ => s
      end
  (* oxid.c:907-911 *)
  | ORWait r =>
      match rds s r with
      | R3 x => if (x <? W s) || lock_free s then set_rd s r (R4 x) else s
      | _ => s
      end
  (* oxid.c:914-916 *)
  | ORBuf r => match rds s r with R4 x => set_rd s r (R5 x (buf s x)) | _ => s end
  (* oxid.c:919-931 *)
  | ORG r =>
      match rds s r with
      | R5 x v => if x <? G s then set_rd s r (RDone x Frozen) else set_rd s r (RDone x v)
      | _ => s
      end
  (* oxid.c:1649, 1655 *)
  | OLock => match lk s with LFree => set_lk s LHold | _ => s end
  | OUnlock => match lk s with LHold => set_lk s LFree | _ => s end
  (* oxid.c:968-993; any range the loop can choose *)
  | ODrain m =>
      match lk s with
      | LHold =>
          if (W s <? m) && (m <=? W s + size) && (m <=? nextXid s)
             && occupied s (W s) (Z.to_nat (m - W s))
          then set_lk (set_I s m) (LDrain (W s) (W s) m (fun _ => Frozen))
          else s
      | _ => s
      end
  (* oxid.c:1013-1021 *)
  | OExch =>
      match lk s with
      | LDrain c e m loc =>
          if c <? m
          then set_lk (set_ring s c Frozen) (LDrain (c + 1) e m (upd loc c (ring s (slot c))))
          else s
      | _ => s
      end
  (* oxid.c:1040-1045; any run of slots already exchanged *)
  | OFlush e' =>
      match lk s with
      | LDrain c e m loc =>
          if (e <? e') && (e' <=? c)
          then set_lk (set_buf s (fun x => if (e <=? x) && (x <? e') then loc x else buf s x))
                      (LDrain c e' m loc)
          else s
      | _ => s
      end
  (* oxid.c:1050-1053 *)
  | ODrained =>
      match lk s with
      | LDrain c e m loc => if e =? m then set_lk (set_W s m) LHold else s
      | _ => s
      end
  (* oxid.c:1462-1494: the horizon is at most the runXmin read first; the
     per-process minima only lower it (XminModel.v has them) *)
  | OGlob g => if (g <=? R s) then set_G s (Z.max (G s) g) else s
  (* oxid.c:1499-1511; g was published (or is below what was published) *)
  | OFast g =>
      match lk s with
      | LFree =>
          if (W s =? I s) && (W s <? g) && (g <=? G s)
          then set_lk (set_I s g) (LFast (W s) g) else s
      | _ => s
      end
  (* oxid.c:1513-1519 *)
  | OFrz =>
      match lk s with
      | LFast c g => if c <? g then set_lk (set_ring s c Frozen) (LFast (c + 1) g) else s
      | _ => s
      end
  (* oxid.c:1525-1526 *)
  | OFastEnd =>
      match lk s with
      | LFast c g => if c =? g then set_lk (set_W s g) LFree else s
      | _ => s
      end
  (* oxid.c:1548-1556: unlink_unretained_o_buffers below the horizon *)
  | OScrub x v => if x <? G s then set_buf s (upd (buf s) x v) else s
  end.

(** An empty map whose first number is 0 (oxid.c, shared memory set-up, with
    all counters at the same start value; 0 stands for it). *)
Definition init : st :=
  mk (fun _ => Frozen) (fun _ => Frozen) 0 0 0 0 0 LFree (fun _ => PIdle) (fun _ => RIdle) [].

End Model.
