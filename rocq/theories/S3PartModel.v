(** One part of a data file cached from the object store: the state word, the
    local copy, the stored object, and every process that works on it.

    Models src/s3/headers.c (part word and its transitions) and the callers in
    src/s3/worker.c and src/btree/io.c.  The unit of interleaving is one access
    to the part word, to the local file, or to the object store.

    Simplified: the header buffer cache is a plain word with compare-and-swap
    (headers.c:228-580 is not modelled); a read or write of the part's contents
    is one step; a task is put on the queue in the step that marks the part;
    the counter of loaded parts, the random skipping of short last parts and the
    removal of files without loaded parts are not modelled. *)
From Coq Require Import ZArith List Bool Lia.
From Coq Require Import ZifyBool.
From Verif Require Import Base.
Import ListNotations.
Open Scope Z_scope.

(* include/s3/headers.h S3PartStatus *)
Definition NotLoaded := 0.
Definition Loading := 1.
Definition Loaded := 2.
Definition Evicting := 3.

(* headers.c:107-126, the masks of the lower 32 bits of a part word.  [p & ~m]
   is [Z.ldiff p m]. *)
Definition LOCKS_NUM_MASK := 0x3FFFF.
Definition LOCKS_ONE := 1.
Definition STATUS_MASK := 0x1C0000.
Definition STATUS_SHIFT := 18.
Definition DIRTY_FLAG := 0x200000.
Definition WRITING_FLAG := 0x400000.
Definition SCHEDULED_FOR_WRITE_FLAG := 0x800000.
Definition USAGE_COUNT_MASK := 0xFE000000.
Definition USAGE_COUNT_MAX := 0x7F.
Definition USAGE_COUNT_SHIFT := 25.

Definition get_locks (p : Z) := Z.land p LOCKS_NUM_MASK.
Definition get_status (p : Z) := Z.shiftr (Z.land p STATUS_MASK) STATUS_SHIFT.
Definition set_status (p s : Z) := Z.lor (Z.ldiff p STATUS_MASK) (Z.shiftl s STATUS_SHIFT).
Definition get_usage (p : Z) := Z.shiftr (Z.land p USAGE_COUNT_MASK) USAGE_COUNT_SHIFT.
Definition set_usage (p u : Z) := Z.lor (Z.ldiff p USAGE_COUNT_MASK) (Z.shiftl u USAGE_COUNT_SHIFT).
Definition flag (p f : Z) := negb (Z.land p f =? 0).

(* Where a process is.  A number carried by a position is the value it last
   read from the part word, or contents it holds in private memory. *)
Inductive pos :=
| Idle
| LockV (v : Z)          (* s3_header_lock_part, headers.c:669-722 *)
| Held (wrote : bool)    (* between lock and unlock, io.c:620-663 and 715-755 *)
| UnlV (wrote : bool) (v : Z)  (* s3_header_unlock_part, headers.c:820-848 *)
| LoadV (v : Z)          (* s3_header_mark_part_loading from s3_schedule_file_part_read, worker.c:703 *)
| RT0 | RTw (d : Z) | RT1 | RTm (v : Z) | RT2 | RTl (v : Z) | RTdone  (* read task, worker.c:345-395 *)
| SchedV (v : Z)         (* s3_header_mark_part_scheduled_for_write, headers.c:850-875 *)
| WT0 | WTm (v : Z) | WTr | WTu (d : Z) | WTd0 | WTd (v : Z) | WTf0 | WTf (v : Z) | WTdone (* write task, worker.c:397-435 *)
| EvV (v : Z) | EvZ | EvN0 | EvN (v : Z). (* eviction_callback, headers.c:1240-1340 *)

Record st := mkSt {
  word : Z;              (* lower half of buffer->data[index] *)
  file : Z;              (* contents of the part in the local file; 0 = zeroes *)
  remote : Z;            (* contents of the object *)
  cur : Z;               (* what users last wrote; not in the code *)
  rq : Z;                (* read tasks queued for the part *)
  wq : Z;                (* write tasks queued for the part *)
  at_ : Z -> pos
}.
Definition setw (s : st) (p w : Z) (x : pos) := mkSt w (file s) (remote s) (cur s) (rq s) (wq s) (upd (at_ s) p x).
Definition setp (s : st) (p : Z) (x : pos) := setw s p (word s) x.

(* s3_header_compare_and_swap, headers.c:542-640 and 644-650: replaces the word
   when it still is [v], otherwise hands back the present value. *)
Definition cas (s : st) (p v v' : Z) (ok : pos) (retry : Z -> pos) : st :=
  if word s =? v then setw s p v' ok else setp s p (retry (word s)).

(* The new values computed before each compare-and-swap. *)
(* headers.c:704-711 *)
Definition v_lock (v : Z) : Z :=
  let u := get_usage v in
  set_usage (v + LOCKS_ONE) (if u <? USAGE_COUNT_MAX then u + 1 else u).
(* headers.c:833-836 *)
Definition v_unlock (v : Z) (setDirty : bool) : Z :=
  let v' := v - LOCKS_ONE in if setDirty then Z.lor v' DIRTY_FLAG else v'.
(* headers.c:752 *)
Definition v_loading (v : Z) : Z := set_status v Loading.
(* headers.c:806-807 *)
Definition v_loaded (v : Z) : Z := set_usage (set_status v Loaded) 1.
(* headers.c:867 *)
Definition v_scheduled (v : Z) : Z := Z.lor v SCHEDULED_FOR_WRITE_FLAG.
(* headers.c:892-893 *)
Definition v_writing (v : Z) : Z := Z.lor (Z.ldiff v (Z.lor DIRTY_FLAG SCHEDULED_FOR_WRITE_FLAG)) WRITING_FLAG.
(* headers.c:937 *)
Definition v_written (v : Z) : Z := Z.ldiff v WRITING_FLAG.
(* headers.c:960-961 *)
Definition v_not_written (v : Z) : Z := Z.lor (Z.ldiff v WRITING_FLAG) (Z.lor DIRTY_FLAG SCHEDULED_FOR_WRITE_FLAG).
(* headers.c:1296-1305 *)
Definition evictable (v : Z) : bool :=
  (get_status v =? Loaded) && (get_locks v =? 0) && (get_usage v =? 0) && negb (flag v (Z.lor DIRTY_FLAG WRITING_FLAG)).
Definition v_evict (v : Z) : Z :=
  if evictable v then set_status v Evicting else set_usage v (get_usage v / 2).
(* headers.c:917 *)
Definition v_not_loaded (v : Z) : Z := set_status v NotLoaded.

(* A process begins something, carries on with what it is doing, or fails. *)
Inductive op :=
| Lock (p : Z)            (* begin s3_header_lock_part *)
| Write (p x : Z)         (* OFileWrite under the lock, io.c:641-659 *)
| Unlock (p : Z)          (* begin s3_header_unlock_part *)
| Load (p : Z)            (* begin s3_schedule_file_part_read *)
| PickRead (p : Z)        (* a worker picks a read task, worker.c:996 *)
| Schedule (p : Z)        (* begin s3_schedule_file_part_write, worker.c:651-660 *)
| PickWrite (p : Z)       (* a worker picks a write task *)
| Evict (p : Z)           (* begin one part in eviction_callback *)
| Go (p : Z)              (* the next step of what [p] is doing *)
| Fail (p : Z).           (* [p] is a worker and errors out; it is restarted and
                             takes its task again, worker.c:963-970 *)

Definition go (s : st) (p : Z) : st :=
  match at_ s p with
  (* headers.c:686-721; the wait for a load or an eviction is a re-read *)
  | LockV v => if get_status v =? Loaded then cas s p v (v_lock v) (Held false) LockV else setp s p (LockV (word s))
  | UnlV w v => cas s p v (v_unlock v w) Idle (UnlV w)
  (* headers.c:731-768, worker.c:703-730 *)
  | LoadV v =>
      if (get_status v =? Loaded) || (get_status v =? Loading) then setp s p Idle
      else if get_status v =? Evicting then setp s p (LoadV (word s))
      else if word s =? v
           then mkSt (v_loading v) (file s) (remote s) (cur s) (rq s + 1) (wq s) (upd (at_ s) p Idle)
           else setp s p (LoadV (word s))
  (* s3_get_file_part, requests.c:670-683, then worker.c:389-391 *)
  | RT0 => setp s p (RTw (remote s))
  | RTw d => mkSt (word s) d (remote s) (cur s) (rq s) (wq s) (upd (at_ s) p RT1)
  | RT1 => setp s p (RTm (word s))
  | RTm v =>
      if get_status v =? Loaded then setp s p RTdone
      else if get_status v =? Loading then setp s p RT2
      else if get_status v =? Evicting then setp s p (RTm (word s))
      else cas s p v (v_loading v) RT2 RTm
  | RT2 => setp s p (RTl (word s))
  | RTl v => cas s p v (v_loaded v) RTdone RTl
  | RTdone => setp s p Idle
  (* headers.c:857-873 *)
  | SchedV v =>
      if negb (flag v DIRTY_FLAG) || flag v SCHEDULED_FOR_WRITE_FLAG then setp s p Idle
      else if word s =? v
           then mkSt (v_scheduled v) (file s) (remote s) (cur s) (rq s) (wq s + 1) (upd (at_ s) p Idle)
           else setp s p (SchedV (word s))
  (* worker.c:419-432, s3_put_file_part requests.c:647-664 *)
  | WT0 => setp s p (WTm (word s))
  | WTm v => cas s p v (v_writing v) WTr WTm
  | WTr => setp s p (WTu (file s))
  | WTu d => mkSt (word s) (file s) d (cur s) (rq s) (wq s) (upd (at_ s) p WTd0)
  | WTd0 => setp s p (WTd (word s))
  | WTd v => cas s p v (v_written v) WTdone WTd
  | WTdone => setp s p Idle
  | WTf0 => setp s p (WTf (word s))
  | WTf v => cas s p v (v_not_written v) WT0 WTf
  (* headers.c:1296-1332 *)
  | EvV v => cas s p v (v_evict v) (if evictable v then EvZ else Idle) EvV
  | EvZ => mkSt (word s) 0 (remote s) (cur s) (rq s) (wq s) (upd (at_ s) p EvN0)
  | EvN0 => setp s p (EvN (word s))
  | EvN v => cas s p v (v_not_loaded v) Idle EvN
  | Idle | Held _ => s
  end.

Definition step (s : st) (o : op) : st :=
  match o with
  | Lock p => match at_ s p with Idle => setp s p (LockV (word s)) | _ => s end
  | Write p x => match at_ s p with
      Held _ => mkSt (word s) x (remote s) x (rq s) (wq s) (upd (at_ s) p (Held true)) | _ => s end
  | Unlock p => match at_ s p with Held w => setp s p (UnlV w (word s)) | _ => s end
  | Load p => match at_ s p with Idle => setp s p (LoadV (word s)) | _ => s end
  | PickRead p => match at_ s p with
      Idle => if 0 <? rq s then mkSt (word s) (file s) (remote s) (cur s) (rq s - 1) (wq s) (upd (at_ s) p RT0) else s
      | _ => s end
  | Schedule p => match at_ s p with Idle => setp s p (SchedV (word s)) | _ => s end
  | PickWrite p => match at_ s p with
      Idle => if 0 <? wq s then mkSt (word s) (file s) (remote s) (cur s) (rq s) (wq s - 1) (upd (at_ s) p WT0) else s
      | _ => s end
  | Evict p => match at_ s p with Idle => setp s p (EvV (word s)) | _ => s end
  | Go p => go s p
  | Fail p => match at_ s p with
      | RT0 | RTw _ | RT1 | RTm _ | RT2 | RTl _ | RTdone => setp s p RT0
      (* PG_CATCH, worker.c:425-429; an error of the request may come after the
         object was stored *)
      | WTr | WTu _ | WTd0 => setp s p WTf0
      | WTdone => setp s p WT0
      | _ => s end
  end.

(* read_from_file, headers.c:176-222: a part of a checkpointed file starts not
   loaded (the word is zero), a part of a new file starts loaded and empty. *)
Definition start_stored (c : Z) : st := mkSt 0 0 c c 0 0 (fun _ => Idle).
Definition start_new : st := mkSt (set_status 0 Loaded) 0 0 0 0 0 (fun _ => Idle).
