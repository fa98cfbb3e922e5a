(** Parallel replay: the startup process hands the records to workers by the hash of the
    key; each worker replays its own queue.  recovery.c:5437-5715, 5810-5850;
    worker.c:370-805.

    Rows are shared by all workers; everything else is private.  Queues are unbounded lists
    (worker_queue_flush only batches).  The descriptor cache of a worker (RECOVERY_MODIFY_OIDS),
    index builds, bridge items and checkpoint stacks are left out.  The waits of the leader
    (workers_synchronize) only restrict the schedules. *)
From Coq Require Import ZArith List Bool.
From Verif Require Import Base RecSpec RecModel.
Import ListNotations.
Open Scope Z_scope.

(** Messages (recovery.h RecoveryMsgType): a modification carries its transaction only
    when it differs from the previous one sent to that worker (5494-5503). *)
Inductive wmsg :=
| MMod (x : option oxid) (k : key) (v : option Z)
| MSave (x : oxid) (p : Z)
| MRb (x : oxid) (p : Z)
| MFin (x : oxid) (c : bool).

(** The leader: RecoveryWorkerState.oxid, used_by, settled transactions, the joint list. *)
Record lead := mkLead {
  l_cache : Z -> option oxid;
  l_used : oxid -> Z -> bool;
  l_fin : oxid -> bool;
  l_joint : list (oxid * Z)
}.

Definition linit : lead := mkLead (fun _ => None) (fun _ _ => false) (fun _ => false) [].

Definition forget (ld : lead) (x : oxid) (w : Z) : option oxid :=
  if l_used ld x w then None else l_cache ld w.

(** workers_send_oxid_finish (5651-5692); then recovery_finish_current_oxid in the
    leader. *)
Definition l_finish (ld : lead) (x : oxid) : lead :=
  mkLead (forget ld x) (l_used ld) (upd (l_fin ld) x true)
         (filter (fun e => negb (fst e =? x)) (l_joint ld)).

(** What the leader does for one record: its new state, and the messages sent to
    worker [w].  [hash] is GET_WORKER_ID of the key's hash. *)
Definition lstep (hash : key -> Z) (ld : lead) (r : lrec) : lead :=
  match r with
  | LMod x k v =>                                   (* spread_idx_modify, worker_send_modify *)
      if l_fin ld x then ld else
      let w := hash k in
      if match l_cache ld w with Some y => y =? x | None => false end then ld
      else mkLead (upd (l_cache ld) w (Some x)) (upd (l_used ld) x (upd (l_used ld x) w true))
                  (l_fin ld) (l_joint ld)
  | LSave x p | LRb x p =>                          (* workers_send_savepoint / rollback_to_savepoint *)
      if l_fin ld x then ld else mkLead (forget ld x) (l_used ld) (l_fin ld) (l_joint ld)
  | LCommit x | LRollback x => if l_fin ld x then ld else l_finish ld x
  | LJoint x h =>
      if l_fin ld x then ld
      else if existsb (fun e => fst e =? x) (l_joint ld)
      then mkLead (l_cache ld) (l_used ld) (l_fin ld)
                  (map (fun e => if fst e =? x then (x, h) else e) (l_joint ld))
      else mkLead (l_cache ld) (l_used ld) (l_fin ld) (l_joint ld ++ [(x, h)])
  | LHeap h c =>
      fold_left (fun ld e => if snd e =? h then l_finish ld (fst e) else ld) (l_joint ld) ld
  end.

Definition lsend (hash : key -> Z) (ld : lead) (r : lrec) (w : Z) : list wmsg :=
  match r with
  | LMod x k v =>
      if l_fin ld x || negb (hash k =? w) then [] else
      if match l_cache ld w with Some y => y =? x | None => false end
      then [MMod None k v] else [MMod (Some x) k v]
  | LSave x p => if l_fin ld x || negb (l_used ld x w) then [] else [MSave x p]
  | LRb x p => if l_fin ld x || negb (l_used ld x w) then [] else [MRb x p]
  | LCommit x => if l_fin ld x || negb (l_used ld x w) then [] else [MFin x true]
  | LRollback x => if l_fin ld x || negb (l_used ld x w) then [] else [MFin x false]
  | LJoint _ _ => []
  | LHeap h c =>
      flat_map (fun e => if (snd e =? h) && l_used ld (fst e) w then [MFin (fst e) c] else [])
               (l_joint ld)
  end.

(** A worker: recovery_oxid, and its own RecoveryXidStates. *)
Record wst := mkWst {
  w_cur : oxid;
  w_undo : oxid -> list uitem;
  w_st : oxid -> Z;
  w_stuck : bool
}.

Definition winit : wst := mkWst 0 (fun _ => []) (fun _ => 0) false.

Definition w_switch (t : wst) (x : oxid) : wst :=
  mkWst x (w_undo t) (if w_st t x =? 0 then upd (w_st t) x 1 else w_st t) (w_stuck t).

Definition w_conflicts (t : wst) (x : oxid) (r : row) : bool :=
  match r with
  | (Some y, _) :: _ => (w_st t y =? 1) && negb (y =? x)
  | _ => false
  end.

(** recovery_queue_process (worker.c:370-805), one message. *)
Definition wstep (t : wst) (rows : key -> row) (m : wmsg) : wst * (key -> row) :=
  if w_stuck t then (t, rows) else
  match m with
  | MMod ox k v =>
      let t := match ox with Some x => w_switch t x | None => t end in
      let x := w_cur t in
      if w_conflicts t x (rows k)
      then (mkWst (w_cur t) (w_undo t) (w_st t) true, rows)
      else (mkWst x (upd (w_undo t) x (UMod k :: w_undo t x)) (w_st t) (w_stuck t),
            upd rows k ((Some x, v) :: rows k))
  | MSave x p =>
      let t := w_switch t x in
      (mkWst x (upd (w_undo t) x (USub p :: w_undo t x)) (w_st t) (w_stuck t), rows)
  | MRb x p =>
      let t := w_switch t x in
      let '(a, b) := if p =? 0 then (w_undo t x, []) else split_tail (w_undo t x) p in
      (mkWst x (upd (w_undo t) x b) (w_st t) (w_stuck t), pop_items x a rows)
  | MFin x c =>
      let t := w_switch t x in
      (mkWst x (upd (w_undo t) x []) (upd (w_st t) x 2) (w_stuck t),
       if c then rows else pop_items x (w_undo t x) rows)
  end.

(** ** The whole: any interleaving of the leader and the workers. *)
Record pst := mkPst {
  p_log : list lrec;               (* not read yet *)
  p_lead : lead;
  p_q : Z -> list wmsg;
  p_w : Z -> wst;
  p_rows : key -> row
}.

Inductive pact := PLead | PWork (w : Z).

Definition pstep (hash : key -> Z) (s : pst) (a : pact) : pst :=
  match a with
  | PLead =>
      match p_log s with
      | [] => s
      | r :: l => mkPst l (lstep hash (p_lead s) r)
                        (fun w => p_q s w ++ lsend hash (p_lead s) r w) (p_w s) (p_rows s)
      end
  | PWork w =>
      match p_q s w with
      | [] => s
      | m :: q =>
          let '(t, rows) := wstep (p_w s w) (p_rows s) m in
          mkPst (p_log s) (p_lead s) (upd (p_q s) w q) (upd (p_w s) w t) rows
      end
  end.

Definition pinit (db0 : key -> option Z) (l : list lrec) : pst :=
  mkPst l linit (fun _ => []) (fun _ => winit) (fun k => base_row (db0 k)).

Definition prun (hash : key -> Z) (db0 : key -> option Z) (l : list lrec) (sched : list pact) : pst :=
  fold_left (pstep hash) sched (pinit db0 l).

Definition drained (s : pst) : Prop := p_log s = [] /\ forall w, p_q s w = [].

(** The end of recovery in each worker [w], for the transactions [ord] it meets
    (recovery_finish with its worker id). *)
Definition w_finish1 (t : wst) (rows : key -> row) (x : oxid) : wst * (key -> row) :=
  if w_st t x =? 1
  then (mkWst (w_cur t) (upd (w_undo t) x []) (upd (w_st t) x 2) (w_stuck t), pop_items x (w_undo t x) rows)
  else (t, rows).

Definition p_finish (s : pst) (acts : list (Z * oxid)) : pst :=
  fold_left (fun s a => let '(t, rows) := w_finish1 (p_w s (fst a)) (p_rows s) (snd a) in
                        mkPst (p_log s) (p_lead s) (p_q s) (upd (p_w s) (fst a) t) rows) acts s.

Definition p_contents (s : pst) (k : key) : option Z := row_value (p_rows s k).
