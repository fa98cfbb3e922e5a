(** Model of snapshots and the global transaction horizon: taking, registering
    and releasing snapshots (src/transam/undo.c:2375-2411, 3478-3555) and the
    recomputation of the horizon (src/transam/oxid.c:1443-1494).

    Simplifications: transaction numbers, statuses and runXmin are kept as
    plain variables (XidMap* models how they are stored); the undo locations of
    the two page-level logs are arbitrary numbers chosen by the step, that of
    the row log is read from the shared minimum, which only grows (C12). *)
From Coq Require Import ZArith List Bool.
From Verif Require Import Base.
Import ListNotations.
Open Scope Z_scope.

(** SnapshotData as far as this code uses it (undo.c:3538-3554). *)
Record snap := mkSnap {
  sid : Z;                 (* identity; numbers grow in the order of taking *)
  l0 : Z; l1 : Z; l2 : Z;  (* undoLocation of the three heap nodes *)
  sxmin : Z;               (* csnSnapshotData.xmin *)
  scsn : Z;                (* csnSnapshotData.snapshotcsn *)
  srun : Z;                (* ghost: runXmin when scsn was read *)
}.

Definition loc (i : Z) (s : snap) : Z := if i =? 0 then l0 s else if i =? 1 then l1 s else l2 s.

(** PostgreSQL's pairing heap (lib/pairingheap.c), ordered by undoLocCmp
    (undo.c:3464-3475): the comparison looks at the location only. *)
Inductive tree := T (s : snap) (cs : list tree).
Definition root (t : tree) : snap := match t with T s _ => s end.
Definition kids (t : tree) : list tree := match t with T _ cs => cs end.

(** pairingheap.c merge(): b becomes the first child of a, after a swap if
    ph_compare(a, b) < 0, that is, if a's location is larger. *)
Definition merge (i : Z) (a b : tree) : tree :=
  if loc i (root b) <? loc i (root a) then T (root b) (a :: kids b) else T (root a) (b :: kids a).

(** pairingheap.c merge_children(): left to right in pairs ... *)
Fixpoint pairs (i : Z) (acc l : list tree) : list tree :=
  match l with
  | [] => acc
  | [x] => x :: acc
  | x :: y :: r => pairs i (merge i x y :: acc) r
  end.

(** ... then all the pairs together. *)
Definition merge_children (i : Z) (l : list tree) : option tree :=
  match pairs i [] l with
  | [] => None
  | x :: r => Some (fold_left (merge i) r x)
  end.

(** pairingheap_add *)
Definition heap_add (i : Z) (h : option tree) (s : snap) : option tree :=
  match h with None => Some (T s []) | Some t => Some (merge i t (T s [])) end.

Definition opt_list {A} (o : option A) : list A := match o with Some a => [a] | None => [] end.

(** pairingheap_remove of a node that is not the root: its merged children
    take its place. *)
Fixpoint rem (i k : Z) (t : tree) : tree :=
  match t with
  | T s cs =>
      T s (flat_map (fun c => match c with
                              | T s' cs' => if sid s' =? k then opt_list (merge_children i cs') else [rem i k c]
                              end) cs)
  end.

Definition heap_remove (i k : Z) (h : option tree) : option tree :=
  match h with
  | None => None
  | Some t => if sid (root t) =? k then merge_children i (kids t) else Some (rem i k t)
  end.

(** All snapshots in a heap. *)
Fixpoint elems (t : tree) : list snap :=
  match t with T s cs => s :: flat_map elems cs end.
Definition helems (h : option tree) : list snap := match h with None => [] | Some t => elems t end.

(** orioledb_snapshot_hook in progress. *)
Inductive tpc :=
| TIdle
| TRead (a b c : Z)              (* locations set (undo.c:3538-3540), about to read runXmin *)
| TPub (a b c x : Z)             (* runXmin read (3541), about to publish *)
| TCsn (a b c x : Z).            (* published (3543-3544), about to read nextCommitSeqNo (3552) *)

Record st := mk {
  next : Z;                      (* nextXid *)
  fin : Z -> bool;               (* a final status is recorded *)
  csnof : Z -> option Z;         (* csn given to a committing transaction *)
  csnn : Z;                      (* nextCommitSeqNo *)
  R : Z;                         (* runXmin *)
  G : Z;                         (* globalXmin *)
  m0 : Z;                        (* minProcTransactionRetainLocation of the row log *)
  pxmin : Z -> option Z;         (* oProcData[].xmin, None = InvalidOXid *)
  pcs : Z -> tpc;
  act : Z -> list snap;          (* active snapshots of a process *)
  hp : Z -> Z -> option tree;    (* retainUndoLocHeaps[i] of process p: hp p i *)
  cnt : Z -> Z;                  (* ghost: next snapshot identity *)
  scan : option (Z * Z);         (* advance_global_xmin running: minimum so far, next process *)
}.

Definition set_next (s : st) v := mk v (fin s) (csnof s) (csnn s) (R s) (G s) (m0 s) (pxmin s) (pcs s) (act s) (hp s) (cnt s) (scan s).
Definition set_fin (s : st) v := mk (next s) v (csnof s) (csnn s) (R s) (G s) (m0 s) (pxmin s) (pcs s) (act s) (hp s) (cnt s) (scan s).
Definition set_csn (s : st) f n := mk (next s) (fin s) f n (R s) (G s) (m0 s) (pxmin s) (pcs s) (act s) (hp s) (cnt s) (scan s).
Definition set_R (s : st) v := mk (next s) (fin s) (csnof s) (csnn s) v (G s) (m0 s) (pxmin s) (pcs s) (act s) (hp s) (cnt s) (scan s).
Definition set_G (s : st) v := mk (next s) (fin s) (csnof s) (csnn s) (R s) v (m0 s) (pxmin s) (pcs s) (act s) (hp s) (cnt s) (scan s).
Definition set_m0 (s : st) v := mk (next s) (fin s) (csnof s) (csnn s) (R s) (G s) v (pxmin s) (pcs s) (act s) (hp s) (cnt s) (scan s).
Definition set_pxmin (s : st) p v := mk (next s) (fin s) (csnof s) (csnn s) (R s) (G s) (m0 s) (upd (pxmin s) p v) (pcs s) (act s) (hp s) (cnt s) (scan s).
Definition set_pc (s : st) p v := mk (next s) (fin s) (csnof s) (csnn s) (R s) (G s) (m0 s) (pxmin s) (upd (pcs s) p v) (act s) (hp s) (cnt s) (scan s).
Definition set_act (s : st) p v := mk (next s) (fin s) (csnof s) (csnn s) (R s) (G s) (m0 s) (pxmin s) (pcs s) (upd (act s) p v) (hp s) (cnt s) (scan s).
Definition set_hp (s : st) p f := mk (next s) (fin s) (csnof s) (csnn s) (R s) (G s) (m0 s) (pxmin s) (pcs s) (act s) (upd (hp s) p f) (cnt s) (scan s).
Definition set_cnt (s : st) p v := mk (next s) (fin s) (csnof s) (csnn s) (R s) (G s) (m0 s) (pxmin s) (pcs s) (act s) (hp s) (upd (cnt s) p v) (scan s).
Definition set_scan (s : st) v := mk (next s) (fin s) (csnof s) (csnn s) (R s) (G s) (m0 s) (pxmin s) (pcs s) (act s) (hp s) (cnt s) v.

(** Minimum of optional numbers, None = InvalidOXid (the largest value). *)
Definition omin (a b : option Z) : option Z :=
  match a, b with
  | None, _ => b
  | _, None => a
  | Some x, Some y => Some (if y <? x then y else x)
  end.

(** The recomputed xmin (undo.c:2386-2406): the smallest xmin among the
    snapshots on top of the three heaps. *)
Definition top_xmin (h : Z -> option tree) : option Z :=
  let x i := match h i with None => None | Some t => Some (sxmin (root t)) end in
  omin (omin (x 0) (x 1)) (x 2).

Section Model.
Variable n : Z.      (* max_procs *)

Inductive op :=
| OStart                         (* a transaction takes the next number *)
| OCsn (x : Z)                   (* x obtains its commit csn *)
| OCommit (x : Z)                (* its status is recorded *)
| OAbort (x : Z)
| OAdvRun                        (* advance_run_xmin passes a finished transaction *)
| OUndoMin (d : Z)               (* the undo minimum of the row log grows *)
| OTake (p b c : Z)              (* orioledb_snapshot_hook: locations *)
| OTRun (p : Z)                  (* reads runXmin *)
| OTPub (p : Z)                  (* publishes xmin if none is published *)
| OTCsn (p : Z)                  (* reads the csn; the snapshot becomes active *)
| OReg (p k : Z)                 (* undo_snapshot_register_hook of an active snapshot *)
| OPop (p k : Z)                 (* the active snapshot is popped *)
| ODereg (p k : Z)               (* undo_snapshot_deregister_hook *)
| OReset (p : Z)                 (* orioledb_reset_xmin_hook *)
| OXactAbort (p : Z)             (* undo_xact_callback, abort: heaps emptied *)
| OScan                          (* advance_global_xmin starts: reads runXmin *)
| OScan1                         (* looks at one process *)
| OScanEnd (g : Z).              (* publishes; rewind may lower the value *)

Definition step (s : st) (o : op) : st :=
  match o with
  | OStart => set_next s (next s + 1)
  | OCsn x =>
      if (0 <=? x) && (x <? next s) && negb (fin s x)
      then match csnof s x with
           | None => set_csn s (upd (csnof s) x (Some (csnn s))) (csnn s + 1)
           | Some _ => s
           end
      else s
  | OCommit x =>
      match csnof s x with Some _ => set_fin s (upd (fin s) x true) | None => s end
  | OAbort x =>
      if (0 <=? x) && (x <? next s)
      then match csnof s x with None => set_fin s (upd (fin s) x true) | Some _ => s end
      else s
  (* oxid.c:1841-1860 *)
  | OAdvRun => if (R s <? next s) && fin s (R s) then set_R s (R s + 1) else s
  (* undo.c:568-757 *)
  | OUndoMin d => if 0 <=? d then set_m0 s (m0 s + d) else s
  (* undo.c:3538-3540, 1142-1173 *)
  | OTake p b c => match pcs s p with TIdle => set_pc s p (TRead (m0 s) b c) | _ => s end
  (* undo.c:3541 *)
  | OTRun p => match pcs s p with TRead a b c => set_pc s p (TPub a b c (R s)) | _ => s end
  (* undo.c:3542-3544 *)
  | OTPub p =>
      match pcs s p with
      | TPub a b c x =>
          set_pc (match pxmin s p with None => set_pxmin s p (Some x) | Some _ => s end) p (TCsn a b c x)
      | _ => s
      end
  (* undo.c:3552-3554 *)
  | OTCsn p =>
      match pcs s p with
      | TCsn a b c x =>
          set_cnt (set_act (set_pc s p TIdle) p (mkSnap (cnt s p) a b c x (csnn s) (R s) :: act s p)) p (cnt s p + 1)
      | _ => s
      end
  (* undo.c:3478-3484; a snapshot is registered once (reference counted) *)
  | OReg p k =>
      match pcs s p, find (fun a => sid a =? k) (act s p) with
      | TIdle, Some a =>
          if existsb (fun b => sid b =? k) (helems (hp s p 0)) then s
          else set_hp s p (fun i => heap_add i (hp s p i) a)
      | _, _ => s
      end
  | OPop p k =>
      match pcs s p with
      | TIdle => set_act s p (filter (fun a => negb (sid a =? k)) (act s p))
      | _ => s
      end
  (* undo.c:3486-3505 *)
  | ODereg p k =>
      match pcs s p with
      | TIdle => set_hp s p (fun i => heap_remove i k (hp s p i))
      | _ => s
      end
  (* undo.c:2375-2411: only without an active snapshot; xmin is only raised *)
  | OReset p =>
      match pcs s p, act s p with
      | TIdle, [] =>
          match top_xmin (hp s p), pxmin s p with
          | None, _ => set_pxmin s p None
          | Some x, Some y => if y <? x then set_pxmin s p (Some x) else s
          | Some _, None => s
          end
      | _, _ => s
      end
  (* undo.c:2774-2779 *)
  | OXactAbort p =>
      match pcs s p with
      | TIdle => set_act (set_hp s p (fun _ => None)) p []
      | _ => s
      end
  (* oxid.c:1458-1463, under xminMutex *)
  | OScan => match scan s with None => set_scan s (Some (R s, 0)) | Some _ => s end
  (* oxid.c:1465-1473 *)
  | OScan1 =>
      match scan s with
      | Some (g, i) =>
          if i <? n
          then set_scan s (Some (match pxmin s i with Some x => if x <? g then x else g | None => g end, i + 1))
          else s
      | None => s
      end
  (* oxid.c:1475-1494 *)
  | OScanEnd g' =>
      match scan s with
      | Some (g, i) =>
          if i =? n then set_scan (if G s <? Z.min g g' then set_G s (Z.min g g') else s) None else s
      | None => s
      end
  end.

Definition init : st :=
  mk 0 (fun _ => false) (fun _ => None) 0 0 0 0 (fun _ => None) (fun _ => TIdle) (fun _ => [])
     (fun _ _ => None) (fun _ => 0) None.

End Model.
