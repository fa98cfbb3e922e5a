(** Concurrent inserts into a unique index: the uniqueness lock, the check page
    by page, waiting, and the insertion.
    Sources: src/btree/modify.c:1205-1252 (page_unique_check), 1254-1297
    (slowpath_unique_check), 1299-1602 (o_btree_insert_unique), 486-620
    (conflicts with running transactions); src/tableam/tree.c:440-460
    (o_idx_unique_hash); src/transam/oxid.c:2192-2217 (xid_is_finished). *)
From Coq Require Import ZArith List Bool Lia.
From Verif Require Import Base.
Import ListNotations.
Open Scope Z_scope.

(** Transactions: running, rolling back, rolled back, committed with a number. *)
Inductive status := Running | Aborting | Gone | Done (csn : Z).

(** One version of an index entry: the row it belongs to, the transaction that
    made it and whether it is a deletion.  An entry is identified by the unique
    key and the row.  The versions of the entries with one unique key are kept
    in one list, newest first; the undo chain of an entry is the part of the
    list with its row. *)
Record ver := mkV { v_row : Z; v_by : Z; v_del : bool }.

(** What a session is doing: nothing; about to check the key; checking, with
    rows below the bound seen; waiting for a transaction; refused because of a
    row; cleared to insert. *)
Inductive phase :=
| Idle | Want (k r : Z) | Chk (k r : Z) (lo : option Z) | Wait (k r x : Z) | Refused (k r r' : Z) | Ready (k r : Z).

Record state := mkS {
  s_hist : Z -> list ver;       (* unique key -> versions *)
  s_st : Z -> status;           (* transaction -> status *)
  s_lock : Z -> option Z;       (* uniqueness lock -> session holding it *)
  s_ph : Z -> phase;            (* session -> phase *)
  s_cur : Z -> option Z;        (* session -> transaction *)
  s_next : Z;                   (* next transaction *)
  s_csn : Z                     (* next commit number *)
}.

Definition init : state := mkS (fun _ => []) (fun _ => Gone) (fun _ => None) (fun _ => Idle) (fun _ => None) 0 0.

Definition top (r : Z) (h : list ver) : option ver := find (fun v => v_row v =? r) h.

(** XACT_INFO_IS_FINISHED: committed. *)
Definition finished (st : Z -> status) (x : Z) : bool := match st x with Done _ => true | _ => false end.

(** page_unique_check for one entry: nothing, a conflict with a row of our own
    or of a finished transaction, or a transaction to wait for. *)
Inductive verdict := VNone | VFound | VWait (x : Z).
Definition check1 (st : Z -> status) (x : Z) (h : list ver) (r : Z) : verdict :=
  match top r h with
  | None => VNone
  | Some v => if (v_by v =? x) || finished st (v_by v) then (if v_del v then VNone else VFound) else VWait (v_by v)
  end.
Definition in_range (lo hi : option Z) (r : Z) : bool :=
  (match lo with None => true | Some a => a <=? r end) && (match hi with None => true | Some b => r <? b end).
(** The entries of a page: those with rows in the given range.  The code
    reports the first conflict of the page, here the row last changed. *)
Definition check (st : Z -> status) (x : Z) (h : list ver) (lo hi : option Z) : option (Z * verdict) :=
  match find (fun r => in_range lo hi r && match check1 st x h r with VNone => false | _ => true end) (map v_row h) with
  | Some r => Some (r, check1 st x h r)
  | None => None
  end.

Inductive op :=
| OBegin (s : Z)
| OStart (s k r : Z)
| OLock (s : Z)
| OCheck (s : Z) (hi : option Z)
| OWake (s : Z)
| OInsert (s : Z)
| OError (s : Z)
| ODelete (s k r : Z)
| OCommit (s : Z)
| OAbort (s : Z)
| OUndo (s k : Z)
| OAbortEnd (s : Z).

Section Step.
  (** o_btree_unique_hash: equal keys have equal hashes, others may too. *)
  Variable lockno : Z -> Z.

  Definition set_ph (s : state) (p : Z) (f : phase) : state :=
    mkS (s_hist s) (s_st s) (s_lock s) (upd (s_ph s) p f) (s_cur s) (s_next s) (s_csn s).
  Definition set_lock (s : state) (l : Z) (o : option Z) : state :=
    mkS (s_hist s) (s_st s) (upd (s_lock s) l o) (s_ph s) (s_cur s) (s_next s) (s_csn s).
  Definition set_hist (s : state) (k : Z) (h : list ver) : state :=
    mkS (upd (s_hist s) k h) (s_st s) (s_lock s) (s_ph s) (s_cur s) (s_next s) (s_csn s).
  Definition set_st (s : state) (x : Z) (t : status) : state :=
    mkS (s_hist s) (upd (s_st s) x t) (s_lock s) (s_ph s) (s_cur s) (s_next s) (s_csn s).

  (** The running transaction of a session. *)
  Definition running (s : state) (p : Z) : option Z :=
    match s_cur s p with Some x => match s_st s x with Running => Some x | _ => None end | None => None end.

  (** Undo of the newest change by a transaction to entries of a key. *)
  Fixpoint undo1 (x : Z) (h : list ver) : list ver :=
    match h with [] => [] | v :: t => if v_by v =? x then t else v :: undo1 x t end.

  Definition step (s : state) (o : op) : state :=
    match o with
    | OBegin p =>
        match s_cur s p with
        | None => mkS (s_hist s) (upd (s_st s) (s_next s) Running) (s_lock s) (s_ph s) (upd (s_cur s) p (Some (s_next s))) (s_next s + 1) (s_csn s)
        | Some _ => s
        end
    | OStart p k r =>
        match s_ph s p, running s p with Idle, Some _ => set_ph s p (Want k r) | _, _ => s end
    | OLock p =>
        (* modify.c:1400 and 1489 *)
        match s_ph s p with
        | Want k r => match s_lock s (lockno k) with None => set_ph (set_lock s (lockno k) (Some p)) p (Chk k r None) | Some _ => s end
        | _ => s
        end
    | OCheck p hi =>
        (* modify.c:1405-1468, 1491-1569: one page at a time, up to its high key *)
        match s_ph s p, s_cur s p with
        | Chk k r lo, Some x =>
            match check (s_st s) x (s_hist s k) lo hi with
            | Some (r', VWait y) => set_ph (set_lock s (lockno k) None) p (Wait k r y)
            | Some (r', _) => set_ph (set_lock s (lockno k) None) p (Refused k r r')
            | None =>
                match hi with
                | None => set_ph s p (Ready k r)
                | Some b => match lo with
                            | Some a => if a <=? b then set_ph s p (Chk k r hi) else s
                            | None => set_ph s p (Chk k r hi)
                            end
                end
            end
        | _, _ => s
        end
    | OWake p =>
        (* wait_for_oxid returns, retry *)
        match s_ph s p with
        | Wait k r y => match s_st s y with Running => s | _ => set_ph s p (Want k r) end
        | _ => s
        end
    | OInsert p =>
        (* modify.c:1583-1601; an entry of a running transaction blocks it *)
        match s_ph s p, s_cur s p with
        | Ready k r, Some x =>
            match check1 (s_st s) x (s_hist s k) r with
            | VNone => set_ph (set_lock (set_hist s k (mkV r x false :: s_hist s k)) (lockno k) None) p Idle
            | VFound => set_ph (set_lock s (lockno k) None) p (Refused k r r)
            | VWait _ => s
            end
        | _, _ => s
        end
    | OError p =>
        (* an error or the end of a refused statement: locks are released *)
        match s_ph s p with
        | Chk k r _ | Ready k r => set_ph (set_lock s (lockno k) None) p Idle
        | _ => set_ph s p Idle
        end
    | ODelete p k r =>
        (* BTreeOperationDelete of a live entry; blocked by a running transaction *)
        match s_ph s p, running s p with
        | Idle, Some x =>
            match check1 (s_st s) x (s_hist s k) r with
            | VFound => set_hist s k (mkV r x true :: s_hist s k)
            | _ => s
            end
        | _, _ => s
        end
    | OCommit p =>
        match s_ph s p, running s p with
        | Idle, Some x => mkS (s_hist s) (upd (s_st s) x (Done (s_csn s))) (s_lock s) (s_ph s) (upd (s_cur s) p None) (s_next s) (s_csn s + 1)
        | _, _ => s
        end
    | OAbort p =>
        match s_ph s p, running s p with Idle, Some x => set_st s x Aborting | _, _ => s end
    | OUndo p k =>
        (* rollback to a savepoint, or of the transaction: newest change first *)
        match s_ph s p, s_cur s p with Idle, Some x => set_hist s k (undo1 x (s_hist s k)) | _, _ => s end
    | OAbortEnd p =>
        (* what has not been undone yet is undone *)
        match s_cur s p with
        | Some x => match s_st s x with
                    | Aborting => mkS (fun k => filter (fun v => negb (v_by v =? x)) (s_hist s k)) (upd (s_st s) x Gone) (s_lock s) (s_ph s) (upd (s_cur s) p None) (s_next s) (s_csn s)
                    | _ => s
                    end
        | None => s
        end
    end.
End Step.
