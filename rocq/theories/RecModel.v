(** Crash recovery in one process: what the primary writes to the log for its
    transactions, and how the startup process replays it.
    src/recovery/recovery.c, src/transam/undo.c, src/recovery/wal.c.

    Rows are version chains, newest first (RowModel.v models the chains
    themselves); [None] as owner stands for a transaction long finished.  A row is
    identified by its key; REINSERT is a removal and a write (recovery.c:5118-5146).
    Every version has its own undo record: recovery overwrites its own version in
    place when no savepoint lies between (modify.c:534-560), which the model
    does not do.  System trees, secondary indexes and index builds are left out. *)
From Coq Require Import ZArith List Bool.
From Verif Require Import Base RecSpec.
Import ListNotations.
Open Scope Z_scope.

(** ** Log records (wal.h); the writer and reader of their bytes are WalModel.v.
    [LHeap] is PostgreSQL's own commit or abort record of a heap transaction. *)
Inductive lrec :=
| LMod (x : oxid) (k : key) (v : option Z)      (* WAL_REC_INSERT/UPDATE/DELETE under WAL_REC_XID *)
| LSave (x : oxid) (p : Z)                      (* WAL_REC_SAVEPOINT, parentSubid *)
| LRb (x : oxid) (p : Z)                        (* WAL_REC_ROLLBACK_TO_SAVEPOINT; 0 = InvalidSubTransactionId *)
| LCommit (x : oxid)
| LRollback (x : oxid)
| LJoint (x : oxid) (h : Z)                     (* WAL_REC_JOINT_COMMIT *)
| LHeap (h : Z) (c : bool).

(** ** Replay *)
Definition row := list (option oxid * option Z).
Inductive uitem := UMod (k : key) | USub (p : Z).

(** RecoveryXidState: status 0 = no entry, 1 = COMMITSEQNO_INPROGRESS, 2 = settled. *)
Record rst := mkRst {
  r_rows : key -> row;
  r_undo : oxid -> list uitem;       (* undo_stacks, newest first *)
  r_ck : oxid -> list uitem;         (* checkpoint_undo_stacks; [] = empty list *)
  r_st : oxid -> Z;
  r_known : list oxid;               (* recovery_xid_state_hash *)
  r_joint : list (oxid * Z);         (* joint_commit_list, oldest first *)
  r_stuck : bool                     (* o_btree_modify_handle_conflicts retries forever *)
}.

Definition set_rows (s : rst) f := mkRst f (r_undo s) (r_ck s) (r_st s) (r_known s) (r_joint s) (r_stuck s).
Definition set_undo (s : rst) f := mkRst (r_rows s) f (r_ck s) (r_st s) (r_known s) (r_joint s) (r_stuck s).
Definition set_ck (s : rst) f := mkRst (r_rows s) (r_undo s) f (r_st s) (r_known s) (r_joint s) (r_stuck s).
Definition set_joint (s : rst) f := mkRst (r_rows s) (r_undo s) (r_ck s) (r_st s) (r_known s) f (r_stuck s).

(** Before the first record: every row has one long committed version or none. *)
Definition base_row (v : option Z) : row :=
  match v with Some _ => [(None, v)] | None => [] end.
Definition rinit (db0 : key -> option Z) : rst :=
  mkRst (fun k => base_row (db0 k)) (fun _ => []) (fun _ => []) (fun _ => 0) [] [] false.

(** recovery_switch_to_oxid (recovery.c:2172-2260). *)
Definition touch (s : rst) (x : oxid) : rst :=
  if r_st s x =? 0
  then mkRst (r_rows s) (r_undo s) (r_ck s) (upd (r_st s) x 1) (x :: r_known s) (r_joint s) (r_stuck s)
  else s.

(** modify_undo_callback (btree/undo.c:516-630): find the row by key and, if its
    newest version is the transaction's, put back the previous one. *)
Definition pop_row (x : oxid) (r : row) : row :=
  match r with
  | (Some y, _) :: t => if y =? x then t else r
  | _ => r
  end.
Definition pop_item (x : oxid) (rows : key -> row) (u : uitem) : key -> row :=
  match u with UMod k => upd rows k (pop_row x (rows k)) | USub _ => rows end.
Definition pop_items (x : oxid) (us : list uitem) (rows : key -> row) : key -> row :=
  fold_left (pop_item x) us rows.

(** search_for_undo_sub_location (undo.c:2846-2906) over the chain of savepoint
    items, kind UndoStackTail: the newest item must carry [p], otherwise the whole
    stack is taken.  Result: items to revert, items left.  The savepoint item itself
    and the branch item stay in the real stack, where they do nothing; they
    are dropped here. *)
Fixpoint split_tail (us : list uitem) (p : Z) : list uitem * list uitem :=
  match us with
  | [] => ([], [])
  | USub q :: r => if q =? p then ([USub q], r) else (us, [])
  | u :: r => let '(a, b) := split_tail r p in (u :: a, b)
  end.

(** The same with kind UndoStackHead: items with a greater parent are skipped; a
    smaller one, or the end, means there is nothing to revert. *)
Fixpoint split_head (us : list uitem) (p : Z) : option (list uitem) :=
  match us with
  | [] => None
  | USub q :: r =>
      if q =? p then Some [USub q]
      else if p <? q then option_map (cons (USub q)) (split_head r p)
      else None
  | u :: r => option_map (cons u) (split_head r p)
  end.

(** checkpoint_rollback_to_savepoint (recovery.c:2452-2464), i.e.
    walk_checkpoint_stacks (1769-1838) with csn aborted and a parentSubid: the
    stack is deleted from the list whatever was reverted (1834-1835). *)
Definition ck_rollback (s : rst) (x : oxid) (p : Z) : rst :=
  let us := if p =? 0 then r_ck s x
            else match split_head (r_ck s x) p with Some a => a | None => [] end in
  set_ck (set_rows s (pop_items x us (r_rows s))) (upd (r_ck s) x []).

(** recovery_finish_current_oxid (recovery.c:2330-2449). *)
Definition finish_oxid (s : rst) (x : oxid) (commit : bool) : rst :=
  mkRst (if commit then r_rows s
         else pop_items x (r_ck s x) (pop_items x (r_undo s x) (r_rows s)))
        (upd (r_undo s) x []) (upd (r_ck s) x []) (upd (r_st s) x 2) (r_known s)
        (filter (fun e => negb (fst e =? x)) (r_joint s)) (r_stuck s).

Definition in_progress (s : rst) (o : option oxid) : bool :=
  match o with Some y => r_st s y =? 1 | None => false end.

(** The newest version belongs to another transaction in progress
    (o_btree_modify_handle_conflicts 629-700: nobody can finish it, so the modify is
    retried for ever). *)
Definition conflicts (s : rst) (x : oxid) (r : row) : bool :=
  match r with
  | (o, _) :: _ => in_progress s o && negb (match o with Some y => y =? x | None => false end)
  | [] => false
  end.

(** replay_on_record (recovery.c:4644-5200) and o_xact_redo_hook (5242-5292), single
    process.  A record of a settled transaction other than a second settling does
    not occur in the logs of the primary and is ignored. *)
Definition rstep (s : rst) (r : lrec) : rst :=
  if r_stuck s then s else
  match r with
  | LMod x k v =>
      let s := touch s x in
      if r_st s x =? 2 then s
      else if conflicts s x (r_rows s k)
      then mkRst (r_rows s) (r_undo s) (r_ck s) (r_st s) (r_known s) (r_joint s) true
      else set_undo (set_rows s (upd (r_rows s) k ((Some x, v) :: r_rows s k)))
                    (upd (r_undo s) x (UMod k :: r_undo s x))
  | LSave x p =>                                  (* recovery_savepoint 2467-2473 *)
      let s := touch s x in
      if r_st s x =? 2 then s
      else let s := ck_rollback s x p in
           set_undo s (upd (r_undo s) x (USub p :: r_undo s x))
  | LRb x p =>                                    (* recovery_rollback_to_savepoint 2475-2486 *)
      let s := touch s x in
      if r_st s x =? 2 then s
      else let '(a, b) := if p =? 0 then (r_undo s x, []) else split_tail (r_undo s x) p in
           ck_rollback (set_undo (set_rows s (pop_items x a (r_rows s))) (upd (r_undo s) x b)) x p
  | LCommit x =>
      let s := touch s x in
      if r_st s x =? 2 then s else finish_oxid s x true
  | LRollback x =>
      let s := touch s x in
      if r_st s x =? 2 then s else finish_oxid s x false
  | LJoint x h =>                                 (* 4777-4794 *)
      let s := touch s x in
      if r_st s x =? 2 then s
      else if existsb (fun e => fst e =? x) (r_joint s)
      then set_joint s (map (fun e => if fst e =? x then (x, h) else e) (r_joint s))
      else set_joint s (r_joint s ++ [(x, h)])
  | LHeap h c =>
      fold_left (fun s e => if snd e =? h then finish_oxid s (fst e) c else s) (r_joint s) s
  end.

Definition replay (s : rst) (l : list lrec) : rst := fold_left rstep l s.

(** recovery_finish (1902-2120): every transaction still in progress is aborted, in
    the order [ord] in which the hash table is scanned.  The verdict of the heap
    transaction (1955-1990) is not modelled. *)
Definition recovery_finish (s : rst) (ord : list oxid) : rst :=
  fold_left (fun s x => if r_st s x =? 1 then finish_oxid s x false else s) ord s.

(** Afterwards the horizon is lifted over all old transactions (free_run_xmin
    2994-3003, called from 2166): whatever version is still on the page counts as
    committed. *)
Definition row_value (r : row) : option Z := match r with [] => None | (_, v) :: _ => v end.
Definition contents (s : rst) (k : key) : option Z := row_value (r_rows s k).

(** ** A checkpoint taken at one instant (CkptModel.v has the fuzzy one) and the
    restart from it: pages keep their versions, the xids file keeps the undo stack of
    each unfinished transaction, read_xids (recovery.c:938-1068) turns it into
    checkpoint_undo_stacks; the joint commit list is not kept, the checkpoint waits for
    it to drain (checkpoint.c:1845-1870). *)
Definition restart (s : rst) : rst :=
  mkRst (r_rows s) (fun _ => []) (r_undo s) (r_st s) (r_known s) [] (r_stuck s).

(** ** The primary.  Its rows behave as SQL says (properties C01-C06 are about that); what matters
    here is who holds a row, and what is logged and when. *)
Record osub := mkOsub { b_id : Z; b_parent : Z; b_logged : bool; b_relchild : bool }.

Record eng := mkEng {
  e_hist : list cev;                 (* what the clients did *)
  e_own : key -> option oxid;        (* unfinished writer of a row *)
  e_fin : oxid -> bool;
  e_wrote : oxid -> bool;            (* have_retained_undo_location / has_material_changes *)
  e_subs : oxid -> list osub;        (* open subtransactions, innermost first *)
  e_next : oxid -> Z;                (* next SubTransactionId *)
  e_min : oxid -> Z;                 (* minParentSubId, 0 = invalid *)
  e_buf : oxid -> list lrec;         (* local_wal *)
  e_log : list lrec;
  e_joint : list (oxid * Z);
  e_heap : Z -> bool;                (* heap transaction finished *)
  e_hz : bool                        (* a savepoint was rolled back in a way described below *)
}.

Definition einit : eng :=
  mkEng [] (fun _ => None) (fun _ => false) (fun _ => false) (fun _ => []) (fun _ => 2) (fun _ => 0)
        (fun _ => []) [] [] (fun _ => false) false.

Inductive eop :=
| OWrite (x : oxid) (k : key) (v : option Z)
| OSave (x : oxid) | ORelease (x : oxid) | OBack (x : oxid)
| OFlush (x : oxid)                  (* flush_local_wal_if_needed: the local buffer is full *)
| OCommit (x : oxid) | OAbort (x : oxid)
| OJoint (x : oxid) (h : Z)          (* XACT_EVENT_PRE_COMMIT with a heap xid, undo.c:2567-2580 *)
| OHeap (h : Z) (c : bool).          (* RecordTransactionCommit / RecordTransactionAbort *)

Definition joined (s : eng) (x : oxid) : bool := existsb (fun e => fst e =? x) (e_joint s).
Definition cur_sub (l : list osub) : Z := match l with [] => 1 | b :: _ => b_id b end.

(** Rows written at the remaining levels stay held, the others are released. *)
Definition holds (c : cst) (x : oxid) (k : key) : bool :=
  match last_write (concat (c_fr c x)) k with Some _ => true | None => false end.
Definition release (own : key -> option oxid) (c : cst) (x : oxid) : key -> option oxid :=
  fun k => match own k with
           | Some y => if (y =? x) && negb (holds c x k) then None else Some y
           | None => None
           end.

Definition push_hist (s : eng) (e : cev) : eng :=
  mkEng (e_hist s ++ [e]) (e_own s) (e_fin s) (e_wrote s) (e_subs s) (e_next s) (e_min s) (e_buf s)
        (e_log s) (e_joint s) (e_heap s) (e_hz s).

(** The transaction ends: rows released, the local buffer is empty. *)
Definition e_end (s : eng) (x : oxid) (e : cev) : eng :=
  let h := e_hist s ++ [e] in
  mkEng h (release (e_own s) (crun h) x) (upd (e_fin s) x true) (e_wrote s) (e_subs s) (e_next s) (e_min s)
        (upd (e_buf s) x []) (e_log s)
        (filter (fun j => negb (fst j =? x)) (e_joint s)) (e_heap s) (e_hz s).

Definition add_log (s : eng) (l : list lrec) : eng :=
  mkEng (e_hist s) (e_own s) (e_fin s) (e_wrote s) (e_subs s) (e_next s) (e_min s) (e_buf s)
        (e_log s ++ l) (e_joint s) (e_heap s) (e_hz s).

Definition set_relchild (l : list osub) : list osub :=
  match l with
  | [] => []
  | b :: r => mkOsub (b_id b) (b_parent b) (b_logged b) true :: r
  end.

Definition estep (s : eng) (o : eop) : eng :=
  match o with
  | OWrite x k v =>                       (* add_modify_wal_record *)
      if e_fin s x || joined s x then s else
      if match e_own s k with Some y => y =? x | None => true end
      then mkEng (e_hist s ++ [CWrite x k v]) (upd (e_own s) k (Some x)) (e_fin s) (upd (e_wrote s) x true)
                 (e_subs s) (e_next s) (e_min s) (upd (e_buf s) x (e_buf s x ++ [LMod x k v]))
                 (e_log s) (e_joint s) (e_heap s) (e_hz s)
      else s
  | OSave x =>                            (* undo_subxact_callback START_SUB, undo.c:3003-3023 *)
      if e_fin s x || joined s x then s else
      let p := cur_sub (e_subs s x) in
      let w := e_wrote s x in
      mkEng (e_hist s ++ [CSave x]) (e_own s) (e_fin s) (e_wrote s)
            (upd (e_subs s) x (mkOsub (e_next s x) p w false :: e_subs s x))
            (upd (e_next s) x (e_next s x + 1))
            (if w && (e_min s x =? 0) then upd (e_min s) x p else e_min s)
            (if w then upd (e_buf s) x (e_buf s x ++ [LSave x p]) else e_buf s)
            (e_log s) (e_joint s) (e_heap s) (e_hz s)
  | ORelease x =>                         (* COMMIT_SUB 3025-3028: nothing is logged *)
      if e_fin s x || joined s x then s else
      match e_subs s x with
      | [] => s
      | b :: r =>
          mkEng (e_hist s ++ [CRelease x]) (e_own s) (e_fin s) (e_wrote s)
                (upd (e_subs s) x (if b_logged b || b_relchild b then set_relchild r else r))
                (e_next s) (e_min s) (e_buf s) (e_log s) (e_joint s) (e_heap s) (e_hz s)
      end
  | OBack x =>                            (* ABORT_SUB 3030-3056 *)
      if e_fin s x || joined s x then s else
      match e_subs s x with
      | [] => s
      | b :: r =>
          let h := e_hist s ++ [CBack x] in
          let p := if (e_min s x =? 0) || (b_parent b <? e_min s x) then 0 else b_parent b in
          let w := e_wrote s x in
          mkEng h (release (e_own s) (crun h) x) (e_fin s) (e_wrote s)
                (upd (e_subs s) x r) (e_next s) (e_min s)
                (if w then upd (e_buf s) x [] else e_buf s)
                (if w then e_log s ++ e_buf s x ++ [LRb x p] else e_log s)
                (e_joint s) (e_heap s)
                (e_hz s || (w && (if b_logged b then (p =? 0) || b_relchild b else negb (p =? 0))))
      end
  | OFlush x =>
      mkEng (e_hist s) (e_own s) (e_fin s) (e_wrote s) (e_subs s) (e_next s) (e_min s) (upd (e_buf s) x [])
            (e_log s ++ e_buf s x) (e_joint s) (e_heap s) (e_hz s)
  | OCommit x =>                          (* wal_commit, wal.c:232-260 *)
      if e_fin s x || joined s x then s else
      match e_subs s x with
      | [] => e_end (if e_wrote s x then add_log s (e_buf s x ++ [LCommit x]) else s) x (CCommit x)
      | _ => s
      end
  | OAbort x =>                           (* wal_rollback, wal.c:297-330, then the undo: undo.c:2714-2760 *)
      if e_fin s x || existsb (fun e => (fst e =? x) && negb (e_heap s (snd e))) (e_joint s) then s else
      e_end (if e_wrote s x then add_log s (e_buf s x ++ [LRollback x]) else s) x (CAbort x)
  | OJoint x h =>
      if e_fin s x || joined s x || negb (e_wrote s x) || e_heap s h then s else
      match e_subs s x with
      | [] => mkEng (e_hist s) (e_own s) (e_fin s) (e_wrote s) (e_subs s) (e_next s) (e_min s)
                    (upd (e_buf s) x []) (e_log s ++ e_buf s x ++ [LJoint x h])
                    (e_joint s ++ [(x, h)]) (e_heap s) (e_hz s)
      | _ => s
      end
  | OHeap h c =>
      if e_heap s h then s else
      let s1 := mkEng (e_hist s) (e_own s) (e_fin s) (e_wrote s) (e_subs s) (e_next s) (e_min s) (e_buf s)
                      (e_log s ++ [LHeap h c]) (e_joint s) (upd (e_heap s) h true) (e_hz s) in
      if c then fold_left (fun s e => if snd e =? h then e_end s (fst e) (CCommit (fst e)) else s)
                          (e_joint s) s1
      else s1
  end.

Definition erun (ops : list eop) : eng := fold_left estep ops einit.

(** The commit of [x] is in the log: its own commit record, or the commit record of
    the heap transaction its joint commit record names. *)
Definition durable (l : list lrec) (x : oxid) : bool :=
  existsb (fun r => match r with
                    | LCommit y => y =? x
                    | LJoint y h => (y =? x) &&
                        existsb (fun r' => match r' with LHeap h' true => h' =? h | _ => false end) l
                    | _ => false
                    end) l.

(** ** The two halves of a subtransaction abort.  undo_subxact_callback
    (undo.c:3030-3056) first reverts the rows (rollback_to_savepoint, 3041) and then adds
    and flushes the log record (3046-3055); other backends may run in between. *)
Inductive eop2 := EOp (o : eop) | EBackMem (x : oxid) | EBackLog (x : oxid).

Definition estep2 (st : eng * (oxid -> option Z)) (o : eop2) : eng * (oxid -> option Z) :=
  let '(s, pd) := st in
  match o with
  | EOp o => (estep s o, pd)
  | EBackMem x =>
      match e_subs s x with
      | [] => (s, pd)
      | b :: r =>
          let h := e_hist s ++ [CBack x] in
          let p := if (e_min s x =? 0) || (b_parent b <? e_min s x) then 0 else b_parent b in
          (mkEng h (release (e_own s) (crun h) x) (e_fin s) (e_wrote s) (upd (e_subs s) x r) (e_next s)
                 (e_min s) (e_buf s) (e_log s) (e_joint s) (e_heap s) (e_hz s),
           upd pd x (Some p))
      end
  | EBackLog x =>
      match pd x with
      | Some p =>
          (mkEng (e_hist s) (e_own s) (e_fin s) (e_wrote s) (e_subs s) (e_next s) (e_min s)
                 (upd (e_buf s) x []) (e_log s ++ e_buf s x ++ [LRb x p]) (e_joint s) (e_heap s) (e_hz s),
           upd pd x None)
      | None => (s, pd)
      end
  end.

Definition erun2 (ops : list eop2) : eng := fst (fold_left estep2 ops (einit, fun _ => None)).
