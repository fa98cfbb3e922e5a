(** Row versions and row locks: the chain of headers of one row (page header
    first, then the headers kept in undo records), the conflict walk with its
    clean-up of finished locks, removal of own redundant locks, the writing of
    new versions and lock records, undo of both kinds, and the version search
    of a reader.

    src/btree/undo.c, src/btree/modify.c, src/btree/iterator.c.

    The chain is a list of entries, newest first.  Entry 0 is the header on the
    leaf page; entry i+1 is the header stored in the undo record at the
    [undoLocation] of entry i (include/btree/btree.h:439-493).  Overwriting the
    header stored at that location with the next older header is therefore the
    removal of one list element.  Where the C code keeps on writing to a
    record it has just unlinked, the write does not reach the chain: the flag
    [ratt] says whether the location held by the walk is still part of it.

    One row is modelled; undo records of other rows only consume undo
    locations ([OOther]).  Undo records needed by the chain are never
    discarded here (retention is the subject of UndoRet*.v), so the
    "_if_exists" reads only fail at the end of the chain.  The primary tree in
    normal processing is meant, where pk_needs_undo
    (src/tableam/tree.c:954-973) makes every own change write undo. *)
From Coq Require Import ZArith List Bool.
From Verif Require Import Base.
Import ListNotations.
Open Scope Z_scope.

(** Status of a transaction as the CSN lookup reports it
    (src/transam/oxid.c:2013-2045).  A transaction stays in progress until its
    undo is applied (src/transam/undo.c:2714-2790). *)
Inductive stat := Idle | InProg | Comm (c : Z) | Abrt.

(** BTreeLeafTuphdr, include/btree/btree.h:425-493.  [eu]: undoLocation, -1
    when invalid (an insertion); [ep]: location of the undo record written
    with the entry, the same as [eu] except for insertions (model only: the
    insertion record is not linked from the header); [ev]: the row image that
    is current at this entry, unused for lock-only and deleted entries. *)
Record ent := E { ex : Z; em : Z; elk : bool; eu : Z; ep : Z; ed : bool;
                  ec : bool; ecid : Z; ev : Z }.

Definition set_c (e : ent) (b : bool) : ent :=
  E (ex e) (em e) (elk e) (eu e) (ep e) (ed e) b (ecid e) (ev e).
Definition set_d (e : ent) (b : bool) : ent :=
  E (ex e) (em e) (elk e) (eu e) (ep e) b (ec e) (ecid e) (ev e).

(** Undo record kinds: BTreeOperationInsert/Update/Delete/Lock
    (include/btree/btree.h), a savepoint mark (src/transam/undo.c,
    add_subxact_undo_item) and a record of some other row. *)
Inductive act := AI | AU | AD | AL | AS | AO.

(** One record of a transaction's undo stack; [icid] and [ival] repeat the
    command and the value written (model only, never read by the model). *)
Record item := It { ia : act; il : Z; icid : Z; ival : option Z }.

(** Per-transaction state.  [tret]: snapshotRetainUndoLocation of its process
    ([INF] when no snapshot is held, src/transam/undo.c:2376-2398);
    [troll]: 0 running, 1 rolling back to the last savepoint, 2 aborting. *)
Record txr := Tx { tst : stat; tstack : list item; tfirst : Z; tret : Z;
                   tcsn : Z; tcid : Z; troll : Z }.

Definition INF : Z := 2305843009213693952. (* orioledb.h:145, InvalidUndoLocation *)

Definition tx0 : txr := Tx Idle [] (-1) INF 0 0 0.

(** ROW_LOCKS_CONFLICT, include/btree/btree.h: lock modes are KeyShare 0,
    Share 1, NoKeyUpdate 2, Update 3. *)
Definition conf (a b : Z) : bool := 3 <=? a + b.

(** XACT_INFO_IS_FINISHED (oxid.c:2191, xid_is_finished): committed. *)
Definition fin (T : Z -> txr) (x : Z) : bool :=
  match tst (T x) with Comm _ => true | _ => false end.
Definition inpr (T : Z -> txr) (x : Z) : bool :=
  match tst (T x) with InProg => true | _ => false end.
(** XACT_INFO_MAP_CSN < my_csn, and !COMMITSEQNO_IS_INPROGRESS. *)
Definition csn_lt (T : Z -> txr) (x c : Z) : bool :=
  match tst (T x) with Comm d => d <? c | Abrt => true | _ => false end.

(** The second loop of clean_chain_has_locks_flag (btree/undo.c:1712-1729):
    [loc] is where the first header of [l] is stored. *)
Fixpoint clr_from (ret loc : Z) (l : list ent) : list ent :=
  match l with
  | [] => []
  | e :: r => if (loc <? 0) || (loc <? ret) then l
              else if ec e then set_c e false :: clr_from ret (eu e) r
              else l
  end.

(** The headers stored at location [loc] and below, cleared. *)
Fixpoint clr_at (ret loc : Z) (l : list ent) : list ent :=
  match l with
  | [] => []
  | e :: r => if eu e =? loc then e :: clr_from ret loc r
              else e :: clr_at ret loc r
  end.

(** clean_chain_has_locks_flag, btree/undo.c:1684-1730. *)
Definition clean (ret loc : Z) (l : list ent) : list ent :=
  if (loc <? 0) || (loc <? ret) then
    match l with
    | [] => []
    | p :: r => if ec p then set_c p false :: clr_from ret (eu p) r else l
    end
  else clr_at ret loc l.

(** Variables of the conflict walk, btree/undo.c:1750-1990.  The chain is
    [rev rpre ++ rrest]; [rcur] is curTuphdr; [ratt]: curUndoLocation is the
    place in the chain where curTuphdr lives.  lock_status: 0 none, 1 weaker,
    2 same or stronger.  [rconf]: oxid of conflictTuphdr when result is set. *)
Record rls := RL { rpre : list ent; rcur : ent; rrest : list ent; ratt : bool;
                   rlast : Z; rred : bool; rstat : Z; rres : bool; rconf : Z }.

Definition rchain (s : rls) : list ent := rev (rpre s) ++ rrest s.

(** clean_chain_has_locks_flag called from the walk, which then forgets the
    last lock location. *)
Definition rclean (ret : Z) (s : rls) : rls :=
  let l := clean ret (rlast s) (rchain s) in
  let n := length (rpre s) in
  RL (rev (firstn n l)) (rcur s) (skipn n l) (ratt s) (-1) (rred s) (rstat s)
     (rres s) (rconf s).

(** xactIsFinished and xactIsFinal, btree/undo.c:1778-1790, 1937-1948. *)
Definition xfinished (T : Z -> txr) (mode : Z) (e : ent) : bool :=
  if conf (em e) mode then fin T (ex e) else negb (inpr T (ex e)).
Definition xfinal (T : Z -> txr) (mode csn : Z) (e : ent) : bool :=
  if conf (em e) mode then fin T (ex e) else csn_lt T (ex e) csn.

(** Classification of one header, btree/undo.c:1800-1858. *)
Definition rclass (T : Z -> txr) (mode x sp : Z) (s : rls) : rls :=
  let e := rcur s in
  let lev := if mode <=? em e then 2 else 1 in
  let red' := rred s || ((em e <=? mode) && ((sp <? 0) || ((0 <=? eu e) && (sp <=? eu e)))) in
  if elk e then
    if ex e =? x then
      RL (rpre s) e (rrest s) (ratt s) (rlast s) red' (Z.max (rstat s) lev) (rres s) (rconf s)
    else if negb (inpr T (ex e)) then s
    else if conf (em e) mode && (negb (rres s) || (rconf s =? x)) then
      RL (rpre s) e (rrest s) (ratt s) (rlast s) (rred s) (rstat s) true (ex e)
    else s
  else if negb (xfinished T mode e) then
    let st := if ex e =? x then Z.max (rstat s) lev else rstat s in
    if conf (em e) mode && (negb (rres s) || ((rconf s =? x) && negb (ex e =? x))) then
      RL (rpre s) e (rrest s) (ratt s) (rlast s) (rred s) st true (ex e)
    else RL (rpre s) e (rrest s) (ratt s) (rlast s) (rred s) st (rres s) (rconf s)
  else s.

(** A finished lock of another transaction: delete_record, 1826-1836. *)
Definition rdel (T : Z -> txr) (x : Z) (e : ent) : bool :=
  elk e && negb (ex e =? x) && negb (inpr T (ex e)).

(** Unlinking it, btree/undo.c:1860-1905, with the move to the next header
    (1930-1949).  For the page header the C code overwrites the page and then
    passes once more over the same header with curUndoLocation set to the
    unlinked record; both passes are one step here. *)
Definition runlink (ret : Z) (s : rls) (pv : ent) : rls :=
  let e := rcur s in
  match rpre s, ratt s with
  | [_], true =>
      let s2 := RL [] e (set_d pv (ed e) :: tl (rrest s)) false (rlast s) (rred s) (rstat s) (rres s) (rconf s) in
      let s3 := if ec e then s2 else rclean ret s2 in
      RL (match rrest s3 with q :: _ => [q] | [] => [] end) (set_d pv (ed e)) (tl (rrest s3))
         false (rlast s3) (rred s) (rstat s) (rres s) (rconf s)
  | _, _ =>
      let s3 := if ec e then s else rclean ret s in
      RL (if ratt s then set_d pv (ed e) :: tl (rpre s3)
          else match rrest s3 with q :: _ => q :: rpre s3 | [] => rpre s3 end)
         (set_d pv (ed e)) (tl (rrest s3))
         false (rlast s3) (rred s) (rstat s) (rres s) (rconf s)
  end.

(** Moving to the next header, btree/undo.c:1910-1965. *)
Definition rmove (ret : Z) (s : rls) (pv : ent) : rls :=
  let e := rcur s in
  let s2 := RL (pv :: rpre s) pv (tl (rrest s)) true (if elk e then eu e else rlast s)
               (rred s) (rstat s) (rres s) (rconf s) in
  if ec e && negb (ec pv) && negb (elk pv) then rclean ret s2 else s2.

Fixpoint rloop (n : nat) (T : Z -> txr) (mode x csn ret sp : Z) (s : rls) : rls :=
  match n with
  | O => s
  | S k =>
    let e := rcur s in
    if negb (ec e || elk e || negb (xfinal T mode csn e)) then s
    else
      let s1 := rclass T mode x sp s in
      if (eu e <? 0) || (eu e <? ret) then
        if ec e then rclean ret s1 else s1
      else match rrest s1 with
           | [] => s1
           | pv :: _ =>
             if rdel T x e then rloop k T mode x csn ret sp (runlink ret s1 pv)
             else rloop k T mode x csn ret sp (rmove ret s1 pv)
           end
  end.

(** row_lock_conflicts, btree/undo.c:1745-1990. *)
Definition rlc (T : Z -> txr) (mode x csn ret sp : Z) (l : list ent) : rls :=
  match l with
  | [] => RL [] (E 0 0 false (-1) (-1) false false 0 0) [] true (-1) false 0 false 0
  | e :: r => rloop (length l) T mode x csn ret sp
                (RL [e] e r true (-1) false 0 false 0)
  end.

(** Variables of remove_redundant_row_locks (btree/undo.c:1998-2085). *)
Record rrs := RR { qpre : list ent; qcur : ent; qrest : list ent; qatt : bool; qlast : Z }.

Definition qchain (s : rrs) : list ent := rev (qpre s) ++ qrest s.

Definition qclean (ret : Z) (s : rrs) : rrs :=
  let l := clean ret (qlast s) (qchain s) in
  let n := length (qpre s) in
  RR (rev (firstn n l)) (qcur s) (skipn n l) (qatt s) (qlast s).

(** prevUndoLoc: where the current header is stored; for a header whose copy
    was just unlinked, the location below it. *)
Definition qloc (s : rrs) : Z :=
  if qatt s then match qpre s with _ :: u :: _ => eu u | _ => -1 end else eu (qcur s).

(** An own lock no stronger than the requested mode, taken after the current
    savepoint, btree/undo.c:2028-2042. *)
Definition qdel (mode x sp : Z) (e : ent) : bool :=
  elk e && (ex e =? x) && (em e <=? mode) && ((sp <? 0) || (sp <=? eu e)).

Definition qunlink (ret : Z) (s : rrs) (h : ent) : rrs :=
  let e := qcur s in
  match qpre s, qatt s with
  | [p], true => RR [set_d (set_c h (ec p)) (ed p)] h (tl (qrest s)) false (-1)
  | _, _ =>
      let s3 := if ec e then s else qclean ret s in
      RR (if qatt s then h :: tl (qpre s3)
          else match qrest s3 with q :: _ => q :: qpre s3 | [] => qpre s3 end)
         h (tl (qrest s3)) false (qloc s)
  end.

Definition qmove (s : rrs) (h : ent) : rrs :=
  RR (h :: qpre s) h (tl (qrest s)) true (if elk (qcur s) then qloc s else qlast s).

Fixpoint qloop (n : nat) (T : Z -> txr) (mode x ret sp : Z) (s : rrs) : rrs :=
  match n with
  | O => s
  | S k =>
    let e := qcur s in
    if negb ((negb (fin T (ex e)) || ec e) && (ret <=? eu e) && (0 <=? eu e)) then s
    else match qrest s with
         | [] => s
         | h :: _ =>
           if qdel mode x sp e then qloop k T mode x ret sp (qunlink ret s h)
           else qloop k T mode x ret sp (qmove s h)
         end
  end.

(** remove_redundant_row_locks, btree/undo.c:1992-2085. *)
Definition remred (T : Z -> txr) (mode x ret sp : Z) (l : list ent) : list ent :=
  match l with
  | [] => []
  | e :: r => qchain (qloop (length l) T mode x ret sp (RR [e] e r true (-1)))
  end.

(** find_non_lock_only_undo_record, btree/undo.c:2090-2108. *)
Fixpoint drop_locks (l : list ent) : list ent :=
  match l with
  | [] => []
  | e :: r => if elk e then drop_locks r else l
  end.
Fixpoint lead_locks (l : list ent) : list ent :=
  match l with
  | [] => []
  | e :: r => if elk e then e :: lead_locks r else []
  end.

(** page_item_rollback (btree/undo.c:152-310) under the test of
    modify_undo_callback (516-630): undo of one version. *)
Definition undo_version (x : Z) (it : item) (l : list ent) : list ent :=
  match drop_locks l with
  | [] => l
  | nl :: below =>
    if (ex nl =? x) && ((eu nl =? il it) ||
         ((eu nl <? 0) && match ia it with AI => true | _ => false end))
    then
      match l with
      | [] => []
      | p :: pr =>
        if ed p then pr
        else if 0 <=? eu nl then
          match below with
          | [] => l
          | pe :: r =>
            match lead_locks l with
            | [] => pe :: r
            | q :: lk => set_d q (ed pe) :: lk ++ set_c (set_d pe (ed nl)) (ec nl) :: r
            end
          end
        else []
      end
    else l
  end.

(** The walk of lock_undo_callback, btree/undo.c:710-772: finds the record and
    the location from which flags are to be cleared. *)
Fixpoint lfind (T : Z -> txr) (x loc : Z) (n : nat) (hu last : Z) (l : list ent)
  : option (nat * Z) :=
  match l with
  | e :: ((_ :: _) as r) =>
    if negb (fin T (ex e)) || ec e then
      if elk e && (ex e =? x) && (eu e =? loc) then Some (n, last)
      else lfind T x loc (S n) (eu e) (if elk e then hu else last) r
    else None
  | _ => None
  end.

(** lock_undo_callback, btree/undo.c:635-775. *)
Definition undo_lock (T : Z -> txr) (x ret : Z) (it : item) (l : list ent) : list ent :=
  match lfind T x (il it) 0 (-1) (-1) l with
  | None => l
  | Some (n, last) =>
    match nth_error l n, nth_error l (S n) with
    | Some e, Some pv =>
      let l1 := if ec e then l else clean ret last l in
      firstn n l1 ++ set_d pv (ed e) :: skipn (S (S n)) l1
    | _, _ => l
    end
  end.

(** The version search of a reader, o_find_tuple_version
    (btree/iterator.c:705-895): [x] the reading transaction, [csn] and [cid]
    of its snapshot.  The row image at a lock-only entry is the one of the
    version below it. *)
Fixpoint image (l : list ent) : option Z :=
  match l with
  | [] => None
  | e :: r => if elk e then image r else if ed e then None else Some (ev e)
  end.

Fixpoint rd (T : Z -> txr) (x csn cid : Z) (l : list ent) : option Z :=
  match l with
  | [] => None
  | e :: r =>
    match tst (T (ex e)) with
    | Comm c => if c <? csn then image l else rd T x csn cid r
    | InProg => if negb (elk e) && (ex e =? x) && (ecid e <? cid) then image l
                else rd T x csn cid r
    | _ => rd T x csn cid r
    end
  end.

Definition read (T : Z -> txr) (x csn cid : Z) (l : list ent) : option Z :=
  rd T x csn cid (drop_locks l).

(** What the operations did, newest first (model only): read by the
    specification, never by the model. *)
Inductive event :=
| EvWrite (x cid : Z) (v : option Z)
| EvGrant (x m : Z)
| EvSave (x l : Z)
| EvRollTo (x : Z)
| EvCommit (x c : Z)
| EvAbort (x : Z).

Record st := St { ch : list ent; nloc : Z; ncsn : Z; tx : Z -> txr; xs : list Z;
                  evs : list event }.

Definition st0 : st := St [] 0 1 (fun _ => tx0) [] [].

(** Smallest first undo location over the transactions in progress
    (minProcTransactionRetainLocation, src/transam/undo.c:1143-1175). *)
Definition snapmin (s : st) : Z :=
  fold_right (fun x m => if inpr (tx s) x && (0 <=? tfirst (tx s x))
                         then Z.min (tfirst (tx s x)) m else m) (nloc s) (xs s).

(** get_subxact_undo_location: the last savepoint mark. *)
Fixpoint sploc (l : list item) : Z :=
  match l with
  | [] => -1
  | i :: r => match ia i with AS => il i | _ => sploc r end
  end.

Definition set_tx (s : st) (x : Z) (t : txr) : st :=
  St (ch s) (nloc s) (ncsn s) (upd (tx s) x t) (xs s) (evs s).
Definition set_ch (s : st) (c : list ent) : st :=
  St c (nloc s) (ncsn s) (tx s) (xs s) (evs s).
Definition emit (s : st) (e : list event) : st :=
  St (ch s) (nloc s) (ncsn s) (tx s) (xs s) (e ++ evs s).

(** make_undo_record / add_new_undo_stack_item, btree/undo.c:358-436. *)
Definition push (s : st) (x : Z) (i : item) : st :=
  let t := tx s x in
  St (ch s) (nloc s + 1) (ncsn s)
     (upd (tx s) x (Tx (tst t) (i :: tstack t) (if tfirst t <? 0 then nloc s else tfirst t)
                       (tret t) (tcsn t) (tcid t) (troll t)))
     (xs s) (evs s).

(** chainHasLocks of a header written above the present head. *)
Definition hasl (l : list ent) : bool :=
  match l with [] => false | e :: _ => ec e || elk e end.

(** A new version: o_btree_modify_insert_update, add_undo_record and delete,
    btree/modify.c:800-1000. *)
Definition put_version (s : st) (x : Z) (a : act) (m : Z) (v : option Z) : st :=
  let t := tx s x in
  let l := nloc s in
  let e := E x m false (match a with AI => -1 | _ => l end) l
             (match v with None => true | _ => false end) (hasl (ch s)) (tcid t)
             (match v with Some w => w | None => 0 end) in
  emit (push (set_ch s (e :: ch s)) x (It a l (tcid t) v)) [EvGrant x m; EvWrite x (tcid t) v].

(** A lock record: o_btree_modify_lock, btree/modify.c:1010-1075. *)
Definition put_lock (s : st) (x m : Z) : st :=
  let t := tx s x in
  let l := nloc s in
  let e := E x m true l l false (hasl (ch s)) (tcid t) 0 in
  emit (push (set_ch s (e :: ch s)) x (It AL l (tcid t) None)) [EvGrant x m].

(** What the caller asks for: insert, update, delete, lock. *)
Inductive kind := KI | KU | KD | KL.

(** o_btree_modify_internal with o_btree_modify_handle_conflicts
    (btree/modify.c:115-420, 488-720).  [go] = false: after the conflict check
    the callback answers "do nothing", asks for a stronger mode (the operation
    starts again), or a serialization error is raised.  [k] is the action
    after the callback has spoken; insertions and deletions use mode Update,
    updates NoKeyUpdate or Update. *)
Definition modify (s : st) (x : Z) (k : kind) (m v : Z) (go : bool) : st :=
  let t := tx s x in
  let m := match k with KI | KD => 3 | KU => if m =? 3 then 3 else 2 | KL => m end in
  match ch s with
  | [] => match k with
          | KI => if go then put_version s x AI m (Some v) else s
          | _ => s
          end
  | _ :: _ =>
    let r := rlc (tx s) m x (tcsn t) (tret t) (sploc (tstack t)) (ch s) in
    let s1 := set_ch s (rchain r) in
    if rres r && negb (rconf r =? x) then s1      (* wait and retry *)
    else if negb go then s1
    else match rchain r with
    | [] => s1
    | p :: _ =>
      if ed p then
        match k with
        | KI => put_version s1 x AU m (Some v)
        | _ => s1
        end
      else
        match k with
        | KI => s1
        | _ =>
          let keep := match k with KL => rstat r =? 2 | _ => false end in
          let s2 := if rred r && negb keep
                    then set_ch s1 (remred (tx s) m x (tret t) (sploc (tstack t)) (rchain r))
                    else s1 in
          match k with
          | KU => put_version s2 x AU m (Some v)
          | KD => put_version s2 x AD m None
          | _ => if rstat r =? 2 then emit s2 [EvGrant x m] else put_lock s2 x m
          end
        end
    end
  end.

(** Undo of the newest record of a rolling-back transaction
    (apply_undo_stack, src/transam/undo.c:1275-1345): at the savepoint mark
    the rollback to a savepoint is over; at the bottom of the stack the
    transaction becomes aborted. *)
Definition undo1 (s : st) (x : Z) : st :=
  let t := tx s x in
  match tstack t with
  | [] =>
    if troll t =? 2 then set_tx s x (Tx Abrt [] (tfirst t) (tret t) (tcsn t) (tcid t) 0)
    else set_tx s x (Tx (tst t) [] (tfirst t) (tret t) (tcsn t) (tcid t) 0)
  | i :: r =>
    let s1 := set_tx s x (Tx (tst t) r (tfirst t) (tret t) (tcsn t) (tcid t)
                             (match ia i with AS => if troll t =? 1 then 0 else troll t
                                         | _ => troll t end)) in
    match ia i with
    | AI | AU | AD => set_ch s1 (undo_version x i (ch s))
    | AL => set_ch s1 (undo_lock (tx s) x (tret t) i (ch s))
    | _ => s1
    end
  end.

Inductive op :=
| OBegin (x : Z)
| OSnap (x d : Z)          (* take a snapshot, retaining [d] less than possible *)
| OUnsnap (x : Z)          (* the last snapshot of the process goes away *)
| OCmd (x : Z)             (* next command of the transaction *)
| OMod (x : Z) (k : kind) (m v : Z) (go : bool)
| OOther (x : Z)           (* an undo record of some other row *)
| OSave (x : Z)
| ORollTo (x : Z)
| OAbort (x : Z)
| OUndo (x : Z)            (* one undo record of a rolling-back transaction *)
| OCommit (x : Z).

Definition running (t : txr) : bool :=
  match tst t with InProg => troll t =? 0 | _ => false end.

Definition step (s : st) (o : op) : st :=
  match o with
  | OBegin x =>
    match tst (tx s x) with
    | Idle => St (ch s) (nloc s) (ncsn s) (upd (tx s) x (Tx InProg [] (-1) INF 0 1 0))
                 (x :: xs s) (evs s)
    | _ => s
    end
  | OSnap x d =>
    let t := tx s x in
    if running t then
      set_tx s x (Tx (tst t) (tstack t) (tfirst t) (Z.min (tret t) (snapmin s - Z.max 0 d))
                     (ncsn s) (tcid t) (troll t))
    else s
  | OUnsnap x =>
    let t := tx s x in
    if running t then set_tx s x (Tx (tst t) (tstack t) (tfirst t) INF (tcsn t) (tcid t) (troll t))
    else s
  | OCmd x =>
    let t := tx s x in
    if running t then
      set_tx s x (Tx (tst t) (tstack t) (tfirst t) (tret t) (tcsn t) (tcid t + 1) (troll t))
    else s
  | OMod x k m v go =>
    let t := tx s x in
    if running t && (tret t <? INF) && (0 <=? m) && (m <=? 3) then modify s x k m v go else s
  | OOther x =>
    if running (tx s x) then push s x (It AO (nloc s) (tcid (tx s x)) None) else s
  | OSave x =>
    if running (tx s x) then
      emit (push s x (It AS (nloc s) (tcid (tx s x)) None)) [EvSave x (nloc s)]
    else s
  | ORollTo x =>
    let t := tx s x in
    if running t && (0 <=? sploc (tstack t)) then
      emit (set_tx s x (Tx (tst t) (tstack t) (tfirst t) (tret t) (tcsn t) (tcid t) 1))
           [EvRollTo x]
    else s
  | OAbort x =>
    let t := tx s x in
    if match tst t with InProg => true | _ => false end then
      emit (set_tx s x (Tx (tst t) (tstack t) (tfirst t) (tret t) (tcsn t) (tcid t) 2)) [EvAbort x]
    else s
  | OUndo x =>
    let t := tx s x in
    if match tst t with InProg => negb (troll t =? 0) | _ => false end then undo1 s x else s
  | OCommit x =>
    let t := tx s x in
    if running t then
      St (ch s) (nloc s) (ncsn s + 1)
         (upd (tx s) x (Tx (Comm (ncsn s)) [] (tfirst t) (tret t) (tcsn t) (tcid t) 0))
         (xs s) (EvCommit x (ncsn s) :: evs s)
    else s
  end.

Definition exec (ops : list op) : st := run step st0 ops.
