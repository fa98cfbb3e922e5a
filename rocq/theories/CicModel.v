(** CREATE INDEX CONCURRENTLY: capture of changes into per-backend spool
    files, the build scan, the merge of the files, the replay, the covering
    pass and the unique validation.
    Sources: src/catalog/cic_spool.c, src/catalog/indices.c:818-1085
    (o_define_index_concurrent_finish), src/indexam/handler.c:355-440 and
    838-890, src/tableam/operations.c:2085-2154, 2317-2390, 2459-2545. *)
From Coq Require Import ZArith List Bool Lia.
From Verif Require Import Base.
Import ListNotations.
Open Scope Z_scope.

(** A leaf entry of the index: the indexed value and the primary key, which
    together are the key of the leaf tuple (indices.c:956-960). *)
Definition ent : Type := Z * Z.

(** CICOpType (include/catalog/cic_spool.h:40-46). *)
Inductive cop := Ins | Del | RIns | RDel.

(** One spool entry (include/catalog/cic_spool.h:54-66) with its payload.  [e_p] is the
    backend whose file holds it.  [e_id] is the moment of the append; it is
    not stored in the file and only used to state orders. *)
Record entry := mkE { e_id : Z; e_p : Z; e_pos : Z; e_seq : Z; e_op : cop; e_ent : ent }.

(** One undo item of a writer: the row's primary key and former value
    (absent row: None), the captured operation (CICCaptureUndoStackItem,
    cic_spool.c:500-512) if any, and entries of the index tree to restore if
    the tree was changed directly.
    Simplification: the row change and its capture are one undo item; nobody
    but the scan can look at the row between the two, and the scan reading
    there is the scan reading just after. *)
Record item := mkItem { i_pk : Z; i_old : option Z; i_cap : option (cop * ent * Z); i_tree : list (ent * bool) }.

(** [Before] the index is known to writers; [Building] with the placeholder;
    [Built] after build_secondary_index, waiting for the exclusive lock;
    [Locked] with the lock held. *)
Inductive phase := Before | Building | Built | Locked.

(** The table is a map from primary key to indexed value.  [s_owner pk] is
    the backend holding the row (0: nobody).  [s_active] are the backends
    inside a transaction that may write the table (RowExclusiveLock).
    [s_top] is the next undo location; record sizes are abstracted to 1.
    [s_seq p] is local_writer.seqCounter.  [s_scan pk] is what the build scan
    has read for a row, if it has passed it. *)
Record st := mkSt {
  s_phase : phase; s_table : Z -> option Z; s_owner : Z -> Z; s_items : Z -> list item; s_active : list Z;
  s_top : Z; s_seq : Z -> Z; s_spool : Z -> list entry; s_scan : Z -> option (option Z);
  s_tree : Z -> Z -> bool; s_next : Z }.

Definition init : st :=
  mkSt Before (fun _ => None) (fun _ => 0) (fun _ => []) [] 0 (fun _ => 0) (fun _ => []) (fun _ => None)
       (fun _ _ => false) 0.

Definition set_tree (t : Z -> Z -> bool) (e : ent) (b : bool) : Z -> Z -> bool :=
  fun k pk => if (k =? fst e) && (pk =? snd e) then b else t k pk.

Inductive op :=
| OBegin (p : Z)
| OInsert (p pk k : Z)
| ODelete (p pk : Z)
| OUpdate (p pk k : Z)
| OUndo (p : Z)
| OEnd (p : Z)
| OReopen (p : Z)
| OInstall
| OScan (pk : Z)
| OBuilt
| OLock.

Definition isin (p : Z) (l : list Z) : bool := existsb (Z.eqb p) l.
Definition free_for (s : st) (p pk : Z) : bool := (s_owner s pk =? 0) || (s_owner s pk =? p).
Definition capturing (s : st) : bool := match s_phase s with Building | Built => true | _ => false end.

(** A row change of [p] with its capture: the undo position of the captured
    operation is the writer's newest undo record, that of the row change
    (operations.c:2363 and 2522: get_cur_undo_locations); a capture adds an
    undo record of its own (cic_spool_track_for_abort, cic_spool.c:515-552).
    The entry is appended to the backend's own file with the next sequence
    number (cic_spool_append, cic_spool.c:177-237). *)
Definition change (s : st) (p pk : Z) (v : option Z) (c : cop) (e : ent) : st :=
  let pos := s_top s in
  if capturing s then
    mkSt (s_phase s) (upd (s_table s) pk v) (upd (s_owner s) pk p)
         (upd (s_items s) p (mkItem pk (s_table s pk) (Some (c, e, pos)) [] :: s_items s p))
         (s_active s) (s_top s + 2) (upd (s_seq s) p (s_seq s p + 1))
         (upd (s_spool s) p (s_spool s p ++ [mkE (s_next s) p pos (s_seq s p) c e]))
         (s_scan s) (s_tree s) (s_next s + 1)
  else
    mkSt (s_phase s) (upd (s_table s) pk v) (upd (s_owner s) pk p)
         (upd (s_items s) p (mkItem pk (s_table s pk) None [] :: s_items s p))
         (s_active s) (s_top s + 1) (s_seq s) (s_spool s) (s_scan s) (s_tree s) (s_next s).

(** The reverse operation (cic_spool.c:609-625); None: nothing is written. *)
Definition reverse (c : cop) : option cop :=
  match c with Ins => Some RIns | Del => Some RDel | _ => None end.

Definition step (s : st) (o : op) : st :=
  match o with
  | OBegin p =>
      (* A writer takes RowExclusiveLock; it waits while the builder has the
         exclusive lock.  0 stands for nobody. *)
      match s_phase s with
      | Locked => s
      | _ => if isin p (s_active s) || (p =? 0) then s
             else mkSt (s_phase s) (s_table s) (s_owner s) (upd (s_items s) p []) (p :: s_active s) (s_top s) (s_seq s)
                       (s_spool s) (s_scan s) (s_tree s) (s_next s)
      end
  | OInsert p pk k =>
      (* o_tbl_index_insert (operations.c:2459-2545) *)
      if isin p (s_active s) && free_for s p pk then
        match s_table s pk with
        | None => change s p pk (Some k) Ins (k, pk)
        | Some _ => s
        end
      else s
  | ODelete p pk =>
      (* o_tbl_index_delete (operations.c:2317-2390) *)
      if isin p (s_active s) && free_for s p pk then
        match s_table s pk with
        | Some k => change s p pk None Del (k, pk)
        | None => s
        end
      else s
  | OUpdate p pk k =>
      (* orioledb_amupdate (handler.c:787-890) and o_update_secondary_index
         (operations.c:2085-2154): no capture.  The tree is changed directly;
         while it is only a placeholder it cannot be loaded (the statement
         cannot succeed), and if the old entry is not there the statement
         fails. *)
      if isin p (s_active s) && free_for s p pk then
        match s_table s pk with
        | Some k0 =>
            if k =? k0 then s
            else match s_phase s with
                 | Before =>
                     mkSt (s_phase s) (upd (s_table s) pk (Some k)) (upd (s_owner s) pk p)
                          (upd (s_items s) p (mkItem pk (s_table s pk) None [] :: s_items s p))
                          (s_active s) (s_top s + 1) (s_seq s) (s_spool s) (s_scan s) (s_tree s) (s_next s)
                 | Built =>
                     if s_tree s k0 pk then
                       mkSt (s_phase s) (upd (s_table s) pk (Some k)) (upd (s_owner s) pk p)
                            (upd (s_items s) p
                               (mkItem pk (s_table s pk) None [((k, pk), s_tree s k pk); ((k0, pk), true)] :: s_items s p))
                            (s_active s) (s_top s + 3) (s_seq s) (s_spool s) (s_scan s)
                            (set_tree (set_tree (s_tree s) (k0, pk) false) (k, pk) true) (s_next s)
                     else s
                 | _ => s
                 end
        | None => s
        end
      else s
  | OUndo p =>
      (* One undo item on abort or rollback to a savepoint: first the capture
         item (cic_capture_undo_callback, cic_spool.c:567-635), then the row. *)
      if isin p (s_active s) then
        match s_items s p with
        | it :: rest =>
            let keeps := existsb (fun i => i_pk i =? i_pk it) rest in
            let app :=
              match i_cap it with
              | Some (c, e, pos) => match reverse c with Some r => [mkE (s_next s) p pos (s_seq s p) r e] | None => [] end
              | None => []
              end in
            mkSt (s_phase s) (upd (s_table s) (i_pk it) (i_old it))
                 (if keeps then s_owner s else upd (s_owner s) (i_pk it) 0)
                 (upd (s_items s) p rest) (s_active s) (s_top s)
                 (upd (s_seq s) p (s_seq s p + Z.of_nat (length app)))
                 (upd (s_spool s) p (s_spool s p ++ app)) (s_scan s)
                 (fold_left (fun t x => set_tree t (fst x) (snd x)) (i_tree it) (s_tree s))
                 (s_next s + Z.of_nat (length app))
        | [] => s
        end
      else s
  | OEnd p =>
      (* Commit, or the end of an abort after every item is undone: the rows
         and the table lock are released. *)
      mkSt (s_phase s) (s_table s) (fun pk => if s_owner s pk =? p then 0 else s_owner s pk)
           (upd (s_items s) p []) (filter (fun q => negb (q =? p)) (s_active s)) (s_top s) (s_seq s)
           (s_spool s) (s_scan s) (s_tree s) (s_next s)
  | OReopen p =>
      (* The file is closed and opened again, by this backend after writing
         for another index or by a later backend with the same number: the
         counter restarts (ensure_writer_open, cic_spool.c:135-173). *)
      mkSt (s_phase s) (s_table s) (s_owner s) (s_items s) (s_active s) (s_top s) (upd (s_seq s) p 0)
           (s_spool s) (s_scan s) (s_tree s) (s_next s)
  | OInstall =>
      (* ambuild under ShareLock (handler.c:385-440): no writer is active. *)
      match s_phase s, s_active s with
      | Before, [] =>
          mkSt Building (s_table s) (s_owner s) (s_items s) [] (s_top s) (s_seq s) (s_spool s) (fun _ => None)
               (fun _ _ => false) (s_next s)
      | _, _ => s
      end
  | OScan pk =>
      (* The build scan passes a row, reading its current version, committed
         or not (indices.c:1826: o_in_progress_snapshot). *)
      match s_phase s, s_scan s pk with
      | Building, None =>
          mkSt (s_phase s) (s_table s) (s_owner s) (s_items s) (s_active s) (s_top s) (s_seq s) (s_spool s)
               (upd (s_scan s) pk (Some (s_table s pk))) (s_tree s) (s_next s)
      | _, _ => s
      end
  | OBuilt =>
      (* The end of the scan and the bulk load: rows not passed one by one
         are read now. *)
      match s_phase s with
      | Building =>
          mkSt Built (s_table s) (s_owner s) (s_items s) (s_active s) (s_top s) (s_seq s) (s_spool s) (s_scan s)
               (fun k pk => match (match s_scan s pk with Some v => v | None => s_table s pk end) with
                            | Some k' => k =? k' | None => false end) (s_next s)
      | _ => s
      end
  | OLock =>
      (* LockRelationOid(AccessExclusiveLock) (indices.c:874). *)
      match s_phase s, s_active s with
      | Built, [] =>
          mkSt Locked (s_table s) (s_owner s) (s_items s) [] (s_top s) (s_seq s) (s_spool s) (s_scan s) (s_tree s) (s_next s)
      | _, _ => s
      end
  end.

(** ** The merging reader *)

(** One stream: the peeked entry and what is still in the file
    (CICSpoolStream, cic_spool.c:66-76). *)
Definition stream : Type := option entry * list entry.

(** stream_peek over all streams in turn (cic_spool.c:336-346 called from
    417-430).  [buf] is reader->tupBuf, which every stream's peek points to
    (cic_spool.c:293-332).  Simplification: the buffer holds one whole
    payload; lengths and the freeing of a buffer that grows are left out. *)
Fixpoint peek_all (ss : list stream) (buf : ent) : list stream * ent :=
  match ss with
  | [] => ([], buf)
  | (Some e, r) :: ss' => let '(t, b) := peek_all ss' buf in ((Some e, r) :: t, b)
  | (None, e :: r) :: ss' => let '(t, b) := peek_all ss' (e_ent e) in ((Some e, r) :: t, b)
  | (None, []) :: ss' => let '(t, b) := peek_all ss' buf in ((None, []) :: t, b)
  end.

(** The comparison with the best stream so far (cic_spool.c:430-450); the
    index is always larger than the best one's, so that test never holds. *)
Definition better (a b : entry) : bool :=
  (e_pos a <? e_pos b) || ((e_pos a =? e_pos b) && (e_seq a <? e_seq b)).

Fixpoint best (ss : list stream) (i : nat) (cur : option (nat * entry)) : option (nat * entry) :=
  match ss with
  | [] => cur
  | (Some e, _) :: ss' =>
      best ss' (S i) (match cur with
                      | None => Some (i, e)
                      | Some (j, f) => if better e f then Some (i, e) else Some (j, f)
                      end)
  | (None, _) :: ss' => best ss' (S i) cur
  end.

Fixpoint drop_peek (ss : list stream) (i : nat) : list stream :=
  match ss, i with
  | [], _ => []
  | (_, r) :: ss', O => (None, r) :: ss'
  | x :: ss', S j => x :: drop_peek ss' j
  end.

(** cic_spool_read_next in a loop (cic_spool.c:417-460 and 663-745): every
    entry with the payload the caller finds in the buffer. *)
Fixpoint read_all (fuel : nat) (ss : list stream) (buf : ent) : list (entry * ent) :=
  match fuel with
  | O => []
  | S f =>
      let '(ss1, buf1) := peek_all ss buf in
      match best ss1 O None with
      | None => []
      | Some (i, e) => (e, buf1) :: read_all f (drop_peek ss1 i) buf1
      end
  end.

(** cic_spool_open_reader (cic_spool.c:349-413): one stream for each file, in
    the order of the directory. *)
Definition open_reader (s : st) (dir : list Z) : list stream := map (fun p => (None, s_spool s p)) dir.
Definition total (s : st) (dir : list Z) : nat := length (concat (map (s_spool s) dir)).
Definition merged (s : st) (dir : list Z) : list (entry * ent) :=
  read_all (total s dir) (open_reader s dir) (0, 0).

(** cic_spool_replay_into (cic_spool.c:640-745): insert makes the entry live
    whether it is absent, deleted or there; delete removes it if it is there. *)
Definition inserts (c : cop) : bool := match c with Ins | RDel => true | Del | RIns => false end.
Definition replay1 (t : Z -> Z -> bool) (x : cop * ent) : Z -> Z -> bool := set_tree t (snd x) (inserts (fst x)).
Definition replay (l : list (cop * ent)) (t : Z -> Z -> bool) : Z -> Z -> bool := fold_left replay1 l t.

(** The covering pass (indices.c:884-951): every row's entry is inserted. *)
Definition cover (table : Z -> option Z) (t : Z -> Z -> bool) : Z -> Z -> bool :=
  fun k pk => match table pk with Some k' => (k =? k') || t k pk | None => t k pk end.

(** The index when it becomes valid, with the reader of the code. *)
Definition finished (s : st) (dir : list Z) : Z -> Z -> bool :=
  cover (s_table s) (replay (map (fun x => (e_op (fst x), snd x)) (merged s dir)) (s_tree s)).

(** The same with a reader that hands out each entry's own payload. *)
Definition finished_own (s : st) (dir : list Z) : Z -> Z -> bool :=
  cover (s_table s) (replay (map (fun x => (e_op (fst x), e_ent (fst x))) (merged s dir)) (s_tree s)).

(** ** Unique validation (indices.c:953-1054) *)

(** The unique fields of a leaf tuple; None is NULL.  Comparison of one
    adjacent pair: returns (all_equal, any_null). *)
Fixpoint pair_check (a b : list (option Z)) : bool * bool :=
  match a, b with
  | x :: a', y :: b' =>
      match x, y with
      | Some u, Some v => if u =? v then pair_check a' b' else (false, false)
      | _, _ => (false, true)
      end
  | _, _ => (true, false)
  end.

Fixpoint validate (nnd : bool) (prev : option (list (option Z))) (l : list (list (option Z))) : bool :=
  match l with
  | [] => true
  | b :: r =>
      match prev with
      | None => validate nnd (Some b) r
      | Some a =>
          let '(all_equal, any_null) := pair_check a b in
          if all_equal || (any_null && nnd) then false else validate nnd (Some b) r
      end
  end.

(** The order of the scan that feeds it (btree/scan.c:16-25, 798-830, 2560:
    not ordered): leaves in memory in key order, then those on disk by file
    offset.  A leaf: in memory or its offset, and its tuples. *)
Definition leaf : Type := option Z * list (list (option Z)).
Fixpoint insert_leaf (x : Z * list (list (option Z))) (l : list (Z * list (list (option Z)))) :=
  match l with
  | [] => [x]
  | y :: r => if fst x <? fst y then x :: l else y :: insert_leaf x r
  end.
Definition scan_order (leaves : list leaf) : list (list (option Z)) :=
  flat_map (fun l => match fst l with None => snd l | Some _ => [] end) leaves
  ++ flat_map snd (fold_right (fun l acc => match fst l with Some o => insert_leaf (o, snd l) acc | None => acc end) [] leaves).
