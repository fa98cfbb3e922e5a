(** Large values stored in chunks: src/tuple/toast.c, the visibility of chunk
    versions in src/btree/iterator.c, the undo decision for chunks written
    twice by one transaction in src/btree/modify.c, and the calls made for
    inserted, updated and deleted rows in src/tuple/slot.c. *)
From Coq Require Import List ZArith Bool Lia.
From Verif Require Import Base.
Import ListNotations.
Open Scope Z_scope.

(** A value is a sequence of bytes. *)
Definition bytes := list Z.

(** toast.c:133-197: the key of a chunk is the primary key of the row, the
    number of the column and the number of the chunk.  The primary key is
    represented by its position in the order of the primary key's comparators
    (toast.c:133-157); two images of a key which compare equal have the same
    position. *)
Definition ckey := (Z * Z * Z)%type.

(** o_toast_cmp, toast.c:106-198. *)
Definition kcmp (k1 k2 : ckey) : comparison :=
  let '(p1, a1, c1) := k1 in
  let '(p2, a2, c2) := k2 in
  match Z.compare p1 p2 with
  | Eq => match Z.compare a1 a2 with
          | Eq => Z.compare c1 c2
          | r => r
          end
  | r => r
  end.

Definition kltb (k1 k2 : ckey) : bool :=
  match kcmp k1 k2 with Lt => true | _ => false end.
Definition keqb (k1 k2 : ckey) : bool :=
  match kcmp k1 k2 with Eq => true | _ => false end.

(** One version of a chunk: the leaf header's transaction and deleted mark
    (btree/btree.h, BTreeLeafTuphdr), and the version number and bytes of the
    tuple. *)
Record entry := Ent { e_tx : Z; e_ver : Z; e_del : bool; e_data : bytes }.

(** The versions of a chunk, newest (on the page) first, then the undo
    chain. *)
Definition chain := list entry.

(** The TOAST tree as its leaf items in key order.  Pages are not modelled. *)
Definition tree := list (ckey * chain).

Definition lookup (t : tree) (k : ckey) : chain :=
  match find (fun kc => keqb (fst kc) k) t with
  | Some kc => snd kc
  | None => []
  end.

(** Replace or insert the item with key [k]. *)
Fixpoint put (t : tree) (k : ckey) (c : chain) : tree :=
  match t with
  | [] => [(k, c)]
  | (k', c') :: t' =>
      match kcmp k k' with
      | Lt => (k, c) :: t
      | Eq => (k, c) :: t'
      | Gt => (k', c') :: put t' k c
      end
  end.

(** tableGetNextKey, toast.c:295-305: iterations run from the key of the
    value up to (not including) the first chunk of the next column. *)
Definition next_key (k : ckey) : ckey := let '(p, a, _) := k in (p, a + 1, 0).
Definition in_range (lo k : ckey) : bool :=
  negb (kltb k lo) && kltb k (next_key lo).

(** The loop of generic_toast_insert_optional_wal, toast.c:447-489 (and of
    the update, 596-645): pieces of [m] bytes, the last one shorter.
    [fuel] is the number of bytes, every piece takes at least one. *)
Fixpoint split (fuel m : nat) (v : bytes) : list bytes :=
  match fuel, v with
  | O, _ => []
  | _, [] => []
  | S f, _ => firstn m v :: split f m (skipn m v)
  end.
Definition chunks (m : nat) (v : bytes) : list bytes := split (length v) m v.

(** o_toast_needs_undo, toast.c:200-222, for an insert over a version of the
    same transaction. *)
Definition needs_undo (old : entry) (w : Z) : bool :=
  if e_del old && (e_ver old + 1 =? w) then false
  else if w <=? e_ver old then false
  else true.

(** o_btree_modify_internal for BTreeOperationInsert, modify.c:205-436:
    nothing there: the chunk is inserted; a live chunk: the insert fails
    (OBTreeModifyResultFound); a deleted chunk: it is replaced, keeping the
    deleted version in undo, except that a deletion by the same transaction
    which needs no undo is first reverted (modify.c:389-399).  [sp] is the
    outcome of the savepoint test modify.c:521-524, which forces undo. *)
Definition ins_entry (tx w : Z) (d : bytes) (sp : bool) (c : chain)
  : option chain :=
  match c with
  | [] => Some [Ent tx w false d]
  | e :: r =>
      if negb (e_del e) then None
      else if e_tx e =? tx
      then if sp || needs_undo e w
           then Some (Ent tx w false d :: c)
           else Some (Ent tx w false d :: r)
      else Some (Ent tx w false d :: c)
  end.

(** o_btree_modify for BTreeOperationDelete over a live chunk: the chunk is
    marked deleted, keeping its bytes and version number; the live version
    stays in undo (o_toast_needs_undo is true for deletes).  Chunks already
    deleted are not returned by the iteration of the delete. *)
Definition del_entry (tx : Z) (c : chain) : chain :=
  match c with
  | [] => []
  | e :: _ => if e_del e then c else Ent tx (e_ver e) true (e_data e) :: c
  end.

(** generic_toast_insert_optional_wal, toast.c:430-490: stops at the first
    chunk which cannot be inserted. *)
Fixpoint ins_chunks (tx w : Z) (p a : Z) (i : Z) (sp : Z -> bool)
    (ds : list bytes) (t : tree) : option tree :=
  match ds with
  | [] => Some t
  | d :: ds' =>
      match ins_entry tx w d (sp i) (lookup t (p, a, i)) with
      | Some c => ins_chunks tx w p a (i + 1) sp ds' (put t (p, a, i) c)
      | None => None
      end
  end.

(** generic_toast_delete_optional_wal, toast.c:665-745: every chunk from the
    key on, up to the next key. *)
Definition del_chunks (tx : Z) (lo : ckey) (t : tree) : tree :=
  map (fun kc => if in_range lo (fst kc)
                 then (fst kc, del_entry tx (snd kc)) else kc) t.

(** generic_toast_update_optional_wal, toast.c:578-660, used by the system
    trees: each piece is inserted or replaces the current one (o_update_callback,
    o_update_deleted_callback); the chunks after the last piece are deleted.
    The undo decision of those trees only affects older versions; here the
    older version is always kept. *)
Fixpoint upd_loop (tx w : Z) (p a : Z) (i : Z) (ds : list bytes) (t : tree)
  : tree :=
  match ds with
  | [] => del_chunks tx (p, a, i) t
  | d :: ds' =>
      upd_loop tx w p a (i + 1) ds'
        (put t (p, a, i) (Ent tx w false d :: lookup t (p, a, i)))
  end.
Definition upd_chunks (m : nat) (tx w p a : Z) (v : bytes) (t : tree) : tree :=
  upd_loop tx w p a 0 (chunks m v) t.

(** Who reads: a snapshot with a commit sequence number, or the transaction
    which wrote the row version, in progress, holding the row version whose
    primary key tuple has version number [w]. *)
Inductive reader := RCsn (s : Z) | ROwn (tx w : Z).

(** o_find_tuple_version, iterator.c:703-870, with tableVersionCallback,
    toast.c:395-412.  [cs tx] is the commit sequence number of a committed
    transaction; versions of aborted transactions have been undone.  With a
    callback the deleted mark is not looked at (iterator.c:857). *)
Fixpoint seen (cs : Z -> option Z) (rd : reader) (c : chain) : option entry :=
  match c with
  | [] => None
  | e :: r =>
      match rd with
      | RCsn s =>
          match cs (e_tx e) with
          | Some n => if n <? s then Some e else seen cs rd r
          | None => seen cs rd r
          end
      | ROwn tx w =>
          match cs (e_tx e) with
          | Some _ => Some e
          | None => if (e_tx e =? tx) && (e_ver e <=? w) then Some e
                    else seen cs rd r
          end
      end
  end.

(** The chunks an iteration over [lo, next_key lo) returns, in order. *)
Definition iterate (cs : Z -> option Z) (rd : reader) (lo : ckey) (t : tree)
  : list bytes :=
  flat_map (fun kc => match seen cs rd (snd kc) with
                      | Some e => [e_data e]
                      | None => []
                      end)
           (filter (fun kc => in_range lo (fst kc)) t).

(** The loop of generic_toast_get, toast.c:780-825. *)
Fixpoint get_loop (m size : nat) (acc : bytes) (l : list bytes)
  : option bytes :=
  let fin b := if Nat.eqb (length b) size then Some b else None in
  match l with
  | [] => fin acc
  | d :: l' =>
      if Nat.ltb size (length acc + length d) then None
      else let acc' := acc ++ d in
           if Nat.ltb (length d) m then fin acc' else get_loop m size acc' l'
  end.
Definition toast_get (cs : Z -> option Z) (rd : reader) (m size : nat)
    (p a : Z) (t : tree) : option bytes :=
  get_loop m size [] (iterate cs rd (p, a, 0) t).

(** generic_toast_get_any_common, toast.c:827-880, in an in-progress
    snapshot without callback: the live newest versions, concatenated. *)
Definition cur (c : chain) : option bytes :=
  match c with
  | e :: _ => if e_del e then None else Some (e_data e)
  | [] => None
  end.
Definition get_any (lo : ckey) (t : tree) : bytes :=
  flat_map (fun kc => match cur (snd kc) with Some d => d | None => [] end)
           (filter (fun kc => in_range lo (fst kc)) t).

(** * Rows *)

(** A version of a row: its transaction, version number, deleted mark, the
    image of its primary key, and for each column which can be stored out of
    line the value stored out of line ([None]: NULL or stored inline).  The
    row itself only holds the length of that value (OToastValue).  [r_new]
    tells that this version stored the value. *)
Record rowver := RV { r_tx : Z; r_ver : Z; r_del : bool; r_img : Z;
                      r_val : Z -> option bytes; r_new : Z -> bool }.

Record state := St {
  rows : Z -> list rowver;         (* by primary key, newest first *)
  tr : tree;                       (* the TOAST tree *)
  cs : Z -> option Z;              (* commit sequence numbers *)
  nxt : Z;                         (* next commit sequence number *)
  hor : Z;                         (* oldest snapshot still in use *)
  failed : bool                    (* a chunk could not be inserted *)
}.

Inductive op :=
| OWrite (tx p img : Z) (vals : Z -> option bytes) (sp : Z -> Z -> bool)
| ODelete (tx p : Z)
| OCommit (tx : Z)
| OAbort (tx : Z)
| OHorizon (h : Z)
| OClean (k : ckey).

Fixpoint beqb (u v : bytes) : bool :=
  match u, v with
  | [], [] => true
  | x :: u', y :: v' => (x =? y) && beqb u' v'
  | _, _ => false
  end.

Definition cur_val (l : list rowver) (a : Z) : option bytes :=
  match l with
  | r :: _ => if r_del r then None else r_val r a
  | [] => None
  end.

(** An empty value is never stored out of line (Assert(data_size > 0)). *)
Definition norm (v : option bytes) : option bytes :=
  match v with Some [] => None | x => x end.

(** tts_orioledb_update_toast_values, slot.c:1826-1960: what happens to one
    column: values equal byte for byte keep their chunks.  With no old
    version the same code is tts_orioledb_insert_toast_values, slot.c:1630-1677. *)
Definition keeps (old new : option bytes) : bool :=
  match old, new with
  | Some u, Some v => beqb u v
  | None, None => true
  | _, _ => false
  end.

Definition write_col (m : nat) (tx w p a : Z) (sp : Z -> bool)
    (old new : option bytes) (t : tree) : option tree :=
  if keeps old new then Some t
  else
    let t1 := match old with
              | Some _ => del_chunks tx (p, a, 0) t
              | None => t
              end in
    match new with
    | Some v => ins_chunks tx w p a 0 sp (chunks m v) t1
    | None => Some t1
    end.

Fixpoint write_cols (m : nat) (tx w p : Z) (sp : Z -> Z -> bool)
    (old new : Z -> option bytes) (attrs : list Z) (t : tree) : option tree :=
  match attrs with
  | [] => Some t
  | a :: attrs' =>
      match write_col m tx w p a (sp a) (old a) (new a) t with
      | Some t1 => write_cols m tx w p sp old new attrs' t1
      | None => None
      end
  end.

(** tts_orioledb_remove_toast_values, slot.c:1729-1775. *)
Definition remove_cols (tx p : Z) (old : Z -> option bytes) (attrs : list Z)
    (t : tree) : tree :=
  fold_left (fun t a => match old a with
                        | Some _ => del_chunks tx (p, a, 0) t
                        | None => t
                        end) attrs t.

(** A row can be written by [tx] when its newest version is of [tx] or of a
    committed transaction (row locks, modify.c:486-700). *)
Definition may_write (cs : Z -> option Z) (tx : Z) (l : list rowver) : bool :=
  match cs tx with
  | Some _ => false
  | None =>
      match l with
      | [] => true
      | r :: _ => (r_tx r =? tx) || match cs (r_tx r) with
                                    | Some _ => true
                                    | None => false
                                    end
      end
  end.

(** The version number of a new version: one more than the version it
    replaces if that is of the same transaction (o_update_callback,
    o_insert_callback, operations.c:2697-2713, 2907-2916), else 0
    (tts_orioledb_form_tuple). *)
Definition new_ver (tx : Z) (l : list rowver) : Z :=
  match l with
  | r :: _ => if r_tx r =? tx then r_ver r + 1 else 0
  | [] => 0
  end.

Definition set_rows (p : Z) (l : list rowver) (t : tree) (s : state) : state :=
  St (upd (rows s) p l) t (cs s) (nxt s) (hor s) (failed s).

Section Step.

(** The columns which can be stored out of line (descr->toastable) and the
    size of the pieces for a primary key and its image (tableGetMaxChunkSize,
    toast.c:250-285, which depends on the length of the stored key). *)
Variable attrs : list Z.
Variable msize : Z -> Z -> nat.

Definition do_write (s : state) (tx p img : Z) (vals : Z -> option bytes)
    (sp : Z -> Z -> bool) : state :=
  let l := rows s p in
  if may_write (cs s) tx l then
    let w := new_ver tx l in
    let new := fun a => if existsb (Z.eqb a) attrs then norm (vals a)
                        else None in
    match write_cols (msize p img) tx w p sp (cur_val l) new attrs (tr s) with
    | Some t =>
        set_rows p (RV tx w false img new
                       (fun a => negb (keeps (cur_val l a) (new a))) :: l) t s
    | None => St (rows s) (tr s) (cs s) (nxt s) (hor s) true
    end
  else s.

(** Deleting a row leaves its version number (the deleted mark is in the
    leaf header). *)
Definition do_delete (s : state) (tx p : Z) : state :=
  match rows s p with
  | r :: l =>
      if may_write (cs s) tx (r :: l) && negb (r_del r) then
        set_rows p (RV tx (r_ver r) true (r_img r) (fun _ => None)
                       (fun _ => false) :: r :: l)
                 (remove_cols tx p (cur_val (r :: l)) attrs (tr s)) s
      else s
  | [] => s
  end.

Definition do_commit (s : state) (tx : Z) : state :=
  match cs s tx with
  | Some _ => s
  | None => St (rows s) (tr s) (upd (cs s) tx (Some (nxt s))) (nxt s + 1)
               (hor s) (failed s)
  end.

(** Rollback removes every version of the transaction (undo stack, properties
    C12 and C13). *)
Definition do_abort (s : state) (tx : Z) : state :=
  match cs s tx with
  | Some _ => s
  | None =>
      St (fun p => filter (fun r => negb (r_tx r =? tx)) (rows s p))
         (map (fun kc => (fst kc,
                 filter (fun e => negb (e_tx e =? tx)) (snd kc))) (tr s))
         (cs s) (nxt s) (hor s) (failed s)
  end.

(** Space of a deleted chunk is reused once its deletion is visible to every
    snapshot (page_item_is_removable and page compaction). *)
Definition do_clean (s : state) (k : ckey) : state :=
  match lookup (tr s) k with
  | e :: _ =>
      if e_del e then
        match cs s (e_tx e) with
        | Some n => if n <? hor s
                    then St (rows s) (put (tr s) k []) (cs s) (nxt s) (hor s)
                            (failed s)
                    else s
        | None => s
        end
      else s
  | [] => s
  end.

Definition step (s : state) (o : op) : state :=
  match o with
  | OWrite tx p img vals sp => do_write s tx p img vals sp
  | ODelete tx p => do_delete s tx p
  | OCommit tx => do_commit s tx
  | OAbort tx => do_abort s tx
  | OHorizon h => St (rows s) (tr s) (cs s) (nxt s) (Z.max (hor s) h)
                     (failed s)
  | OClean k => do_clean s k
  end.

(** o_detoast, toast.c:224-248, of column [a] of row version [r] with key
    position [p], holding a value of [size] bytes. *)
Definition detoast (s : state) (rd : reader) (p : Z) (r : rowver) (a : Z)
    (size : nat) : option bytes :=
  toast_get (cs s) rd (msize p (r_img r)) size p a (tr s).

End Step.

Definition init : state :=
  St (fun _ => []) [] (fun _ => None) 1 0 false.
