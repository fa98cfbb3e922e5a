(** Replay over a fuzzy checkpoint image.  Transactions without savepoints; the primary
    index.  recovery.c:2488-2710 (callbacks), btree/modify.c:178-436, 486-700 (conflicts),
    recovery.c:1618-1631 (status of a transaction), 2172-2260, 2331-2449, 1902-2130;
    versions: tableam/operations.c:2696-2716, 2892-2916. *)
From Coq Require Import ZArith List Bool.
From Verif Require Import Base IdemSpec.
Import ListNotations.
Open Scope Z_scope.

(** One version of a row.  [e_val = None] is a deleted tuple, which keeps its version
    number.  (pk_needs_undo, tableam/tree.c:953-973, lets an insert over the
    transaction's own deleted tuple drop the deletion from the chain: kept here.) *)
Record entry := mkE { e_own : oxid; e_ver : Z; e_val : option Z }.

(** ** The primary server *)
Record eng := mkEng {
  g_rows : key -> list entry;       (* newest first *)
  g_lock : key -> option oxid;      (* the unfinished transaction owning the newest version *)
  g_fin : oxid -> Z;                (* 0 active, 1 committed, 2 aborted *)
  g_log : list rec;
  g_buf : oxid -> list rec          (* local WAL buffer *)
}.

Definition ginit : eng := mkEng (fun _ => []) (fun _ => None) (fun _ => 0) [] (fun _ => []).

Inductive gop :=
| GPut (x : oxid) (k : key) (v : Z)    (* INSERT or UPDATE *)
| GDel (x : oxid) (k : key)
| GFlush (x : oxid)                    (* the buffer is written out early *)
| GCommit (x : oxid)
| GAbort (x : oxid).

Definition is_own (x : oxid) (e : entry) : bool := e_own e =? x.

(** o_insert_callback / o_update_callback: the version grows over the transaction's own
    tuple, and starts at 0 otherwise. *)
Definition next_ver (x : oxid) (row : list entry) : Z :=
  match row with e :: _ => if is_own x e then e_ver e + 1 else 0 | [] => 0 end.

Definition may_write (s : eng) (x : oxid) (k : key) : bool :=
  (g_fin s x =? 0) && match g_lock s k with Some y => y =? x | None => true end.

Definition g_write (s : eng) (x : oxid) (k : key) (e : entry) : eng :=
  mkEng (upd (g_rows s) k (e :: g_rows s k)) (upd (g_lock s) k (Some x)) (g_fin s) (g_log s)
        (upd (g_buf s) x (g_buf s x ++ [RMod x k (e_ver e) (e_val e)])).

Definition unlock (s : eng) (x : oxid) (k : key) : option oxid :=
  match g_lock s k with Some y => if y =? x then None else Some y | None => None end.

Definition gstep (s : eng) (o : gop) : eng :=
  match o with
  | GPut x k v =>
      if may_write s x k then g_write s x k (mkE x (next_ver x (g_rows s k)) (Some v)) else s
  | GDel x k =>
      if may_write s x k then
        match g_rows s k with
        | e :: _ => match e_val e with
                    | Some _ => g_write s x k (mkE x (e_ver e) None)
                    | None => s
                    end
        | [] => s
        end
      else s
  | GFlush x =>
      if g_fin s x =? 0
      then mkEng (g_rows s) (g_lock s) (g_fin s) (g_log s ++ g_buf s x) (upd (g_buf s) x [])
      else s
  | GCommit x =>
      if g_fin s x =? 0
      then mkEng (g_rows s) (unlock s x) (upd (g_fin s) x 1)
                 (g_log s ++ g_buf s x ++ [RCommit x]) (upd (g_buf s) x [])
      else s
  | GAbort x =>
      if g_fin s x =? 0
      then mkEng (fun k => filter (fun e => negb (is_own x e)) (g_rows s k)) (unlock s x)
                 (upd (g_fin s) x 2) (g_log s ++ g_buf s x ++ [RAbort x]) (upd (g_buf s) x [])
      else s
  end.

Definition grun (ops : list gop) : eng := run gstep ginit ops.

(** ** The checkpoint: it starts after [c0] operations, and row [k] gets into the image
    after [cap k] operations. *)
Definition image (ops : list gop) (cap : key -> nat) (k : key) : list entry :=
  g_rows (grun (firstn (cap k) ops)) k.

(** ** Replay *)
Record rst := mkRst {
  r_rows : key -> list entry;
  r_st : oxid -> Z;       (* 0 no record seen yet; 1 in progress; 2 committed; 3 aborted *)
  r_stuck : bool
}.

(** The answer of recovery_map_oxid_csn (1618-1631): a transaction known only from the
    checkpoint counts as aborted; its versions are rolled back by whoever meets
    them (modify.c:575-590). *)
Definition gone (st : oxid -> Z) (y : oxid) : bool := (st y =? 0) || (st y =? 3).

(** recovery_insert_primary_callback, recovery_insert_deleted_primary_callback within the
    retry loop; [None]: waits for ever (modify.c:639-671). *)
Fixpoint put (st : oxid -> Z) (x : oxid) (ver : Z) (v : option Z) (row : list entry)
  : option (list entry) :=
  match row with
  | [] => Some [mkE x ver v]
  | e :: r =>
      if is_own x e then
        if ver <=? e_ver e then put st x ver v r            (* Undo, retry *)
        else Some (mkE x ver v :: row)
      else if gone st (e_own e) then put st x ver v r
      else if st (e_own e) =? 1 then None
      else Some (mkE x ver v :: row)
  end.

(** recovery_delete_primary_callback; a deleted tuple answers "not found" (404-426). *)
Fixpoint del (st : oxid -> Z) (x : oxid) (ver : Z) (row : list entry) : option (list entry) :=
  match row with
  | [] => Some []
  | e :: r =>
      if is_own x e then
        match e_val e with
        | None => Some row
        | Some _ => if ver <? e_ver e then del st x ver r else Some (mkE x (e_ver e) None :: row)
        end
      else if gone st (e_own e) then del st x ver r
      else if st (e_own e) =? 1 then None
      else match e_val e with
           | None => Some row
           | Some _ => Some (mkE x (e_ver e) None :: row)
           end
  end.

Definition see (st : oxid -> Z) (x : oxid) : oxid -> Z := if st x =? 0 then upd st x 1 else st.

(** An abort walks the undo of the transaction, both that of replay and that of the
    checkpoint: all its versions go (RecModel.v and RowModel.v have the stacks). *)
Definition rstep (s : rst) (r : rec) : rst :=
  if r_stuck s then s else
  match r with
  | RMod x k ver v =>
      let st := see (r_st s) x in
      match (match v with Some _ => put st x ver v (r_rows s k) | None => del st x ver (r_rows s k) end) with
      | Some row => mkRst (upd (r_rows s) k row) st false
      | None => mkRst (r_rows s) st true
      end
  | RCommit x => mkRst (r_rows s) (upd (r_st s) x 2) false
  | RAbort x =>
      mkRst (fun k => filter (fun e => negb (is_own x e)) (r_rows s k)) (upd (r_st s) x 3) false
  end.

(** Recovery starts with the image; transactions that committed before the start of
    the checkpoint are settled. *)
Definition rinit (img : key -> list entry) (before : list rec) : rst :=
  mkRst img (fun x => if has_commit before x then 2 else 0) false.

Definition replay (s : rst) (l : list rec) : rst := fold_left rstep l s.

(** recovery_finish: whatever did not commit is rolled back. *)
Definition contents (s : rst) (k : key) : option Z :=
  match filter (fun e => r_st s (e_own e) =? 2) (r_rows s k) with
  | [] => None
  | e :: _ => e_val e
  end.

(** The versions of a row left after that. *)
Definition versions (s : rst) (k : key) : list (oxid * option Z) :=
  map (fun e => (e_own e, e_val e)) (filter (fun e => r_st s (e_own e) =? 2) (r_rows s k)).
