(** Files of created, dropped and replaced trees: the undo records of relation
    storage (src/btree/undo.c:773-1178) and the file of postponed removals.
    Not modelled: retention for rewind (enable_rewind is taken to be off), the
    in-memory pages and checkpoint numbers of the trees, recovery, failures of
    system calls.  The undo stack and its savepoints are those of
    SavepointModel.v, here as a list of records with the length to return to. *)
From Coq Require Import ZArith List Bool Lia.
From Verif Require Import Base.
Import ListNotations.
Open Scope Z_scope.

(* ORelOids, include/orioledb.h:273-281, and OIndexKey, include/utils/seq_buf.h:24-27:
   database, relation, relfilenode and tablespace. *)
Record key := mkK { k_dat : Z; k_rel : Z; k_node : Z; k_spc : Z }.
Definition keqb (a b : key) : bool :=
  (k_dat a =? k_dat b) && (k_rel a =? k_rel b) && (k_node a =? k_node b) && (k_spc a =? k_spc b).
Definition kin (k : key) (l : list key) : bool := existsb (keqb k) l.
Definition no_key := mkK 0 0 0 0.

(** Undo records of relation storage. *)
(* RelnodeUndoStackItem, include/btree/undo.h:141-152; the array [trees] holds
   the old trees and then the new ones. *)
Record item := mkItem { oldRelnode : Z; oldNumTrees : nat; newRelnode : Z; newNumTrees : nat; it_fsync : bool; trees : list key }.

(* memcpy of [n] keys of [src] into the array of the record at index [off]; a copy
   that does not fit would overwrite the next record: the array is lost. *)
Definition memcpy (dst : list key) (off : nat) (src : list key) (n : nat) : list key :=
  if (n =? 0)%nat then dst
  else if (off + n <=? length dst)%nat then firstn off dst ++ firstn n src ++ skipn (off + n) dst
  else [].

(* add_undo_relnode, undo.c:1085-1143: as many records of at most [cap] trees as
   it takes; [fuel] bounds the loop. *)
Fixpoint add_undo_relnode (fuel cap : nat) (oldNode : Z) (oldTrees : list key) (newNode : Z) (newTrees : list key)
    (fsync : bool) (stack : list item) : list item :=
  match fuel with
  | O => stack
  | S fuel' =>
      let oldNum := length oldTrees in
      let newNum := length newTrees in
      if (oldNum + newNum =? 0)%nat then stack
      else
        let stepOld := Nat.min oldNum cap in
        let stepNew := Nat.min newNum (cap - stepOld) in
        let arr := repeat no_key (stepOld + stepNew) in
        let arr := if (0 <? oldNum)%nat then memcpy arr 0 oldTrees stepOld else arr in
        let arr := if (0 <? newNum)%nat then memcpy arr oldNum newTrees stepNew else arr in
        add_undo_relnode fuel' cap oldNode (skipn stepOld oldTrees) newNode (skipn stepNew newTrees) fsync
          (mkItem oldNode stepOld newNode stepNew fsync arr :: stack)
  end.

(** The file of postponed removals. *)
(* FileWrite: bytes beyond the end of the file are zeros. *)
Definition fwrite (f : list Z) (off : nat) (data : list Z) : list Z :=
  match data with
  | [] => f
  | _ => firstn off (f ++ repeat 0 (off - length f)) ++ data ++ skipn (off + length data) f
  end.
(* FileRead: fewer bytes than asked for is an error of the caller. *)
Definition fread (f : list Z) (off n : nat) : option (list Z) :=
  if (off + n <=? length f)%nat then Some (firstn n (skipn off f)) else None.

(* A 32-bit number in memory, low byte first. *)
Definition enc32 (z : Z) : list Z := [z mod 256; (z / 256) mod 256; (z / 65536) mod 256; (z / 16777216) mod 256].
Definition dec32 (l : list Z) : Z := nth 0 l 0 + 256 * nth 1 l 0 + 65536 * nth 2 l 0 + 16777216 * nth 3 l 0.
Definition dec32s (l : list Z) : Z := if dec32 l <? 2 ^ 31 then dec32 l else dec32 l - 2 ^ 32.
Definition enckey (k : key) : list Z := enc32 (k_dat k) ++ enc32 (k_rel k) ++ enc32 (k_node k) ++ enc32 (k_spc k).
Definition deckey (l : list Z) : key := mkK (dec32 l) (dec32 (skipn 4 l)) (dec32 (skipn 8 l)) (dec32 (skipn 12 l)).
Fixpoint deckeys (n : nat) (l : list Z) : list key :=
  match n with O => [] | S n' => deckey l :: deckeys n' (skipn 16 l) end.

Record pend := mkP { p_file : list Z; p_loc : nat }.

(* add_pending_truncate, undo.c:775-823.  The second and the third write go to
   offset 0, and the third one writes the memory at [&trees], that is the local
   pointer and what follows it on the stack ([stk]), not the trees. *)
Definition add_pending_truncate (p : pend) (oids : key) (ts : list key) (stk : list Z) : pend :=
  let f := fwrite (p_file p) (p_loc p) (enckey oids) in
  let offset := (p_loc p + 16)%nat in
  let f := fwrite f 0 (enc32 (Z.of_nat (length ts))) in
  let offset := (offset + 4)%nat in
  let f := fwrite f 0 (firstn (16 * length ts) (stk ++ repeat 0 (16 * length ts))) in
  mkP f (offset + 16 * length ts).

(* The loop of check_pending_truncates, undo.c:855-899: the trees whose files
   are removed and whether the loop came to its end (a short read is FATAL). *)
Fixpoint check_loop (fuel : nat) (f : list Z) (offset maxOffset : nat) : list key * bool :=
  match fuel with
  | O => ([], false)
  | S n =>
      if (offset <? maxOffset)%nat then
        match fread f offset 16 with
        | None => ([], false)
        | Some _ =>
            match fread f (offset + 16) 4 with
            | None => ([], false)
            | Some b =>
                let numTrees := dec32s b in
                if numTrees <? 0 then ([], false)
                else match fread f (offset + 20) (16 * Z.to_nat numTrees) with
                | None => ([], false)
                | Some kb =>
                    let r := check_loop n f (offset + 20 + 16 * Z.to_nat numTrees) maxOffset in
                    (deckeys (Z.to_nat numTrees) kb ++ fst r, snd r)
                end
            end
        end
      else ([], true)
  end.

(** The files, the transactions and their undo stacks. *)
Inductive fstate := Absent | Dirty | Durable.
Record st := mkSt {
  disk : key -> fstate;
  stack : Z -> list item;             (* per transaction, newest first *)
  marks : Z -> list nat;              (* savepoints: lengths of the stack *)
  pending : pend;
  backup : bool;
  fatal : bool
}.
Definition set_disk (s : st) d := mkSt d (stack s) (marks s) (pending s) (backup s) (fatal s).
Definition put (d : key -> fstate) (ks : list key) (v : fstate) : key -> fstate := fun x => if kin x ks then v else d x.

(* btree_relnode_undo_callback, undo.c:909-1063, stage PreCommit: new files are
   flushed. *)
Definition cb_precommit (d : key -> fstate) (i : item) : key -> fstate :=
  if negb (newRelnode i =? 0) && it_fsync i
  then put d (firstn (newNumTrees i) (skipn (oldNumTrees i) (trees i))) Durable else d.
(* Stage Commit: the files of the old trees are removed, or the removal is
   postponed. *)
Definition cb_commit (stk : list Z) (s : st) (i : item) : st :=
  if backup s then
    mkSt (disk s) (stack s) (marks s)
      (add_pending_truncate (pending s) (mkK 0 0 (oldRelnode i) 0) (firstn (oldNumTrees i) (trees i)) stk) (backup s) (fatal s)
  else if negb (oldRelnode i =? 0) then set_disk s (put (disk s) (firstn (oldNumTrees i) (trees i)) Absent) else s.
(* Stage Abort: the files of the new trees are removed. *)
Definition cb_abort (s : st) (i : item) : st :=
  if negb (newRelnode i =? 0)
  then set_disk s (put (disk s) (firstn (newNumTrees i) (skipn (oldNumTrees i) (trees i))) Absent) else s.

Inductive op :=
  | OReplace (t : Z) (oldNode : Z) (old : list key) (newNode : Z) (new : list key) (fsync : bool)
  | OWrite (t : Z) (k : key)
  | OSavepoint (t : Z)
  | ORelease (t : Z)
  | ORollbackTo (t : Z)
  | OCommit (t : Z) (stk : list Z)
  | OAbort (t : Z)
  | OBackup (on : bool)
  | OCheck.

Definition set_stack (s : st) (t : Z) l m := mkSt (disk s) (upd (stack s) t l) (upd (marks s) t m) (pending s) (backup s) (fatal s).

Definition go (cap : nat) (s : st) (o : op) : st :=
  match o with
  | OReplace t on old nn new fs =>
      (* add_undo_create_relnode, add_undo_drop_relnode, add_undo_truncate_relnode,
         undo.c:1145-1178; the new files appear, not flushed *)
      let l := add_undo_relnode (S (length old + length new)) cap on old nn new fs (stack s t) in
      set_stack (set_disk s (put (disk s) new Dirty)) t l (marks s t)
  | OWrite t k => match disk s k with Absent => s | _ => set_disk s (put (disk s) [k] Dirty) end
  | OSavepoint t => set_stack s t (stack s t) (length (stack s t) :: marks s t)
  | ORelease t => set_stack s t (stack s t) (tl (marks s t))
  | ORollbackTo t =>
      (* apply_undo_stack to a savepoint, transam/undo.c:1495 *)
      match marks s t with
      | [] => s
      | m :: ms =>
          let n := (length (stack s t) - m)%nat in
          set_stack (fold_left cb_abort (firstn n (stack s t)) s) t (skipn n (stack s t)) ms
      end
  | OCommit t stk =>
      (* precommit_undo_stack, then on_commit_undo_stack, transam/undo.c:1507-1523, 2561, 2696 *)
      let s1 := set_disk s (fold_left cb_precommit (stack s t) (disk s)) in
      set_stack (fold_left (cb_commit stk) (stack s t) s1) t [] []
  | OAbort t => set_stack (fold_left cb_abort (stack s t) s) t [] []
  | OBackup on => mkSt (disk s) (stack s) (marks s) (pending s) on (fatal s)
  | OCheck =>
      (* check_pending_truncates, undo.c:825-907 *)
      if backup s || (p_loc (pending s) =? 0)%nat then s
      else
        let r := check_loop (S (p_loc (pending s))) (p_file (pending s)) 0 (p_loc (pending s)) in
        let d := put (disk s) (fst r) Absent in
        if snd r then mkSt d (stack s) (marks s) (mkP (p_file (pending s)) 0) (backup s) (fatal s)
        else mkSt d (stack s) (marks s) (pending s) (backup s) true
  end.
