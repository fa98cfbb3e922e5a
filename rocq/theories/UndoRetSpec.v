(** What undo retention promises (property C12), in terms of the history. *)
From Coq Require Import ZArith List Bool.
From Verif Require Import Base UndoRetModel.
Import ListNotations.
Open Scope Z_scope.

(** The record belongs to a transaction that has not finished. *)
Definition unfinished (s : st) (r : rec) : Prop := ~ In (rown r) (fin s).

(** The snapshot may need the record: its transaction had not finished when the
    snapshot was taken (so the snapshot must be able to look behind its changes). *)
Definition needed_by (h : hsnap) (r : rec) : Prop := ~ In (rown r) (hfin h).

(** The process writes, or is about to write, a record at or above [l]. *)
Definition writing (s : st) (p l : Z) : Prop :=
  exists t, pc s p = Have l t.
