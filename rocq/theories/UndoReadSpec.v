(** What reading undo promises (property C13). *)
From Coq Require Import ZArith List Bool.
From Verif Require Import Base UndoReadModel.
Import ListNotations.
Open Scope Z_scope.

(** A completed read of [l, l+z): every byte returned is one that was the last byte
    stored at that location at some moment between the beginning and the end of the read
    ([cands] collects exactly these). *)
Definition read_ok (r : Z * Z * (Z -> Z) * (Z -> list Z)) : Prop :=
  let '(l, z, res, cands) := r in forall x, l <= x < l + z -> In (res x) (cands x).

(** Nothing was stored in [l, l+z) while the read ran: the last byte stored is unambiguous. *)
Definition undisturbed (r : Z * Z * (Z -> Z) * (Z -> list Z)) (v : Z -> Z) : Prop :=
  let '(l, z, _, cands) := r in forall x, l <= x < l + z -> cands x = [v x].

(** Schedules without a checkpoint-time flush, or without in-place updates of records
    that need not exist. *)
Definition no_flush (o : op) : Prop := match o with FBegin _ _ _ => False | _ => True end.
Definition must_exist (o : op) : Prop := match o with WBegin _ _ _ _ false => False | _ => True end.
