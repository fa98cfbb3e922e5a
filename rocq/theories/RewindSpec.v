(** What a user can say about rewinding, without the queue's rings. *)
From Coq Require Import ZArith List Bool Lia.
From Verif Require Import Base RewindModel.
Import ListNotations.
Open Scope Z_scope.

(** Longest prefix whose elements satisfy [f]. *)
Fixpoint take_while {A} (f : A -> bool) (l : list A) : list A :=
  match l with
  | [] => []
  | x :: r => if f x then x :: take_while f r else []
  end.

(** The time recorded with the transaction whose entry begins at a position. *)
Definition stamp (s : st) (start : Z) : Z :=
  match s_hist s start with Main _ _ _ _ _ time => time | _ => 0 end.

(** Transactions entered in the queue and not completed, oldest first. *)
Definition kept (s : st) : list (Z * tx) := filter (fun x => s_c s <=? fst x) (s_resv s).
(** Transactions the worker has completed. *)
Definition completed (s : st) : list (Z * tx) := filter (fun x => fst x <? s_c s) (s_resv s).

(** Undoing a transaction: all of it, with all its subtransactions. *)
Definition whole (t : tx) : undone := mkUndone (t_oxid t) (t_xid t) (t_subs t) (t_loc t).

(** The transactions a rewind must undo: from the newest backwards, up to the
    first one for which the stop test holds. *)
Definition must_undo (s : st) (stop : Z -> Z -> Z -> bool) : list tx :=
  map snd (take_while (fun x => negb (stop (t_oxid (snd x)) (t_xid (snd x)) (stamp s (fst x))))
                      (rev (kept s))).

(** The rows after a list of transactions. *)
Definition rows_of (l : list tx) : Z -> list (Z * Z) := fold_left apply_tx l (fun _ => []).

(** A backend that has no reserved place in the queue. *)
Definition outside (pr : proc) : Prop :=
  p_pc pr = Idle \/ p_pc pr = Active \/ p_pc pr = Committed.

(** A main item is written before any transaction with a later place in the
    queue has finished. *)
Definition in_time (s : st) (o : op) : Prop :=
  match o with
  | OFill p _ =>
      p_pc (s_procs s p) = Fill 0 ->
      forall y, In y (s_resv s) -> p_start (s_procs s p) <= fst y -> In (t_loc (snd y)) (s_live s)
  | _ => True
  end.

Fixpoint all_in_time (c : cfg) (s : st) (ops : list op) : Prop :=
  match ops with
  | [] => True
  | o :: r => in_time s o /\ all_in_time c (step c s o) r
  end.

(** The orders the last two theorems are about: the queue lists the
    transactions in commit order, and identifiers grow with it. *)
Definition queued_in_commit_order (s : st) : Prop := map snd (s_resv s) = s_commits s.
Fixpoint ids_grow (l : list tx) : Prop :=
  match l with
  | [] => True
  | t :: r => 0 < t_oxid t /\ Forall (fun u => t_oxid t < t_oxid u) r /\ ids_grow r
  end.
(** A backend waiting for space in the queue. *)
Definition waiting (pr : proc) : Prop :=
  match p_pc pr with Space | SpaceEv _ _ => True | _ => False end.
