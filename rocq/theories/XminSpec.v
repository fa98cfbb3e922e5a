(** What the global transaction horizon promises to snapshots (property C11). *)
From Coq Require Import ZArith List Bool.
From Verif Require Import Base XminModel.
Import ListNotations.
Open Scope Z_scope.

(** The process can still use the snapshot: it is active or registered. *)
Definition live (s : st) (p : Z) (a : snap) : Prop :=
  In a (act s p) \/ In a (helems (hp s p 0)).

(** Transaction [x] finished before snapshot [a] was taken, so everything it
    committed belongs to the snapshot and treating it as long committed is right. *)
Definition finished_before (s : st) (x : Z) (a : snap) : Prop :=
  fin s x = true /\ forall c, csnof s x = Some c -> c < scsn a.

(** Registered snapshots of one process that share their row undo location also
    share their xmin. *)
Definition no_mixed_ties (s : st) : Prop :=
  forall p a b, In a (helems (hp s p 0)) -> In b (helems (hp s p 0)) -> l0 a = l0 b -> sxmin a = sxmin b.

(** ... at every moment of a run. *)
Definition never_mixed_ties (n : Z) (ops : list op) : Prop :=
  forall pre post, ops = pre ++ post -> no_mixed_ties (run (step n) init pre).
