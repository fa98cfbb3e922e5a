(** What the users of the task queue rely on, and the condition under which it
    holds. *)
From Coq Require Import ZArith List Bool.
From Verif Require Import Base S3QueueModel.
Import ListNotations.
Open Scope Z_scope.

(* A task was put at the location. *)
Definition was_put (s : st) (l : Z) : Prop := exists d, task s l = Some d.
(* The task at [l] does not run over the end of the buffer. *)
Definition in_one_piece (Q l : Z) (d : list Z) : Prop := l / Q = (l + Z.of_nat (length d)) / Q.
(* The queue has not come round to a task whose length word is still to be
   cleared by the process that erased it. *)
Definition calm (Q : Z) (s : st) : Prop := forall p l n, at_ s p = E3 l n -> ins s < l + Q.
Fixpoint always (P : st -> Prop) (step : st -> op -> st) (s : st) (ops : list op) : Prop :=
  P s /\ match ops with [] => True | o :: rest => always P step (step s o) rest end.
(* No process is putting, carrying out or erasing a task. *)
Definition quiet (s : st) : Prop := forall p, at_ s p = Idle.
