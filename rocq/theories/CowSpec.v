(** What recovery needs. *)
From Coq Require Import ZArith List Bool Lia.
From Verif Require Import Base CowModel.
Import ListNotations.
Open Scope Z_scope.

Definition reachable (s : state) : Prop := exists ops, s = run step init ops.

(** Every block of the image that the control file refers to still holds what
    was written for it. *)
Definition image_intact (s : state) : Prop := forall b v c, In (b, v, c) (s_dimg s) -> s_disk s b = v.

(** No two pages share a block. *)
Definition blocks_distinct (s : state) : Prop :=
  forall p q g h b, s_pages s p = Some g -> s_pages s q = Some h -> g_ext g = Some b -> g_ext h = Some b -> p = q.

(** No block in use is on a free list. *)
Definition blocks_not_free (s : state) : Prop :=
  forall p g b, s_pages s p = Some g -> g_ext g = Some b -> ~ In b (s_free s) /\ forall n, ~ In b (s_tmp s n).

(** A scan numbered [n] is running before each of the operations, and the server
    is not restarted. *)
Fixpoint scan_on (n : Z) (s : state) (ops : list op) : Prop :=
  match ops with
  | [] => True
  | o :: r => In n (s_scans s) /\ o <> ORestart /\ scan_on n (step s o) r
  end.
