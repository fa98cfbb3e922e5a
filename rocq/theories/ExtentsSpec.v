(** * Specification vocabulary for free-space extents (property C27)

    An extent is a pair (offset, length) of a run of file blocks.  These are
    the only notions the theorems of ExtentsProps.v use besides the state
    fields and the operations of the model. *)
From Coq Require Import ZArith List.
From Verif Require Import ExtentsModel.
Import ListNotations.
Open Scope Z_scope.

(** Block b lies in extent e. *)
Definition in_ext (b : Z) (e : ext) : Prop := fst e <= b < fst e + snd e.

(** No block lies in both. *)
Definition disjoint (a b : ext) : Prop := forall x, ~ (in_ext x a /\ in_ext x b).

(** Extents at different positions of the list share no block. *)
Definition pairwise_disjoint (l : list ext) : Prop :=
  forall i j a b, i <> j -> nth_error l i = Some a -> nth_error l j = Some b -> disjoint a b.

(** No get_extent/free_extent call is in progress. *)
Definition all_idle (s : est) : Prop := forall pc, In pc (e_thr s) -> pc = EIdle.

(** No two free extents touch. *)
Definition coalesced (l : list ext) : Prop :=
  forall a b, In a l -> In b l -> fst a + snd a <> fst b.
