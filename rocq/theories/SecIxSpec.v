(** What an index should hold. *)
From Coq Require Import ZArith List Bool Lia Permutation.
From Verif Require Import Base SecIxModel.
Import ListNotations.
Open Scope Z_scope.

Definition reachable (c : config) (s : state) : Prop := exists ops, s = run (step c) (init c) ops.

(** The columns stored in an index: its own, then those of the primary key that
    are not among them. *)
Definition stored (c : config) (d : ixdef) : list Z := d_cols d ++ filter (fun p => negb (memz p (d_cols d))) (c_pk c).

(** One entry for each row that satisfies the predicate, with that row's
    values, and nothing else. *)
Definition agrees (c : config) (d : ixdef) (rows : list row) (ix : list entry) : Prop :=
  Permutation ix (map (fun r => map r (stored c d)) (filter (d_pred d) rows)).

(** Two rows have equal values, as their comparison functions see it, in the
    given columns. *)
Definition rows_equal_on (c : config) (cols : list Z) (a b : row) : Prop :=
  forall x, In x cols -> veq (c_canon c x) (a x) (b x) = true.

Definition no_repeats (c : config) : Prop := NoDup (c_pk c) /\ forall d, In d (c_ix c) -> NoDup (d_cols d).
