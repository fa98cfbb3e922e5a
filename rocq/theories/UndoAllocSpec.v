(** What undo space management promises (property C14). *)
From Coq Require Import ZArith List Bool.
From Verif Require Import Base UndoAllocModel.
Import ListNotations.
Open Scope Z_scope.

(** Two byte ranges share no byte. *)
Definition disjoint (a b : Z * Z) : Prop := fst a + snd a <= fst b \/ fst b + snd b <= fst a.

(** Every two records of the list, at different positions, are disjoint. *)
Definition pairwise_disjoint (l : list (Z * Z)) : Prop :=
  forall i j a b, i <> j -> nth_error l i = Some a -> nth_error l j = Some b -> disjoint a b.

(** The record occupies consecutive cells of the ring of [C] bytes. *)
Definition ring_contiguous (C : Z) (a : Z * Z) : Prop := fst a mod C + snd a <= C.

(** No two different bytes of the log that are both still only in memory (not
    below the written frontier) share a cell of the ring. *)
Definition ring_exclusive (C : Z) (s : st) : Prop :=
  forall x y, wr s <= x -> x < y -> y < lastu s -> x mod C <> y mod C.
