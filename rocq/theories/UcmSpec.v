(** What the page-usage map promises (property C32). *)
From Coq Require Import ZArith List Bool.
From Verif Require Import Base UcmModel.
Import ListNotations.
Open Scope Z_scope.

(** Number of elements of [l] that satisfy [f]. *)
Definition count {A} (f : A -> bool) (l : list A) : Z := Z.of_nat (length (filter f l)).

(** The log (newest first) never hands out a page again unless it was returned. *)
Definition one_owner (l : list ev) : Prop :=
  forall a p q b m c, l = a ++ Got p b :: m ++ Got q b :: c -> exists r, In (Rel r b) m.

(** Page [b] lies below word [i]. *)
Inductive below (g : geom) (b : Z) : Z -> Prop :=
| below_leaf : below g b (leaf_of g b)
| below_up : forall i, below g b i -> BF <= i -> below g b (parent i).

(** All updates are done: nobody is inside ucm_inc. *)
Definition quiet (s : st) : Prop := pends s = [].

(** Each counter equals what it summarises. *)
Definition counters_exact (g : geom) (s : st) : Prop :=
  forall i l, 0 <= i < g_total g -> 0 <= l <= FREE ->
  nib (word s i) l =
    if i <? g_nonLeaf g
    then count (fun j => negb (nib (word s j) l =? 0)) (range ((i + 1) * BF) (Z.min ((i + 2) * BF) (g_total g)))
    else count (fun b => lev s b =? l) (range ((i - g_nonLeaf g) * BF) (Z.min ((i - g_nonLeaf g + 1) * BF) (g_size g))).

(** A counter is positive exactly when a page of that level lies below the word. *)
Definition summary_exact (g : geom) (s : st) : Prop :=
  forall i l, 0 <= i < g_total g -> 0 <= l <= FREE ->
  (0 < nib (word s i) l <-> exists b, 0 <= b < g_size g /\ below g b i /\ lev s b = l).

(** Process [p] has taken a page from its reservation and now looks for a free one. *)
Definition allocating (s : st) (p : Z) : Prop := alloc s p = 1.
