(** What a user can say about a bulk-built tree. *)
From Coq Require Import ZArith List Bool Lia Sorted.
From Verif Require Import Base BuildModel.
Import ListNotations.
Open Scope Z_scope.

(** The tuples below an item, left to right. *)
Fixpoint flat (i : item) : list tup :=
  match i with ILeaf t => [t] | IDown _ _ its => flat_map flat its end.
Definition contents (its : list item) : list tup := flat_map flat its.

(** Streams an index build accepts: strictly ascending keys, and lengths
    within the limit checked when the tuple is formed. *)
Definition ascending (ts : list tup) : Prop := StronglySorted Z.lt (map t_key ts).
Definition legal (t : tup) : Prop := 0 < t_klen t <= MAXTUP /\ 0 < t_len t <= MAXTUP.

Definition inside (lo hi : option Z) (k : Z) : Prop :=
  (forall l, lo = Some l -> l <= k) /\ (forall h, hi = Some h -> k < h).

(** [routed l first lo hi its]: its are the items of a page of level [l] (or
    the rest of its items when [first] is false) for the keys from [lo] up to,
    not including, [hi]: on a leaf, tuples in order within the range; above,
    downlinks that divide the range at their keys, the first one having no
    key, each page's high key being the end of its part. *)
Inductive routed : nat -> bool -> option Z -> option Z -> list item -> Prop :=
| routed_leaf : forall b lo hi ts, ascending ts -> Forall (fun t => inside lo hi (t_key t)) ts -> routed O b lo hi (map ILeaf ts)
| routed_last : forall l (b : bool) lo hi k hk its,
    (if b then k = None else option_map fst k = lo /\ k <> None) -> option_map fst hk = hi ->
    routed l true lo hi its -> routed (S l) b lo hi [IDown k hk its]
| routed_more : forall l (b : bool) lo m hi k hk its rest,
    (if b then k = None else option_map fst k = lo /\ k <> None) -> option_map fst hk = Some m ->
    routed l true lo (Some m) its -> routed (S l) false (Some m) hi rest ->
    routed (S l) b lo hi (IDown k hk its :: rest).

(** Every page below fits a block: header and high key area, item array, items. *)
Inductive sized : nat -> item -> Prop :=
| sized_leaf : forall t, sized O (ILeaf t)
| sized_down : forall l k hk its, reorg_size l hk its <= BLCKSZ -> Forall (sized l) its -> sized (S l) (IDown k hk its).
Definition page_sized (l : nat) (its : list item) : Prop := reorg_size l None its <= BLCKSZ /\ Forall (sized l) its.

(** The closing loop did not split the top page. *)
Definition top_page_kept (f : Z) (ts : list tup) : Prop :=
  forall st st', put_all f [mkLev [] None] ts = Some st -> close_all f st = Some st' -> length st' = 1%nat.
