(** What a key bitmap is: a set of keys (property C42). *)
From Coq Require Import ZArith List Bool Sorted.
From Verif Require Import Base PkEncSpec KeyBmModel.
Import ListNotations.
Open Scope Z_scope.

(** The sets a sequence of calls should produce. *)
Definition sets := Z -> Z -> Prop.
Definition sstep (s : sets) (o : op) : sets :=
  match o with
  | Create i => fun k x => if k =? i then False else s k x
  | Insert i v | Emit i v => fun k x => if k =? i then x = v \/ s i x else s k x
  | Union i j => fun k x => if k =? i then s i x \/ s j x else s k x
  | Intersect i j => fun k x => if k =? i then s i x /\ s j x else s k x
  | Range _ _ _ | Next _ _ => s
  end.
Definition members (ops : list op) : sets := run sstep (fun _ _ => False) ops.
(** Keys are 64-bit unsigned numbers. *)
Definition u64ok (v : Z) : Prop := 0 <= v < 2 ^ 64.
Definition okop (o : op) : Prop :=
  match o with Insert _ v | Emit _ v => u64ok v | Range _ a b => u64ok a /\ u64ok b | Next _ p => u64ok p | _ => True end.

Definition fsets := Z -> list Z -> Prop.
Definition fsstep (s : fsets) (o : fop) : fsets :=
  match o with
  | FCreate i => fun k x => if k =? i then False else s k x
  | FInsert i v | FEmit i v => fun k x => if k =? i then x = v \/ s i x else s k x
  | FUnion i j => fun k x => if k =? i then s i x \/ s j x else s k x
  | FIntersect i j => fun k x => if k =? i then s i x /\ s j x else s k x
  | FRange _ _ _ | FNext _ _ => s
  end.
Definition fmembers (ops : list fop) : fsets := run fsstep (fun _ _ => False) ops.

(** [r] is the least element of the set at or after [p]. *)
Definition least (P : Z -> Prop) (p : Z) (r : option Z) : Prop :=
  match r with Some x => P x /\ p <= x /\ (forall y, P y -> p <= y -> x <= y) | None => forall y, P y -> ~ p <= y end.
Definition fleast (P : list Z -> Prop) (p : list Z) (r : option (list Z)) : Prop :=
  match r with
  | Some x => P x /\ memcmp p x <> Gt /\ (forall y, P y -> memcmp p y <> Gt -> memcmp x y <> Gt)
  | None => forall y, P y -> memcmp p y = Gt
  end.
(** Walking a set: each step asks for the least member after the previous one. *)
Fixpoint walk (n : nat) (b : bm) (pos : option Z) : list Z :=
  match n with
  | O => []
  | S n => match scan_next b pos false with (_, None) => [] | (b', Some x) => x :: walk n b' (Some x) end
  end.
