(** What a user can say about an index created concurrently. *)
From Coq Require Import ZArith List Bool Lia.
From Verif Require Import Base CicModel.
Import ListNotations.
Open Scope Z_scope.

(** The index holds exactly the entries implied by the table. *)
Definition exact (table : Z -> option Z) (index : Z -> Z -> bool) : Prop :=
  forall k pk, index k pk = true <-> table pk = Some k.
(** The index holds at least those. *)
Definition covers (table : Z -> option Z) (index : Z -> Z -> bool) : Prop :=
  forall k pk, table pk = Some k -> index k pk = true.

(** A directory listing: each spool file once, none missing. *)
Definition listing (s : st) (dir : list Z) : Prop :=
  NoDup dir /\ forall p, s_spool s p <> [] -> In p dir.

(** No indexed column was updated while the index was being built. *)
Definition no_key_update (o : op) : Prop := match o with OUpdate _ _ _ => False | _ => True end.

(** At most one backend has captured anything. *)
Definition one_writer (s : st) : Prop :=
  forall p q, s_spool s p <> [] -> s_spool s q <> [] -> p = q.

(** Two rows collide in a unique index. *)
Definition same_key (nnd : bool) (a b : list (option Z)) : Prop :=
  a = b /\ (nnd = false -> Forall (fun x => x <> None) a).
Definition has_duplicate (nnd : bool) (l : list (list (option Z))) : Prop :=
  exists l1 a l2 b l3, l = l1 ++ a :: l2 ++ b :: l3 /\ same_key nnd a b.

(** Key order, NULLs last. *)
Fixpoint key_le (a b : list (option Z)) : Prop :=
  match a, b with
  | [], _ => True
  | _ :: _, [] => False
  | x :: a', y :: b' =>
      match x, y with
      | Some u, Some v => u < v \/ (u = v /\ key_le a' b')
      | Some _, None => True
      | None, Some _ => False
      | None, None => key_le a' b'
      end
  end.
Fixpoint in_key_order (l : list (list (option Z))) : Prop :=
  match l with
  | a :: ((b :: _) as r) => key_le a b /\ in_key_order r
  | _ => True
  end.

(** Replay order: two captured changes of one index entry come out in the
    order they were made. *)
Definition kept_in_order (l : list entry) : Prop :=
  forall l1 x l2 y l3, l = l1 ++ x :: l2 ++ y :: l3 -> e_ent x = e_ent y -> e_id x < e_id y.

(** All changes captured so far. *)
Definition captured (s : st) (dir : list Z) : list entry := concat (map (s_spool s) dir).
