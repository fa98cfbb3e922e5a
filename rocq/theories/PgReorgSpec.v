(** C18: what writing a page anew means. *)
From Coq Require Import ZArith List Bool.
From Verif Require Import Base PgChunkModel PgChunkSpec PgReorgModel.
Import ListNotations.
Open Scope Z_scope.

(** The groups end with [hk], and every earlier group has the key of the item that
    follows it. *)
Fixpoint keyed (mk : item -> item) (hk : item) (l : list group) : Prop :=
  match l with
  | [] => False
  | (_, k) :: t => match t with
                   | [] => k = hk
                   | (x :: _, _) :: _ => k = mk x /\ keyed mk hk t
                   | ([], _) :: _ => False
                   end
  end.

(** The items of the page itself come in the order in which they lie there and do
    not overlap. *)
Fixpoint in_order (a : Z) (l : list ritem) : bool :=
  match l with
  | [] => true
  | (_, Pg s n) :: t => (a <=? s) && in_order (s + 2 * Z.of_nat n) t
  | (_, Ext _) :: t => in_order a t
  end.

Definition good (x : item) : bool := flag01 (fst x) && even8 (snd x).

(** Items, keys and the high key are aligned, the flag is 0 or 1. *)
Definition given (mk : item -> item) (p : page) (its : list ritem) (hk : item) : Prop :=
  in_order 0 its = true /\ Forall (fun r => good (rread (pg_m p) r) = true) its /\
  (forall x, good (mk x) = true) /\ (pg_right p = true \/ good hk = true).

(** The high key of a rightmost page is empty. *)
Definition high (p : page) (hk : item) : item := if pg_right p then (0, []) else hk.
