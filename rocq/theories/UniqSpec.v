(** Which rows of a unique key are live, and to whom. *)
From Coq Require Import ZArith List Bool Lia.
From Verif Require Import Base UniqModel.
Import ListNotations.
Open Scope Z_scope.

Definition reachable (lockno : Z -> Z) (s : state) : Prop := exists ops, s = run (step lockno) init ops.

(** The newest version of a row's entry, among those that satisfy [see], is
    there and is not a deletion. *)
Definition live (see : ver -> bool) (h : list ver) (r : Z) : Prop :=
  exists a v b, h = a ++ v :: b /\ v_row v = r /\ see v = true /\ v_del v = false /\
    forall w, In w a -> v_row w = r -> see w = false.

(** A transaction sees its own versions and those of committed transactions. *)
Definition seen_by (st : Z -> status) (x : Z) (v : ver) : bool :=
  (v_by v =? x) || match st (v_by v) with Done _ => true | _ => false end.
(** A snapshot sees the versions of transactions committed before it. *)
Definition seen_at (st : Z -> status) (n : Z) (v : ver) : bool :=
  match st (v_by v) with Done c => c <? n | _ => false end.
