(** What the flush of the status map promises, in terms of recordings and of
    what is on disk.  Independent of how the ring and the cache work. *)
From Coq Require Import ZArith List Bool.
From Verif Require Import Base XidFlushModel.
Import ListNotations.
Open Scope Z_scope.

(** The call has done its work and is about to return. *)
Definition returning (s : st) : Prop := fl s = FDone.

(** [cand s x] lists the statuses of x that had not been superseded when the call
    began: the last completed recording, one in progress, and later ones.  The
    durable copy is one of those.  In particular, if x was not being recorded
    during the call, it is exactly the last recorded status. *)
Definition durable_ok (s : st) (x : Z) : Prop := cand s x <> [] -> In (dur s x) (cand s x).

(** What a lookup finds for x: the ring above the drain frontier, otherwise the
    block cache or the file. *)
Definition found (S N : Z) (s : st) (x : Z) : Z :=
  if I s <=? x then ring s (slot S N x) else page_of s (x / S) x.
