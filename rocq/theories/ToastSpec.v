(** Vocabulary for property C38: which version of a row a reader holds. *)
From Coq Require Import List ZArith Bool Lia.
From Verif Require Import Base ToastModel.
Import ListNotations.
Open Scope Z_scope.

(** Transaction [tx] committed before snapshot [s]. *)
Definition committed_before (cs : Z -> option Z) (tx s : Z) : Prop :=
  exists n, cs tx = Some n /\ n < s.

(** Reader [rd] may hold version [r] out of the versions [l] (newest first)
    of a row.  A snapshot holds the newest version committed before it.  A
    transaction in progress may hold any of its own versions (a cursor opened
    earlier holds an older one). *)
Definition holds (cs : Z -> option Z) (rd : reader) (l : list rowver)
    (r : rowver) : Prop :=
  r_del r = false /\
  match rd with
  | RCsn s => exists l1 l2, l = l1 ++ r :: l2 /\
                committed_before cs (r_tx r) s /\
                forall r', In r' l1 -> ~ committed_before cs (r_tx r') s
  | ROwn tx w => In r l /\ r_tx r = tx /\ r_ver r = w /\ cs tx = None
  end.

(** The snapshot is not older than the oldest one in use. *)
Definition in_use (h : Z) (rd : reader) : Prop :=
  match rd with RCsn s => h <= s | ROwn _ _ => True end.

(** Images of a key which compare equal give pieces of the same size. *)
Definition same_pieces (msize : Z -> Z -> nat) : Prop :=
  forall p x y, msize p x = msize p y.

(** No chunk with a number at or after [n] of this value is returned. *)
Definition nothing_after (cs : Z -> option Z) (rd : reader) (p a n : Z)
    (t : tree) : Prop :=
  forall i c, n <= i -> In ((p, a, i), c) t -> seen cs rd c = None.
