(** What the page latch promises (properties C22 and C23), in terms of where each backend
    stands. *)
From Coq Require Import ZArith List Bool.
From Verif Require Import Base LatchModel.
Import ListNotations.
Open Scope Z_scope.

(** [p] holds the write latch: between the atomic instruction that takes it and the one
    that releases it. *)
Definition holds (s : state) (p : Z) : Prop :=
  match pcs s p with Held _ | UTry _ _ _ | UHave _ _ _ _ _ _ _ _ | UCas _ _ _ _ _ _ _ => True | _ => False end.
(** [p] is blocked in the kernel: it waits on its semaphore and the semaphore is zero. *)
Definition asleep (s : state) (p : Z) : Prop :=
  match pcs s p with LWait _ _ | CWait _ _ | QWait _ _ => sem s p = O | _ => False end.
(** Nobody can make a step on its own: each backend is outside the latch code or asleep. *)
Definition stuck (s : state) : Prop := forall p, pcs s p = Idle \/ asleep s p.
Definition wants_latch (s : state) (p : Z) : Prop := match pcs s p with LWait _ _ => True | _ => False end.
Definition wants_read (s : state) (p : Z) : Prop := match pcs s p with QWait _ _ => True | _ => False end.
(** [p] sleeps in relock_page until the page changes; [c] is the change count it remembers. *)
Definition wants_change (s : state) (p c : Z) : Prop := match pcs s p with CWait w0 _ => c = wc w0 | _ => False end.

(** A validated copy agrees with one published content of the page: word by word with
    what some holder left when it released the latch. *)
Definition copy_of (img : Z -> option Z) (content : Z -> Z) : Prop := forall i x, img i = Some x -> x = content i.

(** Nobody uses lock_page_with_tuple or relock_page. *)
Definition basic (o : op) : Prop := match o with OLock _ KIns | OUnlock _ _ true => False | _ => True end.
(** No semaphore post of [p] is missing: with [p] outside the latch code, its semaphore holds what
    others posted and [p] has not consumed, less the posts that are still to come from
    backends that have already marked it awake. *)
Definition posts_kept (s : state) (p : Z) : Prop :=
  pcs s p = Idle -> Z.of_nat (sem s p) + Z.of_nat (length (owe s p)) = fp s p.
