(** Property C14: undo space is handed out without overlap. *)
From Coq Require Import ZArith List Bool Lia.
From Verif Require Import Base UndoAllocModel UndoAllocSpec UndoAllocProofs.
Import ListNotations.
Open Scope Z_scope.

(** For every schedule of reservations, evictions, background writes, releases and
    group inserts by any number of processes, two allocated records never overlap. *)
Theorem C14_records_disjoint : forall C n l ops, 0 < C ->
  pairwise_disjoint (recs (run (step C n) (init l) ops)).
Proof. intros. apply (a_dis C n). apply reach_ok; auto. Qed.

(** Every record is contiguous in the ring. *)
Theorem C14_record_contiguous : forall C n l ops a, 0 < C ->
  In a (recs (run (step C n) (init l) ops)) -> 0 < snd a /\ ring_contiguous C a.
Proof.
  intros C n l ops [x z] HC Hin. destruct (a_rec C n _ (reach_ok C n l ops HC) x z Hin) as (A & _ & B). split; auto.
Qed.

Lemma csum_nonneg : forall f n, (forall q, 0 <= f q) -> 0 <= csum f n.
Proof. intros f n Q. induction n as [|k IH]; cbn; [lia|]. specialize (Q (Z.of_nat k)). lia. Qed.

(** No two bytes that exist only in memory share a cell of the ring: no record overwrites
    another that has not been written out. *)
Theorem C14_ring_exclusive : forall C n l ops, 0 < C -> ring_exclusive C (run (step C n) (init l) ops).
Proof.
  intros C n l ops HC. pose proof (reach_ok C n l ops HC) as H. set (s := run (step C n) (init l) ops) in *.
  intros x y Hx Hxy Hy E.
  pose proof (a_G _ _ _ H) as G. assert (P : 0 <= csum (conf s) n) by (apply csum_nonneg; apply (a_conf _ _ _ H)).
  assert ((y - x) mod C = 0) by (rewrite Zminus_mod, E, Z.sub_diag; apply Z.mod_0_l; lia).
  rewrite Z.mod_small in H0 by lia. lia.
Qed.

(** ... nor share a cell with space that a process has reserved: a process whose
    reservation succeeded can use all of it without waiting. *)
Theorem C14_reservation_honoured : forall C n l ops p, 0 < C -> 0 <= p < Z.of_nat n ->
  let s := run (step C n) (init l) ops in 0 <= conf s p /\ lastu s + conf s p <= wr s + C.
Proof.
  intros C n l ops p HC Hp s. pose proof (reach_ok C n l ops HC) as H. fold s in H.
  pose proof (a_G _ _ _ H). pose proof (csum_ge (conf s) n p (a_conf _ _ _ H) Hp). pose proof (a_conf _ _ _ H p). lia.
Qed.

(** The PANIC "not enough undo space" is raised only for callers that had reserved
    less than twice the record's size. *)
Theorem C14_no_panic : forall C n l ops c z, 0 < C ->
  In (c, z) (panic (run (step C n) (init l) ops)) -> c < 2 * z.
Proof. intros C n l ops c z HC. apply (a_pan C n). apply reach_ok; auto. Qed.

(** An allocation skips the end of the ring at most once. *)
Theorem C14_one_retry : forall C n l ops p z, 0 < C ->
  let s := run (step C n) (init l) ops in pc s p = Pinned z -> tries s p <= 1.
Proof.
  intros C n l ops p z HC s E. pose proof (a_pin _ _ _ (reach_ok C n l ops HC) p) as Q. fold s in Q. rewrite E in Q.
  destruct Q as (_ & r & _ & _ & [Q|[Q _]]); lia.
Qed.

(** The assertions on the written frontier of reserve_undo_size_extended and
    evict_undo_to_disk never fail. *)
Theorem C14_assertions_hold : forall C n l ops, 0 < C -> asrt (run (step C n) (init l) ops) = true.
Proof. intros. apply (a_asrt C n). apply reach_ok; auto. Qed.

(** Undo that a process may still be filling is not written out, nor overwritten. *)
Theorem C14_filling_not_evicted : forall C n l ops p r, 0 < C ->
  let s := run (step C n) (init l) ops in res s p = Some r -> wr s <= r /\ wip s <= r.
Proof. intros C n l ops p r HC s E. destruct (a_res _ _ _ (reach_ok C n l ops HC) p r E) as (A & B & D & _). auto. Qed.

(** The space set aside is accounted for exactly: when no reservation is in
    progress, the advance location is the end of the log plus what processes hold. *)
Fixpoint total (f : Z -> Z) (n : nat) : Z := match n with O => 0 | Datatypes.S k => total f k + f (Z.of_nat k) end.
Theorem C14_accounting : forall C n l ops, 0 < C ->
  let s := run (step C n) (init l) ops in (forall p, pc s p = Idle) -> adv s = lastu s + total (conf s) n.
Proof.
  intros C n l ops HC s Hi. pose proof (reach_ok C n l ops HC) as H. fold s in H.
  rewrite (a_adv _ _ _ H). assert (E : pnd s = []).
  { destruct (pnd s) as [|x r] eqn:E; auto. destruct (a_in _ _ _ H x ltac:(rewrite E; left; auto)) as [_ B].
    unfold pend_ok in B. rewrite Hi in B. contradiction. }
  rewrite E. cbn. assert (forall f k, csum f k = total f k) by (intros f k; induction k; cbn; lia). rewrite H0. lia.
Qed.

(** Non-vacuity: a ring of 100 bytes.  Process 0 fills 90 bytes, process 1's
    reservation of 40 must evict; its record of 20 skips the end of the ring. *)
Definition ex_ops : list op :=
  [Reserve 0 90 true; RStep 0; Pin 0 45; Alloc 0; Unpin 0; Pin 0 45; Alloc 0; Unpin 0;
   Reserve 1 40 true; RStep 1; Update 90 10; RStep 1; RStep 1; RStep 1; EStep 1 90 10; EStep 1 90 10; EStep 1 90 10;
   Pin 1 20; Alloc 1; Alloc 1].
Example ex_ok : recs (run (step 100 2) (init 0) ex_ops) = [(110, 20); (45, 45); (0, 45)] /\
  wr (run (step 100 2) (init 0) ex_ops) = 30 /\ pc (run (step 100 2) (init 0) ex_ops) 1 = Filling 110 20.
Proof. vm_compute. auto. Qed.
(** With exactly the record's size reserved the PANIC can be reached. *)
Example ex_panic : panic (run (step 100 1) (init 90) [Reserve 0 20 true; RStep 0; Pin 0 20; Alloc 0; Alloc 0]) = [(20, 20)].
Proof. reflexivity. Qed.
(** A reservation that does not fit and may not wait is given back. *)
Example ex_giveback :
  adv (run (step 100 1) (init 0) [Reserve 0 150 false; RStep 0; RStep 0]) = 0.
Proof. reflexivity. Qed.

Print Assumptions C14_records_disjoint.
Print Assumptions C14_record_contiguous.
Print Assumptions C14_ring_exclusive.
Print Assumptions C14_reservation_honoured.
Print Assumptions C14_no_panic.
Print Assumptions C14_one_retry.
Print Assumptions C14_assertions_hold.
Print Assumptions C14_filling_not_evicted.
Print Assumptions C14_accounting.
