(** C12: undo needed by a transaction or a snapshot is retained. *)
From Coq Require Import ZArith List Bool Lia.
From Coq Require Import ZifyBool.
From Verif Require Import Base UndoRetModel UndoRetSpec UndoRetProofs.
Import ListNotations.
Open Scope Z_scope.

(** Full property, for every schedule of any number of processes:
      the undo record of an unfinished transaction is never declared
      reclaimable, and neither is one a held snapshot may need.
    It is proved for the schedules in which no transaction that handed an undo
    record to a waiting backend (group insert) ends within the recomputation of
    the minima during which it handed the record over ([haz] stays empty), and
    refuted without that condition below. *)
Theorem C12_unfinished_undo_retained_partial : forall n l ops r,
  0 <= n ->
  let s := run (step n) (init n l) ops in
  haz s = [] ->
  In r (recs s) -> unfinished s r ->
  rec_exists s (rloc r) = true /\ minS s <= rloc r.
Proof.
  intros n l ops r Hn s Hz Hr Hu. pose proof (reach_ok n l ops Hn Hz) as H.
  destruct (i_rec _ _ H r Hr) as [K|(q & v & K1 & K2 & K3 & K4 & K5)]; [contradiction|].
  destruct (i_est _ _ H q v K1 K5 K3). assert (minS s <= rloc r) by (unfold s; lia).
  split; auto. unfold rec_exists. lia.
Qed.

Theorem C12_snapshot_undo_retained_partial : forall n l ops p h r,
  0 <= n ->
  let s := run (step n) (init n l) ops in
  haz s = [] ->
  0 <= p < n -> In h (held s p) -> In r (recs s) -> needed_by h r ->
  rec_exists s (rloc r) = true /\ minS s <= rloc r.
Proof.
  intros n l ops p h r Hn s Hz Hp Hh Hr Hu. pose proof (reach_ok n l ops Hn Hz) as H.
  pose proof (i_need _ _ H p h r Hp Hh Hr Hu). destruct (i_held _ _ H p h Hp Hh) as (A & B & _).
  assert (minS s <= rloc r) by (unfold s; lia).
  split; auto. unfold rec_exists. lia.
Qed.

(** A record being filled in lies at or above the frontier below which the
    checkpointer and the eviction trust the dirty bits. *)
Theorem C12_writer_above_reserved_minimum_partial : forall n l ops p x,
  0 <= n ->
  let s := run (step n) (init n l) ops in
  haz s = [] -> 0 <= p < n -> writing s p x ->
  minR s <= x /\ minS s <= x.
Proof.
  intros n l ops p x Hn s Hz Hp (t & E). pose proof (reach_ok n l ops Hn Hz) as H.
  pose proof (i_pc _ _ H p Hp) as K. unfold pcok in K. fold s in K. rewrite E in K.
  destruct K as (lu & v & K1 & K2 & K3 & K4 & K5 & K6 & K7 & _).
  destruct (i_est _ _ H p v Hp) as [A B]; auto. { fold s. rewrite E. reflexivity. }
  fold s in A, B. split; lia.
Qed.

(** Without group inserts nothing else is needed. *)
Definition groupless (o : op) : Prop := match o with Alloc _ _ _ (Some _) => False | _ => True end.

Definition Quiet (s : st) : Prop := haz s = [] /\ (forall p, hand s p = false) /\ (forall p l t, pc s p = Have l t -> t = None).

Lemma quiet_step : forall n s o, groupless o -> Quiet s -> Quiet (step n s o).
Proof.
  assert (Q : forall s p c, Quiet s -> (forall l t, c = Have l t -> t = None) -> forall q l t, upd (pc s) p c q = Have l t -> t = None).
  { intros s p c (_ & _ & C) Hc q l t. destruct (Z.eq_dec q p) as [->|N]; [rewrite upd_same; apply Hc|rewrite upd_other by auto; apply C]. }
  intros n s o G H. pose proof H as (A & B & C).
  destruct o as [p|p|p k z t|p|p|p|p|p|p i|p i|p| | |a b]; cbn in *; try destruct (inr n p); auto.
  - unfold r_begin. destruct (pc s p); auto. repeat split; cbn; auto. apply Q; auto; discriminate.
  - unfold r_step. destruct (pc s p); auto;
      repeat (match goal with |- context [if ?x then _ else _] => destruct x end); auto;
      repeat split; cbn; auto; apply Q; auto; discriminate.
  - unfold alloc. destruct (pc s p); auto. destruct ((0 <=? k) && (0 <? z)); auto. destruct t; [contradiction|].
    repeat split; cbn; auto. apply Q; auto. congruence.
  - unfold link. destruct (pc s p) eqn:E; auto. destruct t; [specialize (C _ _ _ E); discriminate|].
    repeat split; cbn; auto. apply Q; auto; discriminate.
  - unfold release. destruct (pc s p); auto. repeat split; cbn; auto. apply Q; auto; discriminate.
  - unfold finish. destruct (pc s p); auto. repeat split; cbn; auto. rewrite B. auto.
  - unfold wait. destruct (pc s p); auto; repeat split; cbn; auto; apply Q; auto; discriminate.
  - unfold s_begin. destruct (pc s p); auto; repeat split; cbn; auto; apply Q; auto; discriminate.
  - unfold s_step. destruct (pc s p); auto; try destruct (snp s p);
      repeat (match goal with |- context [if ?x then _ else _] => destruct x end); auto;
      repeat split; cbn; auto; apply Q; auto; discriminate.
  - unfold reset. destruct (pc s p); auto. destruct (hmin (held s p)); [destruct (snp s p); auto; destruct (_ <? _); auto|]; repeat split; auto.
  - unfold u_begin. destruct (sc s); auto. repeat split; auto.
  - unfold u_step. destruct (sc s); auto;
      repeat (match goal with |- context [if ?x then _ else _] => destruct x end); repeat split; auto.
Qed.

Lemma groupless_quiet : forall n l ops, Forall groupless ops -> haz (run (step n) (init n l) ops) = [].
Proof.
  intros n l ops F. assert (X : forall ops s, Forall groupless ops -> Quiet s -> Quiet (run (step n) s ops)).
  { clear. induction ops as [|o ops IH]; intros s F Q; [exact Q|]. inv F. apply IH; auto. apply quiet_step; auto. }
  apply (X ops (init n l) F). repeat split; cbn; auto; discriminate.
Qed.

Theorem C12_undo_retained_no_group_insert : forall n l ops,
  0 <= n -> Forall groupless ops ->
  let s := run (step n) (init n l) ops in
  (forall r, In r (recs s) -> unfinished s r -> rec_exists s (rloc r) = true) /\
  (forall p h r, 0 <= p < n -> In h (held s p) -> In r (recs s) -> needed_by h r -> rec_exists s (rloc r) = true).
Proof.
  intros n l ops Hn F s. pose proof (groupless_quiet n l ops F) as Hz. split.
  - intros r Hr Hu. apply (C12_unfinished_undo_retained_partial n l ops r Hn Hz Hr Hu).
  - intros p h r Hp Hh Hr Hu. apply (C12_snapshot_undo_retained_partial n l ops p h r Hn Hz Hp Hh Hr Hu).
Qed.

(** What was once reclaimable stays so: the horizon only moves forward. *)
Theorem C12_horizon_monotone : forall n l pre post,
  minS (run (step n) (init n l) pre) <= minS (run (step n) (init n l) (pre ++ post)).
Proof.
  intros n l pre post. rewrite run_app.
  assert (M : Mono (run (step n) (init n l) pre)).
  { apply (run_inv _ _ (step n) Mono); [intros s o M; apply (mono_ok n s o M)|exact Logic.I]. }
  revert M. generalize (run (step n) (init n l) pre). induction post as [|o post IH]; intros s M; cbn; [lia|].
  destruct (mono_ok n s o M) as (M' & A & _). specialize (IH _ M'). unfold run in *. lia.
Qed.

(** The condition of the partial theorems cannot be dropped: process 1 inserts
    for the waiting process 0 and commits while a recomputation that had already
    passed process 0 is under way.  Process 0's undo record is then reclaimable
    although its transaction is still running. *)
Definition hand_over : list op :=
  [RBegin 1] ++ repeat (RStep 1) 6 ++ [Wait 0; Alloc 1 0 8 (Some 0); UBegin; UStep; UStep; UStep; UStep;
   Link 1; Release 1; Finish 1] ++ repeat UStep 8.
Theorem C12_unfinished_undo_retained_refuted :
  let s := run (step 2) (init 2 100) hand_over in
  exists r, In r (recs s) /\ unfinished s r /\ rec_exists s (rloc r) = false.
Proof.
  exists (mkR 100 0). split; [vm_compute; auto|]. split; [|vm_compute; reflexivity].
  unfold unfinished. vm_compute. intuition discriminate.
Qed.

(** Same schedule, but the inserting transaction ends after the recomputation:
    the record is retained. *)
Example C12_hand_over_ok :
  let s := run (step 2) (init 2 100) ([RBegin 1] ++ repeat (RStep 1) 6 ++ [Wait 0; Alloc 1 0 8 (Some 0); UBegin; UStep; UStep; UStep; UStep;
   Link 1; Release 1] ++ repeat UStep 8 ++ [Finish 1; UBegin] ++ repeat UStep 15) in
  haz s = [] /\ recs s = [mkR 100 0] /\ fin s = [1] /\ minS s = 100 /\ lastu s = 108.
Proof. vm_compute. repeat split. Qed.

(** A writer, a reader that takes its snapshot before the writer finishes, and
    recomputations around both: the record stays while the snapshot is held and
    is given up after it. *)
Definition story : list op :=
  [RBegin 0] ++ repeat (RStep 0) 6 ++ [Alloc 0 0 16 None; Link 0; Release 0; SBegin 1; SStep 1 7; SStep 1 7; SStep 1 7; SStep 1 7;
   Finish 0; UBegin] ++ repeat UStep 15.
Example C12_story :
  let s := run (step 2) (init 2 50) story in
  haz s = [] /\ Forall groupless story /\ recs s = [mkR 50 0] /\ fin s = [0] /\
  held s 1 = [mkH 7 50 []] /\ needed_by (mkH 7 50 []) (mkR 50 0) /\ minS s = 50 /\ minT s = 66 /\ lastu s = 66 /\
  let s' := run (step 2) s ([Drop 1 7; Reset 1; UBegin] ++ repeat UStep 15) in minS s' = 66.
Proof.
  split; [vm_compute; reflexivity|]. split; [repeat constructor|].
  vm_compute. repeat split; intros [].
Qed.

Example C12_writing :
  let s := run (step 2) (init 2 50) ([RBegin 0] ++ repeat (RStep 0) 6 ++ [Alloc 0 0 16 None; UBegin] ++ repeat UStep 15) in
  writing s 0 50 /\ minR s = 50 /\ lastu s = 66.
Proof. split; [exists None|]; vm_compute; auto. Qed.

Print Assumptions C12_unfinished_undo_retained_partial.
Print Assumptions C12_snapshot_undo_retained_partial.
Print Assumptions C12_undo_retained_no_group_insert.
Print Assumptions C12_unfinished_undo_retained_refuted.
