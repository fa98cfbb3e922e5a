(** C34: replaying the log after a crash at any point gives the contents of exactly
    the transactions whose commit was in the log. *)
From Coq Require Import ZArith List Bool Lia.
From Verif Require Import Base RecSpec RecModel RecLemmas RecProofs.
Import ListNotations.
Open Scope Z_scope.

(** For every interleaving [ops] of clients, every durable prefix [p] of the log they
    produced, every initial database and every order in which recovery meets the
    unfinished transactions: replay does not block, and afterwards each row reads as if
    the transactions whose commit lies in [p], and only those, had run one after the
    other in commit order.
    Missing: the savepoint patterns counted by [e_hz] (rolling back a savepoint whose
    inner savepoint was released, F22, or one older than the first logged savepoint, F1), and
    the window between the two halves of a subtransaction abort (F24). *)
Theorem C34_crash_recovery_partial : forall ops p q db0 ord k,
  e_log (erun ops) = p ++ q ->
  e_hz (erun ops) = false ->
  incl (r_known (replay (rinit db0) p)) ord ->
  r_stuck (replay (rinit db0) p) = false /\
  contents (recovery_finish (replay (rinit db0) p) ord) k =
  serial (durable p) (c_done (crun (e_hist (erun ops)))) db0 k.
Proof. intros. eapply recovery_correct; eauto. Qed.
Print Assumptions C34_crash_recovery_partial.

(** The same when recovery starts from a checkpoint taken at any point of the log
    at which no joint commit was pending.
    Missing besides: transactions that were unfinished at the checkpoint and take or
    roll back to a savepoint after it (F23). *)
Theorem C34_from_checkpoint_partial : forall ops l1 l2 q db0 ord k,
  e_log (erun ops) = l1 ++ l2 ++ q ->
  e_hz (erun ops) = false ->
  r_joint (replay (rinit db0) l1) = [] ->
  (forall x p, In (LSave x p) l2 \/ In (LRb x p) l2 -> r_undo (replay (rinit db0) l1) x = []) ->
  incl (r_known (replay (rinit db0) (l1 ++ l2))) ord ->
  contents (recovery_finish (replay (restart (replay (rinit db0) l1)) l2) ord) k =
  serial (durable (l1 ++ l2)) (c_done (crun (e_hist (erun ops)))) db0 k.
Proof.
  intros ops l1 l2 q db0 ord k EL HZ HJ Hsp HI. rewrite restart_correct.
  - rewrite app_assoc in EL. eapply recovery_correct; eauto.
  - auto.
  - intros x r Hr Hx. destruct r; try discriminate; cbn in Hx; apply Z.eqb_eq in Hx; subst;
      eapply Hsp; eauto.
Qed.
Print Assumptions C34_from_checkpoint_partial.

(** Nothing of an undurable transaction survives, everything of a durable one does:
    the two directions of the statement for a row only one transaction wrote. *)
Corollary C34_all_or_nothing_partial : forall ops p q db0 ord k x ws,
  e_log (erun ops) = p ++ q ->
  e_hz (erun ops) = false ->
  incl (r_known (replay (rinit db0) p)) ord ->
  In (x, ws) (c_done (crun (e_hist (erun ops)))) ->
  (forall y us, In (y, us) (c_done (crun (e_hist (erun ops)))) -> (y, us) <> (x, ws) -> last_write us k = None) ->
  NoDup (c_done (crun (e_hist (erun ops)))) ->
  contents (recovery_finish (replay (rinit db0) p) ord) k =
  if durable p x then apply_writes ws db0 k else db0 k.
Proof.
  intros ops p q db0 ord k x ws EL HZ HI Hin Hoth ND.
  destruct (recovery_correct ops p q db0 ord k HZ EL HI) as [_ ->].
  revert Hin Hoth ND. generalize (c_done (crun (e_hist (erun ops)))) as l. intros l.
  assert (A : forall l db, (forall t, In t l -> last_write (snd t) k = None) ->
              serial (durable p) l db k = db k).
  { induction l0 as [|t l0 IH]; intros db H; [reflexivity|]. unfold serial in *. cbn.
    rewrite IH by (intros; apply H; right; auto). destruct (durable p (fst t)); auto.
    unfold apply_writes. rewrite H by (left; auto). reflexivity. }
  intros Hin Hoth ND. apply in_split in Hin as (l1 & l2 & ->).
  replace (l1 ++ (x, ws) :: l2) with ((l1 ++ [(x, ws)]) ++ l2) by (rewrite <- app_assoc; reflexivity).
  rewrite serial_app, (A l2), serial_app.
  - assert (B : serial (durable p) l1 db0 k = db0 k).
    { apply A. intros [y us] Ht. apply (Hoth y us); [apply in_or_app; auto|]. intros E.
      apply NoDup_remove_2 in ND. apply ND. apply in_or_app. left. rewrite <- E. auto. }
    unfold serial at 1. cbn [fold_left fst snd]. destruct (durable p x); auto.
    unfold apply_writes. rewrite B. reflexivity.
  - intros [y us] Ht. apply (Hoth y us); [apply in_or_app; right; right; auto|]. intros E.
    apply NoDup_remove_2 in ND. apply ND. apply in_or_app. right. rewrite <- E. auto.
Qed.
Print Assumptions C34_all_or_nothing_partial.

(** A case: 1 commits after rolling back a savepoint, 2 aborts, 3 commits jointly with heap
    transaction 9, 4 is unfinished; the crash comes at any point. *)
Definition ex_ops : list eop :=
  [OWrite 1 10 (Some 1); OSave 1; OWrite 1 11 (Some 2); OWrite 2 12 (Some 3); OFlush 2; OBack 1;
   OWrite 3 11 (Some 4); OAbort 2; OWrite 4 12 None; OFlush 4; OCommit 1;
   OWrite 3 10 None; OJoint 3 9; OHeap 9 true; OWrite 5 10 (Some 5); OSave 5; OWrite 5 11 (Some 6);
   OSave 5; OWrite 5 13 (Some 7); OBack 5; ORelease 5; OCommit 5].
Definition ex_db (k : key) : option Z := if k =? 12 then Some 100 else None.
Definition ex_rec (n : nat) (k : key) :=
  let p := firstn n (e_log (erun ex_ops)) in
  contents (recovery_finish (replay (rinit ex_db) p) [1;2;3;4;5]) k.

Example C34_case : e_hz (erun ex_ops) = false /\
  map (ex_rec 0) [10;11;12;13] = [None; None; Some 100; None] /\
  map (ex_rec 8) [10;11;12;13] = [Some 1; None; Some 100; None] /\
  map (ex_rec 11) [10;11;12;13] = [Some 1; None; Some 100; None] /\
  map (ex_rec 12) [10;11;12;13] = [None; Some 4; Some 100; None] /\
  map (ex_rec (length (e_log (erun ex_ops)))) [10;11;12;13] = [Some 5; Some 6; Some 100; None].
Proof. vm_compute. repeat split; reflexivity. Qed.

Example C34_case_known :
  forall n, In n [0;8;11;12]%nat ->
  incl (r_known (replay (rinit ex_db) (firstn n (e_log (erun ex_ops))))) [1;2;3;4;5].
Proof.
  intros n H. repeat (destruct H as [<-|H]; [vm_compute; tauto|]). destruct H.
Qed.

(** A checkpoint in the middle, with transactions 1 and 4 unfinished. *)
Definition ex2_ops : list eop :=
  [OWrite 1 10 (Some 1); OFlush 1; OWrite 4 12 None; OFlush 4; OWrite 1 11 (Some 2);
   OCommit 1; OWrite 5 10 (Some 5); OSave 5; OWrite 5 11 (Some 6); OBack 5; OCommit 5].
Example C34_checkpoint_case :
  let l := e_log (erun ex2_ops) in
  let l1 := firstn 2 l in let l2 := skipn 2 l in
  let s1 := replay (rinit ex_db) l1 in
  e_hz (erun ex2_ops) = false /\ r_joint s1 = [] /\ r_undo s1 1 = [UMod 10] /\ r_undo s1 4 = [UMod 12] /\
  r_undo s1 5 = [] /\
  map (contents (recovery_finish (replay (restart s1) l2) [1;4;5])) [10;11;12] = [Some 5; Some 2; Some 100].
Proof. vm_compute. repeat split; reflexivity. Qed.

(** ** F22.  BEGIN; write 1; SAVEPOINT a; write 2; SAVEPOINT b; write 3; RELEASE b; ROLLBACK TO a;
    COMMIT.  The commit is in the log, yet recovery loses row 1. *)
Definition f22_ops : list eop :=
  [OWrite 1 1 (Some 1); OSave 1; OWrite 1 2 (Some 2); OSave 1; OWrite 1 3 (Some 3); ORelease 1;
   OBack 1; OCommit 1].
Theorem C34_released_savepoint_refuted :
  let s := erun f22_ops in
  let db := contents (recovery_finish (replay (rinit (fun _ => None)) (e_log s)) [1]) in
  let want := serial (durable (e_log s)) (c_done (crun (e_hist s))) (fun _ => None) in
  durable (e_log s) 1 = true /\ map want [1;2;3] = [Some 1; None; None] /\ map db [1;2;3] = [None; None; None].
Proof. vm_compute. repeat split; reflexivity. Qed.

(** ** F23.  Transaction 1 writes, a checkpoint is taken, 1 takes a savepoint, crash.  The
    write of the unfinished transaction is there after recovery. *)
Definition f23_ops : list eop := [OWrite 1 1 (Some 1); OFlush 1; OSave 1; OWrite 1 2 (Some 2); OFlush 1].
Theorem C34_checkpoint_savepoint_refuted :
  let s := erun f23_ops in
  let l1 := firstn 1 (e_log s) in let l2 := skipn 1 (e_log s) in
  let db := contents (recovery_finish (replay (restart (replay (rinit (fun _ => None)) l1)) l2) [1]) in
  let want := serial (durable (e_log s)) (c_done (crun (e_hist s))) (fun _ => None) in
  e_hz s = false /\ durable (e_log s) 1 = false /\ map want [1;2] = [None; None] /\ map db [1;2] = [Some 1; None].
Proof. vm_compute. repeat split; reflexivity. Qed.

(** The same when the transaction then aborts and its abort record is in the log. *)
Theorem C34_checkpoint_savepoint_abort_refuted :
  let s := erun (f23_ops ++ [OAbort 1]) in
  let l1 := firstn 1 (e_log s) in let l2 := skipn 1 (e_log s) in
  let db := contents (recovery_finish (replay (restart (replay (rinit (fun _ => None)) l1)) l2) [1]) in
  In (LRollback 1) l2 /\ map db [1;2] = [Some 1; None].
Proof. vm_compute. split; [tauto|reflexivity]. Qed.

(** ** F24.  Transaction 1 rolls back a savepoint: its row is free before the record is
    logged.  Transaction 2 takes the row and commits, and its records come first.
    Replay of 2's record waits for transaction 1 for ever. *)
Definition f24_ops : list eop2 :=
  [EOp (OWrite 1 1 (Some 1)); EOp (OSave 1); EOp (OWrite 1 2 (Some 2)); EOp (OFlush 1);
   EBackMem 1; EOp (OWrite 2 2 (Some 3)); EOp (OCommit 2); EBackLog 1; EOp (OCommit 1)].
Theorem C34_subabort_order_refuted :
  let s := erun2 f24_ops in
  e_hz s = false /\ durable (e_log s) 1 = true /\ durable (e_log s) 2 = true /\
  r_stuck (replay (rinit (fun _ => None)) (e_log s)) = true.
Proof. vm_compute. repeat split; reflexivity. Qed.
