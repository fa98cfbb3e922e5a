(** Property C04: savepoints (and the whole-transaction abort half of C03).

    Full property: for every program of writes, on-commit actions, SAVEPOINT,
    RELEASE and ROLLBACK TO, the rows seen inside the transaction, the rows after
    it ends, and the on-commit actions that run are those of the stack-of-saved-
    states specification [sstep].  The full statement is FALSE of the code
    ([C04_savepoints_refuted]); it is proved for every program satisfying
    [covered], and [covered] is proved for two wide unconditional classes. *)
From Coq Require Import ZArith List Bool.
From Verif Require Import Base SavepointModel SavepointSpec SavepointProofs SavepointLemmas.
Import ListNotations.
Open Scope Z_scope.

(** The stack-of-saved-states semantics, for every covered program. *)
Theorem C04_savepoints_partial : forall db0 ops, covered db0 pinit (sinit db0) ops ->
  let s := run ustep (uinit db0) ops in
  let sp := run (sstep db0) (sinit db0) ops in
  (u_done s = None <-> s_done sp = None) /\
  (forall k, u_db s k = match s_done sp with Some d => fst d k | None => fst (s_cur sp) k end) /\
  (forall acts, u_done s = Some acts -> exists d, s_done sp = Some d /\ snd d = acts).
Proof. exact refine_run. Qed.

(** Unconditional for every program that changes a row before its first savepoint. *)
Theorem C04_savepoints_after_change_partial : forall db0 k0 v0 ops,
  let s := run ustep (uinit db0) (UWrite k0 v0 :: ops) in
  let sp := run (sstep db0) (sinit db0) (UWrite k0 v0 :: ops) in
  (u_done s = None <-> s_done sp = None) /\
  (forall k, u_db s k = match s_done sp with Some d => fst d k | None => fst (s_cur sp) k end) /\
  (forall acts, u_done s = Some acts -> exists d, s_done sp = Some d /\ snd d = acts).
Proof. intros db0 k0 v0 ops. exact (refine_run db0 _ (covered_write_first db0 k0 v0 ops)). Qed.

(** Unconditional for every program that never nests savepoints. *)
Theorem C04_savepoints_flat_partial : forall db0 ops, depth_le1 0 ops ->
  let s := run ustep (uinit db0) ops in
  let sp := run (sstep db0) (sinit db0) ops in
  (u_done s = None <-> s_done sp = None) /\
  (forall k, u_db s k = match s_done sp with Some d => fst d k | None => fst (s_cur sp) k end) /\
  (forall acts, u_done s = Some acts -> exists d, s_done sp = Some d /\ snd d = acts).
Proof. intros db0 ops H. exact (refine_run db0 ops (covered_flat db0 ops H)). Qed.

(** For every program whatsoever: a whole-transaction abort restores every row. *)
Theorem C04_transaction_abort_restores : forall db0 ops,
  u_done (run ustep (uinit db0) ops) = None ->
  forall k, u_db (ustep (run ustep (uinit db0) ops) UAbort) k = db0 k.
Proof. exact abort_restores. Qed.

(** For every program: the search for the enclosing savepoint record never fails
    (the elog(FATAL, "subxact goes out of order") of undo.c is unreachable). *)
Theorem C04_savepoint_search_succeeds : forall ops db0, u_fatal (run ustep (uinit db0) ops) = false.
Proof. exact no_fatal_run. Qed.

(** For every program: every row or action record the transaction ever wrote is
    either still on its undo chain or inside one of the branches recorded by the
    rolled-back savepoints. *)
Theorem C04_branches_cover_all_records : forall db0 ops, let s := run ustep (uinit db0) ops in u_done s = None ->
  exists ch br, Chain (u_mem s) (u_loc s) ch /\ Branches (u_mem s) (u_branch s) br /\
    forall y, own (u_mem s) y -> In y ch \/ exists x, In x br /\ in_branch (u_mem s) x y.
Proof. exact branches_cover. Qed.

(** The full claim is false: finding F1. *)
Definition f1_program : list uop :=
  [UStart; UWrite 0 10; UStart; UCommitSub; UCommitSub; UWrite 1 11; UStart; UWrite 2 12; UAbortSub].

Theorem C04_savepoints_refuted : exists db0 ops k,
  u_done (run ustep (uinit db0) ops) = None /\ s_done (run (sstep db0) (sinit db0) ops) = None /\
  u_db (run ustep (uinit db0) ops) k <> fst (s_cur (run (sstep db0) (sinit db0) ops)) k.
Proof. exists (fun _ => 0), f1_program, 1. vm_compute. repeat split. discriminate. Qed.

(** Hypotheses are met by non-trivial programs. *)
Definition nested_program : list uop :=
  [UWrite 1 5; UStart; UAct 7; UWrite 1 6; UOther; UStart; UWrite 2 9; UAct 8; UAbortSub; UWrite 3 3;
   UStart; UWrite 1 0; UCommitSub; UCommitSub; UStart; UWrite 1 77; UAbortSub; UCommit].

Example nested_covered : covered (fun _ => 0) pinit (sinit (fun _ => 0)) nested_program.
Proof. apply covered_write_first. Qed.

Example nested_result :
  let s := run ustep (uinit (fun _ => 0)) nested_program in
  u_db s 1 = 0 /\ u_db s 2 = 0 /\ u_db s 3 = 3 /\ u_done s = Some [7].
Proof. vm_compute. repeat split. Qed.

Example flat_program_ok : depth_le1 0 [UStart; UWrite 1 5; UAbortSub; UStart; UWrite 2 5; UCommitSub; UStart; UAbortSub].
Proof. cbn. repeat split. Qed.

Example abort_hyp_met : u_done (run ustep (uinit (fun _ => 0)) f1_program) = None.
Proof. vm_compute. reflexivity. Qed.

Print Assumptions C04_savepoints_partial.
Print Assumptions C04_savepoints_after_change_partial.
Print Assumptions C04_savepoints_flat_partial.
Print Assumptions C04_transaction_abort_restores.
Print Assumptions C04_savepoint_search_succeeds.
Print Assumptions C04_branches_cover_all_records.
Print Assumptions C04_savepoints_refuted.
