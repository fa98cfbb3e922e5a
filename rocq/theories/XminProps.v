(** Property C11: the global horizon and snapshots. *)
From Coq Require Import ZArith List Bool Lia.
From Verif Require Import Base XminModel XminSpec XminProofs.
Import ListNotations.
Open Scope Z_scope.

(** The full claim "every transaction below the horizon finished before every
    usable snapshot was taken" under one assumption: registered snapshots of one
    process that share their row undo location also share their xmin.  Without
    the assumption it is false (next theorem). *)
Theorem C11_horizon_safe_for_snapshots_partial : forall n ops p a x,
  never_mixed_ties n ops -> 0 <= p < n ->
  live (run (step n) init ops) p a -> 0 <= x < G (run (step n) init ops) ->
  finished_before (run (step n) init ops) x a.
Proof.
  intros n ops p a x H Hp L Hx. pose proof (run_inv_ties n ops H) as V.
  pose proof (v_live n _ V p a L) as S. apply (s_done n _ _ _ S). pose proof (s_g n _ _ _ S Hp). lia.
Qed.

(** Finding F9: with three registered snapshots whose undo locations tie, releasing
    the first lets the horizon pass a transaction that committed after the second
    one was taken. *)
Definition tie_run : list op :=
  [ OStart;                                      (* transaction 0 runs *)
    OTake 0 0 0; OTRun 0; OTPub 0; OTCsn 0; OReg 0 0; OPop 0 0;    (* snapshot 0 *)
    OTake 0 0 0; OTRun 0; OTPub 0; OTCsn 0; OReg 0 1; OPop 0 1;    (* snapshot 1 *)
    OCsn 0; OCommit 0; OAdvRun;                  (* transaction 0 commits *)
    OTake 0 0 0; OTRun 0; OTPub 0; OTCsn 0; OReg 0 2; OPop 0 2;    (* snapshot 2 *)
    ODereg 0 0; OReset 0;                        (* snapshot 0 is released *)
    OScan; OScan1; OScanEnd 100 ].

Theorem C11_horizon_safe_for_snapshots_refuted : exists n ops p a x c,
  0 <= p < n /\ live (run (step n) init ops) p a /\ 0 <= x < G (run (step n) init ops) /\
  csnof (run (step n) init ops) x = Some c /\ scsn a <= c.
Proof.
  exists 1, tie_run, 0, (mkSnap 1 0 0 0 0 0 0), 0, 0.
  split; [lia|]. split; [right; vm_compute; auto|]. split; [vm_compute; split; congruence|].
  split; [reflexivity|]. cbn. lia.
Qed.

(** The literal reading "the horizon never exceeds the xmin of a usable
    snapshot" fails even without ties: a process reads runXmin, and another one
    computes the horizon before it publishes the value. *)
Theorem C11_horizon_below_snapshot_xmin_refuted : exists n ops p a,
  never_mixed_ties n ops /\ 0 <= p < n /\ live (run (step n) init ops) p a /\ sxmin a < G (run (step n) init ops).
Proof.
  exists 1, [OStart; OTake 0 0 0; OTRun 0; OAbort 0; OAdvRun; OScan; OScan1; OScanEnd 100; OTPub 0; OTCsn 0], 0,
         (mkSnap 0 0 0 0 0 0 1).
  split.
  - intros pre post E q a b Ha. exfalso.
    assert (N : forall k, hp (run (step 1) init (firstn k [OStart; OTake 0 0 0; OTRun 0; OAbort 0; OAdvRun; OScan; OScan1; OScanEnd 100; OTPub 0; OTCsn 0])) q 0 = None).
    { intros k. do 11 (destruct k as [|k]; [reflexivity|]). reflexivity. }
    specialize (N (length pre)). rewrite E in N. rewrite firstn_app, firstn_all, Nat.sub_diag in N.
    cbn [firstn] in N. rewrite app_nil_r in N. rewrite N in Ha. destruct Ha.
  - split; [lia|]. split; [left; vm_compute; auto|]. vm_compute. reflexivity.
Qed.

(** The registered set is exactly what was registered and not released. *)
Theorem C11_release_removes_only_that_snapshot : forall i k h a,
  (In a (helems (heap_remove i k h)) -> In a (helems h)) /\
  (In a (helems h) -> sid a <> k -> In a (helems (heap_remove i k h))).
Proof. intros i k h a. split; [apply in_heap_remove|apply in_heap_remove_keep]. Qed.

Print Assumptions C11_horizon_safe_for_snapshots_partial.
Print Assumptions C11_horizon_safe_for_snapshots_refuted.
Print Assumptions C11_horizon_below_snapshot_xmin_refuted.
Print Assumptions C11_release_removes_only_that_snapshot.

(** A run that meets the assumption, with a registered snapshot, a horizon that
    has moved, and two processes. *)
Definition good_run : list op :=
  [ OStart; OStart; OCsn 0; OCommit 0; OAdvRun;
    OTake 1 0 0; OTRun 1; OTPub 1; OTCsn 1; OReg 1 0; OPop 1 0; OReset 1;
    OCsn 1; OCommit 1; OAdvRun; OScan; OScan1; OScan1; OScanEnd 100 ].

Example good_run_ok : never_mixed_ties 2 good_run.
Proof.
  intros pre post E p a b Ha Hb _.
  assert (N : forall k q c, In c (helems (hp (run (step 2) init (firstn k good_run)) q 0)) -> sxmin c = 1).
  { intros k q c. do 20 (destruct k as [|k]; [vm_compute; destruct q as [|[?|?|]|?]; intros Q; repeat destruct Q as [Q|Q]; subst; try reflexivity; try contradiction|]).
    vm_compute; destruct q as [|[?|?|]|?]; intros Q; repeat destruct Q as [Q|Q]; subst; try reflexivity; try contradiction. }
  specialize (N (length pre)). rewrite E in N. rewrite firstn_app, firstn_all, Nat.sub_diag in N.
  cbn [firstn] in N. rewrite app_nil_r in N. rewrite (N p a Ha), (N p b Hb). reflexivity.
Qed.

Example good_run_live : live (run (step 2) init good_run) 1 (mkSnap 0 0 0 0 1 1 1) /\ G (run (step 2) init good_run) = 1.
Proof. split; [right; vm_compute; auto|reflexivity]. Qed.
