(** C53: a sequential scan by any number of workers reads the rows of every
    key exactly once, whatever splits and merges the tree undergoes.
    Refuted in two cases; proved outside them. *)
From Coq Require Import ZArith List Bool Lia ZifyBool.
From Verif Require Import Base ParScanModel ParScanSpec ParScanProofs ParScanStepProofs
  ParScanTotalProofs ParScanRunProofs ParScanEndProofs.
Import ListNotations.
Open Scope Z_scope.

(** No row is returned twice, at any moment of any schedule, unless the
    leftmost internal page is loaded again. *)
Theorem C53_at_most_once_partial : forall n ops k,
  leftmost_once (init n) ops ->
  times (s_read (run step (init n) ops)) k <= 1.
Proof.
  intros n ops k H.
  pose proof (times_le_total (run step (init n) ops) k).
  pose proof (run_le ops (init n) k (init_inv n)
    (conj (init_hold eq n) (conj I I)) H).
  rewrite init_total in H1. lia.
Qed.

(** No row is missed by a scan that ends, unless the array of on-disk
    downlinks was sorted while a worker had still to add one. *)
Theorem C53_at_least_once_partial : forall n ops k,
  (0 < n)%nat -> quiet (init n) ops ->
  finished (run step (init n) ops) ->
  1 <= times (s_read (run step (init n) ops)) k.
Proof.
  intros n ops k N Q Fi.
  destruct (run_ge ops (init n) k (init_inv n) (init_ext n) Q) as [A [B C]].
  rewrite init_total in A.
  rewrite (finished_total _ k B C) in A; [exact A| |exact Fi].
  intro E. pose proof (run_len ops (init n)) as L. rewrite E in L. cbn in L.
  rewrite repeat_length in L. lia.
Qed.

Theorem C53_exactly_once_partial : forall n ops k,
  (0 < n)%nat -> quiet (init n) ops -> leftmost_once (init n) ops ->
  finished (run step (init n) ops) ->
  times (s_read (run step (init n) ops)) k = 1.
Proof.
  intros n ops k N Q L Fi.
  pose proof (C53_at_most_once_partial n ops k L).
  pose proof (C53_at_least_once_partial n ops k N Q Fi). lia.
Qed.

(** A single worker cannot meet the first exception. *)
Lemma quiet_one : forall ops s, length (s_ws s) = 1%nat -> quiet s ops.
Proof.
  induction ops as [|o t IH]; intros s L; [exact I|]. split.
  - destruct o; cbn; auto. intros E _ a r In.
    unfold worker in E. destruct (s_ws s) as [|x [|y l]]; cbn in L; try discriminate.
    destruct In as [->|[]]. destruct w as [|[|w]]; cbn in E; discriminate.
  - apply IH. rewrite step_len. exact L.
Qed.

Theorem C53_one_worker_misses_nothing : forall ops k,
  finished (run step (init 1) ops) ->
  1 <= times (s_read (run step (init 1) ops)) k.
Proof.
  intros ops k Fi. apply C53_at_least_once_partial; auto. apply quiet_one. reflexivity.
Qed.

(** Two workers and one on-disk leaf: one worker takes the downlink, leaves
    the count of writers and has not added it yet; the other sorts the
    empty array and finds it used up; the downlink is added behind the
    index, and nobody reads it. *)
Definition lost_ops : list op :=
  [ Look 0; Load 0 (mkImg None (OnDisk 5) [] None); Look 0; Read 0 true;
    Look 1; Look 1; Wait 1; Sort 1; Claim 1;
    Write 0; Look 0; Wait 0; Sort 0; Claim 0 ].

Theorem C53_row_missed_refuted : exists n ops,
  leftmost_once (init n) ops /\ finished (run step (init n) ops) /\
  forall k, times (s_read (run step (init n) ops)) k = 0.
Proof.
  exists 2%nat, lost_ops. split; [|split].
  - vm_compute. repeat split. intros b p E1 E. destruct b; discriminate.
  - intros w H. vm_compute in H. intuition auto.
  - intro k. vm_compute. reflexivity.
Qed.

(** One worker: the first internal page is given out up to its high key
    10; it merges with its right neighbour; the merged page is leftmost, so
    the low key of its item 10 is taken as open; the leaf has changed, and
    the iterator for its range begins at the first row of the tree. *)
Definition twice_ops : list op :=
  [ Look 0; Load 0 (mkImg None InMem [] (Some 10));
    Look 0; Load 0 (mkImg None InMem [(10, InMem)] None);
    Look 0; Read 0 true; Look 0; Look 0; Read 0 false;
    Look 0; Look 0; Wait 0; Sort 0; Claim 0 ].

Theorem C53_row_twice_refuted : exists ops,
  quiet (init 1) ops /\ finished (run step (init 1) ops) /\
  times (s_read (run step (init 1) ops)) 5 = 2.
Proof.
  exists twice_ops. split; [|split].
  - apply quiet_one. reflexivity.
  - intros w H. vm_compute in H. intuition auto.
  - vm_compute. reflexivity.
Qed.

(** Two workers, three internal pages read from a changing tree: the second
    image begins left of the high key of the first, an iterator closes the
    gap; an on-disk leaf is read by the other worker. *)
Definition good_ops : list op :=
  [ Look 0; Load 0 (mkImg None InMem [(4, OnDisk 9)] (Some 10)); Look 0; Look 1;
    Load 0 (mkImg (Some 4) InMem [(7, InMem); (12, OnDisk 3)] (Some 20)); Look 0; Look 1; Read 1 true;
    Read 0 false; Write 0; Look 0; Look 0; Look 1; Load 0 (mkImg (Some 20) InIo [] None);
    Read 1 true; Write 1; Look 1; Look 1; Read 1 true; Look 1; Look 0; Look 1;
    Wait 0; Sort 0; Wait 1; Sort 1; Claim 0; Claim 1; Claim 1; Claim 0 ].

Example C53_case :
  quiet (init 2) good_ops /\ leftmost_once (init 2) good_ops /\
  finished (run step (init 2) good_ops) /\
  s_read (run step (init 2) good_ops) =
    [(Some 10, Some 12); (None, Some 4); (Some 20, None); (Some 12, Some 20); (Some 4, Some 10)].
Proof.
  split; [|split; [|split]].
  - vm_compute. repeat split; intros; intuition discriminate.
  - vm_compute. repeat split; intros b p E1 E; destruct b; discriminate.
  - intros w H. vm_compute in H. intuition auto.
  - vm_compute. reflexivity.
Qed.

Print Assumptions C53_at_most_once_partial.
Print Assumptions C53_at_least_once_partial.
Print Assumptions C53_exactly_once_partial.
Print Assumptions C53_one_worker_misses_nothing.
Print Assumptions C53_row_missed_refuted.
Print Assumptions C53_row_twice_refuted.
