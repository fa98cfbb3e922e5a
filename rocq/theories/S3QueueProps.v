(** C45: the queue of object-store tasks. *)
From Coq Require Import ZArith List Bool Lia.
From Coq Require Import ZifyBool.
From Verif Require Import Base S3QueueModel S3QueueSpec S3QueueProofs.
Import ListNotations.
Open Scope Z_scope.

Section C45.
Variable Q : Z.
Hypothesis Qpos : 0 < Q.
Hypothesis Qsmall : Q < LENGTH_ERASED_FLAG.

(* Each task is picked by exactly one worker and carried out at most once, and
   tasks are picked in the order of their locations, none is skipped.  Missing:
   the case where the queue comes round to a task while the length word of its
   predecessor in the buffer is still to be cleared (refuted below). *)
Theorem C45_once_partial : forall ops, always (calm Q) (step Q) init ops ->
  let s := run (step Q) init ops in
  NoDup (picked s) /\ (forall l, In l (picked s) <-> was_put s l /\ l < pick s) /\
  NoDup (finished s) /\ (forall l, In l (finished s) -> In l (picked s)).
Proof.
  intros ops H s. destruct (inv_run Q Qpos Qsmall ops H) as [g I]. fold s in I.
  split; [apply I|]. split; [apply I|]. split; [apply I|].
  intros l Hl. apply (i_picked _ _ _ I). apply (i_finb _ _ _ I). exact Hl.
Qed.

(* A worker gets the task that was put.  Missing: as above, and tasks that run
   over the end of the buffer (refuted below). *)
Theorem C45_data_partial : forall ops, always (calm Q) (step Q) init ops ->
  let s := run (step Q) init ops in
  forall l d', In (l, d') (got s) -> exists d, task s l = Some d /\ (in_one_piece Q l d -> d' = d).
Proof.
  intros ops H s l d' G. destruct (inv_run Q Qpos Qsmall ops H) as [g I]. fold s in I.
  destruct (i_got _ _ _ I _ _ G) as [d [T [X _]]]. eauto.
Qed.

(* A task is not overwritten while it is in the queue: from the moment its
   length is written until it is carried out its words hold it. *)
Theorem C45_kept_partial : forall ops, always (calm Q) (step Q) init ops ->
  let s := run (step Q) init ops in
  forall l d, task s l = Some d -> pick s <= l -> (forall p, at_ s p <> PWait l d /\ at_ s p <> PLen l d) ->
  buf s (l mod Q) = tot d /\ forall i, 0 <= i < Z.of_nat (length d) -> buf s ((l + 1 + i) mod Q) = at_i d i.
Proof.
  intros ops H s l d T L N. destruct (inv_run Q Qpos Qsmall ops H) as [g I]. fold s in I.
  assert (G : g l = Published).
  { destruct (i_new _ _ _ I _ _ T L) as [G|[G|G]]; [exfalso|exfalso|exact G];
      destruct (i_has _ _ _ I l) as [p O]; auto; pose proof (i_pok _ _ _ I p) as P; destruct (N p) as [N1 N2];
      destruct (at_ s p); cbn [own pok] in *; inversion O; subst; try congruence; destruct P; congruence. }
  pose proof (i_room _ _ _ I _ _ T ltac:(congruence)) as R. pose proof (i_order _ _ _ I) as OR. unfold tot in R.
  split.
  - rewrite (i_hdr _ _ _ I _ _ T) by lia. rewrite G. reflexivity.
  - intros i Hi. pose proof (i_body _ _ _ I _ _ i T ltac:(lia) Hi ltac:(lia)) as B. rewrite G in B. exact B.
Qed.

(* Waiting for a location returns only after all tasks up to it were carried out. *)
Theorem C45_wait_partial : forall ops, always (calm Q) (step Q) init ops ->
  let s := run (step Q) init ops in
  forall loc, wait_returns s loc -> forall l, was_put s l -> l <= loc -> In l (finished s).
Proof.
  intros ops H s loc W l [d T] L. destruct (inv_run Q Qpos Qsmall ops H) as [g I]. fold s in I.
  apply (i_fina _ _ _ I). right. right. apply (i_pass _ _ _ I _ _ T). unfold wait_returns in W. lia.
Qed.

(* And it does return: whatever the order in which tasks were erased, once all
   tasks up to it were carried out and the processes are done, the wait is over. *)
Theorem C45_wait_ends_partial : forall ops, always (calm Q) (step Q) init ops ->
  let s := run (step Q) init ops in
  forall loc, quiet s -> loc < ins s -> (forall l, was_put s l -> l <= loc -> In l (finished s)) -> wait_returns s loc.
Proof.
  intros ops H s loc U L F. destruct (inv_run Q Qpos Qsmall ops H) as [g I]. fold s in I.
  unfold wait_returns. intro E. destruct (i_er _ _ _ I) as [X|[d T]]; [lia|].
  pose proof (F (erased s) ltac:(exists d; exact T) E) as Fi.
  destruct (i_finb _ _ _ I _ Fi) as [_ LP].
  assert (NH : ~ (g (erased s) = Taken \/ g (erased s) = Held \/ g (erased s) = Wiped)).
  { intro X. destruct (i_has _ _ _ I (erased s)) as [p O]; [tauto|]. rewrite U in O. discriminate O. }
  destruct (i_old _ _ _ I _ _ T LP) as [X|[X|[X|[X|X]]]]; try tauto.
  - destruct (i_lead _ _ _ I X) as [p C]. rewrite U in C. exact C.
  - apply (i_pass _ _ _ I _ _ T) in X. lia.
Qed.
End C45.

(* Three tasks through a buffer of 16 words: the first two picked by different
   workers and erased in the opposite order, the third put meanwhile. *)
Definition go_n (n : nat) (p : Z) : list op := repeat (Go p 77) n.
Definition sample : list op :=
  [Put 1 [11; 12; 13]; Put 2 [21; 22]] ++ go_n 2 2 ++ go_n 2 1 ++
  [Pick 3] ++ go_n 4 3 ++ [Pick 4] ++ go_n 4 4 ++ [Put 1 [31; 32; 33; 34]] ++ go_n 2 1 ++
  go_n 5 4 ++ go_n 10 3 ++ [Pick 3] ++ go_n 4 3 ++ go_n 7 3 ++ [Put 2 [41; 42]] ++ go_n 2 2.
Fixpoint calmb (Q : Z) (s : st) (ps : list Z) (ops : list op) : bool :=
  forallb (fun p => match at_ s p with E3 l n => ins s <? l + Q | _ => true end) ps &&
  match ops with [] => true | o :: rest => calmb Q (step Q s o) ps rest end.
Definition proc (o : op) : Z := match o with Put p _ => p | Pick p => p | Go p _ => p end.
Lemma calmb_always : forall Q ps ops s, (forall o, In o ops -> In (proc o) ps) ->
  (forall p, ~ In p ps -> at_ s p = Idle) -> calmb Q s ps ops = true -> always (calm Q) (step Q) s ops.
Proof.
  intros Q ps. induction ops as [|o ops IH]; intros s HP HI H; cbn [calmb always] in *; apply andb_prop in H; destruct H as [H1 H2].
  - split; [|exact Logic.I]. intros p l n A. destruct (in_dec Z.eq_dec p ps) as [i|i]; [|rewrite (HI _ i) in A; discriminate A].
    rewrite forallb_forall in H1. specialize (H1 _ i). rewrite A in H1. lia.
  - split.
    + intros p l n A. destruct (in_dec Z.eq_dec p ps) as [i|i]; [|rewrite (HI _ i) in A; discriminate A].
      rewrite forallb_forall in H1. specialize (H1 _ i). rewrite A in H1. lia.
    + apply IH; [intros; apply HP; right; assumption| |exact H2].
      intros p N. assert (NE : p <> proc o) by (intro X; apply N; rewrite X; apply HP; left; reflexivity).
      destruct o as [q d|q|q u]; cbn [step proc] in *.
      * destruct (at_ s q); cbn [at_]; try rewrite upd_other by exact NE; auto.
      * destruct (at_ s q); cbn [setp at_]; try rewrite upd_other by exact NE; auto.
      * unfold go. destruct (at_ s q); try destruct (get_task Q (buf s) l u);
          repeat match goal with |- context [if ?b then _ else _] => destruct b end; cbn [setp setb at_]; try rewrite upd_other by exact NE; auto.
Qed.
Example C45_sample : always (calm 16) (step 16) init sample /\
  let s := run (step 16) init sample in
  picked s = [7; 4; 0] /\ got s = [(7, [31; 32; 33; 34]); (0, [11; 12; 13]); (4, [21; 22])] /\ finished s = [7; 0; 4] /\
  erased s = 12 /\ ins s = 15 /\ pick s = 12 /\ task s 12 = Some [41; 42] /\ at_ s 2 = Idle /\ in_one_piece 16 7 [31; 32; 33; 34].
Proof.
  split; [apply (calmb_always 16 [1; 2; 3; 4]); [|reflexivity|vm_compute; reflexivity]|vm_compute; repeat split].
  intros o H. vm_compute in H. repeat (destruct H as [<-|H]; [cbn; tauto|]). destruct H.
Qed.

(* A task that runs over the end of the buffer is not what the worker gets: the
   first copy of s3_queue_get_task has its arguments exchanged. *)
Definition wrap_run : list op :=
  [Put 1 [11; 12; 13]; Go 1 0; Go 1 0; Pick 2] ++ go_n 11 2 ++ [Put 1 [21; 22; 23; 24; 25; 26]; Go 1 0; Go 1 0; Pick 2] ++ go_n 5 2.
Theorem C45_refuted_wraparound :
  always (calm 8) (step 8) init wrap_run /\
  let s := run (step 8) init wrap_run in
  task s 4 = Some [21; 22; 23; 24; 25; 26] /\ hd_error (got s) = Some (4, [77; 77; 77; 24; 25; 26]).
Proof.
  split; [apply (calmb_always 8 [1; 2]); [|reflexivity|vm_compute; reflexivity]|vm_compute; repeat split].
  intros o H. vm_compute in H. repeat (destruct H as [<-|H]; [cbn; tauto|]). destruct H.
Qed.

(* A task is lost: the eraser of an old task advances the erased location and
   then clears the old length word, by when a waiting producer has written the
   length of its task there.  The put returned, all earlier tasks are picked,
   nobody is doing anything, and no worker can ever pick the task. *)
Definition late_run : list op :=
  [Put 1 [11; 12; 13]; Go 1 0; Go 1 0; Put 1 [21; 22; 23]; Go 1 0; Go 1 0; Pick 2] ++ go_n 9 2 ++
  [Put 1 [31; 32; 33]; Go 1 0; Go 1 0] ++ go_n 2 2 ++ [Pick 3] ++ go_n 11 3.
Theorem C45_refuted_late_clear :
  let s := run (step 8) init late_run in
  task s 8 = Some [31; 32; 33] /\ pick s = 8 /\ at_ s 1 = Idle /\ at_ s 2 = Idle /\ at_ s 3 = Idle /\
  forall g, let s' := run (step 8) s [Pick 4; Go 4 g; Go 4 g; Go 4 g] in at_ s' 4 = Idle /\ picked s' = picked s.
Proof. vm_compute. repeat split. Qed.

(* The erased location can pass the insert location: the next process finds the
   old length word, with its flag, where no task was put yet. *)
Definition overrun : list op :=
  [Put 1 [11; 12; 13]; Go 1 0; Go 1 0; Put 1 [21; 22; 23]; Go 1 0; Go 1 0; Pick 2] ++ go_n 4 2 ++ [Pick 3] ++ go_n 4 3 ++
  go_n 5 2 ++ go_n 8 3.
Theorem C45_refuted_overrun :
  let s := run (step 8) init overrun in ins s = 8 /\ erased s = 12 /\ wait_returns s 8.
Proof. vm_compute. repeat split. intro H. apply H. reflexivity. Qed.

Print Assumptions C45_once_partial.
Print Assumptions C45_data_partial.
Print Assumptions C45_kept_partial.
Print Assumptions C45_wait_partial.
Print Assumptions C45_wait_ends_partial.
Print Assumptions C45_refuted_wraparound.
Print Assumptions C45_refuted_late_clear.
Print Assumptions C45_refuted_overrun.
