(** C52: creating, dropping and replacing storage keeps exactly the right files. *)
From Coq Require Import ZArith List Bool Lia.
From Coq Require Import ZifyBool ZifyNat.
From Verif Require Import Base RelFilesModel RelFilesSpec RelFilesProofs.
Import ListNotations.
Open Scope Z_scope.

(* After any history of transactions with savepoints, and whatever the size of
   the undo records: a tree has a file exactly if the catalog has it, a running
   transaction created it, or its removal is postponed.  Missing: what happens
   when postponed removals are carried out (refuted below). *)
Theorem C52_files_partial : forall cap ts h k, (0 < cap)%nat ->
  let sc := run (step cap ts) init h in
  fatal (fst sc) = false ->
  (disk (fst sc) k <> Absent <-> In k (committed (snd sc)) \/ live ts (snd sc) k \/ In k (postponed (snd sc))).
Proof.
  intros cap ts h k C sc F. destruct (reach_inv cap ts h C) as [_ [X|I]]; [fold sc in X; congruence|]. fold sc in I.
  rewrite (v_disk _ _ _ I k). split.
  - intros [H|[[t H]|H]]; [auto| |auto]. right. left. exists t. split; [|exact H].
    destruct (in_dec Z.eq_dec t ts) as [T|T]; [exact T|]. rewrite (v_out _ _ _ I t T) in H. destruct H.
  - intros [H|[[t [_ H]]|H]]; [auto| |auto]. right. left. exists t. exact H.
Qed.
(* What a committed transaction created was made durable before the commit. *)
Theorem C52_durable_partial : forall cap ts h k, (0 < cap)%nat ->
  let sc := run (step cap ts) init h in
  fatal (fst sc) = false -> In k (persistent (snd sc)) -> In k (committed (snd sc)) /\ disk (fst sc) k = Durable.
Proof.
  intros cap ts h k C sc F P. destruct (reach_inv cap ts h C) as [_ [X|I]]; [fold sc in X; congruence|]. fold sc in I. exact (v_per _ _ _ I k P).
Qed.
(* No file of a tree the catalog had when the backup began goes away while the
   backup lasts. *)
Definition stays (o : op) : Prop := o <> OBackup false.
Theorem C52_backup_partial : forall cap ts h1 h2 k, (0 < cap)%nat ->
  let sc := run (step cap ts) init h1 in
  fatal (fst sc) = false -> backup (fst sc) = true -> In k (committed (snd sc)) -> Forall stays h2 ->
  disk (fst (run (step cap ts) init (h1 ++ h2))) k <> Absent.
Proof.
  intros cap ts h1 h2 k C sc F B K H.
  assert (X : forall h s, Forall stays h -> fatal (fst s) = false -> backup (fst s) = true -> (In k (committed (snd s)) \/ In k (postponed (snd s))) ->
    let s' := run (step cap ts) s h in fatal (fst s') = false /\ (In k (committed (snd s')) \/ In k (postponed (snd s')))).
  { induction h as [|o h IH]; intros s FA FF BB KK s'; [split; assumption|]. inversion FA as [|? ? FO FA']; subst. subst s'. cbn [run fold_left].
    apply IH; [exact FA'| | |].
    - unfold step. destruct (allowed ts (snd s) o); [|exact FF]. cbn [fst].
      assert (AB : forall l s, fatal (fold_left cb_abort l s) = fatal s).
      { induction l as [|i l IHl]; intro z; [reflexivity|]. cbn [fold_left]. rewrite IHl. unfold cb_abort. destruct (negb (newRelnode i =? 0)); reflexivity. }
      assert (CO : forall stk l s, fatal (fold_left (cb_commit stk) l s) = fatal s).
      { intro stk. induction l as [|i l IHl]; intro z; [reflexivity|]. cbn [fold_left]. rewrite IHl. unfold cb_commit. destruct (backup z); [reflexivity|]. destruct (negb (oldRelnode i =? 0)); reflexivity. }
      destruct o; unfold go; cbn [set_stack set_disk fatal]; rewrite ?AB, ?CO; auto.
      + destruct (disk (fst s) k0); exact FF.
      + destruct (marks (fst s) t); [exact FF|]. cbn [set_stack fatal]. rewrite AB. exact FF.
      + rewrite BB. exact FF.
    - unfold step. destruct (allowed ts (snd s) o); [|exact BB]. cbn [fst].
      assert (AB : forall l s, backup (fold_left cb_abort l s) = backup s).
      { induction l as [|i l IHl]; intro z; [reflexivity|]. cbn [fold_left]. rewrite IHl. unfold cb_abort. destruct (negb (newRelnode i =? 0)); reflexivity. }
      assert (CO : forall stk l s, backup (fold_left (cb_commit stk) l s) = backup s).
      { intro stk. induction l as [|i l IHl]; intro z; [reflexivity|]. cbn [fold_left]. rewrite IHl. unfold cb_commit. destruct (backup z) eqn:Q; [reflexivity|]. destruct (negb (oldRelnode i =? 0)); cbn; exact Q. }
      destruct o; unfold go; cbn [set_stack set_disk backup]; rewrite ?AB, ?CO; auto.
      + destruct (disk (fst s) k0); exact BB.
      + destruct (marks (fst s) t); [exact BB|]. cbn [set_stack backup]. rewrite AB. exact BB.
      + destruct on; [reflexivity|exfalso; apply FO; reflexivity].
      + rewrite BB. exact BB.
    - unfold step. destruct (allowed ts (snd s) o); [|exact KK]. cbn [snd]. rewrite BB.
      destruct o; unfold cgo; cbn [set_tx committed postponed]; auto. rewrite minus_In, !in_app_iff.
      destruct (kin_dec k (dropped (changes (snd s) t))) as [[Q _]|[Q _]]; tauto. }
  destruct (X h2 sc H F B (or_introl K)) as [F' K']. unfold sc in F', K'. rewrite <- run_app in F', K'.
  apply (C52_files_partial cap ts (h1 ++ h2) k C F'). tauto.
Qed.

(* A history: a table with two indices, its truncation during a savepoint that is
   rolled back, then for good; one record holds two trees only. *)
Definition kk (n : Z) := mkK 5 n n 0.
Definition demo : list op :=
  [OReplace 1 0 [] 10 [kk 10; kk 11; kk 12] true; OWrite 1 (kk 10); OCommit 1 [];
   OSavepoint 2; OReplace 2 10 [kk 10; kk 11; kk 12] 20 [kk 20; kk 21; kk 22] true; ORollbackTo 2;
   OReplace 2 10 [kk 10; kk 11; kk 12] 30 [kk 30; kk 31; kk 32] true; OWrite 2 (kk 31); OCommit 2 [];
   OReplace 1 0 [] 40 [kk 40] true; OReplace 2 30 [kk 30; kk 31; kk 32] 0 [] false].
Example C52_demo : let sc := run (step 2 [1; 2]) init demo in
  fatal (fst sc) = false /\ committed (snd sc) = [kk 30; kk 31; kk 32] /\ persistent (snd sc) = [kk 30; kk 31; kk 32] /\
  map (fun n => disk (fst sc) (kk n)) [10; 11; 12; 20; 21; 22; 30; 31; 32; 40] =
    [Absent; Absent; Absent; Absent; Absent; Absent; Durable; Durable; Durable; Dirty] /\
  length (stack (fst sc) 2) = 2%nat.
Proof. vm_compute. auto. Qed.
Example C52_demo_backup : let sc := run (step 2 [1; 2]) init ([OReplace 1 0 [] 10 [kk 10] true; OCommit 1 []; OBackup true]) in
  fatal (fst sc) = false /\ backup (fst sc) = true /\ In (kk 10) (committed (snd sc)) /\
  Forall stays [OReplace 2 10 [kk 10] 0 [] false; OCommit 2 []; OCheck].
Proof. vm_compute. split; [reflexivity|]. split; [reflexivity|]. split; [left; reflexivity|]. repeat constructor; intro E; discriminate E. Qed.

(* Once a transaction that created or dropped storage has committed during a
   backup, the list of postponed removals can never be processed: every attempt
   after the backup ends the background writer, and nothing is taken off the
   list, whatever the memory contents were. *)
Theorem C52_refuted_postponed : forall cap ts h, (0 < cap)%nat ->
  let s := fst (run (step cap ts) init h) in
  p_loc (pending s) <> 0%nat -> backup s = false ->
  fatal (go cap s OCheck) = true /\ pending (go cap s OCheck) = pending s.
Proof. intros cap ts h C s N B. apply check_is_fatal; [apply (reach_inv cap ts h C)|exact N|exact B]. Qed.
(* Creating a table is enough; and the files of a dropped one stay for good. *)
Theorem C52_refuted_postponed_reached : forall stk,
  let s := fst (run (step 1000 [1]) init [OBackup true; OReplace 1 0 [] 10 [kk 10] true; OCommit 1 stk; OBackup false]) in
  p_loc (pending s) <> 0%nat /\ backup s = false.
Proof. intro stk. vm_compute. split; [intro E; discriminate E|reflexivity]. Qed.
Theorem C52_refuted_leak : forall n,
  let s := fst (run (step 1000 [1]) init ([OReplace 1 0 [] 10 [kk 10] true; OCommit 1 []; OBackup true; OReplace 1 10 [kk 10] 0 [] false; OCommit 1 []; OBackup false] ++ repeat OCheck n)) in
  disk s (kk 10) <> Absent /\ (0 < n -> fatal s = true)%nat.
Proof.
  intros n s. unfold s. rewrite run_app. set (s0 := run (step 1000 [1]) init _).
  assert (Y : forall z, pending (fst z) = pending (fst s0) -> backup (fst z) = false ->
       let z' := step 1000 [1] z OCheck in disk (fst z') (kk 10) = disk (fst z) (kk 10) /\ fatal (fst z') = true /\ pending (fst z') = pending (fst s0) /\ backup (fst z') = false).
  { intros z P B z'. subst z'. unfold step, allowed, go. cbn [fst]. rewrite B, P.
    assert (E : check_loop (S (p_loc (pending (fst s0)))) (p_file (pending (fst s0))) 0 (p_loc (pending (fst s0))) = ([], false)) by (vm_compute; reflexivity).
    assert (E2 : (false || (p_loc (pending (fst s0)) =? 0)%nat) = false) by (vm_compute; reflexivity).
    rewrite E, E2. cbn [fst snd disk fatal pending backup]. auto. }
  assert (W : forall m z, disk (fst z) (kk 10) = disk (fst s0) (kk 10) -> pending (fst z) = pending (fst s0) -> backup (fst z) = false ->
        let z' := run (step 1000 [1]) z (repeat OCheck m) in disk (fst z') (kk 10) = disk (fst s0) (kk 10) /\ (0 < m -> fatal (fst z') = true)%nat).
  { clear n s. induction m as [|m IH]; intros z D P B.
    - split; [exact D|lia].
    - destruct (Y z P B) as [Y1 [Y2 [Y3 Y4]]]. cbn [repeat run fold_left] in *.
      destruct (IH (step 1000 [1] z OCheck)) as [I1 I2]; [rewrite Y1; exact D|exact Y3|exact Y4|]. split; [exact I1|]. intros _.
      destruct m as [|m]; [exact Y2|]. apply I2. lia. }
  destruct (W n s0) as [W1 W2]; [reflexivity|reflexivity|vm_compute; reflexivity|]. split; [rewrite W1; vm_compute; intro E; discriminate E|exact W2].
Qed.
(* And before it ends, the background writer may remove the files of a table
   that nobody dropped: what it takes for the list is a part of the stack. *)
Theorem C52_refuted_innocent : exists h k, let sc := run (step 1000 [1]) init h in
  In k (committed (snd sc)) /\ disk (fst sc) k = Absent.
Proof.
  exists [OReplace 1 0 [] 10 [kk 10; kk 11; kk 12] true; OReplace 1 0 [] 70 [kk 70] true; OCommit 1 []; OBackup true;
    OReplace 1 10 [kk 10; kk 11; kk 12] 0 [] false;
    OCommit 1 (enc32 1 ++ enc32 2 ++ enc32 3 ++ enc32 4 ++ enc32 1 ++ enckey (kk 70)); OBackup false; OCheck], (kk 70).
  vm_compute. auto.
Qed.

Print Assumptions C52_files_partial.
Print Assumptions C52_durable_partial.
Print Assumptions C52_backup_partial.
Print Assumptions C52_refuted_postponed.
Print Assumptions C52_refuted_postponed_reached.
Print Assumptions C52_refuted_leak.
Print Assumptions C52_refuted_innocent.
