(** C40: unique constraints hold for every history of a unique index. *)
From Coq Require Import ZArith List Bool Lia.
From Verif Require Import Base UniqModel UniqSpec UniqProofs.
Import ListNotations.
Open Scope Z_scope.

(** At no time does a transaction see two live rows with one unique key, its
    own and the committed ones taken together. *)
Theorem C40_concurrent_inserts_unique : forall lockno s x k r1 r2, reachable lockno s ->
  live (seen_by (s_st s) x) (s_hist s k) r1 -> live (seen_by (s_st s) x) (s_hist s k) r2 -> r1 = r2.
Proof.
  intros lockno s x k r1 r2 R. pose proof (Inv_reach lockno s R) as I.
  apply split_unique; [apply (i_good _ _ I) | apply seen_by_split; apply (i_shape _ _ I)].
Qed.
Print Assumptions C40_concurrent_inserts_unique.

(** Nor does any snapshot, old or new, of the committed rows. *)
Theorem C40_snapshots_unique : forall lockno s n k r1 r2, reachable lockno s ->
  live (seen_at (s_st s) n) (s_hist s k) r1 -> live (seen_at (s_st s) n) (s_hist s k) r2 -> r1 = r2.
Proof.
  intros lockno s n k r1 r2 R. pose proof (Inv_reach lockno s R) as I.
  apply split_unique; [apply (i_good _ _ I) | apply seen_at_split; [apply (i_shape _ _ I) | apply (i_sort _ _ I)]].
Qed.
Print Assumptions C40_snapshots_unique.

(** An insert is refused only because of a row with the same key that its
    transaction sees as live. *)
Theorem C40_refused_for_a_live_row : forall lockno s o p k r r', reachable lockno s ->
  s_ph s p <> Refused k r r' -> s_ph (step lockno s o) p = Refused k r r' ->
  exists x, s_cur s p = Some x /\ live (seen_by (s_st s) x) (s_hist s k) r'.
Proof.
  intros lockno s o p k r r' R N H.
  assert (UP : forall q f, s_ph s p <> Refused k r r' -> upd (s_ph s) q f p = Refused k r r' -> q = p /\ f = Refused k r r').
  { intros q f NN E. unfold upd in E. destruct (Z.eqb_spec p q); [auto | congruence]. }
  destruct o as [q | q k0 r0 | q | q hi | q | q | q | q k0 r0 | q | q | q k0 | q]; cbn [step] in H.
  - destruct (s_cur s q); cbn in H; congruence.
  - destruct (s_ph s q), (running s q); cbn in H; try congruence. apply UP in H as [_ H]; [discriminate | exact N].
  - destruct (s_ph s q) as [|k0 r0|k0 r0 lo|k0 r0 y|k0 r0 r1|k0 r0]; try congruence. destruct (s_lock s (lockno k0)); [congruence|]. cbn in H. apply UP in H as [_ H]; [discriminate | exact N].
  - destruct (s_ph s q) as [|k0 r0|k0 r0 lo|k0 r0 y|k0 r0 r1|k0 r0] eqn:PH; try congruence. destruct (s_cur s q) as [x|] eqn:C; [|congruence].
    destruct (check (s_st s) x (s_hist s k0) lo hi) as [[r1 vd]|] eqn:CK.
    + unfold check in CK. destruct (find _ _) as [r2|] eqn:F; [|discriminate]. inversion CK; subst r2 vd. apply find_some in F as [_ F]. apply andb_true_iff in F as [_ F].
      destruct (check1 (s_st s) x (s_hist s k0) r1) eqn:C1; [discriminate| |]; cbn in H; (apply UP in H as [-> H]; [|exact N]); [|discriminate].
      inversion H; subst. exists x. split; [exact C | apply found_live; exact C1].
    + destruct hi as [b|]; [destruct lo as [a|]; [destruct (a <=? b); [|congruence]|]|]; cbn in H; (apply UP in H as [_ H]; [discriminate | exact N]).
  - destruct (s_ph s q) as [|k0 r0|k0 r0 lo|k0 r0 y|k0 r0 r1|k0 r0]; try congruence.
    destruct (s_st s y); cbn in H; try congruence; (apply UP in H as [_ H]; [discriminate | exact N]).
  - destruct (s_ph s q) as [|k0 r0|k0 r0 lo|k0 r0 y|k0 r0 r1|k0 r0]; try congruence. destruct (s_cur s q) as [x|] eqn:C; [|congruence].
    destruct (check1 (s_st s) x (s_hist s k0) r0) eqn:C1; cbn in H; try congruence; (apply UP in H as [-> H]; [|exact N]); [discriminate|].
    inversion H; subst. exists x. split; [exact C | apply found_live; exact C1].
  - destruct (s_ph s q) as [|k0 r0|k0 r0 lo|k0 r0 y|k0 r0 r1|k0 r0]; cbn in H; (apply UP in H as [_ H]; [discriminate | exact N]).
  - destruct (s_ph s q), (running s q); try congruence. destruct (check1 _ _ _ _); cbn in H; congruence.
  - destruct (s_ph s q), (running s q); cbn in H; congruence.
  - destruct (s_ph s q), (running s q); cbn in H; congruence.
  - destruct (s_ph s q), (s_cur s q); cbn in H; congruence.
  - destruct (s_cur s q) as [x|]; [|congruence]. destruct (s_st s x); cbn in H; congruence.
Qed.
Print Assumptions C40_refused_for_a_live_row.

(** An insert that was cleared goes through: nothing can come between the check
    and the insertion. *)
Theorem C40_cleared_insert_succeeds : forall lockno s p k r, reachable lockno s -> s_ph s p = Ready k r ->
  exists x, s_cur s p = Some x /\ s_hist (step lockno s (OInsert p)) k = mkV r x false :: s_hist s k.
Proof.
  intros lockno s p k r R H. pose proof (i_ph _ _ (Inv_reach lockno s R) p) as Q. unfold phase_ok in Q. rewrite H in Q.
  destruct Q as (_ & x & A & _ & C). exists x. split; [exact A|]. cbn [step]. rewrite H, A, (C r). cbn. apply upd_same.
Qed.
Print Assumptions C40_cleared_insert_succeeds.

(** An insert after a deletion, a wait and a refusal: session 1 deletes row 1 and inserts row
    2 with key 7 while session 2 checks the key; session 2 waits, and is refused
    after the commit. *)
Definition ex_ops : list op :=
  [OBegin 1; OStart 1 7 1; OLock 1; OCheck 1 None; OInsert 1; OCommit 1;
   OBegin 1; ODelete 1 7 1; OBegin 2; OStart 2 7 3; OStart 1 7 2; OLock 1; OLock 2; OCheck 1 (Some 2); OCheck 1 None; OInsert 1;
   OLock 2; OCheck 2 (Some 1); OCheck 2 (Some 4); OWake 2; OCommit 1; OWake 2; OLock 2; OCheck 2 (Some 2); OCheck 2 None].
Example ex_result :
  let s := run (step (fun k => k mod 4)) init ex_ops in
  s_ph s 2 = Refused 7 3 2 /\ s_hist s 7 = [mkV 2 1 false; mkV 1 1 true; mkV 1 0 false] /\
  live (seen_at (s_st s) 1) (s_hist s 7) 1 /\ live (seen_by (s_st s) 2) (s_hist s 7) 2.
Proof.
  cbv zeta. split; [reflexivity|]. split; [reflexivity|]. split.
  - exists [mkV 2 1 false; mkV 1 1 true], (mkV 1 0 false), []. vm_compute. repeat split; auto. intros w [<- | [<- | []]]; auto.
  - exists [], (mkV 2 1 false), [mkV 1 1 true; mkV 1 0 false]. vm_compute. repeat split; auto. intros w [].
Qed.
Example ex_ready : s_ph (run (step (fun k => k mod 4)) init [OBegin 1; OStart 1 7 1; OLock 1; OCheck 1 (Some 5); OCheck 1 None]) 1 = Ready 7 1.
Proof. reflexivity. Qed.
