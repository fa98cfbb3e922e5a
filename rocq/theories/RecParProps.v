(** C35: replaying the log with any number of workers gives what replaying it serially
    gives, whatever the relative speed of the workers. *)
From Coq Require Import ZArith List Bool Lia.
From Coq Require Import ZifyBool ZifyNat.
From Verif Require Import Base RecSpec RecModel RecLemmas RecProofs RecProps RecParModel RecParProofs.
Import ListNotations.
Open Scope Z_scope.

(** [hash] assigns each key to a worker, [sched] interleaves the leader and the
    workers in any way.  Once the log and the queues are empty, every row (with all its
    versions) is what serial replay made it, and no worker waits for a row. *)
Theorem C35_parallel_is_serial : forall hash db0 l sched,
  r_stuck (replay (rinit db0) l) = false ->
  drained (prun hash db0 l sched) ->
  (forall k, p_rows (prun hash db0 l sched) k = r_rows (replay (rinit db0) l) k) /\
  (forall w, w_stuck (p_w (prun hash db0 l sched) w) = false).
Proof.
  intros hash db0 l sched NS D. split.
  - intros k. destruct (drained_rel hash db0 l sched D NS (hash k)) as (ld & R & _).
    apply (rl_rows _ _ _ _ _ _ R). reflexivity.
  - intros w. destruct (drained_rel hash db0 l sched D NS w) as (ld & R & _).
    apply (rl_wstuck _ _ _ _ _ _ R).
Qed.
Print Assumptions C35_parallel_is_serial.

(** The end of recovery: [acts] says in which order which worker aborts which
    transaction. *)
Lemma C35_finish : forall hash db0 l sched acts k,
  r_stuck (replay (rinit db0) l) = false ->
  drained (prun hash db0 l sched) ->
  p_contents (p_finish (prun hash db0 l sched) acts) k =
  contents (recovery_finish (replay (rinit db0) l)
              (map snd (filter (fun a => fst a =? hash k) acts))) k.
Proof.
  intros hash db0 l sched acts k NS D.
  assert (G : forall w, wgood hash w (p_w (prun hash db0 l sched) w)).
  { intros w. destruct (drained_rel hash db0 l sched D NS w) as (ld & _ & G). auto. }
  destruct (finish_rows hash (hash k) acts _ k G eq_refl) as (xs & A & ->).
  unfold p_contents, contents. rewrite A.
  destruct (drained_rel hash db0 l sched D NS (hash k)) as (ld & R & _).
  destruct (rel_finish_all hash db0 (hash k) (map snd (filter (fun a => fst a =? hash k) acts)) _ _ _ _ R) as (ld' & R').
  rewrite (rl_rows _ _ _ _ _ _ R' k eq_refl). reflexivity.
Qed.

(** With C34: whatever crash point [p], number of workers, schedule and order of the
    final aborts, each row reads as after the durable transactions in commit order. *)
Theorem C35_parallel_recovery_partial : forall hash ops p q db0 sched acts k,
  e_log (erun ops) = p ++ q ->
  e_hz (erun ops) = false ->
  drained (prun hash db0 p sched) ->
  (forall x, In x (r_known (replay (rinit db0) p)) -> In (hash k, x) acts) ->
  p_contents (p_finish (prun hash db0 p sched) acts) k =
  serial (durable p) (c_done (crun (e_hist (erun ops)))) db0 k.
Proof.
  intros hash ops p q db0 sched acts k EL HZ D HA.
  set (ord := map snd (filter (fun a => fst a =? hash k) acts)).
  assert (HI : incl (r_known (replay (rinit db0) p)) ord).
  { intros x Hx. unfold ord. apply in_map_iff. exists (hash k, x). split; auto.
    apply filter_In. split; auto. cbn. apply Z.eqb_refl. }
  destruct (recovery_correct ops p q db0 ord k HZ EL HI) as [NS E].
  rewrite C35_finish by auto. exact E.
Qed.
Print Assumptions C35_parallel_recovery_partial.

(** Two schedules, two numbers of workers: the same rows. *)
Corollary C35_any_two_runs_agree : forall hash1 hash2 db0 l sched1 sched2,
  r_stuck (replay (rinit db0) l) = false ->
  drained (prun hash1 db0 l sched1) -> drained (prun hash2 db0 l sched2) ->
  forall k, p_rows (prun hash1 db0 l sched1) k = p_rows (prun hash2 db0 l sched2) k.
Proof.
  intros. rewrite (proj1 (C35_parallel_is_serial hash1 db0 l sched1 H H0) k).
  rewrite (proj1 (C35_parallel_is_serial hash2 db0 l sched2 H H1) k). reflexivity.
Qed.
Print Assumptions C35_any_two_runs_agree.

(** ** The hypothesis [drained] can always be met: from whatever point, the leader and
    the [n] workers can finish. *)
Section Live.
Variable hash : key -> Z.
Variable n : nat.
Hypothesis Hh : forall k, 0 <= hash k < Z.of_nat n.

Definition inw (w : Z) : Prop := 0 <= w < Z.of_nat n.
Definition linv (ld : lead) : Prop := forall x w, l_used ld x w = true -> inw w.

Lemma linv_step : forall ld r, linv ld -> linv (lstep hash ld r).
Proof.
  intros ld r H. destruct r as [x k v|x p|x p|x|x|x h|h c]; cbn; try (destruct (l_fin ld x); auto; fail).
  - destruct (l_fin ld x); auto.
    destruct (match l_cache ld (hash k) with Some y => y =? x | None => false end); auto.
    intros y w. cbn. unfold upd. destruct (y =? x).
    + destruct (Z.eqb_spec w (hash k)) as [->|]; [intros _; apply Hh|apply H].
    + apply H.
  - destruct (l_fin ld x); auto. destruct (existsb (fun e => fst e =? x) (l_joint ld)); auto.
  - assert (A : forall js ld, linv ld ->
      linv (fold_left (fun ld e => if snd e =? h then l_finish ld (fst e) else ld) js ld)).
    { induction js as [|[y g] js IH]; intros l0 H0; cbn; auto. apply IH. destruct (g =? h); auto. }
    apply A. auto.
Qed.

Lemma lsend_inw : forall ld r w, linv ld -> lsend hash ld r w <> [] -> inw w.
Proof.
  intros ld r w H. destruct r as [x k v|x p|x p|x|x|x h|h c]; cbn; intros Q.
  - destruct (l_fin ld x); cbn in Q; [congruence|].
    destruct (Z.eqb_spec (hash k) w) as [<-|]; cbn in Q; [apply Hh|congruence].
  - destruct (l_fin ld x); cbn in Q; [congruence|]. destruct (l_used ld x w) eqn:U; cbn in Q; [eapply H; eauto|congruence].
  - destruct (l_fin ld x); cbn in Q; [congruence|]. destruct (l_used ld x w) eqn:U; cbn in Q; [eapply H; eauto|congruence].
  - destruct (l_fin ld x); cbn in Q; [congruence|]. destruct (l_used ld x w) eqn:U; cbn in Q; [eapply H; eauto|congruence].
  - destruct (l_fin ld x); cbn in Q; [congruence|]. destruct (l_used ld x w) eqn:U; cbn in Q; [eapply H; eauto|congruence].
  - congruence.
  - induction (l_joint ld) as [|[y g] js IH]; cbn in Q; [congruence|].
    destruct (l_used ld y w) eqn:U; [eapply H; eauto|]. rewrite andb_false_r in Q. apply IH. exact Q.
Qed.

Definition qinv (s : pst) : Prop := linv (p_lead s) /\ forall w, p_q s w <> [] -> inw w.

Lemma qinv_step : forall s a, qinv s -> qinv (pstep hash s a).
Proof.
  intros s a [A B]. destruct a as [|w]; cbn.
  - destruct (p_log s) as [|r l]; [split; auto|]. split; cbn; [apply linv_step; auto|].
    intros w Q. destruct (p_q s w) as [|m q] eqn:E.
    + cbn in Q. eapply lsend_inw; eauto.
    + apply B. rewrite E. discriminate.
  - destruct (p_q s w) as [|m q] eqn:E; [split; auto|].
    destruct (wstep (p_w s w) (p_rows s) m) as [t rows]. split; cbn; auto.
    intros v. unfold upd. destruct (Z.eqb_spec v w) as [->|]; auto. intros _. apply B. rewrite E. discriminate.
Qed.

Lemma qinv_run : forall sched s, qinv s -> qinv (fold_left (pstep hash) sched s).
Proof. induction sched; intros; cbn; auto. apply IHsched, qinv_step; auto. Qed.

Lemma read_all : forall l s, p_log s = l -> exists sched, p_log (fold_left (pstep hash) sched s) = [].
Proof.
  induction l as [|r l IH]; intros s E; [exists []; auto|].
  destruct (IH (pstep hash s PLead)) as (sc & H); [cbn; rewrite E; reflexivity|].
  exists (PLead :: sc). exact H.
Qed.

Lemma work_keeps : forall s w, p_log s = [] -> p_log (pstep hash s (PWork w)) = [].
Proof.
  intros. cbn. destruct (p_q s w); auto. destruct (wstep (p_w s w) (p_rows s) w0). auto.
Qed.

Lemma drain_one : forall q s w, p_log s = [] -> p_q s w = q -> exists sched,
  p_log (fold_left (pstep hash) sched s) = [] /\ p_q (fold_left (pstep hash) sched s) w = [] /\
  forall v, v <> w -> p_q (fold_left (pstep hash) sched s) v = p_q s v.
Proof.
  induction q as [|m q IH]; intros s w E Q; [exists []; auto|].
  destruct (IH (pstep hash s (PWork w)) w) as (sc & A & B & C).
  - apply work_keeps. auto.
  - cbn. rewrite Q. destruct (wstep (p_w s w) (p_rows s) m). cbn. apply upd_same.
  - exists (PWork w :: sc). split; [exact A|]. split; [exact B|]. intros v N. cbn [fold_left].
    rewrite C by auto. cbn. rewrite Q. destruct (wstep (p_w s w) (p_rows s) m). cbn. apply upd_other. auto.
Qed.

Lemma drain_upto : forall m s, p_log s = [] -> exists sched,
  p_log (fold_left (pstep hash) sched s) = [] /\
  (forall v, 0 <= v < Z.of_nat m -> p_q (fold_left (pstep hash) sched s) v = []).
Proof.
  induction m as [|m IH]; intros s E; [exists []; split; auto; intros; cbn in *; lia|].
  destruct (IH s E) as (sc & A & B).
  destruct (drain_one _ (fold_left (pstep hash) sc s) (Z.of_nat m) A eq_refl) as (sc2 & A2 & B2 & C2).
  exists (sc ++ sc2). rewrite fold_left_app. split; auto. intros v Hv.
  destruct (Z.eq_dec v (Z.of_nat m)) as [->|N]; auto. rewrite C2 by auto. apply B. lia.
Qed.

Lemma can_finish : forall db0 l sched0, exists sched, drained (prun hash db0 l (sched0 ++ sched)).
Proof.
  intros db0 l sched0.
  destruct (read_all _ (prun hash db0 l sched0) eq_refl) as (s1 & H1).
  destruct (drain_upto n _ H1) as (s2 & A & B).
  exists (s1 ++ s2). unfold prun in *. rewrite !fold_left_app. split; auto.
  intros w.
  assert (Q : qinv (fold_left (pstep hash) s2 (fold_left (pstep hash) s1 (fold_left (pstep hash) sched0 (pinit db0 l))))).
  { rewrite <- !fold_left_app. apply qinv_run. split; [intros x v; cbn; discriminate|cbn; congruence]. }
  destruct Q as [_ Q]. specialize (Q w).
  destruct (p_q (fold_left (pstep hash) s2 (fold_left (pstep hash) s1 (fold_left (pstep hash) sched0 (pinit db0 l)))) w) eqn:E; auto.
  exfalso. assert (inw w) by (apply Q; discriminate). rewrite (B w) in E by auto. discriminate.
Qed.
End Live.

Theorem C35_replay_finishes : forall hash n db0 l sched0,
  (forall k, 0 <= hash k < Z.of_nat n) ->
  exists sched, drained (prun hash db0 l (sched0 ++ sched)).
Proof. intros. eapply can_finish; eauto. Qed.
Print Assumptions C35_replay_finishes.

(** A case with two workers (even and odd keys): the second worker lags behind; savepoints
    and a transaction left unfinished. *)
Definition ex35_log : list lrec :=
  [LMod 1 10 (Some 1); LMod 1 11 (Some 2); LSave 1 7; LMod 1 12 (Some 3); LMod 1 11 (Some 9);
   LRb 1 7; LMod 2 13 (Some 4); LCommit 1; LMod 2 10 None; LMod 3 11 (Some 5);
   LJoint 3 20; LHeap 20 true; LMod 4 11 (Some 6)].
Definition ex35_hash (k : key) : Z := k mod 2.
Definition ex35_sched : list pact :=
  repeat PLead 5 ++ repeat (PWork 0) 3 ++ repeat PLead 8 ++ repeat (PWork 0) 10 ++ repeat (PWork 1) 15.

Example C35_case :
  let s := prun ex35_hash ex_db ex35_log ex35_sched in
  r_stuck (replay (rinit ex_db) ex35_log) = false /\
  p_log s = [] /\ p_q s 0 = [] /\ p_q s 1 = [] /\
  map (p_rows s) [10;11;12;13] =
    [[(Some 2, None); (Some 1, Some 1)]; [(Some 4, Some 6); (Some 3, Some 5); (Some 1, Some 2)];
     [(None, Some 100)]; [(Some 2, Some 4)]] /\
  map (p_contents (p_finish s [(1, 4); (0, 2); (1, 2); (0, 4)])) [10;11;12;13] =
    [Some 1; Some 5; Some 100; None].
Proof. vm_compute. repeat split; reflexivity. Qed.
