(** C49: rewinding to an earlier moment. *)
From Coq Require Import ZArith List Bool Lia.
From Verif Require Import Base RewindModel RewindSpec RewindProofs.
Import ListNotations.
Open Scope Z_scope.

(** A rewind undoes exactly the queued transactions from the newest back to
    the first one for which the stop test holds, each once, newest first, with
    all its subtransactions and its own undo records — wherever evictions,
    restores and the worker have put the queue's entries, for every ring size
    and every schedule.  [s_af s = s_ar s] is what the rewind waits for. *)
Theorem C49_rewind_exact : forall c ops stop,
  LEN <= c_n c ->
  let s := run (step c) init ops in
  s_af s = s_ar s ->
  do_rewind c s stop = map whole (must_undo s stop).
Proof. intros c ops stop Hn s Ha. apply rewind_is; [exact Hn|apply inv_run; exact Hn|exact Ha]. Qed.

(** That wait ends once no backend is inside the queue: the count of filled
    entries is never left behind by the backends that raised it. *)
Theorem C49_wait_ends : forall c ops,
  LEN <= c_n c ->
  let s := run (step c) init ops in
  (forall q, outside (s_procs s q)) -> s_af s = s_ar s.
Proof. intros c ops Hn s H. apply (settled c); [apply inv_run; exact Hn|exact H]. Qed.

(** A transaction leaves the queue only when, at that moment, it was older
    than the configured age or the queue was longer than the configured
    number. *)
Theorem C49_kept_until_window : forall c ops x,
  LEN <= c_n c ->
  let s := run (step c) init ops in
  In x (completed s) ->
  exists it now len, In (fst x, it, now, len) (s_done s)
    /\ (c_maxage c <= now - stamp s (fst x) \/ c_maxt c < len).
Proof.
  intros c ops x Hn s Hx. destruct (inv2_run c ops Hn) as [I J]. fold s in I, J.
  unfold completed in Hx. apply filter_In in Hx. destruct Hx as [Hx Hc].
  pose proof (chain_in _ _ _ _ (ich _ _ I) Hx) as Hst.
  pose proof (iq _ _ I) as K.
  pose proof (qo2 _ _ _ _ _ _ _ _ _ K). pose proof (qo3 _ _ _ _ _ _ _ _ _ K). pose proof (qo4 _ _ _ _ _ _ _ _ _ K).
  destruct (dall _ _ J (fst x) ltac:(lia)) as [now [len H']].
  pose proof (qfill _ _ _ _ _ _ _ _ _ K (fst x) ltac:(lia)) as F.
  destruct (main_at _ _ _ I Hx F) as [r E].
  pose proof (dpass _ _ J) as P. rewrite Forall_forall in P. specialize (P _ H'). rewrite E in P.
  exists (s_hist s (fst x)), now, len. split; [exact H'|]. exact P.
Qed.

(** A transaction target that the checks accept is newer than every
    transaction that has left the queue, so all that came after it are there. *)
Theorem C49_accepted_target : forall c ops roxid cur oldest x,
  LEN <= c_n c ->
  let s := run (step c) init ops in
  roxid <> 0 ->
  check_target s 0 roxid cur oldest true = Accepted ->
  In x (completed s) -> t_oxid (snd x) < roxid.
Proof.
  intros c ops roxid cur oldest x Hn s Hr Ha Hx. destruct (inv2_run c ops Hn) as [I J]. fold s in I, J.
  unfold completed in Hx. apply filter_In in Hx. destruct Hx as [Hx Hc].
  pose proof (chain_in _ _ _ _ (ich _ _ I) Hx) as Hst.
  pose proof (iq _ _ I) as K.
  pose proof (qo2 _ _ _ _ _ _ _ _ _ K). pose proof (qo3 _ _ _ _ _ _ _ _ _ K). pose proof (qo4 _ _ _ _ _ _ _ _ _ K).
  pose proof (qfill _ _ _ _ _ _ _ _ _ K (fst x) ltac:(lia)) as F.
  destruct (main_at _ _ _ I Hx F) as [r E].
  pose proof (dco _ _ J (fst x) _ _ _ _ _ _ ltac:(lia) E) as D.
  unfold check_target in Ha. destruct (roxid =? 0) eqn:E0; [lia|]. cbn in Ha.
  destruct (roxid <=? s_co s) eqn:E1; [discriminate|]. lia.
Qed.

(** The rows.  If the queue lists the transactions in commit order, the
    rewind leaves the rows of the transactions before the undone ones. *)
Theorem C49_state_partial : forall c ops stop,
  LEN <= c_n c ->
  let s := run (step c) init ops in
  s_af s = s_ar s -> queued_in_commit_order s ->
  exists before after,
    s_commits s = before ++ after /\ rev after = must_undo s stop
    /\ forall k, rewound c s stop k = rows_of before k.
Proof.
  intros c ops stop Hn s Ha Hq. pose proof (inv_run c ops Hn) as I. fold s in I.
  pose proof (inv3_run c ops Hn) as E. fold s in E.
  destruct (take_while_prefix _ (fun x => negb (stop (t_oxid (snd x)) (t_xid (snd x)) (stamp s (fst x)))) (rev (kept s))) as [r Hr].
  set (tw := take_while _ (rev (kept s))) in *.
  assert (Hk : s_resv s = (completed s ++ rev r) ++ rev tw).
  { rewrite <- app_assoc, <- rev_app_distr, <- Hr, rev_involutive. unfold completed, kept.
    eapply kept_suffix. apply (ich _ _ I). }
  assert (Hm : must_undo s stop = map snd tw) by reflexivity.
  exists (map snd (completed s ++ rev r)), (map snd (rev tw)).
  split; [|split].
  - unfold queued_in_commit_order in Hq. rewrite <- Hq, Hk, map_app. reflexivity.
  - rewrite Hm, map_rev, rev_involutive. reflexivity.
  - intros k. unfold rewound. pose proof (C49_rewind_exact c ops stop Hn Ha) as Ex. fold s in Ex. rewrite Ex.
    rewrite Hm. rewrite (edb _ E). unfold queued_in_commit_order in Hq. rewrite <- Hq, Hk, map_app.
    replace (map snd tw) with (rev (map snd (rev tw))) by (rewrite map_rev, rev_involutive; reflexivity).
    apply undo_suffix. intros t Ht. apply in_map_iff in Ht. destruct Ht as [x [X1 X2]]. subst t.
    apply (eul _ E). rewrite Hk. apply in_or_app. right. exact X2.
Qed.

(** With identifiers in commit order too, rewinding to an accepted OrioleDB
    transaction leaves the rows of exactly the transactions before it. *)
Theorem C49_to_transaction_partial : forall c ops roxid cur oldest,
  LEN <= c_n c ->
  let s := run (step c) init ops in
  s_af s = s_ar s -> queued_in_commit_order s -> ids_grow (s_commits s) ->
  roxid <> 0 -> check_target s 0 roxid cur oldest true = Accepted ->
  forall k, rewound c s (stop_xid 0 roxid) k
          = rows_of (filter (fun t => t_oxid t <? roxid) (s_commits s)) k.
Proof.
  intros c ops roxid cur oldest Hn s Ha Hq Hg Hr Hacc k.
  destruct (C49_state_partial c ops (stop_xid 0 roxid) Hn Ha Hq) as [be [af [E1 [E2 E3]]]]. fold s in E1, E2, E3.
  rewrite E3. f_equal.
  assert (Hs : forall x, In x (completed s) -> t_oxid (snd x) < roxid)
    by (intros x Hx; exact (C49_accepted_target c ops roxid cur oldest x Hn Hr Hacc Hx)).
  pose proof (inv_run c ops Hn) as I. fold s in I.
  assert (Hk : s_commits s = map snd (completed s) ++ map snd (kept s)).
  { rewrite <- Hq, <- map_app. f_equal. unfold completed, kept. eapply kept_suffix. apply (ich _ _ I). }
  assert (M : must_undo s (stop_xid 0 roxid) = rev (filter (fun t => roxid <=? t_oxid t) (s_commits s))).
  { rewrite <- (walk_ids _ roxid Hg). unfold must_undo.
    change (map snd (take_while (fun x : Z * tx => negb (stop_xid 0 roxid (t_oxid (snd x)) (t_xid (snd x)) 0)) (rev (kept s)))
            = take_while (fun t => roxid <=? t_oxid t) (rev (s_commits s))).
    rewrite (take_while_map _ _ (@snd Z tx) (fun t => negb (stop_xid 0 roxid (t_oxid t) (t_xid t) 0)) (rev (kept s))).
    rewrite map_rev.
    assert (Ex : take_while (fun t => negb (stop_xid 0 roxid (t_oxid t) (t_xid t) 0)) (rev (map snd (kept s)))
               = take_while (fun t => roxid <=? t_oxid t) (rev (map snd (kept s)))).
    { apply take_while_ext. intros t Ht. apply in_rev in Ht.
      assert (0 < t_oxid t) by (apply (ids_pos _ _ Hg); rewrite Hk; apply in_or_app; right; exact Ht).
      unfold stop_xid. cbn. destruct (roxid =? 0) eqn:X; [lia|]. destruct (t_oxid t =? 0) eqn:Y; [lia|]. cbn.
      destruct (t_oxid t <? roxid) eqn:W; cbn; lia. }
    rewrite Ex, Hk, rev_app_distr.
    destruct (rev (map snd (completed s))) as [|t0 r0] eqn:Er; [rewrite app_nil_r; reflexivity|].
    symmetry. apply take_while_app_stop.
    assert (In t0 (map snd (completed s))) as Hin by (apply in_rev; rewrite Er; left; reflexivity).
    apply in_map_iff in Hin. destruct Hin as [x [X1 X2]]. subst t0. specialize (Hs x X2). lia. }
  rewrite M in E2. apply (f_equal (@rev tx)) in E2. rewrite !rev_involutive in E2.
  pose proof (ids_split (s_commits s) roxid Hg) as Sp. rewrite E1 in Sp at 1. rewrite E2 in Sp.
  apply app_inv_tail in Sp. exact Sp.
Qed.

(** The undo records a rewind needs are not given up, if every transaction
    writes its main entry before any transaction behind it in the queue has
    finished. *)
Theorem C49_undo_kept_partial : forall c ops x,
  LEN <= c_n c ->
  let s := run (step c) init ops in
  all_in_time c init ops ->
  In x (kept s) -> s_mrr s <= t_loc (snd x).
Proof.
  intros c ops x Hn s Ht Hx.
  pose proof (inv4_run c ops init Hn (inv_init c Hn) inv3_init inv4_init Ht) as J. fold s in J.
  unfold kept in Hx. apply filter_In in Hx. destruct Hx as [Hx Hc].
  destruct (fmrr _ J) as [_ [B _]]. apply B; [exact Hx|lia].
Qed.

(** A transaction whose entry does not fit into the ring waits for ever, in a
    critical section, whatever the other backends and the worker do. *)
Theorem C49_large_transaction_hangs : forall c ops ops' p,
  LEN <= c_n c ->
  let s := run (step c) init ops in
  waiting (s_procs s p) -> c_n c <= nitems (p_tx (s_procs s p)) ->
  waiting (s_procs (run (step c) s ops') p).
Proof.
  intros c ops ops' p Hn s W Hm.
  assert (G : Inv c (run (step c) s ops') /\ waiting (s_procs (run (step c) s ops') p)
              /\ c_n c <= nitems (p_tx (s_procs (run (step c) s ops') p))).
  { apply (run_inv _ _ (step c) (fun s => Inv c s /\ waiting (s_procs s p) /\ c_n c <= nitems (p_tx (s_procs s p)))).
    - intros s0 o [A [B D]]. destruct (waits c s0 o p Hn A B D) as [E F].
      split; [apply inv_step; assumption|]. split; [exact E|]. rewrite F. exact D.
    - split; [apply inv_run; exact Hn|]. split; assumption. }
  destruct G as [_ [G _]]. exact G.
Qed.

(** *** Schedules for the examples *)
Definition cfg1 : cfg := mkCfg 136 1000 1000000.
Definition enter (p now : Z) : list op := [OReserve p; OSpace p; OEvict p true; OFill p now; OBump p; OBump p].
Definition tx1 (o x row val : Z) : tx := mkTx o x [] 0 [(row, val)].

(** The steps of one transaction with 30 subtransactions (three entries). *)
Definition tx_subs : tx := mkTx 3 30 (map Z.of_nat (seq 100 30)) 0 [(8, 1); (7, 33)].
Definition enter_subs (p now : Z) : list op :=
  [OReserve p; OSpace p; OEvict p true; OFill p now; OFill p now; OFill p now; OBump p; OBump p;
   OBump p; OBump p; OBump p; OBump p; OBump p].

Definition plain : list op :=
  [OStart 1 (tx1 1 0 7 10); OCommit 1] ++ enter 1 100
  ++ [OStart 1 (tx1 2 20 7 20); OCommit 1] ++ enter 1 200
  ++ [OStart 2 tx_subs; OCommit 2] ++ enter_subs 2 300
  ++ [OStart 1 (tx1 4 40 7 40); OCommit 1] ++ enter 1 400.

(** The hypotheses of the theorems hold for four transactions; rewinding to
    the second undoes three and leaves the value of the first. *)
Example C49_plain :
  let s := run (step cfg1) init plain in
  s_af s = s_ar s /\ queued_in_commit_order s /\ ids_grow (s_commits s)
  /\ check_target s 0 2 50 3 true = Accepted
  /\ map t_oxid (must_undo s (stop_xid 0 2)) = [4; 3; 2]
  /\ map u_subs (do_rewind cfg1 s (stop_xid 0 2)) = [[]; map Z.of_nat (seq 100 30); []]
  /\ rewound cfg1 s (stop_xid 0 2) 7 = [(1, 10)] /\ rewound cfg1 s (stop_xid 0 2) 8 = [].
Proof.
  vm_compute. split; [reflexivity|]. split; [reflexivity|]. split.
  - repeat match goal with
           | |- _ /\ _ => split
           | |- True => exact Logic.I
           | |- Forall _ [] => constructor
           | |- Forall _ (_ :: _) => constructor
           | |- _ = _ => reflexivity
           end.
  - repeat (split; [reflexivity|]). reflexivity.
Qed.

(** A long history with evictions: 400 transactions through a ring of 136. *)
Fixpoint many (n : nat) (i : Z) : list op :=
  match n with
  | O => []
  | Datatypes.S m =>
      [OStart 1 (tx1 i 0 (i mod 3) i); OCommit 1; OReserve 1; OSpace 1; OEvict 1 true; OSpace 1; OEvict 1 true;
       OSpace 1; OEvict 1 true; OFill 1 (i * 10); OBump 1; OBump 1; OWTop; OWDecide (i * 10); OWRest]
      ++ many m (i + 1)
  end.
Definition cfg2 : cfg := mkCfg 136 300 1000000.
Example C49_evicted :
  let s := run (step cfg2) init (many 400 1) in
  s_af s = s_ar s /\ s_af s = 400 /\ s_c s < s_r s /\ s_r s < s_e s /\ s_e s < s_af s
  /\ 50 < Z.of_nat (length (completed s)) /\ 200 < Z.of_nat (length (kept s))
  /\ check_target s 0 150 0 0 true = Accepted
  /\ Z.of_nat (length (do_rewind cfg2 s (stop_xid 0 150))) = 251
  /\ rewound cfg2 s (stop_xid 0 150) 0 = rows_of (firstn 149 (s_commits s)) 0.
Proof. vm_compute. repeat (split; [reflexivity|]). reflexivity. Qed.

(** *** What fails *)

(** A commit is visible before its place in the queue is reserved.  A second
    transaction can change the same row, commit and enter the queue first;
    the rewind then meets the versions in the wrong order, skips the older
    one and leaves its value behind. *)
Definition first : list op := [OStart 1 (tx1 1 0 9 5); OCommit 1] ++ enter 1 90.
Definition overtaken : list op :=
  first ++ [OStart 1 (tx1 2 0 7 10); OCommit 1; OStart 2 (tx1 3 0 7 20); OCommit 2] ++ enter 2 100 ++ enter 1 101.
Theorem C49_refuted_commit_order :
  exists c ops roxid, LEN <= c_n c /\
    let s := run (step c) init ops in
    s_af s = s_ar s /\ (forall q, q = 1 \/ q = 2 -> outside (s_procs s q)) /\ ids_grow (s_commits s)
    /\ check_target s 0 roxid 50 3 true = Accepted
    /\ rows_of (filter (fun t => t_oxid t <? roxid) (s_commits s)) 7 = []
    /\ rewound c s (stop_xid 0 roxid) 7 = [(2, 10)].
Proof.
  exists cfg1, overtaken, 2. vm_compute. split; [discriminate|]. split; [reflexivity|].
  split; [intros q [E|E]; subst q; left; reflexivity|]. split.
  - repeat match goal with
           | |- _ /\ _ => split
           | |- True => exact Logic.I
           | |- Forall _ [] => constructor
           | |- Forall _ (_ :: _) => constructor
           | |- _ = _ => reflexivity
           end.
  - split; [reflexivity|]. split; reflexivity.
Qed.

(** The walk stops at the first smaller identifier.  A transaction that began
    before the target and committed after it ends the rewind at once: nothing
    is undone, not even the target. *)
Definition older : list op :=
  first ++ [OStart 1 (tx1 2 0 8 10); OStart 2 (tx1 3 0 7 20); OCommit 2] ++ enter 2 100 ++ [OCommit 1] ++ enter 1 101.
Theorem C49_refuted_older_transaction :
  exists c ops roxid, LEN <= c_n c /\
    let s := run (step c) init ops in
    s_af s = s_ar s /\ queued_in_commit_order s
    /\ check_target s 0 roxid 50 3 true = Accepted
    /\ map t_oxid (s_commits s) = [1; 3; 2]
    /\ do_rewind c s (stop_xid 0 roxid) = [] /\ rewound c s (stop_xid 0 roxid) 7 = [(3, 20)].
Proof.
  exists cfg1, older, 3. vm_compute. split; [discriminate|]. repeat (split; [reflexivity|]). reflexivity.
Qed.

(** Asked with a future heap identifier and a valid OrioleDB one, the
    function announces that it goes by the latter alone, and is stopped by
    the former at the first transaction that has a heap identifier. *)
Theorem C49_refuted_future_xid :
  exists c ops rxid roxid cur, LEN <= c_n c /\
    let s := run (step c) init ops in
    s_af s = s_ar s /\ queued_in_commit_order s /\ ids_grow (s_commits s)
    /\ precedes rxid cur = false
    /\ check_target s rxid roxid cur 3 true = Accepted
    /\ must_undo s (stop_xid 0 roxid) <> []
    /\ do_rewind c s (stop_xid rxid roxid) = [].
Proof.
  exists cfg1, plain, 4000, 2, 50. vm_compute. split; [discriminate|]. split; [reflexivity|]. split; [reflexivity|]. split.
  - repeat match goal with
           | |- _ /\ _ => split
           | |- True => exact Logic.I
           | |- Forall _ [] => constructor
           | |- Forall _ (_ :: _) => constructor
           | |- _ = _ => reflexivity
           end.
  - split; [reflexivity|]. split; [reflexivity|]. split; [discriminate|reflexivity].
Qed.

(** The retain location goes into the entry when it is written, not when its
    place is taken.  A transaction behind it in the queue can finish between
    the two; when the first one leaves the queue, the undo records of the
    second, still in the window, are given up. *)
Definition late_entry : list op :=
  [OStart 2 (tx1 1 0 8 10); OStart 1 (tx1 2 0 7 20); OCommit 1; OReserve 1; OCommit 2] ++ enter 2 100
  ++ [ORetain 1; OSpace 1; OEvict 1 true; OFill 1 101; OBump 1; OBump 1; OBump 1; OBump 1; OBump 1; OBump 1;
      OWTop; OWDecide 102; OWRest; OWTop; OWDecide 103].
Theorem C49_refuted_undo_dropped :
  exists c ops x, LEN <= c_n c /\
    let s := run (step c) init ops in
    s_af s = s_ar s /\ In x (kept s) /\ must_undo s (stop_xid 0 1) = [snd x]
    /\ t_loc (snd x) < s_mrr s.
Proof.
  exists (mkCfg 136 1 1000000), late_entry, (1, mkTx 1 0 [] 0 [(8, 10)]).
  vm_compute. split; [discriminate|]. split; [reflexivity|]. split; [left; reflexivity|]. split; reflexivity.
Qed.

(** The hang exists: 68 entries, a transaction with 1675 subtransactions. *)
Example C49_hang_reached :
  let c := mkCfg 68 1000 1000000 in
  let s := run (step c) init
    [OStart 1 (mkTx 1 5 (map Z.of_nat (seq 10 1675)) 0 [(1, 1)]); OCommit 1; OReserve 1] in
  LEN <= c_n c /\ waiting (s_procs s 1) /\ c_n c <= nitems (p_tx (s_procs s 1)).
Proof. vm_compute. split; [discriminate|]. split; [exact Logic.I|discriminate]. Qed.

(** The schedule condition of [C49_undo_kept_partial] is met by [plain]. *)
Example C49_in_time :
  all_in_time cfg1 init plain /\ kept (run (step cfg1) init plain) <> [].
Proof.
  split; [|vm_compute; discriminate].
  vm_compute. repeat match goal with
           | |- _ /\ _ => split
           | |- True => exact Logic.I
           | |- _ -> _ => intro
           | |- forall _, _ => intro
           | H : False |- _ => contradiction
           | H : _ \/ _ |- _ => destruct H
           | H : (_, _) = ?y |- _ => subst y
           | H : Fill _ = Fill _ |- _ => clear H || discriminate H
           end; try discriminate; try (cbn in *; congruence); try (cbn; tauto); try (left; reflexivity);
         cbn in *; try (exfalso; match goal with H : ?a <> Gt |- False => apply H; reflexivity end).
Qed.

Print Assumptions C49_rewind_exact.
Print Assumptions C49_wait_ends.
Print Assumptions C49_kept_until_window.
Print Assumptions C49_accepted_target.
Print Assumptions C49_state_partial.
Print Assumptions C49_to_transaction_partial.
Print Assumptions C49_undo_kept_partial.
Print Assumptions C49_large_transaction_hangs.
Print Assumptions C49_refuted_commit_order.
Print Assumptions C49_refuted_older_transaction.
Print Assumptions C49_refuted_future_xid.
Print Assumptions C49_refuted_undo_dropped.
