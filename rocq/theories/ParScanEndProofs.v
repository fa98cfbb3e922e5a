(** A scan that ends has given every key to some worker. *)
From Coq Require Import ZArith List Bool Lia ZifyBool Permutation.
From Verif Require Import Base ParScanModel ParScanSpec ParScanProofs ParScanStepProofs ParScanTotalProofs ParScanRunProofs.
Import ListNotations.
Open Scope Z_scope.

Ltac nn f Hnn l := pose proof (sumf_nonneg f l Hnn).

Lemma sums_le : forall s,
  0 <= F f_done s <= F f_disk s /\ F f_disk s <= F f_wait s <= F f_end s /\
  0 <= F f_hold s /\ 0 <= F f_writ s.
Proof.
  intro s. unfold F. repeat split.
  - apply sumf_nonneg, f_done_nn.
  - apply sumf_le. intros []; cbn; lia.
  - apply sumf_le. intros []; cbn; lia.
  - apply sumf_le. intros []; cbn; lia.
  - apply sumf_nonneg, f_hold_nn.
  - apply sumf_nonneg, f_writ_nn.
Qed.

(** One worker changes from [x] to [v]. *)
Lemma F_set : forall f s l w x v, worker s w = x -> x <> Done ->
  s_ws l = set_nth (s_ws s) w v -> F f l = F f s - f x + f v.
Proof.
  intros f s l w x v Hw Hd E. unfold F. rewrite E. unfold worker in Hw.
  rewrite sumf_set by (rewrite Hw; exact Hd). rewrite Hw. reflexivity.
Qed.

Lemma F_at : forall f s w x, (forall y, 0 <= f y) -> worker s w = x -> x <> Done -> f x <= F f s.
Proof.
  intros f s w x P Hw Hd. unfold F. unfold worker in Hw. subst x. apply sumf_nth; assumption.
Qed.

Lemma no_writing : forall s, (forall a r, ~ In (Writing a r) (s_ws s)) -> F f_writ s = 0.
Proof.
  intros s H. unfold F. apply sumf_zero. intros x Hx. destruct x; cbn; auto. destruct (H _ _ Hx).
Qed.

Lemma ext_step : forall s o, Inv s -> quiet_step s o -> Ext s -> Ext (step s o).
Proof.
  intros s o I Q X. assert (XX := X). destruct X as [X1 X2 X3 X4 X5].
  pose proof (hold_ge s o I X5) as HG.
  pose proof (ended_step s o I) as ES.
  destruct (sums_le s) as [S1 [S2 [S3 S4]]].
  destruct o as [w|w i|w|w ok|w|w|w|w]; cbn [step] in *.
  - (* Look *)
    destruct (worker s w) eqn:E; auto.
    destruct (look_ws s w) as [En|[En|[v [En [V1 V2]]]]].
    + rewrite ended_look in * by exact En.
      assert (FS := fun f => F_set f s (setw s w AtEnd) w Idle AtEnd E ltac:(discriminate) eq_refl).
      constructor; auto; rewrite ?FS; cbn [f_end f_wait f_hold f_writ f_done setw s_sorted s_arr s_ix].
      * intros W. rewrite X2 by lia. reflexivity.
      * intros W. destruct (X3 W) as [? [? ?]]. repeat split; try lia. auto.
      * intros W. apply X4. lia.
    + assert (FS : forall f, F f (look s w) = F f s) by (intro f; unfold F; rewrite En; reflexivity).
      assert (SS : s_sorted (look s w) = s_sorted s /\ s_arr (look s w) = s_arr s /\ s_ix (look s w) = s_ix s).
      { unfold look. destruct (s_single s); [auto|]. destruct (get s (s_cur s)) as [|p|st lm pv t hi]; auto.
        - destruct (s_first s); auto.
        - destruct (get s (negb (s_cur s))); [destruct hi|..]; destruct t; auto. }
      destruct SS as [SS1 [SS2 SS3]].
      constructor; auto; rewrite ?FS, ?SS1, ?SS2, ?SS3; auto.
      intros W. destruct (X3 W) as [? [? ?]]. auto.
    + assert (FS := fun f => F_set f s (look s w) w Idle v E ltac:(discriminate) En).
      assert (SS : s_sorted (look s w) = s_sorted s /\ s_arr (look s w) = s_arr s /\ s_ix (look s w) = s_ix s).
      { unfold look. destruct (s_single s); [auto|]. destruct (get s (s_cur s)) as [|p|st lm pv t hi]; auto.
        - destruct (s_first s); auto.
        - destruct (get s (negb (s_cur s))); [destruct hi|..]; destruct t; auto. }
      destruct SS as [SS1 [SS2 SS3]].
      assert (D : ended s \/ (F f_end s = 0 /\ s_sorted s = false)).
      { destruct (s_sorted s) eqn:So; [left; apply X3; reflexivity|].
        destruct (Z.eq_dec (F f_end s) 0); [right; auto|left; apply X1; lia]. }
      destruct D as [D|[D1 D2]].
      * exfalso. rewrite ended_look in En by exact D. cbn in En.
        assert (N : nth w (s_ws s) Done <> Done) by (unfold worker in E; rewrite E; discriminate).
        pose proof (sumf_set f_end (s_ws s) w AtEnd N) as Y1.
        pose proof (sumf_set f_end (s_ws s) w v N) as Y2.
        rewrite <- En in Y2. cbn in Y1. lia.
      * assert (V3 : f_wait v = 0) by (destruct v; cbn in *; lia).
        assert (V4 : f_done v = 0) by (destruct v; cbn in *; lia).
        constructor; auto; rewrite ?FS, ?SS1; cbn [f_end f_wait f_done f_hold f_writ]; try lia; try (rewrite D2; discriminate).
  - (* Load *)
    destruct (worker s w) as [| b | | | | | |] eqn:E; auto.
    destruct (get s b) as [|prev|] eqn:G; auto.
    destruct (found prev i); auto. destruct (load prev i) as [v it].
    assert (FS := fun f => F_set f s (setw (emit (set_first (put s b v)) it) w Idle) w (Loading b) Idle E ltac:(discriminate) eq_refl).
    constructor; auto; rewrite ?FS; cbn; try (intros W; rewrite ?X2 by lia; reflexivity).
    + intros W. apply ES, X1. lia.
    + intros W. destruct (X3 W) as [? [? ?]]. repeat split; try lia. apply ES. assumption.
    + intros W. apply X4. lia.
  - (* LoadLeaf *)
    destruct (worker s w) as [| b | | | | | |] eqn:E; auto.
    destruct (get s b) as [|[p|]|] eqn:G; auto.
    assert (FS := fun f => F_set f s (setw (emit (set_single s) [(None, None)]) w Idle) w (Loading b) Idle E ltac:(discriminate) eq_refl).
    constructor; auto; rewrite ?FS; cbn; try (intros W; rewrite ?X2 by lia; reflexivity).
    + intros W. apply ES, X1. lia.
    + intros W. destruct (X3 W) as [? [? ?]]. repeat split; try lia. apply ES. assumption.
    + intros W. apply X4. lia.
  - (* Read *)
    destruct (worker s w) as [| | d kl lo hi | | | | |] eqn:E; auto.
    assert (HP : 1 <= F f_hold s) by (exact (F_at f_hold s w _ f_hold_nn E ltac:(discriminate))).
    assert (NS : s_sorted s = false).
    { destruct (s_sorted s) eqn:So; [|reflexivity]. destruct (X3 eq_refl) as [_ [? _]]. lia. }
    destruct d; cbn [read] in *.
    + assert (FS := fun f => F_set f s (setw (addw s (-1)) w (Writing a (lo, hi))) w _ _ E ltac:(discriminate) eq_refl).
      constructor; auto; rewrite ?FS; cbn; try (intros W; exfalso; rewrite X2 in HP; lia).
      all: first [intros W; apply ES, X1; lia | rewrite NS; discriminate | intros W; apply X4; lia].
    + assert (FS := fun f => F_set f s (setw (emit (addw s (-1)) [(if ok then lo else kl, hi)]) w Idle) w _ _ E ltac:(discriminate) eq_refl).
      constructor; auto; rewrite ?FS; cbn; try (intros W; exfalso; rewrite X2 in HP; lia).
      all: first [intros W; apply ES, X1; lia | rewrite NS; discriminate | intros W; apply X4; lia].
    + assert (FS := fun f => F_set f s (setw (emit (addw s (-1)) [(kl, hi)]) w Idle) w _ _ E ltac:(discriminate) eq_refl).
      constructor; auto; rewrite ?FS; cbn; try (intros W; exfalso; rewrite X2 in HP; lia).
      all: first [intros W; apply ES, X1; lia | rewrite NS; discriminate | intros W; apply X4; lia].
  - (* Write *)
    destruct (worker s w) as [| | | a r | | | |] eqn:E; auto.
    assert (HP : 1 <= F f_writ s) by (exact (F_at f_writ s w _ f_writ_nn E ltac:(discriminate))).
    assert (NS : s_sorted s = false).
    { destruct (s_sorted s) eqn:So; [|reflexivity]. destruct (X3 eq_refl) as [? _]. lia. }
    assert (FS := fun f => F_set f s (setw (set_arr s (s_arr s ++ [(a, r)]) (s_ix s) (s_sorted s)) w Idle) w _ _ E ltac:(discriminate) eq_refl).
    constructor; auto; rewrite ?FS; cbn.
    + intros W. apply ES, X1. lia.
    + intros W. rewrite X2 by lia. reflexivity.
    + rewrite NS. discriminate.
    + intros W. destruct X4 as [_ X4]; [lia|]. congruence.
  - (* Wait *)
    destruct (worker s w) eqn:E; auto.
    destruct (s_writers s >? 0) eqn:Wr; auto.
    assert (HP : 1 <= F f_end s) by (exact (F_at f_end s w _ f_end_nn E ltac:(discriminate))).
    assert (FS := fun f => F_set f s (setw s w Waited) w _ _ E ltac:(discriminate) eq_refl).
    pose proof (v_writers s I).
    constructor; auto; rewrite ?FS; cbn.
    + intros W. apply ES, X1. lia.
    + intros W. lia.
    + intros W. destruct (X3 W) as [? [? ?]]. repeat split; try lia. apply ES. assumption.
    + intros W. apply X4. lia.
  - (* Sort *)
    destruct (worker s w) eqn:E; auto.
    assert (HP : 1 <= F f_end s) by (exact (F_at f_end s w _ f_end_nn E ltac:(discriminate))).
    assert (HW : 1 <= F f_wait s) by (exact (F_at f_wait s w _ f_wait_nn E ltac:(discriminate))).
    specialize (X1 ltac:(lia)). specialize (X2 ltac:(lia)). specialize (ES X1).
    cbn in Q.
    assert (NW : F f_writ s = 0).
    { destruct (s_sorted s) eqn:So; [apply X3; reflexivity|].
      apply no_writing. exact (Q E eq_refl). }
    pose proof (v_ix s I) as VX.
    assert (ND : s_sorted s = false -> F f_done s = 0) by (intro So; destruct (VX So); lia).
    destruct (s_sorted s) eqn:So.
    + assert (FS := fun f => F_set f s (setw s w Disk) w _ _ E ltac:(discriminate) eq_refl).
      constructor; auto; rewrite ?FS; cbn; try lia.
      all: first [intros _; repeat split; first [lia|exact ES] | intros W; split; [apply X4; lia|exact So]].
    + assert (FS := fun f => F_set f s (setw (set_arr s (sort_dl (s_arr s)) 0 true) w Disk) w _ _ E ltac:(discriminate) eq_refl).
      specialize (ND eq_refl).
      constructor; auto; rewrite ?FS; cbn; try lia.
      intros _. repeat split; try lia. exact ES.
  - (* Claim *)
    destruct (worker s w) eqn:E; auto.
    assert (HP : 1 <= F f_end s) by (exact (F_at f_end s w _ f_end_nn E ltac:(discriminate))).
    assert (HD : 1 <= F f_disk s) by (exact (F_at f_disk s w _ f_disk_nn E ltac:(discriminate))).
    assert (So : s_sorted s = true).
    { destruct (s_sorted s) eqn:So; [reflexivity|]. destruct (v_ix s I So). lia. }
    specialize (X1 ltac:(lia)). specialize (ES X1).
    destruct (nth_error (s_arr s) (s_ix s)) as [e|] eqn:N.
    + constructor.
      * intros _. exact ES.
      * exact X2.
      * intros _. destruct (X3 So) as [Y1 [Y2 _]]. split; [exact Y1|]. split; [exact Y2|exact ES].
      * intros W. destruct (X4 W) as [Y _]. cbn. split; [lia|exact So].
      * exact HG.
    + apply nth_error_None in N.
      assert (FS := fun f => F_set f s (setw (set_arr s (s_arr s) (S (s_ix s)) (s_sorted s)) w Done) w _ _ E ltac:(discriminate) eq_refl).
      constructor; auto; rewrite ?FS; cbn.
      * intros W. rewrite X2 by lia. reflexivity.
      * intros W. destruct (X3 W) as [? [? ?]]. repeat split; try lia. exact ES.
      * intros W. split; [lia|exact So].
Qed.

Lemma total_ge : forall s o k, Inv s -> quiet_step s o -> Ext s -> total s k <= total (step s o) k.
Proof.
  intros s o k I Q [X1 X2 X3 X4 X5]. destruct o as [w|w i|w|w ok|w|w|w|w].
  - cbn [step]. destruct (worker s w) eqn:E; try lia. rewrite look_total by assumption. lia.
  - rewrite load_total by assumption. lia.
  - rewrite leaf_total by assumption. lia.
  - apply read_ge. exact X5.
  - destruct (s_sorted s) eqn:So.
    + destruct (X3 eq_refl) as [X3' _]. cbn [step].
      destruct (worker s w) eqn:E; try lia.
      pose proof (F_at f_writ s w _ f_writ_nn E ltac:(discriminate)). cbn in H. lia.
    + rewrite write_eq; [lia|]. apply (v_ix s I So).
  - rewrite wait_eq. lia.
  - rewrite sort_eq by assumption. lia.
  - rewrite claim_eq. lia.
Qed.

Lemma run_ge : forall ops s k, Inv s -> Ext s -> quiet s ops ->
  total s k <= total (run step s ops) k /\ Inv (run step s ops) /\ Ext (run step s ops).
Proof.
  induction ops as [|o t IH]; intros s k I X H; [cbn; auto with zarith|].
  destruct H as [H1 H2]. change (run step s (o :: t)) with (run step (step s o) t).
  pose proof (total_ge s o k I H1 X).
  destruct (IH (step s o) k (step_inv s o I) (ext_step s o I H1 X) H2) as [A B]. split; [lia|exact B].
Qed.

Lemma init_ext : forall n, Ext (init n).
Proof.
  intro n. constructor; cbn; unfold F; cbn; try discriminate;
    try (rewrite sumf_repeat by reflexivity; lia). apply init_hold.
Qed.

Lemma step_len : forall s o, length (s_ws (step s o)) = length (s_ws s).
Proof.
  assert (L : forall l n v, length (set_nth l n v) = length l).
  { induction l as [|x t IH]; intros [|n] v; cbn; auto. }
  intros s o. destruct o as [w|w i|w|w ok|w|w|w|w]; cbn [step]; destruct (worker s w); auto.
  - unfold look. destruct (s_single s); [apply L|].
    destruct (get s (s_cur s)) as [|p|st lm pv t hi]; auto.
    + destruct (s_first s); apply L.
    + destruct (get s (negb (s_cur s))); [destruct hi|..]; destruct t; cbn; auto.
  - destruct (get s b); auto. destruct (found prev i); auto. destruct (load prev i); cbn; apply L.
  - destruct (get s b) as [|[p|]|]; auto. cbn. apply L.
  - destruct d; cbn; apply L.
  - cbn. apply L.
  - destruct (s_writers s >? 0); auto. cbn. apply L.
  - destruct (s_sorted s); cbn; apply L.
  - destruct (nth_error (s_arr s) (s_ix s)); cbn; auto.
Qed.

Lemma run_len : forall ops s, length (s_ws (run step s ops)) = length (s_ws s).
Proof.
  induction ops as [|o t IH]; intro s; [reflexivity|].
  change (run step s (o :: t)) with (run step (step s o) t). rewrite IH. apply step_len.
Qed.

Lemma finished_total : forall s k, Inv s -> Ext s -> s_ws s <> [] -> finished s ->
  total s k = times (s_read s) k.
Proof.
  intros s k I [X1 X2 X3 X4 X5] Ne Fi.
  assert (D : 1 <= F f_done s).
  { destruct (s_ws s) as [|x t] eqn:E; [contradiction|].
    assert (x = Done) by (apply Fi; rewrite E; left; reflexivity). subst x.
    unfold F. rewrite E. cbn [sumf f_done]. pose proof (sumf_nonneg f_done t f_done_nn). lia. }
  destruct (sums_le s) as [S1 [S2 _]].
  destruct (X4 ltac:(lia)) as [A _]. specialize (X1 ltac:(lia)).
  unfold total, queued. rewrite skipn_all2 by exact A. cbn [map times].
  assert (H : F (held k) s = 0).
  { unfold F. apply sumf_zero. intros x Hx. rewrite (Fi x Hx). reflexivity. }
  assert (R : remain s k = 0).
  { unfold remain. destruct X1 as [X1|[X1 Y1]]; unfold rem.
    - rewrite X1. reflexivity.
    - destruct (s_single s); [reflexivity|]. rewrite Y1, X1. reflexivity. }
  lia.
Qed.
