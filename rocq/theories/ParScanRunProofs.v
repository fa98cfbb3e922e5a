(** What holds along every run of the scan. *)
From Coq Require Import ZArith List Bool Lia ZifyBool Permutation.
From Verif Require Import Base ParScanModel ParScanSpec ParScanProofs ParScanStepProofs ParScanTotalProofs.
Import ListNotations.
Open Scope Z_scope.

Lemma sumf_le : forall f g l, (forall x, f x <= g x) -> sumf f l <= sumf g l.
Proof. intros f g l H. induction l as [|x t IH]; cbn; [lia|]. specialize (H x). lia. Qed.

(** The low keys of held downlinks. *)
Lemma hold_set : forall P s l w v, hold_ok P s -> s_ws l = set_nth (s_ws s) w v ->
  (forall d kl lo hi, v = Holding d kl lo hi -> P kl lo) -> hold_ok P l.
Proof.
  intros P s l w v H E Hv d kl lo hi I. rewrite E in I. apply set_nth_in in I.
  destruct I as [I|I]; [exact (Hv _ _ _ _ (eq_sym I))|exact (H _ _ _ _ I)].
Qed.

Lemma hold_other : forall P s o, hold_ok P s ->
  match o with Look _ => True | _ => hold_ok P (step s o) end.
Proof.
  intros P s o H. destruct o as [w|w i|w|w ok|w|w|w|w]; auto; cbn [step].
  - destruct (worker s w); auto. destruct (get s b); auto. destruct (found prev i); auto.
    destruct (load prev i) as [v it]. eapply (hold_set P s _ w Idle H); [reflexivity|discriminate].
  - destruct (worker s w); auto. destruct (get s b) as [|[p|]|]; auto.
    eapply (hold_set P s _ w Idle H); [reflexivity|discriminate].
  - destruct (worker s w); auto. destruct d; cbn [read].
    + eapply (hold_set P s _ w (Writing a (lo, hi)) H); [reflexivity|discriminate].
    + eapply (hold_set P s _ w Idle H); [reflexivity|discriminate].
    + eapply (hold_set P s _ w Idle H); [reflexivity|discriminate].
  - destruct (worker s w); auto. eapply (hold_set P s _ w Idle H); [reflexivity|discriminate].
  - destruct (worker s w); auto. destruct (s_writers s >? 0); auto.
    eapply (hold_set P s _ w Waited H); [reflexivity|discriminate].
  - destruct (worker s w); auto. destruct (s_sorted s);
    eapply (hold_set P s _ w Disk H); try reflexivity; discriminate.
  - destruct (worker s w); auto. destruct (nth_error (s_arr s) (s_ix s)); [exact H|].
    eapply (hold_set P s _ w Done H); [reflexivity|discriminate].
Qed.

(** The state of a worker after [look], and the low key it was given. *)
Lemma look_hold : forall P s w, hold_ok P s ->
  (forall st lm pv lo d rest hi, get s (s_cur s) = Valid st lm pv (Items lo d rest) hi ->
     P (low_key st lm pv lo) lo) ->
  hold_ok P (look s w).
Proof.
  intros P s w H N. unfold look.
  destruct (s_single s); [eapply (hold_set P s _ w _ H); [reflexivity|discriminate]|].
  destruct (get s (s_cur s)) as [|p|st lm pv t hi] eqn:G; auto.
  - destruct (s_first s); eapply (hold_set P s _ w _ H); try reflexivity; discriminate.
  - assert (Q : hold_ok P match t with
      | Items lo d rest => setw (addw (put s (s_cur s) (Valid false lm pv (advance rest) hi)) 1) w
          (Holding d (low_key st lm pv lo) lo (next_key rest hi))
      | Nothing => flip (put s (s_cur s) Invalid) end).
    { destruct t as [|lo d rest]; [exact H|].
      eapply (hold_set P s _ w _ H); [reflexivity|].
      intros d' kl' lo' hi' E. injection E as _ <- <- _. exact (N _ _ _ _ _ _ _ eq_refl). }
    destruct (get s (negb (s_cur s))); [|exact Q|exact Q].
    destruct hi; [|exact Q]. eapply (hold_set P s _ w _ H); [reflexivity|discriminate].
Qed.

Lemma hold_ge : forall s o, Inv s -> hold_ok (fun kl lo => kl = None \/ kl = lo) s ->
  hold_ok (fun kl lo => kl = None \/ kl = lo) (step s o).
Proof.
  intros s o I H. pose proof (hold_other _ s o H) as O. destruct o; auto.
  cbn [step]. destruct (worker s w) eqn:E; auto.
  destruct (s_single s) eqn:Si.
  - unfold look. rewrite Si. eapply (hold_set _ s _ w _ H); [reflexivity|discriminate].
  - apply look_hold; [exact H|]. intros st lm pv lo d rest hi G.
    pose proof (v_shape s I Si) as V. rewrite G in V.
    destruct (s_first s); cbn in V; [|contradiction].
    destruct V as [[_ V] _]. unfold low_key. destruct st; [|auto].
    destruct lm; [auto|]. right. symmetry. auto.
Qed.

(** Without a second load of the leftmost page the low keys are exact. *)
Definition exact_slot (v : slot) : Prop :=
  match v with Valid true true _ (Items lo _ _) _ => lo = None | _ => True end.
Definition exact (s : state) : Prop :=
  hold_ok eq s /\ exact_slot (s_a s) /\ exact_slot (s_b s).

Lemma load_exact : forall prev i, found prev i = true ->
  (forall p, prev = Some p -> im_lo i <> None) -> exact_slot (fst (load prev i)).
Proof.
  intros [p|] i H N; cbn [load].
  - specialize (N p eq_refl). destruct (im_lo i) as [x|] eqn:E; [|contradiction]. cbn [is_none].
    destruct (locate p (Some x) (im_d i) (im_rest i)) as [[lo d] rest].
    destruct (eqb_opt lo (Some p)); cbn; auto.
  - unfold found in H. apply andb_true_iff in H. destruct H as [_ H].
    destruct (im_lo i); [discriminate|]. cbn. reflexivity.
Qed.

Lemma exact_step : forall s o, Inv s -> once_step s o -> exact s -> exact (step s o).
Proof.
  intros s o I N [H [A B]]. assert (HO := hold_other eq s o H).
  destruct o as [w|w i|w|w ok|w|w|w|w]; (split; [try exact HO|]).
  - cbn [step]. destruct (worker s w) eqn:E; auto.
    destruct (s_single s) eqn:Si.
    + unfold look. rewrite Si. eapply (hold_set _ s _ w _ H); [reflexivity|discriminate].
    + apply look_hold; [exact H|]. intros st lm pv lo d rest hi G.
      pose proof (v_shape s I Si) as V. rewrite G in V.
      destruct (s_first s); cbn in V; [|contradiction]. destruct V as [[_ V] _].
      assert (X : exact_slot (get s (s_cur s))) by (unfold get; destruct (s_cur s); assumption).
      rewrite G in X. unfold low_key. destruct st; [|reflexivity].
      destruct lm; [symmetry; exact X|]. symmetry. auto.
  - cbn [step]. destruct (worker s w); auto. unfold look.
    openS s. cbn in *. destruct si; [auto|].
    destruct c; cbn.
    + destruct sb as [|q|st lm pv t hi]; cbn in *; [destruct fi; cbn; auto|auto|].
      destruct sa as [|q|]; [destruct hi|..]; destruct t; cbn; auto.
    + destruct sa as [|q|st lm pv t hi]; cbn in *; [destruct fi; cbn; auto|auto|].
      destruct sb as [|q|]; [destruct hi|..]; destruct t; cbn; auto.
  - cbn [step]. destruct (worker s w) as [| b | | | | | |] eqn:E; auto.
    destruct (get s b) as [|prev|] eqn:G; auto.
    destruct (found prev i) eqn:Hf; auto.
    assert (X : exact_slot (fst (load prev i))).
    { apply load_exact; [exact Hf|]. intros p ->. exact (N b p E G). }
    destruct (load prev i) as [v it]. cbn in X. destruct b; cbn; auto.
  - cbn [step]. destruct (worker s w) as [| b | | | | | |] eqn:E; auto.
    destruct (get s b) as [|[p|]|]; auto.
  - cbn [step]. destruct (worker s w); auto. destruct d; auto.
  - cbn [step]. destruct (worker s w); auto.
  - cbn [step]. destruct (worker s w); auto. destruct (s_writers s >? 0); auto.
  - cbn [step]. destruct (worker s w); auto. destruct (s_sorted s); auto.
  - cbn [step]. destruct (worker s w); auto. destruct (nth_error (s_arr s) (s_ix s)); auto.
Qed.

(** At most once. *)
Lemma total_le : forall s o k, Inv s -> exact s -> total (step s o) k <= total s k.
Proof.
  intros s o k I [H _]. destruct o as [w|w i|w|w ok|w|w|w|w].
  - cbn [step]. destruct (worker s w) eqn:E; try lia. rewrite look_total by assumption. lia.
  - rewrite load_total by assumption. lia.
  - rewrite leaf_total by assumption. lia.
  - rewrite read_eq by assumption. lia.
  - apply write_le.
  - rewrite wait_eq. lia.
  - rewrite sort_eq by assumption. lia.
  - rewrite claim_eq. lia.
Qed.

Lemma init_total : forall n k, total (init n) k = 1.
Proof.
  intros n k. unfold total, remain, queued, F. cbn. rewrite sumf_repeat by reflexivity. lia.
Qed.

Lemma init_hold : forall P n, hold_ok P (init n).
Proof. intros P n d kl lo hi I. cbn in I. apply repeat_spec in I. discriminate. Qed.

Lemma run_le : forall ops s k, Inv s -> exact s -> leftmost_once s ops ->
  total (run step s ops) k <= total s k.
Proof.
  induction ops as [|o t IH]; intros s k I X H; [cbn; lia|].
  destruct H as [H1 H2]. change (run step s (o :: t)) with (run step (step s o) t).
  pose proof (total_le s o k I X).
  specialize (IH (step s o) k (step_inv s o I) (exact_step s o I H1 X) H2). lia.
Qed.

Lemma times_le_total : forall s k, times (s_read s) k <= total s k.
Proof.
  intros s k. unfold total, remain, queued, F.
  pose proof (sumf_nonneg (held k) (s_ws s) (held_nn k)).
  pose proof (times_nonneg (map snd (skipn (s_ix s) (s_arr s))) k).
  pose proof (rem_nonneg (s_single s) (s_first s) (get s (s_cur s)) (get s (negb (s_cur s))) k). lia.
Qed.

(** At least once. *)
Definition ended (s : state) : Prop :=
  s_single s = true \/ (s_first s = true /\ get s (s_cur s) = Invalid).

Record Ext (s : state) : Prop := mkExt {
  x_end : 0 < F f_end s -> ended s;
  x_wait : 0 < F f_wait s -> F f_hold s = 0;
  x_sorted : s_sorted s = true -> F f_writ s = 0 /\ F f_hold s = 0 /\ ended s;
  x_done : 0 < F f_done s -> (length (s_arr s) <= s_ix s)%nat /\ s_sorted s = true;
  x_hold : hold_ok (fun kl lo => kl = None \/ kl = lo) s
}.

Lemma ended_no_loader : forall s w b, Inv s -> ended s -> worker s w <> Loading b.
Proof.
  intros s w b I E Hw.
  assert (LB : 1 <= F (f_load b) s).
  { unfold worker in Hw. pose proof (sumf_nth (f_load b) (s_ws s) w (f_load_nn b)) as P.
    rewrite Hw in P. cbn in P. rewrite eqb_reflx in P. apply P. discriminate. }
  rewrite (v_load s I b) in LB. destruct E as [E|[E1 E2]].
  - rewrite E in LB. cbn in LB. lia.
  - destruct (s_single s) eqn:Si; [cbn in LB; lia|].
    pose proof (v_shape s I Si) as V. rewrite E1, E2 in V. cbn in V.
    assert (Q : get s b = Invalid).
    { destruct (s_cur s), b; cbn in E2, V; unfold get in *; auto. }
    rewrite Q in LB. cbn in LB. lia.
Qed.

Lemma ended_look : forall s w, ended s -> look s w = setw s w AtEnd.
Proof.
  intros s w [E|[E1 E2]]; unfold look; [rewrite E; reflexivity|].
  rewrite E1, E2. destruct (s_single s); reflexivity.
Qed.

(** A step that is not [look] leaves the slots of an ended scan. *)
Lemma ended_step : forall s o, Inv s -> ended s -> ended (step s o).
Proof.
  intros s o I E. destruct o as [w|w i|w|w ok|w|w|w|w]; cbn [step].
  - destruct (worker s w); auto. rewrite ended_look by exact E. exact E.
  - destruct (worker s w) as [| b | | | | | |] eqn:Hw; auto.
    destruct (ended_no_loader s w b I E Hw).
  - destruct (worker s w) as [| b | | | | | |] eqn:Hw; auto.
    destruct (ended_no_loader s w b I E Hw).
  - destruct (worker s w); auto. destruct d; exact E.
  - destruct (worker s w); auto.
  - destruct (worker s w); auto. destruct (s_writers s >? 0); exact E.
  - destruct (worker s w); auto. destruct (s_sorted s); exact E.
  - destruct (worker s w); auto. destruct (nth_error (s_arr s) (s_ix s)); exact E.
Qed.

(** The worker after [look], in general. *)
Lemma look_ws : forall s w, ended s \/ s_ws (look s w) = s_ws s \/
  exists v, s_ws (look s w) = set_nth (s_ws s) w v /\ f_end v = 0 /\ f_writ v = 0.
Proof.
  intros s w. unfold ended, look.
  destruct (s_single s) eqn:Si; [auto|].
  destruct (get s (s_cur s)) as [|p|st lm pv t hi] eqn:G; [|auto|].
  - destruct (s_first s) eqn:Fi; [auto|]. right. right.
    eexists. split; [reflexivity|]. split; reflexivity.
  - right. destruct (get s (negb (s_cur s))); [destruct hi|..]; destruct t; cbn;
      try (left; reflexivity); right; eexists; (split; [reflexivity|split; reflexivity]).
Qed.
