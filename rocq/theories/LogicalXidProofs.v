From Coq Require Import ZArith List Bool Lia Permutation.
From Coq Require Import ZifyBool ZifyNat ZifyN.
From Verif Require Import Base LogicalXidModel.
Import ListNotations.
Open Scope Z_scope.
Ltac Zify.zify_post_hook ::= Z.div_mod_to_equations.

(** ** Bit arithmetic *)

Lemma free_bit_pow : forall v, 0 <= v ->
  exists k, 0 <= k /\ Z.land (Z.lnot v) (v + 1) = 2 ^ k /\ Z.testbit v k = false.
Proof.
  intros v Hv. pattern v. apply Zlt_0_ind; [|exact Hv].
  clear v Hv. intros v IH Hv.
  destruct (Z.even v) eqn:Ev.
  - exists 0. split; [lia|]. split.
    + apply Z.bits_inj'. intros n Hn. rewrite Z.land_spec, Z.lnot_spec by lia.
      apply Z.even_spec in Ev. destruct Ev as [q Hq]. subst v.
      destruct (Z.eq_dec n 0) as [->|Hn0].
      * rewrite Z.testbit_even_0, Z.testbit_odd_0. reflexivity.
      * replace n with (Z.succ (n - 1)) by lia.
        rewrite Z.testbit_even_succ, Z.testbit_odd_succ by lia.
        change (2 ^ 0) with (2 * 0 + 1).
        rewrite Z.testbit_odd_succ by lia. rewrite Z.bits_0.
        destruct (Z.testbit q (n - 1)); reflexivity.
    + rewrite Z.bit0_odd. rewrite <- Z.negb_even. rewrite Ev. reflexivity.
  - assert (Hod : Z.odd v = true) by (rewrite <- Z.negb_even, Ev; reflexivity).
    apply Z.odd_spec in Hod. destruct Hod as [q Hq]. subst v.
    destruct (IH q) as [k [Hk [He Ht]]]; [lia|].
    exists (Z.succ k). split; [lia|]. split.
    + apply Z.bits_inj'. intros n Hn. rewrite Z.land_spec, Z.lnot_spec by lia.
      replace (2 * q + 1 + 1) with (2 * (q + 1)) by lia.
      rewrite Z.pow_succ_r by lia.
      destruct (Z.eq_dec n 0) as [->|Hn0].
      * rewrite Z.testbit_odd_0, !Z.testbit_even_0. reflexivity.
      * replace n with (Z.succ (n - 1)) by lia.
        rewrite Z.testbit_odd_succ, !Z.testbit_even_succ by lia.
        rewrite <- He. rewrite Z.land_spec, Z.lnot_spec by lia. reflexivity.
    + rewrite Z.testbit_odd_succ by lia. exact Ht.
Qed.

Lemma lnot32_land : forall v b, 0 <= v < two32 -> 0 <= b < two32 ->
  Z.land (MaxTransactionId - v) b = Z.land (Z.lnot v) b.
Proof.
  intros v b Hv Hb. unfold MaxTransactionId, two32 in *.
  apply Z.bits_inj'. intros n Hn. rewrite !Z.land_spec.
  destruct (Z_lt_le_dec n 32) as [Hlt|Hge].
  - f_equal. rewrite Z.lnot_spec by lia.
    replace (4294967296 - 1 - v) with ((Z.lnot v) mod 2 ^ 32).
    + rewrite Z.mod_pow2_bits_low by lia. apply Z.lnot_spec. lia.
    + unfold Z.lnot. change (2 ^ 32) with 4294967296.
      symmetry. apply Z.mod_unique with (q := -1); lia.
  - replace (Z.testbit b n) with false; [rewrite !andb_false_r; reflexivity|].
    symmetry. destruct (Z.eq_dec b 0) as [->|Hb0]; [apply Z.bits_0|].
    apply Z.bits_above_log2; [lia|].
    apply Z.lt_le_trans with 32; [|lia].
    apply Z.log2_lt_pow2; [lia|]. change (2 ^ 32) with 4294967296. lia.
Qed.

Lemma free_bit_spec : forall v, 0 <= v < two32 -> free_bit v <> 0 ->
  exists k, 0 <= k < 32 /\ free_bit v = 2 ^ k /\ Z.testbit v k = false.
Proof.
  intros v Hv Hnz. unfold free_bit in *.
  destruct (Z.eq_dec v MaxTransactionId) as [->|Hne].
  - exfalso. apply Hnz. vm_compute. reflexivity.
  - assert (Hm : (v + 1) mod two32 = v + 1).
    { apply Z.mod_small. unfold MaxTransactionId, two32 in *. lia. }
    rewrite Hm in *.
    rewrite lnot32_land in * by (unfold MaxTransactionId, two32 in *; lia).
    destruct (free_bit_pow v) as [k [Hk [He Ht]]]; [lia|].
    exists k. split; [|split; assumption]. split; [exact Hk|].
    destruct (Z_lt_le_dec k 32) as [|Hge]; [assumption|exfalso].
    assert (Z.testbit (Z.land (Z.lnot v) (v + 1)) k = true)
      by (rewrite He; apply Z.pow2_bits_true; lia).
    rewrite Z.land_spec in H. apply andb_true_iff in H. destruct H as [_ H].
    rewrite Z.bits_above_log2 in H; [discriminate|lia|].
    apply Z.lt_le_trans with 32; [|lia].
    apply Z.log2_lt_pow2; [lia|]. change (2 ^ 32) with two32.
    unfold MaxTransactionId, two32 in *. lia.
Qed.

Lemma lor_bit_range : forall w k, 0 <= w < two32 -> 0 <= k < 32 ->
  0 <= Z.lor w (2 ^ k) < two32.
Proof.
  intros w k Hw Hk. split.
  - apply Z.lor_nonneg. split; [lia|]. apply Z.pow_nonneg. lia.
  - assert (Hp : 0 < 2 ^ k) by (apply Z.pow_pos_nonneg; lia).
    assert (Hlog : Z.log2 (Z.lor w (2 ^ k)) < 32).
    { rewrite Z.log2_lor by lia. rewrite Z.log2_pow2 by lia.
      apply Z.max_lub_lt; [|lia].
      destruct (Z.eq_dec w 0) as [->|]; [reflexivity|].
      apply Z.log2_lt_pow2; [lia|]. change (2 ^ 32) with two32. lia. }
    destruct (Z_lt_le_dec (Z.lor w (2 ^ k)) two32) as [|Hge]; [assumption|exfalso].
    apply Z.log2_le_mono in Hge. change (Z.log2 two32) with 32 in Hge. lia.
Qed.

Lemma testbit_clear : forall w k n, 0 <= w < two32 -> 0 <= k < 32 -> 0 <= n < 32 ->
  Z.testbit (Z.land w (MaxTransactionId - 2 ^ k)) n
  = if n =? k then false else Z.testbit w n.
Proof.
  intros w k n Hw Hk Hn.
  assert (Hp : 0 < 2 ^ k) by (apply Z.pow_pos_nonneg; lia).
  assert (Hp2 : 2 ^ k < 2 ^ 32) by (apply Z.pow_lt_mono_r; lia).
  change (2 ^ 32) with two32 in Hp2.
  rewrite Z.land_comm. rewrite lnot32_land by lia.
  rewrite Z.land_spec, Z.lnot_spec by lia.
  rewrite Z.pow2_bits_eqb by lia. rewrite Z.eqb_sym.
  destruct (Z.eqb_spec n k); [reflexivity|]. reflexivity.
Qed.

Lemma clear_range : forall w k, 0 <= w < two32 -> 0 <= k < 32 ->
  0 <= Z.land w (MaxTransactionId - 2 ^ k) < two32.
Proof.
  intros w k Hw Hk.
  assert (H : 0 <= Z.land w (MaxTransactionId - 2 ^ k) <= w).
  { apply Z.ldiff_le; [lia|]. apply Z.bits_inj'. intros n Hn.
    rewrite Z.ldiff_spec, Z.land_spec, Z.bits_0.
    destruct (Z.testbit w n); [apply andb_false_r|reflexivity]. }
  lia.
Qed.

Lemma land_bit_zero : forall w k, 0 <= k ->
  Z.land w (2 ^ k) = 0 <-> Z.testbit w k = false.
Proof.
  intros w k Hk. split; intros H.
  - assert (Z.testbit (Z.land w (2 ^ k)) k = false) by (rewrite H; apply Z.bits_0).
    rewrite Z.land_spec, Z.pow2_bits_true, andb_true_r in H0 by lia. exact H0.
  - apply Z.bits_inj'. intros n Hn. rewrite Z.land_spec, Z.bits_0.
    rewrite Z.pow2_bits_eqb by lia.
    destruct (Z.eqb_spec k n) as [->|]; [rewrite H; reflexivity|apply andb_false_r].
Qed.

(** ** The slot → id arithmetic *)

Definition guc_ok (guc : Z) : Prop := 1 <= guc <= 1024.

Lemma slot_xid_spec : forall guc xmin m,
  guc_ok guc -> 0 <= xmin < two32 -> 0 <= m < divider guc ->
  let x := slot_xid (divider guc) xmin m in
  FirstNormalTransactionId <= x < two32 /\ x mod divider guc = m.
Proof.
  intros guc xmin m Hg Hx Hm. unfold guc_ok in Hg.
  unfold slot_xid.
  assert (Hd : divider guc = guc * 65536) by (unfold divider, items_count; lia).
  assert (Hd1 : 65536 <= divider guc <= 67108864) by lia.
  set (d := divider guc) in *. clearbody d. clear Hd Hg guc.
  assert (Hr : 3 <= retreat xmin < two32).
  { unfold retreat, MaxTransactionId, two32 in *. destruct (xmin <=? 3) eqn:E; lia. }
  set (r := retreat xmin) in *. clearbody r. clear xmin Hx.
  unfold FirstNormalTransactionId.
  assert (Hrm : 0 <= r mod d < d) by (apply Z.mod_pos_bound; lia).
  pose proof (Z.div_mod r d ltac:(lia)) as Hdm.
  assert (Hmm : 0 <= MaxTransactionId mod d < d) by (apply Z.mod_pos_bound; lia).
  pose proof (Z.div_mod MaxTransactionId d ltac:(lia)) as Hdmm.
  assert (HM : MaxTransactionId = two32 - 1) by reflexivity.
  assert (H32 : two32 = 4294967296) by reflexivity.
  set (R := r mod d) in *. set (Q := r / d) in *.
  set (MR := MaxTransactionId mod d) in *. set (MQ := MaxTransactionId / d) in *.
  clearbody R Q MR MQ.
  destruct (R >? m) eqn:E1.
  - destruct (r >=? 3 + (R - m)) eqn:E2.
    + split; [lia|]. symmetry. apply Z.mod_unique with (q := Q); [lia|lia].
    + split; [nia|]. symmetry. apply Z.mod_unique with (q := MQ - 1); [lia|lia].
  - destruct (r >=? 3 + (R + (d - m))) eqn:E2.
    + split; [lia|]. symmetry. apply Z.mod_unique with (q := Q - 1); [lia|lia].
    + split; [nia|]. symmetry. apply Z.mod_unique with (q := MQ - 1); [lia|lia].
Qed.

Lemma slot_xid_precedes : forall guc xmin m,
  guc_ok guc -> FirstNormalTransactionId <= xmin < two32 -> 0 <= m < divider guc ->
  2 ^ 31 <= (slot_xid (divider guc) xmin m - xmin) mod two32.
Proof.
  intros guc xmin m Hg Hx Hm. unfold guc_ok in Hg.
  unfold slot_xid.
  assert (Hd : divider guc = guc * 65536) by (unfold divider, items_count; lia).
  assert (Hd1 : 65536 <= divider guc <= 67108864) by lia.
  set (d := divider guc) in *. clearbody d. clear Hd Hg guc.
  unfold FirstNormalTransactionId in *.
  assert (Hr : (xmin = 3 /\ retreat xmin = two32 - 1) \/ (3 < xmin /\ retreat xmin = xmin - 1)).
  { unfold retreat, MaxTransactionId. destruct (xmin <=? 3) eqn:E; lia. }
  set (r := retreat xmin) in *. clearbody r.
  assert (Hrm : 0 <= r mod d < d) by (apply Z.mod_pos_bound; lia).
  pose proof (Z.div_mod r d ltac:(lia)) as Hdm.
  assert (Hmm : 0 <= MaxTransactionId mod d < d) by (apply Z.mod_pos_bound; lia).
  pose proof (Z.div_mod MaxTransactionId d ltac:(lia)) as Hdmm.
  assert (HM : MaxTransactionId = two32 - 1) by reflexivity.
  assert (H32 : two32 = 4294967296) by reflexivity.
  set (R := r mod d) in *. set (Q := r / d) in *.
  set (MR := MaxTransactionId mod d) in *. set (MQ := MaxTransactionId / d) in *.
  clearbody R Q MR MQ.
  change (2 ^ 31) with 2147483648.
  assert (Hsmall : forall z, - 2147483648 <= z < 0 -> 2147483648 <= z mod two32)
    by (intros z Hz; rewrite H32; lia).
  assert (Hbig : forall z, 2147483648 <= z < two32 -> 2147483648 <= z mod two32)
    by (intros z Hz; rewrite Z.mod_small; lia).
  destruct (R >? m) eqn:E1.
  - destruct (r >=? 3 + (R - m)) eqn:E2.
    + destruct Hr as [[-> ->]|[Hx3 ->]]; [apply Hbig; lia|apply Hsmall; lia].
    + destruct Hr as [[-> ->]|[Hx3 ->]]; apply Hbig; lia.
  - destruct (r >=? 3 + (R + (d - m))) eqn:E2.
    + destruct Hr as [[-> ->]|[Hx3 ->]]; [apply Hbig; lia|apply Hsmall; lia].
    + destruct Hr as [[-> ->]|[Hx3 ->]]; apply Hbig; lia.
Qed.

(** ** The invariant *)

Section Inv.
Variable guc : Z.
Hypothesis Hguc : guc_ok guc.
Let d := divider guc.

Definition pc_ok (pc : lpc) : Prop :=
  match pc with
  | PIdle => True
  | PScan i _ _ => 0 <= i < items_count guc
  | PTry i bit _ _ => 0 <= i < items_count guc /\ exists k, 0 <= k < 32 /\ bit = 2 ^ k
  end.

Definition dcur_ok (b : lbk) : Prop :=
  match l_pc b with
  | PScan _ _ DCur | PTry _ _ _ DCur => l_cur b = 0
  | _ => True
  end.

Record LInv (s : lst) : Prop := {
  li_word : forall i, 0 <= l_words s i < two32;
  li_held : forall p x, In x (held (l_bks s p)) ->
              FirstNormalTransactionId <= x < two32 /\ slot_taken s (x mod d) = true;
  li_nodup : forall p, NoDup (map (fun x => x mod d) (held (l_bks s p)));
  li_disj : forall p q x y, p <> q -> In x (held (l_bks s p)) -> In y (held (l_bks s q)) ->
              x mod d <> y mod d;
  li_owned : forall m, 0 <= m < d -> slot_taken s m = true ->
              exists p x, In x (held (l_bks s p)) /\ x mod d = m;
  li_pc : forall p, pc_ok (l_pc (l_bks s p)) /\ dcur_ok (l_bks s p)
}.

Lemma d_pos : 0 < d.
Proof. unfold d, divider, items_count, guc_ok in *. lia. Qed.

Lemma d_div : d = items_count guc * 32.
Proof. reflexivity. Qed.

Lemma perm_in : forall (A : Type) (l l' : list A) x, Permutation l l' -> In x l -> In x l'.
Proof. intros. eapply Permutation_in; eauto. Qed.

Lemma perm_filter : forall (A : Type) (f : A -> bool) l1 l2,
  Permutation l1 l2 -> Permutation (filter f l1) (filter f l2).
Proof.
  intros A f l1 l2 HP. induction HP; cbn [filter].
  - apply Permutation_refl.
  - destruct (f x); auto.
  - destruct (f x), (f y); auto. apply perm_swap.
  - eapply Permutation_trans; eauto.
Qed.

Lemma LInv_rearr : forall s p b',
  LInv s -> Permutation (held b') (held (l_bks s p)) ->
  pc_ok (l_pc b') -> dcur_ok b' -> LInv (set_bk s p b').
Proof.
  intros s p b' H HP Hpc Hdc. destruct H as [Hw Hh Hn Hdj Ho Hp].
  unfold set_bk. constructor; cbn [l_words l_bks].
  - exact Hw.
  - intros q x Hx. destruct (Z.eq_dec q p) as [->|Hne].
    + rewrite upd_same in Hx. apply (Hh p). eapply perm_in; eauto.
    + rewrite upd_other in Hx by assumption. apply (Hh q). exact Hx.
  - intros q. destruct (Z.eq_dec q p) as [->|Hne].
    + rewrite upd_same. eapply Permutation_NoDup; [|apply (Hn p)].
      apply Permutation_map, Permutation_sym, HP.
    + rewrite upd_other by assumption. apply Hn.
  - intros q r x y Hqr Hx Hy.
    assert (Hx' : In x (held (l_bks s q))).
    { destruct (Z.eq_dec q p) as [->|Hne].
      - rewrite upd_same in Hx. eapply perm_in; eauto.
      - rewrite upd_other in Hx by assumption. exact Hx. }
    assert (Hy' : In y (held (l_bks s r))).
    { destruct (Z.eq_dec r p) as [->|Hne].
      - rewrite upd_same in Hy. eapply perm_in; eauto.
      - rewrite upd_other in Hy by assumption. exact Hy. }
    exact (Hdj q r x y Hqr Hx' Hy').
  - intros m Hm Ht. destruct (Ho m Hm Ht) as [q [x [Hx Hxm]]].
    exists q, x. split; [|exact Hxm].
    destruct (Z.eq_dec q p) as [->|Hne].
    + rewrite upd_same. eapply perm_in; [apply Permutation_sym, HP|exact Hx].
    + rewrite upd_other by assumption. exact Hx.
  - intros q. destruct (Z.eq_dec q p) as [->|Hne].
    + rewrite upd_same. split; assumption.
    + rewrite upd_other by assumption. apply Hp.
Qed.

Lemma slot_taken_set : forall s bks i k m,
  (forall j, 0 <= l_words s j < two32) -> 0 <= k < 32 ->
  slot_taken (mkLst (upd (l_words s) i (Z.lor (l_words s i) (2 ^ k))) bks) m
  = (m =? i * 32 + k) || slot_taken s m.
Proof.
  intros s bks i k m Hw Hk. unfold slot_taken. cbn [l_words].
  assert (Hm : 0 <= m mod 32 < 32) by (apply Z.mod_pos_bound; lia).
  destruct (Z.eq_dec (m / 32) i) as [Hi|Hi].
  - rewrite Hi, upd_same. rewrite Z.lor_spec, Z.pow2_bits_eqb by lia.
    destruct (Z.eqb_spec k (m mod 32)); destruct (Z.eqb_spec m (i * 32 + k));
      try lia; destruct (Z.testbit (l_words s i) (m mod 32)); reflexivity.
  - rewrite upd_other by exact Hi.
    destruct (Z.eqb_spec m (i * 32 + k)); [lia|reflexivity].
Qed.

Lemma LInv_acquire : forall s p b' i k x,
  LInv s -> 0 <= i < items_count guc -> 0 <= k < 32 ->
  Z.testbit (l_words s i) k = false ->
  FirstNormalTransactionId <= x < two32 -> x mod d = i * 32 + k ->
  Permutation (held b') (x :: held (l_bks s p)) ->
  pc_ok (l_pc b') -> dcur_ok b' ->
  LInv (mkLst (upd (l_words s) i (Z.lor (l_words s i) (2 ^ k))) (upd (l_bks s) p b')).
Proof.
  intros s p b' i k x H Hi Hk Hb Hx Hxm HP Hpc Hdc. destruct H as [Hw Hh Hn Hdj Ho Hp].
  pose proof d_pos as Hd.
  assert (Hfree : slot_taken s (i * 32 + k) = false).
  { unfold slot_taken. replace ((i * 32 + k) / 32) with i by lia.
    replace ((i * 32 + k) mod 32) with k by lia. exact Hb. }
  assert (Hnot : forall q y, In y (held (l_bks s q)) -> y mod d <> i * 32 + k).
  { intros q y Hy E. destruct (Hh q y Hy) as [_ Ht]. rewrite E in Ht. congruence. }
  constructor; cbn [l_words l_bks].
  - intros j. destruct (Z.eq_dec j i) as [->|Hj].
    + rewrite upd_same. apply lor_bit_range; auto.
    + rewrite upd_other by assumption. apply Hw.
  - intros q y Hy.
    assert (Hcase : y = x \/ In y (held (l_bks s q))).
    { destruct (Z.eq_dec q p) as [->|Hne].
      - rewrite upd_same in Hy. apply (perm_in _ _ _ _ HP) in Hy.
        destruct Hy as [->|Hy]; auto.
      - rewrite upd_other in Hy by assumption. auto. }
    rewrite slot_taken_set by auto.
    destruct Hcase as [->|Hy'].
    + split; [exact Hx|]. rewrite Hxm, Z.eqb_refl. reflexivity.
    + destruct (Hh q y Hy') as [Hr Ht]. split; [exact Hr|].
      rewrite Ht. apply orb_true_r.
  - intros q. destruct (Z.eq_dec q p) as [->|Hne].
    + rewrite upd_same. eapply Permutation_NoDup.
      * apply Permutation_map, Permutation_sym, HP.
      * cbn [map]. constructor; [|apply Hn].
        intros Hin. apply in_map_iff in Hin. destruct Hin as [y [Ey Hy]].
        rewrite Hxm in Ey. exact (Hnot p y Hy Ey).
    + rewrite upd_other by assumption. apply Hn.
  - intros q r y z Hqr Hy Hz.
    destruct (Z.eq_dec q p) as [->|Hq].
    + rewrite upd_same in Hy. rewrite upd_other in Hz by congruence.
      apply (perm_in _ _ _ _ HP) in Hy. destruct Hy as [<-|Hy].
      * intros E. rewrite Hxm in E. symmetry in E. exact (Hnot r z Hz E).
      * exact (Hdj p r y z Hqr Hy Hz).
    + rewrite upd_other in Hy by assumption.
      destruct (Z.eq_dec r p) as [->|Hr].
      * rewrite upd_same in Hz. apply (perm_in _ _ _ _ HP) in Hz.
        destruct Hz as [<-|Hz].
        -- intros E. rewrite Hxm in E. exact (Hnot q y Hy E).
        -- exact (Hdj q p y z Hqr Hy Hz).
      * rewrite upd_other in Hz by assumption. exact (Hdj q r y z Hqr Hy Hz).
  - intros m Hm Ht. rewrite slot_taken_set in Ht by auto.
    apply orb_true_iff in Ht. destruct Ht as [Ht|Ht].
    + exists p, x. rewrite upd_same. split; [|lia].
      eapply perm_in; [apply Permutation_sym, HP|left; reflexivity].
    + destruct (Ho m Hm Ht) as [q [y [Hy Hym]]]. exists q, y. split; [|exact Hym].
      destruct (Z.eq_dec q p) as [->|Hne].
      * rewrite upd_same. eapply perm_in; [apply Permutation_sym, HP|right; exact Hy].
      * rewrite upd_other by assumption. exact Hy.
  - intros q. destruct (Z.eq_dec q p) as [->|Hne].
    + rewrite upd_same. split; assumption.
    + rewrite upd_other by assumption. apply Hp.
Qed.

Lemma slot_taken_clear : forall s bks x m,
  (forall j, 0 <= l_words s j < two32) -> x <> 0 -> 0 <= x ->
  slot_taken (mkLst (release_xid guc x (l_words s)) bks) m
  = negb (m =? x mod d) && slot_taken s m.
Proof.
  intros s bks x m Hw Hx Hx0. unfold slot_taken. cbn [l_words]. unfold release_xid.
  destruct (Z.eqb_spec x InvalidTransactionId) as [E|_]; [unfold InvalidTransactionId in E; lia|].
  fold d. pose proof d_pos as Hd.
  assert (Hm : 0 <= m mod 32 < 32) by (apply Z.mod_pos_bound; lia).
  assert (Hk : 0 <= (x mod d) mod 32 < 32) by (apply Z.mod_pos_bound; lia).
  set (y := x mod d) in *. clearbody y.
  destruct (Z.eq_dec (m / 32) (y / 32)) as [Hi|Hi].
  - rewrite Hi, upd_same. rewrite testbit_clear by auto.
    destruct (Z.eqb_spec (m mod 32) (y mod 32)); destruct (Z.eqb_spec m y); try lia; reflexivity.
  - rewrite upd_other by exact Hi.
    destruct (Z.eqb_spec m y) as [->|]; [congruence|reflexivity].
Qed.

Lemma LInv_release : forall s p b' x,
  LInv s -> Permutation (held (l_bks s p)) (x :: held b') ->
  pc_ok (l_pc b') -> dcur_ok b' ->
  LInv (mkLst (release_xid guc x (l_words s)) (upd (l_bks s) p b')).
Proof.
  intros s p b' x H HP Hpc Hdc. destruct H as [Hw Hh Hn Hdj Ho Hp].
  assert (Hxin : In x (held (l_bks s p))).
  { eapply perm_in; [apply Permutation_sym, HP|left; reflexivity]. }
  destruct (Hh p x Hxin) as [Hxr Hxt].
  unfold FirstNormalTransactionId in *.
  assert (Hnd : NoDup (map (fun z => z mod d) (x :: held b'))).
  { eapply Permutation_NoDup; [apply Permutation_map, HP|apply Hn]. }
  cbn [map] in Hnd. apply NoDup_cons_iff in Hnd. destruct Hnd as [Hxnot Hnd'].
  assert (Hsub : forall y, In y (held b') -> In y (held (l_bks s p))).
  { intros y Hy. eapply perm_in; [apply Permutation_sym, HP|right; exact Hy]. }
  assert (Hback : forall q y, In y (held (upd (l_bks s) p b' q)) ->
            In y (held (l_bks s q)) /\ y mod d <> x mod d).
  { intros q y Hy. destruct (Z.eq_dec q p) as [->|Hne].
    - rewrite upd_same in Hy. split; [auto|]. intros E. apply Hxnot.
      rewrite <- E. apply in_map with (f := fun z => z mod d). exact Hy.
    - rewrite upd_other in Hy by assumption. split; [exact Hy|].
      intros E. symmetry in E. revert E. apply Hdj with (p := p) (q := q); auto. }
  constructor; cbn [l_words l_bks].
  - intros j. unfold release_xid. destruct (x =? InvalidTransactionId); [apply Hw|].
    cbv zeta. set (i := x mod divider guc / 32).
    destruct (Z.eq_dec j i) as [->|Hj].
    + rewrite upd_same. apply clear_range; [apply Hw|apply Z.mod_pos_bound; lia].
    + rewrite upd_other by assumption. apply Hw.
  - intros q y Hy. destruct (Hback q y Hy) as [Hy' Hne].
    destruct (Hh q y Hy') as [Hr Ht]. split; [exact Hr|].
    rewrite slot_taken_clear by (auto; lia). rewrite Ht.
    destruct (Z.eqb_spec (y mod d) (x mod d)); [contradiction|reflexivity].
  - intros q. destruct (Z.eq_dec q p) as [->|Hne].
    + rewrite upd_same. exact Hnd'.
    + rewrite upd_other by assumption. apply Hn.
  - intros q r y z Hqr Hy Hz. apply Hback in Hy. apply Hback in Hz.
    apply Hdj with (p := q) (q := r); tauto.
  - intros m Hm Ht. rewrite slot_taken_clear in Ht by (auto; lia).
    apply andb_true_iff in Ht. destruct Ht as [Hne Ht].
    destruct (Ho m Hm Ht) as [q [y [Hy Hym]]]. exists q, y. split; [|exact Hym].
    destruct (Z.eq_dec q p) as [->|Hq].
    + rewrite upd_same. apply (perm_in _ _ _ _ HP) in Hy.
      destruct Hy as [->|Hy]; [lia|exact Hy].
    + rewrite upd_other by assumption. exact Hy.
  - intros q. destruct (Z.eq_dec q p) as [->|Hne].
    + rewrite upd_same. split; assumption.
    + rewrite upd_other by assumption. apply Hp.
Qed.

(** Same state up to pointwise equality of the maps. *)
Lemma LInv_ext : forall s s', LInv s ->
  (forall i, l_words s' i = l_words s i) -> (forall p, l_bks s' p = l_bks s p) -> LInv s'.
Proof.
  intros s s' [Hw Hh Hn Hdj Ho Hp] E1 E2.
  assert (Est : forall m, slot_taken s' m = slot_taken s m)
    by (intros; unfold slot_taken; rewrite E1; reflexivity).
  constructor.
  - intros. rewrite E1. apply Hw.
  - intros p x Hx. rewrite E2 in Hx. rewrite Est. apply (Hh p x Hx).
  - intros p. rewrite E2. apply Hn.
  - intros p q x y Hpq Hx Hy. rewrite E2 in Hx, Hy. eapply Hdj; eauto.
  - intros m Hm Ht. rewrite Est in Ht. destruct (Ho m Hm Ht) as [p [x [Hx E]]].
    exists p, x. rewrite E2. auto.
  - intros p. rewrite E2. apply Hp.
Qed.

(** Releasing a list of ids, interpreted on a backend holding exactly them. *)
Lemma LInv_release_all : forall xs s p,
  LInv s ->
  l_bks s p = mkLbk 0 [] xs PIdle ->
  LInv (mkLst (release_all guc xs (l_words s)) (upd (l_bks s) p (mkLbk 0 [] [] PIdle))).
Proof.
  induction xs as [|x xs IH]; intros s p H Hb.
  - cbn. apply LInv_ext with s; [exact H|reflexivity|].
    intros q. cbn [l_bks]. destruct (Z.eq_dec q p) as [->|Hq].
    + rewrite upd_same. symmetry. exact Hb.
    + rewrite upd_other by assumption. reflexivity.
  - unfold release_all. cbn [fold_left].
    fold (release_all guc xs (release_xid guc x (l_words s))).
    assert (Hmid : LInv (mkLst (release_xid guc x (l_words s))
                               (upd (l_bks s) p (mkLbk 0 [] xs PIdle)))).
    { destruct (Z.eq_dec x 0) as [->|Hx].
      - apply LInv_ext with (set_bk s p (mkLbk 0 [] xs PIdle)); [|reflexivity|reflexivity].
        apply LInv_rearr; [exact H| |exact I|exact I].
        rewrite Hb. apply Permutation_refl.
      - apply LInv_release; [exact H| |exact I|exact I].
        rewrite Hb. unfold held. cbn [l_cur l_prev l_saved map app filter].
        cbn [Z.eqb InvalidTransactionId negb].
        replace (x =? InvalidTransactionId) with false
          by (unfold InvalidTransactionId; lia).
        apply Permutation_refl. }
    specialize (IH _ p Hmid). cbn [l_words l_bks] in IH.
    rewrite upd_same in IH. specialize (IH eq_refl).
    eapply LInv_ext; [exact IH|reflexivity|].
    intros q. cbn [l_bks]. destruct (Z.eq_dec q p) as [->|Hq].
    + rewrite !upd_same. reflexivity.
    + rewrite !upd_other by assumption. reflexivity.
Qed.

Lemma held_deliver : forall b dd x, x <> 0 ->
  (dd = DCur -> l_cur b = 0) ->
  Permutation (held (deliver b dd x)) (x :: held b).
Proof.
  intros b dd x Hx Hc. unfold held, deliver, InvalidTransactionId.
  destruct dd as [|sid]; cbn [l_cur l_prev l_saved map fst app filter].
  - rewrite (Hc eq_refl).
    replace (x =? 0) with false by lia. cbn [negb Z.eqb]. apply Permutation_refl.
  - replace (x =? 0) with false by lia. cbn [negb].
    destruct (l_cur b =? 0); cbn [negb]; apply Permutation_refl.
Qed.

Lemma LInv_init : LInv linit.
Proof.
  constructor; cbn [linit l_words l_bks].
  - intros _. unfold two32. lia.
  - intros p x Hx. inversion Hx.
  - intros p. constructor.
  - intros p q x y _ Hx. inversion Hx.
  - intros m _ Ht. unfold slot_taken in Ht. cbn in Ht. rewrite Z.bits_0 in Ht. discriminate.
  - intros p. split; exact I.
Qed.

Lemma LInv_step : forall s o, LInv s -> LInv (lstep guc s o).
Proof.
  intros s o H. pose proof H as [Hw Hh Hn Hdj Ho Hp]. pose proof d_pos as Hd.
  assert (Hic : 0 < items_count guc) by (unfold items_count, guc_ok in *; lia).
  destruct o as [p dd|p|p xm|p sid|p|p|p]; cbn [lstep].
  - destruct (may_start (l_bks s p) dd) eqn:E; [|exact H].
    apply LInv_rearr; [exact H|apply Permutation_refl| |].
    + cbn. apply Z.mod_pos_bound. lia.
    + unfold may_start in E. destruct (l_pc (l_bks s p)); try discriminate.
      unfold dcur_ok. cbn. destruct dd; [|exact I].
      unfold InvalidTransactionId in E. lia.
  - destruct (l_pc (l_bks s p)) as [|i n dd|i bit n dd] eqn:Epc; [exact H| |exact H].
    destruct (Hp p) as [Hpc Hdc]. rewrite Epc in Hpc. cbn in Hpc.
    unfold dcur_ok in Hdc. rewrite Epc in Hdc.
    apply LInv_rearr; [exact H|apply Permutation_refl| |]; cbn [l_pc].
    + destruct (Z.eqb_spec (free_bit (l_words s i)) 0) as [E0|E0].
      * destruct (i + 1 >=? items_count guc) eqn:E1.
        -- destruct (n + 1 >? 16); cbn; [exact I|lia].
        -- cbn. lia.
      * cbn. split; [exact Hpc|].
        destruct (free_bit_spec _ (Hw i) E0) as [k [Hk [Hb _]]]. exists k. auto.
    + unfold dcur_ok. cbn [l_pc l_cur].
      destruct (free_bit (l_words s i) =? 0);
        [destruct (i + 1 >=? items_count guc); [destruct (n + 1 >? 16)|]|];
        try exact I; destruct dd; auto.
  - destruct (l_pc (l_bks s p)) as [|i n dd|i bit n dd] eqn:Epc; [exact H|exact H|].
    destruct (Hp p) as [Hpc Hdc]. rewrite Epc in Hpc. cbn in Hpc.
    unfold dcur_ok in Hdc. rewrite Epc in Hdc.
    destruct Hpc as [Hi [k [Hk ->]]].
    destruct (Z.eqb_spec (Z.land (l_words s i) (2 ^ k)) 0) as [E0|E0].
    + apply land_bit_zero in E0; [|lia].
      rewrite Z.log2_up_pow2 by lia.
      assert (Hxr : 0 <= xm mod two32 < two32) by (apply Z.mod_pos_bound; reflexivity).
      destruct (slot_xid_spec guc (xm mod two32) (i * 32 + k) Hguc Hxr) as [Hr Hm].
      { unfold divider. lia. }
      apply LInv_acquire with (x := slot_xid (divider guc) (xm mod two32) (i * 32 + k)); auto.
      * apply held_deliver; [unfold FirstNormalTransactionId in Hr; lia|].
        intros ->. exact Hdc.
      * destruct dd; exact I.
      * destruct dd; exact I.
    + (* lost the race: the word does not change *)
      assert (Hbit : Z.testbit (l_words s i) k = true).
      { destruct (Z.testbit (l_words s i) k) eqn:Eb; [reflexivity|].
        exfalso. apply E0. apply land_bit_zero; [lia|exact Eb]. }
      apply LInv_ext with
        (set_bk s p (mkLbk (l_cur (l_bks s p)) (l_prev (l_bks s p)) (l_saved (l_bks s p))
                           (PScan i n dd))).
      * apply LInv_rearr; [exact H|apply Permutation_refl|exact Hi|].
        unfold dcur_ok. cbn. destruct dd; auto.
      * intros j. cbn [l_words set_bk]. destruct (Z.eq_dec j i) as [->|Hj].
        -- rewrite upd_same. apply Z.bits_inj'. intros n0 Hn0.
           rewrite Z.lor_spec, Z.pow2_bits_eqb by lia.
           destruct (Z.eqb_spec k n0) as [<-|]; [rewrite Hbit; reflexivity|apply orb_false_r].
        -- rewrite upd_other by assumption. reflexivity.
      * reflexivity.
  - destruct (l_pc (l_bks s p)) eqn:Epc; [|exact H|exact H].
    destruct (l_prev (l_bks s p)) as [|[x sid'] rest] eqn:Epr; [exact H|].
    destruct ((sid' =? sid) && negb (l_cur (l_bks s p) =? InvalidTransactionId)) eqn:E;
      [|exact H].
    apply andb_true_iff in E. destruct E as [_ Ec].
    apply LInv_release; [exact H| |exact I|exact I].
    unfold held. rewrite Epr. cbn [l_cur l_prev l_saved map fst app filter].
    rewrite Ec. apply Permutation_refl.
  - destruct (l_pc (l_bks s p)) eqn:Epc; [|exact H|exact H].
    destruct (l_saved (l_bks s p)) eqn:Esv; [|exact H].
    set (xs := l_cur (l_bks s p) :: map fst (l_prev (l_bks s p))).
    assert (Hm : LInv (set_bk s p (mkLbk 0 [] xs PIdle))).
    { apply LInv_rearr; [exact H| |exact I|exact I].
      unfold held, xs. rewrite Esv. cbn [l_cur l_prev l_saved map app filter].
      rewrite app_nil_r. cbn [Z.eqb InvalidTransactionId negb]. apply Permutation_refl. }
    pose proof (LInv_release_all xs _ p Hm) as HH.
    cbn [set_bk l_words l_bks] in HH. rewrite upd_same in HH. specialize (HH eq_refl).
    eapply LInv_ext; [exact HH|reflexivity|].
    intros q. cbn [l_bks]. destruct (Z.eq_dec q p) as [->|Hq].
    + rewrite !upd_same. reflexivity.
    + rewrite !upd_other by assumption. reflexivity.
  - destruct (l_pc (l_bks s p)) eqn:Epc; [|exact H|exact H].
    apply LInv_rearr; [exact H| |exact I|exact I].
    set (b := l_bks s p). unfold held. cbn [l_cur l_prev l_saved].
    change (filter (fun x => negb (x =? InvalidTransactionId))
              (InvalidTransactionId :: map fst (l_prev b) ++ l_cur b :: l_saved b))
      with (filter (fun x => negb (x =? InvalidTransactionId))
              (map fst (l_prev b) ++ l_cur b :: l_saved b)).
    apply perm_filter. apply Permutation_sym, Permutation_middle.
  - destruct (l_pc (l_bks s p)) eqn:Epc; [|exact H|exact H].
    destruct (l_saved (l_bks s p)) as [|x rest] eqn:Esv; [exact H|].
    set (b := l_bks s p) in *.
    destruct (Z.eq_dec (l_cur b) 0) as [Ec|Ec].
    + rewrite Ec.
      apply LInv_ext with (set_bk s p (mkLbk x (l_prev b) rest PIdle)); [|reflexivity|reflexivity].
      apply LInv_rearr; [exact H| |exact I|exact I].
      fold b. unfold held. rewrite Ec, Esv. cbn [l_cur l_prev l_saved].
      apply Permutation_trans with
        (filter (fun x0 => negb (x0 =? InvalidTransactionId)) (map fst (l_prev b) ++ x :: rest)).
      * apply perm_filter. apply Permutation_middle.
      * cbn [filter]. cbn [Z.eqb InvalidTransactionId negb]. apply Permutation_refl.
    + apply LInv_release; [exact H| |exact I|exact I].
      fold b. unfold held. rewrite Esv. cbn [l_cur l_prev l_saved].
      change (l_cur b :: map fst (l_prev b) ++ x :: rest)
        with ([l_cur b] ++ (map fst (l_prev b) ++ x :: rest)).
      rewrite filter_app. cbn [filter].
      replace (l_cur b =? InvalidTransactionId) with false
        by (unfold InvalidTransactionId; lia).
      cbn [negb app]. apply perm_skip.
      match goal with |- Permutation ?a _ =>
        apply Permutation_trans with (filter (fun x0 => negb (x0 =? InvalidTransactionId))
                                             (x :: map fst (l_prev b) ++ rest)) end.
      * apply perm_filter. apply Permutation_sym, Permutation_middle.
      * cbn [filter]. apply Permutation_refl.
Qed.

Lemma LInv_run : forall ops, LInv (run (lstep guc) linit ops).
Proof. intros ops. apply run_inv; [exact LInv_step|exact LInv_init]. Qed.

End Inv.
