(** Concatenation of bit fields and the bitwise operators on it. *)
From Coq Require Import ZArith List Bool Lia.
From Coq Require Import ZifyBool.
From Verif Require Import Base PackedModel PackedSpec.
Import ListNotations.
Open Scope Z_scope.

Definition cat (k v h : Z) : Z := v + 2 ^ k * h.

Lemma cat_bit : forall k v h i, 0 <= k -> 0 <= v < 2 ^ k -> 0 <= i ->
  Z.testbit (cat k v h) i = if i <? k then Z.testbit v i else Z.testbit h (i - k).
Proof.
  intros k v h i Hk Hv Hi. unfold cat.
  assert (E : v + 2 ^ k * h = Z.lor v (Z.shiftl h k)).
  { rewrite Z.shiftl_mul_pow2 by lia. rewrite (Z.mul_comm h).
    assert (Z0 : Z.land v (2 ^ k * h) = 0).
    { apply Z.bits_inj'. intros j Hj. rewrite Z.land_spec, Z.bits_0, (Z.mul_comm (2 ^ k)). destruct (Z.ltb_spec j k).
      - rewrite Z.mul_pow2_bits_low by auto. apply andb_false_r.
      - replace (Z.testbit v j) with false; auto. symmetry. rewrite Z.testbit_false by lia. rewrite Z.div_small; auto.
        split; [lia|]. apply Z.lt_le_trans with (2 ^ k); [lia|]. apply Z.pow_le_mono_r; lia. }
    rewrite Z.add_nocarry_lxor by auto. apply Z.lxor_lor. auto. }
  rewrite E, Z.lor_spec, Z.shiftl_spec by auto. destruct (Z.ltb_spec i k).
  - rewrite (Z.testbit_neg_r h (i - k)) by lia. apply orb_false_r.
  - replace (Z.testbit v i) with false; auto. symmetry. rewrite Z.testbit_false by lia. rewrite Z.div_small; auto.
    split; [lia|]. apply Z.lt_le_trans with (2 ^ k); [lia|]. apply Z.pow_le_mono_r; lia.
Qed.

Lemma land_lt : forall k a b, 0 <= k -> 0 <= a < 2 ^ k -> 0 <= b -> 0 <= Z.land a b < 2 ^ k.
Proof.
  intros k a b Hk Ha Hb. assert (0 <= Z.land a b) by (apply Z.land_nonneg; lia). split; auto.
  destruct (Z.eq_dec (Z.land a b) 0) as [->|N]; [apply Z.pow_pos_nonneg; lia|].
  apply Z.log2_lt_pow2; [lia|]. eapply Z.le_lt_trans; [apply Z.log2_land; lia|].
  destruct (Z.eq_dec a 0) as [->|N2]; [rewrite Z.land_0_l in N; lia|].
  apply Z.le_lt_trans with (Z.log2 a); [lia|]. apply Z.log2_lt_pow2; lia.
Qed.
Lemma lor_lt : forall k a b, 0 <= k -> 0 <= a < 2 ^ k -> 0 <= b < 2 ^ k -> 0 <= Z.lor a b < 2 ^ k.
Proof.
  intros k a b Hk Ha Hb. assert (0 <= Z.lor a b) by (apply Z.lor_nonneg; lia). split; auto.
  destruct (Z.eq_dec (Z.lor a b) 0) as [->|N]; [apply Z.pow_pos_nonneg; lia|].
  apply Z.log2_lt_pow2; [lia|]. rewrite Z.log2_lor by lia.
  destruct (Z.eq_dec k 0) as [->|]. { assert (a = 0) by lia. assert (b = 0) by lia. subst. cbn in N. lia. }
  assert (forall c, 0 <= c < 2 ^ k -> Z.log2 c < k). { intros c Hc. destruct (Z.eq_dec c 0) as [->|]; [cbn; lia|]. apply Z.log2_lt_pow2; lia. }
  pose proof (H0 a Ha). pose proof (H0 b Hb). lia.
Qed.

Lemma cat_land : forall k v h v' h', 0 <= k -> 0 <= v < 2 ^ k -> 0 <= v' < 2 ^ k ->
  Z.land (cat k v h) (cat k v' h') = cat k (Z.land v v') (Z.land h h').
Proof.
  intros k v h v' h' Hk Hv Hv'. apply Z.bits_inj'. intros i Hi. pose proof (land_lt k v v' Hk Hv ltac:(lia)).
  rewrite Z.land_spec, !cat_bit by auto. destruct (i <? k); rewrite Z.land_spec; auto.
Qed.
Lemma cat_lor : forall k v h v' h', 0 <= k -> 0 <= v < 2 ^ k -> 0 <= v' < 2 ^ k ->
  Z.lor (cat k v h) (cat k v' h') = cat k (Z.lor v v') (Z.lor h h').
Proof.
  intros k v h v' h' Hk Hv Hv'. apply Z.bits_inj'. intros i Hi. pose proof (lor_lt k v v' Hk Hv Hv').
  rewrite Z.lor_spec, !cat_bit by auto. destruct (i <? k); rewrite Z.lor_spec; auto.
Qed.
Lemma cat_shiftr : forall k v h, 0 <= k -> 0 <= v < 2 ^ k -> Z.shiftr (cat k v h) k = h.
Proof.
  intros k v h Hk Hv. rewrite Z.shiftr_div_pow2 by auto. unfold cat. rewrite Z.add_comm, Z.mul_comm, Z.div_add_l by (apply Z.pow_nonzero; lia).
  rewrite Z.div_small by lia. lia.
Qed.
Lemma cat_mod : forall k v h, 0 <= k -> 0 <= v < 2 ^ k -> cat k v h mod 2 ^ k = v.
Proof.
  intros k v h Hk Hv. unfold cat. rewrite Z.add_comm, Z.mul_comm, Z.add_comm, Z.mod_add by (apply Z.pow_nonzero; lia).
  apply Z.mod_small. auto.
Qed.
Lemma cat_div : forall k v h, 0 <= k -> 0 <= v < 2 ^ k -> cat k v h / 2 ^ k = h.
Proof. intros. rewrite <- Z.shiftr_div_pow2 by auto. apply cat_shiftr; auto. Qed.
Lemma land_ones_id : forall k v, 0 <= k -> 0 <= v < 2 ^ k -> Z.land v (2 ^ k - 1) = v.
Proof. intros k v Hk Hv. replace (2 ^ k - 1) with (Z.ones k) by (rewrite Z.ones_equiv; lia). rewrite Z.land_ones by auto. apply Z.mod_small. auto. Qed.

(** unpacking a packed bit-field structure *)
Lemma pack_holds : forall fs, Forall (fun f => 0 <= fst f /\ 0 <= snd f < 2 ^ fst f) fs -> holds (pack fs) fs.
Proof.
  induction fs as [|[k v] fs IH]; cbn; auto. intros F. inversion F; subst. cbn in *. split; [tauto|].
  exists (pack fs). split; auto. rewrite Z.mod_small by tauto. auto.
Qed.
Lemma holds_unpack : forall fs w, Forall (fun f => 0 <= fst f) fs -> holds w fs -> unpack (map fst fs) w = map snd fs.
Proof.
  induction fs as [|[k v] fs IH]; cbn; auto. intros w F (Hv & h & -> & Hh). inversion F; subst. cbn in *.
  change (v + 2 ^ k * h) with (cat k v h). rewrite cat_mod, cat_div by auto. f_equal. apply IH; auto.
Qed.
Lemma holds_unique : forall fs w w', holds w fs -> holds w' fs -> w = w'.
Proof.
  induction fs as [|[k v] fs IH]; cbn; [congruence|]. intros w w' (A & h & -> & B) (A' & h' & -> & B'). rewrite (IH h h'); auto.
Qed.
Lemma holds_range : forall fs w, Forall (fun f => 0 <= fst f) fs -> holds w fs -> 0 <= w < 2 ^ width fs.
Proof.
  induction fs as [|[k v] fs IH]; cbn; [lia|]. intros w F (A & h & -> & B). inversion F; subst. cbn in *.
  pose proof (IH h ltac:(auto) B) as R. assert (0 <= width fs).
  { clear -H2. induction fs; cbn; [lia|]. inversion H2; subst. specialize (IHfs H3). unfold width in *. cbn. lia. }
  unfold width in *. rewrite Z.pow_add_r by lia. nia.
Qed.
Lemma holds_exists : forall ws w, Forall (fun k => 0 <= k) ws -> 0 <= w < 2 ^ fold_right Z.add 0 ws ->
  holds w (combine ws (unpack ws w)).
Proof.
  induction ws as [|k ws IH]; cbn; [lia|]. intros w F Hw. inversion F; subst.
  assert (0 <= fold_right Z.add 0 ws) by (clear -H2; induction ws; cbn; [lia|inversion H2; subst; specialize (IHws H3); lia]).
  rewrite Z.pow_add_r in Hw by lia. assert (0 < 2 ^ k) by (apply Z.pow_pos_nonneg; lia). split; [apply Z.mod_pos_bound; lia|].
  exists (w / 2 ^ k). split; [rewrite (Z.div_mod w (2 ^ k)) at 1 by lia; lia|]. apply IH; auto.
  split; [apply Z.div_pos; lia|]. apply Z.div_lt_upper_bound; lia.
Qed.

Lemma cat_0 : forall k v, v = cat k v 0.
Proof. intros. unfold cat. lia. Qed.
Lemma shl_cat : forall k v, 0 <= k -> Z.shiftl v k = cat k 0 v.
Proof. intros. rewrite Z.shiftl_mul_pow2 by auto. unfold cat. lia. Qed.
Lemma cat_range : forall k v h m, 0 <= k -> 0 <= m -> 0 <= v < 2 ^ k -> 0 <= h < 2 ^ m -> 0 <= cat k v h < 2 ^ (k + m).
Proof. intros. unfold cat. rewrite Z.pow_add_r by lia. nia. Qed.
Lemma holds_cat : forall w fs k v h, w = cat k v h -> 0 <= v < 2 ^ k -> holds h fs -> holds w ((k, v) :: fs).
Proof. intros w fs k v h E Hv Hh. cbn. split; auto. exists h. split; auto. Qed.
