(** Proofs about the bitmap key encoding. *)
From Coq Require Import ZArith List Bool Lia ZifyBool.
From Verif Require Import Base PkEncModel PkEncSpec.
Import ListNotations.
Open Scope Z_scope.

(** ** memcmp *)
Lemma memcmp_app : forall a b x y, length a = length b ->
  memcmp (a ++ x) (b ++ y) = match memcmp a b with Eq => memcmp x y | c => c end.
Proof.
  induction a as [|u a IH]; intros [|v b] x y L; cbn in L; try discriminate; cbn; auto.
  destruct (u ?= v); auto.
Qed.
Lemma memcmp_refl : forall a, memcmp a a = Eq.
Proof. induction a; cbn; auto. rewrite Z.compare_refl; auto. Qed.
Lemma memcmp_eq : forall a b, memcmp a b = Eq -> a = b.
Proof.
  induction a as [|x a IH]; intros [|y b] H; cbn in H; try discriminate; auto.
  destruct (x ?= y) eqn:E; try discriminate. apply Z.compare_eq in E. subst. f_equal; auto.
Qed.

(** ** Big-endian bytes *)
Lemma be_length : forall n u, length (be n u) = n.
Proof. induction n; intros; cbn [be]; auto. rewrite app_length, IHn. cbn. lia. Qed.
Lemma be_bytes : forall n u, bytes (be n u).
Proof.
  induction n; intros; cbn [be]; [constructor|]. apply Forall_app. split; [apply IHn|].
  constructor; [|constructor]. apply Z.mod_pos_bound. lia.
Qed.
Lemma bits_S : forall n, bits (S n) = bits n + 8.
Proof. intros. unfold bits. lia. Qed.
Lemma bits_nn : forall n, 0 <= bits n.
Proof. intros. unfold bits. lia. Qed.
Lemma pow_S : forall n, 2 ^ bits (S n) = 256 * 2 ^ bits n.
Proof. intros. rewrite bits_S, Z.pow_add_r by (try apply bits_nn; lia). change (2 ^ 8) with 256. lia. Qed.
Lemma shr8 : forall n u, 0 <= u < 2 ^ bits (S n) -> 0 <= Z.shiftr u 8 < 2 ^ bits n.
Proof.
  intros n u R. rewrite pow_S in R. rewrite Z.shiftr_div_pow2 by lia. change (2 ^ 8) with 256.
  split; [apply Z.div_pos; lia|apply Z.div_lt_upper_bound; lia].
Qed.
Lemma divmod_cmp : forall u v, (u ?= v) = match u / 256 ?= v / 256 with Eq => u mod 256 ?= v mod 256 | c => c end.
Proof.
  intros. pose proof (Z.div_mod u 256 ltac:(lia)). pose proof (Z.div_mod v 256 ltac:(lia)).
  pose proof (Z.mod_pos_bound u 256 ltac:(lia)). pose proof (Z.mod_pos_bound v 256 ltac:(lia)).
  destruct (Z.compare_spec (u / 256) (v / 256)).
  - destruct (Z.compare_spec (u mod 256) (v mod 256)); [apply Z.compare_eq_iff|apply Z.compare_lt_iff|apply Z.compare_gt_iff]; lia.
  - apply Z.compare_lt_iff. lia.
  - apply Z.compare_gt_iff. lia.
Qed.
Lemma be_cmp : forall n u v, 0 <= u < 2 ^ bits n -> 0 <= v < 2 ^ bits n -> memcmp (be n u) (be n v) = (u ?= v).
Proof.
  induction n; intros u v U V.
  - cbn in *. symmetry. apply Z.compare_eq_iff. change (2 ^ bits 0) with 1 in *. lia.
  - cbn [be]. rewrite memcmp_app by (rewrite !be_length; auto). rewrite IHn by (apply shr8; auto).
    rewrite (divmod_cmp u v), !Z.shiftr_div_pow2 by lia. change (2 ^ 8) with 256.
    destruct (u / 256 ?= v / 256); auto. cbn. destruct (u mod 256 ?= v mod 256); auto.
Qed.

Lemma low_high_land : forall k a h, 0 <= k -> 0 <= a < 2 ^ k -> Z.land (h * 2 ^ k) a = 0.
Proof.
  intros. apply Z.bits_inj'. intros i Hi. rewrite Z.land_spec, Z.bits_0, Z.mul_pow2_bits by lia.
  destruct (Z.ltb_spec i k). { rewrite Z.testbit_neg_r by lia. auto. }
  replace (Z.testbit a i) with false. { apply andb_false_r. }
  symmetry. destruct (Z.eq_dec a 0) as [->|]. { apply Z.bits_0. }
  apply Z.bits_above_log2; [lia|]. assert (Z.log2 a < k) by (apply Z.log2_lt_pow2; lia). lia.
Qed.
Lemma lor8 : forall u b, 0 <= b < 256 -> Z.lor (Z.shiftl u 8) b = u * 256 + b.
Proof.
  intros. rewrite Z.shiftl_mul_pow2 by lia. rewrite <- Z.lxor_lor, <- Z.add_nocarry_lxor; auto;
  apply low_high_land; change (2 ^ 8) with 256; lia.
Qed.
Definition un (l : list Z) := fold_left (fun u b => Z.lor (Z.shiftl u 8) b) l 0.
Lemma un_be : forall n u, 0 <= u < 2 ^ bits n -> un (be n u) = u.
Proof.
  unfold un. induction n; intros u U.
  - cbn. change (2 ^ bits 0) with 1 in *. lia.
  - cbn [be]. rewrite fold_left_app. cbn [fold_left]. rewrite IHn by (apply shr8; auto).
    rewrite lor8 by (apply Z.mod_pos_bound; lia). rewrite Z.shiftr_div_pow2 by lia. change (2 ^ 8) with 256.
    pose proof (Z.div_mod u 256). lia.
Qed.

(** ** Flipping bits *)
Lemma pow_split : forall n, 0 < n -> 2 ^ n = 2 * 2 ^ (n - 1).
Proof. intros. rewrite <- Z.pow_succ_r by lia. f_equal. lia. Qed.
Lemma flip_lo : forall k r, 0 <= k -> 0 <= r < 2 ^ k -> Z.lxor r (2 ^ k) = r + 2 ^ k.
Proof.
  intros. symmetry. apply Z.add_nocarry_lxor. rewrite Z.land_comm. rewrite <- (Z.mul_1_l (2 ^ k)). apply low_high_land; auto.
Qed.
Lemma flip_hi : forall k r, 0 <= k -> 0 <= r < 2 ^ k -> Z.lxor (r + 2 ^ k) (2 ^ k) = r.
Proof. intros. rewrite <- flip_lo by auto. rewrite Z.lxor_assoc, Z.lxor_nilpotent. apply Z.lxor_0_r. Qed.
Lemma flip_sign : forall n u, 0 < n -> 0 <= u < 2 ^ n ->
  Z.lxor u (2 ^ (n - 1)) = if u <? 2 ^ (n - 1) then u + 2 ^ (n - 1) else u - 2 ^ (n - 1).
Proof.
  intros n u N U. rewrite (pow_split n N) in U. destruct (Z.ltb_spec u (2 ^ (n - 1))).
  - apply flip_lo; lia.
  - replace u with (u - 2 ^ (n - 1) + 2 ^ (n - 1)) at 1 by lia. apply flip_hi; lia.
Qed.
Lemma flip_all : forall n u, 0 <= n -> 0 <= u < 2 ^ n -> Z.lxor u (Z.ones n) = 2 ^ n - 1 - u.
Proof.
  intros n u N U. enough (E : Z.lxor u (Z.ones n) + u = Z.ones n) by (rewrite Z.ones_equiv in *; lia).
  rewrite Z.add_nocarry_lxor.
  - rewrite (Z.lxor_comm u), Z.lxor_assoc, Z.lxor_nilpotent. apply Z.lxor_0_r.
  - apply Z.bits_inj'. intros i Hi. rewrite Z.land_spec, Z.lxor_spec, Z.bits_0.
    destruct (Z.ltb_spec i n).
    + rewrite Z.ones_spec_low by lia. destruct (Z.testbit u i); auto.
    + rewrite Z.ones_spec_high by lia. destruct (Z.eq_dec u 0) as [->|]. { rewrite Z.bits_0. auto. }
      rewrite Z.bits_above_log2; auto; [lia|]. assert (Z.log2 u < n) by (apply Z.log2_lt_pow2; lia). lia.
Qed.
Lemma land_sign : forall n u, 0 < n -> 0 <= u < 2 ^ n -> (Z.land u (2 ^ (n - 1)) =? 0) = (u <? 2 ^ (n - 1)).
Proof.
  intros n u N U. rewrite (pow_split n N) in U. destruct (Z.ltb_spec u (2 ^ (n - 1))) as [L|L].
  - rewrite Z.land_comm. rewrite <- (Z.mul_1_l (2 ^ (n - 1))). rewrite low_high_land by lia. auto.
  - apply Z.eqb_neq. intro E. assert (Z.testbit (Z.land u (2 ^ (n - 1))) (n - 1) = false) by (rewrite E; apply Z.bits_0).
    rewrite Z.land_spec, Z.pow2_bits_true, andb_true_r in H by lia.
    replace u with (u - 2 ^ (n - 1) + 2 ^ (n - 1)) in H by lia. rewrite <- flip_lo in H by lia.
    rewrite Z.lxor_spec, Z.pow2_bits_true in H by lia.
    replace (Z.testbit (u - 2 ^ (n - 1)) (n - 1)) with false in H; [discriminate|].
    symmetry. destruct (Z.eq_dec (u - 2 ^ (n - 1)) 0) as [->|]. { apply Z.bits_0. }
    apply Z.bits_above_log2; [lia|]. apply Z.log2_lt_pow2; lia.
Qed.

Lemma sint_range : forall n z, 0 < n -> - 2 ^ (n - 1) <= z < 2 ^ (n - 1) ->
  Z.lxor (z mod 2 ^ n) (2 ^ (n - 1)) = z + 2 ^ (n - 1).
Proof.
  intros n z N R. pose proof (pow_split n N). rewrite flip_sign by (auto; apply Z.mod_pos_bound; lia).
  destruct (Z_lt_le_dec z 0).
  - replace (z mod 2 ^ n) with (z + 2 ^ n).
    2:{ apply Z.mod_unique_pos with (-1); lia. }
    destruct (Z.ltb_spec (z + 2 ^ n) (2 ^ (n - 1))); lia.
  - rewrite Z.mod_small by lia. destruct (Z.ltb_spec z (2 ^ (n - 1))); lia.
Qed.

(** ** Floats *)
Lemma magnitude_lt : forall m a b, 0 <= m -> 0 <= a < b -> magnitude m a < magnitude m b.
Proof.
  intros m a b M R. unfold magnitude. assert (P : 0 < 2 ^ m) by (apply Z.pow_pos_nonneg; lia).
  pose proof (Z.div_mod a (2 ^ m) ltac:(lia)) as Da. pose proof (Z.div_mod b (2 ^ m) ltac:(lia)) as Db.
  pose proof (Z.mod_pos_bound a (2 ^ m) P) as Ma. pose proof (Z.mod_pos_bound b (2 ^ m) P) as Mb.
  assert (Qa : 0 <= a / 2 ^ m) by (apply Z.div_pos; lia).
  assert (Q : a / 2 ^ m <= b / 2 ^ m) by (apply Z.div_le_mono; lia).
  set (ea := a / 2 ^ m) in *. set (eb := b / 2 ^ m) in *. set (fa := a mod 2 ^ m) in *. set (fb := b mod 2 ^ m) in *. clearbody ea eb fa fb.
  destruct (Z.eq_dec ea eb) as [->|NE].
  - assert (fa < fb) by nia. destruct (Z.eqb_spec eb 0); [auto|].
    assert (0 < 2 ^ (eb - 1)) by (apply Z.pow_pos_nonneg; lia). nia.
  - destruct (Z.eqb_spec eb 0); [lia|].
    assert (UA : (if ea =? 0 then fa else (2 ^ m + fa) * 2 ^ (ea - 1)) < 2 ^ m * 2 ^ ea).
    { destruct (Z.eqb_spec ea 0) as [->|]. { change (2 ^ 0) with 1. lia. }
      rewrite (pow_split ea) by lia. assert (0 < 2 ^ (ea - 1)) by (apply Z.pow_pos_nonneg; lia). nia. }
    assert (2 ^ ea <= 2 ^ (eb - 1)) by (apply Z.pow_le_mono_r; lia).
    assert (0 < 2 ^ ea) by (apply Z.pow_pos_nonneg; lia). nia.
Qed.
Lemma magnitude_0 : forall m, magnitude m 0 = 0.
Proof. intros. unfold magnitude. rewrite Zdiv_0_l, Zmod_0_l. auto. Qed.
Lemma magnitude_cmp : forall m a b, 0 <= m -> 0 <= a -> 0 <= b -> (magnitude m a ?= magnitude m b) = (a ?= b).
Proof.
  intros m a b M A B. destruct (Z.compare_spec a b).
  - subst. apply Z.compare_refl.
  - apply Z.compare_lt_iff. apply magnitude_lt; lia.
  - apply Z.compare_gt_iff. apply magnitude_lt; lia.
Qed.

(** The signed index of a bit pattern: its position among all values, zeros identified. *)
Definition idx (n b : Z) := if b <? 2 ^ (n - 1) then b else - (b - 2 ^ (n - 1)).
Lemma float_idx : forall w a b, (0 < w)%nat -> 0 <= a < 2 ^ bits w -> 0 <= b < 2 ^ bits w ->
  (float_value w a ?= float_value w b) = (idx (bits w) a ?= idx (bits w) b).
Proof.
  intros w a b W A B. unfold float_value, sign_bit, idx. set (k := 2 ^ (bits w - 1)) in *.
  assert (MP : 0 <= mant w) by (unfold mant; destruct (Nat.eqb w 4); lia). set (m := mant w) in *. clearbody m.
  assert (K : 0 <= k) by (apply Z.pow_nonneg; lia).
  assert (P : forall x, 0 <= x -> 0 <= magnitude m x).
  { intros x X. destruct (Z.eq_dec x 0) as [->|]. { rewrite magnitude_0. lia. } pose proof (magnitude_lt m 0 x MP ltac:(lia)). rewrite magnitude_0 in H. lia. }
  assert (P0 : forall x, 0 <= x -> magnitude m x = 0 -> x = 0).
  { intros x X E. destruct (Z.eq_dec x 0); auto. pose proof (magnitude_lt m 0 x MP ltac:(lia)). rewrite magnitude_0 in H. lia. }
  destruct (Z.leb_spec k a), (Z.ltb_spec a k), (Z.leb_spec k b), (Z.ltb_spec b k); try lia.
  - rewrite !Z.compare_opp. apply magnitude_cmp; lia.
  - pose proof (P (a - k) ltac:(lia)). pose proof (P b ltac:(lia)).
    destruct (Z.eq_dec (a - k) 0) as [E|E].
    + rewrite E, magnitude_0. change (- 0) with 0. pose proof (magnitude_cmp m 0 b MP ltac:(lia) ltac:(lia)) as X. rewrite magnitude_0 in X. exact X.
    + transitivity Lt; [|symmetry]; apply Z.compare_lt_iff; [|lia].
      destruct (Z.eq_dec (magnitude m (a - k)) 0); [|lia]. exfalso. apply E. apply P0; auto; lia.
  - pose proof (P (b - k) ltac:(lia)). pose proof (P a ltac:(lia)).
    destruct (Z.eq_dec (b - k) 0) as [E|E].
    + rewrite E, magnitude_0. change (- 0) with 0. pose proof (magnitude_cmp m a 0 MP ltac:(lia) ltac:(lia)) as X. rewrite magnitude_0 in X. exact X.
    + transitivity Gt; [|symmetry]; apply Z.compare_gt_iff; [|lia].
      destruct (Z.eq_dec (magnitude m (b - k)) 0); [|lia]. exfalso. apply E. apply P0; auto; lia.
  - apply magnitude_cmp; lia.
Qed.

Definition fenc (w : nat) (b : Z) : Z :=
  let n := float_norm w b in Z.lxor n (if negb (Z.land n (SIGNBIT w) =? 0) then Z.ones (bits w) else SIGNBIT w).
Definition fdec (w : nat) (u : Z) : Z := Z.lxor u (if negb (Z.land u (SIGNBIT w) =? 0) then SIGNBIT w else Z.ones (bits w)).
Lemma W48 : forall w, w = 4%nat \/ w = 8%nat -> 0 < bits w /\ 0 < mant w < bits w - 1 /\ 0 <= NANBITS w < 2 ^ (bits w - 1) /\ 2 ^ (bits w - 1) - 2 ^ mant w < NANBITS w /\ nan w (NANBITS w) = true.
Proof. intros w [->| ->]; vm_compute; intuition discriminate. Qed.
Lemma nan_eq : forall w b, w = 4%nat \/ w = 8%nat -> nan w b = isnan w b.
Proof.
  intros w b W. destruct (W48 w W) as (B & M & _). unfold nan, isnan. set (a := b mod 2 ^ (bits w - 1)).
  assert (A : 0 <= a < 2 ^ (bits w - 1)) by (apply Z.mod_pos_bound; apply Z.pow_pos_nonneg; lia). clearbody a.
  assert (E : 2 ^ (bits w - 1) = 2 ^ (bits w - 1 - mant w) * 2 ^ mant w) by (rewrite <- Z.pow_add_r by lia; f_equal; lia).
  assert (P : 0 < 2 ^ mant w) by (apply Z.pow_pos_nonneg; lia).
  pose proof (Z.div_mod a (2 ^ mant w) ltac:(lia)) as D. pose proof (Z.mod_pos_bound a (2 ^ mant w) P) as Mb.
  rewrite E in *. set (h := 2 ^ (bits w - 1 - mant w)) in *. set (q := a / 2 ^ mant w) in *. set (r := a mod 2 ^ mant w) in *. set (p := 2 ^ mant w) in *.
  clearbody h q r p. destruct (Z.eqb_spec q (h - 1)), (Z.eqb_spec r 0), (Z.ltb_spec (h * p - p) a); cbn; try reflexivity; exfalso; subst; nia.
Qed.
Lemma land_low : forall n b, 0 < n -> 0 <= b < 2 ^ n -> (Z.land b (Z.ones (n - 1)) =? 0) = ((b =? 0) || (b =? 2 ^ (n - 1))).
Proof.
  intros n b N R. pose proof (pow_split n N). rewrite Z.land_ones by lia.
  destruct (Z_lt_le_dec b (2 ^ (n - 1))).
  - rewrite Z.mod_small by lia. destruct (Z.eqb_spec b 0), (Z.eqb_spec b (2 ^ (n - 1))); auto; lia.
  - replace (b mod 2 ^ (n - 1)) with (b - 2 ^ (n - 1)) by (apply Z.mod_unique_pos with 1; lia).
    destruct (Z.eqb_spec (b - 2 ^ (n - 1)) 0), (Z.eqb_spec b 0), (Z.eqb_spec b (2 ^ (n - 1))); auto; lia.
Qed.
Lemma norm_range : forall w b, w = 4%nat \/ w = 8%nat -> 0 <= b < 2 ^ bits w -> 0 <= float_norm w b < 2 ^ bits w.
Proof.
  intros w b W R. destruct (W48 w W) as (B & M & N & _). unfold float_norm. pose proof (pow_split (bits w) B).
  destruct (isnan w b); [lia|]. destruct (_ =? 0); lia.
Qed.
(** The encoding as a function of the index. *)
Lemma fenc_idx : forall w b, w = 4%nat \/ w = 8%nat -> 0 <= b < 2 ^ bits w ->
  fenc w b = if isnan w b then 2 ^ (bits w - 1) + NANBITS w
             else let i := idx (bits w) b in if i <? 0 then 2 ^ (bits w - 1) + i - 1 else 2 ^ (bits w - 1) + i.
Proof.
  intros w b W R. destruct (W48 w W) as (B & M & N & _). pose proof (pow_split (bits w) B).
  pose proof (norm_range w b W R). unfold fenc, SIGNBIT. rewrite land_sign by auto.
  unfold float_norm in *. rewrite land_low in * by auto. destruct (isnan w b) eqn:NB.
  - destruct (Z.ltb_spec (NANBITS w) (2 ^ (bits w - 1))); [|lia]. cbn [negb]. rewrite flip_sign by auto.
    destruct (Z.ltb_spec (NANBITS w) (2 ^ (bits w - 1))); lia.
  - unfold idx. destruct (Z.eqb_spec b 0) as [->|Z0]; cbn [orb] in *.
    { destruct (Z.ltb_spec 0 (2 ^ (bits w - 1))); [|lia]. cbn [negb]. rewrite Z.lxor_0_l. destruct (Z.ltb_spec 0 0); lia. }
    destruct (Z.eqb_spec b (2 ^ (bits w - 1))) as [EB|Z1]; cbn [orb] in *.
    { destruct (Z.ltb_spec 0 (2 ^ (bits w - 1))); [|lia]. cbn [negb]. rewrite Z.lxor_0_l.
      destruct (Z.ltb_spec b (2 ^ (bits w - 1))); [lia|]. replace (- (b - 2 ^ (bits w - 1))) with 0 by lia. destruct (Z.ltb_spec 0 0); lia. }
    destruct (Z.ltb_spec b (2 ^ (bits w - 1))); cbn [negb].
    + rewrite flip_sign by auto. destruct (Z.ltb_spec b (2 ^ (bits w - 1))); [|lia]. destruct (Z.ltb_spec b 0); lia.
    + rewrite flip_all by lia. destruct (Z.ltb_spec (- (b - 2 ^ (bits w - 1))) 0); lia.
Qed.
Lemma idx_nonan : forall w b, w = 4%nat \/ w = 8%nat -> 0 <= b < 2 ^ bits w -> isnan w b = false ->
  - 2 ^ (bits w - 1) < idx (bits w) b <= 2 ^ (bits w - 1) - 2 ^ mant w.
Proof.
  intros w b W R I. destruct (W48 w W) as (B & M & _). pose proof (pow_split (bits w) B).
  assert (2 ^ mant w < 2 ^ (bits w - 1)) by (apply Z.pow_lt_mono_r; lia).
  unfold isnan in I. apply Z.ltb_ge in I. unfold idx. destruct (Z.ltb_spec b (2 ^ (bits w - 1))).
  - rewrite Z.mod_small in I by lia. lia.
  - lia.
Qed.
Lemma fenc_range : forall w b, w = 4%nat \/ w = 8%nat -> 0 <= b < 2 ^ bits w -> 0 <= fenc w b < 2 ^ bits w.
Proof.
  intros w b W R. destruct (W48 w W) as (B & M & N & _). pose proof (pow_split (bits w) B). rewrite fenc_idx by auto.
  assert (0 < 2 ^ mant w) by (apply Z.pow_pos_nonneg; lia).
  destruct (isnan w b) eqn:E; [lia|]. pose proof (idx_nonan w b W R E). cbn zeta. destruct (_ <? 0) eqn:Q; [|lia].
  apply Z.ltb_lt in Q. lia.
Qed.
Lemma fenc_cmp : forall w a b, w = 4%nat \/ w = 8%nat -> 0 <= a < 2 ^ bits w -> 0 <= b < 2 ^ bits w ->
  (fenc w a ?= fenc w b) = cmp_float w a b.
Proof.
  intros w a b W A B. unfold cmp_float. rewrite !nan_eq, !fenc_idx by auto.
  destruct (W48 w W) as (Bp & M & N & N2 & _).
  assert (0 < 2 ^ mant w) by (apply Z.pow_pos_nonneg; lia).
  destruct (isnan w a) eqn:Ea, (isnan w b) eqn:Eb.
  - apply Z.compare_refl.
  - pose proof (idx_nonan w b W B Eb). cbn zeta. apply Z.compare_gt_iff. destruct (_ <? 0) eqn:Q; try apply Z.ltb_lt in Q; lia.
  - pose proof (idx_nonan w a W A Ea). cbn zeta. apply Z.compare_lt_iff. destruct (_ <? 0) eqn:Q; try apply Z.ltb_lt in Q; lia.
  - rewrite float_idx by (auto; destruct W; subst; lia). cbn zeta.
    set (i := idx (bits w) a). set (j := idx (bits w) b). clearbody i j.
    destruct (Z.ltb_spec i 0), (Z.ltb_spec j 0), (Z.compare_spec i j); subst;
      try (apply Z.compare_eq_iff; lia); try (apply Z.compare_lt_iff; lia); try (apply Z.compare_gt_iff; lia); lia.
Qed.
Lemma fdec_fenc : forall w b, w = 4%nat \/ w = 8%nat -> 0 <= b < 2 ^ bits w -> fdec w (fenc w b) = float_norm w b.
Proof.
  intros w b W R. destruct (W48 w W) as (B & M & N & _). pose proof (pow_split (bits w) B).
  pose proof (fenc_range w b W R) as FR. pose proof (norm_range w b W R) as NR.
  unfold fdec, SIGNBIT. rewrite land_sign by auto.
  unfold fenc, SIGNBIT in *. rewrite land_sign in * by auto. set (n := float_norm w b) in *. clearbody n.
  destruct (Z.ltb_spec n (2 ^ (bits w - 1))); cbn [negb] in *.
  - replace (Z.lxor n (2 ^ (bits w - 1)) <? 2 ^ (bits w - 1)) with false.
    + cbn [negb]. rewrite Z.lxor_assoc, Z.lxor_nilpotent. apply Z.lxor_0_r.
    + symmetry. rewrite flip_sign by auto. destruct (Z.ltb_spec n (2 ^ (bits w - 1))); [|lia]. apply Z.ltb_ge. lia.
  - replace (Z.lxor n (Z.ones (bits w)) <? 2 ^ (bits w - 1)) with true.
    + cbn [negb]. rewrite Z.lxor_assoc, Z.lxor_nilpotent. apply Z.lxor_0_r.
    + symmetry. rewrite flip_all by lia. apply Z.ltb_lt. lia.
Qed.
Lemma norm_eq : forall w b, w = 4%nat \/ w = 8%nat -> 0 <= b < 2 ^ bits w -> cmp_float w (float_norm w b) b = Eq.
Proof.
  intros w b W R. destruct (W48 w W) as (B & M & N & _ & NN). unfold float_norm. rewrite <- nan_eq by auto.
  destruct (nan w b) eqn:E. { unfold cmp_float. rewrite NN, E. auto. }
  rewrite land_low by auto. pose proof (pow_split (bits w) B).
  assert (P : 0 < 2 ^ (bits w - 1)) by (apply Z.pow_pos_nonneg; lia).
  destruct (_ || _) eqn:Q.
  - rewrite <- fenc_cmp by (auto; lia). apply Z.compare_eq_iff. rewrite !fenc_idx by (auto; lia).
    replace (isnan w 0) with false by (destruct W; subst; reflexivity). rewrite <- nan_eq, E by auto. unfold idx.
    destruct (Z.ltb_spec 0 (2 ^ (bits w - 1))); [|lia]. apply orb_true_iff in Q. destruct Q as [Q|Q]; apply Z.eqb_eq in Q; subst b.
    + destruct (Z.ltb_spec 0 (2 ^ (bits w - 1))); [|lia]. auto.
    + destruct (Z.ltb_spec (2 ^ (bits w - 1)) (2 ^ (bits w - 1))); [lia|]. rewrite Z.sub_diag. auto.
  - unfold cmp_float. rewrite E. apply Z.compare_refl.
Qed.

(** ** One column *)
Lemma fixed_float : forall t w, fixed t = (w, FLOAT) -> w = 4%nat \/ w = 8%nat.
Proof. intros [] w H; inv H; auto. Qed.
Lemma encode_len : forall t v, valid t v -> length (encode_one t v) = width t.
Proof.
  intros t v V. unfold encode_one, width. destruct t, v; cbn [fixed fst valid] in *; try tauto; try apply be_length;
  destruct V as [L _]; rewrite firstn_length; lia.
Qed.
Lemma Forall_firstn' : forall A (P : A -> Prop) n l, Forall P l -> Forall P (firstn n l).
Proof. induction n; intros l F; [constructor|]. destruct F; cbn; constructor; auto. Qed.
Lemma encode_bytes : forall t v, valid t v -> bytes (encode_one t v).
Proof.
  intros t v V. unfold encode_one. destruct t, v; cbn [fixed valid] in *; try tauto; try apply be_bytes;
  destruct V as [_ F]; apply Forall_firstn'; auto.
Qed.
Lemma cmp_shift : forall a b c, (a + c ?= b + c) = (a ?= b).
Proof. intros. rewrite (Z.add_comm a), (Z.add_comm b). apply Zcompare_plus_compat. Qed.
Lemma sint_cmp : forall w z z', (0 < w)%nat -> - 2 ^ (bits w - 1) <= z < 2 ^ (bits w - 1) -> - 2 ^ (bits w - 1) <= z' < 2 ^ (bits w - 1) ->
  memcmp (be w (Z.lxor (z mod 2 ^ bits w) (SIGNBIT w))) (be w (Z.lxor (z' mod 2 ^ bits w) (SIGNBIT w))) = (z ?= z').
Proof.
  intros. unfold SIGNBIT. assert (B : 0 < bits w) by (unfold bits; lia). pose proof (pow_split (bits w) B).
  rewrite !sint_range by auto. rewrite be_cmp by lia. apply cmp_shift.
Qed.
Lemma uint_cmp : forall w z z', 0 <= z < 2 ^ bits w -> 0 <= z' < 2 ^ bits w ->
  memcmp (be w (z mod 2 ^ bits w)) (be w (z' mod 2 ^ bits w)) = (z ?= z').
Proof. intros. rewrite !Z.mod_small by lia. apply be_cmp; auto. Qed.
Lemma float_cmp : forall w z z', w = 4%nat \/ w = 8%nat -> 0 <= z < 2 ^ bits w -> 0 <= z' < 2 ^ bits w ->
  memcmp (be w (fenc w z)) (be w (fenc w z')) = cmp_float w z z'.
Proof. intros. rewrite be_cmp by (apply fenc_range; auto). apply fenc_cmp; auto. Qed.
Lemma encode_cmp : forall t a b, valid t a -> valid t b -> memcmp (encode_one t a) (encode_one t b) = cmp_val t a b.
Proof.
  intros t a b A B. unfold encode_one. destruct t, a, b; cbn [fixed valid cmp_val] in *; try tauto;
  try (apply sint_cmp; [lia|cbn in *; lia|cbn in *; lia]);
  try (apply uint_cmp; cbn in *; lia);
  try (apply float_cmp; cbn in *; auto; lia);
  (rewrite !firstn_all2 by lia; auto).
Qed.

Lemma decode_encode : forall t v rest, valid t v ->
  decode_one (encode_one t v ++ rest) t = (match t, v with TFloat4, DZ b => DZ (float_norm 4 b) | TFloat8, DZ b => DZ (float_norm 8 b) | _, _ => v end, width t).
Proof.
  intros t v rest V. pose proof (encode_len t v V) as L. unfold decode_one. unfold width in *. destruct (fixed t) as [w k] eqn:F. cbn [fst] in *.
  rewrite firstn_app, L, Nat.sub_diag, firstn_O, app_nil_r. rewrite firstn_all2 by lia. f_equal.
  fold (un (encode_one t v)). unfold encode_one. rewrite F.
  assert (SI : forall w z, (0 < w)%nat -> - 2 ^ (bits w - 1) <= z < 2 ^ (bits w - 1) ->
    signed w (Z.lxor (un (be w (Z.lxor (z mod 2 ^ bits w) (SIGNBIT w)))) (SIGNBIT w)) = z).
  { clear. intros w z W R. unfold SIGNBIT. assert (B : 0 < bits w) by (unfold bits; lia). pose proof (pow_split (bits w) B).
    rewrite sint_range by auto. rewrite un_be by lia. rewrite flip_sign by lia. unfold signed.
    destruct (Z.ltb_spec (z + 2 ^ (bits w - 1)) (2 ^ (bits w - 1))).
    - destruct (Z.ltb_spec (z + 2 ^ (bits w - 1) + 2 ^ (bits w - 1)) (2 ^ (bits w - 1))); lia.
    - destruct (Z.ltb_spec (z + 2 ^ (bits w - 1) - 2 ^ (bits w - 1)) (2 ^ (bits w - 1))); lia. }
  assert (FL : forall w z, w = 4%nat \/ w = 8%nat -> 0 <= z < 2 ^ bits w ->
    Z.lxor (un (be w (fenc w z))) (if negb (Z.land (un (be w (fenc w z))) (SIGNBIT w) =? 0) then SIGNBIT w else Z.ones (bits w)) = float_norm w z).
  { clear. intros w z W R. rewrite un_be by (apply fenc_range; auto). apply fdec_fenc; auto. }
  destruct t, v; cbn [fixed valid] in *; inv F; try tauto;
  try (f_equal; apply SI; [lia|cbn in *; lia]);
  try (f_equal; apply FL; cbn in *; auto; lia);
  try (f_equal; rewrite Z.mod_small by (cbn in *; lia); apply un_be; cbn in *; lia);
  (rewrite !firstn_all2 by lia; auto).
Qed.

(** ** Composite keys *)
Lemma cols_len : forall ts vs, valid_key ts vs -> length (encode_cols ts vs) = key_len ts.
Proof.
  induction ts as [|t ts IH]; intros [|v vs] V; cbn in *; try tauto; auto. destruct V as [V1 V2].
  rewrite app_length, encode_len, IH; auto.
Qed.
Lemma cols_cmp : forall ts a b, valid_key ts a -> valid_key ts b -> memcmp (encode_cols ts a) (encode_cols ts b) = cmp_key ts a b.
Proof.
  induction ts as [|t ts IH]; intros [|x a] [|y b] A B; cbn in *; try tauto; auto. destruct A as [A1 A2], B as [B1 B2].
  rewrite memcmp_app by (rewrite !encode_len; auto). rewrite encode_cmp, IH by auto. auto.
Qed.
Lemma cmp_val_refl : forall t v, cmp_val t v v = Eq.
Proof.
  intros t [z|l]; cbn; [|apply memcmp_refl]. destruct t; try apply Z.compare_refl; unfold cmp_float; destruct (nan _ z); auto; apply Z.compare_refl.
Qed.
Definition exact (t : typ) : bool := match t with TFloat4 | TFloat8 => false | _ => true end.
Lemma skipn_len_app : forall (A : Type) (l r : list A) n, length l = n -> skipn n (l ++ r) = r.
Proof. intros. subst n. rewrite skipn_app, skipn_all, Nat.sub_diag. auto. Qed.
Lemma cols_decode : forall ts vs, valid_key ts vs ->
  cmp_key ts (decode_cols (encode_cols ts vs) ts) vs = Eq /\ length (decode_cols (encode_cols ts vs) ts) = length vs /\
  (forallb exact ts = true -> decode_cols (encode_cols ts vs) ts = vs).
Proof.
  induction ts as [|t ts IH]; intros [|v vs] V; cbn [valid_key encode_cols decode_cols] in *; try tauto.
  destruct V as [V1 V2]. rewrite decode_encode by auto. rewrite skipn_len_app by (apply encode_len; auto).
  destruct (IH vs V2) as (I1 & I2 & I3). cbn [cmp_key length forallb]. split; [|split; [lia|]].
  - replace (cmp_val t _ v) with Eq; [exact I1|]. symmetry.
    destruct t, v; cbn [valid] in V1; try tauto; try apply cmp_val_refl; cbn [cmp_val]; apply norm_eq; auto.
  - intro E. apply andb_true_iff in E. destruct E as [E1 E2]. f_equal; [|auto]. destruct t, v; try discriminate E1; cbn [valid] in V1; tauto.
Qed.

(** ** The next key *)
Fixpoint lval (r : list Z) : Z := match r with [] => 0 | b :: r => b + 256 * lval r end.
Lemma incr_val : forall r r', bytes r -> incr_be r = Some r' -> lval r' = lval r + 1 /\ length r' = length r /\ bytes r'.
Proof.
  induction r as [|b r IH]; intros r' B H; cbn in H; [discriminate|]. inv B.
  destruct (Z.eqb_spec b 255).
  - destruct (incr_be r) eqn:E; [|discriminate]. inv H. destruct (IH l H3 eq_refl) as (I1 & I2 & I3). cbn [lval length]. repeat split; try lia.
    constructor; auto; lia.
  - inv H. cbn [lval length]. repeat split; try lia. constructor; auto. lia.
Qed.
Lemma lval_bound : forall r, bytes r -> 0 <= lval r < 2 ^ bits (length r).
Proof.
  induction r as [|b r IH]; intro B; [cbn; lia|]. inv B. specialize (IH H2). cbn [lval length]. rewrite pow_S. lia.
Qed.
Lemma incr_none : forall r, bytes r -> incr_be r = None -> lval r = 2 ^ bits (length r) - 1.
Proof.
  induction r as [|b r IH]; intros B H; [reflexivity|]. inv B. cbn in H. destruct (Z.eqb_spec b 255); [|discriminate].
  destruct (incr_be r); [discriminate|]. cbn [lval length]. rewrite pow_S, IH by auto. lia.
Qed.
Lemma memcmp_rev : forall a b, length a = length b -> bytes a -> bytes b -> memcmp (rev a) (rev b) = (lval a ?= lval b).
Proof.
  induction a as [|x a IH]; intros [|y b] L A B; cbn in L; try discriminate; [reflexivity|]. inv A. inv B. cbn [rev lval].
  rewrite memcmp_app by (rewrite !rev_length; lia). rewrite IH by (auto; lia). rewrite (divmod_cmp (x + _) (y + _)).
  rewrite !(Z.mul_comm 256), !Z.div_add, !Z.mod_add by lia. rewrite !(Z.div_small _ 256), !(Z.mod_small _ 256) by lia.
  cbn [Z.add]. destruct (lval a ?= lval b); auto. cbn. destruct (x ?= y); auto.
Qed.
Lemma bytes_rev : forall l, bytes l -> bytes (rev l).
Proof. intros. apply Forall_rev; auto. Qed.
Lemma next_spec : forall k k', bytes k -> length k' = length k -> bytes k' ->
  match next_key k with
  | Some n => memcmp k n = Lt /\ length n = length k /\ bytes n /\ (memcmp k k' = Lt <-> memcmp n k' <> Gt)
  | None => memcmp k k' <> Lt
  end.
Proof.
  intros k k' B L B'. unfold next_key.
  assert (C : forall a b, length a = length b -> bytes a -> bytes b -> memcmp a b = (lval (rev a) ?= lval (rev b))).
  { intros. rewrite <- memcmp_rev by (rewrite ?rev_length; auto using bytes_rev). rewrite !rev_involutive. auto. }
  destruct (incr_be (rev k)) as [r|] eqn:E.
  - destruct (incr_val _ _ (bytes_rev _ B) E) as (V & LR & BR). rewrite rev_length in *.
    assert (L2 : length (rev r) = length k) by (rewrite rev_length; auto). assert (B2 : bytes (rev r)) by (apply bytes_rev; auto).
    repeat split; auto.
    + rewrite C by auto. rewrite rev_involutive. apply Z.compare_lt_iff. lia.
    + intros H. rewrite C in H by congruence. rewrite (C (rev r) k') by congruence. rewrite rev_involutive. assert (lval (rev k) < lval (rev k')) by exact H. intro G. apply Z.compare_gt_iff in G. lia.
    + intros H. rewrite C by congruence. rewrite (C (rev r) k') in H by congruence. rewrite rev_involutive in H. apply Z.compare_lt_iff.
      destruct (Z.compare_spec (lval r) (lval (rev k'))); try lia. congruence.
  - pose proof (incr_none _ (bytes_rev _ B) E) as V. rewrite C by auto. intro H. assert (lval (rev k) < lval (rev k')) by exact H. clear H.
    pose proof (lval_bound (rev k') (bytes_rev _ B')). rewrite rev_length in *. rewrite L in *. lia.
Qed.

(** ** One-column keys *)
Lemma u64_small : forall z, 0 <= z < 2 ^ 64 -> u64 z = z.
Proof. intros. unfold u64. apply Z.mod_small. auto. Qed.
Lemma s64_small : forall z, - 2 ^ 63 <= z < 2 ^ 63 -> s64 z = z.
Proof.
  intros z R. unfold s64. cbn zeta. destruct (Z_lt_le_dec z 0).
  - replace (z mod 2 ^ 64) with (z + 2 ^ 64) by (apply Z.mod_unique_pos with (-1); lia). destruct (Z.ltb_spec (z + 2 ^ 64) (2 ^ 63)); lia.
  - rewrite Z.mod_small by lia. destruct (Z.ltb_spec z (2 ^ 63)); lia.
Qed.
Lemma s32_small : forall z, - 2 ^ 31 <= z < 2 ^ 31 -> s32 z = z.
Proof.
  intros z R. unfold s32. cbn zeta. destruct (Z_lt_le_dec z 0).
  - replace (z mod 2 ^ 32) with (z + 2 ^ 32) by (apply Z.mod_unique_pos with (-1); lia). destruct (Z.ltb_spec (z + 2 ^ 32) (2 ^ 31)); lia.
  - rewrite Z.mod_small by lia. destruct (Z.ltb_spec z (2 ^ 31)); lia.
Qed.
Lemma i2u : forall v, - 2 ^ 63 <= v < 2 ^ 63 -> int64_to_uint64 v = v + 2 ^ 63.
Proof.
  intros v R. unfold int64_to_uint64, HIGH. destruct (Z.leb_spec 0 v).
  - rewrite u64_small by lia. rewrite <- Z.lxor_lor.
    + apply flip_lo; lia.
    + rewrite Z.land_comm. rewrite <- (Z.mul_1_l (2 ^ 63)). apply low_high_land; lia.
  - destruct (Z.eq_dec v (- 2 ^ 63)) as [->|].
    + vm_compute. auto.
    + rewrite s64_small by lia. rewrite (u64_small (- v)) by lia. rewrite u64_small by lia. lia.
Qed.
Lemma u2i : forall u, 0 <= u < 2 ^ 64 -> uint64_to_int64 u = u - 2 ^ 63.
Proof.
  intros u R. unfold uint64_to_int64, HIGH. change (2 ^ 63) with (2 ^ (64 - 1)) at 1. rewrite land_sign by lia. change (64 - 1) with 63.
  destruct (Z.ltb_spec u (2 ^ 63)); cbn [negb].
  - destruct (Z.eq_dec u 0) as [->|].
    + vm_compute. auto.
    + rewrite (u64_small (2 ^ 63 - u)) by lia. rewrite !s64_small by (rewrite ?s64_small; lia). lia.
  - replace (Z.ones 64 - 2 ^ 63) with (Z.ones 63) by reflexivity. rewrite Z.land_ones by lia.
    replace (u mod 2 ^ 63) with (u - 2 ^ 63) by (apply Z.mod_unique_pos with 1; lia). apply s64_small. lia.
Qed.
Lemma tid_small : forall blk off, 0 <= blk < 2 ^ 16 -> 0 <= off < 2 ^ 16 -> val_get_uint64 (VTid blk off) = blk * 2 ^ 16 + off.
Proof.
  intros. unfold val_get_uint64. rewrite Z.shiftl_mul_pow2 by lia. rewrite (Z.mod_small (blk * 2 ^ 16)) by lia. apply Z.mod_small. lia.
Qed.
