(** The search for a free page finds one. *)
From Coq Require Import ZArith List Bool Lia.
From Coq Require Import ZifyBool ZifyNat.
From Verif Require Import Base UcmModel UcmSpec UcmProofs UcmLemmas.
Import ListNotations.
Open Scope Z_scope.
Ltac Zify.zify_post_hook ::= Z.div_mod_to_equations.

Definition nx (a : Z) : Z := a - a mod 15 + (a mod 15 + 1) mod 15.
Lemma nx_div : forall a, nx a / 15 = a / 15.
Proof. intros. unfold nx. lia. Qed.
Lemma nx_dist : forall t a k, 0 <= t < 15 -> (t - a mod 15) mod 15 = k + 1 -> 0 <= k -> (t - nx a mod 15) mod 15 = k.
Proof.
  intros t a k Ht H Hk.
  assert (N : nx a mod 15 = (a mod 15 + 1) mod 15) by (unfold nx; lia). rewrite N. clear N.
  remember (a mod 15) as r. assert (0 <= r < 15) by lia. clear Heqr a. lia.
Qed.
Lemma nx_small : forall a P, 0 <= a < 15 * P -> 0 <= nx a < 15 * P.
Proof. intros. unfold nx. lia. Qed.

Lemma div_small15 : forall a P, a / 15 < P -> a < 15 * P.
Proof. intros. lia. Qed.
Lemma at_digit : forall a t, 0 <= t < 15 -> (t - a mod 15) mod 15 = 0 -> 15 * (a / 15) + t = a.
Proof. intros. lia. Qed.
Lemma div_mod15 : forall x a, x + 15 * (a / 15) + a mod 15 = x + a.
Proof. intros. lia. Qed.
Lemma parent15 : forall x a, ((x + 1) * 15 + a) / 15 - 1 = x + a / 15.
Proof. intros. lia. Qed.
Ltac Zify.zify_post_hook ::= idtac.

Lemma pow15_pos : forall d, 0 < 15 ^ Z.of_nat d.
Proof. intros. apply Z.pow_pos_nonneg; lia. Qed.
Lemma pow15_ne1 : forall d, 15 ^ Z.of_nat (S d) <> 1.
Proof.
  intros d. rewrite Nat2Z.inj_succ, Z.pow_succ_r by lia.
  assert (0 < 15 ^ Z.of_nat d) by (apply pow15_pos). lia.
Qed.

Section Search.
Variable g : geom.
Variable D : nat.
Hypothesis GO : geom_ok g D.
Variable s : st.
Hypothesis EX : counters_exact g s.

(** Position [q] looks at scale 15^d. *)
Definition PI (d : nat) (q : pos) : Prop :=
  (d <= D + 1)%nat /\ q_factor q = 15 ^ Z.of_nat d /\ 0 <= q_loc q /\
  q_loc q / 15 ^ Z.of_nat d < 15 ^ (Z.of_nat (D + 2 - d)) /\
  q_base q = geo (D + 1 - d) + 15 * (q_loc q / 15 ^ Z.of_nat d / 15).

(** Index [a] (a page at scale 0, a word above) has what is searched. *)
Definition hit (d : nat) (a : Z) : Prop :=
  match d with
  | O => a < g_size g /\ lev s a = FREE
  | S _ => geo (D + 1 - d) + a < g_total g /\ nib (word s (geo (D + 1 - d) + a)) FREE <> 0
  end.


Lemma child_hit : forall d a, (S d <= D + 1)%nat -> 0 <= a < 15 ^ Z.of_nat (D + 2 - S d) -> hit (S d) a ->
  exists t, 0 <= t < 15 /\ hit d (15 * a + t).
Proof.
  intros d a Hd Ha [H1 H2]. pose proof (total_bound g D GO) as TB.
  destruct GO as [Gs [Gn [Gr [Gt Gz]]]].
  set (i := geo (D + 1 - S d) + a) in *.
  assert (Hi : 0 <= i < g_total g) by (pose proof (geo_nonneg (D + 1 - S d)); lia).
  pose proof (EX i FREE Hi ltac:(unfold FREE; lia)) as E.
  assert (P : 0 < nib (word s i) FREE) by (pose proof (nib_range (word s i) FREE); lia).
  rewrite E in P. destruct d as [|d].
  - assert (X : i = g_nonLeaf g + a). { unfold i. rewrite Gn. do 2 f_equal. lia. }
    replace (i <? g_nonLeaf g) with false in P by lia.
    apply count_pos in P. destruct P as [b [I F]]. rewrite range_In in I. unfold BF in I.
    exists (b - 15 * a). split; [lia|]. cbn [hit]. replace (15 * a + (b - 15 * a)) with b by lia. lia.
  - assert (X : i < g_nonLeaf g).
    { unfold i. rewrite Gn.
      assert (geo (D + 1 - S (S d)) + 15 ^ Z.of_nat (D + 2 - S (S d)) = geo (S (D + 1 - S (S d)))).
      { rewrite geo_step. do 2 f_equal. lia. }
      assert (Mono : forall n m, (n <= m)%nat -> geo n <= geo m).
      { intros n m L. induction L; [lia|]. rewrite geo_step.
        assert (0 < 15 ^ (Z.of_nat m + 1)) by (apply Z.pow_pos_nonneg; lia). lia. }
      pose proof (Mono (S (D + 1 - S (S d))) D ltac:(lia)). lia. }
    replace (i <? g_nonLeaf g) with true in P by lia.
    apply count_pos in P. destruct P as [j [I F]]. rewrite range_In in I. unfold BF in I.
    exists (j - (i + 1) * 15). split; [lia|]. cbn [hit].
    assert (Y : geo (D + 1 - S d) = (geo (D + 1 - S (S d)) + 1) * 15).
    { replace (D + 1 - S d)%nat with (S (D + 1 - S (S d))) by lia. reflexivity. }
    rewrite Y. replace ((geo (D + 1 - S (S d)) + 1) * 15 + (15 * a + (j - (i + 1) * 15))) with j by (unfold i; lia).
    lia.
Qed.

Lemma PI_next : forall d q, PI d q ->
  let q' := mkPos (next_loc (q_loc q) (q_factor q)) (q_factor q) (q_base q) (q_iter q + 1) in
  PI d q' /\ q_loc q' / 15 ^ Z.of_nat d = nx (q_loc q / 15 ^ Z.of_nat d).
Proof.
  intros d q [Hd [F [L [B Ba]]]] q'.
  assert (Pf : 0 < 15 ^ Z.of_nat d) by (apply pow15_pos).
  assert (La : 0 <= q_loc q / 15 ^ Z.of_nat d) by (apply Z.div_pos; lia).
  assert (E : q_loc q' = nx (q_loc q / 15 ^ Z.of_nat d) * 15 ^ Z.of_nat d).
  { unfold q', next_loc, nx. cbn [q_loc]. rewrite F. unfold BF. ring. }
  assert (E2 : q_loc q' / 15 ^ Z.of_nat d = nx (q_loc q / 15 ^ Z.of_nat d)).
  { rewrite E. apply Z.div_mul. lia. }
  split; [|exact E2]. unfold PI. split; [auto|split; [exact F|]].
  rewrite E2. remember (q_loc q / 15 ^ Z.of_nat d) as a.
  replace (D + 2 - d)%nat with (S (D + 1 - d)) in * by (clear - Hd; lia). rewrite Nat2Z.inj_succ, Z.pow_succ_r in * by lia.
  split; [|split].
  - rewrite E. apply Z.mul_nonneg_nonneg; [|lia]. apply (nx_small a (15 ^ Z.of_nat (D + 1 - d))). split; assumption.
  - apply nx_small. split; assumption.
  - unfold q'. cbn [q_base]. rewrite Ba, nx_div. reflexivity.
Qed.

Lemma PI_into : forall d q it, PI (S d) q ->
  PI d (mkPos (q_loc q) (q_factor q / BF) ((q_base q + (q_loc q / q_factor q) mod BF + 1) * BF) it) /\
  q_loc q / 15 ^ Z.of_nat d / 15 = q_loc q / 15 ^ Z.of_nat (S d) /\
  q_base q + (q_loc q / q_factor q) mod BF = geo (D + 1 - S d) + q_loc q / 15 ^ Z.of_nat (S d).
Proof.
  intros d q it [Hd [F [L [B Ba]]]].
  assert (Pf : 0 < 15 ^ Z.of_nat d) by (apply pow15_pos).
  assert (E : q_loc q / 15 ^ Z.of_nat d / 15 = q_loc q / 15 ^ Z.of_nat (S d)).
  { rewrite Nat2Z.inj_succ, Z.pow_succ_r by lia. rewrite Z.div_div by lia. f_equal. lia. }
  assert (E3 : q_base q + (q_loc q / q_factor q) mod BF = geo (D + 1 - S d) + q_loc q / 15 ^ Z.of_nat (S d)).
  { rewrite Ba, F. unfold BF. apply div_mod15. }
  split; [|split; auto]. unfold PI. cbn [q_factor q_loc q_base]. split; [lia|]. split.
  { rewrite F, Nat2Z.inj_succ, Z.pow_succ_r by lia. unfold BF. rewrite Z.mul_comm. apply Z.div_mul. lia. }
  split; [auto|]. split.
  - rewrite <- E in B. replace (D + 2 - d)%nat with (S (D + 2 - S d)) by (clear - Hd; lia). rewrite Nat2Z.inj_succ, Z.pow_succ_r by lia.
    apply div_small15. exact B.
  - rewrite E3, E. replace (D + 1 - d)%nat with (S (D + 1 - S d)) by (clear - Hd; lia). unfold BF. cbn [geo]. clear. lia.
Qed.

Lemma search_finds_at : forall d k q t, PI d q -> 0 <= t < 15 ->
  hit d (15 * (q_loc q / 15 ^ Z.of_nat d / 15) + t) ->
  (t - (q_loc q / 15 ^ Z.of_nat d) mod 15) mod 15 = Z.of_nat k -> 0 <= q_iter q -> q_iter q + Z.of_nat k <= 30 ->
  exists f b, search g f (lev s) (word s) q = Some b /\ 0 <= b < g_size g /\ lev s b = FREE.
Proof.
  induction d as [|d IHd]; induction k as [|k IHk]; intros q t P Ht H Hk I0 Hit; pose proof P as P0;
    destruct P as [Hd [F [L [B Ba]]]].
  - exists 1%nat. exists (q_loc q). cbn [search]. unfold search_step.
    change (15 ^ Z.of_nat 0) with 1 in *. rewrite Z.div_1_r in *.
    rewrite at_digit in H by assumption. destruct H as [H1 H2].
    replace ((q_factor q =? 1) && (q_loc q <? g_size g) && (lev s (q_loc q) =? FREE)) with true by lia.
    split; [reflexivity|]. lia.
  - destruct (PI_next 0 q P0) as [Pn En].
    set (q' := mkPos (next_loc (q_loc q) (q_factor q)) (q_factor q) (q_base q) (q_iter q + 1)) in *.
    destruct ((q_loc q <? g_size g) && (lev s (q_loc q) =? FREE)) eqn:C.
    { exists 1%nat. exists (q_loc q). cbn [search]. unfold search_step. change (15 ^ Z.of_nat 0) with 1 in *.
      replace ((q_factor q =? 1) && (q_loc q <? g_size g) && (lev s (q_loc q) =? FREE)) with true by lia.
      split; [reflexivity|]. lia. }
    destruct (IHk q' t Pn Ht) as [f [b [Sf Hb]]].
    + rewrite En, nx_div. exact H.
    + rewrite En. apply nx_dist; [exact Ht|rewrite Hk, Nat2Z.inj_succ; reflexivity|apply Nat2Z.is_nonneg].
    + cbn [q' q_iter]. lia.
    + unfold q'; cbn [q_iter]. lia.
    + exists (S f), b. split; [|exact Hb]. cbn [search]. unfold search_step.
      replace ((q_factor q =? 1) && (q_loc q <? g_size g) && (lev s (q_loc q) =? FREE)) with false by lia.
      replace (q_base q + (q_loc q / q_factor q) mod BF <? g_total g) with false.
      2:{ symmetry. apply Z.ltb_ge. pose proof (total_bound g D GO) as [_ T]. destruct GO as [_ [Gn _]]. rewrite Gn in T.
          rewrite Ba. replace (D + 1 - 0)%nat with (S D) by (clear; lia). cbn [geo].
          assert (0 <= q_loc q / 15 ^ Z.of_nat 0 / 15). { change (15 ^ Z.of_nat 0) with 1. rewrite Z.div_1_r. apply Z.div_pos; lia. }
          pose proof (Z.mod_pos_bound (q_loc q / q_factor q) BF ltac:(unfold BF; lia)) as MB.
          clear - T H0 MB. lia. }
      cbn [andb]. replace (2 * BF <? q_iter q) with false by (clear - Hit; unfold BF; lia). cbn [andb]. exact Sf.
  - (* scale above pages, at the target *)
    destruct (PI_into d q 0 P0) as [Pi [E1 E2]].
    assert (X : 15 * (q_loc q / 15 ^ Z.of_nat (S d) / 15) + t = q_loc q / 15 ^ Z.of_nat (S d)).
    { apply at_digit; assumption. }
    rewrite X in H. pose proof H as [H1 H2]. rewrite <- E2 in H1, H2.
    destruct (child_hit d (q_loc q / 15 ^ Z.of_nat (S d)) ltac:(lia)) as [t' [Ht' Hh]].
    { split; [apply Z.div_pos; [lia|apply pow15_pos]|exact B]. } { exact H. }
    set (q' := mkPos (q_loc q) (q_factor q / BF) ((q_base q + (q_loc q / q_factor q) mod BF + 1) * BF) 0) in *.
    destruct (IHd (Z.to_nat ((t' - (q_loc q' / 15 ^ Z.of_nat d) mod 15) mod 15)) q' t' Pi Ht') as [f [b [Sf Hb]]].
    + unfold q'. cbn [q_loc]. rewrite E1. exact Hh.
    + rewrite Z2Nat.id; [reflexivity|]. apply Z.mod_pos_bound. lia.
    + unfold q'. cbn [q_iter]. lia.
    + pose proof (Z.mod_pos_bound (t' - (q_loc q' / 15 ^ Z.of_nat d) mod 15) 15 ltac:(lia)).
      rewrite Z2Nat.id by lia. unfold q' at 1. cbn [q_iter]. lia.
    + exists (S f), b. split; [|exact Hb]. cbn [search]. unfold search_step.
      replace (q_factor q =? 1) with false.
      2:{ symmetry. apply Z.eqb_neq. rewrite F. apply pow15_ne1. }
      cbn [andb]. replace (q_base q + (q_loc q / q_factor q) mod BF <? g_total g) with true.
      2:{ symmetry. apply Z.ltb_lt. exact H1. }
      cbn [andb]. apply Z.eqb_neq in H2. rewrite H2. cbn [negb]. exact Sf.
  - destruct (PI_into d q 0 P0) as [Pi [E1 E2]].
    assert (F1 : (q_factor q =? 1) = false).
    { apply Z.eqb_neq. rewrite F. apply pow15_ne1. }
    destruct ((q_base q + (q_loc q / q_factor q) mod BF <? g_total g) &&
              negb (nib (word s (q_base q + (q_loc q / q_factor q) mod BF)) FREE =? 0)) eqn:C.
    + assert (Hh0 : hit (S d) (q_loc q / 15 ^ Z.of_nat (S d))).
      { cbn [hit]. rewrite <- E2. apply andb_true_iff in C. destruct C as [C1 C2].
        apply negb_true_iff in C2. apply Z.eqb_neq in C2. split; auto. apply Z.ltb_lt. auto. }
      destruct (child_hit d (q_loc q / 15 ^ Z.of_nat (S d)) ltac:(lia)) as [t' [Ht' Hh]].
      { split; [apply Z.div_pos; [lia|apply pow15_pos]|exact B]. } { exact Hh0. }
      set (q' := mkPos (q_loc q) (q_factor q / BF) ((q_base q + (q_loc q / q_factor q) mod BF + 1) * BF) 0) in *.
      destruct (IHd (Z.to_nat ((t' - (q_loc q' / 15 ^ Z.of_nat d) mod 15) mod 15)) q' t' Pi Ht') as [f [b [Sf Hb]]].
      * unfold q'. cbn [q_loc]. rewrite E1. exact Hh.
      * rewrite Z2Nat.id; [reflexivity|]. apply Z.mod_pos_bound. lia.
      * unfold q'. cbn [q_iter]. lia.
      * pose proof (Z.mod_pos_bound (t' - (q_loc q' / 15 ^ Z.of_nat d) mod 15) 15 ltac:(lia)).
        rewrite Z2Nat.id by lia. unfold q' at 1. cbn [q_iter]. lia.
      * exists (S f), b. split; [|exact Hb]. cbn [search]. unfold search_step. rewrite F1. cbn [andb]. rewrite C. exact Sf.
    + destruct (PI_next (S d) q P0) as [Pn En].
      set (q' := mkPos (next_loc (q_loc q) (q_factor q)) (q_factor q) (q_base q) (q_iter q + 1)) in *.
      destruct (IHk q' t Pn Ht) as [f [b [Sf Hb]]].
      * rewrite En, nx_div. exact H.
      * rewrite En. apply nx_dist; [exact Ht|rewrite Hk, Nat2Z.inj_succ; reflexivity|apply Nat2Z.is_nonneg].
      * unfold q'. cbn [q_iter]. lia.
      * unfold q'; cbn [q_iter]. lia.
      * exists (S f), b. split; [|exact Hb]. cbn [search]. unfold search_step. rewrite F1. cbn [andb]. rewrite C.
        replace (2 * BF <? q_iter q) with false by (clear - Hit; unfold BF; lia). cbn [andb]. exact Sf.
Qed.

Lemma below_root : forall b, 0 <= b < g_size g -> forall d, (S d <= D + 1)%nat ->
  below g b (geo (D + 1 - S d) + b / 15 ^ Z.of_nat (S d)).
Proof.
  intros b Hb. induction d as [|d IH]; intros Hd.
  - destruct GO as [_ [Gn _]].
    replace (geo (D + 1 - 1) + b / 15 ^ Z.of_nat 1) with (leaf_of g b); [constructor|].
    unfold leaf_of, BF. rewrite Gn. change (15 ^ Z.of_nat 1) with 15. do 2 f_equal. lia.
  - assert (Pf : 0 < 15 ^ Z.of_nat (S d)) by (apply pow15_pos).
    assert (E : geo (D + 1 - S (S d)) + b / 15 ^ Z.of_nat (S (S d)) = parent (geo (D + 1 - S d) + b / 15 ^ Z.of_nat (S d))).
    { rewrite (Nat2Z.inj_succ (S d)), Z.pow_succ_r by lia. rewrite (Z.mul_comm 15), <- Z.div_div by lia.
      replace (D + 1 - S d)%nat with (S (D + 1 - S (S d))) by lia. cbn [geo]. unfold parent, BF.
      rewrite parent15. reflexivity. }
    rewrite E. apply below_up; [apply IH; lia|].
    replace (D + 1 - S d)%nat with (S (D + 1 - S (S d))) by lia. cbn [geo]. unfold BF.
    pose proof (geo_nonneg (D + 1 - S (S d))). assert (0 <= b / 15 ^ Z.of_nat (S d)) by (apply Z.div_pos; lia). lia.
Qed.

Lemma search_finds : (exists b, 0 <= b < g_size g /\ lev s b = FREE) ->
  exists f b, search g f (lev s) (word s) (search_init g) = Some b /\ 0 <= b < g_size g /\ lev s b = FREE.
Proof.
  intros [b [Hb Fb]]. pose proof (total_bound g D GO) as TB. pose proof GO as [Gs [Gn [Gr [Gt Gz]]]].
  assert (Pd : 0 < 15 ^ Z.of_nat (S D)) by (apply pow15_pos).
  assert (R : g_root g = 15 ^ Z.of_nat (S D)). { rewrite Gr. f_equal. lia. }
  assert (Bd : b / 15 ^ Z.of_nat (S D) < 15).
  { apply Z.div_lt_upper_bound; [lia|]. replace (Z.of_nat D + 2) with (Z.succ (Z.of_nat (S D))) in Gz by lia.
    rewrite Z.pow_succ_r in Gz by lia. lia. }
  assert (Bd0 : 0 <= b / 15 ^ Z.of_nat (S D)) by (apply Z.div_pos; lia).
  apply (search_finds_at (S D) (Z.to_nat (b / 15 ^ Z.of_nat (S D))) (search_init g) (b / 15 ^ Z.of_nat (S D))).
  - unfold PI, search_init. cbn [q_factor q_loc q_base]. rewrite Z.div_0_l by lia.
    split; [lia|split; [auto|split; [lia|split; [|]]]].
    + apply Z.pow_pos_nonneg; lia.
    + replace (D + 1 - S D)%nat with O by lia. reflexivity.
  - lia.
  - unfold search_init. cbn [q_loc]. rewrite Z.div_0_l by lia. cbn [hit].
    pose proof (below_root b Hb D ltac:(lia)) as Bl. replace (D + 1 - S D)%nat with O in * by lia. cbn [geo] in *.
    rewrite Z.add_0_l in Bl. change (15 * (0 / 15)) with 0. rewrite !Z.add_0_l.
    assert (T : b / 15 ^ Z.of_nat (S D) < g_total g).
    { clear - Bl GO Hb TB. induction Bl; [pose proof (leaf_range g D GO b Hb); lia|]. unfold parent, BF in *. clear - IHBl H. assert (i / 15 <= i) by (apply Z.div_le_upper_bound; lia). lia. }
    split; [auto|].
    pose proof (exact_summary g D GO s EX (b / 15 ^ Z.of_nat (S D)) FREE ltac:(lia) ltac:(unfold FREE; lia)) as [_ Sm].
    assert (0 < nib (word s (b / 15 ^ Z.of_nat (S D))) FREE) by (apply Sm; exists b; auto). lia.
  - unfold search_init. cbn [q_loc]. rewrite Z.div_0_l by lia. rewrite Z.mod_small; [|lia].
    rewrite Z2Nat.id by lia. change (0 mod 15) with 0. apply Z.sub_0_r.
  - reflexivity.
  - unfold search_init. cbn [q_iter]. lia.
Qed.
End Search.
