From Coq Require Import ZArith List Bool Lia ZifyBool.
From Verif Require Import Base KeySpec KeyModel.
Import ListNotations.
Open Scope Z_scope.

Lemma occ a b : (o_call_comparator a b = -1 /\ a < b) \/ (o_call_comparator a b = 0 /\ a = b) \/ (o_call_comparator a b = 1 /\ a > b).
Proof. unfold o_call_comparator. destruct (Z.compare_spec a b); lia. Qed.

Lemma plt_irrefl x : ~ plt x x.
Proof. unfold plt; lia. Qed.
Lemma plt_trans x y z : plt x y -> plt y z -> plt x z.
Proof. unfold plt; lia. Qed.
Lemma plt_tri x y : plt x y \/ x = y \/ plt y x.
Proof.
  unfold plt. destruct x as [a b], y as [c d]; cbn.
  destruct (Z.lt_trichotomy a c) as [H|[H|H]]; [lia| |lia].
  destruct (Z.lt_trichotomy b d) as [H'|[H'|H']]; [lia| |lia].
  right; left; congruence.
Qed.

(* sign of a column comparison *)
Lemma cmp_field_spec f x y :
  (cmp_field f x y < 0 /\ plt (place f x) (place f y)) \/
  (cmp_field f x y = 0 /\ place f x = place f y) \/
  (cmp_field f x y > 0 /\ plt (place f y) (place f x)).
Proof.
  unfold cmp_field, place, plt.
  destruct x as [x|], y as [y|]; cbn.
  - destruct (occ x y) as [[-> H]|[[-> H]|[-> H]]]; destruct (asc f); subst; cbn; auto; lia.
  - destruct (nullfirst f); cbn; lia.
  - destruct (nullfirst f); cbn; lia.
  - auto.
Qed.

Lemma place_inj f x y : place f x = place f y -> x = y.
Proof.
  destruct x as [x|], y as [y|]; cbn; destruct (nullfirst f), (asc f); intros H; inversion H; auto; f_equal; lia.
Qed.

Lemma tup_cmp_spec fs : forall a b,
  length a = length fs -> length b = length fs ->
  (o_idx_cmp_tuples fs a b < 0 /\ key_lt fs a b) \/
  (o_idx_cmp_tuples fs a b = 0 /\ a = b) \/
  (o_idx_cmp_tuples fs a b > 0 /\ key_lt fs b a).
Proof.
  induction fs as [|f fs IH]; intros [|x a] [|y b] La Lb; cbn in La, Lb; try discriminate.
  { right; left; auto. }
  cbn [o_idx_cmp_tuples key_lt].
  destruct (cmp_field_spec f x y) as [[H P]|[[H P]|[H P]]].
  - replace (cmp_field f x y =? 0) with false by lia. left; auto.
  - rewrite H. cbn. apply place_inj in P. subst y.
    destruct (IH a b) as [[H1 H2]|[[H1 H2]|[H1 H2]]]; try lia; [left|right; left|right; right]; auto.
    subst; auto.
  - replace (cmp_field f x y =? 0) with false by lia. right; right; auto.
Qed.

Lemma key_lt_trans fs : forall a b c, key_lt fs a b -> key_lt fs b c -> key_lt fs a c.
Proof.
  induction fs as [|f fs IH]; intros [|x a] [|y b] [|z c]; cbn; try tauto.
  intros [H|[E H]] [H'|[E' H']].
  - left; eapply plt_trans; eauto.
  - left. rewrite <- E'. auto.
  - left. rewrite E. auto.
  - right. split; [congruence|eauto].
Qed.

Lemma key_lt_irrefl fs : forall a, ~ key_lt fs a a.
Proof.
  induction fs as [|f fs IH]; intros [|x a]; cbn; try tauto.
  intros [H|[_ H]]; [apply (plt_irrefl _ H)|apply (IH _ H)].
Qed.

(* One column of a bound against a column value. *)
Lemma range_cmp_spec b f v :
  b_lower b = negb (b_upper b) ->
  let p := place f (if b_null b then None else Some (b_value b)) in
  let c := o_idx_cmp_range_key_to_value b f v in
  (c < 0 /\ plt p (place f v)) \/
  (c > 0 /\ plt (place f v) p) \/
  (p = place f v /\ c = if b_incl b then 0 else if b_lower b then 1 else -1).
Proof.
  intros D. unfold o_idx_cmp_range_key_to_value, place, plt, cmp_inclusive.
  destruct (b_null b), v as [x|]; cbn.
  - destruct (nullfirst f); cbn; lia.
  - right; right. split; auto. destruct (b_incl b); auto. rewrite D. destruct (b_upper b); auto.
  - destruct (occ (b_value b) x) as [[-> H]|[[-> H]|[-> H]]]; destruct (asc f); cbn; try lia.
    + right; right. split; [congruence|]. destruct (b_incl b); cbn; auto. rewrite D. destruct (b_upper b); auto.
    + right; right. split; [congruence|]. destruct (b_incl b); cbn; auto. rewrite D. destruct (b_upper b); auto.
  - destruct (nullfirst f); cbn; lia.
Qed.

(* A comparison with a bound goes down along the order of keys: if b >= y in
   the code's sense and x sorts before y then b > x. *)
Lemma bound_loop_mono fs : forall b x y,
  Forall (fun k => b_lower k = negb (b_upper k)) b ->
  key_lt fs x y -> cmp_bound_loop fs b y >= 0 ->
  (length fs <= length b)%nat -> cmp_bound_loop fs b x > 0.
Proof.
  induction fs as [|f fs IH]; intros [|k b] [|u x] [|v y] F L G N; cbn in *; try tauto; try lia.
  inversion F as [|? ? Fk Fb]; subst.
  destruct (b_unb k). { destruct (b_lower k); lia. }
  pose proof (range_cmp_spec k f u Fk) as Su. pose proof (range_cmp_spec k f v Fk) as Sv. cbn zeta in Su, Sv.
  set (p := place f (if b_null k then None else Some (b_value k))) in *.
  set (cu := o_idx_cmp_range_key_to_value k f u) in *.
  set (cv := o_idx_cmp_range_key_to_value k f v) in *.
  destruct L as [L|[E L]].
  - assert (plt (place f u) p \/ (p = place f v /\ plt (place f u) p) \/ (plt p (place f v) /\ cv < 0)) as HH.
    { destruct Sv as [[S1 S2]|[[S1 S2]|[S1 S2]]].
      - right; right; auto.
      - left. eapply plt_trans; eauto.
      - left. rewrite S1. auto. }
    assert (plt (place f u) p \/ cv < 0) as [H1|H1] by tauto.
    + destruct Su as [[S1 S2]|[[S1 S2]|[S1 S2]]].
      * destruct (plt_irrefl p). eapply plt_trans; eauto.
      * replace (cu =? 0) with false by lia. lia.
      * rewrite S1 in H1. destruct (plt_irrefl _ H1).
    + replace (cv =? 0) with false in G by lia. lia.
  - assert (cu = cv).
    { unfold cu, cv. apply place_inj in E. subst v. auto. }
    rewrite <- H in G. destruct (cu =? 0) eqn:C; [|lia].
    eapply IH; eauto. lia.
Qed.

(* ... the same without the length condition, when the bound is cut off:
   then only >= survives. *)
Lemma bound_loop_mono_weak fs : forall b x y,
  Forall (fun k => b_lower k = negb (b_upper k)) b ->
  key_lt fs x y -> cmp_bound_loop fs b x >= cmp_bound_loop fs b y \/ cmp_bound_loop fs b x > 0 \/ cmp_bound_loop fs b y < 0.
Proof.
  induction fs as [|f fs IH]; intros [|k b] [|u x] [|v y] F L; cbn in *; try tauto; try lia.
  inversion F as [|? ? Fk Fb]; subst.
  destruct (b_unb k). { destruct (b_lower k); lia. }
  pose proof (range_cmp_spec k f u Fk) as Su. pose proof (range_cmp_spec k f v Fk) as Sv. cbn zeta in Su, Sv.
  set (p := place f (if b_null k then None else Some (b_value k))) in *.
  set (cu := o_idx_cmp_range_key_to_value k f u) in *.
  set (cv := o_idx_cmp_range_key_to_value k f v) in *.
  destruct L as [L|[E L]].
  - assert (plt (place f u) p \/ cv < 0) as [H1|H1].
    { destruct Sv as [[S1 S2]|[[S1 S2]|[S1 S2]]]; [right; lia|left; eapply plt_trans; eauto|left; rewrite S1; auto]. }
    + destruct Su as [[S1 S2]|[[S1 S2]|[S1 S2]]].
      * destruct (plt_irrefl p). eapply plt_trans; eauto.
      * replace (cu =? 0) with false by lia. lia.
      * rewrite S1 in H1. destruct (plt_irrefl _ H1).
    + replace (cv =? 0) with false by lia. lia.
  - assert (cu = cv). { unfold cu, cv. apply place_inj in E. subst v. auto. }
    rewrite H. destruct (cv =? 0) eqn:C; [|lia].
    apply IH; auto.
Qed.

(* What the code's bounds say, as plain bounds. *)
Definition plain (k : vbound) : cbound :=
  if b_unb k then CNone else CVal (b_incl k) (if b_null k then None else Some (b_value k)).

Lemma above_code fs : forall b t,
  Forall (fun k => b_lower k = true /\ b_upper k = false) b -> length t = length fs -> length b = length fs ->
  (cmp_bound_loop fs b t <= 0 <-> above fs (map plain b) t).
Proof.
  induction fs as [|f fs IH]; intros [|k b] [|v t] F L1 L2; cbn in L1, L2; try discriminate. { cbn. split; [auto|lia]. }
  inversion F as [|? ? [F1 F2] Fb]; subst. cbn [cmp_bound_loop map above]. unfold plain at 1.
  destruct (b_unb k). { rewrite F1. split; [auto|lia]. }
  pose proof (range_cmp_spec k f v) as R. rewrite F1, F2 in R. specialize (R eq_refl). cbn zeta in R.
  set (q := place f _) in *. set (c := o_idx_cmp_range_key_to_value k f v) in *.
  destruct R as [[R1 R2]|[[R1 R2]|[R1 R2]]].
  - replace (c =? 0) with false by lia. split; [auto|lia].
  - replace (c =? 0) with false by lia. split; [lia|]. intros [H|[H _]].
    + destruct (plt_irrefl q). eapply plt_trans; eauto.
    + rewrite H in R2. destruct (plt_irrefl _ R2).
  - destruct (b_incl k).
    + rewrite R2. cbn [Z.eqb]. rewrite IH by (auto; lia). split; [auto|]. intros [H|[_ [_ H]]]; auto.
      rewrite R1 in H. destruct (plt_irrefl _ H).
    + rewrite R2. cbn. split; [lia|]. intros [H|[_ [H _]]]; [|discriminate]. rewrite R1 in H. destruct (plt_irrefl _ H).
Qed.

Lemma below_code fs : forall b t,
  Forall (fun k => b_lower k = false /\ b_upper k = true) b -> length t = length fs -> length b = length fs ->
  (cmp_bound_loop fs b t >= 0 <-> below fs (map plain b) t).
Proof.
  induction fs as [|f fs IH]; intros [|k b] [|v t] F L1 L2; cbn in L1, L2; try discriminate. { cbn. split; [auto|lia]. }
  inversion F as [|? ? [F1 F2] Fb]; subst. cbn [cmp_bound_loop map below]. unfold plain at 1.
  destruct (b_unb k). { rewrite F1. split; [auto|lia]. }
  pose proof (range_cmp_spec k f v) as R. rewrite F1, F2 in R. specialize (R eq_refl). cbn zeta in R.
  set (q := place f _) in *. set (c := o_idx_cmp_range_key_to_value k f v) in *.
  destruct R as [[R1 R2]|[[R1 R2]|[R1 R2]]].
  - replace (c =? 0) with false by lia. split; [lia|]. intros [H|[H _]].
    + destruct (plt_irrefl q). eapply plt_trans; eauto.
    + rewrite H in R2. destruct (plt_irrefl _ R2).
  - replace (c =? 0) with false by lia. split; [auto|lia].
  - destruct (b_incl k).
    + rewrite R2. cbn [Z.eqb]. rewrite IH by (auto; lia). split; [auto|]. intros [H|[_ [_ H]]]; auto.
      rewrite R1 in H. destruct (plt_irrefl _ H).
    + rewrite R2. cbn. split; [lia|]. intros [H|[_ [H _]]]; [|discriminate]. rewrite R1 in H. destruct (plt_irrefl _ H).
Qed.

(* A strict order on keys of the right width. *)
Definition klt (fs : list fld) (a b : list val) : Prop := length a = length fs /\ length b = length fs /\ key_lt fs a b.

Lemma tuples_agree fs q : length q = length fs ->
  forall a b, klt fs a b -> o_idx_cmp_tuples fs q b >= 0 -> o_idx_cmp_tuples fs q a > 0.
Proof.
  intros LQ a b (La & Lb & AB) H.
  destruct (tup_cmp_spec fs q b LQ Lb) as [[H1 H2]|[[H1 H2]|[H1 H2]]]; [lia| |].
  - subst b. destruct (tup_cmp_spec fs q a LQ La) as [[H3 H4]|[[H3 H4]|[H3 H4]]]; [| |lia].
    + destruct (key_lt_irrefl fs q). eapply key_lt_trans; eauto.
    + subst. destruct (key_lt_irrefl fs _ AB).
  - destruct (tup_cmp_spec fs q a LQ La) as [[H3 H4]|[[H3 H4]|[H3 H4]]]; [| |lia].
    + destruct (key_lt_irrefl fs q). eapply key_lt_trans; [eauto|]. eapply key_lt_trans; eauto.
    + subst. destruct (key_lt_irrefl fs a). eapply key_lt_trans; eauto.
Qed.

Lemma key_lt_firstn n : forall fs a b, length a = length fs -> length b = length fs -> key_lt fs a b ->
  key_lt (firstn n fs) a b \/ firstn n a = firstn n b.
Proof.
  induction n as [|n IH]; intros [|f fs] [|x a] [|y b] La Lb; cbn in *; try discriminate; auto; try tauto.
  intros [H|[E H]]; auto. apply place_inj in E. subst y.
  destruct (IH fs a b) as [H'|H']; auto; try lia. right; congruence.
Qed.

Lemma cmp_loop_firstn n : forall fs b t, cmp_bound_loop (firstn n fs) b t = cmp_bound_loop (firstn n fs) b (firstn n t).
Proof.
  induction n as [|n IH]; intros [|f fs] [|k b] [|v t]; cbn; auto.
  destruct (b_unb k); auto. rewrite IH. auto.
Qed.

Lemma bounds_agree fs nuniq primary kd q :
  Forall (fun k => b_lower k = negb (b_upper k)) q -> length q = length fs ->
  (primary = true -> nuniq = length fs) ->
  forall a b, klt fs a b ->
    o_idx_cmp_key_bound_to_tuple fs nuniq primary kd q b >= 0 ->
    o_idx_cmp_key_bound_to_tuple fs nuniq primary kd q a > 0.
Proof.
  intros F LQ P a b (La & Lb & AB). unfold o_idx_cmp_key_bound_to_tuple.
  set (n := match kd with KBound => if primary then nuniq else length fs | _ => nuniq end).
  assert (kd = KBound -> firstn n fs = fs) as NK.
  { intros ->. unfold n. destruct primary; [rewrite P; auto|]; apply firstn_all. }
  destruct (key_lt_firstn n fs a b La Lb AB) as [H|H].
  - assert (length (firstn n fs) <= length q)%nat by (rewrite firstn_length; lia).
    pose proof (bound_loop_mono (firstn n fs) q a b F H) as M.
    set (ca := cmp_bound_loop _ q a) in *. set (cb := cmp_bound_loop _ q b) in *.
    intros G. assert (cb >= 0). { destruct (cb =? 0) eqn:E; [lia|]. lia. }
    specialize (M ltac:(lia) ltac:(lia)). replace (ca =? 0) with false by lia. lia.
  - rewrite (cmp_loop_firstn n fs q a), (cmp_loop_firstn n fs q b), H.
    destruct kd.
    + exfalso. apply (key_lt_irrefl fs a). specialize (NK eq_refl).
      assert (length fs <= n)%nat. { assert (length (firstn n fs) = length fs) by congruence. rewrite firstn_length in H0. lia. }
      rewrite (firstn_all2 a), (firstn_all2 b) in H by lia. congruence.
    + set (c := cmp_bound_loop _ _ _). destruct (c =? 0) eqn:E; lia.
    + set (c := cmp_bound_loop _ _ _). destruct (c =? 0) eqn:E; lia.
Qed.
