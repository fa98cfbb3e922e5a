(** Reachable states of the page pool, and the search for a free page. *)
From Coq Require Import ZArith List Bool Lia.
From Coq Require Import ZifyBool ZifyNat.
From Verif Require Import Base UcmModel UcmSpec UcmProofs.
Import ListNotations.
Open Scope Z_scope.
Ltac Zify.zify_post_hook ::= Z.div_mod_to_equations.

(** ** Adding frames *)
Definition add_frame (w acc l : Z) : Z := if nib w l =? 0 then acc else acc + 16 ^ l.

Lemma fold_shift : forall w ls acc, fold_left (add_frame w) ls acc = acc + fold_left (add_frame w) ls 0.
Proof.
  intros w ls. induction ls as [|l ls IH]; intros acc; cbn [fold_left]; [lia|].
  rewrite (IH (add_frame w acc l)), (IH (add_frame w 0 l)). unfold add_frame. destruct (nib w l =? 0); lia.
Qed.
Lemma fold_frame : forall w ls acc l, NoDup ls -> (forall m, In m ls -> 0 <= m /\ nib acc m < 15) -> 0 <= l ->
  nib (fold_left (add_frame w) ls acc) l =
  nib acc l + (if existsb (Z.eqb l) ls && negb (nib w l =? 0) then 1 else 0).
Proof.
  intros w ls. induction ls as [|m ls IH]; intros acc l ND H Hl; cbn [fold_left existsb]; [cbn [andb]; lia|].
  inv ND. assert (S : forall k, 0 <= k -> nib (add_frame w acc m) k = nib acc k + (if (k =? m) && negb (nib w m =? 0) then 1 else 0)).
  { intros k Hk. unfold add_frame. destruct (nib w m =? 0); cbn [negb]; [rewrite andb_false_r; lia|].
    rewrite andb_true_r. apply nib_add_one; try lia; apply (H m); left; auto. }
  rewrite IH; auto.
  2:{ intros k Hk. split; [apply H; right; auto|]. rewrite S by (apply H; right; auto).
      destruct (Z.eqb_spec k m); [subst; contradiction|]. cbn [andb]. pose proof (H k (or_intror Hk)). lia. }
  rewrite S by auto. destruct (Z.eqb_spec l m) as [->|N]; cbn [andb orb]; [|lia].
  replace (existsb (Z.eqb m) ls) with false; [cbn [andb]; lia|].
  symmetry. apply not_true_iff_false. intros C. apply existsb_exists in C. destruct C as [y [I Y]].
  apply Z.eqb_eq in Y. subst. contradiction.
Qed.
Lemma frame_nib : forall w acc l, 0 <= l <= 7 -> (forall m, 0 <= m <= 7 -> nib acc m < 15) ->
  nib (acc + frame w) l = nib acc l + (if nib w l =? 0 then 0 else 1).
Proof.
  intros w acc l Hl H. change (frame w) with (fold_left (add_frame w) (range 0 8) 0). rewrite <- fold_shift.
  rewrite fold_frame; try lia.
  - rewrite existsb_range. replace ((0 <=? l) && (l <? 8)) with true by lia. cbn [andb].
    destruct (nib w l =? 0); reflexivity.
  - apply range_NoDup.
  - intros m I. rewrite range_In in I. split; [lia|]. apply H. lia.
Qed.
Lemma frames_nib : forall (f : Z -> Z) js acc l, 0 <= l <= 7 ->
  (forall m, 0 <= m <= 7 -> nib acc m + Z.of_nat (length js) <= 15) ->
  nib (fold_left (fun a j => a + frame (f j)) js acc) l = nib acc l + count (fun j => negb (nib (f j) l =? 0)) js.
Proof.
  intros f js. induction js as [|j js IH]; intros acc l Hl H; cbn [fold_left]; [rewrite count_nil; lia|].
  cbn [length] in H.
  assert (X : forall m, 0 <= m <= 7 -> nib acc m < 15) by (intros m Hm; specialize (H m Hm); lia).
  rewrite IH; auto.
  - rewrite frame_nib, count_cons by auto. destruct (nib (f j) l =? 0); cbn [negb]; lia.
  - intros m Hm. rewrite frame_nib by auto. specialize (H m Hm). destruct (nib (f j) m =? 0); lia.
Qed.
Lemma nib_zero : forall l, 0 <= l -> nib 0 l = 0.
Proof. intros. unfold nib. rewrite Z.div_0_l; [reflexivity|]. assert (0 < 16 ^ l) by (apply Z.pow_pos_nonneg; lia). lia. Qed.
Lemma nib_leaf : forall c l, 0 <= c <= 15 -> 0 <= l <= 7 -> nib (c * 16 ^ 7) l = if l =? 7 then c else 0.
Proof.
  intros c l Hc Hl. unfold nib. destruct (Z.eqb_spec l 7) as [->|N].
  - rewrite Z.div_mul by lia. apply Z.mod_small. lia.
  - assert (l = 0 \/ l = 1 \/ l = 2 \/ l = 3 \/ l = 4 \/ l = 5 \/ l = 6) as L by lia.
    assert (G : exists m, c * 16 ^ 7 = m * 16 * 16 ^ l).
    { exists (c * 16 ^ (6 - l)). rewrite <- !Z.mul_assoc. f_equal.
      replace (16 * 16 ^ l) with (16 ^ (l + 1)) by (rewrite Z.pow_add_r by lia; lia).
      rewrite <- Z.pow_add_r by lia. f_equal. lia. }
    destruct G as [m ->]. rewrite Z.div_mul by (assert (0 < 16 ^ l) by (apply Z.pow_pos_nonneg; lia); lia).
    apply Z.mod_mul. lia.
Qed.
Lemma fold_ext : forall A (f h : Z -> A -> Z) l a, (forall x b, In x l -> f b x = h b x) -> fold_left f l a = fold_left h l a.
Proof.
  intros A f h l. induction l as [|x l IH]; intros a H; cbn [fold_left]; [reflexivity|].
  rewrite H by (left; auto). apply IH. intros. apply H. right; auto.
Qed.

Section Pool.
Variable g : geom.
Variable D : nat.
Hypothesis GO : geom_ok g D.

Lemma init_word_fuel : forall f1 f2 i, 0 <= i -> g_total g - i < Z.of_nat f1 -> g_total g - i < Z.of_nat f2 ->
  init_word g f1 i = init_word g f2 i.
Proof.
  pose proof (total_bound g D GO) as TB.
  induction f1 as [|f1 IH]; intros f2 i Hi H1 H2.
  - destruct f2 as [|f2]; [reflexivity|]. cbn [init_word].
    replace (i <? g_nonLeaf g) with false by lia. replace (i <? g_total g) with false by lia. reflexivity.
  - destruct f2 as [|f2].
    + cbn [init_word].
      replace (i <? g_nonLeaf g) with false by lia. replace (i <? g_total g) with false by lia. reflexivity.
    + cbn [init_word]. destruct (i <? g_nonLeaf g); [|reflexivity].
      apply fold_ext. intros j a I. rewrite range_In in I. unfold BF in I. rewrite (IH f2 j) by lia. reflexivity.
Qed.

Lemma range_app : forall a b c, a <= b <= c -> range a c = range a b ++ range b c.
Proof.
  intros a b c H. unfold range.
  replace (Z.to_nat (c - a)) with (Z.to_nat (b - a) + Z.to_nat (c - b))%nat by lia.
  assert (Z : forall n m x, zseq x (n + m) = zseq x n ++ zseq (x + Z.of_nat n) m).
  { induction n as [|n IHn]; intros m x; cbn [zseq plus app].
    - f_equal. lia.
    - rewrite IHn. do 2 f_equal. f_equal. lia. }
  rewrite Z. do 2 f_equal. lia.
Qed.

Lemma MInv_init : MInv g (fun _ => FREE) (init_word g (Z.to_nat (g_total g) + 1)) [].
Proof.
  pose proof (total_bound g D GO) as TB.
  split.
  - intros x [].
  - intros. left. unfold FREE. lia.
  - intros i l Hi Hl. unfold nin, nout. rewrite !count_nil, !Z.add_0_r. unfold tru.
    set (W := init_word g (Z.to_nat (g_total g) + 1)).
    assert (FX : forall f j, 0 <= j -> g_total g - j < Z.of_nat f -> init_word g f j = W j).
    { intros f j Hj Hf. apply init_word_fuel; auto. lia. }
    assert (E : W i = init_word g (S (Z.to_nat (g_total g))) i) by (symmetry; apply FX; lia).
    rewrite E. cbn [init_word]. destruct (Z.ltb_spec i (g_nonLeaf g)) as [L|L].
    + rewrite (fold_ext _ _ (fun a j => a + frame (W j))).
      2:{ intros j a I. rewrite range_In in I. unfold BF in I. rewrite FX by lia. reflexivity. }
      rewrite frames_nib; auto.
      2:{ intros m Hm. rewrite nib_zero by lia. rewrite range_length. unfold BF. lia. }
      rewrite nib_zero, Z.add_0_l by lia.
      destruct (Z_le_gt_dec (g_total g) ((i + 1) * BF)) as [Q|Q].
      * transitivity 0; [|symmetry].
        -- destruct (Z.eq_dec (count (fun j => negb (nib (W j) l =? 0)) (range ((i + 1) * BF) ((i + 2) * BF))) 0) as [|N]; auto.
           pose proof (count_nonneg _ (fun j => negb (nib (W j) l =? 0)) (range ((i + 1) * BF) ((i + 2) * BF))) as P.
           assert (P' : 0 < count (fun j => negb (nib (W j) l =? 0)) (range ((i + 1) * BF) ((i + 2) * BF))) by lia.
           apply count_pos in P'. destruct P' as [x [I X]]. rewrite range_In in I. unfold BF in I, Q.
           rewrite <- (FX (S (Z.to_nat (g_total g)))) in X by lia. cbn [init_word] in X.
           replace (x <? g_nonLeaf g) with false in X by lia. replace (x <? g_total g) with false in X by lia.
           rewrite nib_zero in X by lia. discriminate.
        -- unfold range. replace (Z.to_nat (Z.min ((i + 2) * BF) (g_total g) - (i + 1) * BF)) with O by lia. reflexivity.
      * rewrite (range_app ((i + 1) * BF) (Z.min ((i + 2) * BF) (g_total g)) ((i + 2) * BF)) by (unfold BF in *; lia).
        assert (CA : forall (f : Z -> bool) a b, count f (a ++ b) = count f a + count f b).
        { intros f a b. unfold count. rewrite filter_app, app_length. lia. }
        rewrite CA.
        assert (Z0 : count (fun j => negb (nib (W j) l =? 0)) (range (Z.min ((i + 2) * BF) (g_total g)) ((i + 2) * BF)) = 0).
        { destruct (Z.eq_dec (count (fun j => negb (nib (W j) l =? 0)) (range (Z.min ((i + 2) * BF) (g_total g)) ((i + 2) * BF))) 0) as [|N]; auto.
          pose proof (count_nonneg _ (fun j => negb (nib (W j) l =? 0)) (range (Z.min ((i + 2) * BF) (g_total g)) ((i + 2) * BF))) as P.
          assert (P' : 0 < count (fun j => negb (nib (W j) l =? 0)) (range (Z.min ((i + 2) * BF) (g_total g)) ((i + 2) * BF))) by lia.
          apply count_pos in P'. destruct P' as [x [I X]]. rewrite range_In in I. unfold BF in I, Q.
          rewrite <- (FX (S (Z.to_nat (g_total g)))) in X by lia. cbn [init_word] in X.
          replace (x <? g_nonLeaf g) with false in X by lia. replace (x <? g_total g) with false in X by lia.
          rewrite nib_zero in X by lia. discriminate. }
        rewrite Z0. lia.
    + replace (i <? g_total g) with true by lia.
      destruct GO as [A [B [C [Et F]]]].
      unfold FREE at 1. rewrite nib_leaf; [|unfold BF; lia|auto].
      destruct (Z.eqb_spec l 7) as [->|N].
      * rewrite count_all by (intros; reflexivity). rewrite range_length. unfold BF. lia.
      * symmetry. destruct (Z.eq_dec (count (fun b : Z => FREE =? l) (range ((i - g_nonLeaf g) * BF) (Z.min ((i - g_nonLeaf g + 1) * BF) (g_size g)))) 0) as [|Q]; auto.
        pose proof (count_nonneg _ (fun b : Z => FREE =? l) (range ((i - g_nonLeaf g) * BF) (Z.min ((i - g_nonLeaf g + 1) * BF) (g_size g)))).
        assert (P' : 0 < count (fun b : Z => FREE =? l) (range ((i - g_nonLeaf g) * BF) (Z.min ((i - g_nonLeaf g + 1) * BF) (g_size g)))) by lia.
        apply count_pos in P'. destruct P' as [x [_ X]]. unfold FREE in X. lia.
Qed.

Definition SInv (s : st) : Prop := MInv g (lev s) (word s) (pends s).

Lemma SInv_step : forall s o, SInv s -> SInv (step g s o).
Proof.
  intros s o M. unfold SInv in *.
  destruct o; cbn [step].
  - destruct (nth_error (pends s) n) as [[i prev next]|] eqn:E; auto.
    destruct (ready (word s i) prev next) eqn:R; auto. cbn [set_map lev word pends].
    apply (MInv_apply g D GO); auto.
  - destruct (in_pool g b && (lev s b <? USAGE_LEVELS)) eqn:E; auto.
    cbn [set_map lev word pends]. unfold in_pool, USAGE_LEVELS in *.
    apply (MInv_change g D GO); auto; [lia|]. left. lia.
  - destruct (owner (log s) b); auto.
    destruct ((z =? p) && in_pool g b && (0 <=? v) && (v <? USAGE_LEVELS)) eqn:E; auto.
    cbn [set_map lev word pends]. unfold in_pool, USAGE_LEVELS in *.
    apply (MInv_change g D GO); auto; [lia|]. left. lia.
  - destruct (n <=? 0); auto. destruct (avail s - n <? 0); exact M.
  - destruct (nth_error (tries s) n); auto.
  - exact M.
  - destruct ((0 <? resv s p) && (alloc s p =? 0)); auto.
  - destruct ((alloc s p =? 1) && in_pool g b && (lev s b =? FREE)) eqn:E; auto.
    cbn [lev word pends]. unfold in_pool in *.
    assert (F : FREE = lev s b) by lia. rewrite F.
    apply (MInv_change g D GO); auto; [lia|]. right. reflexivity.
  - destruct (owner (log s) b); auto.
    destruct ((z =? p) && in_pool g b) eqn:E; auto. cbn [lev word pends]. unfold in_pool in *.
    apply (MInv_change g D GO); auto; [lia|]. left. unfold FREE. lia.
  - destruct (0 <? unadded s); auto.
Qed.

Lemma SInv_run : forall ops, SInv (run (step g) (init g) ops).
Proof. intros ops. apply (run_inv _ _ (step g) SInv); [apply SInv_step|apply MInv_init]. Qed.

Lemma quiet_exact : forall s, SInv s -> quiet s -> counters_exact g s.
Proof.
  intros s M Q i l Hi Hl. pose proof (mi_cnt _ _ _ _ M i l Hi) as C. unfold quiet in Q. rewrite Q in C.
  unfold nin, nout in C. rewrite !count_nil, !Z.add_0_r in C. apply C. unfold FREE in Hl. lia.
Qed.

Lemma child_range : forall i j, 0 <= i < g_nonLeaf g ->
  (In j (range ((i + 1) * BF) (Z.min ((i + 2) * BF) (g_total g))) <-> BF <= j < g_total g /\ parent j = i).
Proof. intros i j H. rewrite range_In. unfold parent, BF. lia. Qed.

Lemma exact_summary : forall s, counters_exact g s -> summary_exact g s.
Proof.
  intros s X. pose proof (total_bound g D GO) as TB.
  assert (P : forall n i l, 0 <= i < g_total g -> g_total g - i < Z.of_nat n -> 0 <= l <= FREE ->
    (0 < nib (word s i) l <-> exists b, 0 <= b < g_size g /\ below g b i /\ lev s b = l)).
  2:{ intros i l Hi Hl. apply (P (S (Z.to_nat (g_total g)))); auto; lia. }
  induction n as [|n IH]; intros i l Hi Hn Hl; [lia|].
  rewrite (X i l Hi Hl). destruct (Z.ltb_spec i (g_nonLeaf g)) as [L|L].
  - rewrite count_pos. split.
    + intros [j [I Y]]. apply child_range in I; [|lia]. destruct I as [I Pj].
      pose proof (nib_range (word s j) l).
      assert (Z : 0 < nib (word s j) l) by lia.
      apply IH in Z; [|unfold BF in *; lia|unfold parent, BF in *; lia|auto]. destruct Z as [b [Hb [Bb Lb]]].
      exists b. split; [auto|split; [|auto]]. rewrite <- Pj. apply below_up; auto. lia.
    + intros [b [Hb [Bb Lb]]]. inversion Bb as [E|j Bj Gj E].
      * pose proof (leaf_range g D GO b Hb). lia.
      * assert (Hj : j < g_total g).
        { clear - Bj GO Hb TB. induction Bj; [pose proof (leaf_range g D GO b Hb); lia|]. unfold parent, BF in *. lia. }
        exists j. split; [apply child_range; [lia|]; split; auto; lia|].
        assert (Z : 0 < nib (word s j) l).
        { apply IH; [unfold BF in *; lia|unfold parent, BF in *; lia|auto|]. exists b. auto. }
        lia.
  - rewrite count_pos. split.
    + intros [b [I Y]]. rewrite range_In in I. exists b. split; [unfold BF in *; lia|split; [|lia]].
      replace i with (leaf_of g b) by (unfold leaf_of, BF in *; lia). constructor.
    + intros [b [Hb [Bb Lb]]]. inversion Bb as [E|j Bj Gj E].
      * exists b. rewrite range_In. unfold leaf_of, BF in *. lia.
      * assert (Hj : j < g_total g).
        { clear - Bj GO Hb TB. induction Bj; [pose proof (leaf_range g D GO b Hb); lia|]. unfold parent, BF in *. lia. }
        pose proof (parent_nonleaf g D GO j ltac:(unfold BF in *; lia)). lia.
Qed.

(** ** One owner *)
Definition OwnInv (s : st) : Prop :=
  one_owner (log s) /\ (forall b q, owner (log s) b = Some q -> lev s b <> FREE) /\
  (forall b, owner (log s) b = None -> forall a q c, log s = a ++ Got q b :: c -> exists r, In (Rel r b) a).

Lemma owner_step : forall s o, OwnInv s -> OwnInv (step g s o).
Proof.
  intros s o [O1 [O2 O3]].
  assert (LV : forall b v, v <> FREE -> lev s b <> FREE \/ True -> forall b' q, owner (log s) b' = Some q ->
             upd (lev s) b v b' <> FREE).
  { intros b v Hv _ b' q Ho. unfold upd. destruct (b' =? b); auto. eapply O2; eauto. }
  destruct o; cbn [step].
  - destruct (nth_error (pends s) n) as [[i prev next]|]; [|repeat split; auto].
    destruct (ready (word s i) prev next); repeat split; auto.
  - destruct (in_pool g b && (lev s b <? USAGE_LEVELS)) eqn:E; [|repeat split; auto].
    split; [auto|split; [|auto]]. cbn [set_map lev log]. eapply LV; auto.
    unfold USAGE_LEVELS, FREE in *. pose proof (Z.mod_pos_bound (lev s b + 1) 7). lia.
  - destruct (owner (log s) b) eqn:Eo; [|repeat split; auto].
    destruct ((z =? p) && in_pool g b && (0 <=? v) && (v <? USAGE_LEVELS)) eqn:E; [|repeat split; auto].
    split; [auto|split; [|auto]]. cbn [set_map lev log]. eapply LV; auto. unfold USAGE_LEVELS, FREE in *. lia.
  - destruct (n <=? 0); [|destruct (avail s - n <? 0)]; repeat split; auto.
  - destruct (nth_error (tries s) n); repeat split; auto.
  - repeat split; auto.
  - destruct ((0 <? resv s p) && (alloc s p =? 0)); repeat split; auto.
  - destruct ((alloc s p =? 1) && in_pool g b && (lev s b =? FREE)) eqn:E; [|repeat split; auto].
    assert (No : owner (log s) b = None).
    { destruct (owner (log s) b) eqn:Eo; auto. apply O2 in Eo. lia. }
    split; [|split]; cbn [lev log].
    + intros a p' q b' m c El. destruct a as [|e a]; cbn [app] in El; inv El.
      * apply (O3 b' No m q c). auto.
      * apply (O1 a p' q b' m c). auto.
    + intros b' q. cbn [owner]. unfold upd. rewrite (Z.eqb_sym b b').
      destruct (b' =? b); [unfold INVALID, FREE; lia|apply O2].
    + intros b'. cbn [owner]. destruct (Z.eqb_spec b b'); [discriminate|].
      intros Ho a q c El. destruct a as [|e a]; cbn [app] in El; inv El; [contradiction|].
      destruct (O3 b' Ho a q c H1) as [r I]. exists r. right. auto.
  - destruct (owner (log s) b) eqn:Eo; [|repeat split; auto].
    destruct ((z =? p) && in_pool g b) eqn:E; [|repeat split; auto].
    split; [|split]; cbn [lev log].
    + intros a p' q b' m c El. destruct a as [|e a]; cbn [app] in El; inv El.
      apply (O1 a p' q b' m c). auto.
    + intros b' q. cbn [owner]. unfold upd. rewrite (Z.eqb_sym b b').
      destruct (b' =? b); [discriminate|apply O2].
    + intros b'. cbn [owner]. destruct (Z.eqb_spec b b') as [->|N].
      * intros _ a q c El. destruct a as [|e a]; cbn [app] in El; inv El. exists p. left. auto.
      * intros Ho a q c El. destruct a as [|e a]; cbn [app] in El; inv El.
        destruct (O3 b' Ho a q c H1) as [r I]. exists r. right. auto.
  - destruct (0 <? unadded s); repeat split; auto.
Qed.

Lemma owner_run : forall ops, OwnInv (run (step g) (init g) ops).
Proof.
  intros ops. apply (run_inv _ _ (step g) OwnInv); [apply owner_step|].
  split; [|split]; cbn [init log owner].
  - intros a p q b m c E. destruct a; discriminate.
  - discriminate.
  - intros b _ a q c E. destruct a; discriminate.
Qed.

(** ** Reservations are covered by free pages *)
Definition nfree (lv : Z -> Z) : Z := count (fun b => lv b =? FREE) (range 0 (g_size g)).
Fixpoint sum (l : list Z) : Z := match l with [] => 0 | x :: r => x + sum r end.
Lemma sum_app : forall a b, sum (a ++ b) = sum a + sum b.
Proof. induction a; intros; cbn [app sum]; [lia|]. rewrite IHa. lia. Qed.
Lemma sum_nth : forall n l c, nth_error l n = Some c -> sum (firstn n l ++ skipn (S n) l) = sum l - c.
Proof.
  intros n l c E. apply nth_error_split in E. destruct E as [a [b [-> <-]]].
  rewrite firstn_app, Nat.sub_diag, firstn_all, firstn_O, app_nil_r.
  replace (skipn (S (length a)) (a ++ c :: b)) with b.
  - rewrite !sum_app. cbn [sum]. lia.
  - induction a; cbn [length app skipn]; auto.
Qed.
Lemma sum_map_upd : forall (f : Z -> Z) p v l, NoDup l ->
  sum (map (upd f p v) l) = sum (map f l) + (if existsb (Z.eqb p) l then v - f p else 0).
Proof.
  intros f p v l ND. induction l as [|x l IH]; [reflexivity|]. inv ND. cbn [map sum existsb]. rewrite IH by auto.
  unfold upd at 1. rewrite (Z.eqb_sym x p). destruct (Z.eqb_spec p x) as [->|N]; cbn [orb]; [|lia].
  replace (existsb (Z.eqb x) l) with false; [lia|].
  symmetry. apply not_true_iff_false. intros C. apply existsb_exists in C. destruct C as [y [I Y]].
  apply Z.eqb_eq in Y. subst. contradiction.
Qed.
Definition AInv (s : st) : Prop :=
  exists ps, NoDup ps /\ (forall p, ~ In p ps -> resv s p = 0 /\ alloc s p = 0) /\
    (forall p, 0 <= resv s p /\ 0 <= alloc s p) /\ 0 <= unadded s /\ 0 <= avail s + sum (tries s) /\
    (forall c, In c (tries s) -> 0 < c) /\
    nfree (lev s) = avail s + sum (tries s) + sum (map (resv s) ps) + sum (map (alloc s) ps) + unadded s.

Lemma nfree_upd : forall lv b v, 0 <= b < g_size g ->
  nfree (upd lv b v) = nfree lv + (if v =? FREE then 1 else 0) - (if lv b =? FREE then 1 else 0).
Proof.
  intros lv b v H. unfold nfree.
  rewrite (count_change (fun b => lv b =? FREE) (fun x => upd lv b v x =? FREE) _ b).
  - rewrite existsb_range, upd_same. replace ((0 <=? b) && (b <? g_size g)) with true by lia.
    destruct (v =? FREE), (lv b =? FREE); lia.
  - apply range_NoDup.
  - intros x N. rewrite upd_other by auto. reflexivity.
Qed.

Lemma with_proc : forall s p, AInv s -> exists ps, In p ps /\ NoDup ps /\
    (forall p, ~ In p ps -> resv s p = 0 /\ alloc s p = 0) /\
    (forall p, 0 <= resv s p /\ 0 <= alloc s p) /\ 0 <= unadded s /\ 0 <= avail s + sum (tries s) /\
    (forall c, In c (tries s) -> 0 < c) /\
    nfree (lev s) = avail s + sum (tries s) + sum (map (resv s) ps) + sum (map (alloc s) ps) + unadded s.
Proof.
  intros s p [ps [ND [Out [Nn [U [A [T E]]]]]]].
  destruct (in_dec Z.eq_dec p ps) as [I|I].
  { exists ps. do 7 (split; [assumption|]). exact E. }
  exists (p :: ps). split; [left; auto|split; [constructor; auto|split; [|split; [auto|split; [auto|split; [auto|split; [auto|]]]]]]].
  - intros q Hq. apply Out. intros C. apply Hq. right; auto.
  - cbn [map sum]. destruct (Out p I) as [-> ->]. lia.
Qed.

Lemma sum_pos_tries : forall l, (forall c, In c l -> 0 < c) -> 0 <= sum l.
Proof.
  induction l as [|x l IH]; intros H; cbn [sum]; [lia|].
  pose proof (H x (or_introl eq_refl)). assert (0 <= sum l) by (apply IH; intros; apply H; right; auto). lia.
Qed.

Lemma AInv_step : forall s o, OwnInv s -> AInv s -> AInv (step g s o).
Proof.
  intros s o OI AI.
  assert (Same : forall lv w pe, nfree lv = nfree (lev s) -> AInv (set_map s lv w pe)).
  { intros lv w pe E. destruct AI as [ps H]. exists ps. cbn [set_map lev resv alloc tries unadded avail]. rewrite E. exact H. }
  destruct o; cbn [step]; auto.
  - destruct (nth_error (pends s) n) as [[i prev next]|]; auto.
    destruct (ready (word s i) prev next); auto.
  - destruct (in_pool g b && (lev s b <? USAGE_LEVELS)) eqn:E; auto. apply Same.
    unfold in_pool, USAGE_LEVELS, FREE in *. rewrite nfree_upd by lia. unfold FREE.
    pose proof (Z.mod_pos_bound (lev s b + 1) 7 ltac:(lia)).
    replace ((lev s b + 1) mod 7 =? 7) with false by (clear - H; lia). replace (lev s b =? 7) with false by (clear - E; lia). lia.
  - destruct (owner (log s) b) eqn:Eo; auto.
    destruct ((z =? p) && in_pool g b && (0 <=? v) && (v <? USAGE_LEVELS)) eqn:E; auto. apply Same.
    destruct OI as [_ [O2 _]]. pose proof (O2 b z Eo). unfold in_pool, USAGE_LEVELS, FREE in *.
    rewrite nfree_upd by lia. unfold FREE. replace (v =? 7) with false by lia. replace (lev s b =? 7) with false by lia. lia.
  - destruct (Z.leb_spec n 0); auto. destruct (with_proc s p AI) as [ps [I [ND [Out [Nn [U [A [T E]]]]]]]].
    destruct (Z.ltb_spec (avail s - n) 0); exists ps; cbn [lev resv alloc tries unadded avail].
    + split; [auto|split; [auto|split; [auto|split; [auto|split; [|split]]]]].
      * cbn [sum]. lia.
      * intros c [<-|Ic]; auto.
      * cbn [sum]. lia.
    + split; [auto|split; [|split; [|split; [auto|split; [|split; [auto|]]]]]].
      * intros q Hq. unfold upd. destruct (Z.eqb_spec q p); [subst; contradiction|]. auto.
      * intros q. unfold upd. destruct (Z.eqb_spec q p); [|auto]. subst. destruct (Nn p). lia.
      * pose proof (sum_pos_tries _ T). lia.
      * rewrite sum_map_upd by auto.
        replace (existsb (Z.eqb p) ps) with true. 2:{ symmetry. apply existsb_exists. exists p. split; auto. lia. }
        lia.
  - destruct (nth_error (tries s) n) as [c|] eqn:En; auto. destruct AI as [ps [ND [Out [Nn [U [A [T E]]]]]]].
    exists ps; cbn [lev resv alloc tries unadded avail]. rewrite (sum_nth n (tries s) c En).
    split; [auto|split; [auto|split; [auto|split; [auto|split; [lia|split; [|lia]]]]]].
    intros x Hx. apply T. apply in_app_or in Hx. destruct Hx as [Hx|Hx].
    + rewrite <- (firstn_skipn n (tries s)). apply in_or_app. left; auto.
    + rewrite <- (firstn_skipn (S n) (tries s)). apply in_or_app. right; auto.
  - destruct (with_proc s p AI) as [ps [I [ND [Out [Nn [U [A [T E]]]]]]]].
    exists ps; cbn [lev resv alloc tries unadded avail].
    split; [auto|split; [|split; [|split; [auto|split; [|split; [auto|]]]]]].
    + intros q Hq. unfold upd. destruct (Z.eqb_spec q p); [subst; contradiction|]. auto.
    + intros q. unfold upd. destruct (Z.eqb_spec q p); [|auto]. subst. destruct (Nn p). lia.
    + destruct (Nn p). lia.
    + rewrite sum_map_upd by auto.
      replace (existsb (Z.eqb p) ps) with true. 2:{ symmetry. apply existsb_exists. exists p. split; auto. lia. }
      lia.
  - destruct ((0 <? resv s p) && (alloc s p =? 0)) eqn:Ec; auto.
    destruct (with_proc s p AI) as [ps [I [ND [Out [Nn [U [A [T E]]]]]]]].
    exists ps; cbn [lev resv alloc tries unadded avail].
    split; [auto|split; [|split; [|split; [auto|split; [auto|split; [auto|]]]]]].
    + intros q Hq. unfold upd. destruct (Z.eqb_spec q p); [subst; contradiction|]. auto.
    + intros q. unfold upd. destruct (Z.eqb_spec q p); [|auto]. subst. destruct (Nn p). lia.
    + rewrite !sum_map_upd by auto.
      replace (existsb (Z.eqb p) ps) with true. 2:{ symmetry. apply existsb_exists. exists p. split; auto. lia. }
      lia.
  - destruct ((alloc s p =? 1) && in_pool g b && (lev s b =? FREE)) eqn:Ec; auto.
    destruct (with_proc s p AI) as [ps [I [ND [Out [Nn [U [A [T E]]]]]]]].
    exists ps; cbn [lev resv alloc tries unadded avail].
    split; [auto|split; [|split; [|split; [auto|split; [auto|split; [auto|]]]]]].
    + intros q Hq. unfold upd. destruct (Z.eqb_spec q p); [subst; contradiction|]. auto.
    + intros q. unfold upd. destruct (Z.eqb_spec q p); [|auto]. subst. destruct (Nn p). lia.
    + unfold in_pool in Ec. rewrite nfree_upd by lia. replace (lev s b =? FREE) with true by lia.
      change (INVALID =? FREE) with false. rewrite sum_map_upd by auto.
      replace (existsb (Z.eqb p) ps) with true. 2:{ symmetry. apply existsb_exists. exists p. split; auto. lia. }
      lia.
  - destruct (owner (log s) b) eqn:Eo; auto.
    destruct ((z =? p) && in_pool g b) eqn:Ec; auto.
    destruct AI as [ps [ND [Out [Nn [U [A [T E]]]]]]]. exists ps; cbn [lev resv alloc tries unadded avail].
    split; [auto|split; [auto|split; [auto|split; [lia|split; [auto|split; [auto|]]]]]].
    destruct OI as [_ [O2 _]]. pose proof (O2 b z Eo). unfold in_pool in Ec. rewrite nfree_upd by lia.
    replace (lev s b =? FREE) with false by lia. rewrite Z.eqb_refl. lia.
  - destruct (Z.ltb_spec 0 (unadded s)); auto.
    destruct AI as [ps [ND [Out [Nn [U [A [T E]]]]]]]. exists ps; cbn [lev resv alloc tries unadded avail].
    split; [auto|split; [auto|split; [auto|split; [lia|split; [lia|split; [auto|]]]]]]. lia.
Qed.

Lemma AInv_run : forall ops, AInv (run (step g) (init g) ops).
Proof.
  intros ops. apply (run_inv _ _ (step g) (fun s => OwnInv s /\ AInv s)).
  - intros s o [A B]. split; [apply owner_step|apply AInv_step]; auto.
  - split; [apply (owner_run [])|]. exists []. cbn [init lev resv alloc tries unadded avail map sum].
    split; [constructor|split; [auto|split; [intros; lia|split; [lia|]]]].
    destruct GO as [A _]. split; [lia|split; [intros c []|]].
    unfold nfree. rewrite count_all by (intros; reflexivity). rewrite range_length. lia.
Qed.

Lemma alloc_has_free : forall ops p, allocating (run (step g) (init g) ops) p ->
  exists b, 0 <= b < g_size g /\ lev (run (step g) (init g) ops) b = FREE.
Proof.
  intros ops p Hp. set (s := run (step g) (init g) ops) in *.
  destruct (with_proc s p (AInv_run ops)) as [ps [I [ND [Out [Nn [U [A [T E]]]]]]]].
  assert (S1 : forall (f : Z -> Z) l, (forall x, 0 <= f x) -> 0 <= sum (map f l)).
  { intros f l H. induction l; cbn [map sum]; [lia|]. specialize (H a). lia. }
  assert (S2 : forall (f : Z -> Z) l x, (forall x, 0 <= f x) -> In x l -> f x <= sum (map f l)).
  { intros f l x H Hx. induction l as [|y l IH]; [contradiction|]. cbn [map sum]. destruct Hx as [->|Hx].
    - pose proof (S1 f l H). lia.
    - specialize (H y). specialize (IH Hx). lia. }
  pose proof (S1 (resv s) ps (fun x => proj1 (Nn x))). pose proof (S2 (alloc s) ps p (fun x => proj2 (Nn x)) I).
  unfold allocating in Hp.
  assert (P : 0 < nfree (lev s)) by lia. apply count_pos in P. destruct P as [b [Ib Fb]].
  rewrite range_In in Ib. exists b. lia.
Qed.
End Pool.
