(** Proofs for the page-usage map. *)
From Coq Require Import ZArith List Bool Lia.
From Coq Require Import ZifyBool ZifyNat.
From Verif Require Import Base UcmModel UcmSpec.
Import ListNotations.
Open Scope Z_scope.
Ltac Zify.zify_post_hook ::= Z.div_mod_to_equations.

(** ** 4-bit counters *)
Lemma pow16_split : forall a b, 0 <= a <= b -> 16 ^ b = 16 ^ a * 16 ^ (b - a).
Proof. intros a b H. rewrite <- Z.pow_add_r by lia. f_equal. lia. Qed.

Lemma nib_range : forall w l, 0 <= nib w l <= 15.
Proof. intros. unfold nib. pose proof (Z.mod_pos_bound (w / 16 ^ l) 16). lia. Qed.

Lemma nib_add_one : forall w m l, 0 <= m -> 0 <= l -> nib w m < 15 ->
  nib (w + 16 ^ m) l = nib w l + (if l =? m then 1 else 0).
Proof.
  intros w m l Hm Hl H. unfold nib in *.
  assert (Pm : 0 < 16 ^ m) by (apply Z.pow_pos_nonneg; lia).
  assert (Pl : 0 < 16 ^ l) by (apply Z.pow_pos_nonneg; lia).
  destruct (Z.eqb_spec l m) as [->|N].
  - rewrite <- (Z.mul_1_l (16 ^ m)) at 1. rewrite Z.div_add by lia.
    remember (w / 16 ^ m) as q. clear - H. lia.
  - destruct (Z_lt_le_dec l m) as [L|L].
    + rewrite (pow16_split l m) at 1 by lia. rewrite (Z.mul_comm (16 ^ l)).
      rewrite Z.div_add by lia.
      rewrite (pow16_split 1 (m - l)) by lia.
      rewrite Z.pow_1_r. remember (w / 16 ^ l) as q. remember (16 ^ (m - l - 1)) as r.
      rewrite (Z.mul_comm 16 r), Z.mod_add by lia. lia.
    + rewrite (pow16_split m l) by lia.
      rewrite <- !Z.div_div by (try lia; apply Z.pow_pos_nonneg; lia).
      rewrite <- (Z.mul_1_l (16 ^ m)) at 1. rewrite Z.div_add by lia.
      remember (w / 16 ^ m) as q.
      rewrite (pow16_split 1 (l - m)) by lia.
      assert (P2 : 0 < 16 ^ (l - m - 1)) by (apply Z.pow_pos_nonneg; lia).
      rewrite <- !Z.div_div by lia. rewrite Z.pow_1_r.
      replace ((q + 1) / 16) with (q / 16). { lia. }
      clear - H. lia.
Qed.

Lemma nib_sub_one : forall w m l, 0 <= m -> 0 <= l -> 0 < nib w m ->
  nib (w - 16 ^ m) l = nib w l - (if l =? m then 1 else 0).
Proof.
  intros w m l Hm Hl H.
  assert (H' : nib (w - 16 ^ m) m < 15).
  { unfold nib in *. assert (Pm : 0 < 16 ^ m) by (apply Z.pow_pos_nonneg; lia).
    replace (w - 16 ^ m) with (w + (-1) * 16 ^ m) by lia. rewrite Z.div_add by lia.
    remember (w / 16 ^ m) as q. clear - H. lia. }
  pose proof (nib_add_one (w - 16 ^ m) m l Hm Hl H') as E.
  replace (w - 16 ^ m + 16 ^ m) with w in E by lia. lia.
Qed.

(** ** Counting *)
Lemma count_nil : forall A (f : A -> bool), count f [] = 0.
Proof. reflexivity. Qed.
Lemma count_cons : forall A (f : A -> bool) x l, count f (x :: l) = (if f x then 1 else 0) + count f l.
Proof. intros. unfold count. cbn [filter]. destruct (f x); cbn [length]; lia. Qed.
Lemma count_nonneg : forall A (f : A -> bool) l, 0 <= count f l.
Proof. intros. unfold count. lia. Qed.
Lemma count_ext : forall A (f h : A -> bool) l, (forall x, In x l -> f x = h x) -> count f l = count h l.
Proof.
  intros A f h l H. induction l as [|x l IH]; [reflexivity|]. rewrite !count_cons, IH by (intros; apply H; right; auto).
  rewrite H by (left; auto). reflexivity.
Qed.
Lemma count_pos : forall A (f : A -> bool) l, 0 < count f l <-> exists x, In x l /\ f x = true.
Proof.
  intros A f l. induction l as [|x l IH].
  - rewrite count_nil. split; [lia|intros [x [[] _]]].
  - rewrite count_cons. pose proof (count_nonneg _ f l). destruct (f x) eqn:E.
    + split; [|lia]. intros _. exists x. split; [left|]; auto.
    + rewrite Z.add_0_l, IH. split; intros [y [I Y]].
      * exists y. split; [right|]; auto.
      * destruct I as [->|I]; [congruence|]. exists y. auto.
Qed.
Lemma count_le : forall A (f : A -> bool) l, count f l <= Z.of_nat (length l).
Proof. intros. induction l; [rewrite count_nil; cbn; lia|]. rewrite count_cons. cbn [length]. destruct (f a); lia. Qed.
Lemma count_all : forall A (f : A -> bool) l, (forall x, In x l -> f x = true) -> count f l = Z.of_nat (length l).
Proof.
  intros A f l H. induction l as [|x l IH]; [reflexivity|]. rewrite count_cons, IH by (intros; apply H; right; auto).
  rewrite (H x) by (left; auto). cbn [length]. lia.
Qed.

Lemma zseq_In : forall n a x, In x (zseq a n) <-> a <= x < a + Z.of_nat n.
Proof.
  induction n as [|n IH]; intros a x; cbn [zseq In]; [lia|]. rewrite IH. lia.
Qed.
Lemma zseq_NoDup : forall n a, NoDup (zseq a n).
Proof.
  induction n as [|n IH]; intros a; cbn [zseq]; constructor; auto. rewrite zseq_In. lia.
Qed.
Lemma zseq_length : forall n a, length (zseq a n) = n.
Proof. induction n; intros; cbn; auto. Qed.
Lemma range_In : forall a b x, In x (range a b) <-> a <= x < b.
Proof. intros. unfold range. rewrite zseq_In. lia. Qed.
Lemma range_NoDup : forall a b, NoDup (range a b).
Proof. intros. apply zseq_NoDup. Qed.
Lemma range_length : forall a b, Z.of_nat (length (range a b)) = Z.max 0 (b - a).
Proof. intros. unfold range. rewrite zseq_length. lia. Qed.

(** Changing one element of a duplicate-free list. *)
Lemma count_change : forall (f h : Z -> bool) l b, NoDup l -> (forall x, x <> b -> h x = f x) ->
  count h l = count f l + (if existsb (Z.eqb b) l then (if h b then 1 else 0) - (if f b then 1 else 0) else 0).
Proof.
  intros f h l b ND E. induction l as [|x l IH]; [rewrite !count_nil; reflexivity|].
  inv ND. rewrite !count_cons, IH by auto. cbn [existsb].
  destruct (Z.eqb_spec b x) as [->|N].
  - cbn [orb]. replace (existsb (Z.eqb x) l) with false; [lia|].
    symmetry. apply not_true_iff_false. intros C. apply existsb_exists in C. destruct C as [y [I Y]].
    apply Z.eqb_eq in Y. subst. contradiction.
  - cbn [orb]. rewrite (E x) by auto. lia.
Qed.
Lemma existsb_range : forall b x y, existsb (Z.eqb b) (range x y) = (x <=? b) && (b <? y).
Proof.
  intros. apply eq_true_iff_eq. rewrite existsb_exists. split.
  - intros [z [I E]]. rewrite range_In in I. lia.
  - intros H. exists b. rewrite range_In. lia.
Qed.
Lemma count_remove : forall (f : pend -> bool) n l x, nth_error l n = Some x ->
  count f (remove_nth n l) = count f l - (if f x then 1 else 0).
Proof.
  intros f n. induction n as [|n IH]; intros l x E; destruct l as [|y l]; cbn in E; try discriminate.
  - inv E. cbn [remove_nth]. rewrite count_cons. lia.
  - cbn [remove_nth]. rewrite !count_cons, (IH l x E). lia.
Qed.
Lemma remove_nth_In : forall n l x, In x (remove_nth n l) -> In x l.
Proof.
  induction n as [|n IH]; intros [|y l] x H; cbn in *; auto. destruct H; auto.
Qed.

(** ** Geometry *)
Fixpoint geo (n : nat) : Z := match n with O => 0 | S m => (geo m + 1) * 15 end.
Definition geom_ok (g : geom) (D : nat) : Prop :=
  0 < g_size g /\ g_nonLeaf g = geo D /\ g_root g = 15 ^ (Z.of_nat D + 1) /\
  g_total g = geo D + (g_size g + 14) / 15 /\ g_size g <= 15 ^ (Z.of_nat D + 2).

Lemma geo_nonneg : forall n, 0 <= geo n. Proof. induction n; cbn [geo]; lia. Qed.
Lemma geo_step : forall n, geo (S n) = geo n + 15 ^ (Z.of_nat n + 1).
Proof.
  induction n as [|n IH]; [reflexivity|].
  change (geo (S (S n))) with ((geo (S n) + 1) * 15). rewrite IH at 1.
  change (geo (S n)) with ((geo n + 1) * 15).
  replace (Z.of_nat (S n) + 1) with (1 + (Z.of_nat n + 1)) by lia.
  rewrite (Z.pow_add_r 15 1) by lia. lia.
Qed.

Lemma est_loop_ok : forall f n k leaf, 0 < n -> n <= 15 \/ n <= Z.of_nat f -> leaf <= n * 15 ^ Z.of_nat k ->
  exists n' k', est_loop f n (geo k) (15 * 15 ^ Z.of_nat k) = (n', geo k', 15 * 15 ^ Z.of_nat k') /\
    leaf <= 15 * 15 ^ Z.of_nat k'.
Proof.
  induction f as [|f IH]; intros n k leaf P H L; cbn [est_loop].
  - exists n, k. split; [reflexivity|].
    assert (0 < 15 ^ Z.of_nat k) by (apply Z.pow_pos_nonneg; lia). nia.
  - unfold BF at 1. destruct (Z.ltb_spec 15 n) as [G|G].
    + replace (15 * 15 ^ Z.of_nat k * BF) with (15 * 15 ^ Z.of_nat (S k)).
      2:{ rewrite Nat2Z.inj_succ, Z.pow_succ_r by lia. unfold BF. lia. }
      change ((geo k + 1) * BF) with (geo (S k)).
      apply IH; unfold BF.
      * lia.
      * lia.
      * rewrite Nat2Z.inj_succ, Z.pow_succ_r by lia.
        assert (0 < 15 ^ Z.of_nat k) by (apply Z.pow_pos_nonneg; lia).
        assert (n <= (n + (15 - 1)) / 15 * 15) by lia. nia.
    + exists n, k. split; [reflexivity|].
      assert (0 < 15 ^ Z.of_nat k) by (apply Z.pow_pos_nonneg; lia). nia.
Qed.

Lemma estimate_ok : forall size, 0 < size -> exists D, geom_ok (estimate size) D /\ g_size (estimate size) = size.
Proof.
  intros size H. unfold estimate.
  set (leaf := (size + BF - 1) / BF).
  assert (Lp : 0 < leaf) by (unfold leaf, BF; lia).
  destruct (est_loop_ok (Z.to_nat leaf) leaf 0 leaf) as [n' [k' [E L]]].
  { exact Lp. } { right. rewrite Z2Nat.id by lia. apply Z.le_refl. } { change (15 ^ Z.of_nat 0) with 1. rewrite Z.mul_1_r. apply Z.le_refl. }
  change (geo 0) with 0 in E. change (15 * 15 ^ Z.of_nat 0) with BF in E. rewrite E.
  exists k'. split; [|reflexivity]. unfold geom_ok. cbn [g_size g_nonLeaf g_root g_total].
  split; [auto|split; [auto|split; [|split]]].
  - rewrite Z.add_comm, Z.pow_add_r by lia. lia.
  - unfold leaf, BF. replace (size + 15 - 1) with (size + 14) by lia. reflexivity.
  - replace (Z.of_nat k' + 2) with (1 + (1 + Z.of_nat k')) by lia. rewrite !Z.pow_add_r by lia.
    unfold leaf, BF in L. lia.
Qed.

Section Proofs.
Variable g : geom.
Variable D : nat.
Hypothesis GO : geom_ok g D.

Lemma total_bound : 0 <= g_nonLeaf g < g_total g /\ g_total g <= (g_nonLeaf g + 1) * 15.
Proof.
  destruct GO as [A [B [C [E F]]]]. rewrite B, E. pose proof (geo_nonneg D).
  change ((geo D + 1) * 15) with (geo (S D)). rewrite geo_step.
  replace (Z.of_nat D + 2) with (1 + (Z.of_nat D + 1)) in F by lia. rewrite Z.pow_add_r in F by lia.
  lia.
Qed.
Lemma parent_nonleaf : forall i, 15 <= i < g_total g -> 0 <= parent i < g_nonLeaf g.
Proof.
  intros i H. unfold parent, BF. pose proof total_bound as [A B].
  destruct GO as [_ [G _]]. destruct D; cbn [geo] in G; lia.
Qed.
Lemma leaf_range : forall b, 0 <= b < g_size g -> g_nonLeaf g <= leaf_of g b < g_total g.
Proof. intros b H. unfold leaf_of, BF. destruct GO as [A [B [C [E F]]]]. rewrite E, B. lia. Qed.

(** Number of pending updates of word [i] towards / from level [l]. *)
Definition nin (pe : list pend) i l := count (fun x => (p_node x =? i) && (p_next x =? l)) pe.
Definition nout (pe : list pend) i l := count (fun x => (p_node x =? i) && (p_prev x =? l)) pe.
Definition tru (lv w : Z -> Z) i l : Z :=
  if i <? g_nonLeaf g
  then count (fun j => negb (nib (w j) l =? 0)) (range ((i + 1) * BF) (Z.min ((i + 2) * BF) (g_total g)))
  else count (fun b => lv b =? l) (range ((i - g_nonLeaf g) * BF) (Z.min ((i - g_nonLeaf g + 1) * BF) (g_size g))).

Definition level (l : Z) : Prop := 0 <= l <= 7 \/ l = INVALID.
Definition pend_ok (x : pend) : Prop :=
  0 <= p_node x < g_total g /\ level (p_prev x) /\ level (p_next x) /\
  (p_prev x = p_next x -> p_prev x = INVALID).

Record MInv (lv w : Z -> Z) (pe : list pend) : Prop := {
  mi_pend : forall x, In x pe -> pend_ok x;
  mi_lev : forall b, 0 <= b < g_size g -> level (lv b);
  mi_cnt : forall i l, 0 <= i < g_total g -> 0 <= l <= 7 ->
             nib (w i) l + nin pe i l = tru lv w i l + nout pe i l
}.

(** A page changes its level. *)
Lemma MInv_change : forall lv w pe b v, MInv lv w pe -> 0 <= b < g_size g -> level v ->
  MInv (upd lv b v) w (ucm_inc g pe b (lv b) v).
Proof.
  intros lv w pe b v M Hb Hv. pose proof (mi_lev _ _ _ M b Hb) as Lb.
  pose proof (leaf_range b Hb) as LR. pose proof total_bound as TB.
  unfold ucm_inc. destruct (Z.eqb_spec (lv b) v) as [E|E].
  - assert (X : forall x, upd lv b v x = lv x).
    { intros x. unfold upd. destruct (Z.eqb_spec x b); subst; auto. }
    split; [apply M| |].
    + intros x Hx. rewrite X. apply M; auto.
    + intros i l Hi Hl. rewrite (mi_cnt _ _ _ M i l Hi Hl). f_equal. unfold tru.
      destruct (i <? g_nonLeaf g); auto. apply count_ext. intros x _. rewrite X. auto.
  - split.
    + intros x [<-|I]; [|apply M; auto]. unfold pend_ok. cbn [p_node p_prev p_next].
      split; [lia|split; [auto|split; [auto|intros; congruence]]].
    + intros x Hx. unfold upd. destruct (Z.eqb_spec x b); auto. apply M; auto.
    + intros i l Hi Hl. pose proof (mi_cnt _ _ _ M i l Hi Hl) as C.
      unfold nin, nout in *. rewrite !count_cons. cbn [p_node p_prev p_next].
      unfold tru in *. destruct (Z.ltb_spec i (g_nonLeaf g)) as [L|L].
      * replace (leaf_of g b =? i) with false by lia. cbn [andb]. lia.
      * rewrite (count_change (fun x => lv x =? l) (fun x => upd lv b v x =? l) _ b).
        2: apply range_NoDup.
        2:{ intros x N. rewrite upd_other by auto. reflexivity. }
        rewrite existsb_range, upd_same.
        assert (X : ((i - g_nonLeaf g) * BF <=? b) && (b <? Z.min ((i - g_nonLeaf g + 1) * BF) (g_size g))
                    = (leaf_of g b =? i)).
        { unfold leaf_of, BF in *. lia. }
        rewrite X. destruct (Z.eqb_spec (leaf_of g b) i) as [Ei|Ei]; cbn [andb]; [|lia].
        destruct (lv b =? l), (v =? l); lia.
Qed.

Lemma nib_bump : forall w prev next l, level prev -> level next -> (prev = next -> prev = INVALID) ->
  ready w prev next = true -> 0 <= l <= 7 ->
  nib (bump w prev next) l = nib w l - (if prev =? l then 1 else 0) + (if next =? l then 1 else 0).
Proof.
  intros w prev next l Hp Hn N R Hl. unfold ready in R. apply andb_true_iff in R. destruct R as [R1 R2].
  unfold bump, one. unfold level, INVALID in *.
  pose proof (nib_range w prev). pose proof (nib_range w next).
  destruct (Z.eqb_spec prev 15) as [->|P].
  - rewrite Z.sub_0_r. replace (15 =? l) with false by lia.
    destruct (Z.eqb_spec next 15) as [->|Q].
    + replace (15 =? l) with false by lia. rewrite Z.add_0_r. lia.
    + rewrite nib_add_one by lia. rewrite (Z.eqb_sym l next). lia.
  - destruct (Z.eqb_spec next 15) as [->|Q].
    + replace (15 =? l) with false by lia. rewrite Z.add_0_r, nib_sub_one by lia. rewrite (Z.eqb_sym l prev). lia.
    + rewrite nib_add_one; [|lia|lia|].
      * rewrite nib_sub_one by lia. rewrite (Z.eqb_sym l next), (Z.eqb_sym l prev). lia.
      * rewrite nib_sub_one by lia. destruct (Z.eqb_spec next prev); lia.
Qed.

Lemma MInv_apply : forall lv w pe n i prev next, MInv lv w pe -> nth_error pe n = Some (mkPend i prev next) ->
  ready (w i) prev next = true ->
  MInv lv (upd w i (bump (w i) prev next))
    (if BF <=? i then mkPend (parent i) (up_prev (bump (w i) prev next) prev) (up_next (w i) next) :: remove_nth n pe
     else remove_nth n pe).
Proof.
  intros lv w pe n i prev next M En R.
  destruct (mi_pend _ _ _ M _ (nth_error_In _ _ En)) as [Hi [Hp [Hn N]]]. cbn [p_node p_prev p_next] in *.
  set (w' := bump (w i) prev next) in *.
  assert (NB : forall l, 0 <= l <= 7 ->
     nib w' l = nib (w i) l - (if prev =? l then 1 else 0) + (if next =? l then 1 else 0)).
  { intros l Hl. apply nib_bump; auto. }
  pose proof total_bound as TB.
  assert (Lup : level (up_prev w' prev)).
  { unfold up_prev, level, INVALID in *. destruct (prev =? 15) eqn:E1; auto. destruct (nib w' prev =? 0); auto. }
  assert (Lun : level (up_next (w i) next)).
  { unfold up_next, level, INVALID in *. destruct (next =? 15) eqn:E1; auto. destruct (nib (w i) next =? 0); auto. }
  split.
  - intros x I.
    assert (X : x = mkPend (parent i) (up_prev w' prev) (up_next (w i) next) /\ 15 <= i \/ In x pe).
    { destruct (Z.leb_spec BF i); [destruct I as [<-|I]|]; [left; split; auto|right|right]; eapply remove_nth_In; eauto. }
    destruct X as [[-> G]|X]; [|apply M; auto].
    pose proof (parent_nonleaf i ltac:(lia)) as PN. unfold pend_ok. cbn [p_node p_prev p_next].
    split; [lia|split; [auto|split; [auto|]]].
    unfold up_prev, up_next, level, INVALID in *.
    destruct (Z.eqb_spec prev 15); auto. destruct (nib w' prev =? 0); auto.
    destruct (Z.eqb_spec next 15); auto. destruct (nib (w i) next =? 0); auto.
  - apply M.
  - intros k l Hk Hl. pose proof (mi_cnt _ _ _ M k l Hk Hl) as C.
    assert (RN : forall f, count f (remove_nth n pe) = count f pe - (if f (mkPend i prev next) then 1 else 0)).
    { intros f. apply count_remove; auto. }
    assert (NIN : nin (remove_nth n pe) k l = nin pe k l - (if (i =? k) && (next =? l) then 1 else 0)).
    { unfold nin. rewrite RN. reflexivity. }
    assert (NOUT : nout (remove_nth n pe) k l = nout pe k l - (if (i =? k) && (prev =? l) then 1 else 0)).
    { unfold nout. rewrite RN. reflexivity. }
    set (pe' := if BF <=? i then mkPend (parent i) (up_prev w' prev) (up_next (w i) next) :: remove_nth n pe
                else remove_nth n pe).
    assert (NIN' : nin pe' k l = nin pe k l - (if (i =? k) && (next =? l) then 1 else 0)
        + (if (BF <=? i) && (parent i =? k) && (up_next (w i) next =? l) then 1 else 0)).
    { unfold pe'. destruct (BF <=? i); cbn [andb]; [|lia]. unfold nin in *. rewrite count_cons. cbn [p_node p_next]. lia. }
    assert (NOUT' : nout pe' k l = nout pe k l - (if (i =? k) && (prev =? l) then 1 else 0)
        + (if (BF <=? i) && (parent i =? k) && (up_prev w' prev =? l) then 1 else 0)).
    { unfold pe'. destruct (BF <=? i); cbn [andb]; [|lia]. unfold nout in *. rewrite count_cons. cbn [p_node p_prev]. lia. }
    assert (W : nib (upd w i w' k) l = nib (w k) l + (if i =? k then nib w' l - nib (w i) l else 0)).
    { unfold upd. rewrite (Z.eqb_sym k i). destruct (Z.eqb_spec i k); subst; lia. }
    assert (T : tru lv (upd w i w') k l = tru lv w k l +
        (if (BF <=? i) && (parent i =? k)
         then (if nib w' l =? 0 then 0 else 1) - (if nib (w i) l =? 0 then 0 else 1) else 0)).
    { unfold tru. destruct (Z.ltb_spec k (g_nonLeaf g)) as [L|L].
      - rewrite (count_change (fun j => negb (nib (w j) l =? 0)) (fun j => negb (nib (upd w i w' j) l =? 0)) _ i).
        2: apply range_NoDup.
        2:{ intros x Nx. rewrite upd_other by auto. reflexivity. }
        rewrite existsb_range, upd_same.
        replace (((k + 1) * BF <=? i) && (i <? Z.min ((k + 2) * BF) (g_total g))) with ((BF <=? i) && (parent i =? k)).
        2:{ unfold parent, BF. lia. }
        destruct ((BF <=? i) && (parent i =? k)); auto.
        destruct (nib w' l =? 0), (nib (w i) l =? 0); reflexivity.
      - destruct (Z.leb_spec BF i) as [G|G]; cbn [andb].
        + pose proof (parent_nonleaf i ltac:(unfold BF in G; lia)).
          replace (parent i =? k) with false by lia. lia.
        + lia. }
    rewrite W, T, NIN', NOUT'.
    pose proof (NB l Hl) as NBl. pose proof (nib_range (w i) l). pose proof (nib_range w' l).
    destruct (Z.eqb_spec i k) as [Eik|Eik]; cbn [andb].
    + subst k. destruct (Z.leb_spec BF i) as [G|G]; cbn [andb].
      * replace (parent i =? i) with false by (unfold parent, BF in *; lia). cbn [andb].
        destruct (prev =? l), (next =? l); lia.
      * destruct (prev =? l), (next =? l); lia.
    + destruct ((BF <=? i) && (parent i =? k)); cbn [andb]; [|lia].
      unfold up_prev, up_next, INVALID, level in *.
      clear NIN NOUT NIN' NOUT' W T RN M R GO NB Lup Lun. clearbody w' pe'.
      destruct (Z.eqb_spec prev 15), (Z.eqb_spec next 15), (Z.eqb_spec (nib w' prev) 0), (Z.eqb_spec (nib (w i) next) 0);
      destruct (Z.eqb_spec prev l) as [Ep|Ep]; destruct (Z.eqb_spec next l) as [En'|En']; try subst l;
        repeat match goal with |- context [if ?c =? ?d then _ else _] => destruct (Z.eqb_spec c d) end; lia.
Qed.
End Proofs.
