(** The ordered map, and the bits of one chunk. *)
From Coq Require Import ZArith List Bool Lia ZifyBool ZifyNat.
From Verif Require Import Base PkEncModel PkEncSpec PkEncProofs KeyBmModel.
Import ListNotations.
Open Scope Z_scope.

Section Map.
  Variables (K V : Type) (cmp : K -> K -> comparison).
  Hypothesis ceq : forall a b, cmp a b = Eq <-> a = b.
  Hypothesis copp : forall a b, cmp b a = CompOpp (cmp a b).
  Hypothesis ctr : forall a b c, cmp a b = Lt -> cmp b c = Lt -> cmp a c = Lt.

  Fixpoint srt (l : list K) : Prop := match l with [] => True | k :: l => (forall x, In x l -> cmp k x = Lt) /\ srt l end.
  Definition keys (l : list (K * V)) := map fst l.

  Lemma crefl : forall a, cmp a a = Eq. Proof. intros. apply ceq. auto. Qed.
  Lemma find_set_same : forall k (v : V) l, find cmp k (set cmp k v l) = Some v.
  Proof.
    induction l as [|[x w] l IH]; cbn. { rewrite crefl. auto. }
    destruct (cmp k x) eqn:E; cbn.
    - rewrite E. auto.
    - rewrite crefl. auto.
    - rewrite E. auto.
  Qed.
  Lemma find_set_other : forall k k' (v : V) l, k' <> k -> find cmp k' (set cmp k v l) = find cmp k' l.
  Proof.
    intros k k' v l N. induction l as [|[x w] l IH]; cbn.
    - destruct (cmp k' k) eqn:E; auto. apply ceq in E. contradiction.
    - destruct (cmp k x) eqn:E; cbn.
      + destruct (cmp k' x) eqn:E'; auto. apply ceq in E, E'. congruence.
      + destruct (cmp k' k) eqn:E'; auto. apply ceq in E'. contradiction.
      + rewrite IH. auto.
  Qed.
  Lemma set_keys : forall k (v : V) l x, In x (keys (set cmp k v l)) <-> x = k \/ In x (keys l).
  Proof.
    induction l as [|[y w] l IH]; intros x; cbn. { intuition. }
    destruct (cmp k y) eqn:E; cbn.
    - apply ceq in E. subst. intuition.
    - intuition.
    - rewrite IH. intuition.
  Qed.
  Lemma srt_set : forall k (v : V) l, srt (keys l) -> srt (keys (set cmp k v l)).
  Proof.
    induction l as [|[y w] l IH]; cbn; intros S. { split; [intros ? []|auto]. }
    destruct S as [S1 S2]. destruct (cmp k y) eqn:E; cbn.
    - split; auto.
    - split; [|split; auto]. intros x [<-|H]; auto. eapply ctr; eauto.
    - split; [|auto]. intros x H. apply set_keys in H. destruct H as [->|H]; auto. rewrite copp, E. auto.
  Qed.
  Lemma find_in : forall k (v : V) l, find cmp k l = Some v -> In (k, v) l.
  Proof.
    induction l as [|[x w] l IH]; cbn; [discriminate|]. destruct (cmp k x) eqn:E; auto.
    intros H. inv H. apply ceq in E. subst. auto.
  Qed.
  Lemma in_find : forall k (v : V) l, srt (keys l) -> In (k, v) l -> find cmp k l = Some v.
  Proof.
    induction l as [|[x w] l IH]; cbn; [contradiction|]. intros [S1 S2] [H|H].
    - inv H. rewrite crefl. auto.
    - assert (cmp x k = Lt) by (apply S1; change k with (fst (k, v)); apply in_map; auto).
      rewrite copp, H0. cbn. auto.
  Qed.
  Lemma find_keys : forall k (l : list (K * V)), In k (keys l) -> exists v, find cmp k l = Some v.
  Proof.
    induction l as [|[x w] l IH]; cbn; [contradiction|]. intros [<-|H]. { rewrite crefl. eauto. }
    destruct (cmp k x); eauto.
  Qed.
  Lemma find_none : forall k (l : list (K * V)), ~ In k (keys l) -> find cmp k l = None.
  Proof. intros k l N. destruct (find cmp k l) eqn:E; auto. apply find_in in E. exfalso. apply N. change k with (fst (k, v)). apply in_map. auto. Qed.
  Lemma find_some_keys : forall k (v : V) l, find cmp k l = Some v -> In k (keys l).
  Proof. intros k v l E. apply find_in in E. change k with (fst (k, v)). apply in_map. auto. Qed.
  Lemma del_in : forall k (l : list (K * V)) e, In e (del cmp k l) -> In e l.
  Proof. induction l as [|[x w] l IH]; cbn; intros e; auto. destruct (cmp k x); cbn; intuition. Qed.
  Lemma srt_del : forall k (l : list (K * V)), srt (keys l) -> srt (keys (del cmp k l)).
  Proof.
    induction l as [|[x w] l IH]; cbn; auto. intros [S1 S2]. destruct (cmp k x); cbn; auto; (split; [|auto]);
    intros y H; apply S1; unfold keys in *; apply in_map_iff in H; destruct H as ([a b] & <- & H); apply in_map; apply del_in in H; auto.
  Qed.
  Lemma find_del_other : forall k k' (l : list (K * V)), k' <> k -> find cmp k' (del cmp k l) = find cmp k' l.
  Proof.
    induction l as [|[x w] l IH]; cbn; intros N; auto. destruct (cmp k x) eqn:E; cbn.
    - destruct (cmp k' x) eqn:E'; auto. apply ceq in E, E'. congruence.
    - rewrite IH; auto.
    - rewrite IH; auto.
  Qed.
  Lemma find_del_same : forall k (l : list (K * V)), srt (keys l) -> find cmp k (del cmp k l) = None.
  Proof.
    induction l as [|[x w] l IH]; cbn; intros S; auto. destruct S as [S1 S2]. destruct (cmp k x) eqn:E; cbn; try rewrite E; auto.
    apply ceq in E. subst x. apply find_none. intro H. specialize (S1 _ H). rewrite crefl in S1. discriminate.
  Qed.
  Lemma dels : forall ks (l : list (K * V)), srt (keys l) -> let l' := fold_left (fun t k => del cmp k t) ks l in
    srt (keys l') /\ (forall e, In e l' -> In e l) /\ (forall k, In k ks -> find cmp k l' = None) /\ (forall k, ~ In k ks -> find cmp k l' = find cmp k l).
  Proof.
    induction ks as [|k ks IH]; intros l S l'. { cbn. intuition. }
    change l' with (fold_left (fun t k => del cmp k t) ks (del cmp k l)) in *.
    destruct (IH (del cmp k l) (srt_del _ _ S)) as (A & B & C & D). cbn zeta in *. set (m := fold_left _ ks _) in *. clear l'. rename m into l'. split; [auto|split; [|split]].
    - intros e H. apply B in H. eapply del_in; eauto.
    - intros x H. destruct (find cmp x l') eqn:E; auto. destruct H as [<-|H]; [|rewrite C in E; auto; discriminate].
      apply find_in in E. apply B in E. apply in_find in E; [|apply srt_del; auto]. rewrite find_del_same in E; auto.
    - intros x H. rewrite D by (intro; apply H; right; auto). apply find_del_other. intros ->. apply H. left. auto.
  Qed.

  (** Binary search. *)
  Lemma nth_srt : forall d a i j, srt a -> (i < j < length a)%nat -> cmp (nth i a d) (nth j a d) = Lt.
  Proof.
    induction a as [|x a IH]; cbn; intros i j S0 R; [lia|]. destruct S0 as [S1 S2]. destruct j as [|j]; [lia|]. destruct i as [|i].
    - apply S1. apply nth_In. lia.
    - apply IH; auto. lia.
  Qed.
  Lemma lower_bound_spec : forall d a t, srt a -> forall fuel lo hi, (lo <= hi <= length a)%nat -> (hi - lo < fuel)%nat ->
    (forall i, (i < lo)%nat -> cmp (nth i a d) t = Lt) -> (forall i, (hi <= i < length a)%nat -> cmp (nth i a d) t <> Lt) ->
    let r := lower_bound cmp fuel d a t lo hi in
    (r <= length a)%nat /\ (forall i, (i < r)%nat -> cmp (nth i a d) t = Lt) /\ (forall i, (r <= i < length a)%nat -> cmp (nth i a d) t <> Lt).
  Proof.
    intros d a t S. induction fuel as [|fuel IH]; intros lo hi R F L H; [lia|]. cbn [lower_bound].
    destruct (Nat.ltb_spec lo hi) as [G|G].
    - assert (Q : ((hi - lo) / 2 < hi - lo)%nat) by (apply Nat.div_lt; lia). cbn zeta. set (mid := (lo + (hi - lo) / 2)%nat) in *.
      assert (M : (lo <= mid < hi)%nat) by (unfold mid; lia). clearbody mid.
      assert (UP : forall i j, (i <= j < length a)%nat -> cmp (nth i a d) t <> Lt -> cmp (nth j a d) t <> Lt).
      { intros i j Rij N X. destruct (Nat.eq_dec i j) as [->|]; [auto|]. apply N. eapply ctr; [|apply X]. apply nth_srt; auto. lia. }
      assert (DN : forall i j, (i <= j < length a)%nat -> cmp (nth j a d) t = Lt -> cmp (nth i a d) t = Lt).
      { intros i j Rij N. destruct (Nat.eq_dec i j) as [->|]; [auto|]. eapply ctr; [|apply N]. apply nth_srt; auto. lia. }
      destruct (cmp (nth mid a d) t) eqn:E.
      + apply IH; try lia; auto. intros i Ri. apply (UP mid); [lia|]. congruence.
      + apply IH; try lia; auto. intros i Ri. apply (DN i mid); [lia|auto].
      + apply IH; try lia; auto. intros i Ri. apply (UP mid); [lia|]. congruence.
    - cbn zeta. replace lo with hi in * by lia. split; [lia|split; auto].
  Qed.
  Lemma lb_skipn : forall d a t, srt a -> let r := lower_bound cmp (S (length a)) d a t 0 (length a) in
    (forall x, In x (skipn r a) <-> In x a /\ cmp x t <> Lt) /\ (r <= length a)%nat.
  Proof.
    intros d a t S r. destruct (lower_bound_spec d a t S (Datatypes.S (length a)) 0%nat (length a)) as (A & B & C); try lia.
    fold r in A, B, C. clearbody r. split; [|auto]. intros x. split.
    - intros H. apply In_nth with (d := d) in H. destruct H as (n & L & E). rewrite skipn_length in L.
      assert (E' : nth n (skipn r a) d = nth (r + n) a d).
      { rewrite <- (firstn_skipn r a) at 2. rewrite app_nth2; rewrite firstn_length; [f_equal; lia|lia]. }
      rewrite E' in E. subst x. split; [apply nth_In; lia|]. apply C. lia.
    - intros [H N]. apply In_nth with (d := d) in H. destruct H as (n & L & E). destruct (Nat.lt_ge_cases n r) as [X|X].
      + exfalso. apply N. rewrite <- E. apply B. auto.
      + rewrite <- (firstn_skipn r a) in E. rewrite app_nth2 in E by (rewrite firstn_length; lia). rewrite <- E. apply nth_In.
        rewrite firstn_length, skipn_length. lia.
  Qed.
  Lemma srt_skipn : forall n a, srt a -> srt (skipn n a).
  Proof. induction n; intros [|x a] S; cbn; auto. apply IHn. apply S. Qed.
End Map.
Arguments srt {K}. Arguments keys {K V}.

Lemma Zeq : forall a b, (a ?= b) = Eq <-> a = b. Proof. exact Z.compare_eq_iff. Qed.
Lemma Zopp : forall a b, (b ?= a) = CompOpp (a ?= b). Proof. exact (fun a b => Z.compare_antisym a b). Qed.
Lemma Ztr : forall a b c, (a ?= b) = Lt -> (b ?= c) = Lt -> (a ?= c) = Lt.
Proof. intros a b c A B. exact (Z.lt_trans a b c A B). Qed.
Lemma meq : forall a b, memcmp a b = Eq <-> a = b.
Proof. split; [apply memcmp_eq|intros ->; apply memcmp_refl]. Qed.
Lemma mopp : forall a b, memcmp b a = CompOpp (memcmp a b).
Proof. induction a as [|x a IH]; intros [|y b]; cbn; auto. rewrite (Zopp x y). destruct (x ?= y); cbn; auto. Qed.
Lemma mtr : forall a b c, memcmp a b = Lt -> memcmp b c = Lt -> memcmp a c = Lt.
Proof.
  induction a as [|x a IH]; intros [|y b] [|z c]; cbn; auto; try discriminate.
  destruct (Z.compare_spec x y), (Z.compare_spec y z); try discriminate; intros A B; subst.
  - rewrite Z.compare_refl. eauto.
  - replace (y ?= z) with Lt by (symmetry; auto). auto.
  - replace (x ?= z) with Lt by (symmetry; auto). auto.
  - replace (x ?= z) with Lt; auto. symmetry. apply Z.compare_lt_iff. lia.
Qed.

(** ** Chunks *)
Definition wfc (c : chunk) : Prop := length c = BITMAP_BYTES /\ Forall (fun x => 0 <= x < 256) c.
Definition bit (c : chunk) (off : Z) : bool := Z.testbit (byte c (off / 8)) (off mod 8).

Lemma byte_range : forall c i, wfc c -> 0 <= byte c i < 256.
Proof.
  intros c i [L F]. unfold byte. destruct (Nat.lt_ge_cases (Z.to_nat i) (length c)) as [H|H].
  - rewrite Forall_forall in F. apply F. apply nth_In. auto.
  - rewrite nth_overflow by lia. lia.
Qed.
Lemma byte_high : forall x j, 0 <= x < 256 -> 8 <= j -> Z.testbit x j = false.
Proof.
  intros x j R J. destruct (Z.eq_dec x 0) as [->|]; [apply Z.bits_0|]. apply Z.bits_above_log2; [lia|].
  assert (Z.log2 x < 8) by (apply Z.log2_lt_pow2; lia). lia.
Qed.
Lemma land_nz : forall x m, 0 <= x < 256 -> negb (Z.land x m =? 0) = true <-> exists j, 0 <= j < 8 /\ Z.testbit x j = true /\ Z.testbit m j = true.
Proof.
  intros x m R. split.
  - intros N. destruct (Z.eq_dec (Z.land x m) 0) as [E|E]; [rewrite E in N; discriminate|].
    assert (0 <= Z.land x m) by (apply Z.land_nonneg; lia).
    pose proof (Z.bit_log2 (Z.land x m) ltac:(lia)) as B. rewrite Z.land_spec in B. apply andb_true_iff in B. destruct B as [B1 B2].
    exists (Z.log2 (Z.land x m)). repeat split; auto; [apply Z.log2_nonneg|].
    destruct (Z_lt_le_dec (Z.log2 (Z.land x m)) 8); auto. rewrite byte_high in B1 by auto. discriminate.
  - intros (j & J & A & B). destruct (Z.eqb_spec (Z.land x m) 0) as [E|]; auto.
    assert (Z.testbit (Z.land x m) j = false) by (rewrite E; apply Z.bits_0). rewrite Z.land_spec, A, B in H. discriminate.
Qed.
Lemma bits_off : forall off, 0 <= off -> Z.shiftr off 3 = off / 8 /\ Z.land off 7 = off mod 8.
Proof. intros. split; [rewrite Z.shiftr_div_pow2 by lia; auto|]. change 7 with (Z.ones 3). rewrite Z.land_ones by lia. auto. Qed.
Lemma one_bit : forall k j, 0 <= k -> 0 <= j -> Z.testbit (Z.shiftl 1 k) j = (j =? k).
Proof. intros. rewrite Z.shiftl_1_l. rewrite Z.pow2_bits_eqb by auto. apply Z.eqb_sym. Qed.
Lemma test_bit_eq : forall c off, wfc c -> 0 <= off -> test_bit c off = bit c off.
Proof.
  intros c off W O. unfold test_bit, bit. destruct (bits_off off O) as [-> ->]. pose proof (byte_range c (off / 8) W) as B.
  pose proof (Z.mod_pos_bound off 8 ltac:(lia)) as M. apply eq_true_iff_eq. rewrite land_nz by auto. split.
  - intros (j & J & A & D). rewrite one_bit in D by lia. apply Z.eqb_eq in D. subst. auto.
  - intros A. exists (off mod 8). rewrite one_bit, Z.eqb_refl by lia. auto.
Qed.
Lemma upd_nth_len : forall i b c, length (upd_nth i b c) = length c.
Proof. induction i; intros b [|x c]; cbn; auto. Qed.
Lemma upd_nth_nth : forall i b c k, (i < length c)%nat -> nth k (upd_nth i b c) 0 = if Nat.eqb k i then b else nth k c 0.
Proof.
  induction i; intros b [|x c] k L; cbn in L; try lia; destruct k; cbn; auto. apply IHi. lia.
Qed.
Lemma upd_nth_Forall : forall (P : Z -> Prop) i b c, P b -> Forall P c -> Forall P (upd_nth i b c).
Proof. intros P. induction i; intros b [|x c] B F; cbn; auto; inv F; constructor; auto. Qed.
Lemma off_div : forall off, 0 <= off < 1024 -> 0 <= off / 8 < 128 /\ 0 <= off mod 8 < 8.
Proof. intros. split; [split; [apply Z.div_pos; lia|apply Z.div_lt_upper_bound; lia]|apply Z.mod_pos_bound; lia]. Qed.
Lemma off_eq : forall a b, 0 <= a -> 0 <= b -> a / 8 = b / 8 -> a mod 8 = b mod 8 -> a = b.
Proof. intros a b A B D M. rewrite (Z.div_mod a 8), (Z.div_mod b 8) by lia. lia. Qed.
Lemma lor_256 : forall x y, 0 <= x < 256 -> 0 <= y < 256 -> 0 <= Z.lor x y < 256.
Proof.
  intros x y X Y. assert (0 <= Z.lor x y) by (apply Z.lor_nonneg; lia). split; auto.
  destruct (Z.eq_dec (Z.lor x y) 0) as [->|N]; [lia|]. apply (Z.log2_lt_pow2 (Z.lor x y) 8); [lia|].
  rewrite Z.log2_lor by lia. apply Z.max_lub_lt.
  - destruct (Z.eq_dec x 0) as [->|]; [cbn; lia|]. apply Z.log2_lt_pow2; lia.
  - destruct (Z.eq_dec y 0) as [->|]; [cbn; lia|]. apply Z.log2_lt_pow2; lia.
Qed.
Lemma land_256 : forall x y, 0 <= x < 256 -> 0 <= y < 256 -> 0 <= Z.land x y < 256.
Proof.
  intros x y X Y. assert (0 <= Z.land x y) by (apply Z.land_nonneg; lia). split; auto.
  destruct (Z.eq_dec (Z.land x y) 0) as [->|N]; [lia|]. apply (Z.log2_lt_pow2 (Z.land x y) 8); [lia|].
  eapply Z.le_lt_trans; [apply Z.log2_land; lia|]. eapply Z.le_lt_trans; [apply Z.le_min_l|].
  destruct (Z.eq_dec x 0) as [->|]; [cbn; lia|]. apply Z.log2_lt_pow2; lia.
Qed.
Lemma set_bit_wf : forall c off, wfc c -> 0 <= off < 1024 -> wfc (set_bit c off).
Proof.
  intros c off W O. pose proof (byte_range c (off / 8) W) as B. destruct (off_div off O) as [D M]. destruct W as [L F]. unfold set_bit, set_byte.
  destruct (bits_off off ltac:(lia)) as [-> ->]. split; [rewrite upd_nth_len; auto|].
  apply upd_nth_Forall; auto. apply lor_256; auto. rewrite Z.shiftl_1_l. split; [apply Z.pow_nonneg; lia|]. change 256 with (2 ^ 8). apply Z.pow_lt_mono_r; lia.
Qed.
Lemma set_bit_bit : forall c off off', wfc c -> 0 <= off < 1024 -> 0 <= off' < 1024 -> bit (set_bit c off) off' = (off' =? off) || bit c off'.
Proof.
  intros c off off' W O O'. destruct (off_div off O) as [D M]. destruct (off_div off' O') as [D' M']. unfold set_bit, set_byte, bit.
  destruct (bits_off off ltac:(lia)) as [-> ->]. destruct W as [L F]. unfold BITMAP_BYTES in L. unfold byte at 1.
  rewrite upd_nth_nth by (rewrite L; lia).
  destruct (Nat.eqb_spec (Z.to_nat (off' / 8)) (Z.to_nat (off / 8))) as [E|E].
  - assert (E' : off' / 8 = off / 8) by lia. rewrite Z.lor_spec, one_bit by lia. rewrite E'. rewrite orb_comm. f_equal.
    destruct (Z.eqb_spec (off' mod 8) (off mod 8)) as [Q|Q], (Z.eqb_spec off' off) as [R|R]; auto.
    + exfalso. apply R. apply off_eq; auto; lia.
    + subst. congruence.
  - destruct (Z.eqb_spec off' off) as [R|R]; [subst; congruence|]. auto.
Qed.
Lemma empty_wf : wfc empty_chunk.
Proof. split; [apply repeat_length|]. apply Forall_forall. intros x H. apply repeat_spec in H. lia. Qed.
Lemma empty_bit : forall off, bit empty_chunk off = false.
Proof.
  intros. unfold bit, byte, empty_chunk. replace (nth _ _ 0) with 0; [apply Z.bits_0|].
  symmetry. destruct (nth_in_or_default (Z.to_nat (off / 8)) (repeat 0 BITMAP_BYTES) 0) as [H|H]; auto. apply repeat_spec in H. auto.
Qed.
Lemma map2_len : forall f a b, length a = length b -> length (map2 f a b) = length a.
Proof. induction a as [|x a IH]; intros [|y b] L; cbn in *; try lia. rewrite IH; lia. Qed.
Lemma map2_nth : forall f a b i, length a = length b -> (i < length a)%nat -> nth i (map2 f a b) 0 = f (nth i a 0) (nth i b 0).
Proof. induction a as [|x a IH]; intros [|y b] i L I; cbn in *; try lia. destruct i; auto. apply IH; lia. Qed.
Lemma map2_Forall : forall (P : Z -> Prop) f a b, (forall x y, P x -> P y -> P (f x y)) -> Forall P a -> Forall P b -> Forall P (map2 f a b).
Proof. intros P f. induction a as [|x a IH]; intros [|y b] H A B; cbn; auto. inv A. inv B. constructor; auto. Qed.
Lemma map2_wf : forall f a b, (forall x y, 0 <= x < 256 -> 0 <= y < 256 -> 0 <= f x y < 256) -> wfc a -> wfc b -> wfc (map2 f a b).
Proof. intros f a b H [L F] [L' F']. split; [rewrite map2_len; congruence|]. apply map2_Forall; auto. Qed.
Lemma lor_bit : forall a b off, wfc a -> wfc b -> 0 <= off < 1024 -> bit (map2 Z.lor a b) off = bit a off || bit b off.
Proof.
  intros a b off [L F] [L' F'] O. destruct (off_div off O) as [D M]. unfold BITMAP_BYTES in *. unfold bit, byte.
  rewrite map2_nth by (rewrite ?L, ?L'; lia). apply Z.lor_spec.
Qed.
Lemma land_bit : forall a b off, wfc a -> wfc b -> 0 <= off < 1024 -> bit (map2 Z.land a b) off = bit a off && bit b off.
Proof.
  intros a b off [L F] [L' F'] O. destruct (off_div off O) as [D M]. unfold BITMAP_BYTES in *. unfold bit, byte.
  rewrite map2_nth by (rewrite ?L, ?L'; lia). apply Z.land_spec.
Qed.
Lemma some_bit : forall x, 0 < x < 256 -> exists j, 0 <= j < 8 /\ Z.testbit x j = true.
Proof.
  intros x R. exists (Z.log2 x). split; [|apply Z.bit_log2; lia]. split; [apply Z.log2_nonneg|]. apply Z.log2_lt_pow2; lia.
Qed.
Lemma off_of : forall i j, 0 <= j < 8 -> (i * 8 + j) / 8 = i /\ (i * 8 + j) mod 8 = j.
Proof. intros. split; [rewrite Z.add_comm, Z.div_add, Z.div_small by lia; lia|rewrite Z.add_comm, Z.mod_add, Z.mod_small by lia; lia]. Qed.
Lemma all_zero_spec : forall c, wfc c -> all_zero c = true <-> (forall off, 0 <= off < 1024 -> bit c off = false).
Proof.
  intros c [L F]. unfold all_zero. rewrite forallb_forall. split.
  - intros H off O. unfold bit, byte. destruct (off_div off O). replace (nth _ _ 0) with 0; [apply Z.bits_0|]. symmetry. apply Z.eqb_eq. apply H. apply nth_In. unfold BITMAP_BYTES in L. lia.
  - intros H x I. apply Z.eqb_eq. pose proof I as I'. apply In_nth with (d := 0) in I'. destruct I' as (n & N & E). unfold BITMAP_BYTES in L.
    rewrite Forall_forall in F. specialize (F x I). destruct (Z.eq_dec x 0); auto. destruct (some_bit x ltac:(lia)) as (j & J & B).
    specialize (H (Z.of_nat n * 8 + j) ltac:(lia)). unfold bit, byte in H. destruct (off_of (Z.of_nat n) j J) as [Q1 Q2]. rewrite Q1, Q2 in H.
    rewrite Nat2Z.id, E, B in H. discriminate.
Qed.

(** Masks. *)
Lemma bits_255 : forall j, 0 <= j -> Z.testbit 0xFF j = (j <? 8).
Proof. intros. change 0xFF with (Z.ones 8). destruct (Z.ltb_spec j 8); [apply Z.ones_spec_low; lia|apply Z.ones_spec_high; lia]. Qed.
Lemma start_mask : forall k j, 0 <= k < 8 -> 0 <= j < 8 -> Z.testbit (Z.shiftl 0xFF k mod 256) j = (k <=? j).
Proof.
  intros. change 256 with (2 ^ 8). rewrite Z.mod_pow2_bits_low by lia. rewrite Z.shiftl_spec by lia.
  destruct (Z.leb_spec k j); [rewrite bits_255 by lia; destruct (Z.ltb_spec (j - k) 8); auto; lia|apply Z.testbit_neg_r; lia].
Qed.
Lemma end_mask : forall k j, 0 <= k < 8 -> 0 <= j < 8 -> Z.testbit (Z.shiftr 0xFF (7 - k)) j = (j <=? k).
Proof.
  intros. rewrite Z.shiftr_spec, bits_255 by lia. destruct (Z.leb_spec j k), (Z.ltb_spec (j + (7 - k)) 8); auto; lia.
Qed.

(** find_next_offset: the least set bit at or after the given one. *)
Lemma ctz_spec : forall f m, 0 < m < 2 ^ Z.of_nat f -> let r := ctz f m in 0 <= r < Z.of_nat f /\ Z.testbit m r = true /\ forall j, 0 <= j < r -> Z.testbit m j = false.
Proof.
  induction f as [|f IH]; intros m R; [cbn in R; lia|]. cbn [ctz]. assert (LE : Z.land m 1 = m mod 2) by (change 1 with (Z.ones 1); rewrite Z.land_ones by lia; auto).
  rewrite LE. rewrite <- Z.bit0_mod. destruct (Z.testbit m 0) eqn:B; cbn [Z.b2z].
  - change (1 =? 0) with false. cbn match. cbn zeta. split; [lia|]. split; [auto|]. intros j J. lia.
  - change (0 =? 0) with true. cbn match. rewrite Z.shiftr_div_pow2 by lia. change (2 ^ 1) with 2.
    assert (M0 : m mod 2 = 0) by (rewrite <- Z.bit0_mod, B; auto). pose proof (Z.div_mod m 2 ltac:(lia)) as D.
    assert (PW : 2 ^ Z.of_nat (S f) = 2 * 2 ^ Z.of_nat f) by (rewrite Nat2Z.inj_succ, Z.pow_succ_r; lia).
    destruct (IH (m / 2) ltac:(lia)) as (A & C & E). cbn zeta. split; [lia|]. split.
    + rewrite (Z.add_comm 1), Z.add_1_r. rewrite D at 1. rewrite M0, Z.add_0_r, Z.double_bits_succ. auto.
    + intros j J. destruct (Z.eq_dec j 0) as [->|]; auto. replace j with (Z.succ (j - 1)) by lia. rewrite D at 1. rewrite M0, Z.add_0_r.
      rewrite Z.double_bits_succ. apply E. lia.
Qed.

Lemma fno_spec : forall c, wfc c -> forall f i k, 0 <= i <= 128 -> 0 <= k < 8 -> 128 - i < Z.of_nat f ->
  let r := fno f c i (Z.shiftl 0xFF k mod 256) in
  (0 <= r -> i * 8 + k <= r < 1024 /\ bit c r = true /\ forall o, i * 8 + k <= o < r -> bit c o = false) /\
  (r < 0 -> forall o, i * 8 + k <= o < 1024 -> bit c o = false).
Proof.
  intros c W. induction f as [|f IH]; intros i k I Kr F; [lia|]. cbn [fno]. destruct (Z.ltb_spec i 128) as [L|L].
  2:{ cbn zeta. split; [lia|]. intros _ o O. lia. }
  cbn zeta. set (m := Z.shiftl 0xFF k mod 256). set (b := byte c i).
  assert (B : 0 <= b < 256) by (apply byte_range; auto).
  assert (MB : forall j, 0 <= j < 8 -> Z.testbit (Z.land m b) j = (k <=? j) && bit c (i * 8 + j)).
  { intros j J. rewrite Z.land_spec. unfold m. rewrite start_mask by lia. unfold bit. destruct (off_of i j J) as [-> ->]. auto. }
  assert (MR : 0 <= Z.land m b < 256) by (apply land_256; auto; apply Z.mod_pos_bound; lia).
  assert (OFF : forall o, i * 8 + k <= o < i * 8 + 8 -> exists j, o = i * 8 + j /\ k <= j < 8) by (intros o O; exists (o - i * 8); lia).
  destruct (Z.eqb_spec (Z.land m b) 0) as [E|E]; cbn [negb].
  - assert (NB : forall o, i * 8 + k <= o < i * 8 + 8 -> bit c o = false).
    { intros o O. destruct (OFF o O) as (j & -> & J). specialize (MB j ltac:(lia)). rewrite E, Z.bits_0 in MB.
      destruct (Z.leb_spec k j); [auto|lia]. }
    destruct (IH (i + 1) 0 ltac:(lia) ltac:(lia) ltac:(lia)) as [P Q]. change (Z.shiftl 255 0 mod 256) with 255 in P, Q. split.
    + intros H. destruct (P H) as (P1 & P2 & P3). split; [lia|]. split; auto. intros o O.
      destruct (Z_lt_le_dec o (i * 8 + 8)); [apply NB; lia|apply P3; lia].
    + intros H o O. destruct (Z_lt_le_dec o (i * 8 + 8)); [apply NB; lia|apply (Q H); lia].
  - destruct (ctz_spec 8 (Z.land m b)) as (C1 & C2 & C3). { change (2 ^ Z.of_nat 8) with 256. lia. }
    change (Z.of_nat 8) with 8 in C1. set (z := ctz 8 (Z.land m b)) in *. rewrite Z.shiftl_mul_pow2 by lia. change (2 ^ 3) with 8.
    rewrite MB in C2 by lia. apply andb_true_iff in C2. destruct C2 as [C2 C4]. apply Z.leb_le in C2. split; [|lia]. intros _. split; [lia|]. split; auto.
    intros o O. destruct (OFF o ltac:(lia)) as (j & -> & J). specialize (C3 j ltac:(lia)). rewrite MB in C3 by lia.
    destruct (Z.leb_spec k j); [auto|lia].
Qed.
Lemma find_next_spec : forall c min, wfc c -> 0 <= min < 1024 -> let r := find_next_offset c min in
  (0 <= r -> min <= r < 1024 /\ bit c r = true /\ forall o, min <= o < r -> bit c o = false) /\
  (r < 0 -> forall o, min <= o < 1024 -> bit c o = false).
Proof.
  intros c min W R. unfold find_next_offset. destruct (bits_off min ltac:(lia)) as [-> ->]. destruct (off_div min R) as [D M].
  pose proof (fno_spec c W 129 (min / 8) (min mod 8) ltac:(lia) ltac:(lia) ltac:(lia)) as H.
  replace (min / 8 * 8 + min mod 8) with min in H by (pose proof (Z.div_mod min 8); lia). exact H.
Qed.

(** Scanning the bytes of a chunk between two offsets. *)
Lemma scan_spec : forall c, wfc c -> forall iS iE kS kE sm em, 0 <= iS -> iE < 128 -> 0 <= kS < 8 -> 0 <= kE < 8 ->
  (forall j, 0 <= j < 8 -> Z.testbit sm j = (kS <=? j)) -> (forall j, 0 <= j < 8 -> Z.testbit em j = (j <=? kE)) ->
  forall f i, iS <= i -> iE - i < Z.of_nat f -> iE - i < 128 ->
  scan_bytes f c i iS iE sm em = true <-> exists o, i * 8 <= o /\ iS * 8 + kS <= o <= iE * 8 + kE /\ bit c o = true.
Proof.
  intros c W iS iE kS kE sm em I1 I2 K1 K2 SM EM. induction f as [|f IH]; intros i L F F2.
  { cbn. split; [discriminate|]. intros (o & A & B & _). lia. }
  cbn [scan_bytes]. destruct (Z.leb_spec i iE) as [G|G].
  2:{ split; [discriminate|]. intros (o & A & B & _). lia. }
  cbn zeta. set (mask := if i =? iE then _ else _).
  assert (MK : forall j, 0 <= j < 8 -> Z.testbit mask j = (iS * 8 + kS <=? i * 8 + j) && (i * 8 + j <=? iE * 8 + kE)).
  { intros j J. unfold mask. pose proof (bits_255 j ltac:(lia)) as B5. destruct (Z.ltb_spec j 8); [|lia]. specialize (SM j J). specialize (EM j J).
    destruct (Z.eqb_spec i iE), (Z.eqb_spec i iS); rewrite ?Z.land_spec, ?SM, ?EM, ?B5; cbn [andb];
    repeat match goal with |- context [?a <=? ?b] => destruct (Z.leb_spec a b) end; cbn; auto; lia. }
  pose proof (land_nz (byte c i) mask (byte_range c i W)) as LN.
  destruct (negb (Z.land (byte c i) mask =? 0)) eqn:E.
  - split; [|auto]. intros _. destruct (proj1 LN eq_refl) as (j & J & A & B). rewrite MK in B by auto. apply andb_true_iff in B.
    exists (i * 8 + j). split; [lia|]. split; [lia|]. unfold bit. destruct (off_of i j J) as [-> ->]. auto.
  - rewrite IH by lia. split.
    + intros (o & A & B & C). exists o. split; [lia|]. auto.
    + intros (o & A & B & C). exists o. split; [|auto]. destruct (Z_lt_le_dec o ((i + 1) * 8)); [|lia]. exfalso.
      assert (false = true); [|discriminate]. apply LN.
      exists (o - i * 8). assert (J : 0 <= o - i * 8 < 8) by lia. split; [auto|]. rewrite MK by auto.
      assert (OE : o = i * 8 + (o - i * 8)) by lia. rewrite OE in C. unfold bit in C. destruct (off_of i _ J) as [Q1 Q2]. rewrite Q1, Q2 in C. split; auto.
      apply andb_true_iff. split; apply Z.leb_le; lia.
Qed.
