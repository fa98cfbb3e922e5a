(** Proofs about bulk builds. *)
From Coq Require Import ZArith List Bool Lia Sorted ZifyBool.
From Verif Require Import Base BuildModel BuildSpec.
Import ListNotations.
Open Scope Z_scope.

(** * Arithmetic *)
Lemma MA_bounds : forall n, n <= MA n < n + 8.
Proof. intros; unfold MA. pose proof (Z.div_mod (n + 7) 8 ltac:(lia)). pose proof (Z.mod_pos_bound (n + 7) 8 ltac:(lia)). lia. Qed.
Lemma MA_mult : forall n, (8 | MA n).
Proof. intros; unfold MA. exists ((n + 7) / 8); lia. Qed.
Lemma MA_mono : forall a b, a <= b -> MA a <= MA b.
Proof. intros; unfold MA. pose proof (Z.div_le_mono (a + 7) (b + 7) 8 ltac:(lia) ltac:(lia)). lia. Qed.
Lemma MA_least : forall n m, (8 | m) -> n <= m -> MA n <= m.
Proof. intros n m [q Q] L. pose proof (MA_bounds n). pose proof (MA_mult n) as [p P]. lia. Qed.
Lemma MA_idem : forall n, MA (MA n) = MA n.
Proof.
  intros; pose proof (MA_bounds (MA n)). pose proof (MA_least (MA n) (MA n) (MA_mult n) ltac:(lia)). lia.
Qed.

Definition ilen_ok (i : item) : Prop :=
  match i with ILeaf t => legal t | IDown None _ _ => True | IDown (Some k) _ _ => 0 <= snd k <= MAXTUP end.

Lemma isz_mult : forall i, (8 | isz i).
Proof.
  intros [t|[k|] h its]; cbn [isz].
  - apply Z.divide_add_r; [exists 2; lia|apply MA_mult].
  - apply Z.divide_add_r; [exists 1; lia|apply MA_mult].
  - exists 1; lia.
Qed.
Lemma isz_bound : forall i, ilen_ok i -> 8 <= isz i <= 2704.
Proof.
  intros [t|[k|] h its]; cbn [isz ilen_ok]; unfold legal, MAXTUP; intros L; try lia.
  - pose proof (MA_bounds (t_len t)). pose proof (MA_least (t_len t) 2688 ltac:(exists 336; lia) ltac:(lia)). lia.
  - pose proof (MA_bounds (snd k)). pose proof (MA_least (snd k) 2688 ltac:(exists 336; lia) ltac:(lia)). lia.
Qed.
Lemma arr_mult : forall n, (8 | arr n).
Proof. intros; apply MA_mult. Qed.
Lemma arr_step : forall n, arr n <= arr (S n) <= arr n + 8.
Proof.
  intros; unfold arr. split; [apply MA_mono; lia|].
  apply MA_least; [apply Z.divide_add_r; [apply MA_mult|exists 1; lia]|pose proof (MA_bounds (2 * Z.of_nat n)); lia].
Qed.
Lemma arr_mono : forall a b, (a <= b)%nat -> arr a <= arr b.
Proof. intros; apply MA_mono; lia. Qed.
Lemma arr_1 : arr 1 = 8. Proof. reflexivity. Qed.
Lemma arr_0 : arr 0 = 0. Proof. reflexivity. Qed.
Lemma sumz_app : forall a b, sumz (a ++ b) = sumz a + sumz b.
Proof. unfold sumz; induction a; intros; cbn; [lia|]. rewrite IHa; lia. Qed.
Lemma sumz_mult : forall l, Forall (fun z => (8 | z)) l -> (8 | sumz l).
Proof. induction 1; cbn; [exists 0; lia|apply Z.divide_add_r; auto]. Qed.

(** * The split location *)
Definition UL (sz : list Z) (m : nat) : Z := sumz (firstn m sz) + arr m.
Definition UR (sz : list Z) (m : nat) : Z := sumz (skipn m sz) + arr (length sz - m).

Lemma UL_S : forall sz m, (m < length sz)%nat -> UL sz (S m) = UL sz m + (nth m sz 0 + (arr (S m) - arr m)).
Proof.
  intros sz m L; unfold UL. enough (sumz (firstn (S m) sz) = sumz (firstn m sz) + nth m sz 0) by lia.
  revert sz L; induction m; intros [|x sz] L; cbn [length] in *; try lia; [cbn; lia|].
  change (x + sumz (firstn (S m) sz) = x + sumz (firstn m sz) + nth m sz 0). rewrite (IHm sz) by lia. lia.
Qed.
Lemma skipn_nth : forall sz m, (m < length sz)%nat -> sumz (skipn m sz) = nth m sz 0 + sumz (skipn (S m) sz).
Proof. intros sz m; revert sz; induction m; intros [|x sz] L; cbn in *; try lia. apply IHm; lia. Qed.
Lemma UR_P : forall sz m, (0 < m <= length sz)%nat ->
  UR sz (m - 1) = UR sz m + (nth (m - 1) sz 0 + (arr (length sz - m + 1) - arr (length sz - m))).
Proof.
  intros sz m L; unfold UR. rewrite (skipn_nth sz (m - 1)) by lia.
  replace (S (m - 1)) with m by lia. replace (length sz - (m - 1))%nat with (length sz - m + 1)%nat by lia. lia.
Qed.
Lemma sumz_nonneg : forall l, Forall (fun z => 8 <= z) l -> 0 <= sumz l.
Proof. induction 1; [cbn; lia|]. change (sumz (x :: l)) with (x + sumz l). lia. Qed.
Lemma sumz_skipn_le : forall l b, Forall (fun z => 8 <= z) l -> sumz (skipn b l) <= sumz l.
Proof.
  intros l b P; revert b; induction P; intros [|b]; cbn [skipn]; try lia.
  change (sumz (x :: l)) with (x + sumz l). specialize (IHP b). lia.
Qed.
Lemma UR_mono : forall sz a b, Forall (fun z => 8 <= z) sz -> (a < b <= length sz)%nat -> UR sz b < UR sz a.
Proof.
  intros sz a b P L. unfold UR.
  assert (sumz (skipn b sz) < sumz (skipn a sz)).
  { revert a b L; induction P; intros a b L; cbn [length] in L; [lia|].
    destruct b; [lia|]. destruct a; cbn [skipn].
    - change (sumz (x :: l)) with (x + sumz l). pose proof (sumz_skipn_le l b P). lia.
    - apply IHP; lia. }
  pose proof (arr_mono (length sz - b) (length sz - a) ltac:(lia)). lia.
Qed.

Section Loc.
Variables (sz : list Z) (capL capR : Z) (target : nat).
Hypothesis pos : Forall (fun z => 8 <= z) sz.
Hypothesis tgt : target = (length sz - 1)%nat.
Hypothesis room : forall m, (1 <= m < length sz - 1)%nat -> capL < UL sz (S m) -> UR sz m <= capR.
Hypothesis rlast : UR sz (length sz - 1) <= capR.
Hypothesis rpos : UR sz (length sz - 1) < capR.
Set Default Proof Using "All".

Lemma nth_pos : forall m, (m < length sz)%nat -> 8 <= nth m sz 0.
Proof. intros; rewrite Forall_forall in pos; apply pos, nth_In; lia. Qed.

(** going down on the right *)
Lemma loc_right : forall fuel ls mn mx, (mx - mn < fuel)%nat -> (1 <= mn <= mx)%nat -> (mx <= length sz - 1)%nat ->
  ls <= 0 -> UL sz mn <= capL -> UR sz mn <= capR ->
  exists m, loc_loop fuel sz target ls (capR - UR sz mx) mn mx = Some m /\ (1 <= m <= length sz - 1)%nat /\ UL sz m <= capL /\ UR sz m <= capR.
Proof.
  induction fuel; intros ls mn mx F B1 B2 Ls A B; [lia|]. cbn [loc_loop].
  destruct (Nat.eqb_spec mn mx) as [E|NE].
  - exists mn; repeat split; try lia.
  - pose proof (UR_mono sz mn mx pos ltac:(lia)) as M.
    replace (capR - UR sz mx <=? 0) with false by lia. replace (0 <? ls) with false by lia. cbn [orb andb].
    pose proof (UR_P sz mx ltac:(lia)) as P.
    assert (Q : UR sz (mx - 1) <= UR sz mn).
    { destruct (Nat.eq_dec (mx - 1) mn) as [->|]; [lia|]. pose proof (UR_mono sz mn (mx - 1) pos ltac:(lia)). lia. }
    replace (capR - UR sz mx - (nth (mx - 1) sz 0 + (arr (length sz - mx + 1) - arr (length sz - mx)))) with (capR - UR sz (mx - 1)) by lia.
    replace (capR - UR sz (mx - 1) <? 0) with false by lia. apply IHfuel; lia.
Qed.

Lemma loc_left : forall fuel mn, (2 * (length sz - 1 - mn) + 2 < fuel)%nat -> (1 <= mn <= length sz - 1)%nat ->
  UL sz mn <= capL ->
  exists m, loc_loop fuel sz target (capL - UL sz mn) (capR - UR sz (length sz - 1)) mn (length sz - 1) = Some m
    /\ (1 <= m <= length sz - 1)%nat /\ UL sz m <= capL /\ UR sz m <= capR.
Proof.
  induction fuel; intros mn F B A; [lia|].
  destruct (Z.eq_dec (UL sz mn) capL) as [E|NE].
  - destruct (Nat.eq_dec mn (length sz - 1)) as [->|NM].
    + exists (length sz - 1)%nat. cbn [loc_loop]. rewrite Nat.eqb_refl. repeat split; lia.
    + pose proof (UL_S sz mn ltac:(lia)). pose proof (nth_pos mn ltac:(lia)). pose proof (arr_step mn).
      apply loc_right; try lia. apply room; lia.
  - cbn [loc_loop]. destruct (Nat.eqb_spec mn (length sz - 1)) as [->|NM].
    + exists (length sz - 1)%nat. repeat split; lia.
    + replace (capR - UR sz (length sz - 1) <=? 0) with false by lia.
      replace (0 <? capL - UL sz mn) with true by lia. replace (Nat.ltb mn target) with true by lia. cbn [orb andb].
      replace (capL - UL sz mn <=? 0) with false by lia.
      pose proof (UL_S sz mn ltac:(lia)) as U.
      replace (capL - UL sz mn - (nth mn sz 0 + (arr (S mn) - arr mn))) with (capL - UL sz (S mn)) by lia.
      destruct (capL - UL sz (S mn) <? 0) eqn:N.
      * apply loc_right; try lia. apply room; lia.
      * apply IHfuel; lia.
Qed.
End Loc.
Unset Default Proof Using.

(** A page that took items so far, and one more: the split succeeds and both
    halves fit. *)
Lemma split_ok : forall lvl old it, old <> [] -> Forall ilen_ok old -> ilen_ok it -> psize lvl old <= BLCKSZ ->
  0 <= max_klen old it <= MAXTUP ->
  exists n, split_loc lvl old it = Some n /\ (1 <= n <= length old)%nat
    /\ UL (map isz (old ++ [it])) n <= BLCKSZ - Z.max (hend lvl) (HDR + max_klen old it)
    /\ UR (map isz (old ++ [it])) n <= BLCKSZ - hend lvl.
Proof.
  intros lvl old it NE LO LI PS MK.
  set (sz := map isz (old ++ [it])). set (capL := BLCKSZ - Z.max (hend lvl) (HDR + max_klen old it)). set (capR := BLCKSZ - hend lvl).
  assert (Len : length sz = S (length old)) by (unfold sz; rewrite map_length, app_length; cbn; lia).
  assert (L1 : (1 <= length old)%nat) by (destruct old; cbn; [congruence|lia]).
  assert (Pos : Forall (fun z => 8 <= z <= 2704) sz).
  { unfold sz. rewrite Forall_forall; intros z Hz. rewrite in_map_iff in Hz. destruct Hz as [i [<- Hi]]. apply isz_bound.
    apply in_app_or in Hi. destruct Hi as [Hi|[<-|[]]]; auto. rewrite Forall_forall in LO; auto. }
  assert (Pos8 : Forall (fun z => 8 <= z) sz) by (eapply Forall_impl; [|exact Pos]; cbn; intros; lia).
  assert (NB : forall m, (m < length sz)%nat -> 8 <= nth m sz 0 <= 2704).
  { intros; rewrite Forall_forall in Pos; apply Pos, nth_In; lia. }
  assert (HB : 256 <= hend lvl <= 512) by (destruct lvl; cbn; lia).
  assert (CL : 5440 <= capL) by (unfold capL, BLCKSZ, HDR, MAXTUP in *; lia).
  assert (U1 : UL sz 1 = nth O sz 0 + 8).
  { pose proof (UL_S sz 0 ltac:(lia)) as E. rewrite E. unfold UL. cbn [firstn]. rewrite arr_1, arr_0. cbn. lia. }
  assert (RL : UR sz (length sz - 1) = nth (length sz - 1) sz 0 + 8).
  { unfold UR. rewrite skipn_nth by lia. replace (S (length sz - 1)) with (length sz) by lia. rewrite skipn_all.
    replace (length sz - (length sz - 1))%nat with 1%nat by lia. rewrite arr_1. cbn. lia. }
  assert (Tot : sumz sz = sumz (map isz old) + isz it).
  { unfold sz. rewrite map_app, sumz_app. cbn. lia. }
  assert (Last : nth (length sz - 1) sz 0 = isz it).
  { rewrite Len. unfold sz. replace (S (length old) - 1)%nat with (length (map isz old)) by (rewrite map_length; lia).
    rewrite map_app. rewrite app_nth2 by lia. rewrite Nat.sub_diag. reflexivity. }
  destruct (loc_left sz capL capR (length sz - 1)%nat Pos8 eq_refl) with (fuel := (2 * length sz + 4)%nat) (mn := 1%nat) as [n [E [B [A1 A2]]]].
  - intros m Bm Ov.
    pose proof (UL_S sz m ltac:(lia)) as US. pose proof (NB m ltac:(lia)). pose proof (arr_step m).
    pose proof (isz_bound it LI).
    unfold UR. assert (Sp : sumz (firstn m sz) + sumz (skipn m sz) = sumz sz) by (rewrite <- sumz_app, firstn_skipn; reflexivity).
    unfold UL in US, Ov. pose proof (arr_mono (length sz - m) (length old) ltac:(lia)).
    unfold psize in PS. unfold capR. 
    assert (sumz (firstn (S m) sz) + arr (S m) > 5440) by lia.
    assert (sumz (firstn m sz) + arr m > 5440 - 2704 - 8) by lia.
    assert (AM : arr (length sz - m) + arr m <= arr (length old) + 16).
    { unfold arr. pose proof (MA_bounds (2 * Z.of_nat (length sz - m))). pose proof (MA_bounds (2 * Z.of_nat m)). pose proof (MA_bounds (2 * Z.of_nat (length old))).
      pose proof (MA_mult (2 * Z.of_nat (length sz - m))) as [q1 Q1]. pose proof (MA_mult (2 * Z.of_nat m)) as [q2 Q2]. pose proof (MA_mult (2 * Z.of_nat (length old))) as [q3 Q3]. lia. }
    lia.
  - rewrite RL, Last. pose proof (isz_bound it LI). unfold capR, BLCKSZ; lia.
  - rewrite RL, Last. pose proof (isz_bound it LI). unfold capR, BLCKSZ; lia.
  - lia.
  - lia.
  - rewrite U1. pose proof (NB O ltac:(lia)). lia.
  - exists n. rewrite Len in B. repeat split; try lia; auto.
    unfold split_loc. fold sz. replace (Nat.ltb (length sz) 2) with false by lia.
    rewrite U1 in E. rewrite RL in E. change (MA 2) with 8.
    replace (Z.max (hend lvl) (HDR + 0)) with (hend lvl) by (unfold HDR; lia).
    fold capL capR.
    replace (capL - (nth 0 sz 0 + 8) <? 0) with false by (pose proof (NB O ltac:(lia)); lia).
    replace (capR - (nth (length sz - 1) sz 0 + 8) <? 0) with false by (pose proof (NB (length sz - 1)%nat ltac:(lia)); unfold capR, BLCKSZ; lia).
    cbn [orb]. replace (length old) with (length sz - 1)%nat by lia. exact E.
Qed.

(** * Sizes of all pages *)
Definition okpage (lvl : nat) (p : lev) : Prop :=
  Forall ilen_ok (l_items p) /\ psize lvl (l_items p) <= BLCKSZ /\ Forall (sized lvl) (l_items p)
  /\ (forall k, l_key p = Some k -> 0 <= snd k <= MAXTUP) /\ (lvl <> O -> l_items p <> []).
Fixpoint szinv (lvl : nat) (st : list lev) : Prop :=
  match st with [] => True | p :: up => okpage lvl p /\ szinv (S lvl) up end.

Lemma iklen_ok : forall i, ilen_ok i -> 0 <= iklen i <= MAXTUP /\ 0 <= new_klen i <= MAXTUP.
Proof.
  intros [t|[k|] h its]; cbn; unfold legal, MAXTUP; intros L; try lia.
  pose proof (MA_bounds (snd k)). pose proof (MA_least (snd k) 2688 ltac:(exists 336; lia) ltac:(lia)). lia.
Qed.
Lemma fold_max_ok : forall l, Forall ilen_ok l -> 0 <= fold_right Z.max 0 (map iklen l) <= MAXTUP.
Proof. induction 1; cbn [map fold_right]; [unfold MAXTUP; lia|]. pose proof (iklen_ok x H). lia. Qed.
Lemma fold_max_in : forall l i, In i l -> iklen i <= fold_right Z.max 0 (map iklen l).
Proof. induction l; cbn [map fold_right In]; intros i []; [subst; lia|]. pose proof (IHl i H). lia. Qed.
Lemma max_klen_ok : forall l it, Forall ilen_ok l -> ilen_ok it -> 0 <= max_klen l it <= MAXTUP.
Proof.
  intros l it A B. unfold max_klen. pose proof (fold_max_ok l A). pose proof (iklen_ok it B).
  pose proof (MA_bounds (fold_right Z.max 0 (map iklen l))).
  pose proof (MA_least (fold_right Z.max 0 (map iklen l)) MAXTUP ltac:(exists 336; reflexivity) ltac:(lia)). lia.
Qed.
Lemma key_of_len : forall i, ilen_ok i -> 0 <= snd (key_of i) <= MAXTUP.
Proof.
  intros [t|[k|] h its]; cbn; unfold legal, MAXTUP; intros L; try lia.
  pose proof (MA_bounds (snd k)). pose proof (MA_least (snd k) 2688 ltac:(exists 336; lia) ltac:(lia)). lia.
Qed.
Lemma key_of_iklen : forall i, MA (snd (key_of i)) = MA (iklen i).
Proof. intros [t|[k|] h its]; cbn [key_of snd iklen]; reflexivity. Qed.
Lemma key_of_new : forall i, MA (snd (key_of i)) = MA (new_klen i).
Proof. intros [t|[k|] h its]; cbn [key_of snd new_klen]; auto. apply MA_idem. Qed.

Lemma UL_mult : forall l m, (8 | UL (map isz l) m).
Proof.
  intros; unfold UL. apply Z.divide_add_r; [|apply arr_mult]. apply sumz_mult.
  rewrite Forall_forall; intros z Hz. assert (In z (map isz l)).
  { rewrite <- (firstn_skipn m (map isz l)). apply in_or_app; left; exact Hz. }
  rewrite in_map_iff in H. destruct H as [i [<- _]]. apply isz_mult.
Qed.

Lemma sumz_cons : forall x l, sumz (x :: l) = x + sumz l.
Proof. reflexivity. Qed.
Lemma cut_facts : forall lvl l, Forall ilen_ok l -> sumz (map isz (cut lvl l)) <= sumz (map isz l) /\ length (cut lvl l) = length l
  /\ Forall ilen_ok (cut lvl l).
Proof.
  intros [|lvl] [|[t|k h its] l] F; cbn [cut]; try (split; [lia|split; [reflexivity|exact F]]).
  split; [|split; [reflexivity|constructor; [exact Logic.I|exact (Forall_inv_tail F)]]].
  cbn [map]. rewrite !sumz_cons. pose proof (Forall_inv F) as A. destruct k as [k|]; cbn [isz ilen_ok] in *; [|lia].
  pose proof (MA_bounds (snd k)). lia.
Qed.
Lemma cut_sized : forall lvl l, Forall (sized lvl) l -> Forall (sized lvl) (cut lvl l).
Proof.
  intros [|lvl] [|[t|k h its] l] F; cbn [cut]; auto. constructor; [|exact (Forall_inv_tail F)].
  pose proof (Forall_inv F) as A. inversion A; subst. constructor; auto.
Qed.
Lemma cut_nil : forall lvl l, cut lvl l = [] <-> l = [].
Proof. intros [|lvl] [|[t|k h its] l]; cbn; split; congruence. Qed.

Lemma fits_facts : forall f lvl l it, fits f lvl l it = true -> psize lvl (l ++ [it]) <= BLCKSZ.
Proof.
  intros f lvl l it F. unfold fits in F. unfold psize in *. rewrite app_length, map_app, sumz_app. cbn [length map].
  rewrite sumz_cons. change (sumz []) with 0. replace (length l + 1)%nat with (S (length l)) by lia.
  destruct ((_ <? 0) || _); [|discriminate]. lia.
Qed.
Lemma fits_empty : forall f it, 40 <= f <= 100 -> ilen_ok it -> fits f O [] it = true.
Proof.
  intros f it F L. pose proof (isz_bound it L). unfold fits, psize. cbn [length map hend]. rewrite arr_0, arr_1. change (sumz []) with 0.
  unfold BLCKSZ. pose proof (Z.div_le_mono (8192 * (100 - f)) (8192 * 60) 100 ltac:(lia) ltac:(lia)). change (8192 * 60 / 100) with 4915 in *.
  replace ((_ <? 0) || _) with true by lia. lia.
Qed.

Lemma Forall_firstn : forall A (P : A -> Prop) l n, Forall P l -> Forall P (firstn n l).
Proof. intros A P l n H; revert n; induction H; intros [|n]; cbn; constructor; auto. Qed.
Lemma Forall_skipn : forall A (P : A -> Prop) l n, Forall P l -> Forall P (skipn n l).
Proof. intros A P l n H; revert n; induction H; intros [|n]; cbn; auto; constructor; auto. Qed.

(** What a split does, in terms a caller can use. *)
Lemma split_all : forall lvl old it, old <> [] -> Forall ilen_ok old -> ilen_ok it -> psize lvl old <= BLCKSZ ->
  exists n r0 r, split_loc lvl old it = Some n /\ (1 <= n <= length old)%nat /\ skipn n (old ++ [it]) = r0 :: r
   /\ reorg_size lvl (Some (key_of r0)) (firstn n (old ++ [it])) <= BLCKSZ
   /\ psize lvl (skipn n (old ++ [it])) <= BLCKSZ /\ ilen_ok r0.
Proof.
  intros lvl old it NE LO LI PS. pose proof (max_klen_ok old it LO LI) as MK.
  destruct (split_ok lvl old it NE LO LI PS MK) as [n [E [B [A1 A2]]]].
  assert (LA : Forall ilen_ok (old ++ [it])) by (apply Forall_app; split; auto).
  destruct (skipn n (old ++ [it])) as [|r0 r] eqn:R.
  { exfalso. pose proof (skipn_length n (old ++ [it])) as SL. rewrite R, app_length in SL. cbn in SL. lia. }
  exists n, r0, r. split; [exact E|]. split; [exact B|]. split; [exact R|].
  assert (L0 : ilen_ok r0). { pose proof (Forall_skipn _ _ _ n LA) as F. rewrite R in F. exact (Forall_inv F). }
  assert (Hin : In r0 (old ++ [it])) by (rewrite <- (firstn_skipn n (old ++ [it])), R; apply in_or_app; right; left; reflexivity).
  assert (UE : UL (map isz (old ++ [it])) n = sumz (map isz (firstn n (old ++ [it]))) + arr (length (firstn n (old ++ [it])))).
  { unfold UL. rewrite firstn_map. rewrite firstn_length, app_length. cbn [length]. rewrite Nat.min_l by lia. reflexivity. }
  split; [|split; auto].
  - unfold reorg_size. rewrite UE in A1. 
    assert (K : MA (snd (key_of r0)) + HDR + UL (map isz (old ++ [it])) n <= BLCKSZ).
    { apply in_app_or in Hin. destruct Hin as [Hi|[Hi|[]]].
      - rewrite key_of_iklen. pose proof (MA_mono _ _ (fold_max_in old r0 Hi)). unfold max_klen in A1. rewrite UE. lia.
      - subst r0. rewrite key_of_new. unfold max_klen in A1. pose proof (UL_mult (old ++ [it]) n) as D.
        enough (MA (new_klen it) <= BLCKSZ - HDR - UL (map isz (old ++ [it])) n) by lia.
        apply MA_least; [|lia]. apply Z.divide_sub_r; [exists 1016; reflexivity|exact D]. }
    lia.
  - rewrite R. unfold psize. unfold UR in A2. rewrite map_length, app_length in A2. cbn [length] in A2.
    assert (SL : length (r0 :: r) = (length old + 1 - n)%nat) by (rewrite <- R, skipn_length, app_length; cbn; lia).
    rewrite SL. rewrite skipn_map, R in A2. lia.
Qed.

Lemma put_sized : forall f, 40 <= f <= 100 -> forall st lvl it, ilen_ok it -> sized lvl it -> szinv lvl st ->
  exists st', put f lvl st it = Some st' /\ szinv lvl st' /\ st' <> [] /\ (forall p up, st' = p :: up -> l_items p <> []).
Proof.
  intros f F. induction st as [|p up IH]; intros lvl it LI SI V.
  - exists [mkLev [it] None]. split; [reflexivity|]. split; [|split; [discriminate|]].
    + cbn. split; auto. repeat split; cbn; auto; try discriminate.
      unfold psize. cbn [map length]. rewrite arr_1, sumz_cons. change (sumz []) with 0. pose proof (isz_bound it LI).
      assert (hend lvl <= 512) by (destruct lvl; cbn; lia). unfold BLCKSZ; lia.
    + intros p up E. inversion E; subst. discriminate.
  - destruct V as [[V1 [V2 [V3 [V4 V5]]]] VU]. cbn [put].
    destruct (fits f lvl (l_items p) it) eqn:Ft.
    + eexists; split; [reflexivity|]. split; [|split; [discriminate|]].
      * cbn [szinv]. split; auto. unfold okpage; cbn [l_items l_key]. repeat split; auto.
        -- apply Forall_app; auto.
        -- eapply fits_facts; eauto.
        -- apply Forall_app; auto.
        -- apply (V4 _ H).
        -- apply (V4 _ H).
        -- intros _ E. destruct (l_items p); discriminate.
      * intros p' up' E. injection E as <- <-. cbn. destruct (l_items p); discriminate.
    + assert (NE : l_items p <> []).
      { destruct lvl; [|auto]. intros E. rewrite E in Ft. rewrite (fits_empty f it F LI) in Ft. discriminate. }
      destruct (split_all lvl (l_items p) it NE V1 LI V2) as [n [r0 [r [E [B [R [RS [PS L0]]]]]]]].
      rewrite E, R. replace (BLCKSZ <? _) with false by lia.
      assert (SA : Forall (sized lvl) (l_items p ++ [it])) by (apply Forall_app; auto).
      assert (LA : Forall ilen_ok (l_items p ++ [it])) by (apply Forall_app; auto).
      destruct (IH (S lvl) (IDown (l_key p) (Some (key_of r0)) (firstn n (l_items p ++ [it])))) as [up' [EU [VU' [NU _]]]].
      * cbn. destruct (l_key p) as [k|] eqn:K; auto.
      * constructor; auto. apply Forall_firstn; auto.
      * exact VU.
      * rewrite EU. eexists; split; [reflexivity|].
        assert (LR : Forall ilen_ok (r0 :: r)) by (rewrite <- R; apply Forall_skipn; auto).
        destruct (cut_facts lvl (r0 :: r) LR) as [C1 [C2 C3]].
        assert (NC : cut lvl (r0 :: r) <> []) by (intros C; rewrite cut_nil in C; discriminate).
        split; [|split; [discriminate|]].
        -- cbn [szinv]. split; auto. unfold okpage; cbn [l_items l_key]. repeat split; auto.
           ++ rewrite R in PS. unfold psize in *. rewrite C2. lia.
           ++ apply cut_sized. rewrite <- R; apply Forall_skipn; auto.
           ++ injection H as <-. apply (key_of_len r0 L0).
           ++ injection H as <-. apply (key_of_len r0 L0).
        -- intros p' up'' EE. injection EE as <- <-. cbn. exact NC.
Qed.

Lemma put_length : forall f st lvl it st', put f lvl st it = Some st' -> (length st <= length st' <= S (length st))%nat.
Proof.
  intros f. induction st as [|p up IH]; intros lvl it st' E; cbn [put] in E.
  - injection E as <-. cbn; lia.
  - destruct (fits _ _ _ _); [injection E as <-; cbn; lia|].
    destruct (split_loc _ _ _) as [n|]; [|discriminate].
    destruct (skipn n _) as [|r0 r]; [discriminate|]. destruct (BLCKSZ <? _); [discriminate|].
    destruct (put f (S lvl) up _) as [up'|] eqn:EU; [|discriminate]. injection E as <-. apply IH in EU. cbn; lia.
Qed.

Lemma put_all_sized : forall f, 40 <= f <= 100 -> forall ts st, szinv O st -> Forall legal ts -> st <> [] ->
  exists st', put_all f st ts = Some st' /\ szinv O st' /\ st' <> [].
Proof.
  intros f F. induction ts; intros st V L N; cbn [put_all]; [eauto|].
  destruct (put_sized f F st O (ILeaf a)) as [st' [E [V' [N' _]]]]; auto.
  - exact (Forall_inv L).
  - constructor.
  - rewrite E. apply IHts; auto. exact (Forall_inv_tail L).
Qed.

Lemma reorg_none : forall lvl l, reorg_size lvl None l = psize lvl l.
Proof. intros; unfold reorg_size, psize. change (MA 0) with 0. unfold HDR. assert (256 <= hend lvl) by (destruct lvl; cbn; lia). lia. Qed.

Lemma closing_sized : forall f, 40 <= f <= 100 -> forall n st lvl, (n < length st)%nat -> szinv lvl st ->
  exists st', closing f n lvl st = Some st' /\ szinv (lvl + n) st' /\ st' <> [].
Proof.
  intros f F. induction n; intros [|p up] lvl L V; cbn [length] in L; try lia.
  - cbn. eexists; split; [reflexivity|]. rewrite Nat.add_0_r. split; [exact V|discriminate].
  - cbn [closing]. destruct V as [[V1 [V2 [V3 [V4 V5]]]] VU].
    destruct (put_sized f F up (S lvl) (IDown (l_key p) None (l_items p))) as [up' [E [V' [N' _]]]]; auto.
    + cbn. destruct (l_key p); auto.
    + constructor; auto. rewrite reorg_none; auto.
    + rewrite E. replace (lvl + S n)%nat with (S lvl + n)%nat by lia. apply IHn; auto.
      apply put_length in E. lia.
Qed.

Lemma szinv_last : forall st lvl d, st <> [] -> szinv lvl st -> okpage (lvl + (length st - 1)) (last st d).
Proof.
  induction st as [|p [|q up] IH]; intros lvl d N V; [congruence| |].
  - cbn. rewrite Nat.add_0_r. apply V.
  - destruct V as [_ V]. change (last (p :: q :: up) d) with (last (q :: up) d).
    replace (lvl + (length (p :: q :: up) - 1))%nat with (S lvl + (length (q :: up) - 1))%nat by (cbn; lia).
    apply IH; auto. discriminate.
Qed.

Lemma szinv_start : szinv O [mkLev [] None].
Proof. cbn. split; [|exact Logic.I]. repeat split; cbn; auto; try discriminate; try congruence. Qed.

(** * Contents *)
Fixpoint flats (st : list lev) : list tup := match st with [] => [] | p :: up => flats up ++ contents (l_items p) end.
Lemma contents_app : forall a b, contents (a ++ b) = contents a ++ contents b.
Proof. intros; apply flat_map_app. Qed.
Lemma cut_contents : forall lvl l, contents (cut lvl l) = contents l.
Proof. intros [|lvl] [|[t|k h its] l]; reflexivity. Qed.

Lemma put_flats : forall f st lvl it st', put f lvl st it = Some st' -> flats st' = flats st ++ flat it.
Proof.
  intros f. induction st as [|p up IH]; intros lvl it st' E; cbn [put] in E.
  - injection E as <-. cbn. rewrite app_nil_r. reflexivity.
  - destruct (fits _ _ _ _).
    { injection E as <-. cbn [flats l_items]. rewrite contents_app. unfold contents at 2. cbn [flat_map]. rewrite app_nil_r, app_assoc. reflexivity. }
    destruct (split_loc _ _ _) as [n|]; [|discriminate].
    destruct (skipn n _) as [|r0 r] eqn:R; [discriminate|]. destruct (BLCKSZ <? _); [discriminate|].
    destruct (put f (S lvl) up _) as [up'|] eqn:EU; [|discriminate]. injection E as <-. apply IH in EU.
    cbn [flats l_items]. rewrite cut_contents, EU. cbn [flat]. rewrite <- !app_assoc. f_equal.
    change (contents (firstn n (l_items p ++ [it])) ++ contents (r0 :: r) = contents (l_items p) ++ flat it).
    rewrite <- R, <- contents_app, firstn_skipn, contents_app. unfold contents at 2. cbn. rewrite app_nil_r. reflexivity.
Qed.
Lemma put_all_flats : forall f ts st st', put_all f st ts = Some st' -> flats st' = flats st ++ ts.
Proof.
  induction ts; intros st st' E; cbn [put_all] in E.
  - injection E as <-. rewrite app_nil_r; reflexivity.
  - destruct (put f O st _) as [s1|] eqn:E1; [|discriminate]. apply put_flats in E1. rewrite (IHts _ _ E), E1, <- app_assoc. reflexivity.
Qed.
Lemma closing_flats : forall f n lvl st st', closing f n lvl st = Some st' -> flats st' = flats st.
Proof.
  induction n; intros lvl [|p up] st' E; cbn [closing] in E; try (injection E as <-; reflexivity); try discriminate.
  destruct (put f _ up _) as [up'|] eqn:EU; [|discriminate]. rewrite (IHn _ _ _ E). apply put_flats in EU. rewrite EU. reflexivity.
Qed.
Lemma flats_last : forall st d, st <> [] -> exists rest, flats st = contents (l_items (last st d)) ++ rest.
Proof.
  induction st as [|p [|q up] IH]; intros d N; [congruence| |].
  - exists []. cbn. rewrite app_nil_r. reflexivity.
  - destruct (IH d ltac:(discriminate)) as [r R]. change (last (p :: q :: up) d) with (last (q :: up) d).
    exists (r ++ contents (l_items p)). change (flats (p :: q :: up)) with (flats (q :: up) ++ contents (l_items p)). rewrite R, app_assoc. reflexivity.
Qed.

(** * Separators *)
Definition lo (p : lev) : option Z := option_map fst (l_key p).
Fixpoint sinv (l : nat) (st : list lev) (hi : option Z) : Prop :=
  match st with
  | [] => hi = None
  | p :: up => routed l true (lo p) hi (l_items p) /\ sinv (S l) up (lo p) /\ (l_key p = None -> up = [])
  end.
Definition pre (l : nat) (st : list lev) (it : item) (hi : option Z) : Prop :=
  match st with
  | [] => routed l true None hi [it]
  | p :: up => routed l true (lo p) hi (l_items p ++ [it]) /\ sinv (S l) up (lo p) /\ (l_key p = None -> up = [])
  end.

Lemma ascending_app : forall a b, ascending (a ++ b) -> ascending a /\ ascending b /\ (forall x y, In x a -> In y b -> t_key x < t_key y).
Proof.
  unfold ascending. induction a; intros b H; cbn in *.
  - repeat split; auto. constructor. intros x y [].
  - inversion H; subst. destruct (IHa b H2) as [A [B C]]. rewrite Forall_forall in H3. repeat split; auto.
    + constructor; auto. rewrite Forall_forall; intros x Hx. apply H3. rewrite map_app. apply in_or_app; auto.
    + intros x y [<-|Hx] Hy; auto. apply H3. rewrite map_app. apply in_or_app; right. apply in_map; auto.
Qed.

Lemma routed_split_S : forall l a b lw hi r0 r, routed (S l) b lw hi (a ++ r0 :: r) -> a <> [] ->
  routed (S l) b lw (Some (fst (key_of r0))) a /\ routed (S l) true (Some (fst (key_of r0))) hi (cut (S l) (r0 :: r)).
Proof.
  induction a as [|x [|y a] IH]; intros b lw hi r0 r R N; [congruence| |].
  - cbn [app] in R. inversion R; subst. clear R.
    match goal with H : routed (S l) false _ _ _ |- _ => inversion H; subst end.
    + destruct H4 as [K1 K2]. destruct k0 as [k0|]; [|congruence]. cbn in K1. injection K1 as K1. cbn [key_of fst]. rewrite K1.
      split; [apply routed_last; auto|]. cbn [cut]. apply routed_last; auto.
    + destruct H4 as [K1 K2]. destruct k0 as [k0|]; [|congruence]. cbn in K1. injection K1 as K1. cbn [key_of fst]. rewrite K1.
      split; [apply routed_last; auto|]. cbn [cut]. eapply routed_more; eauto.
  - change ((x :: y :: a) ++ r0 :: r) with (x :: (y :: a) ++ r0 :: r) in R. inversion R; subst.
    match goal with H : routed (S l) false _ _ _ |- _ => destruct (IH _ _ _ _ _ H ltac:(discriminate)) as [A B] end.
    split; auto. eapply routed_more; eauto.
Qed.

Lemma routed_split : forall l a lw hi r0 r, routed l true lw hi (a ++ r0 :: r) -> a <> [] ->
  routed l true lw (Some (fst (key_of r0))) a /\ routed l true (Some (fst (key_of r0))) hi (cut l (r0 :: r)).
Proof.
  intros [|l] a lw hi r0 r R N; [|apply routed_split_S; auto].
  inversion R; subst. match goal with H : map ILeaf _ = _ |- _ => apply map_eq_app in H; destruct H as [t1 [t2 [E [E1 E2]]]] end.
  destruct t2 as [|t t2]; [discriminate|]. injection E2 as <- <-. subst a ts.
  match goal with H : ascending _ |- _ => destruct (ascending_app _ _ H) as [A1 [A2 A3]] end.
  match goal with H : Forall _ (_ ++ _) |- _ => apply Forall_app in H; destruct H as [F1 F2] end.
  cbn [key_of fst cut]. split.
  - constructor; auto. rewrite Forall_forall in *. intros x Hx. destruct (F1 x Hx) as [I1 I2]. split; auto.
    intros h Eh. injection Eh as <-. apply A3; auto. left; reflexivity.
  - change (ILeaf t :: map ILeaf t2) with (map ILeaf (t :: t2)). constructor; auto.
    rewrite Forall_forall in *. intros x Hx. destruct (F2 x Hx) as [I1 I2]. split; auto.
    intros h Eh. injection Eh as <-. destruct Hx as [<-|Hx]; [lia|].
    unfold ascending in A2. cbn [map] in A2. apply StronglySorted_inv in A2. destruct A2 as [_ A2]. rewrite Forall_forall in A2. specialize (A2 (t_key x) (in_map _ _ _ Hx)). lia.
Qed.

Lemma routed_snoc : forall l its b lw x hi' k hk sub, routed (S l) b lw (Some x) its ->
  option_map fst k = Some x -> option_map fst hk = hi' -> routed l true (Some x) hi' sub ->
  routed (S l) b lw hi' (its ++ [IDown k hk sub]).
Proof.
  induction its as [|i its IH]; intros b lw x hi' k hk sub R K HK SUB; inversion R; subst.
  - cbn. eapply routed_more; eauto. apply routed_last; auto. split; auto. destruct k; [congruence|discriminate].
  - cbn. eapply routed_more; eauto.
Qed.

Lemma loc_ge : forall fuel sz tg ls rs mn mx m, loc_loop fuel sz tg ls rs mn mx = Some m -> (mn <= m)%nat.
Proof.
  induction fuel; intros sz tg ls rs mn mx m E; [discriminate|]. cbn [loc_loop] in E.
  destruct (Nat.eqb mn mx); [injection E as <-; lia|].
  destruct ((rs <=? 0) || _).
  - destruct (ls <=? 0); [discriminate|]. destruct (_ <? 0); apply IHfuel in E; lia.
  - destruct (rs <=? 0); [discriminate|]. destruct (_ <? 0); apply IHfuel in E; lia.
Qed.
Lemma split_ge : forall lvl old it n, split_loc lvl old it = Some n -> (1 <= n)%nat.
Proof.
  intros lvl old it n E; unfold split_loc in E. destruct (Nat.ltb _ 2); [discriminate|]. destruct ((_ <? 0) || _); [discriminate|].
  eapply loc_ge; eauto.
Qed.

(** A page of level [l] and its downlink, handed to the levels above. *)
Lemma pre_down : forall l up k hk items hi', sinv (S l) up (option_map fst k) -> (k = None -> up = []) ->
  routed l true (option_map fst k) hi' items -> option_map fst hk = hi' -> pre (S l) up (IDown k hk items) hi'.
Proof.
  intros l [|q up] k hk items hi' V N R HK; cbn [sinv pre] in *.
  - destruct k as [k|]; [discriminate|]. apply routed_last; auto.
  - destruct V as [V1 [V2 V3]]. split; auto. destruct k as [k|]; [|specialize (N eq_refl); discriminate].
    eapply routed_snoc; eauto.
Qed.

Lemma put_routed : forall f st l it hi st', pre l st it hi -> put f l st it = Some st' -> sinv l st' hi.
Proof.
  intros f. induction st as [|p up IH]; intros l it hi st' P E; cbn [put] in E.
  - injection E as <-. cbn. repeat split; auto.
  - destruct P as [P1 [P2 P3]].
    destruct (fits _ _ _ _).
    { injection E as <-. cbn. auto. }
    destruct (split_loc _ _ _) as [n|] eqn:SL; [|discriminate].
    destruct (skipn n _) as [|r0 r] eqn:R; [discriminate|]. destruct (BLCKSZ <? _); [discriminate|].
    destruct (put f (S l) up _) as [up'|] eqn:EU; [|discriminate]. injection E as <-.
    rewrite <- (firstn_skipn n (l_items p ++ [it])), R in P1.
    apply routed_split in P1.
    2:{ pose proof (split_ge _ _ _ _ SL). destruct n; [lia|]. destruct (l_items p); discriminate. }
    destruct P1 as [PL PR].
    apply IH with (hi := Some (fst (key_of r0))) in EU.
    + cbn [sinv l_items l_key lo]. unfold lo; cbn [l_key option_map]. repeat split; auto. discriminate.
    + apply pre_down; auto.
Qed.

Lemma put_nonempty : forall f st l it st', put f l st it = Some st' -> exists p up, st' = p :: up /\ l_items p <> [].
Proof.
  intros f [|p up] l it st' E; cbn [put] in E.
  - injection E as <-. eexists _, _; split; [reflexivity|discriminate].
  - destruct (fits _ _ _ _).
    { injection E as <-. eexists _, _; split; [reflexivity|]. cbn. destruct (l_items p); discriminate. }
    destruct (split_loc _ _ _) as [n|] eqn:SL; [|discriminate].
    destruct (skipn n _) as [|r0 r] eqn:R; [discriminate|]. destruct (BLCKSZ <? _); [discriminate|].
    destruct (put f (S l) up _) as [up'|] eqn:EU; [|discriminate]. injection E as <-.
    eexists _, _; split; [reflexivity|]. cbn [l_items]. intros C. rewrite cut_nil in C. discriminate.
Qed.

Lemma put_all_routed : forall f ts done st st', ascending (done ++ ts) -> flats st = done -> sinv O st None ->
  (forall p up, st = p :: up -> l_key p <> None -> l_items p <> []) -> st <> [] ->
  put_all f st ts = Some st' -> sinv O st' None.
Proof.
  intros f. induction ts as [|t ts IH]; intros done st st' A FE V NE N E; cbn [put_all] in E.
  - injection E as <-. exact V.
  - destruct (put f O st (ILeaf t)) as [s1|] eqn:E1; [|discriminate].
    pose proof (put_flats _ _ _ _ _ E1) as FL. pose proof (put_nonempty _ _ _ _ _ E1) as [p1 [up1 [-> NE1]]].
    apply IH with (done := done ++ [t]) (st := p1 :: up1) (st' := st'); auto.
    + rewrite <- app_assoc. exact A.
    + rewrite FL, FE. reflexivity.
    + apply put_routed with (f := f) (st := st) (it := ILeaf t); auto.
      destruct st as [|p up]; [congruence|]. cbn [pre]. destruct V as [V1 [V2 V3]]. split; auto.
      inversion V1; subst. match goal with H : map ILeaf _ = l_items p |- _ => rename H into EI end.
      change (map ILeaf ts0 ++ [ILeaf t]) with (map ILeaf ts0 ++ map ILeaf [t]). rewrite <- map_app.
      assert (CI : contents (l_items p) = ts0).
      { rewrite <- EI. clear. induction ts0; cbn; [reflexivity|]. f_equal. exact IHts0. }
      assert (AX : ascending (ts0 ++ [t])).
      { cbn [flats] in A. rewrite CI in A. change (t :: ts) with ([t] ++ ts) in A. rewrite app_assoc in A. 
        apply ascending_app in A. destruct A as [A _]. rewrite <- app_assoc in A. apply ascending_app in A. apply A. }
      constructor; auto. apply Forall_app. split; auto. constructor; [|constructor].
      split; [|discriminate]. intros x Ex. destruct ts0 as [|t0 ts0].
      * exfalso. apply (NE p up eq_refl); [|rewrite <- EI; reflexivity]. unfold lo in Ex. destruct (l_key p); [congruence|discriminate].
      * destruct (ascending_app _ _ AX) as [_ [_ C]]. specialize (C t0 t (or_introl eq_refl) (or_introl eq_refl)).
        match goal with H : Forall _ (t0 :: ts0) |- _ => destruct (Forall_inv H) as [I1 _] end. specialize (I1 x Ex). lia.
    + intros p up Ep _. injection Ep as <- <-. exact NE1.
    + discriminate.
Qed.

Lemma closing_routed : forall f n l st st', sinv l st None -> closing f n l st = Some st' -> sinv (l + n) st' None.
Proof.
  induction n; intros l [|p up] st' V E; cbn [closing] in E; try (injection E as <-; rewrite Nat.add_0_r; exact V); try discriminate.
  destruct (put f _ up _) as [up'|] eqn:EU; [|discriminate]. destruct V as [V1 [V2 V3]].
  replace (l + S n)%nat with (S l + n)%nat by lia. eapply IHn; [|exact E].
  eapply put_routed; [|exact EU]. apply pre_down; auto.
Qed.
