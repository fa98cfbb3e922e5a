(** Proofs for C18: inserting, replacing and removing items. *)
From Coq Require Import ZArith List Bool Lia ZifyBool.
From Verif Require Import Base PgChunkModel PgChunkSpec PgChunkProofs PgChunkOpProofs.
Import ListNotations.
Open Scope Z_scope.

Lemma split_at : forall {A} (l : list A) j, 0 <= j < zl l -> exists X x Y, l = X ++ x :: Y /\ zl X = j.
Proof.
  intros A l j H. destruct l as [|d l]; [cbn in H; lia|].
  destruct (nth_split (d :: l) d (n := Z.to_nat j)) as (X & Y & E & L); [lia|].
  exists X, (nth (Z.to_nat j) (d :: l) d), Y. split; auto. lia.
Qed.

Lemma chunk_words : forall m b its, Forall ok_item its -> chunk_at m b its -> array (count its) + total its < 16384 ->
  forall j, 0 <= j < count its -> 0 <= m (b + 2 * j) < 65536.
Proof.
  intros m b its F H B j J. destruct (split_at its j J) as (X & x & Y & E & L).
  destruct (H _ _ _ E) as [W _]. unfold count in W. rewrite L in W. rewrite W.
  rewrite E in F. apply Forall_app in F. destruct F as [F1 F2]. inversion F2; subst.
  pose proof (total_ok _ F1). pose proof (total_ok _ H3). destruct H2 as (FL & _ & _).
  pose proof (array_facts (count (X ++ x :: Y)) ltac:(unfold count; lia)).
  assert (0 <= count X /\ 0 <= count Y) by (unfold count; lia). pose proof (bytes_nn x).
  fold (count (X ++ x :: Y)). rewrite total_app, total_cons in B. destruct FL as [-> | ->]; lia.
Qed.

Lemma Rep_insert : forall p G st A g C X Y f ws,
  Rep p G st -> G = A ++ g :: C -> fst g = X ++ Y -> ok_item (f, ws) ->
  let g' := (X ++ (f, ws) :: Y, snd g) in
  st + data_bytes (A ++ g' :: C) <= blcksz ->
  let p' := fill_item (insert_item p (zl A) (count X) (2 * zl ws)) (zl A) (count X) f ws in
  Rep p' (A ++ g' :: C) st /\ kept p p'.
Proof.
  intros p G st A g C X Y f ws R E EI OI g' M p0; subst p0.
  pose proof (at_ok _ _ _ _ _ _ R E) as (F1 & F2 & F3).
  pose proof (at_bounds _ _ _ _ _ _ R E) as B.
  assert (FI : Forall ok_item X /\ Forall ok_item Y) by (destruct F2 as [F2 _]; rewrite EI in F2; apply Forall_app in F2; auto).
  destruct FI as [FX FY].
  assert (OG : ok_group g').
  { destruct F2 as [_ F2]. split; [|exact F2]. unfold g'. cbn [fst]. apply Forall_app. auto. }
  assert (CG : count (fst g) = count X + count Y /\ total (fst g) = total X + total Y) by (rewrite EI; ls; auto).
  assert (CG' : count (fst g') = count X + 1 + count Y /\ total (fst g') = total X + 2 * zl ws + total Y)
    by (unfold g'; cbn [fst]; ls; unfold bytes; cbn [snd]; lia).
  assert (P0 : 0 <= count X /\ 0 <= count Y) by (unfold count; lia).
  pose proof (total_ok _ FX) as TX. pose proof (total_ok _ FY) as TY.
  pose proof (r_m _ _ _ R _ _ _ E) as CA.
  set (b := st + data_bytes A) in *. set (n := count (fst g)) in *. set (n' := count (fst g')) in *.
  pose proof (array_facts n ltac:(lia)) as AN. pose proof (array_facts n' ltac:(lia)) as AN'.
  assert (ANN : array n <= array n') by (unfold array; dlia).
  assert (GB' : group_bytes g' = array n' + total (fst g')) by reflexivity.
  assert (M8 : b + group_bytes g' + data_bytes C <= 8192) by (unfold blcksz in M; rewrite data_app, data_cons in M; lia).
  assert (DG : group_bytes g' - group_bytes g = array n' - array n + 2 * zl ws) by lia.
  assert (L1 : n = count X + count Y /\ n' = n + 1 /\ 0 <= count X /\ 0 <= count Y /\ 2 * n <= array n /\ 2 * n' <= array n' /\
    array n <= array n' /\ 0 <= total X /\ 0 <= total Y /\ 0 <= b /\ b + array n + total X + total Y <= pg_size p /\
    pg_size p <= 8192 /\ b + array n' + total X + 2 * zl ws + total Y <= 8192 /\ group_bytes g = array n + total X + total Y)
    by (unfold b; lia).
  assert (L2 : 0 <= zl ws) by lia.
  assert (PSZ : pg_size p = b + group_bytes g + data_bytes C /\ b + group_bytes g' + data_bytes C <= 8192 /\ group_bytes g' = group_bytes g + (array n' - array n + 2 * zl ws)) by (unfold b in *; lia).
  clear B CG' P0 TX TY AN AN' ANN M8 GB'.
  assert (IP : (if count X <? n then b + off_of (pg_m p (b + 2 * count X)) else b + chunk_sz p (zl A)) = b + array n + total X).
  { destruct (count X <? n) eqn:Q.
    - destruct Y as [|y Y']; [cbn in CG; lia|].
      destruct (it_word _ _ _ _ _ _ R E _ _ _ EI) as (_ & W & _). rewrite (at_loc _ _ _ _ _ _ R E) in W. fold b in W. rewrite W. fold n. lia.
    - rewrite (at_sz _ _ _ _ _ _ R E). assert (count Y = 0) by lia. assert (Y = []) by (destruct Y; [auto|cbn in *; lia]).
      subst Y. cbn in CG. cbn in L1. lia. }
  assert (WR : forall j, 0 <= j < n -> 0 <= pg_m p (b + 2 * j) < 65536).
  { apply chunk_words; [apply F2|exact CA|]. fold n. lia. }
  clear CG.
  pose proof (ins_mem_ok (pg_m p) b (count X) n (array n) (array n') (b + array n + total X) (pg_size p) (2 * zl ws)
    ltac:(lia) ltac:(lia) ltac:(lia) ltac:(lia) ltac:(lia) ltac:(lia) ltac:(lia) WR) as IM. cbv zeta in IM.
  set (q := insert_item p (zl A) (count X) (2 * zl ws)).
  assert (QM : pg_m q = ins_mem (pg_m p) b (count X) n (array n) (array n') (b + array n + total X) (pg_size p) (2 * zl ws)).
  { unfold q, insert_item. cbv zeta. cbn [pg_m]. rewrite (at_loc _ _ _ _ _ _ R E), (at_n _ _ _ _ _ _ R E). fold b. fold n.
    rewrite IP. change arr_sz with array. replace (n + 1) with n' by lia. reflexivity. }
  rewrite <- QM in IM. destruct IM as (I1 & I2 & I3 & I4 & I5 & I6).
  assert (QL : loc_at q (zl A) = b).
  { unfold loc_at, q, insert_item. cbv zeta. cbn [pg_d]. rewrite Z.ltb_irrefl. cbn [andb]. apply (at_loc _ _ _ _ _ _ R E). }
  pose proof (fill_mem_ok (pg_m q) b (count X) (array n' + total X) (array n' + total X) f ws
     ltac:(lia) ltac:(lia) (proj1 OI)) as FM. rewrite I6 in FM.
  replace (b + array n + total X - b + (array n' - array n)) with (array n' + total X) in FM by lia.
  assert (V1 : 0 <= array n' + total X < 16384) by lia.
  specialize (FM (Z.mod_small _ _ V1) ltac:(lia)). cbv zeta in FM.
  set (p' := fill_item q (zl A) (count X) f ws).
  assert (PM : pg_m p' = fill_mem (pg_m q) b (count X) (array n' + total X) f ws).
  { unfold p', fill_item. cbv zeta. cbn [pg_m]. rewrite QL, I6.
    replace (b + array n + total X - b + (array n' - array n)) with (array n' + total X) by lia.
    replace (off_of (array n' + total X)) with (array n' + total X) by (symmetry; apply Z.mod_small; exact V1). reflexivity. }
  rewrite <- PM in FM. destruct FM as (K1 & K2 & K3).
  assert (KP : kept p p').
  { intros x Hx. pose proof (below _ _ _ _ _ _ R E) as BL. fold b in BL. change (pg_cc p') with (pg_cc p) in Hx. unfold blcksz in Hx.
    assert (PS : pg_size p + (array n' - array n + 2 * zl ws) <= 8192) by (clear - PSZ L1; lia).
    rewrite K1; [|clear - Hx BL L1; lia|clear - Hx BL L1; lia]. rewrite QM. apply ins_mem_out; try (clear - L1 L2; lia). clear - Hx BL PS. lia. }
  split; [|exact KP]. apply (Rep_change p p' G st A g g' C R E OG eq_refl M); try reflexivity.
  - unfold p', fill_item, q, insert_item. cbn [pg_n]. fold n n'. lia.
  - rewrite DG. unfold p', fill_item, q, insert_item. cbv zeta. cbn [pg_size].
    rewrite (at_n _ _ _ _ _ _ R E). change arr_sz with array. fold n. replace (n + 1) with n' by lia. lia.
  - intros j J. unfold p', fill_item, q, insert_item. cbv zeta. cbn [pg_d].
    replace (zl A <? j) with false by lia. reflexivity.
  - intros j J. unfold p', fill_item, q, insert_item. cbv zeta. cbn [pg_d].
    replace ((zl A <? j) && (j <? pg_cc p)) with true by lia. fold n n'.
    rewrite DG, (at_n _ _ _ _ _ _ R E). change arr_sz with array. fold n. replace (n + 1) with n' by lia.
    replace (n' - n) with 1 by lia. reflexivity.
  - intros x H. fold b in H. rewrite K1 by lia. apply I1. auto.
  - intros x H. fold b in H. rewrite DG. rewrite K1 by lia. apply I2. lia.
  - fold b. unfold g'. cbn [fst]. change (X ++ (f, ws) :: Y) with (X ++ [(f, ws)] ++ Y).
    assert (O1 : Forall ok_item [(f, ws)]) by (constructor; [exact OI|constructor]).
    assert (T1 : total [(f, ws)] = 2 * zl ws) by (cbn; lia).
    assert (C0 : count [] = 0) by reflexivity. assert (C1 : count [(f, ws)] = 1) by reflexivity.
    assert (T0 : total [] = 0) by reflexivity.
    apply (chunk_edit (pg_m p) (pg_m p') b X [] [(f, ws)] Y FX ltac:(constructor) O1 FY); cbv zeta;
      rewrite ?C0, ?C1, ?T0, ?T1, ?Z.add_0_r; replace (count X + count Y) with n by lia; replace (count X + 1 + count Y) with n' by lia.
    + cbn [app]. rewrite <- EI. exact CA.
    + lia.
    + lia.
    + intros j J. rewrite K1 by lia. apply I4. lia.
    + intros x H. rewrite K1 by lia. apply I3. lia.
    + intros j J. rewrite K1 by lia. replace (count X + 1 + j) with (count X + j + 1) by lia. rewrite I5 by lia. f_equal. f_equal. lia.
    + intros x H. replace (array n' - array n + 2 * zl ws - 0) with (array n' - array n + 2 * zl ws) by lia. rewrite K1 by lia. apply I2. lia.
    + intros N1 x N2 EN. destruct N1 as [|? N1]; [|destruct N1; discriminate]. injection EN as <- _. cbn [fst snd].
      rewrite C0, T0, !Z.add_0_r. rewrite K2. split; [lia|]. rewrite <- Z.add_assoc. exact K3.
Qed.
