(** Proofs for C18: two chunks become one, the representation. *)
From Coq Require Import ZArith List Bool Lia ZifyBool.
From Verif Require Import Base PgChunkModel PgChunkSpec PgChunkProofs PgChunkOpProofs PgChunkEditProofs PgChunkReplaceProofs PgChunkJoinProofs.
Import ListNotations.
Open Scope Z_scope.

Lemma chunk_join : forall m m' b b2 I1 I2, Forall ok_item I1 -> Forall ok_item I2 ->
  chunk_at m b I1 -> chunk_at m b2 I2 ->
  let n1 := count I1 in let n2 := count I2 in let o1 := array n1 in let o2 := array n2 in let o := array (n1 + n2) in
  o1 + total I1 < 16384 -> o2 + total I2 < 16384 -> o + total I1 + total I2 < 16384 ->
  (forall j, 0 <= j < n1 -> m' (b + 2 * j) = w16 (m (b + 2 * j) + (o - o1))) ->
  (forall x, b + o1 <= x < b + o1 + total I1 -> m' (x + (o - o1)) = m x) ->
  (forall j, 0 <= j < n2 -> m' (b + 2 * (n1 + j)) = w16 (m (b2 + 2 * j) - o2 + o + total I1)) ->
  (forall x, b2 + o2 <= x < b2 + o2 + total I2 -> m' (x - b2 - o2 + b + o + total I1) = m x) ->
  chunk_at m' b (I1 ++ I2).
Proof.
  intros m m' b b2 I1 I2 F1 F2 C1 C2 n1 n2 o1 o2 o B1 B2 B H1 D1 H2 D2 P z Q E.
  assert (CN : count (I1 ++ I2) = n1 + n2) by (ls; reflexivity). rewrite CN. fold o.
  assert (P0 : 0 <= n1 /\ 0 <= n2) by (unfold n1, n2, count; lia).
  pose proof (total_ok _ F1). pose proof (total_ok _ F2).
  pose proof (array_facts n1 ltac:(lia)) as A1. pose proof (array_facts n2 ltac:(lia)) as A2.
  pose proof (array_facts (n1 + n2) ltac:(lia)) as A3. fold o1 in A1. fold o2 in A2. fold o in A3.
  destruct (app_cut _ _ _ _ _ E) as [(R & EX & EQ)|(P' & EP & E')].
  - destruct (C1 _ _ _ EX) as [W1 W2]. fold n1 in W1, W2. fold o1 in W1, W2.
    assert (FP : Forall ok_item P /\ ok_item z /\ Forall ok_item R).
    { rewrite EX in F1. apply Forall_app in F1. destruct F1 as [FX1 FX2]. inversion FX2; auto. }
    destruct FP as (FP & OZ & FR). pose proof (total_ok _ FP). pose proof (total_ok _ FR).
    assert (n1 = count P + 1 + count R /\ total I1 = total P + bytes z + total R) by (unfold n1; rewrite EX; ls; lia).
    assert (0 <= count P /\ 0 <= count R) by (unfold count; lia). pose proof (bytes_nn z).
    split.
    + rewrite H1 by lia. rewrite W1, w16_word; [lia|apply OZ|lia].
    + replace (b + o + total P) with (b + o1 + total P + (o - o1)) by lia.
      apply (words_tr m); auto. intros y Hy. apply D1. unfold bytes in *. lia.
  - destruct (C2 _ _ _ E') as [W1 W2]. fold n2 in W1, W2. fold o2 in W1, W2.
    assert (FP : Forall ok_item P' /\ ok_item z /\ Forall ok_item Q).
    { rewrite E' in F2. apply Forall_app in F2. destruct F2 as [FX1 FX2]. inversion FX2; auto. }
    destruct FP as (FP & OZ & FR). pose proof (total_ok _ FP). pose proof (total_ok _ FR).
    assert (n2 = count P' + 1 + count Q /\ total I2 = total P' + bytes z + total Q) by (unfold n2; rewrite E'; ls; lia).
    assert (0 <= count P' /\ 0 <= count Q) by (unfold count; lia). pose proof (bytes_nn z).
    rewrite EP. ls. fold n1. split.
    + rewrite H2 by lia. rewrite W1.
      replace (fst z * 16384 + (o2 + total P') - o2 + o + total I1) with (fst z * 16384 + (o2 + total P') + (o - o2 + total I1)) by lia.
      rewrite w16_word; [lia|apply OZ|lia].
    + replace (b + o + (total I1 + total P')) with (b2 + o2 + total P' + (b + o + total I1 - b2 - o2)) by lia.
      apply (words_tr m); auto. intros y Hy.
      replace (y + (b + o + total I1 - b2 - o2)) with (y - b2 - o2 + b + o + total I1) by lia. apply D2. unfold bytes in *. lia.
Qed.

Ltac lsg := autorewrite with pgls.

Lemma array_sub : forall a b, 0 <= a -> 0 <= b -> array (a + b) <= array a + array b /\ array a <= array (a + b) /\ array b <= array (a + b).
Proof. intros. unfold array. dlia. Qed.

Lemma Rep_hk : forall p G st A g C, Rep p G st -> G = A ++ g :: C ->
  4 * d_hk (pg_d p 0) = descs_end (zl G).
Proof.
  intros p G st A g C R E. destruct G as [|x G']; [destruct A; discriminate|].
  destruct (r_d _ _ _ R [] x G' eq_refl) as (_ & _ & K & _). cbn in K |- *. lia.
Qed.

Lemma Rep_merge : forall p G st A g1 g2 C,
  Rep p G st -> G = A ++ g1 :: g2 :: C ->
  Rep (merge_chunks p (zl A)) (A ++ (fst g1 ++ fst g2, snd g2) :: C) st /\ kept p (merge_chunks p (zl A)).
Proof.
  intros p G st A g1 g2 C R E.
  assert (E2 : G = (A ++ [g1]) ++ g2 :: C) by (rewrite <- app_assoc; exact E).
  set (g' := (fst g1 ++ fst g2, snd g2) : group).
  pose proof (at_ok _ _ _ _ _ _ R E) as (FA & FG1 & _). pose proof (at_ok _ _ _ _ _ _ R E2) as (_ & FG2 & FC).
  pose proof (at_bounds _ _ _ _ _ _ R E) as B1. pose proof (at_bounds _ _ _ _ _ _ R E2) as B2.
  rewrite zl_cons, data_cons, cnt_cons in B1. clear B2.
  assert (OG : ok_group g').
  { destruct FG1 as [X1 _]. destruct FG2 as [X2 X3]. split; [|exact X3]. unfold g'. cbn [fst]. apply Forall_app. auto. }
  pose proof (at_loc _ _ _ _ _ _ R E) as LO1. pose proof (at_loc _ _ _ _ _ _ R E2) as LO2.
  pose proof (at_n _ _ _ _ _ _ R E) as NN1. pose proof (at_n _ _ _ _ _ _ R E2) as NN2. pose proof (at_sz _ _ _ _ _ _ R E) as SZ1.
  assert (ZZ : zl (A ++ [g1]) = zl A + 1) by (lsg; reflexivity). rewrite ZZ in LO2, NN2.
  assert (DA1 : data_bytes (A ++ [g1]) = data_bytes A + group_bytes g1) by (lsg; cbn; lia). rewrite DA1 in LO2.
  pose proof (r_m _ _ _ R _ _ _ E) as CA1. pose proof (r_m _ _ _ R _ _ _ E2) as CA2. rewrite DA1 in CA2.
  destruct (r_d _ _ _ R _ _ _ E) as (_ & _ & HK1 & _). destruct (r_d _ _ _ R _ _ _ E2) as (_ & _ & HK2 & HF2).
  rewrite ZZ in HK2, HF2.
  assert (KA1 : keys_sz (A ++ [g1]) = keys_sz A + bytes (snd g1)) by (lsg; cbn; lia). rewrite KA1 in HK2.
  pose proof (Rep_hk _ _ _ _ _ _ R E) as HK0.
  set (I1 := fst g1) in *. set (I2 := fst g2) in *. set (n1 := count I1) in *. set (n2 := count I2) in *.
  set (b1 := st + data_bytes A) in *.
  assert (P0 : 0 <= n1 /\ 0 <= n2) by (unfold n1, n2, count; lia).
  assert (GB1 : group_bytes g1 = array n1 + total I1) by reflexivity.
  assert (GB2 : group_bytes g2 = array n2 + total I2) by reflexivity.
  assert (CG : count (fst g') = n1 + n2) by (unfold g'; cbn [fst]; lsg; reflexivity).
  assert (GB' : group_bytes g' = array (n1 + n2) + (total I1 + total I2)).
  { unfold group_bytes. rewrite CG. unfold g'. cbn [fst]. ls. reflexivity. }
  pose proof (array_facts n1 ltac:(lia)) as AF1. pose proof (array_facts n2 ltac:(lia)) as AF2.
  pose proof (array_facts (n1 + n2) ltac:(lia)) as AF. pose proof (array_sub n1 n2 ltac:(lia) ltac:(lia)) as AS.
  pose proof (total_ok _ (proj1 FG1)) as T1. pose proof (total_ok _ (proj1 FG2)) as T2. fold I1 n1 in T1. fold I2 n2 in T2.
  pose proof (keys_ok _ FA) as KA. pose proof (keys_ok _ FC) as KC.
  assert (ZG : zl G = zl A + 2 + zl C) by (rewrite E; lsg; lia).
  set (H := descs_end (zl G)) in *. set (H' := descs_end (zl G - 1)).
  assert (HH : H' <= H <= H' + 8 /\ 56 <= H' /\ H mod 8 = 0 /\ H' mod 8 = 0).
  { pose proof (de_facts (zl G - 1) ltac:(lia)) as X. replace (zl G - 1 + 1) with (zl G) in X by lia. fold H H' in X.
    pose proof (de_facts (zl G) ltac:(lia)) as X2. fold H in X2. lia. }
  assert (KG : keys_sz G = keys_sz A + bytes (snd g1) + bytes (snd g2) + keys_sz C) by (rewrite E; lsg; lia).
  pose proof (bytes_nn (snd g1)) as BN1. pose proof (bytes_nn (snd g2)) as BN2.
  pose proof (r_st _ _ _ R) as ST. rewrite kb in ST. fold H in ST.
  pose proof (r_hend _ _ _ R) as HE. rewrite kb in HE. fold H in HE.
  set (q := merge_chunks p (zl A)).
  assert (QM : pg_m q = mrg_mem (pg_m p) b1 (b1 + group_bytes g1) n1 n2 (array n1) (array n2) (array (n1 + n2)) (b1 + group_bytes g1) (pg_size p)
     H (H + keys_sz A) (H + keys_sz A + bytes (snd g1)) (pg_hend p) (H - H')).
  { unfold q, merge_chunks, mrg_mem. cbv zeta. cbn [pg_m]. rewrite LO1, LO2, NN1, NN2, SZ1, HK0, HK1, HK2, (r_cc _ _ _ R).
    change arr_sz with array. fold n1 n2 H H'. rewrite !Z.add_assoc. reflexivity. }
  assert (CW : forall j, 0 <= j < n1 -> 0 <= pg_m p (b1 + 2 * j) < 65536).
  { apply chunk_words; [apply FG1|exact CA1|]. fold n1. lia. }
  assert (L : b1 + array n1 + total I1 + array n2 + total I2 + data_bytes C = pg_size p /\ pg_size p <= 8192 /\ 0 <= data_bytes C /\
     256 <= st /\ st <= b1 /\ 0 <= total I1 /\ 0 <= total I2 /\ H + keys_sz G <= st).
  { assert (Eb : b1 = st + data_bytes A) by reflexivity. pose proof (data_ok _ FC) as DC. clear - Eb B1 GB1 GB2 T1 T2 P0 ST DC. lia. }
  assert (U1 : 0 <= n1) by (clear - P0; lia). assert (U2 : 0 <= n2) by (clear - P0; lia).
  assert (U3 : 2 * n1 <= array n1) by (clear - AF1; lia). assert (U4 : 2 * n2 <= array n2) by (clear - AF2; lia).
  assert (U5 : 2 * (n1 + n2) <= array (n1 + n2)) by (clear - AF; lia).
  assert (U6 : array n1 <= array (n1 + n2)) by (clear - AS; lia).
  assert (U7 : array (n1 + n2) <= array n1 + array n2) by (clear - AS; lia).
  assert (U8 : b1 + array n1 <= b1 + group_bytes g1) by (clear - GB1 L; lia).
  assert (U9 : b1 + group_bytes g1 + array n2 <= pg_size p) by (clear - GB1 L; lia).
  assert (U10 : 0 <= H - H') by (clear - HH; lia).
  assert (U11 : H <= H + keys_sz A) by (clear - KA; lia).
  assert (U12 : H + keys_sz A <= H + keys_sz A + bytes (snd g1) <= pg_hend p) by (clear - BN1 BN2 KC KG HE; lia).
  assert (U13 : pg_hend p <= b1) by (clear - L HE; lia).
  destruct (mrg_mem_ok (pg_m p) b1 (b1 + group_bytes g1) n1 n2 (array n1) (array n2) (array (n1 + n2)) (b1 + group_bytes g1) (pg_size p)
     H (H + keys_sz A) (H + keys_sz A + bytes (snd g1)) (pg_hend p) (H - H')
     U1 U2 U3 U4 U5 U6 U7 U8 eq_refl U9 U10 U11 U12 U13 CW)
     as (I_1 & I_2 & I_3 & I_4 & I_5 & I_6 & I_7).
  assert (KP : kept p q).
  { intros x Hx. rewrite QM. apply mrg_mem_out; try assumption; [reflexivity|].
    unfold q, merge_chunks in Hx. cbn [pg_cc] in Hx. rewrite (r_cc _ _ _ R) in Hx. unfold blcksz in Hx.
    assert (desc_at + 4 * (zl G - 1) <= H') by (unfold H', descs_end, ma; clear; dlia). clear - Hx H0 L. lia. }
  rewrite <- QM in I_1, I_2, I_3, I_4, I_5, I_6, I_7. clear CW QM.
  set (s2 := array n1 + array n2 - array (n1 + n2)).
  assert (S8 : s2 mod 8 = 0 /\ 0 <= s2) by (unfold s2; clear - AF1 AF2 AF AS; dlia).
  assert (K8 : bytes (snd g1) mod 8 = 0) by apply FG1.
  set (hs2 := H - H' + bytes (snd g1)).
  assert (QD : forall j, pg_d q j =
    if j <? zl A then let x := pg_d p j in mkd (d_loc x) (d_off x) (d_hk x - short (H - H')) (d_hf x)
    else if j =? zl A then let x := pg_d p j in mkd (d_loc x) (d_off x) (d_hk x - short (H - H')) (d_hf (pg_d p (zl A + 1)))
    else if j <? pg_cc p - 1 then let x := pg_d p (j + 1) in
      mkd (d_loc x - short s2) (d_off x) (d_hk x - short hs2) (d_hf x)
    else pg_d p j).
  { intros j. unfold q, merge_chunks. cbv zeta. cbn [pg_d]. rewrite NN1, NN2, HK1, HK2, (r_cc _ _ _ R).
    change arr_sz with array. fold n1 n2 H H'.
    replace (H - H' + (H + (keys_sz A + bytes (snd g1))) - (H + keys_sz A)) with hs2 by (unfold hs2; lia). reflexivity. }
  assert (SH : 4 * short (H - H') = H - H' /\ 4 * short hs2 = hs2 /\ 4 * short s2 = s2).
  { unfold hs2. repeat split; apply short8; [clear - HH; dlia|clear - HH K8; dlia|apply S8]. }
  assert (ZL' : zl (A ++ g' :: C) = zl G - 1) by (rewrite ZG, zl_app, zl_cons; clear; lia).
  assert (DD : data_bytes (A ++ g' :: C) = data_bytes G - s2) by (rewrite E; lsg; unfold s2; clear - GB1 GB2 GB'; lia).
  assert (KK : keys_sz (A ++ g' :: C) = keys_sz G - bytes (snd g1)) by (rewrite E; lsg; unfold g'; cbn [snd]; clear; lia).
  assert (Sub : forall X x Y, A ++ g' :: C = X ++ x :: Y ->
    (exists Y', G = X ++ x :: Y' /\ zl X < zl A /\ data_bytes X + group_bytes x <= data_bytes A /\ keys_sz X + bytes (snd x) <= keys_sz A) \/
    (X = A /\ x = g' /\ Y = C) \/
    (exists X', G = X' ++ x :: Y /\ zl X' = zl X + 1 /\ data_bytes X = data_bytes X' - s2 /\ cnt X = cnt X' /\
        keys_sz X = keys_sz X' - bytes (snd g1) /\ zl A < zl X < zl G - 1 /\
        data_bytes A + group_bytes g1 + group_bytes g2 <= data_bytes X' /\ data_bytes X' + group_bytes x <= data_bytes G /\
        keys_sz A + bytes (snd g1) + bytes (snd g2) <= keys_sz X' /\ keys_sz X' + bytes (snd x) <= keys_sz G)).
  { intros X x Y HX. symmetry in HX. destruct (split3 _ _ _ _ _ _ HX) as [[Q [EA ->]]|[[-> [-> ->]]|[Q [-> EC]]]].
    - left. exists (Q ++ g1 :: g2 :: C). split; [rewrite E, EA, <- app_assoc; reflexivity|].
      rewrite EA in FA. apply Forall_app in FA. destruct FA as [_ FA]. inversion FA; subst.
      match goal with HF : Forall ok_group Q |- _ => pose proof (data_ok _ HF) as DQ; pose proof (keys_ok _ HF) as KQ end.
      rewrite zl_app, zl_cons, data_app, data_cons, keys_app, keys_cons. clear - DQ KQ. lia.
    - right; left. auto.
    - right; right. exists (A ++ g1 :: g2 :: Q). split; [rewrite E, EC, <- app_assoc; reflexivity|].
      rewrite EC in FC. apply Forall_app in FC. destruct FC as [FQ FY]. inversion FY as [|? ? _ FY']; subst x0 l.
      pose proof (data_ok _ FQ) as DQ. pose proof (data_ok _ FY') as DY. pose proof (keys_ok _ FQ) as KQ. pose proof (keys_ok _ FY') as KY.
      assert (ZC : zl C = zl Q + 1 + zl Y) by (rewrite EC; lsg; clear; lia).
      assert (GD : data_bytes G = data_bytes A + group_bytes g1 + group_bytes g2 + data_bytes Q + group_bytes x + data_bytes Y) by (rewrite E, EC; lsg; clear; lia).
      assert (GK : keys_sz G = keys_sz A + bytes (snd g1) + bytes (snd g2) + keys_sz Q + bytes (snd x) + keys_sz Y) by (rewrite E, EC; lsg; clear; lia).
      rewrite !zl_app, !zl_cons, !data_app, !data_cons, !keys_app, !keys_cons, !cnt_app, !cnt_cons, CG. fold n1 n2 I1 I2. unfold s2.
      change (snd g') with (snd g2). fold n1 n2 I1 I2. clear - DQ DY KQ KY ZC GD GK GB1 GB2 GB' ZG. lia. }
  split; [|exact KP]. change (Rep q (A ++ g' :: C) st). constructor.
  - apply Forall_app. auto.
  - unfold q, merge_chunks. cbn [pg_cc]. rewrite (r_cc _ _ _ R). symmetry. exact ZL'.
  - unfold q, merge_chunks. cbn [pg_n]. rewrite (r_n _ _ _ R), E. rewrite !cnt_app, !cnt_cons, CG. fold I1 I2. fold n1 n2. clear; lia.
  - unfold q, merge_chunks. cbv zeta. cbn [pg_size]. rewrite NN1, NN2, (r_size _ _ _ R), DD. change arr_sz with array. fold n1 n2 s2. clear; lia.
  - rewrite kb, ZL', KK. fold H'. unfold q, merge_chunks. cbv zeta. cbn [pg_hend]. rewrite HK1, HK2, (r_cc _ _ _ R). fold H H'. clear - HE. lia.
  - rewrite DD. pose proof (r_max _ _ _ R) as RM. clear - RM S8. lia.
  - rewrite kb, ZL', KK. fold H'. clear - ST HH BN1. lia.
  - apply (r_lim _ _ _ R).
  - intros X x Y HX. rewrite ZL'. fold H'. destruct (Sub _ _ _ HX) as [(Y' & E' & _)|[(-> & _)|(X' & E' & _ & _ & _ & K1 & _)]].
    + pose proof (r_hk _ _ _ R _ _ _ E') as Q. fold H in Q. clear - Q HH; lia.
    + pose proof (r_hk _ _ _ R _ _ _ E) as Q. fold H in Q. clear - Q HH; lia.
    + pose proof (r_hk _ _ _ R _ _ _ E') as Q. fold H in Q. clear - Q HH BN1 K1; lia.
  - destruct (r_last _ _ _ R) as [Q|(A0 & g0 & E0 & Q)]; [left; exact Q|right].
    rewrite E2 in E0. destruct (split3 _ _ _ _ _ _ E0) as [[W [_ EW]]|[[_ [W1 W2]]|[W [_ EW]]]].
    + exists (A ++ g' :: W), g0. split; [|exact Q]. rewrite EW, <- app_assoc. reflexivity.
    + exists A, g'. rewrite W2. split; [reflexivity|]. unfold g'. cbn [snd]. rewrite W1. exact Q.
    + destruct W; discriminate.
  - intros X x Y HX. rewrite ZL'. fold H'. pose proof (r_cc _ _ _ R) as CC.
    destruct (Sub _ _ _ HX) as [(Y' & E' & J1 & J2 & J3)|[(-> & -> & ->)|(X' & E' & J1 & J2 & J3 & J4 & J5 & J6 & J7 & J8 & J9)]].
    + destruct (r_d _ _ _ R _ _ _ E') as (D1 & D2 & D3 & D4). fold H in D3.
      pose proof (at_bounds _ _ _ _ _ _ R E') as B'. pose proof (at_ok _ _ _ _ _ _ R E') as (FX & (_ & FF & _) & _).
      pose proof (keys_ok _ FX) as KX. pose proof (r_hk _ _ _ R _ _ _ E') as RH. fold H in RH.
      rewrite QD. replace (zl X <? zl A) with true by (clear - J1; lia). cbv zeta.
      assert (B0 : 0 <= group_bytes x) by (pose proof (gb_ok _ (proj1 (proj2 (at_ok _ _ _ _ _ _ R E')))) as GX; clear - GX; lia).
      rewrite mkd_id; cbn [d_loc d_off d_hk d_hf].
      * rewrite D4. clear - D1 D2 D3 SH. lia.
      * clear - D1 B' B0. lia.
      * clear - D2 B' B0. lia.
      * clear - D3 SH RH KX HH. lia.
      * rewrite D4. clear - FF. lia.
    + destruct (r_d _ _ _ R _ _ _ E) as (D1 & D2 & D3 & D4). fold H in D3.
      pose proof (r_hk _ _ _ R _ _ _ E) as RH. fold H in RH.
      rewrite QD, Z.ltb_irrefl, Z.eqb_refl. cbv zeta. rewrite HF2.
      pose proof (proj1 (proj2 FG2)) as FF. pose proof (gb_ok _ FG1) as B0. pose proof (gb_ok _ FG2) as B00.
      rewrite mkd_id; cbn [d_loc d_off d_hk d_hf].
      * clear - D1 D2 D3 SH. unfold g'. cbn [snd]. lia.
      * clear - D1 B1 B0 B00. lia.
      * clear - D2 B1 B0 B00. lia.
      * clear - D3 SH RH KA HH. lia.
      * clear - FF. lia.
    + destruct (r_d _ _ _ R _ _ _ E') as (D1 & D2 & D3 & D4). fold H in D3. rewrite J1 in D1, D2, D3, D4.
      pose proof (at_bounds _ _ _ _ _ _ R E') as B'. pose proof (at_ok _ _ _ _ _ _ R E') as (FX & (_ & FF & _) & _).
      pose proof (keys_ok _ FX) as KX. pose proof (r_hk _ _ _ R _ _ _ E') as RH. fold H in RH.
      rewrite QD. replace (zl X <? zl A) with false by (clear - J5; lia). replace (zl X =? zl A) with false by (clear - J5; lia).
      replace (zl X <? pg_cc p - 1) with true by (clear - J5 CC; lia). cbv zeta.
      assert (B0 : 0 <= group_bytes x) by (pose proof (gb_ok _ (proj1 (proj2 (at_ok _ _ _ _ _ _ R E')))) as GX; clear - GX; lia).
      assert (B00 : s2 <= data_bytes X') by (unfold s2; clear - J6 GB1 GB2 AF AF1 AF2 T1 T2 B1 P0; lia).
      rewrite mkd_id; cbn [d_loc d_off d_hk d_hf].
      * rewrite D4, J2, J3, J4. unfold hs2 in SH |- *. clear - D1 D2 D3 SH. lia.
      * clear - D1 B' B0 B00 SH S8. lia.
      * clear - D2 B' B0. lia.
      * unfold hs2 in SH |- *. clear - D3 SH RH KX HH J8 BN1 BN2 KA. lia.
      * rewrite D4. clear - FF. lia.
  - intros X x Y HX.
    destruct (Sub _ _ _ HX) as [(Y' & E' & J1 & J2 & J3)|[(-> & -> & ->)|(X' & E' & J1 & J2 & J3 & J4 & J5 & J6 & J7 & J8 & J9)]].
    + pose proof (at_ok _ _ _ _ _ _ R E') as (FX & (FI & _) & _). pose proof (data_ok _ FX).
      apply (chunk_ext (pg_m p)); [exact FI|apply (r_m _ _ _ R _ _ _ E')|]. intros y Hy. apply I_3.
      unfold group_bytes in J2. unfold b1. clear - Hy J2 HE ST H0. lia.
    + fold b1. unfold g'. cbn [fst]. apply (chunk_join (pg_m p) _ b1 (b1 + group_bytes g1)); cbv zeta.
      * apply FG1.
      * apply FG2.
      * exact CA1.
      * unfold b1. rewrite <- Z.add_assoc. exact CA2.
      * fold n1. clear - L AF2 AF1. lia.
      * fold n2. clear - L AF1 AF2. lia.
      * fold n1 n2. clear - L AF1 AF2 AS. lia.
      * fold n1 n2. exact I_4.
      * fold n1 n2. intros y Hy. apply I_5. clear - Hy GB1. lia.
      * fold n1 n2. intros j J. rewrite (I_6 j J). f_equal. clear - GB1. lia.
      * fold n1 n2. intros y Hy. replace (y - (b1 + group_bytes g1) - array n2 + b1 + array (n1 + n2) + total I1) with (y - s2) by (unfold s2; clear - GB1; lia).
        apply I_7. clear - Hy L GB1. lia.
    + pose proof (at_ok _ _ _ _ _ _ R E') as (FX & (FI & _) & _).
      replace (st + data_bytes X) with (st + data_bytes X' + - s2) by (clear - J2; lia).
      apply (chunk_tr (pg_m p)); [exact FI|apply (r_m _ _ _ R _ _ _ E')|]. intros y Hy.
      rewrite Z.add_opp_r. apply I_7. pose proof (r_size _ _ _ R) as SZ. pose proof (gb_ok _ OG).
      unfold group_bytes in J7 at 1. unfold b1 in *. clear - Hy J6 J7 SZ GB1 GB2 T2 L. lia.
  - intros X x Y HX. rewrite ZL'. fold H'.
    destruct (Sub _ _ _ HX) as [(Y' & E' & J1 & J2 & J3)|[(-> & -> & ->)|(X' & E' & J1 & J2 & J3 & J4 & J5 & J6 & J7 & J8 & J9)]].
    + pose proof (at_ok _ _ _ _ _ _ R E') as (FX & _). pose proof (keys_ok _ FX) as KX.
      replace (H' + keys_sz X) with (H + keys_sz X + - (H - H')) by (clear; lia).
      apply (words_tr (pg_m p)); [apply (r_k _ _ _ R _ _ _ E')|]. intros y Hy. rewrite Z.add_opp_r. apply I_1.
      unfold bytes in J3. clear - Hy J3 KX. lia.
    + unfold g'. cbn [snd]. pose proof (r_k _ _ _ R _ _ _ E2) as W. fold H in W. rewrite KA1 in W.
      replace (H' + keys_sz A) with (H + (keys_sz A + bytes (snd g1)) + - hs2) by (unfold hs2; clear; lia).
      apply (words_tr (pg_m p)); [exact W|]. intros y Hy. rewrite Z.add_opp_r.
      replace (y - hs2) with (y - (H - H' + (H + keys_sz A + bytes (snd g1)) - (H + keys_sz A))) by (unfold hs2; lia).
      apply I_2. rewrite HE. unfold bytes in KG at 2. clear - Hy KG KC. lia.
    + pose proof (r_k _ _ _ R _ _ _ E') as W. fold H in W.
      replace (H' + keys_sz X) with (H + keys_sz X' + - hs2) by (unfold hs2; clear - J4; lia).
      apply (words_tr (pg_m p)); [exact W|]. intros y Hy. rewrite Z.add_opp_r.
      replace (y - hs2) with (y - (H - H' + (H + keys_sz A + bytes (snd g1)) - (H + keys_sz A))) by (unfold hs2; lia).
      apply I_2. rewrite HE. unfold bytes in J9. clear - Hy J8 J9 BN2. lia.
Qed.
