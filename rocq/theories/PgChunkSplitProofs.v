(** Proofs for C18: one chunk becomes two, the representation. *)
From Coq Require Import ZArith List Bool Lia ZifyBool.
From Verif Require Import Base PgChunkModel PgChunkSpec PgChunkProofs PgChunkOpProofs PgChunkEditProofs PgChunkReplaceProofs PgChunkJoinProofs PgChunkMergeProofs PgChunkCutProofs.
Import ListNotations.
Open Scope Z_scope.

Lemma Rep_cut : forall p G st A g C I1 y I2' f ws,
  Rep p G st -> G = A ++ g :: C -> fst g = I1 ++ y :: I2' -> ok_item (f, ws) ->
  let I2 := y :: I2' in
  let G' := A ++ (I1, (f, ws)) :: (I2, snd g) :: C in
  key_bytes G' <= pg_lim p -> (pg_right p = true -> pg_lim p = 512 -> key_bytes G' <= 508) ->
  st + data_bytes G' <= blcksz ->
  Rep (split_chunk p (zl A) (count I1) f ws) G' st /\ kept p (split_chunk p (zl A) (count I1) f ws).
Proof.
  intros p G st A g C I1 y I2' f ws R E EI OI I2 G' KL KR MX.
  set (g1 := (I1, (f, ws)) : group). set (g2 := (I2, snd g) : group).
  assert (EG' : G' = A ++ g1 :: g2 :: C) by reflexivity. clearbody G'.
  pose proof (at_ok _ _ _ _ _ _ R E) as (FA & FG & FC).
  pose proof (at_bounds _ _ _ _ _ _ R E) as B.
  assert (FI : Forall ok_item I1 /\ Forall ok_item I2) by (destruct FG as [FG _]; rewrite EI in FG; apply Forall_app in FG; exact FG).
  destruct FI as [F1 F2].
  assert (OG1 : ok_group g1) by (split; [exact F1|]; destruct OI as (X1 & X2 & _); split; [exact X1|exact X2]).
  assert (OG2 : ok_group g2) by (split; [exact F2|apply FG]).
  pose proof (at_loc _ _ _ _ _ _ R E) as LO. pose proof (at_n _ _ _ _ _ _ R E) as NN.
  pose proof (r_m _ _ _ R _ _ _ E) as CA. rewrite EI in CA. fold I2 in CA.
  destruct (r_d _ _ _ R _ _ _ E) as (_ & DO & HK & HF).
  pose proof (Rep_hk _ _ _ _ _ _ R E) as HK0.
  destruct (it_word _ _ _ _ _ _ R E _ _ _ EI) as (_ & OW & _). rewrite LO in OW.
  set (n1 := count I1) in *. set (n2 := count I2) in *.
  assert (CN : count (fst g) = n1 + n2) by (rewrite EI, count_app; reflexivity).
  assert (CT : total (fst g) = total I1 + total I2) by (rewrite EI, total_app; reflexivity).
  rewrite CN in *. rewrite CT in B.
  set (b := st + data_bytes A) in *.
  assert (P0 : 0 <= n1 /\ 1 <= n2).
  { unfold n1, n2, I2. rewrite count_cons. unfold count. clear. lia. }
  assert (GB : group_bytes g = array (n1 + n2) + (total I1 + total I2)) by (clear - B; lia).
  assert (GB1 : group_bytes g1 = array n1 + total I1) by reflexivity.
  assert (GB2 : group_bytes g2 = array n2 + total I2) by reflexivity.
  pose proof (array_facts n1 ltac:(lia)) as AF1. pose proof (array_facts n2 ltac:(lia)) as AF2.
  pose proof (array_facts (n1 + n2) ltac:(lia)) as AF. pose proof (array_sub n1 n2 ltac:(lia) ltac:(lia)) as AS.
  pose proof (total_ok _ F1) as T1. pose proof (total_ok _ F2) as T2. fold n1 in T1. fold n2 in T2.
  pose proof (keys_ok _ FA) as KA. pose proof (keys_ok _ FC) as KC.
  assert (ZG : zl G = zl A + 1 + zl C) by (rewrite E, zl_app, zl_cons; clear; lia).
  assert (ZL' : zl G' = zl G + 1) by (rewrite ZG, EG', zl_app, !zl_cons; clear; lia).
  set (H := descs_end (zl G)) in *. set (H' := descs_end (zl G + 1)).
  assert (HH : H <= H' <= H + 8 /\ 56 <= H /\ H mod 8 = 0 /\ H' mod 8 = 0).
  { pose proof (de_facts (zl G) ltac:(lia)) as X. fold H H' in X.
    pose proof (de_facts (zl G + 1) ltac:(lia)) as X2. fold H' in X2. clear - X X2. lia. }
  assert (KG : keys_sz G = keys_sz A + bytes (snd g) + keys_sz C) by (rewrite E, keys_app, keys_cons; clear; lia).
  set (hsize := 2 * zl ws).
  assert (B1 : bytes (snd g1) = hsize) by reflexivity. assert (B2 : bytes (snd g2) = bytes (snd g)) by reflexivity.
  assert (KK : keys_sz G' = keys_sz G + hsize) by (rewrite KG, EG', keys_app, !keys_cons; clear - B1 B2; lia).
  assert (H8 : hsize mod 8 = 0 /\ 8 <= hsize) by (destruct OI as (_ & X1 & X2); split; [exact X1|exact X2]).
  pose proof (bytes_nn (snd g)) as BN.
  pose proof (r_st _ _ _ R) as ST. rewrite kb in ST. fold H in ST.
  pose proof (r_hend _ _ _ R) as HE. rewrite kb in HE. fold H in HE.
  pose proof (r_lim _ _ _ R) as LIM.
  assert (KB : key_bytes G' = H' + keys_sz G + hsize) by (rewrite kb, ZL', KK; unfold H'; clear; lia).
  set (ds := array n2 + array n1 - array (n1 + n2)).
  assert (DD : data_bytes G' = data_bytes G + ds).
  { rewrite E, EG', !data_app, !data_cons. unfold ds. clear - GB GB1 GB2. lia. }
  assert (L : b + array (n1 + n2) + total I1 + total I2 + data_bytes C = pg_size p /\ pg_size p + ds <= 8192 /\ 0 <= data_bytes C /\
     256 <= st /\ st <= b /\ 0 <= total I1 /\ 0 <= total I2 /\ 0 <= ds /\ ds mod 8 = 0 /\ H' + keys_sz G + hsize <= st).
  { assert (Eb : b = st + data_bytes A) by reflexivity. pose proof (r_size _ _ _ R) as SZ. unfold blcksz in MX. unfold ds in *.
    repeat split; try (clear - Eb B GB T1 T2 P0 MX SZ DD AS KB KL LIM; lia). clear - AF AF1 AF2. dlia. }
  set (q := split_chunk p (zl A) n1 f ws).
  set (ip := b + (array (n1 + n2) + total I1)) in *.
  assert (HM : (d_hk (pg_d p (zl A)) + short (H' - H)) mod 128 * 4 = H + keys_sz A + (H' - H)).
  { pose proof (r_hk _ _ _ R _ _ _ E) as X. fold H in X. unfold short.
    assert (X2 : H' + keys_sz A <= 512 - 8) by (clear - KB KL LIM H8 KG BN KC; lia).
    clear - HK X HH KA X2. dlia. }
  assert (QM : pg_m q = cut_mem (pg_m p) b n1 (n1 + n2) (array (n1 + n2)) (array n1) (array n2) ip (pg_size p)
     H (H + keys_sz A) (pg_hend p) (H' - H) hsize ws).
  { unfold q, split_chunk, cut_mem. cbv zeta. cbn [pg_m]. rewrite LO, NN, OW, HK0, HK, (r_cc _ _ _ R).
    change arr_sz with array. fold H H'. rewrite HM. fold hsize. replace (n1 + n2 - n1) with n2 by (clear; lia).
    replace (ip - b - array n2) with (array (n1 + n2) + total I1 - array n2) by (unfold ip; clear; lia). reflexivity. }
  assert (U : 0 <= n1 <= n1 + n2 /\ 2 * (n1 + n2) <= array (n1 + n2) /\ 2 * n1 <= array n1 /\ 2 * (n1 + n2 - n1) <= array n2 /\
     array n1 <= array (n1 + n2) /\ array (n1 + n2) <= array n1 + array n2 /\ b + array (n1 + n2) <= ip <= pg_size p /\ 0 <= H' - H /\
     H <= H + keys_sz A <= pg_hend p /\ pg_hend p + (H' - H + hsize) <= b).
  { unfold ip. clear - P0 AF AF1 AF2 AS L HH KA KC KG BN HE. lia. }
  destruct U as (U1 & U2 & U3 & U4 & U5 & U6 & U7 & U8 & U9 & U10).
  destruct (cut_mem_ok (pg_m p) b n1 (n1 + n2) (array (n1 + n2)) (array n1) (array n2) ip (pg_size p)
     H (H + keys_sz A) (pg_hend p) (H' - H) hsize ws U1 U2 U3 U4 U5 U6 U7 U8 eq_refl U9 U10)
     as (I_1 & I_2 & I_3 & I_4 & I_5 & I_6 & I_7 & I_8).
  assert (KP : kept p q).
  { intros x Hx. rewrite QM. apply cut_mem_out; try assumption; try reflexivity.
    unfold q, split_chunk in Hx. cbn [pg_cc] in Hx. rewrite (r_cc _ _ _ R) in Hx. unfold blcksz in Hx. fold ds.
    assert (desc_at + 4 * (zl G + 1) <= H') by (unfold H', descs_end, ma; clear; dlia). clear - Hx H0 L. lia. }
  rewrite <- QM in I_1, I_2, I_3, I_4, I_5, I_6, I_7, I_8. clear QM.
  set (rp := b + array n1 + total I1).
  assert (RP : ip - array (n1 + n2) + array n1 = rp) by (unfold rp, ip; clear; lia).
  rewrite RP in I_7. replace (n1 + n2 - n1) with n2 in I_7 by (clear; lia). fold ds in I_8.
  set (hs := H' - H + hsize) in *.
  assert (QD : forall j, pg_d q j =
    if j <? zl A then let x := pg_d p j in mkd (d_loc x) (d_off x) (d_hk x + short (H' - H)) (d_hf x)
    else if j =? zl A then let x := pg_d p j in mkd (d_loc x) (d_off x) (d_hk x + short (H' - H)) f
    else if j =? zl A + 1 then let x := pg_d p (zl A) in
      mkd (short rp) (d_off x + n1) ((d_hk x + short (H' - H)) mod 128 + short hsize) (d_hf x)
    else if j <=? pg_cc p then let x := pg_d p (j - 1) in
      mkd (d_loc x + short ds) (d_off x) (d_hk x + short hs) (d_hf x)
    else pg_d p j).
  { intros j. unfold q, split_chunk. cbv zeta. cbn [pg_d]. rewrite LO, NN, OW, (r_cc _ _ _ R).
    change arr_sz with array. fold H H'. fold hsize. fold hs. fold ip. rewrite RP.
    replace (n1 + n2 - n1) with n2 by (clear; lia). fold ds. reflexivity. }
  assert (SH : 4 * short (H' - H) = H' - H /\ 4 * short hs = hs /\ 4 * short ds = ds /\ 4 * short hsize = hsize /\ 4 * short rp = rp).
  { unfold hs. assert (R8 : rp mod 8 = 0) by (unfold rp, b; clear - B T1 AF1; dlia).
    split; [apply short8; clear - HH; dlia|]. split; [apply short8; clear - HH H8; dlia|].
    split; [apply short8; apply L|]. split; [apply short8; apply H8|apply short8; exact R8]. }
  assert (Sub : forall X x Y, G' = X ++ x :: Y ->
    (exists Y', G = X ++ x :: Y' /\ zl X < zl A /\ data_bytes X + group_bytes x <= data_bytes A /\ keys_sz X + bytes (snd x) <= keys_sz A) \/
    (X = A /\ x = g1 /\ Y = g2 :: C) \/
    (X = A ++ [g1] /\ x = g2 /\ Y = C) \/
    (exists X', G = X' ++ x :: Y /\ zl X = zl X' + 1 /\ data_bytes X = data_bytes X' + ds /\ cnt X = cnt X' /\
        keys_sz X = keys_sz X' + hsize /\ zl A < zl X' < zl G /\
        data_bytes A + group_bytes g <= data_bytes X' /\ data_bytes X' + group_bytes x <= data_bytes G /\
        keys_sz A + bytes (snd g) <= keys_sz X' /\ keys_sz X' + bytes (snd x) <= keys_sz G)).
  { intros X x Y HX. rewrite EG' in HX. symmetry in HX. destruct (split3 _ _ _ _ _ _ HX) as [[Q [EA _]]|[[-> [-> ->]]|[Q [EX EC]]]].
    - left. exists (Q ++ g :: C). split; [rewrite E, EA, <- app_assoc; reflexivity|].
      assert (FQ : Forall ok_group Q) by (rewrite EA in FA; apply Forall_app in FA; destruct FA as [_ FA]; inversion FA; assumption).
      pose proof (data_ok _ FQ) as DQ; pose proof (keys_ok _ FQ) as KQ.
      assert (Z1 : zl A = zl X + (1 + zl Q)) by (rewrite EA, zl_app, zl_cons; reflexivity).
      assert (Z2 : data_bytes A = data_bytes X + (group_bytes x + data_bytes Q)) by (rewrite EA, data_app, data_cons; reflexivity).
      assert (Z3 : keys_sz A = keys_sz X + (bytes (snd x) + keys_sz Q)) by (rewrite EA, keys_app, keys_cons; reflexivity).
      clear - DQ KQ Z1 Z2 Z3. lia.
    - right; left. auto.
    - right; right. destruct Q as [|z Q].
      + left. cbn [app] in EC. injection EC as EC1 EC2. subst. auto.
      + right. cbn [app] in EC. injection EC as EC1 EC2. subst z.
        exists (A ++ g :: Q). split; [rewrite E, EC2, <- app_assoc; reflexivity|].
        assert (FQ : Forall ok_group Q /\ Forall ok_group Y).
        { rewrite EC2 in FC. apply Forall_app in FC. destruct FC as [FQ FY]. inversion FY; auto. }
        destruct FQ as [FQ FY].
        pose proof (data_ok _ FQ) as DQ; pose proof (keys_ok _ FQ) as KQ. pose proof (data_ok _ FY) as DY; pose proof (keys_ok _ FY) as KY.
        assert (ZC : zl C = zl Q + 1 + zl Y) by (rewrite EC2, zl_app, zl_cons; clear; lia).
        assert (GD : data_bytes G = data_bytes A + group_bytes g + data_bytes Q + group_bytes x + data_bytes Y)
          by (rewrite E, EC2, data_app, data_cons, data_app, data_cons; clear; lia).
        assert (GK : keys_sz G = keys_sz A + bytes (snd g) + keys_sz Q + bytes (snd x) + keys_sz Y)
          by (rewrite E, EC2, keys_app, keys_cons, keys_app, keys_cons; clear; lia).
        assert (CG1 : count (fst g1) = n1 /\ count (fst g2) = n2) by (split; reflexivity).
        rewrite EX, !zl_app, !zl_cons, !data_app, !data_cons, !keys_app, !keys_cons, !cnt_app, !cnt_cons, CN.
        unfold ds. clear - DQ DY KQ KY ZC GD GK GB GB1 GB2 ZG B1 B2 CG1. lia. }
  assert (HA1 : data_bytes (A ++ [g1]) = data_bytes A + group_bytes g1 /\ cnt (A ++ [g1]) = cnt A + n1 /\
     keys_sz (A ++ [g1]) = keys_sz A + hsize /\ zl (A ++ [g1]) = zl A + 1).
  { rewrite data_app, cnt_app, keys_app, zl_app, data_cons, cnt_cons, keys_cons, zl_cons. cbn [data_bytes cnt keys_sz fold_right length].
    change (count (fst g1)) with n1. clear - B1. lia. }
  split; [|exact KP]. change (Rep q G' st). constructor.
  - rewrite EG'. apply Forall_app. auto.
  - unfold q, split_chunk. cbn [pg_cc]. rewrite (r_cc _ _ _ R). symmetry. exact ZL'.
  - unfold q, split_chunk. cbn [pg_n]. rewrite (r_n _ _ _ R), E, EG', !cnt_app, !cnt_cons, CN.
    change (count (fst g1)) with n1. change (count (fst g2)) with n2. clear; lia.
  - unfold q, split_chunk. cbv zeta. cbn [pg_size]. rewrite NN, (r_size _ _ _ R), DD. change arr_sz with array.
    replace (n1 + n2 - n1) with n2 by (clear; lia). fold ds. clear; lia.
  - rewrite KB. unfold q, split_chunk. cbv zeta. cbn [pg_hend]. rewrite (r_cc _ _ _ R). fold H H' hsize. clear - HE. lia.
  - exact MX.
  - rewrite KB. clear - L ST. lia.
  - exact LIM.
  - assert (BG : forall X x Y, G' = X ++ x :: Y -> H' + keys_sz X < 512).
    2: { intros X x Y HX. rewrite ZL'. apply (BG _ _ _ HX). }
    intros X x Y HX.
    assert (KX : keys_sz G' = keys_sz X + bytes (snd x) + keys_sz Y) by (rewrite HX, keys_app, keys_cons; clear; lia).
    assert (FG' : Forall ok_group G') by (rewrite EG'; apply Forall_app; auto).
    assert (KY : 0 <= keys_sz Y).
    { rewrite HX in FG'. apply Forall_app in FG'. destruct FG' as [_ FG']. inversion FG' as [|? ? _ FY]. apply (keys_ok _ FY). }
    pose proof (bytes_nn (snd x)) as BX.
    destruct (r_last _ _ _ R) as [RT|(A0 & g0 & E0 & Q)].
    + specialize (KR RT). clear - KR KL LIM KX KY BX KB KK. lia.
    + assert (EL : exists A1 g3, G' = A1 ++ [g3] /\ 8 <= bytes (snd g3)).
      { rewrite E in E0. destruct (split3 _ _ _ _ _ _ E0) as [[W [EW1 EW]]|[[W0 [W1 W2]]|[W [_ EW]]]].
        - exists (A ++ g1 :: g2 :: W), g0. split; [|exact Q]. rewrite EG', EW, <- app_assoc. reflexivity.
        - exists (A ++ [g1]), g2. rewrite EG', W2, <- app_assoc. split; [reflexivity|]. rewrite B2, W1. exact Q.
        - destruct W; discriminate. }
      destruct EL as (A1 & g3 & EL & BL).
      assert (KL2 : keys_sz X + 8 <= keys_sz G').
      { rewrite EL in HX. destruct (split3 _ _ _ _ _ _ HX) as [[W [EW1 EW]]|[[W0 [W1 W2]]|[W [EW1 EW]]]].
        - destruct W; discriminate.
        - subst. rewrite EL, keys_app, keys_cons. cbn [keys_sz fold_right]. clear - BL. lia.
        - rewrite EW in KX. rewrite keys_app, keys_cons in KX.
          assert (FW : Forall ok_group W).
          { rewrite EL, EW1 in FG'. apply Forall_app in FG'. destruct FG' as [FG' _]. apply Forall_app in FG'.
            destruct FG' as [_ FG']. inversion FG'; assumption. }
          pose proof (keys_ok _ FW) as KW. cbn [keys_sz fold_right] in KX. clear - KX KW BX BL. lia. }
      clear - KL2 KL LIM KB KK. lia.
  - destruct (r_last _ _ _ R) as [Q|(A0 & g0 & E0 & Q)]; [left; exact Q|right].
    rewrite E in E0. destruct (split3 _ _ _ _ _ _ E0) as [[W [EW1 EW]]|[[W0 [W1 W2]]|[W [_ EW]]]].
    + exists (A ++ g1 :: g2 :: W), g0. split; [|exact Q]. rewrite EG', EW, <- app_assoc. reflexivity.
    + exists (A ++ [g1]), g2. rewrite EG', W2, <- app_assoc. split; [reflexivity|]. rewrite B2, W1. exact Q.
    + destruct W; discriminate.
  - intros X x Y HX. rewrite ZL'. fold H'. pose proof (r_cc _ _ _ R) as CC.
    assert (HX' : H' + keys_sz G + hsize <= 512) by (clear - KB KL LIM; lia).
    destruct (Sub _ _ _ HX) as [(Y' & E' & J1 & J2 & J3)|[(-> & -> & ->)|[(-> & -> & ->)|(X' & E' & J1 & J2 & J3 & J4 & J5 & J6 & J7 & J8 & J9)]]].
    + destruct (r_d _ _ _ R _ _ _ E') as (D1 & D2 & D3 & D4). fold H in D3.
      pose proof (at_bounds _ _ _ _ _ _ R E') as B'. pose proof (at_ok _ _ _ _ _ _ R E') as (FX & FGX & _).
      pose proof (proj1 (proj2 FGX)) as FF. pose proof (bytes_nn (snd x)) as BX.
      pose proof (keys_ok _ FX) as KX.
      rewrite QD. replace (zl X <? zl A) with true by (clear - J1; lia). cbv zeta.
      assert (B0 : 0 <= group_bytes x) by (pose proof (gb_ok _ FGX) as GX; clear - GX; lia).
      rewrite mkd_id; cbn [d_loc d_off d_hk d_hf].
      * rewrite D4. clear - D1 D2 D3 SH. lia.
      * clear - D1 B' B0. lia.
      * clear - D2 B' B0. lia.
      * clear - D3 SH KX HH HX' J3 KG BN KC H8 BX. lia.
      * rewrite D4. clear - FF. lia.
    + rewrite QD, Z.ltb_irrefl, Z.eqb_refl. cbv zeta. destruct (r_d _ _ _ R _ _ _ E) as (D1 & _).
      rewrite mkd_id; cbn [d_loc d_off d_hk d_hf].
      * clear - D1 DO HK SH. unfold g1. cbn [fst snd]. lia.
      * clear - D1 B GB AF T1 T2 P0. lia.
      * clear - DO B GB AF T1 T2 P0. lia.
      * clear - HK SH HX' KA HH H8 KG BN KC. lia.
      * destruct OI as (X1 & _). cbn [fst] in X1. clear - X1. lia.
    + destruct HA1 as (Y1 & Y2 & Y3 & Y4). rewrite Y1, Y2, Y3, Y4, QD.
      replace (zl A + 1 <? zl A) with false by (clear; lia). replace (zl A + 1 =? zl A) with false by (clear; lia). rewrite Z.eqb_refl. cbv zeta.
      pose proof (proj1 (proj2 FG)) as FF.
      assert (RB : 0 <= rp < 8192 /\ rp = st + (data_bytes A + group_bytes g1)).
      { rewrite GB1. unfold rp. split; [|unfold b; clear; lia]. unfold ds in L. clear - L AF AF1 AF2 AS T1 T2 P0. lia. }
      assert (NB : 0 <= d_off (pg_d p (zl A)) + n1 < 1024) by (rewrite DO; clear - B GB AF T1 T2 P0; lia).
      rewrite mkd_id; cbn [d_loc d_off d_hk d_hf].
      * split; [clear - SH RB; lia|]. split; [rewrite DO; reflexivity|]. split; [clear - HM SH; lia|exact HF].
      * clear - SH RB. lia.
      * exact NB.
      * clear - HM SH HX' KA HH H8 KG BN KC KR KB LIM KL R E KK HE ST. 
        assert (H' + keys_sz A + hsize < 512).
        { destruct (r_last _ _ _ R) as [RT|(A0 & g0 & E0 & Q)]; [specialize (KR RT); lia|].
          rewrite E in E0. destruct (split3 _ _ _ _ _ _ E0) as [[W [EW1 EW]]|[[W0 [W1 W2]]|[W [_ EW]]]].
          - assert (keys_sz C = keys_sz W + bytes (snd g0)) by (rewrite EW, keys_app, keys_cons; cbn [keys_sz fold_right]; lia).
            assert (0 <= keys_sz W).
            { pose proof (r_ok _ _ _ R) as RO. rewrite E in RO. apply Forall_app in RO. destruct RO as [_ RO]. inversion RO as [|? ? _ RO2]; subst.
              apply Forall_app in RO2. destruct RO2 as [RO2 _]. apply (keys_ok _ RO2). }
            lia.
          - subst g0. lia.
          - destruct W; discriminate. }
        lia.
      * rewrite HF. clear - FF. lia.
    + destruct (r_d _ _ _ R _ _ _ E') as (D1 & D2 & D3 & D4). fold H in D3.
      pose proof (at_bounds _ _ _ _ _ _ R E') as B'. pose proof (at_ok _ _ _ _ _ _ R E') as (FX & FGX & _).
      pose proof (proj1 (proj2 FGX)) as FF. pose proof (bytes_nn (snd x)) as BX.
      pose proof (keys_ok _ FX) as KX.
      rewrite QD. replace (zl X <? zl A) with false by (clear - J5 J1; lia). replace (zl X =? zl A) with false by (clear - J5 J1; lia).
      replace (zl X =? zl A + 1) with false by (clear - J5 J1; lia).
      replace (zl X <=? pg_cc p) with true by (clear - J5 J1 CC; lia). cbv zeta.
      replace (zl X - 1) with (zl X') by (clear - J1; lia).
      assert (B0 : 0 <= group_bytes x) by (pose proof (gb_ok _ FGX) as GX; clear - GX; lia).
      pose proof (r_size _ _ _ R) as SZ.
      rewrite mkd_id; cbn [d_loc d_off d_hk d_hf].
      * rewrite D4, J2, J3, J4. unfold hs in SH |- *. clear - D1 D2 D3 SH. lia.
      * clear - D1 B' B0 SH L J7 SZ. lia.
      * clear - D2 B' B0. lia.
      * unfold hs in SH |- *. 
        assert (H' + keys_sz X' + hsize < 512).
        { destruct (r_last _ _ _ R) as [RT|(A0 & g0 & E0 & Q)]; [specialize (KR RT); clear - KR KB J9 BX KL LIM; lia|].
          rewrite E' in E0. destruct (split3 _ _ _ _ _ _ E0) as [[W [EW1 EW]]|[[W0 [W1 W2]]|[W [_ EW]]]].
          - assert (KY : keys_sz Y = keys_sz W + bytes (snd g0)) by (rewrite EW, keys_app, keys_cons; cbn [keys_sz fold_right]; clear; lia).
            assert (KW : 0 <= keys_sz W).
            { pose proof (r_ok _ _ _ R) as RO. rewrite E' in RO. apply Forall_app in RO. destruct RO as [_ RO]. inversion RO as [|? ? _ RO2]; subst.
              apply Forall_app in RO2. destruct RO2 as [RO2 _]. apply (keys_ok _ RO2). }
            assert (KGX : keys_sz G = keys_sz X' + bytes (snd x) + keys_sz Y) by (rewrite E', keys_app, keys_cons; clear; lia).
            clear - KY KW KGX HX' BX Q. lia.
          - subst g0. clear - J9 HX' Q. lia.
          - destruct W; discriminate. }
        clear - H0 D3 SH KX HH H8. lia.
      * rewrite D4. clear - FF. lia.
  - assert (CC : chunk_at (pg_m q) b I1 /\ chunk_at (pg_m q) rp I2).
    { apply (chunk_cut (pg_m p) (pg_m q) b I1 I2 F1 F2 CA); cbv zeta; fold n1 n2.
      - unfold ds in L. clear - L AF AF1 AF2 AS. lia.
      - unfold ds in L. clear - L AF AF1 AF2 AS. lia.
      - clear - L AF. lia.
      - exact I_5.
      - intros x Hx. apply I_6. unfold ip. clear - Hx. lia.
      - fold rp. intros j J. rewrite (I_7 j J). f_equal. unfold ip. clear; lia.
      - intros x Hx. fold ds. apply I_8. unfold ip. clear - Hx L. lia. }
    intros X x Y HX.
    destruct (Sub _ _ _ HX) as [(Y' & E' & J1 & J2 & J3)|[(-> & -> & ->)|[(-> & -> & ->)|(X' & E' & J1 & J2 & J3 & J4 & J5 & J6 & J7 & J8 & J9)]]].
    + pose proof (at_ok _ _ _ _ _ _ R E') as (FX & (FI & _) & _). pose proof (data_ok _ FX) as DX.
      apply (chunk_ext (pg_m p)); [exact FI|apply (r_m _ _ _ R _ _ _ E')|]. intros z Hz. apply I_4.
      unfold group_bytes in J2. unfold b. unfold hs. clear - Hz J2 HE L DX HH. lia.
    + exact (proj1 CC).
    + destruct HA1 as (Y1 & _). rewrite Y1, GB1. unfold rp, b in CC. rewrite !Z.add_assoc. rewrite Z.add_assoc in CC || idtac. exact (proj2 CC).
    + pose proof (at_ok _ _ _ _ _ _ R E') as (FX & (FI & _) & _).
      replace (st + data_bytes X) with (st + data_bytes X' + ds) by (clear - J2; lia).
      apply (chunk_tr (pg_m p)); [exact FI|apply (r_m _ _ _ R _ _ _ E')|]. intros z Hz.
      apply I_8. pose proof (r_size _ _ _ R) as SZ.
      unfold group_bytes in J7 at 1. unfold ip. assert (Eb : b = st + data_bytes A) by reflexivity. clear - Hz J6 J7 SZ GB T2 L Eb. lia.
  - intros X x Y HX. rewrite ZL'. fold H'.
    destruct (Sub _ _ _ HX) as [(Y' & E' & J1 & J2 & J3)|[(-> & -> & ->)|[(-> & -> & ->)|(X' & E' & J1 & J2 & J3 & J4 & J5 & J6 & J7 & J8 & J9)]]].
    + pose proof (at_ok _ _ _ _ _ _ R E') as (FX & _). pose proof (keys_ok _ FX) as KX.
      replace (H' + keys_sz X) with (H + keys_sz X + (H' - H)) by (clear; lia).
      apply (words_tr (pg_m p)); [apply (r_k _ _ _ R _ _ _ E')|]. intros z Hz. apply I_1.
      unfold bytes in J3. clear - Hz J3 KX. lia.
    + unfold g1. cbn [snd]. replace (H' + keys_sz A) with (H + keys_sz A + (H' - H)) by (clear; lia). exact I_3.
    + destruct HA1 as (_ & _ & Y3 & _). rewrite Y3. unfold g2. cbn [snd].
      pose proof (r_k _ _ _ R _ _ _ E) as W. fold H in W.
      replace (H' + (keys_sz A + hsize)) with (H + keys_sz A + hs) by (unfold hs; clear; lia).
      apply (words_tr (pg_m p)); [exact W|]. intros z Hz. apply I_2. rewrite HE. unfold bytes in KG. clear - Hz KG KC. lia.
    + pose proof (r_k _ _ _ R _ _ _ E') as W. fold H in W.
      replace (H' + keys_sz X) with (H + keys_sz X' + hs) by (unfold hs; clear - J4; lia).
      apply (words_tr (pg_m p)); [exact W|]. intros z Hz. apply I_2. rewrite HE. unfold bytes in J9. clear - Hz J8 J9 BN. lia.
Qed.
