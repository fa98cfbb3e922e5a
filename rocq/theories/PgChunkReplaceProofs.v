(** Proofs for C18: replacing and removing items. *)
From Coq Require Import ZArith List Bool Lia ZifyBool.
From Verif Require Import Base PgChunkModel PgChunkSpec PgChunkProofs PgChunkOpProofs PgChunkEditProofs.
Import ListNotations.
Open Scope Z_scope.

Definition res_mem (m : mem) (b i n next e d : Z) : mem :=
  if d =? 0 then m else bump (b + 2 * (i + 1)) (n - (i + 1)) d (move (next + d) next (e - next) m).

Lemma res_mem_ok : forall m b i n o ip next e d,
  0 <= i < n -> 2 * n <= o -> b + o <= ip -> ip <= next <= e -> ip <= next + d ->
  (forall j, 0 <= j < n -> 0 <= m (b + 2 * j) < 65536) ->
  let m' := res_mem m b i n next e d in
  (forall x, x < b -> m' x = m x) /\ (forall x, next <= x < e -> m' (x + d) = m x) /\
  (forall x, b + o <= x < ip -> m' x = m x) /\
  (forall j, 0 <= j <= i -> m' (b + 2 * j) = m (b + 2 * j)) /\
  (forall j, i < j < n -> m' (b + 2 * j) = w16 (m (b + 2 * j) + d)).
Proof.
  intros m b i n o ip next e d I N O P D W m'. subst m'. unfold res_mem.
  destruct (d =? 0) eqn:Q0.
  - assert (d = 0) by lia. subst d. repeat split; auto.
    + intros. f_equal. lia.
    + intros j J. rewrite Z.add_0_r, w16_id; auto. apply W. lia.
  - split; [|split; [|split; [|split]]].
    + intros x X. unfold bump, move. at_mem.
    + intros x X. unfold bump, move. at_mem.
    + intros x X. unfold bump, move. at_mem.
    + intros x X. unfold bump, move. at_mem.
    + intros x X. unfold bump, move. at_mem.
Qed.

Lemma res_mem_out : forall m b i n o ip next e d x,
  0 <= i < n -> 2 * n <= o -> b + o <= ip -> ip <= next <= e -> ip <= next + d ->
  x < b \/ (e <= x /\ e + d <= x) -> res_mem m b i n next e d x = m x.
Proof. intros. unfold res_mem. unfold bump, move. at_mem. Qed.

(** What both need about the page. *)
Lemma edit_facts : forall p G st A g C X y Y, Rep p G st -> G = A ++ g :: C -> fst g = X ++ y :: Y ->
  let b := st + data_bytes A in let n := count (fst g) in
  (Forall ok_item X /\ Forall ok_item Y /\ ok_item y) /\
  (n = count X + 1 + count Y /\ 0 <= count X /\ 0 <= count Y /\ 2 * n <= array n /\
   0 <= total X /\ 0 <= total Y /\ 8 <= bytes y /\ 0 <= b /\ b + group_bytes g + data_bytes C = pg_size p /\ 0 <= data_bytes C /\
   pg_size p <= 8192 /\ group_bytes g = array n + total X + bytes y + total Y) /\
  (forall j, 0 <= j < n -> 0 <= pg_m p (b + 2 * j) < 65536) /\
  (if count X + 1 <? n then b + off_of (pg_m p (b + 2 * (count X + 1))) else b + chunk_sz p (zl A)) = b + array n + total X + bytes y /\
  off_of (pg_m p (b + 2 * count X)) = array n + total X.
Proof.
  intros p G st A g C X y Y R E EI b n.
  pose proof (at_ok _ _ _ _ _ _ R E) as (F1 & F2 & F3).
  pose proof (at_bounds _ _ _ _ _ _ R E) as B.
  destruct (it_bounds _ _ _ _ _ _ R E _ _ _ EI) as (OY & FX & FY & IB).
  pose proof (array_facts n ltac:(unfold n; lia)) as AN.
  assert (L : n = count X + 1 + count Y /\ 0 <= count X /\ 0 <= count Y /\ 2 * n <= array n /\
   0 <= total X /\ 0 <= total Y /\ 8 <= bytes y /\ 0 <= b /\ b + group_bytes g + data_bytes C = pg_size p /\ 0 <= data_bytes C /\
   pg_size p <= 8192 /\ group_bytes g = array n + total X + bytes y + total Y).
  { destruct OY as (_ & _ & OY). fold n in B, IB. unfold b. lia. }
  split; [auto|]. split; [exact L|]. clear B IB AN. split; [|split].
  - apply chunk_words; [apply F2|apply (r_m _ _ _ R _ _ _ E)|]. fold n. unfold group_bytes in L. fold n in L. lia.
  - destruct (count X + 1 <? n) eqn:Q.
    + destruct Y as [|z Y']; [cbn in L; lia|].
      assert (E2 : fst g = (X ++ [y]) ++ z :: Y') by (rewrite <- app_assoc; exact EI).
      destruct (it_word _ _ _ _ _ _ R E _ _ _ E2) as (_ & W & _). rewrite (at_loc _ _ _ _ _ _ R E) in W.
      rewrite count_app in W. change (count [y]) with 1 in W. fold b n in W. rewrite W. rewrite total_app. change (total [y]) with (bytes y + 0). lia.
    + rewrite (at_sz _ _ _ _ _ _ R E). assert (count Y = 0) by lia. assert (Y = []) by (destruct Y; [auto|cbn in *; lia]).
      assert (total Y = 0) by (rewrite H0; reflexivity). lia.
  - destruct (it_word _ _ _ _ _ _ R E _ _ _ EI) as (_ & W & _). rewrite (at_loc _ _ _ _ _ _ R E) in W. exact W.
Qed.

Lemma desc_same : forall p G st j, Rep p G st -> 0 <= j < zl G ->
  pg_d p j = mkd (d_loc (pg_d p j)) (d_off (pg_d p j)) (d_hk (pg_d p j)) (d_hf (pg_d p j)).
Proof.
  intros p G st j R JJ.
  destruct (split_at G j JJ) as (A1 & g1 & C1 & E1 & <-).
  destruct (r_d _ _ _ R _ _ _ E1) as (D1 & D2 & D3 & D4).
  pose proof (at_bounds _ _ _ _ _ _ R E1) as B1. pose proof (r_hk _ _ _ R _ _ _ E1) as HK.
  pose proof (at_ok _ _ _ _ _ _ R E1) as (FA & FG & _). pose proof (proj1 (proj2 FG)) as F.
  pose proof (proj1 (keys_ok _ FA)) as KO.
  pose proof (proj1 (de_facts (zl G) ltac:(lia))) as DE. pose proof (gb_ok g1 FG) as GB.
  assert (X1 : 0 <= d_loc (pg_d p (zl A1)) < 4096) by (clear - D1 B1 GB; lia).
  assert (X2 : 0 <= d_off (pg_d p (zl A1)) < 1024) by (clear - D2 B1 GB; lia).
  assert (X3 : 0 <= d_hk (pg_d p (zl A1)) < 128) by (clear - D3 HK KO DE; lia).
  assert (X4 : 0 <= d_hf (pg_d p (zl A1)) < 4) by (clear - D4 F; lia).
  rewrite mkd_id by assumption. destruct (pg_d p (zl A1)); reflexivity.
Qed.

Lemma Rep_replace : forall p G st A g C X y Y f ws,
  Rep p G st -> G = A ++ g :: C -> fst g = X ++ y :: Y -> ok_item (f, ws) ->
  let g' := (X ++ (f, ws) :: Y, snd g) in
  st + data_bytes (A ++ g' :: C) <= blcksz ->
  let p' := fill_item (resize_item p (zl A) (count X) (2 * zl ws)) (zl A) (count X) f ws in
  Rep p' (A ++ g' :: C) st /\ kept p p'.
Proof.
  intros p G st A g C X y Y f ws R E EI OI g' M p0; subst p0.
  destruct (edit_facts _ _ _ _ _ _ _ _ _ R E EI) as ((FX & FY & OY) & L & WR & NX & OW). cbv zeta in *.
  pose proof (proj1 (proj2 (at_ok _ _ _ _ _ _ R E))) as F2.
  assert (OG : ok_group g').
  { destruct F2 as [_ F2]. split; [|exact F2]. unfold g'. cbn [fst]. apply Forall_app. auto. }
  pose proof (r_m _ _ _ R _ _ _ E) as CA.
  set (b := st + data_bytes A) in *. set (n := count (fst g)) in *.
  assert (CG : count (fst g') = n) by (unfold g'; cbn [fst]; ls; lia).
  assert (DG : group_bytes g' = array n + total X + 2 * zl ws + total Y).
  { unfold group_bytes. rewrite CG. unfold g'. cbn [fst]. ls. unfold bytes. cbn [snd]. lia. }
  assert (M8 : b + group_bytes g' + data_bytes C <= 8192) by (unfold blcksz in M; rewrite data_app, data_cons in M; unfold b; lia).
  assert (L2 : 0 <= zl ws) by lia.
  set (d := 2 * zl ws - bytes y).
  set (q := resize_item p (zl A) (count X) (2 * zl ws)).
  assert (QM : pg_m q = res_mem (pg_m p) b (count X) n (b + array n + total X + bytes y) (pg_size p) d).
  { unfold q, resize_item, res_mem. cbv zeta. rewrite (it_size _ _ _ _ _ _ R E _ _ _ EI). fold d.
    rewrite (at_loc _ _ _ _ _ _ R E), (at_n _ _ _ _ _ _ R E). fold b. fold n. rewrite NX.
    destruct (d =? 0); reflexivity. }
  destruct (res_mem_ok (pg_m p) b (count X) n (array n) (b + array n + total X) (b + array n + total X + bytes y) (pg_size p) d
    ltac:(lia) ltac:(lia) ltac:(lia) ltac:(lia) ltac:(unfold d; lia) WR) as (I1 & I2 & I3 & I4 & I5).
  rewrite <- QM in I1, I2, I3, I4, I5.
  assert (QD : forall j, j <= zl A -> pg_d q j = pg_d p j).
  { intros j J. unfold q, resize_item. cbv zeta. destruct (_ =? 0); auto. cbn [pg_d]. replace (zl A <? j) with false by lia. auto. }
  assert (QL : loc_at q (zl A) = b).
  { unfold loc_at. rewrite QD by lia. apply (at_loc _ _ _ _ _ _ R E). }
  assert (V1 : 0 <= array n + total X < 16384) by lia.
  assert (V2 : pg_m q (b + 2 * count X) = fst y * 16384 + (array n + total X)).
  { rewrite I4 by lia. destruct (it_word _ _ _ _ _ _ R E _ _ _ EI) as (W & _). rewrite (at_loc _ _ _ _ _ _ R E) in W. exact W. }
  assert (V3 : 0 <= pg_m q (b + 2 * count X) < 32768).
  { rewrite V2. destruct OY as [[-> | ->] _]; lia. }
  assert (V4 : off_of (pg_m q (b + 2 * count X)) = array n + total X) by (rewrite I4 by lia; exact OW).
  destruct (fill_mem_ok (pg_m q) b (count X) (array n + total X) (array n + total X) f ws
     ltac:(lia) V1 (proj1 OI) V4 V3) as (K1 & K2 & K3).
  set (p' := fill_item q (zl A) (count X) f ws).
  assert (PM : pg_m p' = fill_mem (pg_m q) b (count X) (array n + total X) f ws).
  { unfold p', fill_item. cbv zeta. cbn [pg_m]. rewrite QL, V4. reflexivity. }
  rewrite <- PM in K1, K2, K3.
  clear V2 V3 V4.
  assert (DD : group_bytes g' - group_bytes g = d) by (unfold d; lia).
  assert (QP : pg_cc q = pg_cc p /\ pg_hend q = pg_hend p /\ pg_right q = pg_right p /\ pg_lim q = pg_lim p /\ pg_n q = pg_n p /\
     pg_size q = pg_size p + d).
  { unfold q, resize_item. cbv zeta. rewrite (it_size _ _ _ _ _ _ R E _ _ _ EI). fold d.
    destruct (d =? 0) eqn:Q; [|repeat split]. repeat split; auto. lia. }
  destruct QP as (Q1 & Q2 & Q3 & Q4 & Q5 & Q6).
  assert (QD2 : forall j, zl A < j < pg_cc p -> pg_d q j = mkd (d_loc (pg_d p j) + short d) (d_off (pg_d p j) + 0) (d_hk (pg_d p j)) (d_hf (pg_d p j))).
  { intros j J. unfold q, resize_item. cbv zeta. rewrite (it_size _ _ _ _ _ _ R E _ _ _ EI). fold d.
    destruct (d =? 0) eqn:Q.
    - assert (d = 0) by lia. rewrite H. change (short 0) with 0. rewrite !Z.add_0_r.
      apply (desc_same _ _ _ _ R). pose proof (r_cc _ _ _ R) as CCR. clear - J CCR. lia.
    - cbn [pg_d]. replace ((zl A <? j) && (j <? pg_cc p)) with true by lia. rewrite Z.add_0_r. reflexivity. }
  assert (KP : kept p p').
  { intros x Hx. pose proof (below _ _ _ _ _ _ R E) as BL. fold b in BL. change (pg_cc p') with (pg_cc q) in Hx. rewrite Q1 in Hx. unfold blcksz in Hx.
    assert (PS : pg_size p + d <= 8192) by (clear - L M8 DD; lia).
    assert (DL : array n + total X + 2 * zl ws <= 8192) by (clear - L M8 DG; lia).
    rewrite K1; [|clear - Hx BL L; lia|clear - Hx BL L M8 DG L2; lia].
    rewrite QM. apply (res_mem_out _ _ _ _ (array n) (b + array n + total X)); try (unfold d; clear - L L2; lia). clear - Hx BL PS L. lia. }
  clear QM PM QL.
  split; [|exact KP]. apply (Rep_change p p' G st A g g' C R E OG eq_refl M); try assumption.
  - rewrite CG. fold n. unfold p', fill_item. cbn [pg_n]. lia.
  - rewrite DD. exact Q6.
  - intros j J. rewrite DD, CG. fold n. replace (n - n) with 0 by lia. apply QD2. auto.
  - intros x H. fold b in H. rewrite K1 by lia. apply I1. auto.
  - intros x H. fold b in H. rewrite DD. rewrite K1 by (unfold d; lia). apply I2. lia.
  - fold b. unfold g'. cbn [fst]. change (X ++ (f, ws) :: Y) with (X ++ [(f, ws)] ++ Y).
    assert (O1 : Forall ok_item [(f, ws)]) by (constructor; [exact OI|constructor]).
    assert (O2 : Forall ok_item [y]) by (constructor; [exact OY|constructor]).
    assert (T1 : total [(f, ws)] = 2 * zl ws) by (cbn; lia). assert (T2 : total [y] = bytes y) by (cbn; lia).
    assert (C1 : count [(f, ws)] = 1) by reflexivity. assert (C2 : count [y] = 1) by reflexivity.
    apply (chunk_edit (pg_m p) (pg_m p') b X [y] [(f, ws)] Y FX O2 O1 FY); cbv zeta;
      rewrite ?C2, ?C1, ?T2, ?T1; replace (count X + 1 + count Y) with n by lia;
      replace (array n - array n + 2 * zl ws - bytes y) with d by (unfold d; lia); replace (array n - array n) with 0 by lia.
    + cbn [app]. rewrite <- EI. exact CA.
    + lia.
    + lia.
    + intros j J. rewrite K1 by lia. rewrite I4 by lia. rewrite Z.add_0_r, w16_id; [auto|apply WR; lia].
    + intros x H. rewrite Z.add_0_r. rewrite K1 by lia. apply I3. lia.
    + intros j J. rewrite K1 by lia. rewrite I5 by lia. f_equal.
    + intros x H. rewrite K1 by (unfold d; lia). apply I2. lia.
    + intros N1 x N2 EN. destruct N1 as [|? N1]; [|destruct N1; discriminate]. injection EN as <- _. cbn [fst snd].
      change (count []) with 0. change (total []) with 0. rewrite !Z.add_0_r. rewrite K2. split; [lia|]. rewrite <- Z.add_assoc. exact K3.
Qed.
