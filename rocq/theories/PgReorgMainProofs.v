(** Proofs for C18: btree_page_reorg as a whole, and the items of a page as its input. *)
From Coq Require Import ZArith List Bool Lia ZifyBool.
From Verif Require Import Base PgChunkModel PgChunkSpec PgChunkProofs PgChunkOpProofs PgChunkRunProofs.
From Verif Require Import PgReorgModel PgReorgSpec PgReorgProofs PgReorgPutProofs PgReorgRepProofs.
Import ListNotations.
Open Scope Z_scope.

Lemma layout_order : forall cs a, map snd (flat_map snd (layout a cs)) = concat cs.
Proof.
  induction cs as [|c cs IH]; intros a; [reflexivity|]. cbn [layout flat_map concat snd].
  rewrite map_app, dests_snd, IH. reflexivity.
Qed.
Lemma dests_in : forall c a d r, In (d, r) (dests a c) -> a <= d /\ d + rsize r <= a + rtotal c.
Proof.
  induction c as [|x c IH]; intros a d r I; [contradiction|]. rewrite rtotal_cons. destruct I as [I|I].
  - injection I; intros; subst. pose proof (rtotal_nn c). lia.
  - specialize (IH _ _ _ I). pose proof (rsize_nn x). lia.
Qed.
Lemma layout_in : forall cs a d r, In (d, r) (flat_map snd (layout a cs)) -> a <= d /\ d + rsize r <= a + cdata cs.
Proof.
  induction cs as [|c cs IH]; intros a d r I; [contradiction|]. cbn [layout flat_map snd] in I. rewrite cdata_cons.
  pose proof (arr_facts (len c) ltac:(lia)). pose proof (rtotal_nn c). pose proof (cdata_nn cs).
  apply in_app_or in I. destruct I as [I|I]; [apply dests_in in I|apply IH in I]; lia.
Qed.

Lemma reorg_rep : forall mk p its hk, (pg_lim p = 256 \/ pg_lim p = 512) -> given mk p its hk ->
  let ws := if pg_right p then [] else snd hk in fits_all p its ws = true ->
  exists G, Rep (reorg mk p its hk) G (area p ws) /\ items G = map (rread (pg_m p)) its /\ keyed mk (high p hk) G /\
    same_cfg p (reorg mk p its hk) /\
    (forall x, x < desc_at + 4 * pg_cc (reorg mk p its hk) \/ blcksz <= x -> pg_m (reorg mk p its hk) x = pg_m p x).
Proof.
  intros mk p its hk HL (GO & GI & GK & GH) ws FI.
  assert (HO : ok_item hk \/ pg_right p = true) by (destruct GH as [GH|GH]; [right; exact GH|left; apply good_ok; exact GH]).
  assert (HH : high p hk = (if pg_right p then 0 else fst hk, ws)) by (unfold high, ws; destruct (pg_right p); [reflexivity|destruct hk; reflexivity]).
  assert (HB : bytes (high p hk) = 2 * len ws) by (rewrite HH; reflexivity).
  assert (W8 : (2 * len ws) mod 8 = 0).
  { unfold ws. destruct (pg_right p); [reflexivity|]. destruct HO as [(_ & M & _)|HO]; [exact M|discriminate]. }
  assert (WR : pg_right p = true -> ws = []) by (unfold ws; intros ->; reflexivity).
  assert (WN : pg_right p = false -> 8 <= 2 * len ws).
  { unfold ws. intros R. rewrite R. destruct HO as [(_ & _ & M)|HO]; [exact M|congruence]. }
  assert (HF : fst (high p hk) = 0 \/ fst (high p hk) = 1).
  { unfold high. destruct (pg_right p); [left; reflexivity|]. destruct HO as [(M & _)|HO]; [exact M|discriminate]. }
  assert (FF : Forall fine its).
  { apply Forall_forall. intros r I. rewrite Forall_forall in GI. apply (good_fine (pg_m p)). apply GI. exact I. }
  assert (KO : forall x, ok_item (mk x)) by (intros x; apply good_ok; apply GK).
  destruct (chunks_ok mk p its ws HL W8 FF (fun x => proj2 (proj2 (KO x))) FI WR WN) as (c & t & EC & CC & NN & KB & K5 & DM).
  set (m0 := pg_m p) in *. set (e := area p ws) in *. set (cs := c :: t) in *.
  assert (HE : 256 <= e /\ e mod 8 = 0 /\ pg_lim p <= e).
  { unfold e, area. change (descs_end 1) with 64. destruct (Z.max_spec (pg_lim p) (64 + 2 * len ws)) as [[? ->]|[? ->]].
    - split; [lia|]. split; [clear - W8; dlia|lia].
    - split; [lia|]. split; [destruct HL as [-> | ->]; reflexivity|lia]. }
  assert (FC : Forall fine c /\ Forall (fun c => c <> [] /\ Forall fine c) t).
  { rewrite <- CC in FF. cbn [concat] in FF. apply Forall_app in FF. destruct FF as [F1 F2]. split; [exact F1|].
    apply Forall_forall. intros d I. rewrite Forall_forall in NN. split; [apply NN; exact I|].
    apply Forall_forall. intros r J. rewrite Forall_forall in F2. apply F2. apply in_concat. exists d. auto. }
  destruct FC as [FC FT].
  unfold reorg. cbv zeta. fold ws. rewrite FI, EC. fold e m0. 
  pose proof (asc_layout cs e) as AS.
  assert (OR : in_order 0 (map snd (flat_map snd (layout e cs))) = true) by (rewrite layout_order; rewrite CC; exact GO).
  destruct (pass1_ok m0 _ _ _ AS OR) as [R1 P1].
  set (m1 := fold_right fwd m0 (flat_map snd (layout e cs))) in *.
  assert (P1F : forall x, x < e \/ 8192 <= x -> m1 x = m0 x).
  { intros x Hx. apply P1. intros d f s n I _. apply layout_in in I. change (rsize (f, Pg s n)) with (2 * Z.of_nat n) in I. lia. }
  clear P1. unfold cs in R1. cbn [layout flat_map snd] in R1.
  set (o := arr_sz (len c)) in *. set (loc2 := e + o + rtotal c) in *.
  assert (CD : cdata cs = o + rtotal c + cdata t) by reflexivity.
  pose proof (arr_facts (len c) ltac:(lia)) as AF. fold o in AF. pose proof (rtotal_nn c) as RN. pose proof (cdata_nn t) as CN.
  pose proof (kk_nn m0 mk t) as KN.
  destruct (put_chunk_ok m0 c (flat_map snd (layout loc2 t)) m1 e (asc_layout _ _) R1 FC ltac:(fold o; lia)) as [CA FR].
  fold o in CA, FR. fold loc2 in FR.
  set (m2 := put_chunk e (dests (e + o) c) m1) in *.
  assert (LC : len cs = 1 + len t) by (unfold cs; apply zl_cons).
  rewrite LC. set (h0 := descs_end (1 + len t)) in *.
  assert (H0 : desc_at + 4 * (1 + len t) <= h0 /\ h0 mod 8 = 0) by (unfold h0, descs_end, ma, desc_at; clear; dlia).
  assert (DA : desc_at = 56) by reflexivity.
  assert (R2 : ready m0 m2 (flat_map snd (layout loc2 t))).
  { apply (ready_ext m0 m1 m2 _ loc2).
    - apply asc_layout.
    - intros d f s n I. apply (R1 d f s n). apply in_or_app. right. exact I.
    - intros a Ha. apply FR. lia. }
  destruct (put_chunks mk false (layout loc2 t) m2 h0) as [[m3 hp] ks] eqn:PC.
  assert (PT : put_chunks mk true (layout e cs) m1 h0 = (m3, hp, ks)) by exact PC. rewrite PT.
  destruct (put_chunks_ok m0 mk e t m2 h0 loc2 m3 hp ks PC R2 FT) as (HP & ALL & LK & FR3).
  { unfold loc2. lia. }
  { unfold loc2. lia. }
  { lia. }
  { lia. }
  set (m4 := if pg_right p then m3 else copy_in hp ws m3).
  assert (F4 : forall a, a < hp \/ hp + 2 * len ws <= a -> m4 a = m3 a).
  { intros a Ha. unfold m4. destruct (pg_right p); [reflexivity|]. apply copy_out. exact Ha. }
  assert (W4 : words m4 hp ws).
  { unfold m4. destruct (pg_right p) eqn:R; [|apply words_in]. rewrite (WR eq_refl). intros j J. cbn in J. lia. }
  set (fl := if pg_right p then 0 else fst hk) in *.
  set (G := rgroups m0 mk (high p hk) cs).
  assert (LG : zl G = 1 + len t) by (unfold G; rewrite rg_len; exact LC).
  assert (KG : key_bytes G = hp + 2 * len ws).
  { rewrite kb, LG. fold h0. unfold G, cs. rewrite rg_keys, HB. lia. }
  assert (DG : data_bytes G = cdata cs) by apply rg_data.
  assert (TL : forall A' d C', cs = A' ++ d :: C' -> t = tl (A' ++ [d]) ++ C' /\ length (tl (A' ++ [d])) = length A' /\
     (A' = [] /\ d = c \/ exists A2, A' = c :: A2)).
  { intros A' d C' E. unfold cs in E. destruct A' as [|a A']; cbn in E; injection E; intros E1 E2.
    - subst. cbn. auto.
    - subst a. cbn [app tl]. rewrite <- app_assoc. split; [exact E1|]. split; [rewrite app_length; cbn; lia|]. right. exists A'. reflexivity. }
  (* the keys *)
  assert (KEYS : forall A' d C', cs = A' ++ d :: C' ->
     nth_error (ks ++ [(hp, fl)]) (length A') = Some (h0 + kk m0 mk (tl (A' ++ [d])), fst (match C' with [] => high p hk | x :: _ => kof m0 mk x end)) /\
     words m4 (h0 + kk m0 mk (tl (A' ++ [d]))) (snd (match C' with [] => high p hk | x :: _ => kof m0 mk x end)) /\
     h0 + kk m0 mk (tl (A' ++ [d])) <= hp).
  { intros A' d C' E. destruct (TL _ _ _ E) as (T1 & T2 & _). destruct C' as [|x C'].
    - rewrite app_nil_r in T1. rewrite <- T1 in *. rewrite nth_error_app2 by lia. replace (length A' - length ks)%nat with O by lia.
      rewrite HH. cbn [nth_error fst snd]. rewrite <- HP. split; [reflexivity|]. split; [exact W4|lia].
    - destruct (ALL _ _ _ T1) as (_ & Q2 & Q3). rewrite T2 in Q3.
      assert (KX : kk m0 mk t = kk m0 mk (tl (A' ++ [d])) + (bytes (kof m0 mk x) + kk m0 mk C')) by (rewrite T1 at 1; rewrite kk_app, kk_cons; reflexivity).
      pose proof (kk_nn m0 mk C') as KN2. pose proof (bytes_nn (kof m0 mk x)) as KN3.
      split; [|split].
      + rewrite nth_error_app1; [exact Q3|]. rewrite LK, T1, app_length. cbn [length]. lia.
      + eapply words_ext; [exact Q2|]. intros a Ha. apply F4. left. change (2 * len (snd (kof m0 mk x))) with (bytes (kof m0 mk x)) in Ha. lia.
      + lia. }
  exists G. split; [|split; [|split; [|split]]].
  - constructor; cbn [pg_cc pg_n pg_size pg_hend pg_lim pg_right pg_d pg_m].
    + (* ok *)
      apply Forall_forall. intros g I. apply in_split in I. destruct I as (A & C & E).
      destruct (rg_split _ _ _ _ _ _ _ E) as (A' & d & C' & E1 & _ & F & S & _).
      assert (FD : Forall fine d).
      { destruct (TL _ _ _ E1) as (T1 & _ & [[_ ->]|[A2 ->]]); [exact FC|]. cbn [app tl] in T1.
        rewrite Forall_forall in FT. apply (FT d). rewrite T1. apply in_or_app. left. apply in_or_app. right. left. reflexivity. }
      split; [rewrite F; apply fines_ok; exact FD|]. rewrite S. destruct C' as [|x C'].
      * split; [exact HF|rewrite HB; exact W8].
      * destruct (TL _ _ _ E1) as (T1 & _). assert (X : x <> []).
        { rewrite Forall_forall in FT. apply (FT x). rewrite T1. apply in_or_app. right. left. reflexivity. }
        destruct x as [|r x]; [congruence|]. cbn [kof]. destruct (KO (rread m0 r)) as (Q1 & Q2 & _). split; assumption.
    + exact (eq_sym LG).
    + unfold G. rewrite rg_cnt, CC. reflexivity.
    + rewrite DG. reflexivity.
    + rewrite KG. reflexivity.
    + rewrite DG. exact DM.
    + rewrite KG. clear - KB HP HE. lia.
    + split; [exact HL|]. clear - HE. lia.
    + intros A g C E. destruct (rg_split _ _ _ _ _ _ _ E) as (A' & d & C' & E1 & _ & _ & _ & _ & _ & K). rewrite LG, K. fold h0.
      destruct (KEYS _ _ _ E1) as (_ & _ & Q). clear - Q K5 HP. lia.
    + destruct (pg_right p) eqn:R; [left; reflexivity|right].
      assert (GN : G <> []) by (intros Q; rewrite Q in LG; change (zl (@nil group)) with 0 in LG; clear - LG; lia).
      destruct (exists_last GN) as (A & g & E). exists A, g. split; [exact E|].
      destruct (rg_split _ _ _ _ _ _ _ E) as (A' & d & C' & E1 & L & _ & S & _).
      assert (C' = []).
      { destruct C'; auto. exfalso. assert (X : length cs = length G) by (unfold G; rewrite rg_len; reflexivity).
        rewrite E1, E, !app_length in X. cbn [length] in X. clear - X L. lia. }
      subst C'. rewrite S, HB. apply WN. exact eq_refl.
    + intros A g C E. destruct (rg_split _ _ _ _ _ _ _ E) as (A' & d & C' & E1 & L & F & S & N & D & K).
      destruct (KEYS _ _ _ E1) as (Q1 & _ & Q3).
      assert (LA : 0 <= zl A < 1 + len t) by (rewrite <- LG, E, zl_app, zl_cons; clear; lia).
      replace ((0 <=? zl A) && (zl A <? 1 + len t)) with true by (clear - LA; lia).
      rewrite Nat2Z.id, <- L.
      rewrite (mkdescs_nth cs A' d C' 0 e _ _ _ _ E1 Q1).
      assert (OK : Forall ok_group A /\ cnt A * 10 <= data_bytes A).
      { assert (FA : Forall ok_group A).
        { apply Forall_forall. intros g2 I2. apply in_split in I2. destruct I2 as (B1 & B2 & EB).
          assert (E9 : G = B1 ++ g2 :: (B2 ++ g :: C)) by (rewrite E, EB, <- app_assoc; reflexivity).
          destruct (rg_split _ _ _ _ _ _ _ E9) as (A9 & d9 & C9 & E19 & _ & F9 & S9 & _).
          assert (FD : Forall fine d9).
          { destruct (TL _ _ _ E19) as (T1 & _ & [[_ ->]|[A2 ->]]); [exact FC|]. cbn [app tl] in T1.
            rewrite Forall_forall in FT. apply (FT d9). rewrite T1. apply in_or_app. left. apply in_or_app. right. left. reflexivity. }
          split; [rewrite F9; apply fines_ok; exact FD|]. rewrite S9. destruct C9 as [|x C9].
          * split; [exact HF|rewrite HB; exact W8].
          * destruct (TL _ _ _ E19) as (T1 & _). assert (X : x <> []).
            { rewrite Forall_forall in FT. apply (FT x). rewrite T1. apply in_or_app. right. left. reflexivity. }
            destruct x as [|r x]; [congruence|]. cbn [kof]. destruct (KO (rread m0 r)) as (Q9 & Q8 & _). split; assumption. }
        split; [exact FA|]. pose proof (data_ok _ FA). lia. }
      destruct OK as [OKA OKB]. pose proof (data_ok _ OKA) as (_ & D8 & C0).
      assert (DL : data_bytes A <= cdata cs).
      { rewrite <- DG, E, data_app, data_cons. unfold group_bytes. rewrite F, count_map, total_map.
        pose proof (rtotal_nn d). pose proof (array_facts (len d) ltac:(clear; lia)).
        assert (0 <= data_bytes C).
        { destruct (rg_split _ _ _ _ _ _ _ E) as (A9 & d9 & C9 & _). clear - E. 
          assert (X : forall l, 0 <= data_bytes l).
          { induction l as [|y l IH]; [cbn; lia|]. rewrite data_cons. unfold group_bytes.
            pose proof (array_facts (count (fst y)) ltac:(unfold count; lia)).
            assert (0 <= total (fst y)) by (clear; induction (fst y) as [|z q IH]; [cbn; lia|]; rewrite total_cons; pose proof (bytes_nn z); lia). lia. }
          apply X. }
        clear - H H1 H2. lia. }
      rewrite <- D, <- N, <- K. rewrite <- K in Q3. rewrite LG. fold h0.
      match goal with |- context [mkd _ _ _ ?f] => replace f with (fst (snd g)) by (rewrite S; reflexivity) end.
      assert (KM : (h0 + keys_sz A) mod 8 = 0).
      { pose proof (keys_ok _ OKA) as [_ KM]. clear - KM H0. dlia. }
      assert (EM : (e + data_bytes A) mod 8 = 0) by (clear - HE D8; dlia).
      pose proof (short8 _ KM) as SK. pose proof (short8 _ EM) as SE.
      assert (FG : fst (snd g) = 0 \/ fst (snd g) = 1).
      { rewrite S. destruct C' as [|x C']; [exact HF|]. destruct (TL _ _ _ E1) as (T1 & _). assert (X : x <> []).
        { rewrite Forall_forall in FT. apply (FT x). rewrite T1. apply in_or_app. right. left. reflexivity. }
        destruct x as [|r x]; [congruence|]. apply (KO (rread m0 r)). }
      pose proof (keys_ok _ OKA) as [KZ _].
      rewrite mkd_id; cbn [d_loc d_off d_hk d_hf].
      * split; [clear - SE; lia|]. split; [clear; lia|]. split; [clear - SK; lia|reflexivity].
      * clear - SE DL DM HE D8 OKB C0. lia.
      * clear - OKB DL DM HE C0. lia.
      * clear - SK K5 Q3 HP H0 DA KZ. lia.
      * clear - FG. lia.
    + intros A g C E. destruct (rg_split _ _ _ _ _ _ _ E) as (A' & d & C' & E1 & L & F & S & N & D & K). rewrite F, D.
      destruct (TL _ _ _ E1) as (T1 & _ & [[-> ->]|[A2 ->]]).
      * cbn [cdata fold_right]. rewrite Z.add_0_r. eapply chunk_ext; [apply fines_ok; exact FC|exact CA|].
        rewrite count_map, total_map. change array with arr_sz. fold o. intros a Ha.
        rewrite F4 by (clear - Ha HP KB HE; lia). apply FR3; [clear - Ha HP KB; lia|unfold loc2; clear - Ha; lia].
      * cbn [app tl] in T1. rewrite <- app_assoc in T1. cbn [app] in T1. destruct (ALL _ _ _ T1) as (Q1 & _).
        rewrite cdata_cons. fold o. replace (e + (o + rtotal c + cdata A2)) with (loc2 + cdata A2) by (unfold loc2; clear; lia).
        eapply chunk_ext; [apply fines_ok|exact Q1|].
        -- rewrite Forall_forall in FT. apply (FT d). rewrite T1. apply in_or_app. right. left. reflexivity.
        -- intros a Ha. apply F4. right. pose proof (cdata_nn A2). unfold loc2 in Ha. clear - Ha H AF RN KB HP. lia.
    + intros A g C E. destruct (rg_split _ _ _ _ _ _ _ E) as (A' & d & C' & E1 & L & F & S & N & D & K). rewrite LG, K, S. fold h0.
      apply (KEYS _ _ _ E1).
  - unfold G. rewrite rg_items, CC. reflexivity.
  - unfold G, cs. apply rg_keyed. exact NN.
  - split; reflexivity.
  - cbn [pg_cc pg_m]. intros x Hx.
    assert (X : x < h0 \/ 8192 <= x) by (unfold blcksz in Hx; clear - Hx H0; lia).
    rewrite F4 by (clear - X HP KB KN DM CD AF RN CN; lia).
    rewrite FR3 by (unfold loc2; clear - X HP KB KN DM CD AF RN CN; lia).
    rewrite FR by (unfold loc2; clear - X HP KB KN DM CD AF RN CN; lia).
    apply P1F. clear - X KB KN. lia.
Qed.
