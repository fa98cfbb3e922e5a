(** Proofs for C18: every operation and every run. *)
From Coq Require Import ZArith List Bool Lia ZifyBool.
From Verif Require Import Base PgChunkModel PgChunkSpec PgChunkProofs PgChunkOpProofs PgChunkEditProofs PgChunkReplaceProofs
  PgChunkRemoveProofs PgChunkMergeProofs PgChunkSplitProofs.
Import ListNotations.
Open Scope Z_scope.

Lemma at_group_eq : forall A g C f, at_group (length A) f (A ++ g :: C) = A ++ f g ++ C.
Proof.
  intros. unfold at_group. rewrite skipn_app, skipn_all, Nat.sub_diag. cbn [app skipn].
  rewrite firstn_app, firstn_all, Nat.sub_diag. cbn [firstn]. rewrite app_nil_r. reflexivity.
Qed.
Lemma join_eq : forall A g1 g2 C, join (length A) (A ++ g1 :: g2 :: C) = A ++ (fst g1 ++ fst g2, snd g2) :: C.
Proof.
  intros A [a k1] [b k2] C. unfold join. rewrite skipn_app, skipn_all, Nat.sub_diag. cbn [app skipn].
  rewrite firstn_app, firstn_all, Nat.sub_diag. cbn [firstn fst snd]. rewrite app_nil_r. reflexivity.
Qed.
Lemma insert_nth_eq : forall {A} (X Y : list A) x, insert_nth (length X) x (X ++ Y) = X ++ x :: Y.
Proof.
  intros. unfold insert_nth. rewrite skipn_app, skipn_all, firstn_app, firstn_all, Nat.sub_diag. cbn [firstn skipn app].
  rewrite app_nil_r. reflexivity.
Qed.
Lemma skip_S : forall {A} (X Y : list A) y, skipn (S (length X)) (X ++ y :: Y) = Y.
Proof. intros. induction X; cbn [length app skipn]; auto. Qed.
Lemma firstn_len : forall {A} (X Y : list A), firstn (length X) (X ++ Y) = X.
Proof. intros. rewrite firstn_app, firstn_all, Nat.sub_diag. cbn [firstn]. apply app_nil_r. Qed.
Lemma skipn_len : forall {A} (X Y : list A), skipn (length X) (X ++ Y) = Y.
Proof. intros. rewrite skipn_app, skipn_all, Nat.sub_diag. reflexivity. Qed.

Lemma place_at : forall A g C i add, place (A ++ g :: C) (zl A) i add = (0 <=? i) && (i <? count (fst g) + add).
Proof.
  intros. unfold place. rewrite Nat2Z.id, nth_middle, zl_app, zl_cons.
  replace (0 <=? zl A) with true by lia. replace (zl A <? zl A + (1 + zl C)) with true by lia. reflexivity.
Qed.
Lemma place_out : forall l c i add, (0 <=? c) && (c <? zl l) = false -> place l c i add = false.
Proof. intros. unfold place. rewrite H. reflexivity. Qed.

Lemma cut2 : forall {A} (l : list A) i, 0 <= i <= zl l -> exists X Y, l = X ++ Y /\ zl X = i.
Proof.
  intros A l i H. exists (firstn (Z.to_nat i) l), (skipn (Z.to_nat i) l). rewrite firstn_skipn. split; auto.
  rewrite firstn_length. lia.
Qed.

Lemma ok_new : forall f ws, even8 ws = true -> flag01 f = true -> ok_item (f, ws).
Proof.
  intros f ws E F. unfold even8 in E. unfold flag01 in F. split; [cbn; lia|]. unfold bytes. cbn [snd].
  assert (length ws mod 4 = 0)%nat by lia. assert (M : (Z.of_nat (length ws)) mod 4 = 0).
  { change 4 with (Z.of_nat 4). rewrite <- Nat2Z.inj_mod. lia. }
  assert (1 <= zl ws) by lia. clear - M H0. dlia.
Qed.

Lemma kept_refl : forall p, kept p p.
Proof. intros p x _. reflexivity. Qed.

Definition same_cfg (p p' : page) : Prop := pg_right p' = pg_right p /\ pg_lim p' = pg_lim p.

(** What is written stays in the page, also over two changes. *)
Definition inside (p p' : page) : Prop :=
  forall x, x < desc_at + 4 * Z.min (pg_cc p) (pg_cc p') \/ blcksz <= x -> pg_m p' x = pg_m p x.
Lemma kept_inside : forall p p', kept p p' -> inside p p'.
Proof. intros p p' K x H. apply K. lia. Qed.

Lemma step_ok : forall p G st o, Rep p G st ->
  Rep (step p o) (gstep st (key_room (pg_lim p) (pg_right p)) G o) st /\ same_cfg p (step p o) /\ inside p (step p o).
Proof.
  intros p G st o R.
  assert (SAME : Rep p G st /\ same_cfg p p /\ inside p p) by (split; [exact R|split; [split; reflexivity|apply kept_inside, kept_refl]]).
  assert (IC : forall c, in_chunk p c = (0 <=? c) && (c <? zl G)) by (intros c; unfold in_chunk; rewrite (r_cc _ _ _ R); reflexivity).
  pose proof (r_size _ _ _ R) as SZ.
  destruct o as [c i f ws|c i f ws|c i|c i f ws]; cbn [step gstep]; cbv zeta; rewrite IC;
    destruct ((0 <=? c) && (c <? zl G)) eqn:HC.
  2: { rewrite (place_out _ _ _ _ HC). exact SAME. }
  3: { rewrite (place_out _ _ _ _ HC). exact SAME. }
  4: { rewrite (place_out _ _ _ _ HC). exact SAME. }
  5: { rewrite (place_out _ _ _ _ HC). exact SAME. }
  - destruct (split_at G c ltac:(lia)) as (A & g & C & E & <-). rewrite E. rewrite place_at, Nat2Z.id, at_group_eq.
    rewrite (at_n _ _ _ _ _ _ R E). cbn [andb]. change (aligned ws) with (even8 ws). change (flag_ok f) with (flag01 f).
    replace (i <? count (fst g) + 1) with (i <=? count (fst g)) by lia.
    destruct ((0 <=? i) && (i <=? count (fst g))) eqn:HI; [|cbn [andb]; rewrite <- E; exact SAME]. cbn [andb].
    destruct (even8 ws) eqn:HE; [|cbn [andb]; rewrite <- E; exact SAME]. destruct (flag01 f) eqn:HF; [|cbn [andb]; rewrite <- E; exact SAME]. cbn [andb].
    destruct (cut2 (fst g) i ltac:(unfold count in HI; lia)) as (X & Y & EI & LX).
    assert (LN : Z.to_nat i = length X) by lia. rewrite LN. replace (insert_nth (length X) (f, ws) (fst g)) with (X ++ (f, ws) :: Y) by (rewrite EI, insert_nth_eq; reflexivity).
    pose proof (ok_new _ _ HE HF) as OI. cbn [app].
    assert (FT : fits_new p (zl A) (2 * zl ws) = (st + data_bytes (A ++ (X ++ (f, ws) :: Y, snd g) :: C) <=? 8192)).
    { unfold fits_new. rewrite (at_n _ _ _ _ _ _ R E), SZ, E. change arr_sz with array. unfold blcksz.
      rewrite !data_app, !data_cons. unfold group_bytes. cbn [fst].
      rewrite !EI, !count_app, !count_cons, !total_app, !total_cons. unfold bytes. cbn [snd].
      replace (count X + (1 + count Y)) with (count X + count Y + 1) by lia. lia. }
    rewrite FT. destruct (_ <=? 8192) eqn:HS; [|rewrite <- E; exact SAME].
    replace i with (count X) by (unfold count; lia).
    destruct (Rep_insert _ _ _ _ _ _ X Y f ws R E EI OI ltac:(unfold blcksz; lia)) as [R1 R2].
    split; [exact R1|]. split; [split; reflexivity|apply kept_inside; exact R2].
  - destruct (split_at G c ltac:(lia)) as (A & g & C & E & <-). rewrite E. rewrite place_at, Nat2Z.id, at_group_eq.
    rewrite (at_n _ _ _ _ _ _ R E). cbn [andb]. change (aligned ws) with (even8 ws). change (flag_ok f) with (flag01 f).
    rewrite Z.add_0_r.
    destruct ((0 <=? i) && (i <? count (fst g))) eqn:HI; [|cbn [andb]; rewrite <- E; exact SAME]. cbn [andb].
    destruct (even8 ws) eqn:HE; [|cbn [andb]; rewrite <- E; exact SAME]. destruct (flag01 f) eqn:HF; [|cbn [andb]; rewrite <- E; exact SAME]. cbn [andb].
    destruct (split_at (fst g) i ltac:(unfold count in HI; lia)) as (X & y & Y & EI & LX).
    assert (LN : Z.to_nat i = length X) by lia. rewrite LN.
    match goal with |- context [replace_nth ?a ?b ?c] =>
      replace (replace_nth a b c) with (X ++ (f, ws) :: Y) by (unfold replace_nth; rewrite EI, firstn_len, skip_S; reflexivity) end.
    pose proof (ok_new _ _ HE HF) as OI. cbn [app].
    replace i with (count X) by (unfold count; lia).
    assert (FT : fits_instead p (zl A) (count X) (2 * zl ws) = (st + data_bytes (A ++ (X ++ (f, ws) :: Y, snd g) :: C) <=? 8192)).
    { unfold fits_instead. rewrite (it_size _ _ _ _ _ _ R E _ _ _ EI), SZ, E. unfold blcksz.
      rewrite !data_app, !data_cons. unfold group_bytes. cbn [fst].
      rewrite !EI, !count_app, !count_cons, !total_app, !total_cons. unfold bytes. cbn [snd]. lia. }
    rewrite FT. destruct (_ <=? 8192) eqn:HS; [|rewrite <- E; exact SAME].
    destruct (Rep_replace _ _ _ _ _ _ X y Y f ws R E EI OI ltac:(unfold blcksz; lia)) as [R1 R2].
    split; [exact R1|]. split; [|apply kept_inside; exact R2].
    unfold fill_item, resize_item. cbv zeta. destruct (_ =? 0); split; reflexivity.
  - destruct (split_at G c ltac:(lia)) as (A & g & C & E & <-). rewrite E. rewrite place_at, Nat2Z.id, at_group_eq.
    rewrite (at_n _ _ _ _ _ _ R E). cbn [andb]. rewrite Z.add_0_r.
    destruct ((0 <=? i) && (i <? count (fst g))) eqn:HI; [|rewrite <- E; exact SAME].
    destruct (split_at (fst g) i ltac:(unfold count in HI; lia)) as (X & y & Y & EI & LX).
    assert (LN : Z.to_nat i = length X) by lia. rewrite LN.
    match goal with |- context [remove_nth ?a ?c] =>
      replace (remove_nth a c) with (X ++ Y) by (unfold remove_nth; rewrite EI, firstn_len, skip_S; reflexivity) end. cbn [app].
    replace i with (count X) by (unfold count; lia).
    destruct (Rep_remove _ _ _ _ _ _ X y Y R E EI) as [R1 K1].
    unfold delete_item. cbv zeta. rewrite (at_n _ _ _ _ _ _ R E).
    set (q := remove_item p (zl A) (count X)) in *.
    assert (CQ : pg_cc q = pg_cc p) by reflexivity. assert (SQ : same_cfg p q) by (split; reflexivity).
    assert (CNT : count (fst g) - 1 = count (X ++ Y)) by (rewrite EI, !count_app, count_cons; lia).
    rewrite CNT. unfold tidy. rewrite skipn_len.
    destruct (X ++ Y) as [|z Z0] eqn:EXY.
    2: { replace (count (z :: Z0) =? 0) with false by (rewrite count_cons; unfold count; lia). split; [exact R1|]. split; [exact SQ|apply kept_inside; exact K1]. }
    change (count [] =? 0) with true.
    destruct A as [|a A'] eqn:EA using rev_ind; [|clear IHA'].
    + cbn [length Z.of_nat app] in *. cbn iota.
      destruct C as [|g2 C'].
      * replace (0 + 1 <? pg_cc q) with false by (rewrite CQ, (r_cc _ _ _ R), E; reflexivity).
        cbn [Z.ltb Z.compare]. split; [exact R1|]. split; [exact SQ|apply kept_inside; exact K1].
      * replace (0 + 1 <? pg_cc q) with true by (rewrite CQ, (r_cc _ _ _ R), E; cbn [app length]; lia).
        cbn [Z.ltb Z.compare].
        destruct (Rep_merge q _ st [] ([], snd g) g2 C' R1 eq_refl) as [R2 K2]. cbn [length Z.of_nat app fst snd] in R2, K2.
        split; [destruct g2; exact R2|]. split; [exact SQ|].
        intros x H. rewrite K2; [apply K1|]; unfold merge_chunks in H |- *; cbn [pg_cc] in H |- *; rewrite ?CQ in *; lia.
    + assert (ZA : zl (A' ++ [a]) = zl A' + 1) by (rewrite zl_app; reflexivity).
      replace (0 <? zl (A' ++ [a])) with true by lia. replace (zl (A' ++ [a]) - 1) with (zl A') by lia.
      rewrite app_length. cbn [length]. rewrite Nat.add_1_r.
      rewrite <- app_assoc in R1 |- *. cbn [app] in R1 |- *.
      destruct (Rep_merge q _ st A' a ([], snd g) C R1 eq_refl) as [R2 K2]. rewrite join_eq.
      split; [exact R2|]. split; [exact SQ|].
      intros x H. rewrite K2; [apply K1|]; unfold merge_chunks in H |- *; cbn [pg_cc] in H |- *; rewrite ?CQ in *; lia.
  - destruct (split_at G c ltac:(lia)) as (A & g & C & E & <-). rewrite E. rewrite place_at, Nat2Z.id, at_group_eq.
    cbn [andb]. change (aligned ws) with (even8 ws). change (flag_ok f) with (flag01 f). rewrite Z.add_0_r.
    destruct (even8 ws) eqn:HE; [|cbn [andb]; rewrite !andb_false_r; cbn [andb]; rewrite <- E; exact SAME].
    destruct (flag01 f) eqn:HF; [|cbn [andb]; rewrite !andb_false_r; cbn [andb]; rewrite <- E; exact SAME].
    rewrite !andb_true_r. cbn [andb].
    unfold may_split. rewrite (at_n _ _ _ _ _ _ R E).
    destruct ((1 <=? i) && (i <? count (fst g))) eqn:HI.
    2: { replace ((0 <=? i) && (i <? count (fst g)) && (1 <=? i)) with false by lia. cbn [andb].
         replace ((pg_hend p <? pg_lim p) && (1 <=? i) && (i <? count (fst g))) with false by lia. cbn [andb]. rewrite <- E. exact SAME. }
    replace ((0 <=? i) && (i <? count (fst g)) && (1 <=? i)) with true by lia. cbn [andb].
    replace ((pg_hend p <? pg_lim p) && (1 <=? i) && (i <? count (fst g))) with (pg_hend p <? pg_lim p) by lia.
    destruct (split_at (fst g) i ltac:(unfold count in HI; lia)) as (X & y & Y & EI & LX).
    assert (LN : Z.to_nat i = length X) by lia. rewrite LN.
    match goal with |- context [firstn ?a (fst ?c)] =>
      replace (firstn a (fst c)) with X by (rewrite EI, firstn_len; reflexivity);
      replace (skipn a (fst c)) with (y :: Y) by (rewrite EI, skipn_len; reflexivity) end. cbn [app].
    pose proof (ok_new _ _ HE HF) as OI.
    replace i with (count X) by (unfold count; lia).
    set (G' := A ++ (X, (f, ws)) :: (y :: Y, snd g) :: C).
    assert (KB : key_bytes G' = pg_hend p + (descs_end (pg_cc p + 1) - descs_end (pg_cc p)) + 2 * zl ws).
    { rewrite (r_hend _ _ _ R), (r_cc _ _ _ R), !kb. unfold G'. rewrite E.
      rewrite !zl_app, !zl_cons, !keys_app, !keys_cons. unfold bytes. cbn [snd].
      replace (zl A + (1 + (1 + zl C))) with (zl A + (1 + zl C) + 1) by lia. lia. }
    assert (DB : st + data_bytes G' = pg_size p + (arr_sz (count X) + arr_sz (count (fst g) - count X) - arr_sz (count (fst g)))).
    { rewrite SZ. unfold G'. rewrite E. change arr_sz with array. rewrite !data_app, !data_cons. unfold group_bytes. cbn [fst].
      rewrite !EI, !count_app, !count_cons, !total_app, !total_cons.
      replace (count X + (1 + count Y) - count X) with (1 + count Y) by lia. lia. }
    pose proof (de_facts (pg_cc p) ltac:(rewrite (r_cc _ _ _ R); lia)) as DE.
    assert (HN : 8 <= 2 * zl ws) by (destruct OI as (_ & _ & OB); exact OB).
    pose proof (r_lim _ _ _ R) as LIM.
    match goal with |- context [if ?c then split_chunk _ _ _ _ _ else _] =>
      assert (GD : c = (key_bytes G' <=? key_room (pg_lim p) (pg_right p)) && (st + data_bytes G' <=? 8192)) end.
    { rewrite KB, DB. unfold key_room, blcksz. cbv zeta. clear - DE HN LIM.
      set (ns := descs_end (pg_cc p + 1) - descs_end (pg_cc p)) in *.
      destruct (pg_right p); cbn [andb].
      - destruct (pg_lim p =? 512) eqn:Q; cbn [andb].
        + destruct (4 <=? pg_lim p - pg_hend p) eqn:Q2.
          * destruct (ns <? pg_lim p - pg_hend p - 4) eqn:Q3; lia.
          * destruct (ns <? pg_lim p - pg_hend p) eqn:Q3; lia.
        + destruct (ns <? pg_lim p - pg_hend p) eqn:Q3; lia.
      - destruct (ns <? pg_lim p - pg_hend p) eqn:Q3; lia. }
    match goal with |- context [key_bytes ?l] => change l with G' end.
    rewrite GD. destruct ((key_bytes G' <=? key_room (pg_lim p) (pg_right p)) && (st + data_bytes G' <=? 8192)) eqn:HG; [|rewrite <- E; exact SAME].
    assert (K1 : key_bytes G' <= pg_lim p) by (unfold key_room in HG; destruct (pg_right p && (pg_lim p =? 512)) eqn:Q; lia).
    assert (K2 : pg_right p = true -> pg_lim p = 512 -> key_bytes G' <= 508).
    { intros Q1 Q2. unfold key_room in HG. rewrite Q1, Q2 in HG. cbn [andb Z.eqb Pos.eqb] in HG. lia. }
    destruct (Rep_cut _ _ _ _ _ _ X y Y f ws R E EI OI K1 K2 ltac:(fold G'; unfold blcksz; lia)) as [R1 R2].
    split; [exact R1|]. split; [split; reflexivity|apply kept_inside; exact R2].
Qed.

Lemma fresh_rep : forall m lim right f ws, fresh_ok lim right f ws = true ->
  Rep (init m lim right f ws) [([], (f, ws))] (fresh_start lim ws).
Proof.
  intros m lim right f ws H. unfold fresh_ok in H. unfold fresh_start.
  assert (HL : lim = 256 \/ lim = 512) by lia. assert (HF : f = 0 \/ f = 1) by (unfold flag01 in H; lia).
  assert (HB : 64 + 2 * zl ws <= 8192) by lia.
  assert (H8 : (2 * zl ws) mod 8 = 0).
  { assert (N : (length ws mod 4 = 0)%nat) by lia.
    assert (M : zl ws mod 4 = 0) by (change 4 with (Z.of_nat 4); rewrite <- Nat2Z.inj_mod; lia). clear - M. dlia. }
  assert (HR : right = true \/ 8 <= 2 * zl ws).
  { assert (N : (length ws mod 4 = 0)%nat) by lia. destruct right; auto. right.
    assert (1 <= length ws)%nat by lia. clear - H8 H0. dlia. }
  clear H. change (descs_end 1) with 64.
  set (st := Z.max lim (64 + 2 * zl ws)).
  assert (S8 : st mod 8 = 0).
  { unfold st. destruct (Z.max_spec lim (64 + 2 * zl ws)) as [[_ ->]|[_ ->]]; [clear - H8; dlia|destruct HL as [-> | ->]; reflexivity]. }
  assert (SB : 256 <= st <= 8192 /\ 64 + 2 * zl ws <= st /\ lim <= st) by (unfold st; clear - HL HB; lia).
  assert (SZ : (if lim <? 64 + 2 * zl ws then 64 + 2 * zl ws else lim) = st).
  { unfold st. destruct (lim <? 64 + 2 * zl ws) eqn:Q; lia. }
  unfold init. cbv zeta. change (descs_end 1) with 64. rewrite SZ.
  assert (KB : key_bytes [([], (f, ws))] = 64 + 2 * zl ws) by (change (64 + (2 * zl ws + 0) = 64 + 2 * zl ws); lia).
  assert (ONE : forall A (g : group) C, [([], (f, ws)) : group] = A ++ g :: C -> A = [] /\ g = ([], (f, ws)) /\ C = []).
  { intros A g C E. destruct A as [|a A]; cbn in E; [injection E as E1 E2; auto|destruct A; discriminate]. }
  constructor; cbn [pg_cc pg_n pg_size pg_hend pg_lim pg_right pg_d pg_m].
  - constructor; [|constructor]. split; [constructor|]. split; [exact HF|exact H8].
  - reflexivity.
  - reflexivity.
  - cbn. lia.
  - rewrite KB. reflexivity.
  - cbn. unfold blcksz. lia.
  - rewrite KB. lia.
  - lia.
  - intros A g C E. destruct (ONE _ _ _ E) as (-> & _ & _). cbn. lia.
  - destruct HR as [HR|HR]; [left; exact HR|right]. exists [], ([], (f, ws)). split; [reflexivity|exact HR].
  - intros A g C E. destruct (ONE _ _ _ E) as (-> & -> & _). rewrite mkd_id; cbn [d_loc d_off d_hk d_hf].
    + split; [rewrite short8 by exact S8; change (data_bytes []) with 0; lia|]. split; [reflexivity|]. split; [reflexivity|reflexivity].
    + pose proof (short8 st S8). lia.
    + lia.
    + change (short 64) with 16. lia.
    + lia.
  - intros A g C E. destruct (ONE _ _ _ E) as (-> & -> & _). intros X x Y EX. destruct X; discriminate.
  - intros A g C E. destruct (ONE _ _ _ E) as (-> & -> & _). cbn [snd]. change (descs_end (zl [([], (f, ws))]) + keys_sz []) with 64. apply words_in.
Qed.

Lemma run_rep : forall ops p G st, Rep p G st ->
  Rep (run step p ops) (run (gstep st (key_room (pg_lim p) (pg_right p))) G ops) st /\ same_cfg p (run step p ops).
Proof.
  unfold run. induction ops as [|o ops IH]; intros p G st R; cbn [fold_left].
  - split; [exact R|split; reflexivity].
  - destruct (step_ok p G st o R) as (R1 & (C1 & C2) & _). destruct (IH _ _ _ R1) as (R2 & C3 & C4).
    rewrite C1, C2 in R2. split; [exact R2|]. split; [rewrite C3; exact C1|rewrite C4; exact C2].
Qed.
