From Coq Require Import ZArith List Bool Lia ZifyBool.
From Verif Require Import Base PageSearchModel PageSearchSpec.
Import ListNotations.
Open Scope Z_scope.

Section P.
Variable K : Type.
Variable p : page K.
Hypothesis L : layout p.

Definition cend (c : Z) : Z := if c + 1 <? chunksCount p then offset p (c + 1) else itemsCount p.

Lemma off_mono : forall n c, 0 <= c -> c + Z.of_nat n < chunksCount p -> offset p c <= offset p (c + Z.of_nat n).
Proof.
  induction n as [|n IH]; intros c H1 H2.
  - replace (c + Z.of_nat 0) with c by lia. lia.
  - specialize (IH c H1 ltac:(lia)).
    pose proof (l_mono p L (c + Z.of_nat n) ltac:(lia) ltac:(lia)).
    replace (c + Z.of_nat (Datatypes.S n)) with (c + Z.of_nat n + 1) by lia. lia.
Qed.
Lemma off_le c d : 0 <= c <= d -> d < chunksCount p -> offset p c <= offset p d.
Proof. intros H1 H2. pose proof (off_mono (Z.to_nat (d - c)) c). replace (c + Z.of_nat (Z.to_nat (d - c))) with d in H by lia. lia. Qed.
Lemma off_ic c : 0 <= c < chunksCount p -> 0 <= offset p c <= itemsCount p.
Proof.
  intros H. pose proof (off_le 0 c). pose proof (off_le c (chunksCount p - 1)). pose proof (l_end p L). pose proof (l_first p L). lia.
Qed.
Lemma cend_le c : 0 <= c < chunksCount p -> offset p c <= cend c <= itemsCount p.
Proof.
  intros H. unfold cend. destruct (c + 1 <? chunksCount p) eqn:E.
  - pose proof (off_le c (c + 1)). pose proof (off_ic (c + 1)). lia.
  - pose proof (off_ic c). lia.
Qed.

Definition wl (l : locator) : Prop :=
  l_valid l = true /\ 0 <= l_chunk l < chunksCount p /\ 0 <= l_item l /\ l_count l = cend (l_chunk l) - offset p (l_chunk l).

Lemma fill_wl c : 0 <= c < chunksCount p ->
  let l := page_chunk_fill_locator p c in wl l /\ l_chunk l = c /\ l_item l = 0 /\ l_count l = cend c - offset p c.
Proof.
  intros H. unfold wl, page_chunk_fill_locator, cend; cbn.
  destruct (c + 1 <? chunksCount p); repeat split; auto; lia.
Qed.

Lemma des l pos : wl l -> l_item l < l_count l -> offset p (l_chunk l) + l_item l = pos -> designates p l pos.
Proof.
  intros (A & B & C & D) E F. unfold designates. rewrite D in *. unfold cend in *. tauto.
Qed.
Lemma des_wl l pos : designates p l pos -> wl l /\ l_item l < l_count l /\ offset p (l_chunk l) + l_item l = pos /\ 0 <= pos < itemsCount p.
Proof.
  intros (A & B & C & D & E). assert (wl l) by (unfold wl, cend; tauto).
  pose proof (cend_le (l_chunk l) B). pose proof (off_ic (l_chunk l) B). destruct H as (H & H0' & H0'' & H3). unfold wl. rewrite H3 in *. split; [tauto|]. lia.
Qed.

(* page_item_fill_locator *)
Lemma fill_loop_spec i : forall n c, 0 <= c < chunksCount p -> chunksCount p - c <= Z.of_nat n -> offset p c <= i ->
  let r := fill_loop n p i c in
  0 <= r < chunksCount p /\ offset p r <= i /\ (r + 1 < chunksCount p -> i < offset p (r + 1)).
Proof.
  induction n as [|n IH]; intros c H1 H2 H3; cbn [fill_loop]. { lia. }
  destruct ((c <? chunksCount p - 1) && (i >=? offset p (c + 1))) eqn:E.
  - apply IH; lia.
  - cbn zeta. lia.
Qed.
Lemma item_fill_spec i : 0 <= i < itemsCount p -> designates p (page_item_fill_locator p i) i.
Proof.
  intros H. unfold page_item_fill_locator.
  pose proof (fill_loop_spec i (Z.to_nat (chunksCount p)) 0) as F. pose proof (l_cc p L). pose proof (l_first p L).
  specialize (F ltac:(lia) ltac:(lia) ltac:(lia)). cbn zeta in F.
  set (r := fill_loop _ p i 0) in *. unfold designates, page_chunk_fill_locator; cbn [l_valid l_chunk l_item l_count].
  destruct (r + 1 <? chunksCount p) eqn:E; repeat split; auto; lia.
Qed.
Lemma fill_back_spec i : forall n c, 0 <= c < chunksCount p -> c + 1 <= Z.of_nat n -> 0 <= i ->
  (c + 1 < chunksCount p -> i < offset p (c + 1)) ->
  let r := fill_back_loop n p i c in
  0 <= r < chunksCount p /\ offset p r <= i /\ (r + 1 < chunksCount p -> i < offset p (r + 1)).
Proof.
  induction n as [|n IH]; intros c H1 H2 H3 H4; cbn [fill_back_loop]. { lia. }
  destruct (i <? offset p c) eqn:E.
  - pose proof (l_first p L). assert (c <> 0) by (intros ->; lia).
    apply IH; try lia. replace (c - 1 + 1) with c by lia. lia.
  - cbn zeta. lia.
Qed.
Lemma item_fill_back_spec i : 0 <= i <= itemsCount p ->
  let l := page_item_fill_locator_backwards p i in
  wl l /\ offset p (l_chunk l) + l_item l = i /\ (i < itemsCount p -> designates p l i).
Proof.
  intros H. unfold page_item_fill_locator_backwards. pose proof (l_cc p L).
  pose proof (fill_back_spec i (Z.to_nat (chunksCount p)) (chunksCount p - 1) ltac:(lia) ltac:(lia) ltac:(lia) ltac:(lia)) as F.
  cbn zeta in F |- *. set (r := fill_back_loop _ p i _) in *.
  unfold wl, designates, cend, page_chunk_fill_locator; cbn [l_valid l_chunk l_item l_count].
  destruct (r + 1 <? chunksCount p) eqn:E; repeat split; auto; lia.
Qed.

(* next *)
Lemma next_chunk_spec : forall n l, wl l -> chunksCount p - l_chunk l < Z.of_nat n ->
  l_item l <= l_count l ->
  let pos := offset p (l_chunk l) + l_item l in
  let r := next_chunk n p l in
  (snd r = true -> designates p (fst r) pos) /\
  (snd r = false -> pos = itemsCount p /\ locator_is_valid (fst r) = false) /\
  (snd r = false -> get_offset p (fst r) = itemsCount p).
Proof.
  induction n as [|n IH]; intros l W H HI; cbn [next_chunk]. { destruct W as (_ & ? & _). lia. }
  destruct W as (W1 & W2 & W3 & W4).
  pose proof (cend_le _ W2).
  destruct (l_item l >=? l_count l) eqn:E.
  - destruct (l_chunk l + 1 <? chunksCount p) eqn:E2.
    + destruct (fill_wl (l_chunk l + 1) ltac:(lia)) as (A & B & C & D). cbn zeta in *.
      pose proof (cend_le (l_chunk l + 1) ltac:(lia)).
      specialize (IH _ A). rewrite B, C, D in IH. specialize (IH ltac:(lia) ltac:(lia)).
      replace (offset p (l_chunk l + 1) + 0) with (offset p (l_chunk l) + l_item l) in IH; auto.
      unfold cend in *. rewrite E2 in *. lia.
    + cbn. unfold get_offset, locator_is_valid. unfold cend in *. rewrite E2 in *. split; [discriminate|]. lia.
  - cbn. split; [|split; discriminate]. intros _. apply des; auto. { repeat split; auto; lia. } lia.
Qed.
Lemma next_spec l pos : designates p l pos ->
  let r := locator_next p l in
  (snd r = true <-> pos + 1 < itemsCount p) /\
  (pos + 1 < itemsCount p -> designates p (fst r) (pos + 1)) /\
  (pos + 1 = itemsCount p -> locator_is_valid (fst r) = false).
Proof.
  intros D. destruct (des_wl _ _ D) as (W & H1 & H2 & H3). unfold locator_next.
  destruct W as (W1 & W2 & W3 & W4).
  pose proof (cend_le _ W2).
  cbn [l_item l_count l_chunk l_valid].
  destruct (l_item l + 1 <? l_count l) eqn:E; cbn zeta.
  - cbn [fst snd]. split; [split; [lia|reflexivity]|]. split.
    + intros _. apply des; cbn; try lia. unfold wl; cbn. lia.
    + lia.
  - unfold page_locator_next_chunk. rewrite W1.
    pose proof (next_chunk_spec (Datatypes.S (Z.to_nat (chunksCount p))) (mkLoc true (l_chunk l) (l_item l + 1) (l_count l))) as N.
    cbn [l_item l_count l_chunk l_valid] in N.
    specialize (N ltac:(unfold wl; cbn; lia) ltac:(lia) ltac:(lia)). cbn zeta in N.
    destruct (next_chunk _ p _) as [l' b]. cbn [fst snd] in *. destruct N as (N1 & N2 & N3).
    replace (pos + 1) with (offset p (l_chunk l) + (l_item l + 1)) by lia.
    destruct b.
    + specialize (N1 eq_refl). destruct (des_wl _ _ N1) as (? & ? & ? & ?).
      split; [split; [lia|reflexivity]|]. split; [auto|lia].
    + destruct (N2 eq_refl) as [N2a N2b]. split; [split; [discriminate|lia]|]. split; [lia|auto].
Qed.

(* prev *)
Lemma prev_chunk_spec : forall n l, wl l -> l_chunk l < Z.of_nat n ->
  let pos := offset p (l_chunk l) in
  let r := prev_chunk n p l in
  (0 < pos -> snd r = true /\ designates p (fst r) (pos - 1)) /\
  (pos = 0 -> snd r = false /\ locator_is_valid (fst r) = false).
Proof.
  induction n as [|n IH]; intros l W H; cbn [prev_chunk]. { destruct W as (_ & ? & _). lia. }
  destruct W as (W1 & W2 & W3 & W4).
  pose proof (off_ic _ W2).
  destruct (l_chunk l >? 0) eqn:E.
  - destruct (fill_wl (l_chunk l - 1) ltac:(lia)) as (A & B & C & D). cbn zeta in *.
    pose proof (cend_le (l_chunk l - 1) ltac:(lia)). pose proof (off_ic (l_chunk l - 1) ltac:(lia)).
    assert (cend (l_chunk l - 1) = offset p (l_chunk l)) as CE.
    { unfold cend. replace (l_chunk l - 1 + 1) with (l_chunk l) by lia. replace (l_chunk l <? chunksCount p) with true by lia. auto. }
    destruct (l_count _ =? 0) eqn:E2.
    + specialize (IH _ A). rewrite B, D in *. specialize (IH ltac:(lia)).
      replace (offset p (l_chunk l - 1)) with (offset p (l_chunk l)) in IH by lia. auto.
    + cbn [fst snd]. rewrite D in *. split.
      * intros _. split; auto. apply des; cbn; rewrite ?B, ?D; try lia.
        unfold wl; cbn. rewrite ?B, ?D. lia.
      * lia.
  - cbn [fst snd]. assert (l_chunk l = 0) as -> by lia. pose proof (l_first p L). split; [lia|]. intros _. split; reflexivity.
Qed.
Lemma prev_spec l : wl l -> l_item l <= l_count l ->
  let pos := offset p (l_chunk l) + l_item l in
  let r := locator_prev p l in
  (0 < pos -> snd r = true /\ designates p (fst r) (pos - 1)) /\
  (pos = 0 -> snd r = false /\ locator_is_valid (fst r) = false).
Proof.
  intros W I. pose proof W as (W1 & W2 & W3 & W4). pose proof (off_ic _ W2).
  unfold locator_prev. destruct (l_item l >? 0) eqn:E; cbn zeta.
  - cbn [fst snd]. split; [|lia]. intros _. split; auto.
    apply des; cbn; try lia. unfold wl; cbn; lia.
  - unfold page_locator_prev_chunk.
    pose proof (prev_chunk_spec (Datatypes.S (Z.to_nat (chunksCount p))) l W ltac:(lia)) as P. cbn zeta in P.
    replace (l_item l) with 0 by lia. rewrite Z.add_0_r. auto.
Qed.

(* find_real_item *)
Lemma find_real_spec : forall n l, wl l -> chunksCount p - l_chunk l <= Z.of_nat n -> l_item l <= l_count l ->
  let pos := offset p (l_chunk l) + l_item l in
  let r := find_real n p l in
  wl r /\ get_offset p r = pos /\ (pos < itemsCount p -> designates p r pos) /\
  (pos = itemsCount p -> locator_is_valid r = false).
Proof.
  induction n as [|n IH]; intros l W H HI; cbn [find_real]. { destruct W as (_ & ? & _). lia. }
  pose proof W as (W1 & W2 & W3 & W4).
  pose proof (cend_le _ W2).
  destruct (l_item l >=? l_count l) eqn:E.
  - destruct (l_chunk l >=? chunksCount p - 1) eqn:E2.
    + cbn zeta. unfold get_offset, locator_is_valid. unfold cend in *.
      replace (l_chunk l + 1 <? chunksCount p) with false in * by lia. split; [auto|]. split; [lia|]. split; lia.
    + destruct (fill_wl (l_chunk l + 1) ltac:(lia)) as (A & B & C & D). cbn zeta in *.
      pose proof (cend_le (l_chunk l + 1) ltac:(lia)).
      rewrite B, D. replace (l_item l - l_count l) with 0 by lia.
      specialize (IH (mkLoc true (l_chunk l + 1) 0 (cend (l_chunk l + 1) - offset p (l_chunk l + 1)))).
      cbn [l_chunk l_item l_count] in IH.
      specialize (IH ltac:(unfold wl; cbn; lia) ltac:(lia) ltac:(lia)).
      replace (offset p (l_chunk l + 1) + 0) with (offset p (l_chunk l) + l_item l) in IH; auto.
      unfold cend in *. replace (l_chunk l + 1 <? chunksCount p) with true in * by lia. lia.
  - cbn zeta. split; [auto|]. split; [reflexivity|]. split.
    + intros _. apply des; auto; lia.
    + lia.
Qed.

(* foreach *)
Lemma foreach_spec : forall n l pos, designates p l pos -> itemsCount p - pos <= Z.of_nat n ->
  foreach n p l = map (fun j => pos + Z.of_nat j) (seq 0 (Z.to_nat (itemsCount p - pos))).
Proof.
  induction n as [|n IH]; intros l pos D H. { destruct (des_wl _ _ D) as (_ & _ & _ & ?). lia. }
  cbn [foreach]. destruct (des_wl _ _ D) as (W & H1 & H2 & H3).
  unfold locator_is_valid at 1. destruct W as (W1 & _). rewrite W1. replace (l_item l <? l_count l) with true by lia. cbn [andb].
  unfold get_offset at 1. rewrite H2.
  destruct (next_spec l pos D) as (N1 & N2 & N3). cbn zeta in *.
  replace (Z.to_nat (itemsCount p - pos)) with (Datatypes.S (Z.to_nat (itemsCount p - (pos + 1)))) by lia.
  cbn [seq map]. f_equal; [lia|].
  destruct (Z.eq_dec (pos + 1) (itemsCount p)) as [E|E].
  - replace (Z.to_nat (itemsCount p - (pos + 1))) with 0%nat by lia. cbn.
    destruct n; cbn [foreach]; auto. rewrite (N3 E). auto.
  - rewrite (IH _ (pos + 1)); [|apply N2; lia|lia].
    rewrite <- seq_shift, map_map. apply map_ext. intros; lia.
Qed.

(* the two binary searches *)
Variable cmp : K -> Z.
Lemma chunks_loop_spec t : (forall c d, 0 <= c -> c < d -> d < chunksCount p - 1 -> cmp (hikey p d) >= t -> cmp (hikey p c) >= t) ->
  forall n low high, 0 <= low <= high -> high <= chunksCount p - 1 -> high - low <= Z.of_nat n ->
  (forall c, 0 <= c < low -> cmp (hikey p c) >= t) ->
  (forall c, high <= c < chunksCount p - 1 -> cmp (hikey p c) < t) ->
  let r := chunks_loop n p cmp t low high in
  0 <= r < chunksCount p /\ (forall c, 0 <= c < r -> cmp (hikey p c) >= t) /\
  (forall c, r <= c < chunksCount p - 1 -> cmp (hikey p c) < t).
Proof.
  intros M. pose proof (l_cc p L).
  induction n as [|n IH]; intros low high H1 H2 H3 A B; cbn [chunks_loop].
  { cbn zeta. replace high with low in B by lia. repeat split; auto; lia. }
  destruct (high >? low) eqn:E.
  - set (mid := low + (high - low) / 2).
    assert (low <= mid < high). { unfold mid. pose proof (Z.div_lt_upper_bound (high - low) 2 (high - low)). pose proof (Z.div_pos (high - low) 2). lia. }
    destruct (cmp (hikey p mid) >=? t) eqn:E2.
    + apply IH; auto; try lia. intros c Hc. destruct (Z.eq_dec c mid) as [->|N]; [lia|].
      apply (M c mid); lia.
    + apply IH; auto; try lia. intros c Hc. destruct (Z.eq_dec c mid) as [->|N]; [lia|].
      destruct (Z.lt_ge_cases (cmp (hikey p c)) t); auto. assert (cmp (hikey p mid) >= t) by (apply (M mid c); lia). lia.
  - cbn zeta. replace high with low in B by lia. repeat split; auto; lia.
Qed.

Definition res (chunk base i : Z) : Z := if negb (leaf p) && (i =? 0) && (chunk =? 0) then 1 else cmp (item p (base + i)).
Lemma items_loop_spec t chunk base cnt :
  (forall i j, 0 <= i -> i < j -> j < cnt -> res chunk base j >= t -> res chunk base i >= t) ->
  forall n low high, 0 <= low <= high -> high <= cnt -> high - low <= Z.of_nat n ->
  (forall i, 0 <= i < low -> res chunk base i >= t) ->
  (forall i, high <= i < cnt -> res chunk base i < t) ->
  let r := items_loop n p cmp t chunk base low high in
  0 <= r <= cnt /\ (forall i, 0 <= i < r -> res chunk base i >= t) /\ (forall i, r <= i < cnt -> res chunk base i < t).
Proof.
  intros M. induction n as [|n IH]; intros low high H1 H2 H3 A B; cbn [items_loop].
  { cbn zeta. replace high with low in B by lia. repeat split; auto; lia. }
  destruct (high >? low) eqn:E.
  - set (mid := low + (high - low) / 2).
    assert (low <= mid < high). { unfold mid. pose proof (Z.div_lt_upper_bound (high - low) 2 (high - low)). pose proof (Z.div_pos (high - low) 2). lia. }
    cbn zeta. change (if negb (leaf p) && (mid =? 0) && (chunk =? 0) then 1 else cmp (item p (base + mid))) with (res chunk base mid).
    destruct (res chunk base mid >=? t) eqn:E2.
    + apply IH; auto; try lia. intros c Hc. destruct (Z.eq_dec c mid) as [->|N]; [lia|].
      apply (M c mid); lia.
    + apply IH; auto; try lia. intros c Hc. destruct (Z.eq_dec c mid) as [->|N]; [lia|].
      destruct (Z.lt_ge_cases (res chunk base c) t); auto. assert (res chunk base mid >= t) by (apply (M mid c); lia). lia.
  - cbn zeta. replace high with low in B by lia. repeat split; auto; lia.
Qed.

Variable lt : K -> K -> Prop.
Hypothesis SO : sorted lt p.
Hypothesis AG : agrees lt cmp.

Lemma hikey_mono t : t = 0 \/ t = 1 ->
  forall c d, 0 <= c -> c < d -> d < chunksCount p - 1 -> cmp (hikey p d) >= t -> cmp (hikey p c) >= t.
Proof.
  intros T c d H1 H2 H3 H4. destruct (s_hikeys lt p SO c d ltac:(lia) ltac:(lia) ltac:(lia)) as [E|E].
  - rewrite E. auto.
  - assert (cmp (hikey p c) > 0) by (apply (AG _ _ E); lia). lia.
Qed.

(* tc: the target of the search over chunks, ti: over items *)
Lemma search_spec k : (leaf p = true -> k = KPlain) ->
  let l := btree_page_search p cmp k in
  let pos := offset p (l_chunk l) + l_item l in
  let t := if leaf p then 1 else match k with KHiKey => 1 | KPlain => 0 end in
  wl l /\ l_item l <= l_count l /\ 0 <= pos <= itemsCount p /\
  (leaf p = false -> 0 < pos) /\
  (forall i, (if leaf p then 0 else 1) <= i -> i < pos -> cmp (item p i) >= t) /\
  (forall i, (if leaf p then 0 else 1) <= i -> pos <= i < itemsCount p -> cmp (item p i) < t).
Proof.
  intros HK. pose proof (l_cc p L) as CC.
  set (tc := match k with KHiKey => 1 | KPlain => 0 end).
  set (c := btree_page_binary_search_chunks p cmp k).
  assert (btree_page_search p cmp k = btree_page_search_items p cmp k (page_chunk_fill_locator p c)) as ->.
  { unfold btree_page_search. destruct k, (leaf p) eqn:E; auto. specialize (HK eq_refl). discriminate. }
  assert (0 <= c < chunksCount p /\ (forall d, 0 <= d < c -> cmp (hikey p d) >= tc) /\ (forall d, c <= d < chunksCount p - 1 -> cmp (hikey p d) < tc)) as (C1 & C2 & C3).
  { apply (chunks_loop_spec tc); try lia. apply hikey_mono. unfold tc; destruct k; auto. }
  destruct (fill_wl c C1) as (F1 & F2 & F3 & F4). cbn zeta in *.
  pose proof (cend_le c C1) as CE. pose proof (off_ic c C1) as OI.
  set (t := if leaf p then 1 else tc).
  set (lo := if leaf p then 0 else 1) in *.
  (* the first item of an inner page is in chunk 0 *)
  assert (leaf p = false -> 0 < c -> 0 < offset p c) as O1.
  { intros E Hc. pose proof (l_inner p L E). pose proof (off_le 1 c). lia. }
  assert (T01 : t = 0 \/ t = 1) by (unfold t, tc; destruct (leaf p), k; auto).
  assert (forall r, 0 <= r <= cend c - offset p c ->
     (forall i, 0 <= i < r -> res c (offset p c) i >= t) ->
     (forall i, r <= i < cend c - offset p c -> res c (offset p c) i < t) ->
     (leaf p = false -> 0 < offset p c + r) /\
     (forall i, lo <= i -> i < offset p c + r -> cmp (item p i) >= t) /\
     (forall i, lo <= i -> offset p c + r <= i < itemsCount p -> cmp (item p i) < t)) as FIN.
  { intros r R1 R2 R3. split; [|split].
    - intros E. destruct (Z.eq_dec c 0) as [C0|C0]; [|specialize (O1 E ltac:(lia)); lia].
      destruct (Z.eq_dec r 0) as [R0|R0]; [|lia].
      assert (0 < cend c). { unfold cend. pose proof (l_inner p L E). rewrite C0. destruct (0 + 1 <? chunksCount p) eqn:E2; cbn; lia. }
      pose proof (l_first p L). specialize (R3 0). rewrite C0 in *. rewrite H0 in *. specialize (R3 ltac:(lia)).
      unfold res in R3. rewrite E in R3. cbn in R3. lia.
    - intros i H1 H2. destruct (Z.lt_ge_cases i (offset p c)) as [H3|H3].
      + (* an earlier chunk *)
        assert (0 < c). { destruct (Z.eq_dec c 0) as [C0|C0]; [|lia]. rewrite C0, (l_first p L) in H3. unfold lo in H1. destruct (leaf p); lia. }
        specialize (C2 (c - 1) ltac:(lia)).
        assert (lt (item p i) (hikey p (c - 1))) as LT.
        { apply (s_hikey_above lt p SO); try lia. replace (c - 1 + 1) with c by lia. auto. }
        assert (cmp (item p i) > 0). { apply (AG _ _ LT). unfold tc in C2; destruct k; lia. } lia.
      + specialize (R2 (i - offset p c) ltac:(lia)). unfold res in R2.
        replace (offset p c + (i - offset p c)) with i in R2 by lia.
        destruct (negb (leaf p) && (i - offset p c =? 0) && (c =? 0)) eqn:E; auto.
        exfalso. assert (c = 0) by lia. assert (leaf p = false) by (destruct (leaf p); auto; discriminate).
        unfold lo in H1. rewrite H0 in H1. rewrite H in *. rewrite (l_first p L) in *. lia.
    - intros i H1 H2. destruct (Z.lt_ge_cases i (cend c)) as [H3|H3].
      + specialize (R3 (i - offset p c) ltac:(lia)). unfold res in R3.
        replace (offset p c + (i - offset p c)) with i in R3 by lia.
        destruct (negb (leaf p) && (i - offset p c =? 0) && (c =? 0)) eqn:E; auto.
        exfalso. assert (c = 0) by lia. assert (leaf p = false) by (destruct (leaf p); auto; discriminate).
        unfold lo in H1. rewrite H0 in H1. rewrite H in *. rewrite (l_first p L) in *. lia.
      + assert (c + 1 < chunksCount p /\ offset p (c + 1) <= i) as [Q1 Q2].
        { unfold cend in H3. destruct (c + 1 <? chunksCount p) eqn:E; lia. }
        specialize (C3 c ltac:(lia)).
        destruct (s_hikey_below lt p SO c i ltac:(lia) ltac:(lia) ltac:(lia) ltac:(lia)) as [E|E].
        * rewrite <- E. unfold t, tc in *. destruct (leaf p), k; lia.
        * destruct (Z.lt_ge_cases (cmp (item p i)) 0) as [?|G]; [lia|].
          pose proof (AG _ _ E ltac:(lia)) as G1. unfold tc in C3. destruct k; lia. }
  assert (forall i j, 0 <= i -> i < j -> j < cend c - offset p c -> res c (offset p c) j >= t -> res c (offset p c) i >= t) as M.
  { intros i j H1 H2 H3 H4. unfold res in *.
    destruct (negb (leaf p) && (i =? 0) && (c =? 0)) eqn:E; [lia|].
    replace (negb (leaf p) && (j =? 0) && (c =? 0)) with false in H4 by lia.
    assert (lt (item p (offset p c + i)) (item p (offset p c + j))) as LT.
    { apply (s_items lt p SO); lia. }
    pose proof (AG _ _ LT). lia. }
  unfold btree_page_search_items. rewrite F4, F2.
  destruct (cend c - offset p c =? 0) eqn:EC.
  - cbn [l_valid l_chunk l_item l_count].
    destruct (FIN 0 ltac:(lia) ltac:(lia) ltac:(lia)) as (G1 & G2 & G3).
    split. { unfold wl; cbn. destruct F1 as (? & ?). repeat split; auto; lia. }
    repeat split; auto; lia.
  - cbn [l_valid l_chunk l_item l_count].
    replace (if negb (leaf p) && match k with KHiKey => false | KPlain => true end then 0 else 1) with t
      by (unfold t, tc; destruct (leaf p), k; reflexivity).
    pose proof (items_loop_spec t c (offset p c) (cend c - offset p c) M (Z.to_nat (cend c - offset p c)) 0 (cend c - offset p c)
       ltac:(lia) ltac:(lia) ltac:(lia) ltac:(lia) ltac:(lia)) as (R1 & R2 & R3). cbn zeta in *.
    set (r := items_loop _ p cmp t c _ 0 _) in *.
    destruct (FIN r R1 R2 R3) as (G1 & G2 & G3).
    split. { unfold wl; cbn. destruct F1 as (? & ?). repeat split; auto; lia. }
    repeat split; auto; lia.
Qed.
End P.
