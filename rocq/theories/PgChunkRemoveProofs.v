(** Proofs for C18: removing items. *)
From Coq Require Import ZArith List Bool Lia ZifyBool.
From Verif Require Import Base PgChunkModel PgChunkSpec PgChunkProofs PgChunkOpProofs PgChunkEditProofs PgChunkReplaceProofs.
Import ListNotations.
Open Scope Z_scope.

Definition rem_mem (m : mem) (b i n o o' ip e size : Z) : mem :=
  let ish := o - o' in let dsh := ish + size in
  let m1 := shift_down (b + 2 * i) (n - 1 - i) (- dsh) m in
  let m2 := if ish =? 0 then m1 else bump b i (- ish) (move (b + o - ish) (b + o) (ip - (b + o)) m1) in
  move (ip - ish) (ip + size) (e - ip - size) m2.

Lemma rem_mem_ok : forall m b i n o o' ip e size,
  0 <= i < n -> 2 * n <= o -> 2 * (n - 1) <= o' -> o' <= o -> b + o <= ip -> 0 <= size -> ip + size <= e ->
  (forall j, 0 <= j < n -> 0 <= m (b + 2 * j) < 65536) ->
  let m' := rem_mem m b i n o o' ip e size in
  (forall x, x < b -> m' x = m x) /\ (forall x, ip + size <= x < e -> m' (x - (o - o' + size)) = m x) /\
  (forall x, b + o <= x < ip -> m' (x - (o - o')) = m x) /\
  (forall j, 0 <= j < i -> m' (b + 2 * j) = w16 (m (b + 2 * j) - (o - o'))) /\
  (forall j, i <= j < n - 1 -> m' (b + 2 * j) = w16 (m (b + 2 * (j + 1)) - (o - o' + size))).
Proof.
  intros m b i n o o' ip e size I N N' O P S S2 W m'. subst m'. unfold rem_mem. cbv zeta.
  split; [|split; [|split; [|split]]].
  - intros x X. unfold shift_down, bump, move. at_mem.
  - intros x X. unfold shift_down, bump, move. at_mem.
  - intros x X. unfold shift_down, bump, move. at_mem.
  - intros j J. specialize (W j ltac:(lia)). unfold shift_down, bump, move. at_mem.
    replace (o - o') with 0 by lia. rewrite Z.sub_0_r, w16_id; auto.
  - intros j J. unfold shift_down, bump, move. at_mem.
    all: match goal with |- w16 (_ ?a + _) = w16 (_ ?c - _) => replace a with c by lia end; f_equal; lia.
Qed.

Lemma rem_mem_out : forall m b i n o o' ip e size x,
  0 <= i < n -> 2 * n <= o -> 2 * (n - 1) <= o' -> o' <= o -> b + o <= ip -> 0 <= size -> ip + size <= e ->
  x < b \/ e <= x -> rem_mem m b i n o o' ip e size x = m x.
Proof. intros. unfold rem_mem. cbv zeta. unfold shift_down, bump, move. at_mem. Qed.

Lemma Rep_remove : forall p G st A g C X y Y,
  Rep p G st -> G = A ++ g :: C -> fst g = X ++ y :: Y ->
  Rep (remove_item p (zl A) (count X)) (A ++ (X ++ Y, snd g) :: C) st /\ kept p (remove_item p (zl A) (count X)).
Proof.
  intros p G st A g C X y Y R E EI.
  destruct (edit_facts _ _ _ _ _ _ _ _ _ R E EI) as ((FX & FY & OY) & L & WR & NX & OW). cbv zeta in *.
  pose proof (proj1 (proj2 (at_ok _ _ _ _ _ _ R E))) as F2.
  set (g' := (X ++ Y, snd g)).
  assert (OG : ok_group g').
  { destruct F2 as [_ F2]. split; [|exact F2]. unfold g'. cbn [fst]. apply Forall_app. auto. }
  pose proof (r_m _ _ _ R _ _ _ E) as CA.
  set (b := st + data_bytes A) in *. set (n := count (fst g)) in *.
  assert (CG : count (fst g') = n - 1) by (unfold g'; cbn [fst]; ls; lia).
  assert (DG : group_bytes g' = array (n - 1) + total X + total Y).
  { unfold group_bytes. rewrite CG. unfold g'. cbn [fst]. ls. lia. }
  pose proof (array_facts (n - 1) ltac:(lia)) as AN.
  assert (ANN : array (n - 1) <= array n) by (unfold array; dlia).
  assert (M : st + data_bytes (A ++ g' :: C) <= blcksz).
  { unfold blcksz. rewrite data_app, data_cons. unfold b in *. lia. }
  set (q := remove_item p (zl A) (count X)).
  assert (QM : pg_m q = rem_mem (pg_m p) b (count X) n (array n) (array (n - 1)) (b + array n + total X) (pg_size p) (bytes y)).
  { unfold q, remove_item, rem_mem. cbv zeta. cbn [pg_m]. rewrite (it_size _ _ _ _ _ _ R E _ _ _ EI).
    rewrite (at_loc _ _ _ _ _ _ R E), (at_n _ _ _ _ _ _ R E). fold b. fold n. rewrite OW.
    change arr_sz with array. rewrite !Z.add_assoc. reflexivity. }
  destruct (rem_mem_ok (pg_m p) b (count X) n (array n) (array (n - 1)) (b + array n + total X) (pg_size p) (bytes y)
    ltac:(lia) ltac:(lia) ltac:(lia) ltac:(lia) ltac:(lia) ltac:(lia) ltac:(lia) WR) as (I1 & I2 & I3 & I4 & I5).
  rewrite <- QM in I1, I2, I3, I4, I5.
  assert (DD : group_bytes g' - group_bytes g = - (array n - array (n - 1) + bytes y)) by lia.
  assert (S8 : short (- (array n - array (n - 1) + bytes y)) = - short (array n - array (n - 1) + bytes y)).
  { destruct (array_facts n ltac:(lia)) as (_ & _ & A8 & _). destruct OY as (_ & O8 & _). unfold short.
    destruct AN as (_ & _ & B8 & _). clear - A8 B8 O8. dlia. }
  assert (KP : kept p q).
  { intros x Hx. pose proof (below _ _ _ _ _ _ R E) as BL. fold b in BL. change (pg_cc q) with (pg_cc p) in Hx. unfold blcksz in Hx.
    rewrite QM. apply rem_mem_out; try (clear - L AN ANN; lia). clear - Hx BL L. lia. }
  split; [|exact KP]. apply (Rep_change p q G st A g g' C R E OG eq_refl M); try reflexivity.
  - rewrite CG. fold n. unfold q, remove_item. cbn [pg_n]. lia.
  - rewrite DD. unfold q, remove_item. cbv zeta. cbn [pg_size]. rewrite (it_size _ _ _ _ _ _ R E _ _ _ EI).
    rewrite (at_n _ _ _ _ _ _ R E). fold n. change arr_sz with array. lia.
  - intros j J. unfold q, remove_item. cbv zeta. cbn [pg_d]. replace (zl A <? j) with false by lia. reflexivity.
  - intros j J. rewrite DD, CG, S8. fold n. unfold q, remove_item. cbv zeta. cbn [pg_d].
    replace ((zl A <? j) && (j <? pg_cc p)) with true by lia. rewrite (it_size _ _ _ _ _ _ R E _ _ _ EI).
    rewrite (at_n _ _ _ _ _ _ R E). fold n. change arr_sz with array. replace (n - 1 - n) with (-1) by lia. reflexivity.
  - intros x H. fold b in H. apply I1. auto.
  - intros x H. fold b in H. rewrite DD, Z.add_opp_r. apply I2. lia.
  - fold b. unfold g'. cbn [fst]. change (X ++ Y) with (X ++ [] ++ Y).
    assert (O2 : Forall ok_item [y]) by (constructor; [exact OY|constructor]).
    assert (T2 : total [y] = bytes y) by (cbn; lia).
    assert (C2 : count [y] = 1) by reflexivity. assert (C0 : count [] = 0) by reflexivity. assert (T0 : total [] = 0) by reflexivity.
    apply (chunk_edit (pg_m p) (pg_m q) b X [y] [] Y FX O2 ltac:(constructor) FY); cbv zeta;
      rewrite ?C2, ?C0, ?T2, ?T0, ?Z.add_0_r; replace (count X + 1 + count Y) with n by lia;
      replace (count X + count Y) with (n - 1) by lia.
    + cbn [app]. rewrite <- EI. exact CA.
    + lia.
    + lia.
    + intros j J. rewrite I4 by lia. f_equal. lia.
    + intros x H. replace (x + (array (n - 1) - array n)) with (x - (array n - array (n - 1))) by lia. apply I3. lia.
    + intros j J. rewrite I5 by lia. f_equal. replace (count X + j + 1) with (count X + 1 + j) by lia. lia.
    + intros x H. replace (x + (array (n - 1) - array n - bytes y)) with (x - (array n - array (n - 1) + bytes y)) by lia. apply I2. lia.
    + intros N1 x N2 EN. destruct N1; discriminate.
Qed.
