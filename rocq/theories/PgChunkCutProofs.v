(** Proofs for C18: one chunk becomes two. *)
From Coq Require Import ZArith List Bool Lia ZifyBool.
From Verif Require Import Base PgChunkModel PgChunkSpec PgChunkProofs PgChunkOpProofs PgChunkEditProofs PgChunkReplaceProofs PgChunkJoinProofs PgChunkMergeProofs.
Import ListNotations.
Open Scope Z_scope.

Definition cut_mem (m : mem) (b i n o ol or ip e h0 hc hend cs hsize : Z) (ws : list Z) : mem :=
  let ls := o - ol in let rs := ip - b - or in
  let rp := ip - o + ol in
  let tmp := fun a => w16 (m (a - rp + (b + 2 * i)) - rs) in
  let m1 := move (b + o - ls) (b + o) (ip - (b + o)) (bump b i (- ls) m) in
  let ds := or + ol - o in
  let m2 := move (ip + ds) ip (e - ip) m1 in
  let m3 := fun a => if (rp <=? a) && (a <? rp + 2 * (n - i)) then tmp a else m2 a in
  let m4 := move (hc + (cs + hsize)) hc (hend - hc) m3 in
  let m5 := move (h0 + cs) h0 (hc - h0) m4 in
  copy_in (hc + cs) ws m5.

Lemma cut_mem_out : forall m b i n o ol or ip e h0 hc hend cs hsize ws x,
  0 <= i <= n -> 2 * n <= o -> 2 * i <= ol -> 2 * (n - i) <= or -> ol <= o -> o <= ol + or ->
  b + o <= ip <= e -> 0 <= cs -> hsize = 2 * zl ws -> h0 <= hc <= hend -> hend + (cs + hsize) <= b ->
  x < h0 + cs \/ e + (or + ol - o) <= x -> cut_mem m b i n o ol or ip e h0 hc hend cs hsize ws x = m x.
Proof. intros. unfold cut_mem. cbv zeta. unfold copy_in, bump, move. at_mem. Qed.

Lemma cut_mem_ok : forall m b i n o ol or ip e h0 hc hend cs hsize ws,
  0 <= i <= n -> 2 * n <= o -> 2 * i <= ol -> 2 * (n - i) <= or -> ol <= o -> o <= ol + or ->
  b + o <= ip <= e -> 0 <= cs -> hsize = 2 * zl ws -> h0 <= hc <= hend -> hend + (cs + hsize) <= b ->
  let m' := cut_mem m b i n o ol or ip e h0 hc hend cs hsize ws in
  (forall x, h0 <= x < hc -> m' (x + cs) = m x) /\
  (forall x, hc <= x < hend -> m' (x + (cs + hsize)) = m x) /\
  words m' (hc + cs) ws /\
  (forall x, hend + (cs + hsize) <= x < b -> m' x = m x) /\
  (forall j, 0 <= j < i -> m' (b + 2 * j) = w16 (m (b + 2 * j) - (o - ol))) /\
  (forall x, b + o <= x < ip -> m' (x - (o - ol)) = m x) /\
  (forall j, 0 <= j < n - i -> m' (ip - o + ol + 2 * j) = w16 (m (b + 2 * (i + j)) - (ip - b - or))) /\
  (forall x, ip <= x < e -> m' (x + (or + ol - o)) = m x).
Proof.
  intros m b i n o ol or ip e h0 hc hend cs hsize ws I N L R O1 O2 P S HS H1 H2 m'.
  subst m'. unfold cut_mem. cbv zeta.
  split; [|split; [|split; [|split; [|split; [|split; [|split]]]]]].
  - intros x X. unfold copy_in, bump, move. at_mem.
  - intros x X. unfold copy_in, bump, move. at_mem.
  - apply words_in.
  - intros x X. unfold copy_in, bump, move. at_mem.
  - intros j J. unfold copy_in, bump, move. at_mem.
  - intros x X. unfold copy_in, bump, move. at_mem.
  - intros j J. unfold copy_in, bump, move. at_mem.
    all: match goal with |- w16 (_ ?a - _) = w16 (_ ?c - _) => replace a with c by lia end; reflexivity.
  - intros x X. unfold copy_in, bump, move. at_mem.
Qed.

(** The two halves of a chunk. *)
Lemma chunk_cut : forall m m' b I1 I2, Forall ok_item I1 -> Forall ok_item I2 ->
  chunk_at m b (I1 ++ I2) ->
  let n1 := count I1 in let n2 := count I2 in let o1 := array n1 in let o2 := array n2 in let o := array (n1 + n2) in
  let rp := b + o1 + total I1 in
  o1 + total I1 < 16384 -> o2 + total I2 < 16384 -> o + total I1 + total I2 < 16384 ->
  (forall j, 0 <= j < n1 -> m' (b + 2 * j) = w16 (m (b + 2 * j) - (o - o1))) ->
  (forall x, b + o <= x < b + o + total I1 -> m' (x - (o - o1)) = m x) ->
  (forall j, 0 <= j < n2 -> m' (rp + 2 * j) = w16 (m (b + 2 * (n1 + j)) - (o + total I1 - o2))) ->
  (forall x, b + o + total I1 <= x < b + o + total I1 + total I2 -> m' (x + (o2 + o1 - o)) = m x) ->
  chunk_at m' b I1 /\ chunk_at m' rp I2.
Proof.
  intros m m' b I1 I2 F1 F2 CA n1 n2 o1 o2 o rp B1 B2 B H1 D1 H2 D2.
  assert (CN : count (I1 ++ I2) = n1 + n2) by (rewrite count_app; reflexivity).
  assert (P0 : 0 <= n1 /\ 0 <= n2) by (unfold n1, n2, count; lia).
  pose proof (total_ok _ F1) as T1. pose proof (total_ok _ F2) as T2.
  pose proof (array_facts n1 ltac:(lia)) as A1. pose proof (array_facts n2 ltac:(lia)) as A2.
  pose proof (array_facts (n1 + n2) ltac:(lia)) as A3. fold o1 in A1. fold o2 in A2. fold o in A3.
  split; intros P z Q E.
  - destruct (CA P z (Q ++ I2) ltac:(rewrite E, <- app_assoc; reflexivity)) as [W1 W2]. rewrite CN in W1, W2. fold o in W1, W2.
    fold n1. fold o1.
    assert (FP : Forall ok_item P /\ ok_item z /\ Forall ok_item Q).
    { rewrite E in F1. apply Forall_app in F1. destruct F1 as [FX1 FX2]. inversion FX2; auto. }
    destruct FP as (FP & OZ & FR). pose proof (total_ok _ FP) as TP. pose proof (total_ok _ FR) as TQ.
    assert (NN : n1 = count P + 1 + count Q /\ total I1 = total P + bytes z + total Q).
    { unfold n1. rewrite E, count_app, count_cons, total_app, total_cons. lia. }
    assert (0 <= count P /\ 0 <= count Q) by (unfold count; lia). pose proof (bytes_nn z) as BZ.
    split.
    + rewrite H1 by lia. rewrite W1, <- Z.add_opp_r. rewrite w16_word; [lia|apply OZ|lia].
    + replace (b + o1 + total P) with (b + o + total P + - (o - o1)) by lia.
      apply (words_tr m); auto. intros y Hy. rewrite Z.add_opp_r. apply D1. unfold bytes in *. lia.
  - destruct (CA (I1 ++ P) z Q ltac:(rewrite E, <- app_assoc; reflexivity)) as [W1 W2]. rewrite CN in W1, W2. fold o in W1, W2.
    rewrite count_app, total_app in W1. rewrite total_app in W2. fold n1 in W1. fold n2. fold o2.
    assert (FP : Forall ok_item P /\ ok_item z /\ Forall ok_item Q).
    { rewrite E in F2. apply Forall_app in F2. destruct F2 as [FX1 FX2]. inversion FX2; auto. }
    destruct FP as (FP & OZ & FR). pose proof (total_ok _ FP) as TP. pose proof (total_ok _ FR) as TQ.
    assert (NN : n2 = count P + 1 + count Q /\ total I2 = total P + bytes z + total Q).
    { unfold n2. rewrite E, count_app, count_cons, total_app, total_cons. lia. }
    assert (0 <= count P /\ 0 <= count Q) by (unfold count; lia). pose proof (bytes_nn z) as BZ.
    split.
    + rewrite H2 by lia. rewrite W1, <- Z.add_opp_r. rewrite w16_word; [lia|apply OZ|lia].
    + replace (rp + o2 + total P) with (b + o + (total I1 + total P) + (o2 + o1 - o)) by (unfold rp; lia).
      apply (words_tr m); auto. intros y Hy. apply D2. unfold bytes in *. lia.
Qed.
