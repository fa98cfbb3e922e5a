(** Proofs for C18: two chunks become one. *)
From Coq Require Import ZArith List Bool Lia ZifyBool.
From Verif Require Import Base PgChunkModel PgChunkSpec PgChunkProofs PgChunkOpProofs PgChunkEditProofs PgChunkReplaceProofs.
Import ListNotations.
Open Scope Z_scope.

Definition mrg_mem (m : mem) (b1 b2 n1 n2 o1 o2 o end1 e h0 hc hc1 hend hs : Z) : mem :=
  let data1 := b1 + o1 in let data2 := b2 + o2 in
  let s1 := o - o1 in let s2 := o1 + o2 - o in
  let tmp := fun a => w16 (m (a - (b1 + 2 * n1) + b2) - o2 + o + (end1 - data1)) in
  let m1 := if s1 =? 0 then m else move (data1 + s1) data1 (end1 - data1) (bump b1 n1 s1 m) in
  let m2 := if s2 =? 0 then m1 else move (data2 - s2) data2 (e - data2) m1 in
  let m3 := fun a => if (b1 + 2 * n1 <=? a) && (a <? b1 + 2 * n1 + 2 * n2) then tmp a else m2 a in
  let m4 := if 0 <? hs then move (h0 - hs) h0 (hc - h0) m3 else m3 in
  move (hc - hs) hc1 (hend - hc1) m4.

Lemma mrg_mem_out : forall m b1 b2 n1 n2 o1 o2 o end1 e h0 hc hc1 hend hs x,
  0 <= n1 -> 0 <= n2 -> 2 * n1 <= o1 -> 2 * n2 <= o2 -> 2 * (n1 + n2) <= o -> o1 <= o -> o <= o1 + o2 ->
  b1 + o1 <= end1 -> b2 = end1 -> b2 + o2 <= e -> 0 <= hs -> h0 <= hc -> hc <= hc1 <= hend -> hend <= b1 ->
  x < h0 - hs \/ e <= x -> mrg_mem m b1 b2 n1 n2 o1 o2 o end1 e h0 hc hc1 hend hs x = m x.
Proof. intros. subst b2. unfold mrg_mem. cbv zeta. unfold bump, move. at_mem. Qed.

Lemma mrg_mem_ok : forall m b1 b2 n1 n2 o1 o2 o end1 e h0 hc hc1 hend hs,
  0 <= n1 -> 0 <= n2 -> 2 * n1 <= o1 -> 2 * n2 <= o2 -> 2 * (n1 + n2) <= o -> o1 <= o -> o <= o1 + o2 ->
  b1 + o1 <= end1 -> b2 = end1 -> b2 + o2 <= e -> 0 <= hs -> h0 <= hc -> hc <= hc1 <= hend -> hend <= b1 ->
  (forall j, 0 <= j < n1 -> 0 <= m (b1 + 2 * j) < 65536) ->
  let m' := mrg_mem m b1 b2 n1 n2 o1 o2 o end1 e h0 hc hc1 hend hs in
  (forall x, h0 <= x < hc -> m' (x - hs) = m x) /\
  (forall x, hc1 <= x < hend -> m' (x - (hs + hc1 - hc)) = m x) /\
  (forall x, hend <= x < b1 -> m' x = m x) /\
  (forall j, 0 <= j < n1 -> m' (b1 + 2 * j) = w16 (m (b1 + 2 * j) + (o - o1))) /\
  (forall x, b1 + o1 <= x < end1 -> m' (x + (o - o1)) = m x) /\
  (forall j, 0 <= j < n2 -> m' (b1 + 2 * (n1 + j)) = w16 (m (b2 + 2 * j) - o2 + o + (end1 - (b1 + o1)))) /\
  (forall x, b2 + o2 <= x < e -> m' (x - (o1 + o2 - o)) = m x).
Proof.
  intros m b1 b2 n1 n2 o1 o2 o end1 e h0 hc hc1 hend hs N1 N2 O1 O2 O P1 P2 E1 E2 E3 S H1 H2 H3 W m'.
  subst m' b2. unfold mrg_mem. cbv zeta.
  split; [|split; [|split; [|split; [|split; [|split]]]]].
  - intros x X. unfold bump, move. at_mem.
  - intros x X. unfold bump, move. at_mem.
  - intros x X. unfold bump, move. at_mem.
  - intros j J. specialize (W j J). unfold bump, move. at_mem.
    all: replace (o - o1) with 0 by lia; rewrite Z.add_0_r, w16_id; auto.
  - intros x X. unfold bump, move. at_mem.
  - intros j J. unfold bump, move. at_mem.
    all: match goal with |- w16 (_ ?a - _ + _ + _) = w16 (_ ?c - _ + _ + _) => replace a with c by lia end; reflexivity.
  - intros x X. unfold bump, move. at_mem.
Qed.
