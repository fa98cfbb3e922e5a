(** Proofs for C18: the operations keep the representation. *)
From Coq Require Import ZArith List Bool Lia ZifyBool.
From Verif Require Import Base PgChunkModel PgChunkSpec PgChunkProofs.
Import ListNotations.
Open Scope Z_scope.

Lemma arr_array : forall n, arr_sz n = array n.
Proof. reflexivity. Qed.

Lemma short8 : forall x, x mod 8 = 0 -> 4 * short x = x.
Proof. intros. unfold short. dlia. Qed.

(** One group is replaced, what lies behind it moves. *)
Lemma Rep_change : forall p p' G st A g g' C,
  Rep p G st -> G = A ++ g :: C -> ok_group g' -> snd g' = snd g ->
  st + data_bytes (A ++ g' :: C) <= blcksz ->
  pg_cc p' = pg_cc p -> pg_hend p' = pg_hend p -> pg_right p' = pg_right p -> pg_lim p' = pg_lim p ->
  pg_n p' = pg_n p + (count (fst g') - count (fst g)) ->
  pg_size p' = pg_size p + (group_bytes g' - group_bytes g) ->
  (forall j, j <= zl A -> pg_d p' j = pg_d p j) ->
  (forall j, zl A < j < pg_cc p -> pg_d p' j =
     mkd (d_loc (pg_d p j) + short (group_bytes g' - group_bytes g))
         (d_off (pg_d p j) + (count (fst g') - count (fst g))) (d_hk (pg_d p j)) (d_hf (pg_d p j))) ->
  (forall x, x < st + data_bytes A -> pg_m p' x = pg_m p x) ->
  (forall x, st + data_bytes A + group_bytes g <= x < pg_size p ->
     pg_m p' (x + (group_bytes g' - group_bytes g)) = pg_m p x) ->
  chunk_at (pg_m p') (st + data_bytes A) (fst g') ->
  Rep p' (A ++ g' :: C) st.
Proof.
  intros p p' G st A g g' C R E O K M Cc H1 H2 H3 N S D1 D2 M1 M2 M3.
  pose proof (at_ok _ _ _ _ _ _ R E) as (F1 & F2 & F3).
  pose proof (at_bounds _ _ _ _ _ _ R E) as B.
  pose proof (gb_ok _ F2) as (_ & G8 & _). pose proof (gb_ok _ O) as (G10' & G8' & _).
  assert (LL : zl (A ++ g' :: C) = zl G) by (rewrite E; ls; lia).
  assert (KK : forall X, X = A ++ g' :: C -> keys_sz X = keys_sz G) by (intros X ->; rewrite E; ls; rewrite K; lia).
  assert (Sub : forall X x Y, A ++ g' :: C = X ++ x :: Y ->
    exists X' x' Y', G = X' ++ x' :: Y' /\ zl X' = zl X /\ keys_sz X' = keys_sz X /\ snd x' = snd x /\
      ((x' = x /\ data_bytes X' = data_bytes X /\ cnt X' = cnt X /\ zl X < zl A /\ data_bytes X + group_bytes x <= data_bytes A) \/
       (X' = A /\ X = A /\ x' = g /\ x = g') \/
       (x' = x /\ data_bytes X = data_bytes X' + (group_bytes g' - group_bytes g) /\
        cnt X = cnt X' + (count (fst g') - count (fst g)) /\ zl A < zl X /\
        data_bytes A + group_bytes g <= data_bytes X' /\ data_bytes X' + group_bytes x <= data_bytes G))).
  { intros X x Y H. symmetry in H. destruct (split3 _ _ _ _ _ _ H) as [[Q [-> ->]]|[[-> [-> ->]]|[Q [-> ->]]]].
    - exists X, x, (Q ++ g :: C). split; [rewrite E, <- app_assoc; reflexivity|]. do 3 (split; [reflexivity|]).
      left. apply Forall_app in F1. destruct F1 as [F1 F1']. inversion F1'; subst.
      pose proof (data_ok _ H6). ls. repeat split; auto; lia.
    - exists A, g, C. split; [exact E|]. split; [auto|]. split; [auto|]. split; [auto|]. right; left. auto.
    - exists (A ++ g :: Q), x, Y. split; [rewrite E, <- app_assoc; reflexivity|].
      assert (F4 : Forall ok_group Q /\ Forall ok_group Y) by (apply Forall_app in F3; destruct F3 as [F3 F3']; inversion F3'; auto).
      pose proof (data_ok _ (proj1 F4)). pose proof (data_ok _ (proj2 F4)).
      split; [ls; lia|]. split; [ls; rewrite K; lia|]. split; [auto|]. right; right.
      rewrite E. ls. repeat split; auto; lia. }
  constructor.
  - apply Forall_app. split; auto.
  - rewrite Cc, (r_cc _ _ _ R). auto.
  - rewrite N, (r_n _ _ _ R), E. ls. lia.
  - rewrite S, (r_size _ _ _ R), E. ls. lia.
  - rewrite H1, (r_hend _ _ _ R), !kb, LL, (KK _ eq_refl). auto.
  - exact M.
  - pose proof (r_st _ _ _ R). rewrite kb, LL, (KK _ eq_refl), <- kb. auto.
  - rewrite H3. apply (r_lim _ _ _ R).
  - intros X x Y H. destruct (Sub _ _ _ H) as (X' & x' & Y' & E' & _ & KX & _). rewrite LL, <- KX. apply (r_hk _ _ _ R _ _ _ E').
  - rewrite H2. destruct (r_last _ _ _ R) as [L|(A0 & g0 & E0 & L)]; auto. right.
    rewrite E in E0. destruct (split3 _ _ _ _ _ _ E0) as [[Q [-> Q2]]|[[-> [-> ->]]|[Q [-> Q2]]]].
    + exists (A ++ g' :: Q), g0. split; auto. rewrite Q2, <- app_assoc. reflexivity.
    + exists A0, g'. split; auto. rewrite K. auto.
    + destruct Q; discriminate.
  - intros X x Y H. destruct (Sub _ _ _ H) as (X' & x' & Y' & E' & ZX & KX & SX & T).
    destruct (r_d _ _ _ R _ _ _ E') as (W1 & W2 & W3 & W4). rewrite LL, <- KX, <- SX, <- ZX.
    pose proof (r_hk _ _ _ R _ _ _ E') as HK.
    destruct T as [(-> & T1 & T2 & T3 & _)|[(-> & -> & -> & ->)|(-> & T1 & T2 & T3 & T4 & T5)]].
    + rewrite D1 by lia. rewrite <- T1, <- T2. auto.
    + rewrite D1 by lia. auto.
    + pose proof (at_bounds _ _ _ _ _ _ R E') as B'. pose proof (r_size _ _ _ R) as SZ.
      rewrite D2 by lia. pose proof (at_ok _ _ _ _ _ _ R E') as (FX & (_ & KF & _) & _).
      pose proof (keys_ok _ FX) as KO. pose proof (de_facts (zl G) ltac:(lia)) as DE.
      unfold blcksz in M. rewrite data_app, data_cons in M.
      assert (SH : 4 * short (group_bytes g' - group_bytes g) = group_bytes g' - group_bytes g) by (apply short8; dlia).
      rewrite E in T5. ls. pose proof (bytes_nn (snd x)).
      assert (0 <= group_bytes x) by (unfold group_bytes; pose proof (array_facts (count (fst x)) ltac:(unfold count; lia)); lia).
      assert (0 <= count (fst g')) by (unfold count; lia).
      assert (FX' : Forall ok_group X).
      { assert (FF : Forall ok_group (A ++ g' :: C)) by (apply Forall_app; auto). rewrite H in FF. apply Forall_app in FF. apply FF. }
      pose proof (data_ok _ FX').
      rewrite mkd_id; cbn [d_loc d_off d_hk d_hf]; [split; [lia|]; split; [lia|]; split; [lia|exact W4]|lia|lia|lia|rewrite W4; lia].
  - intros X x Y H. destruct (Sub _ _ _ H) as (X' & x' & Y' & E' & ZX & KX & SX & T).
    destruct T as [(-> & T1 & T2 & T3 & T4)|[(-> & -> & -> & ->)|(-> & T1 & T2 & T3 & T4 & T5)]].
    + rewrite <- T1. apply (chunk_ext (pg_m p)); [|apply (r_m _ _ _ R _ _ _ E')|].
      * apply (proj1 (proj2 (at_ok _ _ _ _ _ _ R E'))).
      * intros y Hy. apply M1. unfold group_bytes in T4. lia.
    + exact M3.
    + rewrite T1, Z.add_assoc. apply (chunk_tr (pg_m p)); [|apply (r_m _ _ _ R _ _ _ E')|].
      * apply (proj1 (proj2 (at_ok _ _ _ _ _ _ R E'))).
      * intros y Hy. apply M2. pose proof (r_size _ _ _ R). unfold group_bytes in T5. unfold group_bytes in T4 |- *. lia.
  - intros X x Y H. destruct (Sub _ _ _ H) as (X' & x' & Y' & E' & ZX & KX & SX & T).
    rewrite LL, <- KX, <- SX. apply (words_ext (pg_m p)); [apply (r_k _ _ _ R _ _ _ E')|].
    intros y Hy. apply M1. pose proof (r_st _ _ _ R) as (ST & _). rewrite kb, E' in ST.
    pose proof (at_ok _ _ _ _ _ _ R E') as (_ & _ & FY). pose proof (keys_ok _ FY). rewrite <- E' in ST at 1. rewrite keys_app, keys_cons in ST.
    unfold bytes in ST. lia.
Qed.

(* ------------------------------------------------- memory of the operations *)

Ltac cases := repeat match goal with
  | |- context [if ?c then _ else _] => let H := fresh "Q" in destruct c eqn:H
  end.
Ltac at_mem := cases; try lia; try (f_equal; lia).

Lemma w16_id : forall x, 0 <= x < 65536 -> w16 x = x.
Proof. intros. apply Z.mod_small. auto. Qed.

Lemma with_flags_ok : forall v f, 0 <= v < 16384 -> f = 0 \/ f = 1 -> w16 (with_flags v f) = f * 16384 + v.
Proof. intros v f V F. unfold w16, with_flags. destruct F as [-> | ->]; cbn [Z.eqb]; dlia. Qed.

Definition ins_mem (m : mem) (b i n o o' ip e size : Z) : mem :=
  let ish := o' - o in let dsh := ish + size in
  let m1 := move (ip + dsh) ip (e - ip) m in
  let m2 := if ish =? 0 then m1 else bump b i ish (move (b + o + ish) (b + o) (ip - (b + o)) m1) in
  put (b + 2 * i) (ip - b + ish) (shift_up (b + 2 * i) (n - i) dsh m2).

Lemma ins_mem_ok : forall m b i n o o' ip e size,
  0 <= i <= n -> 2 * n <= o -> 2 * (n + 1) <= o' -> o <= o' -> b + o <= ip <= e -> 0 <= size ->
  0 <= ip - b + (o' - o) < 65536 ->
  (forall j, 0 <= j < n -> 0 <= m (b + 2 * j) < 65536) ->
  let ish := o' - o in let dsh := ish + size in
  let m' := ins_mem m b i n o o' ip e size in
  (forall x, x < b -> m' x = m x) /\ (forall x, ip <= x < e -> m' (x + dsh) = m x) /\
  (forall x, b + o <= x < ip -> m' (x + ish) = m x) /\
  (forall j, 0 <= j < i -> m' (b + 2 * j) = w16 (m (b + 2 * j) + ish)) /\
  (forall j, i <= j < n -> m' (b + 2 * (j + 1)) = w16 (m (b + 2 * j) + dsh)) /\
  m' (b + 2 * i) = ip - b + ish.
Proof.
  intros m b i n o o' ip e size I N N' O P S V W ish dsh m'.
  subst m'. unfold ins_mem. fold ish. fold dsh. cbv zeta. unfold put, upd.
  split; [|split; [|split; [|split; [|split]]]].
  - intros x X. unfold shift_up, bump, move. at_mem.
  - intros x X. unfold shift_up, bump, move. at_mem.
  - intros x X. unfold shift_up, bump, move. at_mem.
  - intros j J. specialize (W j ltac:(lia)). unfold shift_up, bump, move. at_mem.
    rewrite Z.add_0_r in * || idtac. replace ish with 0 by lia. rewrite Z.add_0_r, w16_id; auto.
  - intros j J. unfold shift_up, bump, move. at_mem.
    all: f_equal; f_equal; f_equal; lia.
  - rewrite Z.eqb_refl. apply w16_id. auto.
Qed.

Definition fill_mem (m : mem) (b i o f : Z) (ws : list Z) : mem :=
  let m1 := copy_in (b + o) ws m in put (b + 2 * i) (with_flags (m1 (b + 2 * i)) f) m1.

Lemma fill_mem_ok : forall m b i o v f ws, 2 * i + 1 < o -> 0 <= v < 16384 -> f = 0 \/ f = 1 ->
  off_of (m (b + 2 * i)) = v -> 0 <= m (b + 2 * i) < 32768 ->
  let m' := fill_mem m b i o f ws in
  (forall x, x <> b + 2 * i -> (x < b + o \/ b + o + 2 * zl ws <= x) -> m' x = m x) /\
  m' (b + 2 * i) = f * 16384 + v /\ words m' (b + o) ws.
Proof.
  intros m b i o v f ws H V F W W2 m'. subst m'. unfold fill_mem. cbv zeta.
  assert (K : copy_in (b + o) ws m (b + 2 * i) = m (b + 2 * i)).
  { unfold copy_in. at_mem. }
  rewrite K. unfold put, upd. split; [|split].
  - intros x X Y. replace (x =? b + 2 * i) with false by lia. unfold copy_in. at_mem.
  - rewrite Z.eqb_refl. unfold off_of in W. unfold w16, with_flags. destruct F as [-> | ->]; cbn [Z.eqb]; dlia.
  - intros j J. replace (b + o + 2 * j =? b + 2 * i) with false by lia. apply words_in. auto.
Qed.

Lemma app_cut : forall {A} (X M P : list A) z Q, X ++ M = P ++ z :: Q ->
  (exists R, X = P ++ z :: R /\ Q = R ++ M) \/ (exists P', P = X ++ P' /\ M = P' ++ z :: Q).
Proof.
  intros A X. induction X as [|a X IH]; intros M P z Q H; cbn in H.
  - right. exists P. auto.
  - destruct P as [|b P]; cbn in H; injection H as H1 H2; subst.
    + left. exists X. auto.
    + destruct (IH _ _ _ _ H2) as [(R & -> & ->)|(P' & -> & ->)]; [left; exists R; auto|right; exists P'; auto].
Qed.

Lemma w16_word : forall f v s, f = 0 \/ f = 1 -> 0 <= v + s < 16384 -> w16 (f * 16384 + v + s) = f * 16384 + (v + s).
Proof. intros f v s [-> | ->] H; rewrite w16_id; lia. Qed.

(** Items [O] between [X] and [Y] give way to [N]. *)
Lemma chunk_edit : forall m m' b X O N Y,
  Forall ok_item X -> Forall ok_item O -> Forall ok_item N -> Forall ok_item Y ->
  chunk_at m b (X ++ O ++ Y) ->
  let n := count X + count O + count Y in let n' := count X + count N + count Y in
  let ish := array n' - array n in let dsh := ish + total N - total O in
  array n + total X + total O + total Y < 16384 -> array n' + total X + total N + total Y < 16384 ->
  (forall j, 0 <= j < count X -> m' (b + 2 * j) = w16 (m (b + 2 * j) + ish)) ->
  (forall x, b + array n <= x < b + array n + total X -> m' (x + ish) = m x) ->
  (forall j, 0 <= j < count Y -> m' (b + 2 * (count X + count N + j)) = w16 (m (b + 2 * (count X + count O + j)) + dsh)) ->
  (forall x, b + array n + total X + total O <= x < b + array n + total X + total O + total Y -> m' (x + dsh) = m x) ->
  (forall N1 x N2, N = N1 ++ x :: N2 ->
     m' (b + 2 * (count X + count N1)) = fst x * 16384 + (array n' + total X + total N1) /\
     words m' (b + array n' + total X + total N1) (snd x)) ->
  chunk_at m' b (X ++ N ++ Y).
Proof.
  intros m m' b X O N Y FX FO FN FY H n n' ish dsh B B' HX DX HY DY HN P z Q E.
  assert (CN : count (X ++ N ++ Y) = n') by (unfold n'; ls; lia).
  assert (CO : count (X ++ O ++ Y) = n) by (unfold n; ls; lia).
  assert (P0 : 0 <= count X /\ 0 <= count O /\ 0 <= count N /\ 0 <= count Y) by (unfold count; lia).
  pose proof (total_ok _ FX). pose proof (total_ok _ FO). pose proof (total_ok _ FN). pose proof (total_ok _ FY).
  pose proof (array_facts n ltac:(unfold n; lia)) as AN. pose proof (array_facts n' ltac:(unfold n'; lia)) as AN'.
  rewrite CN. destruct (app_cut _ _ _ _ _ E) as [(R & EX & EQ)|(P' & EP & E')].
  - destruct (H P z (R ++ O ++ Y) ltac:(rewrite EX, <- app_assoc; reflexivity)) as [W1 W2]. rewrite CO in W1, W2.
    assert (FP : Forall ok_item P /\ ok_item z /\ Forall ok_item R).
    { rewrite EX in FX. apply Forall_app in FX. destruct FX as [FX1 FX2]. inversion FX2; auto. }
    destruct FP as (FP & OZ & FR). pose proof (total_ok _ FP). pose proof (total_ok _ FR).
    assert (count X = count P + 1 + count R /\ total X = total P + bytes z + total R) by (rewrite EX; ls; lia).
    assert (0 <= count P /\ 0 <= count R) by (unfold count; lia). pose proof (bytes_nn z).
    split.
    + rewrite HX by lia. rewrite W1, w16_word; [unfold ish; lia|apply OZ|unfold ish; lia].
    + replace (b + array n' + total P) with (b + array n + total P + ish) by (unfold ish; lia).
      apply (words_tr m); auto. intros y Hy. apply DX. unfold bytes in *. lia.
  - destruct (app_cut _ _ _ _ _ E') as [(R & EX & EQ)|(P2 & EP2 & E2)].
    + destruct (HN _ _ _ EX) as [W1 W2]. rewrite EP. ls. split; [rewrite W1; lia|].
      rewrite !Z.add_assoc. auto.
    + destruct (H (X ++ O ++ P2) z Q ltac:(rewrite E2, <- !app_assoc; reflexivity)) as [W1 W2]. rewrite CO in W1, W2.
      assert (FP : Forall ok_item P2 /\ ok_item z /\ Forall ok_item Q).
      { rewrite E2 in FY. apply Forall_app in FY. destruct FY as [FX1 FX2]. inversion FX2; auto. }
      destruct FP as (FP & OZ & FR). pose proof (total_ok _ FP). pose proof (total_ok _ FR).
      assert (count Y = count P2 + 1 + count Q /\ total Y = total P2 + bytes z + total Q) by (rewrite E2; ls; lia).
      assert (0 <= count P2 /\ 0 <= count Q) by (unfold count; lia). pose proof (bytes_nn z).
      rewrite EP, EP2. ls. split.
      * rewrite Z.add_assoc, HY by lia. rewrite Z.add_assoc in W1. rewrite W1, w16_word; [unfold dsh, ish; lia|apply OZ|unfold dsh, ish; lia].
      * replace (b + array n' + (total X + (total N + total P2))) with (b + array n + (total X + (total O + total P2)) + dsh) by (unfold dsh, ish; lia).
        apply (words_tr m); auto. intros y Hy. apply DY. unfold bytes in *. lia.
Qed.

(* ------------------------------------------------- what is not written *)

(** Nothing is written over the header and the descriptors or behind the page. *)
Definition kept (p p' : page) : Prop :=
  forall x, x < desc_at + 4 * pg_cc p' \/ blcksz <= x -> pg_m p' x = pg_m p x.

Lemma ins_mem_out : forall m b i n o o' ip e size x,
  0 <= i <= n -> 2 * n <= o -> 2 * (n + 1) <= o' -> o <= o' -> b + o <= ip <= e -> 0 <= size ->
  x < b \/ e + (o' - o + size) <= x -> ins_mem m b i n o o' ip e size x = m x.
Proof.
  intros. unfold ins_mem. cbv zeta. unfold put, upd, shift_up, bump, move. at_mem.
Qed.

Lemma below : forall p G st A g C, Rep p G st -> G = A ++ g :: C -> desc_at + 4 * pg_cc p <= st + data_bytes A.
Proof.
  intros p G st A g C R E. pose proof (r_st _ _ _ R) as (S & _). rewrite kb in S. rewrite (r_cc _ _ _ R).
  pose proof (keys_ok _ (r_ok _ _ _ R)) as K. pose proof (data_ok _ (proj1 (at_ok _ _ _ _ _ _ R E))) as D.
  assert (desc_at + 4 * zl G <= descs_end (zl G)) by (unfold descs_end, ma; dlia). lia.
Qed.
