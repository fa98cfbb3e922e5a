(** Proofs for C18: the representation of groups in the page. *)
From Coq Require Import ZArith List Bool Lia ZifyBool.
From Verif Require Import Base PgChunkModel PgChunkSpec.
Import ListNotations.
Open Scope Z_scope.
Ltac dlia := Z.div_mod_to_equations; lia.

Notation zl l := (Z.of_nat (length l)).

Definition keys_sz (l : list group) : Z := fold_right (fun g s => bytes (snd g) + s) 0 l.
Definition cnt (l : list group) : Z := fold_right (fun g s => count (fst g) + s) 0 l.

(* ------------------------------------------------- lists *)

Lemma split3 : forall {A} (X : list A) x Y P y Q, X ++ x :: Y = P ++ y :: Q ->
  (exists R, P = X ++ x :: R /\ Y = R ++ y :: Q) \/
  (X = P /\ x = y /\ Y = Q) \/
  (exists R, X = P ++ y :: R /\ Q = R ++ x :: Y).
Proof.
  intros A X. induction X as [|a X IH]; intros x Y [|b P] y Q H; cbn in H.
  - injection H; intros; subst. right; left; auto.
  - injection H; intros; subst. left. exists P. auto.
  - injection H; intros; subst. right; right. exists X. auto.
  - injection H; intros H1 H2; subst b. destruct (IH _ _ _ _ _ H1) as [[R [-> ->]]|[[-> [-> ->]]|[R [-> ->]]]].
    + left. exists R. auto.
    + right; left; auto.
    + right; right. exists R. auto.
Qed.

Lemma total_app : forall a b, total (a ++ b) = total a + total b.
Proof. induction a; intros; cbn [app total fold_right]; [reflexivity|]. fold (total (a0 ++ b)). rewrite IHa. fold (total a0). lia. Qed.
Lemma total_cons : forall x b, total (x :: b) = bytes x + total b.
Proof. reflexivity. Qed.
Lemma data_app : forall a b, data_bytes (a ++ b) = data_bytes a + data_bytes b.
Proof. induction a; intros; cbn [app data_bytes fold_right]; [reflexivity|]. fold (data_bytes (a0 ++ b)). rewrite IHa. fold (data_bytes a0). lia. Qed.
Lemma data_cons : forall x b, data_bytes (x :: b) = group_bytes x + data_bytes b.
Proof. reflexivity. Qed.
Lemma keys_app : forall a b, keys_sz (a ++ b) = keys_sz a + keys_sz b.
Proof. induction a; intros; cbn [app keys_sz fold_right]; [reflexivity|]. fold (keys_sz (a0 ++ b)). rewrite IHa. fold (keys_sz a0). lia. Qed.
Lemma keys_cons : forall x b, keys_sz (x :: b) = bytes (snd x) + keys_sz b.
Proof. reflexivity. Qed.
Lemma cnt_app : forall a b, cnt (a ++ b) = cnt a + cnt b.
Proof. induction a; intros; cbn [app cnt fold_right]; [reflexivity|]. fold (cnt (a0 ++ b)). rewrite IHa. fold (cnt a0). lia. Qed.
Lemma cnt_cons : forall x b, cnt (x :: b) = count (fst x) + cnt b.
Proof. reflexivity. Qed.
Lemma zl_app : forall {A} (a b : list A), zl (a ++ b) = zl a + zl b.
Proof. intros. rewrite app_length. lia. Qed.
Lemma zl_cons : forall {A} (x : A) b, zl (x :: b) = 1 + zl b.
Proof. intros. cbn [length]. lia. Qed.
Lemma count_app : forall a b, count (a ++ b) = count a + count b.
Proof. intros. apply zl_app. Qed.
Lemma count_cons : forall x b, count (x :: b) = 1 + count b.
Proof. intros. apply zl_cons. Qed.

#[global] Hint Rewrite total_app total_cons data_app data_cons keys_app keys_cons cnt_app cnt_cons
  @zl_app @zl_cons count_app count_cons : pgls.
Ltac ls := autorewrite with pgls in *.

(** Sizes: items and keys are multiples of eight bytes, at least eight. *)
Definition ok_item (x : item) : Prop := (fst x = 0 \/ fst x = 1) /\ bytes x mod 8 = 0 /\ 8 <= bytes x.
Definition ok_group (g : group) : Prop :=
  Forall ok_item (fst g) /\ (fst (snd g) = 0 \/ fst (snd g) = 1) /\ bytes (snd g) mod 8 = 0.

Lemma bytes_nn : forall x, 0 <= bytes x.
Proof. intros. unfold bytes. lia. Qed.
Lemma total_ok : forall l, Forall ok_item l -> 8 * count l <= total l /\ total l mod 8 = 0.
Proof.
  induction 1 as [|x l [_ [M B]] F IH]; [split; reflexivity|].
  rewrite total_cons, count_cons. destruct IH. split; [lia|]. dlia.
Qed.
Lemma array_facts : forall n, 0 <= n -> 2 * n <= array n /\ array n <= 2 * n + 7 /\ array n mod 8 = 0 /\ 0 <= array n.
Proof. intros. unfold array. dlia. Qed.
Lemma gb_ok : forall g, ok_group g -> 10 * count (fst g) <= group_bytes g /\ group_bytes g mod 8 = 0 /\ 0 <= count (fst g).
Proof.
  intros g [F _]. pose proof (total_ok _ F). unfold group_bytes.
  assert (0 <= count (fst g)) by (unfold count; lia).
  pose proof (array_facts (count (fst g)) ltac:(auto)). dlia.
Qed.
Lemma data_ok : forall l, Forall ok_group l -> 10 * cnt l <= data_bytes l /\ data_bytes l mod 8 = 0 /\ 0 <= cnt l.
Proof.
  induction 1 as [|x l O F IH]; [repeat split; lia || reflexivity|].
  pose proof (gb_ok _ O). rewrite data_cons, cnt_cons. dlia.
Qed.
Lemma keys_ok : forall l, Forall ok_group l -> 0 <= keys_sz l /\ keys_sz l mod 8 = 0.
Proof.
  induction 1 as [|x l [_ [_ M]] F IH]; [split; reflexivity|].
  pose proof (bytes_nn (snd x)). rewrite keys_cons. dlia.
Qed.

(* ------------------------------------------------- memory *)

(** The words [ws] lie at offset [a]. *)
Definition words (m : mem) (a : Z) (ws : list Z) : Prop :=
  forall j, 0 <= j < zl ws -> m (a + 2 * j) = nth (Z.to_nat j) ws 0.

Definition chunk_at (m : mem) (b : Z) (its : list item) : Prop :=
  forall X x Y, its = X ++ x :: Y ->
    m (b + 2 * count X) = fst x * 16384 + (array (count its) + total X) /\
    words m (b + array (count its) + total X) (snd x).

Lemma words_tr : forall m m' a s ws, words m a ws ->
  (forall x, a <= x < a + 2 * zl ws -> m' (x + s) = m x) -> words m' (a + s) ws.
Proof. intros m m' a s ws W H j J. replace (a + s + 2 * j) with (a + 2 * j + s) by lia. rewrite H by lia. auto. Qed.

Lemma chunk_tr : forall m m' b s its, Forall ok_item its -> chunk_at m b its ->
  (forall x, b <= x < b + (array (count its) + total its) -> m' (x + s) = m x) -> chunk_at m' (b + s) its.
Proof.
  intros m m' b s its F C H X x Y E. destruct (C _ _ _ E) as [C1 C2]. subst its.
  apply Forall_app in F. destruct F as [F1 F2]. inversion F2; subst.
  pose proof (total_ok _ F1). pose proof (total_ok _ H3). destruct H2 as [_ [M B]].
  pose proof (array_facts (count (X ++ x :: Y)) ltac:(unfold count; lia)).
  assert (0 <= count X /\ 0 <= count Y) by (unfold count; lia).
  ls. split.
  - replace (b + s + 2 * count X) with (b + 2 * count X + s) by lia. rewrite H by (ls; lia). auto.
  - replace (b + s + array (count X + (1 + count Y)) + total X) with (b + array (count X + (1 + count Y)) + total X + s) by lia.
    apply (words_tr m); auto. intros y Hy. apply H. unfold bytes in *. lia.
Qed.

Lemma words_ext : forall m m' a ws, words m a ws ->
  (forall x, a <= x < a + 2 * zl ws -> m' x = m x) -> words m' a ws.
Proof. intros. replace a with (a + 0) by lia. apply (words_tr m); auto. intros. replace (x + 0) with x by lia. auto. Qed.
Lemma chunk_ext : forall m m' b its, Forall ok_item its -> chunk_at m b its ->
  (forall x, b <= x < b + (array (count its) + total its) -> m' x = m x) -> chunk_at m' b its.
Proof. intros. replace b with (b + 0) by lia. apply (chunk_tr m); auto. intros. replace (x + 0) with x by lia. auto. Qed.

Lemma words_in : forall m a ws, words (copy_in a ws m) a ws.
Proof.
  intros m a ws j J. unfold copy_in.
  replace ((a <=? a + 2 * j) && (a + 2 * j <? a + 2 * zl ws)) with true by lia.
  f_equal. f_equal. dlia.
Qed.

(* ------------------------------------------------- representation *)

Record Rep (p : page) (G : list group) (st : Z) : Prop := mkRep {
  r_ok : Forall ok_group G;
  r_cc : pg_cc p = zl G;
  r_n : pg_n p = cnt G;
  r_size : pg_size p = st + data_bytes G;
  r_hend : pg_hend p = key_bytes G;
  r_max : st + data_bytes G <= blcksz;
  r_st : key_bytes G <= st /\ st mod 8 = 0 /\ 0 <= st;
  r_lim : (pg_lim p = 256 \/ pg_lim p = 512) /\ pg_lim p <= st;
  r_hk : forall A g C, G = A ++ g :: C -> descs_end (zl G) + keys_sz A < 512;
  r_last : pg_right p = true \/ exists A g, G = A ++ [g] /\ 8 <= bytes (snd g);
  r_d : forall A g C, G = A ++ g :: C ->
    4 * d_loc (pg_d p (zl A)) = st + data_bytes A /\ d_off (pg_d p (zl A)) = cnt A /\
    4 * d_hk (pg_d p (zl A)) = descs_end (zl G) + keys_sz A /\ d_hf (pg_d p (zl A)) = fst (snd g);
  r_m : forall A g C, G = A ++ g :: C -> chunk_at (pg_m p) (st + data_bytes A) (fst g);
  r_k : forall A g C, G = A ++ g :: C -> words (pg_m p) (descs_end (zl G) + keys_sz A) (snd (snd g)) }.

Lemma kb : forall G, key_bytes G = descs_end (zl G) + keys_sz G.
Proof. reflexivity. Qed.
Lemma de_facts : forall n, 0 <= n -> 56 <= descs_end n /\ descs_end n mod 8 = 0 /\ descs_end (n + 1) - descs_end n >= 0 /\
  descs_end n <= descs_end (n + 1) <= descs_end n + 8.
Proof. intros. unfold descs_end, ma, desc_at. dlia. Qed.

Lemma mkd_id : forall l o h f, 0 <= l < 4096 -> 0 <= o < 1024 -> 0 <= h < 128 -> 0 <= f < 4 ->
  mkd l o h f = mkDesc l o h f.
Proof. intros. unfold mkd. rewrite !Z.mod_small by lia. reflexivity. Qed.

Lemma off_flags : forall f v, f = 0 \/ f = 1 -> 0 <= v < 16384 ->
  off_of (f * 16384 + v) = v /\ flags_of (f * 16384 + v) = f.
Proof. intros f v [->| ->] H; unfold off_of, flags_of; dlia. Qed.

Section At.
Variables (p : page) (G A C : list group) (g : group) (st : Z).
Hypothesis R : Rep p G st.
Hypothesis E : G = A ++ g :: C.

Lemma at_ok : Forall ok_group A /\ ok_group g /\ Forall ok_group C.
Proof. pose proof (r_ok _ _ _ R) as F. rewrite E in F. apply Forall_app in F. destruct F as [F1 F2]. inversion F2; auto. Qed.

(** The bounds everything else follows from. *)
Lemma at_bounds :
  pg_cc p = zl A + 1 + zl C /\ pg_n p = cnt A + count (fst g) + cnt C /\
  pg_size p = st + data_bytes A + group_bytes g + data_bytes C /\ pg_size p <= 8192 /\
  0 <= data_bytes A /\ 0 <= data_bytes C /\ data_bytes A mod 8 = 0 /\ data_bytes C mod 8 = 0 /\
  group_bytes g mod 8 = 0 /\ st mod 8 = 0 /\ 256 <= st /\
  group_bytes g = array (count (fst g)) + total (fst g) /\
  0 <= count (fst g) /\ 8 * count (fst g) <= total (fst g) /\ total (fst g) mod 8 = 0 /\
  10 * cnt A <= data_bytes A /\ 0 <= cnt A /\ 10 * cnt C <= data_bytes C /\ 0 <= cnt C.
Proof.
  destruct at_ok as (F1 & F2 & F3). pose proof (data_ok _ F1). pose proof (data_ok _ F3). pose proof (gb_ok _ F2).
  destruct F2 as [F2 _]. pose proof (total_ok _ F2).
  pose proof (r_cc _ _ _ R). pose proof (r_n _ _ _ R). pose proof (r_size _ _ _ R).
  pose proof (r_max _ _ _ R). pose proof (r_st _ _ _ R). pose proof (r_lim _ _ _ R). unfold blcksz in *.
  rewrite E in H3, H4, H5, H6. ls.
  assert (0 <= count (fst g)) by (unfold count; lia).
  repeat (split; [unfold group_bytes in *; lia|]). unfold group_bytes in *; lia.
Qed.

Lemma at_loc : loc_at p (zl A) = st + data_bytes A.
Proof. apply (r_d _ _ _ R _ _ _ E). Qed.

Lemma at_next : zl A + 1 < pg_cc p -> exists g' C', C = g' :: C' /\
  loc_at p (zl A + 1) = st + data_bytes A + group_bytes g /\
  d_off (pg_d p (zl A + 1)) = cnt A + count (fst g).
Proof.
  intros H. pose proof at_bounds as B. destruct C as [|g' C']; [cbn in B; lia|].
  exists g', C'. split; auto.
  assert (E2 : G = (A ++ [g]) ++ g' :: C') by (rewrite <- app_assoc; exact E).
  destruct (r_d _ _ _ R _ _ _ E2) as (D1 & D2 & _).
  rewrite zl_app in D1, D2. rewrite data_app in D1. rewrite cnt_app in D2.
  replace (zl [g]) with 1 in D1, D2 by reflexivity.
  rewrite data_cons in D1. rewrite cnt_cons in D2. cbn [data_bytes cnt fold_right] in D1, D2.
  unfold loc_at. lia.
Qed.

Lemma at_n : chunk_n p (zl A) = count (fst g).
Proof.
  pose proof at_bounds as B. unfold chunk_n. destruct (r_d _ _ _ R _ _ _ E) as (_ & D & _).
  destruct (zl A + 1 <? pg_cc p) eqn:H.
  - destruct at_next as (g' & C' & _ & _ & X); [lia|]. lia.
  - destruct C; [|cbn [length] in B; lia]. cbn in B. lia.
Qed.

Lemma at_end : (if zl A + 1 <? pg_cc p then loc_at p (zl A + 1) else pg_size p) = st + data_bytes A + group_bytes g.
Proof.
  pose proof at_bounds as B. destruct (zl A + 1 <? pg_cc p) eqn:H.
  - destruct at_next as (g' & C' & _ & X & _); [lia|]. lia.
  - destruct C; [|cbn [length] in B; lia]. cbn in B. lia.
Qed.

Lemma at_sz : chunk_sz p (zl A) = group_bytes g.
Proof.
  unfold chunk_sz. rewrite at_loc. pose proof at_end. destruct (zl A + 1 <? pg_cc p); lia.
Qed.

Variables (X Y : list item) (x : item).
Hypothesis EI : fst g = X ++ x :: Y.

Lemma it_bounds : ok_item x /\ Forall ok_item X /\ Forall ok_item Y /\
  count (fst g) = count X + 1 + count Y /\ 0 <= count X /\ 0 <= count Y /\
  total (fst g) = total X + bytes x + total Y /\ 0 <= total X /\ 0 <= total Y /\
  total X mod 8 = 0 /\ total Y mod 8 = 0.
Proof.
  destruct at_ok as (_ & [F _] & _). rewrite EI in F. apply Forall_app in F. destruct F as [F1 F2]. inversion F2; subst.
  pose proof (total_ok _ F1). pose proof (total_ok _ H2). rewrite EI. ls.
  assert (0 <= count X /\ 0 <= count Y) by (unfold count; lia). repeat (split; [auto; lia|]). lia.
Qed.

Lemma it_word : pg_m p (loc_at p (zl A) + 2 * count X) = fst x * 16384 + (array (count (fst g)) + total X) /\
  off_of (pg_m p (loc_at p (zl A) + 2 * count X)) = array (count (fst g)) + total X /\
  flags_of (pg_m p (loc_at p (zl A) + 2 * count X)) = fst x /\
  words (pg_m p) (loc_at p (zl A) + array (count (fst g)) + total X) (snd x).
Proof.
  rewrite at_loc. destruct (r_m _ _ _ R _ _ _ E _ _ _ EI) as [W1 W2]. rewrite W1.
  pose proof at_bounds. pose proof it_bounds as (O & IB). pose proof (array_facts (count (fst g)) ltac:(lia)).
  pose proof (bytes_nn x). destruct O as [O _]. destruct (off_flags (fst x) (array (count (fst g)) + total X) O ltac:(lia)). auto.
Qed.

Lemma it_size : item_size p (zl A) (count X) = bytes x.
Proof.
  unfold item_size. cbv zeta. destruct it_word as (_ & -> & _). rewrite at_n.
  pose proof at_bounds as B. pose proof it_bounds as (O & IB).
  destruct (count X + 1 <? count (fst g)) eqn:H.
  - destruct Y as [|y Y']; [cbn in IB; lia|].
    assert (E2 : fst g = (X ++ [x]) ++ y :: Y') by (rewrite <- app_assoc; exact EI).
    destruct (r_m _ _ _ R _ _ _ E _ _ _ E2) as [W _]. rewrite <- at_loc in W.
    rewrite count_app in W. replace (count [x]) with 1 in W by reflexivity. rewrite W.
    rewrite total_app, total_cons. cbn [total fold_right].
    destruct at_ok as (_ & [F _] & _). rewrite E2 in F. apply Forall_app in F. destruct F as [_ F]. inversion F; subst.
    destruct H2 as [H2 _]. pose proof (array_facts (count (fst g)) ltac:(lia)). rewrite total_cons in IB.
    pose proof (bytes_nn x). pose proof (bytes_nn y).
    assert (0 <= total Y').
    { pose proof (total_ok _ H3). assert (0 <= count Y') by (unfold count; lia). lia. }
    assert (L2 : array (count (fst g)) + total (fst g) <= 8192) by (clear -B; lia).
    destruct IB as (_ & _ & _ & _ & _ & I1 & I2 & _).
    assert (L4 : 0 <= array (count (fst g)) + (total X + (bytes x + 0))) by lia.
    assert (L5 : array (count (fst g)) + (total X + (bytes x + 0)) < 16384) by lia.
    destruct (off_flags (fst y) (array (count (fst g)) + (total X + (bytes x + 0))) H2 (conj L4 L5)) as [-> _]. lia.
  - rewrite at_end, at_loc. destruct Y as [|y Y']; [cbn in *; lia|]. rewrite count_cons in IB.
    assert (0 <= count Y') by (unfold count; lia). lia.
Qed.
End At.

Lemma map_seq_eq : forall {A} (f : nat -> A) (l : list A) n, n = length l ->
  (forall X x Y, l = X ++ x :: Y -> f (length X) = x) -> map f (seq 0 n) = l.
Proof.
  intros A f l n -> H. apply nth_ext with (d := f 0%nat) (d' := f 0%nat).
  - rewrite map_length, seq_length. reflexivity.
  - intros k Hk. rewrite map_length, seq_length in Hk. rewrite map_nth, seq_nth by auto. cbn.
    destruct (nth_split l (f 0%nat) Hk) as (X & Y & E & L). rewrite <- L at 1. apply H with (Y := Y). exact E.
Qed.

Lemma read_words_eq : forall m a ws, words m a ws -> read_words m a (length ws) = ws.
Proof.
  intros m a ws W. unfold read_words. apply map_seq_eq; auto.
  intros X x Y E. rewrite W.
  - rewrite Nat2Z.id, E. apply nth_middle.
  - rewrite E, app_length. cbn [length]. lia.
Qed.

Lemma Rep_item : forall p G st A g C X x Y, Rep p G st -> G = A ++ g :: C -> fst g = X ++ x :: Y ->
  item_at p (zl A) (count X) = x.
Proof.
  intros p G st A g C X x Y R E EI. unfold item_at. cbv zeta.
  destruct (it_word _ _ _ _ _ _ R E _ _ _ EI) as (_ & -> & -> & W).
  rewrite (it_size _ _ _ _ _ _ R E _ _ _ EI). unfold bytes.
  replace (Z.to_nat (2 * zl (snd x) / 2)) with (length (snd x)) by dlia.
  rewrite Z.add_assoc, (read_words_eq _ _ _ W). destruct x; reflexivity.
Qed.

Lemma Rep_key : forall p G st A g C, Rep p G st -> G = A ++ g :: C -> key_at p (zl A) = snd g.
Proof.
  intros p G st A g C R E. unfold key_at. cbv zeta.
  destruct (r_d _ _ _ R _ _ _ E) as (_ & _ & K & F). rewrite F, K.
  assert (N : (if zl A + 1 <? pg_cc p then 4 * d_hk (pg_d p (zl A + 1)) else pg_hend p) =
              descs_end (zl G) + keys_sz A + bytes (snd g)).
  { pose proof (r_cc _ _ _ R) as CC. rewrite E in CC. ls. destruct C as [|g' C'].
    - replace (zl A + 1 <? pg_cc p) with false by (cbn [length] in CC; lia).
      rewrite (r_hend _ _ _ R), kb. rewrite E at 2. ls. cbn [keys_sz fold_right]. lia.
    - replace (zl A + 1 <? pg_cc p) with true by (cbn [length] in CC; lia).
      assert (E2 : G = (A ++ [g]) ++ g' :: C') by (rewrite <- app_assoc; exact E).
      destruct (r_d _ _ _ R _ _ _ E2) as (_ & _ & K2 & _).
      rewrite zl_app in K2. replace (zl [g]) with 1 in K2 by reflexivity. rewrite K2.
      rewrite keys_app, keys_cons. cbn [keys_sz fold_right]. lia. }
  rewrite N. unfold bytes.
  match goal with |- context [Z.to_nat ?z] => replace (Z.to_nat z) with (length (snd (snd g))) by dlia end.
  rewrite (read_words_eq _ _ _ (r_k _ _ _ R _ _ _ E)). destruct (snd g); reflexivity.
Qed.

Lemma Rep_contents : forall p G st, Rep p G st -> contents p = G.
Proof.
  intros p G st R. unfold contents. apply (@map_seq_eq group).
  - rewrite (r_cc _ _ _ R). apply Nat2Z.id.
  - intros A g C E. rewrite (Rep_key _ _ _ _ _ _ R E), (at_n _ _ _ _ _ _ R E).
    rewrite (surjective_pairing g) at 3. f_equal. apply (@map_seq_eq item).
    + apply Nat2Z.id.
    + intros X x Y EI. apply (Rep_item _ _ _ _ _ _ _ _ _ R E EI).
Qed.

(** The item with a given number. *)
Lemma find_chunk_ok : forall p G st, Rep p G st -> forall n k A g C, G = A ++ g :: C -> cnt A <= k -> (length C <= n)%nat ->
  k <= cnt G ->
  exists A' g' C', G = A' ++ g' :: C' /\ find_chunk n p k (zl A) = zl A' /\ cnt A' <= k <= cnt A' + count (fst g') /\
    (k < cnt G -> k < cnt A' + count (fst g')).
Proof.
  intros p G st R. induction n as [|n IH]; intros k A g C E K L M; cbn [find_chunk].
  - destruct C; [|cbn in L; lia]. exists A, g, []. split; auto. split; auto.
    rewrite E in M |- *. ls. cbn in M |- *. lia.
  - pose proof (at_bounds _ _ _ _ _ _ R E) as B. destruct ((zl A <? pg_cc p - 1) && (d_off (pg_d p (zl A + 1)) <=? k)) eqn:H.
    + destruct (at_next _ _ _ _ _ _ R E) as (g' & C' & -> & _ & O); [lia|].
      assert (E2 : G = (A ++ [g]) ++ g' :: C') by (rewrite <- app_assoc; exact E).
      specialize (IH k _ _ _ E2). rewrite zl_app in IH. apply IH; auto.
      * rewrite cnt_app, cnt_cons. cbn [cnt fold_right]. lia.
      * cbn in L. lia.
    + exists A, g, C. split; auto. split; auto.
      destruct (Z_lt_dec (zl A + 1) (pg_cc p)) as [Q|Q].
      * destruct (at_next _ _ _ _ _ _ R E Q) as (g' & C' & _ & _ & O). lia.
      * destruct C; [|rewrite zl_cons in B; lia]. rewrite E in M |- *. ls. cbn in M |- *. lia.
Qed.
