(** Proofs for C18: what a page that represents groups satisfies. *)
From Coq Require Import ZArith List Bool Lia ZifyBool.
From Verif Require Import Base PgChunkModel PgChunkSpec PgChunkProofs PgChunkOpProofs PgChunkRunProofs.
Import ListNotations.
Open Scope Z_scope.

(** The place of item [i] of group [c] among all items. *)
Definition nth_place (l : list group) (c i : Z) : nat :=
  (length (items (firstn (Z.to_nat c) l)) + Z.to_nat i)%nat.

Definition effect (l : list group) (o : op) (l' : list item) : Prop :=
  match o with
  | Insert c i f ws => l' = insert_nth (nth_place l c i) (f, ws) (items l)
  | Replace c i f ws => l' = replace_nth (nth_place l c i) (f, ws) (items l)
  | Delete c i => l' = remove_nth (nth_place l c i) (items l)
  | Cut _ _ _ _ => l' = items l
  end.

Lemma items_app : forall a b, items (a ++ b) = items a ++ items b.
Proof. intros. apply flat_map_app. Qed.

Lemma items_join : forall c l, items (join c l) = items l.
Proof.
  intros c l. unfold join. destruct (skipn c l) as [|[a k1] [|[b k2] r]] eqn:E; auto.
  rewrite <- (firstn_skipn c l) at 2. rewrite E, !items_app. cbn [items flat_map fst]. rewrite <- !app_assoc. reflexivity.
Qed.
Lemma items_tidy : forall c l, items (tidy c l) = items l.
Proof.
  intros c l. unfold tidy. destruct (skipn c l) as [|[[|x a] k] r]; auto. destruct c; apply items_join.
Qed.

Lemma place_split : forall l c i add, place l c i add = true -> exists A g C, l = A ++ g :: C /\ c = zl A /\ 0 <= i < count (fst g) + add.
Proof.
  intros l c i add H. assert (HC : (0 <=? c) && (c <? zl l) = true).
  { destruct ((0 <=? c) && (c <? zl l)) eqn:Q; auto. rewrite (place_out _ _ _ _ Q) in H. discriminate. }
  destruct (PgChunkEditProofs.split_at l c ltac:(lia)) as (A & g & C & E & L). exists A, g, C. split; auto. split; auto.
  rewrite E, <- L, place_at in H. lia.
Qed.

Lemma app_mid : forall {T} (P X Y Q : list T) n, n = length X ->
  firstn (length P + n) (P ++ (X ++ Y) ++ Q) = P ++ X /\ skipn (length P + n) (P ++ (X ++ Y) ++ Q) = Y ++ Q.
Proof.
  intros T P X Y Q n ->. rewrite <- app_length. replace (P ++ (X ++ Y) ++ Q) with ((P ++ X) ++ Y ++ Q) by (rewrite <- !app_assoc; reflexivity).
  rewrite firstn_len, skipn_len. auto.
Qed.

Lemma gstep_effect : forall st room l o, gstep st room l o = l \/ effect l o (items (gstep st room l o)).
Proof.
  intros st room l o. destruct o as [c i f ws|c i f ws|c i|c i f ws]; cbn [gstep effect]; cbv zeta;
    match goal with |- context [if ?b then _ else _] => destruct b eqn:H; [|left; reflexivity] end; right.
  - assert (PL : place l c i 1 = true) by (destruct (place l c i 1); auto).
    destruct (place_split _ _ _ _ PL) as (A & g & C & -> & -> & HI). unfold nth_place. rewrite Nat2Z.id, at_group_eq, firstn_len.
    destruct (cut2 (fst g) i ltac:(unfold count in HI; lia)) as (X & Y & EI & LX). assert (LN : Z.to_nat i = length X) by lia. rewrite LN.
    rewrite !items_app. cbn [items flat_map fst app]. fold (items C). rewrite EI, insert_nth_eq, app_nil_r.
    unfold insert_nth. destruct (app_mid (items A) X Y (items C) (length X) eq_refl) as [E1 E2]. etransitivity; [|exact (f_equal2 (fun a b => a ++ (f, ws) :: b) (eq_sym E1) (eq_sym E2))]. rewrite <- !app_assoc. reflexivity.
  - assert (PL : place l c i 0 = true) by (destruct (place l c i 0); auto).
    destruct (place_split _ _ _ _ PL) as (A & g & C & -> & -> & HI). unfold nth_place. rewrite Nat2Z.id, at_group_eq, firstn_len.
    destruct (PgChunkEditProofs.split_at (fst g) i ltac:(unfold count in HI; lia)) as (X & y & Y & EI & LX). assert (LN : Z.to_nat i = length X) by lia. rewrite LN.
    rewrite !items_app. cbn [items flat_map fst app]. fold (items C). unfold replace_nth. rewrite EI, firstn_len, skip_S, app_nil_r.
    destruct (app_mid (items A) X (y :: Y) (items C) (length X) eq_refl) as [E1 E2]. 
    replace (S (length (items A) + length X)) with (length (items A) + length (X ++ [y]))%nat by (rewrite app_length; cbn; lia).
    destruct (app_mid (items A) (X ++ [y]) Y (items C) (length (X ++ [y])) eq_refl) as [_ E3].
    rewrite <- (app_assoc X [y] Y) in E3. cbn [app] in E3. etransitivity; [|exact (f_equal2 (fun a b => a ++ (f, ws) :: b) (eq_sym E1) (eq_sym E3))]. rewrite <- !app_assoc. reflexivity.
  - destruct (place_split _ _ _ _ H) as (A & g & C & -> & -> & HI). unfold nth_place. rewrite items_tidy, Nat2Z.id, at_group_eq, firstn_len.
    destruct (PgChunkEditProofs.split_at (fst g) i ltac:(unfold count in HI; lia)) as (X & y & Y & EI & LX). assert (LN : Z.to_nat i = length X) by lia. rewrite LN.
    rewrite !items_app. cbn [items flat_map fst app]. fold (items C). unfold remove_nth. rewrite EI, firstn_len, skip_S, app_nil_r.
    destruct (app_mid (items A) X (y :: Y) (items C) (length X) eq_refl) as [E1 E2]. 
    replace (S (length (items A) + length X)) with (length (items A) + length (X ++ [y]))%nat by (rewrite app_length; cbn; lia).
    destruct (app_mid (items A) (X ++ [y]) Y (items C) (length (X ++ [y])) eq_refl) as [_ E3].
    rewrite <- (app_assoc X [y] Y) in E3. cbn [app] in E3. etransitivity; [|exact (f_equal2 (fun a b => a ++ b) (eq_sym E1) (eq_sym E3))]. rewrite <- !app_assoc. reflexivity.
  - assert (PL : place l c i 0 = true) by (destruct (place l c i 0); auto).
    destruct (place_split _ _ _ _ PL) as (A & g & C & -> & -> & HI). rewrite Nat2Z.id, at_group_eq.
    rewrite !items_app. cbn [items flat_map fst app]. rewrite app_nil_r, firstn_skipn. reflexivity.
Qed.

Lemma gstep_ne : forall o l st room, l <> [] -> gstep st room l o <> [].
Proof.
  intros o l st room NE Q.
  destruct o as [c i f ws|c i f ws|c i|c i f ws]; cbn [gstep] in Q; cbv zeta in Q;
    match type of Q with (if ?b then _ else _) = _ => destruct b eqn:H; [|contradiction] end.
  - assert (PL : place l c i 1 = true) by (destruct (place l c i 1); auto).
    destruct (place_split _ _ _ _ PL) as (A & g & C & -> & -> & HI). rewrite Nat2Z.id, at_group_eq in Q. destruct A; discriminate.
  - assert (PL : place l c i 0 = true) by (destruct (place l c i 0); auto).
    destruct (place_split _ _ _ _ PL) as (A & g & C & -> & -> & HI). rewrite Nat2Z.id, at_group_eq in Q. destruct A; discriminate.
  - destruct (place_split _ _ _ _ H) as (A & g & C & -> & -> & HI). rewrite Nat2Z.id, at_group_eq in Q. cbn [app] in Q.
    assert (J : forall c l, l <> [] -> join c l <> []).
    { clear. intros c l N. unfold join. destruct (skipn c l) as [|[a k1] [|[b k2] r]]; auto. destruct (firstn c l); discriminate. }
    assert (N2 : A ++ (remove_nth (Z.to_nat i) (fst g), snd g) :: C <> []) by (destruct A; discriminate).
    unfold tidy in Q. destruct (skipn (length A) _) as [|[[|x a] k] r]; try (apply N2; exact Q).
    destruct (length A); eapply J; eauto.
  - assert (PL : place l c i 0 = true) by (destruct (place l c i 0); auto).
    destruct (place_split _ _ _ _ PL) as (A & g & C & -> & -> & HI). rewrite Nat2Z.id, at_group_eq in Q. destruct A; discriminate.
Qed.

Lemma rep_start : forall p G st, Rep p G st -> G <> [] -> loc_at p 0 = st.
Proof.
  intros p G st R NE. destruct G as [|g G']; [congruence|].
  assert (E : g :: G' = [] ++ g :: G') by reflexivity. pose proof (at_loc _ _ _ _ _ _ R E) as LO. cbn [length Z.of_nat data_bytes fold_right] in LO. lia.
Qed.

Lemma rep_layout : forall p G st, Rep p G st -> G <> [] ->
  56 + 4 * pg_cc p <= 4 * d_hk (pg_d p 0) /\
  pg_hend p = key_bytes (contents p) /\ pg_hend p <= loc_at p 0 /\
  pg_size p = loc_at p 0 + data_bytes (contents p) /\ pg_size p <= 8192 /\
  pg_n p = count (items (contents p)).
Proof.
  intros p G st R NE. rewrite (Rep_contents _ _ _ R), (rep_start _ _ _ R NE). destruct G as [|g G'] eqn:EG; [congruence|].
  rewrite <- EG in *. assert (E : G = [] ++ g :: G') by exact EG. clear EG.
  pose proof (PgChunkMergeProofs.Rep_hk _ _ _ _ _ _ R E) as HK.
  pose proof (r_st _ _ _ R) as (S1 & _). pose proof (r_hend _ _ _ R) as HE. pose proof (r_size _ _ _ R) as SZ. pose proof (r_max _ _ _ R) as MX.
  unfold blcksz in MX. pose proof (r_cc _ _ _ R) as CC. pose proof (r_n _ _ _ R) as NN.
  assert (CI : forall l, cnt l = count (items l)).
  { clear. induction l as [|x l IH]; [reflexivity|]. rewrite cnt_cons. cbn [items flat_map]. fold (items l). rewrite count_app, IH. reflexivity. }
  rewrite CI in NN. rewrite HK.
  assert (DE : 56 + 4 * zl G <= descs_end (zl G)) by (unfold descs_end, ma, desc_at; clear; dlia).
  clear - DE CC HE S1 SZ MX NN. repeat (split; [lia|]). exact NN.
Qed.

Lemma rep_locate : forall p G st k, Rep p G st -> 0 <= k < pg_n p ->
  item_at p (fst (locate p k)) (snd (locate p k)) = nth (Z.to_nat k) (items (contents p)) (0, []).
Proof.
  intros p G st k R K. rewrite (Rep_contents _ _ _ R).
  pose proof (r_n _ _ _ R) as NN. destruct G as [|g C] eqn:EG; [cbn in NN; lia|]. rewrite <- EG in *.
  assert (E : G = [] ++ g :: C) by exact EG. clear EG.
  unfold locate. cbn [fst snd].
  destruct (find_chunk_ok _ _ _ R (Z.to_nat (pg_cc p)) k [] g C E ltac:(cbn; lia)) as (A' & g' & C' & E' & F & B & B2).
  { rewrite (r_cc _ _ _ R), E. cbn [app length]. lia. }
  { lia. }
  change (zl (@nil group)) with 0 in F. rewrite F. cbn [fst snd].
  destruct (r_d _ _ _ R _ _ _ E') as (_ & DO & _). rewrite DO.
  specialize (B2 ltac:(lia)).
  destruct (PgChunkEditProofs.split_at (fst g') (k - cnt A') ltac:(unfold count in *; lia)) as (X & x & Y & EI & LX).
  replace (k - cnt A') with (count X) by (unfold count; lia).
  rewrite (Rep_item _ _ _ _ _ _ _ _ _ R E' EI).
  assert (CI : forall l, cnt l = zl (items l)).
  { clear. induction l as [|y l IH]; [reflexivity|]. rewrite cnt_cons. cbn [items flat_map]. fold (items l). rewrite app_length, IH. unfold count. lia. }
  rewrite E', items_app. cbn [items flat_map]. rewrite EI.
  replace (items A' ++ (X ++ x :: Y) ++ flat_map fst C') with ((items A' ++ X) ++ x :: Y ++ flat_map fst C') by (rewrite <- !app_assoc; reflexivity).
  replace (Z.to_nat k) with (length (items A' ++ X)) by (rewrite app_length; pose proof (CI A'); lia).
  rewrite nth_middle. reflexivity.
Qed.

