(** The structure of the tree is kept by splits, merges and growth. *)
From Coq Require Import ZArith List Bool Lia.
From Coq Require Import ZifyBool.
From Verif Require Import Base BtrModel BtrSpec.
Import ListNotations.
Open Scope Z_scope.

(** * Lists *)
Lemma asc_filter : forall (A : Type) (f : Z * A -> bool) l, asc (map fst l) -> asc (map fst (filter f l)).
Proof.
  induction l as [|[k a] l IH]; cbn; auto. intros [H1 H2]. destruct (f (k, a)); cbn; auto.
  split; auto. intros y Hy. apply H1. apply in_map_iff in Hy. destruct Hy as ([k' a'] & E & Hy). apply filter_In in Hy.
  apply in_map_iff. exists (k', a'). tauto.
Qed.
Lemma asc_app : forall a b, asc a -> asc b -> (forall x y, In x a -> In y b -> x < y) -> asc (a ++ b).
Proof.
  induction a as [|x a IH]; cbn; auto. intros b [H1 H2] Hb H. split.
  - intros y Hy. apply in_app_iff in Hy. destruct Hy; auto.
  - apply IH; auto.
Qed.
Lemma asc_app_inv : forall a b, asc (a ++ b) -> asc a /\ asc b /\ (forall x y, In x a -> In y b -> x < y).
Proof.
  induction a as [|x a IH]; cbn; intros b H.
  - repeat split; auto. intros ? ? [].
  - destruct H as [H1 H2]. destruct (IH _ H2) as (A & B & C). repeat split; auto.
    + intros y Hy. apply H1, in_app_iff; auto.
    + intros u y [<-|Hu] Hy; auto. apply H1, in_app_iff; auto.
Qed.
Lemma asc_unique : forall (A : Type) (l : list (Z * A)) k a b, asc (map fst l) -> In (k, a) l -> In (k, b) l -> a = b.
Proof.
  induction l as [|[k0 a0] l IH]; cbn; intros k a b HH Ha Hb; [contradiction|]. destruct HH as [H1 H2].
  destruct Ha as [Ha|Ha], Hb as [Hb|Hb].
  - congruence.
  - injection Ha as -> ->. specialize (H1 k). assert (In k (map fst l)) by (apply in_map_iff; exists (k, b); auto). specialize (H1 H). lia.
  - injection Hb as -> ->. specialize (H1 k). assert (In k (map fst l)) by (apply in_map_iff; exists (k, a); auto). specialize (H1 H). lia.
  - eauto.
Qed.
Lemma lookup_in : forall l k v, asc (map fst l) -> (In (k, v) l <-> lookup l k = Some v).
Proof.
  intros l k v H. split.
  - induction l as [|[k0 v0] l IH]; cbn in *; [tauto|]. destruct H as [H1 H2]. intros [E|E].
    + injection E as -> ->. rewrite Z.eqb_refl. reflexivity.
    + destruct (Z.eqb_spec k0 k) as [->|N]; auto. specialize (H1 k). assert (In k (map fst l)) by (apply in_map_iff; exists (k, v); auto).
      specialize (H1 H). lia.
  - clear H. induction l as [|[k0 v0] l IH]; cbn; [discriminate|]. destruct (Z.eqb_spec k0 k) as [->|N]; intros E; auto.
    injection E as ->. auto.
Qed.
Lemma put_keys : forall l k v y, In y (map fst (put l k v)) <-> y = k \/ In y (map fst l).
Proof.
  induction l as [|[k0 v0] l IH]; cbn; intros k v y; [intuition|].
  destruct (Z.ltb_spec k k0); cbn; [intuition|]. destruct (Z.eqb_spec k k0); cbn; [subst; intuition|]. rewrite IH. intuition.
Qed.
Lemma put_asc : forall l k v, asc (map fst l) -> asc (map fst (put l k v)).
Proof.
  induction l as [|[k0 v0] l IH]; cbn; intros k v H; [split; [intros ? []|auto]|]. destruct H as [H1 H2].
  destruct (Z.ltb_spec k k0); cbn.
  - split; [|split; auto]. intros y [<-|Hy]; auto. specialize (H1 y Hy). lia.
  - destruct (Z.eqb_spec k k0); cbn.
    + subst. split; auto.
    + split; auto. intros y Hy. apply put_keys in Hy. destruct Hy as [->|Hy]; auto. lia.
Qed.
Lemma lookup_put : forall l k v k', asc (map fst l) -> lookup (put l k v) k' = if k =? k' then Some v else lookup l k'.
Proof.
  induction l as [|[k0 v0] l IH]; cbn; intros k v k' H; [reflexivity|]. destruct H as [H1 H2].
  destruct (Z.ltb_spec k k0); cbn; [reflexivity|]. destruct (Z.eqb_spec k k0); cbn.
  - subst k0. destruct (k =? k'); reflexivity.
  - rewrite IH; auto. destruct (Z.eqb_spec k0 k'), (Z.eqb_spec k k'); auto; lia.
Qed.
Lemma has_down_some : forall l m c, has_down l m = Some c -> In (m, c) l.
Proof.
  unfold has_down. intros l m c H. destruct (find _ l) as [[k c']|] eqn:E; [|discriminate]. injection H as <-.
  apply find_some in E. destruct E as [E1 E2]. cbn in *. replace m with k by lia. exact E1.
Qed.
Lemma has_down_none : forall l m, has_down l m = None -> forall c, ~ In (m, c) l.
Proof.
  unfold has_down. intros l m H c Hc. destruct (find _ l) as [[k c']|] eqn:E; [discriminate|].
  apply (find_none _ _ E) in Hc. cbn in Hc. lia.
Qed.
Lemma put_down_in : forall l k c e, In e (put_down l k c) <-> e = (k, c) \/ In e l.
Proof.
  induction l as [|[k0 c0] l IH]; cbn; intros k c e; [intuition|].
  destruct (k <? k0); cbn; [intuition|]. rewrite IH. intuition.
Qed.
Lemma put_down_asc : forall l k c, asc (map fst l) -> (forall c', ~ In (k, c') l) -> asc (map fst (put_down l k c)).
Proof.
  induction l as [|[k0 c0] l IH]; cbn; intros k c H N; [split; [intros ? []|auto]|]. destruct H as [H1 H2].
  destruct (Z.ltb_spec k k0); cbn.
  - split; [|split; auto]. intros y [<-|Hy]; auto. specialize (H1 y Hy). lia.
  - split.
    + intros y Hy. apply in_map_iff in Hy. destruct Hy as ([y' c'] & <- & Hy). apply put_down_in in Hy. destruct Hy as [E|Hy].
      * injection E as -> ->. cbn. assert (k0 <> k) by (intros ->; apply (N c0); auto). lia.
      * apply H1, in_map_iff. exists (y', c'); auto.
    + apply IH; auto. intros c' Hc. apply (N c'); auto.
Qed.

(** * The invariant *)
Definition lt_opt (lo hi : option Z) : Prop :=
  match lo, hi with Some l, Some h => l < h | _, _ => True end.
Definition child (pg : Z -> page) (p : page) (c : link) (lo : option Z) : Prop :=
  pg_live (pg (fst c)) = true /\ pg_gen (pg (fst c)) = snd c /\
  pg_level (pg (fst c)) = pg_level p - 1 /\ pg_lo (pg (fst c)) = lo.
Definition points (p : page) (c : link) : Prop :=
  0 < pg_level p /\ (pg_first p = c \/ exists k, In (k, c) (pg_downs p)).

Record PI (pg : Z -> page) (rt : Z) : Prop := mkPI {
  r_live : pg_live (pg rt) = true; r_lo : pg_lo (pg rt) = None; r_hi : pg_hi (pg rt) = None;
  r_right : pg_right (pg rt) = None;
  lv : forall p, pg_live (pg p) = true -> 0 <= pg_level (pg p) <= pg_level (pg rt);
  rng : forall p, pg_live (pg p) = true -> lt_opt (pg_lo (pg p)) (pg_hi (pg p));
  uq : forall p q key, pg_live (pg p) = true -> pg_live (pg q) = true -> pg_level (pg p) = pg_level (pg q) ->
       covers key (pg p) = true -> covers key (pg q) = true -> p = q;
  ex : forall n key, 0 <= n <= pg_level (pg rt) ->
       exists p, pg_live (pg p) = true /\ pg_level (pg p) = n /\ covers key (pg p) = true;
  it_asc : forall p, pg_live (pg p) = true -> asc (map fst (pg_items (pg p)));
  it_in : forall p k v, pg_live (pg p) = true -> In (k, v) (pg_items (pg p)) ->
       pg_level (pg p) = 0 /\ covers (KAt k) (pg p) = true;
  dn_asc : forall p, pg_live (pg p) = true -> asc (map fst (pg_downs (pg p)));
  dn_in : forall p k c, pg_live (pg p) = true -> In (k, c) (pg_downs (pg p)) ->
       0 < pg_level (pg p) /\ lt_opt (pg_lo (pg p)) (Some k) /\ lt_opt (Some k) (pg_hi (pg p)) /\
       child pg (pg p) c (Some k);
  dn_fst : forall p, pg_live (pg p) = true -> 0 < pg_level (pg p) -> child pg (pg p) (pg_first (pg p)) (pg_lo (pg p));
  rl : forall p c, pg_live (pg p) = true -> pg_right (pg p) = Some c ->
       pg_live (pg (fst c)) = true /\ pg_gen (pg (fst c)) = snd c /\ pg_level (pg (fst c)) = pg_level (pg p) /\
       exists m, pg_hi (pg p) = Some m /\ pg_lo (pg (fst c)) = Some m;
  par : forall c, pg_live (pg c) = true -> c <> rt ->
       (exists p, pg_live (pg p) = true /\ points (pg p) (c, pg_gen (pg c))) \/
       (exists b, pg_live (pg b) = true /\ pg_right (pg b) = Some (c, pg_gen (pg c)));
  fin : exists ls, forall p, pg_live (pg p) = true -> In p ls
}.

(** What stays of a page that is not freed. *)
Definition keeps (rt : Z) (pg pg' : Z -> page) : Prop := forall b,
  pg_gen (pg b) <= pg_gen (pg' b) /\
  (pg_gen (pg' b) = pg_gen (pg b) -> pg_live (pg b) = true ->
   pg_live (pg' b) = true /\ pg_lo (pg' b) = pg_lo (pg b) /\
   (pg_level (pg' b) = pg_level (pg b) \/ (b = rt /\ pg_level (pg b) < pg_level (pg' b)))).

(** The leaf that covers a key holds the same for it. *)
Definition same (pg pg' : Z -> page) : Prop := forall p k,
  pg_live (pg' p) = true -> pg_level (pg' p) = 0 -> covers (KAt k) (pg' p) = true ->
  exists q, pg_live (pg q) = true /\ pg_level (pg q) = 0 /\ covers (KAt k) (pg q) = true /\
    forall v, In (k, v) (pg_items (pg' p)) <-> In (k, v) (pg_items (pg q)).

Lemma keeps_refl : forall rt pg, keeps rt pg pg.
Proof. intros rt pg b. split; [lia|]. auto. Qed.
Lemma keeps_trans : forall rt a b c, keeps rt a b -> keeps rt b c -> keeps rt a c.
Proof.
  intros rt a b c H1 H2 x. destruct (H1 x) as [A1 A2], (H2 x) as [B1 B2]. split; [lia|]. intros E L.
  assert (E1 : pg_gen (b x) = pg_gen (a x)) by lia. assert (E2 : pg_gen (c x) = pg_gen (b x)) by lia.
  destruct (A2 E1 L) as (C1 & C2 & C3). destruct (B2 E2 C1) as (D1 & D2 & D3). repeat split; auto; try congruence.
  destruct C3 as [C3|[C3 C4]], D3 as [D3|[D3 D4]]; [left; congruence|right; split; auto; lia|right; split; auto; lia|right; split; auto; lia].
Qed.
Lemma same_trans : forall a b c, same a b -> same b c -> same a c.
Proof.
  intros a b c H1 H2 p k L V C. destruct (H2 p k L V C) as (q & A1 & A2 & A3 & A4).
  destruct (H1 q k A1 A2 A3) as (r & B1 & B2 & B3 & B4). exists r. repeat split; auto.
  - intros H. apply B4, A4; auto.
  - intros H. apply A4, B4; auto.
Qed.
Lemma same_refl : forall pg, same pg pg.
Proof. intros pg p k L V C. exists p. tauto. Qed.

(** Coverage, spelled out. *)
Lemma cov_at : forall k p, covers (KAt k) p = true <->
  (match pg_lo p with None => True | Some l => l <= k end) /\ (match pg_hi p with None => True | Some h => k < h end).
Proof.
  intros k p. unfold covers, at_left, go_right. destruct (pg_lo p), (pg_hi p); rewrite andb_true_iff; split; intros [A B]; split; auto; lia.
Qed.
Lemma cov_hi : forall k p, covers (KHi k) p = true <->
  (match pg_lo p with None => True | Some l => l < k end) /\ (match pg_hi p with None => True | Some h => k <= h end).
Proof.
  intros k p. unfold covers, at_left, go_right. destruct (pg_lo p), (pg_hi p); rewrite andb_true_iff; split; intros [A B]; split; auto; lia.
Qed.
Lemma cov_none : forall p, covers KNone p = true <-> pg_lo p = None.
Proof. intros p. unfold covers, at_left, go_right. destruct (pg_lo p), (pg_hi p); cbn; split; congruence. Qed.
Lemma cov_max : forall p, covers KMax p = true <-> pg_hi p = None.
Proof. intros p. unfold covers, at_left, go_right. destruct (pg_lo p), (pg_hi p); cbn; split; congruence. Qed.

(** Cutting a range at a key inside. *)
Lemma cov_split : forall key p l r m, lt_opt (pg_lo p) (Some m) -> lt_opt (Some m) (pg_hi p) ->
  pg_lo l = pg_lo p -> pg_hi l = Some m -> pg_lo r = Some m -> pg_hi r = pg_hi p ->
  covers key p = covers key l || covers key r /\ (covers key l && covers key r = false).
Proof.
  intros key p l r m H1 H2 L1 L2 R1 R2. unfold covers, at_left, go_right, lt_opt in *. rewrite L1, L2, R1, R2.
  destruct key as [|k|k|], (pg_lo p) as [a|], (pg_hi p) as [b|]; cbn; lia.
Qed.

Section Structure.
Variable pg : Z -> page.
Variable rt : Z.
Hypothesis H : PI pg rt.

Lemma same_lo : forall p q, pg_live (pg p) = true -> pg_live (pg q) = true -> pg_level (pg p) = pg_level (pg q) ->
  pg_lo (pg p) = pg_lo (pg q) -> p = q.
Proof.
  intros p q Lp Lq V E. pose proof (rng _ _ H p Lp) as Rp. pose proof (rng _ _ H q Lq) as Rq. unfold lt_opt in *.
  destruct (pg_lo (pg p)) as [a|] eqn:Ep.
  - apply (uq _ _ H p q (KAt a)); auto; apply cov_at; rewrite ?Ep, <- ?E in *.
    + split; [lia|]. destruct (pg_hi (pg p)); auto.
    + split; [lia|]. destruct (pg_hi (pg q)); auto.
  - apply (uq _ _ H p q KNone); auto; apply cov_none; congruence.
Qed.
Lemma same_hi : forall p q m, pg_live (pg p) = true -> pg_live (pg q) = true -> pg_level (pg p) = pg_level (pg q) ->
  pg_hi (pg p) = Some m -> pg_hi (pg q) = Some m -> p = q.
Proof.
  intros p q m Lp Lq V Ep Eq. pose proof (rng _ _ H p Lp) as Rp. pose proof (rng _ _ H q Lq) as Rq. unfold lt_opt in *.
  rewrite Ep in Rp. rewrite Eq in Rq. apply (uq _ _ H p q (KHi m)); auto; apply cov_hi; rewrite ?Ep, ?Eq; split; auto; try lia.
Qed.
Lemma top_is_root : forall p, pg_live (pg p) = true -> pg_level (pg p) = pg_level (pg rt) -> p = rt.
Proof.
  intros p L V. pose proof (rng _ _ H p L) as R. unfold lt_opt in R. destruct (pg_lo (pg p)) as [a|] eqn:E.
  - apply (uq _ _ H p rt (KAt a)); auto; [apply (r_live _ _ H)| |]; apply cov_at.
    + rewrite E. split; [lia|]. destruct (pg_hi (pg p)); auto.
    + rewrite (r_lo _ _ H), (r_hi _ _ H). auto.
  - apply (uq _ _ H p rt KNone); auto; [apply (r_live _ _ H)| |]; apply cov_none; auto. apply (r_lo _ _ H).
Qed.
(** A page that points to [c] covers the low key of [c]. *)
Lemma points_cov : forall p c, pg_live (pg p) = true -> points (pg p) c ->
  pg_live (pg (fst c)) = true /\ pg_gen (pg (fst c)) = snd c /\ pg_level (pg (fst c)) = pg_level (pg p) - 1 /\
  (pg_lo (pg (fst c)) = pg_lo (pg p) /\ pg_first (pg p) = c \/
   exists k, pg_lo (pg (fst c)) = Some k /\ In (k, c) (pg_downs (pg p))).
Proof.
  intros p c L [V [E|(k & E)]].
  - destruct (dn_fst _ _ H p L V) as (A & B & C & D). rewrite E in *. repeat split; auto.
  - destruct (dn_in _ _ H p k c L E) as (_ & _ & _ & A & B & C & D). repeat split; auto. right. exists k; auto.
Qed.
End Structure.

Lemma PI_ext : forall pg pg' rt, (forall q, pg' q = pg q) -> PI pg rt -> PI pg' rt.
Proof.
  intros pg pg' rt E H. constructor; intros; rewrite ?E in *.
  - apply H. - apply H. - apply H. - apply H.
  - apply H; auto. - apply H; auto.
  - eapply (uq _ _ H); eauto.
  - destruct (ex _ _ H n key H0) as (p & A). exists p. rewrite E. auto.
  - apply H; auto.
  - eapply (it_in _ _ H); eauto.
  - apply H; auto.
  - unfold child. rewrite E. eapply (dn_in _ _ H); eauto.
  - unfold child. rewrite E. apply (dn_fst _ _ H); auto.
  - apply (rl _ _ H); auto.
  - destruct (par _ _ H c H0 H1) as [(p & A)|(b & A)]; [left; exists p|right; exists b]; rewrite ?E; auto.
  - destruct (fin _ _ H) as (ls & A). exists ls. intros p. rewrite E. auto.
Qed.

(** What a live page keeps in every step but a merge. *)
Definition stays (p p' : page) : Prop :=
  pg_live p' = true /\ pg_gen p' = pg_gen p /\ pg_level p' = pg_level p /\ pg_lo p' = pg_lo p.
Lemma child_stays : forall pg pg' p p' c lo, child pg p c lo ->
  (pg_live (pg (fst c)) = true -> stays (pg (fst c)) (pg' (fst c))) -> pg_level p' = pg_level p -> child pg' p' c lo.
Proof.
  unfold child, stays. intros pg pg' p p' c lo (A & B & C & D) S E. destruct (S A) as (S1 & S2 & S3 & S4).
  rewrite S1, S2, S3, S4, E. auto.
Qed.

(** One page changes its rows, gains a downlink, or loses its rightlink. *)
Lemma PI_one : forall pg rt b p', PI pg rt -> pg_live (pg b) = true ->
  pg_gen p' = pg_gen (pg b) -> pg_live p' = true -> pg_level p' = pg_level (pg b) -> pg_lo p' = pg_lo (pg b) ->
  pg_hi p' = pg_hi (pg b) -> pg_first p' = pg_first (pg b) ->
  asc (map fst (pg_items p')) ->
  (forall k v, In (k, v) (pg_items p') -> pg_level (pg b) = 0 /\ covers (KAt k) (pg b) = true) ->
  asc (map fst (pg_downs p')) ->
  (forall k c, In (k, c) (pg_downs p') -> In (k, c) (pg_downs (pg b)) \/
     (0 < pg_level (pg b) /\ lt_opt (pg_lo (pg b)) (Some k) /\ lt_opt (Some k) (pg_hi (pg b)) /\ child pg (pg b) c (Some k))) ->
  (forall e, In e (pg_downs (pg b)) -> In e (pg_downs p')) ->
  (pg_right p' = pg_right (pg b) \/ (pg_right p' = None /\ forall c, pg_right (pg b) = Some c ->
     exists p, p <> b /\ pg_live (pg p) = true /\ points (pg p) c)) ->
  PI (upd pg b p') rt.
Proof.
  intros pg rt b p' H Lb G L V LO HI F IA II DA DI DS R.
  assert (K : forall q, pg_live (upd pg b p' q) = pg_live (pg q) /\ pg_gen (upd pg b p' q) = pg_gen (pg q) /\
              pg_level (upd pg b p' q) = pg_level (pg q) /\ pg_lo (upd pg b p' q) = pg_lo (pg q) /\
              pg_hi (upd pg b p' q) = pg_hi (pg q) /\ pg_first (upd pg b p' q) = pg_first (pg q)).
  { intros q. unfold upd. destruct (Z.eqb_spec q b) as [->|N]; [|tauto]. rewrite Lb. tauto. }
  assert (C : forall key q, covers key (upd pg b p' q) = covers key (pg q)).
  { intros key q. destruct (K q) as (_ & _ & _ & K4 & K5 & _). unfold covers. rewrite K4, K5. reflexivity. }
  assert (ST : forall q, pg_live (pg q) = true -> stays (pg q) (upd pg b p' q)).
  { intros q Q. destruct (K q) as (K1 & K2 & K3 & K4 & _). unfold stays. rewrite K1, K2, K3, K4. auto. }
  assert (PT : forall q c, points (pg q) c -> points (upd pg b p' q) c).
  { intros q c. unfold upd. destruct (Z.eqb_spec q b) as [->|N]; auto. intros [P1 P2]. split; [lia|].
    rewrite F. destruct P2 as [P2|(k & P2)]; auto. right. exists k. auto. }
  constructor.
  - rewrite (proj1 (K rt)). apply H.
  - destruct (K rt) as (_ & _ & _ & K4 & _). rewrite K4. apply H.
  - destruct (K rt) as (_ & _ & _ & _ & K5 & _). rewrite K5. apply H.
  - unfold upd. destruct (Z.eqb_spec rt b) as [->|N]; [|apply H]. destruct R as [R|[R _]]; rewrite R; auto. apply H.
  - intros p. destruct (K p) as (K1 & K2 & K3 & K4 & K5 & K6). destruct (K rt) as (_ & _ & K3' & _). rewrite K1, K3, K3'. apply H.
  - intros p. destruct (K p) as (K1 & K2 & K3 & K4 & K5 & K6). rewrite K1, K4, K5. apply H.
  - intros p q key. destruct (K p) as (K1 & K2 & K3 & K4 & K5 & K6). destruct (K q) as (J1 & J2 & J3 & J4 & J5 & J6).
    rewrite K1, J1, K3, J3, !C. apply (uq _ _ H).
  - intros n key. destruct (K rt) as (_ & _ & K3' & _). rewrite K3'. intros N. destruct (ex _ _ H n key N) as (p & A1 & A2 & A3).
    exists p. destruct (K p) as (K1 & K2 & K3 & _). rewrite K1, K3, C. auto.
  - intros p. destruct (K p) as (K1 & _). rewrite K1. intros LP. unfold upd. destruct (Z.eqb_spec p b); auto. apply H; auto.
  - intros p k v. destruct (K p) as (K1 & K2 & K3 & _). rewrite K1, K3, C. intros LP. unfold upd.
    destruct (Z.eqb_spec p b) as [->|N]; eauto. eapply (it_in _ _ H); eauto.
  - intros p. destruct (K p) as (K1 & _). rewrite K1. intros LP. unfold upd. destruct (Z.eqb_spec p b); auto. apply H; auto.
  - intros p k c. destruct (K p) as (K1 & K2 & K3 & K4 & K5 & _). rewrite K1, K3, K4, K5. intros LP D.
    assert (D' : 0 < pg_level (pg p) /\ lt_opt (pg_lo (pg p)) (Some k) /\ lt_opt (Some k) (pg_hi (pg p)) /\ child pg (pg p) c (Some k)).
    { unfold upd in D. destruct (Z.eqb_spec p b) as [->|N]; [|eapply (dn_in _ _ H); eauto].
      destruct (DI _ _ D) as [D'|D']; auto. eapply (dn_in _ _ H); eauto. }
    destruct D' as (D1 & D2 & D3 & D4). split; [auto|]. split; [auto|]. split; [auto|]. eapply child_stays; eauto.
  - intros p. destruct (K p) as (K1 & K2 & K3 & K4 & K5 & K6). rewrite K1, K3, K4, K6. intros LP VP.
    eapply child_stays; [apply (dn_fst _ _ H p LP VP)|auto|auto].
  - intros p c. destruct (K p) as (K1 & K2 & K3 & K4 & K5 & _). rewrite K1, K3, K5. intros LP RP.
    assert (RP' : pg_right (pg p) = Some c).
    { unfold upd in RP. destruct (Z.eqb_spec p b) as [->|N]; auto. destruct R as [R|[R _]]; congruence. }
    destruct (K (fst c)) as (J1 & J2 & J3 & J4 & _). rewrite J1, J2, J3, J4. apply (rl _ _ H); auto.
  - intros c. destruct (K c) as (K1 & K2 & _). rewrite K1, K2. intros LC NC.
    destruct (par _ _ H c LC NC) as [(p & A1 & A2)|(q & A1 & A2)].
    + left. exists p. rewrite (proj1 (K p)). split; auto.
    + destruct (Z.eq_dec q b) as [->|N].
      * destruct R as [R|[R1 R2]].
        -- right. exists b. rewrite (proj1 (K b)). split; auto. rewrite upd_same. congruence.
        -- left. destruct (R2 _ A2) as (p & P1 & P2 & P3). exists p. rewrite (proj1 (K p)). split; auto.
      * right. exists q. rewrite (proj1 (K q)). split; auto. rewrite upd_other; auto.
  - destruct (fin _ _ H) as (ls & A). exists ls. intros p. rewrite (proj1 (K p)). auto.
Qed.

(** A page is cut in two. *)
Definition split_pg (pg : Z -> page) (b c m : Z) : Z -> page :=
  upd (upd pg b (left_half (pg b) m (Some (c, pg_gen (pg c))))) c (right_half (pg b) m (pg_gen (pg c))).

Lemma can_split_in : forall pg rt b m, PI pg rt -> pg_live (pg b) = true -> can_split (pg b) m = true ->
  lt_opt (pg_lo (pg b)) (Some m) /\ lt_opt (Some m) (pg_hi (pg b)) /\
  (0 < pg_level (pg b) -> exists c, has_down (pg_downs (pg b)) m = Some c /\ In (m, c) (pg_downs (pg b))).
Proof.
  intros pg rt b m H L C. unfold can_split in C. destruct (Z.eqb_spec (pg_level (pg b)) 0) as [V|V].
  - apply andb_true_iff in C. destruct C as [C1 C2]. apply existsb_exists in C1, C2.
    destruct C1 as ([k1 v1] & I1 & E1), C2 as ([k2 v2] & I2 & E2). cbn in *.
    destruct (it_in _ _ H b k1 v1 L I1) as [_ K1]. destruct (it_in _ _ H b k2 v2 L I2) as [_ K2].
    apply cov_at in K1, K2. unfold lt_opt. destruct K1 as [K1 K1'], K2 as [K2 K2'].
    destruct (pg_lo (pg b)), (pg_hi (pg b)); repeat split; try lia.
  - destruct (has_down (pg_downs (pg b)) m) as [c|] eqn:E; [|discriminate]. pose proof (has_down_some _ _ _ E) as I.
    destruct (dn_in _ _ H b m c L I) as (A & B & D & _). repeat split; auto. intros _. exists c; auto.
Qed.

Lemma PI_split : forall pg rt b c m, PI pg rt -> pg_live (pg b) = true -> pg_live (pg c) = false -> b <> rt ->
  can_split (pg b) m = true -> PI (split_pg pg b c m) rt /\ keeps rt pg (split_pg pg b c m) /\ same pg (split_pg pg b c m).
Proof.
  intros pg rt b c m H Lb Lc Nb CS. destruct (can_split_in pg rt b m H Lb CS) as (B1 & B2 & B3).
  assert (Nc : c <> rt) by (intros ->; rewrite (r_live _ _ H) in Lc; discriminate).
  assert (Nbc : b <> c) by congruence.
  set (pg' := split_pg pg b c m).
  assert (Eb : pg' b = left_half (pg b) m (Some (c, pg_gen (pg c)))).
  { unfold pg', split_pg. rewrite upd_other, upd_same; auto. }
  assert (Ec : pg' c = right_half (pg b) m (pg_gen (pg c))) by (unfold pg', split_pg; rewrite upd_same; auto).
  assert (Eo : forall q, q <> b -> q <> c -> pg' q = pg q).
  { intros q Q1 Q2. unfold pg', split_pg. rewrite !upd_other; auto. }
  assert (CV : forall key, covers key (pg b) = covers key (pg' b) || covers key (pg' c) /\ (covers key (pg' b) && covers key (pg' c) = false)).
  { intros key. apply (cov_split key (pg b) (pg' b) (pg' c) m); auto; rewrite ?Eb, ?Ec; reflexivity. }
  assert (ST : forall q, pg_live (pg q) = true -> stays (pg q) (pg' q)).
  { intros q Q. destruct (Z.eq_dec q b) as [->|N1]; [rewrite Eb; unfold stays; cbn; auto|].
    rewrite Eo; [unfold stays; auto|auto|congruence]. }
  assert (OR : forall q, pg_live (pg' q) = true -> exists o, pg_live (pg o) = true /\ pg_level (pg' q) = pg_level (pg o) /\
     (forall key, covers key (pg' q) = true -> covers key (pg o) = true) /\
     ((o = b /\ (q = b \/ q = c)) \/ (o = q /\ q <> b /\ q <> c))).
  { intros q Q. destruct (Z.eq_dec q b) as [->|N1]; [|destruct (Z.eq_dec q c) as [->|N2]].
    - exists b. rewrite Eb at 1. cbn. repeat split; auto. intros key K. destruct (CV key) as [C1 _]. rewrite C1, K. reflexivity.
    - exists b. rewrite Ec at 1. cbn. repeat split; auto. intros key K. destruct (CV key) as [C1 _]. rewrite C1, K, orb_true_r. reflexivity.
    - exists q. rewrite Eo in * by auto. repeat split; auto. }
  assert (SM : same pg pg').
  { intros p k L V C. destruct (Z.eq_dec p b) as [->|N1]; [|destruct (Z.eq_dec p c) as [->|N2]].
    - exists b. rewrite Eb in V; cbn in V. destruct (CV (KAt k)) as [C1 _]. rewrite C1, C. repeat split; auto.
      + rewrite Eb. cbn. intros I. apply filter_In in I. tauto.
      + intros I. rewrite Eb. cbn. apply filter_In. split; auto. cbn. rewrite Eb in C. apply cov_at in C. cbn in C. lia.
    - exists b. rewrite Ec in V; cbn in V. destruct (CV (KAt k)) as [C1 _]. rewrite C1, C, orb_true_r. repeat split; auto.
      + rewrite Ec. cbn. intros I. apply filter_In in I. tauto.
      + intros I. rewrite Ec. cbn. apply filter_In. split; auto. cbn. rewrite Ec in C. apply cov_at in C. cbn in C. lia.
    - exists p. rewrite Eo in * by auto. tauto. }
  assert (KP : keeps rt pg pg').
  { intros q. split.
    - destruct (Z.eq_dec q b) as [->|N1]; [rewrite Eb; cbn; lia|]. destruct (Z.eq_dec q c) as [->|N2]; [rewrite Ec; cbn; lia|].
      rewrite Eo; auto. lia.
    - intros _ Q. destruct (ST q Q) as (S1 & S2 & S3 & S4). auto. }
  split; [|split; auto]. constructor.
  - apply (ST rt), H.
  - destruct (ST rt (r_live _ _ H)) as (_ & _ & _ & S). rewrite S. apply H.
  - rewrite Eo; auto. apply H.
  - rewrite Eo; auto. apply H.
  - intros p L. destruct (OR p L) as (o & O1 & O2 & _). rewrite O2, (Eo rt) by auto. apply H; auto.
  - intros p L. destruct (Z.eq_dec p b) as [->|N1]; [|destruct (Z.eq_dec p c) as [->|N2]].
    + rewrite Eb. cbn. unfold lt_opt in *. destruct (pg_lo (pg b)); auto.
    + rewrite Ec. cbn. exact B2.
    + rewrite Eo in * by auto. apply H; auto.
  - intros p q key Lp Lq V Cp Cq. destruct (OR p Lp) as (o & O1 & O2 & O3 & O4). destruct (OR q Lq) as (o' & O1' & O2' & O3' & O4').
    assert (o = o') by (apply (uq _ _ H o o' key); auto; congruence). subst o'. destruct (CV key) as [_ CX].
    destruct O4 as [[O4 [O5|O5]]|(O4 & O5 & O6)], O4' as [[O4' [O5'|O5']]|(O4' & O5' & O6')]; try congruence;
      subst p q; rewrite Cp, Cq in CX; discriminate.
  - intros n key N. rewrite (Eo rt) in N by auto. destruct (ex _ _ H n key N) as (p & A1 & A2 & A3).
    destruct (Z.eq_dec p b) as [->|N1].
    + destruct (CV key) as [CX _]. rewrite A3 in CX. symmetry in CX. apply orb_true_iff in CX. destruct CX as [CX|CX].
      * exists b. rewrite CX, Eb. cbn. auto.
      * exists c. rewrite CX, Ec. cbn. auto.
    + exists p. rewrite Eo; auto. congruence.
  - intros p L. destruct (Z.eq_dec p b) as [->|N1]; [|destruct (Z.eq_dec p c) as [->|N2]].
    + rewrite Eb. cbn. apply asc_filter, H; auto.
    + rewrite Ec. cbn. apply asc_filter, H; auto.
    + rewrite Eo in * by auto. apply H; auto.
  - intros p k v L I. destruct (Z.eq_dec p b) as [->|N1]; [|destruct (Z.eq_dec p c) as [->|N2]].
    + rewrite Eb in *. cbn in *. apply filter_In in I. destruct I as [I J]. cbn in J. destruct (it_in _ _ H b k v Lb I) as [A B].
      split; auto. apply cov_at in B. apply cov_at. cbn. split; [tauto|lia].
    + rewrite Ec in *. cbn in *. apply filter_In in I. destruct I as [I J]. cbn in J. destruct (it_in _ _ H b k v Lb I) as [A B].
      split; auto. apply cov_at in B. apply cov_at. cbn. split; [lia|tauto].
    + rewrite Eo in * by auto. eapply (it_in _ _ H); eauto.
  - intros p L. destruct (Z.eq_dec p b) as [->|N1]; [|destruct (Z.eq_dec p c) as [->|N2]].
    + rewrite Eb. cbn. apply asc_filter, H; auto.
    + rewrite Ec. cbn. apply asc_filter, H; auto.
    + rewrite Eo in * by auto. apply H; auto.
  - intros p k e L I. destruct (Z.eq_dec p b) as [->|N1]; [|destruct (Z.eq_dec p c) as [->|N2]].
    + rewrite Eb in I. cbn in I. apply filter_In in I. destruct I as [I J]. cbn in J.
      destruct (dn_in _ _ H b k e Lb I) as (D1 & D2 & D3 & D4). rewrite Eb at 1 2 3. cbn.
      split; [auto|]. split; [auto|]. split; [unfold lt_opt; lia|]. eapply child_stays; eauto. rewrite Eb. reflexivity.
    + rewrite Ec in I. cbn in I. apply filter_In in I. destruct I as [I J]. cbn in J.
      destruct (dn_in _ _ H b k e Lb I) as (D1 & D2 & D3 & D4). rewrite Ec at 1 2 3. cbn.
      split; [auto|]. split; [unfold lt_opt; lia|]. split; [auto|]. eapply child_stays; eauto. rewrite Ec. reflexivity.
    + rewrite (Eo p) in * by auto. destruct (dn_in _ _ H p k e L I) as (D1 & D2 & D3 & D4). split; [auto|]. split; [auto|]. split; [auto|].
      eapply child_stays; eauto.
  - intros p L V. destruct (Z.eq_dec p b) as [->|N1]; [|destruct (Z.eq_dec p c) as [->|N2]].
    + rewrite Eb at 2 3. rewrite Eb in V. cbn in *. eapply child_stays; [apply (dn_fst _ _ H b Lb V)|auto|]. rewrite Eb. reflexivity.
    + rewrite Ec at 2 3. rewrite Ec in V. cbn in *. destruct (B3 V) as (e & E1 & E2). rewrite E1.
      destruct (dn_in _ _ H b m e Lb E2) as (D1 & D2 & D3 & D4). eapply child_stays; eauto. rewrite Ec. reflexivity.
    + rewrite (Eo p) in * by auto. eapply child_stays; [apply (dn_fst _ _ H p L V)|auto|reflexivity].
  - intros p e L I. destruct (Z.eq_dec p b) as [->|N1]; [|destruct (Z.eq_dec p c) as [->|N2]].
    + rewrite Eb in I. cbn in I. injection I as <-. cbn [fst snd]. rewrite Ec, Eb. cbn. repeat split; auto. exists m; auto.
    + rewrite Ec in I. cbn in I. destruct (rl _ _ H b e Lb I) as (D1 & D2 & D3 & D4).
      destruct (ST _ D1) as (S1 & S2 & S3 & S4). rewrite S1, S2, S3, S4, Ec. cbn. auto.
    + rewrite (Eo p) in * by auto. destruct (rl _ _ H p e L I) as (D1 & D2 & D3 & D4).
      destruct (ST _ D1) as (S1 & S2 & S3 & S4). rewrite S1, S2, S3, S4. auto.
  - intros q L N. destruct (Z.eq_dec q c) as [->|N2].
    + right. exists b. rewrite Eb, Ec. cbn. auto.
    + assert (Lq : pg_live (pg q) = true) by (destruct (Z.eq_dec q b) as [->|N3]; auto; rewrite Eo in L; auto).
      assert (Gq : pg_gen (pg' q) = pg_gen (pg q)) by apply (ST q Lq). rewrite Gq.
      destruct (par _ _ H q Lq N) as [(p & A1 & A2)|(p & A1 & A2)].
      * destruct (Z.eq_dec p b) as [->|N3].
        -- destruct A2 as [A2 [A3|(k & A3)]].
           ++ left. exists b. rewrite Eb. cbn. split; auto. split; auto.
           ++ destruct (Z.compare_spec k m) as [K|K|K].
              ** subst k. left. exists c. rewrite Ec. cbn. split; auto. split; auto. left. cbn. destruct (B3 A2) as (e & E1 & E2).
                 rewrite E1. eapply asc_unique; [apply (dn_asc _ _ H b Lb)|exact E2|exact A3].
              ** left. exists b. rewrite Eb. cbn. split; auto. split; auto. right. exists k. cbn. apply filter_In. split; auto. cbn. lia.
              ** left. exists c. rewrite Ec. cbn. split; auto. split; auto. right. exists k. cbn. apply filter_In. split; auto. cbn. lia.
        -- left. exists p. rewrite Eo; auto. congruence.
      * destruct (Z.eq_dec p b) as [->|N3].
        -- right. exists c. rewrite Ec. cbn. auto.
        -- right. exists p. rewrite Eo; auto. congruence.
  - destruct (fin _ _ H) as (ls & A). exists (c :: ls). intros p L. destruct (Z.eq_dec p c) as [->|N2]; [left; auto|right].
    apply A. destruct (Z.eq_dec p b) as [->|N3]; auto. rewrite Eo in L; auto.
Qed.

(** A page changes its rows or links only. *)
Lemma keeps_one : forall pg rt b p', pg_live (pg b) = true -> pg_gen p' = pg_gen (pg b) -> pg_live p' = true ->
  pg_level p' = pg_level (pg b) -> pg_lo p' = pg_lo (pg b) -> keeps rt pg (upd pg b p').
Proof.
  intros pg rt b p' L G L' V LO q. unfold upd. destruct (Z.eqb_spec q b) as [->|N]; split; auto; lia.
Qed.
Lemma same_one : forall pg b p', pg_live (pg b) = true -> pg_level p' = pg_level (pg b) -> pg_lo p' = pg_lo (pg b) ->
  pg_hi p' = pg_hi (pg b) -> pg_items p' = pg_items (pg b) -> same pg (upd pg b p').
Proof.
  intros pg b p' L V LO HI IT p k Lp Vp C. exists p. unfold upd in *. destruct (Z.eqb_spec p b) as [->|N]; [|tauto].
  unfold covers in *. rewrite LO, HI in C. rewrite IT. repeat split; auto; lia.
Qed.

Definition down_pg (pg : Z -> page) (a m : Z) (c : link) : Z -> page :=
  upd pg a (mkP (pg_gen (pg a)) true (pg_level (pg a)) (pg_lo (pg a)) (pg_hi (pg a)) (pg_items (pg a))
                (pg_first (pg a)) (put_down (pg_downs (pg a)) m c) (pg_right (pg a))).
Lemma PI_down : forall pg rt a b m c, PI pg rt -> pg_live (pg a) = true -> pg_live (pg b) = true ->
  pg_level (pg a) = pg_level (pg b) + 1 -> pg_right (pg b) = Some c -> pg_hi (pg b) = Some m ->
  covers (KAt m) (pg a) = true -> knows (pg a) m = false ->
  PI (down_pg pg a m c) rt /\ keeps rt pg (down_pg pg a m c) /\ same pg (down_pg pg a m c).
Proof.
  intros pg rt a b m c H La Lb V R HI C K. unfold knows in K. apply orb_false_iff in K. destruct K as [K1 K2].
  assert (K1' : forall c', ~ In (m, c') (pg_downs (pg a))).
  { apply has_down_none. destruct (has_down (pg_downs (pg a)) m); [discriminate|reflexivity]. }
  destruct (rl _ _ H b c Lb R) as (R1 & R2 & R3 & m' & R4 & R5). assert (m' = m) by congruence. subst m'.
  pose proof (lv _ _ H b Lb) as VB.
  split; [|split].
  - unfold down_pg. apply PI_one; auto; cbn.
    + apply H; auto.
    + intros. eapply (it_in _ _ H); eauto.
    + apply put_down_asc; auto. apply H; auto.
    + intros k e I. apply put_down_in in I. destruct I as [I|I]; auto. injection I as -> ->. right.
      apply cov_at in C. unfold lt_opt, child. split; [lia|]. rewrite R1, R2, R3, R5.
      destruct (pg_lo (pg a)), (pg_hi (pg a)); repeat split; try lia.
    + intros e I. apply put_down_in. auto.
  - apply keeps_one; auto.
  - apply same_one; auto.
Qed.

Definition clear_pg (pg : Z -> page) (b : Z) : Z -> page :=
  upd pg b (mkP (pg_gen (pg b)) true (pg_level (pg b)) (pg_lo (pg b)) (pg_hi (pg b)) (pg_items (pg b))
                (pg_first (pg b)) (pg_downs (pg b)) None).
Lemma PI_clear : forall pg rt a b m c, PI pg rt -> pg_live (pg a) = true -> pg_live (pg b) = true ->
  pg_level (pg a) = pg_level (pg b) + 1 -> pg_right (pg b) = Some c -> In (m, c) (pg_downs (pg a)) ->
  PI (clear_pg pg b) rt /\ keeps rt pg (clear_pg pg b) /\ same pg (clear_pg pg b).
Proof.
  intros pg rt a b m c H La Lb V R D. pose proof (lv _ _ H b Lb) as VB.
  split; [|split].
  - unfold clear_pg. apply PI_one; auto; cbn.
    + apply H; auto.
    + intros. eapply (it_in _ _ H); eauto.
    + apply H; auto.
    + right. split; auto. intros c' E. assert (c' = c) by congruence. subst c'. exists a. split; [intros ->; lia|]. split; auto.
      split; [lia|]. right. exists m; auto.
  - apply keeps_one; auto.
  - apply same_one; auto.
Qed.

(** The root's content moves to a page below it. *)
Definition push_pg (pg : Z -> page) (rt l : Z) : Z -> page :=
  upd (upd pg l (mkP (pg_gen (pg l)) true (pg_level (pg rt)) None None (pg_items (pg rt)) (pg_first (pg rt)) (pg_downs (pg rt)) None))
      rt (mkP (pg_gen (pg rt)) true (pg_level (pg rt) + 1) None None [] (l, pg_gen (pg l)) [] None).
Lemma PI_push : forall pg rt l, PI pg rt -> pg_live (pg l) = false ->
  PI (push_pg pg rt l) rt /\ keeps rt pg (push_pg pg rt l) /\ same pg (push_pg pg rt l).
Proof.
  intros pg rt l H Ll. assert (Nl : l <> rt) by (intros ->; rewrite (r_live _ _ H) in Ll; discriminate).
  pose proof (r_live _ _ H) as Lr. pose proof (r_lo _ _ H) as LO. pose proof (r_hi _ _ H) as HI. pose proof (r_right _ _ H) as RR.
  pose proof (lv _ _ H rt Lr) as VR.
  set (pg' := push_pg pg rt l).
  assert (Er : pg' rt = mkP (pg_gen (pg rt)) true (pg_level (pg rt) + 1) None None [] (l, pg_gen (pg l)) [] None).
  { unfold pg', push_pg. rewrite upd_same. reflexivity. }
  assert (El : pg' l = mkP (pg_gen (pg l)) true (pg_level (pg rt)) None None (pg_items (pg rt)) (pg_first (pg rt)) (pg_downs (pg rt)) None).
  { unfold pg', push_pg. rewrite upd_other, upd_same; auto. }
  assert (Eo : forall q, q <> l -> q <> rt -> pg' q = pg q).
  { intros q Q1 Q2. unfold pg', push_pg. rewrite !upd_other; auto. }
  assert (ST : forall q, pg_live (pg q) = true -> q <> rt -> stays (pg q) (pg' q)).
  { intros q Q N. rewrite Eo; [unfold stays; auto|congruence|auto]. }
  assert (CX : forall key p, pg_lo p = None -> pg_hi p = None -> covers key p = true).
  { intros key p A B. unfold covers, at_left, go_right. rewrite A, B. reflexivity. }
  assert (OR : forall q, pg_live (pg' q) = true -> q <> rt -> exists o, pg_live (pg o) = true /\ pg_level (pg' q) = pg_level (pg o) /\
     (forall key, covers key (pg' q) = true -> covers key (pg o) = true) /\ ((o = rt /\ q = l) \/ (o = q /\ q <> l))).
  { intros q Q N. destruct (Z.eq_dec q l) as [->|N1].
    - exists rt. rewrite El at 1. cbn. repeat split; auto.
    - exists q. rewrite Eo in * by auto. repeat split; auto. }
  assert (CN : forall p c lo, child pg p c lo -> pg_level p <= pg_level (pg rt) -> fst c <> rt).
  { intros p c lo (A & B & C & D) V E. rewrite E in C. lia. }
  split; [|split].
  - constructor.
    + rewrite Er; auto. + rewrite Er; auto. + rewrite Er; auto. + rewrite Er; auto.
    + intros p L. rewrite Er. cbn [pg_level]. destruct (Z.eq_dec p rt) as [->|N]; [rewrite Er; cbn; lia|].
      destruct (OR p L N) as (o & O1 & O2 & _). pose proof (lv _ _ H o O1). lia.
    + intros p L. destruct (Z.eq_dec p rt) as [->|N]; [rewrite Er; cbn; auto|].
      destruct (Z.eq_dec p l) as [->|N1]; [rewrite El; cbn; auto|]. rewrite Eo in * by auto. apply H; auto.
    + intros p q key Lp Lq V Cp Cq. destruct (Z.eq_dec p rt) as [->|N], (Z.eq_dec q rt) as [->|N1]; auto.
      * destruct (OR q Lq N1) as (o & O1 & O2 & _). pose proof (lv _ _ H o O1). rewrite Er in V. cbn in V. lia.
      * destruct (OR p Lp N) as (o & O1 & O2 & _). pose proof (lv _ _ H o O1). rewrite Er in V. cbn in V. lia.
      * destruct (OR p Lp N) as (o & O1 & O2 & O3 & O4), (OR q Lq N1) as (o' & O1' & O2' & O3' & O4').
        assert (o = o') by (apply (uq _ _ H o o' key); auto; congruence). subst o'.
        destruct O4 as [[A1 A2]|[A1 A2]], O4' as [[B1 B2]|[B1 B2]]; congruence.
    + intros n key N. rewrite Er in N. cbn in N. destruct (Z.eq_dec n (pg_level (pg rt) + 1)) as [->|N1].
      * exists rt. rewrite Er. cbn. auto.
      * destruct (ex _ _ H n key) as (p & A1 & A2 & A3); [lia|]. destruct (Z.eq_dec p rt) as [->|N2].
        -- exists l. rewrite El. cbn. auto.
        -- exists p. rewrite Eo; auto. congruence.
    + intros p L. destruct (Z.eq_dec p rt) as [->|N]; [rewrite Er; cbn; auto|].
      destruct (Z.eq_dec p l) as [->|N1]; [rewrite El; cbn; apply H; auto|]. rewrite Eo in * by auto. apply H; auto.
    + intros p k v L I. destruct (Z.eq_dec p rt) as [->|N]; [rewrite Er in I; destruct I|].
      destruct (Z.eq_dec p l) as [->|N1]; [rewrite El in *; cbn in *|rewrite Eo in * by auto; eapply (it_in _ _ H); eauto].
      destruct (it_in _ _ H rt k v Lr I) as [A B]. split; auto.
    + intros p L. destruct (Z.eq_dec p rt) as [->|N]; [rewrite Er; cbn; auto|].
      destruct (Z.eq_dec p l) as [->|N1]; [rewrite El; cbn; apply H; auto|]. rewrite Eo in * by auto. apply H; auto.
    + intros p k c L I. destruct (Z.eq_dec p rt) as [->|N]; [rewrite Er in I; destruct I|].
      destruct (Z.eq_dec p l) as [->|N1].
      * rewrite El in I. cbn in I. destruct (dn_in _ _ H rt k c Lr I) as (D1 & D2 & D3 & D4).
        rewrite El at 1 2 3. cbn. split; [auto|]. split; [auto|]. split; [auto|].
        eapply child_stays; [exact D4| |rewrite El; reflexivity]. intros Q. apply ST; auto. eapply CN; eauto. lia.
      * rewrite (Eo p) in * by auto. destruct (dn_in _ _ H p k c L I) as (D1 & D2 & D3 & D4). split; [auto|]. split; [auto|]. split; [auto|].
        eapply child_stays; [exact D4| |reflexivity]. intros Q. apply ST; auto. eapply CN; eauto. apply (lv _ _ H); auto.
    + intros p L V. destruct (Z.eq_dec p rt) as [->|N].
      * rewrite Er. unfold child. cbn [pg_first fst snd pg_level pg_lo]. rewrite El. cbn. repeat split; auto. lia.
      * destruct (Z.eq_dec p l) as [->|N1].
        -- rewrite El at 2 3. rewrite El in V. cbn in *. pose proof (dn_fst _ _ H rt Lr V) as D. rewrite LO in D.
           eapply child_stays; [exact D| |rewrite El; reflexivity]. intros Q. apply ST; auto. eapply CN; eauto. lia.
        -- rewrite (Eo p) in * by auto. pose proof (dn_fst _ _ H p L V) as D. eapply child_stays; [exact D| |reflexivity].
           intros Q. apply ST; auto. eapply CN; eauto. apply (lv _ _ H); auto.
    + intros p c L R. destruct (Z.eq_dec p rt) as [->|N]; [rewrite Er in R; discriminate|].
      destruct (Z.eq_dec p l) as [->|N1]; [rewrite El in R; discriminate|]. rewrite (Eo p) in * by auto.
      destruct (rl _ _ H p c L R) as (D1 & D2 & D3 & m & D4 & D5). destruct (ST (fst c) D1) as (S1 & S2 & S3 & S4).
      { intros E. rewrite E in D5. congruence. }
      rewrite S1, S2, S3, S4. repeat split; auto. exists m; auto.
    + intros q L N. destruct (Z.eq_dec q l) as [->|N1].
      * left. exists rt. rewrite Er, El. cbn. split; auto. split; cbn; [lia|auto].
      * rewrite (Eo q) in * by auto. destruct (par _ _ H q L N) as [(p & A1 & A2)|(p & A1 & A2)].
        -- left. destruct (Z.eq_dec p rt) as [->|N2].
           ++ exists l. rewrite El. cbn. split; auto.
           ++ exists p. rewrite Eo; auto. congruence.
        -- right. exists p. rewrite Eo; auto; congruence.
    + destruct (fin _ _ H) as (ls & A). exists (l :: ls). intros p L. destruct (Z.eq_dec p l) as [->|N2]; [left; auto|right].
      apply A. destruct (Z.eq_dec p rt) as [->|N3]; auto. rewrite Eo in L; auto.
  - intros q. destruct (Z.eq_dec q rt) as [->|N]; [rewrite Er; cbn|].
    + split; [lia|]. rewrite LO. intros _ _. split; auto. split; auto. right. split; auto. lia.
    + destruct (Z.eq_dec q l) as [->|N1]; [rewrite El; cbn; split; [lia|congruence]|]. rewrite Eo; auto. split; auto. lia.
  - intros p k L V C. destruct (Z.eq_dec p rt) as [->|N]; [rewrite Er in V; cbn in V; lia|].
    destruct (Z.eq_dec p l) as [->|N1].
    + exists rt. rewrite El in *. cbn in *. repeat split; auto.
    + exists p. rewrite Eo in * by auto. tauto.
Qed.

Definition root_pg (pg : Z -> page) (rt l c m : Z) : Z -> page :=
  let lh := left_half (pg rt) m None in
  upd (upd (upd pg l (mkP (pg_gen (pg l)) true (pg_level lh) (pg_lo lh) (pg_hi lh) (pg_items lh)
                          (pg_first lh) (pg_downs lh) None))
           c (right_half (pg rt) m (pg_gen (pg c))))
      rt (mkP (pg_gen (pg rt)) true (pg_level (pg rt) + 1) None None [] (l, pg_gen (pg l)) [(m, (c, pg_gen (pg c)))] None).
Lemma PI_root : forall pg rt l c m, PI pg rt -> pg_live (pg l) = false -> pg_live (pg c) = false -> l <> c ->
  can_split (pg rt) m = true ->
  PI (root_pg pg rt l c m) rt /\ keeps rt pg (root_pg pg rt l c m) /\ same pg (root_pg pg rt l c m).
Proof.
  intros pg rt l c m H Ll Lc N CS. pose proof (r_live _ _ H) as Lr.
  assert (Nl : l <> rt) by (intros ->; congruence). assert (Nc : c <> rt) by (intros ->; congruence).
  pose proof (r_lo _ _ H) as LO. pose proof (r_hi _ _ H) as HI. pose proof (r_right _ _ H) as RR. pose proof (lv _ _ H rt Lr) as VR.
  destruct (PI_push pg rt l H Ll) as (P1 & K1 & S1). set (p1 := push_pg pg rt l) in *.
  assert (El : p1 l = mkP (pg_gen (pg l)) true (pg_level (pg rt)) None None (pg_items (pg rt)) (pg_first (pg rt)) (pg_downs (pg rt)) None).
  { unfold p1, push_pg. rewrite upd_other, upd_same; auto. }
  assert (Ec : p1 c = pg c) by (unfold p1, push_pg; rewrite !upd_other; auto).
  assert (Er : p1 rt = mkP (pg_gen (pg rt)) true (pg_level (pg rt) + 1) None None [] (l, pg_gen (pg l)) [] None).
  { unfold p1, push_pg. rewrite upd_same. reflexivity. }
  destruct (PI_split p1 rt l c m P1) as (P2 & K2 & S2); auto; [rewrite El; auto|rewrite Ec; auto|rewrite El; exact CS|].
  set (p2 := split_pg p1 l c m) in *.
  assert (El2 : p2 l = left_half (p1 l) m (Some (c, pg_gen (p1 c)))) by (unfold p2, split_pg; rewrite upd_other, upd_same; auto).
  assert (Er2 : p2 rt = p1 rt) by (unfold p2, split_pg; rewrite !upd_other; auto).
  destruct (PI_down p2 rt rt l m (c, pg_gen (pg c)) P2) as (P3 & K3 & S3).
  { rewrite Er2, Er; auto. } { rewrite El2; auto. } { rewrite Er2, Er, El2, El. reflexivity. }
  { rewrite El2, Ec. reflexivity. } { rewrite El2. reflexivity. }
  { rewrite Er2, Er. reflexivity. } { rewrite Er2, Er. reflexivity. }
  set (p3 := down_pg p2 rt m (c, pg_gen (pg c))) in *.
  assert (Er3 : p3 rt = mkP (pg_gen (pg rt)) true (pg_level (pg rt) + 1) None None [] (l, pg_gen (pg l)) [(m, (c, pg_gen (pg c)))] None).
  { unfold p3, down_pg. rewrite upd_same, Er2, Er. reflexivity. }
  assert (El3 : p3 l = p2 l) by (unfold p3, down_pg; rewrite upd_other; auto).
  destruct (PI_clear p3 rt rt l m (c, pg_gen (pg c)) P3) as (P4 & K4 & S4).
  { rewrite Er3; auto. } { rewrite El3, El2; auto. } { rewrite Er3, El3, El2, El. reflexivity. }
  { rewrite El3, El2, Ec. reflexivity. } { rewrite Er3. cbn. auto. }
  set (p4 := clear_pg p3 l) in *.
  assert (E : forall q, root_pg pg rt l c m q = p4 q).
  { intros q. unfold root_pg, p4, clear_pg, upd. destruct (Z.eqb_spec q rt) as [->|Q1].
    - rewrite (proj2 (Z.eqb_neq rt l)) by auto. symmetry. exact Er3.
    - destruct (Z.eqb_spec q c) as [->|Q2].
      + rewrite (proj2 (Z.eqb_neq c l)) by auto. unfold p3, down_pg. rewrite upd_other by auto. unfold p2, split_pg. rewrite upd_same.
        rewrite El, Ec. unfold right_half. cbn. rewrite HI, RR. reflexivity.
      + destruct (Z.eqb_spec q l) as [->|Q3].
        * rewrite El3, El2, El. unfold left_half. cbn. rewrite LO. reflexivity.
        * unfold p3, down_pg. rewrite upd_other by auto. unfold p2, split_pg. rewrite !upd_other by auto. unfold p1, push_pg.
          rewrite !upd_other by auto. reflexivity. }
  split; [eapply PI_ext; eauto|]. split.
  - intros q. rewrite E. exact (keeps_trans _ _ _ _ K1 (keeps_trans _ _ _ _ K2 (keeps_trans _ _ _ _ K3 K4)) q).
  - intros p k. rewrite E. exact (same_trans _ _ _ S1 (same_trans _ _ _ S2 (same_trans _ _ _ S3 S4)) p k).
Qed.

(** Neighbouring downlinks. *)
Definition adj (l r : Z) :=
  fix go (cur : link) (ds : list (Z * link)) : option Z :=
     match ds with
     | [] => None
     | (k, c) :: rest => if (fst cur =? l) && (fst c =? r) then Some k else go c rest
     end.
Lemma adj_ok : forall l r ds cur k, adj l r cur ds = Some k -> asc (map fst ds) ->
  exists cr, fst cr = r /\ In (k, cr) ds /\
    ((fst cur = l /\ forall k', In k' (map fst ds) -> k <= k') \/
     exists k0 cl, fst cl = l /\ In (k0, cl) ds /\ k0 < k /\ forall k', In k' (map fst ds) -> k' <= k0 \/ k <= k').
Proof.
  induction ds as [|[k1 c1] ds IH]; cbn; intros cur k E A; [discriminate|]. destruct A as [A1 A2].
  destruct ((fst cur =? l) && (fst c1 =? r)) eqn:X.
  - injection E as <-. exists c1. split; [lia|]. split; auto. left. split; [lia|]. intros k' [<-|K]; [lia|]. specialize (A1 _ K). lia.
  - destruct (IH _ _ E A2) as (cr & B1 & B2 & B3). exists cr. split; auto. split; auto. right.
    destruct B3 as [[B3 B4]|(k0 & cl & B3 & B4 & B5 & B6)].
    + exists k1, c1. assert (In k (map fst ds)) by (apply in_map_iff; exists (k, cr); auto). specialize (A1 _ H) as A1'.
      repeat split; auto. intros k' [<-|K]; [lia|]. specialize (B4 _ K). lia.
    + exists k0, cl. repeat split; auto. intros k' [<-|K]; auto. assert (In k0 (map fst ds)) by (apply in_map_iff; exists (k0, cl); auto).
      specialize (A1 _ H). lia.
Qed.

(** The least of finitely many. *)
Lemma least : forall (P : Z -> Z -> Prop) ls p x, (forall p x y, P p x -> P p y -> x = y) -> (forall p, {x | P p x} + {forall x, ~ P p x}) ->
  In p ls -> P p x -> exists q y, In q ls /\ P q y /\ forall q' y', In q' ls -> P q' y' -> y <= y'.
Proof.
  intros P ls p x U D. revert p x. induction ls as [|a ls IH]; intros p x I HP; [destruct I|].
  destruct (existsb (fun b => if D b then true else false) ls) eqn:X.
  - apply existsb_exists in X. destruct X as (b & X1 & X2). destruct (D b) as [[z Pz]|]; [|discriminate].
    destruct (IH b z X1 Pz) as (q & y & A1 & A2 & A3). destruct (D a) as [[w Pw]|Na].
    + destruct (Z_le_gt_dec y w).
      * exists q, y. split; [right; auto|]. split; auto. intros q' y' [<-|I'] P'; eauto. rewrite (U _ _ _ P' Pw). lia.
      * exists a, w. split; [left; auto|]. split; auto. intros q' y' [<-|I'] P'; [rewrite (U _ _ _ P' Pw); lia|].
        specialize (A3 _ _ I' P'). lia.
    + exists q, y. split; [right; auto|]. split; auto. intros q' y' [<-|I'] P'; eauto. destruct (Na _ P').
  - destruct I as [<-|I].
    + exists a, x. split; [left; auto|]. split; auto. intros q' y' [<-|I'] P'; [rewrite (U _ _ _ P' HP); lia|].
      exfalso. assert (Y : existsb (fun b => if D b then true else false) ls = true); [|congruence].
      apply existsb_exists. exists q'. split; auto. destruct (D q') as [|N]; auto. destruct (N _ P').
    + exfalso. assert (Y : existsb (fun b => if D b then true else false) ls = true); [|congruence].
      apply existsb_exists. exists p. split; auto. destruct (D p) as [|N]; auto. destruct (N _ HP).
Qed.

Definition merge_pg (pg : Z -> page) (a l r k : Z) : Z -> page :=
  upd (upd (upd pg a (mkP (pg_gen (pg a)) true (pg_level (pg a)) (pg_lo (pg a)) (pg_hi (pg a)) (pg_items (pg a)) (pg_first (pg a))
                          (filter (fun e => negb (fst e =? k)) (pg_downs (pg a))) (pg_right (pg a))))
           l (merge_page (pg l) (pg r)))
      r (mkP (pg_gen (pg r) + 1) false 0 None None [] (0, 0) [] None).

(** What the parent says about two neighbours. *)
Lemma neighbours : forall pg rt a l r k, PI pg rt -> pg_live (pg a) = true -> 0 < pg_level (pg a) ->
  adjacent (pg a) l r = Some k -> pg_right (pg l) = None ->
  pg_live (pg l) = true /\ pg_live (pg r) = true /\ pg_level (pg l) = pg_level (pg a) - 1 /\ pg_level (pg r) = pg_level (pg a) - 1 /\
  pg_lo (pg r) = Some k /\ pg_hi (pg l) = Some k /\ In (k, (r, pg_gen (pg r))) (pg_downs (pg a)).
Proof.
  intros pg rt a l r k H La Va AD RN. change (adj l r (pg_first (pg a)) (pg_downs (pg a)) = Some k) in AD.
  destruct (adj_ok _ _ _ _ _ AD (dn_asc _ _ H a La)) as (cr & R1 & R2 & R3).
  destruct (dn_in _ _ H a k cr La R2) as (_ & D2 & D3 & D4 & D5 & D6 & D7). rewrite R1 in *.
  assert (Ecr : cr = (r, pg_gen (pg r))) by (destruct cr; cbn in *; congruence).
  assert (LL : pg_live (pg l) = true /\ pg_level (pg l) = pg_level (pg a) - 1 /\ lt_opt (pg_lo (pg l)) (Some k) /\
     (forall x, lt_opt (pg_lo (pg l)) (Some x) -> x < k -> covers (KAt x) (pg a) = true) /\
     (forall x c, lt_opt (pg_lo (pg l)) (Some x) -> x < k -> ~ In (x, c) (pg_downs (pg a)) /\ pg_lo (pg a) <> Some x)).
  { destruct R3 as [[R3 R4]|(k0 & cl & R3 & R4 & R5 & R6)].
    - destruct (dn_fst _ _ H a La Va) as (F1 & F2 & F3 & F4). rewrite R3 in *. rewrite F4. split; auto. split; auto. split; auto.
      split.
      + intros x X1 X2. apply cov_at. unfold lt_opt in *. destruct (pg_lo (pg a)), (pg_hi (pg a)); split; auto; lia.
      + intros x c X1 X2. split.
        * intros X3. assert (In x (map fst (pg_downs (pg a)))) by (apply in_map_iff; exists (x, c); auto). specialize (R4 _ H0). lia.
        * intros X3. rewrite X3 in X1. cbn in X1. lia.
    - destruct (dn_in _ _ H a k0 cl La R4) as (_ & F2 & F3 & F4 & F5 & F6 & F7). rewrite R3 in *. rewrite F7. split; auto. split; auto.
      split; [cbn; auto|]. split.
      + intros x X1 X2. apply cov_at. unfold lt_opt in *. destruct (pg_lo (pg a)), (pg_hi (pg a)); split; auto; lia.
      + intros x c X1 X2. cbn in X1. split.
        * intros X3. assert (In x (map fst (pg_downs (pg a)))) by (apply in_map_iff; exists (x, c); auto). specialize (R6 _ H0). lia.
        * intros X3. rewrite X3 in F2. cbn in F2. lia. }
  destruct LL as (L1 & L2 & L3 & L4 & L5).
  split; auto. split; auto. split; auto. split; auto. split; auto. rewrite Ecr in R2. split; auto.
  pose proof (lv _ _ H l L1) as VL. pose proof (lv _ _ H a La) as VA.
  assert (LW : lt_opt (pg_lo (pg l)) (pg_hi (pg l))) by (apply (rng _ _ H); auto).
  destruct (ex _ _ H (pg_level (pg l)) (KHi k) VL) as (q & Q1 & Q2 & Q3). apply cov_hi in Q3. destruct Q3 as [Q3 Q4].
  assert (Qh : pg_hi (pg q) = Some k).
  { destruct (pg_hi (pg q)) as [h|] eqn:Eh.
    - destruct (Z.eq_dec h k) as [->|N]; auto. exfalso. assert (q = r); [|subst q; rewrite D7 in Q3; lia].
      apply (uq _ _ H q r (KAt k)); auto; [lia| |]; apply cov_at.
      + rewrite Eh. split; [destruct (pg_lo (pg q)); auto; lia|lia].
      + rewrite D7. split; [lia|]. pose proof (rng _ _ H r D4) as W. rewrite D7 in W. exact W.
    - exfalso. assert (q = r); [|subst q; rewrite D7 in Q3; lia].
      apply (uq _ _ H q r (KAt k)); auto; [lia| |]; apply cov_at.
      + rewrite Eh. split; auto. destruct (pg_lo (pg q)); auto; lia.
      + rewrite D7. split; [lia|]. pose proof (rng _ _ H r D4) as W. rewrite D7 in W. exact W. }
  destruct (Z.eq_dec q l) as [->|NQ]; auto. exfalso.
  assert (NL : forall b x, pg_live (pg b) = true -> pg_level (pg b) = pg_level (pg l) -> b <> l -> pg_hi (pg b) = Some x -> lt_opt (pg_lo (pg l)) (Some x) ->
     exists y, pg_lo (pg b) = Some y /\ lt_opt (pg_lo (pg l)) (Some y)).
  { intros b x B1 B2 B3 B4 B5. destruct (pg_lo (pg l)) as [u|] eqn:El.
    - destruct (pg_lo (pg b)) as [y|] eqn:Ey.
      + destruct (Z_le_gt_dec y u).
        * exfalso. apply B3. apply (uq _ _ H b l (KAt u)); auto; apply cov_at; rewrite ?El, ?Ey, ?B4; cbn in *; split; auto; try lia.
        * exists y. cbn. split; auto. lia.
      + exfalso. apply B3. apply (uq _ _ H b l (KAt u)); auto; apply cov_at; rewrite ?El, ?Ey, ?B4; cbn in *; split; auto; try lia.
    - destruct (pg_lo (pg b)) as [y|] eqn:Ey; [exists y; cbn; auto|]. exfalso. apply B3. apply (same_lo pg rt H); auto. congruence. }
  destruct (NL q k Q1 Q2 NQ Qh L3) as (y & Y1 & Y2).
  destruct (fin _ _ H) as (ls & FN).
  set (P := fun p x => pg_live (pg p) = true /\ pg_level (pg p) = pg_level (pg l) /\ pg_lo (pg p) = Some x /\ x < k /\ lt_opt (pg_lo (pg l)) (Some x)).
  assert (PQ : P q y) by (unfold P; rewrite Y1 in Q3; auto).
  destruct (least P ls q y) as (p & x & X1 & X2 & X3); auto.
  - unfold P. intros ? ? ? (_ & _ & A & _) (_ & _ & B & _). congruence.
  - unfold P. intros p. destruct (pg_lo (pg p)) as [x|]; [|right; intros x (_ & _ & A & _); discriminate].
    destruct (bool_dec (pg_live (pg p)) true); [|right; intros z (A & _); congruence].
    destruct (Z.eq_dec (pg_level (pg p)) (pg_level (pg l))); [|right; intros z (_ & A & _); congruence].
    destruct (Z_lt_dec x k); [|right; intros z (_ & _ & A & B & _); injection A as <-; congruence].
    destruct (pg_lo (pg l)) as [u|]; cbn.
    + destruct (Z_lt_dec u x); [left; exists x; auto|right]. intros z (_ & _ & A & _ & B). injection A as <-. congruence.
    + left. exists x. auto.
  - destruct X2 as (P1 & P2 & P3 & P4 & P5). assert (NR : p <> rt) by (intros ->; rewrite (r_lo _ _ H) in P3; discriminate).
    destruct (par _ _ H p P1 NR) as [(s & S1 & S2)|(b & B1 & B2)].
    + destruct (points_cov pg rt H s _ S1 S2) as (T1 & T2 & T3 & T4). cbn [fst snd] in *.
      assert (CS : covers (KAt x) (pg s) = true).
      { apply cov_at. destruct T4 as [[T4 _]|(k1 & T4 & T5)].
        - rewrite <- T4, P3. split; [lia|]. pose proof (rng _ _ H s S1) as W. rewrite <- T4, P3 in W. exact W.
        - rewrite P3 in T4. injection T4 as <-. destruct (dn_in _ _ H s x _ S1 T5) as (_ & W1 & W2 & _). unfold lt_opt in *.
          destruct (pg_lo (pg s)), (pg_hi (pg s)); split; auto; lia. }
      assert (s = a) by (apply (uq _ _ H s a (KAt x)); auto; lia). subst s.
      destruct (L5 x (p, pg_gen (pg p)) P5 P4) as [Z1 Z2]. destruct T4 as [[T4 _]|(k1 & T4 & T5)]; [congruence|].
      rewrite P3 in T4. injection T4 as <-. auto.
    + destruct (rl _ _ H b _ B1 B2) as (T1 & T2 & T3 & m & T4 & T5). cbn [fst snd] in *. rewrite P3 in T5. injection T5 as <-.
      assert (NB : b <> l) by (intros ->; congruence).
      destruct (NL b x B1) as (z & Z1 & Z2); auto; [lia|]. pose proof (rng _ _ H b B1) as W. rewrite Z1, T4 in W. cbn in W.
      specialize (X3 b z). assert (x <= z); [|lia]. apply X3; auto. unfold P. repeat split; auto; lia.
Qed.

Lemma PI_merge : forall pg rt a l r k, PI pg rt -> pg_live (pg a) = true -> 0 < pg_level (pg a) ->
  adjacent (pg a) l r = Some k -> pg_right (pg l) = None -> pg_right (pg r) = None ->
  PI (merge_pg pg a l r k) rt /\ keeps rt pg (merge_pg pg a l r k) /\ same pg (merge_pg pg a l r k).
Proof.
  intros pg rt a l r k H La Va AD RL RR.
  destruct (neighbours pg rt a l r k H La Va AD RL) as (Ll & Lr & Vl & Vr & LO & HI & DI).
  pose proof (lv _ _ H a La) as VA.
  assert (Nal : a <> l) by (intros ->; lia). assert (Nar : a <> r) by (intros ->; lia).
  assert (Wl : lt_opt (pg_lo (pg l)) (Some k)) by (rewrite <- HI; apply (rng _ _ H); auto).
  assert (Wr : lt_opt (Some k) (pg_hi (pg r))) by (rewrite <- LO; apply (rng _ _ H); auto).
  assert (Nlr : l <> r) by (intros E; rewrite E, LO in Wl; cbn in Wl; lia).
  assert (Nrl : l <> rt) by (intros ->; lia). assert (Nrr : r <> rt) by (intros ->; lia).
  set (pg' := merge_pg pg a l r k).
  assert (Er : pg' r = mkP (pg_gen (pg r) + 1) false 0 None None [] (0, 0) [] None).
  { unfold pg', merge_pg. rewrite upd_same. reflexivity. }
  assert (El : pg' l = merge_page (pg l) (pg r)) by (unfold pg', merge_pg; rewrite upd_other, upd_same; auto).
  assert (Ea : pg' a = mkP (pg_gen (pg a)) true (pg_level (pg a)) (pg_lo (pg a)) (pg_hi (pg a)) (pg_items (pg a)) (pg_first (pg a))
                          (filter (fun e => negb (fst e =? k)) (pg_downs (pg a))) (pg_right (pg a))).
  { unfold pg', merge_pg. rewrite upd_other, upd_other, upd_same; auto. }
  assert (Eo : forall q, q <> a -> q <> l -> q <> r -> pg' q = pg q).
  { intros q Q1 Q2 Q3. unfold pg', merge_pg. rewrite !upd_other; auto. }
  assert (CV : forall key, covers key (pg' l) = covers key (pg l) || covers key (pg r) /\ (covers key (pg l) && covers key (pg r) = false)).
  { intros key. apply (cov_split key (pg' l) (pg l) (pg r) k); rewrite ?El; auto. }
  assert (NR : forall q, pg_live (pg' q) = true -> q <> r) by (intros q Q ->; rewrite Er in Q; discriminate).
  assert (LV : forall q, pg_live (pg' q) = true -> pg_live (pg q) = true).
  { intros q Q. pose proof (NR q Q). destruct (Z.eq_dec q a) as [->|N1]; auto. destruct (Z.eq_dec q l) as [->|N2]; auto. rewrite Eo in Q; auto. }
  assert (ST : forall q, pg_live (pg q) = true -> q <> r -> stays (pg q) (pg' q)).
  { intros q Q N. unfold stays. destruct (Z.eq_dec q a) as [->|N1]; [rewrite Ea; cbn; auto|].
    destruct (Z.eq_dec q l) as [->|N2]; [rewrite El; cbn; auto|]. rewrite Eo; auto. }
  assert (CO : forall key q, q <> l -> q <> r -> covers key (pg' q) = covers key (pg q)).
  { intros key q N1 N2. destruct (Z.eq_dec q a) as [->|N3]; [rewrite Ea; reflexivity|]. rewrite Eo; auto. }
  assert (CA : covers (KAt k) (pg a) = true).
  { destruct (dn_in _ _ H a k _ La DI) as (_ & W1 & W2 & _). apply cov_at. unfold lt_opt in *. destruct (pg_lo (pg a)), (pg_hi (pg a)); split; auto; lia. }
  (* nobody but the parent points to the page freed *)
  assert (CN : forall p c lo, pg_live (pg p) = true -> child pg (pg p) c lo -> lo <> Some k -> fst c <> r).
  { intros p c lo _ (_ & _ & _ & C) N E. rewrite E in C. congruence. }
  assert (PK : forall p c, pg_live (pg p) = true -> In (k, c) (pg_downs (pg p)) -> pg_level (pg p) = pg_level (pg a) -> p = a).
  { intros p c Lp I V. apply (uq _ _ H p a (KAt k)); auto.
    destruct (dn_in _ _ H p k _ Lp I) as (_ & W1 & W2 & _). apply cov_at. unfold lt_opt in *. destruct (pg_lo (pg p)), (pg_hi (pg p)); split; auto; lia. }
  assert (CR : forall p k1 c, pg_live (pg p) = true -> In (k1, c) (pg_downs (pg p)) -> (p = a -> k1 <> k) -> fst c <> r).
  { intros p k1 c Lp I N E. destruct (dn_in _ _ H p k1 c Lp I) as (D1 & D2 & D3 & D4 & D5 & D6 & D7). rewrite E in *.
    assert (k1 = k) by congruence. subst k1. apply (N (PK p c Lp I ltac:(lia))). reflexivity. }
  assert (CF : forall p, pg_live (pg p) = true -> 0 < pg_level (pg p) -> fst (pg_first (pg p)) <> r).
  { intros p Lp V E. destruct (dn_fst _ _ H p Lp V) as (D4 & D5 & D6 & D7). rewrite E in *.
    assert (p = a). { apply (uq _ _ H p a (KAt k)); auto; [lia|]. apply cov_at. rewrite <- D7, LO. split; [lia|].
      pose proof (rng _ _ H p Lp) as W. rewrite <- D7, LO in W. exact W. }
    subst p. destruct (dn_in _ _ H a k _ La DI) as (_ & W1 & _). rewrite <- D7, LO in W1. cbn in W1. lia. }
  assert (HIM : match pg_hi (pg l) with Some h => h | None => 0 end = k) by (rewrite HI; reflexivity).
  assert (SM : same pg pg').
  { intros p k1 L V C. pose proof (NR p L) as N. destruct (Z.eq_dec p l) as [->|N1].
    - destruct (CV (KAt k1)) as [C1 C2]. rewrite C in C1. symmetry in C1. apply orb_true_iff in C1. rewrite El in V. cbn in V.
      destruct C1 as [C1|C1].
      + exists l. repeat split; auto.
        * rewrite El. cbn. intros I. apply in_app_iff in I. destruct I as [I|I]; auto.
          destruct (it_in _ _ H r _ _ Lr I) as [_ C3]. rewrite C1, C3 in C2. discriminate.
        * rewrite El. cbn. intros I. apply in_app_iff. auto.
      + exists r. repeat split; auto; [lia| |].
        * rewrite El. cbn. intros I. apply in_app_iff in I. destruct I as [I|I]; auto.
          destruct (it_in _ _ H l _ _ Ll I) as [_ C3]. rewrite C1, C3 in C2. discriminate.
        * rewrite El. cbn. intros I. apply in_app_iff. auto.
    - exists p. rewrite CO in C by auto. destruct (Z.eq_dec p a) as [->|N2]; [rewrite Ea in V; cbn in V; lia|]. rewrite Eo in * by auto. tauto. }
  assert (KP : keeps rt pg pg').
  { intros q. destruct (Z.eq_dec q r) as [->|N]; [rewrite Er; cbn; split; lia|]. split.
    - destruct (Z.eq_dec q a) as [->|N1]; [rewrite Ea; cbn; lia|]. destruct (Z.eq_dec q l) as [->|N2]; [rewrite El; cbn; lia|]. rewrite Eo; auto. lia.
    - intros _ Q. destruct (ST q Q N) as (S1 & S2 & S3 & S4). auto. }
  split; [|split; auto]. constructor.
  - apply (ST rt); auto. apply H.
  - destruct (ST rt (r_live _ _ H)) as (_ & _ & _ & S); auto. rewrite S. apply H.
  - destruct (Z.eq_dec rt a) as [E|N1]; [rewrite E, Ea, <- E; cbn; apply H|]. rewrite Eo; auto. apply H.
  - destruct (Z.eq_dec rt a) as [E|N1]; [rewrite E, Ea, <- E; cbn; apply H|]. rewrite Eo; auto. apply H.
  - intros p L. destruct (ST p (LV p L) (NR p L)) as (_ & _ & S & _). destruct (ST rt (r_live _ _ H)) as (_ & _ & S' & _); auto.
    rewrite S, S'. apply H; auto.
  - intros p L. pose proof (LV p L) as L'. pose proof (NR p L) as N. destruct (Z.eq_dec p l) as [->|N1].
    + rewrite El. cbn. unfold lt_opt in *. destruct (pg_lo (pg l)), (pg_hi (pg r)); auto. lia.
    + destruct (Z.eq_dec p a) as [->|N2]; [rewrite Ea; cbn; apply H; auto|]. rewrite Eo; auto. apply H; auto.
  - intros p q key Lp Lq V Cp Cq. pose proof (NR p Lp) as Np. pose proof (NR q Lq) as Nq.
    destruct (ST p (LV p Lp) Np) as (_ & _ & Sp & _). destruct (ST q (LV q Lq) Nq) as (_ & _ & Sq & _).
    destruct (Z.eq_dec p l) as [->|N1], (Z.eq_dec q l) as [->|N2]; auto.
    + rewrite CO in Cq by auto. destruct (CV key) as [C1 _]. rewrite C1 in Cp. apply orb_true_iff in Cp. destruct Cp as [Cp|Cp].
      * apply (uq _ _ H l q key); auto; congruence || (apply LV; auto) || lia.
      * exfalso. apply Nq. symmetry. apply (uq _ _ H r q key); auto; congruence || (apply LV; auto) || lia.
    + rewrite CO in Cp by auto. destruct (CV key) as [C1 _]. rewrite C1 in Cq. apply orb_true_iff in Cq. destruct Cq as [Cq|Cq].
      * apply (uq _ _ H p l key); auto; congruence || (apply LV; auto) || lia.
      * exfalso. apply Np. apply (uq _ _ H p r key); auto; congruence || (apply LV; auto) || lia.
    + rewrite CO in Cp, Cq by auto. apply (uq _ _ H p q key); auto. congruence.
  - intros n key N. destruct (ST rt (r_live _ _ H)) as (_ & _ & S' & _); auto. rewrite S' in N.
    destruct (ex _ _ H n key N) as (p & A1 & A2 & A3).
    assert (G : p = l \/ p = r -> exists p, pg_live (pg' p) = true /\ pg_level (pg' p) = n /\ covers key (pg' p) = true).
    { intros G. exists l. destruct (CV key) as [C1 _]. rewrite C1, El. cbn. split; auto. destruct G as [->| ->]; rewrite A3; split; try lia; auto using orb_true_r. }
    destruct (Z.eq_dec p l) as [->|N1]; auto. destruct (Z.eq_dec p r) as [->|N2]; auto.
    exists p. destruct (ST p A1 N2) as (S1 & _ & S3 & _). rewrite S1, S3, CO; auto.
  - intros p L. pose proof (LV p L) as L'. pose proof (NR p L) as N. destruct (Z.eq_dec p l) as [->|N1].
    + rewrite El. cbn. rewrite map_app. apply asc_app; [apply H; auto|apply H; auto|]. intros x y X Y.
      apply in_map_iff in X, Y. destruct X as ([x' vx] & <- & X), Y as ([y' vy] & <- & Y). cbn.
      destruct (it_in _ _ H l _ _ Ll X) as [_ CX]. destruct (it_in _ _ H r _ _ Lr Y) as [_ CY]. apply cov_at in CX, CY.
      rewrite HI in CX. rewrite LO in CY. lia.
    + destruct (Z.eq_dec p a) as [->|N2]; [rewrite Ea; cbn; apply H; auto|]. rewrite Eo; auto. apply H; auto.
  - intros p k1 v L I. pose proof (LV p L) as L'. pose proof (NR p L) as N. destruct (ST p L' N) as (_ & _ & S3 & _). rewrite S3.
    destruct (Z.eq_dec p l) as [->|N1].
    + rewrite El in I. cbn in I. destruct (CV (KAt k1)) as [C1 _]. rewrite C1. apply in_app_iff in I. destruct I as [I|I].
      * destruct (it_in _ _ H l _ _ Ll I) as [A B]. rewrite B. auto.
      * destruct (it_in _ _ H r _ _ Lr I) as [A B]. rewrite B, orb_true_r. split; auto. lia.
    + rewrite CO by auto. destruct (Z.eq_dec p a) as [->|N2]; [rewrite Ea in I; cbn in I; eapply (it_in _ _ H); eauto|].
      rewrite Eo in I; auto. eapply (it_in _ _ H); eauto.
  - intros p L. pose proof (LV p L) as L'. pose proof (NR p L) as N. destruct (Z.eq_dec p l) as [->|N1].
    + rewrite El. cbn. destruct (Z.eqb_spec (pg_level (pg l)) 0) as [E|E]; [cbn; auto|]. rewrite map_app. cbn [map fst].
      rewrite HIM. apply asc_app; [apply H; auto| |].
      * cbn. split; [|apply H; auto]. intros y Y. apply in_map_iff in Y. destruct Y as ([y' c] & <- & Y).
        destruct (dn_in _ _ H r _ _ Lr Y) as (_ & W & _). rewrite LO in W. exact W.
      * intros x y X Y. apply in_map_iff in X. destruct X as ([x' c] & <- & X). destruct (dn_in _ _ H l _ _ Ll X) as (_ & _ & W & _).
        rewrite HI in W. cbn in W. cbn [fst]. destruct Y as [<-|Y]; [lia|]. apply in_map_iff in Y. destruct Y as ([y' c'] & <- & Y).
        destruct (dn_in _ _ H r _ _ Lr Y) as (_ & W' & _). rewrite LO in W'. cbn in *. lia.
    + destruct (Z.eq_dec p a) as [->|N2]; [rewrite Ea; cbn; apply asc_filter, H; auto|]. rewrite Eo; auto. apply H; auto.
  - intros p k1 c L I. pose proof (LV p L) as L'. pose proof (NR p L) as N. destruct (ST p L' N) as (_ & _ & S3 & S4).
    destruct (Z.eq_dec p l) as [->|N1].
    + rewrite El in I. cbn in I. destruct (Z.eqb_spec (pg_level (pg l)) 0) as [E|E]; [destruct I|]. rewrite HIM in I.
      rewrite S3, S4. rewrite El. cbn [merge_page pg_hi]. pose proof (lv _ _ H l Ll) as VL.
      apply in_app_iff in I. destruct I as [I|[I|I]].
      * pose proof (CR l k1 c Ll I ltac:(congruence)) as NC. destruct (dn_in _ _ H l _ _ Ll I) as (D1 & D2 & D3 & D4).
        split; [auto|]. split; [auto|]. split; [|eapply child_stays; eauto; rewrite <- S3, El; reflexivity].
        rewrite HI in D3. unfold lt_opt in *. destruct (pg_hi (pg r)); auto. lia.
      * injection I as <- <-. split; [lia|]. split; [auto|]. split; [auto|]. pose proof (CF r Lr ltac:(lia)) as NC.
        pose proof (dn_fst _ _ H r Lr ltac:(lia)) as D4. rewrite LO in D4. eapply child_stays; eauto. cbn. lia.
      * pose proof (CR r k1 c Lr I ltac:(congruence)) as NC. destruct (dn_in _ _ H r _ _ Lr I) as (D1 & D2 & D3 & D4).
        split; [lia|]. split; [|split; [auto|eapply child_stays; eauto; cbn; lia]].
        rewrite LO in D2. unfold lt_opt in *. destruct (pg_lo (pg l)); auto. lia.
    + assert (I' : In (k1, c) (pg_downs (pg p)) /\ (p = a -> k1 <> k)).
      { destruct (Z.eq_dec p a) as [->|N2].
        - rewrite Ea in I. cbn in I. apply filter_In in I. destruct I as [I J]. cbn in J. split; auto. intros _. lia.
        - rewrite Eo in I by auto. split; [auto|]. congruence. }
      destruct I' as [I1 I2]. pose proof (CR p k1 c L' I1 I2) as NC. destruct (dn_in _ _ H p _ _ L' I1) as (D1 & D2 & D3 & D4).
      rewrite S3, S4. split; [auto|]. split; [auto|]. split; [|eapply child_stays; eauto].
      destruct (Z.eq_dec p a) as [->|N2]; [rewrite Ea; auto|rewrite Eo; auto].
  - intros p L V. pose proof (LV p L) as L'. pose proof (NR p L) as N. destruct (ST p L' N) as (_ & _ & S3 & S4). rewrite S3 in V.
    assert (F : pg_first (pg' p) = pg_first (pg p)).
    { destruct (Z.eq_dec p l) as [->|N1]; [rewrite El; auto|]. destruct (Z.eq_dec p a) as [->|N2]; [rewrite Ea; auto|rewrite Eo; auto]. }
    rewrite F, S4. pose proof (CF p L' V). eapply child_stays; [apply (dn_fst _ _ H p L' V)|auto|auto].
  - intros p c L R. pose proof (LV p L) as L'. pose proof (NR p L) as N. destruct (ST p L' N) as (_ & _ & S3 & S4). rewrite S3.
    assert (N1 : p <> l) by (intros ->; rewrite El in R; discriminate).
    assert (R' : pg_right (pg p) = Some c /\ pg_hi (pg' p) = pg_hi (pg p)).
    { destruct (Z.eq_dec p a) as [->|N2]; [rewrite Ea in R |- *|rewrite Eo in R |- * by auto]; auto. }
    destruct R' as [R1 R2]. rewrite R2. destruct (rl _ _ H p c L' R1) as (T1 & T2 & T3 & m & T4 & T5).
    destruct (ST (fst c) T1) as (Q1 & Q2 & Q3 & Q4).
    { intros E. rewrite E in *. assert (m = k) by congruence. subst m. apply N1. apply (same_hi pg rt H p l k); auto. lia. }
    rewrite Q1, Q2, Q3, Q4. repeat split; auto. exists m; auto.
  - intros q L Nq. pose proof (LV q L) as L'. pose proof (NR q L) as N. destruct (ST q L' N) as (_ & S2 & _ & _). rewrite S2.
    destruct (par _ _ H q L' Nq) as [(p & A1 & A2)|(p & A1 & A2)].
    + left. destruct (Z.eq_dec p r) as [->|N1].
      * exists l. rewrite El. cbn. split; auto. destruct A2 as [A2 A3]. split; cbn; [lia|]. right.
        replace (pg_level (pg l) =? 0) with false by lia. rewrite HIM. destruct A3 as [A3|(k1 & A3)].
        -- exists k. apply in_app_iff. right. left. congruence.
        -- exists k1. apply in_app_iff. right. right. auto.
      * exists p. destruct (ST p A1 N1) as (Q1 & _). split; auto. destruct (Z.eq_dec p l) as [->|N2].
        -- rewrite El. destruct A2 as [A2 A3]. split; cbn; auto. replace (pg_level (pg l) =? 0) with false by lia.
           destruct A3 as [A3|(k1 & A3)]; auto. right. exists k1. apply in_app_iff. auto.
        -- destruct (Z.eq_dec p a) as [->|N3]; [|rewrite Eo; auto]. rewrite Ea. destruct A2 as [A2 A3]. split; cbn; auto.
           destruct A3 as [A3|(k1 & A3)]; auto. right. exists k1. apply filter_In. split; auto. cbn.
           destruct (Z.eqb_spec k1 k) as [->|]; auto. exfalso. assert (X : (q, pg_gen (pg q)) = (r, pg_gen (pg r))); [|injection X; auto].
           eapply asc_unique; [apply (dn_asc _ _ H a La)|exact A3|exact DI].
    + right. exists p. assert (N1 : p <> r) by congruence. assert (N2 : p <> l) by congruence.
      destruct (ST p A1 N1) as (Q1 & _). split; auto. destruct (Z.eq_dec p a) as [->|N3]; [rewrite Ea; auto|rewrite Eo; auto].
  - destruct (fin _ _ H) as (ls & A). exists ls. auto.
Qed.
