(** Invariant behind C14. *)
From Coq Require Import ZArith List Bool Lia Permutation.
From Coq Require Import ZifyBool ZifyNat.
From Verif Require Import Base UndoAllocModel UndoAllocSpec.
Import ListNotations.
Open Scope Z_scope.

(** Sum of the checked reservations of processes 0 .. n-1. *)
Fixpoint csum (f : Z -> Z) (n : nat) : Z :=
  match n with O => 0 | Datatypes.S k => csum f k + f (Z.of_nat k) end.
Lemma csum_out : forall f n p v, ~ (0 <= p < Z.of_nat n) -> csum (upd f p v) n = csum f n.
Proof. induction n; intros; cbn; auto. rewrite IHn by lia. rewrite upd_other by lia. reflexivity. Qed.
Lemma csum_upd : forall f n p v, 0 <= p < Z.of_nat n -> csum (upd f p v) n = csum f n - f p + v.
Proof.
  induction n; intros p v H; [cbn in H; lia|]. cbn. destruct (Z.eq_dec p (Z.of_nat n)) as [->|N].
  - rewrite csum_out by lia. rewrite upd_same. lia.
  - rewrite IHn by lia. rewrite upd_other by auto. lia.
Qed.
Lemma csum_ge : forall f n p, (forall q, 0 <= f q) -> 0 <= p < Z.of_nat n -> f p <= csum f n.
Proof.
  intros f n p Hf. assert (P : forall k, 0 <= csum f k) by (induction k; cbn; [lia|pose proof (Hf (Z.of_nat k)); lia]).
  induction n; intros H; [cbn in H; lia|]. cbn. pose proof (P n). pose proof (Hf (Z.of_nat n)).
  destruct (Z.eq_dec p (Z.of_nat n)) as [->|N]; [lia|]. specialize (IHn ltac:(lia)). lia.
Qed.

Fixpoint psum (l : list pend) : Z := match l with [] => 0 | x :: r => pz x + psum r end.
Lemma psum_app : forall a b, psum (a ++ b) = psum a + psum b.
Proof. induction a; intros; cbn; auto. rewrite IHa. lia. Qed.

(** Every unchecked reservation, in the order of the fetch-and-adds: the space it
    and its predecessors still claim ends below its own end or below [W]. *)
Fixpoint pfx (W base : Z) (l : list pend) : Prop :=
  match l with [] => True | x :: r => base + pz x <= Z.max (pub x) W /\ pfx W (base + pz x) r end.
Lemma pfx_mono : forall l W W' b b', W <= W' -> b' <= b -> pfx W b l -> pfx W' b' l.
Proof.
  induction l; intros W W' b b' HW Hb; cbn; auto. intros [A B]. split; [lia|]. eapply IHl; [eauto| |eauto]. lia.
Qed.
Lemma pfx_app : forall a W b c, pfx W b (a ++ c) <-> pfx W b a /\ pfx W (b + psum a) c.
Proof.
  induction a; intros; cbn.
  - replace (b + 0) with b by lia. tauto.
  - rewrite IHa. replace (b + pz a + psum a0) with (b + (pz a + psum a0)) by lia. tauto.
Qed.
Definition nonneg (l : list pend) : Prop := forall x, In x l -> 0 <= pz x.
Lemma psum_nonneg : forall l, nonneg l -> 0 <= psum l.
Proof. induction l; cbn; intros H; [lia|]. pose proof (H a (or_introl eq_refl)). assert (0 <= psum l) by (apply IHl; intros x Hx; apply H; right; auto). lia. Qed.
Lemma pfx_le : forall l W b, nonneg l -> b + psum l <= W -> pfx W b l.
Proof.
  induction l; cbn; intros W b H Hb; auto. assert (nonneg l) by (intros x Hx; apply H; right; auto).
  pose proof (psum_nonneg l H0). split; [lia|]. apply IHl; auto. lia.
Qed.

Lemma split_pend : forall l p x, NoDup (map pp l) -> find (fun x => pp x =? p) l = Some x ->
  pp x = p /\ exists a b, l = a ++ x :: b /\ filter (fun x => negb (pp x =? p)) l = a ++ b.
Proof.
  assert (F : forall l p, ~ In p (map pp l) -> filter (fun x => negb (pp x =? p)) l = l).
  { induction l; cbn; intros p H; auto. destruct (Z.eqb_spec (pp a) p); [exfalso; apply H; auto|]. cbn. rewrite IHl; auto. }
  induction l; cbn; intros p x ND H; [discriminate|]. inv ND.
  destruct (Z.eqb_spec (pp a) p).
  - inv H. split; auto. exists [], l. cbn. split; auto.
  - destruct (IHl p x H3 H) as (E & a0 & b & E1 & E2). split; auto. exists (a :: a0), b. cbn. rewrite E1 at 1. rewrite E2. auto.
Qed.

(** The process has an unchecked reservation. *)
Definition busy (c : pcs) : bool :=
  match c with
  | Chk1 _ | ChkRes _ | Chk2 _ _ | ChkWip _ | WaitLk => true
  | EvLock _ _ b | EvMin _ _ b | EvWrite _ b => negb b
  | _ => false
  end.
Definition mval (c : pcs) : option Z :=
  match c with Chk2 _ m | ChkWip m | EvLock _ m _ | EvMin _ m _ => Some m | EvWrite t _ => Some t | _ => None end.
Definition locker (c : pcs) : bool := match c with EvMin _ _ _ | EvWrite _ _ => true | _ => false end.

(** Where the process stands agrees with its unchecked reservation. *)
Definition pend_ok (C : Z) (s : st) (x : pend) : Prop :=
  match pc s (pp x) with
  | Chk1 _ | ChkRes _ => True
  | Chk2 _ m | ChkWip m => pub x <= m + C
  | WaitLk => pub x <= wip s + C
  | EvLock t m b | EvMin t m b => b = false /\ t = pub x - C
  | EvWrite t b => b = false /\ pub x - C <= t
  | _ => False
  end.

Record Inv (C : Z) (n : nat) (s : st) : Prop := {
  a_adv : adv s = lastu s + csum (conf s) n + psum (pnd s);
  a_conf : forall q, 0 <= conf s q;
  a_nd : NoDup (map pp (pnd s));
  a_nn : nonneg (pnd s);
  a_in : forall x, In x (pnd s) -> 0 <= pp x < Z.of_nat n /\ pend_ok C s x;
  a_busy : forall p, busy (pc s p) = true -> exists x, In x (pnd s) /\ pp x = p;
  a_G : lastu s + csum (conf s) n <= wr s + C;
  a_X : pfx (wr s + C) (lastu s + csum (conf s) n) (pnd s);
  a_lk : forall p, locker (pc s p) = true <-> lock s = Some p;
  a_w : match lock s with
        | None => wr s = wip s
        | Some p => match pc s p with EvMin t m _ => wr s = wip s /\ t <= m
                                    | EvWrite t _ => wip s = t /\ wr s <= t | _ => False end
        end;
  a_evl : forall p t m b, pc s p = EvLock t m b -> t <= m;
  a_last : wr s <= lastu s /\ wip s <= lastu s /\ minR s <= lastu s /\ minS s <= lastu s /\
           forall q m, mval (pc s q) = Some m -> m <= lastu s;
  a_res : forall p r, res s p = Some r -> r <= lastu s /\ wr s <= r /\ wip s <= r /\ minR s <= r /\ minS s <= r /\
           forall q m, mval (pc s q) = Some m -> m <= r;
  a_pin : forall p, match pc s p with
           | Pinned z => 0 < z < C /\ exists r, res s p = Some r /\ conf s p = conf0 s p - tries s p * z /\
               (tries s p = 0 \/ (tries s p = 1 /\ exists k, r < k * C <= lastu s))
           | Filling l z => res s p <> None
           | _ => res s p = None end;
  a_rng : forall p r, res s p = Some r -> 0 <= p < Z.of_nat n;
  a_rec : forall l z, In (l, z) (recs s) -> 0 < z /\ l + z <= lastu s /\ l mod C + z <= C;
  a_dis : pairwise_disjoint (recs s);
  a_pan : forall c z, In (c, z) (panic s) -> c < 2 * z;
  a_asrt : asrt s = true;
}.

Lemma init_inv : forall C n l, 0 < C -> Inv C n (init l).
Proof.
  intros C n l HC. assert (Z0 : csum (fun _ => 0) n = 0) by (induction n; cbn; lia).
  constructor; cbn; rewrite ?Z0; try lia; try tauto; try (intros; discriminate); try (intros ? []; fail); try (intros ? ? []; fail); try reflexivity.
  all: try (constructor; fail).
  all: try (intros p; split; discriminate).
  all: try (repeat split; try lia; intros; discriminate).
  intros i j a b _ H. destruct i; discriminate.
Qed.

(** A step that only moves one process without a reservation location. *)
Definition lite (C : Z) (n : nat) (s : st) (p : Z) (c : pcs) : Prop :=
  (forall x, In x (pnd s) -> pp x = p -> pend_ok C (set_pc s p c) x) /\
  (busy c = true -> exists x, In x (pnd s) /\ pp x = p) /\
  locker c = false /\ locker (pc s p) = false /\
  (forall t m b, c = EvLock t m b -> t <= m) /\
  (forall m, mval c = Some m -> m <= lastu s /\ forall q r, res s q = Some r -> m <= r) /\
  (match c with Pinned _ | Filling _ _ => False | _ => True end) /\
  (match pc s p with Pinned _ | Filling _ _ => False | _ => True end).

Lemma pend_ok_other : forall C s p c x, pp x <> p -> pend_ok C s x -> pend_ok C (set_pc s p c) x.
Proof. intros. unfold pend_ok in *. cbn. rewrite upd_other by auto. exact H0. Qed.

Lemma pc_inv : forall C n s p c, Inv C n s -> lite C n s p c -> Inv C n (set_pc s p c).
Proof.
  intros C n s p c H (L1 & L2 & L3 & L4 & L5 & L6 & L7 & L8). constructor; try (apply H).
  - intros x Hx. destruct (a_in _ _ _ H x Hx) as [A B]. split; auto.
    destruct (Z.eq_dec (pp x) p); [apply L1; auto|apply pend_ok_other; auto].
  - cbn. intros q. destruct (Z.eq_dec q p) as [->|N]; [rewrite upd_same; auto|rewrite upd_other by auto; apply (a_busy _ _ _ H)].
  - cbn. intros q. rewrite <- (a_lk _ _ _ H q). destruct (Z.eq_dec q p) as [->|N]; [rewrite upd_same, L3, L4; tauto|rewrite upd_other by auto; tauto].
  - cbn. pose proof (a_w _ _ _ H) as W. destruct (lock s) as [q|] eqn:El; auto.
    rewrite upd_other; auto. intros ->. apply (a_lk _ _ _ H) in El. congruence.
  - cbn. intros q t m b. destruct (Z.eq_dec q p) as [->|N]; [rewrite upd_same; apply L5|rewrite upd_other by auto; apply (a_evl _ _ _ H)].
  - cbn. destruct (a_last _ _ _ H) as (A & B & D & E & F). repeat split; auto.
    intros q m. destruct (Z.eq_dec q p) as [->|N]; [rewrite upd_same; apply L6|rewrite upd_other by auto; apply F].
  - cbn. intros q r Hr. destruct (a_res _ _ _ H q r Hr) as (A & B & D & E & E' & F). repeat split; auto.
    intros q' m. destruct (Z.eq_dec q' p) as [->|N]; [rewrite upd_same; intros Hm; eapply L6; eauto|rewrite upd_other by auto; apply F].
  - cbn. intros q. pose proof (a_pin _ _ _ H q) as Q. destruct (Z.eq_dec q p) as [->|N]; [rewrite upd_same|rewrite upd_other by auto; auto].
    destruct (pc s p); try contradiction; destruct c; try contradiction; auto.
Qed.

Lemma mypend_in : forall s p x, mypend s p = Some x -> In x (pnd s) /\ pp x = p.
Proof. unfold mypend. intros s p x H. apply find_some in H. destruct H. split; auto. lia. Qed.

Lemma uniq_pend : forall l x y, NoDup (map pp l) -> In x l -> In y l -> pp x = pp y -> x = y.
Proof.
  induction l; cbn; intros x y ND Hx Hy E; [contradiction|]. inv ND.
  destruct Hx as [->|Hx], Hy as [->|Hy]; auto.
  - exfalso. apply H1. rewrite E. apply in_map; auto.
  - exfalso. apply H1. rewrite <- E. apply in_map; auto.
Qed.

(** The reservation of [p] is taken out of the list. *)
Lemma others_in : forall s p y, In y (others s p) <-> In y (pnd s) /\ pp y <> p.
Proof. intros. unfold others. rewrite filter_In. split; intros [A B]; split; auto; lia. Qed.
Lemma others_nd : forall s p, NoDup (map pp (pnd s)) -> NoDup (map pp (others s p)).
Proof.
  intros s p. unfold others. induction (pnd s) as [|a l IH]; cbn; auto. intros ND. inv ND.
  destruct (negb (pp a =? p)); auto. cbn. constructor; auto.
  intros X. apply H1. apply in_map_iff in X. destruct X as (y & E & Hy). apply filter_In in Hy. apply in_map_iff. exists y. tauto.
Qed.

Lemma confirm_inv : forall C n s p x, 0 <= p < Z.of_nat n -> Inv C n s -> mypend s p = Some x -> busy (pc s p) = true -> locker (pc s p) = false ->
  pub x <= wr s + C -> Inv C n (confirm s p).
Proof.
  intros C n s p x Hp H Hx Hb Hlk Hle. unfold confirm. rewrite Hx.
  destruct (split_pend _ _ _ (a_nd _ _ _ H) Hx) as (Ex & a & b & E1 & E2). fold (others s p) in E2.
  pose proof (a_nn _ _ _ H) as NN. rewrite E1 in NN.
  assert (NNa : nonneg a) by (intros y Hy; apply NN; apply in_or_app; auto).
  assert (NNb : nonneg b) by (intros y Hy; apply NN; apply in_or_app; cbn; auto).
  assert (Zx : 0 <= pz x) by (apply NN; apply in_or_app; cbn; auto).
  pose proof (a_X _ _ _ H) as X. rewrite E1 in X. apply pfx_app in X. destruct X as [X1 [X2 X3]].
  pose proof (psum_nonneg a NNa).
  assert (CS : csum (upd (conf s) p (conf s p + pz x)) n = csum (conf s) n + pz x) by (rewrite csum_upd by auto; lia).
  assert (NP : match pc s p with Pinned _ | Filling _ _ => False | _ => True end) by (destruct (pc s p); auto; discriminate).
  constructor; cbn; rewrite ?CS; try (apply H).
  - rewrite (a_adv _ _ _ H), E1, E2, !psum_app. cbn. lia.
  - intros q. destruct (Z.eq_dec q p) as [->|N]; [rewrite upd_same|rewrite upd_other by auto]; [pose proof (a_conf _ _ _ H p); lia|apply (a_conf _ _ _ H)].
  - apply others_nd. apply (a_nd _ _ _ H).
  - intros y Hy. apply others_in in Hy. apply (a_nn _ _ _ H); tauto.
  - intros y Hy. apply others_in in Hy. destruct (a_in _ _ _ H y) as [A B]; [tauto|]. split; auto.
    unfold pend_ok in *. cbn. rewrite upd_other by tauto. exact B.
  - intros q. destruct (Z.eq_dec q p) as [->|N]; [rewrite upd_same; discriminate|rewrite upd_other by auto].
    intros Hq. destruct (a_busy _ _ _ H q Hq) as (y & Hy & Ey). exists y. split; auto. apply others_in. split; auto. congruence.
  - lia.
  - rewrite E2. apply pfx_app. split; [apply pfx_le; auto; lia|]. eapply pfx_mono; [| |exact X3]; lia.
  - intros q. rewrite <- (a_lk _ _ _ H q). destruct (Z.eq_dec q p) as [->|N]; [rewrite upd_same, Hlk; cbn; tauto|rewrite upd_other by auto; tauto].
  - pose proof (a_w _ _ _ H) as W. destruct (lock s) as [q|] eqn:El; auto.
    rewrite upd_other; auto. intros ->. apply (a_lk _ _ _ H) in El. congruence.
  - intros q t m b0. destruct (Z.eq_dec q p) as [->|N]; [rewrite upd_same; discriminate|rewrite upd_other by auto; apply (a_evl _ _ _ H)].
  - destruct (a_last _ _ _ H) as (A & B & D & E & F). repeat split; auto.
    intros q m. destruct (Z.eq_dec q p) as [->|N]; [rewrite upd_same; discriminate|rewrite upd_other by auto; apply F].
  - intros q r Hr. destruct (a_res _ _ _ H q r Hr) as (A & B & D & E & E' & F). repeat split; auto.
    intros q' m. destruct (Z.eq_dec q' p) as [->|N]; [rewrite upd_same; discriminate|rewrite upd_other by auto; apply F].
  - intros q. pose proof (a_pin _ _ _ H q) as Q. destruct (Z.eq_dec q p) as [->|N]; [rewrite upd_same|rewrite !upd_other by auto; auto].
    destruct (pc s p); try contradiction; auto.
Qed.

Lemma giveback_inv : forall C n s p x, 0 <= p < Z.of_nat n -> Inv C n s -> mypend s p = Some x -> busy (pc s p) = true -> locker (pc s p) = false ->
  Inv C n (giveback s p).
Proof.
  intros C n s p x Hp H Hx Hb Hlk. unfold giveback. rewrite Hx.
  destruct (split_pend _ _ _ (a_nd _ _ _ H) Hx) as (Ex & a & b & E1 & E2). fold (others s p) in E2.
  pose proof (a_nn _ _ _ H) as NN. rewrite E1 in NN.
  assert (Zx : 0 <= pz x) by (apply NN; apply in_or_app; cbn; auto).
  pose proof (a_X _ _ _ H) as X. rewrite E1 in X. apply pfx_app in X. destruct X as [X1 [X2 X3]].
  assert (NP : match pc s p with Pinned _ | Filling _ _ => False | _ => True end) by (destruct (pc s p); auto; discriminate).
  constructor; cbn; try (apply H).
  - rewrite (a_adv _ _ _ H), E1, E2, !psum_app. cbn. lia.
  - apply others_nd. apply (a_nd _ _ _ H).
  - intros y Hy. apply others_in in Hy. apply (a_nn _ _ _ H); tauto.
  - intros y Hy. apply others_in in Hy. destruct (a_in _ _ _ H y) as [A B]; [tauto|]. split; auto.
    unfold pend_ok in *. cbn. rewrite upd_other by tauto. exact B.
  - intros q. destruct (Z.eq_dec q p) as [->|N]; [rewrite upd_same; discriminate|rewrite upd_other by auto].
    intros Hq. destruct (a_busy _ _ _ H q Hq) as (y & Hy & Ey). exists y. split; auto. apply others_in. split; auto. congruence.
  - rewrite E2. apply pfx_app. split; [auto|]. eapply pfx_mono; [| |exact X3]; lia.
  - intros q. rewrite <- (a_lk _ _ _ H q). destruct (Z.eq_dec q p) as [->|N]; [rewrite upd_same, Hlk; cbn; tauto|rewrite upd_other by auto; tauto].
  - pose proof (a_w _ _ _ H) as W. destruct (lock s) as [q|] eqn:El; auto.
    rewrite upd_other; auto. intros ->. apply (a_lk _ _ _ H) in El. congruence.
  - intros q t m b0. destruct (Z.eq_dec q p) as [->|N]; [rewrite upd_same; discriminate|rewrite upd_other by auto; apply (a_evl _ _ _ H)].
  - destruct (a_last _ _ _ H) as (A & B & D & E & F). repeat split; auto.
    intros q m. destruct (Z.eq_dec q p) as [->|N]; [rewrite upd_same; discriminate|rewrite upd_other by auto; apply F].
  - intros q r Hr. destruct (a_res _ _ _ H q r Hr) as (A & B & D & E & E' & F). repeat split; auto.
    intros q' m. destruct (Z.eq_dec q' p) as [->|N]; [rewrite upd_same; discriminate|rewrite upd_other by auto; apply F].
  - intros q. pose proof (a_pin _ _ _ H q) as Q. destruct (Z.eq_dec q p) as [->|N]; [rewrite upd_same|rewrite !upd_other by auto; auto].
    destruct (pc s p); try contradiction; auto.
Qed.

Lemma assert_inv : forall C n s b, Inv C n s -> b = true -> Inv C n (assert s b).
Proof. intros C n s b H ->. constructor; try (apply H). cbn. rewrite (a_asrt _ _ _ H). reflexivity. Qed.

Lemma reserve_inv : forall C n s p z w, 0 <= p < Z.of_nat n -> Inv C n s -> Inv C n (reserve s p z w).
Proof.
  intros C n s p z w Hp H. unfold reserve. destruct (pc s p) eqn:E; auto. destruct (conf s p >=? z) eqn:Ez; auto.
  assert (Hno : ~ In p (map pp (pnd s))).
  { intros X. apply in_map_iff in X. destruct X as (x & Ex & Hx). destruct (a_in _ _ _ H x Hx) as [_ B]. unfold pend_ok in B. rewrite Ex, E in B. exact B. }
  set (x := mkP p (z - conf s p) (adv s + (z - conf s p))).
  constructor; cbn; try (apply H).
  - rewrite psum_app. cbn. rewrite (a_adv _ _ _ H). lia.
  - rewrite map_app. cbn.
    apply (Permutation_NoDup (l := p :: map pp (pnd s))).
    + apply Permutation_cons_append.
    + constructor; auto. apply (a_nd _ _ _ H).
  - intros y Hy. apply in_app_or in Hy. destruct Hy as [Hy|[<-|[]]]; [apply (a_nn _ _ _ H); auto|cbn; lia].
  - intros y Hy. apply in_app_or in Hy. destruct Hy as [Hy|[<-|[]]].
    + destruct (a_in _ _ _ H y Hy) as [A B]. split; auto. unfold pend_ok in *. cbn. rewrite upd_other; auto.
      intros X. apply Hno. rewrite <- X. apply in_map; auto.
    + cbn. split; auto. unfold pend_ok. cbn. rewrite upd_same. auto.
  - intros q Hq. destruct (Z.eq_dec q p) as [->|N].
    + exists x. split; [apply in_or_app; cbn; auto|reflexivity].
    + rewrite upd_other in Hq by auto. destruct (a_busy _ _ _ H q Hq) as (y & Hy & Ey). exists y. split; auto. apply in_or_app; auto.
  - apply pfx_app. split; [apply (a_X _ _ _ H)|]. cbn. split; auto. rewrite (a_adv _ _ _ H). lia.
  - intros q. rewrite <- (a_lk _ _ _ H q). destruct (Z.eq_dec q p) as [->|N]; [rewrite upd_same, E; cbn; tauto|rewrite upd_other by auto; tauto].
  - pose proof (a_w _ _ _ H) as W. destruct (lock s) as [q|] eqn:El; auto.
    rewrite upd_other; auto. intros ->. apply (a_lk _ _ _ H) in El. rewrite E in El. discriminate.
  - intros q t m b0. destruct (Z.eq_dec q p) as [->|N]; [rewrite upd_same; discriminate|rewrite upd_other by auto; apply (a_evl _ _ _ H)].
  - destruct (a_last _ _ _ H) as (A & B & D & E' & F). repeat split; auto.
    intros q m. destruct (Z.eq_dec q p) as [->|N]; [rewrite upd_same; discriminate|rewrite upd_other by auto; apply F].
  - intros q r Hr. destruct (a_res _ _ _ H q r Hr) as (A & B & D & E1 & E' & F). repeat split; auto.
    intros q' m. destruct (Z.eq_dec q' p) as [->|N]; [rewrite upd_same; discriminate|rewrite upd_other by auto; apply F].
  - intros q. pose proof (a_pin _ _ _ H q) as Q. destruct (Z.eq_dec q p) as [->|N]; [rewrite upd_same|rewrite !upd_other by auto; auto].
    rewrite E in Q. auto.
Qed.

Lemma rstep_inv : forall C n s p, 0 <= p < Z.of_nat n -> Inv C n s -> Inv C n (rstep C s p).
Proof.
  intros C n s p Hp H. unfold rstep. destruct (mypend s p) as [x|] eqn:Ex; [|destruct (pc s p); auto].
  destruct (mypend_in _ _ _ Ex) as [Hx Epx]. destruct (a_in _ _ _ H x Hx) as [_ Hk]. unfold pend_ok in Hk. rewrite Epx in Hk.
  assert (U : forall y, In y (pnd s) -> pp y = p -> y = x).
  { intros y Hy Ey. eapply uniq_pend; eauto. apply (a_nd _ _ _ H). congruence. }
  destruct (a_last _ _ _ H) as (L1 & L2 & L3 & L4 & L5).
  assert (LM : minR s <= lastu s /\ forall q r, res s q = Some r -> minR s <= r).
  { split; auto. intros q r Hr. apply (a_res _ _ _ H q r Hr). }
  assert (MV : forall m, mval (pc s p) = Some m -> m <= lastu s /\ forall q r, res s q = Some r -> m <= r).
  { intros m Hm. split; [eapply L5; eauto|]. intros q r Hr. eapply (a_res _ _ _ H q r Hr); eauto. }
  destruct (pc s p) eqn:E; auto.
  - destruct (Z.leb_spec (pub x) (wr s + C)).
    + eapply confirm_inv; eauto; rewrite E; reflexivity.
    + apply pc_inv; auto. unfold lite. rewrite E. repeat split; cbn; try discriminate; auto.
      * intros y Hy Ey. unfold pend_ok. cbn. rewrite Ey, upd_same. auto.
      * eauto.
  - destruct (Z.leb_spec (pub x) (minR s + C)).
    + apply pc_inv; auto. unfold lite. rewrite E. cbn. split; [|split; [eauto|split; [auto|split; [auto|split; [discriminate|split; [|auto]]]]]].
      * intros y Hy Ey. unfold pend_ok. cbn. rewrite Ey, upd_same. rewrite (U y Hy Ey). auto.
      * intros m Em. inv Em. exact LM.
    + destruct w; auto. eapply giveback_inv; eauto; rewrite E; reflexivity.
  - destruct (Z.leb_spec (pub x) (wr s + C)).
    + eapply confirm_inv; eauto; rewrite E; reflexivity.
    + destruct w; [|eapply giveback_inv; eauto; rewrite E; reflexivity].
      apply pc_inv; auto. unfold lite. rewrite E. cbn. split; [|split; [eauto|split; [auto|split; [auto|split; [discriminate|split; [|auto]]]]]].
      * intros y Hy Ey. unfold pend_ok. cbn. rewrite Ey, upd_same. rewrite (U y Hy Ey). auto.
      * intros m' Em. inv Em. apply MV. reflexivity.
  - destruct (Z.leb_spec (pub x) (wip s + C)).
    + apply pc_inv; auto. unfold lite. rewrite E. cbn. split; [|split; [eauto|split; [auto|split; [auto|split; [discriminate|split; [discriminate|auto]]]]]].
      intros y Hy Ey. unfold pend_ok. cbn. rewrite Ey, upd_same. rewrite (U y Hy Ey). auto.
    + apply pc_inv; auto. unfold lite. rewrite E. cbn. split; [|split; [eauto|split; [auto|split; [auto|split; [|split; [|auto]]]]]].
      * intros y Hy Ey. unfold pend_ok. cbn. rewrite Ey, upd_same. rewrite (U y Hy Ey). auto.
      * intros t m' b Em. inv Em. lia.
      * intros m' Em. inv Em. apply MV. reflexivity.
  - destruct (lock s) eqn:El; auto. pose proof (a_w _ _ _ H) as W. rewrite El in W.
    eapply confirm_inv; eauto; try (cbn; rewrite E; reflexivity).
    + apply assert_inv; auto. lia.
    + cbn. lia.
Qed.

Lemma fits_ok : forall n s v, fits n s v = true -> (forall p r, res s p = Some r -> 0 <= p < Z.of_nat n) ->
  v <= lastu s /\ forall p r, res s p = Some r -> v <= r.
Proof.
  unfold fits. intros n s v H Hr. apply andb_true_iff in H. destruct H as [A B]. split; [lia|].
  intros p r Ep. pose proof (Hr p r Ep). rewrite forallb_forall in B. specialize (B (Z.to_nat p)).
  rewrite in_seq in B. rewrite Z2Nat.id in B by lia. rewrite Ep in B. assert ((v <=? r) = true) by (apply B; lia). lia.
Qed.

Lemma min_inv : forall C n s r m, Inv C n s -> allowed n s r m = true -> Inv C n (set_min s r m).
Proof.
  intros C n s r m H A. unfold allowed in A. apply andb_true_iff in A. destruct A as [A A3]. apply andb_true_iff in A. destruct A as [A1 A2].
  apply fits_ok in A1; [|apply (a_rng _ _ _ H)]. apply fits_ok in A2; [|apply (a_rng _ _ _ H)].
  constructor; cbn; try (apply H).
  - destruct (a_last _ _ _ H) as (L1 & L2 & L3 & L4 & L5). repeat split; auto; tauto.
  - intros q r0 Hr. destruct (a_res _ _ _ H q r0 Hr) as (B1 & B2 & B3 & B4 & B5 & B6). repeat split; auto; eapply A1 || eapply A2; eauto.
Qed.

Lemma w_inv : forall C n s m, Inv C n s -> lock s = None \/ (exists p t m0 b, lock s = Some p /\ pc s p = EvMin t m0 b) ->
  wr s <= m -> m <= minS s -> Inv C n (set_w s m m).
Proof.
  intros C n s m H Hl Hm Hs.
  assert (We : wr s = wip s).
  { pose proof (a_w _ _ _ H) as W. destruct Hl as [El|(p & t & m0 & b & E1 & E2)]; [rewrite El in W; auto|]. rewrite E1, E2 in W. tauto. }
  destruct (a_last _ _ _ H) as (L1 & L2 & L3 & L4 & L5).
  constructor; cbn; try (apply H).
  - intros x Hx. destruct (a_in _ _ _ H x Hx) as [A B]. split; auto. unfold pend_ok in *. cbn. destruct (pc s (pp x)); auto. lia.
  - pose proof (a_G _ _ _ H). lia.
  - eapply pfx_mono; [| |apply (a_X _ _ _ H)]; lia.
  - pose proof (a_w _ _ _ H) as W. destruct Hl as [El|(p & t & m0 & b & E1 & E2)]; [rewrite El; auto|]. rewrite E1, E2 in *. tauto.
  - repeat split; auto; lia.
  - intros q r0 Hr. destruct (a_res _ _ _ H q r0 Hr) as (B1 & B2 & B3 & B4 & B5 & B6). repeat split; auto; lia.
Qed.

Lemma update_inv : forall C n s r m, Inv C n s -> Inv C n (update n s r m).
Proof.
  intros C n s r m H. unfold update. destruct (allowed n s r m) eqn:A; auto. pose proof (min_inv _ _ _ _ _ H A) as H1.
  destruct (lock s) eqn:El; auto. destruct ((wr s =? wip s) && (wr s <? m)) eqn:E; auto.
  apply w_inv; auto; cbn; lia.
Qed.

Definition with_pc (s : st) (f : Z -> pcs) : st :=
  mkSt (lastu s) (adv s) (wr s) (wip s) (minR s) (minS s) (lock s) (conf s) (pnd s) (res s) f (recs s) (conf0 s) (tries s) (panic s) (asrt s).
Lemma pc_ext : forall C n s f, (forall q, f q = pc s q) -> Inv C n s -> Inv C n (with_pc s f).
Proof.
  intros C n s f E H. constructor; cbn; try (apply H).
  - intros x Hx. destruct (a_in _ _ _ H x Hx). split; auto. unfold pend_ok in *. cbn. rewrite E. auto.
  - intros p. rewrite E. apply (a_busy _ _ _ H).
  - intros p. rewrite E. apply (a_lk _ _ _ H).
  - pose proof (a_w _ _ _ H) as W. destruct (lock s); auto. rewrite E. auto.
  - intros p. rewrite E. apply (a_evl _ _ _ H).
  - destruct (a_last _ _ _ H) as (L1 & L2 & L3 & L4 & L5). repeat split; auto. intros q m. rewrite E. apply L5.
  - intros q r0 Hr. destruct (a_res _ _ _ H q r0 Hr) as (B1 & B2 & B3 & B4 & B5 & B6). repeat split; auto. intros q' m. rewrite E. apply B6.
  - intros p. rewrite E. apply (a_pin _ _ _ H).
Qed.
Lemma upd2 : forall A (f : Z -> A) p a b q, upd f p b q = upd (upd f p a) p b q.
Proof. intros. unfold upd. destruct (q =? p); reflexivity. Qed.

(** The write lock is released; a waiting reservation goes back to its first check. *)
Definition after (b : bool) : pcs := if b then Idle else Chk1 true.
Definition is_bg (c : pcs) : bool := match c with EvMin _ _ b | EvWrite _ b => b | _ => true end.
Lemma unlock_inv : forall C n s p, Inv C n s -> lock s = Some p -> wr s = wip s ->
  Inv C n (set_pc (set_lock s None) p (after (is_bg (pc s p)))).
Proof.
  intros C n s p H El Ew. pose proof (proj2 (a_lk _ _ _ H p) El) as Hl.
  constructor; cbn; try (apply H); auto.
  - intros x Hx. destruct (a_in _ _ _ H x Hx) as [A B]. split; auto. unfold pend_ok in *. cbn.
    destruct (Z.eq_dec (pp x) p) as [Ep|N]; [rewrite Ep, upd_same|rewrite upd_other by auto; auto].
    rewrite Ep in B. unfold after, is_bg. destruct (pc s p); try discriminate; destruct B as [-> _]; auto.
  - intros q. destruct (Z.eq_dec q p) as [->|N]; [rewrite upd_same|rewrite upd_other by auto; apply (a_busy _ _ _ H)].
    intros X. apply (a_busy _ _ _ H). unfold after in X. destruct (pc s p) as [| | | | | | |t m b|t b| |]; try discriminate; destruct b; try discriminate; reflexivity.
  - intros q. destruct (Z.eq_dec q p) as [->|N]; [rewrite upd_same|rewrite upd_other by auto].
    + unfold after. destruct (is_bg (pc s p)); cbn; split; discriminate.
    + split; [|discriminate]. intros X. apply (a_lk _ _ _ H) in X. congruence.
  - intros q t m b. destruct (Z.eq_dec q p) as [->|N]; [rewrite upd_same|rewrite upd_other by auto; apply (a_evl _ _ _ H)].
    unfold after. destruct (is_bg (pc s p)); discriminate.
  - destruct (a_last _ _ _ H) as (A & B & D & E & F). repeat split; auto.
    intros q m. destruct (Z.eq_dec q p) as [->|N]; [rewrite upd_same|rewrite upd_other by auto; apply F].
    unfold after. destruct (is_bg (pc s p)); discriminate.
  - intros q r Hr. destruct (a_res _ _ _ H q r Hr) as (A & B & D & E & E' & F). repeat split; auto.
    intros q' m. destruct (Z.eq_dec q' p) as [->|N]; [rewrite upd_same|rewrite upd_other by auto; apply F].
    unfold after. destruct (is_bg (pc s p)); discriminate.
  - intros q. pose proof (a_pin _ _ _ H q) as Q. destruct (Z.eq_dec q p) as [->|N]; [rewrite upd_same|rewrite upd_other by auto; auto].
    destruct (pc s p); try discriminate; unfold after; destruct (is_bg _); auto.
Qed.

(** ... and the eviction returns to its caller. *)
Lemma ev_done_inv : forall C n s p, 0 <= p < Z.of_nat n -> Inv C n s -> lock s = Some p -> wr s = wip s ->
  (is_bg (pc s p) = false -> forall x, mypend s p = Some x -> pub x <= wr s + C) ->
  Inv C n (ev_done C (set_lock s None) p (is_bg (pc s p))).
Proof.
  intros C n s p Hp H El Ew Hx. pose proof (unlock_inv _ _ _ _ H El Ew) as U. unfold ev_done.
  destruct (is_bg (pc s p)) eqn:Eb; [exact U|].
  assert (Hb : busy (pc s p) = true).
  { pose proof (proj2 (a_lk _ _ _ H p) El) as Hl. destruct (pc s p); try discriminate; cbn in *; rewrite Eb; auto. }
  change (mypend (set_lock s None) p) with (mypend s p).
  destruct (mypend s p) as [x|] eqn:Ex.
  - specialize (Hx eq_refl x eq_refl). set (s1 := set_pc (set_lock s None) p (after false)) in *.
    assert (A : Inv C n (assert s1 (pub x <=? wr s + C))) by (apply assert_inv; auto; lia).
    assert (B : Inv C n (confirm (assert s1 (pub x <=? wr s + C)) p)).
    { apply (confirm_inv C n _ p x); auto; cbn; rewrite ?upd_same; auto. }
    unfold confirm in *. change (mypend (assert s1 (pub x <=? wr s + C)) p) with (mypend s p) in B.
    change (mypend (assert (set_lock s None) (pub x <=? wr (set_lock s None) + C)) p) with (mypend s p). rewrite Ex in *.
    refine (pc_ext _ _ _ _ _ B). intros q. cbn. symmetry. rewrite <- upd2. reflexivity.
  - exfalso. destruct (a_busy _ _ _ H p Hb) as (x & Hx1 & Hx2). unfold mypend in Ex. apply (find_none _ _ Ex) in Hx1. lia.
Qed.

Lemma estep_inv : forall C n s p r m, 0 < C -> 0 <= p < Z.of_nat n -> Inv C n s -> Inv C n (estep C n s p r m).
Proof.
  intros C n s p r m0 HC Hp H. unfold estep. destruct (pc s p) as [| | | | | |t m b|t m b|t b| |] eqn:E; auto.
  - destruct (lock s) as [o|] eqn:El.
    + destruct b; auto. apply pc_inv; auto. unfold lite. rewrite E. cbn. repeat split; auto; try discriminate.
      intros x Hx Ex. destruct (a_in _ _ _ H x Hx) as [_ B]. unfold pend_ok in B. rewrite Ex, E in B. destruct B; discriminate.
    + pose proof (a_evl _ _ _ H p t m b E) as Htm.
      constructor; cbn; try (apply H).
      * intros x Hx. destruct (a_in _ _ _ H x Hx) as [A B]. split; auto. unfold pend_ok in *. cbn.
        destruct (Z.eq_dec (pp x) p) as [Ep|N]; [rewrite Ep, upd_same|rewrite upd_other by auto; auto]. rewrite Ep, E in B. auto.
      * intros q. destruct (Z.eq_dec q p) as [->|N]; [rewrite upd_same|rewrite upd_other by auto; apply (a_busy _ _ _ H)].
        intros X. apply (a_busy _ _ _ H). rewrite E. exact X.
      * intros q. destruct (Z.eq_dec q p) as [->|N]; [rewrite upd_same; cbn; tauto|rewrite upd_other by auto].
        rewrite (a_lk _ _ _ H q), El. split; congruence.
      * rewrite upd_same. pose proof (a_w _ _ _ H) as W. rewrite El in W. auto.
      * intros q t' m' b'. destruct (Z.eq_dec q p) as [->|N]; [rewrite upd_same; discriminate|rewrite upd_other by auto; apply (a_evl _ _ _ H)].
      * destruct (a_last _ _ _ H) as (A & B & D & E' & F). repeat split; auto.
        intros q m'. destruct (Z.eq_dec q p) as [->|N]; [rewrite upd_same|rewrite upd_other by auto; apply F].
        intros X. apply (F p). rewrite E. exact X.
      * intros q r' Hr. destruct (a_res _ _ _ H q r' Hr) as (A & B & D & E1 & E' & F). repeat split; auto.
        intros q' m'. destruct (Z.eq_dec q' p) as [->|N]; [rewrite upd_same|rewrite upd_other by auto; apply F].
        intros X. apply (F p). rewrite E. exact X.
      * intros q. pose proof (a_pin _ _ _ H q) as Q. destruct (Z.eq_dec q p) as [->|N]; [rewrite upd_same|rewrite upd_other by auto; auto].
        rewrite E in Q. exact Q.
  - destruct (allowed n s r m0) eqn:A; auto. pose proof (min_inv _ _ _ _ _ H A) as H1.
    assert (El : lock s = Some p) by (apply (a_lk _ _ _ H); rewrite E; reflexivity).
    pose proof (a_w _ _ _ H) as W. rewrite El, E in W. destruct W as [We Htm].
    assert (PX : b = false -> forall x, mypend s p = Some x -> t = pub x - C).
    { intros _ x Hx. destruct (mypend_in _ _ _ Hx) as [Hx1 Hx2]. destruct (a_in _ _ _ H x Hx1) as [_ B]. unfold pend_ok in B. rewrite Hx2, E in B. tauto. }
    destruct ((t <=? m0) || (t <=? wr s)) eqn:Et.
    + set (s2 := if wip s <? m0 then set_w (set_min s r m0) m0 m0 else set_min s r m0).
      assert (H2 : Inv C n s2).
      { unfold s2. destruct (Z.ltb_spec (wip s) m0); auto. apply w_inv; auto; cbn; try lia. right. exists p, t, m, b. auto. }
      assert (Q : lock s2 = Some p /\ pc s2 p = EvMin t m b /\ wr s2 = wip s2 /\ mypend s2 p = mypend s p /\ (t <= wr s2)).
      { unfold s2. destruct (Z.ltb_spec (wip s) m0); cbn; repeat split; auto; lia. }
      destruct Q as (Q1 & Q2 & Q3 & Q4 & Q5).
      pose proof (ev_done_inv C n s2 p Hp H2 Q1 Q3) as R. rewrite Q2 in R. cbn in R. apply R.
      intros Eb x Hx. rewrite Q4 in Hx. specialize (PX Eb x Hx). lia.
    + set (t' := Z.min (Z.max t (wr s + C / 20)) m).
      assert (Ht' : t <= t' /\ t' <= m /\ wr s < t') by lia.
      assert (H2 : Inv C n (assert (set_min s r m0) (wip s <=? t'))) by (apply assert_inv; auto; lia).
      destruct (a_last _ _ _ H2) as (L1 & L2 & L3 & L4 & L5). cbn in L1, L2, L3, L4, L5.
      assert (Lm : m <= lastu s) by (apply (L5 p); rewrite E; reflexivity).
      constructor; cbn; try (apply H2).
      * intros x Hx. destruct (a_in _ _ _ H x Hx) as [B1 B]. split; auto. unfold pend_ok in *. cbn.
        destruct (Z.eq_dec (pp x) p) as [Ep|N]; [rewrite Ep, upd_same|rewrite upd_other by auto]; [|destruct (pc s (pp x)); auto; lia].
        rewrite Ep, E in B. destruct B as [-> B]. split; auto. lia.
      * intros q. destruct (Z.eq_dec q p) as [->|N]; [rewrite upd_same|rewrite upd_other by auto; apply (a_busy _ _ _ H)].
        intros X. apply (a_busy _ _ _ H). rewrite E. exact X.
      * intros q. destruct (Z.eq_dec q p) as [->|N]; [rewrite upd_same; cbn; tauto|rewrite upd_other by auto; apply (a_lk _ _ _ H)].
      * rewrite El, upd_same. lia.
      * intros q t1 m' b'. destruct (Z.eq_dec q p) as [->|N]; [rewrite upd_same; discriminate|rewrite upd_other by auto; apply (a_evl _ _ _ H)].
      * repeat split; auto; try lia.
        intros q m'. destruct (Z.eq_dec q p) as [->|N]; [rewrite upd_same; cbn|rewrite upd_other by auto; apply L5].
        intros X. inv X. lia.
      * intros q r' Hr. destruct (a_res _ _ _ H2 q r' Hr) as (B1 & B2 & B3 & B4 & B5 & F). cbn in B1, B2, B3, B4, B5, F.
        assert (m <= r') by (apply (F p); rewrite E; reflexivity). repeat split; auto; try lia.
        intros q' m'. destruct (Z.eq_dec q' p) as [->|N]; [rewrite upd_same; cbn|rewrite upd_other by auto; apply F].
        intros X. inv X. lia.
      * intros q. pose proof (a_pin _ _ _ H q) as Q. destruct (Z.eq_dec q p) as [->|N]; [rewrite upd_same|rewrite upd_other by auto; auto].
        rewrite E in Q. exact Q.
  - assert (El : lock s = Some p) by (apply (a_lk _ _ _ H); rewrite E; reflexivity).
    pose proof (a_w _ _ _ H) as W. rewrite El, E in W. destruct W as [We Htm].
    assert (H1 : Inv C n (assert s (wr s <=? t))) by (apply assert_inv; auto; lia).
    assert (H2 : Inv C n (set_w (assert s (wr s <=? t)) t (wip s))).
    { destruct (a_last _ _ _ H1) as (L1 & L2 & L3 & L4 & L5). cbn in L1, L2, L3, L4, L5.
      constructor; cbn; try (apply H1).
      - pose proof (a_G _ _ _ H). lia.
      - eapply pfx_mono; [| |apply (a_X _ _ _ H)]; lia.
      - rewrite El, E. lia.
      - repeat split; auto; lia.
      - intros q r0 Hr. destruct (a_res _ _ _ H q r0 Hr) as (B1 & B2 & B3 & B4 & B5 & B6). repeat split; auto; lia. }
    set (s2 := set_w (assert s (wr s <=? t)) t (wip s)) in *.
    pose proof (ev_done_inv C n s2 p Hp H2 El ltac:(cbn; lia)) as R. change (pc s2 p) with (pc s p) in R. rewrite E in R. cbn in R. apply R.
    intros Eb x Hx. change (mypend s2 p) with (mypend s p) in Hx.
    destruct (mypend_in _ _ _ Hx) as [Hx1 Hx2]. destruct (a_in _ _ _ H x Hx1) as [_ B]. unfold pend_ok in B. rewrite Hx2, E in B. cbn. lia.
Qed.

Lemma bg_inv : forall C n s p t, Inv C n s -> Inv C n (bg s p t).
Proof.
  intros C n s p t H. unfold bg. destruct (pc s p) eqn:E; auto. destruct (Z.ltb_spec t (minR s)); auto.
  apply pc_inv; auto. unfold lite. rewrite E. cbn. repeat split; auto; try discriminate.
  - intros x Hx Ex. destruct (a_in _ _ _ H x Hx) as [_ B]. unfold pend_ok in B. rewrite Ex, E in B. contradiction.
  - intros t0 m b X. inv X. lia.
  - inv H1. apply (a_last _ _ _ H).
  - inv H1. intros q r Hr. apply (a_res _ _ _ H q r Hr).
Qed.

Lemma no_pend : forall C n s p, Inv C n s -> busy (pc s p) = false -> forall x, In x (pnd s) -> pp x <> p.
Proof.
  intros C n s p H Hb x Hx Ex. destruct (a_in _ _ _ H x Hx) as [_ B]. unfold pend_ok in B. rewrite Ex in B.
  destruct (pc s p); try discriminate; try contradiction; cbn in Hb; destruct B as [-> _]; discriminate.
Qed.

(** Facts about other processes survive when [p], not holding the lock and with no
    unchecked reservation, moves to a place without them. *)
Lemma pin_inv : forall C n s p z, 0 <= p < Z.of_nat n -> Inv C n s -> Inv C n (pin C s p z).
Proof.
  intros C n s p z Hp H. unfold pin. destruct (pc s p) eqn:E; auto. destruct ((0 <? z) && (z <? C)) eqn:Ez; auto.
  pose proof (no_pend _ _ _ p H ltac:(rewrite E; reflexivity)) as NP.
  destruct (a_last _ _ _ H) as (L1 & L2 & L3 & L4 & L5).
  constructor; cbn; try (apply H).
  - intros x Hx. destruct (a_in _ _ _ H x Hx) as [A B]. split; auto. unfold pend_ok in *. cbn. rewrite upd_other by (apply NP; auto). auto.
  - intros q. destruct (Z.eq_dec q p) as [->|N]; [rewrite upd_same; discriminate|rewrite upd_other by auto; apply (a_busy _ _ _ H)].
  - intros q. rewrite <- (a_lk _ _ _ H q). destruct (Z.eq_dec q p) as [->|N]; [rewrite upd_same, E; cbn; tauto|rewrite upd_other by auto; tauto].
  - pose proof (a_w _ _ _ H) as W. destruct (lock s) as [q|] eqn:El; auto. rewrite upd_other; auto.
    intros ->. apply (a_lk _ _ _ H) in El. rewrite E in El. discriminate.
  - intros q t' m' b'. destruct (Z.eq_dec q p) as [->|N]; [rewrite upd_same; discriminate|rewrite upd_other by auto; apply (a_evl _ _ _ H)].
  - repeat split; auto. intros q m'. destruct (Z.eq_dec q p) as [->|N]; [rewrite upd_same; discriminate|rewrite upd_other by auto; apply L5].
  - assert (M : forall q' m', mval (upd (pc s) p (Pinned z) q') = Some m' -> mval (pc s q') = Some m').
    { intros q' m'. destruct (Z.eq_dec q' p) as [->|N]; [rewrite upd_same; discriminate|rewrite upd_other by auto; auto]. }
    intros q r. destruct (Z.eq_dec q p) as [->|N]; [rewrite upd_same|rewrite upd_other by auto].
    + intros X. inv X. repeat split; auto; try lia. intros q' m' X. apply (L5 q'). auto.
    + intros Hr. destruct (a_res _ _ _ H q r Hr) as (B1 & B2 & B3 & B4 & B5 & B6). repeat split; auto.
      intros q' m' X. apply (B6 q'). auto.
  - intros q. pose proof (a_pin _ _ _ H q) as Q. destruct (Z.eq_dec q p) as [->|N]; [rewrite !upd_same|rewrite !upd_other by auto; auto].
    split; [lia|]. exists (lastu s). repeat split; auto. lia.
  - intros q r. destruct (Z.eq_dec q p) as [->|N]; [auto|rewrite upd_other by auto; apply (a_rng _ _ _ H)].
Qed.

Lemma wrap_k : forall C l z, 0 < z < C -> ((l + z) mod C >? l mod C) = false -> exists k, l < k * C <= l + z.
Proof.
  intros C l z Hz E. exists (l / C + 1).
  pose proof (Z.div_mod l C ltac:(lia)). pose proof (Z.mod_pos_bound l C ltac:(lia)).
  assert (C <= l mod C + z).
  { destruct (Z_lt_le_dec (l mod C + z) C) as [X|X]; auto. exfalso.
    assert ((l + z) mod C = l mod C + z) by (symmetry; apply (Z.mod_unique _ _ (l / C)); lia). lia. }
  nia.
Qed.
Lemma nowrap_k : forall C k l z, 0 < C -> 0 < z -> k * C <= l -> l + z < (k + 1) * C -> ((l + z) mod C >? l mod C) = true.
Proof.
  intros C k l z HC Hz A B.
  assert (l mod C = l - k * C) by (symmetry; apply (Z.mod_unique _ _ k); lia).
  assert ((l + z) mod C = l + z - k * C) by (symmetry; apply (Z.mod_unique _ _ k); lia). lia.
Qed.
Lemma nowrap_fit : forall C l z, 0 < C -> 0 < z < C -> ((l + z) mod C >? l mod C) = true -> l mod C + z <= C.
Proof.
  intros C l z HC Hz E. pose proof (Z.mod_pos_bound l C HC).
  destruct (Z_lt_le_dec C (l mod C + z)) as [X|X]; auto. exfalso.
  assert ((l + z) mod C = l mod C + z - C).
  { pose proof (Z.div_mod l C ltac:(lia)). symmetry. apply (Z.mod_unique _ _ (l / C + 1)); lia. }
  lia.
Qed.

Lemma alloc_inv : forall C n s p, 0 < C -> 0 <= p < Z.of_nat n -> Inv C n s -> Inv C n (alloc C s p).
Proof.
  intros C n s p HC Hp H. unfold alloc. destruct (pc s p) eqn:E; auto.
  pose proof (no_pend _ _ _ p H ltac:(rewrite E; reflexivity)) as NP.
  pose proof (a_pin _ _ _ H p) as P. rewrite E in P. destruct P as (Hz & r & Er & Ec & Et).
  destruct (a_last _ _ _ H) as (L1 & L2 & L3 & L4 & L5).
  destruct (a_res _ _ _ H p r Er) as (R1 & R2 & R3 & R4 & R5 & R6).
  assert (Wl : lock s <> Some p) by (intros X; apply (a_lk _ _ _ H) in X; rewrite E in X; discriminate).
  destruct (Z.ltb_spec (conf s p) z) as [Hlt|Hge].
  - assert (M : forall q' m', mval (upd (pc s) p Idle q') = Some m' -> mval (pc s q') = Some m').
    { intros q' m'. destruct (Z.eq_dec q' p) as [->|N]; [rewrite upd_same; discriminate|rewrite upd_other by auto; auto]. }
    constructor; cbn; try (apply H).
    + intros x Hx. destruct (a_in _ _ _ H x Hx) as [A B]. split; auto. unfold pend_ok in *. cbn. rewrite upd_other by (apply NP; auto). auto.
    + intros q. destruct (Z.eq_dec q p) as [->|N]; [rewrite upd_same; discriminate|rewrite upd_other by auto; apply (a_busy _ _ _ H)].
    + intros q. rewrite <- (a_lk _ _ _ H q). destruct (Z.eq_dec q p) as [->|N]; [rewrite upd_same, E; cbn; tauto|rewrite upd_other by auto; tauto].
    + pose proof (a_w _ _ _ H) as W. destruct (lock s) as [q|] eqn:El; auto. rewrite upd_other by congruence. auto.
    + intros q t' m' b'. destruct (Z.eq_dec q p) as [->|N]; [rewrite upd_same; discriminate|rewrite upd_other by auto; apply (a_evl _ _ _ H)].
    + repeat split; auto. intros q m' X. apply (L5 q). auto.
    + intros q r0. destruct (Z.eq_dec q p) as [->|N]; [rewrite upd_same; discriminate|rewrite upd_other by auto].
      intros Hr. destruct (a_res _ _ _ H q r0 Hr) as (B1 & B2 & B3 & B4 & B5 & B6). repeat split; auto. intros q' m' X. apply (B6 q'). auto.
    + intros q. pose proof (a_pin _ _ _ H q) as Q. destruct (Z.eq_dec q p) as [->|N]; [rewrite !upd_same; auto|rewrite !upd_other by auto; auto].
    + intros q r0. destruct (Z.eq_dec q p) as [->|N]; [rewrite upd_same; discriminate|rewrite upd_other by auto; apply (a_rng _ _ _ H)].
    + intros c z0 [X|X]; [inv X|apply (a_pan _ _ _ H); auto]. change (conf0 s p < 2 * z0). destruct Et as [Et|[Et _]]; rewrite Et in Ec; lia.
  - set (l := lastu s) in *.
    assert (CS : csum (upd (conf s) p (conf s p - z)) n = csum (conf s) n - z) by (rewrite csum_upd by auto; lia).
    pose proof (a_G _ _ _ H) as G. fold l in G. pose proof (csum_ge (conf s) n p (a_conf _ _ _ H) Hp) as Cg.
    set (s1 := set_conf (set_last s (l + z)) p (conf s p - z)).
    assert (H1 : forall c k, k = tries s p + 1 -> (k = 1 -> exists k', r < k' * C <= l + z) -> k = 1 -> c = conf0 s p -> Inv C n (set_try s1 p c k)).
    { intros c k Hk Hk1 Hk2 ->. subst s1. constructor; cbn; rewrite ?CS; try (apply H).
      - rewrite (a_adv _ _ _ H). fold l. lia.
      - intros q. destruct (Z.eq_dec q p) as [->|N]; [rewrite upd_same; lia|rewrite upd_other by auto; apply (a_conf _ _ _ H)].
      - lia.
      - replace (l + z + (csum (conf s) n - z)) with (l + csum (conf s) n) by lia. apply (a_X _ _ _ H).
      - repeat split; try lia. intros q m X. specialize (L5 q m X). lia.
      - intros q r0 Hr. destruct (a_res _ _ _ H q r0 Hr) as (B1 & B2 & B3 & B4 & B5 & B6). fold l in B1. repeat split; auto; lia.
      - intros q. pose proof (a_pin _ _ _ H q) as Q. destruct (Z.eq_dec q p) as [->|N].
        + rewrite E, !upd_same. split; [lia|]. exists r. split; [auto|]. split; [|right; auto]. assert (tries s p = 0) by lia. nia.
        + rewrite !upd_other by auto. destruct (pc s q); auto. destruct Q as (Q1 & r0 & Q2 & Q3 & Q4). split; auto. exists r0. split; auto. split; auto.
          destruct Q4 as [Q4|(Q4 & k' & Q5)]; auto. right. split; auto. exists k'. fold l in Q5. lia.
      - intros l0 z0 X. destruct (a_rec _ _ _ H l0 z0 X) as (X1 & X2 & X3). fold l in X2. repeat split; auto. lia. }
    destruct ((l + z) mod C >? l mod C) eqn:Ew.
    + clear H1. subst s1.
      assert (M : forall q' m', mval (upd (pc s) p (Filling l z) q') = Some m' -> mval (pc s q') = Some m').
      { intros q' m'. destruct (Z.eq_dec q' p) as [->|N]; [rewrite upd_same; discriminate|rewrite upd_other by auto; auto]. }
      constructor; cbn; rewrite ?CS; try (apply H).
      * rewrite (a_adv _ _ _ H). fold l. lia.
      * intros q. destruct (Z.eq_dec q p) as [->|N]; [rewrite upd_same; lia|rewrite upd_other by auto; apply (a_conf _ _ _ H)].
      * intros x Hx. destruct (a_in _ _ _ H x Hx) as [A B]. split; auto. unfold pend_ok in *. cbn. rewrite upd_other by (apply NP; auto). auto.
      * intros q. destruct (Z.eq_dec q p) as [->|N]; [rewrite upd_same; discriminate|rewrite upd_other by auto; apply (a_busy _ _ _ H)].
      * lia.
      * replace (l + z + (csum (conf s) n - z)) with (l + csum (conf s) n) by lia. apply (a_X _ _ _ H).
      * intros q. rewrite <- (a_lk _ _ _ H q). destruct (Z.eq_dec q p) as [->|N]; [rewrite upd_same, E; cbn; tauto|rewrite upd_other by auto; tauto].
      * pose proof (a_w _ _ _ H) as W. destruct (lock s) as [q|] eqn:El; auto. rewrite upd_other by congruence. auto.
      * intros q t' m' b'. destruct (Z.eq_dec q p) as [->|N]; [rewrite upd_same; discriminate|rewrite upd_other by auto; apply (a_evl _ _ _ H)].
      * repeat split; try lia. intros q m' X. specialize (L5 q m' (M _ _ X)). lia.
      * intros q r0 Hr. destruct (a_res _ _ _ H q r0 Hr) as (B1 & B2 & B3 & B4 & B5 & B6). fold l in B1. repeat split; auto; try lia.
        intros q' m' X. apply (B6 q'). auto.
      * intros q. pose proof (a_pin _ _ _ H q) as Q. destruct (Z.eq_dec q p) as [->|N].
        -- rewrite upd_same. congruence.
        -- rewrite !upd_other by auto. destruct (pc s q); auto. destruct Q as (Q1 & r0 & Q2 & Q3 & Q4). split; auto. exists r0. split; auto. split; auto.
           destruct Q4 as [Q4|(Q4 & k' & Q5)]; auto. right. split; auto. exists k'. fold l in Q5. lia.
      * intros l0 z0 [X|X].
        -- inv X. repeat split; try lia. apply nowrap_fit; auto. 
        -- destruct (a_rec _ _ _ H l0 z0 X) as (X1 & X2 & X3). fold l in X2. repeat split; auto. lia.
      * intros i j a b Hij Ha Hb.
        assert (O : forall k c, nth_error (recs s) k = Some c -> fst c + snd c <= l).
        { intros k [c1 c2] Hk. apply nth_error_In in Hk. apply (a_rec _ _ _ H) in Hk. cbn. fold l in Hk. lia. }
        destruct i, j; cbn in Ha, Hb; try congruence.
        -- inv Ha. right. cbn. eapply O; eauto.
        -- inv Hb. left. cbn. eapply O; eauto.
        -- eapply (a_dis _ _ _ H i j); eauto.
    + destruct (wrap_k C l z Hz Ew) as (k & Hk).
      destruct Et as [Et|(Et & k' & Hk')].
      * apply H1; auto; try lia. intros _. exists k. lia.
      * exfalso. assert (((l + z) mod C >? l mod C) = true); [|congruence].
        apply (nowrap_k C k'); try lia.
Qed.

Lemma unpin_inv : forall C n s p, Inv C n s -> Inv C n (unpin s p).
Proof.
  intros C n s p H. unfold unpin. destruct (pc s p) eqn:E; auto.
  pose proof (no_pend _ _ _ p H ltac:(rewrite E; reflexivity)) as NP.
  destruct (a_last _ _ _ H) as (L1 & L2 & L3 & L4 & L5).
  assert (M : forall q' m', mval (upd (pc s) p Idle q') = Some m' -> mval (pc s q') = Some m').
  { intros q' m'. destruct (Z.eq_dec q' p) as [->|N]; [rewrite upd_same; discriminate|rewrite upd_other by auto; auto]. }
  assert (Wl : lock s <> Some p) by (intros X; apply (a_lk _ _ _ H) in X; rewrite E in X; discriminate).
  constructor; cbn; try (apply H).
  - intros x Hx. destruct (a_in _ _ _ H x Hx) as [A B]. split; auto. unfold pend_ok in *. cbn. rewrite upd_other by (apply NP; auto). auto.
  - intros q. destruct (Z.eq_dec q p) as [->|N]; [rewrite upd_same; discriminate|rewrite upd_other by auto; apply (a_busy _ _ _ H)].
  - intros q. rewrite <- (a_lk _ _ _ H q). destruct (Z.eq_dec q p) as [->|N]; [rewrite upd_same, E; cbn; tauto|rewrite upd_other by auto; tauto].
  - pose proof (a_w _ _ _ H) as W. destruct (lock s) as [q|] eqn:El; auto. rewrite upd_other by congruence. auto.
  - intros q t' m' b'. destruct (Z.eq_dec q p) as [->|N]; [rewrite upd_same; discriminate|rewrite upd_other by auto; apply (a_evl _ _ _ H)].
  - repeat split; auto. intros q m' X. apply (L5 q). auto.
  - intros q r0. destruct (Z.eq_dec q p) as [->|N]; [rewrite upd_same; discriminate|rewrite upd_other by auto].
    intros Hr. destruct (a_res _ _ _ H q r0 Hr) as (B1 & B2 & B3 & B4 & B5 & B6). repeat split; auto. intros q' m' X. apply (B6 q'). auto.
  - intros q. pose proof (a_pin _ _ _ H q) as Q. destruct (Z.eq_dec q p) as [->|N]; [rewrite !upd_same; auto|rewrite !upd_other by auto; auto].
  - intros q r0. destruct (Z.eq_dec q p) as [->|N]; [rewrite upd_same; discriminate|rewrite upd_other by auto; apply (a_rng _ _ _ H)].
Qed.

(** Checked reservations shrink or change hands. *)
Lemma conf_inv : forall C n s f a, Inv C n s -> (forall q, 0 <= f q) -> csum f n <= csum (conf s) n ->
  a = lastu s + csum f n + psum (pnd s) -> (forall q, f q = conf s q \/ pc s q = Idle) ->
  Inv C n (mkSt (lastu s) a (wr s) (wip s) (minR s) (minS s) (lock s) f (pnd s) (res s) (pc s) (recs s) (conf0 s) (tries s) (panic s) (asrt s)).
Proof.
  intros C n s f a H Hf Hs Ha Hq. constructor; cbn; try (apply H); auto.
  - pose proof (a_G _ _ _ H). lia.
  - eapply pfx_mono; [| |apply (a_X _ _ _ H)]; lia.
  - intros p. pose proof (a_pin _ _ _ H p) as Q. destruct (Hq p) as [->|E]; [exact Q|rewrite E in *; exact Q].
Qed.

Lemma release_inv : forall C n s p, 0 <= p < Z.of_nat n -> Inv C n s -> Inv C n (release s p).
Proof.
  intros C n s p Hp H. unfold release. destruct (pc s p) eqn:E; auto.
  assert (CS : csum (upd (conf s) p 0) n = csum (conf s) n - conf s p) by (rewrite csum_upd by auto; lia).
  pose proof (a_conf _ _ _ H) as P. apply (conf_inv C n s (upd (conf s) p 0) (adv s - conf s p)); auto.
  - intros q. destruct (Z.eq_dec q p) as [->|N]; [rewrite upd_same; lia|rewrite upd_other by auto; auto].
  - rewrite CS. specialize (P p). lia.
  - rewrite CS, (a_adv _ _ _ H). lia.
  - intros q. destruct (Z.eq_dec q p) as [->|N]; [auto|rewrite upd_other by auto; auto].
Qed.

Lemma steal_inv : forall C n s p q, 0 <= p < Z.of_nat n -> 0 <= q < Z.of_nat n -> Inv C n s -> Inv C n (steal s p q).
Proof.
  intros C n s p q Hp Hq H. unfold steal. destruct (pc s p) eqn:E; auto. destruct (pc s q) eqn:E2; auto.
  destruct (Z.eqb_spec p q) as [Epq|Hne]; auto.
  set (f := upd (upd (conf s) p (conf s p + conf s q)) q 0).
  assert (CS : csum f n = csum (conf s) n).
  { unfold f. rewrite csum_upd by auto. rewrite csum_upd by auto. rewrite upd_other by auto. lia. }
  pose proof (a_conf _ _ _ H) as P. apply (conf_inv C n s f (adv s)); auto.
  - intros x. unfold f. destruct (Z.eq_dec x q) as [->|N]; [rewrite upd_same; lia|rewrite upd_other by auto].
    destruct (Z.eq_dec x p) as [->|N']; [rewrite upd_same|rewrite upd_other by auto; auto]. pose proof (P p). pose proof (P q). lia.
  - lia.
  - rewrite CS. apply (a_adv _ _ _ H).
  - intros x. unfold f. destruct (Z.eq_dec x q) as [->|N]; [auto|rewrite upd_other by auto].
    destruct (Z.eq_dec x p) as [->|N']; [auto|rewrite upd_other by auto; auto].
Qed.

Lemma step_inv : forall C n s o, 0 < C -> Inv C n s -> Inv C n (step C n s o).
Proof.
  intros C n s o HC H. assert (R : forall p, inr n p = true -> 0 <= p < Z.of_nat n) by (unfold inr; intros; lia).
  destruct o as [p z w|p|r m|p r m|p t|p z|p|p|p|p q]; cbn.
  - destruct (inr n p && (0 <=? z)) eqn:E; auto. apply reserve_inv; auto. apply R. lia.
  - destruct (inr n p) eqn:E; auto. apply rstep_inv; auto.
  - apply update_inv; auto.
  - destruct (inr n p) eqn:E; auto. apply estep_inv; auto.
  - destruct (inr n p) eqn:E; auto. apply bg_inv; auto.
  - destruct (inr n p) eqn:E; auto. apply pin_inv; auto.
  - destruct (inr n p) eqn:E; auto. apply alloc_inv; auto.
  - destruct (inr n p) eqn:E; auto. apply unpin_inv; auto.
  - destruct (inr n p) eqn:E; auto. apply release_inv; auto.
  - destruct (inr n p) eqn:E; auto. destruct (inr n q) eqn:E2; auto. apply steal_inv; auto.
Qed.

Lemma reach_ok : forall C n l ops, 0 < C -> Inv C n (run (step C n) (init l) ops).
Proof.
  intros C n l ops HC. apply (run_inv _ _ (step C n) (Inv C n)).
  - intros s o. apply step_inv; auto.
  - apply init_inv; auto.
Qed.
