(** Invariants of the undo stores. *)
From Coq Require Import ZArith List Bool Lia.
From Coq Require Import ZifyBool ZifyNat.
From Verif Require Import Base UndoReadModel UndoReadSpec.
Import ListNotations.
Open Scope Z_scope.

Lemma win_inj : forall n a u v, 0 < n -> a <= u < a + n -> a <= v < a + n -> u mod n = v mod n -> u = v.
Proof.
  intros n a u v Hn Hu Hv E.
  pose proof (Z.div_mod u n ltac:(lia)). pose proof (Z.div_mod v n ltac:(lia)).
  rewrite E in H.
  assert (u / n = v / n) by nia. nia.
Qed.

Section Proofs.
Variables (PS NP n : Z).
Hypothesis HS : 0 < PS.
Hypothesis HN : 0 < NP.

Notation step := (step PS NP n).
Notation slot := (slot PS NP).
Notation rp := (rp PS NP).
Notation C := (C PS NP).

Lemma C_pos : 0 < C.
Proof. unfold UndoReadModel.C. nia. Qed.

Lemma rp_eq : forall x, rp x = (x / PS) mod NP.
Proof.
  intros x. unfold UndoReadModel.rp, UndoReadModel.C.
  rewrite (Z.mul_comm NP PS), Z.rem_mul_r by lia.
  rewrite Z.add_comm, (Z.mul_comm PS), Z.div_add_l by lia.
  rewrite (Z.div_small (x mod PS)) by (apply Z.mod_pos_bound; lia). lia.
Qed.

Lemma slot_inj : forall w x y, w <= x < w + C -> w <= y < w + C -> slot x = slot y -> x = y.
Proof. intros. eapply (win_inj C w); eauto using C_pos. Qed.

Lemma down_eq : forall x, down PS x = PS * (x / PS).
Proof. intros. unfold down. pose proof (Z.div_mod x PS ltac:(lia)). lia. Qed.

Lemma div_bounds : forall x, PS * (x / PS) <= x < PS * (x / PS) + PS.
Proof. intros. pose proof (Z.div_mod x PS ltac:(lia)). pose proof (Z.mod_pos_bound x PS HS). lia. Qed.

Lemma mult_div : forall p, p mod PS = 0 -> p = PS * (p / PS).
Proof. intros. pose proof (Z.div_mod p PS ltac:(lia)). lia. Qed.

Lemma page_range : forall p x, p mod PS = 0 -> (x / PS = p / PS <-> p <= x < p + PS).
Proof.
  intros p x H. pose proof (mult_div p H). pose proof (div_bounds x). split; intros; nia.
Qed.

Lemma page_div : forall q x, q * PS <= x < q * PS + PS -> x / PS = q.
Proof. intros q x H. pose proof (div_bounds x). nia. Qed.

(** Two locations on one ring page are on one page or at least a ring minus a page apart. *)
Lemma rp_far : forall x y, rp x = rp y -> x / PS = y / PS \/ PS * (x / PS) + C <= PS * (y / PS) \/ PS * (y / PS) + C <= PS * (x / PS).
Proof.
  intros x y E. rewrite !rp_eq in E. unfold UndoReadModel.C.
  destruct (Z.lt_trichotomy (x / PS) (y / PS)) as [L|[L|L]]; auto.
  - right. left. assert (x / PS + NP <= y / PS); [|nia].
    destruct (Z_lt_le_dec (y / PS) (x / PS + NP)) as [W|W]; auto.
    assert (x / PS = y / PS); [|lia]. apply (win_inj NP (x / PS)); auto; lia.
  - right. right. assert (y / PS + NP <= x / PS); [|nia].
    destruct (Z_lt_le_dec (x / PS) (y / PS + NP)) as [W|W]; auto.
    assert (x / PS = y / PS); [|lia]. apply (win_inj NP (y / PS)); auto; lia.
Qed.

Lemma mark_mono : forall f a b r, f r = true -> mark PS NP f a b r = true.
Proof. intros. unfold mark. destruct existsb; auto. Qed.
Lemma mark_true : forall f a b x, a <= x < b -> mark PS NP f a b (rp x) = true.
Proof.
  intros f a b x Hx. unfold mark.
  replace (existsb _ _) with true; auto. symmetry. apply existsb_exists.
  exists (Z.to_nat (x / PS - a / PS)). pose proof (Z.div_le_mono a x PS HS ltac:(lia)).
  pose proof (div_bounds x). pose proof (div_bounds a). rewrite down_eq.
  assert (x / PS <= (b + PS - 1) / PS - 1).
  { pose proof (div_bounds (b + PS - 1)). nia. }
  split.
  - apply in_seq. split; [lia|]. cbn.
    unfold up. rewrite (Z.mul_comm ((b + PS - 1) / PS)), <- Z.mul_sub_distr_l, (Z.mul_comm PS), Z.div_mul by lia. lia.
  - apply Z.eqb_eq. rewrite !rp_eq. rewrite Z2Nat.id by lia.
    replace (PS * (a / PS) + (x / PS - a / PS) * PS) with ((x / PS) * PS) by ring. rewrite Z.div_mul by lia. auto.
Qed.

(** Vocabulary. *)
Definition dr (s : st) : Z := match lk s with LPage _ c => c | _ => wr s end.
Definition memw (c : wpc) : option Z := match c with WMem _ _ _ _ m _ | WMark _ _ _ _ m => Some m | _ => None end.
Definition act (c : wpc) : option Z := match c with WChk _ _ _ _ m | WMem _ _ _ _ m _ | WMark _ _ _ _ m => Some m | _ => None end.
Definition gap (s : st) (x : Z) : Prop := exists p, match ws s p with
  WMem l z b me m k => m <= x < k | WMark l z b me m => m <= x < l + z | _ => False end.
Definition cok (s : st) (x : Z) : Prop := match cache s (x / PS) with Some (d, _) => d x = val s x | None => True end.

Definition wok (s : st) (p : Z) (c : wpc) : Prop :=
  match c with
  | WIdle => True
  | WRead l z b me => 0 <= p < n /\ 0 < z /\ l + z <= lastu s /\ (me = true -> G s <= l)
  | WEven l z b me m | WChk l z b me m | WFree l z b me m =>
      0 <= p < n /\ 0 < z /\ l + z <= lastu s /\ (me = true -> G s <= l) /\ l <= m < l + z /\ (m = l \/ m <= wip s)
  | WMem l z b me m k =>
      0 <= p < n /\ 0 < z /\ l + z <= lastu s /\ (me = true -> G s <= l) /\ l <= m < l + z /\ (m = l \/ m <= wip s) /\
      m <= k <= l + z /\ (m < wr s -> wr s <= G s)
  | WMark l z b me m =>
      0 <= p < n /\ 0 < z /\ l + z <= lastu s /\ (me = true -> G s <= l) /\ l <= m < l + z /\ (m = l \/ m <= wip s) /\
      (m < wr s -> wr s <= G s)
  | WLow l z b me m => 0 <= p < n /\ 0 < z /\ l + z <= lastu s /\ (me = true -> G s <= l) /\ l <= m <= wip s
  | WWr l z b me m c => 0 <= p < n /\ 0 < z /\ l + z <= lastu s /\ (me = true -> G s <= l) /\ l <= c <= m /\ m <= wr s
  end.

Definition locok (s : st) (pos k : Z) (loc : Z -> Z) : Prop :=
  forall x, pos <= x < pos + PS -> ini s x = true ->
    (G s <= x < wr s -> loc x = val s x) /\
    (wr s <= x < pos + k -> loc x = val s x \/ bit s (rp x) = true \/ gap s x).
Definition flok (s : st) : Prop :=
  match fl s with
  | FIdle => True
  | FLoop pos hi mr => pos mod PS = 0 /\ mr <= lastu s /\ forall r, In r (opn s) -> mr <= fst (fst r)
  | FCopy pos hi mr k loc => lk s = LFlush /\ pos mod PS = 0 /\ mr <= lastu s /\ (forall r, In r (opn s) -> mr <= fst (fst r)) /\ 0 <= k <= PS /\ locok s pos k loc
  | FW1 pos hi mr loc => lk s = LFlush /\ pos mod PS = 0 /\ mr <= lastu s /\ (forall r, In r (opn s) -> mr <= fst (fst r)) /\ locok s pos PS loc
  | FW2 pos hi mr loc => lk s = LFlush /\ pos mod PS = 0 /\ mr <= lastu s /\ (forall r, In r (opn s) -> mr <= fst (fst r)) /\ locok s pos PS loc /\
      match cache s (pos / PS) with Some (d, _) => forall x, pos <= x < pos + PS -> d x = loc x | None => True end
  end.

Definition rok (s : st) (p : Z) (c : rpc) : Prop :=
  let rng l z := 0 < z /\ forall x, l <= x < l + z -> ini s x = true in
  match c with
  | RIdle => True
  | RW1 l z => rng l z
  | RRing l z w1 c acc => rng l z /\ w1 <= wr s /\ Z.max w1 l <= c <= Z.max (l + z) (Z.max w1 l) /\
      forall x, Z.max w1 l <= x < c -> wr s <= x -> In (acc x) (cand s p x)
  | RW2 l z w1 acc => rng l z /\ w1 <= wr s /\ forall x, Z.max w1 l <= x < l + z -> wr s <= x -> In (acc x) (cand s p x)
  | RBuf l z c e acc => rng l z /\ e <= wr s /\ e <= l + z /\ l <= c /\
      forall x, l <= x < l + z -> x < c \/ e <= x -> G s <= l -> In (acc x) (cand s p x)
  | RChk l z acc => rng l z /\ forall x, l <= x < l + z -> G s <= l -> In (acc x) (cand s p x)
  end.

Record Inv (s : st) : Prop := {
  i_w : wr s <= wip s /\ wip s <= lastu s /\ lastu s <= wr s + C /\ G s <= lastu s;
  i_lk : match lk s with
         | LFree | LFlush => wip s = wr s
         | LScan t m i mr => wip s = wr s /\ t <= m /\ m <= lastu s /\ (forall r, In r (opn s) -> m <= fst (fst r)) /\
             0 <= i /\ forall p m', 0 <= p < i -> act (ws s p) = Some m' -> mr <= m'
         | LWait t c i => wip s = t /\ wr s <= c <= t /\ (forall x, wr s <= x < c -> x < G s) /\
             0 <= i /\ forall p m', 0 <= p < i -> memw (ws s p) = Some m' -> t <= m'
         | LPage t c => wip s = t /\ wr s <= c <= t /\ forall p m', memw (ws s p) = Some m' -> t <= m'
         end;
  i_open : forall r, In r (opn s) -> wip s <= fst (fst r) /\ G s <= fst (fst r) /\ fst (fst r) + snd (fst r) <= lastu s /\
             (snd r = true -> forall x, fst (fst r) <= x < fst (fst r) + snd (fst r) -> bit s (rp x) = true);
  i_ini : forall x, ini s x = true -> x < lastu s;
  i_ws : forall p, wok s p (ws s p);
  i_V1 : forall x, wr s <= x -> ini s x = true -> ring s (slot x) = val s x;
  i_V2 : forall x, G s <= x < dr s -> ini s x = true ->
           match cache s (x / PS) with Some (d, _) => d x = val s x | None => mid2 PS s (x / PS) = true \/ file s x = val s x end;
  i_V3 : forall x d, G s <= x < dr s -> ini s x = true -> cache s (x / PS) = Some (d, false) ->
           mid2 PS s (x / PS) = true \/ file s x = val s x;
  i_V4 : forall x, dr s <= x -> ini s x = true -> bit s (rp x) = false ->
           (file s x = val s x /\ cok s x) \/ gap s x \/ mid PS s (x / PS) = true;
  i_fl : flok s;
  i_rd : forall p, rok s p (rd s p);
  i_cand : forall p x, rd s p <> RIdle -> In (val s x) (cand s p x);
  i_out : forall r, In r (out s) -> read_ok r;
}.

Lemma init_inv : forall l, Inv (init l).
Proof.
  intros l. pose proof C_pos. constructor; cbn; unfold flok, dr; cbn; try lia; try tauto; try (intros; discriminate); try (intros ? []; fail).
  all: try (intros; exfalso; lia).
Qed.

Lemma hit_haz : forall s b h, haz (hit s b h) = [] -> b = false /\ haz s = [].
Proof. intros s [] h E; cbn in E; [discriminate|auto]. Qed.
Lemma hit_inv : forall s b h, Inv s -> Inv (hit s b h).
Proof. intros s b h H. destruct b; cbn; auto. destruct H. constructor; cbn; auto. Qed.

Lemma dr_ge : forall s, Inv s -> wr s <= dr s <= wip s.
Proof. intros s H. pose proof (i_lk s H). pose proof (i_w s H). unfold dr. destruct (lk s); lia. Qed.

(** Setters. *)
Definition gapat (c : wpc) (x : Z) : Prop :=
  match c with WMem l z b me m k => m <= x < k | WMark l z b me m => m <= x < l + z | _ => False end.
Lemma gap_ws : forall s p c x, (gapat (ws s p) x -> gapat c x \/ bit s (rp x) = true) -> bit s (rp x) = false -> gap s x -> gap (set_ws s p c) x.
Proof.
  intros s p c x Hg Hb (q & Hq). destruct (Z.eq_dec q p) as [->|N].
  - exists p. cbn. rewrite upd_same. destruct (Hg Hq) as [Y|Y]; [exact Y|congruence].
  - exists q. cbn. rewrite upd_other by auto. exact Hq.
Qed.

Lemma ws_inv : forall s p c, Inv s -> wok s p c ->
  (forall m, act c = Some m -> act (ws s p) = Some m \/ match lk s with LScan _ _ _ _ => False | _ => True end) ->
  (forall m, memw c = Some m -> memw (ws s p) = Some m \/ wip s <= m) ->
  (forall x, gapat (ws s p) x -> gapat c x \/ bit s (rp x) = true) ->
  Inv (set_ws s p c).
Proof.
  intros s p c H Hc Ha Hm Hg. constructor; cbn; try (apply H).
  - pose proof (i_lk s H) as L. destruct (lk s); auto.
    + destruct L as (A & B & D & E & F & L). repeat split; auto. intros q m' Hq.
      destruct (Z.eq_dec q p) as [->|N]; [rewrite upd_same|rewrite upd_other by auto; eauto].
      intros X. destruct (Ha _ X) as [Y|[]]. eauto.
    + destruct L as (A & B & D & E & L). repeat split; auto; try tauto. intros q m' Hq.
      destruct (Z.eq_dec q p) as [->|N]; [rewrite upd_same|rewrite upd_other by auto; eauto].
      intros X. destruct (Hm _ X) as [Y|Y]; eauto. lia.
    + destruct L as (A & B & L). repeat split; auto; try tauto. intros q m'.
      destruct (Z.eq_dec q p) as [->|N]; [rewrite upd_same|rewrite upd_other by auto; eauto].
      intros X. destruct (Hm _ X) as [Y|Y]; eauto. lia.
  - intros q. destruct (Z.eq_dec q p) as [->|N]; [rewrite upd_same|rewrite upd_other by auto; apply (i_ws s H)]. exact Hc.
  - intros x Hx Hi Hb. destruct (i_V4 s H x Hx Hi Hb) as [V|[V|V]]; auto. right. left. apply gap_ws; auto.
  - pose proof (i_fl s H) as F. unfold flok in *. cbn. destruct (fl s) as [|pos hi mr|pos hi mr k loc|pos hi mr loc|pos hi mr loc]; auto.
    all: assert (LL : forall k', locok s pos k' loc -> locok (set_ws s p c) pos k' loc);
      [intros k' L x Hx Hi; destruct (L x Hx Hi) as [L1 L2]; split; [exact L1|]; cbn; intros Hw;
       destruct (L2 Hw) as [Q|[Q|Q]]; auto; destruct (bit s (rp x)) eqn:Eb; auto; right; right; apply gap_ws; auto|].
    + destruct F as (A & B & D & E & E2 & F). exact (conj A (conj B (conj D (conj E (conj E2 (LL _ F)))))).
    + destruct F as (A & B & D & E & F). exact (conj A (conj B (conj D (conj E (LL _ F))))).
    + destruct F as (A & B & D & E & F & F2). exact (conj A (conj B (conj D (conj E (conj (LL _ F) F2))))).
Qed.

Lemma store_inv : forall s k d, Inv s ->
  (dr s <= k < lastu s /\ (bit s (rp k) = true \/ gap s k)) \/ (k < G s /\ k < wr s /\ lastu s <= k + C) ->
  Inv (put (set_ring s (upd (ring s) (slot k) (d k))) (Z.eqb k) d).
Proof.
  intros s k d H Hk. pose proof (dr_ge s H) as Hd. pose proof (i_w s H) as Hw. constructor; cbn; try (apply H).
  - intros x Hx Hi. pose proof (i_ini s H x Hi) as Hl. destruct (Z.eqb_spec k x) as [->|N].
    + apply upd_same.
    + rewrite upd_other; [apply (i_V1 s H); auto|]. intros E.
      destruct Hk as [Hk|Hk].
      * apply N. apply (slot_inj (wr s)); auto; lia.
      * assert (k = x); [|lia]. apply (slot_inj k); auto; lia.
  - intros x Hx Hi. destruct (Z.eqb_spec k x) as [->|N]; [exfalso; change (dr (put (set_ring s (upd (ring s) (slot x) (d x))) (Z.eqb x) d)) with (dr s) in Hx; lia|]. apply (i_V2 s H); auto.
  - intros x dd Hx Hi. destruct (Z.eqb_spec k x) as [->|N]; [exfalso; change (dr (put (set_ring s (upd (ring s) (slot x) (d x))) (Z.eqb x) d)) with (dr s) in Hx; lia|]. apply (i_V3 s H); auto.
  - intros x Hx Hi Hb. unfold cok. cbn. destruct (Z.eqb_spec k x) as [->|N]; [|apply (i_V4 s H); auto].
    right. left. destruct Hk as [[_ [Hk|Hk]]|Hk]; [congruence|exact Hk|]. pose proof (i_ini s H x Hi). 
    change (dr (put (set_ring s (upd (ring s) (slot x) (d x))) (Z.eqb x) d)) with (dr s) in Hx. lia.
  - pose proof (i_fl s H) as F. unfold flok in *. cbn. destruct (fl s) as [|pos hi mr|pos hi mr k0 loc|pos hi mr loc|pos hi mr loc]; auto.
    all: assert (LL : forall k', locok s pos k' loc -> locok (put (set_ring s (upd (ring s) (slot k) (d k))) (Z.eqb k) d) pos k' loc);
      [intros k' L x Hx Hi; destruct (L x Hx Hi) as [L1 L2]; cbn; destruct (Z.eqb_spec k x) as [->|N]; [|split; auto];
       split; intros; [exfalso; lia|]; destruct Hk as [[_ [Hk|Hk]]|Hk]; auto; exfalso; lia|].
    + destruct F as (A & B & D & E & E2 & F). exact (conj A (conj B (conj D (conj E (conj E2 (LL _ F)))))).
    + destruct F as (A & B & D & E & F). exact (conj A (conj B (conj D (conj E (LL _ F))))).
    + destruct F as (A & B & D & E & F & F2). exact (conj A (conj B (conj D (conj E (conj (LL _ F) F2))))).
  - intros p. pose proof (i_rd s H p) as R. unfold rok in *. cbn.
    assert (M : forall x v, In v (cand s p x) -> In v (if k =? x then d x :: cand s p x else cand s p x)) by (intros x v; destruct (k =? x); cbn; auto).
    destruct (rd s p); auto; intuition auto.
  - intros p x Hp. pose proof (i_cand s H p x Hp). destruct (k =? x); cbn; auto.
Qed.

Lemma bits_inv : forall s f, Inv s -> (forall r, bit s r = true -> f r = true) -> Inv (set_bit s f).
Proof.
  intros s f H Hf. constructor; cbn; try (apply H).
  - intros r Hr. destruct (i_open s H r Hr) as (A & B & D & E). repeat split; auto.
  - intros x Hx Hi Hb. apply (i_V4 s H); auto. destruct (bit s (rp x)) eqn:E; auto. apply Hf in E. congruence.
  - pose proof (i_fl s H) as F. unfold flok in *. cbn. destruct (fl s) as [|pos hi mr|pos hi mr k0 loc|pos hi mr loc|pos hi mr loc]; auto.
    all: assert (LL : forall k', locok s pos k' loc -> locok (set_bit s f) pos k' loc);
      [intros k' L x Hx Hi; destruct (L x Hx Hi) as [L1 L2]; split; [exact L1|]; cbn; intros Hw;
       destruct (L2 Hw) as [Q|[Q|Q]]; auto|].
    + destruct F as (A & B & D & E & E2 & F). exact (conj A (conj B (conj D (conj E (conj E2 (LL _ F)))))).
    + destruct F as (A & B & D & E & F). exact (conj A (conj B (conj D (conj E (LL _ F))))).
    + destruct F as (A & B & D & E & F & F2). exact (conj A (conj B (conj D (conj E (conj (LL _ F) F2))))).
Qed.

Lemma cput_inv : forall s q c e b, Inv s -> q * PS <= c -> e <= q * PS + PS -> e <= wr s -> mid PS s q = false ->
  Inv (put (set_cache s q (Some (range_put (page_of s q) c e b, true))) (inr c e) b).
Proof.
  intros s q c e b H H1 H2 H3 Hm. pose proof (dr_ge s H) as Hd. pose proof (i_w s H) as Hw.
  assert (PQ : forall x, inr c e x = true -> x / PS = q /\ x < wr s) by (intros x Hx; unfold inr in Hx; split; [apply page_div|]; lia).
  assert (M2 : mid2 PS s q = false). { unfold mid, mid2 in *. destruct (fl s); auto. }
  assert (DR : dr (put (set_cache s q (Some (range_put (page_of s q) c e b, true))) (inr c e) b) = dr s) by reflexivity.
  constructor; cbn; try (apply H); try rewrite DR.
  - intros x Hx Hi. destruct (inr c e x) eqn:E; [apply PQ in E; lia|]. apply (i_V1 s H); auto.
  - intros x Hx Hi. pose proof (i_V2 s H x Hx Hi) as V. destruct (Z.eq_dec (x / PS) q) as [Eq|N].
    + rewrite Eq, upd_same. unfold range_put. destruct (inr c e x) eqn:E; auto. unfold page_of. rewrite Eq in V.
      destruct (cache s q) as [[d bb]|]; auto. destruct V; auto. congruence.
    + rewrite upd_other by auto. destruct (inr c e x) eqn:E; [apply PQ in E; tauto|]. exact V.
  - intros x d Hx Hi. destruct (Z.eq_dec (x / PS) q) as [Eq|N].
    + rewrite Eq, upd_same. discriminate.
    + rewrite upd_other by auto. destruct (inr c e x) eqn:E; [apply PQ in E; tauto|]. apply (i_V3 s H); auto.
  - intros x Hx Hi Hb. destruct (inr c e x) eqn:E; [apply PQ in E; lia|].
    destruct (i_V4 s H x Hx Hi Hb) as [[V V']|V]; auto. left. split; auto. unfold cok in *. cbn. rewrite E.
    destruct (Z.eq_dec (x / PS) q) as [Eq|N]; [|rewrite upd_other by auto; auto].
    rewrite Eq, upd_same. unfold range_put. rewrite E. unfold page_of. rewrite Eq in V'. destruct (cache s q) as [[d bb]|]; auto.
  - pose proof (i_fl s H) as F. unfold flok, mid in *. cbn. destruct (fl s) as [|pos hi mr|pos hi mr k0 loc|pos hi mr loc|pos hi mr loc]; auto.
    all: assert (Np : pos / PS <> q) by lia.
    all: assert (LL : forall k', pos mod PS = 0 -> locok s pos k' loc -> locok (put (set_cache s q (Some (range_put (page_of s q) c e b, true))) (inr c e) b) pos k' loc);
      [intros k' Hp L x Hx Hi; destruct (L x Hx Hi) as [L1 L2]; apply (page_range pos x Hp) in Hx; cbn; destruct (inr c e x) eqn:E; [apply PQ in E; exfalso; apply Np; destruct E; congruence|split; auto]|].
    + destruct F as (A & B & D & E & E2 & F). exact (conj A (conj B (conj D (conj E (conj E2 (LL _ B F)))))).
    + destruct F as (A & B & D & E & F). exact (conj A (conj B (conj D (conj E (LL _ B F))))).
    + destruct F as (A & B & D & E & F & F2). rewrite upd_other by auto. exact (conj A (conj B (conj D (conj E (conj (LL _ B F) F2))))).
  - intros p. pose proof (i_rd s H p) as R. unfold rok in *. cbn.
    assert (M : forall x v, In v (cand s p x) -> In v (if inr c e x then b x :: cand s p x else cand s p x)) by (intros x v; destruct (inr c e x); cbn; auto).
    destruct (rd s p); auto; intuition auto.
  - intros p x Hp. pose proof (i_cand s H p x Hp). destruct (inr c e x); cbn; auto.
Qed.

Lemma wstep_inv : forall s p, Inv s -> haz (wstep PS NP s p) = [] -> Inv (wstep PS NP s p).
Proof.
  intros s p H. unfold wstep. pose proof (i_ws s H p) as W. pose proof (i_w s H) as Hw. pose proof (dr_ge s H) as Hd.
  destruct (ws s p) as [|l z b me|l z b me m|l z b me m|l z b me m k|l z b me m|l z b me m|l z b me m|l z b me m c] eqn:E; cbn in W.
  - auto.
  - intros _. destruct (Z.leb_spec (l + z) (wip s)); apply ws_inv; auto; cbn; try (intros; discriminate); try (intros; tauto).
    + repeat split; try tauto; lia.
    + rewrite E. cbn. tauto.
    + repeat split; try tauto; lia.
    + rewrite E. cbn. tauto.
  - intros _. assert (K : match lk s with LScan _ _ _ _ => False | _ => True end -> Inv (set_ws s p (WChk l z b me m))).
    { intros K. apply ws_inv; auto; cbn; try (intros; discriminate); auto. rewrite E. cbn. tauto. }
    destruct (lk s); auto.
  - intros _. destruct (Z.ltb_spec m (wip s)); apply ws_inv; auto; cbn; try (intros; discriminate); try tauto.
    + rewrite E. cbn. tauto.
    + repeat split; try tauto; lia.
    + rewrite E. cbn. auto.
    + intros m' X. inv X. right. lia.
    + rewrite E. cbn. tauto.
  - destruct (Z.ltb_spec k (l + z)).
    + intros Hz. apply hit_haz in Hz. destruct Hz as [Hz _]. apply hit_inv.
      assert (H1 : Inv (set_ws s p (WMem l z b me m (k + 1)))).
      { apply ws_inv; auto; cbn; try rewrite E; cbn; auto.
        - repeat split; try tauto; lia.
        - intros x Hx. left. lia. }
      set (s1 := set_ws s p (WMem l z b me m (k + 1))) in *.
      assert (G1 : gap s1 k). { exists p. cbn. rewrite upd_same. lia. }
      change (set_ws (put (set_ring s (upd (ring s) (slot k) (b k))) (Z.eqb k) b) p (WMem l z b me m (k + 1)))
        with (put (set_ring s1 (upd (ring s1) (slot k) (b k))) (Z.eqb k) b).
      apply store_inv; auto.
      change (dr s1) with (dr s). change (lastu s1) with (lastu s). change (wr s1) with (wr s). change (G s1) with (G s).
      destruct (Z_lt_le_dec k (wr s)).
      * right. destruct W as (_ & _ & _ & _ & _ & _ & W1 & W2). split; [|split]; lia.
      * left. split; [|auto]. assert (dr s <= k); [|lia]. unfold dr. destruct (lk s) eqn:El; try lia.
        pose proof (i_lk s H) as L. rewrite El in L. destruct L as (_ & L1 & L2). specialize (L2 p m ltac:(rewrite E; reflexivity)). lia.
    + intros _. apply ws_inv; auto; cbn; try rewrite E; cbn; auto.
      * repeat split; try tauto; lia.
      * intros x Hx. left. lia.
  - intros _. assert (H1 : Inv (set_bit s (mark PS NP (bit s) m (l + z)))) by (apply bits_inv; auto; intros; apply mark_mono; auto).
    apply (ws_inv _ p (WFree l z b me m)) in H1; auto; cbn; try (intros; discriminate); try tauto.
    rewrite E. cbn. intros x Hx. right. apply mark_true; auto.
  - intros _. destruct (Z.eqb_spec m l); apply ws_inv; auto; cbn; try (intros; discriminate); try tauto; try (rewrite E; cbn; tauto).
  - intros _. destruct ((m <=? wr s) || match lk s with LFree => true | _ => false end) eqn:Em; auto.
    apply ws_inv; auto; cbn; try (intros; discriminate); try tauto; try (rewrite E; cbn; tauto).
    assert (m <= wr s). { destruct (Z.leb_spec m (wr s)); auto. cbn in Em. pose proof (i_lk s H) as L. destruct (lk s); try discriminate. lia. }
    repeat split; try tauto; lia.
  - destruct (Z.ltb_spec c m).
    + intros Hz. apply hit_haz in Hz. destruct Hz as [Hz _]. apply hit_inv.
      set (q := c / PS) in *. set (e := Z.min (q * PS + PS) m) in *.
      pose proof (div_bounds c) as Hc. fold q in Hc. assert (Hce : c < e <= m /\ e <= q * PS + PS) by lia.
      assert (H1 : Inv (set_ws s p (WWr l z b me m e))).
      { apply ws_inv; auto; cbn; try rewrite E; cbn; try (intros; discriminate); try tauto.
        repeat split; try tauto; lia. }
      set (s1 := set_ws s p (WWr l z b me m e)) in *.
      match goal with |- Inv ?X => change X with (put (set_cache s1 q (Some (range_put (page_of s q) c e b, true))) (inr c e) b) end.
      apply (cput_inv s1 q c e b); auto; cbn; try lia; try tauto.
    + intros _. apply ws_inv; auto; cbn; try (intros; discriminate); try tauto; try (rewrite E; cbn; tauto).
Qed.

Lemma rd_inv : forall s p c, Inv s -> rok s p c -> (c <> RIdle -> rd s p <> RIdle) -> Inv (set_rd s p c).
Proof.
  intros s p c H Hc Hn. constructor; cbn; try (apply H).
  - intros q. destruct (Z.eq_dec q p) as [->|N]; [rewrite upd_same; exact Hc|rewrite upd_other by auto; apply (i_rd s H)].
  - intros q x. destruct (Z.eq_dec q p) as [->|N]; [rewrite upd_same|rewrite upd_other by auto]; intros Y; apply (i_cand s H); auto.
Qed.

Lemma rstep_inv : forall s p, Inv s -> Inv (rstep PS NP s p).
Proof.
  intros s p H. unfold rstep. pose proof (i_rd s H p) as R. pose proof (i_w s H) as Hw. pose proof (dr_ge s H) as Hd.
  destruct (rd s p) as [|l z|l z w1 c acc|l z w1 acc|l z c e acc|l z acc] eqn:E; auto.
  all: assert (CN : forall x, In (val s x) (cand s p x)) by (intros x; apply (i_cand s H); congruence).
  all: assert (NI : rd s p <> RIdle) by congruence.
  - destruct R as [Rz R]. destruct (Z.ltb_spec (wr s) (l + z)); apply rd_inv; auto; cbn.
    + split; [auto|]. split; [lia|]. split; [lia|]. intros; lia.
    + split; [auto|]. split; [lia|]. split; [lia|]. split; [lia|]. intros; lia.
  - destruct R as ((Rz & R) & R1 & R2 & R3). destruct (Z.ltb_spec c (l + z)); apply rd_inv; auto; cbn.
    + split; [auto|]. split; [lia|]. split; [lia|]. intros x Hx Hx2. destruct (Z.eq_dec x c) as [->|N].
      * rewrite upd_same, (i_V1 s H); auto. apply R. lia.
      * rewrite upd_other by auto. apply R3; lia.
    + split; [auto|]. split; [lia|]. intros x Hx Hx2. apply R3; lia.
  - destruct R as ((Rz & R) & R1 & R2). apply rd_inv; auto; cbn. split; [auto|]. split; [lia|]. split; [lia|]. split; [lia|].
    intros x Hx [Hy|Hy] _; [lia|]. apply R2; lia.
  - destruct R as ((Rz & R) & R1 & R2 & R3 & R4). destruct (Z.ltb_spec c e).
    + destruct (cache s (c / PS)) as [[d bb]|] eqn:Ec; auto. apply rd_inv; auto; cbn. split; [auto|]. split; [lia|]. split; [lia|]. split; [lia|].
      intros x Hx Hy HG. destruct (Z.eq_dec x c) as [->|N].
      * rewrite upd_same. pose proof (i_V2 s H c ltac:(lia) (R c ltac:(lia))) as V. rewrite Ec in V. rewrite V. auto.
      * rewrite upd_other by auto. apply R4; auto. lia.
    + apply rd_inv; auto; cbn. split; [auto|]. intros x Hx HG. apply R4; auto. lia.
  - destruct (Z.leb_spec (G s) l); apply rd_inv; auto; cbn; auto; try tauto.
    destruct R as [_ R]. destruct H. constructor; cbn; auto. intros r [<-|Hr]; auto. intros x Hx. apply R; auto.
Qed.

Lemma rbegin_inv : forall s p l z, Inv s -> rd s p = RIdle -> (0 <? z) && allini s l z = true ->
  Inv (set_rd (set_cand s p (fun x => [val s x])) p (RW1 l z)).
Proof.
  intros s p l z H E Hz. constructor; cbn; try (apply H).
  - intros q. destruct (Z.eq_dec q p) as [->|N].
    + rewrite upd_same. cbn. split; [lia|]. intros x Hx. unfold allini in Hz. apply andb_true_iff in Hz. destruct Hz as [_ Hz].
      rewrite forallb_forall in Hz. specialize (Hz (Z.to_nat (x - l))). rewrite Z2Nat.id in Hz by lia.
      replace (l + (x - l)) with x in Hz by lia. apply Hz. apply in_seq. lia.
    + rewrite upd_other by auto. pose proof (i_rd s H q) as R. unfold rok in *. cbn. rewrite upd_other by auto. exact R.
  - intros q x. destruct (Z.eq_dec q p) as [->|N]; [rewrite !upd_same; cbn; auto|rewrite !upd_other by auto; apply (i_cand s H)].
Qed.

(** Records. *)
Definition lockm (s : st) : Z := match lk s with LScan _ m _ _ => m | _ => wip s end.
Definition flm (s : st) : Z := match fl s with FIdle => wip s | FLoop _ _ mr | FCopy _ _ mr _ _ | FW1 _ _ mr _ | FW2 _ _ mr _ => mr end.
Definition openg (s : st) (r : Z * Z * bool) : Prop :=
  wip s <= fst (fst r) /\ G s <= fst (fst r) /\ fst (fst r) + snd (fst r) <= lastu s /\
  (snd r = true -> forall x, fst (fst r) <= x < fst (fst r) + snd (fst r) -> bit s (rp x) = true) /\
  lockm s <= fst (fst r) /\ flm s <= fst (fst r).
Lemma open_good : forall s r, Inv s -> In r (opn s) -> openg s r.
Proof.
  intros s r H Hr. destruct (i_open s H r Hr) as (A & B & D & E). unfold openg. repeat split; auto.
  - pose proof (i_lk s H) as L. unfold lockm. destruct (lk s); auto. destruct L as (_ & _ & _ & L & _). auto.
  - pose proof (i_fl s H) as F. unfold flok in F. unfold flm. destruct (fl s); auto; intuition auto.
Qed.
Lemma opn_inv : forall s o, Inv s -> (forall r, In r o -> openg s r) -> Inv (set_opn s o).
Proof.
  intros s o H Ho. constructor; cbn; try (apply H).
  - pose proof (i_lk s H) as L. destruct (lk s) eqn:El; auto. destruct L as (A & B & D & _ & E & F). repeat split; auto.
    intros r Hr. destruct (Ho r Hr) as (_ & _ & _ & _ & X & _). unfold lockm in X. rewrite El in X. auto.
  - intros r Hr. destruct (Ho r Hr) as (A & B & D & E & _). auto.
  - pose proof (i_fl s H) as F. unfold flok in *. cbn.
    assert (X : forall r, In r o -> flm s <= fst (fst r)) by (intros r Hr; apply (Ho r Hr)). unfold flm in X.
    destruct (fl s); auto; intuition auto.
Qed.

Lemma last_inv : forall s v, Inv s -> lastu s <= v <= wr s + C -> Inv (set_last s v).
Proof.
  intros s v H Hv. pose proof (i_w s H) as W. constructor; cbn; try (apply H); try lia.
  - pose proof (i_lk s H) as L. destruct (lk s); auto. intuition lia.
  - intros r Hr. destruct (i_open s H r Hr) as (A & B & D & E). repeat split; auto; lia.
  - intros x Hx. pose proof (i_ini s H x Hx). lia.
  - intros p. pose proof (i_ws s H p) as X. destruct (ws s p); cbn in *; auto; intuition lia.
  - pose proof (i_fl s H) as F. unfold flok in *. cbn. destruct (fl s); auto; intuition lia.
Qed.

Lemma inival_inv : forall s l z, Inv s -> wip s <= l -> l + z <= lastu s -> (forall x, l <= x < l + z -> bit s (rp x) = true) ->
  Inv (put (set_ini s (fun x => inr l (l + z) x || ini s x)) (inr l (l + z)) (fun x => ring s (slot x))).
Proof.
  intros s l z H Hl Hz Hb. pose proof (dr_ge s H) as Hd. pose proof (i_w s H) as Hw.
  assert (PQ : forall x, inr l (l + z) x = true -> dr s <= x /\ wr s <= x /\ x < lastu s /\ bit s (rp x) = true).
  { intros x Hx. unfold inr in Hx. repeat split; try lia. }
  match goal with |- Inv ?X => set (s' := X) end.
  assert (DR : dr s' = dr s) by reflexivity.
  constructor; cbn; try (apply H); try rewrite DR.
  - intros x. destruct (inr l (l + z) x) eqn:E; [intros _; apply PQ in E; lia|]. apply (i_ini s H).
  - intros x Hx. destruct (inr l (l + z) x) eqn:E; auto. apply (i_V1 s H); auto.
  - intros x Hx. destruct (inr l (l + z) x) eqn:E; [apply PQ in E; lia|]. apply (i_V2 s H); auto.
  - intros x d Hx. destruct (inr l (l + z) x) eqn:E; [apply PQ in E; lia|]. apply (i_V3 s H); auto.
  - intros x Hx. destruct (inr l (l + z) x) eqn:E; [intros _ Q; apply PQ in E; destruct E as (_ & _ & _ & E); congruence|].
    unfold cok. cbn. rewrite E. apply (i_V4 s H); auto.
  - pose proof (i_fl s H) as F. unfold flok in *. cbn. destruct (fl s) as [|pos hi mr|pos hi mr k0 loc|pos hi mr loc|pos hi mr loc]; auto.
    all: assert (LL : forall k', locok s pos k' loc -> locok s' pos k' loc);
      [intros k' L x Hx; cbn; destruct (inr l (l + z) x) eqn:E;
       [intros _; apply PQ in E; split; [lia|tauto]|exact (L x Hx)]|].
    + destruct F as (A & B & D & E & E2 & F). exact (conj A (conj B (conj D (conj E (conj E2 (LL _ F)))))).
    + destruct F as (A & B & D & E & F). exact (conj A (conj B (conj D (conj E (LL _ F))))).
    + destruct F as (A & B & D & E & F & F2). exact (conj A (conj B (conj D (conj E (conj (LL _ F) F2))))).
  - intros p. pose proof (i_rd s H p) as R. unfold rok in *. cbn.
    assert (M : forall x v, In v (cand s p x) -> In v (if inr l (l + z) x then ring s (slot x) :: cand s p x else cand s p x)) by (intros x v; destruct (inr l (l + z) x); cbn; auto).
    assert (M2 : forall x, ini s x = true -> inr l (l + z) x || ini s x = true) by (intros; lia).
    destruct (rd s p); auto; intuition auto.
  - intros p x Hp. pose proof (i_cand s H p x Hp). destruct (inr l (l + z) x); cbn; auto.
Qed.

(** Frontiers and locks. *)
Lemma floor_facts : forall s g, Inv s -> floor_ok n s g = true ->
  G s <= g /\ g <= lastu s /\ (forall r, In r (opn s) -> g <= fst (fst r)) /\
  forall p l, wloc (ws s p) = Some (l, true) -> g <= l.
Proof.
  intros s g H F. unfold floor_ok, below_open in F. apply andb_true_iff in F. destruct F as [F F3].
  apply andb_true_iff in F. destruct F as [F F2]. apply andb_true_iff in F. destruct F as [F F1].
  rewrite forallb_forall in F1, F3. split; [lia|]. split; [lia|]. split.
  - intros r Hr. specialize (F1 r Hr). lia.
  - intros p l E. assert (0 <= p < n). { pose proof (i_ws s H p) as W. destruct (ws s p); cbn in *; try discriminate; tauto. }
    specialize (F3 (Z.to_nat p)). rewrite Z2Nat.id in F3 by lia. rewrite E in F3.
    assert (g <=? l = true); [apply F3; apply in_seq; lia|lia].
Qed.

Lemma G_inv : forall s g, Inv s -> floor_ok n s g = true -> Inv (set_G s g).
Proof.
  intros s g H F. destruct (floor_facts s g H F) as (F1 & F2 & F3 & F4). pose proof (i_w s H) as W.
  constructor; cbn; try (apply H); try lia.
  - pose proof (i_lk s H) as L. destruct (lk s); auto. destruct L as (A & B & D & E & L). repeat split; auto; try tauto.
    intros x Hx. specialize (D x Hx). lia.
  - intros r Hr. destruct (i_open s H r Hr) as (A & B & D & E). repeat split; auto.
  - intros p. pose proof (i_ws s H p) as X. pose proof (F4 p) as Y. destruct (ws s p); cbn in *; auto.
    all: assert (Me : me = true -> g <= l) by (intros ->; apply Y; auto).
    all: intuition lia.
  - intros x Hx. apply (i_V2 s H). change (dr (set_G s g)) with (dr s) in Hx. lia.
  - intros x d Hx. apply (i_V3 s H). change (dr (set_G s g)) with (dr s) in Hx. lia.
  - pose proof (i_fl s H) as K. unfold flok in *. cbn. destruct (fl s) as [|pos hi mr|pos hi mr k0 loc|pos hi mr loc|pos hi mr loc]; auto.
    all: assert (LL : forall k', locok s pos k' loc -> locok (set_G s g) pos k' loc);
      [intros k' L x Hx Hi; destruct (L x Hx Hi) as [L1 L2]; split; [intros; apply L1; cbn in *; lia|exact L2]|].
    + destruct K as (A & B & D & E & E2 & K). exact (conj A (conj B (conj D (conj E (conj E2 (LL _ K)))))).
    + destruct K as (A & B & D & E & K). exact (conj A (conj B (conj D (conj E (LL _ K))))).
    + destruct K as (A & B & D & E & K & K2). exact (conj A (conj B (conj D (conj E (conj (LL _ K) K2))))).
  - intros p. pose proof (i_rd s H p) as R. unfold rok in *. cbn. assert (M : forall l, g <= l -> G s <= l) by lia. destruct (rd s p); auto; intuition auto.
Qed.

Definition fmid (f : fpc) : bool := match f with FCopy _ _ _ _ _ | FW1 _ _ _ _ | FW2 _ _ _ _ => true | _ => false end.

(** The frontiers jump to the retain minimum. *)
Lemma jump_inv : forall s, Inv s -> lk s = LFree -> wr s <= G s -> Inv (set_w s (G s) (G s)).
Proof.
  intros s H El Hg. pose proof (i_w s H) as W. pose proof (i_lk s H) as L. rewrite El in L. pose proof C_pos as CP.
  assert (DR : dr s = wr s) by (unfold dr; rewrite El; auto).
  constructor; cbn; try (apply H); try lia; try rewrite El; auto.
  - intros r Hr. destruct (i_open s H r Hr) as (A & B & D & E). repeat split; auto.
  - intros p. pose proof (i_ws s H p) as X. destruct (ws s p); cbn in *; auto; intuition lia.
  - intros x Hx. apply (i_V1 s H). lia.
  - intros x Hx. unfold dr in Hx. cbn in Hx. rewrite El in Hx. lia.
  - intros x d Hx. unfold dr in Hx. cbn in Hx. rewrite El in Hx. lia.
  - intros x Hx. apply (i_V4 s H). unfold dr in *. cbn in Hx. rewrite El in *. lia.
  - pose proof (i_fl s H) as F. unfold flok in *. cbn. rewrite El in *. destruct (fl s); auto; intuition discriminate.
  - intros p. pose proof (i_rd s H p) as R. unfold rok in *. cbn. assert (M : forall x, G s <= x -> wr s <= x) by lia. assert (M2 : forall w, w <= wr s -> w <= G s) by lia. destruct (rd s p); auto; intuition auto.
Qed.

Lemma lk_inv : forall s l, Inv s ->
  match l with
  | LFree | LFlush => wip s = wr s
  | LScan t m i mr => wip s = wr s /\ t <= m /\ m <= lastu s /\ (forall r, In r (opn s) -> m <= fst (fst r)) /\
       0 <= i /\ forall p m', 0 <= p < i -> act (ws s p) = Some m' -> mr <= m'
  | LWait t c i => wip s = t /\ wr s <= c <= t /\ (forall x, wr s <= x < c -> x < G s) /\
       0 <= i /\ forall p m', 0 <= p < i -> memw (ws s p) = Some m' -> t <= m'
  | LPage t c => wip s = t /\ wr s <= c <= t /\ forall p m', memw (ws s p) = Some m' -> t <= m'
  end ->
  (forall x, G s <= x < dr (set_lk s l) -> x < dr s) -> dr s <= dr (set_lk s l) -> fmid (fl s) = false -> Inv (set_lk s l).
Proof.
  intros s l H Hl D1 D2 Hf. constructor; cbn; try (apply H); auto.
  - intros x Hx. apply (i_V2 s H). split; [lia|]. apply D1; auto.
  - intros x d Hx. apply (i_V3 s H). split; [lia|]. apply D1; auto.
  - intros x Hx. apply (i_V4 s H). lia.
  - pose proof (i_fl s H) as F. unfold flok in *. cbn. destruct (fl s); auto; discriminate.
Qed.

Lemma mid_lk : forall s, Inv s -> lk s <> LFlush -> fmid (fl s) = false.
Proof. intros s H N. pose proof (i_fl s H) as F. unfold flok in F. destruct (fl s); auto; exfalso; tauto. Qed.

(** Block cache. *)
Lemma load_inv : forall s q, Inv s -> cache s q = None -> mid2 PS s q = false -> Inv (set_cache s q (Some (file s, false))).
Proof.
  intros s q H Ec Hm. constructor; cbn; try (apply H).
  - intros x Hx Hi. pose proof (i_V2 s H x Hx Hi) as V. destruct (Z.eq_dec (x / PS) q) as [Eq|N]; [|rewrite upd_other by auto; auto].
    rewrite Eq, upd_same. rewrite Eq, Ec in V. destruct V; auto. congruence.
  - intros x d Hx Hi. destruct (Z.eq_dec (x / PS) q) as [Eq|N]; [|rewrite upd_other by auto; apply (i_V3 s H); auto].
    intros _. right. pose proof (i_V2 s H x Hx Hi) as V. rewrite Eq, Ec in V. destruct V; auto. congruence.
  - intros x Hx Hi Hb. destruct (i_V4 s H x Hx Hi Hb) as [[V V']|V]; auto. left. split; auto. unfold cok in *. cbn.
    destruct (Z.eq_dec (x / PS) q) as [Eq|N]; [|rewrite upd_other by auto; auto]. rewrite Eq, upd_same. auto.
  - pose proof (i_fl s H) as F. unfold flok, mid2 in *. cbn. destruct (fl s) as [|pos hi mr|pos hi mr k0 loc|pos hi mr loc|pos hi mr loc]; auto.
    rewrite upd_other by lia. auto.
Qed.

Lemma oevict_inv : forall s q d b, Inv s -> cache s q = Some (d, b) ->
  Inv (set_cache (if b then set_file s (page_put PS (file s) q d) else s) q None).
Proof.
  intros s q d b H Ec.
  assert (E1 : file (if b then set_file s (page_put PS (file s) q d) else s) = if b then page_put PS (file s) q d else file s) by (destruct b; auto).
  set (f' := if b then page_put PS (file s) q d else file s) in *.
  assert (ES : set_cache (if b then set_file s (page_put PS (file s) q d) else s) q None = set_cache (set_file s f') q None) by (subst f'; destruct b; auto).
  rewrite ES. assert (F1 : forall x, x / PS <> q -> f' x = file s x).
  { intros x Hx. subst f'. destruct b; auto. unfold page_put. destruct (Z.eqb_spec (x / PS) q); congruence. }
  assert (F2 : forall x, x / PS = q -> f' x = if b then d x else file s x).
  { intros x Hx. subst f'. destruct b; auto. unfold page_put. rewrite Hx, Z.eqb_refl. auto. }
  clear E1 ES. clearbody f'.
  assert (DR : dr (set_cache (set_file s f') q None) = dr s) by reflexivity.
  constructor; cbn; try (apply H); try rewrite DR.
  - intros x Hx Hi. pose proof (i_V2 s H x Hx Hi) as V. destruct (Z.eq_dec (x / PS) q) as [Eq|N].
    + rewrite Eq, upd_same. rewrite Eq, Ec in V. rewrite F2 by auto. destruct b; auto.
      pose proof (i_V3 s H x d Hx Hi) as V3. rewrite Eq in V3. auto.
    + rewrite upd_other by auto. rewrite F1 by auto. exact V.
  - intros x d' Hx Hi. destruct (Z.eq_dec (x / PS) q) as [Eq|N].
    + rewrite Eq, upd_same. discriminate.
    + rewrite upd_other by auto. rewrite F1 by auto. apply (i_V3 s H); auto.
  - intros x Hx Hi Hb. destruct (i_V4 s H x Hx Hi Hb) as [[V V']|V]; auto. left. unfold cok in *. cbn.
    destruct (Z.eq_dec (x / PS) q) as [Eq|N].
    + rewrite Eq, upd_same. rewrite Eq, Ec in V'. rewrite F2 by auto. destruct b; auto.
    + rewrite upd_other by auto. rewrite F1 by auto. auto.
  - pose proof (i_fl s H) as F. unfold flok in *. cbn. destruct (fl s) as [|pos hi mr|pos hi mr k0 loc|pos hi mr loc|pos hi mr loc]; auto.
    destruct F as (A & B & D & E & F & F3). refine (conj A (conj B (conj D (conj E (conj F _))))).
    destruct (Z.eq_dec (pos / PS) q) as [->|N]; [rewrite upd_same; auto|rewrite upd_other by auto; auto].
Qed.

(** Eviction. *)
Lemma below_facts : forall s v, below_open s v = true -> v <= lastu s /\ forall r, In r (opn s) -> v <= fst (fst r).
Proof.
  intros s v F. unfold below_open in F. apply andb_true_iff in F. destruct F as [F F1]. rewrite forallb_forall in F1.
  split; [lia|]. intros r Hr. specialize (F1 r Hr). lia.
Qed.

Lemma act_res : forall c m, act c = Some m -> resv c = Some m.
Proof. intros []; cbn; intros; try discriminate; auto. Qed.
Lemma memw_act : forall c m, memw c = Some m -> act c = Some m.
Proof. intros []; cbn; intros; try discriminate; auto. Qed.
Lemma memw_rng : forall s p m, Inv s -> memw (ws s p) = Some m -> 0 <= p < n.
Proof. intros s p m H E. pose proof (i_ws s H p) as W. destruct (ws s p); try discriminate; cbn in W; tauto. Qed.

Lemma eset_inv : forall s g, Inv s -> Inv (step s (ESet g)).
Proof.
  intros s g H. cbn. destruct (lk s) as [| |t m i mr| |] eqn:El; auto. destruct ((i =? n) && floor_ok n s g) eqn:Ef; auto.
  apply andb_true_iff in Ef. destruct Ef as [Ei Ef].
  destruct (floor_facts s g H Ef) as (F1 & F2 & F3 & F4). pose proof (G_inv s g H Ef) as H1.
  pose proof (i_lk s H) as L. rewrite El in L. destruct L as (L1 & L2 & L3 & L4 & L5 & L6). pose proof (i_w s H) as W.
  assert (Hm : fmid (fl s) = false) by (apply mid_lk; auto; congruence).
  assert (DR : dr s = wr s) by (unfold dr; rewrite El; auto).
  assert (HF : Inv (set_lk (set_G s g) LFree)).
  { apply lk_inv; auto; cbn; try (unfold dr; cbn; rewrite El; lia). }
  destruct ((t <=? g) || (t <=? wr s)) eqn:Et.
  - destruct (Z.ltb_spec (wip s) g); auto.
    change (set_lk (set_w (set_G s g) g g) LFree) with (set_w (set_lk (set_G s g) LFree) g g). apply (jump_inv _ HF); auto. cbn. lia.
  - set (t' := Z.min (Z.max t (wr s + C / 20)) m). set (c := Z.max g (wr s)).
    assert (T : t <= t' /\ t' <= m) by lia.
    assert (HW : forall l, (match l with LWait t0 c0 i0 => t0 = t' /\ c0 = c /\ i0 = 0 /\ mr < t' | LPage t0 c0 => t0 = t' /\ c0 = c /\ t' <= mr | _ => False end) ->
             Inv (set_lk (set_w (set_G s g) (wr s) t') l)).
    { intros l Hl.
      assert (DL : dr (set_lk (set_w (set_G s g) (wr s) t') l) <= c) by (unfold dr; cbn; destruct l; lia).
      assert (DL2 : wr s <= dr (set_lk (set_w (set_G s g) (wr s) t') l)) by (unfold dr; cbn; destruct l; lia).
      constructor; cbn; try (apply H1); try lia.
      - destruct l; try contradiction.
        + destruct Hl as (-> & -> & -> & Hl). repeat split; try lia. 
        + destruct Hl as (-> & -> & Hl). repeat split; try lia. intros p m' X. pose proof (memw_rng s p m' H X). apply memw_act in X.
          specialize (L6 p m' ltac:(lia) X). lia.
      - intros r Hr. destruct (i_open _ H1 r Hr) as (A & B & D & E). cbn in A, B, D, E. repeat split; auto. specialize (L4 r Hr). lia.
      - intros p. pose proof (i_ws _ H1 p) as X. cbn in X. destruct (ws s p); cbn in *; auto; intuition lia.
      - intros x Hx. apply (i_V2 _ H1). unfold dr. cbn. rewrite El. lia.
      - intros x d Hx. apply (i_V3 _ H1). unfold dr. cbn. rewrite El. lia.
      - intros x Hx. apply (i_V4 _ H1). unfold dr. cbn. rewrite El. lia.
      - pose proof (i_fl s H) as F. unfold flok in *. cbn. destruct (fl s); auto; discriminate. }
    destruct (Z.ltb_spec mr t'); apply HW; repeat split; auto; lia.
Qed.

Lemma epage_inv : forall s, Inv s -> haz (step s EPage) = [] -> Inv (step s EPage).
Proof.
  intros s H. cbn. destruct (lk s) as [| | | |t c] eqn:El; auto. destruct (Z.ltb_spec c t) as [Hct|]; auto.
  set (q := c / PS). rewrite down_eq. fold q. set (e := Z.min (PS * q + PS) t).
  set (full := (c =? PS * q) && (e =? PS * q + PS)). intros Hz. apply hit_haz in Hz. destruct Hz as [Hz _]. apply hit_inv.
  pose proof (div_bounds c) as Hc. fold q in Hc. assert (He : c < e <= t /\ e <= PS * q + PS) by lia.
  pose proof (i_lk s H) as L. rewrite El in L. destruct L as (L1 & L2 & L3). pose proof (i_w s H) as W.
  assert (Hm : fmid (fl s) = false) by (apply mid_lk; auto; congruence).
  assert (M1 : forall q', mid PS s q' = false) by (intros q'; unfold mid; destruct (fl s); auto; discriminate).
  assert (M2 : forall q', mid2 PS s q' = false) by (intros q'; unfold mid2; destruct (fl s); auto; discriminate).
  assert (DR : dr s = c) by (unfold dr; rewrite El; auto).
  match goal with |- Inv ?X => set (s' := X) in * end.
  assert (DR' : dr s' = e) by reflexivity.
  assert (PQ : forall x, inr c e x = true -> x / PS = q /\ c <= x < e) by (intros x Hx; unfold inr in Hx; split; [apply page_div|]; lia).
  assert (BT : forall x, e <= x < lastu s -> (if full then upd (bit s) (rp c) false else bit s) (rp x) = bit s (rp x)).
  { intros x Hx. destruct full eqn:Ef; auto. apply upd_other. intros E. subst full.
    pose proof (div_bounds x). destruct (rp_far x c E) as [X|[X|X]]; fold q in X.
    - rewrite X in *. lia.
    - pose proof C_pos. nia.
    - lia. }
  assert (NG : forall x, x < t -> ~ gap s x).
  { intros x Hx (p & Hp). destruct (ws s p) eqn:Ew; try contradiction.
    - specialize (L3 p m ltac:(rewrite Ew; auto)). lia.
    - specialize (L3 p m ltac:(rewrite Ew; auto)). lia. }
  assert (OLD : forall x, x / PS = q -> ini s x = true -> G s <= x < c -> page_of s q x = val s x).
  { intros x Hx Hi Hg. pose proof (i_V2 s H x ltac:(lia) Hi) as V. rewrite Hx in V. unfold page_of.
    destruct (cache s q) as [[d bb]|]; auto. destruct V; auto. rewrite M2 in *. discriminate. }
  constructor; cbn; try (apply H); try rewrite DR'.
  - repeat split; auto; lia.
  - intros r Hr. destruct (i_open s H r Hr) as (A & B & D & E). repeat split; auto. intros Es x Hx. rewrite BT by lia. auto.
  - intros x Hx Hi. destruct (Z.eq_dec (x / PS) q) as [Eq|N].
    + rewrite Eq, upd_same. unfold range_put. destruct (inr c e x) eqn:Er.
      * apply PQ in Er. apply (i_V1 s H); auto. lia.
      * apply OLD; auto. unfold inr in Er. lia.
    + rewrite upd_other by auto. apply (i_V2 s H); auto.
      assert (x < c); [|lia]. destruct (Z_lt_le_dec x c); auto. exfalso. apply N. apply page_div. lia.
  - intros x d Hx Hi. assert (Bd : forall x, x / PS = q -> rp x = rp c) by (intros y Hy; rewrite !rp_eq, Hy; auto).
    destruct (Z.eq_dec (x / PS) q) as [Eq|N].
    + rewrite Eq, upd_same. intros X. inversion X as [[X1 X2]]. right.
      destruct (Z_lt_le_dec x c).
      * pose proof (i_V2 s H x ltac:(lia) Hi) as V. pose proof (i_V3 s H x) as V3. rewrite Eq in V, V3. unfold cdirty in Hz.
        destruct (cache s q) as [[d' [|]]|].
        -- cbn in Hz. rewrite X2 in Hz. discriminate.
        -- destruct (V3 d' ltac:(lia) Hi eq_refl); auto. rewrite M2 in *. discriminate.
        -- destruct V; auto. rewrite M2 in *. discriminate.
      * destruct (i_V4 s H x ltac:(lia) Hi) as [[V _]|[V|V]]; auto.
        -- rewrite (Bd x Eq). auto.
        -- exfalso. apply (NG x); auto. lia.
        -- rewrite M1 in V. discriminate.
    + rewrite upd_other by auto. apply (i_V3 s H); auto.
      assert (x < c); [|lia]. destruct (Z_lt_le_dec x c); auto. exfalso. apply N. apply page_div. lia.
  - intros x Hx Hi. pose proof (i_ini s H x Hi). rewrite BT by lia. intros Hb.
    destruct (i_V4 s H x ltac:(lia) Hi Hb) as [[V V']|[V|V]]; auto. left. split; auto. unfold cok in *. cbn.
    destruct (Z.eq_dec (x / PS) q) as [Eq|N]; [|rewrite upd_other by auto; auto].
    rewrite Eq, upd_same. rewrite Eq in V'. unfold range_put. replace (inr c e x) with false by (unfold inr; lia).
    unfold page_of. destruct (cache s q) as [[d bb]|]; auto.
  - pose proof (i_fl s H) as F. unfold flok in *. cbn. destruct (fl s); auto; discriminate.
Qed.

Lemma eend_inv : forall s, Inv s -> Inv (step s EEnd).
Proof.
  intros s H. cbn. destruct (lk s) as [| | | |t c] eqn:El; auto. destruct (Z.leb_spec t c) as [Hct|]; auto.
  pose proof (i_lk s H) as L. rewrite El in L. destruct L as (L1 & L2 & L3). pose proof (i_w s H) as W.
  assert (Hm : fmid (fl s) = false) by (apply mid_lk; auto; congruence).
  assert (DR : dr s = c) by (unfold dr; rewrite El; auto). assert (c = t) by lia.
  match goal with |- Inv ?X => set (s' := X) in * end.
  assert (DR' : dr s' = t) by reflexivity.
  constructor; cbn; try (apply H); try rewrite DR'; try lia.
  - intros p. pose proof (i_ws s H p) as X. specialize (L3 p). destruct (ws s p); cbn in *; auto; try specialize (L3 _ eq_refl); intuition lia.
  - intros x Hx. apply (i_V1 s H). lia.
  - intros x Hx. apply (i_V2 s H). lia.
  - intros x d Hx. apply (i_V3 s H). lia.
  - intros x Hx. apply (i_V4 s H). lia.
  - pose proof (i_fl s H) as F. unfold flok in *. cbn. destruct (fl s); auto; discriminate.
  - intros p. pose proof (i_rd s H p) as R. unfold rok in *. cbn. assert (M : forall x, t <= x -> wr s <= x) by lia. assert (M2 : forall w, w <= wr s -> w <= t) by lia. destruct (rd s p); auto; intuition auto.
Qed.

(** Flush. *)
Lemma fl_inv : forall s f, Inv s -> (forall q, mid PS s q = true -> mid PS (set_fl s f) q = true) ->
  (forall q, mid2 PS s q = true -> mid2 PS (set_fl s f) q = true) -> flok (set_fl s f) -> Inv (set_fl s f).
Proof.
  intros s f H M1 M2 Hf. constructor; cbn; try (apply H); auto.
  - intros x Hx Hi. pose proof (i_V2 s H x Hx Hi) as V. destruct (cache s (x / PS)) as [[d b]|]; auto. destruct V; auto.
  - intros x d Hx Hi Ec. destruct (i_V3 s H x d Hx Hi Ec) as [V|V]; auto.
  - intros x Hx Hi Hb. destruct (i_V4 s H x Hx Hi Hb) as [V|[V|V]]; auto.
Qed.

Lemma fpage_inv : forall s, Inv s -> haz (step s FPage) = [] -> Inv (step s FPage).
Proof.
  intros s H. cbn. destruct (fl s) as [|pos hi mr| | |] eqn:Ef; auto. destruct (lk s) eqn:El; auto.
  pose proof (i_fl s H) as F. unfold flok in F. rewrite Ef in F. destruct F as (F1 & F2 & F3).
  pose proof (i_w s H) as W. pose proof (i_lk s H) as L. rewrite El in L.
  assert (DR : dr s = wr s) by (unfold dr; rewrite El; auto).
  assert (M1 : forall q', mid PS s q' = false) by (intros q'; unfold mid; rewrite Ef; auto).
  assert (M2 : forall q', mid2 PS s q' = false) by (intros q'; unfold mid2; rewrite Ef; auto).
  assert (FL : Inv (set_fl s (FLoop (pos + PS) hi mr))).
  { apply fl_inv; auto; try (intros q; rewrite ?M1, ?M2; discriminate). unfold flok. cbn. repeat split; auto.
    rewrite <- Zplus_mod_idemp_r, Z.mod_same, Z.add_0_r by lia. auto. }
  destruct (Z.ltb_spec pos hi); auto. destruct (Z.leb_spec (pos + PS) (wr s)) as [|Hp]; auto.
  destruct ((pos + PS <=? mr) && negb (bit s (rp pos))) eqn:Eb; auto.
  (* the preloaded page *)
  assert (PL : Inv (if pos <? wr s then match cache s (pos / PS) with Some _ => s | None => set_cache s (pos / PS) (Some (file s, false)) end else s)).
  { destruct (pos <? wr s); auto. destruct (cache s (pos / PS)) eqn:Ec; auto. apply load_inv; auto. }
  set (s0 := if pos <? wr s then match cache s (pos / PS) with Some _ => s | None => set_cache s (pos / PS) (Some (file s, false)) end else s) in *.
  set (loc := if pos <? wr s then page_of s (pos / PS) else fun _ => 0).
  assert (LO : locok s0 pos 0 loc).
  { intros x Hx Hi. split.
    - intros Hg. assert (EX : x / PS = pos / PS) by (apply page_range; auto).
      assert (wr s0 = wr s /\ G s0 = G s /\ val s0 = val s /\ ini s0 = ini s) as (Z1 & Z2 & Z3 & Z4) by (subst s0; destruct (pos <? wr s); auto; destruct (cache s (pos / PS)); auto).
      rewrite Z1, Z2 in Hg. rewrite Z4 in Hi. rewrite Z3. pose proof (i_V2 s H x ltac:(lia) Hi) as V. rewrite EX in V. subst loc.
      destruct (Z.ltb_spec pos (wr s)); [|lia]. unfold page_of. destruct (cache s (pos / PS)) as [[d b]|]; auto.
      destruct V; auto. rewrite M2 in *. discriminate.
    - intros Hx2. lia. }
  assert (K : forall sx, sx = s0 \/ (pos + PS <= mr /\ lastu s <= pos + C /\ sx = set_bit s0 (upd (bit s0) (rp pos) false)) -> Inv (set_fl sx (FCopy pos hi mr 0 loc))).
  { intros sx [->|(K1 & K2 & ->)].
    - assert (E0 : fl s0 = FLoop pos hi mr /\ lk s0 = LFlush /\ opn s0 = opn s /\ lastu s0 = lastu s) by (subst s0; destruct (pos <? wr s); auto; destruct (cache s (pos / PS)); auto).
      destruct E0 as (E0 & E1 & E2 & E3).
      apply fl_inv; auto; try (intros q; unfold mid, mid2; rewrite E0; discriminate).
      unfold flok. cbn. rewrite E1, E2, E3. repeat split; auto; try lia; apply LO; auto.
    - assert (E0 : fl s0 = FLoop pos hi mr /\ lk s0 = LFlush /\ opn s0 = opn s /\ lastu s0 = lastu s /\ bit s0 = bit s /\ wr s0 = wr s) by (subst s0; destruct (pos <? wr s); auto; destruct (cache s (pos / PS)); repeat split; auto).
      destruct E0 as (E0 & E1 & E2 & E3 & E4 & E5).
      assert (DR0 : dr s0 = wr s) by (unfold dr; rewrite E1; auto).
      assert (BT : forall x, wr s <= x < lastu s -> x / PS <> pos / PS -> upd (bit s0) (rp pos) false (rp x) = bit s0 (rp x)).
      { intros x Hx N. apply upd_other. intros E. pose proof (mult_div pos F1). pose proof (div_bounds x).
        destruct (rp_far x pos E) as [X|[X|X]]; try contradiction; pose proof C_pos; nia. }
      constructor; cbn; try (apply PL); auto.
      + intros r Hr. destruct (i_open s0 PL r Hr) as (A & B & D & E). repeat split; auto. intros Es x Hx.
        rewrite E2 in Hr. specialize (F3 r Hr). pose proof (i_w s0 PL). rewrite BT; auto; [lia|].
        intros X. apply page_range in X; auto. lia.
      + intros x Hx Hi. pose proof (i_V2 s0 PL x Hx Hi) as V. destruct (cache s0 (x / PS)) as [[d b]|]; auto.
        destruct V; auto. unfold mid2 in *. rewrite E0 in *. discriminate.
      + intros x d Hx Hi Ec. destruct (i_V3 s0 PL x d Hx Hi Ec) as [V|V]; auto. unfold mid2 in *. rewrite E0 in *. discriminate.
      + intros x Hx Hi Hb. destruct (Z.eq_dec (x / PS) (pos / PS)) as [Eq|N].
        * right. right. unfold mid. cbn. rewrite Eq. apply Z.eqb_refl.
        * pose proof (i_ini s0 PL x Hi). change (dr (set_fl (set_bit s0 (upd (bit s0) (rp pos) false)) (FCopy pos hi mr 0 loc))) with (dr s0) in Hx.
          rewrite BT in Hb by (auto; lia). destruct (i_V4 s0 PL x Hx Hi Hb) as [V|[V|V]]; auto. unfold mid in *. rewrite E0 in *. discriminate.
      + unfold flok. cbn. rewrite E1, E2, E3. repeat split; auto; try lia; apply LO; auto. }
  intros Hz.
  assert (EQ : (if pos <? wr s
     then set_fl (match cache s (pos / PS) with
          | Some _ => if pos + PS <=? mr then hit (set_bit s (upd (bit s) (rp pos) false)) (pos + C <? lastu s) HShare else s
          | None => set_cache (if pos + PS <=? mr then hit (set_bit s (upd (bit s) (rp pos) false)) (pos + C <? lastu s) HShare else s) (pos / PS) (Some (file s, false))
          end) (FCopy pos hi mr 0 (page_of s (pos / PS)))
     else set_fl (if pos + PS <=? mr then hit (set_bit s (upd (bit s) (rp pos) false)) (pos + C <? lastu s) HShare else s) (FCopy pos hi mr 0 (fun _ => 0)))
     = set_fl (if pos + PS <=? mr then hit (set_bit s0 (upd (bit s0) (rp pos) false)) (pos + C <? lastu s) HShare else s0) (FCopy pos hi mr 0 loc)).
  { subst s0 loc. destruct (pos <? wr s); auto. destruct (cache s (pos / PS)); auto. destruct (pos + PS <=? mr); auto. destruct (pos + C <? lastu s); auto. }
  rewrite EQ in *. clear EQ. destruct (Z.leb_spec (pos + PS) mr).
  - destruct (Z.ltb_spec (pos + C) (lastu s)); [discriminate|]. apply K. right. repeat split; auto.
  - apply K. auto.
Qed.

Lemma fbyte_inv : forall s, Inv s -> Inv (step s FByte).
Proof.
  intros s H. cbn. destruct (fl s) as [| |pos hi mr k loc| |] eqn:Ef; auto.
  pose proof (i_fl s H) as F. unfold flok in F. rewrite Ef in F. destruct F as (F1 & F2 & F3 & F4 & F5 & F6).
  destruct (Z.ltb_spec k PS); apply fl_inv; auto; try (intros q; unfold mid, mid2; rewrite Ef; cbn; auto; discriminate); unfold flok; cbn.
  - refine (conj F1 (conj F2 (conj F3 (conj F4 (conj _ _))))); [lia|].
    intros x Hx Hi. destruct (F6 x Hx Hi) as [A B]. split; cbn.
    + intros Hg. destruct (Z.ltb_spec (pos + k) (wr s)); auto. rewrite upd_other by lia. auto.
    + intros Hg. destruct (Z.eq_dec x (pos + k)) as [->|N].
      * destruct (Z.ltb_spec (pos + k) (wr s)); [lia|]. rewrite upd_same. left. apply (i_V1 s H); auto; lia.
      * destruct (Z.ltb_spec (pos + k) (wr s)); [lia|]. rewrite upd_other by auto. apply B. lia.
  - assert (k = PS) by lia. subst k. exact (conj F1 (conj F2 (conj F3 (conj F4 F6)))).
Qed.

Lemma fput1_inv : forall s, Inv s -> Inv (step s FPut1).
Proof.
  intros s H. cbn. destruct (fl s) as [| | |pos hi mr loc|] eqn:Ef; auto.
  pose proof (i_fl s H) as F. unfold flok in F. rewrite Ef in F. destruct F as (F1 & F2 & F3 & F4 & F6).
  assert (DR : dr s = wr s) by (unfold dr; rewrite F1; auto).
  destruct (cache s (pos / PS)) as [[d b]|] eqn:Ec.
  - constructor; cbn; try (apply H).
    + intros x Hx Hi. change (dr (set_fl (set_cache s (pos / PS) (Some (loc, false))) (FW2 pos hi mr loc))) with (dr s) in Hx. destruct (Z.eq_dec (x / PS) (pos / PS)) as [Eq|N].
      * rewrite Eq, upd_same. apply page_range in Eq; auto. apply (F6 x Eq Hi). lia.
      * rewrite upd_other by auto. pose proof (i_V2 s H x Hx Hi) as V. destruct (cache s (x / PS)) as [[d' b']|]; auto.
        destruct V as [V|V]; auto. unfold mid2 in V. rewrite Ef in V. discriminate.
    + intros x d' Hx Hi. change (dr (set_fl (set_cache s (pos / PS) (Some (loc, false))) (FW2 pos hi mr loc))) with (dr s) in Hx. destruct (Z.eq_dec (x / PS) (pos / PS)) as [Eq|N].
      * intros _. left. unfold mid2. cbn. rewrite Eq. apply Z.eqb_refl.
      * rewrite upd_other by auto. intros X. destruct (i_V3 s H x d' Hx Hi X) as [V|V]; auto. unfold mid2 in V. rewrite Ef in V. discriminate.
    + intros x Hx Hi Hb. destruct (Z.eq_dec (x / PS) (pos / PS)) as [Eq|N].
      * right. right. unfold mid. cbn. rewrite Eq. apply Z.eqb_refl.
      * destruct (i_V4 s H x Hx Hi Hb) as [[V V']|[V|V]]; auto.
        -- left. split; auto. unfold cok in *. cbn. rewrite upd_other by auto. auto.
        -- right. right. unfold mid in *. rewrite Ef in V. auto.
    + unfold flok. cbn. rewrite upd_same. refine (conj F1 (conj F2 (conj F3 (conj F4 (conj F6 _))))). auto.
  - constructor; cbn; try (apply H).
    + intros x Hx Hi. pose proof (i_V2 s H x Hx Hi) as V. destruct (cache s (x / PS)) as [[d' b']|]; auto.
      destruct V as [V|V]; auto. unfold mid2 in V. rewrite Ef in V. discriminate.
    + intros x d' Hx Hi X. destruct (i_V3 s H x d' Hx Hi X) as [V|V]; auto. unfold mid2 in V. rewrite Ef in V. discriminate.
    + intros x Hx Hi Hb. destruct (i_V4 s H x Hx Hi Hb) as [V|[V|V]]; auto. right. right. unfold mid in *. rewrite Ef in V. auto.
    + unfold flok. cbn. rewrite Ec. refine (conj F1 (conj F2 (conj F3 (conj F4 (conj F6 _))))). auto.
Qed.

Lemma fput2_inv : forall s, Inv s -> Inv (step s FPut2).
Proof.
  intros s H. cbn. destruct (fl s) as [| | | |pos hi mr loc] eqn:Ef; auto.
  pose proof (i_fl s H) as F. unfold flok in F. rewrite Ef in F. destruct F as (F1 & F2 & F3 & F4 & F6 & F7).
  assert (DR : dr s = wr s) by (unfold dr; rewrite F1; auto).
  assert (P1 : forall x, x / PS = pos / PS -> page_put PS (file s) (pos / PS) loc x = loc x) by (intros x E; unfold page_put; rewrite E, Z.eqb_refl; auto).
  assert (P2 : forall x, x / PS <> pos / PS -> page_put PS (file s) (pos / PS) loc x = file s x) by (intros x E; unfold page_put; destruct (Z.eqb_spec (x / PS) (pos / PS)); congruence).
  assert (M1 : forall q, mid PS s q = true -> q = pos / PS) by (intros q; unfold mid; rewrite Ef; lia).
  assert (M2 : forall q, mid2 PS s q = true -> q = pos / PS) by (intros q; unfold mid2; rewrite Ef; lia).
  match goal with |- Inv ?X => set (s' := X) in * end.
  assert (DR' : dr s' = dr s) by reflexivity.
  constructor; cbn; try (apply H); try rewrite DR'.
  - intros x Hx Hi. pose proof (i_V2 s H x Hx Hi) as V. destruct (Z.eq_dec (x / PS) (pos / PS)) as [Eq|N].
    + rewrite P1 by auto. assert (Q : loc x = val s x) by (apply page_range in Eq; auto; apply (F6 x Eq Hi); lia).
      destruct (cache s (x / PS)) as [[d' b']|]; auto.
    + rewrite P2 by auto. destruct (cache s (x / PS)) as [[d' b']|]; auto; destruct V as [V|V]; auto; apply M2 in V; congruence.
  - intros x d' Hx Hi X. destruct (Z.eq_dec (x / PS) (pos / PS)) as [Eq|N].
    + rewrite P1 by auto. right. apply page_range in Eq; auto. apply (F6 x Eq Hi). lia.
    + rewrite P2 by auto. destruct (i_V3 s H x d' Hx Hi X) as [V|V]; auto; apply M2 in V; congruence.
  - intros x Hx Hi Hb. destruct (Z.eq_dec (x / PS) (pos / PS)) as [Eq|N].
    + rewrite P1 by auto. assert (Q : pos <= x < pos + PS) by (apply page_range; auto).
      destruct (F6 x Q Hi) as [_ B]. destruct (B ltac:(lia)) as [B1|[B1|B1]]; [|congruence|auto].
      left. split; auto. unfold cok. cbn. rewrite Eq. destruct (cache s (pos / PS)) as [[d' b']|]; auto. rewrite F7; auto.
    + rewrite P2 by auto. destruct (i_V4 s H x Hx Hi Hb) as [V|[V|V]]; auto; apply M1 in V; congruence.
  - unfold flok. cbn. refine (conj _ (conj F3 F4)). rewrite <- Zplus_mod_idemp_r, Z.mod_same, Z.add_0_r by lia. auto.
Qed.

Lemma step_inv : forall s o, Inv s -> haz (step s o) = [] -> Inv (step s o).
Proof.
  intros s o H. pose proof (i_w s H) as W. pose proof (dr_ge s H) as Hd.
  destruct o.
  - cbn. intros _. destruct ((0 <? z) && (lastu s + z <=? wr s + C)) eqn:E; auto.
    assert (H1 : Inv (set_last s (lastu s + z))) by (apply last_inv; auto; lia).
    apply opn_inv; auto. intros r [<-|Hr]; [|apply (open_good _ r H1); auto].
    unfold openg. cbn. repeat split; try lia; try discriminate.
    + unfold lockm. cbn. pose proof (i_lk s H) as L. destruct (lk s); lia.
    + unfold flm. cbn. pose proof (i_fl s H) as F. unfold flok in F. destruct (fl s); lia.
  - cbn. intros _. destruct ((0 <? z) && (lastu s + z <=? wr s + C)) eqn:E; auto. apply last_inv; auto; lia.
  - cbn. intros _. destruct (find (fun r => fst (fst r) =? l) (opn s)) as [[[l' z] []]|] eqn:E; auto.
    apply find_some in E. destruct E as [E1 E2]. cbn in E2. apply Z.eqb_eq in E2. subst l'.
    destruct (i_open s H _ E1) as (A & B & D & _). cbn in A, B, D.
    assert (H1 : Inv (set_bit s (mark PS NP (bit s) l (l + z)))) by (apply bits_inv; auto; intros; apply mark_mono; auto).
    assert (BB : forall x, l <= x < l + z -> mark PS NP (bit s) l (l + z) (rp x) = true) by (intros; apply mark_true; auto).
    set (o := map (fun r => if (fst (fst r) =? l) && (snd (fst r) =? z) then (fst r, true) else r) (opn s)).
    assert (H2 : Inv (set_opn (set_bit s (mark PS NP (bit s) l (l + z))) o)).
    { apply opn_inv; auto. intros r Hr. apply in_map_iff in Hr. destruct Hr as (r0 & <- & Hr).
      pose proof (open_good _ r0 H1 Hr) as (Q1 & Q2 & Q3 & Q4 & Q5 & Q6).
      destruct ((fst (fst r0) =? l) && (snd (fst r0) =? z)) eqn:Er; [|unfold openg; auto 10].
      unfold openg; cbn in *. split; auto. split; auto. split; auto. split; auto. intros _ x Hx. apply BB. lia. }
    pose proof (inival_inv _ l z H2) as X. cbn in X. apply X; auto.
  - cbn. intros _. destruct (existsb _ (opn s)) eqn:E; auto. apply existsb_exists in E. destruct E as ([[l z] b] & Hr & E). cbn in E.
    destruct (i_open s H _ Hr) as (A & B & D & F). cbn in A, B, D, F. unfold inr in E.
    apply (store_inv s x (fun _ => v)); auto. left. split; [lia|]. left. apply F; lia.
  - cbn. intros _. apply opn_inv; auto. intros r Hr. apply filter_In in Hr. apply open_good; tauto.
  - cbn. intros _. destruct (ws s p) eqn:E; auto. destruct (_ && _) eqn:Eg; auto. unfold inr in Eg.
    apply ws_inv; auto; cbn; try (intros; discriminate); try (rewrite E; cbn; tauto).
    repeat split; try lia.
  - apply wstep_inv; auto.
  - cbn. intros _. destruct (rd s p) eqn:E; auto. destruct (_ && _) eqn:Eg; auto. apply rbegin_inv; auto.
  - intros _. apply rstep_inv; auto.
  - cbn. destruct (cache s q) eqn:E; auto. destruct (q * PS <? wr s); auto. intros Hz. apply hit_haz in Hz. destruct Hz. apply hit_inv. apply load_inv; auto.
  - cbn. intros _. destruct (cache s q) as [[d b]|] eqn:E; auto. apply oevict_inv; auto.
  - cbn. intros _. destruct (lk s) eqn:El; auto. destruct ((t <=? m) && below_open s m) eqn:Eb; auto.
    apply andb_true_iff in Eb. destruct Eb as [E1 E2]. apply below_facts in E2. destruct E2 as [E2 E3].
    pose proof (i_lk s H) as L. rewrite El in L.
    apply lk_inv; auto; try (unfold dr; cbn; rewrite El; lia).
    + repeat split; auto; try lia.
    + apply mid_lk; auto. congruence.
  - cbn. intros _. destruct (lk s) as [| |t m i mr| |] eqn:El; auto. destruct (Z.ltb_spec i n); auto.
    pose proof (i_lk s H) as L. rewrite El in L. destruct L as (L1 & L2 & L3 & L4 & L5 & L6).
    apply lk_inv; auto; try (unfold dr; cbn; rewrite El; lia).
    + repeat split; auto; try lia. intros p m' Hp Ha. unfold res_min. destruct (Z.eq_dec p i) as [->|N].
      * rewrite (act_res _ _ Ha). lia.
      * specialize (L6 p m' ltac:(lia) Ha). destruct (resv (ws s i)); lia.
    + apply mid_lk; auto. congruence.
  - intros _. apply eset_inv; auto.
  - cbn. intros _. destruct (lk s) as [| | |t c i|] eqn:El; auto.
    pose proof (i_lk s H) as L. rewrite El in L. destruct L as (L1 & L2 & L3 & L4 & L5).
    assert (Hm : fmid (fl s) = false) by (apply mid_lk; auto; congruence).
    destruct (Z.ltb_spec i n).
    + destruct (res_ok (ws s i) t) eqn:Er; auto. apply lk_inv; auto; try (unfold dr; cbn; rewrite El; lia).
      repeat split; auto; try lia. intros p m' Hp Ha. destruct (Z.eq_dec p i) as [->|N].
      * apply memw_act, act_res in Ha. unfold res_ok in Er. rewrite Ha in Er. lia.
      * apply (L5 p); auto. lia.
    + apply lk_inv; auto.
      * repeat split; auto; try lia. intros p m' Ha. pose proof (memw_rng s p m' H Ha). apply (L5 p); auto. lia.
      * unfold dr. cbn. rewrite El. intros x Hx. destruct (Z_lt_le_dec x (wr s)); auto. specialize (L3 x). lia.
      * unfold dr. cbn. rewrite El. lia.
  - apply epage_inv; auto.
  - intros _. apply eend_inv; auto.
  - cbn. intros _. destruct (lk s) eqn:El; auto.
    + destruct (floor_ok n s g) eqn:Ef; auto. pose proof (G_inv s g H Ef) as H1. destruct (Z.ltb_spec (wr s) g); auto.
      apply (jump_inv (set_G s g)); auto. cbn. lia.
    + destruct (floor_ok n s g) eqn:Ef; auto. apply G_inv; auto.
    + destruct (floor_ok n s g) eqn:Ef; auto. apply G_inv; auto.
    + destruct (floor_ok n s g) eqn:Ef; auto. apply G_inv; auto.
  - cbn. intros _. destruct (fl s) eqn:Ef; auto. destruct (below_open s mr) eqn:Eb; auto.
    apply below_facts in Eb. destruct Eb as [E1 E2]. destruct (b <=? Z.max a (wr s)); auto.
    apply fl_inv; auto; try (intros q; unfold mid, mid2; rewrite Ef; discriminate). unfold flok. cbn. repeat split; auto.
    rewrite down_eq, Z.mul_comm. apply Z.mod_mul. lia.
  - cbn. intros _. destruct (fl s) eqn:Ef; auto. destruct (lk s) eqn:El; auto.
    pose proof (i_lk s H) as L. rewrite El in L. apply lk_inv; auto; try (unfold dr; cbn; rewrite El; lia). rewrite Ef; auto.
  - cbn. intros _. destruct (fl s) eqn:Ef; auto. destruct (lk s) eqn:El; auto.
    pose proof (i_lk s H) as L. rewrite El in L. apply lk_inv; auto; try (unfold dr; cbn; rewrite El; lia). rewrite Ef; auto.
  - apply fpage_inv; auto.
  - intros _. apply fbyte_inv; auto.
  - intros _. apply fput1_inv; auto.
  - intros _. apply fput2_inv; auto.
  - cbn. intros _. assert (K : forall pos hi mr, fl s = FLoop pos hi mr -> Inv (set_fl s FIdle)).
    { intros pos hi mr E. apply fl_inv; auto; try (intros q; unfold mid, mid2; rewrite E; discriminate). unfold flok. cbn. auto. }
    destruct (fl s) eqn:Ef; auto. destruct (lk s); auto; destruct (hi <=? pos); eauto.
Qed.
End Proofs.
