(** Invariants of the status-map flush: vocabulary, and the steps of recorders,
    cache, drain and horizon scan. *)
From Coq Require Import ZArith List Bool Lia.
From Coq Require Import ZifyBool ZifyNat.
From Verif Require Import Base XidFlushModel XidFlushSpec.
Import ListNotations.
Open Scope Z_scope.

(** Arithmetic of pages. *)
Lemma win_inj : forall n a u v, 0 < n -> a <= u < a + n -> a <= v < a + n -> u mod n = v mod n -> u = v.
Proof.
  intros n a u v Hn Hu Hv E.
  pose proof (Z.div_mod u n ltac:(lia)). pose proof (Z.div_mod v n ltac:(lia)).
  rewrite E in H.
  assert (u / n = v / n) by nia. nia.
Qed.

Section Proofs.
Variables (S N : Z).
Hypothesis HS : 0 < S.
Hypothesis HN : 0 < N.

Notation step := (step S N).
Notation slot := (slot S N).
Notation rp := (rp S N).
Notation C := (C S N).

Lemma C_pos : 0 < C.
Proof. unfold XidFlushModel.C. nia. Qed.

Lemma rp_eq : forall x, rp x = (x / S) mod N.
Proof.
  intros x. unfold XidFlushModel.rp, XidFlushModel.C.
  rewrite (Z.mul_comm N S), Z.rem_mul_r by lia.
  rewrite Z.add_comm, (Z.mul_comm S), Z.div_add_l by lia.
  rewrite (Z.div_small (x mod S)) by (apply Z.mod_pos_bound; lia). lia.
Qed.

Lemma rp_page : forall w x y, w / S <= x / S < w / S + N -> w / S <= y / S < w / S + N ->
  rp x = rp y -> x / S = y / S.
Proof. intros w x y Hx Hy E. rewrite !rp_eq in E. eapply win_inj; eauto. Qed.

Lemma slot_inj : forall w x y, w / S <= x / S < w / S + N -> w / S <= y / S < w / S + N ->
  slot x = slot y -> x = y.
Proof.
  intros w x y Hx Hy E.
  apply (win_inj C (S * (w / S))).
  - apply C_pos.
  - unfold XidFlushModel.C. pose proof (Z.div_mod x S ltac:(lia)). pose proof (Z.mod_pos_bound x S HS). nia.
  - unfold XidFlushModel.C. pose proof (Z.div_mod y S ltac:(lia)). pose proof (Z.mod_pos_bound y S HS). nia.
  - exact E.
Qed.

Lemma div_le : forall x y, x <= y -> x / S <= y / S.
Proof. intros. apply Z.div_le_mono; lia. Qed.

Lemma down_eq : forall x, down S x = S * (x / S).
Proof. intros. unfold down. pose proof (Z.div_mod x S ltac:(lia)). lia. Qed.

Lemma div_lt_of : forall x p, x < S * p -> x / S < p.
Proof. intros. apply Z.div_lt_upper_bound; lia. Qed.

Lemma div_bounds : forall x, S * (x / S) <= x < S * (x / S) + S.
Proof. intros. pose proof (Z.div_mod x S ltac:(lia)). pose proof (Z.mod_pos_bound x S HS). lia. Qed.

Lemma mult_div : forall p, p mod S = 0 -> p = S * (p / S).
Proof. intros. pose proof (Z.div_mod p S ltac:(lia)). lia. Qed.

Lemma page_range : forall p x, p mod S = 0 -> (x / S = p / S <-> p <= x < p + S).
Proof.
  intros p x H. pose proof (mult_div p H). pose proof (div_bounds x). split; intros; nia.
Qed.

(** Vocabulary of the invariant. *)
Definition ringok (c : rpc) (f : option Z) (y : Z) : Prop :=
  match c with
  | RIdle | RCas _ => f = Some y
  | RMark v | RRe v => y = v
  | RSlow v | RWr v => y = v \/ f = None \/ f = Some y
  end.
Definition bufok (c : rpc) (f : option Z) (y : Z) : Prop :=
  match c with
  | RIdle | RCas _ => f = Some y
  | RMark v | RRe v | RSlow v | RWr v => y = v \/ f = None \/ f = Some y
  end.
Definition late (c : rpc) : bool := match c with RIdle | RCas _ => false | _ => true end.
(** y is as good as the ring's value of x *)
Definition okv (s : st) (x y : Z) : Prop :=
  y = ring s (slot x) \/ (exists v, pcs s x = RMark v /\ (fin s x = None \/ fin s x = Some y)).

Definition gbuf (s : st) (x : Z) : Z :=
  match fl s with
  | FW2 pos _ loc => if pos / S =? x / S then loc x else page_of s (x / S) x
  | _ => page_of s (x / S) x
  end.

Definition w2 (s : st) (q : Z) : bool := match fl s with FW2 pos _ _ => pos / S =? q | _ => false end.

Definition FC (s : st) (x : Z) : Prop :=
  In (file s x) (cand s x) /\ forall d b, cache s (x / S) = Some (d, b) -> In (d x) (cand s x).

Definition flok (s : st) : Prop :=
  match fl s with
  | FIdle | FDone | FSync _ => True
  | FLoop pos hi => pos mod S = 0
  | FCopy pos hi k loc => pos mod S = 0 /\ lk s = LFlush /\ 0 <= k <= S /\ W s < pos + S
  | FW1 pos hi loc => pos mod S = 0 /\ lk s = LFlush /\ W s < pos + S
  | FW2 pos hi loc => pos mod S = 0 /\ lk s = LFlush /\ W s < pos + S
  end.

Definition copied (s : st) (loc : Z -> Z) (x : Z) : Prop :=
  (bit s (rp x) = true \/ okv s x (loc x)) /\ (cand s x <> [] -> In (loc x) (cand s x)).

Definition midok (s : st) : Prop :=
  match fl s with
  | FCopy pos hi k loc =>
      forall x, ini s x = true -> x / S = pos / S ->
        (G s <= x < W s -> bufok (pcs s x) (fin s x) (loc x)) /\ (W s <= x -> x - pos < k -> copied s loc x)
  | FW1 pos hi loc =>
      forall x, ini s x = true -> x / S = pos / S ->
        (G s <= x < W s -> bufok (pcs s x) (fin s x) (loc x)) /\ (W s <= x -> copied s loc x)
  | FW2 pos hi loc =>
      (forall x, ini s x = true -> x / S = pos / S -> W s <= x -> copied s loc x) /\
      (forall d b, cache s (pos / S) = Some (d, b) -> d = loc /\ b = false)
  | _ => True
  end.

Definition goal (s : st) (x : Z) : Prop := fa s <= x < fb s /\ cand s x <> [].

Definition passok (s : st) : Prop :=
  match fl s with
  | FIdle => True
  | FLoop pos hi | FCopy pos hi _ _ | FW1 pos hi _ | FW2 pos hi _ =>
      (forall x, goal s x -> x < pos -> FC s x \/ x < W s) /\
      (forall x, goal s x -> x < hi \/ x < W s)
  | FSync q => (forall x, goal s x -> FC s x \/ x < W s) /\ (forall x, goal s x -> x / S < q -> FC s x)
  | FDone => forall x, goal s x -> In (dur s x) (cand s x)
  end.

Record Inv (s : st) : Prop := mkInv {
  i_ord : G s <= W s /\ W s <= cur s <= I s;
  i_lk : match lk s with LDrain c m => I s = m | _ => I s = W s end;
  i_fl : flok s;
  i_act : flush_active s = true -> G s <= fa s < fb s;
  i_ini : forall x, W s <= x < I s -> ini s x = true;
  i_page : forall x, ini s x = true -> x / S < W s / S + N;
  i_pc : forall x, pcs s x <> RIdle -> ini s x = true /\ G s <= x;
  i_fin : forall x, ini s x = true -> pcs s x = RIdle -> fin s x <> None;
  i_nini : forall x, ini s x = false -> fin s x = None /\ cand s x = [];
  i_slow : forall x v, (pcs s x = RSlow v -> x < I s) /\ (pcs s x = RWr v -> x < W s);
  i_ring : forall x, ini s x = true -> cur s <= x -> ringok (pcs s x) (fin s x) (ring s (slot x));
  i_buf : forall x, ini s x = true -> G s <= x < cur s -> bufok (pcs s x) (fin s x) (gbuf s x);
  i_clean : forall x d, ini s x = true -> G s <= x < cur s -> cache s (x / S) = Some (d, false) -> w2 s (x / S) = false ->
      file s x = d x \/ (late (pcs s x) = true /\ (fin s x = None \/ fin s x = Some (file s x)));
  i_dirty : forall x, ini s x = true -> cur s <= x ->
      bit s (rp x) = true \/ mid S s (x / S) = true \/
      (okv s x (file s x) /\ forall d b, cache s (x / S) = Some (d, b) -> okv s x (d x));
  i_mid : midok s;
  i_cand : forall x, cand s x <> [] ->
      (exists f, fin s x = Some f /\ In f (cand s x)) /\ (forall v, In v (pend (pcs s x)) -> In v (cand s x));
  i_pass : passok s
}.

Lemma init_inv : forall w, Inv (init w).
Proof.
  intros w. constructor; cbn; unfold flok, midok, passok, flush_active; cbn; auto; try lia; try discriminate;
    intros; try discriminate; try contradiction; try lia.
  - split; intros; discriminate.
Qed.

(** [ring] values of a number above the drain cursor are among its candidates. *)
Lemma ring_cand : forall s x, Inv s -> ini s x = true -> cur s <= x -> cand s x <> [] -> In (ring s (slot x)) (cand s x).
Proof.
  intros s x H Hi Hc Hn. destruct (i_cand _ H x Hn) as [(f & Ef & Hf) Hp].
  pose proof (i_ring _ H x Hi Hc) as R. unfold ringok in R.
  destruct (pcs s x) eqn:E; cbn in Hp.
  - rewrite Ef in R. injection R as R. rewrite <- R. exact Hf.
  - rewrite Ef in R. injection R as R. rewrite <- R. exact Hf.
  - rewrite R. apply Hp. auto.
  - rewrite R. apply Hp. auto.
  - destruct R as [R|[R|R]]; [rewrite R; apply Hp; auto|congruence|rewrite Ef in R; injection R as R; rewrite <- R; exact Hf].
  - destruct R as [R|[R|R]]; [rewrite R; apply Hp; auto|congruence|rewrite Ef in R; injection R as R; rewrite <- R; exact Hf].
Qed.

Lemma okv_cand : forall s x y, Inv s -> ini s x = true -> cur s <= x -> cand s x <> [] -> okv s x y -> In y (cand s x).
Proof.
  intros s x y H Hi Hc Hn [->|(v & Ev & Hv)].
  - apply ring_cand; auto.
  - destruct (i_cand _ H x Hn) as [(f & Ef & Hf) Hp]. destruct Hv as [Hv|Hv]; [congruence|].
    rewrite Ef in Hv. injection Hv as Hv. rewrite <- Hv. exact Hf.
Qed.

Lemma bufok_cand : forall s x y, Inv s -> cand s x <> [] -> bufok (pcs s x) (fin s x) y -> In y (cand s x).
Proof.
  intros s x y H Hn R. destruct (i_cand _ H x Hn) as [(f & Ef & Hf) Hp].
  unfold bufok in R. rewrite Ef in R.
  destruct (pcs s x) eqn:E; cbn in Hp;
    repeat match goal with
    | R : _ \/ _ |- _ => destruct R as [R|R]
    end; try discriminate; try (injection R as R; rewrite <- R; exact Hf); subst; apply Hp; auto.
Qed.

Lemma cand_ini : forall s x, Inv s -> cand s x <> [] -> ini s x = true.
Proof.
  intros s x H Hn. destruct (ini s x) eqn:E; auto. destruct (i_nini _ H x E). contradiction.
Qed.

Lemma live_page : forall s x, Inv s -> ini s x = true -> W s <= x -> W s / S <= x / S < W s / S + N.
Proof. intros s x H Hi Hw. split; [apply div_le; lia|apply (i_page _ H); auto]. Qed.

Lemma occupied_spec : forall s n x y, occupied s x n = true -> x <= y < x + Z.of_nat n -> ini s y = true.
Proof.
  induction n as [|n IH]; cbn; intros x y H Hy; [lia|].
  apply andb_prop in H. destruct H as [H1 H2].
  destruct (Z.eq_dec y x) as [->|Hne]; auto. apply (IH (x + 1)); auto. lia.
Qed.
Lemma quiet_spec : forall s n x y, quiet s x n = true -> x <= y < x + Z.of_nat n -> pcs s y = RIdle.
Proof.
  induction n as [|n IH]; cbn; intros x y H Hy; [lia|].
  apply andb_prop in H. destruct H as [H1 H2].
  destruct (Z.eq_dec y x) as [->|Hne]; auto.
  - destruct (pcs s x); congruence.
  - apply (IH (x + 1)); auto. lia.
Qed.

Lemma existsb_seq : forall (f : Z -> bool) n, existsb (fun k => f (Z.of_nat k)) (seq 0 n) = true ->
  exists k, 0 <= k < Z.of_nat n /\ f k = true.
Proof.
  intros f n H. apply existsb_exists in H. destruct H as (k & Hk & Hf). apply in_seq in Hk.
  exists (Z.of_nat k). split; [lia|exact Hf].
Qed.

(** Changing only the recorder of x (and possibly its completed status and candidates) for
    a process that is not between slot store and dirty bit. *)
Lemma upd_case : forall (A : Type) (f : Z -> A) x v (P : Z -> A -> Prop) y,
  (y = x -> P y v) -> (y <> x -> P y (f y)) -> P y (upd f x v y).
Proof.
  intros A f x v P y H1 H2. unfold upd. destruct (Z.eqb_spec y x); auto.
Qed.

Ltac fr H := first [ exact (i_ord _ H) | exact (i_lk _ H) | exact (i_fl _ H) | exact (i_act _ H) | exact (i_ini _ H)
  | exact (i_page _ H) | exact (i_pc _ H) | exact (i_fin _ H) | exact (i_nini _ H) | exact (i_slow _ H) | exact (i_ring _ H)
  | exact (i_buf _ H) | exact (i_clean _ H) | exact (i_dirty _ H) | exact (i_mid _ H) | exact (i_cand _ H) | exact (i_pass _ H) ].

Ltac eqx y x := destruct (Z.eq_dec y x) as [->|?];
  [rewrite ?upd_same in * | rewrite ?(upd_other _ _ x _ y) in * by assumption].

(** A pc change of x that keeps the value conditions. *)
Lemma setpc_inv : forall s x c,
  Inv s ->
  (c <> RIdle -> ini s x = true /\ G s <= x) ->
  (c = RIdle -> ini s x = true -> fin s x <> None) ->
  (forall v, (c = RSlow v -> x < I s) /\ (c = RWr v -> x < W s)) ->
  (ini s x = true -> cur s <= x -> ringok c (fin s x) (ring s (slot x))) ->
  (forall y, ini s x = true -> G s <= x < cur s -> bufok (pcs s x) (fin s x) y -> bufok c (fin s x) y) ->
  (x < cur s -> late (pcs s x) = true -> late c = true) ->
  (forall v, pcs s x = RMark v -> bit s (rp x) = true \/ c = RMark v \/ (x < cur s)) ->
  (forall v, In v (pend c) -> cand s x <> [] -> In v (cand s x)) ->
  Inv (set_pc s x c).
Proof.
  intros s x c H Hpc Hf Hsl Hr Hb Hl Hm Hp.
  assert (OK : forall y z, ini s y = true -> cur s <= y -> okv s y z -> bit s (rp y) = true \/ okv (set_pc s x c) y z).
  { intros y z Hi Hc [E|(v & Ev & Hv)].
    - right. left. exact E.
    - destruct (Z.eq_dec y x) as [->|Hne].
      + destruct (Hm v Ev) as [Hbit|[->|?]]; [left; exact Hbit| |lia]. right. right. exists v.
        cbn. rewrite upd_same. auto.
      + right. right. exists v. cbn. rewrite upd_other by auto. auto. }
  constructor; try fr H; cbn.
  - intros y. eqx y x; intros; [apply Hpc; auto|apply (i_pc _ H); auto].
  - intros y. eqx y x; intros; [apply Hf; auto|apply (i_fin _ H); auto].
  - intros y v. eqx y x; [apply Hsl|apply (i_slow _ H)].
  - intros y Hi Hc. change (cur (set_pc s x c)) with (cur s) in Hc. eqx y x; [apply Hr; auto|apply (i_ring _ H); auto].
  - intros y Hi Hc. change (cur (set_pc s x c)) with (cur s) in Hc.
    change (gbuf (set_pc s x c) y) with (gbuf s y). eqx y x; [apply Hb; auto; apply (i_buf _ H); auto|apply (i_buf _ H); auto].
  - intros y d Hi Hc Hca Hw. change (cur (set_pc s x c)) with (cur s) in Hc.
    change (w2 (set_pc s x c) (y / S)) with (w2 s (y / S)) in Hw.
    destruct (i_clean _ H y d Hi Hc Hca Hw) as [E|[E1 E2]]; [left; auto|right].
    split; [|exact E2]. eqx y x; auto. apply Hl; auto. lia.
  - intros y Hi Hc. change (cur (set_pc s x c)) with (cur s) in Hc.
    change (mid S (set_pc s x c)) with (mid S s).
    destruct (i_dirty _ H y Hi Hc) as [E|[E|[E1 E2]]]; auto.
    destruct (bit s (rp y)) eqn:Eb; auto. right. right. split.
    + destruct (OK y _ Hi Hc E1); [congruence|auto].
    + intros d b Hd. destruct (OK y _ Hi Hc (E2 d b Hd)); [congruence|auto].
  - assert (CP : forall loc y, ini s y = true -> cur s <= y -> copied s loc y -> copied (set_pc s x c) loc y).
    { intros loc y Hi Hc [E1 E2]. split; [|exact E2]. destruct E1 as [E1|E1]; [left; exact E1|].
      destruct (OK y _ Hi Hc E1); [left; auto|right; auto]. }
    pose proof (i_mid _ H) as M. pose proof (i_fl _ H) as F. unfold midok in *. unfold flok in F. cbn.
    assert (EC : lk s = LFlush -> cur s = W s) by (intros E; unfold cur; rewrite E; reflexivity).
    destruct (fl s); auto.
    + intros y Hi Hy. destruct (M y Hi Hy) as [M1 M2]. split; [intros Hg; pose proof (M1 Hg); rewrite <- EC in Hg by tauto; eqx y x; auto|]. intros. apply CP; auto. rewrite EC; tauto.
    + intros y Hi Hy. destruct (M y Hi Hy) as [M1 M2]. split; [intros Hg; pose proof (M1 Hg); rewrite <- EC in Hg by tauto; eqx y x; auto|]. intros. apply CP; auto. rewrite EC; tauto.
    + destruct M as [M1 M2]. split; [|exact M2]. intros. apply CP; auto. rewrite EC; tauto.
  - intros y Hn. destruct (i_cand _ H y Hn) as [E1 E2]. split; [exact E1|].
    eqx y x; auto.
Qed.


Lemma addcand_inv : forall s x v, Inv s -> Inv (add_cand s x v).
Proof.
  intros s x v H.
  assert (N0 : forall y, cand (add_cand s x v) y <> [] -> cand s y <> []).
  { intros y. cbn. eqx y x; auto. destruct (cand s x); auto. discriminate. }
  assert (IN : forall y z, In z (cand s y) -> In z (cand (add_cand s x v) y)).
  { intros y z. cbn. eqx y x; auto. destruct (cand s x); cbn; auto. }
  assert (FCC : forall y, FC s y -> FC (add_cand s x v) y).
  { intros y [A B]. split; [apply IN; exact A|]. intros d b E. apply IN. apply (B d b E). }
  assert (GG : forall y, goal (add_cand s x v) y -> goal s y).
  { intros y [A B]. split; [exact A|apply N0; exact B]. }
  constructor; try fr H.
  - intros y Hy. destruct (i_nini _ H y Hy) as [A B]. split; [exact A|].
    cbn. eqx y x; auto. rewrite B. reflexivity.
  - assert (CP : forall loc y, copied s loc y -> copied (add_cand s x v) loc y).
    { intros loc y [A B]. split; [exact A|]. intros E. apply IN. apply B. apply N0. exact E. }
    pose proof (i_mid _ H) as M. unfold midok in *. cbn.
    destruct (fl s); auto.
    + intros y Hi Hy. destruct (M y Hi Hy) as [M1 M2]. split; [exact M1|]. intros. apply CP; auto.
    + intros y Hi Hy. destruct (M y Hi Hy) as [M1 M2]. split; [exact M1|]. intros. apply CP; auto.
    + destruct M as [M1 M2]. split; [|exact M2]. intros. apply CP; auto.
  - intros y Hn. destruct (i_cand _ H y (N0 y Hn)) as [(f & E1 & E2) E3]. split.
    + exists f. split; [exact E1|apply IN; exact E2].
    + intros z Hz. apply IN. apply E3. exact Hz.
  - pose proof (i_pass _ H) as P. unfold passok in *. cbn. destruct (fl s); auto.
    1-4: (destruct P as [P1 P2]; split; [intros y Hy Hl; destruct (P1 y (GG y Hy) Hl); auto|intros y Hy; apply P2; auto]).
    + destruct P as [P1 P2]; split; [intros y Hy; destruct (P1 y (GG y Hy)); auto|intros y Hy Hq; apply FCC; apply P2; auto].
    + intros y Hy. apply IN. apply P. apply GG. exact Hy.
Qed.

Lemma setfin_inv : forall s x v, Inv s -> pcs s x = RRe v -> cur s <= x -> Inv (set_fin s x v).
Proof.
  intros s x v H Ex Hc0.
  destruct (i_pc _ H x ltac:(rewrite Ex; discriminate)) as [Hix Hgx].
  assert (OK : forall y z, okv s y z -> okv (set_fin s x v) y z).
  { intros y z [E|(u & Eu & Hu)]; [left; exact E|right]. exists u. split; [exact Eu|]. cbn.
    eqx y x; auto. congruence. }
  constructor; try fr H; cbn.
  - intros y Hi Hp. eqx y x; [discriminate|]. apply (i_fin _ H); auto.
  - intros y Hi. destruct (i_nini _ H y Hi) as [A B]. eqx y x; [congruence|auto].
  - intros y Hi Hc. change (cur (set_fin s x v)) with (cur s) in Hc.
    pose proof (i_ring _ H y Hi Hc) as R. eqx y x; auto. rewrite Ex in *. cbn in *. auto.
  - intros y Hi Hc. change (cur (set_fin s x v)) with (cur s) in Hc.
    pose proof (i_buf _ H y Hi Hc) as R. eqx y x; [lia|]. exact R.
  - intros y d Hi Hc Hca Hw. change (cur (set_fin s x v)) with (cur s) in Hc.
    pose proof (i_clean _ H y d Hi Hc Hca Hw) as R. eqx y x; [lia|]. exact R.
  - intros y Hi Hc. destruct (i_dirty _ H y Hi Hc) as [E|[E|[E1 E2]]]; auto. right. right.
    split; [apply OK; auto|]. intros d b Hd. apply OK. eauto.
  - assert (CP : forall loc y, copied s loc y -> copied (set_fin s x v) loc y).
    { intros loc y [[A|A] B]; (split; [|exact B]); [left; exact A|right; apply OK; exact A]. }
    pose proof (i_mid _ H) as M. unfold midok in *. cbn.
    destruct (fl s); auto.
    + intros y Hi Hy. destruct (M y Hi Hy) as [M1 M2]. split; [pose proof (i_ord _ H); intros Hg; pose proof (M1 Hg); eqx y x; [lia|auto]|]. intros. apply CP; auto.
    + intros y Hi Hy. destruct (M y Hi Hy) as [M1 M2]. split; [pose proof (i_ord _ H); intros Hg; pose proof (M1 Hg); eqx y x; [lia|auto]|]. intros. apply CP; auto.
    + destruct M as [M1 M2]. split; [|exact M2]. intros. apply CP; auto.
  - intros y Hn. destruct (i_cand _ H y Hn) as [(f & E1 & E2) E3]. split; auto.
    eqx y x; [exists v; split; auto; apply E3; rewrite Ex; left; reflexivity|eauto].
Qed.

Lemma setbit_inv : forall s b, Inv s -> Inv (set_bit s b true).
Proof.
  intros s b H.
  assert (B : forall y, bit s (rp y) = true -> bit (set_bit s b true) (rp y) = true).
  { intros y Hy. cbn. unfold upd. destruct (rp y =? b); auto. }
  constructor; try fr H.
  - intros y Hi Hc. destruct (i_dirty _ H y Hi Hc) as [E|[E|[E1 E2]]]; auto.
  - assert (CP : forall loc y, copied s loc y -> copied (set_bit s b true) loc y).
    { intros loc y [[A|A] B']; (split; [|exact B']); [left; apply B; exact A|right; exact A]. }
    pose proof (i_mid _ H) as M. unfold midok in *. cbn.
    destruct (fl s); auto.
    + intros y Hi Hy. destruct (M y Hi Hy) as [M1 M2]. split; [exact M1|]. intros. apply CP; auto.
    + intros y Hi Hy. destruct (M y Hi Hy) as [M1 M2]. split; [exact M1|]. intros. apply CP; auto.
    + destruct M as [M1 M2]. split; [|exact M2]. intros. apply CP; auto.
Qed.

(** Storing v in the slot of x: a successful swap, or the first store. *)
Lemma store_inv : forall s x v,
  Inv s -> cur s <= x -> x / S < W s / S + N ->
  (ini s x = true /\ pcs s x = RCas v) \/ (ini s x = false /\ pcs s x = RIdle) ->
  Inv (set_pc (set_ini (set_ring S N s x v) x) x (RMark v)).
Proof.
  intros s x v H Hcx Hpg Hx.
  set (s' := set_pc (set_ini (set_ring S N s x v) x) x (RMark v)).
  pose proof (i_ord _ H) as (O1 & O2 & O3).
  assert (FX : ini s x = false -> fin s x = None /\ cand s x = []) by apply (i_nini _ H).
  assert (RX : ini s x = true -> fin s x = Some (ring s (slot x))).
  { intros E. destruct Hx as [[_ Hp]|[Hf _]]; [|congruence].
    pose proof (i_ring _ H x E Hcx) as R. rewrite Hp in R. exact R. }
  assert (RO : forall y, ini s y = true -> cur s <= y -> y <> x -> ring s' (slot y) = ring s (slot y)).
  { intros y Hi Hc Hne. cbn. apply upd_other. intros E. apply Hne.
    apply (slot_inj (W s)); auto.
    - split; [apply div_le; lia|apply (i_page _ H); auto].
    - split; [apply div_le; lia|auto]. }
  assert (OK : forall y z, ini s y = true -> cur s <= y -> okv s y z -> okv s' y z).
  { intros y z Hi Hc [E|(u & Eu & Hu)].
    - destruct (Z.eq_dec y x) as [->|Hne].
      + right. exists v. cbn. rewrite upd_same. split; auto. right. rewrite E. apply RX. exact Hi.
      + left. rewrite RO; auto.
    - destruct (Z.eq_dec y x) as [->|Hne].
      + destruct Hx as [[_ Hp]|[_ Hp]]; congruence.
      + right. exists u. cbn. rewrite upd_other by auto. auto. }
  assert (OKX : forall z, ini s x = false -> okv s' x z).
  { intros z E. right. exists v. cbn. rewrite upd_same. split; auto. left. apply FX. exact E. }
  assert (INI : forall y, ini s' y = true -> y = x \/ ini s y = true).
  { intros y. cbn. eqx y x; auto. }
  constructor; try fr H.
  - intros y Hy. cbn. unfold upd. destruct (y =? x); auto. apply (i_ini _ H). exact Hy.
  - intros y Hy. destruct (INI y Hy) as [->|Hi]; auto. apply (i_page _ H). auto.
  - intros y Hy. cbn. cbn in Hy. eqx y x; [split; [auto|cbn in *; lia]|]. apply (i_pc _ H). auto.
  - intros y Hy Hp. cbn in Hp. eqx y x; [discriminate|]. destruct (INI y Hy) as [->|Hi]; [congruence|]. apply (i_fin _ H); auto.
  - intros y Hy. cbn in Hy. eqx y x; [discriminate|]. apply (i_nini _ H). auto.
  - intros y u. cbn. eqx y x; [split; discriminate|]. apply (i_slow _ H).
  - intros y Hi Hc. change (cur s') with (cur s) in Hc. destruct (Z.eq_dec y x) as [->|Hne].
    + cbn. rewrite !upd_same. reflexivity.
    + destruct (INI y Hi) as [->|Hi']; [congruence|]. rewrite RO by auto. cbn. rewrite upd_other by auto. apply (i_ring _ H); auto.
  - intros y Hi Hc. change (cur s') with (cur s) in Hc. change (G s') with (G s) in Hc.
    destruct (INI y Hi) as [->|Hi']; [lia|]. cbn. rewrite upd_other by lia.
    change (gbuf s' y) with (gbuf s y). apply (i_buf _ H); auto.
  - intros y d Hi Hc Hca Hw. change (cur s') with (cur s) in Hc. change (G s') with (G s) in Hc.
    destruct (INI y Hi) as [->|Hi']; [lia|]. cbn. rewrite upd_other by lia. apply (i_clean _ H); auto.
  - intros y Hi Hc. change (cur s') with (cur s) in Hc. change (mid S s') with (mid S s).
    destruct (ini s y) eqn:Ey.
    + destruct (i_dirty _ H y Ey Hc) as [E|[E|[E1 E2]]]; [left; exact E|right; left; exact E|right; right].
      split; [apply OK; auto|]. intros d b Hd. apply OK; auto. apply (E2 d b Hd).
    + destruct (INI y Hi) as [->|Hi']; [|congruence]. right. right. split; [apply OKX; auto|]. intros; apply OKX; auto.
  - assert (CP : forall loc y, ini s y = true -> cur s <= y -> copied s loc y -> copied s' loc y).
    { intros loc y Hi Hc [[A|A] B']; (split; [|exact B']); [left; exact A|right; apply OK; auto]. }
    assert (CX : forall loc, ini s x = false -> copied s' loc x).
    { intros loc E. split; [right; apply OKX; exact E|]. intros Hn. exfalso. apply Hn. cbn. apply FX. exact E. }
    pose proof (i_mid _ H) as M. pose proof (i_fl _ H) as F. unfold flok in F. unfold midok in *.
    change (fl s') with (fl s). change (W s') with (W s).
    assert (EC : lk s = LFlush -> cur s = W s) by (intros E; unfold cur; rewrite E; reflexivity).
    destruct (fl s); auto.
    + intros y Hi Hy. destruct (ini s y) eqn:Ey.
      * destruct (M y Ey Hy) as [M1 M2]. split; [intros Hg; cbn; rewrite upd_other; [exact (M1 Hg)|cbn in Hg; lia]|]. intros. apply CP; auto. rewrite EC; tauto.
      * destruct (INI y Hi) as [->|Hi']; [|congruence]. split; [lia|]. intros. apply CX. auto.
    + intros y Hi Hy. destruct (ini s y) eqn:Ey.
      * destruct (M y Ey Hy) as [M1 M2]. split; [intros Hg; cbn; rewrite upd_other; [exact (M1 Hg)|cbn in Hg; lia]|]. intros. apply CP; auto. rewrite EC; tauto.
      * destruct (INI y Hi) as [->|Hi']; [|congruence]. split; [lia|]. intros. apply CX. auto.
    + destruct M as [M1 M2]. split; [|exact M2]. intros y Hi Hy Hw. destruct (ini s y) eqn:Ey.
      * apply CP; auto. rewrite EC; tauto.
      * destruct (INI y Hi) as [->|Hi']; [|congruence]. apply CX. auto.
  - intros y Hn. change (cand s' y) with (cand s y) in *. destruct (i_cand _ H y Hn) as [E1 E3]. split; [exact E1|].
    cbn. eqx y x; [|apply E3]. intros u Hu. apply E3.
    destruct Hx as [[_ Hp]|[Hf _]]; [rewrite Hp; exact Hu|]. destruct (FX Hf). contradiction.
Qed.


(** Changing the cached copy of page q and the file's page q, with contents taken
    from the old copy or the old file. *)
Lemma chg_inv : forall s q f' c',
  Inv s ->
  (forall x, x / S <> q -> f' x = file s x) ->
  (forall x, x / S = q -> f' x = file s x \/ exists d b, cache s q = Some (d, b) /\ f' x = d x) ->
  (forall d' b', c' = Some (d', b') -> forall x, x / S = q ->
      d' x = file s x \/ exists d b, cache s q = Some (d, b) /\ d' x = d x) ->
  (forall x, x / S = q ->
      match c' with Some (d, _) => d x | None => f' x end = page_of s q x \/
      ((exists d, cache s q = Some (d, false)) /\ match c' with Some (d, _) => d x | None => f' x end = file s x)) ->
  (forall d', c' = Some (d', false) -> forall x, x / S = q ->
      f' x = d' x \/ (cache s q = Some (d', false) /\ f' x = file s x)) ->
  (w2 s q = true -> forall d' b', c' = Some (d', b') -> cache s q = Some (d', b')) ->
  Inv (set_cache (set_file s f') q c').
Proof.
  intros s q f' c' H F1 F2 C1 P K X.
  set (s' := set_cache (set_file s f') q c').
  assert (CO : forall y, y <> q -> cache s' y = cache s y) by (intros y Hy; cbn; apply upd_other; auto).
  assert (CQ : cache s' q = c') by (cbn; apply upd_same).
  assert (PO : forall y, y / S <> q -> page_of s' (y / S) y = page_of s (y / S) y).
  { intros y Hy. unfold page_of. rewrite CO by auto. cbn. destruct (cache s (y / S)) as [[d b]|]; auto. }
  assert (FCC : forall y, FC s y -> FC s' y).
  { intros y [A B]. destruct (Z.eq_dec (y / S) q) as [E|E].
    - split.
      + change (file s' y) with (f' y). change (cand s' y) with (cand s y).
        destruct (F2 y E) as [->|(d & b & E1 & ->)]; auto. eapply B. rewrite E. exact E1.
      + intros d b. rewrite E, CQ. intros E1. change (cand s' y) with (cand s y).
        destruct (C1 d b E1 y E) as [->|(d0 & b0 & E2 & ->)]; auto. eapply B. rewrite E. exact E2.
    - split.
      + change (file s' y) with (f' y). rewrite F1 by auto. exact A.
      + intros d b. rewrite CO by auto. apply B. }
  constructor; try fr H.
  - intros y Hi Hc. change (cur s') with (cur s) in Hc. change (G s') with (G s) in Hc.
    change (pcs s' y) with (pcs s y). change (fin s' y) with (fin s y).
    pose proof (i_buf _ H y Hi Hc) as B. unfold gbuf in *. change (fl s') with (fl s).
    assert (HH : w2 s (y / S) = false -> bufok (pcs s y) (fin s y) (page_of s (y / S) y) -> bufok (pcs s y) (fin s y) (page_of s' (y / S) y)).
    { intros Hw B'. destruct (Z.eq_dec (y / S) q) as [E|E]; [|rewrite PO by auto; exact B'].
      destruct (P y E) as [E1|[(d & E1) E2]].
      - replace (page_of s' (y / S) y) with (page_of s q y); [rewrite <- E; exact B'|].
        rewrite <- E1. unfold page_of. rewrite E, CQ. destruct c' as [[? ?]|]; reflexivity.
      - replace (page_of s' (y / S) y) with (file s y).
        2:{ rewrite <- E2. unfold page_of. rewrite E, CQ. destruct c' as [[? ?]|]; reflexivity. }
        destruct (i_clean _ H y d Hi Hc ltac:(rewrite E; exact E1) Hw) as [E3|[E3 E4]].
        + rewrite E3. unfold page_of in B'. rewrite E, E1 in B'. exact B'.
        + unfold bufok. unfold late in E3. destruct (pcs s y); try discriminate; tauto. }
    unfold w2 in HH. destruct (fl s); auto.
    destruct (Z.eqb_spec (pos / S) (y / S)); auto.
  - intros y d Hi Hc Hca Hw. change (cur s') with (cur s) in Hc. change (G s') with (G s) in Hc.
    change (w2 s' (y / S)) with (w2 s (y / S)) in Hw.
    change (pcs s' y) with (pcs s y). change (fin s' y) with (fin s y). change (file s' y) with (f' y).
    destruct (Z.eq_dec (y / S) q) as [E|E].
    + rewrite E, CQ in Hca. destruct (K d Hca y E) as [E1|[E1 E2]]; [left; exact E1|].
      rewrite E2. apply (i_clean _ H y d Hi Hc); auto. rewrite E. exact E1.
    + rewrite CO in Hca by auto. rewrite F1 by auto. apply (i_clean _ H y d Hi Hc); auto.
  - intros y Hi Hc. change (cur s') with (cur s) in Hc. change (mid S s') with (mid S s). change (bit s') with (bit s).
    destruct (i_dirty _ H y Hi Hc) as [E|[E|[E1 E2]]]; [left; auto|right; left; auto|right; right].
    change (okv s y (f' y) /\ (forall d b, cache s' (y / S) = Some (d, b) -> okv s y (d y))).
    destruct (Z.eq_dec (y / S) q) as [E|E].
    + split.
      * destruct (F2 y E) as [->|(d & b & E3 & ->)]; auto. eapply E2. rewrite E. exact E3.
      * intros d b. rewrite E, CQ. intros E3. destruct (C1 d b E3 y E) as [->|(d0 & b0 & E4 & ->)]; auto.
        eapply E2. rewrite E. exact E4.
    + split; [rewrite F1 by auto; exact E1|]. intros d b. rewrite CO by auto. apply E2.
  - pose proof (i_mid _ H) as M. unfold midok in *. change (fl s') with (fl s). destruct (fl s) eqn:EF; auto.
    destruct M as [M1 M2]. split; [exact M1|]. intros d b. destruct (Z.eq_dec (pos / S) q) as [E|E].
    + rewrite E, CQ. intros E1. apply (M2 d b). rewrite E. apply X; auto.
      unfold w2. rewrite EF. apply Z.eqb_eq. exact E.
    + rewrite CO by auto. apply M2.
  - pose proof (i_pass _ H) as Q. unfold passok in *. change (fl s') with (fl s). destruct (fl s); auto.
    1-4: (destruct Q as [P1 P2]; split; [intros y Hy Hl; destruct (P1 y Hy Hl); auto|exact P2]).
    destruct Q as [P1 P2]; split; [intros y Hy; destruct (P1 y Hy); auto|intros y Hy Hq; apply FCC; apply P2; auto].
Qed.

Lemma load_inv : forall s q, Inv s -> cache s q = None -> mid S s q = false -> Inv (set_cache s q (Some (file s, false))).
Proof.
  intros s q H E M.
  replace (set_cache s q (Some (file s, false))) with (set_cache (set_file s (file s)) q (Some (file s, false))) by reflexivity.
  apply chg_inv; auto.
  - intros d' b' E1 x _. injection E1 as <- <-. auto.
  - intros x _. left. unfold page_of. rewrite E. reflexivity.
  - intros d' E1 x _. injection E1 as <-. auto.
  - intros Hw. exfalso. unfold w2 in Hw. unfold mid in M. destruct (fl s); congruence.
Qed.

Lemma page_put_in : forall f q d x, x / S = q -> page_put S f q d x = d x.
Proof. intros f q d x E. unfold page_put. rewrite (proj2 (Z.eqb_eq _ _) E). reflexivity. Qed.
Lemma page_put_out : forall f q d x, x / S <> q -> page_put S f q d x = f x.
Proof. intros f q d x E. unfold page_put. rewrite (proj2 (Z.eqb_neq _ _) E). reflexivity. Qed.

Lemma evict_inv : forall s q d b, Inv s -> cache s q = Some (d, b) ->
  Inv (set_cache (if b then set_file s (page_put S (file s) q d) else s) q None).
Proof.
  intros s q d b H E. destruct b.
  - apply chg_inv; auto; try discriminate.
    + intros x Hx. apply page_put_out. auto.
    + intros x Hx. right. exists d, true. split; auto. apply page_put_in. auto.
    + intros x Hx. left. unfold page_of. rewrite E. apply page_put_in. auto.
  - replace (set_cache s q None) with (set_cache (set_file s (file s)) q None) by reflexivity.
    apply chg_inv; auto; try discriminate.
    intros x Hx. right. split; eauto.
Qed.

(** o_buffers_write of one recording. *)
Lemma wr_inv : forall s x v, Inv s -> pcs s x = RWr v -> mid S s (x / S) = false ->
  Inv (set_fin (set_pc (set_cache s (x / S) (Some (upd (page_of s (x / S)) x v, true))) x RIdle) x v).
Proof.
  intros s x v H Ex Mx.
  set (q := x / S) in *.
  set (s' := set_fin (set_pc (set_cache s q (Some (upd (page_of s q) x v, true))) x RIdle) x v).
  pose proof (i_ord _ H) as (O1 & O2 & O3).
  destruct (i_pc _ H x ltac:(rewrite Ex; discriminate)) as [Hix Hgx].
  pose proof (proj2 (i_slow _ H x v) Ex) as Hwx.
  assert (CO : forall y, y <> q -> cache s' y = cache s y) by (intros y Hy; cbn; apply upd_other; auto).
  assert (CQ : cache s' q = Some (upd (page_of s q) x v, true)) by (cbn; apply upd_same).
  assert (PO : forall y, y <> x -> page_of s' (y / S) y = page_of s (y / S) y).
  { intros y Hy. unfold page_of at 1. destruct (Z.eq_dec (y / S) q) as [E|E].
    - rewrite E, CQ. rewrite upd_other by auto. reflexivity.
    - rewrite CO by auto. unfold page_of. cbn. reflexivity. }
  assert (W2 : w2 s q = false) by (unfold w2, mid in *; destruct (fl s); auto).
  assert (VC : cand s x <> [] -> In v (cand s x)).
  { intros Hn. apply (proj2 (i_cand _ H x Hn)). rewrite Ex. left. reflexivity. }
  assert (FCC : forall y, cand s y <> [] -> FC s y -> FC s' y).
  { intros y Hn [A B]. split; [exact A|]. intros d b. destruct (Z.eq_dec (y / S) q) as [E|E].
    - rewrite E, CQ. intros E1. injection E1 as <- <-. change (cand s' y) with (cand s y).
      destruct (Z.eq_dec y x) as [->|Hne]; [rewrite upd_same; auto|rewrite upd_other by auto].
      unfold page_of. destruct (cache s q) as [[d0 b0]|] eqn:E2; auto. eapply B. rewrite E. exact E2.
    - rewrite CO by auto. apply B. }
  assert (OK : forall y z, cur s <= y -> okv s y z -> okv s' y z).
  { intros y z Hc [E|(u & Eu & Hu)]; [left; exact E|right]. exists u. cbn.
    rewrite !upd_other by lia. auto. }
  constructor; try fr H.
  - intros y Hy. cbn in *. eqx y x; [congruence|]. apply (i_pc _ H). auto.
  - intros y Hy Hp. cbn in *. eqx y x; [discriminate|]. apply (i_fin _ H); auto.
  - intros y Hy. cbn in *. eqx y x; [congruence|]. apply (i_nini _ H). auto.
  - intros y u. cbn. eqx y x; [split; discriminate|]. apply (i_slow _ H).
  - intros y Hi Hc. change (cur s') with (cur s) in Hc. cbn. rewrite !upd_other by lia. apply (i_ring _ H); auto.
  - intros y Hi Hc. change (cur s') with (cur s) in Hc. change (G s') with (G s) in Hc.
    destruct (Z.eq_dec y x) as [->|Hne].
    + cbn. rewrite !upd_same. unfold bufok.
      assert (gbuf s' x = page_of s' q x).
      { unfold gbuf. unfold w2 in W2. change (fl s') with (fl s). destruct (fl s); auto.
        fold q. rewrite W2. reflexivity. }
      rewrite H0. unfold page_of. rewrite CQ, upd_same. reflexivity.
    + cbn. rewrite !upd_other by auto.
      assert (gbuf s' y = gbuf s y).
      { unfold gbuf. change (fl s') with (fl s). destruct (fl s); auto. destruct (pos / S =? y / S); auto. }
      rewrite H0. apply (i_buf _ H); auto.
  - intros y d Hi Hc Hca Hw. change (cur s') with (cur s) in Hc. change (G s') with (G s) in Hc.
    change (w2 s' (y / S)) with (w2 s (y / S)) in Hw.
    destruct (Z.eq_dec (y / S) q) as [E|E]; [rewrite E, CQ in Hca; discriminate|].
    rewrite CO in Hca by auto. assert (y <> x) by (intros ->; auto).
    cbn. rewrite !upd_other by auto. apply (i_clean _ H y d Hi Hc); auto.
  - intros y Hi Hc. change (cur s') with (cur s) in Hc. change (mid S s') with (mid S s). change (bit s') with (bit s).
    destruct (i_dirty _ H y Hi Hc) as [E|[E|[E1 E2]]]; [left; auto|right; left; auto|right; right].
    split; [apply OK; auto|]. intros d b. destruct (Z.eq_dec (y / S) q) as [E|E].
    + rewrite E, CQ. intros E3. injection E3 as <- <-. rewrite upd_other by lia.
      apply OK; auto. unfold page_of. destruct (cache s q) as [[d0 b0]|] eqn:E4; auto. eapply E2. rewrite E. exact E4.
    + rewrite CO by auto. intros E3. apply OK; eauto.
  - assert (CP : forall loc y, cur s <= y -> copied s loc y -> copied s' loc y).
    { intros loc y Hc [[A|A] B']; (split; [|exact B']); [left; exact A|right; apply OK; auto]. }
    pose proof (i_mid _ H) as M. pose proof (i_fl _ H) as F. unfold flok in F. unfold midok in *.
    change (fl s') with (fl s). change (W s') with (W s).
    assert (EC : lk s = LFlush -> cur s = W s) by (intros E; unfold cur; rewrite E; reflexivity).
    assert (NQ : forall pos, (pos / S =? q) = false -> forall y, y / S = pos / S -> y <> x).
    { intros pos Hp y Hy ->. unfold q in Hp. lia. }
    unfold mid in Mx. destruct (fl s); auto.
    + intros y Hi Hy. destruct (M y Hi Hy) as [M1 M2]. split.
      * intros Hg. cbn. rewrite !upd_other by (eapply NQ; eauto). apply M1. exact Hg.
      * intros. apply CP; auto. rewrite EC; tauto.
    + intros y Hi Hy. destruct (M y Hi Hy) as [M1 M2]. split.
      * intros Hg. cbn. rewrite !upd_other by (eapply NQ; eauto). apply M1. exact Hg.
      * intros. apply CP; auto. rewrite EC; tauto.
    + destruct M as [M1 M2]. split.
      * intros y Hi Hy Hw. apply CP; [|apply M1; auto]. rewrite EC; tauto.
      * intros d b. rewrite CO by lia. apply M2.
  - intros y Hn. change (cand s' y) with (cand s y) in *. destruct (i_cand _ H y Hn) as [(f & E1 & E2) E3].
    cbn. eqx y x.
    + split; [exists v; auto|]. cbn. tauto.
    + split; [eauto|auto].
  - pose proof (i_pass _ H) as Q. unfold passok in *. change (fl s') with (fl s).
    assert (GG : forall y, goal s' y -> goal s y) by auto.
    destruct (fl s); auto.
    1-4: (destruct Q as [P1 P2]; split; [intros y Hy Hl; destruct (P1 y Hy Hl); auto; left; apply FCC; auto; apply Hy|exact P2]).
    destruct Q as [P1 P2]; split; [intros y Hy; destruct (P1 y Hy); auto; left; apply FCC; auto; apply Hy|intros y Hy Hq; apply FCC; [apply Hy|apply P2; auto]].
Qed.


(** No page is being flushed while somebody else holds the lock or nobody does. *)
Lemma not_mid : forall s, Inv s -> lk s <> LFlush ->
  (forall q, mid S s q = false) /\ (forall q, w2 s q = false) /\ midok s /\
  (forall y, gbuf s y = page_of s (y / S) y) /\
  (forall s', fl s' = fl s -> (match fl s with FLoop pos _ => pos mod S = 0 | _ => True end) -> flok s' /\ midok s' /\
     (forall q, mid S s' q = false) /\ (forall q, w2 s' q = false) /\ (forall y, gbuf s' y = page_of s' (y / S) y)).
Proof.
  intros s H Hl. pose proof (i_fl _ H) as F. unfold flok in F. unfold mid, w2, midok, gbuf.
  destruct (fl s) eqn:EF; try (exfalso; tauto);
    (repeat split; auto; unfold flok, midok, mid, w2, gbuf; rewrite ?H0; auto).
Qed.

Lemma loop_aligned : forall s, Inv s -> match fl s with FLoop pos _ => pos mod S = 0 | _ => True end.
Proof. intros s H. pose proof (i_fl _ H) as F. unfold flok in F. destruct (fl s); auto. Qed.

Lemma drain_inv : forall s m, Inv s -> lk s = LFree -> W s < m -> 
  occupied s (W s) (Z.to_nat (m - W s)) = true ->
  Inv (mk (ring s) (bit s) (W s) m (G s) (cache s) (file s) (dur s) (ini s) (LDrain (W s) m) (pcs s) (fl s) (fa s) (fb s) (fin s) (cand s) (haz s)).
Proof.
  intros s m H El Hm Ho. pose proof (i_ord _ H) as (O1 & O2 & O3).
  set (s' := mk _ _ _ _ _ _ _ _ _ _ _ _ _ _ _ _ _).
  assert (EI : I s = W s) by (pose proof (i_lk _ H) as L; rewrite El in L; exact L).
  assert (EC : cur s = W s) by (unfold cur; rewrite El; reflexivity).
  destruct (not_mid _ H ltac:(rewrite El; discriminate)) as (M1 & M2 & M3 & M4 & M5).
  destruct (M5 s' eq_refl (loop_aligned _ H)) as (F' & MM & M1' & M2' & M4').
  constructor; auto.
  - cbn. lia.
  - cbn. reflexivity.
  - exact (i_act _ H).
  - intros x Hx. cbn in Hx. cbn. eapply occupied_spec; eauto. lia.
  - exact (i_page _ H).
  - exact (i_pc _ H).
  - exact (i_fin _ H).
  - exact (i_nini _ H).
  - intros x v. destruct (i_slow _ H x v) as [A B]. cbn. split; [intros E; specialize (A E); lia|exact B].
  - intros x Hi Hc. cbn in Hc. apply (i_ring _ H); auto. lia.
  - intros x Hi Hc. cbn in Hc. rewrite M4'. change (page_of s' (x / S) x) with (page_of s (x / S) x). rewrite <- M4.
    apply (i_buf _ H); auto. lia.
  - intros x d Hi Hc Hca _. cbn in Hc. apply (i_clean _ H x d); auto. lia.
  - intros x Hi Hc. cbn in Hc. destruct (i_dirty _ H x Hi ltac:(lia)) as [E|[E|E]]; [left; exact E|rewrite M1 in E; discriminate|right; right; exact E].
  - exact (i_cand _ H).
  - exact (i_pass _ H).
Qed.

Lemma slot_other : forall s c e x, Inv s -> W s <= c -> c + e <= x -> 0 <= e -> (forall y, c <= y < c + e -> ini s y = true) ->
  ini s x = true ->
  existsb (fun k => slot (c + Z.of_nat k) =? slot x) (seq 0 (Z.to_nat e)) = false.
Proof.
  intros s c e x H Hw Hx He Hin Hi.
  destruct (existsb _ _) eqn:E; auto. exfalso.
  apply (existsb_seq (fun k => slot (c + k) =? slot x)) in E. destruct E as (k & Hk & E).
  apply Z.eqb_eq in E. apply (slot_inj (W s)) in E; [lia| |].
  - apply live_page; auto; [apply Hin; lia|lia].
  - apply live_page; auto; lia.
Qed.

Lemma dpage_inv : forall s c m, Inv s -> lk s = LDrain c m -> c < m ->
  negb (bit s (rp c)) && cdirty s (c / S) = false ->
  let e := Z.min (down S c + S) m in
  let full := (c =? down S c) && (e =? down S c + S) in
  Inv (mk (fun i => if existsb (fun k => slot (c + Z.of_nat k) =? i) (seq 0 (Z.to_nat (e - c))) then FROZEN else ring s i)
          (if full then upd (bit s) (rp c) false else bit s)
          (W s) (I s) (G s)
          (upd (cache s) (c / S) (Some (range_put (page_of s (c / S)) c e (fun x => ring s (slot x)), bit s (rp c))))
          (file s) (dur s) (ini s) (LDrain e m) (pcs s) (fl s) (fa s) (fb s) (fin s) (cand s) (haz s)).
Proof.
  intros s c m H El Hcm Hz e full. pose proof (i_ord _ H) as (O1 & O2 & O3).
  set (s' := mk _ _ _ _ _ _ _ _ _ _ _ _ _ _ _ _ _).
  assert (EI : I s = m) by (pose proof (i_lk _ H) as L; rewrite El in L; exact L).
  assert (EC : cur s = c) by (unfold cur; rewrite El; reflexivity).
  assert (EC' : cur s' = e) by reflexivity.
  destruct (not_mid _ H ltac:(rewrite El; discriminate)) as (M1 & M2 & M3 & M4 & M5).
  destruct (M5 s' eq_refl (loop_aligned _ H)) as (F' & MM & M1' & M2' & M4').
  pose proof (down_eq c) as DE. pose proof (div_bounds c) as DB.
  assert (He : c < e <= m /\ e <= S * (c / S) + S) by (unfold e; lia).
  assert (Hin : forall y, c <= y < e -> ini s y = true) by (intros y Hy; apply (i_ini _ H); lia).
  assert (PG : forall y, c <= y < e -> y / S = c / S).
  { intros y Hy. pose proof (div_bounds y). nia. }
  assert (RO : forall y, ini s y = true -> e <= y -> ring s' (slot y) = ring s (slot y)).
  { intros y Hi Hy. cbn. rewrite (slot_other s c (e - c) y H) by (auto; try lia; intros; apply Hin; lia). reflexivity. }
  assert (CO : forall y, y <> c / S -> cache s' y = cache s y) by (intros y Hy; cbn; apply upd_other; auto).
  assert (CQ : cache s' (c / S) = Some (range_put (page_of s (c / S)) c e (fun x => ring s (slot x)), bit s (rp c))) by (cbn; apply upd_same).
  assert (RP1 : forall y, c <= y < e -> range_put (page_of s (c / S)) c e (fun x => ring s (slot x)) y = ring s (slot y)).
  { intros y Hy. unfold range_put. rewrite (proj2 (andb_true_iff _ _)); auto. lia. }
  assert (RP2 : forall y, ~ (c <= y < e) -> range_put (page_of s (c / S)) c e (fun x => ring s (slot x)) y = page_of s (c / S) y).
  { intros y Hy. unfold range_put. destruct ((c <=? y) && (y <? e)) eqn:E; auto. lia. }
  assert (PO : forall y, y < c -> page_of s' (y / S) y = page_of s (y / S) y).
  { intros y Hy. unfold page_of at 1. destruct (Z.eq_dec (y / S) (c / S)) as [E|E].
    - rewrite E, CQ. rewrite RP2 by lia. reflexivity.
    - rewrite CO by auto. reflexivity. }
  assert (FCC : forall y, cand s y <> [] -> FC s y -> FC s' y).
  { intros y Hn [A B]. split; [exact A|]. intros d b. destruct (Z.eq_dec (y / S) (c / S)) as [E|E].
    - rewrite E, CQ. intros E1. injection E1 as <- <-. change (cand s' y) with (cand s y).
      destruct (Z_le_dec c y) as [E2|E2]; [destruct (Z_lt_dec y e) as [E3|E3]|].
      + rewrite RP1 by lia. apply ring_cand; auto; lia.
      + rewrite RP2 by lia. unfold page_of. destruct (cache s (c / S)) as [[d0 b0]|] eqn:E4; auto. eapply B. rewrite E. exact E4.
      + rewrite RP2 by lia. unfold page_of. destruct (cache s (c / S)) as [[d0 b0]|] eqn:E4; auto. eapply B. rewrite E. exact E4.
    - rewrite CO by auto. apply B. }
  assert (OK : forall y z, ini s y = true -> e <= y -> okv s y z -> okv s' y z).
  { intros y z Hi Hy [E|E]; [left; rewrite RO; auto|right; exact E]. }
  constructor; auto.
  - rewrite EC'. cbn. lia.
  - exact (i_act _ H).
  - exact (i_ini _ H).
  - exact (i_page _ H).
  - exact (i_pc _ H).
  - exact (i_fin _ H).
  - exact (i_nini _ H).
  - exact (i_slow _ H).
  - intros x Hi Hc. rewrite EC' in Hc. rewrite RO by auto. apply (i_ring _ H); auto. lia.
  - intros x Hi Hc. rewrite EC' in Hc. change (G s') with (G s) in Hc. rewrite M4'.
    change (pcs s' x) with (pcs s x). change (fin s' x) with (fin s x).
    destruct (Z_lt_dec x c) as [E|E].
    + rewrite PO by auto. rewrite <- M4. apply (i_buf _ H); auto. lia.
    + unfold page_of. rewrite PG, CQ by lia. rewrite RP1 by lia.
      pose proof (i_ring _ H x Hi ltac:(lia)) as R. unfold ringok in R. unfold bufok. destruct (pcs s x); auto.
  - intros x d Hi Hc Hca _. rewrite EC' in Hc. change (G s') with (G s) in Hc.
    change (pcs s' x) with (pcs s x). change (fin s' x) with (fin s x). change (file s' x) with (file s x).
    destruct (Z.eq_dec (x / S) (c / S)) as [E|E].
    + rewrite E, CQ in Hca. injection Hca as <- Eb. rewrite Eb in Hz. cbn in Hz.
      destruct (Z_lt_dec x c) as [E1|E1].
      * rewrite RP2 by lia. unfold page_of. unfold cdirty in Hz.
        destruct (cache s (c / S)) as [[d0 b0]|] eqn:E2; [|left; reflexivity]. subst b0.
        apply (i_clean _ H x d0); auto; [lia|rewrite E; exact E2].
      * rewrite RP1 by lia.
        destruct (i_dirty _ H x Hi ltac:(lia)) as [E2|[E2|[E2 _]]].
        -- exfalso. rewrite (rp_eq x), E, <- (rp_eq c) in E2. congruence.
        -- rewrite M1 in E2. discriminate.
        -- destruct E2 as [E2|(v & Ev & E2)]; [left; exact E2|right]. rewrite Ev. split; auto.
    + rewrite CO in Hca by auto. apply (i_clean _ H x d); auto.
      destruct (Z_lt_dec x c); [lia|]. exfalso. apply E. apply PG. lia.
  - intros x Hi Hc. rewrite EC' in Hc. change (ini s' x) with (ini s x) in Hi.
    destruct (i_dirty _ H x Hi ltac:(lia)) as [E|[E|[E1 E2]]].
    + left. cbn. destruct full eqn:EF; auto. rewrite upd_other; auto. intros ER.
      apply (rp_page (W s)) in ER; [|apply live_page; auto; lia|apply live_page; auto; [apply Hin; lia|lia]].
      unfold full in EF. pose proof (div_bounds x). rewrite ER in *. lia.
    + rewrite M1 in E. discriminate.
    + right. right. split; [apply OK; auto|]. intros d b. destruct (Z.eq_dec (x / S) (c / S)) as [E|E].
      * rewrite E, CQ. intros E3. injection E3 as <- <-. rewrite RP2 by lia. apply OK; auto.
        unfold page_of. destruct (cache s (c / S)) as [[d0 b0]|] eqn:E4; auto. eapply E2. rewrite E. exact E4.
      * rewrite CO by auto. intros E3. apply OK; auto. eapply E2; eauto.
  - exact (i_cand _ H).
  - pose proof (i_pass _ H) as Q. unfold passok in *. change (fl s') with (fl s).
    destruct (fl s); auto.
    1-4: (destruct Q as [P1 P2]; split; [intros y Hy Hl; destruct (P1 y Hy Hl); auto; left; apply FCC; auto; apply Hy|exact P2]).
    destruct Q as [P1 P2]; split; [intros y Hy; destruct (P1 y Hy); auto; left; apply FCC; auto; apply Hy|intros y Hy Hq; apply FCC; [apply Hy|apply P2; auto]].
Qed.

Lemma dend_inv : forall s m, Inv s -> lk s = LDrain m m ->
  Inv (mk (ring s) (bit s) m (I s) (G s) (cache s) (file s) (dur s) (ini s) LFree (pcs s) (fl s) (fa s) (fb s) (fin s) (cand s) (haz s)).
Proof.
  intros s m H El. pose proof (i_ord _ H) as (O1 & O2 & O3).
  set (s' := mk _ _ _ _ _ _ _ _ _ _ _ _ _ _ _ _ _).
  assert (EI : I s = m) by (pose proof (i_lk _ H) as L; rewrite El in L; exact L).
  assert (EC : cur s = m) by (unfold cur; rewrite El; reflexivity).
  assert (EC' : cur s' = m) by reflexivity.
  destruct (not_mid _ H ltac:(rewrite El; discriminate)) as (M1 & M2 & M3 & M4 & M5).
  destruct (M5 s' eq_refl (loop_aligned _ H)) as (F' & MM & M1' & M2' & M4').
  assert (WP : W s / S <= m / S) by (apply div_le; lia).
  constructor; auto.
  - rewrite EC'. cbn. lia.
  - exact (i_act _ H).
  - intros x Hx. cbn in Hx. lia.
  - intros x Hx. cbn. pose proof (i_page _ H x Hx). lia.
  - exact (i_pc _ H).
  - exact (i_fin _ H).
  - exact (i_nini _ H).
  - intros x v. destruct (i_slow _ H x v) as [A B]. cbn. split; [exact A|intros E; specialize (B E); lia].
  - intros x Hi Hc. rewrite EC' in Hc. apply (i_ring _ H); auto. lia.
  - intros x Hi Hc. rewrite EC' in Hc. rewrite M4'. change (page_of s' (x / S) x) with (page_of s (x / S) x). rewrite <- M4.
    apply (i_buf _ H); auto. cbn in Hc. lia.
  - intros x d Hi Hc Hca _. rewrite EC' in Hc. cbn in Hc. apply (i_clean _ H x d); auto. lia.
  - intros x Hi Hc. rewrite EC' in Hc. destruct (i_dirty _ H x Hi ltac:(lia)) as [E|[E|E]]; [left; exact E|rewrite M1 in E; discriminate|right; right; exact E].
  - exact (i_cand _ H).
  - pose proof (i_pass _ H) as Q. unfold passok in *. change (fl s') with (fl s).
    change (W s') with m. 
    destruct (fl s); auto.
    1-4: (destruct Q as [P1 P2]; split; [intros y Hy Hl; destruct (P1 y Hy Hl); [left; auto|right; lia]|intros y Hy; destruct (P2 y Hy); [left; auto|right; lia]]).
    destruct Q as [P1 P2]; split; [intros y Hy; destruct (P1 y Hy); [left; auto|right; lia]|exact P2].
Qed.

Lemma clear_bits_other : forall s a b x, Inv s -> a = W s -> (forall y, a <= y < b -> ini s y = true) -> a < b -> b <= x ->
  ini s x = true -> clear_bits S N (bit s) a b (rp x) = bit s (rp x).
Proof.
  intros s a b x H -> Hin Hab Hx Hi. unfold clear_bits.
  destruct (existsb _ _) eqn:E; auto. exfalso.
  apply (existsb_seq (fun k => rp (up S (W s) + k * S) =? rp x)) in E. destruct E as (k & Hk & E).
  apply Z.eqb_eq in E.
  set (u := up S (W s)) in *. 
  assert (Hu : W s <= u) by (unfold u, up; pose proof (div_bounds (W s + S - 1)); lia).
  assert (HU : u mod S = 0) by (unfold u, up; apply Z.mod_mul; lia).
  pose proof (mult_div u HU) as MU. pose proof (down_eq b) as DE. pose proof (div_bounds b).
  assert (Hlt : u + k * S < b).
  { assert (k * S < down S b - u); [|lia]. 
    assert ((down S b - u) / S = b / S - u / S).
    { replace (down S b - u) with ((b / S - u / S) * S) by nia. apply Z.div_mul. lia. }
    nia. }
  assert (HK : 0 <= k) by lia.
  apply (rp_page (W s)) in E; [|apply live_page; auto; [apply Hin; nia|nia]|apply live_page; auto; lia].
  replace (u + k * S) with ((u / S + k) * S) in * by nia. rewrite Z.div_mul in E by lia.
  pose proof (div_bounds x). 
  assert (b / S <= x / S) by (apply div_le; lia).
  assert (k < b / S - u / S).
  { assert ((down S b - u) / S = b / S - u / S).
    { replace (down S b - u) with ((b / S - u / S) * S) by nia. apply Z.div_mul. lia. }
    lia. }
  lia.
Qed.

Lemma fast_inv : forall s g, Inv s -> lk s = LFree -> W s < g ->
  occupied s (W s) (Z.to_nat (g - W s)) = true -> quiet s (G s) (Z.to_nat (g - G s)) = true ->
  (flush_active s = true -> g <= fa s) ->
  Inv (mk (fun i => if existsb (fun k => slot (W s + Z.of_nat k) =? i) (seq 0 (Z.to_nat (g - W s))) then FROZEN else ring s i)
          (clear_bits S N (bit s) (W s) g)
          g g g (cache s) (file s) (dur s) (ini s) LFree (pcs s) (fl s) (fa s) (fb s) (fin s) (cand s) (haz s)).
Proof.
  intros s g H El Hg Ho Hq Hfa. pose proof (i_ord _ H) as (O1 & O2 & O3).
  set (s' := mk _ _ _ _ _ _ _ _ _ _ _ _ _ _ _ _ _).
  assert (EI : I s = W s) by (pose proof (i_lk _ H) as L; rewrite El in L; exact L).
  assert (EC : cur s = W s) by (unfold cur; rewrite El; reflexivity).
  assert (EC' : cur s' = g) by reflexivity.
  destruct (not_mid _ H ltac:(rewrite El; discriminate)) as (M1 & M2 & M3 & M4 & M5).
  destruct (M5 s' eq_refl (loop_aligned _ H)) as (F' & MM & M1' & M2' & M4').
  assert (Hin : forall y, W s <= y < g -> ini s y = true) by (intros y Hy; eapply occupied_spec; eauto; lia).
  assert (WP : W s / S <= g / S) by (apply div_le; lia).
  assert (RO : forall y, ini s y = true -> g <= y -> ring s' (slot y) = ring s (slot y)).
  { intros y Hi Hy. cbn. rewrite (slot_other s (W s) (g - W s) y H) by (auto; try lia; intros; apply Hin; lia). reflexivity. }
  assert (OK : forall y z, ini s y = true -> g <= y -> okv s y z -> okv s' y z).
  { intros y z Hi Hy [E|E]; [left; rewrite RO; auto|right; exact E]. }
  constructor; auto.
  - rewrite EC'. cbn. lia.
  - intros E. cbn. pose proof (i_act _ H E). specialize (Hfa E). lia.
  - intros x Hx. cbn in Hx. lia.
  - intros x Hx. cbn. pose proof (i_page _ H x Hx). lia.
  - intros x Hx. cbn in *. destruct (i_pc _ H x Hx) as [A B]. split; auto.
    destruct (Z_lt_dec x g); [|lia]. exfalso. apply Hx. eapply quiet_spec; eauto. lia.
  - exact (i_fin _ H).
  - exact (i_nini _ H).
  - intros x v. destruct (i_slow _ H x v) as [A B]. cbn. split; intros E; [specialize (A E)|specialize (B E)]; lia.
  - intros x Hi Hc. rewrite EC' in Hc. rewrite RO by auto. apply (i_ring _ H); auto. lia.
  - intros x Hi Hc. rewrite EC' in Hc. cbn in Hc. lia.
  - intros x d Hi Hc Hca _. rewrite EC' in Hc. cbn in Hc. lia.
  - intros x Hi Hc. rewrite EC' in Hc. change (ini s' x) with (ini s x) in Hi.
    destruct (i_dirty _ H x Hi ltac:(lia)) as [E|[E|[E1 E2]]].
    + left. cbn. rewrite (clear_bits_other s); auto.
    + rewrite M1 in E. discriminate.
    + right. right. split; [apply OK; auto|]. intros d b Hd. apply OK; auto. eapply E2; eauto.
  - exact (i_cand _ H).
  - pose proof (i_pass _ H) as Q. unfold passok in *. change (fl s') with (fl s).
    change (W s') with g. 
    destruct (fl s); auto.
    1-4: (destruct Q as [P1 P2]; split; [intros y Hy Hl; destruct (P1 y Hy Hl); [left; auto|right; lia]|intros y Hy; destruct (P2 y Hy); [left; auto|right; lia]]).
    destruct Q as [P1 P2]; split; [intros y Hy; destruct (P1 y Hy); [left; auto|right; lia]|exact P2].
Qed.

End Proofs.
