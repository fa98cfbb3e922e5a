(** The invariant of the transaction-status map. *)
From Coq Require Import ZArith List Bool Lia.
From Coq Require Import ZifyBool.
From Verif Require Import Base XidMapModel XidMapSpec.
Import ListNotations.
Open Scope Z_scope.

Lemma csn_eqb_spec : forall a b, reflect (a = b) (csn_eqb a b).
Proof.
  intros a b. destruct a, b; cbn; try (constructor; congruence).
  - destruct (Z.eqb_spec p p0), (Bool.eqb_spec committing committing0); cbn; constructor; congruence.
  - destruct (Z.eqb_spec n n0); constructor; congruence.
Qed.

Section Proofs.
Variable size : Z.
Hypothesis size_pos : 0 < size.

Lemma slot_inj : forall a x y, a <= x < a + size -> a <= y < a + size -> slot size x = slot size y -> x = y.
Proof.
  intros a x y Hx Hy E. unfold slot in E.
  pose proof (Z.div_mod x size ltac:(lia)) as Dx. pose proof (Z.div_mod y size ltac:(lia)) as Dy.
  rewrite E in Dx.
  assert (x - y = size * (x / size - y / size)) by lia.
  assert (x / size - y / size = 0) by nia. lia.
Qed.

Lemma slot_shift : forall x, slot size (x + size) = slot size x.
Proof. intros x. unfold slot. rewrite <- (Z.mul_1_l size) at 1. rewrite Z.mod_add by lia. reflexivity. Qed.

Lemma slot_in_window : forall a x, exists y, a <= y < a + size /\ slot size y = slot size x.
Proof.
  intros a x. exists (a + (x - a) mod size). pose proof (Z.mod_pos_bound (x - a) size size_pos).
  split; [lia|]. unfold slot. rewrite Zplus_mod_idemp_r. f_equal. lia.
Qed.

Definition front (s : st) : Z :=
  match lk s with LDrain c _ _ _ => c | LFast c _ => c | _ => W s end.

Definition sta (s : st) (x : Z) : csn := status x (log s).

Definition mine (p : Z) (v : csn) : Prop := exists b, v = Special p b.
Definition vok (p : Z) (v : csn) : Prop := mine p v \/ final v = true.

(** Per-context invariant. *)
Definition CI (f : Z -> csn) (i w r : Z) (p : Z) (c : pc) : Prop :=
  match c with
  | PIdle => True
  | PStart x => f x = Frozen
  | PStart2 x => f x = Special p false
  | PStart3 x => f x = Special p false /\ x < i
  | PStart4 x => f x = Special p false /\ x < w
  | PRun x => mine p (f x)
  | PSet1 x v => mine p (f x) /\ vok p v
  | PSet2 x v old => mine p (f x) /\ vok p v /\ (i <= x -> old = f x)
  | PSet3 x v old => mine p (f x) /\ vok p v /\ old = f x
  | PSet4 x v => f x = v /\ vok p v
  | PSetW x v => x < i /\ vok p v /\ (mine p (f x) \/ f x = v)
  | PSetB x v => x < w /\ vok p v /\ (mine p (f x) \/ f x = v)
  | PAdv x => final (f x) = true
  | PAdvCas x y => final (f x) = true /\ final (f y) = true
  | PAdvMap x y => final (f x) = true /\ 0 <= y <= r
  end.

Definition LI (s : st) : Prop :=
  match lk s with
  | LFree | LHold => W s = I s
  | LDrain c e m loc =>
      W s <= e <= c /\ c <= m /\ m = I s /\
      (forall x, W s <= x < e -> G s <= x -> buf s x = sta s x) /\
      (forall x, e <= x < c -> loc x = sta s x)
  | LFast c g => W s <= c <= g /\ g = I s /\ g <= G s
  end.

Record Inv (s : st) : Prop := mkInv {
  i_b : 0 <= W s /\ W s <= I s /\ I s <= W s + size /\ 0 <= G s /\ G s <= R s /\ 0 <= nextXid s;
  i_lk : LI s;
  i_ring : forall y, front s <= y < front s + size -> ring s (slot size y) = sta s y;
  i_high : forall y, W s + size - 1 <= y -> sta s y = Frozen;
  i_low : forall y, sta s y <> Frozen -> 0 <= y < nextXid s;
  i_init : forall y, 0 <= y < I s -> sta s y <> Frozen;
  i_run : forall y, 0 <= y < R s -> final (sta s y) = true;
  i_buf : forall y, G s <= y < W s -> buf s y = sta s y;
  i_ctx : forall p, CI (sta s) (I s) (W s) (R s) p (pcs s p);
  i_num : forall p x, number (pcs s p) = Some x -> 0 <= x < nextXid s;
  i_dist : forall p q x, number (pcs s p) = Some x -> number (pcs s q) = Some x -> p = q;
  i_own : forall x q b, sta s x = Special q b -> number (pcs s q) = Some x;
  i_fin : forall a b x, log s = a ++ b -> final (status x b) = true -> sta s x = status x b;
}.

(** Reader facts. *)
Definition RI (l : list ev) (i w g : Z) (wsz : Z) (r : Z) (c : rst) : Prop :=
  match c with
  | RIdle => True
  | R1 x => 0 <= x < wsz /\ current_during l r x (status x l)
  | R2 x v => 0 <= x < wsz /\ current_during l r x (status x l) /\ (x < i \/ current_during l r x v)
  | R3 x => 0 <= x < i /\ current_during l r x (status x l)
  | R4 x => 0 <= x < w /\ current_during l r x (status x l)
  | R5 x v => 0 <= x < w /\ (x < g \/ current_during l r x v)
  | RDone x v => 0 <= x < wsz /\ ((v = Frozen /\ x < g) \/ current_during l r x v)
  end.

Definition RInv (s : st) : Prop := forall r, RI (log s) (I s) (W s) (G s) (W s + size) r (rds s r).

Lemma ci_mono : forall f f' i i' w w' r r' p c,
  CI f i w r p c -> (forall x, number c = Some x -> f' x = f x) ->
  (forall x, final (f x) = true -> f' x = f x) ->
  i <= i' -> w <= w' -> r <= r' -> CI f' i' w' r' p c.
Proof.
  intros f f' i i' w w' r r' p c H E F Hi Hw Hr.
  destruct c; cbn in *; try rewrite (E _ eq_refl);
    repeat match goal with H : _ /\ _ |- _ => destruct H end;
    repeat split; auto; try lia.
  - intros Q. rewrite (H1 ltac:(lia)). reflexivity.
  - rewrite (F _ H0). exact H0.
Qed.

Lemma during_app : forall l e r x v, current_during l r x v -> (forall y, e <> Beg r y) -> current_during (e :: l) r x v.
Proof.
  intros l e r x v (a & d & b & E & N & Q) H. exists (e :: a), d, b. subst l.
  split; [reflexivity|]. split; [|exact Q].
  intros y [K|K]; [exact (H y K)|exact (N y K)].
Qed.

(** The log's end is itself a moment of the lookup. *)
Lemma during_now : forall l e r x v, current_during l r x v -> (forall y, e <> Beg r y) ->
  current_during (e :: l) r x (status x (e :: l)).
Proof.
  intros l e r x v (a & d & b & E & N & Q) H. exists [], (e :: a ++ d), b.
  subst l. split; [cbn; rewrite <- app_assoc; reflexivity|]. split.
  - intros y [K|K]; [exact (H y K)|exact (N y K)].
  - cbn [app]. rewrite <- app_assoc. reflexivity.
Qed.

Lemma ri_mono : forall l i i' w w' g g' z z' r c,
  RI l i w g z r c -> i <= i' -> w <= w' -> g <= g' -> z <= z' -> RI l i' w' g' z' r c.
Proof.
  intros l i i' w w' g g' z z' r c H Hi Hw Hg Hz.
  destruct c; cbn in *; auto; intuition (auto; try lia).
Qed.

Lemma ri_log : forall l e i w g z r c, RI l i w g z r c -> (forall y, e <> Beg r y) -> RI (e :: l) i w g z r c.
Proof.
  intros l e i w g z r c H N.
  destruct c; cbn [RI] in *; auto;
    repeat match goal with H : _ /\ _ |- _ => destruct H | H : _ \/ _ |- _ => destruct H end;
    repeat split; try lia; try (eapply during_now; eassumption);
    try (left; lia); try (left; split; [assumption|lia]);
    try (right; apply during_app; assumption).
Qed.

(** Occupied slots. *)
Lemma occupied_spec : forall s n x, occupied size s x n = true ->
  forall y, x <= y < x + Z.of_nat n -> ring s (slot size y) <> Frozen.
Proof.
  intros s n. induction n as [|n IH]; intros x H y Hy.
  - lia.
  - cbn [occupied] in H. apply andb_true_iff in H as [H1 H2].
    destruct (Z.eq_dec y x) as [->|N].
    + intros E. rewrite E in H1. discriminate.
    + apply (IH (x + 1)); [exact H2|lia].
Qed.

(** Facts used by every case. *)
Lemma inv_front : forall s, Inv s -> W s <= front s <= I s.
Proof.
  intros s H. destruct (i_b s H) as (B1 & B2 & _). pose proof (i_lk s H) as L. unfold LI in L. unfold front.
  destruct (lk s); lia.
Qed.

Lemma upd_num : forall (f : Z -> pc) p c q, number (upd f p c q) = if q =? p then number c else number (f q).
Proof. intros. unfold upd. destruct (q =? p); reflexivity. Qed.

(** A context moves on without touching shared memory. *)
Lemma inv_set_pc : forall s p c, Inv s ->
  CI (sta s) (I s) (W s) (R s) p c ->
  (number c = number (pcs s p) \/ (number c = None /\ forall x b, sta s x <> Special p b)) ->
  Inv (set_pc s p c).
Proof.
  intros s p c H HC HN. destruct H as [B L Rg Hh Hl Hi Hr Hb Hc Hn Hd Ho Hf].
  constructor; try assumption.
  - intros q. cbn. unfold upd. destruct (Z.eqb_spec q p) as [->|N]; [exact HC|apply Hc].
  - intros q x. cbn. rewrite upd_num. destruct (Z.eqb_spec q p) as [->|N]; [|apply Hn].
    destruct HN as [E|[E _]]; rewrite E; [apply Hn|discriminate].
  - intros q q' x. cbn. rewrite !upd_num.
    destruct (Z.eqb_spec q p) as [->|N]; destruct (Z.eqb_spec q' p) as [->|N']; auto; intros E1 E2.
    + destruct HN as [E|[E _]]; rewrite E in E1; [eapply Hd; eassumption|discriminate].
    + destruct HN as [E|[E _]]; rewrite E in E2; [eapply Hd; eassumption|discriminate].
    + eapply Hd; eassumption.
  - intros x q b E. cbn. rewrite upd_num. destruct (Z.eqb_spec q p) as [->|N].
    + destruct HN as [E1|[_ E1]]; [rewrite E1; eapply Ho; exact E|]. exfalso. apply (E1 x b). exact E.
    + eapply Ho; exact E.
Qed.

Lemma sta_put_rec : forall s x v y, sta (put s (Rec x v)) y = if y =? x then v else sta s y.
Proof. intros. unfold sta. cbn. rewrite Z.eqb_sym. reflexivity. Qed.

(** A recording of [v] for [x] by its owner [p], with shared memory updated to match. *)
Lemma inv_record : forall s p x v c (rg bf : Z -> csn),
  Inv s -> number (pcs s p) = Some x ->
  (final v = true \/ mine p v) ->
  (mine p (sta s x) \/ sta s x = v \/ (sta s x = Frozen /\ I s <= x < W s + size - 1)) ->
  number c = Some x ->
  CI (fun y => if y =? x then v else sta s y) (I s) (W s) (R s) p c ->
  (forall y, front s <= y < front s + size -> rg (slot size y) = if y =? x then v else sta s y) ->
  (forall y, G s <= y < W s -> bf y = if y =? x then v else sta s y) ->
  (x < W s \/ front s <= x) ->
  (forall y, W s <= y -> bf y = buf s y) ->
  Inv (set_pc (put (mk rg bf (nextXid s) (W s) (I s) (G s) (R s) (lk s) (pcs s) (rds s) (log s)) (Rec x v)) p c).
Proof.
  intros s p x v c rg bf H Hnum Hv Hx Hc Hci Hrg Hbf Hw Hbw.
  assert (HF := inv_front s H).
  set (s1 := set_pc _ p c).
  assert (Sta : forall y, sta s1 y = if y =? x then v else sta s y).
  { intros y. unfold s1, sta. cbn. rewrite Z.eqb_sym. reflexivity. }
  destruct H as [B L Rg Hh Hl Hi Hr Hb Hctx Hn Hd Ho Hf].
  assert (NF : v <> Frozen) by (destruct Hv as [E|[b E]]; intros K; subst; [discriminate|discriminate]).
  assert (Hxn := Hn p x Hnum).
  constructor.
  - exact B.
  - unfold LI in *. change (lk s1) with (lk s). change (W s1) with (W s). change (I s1) with (I s).
    change (G s1) with (G s). change (buf s1) with bf. unfold front in HF, Hw. destruct (lk s) as [| |cc e m loc|cc g]; auto.
    destruct L as (L1 & L2 & L3 & L4 & L5). repeat split; try assumption; try lia.
    + intros y Hy Hg. rewrite Sta. rewrite Hbw by lia.
      destruct (Z.eqb_spec y x) as [->|N]; [|apply L4; assumption].
      exfalso. destruct Hw; lia.
    + intros y Hy. rewrite Sta. destruct (Z.eqb_spec y x) as [->|N]; [|apply L5; assumption].
      exfalso. destruct Hw; lia.
  - intros y Hy. rewrite Sta. apply Hrg. exact Hy.
  - intros y Hy. rewrite Sta. destruct (Z.eqb_spec y x) as [->|N]; [|apply Hh; exact Hy].
    exfalso. cbn in Hy. destruct Hx as [[b E]|[E|[E E']]]; try lia.
    + pose proof (Hh x Hy). congruence.
    + pose proof (Hh x Hy). congruence.
  - intros y. rewrite Sta. destruct (Z.eqb_spec y x) as [->|N]; intros E; [exact Hxn|apply Hl; exact E].
  - intros y Hy. rewrite Sta. destruct (Z.eqb_spec y x) as [->|N]; [exact NF|apply Hi; exact Hy].
  - intros y Hy. rewrite Sta. destruct (Z.eqb_spec y x) as [->|N]; [|apply Hr; exact Hy].
    pose proof (Hr x Hy) as F. destruct Hx as [[b E]|[E|[E E']]]; try congruence.
    + rewrite E in F. discriminate.
    + rewrite E in F. discriminate.
  - intros y Hy. rewrite Sta. apply Hbf. exact Hy.
  - intros q. change (CI (sta s1) (I s) (W s) (R s) q (upd (pcs s) p c q)).
    unfold upd. destruct (Z.eqb_spec q p) as [->|N].
    + eapply ci_mono; [exact Hci| | |lia|lia|lia]; intros y _; rewrite Sta; reflexivity.
    + eapply ci_mono; [exact (Hctx q)| | |lia|lia|lia]; intros y K; rewrite Sta;
        (destruct (Z.eqb_spec y x) as [->|N']; [|reflexivity]).
      * exfalso. apply N. eapply Hd; eassumption.
      * destruct Hx as [[b E]|[E|[E E']]]; try congruence; rewrite E in K; discriminate.
  - intros q y. unfold s1. cbn. rewrite upd_num. destruct (Z.eqb_spec q p) as [->|N]; [|apply Hn].
    intros E. rewrite Hc in E. inv E. exact Hxn.
  - intros q q' y. unfold s1. cbn. rewrite !upd_num.
    destruct (Z.eqb_spec q p) as [->|N]; destruct (Z.eqb_spec q' p) as [->|N']; auto; intros E1 E2.
    + rewrite Hc in E1. inv E1. eapply Hd; eassumption.
    + rewrite Hc in E2. inv E2. eapply Hd; eassumption.
    + eapply Hd; eassumption.
  - intros y q b E. rewrite Sta in E. unfold s1. cbn. rewrite upd_num.
    destruct (Z.eqb_spec y x) as [->|Ny].
    + destruct Hv as [F|[b' F]]; [rewrite E in F; discriminate|]. rewrite F in E. inv E.
      rewrite Z.eqb_refl. exact Hc.
    + destruct (Z.eqb_spec q p) as [->|N]; [|eapply Ho; exact E].
      pose proof (Ho _ _ _ E) as K. rewrite Hnum in K. inv K. contradiction.
  - intros a b y E F. rewrite Sta. unfold s1 in E. cbn in E. destruct a as [|e a]; cbn in E.
    + subst b. cbn. rewrite Z.eqb_sym. reflexivity.
    + injection E as _ E1. pose proof (Hf a b y E1 F) as K. destruct (Z.eqb_spec y x) as [->|N]; [|exact K].
      destruct Hx as [[b' E]|[E|[E E']]]; rewrite E in K; rewrite <- K in F; try discriminate. exact K.
Qed.
(** Changes that only move frontiers, buffers or the ring. *)
Lemma inv_shared : forall s rg bf w i g r l,
  Inv s -> let s' := mk rg bf (nextXid s) w i g r l (pcs s) (rds s) (log s) in
  (0 <= w /\ w <= i /\ i <= w + size /\ 0 <= g /\ g <= r) ->
  W s <= w -> I s <= i -> R s <= r ->
  LI s' ->
  (forall y, front s' <= y < front s' + size -> rg (slot size y) = sta s y) ->
  (forall y, 0 <= y < i -> sta s y <> Frozen) ->
  (forall y, 0 <= y < r -> final (sta s y) = true) ->
  (forall y, g <= y < w -> bf y = sta s y) ->
  Inv s'.
Proof.
  intros s rg bf w i g r l H s' HB HW HI HR HL Hrg Hin Hrun Hbuf.
  destruct H as [B L Rg Hh Hl Hi Hr Hb Hctx Hn Hd Ho Hf].
  constructor; try assumption.
  - cbn. lia.
  - intros y Hy. apply Hh. cbn in Hy. lia.
  - intros q. eapply ci_mono; [exact (Hctx q)| | | | |]; cbn; intros; auto; lia.
Qed.

Lemma inv_rd : forall s r c, Inv s -> Inv (set_rd s r c).
Proof. intros s r c [B L Rg Hh Hl Hi Hr Hb Hctx Hn Hd Ho Hf]. constructor; assumption. Qed.

Lemma inv_beg : forall s r x, Inv s -> Inv (put s (Beg r x)).
Proof.
  intros s r x [B L Rg Hh Hl Hi Hr Hb Hctx Hn Hd Ho Hf]. constructor; try assumption.
  intros a b y E F. destruct a as [|e a]; cbn in E.
  - subst b. reflexivity.
  - injection E as _ E1. exact (Hf a b y E1 F).
Qed.

Lemma not_mine : forall s p, Inv s -> (forall x, number (pcs s p) = Some x -> final (sta s x) = true) ->
  forall x b, sta s x <> Special p b.
Proof.
  intros s p H F x b E. pose proof (i_own s H _ _ _ E) as K. pose proof (F x K) as Q. rewrite E in Q. discriminate.
Qed.

Lemma final_nf : forall v, final v = true -> v <> Frozen.
Proof. intros v H E. subst. discriminate. Qed.

Lemma wait_below : forall s x, Inv s -> x < I s -> (x <? W s) || lock_free s = true -> x < W s.
Proof.
  intros s x H Hx E. apply orb_true_iff in E as [E|E]; [lia|].
  unfold lock_free in E. pose proof (i_lk s H) as L. unfold LI in L. destruct (lk s); try discriminate. lia.
Qed.

Lemma lock_ok : forall s l, Inv s -> (forall c e m loc, lk s <> LDrain c e m loc) -> (forall c g, lk s <> LFast c g) ->
  (l = LFree \/ l = LHold) -> Inv (set_lk s l).
Proof.
  intros s l H N1 N2 Hl. pose proof (i_lk s H) as L. pose proof (i_ring s H) as RG. unfold LI, front in *.
  destruct (i_b s H) as (B1 & B2 & B3 & B4 & B5 & B6).
  destruct (lk s) eqn:E; try (exfalso; eapply N1; reflexivity); try (exfalso; eapply N2; reflexivity);
  (apply (inv_shared s (ring s) (buf s) (W s) (I s) (G s) (R s) l H);
   [lia|lia|lia|lia|unfold LI; cbn; destruct Hl as [-> | ->]; exact L|
    unfold front; cbn; destruct Hl as [-> | ->]; exact RG|exact (i_init s H)|exact (i_run s H)|exact (i_buf s H)]).
Qed.

Lemma step_inv : forall s o, Inv s -> RInv s -> Inv (step size s o).
Proof.
  intros s o H HR.
  assert (HF := inv_front s H).
  assert (CI0 := i_ctx s H).
  destruct (i_b s H) as (B1 & B2 & B3 & B4 & B5 & B6).
  destruct o; cbn [step].
  - (* OBegin *)
    destruct (pcs s p) eqn:E; try exact H.
    assert (FN : sta s (nextXid s) = Frozen).
    { destruct (csn_eqb_spec (sta s (nextXid s)) Frozen) as [e|n]; [exact e|].
      pose proof (i_low s H _ n). lia. }
    destruct H as [B L Rg Hh Hl Hi Hr Hb Hctx Hn Hd Ho Hf].
    constructor; try assumption.
    + cbn. lia.
    + intros y Hy. pose proof (Hl y Hy). cbn. lia.
    + intros q. cbn. unfold upd. destruct (Z.eqb_spec q p) as [->|N]; [exact FN|apply Hctx].
    + intros q x. cbn. rewrite upd_num. destruct (Z.eqb_spec q p) as [->|N]; cbn.
      * intros Q; inv Q. lia.
      * intros Q. pose proof (Hn q x Q). lia.
    + intros q q' x. cbn. rewrite !upd_num.
      destruct (Z.eqb_spec q p) as [->|N]; destruct (Z.eqb_spec q' p) as [->|N']; auto; cbn; intros E1 E2.
      * inv E1. pose proof (Hn q' _ E2). lia.
      * inv E2. pose proof (Hn q _ E1). lia.
      * eapply Hd; eassumption.
    + intros x q b Q. cbn. rewrite upd_num. destruct (Z.eqb_spec q p) as [->|N]; [|eapply Ho; exact Q].
      pose proof (Ho _ _ _ Q) as K. rewrite E in K. discriminate.
    + intros a b y Q F. destruct a as [|e a]; cbn in Q; [subst b; reflexivity|].
      injection Q as _ Q1. exact (Hf a b y Q1 F).
  - (* OInit *)
    destruct (pcs s p) eqn:E; try exact H.
    destruct (Z.ltb_spec x (W s + size - 1)) as [Hx|Hx]; [|exact H].
    specialize (CI0 p). rewrite E in CI0. cbn in CI0.
    assert (HI : I s <= x).
    { destruct (Z_lt_ge_dec x (I s)) as [K|K]; [|lia].
      assert (Nm : number (pcs s p) = Some x) by (rewrite E; reflexivity).
      pose proof (i_num s H p x Nm). exfalso. apply (i_init s H x); [lia|exact CI0]. }
    apply (inv_record s p x (Special p false) (PStart2 x) (upd (ring s) (slot size x) (Special p false)) (buf s) H).
    + rewrite E. reflexivity.
    + right. exists false. reflexivity.
    + right. right. split; [exact CI0|lia].
    + reflexivity.
    + cbn. rewrite Z.eqb_refl. reflexivity.
    + intros y Hy. unfold upd. destruct (Z.eqb_spec y x) as [->|N].
      * rewrite Z.eqb_refl. reflexivity.
      * destruct (Z.eqb_spec (slot size y) (slot size x)) as [K|K].
        -- exfalso. apply N. apply (slot_inj (front s)); [exact Hy|lia|exact K].
        -- apply (i_ring s H). exact Hy.
    + intros y Hy. rewrite (i_buf s H y Hy). destruct (Z.eqb_spec y x); [lia|reflexivity].
    + right. lia.
    + reflexivity.
  - (* OChk *)
    destruct (pcs s p) eqn:E; try exact H.
    specialize (CI0 p). rewrite E in CI0. cbn in CI0.
    destruct (Z.ltb_spec x (I s)) as [Hx|Hx]; apply inv_set_pc; auto; cbn; rewrite ?E; auto.
    exists false. exact CI0.
  - (* OWait *)
    destruct (pcs s p) eqn:E; try exact H; specialize (CI0 p); rewrite E in CI0; cbn in CI0.
    + destruct ((x <? W s) || lock_free s) eqn:K; [|exact H].
      apply inv_set_pc; auto; cbn; rewrite ?E; auto.
      split; [tauto|]. apply (wait_below s x H); tauto.
    + destruct ((x <? W s) || lock_free s) eqn:K; [|exact H].
      apply inv_set_pc; auto; cbn; rewrite ?E; auto.
      destruct CI0 as (C1 & C2 & C3).
      split; [|tauto]. apply (wait_below s x H); assumption.
  - (* OBufW *)
    destruct (pcs s p) eqn:E; try exact H; specialize (CI0 p); rewrite E in CI0; cbn in CI0.
    + destruct CI0 as [C1 C2].
      apply inv_set_pc; [|cbn; exists false; exact C1|left; cbn; rewrite E; reflexivity].
      apply (inv_shared s (ring s) (upd (buf s) x (Special p false)) (W s) (I s) (G s) (R s) (lk s) H);
        try lia; try (exact (i_init s H)); try (exact (i_run s H)); try (exact (i_ring s H)).
      * pose proof (i_lk s H) as L. unfold LI in *. cbn. destruct (lk s); auto.
        destruct L as (L1 & L2 & L3 & L4 & L5). repeat split; try assumption; try lia.
        intros y Hy Hg. rewrite upd_other by lia. apply L4; assumption.
      * intros y Hy. unfold upd. destruct (Z.eqb_spec y x) as [->|N]; [symmetry; exact C1|apply (i_buf s H); exact Hy].
    + destruct CI0 as (C1 & C2 & C3).
      apply (inv_record s p x v (if final v then PAdv x else PRun x) (ring s) (upd (buf s) x v) H).
      * rewrite E. reflexivity.
      * destruct C2; tauto.
      * destruct C3; tauto.
      * destruct (final v); reflexivity.
      * destruct (final v) eqn:F; cbn; rewrite Z.eqb_refl; [exact F|].
        destruct C2 as [C2|C2]; [exact C2|congruence].
      * intros y Hy. rewrite (i_ring s H y Hy). destruct (Z.eqb_spec y x); [|reflexivity]. lia.
      * intros y Hy. unfold upd. destruct (Z.eqb_spec y x) as [->|N]; [reflexivity|apply (i_buf s H); exact Hy].
      * left. exact C1.
      * intros y Hy. apply upd_other. lia.
  - destruct (pcs s p) eqn:E; try exact H. specialize (CI0 p); rewrite E in CI0; cbn in CI0.
    apply inv_set_pc; auto; cbn; rewrite ?E; auto. split; [exact CI0|]. left. eexists; reflexivity.
  - destruct (pcs s p) eqn:E; try exact H. specialize (CI0 p); rewrite E in CI0; cbn in CI0.
    apply inv_set_pc; auto; cbn; rewrite ?E; auto. split; [exact CI0|]. left. eexists; reflexivity.
  - destruct (pcs s p) eqn:E; try exact H. specialize (CI0 p); rewrite E in CI0; cbn in CI0.
    apply inv_set_pc; auto; cbn; rewrite ?E; auto. split; [exact CI0|]. right. reflexivity.
  - destruct (pcs s p) eqn:E; try exact H. specialize (CI0 p); rewrite E in CI0; cbn in CI0.
    apply inv_set_pc; auto; cbn; rewrite ?E; auto. split; [exact CI0|]. right. reflexivity.
  - (* OReadOld *)
    destruct (pcs s p) eqn:E; try exact H. specialize (CI0 p); rewrite E in CI0; cbn in CI0.
    destruct CI0 as [[b C1] C2].
    apply inv_set_pc; auto; cbn; rewrite ?E; auto.
    split; [exists b; exact C1|]. split; [exact C2|]. intros Hx. apply (i_ring s H).
    assert (x < W s + size - 1).
    { destruct (Z_lt_ge_dec x (W s + size - 1)) as [K|K]; [exact K|]. pose proof (i_high s H x ltac:(lia)). congruence. }
    lia.
  - (* OChkI *)
    destruct (pcs s p) eqn:E; try exact H. specialize (CI0 p); rewrite E in CI0; cbn in CI0.
    destruct CI0 as (C1 & C2 & C3).
    destruct (Z.leb_spec (I s) x) as [Hx|Hx]; apply inv_set_pc; auto; cbn; rewrite ?E; auto.
  - (* OCas *)
    destruct (pcs s p) eqn:E; try exact H. specialize (CI0 p); rewrite E in CI0; cbn in CI0.
    destruct CI0 as ([b C1] & C2 & C3).
    assert (Nm : number (pcs s p) = Some x) by (rewrite E; reflexivity).
    assert (HX : x < W s + size - 1).
    { destruct (Z_lt_ge_dec x (W s + size - 1)) as [K|K]; [exact K|]. pose proof (i_high s H x ltac:(lia)). congruence. }
    destruct (csn_eqb_spec (ring s (slot size x)) old) as [K|K].
    + assert (HX2 : front s <= x).
      { destruct (Z_lt_ge_dec x (front s)) as [Q|Q]; [|lia]. exfalso.
        destruct (slot_in_window (front s) x) as (y & Hy & Sy).
        pose proof (i_ring s H y Hy) as RY. rewrite Sy, K, C3, C1 in RY. symmetry in RY.
        pose proof (i_own s H _ _ _ RY) as OY. rewrite Nm in OY. inv OY. lia. }
      apply (inv_record s p x v (PSet4 x v) (upd (ring s) (slot size x) v) (buf s) H Nm).
      * destruct C2; tauto.
      * left. exists b. exact C1.
      * reflexivity.
      * cbn. rewrite Z.eqb_refl. split; [reflexivity|exact C2].
      * intros y Hy. unfold upd. destruct (Z.eqb_spec y x) as [->|N].
        -- rewrite Z.eqb_refl. reflexivity.
        -- destruct (Z.eqb_spec (slot size y) (slot size x)) as [K2|K2].
           ++ exfalso. apply N. apply (slot_inj (front s)); [exact Hy|lia|exact K2].
           ++ apply (i_ring s H). exact Hy.
      * intros y Hy. rewrite (i_buf s H y Hy). destruct (Z.eqb_spec y x); [lia|reflexivity].
      * right. exact HX2.
      * reflexivity.
    + apply inv_set_pc; auto; cbn; rewrite ?E; auto.
      split; [|split; [exact C2|left; exists b; exact C1]].
      destruct (Z_lt_ge_dec x (I s)) as [Q|Q]; [exact Q|]. exfalso. apply K. rewrite C3.
      apply (i_ring s H). lia.
  - (* OReChk *)
    destruct (pcs s p) eqn:E; try exact H. specialize (CI0 p); rewrite E in CI0; cbn in CI0.
    destruct CI0 as (C1 & C2).
    destruct (Z.leb_spec (I s) x) as [Hx|Hx].
    + apply inv_set_pc; auto.
      * destruct (final v) eqn:F; cbn; [congruence|]. rewrite C1. destruct C2 as [C2|C2]; [exact C2|congruence].
      * left. rewrite E. destruct (final v); reflexivity.
    + apply inv_set_pc; auto; cbn; rewrite ?E; auto.
  - (* OAdvRead *)
    destruct (pcs s p) eqn:E; try exact H. specialize (CI0 p); rewrite E in CI0; cbn in CI0.
    destruct (R s =? x).
    + apply inv_set_pc; auto; cbn; rewrite ?E; auto.
    + apply inv_set_pc; auto; cbn; auto. right. split; [reflexivity|]. apply not_mine; [exact H|].
      intros y Q. rewrite E in Q. inv Q. exact CI0.
  - (* OAdvCas *)
    destruct (pcs s p) eqn:E; try exact H. specialize (CI0 p); rewrite E in CI0; cbn in CI0.
    destruct CI0 as (C1 & C2).
    destruct (Z.eqb_spec (R s) r) as [Hr|Hr].
    + subst r. apply inv_beg. apply inv_rd.
      apply inv_set_pc; [|cbn; split; [exact C1|lia]|left; cbn; rewrite E; reflexivity].
      apply (inv_shared s (ring s) (buf s) (W s) (I s) (G s) (R s + 1) (lk s) H);
        try lia; try (exact (i_lk s H)); try (exact (i_init s H)); try (exact (i_buf s H)); try (exact (i_ring s H)).
      intros y Hy. destruct (Z.eq_dec y (R s)) as [->|N]; [exact C2|]. apply (i_run s H). lia.
    + apply inv_set_pc; auto; cbn; auto. right. split; [reflexivity|]. apply not_mine; [exact H|].
      intros y Q. rewrite E in Q. inv Q. exact C1.
  - (* OAdvFin *)
    destruct (pcs s p) eqn:E; try exact H. destruct (rds s p) eqn:ER; try exact H.
    specialize (CI0 p); rewrite E in CI0; cbn in CI0. destruct CI0 as (C1 & C2).
    destruct (Z.eqb_spec x0 r) as [->|N]; [|exact H].
    destruct (final v) eqn:F.
    + apply inv_set_pc; auto; cbn; rewrite ?E; auto. split; [exact C1|].
      specialize (HR p). rewrite ER in HR. cbn in HR. destruct HR as [_ [[K _]|(a & d & b & EL & _ & Q)]].
      * subst v. discriminate.
      * subst v. rewrite app_assoc in EL. rewrite <- app_assoc in EL.
        rewrite (i_fin s H _ _ _ EL F). exact F.
    + apply inv_set_pc; auto; cbn; auto. right. split; [reflexivity|]. apply not_mine; [exact H|].
      intros y Q. rewrite E in Q. inv Q. exact C1.
  - (* OLook *)
    destruct (pcs s r); try exact H;
      (destruct ((0 <=? x) && (x <? W s + size)); [|exact H]; apply inv_beg; apply inv_rd; exact H).
  - destruct (rds s r); try exact H. apply inv_rd. exact H.
  - destruct (rds s r); try exact H. destruct (I s <=? x); apply inv_rd; exact H.
  - destruct (rds s r); try exact H. destruct ((x <? W s) || lock_free s); [apply inv_rd|]; exact H.
  - destruct (rds s r); try exact H. apply inv_rd. exact H.
  - destruct (rds s r); try exact H. destruct (x <? G s); apply inv_rd; exact H.
  - destruct (lk s) eqn:E; try exact H. apply lock_ok; auto; rewrite E; discriminate.
  - destruct (lk s) eqn:E; try exact H. apply lock_ok; auto; rewrite E; discriminate.
  - (* ODrain *)
    destruct (lk s) eqn:E; try exact H.
    destruct (_ && _) eqn:K; [|exact H].
    apply andb_true_iff in K as [K K4]. apply andb_true_iff in K as [K K3]. apply andb_true_iff in K as [K1 K2].
    pose proof (i_lk s H) as L. unfold LI in L. rewrite E in L.
    assert (FR : front s = W s) by (unfold front; rewrite E; reflexivity).
    apply (inv_shared s (ring s) (buf s) (W s) m (G s) (R s) (LDrain (W s) (W s) m (fun _ => Frozen)) H);
      try lia; try (exact (i_run s H)); try (exact (i_buf s H)).
    + unfold LI. cbn. repeat split; try lia; intros; lia.
    + unfold front. cbn. rewrite <- FR. exact (i_ring s H).
    + intros y Hy. destruct (Z_lt_ge_dec y (I s)) as [Q|Q]; [apply (i_init s H); lia|].
      rewrite <- (i_ring s H) by lia.
      apply (occupied_spec s _ _ K4). lia.
  - (* OExch *)
    destruct (lk s) as [| |c e m loc|] eqn:E; try exact H.
    destruct (Z.ltb_spec c m) as [K|K]; [|exact H].
    pose proof (i_lk s H) as L. unfold LI in L. rewrite E in L. destruct L as (L1 & L2 & L3 & L4 & L5).
    assert (FR : front s = c) by (unfold front; rewrite E; reflexivity).
    apply (inv_shared s (upd (ring s) (slot size c) Frozen) (buf s) (W s) (I s) (G s) (R s)
             (LDrain (c + 1) e m (upd loc c (ring s (slot size c)))) H);
      try lia; try (exact (i_run s H)); try (exact (i_buf s H)); try (exact (i_init s H)).
    + unfold LI. cbn. split; [lia|]. split; [lia|]. split; [lia|]. split; [exact L4|].
      intros y Hy. unfold upd. destruct (Z.eqb_spec y c) as [->|N]; [apply (i_ring s H); lia|apply L5; lia].
    + unfold front. cbn. intros y Hy. unfold upd. destruct (Z.eqb_spec (slot size y) (slot size c)) as [Q|Q].
      * rewrite <- (slot_shift c) in Q. apply (slot_inj (c + 1)) in Q; [|lia|lia]. subst y.
        symmetry. apply (i_high s H). lia.
      * apply (i_ring s H). destruct (Z.eq_dec y (c + size)) as [->|N]; [rewrite slot_shift in Q; contradiction|lia].
  - (* OFlush *)
    destruct (lk s) as [| |c e0 m loc|] eqn:E; try exact H.
    destruct ((e0 <? e) && (e <=? c)) eqn:K; [|exact H]. 
    pose proof (i_lk s H) as L. unfold LI in L. rewrite E in L. destruct L as (L1 & L2 & L3 & L4 & L5).
    assert (FR : front s = c) by (unfold front; rewrite E; reflexivity).
    apply (inv_shared s (ring s) (fun x => if (e0 <=? x) && (x <? e) then loc x else buf s x) (W s) (I s) (G s) (R s)
             (LDrain c e m loc) H);
      try lia; try (exact (i_run s H)); try (exact (i_init s H)).
    + unfold LI. cbn. split; [lia|]. split; [lia|]. split; [lia|]. split.
      * intros y Hy Hg. destruct ((e0 <=? y) && (y <? e)) eqn:Q; [apply L5; lia|apply L4; lia].
      * intros y Hy. apply L5. lia.
    + unfold front. cbn. rewrite <- FR. exact (i_ring s H).
    + intros y Hy. replace ((e0 <=? y) && (y <? e)) with false by lia. apply (i_buf s H). exact Hy.
  - (* ODrained *)
    destruct (lk s) as [| |c e m loc|] eqn:E; try exact H.
    destruct (Z.eqb_spec e m) as [K|K]; [|exact H].
    pose proof (i_lk s H) as L. unfold LI in L. rewrite E in L. destruct L as (L1 & L2 & L3 & L4 & L5).
    assert (FR : front s = c) by (unfold front; rewrite E; reflexivity).
    apply (inv_shared s (ring s) (buf s) m (I s) (G s) (R s) LHold H);
      try lia; try (exact (i_run s H)); try (exact (i_init s H)).
    + unfold LI. cbn. exact L3.
    + unfold front. cbn. replace m with (front s) by lia. exact (i_ring s H).
    + intros y Hy. destruct (Z_lt_ge_dec y (W s)) as [Q|Q]; [apply (i_buf s H); lia|apply L4; lia].
  - (* OGlob *)
    destruct (Z.leb_spec g (R s)) as [K|K]; [|exact H].
    apply (inv_shared s (ring s) (buf s) (W s) (I s) (Z.max (G s) g) (R s) (lk s) H);
      try lia; try (exact (i_run s H)); try (exact (i_init s H)); try (exact (i_ring s H)).
    + pose proof (i_lk s H) as L. unfold LI in *. cbn. destruct (lk s); auto; [|lia].
      destruct L as (L1 & L2 & L3 & L4 & L5). split; [lia|]. split; [lia|]. split; [lia|]. split; [|exact L5].
      intros y Hy Hg. apply L4; lia.
    + intros y Hy. apply (i_buf s H). lia.
  - (* OFast *)
    destruct (lk s) eqn:E; try exact H.
    destruct (_ && _) eqn:K; [|exact H].
    assert (FR : front s = W s) by (unfold front; rewrite E; reflexivity).
    assert (RS : R s <= W s + size - 1).
    { destruct (Z_lt_ge_dec (W s + size - 1) (R s)) as [Q|Q]; [|lia]. exfalso.
      pose proof (i_run s H (W s + size - 1) ltac:(lia)) as F. rewrite (i_high s H) in F by lia. discriminate. }
    apply (inv_shared s (ring s) (buf s) (W s) g (G s) (R s) (LFast (W s) g) H);
      try lia; try (exact (i_run s H)); try (exact (i_buf s H)).
    + unfold LI. cbn. lia.
    + unfold front. cbn. rewrite <- FR. exact (i_ring s H).
    + intros y Hy. apply final_nf. apply (i_run s H). lia.
  - (* OFrz *)
    destruct (lk s) as [| | |c g] eqn:E; try exact H.
    destruct (Z.ltb_spec c g) as [K|K]; [|exact H].
    pose proof (i_lk s H) as L. unfold LI in L. rewrite E in L.
    assert (FR : front s = c) by (unfold front; rewrite E; reflexivity).
    apply (inv_shared s (upd (ring s) (slot size c) Frozen) (buf s) (W s) (I s) (G s) (R s) (LFast (c + 1) g) H);
      try lia; try (exact (i_run s H)); try (exact (i_buf s H)); try (exact (i_init s H)).
    + unfold LI. cbn. lia.
    + unfold front. cbn. intros y Hy. unfold upd. destruct (Z.eqb_spec (slot size y) (slot size c)) as [Q|Q].
      * rewrite <- (slot_shift c) in Q. apply (slot_inj (c + 1)) in Q; [|lia|lia]. subst y.
        symmetry. apply (i_high s H). lia.
      * apply (i_ring s H). destruct (Z.eq_dec y (c + size)) as [->|N]; [rewrite slot_shift in Q; contradiction|lia].
  - (* OFastEnd *)
    destruct (lk s) as [| | |c g] eqn:E; try exact H.
    destruct (Z.eqb_spec c g) as [K|K]; [|exact H].
    pose proof (i_lk s H) as L. unfold LI in L. rewrite E in L.
    assert (FR : front s = c) by (unfold front; rewrite E; reflexivity).
    apply (inv_shared s (ring s) (buf s) g (I s) (G s) (R s) LFree H);
      try lia; try (exact (i_run s H)); try (exact (i_init s H)).
    + unfold LI. cbn. lia.
    + unfold front. cbn. replace g with (front s) by lia. exact (i_ring s H).
  - (* OScrub *)
    destruct (Z.ltb_spec x (G s)) as [K|K]; [|exact H].
    apply (inv_shared s (ring s) (upd (buf s) x v) (W s) (I s) (G s) (R s) (lk s) H);
      try lia; try (exact (i_run s H)); try (exact (i_init s H)); try (exact (i_ring s H)).
    + pose proof (i_lk s H) as L. unfold LI in *. cbn. destruct (lk s); auto.
      destruct L as (L1 & L2 & L3 & L4 & L5). split; [lia|]. split; [lia|]. split; [lia|]. split; [|exact L5].
      intros y Hy Hg. rewrite upd_other by lia. apply L4; lia.
    + intros y Hy. rewrite upd_other by lia. apply (i_buf s H). exact Hy.
Qed.

Lemma run_bound : forall s, Inv s -> R s <= W s + size - 1.
Proof.
  intros s H. destruct (i_b s H) as (B1 & B2 & B3 & B4 & B5 & B6).
  destruct (Z_lt_ge_dec (W s + size - 1) (R s)) as [Q|Q]; [|lia]. exfalso.
  pose proof (i_run s H (W s + size - 1) ltac:(lia)) as F. rewrite (i_high s H) in F by lia. discriminate.
Qed.

(** Frontiers and horizons only move forward; the log only grows. *)
Lemma step_mono : forall s o, Inv s ->
  W s <= W (step size s o) /\ I s <= I (step size s o) /\ G s <= G (step size s o) /\ R s <= R (step size s o)
  /\ nextXid s <= nextXid (step size s o).
Proof.
  intros s o H. destruct (i_b s H) as (B1 & B2 & B3 & B4 & B5 & B6). pose proof (i_lk s H) as L. unfold LI in L.
  destruct o; cbn [step];
    repeat match goal with
    | |- context [match pcs s ?p with _ => _ end] => destruct (pcs s p)
    | |- context [match rds s ?p with _ => _ end] => destruct (rds s p)
    | |- context [match lk s with _ => _ end] => destruct (lk s)
    | |- context [if ?b then _ else _] => destruct b eqn:?
    end; cbn; lia.
Qed.

Lemma rinv_step : forall s o, Inv s -> RInv s -> RInv (step size s o).
Proof.
  intros s o H HR. assert (HF := inv_front s H). pose proof (step_mono s o H) as M.
  assert (B := i_b s H).
  (* a step that leaves readers and log alone *)
  assert (Keep : forall s', W s <= W s' -> I s <= I s' -> G s <= G s' -> rds s' = rds s -> log s' = log s -> RInv s').
  { intros s' M1 M2 M3 E1 E2 r. rewrite E1, E2. eapply ri_mono; [apply HR|lia|lia|lia|lia]. }
  assert (KeepL : forall s' e, W s <= W s' -> I s <= I s' -> G s <= G s' -> rds s' = rds s -> log s' = e :: log s ->
                  (forall r y, e <> Beg r y) -> RInv s').
  { intros s' e M1 M2 M3 E1 E2 N r. rewrite E1, E2. eapply ri_mono; [|exact M2|exact M1|exact M3|].
    - apply ri_log; [|apply N]. apply HR.
    - lia. }
  assert (One : forall r c, RI (log s) (I s) (W s) (G s) (W s + size) r c -> RInv (set_rd s r c)).
  { intros r c Hc r'. cbn. unfold upd. destruct (Z.eqb_spec r' r) as [->|N]; [exact Hc|apply HR]. }
  destruct o; revert M; cbn [step]; intros M;
    try (repeat match goal with
    | |- context [match pcs s ?p with _ => _ end] => destruct (pcs s p)
    | |- context [match rds s ?p with _ => _ end] => destruct (rds s p)
    | |- context [match lk s with _ => _ end] => destruct (lk s)
    | |- context [if ?b then _ else _] => destruct b eqn:?
    end; cbn in M;
    first [ exact HR | apply Keep; cbn; solve [lia | reflexivity]
          | eapply KeepL; [cbn; lia|cbn; lia|cbn; lia|reflexivity|reflexivity|discriminate] ]; fail).
  - (* OAdvCas *)
    destruct (pcs s p) eqn:E; try exact HR.
    destruct (Z.eqb_spec (R s) r) as [<-|N].
    + assert (RS := run_bound s H).
      intros r'. cbn. unfold upd. destruct (Z.eqb_spec r' p) as [->|N].
      * split; [|exists [], [], (log s); split; [reflexivity|]; split; [intros y []|reflexivity]].
        pose proof (i_ctx s H p) as C. rewrite E in C. cbn in C. destruct C as [_ C].
        assert (R s < W s + size - 1); [|lia].
        destruct (Z_lt_ge_dec (R s) (W s + size - 1)) as [Q|Q]; [exact Q|].
        rewrite (i_high s H (R s)) in C by lia. discriminate.
      * apply ri_log; [apply HR|]. intros y Q. inv Q. contradiction.
    + apply Keep; cbn; solve [lia | reflexivity].
  - (* OLook *)
    assert (K : RInv (if (0 <=? x) && (x <? W s + size) then put (set_rd s r (R1 x)) (Beg r x) else s)).
    { destruct ((0 <=? x) && (x <? W s + size)) eqn:E; [|exact HR].
      intros r'. cbn. unfold upd. destruct (Z.eqb_spec r' r) as [->|N].
      + split; [lia|]. exists [], [], (log s). split; [reflexivity|]. split; [intros y []|reflexivity].
      + apply ri_log; [apply HR|]. intros y Q. inv Q. contradiction. }
    destruct (pcs s r); try exact K. exact HR.
  - (* ORing *)
    destruct (rds s r) eqn:E; try exact HR. pose proof (HR r) as Q. rewrite E in Q. cbn in Q.
    apply One. cbn. split; [tauto|]. split; [tauto|].
    destruct (Z_lt_ge_dec x (I s)) as [K|K]; [left; lia|right].
    rewrite (i_ring s H) by lia. tauto.
  - (* ORChk *)
    destruct (rds s r) eqn:E; try exact HR. pose proof (HR r) as Q. rewrite E in Q. cbn in Q.
    destruct (Z.leb_spec (I s) x) as [K|K]; apply One; cbn.
    + split; [tauto|]. right. destruct Q as (_ & _ & [Q|Q]); [lia|exact Q].
    + split; [lia|tauto].
  - (* ORWait *)
    destruct (rds s r) eqn:E; try exact HR. pose proof (HR r) as Q. rewrite E in Q. cbn in Q.
    destruct ((x <? W s) || lock_free s) eqn:K; [|exact HR]. apply One. cbn.
    pose proof (wait_below s x H ltac:(lia) K). split; [lia|tauto].
  - (* ORBuf *)
    destruct (rds s r) eqn:E; try exact HR. pose proof (HR r) as Q. rewrite E in Q. cbn in Q.
    apply One. cbn. split; [tauto|].
    destruct (Z_lt_ge_dec x (G s)) as [K|K]; [left; exact K|right].
    rewrite (i_buf s H) by lia. tauto.
  - (* ORG *)
    destruct (rds s r) eqn:E; try exact HR. pose proof (HR r) as Q. rewrite E in Q. cbn in Q.
    destruct (Z.ltb_spec x (G s)) as [K|K]; apply One; cbn.
    + split; [lia|]. left. split; [reflexivity|exact K].
    + split; [lia|]. right. destruct Q as (_ & [Q|Q]); [lia|exact Q].
Qed.

(** Somebody is about to move runXmin. *)
Definition sees_final (s : st) (x : Z) (c : rst) : Prop :=
  match c with
  | R1 y => y = x
  | R2 y v => y = x /\ (x < I s \/ final v = true)
  | R3 y => y = x
  | R4 y => y = x
  | R5 y v => y = x /\ final v = true
  | RDone y v => y = x /\ final v = true
  | RIdle => False
  end.

Definition pusher (s : st) (p : Z) : Prop :=
  match pcs s p with
  | PSet4 x v | PSetW x v | PSetB x v => x = R s /\ final v = true
  | PAdv x => x = R s
  | PAdvCas x r => r = R s
  | PAdvMap x r => r = R s /\ sees_final s r (rds s p)
  | _ => False
  end.

Definition Push (s : st) : Prop := final (sta s (R s)) = true -> exists p, pusher s p.

Lemma sees_mono : forall s s' x c, sees_final s x c -> I s <= I s' -> sees_final s' x c.
Proof. intros s s' x c H M. destruct c; cbn in *; intuition lia. Qed.

(** A step of somebody else keeps the witness. *)
Lemma push_other : forall s s' p, pusher s p -> pcs s' p = pcs s p -> rds s' p = rds s p -> R s' = R s -> I s <= I s' ->
  pusher s' p.
Proof.
  intros s s' p H E1 E2 E3 M. unfold pusher in *. rewrite E1, E2, E3.
  destruct (pcs s p); auto. destruct H as [H1 H2]. split; [exact H1|]. eapply sees_mono; eassumption.
Qed.

Lemma push_step : forall s o, Inv s -> RInv s -> Push s -> Push (step size s o).
Proof.
  intros s o H HR HP. assert (HF := inv_front s H). pose proof (step_mono s o H) as M.
  destruct (i_b s H) as (B1 & B2 & B3 & B4 & B5 & B6).
  assert (RB := run_bound s H).
  (* nothing about contexts, readers, statuses or runXmin changed *)
  assert (Keep : forall s', I s <= I s' -> pcs s' = pcs s -> rds s' = rds s -> R s' = R s -> sta s' (R s) = sta s (R s) -> Push s').
  { intros s' Mi E1 E2 E3 E4 F. rewrite E3, E4 in F. destruct (HP F) as [p Pp]. exists p.
    eapply push_other; [exact Pp|rewrite E1; reflexivity|rewrite E2; reflexivity|exact E3|exact Mi]. }
  (* context p moves from a state that was no witness, or stays one *)
  assert (Ctx : forall p s', I s <= I s' -> (forall q, q <> p -> pcs s' q = pcs s q) -> rds s' = rds s -> R s' = R s ->
            sta s' (R s) = sta s (R s) -> (pusher s p -> pusher s' p) -> Push s').
  { intros p s' Mi E1 E2 E3 E4 K F. rewrite E3, E4 in F. destruct (HP F) as [q Pq].
    destruct (Z.eq_dec q p) as [->|N]; [exists p; exact (K Pq)|].
    exists q. eapply push_other; [exact Pq|apply E1; exact N|rewrite E2; reflexivity|exact E3|exact Mi]. }
  assert (Rd : forall r c, (sta s (R s) = sta s (R s) -> forall x, final (sta s (R s)) = true -> pcs s r = PAdvMap x (R s) ->
              sees_final s (R s) (rds s r) -> sees_final s (R s) c) -> Push (set_rd s r c)).
  { intros r c K F. change (final (sta s (R s)) = true) in F. destruct (HP F) as [q Pq].
    destruct (Z.eq_dec q r) as [->|N].
    - exists r. unfold pusher in *. cbn. destruct (pcs s r) eqn:E; auto. destruct Pq as [-> P2].
      split; [reflexivity|]. rewrite upd_same. apply (K eq_refl x F eq_refl P2).
    - exists q. eapply push_other; [exact Pq|reflexivity|cbn; apply upd_other; exact N|reflexivity|cbn; lia]. }
  destruct o; revert M; cbn [step]; intros M;
   try (repeat match goal with
    | |- context [match lk s with _ => _ end] => destruct (lk s)
    | |- context [if ?b then _ else _] => destruct b eqn:?
    end; cbn in M;
    first [ exact HP | apply Keep; cbn; solve [lia | reflexivity] ]; fail).
  - (* OBegin *)
    destruct (pcs s p) eqn:E; try exact HP.
    apply (Ctx p); cbn; try lia; try reflexivity; [intros q N; apply upd_other; exact N|].
    unfold pusher. rewrite E. contradiction.
  - (* OInit *)
    destruct (pcs s p) eqn:E; try exact HP. destruct (x <? W s + size - 1); [|exact HP].
    intros F. cbn [R set_pc put set_ring] in F. unfold sta in F. cbn in F.
    destruct (Z.eqb_spec x (R s)) as [Q|Q]; [discriminate|]. destruct (HP F) as [q Pq].
    destruct (Z.eq_dec q p) as [->|N]; [unfold pusher in Pq; rewrite E in Pq; contradiction|].
    exists q. eapply push_other; [exact Pq|cbn; apply upd_other; exact N|reflexivity|reflexivity|cbn; lia].
  - destruct (pcs s p) eqn:E; try exact HP.
    destruct (x <? I s); (apply (Ctx p); cbn; try lia; try reflexivity; [intros q N; apply upd_other; exact N|];
      unfold pusher; rewrite E; contradiction).
  - destruct (pcs s p) eqn:E; try exact HP;
    (destruct ((x <? W s) || lock_free s); [|exact HP]); apply (Ctx p); cbn; try lia; try reflexivity;
      try (intros q N; apply upd_other; exact N); unfold pusher; cbn; rewrite E, upd_same; auto.
  - (* OBufW *)
    destruct (pcs s p) eqn:E; try exact HP.
    + apply (Ctx p); cbn; try lia; try reflexivity; try (intros q N; apply upd_other; exact N).
      unfold pusher; rewrite E; contradiction.
    + intros F. unfold sta in F. cbn in F.
      destruct (Z.eqb_spec x (R s)) as [Q|Q].
      * exists p. unfold pusher. cbn. rewrite upd_same, F. exact Q.
      * destruct (HP F) as [q Pq]. destruct (Z.eq_dec q p) as [->|N].
        -- unfold pusher in Pq. rewrite E in Pq. destruct Pq; contradiction.
        -- exists q. eapply push_other; [exact Pq|cbn; apply upd_other; exact N|reflexivity|reflexivity|cbn; lia].
  - destruct (pcs s p) eqn:E; try exact HP. apply (Ctx p); cbn; try lia; try reflexivity;
      try (intros q N; apply upd_other; exact N); unfold pusher; rewrite E; contradiction.
  - destruct (pcs s p) eqn:E; try exact HP. apply (Ctx p); cbn; try lia; try reflexivity;
      try (intros q N; apply upd_other; exact N); unfold pusher; rewrite E; contradiction.
  - destruct (pcs s p) eqn:E; try exact HP. apply (Ctx p); cbn; try lia; try reflexivity;
      try (intros q N; apply upd_other; exact N); unfold pusher; rewrite E; contradiction.
  - destruct (pcs s p) eqn:E; try exact HP. apply (Ctx p); cbn; try lia; try reflexivity;
      try (intros q N; apply upd_other; exact N); unfold pusher; rewrite E; contradiction.
  - destruct (pcs s p) eqn:E; try exact HP. apply (Ctx p); cbn; try lia; try reflexivity;
      try (intros q N; apply upd_other; exact N); unfold pusher; rewrite E; contradiction.
  - destruct (pcs s p) eqn:E; try exact HP.
    destruct (I s <=? x); (apply (Ctx p); cbn; try lia; try reflexivity; [intros q N; apply upd_other; exact N|];
      unfold pusher; rewrite E; contradiction).
  - (* OCas *)
    destruct (pcs s p) eqn:E; try exact HP.
    destruct (csn_eqb (ring s (slot size x)) old).
    + intros F. unfold sta in F. cbn in F.
      destruct (Z.eqb_spec x (R s)) as [Q|Q].
      * exists p. unfold pusher. cbn. rewrite upd_same. split; [exact Q|exact F].
      * destruct (HP F) as [q Pq]. destruct (Z.eq_dec q p) as [->|N].
        -- unfold pusher in Pq. rewrite E in Pq. contradiction.
        -- exists q. eapply push_other; [exact Pq|cbn; apply upd_other; exact N|reflexivity|reflexivity|cbn; lia].
    + apply (Ctx p); cbn; try lia; try reflexivity; try (intros q N; apply upd_other; exact N); unfold pusher; rewrite E; contradiction.
  - (* OReChk *)
    destruct (pcs s p) eqn:E; try exact HP.
    destruct (I s <=? x); apply (Ctx p); cbn; try lia; try reflexivity;
      try (intros q N; apply upd_other; exact N); unfold pusher; cbn; rewrite E, upd_same; auto.
    intros [Q F]. rewrite F. exact Q.
  - (* OAdvRead *)
    destruct (pcs s p) eqn:E; try exact HP.
    destruct (Z.eqb_spec (R s) x) as [Q|Q]; apply (Ctx p); cbn; try lia; try reflexivity;
      try (intros q N; apply upd_other; exact N); unfold pusher; cbn; rewrite E, upd_same; auto.
    all: intros K; congruence.
  - (* OAdvCas *)
    destruct (pcs s p) eqn:E; try exact HP.
    destruct (Z.eqb_spec (R s) r) as [Q|Q].
    + intros _. exists p. unfold pusher. cbn. rewrite !upd_same. cbn. split; reflexivity.
    + apply (Ctx p); cbn; try lia; try reflexivity; try (intros q N; apply upd_other; exact N).
      unfold pusher. rewrite E. intros K. congruence.
  - (* OAdvFin *)
    destruct (pcs s p) eqn:E; try exact HP. destruct (rds s p) eqn:ER; try exact HP.
    destruct (Z.eqb_spec x0 r) as [Q|Q]; [|exact HP].
    destruct (final v) eqn:Fv; apply (Ctx p); cbn; try lia; try reflexivity; try (intros q N; apply upd_other; exact N);
      unfold pusher; cbn; rewrite E, ER, upd_same; cbn; try tauto.
    intros (_ & _ & K). congruence.
  - (* OLook *)
    assert (K : (forall x y, pcs s r <> PAdvMap x y) -> Push (put (set_rd s r (R1 x)) (Beg r x))).
    { intros N F. change (final (sta s (R s)) = true) in F. destruct (HP F) as [q Pq].
      destruct (Z.eq_dec q r) as [->|Nq].
      - exists r. unfold pusher in *. cbn. destruct (pcs s r); auto. exfalso. eapply N; reflexivity.
      - exists q. eapply push_other; [exact Pq|reflexivity|cbn; apply upd_other; exact Nq|reflexivity|cbn; lia]. }
    destruct (pcs s r) eqn:E; try exact HP;
      (destruct ((0 <=? x) && (x <? W s + size)); [|exact HP]; apply K; intros; discriminate).
  - (* ORing *)
    destruct (rds s r) eqn:E; try exact HP. apply Rd. intros _ y F Ep. rewrite E. cbn. intros ->.
    split; [reflexivity|]. destruct (Z_lt_ge_dec (R s) (I s)) as [K|K]; [left; lia|right].
    rewrite (i_ring s H) by lia. exact F.
  - destruct (rds s r) eqn:E; try exact HP. destruct (Z.leb_spec (I s) x) as [K|K]; apply Rd; intros _ y F Ep; cbn; rewrite E; cbn.
    + intros [-> [Q|Q]]; [lia|]. split; [reflexivity|exact Q].
    + tauto.
  - destruct (rds s r) eqn:E; try exact HP. destruct ((x <? W s) || lock_free s); [|exact HP].
    apply Rd; intros _ y F Ep; cbn; rewrite E; cbn. tauto.
  - destruct (rds s r) eqn:E; try exact HP. apply Rd; intros _ y F Ep; cbn; rewrite E; cbn.
    intros ->. split; [reflexivity|].
    pose proof (HR r) as Q. rewrite E in Q. cbn in Q. rewrite (i_buf s H) by lia. exact F.
  - destruct (rds s r) eqn:E; try exact HP. destruct (Z.ltb_spec x (G s)) as [K|K]; apply Rd; intros _ y F Ep; cbn; rewrite E; cbn.
    + intros [-> _]. lia.
    + tauto.
Qed.

Lemma init_inv : Inv init /\ RInv init /\ Push init.
Proof.
  split; [|split; [|intros F; discriminate]].
  - constructor; cbn; try (intros; lia); auto; try (intros; discriminate); try (intros y H; contradiction H; reflexivity).
    intros a b x E F. destruct a; [|discriminate]. cbn in E. subst b. discriminate.
  - intros r. exact Coq.Init.Logic.I.
Qed.

Lemma reach_inv_all : forall ops, Inv (run (step size) init ops) /\ RInv (run (step size) init ops) /\ Push (run (step size) init ops).
Proof.
  intros ops. apply (run_inv _ _ (step size) (fun s => Inv s /\ RInv s /\ Push s)).
  - intros s o (H1 & H2 & H3). split; [apply step_inv; assumption|]. split; [apply rinv_step; assumption|apply push_step; assumption].
  - exact init_inv.
Qed.

(** Numbers handed out so far are below nextXid and pairwise different. *)
Lemma takes : forall ops, let s := run (step size) init ops in
  (forall p x, In (Take p x) (log s) -> 0 <= x < nextXid s) /\
  (forall a p x b, log s = a ++ Take p x :: b -> forall q, ~ In (Take q x) b).
Proof.
  intros ops. cbv zeta.
  apply (run_inv _ _ (step size) (fun s => 0 <= nextXid s /\
    (forall p x, In (Take p x) (log s) -> 0 <= x < nextXid s) /\
    (forall a p x b, log s = a ++ Take p x :: b -> forall q, ~ In (Take q x) b))).
  2:{ cbn. split; [lia|]. split; [tauto|]. intros a p x b E. destruct a; discriminate. }
  intros s o (N & H1 & H2).
  assert (Keep : forall s', nextXid s' = nextXid s -> log s' = log s ->
     0 <= nextXid s' /\ (forall p x, In (Take p x) (log s') -> 0 <= x < nextXid s') /\
     (forall a p x b, log s' = a ++ Take p x :: b -> forall q, ~ In (Take q x) b)).
  { intros s' E1 E2. rewrite E1, E2. auto. }
  assert (KeepL : forall s' e, nextXid s' = nextXid s -> log s' = e :: log s -> (forall p x, e <> Take p x) ->
     0 <= nextXid s' /\ (forall p x, In (Take p x) (log s') -> 0 <= x < nextXid s') /\
     (forall a p x b, log s' = a ++ Take p x :: b -> forall q, ~ In (Take q x) b)).
  { intros s' e E1 E2 E3. rewrite E1, E2. split; [exact N|]. split.
    - intros p x [Q|Q]; [exfalso; exact (E3 p x Q)|exact (H1 p x Q)].
    - intros a p x b E. destruct a as [|f a]; cbn in E; [injection E as E _; exfalso; exact (E3 p x E)|].
      injection E as _ E. exact (H2 a p x b E). }
  destruct o; cbn [step];
    try (repeat match goal with
    | |- context [match pcs s ?p with _ => _ end] => destruct (pcs s p)
    | |- context [match rds s ?p with _ => _ end] => destruct (rds s p)
    | |- context [match lk s with _ => _ end] => destruct (lk s)
    | |- context [if ?b then _ else _] => destruct b eqn:?
    end;
    first [ solve [auto] | apply Keep; reflexivity | eapply KeepL; [reflexivity|reflexivity|discriminate]]; fail).
  destruct (pcs s p); try (apply Keep; reflexivity).
  cbn. split; [lia|]. split.
  - intros q x [Q|Q]; [inv Q; lia|]. pose proof (H1 q x Q). lia.
  - intros a q x b E. destruct a as [|f a]; cbn in E.
    + injection E as E1 E2 E3. subst. intros q' Q. pose proof (H1 q' _ Q). lia.
    + injection E as _ E. exact (H2 a q x b E).
Qed.

End Proofs.
