(** Invariant behind C12. *)
From Coq Require Import ZArith List Bool Lia.
From Coq Require Import ZifyBool.
From Verif Require Import Base UndoRetModel UndoRetSpec.
Import ListNotations.
Open Scope Z_scope.

(** What the running recomputation has already read. *)
Definition sR (s : st) (i : Z) : Prop :=
  match sc s with ScLoop j k _ _ _ => i < j \/ (i = j /\ 1 <= k) | ScPub _ _ _ _ => True | _ => False end.
Definition sT (s : st) (i : Z) : Prop :=
  match sc s with ScLoop j k _ _ _ => i < j \/ (i = j /\ 2 <= k) | ScPub _ _ _ _ => True | _ => False end.
Definition sS (s : st) (i : Z) : Prop :=
  match sc s with ScLoop j k _ _ _ => i < j | ScPub _ _ _ _ => True | _ => False end.
Definition vR (s : st) : Z := match sc s with ScLoop _ _ a _ _ => a | ScPub _ a _ _ => a | _ => 0 end.
Definition vT (s : st) : Z := match sc s with ScLoop _ _ _ a _ => a | ScPub _ _ a _ => a | _ => 0 end.
Definition vS (s : st) : Z := match sc s with ScLoop _ _ _ _ a => a | ScPub _ _ _ a => a | _ => 0 end.

(** The transaction retain location is published so that every later
    recomputation sees it. *)
Definition armed (c : pcs) : bool :=
  match c with RRead true | RRes true _ | RTx true _ | REven true _ => false | _ => true end.
(** ... and the minima were found not to exceed it. *)
Definition est (c : pcs) : bool :=
  match c with RRead true | RRes true _ | RTx true _ | REven true _ | RChk1 true _ | RChk2 true _ => false | _ => true end.

Definition prot (n : Z) (s : st) (q v : Z) : Prop :=
  exists p w, 0 <= p < n /\ txr s p = Some w /\ w <= v /\ armed (pc s p) = true /\
    (sT s p -> vT s <= Z.max (minT s) w /\ vS s <= Z.max (minS s) w) /\ (p = q \/ hand s p = true).

(** Facts about the position of process [p], except for [prot]. *)
Definition pcok (n : Z) (s : st) (p : Z) : Prop :=
  match pc s p with
  | Idle | SRead | Waiting => True
  | RRead ow => ow = false -> txr s p <> None
  | RRes ow lu => lu <= lastu s /\ (ow = false -> txr s p <> None)
  | RTx ow lu => lu <= lastu s /\ res s p = Some lu /\ (ow = false -> txr s p <> None)
  | REven ow lu => lu <= lastu s /\ res s p = Some lu /\ txr s p <> None /\ (ow = true -> txr s p = Some lu)
  | RChk1 ow lu => lu <= lastu s /\ res s p = Some lu /\ txr s p <> None /\ (ow = true -> txr s p = Some lu) /\
                   (sR s p -> vR s <= lu) /\ (ow = true -> minS s <= Z.max (minT s) lu)
  | RChk2 ow lu => lu <= lastu s /\ res s p = Some lu /\ txr s p <> None /\ (ow = true -> txr s p = Some lu) /\
                   (sR s p -> vR s <= lu) /\ (ow = true -> minS s <= Z.max (minT s) lu) /\ minR s <= lu
  | Ready | Rel => exists lu, lu <= lastu s /\ res s p = Some lu /\ txr s p <> None /\
                   (sR s p -> vR s <= lu) /\ minR s <= lu
  | Have l t => exists lu v, lu <= l /\ l <= lastu s /\ res s p = Some lu /\ txr s p = Some v /\ v <= l /\
                   (sR s p -> vR s <= lu) /\ minR s <= lu /\
                   match t with None => True
                   | Some q => 0 <= q < n /\ q <> p /\ pc s q = Served /\ (forall w, txr s q = Some w -> w <= l) end
  | SWrite r => r <= minT s
  | SEven r => r <= minT s /\ exists v, snp s p = Some v /\ v <= r
  | SChk r => r <= minT s /\ (exists v, snp s p = Some v /\ v <= r) /\ (sS s p -> vS s <= Z.max (minS s) r)
  | Served => True
  end.

Record Inv (n : Z) (s : st) : Prop := {
  i_sc : match sc s with
         | ScNone | ScLast => minS s <= minT s
         | ScLoop i k aR aT aS => 0 <= i /\ 0 <= k <= 2 /\ minS s <= minT s /\ aS <= aT /\ aT <= lastu s /\ aR <= lastu s /\ (i = n -> k = 0)
         | ScPub k aR aT aS => 0 <= k <= 3 /\ aR <= lastu s /\ aT <= lastu s /\ aS <= aT /\ minT s <= aT /\ minS s <= aS /\
                               (k <= 1 -> minS s <= minT s) /\ (3 <= k -> minT s = aT)
         end;
  i_cc : Z.even (cc s) = negb (scanning s);
  i_m : minT s <= lastu s /\ minR s <= lastu s;
  i_tx : forall p v, txr s p = Some v -> v <= lastu s;
  i_pc : forall p, 0 <= p < n -> pcok n s p;
  i_uniq : forall p p' l l' q, 0 <= p < n -> 0 <= p' < n -> pc s p = Have l (Some q) -> pc s p' = Have l' (Some q) -> p = p';
  i_prot : forall q v, 0 <= q < n -> armed (pc s q) = true -> txr s q = Some v -> prot n s q v;
  i_est : forall q v, 0 <= q < n -> est (pc s q) = true -> txr s q = Some v -> minT s <= v /\ minS s <= v;
  i_hand : scanning s = false -> forall p, hand s p = false;
  i_hand2 : forall p, hand s p = true -> est (pc s p) = true /\ txr s p <> None;
  i_held : forall p h, 0 <= p < n -> In h (held s p) ->
     hloc h <= minT s /\ minS s <= hloc h /\ (exists v, snp s p = Some v /\ v <= hloc h) /\ (sS s p -> vS s <= hloc h);
  i_rec : forall r, In r (recs s) -> In (rown r) (fin s) \/
     exists q v, 0 <= q < n /\ cur s q = rown r /\ txr s q = Some v /\ v <= rloc r /\ est (pc s q) = true;
  i_need : forall p h r, 0 <= p < n -> In h (held s p) -> In r (recs s) -> needed_by h r -> hloc h <= rloc r;
}.

Definition GInv (n : Z) (s : st) : Prop := haz s = [] -> Inv n s.

Lemma init_inv : forall n l, Inv n (init n l).
Proof.
  intros. constructor; cbn; try tauto; try lia; try discriminate; try (intros; discriminate).
  all: intros; unfold pcok; cbn; tauto.
Qed.

Lemma even_succ : forall c, Z.even (c + 1) = negb (Z.even c).
Proof. intros. rewrite Z.even_add. cbn. destruct (Z.even c); reflexivity. Qed.

Lemma est_armed : forall c, est c = true -> armed c = true.
Proof. destruct c; try destruct ow; cbn; auto. Qed.

Lemma hmin_le : forall l v, hmin l = Some v -> forall h, In h l -> v <= hloc h.
Proof.
  induction l as [|a l IH]; cbn; intros v E h Hh; [contradiction|].
  destruct (hmin l) as [w|] eqn:El.
  - inv E. destruct Hh as [->|Hh]; [lia|]. specialize (IH w eq_refl h Hh). lia.
  - inv E. destruct Hh as [->|Hh]; [lia|]. destruct l as [|b l]; [contradiction|]. cbn in El. destruct (hmin l); discriminate.
Qed.
Lemma hmin_none : forall l, hmin l = None -> l = [].
Proof. destruct l as [|a l]; cbn; intros; auto. destruct (hmin l); discriminate. Qed.

(** Steps that move only the position of one process. *)
Lemma pc_inv : forall n s p c, 0 <= p < n -> Inv n s ->
  pcok n (set_pc s p c) p ->
  (armed c = true -> armed (pc s p) = true \/ scanning s = false) ->
  (est c = true -> est (pc s p) = true \/ forall v, txr s p = Some v -> minT s <= v /\ minS s <= v) ->
  (est (pc s p) = true -> est c = true \/ txr s p = None) ->
  (armed (pc s p) = true -> armed c = true \/ txr s p = None \/ hand s p = false) ->
  (forall l q, c = Have l (Some q) -> forall p' l', 0 <= p' < n -> p' <> p -> pc s p' <> Have l' (Some q)) ->
  (forall p' l', 0 <= p' < n -> p' <> p -> pc s p' <> Have l' (Some p)) ->
  Inv n (set_pc s p c).
Proof.
  intros n s p c Hp H Hc Ha He He' Ha' Hu Hs. constructor; try (apply H).
  - intros q Hq. destruct (Z.eq_dec q p) as [->|Hne]; [exact Hc|].
    pose proof (i_pc _ _ H q Hq) as K. specialize (Hs q). unfold pcok in *. cbn in K |- *. rewrite upd_other by auto.
    destruct (pc s q) as [| | | | | | | |l [t|]| | | | | | |]; auto.
    destruct K as (lu & v & K). exists lu, v. destruct (Z.eq_dec t p) as [->|Ht].
    + exfalso. apply (Hs l); auto.
    + rewrite upd_other by auto. exact K.
  - cbn. intros p1 p2 l l' q R1 R2 H1 H2.
    destruct (Z.eq_dec p1 p) as [->|N1]; destruct (Z.eq_dec p2 p) as [->|N2]; auto.
    + rewrite upd_same in H1. rewrite upd_other in H2 by auto. exfalso. exact (Hu l q H1 p2 l' R2 N2 H2).
    + rewrite upd_same in H2. rewrite upd_other in H1 by auto. exfalso. exact (Hu l' q H2 p1 l R1 N1 H1).
    + rewrite upd_other in H1, H2 by auto. eapply (i_uniq _ _ H); eauto.
  - cbn. intros q v Hq Hq2 Hv.
    assert (X : armed (pc s q) = true \/ scanning s = false).
    { destruct (Z.eq_dec q p) as [->|Hne]; [rewrite upd_same in Hq2; auto|rewrite upd_other in Hq2 by auto; auto]. }
    destruct X as [X|X].
    + destruct (i_prot _ _ H q v Hq X Hv) as (p0 & w & P1 & P2 & P3 & P4 & P5 & P6).
      refine (ex_intro _ p0 (ex_intro _ w (conj P1 (conj P2 (conj P3 (conj _ (conj P5 P6))))))).
      cbn. destruct (Z.eq_dec p0 p) as [->|Hne]; [rewrite upd_same|rewrite upd_other by auto; auto].
      destruct (Ha' P4) as [K|[K|K]]; auto; try congruence.
      destruct P6 as [->|P6]; [rewrite upd_same in Hq2; auto|congruence].
    + refine (ex_intro _ q (ex_intro _ v (conj Hq (conj Hv (conj (Z.le_refl v) (conj Hq2 (conj _ (or_introl eq_refl)))))))).
      unfold sT, scanning in *; cbn in *; destruct (sc s); try discriminate; cbn in *; tauto.
  - cbn. intros q v Hq Hq2 Hv.
    destruct (Z.eq_dec q p) as [->|Hne].
    + rewrite upd_same in Hq2. destruct (He Hq2) as [K|K]; [apply (i_est _ _ H p v Hp K Hv)|apply K; auto].
    + rewrite upd_other in Hq2 by auto. apply (i_est _ _ H q v Hq Hq2 Hv).
  - cbn. intros q Hq. destruct (i_hand2 _ _ H q Hq) as [K1 K2]. split; auto.
    destruct (Z.eq_dec q p) as [->|Hne]; [rewrite upd_same|rewrite upd_other by auto; auto].
    destruct (He' K1); auto; contradiction.
  - cbn. intros r Hr. destruct (i_rec _ _ H r Hr) as [K|(q & v & K1 & K2 & K3 & K4 & K5)]; auto.
    right. exists q, v. repeat split; auto; try lia.
    destruct (Z.eq_dec q p) as [->|Hne]; [rewrite upd_same|rewrite upd_other by auto; auto].
    destruct (He' K5); auto. congruence.
Qed.

(** Nobody holds a record for a process that is not being served. *)
Lemma not_served : forall n s p, Inv n s -> pc s p <> Served ->
  forall p' l', 0 <= p' < n -> p' <> p -> pc s p' <> Have l' (Some p).
Proof.
  intros n s p H Hs p' l' Hp' _ E. pose proof (i_pc _ _ H p' Hp') as K. unfold pcok in K. rewrite E in K.
  destruct K as (lu & v & K). apply Hs. apply K.
Qed.

Lemma res_inv : forall n s p v, Inv n s -> pcok n (set_res s p v) p -> Inv n (set_res s p v).
Proof.
  intros n s p v H Hc. constructor; try (apply H).
  intros q Hq. destruct (Z.eq_dec q p) as [->|Hne]; [exact Hc|].
  pose proof (i_pc _ _ H q Hq) as K. unfold pcok in *. cbn in K |- *. rewrite upd_other by auto. exact K.
Qed.

Lemma txr_inv : forall n s p v, 0 <= p < n -> Inv n s ->
  pcok n (set_txr s p (Some v)) p ->
  v <= lastu s ->
  (forall p' l', 0 <= p' < n -> pc s p' = Have l' (Some p) -> v <= l') ->
  (armed (pc s p) = true -> prot n (set_txr s p (Some v)) p v) ->
  (est (pc s p) = true -> minT s <= v /\ minS s <= v) ->
  (armed (pc s p) = false \/ txr s p = None) ->
  Inv n (set_txr s p (Some v)).
Proof.
  intros n s p v Hp H Hc Hl Hh Ha He Ho. constructor; try (apply H).
  - cbn. intros q w. destruct (Z.eq_dec q p) as [->|Hne]; [rewrite upd_same; intros E; inv E; auto|rewrite upd_other by auto; apply (i_tx _ _ H)].
  - intros q Hq. destruct (Z.eq_dec q p) as [->|Hne]; [exact Hc|].
    pose proof (i_pc _ _ H q Hq) as K. specialize (Hh q). unfold pcok in *. cbn in K |- *. rewrite upd_other by auto.
    destruct (pc s q) as [| | | | | | | |l [t|]| | | | | | |]; auto.
    destruct K as (lu & v0 & K). exists lu, v0. destruct K as (K1&K2&K3&K4&K5&K6&K7&K8&K8b&K9&K10). repeat split; auto; try lia; try (apply K9).
    intros w. destruct (Z.eq_dec t p) as [->|Ht]; [rewrite upd_same; intros E; inv E; eauto|rewrite upd_other by auto; auto].
  - cbn. intros q w Hq Hq2. destruct (Z.eq_dec q p) as [->|Hne].
    + rewrite upd_same. intros E. inv E. auto.
    + rewrite upd_other by auto. intros E. destruct (i_prot _ _ H q w Hq Hq2 E) as (p0 & w0 & P1 & P2 & P3 & P4 & P5 & P6).
      refine (ex_intro _ p0 (ex_intro _ w0 (conj P1 (conj _ (conj P3 (conj P4 (conj P5 P6))))))).
      cbn. rewrite upd_other; auto. intros ->. destruct Ho; congruence.
  - cbn. intros q w Hq Hq2. destruct (Z.eq_dec q p) as [->|Hne].
    + rewrite upd_same. intros E. inv E. auto.
    + rewrite upd_other by auto. apply (i_est _ _ H q w Hq Hq2).
  - cbn. intros q Hq. destruct (i_hand2 _ _ H q Hq) as [K1 K2]. split; auto.
    destruct (Z.eq_dec q p) as [->|Hne]; [rewrite upd_same; discriminate|rewrite upd_other by auto; auto].
  - cbn. intros r Hr. destruct (i_rec _ _ H r Hr) as [K|(q & w & K1 & K2 & K3 & K4 & K5)]; auto.
    right. exists q, w. rewrite upd_other; auto 10. intros ->. apply est_armed in K5. destruct Ho; congruence.
Qed.

Lemma last_inv : forall n s v, Inv n s -> lastu s <= v -> Inv n (set_last s v).
Proof.
  intros n s v H Hv. constructor; try (apply H).
  - pose proof (i_sc _ _ H) as K. cbn. destruct (sc s); intuition lia.
  - pose proof (i_m _ _ H). cbn. lia.
  - intros p w Hw. pose proof (i_tx _ _ H p w Hw). cbn. lia.
  - intros p Hp. pose proof (i_pc _ _ H p Hp) as K. unfold pcok in *. cbn in K |- *.
    unfold sR, sT, sS, vR, vT, vS in *. cbn in *.
    destruct (pc s p) as [| | | | | | | |l t| | | | | | |]; intuition (try lia).
    + destruct K as (lu & K). exists lu. intuition lia.
    + destruct K as (lu & v0 & K). exists lu, v0. intuition lia.
    + destruct K as (lu & K). exists lu. intuition lia.
Qed.

Lemma snp_inv : forall n s p v, Inv n s -> pcok n (set_snp s p v) p ->
  (forall h, In h (held s p) -> exists w, v = Some w /\ w <= hloc h) -> Inv n (set_snp s p v).
Proof.
  intros n s p v H Hc Hh. constructor; try (apply H).
  - intros q Hq. destruct (Z.eq_dec q p) as [->|Hne]; [exact Hc|].
    pose proof (i_pc _ _ H q Hq) as K. unfold pcok in *. cbn in K |- *. rewrite upd_other by auto. exact K.
  - cbn. intros q h Hq Hi. destruct (i_held _ _ H q h Hq Hi) as (A & B & C & D). repeat split; auto.
    destruct (Z.eq_dec q p) as [->|Hne]; [rewrite upd_same; auto|rewrite upd_other by auto; auto].
Qed.

Lemma held_inv : forall n s p l, Inv n s ->
  (forall h, In h l -> In h (held s p) \/
     (hloc h <= minT s /\ minS s <= hloc h /\ (exists v, snp s p = Some v /\ v <= hloc h) /\ (sS s p -> vS s <= hloc h) /\
      forall r, In r (recs s) -> needed_by h r -> hloc h <= rloc r)) ->
  Inv n (set_held s p l).
Proof.
  intros n s p l H Hl. constructor; try (apply H).
  - cbn. intros q h Hq. destruct (Z.eq_dec q p) as [->|Hne]; [rewrite upd_same|rewrite upd_other by auto; apply (i_held _ _ H q h Hq)].
    intros Hi. destruct (Hl h Hi) as [K|K]; [apply (i_held _ _ H p h Hq K)|tauto].
  - cbn. intros q h r Hq. destruct (Z.eq_dec q p) as [->|Hne]; [rewrite upd_same|rewrite upd_other by auto; apply (i_need _ _ H q h r Hq)].
    intros Hi. destruct (Hl h Hi) as [K|K]; [apply (i_need _ _ H p h r Hq K)|intros; apply K; auto].
Qed.

Lemma rec_inv : forall n s r, Inv n s ->
  (exists q v, 0 <= q < n /\ cur s q = rown r /\ txr s q = Some v /\ v <= rloc r /\ est (pc s q) = true) ->
  minT s <= rloc r -> Inv n (add_rec s r).
Proof.
  intros n s r H Hq Hm. constructor; try (apply H).
  - cbn. intros r' [<-|Hr]; auto. apply (i_rec _ _ H r' Hr).
  - cbn. intros p h r' Hp Hh [<-|Hr]; [|apply (i_need _ _ H p h r' Hp Hh Hr)].
    intros _. pose proof (i_held _ _ H p h Hp Hh). lia.
Qed.

Lemma hand_inv : forall n s p, Inv n s -> scanning s = true -> est (pc s p) = true -> txr s p <> None ->
  Inv n (set_hand s p true).
Proof.
  intros n s p H Hs He Ht. constructor; try (apply H).
  - cbn. intros q v Hq Hq2 Hv. destruct (i_prot _ _ H q v Hq Hq2 Hv) as (p0 & w0 & P1 & P2 & P3 & P4 & P5 & P6).
    refine (ex_intro _ p0 (ex_intro _ w0 (conj P1 (conj P2 (conj P3 (conj P4 (conj P5 _))))))).
    cbn. destruct P6 as [P6|P6]; auto. right. destruct (Z.eq_dec p0 p) as [->|N]; [apply upd_same|rewrite upd_other; auto].
  - change (scanning s = false -> forall p0 : Z, upd (hand s) p true p0 = false). congruence.
  - cbn. intros q. destruct (Z.eq_dec q p) as [->|N]; [auto|rewrite upd_other by auto; apply (i_hand2 _ _ H)].
Qed.

Lemma even_noscan : forall n s, Inv n s -> Z.even (cc s) = true -> scanning s = false.
Proof. intros n s H E. rewrite (i_cc _ _ H) in E. destruct (scanning s); auto; discriminate. Qed.

Lemma noscan_not : forall s, scanning s = false -> (forall i, ~ sR s i) /\ (forall i, ~ sT s i) /\ (forall i, ~ sS s i).
Proof. intros s. unfold scanning, sR, sT, sS. destruct (sc s); try discriminate; tauto. Qed.

Ltac pcs := apply pc_inv; auto;
  [ | | | | | try (intros; discriminate) | try (apply not_served; auto; congruence)].

Lemma r_begin_inv : forall n s p, 0 <= p < n -> Inv n s -> Inv n (r_begin s p).
Proof.
  intros n s p Hp H. unfold r_begin. destruct (pc s p) eqn:E; auto.
  apply pc_inv; auto; try (rewrite E; auto; fail); try (intros; discriminate).
  - unfold pcok. cbn. rewrite upd_same. destruct (txr s p); congruence.
  - rewrite E. cbn. intros _. destruct (txr s p); auto.
  - rewrite E. cbn. intros _. destruct (txr s p); auto.
  - apply not_served; auto; congruence.
Qed.

Lemma r_step_inv : forall n s p, 0 <= p < n -> Inv n s -> Inv n (r_step s p).
Proof.
  intros n s p Hp H. unfold r_step. pose proof (i_pc _ _ H p Hp) as K. unfold pcok in K.
  assert (Hn : est (pc s p) = false -> hand s p = false).
  { intros E. destruct (hand s p) eqn:Eh; auto. destruct (i_hand2 _ _ H p Eh); congruence. }
  destruct (pc s p) eqn:E; auto.
  - apply pc_inv; auto; try (rewrite E; destruct ow; auto; fail); try (intros; discriminate); try (apply not_served; auto; congruence).
    unfold pcok. cbn. rewrite upd_same. split; [lia|auto].
  - assert (H1 : Inv n (set_res s p (Some lu))).
    { apply res_inv; auto. unfold pcok. cbn. rewrite E. exact K. }
    apply pc_inv; auto; try (cbn; rewrite E; destruct ow; auto; fail); try (intros; discriminate).
    + unfold pcok. cbn. rewrite !upd_same. tauto.
    + apply not_served; auto; cbn; congruence.
  - assert (H1 : Inv n (if ow then set_txr s p (Some lu) else s)).
    { destruct ow; auto. apply txr_inv; auto; try (rewrite E; cbn; discriminate); try tauto.
      - unfold pcok. cbn. rewrite E. rewrite upd_same. intuition congruence.
      - intros p' l' Hp' E'. exfalso. revert E'. destruct (Z.eq_dec p' p); [congruence|]. eapply not_served; eauto; congruence.
      - rewrite E. auto. }
    apply pc_inv; auto.
    + unfold pcok. cbn. rewrite upd_same. destruct ow; cbn; rewrite ?upd_same; intuition congruence.
    + destruct ow; cbn; rewrite E; auto.
    + destruct ow; cbn; rewrite E; auto.
    + destruct ow; cbn; rewrite E; auto.
    + destruct ow; cbn; rewrite E; auto.
    + intros; discriminate.
    + apply not_served; auto; destruct ow; cbn; congruence.
  - destruct (Z.even (cc s)) eqn:Ee; auto. pose proof (even_noscan _ _ H Ee) as Hs. destruct (noscan_not _ Hs) as (N1 & N2 & N3).
    apply pc_inv; auto; try (rewrite E; destruct ow; cbn; auto; fail); try (intros; discriminate); try (apply not_served; auto; congruence).
    unfold pcok. cbn. rewrite upd_same.
    split; [tauto|]. split; [tauto|]. split; [tauto|]. split; [tauto|]. split; [intros X; exfalso; exact (N1 p X)|].
    pose proof (i_sc _ _ H) as Q. unfold scanning in Hs. destruct (sc s); try discriminate. intros _. lia.
  - destruct (Z.ltb_spec lu (minR s)).
    + apply pc_inv; auto; try (rewrite E in *; destruct ow; cbn; auto; fail); try (intros; discriminate); try (apply not_served; auto; congruence).
      unfold pcok. cbn. rewrite upd_same. tauto.
    + apply pc_inv; auto; try (rewrite E in *; destruct ow; cbn; auto; fail); try (intros; discriminate); try (apply not_served; auto; congruence).
      unfold pcok. cbn. rewrite upd_same. intuition.
  - destruct (Z.ltb_spec lu (minT s)).
    + apply pc_inv; auto; try (rewrite E in *; destruct ow; cbn; auto; fail); try (intros; discriminate); try (apply not_served; auto; congruence).
      unfold pcok. cbn. rewrite upd_same. tauto.
    + apply pc_inv; auto; try (rewrite E in *; destruct ow; cbn; auto; fail); try (intros; discriminate); try (apply not_served; auto; congruence).
      * unfold pcok. cbn. rewrite upd_same. exists lu. intuition.
      * rewrite E. destruct ow; cbn; auto. intros _. right. destruct K as (_ & _ & _ & K4 & _ & K6 & _). rewrite (K4 eq_refl). specialize (K6 eq_refl). intros v Ev. inv Ev. lia.
Qed.

Lemma alloc_inv : forall n s p k z t, 0 <= p < n -> Inv n s -> Inv n (alloc n s p k z t).
Proof.
  intros n s p k z t Hp H. unfold alloc. pose proof (i_pc _ _ H p Hp) as K. unfold pcok in K.
  destruct (pc s p) eqn:E; auto. destruct ((0 <=? k) && (0 <? z)) eqn:Ek; auto.
  assert (H1 : Inv n (set_last s (lastu s + k + z))) by (apply last_inv; auto; lia).
  destruct K as (lu & K1 & K2 & K3 & K4 & K5). destruct (txr s p) as [v|] eqn:Ev; [|contradiction].
  pose proof (i_tx _ _ H p v Ev).
  destruct t as [q|].
  - destruct (pc s q) eqn:Eq; auto. destruct ((0 <=? q) && (q <? n)) eqn:Hq; auto.
    assert (Hne : q <> p) by congruence.
    assert (H2 : Inv n (set_pc (set_last s (lastu s + k + z)) q Served)).
    { apply pc_inv; auto; try lia; try (cbn; rewrite Eq; cbn; auto; fail); try (intros; discriminate).
      - unfold pcok. cbn. rewrite upd_same. auto.
      - apply not_served; auto; cbn; congruence. }
    apply pc_inv; auto; try (cbn; rewrite upd_other by auto; rewrite E; cbn; auto; fail).
    + unfold pcok. cbn. rewrite upd_same. exists lu, v. rewrite (upd_other _ _ p _ q) by auto. rewrite upd_same.
      assert (forall w : Z, txr s q = Some w -> w <= lastu s + k) by (intros w Hw; pose proof (i_tx _ _ H q w Hw); lia).
      intuition lia.
    + intros l q0 Ec p' l' Hp' Hn E'. inv Ec. cbn in E'.
      destruct (Z.eq_dec p' q0) as [->|N]; [rewrite upd_same in E'; discriminate|rewrite upd_other in E' by auto].
      revert E'. apply (not_served n s q0 H); auto. congruence.
    + apply not_served; auto; cbn. rewrite upd_other by auto. congruence.
  - apply pc_inv; auto; try (cbn; rewrite E; cbn; auto; fail); try (intros; discriminate).
    + unfold pcok. cbn. rewrite upd_same. exists lu, v. intuition lia.
    + apply not_served; auto; cbn. congruence.
Qed.

Lemma link_inv : forall n s p, 0 <= p < n -> Inv n s -> Inv n (link s p).
Proof.
  intros n s p Hp H. unfold link. pose proof (i_pc _ _ H p Hp) as K. unfold pcok in K.
  destruct (pc s p) as [| | | | | | | |l [q|]| | | | | | |] eqn:E; auto.
  - destruct K as (lu & v & K1 & K2 & K3 & K4 & K5 & K6 & K7 & K8 & K9 & K10 & K11).
    pose proof (i_est _ _ H p v Hp ltac:(rewrite E; reflexivity) K4) as Hest.
    set (s1 := if scanning s then set_hand s p true else s).
    assert (H1 : Inv n s1).
    { unfold s1. destruct (scanning s) eqn:Es; auto. apply hand_inv; auto; [rewrite E; reflexivity|congruence]. }
    assert (F : pc s1 = pc s /\ txr s1 = txr s /\ cur s1 = cur s /\ lastu s1 = lastu s /\ minT s1 = minT s /\ minS s1 = minS s /\
                res s1 = res s /\ sc s1 = sc s /\ minR s1 = minR s) by (unfold s1; destruct (scanning s); cbn; auto 10).
    destruct F as (F1 & F2 & F3 & F4 & F5 & F6 & F7 & F8 & F9).
    set (s2 := match txr s q with None => set_txr s1 q (Some l) | Some _ => s1 end).
    assert (H2 : Inv n s2).
    { unfold s2. destruct (txr s q) as [w|] eqn:Ew; auto.
      apply txr_inv; auto; try (rewrite ?F1, ?F2, ?F4, ?F5, ?F6; auto; lia).
      - unfold pcok. cbn. rewrite F1, K10. auto.
      - rewrite F1. intros p' l' Hp' E'. assert (p = p') by (eapply (i_uniq _ _ H); eauto). subst p'. rewrite E in E'. inv E'. lia.
      - intros _. destruct (scanning s) eqn:Es.
        + destruct (i_prot _ _ H1 p v Hp) as (p0 & w0 & P1 & P2 & P3 & P4 & P5 & P6).
          { rewrite F1, E. reflexivity. } { rewrite F2. auto. }
          refine (ex_intro _ p0 (ex_intro _ w0 (conj P1 (conj _ (conj _ (conj P4 (conj P5 _))))))); try lia.
          * cbn. rewrite upd_other; auto. intros ->. rewrite F2 in P2. congruence.
          * cbn. destruct P6 as [->|P6]; auto. right. unfold s1. apply upd_same.
        + exists q, l. split; [auto|]. split; [cbn; apply upd_same|]. split; [lia|]. split; [cbn; rewrite F1, K10; reflexivity|].
          split; [|auto]. intros X. exfalso. destruct (noscan_not s Es) as (_ & N & _). apply (N q).
          unfold sT in *. cbn in X. rewrite F8 in X. exact X. }
    assert (G : pc s2 = pc s /\ cur s2 = cur s /\ (exists w, txr s2 q = Some w /\ w <= l) /\ minT s2 = minT s /\ 
                res s2 = res s /\ sc s2 = sc s /\ minR s2 = minR s /\ lastu s2 = lastu s /\ txr s2 p = Some v).
    { unfold s2. destruct (txr s q) as [w|] eqn:Ew; cbn.
      - rewrite F1, F2, F3, F4, F5, F7, F8, F9. repeat split; auto. exists w. auto.
      - rewrite F1, F2, F3, F4, F5, F7, F8, F9. repeat split; auto. exists l. rewrite upd_same. split; auto; lia.
        rewrite upd_other by auto. auto. }
    destruct G as (G1 & G2 & (w & G3 & G3b) & G4 & G5 & G6 & G7 & G8 & G9).
    assert (H3 : Inv n (add_rec s2 (mkR l (cur s q)))).
    { apply rec_inv; auto; [|cbn; lia]. exists q, w. cbn. rewrite G1, G2, K10. repeat split; auto; lia. }
    set (s3 := add_rec s2 (mkR l (cur s q))) in *.
    assert (H4 : Inv n (set_pc s3 p Rel)).
    { apply pc_inv; auto; try (cbn; rewrite G1, E; cbn; auto; fail); try (intros; discriminate).
      - unfold pcok. cbn. rewrite upd_same. exists lu. rewrite G5, G7, G8, G9. unfold sR, vR in *. cbn. rewrite G6.
        repeat split; auto; try lia; try congruence.
      - apply not_served; auto. cbn. rewrite G1. congruence. }
    apply pc_inv; auto; try (cbn; rewrite upd_other, G1, K10 by auto; cbn; auto; fail); try (intros; discriminate).
    + unfold pcok. cbn. rewrite upd_same. auto.
    + cbn. intros p' l' Hp' Hn. destruct (Z.eq_dec p' p) as [->|N]; [rewrite upd_same; discriminate|rewrite upd_other by auto].
      rewrite G1. intros E'. apply N. symmetry. eapply (i_uniq _ _ H); eauto.
  - destruct K as (lu & v & K1 & K2 & K3 & K4 & K5 & K6 & K7 & _).
    pose proof (i_est _ _ H p v Hp ltac:(rewrite E; reflexivity) K4) as Hest.
    assert (H3 : Inv n (add_rec s (mkR l (cur s p)))).
    { apply rec_inv; auto; [|cbn; lia]. exists p, v. cbn. rewrite E. repeat split; auto; lia. }
    apply pc_inv; auto; try (cbn; rewrite E; cbn; auto; fail); try (intros; discriminate).
    + unfold pcok. cbn. rewrite upd_same. exists lu. repeat split; auto; try lia; try congruence.
    + apply not_served; auto. cbn. congruence.
Qed.

Lemma release_inv : forall n s p, 0 <= p < n -> Inv n s -> Inv n (release s p).
Proof.
  intros n s p Hp H. unfold release. destruct (pc s p) eqn:E; auto.
  change (Inv n (set_res (set_pc s p Idle) p None)). apply res_inv.
  - apply pc_inv; auto; try (cbn; rewrite E; cbn; auto; fail); try (intros; discriminate).
    + unfold pcok. cbn. rewrite upd_same. auto.
    + apply not_served; auto. congruence.
  - unfold pcok. cbn. rewrite upd_same. auto.
Qed.

Lemma finish_inv : forall n s p, 0 <= p < n -> Inv n s -> hand s p = false -> Inv n (finish s p).
Proof.
  intros n s p Hp H Hh. unfold finish. destruct (pc s p) eqn:E; auto.
  constructor; try (apply H).
  - cbn. intros q v. destruct (Z.eq_dec q p) as [->|N]; [rewrite upd_same; discriminate|rewrite upd_other by auto; apply (i_tx _ _ H)].
  - intros q Hq. pose proof (i_pc _ _ H q Hq) as K. unfold pcok in *. cbn.
    destruct (Z.eq_dec q p) as [->|N]; [rewrite E; auto|].
    rewrite upd_other by auto. destruct (pc s q) as [| | | | | | | |l [t|]| | | | | | |] eqn:Eq; auto.
    destruct K as (lu & v & K). exists lu, v. destruct (Z.eq_dec t p) as [->|Ht]; [|rewrite upd_other by auto; exact K].
    exfalso. destruct K as (_&_&_&_&_&_&_&_&_&K&_). congruence.
  - cbn. intros q v Hq Hq2. destruct (Z.eq_dec q p) as [->|N]; [rewrite upd_same; discriminate|rewrite upd_other by auto].
    intros Hv. destruct (i_prot _ _ H q v Hq Hq2 Hv) as (p0 & w0 & P1 & P2 & P3 & P4 & P5 & P6).
    refine (ex_intro _ p0 (ex_intro _ w0 (conj P1 (conj _ (conj P3 (conj P4 (conj P5 P6))))))).
    cbn. rewrite upd_other; auto. intros ->. destruct P6; congruence.
  - cbn. intros q v Hq Hq2. destruct (Z.eq_dec q p) as [->|N]; [rewrite upd_same; discriminate|rewrite upd_other by auto].
    apply (i_est _ _ H q v Hq Hq2).
  - cbn. intros q Hq. rewrite upd_other; [|intros ->; congruence]. apply (i_hand2 _ _ H q Hq).
  - cbn. intros r Hr. destruct (i_rec _ _ H r Hr) as [K|(q & v & K1 & K2 & K3 & K4 & K5)]; auto.
    destruct (Z.eq_dec q p) as [->|N]; [auto|]. right. exists q, v. rewrite !upd_other by auto. auto 10.
Qed.

Lemma wait_inv : forall n s p, 0 <= p < n -> Inv n s -> Inv n (wait s p).
Proof.
  intros n s p Hp H. unfold wait. destruct (pc s p) eqn:E; auto.
  all: apply pc_inv; auto; try (cbn; rewrite E; cbn; auto; fail); try (intros; discriminate);
    [unfold pcok; cbn; rewrite upd_same; auto|apply not_served; auto; congruence].
Qed.

Lemma s_begin_inv : forall n s p, 0 <= p < n -> Inv n s -> Inv n (s_begin s p).
Proof.
  intros n s p Hp H. unfold s_begin. destruct (pc s p) eqn:E; auto.
  apply pc_inv; auto; try (cbn; rewrite E; cbn; auto; fail); try (intros; discriminate);
    [unfold pcok; cbn; rewrite upd_same; auto|apply not_served; auto; congruence].
Qed.

Lemma s_step_inv : forall n s p i, 0 <= p < n -> Inv n s -> Inv n (s_step s p i).
Proof.
  intros n s p i Hp H. unfold s_step. pose proof (i_pc _ _ H p Hp) as K. unfold pcok in K.
  destruct (pc s p) eqn:E; auto.
  - apply pc_inv; auto; try (cbn; rewrite E; cbn; auto; fail); try (intros; discriminate);
      [unfold pcok; cbn; rewrite upd_same; lia|apply not_served; auto; congruence].
  - assert (W : Inv n (set_snp s p (Some r)) -> Inv n (set_pc (set_snp s p (Some r)) p (SEven r))).
    { intros H1. apply pc_inv; auto; try (cbn; rewrite E; cbn; auto; fail); try (intros; discriminate).
      - unfold pcok; cbn; rewrite !upd_same. split; auto. exists r. split; auto; lia.
      - apply not_served; auto; cbn; congruence. }
    destruct (snp s p) as [v|] eqn:Ev.
    + destruct (Z.ltb_spec r v).
      * apply W. apply snp_inv; auto; [unfold pcok; cbn; rewrite E; auto|].
        intros h Hh. destruct (i_held _ _ H p h Hp Hh) as (_ & _ & (v' & X1 & X2) & _). exists r. split; auto. assert (v' = v) by congruence. lia.
      * apply pc_inv; auto; try (cbn; rewrite E; cbn; auto; fail); try (intros; discriminate);
          [unfold pcok; cbn; rewrite upd_same; split; auto; exists v; auto|apply not_served; auto; congruence].
    + apply W. apply snp_inv; auto; [unfold pcok; cbn; rewrite E; auto|].
      intros h Hh. destruct (i_held _ _ H p h Hp Hh) as (_ & _ & (v' & X1 & X2) & _). congruence.
  - destruct (Z.even (cc s)) eqn:Ee; auto. pose proof (even_noscan _ _ H Ee) as Hs. destruct (noscan_not _ Hs) as (N1 & N2 & N3).
    apply pc_inv; auto; try (cbn; rewrite E; cbn; auto; fail); try (intros; discriminate);
      [unfold pcok; cbn; rewrite upd_same|apply not_served; auto; congruence].
    split; [tauto|]. split; [tauto|]. intros X. exfalso. exact (N3 p X).
  - destruct (Z.ltb_spec r (minS s)).
    + apply pc_inv; auto; try (cbn; rewrite E; cbn; auto; fail); try (intros; discriminate);
        [unfold pcok; cbn; rewrite upd_same; auto|apply not_served; auto; congruence].
    + assert (H1 : Inv n (set_held s p (mkH i r (fin s) :: held s p))).
      { apply held_inv; auto. intros h [<-|Hh]; auto. right. cbn. destruct K as (K1 & K2 & K3).
        repeat split; auto. { intros X. specialize (K3 X). lia. }
        intros r0 Hr Hn. destruct (i_rec _ _ H r0 Hr) as [X|(q & v & X1 & X2 & X3 & X4 & X5)]; [contradiction|].
        destruct (i_est _ _ H q v X1 X5 X3). lia. }
      apply pc_inv; auto; try (cbn; rewrite E; cbn; auto; fail); try (intros; discriminate);
        [unfold pcok; cbn; rewrite upd_same; auto|apply not_served; auto; cbn; congruence].
Qed.

Lemma drop_inv : forall n s p i, Inv n s -> Inv n (drop s p i).
Proof.
  intros n s p i H. apply held_inv; auto. intros h Hh. left. apply filter_In in Hh. apply Hh.
Qed.

Lemma reset_inv : forall n s p, 0 <= p < n -> Inv n s -> Inv n (reset s p).
Proof.
  intros n s p Hp H. unfold reset. destruct (pc s p) eqn:E; auto.
  destruct (hmin (held s p)) as [v|] eqn:Eh.
  - destruct (snp s p) as [w|]; auto. destruct (w <? v); auto.
    apply snp_inv; auto; [unfold pcok; cbn; rewrite E; auto|]. intros h Hh. exists v. split; auto. eapply hmin_le; eauto.
  - apply snp_inv; auto; [unfold pcok; cbn; rewrite E; auto|]. rewrite (hmin_none _ Eh). contradiction.
Qed.

Lemma u_begin_inv : forall n s, Inv n s -> Inv n (u_begin s).
Proof.
  intros n s H. unfold u_begin. destruct (sc s) eqn:E; auto.
  pose proof (i_sc _ _ H) as K. rewrite E in K.
  pose proof (i_cc _ _ H) as Kc. unfold scanning in Kc. rewrite E in Kc.
  constructor; try (apply H).
  - exact K.
  - cbn. rewrite even_succ, Kc. reflexivity.
  - intros p Hp. pose proof (i_pc _ _ H p Hp) as Q. unfold pcok, sR, vR, sS, vS in *. cbn. rewrite E in Q. exact Q.
  - cbn. intros q v Hq Hq2 Hv. exists q, v. repeat split; auto; try lia; unfold sT in *; cbn in *; try tauto.
  - reflexivity.
  - cbn. discriminate.
  - cbn. intros p h Hp Hh. destruct (i_held _ _ H p h Hp Hh) as (A & B & C & D). repeat split; auto. unfold sS. cbn. tauto.
Qed.

(** The recomputation reads on; the published minima stay. *)
Lemma sc_inv : forall n s x, Inv n s ->
  let s' := set_sc s x in
  match x with
  | ScNone | ScLast => False
  | ScLoop i k aR aT aS => 0 <= i /\ 0 <= k <= 2 /\ minS s <= minT s /\ aS <= aT /\ aT <= lastu s /\ aR <= lastu s /\ (i = n -> k = 0)
  | ScPub k aR aT aS => 0 <= k <= 3 /\ aR <= lastu s /\ aT <= lastu s /\ aS <= aT /\ minT s <= aT /\ minS s <= aS /\
                        (k <= 1 -> minS s <= minT s) /\ (3 <= k -> minT s = aT)
  end -> scanning s = true ->
  (forall q lu, 0 <= q < n -> res s q = Some lu -> sR s' q -> (sR s q -> vR s <= lu) -> vR s' <= lu) ->
  (forall q w, 0 <= q < n -> txr s q = Some w -> sT s' q -> (sT s q -> vT s <= Z.max (minT s) w /\ vS s <= Z.max (minS s) w) ->
     vT s' <= Z.max (minT s) w /\ vS s' <= Z.max (minS s) w) ->
  (forall q v X, 0 <= q < n -> snp s q = Some v -> v <= X -> sS s' q -> (sS s q -> vS s <= Z.max (minS s) X) -> vS s' <= Z.max (minS s) X) ->
  Inv n s'.
Proof.
  intros n s x H s' Hx Hs HR HT HS. constructor; try (apply H).
  - cbn. destruct x; try contradiction; exact Hx.
  - change (Z.even (cc s) = negb (match x with ScNone => false | _ => true end)). rewrite (i_cc _ _ H), Hs. destruct x; auto; contradiction.
  - intros p Hp. pose proof (i_pc _ _ H p Hp) as Q. specialize (HR p). specialize (HS p). unfold pcok in *.
    change (pc s' p) with (pc s p). change (res s' p) with (res s p). change (txr s' p) with (txr s p). change (snp s' p) with (snp s p).
    change (lastu s') with (lastu s). change (minT s') with (minT s). change (minS s') with (minS s). change (minR s') with (minR s).
    destruct (pc s p) as [| | | | | | | |l t| | | | | | |]; auto.
    + destruct Q as (Q1 & Q2 & Q3 & Q4 & Q5 & Q6). repeat split; auto.
    + destruct Q as (Q1 & Q2 & Q3 & Q4 & Q5 & Q6 & Q7). repeat split; auto.
    + destruct Q as (lu & Q1 & Q2 & Q3 & Q4 & Q5). exists lu. repeat split; auto.
    + destruct Q as (lu & v & Q1 & Q2 & Q3 & Q4 & Q5 & Q6 & Q7 & Q8). exists lu, v. repeat split; auto.
    + destruct Q as (lu & Q1 & Q2 & Q3 & Q4 & Q5). exists lu. repeat split; auto.
    + destruct Q as (Q1 & (v & Q2 & Q3) & Q4). repeat split; auto. { exists v; auto. } intros X. eapply HS; eauto.
  - intros q v Hq Hq2 Hv. destruct (i_prot _ _ H q v Hq Hq2 Hv) as (p0 & w0 & P1 & P2 & P3 & P4 & P5 & P6).
    refine (ex_intro _ p0 (ex_intro _ w0 (conj P1 (conj P2 (conj P3 (conj P4 (conj _ P6))))))).
    intros X. apply (HT p0 w0 P1 P2 X P5).
  - change (match x with ScNone => false | _ => true end = false -> forall p, hand s p = false). destruct x; try contradiction; discriminate.
  - intros p h Hp Hh. destruct (i_held _ _ H p h Hp Hh) as (A & B & (v & C1 & C2) & D). repeat split; auto. { exists v; auto. }
    intros X. pose proof (HS p v (hloc h) Hp C1 C2 X) as Y. assert (minS s <= hloc h) by exact B. 
    assert (vS s' <= Z.max (minS s) (hloc h)) by (apply Y; intros Z0; specialize (D Z0); lia). lia.
Qed.

Lemma u_step_inv : forall n s, 0 <= n -> Inv n s -> Inv n (u_step n s).
Proof.
  intros n s Hn0 H. unfold u_step. pose proof (i_sc _ _ H) as K. pose proof (i_m _ _ H) as Km.
  destruct (sc s) as [| |i k aR aT aS|k aR aT aS] eqn:E; auto.
  - apply sc_inv; auto; try (unfold scanning; rewrite E; auto; fail).
    + lia.
    + intros q lu Hq _. unfold sR. cbn. lia.
    + intros q lu Hq _. unfold sT. cbn. lia.
    + intros q lu X Hq _ _. unfold sS. cbn. lia.
  - assert (Hsc : scanning s = true) by (unfold scanning; rewrite E; auto).
    assert (TX : forall q w, txr s q = Some w -> w <= lastu s) by apply (i_tx _ _ H).
    destruct (Z.ltb_spec i n) as [Hi|Hi].
    + destruct (Z.eqb_spec k 0) as [->|Nk]; [|destruct (Z.eqb_spec k 1) as [->|Nk1]].
      * apply sc_inv; auto.
        { destruct (res s i); cbn; lia. }
        all: unfold sR, vR, sT, vT, sS, vS; cbn; rewrite E.
        -- intros q lu Hq Hr Hsc' Hold. destruct (Z.eq_dec q i) as [->|Ne]; [rewrite Hr; cbn; lia|].
           assert (aR <= lu) by (apply Hold; lia). destruct (res s i); cbn; lia.
        -- intros q w Hq Hr Hsc' Hold. apply Hold. lia.
        -- intros q v X Hq Hr HX Hsc' Hold. apply Hold. lia.
      * apply sc_inv; auto.
        { destruct (txr s i); cbn; lia. }
        all: unfold sR, vR, sT, vT, sS, vS; cbn; rewrite E.
        -- intros q lu Hq Hr Hsc' Hold. apply Hold. lia.
        -- intros q w Hq Hr Hsc' Hold. destruct (Z.eq_dec q i) as [->|Ne]; [rewrite Hr; cbn; lia|].
           assert (aT <= Z.max (minT s) w /\ aS <= Z.max (minS s) w) by (apply Hold; lia). destruct (txr s i); cbn; lia.
        -- intros q v X Hq Hr HX Hsc' Hold. assert (aS <= Z.max (minS s) X) by (apply Hold; lia). destruct (txr s i); cbn; lia.
      * assert (k = 2) by lia. subst k. apply sc_inv; auto.
        { destruct (snp s i); cbn; lia. }
        all: unfold sR, vR, sT, vT, sS, vS; cbn; rewrite E.
        -- intros q lu Hq Hr Hsc' Hold. apply Hold. lia.
        -- intros q w Hq Hr Hsc' Hold. assert (aT <= Z.max (minT s) w /\ aS <= Z.max (minS s) w) by (apply Hold; lia). destruct (snp s i); cbn; lia.
        -- intros q v X Hq Hr HX Hsc' Hold. destruct (Z.eq_dec q i) as [->|Ne]; [rewrite Hr; cbn; lia|].
           assert (aS <= Z.max (minS s) X) by (apply Hold; lia). destruct (snp s i); cbn; lia.
    + apply sc_inv; auto.
      { lia. }
      all: unfold sR, vR, sT, vT, sS, vS; cbn; rewrite E.
      * intros q lu Hq Hr Hsc' Hold. apply Hold. lia.
      * intros q w Hq Hr Hsc' Hold. assert (aT <= Z.max (minT s) w /\ aS <= Z.max (minS s) w) by (apply Hold; lia). lia.
      * intros q v X Hq Hr HX Hsc' Hold. assert (aS <= Z.max (minS s) X) by (apply Hold; lia). lia.
  - assert (Hsc : scanning s = true) by (unfold scanning; rewrite E; auto).
    assert (PR : forall q v, 0 <= q < n -> armed (pc s q) = true -> txr s q = Some v -> aT <= Z.max (minT s) v /\ aS <= Z.max (minS s) v).
    { intros q v Hq Hq2 Hv. destruct (i_prot _ _ H q v Hq Hq2 Hv) as (p0 & w0 & P1 & P2 & P3 & P4 & P5 & P6).
      unfold sT, vT, vS in P5. rewrite E in P5. specialize (P5 I). lia. }
    destruct (Z.eqb_spec k 0) as [->|Nk]; [|destruct (Z.eqb_spec k 1) as [->|Nk1]; [|destruct (Z.eqb_spec k 2) as [->|Nk2]]].
    + constructor; try (apply H); cbn.
      * lia.
      * rewrite (i_cc _ _ H), Hsc. reflexivity.
      * lia.
      * intros p Hp. pose proof (i_pc _ _ H p Hp) as Q. unfold pcok, sR, sS, vR, vS in *. cbn. rewrite E in Q.
        destruct (pc s p) as [| | | | | | | |l t| | | | | | |]; auto.
        -- destruct Q as (Q1 & Q2 & Q3 & Q4 & Q5 & Q6 & Q7). repeat split; auto.
        -- destruct Q as (lu & Q1 & Q2 & Q3 & Q4 & Q5). exists lu. repeat split; auto.
        -- destruct Q as (lu & v & Q1 & Q2 & Q3 & Q4 & Q5 & Q6 & Q7 & Q8). exists lu, v. repeat split; auto.
        -- destruct Q as (lu & Q1 & Q2 & Q3 & Q4 & Q5). exists lu. repeat split; auto.
      * intros q v Hq Hq2 Hv. destruct (i_prot _ _ H q v Hq Hq2 Hv) as (p0 & w0 & P1 & P2 & P3 & P4 & P5 & P6).
        refine (ex_intro _ p0 (ex_intro _ w0 (conj P1 (conj P2 (conj P3 (conj P4 (conj _ P6))))))).
        unfold sT, vT, vS in *. rewrite E in P5. exact P5.
      * intros X. discriminate.
      * intros p h Hp Hh. pose proof (i_held _ _ H p h Hp Hh) as Q. unfold sS, vS in *. rewrite E in Q. exact Q.
    + assert (PS : forall p h, 0 <= p < n -> In h (held s p) -> aS <= hloc h).
      { intros p h Hp Hh. pose proof (i_held _ _ H p h Hp Hh) as Q. unfold sS, vS in *. rewrite E in Q. tauto. }
      constructor; try (apply H); cbn.
      * lia.
      * rewrite (i_cc _ _ H), Hsc. reflexivity.
      * intros p Hp. pose proof (i_pc _ _ H p Hp) as Q. pose proof (PR p) as PRp. unfold pcok, sR, sS, vR, vS in *. cbn. rewrite E in Q.
        destruct (pc s p) as [| | | | | |ow lu| |l t| | | | | | |]; auto.
        -- destruct Q as (Q1 & Q2 & Q3 & Q4 & Q5 & Q6). repeat split; auto.
           intros ->. destruct (PRp lu Hp eq_refl (Q4 eq_refl)). specialize (Q6 eq_refl). lia.
        -- destruct Q as (Q1 & Q2 & Q3 & Q4 & Q5 & Q6 & Q7). repeat split; auto.
           intros ->. destruct (PRp lu Hp eq_refl (Q4 eq_refl)). specialize (Q6 eq_refl). lia.
        -- destruct Q as (Q1 & Q2 & Q3). repeat split; auto. intros _. lia.
      * intros q v Hq Hq2 Hv. destruct (i_prot _ _ H q v Hq Hq2 Hv) as (p0 & w0 & P1 & P2 & P3 & P4 & P5 & P6).
        refine (ex_intro _ p0 (ex_intro _ w0 (conj P1 (conj P2 (conj P3 (conj P4 (conj _ P6))))))).
        unfold sT, vT, vS in *. rewrite E in P5. intros _. cbn. specialize (P5 I). lia.
      * intros q v Hq Hq2 Hv. destruct (i_est _ _ H q v Hq Hq2 Hv). destruct (PR q v Hq (est_armed _ Hq2) Hv). lia.
      * intros X. discriminate.
      * intros p h Hp Hh. pose proof (i_held _ _ H p h Hp Hh) as Q. specialize (PS p h Hp Hh). unfold sS, vS in *. rewrite E in Q. tauto.
    + constructor; try (apply H); cbn.
      * lia.
      * rewrite (i_cc _ _ H), Hsc. reflexivity.
      * lia.
      * intros p Hp. pose proof (i_pc _ _ H p Hp) as Q. unfold pcok, sR, sS, vR, vS in *. cbn. rewrite E in Q.
        destruct (pc s p) as [| | | | | | | |l t| | | | | | |]; auto.
        -- destruct Q as (Q1 & Q2 & Q3 & Q4 & Q5 & Q6). repeat split; auto. intros X. specialize (Q6 X). lia.
        -- destruct Q as (Q1 & Q2 & Q3 & Q4 & Q5 & Q6 & Q7). repeat split; auto. intros X. specialize (Q6 X). lia.
        -- lia.
        -- destruct Q as (Q1 & Q2). split; auto; lia.
        -- destruct Q as (Q1 & Q2 & Q3). repeat split; auto; lia.
      * intros q v Hq Hq2 Hv. destruct (i_prot _ _ H q v Hq Hq2 Hv) as (p0 & w0 & P1 & P2 & P3 & P4 & P5 & P6).
        refine (ex_intro _ p0 (ex_intro _ w0 (conj P1 (conj P2 (conj P3 (conj P4 (conj _ P6))))))).
        unfold sT, vT, vS in *. rewrite E in P5. intros _. cbn. specialize (P5 I). lia.
      * intros q v Hq Hq2 Hv. destruct (i_est _ _ H q v Hq Hq2 Hv). destruct (PR q v Hq (est_armed _ Hq2) Hv). lia.
      * intros X. discriminate.
      * intros p h Hp Hh. pose proof (i_held _ _ H p h Hp Hh) as Q. unfold sS, vS in *. cbn. rewrite E in Q.
        destruct Q as (Q1 & Q2 & Q3 & Q4). repeat split; auto; lia.
    + assert (k = 3) by lia. subst k. constructor; try (apply H); cbn.
      * lia.
      * rewrite even_succ, (i_cc _ _ H), Hsc. reflexivity.
      * intros p Hp. pose proof (i_pc _ _ H p Hp) as Q. unfold pcok, sR, sS, vR, vS in *. cbn. rewrite E in Q.
        destruct (pc s p) as [| | | | | | | |l t| | | | | | |]; auto.
        -- destruct Q as (Q1 & Q2 & Q3 & Q4 & Q5 & Q6). repeat split; auto. contradiction.
        -- destruct Q as (Q1 & Q2 & Q3 & Q4 & Q5 & Q6 & Q7). repeat split; auto. contradiction.
        -- destruct Q as (lu & Q1 & Q2 & Q3 & Q4 & Q5). exists lu. repeat split; auto. contradiction.
        -- destruct Q as (lu & v & Q1 & Q2 & Q3 & Q4 & Q5 & Q6 & Q7 & Q8). exists lu, v. repeat split; auto. contradiction.
        -- destruct Q as (lu & Q1 & Q2 & Q3 & Q4 & Q5). exists lu. repeat split; auto. contradiction.
        -- destruct Q as (Q1 & Q2 & Q3). repeat split; auto. contradiction.
      * intros q v Hq Hq2 Hv. exists q, v. repeat split; auto; try lia; unfold sT in *; cbn in *; try tauto.
      * reflexivity.
      * discriminate.
      * intros p h Hp Hh. destruct (i_held _ _ H p h Hp Hh) as (A & B & C & D). repeat split; auto. unfold sS. cbn. tauto.
Qed.

Lemma ck_inv : forall n s a b, Inv n s -> Inv n (set_ck s a b).
Proof. intros n s a b H. constructor; apply H. Qed.

Lemma haz_mono : forall n s o, haz (step n s o) = [] -> haz s = [].
Proof.
  intros n s o. destruct o; cbn; try destruct (inr n p); auto;
  unfold r_begin, r_step, alloc, link, release, finish, wait, s_begin, s_step, drop, reset, u_begin, u_step;
  repeat (match goal with |- context [match ?x with _ => _ end] => destruct x end; cbn; auto; try discriminate).
Qed.

Lemma finish_hand : forall s p, haz (finish s p) = [] -> pc s p = Idle -> hand s p = false.
Proof. intros s p. unfold finish. intros E Ep. rewrite Ep in E. cbn in E. destruct (hand s p); auto; discriminate. Qed.

Lemma step_inv : forall n s o, 0 <= n -> GInv n s -> GInv n (step n s o).
Proof.
  intros n s o Hn G Hz. pose proof (G (haz_mono _ _ _ Hz)) as H. clear G.
  assert (R : forall p, inr n p = true -> 0 <= p < n) by (unfold inr; intros; lia).
  destruct o as [p|p|p k z t|p|p|p|p|p|p i|p i|p| | |a b]; cbn in *; try (destruct (inr n p) eqn:E; auto; apply R in E).
  - apply r_begin_inv; auto.
  - apply r_step_inv; auto.
  - apply alloc_inv; auto.
  - apply link_inv; auto.
  - apply release_inv; auto.
  - destruct (hand s p) eqn:Eh; [|apply finish_inv; auto].
    unfold finish. destruct (pc s p) eqn:Ep; auto. rewrite (finish_hand s p Hz Ep) in Eh. discriminate.
  - apply wait_inv; auto.
  - apply s_begin_inv; auto.
  - apply s_step_inv; auto.
  - apply drop_inv; auto.
  - apply reset_inv; auto.
  - apply u_begin_inv; auto.
  - apply u_step_inv; auto.
  - apply ck_inv; auto.
Qed.

Lemma reach_ok : forall n l ops, 0 <= n -> haz (run (step n) (init n l) ops) = [] -> Inv n (run (step n) (init n l) ops).
Proof.
  intros n l ops Hn. apply (run_inv _ _ (step n) (GInv n)).
  - intros s o. apply step_inv; auto.
  - intros _. apply init_inv.
Qed.

(** The horizon never moves back, hazards or not. *)
Definition Mono (s : st) : Prop :=
  match sc s with ScPub k _ aT aS => (k <= 2 -> minT s <= aT) /\ (k <= 1 -> minS s <= aS) | _ => True end.
Lemma mono_ok : forall n s o, Mono s -> Mono (step n s o) /\ minS s <= minS (step n s o) /\ minT s <= minT (step n s o).
Proof.
  intros n s o M. destruct o as [p|p|p k z t|p|p|p|p|p|p i|p i|p| | |a b]; cbn; try destruct (inr n p); try (split; [exact M|cbn; lia]).
  all: try (split; [exact M|unfold drop; cbn; lia]).
  1-10: unfold r_begin, r_step, alloc, link, release, finish, wait, s_begin, s_step, reset;
    repeat (match goal with |- context [match ?x with _ => _ end] => destruct x end; cbn; try (split; [exact M|lia])).
  - unfold u_begin. destruct (sc s) eqn:E; try (split; [exact M|lia]). cbn. split; [exact Logic.I|lia].
  - unfold u_step. destruct (sc s) as [| |i k aR aT aS|k aR aT aS] eqn:E; try (split; [exact M|lia]).
    + split; [exact Logic.I|cbn; lia].
    + destruct (i <? n); [|split; cbn; [unfold Mono; cbn|]; lia].
      destruct (k =? 0); [|destruct (k =? 1)]; (split; [exact Logic.I|cbn; lia]).
    + unfold Mono in M. rewrite E in M.
      destruct (Z.eqb_spec k 0); [|destruct (Z.eqb_spec k 1); [|destruct (Z.eqb_spec k 2)]];
        (split; [unfold Mono; cbn; try exact Logic.I; lia|cbn; lia]).
Qed.
