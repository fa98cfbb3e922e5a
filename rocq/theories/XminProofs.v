(** Pairing heap facts and the invariant of the snapshot/horizon model. *)
From Coq Require Import ZArith List Bool Lia.
From Coq Require Import ZifyBool.
From Verif Require Import Base XminModel XminSpec.
Import ListNotations.
Open Scope Z_scope.

(** * The pairing heap *)

Fixpoint tree_ind' (P : tree -> Prop) (H : forall s cs, Forall P cs -> P (T s cs)) (t : tree) : P t :=
  match t with
  | T s cs => H s cs ((fix go l : Forall P l := match l with [] => Forall_nil _ | x :: r => Forall_cons x (tree_ind' P H x) (go r) end) cs)
  end.

Definition lelems (l : list tree) : list snap := flat_map elems l.

Lemma in_lelems_cons : forall a t l, In a (lelems (t :: l)) <-> In a (elems t) \/ In a (lelems l).
Proof. intros. unfold lelems. cbn [flat_map]. apply in_app_iff. Qed.

Lemma in_elems : forall a t, In a (elems t) <-> a = root t \/ In a (lelems (kids t)).
Proof. intros a [s cs]. cbn. unfold lelems. split; intros [H|H]; auto. Qed.

Lemma in_merge : forall i x y a, In a (elems (merge i x y)) <-> In a (elems x) \/ In a (elems y).
Proof.
  intros i x y a. unfold merge. destruct (_ <? _); rewrite in_elems; cbn [root kids];
    rewrite in_lelems_cons, (in_elems a x), (in_elems a y); tauto.
Qed.

Lemma in_pairs : forall i n l acc a, (length l <= n)%nat -> In a (lelems (pairs i acc l)) <-> In a (lelems acc) \/ In a (lelems l).
Proof.
  intros i n. induction n as [|n IH]; intros l acc a Hn.
  - destruct l; [|cbn in Hn; lia]. cbn. tauto.
  - destruct l as [|x [|y r]]; cbn [pairs].
    + cbn. tauto.
    + rewrite !in_lelems_cons. cbn. tauto.
    + cbn in Hn. rewrite IH by lia. rewrite !in_lelems_cons, in_merge. tauto.
Qed.

Lemma in_fold_merge : forall i r x a, In a (elems (fold_left (merge i) r x)) <-> In a (elems x) \/ In a (lelems r).
Proof.
  intros i r. induction r as [|y r IH]; intros x a; cbn [fold_left].
  - cbn. tauto.
  - rewrite IH, in_merge, in_lelems_cons. tauto.
Qed.

Lemma in_merge_children : forall i l a, In a (helems (merge_children i l)) <-> In a (lelems l).
Proof.
  intros i l a. unfold merge_children. pose proof (in_pairs i (length l) l [] a (le_n _)) as P.
  destruct (pairs i [] l) as [|x r]; cbn [helems].
  - cbn in P. cbn. tauto.
  - rewrite in_fold_merge. rewrite in_lelems_cons in P. cbn in P. tauto.
Qed.

Lemma helems_opt : forall o a, In a (lelems (opt_list o)) <-> In a (helems o).
Proof. intros [t|] a; cbn; [rewrite app_nil_r|]; tauto. Qed.

Lemma rem_root : forall i k t, root (rem i k t) = root t.
Proof. intros i k [s cs]. reflexivity. Qed.

Lemma in_rem_1 : forall i k t a, In a (elems (rem i k t)) -> In a (elems t).
Proof.
  intros i k t. induction t as [s cs IH] using tree_ind'. intros a H. cbn in H. destruct H as [H|H]; [left; exact H|right].
  apply in_flat_map in H as (u & Hu & Ha). apply in_flat_map in Hu as (c & Hc & Hu).
  apply in_flat_map. exists c. split; [exact Hc|].
  rewrite Forall_forall in IH. specialize (IH c Hc).
  destruct c as [s' cs']. destruct (sid s' =? k).
  - right. apply in_merge_children with (i := i). destruct (merge_children i cs') as [t|]; [|destruct Hu].
    destruct Hu as [<-|[]]. exact Ha.
  - destruct Hu as [<-|[]]. apply IH. exact Ha.
Qed.

Lemma in_rem_2 : forall i k t a, In a (elems t) -> sid a <> k \/ a = root t -> In a (elems (rem i k t)).
Proof.
  intros i k t. induction t as [s cs IH] using tree_ind'. intros a H N. cbn [rem].
  rewrite in_elems in *. cbn [root kids] in *. destruct H as [H|H]; [left; exact H|].
  destruct N as [N|N]; [right|left; exact N].
  unfold lelems in *. apply in_flat_map in H as (c & Hc & Ha).
  rewrite Forall_forall in IH. specialize (IH c Hc a Ha).
  apply in_flat_map. destruct c as [s' cs'] eqn:Ec.
  destruct (Z.eqb_spec (sid s') k) as [E|E].
  - rewrite in_elems in Ha. cbn [root kids] in Ha. destruct Ha as [Ha|Ha]; [subst a; contradiction|].
    apply (in_merge_children i) in Ha. destruct (merge_children i cs') as [t|] eqn:Em; [|destruct Ha].
    exists t. split; [|exact Ha]. apply in_flat_map. exists c. subst c. split; [exact Hc|].
    rewrite E, Z.eqb_refl. cbn. rewrite Em. left. reflexivity.
  - exists (rem i k c). subst c. split; [|apply IH; left; exact N].
    apply in_flat_map. exists (T s' cs'). split; [exact Hc|]. destruct (Z.eqb_spec (sid s') k); [contradiction|]. left. reflexivity.
Qed.

Lemma in_heap_add : forall i h s a, In a (helems (heap_add i h s)) <-> a = s \/ In a (helems h).
Proof.
  intros i [t|] s a; cbn [heap_add helems].
  - rewrite in_merge. cbn. intuition.
  - cbn. intuition.
Qed.

Lemma in_heap_remove : forall i k h a, In a (helems (heap_remove i k h)) -> In a (helems h).
Proof.
  intros i k [t|] a H; cbn [heap_remove] in H; [|exact H]. cbn [helems].
  destruct (sid (root t) =? k).
  - rewrite in_merge_children in H. rewrite in_elems. right. exact H.
  - cbn [helems] in H. eapply in_rem_1. exact H.
Qed.

Lemma in_heap_remove_keep : forall i k h a, In a (helems h) -> sid a <> k -> In a (helems (heap_remove i k h)).
Proof.
  intros i k [t|] a H N; cbn [heap_remove]; [|exact H]. cbn [helems] in H.
  destruct (Z.eqb_spec (sid (root t)) k) as [E|E].
  - rewrite in_merge_children. rewrite in_elems in H. destruct H as [H|H]; [subst a; contradiction|exact H].
  - cbn [helems]. apply in_rem_2; [exact H|left; exact N].
Qed.

(** Heap order: a parent's location is not above its descendants'. *)
Inductive Heap (i : Z) : tree -> Prop :=
| Heap_T : forall s cs, Forall (Heap i) cs -> Forall (fun c => loc i s <= loc i (root c)) cs -> Heap i (T s cs).

Lemma heap_kids : forall i t, Heap i t -> Forall (Heap i) (kids t).
Proof. intros i t H. destruct H. exact H. Qed.

Lemma heap_top : forall i t, Heap i t -> Forall (fun c => loc i (root t) <= loc i (root c)) (kids t).
Proof. intros i t H. destruct H. exact H0. Qed.

Lemma heap_min : forall i t, Heap i t -> forall a, In a (elems t) -> loc i (root t) <= loc i a.
Proof.
  intros i t. induction t as [s cs IH] using tree_ind'. intros H a Ha.
  rewrite in_elems in Ha. cbn [root kids] in *. destruct Ha as [->|Ha]; [lia|].
  apply in_flat_map in Ha as (c & Hc & Ha).
  inv H. rewrite Forall_forall in *. specialize (IH c Hc (H2 c Hc) a Ha). specialize (H3 c Hc). cbn in H3. lia.
Qed.

Lemma heap_merge : forall i x y, Heap i x -> Heap i y -> Heap i (merge i x y).
Proof.
  intros i x y Hx Hy. unfold merge. destruct (Z.ltb_spec (loc i (root y)) (loc i (root x))) as [K|K].
  - constructor; constructor; auto; [apply heap_kids; exact Hy|lia|apply heap_top; exact Hy].
  - constructor; constructor; auto; [apply heap_kids; exact Hx|apply heap_top; exact Hx].
Qed.

Lemma merge_root_le : forall i x y, loc i (root (merge i x y)) = Z.min (loc i (root x)) (loc i (root y)).
Proof. intros i x y. unfold merge. destruct (Z.ltb_spec (loc i (root y)) (loc i (root x))); cbn; lia. Qed.

Lemma heap_pairs : forall i n l acc, (length l <= n)%nat -> Forall (Heap i) acc -> Forall (Heap i) l -> Forall (Heap i) (pairs i acc l).
Proof.
  intros i n. induction n as [|n IH]; intros l acc Hn Ha Hl.
  - destruct l; [exact Ha|cbn in Hn; lia].
  - destruct l as [|x [|y r]]; cbn [pairs]; [exact Ha|inv Hl; constructor; assumption|].
    inv Hl. inv H2. cbn in Hn. apply IH; [lia| |assumption]. constructor; [apply heap_merge; assumption|exact Ha].
Qed.

Lemma pairs_bound : forall i b n l acc, (length l <= n)%nat -> Forall (fun c => b <= loc i (root c)) acc ->
  Forall (fun c => b <= loc i (root c)) l -> Forall (fun c => b <= loc i (root c)) (pairs i acc l).
Proof.
  intros i b n. induction n as [|n IH]; intros l acc Hn Ha Hl.
  - destruct l; [exact Ha|cbn in Hn; lia].
  - destruct l as [|x [|y r]]; cbn [pairs]; [exact Ha|inv Hl; constructor; assumption|].
    inv Hl. inv H2. cbn in Hn. apply IH; [lia| |assumption]. constructor; [|exact Ha]. rewrite merge_root_le. lia.
Qed.

Lemma fold_merge_heap : forall i b r x, Heap i x -> b <= loc i (root x) -> Forall (Heap i) r -> Forall (fun c => b <= loc i (root c)) r ->
  Heap i (fold_left (merge i) r x) /\ b <= loc i (root (fold_left (merge i) r x)).
Proof.
  intros i b r. induction r as [|y r IH]; intros x Hx Bx Hr Br; cbn [fold_left]; [split; assumption|].
  inv Hr. inv Br. apply IH; auto; [apply heap_merge; assumption|]. rewrite merge_root_le. lia.
Qed.

Lemma heap_merge_children : forall i b l t, Forall (Heap i) l -> Forall (fun c => b <= loc i (root c)) l ->
  merge_children i l = Some t -> Heap i t /\ b <= loc i (root t).
Proof.
  intros i b l t Hl Bl. unfold merge_children.
  pose proof (heap_pairs i (length l) l [] (le_n _) (Forall_nil _) Hl) as P.
  pose proof (pairs_bound i b (length l) l [] (le_n _) (Forall_nil _) Bl) as Q.
  destruct (pairs i [] l) as [|x r]; [discriminate|]. intros E. injection E as <-.
  inv P. inv Q. apply fold_merge_heap; assumption.
Qed.

Lemma heap_rem : forall i k t, Heap i t -> Heap i (rem i k t).
Proof.
  intros i k t. induction t as [s cs IH] using tree_ind'. intros H. inv H.
  cbn [rem]. rewrite Forall_forall in *.
  constructor; rewrite Forall_forall; intros u Hu; apply in_flat_map in Hu as (c & Hc & Hu);
    specialize (IH c Hc (H2 c Hc)); specialize (H2 c Hc); specialize (H3 c Hc); destruct c as [s' cs'];
    cbn [root] in H3; (destruct (sid s' =? k);
      [destruct (merge_children i cs') as [t|] eqn:E; [|destruct Hu]; destruct Hu as [<-|[]];
       destruct (heap_merge_children i (loc i s') cs' t (heap_kids _ _ H2) (heap_top _ _ H2) E); auto; lia
      |destruct Hu as [<-|[]]]).
  - exact IH.
  - rewrite rem_root. exact H3.
Qed.

Definition OHeap (i : Z) (h : option tree) : Prop := forall t, h = Some t -> Heap i t.

Lemma oheap_add : forall i h s, OHeap i h -> OHeap i (heap_add i h s).
Proof.
  intros i [t|] s H u E; cbn in E; injection E as <-.
  - apply heap_merge; [apply H; reflexivity|]. constructor; constructor.
  - constructor; constructor.
Qed.

Lemma oheap_remove : forall i k h, OHeap i h -> OHeap i (heap_remove i k h).
Proof.
  intros i k [t|] H u E; cbn in E; [|discriminate]. specialize (H t eq_refl).
  destruct (sid (root t) =? k).
  - eapply heap_merge_children; [apply heap_kids; exact H|apply heap_top; exact H|exact E].
  - injection E as <-. apply heap_rem. exact H.
Qed.

(** * The invariant *)

Section Inv.
Variable n : Z.

Definition below (s : st) (x : Z) (a : snap) : Prop :=
  forall y, 0 <= y < x -> finished_before s y a.

Definition PI (s : st) (p : Z) : Prop :=
  match pcs s p with
  | TIdle => True
  | TRead a _ _ => a <= m0 s /\ forall z, live s p z -> l0 z <= a
  | TPub a _ _ x => a <= m0 s /\ 0 <= x <= R s /\ (forall z, live s p z -> l0 z <= a /\ sxmin z <= x)
                    /\ forall y, pxmin s p = Some y -> y <= x
  | TCsn a _ _ x => a <= m0 s /\ 0 <= x <= R s /\ (forall z, live s p z -> l0 z <= a /\ sxmin z <= x)
                    /\ exists y, pxmin s p = Some y /\ y <= x
  end.

Record SI (s : st) (p : Z) (a : snap) : Prop := mkSI {
  s_run : sxmin a <= srun a <= R s;
  s_xm : exists y, pxmin s p = Some y /\ y <= sxmin a;
  s_done : below s (srun a) a;
  s_loc : l0 a <= m0 s;
  s_id : sid a < cnt s p;
  s_g : 0 <= p < n -> G s <= srun a;
  s_scan : forall g i, scan s = Some (g, i) -> 0 <= p < i -> g <= srun a;
}.

Record Inv (s : st) : Prop := mkInv {
  v_r : 0 <= R s <= next s;
  v_fin : forall x, 0 <= x < R s -> fin s x = true;
  v_csn : forall x c, csnof s x = Some c -> c < csnn s;
  v_g : G s <= R s;
  v_px : forall p x, pxmin s p = Some x -> x <= R s;
  v_scan : forall g i, scan s = Some (g, i) -> g <= R s /\ 0 <= i;
  v_pc : forall p, PI s p;
  v_live : forall p a, live s p a -> SI s p a;
  v_ord : forall p a b, live s p a -> live s p b -> sid a < sid b -> l0 a <= l0 b /\ sxmin a <= sxmin b;
  v_eq : forall p a b, live s p a -> live s p b -> sid a = sid b -> a = b;
  v_heap : forall p, OHeap 0 (hp s p 0);
  v_h : forall p i z, In z (helems (hp s p i)) -> sxmin z <= R s;
}.

(** Shared-variable changes that keep everything monotone. *)
Lemma pi_mono : forall s s' p, PI s p -> pcs s' p = pcs s p -> (forall z, live s' p z -> live s p z) ->
  m0 s <= m0 s' -> R s <= R s' -> pxmin s' p = pxmin s p -> PI s' p.
Proof.
  intros s s' p H E L M1 M2 X. unfold PI in *. rewrite E.
  destruct (pcs s p); auto.
  - destruct H as [H1 H2]. split; [lia|]. intros z Hz. apply H2, L, Hz.
  - destruct H as (H1 & H2 & H3 & H4). split; [lia|]. split; [lia|]. split; [intros z Hz; apply H3, L, Hz|].
    rewrite X. exact H4.
  - destruct H as (H1 & H2 & H3 & H4). split; [lia|]. split; [lia|]. split; [intros z Hz; apply H3, L, Hz|].
    rewrite X. exact H4.
Qed.

Definition calm (s s' : st) : Prop :=
  (forall y, fin s y = true -> fin s' y = true /\ csnof s' y = csnof s y).

Lemma below_mono : forall s s' x a, below s x a -> calm s s' -> below s' x a.
Proof.
  intros s s' x a H C y Hy. destruct (H y Hy) as [F K]. destruct (C y F) as [C1 C2].
  split; [exact C1|]. rewrite C2. exact K.
Qed.

(** A step that changes no process, only transactions, runXmin or the undo minimum. *)
Lemma inv_global : forall s s',
  Inv s -> pcs s' = pcs s -> act s' = act s -> hp s' = hp s -> cnt s' = cnt s -> pxmin s' = pxmin s ->
  scan s' = scan s -> G s' = G s -> m0 s <= m0 s' -> R s <= R s' ->
  0 <= R s' <= next s' -> (forall x, 0 <= x < R s' -> fin s' x = true) ->
  (forall x c, csnof s' x = Some c -> c < csnn s') -> calm s s' -> Inv s'.
Proof.
  intros s s' H E1 E2 E3 E4 E5 E6 E7 M1 M2 V1 V2 V3 C.
  assert (L : forall p a, live s' p a <-> live s p a) by (intros; unfold live; rewrite E2, E3; tauto).
  destruct H as [r f c g px sc pc lv od eq hpp vh].
  constructor; auto.
  - rewrite E7. lia.
  - intros p x Q. rewrite E5 in Q. specialize (px p x Q). lia.
  - intros g0 i Q. rewrite E6 in Q. specialize (sc g0 i Q). lia.
  - intros p. eapply pi_mono; [apply pc|rewrite E1; reflexivity|intros z; apply L|exact M1|exact M2|rewrite E5; reflexivity].
  - intros p a Q. apply L in Q. destruct (lv p a Q) as [s1 s2 s3 s4 s5 s6 s7]. constructor.
    + lia.
    + rewrite E5. exact s2.
    + eapply below_mono; eassumption.
    + lia.
    + rewrite E4. exact s5.
    + rewrite E7. exact s6.
    + rewrite E6. exact s7.
  - intros p a b Qa Qb. apply L in Qa. apply L in Qb. apply (od p); assumption.
  - intros p a b Qa Qb. apply L in Qa. apply L in Qb. apply (eq p); assumption.
  - intros p. rewrite E3. apply hpp.
  - intros p i z. rewrite E3. intros Q. specialize (vh p i z Q). lia.
Qed.

Lemma calm_refl : forall s s', fin s' = fin s -> csnof s' = csnof s -> calm s s'.
Proof. intros s s' E1 E2 y F. rewrite E1, E2. auto. Qed.

(** A step of process p that changes only p's own data and makes nothing new live. *)
Lemma inv_proc : forall s s' p,
  Inv s -> next s' = next s -> fin s' = fin s -> csnof s' = csnof s -> csnn s' = csnn s -> R s' = R s -> G s' = G s ->
  m0 s' = m0 s -> scan s' = scan s -> cnt s' = cnt s ->
  (forall q, q <> p -> pcs s' q = pcs s q /\ act s' q = act s q /\ hp s' q = hp s q /\ pxmin s' q = pxmin s q) ->
  (forall z, live s' p z -> live s p z) ->
  PI s' p ->
  (forall x, pxmin s' p = Some x -> x <= R s) ->
  (forall z, live s' p z -> exists y, pxmin s' p = Some y /\ y <= sxmin z) ->
  OHeap 0 (hp s' p 0) ->
  (forall i z, In z (helems (hp s' p i)) -> sxmin z <= R s) -> Inv s'.
Proof.
  intros s s' p H E1 E2 E3 E4 E5 E6 E7 E8 E9 O L P X Xl Hh Hv.
  assert (La : forall q a, live s' q a -> live s q a).
  { intros q a. destruct (Z.eq_dec q p) as [->|N]; [apply L|]. destruct (O q N) as (_ & O2 & O3 & _).
    unfold live. rewrite O2, O3. tauto. }
  destruct H as [r f c g px sc pc lv od eq hpp vh].
  constructor.
  - rewrite E1, E5. exact r.
  - rewrite E2, E5. exact f.
  - rewrite E3, E4. exact c.
  - rewrite E5, E6. exact g.
  - intros q x Q. rewrite E5. destruct (Z.eq_dec q p) as [->|N]; [apply X; exact Q|].
    destruct (O q N) as (_ & _ & _ & O4). rewrite O4 in Q. apply (px q x Q).
  - rewrite E8, E5. exact sc.
  - intros q. destruct (Z.eq_dec q p) as [->|N]; [exact P|]. destruct (O q N) as (O1 & O2 & O3 & O4).
    eapply pi_mono; [apply pc|exact O1|apply La|lia|lia|exact O4].
  - intros q a Q. destruct (lv q a (La q a Q)) as [s1 s2 s3 s4 s5 s6 s7]. constructor.
    + lia.
    + destruct (Z.eq_dec q p) as [->|N]; [apply Xl; exact Q|]. destruct (O q N) as (_ & _ & _ & O4). rewrite O4. exact s2.
    + eapply below_mono; [exact s3|]. apply calm_refl; assumption.
    + lia.
    + rewrite E9. exact s5.
    + rewrite E6. exact s6.
    + rewrite E8. exact s7.
  - intros q a b Qa Qb. apply (od q); apply La; assumption.
  - intros q a b Qa Qb. apply (eq q); apply La; assumption.
  - intros q. destruct (Z.eq_dec q p) as [->|N]; [exact Hh|]. destruct (O q N) as (_ & _ & O3 & _). rewrite O3. apply hpp.
  - intros q i z. rewrite E5. destruct (Z.eq_dec q p) as [->|N]; [apply Hv|].
    destruct (O q N) as (_ & _ & O3 & _). rewrite O3. apply vh.
Qed.

(** The recomputed xmin is below that of every registered snapshot when ties are harmless. *)
Lemma omin_le_l : forall a b x, a = Some x -> exists y, omin a b = Some y /\ y <= x.
Proof. intros a [y|] x ->; cbn; [|eexists; split; [reflexivity|lia]]. destruct (Z.ltb_spec y x); eexists; (split; [reflexivity|lia]). Qed.

Lemma top_xmin_le : forall s p x z, Inv s -> no_mixed_ties s -> top_xmin (hp s p) = Some x -> In z (helems (hp s p 0)) -> x <= sxmin z.
Proof.
  intros s p x z H NT E Hz. unfold top_xmin in E.
  pose proof (v_heap s H p) as Hh. pose proof (v_ord s H p) as Od. pose proof (v_eq s H p) as Eq.
  destruct (hp s p 0) as [t|] eqn:Et; [|destruct Hz]. specialize (Hh t eq_refl). cbn [helems] in Hz.
  destruct (omin_le_l (Some (sxmin (root t))) (match hp s p 1 with None => None | Some t => Some (sxmin (root t)) end) _ eq_refl) as (y1 & Q1 & B1).
  rewrite Q1 in E.
  destruct (omin_le_l (Some y1) (match hp s p 2 with None => None | Some t => Some (sxmin (root t)) end) _ eq_refl) as (y2 & Q2 & B2).
  rewrite Q2 in E. injection E as ->.
  assert (Lr : live s p (root t)) by (right; rewrite Et; apply in_elems; left; reflexivity).
  assert (Lz : live s p z) by (right; rewrite Et; exact Hz).
  pose proof (heap_min 0 t Hh z Hz) as Hm. unfold loc in Hm. cbn in Hm.
  assert (sxmin (root t) <= sxmin z); [|lia].
  destruct (Z.eq_dec (l0 (root t)) (l0 z)) as [E0|N0].
  - rewrite (NT p (root t) z); [lia| |rewrite Et; exact Hz|exact E0]. rewrite Et. apply in_elems. left. reflexivity.
  - destruct (Z_lt_ge_dec (sid z) (sid (root t))) as [K|K].
    + destruct (Od _ _ Lz Lr K). lia.
    + destruct (Z.eq_dec (sid (root t)) (sid z)) as [E1|N1]; [rewrite (Eq _ _ Lr Lz E1); lia|].
      destruct (Od _ _ Lr Lz ltac:(lia)). lia.
Qed.

Lemma top_bound : forall s p x, Inv s -> top_xmin (hp s p) = Some x -> x <= R s.
Proof.
  intros s p x H E. pose proof (v_h s H p) as V. unfold top_xmin in E.
  assert (Q : forall i t, hp s p i = Some t -> sxmin (root t) <= R s).
  { intros i t Et. apply (V i). rewrite Et. apply in_elems. left. reflexivity. }
  destruct (hp s p 0) as [t0|] eqn:E0; destruct (hp s p 1) as [t1|] eqn:E1; destruct (hp s p 2) as [t2|] eqn:E2; cbn in E;
    try (pose proof (Q 0 _ E0)); try (pose proof (Q 1 _ E1)); try (pose proof (Q 2 _ E2));
    repeat match type of E with context [if ?b then _ else _] => destruct b end; inv E; lia.
Qed.

Lemma step_inv : forall s o, Inv s -> no_mixed_ties s -> Inv (step n s o).
Proof.
  intros s o H NT. destruct o; cbn [step].
  - apply (inv_global s); auto; try reflexivity; cbn; try lia; try apply H.
    + destruct (v_r s H). lia.
    + apply calm_refl; reflexivity.
  - destruct (_ && _) eqn:K; [|exact H]. destruct (csnof s x) eqn:E; [exact H|].
    apply (inv_global s); auto; try reflexivity; cbn; try lia; try apply H.
    + intros y c. unfold upd. destruct (y =? x); intros Q; [inv Q; lia|]. pose proof (v_csn s H y c Q). lia.
    + intros y F. cbn. split; [exact F|]. apply upd_other. intros ->. rewrite F in K. lia.
  - destruct (csnof s x) eqn:E; [|exact H].
    assert (Up : forall y, fin s y = true -> upd (fin s) x true y = true) by (intros y F; unfold upd; destruct (y =? x); auto).
    apply (inv_global s); auto; try reflexivity; cbn; try lia; try apply H.
    + intros y Hy. apply Up. apply (v_fin s H). exact Hy.
    + intros y F. cbn. auto.
  - destruct (_ && _) eqn:K; [|exact H]. destruct (csnof s x) eqn:E; [exact H|].
    assert (Up : forall y, fin s y = true -> upd (fin s) x true y = true) by (intros y F; unfold upd; destruct (y =? x); auto).
    apply (inv_global s); auto; try reflexivity; cbn; try lia; try apply H.
    + intros y Hy. apply Up. apply (v_fin s H). exact Hy.
    + intros y F. cbn. auto.
  - destruct ((R s <? next s) && fin s (R s)) eqn:K; [|exact H]. apply andb_true_iff in K as [K1 K2].
    destruct (v_r s H). apply (inv_global s); auto; try reflexivity; cbn; try lia; try apply H.
    + intros y Hy. destruct (Z.eq_dec y (R s)) as [->|N]; [exact K2|]. apply (v_fin s H). lia.
    + apply calm_refl; reflexivity.
  - destruct (Z.leb_spec 0 d) as [K|K]; [|exact H].
    apply (inv_global s); auto; try reflexivity; cbn; try lia; try apply H. apply calm_refl; reflexivity.
  - (* OTake *)
    destruct (pcs s p) eqn:E; try exact H.
    apply (inv_proc s _ p H); try reflexivity; cbn.
    + intros q N. rewrite upd_other by exact N. auto.
    + tauto.
    + unfold PI. cbn. rewrite upd_same. split; [lia|]. intros z Hz. apply (s_loc _ _ _ (v_live s H p z Hz)).
    + intros x Q. apply (v_px s H p x Q).
    + intros z Hz. apply (s_xm _ _ _ (v_live s H p z Hz)).
    + apply H.
    + exact (v_h s H p).
  - (* OTRun *)
    destruct (pcs s p) eqn:E; try exact H. pose proof (v_pc s H p) as P. unfold PI in P. rewrite E in P. destruct P as [P1 P2].
    apply (inv_proc s _ p H); try reflexivity; cbn.
    + intros q N. rewrite upd_other by exact N. auto.
    + tauto.
    + unfold PI. cbn. rewrite upd_same. split; [lia|]. split; [destruct (v_r s H); lia|].
      split; [|intros y Q; apply (v_px s H p y Q)]. intros z Hz.
      split; [apply P2; exact Hz|]. pose proof (s_run _ _ _ (v_live s H p z Hz)). lia.
    + intros x Q. apply (v_px s H p x Q).
    + intros z Hz. apply (s_xm _ _ _ (v_live s H p z Hz)).
    + apply H.
    + exact (v_h s H p).
  - (* OTPub *)
    destruct (pcs s p) eqn:E; try exact H. pose proof (v_pc s H p) as P. unfold PI in P. rewrite E in P. destruct P as (P1 & P2 & P3 & P4).
    destruct (pxmin s p) as [y|] eqn:Ey.
    + apply (inv_proc s _ p H); try reflexivity; cbn.
      * intros q N. rewrite upd_other by exact N. auto.
      * tauto.
      * unfold PI. cbn. rewrite upd_same. split; [lia|]. split; [lia|]. split; [exact P3|].
        exists y. split; [exact Ey|]. apply P4. reflexivity.
      * intros z Q. apply (v_px s H p z Q).
      * intros z Hz. apply (s_xm _ _ _ (v_live s H p z Hz)).
      * apply H.
      * exact (v_h s H p).
    + apply (inv_proc s _ p H); try reflexivity; cbn.
      * intros q N. rewrite !upd_other by exact N. auto.
      * tauto.
      * unfold PI. cbn. rewrite !upd_same. split; [lia|]. split; [lia|]. split; [exact P3|]. exists x. split; [reflexivity|lia].
      * rewrite upd_same. intros z Q. inv Q. lia.
      * intros z Hz. destruct (s_xm _ _ _ (v_live s H p z Hz)) as (y & Q & _). congruence.
      * apply H.
      * exact (v_h s H p).
  - (* OTCsn *)
    destruct (pcs s p) eqn:E; try exact H. pose proof (v_pc s H p) as P. unfold PI in P. rewrite E in P.
    destruct P as (P1 & P2 & P3 & y & P4 & P5).
    set (sn := mkSnap (cnt s p) a b c x (csnn s) (R s)).
    set (s' := set_cnt _ p _).
    assert (L : forall q z, live s' q z -> live s q z \/ (q = p /\ z = sn)).
    { intros q z. unfold live, s'. cbn. unfold upd. destruct (Z.eqb_spec q p) as [->|N]; [|tauto].
      intros [[Q|Q]|Q]; auto. }
    assert (PX : pxmin s' = pxmin s) by reflexivity.
    assert (Bl : below s (R s) sn).
    { intros z Hz. split; [apply (v_fin s H); exact Hz|]. intros k Q. apply (v_csn s H z k Q). }
    assert (SN : SI s' p sn).
    { constructor; unfold sn; cbn [sxmin srun sid l0].
      - change (R s') with (R s). lia.
      - exists y. rewrite PX. split; [exact P4|exact P5].
      - exact Bl.
      - exact P1.
      - unfold s'. cbn. rewrite upd_same. lia.
      - intros _. apply (v_g s H).
      - intros g i Q _. apply (v_scan s H g i Q). }
    constructor; try apply H.
    + intros q. destruct (Z.eq_dec q p) as [->|N].
      * unfold PI, s'. cbn. rewrite upd_same. exact Coq.Init.Logic.I.
      * eapply pi_mono; [apply (v_pc s H q)|cbn; apply upd_other; exact N| |cbn; lia|cbn; lia|reflexivity].
        intros z Q. destruct (L q z Q) as [K|[K _]]; [exact K|contradiction].
    + intros q z Q. destruct (L q z Q) as [K|[-> ->]]; [|exact SN].
      destruct (v_live s H q z K) as [s1 s2 s3 s4 s5 s6 s7]. constructor; auto.
      unfold s'. cbn. unfold upd. destruct (Z.eqb_spec q p) as [->|N]; [lia|exact s5].
    + intros q z1 z2 Q1 Q2. destruct (L q z1 Q1) as [K1|[E0 E1]]; destruct (L q z2 Q2) as [K2|[E2 E3]]; try subst q; try subst z1; try subst z2.
      * apply (v_ord s H q z1 z2); assumption.
      * intros _. unfold sn. cbn. apply P3. exact K1.
      * intros K. pose proof (s_id _ _ _ (v_live s H p z2 K2)). unfold sn in K. cbn in K. lia.
      * cbn. lia.
    + intros q z1 z2 Q1 Q2. destruct (L q z1 Q1) as [K1|[E0 E1]]; destruct (L q z2 Q2) as [K2|[E2 E3]]; try subst q; try subst z1; try subst z2.
      * apply (v_eq s H q z1 z2); assumption.
      * intros K. pose proof (s_id _ _ _ (v_live s H p z1 K1)). unfold sn in K. cbn in K. lia.
      * intros K. pose proof (s_id _ _ _ (v_live s H p z2 K2)). unfold sn in K. cbn in K. lia.
      * reflexivity.
  - (* OReg *)
    destruct (pcs s p) eqn:E; try exact H. destruct (find _ (act s p)) as [a|] eqn:F; [|exact H].
    destruct (existsb _ _); [exact H|]. apply find_some in F as [F _].
    assert (L : forall z, live (set_hp s p (fun i => heap_add i (hp s p i) a)) p z -> live s p z).
    { intros z [Q|Q]; [left; exact Q|]. cbn in Q. rewrite upd_same in Q. apply in_heap_add in Q as [->|Q]; [left; exact F|right; exact Q]. }
    apply (inv_proc s _ p H); try reflexivity; cbn [set_hp pcs act hp pxmin].
    + intros q N. rewrite upd_other by exact N. auto.
    + exact L.
    + unfold PI. cbn. rewrite E. exact Coq.Init.Logic.I.
    + intros x Q. apply (v_px s H p x Q).
    + intros z Hz. apply (s_xm _ _ _ (v_live s H p z (L z Hz))).
    + rewrite upd_same. apply oheap_add. apply H.
    + rewrite upd_same. intros i z Q. apply in_heap_add in Q as [->|Q]; [|exact (v_h s H p i z Q)].
      assert (La : live s p a) by (left; exact F). pose proof (s_run _ _ _ (v_live s H p a La)). lia.
  - (* OPop *)
    destruct (pcs s p) eqn:E; try exact H.
    assert (L : forall z, live (set_act s p (filter (fun a => negb (sid a =? k)) (act s p))) p z -> live s p z).
    { intros z [Q|Q]; [left|right; exact Q]. cbn in Q. rewrite upd_same in Q. apply filter_In in Q as [Q _]. exact Q. }
    apply (inv_proc s _ p H); try reflexivity; cbn [set_act pcs act hp pxmin].
    + intros q N. rewrite upd_other by exact N. auto.
    + exact L.
    + unfold PI. cbn. rewrite E. exact Coq.Init.Logic.I.
    + intros x Q. apply (v_px s H p x Q).
    + intros z Hz. apply (s_xm _ _ _ (v_live s H p z (L z Hz))).
    + apply H.
    + exact (v_h s H p).
  - (* ODereg *)
    destruct (pcs s p) eqn:E; try exact H.
    assert (L : forall z, live (set_hp s p (fun i => heap_remove i k (hp s p i))) p z -> live s p z).
    { intros z [Q|Q]; [left; exact Q|right]. cbn in Q. rewrite upd_same in Q. eapply in_heap_remove. exact Q. }
    apply (inv_proc s _ p H); try reflexivity; cbn [set_hp pcs act hp pxmin].
    + intros q N. rewrite upd_other by exact N. auto.
    + exact L.
    + unfold PI. cbn. rewrite E. exact Coq.Init.Logic.I.
    + intros x Q. apply (v_px s H p x Q).
    + intros z Hz. apply (s_xm _ _ _ (v_live s H p z (L z Hz))).
    + rewrite upd_same. apply oheap_remove. apply H.
    + rewrite upd_same. intros i z Q. apply in_heap_remove in Q. exact (v_h s H p i z Q).
  - (* OReset *)
    destruct (pcs s p) eqn:E; try exact H. destruct (act s p) as [|? ?] eqn:Ea; [|exact H].
    destruct (top_xmin (hp s p)) as [x|] eqn:Et.
    + destruct (pxmin s p) as [y|] eqn:Ey; [|exact H]. destruct (Z.ltb_spec y x) as [K|K]; [|exact H].
      assert (Lx : forall z, live s p z -> x <= sxmin z).
      { intros z [Q|Q]; [rewrite Ea in Q; destruct Q|]. eapply top_xmin_le; eassumption. }
      apply (inv_proc s _ p H); try reflexivity; cbn [set_pxmin pcs act hp pxmin].
      * intros q N. rewrite upd_other by exact N. auto.
      * tauto.
      * unfold PI. cbn. rewrite E. exact Coq.Init.Logic.I.
      * rewrite upd_same. intros z Q. inv Q.
        apply (top_bound s p); assumption.
      * intros z Hz. rewrite upd_same. exists x. split; [reflexivity|]. apply Lx. exact Hz.
      * apply H.
      * exact (v_h s H p).
    + assert (NL : forall z, ~ live s p z).
      { intros z [Q|Q]; [rewrite Ea in Q; destruct Q|]. unfold top_xmin in Et.
        destruct (hp s p 0) as [t|]; [|destruct Q].
        destruct (hp s p 1); destruct (hp s p 2); cbn in Et; try destruct (_ <? _); discriminate. }
      apply (inv_proc s _ p H); try reflexivity; cbn [set_pxmin pcs act hp pxmin].
      * intros q N. rewrite upd_other by exact N. auto.
      * tauto.
      * unfold PI. cbn. rewrite E. exact Coq.Init.Logic.I.
      * rewrite upd_same. discriminate.
      * intros z Hz. exfalso. exact (NL z Hz).
      * apply H.
      * exact (v_h s H p).
  - (* OXactAbort *)
    destruct (pcs s p) eqn:E; try exact H.
    assert (NL : forall z, ~ live (set_act (set_hp s p (fun _ => None)) p []) p z).
    { intros z [Q|Q]; cbn in Q; rewrite upd_same in Q; destruct Q. }
    apply (inv_proc s _ p H); try reflexivity; cbn [set_act set_hp pcs act hp pxmin].
    + intros q N. rewrite !upd_other by exact N. auto.
    + intros z Q. exfalso. exact (NL z Q).
    + unfold PI. cbn. rewrite E. exact Coq.Init.Logic.I.
    + intros x Q. apply (v_px s H p x Q).
    + intros z Q. exfalso. exact (NL z Q).
    + rewrite upd_same. intros t Q. discriminate.
    + rewrite upd_same. intros i z [].
  - (* OScan *)
    destruct (scan s) as [[g i]|] eqn:E; [exact H|].
    destruct H as [r f c g px sc pc lv od eq hpp vh]. constructor; auto.
    + cbn. intros g0 i Q. injection Q as <- <-. lia.
    + intros p a Q. destruct (lv p a Q) as [s1 s2 s3 s4 s5 s6 s7]. constructor; auto.
      cbn. intros g0 i K. injection K as <- <-. lia.
  - (* OScan1 *)
    destruct (scan s) as [[g i]|] eqn:E; [|exact H]. destruct (Z.ltb_spec i n) as [K|K]; [|exact H].
    destruct H as [r f c gg px sc pc lv od eq hpp vh]. destruct (sc g i E) as [S1 S2]. constructor; auto.
    + cbn. intros g0 j Q. injection Q as <- <-. split; [|lia]. destruct (pxmin s i) as [x|]; [|exact S1].
      destruct (Z.ltb_spec x g); lia.
    + intros p a Q. destruct (lv p a Q) as [s1 s2 s3 s4 s5 s6 s7]. constructor; auto.
      cbn. intros g0 j J. injection J as <- <-. intros Hp.
      assert (Gm : (match pxmin s i with Some x => if x <? g then x else g | None => g end) <= g).
      { destruct (pxmin s i) as [x|]; [|lia]. destruct (Z.ltb_spec x g); lia. }
      destruct (Z.eq_dec p i) as [->|N].
      * destruct s2 as (y & Ey & By). rewrite Ey. destruct (Z.ltb_spec y g); lia.
      * specialize (s7 g i E ltac:(lia)). lia.
  - (* OScanEnd *)
    destruct (scan s) as [[g0 i]|] eqn:E; [|exact H]. destruct (Z.eqb_spec i n) as [K|K]; [|exact H].
    destruct H as [r f c gg px sc pc lv od eq hpp vh]. destruct (sc g0 i E) as [S1 S2].
    destruct (Z.ltb_spec (G s) (Z.min g0 g)) as [Q|Q].
    + constructor; auto; [cbn; lia|cbn; discriminate|].
      intros p a J; destruct (lv p a J) as [s1 s2 s3 s4 s5 s6 s7]. constructor; auto; [|cbn; discriminate].
      cbn. intros Hp. specialize (s7 g0 i E ltac:(lia)). lia.
    + constructor; auto; [cbn; discriminate|].
      intros p a J; destruct (lv p a J) as [s1 s2 s3 s4 s5 s6 s7]. constructor; auto. cbn. discriminate.
Qed.

Lemma init_inv : Inv init.
Proof.
  assert (NL : forall p a, ~ live init p a) by (intros p a [[]|[]]).
  constructor; try (intros p a b L; exfalso; exact (NL p a L)); try (intros p a L; exfalso; exact (NL p a L));
    try (cbn; intros; lia); try (cbn; intros; discriminate).
Qed.

Lemma run_inv_ties : forall ops, never_mixed_ties n ops -> Inv (run (step n) init ops).
Proof.
  intros ops. induction ops as [|o ops IH] using rev_ind; intros H; [exact init_inv|].
  rewrite run_app. cbn. apply step_inv.
  - apply IH. intros pre post E. apply (H pre (post ++ [o])). rewrite E, app_assoc. reflexivity.
  - apply (H ops [o]). reflexivity.
Qed.

End Inv.
