(** The fixed-key mode of the key bitmap as set operations. *)
From Coq Require Import ZArith List Bool Lia ZifyBool ZifyNat.
From Verif Require Import Base PkEncModel PkEncSpec PkEncProofs KeyBmModel KeyBmSpec KeyBmLemmas.
Import ListNotations.
Open Scope Z_scope.

Notation msrt := (srt memcmp).
Record FInv (b : fbm) : Prop := { fi_srt : msrt (keys (ftree b)); fi_fin : ffin b = true -> fkeys b = keys (ftree b) }.
Definition fhas (b : fbm) (k : list Z) : Prop := In k (keys (ftree b)).

Lemma mfind_in : forall (t : list (list Z * unit)) k, (exists v, find memcmp k t = Some v) <-> In k (keys t).
Proof. intros t k. split; [intros [v H]; eapply (find_some_keys _ _ _ meq); eauto|apply (find_keys _ _ _ meq)]. Qed.
Lemma mfind_none : forall (t : list (list Z * unit)) k, find memcmp k t = None <-> ~ In k (keys t).
Proof.
  intros t k. split; [|apply (find_none _ _ _ meq)]. intros E H. apply mfind_in in H. destruct H as [v H]. congruence.
Qed.
Lemma ftest_has : forall b k, ftest b k = true <-> fhas b k.
Proof.
  intros. unfold ftest, fhas. rewrite <- mfind_in. destruct (find memcmp k (ftree b)); split; eauto; [discriminate|]. intros [v H]. discriminate.
Qed.
Definition fset (t : list (list Z * unit)) (k : list Z) := match find memcmp k t with None => set memcmp k tt t | Some _ => t end.
Lemma fset_ok : forall t k, msrt (keys t) -> msrt (keys (fset t k)) /\ forall x, In x (keys (fset t k)) <-> x = k \/ In x (keys t).
Proof.
  intros t k S. unfold fset. destruct (find memcmp k t) eqn:E.
  - split; auto. intros x. split; auto. intros [->|H]; auto. apply mfind_in. eauto.
  - split; [apply (srt_set _ _ _ meq mopp mtr); auto|]. intros x. apply (set_keys _ _ _ meq).
Qed.
Lemma mk_finv : forall t ks, msrt (keys t) -> FInv (mkF t ks false).
Proof. intros. constructor; cbn; auto. discriminate. Qed.
Lemma finsert_ok : forall b k, FInv b -> FInv (finsert b k) /\ forall x, fhas (finsert b k) x <-> x = k \/ fhas b x.
Proof.
  intros b k I. destruct (fset_ok (ftree b) k (fi_srt _ I)) as [S H]. unfold finsert, fset, fhas in *. destruct (find memcmp k (ftree b)); (split; [apply mk_finv; auto|auto]).
Qed.
Lemma femit_ok : forall b k, FInv b -> (snd (femit b k) = true <-> ~ fhas b k) /\ FInv (fst (femit b k)) /\ forall x, fhas (fst (femit b k)) x <-> x = k \/ fhas b x.
Proof.
  intros b k I. destruct (fset_ok (ftree b) k (fi_srt _ I)) as [S H]. pose proof (mfind_none (ftree b) k) as N. unfold femit, fset, fhas in *.
  destruct (find memcmp k (ftree b)) eqn:E; cbn [fst snd].
  - split; [|split; auto]. split; [discriminate|]. intros X. apply N in X. discriminate.
  - split; [|split; [apply mk_finv; auto|auto]]. split; [|auto]. intros _. apply N. auto.
Qed.
Lemma funion_ok : forall a b, FInv a -> FInv b -> FInv (funion a b) /\ forall x, fhas (funion a b) x <-> fhas a x \/ fhas b x.
Proof.
  intros a b A B. unfold funion, fhas. cbn [ftree].
  assert (G : forall l t, msrt (keys t) -> let t' := fold_left (fun t e => match find memcmp (fst e) t with None => set memcmp (fst e) tt t | Some _ => t end) l t in
    msrt (keys t') /\ forall x, In x (keys t') <-> In x (keys t) \/ In x (keys (V := unit) l)).
  { induction l as [|[k u] l IH]; intros t S. { cbn. split; auto. intuition. }
    destruct (fset_ok t k S) as [S' H']. destruct (IH (fset t k) S') as [P Q]. cbn zeta. split; [exact P|]. intros x. cbn [keys map fst In]. 
    transitivity (In x (keys (fset t k)) \/ In x (keys l)); [apply Q|]. rewrite H'. unfold keys. intuition. }
  destruct (G (ftree b) (ftree a) (fi_srt _ A)) as [P Q]. split; [apply mk_finv; auto|auto].
Qed.
Lemma fintersect_ok : forall a b, FInv a -> FInv b -> FInv (fintersect a b) /\ forall x, fhas (fintersect a b) x <-> fhas a x /\ fhas b x.
Proof.
  intros a b A B. unfold fintersect. set (gone := map fst _).
  destruct (dels _ _ _ meq mopp gone (ftree a) (fi_srt _ A)) as (S1 & D1 & D2 & D3). set (t1 := fold_left _ gone _) in *.
  assert (GI : forall k, In k gone <-> In k (keys (ftree a)) /\ ~ In k (keys (ftree b))).
  { intros k. unfold gone. rewrite in_map_iff. split.
    - intros ([k' u] & E & I). cbn in E. subst k'. apply filter_In in I. destruct I as [I G]. cbn in G. split; [change k with (fst (k, u)); apply in_map; auto|].
      apply mfind_none. destruct (find memcmp k (ftree b)); auto; discriminate.
    - intros [I G]. unfold keys in I. apply in_map_iff in I. destruct I as ([k' u] & E & I). cbn in E. subst k'. exists (k, u). split; auto. apply filter_In. split; auto. cbn.
      apply mfind_none in G. rewrite G. auto. }
  split; [apply mk_finv; auto|]. intros x. unfold fhas. cbn [ftree]. split.
  - intros H. assert (N : ~ In x gone). { intro X. apply D2 in X. apply mfind_none in X. auto. }
    apply mfind_in in H. rewrite D3 in H by auto. apply mfind_in in H. split; auto.
    apply mfind_in. destruct (find memcmp x (ftree b)) eqn:E; eauto. exfalso. apply N. apply GI. split; auto. apply mfind_none. auto.
  - intros [X Y]. apply mfind_in. rewrite D3; [apply mfind_in; auto|]. rewrite GI. tauto.
Qed.
Lemma ffinalize_ok : forall b, FInv b -> FInv (ffinalize b) /\ fkeys (ffinalize b) = keys (ftree b) /\ forall x, fhas (ffinalize b) x <-> fhas b x.
Proof.
  intros b I. unfold ffinalize. destruct (ffin b) eqn:E.
  - split; [auto|split; [apply I; auto|intuition]].
  - split; [constructor; cbn; auto; apply I|split; [auto|]]. intros x. unfold fhas. cbn. intuition.
Qed.
Lemma ncmp : forall a b, memcmp a b <> Lt <-> memcmp b a <> Gt.
Proof. intros. rewrite (mopp a b). destruct (memcmp a b); cbn; intuition congruence. Qed.
(** The first element of a suffix is the least one. *)
Lemma flb_spec : forall ks p, msrt ks -> let i := flb ks p in
  if Nat.leb (length ks) i then (forall y, In y ks -> memcmp p y = Gt)
  else In (nth i ks []) ks /\ memcmp p (nth i ks []) <> Gt /\ forall y, In y ks -> memcmp p y <> Gt -> memcmp (nth i ks []) y <> Gt.
Proof.
  intros ks p S i. unfold i, flb. destruct (lower_bound_spec _ _ meq mopp mtr [] ks p S (Datatypes.S (length ks)) 0%nat (length ks)) as (A & B & C); try lia.
  set (r := lower_bound memcmp _ [] ks p 0 _) in *. clearbody r. destruct (Nat.leb_spec (length ks) r).
  - intros y H1. apply In_nth with (d := []) in H1. destruct H1 as (n & L & <-). rewrite mopp, B by lia. auto.
  - split; [apply nth_In; auto|]. split; [apply ncmp; apply C; lia|]. intros y H1 G. apply In_nth with (d := []) in H1. destruct H1 as (n & L & <-).
    destruct (Nat.lt_ge_cases n r) as [X|X]; [rewrite mopp, B in G by auto; contradiction|].
    destruct (Nat.eq_dec n r) as [->|]. { rewrite memcmp_refl. discriminate. }
    rewrite (nth_srt _ _ meq mopp mtr [] ks r n) by (auto; lia). discriminate.
Qed.
Lemma fget_next_ok : forall b p, FInv b -> FInv (fst (fget_next b p)) /\ (forall x, fhas (fst (fget_next b p)) x <-> fhas b x) /\ fleast (fhas b) p (snd (fget_next b p)).
Proof.
  intros b p I. unfold fget_next. cbn zeta. destruct (ffinalize_ok b I) as (FI & FK & FH). rewrite !FK. pose proof (flb_spec (keys (ftree b)) p (fi_srt _ I)) as L. cbn zeta in L.
  destruct (Nat.leb _ _); cbn [fst snd]; (split; [auto|split; [auto|]]); unfold fleast, fhas; auto.
Qed.
Lemma frange_ok : forall b low high, FInv b -> let r := frange_is_valid b low high in
  FInv (fst r) /\ (forall x, fhas (fst r) x <-> fhas b x) /\ (snd r = true <-> exists x, fhas b x /\ memcmp low x <> Gt /\ memcmp x high = Lt).
Proof.
  intros b low high I. unfold frange_is_valid.
  assert (NO : memcmp low high <> Lt -> FInv b /\ (forall x, fhas b x <-> fhas b x) /\ (false = true <-> exists x, fhas b x /\ memcmp low x <> Gt /\ memcmp x high = Lt)).
  { intros N. split; [auto|]. split; [intuition|]. split; [discriminate|]. intros (x & _ & A & B). exfalso. apply N. destruct (memcmp low x) eqn:E; [apply meq in E; subst; auto|eapply mtr; eauto|congruence]. }
  destruct (memcmp low high) eqn:E; try (apply NO; congruence). clear NO. cbn zeta. destruct (ffinalize_ok b I) as (FI & FK & FH). rewrite !FK.
  pose proof (flb_spec (keys (ftree b)) low (fi_srt _ I)) as L. cbn zeta in L.
  destruct (Nat.leb _ _); cbn [fst snd]; (split; [auto|split; [auto|]]).
  - split; [discriminate|]. intros (x & A & B & _). exfalso. apply B. apply L. auto.
  - destruct L as (L1 & L2 & L3). set (n := nth _ _ []) in *. split.
    + intros H. exists n. split; [auto|]. split; [auto|]. destruct (memcmp n high); auto; discriminate.
    + intros (x & A & B & C). specialize (L3 x A B). destruct (memcmp n x) eqn:Q; try congruence.
      * apply meq in Q. rewrite Q, C. auto.
      * rewrite (mtr n x high) by auto. auto.
Qed.
Lemma fempty_ok : forall b, fis_empty b = true <-> forall k, ~ fhas b k.
Proof.
  intros b. unfold fis_empty, fhas. destruct (ftree b) as [|[k u] t]; split; auto; try discriminate. intros H. exfalso. apply (H k). left. auto.
Qed.
Lemma fcreate_inv : FInv fcreate. Proof. constructor; cbn; auto. Qed.
Definition FJ (s : Z -> fbm) (m : fsets) : Prop := forall i, FInv (s i) /\ forall x, fhas (s i) x <-> m i x.
Lemma FJ_step : forall s m o, FJ s m -> FJ (fstep s o) (fsstep m o).
Proof.
  intros s m o H k.
  assert (U : forall i b, FInv b -> (forall x, fhas b x <-> (if k =? i then fsstep m o k x else fhas b x)) -> (k <> i -> forall x, fsstep m o k x <-> m k x) ->
     FInv (upd s i b k) /\ forall x, fhas (upd s i b k) x <-> fsstep m o k x).
  { intros i b Ib Hb N. destruct (Z.eqb_spec k i).
    - subst. rewrite upd_same. auto.
    - rewrite upd_other by auto. split; [apply H|]. intros x. rewrite N by auto. apply H. }
  destruct o; cbn [fstep] in *; apply U;
  try (intros N x; cbn [fsstep]; destruct (Z.eqb_spec k i); [contradiction|]; tauto).
  - apply finsert_ok. apply H.
  - intros x. cbn [fsstep]. destruct (Z.eqb_spec k i); [|tauto]. rewrite (proj2 (finsert_ok (s i) k0 (proj1 (H i)))). rewrite (proj2 (H i) x). tauto.
  - apply femit_ok. apply H.
  - intros x. cbn [fsstep]. destruct (Z.eqb_spec k i); [|tauto]. rewrite (proj2 (proj2 (femit_ok (s i) k0 (proj1 (H i))))). rewrite (proj2 (H i) x). tauto.
  - apply funion_ok; apply H.
  - intros x. cbn [fsstep]. destruct (Z.eqb_spec k i); [|tauto]. rewrite (proj2 (funion_ok (s i) (s j) (proj1 (H i)) (proj1 (H j)))). rewrite (proj2 (H i) x), (proj2 (H j) x). tauto.
  - apply fintersect_ok; apply H.
  - intros x. cbn [fsstep]. destruct (Z.eqb_spec k i); [|tauto]. rewrite (proj2 (fintersect_ok (s i) (s j) (proj1 (H i)) (proj1 (H j)))). rewrite (proj2 (H i) x), (proj2 (H j) x). tauto.
  - apply frange_ok; apply H.
  - intros x. cbn [fsstep]. destruct (Z.eqb_spec k i); [|tauto]. subst. destruct (frange_ok (s i) lo hi (proj1 (H i))) as (_ & R & _). rewrite R. apply H.
  - apply fget_next_ok; apply H.
  - intros x. cbn [fsstep]. destruct (Z.eqb_spec k i); [|tauto]. subst. destruct (fget_next_ok (s i) p (proj1 (H i))) as (_ & R & _). rewrite R. apply H.
  - apply fcreate_inv.
  - intros x. cbn [fsstep]. destruct (Z.eqb_spec k i); [|tauto]. unfold fhas. cbn. tauto.
Qed.
Lemma FJ_run : forall ops, FJ (run fstep finit ops) (fmembers ops).
Proof.
  unfold fmembers, run. intros ops. assert (J0 : FJ finit (fun _ _ => False)). { intros i. split; [apply fcreate_inv|]. intros x. unfold fhas. cbn. tauto. }
  revert J0. generalize finit, (fun (_ : Z) (_ : list Z) => False). induction ops as [|o ops IH]; intros s m J0; cbn; auto. apply IH; auto. apply FJ_step; auto.
Qed.
