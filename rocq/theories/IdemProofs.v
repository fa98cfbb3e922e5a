(** Proof of C36. *)
From Coq Require Import ZArith List Bool Lia.
From Coq Require Import ZifyBool ZifyNat.
From Verif Require Import Base IdemSpec IdemModel.
Import ListNotations.
Open Scope Z_scope.

(** ** Records of one row in a log *)
Definition kr1 (k : key) (r : rec) : list entry :=
  match r with RMod x k' ver v => if k' =? k then [mkE x ver v] else [] | _ => [] end.
Definition krec (k : key) (l : list rec) : list entry := flat_map (kr1 k) l.
Lemma krec_nil : forall k, krec k [] = [].
Proof. reflexivity. Qed.
Lemma krec_one : forall k r, krec k [r] = kr1 k r.
Proof. intros. unfold krec. cbn. apply app_nil_r. Qed.
Arguments krec : simpl never.

Lemma krec_app : forall k a b, krec k (a ++ b) = krec k a ++ krec k b.
Proof. intros. apply flat_map_app. Qed.

Lemma krec_in : forall k l e, In e (krec k l) <-> In (RMod (e_own e) k (e_ver e) (e_val e)) l.
Proof.
  intros k l e. unfold krec. rewrite in_flat_map. split.
  - intros (r & Hr & He). destruct r as [x k' ver v|x|x]; cbn in He; try contradiction.
    destruct (Z.eqb_spec k' k) as [->|]; [|contradiction]. destruct He as [<-|[]]. exact Hr.
  - intros H. eexists. split; [exact H|]. cbn. rewrite Z.eqb_refl. left. destruct e; auto.
Qed.

Section C.
Variable C : oxid -> bool.
Definition fC (l : list entry) : list entry := filter (fun e => C (e_own e)) l.
Definition kC (k : key) (l : list rec) : list entry := fC (krec k l).

Lemma fC_app : forall a b, fC (a ++ b) = fC a ++ fC b.
Proof. intros. apply filter_app. Qed.
Lemma kC_app : forall k a b, kC k (a ++ b) = kC k a ++ kC k b.
Proof. intros. unfold kC. rewrite krec_app. apply fC_app. Qed.
Lemma fC_rev : forall l, fC (rev l) = rev (fC l).
Proof.
  induction l as [|e l IH]; cbn; auto. rewrite fC_app, IH. cbn. destruct (C (e_own e)); cbn; auto.
  apply app_nil_r.
Qed.
Lemma kC_in : forall k l e, In e (kC k l) -> In (RMod (e_own e) k (e_ver e) (e_val e)) l /\ C (e_own e) = true.
Proof. intros k l e H. apply filter_In in H as [H1 H2]. apply krec_in in H1. auto. Qed.

Lemma kC_split : forall k l A e B, kC k l = A ++ e :: B ->
  exists l1 l2, l = l1 ++ RMod (e_own e) k (e_ver e) (e_val e) :: l2 /\ kC k l1 = A /\ kC k l2 = B.
Proof.
  intros k l. induction l as [|r l IH]; intros A e B H.
  - destruct A; discriminate.
  - change (r :: l) with ([r] ++ l) in H. rewrite kC_app in H.
    destruct (kC k [r]) as [|f t] eqn:E.
    + cbn in H. destruct (IH A e B H) as (l1 & l2 & -> & H1 & H2).
      exists (r :: l1), l2. split; auto. split; auto.
      change (r :: l1) with ([r] ++ l1). rewrite kC_app, E. auto.
    + destruct r as [x k' ver v|x|x]; try discriminate. unfold kC, krec in E. cbn in E.
      destruct (Z.eqb_spec k' k) as [->|]; [|discriminate]. cbn in E. destruct (C x) eqn:Cx; [|discriminate].
      injection E as <- <-. cbn in H. destruct A as [|a A].
      * injection H as <- <-. exists [], l. auto.
      * injection H as <- H. destruct (IH A e B H) as (l1 & l2 & -> & H1 & H2).
        exists (RMod x k ver v :: l1), l2. split; auto. split; auto.
        change (RMod x k ver v :: l1) with ([RMod x k ver v] ++ l1). rewrite kC_app, H1.
        unfold kC, krec. cbn. rewrite Z.eqb_refl. cbn. rewrite Cx. auto.
Qed.
End C.

(** ** Well-formed logs *)
Definition ends (x : oxid) (l : list rec) : Prop := In (RCommit x) l \/ In (RAbort x) l.
Definition rown (r : rec) : oxid := match r with RMod x _ _ _ | RCommit x | RAbort x => x end.

Record wfl (l : list rec) : Prop := {
  w_excl : forall l1 x k ver v l2, l = l1 ++ RMod x k ver v :: l2 ->
           forall y ver' v', y <> x -> In (RMod y k ver' v') l1 -> ends y l1;
  w_once : forall l1 r l2, l = l1 ++ r :: l2 -> ~ ends (rown r) l1
}.

Lemma wfl_prefix : forall a b, wfl (a ++ b) -> wfl a.
Proof.
  intros a b [W1 W2]. constructor; intros.
  - eapply (W1 l1 x k ver v (l2 ++ b)); eauto. rewrite H, <- app_assoc. reflexivity.
  - apply (W2 l1 r (l2 ++ b)). rewrite H, <- app_assoc. reflexivity.
Qed.

Lemma split_snoc : forall (A : Type) (l : list A) r l1 r' l2, l ++ [r] = l1 ++ r' :: l2 ->
  (l2 = [] /\ r = r' /\ l = l1) \/ (exists l3, l2 = l3 ++ [r] /\ l = l1 ++ r' :: l3).
Proof.
  intros A l r l1 r' l2 H. destruct l2 as [|a l2] using rev_ind.
  - apply app_inj_tail in H as [-> ->]. auto.
  - right. exists l2. clear IHl2. rewrite app_comm_cons, app_assoc in H.
    apply app_inj_tail in H as [-> ->]. auto.
Qed.

Lemma wfl_snoc : forall l r, wfl l -> ~ ends (rown r) l ->
  (forall x k ver v, r = RMod x k ver v -> forall y ver' v', y <> x -> In (RMod y k ver' v') l -> ends y l) ->
  wfl (l ++ [r]).
Proof.
  intros l r [W1 W2] H1 H2. constructor; intros.
  - apply split_snoc in H as [(-> & E & ->)|(l3 & -> & ->)]; eauto.
  - apply split_snoc in H as [(-> & <- & ->)|(l3 & -> & ->)]; eauto.
Qed.

Lemma ends_app : forall x a b, ends x (a ++ b) <-> ends x a \/ ends x b.
Proof. intros. unfold ends. rewrite !in_app_iff. tauto. Qed.

Definition mods_of (x : oxid) (b : list rec) : Prop := forall r, In r b -> exists k ver v, r = RMod x k ver v.

Lemma mods_noends : forall x b y, mods_of x b -> ~ ends y b.
Proof. intros x b y H [Q|Q]; destruct (H _ Q) as (? & ? & ? & ?); discriminate. Qed.

Lemma wfl_app : forall x b l, wfl l -> mods_of x b -> ~ ends x l ->
  (forall k ver v, In (RMod x k ver v) b -> forall y ver' v', y <> x -> In (RMod y k ver' v') l -> ends y l) ->
  wfl (l ++ b).
Proof.
  intros x b. induction b as [|r b IH] using rev_ind; intros l W M N H; [rewrite app_nil_r; auto|].
  rewrite app_assoc. assert (Mb : mods_of x b) by (intros q Hq; apply M, in_or_app; auto).
  destruct (M r) as (k & ver & v & ->); [apply in_or_app; right; left; auto|].
  apply wfl_snoc.
  - apply IH; auto. intros. eapply H; eauto. apply in_or_app. eauto.
  - cbn. rewrite ends_app. intros [Q|Q]; [auto|]. eapply mods_noends; eauto.
  - intros x' k' ver' v' E y ver2 v2 Hy Hin. injection E as <- <- <- <-.
    apply ends_app. apply in_app_or in Hin as [Hin|Hin].
    + left. eapply H; eauto. apply in_or_app. right. left. reflexivity.
    + destruct (Mb _ Hin) as (? & ? & ? & E). injection E as -> _ _ _. congruence.
Qed.

(** ** Chains of versions, oldest first *)
Definition okF (prev : option entry) (e : entry) : Prop :=
  match e_val e with
  | Some _ => e_ver e = match prev with Some p => if e_own p =? e_own e then e_ver p + 1 else 0 | None => 0 end
  | None => exists p, prev = Some p /\ e_val p <> None /\ e_ver e = e_ver p
  end.
Fixpoint chainF (prev : option entry) (l : list entry) : Prop :=
  match l with [] => True | e :: t => okF prev e /\ chainF (Some e) t end.

Definition lastF (prev : option entry) (l : list entry) : option entry :=
  match rev l with e :: _ => Some e | [] => prev end.

Lemma lastF_cons : forall p e l, lastF p (e :: l) = lastF (Some e) l.
Proof. intros. unfold lastF. cbn. destruct (rev l); reflexivity. Qed.

Lemma chainF_app : forall a b p, chainF p (a ++ b) <-> chainF p a /\ chainF (lastF p a) b.
Proof.
  induction a as [|e a IH]; intros b p; cbn [app chainF].
  - cbn. tauto.
  - rewrite IH, lastF_cons. tauto.
Qed.

Lemma lastF_snoc : forall p l e, lastF p (l ++ [e]) = Some e.
Proof. intros. unfold lastF. rewrite rev_app_distr. reflexivity. Qed.

(** Within a block of one owner versions do not decrease. *)
Lemma mono : forall G f e, chainF (Some f) G -> In e G -> e_own e = e_own f ->
  (forall G1 g G2, G = G1 ++ g :: G2 -> In e G2 -> e_own g = e_own f) ->
  e_ver f <= e_ver e /\ (e_val e <> None -> e_ver f < e_ver e).
Proof.
  induction G as [|g G IH]; intros f e Hgc Hin He Hct; [destruct Hin|]. destruct Hgc as [Hg Hc].
  assert (Og : e_own g = e_own f).
  { destruct Hin as [->|Hin]; auto. apply (Hct [] g G); auto. }
  assert (Hfg : e_ver f <= e_ver g /\ (e_val g <> None -> e_ver f < e_ver g)).
  { unfold okF in Hg. destruct (e_val g) eqn:V.
    - rewrite Og, Z.eqb_refl in Hg. split; [lia|intros; lia].
    - destruct Hg as (p & E & _ & Hv). injection E as <-. split; [lia|congruence]. }
  destruct Hin as [->|Hin]; auto.
  assert (Hge : e_ver g <= e_ver e /\ (e_val e <> None -> e_ver g < e_ver e)).
  { apply (IH g e); auto; [congruence|]. intros G1 g' G2 E Hi. rewrite Og.
    apply (Hct (g :: G1) g' G2); auto. rewrite E. reflexivity. }
  destruct Hfg, Hge. split; [lia|]. intros V. specialize (H2 V). lia.
Qed.

(** ** The engine *)
Definition nb (s : eng) (e : entry) : bool := negb (g_fin s (e_own e) =? 2).
Definition held (s : eng) (k : key) : list entry :=
  match g_lock s k with Some x => krec k (g_buf s x) | None => [] end.

Record ginv (s : eng) : Prop := {
  gi_rows : forall k, filter (nb s) (krec k (g_log s)) ++ held s k = rev (g_rows s k);
  gi_lock : forall k x, g_lock s k = Some x -> g_fin s x = 0;
  gi_buf : forall x, mods_of x (g_buf s x);
  gi_bufl : forall x k ver v, In (RMod x k ver v) (g_buf s x) -> g_lock s k = Some x;
  gi_com : forall x, g_fin s x = 1 <-> In (RCommit x) (g_log s);
  gi_ab : forall x, g_fin s x = 2 <-> In (RAbort x) (g_log s);
  gi_fin : forall x, g_fin s x = 0 \/ g_fin s x = 1 \/ g_fin s x = 2;
  gi_excl : forall x k ver v, In (RMod x k ver v) (g_log s) -> g_fin s x = 0 -> g_lock s k = Some x;
  gi_own : forall k e, In e (g_rows s k) -> g_fin s (e_own e) = 1 \/ g_lock s k = Some (e_own e);
  gi_wf : wfl (g_log s);
  gi_chain : forall k, chainF None (rev (g_rows s k))
}.

Lemma ginv_init : ginv ginit.
Proof.
  constructor; cbn; auto; try (intros; split; intros; [lia|contradiction]; fail); try tauto; try discriminate.
  - intros x r [].
  - constructor; intros; destruct l1; discriminate.
Qed.

Lemma not_ends : forall s x, ginv s -> g_fin s x = 0 -> ~ ends x (g_log s).
Proof.
  intros s x H F [Q|Q]; [apply (gi_com _ H) in Q|apply (gi_ab _ H) in Q]; lia.
Qed.

Lemma buf_nil : forall s x k, ginv s -> g_lock s k <> Some x -> krec k (g_buf s x) = [].
Proof.
  intros s x k H N. destruct (krec k (g_buf s x)) as [|e l] eqn:E; auto. exfalso. apply N.
  assert (In e (krec k (g_buf s x))) by (rewrite E; left; auto). apply krec_in in H0.
  destruct (gi_buf _ H x _ H0) as (k' & ver & v & E'). injection E' as Q1 Q2 Q3 Q4. rewrite Q1 in H0.
  eapply (gi_bufl _ H); eauto.
Qed.

Lemma buf_own : forall s x k e, ginv s -> In e (krec k (g_buf s x)) -> e_own e = x.
Proof.
  intros s x k e H Hin. apply krec_in in Hin. destruct (gi_buf _ H x _ Hin) as (k' & ver & v & E').
  injection E' as Q1 _ _ _. auto.
Qed.

Lemma filter_id : forall (A : Type) (f : A -> bool) l, (forall e, In e l -> f e = true) -> filter f l = l.
Proof.
  induction l as [|a l IH]; intros H; cbn; auto. rewrite H by (left; auto). f_equal. apply IH. intros. apply H. right. auto.
Qed.

Lemma filter_none : forall (A : Type) (f : A -> bool) l, (forall e, In e l -> f e = false) -> filter f l = [].
Proof.
  induction l as [|a l IH]; intros H; cbn; auto. rewrite H by (left; auto). apply IH. intros. apply H. right. auto.
Qed.

Lemma filter_rev : forall (A : Type) (f : A -> bool) l, filter f (rev l) = rev (filter f l).
Proof.
  induction l as [|a l IH]; cbn; auto. rewrite filter_app, IH. cbn. destruct (f a); cbn; auto. apply app_nil_r.
Qed.

Lemma ginv_write : forall s x k e, ginv s -> may_write s x k = true -> e_own e = x ->
  okF (match g_rows s k with p :: _ => Some p | [] => None end) e ->
  ginv (g_write s x k e).
Proof.
  intros s x k e H MW Ow OK. unfold may_write in MW. apply andb_prop in MW as [F0 LK].
  apply Z.eqb_eq in F0. destruct H as [A B Cb D E1 E2 E3 E4 O W CH].
  assert (LK' : g_lock s k = None \/ g_lock s k = Some x).
  { destruct (g_lock s k) as [y|]; auto. apply Z.eqb_eq in LK as ->. auto. }
  assert (H : ginv s) by (constructor; auto).
  constructor; cbn; auto.
  - intros k'. unfold held. cbn. destruct (Z.eq_dec k' k) as [->|Nk].
    + rewrite !upd_same. rewrite krec_app, krec_one. cbn [kr1 rev]. rewrite Z.eqb_refl. rewrite <- A. unfold held.
      assert (HH : krec k (g_buf s x) = match g_lock s k with Some y => krec k (g_buf s y) | None => [] end).
      { destruct LK' as [Q|Q]; rewrite Q; auto. apply buf_nil; auto. congruence. }
      rewrite <- HH, app_assoc. destruct e. cbn in *. subst. reflexivity.
    + rewrite !(upd_other _ _ k _ k') by auto. rewrite <- A. unfold held. f_equal. destruct (g_lock s k') as [y|] eqn:L; auto.
      unfold upd. destruct (Z.eqb_spec y x) as [->|]; auto. rewrite krec_app, krec_one. cbn [kr1].
      destruct (Z.eqb_spec k k'); [congruence|]. rewrite app_nil_r. reflexivity.
  - intros k' y. unfold upd. destruct (k' =? k); [|apply B]. intros Q; injection Q as <-. auto.
  - intros y. unfold upd. destruct (Z.eqb_spec y x) as [->|]; auto. intros r Hr.
    apply in_app_or in Hr as [Hr|[<-|[]]]; [apply Cb; auto|eauto].
  - intros y k' ver v. unfold upd. destruct (Z.eqb_spec y x) as [->|Ny].
    + intros Hr. apply in_app_or in Hr as [Hr|[Q|[]]].
      * destruct (k' =? k); auto. eapply D; eauto.
      * injection Q as <- _ _. rewrite Z.eqb_refl. auto.
    + intros Hr. apply D in Hr as L. destruct (Z.eqb_spec k' k) as [->|]; auto.
      destruct LK'; congruence.
  - intros y k' ver v Hin Hf. unfold upd. destruct (Z.eqb_spec k' k) as [->|]; [|eapply E4; eauto].
    specialize (E4 _ _ _ _ Hin Hf). destruct LK'; congruence.
  - intros k' e' Hin. unfold upd in *. destruct (Z.eqb_spec k' k) as [->|]; [|auto].
    destruct Hin as [<-|Hin]; [right; congruence|]. destruct (O k e' Hin) as [?|Q]; auto.
    right. destruct LK'; congruence.
  - intros k'. unfold upd. destruct (Z.eqb_spec k' k) as [->|]; auto. cbn. apply chainF_app. split; auto.
    cbn. split; auto. unfold lastF. rewrite rev_involutive. exact OK.
Qed.

Lemma held_own : forall s k e, ginv s -> In e (held s k) -> g_lock s k = Some (e_own e).
Proof.
  intros s k e H Hin. unfold held in Hin. destruct (g_lock s k) as [x|] eqn:L; [|destruct Hin].
  apply buf_own in Hin; auto. congruence.
Qed.

Lemma unlock_some : forall s x k y, unlock s x k = Some y <-> g_lock s k = Some y /\ y <> x.
Proof.
  intros. unfold unlock. destruct (g_lock s k) as [z|]; [|split; [discriminate|intros []; discriminate]].
  destruct (Z.eqb_spec z x) as [->|]; split; intros Q.
  - discriminate.
  - destruct Q as [Q N]. injection Q as ->. contradiction.
  - injection Q as ->. auto.
  - tauto.
Qed.

(** Writing out the buffer. *)
Lemma ginv_flush : forall s x, ginv s -> g_fin s x = 0 ->
  ginv (mkEng (g_rows s) (g_lock s) (g_fin s) (g_log s ++ g_buf s x) (upd (g_buf s) x [])).
Proof.
  intros s x H F0. pose proof H as [A B Cb D E1 E2 E3 E4 O W CH].
  constructor; cbn; auto.
  - intros k. rewrite <- A, krec_app, filter_app, <- app_assoc. f_equal. unfold held. cbn.
    destruct (g_lock s k) as [y|] eqn:L.
    + unfold upd. destruct (Z.eqb_spec y x) as [->|Ny].
      * rewrite krec_nil, app_nil_r. apply filter_id. intros e He. apply buf_own in He; auto. unfold nb. cbn. rewrite He, F0. auto.
      * rewrite (buf_nil s x k) by (auto; congruence). reflexivity.
    + rewrite (buf_nil s x k) by (auto; congruence). reflexivity.
  - intros y. unfold upd. destruct (y =? x); auto. intros r [].
  - intros y k ver v. unfold upd. destruct (y =? x); [intros []|apply D].
  - intros y. rewrite E1, in_app_iff. split; auto. intros [?|Q]; auto.
    destruct (Cb x _ Q) as (? & ? & ? & ?); discriminate.
  - intros y. rewrite E2, in_app_iff. split; auto. intros [?|Q]; auto.
    destruct (Cb x _ Q) as (? & ? & ? & ?); discriminate.
  - intros y k ver v Hin Hf. apply in_app_or in Hin as [Hin|Hin]; [eapply E4; eauto|].
    destruct (Cb x _ Hin) as (k' & ver' & v' & Q). injection Q as -> -> -> ->. eapply D; eauto.
  - apply wfl_app with x; auto.
    + apply not_ends; auto.
    + intros k ver v Hin y ver' v' Hy Hl. apply D in Hin.
      destruct (E3 y) as [F|[F|F]].
      * specialize (E4 _ _ _ _ Hl F). congruence.
      * left. apply E1. auto.
      * right. apply E2. auto.
Qed.

(** The finish record after an empty buffer. *)
Lemma ginv_commit0 : forall s x, ginv s -> g_fin s x = 0 -> g_buf s x = [] ->
  ginv (mkEng (g_rows s) (unlock s x) (upd (g_fin s) x 1) (g_log s ++ [RCommit x]) (g_buf s)).
Proof.
  intros s x H F0 BN. pose proof H as [A B Cb D E1 E2 E3 E4 O W CH].
  constructor; cbn; auto.
  - intros k. rewrite krec_app, krec_one. cbn [kr1]. rewrite app_nil_r, <- A. f_equal.
    + apply filter_ext. intros e. unfold nb. cbn. unfold upd. destruct (Z.eqb_spec (e_own e) x) as [Q|]; auto.
      rewrite Q, F0. reflexivity.
    + unfold held. cbn. destruct (unlock s x k) as [y|] eqn:U.
      * apply unlock_some in U as [-> _]. reflexivity.
      * destruct (g_lock s k) as [y|] eqn:L; auto. destruct (Z.eq_dec y x) as [->|N]; [rewrite BN; auto|].
        exfalso. assert (unlock s x k = Some y) by (apply unlock_some; auto). congruence.
  - intros k y Q. apply unlock_some in Q as [Q N]. rewrite upd_other by auto. eapply B; eauto.
  - intros y k ver v Hin. apply unlock_some. split; [eapply D; eauto|]. intros ->. rewrite BN in Hin. destruct Hin.
  - intros y. rewrite in_app_iff. unfold upd. destruct (Z.eqb_spec y x) as [->|N].
    + split; auto. intros _. right. left. auto.
    + rewrite E1. split; auto. intros [?|[Q|[]]]; auto. congruence.
  - intros y. rewrite in_app_iff. unfold upd. destruct (Z.eqb_spec y x) as [->|N].
    + split; [lia|]. intros [Q|[Q|[]]]; [|discriminate]. apply E2 in Q. lia.
    + rewrite E2. split; auto. intros [?|[Q|[]]]; auto. discriminate.
  - intros y. unfold upd. destruct (y =? x); auto.
  - intros y k ver v Hin Hf. apply in_app_or in Hin as [Hin|[Q|[]]]; [|discriminate].
    unfold upd in Hf. destruct (Z.eqb_spec y x) as [->|N]; [lia|]. apply unlock_some. split; auto. eapply E4; eauto.
  - intros k e Hin. unfold upd. destruct (Z.eqb_spec (e_own e) x) as [Q|N]; auto.
    destruct (O k e Hin) as [?|Q]; auto. right. apply unlock_some. auto.
  - apply wfl_snoc; auto; [apply not_ends; auto|]. intros; discriminate.
Qed.

Lemma rows_top : forall s x k, ginv s -> g_fin s x = 0 ->
  exists U, g_rows s k = U ++ filter (fun e => negb (is_own x e)) (g_rows s k).
Proof.
  intros s x k H F0.
  assert (G : forall l, (forall e, In e l -> g_fin s (e_own e) = 1 \/ g_lock s k = Some (e_own e)) ->
    wfl (g_log s) -> True) by auto.
  clear G.
  (* the entries of [x], if any, are those of the holder: oldest first they come last *)
  pose proof (gi_rows _ H k) as R.
  destruct (g_lock s k) as [y|] eqn:L.
  - destruct (Z.eq_dec y x) as [->|N].
    + (* split the chronological list at the first own entry *)
      assert (S : forall P, (exists Q, rev (g_rows s k) = P ++ Q) ->
         exists a b, P = a ++ b /\ (forall e, In e a -> e_own e <> x) /\ (forall e, In e b -> e_own e = x)).
      { intros P. induction P as [|e P IH] using rev_ind; intros [Q EQ].
        - exists [], []. repeat split; auto; intros e [].
        - destruct IH as (a & b & -> & Ha & Hb); [exists (e :: Q); rewrite EQ, <- app_assoc; auto|].
          destruct (Z.eq_dec (e_own e) x) as [Ee|Ne].
          + exists a, (b ++ [e]). rewrite app_assoc. repeat split; auto.
            intros e' He'. apply in_app_or in He' as [?|[<-|[]]]; auto.
          + destruct b as [|f b].
            * exists (a ++ [e]), []. rewrite !app_nil_r. split; [auto|]. split; [|intros e' []].
              intros e' He'. apply in_app_or in He' as [?|[<-|[]]]; auto.
            * exfalso.
              (* f by x before e by another: x must have ended *)
              assert (Of : e_own f = x) by (apply Hb; left; auto).
              rewrite <- R in EQ.
              assert (Hn : forall e', In e' (held s k) -> e_own e' = x).
              { intros e' He'. apply held_own in He'; auto. congruence. }
              (* e is in the logged part *)
              assert (EL : exists A1 A2, filter (nb s) (krec k (g_log s)) = A1 ++ f :: A2 /\ In e A2).
              { clear - EQ Hn Ne. revert EQ. generalize (filter (nb s) (krec k (g_log s))) as Z0.
                intros Z0 EQ.
                assert (In e Z0 \/ In e (held s k)).
                { apply in_app_or. rewrite EQ. apply in_or_app. left. apply in_or_app. right. left. auto. }
                assert (EE : Z0 ++ held s k = a ++ f :: (b ++ e :: Q)).
                { rewrite EQ, <- !app_assoc. cbn. reflexivity. }
                clear EQ. revert a EE. induction Z0 as [|z Z0 IHz]; intros a EE.
                - destruct H as [[]|Hh]. exfalso. apply Ne. apply Hn. auto.
                - destruct a as [|a0 a]; cbn in EE; injection EE as Ez EE; subst z.
                  + exists [], Z0. split; auto. 
                    assert (In e (Z0 ++ held s k)) by (rewrite EE; apply in_or_app; right; left; auto).
                    apply in_app_or in H0 as [?|Hh]; auto. exfalso. apply Ne, Hn; auto.
                  + destruct (IHz) with (a := a) as (A1 & A2 & -> & I2); auto.
                    * assert (In e (Z0 ++ held s k)) by (rewrite EE; apply in_or_app; right; right; apply in_or_app; right; left; auto).
                      apply in_app_or in H0. auto.
                    * exists (a0 :: A1), A2. auto. }
              destruct EL as (A1 & A2 & EL & I2).
              apply in_split in I2 as (A3 & A4 & ->).
              change (filter (nb s) (krec k (g_log s))) with (kC (fun o => negb (g_fin s o =? 2)) k (g_log s)) in EL.
              replace (A1 ++ f :: A3 ++ e :: A4) with ((A1 ++ f :: A3) ++ e :: A4) in EL by (rewrite <- app_assoc; reflexivity).
              destruct (kC_split _ _ _ _ _ _ EL) as (l1 & l2 & Hl & H1 & H2).
              assert (In f (kC (fun o => negb (g_fin s o =? 2)) k l1)) by (rewrite H1; apply in_or_app; right; left; auto).
              apply kC_in in H0 as [H0 _]. rewrite Of in H0.
              apply (not_ends s x H F0). rewrite Hl. apply ends_app. left.
              eapply (w_excl _ (gi_wf _ H)); eauto. }
      destruct (S (rev (g_rows s k))) as (a & b & E & Ha & Hb); [exists []; rewrite app_nil_r; auto|].
      apply (f_equal (@rev entry)) in E. rewrite rev_involutive, rev_app_distr in E.
      exists (rev b). rewrite E, filter_app.
      rewrite (filter_none _ _ (rev b)), (filter_id _ _ (rev a)); auto.
      * intros e He. apply in_rev in He. unfold is_own. specialize (Ha e He). destruct (Z.eqb_spec (e_own e) x); auto; contradiction.
      * intros e He. apply in_rev in He. unfold is_own. rewrite (Hb e He), Z.eqb_refl. auto.
    + exists []. cbn. symmetry. apply filter_id. intros e He. unfold is_own.
      destruct (Z.eqb_spec (e_own e) x) as [Q|]; auto. destruct (gi_own _ H k e He) as [Q'|Q']; rewrite Q in Q'; [lia|congruence].
  - exists []. cbn. symmetry. apply filter_id. intros e He. unfold is_own.
    destruct (Z.eqb_spec (e_own e) x) as [Q|]; auto. destruct (gi_own _ H k e He) as [Q'|Q']; rewrite Q in Q'; [lia|congruence].
Qed.

Lemma ginv_abort0 : forall s x, ginv s -> g_fin s x = 0 -> g_buf s x = [] ->
  ginv (mkEng (fun k => filter (fun e => negb (is_own x e)) (g_rows s k)) (unlock s x)
              (upd (g_fin s) x 2) (g_log s ++ [RAbort x]) (g_buf s)).
Proof.
  intros s x H F0 BN. pose proof H as [A B Cb D E1 E2 E3 E4 O W CH].
  constructor; cbn; auto.
  - intros k. rewrite krec_app, krec_one. cbn [kr1]. rewrite app_nil_r, <- filter_rev, <- A, filter_app. f_equal.
    + induction (krec k (g_log s)) as [|e l IH]; cbn; auto. unfold nb in *. cbn in *. unfold upd.
      unfold is_own. destruct (Z.eqb_spec (e_own e) x) as [Q|Q].
      * rewrite Q, F0. cbn. rewrite Q, Z.eqb_refl. cbn. exact IH.
      * destruct (g_fin s (e_own e) =? 2); cbn; auto. destruct (Z.eqb_spec (e_own e) x); [contradiction|].
        cbn. f_equal. exact IH.
    + unfold held. cbn. destruct (unlock s x k) as [y|] eqn:U.
      * apply unlock_some in U as [L N]. rewrite L. symmetry. apply filter_id. intros e He. apply buf_own in He; auto.
        unfold is_own. rewrite He. destruct (Z.eqb_spec y x); auto; contradiction.
      * destruct (g_lock s k) as [y|] eqn:L; auto. destruct (Z.eq_dec y x) as [->|N]; [rewrite BN; auto|].
        exfalso. assert (unlock s x k = Some y) by (apply unlock_some; auto). congruence.
  - intros k y Q. apply unlock_some in Q as [Q N]. rewrite upd_other by auto. eapply B; eauto.
  - intros y k ver v Hin. apply unlock_some. split; [eapply D; eauto|]. intros ->. rewrite BN in Hin. destruct Hin.
  - intros y. rewrite in_app_iff. unfold upd. destruct (Z.eqb_spec y x) as [->|N].
    + split; [lia|]. intros [Q|[Q|[]]]; [|discriminate]. apply E1 in Q. lia.
    + rewrite E1. split; auto. intros [?|[Q|[]]]; auto. discriminate.
  - intros y. rewrite in_app_iff. unfold upd. destruct (Z.eqb_spec y x) as [->|N].
    + split; auto. intros _. right. left. auto.
    + rewrite E2. split; auto. intros [?|[Q|[]]]; auto. congruence.
  - intros y. unfold upd. destruct (y =? x); auto.
  - intros y k ver v Hin Hf. apply in_app_or in Hin as [Hin|[Q|[]]]; [|discriminate].
    unfold upd in Hf. destruct (Z.eqb_spec y x) as [->|N]; [lia|]. apply unlock_some. split; auto. eapply E4; eauto.
  - intros k e Hin. apply filter_In in Hin as [Hin Ho]. unfold is_own in Ho. apply negb_true_iff, Z.eqb_neq in Ho.
    rewrite upd_other by auto. destruct (O k e Hin) as [?|Q]; auto. right. apply unlock_some. auto.
  - apply wfl_snoc; auto; [apply not_ends; auto|]. intros; discriminate.
  - intros k. destruct (rows_top s x k H F0) as (U & E). specialize (CH k). rewrite E, rev_app_distr in CH.
    apply chainF_app in CH. apply CH.
Qed.

Lemma ginv_step : forall s o, ginv s -> ginv (gstep s o).
Proof.
  intros s o H. destruct o as [x k v|x k|x|x|x]; cbn.
  - destruct (may_write s x k) eqn:MW; auto. apply ginv_write; auto. unfold okF. cbn. unfold next_ver, is_own.
    destruct (g_rows s k); auto.
  - destruct (may_write s x k) eqn:MW; auto. destruct (g_rows s k) as [|e r] eqn:R; auto.
    destruct (e_val e) eqn:V; auto. apply ginv_write; auto. unfold okF. cbn. rewrite R. exists e.
    repeat split; auto. congruence.
  - destruct (Z.eqb_spec (g_fin s x) 0); auto. apply ginv_flush; auto.
  - destruct (Z.eqb_spec (g_fin s x) 0); auto.
    pose proof (ginv_flush s x H e) as H1.
    pose proof (ginv_commit0 _ x H1 e (upd_same _ _ _ _)) as H2. cbn in H2. rewrite app_assoc. exact H2.
  - destruct (Z.eqb_spec (g_fin s x) 0); auto.
    pose proof (ginv_flush s x H e) as H1.
    pose proof (ginv_abort0 _ x H1 e (upd_same _ _ _ _)) as H2. cbn in H2. rewrite app_assoc. exact H2.
Qed.

Lemma ginv_runs : forall ops s, ginv s -> ginv (run gstep s ops).
Proof. induction ops as [|o ops IH]; intros s H; cbn; auto. apply IH, ginv_step; auto. Qed.
Lemma ginv_grun : forall ops, ginv (grun ops).
Proof. intros. apply ginv_runs, ginv_init. Qed.

(** ** Time *)
Lemma fin_stable : forall ops s x, g_fin s x <> 0 -> g_fin (run gstep s ops) x = g_fin s x.
Proof.
  induction ops as [|o ops IH]; intros s x H; cbn; auto.
  assert (E : g_fin (gstep s o) x = g_fin s x).
  { destruct o as [y k v|y k|y|y|y]; cbn.
    - destruct (may_write s y k); auto.
    - destruct (may_write s y k); auto. destruct (g_rows s k); auto. destruct (e_val e); auto.
    - destruct (g_fin s y =? 0); auto.
    - destruct (Z.eqb_spec (g_fin s y) 0); auto. cbn. apply upd_other. congruence.
    - destruct (Z.eqb_spec (g_fin s y) 0); auto. cbn. apply upd_other. congruence. }
  fold (run gstep (gstep s o) ops). rewrite IH by congruence. exact E.
Qed.

Lemma log_grows : forall ops s, exists q, g_log (run gstep s ops) = g_log s ++ q.
Proof.
  induction ops as [|o ops IH]; intros s; [exists []; cbn; rewrite app_nil_r; auto|].
  destruct (IH (gstep s o)) as (q & E).
  assert (S : exists q0, g_log (gstep s o) = g_log s ++ q0).
  { assert (N : exists q0, g_log s = g_log s ++ q0) by (exists []; rewrite app_nil_r; auto).
    destruct o as [y k v|y k|y|y|y]; cbn.
    - destruct (may_write s y k); auto.
    - destruct (may_write s y k); auto. destruct (g_rows s k); auto. destruct (e_val e); auto.
    - destruct (g_fin s y =? 0); cbn; eauto.
    - destruct (g_fin s y =? 0); cbn; eauto.
    - destruct (g_fin s y =? 0); cbn; eauto. }
  destruct S as (q0 & E0). exists (q0 ++ q). change (run gstep s (o :: ops)) with (run gstep (gstep s o) ops).
  rewrite E, E0, app_assoc. reflexivity.
Qed.

Lemma fC_abort : forall (C : oxid -> bool) y l, C y = false ->
  fC C (filter (fun e => negb (is_own y e)) l) = fC C l.
Proof.
  intros C y l Cy. unfold fC. induction l as [|f l IH]; auto. cbn [filter]. unfold is_own at 1.
  destruct (Z.eqb_spec (e_own f) y) as [Q|Q]; cbn [negb].
  - rewrite Q, Cy. exact IH.
  - cbn [filter]. rewrite IH. reflexivity.
Qed.

Lemma rows_grow : forall C ops s k, (forall x, C x = true -> g_fin (run gstep s ops) x = 1) ->
  exists N, fC C (g_rows (run gstep s ops) k) = N ++ fC C (g_rows s k).
Proof.
  intros C. induction ops as [|o ops IH]; intros s k HC; [exists []; auto|].
  change (run gstep s (o :: ops)) with (run gstep (gstep s o) ops) in *.
  destruct (IH (gstep s o) k HC) as (N & E).
  assert (S : exists N0, fC C (g_rows (gstep s o) k) = N0 ++ fC C (g_rows s k)).
  { assert (W : forall (x : oxid) k0 e, exists N0, fC C (upd (g_rows s) k0 (e :: g_rows s k0) k) = N0 ++ fC C (g_rows s k)).
    { intros x k0 e. unfold upd. destruct (Z.eqb_spec k k0) as [->|]; [|exists []; auto].
      cbn. destruct (C (e_own e)); [exists [e]|exists []]; auto. }
    destruct o as [y k0 v|y k0|y|y|y]; cbn.
    - destruct (may_write s y k0); [apply (W y)|exists []; auto].
    - destruct (may_write s y k0); [|exists []; auto]. destruct (g_rows s k0) as [|e r] eqn:R; [exists []; auto|].
      destruct (e_val e); [|exists []; auto]. cbn. rewrite R. rewrite <- R. apply (W y).
    - destruct (g_fin s y =? 0); exists []; auto.
    - destruct (g_fin s y =? 0); exists []; auto.
    - destruct (Z.eqb_spec (g_fin s y) 0); [|exists []; auto]. exists []. cbn.
      assert (Cy : C y = false).
      { destruct (C y) eqn:Q; auto. specialize (HC y Q). rewrite fin_stable in HC.
        - cbn in HC. destruct (Z.eqb_spec (g_fin s y) 0); [|contradiction]. cbn in HC. rewrite upd_same in HC. discriminate.
        - cbn. destruct (Z.eqb_spec (g_fin s y) 0); [|contradiction]. cbn. rewrite upd_same. discriminate. }
      apply fC_abort. exact Cy. }
  destruct S as (N0 & E0). exists (N ++ N0). rewrite E, E0, app_assoc. reflexivity.
Qed.

(** ** What the log means *)
Lemma has_commit_in : forall l x, has_commit l x = true <-> In (RCommit x) l.
Proof.
  intros. unfold has_commit. rewrite existsb_exists. split.
  - intros (r & Hr & E). destruct r as [| y |]; try discriminate. apply Z.eqb_eq in E as ->. auto.
  - intros H. exists (RCommit x). split; auto. apply Z.eqb_refl.
Qed.

Definition topv (l : list entry) : option Z := match l with e :: _ => e_val e | [] => None end.

Lemma heads : forall (D D' : oxid -> bool) x R,
  (forall y, D' y = D y || (y =? x)) ->
  (forall R1 e R2, R = R1 ++ e :: R2 -> e_own e <> x -> forall f, In f R2 -> e_own f <> x) ->
  topv (filter (fun e => D' (e_own e)) R)
  = match filter (is_own x) R with e :: _ => e_val e | [] => topv (filter (fun e => D (e_own e)) R) end.
Proof.
  intros D D' x R HD. induction R as [|a R IH]; intros H; cbn; auto.
  rewrite HD. unfold is_own at 1. destruct (Z.eqb_spec (e_own a) x) as [Q|Q].
  - rewrite orb_true_r. reflexivity.
  - rewrite orb_false_r. destruct (D (e_own a)).
    + rewrite (filter_none _ (is_own x) R); auto. intros f Hf. unfold is_own.
      specialize (H [] a R eq_refl Q f Hf). destruct (Z.eqb_spec (e_own f) x); auto; contradiction.
    + apply IH. intros R1 e R2 E. apply (H (a :: R1) e R2). rewrite E. reflexivity.
Qed.

Definition m0 : meaning := mkMeaning (fun _ => None) (fun _ _ => None).

Lemma not_commit : forall l x, ~ ends x l -> has_commit l x = false.
Proof. intros l x H. destruct (has_commit l x) eqn:E; auto. apply has_commit_in in E. exfalso. apply H. left. auto. Qed.

Lemma has_commit_app : forall a b x, has_commit (a ++ b) x = has_commit a x || has_commit b x.
Proof. intros. apply existsb_app. Qed.

Lemma once_inv : forall l, wfl l -> let m := fold_left once_step l m0 in
  (forall k, m_db m k = topv (rev (kC (has_commit l) k l))) /\
  (forall x k, ~ ends x l -> m_pend m x k
     = match filter (is_own x) (rev (krec k l)) with e :: _ => Some (e_val e) | [] => None end).
Proof.
  induction l as [|r l IH] using rev_ind; intros W m.
  - subst m. cbn. auto.
  - subst m. rewrite fold_left_app. cbn [fold_left]. destruct (IH (wfl_prefix _ _ W)) as (I1 & I2). clear IH.
    set (m := fold_left once_step l m0) in *.
    assert (NE : ~ ends (rown r) l) by (apply (w_once _ W l r []); reflexivity).
    destruct r as [x k0 ver v|x|x]; cbn [once_step m_db m_pend rown] in *.
    + split.
      * intros k. rewrite I1. f_equal. f_equal. unfold kC, fC.
        rewrite (filter_ext (fun e => has_commit (l ++ [RMod x k0 ver v]) (e_own e)) (fun e => has_commit l (e_own e)))
          by (intros; rewrite has_commit_app; cbn; rewrite orb_false_r; auto).
        rewrite krec_app, krec_one, filter_app. cbn [kr1]. destruct (k0 =? k); cbn; [|rewrite app_nil_r; auto].
        rewrite not_commit by auto. rewrite app_nil_r. auto.
      * intros y k Hy. rewrite ends_app in Hy. rewrite krec_app, krec_one, rev_app_distr, filter_app. cbn [kr1].
        unfold upd. destruct (Z.eqb_spec y x) as [->|Ny].
        -- rewrite (Z.eqb_sym k k0). destruct (Z.eqb_spec k0 k) as [->|].
           ++ cbn. unfold is_own at 1. cbn. rewrite Z.eqb_refl. reflexivity.
           ++ cbn. apply I2. tauto.
        -- rewrite I2 by tauto. destruct (k0 =? k); cbn; auto. unfold is_own at 2. cbn.
           destruct (Z.eqb_spec x y); [congruence|]. reflexivity.
    + split.
      * intros k. rewrite I2 by auto. rewrite I1. unfold kC, fC. rewrite <- !filter_rev.
        rewrite krec_app, krec_one. cbn [kr1]. rewrite app_nil_r. symmetry.
        etransitivity; [apply (heads (has_commit l) _ x)|].
        -- intros y. rewrite has_commit_app. cbn. rewrite orb_false_r. f_equal. apply Z.eqb_sym.
        -- intros R1 e R2 E Ne f Hf Of. apply (f_equal (@rev entry)) in E. rewrite rev_involutive, rev_app_distr in E. cbn in E.
           apply NE. rewrite <- app_assoc in E.
           replace (krec k l) with (kC (fun _ => true) k l) in E
             by (unfold kC, fC; apply filter_id; auto).
           cbn in E. destruct (kC_split _ _ _ _ _ _ E) as (l1 & l2 & Hl & H1 & H2).
           assert (Hin : In f (kC (fun _ => true) k l1)) by (rewrite H1; apply -> in_rev; auto).
           apply kC_in in Hin as [Hin _]. rewrite Of in Hin. rewrite Hl. apply ends_app. left.
           eapply (w_excl _ (wfl_prefix _ _ W)); eauto.
        -- destruct (filter (is_own x) (rev (krec k l))); reflexivity.
      * intros y k Hy. rewrite ends_app in Hy. assert (y <> x).
        { intros ->. apply Hy. right. left. left. auto. }
        rewrite upd_other by auto. rewrite krec_app, krec_one. cbn [kr1]. rewrite app_nil_r. apply I2. tauto.
    + split.
      * intros k. rewrite I1. f_equal. f_equal. unfold kC, fC.
        rewrite (filter_ext (fun e => has_commit (l ++ [RAbort x]) (e_own e)) (fun e => has_commit l (e_own e)))
          by (intros; rewrite has_commit_app; cbn; rewrite orb_false_r; auto).
        rewrite krec_app, krec_one. cbn [kr1]. rewrite app_nil_r. reflexivity.
      * intros y k Hy. rewrite ends_app in Hy. assert (y <> x).
        { intros ->. apply Hy. right. right. left. auto. }
        rewrite upd_other by auto. rewrite krec_app, krec_one. cbn [kr1]. rewrite app_nil_r. apply I2. tauto.
Qed.

Lemma once_top : forall l k, wfl l -> once l k = topv (rev (kC (has_commit l) k l)).
Proof. intros l k W. apply (once_inv l W). Qed.

(** ** What one replayed record does to a row *)
Lemma put_shape : forall st x ver v row row', (forall y, 0 <= st y <= 3) -> put st x ver v row = Some row' ->
  exists dr rest, row = dr ++ rest /\ row' = mkE x ver v :: rest
   /\ (forall e, In e dr -> (e_own e = x /\ ver <= e_ver e) \/ (e_own e <> x /\ gone st (e_own e) = true))
   /\ match rest with
      | [] => True
      | e :: _ => (e_own e = x /\ e_ver e < ver) \/ (e_own e <> x /\ st (e_own e) = 2)
      end.
Proof.
  intros st x ver v row row' Hst. induction row as [|e r IH]; cbn; intros H.
  - injection H as <-. exists [], []. split; [auto|]; split; try (intros ? []); auto.
  - unfold is_own in H. destruct (Z.eqb_spec (e_own e) x) as [Q|Q].
    + destruct (Z.leb_spec ver (e_ver e)).
      * destruct (IH H) as (dr & rest & -> & -> & H1 & H2). exists (e :: dr), rest. split; [auto|]; split; [auto|]; try split; auto; intros f [<-|Hf]; auto.
      * injection H as <-. exists [], (e :: r). split; [auto|]; split; try (intros ? []); auto.
    + destruct (gone st (e_own e)) eqn:G.
      * destruct (IH H) as (dr & rest & -> & -> & H1 & H2). exists (e :: dr), rest. split; [auto|]; split; [auto|]; try split; auto; intros f [<-|Hf]; auto.
      * destruct (Z.eqb_spec (st (e_own e)) 1) as [|N]; [discriminate|]. injection H as <-.
        exists [], (e :: r). split; [auto|]. split; [auto|]. split; [intros f []|]. right. split; [auto|].
        unfold gone in G. apply orb_false_iff in G as [G1 G2]. specialize (Hst (e_own e)). lia.
Qed.

Lemma del_shape : forall st x ver row row', (forall y, 0 <= st y <= 3) -> del st x ver row = Some row' ->
  exists dr rest, row = dr ++ rest
   /\ (forall e, In e dr -> (e_own e = x /\ ver < e_ver e) \/ (e_own e <> x /\ gone st (e_own e) = true))
   /\ match rest with
      | [] => row' = rest
      | e :: _ => ((e_own e = x /\ (e_val e <> None -> e_ver e <= ver)) \/ (e_own e <> x /\ st (e_own e) = 2))
                  /\ row' = match e_val e with None => rest | Some _ => mkE x (e_ver e) None :: rest end
      end.
Proof.
  intros st x ver row row' Hst. induction row as [|e r IH]; cbn; intros H.
  - injection H as <-. exists [], []. split; [auto|]; split; try (intros ? []); auto.
  - unfold is_own in H. destruct (Z.eqb_spec (e_own e) x) as [Q|Q].
    + destruct (e_val e) eqn:V.
      * destruct (Z.ltb_spec ver (e_ver e)).
        -- destruct (IH H) as (dr & rest & -> & H1 & H2). exists (e :: dr), rest. split; [auto|]; split; [|auto]; intros f [<-|Hf]; auto.
        -- injection H as <-. exists [], (e :: r). rewrite V. split; [auto|]; split; try (intros ? []); auto.
      * injection H as <-. exists [], (e :: r). rewrite V. split; [auto|]. split; [intros f []|].
        split; auto. left. split; auto. congruence.
    + destruct (gone st (e_own e)) eqn:G.
      * destruct (IH H) as (dr & rest & -> & H1 & H2). exists (e :: dr), rest. split; [auto|]; split; [auto|]; try split; auto; intros f [<-|Hf]; auto.
      * destruct (Z.eqb_spec (st (e_own e)) 1) as [|N]; [discriminate|].
        assert (S2 : st (e_own e) = 2).
        { unfold gone in G. apply orb_false_iff in G as [G1 G2]. specialize (Hst (e_own e)). lia. }
        exists [], (e :: r). split; [auto|]. split; [intros f []|]. split; auto. destruct (e_val e); congruence.
Qed.

Lemma app_split : forall (A : Type) (a b c d : list A), a ++ b = c ++ d ->
  (exists m, a = c ++ m /\ d = m ++ b) \/ (exists m, c = a ++ m /\ b = m ++ d).
Proof.
  induction a as [|x a IH]; intros b c d H.
  - right. exists c. auto.
  - destruct c as [|y c]; cbn in *.
    + left. exists (x :: a). auto.
    + injection H as -> H. destruct (IH _ _ _ H) as [(m & -> & ->)|(m & -> & ->)].
      * left. exists m. auto.
      * right. exists m. auto.
Qed.

(** ** The replay invariant *)
Section Replay.
Variable L : list rec.
Hypothesis WL : wfl L.
Let C := has_commit L.
Hypothesis CH : forall k, chainF None (kC C k L).

Record jinv (pre post : list rec) (s : rst) : Prop := {
  j_eq : L = pre ++ post;
  j_st : forall x, 0 <= r_st s x <= 3;
  j_com : forall x, r_st s x = 2 <-> In (RCommit x) pre;
  j_row : forall k, exists X Y, kC C k post = X ++ Y /\ fC C (r_rows s k) = rev X ++ rev (kC C k pre)
}.

Lemma C_in : forall x, C x = true <-> In (RCommit x) L.
Proof. intros. apply has_commit_in. Qed.

(** A member of [C] never aborts in [L]; if it ended in a prefix, it committed there. *)
Lemma C_noabort : forall x, C x = true -> ~ In (RAbort x) L.
Proof.
  intros x Hc Ha. apply C_in in Hc. apply in_split in Hc as (l1 & l2 & E).
  assert (N : ~ ends x l1) by (apply (w_once _ WL l1 (RCommit x) l2); auto).
  rewrite E in Ha. apply in_app_or in Ha as [Ha|[Ha|Ha]]; [apply N; right; auto|discriminate|].
  apply in_split in Ha as (l3 & l4 & E').
  apply (w_once _ WL (l1 ++ RCommit x :: l3) (RAbort x) l4).
  - rewrite E, E', <- app_assoc. reflexivity.
  - left. apply in_or_app. right. left. reflexivity.
Qed.

Section Mod.
Variables (pre post : list rec) (x : oxid) (k : key) (ver : Z) (v : option Z).
Hypothesis EL : L = pre ++ RMod x k ver v :: post.
Variable st : oxid -> Z.
Hypothesis Hst : forall y, 0 <= st y <= 3.
Hypothesis Hcom : forall y, st y = 2 <-> In (RCommit y) pre.

Let P := kC C k pre.

(** Entries of others with a record before this one have committed. *)
Lemma before_com : forall e, In e P -> e_own e <> x -> st (e_own e) = 2.
Proof.
  intros e He N. unfold P in He. apply kC_in in He as [He Cc].
  apply Hcom. destruct (w_excl _ WL pre x k ver v post EL (e_own e) _ _ N He) as [?|Q]; auto.
  exfalso. eapply C_noabort; eauto. rewrite EL. apply in_or_app. left. auto.
Qed.

(** Entries with a record from here on have not committed. *)
Lemma after_not : forall e, In e (kC C k post) -> st (e_own e) <> 2.
Proof.
  intros e He Q. apply kC_in in He as [He _]. apply Hcom in Q.
  apply in_split in He as (l1 & l2 & E).
  apply (w_once _ WL (pre ++ RMod x k ver v :: l1) (RMod (e_own e) k (e_ver e) (e_val e)) l2).
  - rewrite EL, E, <- app_assoc. reflexivity.
  - left. cbn. apply in_or_app. auto.
Qed.

Lemma this_not : st x <> 2.
Proof.
  intros Q. apply Hcom in Q. apply (w_once _ WL pre (RMod x k ver v) post EL). left. auto.
Qed.

(** Later entries of the same transaction have larger versions. *)
Lemma later : forall e, C x = true -> In e (kC C k post) -> e_own e = x ->
  ver <= e_ver e /\ (e_val e <> None -> ver < e_ver e).
Proof.
  intros e Cx He Oe.
  pose proof (CH k) as H. rewrite EL in H. change (RMod x k ver v :: post) with ([RMod x k ver v] ++ post) in H.
  rewrite !kC_app in H. unfold kC at 2 in H. rewrite krec_one in H. cbn in H. rewrite Z.eqb_refl in H. cbn in H.
  rewrite Cx in H. apply chainF_app in H as [_ H]. cbn in H. destruct H as [_ H].
  assert (M := mono (kC C k post) (mkE x ver v) e H He Oe). cbn in M. apply M.
  intros G1 g G2 E Hi. destruct (Z.eq_dec (e_own g) x) as [|N]; auto. exfalso.
  destruct (kC_split _ _ _ _ _ _ E) as (l1 & l2 & E1 & H1 & H2).
  rewrite <- H2 in Hi. apply kC_in in Hi as [Hi _]. rewrite Oe in Hi. apply in_split in Hi as (l3 & l4 & E2).
  assert (En : ends x (pre ++ RMod x k ver v :: l1)).
  { eapply (w_excl _ WL (pre ++ RMod x k ver v :: l1) (e_own g) k); eauto.
    - rewrite EL, E1, <- app_assoc. reflexivity.
    - apply in_or_app. right. left. reflexivity. }
  eapply (w_once _ WL (pre ++ RMod x k ver v :: l1 ++ RMod (e_own g) k (e_ver g) (e_val g) :: l3)); [|cbn].
  - rewrite EL, E1, E2, <- !app_assoc. cbn. rewrite <- app_assoc. reflexivity.
  - cbn. replace (pre ++ RMod x k ver v :: l1 ++ RMod (e_own g) k (e_ver g) (e_val g) :: l3)
      with ((pre ++ RMod x k ver v :: l1) ++ RMod (e_own g) k (e_ver g) (e_val g) :: l3)
      by (rewrite <- app_assoc; reflexivity).
    apply ends_app. left. exact En.
Qed.

(** This record's entry against the one before it. *)
Lemma this_ok : C x = true -> okF (lastF None P) (mkE x ver v).
Proof.
  intros Cx. pose proof (CH k) as H. rewrite EL in H. change (RMod x k ver v :: post) with ([RMod x k ver v] ++ post) in H.
  rewrite !kC_app in H. unfold kC at 2 in H. rewrite krec_one in H. cbn in H. rewrite Z.eqb_refl in H. cbn in H.
  rewrite Cx in H. apply chainF_app in H as [_ H]. cbn in H. apply H.
Qed.

Lemma head_C : forall e rest, (e_own e = x /\ C x = true) \/ st (e_own e) = 2 -> fC C (e :: rest) = e :: fC C rest.
Proof.
  intros e rest H. cbn. replace (C (e_own e)) with true; auto. symmetry.
  destruct H as [[-> ?]|Q]; auto. apply C_in. rewrite EL. apply in_or_app. left. apply Hcom. auto.
Qed.

Lemma fin_filter : forall dr e, In e (fC C dr) -> In e dr /\ C (e_own e) = true.
Proof. intros dr e H. apply filter_In in H. auto. Qed.

(** Nothing below the replay point is dropped. *)
Lemma keep : forall row dr rest X, row = dr ++ rest ->
  fC C row = rev X ++ rev P ->
  (forall e, In e dr -> (e_own e = x /\ (v <> None -> ver <= e_ver e) /\ (v = None -> ver < e_ver e))
                        \/ (e_own e <> x /\ gone st (e_own e) = true)) ->
  exists m, rev X = fC C dr ++ m /\ fC C rest = m ++ rev P.
Proof.
  intros row dr rest X -> F D. rewrite fC_app in F.
  destruct (app_split _ _ _ _ _ F) as [(m & E1 & E2)|(m & E1 & E2)]; [|eauto].
  destruct m as [|e m]; [exists []; rewrite app_nil_r in E1; split; [rewrite app_nil_r|]; auto|].
  exfalso. assert (Hd : In e (fC C dr)) by (rewrite E1; apply in_or_app; right; left; auto).
  apply fin_filter in Hd as [Hd Ce].
  assert (Hp : In e P) by (apply in_rev; rewrite E2; left; auto).
  destruct (D e Hd) as [(Oe & V1 & V2)|(Ne & G)].
  - rewrite Oe in Ce. pose proof (this_ok Ce) as OK. unfold lastF in OK. rewrite E2 in OK. cbn in OK.
    unfold okF in OK. cbn in OK. destruct v as [v0|].
    + rewrite Oe, Z.eqb_refl in OK. assert (ver <= e_ver e) by (apply V1; discriminate). lia.
    + destruct OK as (p & E & _ & Hv). injection E as <-. specialize (V2 eq_refl). lia.
  - unfold gone in G. rewrite (before_com e Hp Ne) in G. discriminate.
Qed.

Lemma put_row : forall row row' X Y, v <> None -> put st x ver v row = Some row' ->
  kC C k (RMod x k ver v :: post) = X ++ Y -> fC C row = rev X ++ rev P ->
  exists X' Y', kC C k post = X' ++ Y' /\ fC C row' = rev X' ++ rev (kC C k (pre ++ [RMod x k ver v])).
Proof.
  intros row row' X Y Hv Hput EK F.
  destruct (put_shape _ _ _ _ _ _ Hst Hput) as (dr & rest & Er & -> & D & T).
  destruct (keep row dr rest X Er F) as (m & E1 & E2).
  { intros e He. destruct (D e He) as [[? ?]|?]; auto. left. repeat split; auto. intros; contradiction. }
  change (RMod x k ver v :: post) with ([RMod x k ver v] ++ post) in EK. rewrite kC_app in EK. rewrite kC_app.
  unfold kC at 1 in EK. rewrite krec_one in EK. unfold kC at 3. rewrite krec_one. cbn in EK. cbn [kr1]. rewrite Z.eqb_refl in EK.
  rewrite Z.eqb_refl. cbn in EK. cbn [fC filter e_own]. fold (fC C rest). destruct (C x) eqn:Cx.
  - cbn in EK. destruct m as [|e m].
    + exists [], (kC C k post). split; auto. rewrite E2. cbn. rewrite rev_app_distr. reflexivity.
    + exfalso. destruct rest as [|f rest]; [discriminate|].
      assert (Q : f = e).
      { rewrite head_C in E2 by (destruct T as [[? ?]|[? ?]]; auto). cbn [app] in E2. congruence. }
      subst f.
      assert (HX : In e X) by (apply in_rev; rewrite E1; apply in_or_app; right; left; auto).
      assert (HX' : In e (mkE x ver v :: kC C k post)) by (rewrite EK; apply in_or_app; auto).
      destruct HX' as [<-|HX'].
      * destruct T as [[_ ?]|[? _]]; cbn in *; [lia|congruence].
      * destruct T as [[Oe ?]|[_ S2]].
        -- destruct (later e Cx HX' Oe). lia.
        -- apply (after_not e HX' S2).
  - cbn in EK. rewrite app_nil_r. exists (rev m), (rev (fC C dr) ++ Y). split.
    + rewrite EK, app_assoc. f_equal. rewrite <- rev_app_distr, <- E1, rev_involutive. reflexivity.
    + rewrite E2, rev_involutive. reflexivity.
Qed.

Lemma del_row : forall row row' X Y, v = None -> del st x ver row = Some row' ->
  kC C k (RMod x k ver v :: post) = X ++ Y -> fC C row = rev X ++ rev P ->
  exists X' Y', kC C k post = X' ++ Y' /\ fC C row' = rev X' ++ rev (kC C k (pre ++ [RMod x k ver v])).
Proof.
  intros row row' X Y Hv Hdel EK F.
  destruct (del_shape _ _ _ _ _ Hst Hdel) as (dr & rest & Er & D & T).
  destruct (keep row dr rest X Er F) as (m & E1 & E2).
  { intros e He. destruct (D e He) as [[? ?]|?]; auto. left. repeat split; auto. intros; contradiction. }
  change (RMod x k ver v :: post) with ([RMod x k ver v] ++ post) in EK. rewrite kC_app in EK. rewrite kC_app.
  unfold kC at 1 in EK. rewrite krec_one in EK. unfold kC at 3. rewrite krec_one. cbn in EK. cbn [kr1]. rewrite Z.eqb_refl in EK.
  rewrite Z.eqb_refl. cbn in EK. destruct (C x) eqn:Cx.
  - cbn in EK. cbn [fC filter e_own]. rewrite Cx. rewrite rev_app_distr. cbn [rev app].
    pose proof (this_ok Cx) as OK. unfold okF in OK. cbn in OK. rewrite Hv in OK.
    destruct OK as (p & Ep & Vp & Ev). unfold lastF in Ep. fold P.
    destruct (rev P) as [|p' P'] eqn:RP; [discriminate|]. injection Ep as ->.
    destruct rest as [|e rest].
    { cbn in E2. destruct m; discriminate. }
    destruct T as [T Erow].
    assert (HC : fC C (e :: rest) = e :: fC C rest) by (apply head_C; destruct T as [[? ?]|[? ?]]; auto).
    rewrite HC in E2. destruct m as [|e' m].
    + cbn in E2. injection E2 as <- E2. destruct (e_val e) eqn:V; [|contradiction].
      subst row'. exists [], (kC C k post). split; auto.
      change (mkE x (e_ver e) None :: e :: rest) with ([mkE x (e_ver e) None] ++ (e :: rest)).
      rewrite fC_app, HC, E2. cbn [fC filter e_own]. rewrite Cx.
      cbn. rewrite Ev, Hv. reflexivity.
    + cbn in E2. injection E2 as <- E2.
      assert (HX : In e X) by (apply in_rev; rewrite E1; apply in_or_app; right; left; auto).
      assert (HX' : In e (mkE x ver v :: kC C k post)) by (rewrite EK; apply in_or_app; auto).
      assert (VN : e_val e = None).
      { destruct HX' as [<-|HX']; auto. destruct (e_val e) eqn:V; auto. exfalso.
        destruct T as [[Oe Tv]|[_ S2]].
        - destruct (later e Cx HX' Oe) as [_ Q]. rewrite V in Q. assert (ver < e_ver e) by (apply Q; discriminate).
          assert (e_ver e <= ver) by (apply Tv; discriminate). lia.
        - apply (after_not e HX' S2). }
      rewrite VN in Erow. subst row'. rewrite HC, E2.
      apply (f_equal (@rev entry)) in E1. rewrite rev_involutive, rev_app_distr in E1.
      assert (Nm : rev (e :: m) <> []) by (cbn; destruct (rev m); discriminate).
      destruct (rev (e :: m)) as [|f m2] eqn:Rm; [contradiction|].
      rewrite E1 in EK. cbn in EK. injection EK as <- EK.
      apply (f_equal (@rev entry)) in Rm. rewrite rev_involutive in Rm. cbn in Rm.
      exists m2, (rev (fC C dr) ++ Y). split; [rewrite EK, app_assoc; reflexivity|].
      change (e :: m ++ p :: P') with ((e :: m) ++ p :: P'). rewrite Rm, <- app_assoc. reflexivity.
  - cbn in EK. cbn [fC filter e_own]. rewrite Cx, app_nil_r.
    assert (F' : fC C row' = m ++ rev P).
    { destruct rest as [|e rest]; [subst; auto|]. destruct T as [_ ->]. destruct (e_val e); auto.
      cbn [fC filter e_own]. rewrite Cx. exact E2. }
    exists (rev m), (rev (fC C dr) ++ Y). split.
    + rewrite EK, app_assoc. f_equal. rewrite <- rev_app_distr, <- E1, rev_involutive. reflexivity.
    + rewrite F', rev_involutive. reflexivity.
Qed.
End Mod.

Lemma jstep : forall pre r post s, jinv pre (r :: post) s -> r_stuck (rstep s r) = false ->
  jinv (pre ++ [r]) post (rstep s r) .
Proof.
  intros pre r post s [EL St Com Row] NS.
  assert (EL' : L = (pre ++ [r]) ++ post) by (rewrite <- app_assoc; exact EL).
  unfold rstep in *. destruct (r_stuck s) eqn:SK; [congruence|].
  destruct r as [x k ver v|x|x].
  - set (st := see (r_st s) x) in *.
    assert (Hst : forall y, 0 <= st y <= 3).
    { intros y. unfold st, see. destruct (r_st s x =? 0); auto. unfold upd. destruct (y =? x); auto. lia. }
    assert (Hcom : forall y, st y = 2 <-> In (RCommit y) pre).
    { intros y. rewrite <- Com. unfold st, see. destruct (Z.eqb_spec (r_st s x) 0); [|tauto]. unfold upd.
      destruct (Z.eqb_spec y x) as [->|]; [|tauto]. lia. }
    assert (Hcom' : forall y, st y = 2 <-> In (RCommit y) (pre ++ [RMod x k ver v])).
    { intros y. rewrite Hcom, in_app_iff. cbn. intuition discriminate. }
    destruct (match v with Some _ => put st x ver v (r_rows s k) | None => del st x ver (r_rows s k) end) as [row|] eqn:E;
      [|cbn in NS; discriminate].
    constructor; cbn; auto.
    intros k'. destruct (Z.eq_dec k' k) as [->|N].
    + rewrite upd_same. destruct (Row k) as (X & Y & E1 & E2). destruct v as [v0|].
      * eapply put_row; eauto. discriminate.
      * eapply del_row; eauto.
    + rewrite upd_other by auto. destruct (Row k') as (X & Y & E1 & E2). exists X, Y.
      change (RMod x k ver v :: post) with ([RMod x k ver v] ++ post) in E1. rewrite kC_app in *.
      assert (Z0 : kC C k' [RMod x k ver v] = []).
      { unfold kC. rewrite krec_one. cbn. destruct (Z.eqb_spec k k'); [congruence|]. reflexivity. }
      rewrite Z0 in *. rewrite app_nil_r. auto.
  - constructor; cbn; auto.
    + intros y. unfold upd. destruct (y =? x); auto. lia.
    + intros y. rewrite in_app_iff. unfold upd. destruct (Z.eqb_spec y x) as [->|N].
      * split; auto. intros _. right. left. auto.
      * rewrite Com. cbn. intuition congruence.
    + intros k. destruct (Row k) as (X & Y & E1 & E2). exists X, Y.
      change (RCommit x :: post) with ([RCommit x] ++ post) in E1. rewrite kC_app in *.
      assert (Z0 : kC C k [RCommit x] = []) by reflexivity. rewrite Z0 in *. rewrite app_nil_r. auto.
  - assert (Cx : C x = false).
    { destruct (C x) eqn:Q; auto. exfalso. apply (C_noabort x Q). rewrite EL. apply in_or_app. right. left. auto. }
    constructor; cbn; auto.
    + intros y. unfold upd. destruct (y =? x); auto. lia.
    + intros y. rewrite in_app_iff. unfold upd. destruct (Z.eqb_spec y x) as [->|N].
      * split; [lia|]. intros [Q|[Q|[]]]; [|discriminate]. exfalso.
        assert (C x = true) by (apply C_in; rewrite EL; apply in_or_app; auto). congruence.
      * rewrite Com. cbn. intuition discriminate.
    + intros k. destruct (Row k) as (X & Y & E1 & E2). exists X, Y.
      change (RAbort x :: post) with ([RAbort x] ++ post) in E1. rewrite kC_app in *.
      assert (Z0 : kC C k [RAbort x] = []) by reflexivity. rewrite Z0 in *. rewrite app_nil_r. split; auto.
      rewrite <- E2. apply fC_abort. exact Cx.
Qed.

Lemma stuck_stays : forall l s, r_stuck s = true -> r_stuck (replay s l) = true.
Proof. induction l as [|r l IH]; intros s H; cbn; auto. apply IH. unfold rstep. rewrite H. auto. Qed.

Lemma jrun : forall post pre s, jinv pre post s -> r_stuck (replay s post) = false ->
  jinv (pre ++ post) [] (replay s post).
Proof.
  induction post as [|r post IH]; intros pre s J NS; cbn.
  - rewrite app_nil_r. exact J.
  - cbn in NS. change (fold_left rstep post (rstep s r)) with (replay (rstep s r) post) in *.
    replace (pre ++ r :: post) with ((pre ++ [r]) ++ post) by (rewrite <- app_assoc; auto).
    apply IH; auto. apply jstep; auto.
    destruct (r_stuck (rstep s r)) eqn:Q; auto. rewrite stuck_stays in NS; auto.
Qed.

Lemma jfinal : forall s k, jinv L [] s -> contents s k = once L k.
Proof.
  intros s k [_ St Com Row]. rewrite once_top by auto. fold C. destruct (Row k) as (X & Y & E1 & E2).
  symmetry in E1. apply app_eq_nil in E1 as [-> ->]. cbn in E2. rewrite <- E2. unfold contents, fC, topv.
  rewrite (filter_ext (fun e => r_st s (e_own e) =? 2) (fun e => C (e_own e))); [reflexivity|].
  intros e. destruct (C (e_own e)) eqn:Q.
  - apply C_in, Com in Q. rewrite Q. reflexivity.
  - destruct (Z.eqb_spec (r_st s (e_own e)) 2) as [R|]; auto. apply Com, C_in in R. congruence.
Qed.
End Replay.

(** ** Putting both halves together *)
Lemma prefix_filter : forall (C : oxid -> bool) l,
  (forall A g B, l = A ++ g :: B -> C (e_own g) = false -> forall e, In e B -> C (e_own e) = false) ->
  exists R, l = fC C l ++ R.
Proof.
  intros C. induction l as [|a l IH]; intros H; [exists []; auto|].
  cbn. destruct (C (e_own a)) eqn:Q.
  - destruct IH as (R & E).
    + intros A g B E. apply (H (a :: A) g B). rewrite E. reflexivity.
    + exists R. cbn. f_equal. exact E.
  - rewrite filter_none by (apply (H [] a l eq_refl Q)). exists (a :: l). reflexivity.
Qed.

Section Both.
Variables (ops : list gop) (L q : list rec).
Hypothesis HL : g_log (grun ops) = L ++ q.
Let s := grun ops.
Let C := has_commit L.

Lemma s_inv : ginv s.
Proof. apply ginv_grun. Qed.

Lemma wfL : wfl L.
Proof. apply wfl_prefix with q. rewrite <- HL. apply (gi_wf _ s_inv). Qed.

Lemma C_fin : forall x, C x = true -> g_fin s x = 1.
Proof.
  intros x H. apply has_commit_in in H. apply (gi_com _ s_inv). unfold s. rewrite HL. apply in_or_app. auto.
Qed.

Lemma no_later : forall x l1 r l2, C x = true -> L ++ q = l1 ++ r :: l2 -> rown r = x ->
  (forall y, r <> RCommit y) -> exists m, L = l1 ++ r :: m.
Proof.
  intros x l1 r l2 Cx E Or Nr. destruct (app_split _ _ _ _ _ E) as [(m & E1 & E2)|(m & E1 & E2)].
  - destruct m as [|r' m].
    + exfalso. rewrite app_nil_r in E1. subst l1.
      assert (W := gi_wf _ s_inv). unfold s in W. rewrite HL in W.
      apply (w_once _ W L r l2 E). rewrite Or. left. apply has_commit_in. exact Cx.
    + cbn in E2. injection E2 as <- E2. exists m. exact E1.
  - exfalso. subst l1. assert (W := gi_wf _ s_inv). unfold s in W. rewrite HL in W.
    apply (w_once _ W (L ++ m) r l2 E). rewrite Or. left. apply in_or_app. left. apply has_commit_in. exact Cx.
Qed.

Lemma kC_q : forall k, kC C k (L ++ q) = kC C k L.
Proof.
  intros k. rewrite kC_app. destruct (kC C k q) as [|e l] eqn:E; [apply app_nil_r|]. exfalso.
  assert (In e (kC C k q)) by (rewrite E; left; auto). apply kC_in in H as [H Ce].
  apply in_split in H as (q1 & q2 & Eq).
  assert (W := gi_wf _ s_inv). unfold s in W. rewrite HL in W.
  apply (w_once _ W (L ++ q1) (RMod (e_own e) k (e_ver e) (e_val e)) q2).
  - rewrite Eq, <- app_assoc. reflexivity.
  - left. cbn. apply in_or_app. left. apply has_commit_in. exact Ce.
Qed.

Lemma rows_kC : forall k, rev (fC C (g_rows s k)) = kC C k L.
Proof.
  intros k. rewrite <- fC_rev, <- (gi_rows _ s_inv k), fC_app.
  replace (fC C (held s k)) with (@nil entry).
  - rewrite app_nil_r, <- kC_q, <- HL. fold s. unfold kC. induction (krec k (g_log s)) as [|e l IH]; auto.
    cbn [filter fC]. unfold nb at 1. destruct (Z.eqb_spec (g_fin s (e_own e)) 2) as [Q|Q]; cbn [negb].
    + destruct (C (e_own e)) eqn:R; [apply C_fin in R; lia|]. exact IH.
    + cbn [filter]. destruct (C (e_own e)); [f_equal|]; exact IH.
  - symmetry. apply filter_none. intros e He. apply held_own in He; [|apply s_inv].
    destruct (C (e_own e)) eqn:R; auto. apply C_fin in R. apply (gi_lock _ s_inv) in He. lia.
Qed.

Lemma chain_L : forall k, chainF None (kC C k L).
Proof.
  intros k. destruct (prefix_filter C (rev (g_rows s k))) as (R & E).
  - intros A g B EQ Cg e He. destruct (C (e_own e)) eqn:Ce; auto. exfalso.
    rewrite <- (gi_rows _ s_inv k) in EQ.
    apply in_split in He as (B1 & B2 & ->).
    assert (EQ' : filter (nb s) (krec k (g_log s)) ++ held s k = (A ++ g :: B1) ++ e :: B2)
      by (rewrite EQ, <- app_assoc; reflexivity).
    assert (EL : exists B3, filter (nb s) (krec k (g_log s)) = (A ++ g :: B1) ++ e :: B3).
    { destruct (app_split _ _ _ _ _ EQ') as [(m & E1 & E2)|(m & E1 & E2)].
      - destruct m as [|e' m]; [|cbn in E2; injection E2 as <- E2; exists m; auto].
        exfalso. assert (Hh : In e (held s k)) by (cbn in E2; rewrite <- E2; left; auto).
        apply held_own in Hh; [|apply s_inv]. apply (gi_lock _ s_inv) in Hh. apply C_fin in Ce. lia.
      - exfalso. assert (Hh : In e (held s k)) by (rewrite E2; apply in_or_app; right; left; auto).
        apply held_own in Hh; [|apply s_inv]. apply (gi_lock _ s_inv) in Hh. apply C_fin in Ce. lia. }
    destruct EL as (B3 & EL).
    change (filter (nb s) (krec k (g_log s))) with (kC (fun o => negb (g_fin s o =? 2)) k (g_log s)) in EL.
    destruct (kC_split _ _ _ _ _ _ EL) as (l1 & l2 & Hl & H1 & H2).
    assert (Hg : In g (kC (fun o => negb (g_fin s o =? 2)) k l1)) by (rewrite H1; apply in_or_app; right; left; auto).
    apply kC_in in Hg as [Hg Fg].
    assert (Hl' := Hl). unfold s in Hl'. rewrite HL in Hl'.
    destruct (no_later (e_own e) l1 _ l2 Ce Hl' eq_refl) as (m & Em); [intros; discriminate|].
    assert (En : ends (e_own g) l1).
    { eapply (w_excl _ (gi_wf _ s_inv)); eauto. congruence. }
    destruct En as [En|En].
    + assert (C (e_own g) = true) by (apply has_commit_in; rewrite Em; apply in_or_app; auto). congruence.
    + assert (g_fin s (e_own g) = 2) by (apply (gi_ab _ s_inv); rewrite Hl; apply in_or_app; auto).
      rewrite H in Fg. discriminate.
  - pose proof (gi_chain _ s_inv k) as H. rewrite E in H. apply chainF_app in H as [H _].
    rewrite fC_rev, rows_kC in H. exact H.
Qed.

(** The image of a row captured after [n] operations. *)
Lemma image_ok : forall n c0 k, (c0 <= n <= length ops)%nat ->
  forall b, b = g_log (grun (firstn c0 ops)) -> forall p, L = b ++ p ->
  exists X Y, kC C k p = X ++ Y /\ fC C (g_rows (grun (firstn n ops)) k) = rev X ++ rev (kC C k b).
Proof.
  intros n c0 k Hn b Hb p Hp.
  set (t := grun (firstn n ops)).
  assert (It : ginv t) by apply ginv_grun.
  assert (Es : s = run gstep t (skipn n ops)).
  { unfold s, t, grun. rewrite <- run_app, firstn_skipn. reflexivity. }
  destruct (rows_grow C (skipn n ops) t k) as (N & EN).
  { rewrite <- Es. apply C_fin. }
  rewrite <- Es in EN. apply (f_equal (@rev entry)) in EN. rewrite rows_kC, rev_app_distr in EN.
  assert (Lt : exists q1, g_log t = b ++ q1).
  { assert (E : firstn n ops = firstn c0 ops ++ firstn (n - c0) (skipn c0 ops)).
    { rewrite <- (firstn_skipn c0 ops) at 1. rewrite firstn_app. rewrite firstn_firstn.
      rewrite firstn_length. replace (Nat.min n c0) with c0 by lia.
      replace (n - Nat.min c0 (length ops))%nat with (n - c0)%nat by lia. reflexivity. }
    unfold t, grun. rewrite E, run_app. rewrite Hb. apply log_grows. }
  destruct Lt as (q1 & Eq1).
  (* the chronological image starts with the records before the checkpoint *)
  assert (PF : exists X, rev (fC C (g_rows t k)) = kC C k b ++ X).
  { rewrite <- fC_rev, <- (gi_rows _ It k), fC_app.
    assert (F1 : fC C (filter (nb t) (krec k (g_log t))) = kC C k (g_log t)).
    { unfold kC. generalize (krec k (g_log t)). intros l0. induction l0 as [|e l IH]; auto.
      cbn [filter fC]. unfold nb at 1. destruct (Z.eqb_spec (g_fin t (e_own e)) 2) as [Q|Q]; cbn [negb].
      - destruct (C (e_own e)) eqn:R; [|exact IH]. apply C_fin in R. rewrite Es in R.
        rewrite fin_stable in R by lia. lia.
      - cbn [filter]. destruct (C (e_own e)); [f_equal|]; exact IH. }
    rewrite F1, Eq1, kC_app, <- app_assoc. eauto. }
  destruct PF as (X & EX). rewrite EX in EN. rewrite Hp, kC_app, <- app_assoc in EN.
  apply app_inv_head in EN. exists X, (rev N). split; [exact EN|].
  apply (f_equal (@rev entry)) in EX. rewrite rev_involutive, rev_app_distr in EX. exact EX.
Qed.
End Both.

Lemma kC_history : forall (C : oxid -> bool) k l,
  map (fun e => (e_own e, e_val e)) (kC C k l)
  = flat_map (fun r => match r with
                       | RMod x k' _ v => if (k' =? k) && C x then [(x, v)] else []
                       | _ => []
                       end) l.
Proof.
  intros C k. induction l as [|r l IH]; auto. change (r :: l) with ([r] ++ l) at 1.
  rewrite kC_app, map_app, IH. cbn [flat_map]. f_equal. unfold kC. rewrite krec_one.
  destruct r as [x k' ver v|x|x]; auto. cbn. destruct (k' =? k); auto. cbn. destruct (C x); auto.
Qed.

Lemma jfinal_versions : forall L s k, jinv L L [] s -> versions s k = history L k.
Proof.
  intros L s k [_ St Com Row]. unfold history. rewrite <- kC_history, <- map_rev.
  destruct (Row k) as (X & Y & E1 & E2).
  symmetry in E1. apply app_eq_nil in E1 as [-> ->]. cbn in E2. rewrite <- E2. unfold versions, fC. f_equal.
  apply filter_ext. intros e. destruct (has_commit L (e_own e)) eqn:Q.
  - apply has_commit_in, Com in Q. rewrite Q. reflexivity.
  - destruct (Z.eqb_spec (r_st s (e_own e)) 2) as [R|]; auto. apply Com, has_commit_in in R. congruence.
Qed.
