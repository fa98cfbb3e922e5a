(** Proof of C34: the logs of the primary are well formed, and the abstract run of any
    prefix lists exactly the durable transactions. *)
From Coq Require Import ZArith List Bool Lia.
From Coq Require Import ZifyBool ZifyNat.
From Verif Require Import Base RecSpec RecModel RecLemmas.
Import ListNotations.
Open Scope Z_scope.

Arguments arun : simpl never.
Arguments crun : simpl never.

Definition ritem (r : lrec) : list witem :=
  match r with LMod _ k v => [WMod k v] | LSave _ p => [WSub p] | _ => [] end.
Definition pend (b : list lrec) : list witem := rev (flat_map ritem b).
Definition bufok (x : oxid) (r : lrec) : Prop :=
  match r with LMod y _ _ => y = x | LSave y _ => y = x | _ => False end.
Definition rec_of (r : lrec) (x : oxid) : Prop :=
  match r with
  | LMod y _ _ => y = x | LSave y _ => y = x | LRb y _ => y = x
  | LCommit y => y = x | LRollback y => y = x | LJoint y _ => y = x | LHeap _ _ => False
  end.

Arguments pend : simpl never.

Lemma pend_snoc : forall b r, pend (b ++ [r]) = rev (ritem r) ++ pend b.
Proof. intros. unfold pend. rewrite flat_map_app, rev_app_distr. cbn. rewrite app_nil_r. auto. Qed.

Lemma arun_buf : forall x b a, Forall (bufok x) b ->
  a_w (arun a b) x = pend b ++ a_w a x /\ (forall y, y <> x -> a_w (arun a b) y = a_w a y) /\
  a_fin (arun a b) = a_fin a /\ a_done (arun a b) = a_done a /\ a_joint (arun a b) = a_joint a /\
  a_hd (arun a b) = a_hd a.
Proof.
  intros x b. induction b as [|r b IH]; intros a H; cbn.
  - repeat split; auto.
  - inv H. destruct (IH (astep a r) H3) as (A & B & C & D & E & F).
    change (arun a (r :: b)) with (arun (astep a r) b). rewrite A, C, D, E, F.
    destruct r; cbn in H2; try contradiction; subst; cbn; unfold pend; cbn; rewrite upd_same;
      rewrite <- app_assoc; cbn; repeat split; auto;
      intros y Hy; rewrite B by auto; cbn; apply upd_other; auto.
Qed.

Lemma wfl_buf : forall x b a, Forall (bufok x) b -> a_fin a x = false ->
  (forall k v, In (LMod x k v) b -> forall y, y <> x -> wk (mods (a_w a y)) k = []) ->
  wfl a b.
Proof.
  intros x b. induction b as [|r b IH]; intros a H F K; cbn; auto. inv H. split.
  - destruct r; cbn in H2; try contradiction; subst; cbn; auto. split; auto.
    intros y Hy. eapply K; eauto. left. reflexivity.
  - apply IH; auto.
    + destruct r; cbn in H2; try contradiction; auto.
    + intros k v Hin y Hy. destruct r; cbn in H2; try contradiction; subst; cbn;
        rewrite upd_other by auto; eapply K; eauto; right; eauto.
Qed.

Fixpoint struct (w : list witem) (subs : list osub) (frs : list (list write)) : Prop :=
  match subs with
  | [] => frs = [mods w]
  | b :: r =>
      exists f fr w1 w2, frs = f :: fr /\ mods w1 = f /\
        (b_relchild b = false -> first_sub w1 = None) /\
        (if b_logged b then w = w1 ++ WSub (b_parent b) :: w2 else w = w1 /\ w2 = []) /\
        struct w2 r fr
  end.

Lemma struct_concat : forall subs w frs, struct w subs frs -> mods w = concat frs.
Proof.
  induction subs as [|b r IH]; cbn; intros w frs H.
  - subst. cbn. rewrite app_nil_r. auto.
  - destruct H as (f & fr & w1 & w2 & -> & <- & _ & H1 & H2). cbn. rewrite <- (IH _ _ H2).
    destruct (b_logged b).
    + subst. rewrite mods_app. reflexivity.
    + destruct H1 as [-> ->]. cbn. rewrite app_nil_r. auto.
Qed.

Lemma struct_write : forall subs w f fr k v, struct w subs (f :: fr) ->
  struct (WMod k v :: w) subs (((k, v) :: f) :: fr).
Proof.
  intros [|b r] w f fr k v; cbn.
  - intros H. injection H as -> ->. reflexivity.
  - intros (f' & fr' & w1 & w2 & E & <- & A & B & C). injection E as -> ->.
    exists ((k, v) :: mods w1), fr', (WMod k v :: w1), w2. repeat split; auto.
    destruct (b_logged b).
    + subst. reflexivity.
    + destruct B as [-> ->]. auto.
Qed.

Lemma struct_nonempty : forall subs w frs, struct w subs frs -> exists f fr, frs = f :: fr.
Proof.
  intros [|b r] w frs; cbn.
  - intros ->. eauto.
  - intros (f & fr & w1 & w2 & -> & _). eauto.
Qed.

Lemma first_sub_app : forall a b, first_sub a = None -> first_sub (a ++ b) = first_sub b.
Proof. induction a as [|[k v|p] a IH]; cbn; intros; auto. discriminate. Qed.

Lemma drop_sub_app : forall a p b, first_sub a = None -> drop_sub (a ++ WSub p :: b) = b.
Proof. induction a as [|[k v|p] a IH]; cbn; intros; auto. discriminate. Qed.

Lemma struct_release : forall b r w f g fr, struct w (b :: r) (f :: g :: fr) ->
  struct w (if b_logged b || b_relchild b then set_relchild r else r) ((f ++ g) :: fr).
Proof.
  intros b r w f g fr (f' & fr' & w1 & w2 & E & <- & A & B & C). injection E as -> <-.
  destruct r as [|c r]; cbn in C.
  - injection C as -> ->. replace (if b_logged b || b_relchild b then set_relchild [] else []) with (@nil osub)
      by (destruct (b_logged b || b_relchild b); reflexivity).
    cbn. destruct (b_logged b).
    + subst. rewrite mods_app. reflexivity.
    + destruct B as [-> ->]. cbn. rewrite app_nil_r. reflexivity.
  - destruct C as (f2 & fr2 & u1 & u2 & E & <- & A2 & B2 & C). injection E as -> ->.
    assert (G : forall c', b_logged c' = b_logged c -> b_parent c' = b_parent c ->
              (b_relchild c' = false -> b_logged b = false /\ b_relchild b = false /\ b_relchild c = false) ->
              struct w (c' :: r) ((mods w1 ++ mods u1) :: fr2)).
    { intros c' L P Q. cbn. rewrite L, P.
      destruct (b_logged b) eqn:LB.
      - exists (mods w1 ++ mods u1), fr2, (w1 ++ WSub (b_parent b) :: u1), u2.
        split; [auto|]. split; [rewrite mods_app; reflexivity|].
        split; [intros R; apply Q in R as [R _]; discriminate|].
        split; [|exact C].
        destruct (b_logged c).
        + subst. rewrite <- app_assoc. reflexivity.
        + destruct B2 as [-> ->]. subst. auto.
      - destruct B as [-> ->].
        assert (u1 = [] /\ u2 = [] /\ b_logged c = false) as (-> & -> & Lc).
        { destruct (b_logged c); [destruct u1; discriminate|]. destruct B2 as [? ?]. auto. }
        rewrite Lc. exists (mods w1 ++ mods []), fr2, w1, [].
        split; [auto|]. split; [cbn; rewrite app_nil_r; auto|].
        split; [intros R; apply Q in R as (_ & R & _); auto|]. auto. }
    destruct (b_logged b || b_relchild b) eqn:LR.
    + cbn [set_relchild]. apply G; cbn; auto. discriminate.
    + apply orb_false_iff in LR as [L1 L2]. apply G; auto.
Qed.

(** ** The invariant.  [a] is the abstract run of the log. *)
Definition Wx (a : ast) (s : eng) (x : oxid) : list witem := pend (e_buf s x) ++ a_w a x.

Record ecore (a : ast) (s : eng) : Prop := {
  i_buf : forall x, Forall (bufok x) (e_buf s x);
  i_fin : forall x, e_fin s x = true -> a_w a x = [] /\ e_buf s x = [];
  i_afin : forall x, a_fin a x = true ->
           e_fin s x = true \/ exists h, In (x, h) (e_joint s) /\ e_heap s h = true;
  i_afw : forall x, a_fin a x = true -> a_w a x = [];
  i_jprop : forall x h, In (x, h) (e_joint s) ->
            e_buf s x = [] /\ e_fin s x = false /\ e_wrote s x = true /\ e_subs s x = [];
  i_jnd : NoDup (map fst (e_joint s));
  i_str : forall x, e_fin s x = false -> a_fin a x = false ->
          struct (Wx a s x) (e_subs s x) (c_fr (crun (e_hist s)) x);
  i_own : forall x k, wk (mods (Wx a s x)) k <> [] -> e_own s k = Some x;
  i_wrote : forall x, e_wrote s x = false -> Wx a s x = [];
  i_rec : forall r x, In r (e_log s) -> rec_of r x -> e_wrote s x = true;
  i_done : a_done a = filter (fun t => e_wrote s (fst t)) (c_done (crun (e_hist s)));
  i_dfin : forall t, In t (c_done (crun (e_hist s))) -> e_fin s (fst t) = true
}.

Record einv (s : eng) : Prop := {
  i_wf : wfl ainit (e_log s);
  i_core : ecore (arun ainit (e_log s)) s;
  i_joint : a_joint (arun ainit (e_log s)) = filter (fun e => negb (e_heap s (snd e))) (e_joint s);
  i_hd : forall h, a_hd (arun ainit (e_log s)) h = e_heap s h
}.

Lemma crun_snoc : forall h e, crun (h ++ [e]) = cstep (crun h) e.
Proof. intros. unfold crun. rewrite fold_left_app. reflexivity. Qed.

Lemma wk_app : forall u v k, wk (u ++ v) k = wk u k ++ wk v k.
Proof.
  induction u as [|[k' v'] u IHu]; intros; cbn; auto. destruct (k' =? k); cbn; rewrite IHu; auto.
Qed.

Lemma last_write_wk : forall ws k, wk ws k <> [] -> exists v, last_write ws k = Some v.
Proof.
  induction ws as [|[k' v] ws IH]; cbn; intros k H; [contradiction|].
  destruct (k' =? k); eauto.
Qed.

Lemma einv_init : einv einit.
Proof.
  constructor; cbn; auto. constructor; cbn; intros; auto; try contradiction; try discriminate.
  constructor.
Qed.

(** Flushing a local buffer. *)
Definition flushed (s : eng) (x : oxid) : eng := estep s (OFlush x).

Lemma flush_inv : forall s x, einv s -> einv (flushed s x).
Proof.
  intros s x H. destruct (i_core _ H) as [Hb Hf Haf Hfw Hjp Hjn Hs Ho Hw Hr Hd Hdf].
  set (a := arun ainit (e_log s)) in *.
  destruct (arun_buf x (e_buf s x) a (Hb x)) as (A & B & C & D & E & F).
  assert (W : forall y, Wx (arun a (e_buf s x)) (flushed s x) y = Wx a s y).
  { intros y. unfold Wx. cbn. unfold upd. destruct (Z.eqb_spec y x) as [->|N]; [rewrite A; reflexivity|].
    rewrite B; auto. }
  constructor; cbn; rewrite ?arun_app; fold a; rewrite ?E, ?F; try apply H.
  - apply wfl_app. split; [apply H|]. fold a.
    destruct (e_buf s x) as [|r b] eqn:Eb; [exact Logic.I|]. rewrite <- Eb in *.
    assert (NE : e_buf s x <> []) by (rewrite Eb; discriminate).
    apply (wfl_buf x); auto.
    + destruct (a_fin a x) eqn:Q; auto. exfalso. apply NE.
      destruct (Haf x Q) as [R|(h & R & _)]; [apply Hf; auto|eapply Hjp; eauto].
    + intros k v Hin y Hy. destruct (wk (mods (a_w a y)) k) eqn:Q; auto. exfalso.
      assert (O1 : e_own s k = Some y).
      { apply Ho. unfold Wx. rewrite mods_app, wk_app, Q. intros R. apply app_eq_nil in R as [_ R]. discriminate. }
      assert (O2 : e_own s k = Some x).
      { apply Ho. unfold Wx. rewrite mods_app, wk_app. intros R. apply app_eq_nil in R as [R _].
        revert R Hin. clear. generalize (e_buf s x) as b. intros b. unfold pend.
        induction b as [|r b IH]; cbn; [contradiction|]. rewrite rev_app_distr, mods_app, wk_app.
        intros R [->|Hin]; apply app_eq_nil in R as [R1 R2]; auto.
        cbn in R2. rewrite Z.eqb_refl in R2. discriminate. }
      congruence.
  - constructor; cbn; rewrite ?C, ?D; auto.
    + intros y. unfold upd. destruct (y =? x); auto.
    + intros y Hy. destruct (Hf y Hy) as [P Q]. unfold upd. destruct (Z.eqb_spec y x) as [->|N].
      * rewrite A, P, Q. auto.
      * rewrite B; auto.
    + intros y Hy. destruct (Z.eq_dec y x) as [->|N]; [|rewrite B; auto].
      rewrite A, (Hfw x Hy). destruct (Haf x Hy) as [Q|(h & Q & _)].
      * rewrite (proj2 (Hf x Q)). reflexivity.
      * rewrite (proj1 (Hjp x h Q)). reflexivity.
    + intros y h Hy. destruct (Hjp y h Hy) as [P Q]. unfold upd. destruct (y =? x); auto.
    + intros y Hy Hy2. pose proof (Hs y Hy Hy2) as Q. rewrite <- W in Q. exact Q.
    + intros y k Q. apply Ho. rewrite <- W. exact Q.
    + intros y Hy. rewrite <- (Hw y Hy), <- W. reflexivity.
    + intros r y Hin Hro. apply in_app_or in Hin as [Hin|Hin]; [eapply Hr; eauto|].
      destruct (e_wrote s y) eqn:Q; auto. exfalso.
      assert (y = x).
      { pose proof (proj1 (Forall_forall _ _) (Hb x) r Hin) as P.
        destruct r; cbn in P, Hro; try contradiction; congruence. }
      subst y. specialize (Hw x Q). unfold Wx in Hw. apply app_eq_nil in Hw as [Hw _].
      unfold pend in Hw. apply (f_equal (@rev _)) in Hw. rewrite rev_involutive in Hw. cbn in Hw.
      pose proof (proj1 (Forall_forall _ _) (Hb x) r Hin) as P.
      apply in_split in Hin as (l1 & l2 & Hin). rewrite Hin, flat_map_app in Hw.
      apply app_eq_nil in Hw as [_ Hw]. cbn in Hw. destruct r; cbn in *; try contradiction; discriminate.
Qed.

(** Lists of settled transactions. *)
Lemma filter_wrote_upd : forall (f : oxid -> bool) x v (l : list (oxid * list write)),
  (forall t, In t l -> fst t <> x) ->
  filter (fun t => upd f x v (fst t)) l = filter (fun t => f (fst t)) l.
Proof.
  intros f x v l H. apply filter_ext_in. intros t Ht. apply upd_other. auto.
Qed.

Lemma cdone_write : forall c x k v, c_done (cstep c (CWrite x k v)) = c_done c.
Proof. intros. cbn. destruct (c_fr c x); auto. Qed.

Lemma release_other : forall own c x k y, own k = Some y -> y <> x -> release own c x k = Some y.
Proof.
  intros. unfold release. rewrite H. destruct (Z.eqb_spec y x); [contradiction|auto].
Qed.

Lemma release_held : forall own c x k, own k = Some x ->
  wk (concat (c_fr c x)) k <> [] -> release own c x k = Some x.
Proof.
  intros. unfold release, holds. rewrite H. apply last_write_wk in H0 as (v & ->).
  rewrite andb_false_r. auto.
Qed.

Lemma joined_false : forall s x, joined s x = false -> forall h, ~ In (x, h) (e_joint s).
Proof.
  intros s x H h Hin. apply Bool.not_true_iff_false in H. apply H. apply existsb_exists.
  exists (x, h). split; auto. cbn. apply Z.eqb_refl.
Qed.

Lemma live_afin : forall s x, einv s -> e_fin s x = false -> joined s x = false ->
  a_fin (arun ainit (e_log s)) x = false.
Proof.
  intros s x H F J. destruct (a_fin _ x) eqn:Q; auto.
  destruct (i_afin _ _ (i_core _ H) x Q) as [R|(h & R & _)]; [congruence|].
  exfalso. eapply joined_false; eauto.
Qed.

(** Write. *)
Lemma write_inv : forall s x k v, einv s -> einv (estep s (OWrite x k v)).
Proof.
  intros s x k v H. cbn. destruct (e_fin s x || joined s x) eqn:G; auto.
  apply orb_false_iff in G as [Ff Jj].
  pose proof (live_afin _ _ H Ff Jj) as Af.
  destruct (match e_own s k with Some y => y =? x | None => true end) eqn:O; auto.
  destruct (i_core _ H) as [Hb Hf Haf Hfw Hjp Hjn Hs Ho Hw Hr Hd Hdf].
  set (a := arun ainit (e_log s)) in *.
  constructor; cbn; fold a; try apply H.
  assert (W : forall y, pend (upd (e_buf s) x (e_buf s x ++ [LMod x k v]) y) ++ a_w a y =
              if y =? x then WMod k v :: Wx a s x else Wx a s y).
  { intros y. unfold Wx, upd. destruct (Z.eqb_spec y x) as [->|N]; auto. rewrite pend_snoc. reflexivity. }
  constructor; cbn; auto; unfold Wx; cbn.
  - intros y. unfold upd. destruct (Z.eqb_spec y x) as [->|N]; auto. apply Forall_app. split; auto.
    repeat constructor.
  - intros y Hy. unfold upd. destruct (Z.eqb_spec y x) as [->|N]; auto. congruence.
  - intros y h Hy. destruct (Hjp y h Hy) as (P & Q & R). unfold upd. destruct (Z.eqb_spec y x) as [->|N]; auto.
    exfalso. eapply joined_false; eauto.
  - intros y Fy Ay. rewrite W, crun_snoc. cbn [cstep].
    destruct (struct_nonempty _ _ _ (Hs x Ff Af)) as (f & fr & E). rewrite E. cbn.
    unfold upd. destruct (Z.eqb_spec y x) as [->|N]; auto.
    apply struct_write. rewrite <- E. auto.
  - intros y k' Q. rewrite W in Q. destruct (Z.eqb_spec y x) as [->|N].
    + unfold upd. destruct (Z.eqb_spec k' k) as [->|M]; auto. apply Ho. cbn in Q.
      destruct (Z.eqb_spec k k'); congruence.
    + apply Ho in Q. unfold upd. destruct (Z.eqb_spec k' k) as [->|M]; auto.
      rewrite Q in O. lia.
  - intros y Q. rewrite W. unfold upd in Q. destruct (Z.eqb_spec y x); [discriminate|]. apply Hw; auto.
  - intros r y Hin Hro. unfold upd. destruct (y =? x); auto. eapply Hr; eauto.
  - rewrite crun_snoc, cdone_write, filter_wrote_upd; auto.
    intros t Ht E. apply Hdf in Ht. rewrite E in Ht. congruence.
  - intros t. rewrite crun_snoc, cdone_write. auto.
Qed.

(** SAVEPOINT. *)
Lemma save_inv : forall s x, einv s -> einv (estep s (OSave x)).
Proof.
  intros s x H. cbn. destruct (e_fin s x || joined s x) eqn:G; auto.
  apply orb_false_iff in G as [Ff Jj].
  pose proof (live_afin _ _ H Ff Jj) as Af.
  destruct (i_core _ H) as [Hb Hf Haf Hfw Hjp Hjn Hs Ho Hw Hr Hd Hdf].
  set (a := arun ainit (e_log s)) in *.
  set (p := cur_sub (e_subs s x)).
  constructor; cbn; fold a; try apply H.
  assert (W : forall y, pend ((if e_wrote s x then upd (e_buf s) x (e_buf s x ++ [LSave x p]) else e_buf s) y) ++ a_w a y =
              if (y =? x) && e_wrote s x then WSub p :: Wx a s x else Wx a s y).
  { intros y. unfold Wx. destruct (e_wrote s x); unfold upd; [|rewrite andb_false_r; auto].
    destruct (Z.eqb_spec y x) as [->|N]; auto. rewrite pend_snoc. reflexivity. }
  constructor; cbn; auto; unfold Wx; cbn.
  - intros y. destruct (e_wrote s x); auto. unfold upd. destruct (Z.eqb_spec y x) as [->|N]; auto.
    apply Forall_app. split; auto. repeat constructor.
  - intros y Hy. destruct (e_wrote s x); auto. unfold upd. destruct (Z.eqb_spec y x) as [->|N]; auto. congruence.
  - intros y h Hy. destruct (Hjp y h Hy) as (P & Q & R).
    assert (N : y <> x) by (intros ->; eapply joined_false; eauto).
    rewrite upd_other by auto. destruct (e_wrote s x); [rewrite upd_other by auto|]; auto.
  - intros y Fy Ay. rewrite W, crun_snoc. cbn [cstep c_fr].
    unfold upd. destruct (Z.eqb_spec y x) as [->|N]; cbn; auto.
    destruct (e_wrote s x) eqn:Q.
    + exists [], (c_fr (crun (e_hist s)) x), [], (Wx a s x). repeat split; auto.
    + exists [], (c_fr (crun (e_hist s)) x), [], []. rewrite (Hw x Q). repeat split; auto.
      rewrite <- (Hw x Q). auto.
  - intros y k' Q. apply Ho. rewrite W in Q. destruct (Z.eqb_spec y x) as [->|N]; cbn in Q; auto.
    destruct (e_wrote s x); auto.
  - intros y Q. rewrite W. destruct (Z.eqb_spec y x) as [->|N]; cbn; [rewrite Q|]; apply Hw; auto.
  - rewrite crun_snoc. cbn. auto.
  - intros t. rewrite crun_snoc. cbn. auto.
Qed.

(** RELEASE. *)
Lemma release_inv : forall s x, einv s -> einv (estep s (ORelease x)).
Proof.
  intros s x H. cbn. destruct (e_fin s x || joined s x) eqn:G; auto.
  apply orb_false_iff in G as [Ff Jj].
  pose proof (live_afin _ _ H Ff Jj) as Af.
  destruct (e_subs s x) as [|b r] eqn:Sb; auto.
  destruct (i_core _ H) as [Hb Hf Haf Hfw Hjp Hjn Hs Ho Hw Hr Hd Hdf].
  set (a := arun ainit (e_log s)) in *.
  constructor; cbn; fold a; try apply H.
  pose proof (Hs x Ff Af) as Sx. rewrite Sb in Sx.
  assert (exists f g fr, c_fr (crun (e_hist s)) x = f :: g :: fr) as (f & g & fr & E).
  { cbn in Sx. destruct Sx as (f & fr & w1 & w2 & -> & _ & _ & _ & S2).
    apply struct_nonempty in S2 as (g & fr' & ->). eauto. }
  constructor; cbn; auto; unfold Wx; cbn; auto.
  - intros y h Hy. assert (N : y <> x) by (intros ->; eapply joined_false; eauto).
    rewrite upd_other by auto. eauto.
  - intros y Fy Ay. rewrite crun_snoc. cbn [cstep]. rewrite E. cbn.
    unfold upd. destruct (Z.eqb_spec y x) as [->|N]; [|exact (Hs y Fy Ay)].
    apply struct_release. rewrite <- E. exact Sx.
  - rewrite crun_snoc. cbn. rewrite E. auto.
  - intros t. rewrite crun_snoc. cbn. rewrite E. auto.
Qed.

Lemma pend_nil : forall b, pend b = [] -> forall x, Forall (bufok x) b -> b = [].
Proof.
  intros [|r b] H x F; auto. exfalso. inv F. unfold pend in H. cbn in H.
  rewrite rev_app_distr in H. apply app_eq_nil in H as [_ H].
  destruct r; cbn in *; try contradiction; discriminate.
Qed.

Lemma arun_snoc : forall l r, arun ainit (l ++ [r]) = astep (arun ainit l) r.
Proof. intros. rewrite arun_app. reflexivity. Qed.

(** ROLLBACK TO SAVEPOINT. *)
Lemma back_inv : forall s x, einv s -> e_hz (estep s (OBack x)) = false -> einv (estep s (OBack x)).
Proof.
  intros s0 x H0. cbn. destruct (e_fin s0 x || joined s0 x) eqn:G; auto.
  apply orb_false_iff in G as [Ff Jj].
  destruct (e_subs s0 x) as [|b r] eqn:Sb; auto.
  set (p := if (e_min s0 x =? 0) || (b_parent b <? e_min s0 x) then 0 else b_parent b).
  cbn [e_hz]. intros HZ. apply orb_false_iff in HZ as [_ HZ].
  destruct (e_wrote s0 x) eqn:Wr.
  - (* logged *)
    pose proof (flush_inv s0 x H0) as H. set (s := flushed s0 x) in *.
    assert (Af : a_fin (arun ainit (e_log s)) x = false) by (apply live_afin; auto).
    destruct (i_core _ H) as [Hb Hf Haf Hfw Hjp Hjn Hs Ho Hw Hr Hd Hdf].
    rewrite app_assoc. change (e_log s0 ++ e_buf s0 x) with (e_log s).
    set (a := arun ainit (e_log s)) in *.
    assert (Bx : e_buf s x = []) by apply upd_same.
    assert (Wxx : Wx a s x = a_w a x) by (unfold Wx; rewrite Bx; reflexivity).
    pose proof (Hs x Ff Af) as Sx. change (e_subs s x) with (e_subs s0 x) in Sx.
    rewrite Sb, Wxx in Sx. cbn in Sx.
    destruct Sx as (f & fr & w1 & w2 & Efr & <- & Rc & Ew & S2).
    set (w' := if p =? 0 then [] else drop_sub (a_w a x)).
    assert (Q : (p = 0 \/ first_sub (a_w a x) = Some p) /\ w' = w2 /\
                exists u, mods (a_w a x) = u ++ mods w2).
    { cbn in HZ. unfold w'. destruct (b_logged b).
      - apply orb_false_iff in HZ as [Z1 Z2]. rewrite Z1, Ew.
        rewrite first_sub_app by auto. rewrite drop_sub_app by auto. cbn.
        split; [right|split; auto].
        + f_equal. unfold p in *. destruct ((e_min s0 x =? 0) || (b_parent b <? e_min s0 x)); auto. discriminate.
        + rewrite mods_app. eexists. reflexivity.
      - apply negb_false_iff in HZ. rewrite HZ. destruct Ew as [-> ->].
        split; [left; lia|]. split; auto. exists (mods w1). cbn. rewrite app_nil_r. auto. }
    destruct Q as (Q1 & Q2 & (u & Q3)).
    pose proof (struct_nonempty _ _ _ S2) as (g & fr' & ->).
    change (e_hist s) with (e_hist s0) in *.
    assert (Cr : crun (e_hist s0 ++ [CBack x]) =
                 mkCst (upd (c_fr (crun (e_hist s0))) x (g :: fr')) (c_done (crun (e_hist s0)))).
    { rewrite crun_snoc. cbn. rewrite Efr. reflexivity. }
    rewrite Cr.
    constructor; cbn [e_log e_joint e_heap].
    + apply wfl_app. split; [apply H|]. fold a. cbn. auto.
    + rewrite arun_snoc. fold a. cbn [astep]. fold w'.
      assert (W : forall y, pend (upd (e_buf s0) x [] y) ++ upd (a_w a) x w' y =
                  if y =? x then w2 else Wx a s y).
      { intros y. rewrite Q2. unfold Wx. cbn. unfold upd. destruct (y =? x); auto. }
      constructor; unfold Wx;
        cbn [e_buf e_fin e_joint e_heap e_wrote e_subs e_own e_hist e_log a_w a_fin a_done set_w]; auto.
      * intros y Hy. destruct (Hf y Hy) as [P1 P2]. split; auto. unfold upd.
        destruct (Z.eqb_spec y x) as [->|N]; [|auto]. exfalso. cbn in Hy. congruence.
      * intros y Hy. unfold upd. destruct (Z.eqb_spec y x) as [->|N]; [congruence|auto].
      * intros y h Hy. assert (N : y <> x) by (intros ->; eapply (joined_false s0); eauto).
        rewrite (upd_other _ (e_subs s0)) by auto. apply (Hjp y h Hy).
      * intros y Fy Ay. rewrite W, Cr. cbn. unfold upd. destruct (Z.eqb_spec y x) as [->|N]; auto.
        apply (Hs y); auto.
      * intros y k Hk. rewrite W in Hk. destruct (Z.eqb_spec y x) as [->|N].
        -- apply release_held.
           ++ change (e_own s0) with (e_own s). apply Ho. rewrite Wxx, Q3, wk_app. intros R.
              apply app_eq_nil in R as [_ R]. contradiction.
           ++ cbn [c_fr]. rewrite upd_same. rewrite <- (struct_concat _ _ _ S2). auto.
        -- apply release_other; auto. apply Ho in Hk. exact Hk.
      * intros y Hy. rewrite W. destruct (Z.eqb_spec y x) as [->|N]; [congruence|]. apply Hw; auto.
      * intros q y Hin Hro. apply in_app_or in Hin as [Hin|[<-|[]]]; [eapply Hr; eauto|].
        cbn in Hro. subst y. auto.
      * rewrite Cr. cbn. exact Hd.
      * intros t. rewrite Cr. cbn. apply Hdf.
    + rewrite arun_snoc. apply H.
    + intros h. rewrite arun_snoc. apply H.
  - (* nothing written yet *)
    pose proof (live_afin _ _ H0 Ff Jj) as Af.
    destruct (i_core _ H0) as [Hb Hf Haf Hfw Hjp Hjn Hs Ho Hw Hr Hd Hdf].
    set (a := arun ainit (e_log s0)) in *.
    pose proof (Hs x Ff Af) as Sx. rewrite Sb, (Hw x Wr) in Sx. cbn in Sx.
    destruct Sx as (f & fr & w1 & w2 & Efr & <- & Rc & Ew & S2).
    assert (w2 = []) as ->.
    { destruct (b_logged b); [destruct w1; discriminate|]. apply Ew. }
    pose proof (struct_nonempty _ _ _ S2) as (g & fr' & ->).
    assert (Cr : crun (e_hist s0 ++ [CBack x]) =
                 mkCst (upd (c_fr (crun (e_hist s0))) x (g :: fr')) (c_done (crun (e_hist s0)))).
    { rewrite crun_snoc. cbn. rewrite Efr. reflexivity. }
    rewrite Cr.
    constructor; cbn [e_log e_joint e_heap]; try apply H0. fold a.
    constructor; unfold Wx;
      cbn [e_buf e_fin e_joint e_heap e_wrote e_subs e_own e_hist e_log]; auto.
    + intros y h Hy. assert (N : y <> x) by (intros ->; eapply (joined_false s0); eauto).
      rewrite (upd_other _ (e_subs s0)) by auto. apply (Hjp y h Hy).
    + intros y Fy Ay. rewrite Cr. cbn. unfold upd. destruct (Z.eqb_spec y x) as [->|N]; [|apply (Hs y); auto].
      change (pend (e_buf s0 x) ++ a_w a x) with (Wx a s0 x). rewrite (Hw x Wr). auto.
    + intros y k Hk. change (pend (e_buf s0 y) ++ a_w a y) with (Wx a s0 y) in Hk.
      destruct (Z.eqb_spec y x) as [->|N].
      * rewrite (Hw x Wr) in Hk. contradiction.
      * apply release_other; auto.
    + rewrite Cr. cbn. exact Hd.
    + intros t. rewrite Cr. cbn. apply Hdf.
Qed.

Lemma NoDup_map_filter : forall A B (g : A -> B) (f : A -> bool) l,
  NoDup (map g l) -> NoDup (map g (filter f l)).
Proof.
  intros A B g f l. induction l as [|e l IH]; cbn; intros H; [constructor|]. inv H.
  destruct (f e); cbn; auto. constructor; auto. intros Q. apply H2.
  apply in_map_iff in Q as (e' & E & Q). apply filter_In in Q as [Q _]. rewrite <- E.
  apply in_map; auto.
Qed.

(** A transaction ends; the abstract run has just settled it, or it never wrote. *)
Lemma end_core : forall a s x c, ecore a s -> e_buf s x = [] -> e_fin s x = false -> a_fin a x = false ->
  e_subs s x = [] \/ c = false ->
  ecore (if e_wrote s x then afinish a x c else a) (e_end s x (if c then CCommit x else CAbort x)).
Proof.
  intros a s x c [Hb Hf Haf Hfw Hjp Hjn Hs Ho Hw Hr Hd Hdf] Bx Fx Ax Sx.
  assert (Wxx : Wx a s x = a_w a x) by (unfold Wx; rewrite Bx; reflexivity).
  set (b := if e_wrote s x then afinish a x c else a).
  assert (Bw : forall y, a_w b y = if y =? x then [] else a_w a y).
  { intros y. unfold b. destruct (e_wrote s x) eqn:Q; cbn; [reflexivity|].
    destruct (Z.eqb_spec y x) as [->|]; auto. rewrite <- Wxx. apply Hw; auto. }
  assert (Bf : forall y, a_fin b y = true -> y = x \/ a_fin a y = true).
  { intros y. unfold b. destruct (e_wrote s x); cbn; auto. unfold upd. destruct (Z.eqb_spec y x); auto. }
  assert (Bf' : forall y, a_fin b y = false -> a_fin a y = false).
  { intros y. unfold b. destruct (e_wrote s x); cbn; auto. unfold upd. destruct (Z.eqb_spec y x); auto; discriminate. }
  set (h' := e_hist s ++ [if c then CCommit x else CAbort x]).
  assert (Cf : forall y, y <> x -> c_fr (crun h') y = c_fr (crun (e_hist s)) y).
  { intros y N. unfold h'. rewrite crun_snoc. destruct c; cbn; rewrite upd_other; auto. }
  assert (W : forall y, pend (upd (e_buf s) x [] y) ++ a_w b y = if y =? x then [] else Wx a s y).
  { intros y. rewrite Bw. unfold Wx, upd. destruct (y =? x); auto. }
  constructor; unfold Wx, e_end; fold h';
    cbn [e_buf e_fin e_joint e_heap e_wrote e_subs e_own e_hist e_log].
  - intros y. unfold upd. destruct (y =? x); auto.
  - intros y Hy. rewrite Bw. unfold upd in *. destruct (y =? x); auto.
  - intros y Hy. unfold upd. destruct (Z.eqb_spec y x) as [->|N]; auto.
    apply Bf in Hy as [?|Hy]; [contradiction|]. destruct (Haf y Hy) as [?|(h & P & Q)]; auto.
    right. exists h. split; auto. apply filter_In. split; auto. cbn. lia.
  - intros y Hy. rewrite Bw. destruct (Z.eqb_spec y x) as [->|N]; auto.
    apply Bf in Hy as [?|Hy]; [contradiction|auto].
  - intros y h Hy. apply filter_In in Hy as [Hy N]. cbn in N. destruct (Hjp y h Hy) as (P & Q & R).
    unfold upd. destruct (Z.eqb_spec y x) as [->|M]; auto.
  - apply NoDup_map_filter; auto.
  - intros y Fy Ay. unfold upd in Fy at 1. destruct (Z.eqb_spec y x) as [E|N]; [discriminate|].
    rewrite W, Cf by auto. rewrite (proj2 (Z.eqb_neq y x) N). auto.
  - intros y k Hk. rewrite W in Hk. destruct (Z.eqb_spec y x) as [->|N]; [contradiction|].
    apply release_other; auto.
  - intros y Hy. rewrite W. destruct (Z.eqb_spec y x) as [->|N]; auto.
  - auto.
  - unfold h'. rewrite crun_snoc. unfold b. destruct c; cbn.
    + rewrite filter_app. cbn. destruct (e_wrote s x) eqn:Q; cbn.
      * rewrite Hd. do 3 f_equal. rewrite <- Wxx. apply (struct_concat (e_subs s x)). auto.
      * rewrite app_nil_r. auto.
    + destruct (e_wrote s x); auto.
  - intros t. unfold h'. rewrite crun_snoc. destruct c; cbn; intros Ht.
    + apply in_app_or in Ht as [Ht|[<-|[]]]; [|cbn; apply upd_same].
      unfold upd. destruct (fst t =? x); auto.
    + unfold upd. destruct (fst t =? x); auto.
Qed.

Lemma joint_not : forall s x, joined s x = false ->
  filter (fun j : oxid * Z => negb (fst j =? x)) (e_joint s) = e_joint s.
Proof.
  intros s x H. pose proof (joined_false _ _ H) as J. clear H. induction (e_joint s) as [|[y h] l IH]; cbn; auto.
  destruct (Z.eqb_spec y x) as [->|N]; cbn.
  - exfalso. apply (J h). left. auto.
  - f_equal. apply IH. intros h' Hin. apply (J h'). right. auto.
Qed.

(** The invariant only looks at the maps pointwise. *)
Lemma ecore_ext : forall a s t, ecore a s ->
  e_hist t = e_hist s -> e_own t = e_own s -> e_fin t = e_fin s -> e_wrote t = e_wrote s ->
  e_subs t = e_subs s -> (forall x, e_buf t x = e_buf s x) -> e_joint t = e_joint s -> e_heap t = e_heap s ->
  (forall r x, In r (e_log t) -> rec_of r x -> e_wrote s x = true) ->
  ecore a t.
Proof.
  intros a s t [Hb Hf Haf Hfw Hjp Hjn Hs Ho Hw Hr Hd Hdf] E1 E2 E3 E4 E5 E6 E7 E8 HL.
  constructor; unfold Wx in *; rewrite ?E1, ?E2, ?E3, ?E4, ?E5, ?E7, ?E8; auto.
  all: intros y; rewrite E6; try exact (Hb y); try exact (Hf y); try exact (Hjp y);
    try exact (Hs y); try exact (Ho y); try exact (Hw y).
Qed.

(** COMMIT and ROLLBACK of a transaction without a joint commit record. *)
Lemma end_inv : forall s0 x (c : bool), einv s0 -> e_fin s0 x = false -> joined s0 x = false ->
  e_subs s0 x = [] \/ c = false ->
  einv (e_end (if e_wrote s0 x then add_log s0 (e_buf s0 x ++ [if c then LCommit x else LRollback x]) else s0)
              x (if c then CCommit x else CAbort x)).
Proof.
  intros s0 x c H0 Ff Jj Sb.
  pose proof (flush_inv s0 x H0) as H. set (s := flushed s0 x) in *.
  assert (Af : a_fin (arun ainit (e_log s)) x = false) by (apply live_afin; auto).
  assert (Bx : e_buf s x = []) by apply upd_same.
  pose proof (end_core _ s x c (i_core _ H) Bx Ff Af Sb) as K.
  change (e_wrote s x) with (e_wrote s0 x) in K.
  assert (AS : astep (arun ainit (e_log s)) (if c then LCommit x else LRollback x) =
               afinish (arun ainit (e_log s)) x c).
  { destruct c; cbn [astep]; rewrite Af; reflexivity. }
  destruct (e_wrote s0 x) eqn:Wr.
  - assert (EL : e_log (e_end (add_log s0 (e_buf s0 x ++ [if c then LCommit x else LRollback x]))
                     x (if c then CCommit x else CAbort x)) =
             e_log s ++ [if c then LCommit x else LRollback x]).
    { cbn. rewrite app_assoc. reflexivity. }
    constructor; rewrite EL; rewrite ?arun_snoc, ?AS.
    + apply wfl_app. split; [apply H|]. destruct c; cbn; auto.
    + apply (ecore_ext _ (e_end s x (if c then CCommit x else CAbort x))); auto.
      * intros y. cbn. unfold upd. destruct (y =? x); auto.
      * intros q y. rewrite EL. intros Hin Hro. cbn. apply in_app_or in Hin as [Hin|[<-|[]]].
        -- apply (i_rec _ _ (i_core _ H) q y Hin Hro).
        -- destruct c; cbn in Hro; subst y; auto.
    + cbn [afinish a_joint]. rewrite (i_joint _ H). cbn. rewrite (joint_not s0) by auto.
      rewrite filter_filter. apply filter_ext_in. intros [y g] He. cbn [fst snd].
      destruct (Z.eqb_spec y x) as [E|N]; [|apply andb_true_r].
      exfalso. apply (joined_false s0 x Jj g). subst. auto.
    + intros h. apply (i_hd _ H).
  - assert (Eb : e_buf s0 x = []).
    { eapply pend_nil; [|apply (i_buf _ _ (i_core _ H0))].
      pose proof (i_wrote _ _ (i_core _ H0) x Wr) as Hw0.
      unfold Wx in Hw0. apply app_eq_nil in Hw0. tauto. }
    assert (El : e_log s = e_log s0) by (cbn; rewrite Eb, app_nil_r; auto).
    rewrite El in K.
    constructor; cbn [e_end e_log e_joint e_heap]; try apply H0.
    + apply (ecore_ext _ (e_end s x (if c then CCommit x else CAbort x))); auto.
      * intros y. cbn. unfold upd. destruct (y =? x); auto.
      * cbn. apply (i_rec _ _ (i_core _ H0)).
    + rewrite joint_not by auto. apply H0.
Qed.

Lemma commit_inv : forall s x, einv s -> einv (estep s (OCommit x)).
Proof.
  intros s x H. cbn. destruct (e_fin s x || joined s x) eqn:G; auto.
  apply orb_false_iff in G as [Ff Jj].
  destruct (e_subs s x) as [|b r] eqn:Sb; auto.
  apply (end_inv s x true); auto.
Qed.

Lemma NoDup_fst : forall (l : list (oxid * Z)) x h g, NoDup (map fst l) -> In (x, h) l -> In (x, g) l -> h = g.
Proof.
  induction l as [|[y z] l IH]; cbn; intros x h g ND H1 H2; [contradiction|]. inv ND.
  destruct H1 as [H1|H1], H2 as [H2|H2].
  - congruence.
  - injection H1 as -> ->. exfalso. apply H3. apply (in_map fst) in H2. auto.
  - injection H2 as -> ->. exfalso. apply H3. apply (in_map fst) in H1. auto.
  - eapply IH; eauto.
Qed.

Lemma abort_inv : forall s x, einv s -> einv (estep s (OAbort x)).
Proof.
  intros s x H. cbn. destruct (e_fin s x || _) eqn:G; auto.
  apply orb_false_iff in G as [Ff Jh].
  destruct (joined s x) eqn:Jj; [|apply (end_inv s x false); auto].
  apply existsb_exists in Jj as ([x' h] & Hin & E). cbn in E. apply Z.eqb_eq in E. subst x'.
  assert (Hh : e_heap s h = true).
  { destruct (e_heap s h) eqn:Q; auto. apply Bool.not_true_iff_false in Jh. exfalso. apply Jh.
    apply existsb_exists. exists (x, h). split; auto. cbn. rewrite Z.eqb_refl, Q. reflexivity. }
  pose proof (i_core _ H) as K.
  destruct (i_jprop _ _ K x h Hin) as (Bx & _ & Wr & Sx). rewrite Wr, Bx. cbn [app].
  assert (JF : filter (fun e => negb (e_heap s (snd e))) (filter (fun j : oxid * Z => negb (fst j =? x)) (e_joint s)) =
               filter (fun e => negb (e_heap s (snd e))) (e_joint s)).
  { rewrite filter_filter. apply filter_ext_in. intros [y g] He. cbn.
    destruct (Z.eqb_spec y x) as [->|N]; auto. cbn.
    rewrite (NoDup_fst _ _ _ _ (i_jnd _ _ K) He Hin), Hh. reflexivity. }
  assert (EL : forall c, e_log (e_end (add_log s [LRollback x]) x c) = e_log s ++ [LRollback x]) by reflexivity.
  constructor; rewrite EL; rewrite ?arun_snoc.
  - apply wfl_app. split; [apply H|]. cbn; auto.
  - assert (K2 : forall b, ecore b (e_end s x (CAbort x)) -> ecore b (e_end (add_log s [LRollback x]) x (CAbort x))).
    { intros b Kb. apply (ecore_ext _ (e_end s x (CAbort x))); auto.
      cbn. intros q y Hq Hro. apply in_app_or in Hq as [Hq|[<-|[]]].
      - apply (i_rec _ _ K q y Hq Hro).
      - cbn in Hro. subst y. auto. }
    apply K2. cbn [astep]. destruct (a_fin (arun ainit (e_log s)) x) eqn:Q.
    + set (a := arun ainit (e_log s)) in *.
      destruct K as [Hb Hf Haf Hfw Hjp Hjn Hs Ho Hw Hr Hd Hdf].
      assert (W : forall y, pend (upd (e_buf s) x [] y) ++ a_w a y = Wx a s y).
      { intros y. unfold Wx, upd. destruct (Z.eqb_spec y x) as [->|]; auto. rewrite Bx. auto. }
      constructor; unfold Wx, e_end; cbn [e_buf e_fin e_joint e_heap e_wrote e_subs e_own e_hist e_log]; auto.
      * intros y. unfold upd. destruct (y =? x); auto.
      * intros y Hy. destruct (Z.eq_dec y x) as [->|N].
        -- rewrite upd_same. auto.
        -- rewrite upd_other in Hy by auto. rewrite upd_other by auto. auto.
      * intros y Hy. unfold upd. destruct (Z.eqb_spec y x) as [->|N]; auto.
        destruct (Haf y Hy) as [?|(g & P & R)]; auto.
        right. exists g. split; auto. apply filter_In. split; auto. cbn. lia.
      * intros y g Hy. apply filter_In in Hy as [Hy N]. cbn in N. destruct (Hjp y g Hy) as (P & R & T).
        unfold upd. destruct (Z.eqb_spec y x) as [->|M]; auto.
      * apply NoDup_map_filter; auto.
      * intros y Fy Ay. unfold upd in Fy at 1. destruct (Z.eqb_spec y x) as [E|N]; [discriminate|].
        rewrite W, crun_snoc. cbn. rewrite upd_other by auto. auto.
      * intros y k Hk. rewrite W in Hk. destruct (Z.eq_dec y x) as [->|N].
        -- exfalso. apply Hk. unfold Wx. rewrite Bx, Hfw by auto. reflexivity.
        -- apply release_other; auto.
      * intros y Hy. rewrite W. auto.
      * rewrite crun_snoc. cbn. auto.
      * intros t. rewrite crun_snoc. cbn. unfold upd. destruct (fst t =? x); auto.
    + pose proof (end_core _ s x false K Bx Ff Q (or_intror eq_refl)) as E. rewrite Wr in E. exact E.
  - cbn [astep e_end e_joint e_heap add_log]. etransitivity; [|symmetry; exact JF]. destruct (a_fin (arun ainit (e_log s)) x); [apply H|].
    cbn. rewrite (i_joint _ H). rewrite filter_filter. apply filter_ext_in. intros [y g] He. cbn.
    destruct (Z.eqb_spec y x) as [->|N]; [|apply andb_true_r].
    rewrite (NoDup_fst _ _ _ _ (i_jnd _ _ K) He Hin), Hh. reflexivity.
  - intros g. cbn [astep]. destruct (a_fin (arun ainit (e_log s)) x); apply H.
Qed.

(** The joint commit record. *)
Lemma joint_inv : forall s x h, einv s -> einv (estep s (OJoint x h)).
Proof.
  intros s0 x h H0. cbn. destruct (e_fin s0 x || joined s0 x || negb (e_wrote s0 x) || e_heap s0 h) eqn:G; auto.
  apply orb_false_iff in G as [G Hh]. apply orb_false_iff in G as [G Wr].
  apply orb_false_iff in G as [Ff Jj]. apply negb_false_iff in Wr.
  destruct (e_subs s0 x) as [|b r] eqn:Sb; auto.
  pose proof (flush_inv s0 x H0) as H. set (s := flushed s0 x) in *.
  assert (Af : a_fin (arun ainit (e_log s)) x = false) by (apply live_afin; auto).
  assert (Bx : e_buf s x = []) by apply upd_same.
  rewrite app_assoc. change (e_log s0 ++ e_buf s0 x) with (e_log s).
  set (a := arun ainit (e_log s)) in *.
  constructor; cbn [e_log e_joint e_heap]; rewrite ?arun_snoc; fold a.
  - apply wfl_app. split; [apply H|]. fold a. cbn. split; [split; [exact Af|]|exact Logic.I]. split.
    + unfold a. rewrite (i_hd _ H). exact Hh.
    + unfold a. rewrite (i_joint _ H). intros e He Ee. apply filter_In in He as [He _].
      apply (joined_false s0 x Jj (snd e)). destruct e; cbn in *. subst. auto.
  - destruct (i_core _ H) as [Hb Hf Haf Hfw Hjp Hjn Hs Ho Hw Hr Hd Hdf]. fold a in Hf, Haf, Hfw, Hs, Ho, Hw, Hd.
    constructor; unfold Wx; cbn [e_buf e_fin e_joint e_heap e_wrote e_subs e_own e_hist e_log astep a_w a_fin a_done]; auto.
    + intros y Hy. destruct (Haf y Hy) as [?|(g & P & R)]; auto. right. exists g. split; auto.
      apply in_or_app. auto.
    + intros y g Hy. apply in_app_or in Hy as [Hy|[E|[]]].
      * apply (Hjp y g Hy).
      * injection E as <- <-. auto.
    + rewrite map_app. cbn. change (e_joint s0) with (e_joint s).
      assert (NI : ~ In x (map fst (e_joint s))).
      { intros Q. apply in_map_iff in Q as ([y g] & E & Q). cbn in E. subst y.
        eapply (joined_false s0 x Jj); eauto. }
      revert NI Hjn. generalize (map fst (e_joint s)). clear. induction l as [|y l IH]; cbn; intros NI ND.
      * constructor; [intros []|constructor].
      * inv ND. constructor; [|apply IH; auto]. intros Q. apply in_app_or in Q as [Q|[Q|[]]]; auto.
    + intros q y Hin Hro. apply in_app_or in Hin as [Hin|[<-|[]]]; [eapply Hr; eauto|].
      cbn in Hro. subst y. auto.
  - cbn [astep a_joint]. rewrite filter_app. cbn. rewrite Hh. cbn. f_equal. apply (i_joint _ H).
  - intros g. cbn. apply (i_hd _ H).
Qed.

(** The heap record settles everybody who named it. *)
Definition jf (h : Z) (js l : list (oxid * Z)) : list (oxid * Z) :=
  fold_left (fun l e => if snd e =? h then filter (fun j => negb (fst j =? fst e)) l else l) js l.

Lemma jf_filter : forall h js l,
  jf h js l = filter (fun e => negb (existsb (fun j => (snd j =? h) && (fst e =? fst j)) js)) l.
Proof.
  intros h js. induction js as [|j js IH]; intros l; cbn.
  - unfold jf. cbn. induction l as [|e l IHl]; cbn; [|rewrite <- IHl]; auto.
  - destruct j as [jx jh]. unfold jf in *. cbn. rewrite IH. destruct (jh =? h); cbn; auto.
    etransitivity; [apply filter_filter|]. apply filter_ext. intros [y g]. cbn [fst].
    destruct (y =? jx); auto.
Qed.

Lemma jf_self : forall h l, NoDup (map fst l) -> jf h l l = filter (fun e => negb (snd e =? h)) l.
Proof.
  intros h l ND. rewrite jf_filter. apply filter_ext_in. intros [x g] He. f_equal. cbn.
  destruct (Z.eqb_spec g h) as [->|N].
  - apply existsb_exists. exists (x, h). split; auto. cbn. rewrite !Z.eqb_refl. reflexivity.
  - apply Bool.not_true_is_false. intros Q. apply existsb_exists in Q as ([y z] & Hy & Q). cbn in Q.
    assert (z = h /\ x = y) as [-> ->] by lia.
    apply N. eapply NoDup_fst; eauto.
Qed.

Lemma afold_joint : forall h c js a,
  a_joint (fold_left (fun a e => if snd e =? h then afinish a (fst e) c else a) js a) = jf h js (a_joint a).
Proof.
  intros h c js. induction js as [|[jx jh] js IH]; intros a; cbn; auto. rewrite IH. unfold jf. cbn.
  destruct (jh =? h); auto.
Qed.

Definition efold (h : Z) (js : list (oxid * Z)) (s : eng) : eng :=
  fold_left (fun s e => if snd e =? h then e_end s (fst e) (CCommit (fst e)) else s) js s.

Lemma efold_frame : forall h js s,
  e_joint (efold h js s) = jf h js (e_joint s) /\ e_log (efold h js s) = e_log s /\
  e_heap (efold h js s) = e_heap s /\ e_hz (efold h js s) = e_hz s.
Proof.
  intros h js. induction js as [|[jx jh] js IH]; intros s; cbn; auto.
  unfold efold, jf in *. cbn. destruct (jh =? h); auto.
  destruct (IH (e_end s jx (CCommit jx))) as (A & B & C & D).
  rewrite A, B, C, D. auto.
Qed.

Lemma fold_skip : forall A B (f : A -> B -> A) (g : B -> bool) l a,
  (forall a e, g e = false -> f a e = a) -> fold_left f (filter g l) a = fold_left f l a.
Proof.
  intros A B f g l. induction l as [|e l IH]; intros a H; cbn; auto.
  destruct (g e) eqn:E; cbn; auto. rewrite H by auto. auto.
Qed.

Lemma efold_core : forall h js a s, ecore a s -> NoDup (map fst js) ->
  (forall x, In (x, h) js -> e_buf s x = [] /\ e_fin s x = false /\ a_fin a x = false /\
                             e_wrote s x = true /\ e_subs s x = []) ->
  ecore (fold_left (fun a e => if snd e =? h then afinish a (fst e) true else a) js a) (efold h js s).
Proof.
  intros h js. induction js as [|[x g] js IH]; intros a s K ND P; cbn; auto.
  cbn in ND. inv ND. unfold efold. cbn. destruct (Z.eqb_spec g h) as [->|N].
  - destruct (P x) as (P1 & P2 & P3 & P4 & P5); [left; auto|].
    pose proof (end_core _ s x true K P1 P2 P3 (or_introl P5)) as E. rewrite P4 in E. cbn in E.
    apply IH; auto. intros y Hy. destruct (P y) as (Q1 & Q2 & Q3 & Q4 & Q5); [right; auto|].
    assert (y <> x).
    { intros ->. apply H1. apply (in_map fst) in Hy. auto. }
    cbn. rewrite !upd_other by auto. auto.
  - apply IH; auto. intros y Hy. apply P. right. auto.
Qed.

(** A heap abort settles the joined transactions in the log; the primary follows later. *)
Lemma afold_abort : forall h js a s, ecore a s -> e_heap s h = true ->
  (forall x, In (x, h) js -> In (x, h) (e_joint s)) ->
  ecore (fold_left (fun a e => if snd e =? h then afinish a (fst e) false else a) js a) s.
Proof.
  intros h js. induction js as [|[x g] js IH]; intros a s K Hh P; cbn; auto.
  apply IH; auto; [|intros y Hy; apply P; right; auto].
  destruct (Z.eqb_spec g h) as [->|N]; auto.
  assert (J : In (x, h) (e_joint s)) by (apply P; left; auto).
  destruct K as [Hb Hf Haf Hfw Hjp Hjn Hs Ho Hw Hr Hd Hdf].
  destruct (Hjp x h J) as (Bx & Fx & Wr & Sx).
  assert (W : forall y, Wx (afinish a x false) s y = if y =? x then [] else Wx a s y).
  { intros y. unfold Wx. cbn. unfold upd. destruct (Z.eqb_spec y x) as [->|]; auto. rewrite Bx. auto. }
  constructor; auto.
  - intros y Hy. cbn. unfold upd. destruct (Z.eqb_spec y x) as [->|]; auto.
  - intros y. cbn. unfold upd. destruct (Z.eqb_spec y x) as [->|]; eauto.
  - intros y. cbn. unfold upd. destruct (Z.eqb_spec y x) as [->|]; auto.
  - intros y Fy. cbn [afinish a_fin]. unfold upd at 1. rewrite W.
    destruct (Z.eqb_spec y x) as [->|]; [discriminate|]. auto.
  - intros y k. rewrite W. destruct (Z.eqb_spec y x) as [->|]; auto.
  - intros y. rewrite W. destruct (Z.eqb_spec y x) as [->|]; auto.
Qed.

Lemma heap_core : forall a s h l, ecore a s -> (forall r x, In r l -> ~ rec_of r x) ->
  ecore a (mkEng (e_hist s) (e_own s) (e_fin s) (e_wrote s) (e_subs s) (e_next s) (e_min s) (e_buf s)
             (e_log s ++ l) (e_joint s) (upd (e_heap s) h true) (e_hz s)).
Proof.
  intros a s h l [Hb Hf Haf Hfw Hjp Hjn Hs Ho Hw Hr Hd Hdf] HL.
  constructor; auto.
  - intros y Hy. destruct (Haf y Hy) as [?|(g & P & Q)]; auto. right. exists g. split; auto.
    cbn. unfold upd. destruct (g =? h); auto.
  - intros r x Hin Hro. cbn in Hin. apply in_app_or in Hin as [Hin|Hin]; [eapply Hr; eauto|].
    exfalso. eapply HL; eauto.
Qed.

Lemma heap_inv : forall s h c, einv s -> einv (estep s (OHeap h c)).
Proof.
  intros s h c H. cbn. destruct (e_heap s h) eqn:Hh; auto.
  set (a := arun ainit (e_log s)).
  set (s1 := mkEng (e_hist s) (e_own s) (e_fin s) (e_wrote s) (e_subs s) (e_next s) (e_min s) (e_buf s)
               (e_log s ++ [LHeap h c]) (e_joint s) (upd (e_heap s) h true) (e_hz s)).
  assert (K1 : ecore a s1).
  { apply heap_core; [apply H|]. intros r x [<-|[]] Q. exact Q. }
  assert (ND : NoDup (map fst (e_joint s))) by apply (i_core _ H).
  assert (WF : wfl ainit (e_log s ++ [LHeap h c])).
  { apply wfl_app. split; [apply H|]. cbn. auto. }
  assert (FS : fold_left (fun a e => if snd e =? h then afinish a (fst e) c else a) (a_joint a) a =
               fold_left (fun a e => if snd e =? h then afinish a (fst e) c else a) (e_joint s) a).
  { unfold a at 1. rewrite (i_joint _ H). apply fold_skip. intros b [y g] E. cbn in *.
    destruct (Z.eqb_spec g h) as [->|]; auto. rewrite Hh in E. discriminate. }
  assert (HK : forall b t f, ecore b t -> ecore (mkAst (a_w b) (a_fin b) (a_done b) (a_joint b) f) t).
  { intros b t f [Hb Hf Haf Hfw Hjp Hjn Hs Ho Hw Hr Hd Hdf]. constructor; auto. }
  assert (JA : a_joint (fold_left (fun a e => if snd e =? h then afinish a (fst e) c else a) (a_joint a) a) =
               filter (fun e => negb (upd (e_heap s) h true (snd e))) (e_joint s)).
  { rewrite FS, afold_joint. unfold a. rewrite (i_joint _ H).
    rewrite jf_filter, filter_filter. apply filter_ext_in. intros [y g] He. cbn [fst snd].
    unfold upd. destruct (Z.eqb_spec g h) as [->|N].
    - rewrite Hh. cbn. apply negb_false_iff. apply existsb_exists. exists (y, h). split; auto. cbn.
      rewrite !Z.eqb_refl. reflexivity.
    - replace (existsb _ _) with false; [apply andb_true_r|]. symmetry. apply Bool.not_true_is_false.
      intros Q. apply existsb_exists in Q as ([z u] & Hz & Q). cbn in Q.
      assert (u = h /\ y = z) as [-> ->] by lia. apply N. eapply NoDup_fst; eauto. }
  assert (HA : forall g, a_hd (astep a (LHeap h c)) g = upd (e_heap s) h true g).
  { intros g. cbn. unfold upd. destruct (g =? h); auto.
    destruct (fold_fin h c (a_joint a) a) as (_ & _ & _ & _ & _ & F). rewrite F. apply H. }
  destruct c.
  - fold (efold h (e_joint s) s1).
    destruct (efold_frame h (e_joint s) s1) as (F1 & F2 & F3 & F4).
    constructor; rewrite ?F1, ?F2, ?F3; cbn [s1 e_log e_joint e_heap]; rewrite ?arun_snoc; fold a; auto.
    + cbn [astep]. apply HK. rewrite FS. apply efold_core; auto.
      intros x Hx. destruct (i_jprop _ _ (i_core _ H) x h Hx) as (P1 & P2 & P3 & P4).
      repeat split; auto. destruct (a_fin a x) eqn:Q; auto.
      destruct (i_afin _ _ (i_core _ H) x Q) as [R|(g & R1 & R2)]; [congruence|].
      rewrite (NoDup_fst _ _ _ _ ND R1 Hx) in R2. congruence.
    + cbn [astep a_joint]. rewrite JA, jf_self by auto. rewrite filter_filter.
      apply filter_ext. intros [y g]. cbn [snd]. unfold upd. destruct (g =? h); auto.
  - constructor; cbn [s1 e_log e_joint e_heap]; rewrite ?arun_snoc; fold a; auto.
    cbn [astep]. apply HK. rewrite FS. apply (afold_abort h (e_joint s)); auto. cbn. apply upd_same.
Qed.

Lemma hz_mono : forall s o, e_hz (estep s o) = false -> e_hz s = false.
Proof.
  intros s o. destruct o as [x k v|x|x|x|x|x|x|x h|h c]; cbn.
  - destruct (e_fin s x || joined s x); auto.
    destruct (match e_own s k with Some y => y =? x | None => true end); auto.
  - destruct (e_fin s x || joined s x); auto.
  - destruct (e_fin s x || joined s x); auto. destruct (e_subs s x); auto.
  - destruct (e_fin s x || joined s x); auto. destruct (e_subs s x); auto. cbn.
    intros Q. apply orb_false_iff in Q. tauto.
  - auto.
  - destruct (e_fin s x || joined s x); auto. destruct (e_subs s x); auto.
    destruct (e_wrote s x); auto.
  - destruct (e_fin s x || _); auto. destruct (e_wrote s x); auto.
  - destruct (e_fin s x || joined s x || negb (e_wrote s x) || e_heap s h); auto. destruct (e_subs s x); auto.
  - destruct (e_heap s h); auto. destruct c; auto.
    set (s1 := mkEng (e_hist s) (e_own s) (e_fin s) (e_wrote s) (e_subs s) (e_next s) (e_min s) (e_buf s)
         (e_log s ++ [LHeap h true]) (e_joint s) (upd (e_heap s) h true) (e_hz s)).
    fold (efold h (e_joint s) s1). destruct (efold_frame h (e_joint s) s1) as (_ & _ & _ & ->). auto.
Qed.

Lemma step_inv : forall s o, einv s -> e_hz (estep s o) = false -> einv (estep s o).
Proof.
  intros s o H Z. destruct o.
  - apply write_inv; auto.
  - apply save_inv; auto.
  - apply release_inv; auto.
  - apply back_inv; auto.
  - apply flush_inv; auto.
  - apply commit_inv; auto.
  - apply abort_inv; auto.
  - apply joint_inv; auto.
  - apply heap_inv; auto.
Qed.

Lemma erun_inv : forall ops, e_hz (erun ops) = false -> einv (erun ops).
Proof.
  intros ops. unfold erun. rewrite <- (rev_involutive ops). induction (rev ops) as [|o l IH]; cbn.
  - intros _. apply einv_init.
  - rewrite fold_left_app. cbn. intros Q. apply step_inv; auto. apply IH. eapply hz_mono; eauto.
Qed.

(** ** Recovery of any prefix *)
Lemma serial_filter : forall (D : oxid -> bool) l db,
  serial D l db = serial (fun _ => true) (filter (fun t => D (fst t)) l) db.
Proof.
  intros D l. unfold serial. induction l as [|t l IH]; intros db; cbn; auto.
  destruct (D (fst t)); cbn; auto.
Qed.

Theorem recovery_correct : forall ops p q db0 ord k,
  e_hz (erun ops) = false -> e_log (erun ops) = p ++ q ->
  incl (r_known (replay (rinit db0) p)) ord ->
  r_stuck (replay (rinit db0) p) = false /\
  contents (recovery_finish (replay (rinit db0) p) ord) k =
  serial (durable p) (c_done (crun (e_hist (erun ops)))) db0 k.
Proof.
  intros ops p q db0 ord k HZ EL HI. pose proof (erun_inv ops HZ) as H.
  pose proof (i_wf _ H) as WF. rewrite EL in WF.
  assert (WP : wfl ainit p) by (apply wfl_app in WF; tauto).
  pose proof (sim_run db0 p ainit (rinit db0) (sim_init db0) WP) as S.
  split; [apply S|].
  rewrite (sim_contents _ _ _ _ _ S HI). rewrite (serial_filter (durable p)).
  rewrite <- (done_prefix p q WF), <- EL, (i_done _ _ (i_core _ H)).
  rewrite filter_filter. f_equal. apply filter_ext_in. intros t Ht.
  destruct (durable p (fst t)) eqn:D; [|apply andb_false_r]. rewrite andb_true_r.
  apply durable_inv in D as [D|(h & D & _)].
  - eapply (i_rec _ _ (i_core _ H) (LCommit (fst t))); [rewrite EL; apply in_or_app; auto|reflexivity].
  - eapply (i_rec _ _ (i_core _ H) (LJoint (fst t) h)); [rewrite EL; apply in_or_app; auto|reflexivity].
Qed.

(** ** Restart from a checkpoint *)
Record csim (s t : rst) : Prop := {
  cs_rows : forall k, r_rows t k = r_rows s k;
  cs_undo : forall x, r_undo s x = r_undo t x ++ r_ck t x;
  cs_ck : forall x, r_ck s x = [];
  cs_st : r_st t = r_st s;
  cs_known : r_known t = r_known s;
  cs_joint : r_joint t = r_joint s;
  cs_stuck : r_stuck t = r_stuck s
}.

Lemma pop_items_ext : forall x us f g k, (forall k, f k = g k) -> pop_items x us f k = pop_items x us g k.
Proof. intros. rewrite !pop_items_at. rewrite H. reflexivity. Qed.

Lemma cs_touch : forall s t x, csim s t -> csim (touch s x) (touch t x).
Proof.
  intros s t x H. unfold touch. rewrite (cs_st _ _ H). destruct (r_st s x =? 0); auto.
  destruct H as [A B C D E F G].
  constructor; cbn; auto. congruence.
Qed.

Lemma cs_finish : forall s t x c, csim s t -> csim (finish_oxid s x c) (finish_oxid t x c).
Proof.
  intros s t x c [A B C D E F G]. constructor; cbn; auto; try congruence.
  - intros k. destruct c; auto. rewrite C, B. cbn. unfold pop_items at 3. rewrite fold_left_app.
    apply pop_items_ext. intros k'. apply pop_items_ext. auto.
  - intros y. unfold upd. destruct (y =? x); auto.
  - intros y. unfold upd. destruct (y =? x); auto.
Qed.

(** A savepoint or a rollback to one by a transaction that has a checkpoint stack. *)
Definition sp_of (x : oxid) (r : lrec) : bool :=
  match r with LSave y _ => y =? x | LRb y _ => y =? x | _ => false end.

Lemma touch_frame : forall s x, r_rows (touch s x) = r_rows s /\ r_undo (touch s x) = r_undo s /\
  r_ck (touch s x) = r_ck s.
Proof. intros. unfold touch. destruct (r_st s x =? 0); auto. Qed.

Lemma cs_step : forall s t r, csim s t ->
  (forall x, sp_of x r = true -> r_ck t x = []) ->
  csim (rstep s r) (rstep t r).
Proof.
  intros s t r H Hsp. unfold rstep. rewrite (cs_stuck _ _ H). destruct (r_stuck s); auto.
  destruct r as [x k v|x p|x p|x|x|x h|h c]; cbv zeta.
  - pose proof (cs_touch _ _ x H) as T. destruct T as [A B C D E F G].
    rewrite D. destruct (r_st (touch s x) x =? 2); [constructor; auto|].
    replace (conflicts (touch t x) x (r_rows (touch t x) k)) with
            (conflicts (touch s x) x (r_rows (touch s x) k)).
    2:{ rewrite A. unfold conflicts, in_progress. destruct (r_rows (touch s x) k) as [|[o w] l]; auto.
        rewrite D. auto. }
    destruct (conflicts (touch s x) x (r_rows (touch s x) k)); constructor; cbn; auto.
    + intros k'. rewrite A. unfold upd. destruct (k' =? k); auto.
    + intros y. unfold upd. destruct (Z.eqb_spec y x) as [->|]; auto. rewrite B. reflexivity.
  - pose proof (cs_touch _ _ x H) as T. destruct T as [A B C D E F G].
    rewrite D. destruct (r_st (touch s x) x =? 2); [constructor; auto|].
    assert (Ck : r_ck (touch t x) x = []).
    { rewrite (proj2 (proj2 (touch_frame t x))). apply Hsp. cbn. apply Z.eqb_refl. }
    unfold ck_rollback. rewrite C, Ck.
    assert (N : (if p =? 0 then [] else match split_head [] p with Some a => a | None => [] end) = @nil uitem)
      by (destruct (p =? 0); reflexivity).
    rewrite N. constructor; cbn; auto.
    + intros y. unfold upd. destruct (Z.eqb_spec y x) as [->|]; auto. rewrite B, Ck. reflexivity.
    + intros y. unfold upd. destruct (y =? x); auto.
  - pose proof (cs_touch _ _ x H) as T. destruct T as [A B C D E F G].
    rewrite D. destruct (r_st (touch s x) x =? 2); [constructor; auto|].
    assert (Ck : r_ck (touch t x) x = []).
    { rewrite (proj2 (proj2 (touch_frame t x))). apply Hsp. cbn. apply Z.eqb_refl. }
    rewrite B, Ck, app_nil_r.
    destruct (if p =? 0 then (r_undo (touch t x) x, []) else split_tail (r_undo (touch t x) x) p) as [u1 u2].
    unfold ck_rollback. cbn [r_ck set_undo set_rows]. rewrite C, Ck.
    assert (N : (if p =? 0 then [] else match split_head [] p with Some a => a | None => [] end) = @nil uitem)
      by (destruct (p =? 0); reflexivity).
    rewrite N. constructor; cbn; auto.
    + intros k. apply pop_items_ext. auto.
    + intros y. unfold upd. destruct (Z.eqb_spec y x) as [->|]; auto. rewrite app_nil_r. auto.
    + intros y. unfold upd. destruct (y =? x); auto.
  - pose proof (cs_touch _ _ x H) as T. rewrite (cs_st _ _ T).
    destruct (r_st (touch s x) x =? 2); auto. apply cs_finish; auto.
  - pose proof (cs_touch _ _ x H) as T. rewrite (cs_st _ _ T).
    destruct (r_st (touch s x) x =? 2); auto. apply cs_finish; auto.
  - pose proof (cs_touch _ _ x H) as T. rewrite (cs_st _ _ T), (cs_joint _ _ T).
    destruct (r_st (touch s x) x =? 2); auto.
    destruct (existsb _ _); destruct T as [A B C D E F G]; constructor; cbn; auto.
  - rewrite (cs_joint _ _ H). generalize (r_joint s) as js. intros js. revert s t H Hsp.
    induction js as [|e js IH]; intros s t H Hsp; cbn; auto.
    apply IH; [|discriminate]. destruct (snd e =? h); auto. apply cs_finish; auto.
Qed.

Lemma ck_shrinks : forall t r x, r_ck t x = [] -> r_ck (rstep t r) x = [].
Proof.
  intros t r x H. unfold rstep. destruct (r_stuck t); auto.
  destruct r as [y k v|y p|y p|y|y|y h|h c]; cbv zeta.
  1-6: assert (T : r_ck (touch t y) x = []) by (rewrite (proj2 (proj2 (touch_frame t y))); auto).
  1-6: destruct (r_st (touch t y) y =? 2); auto.
  - destruct (conflicts _ _ _); auto.
  - cbn. unfold upd. destruct (x =? y); auto.
  - destruct (if p =? 0 then (r_undo (touch t y) y, []) else split_tail (r_undo (touch t y) y) p) as [a b].
    cbn. unfold upd. destruct (x =? y); auto.
  - cbn. unfold upd. destruct (x =? y); auto.
  - cbn. unfold upd. destruct (x =? y); auto.
  - destruct (existsb _ _); auto.
  - generalize (r_joint t) as js. intros js. revert t H. induction js as [|e js IH]; intros t H; cbn; auto.
    apply IH. destruct (snd e =? h); auto. cbn. unfold upd. destruct (x =? fst e); auto.
Qed.

Lemma cs_run : forall l s t, csim s t ->
  (forall x r, In r l -> sp_of x r = true -> r_ck t x = []) ->
  csim (replay s l) (replay t l).
Proof.
  intros l. induction l as [|r l IH]; intros s t H Hsp; cbn; auto.
  apply IH.
  - apply cs_step; auto. intros x. apply Hsp. left. auto.
  - intros x q Hq Hx. apply ck_shrinks. eapply Hsp; eauto. right. auto.
Qed.

Lemma replay_ck_nil : forall l s, (forall x, r_ck s x = []) -> forall x, r_ck (replay s l) x = [].
Proof.
  intros l. induction l as [|r l IH]; intros s H; cbn; auto. apply IH. intros y. apply ck_shrinks; auto.
Qed.

Lemma cs_recovery_finish : forall ord s t, csim s t -> csim (recovery_finish s ord) (recovery_finish t ord).
Proof.
  intros ord. induction ord as [|x ord IH]; intros s t H; cbn; auto.
  apply IH. rewrite (cs_st _ _ H). destruct (r_st s x =? 1); auto. apply cs_finish; auto.
Qed.

Theorem restart_correct : forall db0 l1 l2 ord k,
  r_joint (replay (rinit db0) l1) = [] ->
  (forall x r, In r l2 -> sp_of x r = true -> r_undo (replay (rinit db0) l1) x = []) ->
  contents (recovery_finish (replay (restart (replay (rinit db0) l1)) l2) ord) k =
  contents (recovery_finish (replay (rinit db0) (l1 ++ l2)) ord) k.
Proof.
  intros db0 l1 l2 ord k HJ Hsp. unfold contents.
  replace (replay (rinit db0) (l1 ++ l2)) with (replay (replay (rinit db0) l1) l2)
    by (unfold replay; rewrite fold_left_app; reflexivity).
  f_equal. apply cs_recovery_finish. apply cs_run.
  - constructor; cbn; auto. intros x. apply replay_ck_nil. auto.
  - exact Hsp.
Qed.
