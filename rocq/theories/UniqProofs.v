From Coq Require Import ZArith List Bool Lia.
From Verif Require Import Base UniqModel UniqSpec.
Import ListNotations.
Open Scope Z_scope.

Definition tlive (h : list ver) (r : Z) : Prop := exists v, top r h = Some v /\ v_del v = false.
Definition uniq (h : list ver) : Prop := forall r1 r2, tlive h r1 -> tlive h r2 -> r1 = r2.
Definition Good (h : list ver) : Prop :=
  forall a b, h = a ++ b -> uniq b /\ (forall v t, b = v :: t -> v_del v = true -> tlive t (v_row v)).
Definition Shape (st : Z -> status) (h : list ver) : Prop :=
  exists y p q, h = p ++ q /\ (forall v, In v p -> v_by v = y) /\ (forall v, In v q -> finished st (v_by v) = true).
Definition Sorted (st : Z -> status) (h : list ver) : Prop :=
  forall a v b w c cv cw, h = a ++ v :: b ++ w :: c -> st (v_by v) = Done cv -> st (v_by w) = Done cw -> cw <= cv.

Lemma top_cons : forall r v h, top r (v :: h) = if v_row v =? r then Some v else top r h.
Proof. reflexivity. Qed.
Lemma top_in : forall r h v, top r h = Some v -> In v h /\ v_row v = r.
Proof. intros r h v H. apply find_some in H as [A B]. apply Z.eqb_eq in B. auto. Qed.
Lemma top_none : forall r h, top r h = None -> forall v, In v h -> v_row v <> r.
Proof. intros r h H v Hv E. apply find_none with (x := v) in H; [|exact Hv]. cbn in H. apply Z.eqb_neq in H. contradiction. Qed.
Lemma top_ex : forall h v, In v h -> exists w, top (v_row v) h = Some w.
Proof.
  intros h v Hv. destruct (top (v_row v) h) as [w|] eqn:E; [eexists; reflexivity|]. exfalso. exact (top_none _ _ E v Hv eq_refl).
Qed.

(** Suffixes keep every part. *)
Lemma Good_suffix : forall a b, Good (a ++ b) -> Good b.
Proof. intros a b G a' b' E. apply (G (a ++ a') b'). rewrite E, app_assoc. reflexivity. Qed.
Lemma Shape_suffix : forall st a b, Shape st (a ++ b) -> Shape st b.
Proof.
  intros st a b (y & p & q & E & P & Q). revert b p E P. induction a as [|v a IH]; intros b p E P.
  - exists y, p, q. auto.
  - destruct p as [|w p].
    + exists y, [], b. cbn. split; [reflexivity|]. split; [intros ? []|]. intros v0 H0. apply Q. cbn in E. rewrite <- E. right. apply in_or_app. right. exact H0.
    + cbn in E. injection E as _ E. eapply IH; [exact E | intros v0 H0; apply P; right; exact H0].
Qed.
Lemma Sorted_suffix : forall st a b, Sorted st (a ++ b) -> Sorted st b.
Proof.
  intros st a b S a' v b' w c cv cw E. apply (S (a ++ a') v b' w c). rewrite E, <- app_assoc. reflexivity.
Qed.

Lemma undo1_suffix : forall st x h, Shape st h -> finished st x = false -> exists a, h = a ++ undo1 x h.
Proof.
  intros st x h (y & p & q & E & P & Q) F.
  assert (N : forall l, (forall v, In v l -> v_by v <> x) -> undo1 x l = l).
  { induction l as [|v l IH]; intros H; cbn; [reflexivity|]. replace (v_by v =? x) with false.
    - rewrite IH; [reflexivity | intros; apply H; right; assumption].
    - symmetry. apply Z.eqb_neq. apply H. left. reflexivity. }
  assert (QN : forall v, In v q -> v_by v <> x) by (intros v Hv EE; specialize (Q v Hv); rewrite EE in Q; congruence).
  destruct p as [|v p].
  - exists []. cbn in *. subst. rewrite N; auto.
  - destruct (Z.eq_dec y x) as [-> | NE].
    + exists [v]. subst h. cbn. rewrite (P v (or_introl eq_refl)), Z.eqb_refl. reflexivity.
    + exists []. rewrite N; [reflexivity|]. intros w Hw. subst h. apply in_app_or in Hw as [Hw | Hw]; [rewrite (P w Hw); exact NE | auto].
Qed.
Lemma filter_suffix : forall st x h, Shape st h -> finished st x = false -> exists a, h = a ++ filter (fun v => negb (v_by v =? x)) h.
Proof.
  intros st x h (y & p & q & -> & P & Q) F. rewrite filter_app.
  assert (filter (fun v => negb (v_by v =? x)) q = q) as ->.
  { clear P. induction q as [|v q IH]; cbn; [reflexivity|]. replace (v_by v =? x) with false.
    - cbn. f_equal. apply IH. intros; apply Q; right; assumption.
    - symmetry. apply Z.eqb_neq. intros E. specialize (Q v (or_introl eq_refl)). rewrite E in Q. congruence. }
  destruct (Z.eq_dec y x) as [-> | NE].
  - exists p. replace (filter _ p) with (@nil ver); [reflexivity|]. symmetry. clear Q. induction p as [|v p IH]; cbn; [reflexivity|].
    rewrite (P v (or_introl eq_refl)), Z.eqb_refl. cbn. apply IH. intros; apply P; right; assumption.
  - exists []. cbn. f_equal. clear Q. induction p as [|v p IH]; cbn; [reflexivity|].
    rewrite (P v (or_introl eq_refl)). replace (y =? x) with false by (symmetry; apply Z.eqb_neq; exact NE). cbn. f_equal. apply IH. intros; apply P; right; assumption.
Qed.
Lemma top_undo : forall x h r, (forall v, top r h = Some v -> v_by v <> x) -> top r (undo1 x h) = top r h.
Proof.
  induction h as [|v h IH]; intros r H; cbn [undo1]; [reflexivity|]. rewrite top_cons in H.
  destruct (v_by v =? x) eqn:E.
  - apply Z.eqb_eq in E. rewrite top_cons. destruct (v_row v =? r); [exfalso; exact (H v eq_refl E) | reflexivity].
  - rewrite !top_cons. destruct (v_row v =? r); [reflexivity | apply IH; exact H].
Qed.
Lemma top_filter : forall x h r, (forall v, top r h = Some v -> v_by v <> x) -> top r (filter (fun v => negb (v_by v =? x)) h) = top r h.
Proof.
  induction h as [|v h IH]; intros r H; cbn [filter]; [reflexivity|]. rewrite top_cons in H.
  destruct (v_by v =? x) eqn:E; cbn [negb].
  - apply Z.eqb_eq in E. rewrite top_cons. destruct (v_row v =? r) eqn:R; [exfalso; exact (H v eq_refl E) | apply IH; exact H].
  - rewrite !top_cons. destruct (v_row v =? r); [reflexivity | apply IH; exact H].
Qed.

(** * Adding a version *)
Lemma check1_none : forall st x h r, check1 st x h r = VNone ->
  top r h = None \/ exists v, top r h = Some v /\ v_del v = true /\ (v_by v = x \/ finished st (v_by v) = true).
Proof.
  unfold check1. intros st x h r H. destruct (top r h) as [v|]; [|left; reflexivity]. right. exists v.
  destruct (v_by v =? x) eqn:E; cbn in H.
  - apply Z.eqb_eq in E. destruct (v_del v) eqn:Dl; [auto | discriminate].
  - destruct (finished st (v_by v)) eqn:F; [|discriminate]. destruct (v_del v) eqn:Dl; [auto | discriminate].
Qed.
Lemma check1_found : forall st x h r, check1 st x h r = VFound ->
  exists v, top r h = Some v /\ v_del v = false /\ (v_by v = x \/ finished st (v_by v) = true).
Proof.
  unfold check1. intros st x h r H. destruct (top r h) as [v|]; [|discriminate]. exists v.
  destruct (v_by v =? x) eqn:E; cbn in H.
  - apply Z.eqb_eq in E. destruct (v_del v) eqn:Dl; [discriminate | auto].
  - destruct (finished st (v_by v)) eqn:F; [|discriminate]. destruct (v_del v) eqn:Dl; [discriminate | auto].
Qed.

Lemma Good_cons : forall v h, Good h -> uniq (v :: h) -> (v_del v = true -> tlive h (v_row v)) -> Good (v :: h).
Proof.
  intros v h G U D a b E. destruct a as [|w a]; cbn in E.
  - subst b. split; [exact U|]. intros v0 t E. inversion E; subst. exact D.
  - inversion E; subst. apply (G a b eq_refl).
Qed.
Lemma Shape_cons : forall st x h v, v_by v = x -> (forall w, In w h -> v_by w = x \/ finished st (v_by w) = true) ->
  Shape st h -> Shape st (v :: h).
Proof.
  intros st x h v Ev A (y & p & q & -> & P & Q).
  destruct p as [|w p].
  - exists x, [v], q. split; [reflexivity|]. split; [intros v0 [<- | []]; exact Ev | exact Q].
  - destruct (A w (or_introl eq_refl)) as [B | B].
    + exists x, (v :: w :: p), q. split; [reflexivity|]. split; [|exact Q].
      rewrite (P w (or_introl eq_refl)) in B. intros v0 [<- | H0]; [exact Ev | rewrite (P v0 H0); exact B].
    + exists x, [v], ((w :: p) ++ q). split; [reflexivity|]. split; [intros v0 [<- | []]; exact Ev|].
      intros v0 H0. apply in_app_or in H0 as [H0 | H0]; [|auto]. rewrite (P v0 H0), <- (P w (or_introl eq_refl)). exact B.
Qed.
Lemma Sorted_cons : forall st h v, finished st (v_by v) = false -> Sorted st h -> Sorted st (v :: h).
Proof.
  intros st h v F S a v0 b w c cv cw E A B. destruct a as [|u a]; cbn in E.
  - inversion E; subst. unfold finished in F. rewrite A in F. discriminate.
  - inversion E; subst. eapply S; [reflexivity | exact A | exact B].
Qed.

Lemma insert_good : forall st x h r, finished st x = false -> Good h -> Shape st h -> (forall r', check1 st x h r' = VNone) ->
  Good (mkV r x false :: h) /\ Shape st (mkV r x false :: h).
Proof.
  intros st x h r F G S C.
  assert (A : forall r' v, top r' h = Some v -> v_del v = true /\ (v_by v = x \/ finished st (v_by v) = true)).
  { intros r' v H. destruct (check1_none st x h r' (C r')) as [N | (v' & N & D)]; [congruence|]. assert (v' = v) by congruence. subst. exact D. }
  split.
  - apply Good_cons; [exact G | | discriminate].
    assert (B : forall r', tlive (mkV r x false :: h) r' -> r' = r).
    { intros r' (v & T & D). rewrite top_cons in T. cbn in T. destruct (r =? r') eqn:E; [apply Z.eqb_eq in E; auto|].
      destruct (A r' v T) as [D' _]. congruence. }
    intros r1 r2 H1 H2. rewrite (B r1 H1), (B r2 H2). reflexivity.
  - apply (Shape_cons st x); [reflexivity | | exact S].
    (* an unfinished writer other than x would be on top of some row *)
    intros w Hw. destruct S as (y & p & q & -> & P & Q). apply in_app_or in Hw as [Hw | Hw]; [|right; auto].
    destruct p as [|v p]; [destruct Hw|].
    assert (T : top (v_row v) ((v :: p) ++ q) = Some v) by (cbn; rewrite Z.eqb_refl; reflexivity).
    destruct (A _ _ T) as [_ [B | B]]; rewrite (P w Hw); rewrite (P v (or_introl eq_refl)) in B; auto.
Qed.

Lemma delete_good : forall st x h r, finished st x = false -> Good h -> Shape st h -> check1 st x h r = VFound ->
  Good (mkV r x true :: h) /\ Shape st (mkV r x true :: h).
Proof.
  intros st x h r F G S C. destruct (check1_found st x h r C) as (v & T & D & O).
  assert (LV : tlive h r) by (exists v; auto).
  split.
  - apply Good_cons; [exact G | | intros _; exact LV].
    assert (B : forall r', tlive (mkV r x true :: h) r' -> tlive h r').
    { intros r' (v' & T' & D'). rewrite top_cons in T'. cbn in T'. destruct (r =? r') eqn:E; [inversion T'; subst; discriminate | exists v'; auto]. }
    intros r1 r2 H1 H2. exact (proj1 (G [] h eq_refl) r1 r2 (B r1 H1) (B r2 H2)).
  - apply (Shape_cons st x); [reflexivity | | exact S].
    intros w Hw. destruct S as (y & p & q & -> & P & Q). apply in_app_or in Hw as [Hw | Hw]; [|right; auto].
    (* the oldest version of the unfinished writer cannot follow a live committed row *)
    destruct (Z.eq_dec y x) as [-> | NE]; [left; auto|].
    destruct (finished st y) eqn:FY; [right; rewrite (P w Hw); exact FY|]. exfalso.
    assert (NP : forall u, In u p -> v_row u <> r).
    { intros u Hu E. assert (TP : exists t, top r p = Some t) by (rewrite <- E; apply top_ex; exact Hu). destruct TP as (t & TP).
      assert (TT : top r (p ++ q) = Some t).
      { clear - TP. induction p as [|a p IH]; [discriminate|]. cbn [app]. rewrite top_cons in *. destruct (v_row a =? r); auto. }
      assert (t = v) by congruence. subst t. destruct (top_in _ _ _ TP) as [I _]. specialize (P v I). destruct O as [O | O]; congruence. }
    assert (TQ : top r q = Some v).
    { clear - T NP. induction p as [|a p IH]; [exact T|]. cbn [app] in T. rewrite top_cons in T.
      replace (v_row a =? r) with false in T; [apply IH; [exact T | intros; apply NP; right; assumption]|].
      symmetry. apply Z.eqb_neq. apply NP. left. reflexivity. }
    destruct (exists_last (l := p)) as (p' & u & E); [intros ->; destruct Hw|].
    assert (NU : v_row u <> r) by (apply NP; rewrite E; apply in_or_app; right; left; reflexivity).
    rewrite E in G. rewrite <- app_assoc in G. cbn in G.
    destruct (G p' (u :: q) eq_refl) as [U1 U2].
    assert (LQ : tlive q r) by (exists v; auto).
    destruct (v_del u) eqn:DU.
    + destruct (G (p' ++ [u]) q) as [U3 _]; [rewrite <- app_assoc; reflexivity|].
      apply NU. apply U3; [exact (U2 u q eq_refl DU) | exact LQ].
    + apply NU. apply U1.
      * exists u. rewrite top_cons, Z.eqb_refl. auto.
      * exists v. rewrite top_cons. replace (v_row u =? r) with false by (symmetry; apply Z.eqb_neq; exact NU). auto.
Qed.

(** * Invariant *)
Definition seen (lo : option Z) (r : Z) : Prop := match lo with None => False | Some a => r < a end.
Definition phase_ok (lockno : Z -> Z) (s : state) (p : Z) : Prop :=
  match s_ph s p with
  | Idle => True
  | Want _ _ | Wait _ _ _ | Refused _ _ _ => exists x, s_cur s p = Some x /\ s_st s x = Running
  | Chk k r lo => s_lock s (lockno k) = Some p /\
      exists x, s_cur s p = Some x /\ s_st s x = Running /\ forall r', seen lo r' -> check1 (s_st s) x (s_hist s k) r' = VNone
  | Ready k r => s_lock s (lockno k) = Some p /\
      exists x, s_cur s p = Some x /\ s_st s x = Running /\ forall r', check1 (s_st s) x (s_hist s k) r' = VNone
  end.
Record Inv (lockno : Z -> Z) (s : state) : Prop := mkInv {
  i_good : forall k, Good (s_hist s k);
  i_shape : forall k, Shape (s_st s) (s_hist s k);
  i_sort : forall k, Sorted (s_st s) (s_hist s k);
  i_csn : forall x c, s_st s x = Done c -> c < s_csn s;
  i_cur : forall p x, s_cur s p = Some x -> s_st s x = Running \/ s_st s x = Aborting;
  i_inj : forall p p' x, s_cur s p = Some x -> s_cur s p' = Some x -> p = p';
  i_next : forall x, s_next s <= x -> s_st s x = Gone;
  i_by : forall k v, In v (s_hist s k) -> s_st s (v_by v) <> Gone;
  i_ph : forall p, phase_ok lockno s p
}.

Lemma fin_run : forall st x, st x = Running \/ st x = Aborting -> finished st x = false.
Proof. intros st x [H | H]; unfold finished; rewrite H; reflexivity. Qed.
Lemma running_some : forall s p x, running s p = Some x -> s_cur s p = Some x /\ s_st s x = Running.
Proof.
  intros s p x H. unfold running in H. destruct (s_cur s p) as [y|]; [|discriminate]. destruct (s_st s y) eqn:E; inversion H; subst; auto.
Qed.

(** The phases of other sessions are kept when the history and the statuses
    change in a way that keeps clean entries clean. *)
Lemma check1_keep : forall st st' x h h' r,
  (forall v, top r h = Some v -> v_del v = true -> v_by v = x \/ finished st (v_by v) = true ->
     top r h' = Some v /\ (v_by v = x \/ finished st' (v_by v) = true)) ->
  (top r h = None -> top r h' = None) ->
  check1 st x h r = VNone -> check1 st' x h' r = VNone.
Proof.
  intros st st' x h h' r A B H. destruct (check1_none _ _ _ _ H) as [N | (v & T & D & O)].
  - unfold check1. rewrite (B N). reflexivity.
  - destruct (A v T D O) as [T' O']. unfold check1. rewrite T', D.
    destruct O' as [-> | ->]; [rewrite Z.eqb_refl | rewrite orb_true_r]; reflexivity.
Qed.

Lemma check_none : forall st x h lo hi, check st x h lo hi = None ->
  forall r, in_range lo hi r = true -> check1 st x h r = VNone.
Proof.
  intros st x h lo hi H r R. unfold check in H.
  destruct (find _ (map v_row h)) eqn:F; [discriminate|].
  destruct (top r h) as [v|] eqn:T.
  - destruct (top_in _ _ _ T) as [I E]. apply find_none with (x := r) in F; [|rewrite <- E; apply in_map; exact I].
    rewrite R in F. cbn in F. destruct (check1 st x h r); [reflexivity | discriminate | discriminate].
  - unfold check1. rewrite T. reflexivity.
Qed.

Ltac phase p :=
  match goal with I : Inv ?l ?s |- _ => let Q := fresh "Q" in pose proof (i_ph l s I p) as Q; unfold phase_ok in Q end.

Section Pres.
  Variable lockno : Z -> Z.

  (** A change of history of one key by a transaction whose session is idle. *)
  Lemma phase_hist : forall s k h' x0 p0, Inv lockno s -> s_ph s p0 = Idle -> s_cur s p0 = Some x0 ->
    (forall x r v, x <> x0 -> top r (s_hist s k) = Some v -> v_del v = true -> v_by v = x \/ finished (s_st s) (v_by v) = true -> top r h' = Some v) ->
    (forall r, top r (s_hist s k) = None -> top r h' = None) ->
    forall p, phase_ok lockno (set_hist s k h') p.
  Proof.
    intros s k h' x0 p0 I PH CU A B p. pose proof (i_ph lockno s I p) as Q. unfold phase_ok in *. unfold set_hist; cbn.
    destruct (s_ph s p) as [|kk r|kk r lo|kk r y|kk r r'|kk r] eqn:E; auto.
    - destruct Q as (L & x & C & R & H). split; [exact L|]. exists x. split; [exact C|]. split; [exact R|].
      intros r' S. specialize (H r' S). unfold upd. destruct (Z.eqb_spec kk k) as [->|]; [|exact H].
      assert (x <> x0) by (intros ->; pose proof (i_inj lockno s I p p0 x0 C CU); congruence).
      eapply check1_keep; [| |exact H]; [|apply B]. intros v T D O. split; [eapply A; eauto | exact O].
    - destruct Q as (L & x & C & R & H). split; [exact L|]. exists x. split; [exact C|]. split; [exact R|].
      intros r'. specialize (H r'). unfold upd. destruct (Z.eqb_spec kk k) as [->|]; [|exact H].
      assert (x <> x0) by (intros ->; pose proof (i_inj lockno s I p p0 x0 C CU); congruence).
      eapply check1_keep; [| |exact H]; [|apply B]. intros v T D O. split; [eapply A; eauto | exact O].
  Qed.

  Lemma Inv_hist : forall s k h', Inv lockno s -> Good h' -> Shape (s_st s) h' -> Sorted (s_st s) h' ->
    (forall v, In v h' -> s_st s (v_by v) <> Gone) ->
    (forall p, phase_ok lockno (set_hist s k h') p) -> Inv lockno (set_hist s k h').
  Proof.
    intros s k h' I G S T B P. destruct I. constructor; unfold set_hist in *; cbn in *; auto.
    - intros kk. unfold upd. destruct (Z.eqb_spec kk k); auto.
    - intros kk. unfold upd. destruct (Z.eqb_spec kk k); auto.
    - intros kk. unfold upd. destruct (Z.eqb_spec kk k); auto.
    - intros kk v. unfold upd. destruct (Z.eqb_spec kk k); eauto.
  Qed.

  (** Changing the phase (and lock) of one session. *)
  Lemma Inv_ph : forall s p f l, Inv lockno s ->
    (forall p' k r, p' <> p -> ((exists lo, s_ph s p' = Chk k r lo) \/ s_ph s p' = Ready k r) -> l (lockno k) = Some p') ->
    phase_ok lockno (mkS (s_hist s) (s_st s) l (upd (s_ph s) p f) (s_cur s) (s_next s) (s_csn s)) p ->
    Inv lockno (mkS (s_hist s) (s_st s) l (upd (s_ph s) p f) (s_cur s) (s_next s) (s_csn s)).
  Proof.
    intros s p f l I L P. destruct I. constructor; cbn in *; auto.
    intros p'. destruct (Z.eq_dec p' p) as [-> | NE]; [exact P|].
    specialize (i_ph0 p'). unfold phase_ok in *; cbn. rewrite upd_other by congruence.
    destruct (s_ph s p') eqn:E; auto; destruct i_ph0 as [_ Q]; (split; [eapply L; eauto | exact Q]).
  Qed.

  Lemma lock_other : forall s p k r, Inv lockno s -> ((exists lo, s_ph s p = Chk k r lo) \/ s_ph s p = Ready k r) -> s_lock s (lockno k) = Some p.
  Proof.
    intros s p k r I H. pose proof (i_ph lockno s I p) as Q. unfold phase_ok in Q. destruct H as [[lo H] | H]; rewrite H in Q; apply Q.
  Qed.
  (** Releasing the lock of one's own key. *)
  Lemma release : forall s p k f, Inv lockno s -> s_lock s (lockno k) = Some p ->
    match f with Chk _ _ _ | Ready _ _ => False | Idle => True | _ => exists x, s_cur s p = Some x /\ s_st s x = Running end ->
    Inv lockno (set_ph (set_lock s (lockno k) None) p f).
  Proof.
    intros s p k f I L F. unfold set_ph, set_lock; cbn. apply Inv_ph; [exact I | |].
    - intros p' k' r' NE H. pose proof (lock_other s p' k' r' I H) as Q. rewrite upd_other; [exact Q|]. intros E. rewrite E in Q. congruence.
    - unfold phase_ok; cbn. rewrite upd_same. destruct f; auto; contradiction.
  Qed.
  Lemma keep_lock : forall s p f, Inv lockno s -> phase_ok lockno (set_ph s p f) p -> Inv lockno (set_ph s p f).
  Proof.
    intros s p f I P. unfold set_ph in *. apply Inv_ph; [exact I | | exact P].
    intros p' k' r' NE H. exact (lock_other s p' k' r' I H).
  Qed.

  (** Changing the status of one transaction of an idle session. *)
  Lemma finished_upd : forall st x t y, finished st y = true -> y <> x -> finished (upd st x t) y = true.
  Proof. intros st x t y H N. unfold finished. rewrite upd_other by exact N. exact H. Qed.

  Lemma Inv_step : forall s o, Inv lockno s -> Inv lockno (step lockno s o).
  Proof.
    intros s o I. destruct o as [p | p k r | p | p hi | p | p | p | p k r | p | p | p k | p]; cbn [step].
    - (* OBegin *)
      destruct (s_cur s p) eqn:C; [exact I|].
      pose proof (i_next lockno s I (s_next s) ltac:(lia)) as GN.
      assert (FE : forall y, s_st s y <> Gone -> upd (s_st s) (s_next s) Running y = s_st s y) by (intros y H; apply upd_other; congruence).
      assert (FF : forall y, finished (s_st s) y = true -> finished (upd (s_st s) (s_next s) Running) y = true).
      { intros y H. apply finished_upd; [exact H|]. intros ->. unfold finished in H. rewrite GN in H. discriminate. }
      constructor; cbn.
      + apply (i_good lockno s I).
      + intros k. destruct (i_shape lockno s I k) as (y & p' & q & E & P & Q). exists y, p', q. auto.
      + intros k a v b w c cv cw E A B. rewrite (FE (v_by v)) in A; [rewrite (FE (v_by w)) in B|]; [eapply (i_sort lockno s I); eauto | |]; apply (i_by lockno s I k); rewrite E; apply in_or_app; right; [right; apply in_or_app; right|]; left; reflexivity.
      + intros x c. unfold upd. destruct (Z.eqb_spec x (s_next s)); [discriminate | apply (i_csn lockno s I)].
      + intros p' x. unfold upd. destruct (Z.eqb_spec p' p); intros H.
        * inversion H. rewrite Z.eqb_refl. auto.
        * destruct (Z.eqb_spec x (s_next s)); [auto | exact (i_cur lockno s I p' x H)].
      + intros p1 p2 x. unfold upd. destruct (Z.eqb_spec p1 p), (Z.eqb_spec p2 p); intros H1 H2; subst; auto.
        * inversion H1; subst. exfalso. destruct (i_cur lockno s I _ _ H2); congruence.
        * inversion H2; subst. exfalso. destruct (i_cur lockno s I _ _ H1); congruence.
        * exact (i_inj lockno s I _ _ _ H1 H2).
      + intros x H. rewrite upd_other by lia. apply (i_next lockno s I). lia.
      + intros k v H. rewrite FE; apply (i_by lockno s I k v H).
      + intros p'. pose proof (i_ph lockno s I p') as Q. unfold phase_ok in *; cbn.
        destruct (Z.eq_dec p' p) as [-> | NE].
        * rewrite upd_same. destruct (s_ph s p); auto; exfalso; decompose [ex and] Q; congruence.
        * rewrite upd_other by exact NE.
          assert (RN : forall x, s_st s x = Running -> upd (s_st s) (s_next s) Running x = Running) by (intros x H; rewrite FE; congruence).
          assert (CK : forall x k r, check1 (s_st s) x (s_hist s k) r = VNone -> check1 (upd (s_st s) (s_next s) Running) x (s_hist s k) r = VNone).
          { intros x k r H. eapply check1_keep; [| |exact H]; [|auto]. intros v T D [O | O]; auto. }
          destruct (s_ph s p') as [|k0 r0|k0 r0 lo0|k0 r0 y0|k0 r0 r1|k0 r0]; auto.
          -- destruct Q as (x & A & B). exists x. auto.
          -- destruct Q as (L & x & A & B & H). split; [exact L|]. exists x. auto.
          -- destruct Q as (x & A & B). exists x. auto.
          -- destruct Q as (x & A & B). exists x. auto.
          -- destruct Q as (L & x & A & B & H). split; [exact L|]. exists x. auto.
    - (* OStart *)
      destruct (s_ph s p) eqn:PH; try exact I. destruct (running s p) as [x|] eqn:R; [|exact I].
      apply keep_lock; [exact I|]. unfold phase_ok, set_ph; cbn. rewrite upd_same. exists x. apply running_some in R. exact R.
    - (* OLock *)
      phase p. destruct (s_ph s p) as [|k r|k r lo|k r y|k r r'|k r] eqn:PH; try exact I. destruct (s_lock s (lockno k)) eqn:L; [exact I|].
      unfold set_ph, set_lock; cbn. apply Inv_ph; [exact I | |].
      + intros p' k' r' NE H. pose proof (lock_other s p' k' r' I H) as Q'. rewrite upd_other; [exact Q'|]. intros E. rewrite E in Q'. congruence.
      + unfold phase_ok; cbn. rewrite upd_same. cbn. split; [apply upd_same|]. destruct Q as (x & A & B). exists x. split; [exact A|]. split; [exact B|]. intros r' [].
    - (* OCheck *)
      phase p. destruct (s_ph s p) as [|k r|k r lo|k r y|k r r'|k r] eqn:PH; try exact I. destruct Q as (L & x & A & B & H). rewrite A.
      destruct (check (s_st s) x (s_hist s k) lo hi) as [[r' vd]|] eqn:CK.
      + destruct vd; apply release; auto; exists x; auto.
      + assert (N : forall r', in_range lo hi r' = true -> check1 (s_st s) x (s_hist s k) r' = VNone) by (apply check_none; exact CK).
        assert (PO : forall b, hi = Some b -> phase_ok lockno (set_ph s p (Chk k r hi)) p).
        { intros b E. unfold phase_ok, set_ph; cbn. rewrite upd_same. split; [exact L|]. exists x. split; [exact A|]. split; [exact B|].
          intros r' S. subst hi. cbn in S. destruct lo as [a|].
          - destruct (Z.ltb_spec r' a) as [Q | Q]; [apply H; exact Q|]. apply N. unfold in_range. apply andb_true_iff. split; [apply Z.leb_le | apply Z.ltb_lt]; lia.
          - apply N. unfold in_range. cbn. apply Z.ltb_lt. exact S. }
        destruct hi as [b|].
        * destruct lo as [a|]; [destruct (a <=? b); [|exact I]|]; (apply keep_lock; [exact I | eapply PO; reflexivity]).
        * apply keep_lock; [exact I|]. unfold phase_ok, set_ph; cbn. rewrite upd_same. split; [exact L|]. exists x. split; [exact A|]. split; [exact B|].
          intros r'. destruct lo as [a|].
          -- destruct (Z.ltb_spec r' a) as [Q | Q]; [apply H; exact Q|]. apply N. unfold in_range. rewrite andb_true_r. apply Z.leb_le. exact Q.
          -- apply N. reflexivity.
    - (* OWake *)
      phase p. destruct (s_ph s p) as [|k r|k r lo|k r y|k r r'|k r] eqn:PH; try exact I.
      destruct (s_st s y); try exact I; (apply keep_lock; [exact I | unfold phase_ok, set_ph; cbn; rewrite upd_same; exact Q]).
    - (* OInsert *)
      phase p. destruct (s_ph s p) as [|k r|k r lo|k r y|k r r'|k r] eqn:PH; try exact I. destruct Q as (L & x & A & B & H). rewrite A.
      destruct (check1 (s_st s) x (s_hist s k) r) eqn:C1; [| apply release; auto; exists x; auto | exact I].
      pose proof (insert_good (s_st s) x (s_hist s k) r (fin_run _ _ (or_introl B)) (i_good _ _ I k) (i_shape _ _ I k) H) as [G S].
      constructor; cbn.
      + intros kk. unfold upd. destruct (Z.eqb_spec kk k); [exact G | apply (i_good _ _ I)].
      + intros kk. unfold upd. destruct (Z.eqb_spec kk k); [exact S | apply (i_shape _ _ I)].
      + intros kk. unfold upd. destruct (Z.eqb_spec kk k); [|apply (i_sort _ _ I)]. apply Sorted_cons; [exact (fin_run _ _ (or_introl B)) | apply (i_sort _ _ I)].
      + apply (i_csn _ _ I).
      + apply (i_cur _ _ I).
      + apply (i_inj _ _ I).
      + apply (i_next _ _ I).
      + intros kk v. unfold upd. destruct (Z.eqb_spec kk k); [|apply (i_by _ _ I)]. intros [<- | Hv]; [cbn; congruence | exact (i_by _ _ I k v Hv)].
      + intros p'. pose proof (i_ph _ _ I p') as Q. unfold phase_ok in *; cbn. destruct (Z.eq_dec p' p) as [-> | NE]; [rewrite upd_same; exact Logic.I|].
        rewrite (upd_other _ (s_ph s)) by congruence.
        destruct (s_ph s p') as [|kk rr|kk rr lo|kk rr y|kk rr r'|kk rr] eqn:PH'; auto; destruct Q as [LL Q].
        * assert (lockno kk <> lockno k) by (intros E; rewrite E in LL; congruence). rewrite upd_other by assumption. rewrite upd_other by congruence. auto.
        * assert (lockno kk <> lockno k) by (intros E; rewrite E in LL; congruence). rewrite upd_other by assumption. rewrite upd_other by congruence. auto.
    - (* OError *)
      phase p. destruct (s_ph s p) as [|k r|k r lo|k r y|k r r'|k r] eqn:PH; try (apply keep_lock; [exact I | unfold phase_ok, set_ph; cbn; rewrite upd_same; exact Logic.I]); (apply release; [exact I | apply Q | exact Logic.I]).
    - (* ODelete *)
      destruct (s_ph s p) eqn:PH; try exact I. destruct (running s p) as [x|] eqn:R; [|exact I]. apply running_some in R as [A B].
      destruct (check1 (s_st s) x (s_hist s k) r) eqn:C1; try exact I.
      destruct (delete_good (s_st s) x (s_hist s k) r (fin_run _ _ (or_introl B)) (i_good _ _ I k) (i_shape _ _ I k) C1) as [G S].
      apply Inv_hist; [exact I | exact G | exact S | | |].
      + apply Sorted_cons; [exact (fin_run _ _ (or_introl B)) | apply (i_sort _ _ I)].
      + intros v [<- | Hv]; [cbn; congruence | exact (i_by _ _ I k v Hv)].
      + destruct (check1_found _ _ _ _ C1) as (v0 & T0 & D0 & O0).
        eapply phase_hist; [exact I | exact PH | exact A | |].
        * intros y r' v N T D O. rewrite top_cons. cbn. destruct (Z.eqb_spec r r') as [<-|]; [congruence | exact T].
        * intros r' T. rewrite top_cons. cbn. destruct (Z.eqb_spec r r') as [<-|]; [congruence | exact T].
    - (* OCommit *)
      destruct (s_ph s p) eqn:PH; try exact I. destruct (running s p) as [x|] eqn:R; [|exact I]. apply running_some in R as [A B].
      assert (FF : forall y, finished (s_st s) y = true -> finished (upd (s_st s) x (Done (s_csn s))) y = true).
      { intros y H. unfold finished, upd. destruct (Z.eqb_spec y x); [reflexivity | exact H]. }
      assert (FR : finished (s_st s) x = false) by (apply fin_run; auto).
      constructor; cbn.
      + apply (i_good _ _ I).
      + intros k. destruct (i_shape _ _ I k) as (y & p' & q & E & P & Q). exists y, p', q. auto.
      + intros k a v b w c cv cw E SA SB. unfold upd in SA, SB.
        destruct (Z.eqb_spec (v_by v) x) as [EV | NV], (Z.eqb_spec (v_by w) x) as [EW | NW].
        * injection SA as <-. injection SB as <-. lia.
        * inversion SA; subst. pose proof (i_csn _ _ I _ _ SB). lia.
        * exfalso. (* v committed, w by x after it *)
          destruct (i_shape _ _ I k) as (y & p' & q & E' & P & Q).
          assert (FV : finished (s_st s) (v_by v) = true) by (unfold finished; rewrite SA; reflexivity).
          assert (S2 : Shape (s_st s) (v :: b ++ w :: c)) by (eapply (Shape_suffix _ a); rewrite <- E; apply (i_shape _ _ I)).
          destruct S2 as (y2 & p2 & q2 & E2 & P2 & Q2).
          assert (Hw : In w (p2 ++ q2)) by (rewrite <- E2; right; apply in_or_app; right; left; reflexivity).
          apply in_app_or in Hw as [Hw | Hw]; [|specialize (Q2 w Hw); rewrite EW in Q2; congruence].
          destruct p2 as [|u p2]; [destruct Hw|]. cbn in E2. inversion E2; subst u.
          rewrite (P2 v (or_introl eq_refl)), <- (P2 w Hw), EW in FV. congruence.
        * eapply (i_sort _ _ I); eauto.
      + intros y c. unfold upd. destruct (Z.eqb_spec y x); intros H; [inversion H; lia|]. pose proof (i_csn _ _ I y c H). lia.
      + intros p' y. unfold upd. destruct (Z.eqb_spec p' p); [discriminate|]. intros H.
        destruct (Z.eqb_spec y x) as [->|]; [exfalso; apply n; exact (i_inj _ _ I _ _ _ H A) | exact (i_cur _ _ I _ _ H)].
      + intros p1 p2 y. unfold upd. destruct (Z.eqb_spec p1 p), (Z.eqb_spec p2 p); try discriminate. apply (i_inj _ _ I).
      + intros y H. pose proof (i_next _ _ I y H). rewrite upd_other; [assumption|]. intros ->. congruence.
      + intros k v H. unfold upd. destruct (Z.eqb_spec (v_by v) x); [discriminate | exact (i_by _ _ I k v H)].
      + intros p'. pose proof (i_ph _ _ I p') as Q. unfold phase_ok in *; cbn.
        destruct (Z.eq_dec p' p) as [-> | NE]; [rewrite PH; exact Logic.I|]. rewrite (upd_other _ (s_cur s)) by congruence.
        assert (RN : forall y, s_cur s p' = Some y -> s_st s y = Running -> upd (s_st s) x (Done (s_csn s)) y = Running).
        { intros y C H. rewrite upd_other; [exact H|]. intros ->. apply NE. exact (i_inj _ _ I _ _ _ C A). }
        assert (CK : forall y k r, check1 (s_st s) y (s_hist s k) r = VNone -> check1 (upd (s_st s) x (Done (s_csn s))) y (s_hist s k) r = VNone).
        { intros y k r H. eapply check1_keep; [| |exact H]; [|auto]. intros v T D [O | O]; auto. }
        destruct (s_ph s p') as [|k0 r0|k0 r0 lo0|k0 r0 y0|k0 r0 r1|k0 r0]; auto.
        * destruct Q as (y & C & E). exists y. auto.
        * destruct Q as (LL & y & C & E & H). split; [exact LL|]. exists y. auto.
        * destruct Q as (y & C & E). exists y. auto.
        * destruct Q as (y & C & E). exists y. auto.
        * destruct Q as (LL & y & C & E & H). split; [exact LL|]. exists y. auto.
    - (* OAbort *)
      destruct (s_ph s p) eqn:PH; try exact I. destruct (running s p) as [x|] eqn:R; [|exact I]. apply running_some in R as [A B].
      assert (FR : finished (s_st s) x = false) by (apply fin_run; auto).
      assert (FF : forall y, finished (s_st s) y = true -> finished (upd (s_st s) x Aborting) y = true).
      { intros y H. apply finished_upd; [exact H|]. intros ->. congruence. }
      constructor; unfold set_st; cbn.
      + apply (i_good _ _ I).
      + intros k. destruct (i_shape _ _ I k) as (y & p' & q & E & P & Q). exists y, p', q. auto.
      + intros k a v b w c cv cw E SA SB. unfold upd in SA, SB.
        destruct (Z.eqb_spec (v_by v) x), (Z.eqb_spec (v_by w) x); try discriminate. eapply (i_sort _ _ I); eauto.
      + intros y c. unfold upd. destruct (Z.eqb_spec y x); [discriminate | apply (i_csn _ _ I)].
      + intros p' y H. unfold upd. destruct (Z.eqb_spec y x); [auto | exact (i_cur _ _ I _ _ H)].
      + apply (i_inj _ _ I).
      + intros y H. pose proof (i_next _ _ I y H). rewrite upd_other; [assumption|]. intros ->. congruence.
      + intros k v H. unfold upd. destruct (Z.eqb_spec (v_by v) x); [discriminate | exact (i_by _ _ I k v H)].
      + intros p'. pose proof (i_ph _ _ I p') as Q. unfold phase_ok in *; cbn.
        destruct (Z.eq_dec p' p) as [-> | NE]; [rewrite PH; exact Logic.I|].
        assert (RN : forall y, s_cur s p' = Some y -> s_st s y = Running -> upd (s_st s) x Aborting y = Running).
        { intros y C H. rewrite upd_other; [exact H|]. intros ->. apply NE. exact (i_inj _ _ I _ _ _ C A). }
        assert (CK : forall y k r, check1 (s_st s) y (s_hist s k) r = VNone -> check1 (upd (s_st s) x Aborting) y (s_hist s k) r = VNone).
        { intros y k r H. eapply check1_keep; [| |exact H]; [|auto]. intros v T D [O | O]; auto. }
        destruct (s_ph s p') as [|k0 r0|k0 r0 lo0|k0 r0 y0|k0 r0 r1|k0 r0]; auto.
        * destruct Q as (y & C & E). exists y. auto.
        * destruct Q as (LL & y & C & E & H). split; [exact LL|]. exists y. auto.
        * destruct Q as (y & C & E). exists y. auto.
        * destruct Q as (y & C & E). exists y. auto.
        * destruct Q as (LL & y & C & E & H). split; [exact LL|]. exists y. auto.
    - (* OUndo *)
      destruct (s_ph s p) eqn:PH; try exact I. destruct (s_cur s p) as [x|] eqn:A; [|exact I].
      assert (FR : finished (s_st s) x = false) by (apply fin_run; exact (i_cur _ _ I _ _ A)).
      destruct (undo1_suffix (s_st s) x (s_hist s k) (i_shape _ _ I k) FR) as (a & E).
      pose proof (i_good _ _ I k) as G. pose proof (i_shape _ _ I k) as S. pose proof (i_sort _ _ I k) as T. rewrite E in G, S, T.
      apply Inv_hist; [exact I | eapply Good_suffix; exact G | eapply Shape_suffix; exact S | eapply Sorted_suffix; exact T | |].
      + intros v Hv. apply (i_by _ _ I k). rewrite E. apply in_or_app. right. exact Hv.
      + assert (ND : forall r v, (forall v', top r (s_hist s k) = Some v' -> v_by v' <> x) -> top r (s_hist s k) = v -> top r (undo1 x (s_hist s k)) = v).
        { intros r v N H. rewrite top_undo; assumption. }
        eapply phase_hist; [exact I | exact PH | exact A | |].
        * intros y r v N TT D O. apply ND; [|exact TT]. intros v' T' EB. assert (v' = v) by congruence. subst v'. rewrite EB in O. destruct O; congruence.
        * intros r TT. apply ND; [|exact TT]. intros v' T'. congruence.
    - (* OAbortEnd *)
      destruct (s_cur s p) as [x|] eqn:A; [|exact I]. destruct (s_st s x) eqn:B; try exact I.
      assert (FR : finished (s_st s) x = false) by (apply fin_run; auto).
      assert (FF : forall y, finished (s_st s) y = true -> finished (upd (s_st s) x Gone) y = true).
      { intros y H. apply finished_upd; [exact H|]. intros ->. congruence. }
      assert (SUF : forall k, exists a, s_hist s k = a ++ filter (fun v => negb (v_by v =? x)) (s_hist s k)) by (intros k; apply (filter_suffix (s_st s)); [apply (i_shape _ _ I) | exact FR]).
      constructor; cbn.
      + intros k. destruct (SUF k) as (a & E). pose proof (i_good _ _ I k) as G. rewrite E in G. eapply Good_suffix; exact G.
      + intros k. destruct (SUF k) as (a & E). pose proof (i_shape _ _ I k) as G. rewrite E in G. apply Shape_suffix in G.
        destruct G as (y & p' & q & E' & P & Q). exists y, p', q. auto.
      + intros k a v b w c cv cw E SA SB. unfold upd in SA, SB.
        destruct (Z.eqb_spec (v_by v) x), (Z.eqb_spec (v_by w) x); try discriminate.
        destruct (SUF k) as (a' & E'). pose proof (i_sort _ _ I k) as G. rewrite E' in G. apply Sorted_suffix in G. eapply G; eauto.
      + intros y c. unfold upd. destruct (Z.eqb_spec y x); [discriminate | apply (i_csn _ _ I)].
      + intros p' y. unfold upd. destruct (Z.eqb_spec p' p); [discriminate|]. intros H.
        destruct (Z.eqb_spec y x) as [->|]; [exfalso; apply n; exact (i_inj _ _ I _ _ _ H A) | exact (i_cur _ _ I _ _ H)].
      + intros p1 p2 y. unfold upd. destruct (Z.eqb_spec p1 p), (Z.eqb_spec p2 p); try discriminate. apply (i_inj _ _ I).
      + intros y H. unfold upd. destruct (Z.eqb_spec y x); [reflexivity | exact (i_next _ _ I y H)].
      + intros k v H. apply filter_In in H as [H N]. apply negb_true_iff, Z.eqb_neq in N. rewrite upd_other by exact N. exact (i_by _ _ I k v H).
      + intros p'. pose proof (i_ph _ _ I p') as Q. unfold phase_ok in *; cbn.
        destruct (Z.eq_dec p' p) as [-> | NE].
        * rewrite upd_same. destruct (s_ph s p); auto; exfalso; decompose [ex and] Q; congruence.
        * rewrite (upd_other _ (s_cur s)) by congruence.
          assert (RN : forall y, s_cur s p' = Some y -> s_st s y = Running -> upd (s_st s) x Gone y = Running).
          { intros y C H. rewrite upd_other; [exact H|]. intros ->. apply NE. exact (i_inj _ _ I _ _ _ C A). }
          assert (CK : forall y k r, s_cur s p' = Some y -> check1 (s_st s) y (s_hist s k) r = VNone ->
                    check1 (upd (s_st s) x Gone) y (filter (fun v => negb (v_by v =? x)) (s_hist s k)) r = VNone).
          { intros y k r C H. eapply check1_keep; [| |exact H].
            - intros v T D O.
              assert (NX : v_by v <> x).
              { intros EB. rewrite EB in O. destruct O as [O | O]; [|congruence]. subst y. apply NE. exact (i_inj _ _ I _ _ _ C A). }
              split; [rewrite top_filter; [exact T|] | destruct O; auto]. intros v' T'. assert (v' = v) by congruence. subst. exact NX.
            - intros T. rewrite top_filter; [exact T|]. intros v' T'. congruence. }
          destruct (s_ph s p') as [|k0 r0|k0 r0 lo0|k0 r0 y0|k0 r0 r1|k0 r0]; auto.
          -- destruct Q as (y & C & E). exists y. auto.
          -- destruct Q as (LL & y & C & E & H). split; [exact LL|]. exists y. auto.
          -- destruct Q as (y & C & E). exists y. auto.
          -- destruct Q as (y & C & E). exists y. auto.
          -- destruct Q as (LL & y & C & E & H). split; [exact LL|]. exists y. auto.
  Qed.

  Lemma Inv_init : Inv lockno init.
  Proof.
    constructor; cbn; try discriminate; auto.
    - intros k a b E. symmetry in E. apply app_eq_nil in E as [-> ->]. split; [intros r1 r2 (v & H & _); discriminate | discriminate].
    - intros k. exists 0, [], []. cbn. split; [reflexivity|]. split; intros v [].
  Qed.
  Lemma Inv_reach : forall s, reachable lockno s -> Inv lockno s.
  Proof. intros s [ops ->]. apply (run_inv _ _ (step lockno) (Inv lockno)); [intros; apply Inv_step; assumption | apply Inv_init]. Qed.
End Pres.

(** * From the invariant to what is seen *)
Lemma live_all : forall see h r, (forall v, In v h -> see v = true) -> live see h r -> tlive h r.
Proof.
  intros see h r A (a & v & b & -> & R & S & D & N). exists v. split; [|exact D].
  assert (forall w, In w a -> v_row w <> r).
  { intros w Hw E. specialize (N w Hw E). rewrite A in N; [discriminate | apply in_or_app; left; exact Hw]. }
  clear - H R. induction a as [|w a IH]; cbn [app]; rewrite top_cons.
  - rewrite R, Z.eqb_refl. reflexivity.
  - replace (v_row w =? r) with false; [apply IH; intros; apply H; right; assumption|]. symmetry. apply Z.eqb_neq. apply H. left. reflexivity.
Qed.
Lemma live_skip : forall see p q r, (forall v, In v p -> see v = false) -> live see (p ++ q) r -> live see q r.
Proof.
  intros see p q r A. induction p as [|u p IH]; [auto|]. intros (a & v & b & E & R & S & D & N). apply IH; [intros; apply A; right; assumption|].
  destruct a as [|w a]; cbn in E; inversion E; subst.
  - rewrite A in S; [discriminate | left; reflexivity].
  - exists a, v, b. split; [assumption|]. split; [reflexivity|]. split; [assumption|]. split; [assumption|]. intros w0 H0. apply N. right. exact H0.
Qed.
Lemma split_unique : forall see h r1 r2, Good h ->
  (exists p q, h = p ++ q /\ (forall v, In v p -> see v = false) /\ (forall v, In v q -> see v = true)) ->
  live see h r1 -> live see h r2 -> r1 = r2.
Proof.
  intros see h r1 r2 G (p & q & -> & P & Q) L1 L2. apply live_skip in L1; [|exact P]. apply live_skip in L2; [|exact P].
  apply (live_all _ _ _ Q) in L1. apply (live_all _ _ _ Q) in L2. exact (proj1 (G p q eq_refl) r1 r2 L1 L2).
Qed.
Lemma seen_by_split : forall st x h, Shape st h -> exists p q, h = p ++ q /\ (forall v, In v p -> seen_by st x v = false) /\ (forall v, In v q -> seen_by st x v = true).
Proof.
  intros st x h (y & p & q & E & P & Q).
  assert (QS : forall v, In v q -> seen_by st x v = true) by (intros v H; specialize (Q v H); unfold seen_by; unfold finished in Q; destruct (st (v_by v)); try discriminate; apply orb_true_r).
  destruct (Z.eq_dec y x) as [-> | NE].
  - exists [], h. split; [reflexivity|]. split; [intros v []|]. intros v H. rewrite E in H. apply in_app_or in H as [H | H]; [|auto].
    unfold seen_by. rewrite (P v H), Z.eqb_refl. reflexivity.
  - destruct (finished st y) eqn:F.
    + exists [], h. split; [reflexivity|]. split; [intros v []|]. intros v H. rewrite E in H. apply in_app_or in H as [H | H]; [|auto].
      unfold seen_by. rewrite (P v H). unfold finished in F. destruct (st y); try discriminate. apply orb_true_r.
    + exists p, q. split; [exact E|]. split; [|exact QS]. intros v H. unfold seen_by. rewrite (P v H).
      replace (y =? x) with false by (symmetry; apply Z.eqb_neq; exact NE). unfold finished in F. destruct (st y); try reflexivity. discriminate.
Qed.
Lemma seen_at_split : forall st n h, Shape st h -> Sorted st h -> exists p q, h = p ++ q /\ (forall v, In v p -> seen_at st n v = false) /\ (forall v, In v q -> seen_at st n v = true).
Proof.
  intros st n h. induction h as [|v h IH]; intros S T.
  - exists [], []. split; [reflexivity|]. split; intros v [].
  - destruct (seen_at st n v) eqn:E.
    + exists [], (v :: h). split; [reflexivity|]. split; [intros w []|]. intros w [<- | Hw]; [exact E|].
      unfold seen_at in *. destruct (st (v_by v)) as [| | |cv] eqn:SV; try discriminate.
      assert (FW : finished st (v_by w) = true).
      { destruct S as (y & p & q & EE & P & Q). destruct p as [|u p].
        - apply Q. cbn in EE. rewrite <- EE. right. exact Hw.
        - cbn in EE. inversion EE; subst u h. apply in_app_or in Hw as [Hw | Hw]; [|auto].
          rewrite (P w (or_intror Hw)), <- (P v (or_introl eq_refl)). unfold finished. rewrite SV. reflexivity. }
      unfold finished in FW. destruct (st (v_by w)) as [| | |cw] eqn:SW; try discriminate.
      apply in_split in Hw as (b & c & ->). pose proof (T [] v b w c cv cw eq_refl SV SW). apply Z.ltb_lt. apply Z.ltb_lt in E. lia.
    + destruct IH as (p & q & -> & P & Q).
      * apply (Shape_suffix st [v]). exact S.
      * apply (Sorted_suffix st [v]). exact T.
      * exists (v :: p), q. split; [reflexivity|]. split; [|exact Q]. intros w [<- | Hw]; auto.
Qed.

Lemma found_live : forall st x h r, check1 st x h r = VFound -> live (seen_by st x) h r.
Proof.
  intros st x h r H. destruct (check1_found _ _ _ _ H) as (v & T & D & O).
  assert (exists a b, h = a ++ v :: b /\ (forall w, In w a -> v_row w <> r)) as (a & b & E & N).
  { clear - T. induction h as [|u h IH]; [discriminate|]. rewrite top_cons in T. destruct (Z.eqb_spec (v_row u) r) as [EQ | NE].
    - inversion T; subst. exists [], h. split; [reflexivity | intros w []].
    - destruct (IH T) as (a & b & -> & N). exists (u :: a), b. split; [reflexivity|]. intros w [<- | Hw]; auto. }
  exists a, v, b. split; [exact E|]. split; [apply (top_in _ _ _ T)|]. split.
  - unfold seen_by. destruct O as [-> | O]; [rewrite Z.eqb_refl; reflexivity|]. unfold finished in O. destruct (st (v_by v)); try discriminate. apply orb_true_r.
  - split; [exact D|]. intros w Hw E'. exfalso. exact (N w Hw E').
Qed.
