(** Conservation of semaphore posts.  A backend's semaphore is shared with every other
    use of PGPROC->sem, so the latch must give back the posts it absorbs. *)
From Coq Require Import ZArith List Bool Lia.
From Coq Require Import ZifyBool ZifyNat.
From Verif Require Import Base LatchModel LatchProofs LatchQueue.
Import ListNotations.
Open Scope Z_scope.

Definition absorbed (c : pc) : Z :=
  match c with LTry _ x | LHave _ x _ | LWait _ x | QTry _ x | QHave _ x _ | QWait _ x => x | _ => 0 end.
Definition plain_pc (c : pc) : Prop :=
  match c with
  | LTry k x | LHave k x _ | LWait k x => k = KExcl /\ 0 <= x
  | UTry _ rel _ | UHave _ rel _ _ _ _ _ _ | UCas _ rel _ _ _ _ _ | UWk rel _ _ | USem rel _ _ _ => rel = false
  | CTry _ _ | CHave _ _ _ | CWait _ _ | CUp _ _ => False
  | QTry _ x | QHave _ x _ | QWait _ x => 0 <= x
  | _ => True
  end.
Definition due (s : state) (p : Z) : Z := if waiting (pcs s p) && is_up (stat s p) then 1 else 0.
(** Schedules in which nobody uses lock_page_with_tuple or relock_page. *)
Definition plain_op (o : op) : Prop := match o with OLock _ KIns | OUnlock _ _ true => False | _ => True end.

Record SInv (s : state) : Prop := {
  s_pc : forall p, plain_pc (pcs s p);
  s_cons : forall p, Z.of_nat (sem s p) + absorbed (pcs s p) + Z.of_nat (length (owe s p)) = fp s p + due s p;
  s_owe : forall p q, In q (owe s p) <-> exists rel w0 nx, pcs s q = USem rel w0 p nx;
  s_nd : forall p, NoDup (owe s p) }.

Definition is_usem (c : pc) : bool := match c with USem _ _ _ _ => true | _ => false end.
(** A step of [p]: its own semaphore account, everything else unchanged. *)
Lemma S_frame : forall s s' p c, SInv s -> plain_pc c -> (forall q, q <> p -> pcs s' q = pcs s q) -> pcs s' p = c ->
  (is_usem (pcs s p) = false /\ is_usem c = false \/ c = pcs s p) -> owe s' = owe s ->
  (forall x, x <> p -> stat s' x = stat s x /\ sem s' x = sem s x /\ fp s' x = fp s x) ->
  Z.of_nat (sem s' p) + absorbed c - fp s' p - due s' p = Z.of_nat (sem s p) + absorbed (pcs s p) - fp s p - due s p -> SInv s'.
Proof.
  intros s s' p c M Hc PP PPp U Eo Ext Bal. constructor; rewrite ?Eo.
  - intros q. destruct (Z.eq_dec q p); [subst q; rewrite PPp; auto|rewrite PP by auto; apply M].
  - intros q. destruct (Z.eq_dec q p).
    + subst q. pose proof (s_cons _ M p). rewrite PPp. lia.
    + pose proof (s_cons _ M q) as H. unfold due in *. rewrite PP by auto. destruct (Ext q n) as (-> & -> & ->). lia.
  - intros a q. rewrite (s_owe _ M a q). destruct (Z.eq_dec q p).
    + subst q. rewrite PPp. destruct U as [[U1 U2]|U]; [|rewrite U; tauto]. split; intros (? & ? & ? & H); rewrite H in *; discriminate.
    + rewrite PP by auto. tauto.
  - apply M.
Qed.
Lemma S_same : forall s s', SInv s -> pcs s' = pcs s -> stat s' = stat s -> sem s' = sem s -> fp s' = fp s -> owe s' = owe s -> SInv s'.
Proof. intros s s' [A B C D] E1 E2 E3 E4 E5. constructor; unfold due in *; rewrite ?E1, ?E2, ?E3, ?E4, ?E5; auto. Qed.
Ltac oth := let x := fresh in let H := fresh in intros x H; cbn; rewrite ?(upd_other _ _ _ _ _ H); auto.
Ltac sm M E c := eapply (S_frame _ _ _ c M); [cbn; auto | oth | cbn; apply upd_same | left; rewrite E; auto | auto | oth
  | unfold due; cbn; rewrite ?E, ?upd_same; cbn [absorbed waiting andb]; auto ].

Lemma S_step : forall s o, MInv s -> QInv s -> plain_op o -> SInv s -> SInv (step s o).
Proof.
  intros s o MM QQ Ho M. destruct o; cbn.
  - destruct (proc p && is_idle (pcs s p)) eqn:G; auto. apply andb_true_iff in G as [_ G]. destruct (pcs s p) eqn:E; try discriminate.
    destruct k; [|contradiction]. sm M E (LTry KExcl 0). split; auto; lia.
  - destruct (proc p && is_idle (pcs s p) && negb (wl (wd s))) eqn:G; auto. apply andb_true_iff in G as [G _]. apply andb_true_iff in G as [_ G].
    destruct (pcs s p) eqn:E; try discriminate. sm M E (Held (lock_word (wd s) (wu (wd s)))).
  - pose proof (s_pc _ M p) as C. destruct (pcs s p) eqn:E; auto; cbn in C; try contradiction.
    + sm M E (LHave k x (wd s)).
    + sm M E (UHave sp rel w0 (wd s) INV INV INV false).
    + destruct (wn (wd s)); [sm M E (QTry l0 0); lia|sm M E (RCopy l0 (wd s) (fun _ => None) (ver s))].
    + sm M E (QHave l0 x (wd s)).
  - pose proof (s_pc _ M p) as C. destruct (pcs s p) eqn:E; auto; cbn in C; try contradiction.
    + destruct C as [-> C]. unfold link. cbn. destruct (wl w).
      * destruct (word_eqb (wd s) w); [sm M E (LWait KExcl x)|sm M E (LHave KExcl x (wd s))].
      * destruct (word_eqb (wd s) w); [|sm M E (LHave KExcl x (wd s))]. sm M E (Held (lock_word w (wu w))). lia.
    + unfold link. cbn. destruct (wn w).
      * destruct (word_eqb (wd s) w); [sm M E (QWait l0 x)|sm M E (QHave l0 x (wd s))].
      * sm M E (RTry l0). lia.
  - pose proof (s_pc _ M p) as C. destruct (pcs s p) eqn:E; auto; cbn in C; try contradiction. destruct C as [-> _]. auto.
  - pose proof (s_pc _ M p) as C. destruct (sem s p) as [|m] eqn:Em; auto. destruct (pcs s p) eqn:E; auto; cbn in C; try contradiction.
    + destruct C as [-> C]. destruct (is_up (stat s p)) eqn:U; [sm M E (LTry KExcl x)|sm M E (LWait KExcl (x + 1))]; rewrite ?U, ?Em; cbn [andb]; try split; auto; lia.
    + destruct (is_up (stat s p)) eqn:U; [sm M E (QTry l0 x)|sm M E (QWait l0 (x + 1))]; rewrite ?U, ?Em; cbn [andb]; auto; lia.
  - destruct (pcs s p) eqn:E; auto. destruct (wn w); auto. sm M E (Held (W (wl (wd s)) true (wc (wd s)) (wu (wd s)) (wt (wd s)))).
  - destruct (holder_noread s p); auto. apply (S_same s); auto.
  - destruct (pcs s p); auto. destruct (on_list n (nxt s) (wt (wd s)) q && is_ins (stat s q)); auto. apply (S_same s); auto.
  - destruct (pcs s p); auto. apply (S_same s); auto.
  - destruct (holder_noread s p); auto. apply (S_same s); auto.
  - destruct (holder_noread s p); auto. apply (S_same s); auto.
  - destruct (pcs s p) eqn:E; auto. destruct ((l0 <? life s) || (l0 =? life s) && live s); auto. destruct (gen s =? ref_gen l0); [apply (S_same s); auto|].
    sm M E (UTry false false w).
  - destruct (pcs s p) eqn:E; auto. destruct rel; [contradiction|]. sm M E (UTry sp false w).
  - pose proof (s_pc _ M p) as C. destruct (pcs s p) eqn:E; auto. cbn in C. destruct (walk n (stat s) (ins s) sp ex pt (nxt s) (wt w) INV (wt w) wk INV INV) as [r|]; auto.
    destruct (patch ex pt pp r) as [[[nx nt] wk'] ex']. sm M E (UCas sp rel w0 w wk' ex' nt).
  - pose proof (s_pc _ M p) as C. destruct (pcs s p) eqn:E; auto. cbn in C. destruct (word_eqb (wd s) w).
    + assert (SInv (set_pc (set_wd s (unlock_word w nt)) p (UWk rel w0 wk))) by (sm M E (UWk rel w0 wk)). destruct (wn w); auto. apply (S_same _ _ H); auto.
    + sm M E (UHave sp rel w0 (wd s) wk (wt w) nt ex).
  - (* OWake *)
    pose proof (s_pc _ M p) as C. destruct (pcs s p) eqn:E; auto. cbn in C. subst rel. destruct (Z.eqb_spec h INV) as [Ei|Ei]; [sm M E Idle|].
    destruct QQ as (N & R & P & Q). pose proof (q_priv _ _ _ _ Q p) as SV. rewrite E in SV. cbn in SV.
    destruct (P p) as [|y T] eqn:EP; [cbn in SV; contradiction|]. cbn in SV. destruct SV as [-> _].
    pose proof (q_mem _ _ _ _ Q y ltac:(right; exists p; rewrite EP; cbn; auto)) as Wy. destruct (wstat_waiting _ _ Wy) as [W1 W2].
    assert (yp : y <> p) by (intro; subst y; rewrite E in W1; discriminate).
    assert (PP : forall q, q <> p -> upd (pcs s) p (USem false w0 y (nxt s y)) q = pcs s q) by (intros; apply upd_other; auto).
    constructor; cbn.
    + intros q. destruct (Z.eq_dec q p); [subst q; rewrite upd_same; cbn; auto|rewrite PP by auto; apply M].
    + intros q. pose proof (s_cons _ M q) as H. unfold due in *. cbn. destruct (Z.eq_dec q p).
      * subst q. rewrite upd_same, (upd_other _ (owe s)) by auto. rewrite E in H. cbn in *. lia.
      * rewrite PP by auto. destruct (Z.eq_dec q y).
        -- subst q. rewrite !upd_same, W1. rewrite W1 in H. replace (is_up (stat s y)) with false in H by (destruct (stat s y); auto; congruence). cbn in *. lia.
        -- rewrite !upd_other by auto. lia.
    + intros a q. destruct (Z.eq_dec a y).
      * subst a. rewrite upd_same. cbn. rewrite (s_owe _ M y q). destruct (Z.eq_dec q p); [subst q; rewrite upd_same; split; eauto 6|]. rewrite PP by auto.
        split; [intros [F|F]; auto; congruence|auto].
      * rewrite (upd_other _ (owe s)) by auto. rewrite (s_owe _ M a q). destruct (Z.eq_dec q p); [subst q; rewrite upd_same, E|rewrite PP by auto; tauto].
        split; intros (? & ? & ? & F); inv F; congruence.
    + intros a. unfold upd. destruct (Z.eqb_spec a y); [|apply M]. constructor; [|apply M]. intros F. apply (s_owe _ M y p) in F.
      destruct F as (? & ? & ? & F). congruence.
  - (* OUSem *)
    pose proof (s_pc _ M p) as C. destruct (pcs s p) eqn:E; auto. cbn in C. subst rel.
    assert (I : In p (owe s h)) by (apply (s_owe _ M); eauto).
    assert (PP : forall q, q <> p -> upd (pcs s) p (UWk false w0 nx) q = pcs s q) by (intros; apply upd_other; auto).
    assert (RL : forall l, NoDup l -> In p l -> Datatypes.S (length (remove Z.eq_dec p l)) = length l).
    { induction l; cbn; [contradiction|]. intros A B. inv A. destruct (Z.eq_dec p a).
      - subst a. rewrite notin_remove; auto.
      - cbn. rewrite IHl; auto. destruct B; congruence. }
    constructor; cbn.
    + intros q. destruct (Z.eq_dec q p); [subst q; rewrite upd_same; cbn; auto|rewrite PP by auto; apply M].
    + intros q. pose proof (s_cons _ M q) as H. unfold due in *. cbn.
      assert (A : absorbed (upd (pcs s) p (UWk false w0 nx) q) = absorbed (pcs s q) /\ waiting (upd (pcs s) p (UWk false w0 nx) q) = waiting (pcs s q)).
      { destruct (Z.eq_dec q p); [subst q; rewrite upd_same, E; auto|rewrite PP; auto]. }
      destruct A as [-> ->]. destruct (Z.eq_dec q h).
      * subst q. rewrite !upd_same. specialize (RL _ (s_nd _ M h) I). lia.
      * rewrite !upd_other by auto. lia.
    + intros a q. destruct (Z.eq_dec a h).
      * subst a. rewrite upd_same. destruct (Z.eq_dec q p).
        -- subst q. rewrite upd_same. split; [intros F; exfalso; eapply remove_In; eauto|intros (? & ? & ? & F); discriminate].
        -- rewrite PP by auto. rewrite <- (s_owe _ M h q). split; [intros F; apply in_remove in F; tauto|intros F; apply in_in_remove; auto].
      * rewrite (upd_other _ (owe s)) by auto. rewrite (s_owe _ M a q). destruct (Z.eq_dec q p); [subst q; rewrite upd_same, E|rewrite PP by auto; tauto].
        split; intros (? & ? & ? & F); inv F; congruence.
    + intros a. unfold upd. destruct (a =? h); [|apply M]. pose proof (s_nd _ M h) as ND. clear - ND. induction (owe s h); cbn; auto.
      inv ND. destruct (Z.eq_dec p a); auto. constructor; auto. intros F. apply in_remove in F. tauto.
  - destruct (proc p && is_idle (pcs s p) && (0 <=? l0) && ((l0 <? life s) || (l0 =? life s) && live s)) eqn:G; auto.
    destruct (pcs s p) eqn:E; try (cbn in G; rewrite andb_false_r in G; discriminate). sm M E (RTry l0).
  - destruct (pcs s p) eqn:E; auto. sm M E (RCopy l0 w (upd img i (Some (data s i))) v0).
  - destruct (pcs s p) eqn:E; auto. destruct (negb (wc w =? wc (wd s)) || wn (wd s)); [sm M E (QTry l0 0); lia|sm M E (RGen l0 w img v0)].
  - destruct (pcs s p) eqn:E; auto. destruct (gen s =? ref_gen l0); sm M E Idle.
  - destruct (live s); auto. apply (S_same s); auto.
  - apply (S_same s); auto.
  - destruct (pcs s p) eqn:E; cbn; auto. eapply (S_frame s _ p Idle M); cbn; auto; rewrite ?E; auto; [oth|]. unfold due. cbn. rewrite E. auto.
  - eapply (S_frame s _ p (pcs s p) M); cbn; auto; [apply M|oth|]. unfold due. cbn. rewrite !upd_same. lia.
  - destruct (sem s p) eqn:Em; auto. destruct (pcs s p) eqn:E; cbn; auto. eapply (S_frame s _ p (pcs s p) M); cbn; auto; [apply M|oth|].
    unfold due. cbn. rewrite !upd_same, Em. lia.
Qed.
Lemma S_init : SInv init.
Proof. constructor; cbn; intros; auto; [|constructor]. split; [contradiction|intros (? & ? & ? & H); discriminate]. Qed.
Lemma S_run : forall ops, Forall plain_op ops -> SInv (run step init ops).
Proof.
  intros ops. induction ops using rev_ind; intros H; [apply S_init|]. apply Forall_app in H as [H1 H2]. inv H2.
  rewrite run_app. cbn. apply S_step; auto; apply Q_run.
Qed.
