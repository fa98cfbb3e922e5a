(** Schedules without the checkpoint-time flush in which every in-place update is of a
    record that must exist: no hazard ever occurs. *)
From Coq Require Import ZArith List Bool Lia.
From Coq Require Import ZifyBool ZifyNat.
From Verif Require Import Base UndoReadModel UndoReadSpec UndoReadProofs.
Import ListNotations.
Open Scope Z_scope.

Definition wrng (c : wpc) : option (Z * Z * bool) :=
  match c with
  | WIdle => None
  | WRead l z _ me | WEven l z _ me _ | WChk l z _ me _ | WMem l z _ me _ _ | WMark l z _ me _ | WFree l z _ me _ | WLow l z _ me _ | WWr l z _ me _ _ => Some (l, z, me)
  end.
Definition mok (c : wpc) : Prop := match c with WLow l z _ _ m | WWr l z _ _ m _ => m <= l + z | _ => True end.

Section Calm.
Variables (PS NP n : Z).
Hypothesis HS : 0 < PS.
Hypothesis HN : 0 < NP.

Notation step := (step PS NP n).
Notation slot := (slot PS NP).
Notation rp := (rp PS NP).
Notation C := (C PS NP).
Notation Inv := (Inv PS NP n).

Record J (s : st) : Prop := {
  j_fl : fl s = FIdle;
  j_haz : haz s = [];
  j_ws : forall p l z me, wrng (ws s p) = Some (l, z, me) -> me = true /\ forall x, l <= x < l + z -> ini s x = true;
  j_m : forall p, mok (ws s p);
  j_c : forall q, cache s q <> None -> PS * q < dr s;
  j_d : forall q, PS * q < dr s < PS * q + PS -> cdirty s q = true -> bit s (rp (PS * q)) = true;
  j_b : forall x, ini s x = true -> dr s < PS * (x / PS) + PS -> bit s (rp x) = true
}.

Lemma init_J : forall l, J (init l).
Proof. intros l. constructor; cbn; auto; try (intros; discriminate). congruence. Qed.

Lemma rp_page : forall x, rp x = rp (PS * (x / PS)).
Proof. intros x. rewrite !(rp_eq PS NP HS HN). rewrite (Z.mul_comm PS), Z.div_mul by lia. auto. Qed.

(** Bits may only be set, locations only become initialized together with their bits,
    the drained frontier only moves forward. *)
Lemma J_gen : forall s s', J s -> fl s' = fl s -> haz s' = haz s ->
  (forall p l z me, wrng (ws s' p) = Some (l, z, me) -> wrng (ws s p) = Some (l, z, me)) ->
  (forall p, mok (ws s p) -> mok (ws s' p)) ->
  cache s' = cache s -> (forall r, bit s r = true -> bit s' r = true) -> (forall x, ini s x = true -> ini s' x = true) ->
  (forall x, ini s' x = true -> ini s x = true \/ bit s' (rp x) = true) -> dr s <= dr s' -> J s'.
Proof.
  intros s s' H A B D M E F G I K. destruct H as [J1 J2 J3 JM J4 J5 J6]. constructor; try congruence; auto.
  - intros p l z me X. apply D in X. destruct (J3 _ _ _ _ X) as [Y Y']. split; auto.
  - intros q. rewrite E. intros X. specialize (J4 q X). lia.
  - intros q Hq. unfold cdirty. rewrite E. intros X. apply F. apply J5; auto. split; [|lia].
    apply J4. destruct (cache s q); congruence.
  - intros x Hx Hd. destruct (I x Hx); auto. apply F. apply J6; auto. lia.
Qed.

Lemma J_step : forall s o, Inv s -> J s -> no_flush o -> must_exist o -> J (step s o).
Proof.
  intros s o H HJ NF ME. pose proof (j_fl s HJ) as Ef. pose proof (i_w _ _ _ s H) as W. pose proof (dr_ge PS NP n s H) as Hd.
  destruct o; cbn in NF, ME; try contradiction.
  - cbn. destruct (_ && _); auto. apply (J_gen s); auto; reflexivity || (unfold dr; cbn; lia).
  - cbn. destruct (_ && _); auto. apply (J_gen s); auto; reflexivity || (unfold dr; cbn; lia).
  - cbn. destruct (find _ _) as [[[l' z] []]|]; auto. apply (J_gen s); auto; try reflexivity; try (unfold dr; cbn; lia); cbn.
    + intros. apply mark_mono. auto.
    + intros x Hx. apply orb_true_iff in Hx. destruct Hx as [Hx|Hx]; auto. right. unfold inr in Hx. apply mark_true; auto. lia.
  - cbn. destruct (existsb _ _); auto. apply (J_gen s); auto; try reflexivity; unfold dr; cbn; lia.
  - cbn. apply (J_gen s); auto; try reflexivity; unfold dr; cbn; lia.
  - destruct me; [|contradiction]. cbn. destruct (ws s p) eqn:Ew; auto. destruct (_ && _) eqn:Eg; auto.
    apply andb_true_iff in Eg. destruct Eg as [Eg _]. apply andb_true_iff in Eg. destruct Eg as [Eg _].
    apply andb_true_iff in Eg. destruct Eg as [Eg Ei]. 
    destruct HJ as [J1 J2 J3 JM J4 J5 J6]. constructor; auto; cbn; [|intros p'; destruct (Z.eq_dec p' p) as [->|N]; [rewrite upd_same; cbn; auto|rewrite upd_other by auto; apply JM]]. intros p' l' z' me'. destruct (Z.eq_dec p' p) as [->|N].
    + rewrite upd_same. intros X. inversion X; subst. split; auto. intros x Hx.
      unfold allini in Ei. rewrite forallb_forall in Ei. specialize (Ei (Z.to_nat (x - l'))).
      replace (l' + Z.of_nat (Z.to_nat (x - l'))) with x in Ei by lia. apply Ei. apply in_seq. lia.
    + rewrite upd_other by auto. apply J3.
  - (* writers *)
    assert (SET : forall s0 c, J s0 -> ws s0 = ws s -> (forall l z me, wrng c = Some (l, z, me) -> wrng (ws s p) = Some (l, z, me)) -> mok c -> J (set_ws s0 p c)).
    { intros s0 c H0 E0 Hc Hm. apply (J_gen s0); auto; try reflexivity; try (unfold dr; cbn; lia); cbn; [|intros p' HM; destruct (Z.eq_dec p' p) as [->|N]; [rewrite upd_same; auto|rewrite upd_other by auto; auto]]. intros p' l z me.
      rewrite E0. destruct (Z.eq_dec p' p) as [->|N]; [rewrite upd_same; auto|rewrite upd_other by auto; auto]. }
    cbn. unfold wstep. pose proof (i_ws _ _ _ s H p) as K. pose proof (j_ws s HJ p) as Q. pose proof (j_m s HJ p) as M. destruct (ws s p) eqn:Ew; cbn in K, M; auto.
    + destruct (l + z <=? wip s); apply SET; auto; try (rewrite Ew; auto; fail); cbn; try lia.
    + destruct (lk s); auto; apply SET; auto; try (rewrite Ew; auto; fail); cbn; try lia.
    + destruct (m <? wip s); apply SET; auto; try (rewrite Ew; auto; fail); cbn; try lia.
    + destruct (Z.ltb_spec k (l + z)).
      * destruct (Q _ _ _ eq_refl) as [-> _]. replace ((k <? wr s) && (k + C <? lastu s)) with false by lia. cbn.
        apply SET; auto; try (rewrite Ew; auto; fail); cbn; try lia. apply (J_gen s); auto; try reflexivity; unfold dr; cbn; lia.
      * apply SET; auto; try (rewrite Ew; auto; fail); cbn; try lia.
    + apply SET; auto; try (rewrite Ew; auto; fail); cbn; try lia. apply (J_gen s); auto; try reflexivity; try (unfold dr; cbn; lia). cbn. intros. apply mark_mono. auto.
    + destruct (m =? l); apply SET; auto; cbn; auto; try discriminate; try lia.
    + destruct (_ || _); auto; apply SET; auto; try (rewrite Ew; auto; fail); cbn; try lia.
    + destruct (Z.ltb_spec c m); [|apply SET; auto; cbn; discriminate].
      unfold mid. rewrite Ef. cbn. apply SET; auto; try (rewrite Ew; auto; fail); cbn; try lia.
      destruct (Q _ _ _ eq_refl) as [_ QI]. pose proof (div_bounds PS HS c).
      assert (HB : dr s < PS * (c / PS) + PS -> bit s (rp (PS * (c / PS))) = true).
      { intros X. rewrite <- rp_page. apply (j_b s HJ); auto. apply QI. lia. }
      destruct HJ as [J1 J2 J3 JM J4 J5 J6]. constructor; cbn; auto; unfold dr; cbn; fold (dr s).
      * intros q. destruct (Z.eq_dec q (c / PS)) as [->|N]; [lia|]. rewrite upd_other by auto. apply J4.
      * intros q Hq. unfold cdirty. cbn. destruct (Z.eq_dec q (c / PS)) as [->|N].
        -- intros _. apply HB. lia.
        -- rewrite upd_other by auto. apply J5. auto.
  - cbn. destruct (rd s p); auto. destruct (_ && _); auto. apply (J_gen s); auto; try reflexivity; unfold dr; cbn; lia.
  - cbn. unfold rstep. destruct (rd s p); auto; repeat match goal with |- J (if ?b then _ else _) => destruct b | |- J (match ?b with Some _ => _ | None => _ end) => destruct b as [[? ?]|] end; auto;
      apply (J_gen s); auto; try reflexivity; unfold dr; cbn; lia.
  - cbn. destruct (cache s q) eqn:Ec; auto. destruct (Z.ltb_spec (q * PS) (wr s)); auto. unfold mid2. rewrite Ef. cbn.
    destruct HJ as [J1 J2 J3 JM J4 J5 J6]. constructor; cbn; auto; unfold dr; cbn; fold (dr s).
    + intros q'. destruct (Z.eq_dec q' q) as [->|N]; [lia|]. rewrite upd_other by auto. apply J4.
    + intros q' Hq. unfold cdirty. cbn. destruct (Z.eq_dec q' q) as [->|N]; [rewrite upd_same; discriminate|].
      rewrite upd_other by auto. apply J5. auto.
  - cbn. destruct (cache s q) as [[d b]|] eqn:Ec; auto.
    assert (X : forall s0, J s0 -> J (set_cache s0 q None)).
    { intros s0 [J1 J2 J3 JM J4 J5 J6]. constructor; cbn; auto; unfold dr; cbn; fold (dr s0).
      + intros q'. destruct (Z.eq_dec q' q) as [->|N]; [rewrite upd_same; congruence|]. rewrite upd_other by auto. apply J4.
      + intros q' Hq. unfold cdirty. cbn. destruct (Z.eq_dec q' q) as [->|N]; [rewrite upd_same; discriminate|].
        rewrite upd_other by auto. apply J5. auto. }
    apply X. destruct b; auto. apply (J_gen s); auto; try reflexivity; unfold dr; cbn; lia.
  - cbn. destruct (lk s) eqn:El; auto. destruct (_ && _); auto. apply (J_gen s); auto; try reflexivity; unfold dr; cbn; rewrite El; lia.
  - cbn. destruct (lk s) eqn:El; auto. destruct (_ <? _); auto. apply (J_gen s); auto; try reflexivity; unfold dr; cbn; rewrite El; lia.
  - cbn. destruct (lk s) eqn:El; auto. destruct ((i =? n) && floor_ok n s g) eqn:Eg; auto. 
    assert (DR : dr s = wr s) by (unfold dr; rewrite El; auto).
    destruct (_ || _).
    + destruct (Z.ltb_spec (wip s) g); apply (J_gen s); auto; try reflexivity; rewrite DR; unfold dr; cbn; lia.
    + destruct (_ <? _); apply (J_gen s); auto; try reflexivity; rewrite DR; unfold dr; cbn; lia.
  - cbn. pose proof (i_lk _ _ _ s H) as L. destruct (lk s) eqn:El; auto. destruct (_ <? _); [destruct (res_ok _ _); auto|]; apply (J_gen s); auto; try reflexivity; unfold dr; cbn; rewrite El; lia.
  - cbn. destruct (lk s) as [| | | |t c] eqn:El; auto. destruct (Z.ltb_spec c t) as [Hct|]; auto.
    set (q := c / PS). rewrite down_eq by auto. fold q. set (e := Z.min (PS * q + PS) t).
    set (full := (c =? PS * q) && (e =? PS * q + PS)).
    pose proof (div_bounds PS HS c) as Hc. fold q in Hc.
    assert (DR : dr s = c) by (unfold dr; rewrite El; auto). pose proof (i_lk _ _ _ s H) as L. rewrite El in L. destruct L as (L1 & L2 & L3).
    assert (RQ : rp c = rp (PS * q)) by apply rp_page.
    assert (NH : negb (bit s (rp c)) && cdirty s q = false).
    { destruct (bit s (rp c)) eqn:Eb; auto. cbn. destruct (cdirty s q) eqn:Ed; auto.
      assert (Z1 : PS * q < dr s) by (apply (j_c s HJ); unfold cdirty in Ed; destruct (cache s q); congruence).
      pose proof (j_d s HJ q ltac:(lia) Ed) as X. congruence. }
    rewrite NH. cbn. destruct HJ as [J1 J2 J3 JM J4 J5 J6]. constructor; cbn; auto; unfold dr; cbn.
    + intros q'. destruct (Z.eq_dec q' q) as [->|N]; [lia|]. rewrite upd_other by auto. intros X. specialize (J4 q' X). lia.
    + intros q' Hq. unfold cdirty. cbn. destruct (Z.eq_dec q' q) as [->|N].
      * rewrite upd_same. rewrite RQ. intros X. replace full with false by lia. auto.
      * exfalso. apply N. assert (q < q' + 1 /\ q' < q + 1) by (split; nia). lia.
    + intros x Hx Hlt. pose proof (div_bounds PS HS x). pose proof (i_ini _ _ _ s H x Hx).
      assert (B0 : bit s (rp x) = true) by (apply J6; auto; lia).
      destruct full eqn:Efull; auto. subst full. rewrite upd_other; auto. intros E.
      destruct (rp_far PS NP HS HN x c E) as [X|[X|X]]; fold q in X.
      * rewrite X in *. lia.
      * pose proof (C_pos PS NP HS HN). nia.
      * lia.
  - cbn. pose proof (i_lk _ _ _ s H) as L. destruct (lk s) as [| | | |t c] eqn:El; auto. destruct (Z.leb_spec t c) as [Hct|]; auto. apply (J_gen s); auto; try reflexivity; unfold dr; cbn; rewrite El; lia.
  - cbn. pose proof (i_lk _ _ _ s H) as L. destruct (lk s) eqn:El; auto; destruct (floor_ok n s g); auto; try (apply (J_gen s); auto; try reflexivity; unfold dr; cbn; rewrite El; lia).
    destruct (Z.ltb_spec (wr s) g); apply (J_gen s); auto; try reflexivity; unfold dr; cbn; rewrite El; lia.
  - cbn. rewrite Ef. auto.
  - cbn. rewrite Ef. auto.
  - cbn. rewrite Ef. auto.
  - cbn. rewrite Ef. auto.
  - cbn. rewrite Ef. auto.
  - cbn. rewrite Ef. auto.
  - cbn. rewrite Ef. auto.
Qed.

Lemma calm_inv : forall l ops, Forall no_flush ops -> Forall must_exist ops ->
  let s := run step (init l) ops in Inv s /\ J s.
Proof.
  intros l ops A B. cbn. assert (X : Inv (init l) /\ J (init l)) by (split; [apply init_inv; auto|apply init_J]).
  revert X. generalize (init l). induction ops as [|o ops IH]; cbn; auto. inversion A; inversion B; subst.
  intros s [I1 I2]. apply IH; auto. pose proof (J_step s o I1 I2 ltac:(auto) ltac:(auto)) as I3. split; auto.
  apply step_inv; auto. apply I3.
Qed.
End Calm.
