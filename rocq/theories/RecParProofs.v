(** Proof of C35. *)
From Coq Require Import ZArith List Bool Lia.
From Coq Require Import ZifyBool ZifyNat.
From Verif Require Import Base RecSpec RecModel RecLemmas RecProofs RecParModel.
Import ListNotations.
Open Scope Z_scope.

Arguments pop_items : simpl never.
Arguments ck_rollback : simpl never.

Section Par.
Variable hash : key -> Z.

Definition keep (w : Z) (u : uitem) : bool :=
  match u with UMod k => hash k =? w | USub _ => true end.

Definition nokeys (w : Z) (us : list uitem) : Prop := forall k, hash k = w -> ~ In (UMod k) us.

Lemma cnt_nokeys : forall w us k, nokeys w us -> hash k = w -> cnt us k = O.
Proof.
  intros w us k H Hk. specialize (H k Hk). induction us as [|u us IH]; cbn; auto.
  destruct u as [k'|p]; [|apply IH; intros Q; apply H; right; auto].
  destruct (Z.eqb_spec k' k) as [->|N]; [exfalso; apply H; left; auto|].
  apply IH. intros Q. apply H. right. auto.
Qed.

Lemma cnt_app : forall a b k, cnt (a ++ b) k = (cnt a k + cnt b k)%nat.
Proof.
  induction a as [|u a IH]; intros; cbn; auto. destruct u as [k'|p]; auto.
  destruct (k' =? k); cbn; auto.
Qed.

Lemma cnt_keep : forall w us k, hash k = w -> cnt (filter (keep w) us) k = cnt us k.
Proof.
  intros w us k Hk. induction us as [|u us IH]; cbn; auto. destruct u as [k'|p]; cbn; auto.
  destruct (Z.eqb_spec (hash k') w) as [E|N]; cbn.
  - destruct (k' =? k); auto.
  - destruct (Z.eqb_spec k' k) as [->|M]; auto. contradiction.
Qed.

Lemma split_tail_app : forall us p a b, split_tail us p = (a, b) -> us = a ++ b.
Proof.
  induction us as [|u us IH]; cbn; intros p a b H; [inv H; auto|].
  destruct u as [k|q].
  - destruct (split_tail us p) as [a1 b1] eqn:E. inv H. cbn. f_equal. eapply IH; eauto.
  - destruct (q =? p); inv H; cbn; auto. rewrite app_nil_r. auto.
Qed.

Lemma split_par : forall w p bot, nokeys w bot -> forall top a b a' b',
  split_tail (top ++ bot) p = (a, b) -> split_tail (filter (keep w) top) p = (a', b') ->
  (forall k, hash k = w -> cnt a k = cnt a' k) /\
  exists top' bot', b = top' ++ bot' /\ b' = filter (keep w) top' /\ nokeys w bot' /\ (top = [] -> top' = []).
Proof.
  intros w p bot HB top. induction top as [|u top IH]; intros a b a' b' E E'.
  - cbn in E, E'. inv E'. apply split_tail_app in E. subst bot. split.
    + intros k Hk. cbn. eapply cnt_nokeys; [|eauto]. intros k' Hk' Q. apply (HB k' Hk'). apply in_or_app. auto.
    + exists [], b. repeat split; auto. intros k' Hk' Q. apply (HB k' Hk'). apply in_or_app. auto.
  - destruct u as [k1|q].
    + cbn in E. destruct (split_tail (top ++ bot) p) as [a1 b1] eqn:E1. inv E.
      cbn [filter keep] in E'. destruct (Z.eqb_spec (hash k1) w) as [Hk1|Hk1].
      * cbn in E'. destruct (split_tail (filter (keep w) top) p) as [a2 b2] eqn:E2. inv E'.
        destruct (IH _ _ _ _ eq_refl eq_refl) as (A & top' & bot' & B & C & D & F). split.
        -- intros k Hk. cbn. rewrite (A k Hk). reflexivity.
        -- exists top', bot'. split; [auto|]; split; [auto|]; split; [auto|discriminate].
      * destruct (IH _ _ _ _ eq_refl E') as (A & top' & bot' & B & C & D & F). split.
        -- intros k Hk. cbn. destruct (Z.eqb_spec k1 k) as [->|N]; auto. contradiction.
        -- exists top', bot'. split; [auto|]; split; [auto|]; split; [auto|discriminate].
    + cbn [filter keep] in E'. cbn in E, E'. destruct (q =? p).
      * inv E. inv E'. split; [auto|]. exists top, bot. split; [auto|]; split; [auto|]; split; [auto|discriminate].
      * inv E. inv E'. split.
        -- intros k Hk. cbn. rewrite cnt_app, cnt_keep by auto.
           rewrite (cnt_nokeys w bot) by auto. lia.
        -- exists [], []. repeat split; auto. intros k _ [].
Qed.

(** ** One worker against serial replay *)
Record rel (w : Z) (ld : lead) (s : rst) (t : wst) (rw : key -> row) : Prop := {
  rl_rows : forall k, hash k = w -> rw k = r_rows s k;
  rl_undo : forall x, exists top bot, r_undo s x = top ++ bot /\ w_undo t x = filter (keep w) top /\
            nokeys w bot /\ (l_used ld x w = false -> top = []);
  rl_used : forall x, l_used ld x w = true -> w_st t x = r_st s x /\ r_st s x <> 0;
  rl_unused : forall x, l_used ld x w = false -> w_st t x = 0;
  rl_fin : forall x, l_fin ld x = true <-> r_st s x = 2;
  rl_st : forall x, r_st s x = 0 \/ r_st s x = 1 \/ r_st s x = 2;
  rl_joint : l_joint ld = r_joint s;
  rl_cache : forall x, l_cache ld w = Some x -> w_cur t = x /\ l_used ld x w = true /\ l_fin ld x = false;
  rl_ck : forall x, r_ck s x = [];
  rl_stuck : r_stuck s = false;
  rl_wstuck : w_stuck t = false
}.

Definition wrun (tr : wst * (key -> row)) (ms : list wmsg) : wst * (key -> row) :=
  fold_left (fun tr m => wstep (fst tr) (snd tr) m) ms tr.

Lemma forget_some : forall ld x w y, forget ld x w = Some y -> l_cache ld w = Some y /\ l_used ld x w = false.
Proof. intros. unfold forget in H. destruct (l_used ld x w); [discriminate|auto]. Qed.

(** A record of an unsettled transaction makes it known. *)
Lemma rel_touch : forall w ld s t rw x, rel w ld s t rw -> l_fin ld x = false ->
  rel w ld (touch s x) t rw /\ r_st (touch s x) x = 1.
Proof.
  intros w ld s t rw x H F.
  assert (N2 : r_st s x <> 2) by (intros Q; apply (rl_fin _ _ _ _ _ H) in Q; congruence).
  unfold touch. destruct (Z.eqb_spec (r_st s x) 0) as [E|E].
  - split; [|cbn; apply upd_same]. destruct H as [A B C D E1 G J K L M N].
    constructor; cbn; auto.
    + intros y Hy. destruct (C y Hy) as [C1 C2]. unfold upd. destruct (Z.eqb_spec y x) as [->|]; auto. contradiction.
    + intros y. rewrite E1. unfold upd. destruct (Z.eqb_spec y x) as [->|]; [|tauto]. lia.
    + intros y. unfold upd. destruct (y =? x); auto.
  - split; auto. destruct (rl_st _ _ _ _ _ H x) as [?|[?|?]]; auto; contradiction.
Qed.

Lemma rel_finish : forall w ld s t rw x c, rel w ld s t rw ->
  let '(t', rw') := wrun (t, rw) (if l_used ld x w then [MFin x c] else []) in
  rel w (l_finish ld x) (finish_oxid s x c) t' rw'.
Proof.
  intros w ld s t rw x c [A B C D E G J K L M N].
  destruct (B x) as (tx & bx & B1 & B2 & B3 & B4).
  destruct (l_used ld x w) eqn:U; cbn.
  - destruct (C x U) as [C1 C2]. unfold wstep. rewrite N.
    assert (St : w_st t x =? 0 = false) by lia.
    unfold w_switch. rewrite St. cbn.
    constructor; cbn; auto.
    + intros k Hk. rewrite L. destruct c; auto. rewrite !pop_items_at; cbn [cnt popn]; rewrite B1, B2, (A k Hk).
      rewrite cnt_app, cnt_keep, (cnt_nokeys w bx) by auto. f_equal. lia.
    + intros y. unfold upd. destruct (y =? x); [|apply B]. exists [], []. repeat split; auto. intros k _ [].
    + intros y Hy. unfold upd. destruct (y =? x); [split; lia|]. auto.
    + intros y Hy. unfold upd. destruct (Z.eqb_spec y x) as [->|]; auto. congruence.
    + intros y. unfold upd. destruct (y =? x); [tauto|]. auto.
    + intros y. unfold upd. destruct (y =? x); auto.
    + rewrite J. reflexivity.
    + intros y Hy. apply forget_some in Hy. rewrite U in Hy. destruct Hy. discriminate.
    + intros y. unfold upd. destruct (y =? x); auto.
  - constructor; cbn; auto.
    + intros k Hk. rewrite L. destruct c; auto. rewrite !pop_items_at; cbn [cnt popn]; rewrite B1, (B4 eq_refl). cbn.
      rewrite (cnt_nokeys w bx) by auto. cbn. auto.
    + intros y. unfold upd. destruct (Z.eqb_spec y x) as [->|]; [|apply B].
      exists [], []. rewrite B2, (B4 eq_refl). repeat split; auto. intros k _ [].
    + intros y Hy. unfold upd. destruct (Z.eqb_spec y x) as [->|]; auto. congruence.
    + intros y. unfold upd. destruct (y =? x); [tauto|]. auto.
    + intros y. unfold upd. destruct (y =? x); auto.
    + rewrite J. reflexivity.
    + intros y Hy. apply forget_some in Hy as [Hy _]. destruct (K y Hy) as (K1 & K2 & K3). repeat split; auto.
      unfold upd. destruct (Z.eqb_spec y x) as [->|]; auto. congruence.
    + intros y. unfold upd. destruct (y =? x); auto.
Qed.

Lemma wrun_app : forall a b tr, wrun tr (a ++ b) = wrun (wrun tr a) b.
Proof. intros. apply fold_left_app. Qed.

Lemma rel_heap : forall w h c js ld s t rw, rel w ld s t rw ->
  let '(t', rw') := wrun (t, rw)
     (flat_map (fun e => if (snd e =? h) && l_used ld (fst e) w then [MFin (fst e) c] else []) js) in
  rel w (fold_left (fun ld e => if snd e =? h then l_finish ld (fst e) else ld) js ld)
        (fold_left (fun s e => if snd e =? h then finish_oxid s (fst e) c else s) js s) t' rw'.
Proof.
  intros w h c js. induction js as [|[x g] js IH]; intros ld s t rw H; cbn [flat_map fold_left fst snd].
  - cbn. auto.
  - rewrite wrun_app. destruct (g =? h) eqn:Eg; cbn [andb].
    + pose proof (rel_finish w ld s t rw x c H) as R.
      destruct (wrun (t, rw) (if l_used ld x w then [MFin x c] else [])) as [t1 rw1].
      apply (IH _ _ _ _ R).
    + cbn [wrun fold_left]. apply IH. auto.
Qed.

Lemma pop_row_ext : forall x us f g k, f k = g k -> pop_items x us f k = pop_items x us g k.
Proof. intros. rewrite !pop_items_at, H. reflexivity. Qed.

Lemma rel_step : forall w ld s t rw r, rel w ld s t rw -> r_stuck (rstep s r) = false ->
  let '(t', rw') := wrun (t, rw) (lsend hash ld r w) in
  rel w (lstep hash ld r) (rstep s r) t' rw'.
Proof.
  intros w ld s t rw r H. unfold rstep. rewrite (rl_stuck _ _ _ _ _ H).
  assert (FT : forall x, l_fin ld x = true -> touch s x = s /\ r_st s x =? 2 = true).
  { intros x F. apply (rl_fin _ _ _ _ _ H) in F. unfold touch. rewrite F. cbn. auto. }
  destruct r as [x k v|x p|x p|x|x|x h|h c]; cbn [lsend lstep]; cbv zeta.
  - (* modification *)
    destruct (l_fin ld x) eqn:F.
    { destruct (FT x F) as [-> ->]. cbn. auto. }
    destruct (rel_touch _ _ _ _ _ x H F) as [T T1]. clear FT.
    set (s1 := touch s x) in *. rewrite T1. cbn [Z.eqb Pos.eqb].
    destruct (conflicts s1 x (r_rows s1 k)) eqn:CF; [cbn; discriminate|]. intros _.
    destruct T as [A B C D E G J K L M N].
    destruct (Z.eqb_spec (hash k) w) as [HK|HK]; cbn [orb negb].
    + subst w.
      set (hit := match l_cache ld (hash k) with Some y => y =? x | None => false end).
      set (t1 := if hit then t else w_switch t x).
      assert (Hcur : w_cur t1 = x).
      { unfold t1, hit. destruct (l_cache ld (hash k)) as [y|] eqn:Cc; auto.
        destruct (Z.eqb_spec y x) as [->|]; auto. apply K; auto. }
      assert (Hst1 : w_st t1 x = 1).
      { unfold t1. destruct hit eqn:Hh.
        - unfold hit in Hh. destruct (l_cache ld (hash k)) as [y|] eqn:Cc; [|discriminate].
          apply Z.eqb_eq in Hh as ->. destruct (K x eq_refl) as (_ & K2 & _). destruct (C x K2). lia.
        - cbn. destruct (l_used ld x (hash k)) eqn:U.
          + destruct (C x U) as [C1 C2]. rewrite (proj2 (Z.eqb_neq _ _)) by lia. lia.
          + rewrite (D x U). cbn. apply upd_same. }
      assert (Hst2 : forall y, y <> x -> w_st t1 y = w_st t y).
      { intros y Hy. unfold t1. destruct hit; auto. cbn. destruct (w_st t x =? 0); auto. apply upd_other; auto. }
      assert (Hun : w_undo t1 = w_undo t) by (unfold t1; destruct hit; auto).
      assert (Hsk : w_stuck t1 = false) by (unfold t1; destruct hit; auto).
      assert (NC : w_conflicts t1 x (rw k) = false).
      { rewrite (A k eq_refl). unfold conflicts, in_progress in CF. unfold w_conflicts.
        destruct (r_rows s1 k) as [|[[y|] q] rr]; auto.
        destruct (Z.eqb_spec y x) as [->|Ny]; [rewrite andb_false_r; auto|]. cbn in *.
        rewrite andb_true_r in *. rewrite Hst2 by auto.
        destruct (l_used ld y (hash k)) eqn:U.
        - rewrite (proj1 (C y U)). auto.
        - rewrite (D y U). auto. }
      assert (WR : wrun (t, rw) (if hit then [MMod None k v] else [MMod (Some x) k v]) =
                   (mkWst x (upd (w_undo t) x (UMod k :: w_undo t x)) (w_st t1) false,
                    upd rw k ((Some x, v) :: rw k))).
      { unfold t1, hit in *. destruct (l_cache ld (hash k)) as [y|] eqn:Cc.
        - destruct (Z.eqb_spec y x) as [->|Ny]; cbn [wrun fold_left fst snd]; unfold wstep; rewrite N.
          + rewrite Hcur, NC. reflexivity.
          + rewrite Hcur, NC, ?Hsk. cbn; rewrite ?N. reflexivity.
        - cbn [wrun fold_left fst snd]; unfold wstep; rewrite N. rewrite Hcur, NC, ?Hsk. cbn; rewrite ?N. reflexivity. }
      fold hit. rewrite WR.
      set (ld' := if hit then ld else mkLead (upd (l_cache ld) (hash k) (Some x))
                   (upd (l_used ld) x (upd (l_used ld x) (hash k) true)) (l_fin ld) (l_joint ld)).
      assert (U1 : l_used ld' x (hash k) = true).
      { unfold ld'. destruct hit eqn:Hh.
        - unfold hit in Hh. destruct (l_cache ld (hash k)) as [y|] eqn:Cc; [|discriminate].
          apply Z.eqb_eq in Hh as ->. apply K; auto.
        - cbn. rewrite upd_same, upd_same. auto. }
      assert (U2 : forall y, y <> x -> l_used ld' y (hash k) = l_used ld y (hash k)).
      { intros y Hy. unfold ld'. destruct hit; auto. cbn. rewrite upd_other; auto. }
      assert (F1 : l_fin ld' = l_fin ld) by (unfold ld'; destruct hit; auto).
      assert (J1 : l_joint ld' = l_joint ld) by (unfold ld'; destruct hit; auto).
      constructor; cbn; rewrite ?F1, ?J1; auto.
      * intros k' Hk'. unfold upd. destruct (k' =? k) eqn:Ek; auto. rewrite (A k); auto.
      * intros y. unfold upd. destruct (Z.eqb_spec y x) as [->|Ny].
        -- destruct (B x) as (top & bot & B1 & B2 & B3 & B4). exists (UMod k :: top), bot.
           rewrite B1, B2. cbn. rewrite Z.eqb_refl. repeat split; auto. congruence.
        -- destruct (B y) as (top & bot & B1 & B2 & B3 & B4). exists top, bot. repeat split; auto.
           rewrite U2; auto.
      * intros y Hy. destruct (Z.eq_dec y x) as [->|Ny]; [lia|]. rewrite Hst2 by auto. rewrite U2 in Hy by auto. auto.
      * intros y Hy. destruct (Z.eq_dec y x) as [->|Ny]; [congruence|]. rewrite Hst2 by auto. rewrite U2 in Hy by auto. auto.
      * intros y Hy. unfold ld' in Hy. destruct hit eqn:Hh.
        -- unfold hit in Hh. rewrite Hy in Hh. apply Z.eqb_eq in Hh as ->. auto.
        -- cbn in Hy. rewrite upd_same in Hy. injection Hy as <-. auto.
    + (* another worker's key *)
      cbn [wrun fold_left].
      set (ld' := if match l_cache ld (hash k) with Some y => y =? x | None => false end then ld
                  else mkLead (upd (l_cache ld) (hash k) (Some x))
                   (upd (l_used ld) x (upd (l_used ld x) (hash k) true)) (l_fin ld) (l_joint ld)).
      assert (U : forall y, l_used ld' y w = l_used ld y w).
      { intros y. unfold ld'. destruct (match l_cache ld (hash k) with Some y => y =? x | None => false end); auto.
        cbn. unfold upd. destruct (Z.eqb_spec y x) as [->|]; auto. destruct (Z.eqb_spec w (hash k)); auto; congruence. }
      assert (F1 : l_fin ld' = l_fin ld) by (unfold ld'; destruct (match l_cache ld (hash k) with Some y => y =? x | None => false end); auto).
      assert (J1 : l_joint ld' = l_joint ld) by (unfold ld'; destruct (match l_cache ld (hash k) with Some y => y =? x | None => false end); auto).
      assert (C1 : l_cache ld' w = l_cache ld w).
      { unfold ld'; destruct (match l_cache ld (hash k) with Some y => y =? x | None => false end); auto.
        cbn. apply upd_other. auto. }
      constructor; cbn; rewrite ?F1, ?J1, ?C1; auto.
      * intros k' Hk'. rewrite upd_other by congruence. auto.
      * intros y. rewrite U. unfold upd. destruct (Z.eqb_spec y x) as [->|Ny]; [|apply B].
        destruct (B x) as (top & bot & B1 & B2 & B3 & B4). rewrite B1.
        destruct (l_used ld x w) eqn:Ux.
        -- exists (UMod k :: top), bot. cbn. destruct (Z.eqb_spec (hash k) w); [contradiction|].
           repeat split; auto. discriminate.
        -- rewrite (B4 eq_refl) in *. exists [], (UMod k :: bot). repeat split; auto.
           intros k' Hk' [Q|Q]; [injection Q as ->; contradiction|]. eapply B3; eauto.
      * intros y. rewrite U. auto.
      * intros y. rewrite U. auto.
      * intros y. rewrite U. auto.
  - (* savepoint *)
    destruct (l_fin ld x) eqn:F.
    { destruct (FT x F) as [-> ->]. cbn. auto. }
    destruct (rel_touch _ _ _ _ _ x H F) as [T T1]. clear FT.
    set (s1 := touch s x) in *. rewrite T1. cbn [Z.eqb Pos.eqb]. intros _.
    destruct T as [A B C D E G J K L M N].
    destruct (ck_rollback_nil s1 x p L) as (E1 & E2 & E3 & E4 & E5 & E6 & E7).
    destruct (B x) as (top & bot & B1 & B2 & B3 & B4).
    destruct (l_used ld x w) eqn:U; cbn [orb negb wrun fold_left fst snd].
    + unfold wstep. rewrite N. destruct (C x U) as [C1 C2].
      assert (St : w_st t x =? 0 = false) by lia.
      unfold w_switch. rewrite St. cbn.
      constructor; cbn; rewrite ?E1, ?E2, ?E4, ?E5, ?E6, ?E7; auto.
      * intros y. unfold upd. destruct (Z.eqb_spec y x) as [->|Ny]; [|apply B].
        exists (USub p :: top), bot. rewrite B1, B2. repeat split; auto. congruence.
      * intros y Hy. apply forget_some in Hy as [_ Hy]. congruence.
    + constructor; cbn; rewrite ?E1, ?E2, ?E4, ?E5, ?E6, ?E7; auto.
      * intros y. unfold upd. destruct (Z.eqb_spec y x) as [->|Ny]; [|apply B].
        rewrite (B4 eq_refl) in *. exists [], (USub p :: bot). rewrite B1. repeat split; auto.
        intros k' Hk' [Q|Q]; [discriminate|]. eapply B3; eauto.
      * intros y Hy. apply forget_some in Hy as [Hy _]. auto.
  - (* rollback to savepoint *)
    destruct (l_fin ld x) eqn:F.
    { destruct (FT x F) as [-> ->]. cbn. auto. }
    destruct (rel_touch _ _ _ _ _ x H F) as [T T1]. clear FT.
    set (s1 := touch s x) in *. rewrite T1. cbn [Z.eqb Pos.eqb]. intros _.
    destruct T as [A B C D E G J K L M N].
    destruct (B x) as (top & bot & B1 & B2 & B3 & B4).
    destruct (if p =? 0 then (r_undo s1 x, []) else split_tail (r_undo s1 x) p) as [a b] eqn:ES.
    destruct (if p =? 0 then (w_undo t x, []) else split_tail (w_undo t x) p) as [a' b'] eqn:EW.
    assert (SP : (forall k, hash k = w -> cnt a k = cnt a' k) /\
                 exists top' bot', b = top' ++ bot' /\ b' = filter (keep w) top' /\ nokeys w bot' /\
                                   (top = [] -> top' = [])).
    { destruct (p =? 0).
      - inv ES. inv EW. split.
        + intros k Hk. rewrite B1, B2, cnt_app, cnt_keep, (cnt_nokeys w bot) by auto. lia.
        + exists [], []. repeat split; auto. intros k _ [].
      - rewrite B1 in ES. rewrite B2 in EW. eapply split_par; eauto. }
    destruct SP as (SC & top' & bot' & S1 & S2 & S3 & S4).
    set (u := set_undo (set_rows s1 (pop_items x a (r_rows s1))) (upd (r_undo s1) x b)).
    destruct (ck_rollback_nil u x p L) as (E1 & E2 & E3 & E4 & E5 & E6 & E7).
    destruct (l_used ld x w) eqn:U; cbn [orb negb wrun fold_left fst snd].
    + unfold wstep. rewrite N. destruct (C x U) as [C1 C2].
      assert (St : w_st t x =? 0 = false) by lia.
      unfold w_switch. rewrite St. cbn [w_undo w_st w_stuck]. rewrite EW.
      constructor; cbn [w_cur w_undo w_st w_stuck]; rewrite ?E1, ?E2, ?E4, ?E5, ?E6, ?E7;
        cbn [u set_undo set_rows r_rows r_undo r_st r_known r_joint r_stuck l_used l_fin l_joint l_cache]; auto.
      * intros k Hk. rewrite !pop_items_at, SC, (A k Hk); auto.
      * intros y. unfold upd. destruct (Z.eqb_spec y x) as [->|Ny]; [|apply B].
        exists top', bot'. repeat split; auto. congruence.
      * intros y Hy. apply forget_some in Hy as [_ Hy]. congruence.
    + constructor; rewrite ?E1, ?E2, ?E4, ?E5, ?E6, ?E7;
        cbn [u set_undo set_rows r_rows r_undo r_st r_known r_joint r_stuck l_used l_fin l_joint l_cache]; auto.
      * intros k Hk. rewrite pop_items_at, SC by auto. rewrite (A k Hk).
        assert (w_undo t x = []) by (rewrite B2, (B4 eq_refl); auto). rewrite H0 in EW.
        destruct (p =? 0); cbn in EW; inv EW; reflexivity.
      * intros y. unfold upd. destruct (Z.eqb_spec y x) as [->|Ny]; [|apply B].
        rewrite (B4 eq_refl) in *. rewrite (S4 eq_refl) in *. exists [], bot'. repeat split; auto.
      * intros y Hy. apply forget_some in Hy as [Hy _]. auto.
  - destruct (l_fin ld x) eqn:F.
    { destruct (FT x F) as [-> ->]. cbn. auto. }
    destruct (rel_touch _ _ _ _ _ x H F) as [T T1]. rewrite T1. cbn [Z.eqb Pos.eqb orb]. intros _.
    pose proof (rel_finish _ _ _ _ _ x true T) as R. destruct (l_used ld x w); exact R.
  - destruct (l_fin ld x) eqn:F.
    { destruct (FT x F) as [-> ->]. cbn. auto. }
    destruct (rel_touch _ _ _ _ _ x H F) as [T T1]. rewrite T1. cbn [Z.eqb Pos.eqb orb]. intros _.
    pose proof (rel_finish _ _ _ _ _ x false T) as R. destruct (l_used ld x w); exact R.
  - destruct (l_fin ld x) eqn:F.
    { destruct (FT x F) as [-> ->]. cbn. auto. }
    destruct (rel_touch _ _ _ _ _ x H F) as [T T1]. rewrite T1. cbn [Z.eqb Pos.eqb]. intros _. cbn [wrun fold_left].
    destruct T as [A B C D E G J K L M N]. rewrite <- J.
    destruct (existsb (fun e => fst e =? x) (l_joint ld)); constructor; cbn; auto.
  - intros _. rewrite <- (rl_joint _ _ _ _ _ H). apply rel_heap. auto.
Qed.

(** ** Streams *)
Fixpoint stream (ld : lead) (l : list lrec) (w : Z) : list wmsg :=
  match l with
  | [] => []
  | r :: t => lsend hash ld r w ++ stream (lstep hash ld r) t w
  end.

Definition lrun (ld : lead) (l : list lrec) : lead := fold_left (lstep hash) l ld.

Lemma stream_app : forall l1 l2 ld w, stream ld (l1 ++ l2) w = stream ld l1 w ++ stream (lrun ld l1) l2 w.
Proof.
  induction l1 as [|r l1 IH]; intros; cbn; auto. rewrite IH, app_assoc. reflexivity.
Qed.

Lemma stuck_stays : forall l s, r_stuck s = true -> r_stuck (replay s l) = true.
Proof.
  induction l as [|r l IH]; intros s H; cbn; auto. apply IH. unfold rstep. rewrite H. auto.
Qed.

Lemma rel_run : forall w l ld s t rw, rel w ld s t rw -> r_stuck (replay s l) = false ->
  let '(t', rw') := wrun (t, rw) (stream ld l w) in
  rel w (lrun ld l) (replay s l) t' rw'.
Proof.
  intros w l. induction l as [|r l IH]; intros ld s t rw H NS; cbn [stream]; [exact H|].
  rewrite wrun_app.
  assert (NS1 : r_stuck (rstep s r) = false).
  { destruct (r_stuck (rstep s r)) eqn:Q; auto. apply (stuck_stays l) in Q. cbn in NS. unfold replay in Q. congruence. }
  pose proof (rel_step w ld s t rw r H NS1) as R.
  destruct (wrun (t, rw) (lsend hash ld r w)) as [t1 rw1]. apply (IH _ _ _ _ R NS).
Qed.

Lemma rel_init : forall w db0, rel w linit (rinit db0) winit (fun k => base_row (db0 k)).
Proof.
  intros. constructor; cbn; auto; try discriminate.
  - intros x. exists [], []. repeat split; auto. intros k _ [].
  - intros x. split; discriminate.
Qed.

(** ** Any schedule *)
Definition wgood (w : Z) (t : wst) : Prop := forall x k, In (UMod k) (w_undo t x) -> hash k = w.
Definition mgood (w : Z) (m : wmsg) : Prop := match m with MMod _ k _ => hash k = w | _ => True end.

Lemma split_in : forall us p a b u, split_tail us p = (a, b) -> (In u a \/ In u b) -> In u us.
Proof. intros. apply split_tail_app in H. subst. apply in_or_app. auto. Qed.

Lemma pop_foreign : forall w x us rows k, (forall k', In (UMod k') us -> hash k' = w) -> hash k <> w ->
  pop_items x us rows k = rows k.
Proof.
  intros. rewrite pop_items_at. replace (cnt us k) with O; auto. symmetry.
  induction us as [|u us IH]; cbn; auto. destruct u as [k'|p]; [|apply IH; intros; apply H; right; auto].
  destruct (Z.eqb_spec k' k) as [->|]; [exfalso; apply H0, H; left; auto|].
  apply IH. intros. apply H. right. auto.
Qed.

Lemma wstep_local : forall w t f g m, wgood w t -> mgood w m -> (forall k, hash k = w -> f k = g k) ->
  fst (wstep t f m) = fst (wstep t g m) /\
  (forall k, hash k = w -> snd (wstep t f m) k = snd (wstep t g m) k) /\
  (forall k, hash k <> w -> snd (wstep t f m) k = f k) /\
  wgood w (fst (wstep t f m)).
Proof.
  intros w t f g m G MG E. unfold wstep. destruct (w_stuck t); [cbn; auto|].
  destruct m as [ox k v|x p|x p|x c]; cbv zeta.
  - set (t1 := match ox with Some x => w_switch t x | None => t end).
    cbn in MG. rewrite (E k MG). destruct (w_conflicts t1 (w_cur t1) (g k)); cbn.
    + repeat split; auto. intros x k'. unfold t1. destruct ox; cbn; apply G.
    + repeat split; auto.
      * intros k' Hk'. unfold upd. destruct (k' =? k); auto.
      * intros k' Hk'. rewrite upd_other by congruence. auto.
      * intros x k'. cbn. unfold upd. assert (U : w_undo t1 = w_undo t) by (unfold t1; destruct ox; auto).
        rewrite U. destruct (x =? w_cur t1); [|apply G]. intros [Q|Q]; [congruence|]. eapply G; eauto.
  - cbn. repeat split; auto. intros y k'. unfold upd. cbn. destruct (y =? x); [|apply G].
    intros [Q|Q]; [discriminate|]. eapply G; eauto.
  - cbn [w_switch w_undo].
    destruct (if p =? 0 then (w_undo t x, []) else split_tail (w_undo t x) p) as [a b] eqn:ES.
    assert (SI : forall u, In u a \/ In u b -> In u (w_undo t x)).
    { intros u Hu. destruct (p =? 0); [inv ES; destruct Hu as [?|[]]; auto|]. eapply split_in; eauto. }
    cbn. repeat split; auto.
    + intros k Hk. apply pop_row_ext. auto.
    + intros k Hk. apply (pop_foreign w); auto. intros k' Hk'. eapply G. apply SI. left. eauto.
    + intros y k'. unfold upd. cbn. destruct (y =? x); [|apply G]. intros Q. eapply G. apply SI. eauto.
  - cbn. repeat split; auto.
    + intros k Hk. destruct c; auto. apply pop_row_ext. auto.
    + intros k Hk. destruct c; auto. apply (pop_foreign w); auto. intros k' Hk'. eapply G; eauto.
    + intros y k'. unfold upd. cbn. destruct (y =? x); [intros []|apply G].
Qed.

Lemma lsend_good : forall ld r w, Forall (mgood w) (lsend hash ld r w).
Proof.
  intros ld r w. destruct r as [x k v|x p|x p|x|x|x h|h c]; cbn.
  - destruct (l_fin ld x); cbn; auto. destruct (Z.eqb_spec (hash k) w); cbn; auto.
    destruct (match l_cache ld w with Some y => y =? x | None => false end); repeat constructor; auto.
  - destruct (l_fin ld x || negb (l_used ld x w)); repeat constructor.
  - destruct (l_fin ld x || negb (l_used ld x w)); repeat constructor.
  - destruct (l_fin ld x || negb (l_used ld x w)); repeat constructor.
  - destruct (l_fin ld x || negb (l_used ld x w)); repeat constructor.
  - constructor.
  - apply Forall_flat_map. apply Forall_forall. intros e _.
    destruct ((snd e =? h) && l_used ld (fst e) w); repeat constructor.
Qed.

Section Sched.
Variable db0 : key -> option Z.
Variable l : list lrec.

Definition wrun0 (d : list wmsg) : wst * (key -> row) := wrun (winit, fun k => base_row (db0 k)) d.

Record pinv (s : pst) : Prop := {
  pi_pre : exists pre, l = pre ++ p_log s /\ p_lead s = lrun linit pre /\
    forall w, exists d, d ++ p_q s w = stream linit pre w /\ p_w s w = fst (wrun0 d) /\
                        (forall k, hash k = w -> p_rows s k = snd (wrun0 d) k);
  pi_good : forall w, wgood w (p_w s w);
  pi_q : forall w, Forall (mgood w) (p_q s w)
}.

Lemma pinv_init : pinv (pinit db0 l).
Proof.
  constructor; cbn.
  - exists []. split; auto. split; auto. intros w. exists []. auto.
  - intros w x k [].
  - auto.
Qed.

Lemma pinv_step : forall s a, pinv s -> pinv (pstep hash s a).
Proof.
  intros s a [(pre & P1 & P2 & P3) G Q]. destruct a as [|w]; cbn.
  - destruct (p_log s) as [|r t] eqn:E; [constructor; auto; exists pre; rewrite E; auto|].
    constructor; cbn; auto.
    + exists (pre ++ [r]). split; [rewrite <- app_assoc; auto|]. split.
      * rewrite P2. unfold lrun. rewrite fold_left_app. reflexivity.
      * intros w. destruct (P3 w) as (d & D1 & D2 & D3). exists d. split; auto.
        rewrite app_assoc, D1, stream_app. cbn. rewrite app_nil_r, P2. reflexivity.
    + intros w. apply Forall_app. split; auto. apply lsend_good.
  - destruct (p_q s w) as [|m q] eqn:E; [constructor; auto; exists pre; auto|].
    destruct (wstep (p_w s w) (p_rows s) m) as [t rows] eqn:EW.
    pose proof (Q w) as Qw. rewrite E in Qw. inv Qw.
    destruct (P3 w) as (d & D1 & D2 & D3).
    destruct (wstep_local w (p_w s w) (p_rows s) (snd (wrun0 d)) m (G w) H1 D3) as (L1 & L2 & L3 & L4).
    rewrite EW in *. cbn [fst snd] in *.
    assert (WD : wrun0 (d ++ [m]) = wstep (p_w s w) (snd (wrun0 d)) m).
    { unfold wrun0. rewrite wrun_app. cbn. fold (wrun0 d). rewrite D2. reflexivity. }
    constructor; cbn.
    + exists pre. split; auto. split; auto. intros w'. destruct (Z.eq_dec w' w) as [->|N].
      * exists (d ++ [m]). rewrite !upd_same, <- app_assoc. cbn. rewrite E in D1. split; auto.
        rewrite WD. split; auto.
      * destruct (P3 w') as (d' & D1' & D2' & D3'). exists d'. rewrite !upd_other by auto.
        split; auto. split; auto. intros k Hk. rewrite L3 by congruence. auto.
    + intros w'. unfold upd. destruct (Z.eqb_spec w' w) as [->|]; auto.
    + intros w'. unfold upd. destruct (Z.eqb_spec w' w) as [->|]; auto.
Qed.

Lemma pinv_run : forall sched s, pinv s -> pinv (fold_left (pstep hash) sched s).
Proof. induction sched; intros; cbn; auto. apply IHsched, pinv_step; auto. Qed.

Lemma drained_rel : forall sched, drained (prun hash db0 l sched) ->
  r_stuck (replay (rinit db0) l) = false ->
  forall w, exists ld, rel w ld (replay (rinit db0) l) (p_w (prun hash db0 l sched) w)
                       (p_rows (prun hash db0 l sched)) /\
            wgood w (p_w (prun hash db0 l sched) w).
Proof.
  intros sched [DL DQ] NS w.
  destruct (pinv_run sched _ pinv_init) as [(pre & P1 & P2 & P3) G Q].
  fold (prun hash db0 l sched) in *. rewrite DL, app_nil_r in P1. subst pre.
  destruct (P3 w) as (d & D1 & D2 & D3). rewrite DQ, app_nil_r in D1. subst d.
  pose proof (rel_run w l linit (rinit db0) winit _ (rel_init w db0) NS) as R.
  fold (wrun0 (stream linit l w)) in R. destruct (wrun0 (stream linit l w)) as [t rw].
  cbn in D2, D3. exists (lrun linit l). rewrite D2. split; [|rewrite <- D2; auto].
  destruct R as [A B C D E F J K L M N].
  constructor; auto. intros k Hk. rewrite D3 by auto. auto.
Qed.

(** ** The end *)
Definition wdone (w : Z) (acts : list (Z * oxid)) (x : oxid) : bool :=
  existsb (fun a => (fst a =? w) && (snd a =? x)) acts.

(** The rows of worker [w] only feel its own part. *)
Lemma finish_rows : forall w acts s k, (forall w, wgood w (p_w s w)) -> hash k = w ->
  exists xs, p_rows (p_finish s acts) k =
             snd (fold_left (fun tr x => w_finish1 (fst tr) (snd tr) x) xs (p_w s w, p_rows s)) k /\
             xs = map snd (filter (fun a => fst a =? w) acts).
Proof.
  intros w acts. induction acts as [|[w' x] acts IH]; intros s k G Hk.
  - exists []. cbn. auto.
  - cbn [p_finish fold_left]. cbn [fst snd].
    destruct (w_finish1 (p_w s w') (p_rows s) x) as [t rows] eqn:EF.
    set (s1 := mkPst (p_log s) (p_lead s) (p_q s) (upd (p_w s) w' t) rows).
    assert (Gt : wgood w' t).
    { unfold w_finish1 in EF. destruct (w_st (p_w s w') x =? 1); inv EF; [|apply G].
      intros y k'. cbn. unfold upd. destruct (y =? x); [intros []|apply G]. }
    assert (G1 : forall w, wgood w (p_w s1 w)).
    { intros v. cbn. unfold upd. destruct (Z.eqb_spec v w') as [->|]; auto. }
    destruct (IH s1 k G1 Hk) as (xs & A & B). fold (p_finish s1 acts).
    cbn [filter map fst snd]. destruct (Z.eqb_spec w' w) as [->|N].
    + exists (x :: xs). split; [|cbn; rewrite B; auto].
      rewrite A. cbn. rewrite upd_same, EF. reflexivity.
    + exists xs. split; auto. rewrite A. cbn. rewrite upd_other by auto.
      assert (ER : rows k = p_rows s k).
      { unfold w_finish1 in EF. destruct (w_st (p_w s w') x =? 1); inv EF; auto.
        apply (pop_foreign w'); auto. intros k' Hk'. eapply G; eauto. }
      clear - ER Hk. generalize (p_w s w) as t0. revert ER. generalize rows, (p_rows s).
      induction xs as [|y xs IHx]; intros f g ER t0; cbn; auto.
      assert (W : forall h : key -> row, w_finish1 t0 h y =
        if w_st t0 y =? 1 then (fst (w_finish1 t0 h y), pop_items y (w_undo t0 y) h) else (t0, h)).
      { intros h. unfold w_finish1. destruct (w_st t0 y =? 1); auto. }
      assert (W1 : fst (w_finish1 t0 f y) = fst (w_finish1 t0 g y)).
      { unfold w_finish1. destruct (w_st t0 y =? 1); auto. }
      rewrite (W f), (W g), <- W1. destruct (w_st t0 y =? 1); apply IHx; auto.
      apply pop_row_ext. auto.
Qed.

Lemma rel_finish1 : forall w ld s t rw x, rel w ld s t rw ->
  rel w (l_finish ld x)
      (if r_st s x =? 1 then finish_oxid s x false else s)
      (fst (w_finish1 t rw x)) (snd (w_finish1 t rw x)) \/
  rel w ld (if r_st s x =? 1 then finish_oxid s x false else s)
      (fst (w_finish1 t rw x)) (snd (w_finish1 t rw x)).
Proof.
  intros w ld s t rw x H. destruct (Z.eqb_spec (r_st s x) 1) as [E|E].
  - left. pose proof (rel_finish w ld s t rw x false H) as R. unfold w_finish1.
    destruct (l_used ld x w) eqn:U.
    + destruct (rl_used _ _ _ _ _ H x U) as [U1 U2]. rewrite U1, E. cbn.
      unfold wrun in R. cbn in R. unfold wstep in R. rewrite (rl_wstuck _ _ _ _ _ H) in R.
      unfold w_switch in R. rewrite (proj2 (Z.eqb_neq _ 0)) in R by lia. cbn in R.
      destruct R as [A B C D F G J K L M N]. constructor; auto.
      intros y Hy. cbn in Hy. apply forget_some in Hy as [_ Hy]. congruence.
    + rewrite (rl_unused _ _ _ _ _ H x U). cbn. exact R.
  - right. unfold w_finish1. destruct (Z.eqb_spec (w_st t x) 1) as [Ew|]; cbn; auto.
    exfalso. destruct (l_used ld x w) eqn:U.
    + destruct (rl_used _ _ _ _ _ H x U) as [U1 U2]. congruence.
    + rewrite (rl_unused _ _ _ _ _ H x U) in Ew. discriminate.
Qed.

Lemma rel_finish_all : forall w xs ld s t rw, rel w ld s t rw ->
  exists ld', rel w ld' (recovery_finish s xs)
    (fst (fold_left (fun tr x => w_finish1 (fst tr) (snd tr) x) xs (t, rw)))
    (snd (fold_left (fun tr x => w_finish1 (fst tr) (snd tr) x) xs (t, rw))).
Proof.
  intros w xs. induction xs as [|x xs IH]; intros ld s t rw H; cbn; eauto.
  destruct (rel_finish1 w ld s t rw x H) as [R|R];
    destruct (w_finish1 t rw x) as [t1 rw1]; cbn in *; eapply IH; eauto.
Qed.

(** Two enumerations of the unfinished transactions give the same rows, if both cover them. *)
Lemma finish_twice : forall s x, r_st (recovery_finish s [x]) x <> 1.
Proof. intros. cbn. destruct (Z.eqb_spec (r_st s x) 1); auto. cbn. rewrite upd_same. lia. Qed.

End Sched.
End Par.
