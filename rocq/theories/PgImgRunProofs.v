(** The invariant behind C26 and its preservation by every operation. *)
From Coq Require Import ZArith List Bool Lia.
From Verif Require Import Base PgImgModel PgImgSpec PgImgProofs.
Import ListNotations.
Open Scope Z_scope.

(* ---------------------------------------------------------- versions *)

Definition LV (st : Z -> stat) (nx : Z) (t : truth) (k : Z) (l : list ver) : Prop :=
  exists pre post, l = pre ++ post /\
    match t_own t k with
    | None => pre = []
    | Some o => st o = Run /\ (exists pre', pre = (o, t_new t k) :: pre') /\ (forall w, In w pre -> fst w = o)
    end /\
    (forall w, In w post -> exists d, st (fst w) = Com d /\ d < nx) /\
    match post with [] => None | (_, v) :: _ => v end = t_db t k.

Lemma vis_skip : forall st c pre post, (forall w, In w pre -> st (fst w) = Run) ->
  vis st c (pre ++ post) = vis st c post.
Proof.
  induction pre as [|[o v] r IH]; intros post H; cbn; auto.
  pose proof (H (o, v) (or_introl eq_refl)) as E. cbn in E. rewrite E. apply IH. intros w Hw. apply H. cbn. auto.
Qed.

Lemma LV_pre : forall st nx t k l, LV st nx t k l ->
  exists pre post, l = pre ++ post /\ (forall w, In w pre -> st (fst w) = Run) /\
    (forall w, In w post -> exists d, st (fst w) = Com d /\ d < nx) /\
    match post with [] => None | (_, v) :: _ => v end = t_db t k.
Proof.
  intros st nx t k l (pre & post & E & O & C & D). exists pre, post. split; auto. split; auto.
  destruct (t_own t k) as [o|].
  - destruct O as (O1 & _ & O2). intros w Hw. rewrite (O2 w Hw). auto.
  - subst pre. intros w [].
Qed.

Lemma LV_vis : forall st nx t k l, LV st nx t k l -> vis st nx l = t_db t k.
Proof.
  intros st nx t k l H. destruct (LV_pre _ _ _ _ _ H) as (pre & post & E & A & B & C).
  subst l. rewrite vis_skip by auto. rewrite <- C.
  destruct post as [|[o v] r]; auto. cbn.
  destruct (B (o, v) (or_introl eq_refl)) as (d & Ed & Ld). cbn in Ed. rewrite Ed.
  replace (d <? nx) with true by lia. auto.
Qed.

(** The vis function does not see a transaction that ends now. *)
Lemma vis_end : forall st o s', st o = Run -> (s' = Abt \/ exists d, s' = Com d) ->
  forall c, (forall d, s' = Com d -> c <= d) -> forall l, vis (upd st o s') c l = vis st c l.
Proof.
  intros st o s' Ho Hs c Hc l. induction l as [|[o' v] r IH]; cbn; auto.
  unfold upd at 1. destruct (Z.eqb_spec o' o) as [E|E].
  - subst o'. rewrite Ho. destruct Hs as [->|[d ->]]; auto.
    specialize (Hc d eq_refl). replace (d <? c) with false by lia. auto.
  - destruct (st o'); auto. rewrite IH. auto.
Qed.

Lemma vis_push : forall st c o v l, st o = Run -> vis st c ((o, v) :: l) = vis st c l.
Proof. intros st c o v l H. cbn. rewrite H. auto. Qed.

Lemma vis_filter : forall st o c l, st o = Run ->
  vis st c (filter (fun w => negb (fst w =? o)) l) = vis st c l.
Proof.
  intros st o c l H. induction l as [|[o' v] r IH]; cbn; auto.
  destruct (Z.eqb_spec o' o) as [E|E]; cbn.
  - subst. rewrite H. auto.
  - rewrite IH. auto.
Qed.

Lemma goes_vis : forall st x r k l c, goes st x r (k, l) = true -> r < c -> vis st c l = None.
Proof.
  intros st x r k l c H L. unfold goes in H. cbn in H.
  destruct l as [|[o [v|]] t]; try discriminate. cbn.
  apply andb_true_iff in H. destruct H as [_ H]. destruct (st o) as [|d|]; try discriminate.
  replace (d <? c) with true by lia. auto.
Qed.

Lemma goes_mono : forall st x1 x2 r i, x1 <= x2 -> goes st x1 r i = true -> goes st x2 r i = true.
Proof.
  intros st x1 x2 r [k l] L H. unfold goes in *. cbn in *.
  destruct l as [|[o [v|]] t]; auto. apply andb_true_iff in H. apply andb_true_iff.
  destruct H as [H1 H2]. split; auto. lia.
Qed.

Lemma drops_kept : forall st x1 x2 r P, x1 <= x2 -> drops st x2 r P = false ->
  kept st x1 r (p_it P) = p_it P.
Proof.
  intros st x1 x2 r P L H. unfold drops, kept in *.
  induction (p_it P) as [|i t IH]; cbn in *; auto.
  apply orb_false_iff in H. destruct H as [H1 H2].
  destruct (goes st x1 r i) eqn:G; cbn.
  - rewrite (goes_mono _ _ _ _ _ L G) in H1. discriminate.
  - rewrite IH; auto.
Qed.

(* ---------------------------------------------------------- the invariant *)

Definition OKp (st : Z -> stat) (h : Z -> option Z) (recs : Z -> option rec) (c ret : Z) (P : page) : Prop :=
  OK (vis st c) h recs c ret (p_it P) (cov P) (p_hi P) (Some (p_lo P)) (p_csn P) (p_ul P).

Record PG (s : state) (t : truth) (P : page) : Prop := {
  g_csn : 0 <= p_csn P < s_next s;
  g_ul : p_ul P < s_top s;
  g_srt : srt (p_it P);
  g_in : within P;
  g_ne : exists k, cov P k;
  g_live : forall k, cov P k -> LV (s_st s) (s_next s) t k (look (p_it P) k);
  g_ok : forall i c ret h, In (i, (c, ret)) (s_snap s) -> t_snap t i = Some h ->
           OKp (s_st s) h (s_recs s) c ret P }.

Record Inv (s : state) (t : truth) : Prop := {
  i_next : 1 <= s_next s;
  i_min : 0 <= s_min s <= s_top s;
  i_rec : forall u r, s_recs s u = Some r -> 0 <= u < s_top s;
  i_pg : forall p P, s_pages s p = Some P -> PG s t P;
  i_disj : forall p q P Q k, s_pages s p = Some P -> s_pages s q = Some Q -> cov P k -> cov Q k -> p = q;
  i_cov : forall k, exists p P, s_pages s p = Some P /\ cov P k;
  i_fin : forall o, t_fin t o = match s_st s o with Run => false | _ => true end;
  i_com : forall o d, s_st s o = Com d -> 1 <= d < s_next s;
  i_snap : forall i c ret, In (i, (c, ret)) (s_snap s) ->
             1 <= c <= s_next s /\ s_min s <= ret <= s_top s /\ t_snap t i <> None;
  i_snap2 : forall i, t_snap t i <> None -> exists e, In (i, e) (s_snap s);
  i_snap3 : forall i e e', In (i, e) (s_snap s) -> In (i, e') (s_snap s) -> e = e' }.

Lemma Inv_init : Inv init empty.
Proof.
  constructor; cbn; try lia; try discriminate; try tauto; auto.
  - intros p P H. unfold upd in H. destruct (p =? 0); [|discriminate]. injection H as <-.
    constructor; cbn; auto; try lia; try tauto.
    + intros i [].
    + exists 0. reflexivity.
    + intros k _. exists [], []. split; auto. split; [reflexivity|]. split; [intros w []|reflexivity].
  - intros p q P Q k H1 H2 _ _. unfold upd in *.
    destruct (Z.eqb_spec p 0); [|discriminate]. destruct (Z.eqb_spec q 0); [|discriminate]. lia.
  - intros k. exists 0. eexists. split; [reflexivity|]. reflexivity.
Qed.

(** New records keep what a page owes its readers. *)
Lemma OKp_recs : forall st h recs recs' c ret P,
  (forall u r, ret <= u -> recs u = Some r -> recs' u = Some r) ->
  OKp st h recs c ret P -> OKp st h recs' c ret P.
Proof.
  intros st h recs recs' c ret P H O. unfold OKp in *.
  eapply OK_mono; eauto using ohle_refl.
Qed.

Lemma fresh_rec : forall s t r, Inv s t -> forall u x, s_recs s u = Some x ->
  upd (s_recs s) (s_top s) (Some r) u = Some x.
Proof.
  intros s t r I u x H. rewrite upd_other; auto. pose proof (i_rec _ _ I _ _ H). lia.
Qed.

Lemma PG_rec : forall s t pg r P, Inv s t -> PG s t P -> PG (with_rec s pg r) t P.
Proof.
  intros s t pg r P I G. destruct G. constructor; cbn; auto; try lia.
  intros i c ret h H1 H2. apply (OKp_recs _ _ (s_recs s)); [|eauto].
  intros u x _ Hx. apply (fresh_rec s t); auto.
Qed.

Lemma PG_pages : forall s t pg P, PG s t P -> PG (with_pages s pg) t P.
Proof. intros s t pg P G. destruct G. constructor; cbn; auto. Qed.

(** Keeping the rest of the state. *)
Lemma Inv_rec : forall s t pg r, Inv s t ->
  (forall p P, pg p = Some P -> PG (with_rec s pg r) t P) ->
  (forall p q P Q k, pg p = Some P -> pg q = Some Q -> cov P k -> cov Q k -> p = q) ->
  (forall k, exists p P, pg p = Some P /\ cov P k) ->
  Inv (with_rec s pg r) t.
Proof.
  intros s t pg r I H1 H2 H3. destruct I. constructor; cbn; auto; try lia.
  - intros u x H. unfold upd in H. destruct (Z.eqb_spec u (s_top s)); [lia|].
    specialize (i_rec0 _ _ H). lia.
  - intros i c ret H. specialize (i_snap0 _ _ _ H). destruct i_snap0 as (A & B & C). split; [auto|]. split; [lia|auto].
Qed.

Lemma Inv_pages : forall s t pg, Inv s t ->
  (forall p P, pg p = Some P -> PG (with_pages s pg) t P) ->
  (forall p q P Q k, pg p = Some P -> pg q = Some Q -> cov P k -> cov Q k -> p = q) ->
  (forall k, exists p P, pg p = Some P /\ cov P k) ->
  Inv (with_pages s pg) t.
Proof. intros s t pg I H1 H2 H3. destruct I. constructor; cbn; auto. Qed.

(** Removing the items that a change may remove keeps the rows of the database. *)
Lemma LV_kept : forall s t x r P, PG s t P -> forall k, cov P k ->
  LV (s_st s) (s_next s) t k (look (kept (s_st s) x r (p_it P)) k).
Proof.
  intros s t x r P G k Hk. pose proof (g_live _ _ _ G k Hk) as L.
  rewrite look_kept by apply (g_srt _ _ _ G).
  destruct (goes (s_st s) x r (k, look (p_it P) k)) eqn:E; auto.
  destruct L as (pre & post & El & O & C & D). unfold goes in E. cbn in E. rewrite El in E.
  exists [], []. split; auto.
  destruct (t_own t k) as [o|].
  - destruct O as (O1 & (pre' & O2) & O3). rewrite O2 in E. cbn in E.
    destruct (t_new t k); [discriminate|]. rewrite O1 in E. rewrite andb_false_r in E. discriminate.
  - subst pre. cbn in E. split; auto. split; [intros w []|]. rewrite <- D.
    destruct post as [|[o [v|]] q]; auto; discriminate.
Qed.

Lemma kept_in : forall st x r it i, In i (kept st x r it) -> In i it.
Proof. intros st x r it i H. unfold kept in H. apply filter_In in H. tauto. Qed.

(** What a page shows to a snapshot taken after its last change. *)
Lemma OKp_here : forall st h recs c ret P, OKp st h recs c ret P -> p_csn P < c ->
  forall k, cov P k -> vis st c (look (p_it P) k) = h k.
Proof. intros st h recs c ret P O L. apply (OK_here_inv _ _ _ _ _ _ _ _ _ _ _ O L). Qed.

Lemma kept_vis : forall st x r c it k, srt it -> r < c ->
  vis st c (look (kept st x r it) k) = vis st c (look it k).
Proof.
  intros st x r c it k S L. rewrite look_kept by auto.
  destruct (goes st x r (k, look it k)) eqn:G; auto.
  rewrite (goes_vis _ _ _ _ _ _ G L). reflexivity.
Qed.

Lemma OKp_unneeded : forall s t i c ret h P, Inv s t -> In (i, (c, ret)) (s_snap s) ->
  unneeded (s_min s) (p_ul P) = true -> OKp (s_st s) h (s_recs s) c ret P -> p_csn P < c.
Proof.
  intros s t i c ret h P I H U O. pose proof (i_snap _ _ I _ _ _ H) as (A & B & _).
  pose proof (i_min _ _ I) as M. unfold unneeded in U.
  destruct (Z_lt_le_dec (p_csn P) c) as [L|L]; auto.
  pose proof (OK_loc _ _ _ _ _ _ _ _ _ _ _ O L). lia.
Qed.

(* ---------------------------------------------------------- compaction *)

Lemma PG_compact : forall s t p r x P pg, Inv s t -> s_pages s p = Some P -> p_csn P < r -> r < s_next s ->
  PG (with_rec s pg (RFull P)) t (mkPage (kept (s_st s) x r (p_it P)) (p_lo P) (p_hi P) r (s_top s)).
Proof.
  intros s t p r x P pg I H L1 L2. pose proof (i_pg _ _ I _ _ H) as G.
  constructor; cbn; auto.
  - pose proof (g_csn _ _ _ G). lia.
  - lia.
  - apply srt_filter. apply (g_srt _ _ _ G).
  - intros i Hi. cbn in Hi. apply kept_in in Hi. apply (g_in _ _ _ G). auto.
  - apply (g_ne _ _ _ G).
  - intros k Hk. apply LV_kept; auto.
  - intros i c ret h H1 H2. pose proof (g_ok _ _ _ G _ _ _ _ H1 H2) as O.
    pose proof (i_snap _ _ I _ _ _ H1) as (_ & B & _). unfold OKp. cbn.
    destruct (Z_lt_le_dec r c) as [L|L].
    + apply ok_here; auto. intros k Hk. rewrite kept_vis by (auto; apply (g_srt _ _ _ G)).
      apply (OKp_here _ _ _ _ _ _ O); auto. lia.
    + apply (ok_full _ _ _ _ _ _ _ _ _ _ _ P); auto; try lia.
      * apply upd_same.
      * apply (g_ul _ _ _ G).
      * apply (g_in _ _ _ G).
      * apply (OKp_recs _ _ (s_recs s)); auto. intros u y _ Hy. apply (fresh_rec s t); auto.
Qed.

Lemma step_compact : forall s t p r x P, Inv s t -> s_pages s p = Some P -> p_csn P < r -> r < s_next s ->
  Inv (compact s p r x P) t.
Proof.
  intros s t p r x P I H L1 L2. unfold compact.
  set (P' := mkPage (kept (s_st s) x r (p_it P)) (p_lo P) (p_hi P) r (s_top s)).
  assert (C : forall k, cov P' k <-> cov P k) by (intros k; unfold cov, covers; cbn; tauto).
  apply Inv_rec; auto.
  - intros p' Q HQ. unfold upd in HQ. destruct (p' =? p).
    + injection HQ as <-. apply (PG_compact s t p); auto.
    + apply PG_rec; auto. apply (i_pg _ _ I _ _ HQ).
  - intros a b A B k HA HB CA CB. unfold upd in HA, HB.
    destruct (Z.eqb_spec a p), (Z.eqb_spec b p); subst; auto.
    + injection HA as <-. apply C in CA. apply (i_disj _ _ I _ _ _ _ _ H HB CA CB).
    + injection HB as <-. apply C in CB. apply (i_disj _ _ I _ _ _ _ _ HA H CA CB).
    + apply (i_disj _ _ I _ _ _ _ _ HA HB CA CB).
  - intros k. destruct (i_cov _ _ I k) as (a & A & HA & CA).
    destruct (Z.eq_dec a p) as [->|Ne].
    + exists p, P'. rewrite upd_same. split; auto. apply C. congruence.
    + exists a, A. rewrite upd_other by auto. auto.
Qed.

(* ---------------------------------------------------------- split *)

(** Half of a page: its items are those of the page in its range. *)
Definition halfof (P H : page) (it : items) : Prop :=
  (forall k, cov H k -> cov P k) /\ (forall k, cov H k -> look (p_it H) k = look it k) /\
  srt (p_it H) /\ within H /\ (exists k, cov H k) /\ ohle (p_hi H) (p_hi P).

Lemma half_left : forall P it k csn ul, srt it -> (forall i, In i it -> cov P (fst i)) ->
  cov P k -> match p_lo P with None => true | Some a => a <? k end = true ->
  halfof P (mkPage (below k it) (p_lo P) (Some k) csn ul) it.
Proof.
  intros P it k csn ul S W C L. apply cov_iff in C. destruct C as [C1 C2].
  assert (X : forall j, cov (mkPage (below k it) (p_lo P) (Some k) csn ul) j <-> above (p_lo P) j /\ j < k).
  { intros j. rewrite cov_iff. cbn. tauto. }
  assert (Y : forall j, above (p_lo P) j /\ j < k -> cov P j).
  { intros j [A B]. apply cov_iff. split; auto. destruct (p_hi P); cbn in *; auto. lia. }
  split; [intros j Hj; apply X in Hj; auto|].
  split; [intros j Hj; apply X in Hj; cbn; rewrite look_below; replace (j <? k) with true by lia; auto|].
  split; [apply srt_filter; auto|].
  split.
  { intros i Hi. cbn in Hi. unfold below in Hi. apply filter_In in Hi. destruct Hi as [Hi Hl].
    apply X. specialize (W _ Hi). apply cov_iff in W. split; [tauto|lia]. }
  split; [exists (k - 1); apply X; split; [destruct (p_lo P); cbn; auto; lia|lia]|].
  cbn. destruct (p_hi P); cbn in *; auto. lia.
Qed.

Lemma half_right : forall P it k csn ul, srt it -> (forall i, In i it -> cov P (fst i)) ->
  cov P k -> halfof P (mkPage (from k it) (Some k) (p_hi P) csn ul) it.
Proof.
  intros P it k csn ul S W C. apply cov_iff in C. destruct C as [C1 C2].
  assert (X : forall j, cov (mkPage (from k it) (Some k) (p_hi P) csn ul) j <-> k <= j /\ under (p_hi P) j).
  { intros j. rewrite cov_iff. cbn. tauto. }
  split.
  { intros j Hj. apply X in Hj. apply cov_iff. split; [|tauto]. destruct (p_lo P); cbn in *; auto. lia. }
  split; [intros j Hj; apply X in Hj; cbn; rewrite look_from; replace (k <=? j) with true by lia; auto|].
  split; [apply srt_filter; auto|].
  split.
  { intros i Hi. cbn in Hi. unfold from in Hi. apply filter_In in Hi. destruct Hi as [Hi Hl].
    apply X. specialize (W _ Hi). apply cov_iff in W. split; [lia|tauto]. }
  split; [exists k; apply X; split; [lia|auto]|].
  cbn. apply ohle_refl.
Qed.

Lemma PG_half_full : forall s t p r x P H pg, Inv s t -> s_pages s p = Some P -> p_csn P < r -> r < s_next s ->
  halfof P H (kept (s_st s) x r (p_it P)) -> p_csn H = r -> p_ul H = s_top s ->
  PG (with_rec s pg (RFull P)) t H.
Proof.
  intros s t p r x P H pg I HP L1 L2 (A1 & A2 & A3 & A4 & A5 & A6) Ec Eu.
  pose proof (i_pg _ _ I _ _ HP) as G. pose proof (g_csn _ _ _ G) as GC.
  constructor; cbn; auto; try lia.
  - intros k Hk. rewrite A2 by auto. apply LV_kept; auto.
  - intros i c ret h H1 H2. pose proof (g_ok _ _ _ G _ _ _ _ H1 H2) as O.
    pose proof (i_snap _ _ I _ _ _ H1) as (_ & B & _). unfold OKp.
    destruct (Z_lt_le_dec r c) as [L|L].
    + apply ok_here; [lia|]. intros k Hk. rewrite A2 by auto. rewrite kept_vis by (auto; apply (g_srt _ _ _ G)).
      apply (OKp_here _ _ _ _ _ _ O); auto. lia.
    + apply (ok_full _ _ _ _ _ _ _ _ _ _ _ P); auto; try lia.
      * rewrite Eu. apply upd_same.
      * rewrite Eu. apply (g_ul _ _ _ G).
      * apply (g_in _ _ _ G).
      * apply (OKp_recs _ _ (s_recs s)); auto. intros u y _ Hy. apply (fresh_rec s t); auto.
Qed.

Lemma PG_half_diff : forall s t p r P H pg k, Inv s t -> s_pages s p = Some P -> p_csn P < r -> r < s_next s ->
  halfof P H (p_it P) -> p_csn H = r -> p_ul H = s_top s ->
  (hle (p_hi H) k /\ p_lo H = p_lo P \/ p_lo H = Some k) ->
  PG (with_rec s pg (RSplitDiff k (p_csn P) (p_ul P))) t H.
Proof.
  intros s t p r P H pg k I HP L1 L2 (A1 & A2 & A3 & A4 & A5 & A6) Ec Eu Side.
  pose proof (i_pg _ _ I _ _ HP) as G. pose proof (g_csn _ _ _ G) as GC. pose proof (g_ul _ _ _ G) as GU.
  constructor; cbn; auto; try lia.
  - intros j Hj. rewrite A2 by auto. apply (g_live _ _ _ G); auto.
  - intros i c ret h H1 H2. pose proof (g_ok _ _ _ G _ _ _ _ H1 H2) as O.
    pose proof (i_snap _ _ I _ _ _ H1) as (_ & B & _).
    apply (OKp_recs _ _ _ (upd (s_recs s) (s_top s) (Some (RSplitDiff k (p_csn P) (p_ul P))))) in O;
      [|intros u y _ Hy; apply (fresh_rec s t); auto].
    unfold OKp in *.
    destruct (Z_lt_le_dec r c) as [L|L].
    + apply ok_here; [lia|]. intros j Hj. rewrite A2 by auto. apply (OKp_here _ _ _ _ _ _ O); auto. lia.
    + destruct Side as [[S1 S2]|S].
      * apply (ok_sleft _ _ _ _ _ _ _ _ _ _ _ k (p_csn P) (p_ul P)); auto; try lia.
        -- rewrite Eu. apply upd_same.
        -- apply (OK_mono _ _ _ _ _ _ _ _ _ _ _ O); auto.
           ++ intros j Hj. rewrite A2 by auto. auto.
           ++ left. rewrite S2. auto.
      * apply (ok_sright _ _ _ _ _ _ _ _ _ _ _ k (p_csn P) (p_ul P)); auto; try lia.
        -- rewrite Eu. apply upd_same.
        -- intros j Hj. apply cov_iff in Hj. rewrite S in Hj. cbn in Hj. lia.
        -- intros l El. congruence.
        -- apply (OK_mono _ _ _ _ _ _ _ _ _ _ _ O); auto.
           intros j Hj. rewrite A2 by auto. auto.
Qed.

Lemma PG_half_frozen : forall s t p P H pg, Inv s t -> s_pages s p = Some P ->
  unneeded (s_min s) (p_ul P) = true -> halfof P H (p_it P) -> p_csn H = 0 -> p_ul H = -1 ->
  PG (with_pages s pg) t H.
Proof.
  intros s t p P H pg I HP U (A1 & A2 & A3 & A4 & A5 & A6) Ec Eu.
  pose proof (i_pg _ _ I _ _ HP) as G. pose proof (g_csn _ _ _ G) as GC.
  pose proof (i_next _ _ I) as N. pose proof (i_min _ _ I) as M.
  constructor; cbn; auto; try lia.
  - intros j Hj. rewrite A2 by auto. apply (g_live _ _ _ G); auto.
  - intros i c ret h H1 H2. pose proof (g_ok _ _ _ G _ _ _ _ H1 H2) as O.
    pose proof (i_snap _ _ I _ _ _ H1) as (B & _ & _).
    pose proof (OKp_unneeded _ _ _ _ _ _ _ I H1 U O) as L.
    apply ok_here; [lia|]. intros j Hj. rewrite A2 by auto. apply (OKp_here _ _ _ _ _ _ O); auto.
Qed.

(** The ranges of the pages after a split. *)
Lemma halves_part : forall s t p q k P it csn ul, Inv s t -> s_pages s p = Some P -> s_pages s q = None ->
  cov P k ->
  let pg := halves s p q k P it csn ul in
  (forall a b A B j, pg a = Some A -> pg b = Some B -> cov A j -> cov B j -> a = b) /\
  (forall j, exists a A, pg a = Some A /\ cov A j).
Proof.
  intros s t p q k P it csn ul I H Hq C pg.
  set (L := mkPage (below k it) (p_lo P) (Some k) csn ul).
  set (R := mkPage (from k it) (Some k) (p_hi P) csn ul).
  assert (Npq : p <> q) by congruence.
  assert (XL : forall j, cov L j -> cov P j /\ j < k).
  { intros j Hj. apply cov_iff in Hj. cbn in Hj. apply cov_iff in C. split; [|tauto].
    apply cov_iff. split; [tauto|]. destruct (p_hi P); cbn in *; auto. lia. }
  assert (XR : forall j, cov R j -> cov P j /\ k <= j).
  { intros j Hj. apply cov_iff in Hj. cbn in Hj. apply cov_iff in C. split; [|tauto].
    apply cov_iff. split; [|tauto]. destruct (p_lo P); cbn in *; auto. lia. }
  assert (PG1 : forall a, pg a = if a =? q then Some R else if a =? p then Some L else s_pages s a).
  { intros a. unfold pg, halves, upd. reflexivity. }
  split.
  - intros a b A B j HA HB CA CB. rewrite PG1 in HA, HB.
    destruct (Z.eqb_spec a q), (Z.eqb_spec b q); subst; auto.
    + injection HA as <-. apply XR in CA. destruct (Z.eqb_spec b p).
      * injection HB as <-. apply XL in CB. lia.
      * exfalso. apply n0. symmetry. apply (i_disj _ _ I _ _ _ _ _ H HB (proj1 CA) CB).
    + injection HB as <-. apply XR in CB. destruct (Z.eqb_spec a p).
      * injection HA as <-. apply XL in CA. lia.
      * exfalso. apply n0. apply (i_disj _ _ I _ _ _ _ _ HA H CA (proj1 CB)).
    + destruct (Z.eqb_spec a p), (Z.eqb_spec b p); subst; auto.
      * injection HA as <-. apply XL in CA. apply (i_disj _ _ I _ _ _ _ _ H HB (proj1 CA) CB).
      * injection HB as <-. apply XL in CB. apply (i_disj _ _ I _ _ _ _ _ HA H CA (proj1 CB)).
      * apply (i_disj _ _ I _ _ _ _ _ HA HB CA CB).
  - intros j. destruct (i_cov _ _ I j) as (a & A & HA & CA).
    destruct (Z.eq_dec a p) as [->|Ne].
    + rewrite H in HA. injection HA as <-. apply cov_iff in CA.
      destruct (Z_lt_le_dec j k) as [Lj|Lj].
      * exists p, L. rewrite PG1. replace (p =? q) with false by lia. rewrite Z.eqb_refl. split; auto.
        apply cov_iff. cbn. tauto.
      * exists q, R. rewrite PG1. rewrite Z.eqb_refl. split; auto. apply cov_iff. cbn. tauto.
    + exists a, A. rewrite PG1. replace (a =? q) with false by (assert (a <> q) by congruence; lia).
      replace (a =? p) with false by lia. auto.
Qed.

Lemma step_split : forall s t p q k r x1 x2 sq P, Inv s t -> s_pages s p = Some P -> s_pages s q = None ->
  p_csn P < r -> r < s_next s -> x1 <= x2 -> cov P k ->
  match p_lo P with None => true | Some a => a <? k end = true ->
  Inv (split s p q k r x1 x2 sq P) t.
Proof.
  intros s t p q k r x1 x2 sq P I H Hq L1 L2 Lx C Lo. unfold split.
  pose proof (i_pg _ _ I _ _ H) as G.
  assert (W : forall i, In i (p_it P) -> cov P (fst i)) by (intros i Hi; apply (g_in _ _ _ G); auto).
  assert (Wk : forall i, In i (kept (s_st s) x1 r (p_it P)) -> cov P (fst i)).
  { intros i Hi. apply kept_in in Hi. auto. }
  assert (Sk : srt (kept (s_st s) x1 r (p_it P))) by (apply srt_filter; apply (g_srt _ _ _ G)).
  assert (PGS : forall it csn ul a, halves s p q k P it csn ul a =
     if a =? q then Some (mkPage (from k it) (Some k) (p_hi P) csn ul)
     else if a =? p then Some (mkPage (below k it) (p_lo P) (Some k) csn ul) else s_pages s a).
  { intros. reflexivity. }
  destruct (unneeded (s_min s) (p_ul P) && negb (drops (s_st s) x2 r P) && negb sq) eqn:Fz.
  - apply andb_true_iff in Fz. destruct Fz as [Fz _]. apply andb_true_iff in Fz. destruct Fz as [U D].
    apply negb_true_iff in D. rewrite (drops_kept _ _ _ _ _ Lx D).
    destruct (halves_part s t p q k P (p_it P) 0 (-1) I H Hq C) as [D1 D2].
    apply Inv_pages; auto. intros a A HA. rewrite PGS in HA.
    destruct (a =? q); [|destruct (a =? p)].
    + injection HA as <-. apply (PG_half_frozen s t p P); auto. apply half_right; auto. apply (g_srt _ _ _ G).
    + injection HA as <-. apply (PG_half_frozen s t p P); auto. apply half_left; auto. apply (g_srt _ _ _ G).
    + apply PG_pages. apply (i_pg _ _ I _ _ HA).
  - destruct (negb (drops (s_st s) x2 r P) && negb sq) eqn:Df.
    + apply andb_true_iff in Df. destruct Df as [D _].
      apply negb_true_iff in D. rewrite (drops_kept _ _ _ _ _ Lx D).
      destruct (halves_part s t p q k P (p_it P) r (s_top s) I H Hq C) as [D1 D2].
      apply Inv_rec; auto. intros a A HA. rewrite PGS in HA.
      destruct (a =? q); [|destruct (a =? p)].
      * injection HA as <-. apply (PG_half_diff s t p r P); auto. apply half_right; auto. apply (g_srt _ _ _ G).
      * injection HA as <-. apply (PG_half_diff s t p r P); auto.
        -- apply half_left; auto. apply (g_srt _ _ _ G).
        -- left. cbn. split; [lia|auto].
      * apply PG_rec; auto. apply (i_pg _ _ I _ _ HA).
    + destruct (halves_part s t p q k P (kept (s_st s) x1 r (p_it P)) r (s_top s) I H Hq C) as [D1 D2].
      apply Inv_rec; auto. intros a A HA. rewrite PGS in HA.
      destruct (a =? q); [|destruct (a =? p)].
      * injection HA as <-. apply (PG_half_full s t p r x1 P); auto. apply half_right; auto.
      * injection HA as <-. apply (PG_half_full s t p r x1 P); auto. apply half_left; auto.
      * apply PG_rec; auto. apply (i_pg _ _ I _ _ HA).
Qed.

(* ---------------------------------------------------------- merge *)

Lemma join_cov : forall A B b it csn ul, p_hi A = Some b -> p_lo B = Some b ->
  (exists k, cov A k) -> (exists k, cov B k) ->
  forall k, cov (mkPage it (p_lo A) (p_hi B) csn ul) k <->
            (cov A k /\ k < b) \/ (cov B k /\ b <= k).
Proof.
  intros A B b it csn ul EA EB [ka Ca] [kb Cb] k.
  rewrite !cov_iff in *. cbn. rewrite EA, EB in *. cbn in *.
  destruct (p_lo A), (p_hi B); cbn in *; lia.
Qed.

Lemma step_merge : forall s t p q b r x sq A B, Inv s t -> s_pages s p = Some A -> s_pages s q = Some B ->
  p_hi A = Some b -> p_lo B = Some b -> p_csn A < r -> p_csn B < r -> r < s_next s ->
  Inv (merge s p q b r x x sq A B) t.
Proof.
  intros s t p q b r x sq A B I HA HB EA EB L1 L2 L3.
  pose proof (i_pg _ _ I _ _ HA) as GA. pose proof (i_pg _ _ I _ _ HB) as GB.
  pose proof (g_csn _ _ _ GA) as CA. pose proof (g_csn _ _ _ GB) as CB.
  pose proof (g_ul _ _ _ GA) as UA. pose proof (g_ul _ _ _ GB) as UB.
  pose proof (i_next _ _ I) as N. pose proof (i_min _ _ I) as M.
  unfold merge. set (it := kept (s_st s) x r (p_it A) ++ kept (s_st s) x r (p_it B)).
  assert (J : forall csn ul k, cov (mkPage it (p_lo A) (p_hi B) csn ul) k <->
            (cov A k /\ k < b) \/ (cov B k /\ b <= k)).
  { intros csn ul. apply join_cov; auto; [apply (g_ne _ _ _ GA)|apply (g_ne _ _ _ GB)]. }
  assert (cA : forall k, cov A k -> k < b).
  { intros k Hk. apply cov_iff in Hk. rewrite EA in Hk. cbn in Hk. tauto. }
  assert (cB : forall k, cov B k -> b <= k).
  { intros k Hk. apply cov_iff in Hk. rewrite EB in Hk. cbn in Hk. tauto. }
  assert (nA : forall k, cov B k -> nokey (kept (s_st s) x r (p_it A)) k).
  { intros k Hk i Hi. apply kept_in in Hi. pose proof (g_in _ _ _ GA _ Hi) as Z1.
    apply cA in Z1. apply cB in Hk. lia. }
  assert (nB : forall k, cov A k -> nokey (kept (s_st s) x r (p_it B)) k).
  { intros k Hk i Hi. apply kept_in in Hi. pose proof (g_in _ _ _ GB _ Hi) as Z1.
    apply cB in Z1. apply cA in Hk. lia. }
  assert (lA : forall k, cov A k -> look it k = look (kept (s_st s) x r (p_it A)) k).
  { intros k Hk. unfold it. apply look_app_l; auto. }
  assert (lB : forall k, cov B k -> look it k = look (kept (s_st s) x r (p_it B)) k).
  { intros k Hk. unfold it. apply look_app_r; auto. }
  assert (Si : srt it).
  { unfold it. apply srt_app; try (apply srt_filter; apply (g_srt _ _ _ GA));
      try (apply srt_filter; apply (g_srt _ _ _ GB)).
    intros i j Hi Hj. apply kept_in in Hi, Hj. pose proof (g_in _ _ _ GA _ Hi) as Z1.
    pose proof (g_in _ _ _ GB _ Hj) as Z2. apply cA in Z1. apply cB in Z2. lia. }
  assert (Wi : forall csn ul, within (mkPage it (p_lo A) (p_hi B) csn ul)).
  { intros csn ul i Hi. apply J. cbn in Hi. unfold it in Hi. apply in_app_or in Hi.
    destruct Hi as [Hi|Hi]; apply kept_in in Hi.
    - pose proof (g_in _ _ _ GA _ Hi) as Z1. left. split; auto. 
    - pose proof (g_in _ _ _ GB _ Hi) as Z1. right. split; auto. }
  assert (Ne : forall csn ul, exists k, cov (mkPage it (p_lo A) (p_hi B) csn ul) k).
  { intros csn ul. destruct (g_ne _ _ _ GA) as [k Hk]. exists k. apply J. left. split; auto. }
  assert (Lv : forall csn ul k, cov (mkPage it (p_lo A) (p_hi B) csn ul) k ->
               LV (s_st s) (s_next s) t k (look it k)).
  { intros csn ul k Hk. apply J in Hk. destruct Hk as [[Hk _]|[Hk _]].
    - rewrite lA by auto. apply LV_kept; auto.
    - rewrite lB by auto. apply LV_kept; auto. }
  set (put := fun csn ul => upd (upd (s_pages s) p (Some (mkPage it (p_lo A) (p_hi B) csn ul))) q None).
  assert (Npq : p <> q).
  { intros ->. rewrite HA in HB. injection HB as <-. destruct (g_ne _ _ _ GA) as [k Hk].
    pose proof (cA k Hk). pose proof (cB k Hk). lia. }
  assert (PGS : forall csn ul a, put csn ul a = if a =? q then None
     else if a =? p then Some (mkPage it (p_lo A) (p_hi B) csn ul) else s_pages s a) by reflexivity.
  assert (Part : forall csn ul,
    (forall a b A B j, put csn ul a = Some A -> put csn ul b = Some B -> cov A j -> cov B j -> a = b) /\
    (forall j, exists a A, put csn ul a = Some A /\ cov A j)).
  { intros csn ul. split.
    - intros a a' X Y j HX HY CX CY. rewrite PGS in HX, HY.
      destruct (Z.eqb_spec a q) as [|Nq]; [discriminate|]. destruct (Z.eqb_spec a' q) as [|Nq']; [discriminate|].
      destruct (Z.eqb_spec a p) as [Ep|Np], (Z.eqb_spec a' p) as [Ep'|Np']; subst; auto.
      + injection HX as <-. apply J in CX. destruct CX as [[CX _]|[CX _]].
        * apply (i_disj _ _ I _ _ _ _ _ HA HY CX CY).
        * exfalso. apply Nq'. symmetry. apply (i_disj _ _ I _ _ _ _ _ HB HY CX CY).
      + injection HY as <-. apply J in CY. destruct CY as [[CY _]|[CY _]].
        * apply (i_disj _ _ I _ _ _ _ _ HX HA CX CY).
        * exfalso. apply Nq. apply (i_disj _ _ I _ _ _ _ _ HX HB CX CY).
      + apply (i_disj _ _ I _ _ _ _ _ HX HY CX CY).
    - intros j. destruct (i_cov _ _ I j) as (a & X & HX & CX).
      destruct (Z.eq_dec a p) as [->|Ne1]; [|destruct (Z.eq_dec a q) as [->|Ne2]].
      + exists p. rewrite PGS. replace (p =? q) with false by lia. rewrite Z.eqb_refl. eexists. split; [reflexivity|].
        apply J. left. rewrite HA in HX. injection HX as <-. auto.
      + exists p. rewrite PGS. replace (p =? q) with false by lia. rewrite Z.eqb_refl. eexists. split; [reflexivity|].
        apply J. right. rewrite HB in HX. injection HX as <-. auto.
      + exists a, X. rewrite PGS. replace (a =? q) with false by lia. replace (a =? p) with false by lia. auto. }
  change (fun csn ul : Z => upd (upd (s_pages s) p (Some (mkPage it (p_lo A) (p_hi B) csn ul))) q None) with put.
  destruct (unneeded (s_min s) (p_ul A) && unneeded (s_min s) (p_ul B) &&
            negb (drops (s_st s) x r A || drops (s_st s) x r B) && negb sq) eqn:Fz.
  - apply andb_true_iff in Fz. destruct Fz as [Fz _]. apply andb_true_iff in Fz. destruct Fz as [Fz D].
    apply andb_true_iff in Fz. destruct Fz as [U1 U2]. apply negb_true_iff in D.
    apply orb_false_iff in D. destruct D as [D1 D2].
    destruct (Part 0 (-1)) as [P1 P2].
    apply Inv_pages; auto. intros a X HX. change (put 0 (-1) a = Some X) in HX. rewrite PGS in HX.
    destruct (a =? q); [discriminate|]. destruct (a =? p); [|apply PG_pages; apply (i_pg _ _ I _ _ HX)].
    injection HX as <-. constructor; cbn; auto; try lia.
    + intros k Hk. apply (Lv 0 (-1)); auto.
    + intros i c ret h H1 H2.
      pose proof (g_ok _ _ _ GA _ _ _ _ H1 H2) as OA. pose proof (g_ok _ _ _ GB _ _ _ _ H1 H2) as OB.
      pose proof (i_snap _ _ I _ _ _ H1) as (Bc & _ & _).
      pose proof (OKp_unneeded _ _ _ _ _ _ _ I H1 U1 OA) as LA.
      pose proof (OKp_unneeded _ _ _ _ _ _ _ I H1 U2 OB) as LB.
      apply ok_here; [cbn; lia|]. cbn [p_it]. intros j Hj. apply J in Hj. destruct Hj as [[Hj _]|[Hj _]].
      * rewrite lA by auto. rewrite (drops_kept _ x x) by (auto; lia). apply (OKp_here _ _ _ _ _ _ OA); auto.
      * rewrite lB by auto. rewrite (drops_kept _ x x) by (auto; lia). apply (OKp_here _ _ _ _ _ _ OB); auto.
  - destruct (Part r (s_top s)) as [P1 P2].
    destruct (drops (s_st s) x r A || drops (s_st s) x r B) eqn:D.
    + apply Inv_rec; auto. intros a X HX. change (put r (s_top s) a = Some X) in HX. rewrite PGS in HX.
      destruct (a =? q); [discriminate|]. destruct (a =? p); [|apply PG_rec; auto; apply (i_pg _ _ I _ _ HX)].
      injection HX as <-. constructor; cbn; auto; try lia.
      * intros k Hk. apply (Lv r (s_top s)); auto.
      * intros i c ret h H1 H2.
        pose proof (g_ok _ _ _ GA _ _ _ _ H1 H2) as OA. pose proof (g_ok _ _ _ GB _ _ _ _ H1 H2) as OB.
        pose proof (i_snap _ _ I _ _ _ H1) as (Bc & Bt & _). unfold OKp. cbn.
        destruct (Z_lt_le_dec r c) as [L|L].
        -- apply ok_here; [lia|]. intros j Hj. apply J in Hj. destruct Hj as [[Hj _]|[Hj _]].
           ++ rewrite lA by auto. rewrite kept_vis by (auto; apply (g_srt _ _ _ GA)).
              apply (OKp_here _ _ _ _ _ _ OA); auto. lia.
           ++ rewrite lB by auto. rewrite kept_vis by (auto; apply (g_srt _ _ _ GB)).
              apply (OKp_here _ _ _ _ _ _ OB); auto. lia.
        -- apply (ok_merge _ _ _ _ _ _ _ _ _ _ _ A B b); auto; try lia.
           ++ apply upd_same.
           ++ intros k Hk Lk. apply J in Hk. destruct Hk as [[Hk _]|[Hk _]]; auto. apply cB in Hk. lia.
           ++ intros k Hk Lk. apply J in Hk. destruct Hk as [[Hk _]|[Hk _]]; auto. apply cA in Hk. lia.
           ++ apply (g_in _ _ _ GA).
           ++ apply (g_in _ _ _ GB).
           ++ apply (OKp_recs _ _ (s_recs s)); auto. intros u y _ Hy. apply (fresh_rec s t); auto.
           ++ apply (OKp_recs _ _ (s_recs s)); auto. intros u y _ Hy. apply (fresh_rec s t); auto.
    + apply orb_false_iff in D. destruct D as [D1 D2].
      assert (lA' : forall k, cov A k -> look it k = look (p_it A) k).
      { intros k Hk. rewrite lA by auto. rewrite (drops_kept _ x x) by (auto; lia). auto. }
      assert (lB' : forall k, cov B k -> look it k = look (p_it B) k).
      { intros k Hk. rewrite lB by auto. rewrite (drops_kept _ x x) by (auto; lia). auto. }
      apply Inv_rec; auto. intros a X HX. change (put r (s_top s) a = Some X) in HX. rewrite PGS in HX.
      destruct (a =? q); [discriminate|]. destruct (a =? p); [|apply PG_rec; auto; apply (i_pg _ _ I _ _ HX)].
      injection HX as <-. constructor; cbn; auto; try lia.
      * intros k Hk. apply (Lv r (s_top s)); auto.
      * intros i c ret h H1 H2.
        pose proof (g_ok _ _ _ GA _ _ _ _ H1 H2) as OA. pose proof (g_ok _ _ _ GB _ _ _ _ H1 H2) as OB.
        pose proof (i_snap _ _ I _ _ _ H1) as (Bc & Bt & _). unfold OKp. cbn.
        destruct (Z_lt_le_dec r c) as [L|L].
        -- apply ok_here; [lia|]. intros j Hj. apply J in Hj. destruct Hj as [[Hj _]|[Hj _]].
           ++ rewrite lA' by auto. apply (OKp_here _ _ _ _ _ _ OA); auto. lia.
           ++ rewrite lB' by auto. apply (OKp_here _ _ _ _ _ _ OB); auto. lia.
        -- apply (ok_mdiff _ _ _ _ _ _ _ _ _ _ _ b (p_csn A) (p_ul A) (p_csn B) (p_ul B)); auto; try lia.
           ++ apply upd_same.
           ++ intros l El. injection El as <-. destruct (g_ne _ _ _ GA) as [k Hk]. pose proof (cA _ Hk).
              apply cov_iff in Hk. destruct (p_lo A); cbn in *; auto. lia.
           ++ apply (OK_mono _ _ _ _ _ _ _ _ _ _ _ OA); auto.
              ** intros u y _ Hy. apply (fresh_rec s t); auto.
              ** intros k [Hk Lk]. apply J in Hk. destruct Hk as [[Hk _]|[Hk _]]; auto. apply cB in Hk. lia.
              ** intros k [Hk Lk]. apply J in Hk. destruct Hk as [[Hk _]|[Hk Q]]; [rewrite lA'; auto|lia].
              ** rewrite EA. cbn. lia.
           ++ apply (OK_mono _ _ _ _ _ _ _ _ _ _ _ OB); auto.
              ** intros u y _ Hy. apply (fresh_rec s t); auto.
              ** intros k [Hk Lk]. apply J in Hk. destruct Hk as [[Hk _]|[Hk _]]; auto. apply cA in Hk. lia.
              ** intros k [Hk Lk]. apply J in Hk. destruct Hk as [[Hk Q]|[Hk _]]; [lia|rewrite lB'; auto].
              ** apply ohle_refl.
              ** left. rewrite EB. auto.
Qed.

(* ---------------------------------------------------------- rows and transactions *)

Lemma LV_later : forall st nx nx' t k l, nx <= nx' -> LV st nx t k l -> LV st nx' t k l.
Proof.
  intros st nx nx' t k l L (pre & post & E & O & C & D). exists pre, post. split; auto. split; auto. split; auto.
  intros w Hw. destruct (C w Hw) as (d & E1 & E2). exists d. split; auto. lia.
Qed.

Lemma step_tick : forall s t, Inv s t -> Inv (step s Tick) t.
Proof.
  intros s t I. destruct I. constructor; cbn; auto; try lia.
  - intros p P H. destruct (i_pg0 p P H). constructor; cbn; auto; try lia.
    intros k Hk. apply (LV_later _ (s_next s)); auto. lia.
  - intros i c ret H. destruct (i_snap0 _ _ _ H) as (A & B & C). split; [lia|auto].
Qed.

Lemma filter_same : forall A (f : A -> bool) l, (forall x, In x l -> f x = true) -> filter f l = l.
Proof.
  intros A f l. induction l as [|x r IH]; intros H; cbn; auto.
  rewrite H by (cbn; auto). f_equal. apply IH. intros y Hy. apply H. cbn. auto.
Qed.
Lemma filter_no : forall A (f : A -> bool) l, (forall x, In x l -> f x = false) -> filter f l = [].
Proof.
  intros A f l. induction l as [|x r IH]; intros H; cbn; auto.
  rewrite H by (cbn; auto). apply IH. intros y Hy. apply H. cbn. auto.
Qed.

Lemma top_own : forall s t k l o, LV (s_st s) (s_next s) t k l ->
  top_of s l o = match t_own t k with None => true | Some o' => o' =? o end.
Proof.
  intros s t k l o (pre & post & E & O & C & _). subst l. destruct (t_own t k) as [o'|].
  - destruct O as (O1 & (pre' & ->) & _). cbn. rewrite O1. apply orb_false_r.
  - subst pre. cbn. destruct post as [|[o' v] r]; auto. cbn.
    destruct (C (o', v) (or_introl eq_refl)) as (d & Ed & _). cbn in Ed. rewrite Ed. apply orb_true_r.
Qed.

Lemma step_write : forall s t o k v, Inv s t -> Inv (step s (Write o k v)) (tstep t (Write o k v)).
Proof.
  intros s t o k v I. cbn. rewrite (i_fin _ _ I).
  destruct (s_st s o) eqn:So; auto.
  set (f := fun P => if covers P k && top_of s (look (p_it P) k) o then set_it P (push (p_it P) k (o, v)) else P).
  set (t' := if match t_own t k with None => true | Some o' => o' =? o end
             then mkTruth (t_db t) (upd (t_own t) k (Some o)) (upd (t_new t) k v) (t_fin t) (t_snap t) else t).
  assert (Ts : t_snap t' = t_snap t) by (unfold t'; destruct (match t_own t k with None => true | Some o' => o' =? o end); auto).
  assert (Tf : t_fin t' = t_fin t) by (unfold t'; destruct (match t_own t k with None => true | Some o' => o' =? o end); auto).
  assert (Cf : forall P j, cov (f P) j <-> cov P j).
  { intros P j. unfold f. destruct (covers P k && top_of s (look (p_it P) k) o); [|tauto].
    unfold cov, covers. cbn. tauto. }
  assert (Pg : forall p P, on_pages s f p = Some P -> exists Q, s_pages s p = Some Q /\ P = f Q).
  { intros p P H. unfold on_pages in H. destruct (s_pages s p) as [Q|]; [|discriminate].
    injection H as <-. eauto. }
  assert (PGf : forall P, PG s t P -> PG (with_pages s (on_pages s f)) t' (f P)).
  { intros P G.
    assert (Lf : forall j, cov P j -> vis (s_st s) 0 [] = None). { auto. }
    assert (Other : covers P k = false -> PG (with_pages s (on_pages s f)) t' P).
    { intros Nc. destruct G. constructor; cbn; auto.
      - intros j Hj. specialize (g_live0 j Hj).
        assert (j <> k) by (intros ->; unfold cov in Hj; congruence).
        unfold t'. destruct (match t_own t k with None => true | Some o' => o' =? o end); auto.
        unfold LV in *. cbn. rewrite !upd_other by auto. auto.
      - intros i c ret h H1 H2. rewrite Ts in H2. eauto. }
    unfold f. destruct (covers P k) eqn:Ck; cbn [andb]; [|auto].
    rewrite (top_own s t k _ o (g_live _ _ _ G k Ck)).
    pose proof (g_live _ _ _ G k Ck) as Lk.
    unfold t'. destruct (match t_own t k with None => true | Some o' => o' =? o end) eqn:Al.
    - destruct G. constructor; cbn; auto.
      + apply srt_push. auto.
      + intros i Hi. cbn in Hi. change (covers P (fst i) = true). apply push_in in Hi. destruct Hi as [->|(j & Hj & <-)]; [auto|apply g_in0; auto].
      + intros j Hj. change (cov P j) in Hj. rewrite look_push by auto. unfold LV. cbn.
        destruct (Z.eqb_spec j k) as [->|Ne].
        * rewrite !upd_same. destruct Lk as (pre & post & E & O & C & D).
          exists ((o, v) :: pre), post. rewrite E. split; auto. split; auto.
          split; auto. split; [exists pre; auto|].
          intros w [<-|Hw]; auto. destruct (t_own t k) as [o'|].
          -- destruct O as (_ & _ & O). rewrite (O w Hw). lia.
          -- subst pre. destruct Hw.
        * rewrite !upd_other by auto. apply g_live0. auto.
      + intros i c ret h H1 H2. specialize (g_ok0 _ _ _ _ H1 H2). unfold OKp in *. cbn.
        apply (OK_mono _ _ _ _ _ _ _ _ _ _ _ g_ok0); auto using ohle_refl.
        intros j Hj. rewrite look_push by auto. destruct (Z.eqb_spec j k) as [->|Ne]; auto.
        apply vis_push. auto.
    - apply PG_pages. auto. }
  destruct I. constructor; cbn; auto.
  - intros p P H. destruct (Pg p P H) as (Q & HQ & ->). apply PGf. apply (i_pg0 p). auto.
  - intros p q P Q j HP HQ CP CQ. destruct (Pg _ _ HP) as (P0 & HP0 & ->). destruct (Pg _ _ HQ) as (Q0 & HQ0 & ->).
    apply (i_disj0 p q P0 Q0 j); auto; apply (proj1 (Cf _ _)); auto.
  - intros j. destruct (i_cov0 j) as (p & P & HP & CP). exists p, (f P). split.
    + unfold on_pages. rewrite HP. auto.
    + apply Cf. auto.
  - intros o'. fold t'. rewrite Tf. auto.
  - intros i c ret H. fold t'. rewrite Ts. auto.
  - intros i H. fold t' in H. rewrite Ts in H. auto.
Qed.

Lemma step_commit : forall s t o, Inv s t -> Inv (step s (Commit o)) (tstep t (Commit o)).
Proof.
  intros s t o I. cbn. rewrite (i_fin _ _ I). destruct (s_st s o) eqn:So; auto.
  pose proof (i_next _ _ I) as N. destruct I. constructor; cbn; auto; try lia.
  - intros p P H. destruct (i_pg0 p P H). constructor; cbn; auto; try lia.
    + intros k Hk. specialize (g_live0 k Hk). destruct g_live0 as (pre & post & E & O & C & D).
      unfold LV, mine. cbn.
      assert (Po : forall w, In w post -> exists d, upd (s_st s) o (Com (s_next s)) (fst w) = Com d /\ d < s_next s + 1).
      { intros w Hw. destruct (C w Hw) as (d & E1 & E2). exists d. rewrite upd_other; [split; [auto|lia]|congruence]. }
      destruct (t_own t k) as [o'|] eqn:Ow.
      * destruct O as (O1 & (pre' & O2) & O3). destruct (Z.eqb_spec o' o) as [->|Ne].
        -- exists [], (pre ++ post). split; [auto|]. split; [auto|]. split.
           ++ intros w Hw. apply in_app_or in Hw. destruct Hw as [Hw|Hw]; auto.
              exists (s_next s). rewrite (O3 w Hw). rewrite upd_same. split; [auto|lia].
           ++ rewrite O2. cbn. auto.
        -- exists pre, post. split; [auto|]. split; [|auto]. rewrite upd_other by auto.
           split; [auto|]. split; [exists pre'; auto|auto].
      * exists pre, post. auto.
    + intros i c ret h H1 H2. specialize (g_ok0 _ _ _ _ H1 H2).
      destruct (i_snap0 _ _ _ H1) as (A & _ & _). unfold OKp in *.
      apply (OK_mono _ _ _ _ _ _ _ _ _ _ _ g_ok0); auto using ohle_refl.
      intros l. apply vis_end; auto; [right; eauto|]. intros d Ed. injection Ed as <-. lia.
  - intros o'. unfold upd. destruct (o' =? o); auto.
  - intros o' d H. unfold upd in H. destruct (o' =? o).
    + injection H as <-. lia.
    + specialize (i_com0 _ _ H). lia.
  - intros i c ret H. destruct (i_snap0 _ _ _ H) as (A & B & C). split; [lia|auto].
Qed.

Lemma step_abort : forall s t o, Inv s t -> Inv (step s (Abort o)) (tstep t (Abort o)).
Proof.
  intros s t o I. cbn. rewrite (i_fin _ _ I). destruct (s_st s o) eqn:So; auto.
  pose proof (i_next _ _ I) as N.
  set (f := fun P => set_it P (unver o (p_it P))).
  assert (Pg : forall p P, on_pages s f p = Some P -> exists Q, s_pages s p = Some Q /\ P = f Q).
  { intros p P H. unfold on_pages in H. destruct (s_pages s p) as [Q|]; [|discriminate].
    injection H as <-. eauto. }
  assert (Cf : forall P j, cov (f P) j <-> cov P j) by (intros P j; unfold cov, covers; cbn; tauto).
  destruct I. constructor; cbn; auto; try lia.
  - intros p P H. destruct (Pg p P H) as (Q & HQ & ->). clear H. destruct (i_pg0 p Q HQ).
    constructor; cbn; auto.
    + apply srt_unver. auto.
    + intros i Hi. cbn in Hi. apply unver_in in Hi. destruct Hi as (j & Hj & <-). apply g_in0. auto.
    + intros k Hk. apply (proj1 (Cf _ _)) in Hk. specialize (g_live0 k Hk). rewrite look_unver by auto.
      destruct g_live0 as (pre & post & E & O & C & D). unfold LV, mine. cbn. rewrite E, filter_app.
      assert (Fp : filter (fun w => negb (fst w =? o)) post = post).
      { apply filter_same. intros w Hw. destruct (C w Hw) as (d & E1 & _).
        destruct (Z.eqb_spec (fst w) o) as [X|X]; auto. rewrite X in E1. congruence. }
      assert (Po : forall w, In w post -> exists d, upd (s_st s) o Abt (fst w) = Com d /\ d < s_next s).
      { intros w Hw. destruct (C w Hw) as (d & E1 & E2). exists d. rewrite upd_other; [auto|congruence]. }
      destruct (t_own t k) as [o'|] eqn:Ow.
      * destruct O as (O1 & (pre' & O2) & O3). destruct (Z.eqb_spec o' o) as [->|Ne].
        -- exists [], post. split; [|auto]. match goal with |- ?a ++ _ = _ => assert (X : a = []) end;
             [apply filter_no|rewrite X; exact Fp].
           intros w Hw. rewrite (O3 w Hw), Z.eqb_refl. auto.
        -- exists pre, post. split.
           ++ match goal with |- ?a ++ _ = _ => assert (X : a = pre) end; [apply filter_same|rewrite X; f_equal; exact Fp].
              intros w Hw. rewrite (O3 w Hw). apply negb_true_iff. lia.
           ++ split; [|auto]. rewrite upd_other by auto. split; [auto|]. split; [exists pre'; auto|auto].
      * subst pre. exists [], post. split; [exact Fp|auto].
    + intros i c ret h H1 H2. specialize (g_ok0 _ _ _ _ H1 H2). unfold OKp in *. cbn.
      apply (OK_mono _ _ _ _ _ _ _ _ _ _ _ g_ok0); auto using ohle_refl.
      * intros l. apply vis_end; auto. discriminate.
      * intros k Hk. rewrite look_unver by auto. apply vis_filter. auto.
  - intros p q P Q j HP HQ CP CQ. destruct (Pg _ _ HP) as (P0 & HP0 & ->). destruct (Pg _ _ HQ) as (Q0 & HQ0 & ->).
    apply (i_disj0 p q P0 Q0 j); auto; apply (proj1 (Cf _ _)); auto.
  - intros j. destruct (i_cov0 j) as (p & P & HP & CP). exists p, (f P). split.
    + unfold on_pages. rewrite HP. auto.
    + apply Cf. auto.
  - intros o'. unfold upd. destruct (o' =? o); auto.
  - intros o' d H. unfold upd in H. destruct (o' =? o); [discriminate|]. eauto.
Qed.

Lemma step_snap : forall s t i ret, Inv s t -> Inv (step s (Snap i ret)) (tstep t (Snap i ret)).
Proof.
  intros s t i ret I. cbn.
  destruct (existsb (fun e => fst e =? i) (s_snap s)) eqn:Ex.
  - apply existsb_exists in Ex. destruct Ex as ([i' [c r]] & Hi & Ei). cbn in Ei.
    assert (i' = i) by lia. subst i'. destruct (i_snap _ _ I _ _ _ Hi) as (_ & _ & X).
    destruct (t_snap t i); [auto|congruence].
  - assert (Nn : forall e, ~ In (i, e) (s_snap s)).
    { intros e He. assert (existsb (fun e => fst e =? i) (s_snap s) = true); [|congruence].
      apply existsb_exists. exists (i, e). split; auto. cbn. lia. }
    destruct (t_snap t i) eqn:Ti.
    + exfalso. destruct (i_snap2 _ _ I i) as [e He]; [congruence|]. apply (Nn e He).
    + pose proof (i_next _ _ I) as N. pose proof (i_min _ _ I) as M.
      destruct I. constructor; cbn; auto.
      * intros p P H. destruct (i_pg0 p P H). constructor; cbn; auto.
        intros j c r h [Hj|Hj] Hh.
        -- injection Hj as <- <- <-. rewrite upd_same in Hh. injection Hh as <-.
           apply ok_here; [lia|]. intros k Hk. apply (LV_vis _ _ t). auto.
        -- rewrite upd_other in Hh by (intros ->; apply (Nn _ Hj)). eauto.
      * intros j c r [Hj|Hj].
        -- injection Hj as <- <- <-. rewrite upd_same. split; [lia|]. split; [lia|discriminate].
        -- rewrite upd_other by (intros ->; apply (Nn _ Hj)). auto.
      * intros j Hj. unfold upd in Hj. destruct (Z.eq_dec j i) as [E|Ne].
        -- subst j. eexists. left. reflexivity.
        -- replace (j =? i) with false in Hj by lia. destruct (i_snap4 j Hj) as [e He]. exists e. auto.
      * intros j e e' [H1|H1] [H2|H2].
        -- congruence.
        -- injection H1 as <- <-. exfalso. apply (Nn _ H2).
        -- injection H2 as <- <-. exfalso. apply (Nn _ H1).
        -- eauto.
Qed.

Lemma step_drop : forall s t i, Inv s t -> Inv (step s (Drop i)) (tstep t (Drop i)).
Proof.
  intros s t i I. cbn.
  assert (F : forall j e, In (j, e) (filter (fun e : Z * (Z * Z) => negb (fst e =? i)) (s_snap s)) <->
                          In (j, e) (s_snap s) /\ j <> i).
  { intros j e. rewrite filter_In. cbn. rewrite negb_true_iff, Z.eqb_neq. tauto. }
  destruct I. constructor; cbn; auto.
  - intros p P H. destruct (i_pg0 p P H). constructor; cbn; auto.
    intros j c r h Hj Hh. apply F in Hj. destruct Hj as [Hj Ne]. rewrite upd_other in Hh by auto. eauto.
  - intros j c r Hj. apply F in Hj. destruct Hj as [Hj Ne]. rewrite upd_other by auto. auto.
  - intros j Hj. unfold upd in Hj. destruct (Z.eq_dec j i) as [E|Ne].
    { replace (j =? i) with true in Hj by lia. congruence. }
    replace (j =? i) with false in Hj by lia.
    destruct (i_snap4 j Hj) as [e He]. exists e. apply F. auto.
  - intros j e e' H1 H2. apply F in H1, H2. destruct H1, H2. eauto.
Qed.

Lemma step_retain : forall s t m, Inv s t -> Inv (step s (Retain m)) t.
Proof.
  intros s t m I. cbn.
  destruct ((s_min s <=? m) && (m <=? s_top s) && forallb (fun e => m <=? snd (snd e)) (s_snap s)) eqn:G; auto.
  apply andb_true_iff in G. destruct G as [G1 G2].
  assert (S : forall i c ret, In (i, (c, ret)) (s_snap s) -> m <= ret).
  { intros i c ret H. rewrite forallb_forall in G2. specialize (G2 _ H). cbn in G2. lia. }
  destruct I. constructor; cbn; auto; try lia.
  - intros u r H. destruct (u <? m); [discriminate|]. eauto.
  - intros p P H. destruct (i_pg0 p P H). constructor; cbn; auto.
    intros j c r h Hj Hh. apply (OKp_recs _ _ (s_recs s)); [|eauto].
    intros u x Hu Hx. specialize (S _ _ _ Hj). replace (u <? m) with false by lia. auto.
  - intros i c ret H. destruct (i_snap0 _ _ _ H) as (A & B & C). specialize (S _ _ _ H).
    split; [auto|]. split; [lia|auto].
Qed.

Lemma Inv_step : forall s t a, (forall p q r x1 x2 sq, a = Merge p q r x1 x2 sq -> x1 = x2) ->
  Inv s t -> Inv (step s a) (tstep t a).
Proof.
  intros s t a Hc I. destruct a.
  - apply step_tick. auto.
  - apply step_write. auto.
  - apply step_commit. auto.
  - apply step_abort. auto.
  - apply step_snap. auto.
  - apply step_drop. auto.
  - apply step_retain. auto.
  - cbn. destruct (s_pages s p) as [P|] eqn:HP; auto.
    destruct ((p_csn P <? r) && (r <? s_next s)) eqn:G; auto.
    apply andb_true_iff in G. apply step_compact; auto; lia.
  - cbn. destruct (s_pages s p) as [P|] eqn:HP; auto. destruct (s_pages s q) as [Q|] eqn:HQ; auto.
    destruct ((p_csn P <? r) && (r <? s_next s) && (x1 <=? x2) && covers P s0 &&
              match p_lo P with None => true | Some a => a <? s0 end) eqn:G; auto.
    rewrite !andb_true_iff in G. destruct G as [[[[G1 G2] G3] G4] G5].
    apply step_split; auto; lia.
  - cbn. destruct (s_pages s p) as [A|] eqn:HA; auto. destruct (s_pages s q) as [B|] eqn:HB; auto.
    destruct (p_hi A) as [b|] eqn:EA; auto. destruct (p_lo B) as [b'|] eqn:EB; auto.
    destruct ((b =? b') && (p_csn A <? r) && (p_csn B <? r) && (r <? s_next s) && (x1 <=? x2)) eqn:G; auto.
    rewrite !andb_true_iff in G. destruct G as [[[[G1 G2] G3] G4] G5].
    rewrite (Hc _ _ _ _ _ _ eq_refl). apply step_merge; auto; try lia. rewrite EB. f_equal. lia.
Qed.

Lemma Inv_run : forall ops, calm ops -> Inv (run step init ops) (run tstep empty ops).
Proof.
  intros ops C. assert (X : forall s t, Inv s t -> Inv (run step s ops) (run tstep t ops)).
  { revert C. induction ops as [|a r IH]; intros C s t I; [exact I|].
    unfold run in *. cbn [fold_left]. apply IH.
    - intros p q n x1 x2 sq H. apply (C p q n x1 x2 sq). cbn. auto.
    - apply Inv_step; auto. intros p q n x1 x2 sq E. apply (C p q n x1 x2 sq). cbn. auto. }
  apply X. apply Inv_init.
Qed.

(** What a read gives. *)
Lemma read_ok : forall s t i c ret h p P q, Inv s t -> In (i, (c, ret)) (s_snap s) -> t_snap t i = Some h ->
  s_pages s p = Some P ->
  exists sn, read (s_recs s) c q P = Some sn /\
  exists R' : Z -> Prop,
    (forall k, R' k -> vis (s_st s) c (look (p_it (v_pg sn)) k) = h k) /\
    (forall k, look (p_it (v_pg sn)) k <> [] -> R' k) /\
    (lows q (cov P) -> lows q R') /\
    (v_wide sn = false -> lows q (cov P) -> fw q (cov P) (p_hi P) -> fw q R' (p_hi (v_pg sn))) /\
    ((exists k, ends q k) -> tops q (cov P) ->
       (forall k, above (p_lo P) k -> ends q k -> cov P k) ->
       match v_lo sn with
       | Some a => ends q a /\ forall k, a <= k -> ends q k -> R' k
       | None => forall k, above (p_lo P) k -> ends q k -> R' k
       end).
Proof.
  intros s t i c ret h p P q I H Hh HP. pose proof (i_pg _ _ I _ _ HP) as G.
  pose proof (g_ok _ _ _ G _ _ _ _ H Hh) as O. unfold read.
  destruct (Z.leb_spec c (p_csn P)) as [L|L].
  - destruct (i_snap _ _ I _ _ _ H) as (_ & B & _). pose proof (i_min _ _ I) as M.
    destruct (walk_ok _ _ _ _ _ _ _ _ _ _ _ O ltac:(lia) L q (p_lo P) P None None false
                (Z.to_nat (p_ul P) + 1)%nat)
      as (sn & W & R' & C1 & C2 & C3 & C4 & C5 & C6); auto; try lia.
    + intros k Hk. apply within_look; auto. apply (g_in _ _ _ G).
    + intros k Hk. apply cov_iff in Hk. tauto.
    + exists sn. split; auto. exists R'. split; [auto|]. split; [auto|]. split; [auto|]. split; [auto|].
      intros X T Bq. apply C5; auto. cbn. split; auto. exists (p_lo P). split; auto.
  - eexists. split; [reflexivity|]. cbn. exists (cov P).
    split; [apply (OKp_here _ _ _ _ _ _ O L)|]. split; [intros k Hk; apply within_look; auto; apply (g_in _ _ _ G)|].
    split; [auto|]. split; [auto|]. auto.
Qed.
