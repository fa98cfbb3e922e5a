(** Proofs about copy-on-write checkpoints. *)
From Coq Require Import ZArith List Bool Lia ZifyBool.
From Verif Require Import Base CowModel CowSpec.
Import ListNotations.
Open Scope Z_scope.

Definition blocks (i : list entry) : list Z := map e_blk i.

(** Where an image's block is: still the block of a page not written since, or
    freed for a later checkpoint. *)
Definition loc (s : state) (K : Z) (b : Z) : Prop :=
  (exists p g, s_pages s p = Some g /\ g_ext g = Some b /\ g_chk g <= K) \/ (exists n, n > K /\ In b (s_tmp s n)).
Definition locc (s : state) (b : Z) : Prop :=
  (exists p g, s_pages s p = Some g /\ g_ext g = Some b /\ g_chk g <= s_last s + 1 /\ (s_phase s = PWalk -> g_vis g = true))
  \/ (exists n, n > s_last s + 1 /\ In b (s_tmp s n)).

Record Inv (s : state) : Prop := {
  i_last : 0 <= s_last s;
  i_fnum : s_fnum s <= s_last s;
  i_dur : s_dur s = match s_phase s with PControl => s_last s + 1 | _ => s_last s end;
  i_vis : forall p g, s_pages s p = Some g -> s_phase s = PBefore -> g_vis g = false;
  i_pages : blocks_distinct s;
  i_used : blocks_not_free s;
  i_plen : forall p g b, s_pages s p = Some g -> g_ext g = Some b -> b < s_len s;
  i_free : NoDup (s_free s);
  i_freet : forall b n, In b (s_free s) -> ~ In b (s_tmp s n);
  i_flen : forall b, In b (s_free s) -> b < s_len s;
  i_tmp : forall n, NoDup (s_tmp s n);
  i_tmps : forall n m b, In b (s_tmp s n) -> In b (s_tmp s m) -> n = m;
  i_tlen : forall n b, In b (s_tmp s n) -> b < s_len s;
  i_tnum : forall n b, In b (s_tmp s n) -> s_fnum s < n <= (match s_phase s with PBefore => s_last s + 1 | _ => s_last s + 2 end);
  i_chk : forall p g, s_pages s p = Some g -> g_chk g <= wnum s (g_vis g);
  i_dimg : forall b v c, In (b, v, c) (s_dimg s) -> s_disk s b = v /\ c <= s_dur s /\ loc s (s_dur s) b /\ b < s_dlen s;
  i_cimg : forall b v c, In (b, v, c) (s_cimg s) -> s_disk s b = v /\ c <= s_last s + 1 /\ locc s b /\ b < s_len s;
  i_cnil : s_phase s = PBefore -> s_cimg s = [];
  i_cnd : NoDup (blocks (s_cimg s));
  i_next1 : s_phase s = PBefore \/ s_phase s = PWalk -> NoDup (s_next s (s_last s + 1))
            /\ forall b, In b (s_next s (s_last s + 1)) -> ~ In b (blocks (s_cimg s)) /\
                 (In b (s_tmp s (s_last s + 1)) \/ In b (s_tmp s (s_last s + 2))
                  \/ exists p g, s_pages s p = Some g /\ g_ext g = Some b /\ g_chk g = s_last s + 2);
  i_next2 : NoDup (s_next s (s_last s + 2)) /\ forall b, In b (s_next s (s_last s + 2)) -> In b (s_tmp s (s_last s + 2));
  i_next3 : forall n, n > s_last s + 2 -> s_next s n = [];
  i_cmap : s_phase s = PDone \/ s_phase s = PControl -> NoDup (s_cmap s) /\ s_clen s <= s_len s
            /\ (forall b, In b (s_cmap s) -> ~ In b (blocks (s_cimg s)) /\ b < s_clen s)
            /\ (forall b, In b (blocks (s_cimg s)) -> b < s_clen s);
  i_dmap : NoDup (s_dmap s) /\ NoDup (blocks (s_dimg s)) /\ s_dlen s <= s_len s
            /\ (forall b, In b (s_dmap s) -> ~ In b (blocks (s_dimg s)) /\ b < s_dlen s)
            /\ (forall b, In b (blocks (s_dimg s)) -> b < s_dlen s)
}.

Lemma blocks_in : forall i b, In b (blocks i) <-> exists v c, In (b, v, c) i.
Proof.
  intros; unfold blocks. rewrite in_map_iff. split.
  - intros [[[b' v] c] [<- H]]. exists v, c. exact H.
  - intros [v [c H]]. exists (b, v, c). split; auto.
Qed.

Lemma wnum_range : forall s vis, s_last s + 1 <= wnum s vis <= s_last s + 2.
Proof. intros s vis; unfold wnum; destruct (s_phase s), vis; lia. Qed.

Lemma init_Inv : Inv init.
Proof.
  constructor; unfold blocks_distinct, blocks_not_free; cbn; intros; try lia; try discriminate; try contradiction; auto;
    try (split; [constructor|intros; contradiction]); try constructor.
  all: repeat split; try constructor; try lia; intros; try contradiction.
Qed.

(** * Taking a block *)
Definition fresh (s : state) (b : Z) : Prop :=
  ~ In b (s_free s) /\ (forall n, ~ In b (s_tmp s n)) /\ (forall p g, s_pages s p = Some g -> g_ext g <> Some b) /\ b < s_len s.

(** Everything but the free lists. *)
Definition same (s s' : state) : Prop :=
  s_last s' = s_last s /\ s_phase s' = s_phase s /\ s_pages s' = s_pages s /\ s_disk s' = s_disk s /\ s_next s' = s_next s
  /\ s_cimg s' = s_cimg s /\ s_dimg s' = s_dimg s /\ s_scans s' = s_scans s /\ s_dur s' = s_dur s.

Lemma switch_once_Inv : forall s, Inv s -> Inv (switch_once s) /\ same s (switch_once s).
Proof.
  intros s I. unfold switch_once. destruct (s_free s) as [|b0 r0] eqn:F; [|split; [exact I|repeat split]].
  destruct (can_use s (s_fnum s + 1)) eqn:C; [|split; [exact I|repeat split]].
  split; [|repeat split]. unfold can_use in C. apply andb_true_iff in C. destruct C as [C1 _].
  set (k := s_fnum s + 1) in *. assert (Kl : k <= s_last s) by lia.
  assert (T : forall n b, In b (upd (s_tmp s) k [] n) -> n <> k /\ In b (s_tmp s n)).
  { intros n b H. destruct (Z.eq_dec n k) as [->|N]; [rewrite upd_same in H; contradiction|rewrite upd_other in H by auto; auto]. }
  assert (T2 : forall n, n <> k -> upd (s_tmp s) k [] n = s_tmp s n) by (intros; apply upd_other; auto).
  destruct I. constructor; unfold set_tmp, set_free; cbn [s_last s_phase s_pages s_disk s_tmp s_next s_fnum s_free s_len s_scans s_cimg s_cmap s_clen s_dur s_dimg s_dmap s_dlen]; auto.
  - intros p g b P E. destruct (i_used0 p g b P E) as [_ U]. split; [apply U|]. intros n H. apply T in H. exact (U n (proj2 H)).
  - intros b n H H2. apply T in H2. destruct H2 as [N H2]. apply N. symmetry. eapply i_tmps0; eauto.
  - intros b H. eapply i_tlen0; eauto.
  - intros n. destruct (Z.eq_dec n k) as [->|N]; [rewrite upd_same; constructor|rewrite T2; auto].
  - intros n m b H1 H2. apply T in H1. apply T in H2. eapply i_tmps0; [apply H1|apply H2].
  - intros n b H. apply T in H. eapply i_tlen0; apply H.
  - intros n b H. apply T in H. destruct H as [N H]. pose proof (i_tnum0 n b H). unfold k in *. lia.
  - intros b v c H. destruct (i_dimg0 b v c H) as [A [B [L D]]]. repeat split; auto.
    destruct L as [L|[n [G L]]]; [left; exact L|right; exists n; split; auto]. cbn [s_tmp]. rewrite T2; auto.
    assert (s_last s <= s_dur s) by (rewrite i_dur0; destruct (s_phase s); lia). lia.
  - intros b v c H. destruct (i_cimg0 b v c H) as [A [B [L D]]]. repeat split; auto.
    destruct L as [L|[n [G L]]]; [left; exact L|right; exists n; split; auto]. cbn [s_tmp]. rewrite T2; auto. lia.
  - intros P. destruct (i_next4 P) as [N1 N2]. split; auto. intros b H. destruct (N2 b H) as [X Y]. split; auto.
    rewrite !T2 by lia. exact Y.
  - rewrite T2 by lia. auto.
Qed.

Lemma switch_Inv : forall n s, Inv s -> Inv (switch n s) /\ same s (switch n s).
Proof.
  induction n; intros s I; cbn [switch]; [split; [exact I|repeat split]|].
  destruct (switch_once_Inv s I) as [I1 S1]. destruct (IHn _ I1) as [I2 S2]. split; auto.
  unfold same in *. intuition congruence.
Qed.

Lemma alloc_Inv : forall s s2 b, Inv s -> alloc s = (s2, b) -> Inv s2 /\ same s s2 /\ fresh s2 b /\ ~ In b (blocks (s_cimg s2)) /\ ~ In b (blocks (s_dimg s2)).
Proof.
  intros s s2 b I E. unfold alloc in E. cbv zeta in E. destruct (switch_Inv (Z.to_nat (s_last s - s_fnum s)) s I) as [I1 S1].
  set (s1 := switch _ s) in *. clearbody s1. clear I.
  assert (Q : Inv s2 /\ same s1 s2 /\ fresh s2 b).
  { destruct (s_free s1) as [|b0 r] eqn:F; injection E as <- <-.
    - split; [|split; [repeat split|]].
      + destruct I1. constructor; unfold set_free; cbn; auto; try lia.
        * intros p g b P X. destruct (i_used0 p g b P X) as [_ U]. split; [intros []|exact U].
        * intros p g b P X. pose proof (i_plen0 p g b P X). lia.
        * constructor.
        * intros b v c H. destruct (i_cimg0 b v c H) as [A [B [L D]]]. repeat split; auto. lia.
        * intros P. destruct (i_cmap0 P) as [A [B C]]. split; [exact A|split; [lia|exact C]].
        * destruct i_dmap0 as [A [B [C D]]]. split; [exact A|split; [exact B|split; [lia|exact D]]].
      + destruct I1. repeat split; cbn; auto; try lia.
        * intros n H. pose proof (i_tlen0 n _ H). lia.
        * intros p g P X. pose proof (i_plen0 p g _ P X). lia.
    - assert (ND : NoDup (b0 :: r)) by (rewrite <- F; apply (i_free _ I1)). inversion ND as [|? ? NI ND']; subst.
      assert (IN : In b0 (s_free s1)) by (rewrite F; left; reflexivity).
      split; [|split; [repeat split|]].
      + destruct I1. constructor; unfold set_free; cbn; auto; try lia.
        * intros p g b P X. destruct (i_used0 p g b P X) as [U1 U2]. rewrite F in U1. split; auto. intros H; apply U1; right; exact H.
        * intros b n H. apply i_freet0. rewrite F; right; exact H.
        * intros b H. apply i_flen0. rewrite F; right; exact H.
      + destruct I1. repeat split; cbn; auto.
        * intros p g P X. destruct (i_used0 p g b0 P X) as [U1 _]. auto. }
  destruct Q as [I2 [S2 FR]]. split; [exact I2|]. split; [unfold same in *; intuition congruence|]. split; [exact FR|].
  destruct FR as [F1 [F2 [F3 F4]]]. destruct I2. split.
  - intros H. apply blocks_in in H. destruct H as [v [c H]]. destruct (i_cimg0 _ _ _ H) as [_ [_ [[[p [g [P [X _]]]]|[n [_ X]]] _]]].
    + exact (F3 p g P X).
    + exact (F2 n X).
  - intros H. apply blocks_in in H. destruct H as [v [c H]]. destruct (i_dimg0 _ _ _ H) as [_ [_ [[[p [g [P [X _]]]]|[n [_ X]]] _]]].
    + exact (F3 p g P X).
    + exact (F2 n X).
Qed.

Ltac fld := cbn [s_last s_phase s_pages s_disk s_tmp s_next s_fnum s_free s_len s_scans s_cimg s_cmap s_clen s_dur s_dimg s_dmap s_dlen
                 set_page set_disk set_tmp set_next set_free set_img set_scans free_for].

Lemma NoDup_snoc : forall (l : list Z) b, NoDup l -> ~ In b l -> NoDup (l ++ [b]).
Proof.
  intros l b N NI. induction N; cbn; [constructor; [intros []|constructor]|].
  constructor.
  - intros H0. apply in_app_or in H0. destruct H0 as [H0|[<-|[]]]; [auto|]. apply NI; left; reflexivity.
  - apply IHN. intros H0; apply NI; right; exact H0.
Qed.

Lemma upd_app_in : forall (f : Z -> list Z) n b m x, In x (upd f n (f n ++ [b]) m) <-> In x (f m) \/ (m = n /\ x = b).
Proof.
  intros. destruct (Z.eq_dec m n) as [->|N].
  - rewrite upd_same, in_app_iff. cbn. intuition congruence.
  - rewrite upd_other by auto. intuition congruence.
Qed.

(** * Giving up a page's block *)
Definition blank (s : state) (X : option page) : Prop :=
  forall h, X = Some h -> g_ext h = None /\ g_chk h <= wnum s (g_vis h) /\ (s_phase s = PBefore -> g_vis h = false).

Lemma set_blank_Inv : forall s p X, Inv s -> blank s X -> (forall g, s_pages s p = Some g -> g_ext g = None) -> Inv (set_page s p X).
Proof.
  intros s p X I BL NP.
  assert (PG : forall q h, upd (s_pages s) p X q = Some h -> (q <> p /\ s_pages s q = Some h) \/ (q = p /\ X = Some h)).
  { intros q h H. destruct (Z.eq_dec q p) as [->|N]; [rewrite upd_same in H; right; auto|rewrite upd_other in H by auto; left; auto]. }
  assert (PE : forall q h b, upd (s_pages s) p X q = Some h -> g_ext h = Some b -> s_pages s q = Some h).
  { intros q h b H E. destruct (PG q h H) as [[_ A]|[_ A]]; auto. destruct (BL h A) as [E0 _]. congruence. }
  assert (PK : forall q h b, s_pages s q = Some h -> g_ext h = Some b -> upd (s_pages s) p X q = Some h).
  { intros q h b H E. rewrite upd_other; auto. intros ->. specialize (NP h H). congruence. }
  destruct I. constructor; fld; auto.
  - intros q h H PB. destruct (PG q h H) as [[_ A]|[_ A]]; eauto. apply (BL h A); auto.
  - intros q1 q2 h1 h2 b H1 H2 E1 E2. unfold blocks_distinct in *. cbn [s_pages set_page] in *. eauto.
  - intros q h b H E. unfold blocks_not_free in *. cbn [s_pages set_page] in *. eauto.
  - intros q h b H E. eauto.
  - intros q h H. change (g_chk h <= wnum s (g_vis h)). destruct (PG q h H) as [[_ A]|[_ A]]; [exact (i_chk0 _ _ A)|]. apply (BL h A).
  - intros b v c H. destruct (i_dimg0 b v c H) as [A [B [L D]]]. repeat split; auto.
    destruct L as [[q [h [P [E C]]]]|L]; [left; exists q, h; repeat split; eauto|right; exact L].
  - intros b v c H. destruct (i_cimg0 b v c H) as [A [B [L D]]]. repeat split; auto.
    destruct L as [[q [h [P [E C]]]]|L]; [left; exists q, h; repeat split; eauto; apply C|right; exact L].
  - intros P. destruct (i_next4 P) as [N1 N2]. split; auto. intros b H. destruct (N2 b H) as [Y Z]. split; auto.
    destruct Z as [Z|[Z|[q [h [Q [E C]]]]]]; auto. right; right. exists q, h. eauto.
Qed.

Lemma release_Inv : forall s p g b X, Inv s -> s_pages s p = Some g -> g_ext g = Some b -> blank s X ->
  Inv (set_page (free_for s b (wnum s (g_vis g))) p X).
Proof.
  intros s p g b X I PP EB BL. set (n := wnum s (g_vis g)) in *. pose proof (wnum_range s (g_vis g)) as NR. fold n in NR.
  assert (PG : forall q h, upd (s_pages s) p X q = Some h -> (q <> p /\ s_pages s q = Some h) \/ (q = p /\ X = Some h)).
  { intros q h H. destruct (Z.eq_dec q p) as [->|N]; [rewrite upd_same in H; right; auto|rewrite upd_other in H by auto; left; auto]. }
  assert (PE : forall q h b, upd (s_pages s) p X q = Some h -> g_ext h = Some b -> q <> p /\ s_pages s q = Some h).
  { intros q h b0 H E. destruct (PG q h H) as [A|[_ A]]; auto. destruct (BL h A) as [E0 _]. congruence. }
  assert (PK : forall q h b0, s_pages s q = Some h -> g_ext h = Some b0 -> b0 <> b -> upd (s_pages s) p X q = Some h).
  { intros q h b0 H E NB. rewrite upd_other; auto. intros ->. congruence. }
  assert (OWN : forall q h, s_pages s q = Some h -> g_ext h = Some b -> q = p /\ h = g).
  { intros q h H E. pose proof (i_pages _ I q p h g b H PP E EB) as ->. split; congruence. }
  destruct (i_used _ I p g b PP EB) as [NF NT].
  assert (NC : n > s_dur s).
  { destruct I. rewrite i_dur0. unfold n, wnum. destruct (s_phase s), (g_vis g); lia. }
  assert (NL : forall m x, In x (s_tmp s m) -> x <> b) by (intros m x H ->; exact (NT m H)).
  destruct I. constructor; fld; auto.
  - intros q h H PB. destruct (PG q h H) as [[_ A]|[_ A]]; eauto. apply (BL h A); auto.
  - intros q1 q2 h1 h2 b0 H1 H2 E1 E2. cbn [s_pages set_page] in *. 
    destruct (PE q1 h1 b0 H1 E1) as [_ A1]. destruct (PE q2 h2 b0 H2 E2) as [_ A2]. eapply i_pages0; eauto.
  - intros q h b0 H E. cbn [s_pages set_page s_free s_tmp free_for set_tmp set_next] in *. destruct (PE q h b0 H E) as [NQ A].
    destruct (i_used0 q h b0 A E) as [U1 U2]. split; auto. intros m HI. apply upd_app_in in HI. destruct HI as [HI|[_ ->]]; [exact (U2 m HI)|].
    apply NQ. apply (OWN q h A E).
  - intros q h b0 H E. destruct (PE q h b0 H E) as [_ A]. eauto.
  - intros x m H HI. apply upd_app_in in HI. destruct HI as [HI|[_ ->]]; [exact (i_freet0 x m H HI)|exact (NF H)].
  - intros m. destruct (Z.eq_dec m n) as [->|NM]; [rewrite upd_same; apply NoDup_snoc; auto|rewrite upd_other by auto; auto].
  - intros m1 m2 x H1 H2. apply upd_app_in in H1. apply upd_app_in in H2.
    destruct H1 as [H1|[-> ->]], H2 as [H2|[M2 X2]]; auto.
    + eapply i_tmps0; eauto.
    + subst x. exfalso; exact (NT _ H1).
    + exfalso; exact (NT _ H2).
  - intros m x H. apply upd_app_in in H. destruct H as [H|[_ ->]]; eauto.
  - intros m x H. apply upd_app_in in H. destruct H as [H|[-> ->]]; eauto.
    unfold n, wnum in *. destruct (s_phase s), (g_vis g); lia.
  - intros q h H. change (g_chk h <= wnum s (g_vis h)). destruct (PG q h H) as [[_ A]|[_ A]]; [exact (i_chk0 _ _ A)|]. apply (BL h A).
  - intros b0 v c H. destruct (i_dimg0 b0 v c H) as [A [B [L D]]]. repeat split; auto.
    destruct (Z.eq_dec b0 b) as [->|NB].
    + right. exists n. split; auto. fld. rewrite upd_same. apply in_or_app; right; left; reflexivity.
    + destruct L as [[q [h [P [E C]]]]|[m [G L]]]; [left; exists q, h; repeat split; eauto|right; exists m; split; auto].
      fld. apply upd_app_in. left; exact L.
  - intros b0 v c H. destruct (i_cimg0 b0 v c H) as [A [B [L D]]]. repeat split; auto.
    destruct L as [[q [h [P [E [C V]]]]]|[m [G L]]].
    + destruct (Z.eq_dec b0 b) as [->|NB].
      * destruct (OWN q h P E) as [-> ->]. right. exists n. split; [|fld; rewrite upd_same; apply in_or_app; right; left; reflexivity].
        fld. unfold n, wnum. destruct (s_phase s) eqn:PH.
        -- rewrite (i_cnil0 eq_refl) in H. contradiction.
        -- rewrite (V eq_refl). lia.
        -- lia.
        -- lia.
      * left. exists q, h. repeat split; eauto.
    + right. exists m. split; auto. fld. apply upd_app_in. left; exact L.
  - intros P. destruct (i_next4 P) as [N1 N2].
    assert (NB : ~ In b (s_next s (s_last s + 1)) \/ n = s_last s + 2).
    { destruct (Z.eq_dec n (s_last s + 2)) as [->|NN]; auto. left. intros H. destruct (N2 b H) as [_ [X1|[X1|[q [h [Q [E C]]]]]]]; try (exact (NT _ X1)).
      destruct (OWN q h Q E) as [-> ->]. pose proof (i_chk0 p g PP). fold n in H0. lia. }
    split.
    + destruct (Z.eq_dec n (s_last s + 1)) as [E|NE]; [|rewrite upd_other by auto; exact N1].
      rewrite E, upd_same. apply NoDup_snoc; auto. destruct NB as [NB|NB]; [exact NB|lia].
    + intros x H. apply upd_app_in in H. destruct H as [H|[E ->]].
      * destruct (N2 x H) as [Y Z]. split; auto. destruct Z as [Z|[Z|[q [h [Q [E C]]]]]].
        -- left. apply upd_app_in; left; exact Z.
        -- right; left. apply upd_app_in; left; exact Z.
        -- destruct (Z.eq_dec x b) as [->|NX].
           ++ destruct (OWN q h Q E) as [-> ->]. right; left. apply upd_app_in; right. split; auto.
              pose proof (i_chk0 p g PP). fold n in H0. lia.
           ++ right; right. exists q, h. eauto.
      * split.
        -- intros HB. apply blocks_in in HB. destruct HB as [v [c HB]]. destruct (i_cimg0 _ _ _ HB) as [_ [_ [[[q [h [Q [E2 [C V]]]]]|[m [_ L]]] _]]].
           ++ destruct (OWN q h Q E2) as [-> ->]. destruct P as [P|P]; [rewrite (i_cnil0 P) in HB; contradiction|].
              specialize (V P). unfold n, wnum in E. rewrite P, V in E. lia.
           ++ exact (NT _ L).
        -- left. rewrite E. rewrite upd_same. apply in_or_app; right; left; reflexivity.
  - destruct i_next5 as [N1 N2]. split.
    + destruct (Z.eq_dec n (s_last s + 2)) as [E|NE]; [|rewrite upd_other by auto; exact N1].
      rewrite E, upd_same. apply NoDup_snoc; auto. intros H. exact (NT _ (N2 b H)).
    + intros x H. apply upd_app_in in H. apply upd_app_in. destruct H as [H|H]; auto.
  - intros m G. rewrite upd_other by lia. auto.
Qed.

(** * Giving a block to a page *)
Lemma place_Inv : forall s p b v vis (copy : bool), Inv s -> fresh s b -> ~ In b (blocks (s_cimg s)) -> ~ In b (blocks (s_dimg s)) ->
  (forall g, s_pages s p = Some g -> g_ext g = None) -> (s_phase s = PBefore -> vis = false) ->
  (copy = true -> s_phase s = PWalk /\ vis = true) ->
  Inv (set_disk (set_page (if copy then set_next s (upd (s_next s) (wnum s vis - 1) (s_next s (wnum s vis - 1) ++ [b])) else s) p
       (Some (mkPg (wnum s vis) (Some b) v vis))) b v).
Proof.
  intros s p b v vis copy I [F1 [F2 [F3 F4]]] NC ND NP PB CP.
  set (n := wnum s vis) in *. set (X := mkPg n (Some b) v vis) in *.
  assert (PG : forall q h, upd (s_pages s) p (Some X) q = Some h -> (q <> p /\ s_pages s q = Some h) \/ (q = p /\ X = h)).
  { intros q h H. destruct (Z.eq_dec q p) as [->|N]; [rewrite upd_same in H; right; split; [auto|congruence]|rewrite upd_other in H by auto; left; auto]. }
  assert (PK : forall q h b0, s_pages s q = Some h -> g_ext h = Some b0 -> upd (s_pages s) p (Some X) q = Some h).
  { intros q h b0 H E. rewrite upd_other; auto. intros ->. specialize (NP h H). congruence. }
  assert (DK : forall b0, b0 <> b -> upd (s_disk s) b v b0 = s_disk s b0) by (intros; apply upd_other; auto).
  set (nx := if copy then upd (s_next s) (n - 1) (s_next s (n - 1) ++ [b]) else s_next s).
  assert (ES : Inv (mkS (s_last s) (s_phase s) (upd (s_pages s) p (Some X)) (upd (s_disk s) b v) (s_tmp s) nx (s_fnum s) (s_free s) (s_len s) (s_scans s) (s_cimg s) (s_cmap s) (s_clen s) (s_dur s) (s_dimg s) (s_dmap s) (s_dlen s))).
  2:{ unfold nx in ES. destruct copy; exact ES. }
  assert (CN : copy = true -> n = s_last s + 2 /\ s_phase s = PWalk).
  { intros E. destruct (CP E) as [A B]. unfold n, wnum. rewrite A, B. auto. }
  assert (NXI : forall m x, In x (nx m) -> In x (s_next s m) \/ (copy = true /\ m = n - 1 /\ x = b)).
  { intros m x H. unfold nx in H. destruct copy; auto. apply upd_app_in in H. tauto. }
  assert (NXO : forall m, m <> s_last s + 1 -> nx m = s_next s m).
  { intros m NM. unfold nx. destruct copy; auto. destruct (CN eq_refl). rewrite upd_other by lia. reflexivity. }
  destruct I. constructor; fld; auto.
  - intros q h H P. destruct (PG q h H) as [[_ A]|[_ <-]]; eauto.
  - intros q1 q2 h1 h2 b0 H1 H2 E1 E2. cbn [s_pages] in *.
    destruct (PG q1 h1 H1) as [[_ A1]|[-> <-]], (PG q2 h2 H2) as [[_ A2]|[-> <-]]; auto.
    + eapply i_pages0; eauto.
    + cbn in E2. injection E2 as <-. exfalso; exact (F3 _ _ A1 E1).
    + cbn in E1. injection E1 as <-. exfalso; exact (F3 _ _ A2 E2).
  - intros q h b0 H E. cbn [s_pages s_free s_tmp] in *. destruct (PG q h H) as [[_ A]|[_ <-]]; [eapply i_used0; eauto|].
    cbn in E. injection E as <-. split; auto.
  - intros q h b0 H E. destruct (PG q h H) as [[_ A]|[_ <-]]; eauto. cbn in E. injection E as <-. exact F4.
  - intros q h H. change (g_chk h <= wnum s (g_vis h)). destruct (PG q h H) as [[_ A]|[_ <-]]; [exact (i_chk0 _ _ A)|]. cbn. fold n. lia.
  - intros b0 v0 c H. destruct (i_dimg0 b0 v0 c H) as [A [B [L D]]].
    assert (b0 <> b) by (intros ->; apply ND; apply blocks_in; eauto). rewrite DK by auto. repeat split; auto.
    destruct L as [[q [h [P [E C]]]]|L]; [left; exists q, h; repeat split; eauto|right; exact L].
  - intros b0 v0 c H. destruct (i_cimg0 b0 v0 c H) as [A [B [L D]]].
    assert (b0 <> b) by (intros ->; apply NC; apply blocks_in; eauto). rewrite DK by auto. repeat split; auto.
    destruct L as [[q [h [P [E C]]]]|L]; [left; exists q, h; repeat split; eauto; apply C|right; exact L].
  - intros P. destruct (i_next4 P) as [N1 N2].
    assert (NB : ~ In b (s_next s (s_last s + 1))).
    { intros H. destruct (N2 b H) as [_ [Y|[Y|[q [h [Q [E _]]]]]]]; try (exact (F2 _ Y)). exact (F3 _ _ Q E). }
    split.
    + unfold nx. destruct copy; auto. destruct (CN eq_refl) as [-> _]. replace (s_last s + 2 - 1) with (s_last s + 1) by lia.
      rewrite upd_same. apply NoDup_snoc; auto.
    + intros x H. apply NXI in H. destruct H as [H|[C [_ ->]]].
      * destruct (N2 x H) as [Y Z]. split; auto. destruct Z as [Z|[Z|[q [h [Q [E C]]]]]]; auto. right; right; exists q, h; eauto.
      * split; auto. right; right. exists p, X. rewrite upd_same. cbn. repeat split; auto. apply (CN C).
  - rewrite NXO by lia. auto.
  - intros m G. rewrite NXO by lia. auto.
Qed.

(** * Writing in place *)
Lemma inplace_Inv : forall s p g b v, Inv s -> s_pages s p = Some g -> g_ext g = Some b -> g_chk g = wnum s (g_vis g) ->
  Inv (set_disk (set_page s p (Some (mkPg (g_chk g) (Some b) v (g_vis g)))) b v).
Proof.
  intros s p g b v I PP EB CK. set (X := mkPg (g_chk g) (Some b) v (g_vis g)).
  assert (PG : forall q h, upd (s_pages s) p (Some X) q = Some h -> exists h', s_pages s q = Some h' /\ g_ext h' = g_ext h /\ g_chk h' = g_chk h /\ g_vis h' = g_vis h).
  { intros q h H. destruct (Z.eq_dec q p) as [->|N]; [rewrite upd_same in H; injection H as <-; exists g; cbn; auto|rewrite upd_other in H by auto; exists h; auto]. }
  assert (PK : forall q h, s_pages s q = Some h -> exists h', upd (s_pages s) p (Some X) q = Some h' /\ g_ext h' = g_ext h /\ g_chk h' = g_chk h /\ g_vis h' = g_vis h).
  { intros q h H. destruct (Z.eq_dec q p) as [->|N]; [rewrite upd_same; exists X; cbn; rewrite PP in H; injection H as <-; auto|rewrite upd_other by auto; exists h; auto]. }
  assert (OWN : forall q h, s_pages s q = Some h -> g_ext h = Some b -> q = p /\ h = g).
  { intros q h H E. pose proof (i_pages _ I q p h g b H PP E EB) as ->. split; congruence. }
  destruct (i_used _ I p g b PP EB) as [NF NT].
  assert (ND : forall v0 c, ~ In (b, v0, c) (s_dimg s)).
  { intros v0 c H. destruct (i_dimg _ I _ _ _ H) as [_ [_ [[[q [h [Q [E C]]]]|[m [_ L]]] _]]]; [|exact (NT _ L)].
    destruct (OWN q h Q E) as [-> ->]. rewrite CK in C. rewrite (i_dur _ I) in C. unfold wnum in C. destruct (s_phase s), (g_vis g); lia. }
  assert (NC : forall v0 c, ~ In (b, v0, c) (s_cimg s)).
  { intros v0 c H. destruct (i_cimg _ I _ _ _ H) as [_ [_ [[[q [h [Q [E [C V]]]]]|[m [_ L]]] _]]]; [|exact (NT _ L)].
    destruct (OWN q h Q E) as [-> ->]. rewrite CK in C. unfold wnum in C. destruct (s_phase s) eqn:PH.
    - rewrite (i_cnil _ I PH) in H. contradiction.
    - rewrite (V eq_refl) in C. lia.
    - lia.
    - lia. }
  destruct I. constructor; fld; auto.
  - intros q h H P. destruct (PG q h H) as [h' [Q [_ [_ <-]]]]. eauto.
  - intros q1 q2 h1 h2 b0 H1 H2 E1 E2. cbn [s_pages set_page set_disk] in *. destruct (PG q1 h1 H1) as [h1' [Q1 [X1 _]]]. destruct (PG q2 h2 H2) as [h2' [Q2 [X2 _]]].
    apply (i_pages0 q1 q2 h1' h2' b0 Q1 Q2); congruence.
  - intros q h b0 H E. cbn [s_pages set_page set_disk s_free s_tmp] in *. destruct (PG q h H) as [h' [Q [X1 _]]]. apply (i_used0 q h' b0 Q); congruence.
  - intros q h b0 H E. destruct (PG q h H) as [h' [Q [X1 _]]]. apply (i_plen0 q h' b0 Q); congruence.
  - intros q h H. change (g_chk h <= wnum s (g_vis h)). destruct (PG q h H) as [h' [Q [_ [<- <-]]]]. exact (i_chk0 _ _ Q).
  - intros b0 v0 c H. destruct (i_dimg0 b0 v0 c H) as [A [B [L D]]]. rewrite upd_other by (intros ->; exact (ND _ _ H)). repeat split; auto.
    destruct L as [[q [h [P [E C]]]]|L]; [|right; exact L]. left. destruct (PK q h P) as [h' [Q [X1 [X2 _]]]]. exists q, h'. repeat split; auto; [congruence|lia].
  - intros b0 v0 c H. destruct (i_cimg0 b0 v0 c H) as [A [B [L D]]]. rewrite upd_other by (intros ->; exact (NC _ _ H)). repeat split; auto.
    destruct L as [[q [h [P [E [C V]]]]]|L]; [|right; exact L]. left. destruct (PK q h P) as [h' [Q [X1 [X2 X3]]]]. exists q, h'. repeat split; auto; [congruence|fld; lia|].
    intros PH. rewrite X3. auto.
  - intros P. destruct (i_next4 P) as [N1 N2]. split; auto. intros x H. destruct (N2 x H) as [Y Z]. split; auto.
    destruct Z as [Z|[Z|[q [h [Q [E C]]]]]]; auto. right; right. destruct (PK q h Q) as [h' [Q' [X1 [X2 _]]]]. exists q, h'. repeat split; auto; congruence.
Qed.

Lemma page_io_Inv : forall s p g v copy, Inv s -> s_pages s p = Some g -> copy = wcopy s (g_vis g) ->
  let s' := page_io s p g v (wnum s (g_vis g)) copy in
  Inv s' /\ s_phase s' = s_phase s /\ s_last s' = s_last s
  /\ (forall h b, s_pages s' p = Some h -> g_ext h = Some b -> s_disk s' b = g_val h /\ g_vis h = g_vis g)
  \/ (s' = s /\ g_ext g = None).
Proof.
  intros s p g v copy I PP CE s'. unfold s', page_io. clear s'.
  pose proof (i_chk _ I p g PP) as CK.
  assert (VB : s_phase s = PBefore -> g_vis g = false) by (apply (i_vis _ I p g PP)).
  destruct (g_chk g <? wnum s (g_vis g)) eqn:LT.
  - left. set (n := wnum s (g_vis g)) in *.
    set (s1 := match g_ext g with Some b => set_page (free_for s b n) p (Some (mkPg n None v (g_vis g))) | None => s end).
    assert (I1 : Inv s1 /\ s_phase s1 = s_phase s /\ s_last s1 = s_last s /\ (forall g1, s_pages s1 p = Some g1 -> g_ext g1 = None)).
    { unfold s1. destruct (g_ext g) as [b|] eqn:E.
      - split; [|split; [reflexivity|split; [reflexivity|]]].
        + apply release_Inv; auto. intros h X. injection X as <-. cbn. repeat split; auto. fold n; lia.
        + intros g1 H. cbn [set_page s_pages] in H. rewrite upd_same in H. injection H as <-. reflexivity.
      - split; [exact I|split; [reflexivity|split; [reflexivity|intros g1 H; congruence]]]. }
    destruct I1 as [I1 [P1 [L1 NE1]]]. clearbody s1.
    destruct (alloc s1) as [s2 b] eqn:AE. destruct (alloc_Inv s1 s2 b I1 AE) as [I2 [SM [FR [NC ND]]]].
    destruct SM as [S1 [S2 [S3 [S4 [S5 [S6 [S7 [S8 S9]]]]]]]].
    assert (WN : wnum s2 (g_vis g) = n) by (unfold n, wnum; rewrite S1, S2, P1, L1; reflexivity).
    assert (SHAPE : (let (s3, b3) := if copy then alloc_copy s1 n else (s2, b) in set_disk (set_page s3 p (Some (mkPg n (Some b3) v (g_vis g)))) b3 v)
       = set_disk (set_page (if copy then set_next s2 (upd (s_next s2) (wnum s2 (g_vis g) - 1) (s_next s2 (wnum s2 (g_vis g) - 1) ++ [b])) else s2) p (Some (mkPg (wnum s2 (g_vis g)) (Some b) v (g_vis g)))) b v).
    { destruct copy; [|rewrite WN; reflexivity]. unfold alloc_copy. rewrite AE, S2, P1. unfold wcopy in CE.
      destruct (s_phase s); try discriminate. rewrite WN. reflexivity. }
    rewrite SHAPE.
    assert (IR : Inv (set_disk (set_page (if copy then set_next s2 (upd (s_next s2) (wnum s2 (g_vis g) - 1) (s_next s2 (wnum s2 (g_vis g) - 1) ++ [b])) else s2) p (Some (mkPg (wnum s2 (g_vis g)) (Some b) v (g_vis g)))) b v)).
    { apply place_Inv; auto.
      - intros g1 H. rewrite S3 in H. auto.
      - rewrite S2, P1. exact VB.
      - intros ->. rewrite S2, P1. unfold wcopy in CE. destruct (s_phase s); try discriminate. split; auto. }
    split; [exact IR|]. split; [|split].
    + destruct copy; cbn; congruence.
    + destruct copy; cbn; congruence.
    + intros h b0 H E. cbn [set_disk set_page s_pages s_disk] in *. rewrite upd_same in H. injection H as <-. cbn in E. injection E as <-.
      cbn. rewrite upd_same. auto.
  - destruct (g_ext g) as [b|] eqn:E; [|right; split; reflexivity]. left. split; [apply inplace_Inv; auto; lia|].
    split; [reflexivity|split; [reflexivity|]]. intros h b0 H E0. cbn [set_disk set_page s_pages s_disk] in *. rewrite upd_same in H. injection H as <-. cbn in E0. injection E0 as <-.
    cbn. rewrite upd_same. auto.
Qed.

(** * The checkpoint takes a page into its image *)
Lemma capture_Inv : forall s p c b v, Inv s -> s_phase s = PWalk -> s_pages s p = Some (mkPg c (Some b) v false) -> s_disk s b = v ->
  Inv (set_img (set_page s p (Some (mkPg c (Some b) v true))) (s_cimg s ++ [(b, v, c)])).
Proof.
  intros s p c b v I PH PP DB. set (X := mkPg c (Some b) v true).
  assert (CL : c <= s_last s + 1). { pose proof (i_chk _ I _ _ PP) as C. unfold wnum in C. rewrite PH in C. exact C. }
  assert (PG : forall q h, upd (s_pages s) p (Some X) q = Some h -> exists h', s_pages s q = Some h' /\ g_ext h' = g_ext h /\ g_chk h' = g_chk h /\ (g_vis h' = true -> g_vis h = true)).
  { intros q h H. destruct (Z.eq_dec q p) as [->|N]; [rewrite upd_same in H; injection H as <-; eexists; split; [exact PP|cbn; auto]|rewrite upd_other in H by auto; exists h; auto]. }
  assert (PK : forall q h, s_pages s q = Some h -> exists h', upd (s_pages s) p (Some X) q = Some h' /\ g_ext h' = g_ext h /\ g_chk h' = g_chk h /\ (g_vis h = true -> g_vis h' = true)).
  { intros q h H. destruct (Z.eq_dec q p) as [->|N]; [rewrite upd_same; exists X; cbn; rewrite PP in H; injection H as <-; auto|rewrite upd_other by auto; exists h; auto]. }
  assert (OWN : forall q h, s_pages s q = Some h -> g_ext h = Some b -> q = p /\ h = mkPg c (Some b) v false).
  { intros q h H E. pose proof (i_pages _ I q p h _ b H PP E eq_refl) as ->. split; congruence. }
  destruct (i_used _ I p _ b PP eq_refl) as [NF NT].
  assert (NC : ~ In b (blocks (s_cimg s))).
  { intros H. apply blocks_in in H. destruct H as [v0 [c0 H]]. destruct (i_cimg _ I _ _ _ H) as [_ [_ [[[q [h [Q [E [C V]]]]]|[m [_ L]]] _]]]; [|exact (NT _ L)].
    destruct (OWN q h Q E) as [-> ->]. specialize (V PH). discriminate. }
  assert (BA : blocks (s_cimg s ++ [(b, v, c)]) = blocks (s_cimg s) ++ [b]) by (unfold blocks; rewrite map_app; reflexivity).
  destruct I. constructor; fld; auto.
  - intros q h H P. rewrite PH in P. discriminate.
  - intros q1 q2 h1 h2 b0 H1 H2 E1 E2. cbn [s_pages set_page set_img] in *. destruct (PG q1 h1 H1) as [h1' [Q1 [X1 _]]]. destruct (PG q2 h2 H2) as [h2' [Q2 [X2 _]]].
    apply (i_pages0 q1 q2 h1' h2' b0 Q1 Q2); congruence.
  - intros q h b0 H E. cbn [s_pages set_page set_img s_free s_tmp] in *. destruct (PG q h H) as [h' [Q [X1 _]]]. apply (i_used0 q h' b0 Q); congruence.
  - intros q h b0 H E. destruct (PG q h H) as [h' [Q [X1 _]]]. apply (i_plen0 q h' b0 Q); congruence.
  - intros q h H. change (g_chk h <= wnum s (g_vis h)). destruct (PG q h H) as [h' [Q [_ [<- V]]]]. pose proof (i_chk0 _ _ Q) as C.
    unfold wnum in *. rewrite PH in *. destruct (g_vis h'); [rewrite (V eq_refl); exact C|destruct (g_vis h); lia].
  - intros b0 v0 c0 H. destruct (i_dimg0 b0 v0 c0 H) as [A [B [L D]]]. repeat split; auto.
    destruct L as [[q [h [P [E C]]]]|L]; [|right; exact L]. left. destruct (PK q h P) as [h' [Q [X1 [X2 _]]]]. exists q, h'. repeat split; auto; [congruence|lia].
  - intros b0 v0 c0 H. apply in_app_or in H. destruct H as [H|[H|[]]].
    + destruct (i_cimg0 b0 v0 c0 H) as [A [B [L D]]]. repeat split; auto.
      destruct L as [[q [h [P [E [C V]]]]]|L]; [|right; exact L]. left. destruct (PK q h P) as [h' [Q [X1 [X2 X3]]]]. exists q, h'. repeat split; auto; [congruence|fld; lia].
    + injection H as <- <- <-. repeat split; auto; [|eapply i_plen0; [exact PP|reflexivity]].
      left. exists p, X. fld. rewrite upd_same. repeat split; auto.
  - intros P. rewrite PH in P. discriminate.
  - rewrite BA. apply NoDup_snoc; auto.
  - intros P. destruct (i_next4 P) as [N1 N2]. split; auto. intros x H. destruct (N2 x H) as [Y Z]. split.
    + rewrite BA. intros H0. apply in_app_or in H0. destruct H0 as [H0|[<-|[]]]; [auto|].
      destruct Z as [Z|[Z|[q [h [Q [E C]]]]]]; try (exact (NT _ Z)). destruct (OWN q h Q E) as [-> ->]. cbn in C. lia.
    + destruct Z as [Z|[Z|[q [h [Q [E C]]]]]]; auto. right; right. destruct (PK q h Q) as [h' [Q' [X1 [X2 _]]]]. exists q, h'. repeat split; auto; congruence.
  - intros P. rewrite PH in P. destruct P; discriminate.
Qed.

(** * An autonomous image *)
Lemma auto_Inv : forall s b v, Inv s -> s_phase s = PWalk -> fresh s b -> ~ In b (blocks (s_cimg s)) -> ~ In b (blocks (s_dimg s)) ->
  Inv (set_img (free_for (set_disk s b v) b (s_last s + 2)) (s_cimg s ++ [(b, v, s_last s + 1)])).
Proof.
  intros s b v I PH [F1 [F2 [F3 F4]]] NC ND.
  assert (BA : blocks (s_cimg s ++ [(b, v, s_last s + 1)]) = blocks (s_cimg s) ++ [b]) by (unfold blocks; rewrite map_app; reflexivity).
  assert (DK : forall b0, b0 <> b -> upd (s_disk s) b v b0 = s_disk s b0) by (intros; apply upd_other; auto).
  destruct I. constructor; fld; auto.
  - intros q h b0 H E. cbn [s_pages s_free s_tmp set_img free_for set_disk set_tmp set_next] in *. destruct (i_used0 q h b0 H E) as [U1 U2].
    split; auto. intros m HI. apply upd_app_in in HI. destruct HI as [HI|[_ ->]]; [exact (U2 m HI)|exact (F3 _ _ H E)].
  - intros x m H HI. apply upd_app_in in HI. destruct HI as [HI|[_ ->]]; [exact (i_freet0 x m H HI)|exact (F1 H)].
  - intros m. destruct (Z.eq_dec m (s_last s + 2)) as [->|NM]; [rewrite upd_same; apply NoDup_snoc; auto|rewrite upd_other by auto; auto].
  - intros m1 m2 x H1 H2. apply upd_app_in in H1. apply upd_app_in in H2.
    destruct H1 as [H1|[-> ->]], H2 as [H2|[M2 X2]]; auto.
    + eapply i_tmps0; eauto.
    + subst x. exfalso; exact (F2 _ H1).
    + exfalso; exact (F2 _ H2).
  - intros m x H. apply upd_app_in in H. destruct H as [H|[_ ->]]; eauto.
  - intros m x H. apply upd_app_in in H. destruct H as [H|[-> ->]]; [eauto|]. rewrite PH. lia.
  - intros b0 v0 c H. destruct (i_dimg0 b0 v0 c H) as [A [B [L D]]].
    assert (b0 <> b) by (intros ->; apply ND; apply blocks_in; eauto). rewrite DK by auto. repeat split; auto.
    destruct L as [L|[n [G L]]]; [left; exact L|right; exists n; split; auto]. fld. apply upd_app_in; left; exact L.
  - intros b0 v0 c H. apply in_app_or in H. destruct H as [H|[H|[]]].
    + destruct (i_cimg0 b0 v0 c H) as [A [B [L D]]].
      assert (b0 <> b) by (intros ->; apply NC; apply blocks_in; eauto). rewrite DK by auto. repeat split; auto.
      destruct L as [L|[n [G L]]]; [left; exact L|right; exists n; split; auto]. fld. apply upd_app_in; left; exact L.
    + injection H as <- <- <-. rewrite upd_same. split; [reflexivity|split; [lia|split; [|exact F4]]].
      right. exists (s_last s + 2). fld. split; [lia|]. rewrite upd_same. apply in_or_app; right; left; reflexivity.
  - intros P. rewrite PH in P. discriminate.
  - rewrite BA. apply NoDup_snoc; auto.
  - intros P. destruct (i_next4 P) as [N1 N2]. rewrite upd_other by lia. split; auto. intros x H. destruct (N2 x H) as [Y Z]. split.
    + rewrite BA. intros H0. apply in_app_or in H0. destruct H0 as [H0|[<-|[]]]; [auto|].
      destruct Z as [Z|[Z|[q [h [Q [E C]]]]]]; try (exact (F2 _ Z)). exact (F3 _ _ Q E).
    + destruct Z as [Z|[Z|Z]]; auto.
      * left. apply upd_app_in; left; exact Z.
      * right; left. apply upd_app_in; left; exact Z.
  - destruct i_next5 as [N1 N2]. rewrite upd_same. split.
    + apply NoDup_snoc; auto. intros H. exact (F2 _ (N2 _ H)).
    + intros x H. apply upd_app_in. apply in_app_or in H. destruct H as [H|[<-|[]]]; auto.
  - intros m G. rewrite upd_other by lia. auto.
  - intros P. rewrite PH in P. destruct P; discriminate.
Qed.

(** * The map *)
Lemma NoDup_concat : forall (f : nat -> list Z) l, NoDup l -> (forall i, NoDup (f i)) -> (forall i j x, In x (f i) -> In x (f j) -> i = j) -> NoDup (flat_map f l).
Proof.
  intros f l N A B. induction N; cbn; [constructor|].
  assert (D : forall y, In y (f x) -> ~ In y (flat_map f l)).
  { intros y Hy Hf. apply in_flat_map in Hf. destruct Hf as [j [Hj Hyj]]. rewrite (B x j y Hy Hyj) in H. contradiction. }
  specialize (A x). clear B. revert D A. generalize (f x) as k. induction k as [|y k IHk]; intros D A; cbn; auto.
  inversion A; subst. constructor.
  - intros HI. apply in_app_or in HI. destruct HI as [HI|HI]; [contradiction|]. exact (D y (or_introl eq_refl) HI).
  - apply IHk; auto. intros z Hz; apply D; right; exact Hz.
Qed.
Lemma NoDup_app2 : forall (a b : list Z), NoDup a -> NoDup b -> (forall x, In x a -> ~ In x b) -> NoDup (a ++ b).
Proof.
  intros a b NA NB D. induction NA; cbn; auto. constructor.
  - intros HI. apply in_app_or in HI. destruct HI as [HI|HI]; [contradiction|]. exact (D x (or_introl eq_refl) HI).
  - apply IHNA. intros y Hy; apply D; right; exact Hy.
Qed.
Lemma later_in : forall s b, In b (later_tmps s) -> exists n, n <= s_last s /\ In b (s_tmp s n).
Proof.
  intros s b H. unfold later_tmps in H. apply in_flat_map in H. destruct H as [i [Hi H]]. apply in_seq in Hi.
  eexists. split; [|exact H]. lia.
Qed.

Lemma finish_Inv : forall s, Inv s -> s_phase s = PWalk -> Inv (step s OFinish).
Proof.
  intros s I PH. cbn [step]. rewrite PH. destruct I. constructor; fld; auto; try (intros; discriminate); try (rewrite PH in i_dur0; exact i_dur0).
  - intros n b H. pose proof (i_tnum0 n b H) as R. rewrite PH in R. exact R.
  - intros p g P. pose proof (i_chk0 p g P) as C. unfold wnum in *. fld. rewrite PH in C. destruct (g_vis g); lia.
  - intros b v c H. destruct (i_cimg0 b v c H) as [A [B [L D]]]. repeat split; auto.
    destruct L as [[q [h [P [E [C V]]]]]|L]; [left; exists q, h; repeat split; auto; discriminate|right; exact L].
  - intros _. destruct (i_next4 (or_intror PH)) as [N1 N2]. split; [|split; [lia|split]].
    + assert (FL : NoDup (s_free s ++ later_tmps s)).
      { apply NoDup_app2; auto.
        - unfold later_tmps. apply NoDup_concat; [apply seq_NoDup|auto|]. intros i j x H1 H2. pose proof (i_tmps0 _ _ _ H1 H2). lia.
        - intros x H1 H2. apply later_in in H2. destruct H2 as [n [_ H2]]. exact (i_freet0 _ _ H1 H2). }
      apply NoDup_app2; auto. intros x H1 H2.
      destruct (N2 x H1) as [_ Z]. apply in_app_or in H2. destruct H2 as [H2|H2].
      * destruct Z as [Z|[Z|[q [h [Q [E C]]]]]]; try (exact (i_freet0 _ _ H2 Z)). destruct (i_used0 q h x Q E) as [U _]. exact (U H2).
      * apply later_in in H2. destruct H2 as [n [Ln H2]]. destruct Z as [Z|[Z|[q [h [Q [E C]]]]]].
        -- pose proof (i_tmps0 _ _ _ H2 Z). lia.
        -- pose proof (i_tmps0 _ _ _ H2 Z). lia.
        -- destruct (i_used0 q h x Q E) as [_ U]. exact (U _ H2).
    + intros x H. apply in_app_or in H. destruct H as [H|H].
      * destruct (N2 x H) as [Y Z]. split; auto. destruct Z as [Z|[Z|[q [h [Q [E C]]]]]]; eauto.
      * assert (W : (In x (s_free s) \/ exists n, n <= s_last s /\ In x (s_tmp s n)) /\ x < s_len s).
        { apply in_app_or in H. destruct H as [H|H]; [split; [left; auto|eauto]|]. apply later_in in H. split; [right; exact H|]. destruct H as [n [_ H]]. eauto. }
        destruct W as [W WL]. split; auto. intros HB. apply blocks_in in HB. destruct HB as [v [c HB]].
        destruct (i_cimg0 _ _ _ HB) as [_ [_ [[[q [h [Q [E [C V]]]]]|[m [G L]]] _]]].
        -- destruct (i_used0 q h x Q E) as [U1 U2]. destruct W as [W|[n [_ W]]]; [exact (U1 W)|exact (U2 _ W)].
        -- destruct W as [W|[n [Ln W]]]; [exact (i_freet0 _ _ W L)|]. pose proof (i_tmps0 _ _ _ W L). lia.
    + intros x H. apply blocks_in in H. destruct H as [v [c H]]. destruct (i_cimg0 _ _ _ H) as [_ [_ [_ D]]]. exact D.
Qed.

Lemma restart_Inv : forall s, Inv s -> Inv (step s ORestart).
Proof.
  intros s I. cbn [step]. destruct I.
  assert (LD : forall p g, load (s_dimg s) p = Some g -> g_ext g = Some p /\ g_vis g = false /\ In p (blocks (s_dimg s)) /\ g_chk g <= s_dur s).
  { intros p g H. unfold load in H. destruct (find _ _) as [[[b v] c]|] eqn:F; [|discriminate]. injection H as <-. apply find_some in F. destruct F as [F1 F2].
    cbn in F2. assert (b = p) as -> by lia. cbn. repeat split; auto. apply blocks_in; eauto. apply (i_dimg0 _ _ _ F1). }
  destruct i_dmap0 as [D1 [D2 [D3 [D4 D5]]]].
  assert (D0 : 0 <= s_dur s) by (rewrite i_dur0; destruct (s_phase s); lia).
  constructor; fld; try solve [intros; discriminate|intros; contradiction|auto|lia|constructor|intros; constructor|intros; split; [constructor|intros; contradiction]|intros [P|P]; discriminate].
  - intros p q g h b H1 H2 E1 E2. cbn [s_pages] in *. destruct (LD p g H1) as [A _]. destruct (LD q h H2) as [B _]. congruence.
  - intros p g b H E. cbn [s_pages s_free s_tmp] in *. destruct (LD p g H) as [A [_ [B _]]]. rewrite A in E. injection E as <-. split; auto. intros H1. destruct (D4 _ H1); contradiction.
  - intros p g b H E. destruct (LD p g H) as [A [_ [B _]]]. rewrite A in E. injection E as <-. auto.
  - intros p g H. unfold wnum; fld. destruct (LD p g H) as [_ [_ [_ C]]]. lia.
  - intros b v c H. destruct (i_dimg0 b v c H) as [A [B [_ D]]]. repeat split; auto. left.
    destruct (load (s_dimg s) b) as [g|] eqn:E.
    + exists b, g. fld. destruct (LD b g E) as [X [_ [_ Y]]]. auto.
    + exfalso. unfold load in E. destruct (find (fun e => e_blk e =? b) (s_dimg s)) eqn:F; [discriminate|].
      pose proof (find_none _ _ F _ H) as Q. cbn in Q. unfold e_blk in Q. cbn in Q. lia.
  - split; [exact D1|split; [exact D2|split; [lia|split; [exact D4|exact D5]]]].
Qed.


Lemma pass_Inv : forall s p g, Inv s -> s_phase s = PWalk -> s_pages s p = Some g -> Inv (set_page s p (Some (mkPg (g_chk g) (g_ext g) (g_val g) true))).
Proof.
  intros s p g I PH PP. set (X := mkPg (g_chk g) (g_ext g) (g_val g) true).
  assert (PG : forall q h, upd (s_pages s) p (Some X) q = Some h -> exists h', s_pages s q = Some h' /\ g_ext h' = g_ext h /\ g_chk h' = g_chk h /\ (g_vis h' = true -> g_vis h = true)).
  { intros q h H. destruct (Z.eq_dec q p) as [->|N]; [rewrite upd_same in H; injection H as <-; eexists; split; [exact PP|cbn; auto]|rewrite upd_other in H by auto; exists h; auto]. }
  assert (PK : forall q h, s_pages s q = Some h -> exists h', upd (s_pages s) p (Some X) q = Some h' /\ g_ext h' = g_ext h /\ g_chk h' = g_chk h /\ (g_vis h = true -> g_vis h' = true)).
  { intros q h H. destruct (Z.eq_dec q p) as [->|N]; [rewrite upd_same; exists X; cbn; rewrite PP in H; injection H as <-; auto|rewrite upd_other by auto; exists h; auto]. }
  destruct I. constructor; fld; auto.
  - intros q h H P. rewrite PH in P. discriminate.
  - intros q1 q2 h1 h2 b0 H1 H2 E1 E2. cbn [s_pages set_page] in *. destruct (PG q1 h1 H1) as [h1' [Q1 [X1 _]]]. destruct (PG q2 h2 H2) as [h2' [Q2 [X2 _]]].
    apply (i_pages0 q1 q2 h1' h2' b0 Q1 Q2); congruence.
  - intros q h b0 H E. cbn [s_pages set_page s_free s_tmp] in *. destruct (PG q h H) as [h' [Q [X1 _]]]. apply (i_used0 q h' b0 Q); congruence.
  - intros q h b0 H E. destruct (PG q h H) as [h' [Q [X1 _]]]. apply (i_plen0 q h' b0 Q); congruence.
  - intros q h H. change (g_chk h <= wnum s (g_vis h)). destruct (PG q h H) as [h' [Q [_ [<- V]]]]. pose proof (i_chk0 _ _ Q) as C.
    unfold wnum in *. rewrite PH in *. destruct (g_vis h'); [rewrite (V eq_refl); exact C|destruct (g_vis h); lia].
  - intros b0 v0 c0 H. destruct (i_dimg0 b0 v0 c0 H) as [A [B [L D]]]. repeat split; auto.
    destruct L as [[q [h [P [E C]]]]|L]; [|right; exact L]. left. destruct (PK q h P) as [h' [Q [X1 [X2 _]]]]. exists q, h'. repeat split; auto; [congruence|lia].
  - intros b0 v0 c0 H. destruct (i_cimg0 b0 v0 c0 H) as [A [B [L D]]]. repeat split; auto.
    destruct L as [[q [h [P [E [C V]]]]]|L]; [|right; exact L]. left. destruct (PK q h P) as [h' [Q [X1 [X2 X3]]]]. exists q, h'. repeat split; auto; [congruence|fld; lia].
  - intros P. destruct (i_next4 P) as [N1 N2]. split; auto. intros x H. destruct (N2 x H) as [Y Z]. split; auto.
    destruct Z as [Z|[Z|[q [h [Q [E C]]]]]]; auto. right; right. destruct (PK q h Q) as [h' [Q' [X1 [X2 _]]]]. exists q, h'. repeat split; auto; congruence.
Qed.

Lemma start_Inv : forall s, Inv s -> Inv (step s OStart).
Proof.
  intros s I. cbn [step]. destruct (s_phase s) eqn:PH; auto. destruct I.
  constructor; fld; auto; try (intros; discriminate); try (rewrite PH in i_dur0; exact i_dur0).
  - intros n b H. pose proof (i_tnum0 n b H) as R. rewrite PH in R. lia.
  - intros p g P. pose proof (i_chk0 p g P) as C. unfold wnum in *. fld. rewrite PH in C. destruct (g_vis g); lia.
  - intros b v c [].
  - constructor.
  - intros _. destruct (i_next4 (or_introl PH)) as [N1 N2]. split; auto. intros b H. split; [intros []|]. apply (N2 b H).
  - intros [P|P]; discriminate.
Qed.

Lemma control_Inv : forall s, Inv s -> Inv (step s OControl).
Proof.
  intros s I. cbn [step]. destruct (s_phase s) eqn:PH; auto. destruct I. destruct (i_cmap0 (or_introl PH)) as [M1 [M2 [M3 M4]]].
  constructor; fld; auto; try (intros; discriminate).
  - intros n b H. pose proof (i_tnum0 n b H) as R. rewrite PH in R. exact R.
  - intros p g P. pose proof (i_chk0 p g P) as C. unfold wnum in *. fld. rewrite PH in C. exact C.
  - intros b v c H. destruct (i_cimg0 b v c H) as [A [B [L D]]]. repeat split; auto; [|apply M4; apply blocks_in; eauto].
    destruct L as [[q [h [P [E [C V]]]]]|L]; [left; exists q, h; repeat split; auto|right; exact L].
  - intros b v c H. destruct (i_cimg0 b v c H) as [A [B [L D]]]. repeat split; auto.
    destruct L as [[q [h [P [E [C V]]]]]|L]; [left; exists q, h; repeat split; auto; discriminate|right; exact L].
  - intros [P|P]; discriminate.
Qed.

Lemma publish_Inv : forall s, Inv s -> Inv (step s OPublish).
Proof.
  intros s I. cbn [step]. destruct (s_phase s) eqn:PH; auto.
  assert (PG : forall q h, clear_vis (s_pages s) q = Some h -> exists h', s_pages s q = Some h' /\ g_ext h' = g_ext h /\ g_chk h' = g_chk h /\ g_vis h = false).
  { intros q h H. unfold clear_vis in H. destruct (s_pages s q) as [h'|]; [|discriminate]. injection H as <-. exists h'. auto. }
  assert (PK : forall q h, s_pages s q = Some h -> exists h', clear_vis (s_pages s) q = Some h' /\ g_ext h' = g_ext h /\ g_chk h' = g_chk h).
  { intros q h H. unfold clear_vis. rewrite H. eexists; split; [reflexivity|]. auto. }
  destruct I. destruct i_next5 as [N1 N2]. rewrite PH in i_dur0.
  constructor; fld; auto; try (intros; discriminate); try lia.
  - intros q h H _. destruct (PG q h H) as [h' [_ [_ [_ V]]]]. exact V.
  - intros q1 q2 h1 h2 b0 H1 H2 E1 E2. cbn [s_pages] in *. destruct (PG q1 h1 H1) as [h1' [Q1 [X1 _]]]. destruct (PG q2 h2 H2) as [h2' [Q2 [X2 _]]].
    apply (i_pages0 q1 q2 h1' h2' b0 Q1 Q2); congruence.
  - intros q h b0 H E. cbn [s_pages s_free s_tmp] in *. destruct (PG q h H) as [h' [Q [X1 _]]]. apply (i_used0 q h' b0 Q); congruence.
  - intros q h b0 H E. destruct (PG q h H) as [h' [Q [X1 _]]]. apply (i_plen0 q h' b0 Q); congruence.
  - intros n b H. pose proof (i_tnum0 n b H) as R. rewrite PH in R. lia.
  - intros q h H. destruct (PG q h H) as [h' [Q [_ [<- V]]]]. pose proof (i_chk0 _ _ Q) as C. unfold wnum in *. fld. rewrite PH in C. lia.
  - intros b0 v0 c0 H. destruct (i_dimg0 b0 v0 c0 H) as [A [B [L D]]]. repeat split; auto.
    destruct L as [[q [h [P [E C]]]]|L]; [|right; exact L]. left. destruct (PK q h P) as [h' [Q [X1 X2]]]. exists q, h'. repeat split; auto; [congruence|fld; lia].
  - intros b v c [].
  - constructor.
  - intros _. replace (s_last s + 1 + 1) with (s_last s + 2) by lia. split; auto.
  - rewrite i_next6 by lia. split; [constructor|intros b []].
  - intros n G. apply i_next6. lia.
  - intros [P|P]; discriminate.
Qed.

Lemma scans_Inv : forall s l, Inv s -> Inv (set_scans s l).
Proof. intros s l I. destruct I. constructor; fld; auto. Qed.

Lemma step_Inv : forall s o, Inv s -> Inv (step s o).
Proof.
  intros s o I. destruct o as [p v vis|p v|p| |p v|p|p|p|v| | | | |n|].
  - (* new *) cbn [step]. destruct (s_pages s p) eqn:E; auto. apply set_blank_Inv; auto.
    + intros h H. injection H as <-. cbn. unfold walking. pose proof (i_last _ I). pose proof (wnum_range s (match s_phase s with PWalk => true | _ => false end && vis)).
      repeat split; [lia|intros ->; reflexivity].
    + intros g H. congruence.
  - (* write *) cbn [step]. destruct (s_pages s p) as [g|] eqn:E; auto.
    destruct (page_io_Inv s p g v _ I E eq_refl) as [[A _]|[A _]]; [exact A|rewrite A; exact I].
  - (* merge *) cbn [step]. destruct (s_pages s p) as [g|] eqn:E; auto. destruct (g_ext g) as [b|] eqn:EB.
    + apply release_Inv; auto. intros h H. discriminate.
    + apply set_blank_Inv; auto; [intros h H; discriminate|]. intros g1 H. congruence.
  - apply start_Inv; auto.
  - (* visit *) cbn [step]. unfold walking. destruct (s_phase s) eqn:PH; auto. destruct (s_pages s p) as [g|] eqn:E; auto. destruct (g_vis g) eqn:V; auto.
    assert (WN : wnum s (g_vis g) = s_last s + 1) by (unfold wnum; rewrite PH, V; reflexivity).
    assert (WC : false = wcopy s (g_vis g)) by (unfold wcopy; rewrite PH, V; reflexivity).
    pose proof (page_io_Inv s p g v false I E WC) as H. cbv zeta in H. rewrite WN in H. cbv zeta.
    set (s1 := page_io s p g v (s_last s + 1) false) in *. clearbody s1. destruct H as [[A [B [C D]]]|[A B]].
    + destruct (s_pages s1 p) as [[c [b|] v' vis']|] eqn:E1; auto. destruct (D _ b eq_refl eq_refl) as [D1 D2]. cbn in D1, D2. rewrite V in D2. subst vis'.
      apply capture_Inv; auto. congruence.
    + subst s1. rewrite E. destruct g as [c e v' vis']. cbn in B. subst e. exact I.
  - (* visit clean *) cbn [step]. unfold walking. destruct (s_phase s) eqn:PH; auto. destruct (s_pages s p) as [[c [b|] v [|]]|] eqn:E; auto.
    destruct (s_disk s b =? v) eqn:D; auto. apply capture_Inv; auto. lia.
  - (* pass *) cbn [step]. unfold walking. destruct (s_phase s) eqn:PH; auto. destruct (s_pages s p) as [g|] eqn:E; auto. apply pass_Inv; auto.
  - (* autofree *) cbn [step]. unfold walking. destruct (s_phase s) eqn:PH; auto. destruct (s_pages s p) as [g|] eqn:E; auto. destruct (g_vis g) eqn:V; auto.
    assert (WN : wnum s (g_vis g) = s_last s + 1) by (unfold wnum; rewrite PH, V; reflexivity). pose proof (i_last _ I).
    destruct (g_ext g) as [b|] eqn:EB.
    + rewrite <- WN. apply release_Inv; auto. intros h X. injection X as <-. cbn. repeat split; auto. unfold wnum; rewrite PH; lia.
    + apply set_blank_Inv; auto.
      * intros h X. injection X as <-. cbn. repeat split; auto. unfold wnum; rewrite PH; lia.
      * intros g1 X. congruence.
  - (* autowrite *) cbn [step]. unfold walking. destruct (s_phase s) eqn:PH; auto. destruct (alloc s) as [s1 b] eqn:A.
    destruct (alloc_Inv s s1 b I A) as [I1 [[S1 [S2 _]] [FR [NC ND]]]]. rewrite <- S1. apply auto_Inv; auto. congruence.
  - destruct (s_phase s) eqn:PH; try (cbn [step]; rewrite PH; exact I). apply finish_Inv; auto.
  - apply control_Inv; auto.
  - apply publish_Inv; auto.
  - apply scans_Inv; auto.
  - apply scans_Inv; auto.
  - apply restart_Inv; auto.
Qed.

Lemma reach_Inv : forall s, reachable s -> Inv s.
Proof.
  intros s [ops ->]. apply run_inv; [intros; apply step_Inv; auto|exact init_Inv].
Qed.

(** * Scans *)
Record J (n p b : Z) (s : state) : Prop := {
  j_fnum : s_fnum s <= n;
  j_num : n <= scan_num s;
  j_free : ~ In b (s_free s);
  j_tmp : forall m, In b (s_tmp s m) -> n < m;
  j_len : b < s_len s;
  j_own : forall q g, s_pages s q = Some g -> g_ext g = Some b -> q = p
}.

Lemma num_scans_pos : forall s n, In n (s_scans s) -> num_scans s n <> 0.
Proof.
  intros s n H. unfold num_scans. assert (In n (filter (fun x => x mod NSCANS =? n mod NSCANS) (s_scans s))) as F.
  { apply filter_In. split; auto. lia. }
  destruct (filter _ _); [contradiction|cbn [length]; lia].
Qed.

Lemma switch_once_J : forall n p b s, J n p b s -> In n (s_scans s) -> J n p b (switch_once s).
Proof.
  intros n p b s A H. unfold switch_once. destruct (s_free s) eqn:F; auto. destruct (can_use s (s_fnum s + 1)) eqn:C; auto.
  unfold can_use in C. apply andb_true_iff in C. destruct C as [C1 C2]. replace (s_fnum s + 1 - 1) with (s_fnum s) in C2 by lia.
  pose proof (num_scans_pos s n H) as N. destruct A. assert (s_fnum s <> n) by (intros E; rewrite E in C2; lia).
  constructor; fld; auto.
  - lia.
  - intros X. specialize (j_tmp0 _ X). lia.
  - intros m X. destruct (Z.eq_dec m (s_fnum s + 1)) as [->|NE]; [rewrite upd_same in X; contradiction|rewrite upd_other in X by auto; auto].
Qed.
Lemma switch_once_scans : forall s, s_scans (switch_once s) = s_scans s.
Proof. intros s. unfold switch_once. destruct (s_free s); auto. destruct (can_use _ _); auto. Qed.
Lemma switch_J : forall k n p b s, J n p b s -> In n (s_scans s) -> J n p b (switch k s).
Proof.
  induction k; intros n p b s A H; cbn [switch]; auto. apply IHk; [apply switch_once_J; auto|rewrite switch_once_scans; auto].
Qed.
Lemma alloc_J : forall n p b s s2 b2, J n p b s -> In n (s_scans s) -> alloc s = (s2, b2) -> J n p b s2 /\ b2 <> b.
Proof.
  intros n p b s s2 b2 A H E. unfold alloc in E. cbv zeta in E. pose proof (switch_J (Z.to_nat (s_last s - s_fnum s)) n p b s A H) as B.
  set (s1 := switch _ s) in *. clearbody s1. destruct B. destruct (s_free s1) as [|x r] eqn:F; injection E as <- <-.
  - split; [constructor; fld; auto; lia|lia].
  - split; [constructor; fld; auto|].
    + intros X; apply j_free0; right; exact X.
    + intros ->. apply j_free0. left; reflexivity.
Qed.
Lemma free_for_J : forall n p b s x m, J n p b s -> n < m -> J n p b (free_for s x m).
Proof.
  intros n p b s x m A L. destruct A. constructor; fld; auto. intros k X. apply upd_app_in in X. destruct X as [X|[-> _]]; auto.
Qed.
Lemma set_page_J : forall n p b s q x, J n p b s -> (forall g, x = Some g -> g_ext g = Some b -> q = p) -> J n p b (set_page s q x).
Proof.
  intros n p b s q x A H. destruct A. constructor; fld; auto. intros r g X E. destruct (Z.eq_dec r q) as [->|N]; [rewrite upd_same in X; eauto|rewrite upd_other in X by auto; eauto].
Qed.
Lemma wnum_scan : forall s vis, scan_num s < wnum s vis.
Proof. intros s vis. unfold scan_num, wnum. destruct (s_phase s), vis; lia. Qed.

Lemma page_io_J : forall n p b s q g v vis copy, J n p b s -> In n (s_scans s) -> s_pages s q = Some g ->
  J n p b (page_io s q g v (wnum s vis) copy).
Proof.
  intros n p b s q g v vis copy A H P. unfold page_io. pose proof (wnum_scan s vis) as W. pose proof (j_num _ _ _ _ A) as NN.
  destruct (g_chk g <? wnum s vis) eqn:LT.
  - set (s1 := match g_ext g with Some b => set_page (free_for s b (wnum s vis)) q (Some (mkPg (wnum s vis) None v (g_vis g))) | None => s end).
    assert (A1 : J n p b s1 /\ s_scans s1 = s_scans s).
    { unfold s1. destruct (g_ext g) as [x|]; [|auto]. split; [|reflexivity]. apply set_page_J; [apply free_for_J; auto; lia|]. intros h X Y. injection X as <-. discriminate. }
    destruct A1 as [A1 S1]. clearbody s1. destruct (alloc s1) as [s2 x] eqn:AE.
    rewrite <- S1 in H. destruct (alloc_J n p b s1 s2 x A1 H AE) as [A2 NX].
    assert (F : forall s3, J n p b s3 -> J n p b (set_disk (set_page s3 q (Some (mkPg (wnum s vis) (Some x) v (g_vis g)))) x v)).
    { intros s3 A3. assert (A4 : J n p b (set_page s3 q (Some (mkPg (wnum s vis) (Some x) v (g_vis g))))).
      { apply set_page_J; auto. intros h X Y. injection X as <-. cbn in Y. congruence. }
      destruct A4; constructor; fld; auto. }
    destruct copy; [|apply F; auto]. unfold alloc_copy. rewrite AE. destruct (s_phase s2); apply F; auto. destruct A2; constructor; fld; auto.
  - destruct (g_ext g) as [x|] eqn:E; auto.
    assert (A4 : J n p b (set_page s q (Some (mkPg (g_chk g) (Some x) v (g_vis g))))).
    { apply set_page_J; auto. intros h X Y. injection X as <-. cbn in Y. apply (j_own _ _ _ _ A q g P). congruence. }
    destruct A4; constructor; fld; auto.
Qed.

Lemma step_J : forall n p b s o, J n p b s -> In n (s_scans s) -> o <> ORestart -> J n p b (step s o).
Proof.
  intros n p b s o A H NR. pose proof (j_num _ _ _ _ A) as NN. destruct o as [q v vis|q v|q| |q v|q|q|q|v| | | | |k|]; cbn [step].
  - destruct (s_pages s q) eqn:E; auto. apply set_page_J; auto. intros g X Y. injection X as <-. discriminate.
  - destruct (s_pages s q) as [g|] eqn:E; auto. apply page_io_J; auto.
  - destruct (s_pages s q) as [g|] eqn:E; auto. apply set_page_J; [|intros; discriminate]. destruct (g_ext g); auto. apply free_for_J; auto.
    pose proof (wnum_scan s (g_vis g)); lia.
  - destruct (s_phase s) eqn:PH; auto. destruct A. unfold scan_num in *. rewrite PH in *. constructor; fld; auto.
  - unfold walking. destruct (s_phase s) eqn:PH; auto. destruct (s_pages s q) as [g|] eqn:E; auto. destruct (g_vis g); auto. cbv zeta.
    assert (W : wnum s false = s_last s + 1) by (unfold wnum; rewrite PH; reflexivity). rewrite <- W.
    pose proof (page_io_J n p b s q g v false false A H E) as B. set (s1 := page_io _ _ _ _ _ _) in *. clearbody s1.
    destruct (s_pages s1 q) as [[c [x|] v' vis']|] eqn:E1; auto.
    assert (B2 : J n p b (set_page s1 q (Some (mkPg c (Some x) v' true)))).
    { apply set_page_J; auto. intros h X Y. injection X as <-. cbn in Y. apply (j_own _ _ _ _ B q _ E1). exact Y. }
    destruct B2; constructor; fld; auto.
  - unfold walking. destruct (s_phase s) eqn:PH; auto. destruct (s_pages s q) as [[c [x|] v [|]]|] eqn:E; auto. destruct (s_disk s x =? v); auto.
    assert (B2 : J n p b (set_page s q (Some (mkPg c (Some x) v true)))).
    { apply set_page_J; auto. intros h X Y. injection X as <-. cbn in Y. apply (j_own _ _ _ _ A q _ E). exact Y. }
    destruct B2; constructor; fld; auto.
  - unfold walking. destruct (s_phase s) eqn:PH; auto. destruct (s_pages s q) as [g|] eqn:E; auto. apply set_page_J; auto.
    intros h X Y. injection X as <-. cbn in Y. apply (j_own _ _ _ _ A q _ E). exact Y.
  - unfold walking. destruct (s_phase s) eqn:PH; auto. destruct (s_pages s q) as [g|] eqn:E; auto. destruct (g_vis g); auto.
    apply set_page_J; [|intros h X Y; injection X as <-; discriminate]. destruct (g_ext g); auto. apply free_for_J; auto. unfold scan_num in NN. rewrite PH in NN. lia.
  - unfold walking. destruct (s_phase s) eqn:PH; auto. destruct (alloc s) as [s1 x] eqn:AE. destruct (alloc_J n p b s s1 x A H AE) as [B NX].
    assert (B2 : J n p b (free_for (set_disk s1 x v) x (s_last s + 2))).
    { apply free_for_J; [destruct B; constructor; fld; auto|]. unfold scan_num in NN. rewrite PH in NN. lia. }
    destruct B2; constructor; fld; auto.
  - destruct (s_phase s) eqn:PH; auto. destruct A. unfold scan_num in *. rewrite PH in *. constructor; fld; auto. unfold scan_num; fld. lia.
  - destruct (s_phase s) eqn:PH; auto. destruct A. unfold scan_num in *. rewrite PH in *. constructor; fld; auto.
  - destruct (s_phase s) eqn:PH; auto. destruct A. unfold scan_num in *. rewrite PH in *. constructor; fld; auto.
    intros q g X Y. unfold clear_vis in X. destruct (s_pages s q) as [h|] eqn:E; [|discriminate]. injection X as <-. eauto.
  - destruct A; constructor; fld; auto.
  - destruct A; constructor; fld; auto.
  - congruence.
Qed.

Lemma run_J : forall n p b ops s, J n p b s -> scan_on n s ops -> J n p b (run step s ops).
Proof.
  intros n p b ops. induction ops as [|o r IH]; intros s A H; [exact A|]. destruct H as [H1 [H2 H3]].
  change (J n p b (run step (step s o) r)). apply IH; auto. apply step_J; auto.
Qed.

Lemma start_J : forall s p g b, Inv s -> s_pages s p = Some g -> g_ext g = Some b -> J (scan_num s) p b s.
Proof.
  intros s p g b A P E. pose proof (i_used _ A p g b P E) as [U1 U2]. constructor.
  - pose proof (i_fnum _ A). unfold scan_num. destruct (s_phase s); lia.
  - lia.
  - exact U1.
  - intros m X. exfalso; exact (U2 m X).
  - exact (i_plen _ A p g b P E).
  - intros q h Q EQ. exact (i_pages _ A q p h g b Q P EQ E).
Qed.
