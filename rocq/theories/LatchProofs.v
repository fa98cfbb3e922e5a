(** Mutual exclusion, consistency of validated copies and of generation checks. *)
From Coq Require Import ZArith List Bool Lia.
From Coq Require Import ZifyBool ZifyNat.
From Verif Require Import Base LatchModel.
Import ListNotations.
Open Scope Z_scope.

Definition holding (c : pc) : bool :=
  match c with Held _ | UTry _ _ _ | UHave _ _ _ _ _ _ _ _ | UCas _ _ _ _ _ _ _ => true | _ => false end.
Definition ref_ok (s : state) (l0 : Z) : Prop := 0 <= l0 <= life s /\ (l0 = life s -> live s = true).
Definition rok (s : state) (c : pc) : Prop :=
  match c with
  | RTry l0 | QTry l0 _ | QHave l0 _ _ | QWait l0 _ => ref_ok s l0
  | RCopy l0 w img v0 => ref_ok s l0 /\ wc w = v0 mod 2 ^ 32 /\ 0 <= v0 <= ver s /\
      (l0 = life s -> v0 = ver s -> wn (wd s) = false -> forall i x, img i = Some x -> x = pub s v0 i)
  | RGen l0 w img v0 => ref_ok s l0 /\ 0 <= v0 <= ver s /\
      (l0 = life s -> ver s < v0 + 2 ^ 32 -> forall i x, img i = Some x -> x = pub s v0 i)
  | _ => True
  end.
Definition rd_ok (s : state) (r : rd) : Prop :=
  0 <= r_ref r <= r_gen r /\ r_v0 r <= ver s /\
  (r_gen r < r_ref r + 2 ^ 31 -> r_gen r = r_ref r /\
     (r_v1 r < r_v0 r + 2 ^ 32 -> forall i x, r_img r i = Some x -> x = pub s (r_v0 r) i)).
Definition chk_ok (c : Z * Z) : Prop := fst c <= snd c /\ (snd c < fst c + 2 ^ 31 -> snd c = fst c).

Record MInv (s : state) : Prop := {
  m_uniq : forall p q, holding (pcs s p) = true -> holding (pcs s q) = true -> p = q;
  m_lock : forall p, holding (pcs s p) = true -> wl (wd s) = true;
  m_own : wl (wd s) = true -> exists p, holding (pcs s p) = true;
  m_nr : wn (wd s) = true -> wl (wd s) = true;
  m_cc : wc (wd s) = ver s mod 2 ^ 32 /\ 0 <= ver s;
  m_gen : gen s = life s mod 2 ^ 31 /\ 0 <= life s;
  m_pub : live s = true -> wn (wd s) = false -> forall i, data s i = pub s (ver s) i;
  m_rd : forall p, rok s (pcs s p);
  m_log : Forall (rd_ok s) (reads s);
  m_chk : Forall chk_ok (checks s) }.

Lemma word_eqb_eq : forall a b, word_eqb a b = true -> a = b.
Proof.
  intros [a1 a2 a3 a4 a5] [b1 b2 b3 b4 b5]. unfold word_eqb. cbn. rewrite !andb_true_iff, !Bool.eqb_true_iff, !Z.eqb_eq.
  intros ((((A & B) & C) & D) & E). congruence.
Qed.
Lemma holding_Held : forall s p w, pcs s p = Held w -> holding (pcs s p) = true.
Proof. intros s p w E. rewrite E. auto. Qed.

Definition same (s s' : state) : Prop :=
  wd s' = wd s /\ gen s' = gen s /\ data s' = data s /\ life s' = life s /\ live s' = live s /\ ver s' = ver s /\ pub s' = pub s /\
  reads s' = reads s /\ checks s' = checks s.
Lemma rok_same : forall s s' c, same s s' -> rok s c -> rok s' c.
Proof.
  intros s s' c (E1 & E2 & E3 & E4 & E5 & E6 & E7 & _) H. destruct c; cbn in *; unfold ref_ok in *; rewrite ?E1, ?E4, ?E5, ?E6, ?E7; auto.
Qed.
Lemma upd_hold : forall (f : Z -> pc) p c q, holding c = holding (f p) -> holding (upd f p c q) = holding (f q).
Proof. intros f p c q H. unfold upd. destruct (Z.eqb_spec q p); subst; auto. Qed.
(** Steps that change neither the word nor the data. *)
Lemma M_frame : forall s s' p c, MInv s -> same s s' -> pcs s' = upd (pcs s) p c -> holding c = holding (pcs s p) -> rok s c -> MInv s'.
Proof.
  intros s s' p c M Sm Ep Hh Hr. pose proof Sm as (E1 & E2 & E3 & E4 & E5 & E6 & E7 & E8 & E9).
  constructor; rewrite ?E1, ?E2, ?E3, ?E4, ?E5, ?E6, ?E7, ?E8, ?E9; try (apply M).
  - intros a b. rewrite Ep, !upd_hold by auto. apply M.
  - intros a. rewrite Ep, upd_hold by auto. apply M.
  - intros L. destruct (m_own _ M L) as [a A]. exists a. rewrite Ep, upd_hold by auto. auto.
  - intros a. apply (rok_same s); auto. rewrite Ep. unfold upd. destruct (a =? p); auto. apply M.
  - eapply Forall_impl; [|apply M]. intros r (A & B & C). unfold rd_ok. rewrite E6, E7. auto.
Qed.
Lemma M_frame0 : forall s s', MInv s -> same s s' -> pcs s' = pcs s -> MInv s'.
Proof.
  intros s s' M Sm Ep. pose proof Sm as (E1 & E2 & E3 & E4 & E5 & E6 & E7 & E8 & E9).
  constructor; rewrite ?E1, ?E2, ?E3, ?E4, ?E5, ?E6, ?E7, ?E8, ?E9, ?Ep; try (apply M).
  - intros a. apply (rok_same s); auto. apply M.
  - eapply Forall_impl; [|apply M]. intros r (A & B & C). unfold rd_ok. rewrite E6, E7. auto.
Qed.

(** Steps that change the word only: change count kept, no-read flag kept or raised. *)
Lemma M_word : forall s s' p c, MInv s ->
  gen s' = gen s -> data s' = data s -> life s' = life s -> live s' = live s -> ver s' = ver s -> pub s' = pub s ->
  reads s' = reads s -> checks s' = checks s ->
  wc (wd s') = wc (wd s) -> (wn (wd s') = wn (wd s) \/ wn (wd s') = true /\ wl (wd s') = true) ->
  pcs s' = upd (pcs s) p c -> rok s c ->
  (wl (wd s') = wl (wd s) /\ holding c = holding (pcs s p) \/ wl (wd s) = false /\ wl (wd s') = true /\ holding c = true) -> MInv s'.
Proof.
  intros s s' p c M E2 E3 E4 E5 E6 E7 E8 E9 Ec En Ep Hr Hl.
  assert (N : wn (wd s') = false -> wn (wd s) = false) by (destruct En as [->|[-> _]]; auto; discriminate).
  assert (K : forall c, rok s c -> rok s' c).
  { intros c0 H. destruct c0; cbn in *; unfold ref_ok in *; rewrite ?E4, ?E5, ?E6, ?E7; auto. intuition. }
  constructor; rewrite ?E2, ?E3, ?E4, ?E5, ?E6, ?E7, ?E8, ?E9, ?Ec; try (apply M).
  - intros a b. rewrite Ep. destruct Hl as [[L Hh]|(L & L' & Hh)]; [rewrite !upd_hold by auto; apply M|].
    unfold upd. destruct (Z.eqb_spec a p), (Z.eqb_spec b p); subst; auto; intros A B; exfalso.
    + apply (m_lock _ M) in B. congruence.
    + apply (m_lock _ M) in A. congruence.
    + apply (m_lock _ M) in A. congruence.
  - intros a. rewrite Ep. destruct Hl as [[L Hh]|(L & L' & Hh)]; auto. rewrite upd_hold, L by auto. apply M.
  - intros L'. rewrite Ep. destruct Hl as [[L Hh]|(L & _ & Hh)].
    + rewrite L in L'. destruct (m_own _ M L') as [a A]. exists a. rewrite upd_hold; auto.
    + exists p. rewrite upd_same. auto.
  - intros Hn. destruct En as [En|[_ En]]; auto. rewrite En in Hn. destruct Hl as [[L _]|(_ & L & _)]; auto. rewrite L. apply (m_nr _ M). auto.
  - intros Hv Hn. apply (m_pub _ M Hv (N Hn)).
  - intros a. apply K. rewrite Ep. unfold upd. destruct (a =? p); auto. apply M.
  - eapply Forall_impl; [|apply M]. intros r (A & B & C). unfold rd_ok. rewrite E6, E7. auto.
Qed.

Ltac same := repeat split; reflexivity.
Ltac pcset := reflexivity.

Lemma inc_gen_mod : forall l, 0 <= l -> inc_gen (l mod 2 ^ 31) = (l + 1) mod 2 ^ 31.
Proof.
  intros l H. unfold inc_gen. pose proof (Z.mod_pos_bound l (2 ^ 31) ltac:(lia)). pose proof (Z.div_mod l (2 ^ 31) ltac:(lia)).
  destruct (Z.leb_spec 0x7FFFFFFF (l mod 2 ^ 31)).
  - apply (Z.mod_unique _ _ (l / 2 ^ 31 + 1)); lia.
  - apply (Z.mod_unique _ _ (l / 2 ^ 31)); lia.
Qed.
Lemma mod_inj : forall a b n, 0 < n -> a <= b < a + n -> b mod n = a mod n -> b = a.
Proof.
  intros a b n Hn H E. pose proof (Z.div_mod a n ltac:(lia)). pose proof (Z.div_mod b n ltac:(lia)).
  assert (b / n = a / n \/ b / n < a / n \/ b / n > a / n) as [D|[D|D]] by lia; [rewrite D in *; lia| |]; exfalso; nia.
Qed.

Lemma M_state : forall s p, MInv s -> MInv (step s (OState p)).
Proof.
  intros s p M. cbn. pose proof (m_rd _ M p) as R. destruct (pcs s p) eqn:E; auto; cbn in R;
    try (eapply (M_frame s _ p); [auto|same|pcset|rewrite E; auto|cbn; auto]; fail).
  - destruct (changed (wd s) w0); eapply (M_frame s _ p); [auto|same|pcset|rewrite E; auto|cbn; auto|auto|same|pcset|rewrite E; auto|cbn; auto].
  - destruct (wn (wd s)) eqn:N; (eapply (M_frame s _ p); [auto|same|pcset|rewrite E; auto|cbn; auto]).
    split; auto. split; [apply (m_cc _ M)|]. split; [pose proof (proj2 (m_cc _ M)); lia|]. discriminate.
Qed.

Lemma M_cas : forall s p u, MInv s -> MInv (step s (OCas p u)).
Proof.
  intros s p u M. cbn. pose proof (m_rd _ M p) as R. destruct (pcs s p) eqn:E; auto; cbn in R.
  - destruct (wl w) eqn:L.
    + unfold link. cbn. destruct (word_eqb (wd s) w) eqn:Q.
      * apply word_eqb_eq in Q. eapply (M_word s _ p); cbn; rewrite ?E, ?Q, ?L; auto.
      * eapply (M_frame s _ p); [auto|same|pcset|rewrite E; auto|cbn; auto].
    + destruct (word_eqb (wd s) w) eqn:Q.
      * apply word_eqb_eq in Q. destruct k; eapply (M_word s _ p); cbn; rewrite ?E, ?Q, ?L; auto.
      * eapply (M_frame s _ p); [auto|same|pcset|rewrite E; auto|cbn; auto].
  - destruct (changed w w0).
    + eapply (M_frame s _ p); [auto|same|pcset|rewrite E; auto|cbn; auto].
    + unfold link. cbn. destruct (word_eqb (wd s) w) eqn:Q.
      * apply word_eqb_eq in Q. eapply (M_word s _ p); cbn; rewrite ?E, ?Q; auto.
      * eapply (M_frame s _ p); [auto|same|pcset|rewrite E; auto|cbn; auto].
  - destruct (wn w) eqn:N.
    + unfold link. cbn. destruct (word_eqb (wd s) w) eqn:Q.
      * apply word_eqb_eq in Q. eapply (M_word s _ p); cbn; rewrite ?E, ?Q; auto.
      * eapply (M_frame s _ p); [auto|same|pcset|rewrite E; auto|cbn; auto].
    + eapply (M_frame s _ p); [auto|same|pcset|rewrite E; auto|cbn; auto].
Qed.

Lemma M_sem : forall s p, MInv s -> MInv (step s (OSem p)).
Proof.
  intros s p M. cbn. pose proof (m_rd _ M p) as R. destruct (sem s p); auto. destruct (pcs s p) eqn:E; auto; cbn in R; destruct (is_up (stat s p)).
  2, 3, 4, 5, 6: eapply (M_frame s _ p); [auto|same|pcset|rewrite E; auto|cbn; auto].
  destruct k; [|destruct (ins s p)]; (eapply (M_frame s _ p); [auto|same|pcset|rewrite E; auto|cbn; auto]).
Qed.

Lemma M_block : forall s p, MInv s -> MInv (step s (OBlock p)).
Proof.
  intros s p M. cbn. destruct (pcs s p) eqn:E; auto. destruct (wn w); auto.
  pose proof (m_lock _ M p) as L. rewrite E in L. specialize (L eq_refl).
  eapply (M_word s _ p); cbn; rewrite ?E, ?L; auto. cbn. auto.
Qed.

Lemma M_data : forall s d, MInv s -> (live s = true -> wn (wd s) = false -> forall i, d i = pub s (ver s) i) -> MInv (set_data s d).
Proof. intros s d M H. constructor; cbn; auto; try (apply M). Qed.
Lemma M_write : forall s p i v, MInv s -> MInv (step s (OWrite p i v)).
Proof.
  intros s p i v M. cbn. unfold holder_noread. destruct (pcs s p) eqn:E; auto. destruct (wn (wd s)) eqn:N; auto.
  apply M_data; auto. congruence.
Qed.
Lemma M_raw : forall s i v, MInv s -> MInv (step s (ORaw i v)).
Proof. intros s i v M. cbn. destruct (live s) eqn:L; auto. apply M_data; auto. congruence. Qed.

Lemma M_kill : forall s, MInv s -> MInv (set_gen s (inc_gen (gen s)) (life s + 1) false).
Proof.
  intros s M. constructor; cbn; try (apply M).
  - destruct (m_gen _ M) as [E H]. rewrite E, inc_gen_mod by auto. split; auto; lia.
  - discriminate.
  - intros p. pose proof (m_rd _ M p) as R. destruct (pcs s p); cbn in *; auto; unfold ref_ok in *; cbn; intuition; lia.
Qed.
Lemma M_reuse : forall s p, MInv s -> MInv (step s (OReuse p)).
Proof.
  intros s p M. cbn. unfold holder_noread. destruct (pcs s p) eqn:E; auto. destruct (wn (wd s)) eqn:N; auto.
  constructor; cbn; try (apply M); [congruence|].
  intros q. pose proof (m_rd _ M q) as R. destruct (pcs s q); cbn in *; auto; unfold ref_ok in *; cbn; intuition.
Qed.
Lemma M_check : forall s p l, MInv s -> MInv (step s (OCheck p l)).
Proof.
  intros s p l M. cbn. destruct (pcs s p) eqn:E; auto.
  destruct ((l <? life s) || (l =? life s) && live s) eqn:G; auto. destruct (Z.eqb_spec (gen s) (ref_gen l)) as [Q|Q].
  - constructor; cbn; try (apply M). constructor; [|apply M]. unfold chk_ok. cbn. split; [lia|]. intros B.
    unfold ref_gen in Q. destruct (m_gen _ M) as [Eg _]. rewrite Eg in Q. apply (mod_inj _ _ (2 ^ 31)); lia.
  - eapply (M_frame s _ p); [auto|same|pcset|rewrite E; auto|cbn; auto].
Qed.

Lemma M_ucas : forall s p, MInv s -> MInv (step s (OUCas p)).
Proof.
  intros s p M. cbn. destruct (pcs s p) eqn:E; auto. destruct (word_eqb (wd s) w) eqn:Q.
  2: { eapply (M_frame s _ p); [auto|same|pcset|rewrite E; auto|cbn; auto]. }
  apply word_eqb_eq in Q. subst w.
  assert (Hp : holding (pcs s p) = true) by (rewrite E; auto).
  assert (U : forall q, holding (upd (pcs s) p (UWk rel w0 wk) q) = false).
  { intros q. unfold upd. destruct (Z.eqb_spec q p); auto. destruct (holding (pcs s q)) eqn:H; auto. exfalso. apply n. apply (m_uniq _ M); auto. }
  destruct (m_cc _ M) as [Ec Hv].
  destruct (wn (wd s)) eqn:N; constructor; cbn; rewrite ?N; try (intros; rewrite U in *; discriminate); try discriminate; try (apply M).
  - rewrite Ec, Zplus_mod_idemp_l. split; auto. lia.
  - intros _ _ i. rewrite upd_same. auto.
  - assert (K : forall c, rok s c -> rok (set_pub (set_pc (set_wd s (unlock_word (wd s) nt)) p (UWk rel w0 wk)) (ver s + 1) (upd (pub s) (ver s + 1) (data s))) c).
    { intros c H. destruct c; cbn in *; unfold ref_ok in *; cbn; auto.
      - destruct H as (A & B & C & D). repeat split; auto; try tauto; try lia.
      - destruct H as (A & C & D). repeat split; auto; try tauto; try lia. intros X Y i x Z. rewrite upd_other by lia. apply D; auto; lia. }
    intros q. apply K. unfold upd. destruct (q =? p); [cbn; auto|apply M].
  - eapply Forall_impl; [|apply M]. intros r (A & B & C). unfold rd_ok. cbn. split; auto. split; [lia|].
    intros X. destruct (C X) as [C1 C2]. split; auto. intros Y i x Z. rewrite upd_other by lia. auto.
  - intros Lv _. apply (m_pub _ M); auto.
  - intros q. assert (K : forall c, rok s c -> rok (set_pc (set_wd s (unlock_word (wd s) nt)) p (UWk rel w0 wk)) c).
    { intros c H. destruct c; cbn in *; unfold ref_ok in *; cbn; auto. intuition. }
    apply K. unfold upd. destruct (q =? p); [cbn; auto|apply M].
Qed.

Lemma M_copy : forall s p i, MInv s -> MInv (step s (OCopy p i)).
Proof.
  intros s p i M. cbn. pose proof (m_rd _ M p) as R. destruct (pcs s p) eqn:E; auto. cbn in R. destruct R as (A & B & C & D).
  eapply (M_frame s _ p); [auto|same|pcset|rewrite E; auto|]. cbn. repeat split; auto; try tauto; try lia; try apply A.
  intros X Y Z j x. unfold upd. destruct (Z.eqb_spec j i); [|apply D; auto]. intros Q. inv Q. apply (m_pub _ M); auto.
  apply A. auto.
Qed.
Lemma M_rcheck : forall s p, MInv s -> MInv (step s (ORCheck p)).
Proof.
  intros s p M. cbn. pose proof (m_rd _ M p) as R. destruct (pcs s p) eqn:E; auto. cbn in R. destruct R as (A & B & C & D).
  destruct (Z.eqb_spec (wc w) (wc (wd s))) as [Q|Q]; cbn; [destruct (wn (wd s)) eqn:N|];
    (eapply (M_frame s _ p); [auto|same|pcset|rewrite E; auto|cbn; auto]).
  repeat split; auto; try lia; try apply A. intros X Y. apply D; auto. destruct (m_cc _ M) as [Ec _]. rewrite B, Ec in Q.
  symmetry. apply (mod_inj _ _ (2 ^ 32)); lia.
Qed.
Lemma M_rgen : forall s p, MInv s -> MInv (step s (ORGen p)).
Proof.
  intros s p M. cbn. pose proof (m_rd _ M p) as R. destruct (pcs s p) eqn:E; auto. cbn in R. destruct R as (A & B & D).
  destruct (Z.eqb_spec (gen s) (ref_gen l0)) as [Q|Q].
  2: { eapply (M_frame s _ p); [auto|same|pcset|rewrite E; auto|cbn; auto]. }
  assert (M1 : MInv (set_pc s p Idle)) by (eapply (M_frame s _ p); [auto|same|pcset|rewrite E; auto|cbn; auto]).
  constructor; cbn; try (apply M1). constructor; [|apply M].
  unfold rd_ok. cbn. destruct A as [A1 A2]. repeat split; try lia; intros.
  - unfold ref_gen in Q. destruct (m_gen _ M) as [Eg _]. rewrite Eg in Q. apply (mod_inj _ _ (2 ^ 31)); lia.
  - apply D; auto. unfold ref_gen in Q. destruct (m_gen _ M) as [Eg _]. rewrite Eg in Q. symmetry. apply (mod_inj _ _ (2 ^ 31)); lia.
Qed.

Lemma M_step : forall s o, MInv s -> MInv (step s o).
Proof.
  intros s o M. destruct o; try (apply M_state; auto); try (apply M_cas; auto); try (apply M_sem; auto); try (apply M_block; auto);
    try (apply M_write; auto); try (apply M_raw; auto); try (apply M_reuse; auto); try (apply M_check; auto); try (apply M_ucas; auto);
    try (apply M_copy; auto); try (apply M_rcheck; auto); try (apply M_rgen; auto); cbn.
  - destruct (proc p && is_idle (pcs s p)) eqn:G; auto. apply andb_true_iff in G as [_ G]. destruct (pcs s p) eqn:E; try discriminate.
    eapply (M_frame s _ p); [auto|same|pcset|rewrite E; auto|cbn; auto].
  - destruct (proc p && is_idle (pcs s p) && negb (wl (wd s))) eqn:G; auto. apply andb_true_iff in G as [G L]. apply negb_true_iff in L.
    apply andb_true_iff in G as [_ G]. destruct (pcs s p) eqn:E; try discriminate. eapply (M_word s _ p); cbn; rewrite ?E, ?L; auto; cbn; auto.
  - destruct (pcs s p) eqn:E; auto. destruct k; auto. destruct (wl w); auto. eapply (M_frame s _ p); [auto|same|pcset|rewrite E; auto|cbn; auto].
  - destruct (pcs s p) eqn:E; auto. destruct (on_list n (nxt s) (wt (wd s)) q && is_ins (stat s q)); auto. apply (M_frame0 s); auto. same.
  - destruct (pcs s p) eqn:E; auto. apply M_kill; auto.
  - destruct (holder_noread s p); auto. apply M_kill; auto.
  - destruct (pcs s p) eqn:E; auto. eapply (M_frame s _ p); [auto|same|pcset|rewrite E; auto|cbn; auto].
  - destruct (pcs s p) eqn:E; auto. destruct (walk n (stat s) (ins s) sp ex pt (nxt s) (wt w) INV (wt w) wk INV INV) as [r|]; auto.
    destruct (patch ex pt pp r) as [[[nx nt] wk'] ex']. eapply (M_frame s _ p); [auto|same|pcset|rewrite E; auto|cbn; auto].
  - destruct (pcs s p) eqn:E; auto. destruct (h =? INV); [destruct rel|]; (eapply (M_frame s _ p); [auto|same|pcset|rewrite E; auto|cbn; auto]).
  - destruct (pcs s p) eqn:E; auto. eapply (M_frame s _ p); [auto|same|pcset|rewrite E; auto|cbn; auto].
  - destruct (proc p && is_idle (pcs s p) && (0 <=? l0) && ((l0 <? life s) || (l0 =? life s) && live s)) eqn:G; auto.
    destruct (pcs s p) eqn:E; try (cbn in G; rewrite andb_false_r in G; discriminate).
    eapply (M_frame s _ p); [auto|same|pcset|rewrite E; auto|cbn; auto]. unfold ref_ok. split; [lia|]. intros. lia.
  - constructor; cbn; apply M.
  - destruct (is_idle (pcs s p)); auto. apply (M_frame0 s); auto. same.
  - apply (M_frame0 s); auto. same.
  - destruct (sem s p); auto. destruct (is_idle (pcs s p)); auto. apply (M_frame0 s); auto. same.
Qed.
Lemma M_init : MInv init.
Proof. constructor; cbn; intros; auto; try discriminate; try lia; try (split; [reflexivity|lia]); constructor. Qed.
Lemma M_run : forall ops, MInv (run step init ops).
Proof. intros. apply (run_inv _ _ step MInv); auto using M_step, M_init. Qed.
