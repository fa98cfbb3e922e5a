From Coq Require Import ZArith List Bool Lia Permutation.
From Verif Require Import Base SecIxModel SecIxSpec.
Import ListNotations.
Open Scope Z_scope.

(** * Fields *)
Lemma memz_in : forall x l, memz x l = true <-> In x l.
Proof.
  intros x l. unfold memz. rewrite existsb_exists. split.
  - intros (y & A & B). apply Z.eqb_eq in B. subst. exact A.
  - intros A. exists x. split; [exact A | apply Z.eqb_refl].
Qed.
Lemma add_fields_nodup : forall cols acc du, NoDup (acc ++ cols) -> add_fields cols acc du = (acc ++ cols, du).
Proof.
  induction cols as [|c r IH]; intros acc du H; cbn.
  - rewrite app_nil_r. reflexivity.
  - destruct (memz c acc) eqn:E.
    + exfalso. apply memz_in in E. apply NoDup_remove_2 in H. apply H. apply in_or_app. left. exact E.
    + rewrite IH; rewrite <- app_assoc; [reflexivity | exact H].
Qed.
Lemma own_nodup : forall d, NoDup (d_cols d) -> own_fields d = d_cols d /\ dups d = [].
Proof. intros d H. unfold own_fields, dups. rewrite (add_fields_nodup (d_cols d) [] [] H). split; reflexivity. Qed.
Lemma filter_ext_in' : forall (A : Type) (f g : A -> bool) l, (forall x, In x l -> f x = g x) -> filter f l = filter g l.
Proof.
  induction l as [|x r IH]; intros H; cbn; [reflexivity|].
  rewrite (H x (or_introl eq_refl)), IH; [reflexivity | intros; apply H; right; assumption].
Qed.
Lemma add_fields_pk : forall pk acc du, NoDup pk ->
  fst (add_fields pk acc du) = acc ++ filter (fun p => negb (memz p acc)) pk.
Proof.
  induction pk as [|p r IH]; intros acc du H; cbn.
  - rewrite app_nil_r. reflexivity.
  - apply NoDup_cons_iff in H as [H1 H2].
    destruct (memz p acc) eqn:E; cbn; rewrite IH by exact H2; [reflexivity|].
    rewrite <- app_assoc. cbn. do 2 f_equal. apply filter_ext_in'. intros x Hx. f_equal.
    unfold memz. rewrite existsb_app. cbn.
    replace (x =? p) with false; [rewrite !orb_false_r; reflexivity|].
    symmetry. apply Z.eqb_neq. intros ->. contradiction.
Qed.
Lemma fields_stored : forall c d, NoDup (c_pk c) -> NoDup (d_cols d) -> fields c d = stored c d.
Proof.
  intros c d P D. unfold fields, stored. rewrite add_fields_pk by exact P. destruct (own_nodup d D) as [-> _]. reflexivity.
Qed.
Lemma pk_in_stored : forall c d p, In p (c_pk c) -> In p (stored c d).
Proof.
  intros c d p H. unfold stored. apply in_or_app.
  destruct (memz p (d_cols d)) eqn:E; [left; apply memz_in; exact E|].
  right. apply filter_In. rewrite E. auto.
Qed.

(** * The entry built for a row *)
Lemma index_of_nth : forall fs x, In x fs -> nth_error fs (Z.to_nat (index_of x fs)) = Some x /\ 0 <= index_of x fs.
Proof.
  induction fs as [|y r IH]; intros x H; [destruct H|].
  change (index_of x (y :: r)) with (if y =? x then 0 else 1 + index_of x r).
  destruct (y =? x) eqn:E.
  - apply Z.eqb_eq in E. subst. cbn. split; [reflexivity | lia].
  - apply Z.eqb_neq in E. destruct H as [H | H]; [congruence|].
    destruct (IH x H) as [A B]. split; [|lia].
    replace (Z.to_nat (1 + index_of x r)) with (S (Z.to_nat (index_of x r))) by lia. exact A.
Qed.
Lemma index_of_app : forall a b x, ~ In x a -> index_of x (a ++ b) = Z.of_nat (length a) + index_of x b.
Proof.
  induction a as [|y r IH]; intros b x H; [reflexivity|].
  change (index_of x ((y :: r) ++ b)) with (if y =? x then 0 else 1 + index_of x (r ++ b)).
  replace (y =? x) with false.
  - rewrite IH; [|intros Q; apply H; right; exact Q]. cbn [length]. lia.
  - symmetry. apply Z.eqb_neq. intros ->. apply H. left. reflexivity.
Qed.

Definition good (r : row) (fs : list Z) (i : Z) (v : Z -> Z) (n : Z -> bool) : Prop :=
  match nth_error fs (Z.to_nat i) with Some f => (if n i then None else Some (v i)) = r f | None => True end.
Lemma write_good : forall r fs p v n, In p fs ->
  good r fs (index_of p fs) (upd v (index_of p fs) (match r p with Some x => x | None => 0 end))
    (upd n (index_of p fs) (match r p with Some _ => false | None => true end)).
Proof.
  intros r fs p v n H. unfold good. destruct (index_of_nth fs p H) as [-> _]. rewrite !upd_same. destruct (r p); reflexivity.
Qed.
Lemma fill_good : forall pk fs from r v n i, (forall p, In p pk -> In p fs) ->
  (good r fs i v n \/ exists p, In p pk /\ index_of p fs = i /\ from <= i) ->
  good r fs i (fst (fill pk fs from r v n)) (snd (fill pk fs from r v n)).
Proof.
  induction pk as [|p rest IH]; intros fs from r v n i S H; cbn.
  - destruct H as [H | (p & [] & _)]. exact H.
  - destruct (Z.leb_spec from (index_of p fs)) as [L | L].
    + apply IH; [intros q Hq; apply S; right; exact Hq|].
      destruct (Z.eq_dec (index_of p fs) i) as [E | E].
      * left. rewrite <- E. apply write_good. apply S. left. reflexivity.
      * destruct H as [H | (q & [<- | Q] & A & B)].
        -- left. unfold good in *. rewrite !upd_other by congruence. exact H.
        -- contradiction.
        -- right. exists q. auto.
    + apply IH; [intros q Hq; apply S; right; exact Hq|].
      destruct H as [H | (q & [<- | Q] & A & B)].
      * left. exact H.
      * exfalso. lia.
      * right. exists q. auto.
Qed.

Lemma map_seq_ext : forall (fs : list Z) (A : Type) (g : nat -> A) (h : Z -> A) k,
  (forall i f, nth_error fs i = Some f -> g (k + i)%nat = h f) -> map g (seq k (length fs)) = map h fs.
Proof.
  induction fs as [|f r IH]; intros A g h k H; cbn; [reflexivity|]. f_equal.
  - rewrite <- (H O f eq_refl). f_equal. lia.
  - apply IH. intros i x Hx. rewrite <- (H (S i) x Hx). f_equal. lia.
Qed.

Lemma filter_len : forall (A : Type) (f : A -> bool) l, (length (filter f l) <= length l)%nat.
Proof. induction l as [|x r IH]; cbn; [lia|]. destruct (f x); cbn; lia. Qed.

Lemma entry_upd_ok : forall c d r, NoDup (c_pk c) -> NoDup (d_cols d) -> entry_upd c d r = map r (stored c d).
Proof.
  intros c d r P D. unfold entry_upd, form. rewrite (fields_stored c d P D).
  apply map_seq_ext. intros i f Hf. rewrite Nat.add_0_l.
  assert (G : good r (stored c d) (Z.of_nat i)
     (fst (append_rowid c d r (vals_of r (d_cols d)) (nulls_of r (d_cols d))))
     (snd (append_rowid c d r (vals_of r (d_cols d)) (nulls_of r (d_cols d))))).
  { unfold append_rowid, nf. rewrite (fields_stored c d P D). apply fill_good.
    - intros p Hp. apply pk_in_stored. exact Hp.
    - destruct (Nat.ltb_spec i (length (d_cols d))) as [L | L].
      + left. unfold good, vals_of, nulls_of. rewrite Nat2Z.id, Hf.
        unfold stored in Hf. rewrite nth_error_app1 in Hf by exact L. rewrite Hf. destruct (r f); reflexivity.
      + right. exists f. unfold stored in Hf. rewrite nth_error_app2 in Hf by exact L.
        pose proof (nth_error_In _ _ Hf) as I. apply filter_In in I as [I1 I2].
        split; [exact I1|]. split.
        * unfold stored. rewrite index_of_app.
          -- assert (N : NoDup (filter (fun p => negb (memz p (d_cols d))) (c_pk c))) by (apply NoDup_filter; exact P).
             destruct (index_of_nth _ f (nth_error_In _ _ Hf)) as [A B].
             assert (Z.to_nat (index_of f (filter (fun p => negb (memz p (d_cols d))) (c_pk c))) = (i - length (d_cols d))%nat).
             { apply (proj1 (NoDup_nth_error _) N); [apply nth_error_Some; congruence | congruence]. }
             lia.
          -- intros Q. apply memz_in in Q. rewrite Q in I2. discriminate.
        * unfold stored. rewrite app_length. pose proof (filter_len _ (fun p => negb (memz p (d_cols d))) (c_pk c)). lia. }
  unfold good in G. rewrite Nat2Z.id, Hf in G. exact G.
Qed.
Lemma entry_ins_ok : forall c d r, NoDup (c_pk c) -> NoDup (d_cols d) -> entry_ins c d r = map r (stored c d).
Proof.
  intros c d r P D. rewrite <- entry_upd_ok by assumption. unfold entry_ins, entry_upd, squeezed.
  destruct (own_nodup d D) as [_ ->]. reflexivity.
Qed.

(** * Comparisons *)
Lemma veq_refl : forall c a, veq c a a = true.
Proof. intros c [x|]; cbn; [apply Z.eqb_refl | reflexivity]. Qed.
Lemma veq_sym : forall c a b, veq c a b = veq c b a.
Proof. intros c [x|] [y|]; cbn; auto. apply Z.eqb_sym. Qed.
Lemma veq_trans : forall c a b d, veq c a b = true -> veq c b d = true -> veq c a d = true.
Proof. intros c [x|] [y|] [z|]; cbn; auto; try discriminate. rewrite !Z.eqb_eq. congruence. Qed.
Lemma keq_rows : forall canon fs a b, keq canon fs (map a fs) (map b fs) = true <-> forall x, In x fs -> veq (canon x) (a x) (b x) = true.
Proof.
  induction fs as [|f r IH]; intros a b; cbn.
  - split; [intros _ x [] | reflexivity].
  - rewrite andb_true_iff, IH. split.
    + intros [A B] x [<- | H]; [exact A | apply B; exact H].
    + intros H. split; [apply H; left; reflexivity | intros x Hx; apply H; right; exact Hx].
Qed.
Lemma keq_app : forall canon fs gs a b, keq canon fs (map a (fs ++ gs)) (map b (fs ++ gs)) = keq canon fs (map a fs) (map b fs).
Proof. induction fs as [|f r IH]; intros gs a b; cbn; [reflexivity|]. rewrite IH. reflexivity. Qed.
Lemma pkeq_iff : forall c a b, pkeq c (pkey c a) (pkey c b) = true <-> rows_equal_on c (c_pk c) a b.
Proof. intros c a b. unfold pkeq, pkey, rows_equal_on. apply keq_rows. Qed.
Lemma req_refl : forall c l a, rows_equal_on c l a a.
Proof. intros c l a x _. apply veq_refl. Qed.
Lemma req_sym : forall c l a b, rows_equal_on c l a b -> rows_equal_on c l b a.
Proof. intros c l a b H x Hx. rewrite veq_sym. apply H. exact Hx. Qed.
Lemma img_eqb_eq : forall a b, img_eqb a b = true -> a = b.
Proof.
  induction a as [|x r IH]; intros [|y b]; cbn; try discriminate; auto.
  rewrite andb_true_iff. intros [A B]. rewrite (IH _ B). f_equal.
  destruct x, y; cbn in A; try discriminate; auto. apply Z.eqb_eq in A. congruence.
Qed.

(** * Invariant *)
Fixpoint pkdist (c : config) (rows : list row) : Prop :=
  match rows with [] => True | r :: rest => (forall x, In x rest -> ~ rows_equal_on c (c_pk c) r x) /\ pkdist c rest end.
Definition ixinv (c : config) (rows : list row) (d : ixdef) (ix : list entry) : Prop :=
  agrees c d rows ix /\
  (d_uniq d = true -> forall e e', In e ix -> In e' ix -> has_nulls e = false -> has_nulls e' = false ->
     keq (c_canon c) (firstn (nuniq d) (fields c d)) e e' = true -> e = e').
Definition Inv (c : config) (s : state) : Prop := pkdist c (s_rows s) /\ Forall2 (ixinv c (s_rows s)) (c_ix c) (s_ix s).

Lemma perm_filter : forall (A : Type) (f : A -> bool) l l', Permutation l l' -> Permutation (filter f l) (filter f l').
Proof.
  intros A f l l' P. induction P; cbn.
  - constructor.
  - destruct (f x); [constructor|]; assumption.
  - destruct (f x), (f y); try apply Permutation_refl. constructor.
  - eapply perm_trans; eassumption.
Qed.
Lemma filter_map_comm : forall (A B : Type) (g : A -> B) (f : B -> bool) l, filter f (map g l) = map g (filter (fun x => f (g x)) l).
Proof. induction l as [|x r IH]; cbn; [reflexivity|]. rewrite IH. destruct (f (g x)); reflexivity. Qed.
Lemma filter_comm : forall (A : Type) (f g : A -> bool) l, filter f (filter g l) = filter g (filter f l).
Proof.
  induction l as [|x r IH]; cbn; [reflexivity|].
  destruct (f x) eqn:F, (g x) eqn:G; cbn; rewrite ?F, ?G, IH; reflexivity.
Qed.

Definition others (c : config) (r : row) (rows : list row) : list row := filter (fun x => negb (pkeq c (pkey c r) (pkey c x))) rows.

Lemma pkdist_filter : forall c f rows, pkdist c rows -> pkdist c (filter f rows).
Proof.
  induction rows as [|x r IH]; cbn; [auto|]. intros [A B]. destruct (f x); cbn; [|auto]. split; [|auto].
  intros y Hy. apply filter_In in Hy as [Hy _]. auto.
Qed.
Lemma pkdist_eq : forall c rows a b, pkdist c rows -> In a rows -> In b rows -> rows_equal_on c (c_pk c) a b -> a = b.
Proof.
  induction rows as [|x r IH]; cbn; intros a b D A B E; [destruct A|]. destruct D as [D1 D2].
  destruct A as [<- | A], B as [<- | B]; auto.
  - exfalso. exact (D1 _ B E).
  - exfalso. exact (D1 _ A (req_sym _ _ _ _ E)).
Qed.
Lemma perm_others : forall c rows r, pkdist c rows -> In r rows -> Permutation rows (r :: others c r rows).
Proof.
  intros c rows r D H. induction rows as [|x rest IH]; [destruct H|]. destruct D as [D1 D2].
  unfold others. cbn [filter]. destruct H as [<- | H].
  - assert (pkeq c (pkey c x) (pkey c x) = true) as -> by (apply pkeq_iff; apply req_refl). cbn.
    apply perm_skip. replace (filter _ rest) with rest; [apply Permutation_refl|].
    rewrite <- (map_id rest) at 1. symmetry.
    assert (G : forall l, (forall y, In y l -> ~ rows_equal_on c (c_pk c) x y) -> filter (fun y => negb (pkeq c (pkey c x) (pkey c y))) l = map (fun y => y) l).
    { induction l as [|y l IHl]; intros HH; cbn; [reflexivity|].
      destruct (pkeq c (pkey c x) (pkey c y)) eqn:E.
      - exfalso. apply pkeq_iff in E. exact (HH y (or_introl eq_refl) E).
      - cbn. rewrite IHl; [reflexivity | intros z Hz; apply HH; right; exact Hz]. }
    apply G. exact D1.
  - destruct (pkeq c (pkey c r) (pkey c x)) eqn:E.
    + exfalso. apply pkeq_iff in E. exact (D1 r H (req_sym _ _ _ _ E)).
    + cbn. eapply perm_trans; [apply perm_skip, IH; assumption | apply perm_swap].
Qed.

Definition ent (c : config) (d : ixdef) (r : row) : entry := map r (stored c d).
Lemma keq_ent : forall c d a b, keq (c_canon c) (stored c d) (ent c d a) (ent c d b) = true <-> rows_equal_on c (stored c d) a b.
Proof. intros. apply keq_rows. Qed.

Section OneIndex.
  Variables (c : config) (d : ixdef).
  Hypothesis P : NoDup (c_pk c).
  Hypothesis D : NoDup (d_cols d).
  Set Default Proof Using "All".

  Lemma delete_ok : forall rows ix r ix', pkdist c rows -> In r rows -> d_pred d r = true ->
    ixinv c rows d ix -> tree_delete c d (ent c d r) ix = Some ix' -> ixinv c (others c r rows) d ix'.
  Proof.
    intros rows ix r ix' DR IR PR [A U] H. unfold tree_delete in H.
    destruct (existsb _ ix); inversion H; subst ix'. clear H. split.
    - unfold agrees in *. rewrite (fields_stored c d P D).
      eapply perm_trans; [apply perm_filter; exact A|].
      rewrite filter_map_comm. apply Permutation_refl'. f_equal. unfold others. rewrite (filter_comm _ (d_pred d)).
      apply filter_ext_in'. intros x Hx. apply filter_In in Hx as [Hx Px]. f_equal.
      change (map x (stored c d)) with (ent c d x).
      destruct (pkeq c (pkey c r) (pkey c x)) eqn:E.
      + apply pkeq_iff in E. rewrite (pkdist_eq c rows r x DR IR Hx E). apply keq_ent. apply req_refl.
      + destruct (keq _ _ (ent c d r) (ent c d x)) eqn:E2; [|reflexivity]. exfalso.
        apply keq_ent in E2. assert (pkeq c (pkey c r) (pkey c x) = true); [|congruence].
        apply pkeq_iff. intros p Hp. apply E2. apply pk_in_stored. exact Hp.
    - intros Q e e' He He'. apply filter_In in He as [He _]. apply filter_In in He' as [He' _]. apply U; assumption.
  Qed.

  Lemma insert_agrees : forall rows ix r ix', d_pred d r = true ->
    agrees c d rows ix -> tree_insert c d (ent c d r) ix = Some ix' -> agrees c d (r :: rows) ix' /\ ix' = ent c d r :: ix.
  Proof.
    intros rows ix r ix' PR A H. unfold tree_insert in H. destruct (existsb _ ix); inversion H; subst ix'.
    split; [|reflexivity]. unfold agrees in *. cbn [filter]. rewrite PR. cbn. apply perm_skip. exact A.
  Qed.

  Lemma keq_sym : forall canon fs a b, keq canon fs a b = keq canon fs b a.
  Proof. induction fs as [|f fr IH]; intros [|x a] [|y b]; cbn; auto. rewrite IH, veq_sym. reflexivity. Qed.

  Lemma insert_ok : forall rows ix r ix' (b : bool), d_pred d r = true ->
    ixinv c rows d ix ->
    (b = true -> d_uniq d = false \/ has_nulls (ent c d r) = true) ->
    (if b then tree_insert c d (ent c d r) ix else tree_insert_unique c d (ent c d r) ix) = Some ix' ->
    ixinv c (r :: rows) d ix'.
  Proof.
    intros rows ix r ix' b PR [A U] B H. destruct b.
    - destruct (insert_agrees rows ix r ix' PR A H) as [A' ->]. split; [exact A'|].
      intros Q e e' He He' N N' K. destruct (B eq_refl) as [B' | B']; [congruence|].
      destruct He as [<- | He]; [congruence|]. destruct He' as [<- | He']; [congruence|]. apply U; assumption.
    - unfold tree_insert_unique in H. destruct (existsb (keq (c_canon c) (firstn (nuniq d) (fields c d)) (ent c d r)) ix) eqn:E; [discriminate|].
      destruct (insert_agrees rows ix r ix' PR A H) as [A' ->]. split; [exact A'|].
      assert (G : forall x, In x ix -> keq (c_canon c) (firstn (nuniq d) (fields c d)) (ent c d r) x <> true).
      { intros x Hx K. assert (existsb (keq (c_canon c) (firstn (nuniq d) (fields c d)) (ent c d r)) ix = true); [|congruence].
        apply existsb_exists. exists x. auto. }
      intros Q e e' He He' N N' K. destruct He as [<- | He], He' as [<- | He']; auto.
      + exfalso. exact (G _ He' K).
      + exfalso. rewrite keq_sym in K. exact (G _ He K).
  Qed.

  Lemma skip_insert : forall rows ix r, d_pred d r = false -> ixinv c rows d ix -> ixinv c (r :: rows) d ix.
  Proof. intros rows ix r PR [A U]. split; [|exact U]. unfold agrees in *. cbn [filter]. rewrite PR. exact A. Qed.

  Lemma skip_delete : forall rows ix r, pkdist c rows -> In r rows -> d_pred d r = false -> ixinv c rows d ix -> ixinv c (others c r rows) d ix.
  Proof.
    intros rows ix r DR IR PR [A U]. split; [|exact U]. unfold agrees in *. eapply perm_trans; [exact A|].
    pose proof (perm_filter _ (d_pred d) _ _ (perm_others c rows r DR IR)) as Q. cbn [filter] in Q. rewrite PR in Q.
    apply Permutation_map. exact Q.
  Qed.

  Lemma am_insert_ok : forall rows ix r ix', ixinv c rows d ix ->
    (if d_pred d r then am_insert c d r ix else Some ix) = Some ix' -> ixinv c (r :: rows) d ix'.
  Proof.
    intros rows ix r ix' I H. destruct (d_pred d r) eqn:PR.
    - unfold am_insert in H. rewrite (entry_ins_ok c d r P D) in H. cbv zeta in H.
      eapply insert_ok; [exact PR | exact I | | exact H].
      intros B. apply orb_true_iff in B as [B | B].
      + left. apply negb_true_iff. exact B.
      + right. apply andb_true_iff in B as [_ B]. exact B.
    - inversion H; subst. apply skip_insert; assumption.
  Qed.

  Lemma am_delete_ok : forall rows ix r ix', pkdist c rows -> In r rows -> ixinv c rows d ix ->
    (if d_pred d r then am_delete c d r ix else Some ix) = Some ix' -> ixinv c (others c r rows) d ix'.
  Proof.
    intros rows ix r ix' DR IR I H. destruct (d_pred d r) eqn:PR.
    - unfold am_delete in H. rewrite (entry_upd_ok c d r P D) in H. eapply delete_ok; eauto.
    - inversion H; subst. apply skip_delete; assumption.
  Qed.

  Lemma am_update_ok : forall rows ix o n ix', pkdist c rows -> In o rows -> ixinv c rows d ix ->
    am_update c d o n ix = Some ix' -> ixinv c (n :: others c o rows) d ix'.
  Proof.
    intros rows ix o n ix' DR IR I H. unfold am_update in H. rewrite (entry_upd_ok c d o P D), (entry_upd_ok c d n P D) in H. cbv zeta in H.
    destruct (img_eqb (map o (stored c d)) (map n (stored c d)) && eqb (d_pred d o) (d_pred d n)) eqn:E.
    - inversion H; subst ix'. apply andb_true_iff in E as [E1 E2]. apply img_eqb_eq in E1. apply eqb_prop in E2.
      destruct I as [A U]. split; [|exact U]. unfold agrees in *. eapply perm_trans; [exact A|].
      pose proof (perm_filter _ (d_pred d) _ _ (perm_others c rows o DR IR)) as Q. cbn [filter] in *.
      eapply perm_trans; [apply Permutation_map; exact Q|]. rewrite E2. destruct (d_pred d n); cbn; [rewrite E1|]; apply Permutation_refl.
    - destruct (if d_pred d o then _ else _) as [ix1|] eqn:E1; [|discriminate].
      assert (I1 : ixinv c (others c o rows) d ix1).
      { destruct (d_pred d o) eqn:PO.
        - eapply delete_ok; eauto.
        - inversion E1; subst. apply skip_delete; assumption. }
      destruct (d_pred d n) eqn:PN.
      + eapply insert_ok; [exact PN | exact I1 | | exact H].
        intros B. apply orb_true_iff in B as [B | B]; [left; apply negb_true_iff; exact B | right; exact B].
      + inversion H; subst. apply skip_insert; assumption.
  Qed.
  Unset Default Proof Using.
End OneIndex.

Lemma each_ok : forall f ds ixs r (Q Q' : ixdef -> list entry -> Prop), each f ds ixs = Some r -> Forall2 Q ds ixs ->
  (forall d ix ix', In d ds -> Q d ix -> f d ix = Some ix' -> Q' d ix') -> Forall2 Q' ds r.
Proof.
  induction ds as [|d dr IH]; intros ixs r Q Q' E F H; inversion F; subst; cbn in E.
  - inversion E. constructor.
  - destruct (f d y) as [ix'|] eqn:E1; [|discriminate]. destruct (each f dr l') as [r'|] eqn:E2; [|discriminate].
    inversion E; subst. constructor.
    + eapply H; [left; reflexivity | eassumption | exact E1].
    + eapply IH; [exact E2 | eassumption | intros; eapply H; [right; eassumption | eassumption | eassumption]].
Qed.

Lemma fresh_dist : forall c r rows, existsb (fun x => pkeq c (pkey c r) (pkey c x)) rows = false ->
  forall x, In x rows -> ~ rows_equal_on c (c_pk c) r x.
Proof.
  intros c r rows E x Hx Q. assert (existsb (fun x => pkeq c (pkey c r) (pkey c x)) rows = true); [|congruence].
  apply existsb_exists. exists x. split; [exact Hx | apply pkeq_iff; exact Q].
Qed.

Lemma Inv_step : forall c s o, no_repeats c -> Inv c s -> Inv c (step c s o).
Proof.
  intros c s o [NP ND] [I1 I2]. destruct o as [r | k n | k]; cbn [step].
  - destruct (existsb _ (s_rows s)) eqn:E; [split; assumption|].
    destruct (each _ _ _) as [ixs|] eqn:EE; [|split; assumption]. split; cbn [s_rows s_ix].
    + split; [apply fresh_dist; exact E | exact I1].
    + eapply each_ok; [exact EE | exact I2|]. intros d ix ix' Hd I H. eapply am_insert_ok; eauto.
  - destruct (find _ (s_rows s)) as [r|] eqn:F; [|split; assumption]. apply find_some in F as [F _].
    destruct (existsb _ (filter _ _)) eqn:E; [split; assumption|].
    destruct (each _ _ _) as [ixs|] eqn:EE; [|split; assumption]. split; cbn [s_rows s_ix].
    + split; [apply fresh_dist; exact E | apply pkdist_filter; exact I1].
    + eapply each_ok; [exact EE | exact I2|]. intros d ix ix' Hd I H. eapply am_update_ok; eauto.
  - destruct (find _ (s_rows s)) as [r|] eqn:F; [|split; assumption]. apply find_some in F as [F _].
    destruct (each _ _ _) as [ixs|] eqn:EE; [|split; assumption]. split; cbn [s_rows s_ix].
    + apply pkdist_filter. exact I1.
    + eapply each_ok; [exact EE | exact I2|]. intros d ix ix' Hd I H. eapply am_delete_ok; eauto.
Qed.

Lemma Inv_init : forall c, Inv c (init c).
Proof.
  intros c. split; [exact Logic.I|]. unfold init. cbn. induction (c_ix c) as [|d r IH]; cbn; constructor.
  - split; [apply perm_nil | intros _ e e' []].
  - exact IH.
Qed.
Lemma Inv_reach : forall c s, no_repeats c -> reachable c s -> Inv c s.
Proof.
  intros c s N [ops ->]. apply (run_inv _ _ (step c) (Inv c)); [intros; apply Inv_step; assumption | apply Inv_init].
Qed.

(** The primary key needs no condition on the indexes. *)
Lemma pkdist_reach : forall c s, reachable c s -> pkdist c (s_rows s).
Proof.
  intros c s [ops ->]. apply (run_inv _ _ (step c) (fun s => pkdist c (s_rows s))); [|exact Logic.I].
  clear. intros s o I1. destruct o as [r | k n | k]; cbn [step].
  - destruct (existsb _ (s_rows s)) eqn:E; [assumption|]. destruct (each _ _ _) as [ixs|] eqn:EE; [|assumption].
    split; [apply fresh_dist; exact E | exact I1].
  - destruct (find _ (s_rows s)) as [r|] eqn:F; [|assumption].
    destruct (existsb _ (filter _ _)) eqn:E; [assumption|]. destruct (each _ _ _) as [ixs|] eqn:EE; [|assumption].
    split; [apply fresh_dist; exact E | apply pkdist_filter; exact I1].
  - destruct (find _ (s_rows s)) as [r|] eqn:F; [|assumption]. destruct (each _ _ _) as [ixs|] eqn:EE; [|assumption].
    apply pkdist_filter. exact I1.
Qed.

(** * Statements that must not fail *)
Lemma each_some : forall f ds ixs (Q : ixdef -> list entry -> Prop), Forall2 Q ds ixs ->
  (forall d ix, In d ds -> Q d ix -> exists ix', f d ix = Some ix') -> exists r, each f ds ixs = Some r.
Proof.
  induction ds as [|d dr IH]; intros ixs Q F H; inversion F; subst; cbn.
  - eexists. reflexivity.
  - destruct (H d y (or_introl eq_refl)) as [ix' ->]; [assumption|].
    destruct (IH l' Q) as [r' ->]; [assumption | intros; apply H; [right; assumption | assumption] | eexists; reflexivity].
Qed.

Lemma delete_found : forall c d rows ix r, NoDup (c_pk c) -> NoDup (d_cols d) -> agrees c d rows ix -> In r rows -> d_pred d r = true ->
  exists ix', tree_delete c d (ent c d r) ix = Some ix'.
Proof.
  intros c d rows ix r P D A I PR. unfold tree_delete. rewrite (fields_stored c d P D).
  replace (existsb (keq (c_canon c) (stored c d) (ent c d r)) ix) with true; [eexists; reflexivity|].
  symmetry. apply existsb_exists. exists (ent c d r). split; [|apply keq_ent; apply req_refl].
  eapply Permutation_in; [apply Permutation_sym; exact A|]. apply in_map_iff. exists r. split; [reflexivity|].
  apply filter_In. auto.
Qed.
Lemma insert_free : forall c d rows ix r, NoDup (c_pk c) -> NoDup (d_cols d) -> agrees c d rows ix ->
  (forall x, In x rows -> ~ rows_equal_on c (c_pk c) r x) -> exists ix', tree_insert c d (ent c d r) ix = Some ix'.
Proof.
  intros c d rows ix r P D A F. unfold tree_insert. rewrite (fields_stored c d P D).
  destruct (existsb (keq (c_canon c) (stored c d) (ent c d r)) ix) eqn:E; [|eexists; reflexivity]. exfalso.
  apply existsb_exists in E as (e & He & K).
  apply (Permutation_in _ A) in He. apply in_map_iff in He as (x & <- & Hx). apply filter_In in Hx as [Hx _].
  apply (F x Hx). change (map x (stored c d)) with (ent c d x) in K. apply keq_ent in K. intros p Hp. apply K. apply pk_in_stored. exact Hp.
Qed.

Lemma find_self : forall c rows r, pkdist c rows -> In r rows -> find (fun x => pkeq c (pkey c r) (pkey c x)) rows = Some r.
Proof.
  intros c rows r D H. destruct (find _ rows) as [x|] eqn:F.
  - apply find_some in F as [F1 F2]. apply pkeq_iff in F2. rewrite (pkdist_eq c rows r x D H F1 F2). reflexivity.
  - exfalso. apply find_none with (x := r) in F; [|exact H].
    assert (pkeq c (pkey c r) (pkey c r) = true) by (apply pkeq_iff; apply req_refl). congruence.
Qed.
Lemma no_conflict : forall c r rows, (forall x, In x rows -> ~ rows_equal_on c (c_pk c) r x) -> existsb (fun x => pkeq c (pkey c r) (pkey c x)) rows = false.
Proof.
  intros c r rows F. destruct (existsb _ rows) eqn:E; [|reflexivity]. exfalso.
  apply existsb_exists in E as (x & Hx & K). apply pkeq_iff in K. exact (F x Hx K).
Qed.

Lemma nuniq_nodup : forall c d, NoDup (c_pk c) -> NoDup (d_cols d) -> (d_nkey d <= length (d_cols d))%nat ->
  nuniq d = d_nkey d /\ fields c d = firstn (d_nkey d) (d_cols d) ++ (skipn (d_nkey d) (d_cols d) ++ filter (fun p => negb (memz p (d_cols d))) (c_pk c)).
Proof.
  intros c d P D L. split.
  - unfold nuniq. rewrite add_fields_nodup.
    + cbn. rewrite firstn_length. lia.
    + cbn. rewrite <- (firstn_skipn (d_nkey d) (d_cols d)) in D. revert D. generalize (skipn (d_nkey d) (d_cols d)) as b. generalize (firstn (d_nkey d) (d_cols d)) as a.
      induction a as [|x a IH]; intros b N; [constructor|]. cbn in N. apply NoDup_cons_iff in N as [N1 N2]. constructor; [|eauto].
      intros Q. apply N1. apply in_or_app. left. exact Q.
  - rewrite (fields_stored c d P D). unfold stored. rewrite app_assoc, firstn_skipn. reflexivity.
Qed.

Lemma uniq_keq : forall c d a b, NoDup (c_pk c) -> NoDup (d_cols d) -> (d_nkey d <= length (d_cols d))%nat ->
  keq (c_canon c) (firstn (nuniq d) (fields c d)) (ent c d a) (ent c d b) = true <-> rows_equal_on c (firstn (d_nkey d) (d_cols d)) a b.
Proof.
  intros c d a b P D L. unfold ent. rewrite <- (fields_stored c d P D).
  destruct (nuniq_nodup c d P D L) as [-> ->].
  assert (E : firstn (d_nkey d) (firstn (d_nkey d) (d_cols d) ++ skipn (d_nkey d) (d_cols d) ++ filter (fun p => negb (memz p (d_cols d))) (c_pk c)) = firstn (d_nkey d) (d_cols d)).
  { rewrite firstn_app, firstn_firstn, Nat.min_id. rewrite firstn_length.
    replace (d_nkey d - Nat.min (d_nkey d) (length (d_cols d)))%nat with O by lia. cbn. apply app_nil_r. }
  rewrite E, keq_app. apply keq_rows.
Qed.
Lemma has_nulls_ent : forall c d a, (forall x, In x (stored c d) -> a x <> None) -> has_nulls (ent c d a) = false.
Proof.
  intros c d a. unfold ent. generalize (stored c d) as l. induction l as [|x l IH]; intros H; cbn; [reflexivity|].
  unfold has_nulls in IH. rewrite IH by (intros; apply H; right; assumption). specialize (H x (or_introl eq_refl)). destruct (a x); [reflexivity | congruence].
Qed.
Lemma map_ent_eq : forall (a b : row) l x, map a l = map b l -> In x l -> a x = b x.
Proof.
  induction l as [|y l IH]; intros x E H; [destruct H|]. cbn in E. inversion E. destruct H as [<- | H]; auto.
Qed.
