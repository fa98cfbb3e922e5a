From Coq Require Import ZArith List Bool Lia.
From Coq Require Import ZifyBool ZifyNat.
From Verif Require Import Base RelFilesModel RelFilesSpec.
Import ListNotations.
Open Scope Z_scope.

Lemma keqb_eq : forall a b, keqb a b = true <-> a = b.
Proof.
  intros [a1 a2 a3 a4] [b1 b2 b3 b4]. unfold keqb. cbn. rewrite !andb_true_iff, !Z.eqb_eq. split.
  - intros [[[-> ->] ->] ->]. reflexivity.
  - intro E. inversion E. auto.
Qed.
Lemma kin_In : forall k l, kin k l = true <-> In k l.
Proof.
  intros k l. unfold kin. rewrite existsb_exists. split.
  - intros [x [I E]]. apply keqb_eq in E. subst. exact I.
  - intro I. exists k. split; [exact I|apply keqb_eq; reflexivity].
Qed.
Lemma kin_dec : forall k l, {In k l /\ kin k l = true} + {~ In k l /\ kin k l = false}.
Proof.
  intros k l. destruct (kin k l) eqn:E; [left; split; [apply kin_In; exact E|reflexivity]|right; split; [|reflexivity]].
  intro I. apply kin_In in I. congruence.
Qed.
Lemma minus_In : forall k a b, In k (minus a b) <-> In k a /\ ~ In k b.
Proof.
  intros k a b. unfold minus. rewrite filter_In. destruct (kin_dec k b) as [[I ->]|[I ->]]; cbn; intuition discriminate.
Qed.

(** Records of a change. *)
Definition iold (i : item) := firstn (oldNumTrees i) (trees i).
Definition inew (i : item) := firstn (newNumTrees i) (skipn (oldNumTrees i) (trees i)).
Definition iok (i : item) := (oldRelnode i = 0 -> iold i = []) /\ (newRelnode i = 0 -> inew i = []).

Record mch (is : list item) (ch : change) : Prop := {
  m_old : forall k, In k (flat_map iold is) <-> In k (c_old ch);
  m_new : forall k, In k (flat_map inew is) <-> In k (c_new ch);
  m_fs : forall i, In i is -> it_fsync i = c_fsync ch /\ iok i
}.

Lemma memcpy_first : forall n m src, (n <= length src)%nat -> memcpy (repeat no_key (n + m)) 0 src n = firstn n src ++ repeat no_key m.
Proof.
  intros n m src L. unfold memcpy. destruct (Nat.eqb_spec n 0) as [->|N]; [reflexivity|].
  rewrite repeat_length. cbn [Nat.add]. replace (n <=? n + m)%nat with true by lia. cbn [firstn app]. f_equal.
  rewrite repeat_app, skipn_app, repeat_length, Nat.sub_diag. rewrite skipn_all2 by (rewrite repeat_length; lia). reflexivity.
Qed.
Lemma memcpy_second : forall a m src, (m <= length src)%nat -> memcpy (a ++ repeat no_key m) (length a) src m = a ++ firstn m src.
Proof.
  intros a m src L. unfold memcpy. destruct (Nat.eqb_spec m 0) as [->|N]; [reflexivity|].
  rewrite app_length, repeat_length, Nat.leb_refl. rewrite firstn_app, firstn_all, Nat.sub_diag. cbn [firstn]. rewrite app_nil_r. f_equal.
  rewrite skipn_app, skipn_all2 by lia. replace (length a + m - length a)%nat with m by lia.
  rewrite skipn_all2 by (rewrite repeat_length; lia). rewrite app_nil_r. reflexivity.
Qed.

Lemma add_undo_spec : forall cap on nn fs, (0 < cap)%nat -> forall fuel old new stk, (length old + length new < fuel)%nat ->
  (old = [] \/ on <> 0) -> (new = [] \/ nn <> 0) ->
  exists is, add_undo_relnode fuel cap on old nn new fs stk = is ++ stk /\ mch is (mkCh old new fs).
Proof.
  intros cap on nn fs CP. induction fuel as [|n IH]; intros old new stk LT HO HN; [lia|].
  cbn [add_undo_relnode]. destruct (Nat.eqb_spec (length old + length new) 0) as [E|N].
  - destruct old; [|cbn in E; lia]. destruct new; [|cbn in E; lia]. exists []. split; [reflexivity|]. constructor; cbn; tauto.
  - set (so := Nat.min (length old) cap). set (sn := Nat.min (length new) (cap - so)).
    assert (A1 : (if (0 <? length old)%nat then memcpy (repeat no_key (so + sn)) 0 old so else repeat no_key (so + sn)) = firstn so old ++ repeat no_key sn).
    { destruct (Nat.ltb_spec 0 (length old)) as [H|H]; [apply memcpy_first; lia|].
      assert (E : so = 0%nat) by lia. rewrite E. reflexivity. }
    rewrite A1. clear A1.
    assert (A2 : (if (0 <? length new)%nat then memcpy (firstn so old ++ repeat no_key sn) (length old) new sn else firstn so old ++ repeat no_key sn) = firstn so old ++ firstn sn new).
    { destruct (Nat.ltb_spec 0 (length new)) as [H|H].
      - destruct (Nat.eq_dec sn 0) as [E|E]; [rewrite E; reflexivity|].
        assert (E2 : so = length old) by lia. rewrite E2, firstn_all. apply memcpy_second. lia.
      - assert (E : sn = 0%nat) by lia. rewrite E. reflexivity. }
    rewrite A2. clear A2.
    set (it := mkItem on so nn sn fs (firstn so old ++ firstn sn new)).
    assert (LO : length (firstn so old) = so) by (rewrite firstn_length; lia).
    assert (LN : length (firstn sn new) = sn) by (rewrite firstn_length; lia).
    assert (IO : iold it = firstn so old).
    { unfold iold. cbn [it oldNumTrees trees]. rewrite firstn_app, LO, Nat.sub_diag. cbn [firstn]. rewrite app_nil_r.
      rewrite firstn_firstn, Nat.min_id. reflexivity. }
    assert (IN : inew it = firstn sn new).
    { unfold inew. cbn [it oldNumTrees newNumTrees trees]. rewrite skipn_app, LO, Nat.sub_diag. cbn [skipn].
      rewrite skipn_all2 by lia. cbn [app]. rewrite firstn_firstn, Nat.min_id. reflexivity. }
    destruct (IH (skipn so old) (skipn sn new) (it :: stk)) as [is [E [M1 M2 M3]]].
    + rewrite !skipn_length. lia.
    + destruct HO as [->|HO]; [left; destruct so; reflexivity|right; exact HO].
    + destruct HN as [->|HN]; [left; destruct sn; reflexivity|right; exact HN].
    + exists (is ++ [it]). split; [rewrite E, <- app_assoc; reflexivity|]. cbn [c_old c_new c_fsync] in *.
      constructor; cbn [c_old c_new c_fsync].
      * intro k. rewrite flat_map_app, in_app_iff, M1. cbn [flat_map]. rewrite app_nil_r, IO.
        rewrite <- (firstn_skipn so old) at 3. rewrite in_app_iff. tauto.
      * intro k. rewrite flat_map_app, in_app_iff, M2. cbn [flat_map]. rewrite app_nil_r, IN.
        rewrite <- (firstn_skipn sn new) at 3. rewrite in_app_iff. tauto.
      * intros i Hi. apply in_app_iff in Hi. destruct Hi as [Hi|[<-|[]]]; [apply M3; exact Hi|]. split; [reflexivity|].
        split; cbn [it oldRelnode newRelnode]; intro Z0.
        -- rewrite IO. destruct HO as [->|HO]; [destruct so; reflexivity|contradiction].
        -- rewrite IN. destruct HN as [->|HN]; [destruct sn; reflexivity|contradiction].
Qed.

(* The records of a transaction against its changes. *)
Inductive mlv : list item -> list change -> Prop :=
  | mlv_nil : mlv [] []
  | mlv_cons : forall a b ch l, mch a ch -> mlv b l -> mlv (a ++ b) (ch :: l).
Inductive mtx : list item -> list nat -> list (list change) -> Prop :=
  | mtx_base : forall is l, mlv is l -> mtx is [] [l]
  | mtx_sp : forall a b ms l ls, mlv a l -> mtx b ms ls -> mtx (a ++ b) (length b :: ms) (l :: ls).

Lemma mlv_app : forall a l b m, mlv a l -> mlv b m -> mlv (a ++ b) (l ++ m).
Proof. intros a l b m A B. induction A as [|x y ch l X Y IH]; [exact B|]. rewrite <- app_assoc. cbn. constructor; assumption. Qed.
Lemma mtx_top : forall is ms lss, mtx is ms lss -> exists l ls, lss = l :: ls /\ (ms = [] <-> ls = []).
Proof. intros is ms lss M. destruct M as [is l M|a b ms l ls A B]; eexists; eexists; (split; [reflexivity|]); [tauto|]. split; intro E; [discriminate E|]. subst. inversion B. Qed.
Lemma mtx_push : forall is ms l ls a ch, mtx is ms (l :: ls) -> mch a ch -> mtx (a ++ is) ms ((ch :: l) :: ls).
Proof.
  intros is ms l ls a ch M C. inversion M; subst.
  - constructor. constructor; assumption.
  - rewrite app_assoc. constructor; [constructor|]; assumption.
Qed.
Lemma mtx_merge : forall is ms a b ls, mtx is ms (a :: b :: ls) -> mtx is (tl ms) ((a ++ b) :: ls).
Proof.
  intros is ms a b ls M. inversion M as [|x y ms' l ls' A B]; subst. cbn [tl]. inversion B as [is' l' B1|x' y' ms'' l'' ls'' B1 B2]; subst.
  - constructor. apply mlv_app; assumption.
  - rewrite app_assoc. constructor; [apply mlv_app; assumption|assumption].
Qed.

Record sets (is : list item) (l : list change) : Prop := {
  s_old : forall k, In k (flat_map iold is) <-> In k (dropped l);
  s_new : forall k, In k (flat_map inew is) <-> In k (created l);
  s_fs : forall k, In k (flat_map inew (filter it_fsync is)) <-> In k (created (filter c_fsync l));
  s_ok : forall i, In i is -> iok i
}.
Lemma sets_app : forall a b l m, sets a l -> sets b m -> sets (a ++ b) (l ++ m).
Proof.
  intros a b l m [A1 A2 A3 A4] [B1 B2 B3 B4]. constructor; unfold dropped, created in *.
  - intro k. rewrite !flat_map_app, !in_app_iff, (A1 k), (B1 k). tauto.
  - intro k. rewrite !flat_map_app, !in_app_iff, (A2 k), (B2 k). tauto.
  - intro k. rewrite !filter_app, !flat_map_app, !in_app_iff, (A3 k), (B3 k). tauto.
  - intros i H. apply in_app_iff in H. destruct H; auto.
Qed.
Lemma sets_one : forall a ch, mch a ch -> sets a [ch].
Proof.
  intros a ch [M1 M2 M3]. constructor.
  - intro k. cbn. rewrite app_nil_r. apply M1.
  - intro k. cbn. rewrite app_nil_r. apply M2.
  - intro k. cbn [filter]. destruct (c_fsync ch) eqn:F.
    + replace (filter it_fsync a) with a; [cbn; rewrite app_nil_r; apply M2|].
      assert (X : forall i, In i a -> it_fsync i = true) by (intros i H; apply M3 in H; tauto).
      clear - X. induction a as [|x a IH]; [reflexivity|]. cbn. rewrite (X x) by (left; reflexivity). f_equal. apply IH. intros; apply X; right; assumption.
    + replace (filter it_fsync a) with (@nil item); [cbn; tauto|].
      assert (X : forall i, In i a -> it_fsync i = false) by (intros i H; apply M3 in H; tauto).
      clear - X. induction a as [|x a IH]; [reflexivity|]. cbn. rewrite (X x) by (left; reflexivity). apply IH. intros; apply X; right; assumption.
  - intros i H. apply M3 in H. tauto.
Qed.
Lemma mlv_sets : forall a l, mlv a l -> sets a l.
Proof.
  intros a l M. induction M as [|a b ch l C M IH]; [constructor; cbn; tauto|].
  change (ch :: l) with ([ch] ++ l). apply sets_app; [apply sets_one; exact C|exact IH].
Qed.
Lemma mtx_sets : forall is ms ls, mtx is ms ls -> sets is (concat ls).
Proof.
  intros is ms ls M. induction M as [is l M|a b ms l ls A M IH]; cbn [concat]; [rewrite app_nil_r; apply mlv_sets; exact M|].
  apply sets_app; [apply mlv_sets; exact A|exact IH].
Qed.

(** The callbacks over a list of records. *)
Lemma put_at : forall d ks v x, put d ks v x = if kin x ks then v else d x.
Proof. reflexivity. Qed.
Lemma kin_app : forall x a b, kin x (a ++ b) = kin x a || kin x b.
Proof. intros. unfold kin. apply existsb_app. Qed.

Lemma abort_fold : forall l s, (forall i, In i l -> iok i) ->
  let s' := fold_left cb_abort l s in
  (forall x, disk s' x = if kin x (flat_map inew l) then Absent else disk s x) /\
  stack s' = stack s /\ marks s' = marks s /\ pending s' = pending s /\ backup s' = backup s /\ fatal s' = fatal s.
Proof.
  induction l as [|i l IH]; intros s OK s'; [cbn in s'; subst s'; tauto|].
  subst s'. cbn [fold_left flat_map]. destruct (IH (cb_abort s i) ltac:(intros; apply OK; right; assumption)) as [D [A [B [C [E F]]]]].
  assert (X : (forall x, disk (cb_abort s i) x = if kin x (inew i) then Absent else disk s x) /\ stack (cb_abort s i) = stack s /\
     marks (cb_abort s i) = marks s /\ pending (cb_abort s i) = pending s /\ backup (cb_abort s i) = backup s /\ fatal (cb_abort s i) = fatal s).
  { destruct (OK i (or_introl eq_refl)) as [_ Z]. unfold cb_abort. destruct (Z.eqb_spec (newRelnode i) 0) as [E0|E0]; cbn [negb].
    - rewrite (Z E0). cbn. tauto.
    - cbn [set_disk disk stack marks pending backup fatal]. split; [intro x; apply put_at|tauto]. }
  destruct X as [X1 [X2 [X3 [X4 [X5 X6]]]]]. split; [|rewrite A, B, C, E, F; tauto].
  intro x. rewrite D, X1, kin_app. destruct (kin x (flat_map inew l)), (kin x (inew i)); reflexivity.
Qed.
Lemma precommit_fold : forall l d, (forall i, In i l -> iok i) ->
  forall x, fold_left cb_precommit l d x = if kin x (flat_map inew (filter it_fsync l)) then Durable else d x.
Proof.
  induction l as [|i l IH]; intros d OK x; [reflexivity|]. cbn [fold_left filter].
  rewrite IH by (intros; apply OK; right; assumption).
  destruct (OK i (or_introl eq_refl)) as [_ Z]. unfold cb_precommit.
  destruct (it_fsync i); [|rewrite andb_false_r; reflexivity]. cbn [flat_map]. rewrite kin_app.
  destruct (Z.eqb_spec (newRelnode i) 0) as [E0|E0]; cbn [negb andb].
  - rewrite (Z E0). reflexivity.
  - rewrite put_at. fold (inew i). destruct (kin x (flat_map inew (filter it_fsync l))), (kin x (inew i)); reflexivity.
Qed.
Lemma commit_fold : forall stk l s, (forall i, In i l -> iok i) ->
  let s' := fold_left (cb_commit stk) l s in
  (forall x, disk s' x = if negb (backup s) && kin x (flat_map iold l) then Absent else disk s x) /\
  stack s' = stack s /\ marks s' = marks s /\ backup s' = backup s /\ fatal s' = fatal s /\ (backup s = false -> pending s' = pending s).
Proof.
  intros stk. induction l as [|i l IH]; intros s OK s'; [cbn in s'; subst s'; split; [intro x; cbn; rewrite andb_false_r; reflexivity|tauto]|].
  subst s'. cbn [fold_left flat_map]. destruct (IH (cb_commit stk s i) ltac:(intros; apply OK; right; assumption)) as [D [A [B [C [E F]]]]].
  assert (X : (forall x, disk (cb_commit stk s i) x = if negb (backup s) && kin x (iold i) then Absent else disk s x) /\ stack (cb_commit stk s i) = stack s /\
     marks (cb_commit stk s i) = marks s /\ backup (cb_commit stk s i) = backup s /\ fatal (cb_commit stk s i) = fatal s /\ (backup s = false -> pending (cb_commit stk s i) = pending s)).
  { destruct (OK i (or_introl eq_refl)) as [Z _]. unfold cb_commit. destruct (backup s) eqn:BK; [cbn; intuition (auto; discriminate)|].
    destruct (Z.eqb_spec (oldRelnode i) 0) as [E0|E0]; cbn [negb andb].
    - rewrite (Z E0). cbn. tauto.
    - cbn [set_disk disk stack marks pending backup fatal]. split; [intro x; apply put_at|tauto]. }
  destruct X as [X1 [X2 [X3 [X4 [X5 X6]]]]]. split.
  - intro x. rewrite D, X1, X4, kin_app. destruct (backup s); cbn [negb andb]; [reflexivity|].
    destruct (kin x (flat_map iold l)), (kin x (iold i)); reflexivity.
  - rewrite A, B, C, E. repeat (split; [assumption|]). intro BK. rewrite F by (rewrite X4; exact BK). auto.
Qed.

(** The file of postponed removals is always too short. *)
Definition pshort (p : pend) : Prop := (length (p_file p) <= p_loc p)%nat /\ (p_loc p <> 0 -> length (p_file p) < p_loc p)%nat.
Lemma fwrite_len : forall f off d, (length (fwrite f off d) <= Nat.max (length f) (off + length d))%nat.
Proof.
  intros f off d. unfold fwrite. destruct d as [|z d]; [cbn; lia|]. rewrite !app_length, firstn_length, app_length, repeat_length, skipn_length. cbn [length]. lia.
Qed.
Lemma add_short : forall p k ts stk, pshort p -> pshort (add_pending_truncate p k ts stk).
Proof.
  intros p k ts stk [H1 H2]. unfold add_pending_truncate, pshort. cbn [p_file p_loc].
  set (f1 := fwrite (p_file p) (p_loc p) (enckey k)). set (f2 := fwrite f1 0 (enc32 (Z.of_nat (length ts)))).
  pose proof (fwrite_len (p_file p) (p_loc p) (enckey k)) as L1. fold f1 in L1. change (length (enckey k)) with 16%nat in L1.
  pose proof (fwrite_len f1 0 (enc32 (Z.of_nat (length ts)))) as L2. fold f2 in L2. change (length (enc32 (Z.of_nat (length ts)))) with 4%nat in L2.
  pose proof (fwrite_len f2 0 (firstn (16 * length ts) (stk ++ repeat 0 (16 * length ts)))) as L3.
  rewrite firstn_length, app_length, repeat_length in L3. lia.
Qed.
Lemma check_fatal : forall fuel f off mx, (length f < mx)%nat -> (off <= length f)%nat -> snd (check_loop fuel f off mx) = false.
Proof.
  induction fuel as [|n IH]; intros f off mx L O; [reflexivity|]. cbn [check_loop].
  replace (off <? mx)%nat with true by lia. unfold fread at 1. destruct (Nat.leb_spec (off + 16) (length f)); [|reflexivity].
  destruct (fread f (off + 16) 4) as [b|] eqn:F; [|reflexivity]. destruct (dec32s b <? 0); [reflexivity|].
  unfold fread. destruct (Nat.leb_spec (off + 20 + 16 * Z.to_nat (dec32s b)) (length f)); [|reflexivity].
  cbn [snd]. apply IH; lia.
Qed.
Lemma commit_short : forall stk l s, pshort (pending s) -> pshort (pending (fold_left (cb_commit stk) l s)).
Proof.
  intros stk. induction l as [|i l IH]; intros s H; [exact H|]. cbn [fold_left]. apply IH. unfold cb_commit.
  destruct (backup s); [cbn [pending]; apply add_short; exact H|]. destruct (negb (oldRelnode i =? 0)); exact H.
Qed.
Lemma abort_pending : forall l s, pending (fold_left cb_abort l s) = pending s.
Proof.
  induction l as [|i l IH]; intro s; [reflexivity|]. cbn [fold_left]. rewrite IH. unfold cb_abort. destruct (negb (newRelnode i =? 0)); reflexivity.
Qed.
Lemma go_short : forall cap s o, pshort (pending s) -> pshort (pending (go cap s o)).
Proof.
  intros cap s o H. destruct o; unfold go.
  - exact H.
  - destruct (disk s k); exact H.
  - exact H.
  - exact H.
  - destruct (marks s t); [exact H|]. cbn [set_stack pending]. rewrite abort_pending. exact H.
  - cbn [set_stack pending]. apply commit_short. exact H.
  - cbn [set_stack pending]. rewrite abort_pending. exact H.
  - exact H.
  - destruct (backup s || (p_loc (pending s) =? 0)%nat) eqn:B; [exact H|].
    destruct H as [H1 H2]. rewrite (check_fatal _ _ _ _) by lia. cbn [pending]. split; assumption.
Qed.
Lemma check_is_fatal : forall cap s, pshort (pending s) -> p_loc (pending s) <> 0%nat -> backup s = false -> fatal (go cap s OCheck) = true /\ pending (go cap s OCheck) = pending s.
Proof.
  intros cap s [H1 H2] N B. unfold go. rewrite B. cbn [orb]. destruct (Nat.eqb_spec (p_loc (pending s)) 0); [contradiction|].
  rewrite (check_fatal _ _ _ _) by lia. split; reflexivity.
Qed.

(** The invariant. *)
Fixpoint wfl (com : list key) (ls : list (list change)) : Prop :=
  match ls with
  | [] => True
  | l :: r => (forall k, In k (dropped (l ++ concat r)) -> In k com \/ In k (created (l ++ concat r))) /\ wfl com r
  end.

Record Inv (ts : list Z) (s : st) (c : cat) : Prop := {
  v_match : forall t, mtx (stack s t) (marks s t) (tx c t);
  v_out : forall t, ~ In t ts -> changes c t = [];
  v_nodup : forall t, NoDup (created (changes c t));
  v_apart : forall t t' k, In k (created (changes c t)) -> In k (created (changes c t')) -> t = t';
  v_used_c : forall k, In k (committed c) -> In k (used c);
  v_used_t : forall t k, In k (created (changes c t)) -> In k (used c);
  v_used_p : forall k, In k (postponed c) -> In k (used c);
  v_com_t : forall t k, In k (created (changes c t)) -> ~ In k (committed c);
  v_post_t : forall t k, In k (created (changes c t)) -> ~ In k (postponed c);
  v_post_c : forall k, In k (committed c) -> ~ In k (postponed c);
  v_drop : forall t t' k, In k (dropped (changes c t)) -> In k (dropped (changes c t')) -> t = t';
  v_wfl : forall t, wfl (committed c) (tx c t);
  v_per : forall k, In k (persistent c) -> In k (committed c) /\ disk s k = Durable;
  v_disk : forall k, disk s k <> Absent <-> In k (committed c) \/ (exists t, In k (created (changes c t))) \/ In k (postponed c)
}.

Lemma created_app : forall a b, created (a ++ b) = created a ++ created b.
Proof. intros. apply flat_map_app. Qed.
Lemma dropped_app : forall a b, dropped (a ++ b) = dropped a ++ dropped b.
Proof. intros. apply flat_map_app. Qed.
Lemma created_cons : forall a b, created (a :: b) = c_new a ++ created b.
Proof. reflexivity. Qed.
Lemma dropped_cons : forall a b, dropped (a :: b) = c_old a ++ dropped b.
Proof. reflexivity. Qed.
Lemma wfl_mono : forall com com' ls, (forall k, In k com -> In k (dropped (concat ls)) -> In k com') -> wfl com ls -> wfl com' ls.
Proof.
  intros com com'. induction ls as [|l r IH]; intros M H; [exact Logic.I|]. cbn [wfl concat] in *. destruct H as [H1 H2]. split.
  - intros k D. destruct (H1 k D) as [C|C]; [left; apply M; assumption|right; exact C].
  - apply IH; [|exact H2]. intros k C D. apply M; [exact C|]. rewrite dropped_app, in_app_iff. right. exact D.
Qed.
Lemma existsb_ts : forall t ts, existsb (Z.eqb t) ts = true -> In t ts.
Proof. intros t ts H. apply existsb_exists in H. destruct H as [x [I E]]. apply Z.eqb_eq in E. subst. exact I. Qed.
Lemma distinct_nodup : forall l, distinct l = true -> NoDup l.
Proof.
  induction l as [|k l IH]; intro H; [constructor|]. cbn in H. apply andb_true_iff in H. destruct H as [H1 H2].
  constructor; [|auto]. intro I. apply kin_In in I. rewrite I in H1. discriminate H1.
Qed.
Lemma nodup_app : forall (a b : list key), NoDup a -> NoDup b -> (forall k, In k a -> In k b -> False) -> NoDup (a ++ b).
Proof.
  induction a as [|x a IH]; intros b A B D; [exact B|]. inversion A; subst. cbn. constructor.
  - rewrite in_app_iff. intros [H|H]; [contradiction|]. exact (D x (or_introl eq_refl) H).
  - apply IH; auto. intros k Ha Hb. exact (D k (or_intror Ha) Hb).
Qed.
Lemma nodup_app_r : forall (a b : list key), NoDup (a ++ b) -> NoDup b /\ (forall k, In k a -> ~ In k b).
Proof.
  induction a as [|x a IH]; intros b H; [split; [exact H|intros k []]|]. cbn in H. inversion H as [|? ? N H']; subst.
  destruct (IH _ H') as [B D]. split; [exact B|]. intros k [<-|Hk]; [intro Hb; apply N; apply in_app_iff; right; exact Hb|auto].
Qed.
Lemma changes_upd : forall c t l t', changes (set_tx c t l) t' = if t' =? t then concat l else changes c t'.
Proof. intros. unfold changes, set_tx. cbn [tx]. unfold upd. destruct (t' =? t); reflexivity. Qed.

Ltac at_t t t' := unfold upd; destruct (Z.eqb_spec t' t) as [->|?].
Ltac prep := cbn [disk stack marks pending backup fatal set_stack set_disk committed tx used postponed persistent set_tx] in *.

Section Steps.
Variables (cap : nat) (ts : list Z).
Hypothesis CAP : (0 < cap)%nat.

(* Only the levels of [t] change; the created trees do not grow. *)
Lemma inv_shrink : forall s c t is ms ls s', Inv ts s c -> In t ts ->
  mtx is ms ls -> wfl (committed c) ls -> NoDup (created (concat ls)) ->
  (forall k, In k (created (concat ls)) -> In k (created (changes c t))) ->
  (forall k, In k (dropped (concat ls)) -> In k (dropped (changes c t))) ->
  stack s' = upd (stack s) t is -> marks s' = upd (marks s) t ms ->
  (forall k, disk s' k = if kin k (created (changes c t)) && negb (kin k (created (concat ls))) then Absent else disk s k) ->
  Inv ts s' (set_tx c t ls).
Proof.
  intros s c t is ms ls s' I T M W ND SC SD ES EM ED. destruct I. constructor; prep.
  - intro t'. rewrite ES, EM. at_t t t'; [exact M|apply v_match0].
  - intros t' N. rewrite changes_upd. destruct (Z.eqb_spec t' t) as [->|?]; [contradiction|auto].
  - intros t'. rewrite changes_upd. destruct (Z.eqb_spec t' t) as [->|?]; [exact ND|auto].
  - intros a b k. rewrite !changes_upd. destruct (Z.eqb_spec a t) as [->|?], (Z.eqb_spec b t) as [->|?]; eauto.
  - auto.
  - intros t' k. rewrite changes_upd. destruct (Z.eqb_spec t' t) as [->|?]; eauto.
  - auto.
  - intros t' k. rewrite changes_upd. destruct (Z.eqb_spec t' t) as [->|?]; eauto.
  - intros t' k. rewrite changes_upd. destruct (Z.eqb_spec t' t) as [->|?]; eauto.
  - auto.
  - intros a b k. rewrite !changes_upd. destruct (Z.eqb_spec a t) as [->|?], (Z.eqb_spec b t) as [->|?]; eauto.
  - intro t'. at_t t t'; [exact W|apply v_wfl0].
  - intros k P. destruct (v_per0 k P) as [C D]. split; [exact C|]. rewrite ED.
    destruct (kin_dec k (created (changes c t))) as [[Q ->]|[Q ->]]; [exfalso; exact (v_com_t0 t k Q C)|exact D].
  - intro k. rewrite ED. destruct (kin_dec k (created (changes c t))) as [[Q ->]|[Q ->]]; cbn [andb].
    + destruct (kin_dec k (created (concat ls))) as [[Q' ->]|[Q' ->]]; cbn [negb].
      * rewrite v_disk0. split; intros _; right; left; exists t; [rewrite changes_upd, Z.eqb_refl; exact Q'|exact Q].
      * split; [congruence|]. intros [C|[[t' C]|C]]; [exact (fun _ => v_com_t0 t k Q C)| |exact (fun _ => v_post_t0 t k Q C)].
        rewrite changes_upd in C. destruct (Z.eqb_spec t' t) as [E|N]; [contradiction|]. exfalso. apply N. eapply v_apart0; eauto.
    + rewrite v_disk0. split; (intros [C|[[t' C]|C]]; [auto| |auto]); right; left.
      * exists t'. rewrite changes_upd. destruct (Z.eqb_spec t' t) as [->|?]; [contradiction|exact C].
      * rewrite changes_upd in C. destruct (Z.eqb_spec t' t) as [E'|N']; [exists t; auto|exists t'; exact C].
Qed.

Lemma inv_replace : forall s c t on old nn new fs, Inv ts s c -> allowed ts c (OReplace t on old nn new fs) = true ->
  Inv ts (go cap s (OReplace t on old nn new fs)) (cgo (backup s) c (OReplace t on old nn new fs)).
Proof.
  intros s c t on old nn new fs I A. unfold allowed in A. rewrite !andb_true_iff in A.
  destruct A as [[[[[[A1 A2] A3] A4] A5] A6] A7]. apply existsb_ts in A1. rewrite forallb_forall in A2, A3. apply distinct_nodup in A4.
  assert (HO : old = [] \/ on <> 0) by (destruct old; [left; reflexivity|right; lia]).
  assert (HN : new = [] \/ nn <> 0) by (destruct new; [left; reflexivity|right; lia]).
  assert (FR : forall k, In k new -> ~ In k (used c)).
  { intros k H U. specialize (A3 k H). apply kin_In in U. rewrite U in A3. discriminate A3. }
  assert (VIS : forall k, In k old -> In k (committed c) \/ In k (created (changes c t))).
  { intros k H. specialize (A2 k H). apply andb_true_iff in A2. destruct A2 as [A2 _]. apply orb_true_iff in A2. rewrite !kin_In in A2. exact A2. }
  assert (EXC : forall k t', In k old -> In k (dropped (changes c t')) -> False).
  { intros k t' H D. destruct I. destruct (in_dec Z.eq_dec t' ts) as [T|T]; [|rewrite v_out0 in D by exact T; destruct D].
    specialize (A2 k H). apply andb_true_iff in A2. destruct A2 as [_ A2]. rewrite forallb_forall in A2. specialize (A2 t' T).
    apply kin_In in D. rewrite D in A2. discriminate A2. }
  unfold go, cgo. destruct (add_undo_spec cap on nn fs CAP (S (length old + length new)) old new (stack s t) ltac:(lia) HO HN) as [is [E M]]. rewrite E.
  destruct I. destruct (mtx_top _ _ _ (v_match0 t)) as [l [ls [TX _]]].
  assert (CH : changes c t = l ++ concat ls) by (unfold changes; rewrite TX; reflexivity).
  set (ch := mkCh old new fs) in *. rewrite TX.
  assert (CU : forall t', changes (mkCat (committed c) (upd (tx c) t ((ch :: l) :: ls)) (new ++ used c) (postponed c) (persistent c)) t' = if t' =? t then ch :: changes c t else changes c t').
  { intro t'. unfold changes at 1. cbn [tx]. unfold upd. destruct (t' =? t); [cbn [concat]; rewrite CH; reflexivity|reflexivity]. }
  constructor; prep.
  - intro t'. at_t t t'; [|apply v_match0]. apply mtx_push; [rewrite <- TX; apply v_match0|exact M].
  - intros t' N. rewrite CU. destruct (Z.eqb_spec t' t) as [->|?]; [contradiction|auto].
  - intro t'. rewrite CU. destruct (Z.eqb_spec t' t) as [->|?]; [|auto]. rewrite created_cons. apply nodup_app; [exact A4|apply v_nodup0|].
    intros k H1 H2. apply (FR k H1). eapply v_used_t0; exact H2.
  - intros a b k. rewrite !CU. destruct (Z.eqb_spec a t) as [->|?], (Z.eqb_spec b t) as [->|?]; [auto| | |eauto]; rewrite ?created_cons, ?in_app_iff.
    + intros [H|H] H2; [exfalso; apply (FR k H); eapply v_used_t0; exact H2|eauto].
    + intros H2 [H|H]; [exfalso; apply (FR k H); eapply v_used_t0; exact H2|eauto].
  - intros k H. apply in_app_iff. right. auto.
  - intros t' k. rewrite CU. destruct (Z.eqb_spec t' t) as [->|?]; rewrite ?created_cons, ?in_app_iff; [intros [H|H]; [left; exact H|right; eauto]|intro H; right; eauto].
  - intros k H. apply in_app_iff. right. auto.
  - intros t' k. rewrite CU. destruct (Z.eqb_spec t' t) as [->|?]; rewrite ?created_cons, ?in_app_iff; [intros [H|H]; [intro C; apply (FR k H); auto|eauto]|eauto].
  - intros t' k. rewrite CU. destruct (Z.eqb_spec t' t) as [->|?]; rewrite ?created_cons, ?in_app_iff; [intros [H|H]; [intro C; apply (FR k H); auto|eauto]|eauto].
  - auto.
  - intros a b k. rewrite !CU. destruct (Z.eqb_spec a t) as [->|?], (Z.eqb_spec b t) as [->|?]; [auto| | |eauto]; rewrite ?dropped_cons, ?in_app_iff.
    + intros [H|H] H2; [exfalso; exact (EXC k b H H2)|eauto].
    + intros H2 [H|H]; [exfalso; exact (EXC k a H H2)|eauto].
  - intro t'. at_t t t'; [|apply v_wfl0]. pose proof (v_wfl0 t) as W. rewrite TX in W. cbn [wfl] in *. destruct W as [W1 W2]. split; [|exact W2].
    intros k. cbn [app]. rewrite dropped_cons, created_cons, !in_app_iff. intros [H|H].
    + destruct (VIS k H) as [C|C]; [left; exact C|right; right; rewrite <- CH; exact C].
    + destruct (W1 k H) as [C|C]; [left; exact C|right; right; exact C].
  - intros k P. destruct (v_per0 k P) as [C D]. split; [exact C|]. rewrite put_at.
    destruct (kin_dec k new) as [[Q ->]|[Q ->]]; [exfalso; apply (FR k Q); auto|exact D].
  - intro k. rewrite put_at. destruct (kin_dec k new) as [[Q ->]|[Q ->]].
    + split; [|discriminate]. intros _. right. left. exists t. rewrite CU, Z.eqb_refl, created_cons. apply in_app_iff. left. exact Q.
    + rewrite v_disk0. split; (intros [C|[[t' C]|C]]; [auto| |auto]); right; left; exists t'.
      * rewrite CU. destruct (Z.eqb_spec t' t) as [->|?]; [rewrite created_cons; apply in_app_iff; right; exact C|exact C].
      * rewrite CU in C. destruct (Z.eqb_spec t' t) as [E'|N']; [|exact C]. rewrite created_cons, in_app_iff in C. subst t'. destruct C as [C|C]; [contradiction|exact C].
Qed.

Lemma inv_commit : forall s c t stk, Inv ts s c -> allowed ts c (OCommit t stk) = true ->
  Inv ts (go cap s (OCommit t stk)) (cgo (backup s) c (OCommit t stk)).
Proof.
  intros s c t stk I A. unfold allowed in A. apply existsb_ts in A. unfold go, cgo.
  set (l := changes c t).
  assert (ST : sets (stack s t) l) by (eapply mtx_sets; apply (v_match _ _ _ I)).
  destruct ST as [S1 S2 S3 S4].
  set (s1 := set_disk s (fold_left cb_precommit (stack s t) (disk s))).
  destruct (commit_fold stk (stack s t) s1 S4) as [D [E1 [E2 [E3 [E4 E5]]]]].
  assert (DK : forall x, disk (fold_left (cb_commit stk) (stack s t) s1) x =
     if negb (backup s) && kin x (dropped l) then Absent else if kin x (created (filter c_fsync l)) then Durable else disk s x).
  { intro x. rewrite D. cbn [s1 set_disk disk backup]. rewrite precommit_fold by exact S4.
    assert (K1 : kin x (flat_map iold (stack s t)) = kin x (dropped l)).
    { destruct (kin_dec x (flat_map iold (stack s t))) as [[P ->]|[P ->]], (kin_dec x (dropped l)) as [[P' ->]|[P' ->]]; try reflexivity; exfalso; rewrite S1 in P; contradiction. }
    assert (K2 : kin x (flat_map inew (filter it_fsync (stack s t))) = kin x (created (filter c_fsync l))).
    { destruct (kin_dec x (flat_map inew (filter it_fsync (stack s t)))) as [[P ->]|[P ->]], (kin_dec x (created (filter c_fsync l))) as [[P' ->]|[P' ->]]; try reflexivity; exfalso; rewrite S3 in P; contradiction. }
    rewrite K1, K2. reflexivity. }
  clear D. set (sf := fold_left (cb_commit stk) (stack s t) s1) in *. clearbody sf. cbn [s1 set_disk stack marks] in E1, E2.
  assert (SUB : forall k, In k (created (filter c_fsync l)) -> In k (created l)).
  { intros k H. unfold created in *. apply in_flat_map in H. destruct H as [x [H1 H2]]. apply filter_In in H1. apply in_flat_map. exists x. tauto. }
  destruct I.
  assert (DR : forall k, In k (dropped l) -> In k (committed c) \/ In k (created l)).
  { intros k H. pose proof (v_wfl0 t) as W. unfold l, changes in *. destruct (tx c t) as [|a r]; [destruct H|]. apply W. exact H. }
  set (com := minus (created l ++ committed c) (dropped l)).
  assert (CM : forall k, In k com <-> (In k (created l) \/ In k (committed c)) /\ ~ In k (dropped l)) by (intro k; unfold com; rewrite minus_In, in_app_iff; tauto).
  assert (CU : forall t', changes (mkCat com (upd (tx c) t [[]]) (used c) (if backup s then dropped l ++ postponed c else postponed c) (minus (created (filter c_fsync l) ++ persistent c) (dropped l))) t' = if t' =? t then [] else changes c t').
  { intro t'. unfold changes at 1. cbn [tx]. unfold upd. destruct (t' =? t); reflexivity. }
  assert (UL : forall k, In k (created l) -> In k (used c)) by (intros; eapply v_used_t0; eauto).
  assert (UD : forall k, In k (dropped l) -> In k (used c)) by (intros k H; destruct (DR k H); auto).
  assert (PO : forall k, In k (if backup s then dropped l ++ postponed c else postponed c) <-> (backup s = true /\ In k (dropped l)) \/ In k (postponed c)).
  { intro k. destruct (backup s); [rewrite in_app_iff; tauto|intuition discriminate]. }
  constructor; prep.
  - intro t'. rewrite E1, E2. at_t t t'; [constructor; constructor|apply v_match0].
  - intros t' N. rewrite CU. destruct (t' =? t); [reflexivity|auto].
  - intro t'. rewrite CU. destruct (t' =? t); [constructor|auto].
  - intros a b k. rewrite !CU. destruct (a =? t); [intros []|]. destruct (b =? t); [intros _ []|]. eauto.
  - intros k H. apply CM in H. destruct H as [[H|H] _]; auto.
  - intros t' k. rewrite CU. destruct (t' =? t); [intros []|]. eauto.
  - intros k H. apply PO in H. destruct H as [[_ H]|H]; auto.
  - intros t' k. rewrite CU. destruct (Z.eqb_spec t' t) as [->|N]; [intros []|]. intros H C. apply CM in C. destruct C as [[C|C] _]; [|exact (v_com_t0 t' k H C)].
    apply N. eapply v_apart0; eauto.
  - intros t' k. rewrite CU. destruct (Z.eqb_spec t' t) as [->|N]; [intros []|]. intros H C. apply PO in C. destruct C as [[_ C]|C]; [|exact (v_post_t0 t' k H C)].
    destruct (DR k C) as [C'|C']; [exact (v_com_t0 t' k H C')|]. apply N. eapply v_apart0; eauto.
  - intros k H C. apply CM in H. destruct H as [H1 H2]. apply PO in C. destruct C as [[_ C]|C]; [contradiction|].
    destruct H1 as [H1|H1]; [exact (v_post_t0 t k H1 C)|exact (v_post_c0 k H1 C)].
  - intros a b k. rewrite !CU. destruct (a =? t); [intros []|]. destruct (b =? t); [intros _ []|]. eauto.
  - intro t'. at_t t t'; [cbn; tauto|]. apply (wfl_mono (committed c)); [|apply v_wfl0].
    intros k C H. apply CM. split; [right; exact C|]. intro D. apply n. eapply v_drop0; [exact H|exact D].
  - intros k P. apply minus_In in P. rewrite in_app_iff in P. destruct P as [P ND].
    rewrite DK. destruct (kin_dec k (dropped l)) as [[Q ->]|[Q ->]]; [contradiction|]. rewrite andb_false_r. destruct P as [P|P].
    + split; [apply CM; split; [left; auto|exact ND]|]. destruct (kin_dec k (created (filter c_fsync l))) as [[Q' ->]|[Q' ->]]; [reflexivity|contradiction].
    + destruct (v_per0 k P) as [C DD]. split; [apply CM; tauto|]. destruct (kin k (created (filter c_fsync l))); [reflexivity|exact DD].
  - intro k. rewrite DK.
    assert (X : (if kin k (created (filter c_fsync l)) then Durable else disk s k) <> Absent <-> disk s k <> Absent).
    { destruct (kin_dec k (created (filter c_fsync l))) as [[Q ->]|[Q ->]]; [|tauto]. split; [|discriminate]. intros _.
      apply v_disk0. right. left. exists t. apply SUB. exact Q. }
    assert (LV : (exists t', In k (created (changes (mkCat com (upd (tx c) t [[]]) (used c) (if backup s then dropped l ++ postponed c else postponed c) (minus (created (filter c_fsync l) ++ persistent c) (dropped l))) t'))) <-> exists t', t' <> t /\ In k (created (changes c t'))).
    { split; intros [t' H].
      - rewrite CU in H. destruct (Z.eqb_spec t' t) as [E'|N]; [destruct H|exists t'; auto].
      - exists t'. rewrite CU. destruct (Z.eqb_spec t' t) as [->|N]; [tauto|apply H]. }
    rewrite LV, PO, CM.
    destruct (kin_dec k (dropped l)) as [[Q ->]|[Q ->]]; rewrite ?andb_true_r, ?andb_false_r.
    + destruct (backup s); cbn [negb].
      * rewrite X, v_disk0. split; [intros _; right; right; left; auto|intros _]. destruct (DR k Q) as [C|C]; [left; exact C|right; left; exists t; exact C].
      * split; [congruence|]. intros [[_ C]|[[t' [N C]]|[[C _]|C]]] _; [contradiction| |discriminate C|].
        -- destruct (DR k Q) as [C'|C']; [exact (v_com_t0 t' k C C')|]. apply N. eapply v_apart0; eauto.
        -- destruct (DR k Q) as [C'|C']; [exact (v_post_c0 k C' C)|exact (v_post_t0 t k C' C)].
    + rewrite X, v_disk0. split.
      * intros [C|[[t' C]|C]]; [tauto| |tauto]. destruct (Z.eq_dec t' t) as [->|N]; [left; tauto|right; left; exists t'; auto].
      * intros [[[C|C] _]|[[t' [N C]]|[[_ C]|C]]]; [right; left; exists t; exact C|tauto|right; left; exists t'; exact C|contradiction|tauto].
Qed.

Lemma inv_step : forall s c o, pshort (pending s) -> Inv ts s c -> allowed ts c o = true ->
  fatal (go cap s o) = true \/ Inv ts (go cap s o) (cgo (backup s) c o).
Proof.
  intros s c o SH I A. destruct o.
  - right. apply inv_replace; assumption.
  - right. unfold allowed in A. apply andb_true_iff in A. destruct A as [_ A]. apply kin_In in A. unfold go, cgo.
    assert (NA : disk s k <> Absent) by (apply (v_disk _ _ _ I); right; left; exists t; exact A).
    destruct (disk s k) eqn:DK; [contradiction| |].
    1,2: destruct I; constructor; prep; auto.
    1,3: intros k' P; destruct (v_per0 k' P) as [C D]; split; [exact C|]; rewrite put_at; cbn [kin existsb]; rewrite orb_false_r; destruct (keqb k' k) eqn:E; [apply keqb_eq in E; subst; exfalso; exact (v_com_t0 t k A C)|exact D].
    1,2: intro k'; rewrite put_at; cbn [kin existsb]; rewrite orb_false_r; destruct (keqb k' k) eqn:E; [apply keqb_eq in E; subst; rewrite <- v_disk0; split; intros _; [rewrite DK; exact NA|discriminate]|apply v_disk0].
  - right. unfold allowed in A. apply existsb_ts in A. unfold go, cgo.
    assert (CE : concat ([] :: tx c t) = changes c t) by reflexivity.
    eapply inv_shrink with (s := s); try reflexivity; [exact I|exact A| | | | | |].
    + change (stack s t) with ([] ++ stack s t). constructor; [constructor|apply (v_match _ _ _ I)].
    + cbn [wfl app]. split; [|apply (v_wfl _ _ _ I)]. pose proof (v_wfl _ _ _ I t) as W. destruct (tx c t) as [|a r]; [intros k []|apply W].
    + rewrite CE. apply (v_nodup _ _ _ I).
    + rewrite CE. auto.
    + rewrite CE. auto.
    + intro k. rewrite CE. cbn [set_stack disk]. destruct (kin k (created (changes c t))); reflexivity.
  - right. unfold allowed in A. apply andb_true_iff in A. destruct A as [A A2]. apply existsb_ts in A. unfold go, cgo.
    destruct (tx c t) as [|a [|b ls]] eqn:TX; try discriminate A2.
    assert (CE : concat ((a ++ b) :: ls) = changes c t) by (unfold changes; rewrite TX; cbn [concat]; rewrite <- app_assoc; reflexivity).
    eapply inv_shrink with (s := s); try reflexivity; [exact I|exact A| | | | | |].
    + apply mtx_merge. rewrite <- TX. apply (v_match _ _ _ I).
    + pose proof (v_wfl _ _ _ I t) as W. rewrite TX in W. cbn [wfl concat] in *. destruct W as [W1 [_ W3]]. split; [|exact W3].
      intros k. rewrite <- app_assoc. apply W1.
    + rewrite CE. apply (v_nodup _ _ _ I).
    + rewrite CE. auto.
    + rewrite CE. auto.
    + intro k. rewrite CE. cbn [set_stack disk]. destruct (kin k (created (changes c t))); reflexivity.
  - right. unfold allowed in A. apply andb_true_iff in A. destruct A as [A A2]. apply existsb_ts in A. unfold go, cgo.
    destruct (tx c t) as [|a [|b ls]] eqn:TX; try discriminate A2. cbn [tl].
    pose proof (v_match _ _ _ I t) as M. rewrite TX in M. inversion M as [|x y ms l ls' MA MB EX EM]; subst. clear M.
    replace (length (x ++ y) - length y)%nat with (length x) by (rewrite app_length; lia).
    rewrite firstn_app, firstn_all, Nat.sub_diag. cbn [firstn]. rewrite app_nil_r. rewrite skipn_app, skipn_all, Nat.sub_diag. cbn [skipn app].
    pose proof (mlv_sets _ _ MA) as [S1 S2 S3 S4].
    destruct (abort_fold x s S4) as [D [E1 [E2 [E3 [E4 E5]]]]].
    assert (CE : changes c t = a ++ concat (b :: ls)) by (unfold changes; rewrite TX; reflexivity).
    pose proof (v_nodup _ _ _ I t) as ND. rewrite CE, created_app in ND. destruct (nodup_app_r _ _ ND) as [ND2 DJ].
    eapply inv_shrink with (s := s) (is := y) (ms := ms); [exact I|exact A|exact MB| |exact ND2| | | | |].
    + pose proof (v_wfl _ _ _ I t) as W. rewrite TX in W. cbn [wfl] in *. tauto.
    + intros k H. rewrite CE, created_app. apply in_app_iff. right. exact H.
    + intros k H. rewrite CE, dropped_app. apply in_app_iff. right. exact H.
    + cbn [set_stack stack]. rewrite E1. reflexivity.
    + cbn [set_stack marks]. rewrite E2. reflexivity.
    + intro k. cbn [set_stack disk]. rewrite D, CE, created_app, kin_app.
      destruct (kin_dec k (flat_map inew x)) as [[P ->]|[P ->]]; rewrite S2 in P.
      * apply kin_In in P. rewrite P. apply kin_In in P. cbn [orb andb]. destruct (kin_dec k (created (concat (b :: ls)))) as [[Q ->]|[Q ->]]; [exfalso; exact (DJ k P Q)|reflexivity].
      * destruct (kin_dec k (created a)) as [[Q ->]|[Q ->]]; [contradiction|]. cbn [orb]. destruct (kin k (created (concat (b :: ls)))); reflexivity.
  - right. apply inv_commit; assumption.
  - right. unfold allowed in A. apply existsb_ts in A. unfold go, cgo.
    assert (ST : sets (stack s t) (changes c t)) by (eapply mtx_sets; apply (v_match _ _ _ I)). destruct ST as [S1 S2 S3 S4].
    destruct (abort_fold (stack s t) s S4) as [D [E1 [E2 [E3 [E4 E5]]]]].
    eapply inv_shrink with (s := s) (is := []) (ms := []); [exact I|exact A| | | | | | | |].
    + constructor. constructor.
    + cbn. tauto.
    + constructor.
    + intros k [].
    + intros k [].
    + cbn [set_stack stack]. rewrite E1. reflexivity.
    + cbn [set_stack marks]. rewrite E2. reflexivity.
    + intro k. cbn [set_stack disk concat app created flat_map kin existsb negb]. rewrite D, andb_true_r.
      destruct (kin_dec k (flat_map inew (stack s t))) as [[P ->]|[P ->]], (kin_dec k (created (changes c t))) as [[P' P'']|[P' P'']]; unfold kin in P''; unfold created in P''; unfold kin, created; rewrite P''; try reflexivity; exfalso; rewrite S2 in P; contradiction.
  - right. unfold go, cgo. destruct I; constructor; prep; auto.
  - destruct (Bool.bool_dec (backup s || (p_loc (pending s) =? 0)%nat) true) as [B|B].
    + right. unfold go, cgo. rewrite B. exact I.
    + left. apply not_true_is_false in B. apply orb_false_iff in B. destruct B as [B1 B2]. apply check_is_fatal; [exact SH|lia|exact B1].
Qed.

Lemma fatal_mono : forall s o, fatal s = true -> fatal (go cap s o) = true.
Proof.
  assert (AB : forall l s, fatal (fold_left cb_abort l s) = fatal s).
  { induction l as [|i l IH]; intro s; [reflexivity|]. cbn [fold_left]. rewrite IH. unfold cb_abort. destruct (negb (newRelnode i =? 0)); reflexivity. }
  assert (CO : forall stk l s, fatal (fold_left (cb_commit stk) l s) = fatal s).
  { intro stk. induction l as [|i l IH]; intro s; [reflexivity|]. cbn [fold_left]. rewrite IH. unfold cb_commit. destruct (backup s); [reflexivity|]. destruct (negb (oldRelnode i =? 0)); reflexivity. }
  intros s o H. destruct o; unfold go; cbn [set_stack set_disk fatal]; rewrite ?AB, ?CO; auto.
  - destruct (disk s k); exact H.
  - destruct (marks s t); [exact H|]. cbn [set_stack fatal]. rewrite AB. exact H.
  - destruct (backup s || (p_loc (pending s) =? 0)%nat); [exact H|]. destruct (snd _); [exact H|reflexivity].
Qed.
End Steps.

Lemma init_inv : forall ts, Inv ts (fst init) (snd init).
Proof.
  intro ts. constructor; cbn; try tauto; try (intros; contradiction).
  - intros _. repeat constructor.
  - intros _. constructor.
  - intro k. split; [congruence|]. intros [[]|[[t []]|[]]].
Qed.
Lemma reach_inv : forall cap ts h, (0 < cap)%nat ->
  let sc := run (step cap ts) init h in pshort (pending (fst sc)) /\ (fatal (fst sc) = true \/ Inv ts (fst sc) (snd sc)).
Proof.
  intros cap ts h C. apply (run_inv _ _ (step cap ts) (fun sc => pshort (pending (fst sc)) /\ (fatal (fst sc) = true \/ Inv ts (fst sc) (snd sc)))).
  - intros [s c] o [H1 H2]. unfold step. cbn [fst snd] in *. destruct (allowed ts c o) eqn:A; [|split; assumption]. cbn [fst snd].
    split; [apply go_short; exact H1|]. destruct H2 as [H2|H2]; [left; apply fatal_mono; exact H2|]. apply inv_step; assumption.
  - cbn. split; [split; cbn; lia|right; apply init_inv].
Qed.
