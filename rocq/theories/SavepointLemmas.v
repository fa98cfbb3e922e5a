From Coq Require Import ZArith List Bool Lia.
From Coq Require Import ZifyBool ZifyNat ZifyN.
From Verif Require Import Base SavepointModel SavepointSpec SavepointProofs.
Import ListNotations.
Open Scope Z_scope.

Lemma run_cons : forall (S O : Type) (f : S -> O -> S) s o r, run f s (o :: r) = run f (f s o) r.
Proof. reflexivity. Qed.

Lemma done_stays : forall ops s d, u_done s = Some d -> run ustep s ops = s.
Proof.
  induction ops as [|o r IH]; intros s d H; [reflexivity|]. rewrite run_cons.
  assert (E : ustep s o = s) by (unfold ustep; rewrite H; reflexivity). rewrite E. eauto.
Qed.

Lemma done_no_fatal : forall s o d, u_done s = None -> u_fatal s = false ->
  u_done (ustep s o) = Some d -> u_fatal (ustep s o) = false.
Proof.
  intros s o d H Hf Hd. unfold ustep in *. rewrite H, Hf in *. destruct o; cbn in *; try congruence.
  - unfold start_sub_undo in Hd. destruct (u_ret s); cbn in Hd; congruence.
  - destruct (u_stk s); [congruence|]. unfold commit_sub_undo in Hd. destruct (u_min s); cbn in Hd; [|congruence].
    destruct (_ <=? _); cbn in Hd; [|congruence]. destruct (search_sub _ _ _) as [[? ?]|]; cbn in Hd; congruence.
  - destruct (u_stk s); [congruence|]. unfold abort_sub_undo, rollback_to, walk_stack_abort in Hd.
    destruct (u_ret s); cbn in Hd; [|congruence].
    destruct (match u_min s with Some m => _ | None => _ end); cbn in Hd.
    + destruct (search_sub _ _ _) as [[? ?]|]; cbn in Hd; [|congruence].
      destruct (walk_abort _ _ _ _ _ _) as [[? ?] ?]; cbn in Hd; congruence.
    + destruct (walk_abort _ _ _ _ _ _) as [[? ?] ?]; cbn in Hd; congruence.
  - destruct (u_stk s); cbn in *; [reflexivity|congruence].
Qed.

Lemma UI_run : forall ops db0 s ch, UI db0 s ch -> u_done (run ustep s ops) = None ->
  exists ch', UI db0 (run ustep s ops) ch'.
Proof.
  induction ops as [|o r IH]; intros db0 s ch H Hd; [eauto|]. rewrite run_cons in *.
  destruct (u_done (ustep s o)) as [d|] eqn:E.
  - rewrite (done_stays r _ _ E) in Hd. congruence.
  - destruct (UI_step db0 s o ch H E) as [ch' H']. eapply IH; eauto.
Qed.

Lemma no_fatal_run : forall ops db0, u_fatal (run ustep (uinit db0) ops) = false.
Proof.
  intros ops db0.
  assert (G : forall ops s ch, UI db0 s ch -> u_done s = None -> u_fatal (run ustep s ops) = false).
  { clear ops. induction ops as [|o r IH]; intros s ch H Hd; [apply (ui_fatal _ _ _ H)|].
    rewrite run_cons. destruct (u_done (ustep s o)) as [d|] eqn:E.
    - rewrite (done_stays r _ _ E). eapply done_no_fatal; eauto. apply (ui_fatal _ _ _ H).
    - destruct (UI_step db0 s o ch H E) as [ch' H']. eapply IH; eauto. }
  eapply G; [apply UI_init|reflexivity].
Qed.

Lemma abort_restores : forall db0 ops,
  u_done (run ustep (uinit db0) ops) = None ->
  forall k, u_db (ustep (run ustep (uinit db0) ops) UAbort) k = db0 k.
Proof.
  intros db0 ops Hd. destruct (UI_run ops db0 _ _ (UI_init db0) Hd) as [ch H].
  set (s := run ustep (uinit db0) ops) in *. clearbody s.
  pose proof H as [Hc Ho Hdb _ _ _ _ Hf].
  unfold ustep. rewrite Hd, Hf. cbn. unfold walk_stack_abort.
  destruct (walk_abort_ok (u_mem s) None ch [] (u_loc s) (u_db s) (u_onc s) (length (u_mem s)))
    as [onc' [Hw _]]; rewrite ?app_nil_r; auto.
  - apply (Chain_len _ _ _ Hc).
  - rewrite Hw. cbn. exact Hdb.
Qed.

(** ** Refinement *)
Fixpoint LevV (mem : list item) (m : option Z) (stk : list Z) (saved : list vstate) (sub : loc)
         (db : Z -> Z) (ch : list nat) : Prop :=
  match stk, saved with
  | id :: r, v :: sr =>
      good m (cur_id r) = true ->
      exists a x b ps pv, ch = a ++ x :: b /\ sub = Some x /\
        get_item mem x = ISub (cur_id r) ps pv /\
        eqdb (rev_list mem a db) (fst v) /\ snd v = acts_of mem (x :: b) /\
        LevV mem m r sr ps (fst v) (x :: b)
  | _, _ => True
  end.

Lemma LevV_app : forall mem m2 m stk saved sub db ch, (forall x, In x ch -> (x < length mem)%nat) ->
  LevV mem m stk saved sub db ch -> LevV (mem ++ m2) m stk saved sub db ch.
Proof.
  induction stk as [|id r IH]; intros [|v sr] sub db ch Hlt H; cbn [LevV] in *; auto.
  intros Hg. destruct (H Hg) as [a [x [b [ps [pv [Hc [Hs [Hi [Hr [Ha HL]]]]]]]]]].
  assert (Hb : forall y, In y (x :: b) -> (y < length mem)%nat)
    by (intros y Hy; apply Hlt; rewrite Hc; apply in_or_app; right; exact Hy).
  exists a, x, b, ps, pv. repeat split; auto.
  - rewrite get_item_app; [exact Hi|]. apply Hb. left. reflexivity.
  - rewrite rev_list_mem; [exact Hr|]. intros y Hy. apply Hlt. rewrite Hc. apply in_or_app. left. exact Hy.
  - rewrite acts_app by exact Hb. exact Ha.
Qed.

Lemma LevV_prepend : forall mem m stk saved sub db p db' ch, LevV mem m stk saved sub db' ch ->
  eqdb (rev_list mem p db) db' -> LevV mem m stk saved sub db (p ++ ch).
Proof.
  intros mem m [|id r] [|v sr] sub db p db' ch H Hp; cbn [LevV] in *; auto.
  intros Hg. destruct (H Hg) as [a [x [b [ps [pv [Hc [Hs [Hi [Hr [Ha HL]]]]]]]]]].
  exists (p ++ a), x, b, ps, pv. repeat split; auto.
  - rewrite Hc, app_assoc. reflexivity.
  - rewrite rev_list_app. intros k. rewrite (rev_list_ext _ _ _ _ Hp k). apply Hr.
Qed.

Lemma LevV_bad : forall mem m stk saved sub db ch, desc stk -> good m (cur_id stk) = false ->
  LevV mem m stk saved sub db ch.
Proof.
  intros mem m [|id r] [|v sr] sub db ch Hd Hg; cbn [LevV]; auto. intros Hg'. exfalso.
  cbn in Hd, Hg. destruct Hd as [Hd _]. unfold good in *. destruct m as [m|]; [|discriminate]. lia.
Qed.

Record REL (db0 : Z -> Z) (s : ust) (p : pst) (sp : sst) (ch : list nat) : Prop := mkREL {
  rl_ui : UI db0 s ch;
  rl_done : u_done s = None /\ s_done sp = None;
  rl_p : p = mkPst (u_stk s) (u_nextid s) (u_ret s) (u_min s);
  rl_db : eqdb (u_db s) (fst (s_cur sp));
  rl_acts : snd (s_cur sp) = acts_of (u_mem s) ch;
  rl_len : length (s_saved sp) = length (u_stk s);
  rl_lev : LevV (u_mem s) (u_min s) (u_stk s) (s_saved sp) (u_sub s) (u_db s) ch;
  rl_noret : u_ret s = false -> forall v, In v (s_saved sp) -> eqdb (fst v) db0 /\ snd v = []
}.

Lemma Chain_NoDup : forall mem l ls, Chain mem l ls -> NoDup ls.
Proof.
  induction 1 as [|x r Hx Hd Hc IH]; constructor; auto. intros Hin. apply Hd in Hin. lia.
Qed.

Lemma split_uniq : forall (x : nat) a b a' b', NoDup (a ++ x :: b) -> a ++ x :: b = a' ++ x :: b' ->
  a = a' /\ b = b'.
Proof.
  induction a as [|h a IH]; intros b [|h' a'] b' Hn E; cbn in *.
  - injection E as ->. auto.
  - injection E as E1 E2. subst. inv Hn. exfalso. apply H1. apply in_or_app. right. left. reflexivity.
  - injection E as E1 E2. subst. inv Hn. exfalso. apply H1. apply in_or_app. right. left. reflexivity.
  - injection E as E1 E2. subst. inv Hn. destruct (IH b a' b' H2 E2) as [-> ->]. auto.
Qed.

Lemma acts_of_cons : forall mem x l,
  acts_of mem (x :: l) = (if isact mem x then [act mem x] else []) ++ acts_of mem l.
Proof. intros. unfold acts_of. cbn [filter]. destruct (isact mem x); reflexivity. Qed.

Lemma REL_init : forall db0, REL db0 (uinit db0) pinit (sinit db0) [].
Proof.
  intros. constructor; cbn; auto.
  - apply UI_init.
  - intros k. reflexivity.
  - intros _ v [].
Qed.

Lemma isact_new : forall mem it, isact (mem ++ [it]) (length mem) = match it with IAct _ _ _ => true | _ => false end.
Proof. intros. unfold isact. rewrite get_item_new. reflexivity. Qed.

Lemma REL_step : forall db0 s p sp ch o, REL db0 s p sp ch ->
  (o = UAbortSub -> abort_covered db0 p sp) ->
  (exists ch', REL db0 (ustep s o) (pstep p o) (sstep db0 sp o) ch') \/
  (exists d, u_done (ustep s o) = Some (snd d) /\ s_done (sstep db0 sp o) = Some d /\
             eqdb (u_db (ustep s o)) (fst d)).
Proof.
  intros db0 s p sp ch o HR Hcov. destruct HR as [HU [Hd1 Hd2] Hp Hdb Hac Hlen Hlev Hnr].
  pose proof HU as [Hc Ho Hd Hde Hn Hr Hl Hf].
  assert (Hlt := Chain_lt _ _ _ Hc).
  destruct sp as [[cdb cacts] saved sd]. cbn [s_cur s_saved s_done fst snd] in *. subst sd p cacts.
  destruct o.
  - (* write *) left. exists (length (u_mem s) :: ch).
    unfold ustep, sstep. rewrite Hd1, Hf. cbn [s_done s_cur s_saved fst snd]. rewrite <- Hd1.
    constructor; cbn [u_mem u_loc u_branch u_sub u_onc u_min u_ret u_db u_stk u_nextid u_done u_fatal
                      s_cur s_saved s_done fst snd]; auto.
    + apply push_ok; auto.
      * cbn. apply upd_self.
      * apply (LevF_prepend _ _ _ _ [length (u_mem s)]). apply LevF_app; assumption.
    + intros x. unfold upd. destruct (x =? k); auto.
    + rewrite acts_of_cons, isact_new. cbn [app]. rewrite acts_app by exact Hlt. reflexivity.
    + apply (LevV_prepend _ _ _ _ _ _ [length (u_mem s)] (u_db s)).
      * apply LevV_app; assumption.
      * rewrite rev_list_cons, get_item_new. apply upd_self.
    + discriminate.
  - (* action *) left. exists (length (u_mem s) :: ch).
    unfold ustep, sstep. rewrite Hd1, Hf. cbn [s_done s_cur s_saved fst snd]. rewrite <- Hd1.
    constructor; cbn [u_mem u_loc u_branch u_sub u_onc u_min u_ret u_db u_stk u_nextid u_done u_fatal
                      s_cur s_saved s_done fst snd]; auto.
    + apply push_ok; auto.
      * intros k. reflexivity.
      * apply (LevF_prepend _ _ _ _ [length (u_mem s)]). apply LevF_app; assumption.
    + rewrite acts_of_cons, isact_new. cbn [app]. rewrite acts_app by exact Hlt.
      unfold act. rewrite get_item_new. reflexivity.
    + apply (LevV_prepend _ _ _ _ _ _ [length (u_mem s)] (u_db s)).
      * apply LevV_app; assumption.
      * rewrite rev_list_cons, get_item_new. intros k. reflexivity.
    + discriminate.
  - (* other *) left. exists ch.
    assert (HU' : exists c, c = ch /\ UI db0 (ustep s UOther) c).
    { exists ch. split; [reflexivity|]. unfold ustep. rewrite Hd1, Hf. constructor; cbn; auto.
      + apply Chain_app. exact Hc.
      + rewrite isact_app by exact Hlt. apply OC_app; [exact Ho|].
        intros x Hx. apply filter_In in Hx. apply Hlt. tauto.
      + rewrite rev_list_mem by exact Hlt. exact Hd.
      + apply LevF_app; assumption. }
    destruct HU' as [c [-> HU']]. constructor; auto; unfold ustep in *; rewrite Hd1, Hf in *; cbn; auto.
    + rewrite acts_app by exact Hlt. reflexivity.
    + apply LevV_app; assumption.
  - (* retain *) left. exists ch. unfold ustep, sstep. rewrite Hd1, Hf. cbn [s_done].
    constructor; cbn; auto; [|discriminate]. constructor; cbn; auto. discriminate.
  - (* start *) left. unfold ustep, sstep, pstep. rewrite Hd1, Hf.
    unfold start_sub_undo. destruct (u_ret s) eqn:Er.
    + exists (length (u_mem s) :: ch). unfold set_stk.
      cbn [u_mem u_loc u_branch u_sub u_onc u_min u_ret u_db u_stk u_nextid u_done u_fatal
                      s_cur s_saved s_done fst snd p_stk p_next p_wrote p_first].
      rewrite Hf.
      constructor; cbn [u_mem u_loc u_branch u_sub u_onc u_min u_ret u_db u_stk u_nextid u_done u_fatal
                      s_cur s_saved s_done fst snd p_stk p_next p_wrote p_first]; auto.
      * apply push_ok; auto.
        -- intros k. reflexivity.
        -- cbn. auto.
        -- cbn. lia.
        -- apply (start_lev db0 s ch HU Er).
      * rewrite acts_of_cons, isact_new. cbn [app]. rewrite acts_app by exact Hlt. reflexivity.
      * cbn. congruence.
      * cbn [LevV]. intros Hg. exists [], (length (u_mem s)), ch, (u_sub s), (u_loc s).
        repeat split; auto.
        -- apply get_item_new.
        -- cbn [snd]. rewrite acts_of_cons, isact_new. cbn [app].
           rewrite acts_app by exact Hlt. reflexivity.
        -- cbn [fst]. apply (LevV_prepend _ _ _ _ _ _ [length (u_mem s)] (u_db s)).
           ++ destruct (u_min s) eqn:Em.
              ** apply LevV_app; assumption.
              ** destruct (u_stk s) as [|id r]; destruct saved; cbn [LevV]; auto.
                 cbn in Hde. cbn [good cur_id]. lia.
           ++ rewrite rev_list_cons, get_item_new. intros k. cbn. symmetry. apply Hdb.
      * discriminate.
    + exists ch. unfold set_stk. destruct (Hr eq_refl) as [Ech [Em [Eo Edb]]].
      constructor; cbn; auto; try lia.
      * constructor; cbn; auto; try lia. rewrite Em. discriminate.
      * rewrite Er, Em. reflexivity.
      * rewrite Em. discriminate.
      * intros _ v [<-|Hv]; [|apply Hnr; auto]. cbn. split.
        -- intros k. rewrite <- Hdb. apply Edb.
        -- rewrite Ech. reflexivity.
  - (* release *) left. exists ch.
    destruct (u_stk s) as [|id r] eqn:Es.
    + unfold ustep, sstep, pstep. rewrite Hd1, Hf, Es. cbn [s_done s_saved p_stk].
      destruct saved; [|discriminate]. constructor; cbn; rewrite ?Es; auto.
    + destruct saved as [|v sr]; [discriminate|].
      assert (HU' : UI db0 (ustep s UCommitSub) ch /\ u_done (ustep s UCommitSub) = None /\
        u_mem (ustep s UCommitSub) = u_mem s /\ u_db (ustep s UCommitSub) = u_db s /\
        u_stk (ustep s UCommitSub) = r /\ u_nextid (ustep s UCommitSub) = u_nextid s /\
        u_min (ustep s UCommitSub) = u_min s /\ u_ret (ustep s UCommitSub) = u_ret s /\
        LevV (u_mem s) (u_min s) r sr (u_sub (ustep s UCommitSub)) (u_db s) ch).
      { cbn in Hde. destruct Hde as [Hid Hde]. cbn [cur_id] in Hn.
        unfold ustep. rewrite Hd1, Hf, Es. unfold commit_sub_undo, set_stk. cbn [LevF] in Hl.
        cbn [LevV] in Hlev. unfold good in Hl, Hlev.
        destruct (u_min s) as [m|] eqn:Em.
        - destruct (m <=? cur_id r) eqn:E.
          + destruct (Hl eq_refl) as [a [x [b [ps [pv [Hch [Hs [Hi HL]]]]]]]].
            destruct (Hlev eq_refl) as [a' [x' [b' [ps' [pv' [Hch' [Hs' [Hi' [Hrv [Hacc HLV]]]]]]]]]].
            assert (x' = x) by congruence. subst x'.
            assert (ps' = ps) by congruence. subst ps'.
            rewrite Hs. cbn [search_sub]. rewrite Hi, Z.eqb_refl.
            split; [|cbn; repeat split; auto].
            * constructor; cbn; auto; try lia; try (intros E0; specialize (Hr E0); rewrite Em; exact Hr).
              rewrite Em, Hch. apply LevF_prepend. exact HL.
            * rewrite Hch'. eapply LevV_prepend; eauto.
          + split; [|cbn; repeat split; auto].
            * constructor; cbn; auto; try lia; try (intros E0; specialize (Hr E0); rewrite Em; exact Hr).
              rewrite Em. apply LevF_bad; [exact Hde|exact E].
            * apply LevV_bad; [exact Hde|exact E].
        - split; [|cbn; repeat split; auto].
          * constructor; cbn; auto; try lia; try (intros E0; specialize (Hr E0); rewrite Em; exact Hr).
            rewrite Em. apply LevF_bad; [exact Hde|reflexivity].
          * apply LevV_bad; [exact Hde|reflexivity]. }
      destruct HU' as [HU' [D1 [M1 [B1 [K1 [N1 [I1 [T1 L1]]]]]]]].
      constructor; auto; cbn [sstep pstep s_done s_saved s_cur fst snd p_stk p_next p_wrote p_first];
        rewrite ?M1, ?B1, ?K1, ?N1, ?I1, ?T1; auto.
      intros E0 v0 Hv0. apply Hnr; [exact E0|right; exact Hv0].
  - (* abort sub *) left.
    destruct (u_stk s) as [|id r] eqn:Es.
    + exists ch. unfold ustep, sstep, pstep. rewrite Hd1, Hf, Es. cbn [s_done s_saved p_stk].
      destruct saved; [|discriminate]. constructor; cbn; rewrite ?Es; auto.
    + destruct saved as [|v sr]; [discriminate|].
      specialize (Hcov eq_refl). unfold abort_covered in Hcov. cbn [p_stk s_saved p_first] in Hcov.
      assert (Hde2 := Hde). cbn in Hde2. destruct Hde2 as [Hid Hder].
      destruct (u_ret s) eqn:Er.
      * destruct (abort_sub_ok db0 s ch id r HU Es Er)
          as [a [b [Hch [HU' [D1 [I1 [T1 [B1 [[it [M1 [NA Hit0]]] [_ Hg]]]]]]]]]].
        set (s' := set_stk (abort_sub_undo s (cur_id r)) r (u_nextid s)) in *.
        assert (Es' : ustep s UAbortSub = s') by (unfold ustep; rewrite Hd1, Hf, Es; reflexivity).
        rewrite Es'. exists (length (u_mem s) :: b).
        assert (Hb : forall y, In y b -> (y < length (u_mem s))%nat)
          by (intros y Hy; apply Hlt; rewrite Hch; apply in_or_app; auto).
        assert (Hvals : eqdb (u_db s') (fst v) /\ snd v = acts_of (u_mem s) b /\
                        LevV (u_mem s) (u_min s) r sr (u_sub s') (fst v) b).
        { rewrite B1. destruct (good (u_min s) (cur_id r)) eqn:Eg.
          - destruct Hg as [x [b' [ps [pv [-> [Hs [Hi [Hs' _]]]]]]]].
            cbn [LevV] in Hlev.
            destruct (Hlev Eg) as [a' [x' [b'' [ps' [pv' [Hch' [Hsx [Hi' [Hrv [Hacc HLV]]]]]]]]]].
            assert (x' = x) by congruence. subst x'.
            assert (ps' = ps) by congruence. subst ps'.
            assert (NoDup (a ++ x :: b')) by (rewrite <- Hch; eapply Chain_NoDup; eauto).
            destruct (split_uniq x a b' a' b'' H) as [<- <-]; [congruence|].
            rewrite Hs'. auto.
          - subst b. rewrite app_nil_r in Hch. subst a.
            destruct Hcov as [[f [Hf1 Hf2]]|[Hv1 Hv2]].
            + unfold good in Eg. rewrite Hf1 in Eg. lia.
            + split; [|split].
              * intros k. rewrite (Hd k). symmetry. apply Hv1.
              * rewrite Hv2. reflexivity.
              * apply LevV_bad; assumption. }
        destruct Hvals as [V1 [V2 V3]].
        constructor; auto.
        -- split; [congruence|reflexivity].
        -- cbn [pstep p_stk p_next p_wrote p_first]. rewrite I1, T1. reflexivity.
        -- cbn [sstep s_done s_saved s_cur snd]. rewrite V2, acts_of_cons, NA. cbn [app].
           rewrite M1, acts_app by exact Hb. reflexivity.
        -- cbn [sstep s_done s_saved]. change (u_stk s') with r. rewrite I1, M1.
           apply (LevV_prepend _ _ _ _ _ _ [length (u_mem s)] (fst v)).
           ++ apply LevV_app; assumption.
           ++ rewrite rev_list_cons, get_item_new.
              assert (Hit : revert_item it (u_db s') = u_db s').
              { rewrite Hit0. reflexivity. }
              rewrite Hit. exact V1.
        -- rewrite T1. discriminate.
      * unfold ustep. rewrite Hd1, Hf, Es. unfold abort_sub_undo. rewrite Er.
        exists ch. destruct (Hr eq_refl) as [Ech [Em [Eo Edb]]].
        destruct (Hnr eq_refl v (or_introl eq_refl)) as [Nv1 Nv2].
        cbn [cur_id] in Hn.
        constructor; cbn; auto; try lia.
        -- constructor; cbn; auto; try lia. rewrite Em. apply LevF_bad; [exact Hder|reflexivity].
        -- rewrite Er. reflexivity.
        -- intros k. rewrite Edb. symmetry. apply Nv1.
        -- rewrite Nv2, Ech. reflexivity.
        -- rewrite Em. apply LevV_bad; [exact Hder|reflexivity].
        -- intros _ v0 Hv0. apply Hnr; [reflexivity|right; exact Hv0].
  - (* commit *)
    destruct (u_stk s) as [|id r] eqn:Es; destruct saved as [|v sr]; try discriminate.
    + right. exists (cdb, acts_of (u_mem s) ch).
      unfold ustep, sstep. rewrite Hd1, Hf, Es. cbn. repeat split; auto.
      f_equal. unfold acts_of. apply walk_commit_ok; [exact Ho|].
      pose proof (Chain_len _ _ _ Hc). pose proof (filter_len _ (isact (u_mem s)) ch). lia.
    + left. exists ch. unfold ustep, sstep, pstep. rewrite Hd1, Hf, Es. cbn [s_done s_saved].
      constructor; cbn; rewrite ?Es; auto.
  - (* abort *)
    right. exists (db0, []). repeat split.
    + unfold ustep. rewrite Hd1, Hf. reflexivity.
    + unfold ustep. rewrite Hd1, Hf. cbn. unfold walk_stack_abort.
      destruct (walk_abort_ok (u_mem s) None ch [] (u_loc s) (u_db s) (u_onc s) (length (u_mem s)))
        as [onc' [Hw _]]; rewrite ?app_nil_r; auto.
      * apply (Chain_len _ _ _ Hc).
      * rewrite Hw. cbn. exact Hd.
Qed.

Lemma sdone_stays : forall db0 ops s d, s_done s = Some d -> run (sstep db0) s ops = s.
Proof.
  induction ops as [|o r IH]; intros s d H; [reflexivity|]. rewrite run_cons.
  assert (E : sstep db0 s o = s) by (unfold sstep; rewrite H; reflexivity). rewrite E. eauto.
Qed.

Lemma refine_run : forall db0 ops, covered db0 pinit (sinit db0) ops ->
  let s := run ustep (uinit db0) ops in
  let sp := run (sstep db0) (sinit db0) ops in
  (u_done s = None <-> s_done sp = None) /\
  (forall k, u_db s k = match s_done sp with Some d => fst d k | None => fst (s_cur sp) k end) /\
  (forall acts, u_done s = Some acts -> exists d, s_done sp = Some d /\ snd d = acts).
Proof.
  intros db0 ops.
  assert (G : forall ops s p sp ch, REL db0 s p sp ch -> covered db0 p sp ops ->
    let s' := run ustep s ops in let sp' := run (sstep db0) sp ops in
    (u_done s' = None <-> s_done sp' = None) /\
    (forall k, u_db s' k = match s_done sp' with Some d => fst d k | None => fst (s_cur sp') k end) /\
    (forall acts, u_done s' = Some acts -> exists d, s_done sp' = Some d /\ snd d = acts)).
  { clear ops. induction ops as [|o r IH]; intros s p sp ch HR Hc.
    - cbn. destruct HR as [HU [D1 D2] Hp Hdb Hac Hlen Hlev Hnr]. rewrite D1, D2. repeat split; auto.
      discriminate.
    - cbn [covered] in Hc. destruct Hc as [Hc1 Hc2]. rewrite !run_cons.
      assert (D2 : s_done sp = None) by (destruct HR as [_ [_ D2] _ _ _ _ _ _]; exact D2).
      rewrite D2 in Hc2.
      destruct (REL_step db0 s p sp ch o HR (fun E => Hc1 E D2)) as [[ch' HR']|[d [E1 [E2 E3]]]].
      + eapply IH; eauto.
      + cbv zeta. rewrite (done_stays r _ _ E1), (sdone_stays db0 r _ _ E2), E1, E2.
        split; [split; congruence|]. split; [exact E3|].
        intros acts [= <-]. eauto. }
  intros Hc. eapply G; eauto. apply REL_init.
Qed.

(** ** Programs whose first change precedes every savepoint are covered *)
Lemma cur_id_ge1 : forall stk n, Forall (fun x => 2 <= x < n) stk -> 1 <= cur_id stk.
Proof. intros [|x r] n H; cbn; [lia|]. inv H. lia. Qed.

Lemma covered_after_first : forall db0 ops p sp,
  (p_wrote p = true /\ p_stk p = [] /\ p_first p = None \/ p_first p = Some 1) ->
  2 <= p_next p -> Forall (fun x => 2 <= x < p_next p) (p_stk p) ->
  covered db0 p sp ops.
Proof.
  induction ops as [|o r IH]; intros p sp H Hn Hs; cbn [covered]; [exact I|].
  split.
  - intros -> Hd. unfold abort_covered. destruct (p_stk p) as [|x rest] eqn:Ep; [exact I|].
    destruct (s_saved sp); [exact I|]. left. destruct H as [[_ [E _]]|E]; [discriminate|].
    exists 1. split; [exact E|]. inv Hs. eapply cur_id_ge1; eauto.
  - destruct (s_done sp); [apply IH; auto|].
    destruct o; cbn [pstep]; try (apply IH; auto; fail).
    + apply IH; cbn; auto. destruct H as [[_ H]|H]; auto.
    + apply IH; cbn; auto. destruct H as [[_ H]|H]; auto.
    + apply IH; cbn; auto. destruct H as [[_ H]|H]; auto.
    + apply IH; cbn.
      * right. destruct H as [[Hw [E1 E2]]|E]; [rewrite E2, Hw, E1; reflexivity|rewrite E; reflexivity].
      * lia.
      * constructor; [lia|]. eapply Forall_impl; [|exact Hs]. cbn. intros. lia.
    + destruct (p_stk p) as [|x rest] eqn:Ep; [apply IH; rewrite ?Ep; auto|].
      inv Hs. apply IH; cbn; auto. destruct H as [[_ [E _]]|E]; [discriminate|auto].
    + destruct (p_stk p) as [|x rest] eqn:Ep; [apply IH; rewrite ?Ep; auto|].
      inv Hs. apply IH; cbn; auto. destruct H as [[_ [E _]]|E]; [discriminate|auto].
Qed.

Lemma covered_write_first : forall db0 k v ops,
  covered db0 pinit (sinit db0) (UWrite k v :: ops).
Proof.
  intros. cbn [covered]. split; [discriminate|]. cbn [sinit s_done].
  apply covered_after_first; cbn; auto. lia.
Qed.

(** Programs that never nest savepoints (depth at most one) are covered. *)
Fixpoint depth_le1 (d : nat) (ops : list uop) : Prop :=
  match ops with
  | [] => True
  | UStart :: r => d = O /\ depth_le1 1 r
  | (UCommitSub | UAbortSub) :: r => depth_le1 0 r
  | _ :: r => depth_le1 d r
  end.

Lemma covered_depth1 : forall db0 ops p sp d,
  depth_le1 d ops -> length (p_stk p) = d -> (d <= 1)%nat ->
  length (s_saved sp) = d ->
  (p_first p = None \/ p_first p = Some 1) ->
  (p_first p = None -> s_done sp = None -> (p_wrote p = false -> eqdb (fst (s_cur sp)) db0 /\ snd (s_cur sp) = []) /\
     forall v, In v (s_saved sp) -> eqdb (fst v) db0 /\ snd v = []) ->
  covered db0 p sp ops.
Proof.
  induction ops as [|o r IH]; intros p sp d Hdep Hl Hd1 Hsl Hf Hn; cbn [covered]; [exact I|].
  split.
  - intros -> Hdn. unfold abort_covered. destruct (p_stk p) as [|x [|y l]] eqn:Ep; [exact I| |cbn in Hl; lia].
    destruct (s_saved sp) as [|v vs] eqn:Es; [exact I|].
    destruct Hf as [Hf|Hf].
    + right. destruct (Hn Hf Hdn) as [_ H]. apply H. left. reflexivity.
    + left. exists 1. split; [exact Hf|]. cbn. lia.
  - destruct (s_done sp) eqn:Edn.
    + destruct o; cbn [depth_le1] in Hdep; unfold sstep; rewrite Edn;
        try (eapply (IH p sp d); eauto; congruence).
      * destruct Hdep as [-> Hdep].
        (* finished: the remaining program is irrelevant *)
        clear IH Hdep. revert Edn. clear. revert p sp.
        induction r as [|o r IH]; intros p sp E; cbn [covered]; [exact I|].
        split; [congruence|]. rewrite E. apply IH. unfold sstep. rewrite E. exact E.
      * clear IH Hdep. revert Edn. clear. revert p sp.
        induction r as [|o r IH]; intros p sp E; cbn [covered]; [exact I|].
        split; [congruence|]. rewrite E. apply IH. unfold sstep. rewrite E. exact E.
      * clear IH Hdep. revert Edn. clear. revert p sp.
        induction r as [|o r IH]; intros p sp E; cbn [covered]; [exact I|].
        split; [congruence|]. rewrite E. apply IH. unfold sstep. rewrite E. exact E.
    + destruct o; cbn [depth_le1] in Hdep; cbn [pstep]; unfold sstep; rewrite Edn.
      * eapply IH; eauto; cbn. intros E _. split; [discriminate|]. apply (Hn E eq_refl).
      * eapply IH; eauto; cbn. intros E _. split; [discriminate|]. apply (Hn E eq_refl).
      * eapply IH; eauto.
      * eapply IH; eauto; cbn. intros E _. split; [discriminate|]. apply (Hn E eq_refl).
      * destruct Hdep as [-> Hdep].
        destruct (p_stk p) as [|? ?] eqn:Ep; [|discriminate].
        destruct (s_saved sp) as [|? ?] eqn:Es; [|discriminate].
        eapply (IH _ _ 1%nat); eauto; cbn.
        -- destruct Hf as [->| ->]; auto. destruct (p_wrote p); auto.
        -- intros E _. destruct Hf as [Hf|Hf]; rewrite Hf in E; [|discriminate].
           destruct (p_wrote p) eqn:Ew; [discriminate|].
           destruct (Hn Hf eq_refl) as [H1 H2]. specialize (H1 eq_refl).
           split; [auto|]. intros v [<-|[]]. exact H1.
      * destruct (p_stk p) as [|x [|y l]] eqn:Ep; [| |cbn in Hl; lia];
          (destruct (s_saved sp) as [|v [|v2 vs]] eqn:Es; cbn in Hl, Hsl; try lia).
        -- eapply (IH p sp 0%nat); eauto; rewrite ?Ep, ?Es; auto.
        -- eapply (IH _ _ 0%nat); eauto; cbn. intros E _. destruct (Hn E eq_refl) as [H1 H2].
           split; [exact H1|]. intros v0 [].
      * destruct (p_stk p) as [|x [|y l]] eqn:Ep; [| |cbn in Hl; lia];
          (destruct (s_saved sp) as [|v [|v2 vs]] eqn:Es; cbn in Hl, Hsl; try lia).
        -- eapply (IH p sp 0%nat); eauto; rewrite ?Ep, ?Es; auto.
        -- eapply (IH _ _ 0%nat); eauto; cbn. intros E _. destruct (Hn E eq_refl) as [H1 H2].
           split; [|intros v0 []]. intros _. apply H2. left. reflexivity.
      * destruct (s_saved sp) eqn:Es.
        -- eapply (IH p _ d); eauto; cbn; discriminate.
        -- eapply (IH p sp d); eauto; rewrite ?Es; auto.
      * (* abort: finished *)
        generalize (mkSst (db0, []) [] (Some (db0, []))) (eq_refl : s_done (mkSst (db0, []) [] (Some (db0, []))) = Some (db0, [])).
        clear. revert p. induction r as [|o r IH]; intros p sp E; cbn [covered]; [exact I|].
        split; [congruence|]. rewrite E. apply IH. unfold sstep. rewrite E. exact E.
Qed.

Lemma covered_flat : forall db0 ops, depth_le1 0 ops -> covered db0 pinit (sinit db0) ops.
Proof.
  intros. eapply covered_depth1; eauto; cbn; auto.
  intros _ _. split; [|intros v []]. intros _. split; [intros k; reflexivity|reflexivity].
Qed.

(** ** Branch records lead to every rolled-back record *)
Inductive Branches (mem : list item) : loc -> list nat -> Prop :=
| Br_nil : Branches mem None []
| Br_cons : forall x lp pb pv r, get_item mem x = IBranch lp pb pv -> (x < length mem)%nat ->
    Branches mem pb r -> Branches mem (Some x) (x :: r).

(** Records visited when branch x is applied (apply_undo_branches 1389-1409). *)
Definition in_branch (mem : list item) (x y : nat) : Prop :=
  exists lp pb pv a b, get_item mem x = IBranch lp pb pv /\ Chain mem lp (a ++ b) /\
    match pv with Some t => exists r, b = t :: r | None => b = [] end /\ In y a.

Definition own (mem : list item) (y : nat) : Prop :=
  match get_item mem y with IRow _ _ _ | IAct _ _ _ => (y < length mem)%nat | _ => False end.

Definition BInv (s : ust) (ch : list nat) : Prop :=
  exists br, Branches (u_mem s) (u_branch s) br /\
    forall y, own (u_mem s) y -> In y ch \/ exists x, In x br /\ in_branch (u_mem s) x y.

Lemma Branches_app : forall mem m2 l br, Branches mem l br -> Branches (mem ++ m2) l br.
Proof.
  induction 1; econstructor; eauto.
  - rewrite get_item_app; eauto.
  - rewrite app_length. lia.
Qed.

Lemma in_branch_app : forall mem m2 x y, (x < length mem)%nat -> in_branch mem x y -> in_branch (mem ++ m2) x y.
Proof.
  intros mem m2 x y Hx [lp [pb [pv [a [b [H1 [H2 [H3 H4]]]]]]]].
  exists lp, pb, pv, a, b. rewrite get_item_app by exact Hx. repeat split; auto. apply Chain_app. exact H2.
Qed.

Lemma Branches_lt : forall mem l br, Branches mem l br -> forall x, In x br -> (x < length mem)%nat.
Proof. induction 1; intros y Hy; [inversion Hy|]. destruct Hy as [<-|Hy]; auto. Qed.

Lemma own_app : forall mem it y, own (mem ++ [it]) y ->
  own mem y \/ (y = length mem /\ match it with IRow _ _ _ | IAct _ _ _ => True | _ => False end).
Proof.
  intros mem it y H. unfold own in *. destruct (Nat.lt_ge_cases y (length mem)) as [Hy|Hy].
  - rewrite get_item_app in H by exact Hy. left. destruct (get_item mem y); auto.
  - right. assert (Hle : (y < length (mem ++ [it]))%nat) by (destruct (get_item (mem ++ [it]) y); tauto).
    rewrite app_length in Hle. cbn in Hle. assert (y = length mem) by lia. subst y.
    rewrite get_item_new in H. split; [reflexivity|]. destruct it; auto.
Qed.

Lemma BInv_push : forall s ch it s' , BInv s ch -> u_mem s' = u_mem s ++ [it] -> u_branch s' = u_branch s ->
  BInv s' (length (u_mem s) :: ch).
Proof.
  intros s ch it s' [br [H1 H2]] Em Eb. exists br. rewrite Em, Eb. split; [apply Branches_app; exact H1|].
  intros y Hy. apply own_app in Hy. destruct Hy as [Hy|[-> _]]; [|left; left; reflexivity].
  destruct (H2 y Hy) as [H|[x [Hx Hb]]]; [left; right; exact H|].
  right. exists x. split; [exact Hx|]. apply in_branch_app; [eapply Branches_lt; eauto|exact Hb].
Qed.

Lemma BInv_same : forall s ch s', BInv s ch -> u_mem s' = u_mem s -> u_branch s' = u_branch s -> BInv s' ch.
Proof. intros s ch s' [br [H1 H2]] Em Eb. exists br. rewrite Em, Eb. auto. Qed.

Lemma BInv_step : forall db0 s o ch, UI db0 s ch -> BInv s ch -> u_done s = None -> u_done (ustep s o) = None ->
  exists ch', UI db0 (ustep s o) ch' /\ BInv (ustep s o) ch'.
Proof.
  intros db0 s o ch HU HB Hds Hdone.
  destruct (UI_step db0 s o ch HU Hdone) as [ch' HU'].
  enough (BInv (ustep s o) ch') by eauto.
  pose proof HU as [Hc Ho Hd Hde Hn Hr Hl Hf].
  pose proof HU' as [Hc' _ _ _ _ _ _ _].
  assert (Huniq : forall mem l c1 c2, Chain mem l c1 -> Chain mem l c2 -> c1 = c2).
  { clear. intros mem l c1 c2 H1. revert c2. induction H1; intros c2 H2; inv H2; auto. f_equal. auto. }
  unfold ustep in *. rewrite Hds, Hf in *. destruct o.
  - assert (ch' = length (u_mem s) :: ch).
    { eapply Huniq; [exact Hc'|]. apply (ui_ch db0 _ _ (push_ok db0 s ch (IRow k (u_db s k) (u_loc s)) (upd (u_db s) k v)
        (u_sub s) (u_onc s) (u_min s) (u_stk s) (u_nextid s) HU eq_refl (upd_self _ _ _) eq_refl Hde Hn
        (LevF_prepend _ _ _ _ [length (u_mem s)] _ (LevF_app _ _ _ _ _ _ (Chain_lt _ _ _ Hc) Hl)))). }
    subst ch'. eapply BInv_push; eauto; reflexivity.
  - assert (ch' = length (u_mem s) :: ch).
    { eapply Huniq; [exact Hc'|]. apply (ui_ch db0 _ _ (push_ok db0 s ch (IAct a (u_loc s) (u_onc s)) (u_db s)
        (u_sub s) (Some (length (u_mem s))) (u_min s) (u_stk s) (u_nextid s) HU eq_refl (fun k => eq_refl) (conj eq_refl eq_refl) Hde Hn
        (LevF_prepend _ _ _ _ [length (u_mem s)] _ (LevF_app _ _ _ _ _ _ (Chain_lt _ _ _ Hc) Hl)))). }
    subst ch'. eapply BInv_push; eauto; reflexivity.
  - assert (ch' = ch) by (eapply Huniq; [exact Hc'|]; cbn; apply Chain_app; exact Hc). subst ch'.
    destruct HB as [br [B1 B2]]. exists br. cbn. split; [apply Branches_app; exact B1|].
    intros y Hy. apply own_app in Hy. destruct Hy as [Hy|[_ []]].
    destruct (B2 y Hy) as [H|[x [Hx Hb]]]; [left; exact H|].
    right. exists x. split; [exact Hx|]. apply in_branch_app; [eapply Branches_lt; eauto|exact Hb].
  - assert (ch' = ch) by (eapply Huniq; [exact Hc'|exact Hc]). subst ch'. eapply BInv_same; eauto; reflexivity.
  - unfold start_sub_undo in *. destruct (u_ret s) eqn:Er.
    + assert (ch' = length (u_mem s) :: ch).
      { eapply Huniq; [exact Hc'|]. cbn.
        constructor; [rewrite app_length; cbn; lia|eapply Chain_lt; eauto|].
        rewrite get_item_new. cbn. apply Chain_app. exact Hc. }
      subst ch'. eapply BInv_push; eauto; reflexivity.
    + assert (ch' = ch) by (eapply Huniq; [exact Hc'|exact Hc]). subst ch'. eapply BInv_same; eauto; reflexivity.
  - destruct (u_stk s) as [|id r] eqn:Es.
    + assert (ch' = ch) by (eapply Huniq; [exact Hc'|exact Hc]). subst ch'. exact HB.
    + assert (E : u_mem (commit_sub_undo s (cur_id r)) = u_mem s /\ u_loc (commit_sub_undo s (cur_id r)) = u_loc s /\
                  u_branch (commit_sub_undo s (cur_id r)) = u_branch s).
      { unfold commit_sub_undo. destruct (u_min s); [|auto]. destruct (_ <=? _); [|auto].
        destruct (search_sub _ _ _) as [[? ?]|]; auto. }
      destruct E as [E1 [E2 E3]].
      assert (ch' = ch) by (eapply Huniq; [exact Hc'|]; cbn; rewrite E1, E2; exact Hc). subst ch'.
      eapply BInv_same; eauto.
  - destruct (u_stk s) as [|id r] eqn:Es.
    + assert (ch' = ch) by (eapply Huniq; [exact Hc'|exact Hc]). subst ch'. exact HB.
    + destruct (u_ret s) eqn:Er.
      * destruct (abort_sub_ok db0 s ch id r HU Es Er)
          as [a [b [Hch [HU2 [_ [_ [_ [_ [[it [M1 [_ Hit]]] [Br1 _]]]]]]]]]].
        assert (ch' = length (u_mem s) :: b) by (eapply Huniq; [exact Hc'|apply (ui_ch _ _ _ HU2)]). subst ch'.
        destruct HB as [br [B1 B2]].
        exists (length (u_mem s) :: br). cbn in M1, Br1. cbn. rewrite M1, Br1. split.
        -- subst it. econstructor; [apply get_item_new|rewrite app_length; cbn; lia|apply Branches_app; exact B1].
        -- intros y Hy. apply own_app in Hy. destruct Hy as [Hy|[_ Hy]]; [|subst it; contradiction].
           destruct (B2 y Hy) as [H|[x [Hx Hb]]].
           ++ rewrite Hch in H. apply in_app_or in H. destruct H as [H|H]; [|left; right; exact H].
              right. exists (length (u_mem s)). split; [left; reflexivity|].
              subst it. eexists _, _, _, a, b. split; [apply get_item_new|].
              split; [apply Chain_app; rewrite <- Hch; exact Hc|]. split; [|exact H].
              destruct b; eauto.
           ++ right. exists x. split; [right; exact Hx|].
              apply in_branch_app; [eapply Branches_lt; eauto|exact Hb].
      * unfold abort_sub_undo in *. rewrite Er in *.
        assert (ch' = ch) by (eapply Huniq; [exact Hc'|exact Hc]). subst ch'. eapply BInv_same; eauto; reflexivity.
  - destruct (u_stk s); [discriminate|].
    assert (ch' = ch) by (eapply Huniq; [exact Hc'|exact Hc]). subst ch'. exact HB.
  - discriminate.
Qed.

Lemma branches_cover : forall db0 ops, let s := run ustep (uinit db0) ops in u_done s = None ->
  exists ch br, Chain (u_mem s) (u_loc s) ch /\ Branches (u_mem s) (u_branch s) br /\
    forall y, own (u_mem s) y -> In y ch \/ exists x, In x br /\ in_branch (u_mem s) x y.
Proof.
  intros db0 ops.
  assert (G : forall ops s ch, UI db0 s ch -> BInv s ch -> u_done s = None -> u_done (run ustep s ops) = None ->
     exists ch', UI db0 (run ustep s ops) ch' /\ BInv (run ustep s ops) ch').
  { clear ops. induction ops as [|o r IH]; intros s ch H HB Hs Hd; [eauto|]. rewrite run_cons in *.
    destruct (u_done (ustep s o)) as [d|] eqn:E.
    - rewrite (done_stays r _ _ E) in Hd. congruence.
    - destruct (BInv_step db0 s o ch H HB Hs E) as [ch' [H1 H2]]. eapply IH; eauto. }
  intros s Hd. destruct (G ops (uinit db0) [] (UI_init db0)) as [ch' [H1 [br [H2 H3]]]]; auto.
  - exists []. split; [constructor|]. cbn. intros y Hy. unfold own in Hy. cbn in Hy.
    destruct (get_item [] y); lia.
  - exists ch', br. split; [apply (ui_ch _ _ _ H1)|]. auto.
Qed.
