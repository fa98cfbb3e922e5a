From Coq Require Import ZArith List Bool Lia Permutation.
From Coq Require Import ZifyBool ZifyNat ZifyN.
From Verif Require Import Base ExtentsModel ExtentsSpec ExtentsProofs.
Import ListNotations.
Open Scope Z_scope.


Lemma in_ext_cover : forall b e, in_ext b e <-> cover b e = 1.
Proof. intros b [o l]. unfold in_ext, cover. cbn [fst snd].
  destruct ((o <=? b) && (b <? o + l)) eqn:E; lia. Qed.

Lemma sum_two : forall A (f : A -> Z) l i j x y, (forall z, 0 <= f z) ->
  i <> j -> nth_error l i = Some x -> nth_error l j = Some y -> f x + f y <= sumf f l.
Proof.
  intros A f. induction l as [|h t IH]; intros [|i] [|j] x y Hf Hij Hi Hj;
    cbn in Hi, Hj; try discriminate; try congruence; cbn [sumf].
  - injection Hi as ->.
    assert (f y <= sumf f t) by (apply sumf_ge_elem; [auto|eapply nth_error_In; eauto]). lia.
  - injection Hj as ->.
    assert (f x <= sumf f t) by (apply sumf_ge_elem; [auto|eapply nth_error_In; eauto]). lia.
  - assert (f x + f y <= sumf f t) by (apply (IH i j); auto). pose proof (Hf h). lia.
Qed.

Lemma thr_cov_ge0 : forall b l, 0 <= sumf (fun pc => sumf (cover b) (own pc)) l.
Proof. intros. apply sumf_ge0. intros. apply sumf_ge0. intros. apply cover_01. Qed.

Lemma extents_exclusive : forall s ops, s = run estep einit ops ->
  (forall i j a b, i <> j -> nth_error (e_used s ++ e_lenoff s) i = Some a ->
     nth_error (e_used s ++ e_lenoff s) j = Some b -> disjoint a b) /\
  (forall e, In e (e_used s ++ e_lenoff s) ->
     0 < snd e /\ 0 <= fst e /\ fst e + snd e <= e_filelen s).
Proof.
  intros s ops ->. pose proof (EInv_run ops) as H.
  set (s := run estep einit ops) in *. clearbody s.
  destruct H as [Hc Ho Hn [Hp1 Hp2] Hw Hl Hf]. split.
  - intros i j a b Hij Hi Hj x [Ha Hb].
    apply in_ext_cover in Ha. apply in_ext_cover in Hb.
    pose proof (sum_two _ (cover x) _ i j a b ltac:(intros; apply cover_01) Hij Hi Hj) as Hs.
    rewrite sumf_app in Hs. specialize (Hc x). pose proof (thr_cov_ge0 x (e_thr s)).
    destruct (_ && _) in Hc; lia.
  - intros e He.
    assert (Hpos : 0 < snd e)
      by (apply in_app_or in He; destruct He as [He|He]; [apply Hp2|apply Hp1]; exact He).
    split; [exact Hpos|].
    assert (Hin : forall x, in_ext x e -> 0 <= x < e_filelen s).
    { intros x Hx. apply in_ext_cover in Hx.
      assert (cover x e <= sumf (cover x) (e_used s ++ e_lenoff s))
        by (apply sumf_ge_elem; [intros; apply cover_01|exact He]).
      rewrite sumf_app in H. specialize (Hc x). pose proof (thr_cov_ge0 x (e_thr s)).
      destruct ((0 <=? x) && (x <? e_filelen s)) eqn:E; lia. }
    pose proof (Hin (fst e) ltac:(unfold in_ext; lia)).
    pose proof (Hin (fst e + snd e - 1) ltac:(unfold in_ext; lia)). lia.
Qed.

Lemma sumf_all_idle : forall f l, f EIdle = 0 -> (forall pc, In pc l -> pc = EIdle) -> sumf f l = 0.
Proof.
  induction l as [|h t IH]; intros H0 H; cbn [sumf]; [reflexivity|].
  rewrite (H h (or_introl eq_refl)), H0, IH; auto. intros. apply H. right. assumption.
Qed.

Lemma ext_dec : forall a b : ext, {a = b} + {a <> b}.
Proof. decide equality; apply Z.eq_dec. Qed.

Lemma perm_of_sums : forall l1 l2 : list ext, (forall f, sumf f l1 = sumf f l2) -> Permutation l1 l2.
Proof.
  intros l1 l2 H. apply (Permutation_count_occ ext_dec). intros x.
  assert (Hc : forall l, Z.of_nat (count_occ ext_dec l x) = sumf (eqi x) l).
  { induction l as [|h t IH]; cbn [count_occ sumf]; [reflexivity|]. unfold eqi at 1.
    destruct (ext_dec h x) as [->|Hne].
    - rewrite ext_eqb_refl. lia.
    - destruct (ext_eqb x h) eqn:E; [apply ext_eqb_spec in E; congruence|lia]. }
  pose proof (Hc l1). pose proof (Hc l2). specialize (H (eqi x)). lia.
Qed.

Lemma cover_find : forall b l, 1 <= sumf (cover b) l -> exists i e, nth_error l i = Some e /\ in_ext b e.
Proof.
  induction l as [|h t IH]; cbn [sumf]; intros H; [lia|].
  pose proof (cover_01 b h). destruct (Z.eq_dec (cover b h) 1) as [E|E].
  - exists O, h. split; [reflexivity|]. apply in_ext_cover. exact E.
  - destruct IH as [i [e [Hi He]]]; [lia|]. exists (S i), e. auto.
Qed.

Lemma extents_conserved : forall s ops, s = run estep einit ops -> all_idle s ->
  (forall b, 0 <= b < e_filelen s ->
     exists i e, nth_error (e_used s ++ e_lenoff s) i = Some e /\ in_ext b e) /\
  e_numfree s = fold_right (fun e a => snd e + a) 0 (e_lenoff s) /\
  Permutation (e_offlen s) (e_lenoff s).
Proof.
  intros s ops -> Hid. pose proof (EInv_run ops) as H.
  set (s := run estep einit ops) in *. clearbody s.
  destruct H as [Hc Ho Hn [Hp1 Hp2] Hw Hl Hf]. split; [|split].
  - intros b Hb. apply cover_find. rewrite sumf_app. specialize (Hc b).
    rewrite (sumf_all_idle (fun pc => sumf (cover b) (own pc))) in Hc by (auto; reflexivity).
    destruct ((0 <=? b) && (b <? e_filelen s)) eqn:E; lia.
  - rewrite Hn. rewrite (sumf_all_idle wt) by (auto; reflexivity).
    assert (Hs : forall l, sumf elen l = fold_right (fun e a => snd e + a) 0 l)
      by (induction l as [|h t IH]; cbn [sumf fold_right]; [reflexivity|rewrite IH; reflexivity]).
    rewrite Hs. lia.
  - apply perm_of_sums. intros f. rewrite Ho.
    rewrite (sumf_all_idle (fun pc => sumf f (pend pc))) by (auto; reflexivity). lia.
Qed.

Lemma extents_no_fatal : forall ops, e_fatal (run estep einit ops) = false.
Proof. intros. apply ei_fatal. apply EInv_run. Qed.

(** ** Sequential searches *)
Lemma off_le_spec : forall k l,
  match off_le k l with
  | None => forall e, In e l -> k < fst e
  | Some c => In c l /\ fst c <= k /\ forall e, In e l -> fst e <= k -> fst e <= fst c
  end.
Proof.
  intros k l. unfold off_le.
  assert (G : forall l acc (P : list ext),
    match acc with
    | None => forall e, In e P -> k < fst e
    | Some c => In c P /\ fst c <= k /\ forall e, In e P -> fst e <= k -> fst e <= fst c
    end ->
    match fold_left (fun acc e =>
       if fst e <=? k
       then match acc with None => Some e | Some b => if fst b <? fst e then Some e else acc end
       else acc) l acc with
    | None => forall e, In e (P ++ l) -> k < fst e
    | Some c => In c (P ++ l) /\ fst c <= k /\ forall e, In e (P ++ l) -> fst e <= k -> fst e <= fst c
    end).
  { clear l. induction l as [|h t IH]; intros acc P H; cbn [fold_left].
    - rewrite app_nil_r. exact H.
    - replace (P ++ h :: t) with ((P ++ [h]) ++ t) by (rewrite <- app_assoc; reflexivity).
      apply IH. destruct (fst h <=? k) eqn:E.
      + destruct acc as [b|].
        * destruct H as [Hb [Hk Hm]]. destruct (fst b <? fst h) eqn:E2.
          -- split; [apply in_or_app; right; left; reflexivity|]. split; [lia|].
             intros e He Hek. apply in_app_or in He. destruct He as [He|[<-|[]]]; [|lia].
             pose proof (Hm e He Hek). lia.
          -- split; [apply in_or_app; left; exact Hb|]. split; [lia|].
             intros e He Hek. apply in_app_or in He. destruct He as [He|[<-|[]]]; [|lia].
             exact (Hm e He Hek).
        * split; [apply in_or_app; right; left; reflexivity|]. split; [lia|].
          intros e He Hek. apply in_app_or in He. destruct He as [He|[<-|[]]]; [|lia].
          pose proof (H e He). lia.
      + destruct acc as [b|].
        * destruct H as [Hb [Hk Hm]].
          split; [apply in_or_app; left; exact Hb|]. split; [exact Hk|].
          intros e He Hek. apply in_app_or in He. destruct He as [He|[<-|[]]]; [|lia].
          exact (Hm e He Hek).
        * intros e He. apply in_app_or in He. destruct He as [He|[<-|[]]]; [|lia]. exact (H e He). }
  specialize (G l None []). cbn [app] in G. apply G. intros e [].
Qed.

Lemma best_fit_spec : forall n l,
  match best_fit n l with
  | None => forall e, In e l -> snd e < n
  | Some c => In c l /\ n <= snd c /\
      forall e, In e l -> n <= snd e -> snd c < snd e \/ (snd c = snd e /\ fst c <= fst e)
  end.
Proof.
  intros n l. unfold best_fit.
  assert (G : forall l acc (P : list ext),
    match acc with
    | None => forall e, In e P -> snd e < n
    | Some c => In c P /\ n <= snd c /\
        forall e, In e P -> n <= snd e -> snd c < snd e \/ (snd c = snd e /\ fst c <= fst e)
    end ->
    match fold_left (fun acc e =>
       if n <=? snd e
       then match acc with None => Some e | Some b => if lenoff_less e b then Some e else acc end
       else acc) l acc with
    | None => forall e, In e (P ++ l) -> snd e < n
    | Some c => In c (P ++ l) /\ n <= snd c /\
        forall e, In e (P ++ l) -> n <= snd e -> snd c < snd e \/ (snd c = snd e /\ fst c <= fst e)
    end).
  { clear l. induction l as [|h t IH]; intros acc P H; cbn [fold_left].
    - rewrite app_nil_r. exact H.
    - replace (P ++ h :: t) with ((P ++ [h]) ++ t) by (rewrite <- app_assoc; reflexivity).
      apply IH. destruct (n <=? snd h) eqn:E.
      + destruct acc as [b|].
        * destruct H as [Hb [Hk Hm]]. unfold lenoff_less.
          destruct ((snd h <? snd b) || ((snd h =? snd b) && (fst h <? fst b))) eqn:E2.
          -- split; [apply in_or_app; right; left; reflexivity|]. split; [lia|].
             intros e He Hek. apply in_app_or in He. destruct He as [He|[<-|[]]]; [|lia].
             pose proof (Hm e He Hek). lia.
          -- split; [apply in_or_app; left; exact Hb|]. split; [lia|].
             intros e He Hek. apply in_app_or in He. destruct He as [He|[<-|[]]]; [|lia].
             exact (Hm e He Hek).
        * split; [apply in_or_app; right; left; reflexivity|]. split; [lia|].
          intros e He Hek. apply in_app_or in He. destruct He as [He|[<-|[]]]; [|lia].
          pose proof (H e He). lia.
      + destruct acc as [b|].
        * destruct H as [Hb [Hk Hm]].
          split; [apply in_or_app; left; exact Hb|]. split; [exact Hk|].
          intros e He Hek. apply in_app_or in He. destruct He as [He|[<-|[]]]; [|lia].
          exact (Hm e He Hek).
        * intros e He. apply in_app_or in He. destruct He as [He|[<-|[]]]; [|lia]. exact (H e He). }
  specialize (G l None []). cbn [app] in G. apply G. intros e [].
Qed.

(** ** Running one operation to completion *)
Definition del_opt (o : option ext) (l : list ext) : list ext :=
  match o with Some e => del e l | None => l end.

Lemma thr_with : forall s i pc pc', nth_error (e_thr s) i = Some pc ->
  nth_error (set_nth (e_thr s) i pc') i = Some pc'.
Proof. intros. eapply nth_set_nth_same; eauto. Qed.

Lemma rm_offlen_frame : forall s e, e_lenoff (rm_offlen s e) = e_lenoff s /\
  e_used (rm_offlen s e) = e_used s /\ e_thr (rm_offlen s e) = e_thr s /\
  e_filelen (rm_offlen s e) = e_filelen s.
Proof. intros. unfold rm_offlen. destruct (has_off _ _); cbn; auto. Qed.

Lemma ins_offlen_frame : forall s e, e_lenoff (ins_offlen s e) = e_lenoff s /\
  e_used (ins_offlen s e) = e_used s /\ e_thr (ins_offlen s e) = e_thr s /\
  e_filelen (ins_offlen s e) = e_filelen s.
Proof. intros. unfold ins_offlen. destruct (has_off _ _); cbn; auto. Qed.

Lemma ins_lenoff_frame : forall s e,
  e_used (ins_lenoff s e) = e_used s /\ e_thr (ins_lenoff s e) = e_thr s /\
  e_filelen (ins_lenoff s e) = e_filelen s.
Proof. intros. unfold ins_lenoff. destruct (mem _ _); cbn; auto. Qed.

Lemma seq_free_run : forall s i e c1 c2 lf rt,
  EInv s -> nth_error (e_thr s) i = Some (FScan e) ->
  decide_merge e c1 c2 = (lf, rt) ->
  (forall r, rt = Some r -> In r (e_lenoff s)) ->
  (forall l, lf = Some l -> In l (del_opt rt (e_lenoff s))) ->
  let s' := run estep s [ESee i c1 c2; EStep i; EStep i; EStep i; EStep i; EStep i; EStep i] in
  e_lenoff s' = merged e lf rt :: del_opt lf (del_opt rt (e_lenoff s)) /\
  e_used s' = e_used s /\ nth_error (e_thr s') i = Some EIdle /\
  (forall j, j <> i -> nth_error (e_thr s') j = nth_error (e_thr s) j).
Proof.
  intros s i e c1 c2 lf rt HI Hi Hd Hr Hl. unfold run. cbn [fold_left].
  (* see *)
  set (s1 := estep s (ESee i c1 c2)).
  assert (I1 : EInv s1) by (apply EInv_step; exact HI).
  assert (F1 : e_lenoff s1 = e_lenoff s /\ e_used s1 = e_used s /\
               nth_error (e_thr s1) i = Some (FDelR e lf rt) /\
               (forall j, j <> i -> nth_error (e_thr s1) j = nth_error (e_thr s) j)).
  { unfold s1. cbn [estep]. rewrite Hi, Hd. unfold with_thr. cbn. repeat split; auto.
    - eapply nth_set_nth_same; eauto.
    - intros j Hj. apply nth_set_nth_other. congruence. }
  clearbody s1. destruct F1 as [A1 [B1 [C1 D1]]].
  (* delete right from len_off *)
  set (s2 := estep s1 (EStep i)).
  assert (I2 : EInv s2) by (apply EInv_step; exact I1).
  assert (F2 : e_lenoff s2 = del_opt rt (e_lenoff s) /\ e_used s2 = e_used s /\
               nth_error (e_thr s2) i = Some (FDelL e lf rt) /\
               (forall j, j <> i -> nth_error (e_thr s2) j = nth_error (e_thr s) j)).
  { unfold s2. cbn [estep]. rewrite C1. cbn [plain_step]. destruct rt as [r|].
    - assert (Hm : mem r (e_lenoff s1) = true) by (apply mem_In; rewrite A1; apply Hr; reflexivity).
      rewrite Hm. cbn. rewrite A1, B1. repeat split; auto.
      + eapply nth_set_nth_same; eauto.
      + intros j Hj. rewrite nth_set_nth_other by congruence. auto.
    - cbn. rewrite A1, B1. repeat split; auto.
      + eapply nth_set_nth_same; eauto.
      + intros j Hj. rewrite nth_set_nth_other by congruence. auto. }
  clearbody s2. destruct F2 as [A2 [B2 [C2 D2]]].
  set (s3 := estep s2 (EStep i)).
  assert (I3 : EInv s3) by (apply EInv_step; exact I2).
  assert (F3 : e_lenoff s3 = del_opt lf (del_opt rt (e_lenoff s)) /\ e_used s3 = e_used s /\
               nth_error (e_thr s3) i = Some (FOffR e lf rt) /\
               (forall j, j <> i -> nth_error (e_thr s3) j = nth_error (e_thr s) j)).
  { unfold s3. cbn [estep]. rewrite C2. cbn [plain_step]. destruct lf as [l|].
    - assert (Hm : mem l (e_lenoff s2) = true) by (apply mem_In; rewrite A2; apply Hl; reflexivity).
      rewrite Hm. cbn. rewrite A2, B2. repeat split; auto.
      + eapply nth_set_nth_same; eauto.
      + intros j Hj. rewrite nth_set_nth_other by congruence. auto.
    - cbn. rewrite A2, B2. repeat split; auto.
      + eapply nth_set_nth_same; eauto.
      + intros j Hj. rewrite nth_set_nth_other by congruence. auto. }
  clearbody s3. destruct F3 as [A3 [B3 [C3 D3]]].
  set (s4 := estep s3 (EStep i)).
  assert (I4 : EInv s4) by (apply EInv_step; exact I3).
  assert (F4 : e_lenoff s4 = e_lenoff s3 /\ e_used s4 = e_used s /\
               nth_error (e_thr s4) i = Some (FOffL e lf rt) /\
               (forall j, j <> i -> nth_error (e_thr s4) j = nth_error (e_thr s) j)).
  { unfold s4. cbn [estep]. rewrite C3. cbn [plain_step]. destruct rt as [r|].
    - destruct (rm_offlen_frame s3 r) as [G1 [G2 [G3 _]]]. cbn. rewrite G1, G2, G3, B3.
      repeat split; auto.
      + eapply nth_set_nth_same; eauto.
      + intros j Hj. rewrite nth_set_nth_other by congruence. auto.
    - cbn. rewrite B3. repeat split; auto.
      + eapply nth_set_nth_same; eauto.
      + intros j Hj. rewrite nth_set_nth_other by congruence. auto. }
  clearbody s4. destruct F4 as [A4 [B4 [C4 D4]]].
  set (s5 := estep s4 (EStep i)).
  assert (I5 : EInv s5) by (apply EInv_step; exact I4).
  assert (F5 : e_lenoff s5 = e_lenoff s4 /\ e_used s5 = e_used s /\
               nth_error (e_thr s5) i = Some (FInsOff e lf rt) /\
               (forall j, j <> i -> nth_error (e_thr s5) j = nth_error (e_thr s) j)).
  { unfold s5. cbn [estep]. rewrite C4. cbn [plain_step]. destruct lf as [l|].
    - destruct (rm_offlen_frame s4 l) as [G1 [G2 [G3 _]]]. cbn. rewrite G1, G2, G3, B4.
      repeat split; auto.
      + eapply nth_set_nth_same; eauto.
      + intros j Hj. rewrite nth_set_nth_other by congruence. auto.
    - cbn. rewrite B4. repeat split; auto.
      + eapply nth_set_nth_same; eauto.
      + intros j Hj. rewrite nth_set_nth_other by congruence. auto. }
  clearbody s5. destruct F5 as [A5 [B5 [C5 D5]]].
  set (s6 := estep s5 (EStep i)).
  assert (I6 : EInv s6) by (apply EInv_step; exact I5).
  assert (F6 : e_lenoff s6 = e_lenoff s5 /\ e_used s6 = e_used s /\
               nth_error (e_thr s6) i = Some (FInsLen e lf rt) /\
               (forall j, j <> i -> nth_error (e_thr s6) j = nth_error (e_thr s) j)).
  { unfold s6. cbn [estep]. rewrite C5. cbn [plain_step].
    destruct (ins_offlen_frame s5 (merged e lf rt)) as [G1 [G2 [G3 _]]].
    cbn. rewrite G1, G2, G3, B5. repeat split; auto.
    - eapply nth_set_nth_same; eauto.
    - intros j Hj. rewrite nth_set_nth_other by congruence. auto. }
  clearbody s6. destruct F6 as [A6 [B6 [C6 D6]]].
  cbn [estep]. rewrite C6. cbn [plain_step].
  assert (Hwf : pcwf (FInsLen e lf rt)) by (apply (ei_wf _ I6); eapply nth_error_In; eauto).
  pose proof Hwf as [He [Hlp [Hrp Ha]]].
  rewrite (ins_lenoff_ok s6 i (FInsLen e lf rt)); auto.
  2:{ cbn [own sumf]. rewrite cover_start; [lia|].
      unfold pos. rewrite snd_merged. unfold pos, opos in *.
      destruct lf, rt; cbn [opt_list app sumf] in *; unfold pos, elen in *; lia. }
  cbn. repeat split; auto.
  - f_equal. congruence.
  - eapply nth_set_nth_same; eauto.
  - intros j Hj. rewrite nth_set_nth_other by congruence. auto.
Qed.


Lemma In_del_opt : forall x o l, In x (del_opt o l) -> In x l.
Proof. intros x [e|] l H; cbn in H; [eapply In_del; eauto|exact H]. Qed.

Lemma del_other : forall x e l, In x l -> x <> e -> In x (del e l).
Proof.
  induction l as [|h t IH]; intros H Hne; [inversion H|]. cbn [del].
  destruct (ext_eqb e h) eqn:E.
  - apply ext_eqb_spec in E. subst. destruct H as [->|H]; [congruence|exact H].
  - destruct H as [->|H]; [left; reflexivity|right; auto].
Qed.

Lemma seq_free_coalesces : forall s ops i e,
  s = run estep einit ops -> all_idle s -> nth_error (e_thr s) i = Some EIdle ->
  In e (e_used s) -> coalesced (e_lenoff s) ->
  let s' := seq_free s i e in
  all_idle s' /\ coalesced (e_lenoff s') /\ e_used s' = del e (e_used s) /\
  (forall b, (exists x, In x (e_lenoff s') /\ in_ext b x) <->
             (exists x, In x (e_lenoff s) /\ in_ext b x) \/ in_ext b e).
Proof.
  intros s ops i e Es Hid Hi He Hco s'.
  assert (HI : EInv s) by (subst s; apply EInv_run).
  destruct (extents_exclusive s ops Es) as [Hdis Hrange].
  pose proof HI as [Hc Ho Hn [Hp1 Hp2] Hw Hl Hf].
  unfold s', seq_free. cbn [estep]. rewrite Hi.
  assert (Hm : mem e (e_used s) = true) by (apply mem_In; exact He). rewrite Hm.
  set (s1 := with_thr (with_used (with_numfree s (e_numfree s + snd e)) (del e (e_used s))) i (FScan e)).
  assert (I1 : EInv s1).
  { replace s1 with (estep s (EFree i e)) by (cbn [estep]; rewrite Hi, Hm; reflexivity).
    apply EInv_step. exact HI. }
  assert (T1 : nth_error (e_thr s1) i = Some (FScan e)) by (cbn; eapply nth_set_nth_same; eauto).
  change (e_offlen s1) with (e_offlen s).
  set (c1 := off_le (fst e + snd e) (e_offlen s)).
  set (c2 := off_next c1 (e_offlen s)).
  (* the (off,len) index has the same entries as (len,off) *)
  assert (Hsame : forall x, In x (e_offlen s) <-> In x (e_lenoff s)).
  { intros x. rewrite !In_sum_eqi. rewrite Ho.
    rewrite (sumf_all_idle (fun pc => sumf (eqi x) (pend pc))) by (auto; reflexivity). lia. }
  (* e is disjoint from free extents *)
  assert (Hpe : 0 < snd e) by (apply Hp2; exact He).
  assert (Hde : forall x, In x (e_lenoff s) -> fst x + snd x <= fst e \/ fst e + snd e <= fst x).
  { intros x Hx. pose proof (Hp1 x Hx) as Hpx. unfold pos in Hpx.
    destruct (In_nth_error _ _ He) as [k Hk]. destruct (In_nth_error _ _ Hx) as [m Hmx].
    assert (Hk' : nth_error (e_used s ++ e_lenoff s) k = Some e).
    { rewrite nth_error_app1; [exact Hk|]. apply nth_error_Some. rewrite Hk. discriminate. }
    assert (Hm' : nth_error (e_used s ++ e_lenoff s) (length (e_used s) + m) = Some x).
    { rewrite nth_error_app2 by lia. replace (length (e_used s) + m - length (e_used s))%nat with m by lia.
      exact Hmx. }
    assert (Hne : k <> (length (e_used s) + m)%nat).
    { assert (k < length (e_used s))%nat by (apply nth_error_Some; rewrite Hk; discriminate). lia. }
    pose proof (Hdis k _ e x Hne Hk' Hm') as Hd.
    destruct (Z_lt_le_dec (fst e) (fst x + snd x)); [|lia].
    destruct (Z_lt_le_dec (fst x) (fst e + snd e)); [|lia].
    exfalso. apply (Hd (Z.max (fst e) (fst x))). unfold in_ext. lia. }
  (* free extents are pairwise disjoint *)
  assert (Hff : forall x y, In x (e_lenoff s) -> In y (e_lenoff s) -> x <> y ->
                fst x + snd x <= fst y \/ fst y + snd y <= fst x).
  { intros x y Hx Hy Hxy. pose proof (Hp1 x Hx) as Hpx. pose proof (Hp1 y Hy) as Hpy. unfold pos in *.
    destruct (In_nth_error _ _ Hx) as [k Hk]. destruct (In_nth_error _ _ Hy) as [m Hmx].
    assert (Hk' : nth_error (e_used s ++ e_lenoff s) (length (e_used s) + k) = Some x).
    { rewrite nth_error_app2 by lia. replace (length (e_used s) + k - length (e_used s))%nat with k by lia.
      exact Hk. }
    assert (Hm' : nth_error (e_used s ++ e_lenoff s) (length (e_used s) + m) = Some y).
    { rewrite nth_error_app2 by lia. replace (length (e_used s) + m - length (e_used s))%nat with m by lia.
      exact Hmx. }
    assert (Hne : (length (e_used s) + k)%nat <> (length (e_used s) + m)%nat)
      by (intros E; assert (k = m) by lia; subst; congruence).
    pose proof (Hdis _ _ x y Hne Hk' Hm') as Hd.
    destruct (Z_lt_le_dec (fst x) (fst y + snd y)); [|lia].
    destruct (Z_lt_le_dec (fst y) (fst x + snd x)); [|lia].
    exfalso. apply (Hd (Z.max (fst x) (fst y))). unfold in_ext. lia. }
  destruct (decide_merge e c1 c2) as [lf rt] eqn:Ed.
  (* the decision is right *)
  assert (Hdec : (forall r, rt = Some r -> In r (e_lenoff s)) /\
                 (forall l, lf = Some l -> In l (e_lenoff s)) /\
                 (rt = None -> forall x, In x (e_lenoff s) -> fst x <> fst e + snd e) /\
                 (lf = None -> forall x, In x (e_lenoff s) -> fst x + snd x <> fst e)).
  { pose proof (off_le_spec (fst e + snd e) (e_offlen s)) as S1. fold c1 in S1.
    destruct e as [o l]. cbn [fst snd] in *. unfold decide_merge in Ed.
    destruct c1 as [[co cl]|] eqn:Ec1.
    - destruct S1 as [Hin [Hle Hmax]]. cbn [fst snd] in *.
      apply Hsame in Hin.
      destruct (Z.eqb_spec co (o + l)) as [E|E]; cbn [negb] in Ed.
      + pose proof (off_le_spec (co - 1) (e_offlen s)) as S2.
        assert (Ec2 : c2 = off_le (co - 1) (e_offlen s)) by reflexivity.
        rewrite <- Ec2 in S2.
        destruct c2 as [[do dl]|].
        * destruct S2 as [Hin2 [Hle2 Hmax2]]. cbn [fst snd] in *. apply Hsame in Hin2.
          destruct (Z.eqb_spec (do + dl) o) as [E2|E2]; injection Ed as <- <-.
          -- repeat split; try congruence; try (intros r [= <-]; assumption).
          -- repeat split; try congruence; try (intros r [= <-]; assumption).
             intros _ x Hx Hxe. destruct (ext_dec x (do, dl)) as [->|Hne]; [cbn in Hxe; lia|].
             pose proof (Hp1 x Hx) as Hpx. pose proof (Hp1 _ Hin2) as Hpd. unfold pos in *. cbn in Hpd.
             assert (fst x <= do) by (apply Hmax2; [apply Hsame; exact Hx|lia]).
             pose proof (Hff x (do, dl) Hx Hin2 Hne). cbn [fst snd] in *.
             pose proof (Hde _ Hin2). cbn [fst snd] in *. lia.
        * injection Ed as <- <-. repeat split; try congruence; try (intros r [= <-]; assumption).
          intros _ x Hx Hxe. pose proof (Hp1 x Hx) as Hpx. unfold pos in *.
          pose proof (S2 x (proj2 (Hsame x) Hx)). lia.
      + destruct (Z.eqb_spec (co + cl) o) as [E2|E2]; injection Ed as <- <-.
        * repeat split; try congruence; try (intros r [= <-]; assumption).
          intros _ x Hx Hxe. pose proof (Hmax x (proj2 (Hsame x) Hx)). lia.
        * repeat split; try congruence.
          -- intros _ x Hx Hxe. pose proof (Hmax x (proj2 (Hsame x) Hx)). lia.
          -- intros _ x Hx Hxe. destruct (ext_dec x (co, cl)) as [->|Hne]; [cbn in Hxe; lia|].
             pose proof (Hp1 x Hx) as Hpx. pose proof (Hp1 _ Hin) as Hpd. unfold pos in *. cbn in Hpd.
             assert (fst x <= co) by (apply Hmax; [apply Hsame; exact Hx|lia]).
             pose proof (Hff x (co, cl) Hx Hin Hne). cbn [fst snd] in *.
             pose proof (Hde _ Hin). cbn [fst snd] in *. lia.
    - injection Ed as <- <-. repeat split; try congruence.
      + intros _ x Hx Hxe. pose proof (S1 x (proj2 (Hsame x) Hx)). lia.
      + intros _ x Hx Hxe. pose proof (S1 x (proj2 (Hsame x) Hx)).
        pose proof (Hp1 x Hx) as Hpx. unfold pos in *. lia. }
  destruct Hdec as [Dr [Dl [Nr Nl]]].
  pose proof (decide_adj _ _ _ _ _ Ed) as Hadj.
  assert (Hlr : forall l, lf = Some l -> In l (del_opt rt (e_lenoff s1))).
  { intros l El. change (e_lenoff s1) with (e_lenoff s). destruct rt as [r|]; [|apply Dl; exact El].
    cbn. apply del_other; [apply Dl; exact El|]. intros ->.
    rewrite El in Hadj. destruct Hadj as [Ha1 Ha2]. destruct r as [ro rl].
    pose proof (Dr _ eq_refl) as Hr. pose proof (Hp1 _ Hr) as Hpr. unfold pos in *. cbn in *. lia. }
  destruct (seq_free_run s1 i e c1 c2 lf rt I1 T1 Ed Dr Hlr) as [R1 [R2 [R3 R4]]].
  set (s2 := run estep s1 _) in *. clearbody s2.
  change (e_lenoff s1) with (e_lenoff s) in *.
  change (e_used s1) with (del e (e_used s)) in R2.
  assert (Hme : fst (merged e lf rt) <= fst e /\
                fst e + snd e <= fst (merged e lf rt) + snd (merged e lf rt)).
  { destruct e as [o l]. destruct Hadj as [Ha1 Ha2]. cbn [fst snd] in *.
    destruct lf as [[lo ll]|]; destruct rt as [[ro rl]|]; cbn [merged fst snd];
      try (pose proof (Hp1 _ (Dl _ eq_refl)) as P1; unfold pos in P1; cbn in P1);
      try (pose proof (Hp1 _ (Dr _ eq_refl)) as P2; unfold pos in P2; cbn in P2); lia. }
  split; [|split; [|split; [exact R2|]]].
  - intros pc Hpc. destruct (In_nth_error _ _ Hpc) as [j Hj].
    destruct (Nat.eq_dec j i) as [->|Hne]; [congruence|].
    rewrite R4 in Hj by exact Hne. cbn in Hj. rewrite nth_set_nth_other in Hj by congruence.
    apply Hid. eapply nth_error_In; eauto.
  - rewrite R1. intros a b [<-|Ha] [<-|Hb].
    + lia.
    + apply In_del_opt in Hb. pose proof Hb as Hb'. apply In_del_opt in Hb.
      destruct rt as [r|].
      * pose proof (Hco r b (Dr _ eq_refl) Hb) as Hrb.
        destruct e as [o l]. destruct r as [ro rl]. destruct Hadj as [Ha1 Ha2].
        destruct lf as [[lo ll]|]; cbn [merged fst snd] in *; lia.
      * pose proof (Nr eq_refl b Hb) as Hrb.
        destruct e as [o l]. destruct Hadj as [Ha1 Ha2].
        destruct lf as [[lo ll]|]; cbn [merged fst snd] in *; lia.
    + apply In_del_opt in Ha. apply In_del_opt in Ha.
      destruct lf as [l0|].
      * pose proof (Hco a l0 Ha (Dl _ eq_refl)) as Hrb.
        destruct e as [o l]. destruct l0 as [lo ll]. destruct Hadj as [Ha1 Ha2].
        destruct rt as [[ro rl]|]; cbn [merged fst snd] in *; lia.
      * pose proof (Nl eq_refl a Ha) as Hrb.
        destruct e as [o l]. destruct Hadj as [Ha1 Ha2].
        destruct rt as [[ro rl]|]; cbn [merged fst snd] in *; lia.
    + apply In_del_opt in Ha, Hb. apply In_del_opt in Ha, Hb. apply Hco; assumption.
  - intros b. rewrite R1.
    assert (Hcm : in_ext b (merged e lf rt) <->
              in_ext b e \/ (exists l, lf = Some l /\ in_ext b l) \/ (exists r, rt = Some r /\ in_ext b r)).
    { destruct e as [o l]. destruct Hadj as [Ha1 Ha2]. unfold in_ext. cbn [fst snd] in *.
      destruct lf as [[lo ll]|]; destruct rt as [[ro rl]|]; cbn [merged fst snd];
        try (pose proof (Hp1 _ (Dl _ eq_refl)) as P1; unfold pos in P1; cbn in P1);
        try (pose proof (Hp1 _ (Dr _ eq_refl)) as P2; unfold pos in P2; cbn in P2);
        (split;
         [intros Hb
         |intros [Hb|[[x [E Hb]]|[x [E Hb]]]]; try discriminate; try injection E as <-; cbn in *; lia]).
      - destruct (Z_lt_le_dec b o); [right; left; eexists; split; [reflexivity|cbn; lia]|].
        destruct (Z_lt_le_dec b (o + l)); [left; lia|].
        right; right; eexists; split; [reflexivity|cbn; lia].
      - destruct (Z_lt_le_dec b o); [right; left; eexists; split; [reflexivity|cbn; lia]|]. left; lia.
      - destruct (Z_lt_le_dec b (o + l)); [left; lia|].
        right; right; eexists; split; [reflexivity|cbn; lia].
      - left; lia. }
    split.
    + intros [x [[<-|Hx] Hb]].
      * apply Hcm in Hb. destruct Hb as [Hb|[[l [El Hb]]|[r [Er Hb]]]]; [auto|left; exists l; auto|left; exists r; auto].
      * left. exists x. split; [|exact Hb]. apply In_del_opt in Hx. apply In_del_opt in Hx. exact Hx.
    + intros [[x [Hx Hb]]|Hb].
      * destruct (match lf with Some l => if ext_dec x l then true else false | None => false end) eqn:E1.
        { destruct lf as [l|]; [|discriminate]. destruct (ext_dec x l) as [->|]; [|discriminate].
          exists (merged e (Some l) rt). split; [left; reflexivity|]. apply Hcm. right. left. eauto. }
        destruct (match rt with Some l => if ext_dec x l then true else false | None => false end) eqn:E2.
        { destruct rt as [r|]; [|discriminate]. destruct (ext_dec x r) as [->|]; [|discriminate].
          exists (merged e lf (Some r)). split; [left; reflexivity|]. apply Hcm. right. right. eauto. }
        exists x. split; [|exact Hb]. right.
        destruct lf as [l|]; [destruct (ext_dec x l); [discriminate|cbn; apply del_other; auto]|cbn];
          (destruct rt as [r|]; [destruct (ext_dec x r); [discriminate|cbn; apply del_other; auto]|cbn; auto]).
      * exists (merged e lf rt). split; [left; reflexivity|]. apply Hcm. auto.
Qed.

(** ** A whole get_extent alone *)
Lemma seq_get_spec : forall s ops i n,
  s = run estep einit ops -> all_idle s -> nth_error (e_thr s) i = Some EIdle -> 0 < n ->
  let s' := seq_get s i n in
  exists o, e_used s' = (o, n) :: e_used s /\ nth_error (e_thr s') i = Some EIdle /\
    ((* reuse: best fit *)
     (exists L, In (o, L) (e_lenoff s) /\ n <= L /\ e_filelen s' = e_filelen s /\
        (forall x, In x (e_lenoff s) -> n <= snd x -> L < snd x \/ (L = snd x /\ o <= fst x)) /\
        e_lenoff s' = (if L - n >? 0 then [(o + n, L - n)] else []) ++ del (o, L) (e_lenoff s))
     \/ (* extension: nothing fits *)
     ((forall x, In x (e_lenoff s) -> snd x < n) /\
      o = e_filelen s /\ e_filelen s' = e_filelen s + n /\ e_lenoff s' = e_lenoff s)).
Proof.
  intros s ops i n Es Hid Hi Hn s'.
  assert (HI : EInv s) by (subst s; apply EInv_run).
  pose proof HI as [Hc Ho Hnf [Hp1 Hp2] Hw Hl Hf].
  unfold s', seq_get. cbn [estep]. rewrite Hi.
  replace (n >? 0) with true by lia.
  destruct (e_numfree s <? n) eqn:E.
  - set (s1 := with_thr s i (GExtend n)).
    assert (T1 : nth_error (e_thr s1) i = Some (GExtend n)) by (cbn; eapply nth_set_nth_same; eauto).
    rewrite T1. cbn [estep]. rewrite ?T1.
    cbn [plain_step]. exists (e_filelen s).
    split; [reflexivity|]. split.
    + cbn [e_thr with_thr]. eapply nth_set_nth_same. exact T1.
    + right. repeat split. intros x Hx.
      rewrite (sumf_all_idle wt) in Hnf by (auto; reflexivity).
      assert (elen x <= sumf elen (e_lenoff s)).
      { apply sumf_ge_elem; [|exact Hx]. intros y Hy. specialize (Hp1 y Hy). unfold pos, elen in *. lia. }
      unfold elen in *. lia.
  - set (s1 := with_thr s i (GFind n)).
    assert (T1 : nth_error (e_thr s1) i = Some (GFind n)) by (cbn; eapply nth_set_nth_same; eauto).
    rewrite T1.
    assert (I1 : EInv s1).
    { replace s1 with (estep s (EGet i n)).
      - apply EInv_step. exact HI.
      - cbn [estep]. rewrite Hi. replace (n >? 0) with true by lia. rewrite E. reflexivity. }
    change (e_lenoff s1) with (e_lenoff s).
    pose proof (best_fit_spec n (e_lenoff s)) as Hbf.
    destruct (best_fit n (e_lenoff s)) as [[o L]|].
    + destruct Hbf as [Hin [HnL Hbest]]. cbn [fst snd] in *.
      unfold run. cbn [fold_left].
      set (s2 := estep s1 (ETake i (o, L))).
      assert (I2 : EInv s2) by (apply EInv_step; exact I1).
      assert (F2 : e_lenoff s2 = del (o, L) (e_lenoff s) /\ e_used s2 = e_used s /\
                   e_filelen s2 = e_filelen s /\
                   nth_error (e_thr s2) i = Some (GGot o L n)).
      { unfold s2. cbn [estep]. rewrite T1.
        assert (Hm : mem (o, L) (e_lenoff s1) = true) by (apply mem_In; exact Hin).
        rewrite Hm. cbn [snd fst]. replace (n <=? L) with true by lia. cbn [andb].
        unfold with_thr. cbn. repeat split. eapply nth_set_nth_same. exact T1. }
      clearbody s2. destruct F2 as [A2 [B2 [L2 C2]]].
      set (s3 := estep s2 (EStep i)).
      assert (I3 : EInv s3) by (apply EInv_step; exact I2).
      assert (F3 : e_lenoff s3 = e_lenoff s2 /\ e_used s3 = e_used s /\
                   e_filelen s3 = e_filelen s /\
                   nth_error (e_thr s3) i = Some (GDel o L n)).
      { unfold s3. cbn [estep]. rewrite C2. cbn [plain_step].
        destruct (ins_offlen_frame s2 (o + n, L - n)) as [G1 [G2 [G3 G4]]].
        destruct (L - n >? 0); cbn; rewrite ?G1, ?G2, ?G3, ?G4; repeat split; auto;
          eapply nth_set_nth_same; eauto. }
      clearbody s3. destruct F3 as [A3 [B3 [L3 C3]]].
      destruct (rm_offlen_frame s3 (o, L)) as [G1 [G2 [G3 G4]]].
      destruct (L - n >? 0) eqn:Er.
      * set (s4 := estep s3 (EStep i)).
        assert (I4 : EInv s4) by (apply EInv_step; exact I3).
        assert (F4 : e_lenoff s4 = e_lenoff s3 /\ e_used s4 = e_used s /\
                   e_filelen s4 = e_filelen s /\
                   nth_error (e_thr s4) i = Some (GPut o L n)).
        { unfold s4. cbn [estep]. rewrite C3. cbn [plain_step]. rewrite Er.
          cbn. rewrite G1, G2, G3, G4. repeat split; auto. eapply nth_set_nth_same; eauto. }
        clearbody s4. destruct F4 as [A4 [B4 [L4 C4]]].
        cbn [estep]. rewrite C4. cbn [plain_step].
        rewrite (ins_lenoff_ok s4 i (GPut o L n)); auto.
        2:{ cbn [own sumf fst]. unfold cover. cbn [fst snd].
            destruct ((o <=? o + n) && (o + n <? o + L)) eqn:Ec; lia. }
        exists o. cbn. rewrite B4. split; [reflexivity|]. split; [eapply nth_set_nth_same; eauto|].
        left. exists L. rewrite Er. cbn [app]. repeat split; auto. congruence.
      * assert (Hrun : e_lenoff (estep s3 (EStep i)) = e_lenoff s3 /\
                       e_used (estep s3 (EStep i)) = (o, n) :: e_used s /\
                       e_filelen (estep s3 (EStep i)) = e_filelen s /\
                       nth_error (e_thr (estep s3 (EStep i))) i = Some EIdle).
        { cbn [estep]. rewrite C3. cbn [plain_step]. rewrite Er.
          cbn. rewrite G1, G2, G3, G4, B3. repeat split; auto. eapply nth_set_nth_same; eauto. }
        set (s4 := estep s3 (EStep i)) in *. clearbody s4. destruct Hrun as [A4 [B4 [L4 C4]]].
        cbn [estep]. rewrite C4. cbn [plain_step].
        exists o. split; [exact B4|]. split; [exact C4|].
        left. exists L. rewrite Er. cbn [app]. repeat split; auto. congruence.
    + unfold run. cbn [fold_left].
      set (s2 := estep s1 (EMiss i)).
      assert (T2 : e_filelen s2 = e_filelen s /\ e_used s2 = e_used s /\ e_lenoff s2 = e_lenoff s /\
                   nth_error (e_thr s2) i = Some (GExtend n)).
      { unfold s2. cbn [estep]. rewrite T1. cbn. repeat split. eapply nth_set_nth_same. exact T1. }
      clearbody s2. destruct T2 as [X1 [X2 [X3 T2]]].
      cbn [estep]. rewrite T2. cbn [plain_step]. exists (e_filelen s).
      cbn. rewrite X1, X2, X3. split; [reflexivity|]. split.
      * eapply nth_set_nth_same. exact T2.
      * right. repeat split. exact Hbf.
Qed.

(** ** Splitting for the map file *)
Lemma split_extent_spec : forall fuel o l, 0 < l -> l <= 65535 * Z.of_nat fuel ->
  (forall e, In e (split_extent fuel o l) -> 0 < snd e <= 65535) /\
  (forall b, sumf (cover b) (split_extent fuel o l) = cover b (o, l)).
Proof.
  induction fuel as [|f IH]; intros o l Hl Hf; [lia|]. cbn [split_extent].
  destruct (l >? 65535) eqn:E.
  - destruct (IH (o + 65535) (l - 65535)) as [I1 I2]; [lia|lia|]. split.
    + intros e [<-|He]; [cbn; lia|auto].
    + intros b. cbn [sumf]. rewrite I2. rewrite (cover_split b o l 65535) by lia. reflexivity.
  - split.
    + intros e [<-|[]]. cbn. lia.
    + intros b. cbn [sumf]. lia.
Qed.

Lemma split_extent_exact : forall fuel o l, 0 < l -> l <= 65535 * Z.of_nat fuel ->
  (forall e, In e (split_extent fuel o l) -> 0 < snd e <= 65535) /\
  (forall i j a b, i <> j -> nth_error (split_extent fuel o l) i = Some a ->
     nth_error (split_extent fuel o l) j = Some b -> disjoint a b) /\
  (forall b, (exists e, In e (split_extent fuel o l) /\ in_ext b e) <-> o <= b < o + l).
Proof.
  intros fuel o l Hl Hf. destruct (split_extent_spec fuel o l Hl Hf) as [H1 H2].
  split; [exact H1|]. split.
  - intros i j a b Hij Hi Hj x [Ha Hb]. apply in_ext_cover in Ha. apply in_ext_cover in Hb.
    pose proof (sum_two _ (cover x) _ i j a b ltac:(intros; apply cover_01) Hij Hi Hj) as Hs.
    rewrite H2 in Hs. pose proof (cover_01 x (o, l)). lia.
  - intros b. split.
    + intros [e [He Hb]]. apply in_ext_cover in Hb.
      assert (cover b e <= sumf (cover b) (split_extent fuel o l))
        by (apply sumf_ge_elem; [intros; apply cover_01|exact He]).
      rewrite H2 in H. pose proof (cover_01 b (o, l)).
      assert (Hc : cover b (o, l) = 1) by lia. apply in_ext_cover in Hc. exact Hc.
    + intros Hb. destruct (cover_find b (split_extent fuel o l)) as [i [e [Hi He]]].
      * rewrite H2. assert (cover b (o, l) = 1) by (apply in_ext_cover; exact Hb). lia.
      * exists e. split; [eapply nth_error_In; eauto|exact He].
Qed.

(** ** Backend-local list *)
Lemma set_nth_same_sum : forall A (f : A -> Z) l i x, nth_error l i = Some x -> forall y,
  sumf f (set_nth l i y) = sumf f l - f x + f y.
Proof. intros. apply sumf_set_nth. assumption. Qed.

Lemma firstn_sum_last : forall A (f : A -> Z) l x,
  sumf f (firstn (length (l ++ [x]) - 1) (l ++ [x])) = sumf f l.
Proof.
  intros. rewrite app_length. cbn [length]. replace (length l + 1 - 1)%nat with (length l) by lia.
  rewrite firstn_app. replace (length l - length l)%nat with O by lia. cbn [firstn].
  rewrite app_nil_r, firstn_all. reflexivity.
Qed.

Lemma set_nth_app1 : forall A (l r : list A) i y, (i < length l)%nat ->
  set_nth (l ++ r) i y = set_nth l i y ++ r.
Proof.
  induction l as [|h t IH]; intros r [|i] y H; cbn in *; try lia; [reflexivity|].
  f_equal. apply IH. lia.
Qed.

Lemma set_nth_app2 : forall A (l : list A) x y, set_nth (l ++ [x]) (length l) y = l ++ [y].
Proof. induction l as [|h t IH]; intros x y; cbn; [reflexivity|]. f_equal. apply IH. Qed.

Lemma set_nth_length : forall A (l : list A) i y, length (set_nth l i y) = length l.
Proof. induction l as [|h t IH]; intros [|i] y; cbn; auto. Qed.

Lemma swap_remove_sum : forall (f : ext -> Z) l i x, nth_error l i = Some x ->
  sumf f (swap_remove l i) = sumf f l - f x.
Proof.
  intros f l i x Hi. unfold swap_remove.
  destruct (rev l) as [|lst r] eqn:Er.
  - apply (f_equal (@rev ext)) in Er. rewrite rev_involutive in Er. subst. destruct i; discriminate.
  - assert (El : l = rev r ++ [lst]).
    { apply (f_equal (@rev ext)) in Er. rewrite rev_involutive in Er. exact Er. }
    set (q := rev r) in *. clearbody q. subst l. clear Er r.
    assert (Hlt : (i < length (q ++ [lst]))%nat) by (apply nth_error_Some; rewrite Hi; discriminate).
    rewrite app_length in Hlt. cbn [length] in Hlt.
    destruct (Nat.eq_dec i (length q)) as [->|Hne].
    + rewrite nth_error_app2 in Hi by lia. replace (length q - length q)%nat with O in Hi by lia.
      cbn in Hi. injection Hi as <-. rewrite set_nth_app2, firstn_sum_last.
      rewrite sumf_app. cbn [sumf]. lia.
    + rewrite nth_error_app1 in Hi by lia. rewrite set_nth_app1 by lia.
      replace (length (q ++ [lst])) with (length (set_nth q i lst ++ [lst]))
        by (rewrite !app_length, set_nth_length; reflexivity).
      rewrite firstn_sum_last, (sumf_set_nth _ f q i x lst Hi), sumf_app. cbn [sumf]. lia.
Qed.

Lemma swap_remove_In : forall l i x y, nth_error l i = Some x -> In y (swap_remove l i) -> In y l.
Proof.
  intros l i x y Hi Hy. rewrite In_sum_eqi in *.
  rewrite (swap_remove_sum _ _ _ _ Hi) in Hy. pose proof (eqi_01 y x). lia.
Qed.

Lemma local_pop_from_spec : forall n fuel l i e l', 0 < n -> (forall x, In x l -> pos x) ->
  local_pop_from l i fuel n = Some (e, l') ->
  snd e = n /\ (forall b, sumf (cover b) l = cover b e + sumf (cover b) l') /\
  (forall x, In x l' -> pos x).
Proof.
  induction fuel as [|f IH]; intros l i e l' Hn Hp H; cbn in H; [discriminate|].
  destruct (nth_error l i) as [[o k]|] eqn:Hi; [|discriminate].
  assert (Hin : In (o, k) l) by (eapply nth_error_In; eauto).
  pose proof (Hp _ Hin) as Hpk. unfold pos in Hpk. cbn in Hpk.
  destruct (k <? n) eqn:E.
  - eapply IH; eauto.
  - injection H as <- <-. split; [reflexivity|]. destruct (k =? n) eqn:E2.
    + split.
      * intros b. rewrite (swap_remove_sum _ _ _ _ Hi). replace n with k by lia. lia.
      * intros x Hx. apply Hp. eapply swap_remove_In; eauto.
    + split.
      * intros b. rewrite (sumf_set_nth ext (cover b) l i (o, k) (o + n, k - n) Hi).
        rewrite (cover_split b o k n) by lia. unfold ext in *; lia.
      * intros x Hx. apply In_set_nth in Hx. destruct Hx as [->|Hx]; [unfold pos; cbn; lia|auto].
Qed.

Lemma local_pop_none : forall n fuel l i, (length l <= i + fuel)%nat ->
  local_pop_from l i fuel n = None -> forall j x, (i <= j)%nat -> nth_error l j = Some x -> snd x < n.
Proof.
  induction fuel as [|f IH]; intros l i Hlen H j x Hj Hx.
  - assert (j < length l)%nat by (apply nth_error_Some; rewrite Hx; discriminate). lia.
  - cbn in H. destruct (nth_error l i) as [[o k]|] eqn:Hi.
    + destruct (k <? n) eqn:E; [|discriminate].
      destruct (Nat.eq_dec i j) as [->|Hne].
      * rewrite Hi in Hx. injection Hx as <-. cbn. lia.
      * apply (IH l (S i)) with (j := j); auto; lia.
    + apply nth_error_None in Hi.
      assert (j < length l)%nat by (apply nth_error_Some; rewrite Hx; discriminate). lia.
Qed.

Lemma pw_sum : forall l, pairwise_disjoint l -> forall b, sumf (cover b) l <= 1.
Proof.
  induction l as [|h t IH]; intros H b; cbn [sumf]; [lia|].
  assert (Ht : pairwise_disjoint t).
  { intros i j x y Hij Hi Hj. apply (H (S i) (S j)); auto. }
  specialize (IH Ht b). pose proof (cover_01 b h).
  destruct (Z_le_gt_dec (cover b h) 0); [lia|].
  destruct (Z_le_gt_dec (sumf (cover b) t) 0); [lia|].
  exfalso. destruct (cover_find b t) as [i [e [Hi He]]]; [lia|].
  apply (H O (S i) h e ltac:(discriminate) eq_refl Hi b).
  split; [apply in_ext_cover; lia|exact He].
Qed.

Lemma sum_pw : forall l, (forall b, sumf (cover b) l <= 1) -> pairwise_disjoint l.
Proof.
  intros l H i j a b Hij Hi Hj x [Ha Hb]. apply in_ext_cover in Ha. apply in_ext_cover in Hb.
  pose proof (sum_two _ (cover x) _ i j a b ltac:(intros; apply cover_01) Hij Hi Hj) as Hs.
  specialize (H x). lia.
Qed.

Lemma sum_in : forall l b, (exists x, In x l /\ in_ext b x) <-> 1 <= sumf (cover b) l.
Proof.
  intros l b. split.
  - intros [x [Hx Hb]]. apply in_ext_cover in Hb. rewrite <- Hb.
    apply sumf_ge_elem; [intros; apply cover_01|exact Hx].
  - intros H. destruct (cover_find b l H) as [i [e [Hi He]]]. exists e.
    split; [eapply nth_error_In; eauto|exact He].
Qed.

Lemma local_pop_exact : forall (l : list ext) n, 0 < n -> (forall x, In x l -> 0 < snd x) -> pairwise_disjoint l ->
  match local_pop l n with
  | Some (e, l') => snd e = n /\ pairwise_disjoint (e :: l') /\ (forall x, In x l' -> 0 < snd x) /\
      (forall b, (exists x, In x l /\ in_ext b x) <-> (exists x, In x (e :: l') /\ in_ext b x))
  | None => forall x, In x l -> snd x < n
  end.
Proof.
  intros l n Hn Hp Hd. unfold local_pop.
  destruct (local_pop_from l 0 (length l) n) as [[e l']|] eqn:E.
  - destruct (local_pop_from_spec _ _ _ _ _ _ Hn Hp E) as [H1 [H2 H3]].
    split; [exact H1|]. split; [|split; [exact H3|]].
    + apply sum_pw. intros b. cbn [sumf]. pose proof (pw_sum l Hd b). specialize (H2 b). unfold ext in *. lia.
    + intros b. rewrite !sum_in. cbn [sumf]. rewrite (H2 b). reflexivity.
  - intros x Hx. destruct (In_nth_error _ _ Hx) as [j Hj].
    eapply (local_pop_none n (length l) l 0) with (j := j); eauto; lia.
Qed.

Lemma local_push_exact : forall l e, (forall x, In x l -> disjoint x e) -> pairwise_disjoint l ->
  pairwise_disjoint (local_push l e) /\
  (forall b, (exists x, In x (local_push l e) /\ in_ext b x) <->
             (exists x, In x l /\ in_ext b x) \/ in_ext b e).
Proof.
  intros l e He Hd. split.
  - apply sum_pw. intros b. unfold local_push. rewrite sumf_app. cbn [sumf].
    pose proof (pw_sum l Hd b). pose proof (cover_01 b e).
    destruct (Z_le_gt_dec (cover b e) 0); [lia|].
    destruct (Z_le_gt_dec (sumf (cover b) l) 0); [lia|].
    exfalso. destruct (proj2 (sum_in l b)) as [x [Hx Hb]]; [lia|].
    apply (He x Hx b). split; [exact Hb|apply in_ext_cover; lia].
  - intros b. unfold local_push. split.
    + intros [x [Hx Hb]]. apply in_app_or in Hx. destruct Hx as [Hx|[<-|[]]]; eauto.
    + intros [[x [Hx Hb]]|Hb]; [exists x|exists e]; (split; [apply in_or_app|assumption]); cbn; auto.
Qed.

Lemma pos_nil_coalesced : coalesced [].
Proof. intros a b []. Qed.
