(** Row locks: every lock a transaction was granted and still holds is backed
    by an entry of the chain, and entries of different transactions in progress
    do not conflict as long as no lock is hidden from the conflict walk. *)
From Coq Require Import ZArith List Bool Lia.
From Coq Require Import ZifyBool.
From Verif Require Import Base RowModel RowSpec RowLemmas RowInv.
Import ListNotations.
Open Scope Z_scope.

(** Savepoint locations in a list of held locks and in an undo stack. *)
Fixpoint marks (l : list hitem) : list Z :=
  match l with [] => [] | HM k :: r => k :: marks r | HG _ :: r => marks r end.
Fixpoint smarks (l : list item) : list Z :=
  match l with [] => [] | i :: r => match ia i with AS => il i :: smarks r | _ => smarks r end end.

Lemma marks_app : forall a b, marks (a ++ b) = marks a ++ marks b.
Proof. induction a as [|[m|k] a IH]; intros; cbn; [reflexivity|apply IH|f_equal; apply IH]. Qed.

Definition covby (s : st) (x : Z) (a : list hitem) (m : Z) (e : ent) : Prop :=
  ex e = x /\ 0 <= m <= em e /\ Forall (fun l => ep e < l) (marks a) /\
  (troll (tx s x) = 1 -> ep e < sploc (tstack (tx s x))).

Record Cov (s : st) : Prop := {
  k_cov : forall x a m b, hold (sp s) x = a ++ HG m :: b -> exists e, In e (ch s) /\ covby s x a m e;
  k_marks : forall x, tst (tx s x) = InProg ->
              marks (hold (sp s) x) = smarks (keepk (troll (tx s x)) (tstack (tx s x)))
}.

Lemma Cov_st0 : Cov st0.
Proof. split; cbn; intros; [destruct a; discriminate | discriminate]. Qed.

Lemma hold_live : forall s x a m b, Inv s -> hold (sp s) x = a ++ HG m :: b ->
  tst (tx s x) = InProg /\ troll (tx s x) <> 2.
Proof.
  intros s x a m b H Q. assert (K := i_hold _ H x).
  split.
  - destruct (tst (tx s x)) eqn:T; [| reflexivity | |]; exfalso;
      (rewrite K in Q by (left; congruence); destruct a; discriminate).
  - intros R. rewrite K in Q by auto. destruct a; discriminate.
Qed.

Lemma Cov_keep : forall s l, Inv s -> Cov s ->
  (forall e, In e (ch s) -> tst (tx s (ex e)) = InProg -> exists e', In e' l /\ eqc e e') ->
  Cov (set_ch s l).
Proof.
  intros s l H C K. split.
  - intros x a m b Q. change (sp (set_ch s l)) with (sp s) in Q.
    destruct (hold_live _ _ _ _ _ H Q) as [T _].
    destruct (k_cov _ C _ _ _ _ Q) as (e & I & E & M & L & R).
    destruct (K e I) as (e' & I' & EQ); [congruence|]. exists e'. split; [exact I'|].
    eqcf EQ. unfold covby. cbn. rewrite <- Hx, <- Hm, <- Hp. auto.
  - exact (k_marks _ C).
Qed.

(** Only fields irrelevant for locks change. *)
Lemma Cov_set_tx : forall s x t, Cov s ->
  tst t = tst (tx s x) -> tstack t = tstack (tx s x) -> troll t = troll (tx s x) ->
  Cov (set_tx s x t).
Proof.
  intros s x t C E1 E2 E3.
  assert (S : forall z, tst (upd (tx s) x t z) = tst (tx s z)).
  { intros z. unfold upd. destruct (z =? x) eqn:Q; [|reflexivity]. assert (z = x) by lia. congruence. }
  assert (K : forall z, tstack (upd (tx s) x t z) = tstack (tx s z)).
  { intros z. unfold upd. destruct (z =? x) eqn:Q; [|reflexivity]. assert (z = x) by lia. congruence. }
  assert (O : forall z, troll (upd (tx s) x t z) = troll (tx s z)).
  { intros z. unfold upd. destruct (z =? x) eqn:Q; [|reflexivity]. assert (z = x) by lia. congruence. }
  split; intros.
  - destruct (k_cov _ C _ _ _ _ H) as (e & I & Q). exists e. split; [exact I|].
    unfold covby in *. cbn. rewrite K, O. exact Q.
  - cbn in *. rewrite K, O, S in *. apply (k_marks _ C). exact H.
Qed.

(** A granted lock, with or without a new entry on top, for a transaction that
    is not rolling back. *)
Lemma Cov_grant : forall s x n ev pre (i : list item) s',
  (forall z, hold (sp s') z = if z =? x then HG n :: hold (sp s) x else hold (sp s) z) ->
  ch s' = pre ++ ch s -> (forall z, z <> x -> tx s' z = tx s z) ->
  tst (tx s' x) = tst (tx s x) -> troll (tx s x) = 0 -> troll (tx s' x) = 0 ->
  tstack (tx s' x) = i ++ tstack (tx s x) -> smarks i = [] ->
  In ev (pre ++ ch s) -> ex ev = x -> 0 <= n <= em ev ->
  (forall z a m b, hold (sp s) z = a ++ HG m :: b ->
     (exists e, In e (ch s) /\ covby s z a m e) \/
     (z = x /\ 0 <= m <= em ev /\ marks a = [])) ->
  (forall z, tst (tx s z) = InProg ->
              marks (hold (sp s) z) = smarks (keepk (troll (tx s z)) (tstack (tx s z)))) ->
  Cov s'.
Proof.
  intros s x n ev pre i s' HH HC HX HS HR HR' HK HM IN EX N CV MK. split.
  - intros z a m b Q. rewrite HH in Q. rewrite HC. destruct (z =? x) eqn:ZX.
    + assert (z = x) by lia. subst z. destruct a as [|h a]; cbn in Q.
      * injection Q as -> _. exists ev. split; [exact IN|].
        unfold covby. repeat split; try lia; cbn; auto.
      * injection Q as <- Q. destruct (CV _ _ _ _ Q) as [(e & I & E & M & L & R)|(_ & M & L)].
        -- exists e. split; [apply in_app_iff; auto|]. unfold covby. cbn. repeat split; auto; lia.
        -- exists ev. split; [exact IN|]. unfold covby. cbn. rewrite L. repeat split; auto; lia.
    + destruct (CV _ _ _ _ Q) as [(e & I & E & M & L & R)|(E & _)]; [|lia].
      exists e. split; [apply in_app_iff; auto|]. unfold covby. rewrite HX by lia. auto.
  - intros z T. rewrite HH. destruct (z =? x) eqn:ZX.
    + assert (z = x) by lia. subst z. cbn. rewrite HS in T. rewrite (MK x T), HR, HR', HK.
      unfold keepk. cbn. clear - HM. induction i as [|j i IH]; [reflexivity|].
      cbn in *. destruct (ia j); try discriminate; auto.
    + rewrite HX in * by lia. apply MK. exact T.
Qed.

Lemma sploc_smarks : forall l, sploc l = match smarks l with [] => -1 | k :: _ => k end.
Proof. induction l as [|i l IH]; cbn; [reflexivity|]. destruct (ia i); auto. Qed.

Lemma smarks_nonneg : forall l n, sdesc n l -> Forall (fun k => 0 <= k < n) (smarks l).
Proof.
  induction l as [|i l IH]; intros n D; cbn in *; [constructor|]. destruct D as [D1 D2].
  specialize (IH _ D2).
  assert (Forall (fun k => 0 <= k < n) (smarks l)) by (eapply Forall_impl; [|exact IH]; cbn; intros; lia).
  destruct (ia i); auto.
Qed.

(** Locks of a running transaction that remove_redundant_row_locks may drop
    were taken after the newest savepoint. *)
Lemma cover_after_sp : forall s x a m b e mm, Inv s -> Cov s -> tst (tx s x) = InProg ->
  troll (tx s x) = 0 -> hold (sp s) x = a ++ HG m :: b -> covby s x a m e -> In e (ch s) ->
  Qdel mm x (sploc (tstack (tx s x))) e -> m <= mm /\ marks a = [].
Proof.
  intros s x a m b e mm H C T R Q (E & M & L & _) I D.
  unfold Qdel, qdel in D. split; [lia|].
  assert (MK := k_marks _ C x T). rewrite R in MK. unfold keepk in MK. cbn in MK.
  rewrite Q, marks_app in MK. cbn in MK.
  destruct (marks a) as [|k r]; [reflexivity|]. exfalso.
  rewrite sploc_smarks in D. rewrite <- MK in D. cbn in D. inversion L as [|? ? L1 L2].
  assert (N := smarks_nonneg _ _ (i_desc _ H x)). rewrite <- MK in N. cbn in N. inversion N as [|? ? N1 N2].
  destruct (wfc_eu _ e (i_wf _ H) I) as [[U1 U2]|(U1 & U2 & U3 & _)]; [lia|].
  rewrite U3 in D. discriminate.
Qed.

Lemma keep_Pdel : forall s x l e, shr (Pdel (tx s) x) (ch s) l -> In e (ch s) ->
  tst (tx s (ex e)) = InProg -> exists e', In e' l /\ eqc e e'.
Proof.
  intros s x l e K I T. eapply shr_keeps; eauto. unfold Pdel, rdel, inpr. rewrite T.
  destruct (elk e); destruct (ex e =? x); discriminate.
Qed.

Lemma Cov_modify : forall s x k m v go, Inv s -> Cov s -> running (tx s x) = true ->
  tret (tx s x) < INF -> 0 <= m <= 3 -> Cov (modify s x k m v go).
Proof.
  intros s x k m v go H C RU R M. destruct (running_ip _ RU) as [T R0]. unfold modify.
  set (mm := match k with KI | KD => 3 | KU => if m =? 3 then 3 else 2 | KL => m end).
  assert (MM : 0 <= mm <= 3) by (subst mm; destruct k; try lia; destruct (m =? 3); lia).
  destruct (ch s) as [|e0 l0] eqn:CH.
  - destruct k; auto. destruct go; auto. unfold put_version.
    set (e := E _ _ _ _ _ _ _ _ _). set (it := It _ _ _ _).
    eapply Cov_grant with (s := s) (x := x) (n := mm) (ev := e) (pre := [e]) (i := [it]);
      try reflexivity; auto.
    + intros z N. cbn. apply upd_other. exact N.
    + cbn. rewrite upd_same. reflexivity.
    + cbn. rewrite upd_same. exact R0.
    + cbn. rewrite upd_same. reflexivity.
    + left. reflexivity.
    + intros z a n b Q. left. destruct (k_cov _ C _ _ _ _ Q) as (f & F & _). rewrite CH in F. contradiction.
    + apply (k_marks _ C).
  - rewrite <- CH. set (r := rlc _ _ _ _ _ _ _).
    assert (W := i_wf _ H).
    assert (SH : shr (Pdel (tx s) x) (ch s) (rchain r)) by (apply rlc_shr, W).
    assert (I1 : Inv (set_ch s (rchain r))) by (eapply Inv_shr; eauto).
    assert (C1 : Cov (set_ch s (rchain r))) by (apply Cov_keep; auto; intros; eapply keep_Pdel; eauto).
    destruct (rres r && negb (rconf r =? x)) eqn:NW; [exact C1|].
    destruct go; cbn [negb]; [|exact C1].
    destruct (rchain r) as [|p pr] eqn:RC; [exact C1|]. rewrite <- RC in *.
    assert (PUTV : forall s2 a w, tx s2 = tx s -> sp s2 = sp s ->
       (forall z b m' c, hold (sp s) z = b ++ HG m' :: c ->
          (exists e, In e (ch s2) /\ covby s z b m' e) \/ (z = x /\ 0 <= m' <= mm /\ marks b = [])) ->
       (match a with AS => False | _ => True end) -> Cov (put_version s2 x a mm w)).
    { intros s2 a w TE SE CV NA. unfold put_version.
      set (e := E _ _ _ _ _ _ _ _ _). set (it := It _ _ _ _).
      eapply Cov_grant with (s := s2) (x := x) (n := mm) (ev := e) (pre := [e]) (i := [it]);
        try reflexivity; auto; rewrite ?TE, ?SE; auto.
      - intros z N. cbn. rewrite upd_other by exact N. rewrite TE. reflexivity.
      - cbn. rewrite upd_same. cbn. rewrite TE. reflexivity.
      - cbn. rewrite upd_same. cbn. rewrite TE. exact R0.
      - cbn. rewrite upd_same. cbn. rewrite TE. reflexivity.
      - cbn. destruct a; try contradiction; reflexivity.
      - left. reflexivity.
      - cbn. lia.
      - intros z b m' c Q. destruct (CV _ _ _ _ Q) as [(f & F1 & F2)|F]; [left|right; exact F].
        exists f. split; [exact F1|]. unfold covby in *. rewrite TE. exact F2.
      - apply (k_marks _ C). }
    assert (PUTL : forall s2, tx s2 = tx s -> sp s2 = sp s ->
       (forall z b m' c, hold (sp s) z = b ++ HG m' :: c ->
          (exists e, In e (ch s2) /\ covby s z b m' e) \/ (z = x /\ 0 <= m' <= mm /\ marks b = [])) ->
       Cov (put_lock s2 x mm)).
    { intros s2 TE SE CV. unfold put_lock.
      set (e := E _ _ _ _ _ _ _ _ _). set (it := It _ _ _ _).
      eapply Cov_grant with (s := s2) (x := x) (n := mm) (ev := e) (pre := [e]) (i := [it]);
        try reflexivity; auto; rewrite ?TE, ?SE; auto.
      - intros z N. cbn. rewrite upd_other by exact N. rewrite TE. reflexivity.
      - cbn. rewrite upd_same. cbn. rewrite TE. reflexivity.
      - cbn. rewrite upd_same. cbn. rewrite TE. exact R0.
      - cbn. rewrite upd_same. cbn. rewrite TE. reflexivity.
      - left. reflexivity.
      - cbn. lia.
      - intros z b m' c Q. destruct (CV _ _ _ _ Q) as [(f & F1 & F2)|F]; [left|right; exact F].
        exists f. split; [exact F1|]. unfold covby in *. rewrite TE. exact F2.
      - apply (k_marks _ C). }
    assert (CV1 : forall z b m' c, hold (sp s) z = b ++ HG m' :: c ->
          (exists e, In e (rchain r) /\ covby s z b m' e) \/ (z = x /\ 0 <= m' <= mm /\ marks b = [])).
    { intros z b m' c Q. left. exact (k_cov _ C1 _ _ _ _ Q). }
    assert (CV2 : forall z b m' c, hold (sp s) z = b ++ HG m' :: c ->
          (exists e, In e (remred (tx s) mm x (tret (tx s x)) (sploc (tstack (tx s x))) (rchain r)) /\
                     covby s z b m' e) \/ (z = x /\ 0 <= m' <= mm /\ marks b = [])).
    { intros z b m' c Q. destruct (k_cov _ C1 _ _ _ _ Q) as (e & E1 & E2).
      assert (SQ : shr (Qdel mm x (sploc (tstack (tx s x)))) (rchain r)
                    (remred (tx s) mm x (tret (tx s x)) (sploc (tstack (tx s x))) (rchain r)))
            by (apply remred_shr; exact (i_wf _ I1)).
      destruct (qdel mm x (sploc (tstack (tx s x))) e) eqn:QD.
      - assert (ZX : z = x) by (destruct E2 as (E2 & _); unfold qdel in QD; lia). subst z. right.
        destruct (cover_after_sp _ _ _ _ _ _ mm I1 C1 T R0 Q E2 E1 QD). 
        destruct E2 as (_ & E2 & _). repeat split; auto; lia.
      - left. destruct (shr_keeps _ _ _ _ SQ E1) as (e' & F1 & F2); [unfold Qdel; congruence|].
        exists e'. split; [exact F1|]. eqcf F2. unfold covby in *. cbn in E2.
        rewrite <- Hx, <- Hm, <- Hp. exact E2. }
    destruct (ed p) eqn:DP.
    + destruct k; try exact C1. apply (PUTV (set_ch s (rchain r)) AU); auto.
    + destruct k; try exact C1.
      3:{ destruct (rstat r =? 2) eqn:KP.
          - rewrite andb_false_r.
            destruct (rlc_stat (tx s) mm x (tcsn (tx s x)) (tret (tx s x)) (sploc (tstack (tx s x))) (ch s) W)
              as (_ & _ & ST). fold r in ST. destruct ST as (f & F1 & F2 & F3); [lia|].
            eapply Cov_grant with (s := set_ch s (rchain r)) (x := x) (n := mm) (ev := f) (pre := []) (i := []);
              try reflexivity; auto.
            + lia.
            + intros z b m' c Q. left. exact (k_cov _ C1 _ _ _ _ Q).
            + apply (k_marks _ C1).
          - destruct (rred r && negb false); apply PUTL; auto. }
      * destruct (rred r && negb false); apply PUTV; auto.
      * destruct (rred r && negb false); apply PUTV; auto.
Qed.

Lemma hold_to_save_split : forall h, hold_to_save h = [] \/
  exists a l, h = a ++ HM l :: hold_to_save h /\ marks a = [].
Proof.
  induction h as [|[m|l] h IH]; cbn.
  - auto.
  - destruct IH as [IH|(a & l & A & B)]; [auto|]. right. exists (HG m :: a), l. cbn. split; [congruence|exact B].
  - right. exists [], l. auto.
Qed.

Lemma marks_to_save : forall h, marks (hold_to_save h) = tl (marks h).
Proof. induction h as [|[m|l] h IH]; cbn; auto. Qed.
Lemma smarks_after : forall l, smarks (after_mark l) = tl (smarks l).
Proof. induction l as [|i l IH]; cbn; [reflexivity|]. destruct (ia i); cbn; auto. Qed.

Lemma sploc_le : forall l n, sdesc n l -> 0 <= n -> sploc l < n.
Proof.
  intros l n D N. rewrite sploc_smarks. assert (K := smarks_nonneg _ _ D).
  destruct (smarks l); [lia|]. inv K. lia.
Qed.
Lemma sploc_top : forall i l n, sdesc n (i :: l) -> sploc (i :: l) <= il i.
Proof.
  intros i l n [D1 D2]. assert (K := sploc_le l (il i) D2 ltac:(lia)). cbn. destruct (ia i); lia.
Qed.

Lemma Cov_other_tx : forall s x t ev l, Inv s -> Cov s ->
  (forall z, z <> x -> hold (fold_right spec_step (sp s) ev) z = hold (sp s) z) ->
  (forall a m b, hold (fold_right spec_step (sp s) ev) x = a ++ HG m :: b ->
     exists e, In e l /\ covby (set_tx s x t) x a m e) ->
  (tst t = InProg -> marks (hold (fold_right spec_step (sp s) ev) x) = smarks (keepk (troll t) (tstack t))) ->
  (forall e, In e (ch s) -> tst (tx s (ex e)) = InProg -> ex e <> x -> exists e', In e' l /\ eqc e e') ->
  forall nl nc ys, Cov (St l nl nc (upd (tx s) x t) ys (ev ++ evs s)).
Proof.
  intros s x t ev l H C A B M K nl nc ys.
  assert (SPe : sp (St l nl nc (upd (tx s) x t) ys (ev ++ evs s)) = fold_right spec_step (sp s) ev).
  { unfold sp, spec_of. cbn. apply fold_right_app. }
  split; intros z; rewrite SPe; cbn.
  - intros a m b Q. destruct (Z.eq_dec z x) as [->|N].
    + exact (B a m b Q).
    + rewrite A in Q by assumption. destruct (hold_live _ _ _ _ _ H Q) as [T _].
      destruct (k_cov _ C _ _ _ _ Q) as (e & I & E & G). destruct (K e I) as (e' & I' & EQ); try congruence.
      exists e'. split; [exact I'|]. eqcf EQ. unfold covby in *. cbn. rewrite upd_other by assumption.
      rewrite <- Hx, <- Hm, <- Hp. auto.
  - destruct (Z.eq_dec z x) as [->|N].
    + rewrite upd_same. exact M.
    + rewrite upd_other, A by assumption. apply (k_marks _ C).
Qed.

Lemma keep_refl : forall (s : st) (x : Z) (e : ent), In e (ch s) -> tst (tx s (ex e)) = InProg -> ex e <> x ->
  exists e', In e' (ch s) /\ eqc e e'.
Proof. intros. exists e. split; [assumption | apply eqc_refl]. Qed.

Lemma Cov_undo1 : forall s x, Inv s -> Cov s -> tst (tx s x) = InProg -> troll (tx s x) <> 0 ->
  Cov (undo1 s x).
Proof.
  intros s x H C T R. unfold undo1. destruct (tstack (tx s x)) as [|i r] eqn:ST.
  - destruct (i_roll _ H x T) as [K|[[K1 K2]|K]]; [congruence| |].
    { rewrite ST in K2. cbn in K2. lia. }
    rewrite K. cbn [Z.eqb Pos.eqb].
    apply (Cov_other_tx s x _ []); eauto using keep_refl.
    + cbn. rewrite (i_hold _ H x) by auto. intros a m b Q. destruct a; discriminate.
    + cbn. discriminate.
  - assert (DS := i_desc _ H x). rewrite ST in DS. assert (TOP := sploc_top _ _ _ DS).
    assert (CX : forall a m b e, hold (sp s) x = a ++ HG m :: b -> In e (ch s) -> covby s x a m e ->
                 ep e < sploc (i :: r) /\ ep e < il i).
    { intros a m b e Q I (E & _ & _ & G). destruct (hold_live _ _ _ _ _ H Q) as [_ N2].
      destruct (i_roll _ H x T) as [K|[[K1 K2]|K]]; try congruence.
      specialize (G K1). rewrite ST in G. lia. }
    assert (MAIN : forall l,
      (forall e, In e (ch s) -> ex e <> x \/ ep e < il i -> exists e', In e' l /\ eqc e e') ->
      Cov (set_ch (set_tx s x (Tx (tst (tx s x)) r (tfirst (tx s x)) (tret (tx s x)) (tcsn (tx s x))
             (tcid (tx s x)) (match ia i with AS => if troll (tx s x) =? 1 then 0 else troll (tx s x)
                                         | _ => troll (tx s x) end))) l)).
    { intros l K. apply (Cov_other_tx s x _ []); auto.
      - cbn. intros a m b Q. destruct (k_cov _ C _ _ _ _ Q) as (e & I & CV).
        destruct (CX _ _ _ _ Q I CV) as [P1 P2].
        destruct (hold_live _ _ _ _ _ H Q) as [_ N2].
        destruct (K e I) as (e' & I' & EQ); [auto|].
        exists e'. split; [exact I'|]. eqcf EQ. destruct CV as (E & M & L & _). unfold covby. cbn.
        rewrite upd_same. cbn. rewrite <- Hx, <- Hm, <- Hp. repeat split; auto; try lia.
        destruct (i_roll _ H x T) as [Q2|[[K1 K2]|Q2]]; try congruence. rewrite K1. cbn.
        cbn in P1. destruct (ia i); auto. discriminate.
      - cbn. intros _. assert (MK := k_marks _ C x T). rewrite ST in MK. rewrite MK.
        destruct (i_roll _ H x T) as [Q2|[[K1 K2]|Q2]]; [congruence| |].
        + rewrite K1. cbn. destruct (ia i); reflexivity.
        + rewrite Q2. cbn. destruct (ia i); reflexivity. }
    assert (VV : modif i = true -> forall e, In e (ch s) -> ex e <> x \/ ep e < il i ->
                 exists e', In e' (undo_version x i (ch s)) /\ eqc e e').
    { intros M e I P. destruct (undo_version_shape _ _ _ _ H T ST M) as (a & e0 & b & A & B & CC & D & F & W & EQ).
      assert (IN : In e (a ++ b)).
      { rewrite A in I. rewrite in_app_iff in *. destruct I as [I|[I|I]]; auto. subst e0.
        unfold vkey, ikey in F. assert (ep e = il i) by congruence. destruct P; [congruence|lia]. }
      assert (SH := eqcl_shr (fun _ => False) _ _ EQ). eapply shr_keeps; eauto. }
    destruct (ia i) eqn:IA; try (apply MAIN, VV; unfold modif; rewrite IA; reflexivity).
    + apply MAIN. intros e I P. eapply shr_keeps; [apply undo_lock_shr, (i_wf _ H)|exact I|].
      cbn. intros (P1 & P2 & P3). 
      destruct (wfc_eu _ e (i_wf _ H) I) as [[U1 U2]|(U1 & U2 & U3 & _)]; [|congruence].
      destruct P; [congruence|lia].
    + apply (MAIN (ch s)). intros e I _. exists e. split; [exact I | apply eqc_refl].
    + apply (MAIN (ch s)). intros e I _. exists e. split; [exact I | apply eqc_refl].
Qed.

Lemma Cov_step : forall s o, Inv s -> Cov s -> Cov (step s o).
Proof.
  intros s o H C. destruct o; cbn [step].
  - destruct (tst (tx s x)) eqn:T; try exact C.
    apply (Cov_other_tx s x _ []); eauto using keep_refl; cbn;
      rewrite (i_hold _ H x) by (left; congruence); auto.
    intros a m b Q. destruct a; discriminate.
  - destruct (running (tx s x)) eqn:R; [|exact C]. apply Cov_set_tx; auto.
  - destruct (running (tx s x)) eqn:R; [|exact C]. apply Cov_set_tx; auto.
  - destruct (running (tx s x)) eqn:R; [|exact C]. apply Cov_set_tx; auto.
  - destruct (running (tx s x) && (tret (tx s x) <? INF) && (0 <=? m) && (m <=? 3)) eqn:B; [|exact C].
    apply Cov_modify; auto; lia.
  - destruct (running (tx s x)) eqn:R; [|exact C]. destruct (running_ip _ R) as [T R0].
    apply (Cov_other_tx s x _ []); eauto using keep_refl; cbn.
    + intros a m b Q. destruct (k_cov _ C _ _ _ _ Q) as (e & I & E & M & L & _).
      exists e. split; [exact I|]. unfold covby. cbn. rewrite upd_same. cbn. repeat split; auto; lia.
    + intros _. rewrite (k_marks _ C x T), R0. reflexivity.
  - destruct (running (tx s x)) eqn:R; [|exact C]. destruct (running_ip _ R) as [T R0].
    apply (Cov_other_tx s x _ [EvSave x (nloc s)]); eauto using keep_refl; cbn.
    + intros z N. apply upd_other. exact N.
    + rewrite upd_same. intros a m b Q. destruct a as [|h a]; cbn in Q; [discriminate|].
      injection Q as <- Q. destruct (k_cov _ C _ _ _ _ Q) as (e & I & E & M & L & _).
      exists e. split; [exact I|]. assert (ep e < nloc s) by (apply (i_loc _ H); exact I).
      unfold covby. cbn. rewrite upd_same. cbn. repeat split; auto; lia.
    + intros _. rewrite upd_same. cbn. rewrite (k_marks _ C x T), R0. reflexivity.
    + intros e I _ _. exists e. split; [exact I | apply eqc_refl].
  - destruct (running (tx s x) && (0 <=? sploc (tstack (tx s x)))) eqn:B; [|exact C].
    destruct (running_ip (tx s x)) as [T R0]; [lia|].
    assert (MK := k_marks _ C x T). rewrite R0 in MK. cbn in MK.
    apply (Cov_other_tx s x _ [EvRollTo x]); eauto using keep_refl; cbn.
    + intros z N. apply upd_other. exact N.
    + rewrite upd_same. intros a m b Q.
      destruct (hold_to_save_split (hold (sp s) x)) as [Z|(a0 & l & A1 & A2)].
      { rewrite Z in Q. destruct a; discriminate. }
      assert (Q2 : hold (sp s) x = (a0 ++ HM l :: a) ++ HG m :: b).
      { rewrite A1, Q, <- app_assoc. reflexivity. }
      destruct (k_cov _ C _ _ _ _ Q2) as (e & I & E & M & L & _).
      exists e. split; [exact I|]. rewrite marks_app, A2 in L. cbn in L. inversion L as [|? ? L1 L2].
      unfold covby. cbn. rewrite upd_same. cbn. repeat split; auto; try lia.
      intros _. rewrite sploc_smarks, <- MK, Q2, !marks_app, A2. cbn. exact L1.
    + intros _. rewrite upd_same, marks_to_save, MK, <- smarks_after. reflexivity.
    + intros e I _ _. exists e. split; [exact I | apply eqc_refl].
  - destruct (tst (tx s x)) eqn:T; try exact C.
    apply (Cov_other_tx s x _ [EvAbort x]); eauto using keep_refl; cbn.
    + intros z N. apply upd_other. exact N.
    + rewrite upd_same. intros a m b Q. destruct a; discriminate.
    + rewrite upd_same. reflexivity.
    + intros e I _ _. exists e. split; [exact I | apply eqc_refl].
  - destruct (tst (tx s x)) eqn:T; try exact C. destruct (troll (tx s x) =? 0) eqn:R; cbn; [exact C|].
    apply Cov_undo1; auto. lia.
  - destruct (running (tx s x)) eqn:R; [|exact C].
    apply (Cov_other_tx s x _ [EvCommit x (ncsn s)]); eauto using keep_refl; cbn.
    + intros z N. apply upd_other. exact N.
    + rewrite upd_same. intros a m b Q. destruct a; discriminate.
    + discriminate.
Qed.

Theorem Cov_exec : forall ops, Cov (exec ops).
Proof.
  intros ops. unfold exec.
  assert (K : Inv (run step st0 ops) /\ Cov (run step st0 ops)); [|apply K].
  apply (run_inv _ _ step (fun s => Inv s /\ Cov s)).
  - intros s o [A B]. split; [apply Inv_step | apply Cov_step]; assumption.
  - split; [apply Inv_st0 | apply Cov_st0].
Qed.

(** ** Entries of different transactions in progress do not conflict *)

Definition Cmp (s : st) : Prop := forall e f, In e (ch s) -> In f (ch s) -> ex e <> ex f ->
  tst (tx s (ex e)) = InProg -> tst (tx s (ex f)) = InProg -> em e + em f <= 2.

(** No lock is hidden from the walk. *)
Definition seen (s : st) : Prop := ~ flag_lost (tx s) (ch s) \/ ~ buried_lock (tx s) (ch s).

Lemma live_processed : forall s x mode csn sp f, Inv s -> seen s -> In f (ch s) ->
  tst (tx s (ex f)) = InProg -> tst (tx s x) = InProg -> tret (tx s x) < INF ->
  processed mode x (rlc (tx s) mode x csn (tret (tx s x)) sp (ch s)) f.
Proof.
  intros s x mode csn sp0 f H SN I T TX R.
  destruct (elk f) eqn:L; [|apply live_version_processed; auto].
  assert (W := i_wf _ H). assert (I0 := I).
  apply in_split in I. destruct I as (a & b & Q).
  eapply rlc_reach; eauto.
  - rewrite Forall_forall. intros e E. rewrite Q in W.
    destruct (wfc_above _ _ _ _ W E) as (W1 & W2 & W3).
    destruct (wfc_eu _ f W (in_elt _ _ _)) as [[U1 U2]|(U1 & U2 & U3 & U4 & U5)]; [|congruence].
    assert (F := i_first _ H f I0 T U1).
    assert (G := i_ret _ H x (ex f) R T ltac:(lia)). lia.
  - destruct SN as [SN|SN].
    + right. split; [exact L|]. intros a' e b' g QQ EC IG LL. apply SN. exists a', e, b', g. auto.
    + left. rewrite Forall_forall. intros e E. unfold passes. destruct (elk e) eqn:LE; [auto|]. right.
      destruct (tst (tx s (ex e))) eqn:TE; auto; exfalso; apply SN;
        apply in_split in E; destruct E as (a1 & a2 & ->);
        exists a1, e, (a2 ++ f :: b), f; rewrite Q, <- app_assoc; cbn;
        (repeat split; auto; [congruence | apply in_elt]).
Qed.

Lemma Cmp_sub : forall s s', Cmp s -> (forall e', In e' (ch s') -> exists e, In e (ch s) /\ eqc e e') ->
  (forall z, tst (tx s' z) = InProg -> tst (tx s z) = InProg \/ (forall e, In e (ch s) -> ex e <> z)) ->
  Cmp s'.
Proof.
  intros s s' C A B e f IE IF N TE TF.
  destruct (A e IE) as (e1 & I1 & E1). destruct (A f IF) as (f1 & I2 & E2).
  eqcf E1. eqcf E2. rewrite <- Hm, <- Hm0. apply C; try congruence.
  - destruct (B _ TE) as [G|G]; [congruence|]. elim (G e1 I1). exact Hx.
  - destruct (B _ TF) as [G|G]; [congruence|]. elim (G f1 I2). exact Hx0.
Qed.

Lemma undo1_sub : forall s x e', Inv s -> tst (tx s x) = InProg -> In e' (ch (undo1 s x)) ->
  exists e, In e (ch s) /\ eqc e e'.
Proof.
  intros s x e' H T. unfold undo1. destruct (tstack (tx s x)) as [|i r] eqn:ST.
  - destruct (troll (tx s x) =? 2); cbn; intros I; exists e'; split; auto using eqc_refl.
  - assert (MO : modif i = true -> In e' (undo_version x i (ch s)) -> exists e, In e (ch s) /\ eqc e e').
    { intros M I. destruct (undo_version_shape _ _ _ _ H T ST M) as (a & e0 & b & A & B & CC & D & F & W & EQ).
      assert (SH := eqcl_shr (fun _ => False) _ _ EQ).
      destruct (shr_in _ _ _ _ SH I) as (e & E1 & E2). exists e. split; [|exact E2].
      rewrite A, in_app_iff in *. destruct E1; auto. right. right. assumption. }
    destruct (ia i) eqn:IA; cbn [set_ch set_tx ch];
      try (apply MO; unfold modif; rewrite IA; reflexivity);
      try (intros I; exists e'; split; auto using eqc_refl; fail).
    intros I. eapply shr_in; [apply undo_lock_shr, (i_wf _ H)|exact I].
Qed.

Lemma Cmp_modify : forall s x k m v go, Inv s -> seen s -> Cmp s -> running (tx s x) = true ->
  tret (tx s x) < INF -> 0 <= m <= 3 -> Cmp (modify s x k m v go).
Proof.
  intros s x k m v go H SN C RU R M. destruct (running_ip _ RU) as [T R0]. unfold modify.
  set (mm := match k with KI | KD => 3 | KU => if m =? 3 then 3 else 2 | KL => m end).
  destruct (ch s) as [|e0 l0] eqn:CH.
  - destruct k; auto. destruct go; auto. intros e f IE IF N.
    cbn in IE, IF. rewrite CH in IE, IF. destruct IE as [<-|[]]. destruct IF as [<-|[]]. congruence.
  - rewrite <- CH. set (r := rlc _ _ _ _ _ _ _).
    assert (W := i_wf _ H).
    assert (SH : shr (Pdel (tx s) x) (ch s) (rchain r)) by (apply rlc_shr, W).
    assert (I1 : Inv (set_ch s (rchain r))) by (eapply Inv_shr; eauto).
    assert (C1 : Cmp (set_ch s (rchain r))).
    { eapply Cmp_sub; [exact C| |]; cbn; [intros; eapply shr_in; eauto|auto]. }
    destruct (rres r && negb (rconf r =? x)) eqn:NW; [exact C1|].
    destruct go; cbn [negb]; [|exact C1].
    destruct (rchain r) as [|p pr] eqn:RC; [exact C1|]. rewrite <- RC in *.
    (* entries of the others do not conflict with the new mode *)
    assert (NC : forall f, In f (ch s) -> ex f <> x -> tst (tx s (ex f)) = InProg -> em f + mm <= 2).
    { intros f I N TF.
      destruct (live_processed s x mm (tcsn (tx s x)) (sploc (tstack (tx s x))) f H SN I TF T R) as [P _].
      fold r in P. destruct (conf (em f) mm) eqn:CF; [|unfold conf in CF; lia].
      destruct (P N eq_refl). lia. }
    assert (PUT : forall s2 s3 e, tx s2 = tx s ->
       (forall e', In e' (ch s2) -> exists e, In e (ch s) /\ eqc e e') ->
       ch s3 = e :: ch s2 -> (forall z, tst (tx s3 z) = tst (tx s2 z)) -> ex e = x -> em e = mm -> Cmp s3).
    { intros s2 s3 e TE IN CE TS EX EM a b IA IB N TA TB. rewrite CE in IA, IB. rewrite TS, TE in TA, TB.
      destruct IA as [<-|IA]; destruct IB as [<-|IB]; [congruence| | |].
      - destruct (IN b IB) as (b1 & B1 & B2). eqcf B2. rewrite EM, <- Hm.
        assert (em b1 + mm <= 2) by (apply NC; congruence). lia.
      - destruct (IN a IA) as (a1 & A1 & A2). eqcf A2. rewrite EM, <- Hm.
        apply NC; congruence.
      - destruct (IN a IA) as (a1 & A1 & A2). destruct (IN b IB) as (b1 & B1 & B2). eqcf A2. eqcf B2.
        rewrite <- Hm, <- Hm0. apply C; congruence. }
    assert (SUB1 : forall e', In e' (rchain r) -> exists e, In e (ch s) /\ eqc e e')
      by (intros; eapply shr_in; eauto).
    assert (SUB2 : forall e', In e' (remred (tx s) mm x (tret (tx s x)) (sploc (tstack (tx s x))) (rchain r)) ->
                     exists e, In e (ch s) /\ eqc e e').
    { intros e' I. 
      destruct (shr_in _ _ _ _ (remred_shr (tx s) mm x (tret (tx s x)) (sploc (tstack (tx s x))) (rchain r) (i_wf _ I1)) I)
        as (e1 & A1 & A2). destruct (SUB1 e1 A1) as (e2 & B1 & B2). exists e2. split; [exact B1|].
      eapply eqc_trans; eauto. }
    assert (PV : forall s2 a w, tx s2 = tx s ->
       (forall e', In e' (ch s2) -> exists e, In e (ch s) /\ eqc e e') -> Cmp (put_version s2 x a mm w)).
    { intros s2 a w TE IN. eapply PUT; eauto; try reflexivity.
      intros z. unfold put_version. cbn [emit tx]. rewrite push_tst. reflexivity. }
    assert (PL : forall s2, tx s2 = tx s ->
       (forall e', In e' (ch s2) -> exists e, In e (ch s) /\ eqc e e') -> Cmp (put_lock s2 x mm)).
    { intros s2 TE IN. eapply PUT; eauto; try reflexivity.
      intros z. unfold put_lock. cbn [emit tx]. rewrite push_tst. reflexivity. }
    destruct (ed p).
    + destruct k; try exact C1. apply PV; auto.
    + destruct k; try exact C1.
      * destruct (rred r && negb false); apply PV; auto.
      * destruct (rred r && negb false); apply PV; auto.
      * destruct (rstat r =? 2) eqn:RS; [rewrite andb_false_r; exact C1|].
        destruct (rred r && negb false); apply PL; auto.
Qed.

Lemma Cmp_step : forall s o, Inv s -> seen s -> Cmp s -> Cmp (step s o).
Proof.
  intros s o H SN C.
  destruct o; cbn [step];
    try (destruct (running (tx s x)) eqn:R; [|exact C]).
  - destruct (tst (tx s x)) eqn:T; try exact C.
    eapply Cmp_sub; [exact C| |]; cbn; [eauto using eqc_refl|].
    intros z. unfold upd. destruct (z =? x) eqn:Q; [|auto]. intros _. right.
    intros e I E. apply (i_own _ H e I). assert (z = x) by lia. congruence.
  - eapply Cmp_sub; [exact C| |]; cbn; [eauto using eqc_refl|].
    intros z. unfold upd. destruct (z =? x) eqn:Q; [|auto]. assert (z = x) by lia. subst. auto.
  - eapply Cmp_sub; [exact C| |]; cbn; [eauto using eqc_refl|].
    intros z. unfold upd. destruct (z =? x) eqn:Q; [|auto]. assert (z = x) by lia. subst. auto.
  - eapply Cmp_sub; [exact C| |]; cbn; [eauto using eqc_refl|].
    intros z. unfold upd. destruct (z =? x) eqn:Q; [|auto]. assert (z = x) by lia. subst. auto.
  - destruct ((tret (tx s x) <? INF) && (0 <=? m) && (m <=? 3)) eqn:B.
    + assert (true && (tret (tx s x) <? INF) && (0 <=? m) && (m <=? 3) = true) as -> by lia.
      apply Cmp_modify; auto; lia.
    + assert (true && (tret (tx s x) <? INF) && (0 <=? m) && (m <=? 3) = false) as -> by lia. exact C.
  - eapply Cmp_sub; [exact C| |]; cbn; [eauto using eqc_refl|].
    intros z. unfold upd. destruct (z =? x) eqn:Q; [|auto]. assert (z = x) by lia. subst. auto.
  - eapply Cmp_sub; [exact C| |]; cbn; [eauto using eqc_refl|].
    intros z. unfold upd. destruct (z =? x) eqn:Q; [|auto]. assert (z = x) by lia. subst. auto.
  - destruct (true && (0 <=? sploc (tstack (tx s x)))); [|exact C].
    eapply Cmp_sub; [exact C| |]; cbn; [eauto using eqc_refl|].
    intros z. unfold upd. destruct (z =? x) eqn:Q; [|auto]. assert (z = x) by lia. subst. auto.
  - destruct (tst (tx s x)) eqn:T; try exact C.
    eapply Cmp_sub; [exact C| |]; cbn; [eauto using eqc_refl|].
    intros z. unfold upd. destruct (z =? x) eqn:Q; [|auto]. assert (z = x) by lia. subst. auto.
  - destruct (tst (tx s x)) eqn:T; try exact C. destruct (troll (tx s x) =? 0); cbn; [exact C|].
    eapply Cmp_sub; [exact C| |].
    + intros e' I. eapply undo1_sub; eauto.
    + intros z. unfold undo1. destruct (tstack (tx s x)) as [|i r].
      * destruct (troll (tx s x) =? 2); cbn; unfold upd; (destruct (z =? x) eqn:Q; [|auto]);
          assert (z = x) by lia; subst; auto.
      * destruct (ia i); cbn; unfold upd; (destruct (z =? x) eqn:Q; [|auto]);
          assert (z = x) by lia; subst; auto.
  - eapply Cmp_sub; [exact C| |]; cbn; [eauto using eqc_refl|].
    intros z. unfold upd. destruct (z =? x) eqn:Q; [|auto]. discriminate.
Qed.

Theorem Cmp_exec : forall ops, (forall pre post, ops = pre ++ post -> seen (exec pre)) -> Cmp (exec ops).
Proof.
  intros ops. induction ops as [|o ops IH] using rev_ind; intros K.
  - intros e f I. contradiction.
  - unfold exec in *. rewrite run_app. cbn.
    apply Cmp_step.
    + apply Inv_exec.
    + apply (K ops [o]). reflexivity.
    + apply IH. intros pre post Q. apply (K pre (post ++ [o])). rewrite Q, app_assoc. reflexivity.
Qed.

Theorem locks_compatible : forall ops,
  (forall pre post, ops = pre ++ post -> seen (exec pre)) -> locks_ok (spec_of (evs (exec ops))).
Proof.
  intros ops K x y m n N A B. assert (H := Inv_exec ops). assert (C := Cov_exec ops).
  assert (CM := Cmp_exec ops K).
  change (spec_of (evs (exec ops))) with (sp (exec ops)) in *.
  apply in_split in A, B. destruct A as (a1 & a2 & A), B as (b1 & b2 & B).
  destruct (hold_live _ _ _ _ _ H A) as [TA _]. destruct (hold_live _ _ _ _ _ H B) as [TB _].
  destruct (k_cov _ C _ _ _ _ A) as (e & I1 & E1 & M1 & _).
  destruct (k_cov _ C _ _ _ _ B) as (f & I2 & E2 & M2 & _).
  assert (em e + em f <= 2) by (apply CM; congruence).
  unfold compatible. lia.
Qed.
