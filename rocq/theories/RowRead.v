(** What a reader gets from the chain is what the specification promises, as
    long as no lock mark of a committed transaction hides a newer version. *)
From Coq Require Import ZArith List Bool Lia.
From Coq Require Import ZifyBool.
From Verif Require Import Base RowModel RowSpec RowLemmas RowInv.
Import ListNotations.
Open Scope Z_scope.

(** The version search on versions only. *)
Fixpoint rdv (T : Z -> txr) (x csn cid : Z) (l : list ent) : option Z :=
  match l with
  | [] => None
  | e :: r =>
    match tst (T (ex e)) with
    | Comm c => if c <? csn then val e else rdv T x csn cid r
    | InProg => if (ex e =? x) && (ecid e <? cid) then val e else rdv T x csn cid r
    | _ => rdv T x csn cid r
    end
  end.

(** No lock mark of a committed transaction above a version not committed
    before it. *)
Definition clear_locks (T : Z -> txr) (l : list ent) : Prop :=
  forall b k d w r c, l = b ++ k :: d ++ w :: r -> elk k = true -> tst (T (ex k)) = Comm c ->
    Forall (fun e => elk e = true) d -> elk w = false ->
    exists c', tst (T (ex w)) = Comm c' /\ c' <= c.

Lemma rd_rdv : forall T x csn cid l, wfc l -> clear_locks T l ->
  rd T x csn cid l = rdv T x csn cid (vers l).
Proof.
  intros T x csn cid l. induction l as [|e l IH]; intros W C; [reflexivity|].
  assert (C' : clear_locks T l).
  { intros b k d w r c Q. apply (C (e :: b) k d w r c). rewrite Q. reflexivity. }
  assert (W' := wfc_tail _ _ W). specialize (IH W' C').
  cbn [rd vers filter]. unfold isv at 1. destruct (elk e) eqn:L; cbn [negb andb].
  - fold (vers l). destruct (tst (T (ex e))) eqn:TE; try exact IH.
    destruct (c <? csn) eqn:LT; [|exact IH].
    assert (NE : l <> []) by (intros ->; cbn in W; destruct W as (_ & _ & W & _); congruence).
    destruct (lead_split _ W' NE) as (w & r & S1 & S2 & S3 & S4).
    destruct (C [] e (lead_locks l) w r c) as (c' & K1 & K2); auto.
    { cbn. rewrite <- S1. reflexivity. }
    rewrite <- IH. cbn [image]. rewrite L.
    assert (IM : image l = val w).
    { rewrite S1. revert S4 S3. clear. generalize (lead_locks l) as a. induction a as [|k a IHa]; intros S4 S3.
      - cbn. rewrite S3. reflexivity.
      - inv S4. cbn. rewrite H1. apply IHa; assumption. }
    rewrite IH.
    assert (VL : vers l = w :: vers r).
    { rewrite S1, vers_app. assert (vers (lead_locks l) = []) as ->.
      { clear - S4. induction S4; cbn; [reflexivity|]. unfold isv at 1. rewrite H. assumption. }
      cbn. unfold isv at 1. rewrite S3. reflexivity. }
    rewrite IM, VL. cbn. rewrite K1. assert (c' <? csn = true) as -> by lia. reflexivity.
  - cbn [rdv]. fold (vers l). rewrite <- IH. cbn [image]. rewrite L. unfold val.
    destruct (tst (T (ex e))); reflexivity.
Qed.

Lemma vers_drop : forall l, vers (drop_locks l) = vers l.
Proof. induction l as [|e l IH]; cbn; [reflexivity|]. unfold isv at 2. destruct (elk e) eqn:L; cbn.
  - exact IH.
  - unfold isv at 1. rewrite L. reflexivity.
Qed.

Lemma drop_split : forall l, exists a, l = a ++ drop_locks l.
Proof.
  induction l as [|e l [a IH]]; cbn; [exists []; reflexivity|]. destruct (elk e).
  - exists (e :: a). cbn. congruence.
  - exists []. reflexivity.
Qed.

Lemma drop_hd : forall l e r, drop_locks l = e :: r -> elk e = false.
Proof. induction l as [|f l IH]; cbn; intros e r Q; [discriminate|]. destruct (elk f) eqn:L; [eauto|congruence]. Qed.

Lemma no_shadow_clear : forall T l, ~ lock_shadow T l -> clear_locks T (drop_locks l).
Proof.
  intros T l N b k d w r c Q L TK D LW. destruct (drop_split l) as (a & A).
  assert (H1 : {c' | tst (T (ex w)) = Comm c' /\ c' <= c} + {~ exists c', tst (T (ex w)) = Comm c' /\ c' <= c}).
  { destruct (tst (T (ex w))) eqn:TW; try (right; intros (c' & K & _); discriminate).
    destruct (c0 <=? c) eqn:LE; [left; exists c0; split; [reflexivity|lia]|].
    right. intros (c' & K & K2). injection K as <-. lia. }
  destruct H1 as [[c' H1]|H1]; [eauto|]. exfalso. apply N.
  destruct b as [|v b].
  - cbn in Q. apply drop_hd in Q. congruence.
  - cbn in Q. assert (LV := drop_hd _ _ _ Q).
    exists a, v, b, k, d, w, r, c. rewrite A, Q. auto 10.
Qed.

Lemma rdv_other : forall T x csn cid o c, Forall (fun e => ex e <> x /\ tst (T (ex e)) = InProg) o ->
  rdv T x csn cid (o ++ c) = rdv T x csn cid c.
Proof.
  intros T x csn cid o c H. induction H as [|e o [N L] H IH]; cbn; [reflexivity|].
  rewrite L. assert (ex e =? x = false) as -> by lia. exact IH.
Qed.

Lemma rdv_own : forall T x csn cid c st o, Forall (fun e => ex e = x) o -> tst (T x) = InProg ->
  map vkey o = map ikey (filter modif st) ->
  rdv T x csn cid (o ++ c) =
  match own_version cid (pitems st) with Some v => v | None => rdv T x csn cid c end.
Proof.
  intros T x csn cid c st. induction st as [|i st IH]; intros o F L Q; cbn in Q.
  - destruct o; [reflexivity|discriminate].
  - unfold pitems in *. cbn [flat_map]. unfold pitem_of at 1. unfold modif in Q at 1.
    destruct (ia i) eqn:IA; cbn [app own_version];
      try (destruct o as [|e o]; [discriminate|]; cbn [map] in Q; inversion F as [|? ? F1 F2];
           unfold vkey at 1, ikey at 1 in Q; injection Q as Q1 Q2 Q3 Q4 Q5 Q6;
           cbn [app rdv]; rewrite F1, L, Z.eqb_refl; cbn [andb];
           rewrite Q4; destruct (icid i <? cid); [exact Q5 | apply IH; assumption]);
      apply IH; assumption.
Qed.

Lemma rdv_com : forall T x csn cid l, Forall (fun e => exists k, tst (T (ex e)) = Comm k) l ->
  rdv T x csn cid l = rv T l csn.
Proof.
  intros T x csn cid l H. induction H as [|e l (k & K) H IH]; cbn; [reflexivity|]. rewrite K, IH. reflexivity.
Qed.

Lemma own_version_none : forall cid st, filter modif st = [] -> own_version cid (pitems st) = None.
Proof.
  unfold pitems. induction st as [|i st IH]; cbn; [reflexivity|]. unfold modif at 1, pitem_of at 1.
  destruct (ia i); cbn; intros Q; try discriminate; auto.
Qed.

Lemma read_visible : forall s x csn cid, Inv s -> ~ lock_shadow (tx s) (ch s) ->
  (tst (tx s x) = InProg -> troll (tx s x) = 0) ->
  read (tx s) x csn cid (ch s) = visible (sp s) x csn cid.
Proof.
  intros s x csn cid H N R. unfold read.
  assert (W : wfc (drop_locks (ch s))).
  { destruct (drop_split (ch s)) as (a & A). apply (wfc_app_r a). rewrite <- A. apply i_wf, H. }
  rewrite rd_rdv by (auto using no_shadow_clear). rewrite vers_drop.
  destruct (i_vers _ H) as (y & o & c & A & B & C & D). rewrite A.
  assert (CC : Forall (fun e => exists k, tst (tx s (ex e)) = Comm k) c)
    by (eapply Forall_impl; [|exact C]; cbn; intros e (k & K & _); eauto).
  unfold visible.
  assert (OC : tst (tx s x) = InProg -> own x c = []).
  { intros T. clear - CC T. induction CC as [|e c (k & K) CC IH]; cbn; [reflexivity|].
    destruct (ex e =? x) eqn:Q; [|exact IH]. assert (ex e = x) by lia. congruence. }
  assert (IP : tst (tx s x) = InProg \/ tst (tx s x) <> InProg)
    by (destruct (tst (tx s x)); auto; right; discriminate).
  destruct IP as [T|T].
  - assert (P := i_pend _ H x T). rewrite (R T) in P. cbn in P. rewrite P.
    assert (K := i_stk _ H x T). rewrite A, own_app, (OC T), app_nil_r in K.
    destruct (Z.eq_dec y x) as [->|NY].
    + assert (OO : own x o = o).
      { clear - B. induction B as [|e o [E _] B IH]; cbn; [reflexivity|].
        assert (ex e =? x = true) as -> by lia. f_equal. exact IH. }
      rewrite OO in K.
      assert (FO : Forall (fun e => ex e = x) o) by (eapply Forall_impl; [|exact B]; cbn; tauto).
      rewrite (rdv_own _ _ _ _ c _ _ FO T K), rdv_com, D by exact CC. reflexivity.
    + assert (OO : own x o = []).
      { clear - B NY. induction B as [|e o [E _] B IH]; cbn; [reflexivity|].
        assert (ex e =? x = false) as -> by lia. exact IH. }
      rewrite OO in K. rewrite own_version_none by (destruct (filter modif (tstack (tx s x))); [reflexivity|discriminate]).
      rewrite rdv_other, rdv_com, D; auto.
      eapply Forall_impl; [|exact B]. cbn. intros e [E1 E2]. split; congruence.
  - destruct (i_idle _ H x T) as [_ P]. rewrite P. cbn.
    rewrite rdv_other, rdv_com, D; auto.
    eapply Forall_impl; [|exact B]. cbn. intros e [E1 E2]. split; congruence.
Qed.

(** ** Schedules without explicit row locks *)

Definition no_lock_op (o : op) : Prop := match o with OMod _ KL _ _ _ => False | _ => True end.

Definition nolocks (s : st) : Prop := Forall (fun e => elk e = false) (ch s).

Lemma nolocks_shr : forall P s l, nolocks s -> shr P (ch s) l -> Forall (fun e => elk e = false) l.
Proof.
  intros P s l N K. rewrite Forall_forall. intros e I. destruct (shr_in _ _ _ _ K I) as (f & A & B).
  unfold nolocks in N. rewrite Forall_forall in N. eqcf B. rewrite <- Hlk. auto.
Qed.

Lemma nolocks_modify : forall s x k m v go, Inv s -> nolocks s -> k <> KL -> nolocks (modify s x k m v go).
Proof.
  intros s x k m v go H N NK. unfold modify.
  set (mm := match k with KI | KD => 3 | KU => if m =? 3 then 3 else 2 | KL => m end).
  destruct (ch s) as [|e0 l0] eqn:CH.
  - destruct k; auto. destruct go; auto. unfold nolocks. cbn. rewrite CH. auto.
  - rewrite <- CH. set (r := rlc _ _ _ _ _ _ _). assert (W := i_wf _ H).
    assert (SH : shr (Pdel (tx s) x) (ch s) (rchain r)) by (apply rlc_shr, W).
    assert (N1 : nolocks (set_ch s (rchain r))) by (eapply nolocks_shr; eauto).
    assert (W1 : wfc (rchain r)) by (eapply shr_wfc; eauto).
    destruct (rres r && negb (rconf r =? x)); [exact N1|]. destruct go; cbn [negb]; [|exact N1].
    destruct (rchain r) as [|p pr] eqn:RC; [exact N1|]. rewrite <- RC in *.
    assert (N2 : nolocks (set_ch (set_ch s (rchain r)) (remred (tx s) mm x (tret (tx s x)) (sploc (tstack (tx s x))) (rchain r)))).
    { unfold nolocks. cbn. eapply nolocks_shr; [exact N1|]. cbn. apply remred_shr. exact W1. }
    assert (PV : forall s2 a w, nolocks s2 -> nolocks (put_version s2 x a mm w)).
    { intros s2 a w K. unfold nolocks in *. cbn. constructor; [reflexivity|exact K]. }
    destruct (ed p).
    + destruct k; try exact N1. apply PV. exact N1.
    + destruct k; try exact N1; try congruence; destruct (rred r && negb false); apply PV; assumption.
Qed.

Lemma undo1_nolocks : forall s x, Inv s -> tst (tx s x) = InProg -> nolocks s -> nolocks (undo1 s x).
Proof.
  intros s x H T N. unfold nolocks in *.
  unfold undo1. destruct (tstack (tx s x)) as [|i r] eqn:ST.
  - destruct (troll (tx s x) =? 2); exact N.
  - assert (MO : modif i = true -> Forall (fun e => elk e = false) (undo_version x i (ch s))).
    { intros M. destruct (undo_version_shape _ _ _ _ H T ST M) as (a & e0 & b & A & B & CC & D & F & W & EQ).
      assert (K : Forall (fun e => elk e = false) (a ++ b)).
      { rewrite A in N. apply Forall_app in N. destruct N as [N1 N2]. inv N2. apply Forall_app. auto. }
      eapply Forall_eqcl; [|exact EQ|exact K]. cbn. intros e e' Q. eqcf Q. congruence. }
    destruct (ia i) eqn:IA; cbn [set_ch set_tx ch]; try exact N;
      try (apply MO; unfold modif; rewrite IA; reflexivity).
    eapply nolocks_shr; [exact N|]. apply undo_lock_shr, i_wf, H.
Qed.

Lemma nolocks_step : forall s o, Inv s -> nolocks s -> no_lock_op o -> nolocks (step s o).
Proof.
  intros s o H N K. destruct o; cbn [step];
    try (destruct (running (tx s x)) eqn:R; [exact N|exact N]).
  - destruct (tst (tx s x)); exact N.
  - destruct (running (tx s x) && (tret (tx s x) <? INF) && (0 <=? m) && (m <=? 3)); [|exact N].
    apply nolocks_modify; auto. intros ->. exact K.
  - destruct (running (tx s x) && (0 <=? sploc (tstack (tx s x)))); exact N.
  - destruct (tst (tx s x)); exact N.
  - destruct (tst (tx s x)) eqn:T; try exact N. destruct (negb (troll (tx s x) =? 0)); [|exact N].
    apply undo1_nolocks; auto.
Qed.

Lemma nolocks_exec : forall ops, Forall no_lock_op ops -> nolocks (exec ops).
Proof.
  intros ops. induction ops as [|o ops IH] using rev_ind; intros F.
  - constructor.
  - apply Forall_app in F. destruct F as [F1 F2]. inv F2. unfold exec. rewrite run_app. cbn.
    apply nolocks_step; auto. apply Inv_exec.
Qed.

Lemma nolocks_shadow : forall s, nolocks s -> ~ lock_shadow (tx s) (ch s).
Proof.
  intros s N (a & v & b & k & d & w & r & c & Q & _ & L & _). unfold nolocks in N. rewrite Forall_forall in N.
  assert (elk k = false); [|congruence]. apply N. rewrite Q. apply in_app_iff. right. right.
  apply in_elt.
Qed.
