(** Facts about the chain walks of RowModel.v: they only drop lock entries and
    change flags, and they process every lock or version they must. *)
From Coq Require Import ZArith List Bool Lia.
From Coq Require Import ZifyBool.
From Verif Require Import Base RowModel RowSpec.
Import ListNotations.
Open Scope Z_scope.

(** Equal up to the chainHasLocks flag. *)
Definition eqc (a b : ent) : Prop := set_c a false = set_c b false.

Lemma eqc_refl : forall a, eqc a a.
Proof. reflexivity. Qed.
Lemma eqc_sym : forall a b, eqc a b -> eqc b a.
Proof. unfold eqc. congruence. Qed.
Lemma eqc_trans : forall a b c, eqc a b -> eqc b c -> eqc a c.
Proof. unfold eqc. congruence. Qed.
Lemma eqc_set_c : forall a b, eqc a (set_c a b).
Proof. intros [] b. reflexivity. Qed.

Lemma eqc_fields : forall a b, eqc a b ->
  ex a = ex b /\ em a = em b /\ elk a = elk b /\ eu a = eu b /\ ep a = ep b /\
  ed a = ed b /\ ecid a = ecid b /\ ev a = ev b.
Proof. intros [] [] H. unfold eqc, set_c in H. cbn in *. inv H. repeat split. Qed.

Lemma set_d_same : forall e b, ed e = b -> set_d e b = e.
Proof. intros [] b H. cbn in *. subst. reflexivity. Qed.

Ltac eqcf H :=
  let a := fresh "Hx" in let b := fresh "Hm" in let c := fresh "Hlk" in
  let d := fresh "Hu" in let e := fresh "Hp" in let f := fresh "Hd" in
  let g := fresh "Hcid" in let h := fresh "Hv" in
  destruct (eqc_fields _ _ H) as (a & b & c & d & e & f & g & h).

Definition eqcl := Forall2 eqc.

Lemma eqcl_refl : forall l, eqcl l l.
Proof. induction l; constructor; auto using eqc_refl. Qed.
Lemma eqcl_len : forall l l', eqcl l l' -> length l = length l'.
Proof. intros l l' H. induction H; cbn; congruence. Qed.

Lemma clr_from_eqc : forall ret l loc, eqcl l (clr_from ret loc l).
Proof.
  intros ret l. induction l as [|e r IH]; intros loc; cbn [clr_from].
  - constructor.
  - destruct ((loc <? 0) || (loc <? ret)); [apply eqcl_refl|].
    destruct (ec e); [|apply eqcl_refl].
    constructor; [apply eqc_set_c | apply IH].
Qed.

Lemma clr_at_eqc : forall ret loc l, eqcl l (clr_at ret loc l).
Proof.
  intros ret loc l. induction l as [|e r IH]; cbn [clr_at]; [constructor|].
  destruct (eu e =? loc); constructor; try apply eqc_refl; [apply clr_from_eqc | apply IH].
Qed.

Lemma clean_eqc : forall ret loc l, eqcl l (clean ret loc l).
Proof.
  intros ret loc l. unfold clean.
  destruct ((loc <? 0) || (loc <? ret)); [|apply clr_at_eqc].
  destruct l as [|p r]; [constructor|].
  destruct (ec p); [|apply eqcl_refl].
  constructor; [apply eqc_set_c | apply clr_from_eqc].
Qed.

Lemma eqcl_app : forall a a' b b', eqcl a a' -> eqcl b b' -> eqcl (a ++ b) (a' ++ b').
Proof. intros. apply Forall2_app; assumption. Qed.

Lemma eqcl_split : forall a b l, eqcl (a ++ b) l ->
  eqcl a (firstn (length a) l) /\ eqcl b (skipn (length a) l).
Proof.
  induction a as [|x a IH]; intros b l H; cbn in *.
  - split; [constructor | exact H].
  - inv H. cbn. destruct (IH _ _ H4) as [A B]. split; [constructor; auto | exact B].
Qed.

Lemma eqcl_rev : forall a b, eqcl a b -> eqcl (rev a) (rev b).
Proof.
  intros a b H. induction H; cbn; [constructor|].
  apply eqcl_app; [assumption | constructor; [assumption|constructor]].
Qed.

(** [shr P l l']: [l'] is [l] without some lock entries, all satisfying [P],
    and with other flags. *)
Inductive shr (P : ent -> Prop) : list ent -> list ent -> Prop :=
| shr_nil : shr P [] []
| shr_keep : forall e e' l l', eqc e e' -> shr P l l' -> shr P (e :: l) (e' :: l')
| shr_drop : forall e l l', elk e = true -> P e -> shr P l l' -> shr P (e :: l) l'.

Lemma eqcl_shr : forall P l l', eqcl l l' -> shr P l l'.
Proof. intros P l l' H. induction H; constructor; auto. Qed.

Lemma shr_refl : forall P l, shr P l l.
Proof. intros. apply eqcl_shr, eqcl_refl. Qed.

Lemma shr_app : forall P a a' b b', shr P a a' -> shr P b b' -> shr P (a ++ b) (a' ++ b').
Proof. intros P a a' b b' H K. induction H; cbn; [assumption|constructor; auto|apply shr_drop; auto]. Qed.

Definition flagfree (P : ent -> Prop) : Prop := forall a b, eqc a b -> P b -> P a.

Lemma shr_trans : forall P a b c, flagfree P -> shr P a b -> shr P b c -> shr P a c.
Proof.
  intros P a b c FP H. revert c. induction H; intros c K.
  - exact K.
  - inv K.
    + constructor; eauto using eqc_trans.
    + apply shr_drop; auto.
      * eqcf H. congruence.
      * eauto.
  - apply shr_drop; auto.
Qed.

Lemma shr_weaken : forall (P Q : ent -> Prop) a b, (forall e, P e -> Q e) -> shr P a b -> shr Q a b.
Proof. intros P Q a b H K. induction K; constructor; auto; apply shr_drop; auto. Qed.

Lemma shr_in : forall P l l' e', shr P l l' -> In e' l' -> exists e, In e l /\ eqc e e'.
Proof.
  intros P l l' e' H. induction H; intros I; cbn in *; [tauto| |].
  - destruct I as [->|I]; eauto. destruct (IHshr I) as (z & A & B). eauto.
  - destruct (IHshr I) as (z & A & B). eauto.
Qed.

Lemma shr_keeps : forall P l l' e, shr P l l' -> In e l -> ~ P e ->
  exists e', In e' l' /\ eqc e e'.
Proof.
  intros P l l' e H. induction H; intros I N; cbn in *; [tauto| |].
  - destruct I as [->|I]; [eauto|]. destruct (IHshr I N) as (z & A & B). eauto.
  - destruct I as [->|I]; [contradiction|]. destruct (IHshr I N) as (z & A & B). eauto.
Qed.

Lemma shr_keeps_version : forall P l l' e, shr P l l' -> In e l -> elk e = false ->
  exists e', In e' l' /\ eqc e e'.
Proof.
  intros P l l' e H. induction H; intros I N; cbn in *; [tauto| |].
  - destruct I as [->|I]; [eauto|]. destruct (IHshr I N) as (z & A & B). eauto.
  - destruct I as [->|I]; [congruence|]. destruct (IHshr I N) as (z & A & B). eauto.
Qed.

(** Decompositions of the result come from decompositions of the source. *)
Lemma shr_split : forall P l l' a' e' b', shr P l l' -> l' = a' ++ e' :: b' ->
  exists a e b, l = a ++ e :: b /\ eqc e e' /\ shr P a a' /\ shr P b b'.
Proof.
  intros P l l' a' e' b' H. revert a'. induction H; intros a' Q.
  - destruct a'; discriminate.
  - destruct a' as [|z a']; cbn in Q; inv Q.
    + exists [], e, l. repeat split; auto. constructor.
    + destruct (IHshr a' eq_refl) as (a & e1 & b & -> & A & B & C).
      exists (e :: a), e1, b. repeat split; auto. constructor; auto.
  - destruct (IHshr a' Q) as (a & e1 & b & -> & A & B & C).
    exists (e :: a), e1, b. repeat split; auto. apply shr_drop; auto.
Qed.

(** ** Well-formed chains *)

(** Adjacent headers [e] above [f]. *)
Definition adj (e f : ent) : Prop :=
  0 <= eu e /\ ep e = eu e /\ eu f < eu e /\
  (elk e = true -> ed e = false /\ ed f = false) /\
  (elk e = false -> 2 <= em e <= 3) /\
  (ed e = true -> em e = 3) /\ (ed f = true -> em e = 3).

Fixpoint wfc (l : list ent) : Prop :=
  match l with
  | [] => True
  | e :: r =>
    match r with
    | [] => eu e = -1 /\ 0 <= ep e /\ elk e = false /\ ed e = false /\ em e = 3
    | f :: _ => adj e f /\ wfc r
    end
  end.

Lemma wfc_tail : forall e l, wfc (e :: l) -> wfc l.
Proof. intros e [|f l] H; cbn in *; tauto. Qed.

Lemma wfc_app_r : forall a b, wfc (a ++ b) -> wfc b.
Proof. induction a; intros b H; [exact H|]. apply IHa. eapply wfc_tail. exact H. Qed.

Lemma adj_eqc : forall e f e' f', eqc e e' -> eqc f f' -> adj e f -> adj e' f'.
Proof.
  intros e f e' f' A B H. eqcf A. eqcf B. unfold adj in *.
  rewrite <- Hu, <- Hp, <- Hlk, <- Hd, <- Hm, <- Hu0, <- Hd0. exact H.
Qed.

Lemma shr_hd : forall P l l' f, shr P (f :: l) l' -> wfc (f :: l) ->
  exists f' r', l' = f' :: r' /\ eu f' <= eu f /\ (ed f' = ed f) .
Proof.
  intros P l l' f H W. remember (f :: l) as k eqn:Ek. revert f l Ek W.
  induction H; intros f k Ek W; [discriminate| |]; inv Ek.
  - exists e', l'. eqcf H. repeat split; auto; lia.
  - destruct k as [|g k].
    + cbn in W. destruct W as (_ & _ & W & _). congruence.
    + cbn [wfc] in W. destruct W as [A W].
      destruct (IHshr g k eq_refl W) as (f' & r' & -> & B & C).
      exists f', r'. unfold adj in A. repeat split; [lia|].
      destruct A as (_ & _ & _ & A & _). specialize (A H). destruct A. congruence.
Qed.

Lemma shr_wfc : forall P l l', shr P l l' -> wfc l -> wfc l'.
Proof.
  intros P l l' H. induction H; intros W.
  - exact I.
  - destruct l as [|f l].
    + inv H0. cbn in *. eqcf H. rewrite <- Hu, <- Hp, <- Hlk, <- Hd, <- Hm. exact W.
    + destruct W as [A W]. specialize (IHshr W).
      destruct (shr_hd _ _ _ _ H0 W) as (f' & r' & -> & B & C).
      split; [|exact IHshr]. eqcf H. unfold adj in *.
      rewrite <- Hu, <- Hp, <- Hlk, <- Hd, <- Hm, C.
      destruct A as (A1 & A2 & A3 & A4 & A5 & A6 & A7). repeat split; auto; try lia.
      all: apply A4; assumption || apply A5; assumption.
  - eapply IHshr, wfc_tail; eauto.
Qed.

Lemma wfc_lt : forall a e b f, wfc (a ++ e :: b) -> In f b -> eu f < eu e.
Proof.
  intros a e b. revert a e. induction b as [|g b IH]; intros a e f W I; [contradiction|].
  apply wfc_app_r in W. cbn [wfc] in W. destruct W as [A W].
  destruct I as [->|I].
  - unfold adj in A. lia.
  - assert (eu f < eu g) by (apply (IH [] g f W I)). unfold adj in A. lia.
Qed.

Lemma wfc_above : forall a e b f, wfc (a ++ e :: b) -> In f a -> eu e < eu f /\ 0 <= eu f /\ ep f = eu f.
Proof.
  induction a as [|g a IH]; intros e b f W I; [contradiction|].
  destruct I as [->|I].
  - split.
    + apply (wfc_lt [] f (a ++ e :: b) e W). apply in_or_app. right. left. reflexivity.
    + cbn [app wfc] in W. destruct (a ++ e :: b) eqn:Q; [destruct a; discriminate|].
      destruct W as [A _]. unfold adj in A. lia.
  - eapply IH; eauto. eapply wfc_tail. exact W.
Qed.

Lemma wfc_eu : forall l e, wfc l -> In e l ->
  (0 <= eu e /\ ep e = eu e) \/ (eu e = -1 /\ 0 <= ep e /\ elk e = false /\ ed e = false /\ em e = 3).
Proof.
  induction l as [|g l IH]; intros e W I; [contradiction|].
  destruct I as [->|I].
  - destruct l as [|f l]; cbn in W.
    + right. tauto.
    + left. destruct W as [A _]. unfold adj in A. lia.
  - apply IH; auto. eapply wfc_tail; eauto.
Qed.

Lemma wfc_mode : forall l e, wfc l -> In e l -> elk e = false -> 2 <= em e <= 3.
Proof.
  induction l as [|g l IH]; intros e W I L; [contradiction|].
  destruct I as [->|I].
  - destruct l as [|f l]; cbn in W.
    + lia.
    + destruct W as [A _]. unfold adj in A. destruct A as (_ & _ & _ & _ & A & _). auto.
  - apply IH; auto. eapply wfc_tail; eauto.
Qed.

(** ** The conflict walk *)

Lemma rclean_chain : forall ret s, rchain (rclean ret s) = clean ret (rlast s) (rchain s).
Proof. intros. unfold rclean, rchain at 1. cbn. rewrite rev_involutive. apply firstn_skipn. Qed.

Lemma rclean_parts : forall ret s,
  eqcl (rpre s) (rpre (rclean ret s)) /\ eqcl (rrest s) (rrest (rclean ret s)).
Proof.
  intros ret s. unfold rclean. cbn.
  assert (H := clean_eqc ret (rlast s) (rchain s)). unfold rchain in *.
  destruct (eqcl_split _ _ _ H) as [A B]. rewrite rev_length in *.
  split; [|exact B].
  apply eqcl_rev in A. rewrite rev_involutive in A. exact A.
Qed.

Lemma rclean_shr : forall P ret s, shr P (rchain s) (rchain (rclean ret s)).
Proof. intros. apply eqcl_shr. rewrite rclean_chain. apply clean_eqc. Qed.

Definition Pdel (T : Z -> txr) (x : Z) (e : ent) : Prop := rdel T x e = true.

Lemma Pdel_ff : forall T x, flagfree (Pdel T x).
Proof.
  intros T x a b H. unfold Pdel, rdel. eqcf H. rewrite Hx, Hlk. auto.
Qed.

(** The current header is the one at the end of the passed part. *)
Definition Linv (s : rls) : Prop :=
  exists q p, rpre s = q :: p /\ eqc q (rcur s).

Definition same_place (s s' : rls) : Prop :=
  rpre s' = rpre s /\ rcur s' = rcur s /\ rrest s' = rrest s /\ ratt s' = ratt s /\ rlast s' = rlast s.

Lemma rclass_place : forall T mode x sp s, same_place s (rclass T mode x sp s).
Proof.
  intros. unfold rclass, same_place.
  repeat match goal with |- context [if ?b then _ else _] => destruct b end; cbn; auto.
Qed.

Lemma same_place_chain : forall s s', same_place s s' -> rchain s' = rchain s.
Proof. intros s s' (A & B & C & D & F). unfold rchain. congruence. Qed.

Lemma same_place_Linv : forall s s', same_place s s' -> Linv s -> Linv s'.
Proof. intros s s' (A & B & C & D & F) (q & p & G & H). exists q, p. rewrite A, B. auto. Qed.

Lemma rclean_Linv : forall ret s, Linv s -> Linv (rclean ret s).
Proof.
  intros ret s (q & p & A & B). destruct (rclean_parts ret s) as [C _].
  rewrite A in C. inv C. exists y, l'. split; [auto|].
  unfold rclean. cbn. eapply eqc_trans; [apply eqc_sym; eauto | exact B].
Qed.

Lemma chain_cons : forall (p : list ent) q r, rev (q :: p) ++ r = rev p ++ q :: r.
Proof. intros. cbn. rewrite <- app_assoc. reflexivity. Qed.

(** In a well-formed chain an unlinked lock and the entry below are not
    deleted entries. *)
Lemma lock_not_deleted : forall s pv rr, wfc (rchain s) -> Linv s -> elk (rcur s) = true ->
  rrest s = pv :: rr -> ed (rcur s) = false /\ ed pv = false.
Proof.
  intros s pv rr W (q & p & A & B) L R. unfold rchain in W. rewrite A, R, chain_cons in W.
  apply wfc_app_r in W. destruct W as [W _]. eqcf B. unfold adj in W.
  destruct W as (_ & _ & _ & W & _). rewrite Hlk, Hd in W. auto.
Qed.

Lemma runlink_shr : forall T x ret s pv rr, wfc (rchain s) -> Linv s ->
  rdel T x (rcur s) = true -> rrest s = pv :: rr ->
  shr (Pdel T x) (rchain s) (rchain (runlink ret s pv)) /\ Linv (runlink ret s pv) /\
  eqcl rr (rrest (runlink ret s pv)) /\ rcur (runlink ret s pv) = pv.
Proof.
  intros T x ret s pv rr W LI D R.
  assert (L : elk (rcur s) = true) by (unfold rdel in D; destruct (elk (rcur s)); auto; discriminate).
  destruct (lock_not_deleted s pv rr W LI L R) as [Ed1 Ed2].
  destruct LI as (q & p & A & B).
  assert (Dq : Pdel T x q) by (eapply Pdel_ff; eauto).
  assert (Lq : elk q = true) by (eqcf B; congruence).
  unfold runlink. rewrite A, Ed1, (set_d_same pv false Ed2).
  assert (G : forall s3 : rls, eqcl (q :: p) (rpre s3) -> eqcl (pv :: rr) (rrest s3) ->
     shr (Pdel T x) (rchain s)
       (rchain (RL (if ratt s then pv :: tl (rpre s3) else
            match rrest s3 with q0 :: _ => q0 :: rpre s3 | [] => rpre s3 end) pv
            (tl (rrest s3)) false (rlast s3) (rred s) (rstat s) (rres s) (rconf s))) /\
     Linv (RL (if ratt s then pv :: tl (rpre s3) else
            match rrest s3 with q0 :: _ => q0 :: rpre s3 | [] => rpre s3 end) pv
            (tl (rrest s3)) false (rlast s3) (rred s) (rstat s) (rres s) (rconf s)) /\
     eqcl rr (tl (rrest s3))).
  { intros s3 E1 E2. inv E1. inv E2. unfold rchain. cbn [rpre rrest tl rcur]. rewrite A, R, chain_cons.
    destruct (ratt s).
    - split; [|split].
      + rewrite chain_cons. apply shr_app.
        * apply eqcl_shr, eqcl_rev; assumption.
        * apply shr_drop; auto. constructor; [apply eqc_refl|]. apply eqcl_shr; assumption.
      + exists pv, l'. split; [reflexivity | apply eqc_refl].
      + assumption.
    - split; [|split].
      + rewrite !chain_cons. apply shr_app.
        * apply eqcl_shr, eqcl_rev; assumption.
        * constructor; [assumption|]. constructor; [assumption|]. apply eqcl_shr; assumption.
      + exists y0, (y :: l'). split; [reflexivity | apply eqc_sym; assumption].
      + assumption. }
  assert (G0 : eqcl (q :: p) (rpre (if ec (rcur s) then s else rclean ret s)) /\
               eqcl (pv :: rr) (rrest (if ec (rcur s) then s else rclean ret s))).
  { destruct (ec (rcur s)).
    - rewrite A, R. split; apply eqcl_refl.
    - rewrite <- A, <- R. apply rclean_parts. }
  destruct G0 as [G1 G2]. specialize (G _ G1 G2).
  destruct p as [|p0 p'].
  2:{ destruct G as (H1 & H2 & H3). split; [exact H1 | split; [exact H2 | split; [exact H3|reflexivity]]]. }
  destruct (ratt s) eqn:AT.
  2:{ destruct G as (H1 & H2 & H3). split; [exact H1 | split; [exact H2 | split; [exact H3|reflexivity]]]. }
  clear G. rewrite R. cbn [tl].
  set (s2 := RL [] (rcur s) (pv :: rr) false (rlast s) (rred s) (rstat s) (rres s) (rconf s)).
  assert (K : eqcl (pv :: rr) (rrest (if ec (rcur s) then s2 else rclean ret s2)) /\
              rpre (if ec (rcur s) then s2 else rclean ret s2) = []).
  { destruct (ec (rcur s)).
    - split; [apply eqcl_refl | reflexivity].
    - split; [apply (rclean_parts ret s2) | reflexivity]. }
  destruct K as [K1 K2]. inv K1. unfold rchain. cbn [rpre rrest tl rcur]. rewrite A, R.
  repeat split.
  - rewrite !chain_cons. cbn [rev app]. apply shr_drop; auto. constructor; [assumption|].
    apply eqcl_shr; assumption.
  - exists y, []. split; [reflexivity | apply eqc_sym; assumption].
  - assumption.
Qed.

Lemma rmove_shr : forall P ret s pv rr, Linv s -> rrest s = pv :: rr ->
  shr P (rchain s) (rchain (rmove ret s pv)) /\ Linv (rmove ret s pv) /\
  eqcl rr (rrest (rmove ret s pv)) /\ rcur (rmove ret s pv) = pv.
Proof.
  intros P ret s pv rr LI R. unfold rmove.
  set (s2 := RL (pv :: rpre s) pv (tl (rrest s)) true
    (if elk (rcur s) then eu (rcur s) else rlast s) (rred s) (rstat s) (rres s) (rconf s)).
  assert (C : rchain s2 = rchain s).
  { unfold rchain, s2. cbn [rpre rrest]. rewrite R, chain_cons. reflexivity. }
  assert (L2 : Linv s2) by (exists pv, (rpre s); split; [reflexivity | apply eqc_refl]).
  assert (R2 : rrest s2 = rr) by (unfold s2; cbn; rewrite R; reflexivity).
  destruct (ec (rcur s) && negb (ec pv) && negb (elk pv)).
  - rewrite <- C. split; [apply rclean_shr|]. split; [apply rclean_Linv; exact L2|].
    split; [|reflexivity]. rewrite <- R2. apply rclean_parts.
  - rewrite C. split; [apply shr_refl|]. split; [exact L2|]. split; [rewrite R2; apply eqcl_refl | reflexivity].
Qed.

Lemma rloop_shr : forall T mode x csn ret sp n s, wfc (rchain s) -> Linv s ->
  shr (Pdel T x) (rchain s) (rchain (rloop n T mode x csn ret sp s)).
Proof.
  intros T mode x csn ret sp n. induction n as [|n IH]; intros s W LI; cbn [rloop].
  - apply shr_refl.
  - destruct (negb (ec (rcur s) || elk (rcur s) || negb (xfinal T mode csn (rcur s)))); [apply shr_refl|].
    assert (SP := rclass_place T mode x sp s). set (s1 := rclass T mode x sp s) in *.
    assert (C1 := same_place_chain _ _ SP). assert (L1 := same_place_Linv _ _ SP LI).
    destruct SP as (P1 & P2 & P3 & P4 & P5).
    destruct ((eu (rcur s) <? 0) || (eu (rcur s) <? ret)).
    + destruct (ec (rcur s)); rewrite <- C1; [apply rclean_shr | apply shr_refl].
    + destruct (rrest s1) as [|pv rr] eqn:R1; [rewrite C1; apply shr_refl|].
      assert (W1 : wfc (rchain s1)) by (rewrite C1; exact W).
      destruct (rdel T x (rcur s)) eqn:D.
      * assert (D1 : rdel T x (rcur s1) = true) by (rewrite P2; exact D).
        destruct (runlink_shr T x ret s1 pv rr W1 L1 D1 R1) as (A & B & _).
        rewrite <- C1. eapply shr_trans; [apply Pdel_ff | exact A |].
        apply IH; [eapply shr_wfc; eauto | exact B].
      * destruct (rmove_shr (Pdel T x) ret s1 pv rr L1 R1) as (A & B & _).
        rewrite <- C1. eapply shr_trans; [apply Pdel_ff | exact A |].
        apply IH; [eapply shr_wfc; eauto | exact B].
Qed.

Lemma rlc_shr : forall T mode x csn ret sp l, wfc l ->
  shr (Pdel T x) l (rchain (rlc T mode x csn ret sp l)).
Proof.
  intros T mode x csn ret sp [|e r] W; [constructor|].
  unfold rlc. apply (rloop_shr T mode x csn ret sp _ (RL [e] e r true (-1) false 0 false 0)); [exact W|]. exists e, []. split; [reflexivity | apply eqc_refl].
Qed.

(** ** What the walk reports *)

(** The walk has taken the entry [f] into account. *)
Definition processed (mode x : Z) (s : rls) (f : ent) : Prop :=
  (ex f <> x -> conf (em f) mode = true -> rres s = true /\ rconf s <> x) /\
  (ex f = x -> 1 <= rstat s /\ (mode <= em f -> 2 <= rstat s)).

Definition rep_same (s s' : rls) : Prop :=
  rstat s' = rstat s /\ rres s' = rres s /\ rconf s' = rconf s.

Lemma rep_same_processed : forall mode x s s' f, rep_same s s' ->
  processed mode x s f -> processed mode x s' f.
Proof. intros mode x s s' f (A & B & C) H. unfold processed in *. rewrite A, B, C. exact H. Qed.

Lemma runlink_rep : forall ret s pv, rep_same s (runlink ret s pv).
Proof.
  intros. unfold rep_same, runlink.
  destruct (rpre s) as [|a [|b p]]; [|destruct (ratt s)|]; cbn; auto.
Qed.

Lemma rmove_rep : forall ret s pv, rep_same s (rmove ret s pv).
Proof.
  intros. unfold rep_same, rmove.
  destruct (ec (rcur s) && negb (ec pv) && negb (elk pv)); cbn; auto.
Qed.

Lemma rclass_keeps : forall T mode x sp s f, processed mode x s f ->
  processed mode x (rclass T mode x sp s) f.
Proof.
  intros T mode x sp s f [A B]. unfold rclass, processed.
  split; intros; [specialize (A H H0) | specialize (B H)].
  - destruct A as [A1 A2]. rewrite A1.
    assert (rconf s =? x = false) as -> by lia. cbn [negb orb andb].
    repeat match goal with |- context [if ?b then _ else _] => destruct b eqn:? end; cbn; auto.
    all: rewrite ?andb_false_r in *; discriminate.
  - repeat match goal with |- context [if ?b then _ else _] => destruct b eqn:? end; cbn; auto; lia.
Qed.

Lemma rclass_does : forall T mode x sp s, tst (T (ex (rcur s))) = InProg ->
  processed mode x (rclass T mode x sp s) (rcur s).
Proof.
  intros T mode x sp s L. unfold rclass, processed.
  assert (I : inpr T (ex (rcur s)) = true) by (unfold inpr; rewrite L; reflexivity).
  assert (F : fin T (ex (rcur s)) = false) by (unfold fin; rewrite L; reflexivity).
  unfold xfinished. rewrite I, F. cbn [negb].
  split.
  - intros N C. rewrite C. assert (ex (rcur s) =? x = false) as -> by lia. cbn [negb andb].
    rewrite ?andb_true_r. destruct (elk (rcur s)).
    + destruct (rres s) eqn:R; cbn [negb orb].
      * destruct (rconf s =? x) eqn:Q; cbn; split; auto; lia.
      * cbn. split; auto; lia.
    + cbn [negb]. destruct (rres s) eqn:R; cbn [negb orb].
      * destruct (rconf s =? x) eqn:Q; cbn; split; auto; lia.
      * cbn. split; auto; lia.
  - intros Q. rewrite Q, Z.eqb_refl.
    destruct (elk (rcur s)); [cbn; destruct (mode <=? em (rcur s)) eqn:?; lia|].
    destruct (conf (em (rcur s)) mode); cbn [negb];
      repeat match goal with |- context [if ?b then _ else _] => destruct b eqn:? end; cbn; lia.
Qed.

Lemma rloop_keeps : forall T mode x csn ret sp n s f, processed mode x s f ->
  processed mode x (rloop n T mode x csn ret sp s) f.
Proof.
  intros T mode x csn ret sp n. induction n as [|n IH]; intros s f H; cbn [rloop]; auto.
  destruct (negb (ec (rcur s) || elk (rcur s) || negb (xfinal T mode csn (rcur s)))); auto.
  assert (H1 := rclass_keeps T mode x sp s f H). set (s1 := rclass T mode x sp s) in *.
  destruct ((eu (rcur s) <? 0) || (eu (rcur s) <? ret)).
  - destruct (ec (rcur s)); auto.
  - destruct (rrest s1) as [|pv rr] eqn:R1; auto.
    destruct (rdel T x (rcur s)); apply IH.
    + eapply rep_same_processed; [apply runlink_rep | exact H1].
    + eapply rep_same_processed; [apply rmove_rep | exact H1].
Qed.

(** No header without the flag is above a live lock. *)
Definition FI (T : Z -> txr) (l : list ent) : Prop :=
  forall a e b f, l = a ++ e :: b -> ec e = false -> In f b -> ~ live_lock T f.

Lemma FI_tail : forall T e l, FI T (e :: l) -> FI T l.
Proof. intros T e l H a e' b f Q. apply (H (e :: a) e' b f). cbn. congruence. Qed.

Definition passes (T : Z -> txr) (e : ent) : Prop := elk e = true \/ tst (T (ex e)) = InProg.

Lemma passes_eqc : forall T e e', eqc e e' -> passes T e -> passes T e'.
Proof. intros T e e' H. eqcf H. unfold passes. rewrite Hx, Hlk. auto. Qed.

(** How the walk gets to a live entry below the current one: the headers in
    between need no flag, or all flags are right and the entry is a lock. *)
Definition way (T : Z -> txr) (ret : Z) (s : rls) (f : ent) : Prop :=
  exists a g b, rrest s = a ++ g :: b /\ eqc f g /\
    Forall (fun e => 0 <= eu e /\ ret <= eu e) (rcur s :: a) /\
    (Forall (passes T) (rcur s :: a) \/
     (elk f = true /\ FI T (rcur s :: rrest s))).

Lemma Forall_eqcl : forall (P : ent -> Prop) l l', (forall e e', eqc e e' -> P e -> P e') ->
  eqcl l l' -> Forall P l -> Forall P l'.
Proof. intros P l l' H E. induction E; intros F; auto. inv F. constructor; eauto. Qed.

Lemma live_lock_eqc : forall T e e', eqc e e' -> live_lock T e -> live_lock T e'.
Proof. intros T e e' H. eqcf H. unfold live_lock. rewrite Hx, Hlk. auto. Qed.

(** The next header reached, below [e], when nothing live is hidden. *)
Lemma way_next : forall T ret s s' pv rr f,
  tst (T (ex f)) = InProg -> rrest s = pv :: rr -> rcur s' = pv -> eqcl rr (rrest s') ->
  (ec (rcur s) = true -> (ec pv = true \/ elk pv = true) -> rrest s' = rr) ->
  (ec (rcur s) = true -> ec pv = false -> elk pv = false -> True) ->
  (ec (rcur s) = false -> elk (rcur s) = false -> rrest s' = rr) ->
  way T ret s f -> eqc f (rcur s') \/ way T ret s' f.
Proof.
  intros T ret s s' pv rr f L R C E K1 _ K2 (a & g & b & A & B & F & D).
  rewrite R in A. destruct a as [|z a]; cbn [app] in A.
  - injection A as <- <-. left. rewrite C. assumption.
  - injection A as <- A. rewrite A in *. clear A. right.
    destruct (Forall2_app_inv_l _ _ E) as (a' & b' & Ea & Eb & Q).
    destruct b' as [|y l']; [inversion Eb|].
    assert (Ey : eqc g y) by (inversion Eb; assumption).
    exists a', y, l'. split; [exact Q|]. split; [eapply eqc_trans; eauto|]. rewrite C.
    inversion F as [|? ? F1 F2]. inversion F2 as [|? ? F3 F4]. split.
    { constructor; [assumption|]. eapply Forall_eqcl; [|exact Ea|eassumption].
      cbn. intros e e' Z. eqcf Z. rewrite Hu. auto. }
    destruct D as [D|[D1 D2]].
    + left. inversion D as [|? ? G1 G2]. inversion G2. constructor; [assumption|].
      eapply Forall_eqcl; [|exact Ea|eassumption]. intros e e'. apply passes_eqc.
    + right. split; [exact D1|].
      assert (LL : live_lock T g).
      { eapply live_lock_eqc; [exact B|]. split; assumption. }
      assert (NF : ec (rcur s) = true).
      { destruct (ec (rcur s)) eqn:Ec; auto. exfalso.
        apply (D2 [] (rcur s) (rrest s) g eq_refl Ec); [|exact LL].
        rewrite R. right. apply in_or_app. right. left. reflexivity. }
      assert (NP : ec pv = true).
      { destruct (ec pv) eqn:Ec; auto. exfalso.
        apply (D2 [rcur s] pv (a ++ g :: b) g); [rewrite R; reflexivity | exact Ec | | exact LL].
        apply in_or_app. right. left. reflexivity. }
      rewrite (K1 NF (or_introl NP)). rewrite <- R. eapply FI_tail. exact D2.
Qed.

Lemma rloop_reach : forall T mode x csn ret sp n s f,
  tst (T (ex f)) = InProg -> tst (T x) = InProg ->
  wfc (rchain s) -> Linv s -> (length (rrest s) < n)%nat ->
  eqc f (rcur s) \/ way T ret s f ->
  processed mode x (rloop n T mode x csn ret sp s) f.
Proof.
  intros T mode x csn ret sp n. induction n as [|n IH]; intros s f L LX W LI N H; [lia|].
  cbn [rloop].
  assert (SP := rclass_place T mode x sp s). 
  destruct H as [H|H].
  - (* the current header is the target *)
    assert (Hf : processed mode x (rclass T mode x sp s) f).
    { eqcf H. assert (Z := rclass_does T mode x sp s). rewrite <- Hx in Z. specialize (Z L).
      unfold processed in *. rewrite Hx, Hm. exact Z. }
    eqcf H.
    assert (Cn : ec (rcur s) || elk (rcur s) || negb (xfinal T mode csn (rcur s)) = true).
    { unfold xfinal, fin, csn_lt. rewrite <- Hx, L.
      destruct (conf (em (rcur s)) mode); rewrite !orb_true_r; reflexivity. }
    rewrite Cn. cbn [negb]. set (s1 := rclass T mode x sp s) in *.
    destruct ((eu (rcur s) <? 0) || (eu (rcur s) <? ret)).
    + destruct (ec (rcur s)); auto.
    + destruct (rrest s1) as [|pv rr]; auto.
      destruct (rdel T x (rcur s)); apply rloop_keeps.
      * eapply rep_same_processed; [apply runlink_rep | exact Hf].
      * eapply rep_same_processed; [apply rmove_rep | exact Hf].
  - (* further down *)
    assert (Hw := H). destruct Hw as (a & g & b & A & B & F & D).
    assert (Cn : ec (rcur s) || elk (rcur s) || negb (xfinal T mode csn (rcur s)) = true).
    { destruct D as [D|[D1 D2]].
      - inv D. destruct H2 as [P|P]; [rewrite P, !orb_true_r; reflexivity|].
        unfold xfinal, fin, csn_lt. rewrite P.
        destruct (conf (em (rcur s)) mode); rewrite !orb_true_r; reflexivity.
      - destruct (ec (rcur s)) eqn:Ec; [reflexivity|]. exfalso.
        apply (D2 [] (rcur s) (rrest s) g eq_refl Ec).
        + rewrite A. apply in_or_app. right. left. reflexivity.
        + eapply live_lock_eqc; [exact B|]. split; assumption. }
    rewrite Cn. cbn [negb]. 
    assert (C1 := same_place_chain _ _ SP). assert (L1 := same_place_Linv _ _ SP LI).
    set (s1 := rclass T mode x sp s) in *.
    destruct SP as (P1 & P2 & P3 & P4 & P5).
    assert (Cu : (eu (rcur s) <? 0) || (eu (rcur s) <? ret) = false) by (inv F; lia).
    rewrite Cu.
    assert (W1 : wfc (rchain s1)) by (rewrite C1; exact W).
    assert (Hw1 : way T ret s1 f).
    { unfold way. rewrite P2, P3. exact H. }
    destruct (rrest s1) as [|pv rr] eqn:R1.
    { rewrite <- P3 in A. destruct a; discriminate. }
    assert (Nn : (length rr < n)%nat) by (rewrite <- P3, ?R1 in N; cbn in N; lia).
    destruct (rdel T x (rcur s)) eqn:Dl.
    + assert (D1 : rdel T x (rcur s1) = true) by (rewrite P2; exact Dl).
      destruct (runlink_shr T x ret s1 pv rr W1 L1 D1 R1) as (S1 & S2 & S3 & S4).
      apply IH; auto.
      * eapply shr_wfc; eauto.
      * rewrite <- (eqcl_len _ _ S3). exact Nn.
      * assert (Lk : elk (rcur s1) = true)
          by (unfold rdel in D1; destruct (elk (rcur s1)); auto; discriminate).
        eapply way_next with (s := s1) (pv := pv) (rr := rr); eauto.
        -- intros Ec _. unfold runlink. rewrite Ec.
           destruct (rpre s1) as [|q [|q2 p]]; [|destruct (ratt s1)|]; cbn; rewrite ?R1; reflexivity.
        -- intros _ Z. congruence.
    + destruct (rmove_shr (Pdel T x) ret s1 pv rr L1 R1) as (S1 & S2 & S3 & S4).
      apply IH; auto.
      * eapply shr_wfc; eauto.
      * rewrite <- (eqcl_len _ _ S3). exact Nn.
      * eapply way_next with (s := s1) (pv := pv) (rr := rr); eauto.
        -- intros Ec Z. unfold rmove.
           assert (ec (rcur s1) && negb (ec pv) && negb (elk pv) = false) as ->.
           { destruct Z as [-> | ->]; rewrite ?andb_false_r; reflexivity. }
           cbn. rewrite R1. reflexivity.
        -- intros Ec _. unfold rmove. rewrite Ec. cbn. rewrite R1. reflexivity.
Qed.

(** The reported lock status comes from an entry of the asking transaction. *)
Definition stat_from (mode x : Z) (s : rls) : Prop :=
  0 <= rstat s <= 2 /\
  (1 <= rstat s -> exists f, In f (rchain s) /\ ex f = x) /\
  (2 <= rstat s -> exists f, In f (rchain s) /\ ex f = x /\ mode <= em f).

Lemma stat_from_shr : forall P mode x s s', shr P (rchain s) (rchain s') ->
  (forall f, P f -> ex f <> x) -> rstat s' = rstat s -> stat_from mode x s -> stat_from mode x s'.
Proof.
  intros P mode x s s' H N R (A & B & C). unfold stat_from. rewrite R.
  split; [exact A|]. split.
  - intros Z. destruct (B Z) as (f & I & Q).
    destruct (shr_keeps _ _ _ _ H I) as (f' & I' & E); [intros Pf; apply (N f Pf Q)|].
    exists f'. eqcf E. split; congruence.
  - intros Z. destruct (C Z) as (f & I & Q & M).
    destruct (shr_keeps _ _ _ _ H I) as (f' & I' & E); [intros Pf; apply (N f Pf Q)|].
    exists f'. eqcf E. repeat split; congruence || lia.
Qed.

Lemma Pdel_other : forall T x f, Pdel T x f -> ex f <> x.
Proof. intros T x f H. unfold Pdel, rdel in H. lia. Qed.

Lemma rclass_stat : forall T mode x sp s, Linv s -> stat_from mode x s ->
  stat_from mode x (rclass T mode x sp s).
Proof.
  intros T mode x sp s (q & p & A & B) (S0 & S1 & S2).
  assert (C := same_place_chain _ _ (rclass_place T mode x sp s)).
  assert (Iq : In q (rchain s)) by (unfold rchain; rewrite A, chain_cons; apply in_or_app; right; left; reflexivity).
  eqcf B. unfold stat_from. rewrite C.
  assert (O : rstat (rclass T mode x sp s) = rstat s \/
              (ex (rcur s) = x /\ rstat (rclass T mode x sp s) = Z.max (rstat s) (if mode <=? em (rcur s) then 2 else 1))).
  { unfold rclass.
    repeat match goal with |- context [if ?b then _ else _] => destruct b eqn:? end; cbn; auto;
      right; split; auto; lia. }
  destruct O as [O|[O1 O2]]; rewrite ?O, ?O2; [auto|].
  split; [destruct (mode <=? em (rcur s)); lia|]. split.
  - intros _. exists q. split; congruence.
  - intros Z. destruct (mode <=? em (rcur s)) eqn:M.
    + exists q. repeat split; [assumption|congruence|lia].
    + apply S2. lia.
Qed.

Lemma rloop_stat : forall T mode x csn ret sp n s, wfc (rchain s) -> Linv s ->
  stat_from mode x s -> stat_from mode x (rloop n T mode x csn ret sp s).
Proof.
  intros T mode x csn ret sp n. induction n as [|n IH]; intros s W LI H; cbn [rloop]; auto.
  destruct (negb (ec (rcur s) || elk (rcur s) || negb (xfinal T mode csn (rcur s)))); auto.
  assert (SP := rclass_place T mode x sp s).
  assert (H1 := rclass_stat T mode x sp s LI H). set (s1 := rclass T mode x sp s) in *.
  assert (C1 := same_place_chain _ _ SP). assert (L1 := same_place_Linv _ _ SP LI).
  destruct SP as (P1 & P2 & P3 & P4 & P5).
  assert (W1 : wfc (rchain s1)) by (rewrite C1; exact W).
  destruct ((eu (rcur s) <? 0) || (eu (rcur s) <? ret)).
  - destruct (ec (rcur s)); auto.
    eapply stat_from_shr with (P := Pdel T x); [apply rclean_shr | apply Pdel_other | reflexivity | exact H1].
  - destruct (rrest s1) as [|pv rr] eqn:R1; auto.
    destruct (rdel T x (rcur s)) eqn:D.
    + assert (D1 : rdel T x (rcur s1) = true) by (rewrite P2; exact D).
      destruct (runlink_shr T x ret s1 pv rr W1 L1 D1 R1) as (S1 & S2 & _).
      apply IH; [eapply shr_wfc; eauto | exact S2 |].
      eapply stat_from_shr; [exact S1 | apply Pdel_other | apply runlink_rep | exact H1].
    + destruct (rmove_shr (Pdel T x) ret s1 pv rr L1 R1) as (S1 & S2 & _).
      apply IH; [eapply shr_wfc; eauto | exact S2 |].
      eapply stat_from_shr; [exact S1 | apply Pdel_other | apply rmove_rep | exact H1].
Qed.

Lemma rlc_stat : forall T mode x csn ret sp l, wfc l ->
  stat_from mode x (rlc T mode x csn ret sp l).
Proof.
  intros T mode x csn ret sp [|e r] W.
  - unfold stat_from. cbn. repeat split; lia.
  - unfold rlc. apply rloop_stat; [exact W | exists e, []; split; [reflexivity | apply eqc_refl] |].
    unfold stat_from. cbn. repeat split; lia.
Qed.

(** Every live entry is taken into account, when the headers above it need no
    flag or the flags are right. *)
Lemma rlc_reach : forall T mode x csn ret sp l a f b,
  wfc l -> l = a ++ f :: b -> tst (T (ex f)) = InProg -> tst (T x) = InProg ->
  Forall (fun e => ret <= eu e) a ->
  Forall (passes T) a \/ (elk f = true /\ FI T l) ->
  processed mode x (rlc T mode x csn ret sp l) f.
Proof.
  intros T mode x csn ret sp l a f b W Q L LX R K. subst l.
  assert (G : exists e r, a ++ f :: b = e :: r) by (destruct a; cbn; eauto).
  destruct G as (e & r & G). rewrite G in *. unfold rlc.
  apply rloop_reach; auto.
  - exists e, []. split; [reflexivity | apply eqc_refl].
  - cbn [rcur]. destruct a as [|z a]; cbn in G; inv G.
    + left. apply eqc_refl.
    + right. exists a, f, b. cbn [rrest rcur]. split; [reflexivity|]. split; [apply eqc_refl|].
      split; [|exact K].
      change (e :: a ++ f :: b) with ((e :: a) ++ f :: b) in W.
      rewrite Forall_forall in *. intros z Iz. specialize (R z Iz).
      destruct (wfc_above _ _ _ _ W Iz) as (_ & P & _). lia.
Qed.

(** ** Removal of own redundant locks *)

Lemma qclean_chain : forall ret s, qchain (qclean ret s) = clean ret (qlast s) (qchain s).
Proof. intros. unfold qclean, qchain at 1. cbn. rewrite rev_involutive. apply firstn_skipn. Qed.

Lemma qclean_parts : forall ret s,
  eqcl (qpre s) (qpre (qclean ret s)) /\ eqcl (qrest s) (qrest (qclean ret s)).
Proof.
  intros ret s. unfold qclean. cbn.
  assert (H := clean_eqc ret (qlast s) (qchain s)). unfold qchain in *.
  destruct (eqcl_split _ _ _ H) as [A B]. rewrite rev_length in *.
  split; [|exact B].
  apply eqcl_rev in A. rewrite rev_involutive in A. exact A.
Qed.

Definition Qdel (mode x sp : Z) (e : ent) : Prop := qdel mode x sp e = true.

Lemma Qdel_ff : forall mode x sp, flagfree (Qdel mode x sp).
Proof. intros mode x sp a b H. unfold Qdel, qdel. eqcf H. rewrite Hx, Hlk, Hm, Hu. auto. Qed.

Definition Qinv (s : rrs) : Prop := exists q p, qpre s = q :: p /\ eqc q (qcur s).

Lemma qlock_not_deleted : forall s h rr, wfc (qchain s) -> Qinv s -> elk (qcur s) = true ->
  qrest s = h :: rr -> ed (qcur s) = false /\ ed h = false.
Proof.
  intros s h rr W (q & p & A & B) L R. unfold qchain in W. rewrite A, R, chain_cons in W.
  apply wfc_app_r in W. destruct W as [W _]. eqcf B. unfold adj in W.
  destruct W as (_ & _ & _ & W & _). rewrite Hlk, Hd in W. auto.
Qed.

Lemma qunlink_shr : forall mode x sp ret s h rr, wfc (qchain s) -> Qinv s ->
  qdel mode x sp (qcur s) = true -> qrest s = h :: rr ->
  shr (Qdel mode x sp) (qchain s) (qchain (qunlink ret s h)) /\ Qinv (qunlink ret s h).
Proof.
  intros mode x sp ret s h rr W LI D R.
  assert (L : elk (qcur s) = true) by (unfold qdel in D; destruct (elk (qcur s)); auto; discriminate).
  destruct (qlock_not_deleted s h rr W LI L R) as [Ed1 Ed2].
  destruct LI as (q & p & A & B).
  assert (Dq : Qdel mode x sp q) by (eapply Qdel_ff; eauto).
  assert (Lq : elk q = true) by (eqcf B; congruence).
  unfold qunlink. rewrite A.
  assert (G0 : eqcl (q :: p) (qpre (if ec (qcur s) then s else qclean ret s)) /\
               eqcl (h :: rr) (qrest (if ec (qcur s) then s else qclean ret s))).
  { destruct (ec (qcur s)).
    - rewrite A, R. split; apply eqcl_refl.
    - rewrite <- A, <- R. apply qclean_parts. }
  destruct G0 as [G1 G2].
  set (s3 := if ec (qcur s) then s else qclean ret s) in *.
  assert (G : 
     shr (Qdel mode x sp) (qchain s)
       (qchain (RR (if qatt s then h :: tl (qpre s3) else
            match qrest s3 with q0 :: _ => q0 :: qpre s3 | [] => qpre s3 end) h
            (tl (qrest s3)) false (qloc s))) /\
     Qinv (RR (if qatt s then h :: tl (qpre s3) else
            match qrest s3 with q0 :: _ => q0 :: qpre s3 | [] => qpre s3 end) h
            (tl (qrest s3)) false (qloc s))).
  { inv G1. inv G2. unfold qchain. cbn [qpre qrest tl qcur]. rewrite A, R, chain_cons.
    destruct (qatt s).
    - split.
      + rewrite chain_cons. apply shr_app.
        * apply eqcl_shr, eqcl_rev; assumption.
        * apply shr_drop; auto. constructor; [apply eqc_refl|]. apply eqcl_shr; assumption.
      + exists h, l'. split; [reflexivity | apply eqc_refl].
    - split.
      + rewrite !chain_cons. apply shr_app.
        * apply eqcl_shr, eqcl_rev; assumption.
        * constructor; [assumption|]. constructor; [assumption|]. apply eqcl_shr; assumption.
      + exists y0, (y :: l'). split; [reflexivity | apply eqc_sym; assumption]. }
  destruct p as [|p0 p']; [|exact G].
  destruct (qatt s); [|exact G].
  clear G. unfold qchain. cbn [qpre qrest]. rewrite A, R. cbn [tl rev app].
  assert (Edq : ed q = false) by (eqcf B; congruence).
  assert (Eh : eqc h (set_d (set_c h (ec q)) (ed q))).
  { rewrite Edq, set_d_same; [apply eqc_set_c | destruct h; exact Ed2]. }
  split.
  - apply shr_drop; auto. constructor; [exact Eh | apply shr_refl].
  - eexists _, []. split; [reflexivity | apply eqc_sym; exact Eh].
Qed.

Lemma qmove_shr : forall P s h rr, Qinv s -> qrest s = h :: rr ->
  shr P (qchain s) (qchain (qmove s h)) /\ Qinv (qmove s h).
Proof.
  intros P s h rr LI R. unfold qmove. split.
  - unfold qchain. cbn [qpre qrest]. rewrite R, chain_cons. apply shr_refl.
  - eexists _, _. split; [reflexivity | apply eqc_refl].
Qed.

Lemma qloop_shr : forall T mode x ret sp n s, wfc (qchain s) -> Qinv s ->
  shr (Qdel mode x sp) (qchain s) (qchain (qloop n T mode x ret sp s)).
Proof.
  intros T mode x ret sp n. induction n as [|n IH]; intros s W LI; cbn [qloop].
  - apply shr_refl.
  - match goal with |- context [if ?b then _ else _] => destruct b end; [apply shr_refl|].
    destruct (qrest s) as [|h rr] eqn:R; [apply shr_refl|].
    destruct (qdel mode x sp (qcur s)) eqn:D.
    + destruct (qunlink_shr mode x sp ret s h rr W LI D R) as [A B].
      eapply shr_trans; [apply Qdel_ff | exact A |].
      apply IH; [eapply shr_wfc; eauto | exact B].
    + destruct (qmove_shr (Qdel mode x sp) s h rr LI R) as [A B].
      eapply shr_trans; [apply Qdel_ff | exact A |].
      apply IH; [eapply shr_wfc; eauto | exact B].
Qed.

Lemma remred_shr : forall T mode x ret sp l, wfc l ->
  shr (Qdel mode x sp) l (remred T mode x ret sp l).
Proof.
  intros T mode x ret sp [|e r] W; [constructor|].
  unfold remred. apply (qloop_shr T mode x ret sp _ (RR [e] e r true (-1))); [exact W|]. exists e, []. split; [reflexivity | apply eqc_refl].
Qed.

(** ** Undo of a lock *)

Lemma lfind_spec : forall T x loc l n hu last k la, lfind T x loc n hu last l = Some (k, la) ->
  exists a e f b, l = a ++ e :: f :: b /\ k = (n + length a)%nat /\
    elk e = true /\ ex e = x /\ eu e = loc.
Proof.
  intros T x loc l. induction l as [|e r IH]; intros n hu last k la H; [discriminate|].
  cbn [lfind] in H. destruct r as [|f b]; [discriminate|].
  destruct (negb (fin T (ex e)) || ec e); [|discriminate].
  destruct (elk e && (ex e =? x) && (eu e =? loc)) eqn:M.
  - inv H. exists [], e, f, b. cbn. repeat split; lia.
  - destruct (IH _ _ _ _ _ H) as (a & e1 & f1 & b1 & A & B & C & D & F).
    exists (e :: a), e1, f1, b1. rewrite A. cbn. repeat split; auto. lia.
Qed.

Lemma eqcl_firstn : forall n l l', eqcl l l' -> eqcl (firstn n l) (firstn n l').
Proof. induction n; intros l l' H; cbn; [constructor|]. inv H; constructor; auto. apply IHn; auto. Qed.
Lemma eqcl_skipn : forall n l l', eqcl l l' -> eqcl (skipn n l) (skipn n l').
Proof. induction n; intros l l' H; cbn; [auto|]. inv H; [constructor|]. apply IHn; auto. Qed.

Lemma undo_lock_shr : forall T x ret it l, wfc l ->
  shr (fun e => ex e = x /\ eu e = il it /\ elk e = true) l (undo_lock T x ret it l).
Proof.
  intros T x ret it l W. unfold undo_lock.
  destruct (lfind T x (il it) 0 (-1) (-1) l) as [[k la]|] eqn:Q; [|apply shr_refl].
  destruct (lfind_spec _ _ _ _ _ _ _ _ _ Q) as (a & e & f & b & A & B & C & D & F).
  cbn in B. subst k l. rewrite nth_error_app2, Nat.sub_diag by lia.
  rewrite nth_error_app2 by lia. replace (S (length a) - length a)%nat with 1%nat by lia. cbn [nth_error].
  set (l1 := if ec e then a ++ e :: f :: b else clean ret la (a ++ e :: f :: b)).
  assert (E : eqcl (a ++ e :: f :: b) l1) by (unfold l1; destruct (ec e); [apply eqcl_refl | apply clean_eqc]).
  assert (Wl := wfc_app_r _ _ W). destruct Wl as [Ad _]. unfold adj in Ad.
  destruct Ad as (_ & _ & _ & Ad & _). destruct (Ad C) as [E1 E2].
  rewrite E1, (set_d_same f false E2).
  assert (E3 := eqcl_firstn (length a) _ _ E). assert (E4 := eqcl_skipn (S (S (length a))) _ _ E).
  rewrite firstn_app, Nat.sub_diag, firstn_all in E3. cbn [firstn] in E3. rewrite app_nil_r in E3.
  replace (S (S (length a))) with (length a + 2)%nat in E4 by lia.
  rewrite skipn_app in E4. rewrite skipn_all2 in E4 by lia.
  replace (length a + 2 - length a)%nat with 2%nat in E4 by lia. cbn [app skipn] in E4.
  replace (S (S (length a))) with (length a + 2)%nat by lia.
  apply shr_app; [apply eqcl_shr; exact E3|].
  apply shr_drop; auto. constructor; [apply eqc_refl|]. apply eqcl_shr. exact E4.
Qed.
