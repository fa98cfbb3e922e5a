(** The wait list of the page latch: structure of the linked lists during an unlock, and
    absence of lost wake-ups. *)
From Coq Require Import ZArith List Bool Lia Permutation.
From Coq Require Import ZifyBool ZifyNat.
From Verif Require Import Base LatchModel LatchProofs.
Import ListNotations.
Open Scope Z_scope.

(** Linked segments. *)
Fixpoint seg (nx : Z -> Z) (a : Z) (l : list Z) (b : Z) : Prop :=
  match l with [] => a = b | x :: r => a = x /\ seg nx (nx x) r b end.
Lemma seg_app : forall nx l1 l2 a b c, seg nx a l1 b -> seg nx b l2 c -> seg nx a (l1 ++ l2) c.
Proof. induction l1; cbn; intros l2 a0 b c H1 H2; [subst; auto|]. destruct H1; split; auto. eapply IHl1; eauto. Qed.
Lemma seg_ext : forall nx nx' l a b, (forall x, In x l -> nx' x = nx x) -> seg nx a l b -> seg nx' a l b.
Proof. induction l; cbn; intros a0 b H S; auto. destruct S; split; auto. rewrite H by auto. apply IHl; auto. Qed.
Lemma seg_upd : forall nx p v l a b, ~ In p l -> seg nx a l b -> seg (upd nx p v) a l b.
Proof. intros. apply (seg_ext nx); auto. intros x Hx. apply upd_other. intro. subst. auto. Qed.
Lemma seg_last : forall nx z c l a b, NoDup (l ++ [z]) -> seg nx a (l ++ [z]) b -> seg (upd nx z c) a (l ++ [z]) c.
Proof.
  induction l; cbn; intros a0 b N S.
  - rewrite upd_same. tauto.
  - inv N. destruct S as [-> S]. split; auto. rewrite upd_other. { eapply IHl; eauto. }
    intro. subst. apply H1. apply in_or_app. cbn. auto.
Qed.
Lemma seg_loop : forall nx a l, seg nx a l a -> ~ In a l -> l = [].
Proof. intros nx a [|x l] S N; auto. destruct S as [-> _]. cbn in N. tauto. Qed.
Lemma seg_head : forall nx a l b, seg nx a l b -> l <> [] -> In a l.
Proof. intros nx a [|x l] b S N; [contradiction|]. destruct S as [-> _]. cbn. auto. Qed.
Lemma NoDup_app_iff : forall (a b : list Z), NoDup (a ++ b) <-> NoDup a /\ NoDup b /\ (forall x, In x a -> ~ In x b).
Proof.
  induction a; cbn; intros b.
  - split; [intros; repeat split; auto; constructor|tauto].
  - split.
    + intros H. inv H. apply IHa in H3 as (A & B & C). rewrite in_app_iff in H2. repeat split; auto.
      * constructor; tauto.
      * intros x [->|X]; auto.
    + intros (A & B & C). inv A. constructor.
      * rewrite in_app_iff. intros [X|X]; auto. apply (C a); auto.
      * apply IHa. repeat split; auto.
Qed.
Lemma filter_perm : forall (f : Z -> bool) l, Permutation (filter f l ++ filter (fun x => negb (f x)) l) l.
Proof.
  induction l; cbn; [constructor|]. destruct (f a); cbn.
  - constructor. auto.
  - apply Permutation_sym. apply Permutation_cons_app. apply Permutation_sym. auto.
Qed.
Lemma last_app1 : forall (l : list Z) a d, last (l ++ [a]) d = a.
Proof. intros. apply last_last. Qed.
Lemma last_split : forall (l : list Z) d, l <> [] -> exists l', l = l' ++ [last l d].
Proof. intros l d H. exists (removelast l). apply app_removelast_last. auto. Qed.
Lemma last_in : forall (l : list Z) d, l <> [] -> In (last l d) l.
Proof. intros l d H. destruct (last_split l d H) as [l' E]. rewrite E at 2. apply in_or_app. cbn. auto. Qed.
Lemma on_list_in : forall nx n t q l, seg nx t l INV -> on_list n nx t q = true -> In q l.
Proof.
  induction n; cbn; intros t q l S H; [discriminate|]. destruct l as [|x l]; cbn in S.
  - subst. rewrite Z.eqb_refl in H. discriminate.
  - destruct S as [-> S]. apply andb_true_iff in H as [_ H]. apply orb_true_iff in H as [H|H].
    + apply Z.eqb_eq in H. subst. cbn. auto.
    + right. eapply IHn; eauto.
Qed.

(** The walk and the patch. *)
Definition wakes (s : state) (sp : bool) (x : Z) : bool := should_wake (stat s x) (ins s x) sp.
Definition ecok (ex : bool) (ec ecp : Z) (K : list Z) : Prop :=
  if ex then ec = INV else match K with [] => ec = INV | k :: _ => ec = k /\ ecp = INV end.

Lemma walk_spec : forall st insd sp ex pt n nx cur prev nt wk ec ecp r L K0 V,
  walk n st insd sp ex pt nx cur prev nt wk ec ecp = Some r ->
  seg nx cur L pt -> seg nx nt K0 cur -> seg nx wk V INV -> prev = last K0 INV ->
  NoDup (K0 ++ L ++ V) -> (forall x, In x (K0 ++ L ++ V) -> x <> INV) -> ~ In pt (K0 ++ L) -> ecok ex ec ecp K0 ->
  let f := fun x => should_wake (st x) (insd x) sp in
  let K := K0 ++ filter (fun x => negb (f x)) L in
  exists nx' nt' wk' ec' ecp', r = (nx', last K INV, nt', wk', ec', ecp') /\
    seg nx' nt' K pt /\ seg nx' wk' (rev (filter f L) ++ V) INV /\ ecok ex ec' ecp' K /\
    (forall x, ~ In x (K0 ++ L) -> nx' x = nx x).
Proof.
  intros st insd sp ex pt n. induction n; cbn; intros nx cur prev nt wk ec ecp r L K0 V H SL SK SV Ep ND NI NP Ec; [discriminate|].
  destruct L as [|c L]; cbn in SL.
  - subst cur. rewrite Z.eqb_refl in H. inv H. cbn. rewrite app_nil_r. do 5 eexists. split; [reflexivity|]. auto.
  - destruct SL as [-> SL]. destruct (Z.eqb_spec c pt) as [E|E]; [exfalso; apply NP; apply in_or_app; cbn; auto|].
    assert (PM : Permutation (K0 ++ (c :: L) ++ V) (K0 ++ L ++ c :: V)).
    { apply Permutation_app_head. cbn. apply Permutation_middle. }
    assert (ND' := Permutation_NoDup PM ND). assert (NI' : forall x, In x (K0 ++ L ++ c :: V) -> x <> INV).
    { intros x Hx. apply NI. apply (Permutation_in x (Permutation_sym PM)). auto. }
    pose proof ND as NDx. apply NoDup_app_iff in NDx as (N1 & N2 & N3). cbn in N2. inv N2. rewrite in_app_iff in H2.
    assert (NcK : ~ In c K0) by (intros X; apply (N3 c X); cbn; auto).
    assert (NPL : ~ In pt (K0 ++ L)) by (intros X; apply NP; rewrite in_app_iff in *; cbn; tauto).
    cbn. destruct (should_wake (st c) (insd c) sp) eqn:W.
    + set (nx1 := if last K0 INV =? INV then nx else upd nx (last K0 INV) (nx c)) in *.
      set (nt' := if last K0 INV =? INV then nx c else nt) in *.
      assert (A : (K0 = [] /\ nx1 = nx /\ nt' = nx c) \/ (K0 <> [] /\ In (last K0 INV) K0 /\ nx1 = upd nx (last K0 INV) (nx c) /\ nt' = nt)).
      { destruct K0 as [|k K]; [left; unfold nx1, nt'; cbn; auto|right].
        assert (I : In (last (k :: K) INV) (k :: K)) by (apply last_in; discriminate). split; [discriminate|]. split; auto.
        unfold nx1, nt'. destruct (Z.eqb_spec (last (k :: K) INV) INV) as [Z|Z]; auto. exfalso. apply (NI (last (k :: K) INV)); auto.
        apply in_or_app. auto. }
      assert (SK' : seg (upd nx1 c wk) nt' K0 (nx c)).
      { destruct A as [(-> & -> & ->)|(NE & I & -> & ->)]; [cbn; auto|]. apply seg_upd; auto.
        destruct (last_split K0 INV NE) as [K1 EK]. rewrite EK in SK, N1 |- *. rewrite last_app1. eapply seg_last; eauto. }
      assert (Out : forall x, ~ In x K0 -> x <> c -> upd nx1 c wk x = nx x).
      { intros x X Y. rewrite upd_other by auto. destruct A as [(_ & -> & _)|(_ & I & -> & _)]; auto. rewrite upd_other; auto. intro. subst. auto. }
      edestruct (IHn (upd nx1 c wk) (nx c) (last K0 INV) nt' c ec ecp r L K0 (c :: V)) as (nx' & nt2 & wk2 & ec2 & ecp2 & -> & B1 & B2 & B3 & B4); auto.
      { apply (seg_ext nx); auto. intros x Hx. apply Out; [|intro; subst; tauto]. intros X. apply (N3 x X). cbn. rewrite in_app_iff. auto. }
      { cbn. split; auto. rewrite upd_same. apply (seg_ext nx); auto. intros x Hx. apply Out; [|intro; subst; tauto].
        intros X. apply (N3 x X). cbn. rewrite in_app_iff. auto. }
      exists nx', nt2, wk2, ec2, ecp2. split; auto. split; auto. split; [cbn [rev]; rewrite <- app_assoc; exact B2|]. split; auto.
      intros x X. rewrite B4; [apply Out|]; intro; apply X; rewrite in_app_iff in *; cbn; intuition auto.
    + cbn. replace (K0 ++ c :: filter (fun x => negb (should_wake (st x) (insd x) sp)) L) with ((K0 ++ [c]) ++ filter (fun x => negb (should_wake (st x) (insd x) sp)) L) by (rewrite <- app_assoc; auto).
      assert (SK' : seg nx nt (K0 ++ [c]) (nx c)) by (apply (seg_app _ _ _ _ c); auto; cbn; auto).
      assert (G : exists ec2 ecp2, walk n st insd sp ex pt nx (nx c) c nt wk ec2 ecp2 = Some r /\ ecok ex ec2 ecp2 (K0 ++ [c])).
      { unfold ecok in *. destruct ex; cbn in H; [eauto|]. destruct K0 as [|k K]; cbn in *.
        - subst. rewrite Z.eqb_refl in H. eauto.
        - destruct Ec as [-> ->]. destruct (Z.eqb_spec k INV) as [Z|Z]; [exfalso; apply (NI k); auto|]. eauto. }
      destruct G as (ec2 & ecp2 & G1 & G2).
      edestruct (IHn nx (nx c) c nt wk ec2 ecp2 r L (K0 ++ [c]) V) as (nx' & nt3 & wk3 & ec3 & ecp3 & E1 & B1 & B2 & B3 & B4); auto.
      { rewrite last_app1. auto. }
      { rewrite <- app_assoc. exact ND. }
      { rewrite <- app_assoc. exact NI. }
      { intros X. apply NP. rewrite <- app_assoc in X. exact X. }
      exists nx', nt3, wk3, ec3, ecp3. split; auto. split; auto. split; auto. split; auto.
      intros x X. apply B4. rewrite <- app_assoc. exact X.
Qed.

Definition unkept (ex : bool) (K : list Z) : list Z := if ex then [] else match K with [] => [] | k :: _ => [k] end.
Definition kept (ex : bool) (K : list Z) : list Z := if ex then K else tl K.
Lemma patch_spec : forall ex pt pp nx nt wk ec ecp K V R,
  seg nx nt K pt -> seg nx wk V INV -> ecok ex ec ecp K -> seg nx pp R INV ->
  NoDup (K ++ R ++ V) -> (forall x, In x (K ++ R ++ V) -> x <> INV) ->
  exists nx' nt' wk' ex', patch ex pt pp (nx, last K INV, nt, wk, ec, ecp) = (nx', nt', wk', ex') /\
    seg nx' nt' (kept ex K ++ R) INV /\ seg nx' wk' (unkept ex K ++ V) INV /\
    ex' = ex || negb (match K with [] => true | _ => false end) /\ (forall x, ~ In x K -> nx' x = nx x).
Proof.
  intros ex pt pp nx nt wk ec ecp K V R SK SV Ec SR ND NI.
  assert (X : exists nx2 prev2 nt2 wk2, forall b,
     (if negb (ec =? INV) && negb ex
      then let nt' := if ecp =? INV then nx ec else nt in let nx1 := if ecp =? INV then nx else upd nx ecp (nx ec) in
           (upd nx1 ec wk, if last K INV =? ec then ecp else last K INV, nt', ec, true)
      else (nx, last K INV, nt, wk, b)) = (nx2, prev2, nt2, wk2, if negb (ec =? INV) && negb ex then true else b) /\
     prev2 = last (kept ex K) INV /\ seg nx2 nt2 (kept ex K) pt /\ seg nx2 wk2 (unkept ex K ++ V) INV /\ (forall x, ~ In x K -> nx2 x = nx x)).
  { unfold ecok in Ec. destruct ex; cbn in *.
    - subst ec. do 4 eexists. intros b. rewrite andb_false_r. split; [reflexivity|]. auto.
    - destruct K as [|k K]; cbn in *.
      + subst. rewrite Z.eqb_refl. cbn. do 4 eexists. intros b. split; [reflexivity|]. auto.
      + destruct Ec as [-> ->]. assert (k <> INV) by (apply NI; auto). rewrite (proj2 (Z.eqb_neq k INV)) by auto.
        cbn [negb andb]. change (INV =? INV) with true. cbn iota. do 4 eexists. intros b. split; [reflexivity|].
        destruct SK as [-> SK]. inv ND. rewrite !in_app_iff in H2.
        split; [|split; [|split]].
        * destruct K as [|y K]; [rewrite Z.eqb_refl; auto|]. destruct (Z.eqb_spec (last (y :: K) INV) k) as [Z|Z]; auto.
          exfalso. apply H2. left. rewrite <- Z. apply last_in. discriminate.
        * apply seg_upd; auto.
        * split; auto. rewrite upd_same. apply seg_upd; auto.
        * intros x Hx. apply upd_other. intro. subst. tauto. }
  destruct X as (nx2 & prev2 & nt2 & wk2 & X). destruct (X ex) as (XE & Ep & S1 & S2 & Out).
  unfold patch. cbn beta iota zeta. cbn zeta in XE. rewrite XE. cbn beta iota zeta.
  assert (Sub : forall x, In x (kept ex K) -> In x K) by (destruct ex; cbn; auto; destruct K; cbn; auto).
  assert (NDK : NoDup K) by (apply NoDup_app_iff in ND; tauto).
  assert (NDk : NoDup (kept ex K)) by (destruct ex; cbn; auto; destruct K; cbn; auto; inv NDK; auto).
  assert (S3 : seg nx2 pp R INV).
  { apply (seg_ext nx); auto. intros x Hx. apply Out. intros A. apply NoDup_app_iff in ND as (_ & _ & D). apply (D x A). rewrite in_app_iff. auto. }
  assert (EX : (if negb (ec =? INV) && negb ex then true else ex) = ex || negb (match K with [] => true | _ => false end)).
  { unfold ecok in Ec. destruct ex; cbn in *; [subst ec; rewrite andb_false_r; auto|]. destruct K as [|k K]; [subst ec; auto|].
    destruct Ec as [-> _]. assert (k <> INV) by (apply NI; cbn; auto). rewrite (proj2 (Z.eqb_neq k INV)) by auto. auto. }
  destruct (Z.eqb_spec pt pp) as [P|P]; cbn [negb].
  - subst pp. do 4 eexists. split; [reflexivity|]. split; [apply (seg_app _ _ _ _ pt); auto|]. auto.
  - destruct (kept ex K) as [|k0 Kk] eqn:EK.
    + cbn in Ep. subst prev2. rewrite Z.eqb_refl. do 4 eexists. split; [reflexivity|]. cbn. auto.
    + assert (I : In prev2 (k0 :: Kk)) by (subst prev2; apply last_in; discriminate).
      assert (prev2 <> INV) by (apply NI; apply in_or_app; left; apply Sub; auto). rewrite (proj2 (Z.eqb_neq prev2 INV)) by auto.
      do 4 eexists. split; [reflexivity|]. split; [|split; [|split; auto]].
      * destruct (last_split (k0 :: Kk) INV ltac:(discriminate)) as [K1 E1]. rewrite <- Ep in E1. rewrite E1 in S1, NDk |- *.
        apply (seg_app _ _ _ _ pp); [eapply seg_last; eauto|]. apply seg_upd; auto.
        intros A. apply NoDup_app_iff in ND as (_ & _ & D). apply (D prev2); [apply Sub; auto|rewrite in_app_iff; auto].
      * apply seg_upd; auto. intros A. apply in_app_iff in A as [A|A].
        -- destruct ex; cbn in *; [contradiction|]. destruct K as [|y K]; cbn in *; [contradiction|]. destruct A as [->|[]]. subst K. inv NDK. auto.
        -- apply NoDup_app_iff in ND as (_ & _ & D). apply (D prev2); [apply Sub; auto|rewrite in_app_iff; auto].
      * intros x Hx. rewrite upd_other; auto. intro. subst. apply Hx. apply Sub. auto.
Qed.

(** The invariant. *)
Definition waiting (c : pc) : bool := match c with LWait _ _ | CWait _ _ | QWait _ _ => true | _ => false end.
Definition wstat (c : pc) (st : status) : Prop :=
  match c with LWait k _ => st = kstat k | CWait _ _ | QWait _ _ => st = WNon | _ => False end.
Definition head (c : pc) : option Z :=
  match c with UHave _ _ _ _ wk _ _ _ => Some wk | UCas _ _ _ _ wk _ _ => Some wk | UWk _ _ h => Some h | USem _ _ _ nx => Some nx | _ => None end.
Definition mid (c : pc) : bool := match c with UHave _ _ _ _ _ _ _ _ | UCas _ _ _ _ _ _ _ => true | _ => false end.
Definition exof (c : pc) : bool := match c with UHave _ _ _ _ _ _ _ ex => ex | UCas _ _ _ _ _ ex _ => ex | _ => false end.
Definition lwait (c : pc) : Prop := exists k x, c = LWait k x.
Definition onway (s : state) (P : Z -> list Z) (q : Z) : Prop :=
  (lwait (pcs s q) /\ ins s q = false /\ ((exists r, In q (P r)) \/ stat s q = WUp)) \/
  (exists k x, pcs s q = LTry k x) \/
  (exists k x w, pcs s q = LHave k x w /\ (wl w = false \/ k = KExcl)).

Record QI (s : state) (N R : list Z) (P : Z -> list Z) : Prop := {
  q_ne : forall p, pcs s p <> Idle -> p <> INV;
  q_mem : forall p, In p (N ++ R) \/ (exists q, In p (P q)) -> wstat (pcs s p) (stat s p);
  q_all : forall p, waiting (pcs s p) = true -> stat s p <> WUp -> In p (N ++ R) \/ exists q, In p (P q);
  q_nd : NoDup (N ++ R);
  q_pd : forall q, NoDup (P q);
  q_dis : forall p q, In p (P q) -> ~ In p (N ++ R);
  q_dis2 : forall p q q', In p (P q) -> In p (P q') -> q = q';
  q_priv : forall q, match head (pcs s q) with Some h => seg (nxt s) h (P q) INV | None => P q = [] end;
  q_plain : (forall p, mid (pcs s p) = false) -> R = [] /\ seg (nxt s) (wt (wd s)) N INV;
  q_have : forall p sp rel w0 w wk pt pp ex, pcs s p = UHave sp rel w0 w wk pt pp ex ->
    exists N2 N1, N = N2 ++ N1 /\ seg (nxt s) (wt (wd s)) N2 (wt w) /\ seg (nxt s) (wt w) N1 pt /\ seg (nxt s) pp R INV /\
      (pt = INV /\ R = [] /\ pp = INV \/ In pt (R ++ P p));
  q_cas : forall p sp rel w0 w wk ex nt, pcs s p = UCas sp rel w0 w wk ex nt ->
    seg (nxt s) (wt (wd s)) N (wt w) /\ seg (nxt s) nt R INV /\ (wt w = INV /\ R = [] /\ nt = INV \/ In (wt w) (R ++ P p));
  q_ex : forall p, mid (pcs s p) = true -> if exof (pcs s p) then exists q, In q (P p) /\ lwait (pcs s q) /\ ins s q = false else R = [];
  q_R : forall p, In p R -> lwait (pcs s p);
  q_way : wl (wd s) = false -> (exists p, In p N /\ lwait (pcs s p)) -> exists q, onway s P q;
  q_read : forall p l x, In p N -> pcs s p = QWait l x -> wl (wd s) = true;
  q_chg : forall p w0 x, In p N -> pcs s p = CWait w0 x -> changed (wd s) w0 = false;
  q_up : forall p, waiting (pcs s p) = true -> stat s p = WUp -> (sem s p > 0)%nat \/ exists q rel w0 nx, pcs s q = USem rel w0 p nx }.
Definition QInv (s : state) : Prop := exists N R P, QI s N R P.

Lemma wstat_waiting : forall c st, wstat c st -> waiting c = true /\ st <> WUp.
Proof. intros c st H. destruct c; cbn in *; try contradiction; subst; split; auto; try discriminate. destruct k; discriminate. Qed.
Lemma notin : forall s N R P p, QI s N R P -> (waiting (pcs s p) = false \/ stat s p = WUp) -> ~ In p (N ++ R) /\ (forall q, ~ In p (P q)).
Proof.
  intros s N R P p Q H. assert (X : In p (N ++ R) \/ (exists q, In p (P q)) -> False).
  { intros A. apply (q_mem _ _ _ _ Q) in A. apply wstat_waiting in A as [A B]. destruct H; congruence. }
  split; [intros A; apply X; auto|intros q A; apply X; eauto].
Qed.
Lemma member_ne : forall s N R P p, QI s N R P -> In p (N ++ R) \/ (exists q, In p (P q)) -> p <> INV.
Proof. intros s N R P p Q A. apply (q_ne _ _ _ _ Q). apply (q_mem _ _ _ _ Q) in A. intro E. rewrite E in A. exact A. Qed.

(** A step of one backend outside the lists. *)
Lemma Q_frame : forall s s' p c N R P, QI s N R P ->
  ~ In p (N ++ R) -> (forall q, ~ In p (P q)) -> head (pcs s p) = None -> mid (pcs s p) = false ->
  (forall q, q <> p -> pcs s' q = pcs s q) -> pcs s' p = c -> (c = Idle \/ p <> INV) -> waiting c = false -> head c = None -> mid c = false ->
  wt (wd s') = wt (wd s) -> wc (wd s') = wc (wd s) -> (wl (wd s') = wl (wd s) \/ wl (wd s') = true) ->
  (forall x, x <> p -> nxt s' x = nxt s x /\ stat s' x = stat s x /\ ins s' x = ins s x /\ (sem s' x >= sem s x)%nat) ->
  (onway s P p -> wl (wd s') = false -> onway s' P p) -> QI s' N R P.
Proof.
  intros s s' p c N R P Q NI NP Hh Hm PP PPp Hp Wc Hc Mc Et Ec El Ext Hw.
  assert (SG : forall l a b, ~ In p l -> seg (nxt s) a l b -> seg (nxt s') a l b).
  { intros l a b A B. apply (seg_ext (nxt s)); auto. intros x Hx. apply Ext. intro. subst. auto. }
  assert (Nn : ~ In p N) by (intro; apply NI; rewrite in_app_iff; auto).
  assert (Nr : ~ In p R) by (intro; apply NI; rewrite in_app_iff; auto).
  constructor; rewrite ?Et.
  - intros q. destruct (Z.eq_dec q p); [subst q; rewrite PPp; intros; destruct Hp; congruence|rewrite PP by auto; apply Q].
  - intros q A. assert (q <> p). { intro. subst. destruct A as [A|[r A]]; [auto|apply (NP r A)]. }
    rewrite PP by auto. rewrite (proj1 (proj2 (Ext q H))). apply Q. auto.
  - intros q. destruct (Z.eq_dec q p); [subst q; rewrite PPp; congruence|]. rewrite PP, (proj1 (proj2 (Ext q n))) by auto. apply Q.
  - apply Q.
  - apply Q.
  - apply Q.
  - apply Q.
  - intros q. pose proof (q_priv _ _ _ _ Q q) as H. destruct (Z.eq_dec q p).
    + subst q. rewrite PPp, Hc. rewrite Hh in H. auto.
    + rewrite PP by auto. destruct (head (pcs s q)); auto.
  - intros H. destruct (q_plain _ _ _ _ Q) as [A B]; [|auto]. intros q. destruct (Z.eq_dec q p); [subst q; rewrite ?PPp; auto|]. rewrite <- PP by auto. auto.
  - intros q sp rel w0 w wk pt pp ex E. destruct (Z.eq_dec q p); [subst q; rewrite PPp in E; rewrite E in Mc; discriminate|]. rewrite PP in E by auto.
    destruct (q_have _ _ _ _ Q _ _ _ _ _ _ _ _ _ E) as (N2 & N1 & E1 & A & B & C & D). subst N. rewrite in_app_iff in Nn.
    exists N2, N1. split; auto. split; [apply SG; auto|]. split; [apply SG; auto|]. split; auto.
  - intros q sp rel w0 w wk ex nt E. destruct (Z.eq_dec q p); [subst q; rewrite PPp in E; rewrite E in Mc; discriminate|]. rewrite PP in E by auto.
    destruct (q_cas _ _ _ _ Q _ _ _ _ _ _ _ _ E) as (A & B & C). split; auto.
  - intros q E. destruct (Z.eq_dec q p); [subst q; congruence|]. rewrite PP in E by auto. rewrite PP by auto.
    pose proof (q_ex _ _ _ _ Q q E) as H. destruct (exof (pcs s q)); auto. destruct H as (r & A & B & C). exists r.
    assert (r <> p) by (intro; subst; apply (NP q A)). rewrite PP by auto. rewrite (proj1 (proj2 (proj2 (Ext r H)))). auto.
  - intros q A. assert (q <> p) by (intro; subst; auto). rewrite PP by auto. apply Q. auto.
  - intros L (q & A & B). assert (q <> p) by (intro; subst; auto). rewrite PP in B by auto.
    destruct (q_way _ _ _ _ Q) as [r W]; [destruct El as [El|El]; congruence|eauto|]. exists r. destruct (Z.eq_dec r p); [subst r; auto|].
    unfold onway in *. rewrite PP by auto. destruct (Ext r n) as (_ & E1 & E2 & _). rewrite E1, E2. exact W.
  - intros q l x A B. assert (q <> p) by (intro; subst; auto). rewrite PP in B by auto. pose proof (q_read _ _ _ _ Q _ _ _ A B). destruct El; congruence.
  - intros q w0 x A B. assert (q <> p) by (intro; subst; auto). rewrite PP in B by auto. unfold changed in *. rewrite Ec. apply (q_chg _ _ _ _ Q _ _ _ A B).
  - intros q A B. destruct (Z.eq_dec q p); [subst q; congruence|]. rewrite PP in A by auto. destruct (Ext q n) as (_ & E1 & _ & E2). rewrite E1 in B.
    destruct (q_up _ _ _ _ Q q A B) as [H|(r & rel & w0 & nx & H)]; [left; lia|right]. exists r, rel, w0, nx.
    assert (r <> p) by (intro; subst; rewrite H in Hh; discriminate). rewrite PP; auto.
Qed.
Lemma Q_frame0 : forall s s' N R P, QI s N R P -> pcs s' = pcs s -> nxt s' = nxt s -> stat s' = stat s -> ins s' = ins s ->
  (forall x, (sem s' x >= sem s x)%nat \/ waiting (pcs s x) = false) ->
  wt (wd s') = wt (wd s) -> wc (wd s') = wc (wd s) -> wl (wd s') = wl (wd s) -> QI s' N R P.
Proof.
  intros s s' N R P Q E1 E2 E3 E4 E5 E6 E7 E8. destruct Q; constructor; rewrite ?E1, ?E2, ?E3, ?E4, ?E6, ?E7, ?E8; auto.
  - intros L A. destruct (q_way0 L A) as [q W]. exists q. unfold onway in *. rewrite E1, E3, E4. auto.
  - intros. unfold changed in *. rewrite E7. eauto.
  - intros p A B. destruct (q_up0 p A B); auto. destruct (E5 p); [left; lia|congruence].
Qed.
Lemma Q_move : forall s s' p c N R P, QI s N R P ->
  (waiting (pcs s p) = false \/ stat s p = WUp) -> head (pcs s p) = None -> mid (pcs s p) = false ->
  pcs s' = upd (pcs s) p c -> (c = Idle \/ p <> INV) -> waiting c = false -> head c = None -> mid c = false ->
  wt (wd s') = wt (wd s) -> wc (wd s') = wc (wd s) -> (wl (wd s') = wl (wd s) \/ wl (wd s') = true) ->
  (forall x, x <> p -> nxt s' x = nxt s x /\ stat s' x = stat s x /\ ins s' x = ins s x /\ (sem s' x >= sem s x)%nat) ->
  (onway s P p -> wl (wd s') = false -> onway s' P p) -> QInv s'.
Proof. intros s s' p c N R P Q W. intros. destruct (notin _ _ _ _ p Q W). exists N, R, P. eapply (Q_frame s s' p c); eauto; rewrite H1; intros; [apply upd_other; auto|apply upd_same]. Qed.
Lemma ne : forall s N R P p c, QI s N R P -> pcs s p = c -> c <> Idle -> p <> INV.
Proof. intros. apply (q_ne _ _ _ _ H). congruence. Qed.
Ltac others := let x := fresh in let H := fresh in intros x H; cbn; rewrite ?(upd_other _ _ _ _ _ H); split; [auto|split; [auto|split; [auto|lia]]].
(** [mv Q E] — a step of [p] between two control points outside the lists. *)
Ltac mv Q E := eapply (Q_move _ _ _ _ _ _ _ Q);
  [rewrite E; cbn; auto | rewrite E; auto | rewrite E; auto | reflexivity
  | first [left; reflexivity | right; eapply (ne _ _ _ _ _ _ Q E); discriminate] | auto | auto | auto | auto | auto | cbn; auto | others | ].
Ltac mvi Q E := eapply (Q_move _ _ _ _ _ _ _ Q);
  [rewrite E; cbn; auto | rewrite E; auto | rewrite E; auto | reflexivity
  | right; unfold proc in *; lia | auto | auto | auto | auto | auto | cbn; auto | others | ].
Ltac noway E := let W := fresh in intros W; exfalso; unfold onway, lwait in W; rewrite E in W;
  destruct W as [((? & ? & W) & _)|[(? & ? & W)|(? & ? & ? & W & _)]]; discriminate.

(** Joining the wait list. *)
Lemma Q_join : forall s s' p c st N R P, QI s N R P -> waiting (pcs s p) = false -> head (pcs s p) = None -> mid (pcs s p) = false ->
  p <> INV -> pcs s' = upd (pcs s) p c -> head c = None -> mid c = false -> wstat c st ->
  nxt s' = upd (nxt s) p (wt (wd s)) -> stat s' = upd (stat s) p st -> ins s' = ins s -> sem s' = sem s ->
  wt (wd s') = p -> wc (wd s') = wc (wd s) -> wl (wd s') = wl (wd s) ->
  (lwait c -> wl (wd s) = true) -> (forall l x, c = QWait l x -> wl (wd s) = true) -> (forall w0 x, c = CWait w0 x -> changed (wd s) w0 = false) ->
  ((lwait c -> False) -> onway s P p -> False) ->
  QInv s'.
Proof.
  intros s s' p c st N R P Q Hw Hh Hm Hp Ep Hc Mc Ws En Es Ei Em Et Ec El HL HQ HC HO. exists (p :: N), R, P.
  destruct (notin _ _ _ _ p Q (or_introl Hw)) as [NI NP].
  assert (PP : forall q, q <> p -> pcs s' q = pcs s q) by (intros; rewrite Ep; apply upd_other; auto).
  assert (PPp : pcs s' p = c) by (rewrite Ep; apply upd_same).
  assert (SG : forall l a b, ~ In p l -> seg (nxt s) a l b -> seg (nxt s') a l b) by (intros; rewrite En; apply seg_upd; auto).
  assert (Nn : ~ In p N) by (intro; apply NI; rewrite in_app_iff; auto).
  assert (Nr : ~ In p R) by (intro; apply NI; rewrite in_app_iff; auto).
  assert (Np : nxt s' p = wt (wd s)) by (rewrite En; apply upd_same).
  destruct (wstat_waiting _ _ Ws) as [Wt Wu].
  constructor; rewrite ?Et, ?Ei, ?Em, ?El; cbn [app In].
  - intros q. destruct (Z.eq_dec q p); [subst q; auto|rewrite PP by auto; apply Q].
  - intros q A. destruct (Z.eq_dec q p); [subst q; rewrite PPp, Es, upd_same; auto|]. rewrite PP, Es, upd_other by auto. apply Q.
    destruct A as [[A|A]|A]; auto. congruence.
  - intros q. destruct (Z.eq_dec q p); [subst q; auto|]. rewrite PP, Es, upd_other by auto. intros A B.
    destruct (q_all _ _ _ _ Q q A B); auto.
  - constructor; [auto|apply Q].
  - apply Q.
  - intros q r A [<-|B]; [apply (NP r A)|]. apply (q_dis _ _ _ _ Q _ _ A B).
  - apply Q.
  - intros q. pose proof (q_priv _ _ _ _ Q q) as H. destruct (Z.eq_dec q p).
    + subst q. rewrite PPp, Hc. rewrite Hh in H. auto.
    + rewrite PP by auto. destruct (head (pcs s q)); auto.
  - intros H. destruct (q_plain _ _ _ _ Q) as [A B].
    + intros q. destruct (Z.eq_dec q p); [subst q; auto|]. rewrite <- PP by auto. auto.
    + split; auto. split; auto. rewrite Np. apply SG; auto.
  - intros q sp rel w0 w wk pt pp ex E. destruct (Z.eq_dec q p); [subst q; rewrite PPp in E; rewrite E in Mc; discriminate|]. rewrite PP in E by auto.
    destruct (q_have _ _ _ _ Q _ _ _ _ _ _ _ _ _ E) as (N2 & N1 & E1 & A & B & C & D). subst N. rewrite in_app_iff in Nn.
    exists (p :: N2), N1. split; auto. cbn. rewrite Np. split; [split; auto|]. split; [apply SG; auto|]. split; auto.
  - intros q sp rel w0 w wk ex nt E. destruct (Z.eq_dec q p); [subst q; rewrite PPp in E; rewrite E in Mc; discriminate|]. rewrite PP in E by auto.
    destruct (q_cas _ _ _ _ Q _ _ _ _ _ _ _ _ E) as (A & B & C). cbn. rewrite Np. split; auto.
  - intros q E. destruct (Z.eq_dec q p); [subst q; congruence|]. rewrite PP in E by auto. rewrite PP by auto.
    pose proof (q_ex _ _ _ _ Q q E) as H. destruct (exof (pcs s q)); auto. destruct H as (r & A & B & C). exists r.
    assert (r <> p) by (intro; subst; apply (NP q A)). rewrite PP by auto. auto.
  - intros q A. assert (q <> p) by (intro; subst q; auto). rewrite PP by auto. apply Q. auto.
  - intros L (q & A & B).
    assert (LC : lwait c -> False) by (intros X; apply HL in X; congruence).
    assert (q <> p) by (intro; subst q; rewrite PPp in B; auto). rewrite PP in B by auto.
    destruct (q_way _ _ _ _ Q L) as [r W]; [exists q; split; auto; destruct A; auto; congruence|]. exists r.
    destruct (Z.eq_dec r p); [subst r; exfalso; auto|].
    unfold onway in *. rewrite PP, Ei, Es, upd_other by auto. exact W.
  - intros q l x [<-|A] B; [rewrite PPp in B; eauto|]. assert (q <> p) by (intro; subst q; auto). rewrite PP in B by auto. apply (q_read _ _ _ _ Q _ _ _ A B).
  - intros q w0 x A B. unfold changed in *. rewrite Ec. destruct A as [<-|A]; [rewrite PPp in B; apply (HC _ _ B)|].
    assert (q <> p) by (intro; subst q; auto). rewrite PP in B by auto. apply (q_chg _ _ _ _ Q _ _ _ A B).
  - intros q A B. destruct (Z.eq_dec q p); [subst q; rewrite Es, upd_same in B; congruence|]. rewrite PP in A by auto. rewrite Es, upd_other in B by auto.
    destruct (q_up _ _ _ _ Q q A B) as [H|(r & rel & w0 & nx & H)]; [left; lia|right]. exists r, rel, w0, nx.
    assert (r <> p) by (intro; subst; rewrite H in Hh; discriminate). rewrite PP; auto.
Qed.

Lemma Q_lock : forall s p k, QInv s -> QInv (step s (OLock p k)).
Proof.
  intros s p k (N & R & P & Q). cbn. destruct (proc p && is_idle (pcs s p)) eqn:G; [|exists N, R, P; auto].
  apply andb_true_iff in G as [G1 G]. destruct (pcs s p) eqn:E; try discriminate.
  mvi Q E.
  intros _ _. right. left. exists k, 0. cbn. apply upd_same.
Qed.
Lemma Q_trylock : forall s p, QInv s -> QInv (step s (OTryLock p)).
Proof.
  intros s p (N & R & P & Q). cbn. destruct (proc p && is_idle (pcs s p) && negb (wl (wd s))) eqn:G; [|exists N, R, P; auto].
  apply andb_true_iff in G as [G _]. apply andb_true_iff in G as [G1 G]. destruct (pcs s p) eqn:E; try discriminate.
  mvi Q E. discriminate.
Qed.
Lemma Q_read0 : forall s p l, QInv s -> QInv (step s (ORead p l)).
Proof.
  intros s p l (N & R & P & Q). cbn. destruct (proc p && is_idle (pcs s p) && (0 <=? l) && ((l <? life s) || (l =? life s) && live s)) eqn:G; [|exists N, R, P; auto].
  destruct (pcs s p) eqn:E; try (cbn in G; rewrite andb_false_r in G; discriminate).
  assert (proc p = true) by (destruct (proc p); auto).
  mvi Q E. noway E.
Qed.
Lemma Q_state : forall s p, MInv s -> QInv s -> QInv (step s (OState p)).
Proof.
  intros s p M (N & R & P & Q). cbn. destruct (pcs s p) eqn:E; try (exists N, R, P; assumption).
  - mv Q E. cbn. intros _ L. right. right. exists k, x, (wd s). cbn. rewrite upd_same. auto.
  - (* UTry *)
    assert (Hp : holding (pcs s p) = true) by (rewrite E; auto).
    assert (Pm : forall q, mid (pcs s q) = false).
    { intros q. destruct (mid (pcs s q)) eqn:A; auto. assert (holding (pcs s q) = true) by (destruct (pcs s q); auto; discriminate).
      assert (q = p) by (apply (m_uniq _ M); auto). subst q. rewrite E in A. discriminate. }
    destruct (q_plain _ _ _ _ Q Pm) as [-> SN]. pose proof (q_priv _ _ _ _ Q p) as P0. rewrite E in P0. cbn in P0.
    destruct (notin _ _ _ _ p Q ltac:(rewrite E; auto)) as [NI NP].
    set (c := UHave sp rel w0 (wd s) INV INV INV false).
    assert (PP : forall q, q <> p -> upd (pcs s) p c q = pcs s q) by (intros; apply upd_other; auto).
    exists N, [], P. destruct Q; constructor; cbn.
    + intros q. destruct (Z.eq_dec q p); [subst q; intros _; apply q_ne0; congruence|]. rewrite PP; auto.
    + intros q A. rewrite PP; auto. intro; subst q. destruct A as [A|[r A]]; [auto|apply (NP r A)].
    + intros q. destruct (Z.eq_dec q p); [subst q; rewrite upd_same; discriminate|]. rewrite PP; auto.
    + auto. + auto. + auto. + auto.
    + intros q. destruct (Z.eq_dec q p); [subst q; rewrite upd_same; cbn; rewrite P0; cbn; auto|]. rewrite PP; auto. apply q_priv0.
    + intros H. specialize (H p). rewrite upd_same in H. discriminate.
    + intros q sp' rel' w0' w' wk' pt' pp' ex'. destruct (Z.eq_dec q p).
      * subst q. rewrite upd_same. intros A. inv A. exists [], N. cbn. auto 10.
      * rewrite PP by auto. intros A. specialize (Pm q). rewrite A in Pm. discriminate.
    + intros q sp' rel' w0' w' wk' ex' nt'. destruct (Z.eq_dec q p).
      * subst q. rewrite upd_same. discriminate.
      * rewrite PP by auto. intros A. specialize (Pm q). rewrite A in Pm. discriminate.
    + intros q. destruct (Z.eq_dec q p); [subst q; rewrite upd_same; cbn; auto|]. rewrite PP by auto. rewrite Pm. discriminate.
    + contradiction.
    + intros L. pose proof (m_lock _ M p Hp). congruence.
    + intros q l x A. rewrite PP by (intro; subst q; apply NI; rewrite app_nil_r; auto). eauto.
    + intros q w1 x A. rewrite PP by (intro; subst q; apply NI; rewrite app_nil_r; auto). eauto.
    + intros q. destruct (Z.eq_dec q p); [subst q; rewrite upd_same; discriminate|]. rewrite PP by auto. intros A B.
      destruct (q_up0 q A B) as [H|(r & rel1 & w1 & nx & H)]; auto. right. exists r, rel1, w1, nx. rewrite PP; auto. intro. subst r. congruence.
  - mv Q E. noway E.
  - destruct (changed (wd s) w0); mv Q E; noway E.
  - destruct (wn (wd s)); mv Q E; noway E.
  - mv Q E. noway E.
Qed.
Lemma Q_cas : forall s p u, MInv s -> QInv s -> QInv (step s (OCas p u)).
Proof.
  intros s p u M (N & R & P & Q). cbn. destruct (pcs s p) eqn:E; try (exists N, R, P; assumption).
  - destruct (wl w) eqn:L.
    + unfold link. cbn. destruct (word_eqb (wd s) w) eqn:Eq.
      * apply word_eqb_eq in Eq. eapply (Q_join s _ p (LWait k x) (kstat k)); cbn; eauto; rewrite ?E; cbn; auto; try discriminate; try congruence.
        -- eapply (ne _ _ _ _ _ _ Q E). discriminate.
        -- intros A. exfalso. apply A. unfold lwait. eauto.
      * mv Q E. cbn. intros H _. right. right. exists k, x, (wd s). cbn. rewrite upd_same. split; auto.
        unfold onway, lwait in H. rewrite E in H. destruct H as [((? & ? & H) & _)|[(? & ? & H)|(k1 & x1 & w1 & H & [W|W])]]; try discriminate; inv H; [congruence|auto].
    + destruct (word_eqb (wd s) w) eqn:Eq.
      * apply word_eqb_eq in Eq. rewrite <- Eq in *. destruct k; mv Q E; discriminate.
      * mv Q E. cbn. intros _ A. right. right. exists k, x, (wd s). cbn. rewrite upd_same. auto.
  - destruct (changed w w0) eqn:Ch; [mv Q E; noway E|]. unfold link. cbn. destruct (word_eqb (wd s) w) eqn:Eq; [|mv Q E; noway E].
    apply word_eqb_eq in Eq. eapply (Q_join s _ p (CWait w0 x) WNon); cbn; eauto; rewrite ?E; cbn; auto; try discriminate; try congruence.
    + eapply (ne _ _ _ _ _ _ Q E). discriminate.
    + intros (? & ? & A). discriminate.
    + intros _. noway E.
  - destruct (wn w) eqn:Nr; [|mv Q E; noway E]. unfold link. cbn. destruct (word_eqb (wd s) w) eqn:Eq; [|mv Q E; noway E].
    apply word_eqb_eq in Eq. eapply (Q_join s _ p (QWait l0 x) WNon); cbn; eauto; rewrite ?E; cbn; auto; try discriminate; try congruence.
    + eapply (ne _ _ _ _ _ _ Q E). discriminate.
    + intros. apply (m_nr _ M). congruence.
    + intros. apply (m_nr _ M). congruence.
    + intros _. noway E.
Qed.
(** A spurious wake-up of a waiting backend. *)
Lemma Q_absorb : forall s p c m N R P, QI s N R P -> waiting (pcs s p) = true -> stat s p <> WUp ->
  (forall st, wstat (pcs s p) st -> wstat c st) -> (lwait (pcs s p) <-> lwait c) -> head c = None -> mid c = false ->
  (forall l x, c = QWait l x -> exists y, pcs s p = QWait l y) -> (forall l x, c = CWait l x -> exists y, pcs s p = CWait l y) ->
  QInv (set_pc (set_sem s p m) p c).
Proof.
  intros s p c m N R P Q Hw Hu HW HL Hc Mc HQ HC. exists N, R, P.
  assert (Hh : head (pcs s p) = None) by (destruct (pcs s p); auto; discriminate).
  assert (Hm : mid (pcs s p) = false) by (destruct (pcs s p); auto; discriminate).
  set (s' := set_pc (set_sem s p m) p c).
  assert (PP : forall q, q <> p -> pcs s' q = pcs s q) by (intros; cbn; apply upd_other; auto).
  assert (PPp : pcs s' p = c) by (cbn; apply upd_same).
  assert (LW : forall q, lwait (pcs s q) <-> lwait (pcs s' q)) by (intros q; destruct (Z.eq_dec q p); [subst q; rewrite PPp; auto|rewrite PP by auto; tauto]).
  constructor; change (wd s') with (wd s); change (nxt s') with (nxt s); change (stat s') with (stat s); change (ins s') with (ins s).
  - intros q. destruct (Z.eq_dec q p); [subst q; intros _; apply (q_ne _ _ _ _ Q); intro A; rewrite A in Hw; discriminate|rewrite PP by auto; apply Q].
  - intros q A. apply (q_mem _ _ _ _ Q) in A. destruct (Z.eq_dec q p); [subst q; rewrite PPp; auto|rewrite PP; auto].
  - intros q A B. apply Q; auto. destruct (Z.eq_dec q p); [subst q; auto|rewrite PP in A; auto].
  - apply Q. - apply Q. - apply Q. - apply Q.
  - intros q. pose proof (q_priv _ _ _ _ Q q) as H. destruct (Z.eq_dec q p).
    + subst q. rewrite PPp, Hc. rewrite Hh in H. auto.
    + rewrite PP by auto. auto.
  - intros H. apply Q. intros q. destruct (Z.eq_dec q p); [subst q; auto|]. rewrite <- PP by auto. auto.
  - intros q sp rel w0 w wk pt pp ex E. destruct (Z.eq_dec q p); [subst q; rewrite PPp in E; rewrite E in Mc; discriminate|]. rewrite PP in E by auto.
    apply (q_have _ _ _ _ Q _ _ _ _ _ _ _ _ _ E).
  - intros q sp rel w0 w wk ex nt E. destruct (Z.eq_dec q p); [subst q; rewrite PPp in E; rewrite E in Mc; discriminate|]. rewrite PP in E by auto.
    apply (q_cas _ _ _ _ Q _ _ _ _ _ _ _ _ E).
  - intros q E. destruct (Z.eq_dec q p); [subst q; congruence|]. rewrite PP in E by auto. rewrite PP by auto.
    pose proof (q_ex _ _ _ _ Q q E) as H. destruct (exof (pcs s q)); auto. destruct H as (r & A & B & C). exists r. rewrite <- LW. auto.
  - intros q A. apply LW. apply Q. auto.
  - intros L (q & A & B). apply LW in B. destruct (q_way _ _ _ _ Q L) as [r W]; [eauto|]. exists r.
    unfold onway in *. rewrite <- LW. change (stat s') with (stat s). change (ins s') with (ins s). destruct (Z.eq_dec r p); [subst r|rewrite PP; auto].
    destruct W as [W|[(k & x & W)|(k & x & w & W & _)]]; auto; rewrite W in Hw; discriminate.
  - intros q l x A B. destruct (Z.eq_dec q p); [subst q; rewrite PPp in B; destruct (HQ _ _ B) as [y B']|rewrite PP in B by auto]; eapply (q_read _ _ _ _ Q); eauto.
  - intros q l x A B. destruct (Z.eq_dec q p); [subst q; rewrite PPp in B; destruct (HC _ _ B) as [y B']|rewrite PP in B by auto]; eapply (q_chg _ _ _ _ Q); eauto.
  - intros q A B. destruct (Z.eq_dec q p); [subst q; contradiction|]. rewrite PP in A by auto.
    cbn. rewrite upd_other by auto. destruct (q_up _ _ _ _ Q q A B) as [H|(r & rel & w0 & nx & H)]; auto. right. exists r, rel, w0, nx.
    rewrite upd_other; auto. intro. subst r. rewrite H in Hh. discriminate.
Qed.
Lemma is_up_iff : forall st, is_up st = true <-> st = WUp.
Proof. destruct st; cbn; split; auto; discriminate. Qed.
Lemma is_up_no : forall st, is_up st = false -> st <> WUp.
Proof. intros st H E. apply is_up_iff in E. congruence. Qed.
Ltac mvu Q E U := eapply (Q_move _ _ _ _ _ _ _ Q);
  [right; exact U | rewrite E; auto | rewrite E; auto | reflexivity
  | first [left; reflexivity | right; eapply (ne _ _ _ _ _ _ Q E); discriminate] | auto | auto | auto | auto | auto | cbn; auto | others | ].
Lemma Q_sem : forall s p, QInv s -> QInv (step s (OSem p)).
Proof.
  intros s p (N & R & P & Q). cbn. destruct (sem s p) as [|m]; [exists N, R, P; auto|].
  destruct (pcs s p) eqn:E; try (exists N, R, P; assumption).
  - destruct (is_up (stat s p)) eqn:U.
    + apply is_up_iff in U. destruct k.
      * mvu Q E U. cbn. intros _ _. right. left. exists KExcl, x. apply upd_same.
      * destruct (ins s p) eqn:I.
        -- mvu Q E U. intros [(_ & A & _)|[(? & ? & A)|(? & ? & ? & A & _)]]; [congruence|congruence|congruence].
        -- mvu Q E U. cbn. intros _ _. right. left. eexists _, _. apply upd_same.
    + apply is_up_no in U. apply (Q_absorb s p (LWait k (x + 1)) m N R P); auto; rewrite ?E; cbn; auto; try discriminate. unfold lwait. split; eauto.
  - destruct (is_up (stat s p)) eqn:U.
    + apply is_up_iff in U. mvu Q E U. noway E.
    + apply is_up_no in U. apply (Q_absorb s p (CWait w0 (x + 1)) m N R P); auto; rewrite ?E; cbn; auto; try discriminate; unfold lwait.
      * split; intros (? & ? & ?); discriminate.
      * intros l y A. inv A. eauto.
  - destruct (is_up (stat s p)) eqn:U.
    + apply is_up_iff in U. mvu Q E U. noway E.
    + apply is_up_no in U. apply (Q_absorb s p (QWait l0 (x + 1)) m N R P); auto; rewrite ?E; cbn; auto; try discriminate; unfold lwait.
      * split; intros (? & ? & ?); discriminate.
      * intros l y A. inv A. eauto.
Qed.
Lemma Q_same : forall s s', QInv s -> pcs s' = pcs s -> nxt s' = nxt s -> stat s' = stat s -> ins s' = ins s ->
  (forall x, (sem s' x >= sem s x)%nat \/ waiting (pcs s x) = false) ->
  wt (wd s') = wt (wd s) -> wc (wd s') = wc (wd s) -> wl (wd s') = wl (wd s) -> QInv s'.
Proof. intros s s' (N & R & P & Q). intros. exists N, R, P. eapply (Q_frame0 s); eauto. Qed.
Lemma mid_holding : forall c, mid c = true -> holding c = true.
Proof. destruct c; auto; discriminate. Qed.
Lemma not_mid : forall s p, MInv s -> holding (pcs s p) = true -> forall q, q <> p -> mid (pcs s q) = false.
Proof. intros s p M H q n. destruct (mid (pcs s q)) eqn:A; auto. exfalso. apply n. apply (m_uniq _ M); auto. apply mid_holding; auto. Qed.
Lemma Q_mark : forall s p q n, MInv s -> QInv s -> QInv (step s (OMark p q n)).
Proof.
  intros s p q n M (N & R & P & Q). cbn. destruct (pcs s p) eqn:E; try (exists N, R, P; assumption).
  destruct (on_list n (nxt s) (wt (wd s)) q && is_ins (stat s q)) eqn:G; [|exists N, R, P; auto].
  apply andb_true_iff in G as [G1 G2].
  assert (Hp : holding (pcs s p) = true) by (rewrite E; auto).
  assert (Pm : forall q, mid (pcs s q) = false).
  { intros r. destruct (Z.eq_dec r p); [subst r; rewrite E; auto|apply (not_mid s p); auto]. }
  exists N, R, P. destruct Q; constructor; cbn; auto.
  - intros r A. rewrite Pm in A. discriminate.
  - intros L. pose proof (m_lock _ M p Hp). congruence.
Qed.
Lemma Q_other : forall s p nx st, QInv s -> QInv (step s (OOther p nx st)).
Proof.
  intros s p nx st (N & R & P & Q). cbn. destruct (pcs s p) eqn:E; try (exists N, R, P; assumption). cbn.
  destruct (notin _ _ _ _ p Q ltac:(rewrite E; auto)) as [NI NP]. exists N, R, P.
  eapply (Q_frame s _ p Idle); eauto; rewrite ?E; cbn; auto; [others|noway E].
Qed.

(** The unlocker's walk. *)
Lemma Q_walk : forall s p n, MInv s -> QInv s -> QInv (step s (OWalk p n)).
Proof.
  intros s p n M (N & R & P & Q). cbn. destruct (pcs s p) eqn:E; try (exists N, R, P; assumption).
  destruct (walk n (stat s) (ins s) sp ex pt (nxt s) (wt w) INV (wt w) wk INV INV) as [r|] eqn:Wk; [|exists N, R, P; auto].
  assert (Hp : holding (pcs s p) = true) by (rewrite E; auto).
  destruct (q_have _ _ _ _ Q _ _ _ _ _ _ _ _ _ E) as (N2 & N1 & EN & S2 & S1 & SR & SP). subst N.
  pose proof (q_priv _ _ _ _ Q p) as SV. rewrite E in SV. cbn in SV.
  pose proof (q_ex _ _ _ _ Q p) as X. rewrite E in X. specialize (X eq_refl). cbn in X.
  assert (ND : NoDup (((N2 ++ N1) ++ R) ++ P p)).
  { apply NoDup_app_iff. split; [apply Q|]. split; [apply Q|]. intros x A B. apply (q_dis _ _ _ _ Q _ _ B A). }
  assert (NI : forall x, In x (((N2 ++ N1) ++ R) ++ P p) -> x <> INV).
  { intros x A. apply in_app_iff in A as [A|A]; apply (member_ne _ _ _ _ x Q); eauto. }
  assert (NDb : NoDup (N1 ++ R ++ P p)).
  { rewrite <- !app_assoc in ND. apply NoDup_app_iff in ND. tauto. }
  assert (NDw : NoDup (N1 ++ P p)).
  { apply NoDup_app_iff in NDb as (A & B & C). apply NoDup_app_iff in B as (_ & B & _). apply NoDup_app_iff. split; auto. split; auto.
    intros x A1 B1. apply (C x A1). rewrite in_app_iff. auto. }
  assert (Npt : ~ In pt N1).
  { destruct SP as [(-> & _)|A].
    - intros A. apply (NI INV); auto. rewrite !in_app_iff. auto.
    - intros B. apply NoDup_app_iff in NDb as (_ & _ & C). apply (C pt); auto. }
  destruct (walk_spec _ _ _ _ _ _ _ _ _ _ _ _ _ _ N1 [] (P p) Wk) as (nx1 & nt1 & wk1 & ec1 & ecp1 & -> & B1 & B2 & B3 & B4); auto.
  { cbn. auto. }
  { cbn. intros x A. apply NI. rewrite !in_app_iff in *. tauto. }
  { unfold ecok. destruct ex; auto. }
  cbn [app] in *. set (f := fun x => should_wake (stat s x) (ins s x) sp) in *. set (K := filter (fun x => negb (f x)) N1) in *.
  change (filter (fun x : Z => negb (should_wake (stat s x) (ins s x) sp)) N1) with K in *.
  assert (KN : forall x, In x K -> In x N1 /\ f x = false) by (intros x A; apply filter_In in A as [A B]; split; auto; apply negb_true_iff; auto).
  assert (PM : Permutation (K ++ rev (filter f N1)) N1).
  { eapply Permutation_trans; [apply Permutation_app_head; apply Permutation_sym; apply Permutation_rev|].
    eapply Permutation_trans; [apply Permutation_app_comm|]. apply filter_perm. }
  assert (SRx : seg nx1 pp R INV).
  { apply (seg_ext (nxt s)); auto. intros x A. apply B4. intros B. apply NoDup_app_iff in NDb as (_ & _ & C). apply (C x B). rewrite in_app_iff. auto. }
  assert (PMp : Permutation (K ++ R ++ rev (filter f N1) ++ P p) (N1 ++ R ++ P p)).
  { eapply Permutation_trans; [|apply Permutation_app_tail; exact PM]. rewrite <- app_assoc. apply Permutation_app_head.
    rewrite !app_assoc. apply Permutation_app_tail. apply Permutation_app_comm. }
  destruct (patch_spec ex pt pp nx1 nt1 wk1 ec1 ecp1 K (rev (filter f N1) ++ P p) R) as (nx2 & nt2 & wk2 & ex2 & -> & D1 & D2 & D3 & D4); auto.
  { apply (Permutation_NoDup (Permutation_sym PMp)). auto. }
  { intros x A. apply NI. apply (Permutation_in _ PMp) in A. rewrite !in_app_iff in *. tauto. }
  set (R2 := kept ex K ++ R) in *. set (V2 := unkept ex K ++ rev (filter f N1) ++ P p) in *.
  assert (PMK : Permutation (kept ex K ++ unkept ex K) K).
  { unfold kept, unkept. destruct ex; [rewrite app_nil_r; auto|]. destruct K as [|k0 K0]; cbn; auto. apply Permutation_sym. apply Permutation_cons_append. }
  assert (PMF : Permutation ((N2 ++ R2) ++ V2) (((N2 ++ N1) ++ R) ++ P p)).
  { unfold R2, V2. rewrite <- !app_assoc. apply Permutation_app_head. eapply Permutation_trans; [|exact PMp].
    rewrite !app_assoc. apply Permutation_app_tail. apply Permutation_app_tail. rewrite <- app_assoc.
    eapply Permutation_trans; [apply Permutation_app_head; apply Permutation_app_comm|]. rewrite app_assoc. apply Permutation_app_tail. exact PMK. }
  assert (NDF := Permutation_NoDup (Permutation_sym PMF) ND).
  assert (INF : forall x, In x ((N2 ++ R2) ++ V2) <-> In x (((N2 ++ N1) ++ R) ++ P p)).
  { intros x. split; apply Permutation_in; auto. apply Permutation_sym. auto. }
  apply NoDup_app_iff in NDF as (F1 & F2 & F3).
  assert (Out : forall x, ~ In x N1 -> nx2 x = nxt s x).
  { intros x A. rewrite D4, B4; auto. intros B. apply A. apply KN. auto. }
  assert (KR : forall x, In x R2 -> In x K \/ In x R).
  { unfold R2. intros x A. apply in_app_iff in A as [A|A]; auto. left. apply (Permutation_in _ PMK). apply in_app_iff. auto. }
  assert (KL : forall x, In x K -> lwait (pcs s x) /\ ins s x = false).
  { intros x A. apply KN in A as [A B]. pose proof (q_mem _ _ _ _ Q x ltac:(left; rewrite !in_app_iff; auto)) as W.
    unfold f, should_wake in B. destruct (ins s x); [discriminate|]. cbn in B. split; auto.
    destruct (pcs s x); cbn in W; try contradiction; [unfold lwait; eauto|rewrite W in B; discriminate|rewrite W in B; discriminate]. }
  set (P' := upd P p V2). set (c := UCas sp rel w0 w wk2 ex2 nt2).
  assert (PV : forall x, In x (P p) -> In x V2) by (intros x A; unfold V2; rewrite !in_app_iff; auto).
  assert (PP : forall q, q <> p -> upd (pcs s) p c q = pcs s q) by (intros; apply upd_other; auto).
  assert (Nm : forall q, q <> p -> mid (pcs s q) = false) by (apply (not_mid s p); auto).
  assert (MEM : forall x, In x (N2 ++ R2) \/ (exists q, In x (P' q)) <-> In x ((N2 ++ N1) ++ R) \/ (exists q, In x (P q))).
  { intros x. split.
    - intros [A|[q A]].
      + assert (B := proj1 (INF x) ltac:(rewrite in_app_iff; auto)). apply in_app_iff in B as [B|B]; eauto.
      + unfold P', upd in A. destruct (q =? p); [|eauto]. assert (B := proj1 (INF x) ltac:(rewrite in_app_iff; auto)). apply in_app_iff in B as [B|B]; eauto.
    - intros [A|[q A]].
      + assert (B := proj2 (INF x) ltac:(rewrite in_app_iff; auto)). apply in_app_iff in B as [B|B]; auto. right. exists p. unfold P'. rewrite upd_same. auto.
      + destruct (Z.eq_dec q p); [subst q; right; exists p; unfold P'; rewrite upd_same; auto|]. right. exists q. unfold P'. rewrite upd_other; auto. }
  assert (NW : forall x, In x (((N2 ++ N1) ++ R) ++ P p) -> x <> p).
  { intros x A ->. destruct (notin _ _ _ _ p Q ltac:(rewrite E; auto)) as [B C]. apply in_app_iff in A as [A|A]; [auto|apply (C p A)]. }
  exists N2, R2, P'. constructor; cbn.
  - intros q. destruct (Z.eq_dec q p); [subst q; intros _; apply (q_ne _ _ _ _ Q); congruence|]. rewrite PP by auto. apply Q.
  - intros q A. apply MEM in A. rewrite PP; [apply Q; auto|]. intro. subst q. apply (q_mem _ _ _ _ Q) in A. rewrite E in A. exact A.
  - intros q. destruct (Z.eq_dec q p); [subst q; rewrite upd_same; discriminate|]. rewrite PP by auto. intros A B. apply MEM. apply Q; auto.
  - auto.
  - intros q. unfold P', upd. destruct (q =? p); auto. apply Q.
  - intros x q A B. unfold P', upd in A. destruct (Z.eqb_spec q p); [apply (F3 x B A)|].
    assert (C := proj1 (INF x) ltac:(rewrite in_app_iff; auto)). apply in_app_iff in C as [C|C]; [apply (q_dis _ _ _ _ Q _ _ A C)|].
    apply n0. apply (q_dis2 _ _ _ _ Q _ _ _ A C).
  - assert (Y : forall x q, q <> p -> In x V2 -> In x (P q) -> False).
    { intros x q n0 A B. assert (C := proj1 (INF x) ltac:(rewrite in_app_iff; auto)). apply in_app_iff in C as [C|C]; [apply (q_dis _ _ _ _ Q _ _ B C)|].
      apply n0. apply (q_dis2 _ _ _ _ Q _ _ _ B C). }
    intros x q q' A B. unfold P', upd in A, B. destruct (Z.eqb_spec q p), (Z.eqb_spec q' p); subst; auto; [exfalso; eauto|exfalso; eauto|].
    apply (q_dis2 _ _ _ _ Q _ _ _ A B).
  - intros q. destruct (Z.eq_dec q p); [subst q; unfold P'; rewrite !upd_same; cbn; auto|]. unfold P'. rewrite PP, upd_other by auto.
    pose proof (q_priv _ _ _ _ Q q) as H. destruct (head (pcs s q)); auto. apply (seg_ext (nxt s)); auto. intros x A. apply Out.
    intros B. apply (q_dis _ _ _ _ Q _ _ A). rewrite !in_app_iff. auto.
  - intros H. specialize (H p). rewrite upd_same in H. discriminate.
  - intros q sp' rel' w0' w' wk' pt' pp' ex'. destruct (Z.eq_dec q p); [subst q; rewrite upd_same; discriminate|]. rewrite PP by auto.
    intros A. specialize (Nm q n0). rewrite A in Nm. discriminate.
  - intros q sp' rel' w0' w' wk' ex' nt'. destruct (Z.eq_dec q p).
    2: { rewrite PP by auto. intros A. specialize (Nm q n0). rewrite A in Nm. discriminate. }
    subst q. rewrite upd_same. unfold c. intros A. injection A as <- <- <- <- <- <- <-. split; [|split; [auto|]].
    + apply (seg_ext (nxt s)); auto. intros x A. apply Out. intros B. apply NoDup_app_iff in ND as (ND & _ & _).
      apply NoDup_app_iff in ND as (ND & _ & _). apply NoDup_app_iff in ND as (_ & _ & ND). apply (ND x A B).
    + destruct N1 as [|y L1].
      * cbn in S1. destruct SP as [(Ept & Er & Epp)|SP].
        -- left. subst R pp. unfold R2, K. cbn. rewrite S1, Ept. unfold kept. assert (Z0 : (if ex then @nil Z else tl []) = []) by (destruct ex; auto).
           split; auto. split; destruct ex; auto; exact D1.
        -- right. rewrite S1. unfold P'. rewrite upd_same. apply in_app_iff in SP as [SP|SP]; rewrite in_app_iff; [left; unfold R2; rewrite in_app_iff; auto|right; auto].
      * cbn in S1. destruct S1 as [-> _]. right. unfold P'. rewrite upd_same.
        assert (B := proj2 (INF y) ltac:(rewrite !in_app_iff; cbn; auto)). rewrite <- app_assoc in B. apply in_app_iff in B as [B|B]; auto.
        exfalso. rewrite <- !app_assoc in ND. apply NoDup_app_iff in ND as (_ & _ & ND). apply (ND y B). cbn. auto.
  - intros q. destruct (Z.eq_dec q p).
    2: { rewrite PP by auto. rewrite Nm by auto. discriminate. }
    subst q. rewrite upd_same. intros _. cbn. rewrite D3. unfold P'. rewrite upd_same. destruct ex.
    + cbn. destruct X as (q & A & B & C). exists q. rewrite PP; auto. apply NW. rewrite in_app_iff. auto.
    + cbn. destruct K as [|k0 K0] eqn:EK; cbn.
      * unfold R2. cbn. auto.
      * exists k0. assert (I : In k0 (k0 :: K0)) by (cbn; auto). split; [unfold V2; cbn; auto|]. rewrite PP; [apply KL; auto|].
        apply NW. destruct (KN k0 I). rewrite !in_app_iff. auto.
  - intros x A. apply KR in A. assert (x <> p) by (apply NW; rewrite !in_app_iff; destruct A as [A|A]; auto; destruct (KN x A); auto).
    rewrite PP by auto. destruct A as [A|A]; [apply KL; auto|apply Q; auto].
  - intros L. pose proof (m_lock _ M p Hp). congruence.
  - intros q l x _ _. apply (m_lock _ M p Hp).
  - intros q w1 x A B. rewrite PP in B by (apply NW; rewrite !in_app_iff; auto). eapply (q_chg _ _ _ _ Q); eauto. rewrite in_app_iff. auto.
  - intros q A B. destruct (Z.eq_dec q p); [subst q; rewrite upd_same in A; discriminate|]. rewrite PP in A by auto.
    destruct (q_up _ _ _ _ Q q A B) as [H|(r & rel1 & w1 & nx & H)]; auto. right. exists r, rel1, w1, nx. rewrite PP; auto. intro. subst r. congruence.
Qed.

Lemma Q_ucas : forall s p, MInv s -> QInv s -> QInv (step s (OUCas p)).
Proof.
  intros s p M (N & R & P & Q). cbn. destruct (pcs s p) eqn:E; try (exists N, R, P; assumption).
  assert (Hp : holding (pcs s p) = true) by (rewrite E; auto).
  assert (Nm : forall q, q <> p -> mid (pcs s q) = false) by (apply (not_mid s p); auto).
  destruct (q_cas _ _ _ _ Q _ _ _ _ _ _ _ _ E) as (SN & SR & SP).
  destruct (notin _ _ _ _ p Q ltac:(rewrite E; auto)) as [NI NP].
  pose proof (q_priv _ _ _ _ Q p) as SV. rewrite E in SV. cbn in SV.
  pose proof (q_ex _ _ _ _ Q p) as X. rewrite E in X. specialize (X eq_refl). cbn in X.
  destruct (word_eqb (wd s) w) eqn:Eq.
  - apply word_eqb_eq in Eq. rewrite Eq in SN.
    assert (N = []).
    { apply (seg_loop _ _ _ SN). destruct SP as [(Ei & _)|SP]; intros A.
      - rewrite Ei in A. apply (member_ne _ _ _ _ INV Q); auto. left. apply in_app_iff. auto.
      - pose proof (q_nd _ _ _ _ Q) as ND. apply NoDup_app_iff in ND as (_ & _ & D).
        apply in_app_iff in SP as [SP|SP]; [apply (D _ A SP)|]. apply (q_dis _ _ _ _ Q _ _ SP). apply in_app_iff. auto. }
    subst N. cbn [app] in *.
    assert (G : QInv (set_pc (set_wd s (unlock_word w nt)) p (UWk rel w0 wk))).
    { set (c := UWk rel w0 wk).
      assert (PP : forall q, q <> p -> upd (pcs s) p c q = pcs s q) by (intros; apply upd_other; auto).
      exists R, [], P. pose proof Q as Q0. destruct Q; constructor; cbn [set_pc set_wd wd nxt stat ins sem pcs unlock_word wt wl wc wn wu]; rewrite ?app_nil_r.
      - intros q. destruct (Z.eq_dec q p); [subst q; intros _; apply q_ne0; congruence|]. rewrite PP; auto.
      - intros q A. rewrite PP; auto. intro; subst q. destruct A as [A|[r A]]; [auto|apply (NP r A)].
      - intros q. destruct (Z.eq_dec q p); [subst q; rewrite upd_same; discriminate|]. rewrite PP; auto.
      - auto. - auto. - auto. - auto.
      - intros q. destruct (Z.eq_dec q p); [subst q; rewrite upd_same; cbn; auto|]. rewrite PP; auto. apply q_priv0.
      - intros _. auto.
      - intros q sp' rel' w0' w' wk' pt' pp' ex'. destruct (Z.eq_dec q p); [subst q; rewrite upd_same; discriminate|]. rewrite PP by auto.
        intros A. specialize (Nm q n). rewrite A in Nm. discriminate.
      - intros q sp' rel' w0' w' wk' ex' nt'. destruct (Z.eq_dec q p); [subst q; rewrite upd_same; discriminate|]. rewrite PP by auto.
        intros A. specialize (Nm q n). rewrite A in Nm. discriminate.
      - intros q. destruct (Z.eq_dec q p); [subst q; rewrite upd_same; discriminate|]. rewrite PP by auto. rewrite Nm by auto. discriminate.
      - contradiction.
      - intros _ (q & A & B). destruct ex; [|subst R; contradiction]. destruct X as (r & C & D & F). exists r. left. cbn.
        rewrite PP; [split; auto; split; auto; left; eauto|]. intro. subst r. apply (NP _ C).
      - intros q l x A B. assert (q <> p) by (intro; subst q; auto). rewrite PP in B by auto. destruct (q_R0 q A) as (k & y & Z). congruence.
      - intros q l x A B. assert (q <> p) by (intro; subst q; auto). rewrite PP in B by auto. destruct (q_R0 q A) as (k & y & Z). congruence.
      - intros q. destruct (Z.eq_dec q p); [subst q; rewrite upd_same; discriminate|]. rewrite PP by auto. intros A B.
        destruct (q_up0 q A B) as [H|(r & rel1 & w1 & nx & H)]; auto. right. exists r, rel1, w1, nx. rewrite PP; auto. intro. subst r. congruence. }
    destruct (wn w); auto. apply (Q_same _ _ G); auto.
  - set (c := UHave sp rel w0 (wd s) wk (wt w) nt ex).
    assert (PP : forall q, q <> p -> upd (pcs s) p c q = pcs s q) by (intros; apply upd_other; auto).
    exists N, R, P. pose proof Q as Q0. destruct Q; constructor; cbn.
    + intros q. destruct (Z.eq_dec q p); [subst q; intros _; apply q_ne0; congruence|]. rewrite PP; auto.
    + intros q A. rewrite PP; auto. intro; subst q. destruct A as [A|[r A]]; [auto|apply (NP r A)].
    + intros q. destruct (Z.eq_dec q p); [subst q; rewrite upd_same; discriminate|]. rewrite PP; auto.
    + auto. + auto. + auto. + auto.
    + intros q. destruct (Z.eq_dec q p); [subst q; rewrite upd_same; cbn; auto|]. rewrite PP; auto. apply q_priv0.
    + intros H. specialize (H p). rewrite upd_same in H. discriminate.
    + intros q sp' rel' w0' w' wk' pt' pp' ex'. destruct (Z.eq_dec q p).
      * subst q. rewrite upd_same. unfold c. intros A. injection A as <- <- <- <- <- <- <- <-. exists [], N. cbn. auto.
      * rewrite PP by auto. intros A. specialize (Nm q n). rewrite A in Nm. discriminate.
    + intros q sp' rel' w0' w' wk' ex' nt'. destruct (Z.eq_dec q p); [subst q; rewrite upd_same; discriminate|]. rewrite PP by auto.
      intros A. specialize (Nm q n). rewrite A in Nm. discriminate.
    + intros q. destruct (Z.eq_dec q p).
      2: { rewrite PP by auto. rewrite Nm by auto. discriminate. }
      subst q. rewrite upd_same. intros _. cbn. destruct ex; auto. destruct X as (r & A & B & C). exists r. rewrite PP; auto. intro. subst r. apply (NP _ A).
    + intros x A. rewrite PP; auto. intro. subst x. apply NI. rewrite in_app_iff. auto.
    + intros L. pose proof (m_lock _ M p Hp). congruence.
    + intros q l x A. rewrite PP by (intro; subst q; apply NI; rewrite in_app_iff; auto). eauto.
    + intros q l x A. rewrite PP by (intro; subst q; apply NI; rewrite in_app_iff; auto). eauto.
    + intros q. destruct (Z.eq_dec q p); [subst q; rewrite upd_same; discriminate|]. rewrite PP by auto. intros A B.
      destruct (q_up0 q A B) as [H|(r & rel1 & w1 & nx & H)]; auto. right. exists r, rel1, w1, nx. rewrite PP; auto. intro. subst r. congruence.
Qed.

Lemma Q_wake : forall s p, QInv s -> QInv (step s (OWake p)).
Proof.
  intros s p (N & R & P & Q). cbn. destruct (pcs s p) eqn:E; try (exists N, R, P; assumption).
  pose proof (q_priv _ _ _ _ Q p) as SV. rewrite E in SV. cbn in SV.
  destruct (notin _ _ _ _ p Q ltac:(rewrite E; auto)) as [NI NP].
  destruct (Z.eqb_spec h INV) as [Ei|Ei].
  - subst h. assert (P0 : P p = []).
    { apply (seg_loop _ _ _ SV). intros A. apply (member_ne _ _ _ _ INV Q); eauto. }
    set (c := if rel then CTry w0 0 else Idle).
    assert (PP : forall q, q <> p -> upd (pcs s) p c q = pcs s q) by (intros; apply upd_other; auto).
    assert (c1 : waiting c = false /\ head c = None /\ mid c = false) by (unfold c; destruct rel; auto). destruct c1 as (c1 & c2 & c3).
    exists N, R, P. pose proof Q as Q0. destruct Q; constructor; cbn.
    + intros q. destruct (Z.eq_dec q p); [subst q; intros _; apply q_ne0; congruence|]. rewrite PP; auto.
    + intros q A. rewrite PP; auto. intro; subst q. destruct A as [A|[r A]]; [auto|apply (NP r A)].
    + intros q. destruct (Z.eq_dec q p); [subst q; rewrite upd_same; congruence|]. rewrite PP; auto.
    + auto. + auto. + auto. + auto.
    + intros q. destruct (Z.eq_dec q p); [subst q; rewrite upd_same, c2; auto|]. rewrite PP; auto. apply q_priv0.
    + intros H. apply q_plain0. intros q. destruct (Z.eq_dec q p); [subst q; rewrite E; auto|]. specialize (H q). rewrite PP in H; auto.
    + intros q sp' rel' w0' w' wk' pt' pp' ex'. destruct (Z.eq_dec q p); [subst q; rewrite upd_same; intros A; rewrite A in c3; discriminate|]. rewrite PP by auto. apply q_have0.
    + intros q sp' rel' w0' w' wk' ex' nt'. destruct (Z.eq_dec q p); [subst q; rewrite upd_same; intros A; rewrite A in c3; discriminate|]. rewrite PP by auto. apply q_cas0.
    + intros q. destruct (Z.eq_dec q p); [subst q; rewrite upd_same; congruence|]. rewrite PP by auto. intros A. specialize (q_ex0 q A).
      destruct (exof (pcs s q)); auto. destruct q_ex0 as (r & B & C). exists r. rewrite PP; auto. intro. subst r. apply (NP _ B).
    + intros x A. rewrite PP; auto. intro. subst x. apply NI. rewrite in_app_iff. auto.
    + intros L (q & A & B). rewrite PP in B by (intro; subst q; apply NI; rewrite in_app_iff; auto). destruct (q_way0 L) as [r W]; eauto.
      exists r. unfold onway in *. cbn. rewrite PP; auto. intro. subst r. unfold lwait in W. rewrite E in W.
      destruct W as [((? & ? & W) & _)|[(? & ? & W)|(? & ? & ? & W & _)]]; discriminate.
    + intros q l x A. rewrite PP by (intro; subst q; apply NI; rewrite in_app_iff; auto). eauto.
    + intros q l x A. rewrite PP by (intro; subst q; apply NI; rewrite in_app_iff; auto). eauto.
    + intros q. destruct (Z.eq_dec q p); [subst q; rewrite upd_same; congruence|]. rewrite PP by auto. intros A B.
      destruct (q_up0 q A B) as [H|(r & rel1 & w1 & nx & H)]; auto. right. exists r, rel1, w1, nx. rewrite PP; auto. intro. subst r. congruence.
  - destruct (P p) as [|y T] eqn:EP; [cbn in SV; contradiction|]. cbn in SV. destruct SV as [-> ST].
    assert (HI : In y (P p)) by (rewrite EP; cbn; auto).
    pose proof (q_pd _ _ _ _ Q p) as ND. rewrite EP in ND. inv ND. rename H1 into NyT, H2 into NDT.
    pose proof (q_mem _ _ _ _ Q y (or_intror (ex_intro _ p HI))) as Wy. destruct (wstat_waiting _ _ Wy) as [Wy1 _].
    assert (yp : y <> p) by (intro; subst y; apply (NP _ HI)).
    assert (Ny : ~ In y (N ++ R)) by (apply (q_dis _ _ _ _ Q _ _ HI)).
    set (c := USem rel w0 y (nxt s y)). set (P' := upd P p T).
    assert (PP : forall q, q <> p -> upd (pcs s) p c q = pcs s q) by (intros; apply upd_other; auto).
    assert (SS : forall q, q <> y -> upd (stat s) y WUp q = stat s q) by (intros; apply upd_other; auto).
    assert (PI : forall x q, In x (P' q) -> In x (P q) /\ x <> y).
    { intros x q. unfold P', upd. destruct (Z.eqb_spec q p); intros A.
      - subst q. rewrite EP. cbn. split; auto. intro. subst x. auto.
      - split; auto. intro. subst x. apply n. apply (q_dis2 _ _ _ _ Q _ _ _ A HI). }
    assert (PO : forall x q, In x (P q) -> x <> y -> In x (P' q)).
    { intros x q A B. unfold P', upd. destruct (Z.eqb_spec q p); auto. subst q. rewrite EP in A. cbn in A. destruct A; congruence. }
    exists N, R, P'. pose proof Q as Q0. destruct Q; constructor; cbn.
    + intros q. destruct (Z.eq_dec q p); [subst q; intros _; apply q_ne0; congruence|]. rewrite PP; auto.
    + intros q A. assert (q <> y) by (intro; subst q; destruct A as [A|[r A]]; [auto|apply (PI _ _ A); auto]).
      assert (B : In q (N ++ R) \/ exists r, In q (P r)) by (destruct A as [A|[r A]]; auto; right; exists r; apply PI; auto).
      rewrite PP, SS; auto. intro; subst q. destruct B as [B|[r B]]; [auto|apply (NP r B)].
    + intros q. destruct (Z.eq_dec q p); [subst q; rewrite upd_same; discriminate|]. rewrite PP by auto. intros A B.
      assert (q <> y) by (intro; subst q; rewrite upd_same in B; auto). rewrite SS in B by auto. destruct (q_all0 q A B) as [C|[r C]]; auto. right. exists r. apply PO; auto.
    + auto.
    + intros q. unfold P', upd. destruct (q =? p); auto.
    + intros x q A. apply PI in A as [A _]. apply (q_dis0 _ _ A).
    + intros x q q' A B. apply PI in A as [A _]. apply PI in B as [B _]. apply (q_dis3 _ _ _ A B).
    + intros q. unfold P'. destruct (Z.eq_dec q p); [subst q; rewrite !upd_same; cbn; auto|]. rewrite PP, upd_other by auto. apply q_priv0.
    + intros H. apply q_plain0. intros q. destruct (Z.eq_dec q p); [subst q; rewrite E; auto|]. specialize (H q). rewrite PP in H; auto.
    + intros q sp' rel' w0' w' wk' pt' pp' ex'. destruct (Z.eq_dec q p); [subst q; rewrite upd_same; discriminate|]. rewrite PP by auto.
      unfold P'. rewrite upd_other by auto. apply q_have0.
    + intros q sp' rel' w0' w' wk' ex' nt'. destruct (Z.eq_dec q p); [subst q; rewrite upd_same; discriminate|]. rewrite PP by auto.
      unfold P'. rewrite upd_other by auto. apply q_cas0.
    + intros q. destruct (Z.eq_dec q p); [subst q; rewrite upd_same; discriminate|]. rewrite PP by auto. intros A. specialize (q_ex0 q A).
      unfold P'. rewrite upd_other by auto.
      destruct (exof (pcs s q)); auto. destruct q_ex0 as (r & B & C). exists r. rewrite PP; auto. intro. subst r. apply (NP _ B).
    + intros x A. rewrite PP; auto. intro. subst x. apply NI. rewrite in_app_iff. auto.
    + intros L (q & A & B). rewrite PP in B by (intro; subst q; apply NI; rewrite in_app_iff; auto). destruct (q_way0 L) as [r W]; eauto.
      exists r. unfold onway in *. cbn. assert (rp : r <> p).
      { intro. subst r. unfold lwait in W. rewrite E in W. destruct W as [((? & ? & W) & _)|[(? & ? & W)|(? & ? & ? & W & _)]]; discriminate. }
      rewrite PP by auto. destruct W as [(W1 & W2 & W3)|W]; auto. left. split; auto. split; auto.
      destruct (Z.eq_dec r y); [subst r; right; apply upd_same|]. rewrite SS by auto. destruct W3 as [[t W3]|W3]; auto. left. exists t. apply PO; auto.
    + intros q l x A. rewrite PP by (intro; subst q; apply NI; rewrite in_app_iff; auto). eauto.
    + intros q l x A. rewrite PP by (intro; subst q; apply NI; rewrite in_app_iff; auto). eauto.
    + intros q. destruct (Z.eq_dec q p); [subst q; rewrite upd_same; discriminate|]. rewrite PP by auto. intros A B.
      destruct (Z.eq_dec q y); [subst q; right; exists p, rel, w0, (nxt s y); apply upd_same|]. rewrite SS in B by auto.
      destruct (q_up0 q A B) as [H|(r & rel1 & w1 & nx & H)]; auto. right. exists r, rel1, w1, nx. rewrite PP; auto. intro. subst r. congruence.
Qed.

Lemma Q_usem : forall s p, QInv s -> QInv (step s (OUSem p)).
Proof.
  intros s p (N & R & P & Q). cbn. destruct (pcs s p) eqn:E; try (exists N, R, P; assumption).
  pose proof (q_priv _ _ _ _ Q p) as SV. rewrite E in SV. cbn in SV.
  destruct (notin _ _ _ _ p Q ltac:(rewrite E; auto)) as [NI NP].
  set (c := UWk rel w0 nx).
  assert (PP : forall q, q <> p -> upd (pcs s) p c q = pcs s q) by (intros; apply upd_other; auto).
  exists N, R, P. pose proof Q as Q0. destruct Q; constructor; cbn.
  + intros q. destruct (Z.eq_dec q p); [subst q; intros _; apply q_ne0; congruence|]. rewrite PP; auto.
  + intros q A. rewrite PP; auto. intro; subst q. destruct A as [A|[r A]]; [auto|apply (NP r A)].
  + intros q. destruct (Z.eq_dec q p); [subst q; rewrite upd_same; discriminate|]. rewrite PP; auto.
  + auto. + auto. + auto. + auto.
  + intros q. destruct (Z.eq_dec q p); [subst q; rewrite upd_same; cbn; auto|]. rewrite PP; auto. apply q_priv0.
  + intros H. apply q_plain0. intros q. destruct (Z.eq_dec q p); [subst q; rewrite E; auto|]. specialize (H q). rewrite PP in H; auto.
  + intros q sp' rel' w0' w' wk' pt' pp' ex'. destruct (Z.eq_dec q p); [subst q; rewrite upd_same; discriminate|]. rewrite PP by auto. apply q_have0.
  + intros q sp' rel' w0' w' wk' ex' nt'. destruct (Z.eq_dec q p); [subst q; rewrite upd_same; discriminate|]. rewrite PP by auto. apply q_cas0.
  + intros q. destruct (Z.eq_dec q p); [subst q; rewrite upd_same; discriminate|]. rewrite PP by auto. intros A. specialize (q_ex0 q A).
    destruct (exof (pcs s q)); auto. destruct q_ex0 as (r & B & C). exists r. rewrite PP; auto. intro. subst r. apply (NP _ B).
  + intros x A. rewrite PP; auto. intro. subst x. apply NI. rewrite in_app_iff. auto.
  + intros L (q & A & B). rewrite PP in B by (intro; subst q; apply NI; rewrite in_app_iff; auto). destruct (q_way0 L) as [r W]; eauto.
    exists r. unfold onway in *. cbn. rewrite PP; auto. intro. subst r. unfold lwait in W. rewrite E in W.
    destruct W as [((? & ? & W) & _)|[(? & ? & W)|(? & ? & ? & W & _)]]; discriminate.
  + intros q l x A. rewrite PP by (intro; subst q; apply NI; rewrite in_app_iff; auto). eauto.
  + intros q l x A. rewrite PP by (intro; subst q; apply NI; rewrite in_app_iff; auto). eauto.
  + intros q. destruct (Z.eq_dec q p); [subst q; rewrite upd_same; discriminate|]. rewrite PP by auto. intros A B.
    unfold upd at 1. destruct (Z.eqb_spec q h); [left; lia|].
    destruct (q_up0 q A B) as [H|(r & rel1 & w1 & nx1 & H)]; auto. right. exists r, rel1, w1, nx1. rewrite PP; auto. intro. subst r. congruence.
Qed.

Lemma Q_step : forall s o, MInv s -> QInv s -> QInv (step s o).
Proof.
  intros s o M Q. destruct o; try (apply Q_lock; auto); try (apply Q_trylock; auto); try (apply Q_read0; auto); try (apply Q_state; auto);
    try (apply Q_cas; auto); try (apply Q_sem; auto); try (apply Q_mark; auto); try (apply Q_other; auto); try (apply Q_walk; auto);
    try (apply Q_ucas; auto); try (apply Q_wake; auto); try (apply Q_usem; auto); pose proof Q as (N & R & P & Q0); cbn.
  - destruct (pcs s p) eqn:E; auto. destruct k; auto. destruct (wl w) eqn:L; auto. mv Q0 E.
    intros [((? & ? & A) & _)|[(? & ? & A)|(? & ? & ? & A & [B|B])]]; try congruence; rewrite E in A; inv A; congruence.
  - destruct (pcs s p) eqn:E; auto. destruct (wn w); auto. mv Q0 E. noway E.
  - destruct (holder_noread s p); auto. apply (Q_same s); auto.
  - destruct (pcs s p) eqn:E; auto. apply (Q_same s); auto.
  - destruct (holder_noread s p); auto. apply (Q_same s); auto.
  - destruct (holder_noread s p); auto. apply (Q_same s); auto.
  - destruct (pcs s p) eqn:E; auto. destruct ((l0 <? life s) || (l0 =? life s) && live s); auto. destruct (gen s =? ref_gen l0); [apply (Q_same s); auto|].
    mv Q0 E. noway E.
  - destruct (pcs s p) eqn:E; auto. mv Q0 E. noway E.
  - destruct (pcs s p) eqn:E; auto. mv Q0 E. noway E.
  - destruct (pcs s p) eqn:E; auto. destruct (negb (wc w =? wc (wd s)) || wn (wd s)); mv Q0 E; noway E.
  - destruct (pcs s p) eqn:E; auto. destruct (gen s =? ref_gen l0); mv Q0 E; noway E.
  - destruct (live s); auto. apply (Q_same s); auto.
  - apply (Q_same s); auto.
  - apply (Q_same s); auto. cbn. intros x. unfold upd. destruct (Z.eqb_spec x p); subst; left; lia.
  - destruct (sem s p) eqn:Em; auto. destruct (pcs s p) eqn:E; cbn; auto. apply (Q_same s); auto.
    cbn. intros x. unfold upd. destruct (Z.eqb_spec x p); [subst; rewrite E; auto|left; lia].
Qed.
Lemma Q_init : QInv init.
Proof. exists [], [], (fun _ => []). constructor; cbn; intros; auto; try discriminate; try contradiction; try constructor; try (destruct H as [H|[? H]]; contradiction). destruct H0 as (? & [] & _). Qed.
Lemma Q_run : forall ops, MInv (run step init ops) /\ QInv (run step init ops).
Proof.
  intros. apply (run_inv _ _ step (fun s => MInv s /\ QInv s)); [intros s o [A B]; auto using M_step, Q_step|auto using M_init, Q_init].
Qed.
