(** Invariant of the row model: shape of the chain, agreement of the versions
    with the specification and of the undo stacks with the versions. *)
From Coq Require Import ZArith List Bool Lia.
From Coq Require Import ZifyBool.
From Verif Require Import Base RowModel RowSpec RowLemmas.
Import ListNotations.
Open Scope Z_scope.

Definition isv (e : ent) : bool := negb (elk e).
Definition vers (l : list ent) : list ent := filter isv l.
Definition core (e : ent) : ent := set_c e false.
Definition own (x : Z) (l : list ent) : list ent := filter (fun e => ex e =? x) l.

Definition val (e : ent) : option Z := if ed e then None else Some (ev e).
Definition vkey (e : ent) := (eu e, ep e, ed e, ecid e, val e).
Definition ikey (i : item) :=
  (match ia i with AI => -1 | _ => il i end, il i,
   match ival i with None => true | _ => false end, icid i, ival i).
Definition modif (i : item) : bool :=
  match ia i with AI | AU | AD => true | _ => false end.

Fixpoint after_mark (l : list item) : list item :=
  match l with
  | [] => []
  | i :: r => match ia i with AS => r | _ => after_mark r end
  end.
(** The part of a stack that survives the rollback in progress. *)
Definition keepk (r : Z) (l : list item) : list item :=
  if r =? 0 then l else if r =? 1 then after_mark l else [].

Definition pitem_of (i : item) : list pitem :=
  match ia i with
  | AI | AU | AD => [PW (icid i) (ival i)]
  | AS => [PM]
  | _ => []
  end.
Definition pitems (l : list item) : list pitem := flat_map pitem_of l.

(** Value of the newest committed version below a commit number. *)
Fixpoint rv (T : Z -> txr) (l : list ent) (S : Z) : option Z :=
  match l with
  | [] => None
  | e :: r => match tst (T (ex e)) with
              | Comm c => if c <? S then val e else rv T r S
              | _ => rv T r S
              end
  end.

Definition sp (s : st) : spec := spec_of (evs s).

Fixpoint sdesc (n : Z) (l : list item) : Prop :=
  match l with
  | [] => True
  | i :: r => 0 <= il i < n /\ sdesc (il i) r
  end.

Record Inv (s : st) : Prop := {
  i_n : 0 <= nloc s;
  i_wf : wfc (ch s);
  i_loc : forall e, In e (ch s) -> ep e < nloc s;
  i_own : forall e, In e (ch s) -> tst (tx s (ex e)) <> Idle;
  i_first : forall e, In e (ch s) -> tst (tx s (ex e)) = InProg -> 0 <= eu e ->
              0 <= tfirst (tx s (ex e)) <= eu e;
  i_ret : forall y z, tret (tx s y) < INF -> tst (tx s z) = InProg ->
            0 <= tfirst (tx s z) -> tret (tx s y) <= tfirst (tx s z);
  i_retn : forall y, tret (tx s y) < INF -> tret (tx s y) <= nloc s;
  i_xs : forall z, tst (tx s z) <> Idle -> In z (xs s);
  i_m3 : forall a e b, ch s = a ++ e :: b -> elk e = false ->
           tst (tx s (ex e)) = InProg -> em e = 3 ->
           Forall (fun f => elk f = false /\ ex f = ex e) a;
  i_vers : exists x o c, vers (ch s) = o ++ c /\
             Forall (fun e => ex e = x /\ tst (tx s x) = InProg) o /\
             Forall (fun e => exists k, tst (tx s (ex e)) = Comm k /\ k < ncsn s) c /\
             forall S, rv (tx s) c S = committed_before S (com (sp s));
  i_stk : forall x, tst (tx s x) = InProg ->
            map vkey (own x (vers (ch s))) = map ikey (filter modif (tstack (tx s x)));
  i_idle : forall x, tst (tx s x) <> InProg ->
            tstack (tx s x) = [] /\ pend (sp s) x = [];
  i_hold : forall x, tst (tx s x) <> InProg \/ troll (tx s x) = 2 -> hold (sp s) x = [];
  i_pend : forall x, tst (tx s x) = InProg ->
            pend (sp s) x = pitems (keepk (troll (tx s x)) (tstack (tx s x)));
  i_desc : forall x, sdesc (nloc s) (tstack (tx s x));
  i_roll : forall x, tst (tx s x) = InProg ->
            troll (tx s x) = 0 \/ (troll (tx s x) = 1 /\ 0 <= sploc (tstack (tx s x))) \/
            troll (tx s x) = 2;
  i_fn : forall x, tfirst (tx s x) <= nloc s
}.

Lemma Inv_st0 : Inv st0.
Proof.
  split; cbn; try tauto; try lia; try discriminate; intros; try lia; try discriminate;
    try congruence; try (destruct a; discriminate).
  exists 0, [], []. repeat split; constructor.
Qed.

(** ** Lists *)

Lemma vers_app : forall a b, vers (a ++ b) = vers a ++ vers b.
Proof. intros. apply filter_app. Qed.
Lemma own_app : forall x a b, own x (a ++ b) = own x a ++ own x b.
Proof. intros. apply filter_app. Qed.

Lemma vers_in : forall e l, In e (vers l) <-> In e l /\ elk e = false.
Proof. intros. unfold vers, isv. rewrite filter_In. destruct (elk e); cbn; intuition. Qed.

Lemma shr_vers : forall P l l', shr P l l' -> eqcl (vers l) (vers l').
Proof.
  intros P l l' H. induction H; cbn; [constructor| |].
  - unfold isv. eqcf H. rewrite <- Hlk. destruct (elk e); cbn; [assumption|]. constructor; assumption.
  - unfold isv. rewrite H. cbn. assumption.
Qed.

Lemma eqcl_own : forall x l l', eqcl l l' -> eqcl (own x l) (own x l').
Proof.
  intros x l l' H. induction H; cbn; [constructor|]. eqcf H. rewrite <- Hx.
  destruct (ex x0 =? x); [constructor; assumption | assumption].
Qed.

Lemma eqcl_vkey : forall l l', eqcl l l' -> map vkey l = map vkey l'.
Proof.
  intros l l' H. induction H; cbn; [reflexivity|]. rewrite IHForall2. f_equal.
  eqcf H. unfold vkey, val. rewrite Hu, Hp, Hd, Hcid, Hv. reflexivity.
Qed.

Lemma eqcl_rv : forall T l l' S, eqcl l l' -> rv T l S = rv T l' S.
Proof.
  intros T l l' S H. induction H; cbn; [reflexivity|]. eqcf H. unfold val.
  rewrite Hx, Hd, Hv, IHForall2. reflexivity.
Qed.

Lemma rv_ext : forall T T' l S, (forall e, In e l -> tst (T (ex e)) = tst (T' (ex e))) ->
  rv T l S = rv T' l S.
Proof.
  intros T T' l S. induction l as [|e l IH]; intros H; cbn; [reflexivity|].
  rewrite <- (H e (or_introl eq_refl)), IH; [reflexivity|]. intros f F. apply H. right. exact F.
Qed.

(** The chain split at its first version. *)
Lemma lead_split : forall l, wfc l -> l <> [] ->
  exists e r, l = lead_locks l ++ e :: r /\ drop_locks l = e :: r /\ elk e = false /\
              Forall (fun k => elk k = true) (lead_locks l).
Proof.
  induction l as [|e l IH]; intros W N; [congruence|]. cbn [lead_locks drop_locks].
  destruct (elk e) eqn:L.
  - destruct l as [|f l].
    + cbn in W. destruct W as (_ & _ & W & _). congruence.
    + destruct (IH (wfc_tail _ _ W)) as (g & r & A & B & C & D); [discriminate|].
      exists g, r. split; [|split; [exact B|split; [exact C|]]].
      * cbn [app]. f_equal. exact A.
      * constructor; assumption.
  - exists e, l. repeat split; auto.
Qed.

(** ** Dropping locks and changing flags *)

Lemma Inv_shr : forall P s l, Inv s -> shr P (ch s) l -> Inv (set_ch s l).
Proof.
  intros P s l H K. destruct H.
  assert (VE := shr_vers _ _ _ K).
  split; cbn; auto.
  - eapply shr_wfc; eauto.
  - intros e I. destruct (shr_in _ _ _ _ K I) as (f & A & B). eqcf B. rewrite <- Hp. auto.
  - intros e I. destruct (shr_in _ _ _ _ K I) as (f & A & B). eqcf B. rewrite <- Hx. auto.
  - intros e I. destruct (shr_in _ _ _ _ K I) as (f & A & B). eqcf B. rewrite <- Hx, <- Hu. auto.
  - intros a e b Q L T M.
    destruct (shr_split _ _ _ _ _ _ K Q) as (a0 & e0 & b0 & A & B & C & D). eqcf B.
    rewrite <- Hx in *. 
    assert (G := i_m4 _ _ _ A). rewrite Hlk, Hm in G. specialize (G L T M).
    rewrite Forall_forall in *. intros f F. destruct (shr_in _ _ _ _ C F) as (g & G1 & G2).
    specialize (G g G1). eqcf G2. rewrite <- Hlk0, <- Hx0. exact G.
  - destruct i_vers0 as (x & o & c & A & B & C & D). rewrite A in VE.
    destruct (Forall2_app_inv_l _ _ VE) as (o' & c' & E1 & E2 & E3).
    exists x, o', c'. split; [exact E3|]. split; [|split].
    + eapply Forall_eqcl; [|exact E1|exact B]. cbn. intros e e' Z. eqcf Z. rewrite Hx. auto.
    + eapply Forall_eqcl; [|exact E2|exact C]. cbn. intros e e' Z. eqcf Z. rewrite Hx. auto.
    + intros S. rewrite <- (eqcl_rv _ _ _ _ E2). apply D.
  - intros x L. rewrite <- (i_stk0 x L). symmetry. apply eqcl_vkey, eqcl_own. exact VE.
Qed.

(** ** Transactions only *)

(** Changes that touch neither chain nor log, and of the transactions only
    fields that do not matter for the chain. *)
Lemma Inv_set_tx : forall s x t, Inv s ->
  tst t = tst (tx s x) -> tstack t = tstack (tx s x) -> tfirst t = tfirst (tx s x) ->
  troll t = troll (tx s x) ->
  (tret t < INF -> tret t <= nloc s /\ forall z, tst (tx s z) = InProg ->
      0 <= tfirst (tx s z) -> tret t <= tfirst (tx s z)) ->
  Inv (set_tx s x t).
Proof.
  intros s x t H E1 E2 E3 E4 R. destruct H.
  assert (S : forall z, tst (upd (tx s) x t z) = tst (tx s z)).
  { intros z. unfold upd. destruct (z =? x) eqn:Q; [|reflexivity]. assert (z = x) by lia. congruence. }
  assert (K : forall z, tstack (upd (tx s) x t z) = tstack (tx s z)).
  { intros z. unfold upd. destruct (z =? x) eqn:Q; [|reflexivity]. assert (z = x) by lia. congruence. }
  assert (F : forall z, tfirst (upd (tx s) x t z) = tfirst (tx s z)).
  { intros z. unfold upd. destruct (z =? x) eqn:Q; [|reflexivity]. assert (z = x) by lia. congruence. }
  assert (O : forall z, troll (upd (tx s) x t z) = troll (tx s z)).
  { intros z. unfold upd. destruct (z =? x) eqn:Q; [|reflexivity]. assert (z = x) by lia. congruence. }
  split; cbn; intros; rewrite ?S, ?K, ?F, ?O in *; eauto.
  - unfold upd in *. destruct (y =? x); [apply R; auto | eauto].
  - unfold upd in *. destruct (y =? x); [apply R; auto | eauto].
  - destruct i_vers0 as (y & o & c & A & B & C & D). exists y, o, c. split; [exact A|].
    split; [|split].
    + rewrite Forall_forall in *. intros e I. rewrite S. auto.
    + rewrite Forall_forall in *. intros e I. rewrite S. auto.
    + intros z. rewrite <- D. apply rv_ext. intros e _. apply S.
Qed.

Lemma snapmin_le : forall s z, In z (xs s) -> tst (tx s z) = InProg -> 0 <= tfirst (tx s z) ->
  snapmin s <= tfirst (tx s z).
Proof.
  intros s z. unfold snapmin. induction (xs s) as [|y l IH]; intros I L F; [contradiction|].
  cbn. destruct I as [->|I].
  - unfold inpr. rewrite L. assert (0 <=? tfirst (tx s z) = true) as -> by lia. cbn. lia.
  - specialize (IH I L F).
    match goal with |- context [if ?b then _ else _] => destruct b end; lia.
Qed.

Lemma snapmin_n : forall s, snapmin s <= nloc s.
Proof.
  intros s. unfold snapmin. induction (xs s) as [|y l IH]; cbn; [lia|].
  match goal with |- context [if ?b then _ else _] => destruct b end; lia.
Qed.

(** ** Events that change the specification of one transaction *)

Lemma sp_emit : forall s l, sp (emit s l) = fold_right spec_step (sp s) l.
Proof. intros. unfold sp, emit. cbn. unfold spec_of. rewrite fold_right_app. reflexivity. Qed.

Lemma sdesc_le : forall l n m, n <= m -> sdesc n l -> sdesc m l.
Proof. intros [|i l] n m H K; cbn in *; [auto|]. split; [lia | tauto]. Qed.

(** ** Writing on top of the chain *)

Lemma adj_put : forall e l n, wfc l -> (forall f, In f l -> ep f < n) ->
  (l <> [] -> eu e = n /\ ep e = n /\ 0 <= n) ->
  (l = [] -> eu e = -1 /\ 0 <= ep e /\ elk e = false /\ ed e = false /\ em e = 3) ->
  (elk e = true -> ed e = false /\ forall f r, l = f :: r -> ed f = false) ->
  (elk e = false -> 2 <= em e <= 3) -> (ed e = true -> em e = 3) ->
  (forall f r, l = f :: r -> ed f = true -> em e = 3) -> wfc (e :: l).
Proof.
  intros e [|f r] n W N A B C D G H; cbn [wfc].
  - apply B. reflexivity.
  - split; [|exact W]. unfold adj.
    destruct (A ltac:(discriminate)) as (A1 & A2 & A3).
    assert (EF : eu f < n).
    { assert (ep f < n) by (apply N; left; reflexivity).
      destruct (wfc_eu _ f W (or_introl eq_refl)) as [[]|(U & _)]; lia. }
    repeat split; try lia; try (apply C; assumption); try (apply D; assumption); eauto.
    intros. eapply (proj2 (C H0)). reflexivity.
Qed.

Definition top_ok (s : st) (x : Z) (lk : bool) : Prop :=
  (forall e, In e (ch s) -> elk e = false -> tst (tx s (ex e)) = InProg -> lk = false -> ex e = x) /\
  (forall e, In e (ch s) -> elk e = false -> tst (tx s (ex e)) = InProg -> em e = 3 ->
     lk = false /\ ex e = x).

Lemma own_cons : forall x e l, own x (e :: l) = if ex e =? x then e :: own x l else own x l.
Proof. reflexivity. Qed.

(** A pushed stack item does not disturb the parts of the invariant that do
    not mention chain or log. *)
Lemma push_tx : forall s x i z, z <> x -> tx (push s x i) z = tx s z.
Proof. intros. cbn. apply upd_other. assumption. Qed.
Lemma push_tst : forall s x i z, tst (tx (push s x i) z) = tst (tx s z).
Proof. intros. cbn. unfold upd. destruct (z =? x) eqn:Q; [|reflexivity]. assert (z = x) by lia. subst. reflexivity. Qed.

Lemma Inv_push_only : forall s x i l, Inv s -> tst (tx s x) = InProg -> troll (tx s x) = 0 ->
  il i = nloc s -> modif i = false ->
  (forall z, pend (fold_right spec_step (sp s) l) z =
             if z =? x then pitem_of i ++ pend (sp s) x else pend (sp s) z) ->
  (forall z, z <> x -> hold (fold_right spec_step (sp s) l) z = hold (sp s) z) ->
  com (fold_right spec_step (sp s) l) = com (sp s) ->
  Inv (emit (push s x i) l).
Proof.
  intros s x i l H L R Ei M PE HE CE. destruct H.
  assert (S := push_tst s x i).
  assert (SPe : sp (emit (push s x i) l) = fold_right spec_step (sp s) l) by (rewrite sp_emit; reflexivity).
  split; intros; rewrite ?SPe in *; cbn [emit ch nloc ncsn xs evs tx] in *; rewrite ?S in *; cbn [push ch nloc ncsn xs] in *; eauto; try lia;
    try (assert (ep e < nloc s) by auto; lia).
  - assert (0 <= tfirst (tx s (ex e)) <= eu e) by auto.
    cbn. unfold upd. destruct (ex e =? x) eqn:Q; [|assumption]. cbn.
    assert (Qx : ex e = x) by lia. rewrite Qx in *.
    assert (tfirst (tx s x) <? 0 = false) as -> by lia. assumption.
  - assert (B : tret (tx s y) < INF).
    { cbn in H. unfold upd in H. destruct (y =? x) eqn:Q; [|exact H]. cbn in H. assert (y = x) by lia. congruence. }
    assert (tret (tx (push s x i) y) = tret (tx s y)) as ->.
    { cbn. unfold upd. destruct (y =? x) eqn:Q; [|reflexivity]. cbn. assert (y = x) by lia. congruence. }
    cbn in *. unfold upd in *. destruct (z =? x) eqn:Q; [|eauto]. cbn in *.
    assert (z = x) by lia. subst z.
    destruct (tfirst (tx s x) <? 0) eqn:F; [eauto|]. apply i_ret0; auto; lia.
  - assert (tret (tx (push s x i) y) = tret (tx s y)) as Q.
    { cbn. unfold upd. destruct (y =? x) eqn:Q; [|reflexivity]. cbn. assert (y = x) by lia. congruence. }
    rewrite Q in *. specialize (i_retn0 y H). lia.
  - destruct i_vers0 as (y & o & c & A & B & C & D). exists y, o, c. split; [exact A|].
    split; [|split].
    + rewrite Forall_forall in *. intros e I. specialize (B e I). rewrite S. exact B.
    + rewrite Forall_forall in *. intros e I. specialize (C e I). rewrite S. exact C.
    + intros z. rewrite CE, <- D. apply rv_ext. intros e _. apply S.
  - rewrite (i_stk0 x0 H). cbn. unfold upd. destruct (x0 =? x) eqn:Q; [|reflexivity].
    cbn. rewrite M. assert (x0 = x) by lia. congruence.
  - destruct (i_idle0 x0 H) as (A & B).
    assert (N : x0 <> x) by congruence.
    rewrite push_tx, PE by assumption. assert (x0 =? x = false) as -> by lia. auto.
  - assert (N : x0 <> x).
    { intros ->. cbn [push tx] in H. rewrite upd_same in H. cbn in H. destruct H; congruence. }
    rewrite HE by assumption. apply i_hold0. rewrite push_tx in H by assumption. exact H.
  - rewrite PE. cbn. unfold upd. destruct (x0 =? x) eqn:Q.
    + cbn. rewrite R. cbn. assert (x0 = x) by lia. subst x0. rewrite (i_pend0 x L), R. reflexivity.
    + eauto.
  - cbn. unfold upd. destruct (x0 =? x) eqn:Q.
    + cbn. rewrite Ei. split; [lia|]. apply i_desc0.
    + eapply sdesc_le; [|apply i_desc0]. lia.
  - cbn. unfold upd. destruct (x0 =? x) eqn:Q; [|auto]. cbn. rewrite R. auto.
  - specialize (i_fn0 x) as F1. specialize (i_fn0 x0) as F2.
    cbn. unfold upd. destruct (x0 =? x) eqn:Q; cbn; [destruct (tfirst (tx s x) <? 0)|]; lia.
Qed.

Lemma Inv_put : forall s x i l e, Inv s -> tst (tx s x) = InProg -> troll (tx s x) = 0 ->
  il i = nloc s -> modif i = negb (elk e) -> ex e = x -> ep e = nloc s ->
  (ch s <> [] -> eu e = nloc s) ->
  (ch s = [] -> eu e = -1 /\ elk e = false /\ ed e = false /\ em e = 3) ->
  (elk e = true -> ed e = false /\ forall f r, ch s = f :: r -> ed f = false) ->
  (elk e = false -> 2 <= em e <= 3 /\ vkey e = ikey i) -> (ed e = true -> em e = 3) ->
  (forall f r, ch s = f :: r -> ed f = true -> em e = 3) ->
  top_ok s x (elk e) ->
  (forall z, pend (fold_right spec_step (sp s) l) z =
             if z =? x then pitem_of i ++ pend (sp s) x else pend (sp s) z) ->
  (forall z, z <> x -> hold (fold_right spec_step (sp s) l) z = hold (sp s) z) ->
  com (fold_right spec_step (sp s) l) = com (sp s) ->
  Inv (emit (push (set_ch s (e :: ch s)) x i) l).
Proof.
  intros s x i l e H L R Ei M Ex Ep A1 A2 A3 A4 A5 A6 [TO1 TO2] PE HE CE. destruct H.
  assert (S : forall z, tst (tx (push (set_ch s (e :: ch s)) x i) z) = tst (tx s z))
    by (intros; rewrite push_tst; reflexivity).
  assert (TR : forall y, tret (tx (push (set_ch s (e :: ch s)) x i) y) = tret (tx s y)).
  { intros y. cbn. unfold upd. destruct (y =? x) eqn:Q; [|reflexivity]. cbn.
    assert (y = x) by lia. subst. reflexivity. }
  assert (SPe : sp (emit (push (set_ch s (e :: ch s)) x i) l) = fold_right spec_step (sp s) l)
    by (rewrite sp_emit; reflexivity).
  split; intros; rewrite ?SPe in *; cbn [emit ch nloc ncsn xs evs tx] in *; rewrite ?S, ?TR in *;
    cbn [push set_ch ch nloc ncsn xs] in *.
  - lia.
  - apply adj_put with (n := nloc s); auto.
    + intros Q. destruct (A2 Q) as (? & ? & ? & ?). repeat split; auto; lia.
    + intros Q. apply A4. exact Q.
  - destruct H as [<-|H]; [lia|]. assert (ep e0 < nloc s) by auto. lia.
  - destruct H as [<-|H]; [congruence|auto].
  - destruct H as [<-|H].
    + cbn. rewrite Ex, upd_same. cbn.
      assert (NE : ch s <> []) by (intros Q; destruct (A2 Q); lia).
      rewrite (A1 NE). specialize (i_fn0 x).
      destruct (tfirst (tx s x) <? 0) eqn:F; lia.
    + assert (0 <= tfirst (tx s (ex e0)) <= eu e0) by auto.
      cbn. unfold upd. destruct (ex e0 =? x) eqn:Q; [|assumption]. cbn.
      assert (Qx : ex e0 = x) by lia. rewrite Qx in *.
      assert (tfirst (tx s x) <? 0 = false) as -> by lia. assumption.
  - cbn in *. unfold upd in *. destruct (z =? x) eqn:Q; [|eauto]. cbn in *.
    assert (z = x) by lia. subst z.
    destruct (tfirst (tx s x) <? 0) eqn:F; [eauto|]. apply i_ret0; auto; lia.
  - specialize (i_retn0 y H). lia.
  - eauto.
  - destruct a as [|f a]; [constructor|]. cbn in H. injection H as <- H.
    assert (G := i_m4 _ _ _ H H0 H1 H2). constructor; [|exact G].
    destruct (TO2 e0) as [T1 T2]; auto.
    + rewrite H. apply in_elt.
    + split; congruence.
  - destruct i_vers0 as (y & o & c & A & B & C & D).
    assert (CC : Forall (fun e0 => exists k,
       tst (tx (push (set_ch s (e :: ch s)) x i) (ex e0)) = Comm k /\ k < ncsn s) c).
    { rewrite Forall_forall in *. intros f F. rewrite S. auto. }
    assert (RV : forall z, rv (tx (push (set_ch s (e :: ch s)) x i)) c z =
                           committed_before z (com (fold_right spec_step (sp s) l))).
    { intros z. rewrite CE, <- D. apply rv_ext. intros f _. apply S. }
    cbn [vers filter]. unfold isv at 1. destruct (elk e) eqn:LK; cbn [negb].
    + exists y, o, c. split; [exact A|]. split; [|split; [exact CC | exact RV]].
      rewrite Forall_forall in *. intros f F. rewrite S. auto.
    + exists x, (e :: o), c. split; [cbn; f_equal; exact A|]. split; [|split; [exact CC | exact RV]].
      rewrite S. constructor; [auto|]. rewrite Forall_forall in *. intros f F. split; [|exact L].
      destruct (B f F) as [B1 B2].
      assert (IN : In f (vers (ch s))) by (rewrite A; apply in_app_iff; auto).
      rewrite vers_in in IN. destruct IN. apply TO1; auto. congruence.
  - cbn [vers filter]. unfold isv at 1. cbn [push tx]. unfold upd. destruct (x0 =? x) eqn:Q.
    + assert (x0 = x) by lia. subst x0. cbn. rewrite M. destruct (elk e) eqn:LK; cbn.
      * apply i_stk0. exact L.
      * assert (ex e =? x = true) as -> by lia. cbn. f_equal; [apply A4; reflexivity|].
        apply i_stk0. exact L.
    + destruct (elk e) eqn:LK; cbn [negb]; [apply i_stk0; assumption|].
      rewrite own_cons. assert (ex e =? x0 = false) as -> by lia. apply i_stk0; assumption.
  - destruct (i_idle0 x0 H) as (A & B).
    assert (N : x0 <> x) by congruence.
    rewrite push_tx, PE by assumption. assert (x0 =? x = false) as -> by lia. auto.
  - assert (N : x0 <> x).
    { intros ->. cbn [push tx] in H. rewrite upd_same in H. cbn in H. destruct H; congruence. }
    rewrite HE by assumption. apply i_hold0. rewrite push_tx in H by assumption. exact H.
  - rewrite PE. cbn. unfold upd. destruct (x0 =? x) eqn:Q.
    + cbn. rewrite R. cbn. assert (x0 = x) by lia. subst x0. rewrite (i_pend0 x L), R. reflexivity.
    + eauto.
  - cbn. unfold upd. destruct (x0 =? x) eqn:Q.
    + cbn. rewrite Ei. split; [lia|]. apply i_desc0.
    + eapply sdesc_le; [|apply i_desc0]. lia.
  - cbn. unfold upd. destruct (x0 =? x) eqn:Q; [|auto]. cbn. rewrite R. auto.
  - specialize (i_fn0 x) as F1. specialize (i_fn0 x0) as F2.
    cbn. unfold upd. destruct (x0 =? x) eqn:Q; cbn; [destruct (tfirst (tx s x) <? 0)|]; lia.
Qed.

(** ** What a walk that does not report a conflict guarantees *)

Lemma live_version_above : forall s a f b, Inv s -> ch s = a ++ f :: b -> elk f = false ->
  tst (tx s (ex f)) = InProg ->
  Forall (fun e => elk e = false -> ex e = ex f /\ tst (tx s (ex e)) = InProg) a.
Proof.
  intros s a f b H Q L T. destruct (i_vers _ H) as (x & o & c & A & B & C & D).
  assert (VF : vers (f :: b) = f :: vers b) by (unfold vers, isv; cbn; rewrite L; reflexivity).
  rewrite Q, vers_app, VF in A.
  assert (G : exists o2, o = vers a ++ f :: o2).
  { clear - A C T. revert o A. induction (vers a) as [|g l IH]; intros o A; cbn in A.
    - destruct o as [|h o]; cbn in A.
      + subst c. inv C. destruct H1 as (k & K & _). congruence.
      + injection A as -> A. exists o. reflexivity.
    - destruct o as [|h o]; cbn in A.
      + exfalso. subst c. rewrite Forall_forall in C. destruct (C f) as (k & K & _); [|congruence].
        right. apply in_elt.
      + injection A as -> A. destruct (IH _ A) as (o2 & ->). exists o2. reflexivity. }
  destruct G as (o2 & ->). rewrite Forall_forall in *.
  assert (F := B f (in_elt _ _ _)).
  intros e I K. destruct (B e) as [B1 B2].
  - apply in_app_iff. left. apply vers_in. auto.
  - split; [destruct F; congruence|]. congruence.
Qed.

Lemma live_version_processed : forall s x mode csn sp f, Inv s -> In f (ch s) -> elk f = false ->
  tst (tx s (ex f)) = InProg -> tst (tx s x) = InProg -> tret (tx s x) < INF ->
  processed mode x (rlc (tx s) mode x csn (tret (tx s x)) sp (ch s)) f.
Proof.
  intros s x mode csn sp0 f H I L T TX R.
  apply in_split in I. destruct I as (a & b & Q).
  assert (V := live_version_above _ _ _ _ H Q L T).
  eapply rlc_reach; eauto using i_wf.
  - rewrite Forall_forall in *. intros e E.
    assert (W := i_wf _ H). rewrite Q in W.
    destruct (wfc_above _ _ _ _ W E) as (W1 & W2 & W3).
    assert (IE : In e (ch s)) by (rewrite Q; apply in_app_iff; auto).
    destruct (wfc_eu _ f W (in_elt _ _ _)) as [[U1 U2]|(U1 & U2 & U3 & U4 & U5)].
    + assert (IF : In f (ch s)) by (rewrite Q; apply in_elt).
      assert (F := i_first _ H f IF T U1).
      assert (G := i_ret _ H x (ex f) R T ltac:(lia)). lia.
    + assert (M := i_m3 _ H _ _ _ Q L T U5). rewrite Forall_forall in M.
      destruct (M e E) as [M1 M2]. rewrite <- M2 in T.
      assert (F := i_first _ H e IE T W2).
      assert (G := i_ret _ H x (ex e) R T ltac:(lia)). lia.
  - left. rewrite Forall_forall in *. intros e E. unfold passes.
    destruct (elk e) eqn:K; [auto|]. right. apply V; auto.
Qed.

Definition nowait (r : rls) (x : Z) : Prop := rres r = true -> rconf r = x.

Lemma top_ok_shr : forall P s x lk l, top_ok s x lk -> shr P (ch s) l -> top_ok (set_ch s l) x lk.
Proof.
  intros P s x lk l [A B] K. split; cbn; intros e I L T.
  - destruct (shr_in _ _ _ _ K I) as (f & F1 & F2). eqcf F2. rewrite <- Hx in *. apply (A f); congruence.
  - intros M. destruct (shr_in _ _ _ _ K I) as (f & F1 & F2). eqcf F2. rewrite <- Hx in *.
    apply (B f); congruence.
Qed.

Lemma top_ok_walk : forall s x mode csn sp lk, Inv s ->
  tst (tx s x) = InProg -> tret (tx s x) < INF -> 0 <= mode <= 3 ->
  let r := rlc (tx s) mode x csn (tret (tx s x)) sp (ch s) in
  nowait r x -> (lk = false -> 2 <= mode) -> (lk = true -> rstat r <> 2) ->
  top_ok s x lk.
Proof.
  intros s x mode csn sp0 lk H T R M r NW A B.
  assert (ST : rstat r <= 2) by apply rlc_stat, i_wf, H.
  assert (K : forall f, In f (ch s) -> elk f = false -> tst (tx s (ex f)) = InProg ->
              processed mode x r f) by (intros; apply live_version_processed; auto).
  split; intros f I L TF.
  - intros LK. destruct (K f I L TF) as [K1 _]. destruct (Z.eq_dec (ex f) x) as [E|E]; [exact E|].
    assert (2 <= em f <= 3) by (eapply wfc_mode; eauto using i_wf).
    destruct (K1 E) as [C1 C2]; [unfold conf; specialize (A LK); lia|]. elim C2. apply NW, C1.
  - intros M3. destruct (K f I L TF) as [K1 K2]. 
    assert (E : ex f = x).
    { destruct (Z.eq_dec (ex f) x) as [E|E]; [exact E|].
      destruct (K1 E) as [C1 C2]; [unfold conf; lia|]. elim C2. apply NW, C1. }
    split; [|exact E]. destruct lk; [|reflexivity]. exfalso. apply B; [reflexivity|].
    destruct (K2 E) as [_ K3]. assert (2 <= rstat r) by (apply K3; lia). lia.
Qed.

(** ** A modification *)

Lemma Inv_put_version : forall s x a m v, Inv s -> tst (tx s x) = InProg -> troll (tx s x) = 0 ->
  2 <= m <= 3 -> (v = None -> m = 3) ->
  (ch s = [] <-> a = AI) -> (ch s = [] -> m = 3 /\ v <> None) -> (v = None <-> a = AD) ->
  (a = AI \/ a = AU \/ a = AD) ->
  (forall f r, ch s = f :: r -> ed f = true -> m = 3) ->
  top_ok s x false -> Inv (put_version s x a m v).
Proof.
  intros s x a m v H T R M V A1 A2 A3 A4 D TO. unfold put_version. apply Inv_put; auto; cbn.
  - destruct a; intuition congruence.
  - intros N. destruct a; auto. elim N. apply A1. reflexivity.
  - intros N. destruct (A2 N) as [B1 B2]. assert (a = AI) by (apply A1; exact N). subst a.
    destruct v; [auto|congruence].
  - discriminate.
  - intros _. split; [exact M|]. unfold vkey, ikey, val. cbn. destruct a; destruct v; reflexivity.
  - destruct v; [discriminate|auto].
  - intros z. unfold upd, pitem_of. cbn. destruct (z =? x) eqn:Q; [|reflexivity].
    destruct a; intuition congruence.
  - intros z N. apply upd_other. exact N.
Qed.

Lemma Inv_put_lock : forall s x m, Inv s -> tst (tx s x) = InProg -> troll (tx s x) = 0 ->
  ch s <> [] -> (forall f r, ch s = f :: r -> ed f = false) -> top_ok s x true ->
  Inv (put_lock s x m).
Proof.
  intros s x m H T R N D TO. unfold put_lock. apply Inv_put; auto; cbn; try congruence.
  - intros f r Q K. rewrite (D f r Q) in K. discriminate.
  - intros z. unfold pitem_of. cbn. destruct (z =? x) eqn:Q; [|reflexivity]. f_equal. lia.
  - intros z NZ. apply upd_other. exact NZ.
Qed.

Lemma Inv_emit : forall s l, Inv s ->
  (forall z, pend (fold_right spec_step (sp s) l) z = pend (sp s) z) ->
  (forall z, tst (tx s z) <> InProg \/ troll (tx s z) = 2 ->
     hold (fold_right spec_step (sp s) l) z = hold (sp s) z) ->
  com (fold_right spec_step (sp s) l) = com (sp s) -> Inv (emit s l).
Proof.
  intros s l H A B C. destruct H.
  assert (SPe := sp_emit s l).
  split; intros; rewrite ?SPe in *; cbn [emit ch nloc ncsn xs evs tx] in *; eauto.
  - rewrite C. exact i_vers0.
  - rewrite A by assumption. auto.
  - rewrite B by assumption. auto.
  - rewrite A. auto.
Qed.

Lemma shr_ne : forall P l l', shr P l l' -> wfc l -> l <> [] -> l' <> [].
Proof.
  intros P [|f l] l' H W N; [congruence|]. destruct (shr_hd _ _ _ _ H W) as (g & r & -> & _). discriminate.
Qed.

Lemma Inv_modify : forall s x k m v go, Inv s -> running (tx s x) = true ->
  tret (tx s x) < INF -> 0 <= m <= 3 -> Inv (modify s x k m v go).
Proof.
  intros s x k m v go H RU R M. unfold running in RU.
  destruct (tst (tx s x)) eqn:T; try discriminate. assert (R0 : troll (tx s x) = 0) by lia. clear RU.
  unfold modify.
  set (mm := match k with KI | KD => 3 | KU => if m =? 3 then 3 else 2 | KL => m end).
  assert (MM : 0 <= mm <= 3) by (subst mm; destruct k; try lia; destruct (m =? 3); lia).
  destruct (ch s) as [|e0 l0] eqn:CH.
  - destruct k; auto. destruct go; auto. subst mm. apply Inv_put_version; auto; try lia.
    + split; auto.
    + split; [lia|discriminate].
    + split; discriminate.
    + split; intros e I; rewrite CH in I; contradiction.
  - rewrite <- CH. set (r := rlc _ _ _ _ _ _ _).
    assert (SH : shr (Pdel (tx s) x) (ch s) (rchain r)) by (apply rlc_shr, i_wf, H).
    assert (I1 : Inv (set_ch s (rchain r))) by (eapply Inv_shr; eauto).
    destruct (rres r && negb (rconf r =? x)) eqn:NW; [exact I1|].
    assert (NW' : nowait r x) by (unfold nowait; intros Q; rewrite Q in NW; cbn in NW; lia).
    destruct go; cbn [negb]; [|exact I1].
    assert (NE : rchain r <> []) by (eapply shr_ne; eauto; [apply i_wf, H | congruence]).
    destruct (rchain r) as [|p pr] eqn:RC; [exact I1|].
    rewrite <- RC in *.
    assert (TO : forall lk, (lk = false -> 2 <= mm) -> (lk = true -> rstat r <> 2) ->
                 top_ok (set_ch s (rchain r)) x lk).
    { intros lk L1 L2. eapply top_ok_shr; [|exact SH]. eapply top_ok_walk; eauto. }
    destruct (ed p) eqn:DP.
    + destruct k; try exact I1. subst mm. apply Inv_put_version; auto; try lia.
      * cbn. split; [congruence|discriminate].
      * split; discriminate.
      * apply TO; [lia|discriminate].
    + set (keep := match k with KL => rstat r =? 2 | _ => false end).
      set (s2 := if rred r && negb keep
                 then set_ch (set_ch s (rchain r)) (remred (tx s) mm x (tret (tx s x)) (sploc (tstack (tx s x))) (rchain r))
                 else set_ch s (rchain r)).
      assert (S2 : Inv s2 /\ (forall lk, top_ok (set_ch s (rchain r)) x lk -> top_ok s2 x lk) /\
                   tx s2 = tx s /\ ch s2 <> [] /\ forall f q, ch s2 = f :: q -> ed f = false).
      { subst s2. destruct (rred r && negb keep).
        - assert (SQ : shr (Qdel mm x (sploc (tstack (tx s x)))) (ch (set_ch s (rchain r)))
                    (remred (tx s) mm x (tret (tx s x)) (sploc (tstack (tx s x))) (rchain r)))
            by (apply remred_shr; exact (i_wf _ I1)).
          split; [eapply Inv_shr; eauto|]. split; [intros; eapply top_ok_shr; eauto|].
          split; [reflexivity|]. 
          assert (WF := i_wf _ I1). cbn [set_ch ch] in *. split; [eapply shr_ne; eauto|].
          rewrite RC in SQ at 1. rewrite RC in WF. intros f q FQ.
          destruct (shr_hd _ _ _ _ SQ WF) as (f' & q' & G1 & _ & G2). congruence.
        - split; [exact I1|]. split; [auto|]. split; [reflexivity|]. cbn. split; [exact NE|].
          intros f q FQ. congruence. }
      destruct S2 as (IS & TS & TXE & NS & DS).
      destruct k; try exact I1.
      * apply Inv_put_version; rewrite ?TXE; auto.
        -- subst mm. destruct (m =? 3); lia.
        -- discriminate.
        -- split; [congruence|discriminate].
        -- congruence.
        -- split; discriminate.
        -- intros f q FQ DF. rewrite (DS _ _ FQ) in DF. discriminate.
        -- apply TS, TO; [|discriminate]. subst mm. destruct (m =? 3); lia.
      * apply Inv_put_version; rewrite ?TXE; auto.
        -- split; [congruence|discriminate].
        -- split; auto.
        -- apply TS, TO; [|discriminate]. change mm with 3. lia.
      * destruct (rstat r =? 2) eqn:RS.
        -- apply Inv_emit; auto. intros z TZ. cbn. apply upd_other. intros ->.
           rewrite TXE in TZ. destruct TZ; congruence.
        -- apply Inv_put_lock; rewrite ?TXE; auto. apply TS, TO; [discriminate|]. intros _. lia.
Qed.

(** ** Undo *)

Lemma own_live : forall s x, Inv s -> tst (tx s x) = InProg ->
  exists c, vers (ch s) = own x (vers (ch s)) ++ c /\
            (own x (vers (ch s)) <> [] -> Forall (fun e => exists k, tst (tx s (ex e)) = Comm k) c).
Proof.
  intros s x H T. destruct (i_vers _ H) as (y & o & c & A & B & C & D). rewrite A, own_app.
  assert (own x c = []) as ->.
  { clear - C T. induction C as [|e c (k & K & _) C IH]; cbn; [reflexivity|].
    destruct (ex e =? x) eqn:Q; [|exact IH]. assert (ex e = x) by lia. congruence. }
  rewrite app_nil_r. destruct (Z.eq_dec x y) as [->|N].
  - assert (own y o = o) as ->.
    { clear - B. induction B as [|e o [E _] B IH]; cbn; [reflexivity|].
      assert (ex e =? y = true) as -> by lia. f_equal. exact IH. }
    exists c. split; [reflexivity|]. intros _. eapply Forall_impl; [|exact C].
    cbn. intros e (k & K & _). eauto.
  - assert (own x o = []) as ->.
    { clear - B N. induction B as [|e o [E _] B IH]; cbn; [reflexivity|].
      assert (ex e =? x = false) as -> by lia. exact IH. }
    exists (o ++ c). split; [reflexivity|]. congruence.
Qed.

Lemma wfc_remove : forall a e g b, wfc (a ++ e :: g :: b) -> (a = [] \/ ed g = false) ->
  wfc (a ++ g :: b).
Proof.
  induction a as [|h a IH]; intros e g b W D.
  - cbn [app] in *. eapply wfc_tail. exact W.
  - destruct D as [D|D]; [discriminate|].
    assert (W2 := wfc_tail _ _ W). specialize (IH e g b W2 (or_intror D)).
    destruct a as [|k a]; cbn [app] in *.
    + cbn [wfc] in W |- *. destruct W as [A [A2 W]]. split; [|exact W].
      unfold adj in *. repeat split; try tauto; try lia; try congruence.
    + cbn [wfc] in W |- *. destruct W as [A W]. split; assumption.
Qed.

Lemma undo_version_shape : forall s x i r, Inv s -> tst (tx s x) = InProg ->
  tstack (tx s x) = i :: r -> modif i = true ->
  exists a e b, ch s = a ++ e :: b /\ Forall (fun k => elk k = true) a /\ elk e = false /\
    ex e = x /\ vkey e = ikey i /\ wfc (a ++ b) /\
    eqcl (a ++ b) (undo_version x i (ch s)).
Proof.
  intros s x i r H T ST M. assert (K := i_stk _ H x T). rewrite ST in K. cbn [filter] in K.
  rewrite M in K. cbn [map] in K.
  destruct (own_live _ _ H T) as (c & VC & _).
  destruct (own x (vers (ch s))) as [|e0 ow] eqn:OW; [discriminate|]. cbn [map app] in K, VC.
  assert (K1 : vkey e0 = ikey i) by (revert K; generalize (vkey e0), (ikey i); intros; congruence).
  clear K.
  assert (W := i_wf _ H).
  assert (NE : ch s <> []) by (intros Q; rewrite Q in VC; discriminate).
  destruct (lead_split _ W NE) as (e & b & S1 & S2 & S3 & S4).
  assert (e = e0).
  { rewrite S1, vers_app in VC.
    assert (vers (lead_locks (ch s)) = []) as VE.
    { clear - S4. induction S4; cbn; [reflexivity|]. unfold isv at 1. rewrite H. exact IHS4. }
    rewrite VE in VC. cbn in VC. unfold isv at 1 in VC. rewrite S3 in VC. cbn in VC. congruence. }
  subst e0.
  assert (EX : ex e = x).
  { assert (I : In e (own x (vers (ch s)))) by (rewrite OW; left; reflexivity).
    unfold own in I. rewrite filter_In in I. lia. }
  exists (lead_locks (ch s)), e, b.
  split; [exact S1|]. split; [exact S4|]. split; [exact S3|]. split; [exact EX|]. split; [exact K1|].
  assert (M3 : em e = 3 -> lead_locks (ch s) = []).
  { intros E3. assert (Q := i_m3 _ H _ _ _ S1 S3). rewrite EX in Q. specialize (Q T E3).
    destruct (lead_locks (ch s)) as [|k lk]; [reflexivity|]. inv Q. inv S4. intuition congruence. }
  assert (DE : lead_locks (ch s) <> [] -> ed e = false).
  { intros N. rewrite S1 in W. revert W S4 N. clear. generalize (lead_locks (ch s)) as l.
    induction l as [|k l IH]; intros W S4 N; [congruence|]. inv S4. destruct l as [|k2 l].
    - cbn in W. destruct W as [A _]. unfold adj in A. tauto.
    - apply IH; [eapply wfc_tail; exact W|assumption|discriminate]. }
  unfold undo_version. rewrite S2.
  assert (COND : (ex e =? x) && ((eu e =? il i) ||
            ((eu e <? 0) && match ia i with AI => true | _ => false end)) = true).
  { unfold vkey, ikey in K1. assert (E1 : eu e = match ia i with AI => -1 | _ => il i end) by congruence.
    unfold modif in M. destruct (ia i); try discriminate; lia. }
  rewrite COND.
  destruct (lead_locks (ch s)) as [|q lk] eqn:LL.
  - cbn [app] in *. rewrite S1. split; [eapply wfc_tail; rewrite <- S1; exact W|].
    destruct (ed e) eqn:D; [apply eqcl_refl|].
    destruct b as [|pe b].
    + assert (eu e = -1) by (rewrite S1 in W; cbn in W; tauto).
      assert (0 <=? eu e = false) as -> by lia. apply eqcl_refl.
    + assert (0 <= eu e) by (rewrite S1 in W; cbn in W; unfold adj in W; tauto).
      assert (0 <=? eu e = true) as -> by lia. apply eqcl_refl.
  - specialize (DE ltac:(discriminate)). rewrite S1. cbn [app].
    rewrite S1 in W.
    assert (DQ : ed q = false).
    { inv S4. destruct lk; cbn in W; unfold adj in W; tauto. }
    rewrite DQ.
    destruct b as [|pe b].
    { assert (em e = 3) by (apply (wfc_app_r (q :: lk)) in W; cbn in W; tauto).
      specialize (M3 H0). discriminate. }
    assert (A : adj e pe) by (apply (wfc_app_r (q :: lk)) in W; cbn in W; tauto).
    unfold adj in A. assert (0 <=? eu e = true) as -> by lia.
    assert (DP : ed pe = false).
    { destruct (ed pe) eqn:D; [|reflexivity]. exfalso. assert (em e = 3) by tauto.
      specialize (M3 H0). discriminate. }
    split; [apply (wfc_remove (q :: lk) e pe b W); auto|].
    constructor.
    + rewrite set_d_same by congruence. apply eqc_refl.
    + apply eqcl_app; [apply eqcl_refl|]. constructor; [|apply eqcl_refl].
      rewrite set_d_same by congruence. apply eqc_set_c.
Qed.

Lemma sploc_pop : forall i r, ia i <> AS -> sploc (i :: r) = sploc r.
Proof. intros i r N. cbn. destruct (ia i); congruence. Qed.

Lemma Inv_pop : forall s x i r l t, Inv s -> tst (tx s x) = InProg -> troll (tx s x) <> 0 ->
  tstack (tx s x) = i :: r ->
  t = Tx (tst (tx s x)) r (tfirst (tx s x)) (tret (tx s x)) (tcsn (tx s x)) (tcid (tx s x))
        (match ia i with AS => if troll (tx s x) =? 1 then 0 else troll (tx s x)
                    | _ => troll (tx s x) end) ->
  wfc l -> incl l (ch s) ->
  (forall a e b, l = a ++ e :: b -> elk e = false -> tst (tx s (ex e)) = InProg -> em e = 3 ->
     Forall (fun f => elk f = false /\ ex f = ex e) a) ->
  (exists d, vers (ch s) = d ++ vers l /\ map vkey d = map ikey (filter modif [i]) /\
             Forall (fun e => ex e = x) d) ->
  Inv (set_ch (set_tx s x t) l).
Proof.
  intros s x i r l t H T R ST -> W IN M3 (d & D1 & D2 & D3).
  assert (RO := i_roll _ H x T). destruct H.
  set (t := Tx _ _ _ _ _ _ _).
  assert (S : forall z, tst (upd (tx s) x t z) = tst (tx s z)).
  { intros z. unfold upd. destruct (z =? x) eqn:Q; [|reflexivity]. assert (z = x) by lia. subst. reflexivity. }
  assert (F : forall z, tfirst (upd (tx s) x t z) = tfirst (tx s z)).
  { intros z. unfold upd. destruct (z =? x) eqn:Q; [|reflexivity]. assert (z = x) by lia. subst. reflexivity. }
  assert (G : forall z, tret (upd (tx s) x t z) = tret (tx s z)).
  { intros z. unfold upd. destruct (z =? x) eqn:Q; [|reflexivity]. assert (z = x) by lia. subst. reflexivity. }
  split; cbn; intros; rewrite ?S, ?F, ?G in *; eauto.
  - destruct i_vers0 as (y & o & c & A & B & C & D).
    assert (RV : forall z, rv (upd (tx s) x t) c z = committed_before z (com (sp s))).
    { intros z. rewrite <- D. apply rv_ext. intros f _. apply S. }
    assert (CC : Forall (fun e => exists k, tst (upd (tx s) x t (ex e)) = Comm k /\ k < ncsn s) c).
    { rewrite Forall_forall in *. intros f I. rewrite S. auto. }
    assert (E : exists o', o = d ++ o' /\ vers l = o' ++ c).
    { rewrite D1 in A. clear - A C D3 T. revert o A. induction D3 as [|e d E D3 IH]; intros o A.
      - exists o. auto.
      - destruct o as [|h o]; cbn in A.
        + subst c. inv C. destruct H1 as (k & K & _). congruence.
        + injection A as -> A. destruct (IH _ A) as (o' & -> & Q). exists o'. auto. }
    destruct E as (o' & -> & E). exists y, o', c. split; [exact E|]. split; [|split; assumption].
    apply Forall_app in B. destruct B as [_ B]. rewrite S. exact B.
  - assert (K := i_stk0 x0 H). rewrite D1, own_app, map_app in K.
    unfold upd. destruct (x0 =? x) eqn:Q.
    + assert (x0 = x) by lia. subst x0.
      assert (OD : own x d = d).
      { clear - D3. induction D3; cbn; [reflexivity|]. assert (ex x0 =? x = true) as -> by lia. f_equal. assumption. }
      rewrite OD, D2, ST in K. cbn [t tstack]. cbn [filter] in K. destruct (modif i); cbn in K.
      * injection K as K. exact K.
      * exact K.
    + assert (OD : own x0 d = []).
      { clear - D3 Q. induction D3; cbn; [reflexivity|]. assert (ex x1 =? x0 = false) as -> by lia. assumption. }
      rewrite OD in K. exact K.
  - unfold upd. destruct (x0 =? x) eqn:Q; [|eauto]. assert (x0 = x) by lia. congruence.
  - unfold upd in H. destruct (x0 =? x) eqn:Q; [|eauto]. assert (x0 = x) by lia. subst x0.
    destruct H as [H|H]; [eauto|]. cbn in H. apply i_hold0. right.
    destruct (ia i); try exact H. destruct (troll (tx s x) =? 1); [discriminate|exact H].
  - match goal with |- _ = ?b => change (pend (sp s) x0 = b) end.
    unfold upd. destruct (x0 =? x) eqn:Q; [|eauto].
    assert (x0 = x) by lia. subst x0. rewrite (i_pend0 x T), ST. subst t. cbn [troll tstack].
    destruct RO as [RO|[[RO _]|RO]]; [congruence| |]; rewrite RO; unfold keepk; cbn;
      destruct (ia i); reflexivity.
  - unfold upd. destruct (x0 =? x) eqn:Q; [|eauto]. assert (K := i_desc0 x). rewrite ST in K.
    cbn in K |- *. eapply sdesc_le; [|apply K]. lia.
  - unfold upd. destruct (x0 =? x) eqn:Q; [|eauto]. cbn.
    destruct RO as [RO|[[RO RS]|RO]]; [congruence| |]; rewrite RO; cbn.
    + rewrite ST in RS. destruct (ia i) eqn:A; auto; right; left; (split; [reflexivity|]);
        rewrite sploc_pop in RS by congruence; exact RS.
    + destruct (ia i); auto.
Qed.

Lemma Inv_undo1 : forall s x, Inv s -> tst (tx s x) = InProg -> troll (tx s x) <> 0 -> Inv (undo1 s x).
Proof.
  intros s x H T R. unfold undo1. destruct (tstack (tx s x)) as [|i r] eqn:ST.
  - destruct (i_roll _ H x T) as [K|[[K1 K2]|K]]; [congruence| |].
    { rewrite ST in K2. cbn in K2. lia. }
    rewrite K. cbn [Z.eqb Pos.eqb].
    assert (OW := i_stk _ H x T). rewrite ST in OW. cbn in OW.
    assert (OW' : own x (vers (ch s)) = []) by (destruct (own x (vers (ch s))); [reflexivity|discriminate]).
    assert (PX := i_pend _ H x T). rewrite K, ST in PX. cbn in PX.
    destruct H. set (t := Tx _ _ _ _ _ _ _).
    assert (S : forall z, z <> x -> upd (tx s) x t z = tx s z) by (intros; apply upd_other; assumption).
    split; cbn; intros; unfold upd in *; eauto;
      repeat match goal with
      | H : context [if ?a =? x then _ else _] |- _ => destruct (a =? x) eqn:?; cbn in H
      | |- context [if ?a =? x then _ else _] => destruct (a =? x) eqn:?; cbn
      end; eauto; try discriminate; try congruence.
    + apply (i_ret0 x z); assumption.
    + apply (i_retn0 x); assumption.
    + assert (In x (xs s)) by (apply i_xs0; congruence). assert (z = x) by lia. congruence.
    + destruct i_vers0 as (y & o & c & A & B & C & D).
      assert (OX : forall e, In e (o ++ c) -> ex e <> x).
      { rewrite <- A. intros e I E. assert (In e (own x (vers (ch s)))).
        { unfold own. apply filter_In. split; [exact I | lia]. }
        rewrite OW' in H. contradiction. }
      exists y, o, c. split; [exact A|]. split; [|split].
      * rewrite Forall_forall in *. intros e I. destruct (B e I) as [B1 B2].
        assert (ex e <> x) by (apply OX, in_app_iff; auto).
        assert (y =? x = false) as -> by lia. auto.
      * rewrite Forall_forall in *. intros e I.
        assert (ex e <> x) by (apply OX, in_app_iff; auto).
        assert (ex e =? x = false) as -> by lia. auto.
      * intros z. unfold sp. cbn. fold (sp s). rewrite <- D. apply rv_ext. intros e I.
        assert (ex e <> x) by (apply OX, in_app_iff; auto).
        assert (ex e =? x = false) as -> by lia. auto.
    + assert (x0 = x) by lia. subst x0. auto.
    + assert (x0 = x) by lia. subst x0. auto.
  - assert (POP : forall l, wfc l -> incl l (ch s) ->
      (forall a e b, l = a ++ e :: b -> elk e = false -> tst (tx s (ex e)) = InProg -> em e = 3 ->
         Forall (fun f => elk f = false /\ ex f = ex e) a) ->
      (exists d, vers (ch s) = d ++ vers l /\ map vkey d = map ikey (filter modif [i]) /\
             Forall (fun e => ex e = x) d) ->
      Inv (set_ch (set_tx s x (Tx (tst (tx s x)) r (tfirst (tx s x)) (tret (tx s x)) (tcsn (tx s x)) (tcid (tx s x))
        (match ia i with AS => if troll (tx s x) =? 1 then 0 else troll (tx s x)
                    | _ => troll (tx s x) end))) l)).
    { intros l L1 L2 L3 L4. eapply Inv_pop; eauto. }
    assert (NM : modif i = false -> Inv (set_ch (set_tx s x (Tx (tst (tx s x)) r (tfirst (tx s x)) (tret (tx s x)) (tcsn (tx s x)) (tcid (tx s x))
        (match ia i with AS => if troll (tx s x) =? 1 then 0 else troll (tx s x)
                    | _ => troll (tx s x) end))) (ch s))).
    { intros M. apply POP; auto using i_wf, incl_refl.
      - intros. eapply i_m3; eauto.
      - exists []. cbn. rewrite M. auto. }
    assert (MO : modif i = true -> Inv (set_ch (set_tx s x (Tx (tst (tx s x)) r (tfirst (tx s x)) (tret (tx s x)) (tcsn (tx s x)) (tcid (tx s x))
        (match ia i with AS => if troll (tx s x) =? 1 then 0 else troll (tx s x)
                    | _ => troll (tx s x) end))) (undo_version x i (ch s)))).
    { intros M. destruct (undo_version_shape _ _ _ _ H T ST M) as (a & e & b & A & B & C & D & F & W & EQ).
      assert (P : Inv (set_ch (set_tx s x (Tx (tst (tx s x)) r (tfirst (tx s x)) (tret (tx s x)) (tcsn (tx s x)) (tcid (tx s x))
        (match ia i with AS => if troll (tx s x) =? 1 then 0 else troll (tx s x)
                    | _ => troll (tx s x) end))) (a ++ b))).
      { apply POP; auto.
        - rewrite A. intros z Z. rewrite in_app_iff in *. destruct Z; [auto|]. right. right. assumption.
        - intros a' e' b' Q L' T' M'.
          assert (G : exists k, a' = a ++ k /\ b = k ++ e' :: b').
          { clear - Q B L'. revert a' Q. induction B as [|h a E B IH]; intros a' Q.
            - exists a'. auto.
            - destruct a' as [|h' a']; cbn in Q; injection Q as -> Q; [congruence|].
              destruct (IH _ Q) as (k & -> & ->). exists k. auto. }
          destruct G as (k & -> & ->).
          assert (Q2 : ch s = (a ++ e :: k) ++ e' :: b') by (rewrite A, <- app_assoc; reflexivity).
          assert (G := i_m3 _ H _ _ _ Q2 L' T' M').
          apply Forall_app in G. destruct G as [G1 G2]. inv G2. apply Forall_app. auto.
        - exists [e]. cbn [filter]. rewrite M. cbn [map]. split; [|split; [congruence|auto]].
          rewrite A, !vers_app. assert (vers a = []) as ->.
          { clear - B. induction B; cbn; [reflexivity|]. unfold isv at 1. rewrite H. assumption. }
          cbn. unfold isv at 1. rewrite C. reflexivity. }
      assert (SH := eqcl_shr (fun _ => False) _ _ EQ).
      exact (Inv_shr _ _ _ P SH). }
    destruct (ia i) eqn:IA; try (apply MO; unfold modif; rewrite IA; reflexivity);
      assert (Q := NM ltac:(unfold modif; rewrite IA; reflexivity)).
    + exact (Inv_shr _ _ _ Q (undo_lock_shr (tx s) x (tret (tx s x)) i (ch s) (i_wf _ H))).
    + exact Q.
    + exact Q.
Qed.

(** ** The other operations *)

Lemma pend_to_save_pitems : forall l, pend_to_save (pitems l) = pitems (after_mark l).
Proof.
  unfold pitems. induction l as [|i l IH]; cbn; [reflexivity|]. unfold pitem_of at 1.
  destruct (ia i); cbn; auto.
Qed.

(** Starting a rollback. *)
Lemma Inv_roll : forall s x n ev, Inv s -> tst (tx s x) = InProg ->
  let t := tx s x in
  (n = 1 /\ ev = EvRollTo x /\ 0 <= sploc (tstack t) /\ troll t = 0) \/ (n = 2 /\ ev = EvAbort x) ->
  Inv (emit (set_tx s x (Tx (tst t) (tstack t) (tfirst t) (tret t) (tcsn t) (tcid t) n)) [ev]).
Proof.
  intros s x n ev H T t N. subst t.
  assert (PX := i_pend _ H x T).
  destruct H. set (t := Tx _ _ _ _ _ _ _).
  assert (S : forall z, tst (upd (tx s) x t z) = tst (tx s z)).
  { intros z. unfold upd. destruct (z =? x) eqn:Q; [|reflexivity]. assert (z = x) by lia. subst. reflexivity. }
  assert (K : forall z, tstack (upd (tx s) x t z) = tstack (tx s z)).
  { intros z. unfold upd. destruct (z =? x) eqn:Q; [|reflexivity]. assert (z = x) by lia. subst. reflexivity. }
  assert (F : forall z, tfirst (upd (tx s) x t z) = tfirst (tx s z)).
  { intros z. unfold upd. destruct (z =? x) eqn:Q; [|reflexivity]. assert (z = x) by lia. subst. reflexivity. }
  assert (G : forall z, tret (upd (tx s) x t z) = tret (tx s z)).
  { intros z. unfold upd. destruct (z =? x) eqn:Q; [|reflexivity]. assert (z = x) by lia. subst. reflexivity. }
  assert (SPe : sp (emit (set_tx s x t) [ev]) = spec_step ev (sp s)) by (rewrite sp_emit; reflexivity).
  assert (CE : com (spec_step ev (sp s)) = com (sp s)) by (destruct N as [(-> & -> & _)|(-> & ->)]; reflexivity).
  assert (PO : forall z, z <> x -> pend (spec_step ev (sp s)) z = pend (sp s) z)
    by (intros z Z; destruct N as [(-> & -> & _)|(-> & ->)]; cbn; apply upd_other; exact Z).
  assert (HO : forall z, z <> x -> hold (spec_step ev (sp s)) z = hold (sp s) z)
    by (intros z Z; destruct N as [(-> & -> & _)|(-> & ->)]; cbn; apply upd_other; exact Z).
  split; intros; rewrite ?SPe in *; cbn [emit set_tx ch nloc ncsn xs evs tx] in *;
    rewrite ?S, ?K, ?F, ?G in *; eauto.
  - destruct i_vers0 as (y & o & c & A & B & C & D). exists y, o, c. split; [exact A|].
    split; [|split].
    + rewrite Forall_forall in *. intros e I. rewrite S. auto.
    + rewrite Forall_forall in *. intros e I. rewrite S. auto.
    + intros z. rewrite CE, <- D. apply rv_ext. intros e _. apply S.
  - assert (x0 <> x) by congruence. rewrite PO by assumption. auto.
  - destruct (Z.eq_dec x0 x) as [->|NX].
    + destruct N as [(-> & -> & _)|(-> & ->)]; cbn; [|apply upd_same].
      rewrite upd_same in H. cbn in H. destruct H; [congruence|discriminate].
    + rewrite upd_other in H by assumption. rewrite HO by assumption. auto.
  - destruct (Z.eq_dec x0 x) as [->|NX].
    + rewrite upd_same. cbn [troll t].
      destruct N as [(-> & -> & _ & N)|(-> & ->)]; cbn; rewrite upd_same; [|reflexivity].
      rewrite PX, N. cbn. apply pend_to_save_pitems.
    + rewrite upd_other by assumption. rewrite PO by assumption. auto.
  - destruct (Z.eq_dec x0 x) as [->|NX].
    + rewrite upd_same. cbn [troll t]. destruct N as [(-> & -> & N & _)|(-> & ->)]; auto.
    + rewrite upd_other by assumption. auto.
Qed.

Lemma Inv_begin : forall s x, Inv s -> tst (tx s x) = Idle -> Inv (step s (OBegin x)).
Proof.
  intros s x H T. cbn. rewrite T.
  assert (NX : forall e, In e (ch s) -> ex e <> x) by (intros e I E; apply (i_own _ H e I); congruence).
  assert (OW : own x (vers (ch s)) = []).
  { destruct (own x (vers (ch s))) as [|e l] eqn:Q; [reflexivity|]. exfalso.
    assert (I : In e (own x (vers (ch s)))) by (rewrite Q; left; reflexivity).
    unfold own in I. rewrite filter_In, vers_in in I. destruct I as [[I _] E]. apply (NX e I). lia. }
  destruct (i_idle _ H x ltac:(congruence)) as [ID1 ID2].
  assert (IDH := i_hold _ H x ltac:(left; congruence)).
  destruct H. set (t := Tx _ _ _ _ _ _ _).
  assert (S : forall e, In e (ch s) -> upd (tx s) x t (ex e) = tx s (ex e))
    by (intros; apply upd_other; auto).
  split; cbn [ch nloc ncsn xs evs tx] in *; intros; rewrite ?S in * by assumption;
    match goal with |- context [sp (St ?a ?b ?c ?d ?e ?f)] => change (sp (St a b c d e f)) with (sp s) | _ => idtac end;
    eauto.
  - unfold upd in *. destruct (y =? x); cbn in *; [lia|]. destruct (z =? x); cbn in *; [lia|]. eauto.
  - unfold upd in *. destruct (y =? x); cbn in *; [lia|]. eauto.
  - unfold upd in *. destruct (z =? x) eqn:Q; [left; lia|]. right. eauto.
  - rewrite S in H1; [eauto|]. rewrite H. apply in_elt.
  - destruct i_vers0 as (y & o & c & A & B & C & D).
    assert (IN : forall e, In e (o ++ c) -> In e (ch s)) by (intros e I; rewrite <- A, vers_in in I; tauto).
    exists y, o, c. split; [exact A|]. split; [|split].
    + rewrite Forall_forall in *. intros e I. destruct (B e I) as [B1 B2]. split; [exact B1|].
      rewrite <- B1, S by (apply IN, in_app_iff; auto). congruence.
    + rewrite Forall_forall in *. intros e I. rewrite S by (apply IN, in_app_iff; auto). auto.
    + intros z. rewrite <- D. apply rv_ext. intros e I. rewrite S by (apply IN, in_app_iff; auto).
      reflexivity.
  - unfold upd in *. destruct (x0 =? x) eqn:Q; [|eauto]. assert (x0 = x) by lia. subst. rewrite OW. reflexivity.
  - unfold upd in *. destruct (x0 =? x) eqn:Q; [|eauto]. cbn in H. congruence.
  - unfold upd in *. destruct (x0 =? x) eqn:Q; [|eauto]. assert (x0 = x) by lia. subst. exact IDH.
  - unfold upd in *. destruct (x0 =? x) eqn:Q; [|eauto]. assert (x0 = x) by lia. subst. exact ID2.
  - unfold upd in *. destruct (x0 =? x) eqn:Q; [exact Logic.I|eauto].
  - unfold upd in *. destruct (x0 =? x) eqn:Q; [auto|eauto].
  - unfold upd in *. destruct (x0 =? x) eqn:Q; [cbn; lia|eauto].
Qed.

Lemma last_write_items : forall l,
  last_write (pitems l) = match filter modif l with [] => None | i :: _ => Some (ival i) end.
Proof.
  unfold pitems. induction l as [|i l IH]; cbn; [reflexivity|]. unfold pitem_of at 1, modif at 1.
  destruct (ia i); cbn; auto.
Qed.

Lemma rv_skip : forall T x n l c S, Forall (fun e => ex e = x) l -> tst (T x) = Comm n ->
  (n <? S) = false -> rv T (l ++ c) S = rv T c S.
Proof.
  intros T x n l c S H K L. induction H as [|e l E H IH]; cbn; [reflexivity|].
  rewrite E, K, L. exact IH.
Qed.

Lemma Inv_commit : forall s x, Inv s -> tst (tx s x) = InProg -> troll (tx s x) = 0 ->
  Inv (step s (OCommit x)).
Proof.
  intros s x H T R. cbn. unfold running. rewrite T, R. cbn [Z.eqb].
  assert (PX := i_pend _ H x T). rewrite R in PX. cbn in PX.
  assert (SX := i_stk _ H x T).
  destruct H. set (t := Tx _ _ _ _ _ _ _).
  assert (SPe : forall a b c d e, sp (St a b c d e (EvCommit x (ncsn s) :: evs s)) =
                                  spec_step (EvCommit x (ncsn s)) (sp s)) by reflexivity.
  assert (TI : forall z, tst (upd (tx s) x t z) = InProg -> tst (tx s z) = InProg /\ z <> x).
  { intros z. unfold upd. destruct (z =? x) eqn:Q; [discriminate|]. intros Z. split; [exact Z | lia]. }
  assert (TR : forall z, tret (upd (tx s) x t z) = tret (tx s z)).
  { intros z. unfold upd. destruct (z =? x) eqn:Q; [|reflexivity]. assert (z = x) by lia. subst. reflexivity. }
  assert (TF : forall z, tfirst (upd (tx s) x t z) = tfirst (tx s z)).
  { intros z. unfold upd. destruct (z =? x) eqn:Q; [|reflexivity]. assert (z = x) by lia. subst. reflexivity. }
  split; intros; rewrite ?SPe; cbn [ch nloc ncsn xs evs tx] in *; rewrite ?TR, ?TF in *; eauto;
    try (match goal with H : tst (upd _ _ _ _) = InProg |- _ => destruct (TI _ H) end); eauto.
  - unfold upd in *. destruct (ex e =? x); [discriminate|eauto].
  - unfold upd in *. destruct (z =? x) eqn:Q; [|eauto]. assert (z = x) by lia. subst. apply i_xs0. congruence.
  - destruct i_vers0 as (y & o & c & A & B & C & D).
    assert (CN : Forall (fun e => ex e <> x) c).
    { eapply Forall_impl; [|exact C]. cbn. intros e (k & K & _) E. congruence. }
    assert (CC : Forall (fun e => exists k, tst (upd (tx s) x t (ex e)) = Comm k /\ k < ncsn s + 1) c).
    { rewrite Forall_forall in *. intros e I. destruct (C e I) as (k & K1 & K2). exists k.
      rewrite upd_other by auto. split; [exact K1|lia]. }
    assert (RC : forall z, rv (upd (tx s) x t) c z = committed_before z (com (sp s))).
    { intros z. rewrite <- D. apply rv_ext. rewrite Forall_forall in CN. intros e I.
      rewrite upd_other by auto. reflexivity. }
    assert (TXC : tst (upd (tx s) x t x) = Comm (ncsn s)) by (rewrite upd_same; reflexivity).
    rewrite A, own_app in SX.
    assert (OC : own x c = []).
    { clear - CN. induction CN; cbn; [reflexivity|]. assert (ex x0 =? x = false) as -> by lia. assumption. }
    rewrite OC, app_nil_r in SX.
    destruct (Z.eq_dec y x) as [->|NY].
    + assert (OO : own x o = o).
      { clear - B. induction B as [|e o [E _] B IH]; cbn; [reflexivity|].
        assert (ex e =? x = true) as -> by lia. f_equal. exact IH. }
      rewrite OO in SX.
      exists x, [], (o ++ c). split; [exact A|]. split; [constructor|]. split.
      * apply Forall_app. split; [|exact CC]. rewrite Forall_forall in *. intros e I.
        destruct (B e I) as [-> _]. exists (ncsn s). split; [exact TXC|lia].
      * intros z. cbn [spec_step com]. rewrite PX, last_write_items.
        assert (FO : Forall (fun e => ex e = x) o) by (eapply Forall_impl; [|exact B]; cbn; tauto).
        destruct o as [|e o].
        -- destruct (filter modif (tstack (tx s x))); [apply RC|discriminate].
        -- destruct (filter modif (tstack (tx s x))) as [|i r]; [discriminate|].
           cbn [committed_before]. inv FO. cbn [app rv]. rewrite TXC.
           destruct (ncsn s <? z) eqn:LT.
           ++ cbn [map] in SX. unfold vkey at 1, ikey at 1 in SX. congruence.
           ++ erewrite rv_skip; eauto.
    + assert (OO : own x o = []).
      { clear - B NY. induction B as [|e o [E _] B IH]; cbn; [reflexivity|].
        assert (ex e =? x = false) as -> by lia. exact IH. }
      rewrite OO in SX.
      exists y, o, c. split; [exact A|]. split; [|split; [exact CC|]].
      * rewrite Forall_forall in *. intros e I. rewrite upd_other by assumption. auto.
      * intros z. cbn [spec_step com]. rewrite PX, last_write_items.
        destruct (filter modif (tstack (tx s x))); [apply RC|discriminate].
  - rewrite upd_other by assumption. auto.
  - cbn [spec_step pend]. unfold upd in *. destruct (x0 =? x) eqn:Q; [auto|eauto].
  - cbn [spec_step hold]. unfold upd in *. destruct (x0 =? x) eqn:Q; [auto|eauto].
  - cbn [spec_step pend]. rewrite !upd_other by assumption. auto.
  - unfold upd in *. destruct (x0 =? x) eqn:Q; [exact Logic.I|eauto].
  - rewrite upd_other by assumption. auto.
Qed.

Lemma running_ip : forall t, running t = true -> tst t = InProg /\ troll t = 0.
Proof. intros t H. unfold running in H. destruct (tst t); try discriminate. split; [reflexivity|lia]. Qed.

Lemma Inv_step : forall s o, Inv s -> Inv (step s o).
Proof.
  intros s o H. destruct o.
  - destruct (tst (tx s x)) eqn:T; try (cbn; rewrite T; exact H). apply Inv_begin; auto.
  - cbn. destruct (running (tx s x)) eqn:R; [|exact H]. apply Inv_set_tx; auto. cbn.
    intros L. assert (N := snapmin_n s). split; [lia|]. intros z Z1 Z2.
    assert (K := snapmin_le s z (i_xs _ H z ltac:(congruence)) Z1 Z2). lia.
  - cbn. destruct (running (tx s x)) eqn:R; [|exact H]. apply Inv_set_tx; auto. cbn. lia.
  - cbn. destruct (running (tx s x)) eqn:R; [|exact H]. apply Inv_set_tx; auto. cbn.
    intros L. split; [apply (i_retn _ H x L)|]. intros z Z1 Z2. apply (i_ret _ H x z L Z1 Z2).
  - cbn. destruct (running (tx s x) && (tret (tx s x) <? INF) && (0 <=? m) && (m <=? 3)) eqn:C; [|exact H].
    apply Inv_modify; auto; lia.
  - cbn. destruct (running (tx s x)) eqn:R; [|exact H]. destruct (running_ip _ R).
    apply (Inv_push_only s x (It AO (nloc s) (tcid (tx s x)) None) []); auto.
    intros z. cbn. destruct (z =? x) eqn:Q; [|reflexivity]. f_equal. lia.
  - cbn. destruct (running (tx s x)) eqn:R; [|exact H]. destruct (running_ip _ R).
    apply Inv_push_only; auto.
    intros. cbn. apply upd_other. assumption.
  - cbn. destruct (running (tx s x) && (0 <=? sploc (tstack (tx s x)))) eqn:R; [|exact H].
    destruct (running_ip (tx s x)) as [R1 R2]; [lia|]. apply Inv_roll; auto. left. repeat split; auto. lia.
  - cbn. destruct (tst (tx s x)) eqn:T; try exact H. rewrite <- T at 1. apply Inv_roll; auto.
  - cbn. destruct (tst (tx s x)) eqn:T; try exact H. destruct (troll (tx s x) =? 0) eqn:R; cbn; [exact H|].
    apply Inv_undo1; auto. lia.
  - cbn. destruct (running (tx s x)) eqn:R; [|exact H]. destruct (running_ip _ R) as [R1 R2].
    assert (K := Inv_commit s x H R1 R2). cbn in K. rewrite R in K. exact K.
Qed.

Theorem Inv_exec : forall ops, Inv (exec ops).
Proof. intros ops. unfold exec. apply (run_inv _ _ step Inv); [intros; apply Inv_step; assumption | apply Inv_st0]. Qed.
