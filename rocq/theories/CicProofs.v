(** Proofs about the merge of the spool files and the invariants of the
    concurrent build. *)
From Coq Require Import ZArith List Bool Lia Permutation.
From Verif Require Import Base CicModel CicSpec.
Import ListNotations.
Open Scope Z_scope.

(** ** The reader merges *)

Definition content (x : stream) : list entry := match fst x with Some e => e :: snd x | None => snd x end.
Definition peeked (x : stream) : Prop := match x with (None, _ :: _) => False | _ => True end.

Lemma peek_all_content : forall ss buf, map content (fst (peek_all ss buf)) = map content ss.
Proof.
  induction ss as [|[[e|] r] ss IH]; intros buf; cbn; [reflexivity| |].
  - specialize (IH buf). destruct (peek_all ss buf); cbn in *. now rewrite IH.
  - destruct r as [|e r]; cbn.
    + specialize (IH buf). destruct (peek_all ss buf); cbn in *. now rewrite IH.
    + specialize (IH (e_ent e)). destruct (peek_all ss (e_ent e)); cbn in *. now rewrite IH.
Qed.

Lemma peek_all_peeked : forall ss buf, Forall peeked (fst (peek_all ss buf)).
Proof.
  induction ss as [|[[e|] r] ss IH]; intros buf; cbn; [constructor| |].
  - specialize (IH buf). destruct (peek_all ss buf); cbn in *. constructor; [exact Logic.I|exact IH].
  - destruct r as [|e r]; cbn.
    + specialize (IH buf). destruct (peek_all ss buf); cbn in *. constructor; [exact Logic.I|exact IH].
    + specialize (IH (e_ent e)). destruct (peek_all ss (e_ent e)); cbn in *. constructor; [exact Logic.I|exact IH].
Qed.

Lemma better_pos : forall a b, better a b = true -> e_pos a <= e_pos b.
Proof. intros a b. unfold better. lia. Qed.
Lemma not_better_pos : forall a b, better a b = false -> e_pos b <= e_pos a.
Proof. intros a b. unfold better. lia. Qed.

(** The best stream: the head it names, and no head has a smaller position. *)
Lemma best_spec : forall ss i cur,
  match best ss i cur with
  | None => cur = None /\ Forall (fun x => fst x = None) ss
  | Some (j, e) =>
      (forall x f, In x ss -> fst x = Some f -> e_pos e <= e_pos f)
      /\ (forall k f, cur = Some (k, f) -> e_pos e <= e_pos f)
      /\ (cur = Some (j, e)
          \/ exists a r b, ss = a ++ (Some e, r) :: b /\ j = (i + length a)%nat)
  end.
Proof.
  induction ss as [|[[e|] r] ss IH]; intros i cur; cbn.
  - destruct cur as [[j e]|].
    + repeat split; [intros ? ? []|intros k f E; inv E; lia|now left].
    + split; [reflexivity|constructor].
  - set (cur' := match cur with None => _ | Some _ => _ end).
    specialize (IH (S i) cur').
    destruct (best ss (S i) cur') as [[j g]|].
    + destruct IH as (A & B & C).
      assert (K : e_pos g <= e_pos e /\ forall k f, cur = Some (k, f) -> e_pos g <= e_pos f).
      { unfold cur' in B. destruct cur as [[k f]|].
        - destruct (better e f) eqn:Eb.
          + specialize (B _ _ eq_refl). apply better_pos in Eb. split; [lia|]. intros ? ? E; inv E; lia.
          + specialize (B _ _ eq_refl). apply not_better_pos in Eb. split; [lia|]. intros ? ? E; inv E; lia.
        - specialize (B _ _ eq_refl). split; [lia|]. intros ? ? E; discriminate E. }
      split; [|split; [apply K|]].
      * intros x f [<-|H] Hf; [cbn in Hf; inv Hf; apply K|exact (A _ _ H Hf)].
      * destruct C as [C|(a & r' & b & -> & ->)].
        -- unfold cur' in C. destruct cur as [[k f]|].
           ++ destruct (better e f); [right|left; exact C].
              inv C. exists [], r, ss. split; [reflexivity|cbn; lia].
           ++ inv C. right. exists [], r, ss. split; [reflexivity|cbn; lia].
        -- right. exists ((Some e, r) :: a), r', b. split; [reflexivity|cbn; lia].
    + destruct IH as [E _]. unfold cur' in E. destruct cur as [[k f]|]; [destruct (better e f)|]; discriminate E.
  - specialize (IH (S i) cur). destruct (best ss (S i) cur) as [[j g]|].
    + destruct IH as (A & B & C). split; [|split; [exact B|]].
      * intros x f [<-|H] Hf; [discriminate Hf|exact (A _ _ H Hf)].
      * destruct C as [C|(a & r' & b & -> & ->)]; [now left|].
        right. exists ((None, r) :: a), r', b. split; [reflexivity|cbn; lia].
    + destruct IH as [-> H]. split; [reflexivity|constructor; [reflexivity|exact H]].
Qed.

Lemma drop_peek_app : forall a x r b, drop_peek (a ++ (x, r) :: b) (length a) = a ++ (None, r) :: b.
Proof. induction a as [|[y z] a IH]; intros x r b; cbn; [reflexivity|now rewrite IH]. Qed.

(** A merge by position: always a head whose position is not larger than any
    other head's. *)
Inductive merges : list (list entry) -> list entry -> Prop :=
| merges_nil : forall ls, Forall (fun l => l = []) ls -> merges ls []
| merges_cons : forall a e r b out,
    (forall l f t, In l (a ++ b) -> l = f :: t -> e_pos e <= e_pos f) ->
    merges (a ++ r :: b) out -> merges (a ++ (e :: r) :: b) (e :: out).

Lemma peeked_head : forall x f t, peeked x -> content x = f :: t -> fst x = Some f.
Proof. intros [[e|] [|g r]] f t P E; cbn in *; inv E; try reflexivity; contradiction. Qed.
Lemma peeked_none : forall x, peeked x -> fst x = None -> content x = [].
Proof. intros [[e|] [|g r]] P E; cbn in *; try discriminate; try reflexivity; contradiction. Qed.

Lemma len_pick : forall (a : list (list entry)) e r b n,
  length (concat (a ++ (e :: r) :: b)) = S n -> length (concat (a ++ r :: b)) = n.
Proof.
  intros a e r b n L. rewrite concat_app in L |- *. cbn [concat] in L |- *. rewrite app_length in L |- *.
  cbn [app length] in L. rewrite app_length in L |- *. lia.
Qed.

Lemma read_all_merges : forall n ss buf,
  length (concat (map content ss)) = n -> merges (map content ss) (map fst (read_all n ss buf)).
Proof.
  induction n as [|n IH]; intros ss buf L; cbn.
  - apply merges_nil. apply Forall_forall. intros l Hl.
    apply length_zero_iff_nil in L. destruct l as [|e l]; [reflexivity|].
    exfalso. assert (H : In e (concat (map content ss))) by (apply in_concat; exists (e :: l); split; [exact Hl|left; reflexivity]).
    rewrite L in H. exact H.
  - pose proof (peek_all_content ss buf) as C. pose proof (peek_all_peeked ss buf) as P.
    destruct (peek_all ss buf) as [ss1 buf1]; cbn in C, P.
    pose proof (best_spec ss1 O None) as B.
    destruct (best ss1 O None) as [[j e]|].
    + destruct B as (A & _ & [B|(a & r & b & -> & ->)]); [discriminate B|].
      cbn [Nat.add]. cbn [map fst]. rewrite drop_peek_app.
      rewrite <- C in L |- *. rewrite map_app in L |- *. cbn [map] in L |- *. change (content (Some e, r)) with (e :: r) in L |- *.
      apply merges_cons.
      * intros l f t Hl E. rewrite <- map_app in Hl. apply in_map_iff in Hl. destruct Hl as (x & <- & Hx).
        assert (Hx' : In x (a ++ (Some e, r) :: b)).
        { apply in_or_app. apply in_app_or in Hx. destruct Hx; [now left|right; now right]. }
        apply (A x f Hx'). apply peeked_head with t; [|exact E].
        rewrite Forall_forall in P. exact (P _ Hx').
      * assert (E : map content a ++ r :: map content b = map content (a ++ (None, r) :: b)) by (rewrite map_app; reflexivity).
        match goal with |- merges ?x ?y => assert (E' : x = map content (a ++ (None, r) :: b)) by (rewrite map_app; reflexivity) end.
        rewrite E'. apply IH. rewrite <- E. exact (len_pick _ e r _ _ L).
    + destruct B as [_ B]. cbn. apply merges_nil. rewrite <- C. apply Forall_forall. intros l Hl.
      apply in_map_iff in Hl. destruct Hl as (x & <- & Hx). rewrite Forall_forall in B, P.
      apply peeked_none; [apply P|apply B]; exact Hx.
Qed.

Lemma merges_in : forall ls out, merges ls out -> forall x, In x out <-> exists l, In l ls /\ In x l.
Proof.
  induction 1 as [ls F|a e r b out H M IH]; intros x.
  - split; [intros []|]. intros (l & Hl & Hx). rewrite Forall_forall in F. rewrite (F _ Hl) in Hx. exact Hx.
  - cbn. rewrite IH. split.
    + intros [<-|(l & Hl & Hx)].
      * exists (e :: r). split; [apply in_or_app; right; now left|now left].
      * apply in_app_or in Hl. destruct Hl as [Hl|[<-|Hl]].
        -- exists l. split; [apply in_or_app; now left|exact Hx].
        -- exists (e :: r). split; [apply in_or_app; right; now left|now right].
        -- exists l. split; [apply in_or_app; right; now right|exact Hx].
    + intros (l & Hl & Hx). apply in_app_or in Hl. destruct Hl as [Hl|[<-|Hl]].
      * right. exists l. split; [apply in_or_app; now left|exact Hx].
      * destruct Hx as [<-|Hx]; [now left|]. right. exists r. split; [apply in_or_app; right; now left|exact Hx].
      * right. exists l. split; [apply in_or_app; right; now right|exact Hx].
Qed.

(** ** Order of conflicting entries *)

Definition forward (x : entry) : Prop := e_op x = Ins \/ e_op x = Del.

(** What makes a set of captured entries mergeable. *)
Record log_ok (All : entry -> Prop) : Prop := {
  lo_inj : forall x y, All x -> All y -> e_id x = e_id y -> x = y;
  lo_fwd : forall x, All x -> forward x -> forall y, All y -> e_id y < e_id x -> e_pos y < e_pos x;
  lo_rev : forall x, All x -> ~ forward x ->
    exists x0, All x0 /\ e_p x0 = e_p x /\ e_ent x0 = e_ent x /\ e_id x0 < e_id x
      /\ forall y, All y -> e_ent y = e_ent x -> e_p y <> e_p x -> e_id y < e_id x -> e_id y < e_id x0 }.

Fixpoint ids_up (l : list entry) : Prop :=
  match l with [] => True | x :: r => (forall y, In y r -> e_id x < e_id y) /\ ids_up r end.

Fixpoint ordered (l : list entry) : Prop :=
  match l with
  | [] => True
  | x :: r => (forall y, In y r -> e_ent x = e_ent y -> e_id x < e_id y) /\ ordered r
  end.

Lemma forward_dec : forall x, forward x \/ ~ forward x.
Proof. intros x. unfold forward. destruct (e_op x); [left; now left|left; now right|right; intros [E|E]; discriminate E|right; intros [E|E]; discriminate E]. Qed.

(** [ps] are the backends of the streams. *)
Lemma merges_ordered : forall All, log_ok All ->
  forall ls out, merges ls out ->
  forall ps (dn : entry -> Prop),
    length ps = length ls -> NoDup ps ->
    (forall i l p, nth_error ls i = Some l -> nth_error ps i = Some p -> Forall (fun x => e_p x = p) l) ->
    Forall ids_up ls ->
    (forall x, All x <-> dn x \/ exists l, In l ls /\ In x l) ->
    (forall o, dn o -> forall l y, In l ls -> In y l -> (e_p o = e_p y -> e_id o < e_id y) /\ (e_ent o = e_ent y -> e_id o < e_id y)) ->
    ordered out.
Proof.
  intros All LO. induction 1 as [ls F|a e r b out H M IH]; intros ps dn LP ND PP UP CV J; [exact Logic.I|].
  assert (Hin : forall y, In y out -> exists l, In l (a ++ r :: b) /\ In y l) by (intros y; apply (merges_in _ _ M)).
  assert (Ae : All e) by (apply CV; right; exists (e :: r); split; [apply in_or_app; right; now left|now left]).
  assert (Pe : exists p, nth_error ps (length a) = Some p).
  { destruct (nth_error ps (length a)) eqn:E; [eauto|]. apply nth_error_None in E. rewrite LP, app_length in E. cbn in E. lia. }
  destruct Pe as [p Hp].
  assert (Ps : Forall (fun x => e_p x = p) (e :: r)).
  { apply (PP (length a)); [|exact Hp]. rewrite nth_error_app2; [|lia]. now rewrite Nat.sub_diag. }
  assert (Ue : ids_up (e :: r)) by (rewrite Forall_forall in UP; apply UP; apply in_or_app; right; now left).
  (* other streams hold other backends *)
  assert (OT : forall l y, In l (a ++ b) -> In y l -> e_p y <> p).
  { intros l y Hl Hy. apply in_app_or in Hl. destruct Hl as [Hl|Hl].
    - apply In_nth_error in Hl. destruct Hl as [i Hi].
      assert (Hlt : (i < length a)%nat) by (apply nth_error_Some; congruence).
      destruct (nth_error ps i) as [q|] eqn:Eq.
      + assert (Hi' : nth_error (a ++ (e :: r) :: b) i = Some l) by (rewrite nth_error_app1; assumption).
        pose proof (PP _ _ _ Hi' Eq) as Fl. rewrite Forall_forall in Fl. rewrite (Fl _ Hy). intros ->.
        assert (i = length a); [|lia].
        apply (proj1 (NoDup_nth_error ps) ND); [rewrite LP, app_length; lia|congruence].
      + apply nth_error_None in Eq. rewrite LP, app_length in Eq. lia.
    - apply In_nth_error in Hl. destruct Hl as [i Hi].
      assert (Hi' : nth_error (a ++ (e :: r) :: b) (length a + S i) = Some l).
      { rewrite nth_error_app2; [|lia]. replace (length a + S i - length a)%nat with (S i) by lia. exact Hi. }
      assert (Hlt : (length a + S i < length ps)%nat).
      { rewrite LP. apply nth_error_Some. congruence. }
      destruct (nth_error ps (length a + S i)) as [q|] eqn:Eq.
      + pose proof (PP _ _ _ Hi' Eq) as Fl. rewrite Forall_forall in Fl. rewrite (Fl _ Hy). intros ->.
        assert ((length a + S i)%nat = length a); [|lia].
        apply (proj1 (NoDup_nth_error ps) ND); [exact Hlt|congruence].
      + apply nth_error_None in Eq. lia. }
  (* the picked entry comes before every conflicting one that remains *)
  assert (PK : forall l y, In l (a ++ r :: b) -> In y l ->
               (e_p e = e_p y -> e_id e < e_id y) /\ (e_ent e = e_ent y -> e_id e < e_id y)).
  { intros l y Hl Hy.
    assert (Hc : (l = r \/ In l (a ++ b))).
    { apply in_app_or in Hl. destruct Hl as [Hl|[->|Hl]]; [right; apply in_or_app; now left|now left|right; apply in_or_app; now right]. }
    destruct Hc as [->|Hl'].
    - destruct Ue as [Ue _]. split; intros _; exact (Ue _ Hy).
    - assert (Ep : e_p e = p) by exact (Forall_inv Ps).
      split; [intros E; exfalso; apply (OT _ _ Hl' Hy); congruence|]. intros Ee.
      assert (Hl'' : In l (a ++ (e :: r) :: b)).
      { apply in_app_or in Hl'. apply in_or_app. destruct Hl'; [now left|right; now right]. }
      assert (Ay : All y) by (apply CV; right; exists l; split; assumption).
      destruct (Z_lt_ge_dec (e_id e) (e_id y)) as [|Hge]; [assumption|exfalso].
      assert (Hlt : e_id y < e_id e).
      { assert (e_id y <> e_id e); [|lia]. intros E. assert (y = e) by (apply (lo_inj _ LO); assumption).
        subst y. exact (OT _ _ Hl' Hy Ep). }
      destruct l as [|f t]; [destruct Hy|].
      assert (Hf : e_id f <= e_id y).
      { destruct Hy as [->|Hy]; [lia|]. rewrite Forall_forall in UP. pose proof (UP _ Hl'') as [U _]. specialize (U _ Hy). lia. }
      assert (Af : All f) by (apply CV; right; exists (f :: t); split; [exact Hl''|now left]).
      pose proof (H _ f t Hl' eq_refl) as Hpos.
      destruct (forward_dec e) as [Fe|Re].
      + pose proof (lo_fwd _ LO e Ae Fe f Af ltac:(lia)). lia.
      + destruct (lo_rev _ LO e Ae Re) as (x0 & A0 & P0 & E0 & I0 & K0).
        apply CV in A0. destruct A0 as [D0|(l0 & Hl0 & Hx0)].
        * destruct (J _ D0 _ _ Hl'' Hy) as [_ J2]. specialize (J2 ltac:(congruence)).
          specialize (K0 y Ay ltac:(congruence)). pose proof (OT _ _ Hl' Hy). specialize (K0 ltac:(congruence) Hlt). lia.
        * apply in_app_or in Hl0. destruct Hl0 as [Hl0|[<-|Hl0]].
          -- apply (OT l0 x0); [apply in_or_app; now left|exact Hx0|congruence].
          -- destruct Hx0 as [<-|Hx0]; [lia|]. destruct Ue as [Ue _]. specialize (Ue _ Hx0). lia.
          -- apply (OT l0 x0); [apply in_or_app; now right|exact Hx0|congruence]. }
  split.
  - intros y Hy Ee. destruct (Hin y Hy) as (l & Hl & Hyl). apply (PK _ _ Hl Hyl). exact Ee.
  - apply (IH ps (fun x => dn x \/ x = e)).
    + rewrite LP, !app_length. reflexivity.
    + exact ND.
    + intros i l q Hi Hq. destruct (Nat.eq_dec i (length a)) as [->|Ne].
      * rewrite nth_error_app2 in Hi; [|lia]. rewrite Nat.sub_diag in Hi. cbn in Hi. inv Hi.
        assert (q = p) by congruence. subst q. exact (Forall_inv_tail Ps).
      * apply (PP i l q); [|exact Hq]. destruct (Nat.lt_ge_cases i (length a)) as [Lt|Ge].
        -- rewrite nth_error_app1 in Hi |- *; assumption.
        -- rewrite nth_error_app2 in Hi |- *; try lia. destruct (i - length a)%nat eqn:Ei; [lia|exact Hi].
    + apply Forall_app in UP. destruct UP as [UA UB]. apply Forall_app. split; [exact UA|].
      inv UB. constructor; [|assumption]. destruct Ue as [_ Ue]. exact Ue.
    + intros x. rewrite CV. split.
      * intros [D|(l & Hl & Hx)]; [left; now left|]. apply in_app_or in Hl. destruct Hl as [Hl|[<-|Hl]].
        -- right. exists l. split; [apply in_or_app; now left|exact Hx].
        -- destruct Hx as [<-|Hx]; [left; now right|right; exists r; split; [apply in_or_app; right; now left|exact Hx]].
        -- right. exists l. split; [apply in_or_app; right; now right|exact Hx].
      * intros [[D| ->]|(l & Hl & Hx)].
        -- now left.
        -- right. exists (e :: r). split; [apply in_or_app; right; now left|now left].
        -- right. apply in_app_or in Hl. destruct Hl as [Hl|[<-|Hl]].
           ++ exists l. split; [apply in_or_app; now left|exact Hx].
           ++ exists (e :: r). split; [apply in_or_app; right; now left|now right].
           ++ exists l. split; [apply in_or_app; right; now right|exact Hx].
    + intros o [D| ->] l y Hl Hy; [|exact (PK _ _ Hl Hy)].
      apply in_app_or in Hl. destruct Hl as [Hl|[<-|Hl]].
      * apply (J _ D l); [apply in_or_app; now left|exact Hy].
      * apply (J _ D (e :: r)); [apply in_or_app; right; now left|now right].
      * apply (J _ D l); [apply in_or_app; right; now right|exact Hy].
Qed.

(** ** Replay *)

Lemma set_tree_same : forall t k pk b, set_tree t (k, pk) b k pk = b.
Proof. intros. unfold set_tree. cbn. now rewrite !Z.eqb_refl. Qed.
Lemma set_tree_other : forall t e b k pk, e <> (k, pk) -> set_tree t e b k pk = t k pk.
Proof.
  intros t [k' pk'] b k pk N. unfold set_tree. cbn.
  destruct (Z.eqb_spec k k'); [|reflexivity]. destruct (Z.eqb_spec pk pk'); [|reflexivity]. subst. now elim N.
Qed.

Lemma replay_none : forall l t k pk, (forall x, In x l -> snd x <> (k, pk)) -> replay l t k pk = t k pk.
Proof.
  induction l as [|x l IH]; intros t k pk H; [reflexivity|].
  change (replay (x :: l) t) with (replay l (replay1 t x)). rewrite IH; [|intros y Hy; apply H; now right].
  unfold replay1. apply set_tree_other. apply H. now left.
Qed.

Definition own (x : entry) : cop * ent := (e_op x, e_ent x).

Lemma replay_last : forall l t k pk m, ordered l -> In m l -> e_ent m = (k, pk) ->
  (forall y, In y l -> e_ent y = (k, pk) -> e_id y <= e_id m) ->
  replay (map own l) t k pk = inserts (e_op m).
Proof.
  induction l as [|x l IH]; intros t k pk m O Hm Em Mx; [destruct Hm|].
  change (replay (map own (x :: l)) t) with (replay (map own l) (replay1 t (own x))).
  destruct O as [O1 O2]. destruct Hm as [->|Hm].
  - rewrite replay_none.
    + unfold replay1, own. cbn. rewrite Em. apply set_tree_same.
    + intros y Hy E. apply in_map_iff in Hy. destruct Hy as (z & <- & Hz). cbn in E.
      specialize (O1 z Hz ltac:(congruence)). specialize (Mx z (or_intror Hz) E). lia.
  - apply IH; [exact O2|exact Hm|exact Em|]. intros y Hy. apply Mx. now right.
Qed.

(** ** The invariant of all schedules *)

Definition logged (s : st) (x : entry) : Prop := In x (s_spool s (e_p x)).

Definition new_value (it : item) : option (option Z) :=
  match i_cap it with
  | Some (Ins, (k, _), _) => Some (Some k)
  | Some (Del, _, _) => Some None
  | _ => None
  end.

Record Inv (s : st) : Prop := {
  iv_file : forall p x, In x (s_spool s p) -> e_p x = p /\ e_id x < s_next s /\ e_pos x < s_top s;
  iv_up : forall p, ids_up (s_spool s p);
  iv_log : log_ok (logged s);
  iv_idle : forall p, s_items s p <> [] -> In p (s_active s);
  iv_zero : ~ In 0 (s_active s);
  iv_own : forall p it, In it (s_items s p) -> s_owner s (i_pk it) = p;
  iv_cap : forall p it c e pos, In it (s_items s p) -> i_cap it = Some (c, e, pos) ->
    snd e = i_pk it /\ (c = Ins \/ c = Del)
    /\ exists x0, logged s x0 /\ (e_p x0 = p /\ e_pos x0 = pos) /\ e_ent x0 = e
       /\ forall y, logged s y -> snd (e_ent y) = i_pk it -> e_p y <> p -> e_id y < e_id x0;
  iv_before : s_phase s = Before -> forall p, s_spool s p = [] /\ Forall (fun it => i_cap it = None) (s_items s p) }.

Lemma ids_up_snoc : forall l x, ids_up l -> (forall y, In y l -> e_id y < e_id x) -> ids_up (l ++ [x]).
Proof.
  induction l as [|a l IH]; intros x U H; cbn; [split; [intros ? []|exact Logic.I]|].
  destruct U as [U1 U2]. split.
  - intros y Hy. apply in_app_or in Hy. destruct Hy as [Hy|[<-|[]]]; [exact (U1 _ Hy)|apply H; now left].
  - apply IH; [exact U2|]. intros y Hy. apply H. now right.
Qed.

Lemma isin_In : forall p l, isin p l = true <-> In p l.
Proof.
  intros p l. unfold isin. rewrite existsb_exists. split.
  - intros (x & Hx & E). apply Z.eqb_eq in E. now subst.
  - intros H. exists p. split; [exact H|apply Z.eqb_refl].
Qed.

(** Appending one entry to the file of its backend. *)
Definition append (f : Z -> list entry) (x : entry) : Z -> list entry := upd f (e_p x) (f (e_p x) ++ [x]).

Lemma append_in : forall f x y, In y (append f x (e_p y)) <-> In y (f (e_p y)) \/ y = x.
Proof.
  intros f x y. unfold append. destruct (Z.eq_dec (e_p y) (e_p x)) as [E|N].
  - rewrite E, upd_same, in_app_iff. cbn. intuition congruence.
  - rewrite upd_other by exact N. split; [now left|]. intros [H|E]; [exact H|subst; now elim N].
Qed.

Lemma append_ok : forall f x n,
  log_ok (fun y => In y (f (e_p y))) ->
  (forall y, In y (f (e_p y)) -> e_id y < n) -> n <= e_id x ->
  (forward x -> forall y, In y (f (e_p y)) -> e_pos y < e_pos x) ->
  (~ forward x -> exists x0, In x0 (f (e_p x0)) /\ e_p x0 = e_p x /\ e_ent x0 = e_ent x
      /\ forall y, In y (f (e_p y)) -> e_ent y = e_ent x -> e_p y <> e_p x -> e_id y < e_id x0) ->
  log_ok (fun y => In y (append f x (e_p y))).
Proof.
  intros f x n LO LT N FW RV. constructor.
  - intros a b Ha Hb E. apply append_in in Ha. apply append_in in Hb.
    destruct Ha as [Ha| ->], Hb as [Hb| ->]; [|specialize (LT _ Ha); lia|specialize (LT _ Hb); lia|reflexivity].
    apply (lo_inj _ LO); assumption.
  - intros a Ha Fa b Hb L. apply append_in in Ha. apply append_in in Hb.
    destruct Hb as [Hb| ->].
    + destruct Ha as [Ha| ->]; [apply (lo_fwd _ LO); assumption|apply FW; assumption].
    + destruct Ha as [Ha| ->]; [specialize (LT _ Ha); lia|lia].
  - intros a Ha Ra. apply append_in in Ha. destruct Ha as [Ha| ->].
    + destruct (lo_rev _ LO a Ha Ra) as (x0 & A0 & P0 & E0 & I0 & K0).
      exists x0. split; [apply append_in; now left|]. repeat split; try assumption.
      intros y Hy Ey Py Ly. apply append_in in Hy. destruct Hy as [Hy| ->]; [apply K0; assumption|].
      specialize (LT _ Ha). lia.
    + destruct (RV Ra) as (x0 & A0 & P0 & E0 & K0).
      exists x0. split; [apply append_in; now left|]. split; [exact P0|]. split; [exact E0|]. split; [specialize (LT _ A0); lia|].
      intros y Hy Ey Py Ly. apply append_in in Hy. destruct Hy as [Hy| ->]; [apply K0; assumption|]. lia.
Qed.

Lemma init_inv : Inv init.
Proof.
  constructor; cbn.
  - intros p x [].
  - intros p. exact Logic.I.
  - constructor; unfold logged; cbn; intros; contradiction.
  - intros p H. now elim H.
  - intros [].
  - intros p it [].
  - intros p it c e pos [].
  - intros _ p. split; [reflexivity|constructor].
Qed.

(** A row is changed by [p] only if no other backend has an item for it. *)
Lemma others_free : forall s p pk q it, Inv s -> In p (s_active s) -> free_for s p pk = true ->
  In it (s_items s q) -> i_pk it = pk -> q = p.
Proof.
  intros s p pk q it I A F Hi E. pose proof (iv_own _ I q it Hi) as O. rewrite E in O.
  unfold free_for in F. apply orb_true_iff in F. destruct F as [F|F]; apply Z.eqb_eq in F; [|congruence].
  exfalso. apply (iv_zero _ I). replace 0 with q by congruence. apply (iv_idle _ I).
  intros E'. rewrite E' in Hi. exact Hi.
Qed.

Lemma own_new : forall s p pk it0, Inv s -> In p (s_active s) -> free_for s p pk = true -> i_pk it0 = pk ->
  forall q it, In it (upd (s_items s) p (it0 :: s_items s p) q) -> upd (s_owner s) pk p (i_pk it) = q.
Proof.
  intros s p pk it0 I A F E q it Hi. destruct (Z.eq_dec q p) as [->|N].
  - rewrite upd_same in Hi. destruct Hi as [<-|Hi].
    + rewrite E. apply upd_same.
    + destruct (Z.eq_dec (i_pk it) pk) as [E'|N']; [rewrite E'; apply upd_same|].
      rewrite upd_other by exact N'. exact (iv_own _ I _ _ Hi).
  - rewrite (upd_other _ (s_items s) p _ q N) in Hi.
    destruct (Z.eq_dec (i_pk it) pk) as [E'|N'].
    + exfalso. apply N. exact (others_free s p pk q it I A F Hi E').
    + rewrite upd_other by exact N'. exact (iv_own _ I _ _ Hi).
Qed.

Lemma idle_new : forall s p it0, Inv s -> In p (s_active s) ->
  forall q, upd (s_items s) p (it0 :: s_items s p) q <> [] -> In q (s_active s).
Proof.
  intros s p it0 I A q H. destruct (Z.eq_dec q p) as [->|N]; [exact A|].
  rewrite (upd_other _ (s_items s) p _ q N) in H. exact (iv_idle _ I _ H).
Qed.

Lemma change_inv : forall s p pk v c e, Inv s -> In p (s_active s) -> free_for s p pk = true ->
  snd e = pk -> c = Ins \/ c = Del -> Inv (change s p pk v c e).
Proof.
  intros s p pk v c e I A F Ee Ec. unfold change. destruct (capturing s) eqn:Ph.
  - set (x := mkE (s_next s) p (s_top s) (s_seq s p) c e).
    assert (Sp : forall q, upd (s_spool s) p (s_spool s p ++ [x]) q = append (s_spool s) x q) by reflexivity.
    assert (LT : forall y, In y (s_spool s (e_p y)) -> e_id y < s_next s) by (intros y Hy; apply (iv_file _ I _ _ Hy)).
    constructor; cbn [s_phase s_table s_owner s_items s_active s_top s_seq s_spool s_scan s_tree s_next].
    + intros q y Hy. destruct (Z.eq_dec q p) as [->|N].
      * rewrite upd_same in Hy. apply in_app_or in Hy. destruct Hy as [Hy|[<-|[]]].
        -- destruct (iv_file _ I _ _ Hy) as (B1 & B2 & B3). repeat split; [exact B1|lia|lia].
        -- cbn. repeat split; lia.
      * rewrite (upd_other _ (s_spool s) p _ q N) in Hy.
        destruct (iv_file _ I _ _ Hy) as (B1 & B2 & B3). repeat split; [exact B1|lia|lia].
    + intros q. destruct (Z.eq_dec q p) as [->|N].
      * rewrite upd_same. apply ids_up_snoc; [apply (iv_up _ I)|]. intros y Hy. cbn. apply (iv_file _ I _ _ Hy).
      * rewrite (upd_other _ (s_spool s) p _ q N). apply (iv_up _ I).
    + apply (append_ok (s_spool s) x (s_next s)); [exact (iv_log _ I)|exact LT|cbn; lia| |].
      * intros _ y Hy. cbn. apply (iv_file _ I _ _ Hy).
      * intros R. elim R. exact Ec.
    + apply idle_new; assumption.
    + exact (iv_zero _ I).
    + apply (own_new s p pk); try assumption. reflexivity.
    + intros q it c' e' pos Hi Ecap. unfold logged; cbn [s_spool].
      destruct (Z.eq_dec q p) as [->|N].
      * rewrite upd_same in Hi. destruct Hi as [<-|Hi].
        -- cbn in Ecap. inv Ecap. cbn [i_pk]. split; [reflexivity|]. split; [exact Ec|].
           exists x. split; [apply (append_in (s_spool s) x x); now right|]. split; [split; reflexivity|]. split; [reflexivity|].
           intros y Hy Ey Py. apply (append_in (s_spool s) x) in Hy.
           destruct Hy as [Hy| ->]; [cbn; apply LT; exact Hy|now elim Py].
        -- destruct (iv_cap _ I _ _ _ _ _ Hi Ecap) as (B1 & B2 & x0 & B3 & B4 & B5 & B6).
           split; [exact B1|]. split; [exact B2|]. exists x0. split; [apply (append_in (s_spool s) x x0); left; exact B3|].
           split; [exact B4|]. split; [exact B5|]. intros y Hy Ey Py. apply (append_in (s_spool s) x) in Hy.
           destruct Hy as [Hy| ->]; [apply B6; assumption|now elim Py].
      * rewrite (upd_other _ (s_items s) p _ q N) in Hi.
        destruct (iv_cap _ I _ _ _ _ _ Hi Ecap) as (B1 & B2 & x0 & B3 & B4 & B5 & B6).
        split; [exact B1|]. split; [exact B2|]. exists x0. split; [apply (append_in (s_spool s) x x0); left; exact B3|].
        split; [exact B4|]. split; [exact B5|]. intros y Hy Ey Py. apply (append_in (s_spool s) x) in Hy.
        destruct Hy as [Hy| ->]; [apply B6; assumption|].
        exfalso. apply N. apply (others_free s p pk q it); try assumption. cbn in Ey. congruence.
    + intros E. unfold capturing in Ph. rewrite E in Ph. discriminate Ph.
  - constructor; cbn [s_phase s_table s_owner s_items s_active s_top s_seq s_spool s_scan s_tree s_next].
    + intros q y Hy. destruct (iv_file _ I _ _ Hy) as (B1 & B2 & B3). repeat split; [exact B1|lia|lia].
    + exact (iv_up _ I).
    + exact (iv_log _ I).
    + apply idle_new; assumption.
    + exact (iv_zero _ I).
    + apply (own_new s p pk); try assumption. reflexivity.
    + intros q it c' e' pos Hi Ecap. destruct (Z.eq_dec q p) as [->|N].
      * rewrite upd_same in Hi. destruct Hi as [<-|Hi]; [discriminate Ecap|]. exact (iv_cap _ I _ _ _ _ _ Hi Ecap).
      * rewrite (upd_other _ (s_items s) p _ q N) in Hi. exact (iv_cap _ I _ _ _ _ _ Hi Ecap).
    + intros E q. destruct (iv_before _ I E q) as [B1 B2]. split; [exact B1|].
      destruct (Z.eq_dec q p) as [->|N].
      * rewrite upd_same. constructor; [reflexivity|exact B2].
      * rewrite (upd_other _ (s_items s) p _ q N). exact B2.
Qed.

(** An item without capture. *)
Lemma plain_inv : forall s p pk v it top tr, Inv s -> In p (s_active s) -> free_for s p pk = true ->
  i_pk it = pk -> i_cap it = None -> s_top s <= top ->
  Inv (mkSt (s_phase s) (upd (s_table s) pk v) (upd (s_owner s) pk p) (upd (s_items s) p (it :: s_items s p))
            (s_active s) top (s_seq s) (s_spool s) (s_scan s) tr (s_next s)).
Proof.
  intros s p pk v it0 top tr I A F Ep En Lt.
  constructor; cbn [s_phase s_table s_owner s_items s_active s_top s_seq s_spool s_scan s_tree s_next].
  - intros q y Hy. destruct (iv_file _ I _ _ Hy) as (B1 & B2 & B3). repeat split; [exact B1|lia|lia].
  - exact (iv_up _ I).
  - exact (iv_log _ I).
  - apply idle_new; assumption.
  - exact (iv_zero _ I).
  - apply (own_new s p pk); assumption.
  - intros q it c' e' pos Hi Ecap. destruct (Z.eq_dec q p) as [->|N].
    + rewrite upd_same in Hi. destruct Hi as [<-|Hi]; [congruence|]. exact (iv_cap _ I _ _ _ _ _ Hi Ecap).
    + rewrite (upd_other _ (s_items s) p _ q N) in Hi. exact (iv_cap _ I _ _ _ _ _ Hi Ecap).
  - intros E q. destruct (iv_before _ I E q) as [B1 B2]. split; [exact B1|].
    destruct (Z.eq_dec q p) as [->|N].
    + rewrite upd_same. constructor; [exact En|exact B2].
    + rewrite (upd_other _ (s_items s) p _ q N). exact B2.
Qed.

(** What an undo step appends. *)
Definition undo_app (s : st) (p : Z) (it : item) : list entry :=
  match i_cap it with
  | Some (c, e, pos) => match reverse c with Some r => [mkE (s_next s) p pos (s_seq s p) r e] | None => [] end
  | None => []
  end.

Lemma undo_inv : forall s p, Inv s -> Inv (step s (OUndo p)).
Proof.
  intros s p I. cbn [step]. destruct (isin p (s_active s)) eqn:A; [|exact I]. apply isin_In in A.
  destruct (s_items s p) as [|it rest] eqn:Ei; [exact I|]. fold (undo_app s p it).
  assert (Hit : In it (s_items s p)) by (rewrite Ei; now left).
  assert (Sub : forall q i, In i (upd (s_items s) p rest q) -> In i (s_items s q)).
  { intros q i. destruct (Z.eq_dec q p) as [->|N]; [rewrite upd_same, Ei; now right|now rewrite (upd_other _ (s_items s) p _ q N)]. }
  assert (Own : forall q i, In i (upd (s_items s) p rest q) ->
     (if existsb (fun i0 => i_pk i0 =? i_pk it) rest then s_owner s else upd (s_owner s) (i_pk it) 0) (i_pk i) = q).
  { intros q i Hi. pose proof (iv_own _ I _ _ (Sub _ _ Hi)) as O.
    destruct (existsb _ rest) eqn:Ex; [exact O|].
    destruct (Z.eq_dec (i_pk i) (i_pk it)) as [E|N]; [|rewrite upd_other by exact N; exact O].
    exfalso. assert (Eq : q = p) by (rewrite E in O; rewrite <- O; exact (iv_own _ I _ _ Hit)).
    rewrite Eq, upd_same in Hi. assert (Z : existsb (fun i0 => i_pk i0 =? i_pk it) rest = true).
    { apply existsb_exists. exists i. split; [exact Hi|]. apply Z.eqb_eq. exact E. }
    congruence. }
  assert (Idle : forall q, upd (s_items s) p rest q <> [] -> In q (s_active s)).
  { intros q H. destruct (Z.eq_dec q p) as [->|N]; [exact A|]. rewrite (upd_other _ (s_items s) p _ q N) in H. exact (iv_idle _ I _ H). }
  unfold undo_app. destruct (i_cap it) as [[[c e] pos]|] eqn:Ec.
  - destruct (iv_cap _ I _ _ _ _ _ Hit Ec) as (B1 & B2 & x0 & B3 & B4 & B5 & B6).
    assert (Er : exists r, reverse c = Some r /\ r <> Ins /\ r <> Del).
    { destruct B2 as [->| ->]; cbn; eexists; split; try reflexivity; split; discriminate. }
    destruct Er as (r & Er & R1 & R2). rewrite Er. cbn [length app].
    set (x := mkE (s_next s) p pos (s_seq s p) r e).
    assert (LT : forall y, In y (s_spool s (e_p y)) -> e_id y < s_next s) by (intros y Hy; apply (iv_file _ I _ _ Hy)).
    destruct B4 as [B4 B4'].
    constructor; cbn [s_phase s_table s_owner s_items s_active s_top s_seq s_spool s_scan s_tree s_next].
    + intros q y Hy. destruct (Z.eq_dec q p) as [->|N].
      * rewrite upd_same in Hy. apply in_app_or in Hy. destruct Hy as [Hy|[<-|[]]].
        -- destruct (iv_file _ I _ _ Hy) as (C1 & C2 & C3). repeat split; [exact C1|lia|lia].
        -- cbn. pose proof (iv_file _ I _ _ B3). repeat split; lia.
      * rewrite (upd_other _ (s_spool s) p _ q N) in Hy.
        destruct (iv_file _ I _ _ Hy) as (C1 & C2 & C3). repeat split; [exact C1|lia|lia].
    + intros q. destruct (Z.eq_dec q p) as [->|N].
      * rewrite upd_same. apply ids_up_snoc; [apply (iv_up _ I)|]. intros y Hy. cbn. apply (iv_file _ I _ _ Hy).
      * rewrite (upd_other _ (s_spool s) p _ q N). apply (iv_up _ I).
    + apply (append_ok (s_spool s) x (s_next s)); [exact (iv_log _ I)|exact LT|cbn; lia| |].
      * intros [R|R]; cbn in R; congruence.
      * intros _. exists x0. split; [exact B3|]. split; [exact B4|]. split; [exact B5|].
        intros y Hy Ey Py. apply B6; [exact Hy| |exact Py]. cbn in Ey. congruence.
    + exact Idle.
    + exact (iv_zero _ I).
    + exact Own.
    + intros q i c' e' pos' Hi Ecap. apply Sub in Hi. unfold logged; cbn [s_spool].
      destruct (iv_cap _ I _ _ _ _ _ Hi Ecap) as (D1 & D2 & x1 & D3 & D4 & D5 & D6).
      split; [exact D1|]. split; [exact D2|]. exists x1. split; [apply (append_in (s_spool s) x x1); left; exact D3|].
      split; [exact D4|]. split; [exact D5|]. intros y Hy Ey Py. apply (append_in (s_spool s) x) in Hy.
      destruct Hy as [Hy| ->]; [apply D6; assumption|]. exfalso. apply Py. cbn in Ey |- *.
      pose proof (iv_own _ I _ _ Hi) as O1. pose proof (iv_own _ I _ _ Hit) as O2. congruence.
    + intros E. destruct (iv_before _ I E p) as [_ F]. rewrite Forall_forall in F. specialize (F _ Hit). congruence.
  - cbn [length app]. 
    assert (Spl : forall q, upd (s_spool s) p (s_spool s p ++ []) q = s_spool s q).
    { intros q. destruct (Z.eq_dec q p) as [->|N]; [rewrite upd_same; apply app_nil_r|now rewrite (upd_other _ (s_spool s) p _ q N)]. }
    constructor; cbn [s_phase s_table s_owner s_items s_active s_top s_seq s_spool s_scan s_tree s_next].
    + intros q y Hy. rewrite Spl in Hy. destruct (iv_file _ I _ _ Hy) as (C1 & C2 & C3). repeat split; [exact C1|lia|lia].
    + intros q. rewrite Spl. exact (iv_up _ I q).
    + destruct (iv_log _ I) as [L1 L2 L3]. unfold logged in *. cbn [s_spool]. constructor.
      * intros x y. rewrite !Spl. apply L1.
      * intros x Hx Fx y Hy. rewrite Spl in Hx, Hy. apply L2; assumption.
      * intros x Hx Rx. rewrite Spl in Hx. destruct (L3 x Hx Rx) as (x0 & A0 & P0 & E0 & I0 & K0).
        exists x0. rewrite Spl. split; [exact A0|]. split; [exact P0|]. split; [exact E0|]. split; [exact I0|].
        intros y Hy. rewrite Spl in Hy. apply K0; exact Hy.
    + exact Idle.
    + exact (iv_zero _ I).
    + exact Own.
    + intros q i c' e' pos' Hi Ecap. apply Sub in Hi. unfold logged; cbn [s_spool].
      destruct (iv_cap _ I _ _ _ _ _ Hi Ecap) as (D1 & D2 & x1 & D3 & D4 & D5 & D6).
      split; [exact D1|]. split; [exact D2|]. exists x1. rewrite Spl. split; [exact D3|].
      split; [exact D4|]. split; [exact D5|]. intros y Hy. rewrite Spl in Hy. apply D6; exact Hy.
    + intros E q. rewrite Spl. destruct (iv_before _ I E q) as [C1 C2]. split; [exact C1|].
      rewrite Forall_forall in *. intros i Hi. apply C2. apply Sub. exact Hi.
Qed.

Lemma step_inv : forall s o, Inv s -> Inv (step s o).
Proof.
  intros s o I. destruct o as [p|p pk k|p pk|p pk k|p|p|p| |pk| |].
  - cbn [step]. assert (G : isin p (s_active s) || (p =? 0) = false -> Inv (mkSt (s_phase s) (s_table s) (s_owner s) (upd (s_items s) p []) (p :: s_active s) (s_top s) (s_seq s) (s_spool s) (s_scan s) (s_tree s) (s_next s))).
    { intros E. apply orb_false_iff in E. destruct E as [E1 E2]. apply Z.eqb_neq in E2.
      assert (Np : ~ In p (s_active s)) by (intros H; apply isin_In in H; congruence).
      assert (Sub : forall q i, In i (upd (s_items s) p [] q) -> In i (s_items s q)).
      { intros q i. destruct (Z.eq_dec q p) as [->|N]; [rewrite upd_same; intros []|now rewrite (upd_other _ (s_items s) p _ q N)]. }
      constructor; cbn [s_phase s_table s_owner s_items s_active s_top s_seq s_spool s_scan s_tree s_next].
      - exact (iv_file _ I).
      - exact (iv_up _ I).
      - exact (iv_log _ I).
      - intros q H. destruct (Z.eq_dec q p) as [->|N]; [now left|]. rewrite (upd_other _ (s_items s) p _ q N) in H. right. exact (iv_idle _ I _ H).
      - intros [H|H]; [congruence|exact (iv_zero _ I H)].
      - intros q i Hi. apply (iv_own _ I). apply Sub. exact Hi.
      - intros q i c e pos Hi. apply (iv_cap _ I). apply Sub. exact Hi.
      - intros E q. destruct (iv_before _ I E q) as [C1 C2]. split; [exact C1|].
        rewrite Forall_forall in *. intros i Hi. apply C2. apply Sub. exact Hi. }
    destruct (s_phase s) eqn:Ep; try exact I; destruct (isin p (s_active s) || (p =? 0)) eqn:E; try exact I; exact (G eq_refl).
  - cbn [step]. destruct (isin p (s_active s) && free_for s p pk) eqn:E; [|exact I]. apply andb_true_iff in E. destruct E as [A F].
    apply isin_In in A. destruct (s_table s pk); [exact I|]. apply change_inv; try assumption; [reflexivity|now left].
  - cbn [step]. destruct (isin p (s_active s) && free_for s p pk) eqn:E; [|exact I]. apply andb_true_iff in E. destruct E as [A F].
    apply isin_In in A. destruct (s_table s pk); [|exact I]. apply change_inv; try assumption; [reflexivity|now right].
  - cbn [step]. destruct (isin p (s_active s) && free_for s p pk) eqn:E; [|exact I]. apply andb_true_iff in E. destruct E as [A F].
    apply isin_In in A. destruct (s_table s pk) as [k0|]; [|exact I]. destruct (k =? k0); [exact I|].
    destruct (s_phase s) eqn:Ep; try exact I.
    + rewrite <- Ep. apply plain_inv; try assumption; try reflexivity. lia.
    + destruct (s_tree s k0 pk); [|exact I]. rewrite <- Ep. apply plain_inv; try assumption; try reflexivity. lia.
  - apply undo_inv. exact I.
  - cbn [step].
    assert (Sub : forall q i, In i (upd (s_items s) p [] q) -> q <> p /\ In i (s_items s q)).
    { intros q i. destruct (Z.eq_dec q p) as [->|N]; [rewrite upd_same; intros []|rewrite (upd_other _ (s_items s) p _ q N); tauto]. }
    constructor; cbn [s_phase s_table s_owner s_items s_active s_top s_seq s_spool s_scan s_tree s_next].
    + exact (iv_file _ I).
    + exact (iv_up _ I).
    + exact (iv_log _ I).
    + intros q H. destruct (Z.eq_dec q p) as [->|N]; [rewrite upd_same in H; now elim H|].
      rewrite (upd_other _ (s_items s) p _ q N) in H. apply filter_In. split; [exact (iv_idle _ I _ H)|].
      apply negb_true_iff. now apply Z.eqb_neq.
    + intros H. apply filter_In in H. exact (iv_zero _ I (proj1 H)).
    + intros q i Hi. destruct (Sub _ _ Hi) as [N Hi']. pose proof (iv_own _ I _ _ Hi') as O. rewrite O.
      destruct (q =? p) eqn:E; [apply Z.eqb_eq in E; congruence|reflexivity].
    + intros q i c e pos Hi. apply (iv_cap _ I). apply Sub. exact Hi.
    + intros E q. destruct (iv_before _ I E q) as [C1 C2]. split; [exact C1|].
      rewrite Forall_forall in *. intros i Hi. apply C2. apply Sub. exact Hi.
  - destruct I as [I1 I2 I3 I4 I5 I6 I7 I8]. constructor; assumption.
  - cbn [step]. destruct (s_phase s) eqn:Ep; try exact I. destruct (s_active s) eqn:Ea; [|exact I].
    destruct I as [I1 I2 I3 I4 I5 I6 I7 I8]. rewrite Ea in *. constructor; try assumption.
    cbn. intros E. discriminate E.
  - cbn [step]. destruct (s_phase s) eqn:Ep; try exact I. destruct (s_scan s pk); [exact I|].
    destruct I as [I1 I2 I3 I4 I5 I6 I7 I8]. rewrite Ep in *. constructor; try assumption; discriminate.
  - cbn [step]. destruct (s_phase s) eqn:Ep; try exact I.
    destruct I as [I1 I2 I3 I4 I5 I6 I7 I8]. rewrite Ep in *. constructor; try assumption; discriminate.
  - cbn [step]. destruct (s_phase s) eqn:Ep; try exact I. destruct (s_active s) eqn:Ea; [|exact I].
    destruct I as [I1 I2 I3 I4 I5 I6 I7 I8]. rewrite Ea in *. constructor; try assumption.
    cbn. intros E. discriminate E.
Qed.

(** ** The index against the table, while nobody updates indexed columns *)

Fixpoint chain (pk : Z) (cur : option Z) (l : list item) : Prop :=
  match l with
  | [] => True
  | it :: r => if i_pk it =? pk then new_value it = Some cur /\ chain pk (i_old it) r else chain pk cur r
  end.

Lemma chain_none : forall pk cur l, (forall it, In it l -> i_pk it <> pk) -> chain pk cur l.
Proof.
  induction l as [|it l IH]; intros H; cbn; [exact Logic.I|].
  destruct (Z.eqb_spec (i_pk it) pk) as [E|_]; [elim (H it (or_introl eq_refl) E)|].
  apply IH. intros i Hi. apply H. now right.
Qed.

Definition newest (s : st) (k pk : Z) (m : entry) : Prop :=
  logged s m /\ e_ent m = (k, pk) /\ forall y, logged s y -> e_ent y = (k, pk) -> e_id y <= e_id m.

Record Cnt (s : st) : Prop := {
  cn_item : forall p it, In it (s_items s p) -> i_tree it = [] /\
    exists c e pos, i_cap it = Some (c, e, pos)
      /\ ((c = Ins /\ i_old it = None) \/ (c = Del /\ i_old it = Some (fst e)));
  cn_chain : forall p pk, chain pk (s_table s pk) (s_items s p);
  cn_last : forall k pk m, newest s k pk m -> (s_table s pk = Some k <-> inserts (e_op m) = true);
  cn_none : forall k pk, (forall y, logged s y -> e_ent y <> (k, pk)) ->
    (forall v, s_scan s pk = Some v -> (v = Some k <-> s_table s pk = Some k))
    /\ (s_phase s = Built \/ s_phase s = Locked -> (s_tree s k pk = true <-> s_table s pk = Some k));
  cn_locked : s_phase s = Locked -> s_active s = [] }.

(** One captured change keeps the agreement. *)
Lemma content_step : forall s s' x v,
  Cnt s -> (forall y, logged s y -> e_id y < e_id x) ->
  s_spool s' = append (s_spool s) x -> s_table s' = upd (s_table s) (snd (e_ent x)) v ->
  s_scan s' = s_scan s -> s_tree s' = s_tree s -> s_phase s' = s_phase s ->
  (v = Some (fst (e_ent x)) <-> inserts (e_op x) = true) ->
  (forall k, k <> fst (e_ent x) -> (s_table s (snd (e_ent x)) = Some k <-> v = Some k)) ->
  (forall k pk m, newest s' k pk m -> (s_table s' pk = Some k <-> inserts (e_op m) = true))
  /\ (forall k pk, (forall y, logged s' y -> e_ent y <> (k, pk)) ->
       (forall w, s_scan s' pk = Some w -> (w = Some k <-> s_table s' pk = Some k))
       /\ (s_phase s' = Built \/ s_phase s' = Locked -> (s_tree s' k pk = true <-> s_table s' pk = Some k))).
Proof.
  intros s s' x v C LT Sp Tb Sc Tr Ph V K.
  assert (LG : forall y, logged s' y <-> logged s y \/ y = x) by (intros y; unfold logged; rewrite Sp; apply append_in).
  assert (TB : forall k pk, (k, pk) <> e_ent x -> (s_table s' pk = Some k <-> s_table s pk = Some k)).
  { intros k pk N. rewrite Tb. destruct (Z.eq_dec pk (snd (e_ent x))) as [->|Np]; [|now rewrite upd_other by exact Np].
    rewrite upd_same. symmetry. apply K. intros ->. apply N. now destruct (e_ent x). }
  split.
  - intros k pk m (M1 & M2 & M3). apply LG in M1. destruct M1 as [M1| ->].
    + assert (N : (k, pk) <> e_ent x).
      { intros E. specialize (M3 x). specialize (M3 (proj2 (LG x) (or_intror eq_refl)) (eq_sym E)). specialize (LT _ M1). lia. }
      rewrite TB by exact N. apply (cn_last _ C). split; [exact M1|]. split; [exact M2|].
      intros y Hy. apply M3. apply LG. now left.
    + rewrite Tb. rewrite M2 in *. cbn in *. rewrite upd_same. exact V.
  - intros k pk H. assert (N : (k, pk) <> e_ent x).
    { intros E. apply (H x); [apply LG; now right|now symmetry]. }
    assert (H' : forall y, logged s y -> e_ent y <> (k, pk)) by (intros y Hy; apply H; apply LG; now left).
    destruct (cn_none _ C k pk H') as [D1 D2]. rewrite Sc, Tr, Ph. split.
    + intros w Ew. rewrite (TB _ _ N). exact (D1 w Ew).
    + intros E. rewrite (TB _ _ N). exact (D2 E).
Qed.

Lemma change_cnt : forall s p pk v c k, Inv s -> Cnt s -> In p (s_active s) -> free_for s p pk = true -> s_phase s <> Before ->
  (c = Ins /\ s_table s pk = None /\ v = Some k) \/ (c = Del /\ s_table s pk = Some k /\ v = None) ->
  Cnt (change s p pk v c (k, pk)).
Proof.
  intros s p pk v c k I C A F Nb Hc.
  assert (Ph : capturing s = true).
  { unfold capturing. destruct (s_phase s) eqn:E; try reflexivity; [congruence|]. rewrite (cn_locked _ C E) in A. destruct A. }
  unfold change. rewrite Ph.
  set (x := mkE (s_next s) p (s_top s) (s_seq s p) c (k, pk)).
  set (s' := mkSt _ _ _ _ _ _ _ _ _ _ _).
  assert (LT : forall y, logged s y -> e_id y < e_id x) by (intros y Hy; apply (iv_file _ I _ _ Hy)).
  destruct (content_step s s' x v C LT eq_refl eq_refl eq_refl eq_refl eq_refl) as [N1 N2].
  { cbn. destruct Hc as [(-> & _ & ->)|(-> & _ & ->)]; cbn; split; congruence. }
  { cbn. intros k' Nk. destruct Hc as [(_ & -> & ->)|(_ & -> & ->)]; split; congruence. }
  constructor; [| |exact N1|exact N2|].
  - intros q it Hi. cbn in Hi. destruct (Z.eq_dec q p) as [->|N].
    + rewrite upd_same in Hi. destruct Hi as [<-|Hi]; [|exact (cn_item _ C _ _ Hi)].
      cbn. split; [reflexivity|]. exists c, (k, pk), (s_top s). split; [reflexivity|].
      destruct Hc as [(-> & -> & _)|(-> & -> & _)]; [left|right]; split; reflexivity.
    + rewrite (upd_other _ (s_items s) p _ q N) in Hi. exact (cn_item _ C _ _ Hi).
  - intros q pk'. cbn [s' s_table s_items]. destruct (Z.eq_dec q p) as [->|N].
    + rewrite upd_same. cbn [chain i_pk i_old]. destruct (Z.eqb_spec pk pk') as [<-|Np].
      * split; [|apply (cn_chain _ C)]. rewrite upd_same. cbn. destruct Hc as [(-> & _ & ->)|(-> & _ & ->)]; reflexivity.
      * rewrite upd_other by congruence. apply (cn_chain _ C).
    + rewrite (upd_other _ (s_items s) p _ q N). destruct (Z.eq_dec pk' pk) as [->|Np].
      * apply chain_none. intros it Hi E. apply N. exact (others_free s p pk q it I A F Hi E).
      * rewrite upd_other by exact Np. apply (cn_chain _ C).
  - intros E. cbn in E. unfold capturing in Ph. rewrite E in Ph. discriminate Ph.
Qed.

Lemma undo_cnt : forall s p, Inv s -> Cnt s -> Cnt (step s (OUndo p)).
Proof.
  intros s p I C. cbn [step]. destruct (isin p (s_active s)) eqn:A; [|exact C]. apply isin_In in A.
  destruct (s_items s p) as [|it rest] eqn:Ei; [exact C|].
  assert (Hit : In it (s_items s p)) by (rewrite Ei; now left).
  destruct (cn_item _ C _ _ Hit) as (Et & c & e & pos & Ec & Ho). rewrite Et, Ec. cbn [fold_left].
  destruct (iv_cap _ I _ _ _ _ _ Hit Ec) as (B1 & B2 & _).
  pose proof (cn_chain _ C p (i_pk it)) as Ch. rewrite Ei in Ch. cbn [chain] in Ch. rewrite Z.eqb_refl in Ch. destruct Ch as [Nv Ch].
  assert (Er : exists r, reverse c = Some r) by (destruct B2 as [->| ->]; cbn; eauto). destruct Er as [r Er]. rewrite Er. cbn [length].
  set (x := mkE (s_next s) p pos (s_seq s p) r e). set (s' := mkSt _ _ _ _ _ _ _ _ _ _ _).
  assert (LT : forall y, logged s y -> e_id y < e_id x) by (intros y Hy; apply (iv_file _ I _ _ Hy)).
  assert (ET : s_table s' = upd (s_table s) (snd (e_ent x)) (i_old it)) by (cbn [s' x s_table e_ent]; now rewrite B1).
  unfold new_value in Nv. rewrite Ec in Nv. destruct e as [k pk]. cbn in B1. subst pk.
  destruct (content_step s s' x (i_old it) C LT eq_refl ET eq_refl eq_refl eq_refl) as [N1 N2].
  { cbn. destruct Ho as [(-> & ->)|(-> & ->)]; cbn in Er; inv Er; cbn; split; congruence. }
  { cbn. intros k' Nk. destruct Ho as [(-> & ->)|(-> & ->)]; cbn in Nv; inv Nv; split; intros E; cbn in *; congruence. }
  assert (Sub : forall q i, In i (upd (s_items s) p rest q) -> In i (s_items s q)).
  { intros q i. destruct (Z.eq_dec q p) as [->|N]; [rewrite upd_same, Ei; now right|now rewrite (upd_other _ (s_items s) p _ q N)]. }
  constructor; [| |exact N1|exact N2|].
  - intros q i Hi. cbn in Hi. apply Sub in Hi. exact (cn_item _ C _ _ Hi).
  - intros q pk'. cbn [s' s_table s_items]. destruct (Z.eq_dec pk' (i_pk it)) as [->|Np].
    + rewrite upd_same. destruct (Z.eq_dec q p) as [->|N]; [rewrite upd_same; exact Ch|].
      rewrite (upd_other _ (s_items s) p _ q N). apply chain_none. intros i Hi E. apply N.
      pose proof (iv_own _ I _ _ Hi) as O1. pose proof (iv_own _ I _ _ Hit) as O2. congruence.
    + rewrite upd_other by exact Np. pose proof (cn_chain _ C q pk') as Cq.
      destruct (Z.eq_dec q p) as [->|N]; [|rewrite (upd_other _ (s_items s) p _ q N); exact Cq].
      rewrite upd_same. rewrite Ei in Cq. cbn [chain] in Cq. destruct (Z.eqb_spec (i_pk it) pk'); [congruence|exact Cq].
  - exact (cn_locked _ C).
Qed.

Lemma step_cnt : forall s o, Inv s -> Cnt s -> s_phase s <> Before -> no_key_update o -> Cnt (step s o).
Proof.
  intros s o I C Nb Nu. destruct o as [p|p pk k|p pk|p pk k|p|p|p| |pk| |]; cbn in Nu; try contradiction.
  - cbn [step]. destruct (s_phase s) eqn:Ep; try exact C; destruct (isin p (s_active s) || (p =? 0)) eqn:E; try exact C.
    all: assert (Sub : forall q i, In i (upd (s_items s) p [] q) -> In i (s_items s q))
           by (intros q i; destruct (Z.eq_dec q p) as [->|N]; [rewrite upd_same; intros []|now rewrite (upd_other _ (s_items s) p _ q N)]).
    all: destruct C as [C1 C2 C3 C4 C5]; rewrite Ep in *; constructor; try assumption; cbn; try discriminate.
    all: try (intros q i Hi; apply (C1 q); apply Sub; exact Hi).
    all: intros q pk; destruct (Z.eq_dec q p) as [->|N]; [rewrite upd_same; exact Logic.I|rewrite (upd_other _ (s_items s) p _ q N); apply C2].
  - cbn [step]. destruct (isin p (s_active s) && free_for s p pk) eqn:E; [|exact C]. apply andb_true_iff in E. destruct E as [A F].
    apply isin_In in A. destruct (s_table s pk) eqn:T; [exact C|]. apply change_cnt; try assumption. left. now repeat split.
  - cbn [step]. destruct (isin p (s_active s) && free_for s p pk) eqn:E; [|exact C]. apply andb_true_iff in E. destruct E as [A F].
    apply isin_In in A. destruct (s_table s pk) eqn:T; [|exact C]. apply change_cnt; try assumption. right. now repeat split.
  - apply undo_cnt; assumption.
  - cbn [step]. destruct C as [C1 C2 C3 C4 C5]. constructor; try assumption; cbn.
    + intros q i Hi. destruct (Z.eq_dec q p) as [->|N]; [rewrite upd_same in Hi; destruct Hi|].
      rewrite (upd_other _ (s_items s) p _ q N) in Hi. exact (C1 _ _ Hi).
    + intros q pk. destruct (Z.eq_dec q p) as [->|N]; [rewrite upd_same; exact Logic.I|rewrite (upd_other _ (s_items s) p _ q N); apply C2].
    + intros E. rewrite (C5 E). reflexivity.
  - destruct C as [C1 C2 C3 C4 C5]. constructor; assumption.
  - cbn [step]. destruct (s_phase s) eqn:Ep; try exact C. congruence.
  - cbn [step]. destruct (s_phase s) eqn:Ep; try exact C. destruct (s_scan s pk) eqn:Es; [exact C|].
    destruct C as [C1 C2 C3 C4 C5]. rewrite Ep in *. constructor; try assumption; cbn; try discriminate.
    intros k pk' H. destruct (C4 k pk' H) as [D1 D2]. split; [|exact D2]. intros v Ev.
    destruct (Z.eq_dec pk' pk) as [->|N]; [rewrite upd_same in Ev; inv Ev; reflexivity|]. rewrite upd_other in Ev by exact N. exact (D1 _ Ev).
  - cbn [step]. destruct (s_phase s) eqn:Ep; try exact C.
    destruct C as [C1 C2 C3 C4 C5]. rewrite Ep in *. constructor; try assumption; cbn; try discriminate.
    intros k pk H. destruct (C4 k pk H) as [D1 D2]. split; [exact D1|]. intros _.
    destruct (s_scan s pk) as [v|].
    + rewrite <- (D1 v eq_refl). destruct v as [k'|]; [|split; discriminate].
      rewrite Z.eqb_eq. split; [now intros ->|now intros [= ->]].
    + destruct (s_table s pk) as [k'|]; [|split; discriminate].
      rewrite Z.eqb_eq. split; [now intros ->|now intros [= ->]].
  - cbn [step]. destruct (s_phase s) eqn:Ep; try exact C. destruct (s_active s) eqn:Ea; [|exact C].
    destruct C as [C1 C2 C3 C4 C5]. rewrite Ep in *. constructor; try assumption; cbn; try reflexivity.
    intros k pk H. destruct (C4 k pk H) as [D1 D2]. split; [exact D1|]. intros _. apply D2. now left.
Qed.

(** Installation starts with agreement. *)
Lemma install_cnt : forall s, Inv s -> s_phase s = Before -> s_phase (step s OInstall) <> Before -> Cnt (step s OInstall).
Proof.
  intros s I Ep Np. cbn [step] in *. rewrite Ep in *. destruct (s_active s) eqn:Ea; [|congruence].
  assert (Ni : forall p, s_items s p = []).
  { intros p. destruct (s_items s p) eqn:E; [reflexivity|]. exfalso.
    assert (H : In p (s_active s)) by (apply (iv_idle _ I); rewrite E; discriminate). rewrite Ea in H. exact H. }
  assert (Ns : forall p, s_spool s p = []) by (intros p; apply (iv_before _ I Ep)).
  constructor; cbn.
  - intros p it Hi. rewrite Ni in Hi. destruct Hi.
  - intros p pk. rewrite Ni. exact Logic.I.
  - intros k pk m (M & _). unfold logged in M. cbn in M. rewrite Ns in M. destruct M.
  - intros k pk _. split; [discriminate|intros [E|E]; discriminate E].
  - discriminate.
Qed.

Lemma phase_before : forall s o, s_phase s = Before -> o <> OInstall -> s_phase (step s o) = Before.
Proof.
  intros s o E N. destruct o as [p|p pk k|p pk|p pk k|p|p|p| |pk| |]; cbn [step].
  - rewrite E. destruct (_ || _); [exact E|reflexivity].
  - destruct (_ && _); [|exact E]. destruct (s_table s pk); [exact E|]. unfold change. destruct (capturing s); exact E.
  - destruct (_ && _); [|exact E]. destruct (s_table s pk); [|exact E]. unfold change. destruct (capturing s); exact E.
  - destruct (_ && _); [|exact E]. destruct (s_table s pk); [|exact E]. destruct (k =? z); [exact E|]. rewrite E. reflexivity.
  - destruct (isin _ _); [|exact E]. destruct (s_items s p); [exact E|]. exact E.
  - exact E.
  - exact E.
  - congruence.
  - rewrite E. exact E.
  - rewrite E. exact E.
  - rewrite E. exact E.
Qed.

Lemma run_cnt : forall ops s, Inv s -> (s_phase s <> Before -> Cnt s) -> Forall no_key_update ops ->
  s_phase (run step s ops) <> Before -> Cnt (run step s ops).
Proof.
  induction ops as [|o ops IH]; intros s I C F N; [exact (C N)|]. cbn [run fold_left] in *.
  inv F. apply IH; [apply step_inv; exact I| |assumption|exact N].
  intros Nb. assert (D : s_phase s = Before \/ s_phase s <> Before) by (destruct (s_phase s); [now left|right; discriminate ..]).
  destruct D as [Ep|Ep]; [|apply step_cnt; try assumption; exact (C Ep)].
  assert (Eo : o = OInstall).
  { assert (Do : o = OInstall \/ o <> OInstall) by (destruct o; try (right; discriminate); now left).
    destruct Do as [|No]; [assumption|]. exfalso. apply Nb. apply phase_before; assumption. }
  subst o. apply install_cnt; assumption.
Qed.

Lemma run_inv_all : forall ops s, Inv s -> Inv (run step s ops).
Proof. induction ops as [|o ops IH]; intros s I; [exact I|]. cbn. apply IH. apply step_inv. exact I. Qed.

(** ** Putting them together *)

Lemma merged_merges : forall s dir, merges (map (s_spool s) dir) (map fst (merged s dir)).
Proof.
  intros s dir. unfold merged.
  assert (E : map content (open_reader s dir) = map (s_spool s) dir).
  { unfold open_reader. rewrite map_map. apply map_ext. reflexivity. }
  rewrite <- E. apply read_all_merges. rewrite E. reflexivity.
Qed.

Lemma merged_in : forall s dir, Inv s -> listing s dir ->
  forall x, In x (map fst (merged s dir)) <-> logged s x.
Proof.
  intros s dir I [_ L] x. rewrite (merges_in _ _ (merged_merges s dir)). unfold logged. split.
  - intros (l & Hl & Hx). apply in_map_iff in Hl. destruct Hl as (p & <- & _).
    destruct (iv_file _ I _ _ Hx) as (-> & _). exact Hx.
  - intros H. exists (s_spool s (e_p x)). split; [|exact H]. apply in_map. apply L. intros E. rewrite E in H. exact H.
Qed.

Lemma merged_ordered : forall s dir, Inv s -> listing s dir -> ordered (map fst (merged s dir)).
Proof.
  intros s dir I [ND L].
  apply (merges_ordered (logged s) (iv_log _ I) _ _ (merged_merges s dir) dir (fun _ => False)).
  - now rewrite map_length.
  - exact ND.
  - intros i l p Hl Hp. rewrite nth_error_map, Hp in Hl. cbn in Hl. inv Hl.
    apply Forall_forall. intros x Hx. apply (iv_file _ I _ _ Hx).
  - apply Forall_forall. intros l Hl. apply in_map_iff in Hl. destruct Hl as (p & <- & _). apply (iv_up _ I).
  - intros x. rewrite <- (merged_in s dir I (conj ND L) x). rewrite (merges_in _ _ (merged_merges s dir)).
    split; [intros H; now right|intros [[]|H]; exact H].
  - intros o [].
Qed.

Lemma newest_exists : forall l k pk, (forall y, In y l -> e_ent y <> (k, pk))
  \/ exists m, In m l /\ e_ent m = (k, pk) /\ forall y, In y l -> e_ent y = (k, pk) -> e_id y <= e_id m.
Proof.
  induction l as [|x l IH]; intros k pk; [left; intros ? []|].
  assert (D : e_ent x = (k, pk) \/ e_ent x <> (k, pk)).
  { destruct (e_ent x) as [a b]. destruct (Z.eq_dec a k), (Z.eq_dec b pk); [left; congruence|right; congruence ..]. }
  destruct (IH k pk) as [N|(m & M1 & M2 & M3)].
  - destruct D as [D|D].
    + right. exists x. split; [now left|]. split; [exact D|]. intros y [<-|Hy] E; [lia|elim (N _ Hy E)].
    + left. intros y [<-|Hy]; [exact D|exact (N _ Hy)].
  - right. destruct D as [D|D].
    + destruct (Z_le_gt_dec (e_id x) (e_id m)).
      * exists m. split; [now right|]. split; [exact M2|]. intros y [<-|Hy] E; [lia|exact (M3 _ Hy E)].
      * exists x. split; [now left|]. split; [exact D|]. intros y [<-|Hy] E; [lia|]. specialize (M3 _ Hy E). lia.
    + exists m. split; [now right|]. split; [exact M2|]. intros y [<-|Hy] E; [congruence|exact (M3 _ Hy E)].
Qed.

Lemma cover_exact : forall table t, (forall k pk, t k pk = true -> table pk = Some k) -> exact table (cover table t).
Proof.
  intros table t H k pk. unfold cover. destruct (table pk) as [k'|] eqn:E.
  - rewrite orb_true_iff, Z.eqb_eq. split.
    + intros [->|Ht]; [reflexivity|]. specialize (H _ _ Ht). congruence.
    + intros [= ->]. now left.
  - split; [|discriminate]. intros Ht. specialize (H _ _ Ht). congruence.
Qed.

Lemma finished_own_exact : forall s dir, Inv s -> Cnt s -> s_phase s = Locked -> listing s dir ->
  exact (s_table s) (finished_own s dir).
Proof.
  intros s dir I C Ph L. unfold finished_own. apply cover_exact. intros k pk.
  change (fun x : entry * ent => (e_op (fst x), e_ent (fst x))) with (fun x : entry * ent => own (fst x)).
  rewrite <- (map_map fst own). pose proof (merged_ordered s dir I L) as O. pose proof (merged_in s dir I L) as MI.
  set (out := map fst (merged s dir)) in *.
  destruct (newest_exists out k pk) as [N|(m & M1 & M2 & M3)].
  - rewrite replay_none.
    + destruct (cn_none _ C k pk) as [_ D]; [intros y Hy; apply N; now apply MI|]. apply D. now right.
    + intros x Hx. apply in_map_iff in Hx. destruct Hx as (y & <- & Hy). exact (N _ Hy).
  - rewrite (replay_last out _ k pk m O M1 M2 M3). apply (cn_last _ C). split; [now apply MI|]. split; [exact M2|].
    intros y Hy. apply M3. now apply MI.
Qed.

(** ** One spool file *)

Definition blank (x : stream) : Prop := x = (None, []).

Lemma peek_all_blank : forall ss buf, Forall blank ss -> peek_all ss buf = (ss, buf).
Proof.
  induction ss as [|x ss IH]; intros buf F; [reflexivity|]. inv F. unfold blank in *. subst x. cbn. now rewrite IH.
Qed.

Lemma peek_all_one : forall a e r b buf, Forall blank a -> Forall blank b ->
  peek_all (a ++ (None, e :: r) :: b) buf = (a ++ (Some e, r) :: b, e_ent e).
Proof.
  induction a as [|x a IH]; intros e r b buf Fa Fb; cbn.
  - now rewrite (peek_all_blank b _ Fb).
  - inv Fa. unfold blank in *. subst x. cbn. now rewrite IH.
Qed.

Lemma best_blank : forall ss i cur, Forall blank ss -> best ss i cur = cur.
Proof. induction ss as [|x ss IH]; intros i cur F; [reflexivity|]. inv F. unfold blank in *. subst x. cbn. now apply IH. Qed.

Lemma best_one : forall a e r b i, Forall blank a -> Forall blank b ->
  best (a ++ (Some e, r) :: b) i None = Some ((i + length a)%nat, e).
Proof.
  induction a as [|x a IH]; intros e r b i Fa Fb; cbn.
  - rewrite best_blank by exact Fb. now rewrite Nat.add_0_r.
  - inv Fa. unfold blank in *. subst x. cbn. rewrite IH by assumption. f_equal. f_equal. lia.
Qed.

Lemma read_one : forall n a r b buf, Forall blank a -> Forall blank b ->
  Forall (fun x => snd x = e_ent (fst x)) (read_all n (a ++ (None, r) :: b) buf).
Proof.
  induction n as [|n IH]; intros a r b buf Fa Fb; cbn [read_all]; [constructor|].
  destruct r as [|e r].
  - rewrite peek_all_blank by (apply Forall_app; split; [exact Fa|constructor; [reflexivity|exact Fb]]).
    rewrite best_blank by (apply Forall_app; split; [exact Fa|constructor; [reflexivity|exact Fb]]). constructor.
  - rewrite peek_all_one by assumption. rewrite best_one by assumption. cbn [Nat.add].
    constructor; [reflexivity|]. rewrite drop_peek_app. apply IH; assumption.
Qed.

Lemma one_writer_own : forall s dir, listing s dir -> one_writer s ->
  Forall (fun x => snd x = e_ent (fst x)) (merged s dir).
Proof.
  intros s dir [ND L] W. unfold merged.
  assert (D : (forall p, In p dir -> s_spool s p = []) \/ exists p, In p dir /\ s_spool s p <> []).
  { clear. induction dir as [|q dir IH]; [left; intros ? []|].
    destruct (s_spool s q) eqn:E; [|right; exists q; split; [now left|congruence]].
    destruct IH as [IH|(p & Hp & Np)]; [left; intros p [<-|Hp]; [exact E|exact (IH _ Hp)]|right; exists p; split; [now right|exact Np]]. }
  destruct D as [D|(p & Hp & Np)].
  - assert (Z : total s dir = 0%nat).
    { unfold total. assert (E : concat (map (s_spool s) dir) = []).
      { clear ND L. induction dir as [|q dir IH]; [reflexivity|]. cbn. rewrite (D q (or_introl eq_refl)). apply IH. intros p Hp. apply D. now right. }
      rewrite E. reflexivity. }
    rewrite Z. constructor.
  - apply in_split in Hp. destruct Hp as (a & b & ->). unfold open_reader. rewrite map_app. cbn [map].
    apply NoDup_remove_2 in ND.
    assert (B : forall q, In q (a ++ b) -> blank (None, s_spool s q)).
    { intros q Hq. unfold blank. destruct (s_spool s q) eqn:E; [reflexivity|]. exfalso.
      apply ND. assert (q = p) by (apply W; [congruence|exact Np]). congruence. }
    apply read_one; apply Forall_forall; intros x Hx; apply in_map_iff in Hx; destruct Hx as (q & <- & Hq); apply B; apply in_or_app; [now left|now right].
Qed.

Lemma finished_one : forall s dir, listing s dir -> one_writer s -> finished s dir = finished_own s dir.
Proof.
  intros s dir L W. unfold finished, finished_own. f_equal. f_equal.
  apply map_ext_in. intros x Hx. pose proof (one_writer_own s dir L W) as F. rewrite Forall_forall in F. now rewrite (F _ Hx).
Qed.

(** ** Unique validation *)

Lemma pair_check_true : forall a b, length a = length b -> fst (pair_check a b) = true ->
  a = b /\ Forall (fun x => x <> None) a.
Proof.
  induction a as [|x a IH]; intros [|y b] L E; cbn in *; try discriminate L; [split; [reflexivity|constructor]|].
  destruct x as [u|], y as [v|]; cbn in E; try discriminate E.
  destruct (Z.eqb_spec u v) as [->|]; [|discriminate E].
  destruct (IH b ltac:(lia) E) as [-> F]. split; [reflexivity|]. constructor; [discriminate|exact F].
Qed.

Lemma pair_check_refl : forall a, Forall (fun x => x <> None) a -> pair_check a a = (true, false).
Proof.
  induction a as [|x a IH]; intros F; [reflexivity|]. inv F. destruct x as [u|]; [|congruence]. cbn. rewrite Z.eqb_refl. now apply IH.
Qed.

Lemma key_le_trans : forall a b c, key_le a b -> key_le b c -> key_le a c.
Proof.
  induction a as [|x a IH]; intros b c H1 H2; [exact Logic.I|].
  destruct b as [|y b]; [destruct H1|]. destruct c as [|z c]; [destruct H2|]. cbn in *.
  destruct x as [u|], y as [v|], z as [w|]; try contradiction; try exact Logic.I.
  - destruct H1 as [H1|[-> H1]], H2 as [H2|[-> H2]]; [left; lia|left; lia|left; lia|right; split; [reflexivity|exact (IH _ _ H1 H2)]].
  - exact (IH _ _ H1 H2).
Qed.

Lemma key_le_antisym : forall a b, key_le a b -> key_le b a -> a = b.
Proof.
  induction a as [|x a IH]; intros [|y b] H1 H2; cbn in *; try contradiction; [reflexivity|].
  destruct x as [u|], y as [v|]; try contradiction.
  - destruct H1 as [H1|[-> H1]], H2 as [H2|[E H2]]; try lia. f_equal. exact (IH _ H1 H2).
  - f_equal. exact (IH _ H1 H2).
Qed.

Lemma order_tail : forall x l, in_key_order (x :: l) -> in_key_order l.
Proof. intros x [|y l] H; [exact Logic.I|]. apply H. Qed.

Lemma order_first : forall l x, in_key_order (x :: l) -> forall y, In y l -> key_le x y.
Proof.
  induction l as [|z l IH]; intros x H y Hy; [destruct Hy|].
  cbn [in_key_order] in H. destruct H as [H1 H2]. destruct Hy as [<-|Hy]; [exact H1|].
  apply key_le_trans with z; [exact H1|]. apply IH; assumption.
Qed.

Lemma validate_sound : forall l prev n, Forall (fun a => length a = n) l -> (forall a, prev = Some a -> length a = n) ->
  in_key_order (match prev with Some a => a :: l | None => l end) ->
  (validate false prev l = true <-> ~ has_duplicate false (match prev with Some a => a :: l | None => l end)).
Proof.
  induction l as [|b l IH]; intros prev n Fl Fp O.
  - cbn. split; [intros _|reflexivity]. intros (l1 & a & l2 & c & l3 & E & _).
    destruct prev as [p|].
    + destruct l1 as [|? [|? ?]]; [inv E; destruct l2; discriminate|inv E|inv E].
    + destruct l1; discriminate E.
  - inv Fl. destruct prev as [a|].
    + cbn [validate]. destruct (pair_check a b) as [eq nul] eqn:Pc. rewrite andb_false_r, orb_false_r.
      pose proof (Fp _ eq_refl) as La.
      destruct eq.
      * split; [discriminate|]. intros H. exfalso. apply H.
        destruct (pair_check_true a b ltac:(congruence)) as [-> Fn]; [now rewrite Pc|].
        exists [], b, [], b, l. split; [reflexivity|]. split; [reflexivity|now intros _].
      * rewrite (IH (Some b) (length b)); [|assumption|intros a' E; now inv E|exact (order_tail _ _ O)].
        split; intros H D; apply H; clear H.
        -- destruct D as (l1 & x & l2 & y & l3 & E & S). destruct l1 as [|z l1].
           ++ cbn in E. injection E as Ea El. subst x. destruct S as [<- Fn].
              (* the first element is a duplicate: then the second one equals it *)
              destruct l2 as [|w l2]; cbn in El; injection El as Eb El'; subst b l.
              ** exfalso. rewrite pair_check_refl in Pc by (now apply Fn). discriminate Pc.
              ** exfalso. assert (Ew : a = w).
                 { apply key_le_antisym; [apply (order_first _ _ O); now left|].
                   apply order_tail in O. apply (order_first _ _ O). apply in_or_app. right. now left. }
                 rewrite <- Ew in Pc. rewrite pair_check_refl in Pc by (now apply Fn). discriminate Pc.
           ++ cbn in E. inv E. exists l1, x, l2, y, l3. split; [assumption|exact S].
        -- destruct D as (l1 & x & l2 & y & l3 & E & S). exists (a :: l1), x, l2, y, l3. split; [cbn; now rewrite E|exact S].
    + cbn [validate]. apply (IH (Some b) (length b)); [assumption|intros a' E; now inv E|exact O].
Qed.

Lemma ordered_kept : forall l, ordered l -> kept_in_order l.
Proof.
  induction l as [|z l IH]; intros O l1 x l2 y l3 E Ee.
  - destruct l1; discriminate E.
  - destruct O as [O1 O2]. destruct l1 as [|w l1]; cbn in E; inv E.
    + apply O1; [|exact Ee]. apply in_or_app. right. now left.
    + exact (IH O2 l1 x l2 y l3 eq_refl Ee).
Qed.

Lemma merges_perm : forall ls out, merges ls out -> Permutation (concat ls) out.
Proof.
  induction 1 as [ls F|a e r b out H M IH].
  - assert (E : concat ls = []); [|rewrite E; constructor].
    induction ls as [|l ls IH]; [reflexivity|]. inv F. cbn. now apply IH.
  - rewrite concat_app in *. cbn [concat] in *. cbn [app]. rewrite <- IH. symmetry. apply Permutation_middle.
Qed.

(** Only backends that act have spool files. *)
Definition actors (ps : list Z) (o : op) : Prop :=
  match o with OInsert p _ _ | ODelete p _ | OUndo p => In p ps | _ => True end.

Lemma spool_only_step : forall ps s o, (forall p, s_spool s p <> [] -> In p ps) -> actors ps o ->
  forall p, s_spool (step s o) p <> [] -> In p ps.
Proof.
  intros ps s o H A q.
  assert (G : forall p l, In p ps -> upd (s_spool s) p l q <> [] -> In q ps).
  { intros p l Hp. destruct (Z.eq_dec q p) as [->|N]; [now intros _|rewrite upd_other by exact N; apply H]. }
  destruct o as [p|p pk k|p pk|p pk k|p|p|p| |pk| |]; cbn [step]; cbn in A.
  - destruct (s_phase s); try apply H; destruct (_ || _); apply H.
  - destruct (_ && _); [|apply H]. destruct (s_table s pk); [apply H|]. unfold change. destruct (capturing s); [apply G; exact A|apply H].
  - destruct (_ && _); [|apply H]. destruct (s_table s pk); [|apply H]. unfold change. destruct (capturing s); [apply G; exact A|apply H].
  - destruct (_ && _); [|apply H]. destruct (s_table s pk); [|apply H]. destruct (k =? z); [apply H|].
    destruct (s_phase s); try apply H. destruct (s_tree s z pk); apply H.
  - destruct (isin _ _); [|apply H]. destruct (s_items s p); [apply H|]. apply G. exact A.
  - apply H.
  - apply H.
  - destruct (s_phase s); try apply H. destruct (s_active s); apply H.
  - destruct (s_phase s); try apply H. destruct (s_scan s pk); apply H.
  - destruct (s_phase s); apply H.
  - destruct (s_phase s); try apply H. destruct (s_active s); apply H.
Qed.

Lemma spool_only : forall ps ops s, (forall p, s_spool s p <> [] -> In p ps) -> Forall (actors ps) ops ->
  forall p, s_spool (run step s ops) p <> [] -> In p ps.
Proof.
  intros ps. induction ops as [|o ops IH]; intros s H F; [exact H|]. cbn [run fold_left]. inv F.
  apply IH; [|assumption]. apply spool_only_step; assumption.
Qed.
