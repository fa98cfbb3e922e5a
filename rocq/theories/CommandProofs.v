From Coq Require Import ZArith List Bool Lia.
From Coq Require Import ZifyBool ZifyNat ZifyN.
From Verif Require Import Base CommandModel CommandSpec.
Import ListNotations.
Open Scope Z_scope.

Definition locn (infos : list cinfo) (i : nat) : Z := snd (nth i infos (0, 0)).
Definition cidn (infos : list cinfo) (i : nat) : Z := fst (nth i infos (0, 0)).
Definition sorted (infos : list cinfo) : Prop :=
  forall i j, (i < j < length infos)%nat -> locn infos i < locn infos j.

Lemma search_ok : forall fuel infos lo hi loc, sorted infos ->
  (hi - lo <= fuel)%nat -> (lo <= hi <= length infos)%nat ->
  (forall i, (i < lo)%nat -> locn infos i <= loc) ->
  (forall i, (hi <= i < length infos)%nat -> loc < locn infos i) ->
  let r := cmd_search fuel infos lo hi loc in
  (lo <= r <= hi)%nat /\ (forall i, (i < r)%nat -> locn infos i <= loc) /\
  (forall i, (r <= i < length infos)%nat -> loc < locn infos i).
Proof.
  induction fuel as [|f IH]; intros infos lo hi loc Hs Hf Hb H1 H2; cbn [cmd_search].
  - cbv zeta. assert (lo = hi) by lia. subst. repeat split; auto; lia.
  - destruct (Nat.ltb_spec lo hi) as [E|E].
    + set (mid := (lo + (hi - lo) / 2)%nat).
      assert (Hm : (lo <= mid < hi)%nat).
      { unfold mid. assert ((hi - lo) / 2 < hi - lo)%nat by (apply Nat.div_lt; lia). lia. }
      fold (locn infos mid).
      destruct (Z.leb_spec (locn infos mid) loc) as [L|L].
      * destruct (IH infos (S mid) hi loc) as [A [B C]]; auto; try lia.
        -- intros i Hi. destruct (Nat.eq_dec i mid) as [->|]; [exact L|].
           assert (locn infos i < locn infos mid) by (apply Hs; lia). lia.
        -- cbv zeta. repeat split; auto; lia.
      * destruct (IH infos lo mid loc) as [A [B C]]; auto; try lia.
        -- intros i Hi. destruct (Nat.eq_dec i mid) as [->|]; [exact L|].
           assert (locn infos mid < locn infos i) by (apply Hs; lia). lia.
        -- cbv zeta. repeat split; auto; lia.
    + cbv zeta. assert (lo = hi) by lia. subst. repeat split; auto; lia.
Qed.

(** Entry k is the one in force at [loc]. *)
Definition at_entry (infos : list cinfo) (loc c : Z) : Prop :=
  exists k, (k < length infos)%nat /\ cidn infos k = c /\ locn infos k <= loc /\
            forall i, (k < i < length infos)%nat -> loc < locn infos i.

Lemma get_command_ok : forall infos loc c, sorted infos -> at_entry infos loc c ->
  get_command infos loc = Some c.
Proof.
  intros infos loc c Hs [k [Hk [Hc [Hl Hn]]]]. unfold get_command.
  destruct (search_ok (length infos) infos 0 (length infos) loc) as [A [B C]]; auto; try lia.
  set (r := cmd_search _ _ _ _ _) in *.
  assert (E : r = S k).
  { destruct (Nat.lt_trichotomy r (S k)) as [L|[L|L]]; [|exact L|].
    - specialize (C k). lia.
    - specialize (B (S k) ltac:(lia)). specialize (Hn (S k)). lia. }
  rewrite E. fold (cidn infos k). rewrite Hc. reflexivity.
Qed.

Record CI (s : cst) : Prop := mkCI {
  ci_sorted : sorted (c_infos s);
  ci_lt : forall i, (i < length (c_infos s))%nat -> locn (c_infos s) i < c_last s;
  ci_ver : forall loc c, In (loc, c) (c_ver s) -> c <> invalid_cid -> at_entry (c_infos s) loc c;
  ci_vlt : forall loc c, In (loc, c) (c_ver s) -> loc < c_last s
}.

Lemma locn_app1 : forall infos x i, (i < length infos)%nat -> locn (infos ++ [x]) i = locn infos i.
Proof. intros. unfold locn. rewrite app_nth1; auto. Qed.
Lemma locn_app2 : forall infos x, locn (infos ++ [x]) (length infos) = snd x.
Proof. intros. unfold locn. rewrite app_nth2, Nat.sub_diag; auto. Qed.
Lemma cidn_app1 : forall infos x i, (i < length infos)%nat -> cidn (infos ++ [x]) i = cidn infos i.
Proof. intros. unfold cidn. rewrite app_nth1; auto. Qed.
Lemma cidn_app2 : forall infos x, cidn (infos ++ [x]) (length infos) = fst x.
Proof. intros. unfold cidn. rewrite app_nth2, Nat.sub_diag; auto. Qed.

Lemma last_cid_some : forall infos c, last_cid infos = Some c ->
  exists k, length infos = S k /\ cidn infos k = c.
Proof.
  intros infos c H. unfold last_cid in H. destruct (rev infos) as [|[c' l] r] eqn:E; [discriminate|].
  injection H as <-. assert (E2 : infos = rev r ++ [(c', l)]).
  { rewrite <- (rev_involutive infos), E. reflexivity. }
  exists (length (rev r)). rewrite E2. split; [rewrite app_length; cbn; lia|]. apply cidn_app2.
Qed.

Lemma last_cid_none : forall infos, last_cid infos = None -> infos = [].
Proof.
  intros infos H. unfold last_cid in H. destruct (rev infos) as [|[c' l] r] eqn:E; [|discriminate].
  rewrite <- (rev_involutive infos), E. reflexivity.
Qed.

(** Appending or reusing an entry for a location not below any used one. *)
Lemma update_cmd_ok : forall infos cid loc,
  sorted infos -> (forall i, (i < length infos)%nat -> locn infos i < loc) ->
  sorted (update_cmd infos cid loc) /\
  (forall i, (i < length (update_cmd infos cid loc))%nat -> locn (update_cmd infos cid loc) i <= loc) /\
  (forall l, loc <= l -> at_entry (update_cmd infos cid loc) l cid) /\
  (forall l c, l < loc -> at_entry infos l c -> at_entry (update_cmd infos cid loc) l c).
Proof.
  intros infos cid loc Hs Hlt.
  assert (App : sorted (infos ++ [(cid, loc)]) /\
     (forall i, (i < length (infos ++ [(cid, loc)]))%nat -> locn (infos ++ [(cid, loc)]) i <= loc) /\
     (forall l, loc <= l -> at_entry (infos ++ [(cid, loc)]) l cid) /\
     (forall l c, l < loc -> at_entry infos l c -> at_entry (infos ++ [(cid, loc)]) l c)).
  { assert (HL : length (infos ++ [(cid, loc)]) = S (length infos)) by (rewrite app_length; cbn; lia).
    rewrite HL. repeat split.
    - intros i j. rewrite HL. intros Hij. rewrite locn_app1 by lia.
      destruct (Nat.eq_dec j (length infos)) as [->|]; [rewrite locn_app2; apply Hlt; lia|].
      rewrite locn_app1 by lia. apply Hs. lia.
    - intros i Hi. destruct (Nat.eq_dec i (length infos)) as [->|]; [rewrite locn_app2; cbn; lia|].
      rewrite locn_app1 by lia. specialize (Hlt i). lia.
    - intros l Hl. exists (length infos). rewrite HL, cidn_app2, locn_app2. cbn. repeat split; try lia.
    - intros l c Hl [k [Hk [Hc [H1 H2]]]]. exists k. rewrite HL, cidn_app1, locn_app1 by lia.
      repeat split; auto; try lia. intros i Hi.
      destruct (Nat.eq_dec i (length infos)) as [->|]; [rewrite locn_app2; exact Hl|].
      rewrite locn_app1 by lia. apply H2. lia. }
  unfold update_cmd. destruct (last_cid infos) as [c|] eqn:E; [|exact App].
  destruct (Z.eqb_spec c cid) as [->|]; [|exact App].
  destruct (last_cid_some _ _ E) as [k [HL Hc]].
  repeat split; auto.
  - intros i Hi. specialize (Hlt i Hi). lia.
  - intros l Hl. exists k. repeat split; auto; try lia. specialize (Hlt k). lia.
Qed.

Lemma CI_init : forall l, CI (cinit l).
Proof.
  intros. constructor; cbn [cinit c_infos c_ver c_last length].
  - intros i j H. cbn in H. lia.
  - intros i H. lia.
  - intros ? ? [].
  - intros ? ? [].
Qed.

Lemma at_entry_cur : forall infos c, last_cid infos = Some c -> forall l, locn infos (length infos - 1) <= l ->
  at_entry infos l c.
Proof.
  intros infos c E l Hl. destruct (last_cid_some _ _ E) as [k [HL Hc]]. exists k. rewrite HL in *.
  replace (S k - 1)%nat with k in Hl by lia. repeat split; auto; lia.
Qed.

Lemma last_locn : forall infos : list cinfo, snd (last infos (0, 0)) = locn infos (length infos - 1).
Proof.
  intros. unfold locn. f_equal. induction infos as [|a [|b r] IH]; auto.
  change (last (a :: b :: r) (0, 0)) with (last (b :: r) (0, 0)). rewrite IH. cbn [length].
  replace (S (S (length r)) - 1)%nat with (S (S (length r) - 1)) by lia. reflexivity.
Qed.

(** The location current_command_get_undo_location returns, from any good state. *)
Lemma cur_cmd_location_ok : forall s size infos loc l, CI s -> 0 < size ->
  cur_cmd_location s size = (infos, loc, l) ->
  CI (mkCst infos (c_cur s) l (c_ver s)) /\ loc < l /\ at_entry infos loc (c_cur s).
Proof.
  intros s size infos loc l [Hs Hlt Hv Hvl] Hz E.
  assert (U := update_cmd_ok (c_infos s) (c_cur s) (c_last s) Hs Hlt). destruct U as [U1 [U2 [U3 U4]]].
  assert (New : (update_cmd (c_infos s) (c_cur s) (c_last s), c_last s, c_last s + size) = (infos, loc, l) ->
     CI (mkCst infos (c_cur s) l (c_ver s)) /\ loc < l /\ at_entry infos loc (c_cur s)).
  { intros [= <- <- <-]. split; [|split; [lia|apply U3; lia]].
    constructor; cbn; auto.
    - intros i Hi. specialize (U2 i Hi). lia.
    - intros l0 c Hin Hc. apply U4; eauto.
    - intros l0 c Hin. specialize (Hvl _ _ Hin). lia. }
  unfold cur_cmd_location in E. destruct (last_cid (c_infos s)) as [c|] eqn:Ec; [|auto].
  destruct (Z.eqb_spec c (c_cur s)) as [->|]; [|auto].
  injection E as <- <- <-. split; [constructor; auto|].
  rewrite last_locn. split.
  - destruct (last_cid_some _ _ Ec) as [k [HL _]]. apply Hlt. lia.
  - apply at_entry_cur; [exact Ec|lia].
Qed.

Lemma CI_add : forall s loc c, CI s -> loc < c_last s ->
  (c <> invalid_cid -> at_entry (c_infos s) loc c) ->
  CI (mkCst (c_infos s) (c_cur s) (c_last s) ((loc, c) :: c_ver s)).
Proof.
  intros s loc c [Hs Hlt Hv Hvl] Hl Hc. constructor; cbn; auto.
  - intros l0 c0 [[= <- <-]|Hin]; auto.
  - intros l0 c0 [[= <- <-]|Hin]; auto. eauto.
Qed.

Lemma make_record_ok : forall s size off s1 loc, CI s -> 0 <= off -> off < size ->
  make_record s size off = (s1, loc) ->
  CI s1 /\ loc < c_last s1 /\ c_cur s1 = c_cur s /\ c_ver s1 = c_ver s /\
  (c_cur s <> invalid_cid -> at_entry (c_infos s1) loc (c_cur s)).
Proof.
  intros s size off s1 loc [Hs Hlt Hv Hvl] H1 H2 [= <- <-]. cbn.
  assert (Hlt' : forall i, (i < length (c_infos s))%nat -> locn (c_infos s) i < c_last s + off)
    by (intros i Hi; specialize (Hlt i Hi); lia).
  destruct (update_cmd_ok (c_infos s) (c_cur s) (c_last s + off) Hs Hlt') as [U1 [U2 [U3 U4]]].
  split; [|split; [lia|split; [reflexivity|split; [reflexivity|]]]].
  - destruct (Z.eqb_spec (c_cur s) invalid_cid) as [E|E]; constructor; cbn; auto.
    + intros i Hi. specialize (Hlt i Hi). lia.
    + intros l0 c Hin. specialize (Hvl _ _ Hin). lia.
    + intros i Hi. specialize (U2 i Hi). lia.
    + intros l0 c Hin Hc. apply U4; eauto. specialize (Hvl _ _ Hin). lia.
    + intros l0 c Hin. specialize (Hvl _ _ Hin). lia.
  - intros Hc. destruct (Z.eqb_spec (c_cur s) invalid_cid) as [E|E]; [contradiction|]. apply U3. lia.
Qed.

Lemma CI_step : forall s o, CI s -> CI (cstep s o).
Proof.
  intros s o H. pose proof H as [Hs Hlt Hv Hvl]. destruct o; cbn [cstep].
  - constructor; auto.
  - destruct (0 <? size) eqn:E; [|auto]. constructor; cbn; auto.
    + intros i Hi. specialize (Hlt i Hi). lia.
    + intros l c Hin. specialize (Hvl _ _ Hin). lia.
  - destruct ((0 <=? off) && (off <? size)) eqn:E; [|auto].
    destruct (make_record s size off) as [s1 loc] eqn:Em.
    destruct (make_record_ok s size off s1 loc H ltac:(lia) ltac:(lia) Em) as [H1 [H2 [H3 [H4 H5]]]].
    rewrite <- H3. apply CI_add; auto. rewrite H3. auto.
  - destruct ((0 <=? off) && (off <? size)) eqn:E; [|auto].
    destruct (make_record s size off) as [s1 loc] eqn:Em.
    destruct (make_record_ok s size off s1 loc H ltac:(lia) ltac:(lia) Em) as [H1 [H2 [H3 [H4 H5]]]].
    destruct (cur_cmd_location s1 size) as [[infos l0] l] eqn:Ec.
    destruct (cur_cmd_location_ok s1 size infos l0 l H1 ltac:(lia) Ec) as [K1 [K2 K3]].
    rewrite <- H3. apply (CI_add _ l0 (c_cur s1) K1 K2). auto.
  - destruct (0 <? size) eqn:E; [|auto].
    destruct (cur_cmd_location s size) as [[infos l0] l] eqn:Ec.
    destruct (cur_cmd_location_ok s size infos l0 l H ltac:(lia) Ec) as [K1 [K2 K3]].
    apply (CI_add _ l0 (c_cur s) K1 K2). auto.
  - destruct (0 <? size) eqn:E; [|auto].
    destruct (update_cmd_ok (c_infos s) (c_cur s) (c_last s) Hs Hlt) as [U1 [U2 [U3 U4]]].
    assert (K : CI (mkCst (update_cmd (c_infos s) (c_cur s) (c_last s)) (c_cur s) (c_last s + size) (c_ver s))).
    { constructor; cbn; auto.
      - intros i Hi. specialize (U2 i Hi). lia.
      - intros l0 c Hin Hc. apply U4; eauto.
      - intros l0 c Hin. specialize (Hvl _ _ Hin). lia. }
    apply (CI_add _ (c_last s) (c_cur s) K); cbn; [lia|]. intros _. apply U3. lia.
Qed.

Lemma CI_run : forall ops l, CI (run cstep (cinit l) ops).
Proof. intros. apply (run_inv _ _ cstep CI); [intros; apply CI_step; auto|apply CI_init]. Qed.

Lemma ver_writers : forall ops s,
  map snd (c_ver (run cstep s ops)) = rev (writers (c_cur s) ops) ++ map snd (c_ver s).
Proof.
  induction ops as [|o r IH]; intros s; [reflexivity|].
  change (run cstep s (o :: r)) with (run cstep (cstep s o) r). rewrite IH.
  assert (Step : forall s', c_cur s' = c_cur s -> c_ver s' = c_ver s ->
     rev (writers (c_cur s') r) ++ map snd (c_ver s') = rev (writers (c_cur s) r) ++ map snd (c_ver s))
    by (intros s' -> ->; reflexivity).
  destruct o; cbn [cstep writers]; auto.
  - destruct (0 <? size); auto.
  - unfold make_record. destruct ((0 <=? off) && (off <? size)); cbn; auto.
    rewrite <- app_assoc. reflexivity.
  - unfold make_record. destruct ((0 <=? off) && (off <? size)); cbn; auto.
    destruct (cur_cmd_location _ size) as [[infos l0] l]. cbn. rewrite <- app_assoc. reflexivity.
  - destruct (0 <? size); cbn; auto.
    destruct (cur_cmd_location _ size) as [[infos l0] l]. cbn. rewrite <- app_assoc. reflexivity.
  - destruct (0 <? size); cbn; auto. rewrite <- app_assoc. reflexivity.
Qed.

Lemma lookup_all : forall ops l,
  let s := run cstep (cinit l) ops in
  Forall2 (fun loc c => c <> invalid_cid -> get_command (c_infos s) loc = Some c)
          (map fst (c_ver s)) (rev (writers 0 ops)).
Proof.
  intros ops l s. assert (H := CI_run ops l). fold s in H.
  assert (E : rev (writers 0 ops) = map snd (c_ver s)).
  { unfold s. rewrite ver_writers. cbn. rewrite app_nil_r. reflexivity. }
  rewrite E. destruct H as [Hs _ Hv _]. revert Hv. generalize (c_ver s).
  induction l0 as [|[loc c] r IH]; intros Hv; constructor.
  - cbn. intros Hc. apply get_command_ok; [exact Hs|]. apply Hv; auto. left. reflexivity.
  - apply IH. intros. apply Hv; auto. right. assumption.
Qed.
