(** The account of the keys: read, held by a worker, queued in the array,
    or not handed out yet. *)
From Coq Require Import ZArith List Bool Lia ZifyBool Permutation.
From Verif Require Import Base ParScanModel ParScanSpec ParScanProofs ParScanStepProofs.
Import ListNotations.
Open Scope Z_scope.

Ltac sumsH E :=
  repeat match goal with
  | |- context [sumf (held ?k) (set_nth ?l ?w ?v)] =>
      rewrite (sumf_set (held k) l w v) by (rewrite E; discriminate)
  end; try rewrite E.

Lemma look_total : forall s w k, Inv s -> worker s w = Idle -> total (look s w) k = total s k.
Proof.
  intros s w k [V L X W] E. openS s. unfold worker in E.
  unfold total, remain, queued, F in *.
  cbn [s_a s_b s_cur s_first s_single s_writers s_arr s_ix s_sorted s_ws s_read] in *.
  unfold look. cbn [s_single s_cur].
  destruct si; [cbn; sumsH E; cbn; lia|]. specialize (V eq_refl).
  assert (G : forall x y, get (mkSt sa sb c fi false wr ar ix so ws rd) c = x ->
              get (mkSt sa sb c fi false wr ar ix so ws rd) (negb c) = y ->
              shape fi x y -> True) by auto. clear G.
  destruct c; cbn [negb] in *; unfold get in V |- *; cbn [s_a s_b] in V |- *.
  - destruct sb as [|p|st lm pv t hi].
    + destruct fi; cbn in V; subst sa; cbn; sumsH E; cbn; unfold inr; cbn; lia.
    + reflexivity.
    + destruct fi; cbn in V; [|contradiction]. destruct V as [V1 V2].
      assert (T : forall lo d rest, t = Items lo d rest ->
         inr lo hi k = inr lo (next_key rest hi) k + from (advance rest) hi k).
      { intros lo d rest ->. apply tile. apply V1. }
      destruct sa as [|p|st' lm' pv' t' hi'].
      * destruct hi as [h|]; [cbn; sumsH E; cbn; lia|].
        destruct t as [|lo d rest]; cbn; sumsH E; cbn; [lia|].
        specialize (T _ _ _ eq_refl). lia.
      * destruct V2 as [-> V2]. destruct t as [|lo d rest]; cbn; sumsH E; cbn.
        -- destruct hi; [cbn; lia|contradiction].
        -- specialize (T _ _ _ eq_refl). lia.
      * destruct t as [|lo d rest]; cbn; sumsH E; cbn.
        -- lia.
        -- specialize (T _ _ _ eq_refl). lia.
  - destruct sa as [|p|st lm pv t hi].
    + destruct fi; cbn in V; subst sb; cbn; sumsH E; cbn; unfold inr; cbn; lia.
    + reflexivity.
    + destruct fi; cbn in V; [|contradiction]. destruct V as [V1 V2].
      assert (T : forall lo d rest, t = Items lo d rest ->
         inr lo hi k = inr lo (next_key rest hi) k + from (advance rest) hi k).
      { intros lo d rest ->. apply tile. apply V1. }
      destruct sb as [|p|st' lm' pv' t' hi'].
      * destruct hi as [h|]; [cbn; sumsH E; cbn; lia|].
        destruct t as [|lo d rest]; cbn; sumsH E; cbn; [lia|].
        specialize (T _ _ _ eq_refl). lia.
      * destruct V2 as [-> V2]. destruct t as [|lo d rest]; cbn; sumsH E; cbn.
        -- destruct hi; [cbn; lia|contradiction].
        -- specialize (T _ _ _ eq_refl). lia.
      * destruct t as [|lo d rest]; cbn; sumsH E; cbn.
        -- lia.
        -- specialize (T _ _ _ eq_refl). lia.
Qed.

Lemma load_total : forall s w i k, Inv s -> total (step s (Load w i)) k = total s k.
Proof.
  intros s w i k [V L X W]. cbn [step]. destruct (worker s w) as [| b | | | | | |] eqn:E; auto.
  destruct (get s b) as [|prev|] eqn:G; auto.
  destruct (found prev i) eqn:Hf; auto.
  destruct (load prev i) as [v it] eqn:Hl.
  destruct (load_spec prev i v it Hf Hl) as [st [t [-> [OK T]]]]. specialize (T k).
  assert (LB : 1 <= F (f_load b) s).
  { unfold worker in E. pose proof (sumf_nth (f_load b) (s_ws s) w (f_load_nn b)) as P.
    rewrite E in P. cbn in P. rewrite eqb_reflx in P. apply P. discriminate. }
  openS s. unfold worker in E. unfold total, remain, queued, F in *.
  cbn [s_a s_b s_cur s_first s_single s_writers s_arr s_ix s_sorted s_ws s_read] in *.
  assert (LL := L b). destruct si; cbn in LL; [lia|]. specialize (V eq_refl). clear L X W.
  cbn. rewrite times_app. sumsH E. cbn [held].
  destruct c, b; unfold get in *; cbn in G, V |- *; subst.
  - destruct fi, prev as [q|]; cbn in V; try contradiction; subst; cbn in *; lia.
  - destruct fi, sb as [|[q|]|st' lm' pv' t' hi']; cbn in V; try contradiction; try discriminate.
    destruct V as [V1 [V2 V3]]. subst prev. cbn. destruct hi' as [h|]; [|contradiction]. cbn. lia.
  - destruct fi, sa as [|[q|]|st' lm' pv' t' hi']; cbn in V; try contradiction; try discriminate.
    destruct V as [V1 [V2 V3]]. subst prev. cbn. destruct hi' as [h|]; [|contradiction]. cbn. lia.
  - destruct fi, prev as [q|]; cbn in V; try contradiction; subst; cbn in *; lia.
Qed.

Lemma leaf_total : forall s w k, Inv s -> total (step s (LoadLeaf w)) k = total s k.
Proof.
  intros s w k [V L X W]. cbn [step]. destruct (worker s w) as [| b | | | | | |] eqn:E; auto.
  destruct (get s b) as [|[p|]|] eqn:G; auto.
  assert (LB : 1 <= F (f_load b) s).
  { unfold worker in E. pose proof (sumf_nth (f_load b) (s_ws s) w (f_load_nn b)) as P.
    rewrite E in P. cbn in P. rewrite eqb_reflx in P. apply P. discriminate. }
  openS s. unfold worker in E. unfold total, remain, queued, F in *.
  cbn [s_a s_b s_cur s_first s_single s_writers s_arr s_ix s_sorted s_ws s_read] in *.
  assert (LL := L b). destruct si; cbn in LL; [lia|]. specialize (V eq_refl). clear L X W.
  cbn. rewrite times_app. sumsH E. cbn [held times].
  destruct c, b; unfold get in *; cbn in G, V |- *; subst.
  - cbn. unfold inr. lia.
  - destruct fi, sb as [|[q|]|st' lm' pv' t' hi']; cbn in V; try contradiction; try discriminate.
    destruct V as [V1 [V2 V3]]. congruence.
  - destruct fi, sa as [|[q|]|st' lm' pv' t' hi']; cbn in V; try contradiction; try discriminate.
    destruct V as [V1 [V2 V3]]. congruence.
  - cbn. unfold inr. lia.
Qed.

(** Low keys of held downlinks. *)
Definition hold_ok (P : option Z -> option Z -> Prop) (s : state) : Prop :=
  forall d kl lo hi, In (Holding d kl lo hi) (s_ws s) -> P kl lo.

Lemma worker_in : forall s w x, worker s w = x -> x <> Done -> In x (s_ws s).
Proof.
  intros s w x H N. unfold worker in H. subst x.
  destruct (nth_in_or_default w (s_ws s) Done) as [I|I]; [exact I|contradiction].
Qed.

Lemma read_ge : forall s w ok k,
  hold_ok (fun kl lo => kl = None \/ kl = lo) s ->
  total s k <= total (step s (Read w ok)) k.
Proof.
  intros s w ok k H. cbn [step]. destruct (worker s w) as [| | d kl lo hi | | | | |] eqn:E; try lia.
  assert (P := H _ _ _ _ (worker_in s w _ E ltac:(discriminate))).
  assert (Q : inr lo hi k <= inr kl hi k).
  { destruct P as [-> | ->]; [apply inr_wider|lia]. }
  openS s. unfold worker in E. unfold total, remain, queued, F, get in *. cbn in E.
  destruct d; cbn; try rewrite times_app; sumsH E; cbn [held fst snd times]; unfold inr in *.
  - cbn. lia.
  - destruct ok; cbn in *; lia.
  - cbn in *; lia.
Qed.

Lemma read_eq : forall s w ok k, hold_ok eq s -> total (step s (Read w ok)) k = total s k.
Proof.
  intros s w ok k H. cbn [step]. destruct (worker s w) as [| | d kl lo hi | | | | |] eqn:E; auto.
  assert (P := H _ _ _ _ (worker_in s w _ E ltac:(discriminate))). subst kl.
  openS s. unfold worker in E. unfold total, remain, queued, F, get in *. cbn in E.
  destruct d; cbn; try rewrite times_app; sumsH E; cbn [held fst snd times]; unfold inr in *.
  - cbn. lia.
  - destruct ok; cbn in *; lia.
  - cbn in *; lia.
Qed.

Lemma skipn_snoc_le : forall (ar : list (Z * range)) e ix k,
  times (map snd (skipn ix (ar ++ [e]))) k <= times (map snd (skipn ix ar)) k + inr (fst (snd e)) (snd (snd e)) k.
Proof.
  induction ar as [|x t IH]; intros e ix k.
  - destruct ix as [|ix]; cbn.
    + unfold inr. rewrite <- surjective_pairing. lia.
    + rewrite skipn_nil. cbn. pose proof (inr_nonneg (fst (snd e)) (snd (snd e)) k). lia.
  - destruct ix as [|ix]; cbn [skipn app map times].
    + specialize (IH e 0%nat k). cbn [skipn] in IH. lia.
    + apply IH.
Qed.

Lemma write_le : forall s w k, total (step s (Write w)) k <= total s k.
Proof.
  intros s w k. cbn [step]. destruct (worker s w) as [| | | a r | | | |] eqn:E; try lia.
  openS s. unfold worker in E. unfold total, remain, queued, F, get in *. cbn in E.
  cbn. sumsH E. cbn [held]. pose proof (skipn_snoc_le ar (a, r) ix k). cbn in H. lia.
Qed.

Lemma write_eq : forall s w k, s_ix s = 0%nat -> total (step s (Write w)) k = total s k.
Proof.
  intros s w k I. cbn [step]. destruct (worker s w) as [| | | a r | | | |] eqn:E; auto.
  openS s. unfold worker in E. unfold total, remain, queued, F, get in *. cbn in E, I. subst ix.
  cbn. sumsH E. cbn [held]. rewrite map_app, times_app. cbn. unfold inr.
  rewrite <- surjective_pairing. lia.
Qed.

Lemma wait_eq : forall s w k, total (step s (Wait w)) k = total s k.
Proof.
  intros s w k. cbn [step]. destruct (worker s w) eqn:E; auto.
  destruct (s_writers s >? 0); auto.
  openS s. unfold worker in E. unfold total, remain, queued, F, get in *. cbn in E.
  cbn. sumsH E. cbn [held]. lia.
Qed.

Lemma sort_eq : forall s w k, Inv s -> total (step s (Sort w)) k = total s k.
Proof.
  intros s w k [_ _ X _]. cbn [step]. destruct (worker s w) eqn:E; auto.
  openS s. unfold worker in E. unfold total, remain, queued, F, get in *. cbn in E.
  cbn [s_sorted] in *. destruct so.
  - cbn. sumsH E. cbn [held]. lia.
  - destruct (X eq_refl) as [X1 _]. cbn in X1. subst ix. cbn. sumsH E. cbn [held].
    rewrite (times_perm (map snd (sort_dl ar)) (map snd ar)); [lia|].
    apply Permutation_map, sort_perm.
Qed.

Lemma skipn_nth : forall (ar : list (Z * range)) ix e, nth_error ar ix = Some e ->
  skipn ix ar = e :: skipn (S ix) ar.
Proof.
  induction ar as [|x t IH]; intros [|ix] e H; cbn in *; try discriminate.
  - injection H as ->. reflexivity.
  - rewrite (IH _ _ H). reflexivity.
Qed.

Lemma claim_eq : forall s w k, total (step s (Claim w)) k = total s k.
Proof.
  intros s w k. cbn [step]. destruct (worker s w) eqn:E; auto.
  openS s. unfold worker in E. unfold total, remain, queued, F, get in *. cbn in E.
  cbn [s_arr s_ix]. destruct (nth_error ar ix) as [e|] eqn:N.
  - pose proof (skipn_nth _ _ _ N) as Q.
    cbn [emit set_arr s_read s_ws s_ix s_arr s_a s_b s_cur s_single s_first get].
    rewrite times_app, Q. cbn [map times]. unfold get. cbn. lia.
  - apply nth_error_None in N.
    cbn [setw set_arr s_read s_ws s_ix s_arr s_a s_b s_cur s_single s_first].
    sumsH E. cbn [held]. rewrite (skipn_all2 ar (n := ix)), (skipn_all2 ar (n := S ix)) by lia.
    unfold get. cbn. lia.
Qed.
