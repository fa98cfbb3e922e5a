(** Every operation of the scan keeps the invariant and the account of the
    keys. *)
From Coq Require Import ZArith List Bool Lia ZifyBool Permutation.
From Verif Require Import Base ParScanModel ParScanSpec ParScanProofs.
Import ListNotations.
Open Scope Z_scope.

Lemma load_spec : forall prev i v it, found prev i = true -> load prev i = (v, it) ->
  exists st t, v = Valid st (is_none (im_lo i)) prev t (im_hi i) /\
    okv st (is_none (im_lo i)) prev t (im_hi i) /\
    (forall k, inr prev None k = times it k + from t (im_hi i) k + after (im_hi i) k).
Proof.
  intros prev i v it Hf Hl. unfold found in Hf. apply andb_true_iff in Hf. destruct Hf as [A B].
  destruct prev as [p|].
  - apply andb_true_iff in B. destruct B as [B1 B2]. cbn [load] in Hl.
    pose proof (locate_spec (im_rest i) p (im_lo i) (im_d i) (im_hi i) A B1 B2) as L.
    destruct (locate p (im_lo i) (im_d i) (im_rest i)) as [[lo d] rest].
    destruct L as [L1 [L2 L3]].
    destruct (eqb_opt lo (Some p)) eqn:E.
    + injection Hl as <- <-. apply eqb_opt_eq in E. subst lo.
      eexists _, _. split; [reflexivity|]. split; [split; [exact L1|reflexivity]|].
      intro k. cbn [times from]. rewrite (tile_open (Some p) (im_hi i) k); [lia|].
      exact (ascends_below _ _ _ L1).
    + injection Hl as <- <-. eexists _, _. split; [reflexivity|]. split.
      * unfold okv. pose proof (advance_asc rest lo (im_hi i) L1) as W.
        destruct (advance rest); [reflexivity|]. split; [exact W|discriminate].
      * intro k.
        assert (P : ascends (Some p) rest (im_hi i) = true).
        { destruct rest as [|[z e] t]; cbn [next_key] in L3; cbn [ascends].
          - destruct (im_hi i); cbn in *; [lia|reflexivity].
          - apply andb_true_iff. split; [cbn in *; lia|exact (ascends_tail _ _ _ _ _ L1)]. }
        rewrite (tile_open (Some p) (im_hi i) k (ascends_below _ _ _ P)).
        rewrite (tile (Some p) rest (im_hi i) k P). cbn [times]. unfold inr. lia.
  - cbn [load] in Hl. injection Hl as <- <-.
    destruct (im_lo i) as [x|] eqn:E; [discriminate|]. cbn [is_none].
    eexists _, _. split; [reflexivity|]. split; [split; [exact A|reflexivity]|].
    intro k. cbn [times from]. rewrite (tile_open None (im_hi i) k); [lia|].
    exact (ascends_below _ _ _ A).
Qed.

(** Rewrite the sums after a change of one worker. *)
Ltac sums E :=
  repeat match goal with
  | |- context [sumf ?f (set_nth ?l ?w ?v)] =>
      rewrite (sumf_set f l w v) by (rewrite E; discriminate)
  end; try rewrite E.

Ltac openS s := destruct s as [sa sb c fi si wr ar ix so ws rd].

Lemma look_inv : forall s w, Inv s -> worker s w = Idle -> Inv (look s w).
Proof.
  intros s w [V L X W] E. openS s. unfold worker in E. cbn [s_ws] in E.
  unfold F in *. cbn [s_a s_b s_cur s_first s_single s_writers s_arr s_ix s_sorted s_ws s_read] in *.
  unfold look. cbn [s_single s_cur].
  destruct si.
  - constructor; cbn; try discriminate.
    + intro b. specialize (L b). cbn in L. sums E. cbn. lia.
    + intro Q. destruct (X Q) as [X1 X2]. split; [exact X1|]. sums E. cbn. lia.
    + unfold F; cbn. sums E. cbn. lia.
  - specialize (V eq_refl).
    assert (LA := L false). assert (LB := L true). cbn in LA, LB.
    destruct c; cbn [negb] in *; unfold get in V |- *; cbn [s_a s_b] in V |- *.
    + destruct sb as [|p|st lm pv t hi].
      * destruct fi; cbn in V; subst sa; cbn.
        -- constructor; cbn; auto; try (intro Q; destruct (X Q)); try split; unfold F; cbn; sums E; cbn; try lia.
           intros [|]; sums E; cbn in *; lia.
        -- constructor; cbn; auto; try (intro Q; destruct (X Q)); try split; unfold F; cbn; sums E; cbn; try lia.
           intros [|]; unfold F; cbn; sums E; cbn in *; lia.
      * constructor; cbn; auto. 
      * destruct fi; cbn in V; [|contradiction]. destruct V as [V1 V2].
        assert (CL : Inv match t with
          | Nothing => flip (put (mkSt sa (Valid st lm pv t hi) true true false wr ar ix so ws rd) true Invalid)
          | Items lo d rest =>
            setw (addw (put (mkSt sa (Valid st lm pv t hi) true true false wr ar ix so ws rd) true (Valid false lm pv (advance rest) hi)) 1) w
                   (Holding d (low_key st lm pv lo) lo (next_key rest hi)) end \/ (sa = Invalid /\ hi <> None)).
        { destruct sa as [|p|st' lm' pv' t' hi']; [destruct hi as [h|]; [right; split; [reflexivity|discriminate]|]| |]; left.
          all: destruct t as [|lo d rest]; constructor; cbn; auto; try (intro Q; destruct (X Q)); try split;
            unfold F; cbn; sums E; cbn in *; try lia; try tauto.
          all: try (intros [|]; unfold F; cbn; sums E; cbn in *; lia).
          all: try (unfold okv in *; destruct V1 as [V1 V1']; pose proof (advance_asc rest lo _ V1) as W1;
            destruct (advance rest); [reflexivity|split; [exact W1|discriminate]]).
          all: destruct V2 as [V2 V3]; subst; try (destruct hi; [reflexivity|contradiction]); auto. }
        destruct sa as [|p|st' lm' pv' t' hi']; cbn; [destruct hi as [h|]|..].
        -- constructor; cbn; auto; try (intro Q; destruct (X Q)); try split; unfold F; cbn; sums E; cbn; try lia; auto.
           ++ split; [reflexivity|discriminate].
           ++ intros [|]; unfold F; cbn; sums E; cbn in *; lia.
        -- destruct CL as [CL|[_ CL]]; [exact CL|contradiction].
        -- destruct CL as [CL|[CL _]]; [exact CL|discriminate].
        -- destruct CL as [CL|[CL _]]; [exact CL|discriminate].
    + destruct sa as [|p|st lm pv t hi].
      * destruct fi; cbn in V; subst sb; cbn.
        -- constructor; cbn; auto; try (intro Q; destruct (X Q)); try split; unfold F; cbn; sums E; cbn; try lia.
           intros [|]; sums E; cbn in *; lia.
        -- constructor; cbn; auto; try (intro Q; destruct (X Q)); try split; unfold F; cbn; sums E; cbn; try lia.
           intros [|]; unfold F; cbn; sums E; cbn in *; lia.
      * constructor; cbn; auto.
      * destruct fi; cbn in V; [|contradiction]. destruct V as [V1 V2].
        assert (CL : Inv match t with
          | Nothing => flip (put (mkSt (Valid st lm pv t hi) sb false true false wr ar ix so ws rd) false Invalid)
          | Items lo d rest =>
            setw (addw (put (mkSt (Valid st lm pv t hi) sb false true false wr ar ix so ws rd) false (Valid false lm pv (advance rest) hi)) 1) w
                   (Holding d (low_key st lm pv lo) lo (next_key rest hi)) end \/ (sb = Invalid /\ hi <> None)).
        { destruct sb as [|p|st' lm' pv' t' hi']; [destruct hi as [h|]; [right; split; [reflexivity|discriminate]|]| |]; left.
          all: destruct t as [|lo d rest]; constructor; cbn; auto; try (intro Q; destruct (X Q)); try split;
            unfold F; cbn; sums E; cbn in *; try lia; try tauto.
          all: try (intros [|]; unfold F; cbn; sums E; cbn in *; lia).
          all: try (unfold okv in *; destruct V1 as [V1 V1']; pose proof (advance_asc rest lo _ V1) as W1;
            destruct (advance rest); [reflexivity|split; [exact W1|discriminate]]).
          all: destruct V2 as [V2 V3]; subst; try (destruct hi; [reflexivity|contradiction]); auto. }
        destruct sb as [|p|st' lm' pv' t' hi']; cbn; [destruct hi as [h|]|..].
        -- constructor; cbn; auto; try (intro Q; destruct (X Q)); try split; unfold F; cbn; sums E; cbn; try lia; auto.
           ++ split; [reflexivity|discriminate].
           ++ intros [|]; unfold F; cbn; sums E; cbn in *; lia.
        -- destruct CL as [CL|[_ CL]]; [exact CL|contradiction].
        -- destruct CL as [CL|[CL _]]; [exact CL|discriminate].
        -- destruct CL as [CL|[CL _]]; [exact CL|discriminate].
Qed.

(** The other operations. *)
Lemma load_inv : forall s w i, Inv s -> Inv (step s (Load w i)).
Proof.
  intros s w i [V L X W]. cbn [step]. destruct (worker s w) as [| b | | | | | |] eqn:E;
    try (constructor; assumption).
  destruct (get s b) as [|prev|] eqn:G; try (constructor; assumption).
  destruct (found prev i) eqn:Hf; [|constructor; assumption].
  destruct (load prev i) as [v it] eqn:Hl.
  destruct (load_spec prev i v it Hf Hl) as [st [t [-> [OK _]]]].
  assert (LB : 1 <= F (f_load b) s).
  { unfold worker in E. pose proof (sumf_nth (f_load b) (s_ws s) w (f_load_nn b)) as P.
    rewrite E in P. cbn in P. rewrite eqb_reflx in P. apply P. discriminate. }
  openS s. unfold worker in E. unfold F in *. 
  cbn [s_a s_b s_cur s_first s_single s_writers s_arr s_ix s_sorted s_ws s_read] in *.
  assert (LL := L b). destruct si; cbn in LL; [lia|]. specialize (V eq_refl).
  assert (LO := L (negb b)). cbn in LO.
  constructor; cbn.
  - intros _. destruct c, b; unfold get in *; cbn in G, V |- *; subst.
    + destruct fi, prev as [q|]; cbn in V; try contradiction; subst; cbn; auto.
    + destruct fi, sb as [|[q|]|st' lm' pv' t' hi']; cbn in V; try contradiction; try discriminate.
      destruct V as [V1 [V2 V3]]. cbn. auto.
    + destruct fi, sa as [|[q|]|st' lm' pv' t' hi']; cbn in V; try contradiction; try discriminate.
      destruct V as [V1 [V2 V3]]. cbn. auto.
    + destruct fi, prev as [q|]; cbn in V; try contradiction; subst; cbn; auto.
  - intro b'. unfold F; cbn. sums E. cbn.
    destruct b, b'; unfold get in *; cbn in *; subst; cbn in *; lia.
  - intro Q. destruct (X Q). split; [assumption|]. unfold F; cbn. sums E. cbn. lia.
  - unfold F; cbn. sums E. cbn. lia.
Qed.

Lemma other_inv : forall s o, Inv s ->
  match o with Look _ | Load _ _ => True | _ => Inv (step s o) end.
Proof.
  intros s o [V L X W]. destruct o as [w|w i|w|w ok|w|w|w|w]; auto; cbn [step].
  - (* LoadLeaf *)
    destruct (worker s w) as [| b | | | | | |] eqn:E; try (constructor; assumption).
    destruct (get s b) as [|[p|]|] eqn:G; try (constructor; assumption).
    assert (LB : 1 <= F (f_load b) s).
    { unfold worker in E. pose proof (sumf_nth (f_load b) (s_ws s) w (f_load_nn b)) as P.
      rewrite E in P. cbn in P. rewrite eqb_reflx in P. apply P. discriminate. }
    openS s. unfold worker in E. unfold F in *.
    cbn [s_a s_b s_cur s_first s_single s_writers s_arr s_ix s_sorted s_ws s_read] in *.
    assert (LL := L b). destruct si; cbn in LL; [lia|]. specialize (V eq_refl).
    assert (LO := L (negb b)). cbn in LO.
    constructor; cbn; try discriminate.
    + assert (OB : busy (if negb b then sb else sa) = false).
      { clear - V G. destruct b, c; unfold get in *; cbn in *; subst; destruct fi; cbn in V;
          try contradiction; subst; try reflexivity.
        - destruct sa as [|[q|]|]; try contradiction; try discriminate;
            destruct V as [_ [V1 V2]]; congruence.
        - destruct sa as [|[q|]|]; try contradiction; discriminate.
        - destruct sb as [|[q|]|]; try contradiction; try discriminate;
            destruct V as [_ [V1 V2]]; congruence.
        - destruct sb as [|[q|]|]; try contradiction; discriminate. }
      intro b'. unfold F; cbn. sums E. cbn.
      destruct b, b'; unfold get in *; cbn in *; subst; cbn in *;
        try rewrite OB in LO; lia.
    + intro Q. destruct (X Q). split; [assumption|]. unfold F; cbn. sums E. cbn. lia.
    + unfold F; cbn. sums E. cbn. lia.
  - (* Read *)
    destruct (worker s w) as [| | d kl lo hi | | | | |] eqn:E; try (constructor; assumption).
    openS s. unfold worker in E. unfold F in *. cbn in *.
    destruct d; constructor; cbn; auto; try (intro Q; destruct (X Q); split; [assumption|]);
      try intro b'; unfold F; cbn; sums E; cbn; try lia.
    all: rewrite Z.sub_0_r, Z.add_0_r; apply L.
  - (* Write *)
    destruct (worker s w) as [| | | a r | | | |] eqn:E; try (constructor; assumption).
    openS s. unfold worker in E. unfold F in *. cbn in *.
    constructor; cbn; auto; try (intro Q; destruct (X Q); split; [assumption|]);
      try intro b'; unfold F; cbn; sums E; cbn; try lia.
    rewrite Z.sub_0_r, Z.add_0_r; apply L.
  - (* Wait *)
    destruct (worker s w) eqn:E; try (constructor; assumption).
    destruct (s_writers s >? 0); [constructor; assumption|].
    openS s. unfold worker in E. unfold F in *. cbn in *.
    constructor; cbn; auto; try (intro Q; destruct (X Q); split; [assumption|]);
      try intro b'; unfold F; cbn; sums E; cbn; try lia.
    rewrite Z.sub_0_r, Z.add_0_r; apply L.
  - (* Sort *)
    destruct (worker s w) eqn:E; try (constructor; assumption).
    openS s. unfold worker in E. unfold F in *. cbn in *. destruct so.
    all: constructor; cbn; auto; try discriminate;
      try intro b'; unfold F; cbn; sums E; cbn; try lia.
    all: rewrite Z.sub_0_r, Z.add_0_r; apply L.
  - (* Claim *)
    destruct (worker s w) eqn:E; try (constructor; assumption).
    assert (D : 1 <= F f_disk s).
    { unfold worker in E. pose proof (sumf_nth f_disk (s_ws s) w f_disk_nn) as P.
      rewrite E in P. cbn in P. apply P. discriminate. }
    openS s. unfold worker in E. unfold F in *. cbn in *.
    destruct (nth_error ar ix) as [e|].
    all: constructor; cbn; auto; try (intro Q; destruct (X Q); lia);
      try intro b'; unfold F; cbn; sums E; cbn; try lia.
    all: try (rewrite Z.sub_0_r, Z.add_0_r); apply L.
Qed.

Lemma step_inv : forall s o, Inv s -> Inv (step s o).
Proof.
  intros s o I. pose proof (other_inv s o I) as O.
  destruct o; auto.
  - cbn [step]. destruct (worker s w) eqn:E; auto. apply look_inv; assumption.
  - apply load_inv; assumption.
Qed.

Lemma init_inv : forall n, Inv (init n).
Proof.
  intro n. constructor; cbn; auto; unfold F; cbn.
  - intros []; rewrite sumf_repeat; reflexivity.
  - intros _. split; [reflexivity|]. apply sumf_repeat. reflexivity.
  - rewrite sumf_repeat; reflexivity.
Qed.
