From Coq Require Import ZArith List Bool Lia Permutation.
From Coq Require Import ZifyBool ZifyNat ZifyN.
From Verif Require Import Base LogicalXidModel LogicalXidProofs.
Import ListNotations.
Open Scope Z_scope.

Lemma divider_eq : forall guc, divider guc = guc * 65536.
Proof. intros. unfold divider, items_count. lia. Qed.

Lemma nodup_map_nth : forall (A B : Type) (f : A -> B) l i j x,
  NoDup (map f l) -> nth_error l i = Some x -> nth_error l j = Some x -> i = j.
Proof.
  intros A B f l i j x Hnd Hi Hj.
  apply (proj1 (NoDup_nth_error (map f l)) Hnd).
  - apply nth_error_Some. rewrite (map_nth_error f _ _ Hi). discriminate.
  - rewrite (map_nth_error f _ _ Hi), (map_nth_error f _ _ Hj). reflexivity.
Qed.

Lemma held_ids_distinct :
  forall guc s, guc_ok guc -> (exists ops, s = run (lstep guc) linit ops) ->
  forall p q i j x,
    nth_error (held (l_bks s p)) i = Some x ->
    nth_error (held (l_bks s q)) j = Some x ->
    p = q /\ i = j.
Proof.
  intros guc s Hg [ops ->] p q i j x Hi Hj.
  pose proof (LInv_run guc Hg ops) as [_ _ Hn Hdj _ _].
  destruct (Z.eq_dec p q) as [->|Hne].
  - split; [reflexivity|]. eapply nodup_map_nth; eauto.
  - exfalso. apply (Hdj p q x x Hne); [eapply nth_error_In; eauto ..|reflexivity].
Qed.

Lemma slots_exact :
  forall guc s, guc_ok guc -> (exists ops, s = run (lstep guc) linit ops) ->
  (forall p x, In x (held (l_bks s p)) -> 3 <= x < 2 ^ 32) /\
  (forall m, 0 <= m < guc * 65536 ->
     (slot_taken s m = true <-> exists p x, In x (held (l_bks s p)) /\ x mod (guc * 65536) = m)).
Proof.
  intros guc s Hg [ops ->].
  pose proof (LInv_run guc Hg ops) as [_ Hh _ _ Ho _].
  rewrite <- divider_eq. split.
  - intros p x Hx. exact (proj1 (Hh p x Hx)).
  - intros m Hm. split.
    + apply Ho. exact Hm.
    + intros [p [x [Hx <-]]]. exact (proj2 (Hh p x Hx)).
Qed.

Lemma acquired_fresh_past :
  forall guc s p i bit n d xmin, guc_ok guc -> (exists ops, s = run (lstep guc) linit ops) ->
  3 <= xmin < 2 ^ 32 ->
  l_pc (l_bks s p) = PTry i bit n d ->
  let s' := lstep guc s (LOr p xmin) in
  l_pc (l_bks s' p) = PIdle ->
  let x := l_cur (l_bks s' p) in
  2 ^ 31 <= (x - xmin) mod 2 ^ 32 /\ 3 <= x < 2 ^ 32 /\
  (forall q, ~ In x (held (l_bks s q))) /\
  In x (held (l_bks s' p)) /\
  (forall y, In y (held (l_bks s p)) -> In y (held (l_bks s' p))) /\
  (forall q, q <> p -> l_bks s' q = l_bks s q).
Proof.
  intros guc s p i bit n d xmin Hg [ops ->] Hx Hpc.
  set (s := run (lstep guc) linit ops) in *.
  pose proof (LInv_run guc Hg ops) as HI. fold s in HI.
  destruct HI as [Hw Hh Hn Hdj Ho Hp].
  destruct (Hp p) as [Hpo Hdc]. rewrite Hpc in Hpo. cbn in Hpo.
  unfold dcur_ok in Hdc. rewrite Hpc in Hdc.
  destruct Hpo as [Hi [k [Hk ->]]].
  cbn [lstep]. rewrite Hpc.
  change (2 ^ 32) with two32 in *.
  destruct (Z.eqb_spec (Z.land (l_words s i) (2 ^ k)) 0) as [E0|E0].
  2:{ cbn [l_bks]. rewrite upd_same. cbn. discriminate. }
  rewrite Z.log2_up_pow2 by lia. cbn [l_bks]. rewrite upd_same. intros _.
  rewrite (Z.mod_small xmin two32) by lia.
  apply land_bit_zero in E0; [|lia].
  assert (Hm : 0 <= i * 32 + k < divider guc) by (unfold divider; lia).
  destruct (slot_xid_spec guc xmin (i * 32 + k) Hg ltac:(lia) Hm) as [Hr Hmod].
  pose proof (slot_xid_precedes guc xmin (i * 32 + k) Hg ltac:(unfold FirstNormalTransactionId; lia) Hm) as Hpast.
  set (x := slot_xid (divider guc) xmin (i * 32 + k)) in *. clearbody x.
  assert (Hcur : l_cur (deliver (l_bks s p) d x) = x) by (destruct d; reflexivity).
  rewrite Hcur. unfold FirstNormalTransactionId in Hr.
  assert (HP : Permutation (held (deliver (l_bks s p) d x)) (x :: held (l_bks s p))).
  { apply (held_deliver guc); [lia|]. intros ->. exact Hdc. }
  split; [exact Hpast|]. split; [exact Hr|]. split; [|split; [|split]].
  - intros q Hin. destruct (Hh q x Hin) as [_ Ht]. rewrite Hmod in Ht.
    unfold slot_taken in Ht.
    replace ((i * 32 + k) / 32) with i in Ht
      by (apply Z.div_unique with (r := k); lia).
    replace ((i * 32 + k) mod 32) with k in Ht
      by (apply Z.mod_unique with (q := i); lia).
    congruence.
  - eapply perm_in; [apply Permutation_sym, HP|left; reflexivity].
  - intros y Hy. eapply perm_in; [apply Permutation_sym, HP|right; exact Hy].
  - intros q Hq. rewrite upd_other by exact Hq. reflexivity.
Qed.

Lemma release_exact :
  forall guc s p subid outer rest, guc_ok guc -> (exists ops, s = run (lstep guc) linit ops) ->
  l_pc (l_bks s p) = PIdle -> l_prev (l_bks s p) = (outer, subid) :: rest ->
  let x := l_cur (l_bks s p) in
  x <> 0 ->
  let s' := lstep guc s (LSubEnd p subid) in
  l_cur (l_bks s' p) = outer /\
  (forall m, 0 <= m < guc * 65536 ->
     slot_taken s' m = true <-> (slot_taken s m = true /\ m <> x mod (guc * 65536))) /\
  (forall q, q <> p -> l_bks s' q = l_bks s q).
Proof.
  intros guc s p subid outer rest Hg [ops ->] Hpc Hpr x Hx.
  set (s := run (lstep guc) linit ops) in *.
  pose proof (LInv_run guc Hg ops) as HI. fold s in HI.
  destruct HI as [Hw Hh Hn Hdj Ho Hp].
  cbn [lstep]. rewrite Hpc, Hpr. rewrite Z.eqb_refl.
  fold x. replace (x =? InvalidTransactionId) with false
    by (unfold InvalidTransactionId; lia).
  cbn [negb andb l_bks]. rewrite upd_same. cbn [l_cur].
  split; [reflexivity|]. split.
  - intros m Hm.
    assert (Hin : In x (held (l_bks s p))).
    { unfold held. cbn [filter]. fold x.
      replace (x =? InvalidTransactionId) with false
        by (unfold InvalidTransactionId; lia). left. reflexivity. }
    destruct (Hh p x Hin) as [Hr _]. unfold FirstNormalTransactionId in Hr.
    rewrite slot_taken_clear by (auto; lia).
    rewrite <- divider_eq. rewrite andb_true_iff, negb_true_iff, Z.eqb_neq. tauto.
  - intros q Hq. rewrite upd_other by exact Hq. reflexivity.
Qed.

Lemma xact_end_releases :
  forall guc s p, guc_ok guc -> (exists ops, s = run (lstep guc) linit ops) ->
  l_pc (l_bks s p) = PIdle -> l_saved (l_bks s p) = [] ->
  let s' := lstep guc s (LXactEnd p) in
  held (l_bks s' p) = [] /\
  (forall q, q <> p -> l_bks s' q = l_bks s q) /\
  (forall q x, q <> p -> In x (held (l_bks s q)) -> slot_taken s' (x mod (guc * 65536)) = true) /\
  (forall x, In x (held (l_bks s p)) -> slot_taken s' (x mod (guc * 65536)) = false).
Proof.
  intros guc s p Hg [ops Es] Hpc Hsv s'.
  assert (HI : LInv guc s) by (subst s; apply LInv_run; exact Hg).
  assert (HI' : LInv guc s') by (apply LInv_step; assumption).
  assert (E1 : held (l_bks s' p) = []).
  { unfold s'. cbn [lstep]. rewrite Hpc, Hsv. cbn [l_bks]. rewrite upd_same. reflexivity. }
  assert (E2 : forall q, q <> p -> l_bks s' q = l_bks s q).
  { intros q Hq. unfold s'. cbn [lstep]. rewrite Hpc, Hsv. cbn [l_bks].
    rewrite upd_other by exact Hq. reflexivity. }
  rewrite <- divider_eq.
  split; [exact E1|]. split; [exact E2|]. split.
  - intros q x Hq Hx. rewrite <- (E2 q Hq) in Hx. exact (proj2 (li_held _ _ HI' q x Hx)).
  - intros x Hx. destruct (slot_taken s' (x mod divider guc)) eqn:Et; [|reflexivity].
    exfalso.
    assert (Hd : 0 < divider guc) by (apply d_pos; exact Hg).
    destruct (li_owned _ _ HI' (x mod divider guc)) as [q [y [Hy Ey]]];
      [apply Z.mod_pos_bound; lia|exact Et|].
    destruct (Z.eq_dec q p) as [->|Hq].
    + rewrite E1 in Hy. inversion Hy.
    + rewrite (E2 q Hq) in Hy. exact (li_disj _ _ HI q p y x Hq Hy Hx Ey).
Qed.
