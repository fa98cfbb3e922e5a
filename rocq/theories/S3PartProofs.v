(** Proofs about the part word and its processes. *)
From Coq Require Import ZArith List Bool Lia.
From Coq Require Import ZifyBool.
From Verif Require Import Base S3PartModel S3PartSpec.
Import ListNotations.
Open Scope Z_scope.

(* ---- fields of a word ---- *)
Definition fld (p k j : Z) := (p / 2 ^ k) mod 2 ^ j.
Lemma land_field : forall p k j, 0 <= k -> 0 <= j -> Z.land p (Z.shiftl (Z.ones j) k) = fld p k j * 2 ^ k.
Proof.
  intros p k j Hk Hj. unfold fld. rewrite <- Z.land_ones, <- Z.shiftr_div_pow2, <- Z.shiftl_mul_pow2, Z.shiftl_land by lia.
  apply Z.bits_inj'. intros n Hn. rewrite !Z.land_spec. destruct (Z.ltb_spec n k).
  - rewrite !(Z.shiftl_spec_low _ k n) by lia. rewrite !andb_false_r. reflexivity.
  - f_equal. rewrite Z.shiftl_spec_high by lia. rewrite Z.shiftr_spec by lia. f_equal. lia.
Qed.
Lemma ldiff_sub : forall p m, Z.ldiff p m = p - Z.land p m.
Proof.
  intros p m. rewrite Z.sub_nocarry_ldiff.
  - apply Z.bits_inj'. intros n Hn. rewrite !Z.ldiff_spec, Z.land_spec. destruct (Z.testbit p n), (Z.testbit m n); reflexivity.
  - apply Z.bits_inj'. intros n Hn. rewrite Z.ldiff_spec, Z.land_spec, Z.bits_0. destruct (Z.testbit p n), (Z.testbit m n); reflexivity.
Qed.
Lemma set_field : forall p s k j, 0 <= k -> 0 <= j -> 0 <= s < 2 ^ j ->
  Z.lor (Z.ldiff p (Z.shiftl (Z.ones j) k)) (Z.shiftl s k) = p + (s - fld p k j) * 2 ^ k.
Proof.
  intros p s k j Hk Hj Hs. assert (D : Z.land (Z.ldiff p (Z.shiftl (Z.ones j) k)) (Z.shiftl s k) = 0).
  2:{ rewrite <- Z.lxor_lor, <- Z.add_nocarry_lxor by exact D. rewrite ldiff_sub, land_field, Z.shiftl_mul_pow2 by lia. ring. }
  - apply Z.bits_inj'. intros n Hn. rewrite Z.bits_0, Z.land_spec, Z.ldiff_spec. destruct (Z.ltb_spec n k).
    + rewrite (Z.shiftl_spec_low s) by lia. apply andb_false_r.
    + rewrite !Z.shiftl_spec_high by lia. destruct (Z.ltb_spec (n - k) j).
      * rewrite Z.ones_spec_low by lia. rewrite andb_false_r. reflexivity.
      * assert (Z.testbit s (n - k) = false) as ->; [|apply andb_false_r].
        destruct (Z.eq_dec s 0) as [->|E]; [apply Z.bits_0|]. apply Z.bits_above_log2; [lia|].
        assert (Z.log2 s < j) by (apply Z.log2_lt_pow2; lia). lia.
Qed.

(* Everything in terms of division. *)
Lemma locks_fld : forall p, get_locks p = fld p 0 18.
Proof. intros p. unfold get_locks. change LOCKS_NUM_MASK with (Z.shiftl (Z.ones 18) 0). rewrite land_field by lia. change (2 ^ 0) with 1. ring. Qed.
Lemma status_fld : forall p, get_status p = fld p 18 3.
Proof.
  intros p. unfold get_status. change STATUS_MASK with (Z.shiftl (Z.ones 3) 18). rewrite land_field by lia.
  unfold STATUS_SHIFT. rewrite Z.shiftr_div_pow2 by lia. apply Z.div_mul. lia.
Qed.
Lemma usage_fld : forall p, get_usage p = fld p 25 7.
Proof.
  intros p. unfold get_usage. change USAGE_COUNT_MASK with (Z.shiftl (Z.ones 7) 25). rewrite land_field by lia.
  unfold USAGE_COUNT_SHIFT. rewrite Z.shiftr_div_pow2 by lia. apply Z.div_mul. lia.
Qed.
Lemma flag_fld : forall p k, 0 <= k -> flag p (Z.shiftl (Z.ones 1) k) = (fld p k 1 =? 1).
Proof.
  intros p k Hk. unfold flag. rewrite land_field by lia. unfold fld.
  assert (0 <= (p / 2 ^ k) mod 2 ^ 1 < 2) by (apply Z.mod_pos_bound; reflexivity).
  assert (0 < 2 ^ k) by (apply Z.pow_pos_nonneg; lia).
  destruct (Z.eqb_spec ((p / 2 ^ k) mod 2 ^ 1 * 2 ^ k) 0), (Z.eqb_spec ((p / 2 ^ k) mod 2 ^ 1) 1); cbn; try reflexivity; nia.
Qed.
Lemma set_status_fld : forall p s, 0 <= s < 8 -> set_status p s = p + (s - fld p 18 3) * 2 ^ 18.
Proof. intros. unfold set_status. change STATUS_MASK with (Z.shiftl (Z.ones 3) 18). apply set_field; lia. Qed.
Lemma set_usage_fld : forall p s, 0 <= s < 128 -> set_usage p s = p + (s - fld p 25 7) * 2 ^ 25.
Proof. intros. unfold set_usage. change USAGE_COUNT_MASK with (Z.shiftl (Z.ones 7) 25). apply set_field; lia. Qed.
Lemma clear_fld : forall p k, 0 <= k -> Z.ldiff p (Z.shiftl (Z.ones 1) k) = p + (0 - fld p k 1) * 2 ^ k.
Proof. intros p k Hk. rewrite ldiff_sub, land_field by lia. ring. Qed.
Lemma set_fld : forall p k, 0 <= k -> Z.lor p (Z.shiftl (Z.ones 1) k) = p + (1 - fld p k 1) * 2 ^ k.
Proof.
  intros p k Hk. rewrite <- (set_field p 1 k 1) by (try lia; reflexivity). change (Z.ones 1) with 1.
  apply Z.bits_inj'. intros n Hn. rewrite !Z.lor_spec, Z.ldiff_spec. destruct (Z.testbit p n), (Z.testbit (Z.shiftl 1 k) n); reflexivity.
Qed.

(* A word as its fields: locks, status, dirty, writing, scheduled, unused, usage. *)
Definition enc (l t d w s x u : Z) := l + t * 2 ^ 18 + d * 2 ^ 21 + w * 2 ^ 22 + s * 2 ^ 23 + x * 2 ^ 24 + u * 2 ^ 25.
Definition inb (l t d w s x u : Z) := 0 <= l < 2 ^ 18 /\ 0 <= t < 8 /\ 0 <= d < 2 /\ 0 <= w < 2 /\ 0 <= s < 2 /\ 0 <= x < 2 /\ 0 <= u < 128.
Lemma enc_flds : forall l t d w s x u, inb l t d w s x u ->
  let p := enc l t d w s x u in
  0 <= p < 2 ^ 32 /\ fld p 0 18 = l /\ fld p 18 3 = t /\ fld p 21 1 = d /\ fld p 22 1 = w /\ fld p 23 1 = s /\ fld p 25 7 = u.
Proof.
  intros l t d w s x u H p. unfold inb in H. unfold p, enc, fld. cbn [Z.pow Z.pow_pos Pos.iter Z.mul Pos.mul] in *.
  repeat apply conj; try lia; Z.div_mod_to_equations; lia.
Qed.
Lemma dec : forall p, 0 <= p < 2 ^ 32 -> exists l t d w s x u, inb l t d w s x u /\ p = enc l t d w s x u.
Proof.
  intros p H. exists (fld p 0 18), (fld p 18 3), (fld p 21 1), (fld p 22 1), (fld p 23 1), (fld p 24 1), (fld p 25 7).
  unfold inb, enc, fld. cbn [Z.pow Z.pow_pos Pos.iter Z.mul Pos.mul] in *. split; [|Z.div_mod_to_equations; lia].
  repeat apply conj; try (apply Z.mod_pos_bound; lia); apply Z.mod_pos_bound; lia.
Qed.

(* What the code looks at in a word. *)
Definition shows (v l t : Z) (d w s : bool) : Prop :=
  0 <= v < 2 ^ 32 /\ get_locks v = l /\ get_status v = t /\
  flag v DIRTY_FLAG = d /\ flag v WRITING_FLAG = w /\ flag v SCHEDULED_FOR_WRITE_FLAG = s.
Definition b2z (b : bool) := if b then 1 else 0.
Definition zb (z : Z) := z =? 1.
Lemma shows_enc : forall l t d w s x u, inb l t d w s x u -> shows (enc l t d w s x u) l t (zb d) (zb w) (zb s).
Proof.
  intros l t d w s x u H. destruct (enc_flds _ _ _ _ _ _ _ H) as (R & F1 & F2 & F3 & F4 & F5 & F6).
  unfold shows. rewrite locks_fld, status_fld.
  change DIRTY_FLAG with (Z.shiftl (Z.ones 1) 21). change WRITING_FLAG with (Z.shiftl (Z.ones 1) 22).
  change SCHEDULED_FOR_WRITE_FLAG with (Z.shiftl (Z.ones 1) 23). rewrite !flag_fld by lia.
  rewrite F1, F2, F3, F4, F5. unfold zb. repeat split; lia.
Qed.
Lemma shows_dec : forall v l t d w s, shows v l t d w s -> exists x u,
  inb l t (b2z d) (b2z w) (b2z s) x u /\ v = enc l t (b2z d) (b2z w) (b2z s) x u.
Proof.
  intros v l t d w s (R & F1 & F2 & F3 & F4 & F5). destruct (dec v R) as (l' & t' & d' & w' & s' & x & u & B & E).
  exists x, u. pose proof (shows_enc _ _ _ _ _ _ _ B) as (_ & G1 & G2 & G3 & G4 & G5). rewrite <- E in *.
  assert (l = l' /\ t = t' /\ d = zb d' /\ w = zb w' /\ s = zb s') as (-> & -> & -> & -> & ->) by (repeat split; congruence).
  assert (P : forall z, 0 <= z < 2 -> b2z (zb z) = z) by (intros z Hz; unfold zb, b2z; destruct (Z.eqb_spec z 1); lia).
  unfold inb in B. rewrite !P by tauto. split; [exact B|exact E].
Qed.
Lemma shows_bounds : forall v l t d w s, shows v l t d w s -> 0 <= l < 2 ^ 18 /\ 0 <= t < 8.
Proof. intros v l t d w s H. destruct (shows_dec _ _ _ _ _ _ H) as (x & u & B & _). unfold inb in B. tauto. Qed.

Ltac flds B := let R := fresh in
  destruct (enc_flds _ _ _ _ _ _ _ B) as (R & ? & ? & ? & ? & ? & ?).
Ltac encd := unfold enc; cbn [Z.pow Z.pow_pos Pos.iter Z.mul Pos.mul]; lia.
Ltac fin B := unfold inb in *; repeat apply conj; unfold b2z in *; lia.

Lemma e_usage : forall l t d w s x u u', inb l t d w s x u -> 0 <= u' < 128 -> set_usage (enc l t d w s x u) u' = enc l t d w s x u'.
Proof. intros. rewrite set_usage_fld by lia. flds H. rewrite H7. encd. Qed.
Lemma e_status : forall l t d w s x u t', inb l t d w s x u -> 0 <= t' < 8 -> set_status (enc l t d w s x u) t' = enc l t' d w s x u.
Proof. intros. rewrite set_status_fld by lia. flds H. rewrite H3. encd. Qed.
Lemma e_dirty : forall l t d w s x u, inb l t d w s x u -> Z.lor (enc l t d w s x u) DIRTY_FLAG = enc l t 1 w s x u.
Proof. intros. change DIRTY_FLAG with (Z.shiftl (Z.ones 1) 21). rewrite set_fld by lia. flds H. rewrite H3. encd. Qed.
Lemma e_clean : forall l t d w s x u, inb l t d w s x u -> Z.ldiff (enc l t d w s x u) DIRTY_FLAG = enc l t 0 w s x u.
Proof. intros. change DIRTY_FLAG with (Z.shiftl (Z.ones 1) 21). rewrite clear_fld by lia. flds H. rewrite H3. encd. Qed.
Lemma e_writing : forall l t d w s x u, inb l t d w s x u -> Z.lor (enc l t d w s x u) WRITING_FLAG = enc l t d 1 s x u.
Proof. intros. change WRITING_FLAG with (Z.shiftl (Z.ones 1) 22). rewrite set_fld by lia. flds H. rewrite H4. encd. Qed.
Lemma e_nwriting : forall l t d w s x u, inb l t d w s x u -> Z.ldiff (enc l t d w s x u) WRITING_FLAG = enc l t d 0 s x u.
Proof. intros. change WRITING_FLAG with (Z.shiftl (Z.ones 1) 22). rewrite clear_fld by lia. flds H. rewrite H4. encd. Qed.
Lemma e_sched : forall l t d w s x u, inb l t d w s x u -> Z.lor (enc l t d w s x u) SCHEDULED_FOR_WRITE_FLAG = enc l t d w 1 x u.
Proof. intros. change SCHEDULED_FOR_WRITE_FLAG with (Z.shiftl (Z.ones 1) 23). rewrite set_fld by lia. flds H. rewrite H5. encd. Qed.
Lemma e_nsched : forall l t d w s x u, inb l t d w s x u -> Z.ldiff (enc l t d w s x u) SCHEDULED_FOR_WRITE_FLAG = enc l t d w 0 x u.
Proof. intros. change SCHEDULED_FOR_WRITE_FLAG with (Z.shiftl (Z.ones 1) 23). rewrite clear_fld by lia. flds H. rewrite H5. encd. Qed.

Ltac sh := match goal with |- shows (enc ?l ?t ?d ?w ?s ?x ?u) ?l' ?t' ?d' ?w' ?s' =>
  let Q := fresh in assert (Q : shows (enc l t d w s x u) l t (zb d) (zb w) (zb s)) by (apply shows_enc; unfold inb in *; unfold b2z in *; repeat apply conj; try lia);
  unfold zb, b2z in Q; try (is_var d'; destruct d'); try (is_var w'; destruct w'); try (is_var s'; destruct s'); cbn [Z.eqb Pos.eqb] in Q; exact Q end.
Lemma usage_bound : forall l t d w s x u, inb l t d w s x u -> get_usage (enc l t d w s x u) = u.
Proof. intros. rewrite usage_fld. flds H. assumption. Qed.

Lemma s_lock : forall v l t d w s, shows v l t d w s -> l + 1 < 2 ^ 18 -> shows (v_lock v) (l + 1) t d w s.
Proof.
  intros v l t d w s H Hl. destruct (shows_dec _ _ _ _ _ _ H) as (x & u & B & ->). unfold v_lock. rewrite (usage_bound _ _ _ _ _ _ _ B).
  replace (enc l t (b2z d) (b2z w) (b2z s) x u + LOCKS_ONE) with (enc (l + 1) t (b2z d) (b2z w) (b2z s) x u) by (unfold enc, LOCKS_ONE; lia).
  assert (B' : inb (l + 1) t (b2z d) (b2z w) (b2z s) x u) by (unfold inb in *; lia).
  unfold inb in B. unfold USAGE_COUNT_MAX. rewrite e_usage by (try exact B'; destruct (Z.ltb_spec u 127); lia).
  destruct (Z.ltb_spec u 127); sh.
Qed.
Lemma s_unlock : forall v l t d w s b, shows v l t d w s -> 0 < l -> shows (v_unlock v b) (l - 1) t (d || b) w s.
Proof.
  intros v l t d w s b H Hl. destruct (shows_dec _ _ _ _ _ _ H) as (x & u & B & ->). unfold v_unlock.
  replace (enc l t (b2z d) (b2z w) (b2z s) x u - LOCKS_ONE) with (enc (l - 1) t (b2z d) (b2z w) (b2z s) x u) by (unfold enc, LOCKS_ONE; lia).
  assert (B' : inb (l - 1) t (b2z d) (b2z w) (b2z s) x u) by (unfold inb in *; lia).
  destruct b; [rewrite e_dirty by exact B'; rewrite orb_true_r|rewrite orb_false_r]; sh.
Qed.
Lemma s_status : forall v l t d w s t', shows v l t d w s -> 0 <= t' < 8 -> shows (set_status v t') l t' d w s.
Proof. intros v l t d w s t' H Ht. destruct (shows_dec _ _ _ _ _ _ H) as (x & u & B & ->). rewrite e_status by (try exact B; lia). sh. Qed.
Lemma s_usage : forall v l t d w s u', shows v l t d w s -> 0 <= u' < 128 -> shows (set_usage v u') l t d w s.
Proof. intros v l t d w s u' H Ht. destruct (shows_dec _ _ _ _ _ _ H) as (x & u & B & ->). rewrite e_usage by (try exact B; lia). sh. Qed.
Lemma s_loaded : forall v l t d w s, shows v l t d w s -> shows (v_loaded v) l Loaded d w s.
Proof. intros. apply s_usage; [|lia]. eapply s_status; [eassumption|unfold Loaded; lia]. Qed.
Lemma s_scheduled : forall v l t d w s, shows v l t d w s -> shows (v_scheduled v) l t d w true.
Proof. intros v l t d w s H. destruct (shows_dec _ _ _ _ _ _ H) as (x & u & B & ->). unfold v_scheduled. rewrite e_sched by exact B. sh. Qed.
Lemma s_writing : forall v l t d w s, shows v l t d w s -> shows (v_writing v) l t false true false.
Proof.
  intros v l t d w s H. destruct (shows_dec _ _ _ _ _ _ H) as (x & u & B & ->). unfold v_writing. rewrite <- Z.ldiff_ldiff_l.
  rewrite e_clean by exact B. unfold inb in B. rewrite e_nsched by (unfold inb; lia). rewrite e_writing by (unfold inb; lia). sh.
Qed.
Lemma s_written : forall v l t d w s, shows v l t d w s -> shows (v_written v) l t d false s.
Proof. intros v l t d w s H. destruct (shows_dec _ _ _ _ _ _ H) as (x & u & B & ->). unfold v_written. rewrite e_nwriting by exact B. sh. Qed.
Lemma s_not_written : forall v l t d w s, shows v l t d w s -> shows (v_not_written v) l t true false true.
Proof.
  intros v l t d w s H. destruct (shows_dec _ _ _ _ _ _ H) as (x & u & B & ->). unfold v_not_written. rewrite Z.lor_assoc.
  rewrite e_nwriting by exact B. unfold inb in B. rewrite e_dirty by (unfold inb; lia). rewrite e_sched by (unfold inb; lia). sh.
Qed.
Lemma s_evictable : forall v l t d w s, shows v l t d w s -> evictable v = true -> t = Loaded /\ l = 0 /\ d = false /\ w = false.
Proof.
  intros v l t d w s (R & E1 & E2 & E3 & E4 & E5) H. unfold evictable in H. rewrite E1, E2 in H. unfold flag in *.
  rewrite Z.land_lor_distr_r in H. apply andb_true_iff in H as [H H3]. apply andb_true_iff in H as [H _]. apply andb_true_iff in H as [H1 H2].
  rewrite negb_involutive in H3. apply Z.eqb_eq in H3. apply Z.lor_eq_0_iff in H3 as [D W]. rewrite D in E3. rewrite W in E4.
  repeat split; try lia; symmetry; assumption.
Qed.
Lemma s_evict : forall v l t d w s, shows v l t d w s -> shows (v_evict v) l (if evictable v then Evicting else t) d w s.
Proof.
  intros v l t d w s H. unfold v_evict. destruct (evictable v).
  - eapply s_status; [exact H|unfold Evicting; lia].
  - apply s_usage; [exact H|]. destruct (shows_dec _ _ _ _ _ _ H) as (x & u & B & ->). rewrite (usage_bound _ _ _ _ _ _ _ B). unfold inb in B.
    Z.div_mod_to_equations; lia.
Qed.

(* ---- counting processes ---- *)
Definition cnt (f : pos -> bool) (ps : list Z) (a : Z -> pos) : Z := Z.of_nat (length (filter (fun p => f (a p)) ps)).
Lemma cnt_upd_out : forall f ps a p x, ~ In p ps -> cnt f ps (upd a p x) = cnt f ps a.
Proof.
  intros f ps a p x H. unfold cnt. do 2 f_equal. apply filter_ext_in. intros q Hq. rewrite upd_other; [reflexivity|]. intros ->. contradiction.
Qed.
Lemma cnt_upd : forall f ps a p x, NoDup ps -> In p ps -> cnt f ps (upd a p x) = cnt f ps a - b2z (f (a p)) + b2z (f x).
Proof.
  intros f ps a p x N. induction N as [|q ps Hq N IH]; intros H; [destruct H|]. destruct H as [->|H].
  - pose proof (cnt_upd_out f ps a p x Hq) as E. unfold cnt in *. cbn [filter]. rewrite upd_same.
    destruct (f x), (f (a p)); cbn [length b2z]; rewrite ?Nat2Z.inj_succ; lia.
  - specialize (IH H). assert (q <> p) by (intros ->; contradiction). unfold cnt in *. cbn [filter]. rewrite upd_other by assumption.
    destruct (f (a q)); cbn [length]; rewrite ?Nat2Z.inj_succ; lia.
Qed.
Lemma cnt_nonneg : forall f ps a, 0 <= cnt f ps a.
Proof. intros. unfold cnt. lia. Qed.
Lemma cnt_le_length : forall f ps a, cnt f ps a <= Z.of_nat (length ps).
Proof. intros. unfold cnt. induction ps as [|p ps IH]; cbn; [lia|]. destruct (f (a p)); cbn; lia. Qed.
Lemma cnt_le : forall f g ps a, (forall x, f x = true -> g x = true) -> cnt f ps a <= cnt g ps a.
Proof.
  intros f g ps a H. unfold cnt. induction ps as [|p ps IH]; cbn [filter length]; [lia|].
  destruct (f (a p)) eqn:E; [rewrite (H _ E)|destruct (g (a p))]; cbn [length]; lia.
Qed.
Lemma cnt_zero : forall f ps a p, cnt f ps a = 0 -> In p ps -> f (a p) = false.
Proof.
  intros f ps a p H Hp. destruct (f (a p)) eqn:E; [|reflexivity]. exfalso.
  assert (X : In p (filter (fun p => f (a p)) ps)) by (apply filter_In; auto). unfold cnt in H.
  destruct (filter (fun p => f (a p)) ps); [destruct X|cbn in H; lia].
Qed.
Lemma cnt_pos : forall f ps a p, In p ps -> f (a p) = true -> 0 < cnt f ps a.
Proof. intros f ps a p Hp E. pose proof (cnt_nonneg f ps a). destruct (Z.eq_dec (cnt f ps a) 0) as [H0|]; [|lia]. rewrite (cnt_zero _ _ _ _ H0 Hp) in E. discriminate. Qed.
Lemma cnt_idle : forall f ps, f Idle = false -> cnt f ps (fun _ => Idle) = 0.
Proof. intros f ps H. unfold cnt. induction ps as [|p ps IH]; [reflexivity|]. cbn [filter]. rewrite H in *. exact IH. Qed.
Lemma cnt_ex : forall f ps a, 0 < cnt f ps a -> exists p, In p ps /\ f (a p) = true.
Proof.
  intros f ps a H. unfold cnt in H. destruct (filter (fun p => f (a p)) ps) as [|p l] eqn:E; [cbn in H; lia|].
  exists p. apply (filter_In (fun p => f (a p))). rewrite E. left; reflexivity.
Qed.

Lemma shows_self : forall v, 0 <= v < 2 ^ 32 ->
  shows v (get_locks v) (get_status v) (flag v DIRTY_FLAG) (flag v WRITING_FLAG) (flag v SCHEDULED_FOR_WRITE_FLAG).
Proof. intros v H. repeat split; auto; lia. Qed.

Section Processes.
Variable ps : list Z.
Hypothesis ND : NoDup ps.
Hypothesis FEW : Z.of_nat (length ps) < 2 ^ 18.

(* ---- the lock count, in every run ---- *)
Definition InvL (s : st) : Prop := 0 <= word s < 2 ^ 32 /\ get_locks (word s) = cnt holds ps (at_ s).

Ltac shw v H := let S := fresh "S" in pose proof (shows_self v H) as S.
Ltac got H := destruct H as (? & ? & ? & ? & ? & ?).

Lemma setp_L : forall s p x, InvL s -> In p ps -> holds x = holds (at_ s p) -> InvL (setp s p x).
Proof. intros s p x [R L] Hp E. split; cbn; [exact R|]. rewrite cnt_upd by assumption. rewrite E. lia. Qed.
Lemma setw_L : forall s p w x l t d wr sc, InvL s -> In p ps -> shows w l t d wr sc ->
  l = get_locks (word s) - b2z (holds (at_ s p)) + b2z (holds x) -> InvL (setw s p w x).
Proof. intros s p w x l t d wr sc [R L] Hp S E. got S. split; cbn; [lia|]. rewrite cnt_upd by assumption. lia. Qed.
Lemma mk_L : forall s p f r c q1 q2 x w l t d wr sc, InvL s -> In p ps -> shows w l t d wr sc ->
  l = get_locks (word s) - b2z (holds (at_ s p)) + b2z (holds x) -> InvL (mkSt w f r c q1 q2 (upd (at_ s) p x)).
Proof. intros s p f r c q1 q2 x w l t d wr sc [R L] Hp S E. got S. split; cbn; [lia|]. rewrite cnt_upd by assumption. lia. Qed.

Lemma go_L : forall s p, InvL s -> In p ps -> InvL (go s p).
Proof.
  intros s p I Hp. pose proof I as [R L]. pose proof (shows_self _ R) as S.
  pose proof (cnt_le_length holds ps (at_ s)) as C.
  assert (CH : holds (at_ s p) = false -> cnt holds ps (at_ s) + 1 <= Z.of_nat (length ps)).
  { intros E. pose proof (cnt_le_length holds ps (upd (at_ s) p (Held false))) as C'. rewrite cnt_upd in C' by assumption. rewrite E in C'. cbn in C'. lia. }
  assert (CP : holds (at_ s p) = true -> 0 < cnt holds ps (at_ s)) by (intros; eapply cnt_pos; eauto).
  unfold go, cas. destruct (at_ s p) eqn:E; cbn [holds] in *;
    repeat match goal with |- context [if ?b then _ else _] => let B := fresh "B" in destruct b eqn:B end;
    try (apply setp_L; auto; rewrite E; reflexivity); try exact I;
    try (match goal with B : (word s =? ?v) = true |- _ => apply Z.eqb_eq in B; subst v end);
    try (eapply mk_L; [exact I|exact Hp|exact S|rewrite E; cbn; lia]).
  - eapply setw_L; [exact I|exact Hp|apply s_lock; [exact S|specialize (CH eq_refl); lia]|rewrite E; cbn; lia].
  - eapply setw_L; [exact I|exact Hp|apply s_unlock; [exact S|specialize (CP eq_refl); lia]|rewrite E; cbn; lia].
  - eapply mk_L; [exact I|exact Hp|eapply s_status; [exact S|unfold Loading; lia]|rewrite E; cbn; lia].
  - eapply setw_L; [exact I|exact Hp|eapply s_status; [exact S|unfold Loading; lia]|rewrite E; cbn; lia].
  - eapply setw_L; [exact I|exact Hp|eapply s_loaded; exact S|rewrite E; cbn; lia].
  - eapply mk_L; [exact I|exact Hp|eapply s_scheduled; exact S|rewrite E; cbn; lia].
  - eapply setw_L; [exact I|exact Hp|eapply s_writing; exact S|rewrite E; cbn; lia].
  - eapply setw_L; [exact I|exact Hp|eapply s_written; exact S|rewrite E; cbn; lia].
  - eapply setw_L; [exact I|exact Hp|eapply s_not_written; exact S|rewrite E; cbn; lia].
  - eapply setw_L; [exact I|exact Hp|eapply s_evict; exact S|rewrite E; cbn; lia].
  - eapply setw_L; [exact I|exact Hp|eapply s_evict; exact S|rewrite E; cbn; lia].
  - eapply setw_L; [exact I|exact Hp|eapply s_status; [exact S|unfold NotLoaded; lia]|rewrite E; cbn; lia].
Qed.
Lemma step_L : forall s o, InvL s -> only ps o -> InvL (step s o).
Proof.
  intros s o I Hp. pose proof I as [R L]. pose proof (shows_self _ R) as S. destruct o; cbn [step only] in *; try (apply go_L; assumption);
    destruct (at_ s p) eqn:E; try exact I; try match goal with |- context [0 <? ?q] => destruct (0 <? q) end; try exact I;
    try (apply setp_L; auto; rewrite E; reflexivity);
    (eapply mk_L; [exact I|exact Hp|exact S|rewrite E; cbn; lia]).
Qed.
Lemma run_L : forall ops s, InvL s -> Forall (only ps) ops -> InvL (run step s ops).
Proof.
  induction ops as [|o ops IH]; intros s I F; [exact I|]. inversion F; subst. apply (IH (step s o)); auto. apply step_L; auto.
Qed.

(* ---- who may change the status, when no finished download is repeated ---- *)
Definition rt (x : pos) : bool := match x with RT0 | RTw _ | RT1 | RTm _ | RT2 | RTl _ => true | _ => false end.
Definition ev (x : pos) : bool := match x with EvZ | EvN0 | EvN _ => true | _ => false end.
Definition badm (x : pos) : bool := match x with RTm v => negb (get_status v =? Loading) | _ => false end.
Record InvS (s : st) : Prop := mkS {
  s_r : 0 <= word s < 2 ^ 32;
  s_l : get_locks (word s) = cnt holds ps (at_ s);
  s_t : 0 <= get_status (word s) <= 3;
  s_q : 0 <= rq s;
  s_rt : rq s + cnt rt ps (at_ s) = b2z (get_status (word s) =? Loading);
  s_ev : cnt ev ps (at_ s) = b2z (get_status (word s) =? Evicting);
  s_h : 0 < cnt holds ps (at_ s) -> get_status (word s) = Loaded;
  s_m : cnt badm ps (at_ s) = 0 }.

Lemma mk_S : forall s p f r c q1 q2 x w l t d wr sc, InvS s -> In p ps -> shows w l t d wr sc ->
  l = cnt holds ps (at_ s) - b2z (holds (at_ s p)) + b2z (holds x) ->
  0 <= t <= 3 -> 0 <= q1 ->
  q1 + (cnt rt ps (at_ s) - b2z (rt (at_ s p)) + b2z (rt x)) = b2z (t =? Loading) ->
  cnt ev ps (at_ s) - b2z (ev (at_ s p)) + b2z (ev x) = b2z (t =? Evicting) ->
  (0 < l -> t = Loaded) -> badm x = false ->
  InvS (mkSt w f r c q1 q2 (upd (at_ s) p x)).
Proof.
  intros s p f r c q1 q2 x w l t d wr sc I Hp S E T Q RT EV H M. destruct I as [R L T0 Q0 RT0 EV0 H0 M0].
  destruct S as (S1 & S2 & S3 & S4 & S5 & S6).
  assert (X : badm (at_ s p) = false) by (eapply cnt_zero; eauto).
  constructor; cbn [word at_ rq]; rewrite ?cnt_upd by assumption; rewrite ?S2, ?S3; auto.
  - rewrite <- E. exact H.
  - rewrite M, X, M0. reflexivity.
Qed.
Lemma self_S : forall s p f r c q2 x, InvS s -> In p ps ->
  holds x = holds (at_ s p) -> rt x = rt (at_ s p) -> ev x = ev (at_ s p) -> badm x = false ->
  InvS (mkSt (word s) f r c (rq s) q2 (upd (at_ s) p x)).
Proof.
  intros s p f r c q2 x I Hp E1 E2 E3 E4. pose proof I as [R L T0 Q0 RT0 EV0 H0 M0].
  eapply mk_S; [exact I|exact Hp|exact (shows_self _ R)|..]; rewrite ?E1, ?E2, ?E3, ?Z.sub_add; auto. rewrite L. exact H0.
Qed.

(* Facts about where the process is. *)
Lemma S_rt : forall s p, InvS s -> In p ps -> rt (at_ s p) = true -> get_status (word s) = Loading /\ rq s = 0 /\ cnt rt ps (at_ s) = 1.
Proof.
  intros s p I Hp E. pose proof (cnt_pos rt ps (at_ s) p Hp E). pose proof (s_rt s I). pose proof (s_q s I).
  destruct (Z.eqb_spec (get_status (word s)) Loading); cbn [b2z] in *; lia.
Qed.
Lemma S_ev : forall s p, InvS s -> In p ps -> ev (at_ s p) = true -> get_status (word s) = Evicting /\ cnt ev ps (at_ s) = 1.
Proof.
  intros s p I Hp E. pose proof (cnt_pos ev ps (at_ s) p Hp E). pose proof (s_ev s I).
  destruct (Z.eqb_spec (get_status (word s)) Evicting); cbn [b2z] in *; lia.
Qed.
Lemma S_hold : forall s p, InvS s -> In p ps -> holds (at_ s p) = true -> get_status (word s) = Loaded.
Proof. intros s p I Hp E. apply (s_h s I). eapply cnt_pos; eauto. Qed.

Ltac eqw := match goal with B : (word ?s =? ?v) = true |- _ => apply Z.eqb_eq in B; subst v end.
Ltac dif := repeat match goal with |- context [if ?b then _ else _] => let B := fresh "B" in destruct b eqn:B end.

Ltac bz := cbn [holds rt ev badm]; change (b2z false) with 0; change (b2z true) with 1;
  change (b2z (Loading =? Loading)) with 1; change (b2z (Loading =? Evicting)) with 0;
  change (b2z (Loaded =? Loading)) with 0; change (b2z (Loaded =? Evicting)) with 0;
  change (b2z (Evicting =? Loading)) with 0; change (b2z (Evicting =? Evicting)) with 1;
  change (b2z (NotLoaded =? Loading)) with 0; change (b2z (NotLoaded =? Evicting)) with 0.
Ltac bz_in H :=
  change (b2z (Loading =? Loading)) with 1 in H; change (b2z (Loading =? Evicting)) with 0 in H;
  change (b2z (Loaded =? Loading)) with 0 in H; change (b2z (Loaded =? Evicting)) with 0 in H;
  change (b2z (Evicting =? Loading)) with 0 in H; change (b2z (Evicting =? Evicting)) with 1 in H;
  change (b2z (NotLoaded =? Loading)) with 0 in H; change (b2z (NotLoaded =? Evicting)) with 0 in H.

Lemma go_S : forall s p, InvS s -> In p ps -> InvS (go s p).
Proof.
  intros s p I Hp. pose proof I as [R L T Q RT EV H M]. pose proof (shows_self _ R) as S.
  pose proof (go_L s p (conj R L) Hp) as IL.
  pose proof (cnt_le_length holds ps (at_ s)) as C.
  assert (CH : holds (at_ s p) = false -> cnt holds ps (at_ s) + 1 <= Z.of_nat (length ps)).
  { intros E. pose proof (cnt_le_length holds ps (upd (at_ s) p (Held false))) as C'. rewrite cnt_upd in C' by assumption. rewrite E in C'. cbn in C'. lia. }
  pose proof (S_rt s p I Hp) as FR. pose proof (S_ev s p I Hp) as FE. pose proof (S_hold s p I Hp) as FH.
  pose proof (cnt_nonneg holds ps (at_ s)) as CN.
  pose proof (cnt_zero badm ps (at_ s) p M Hp) as FM.
  unfold go, cas, setp, setw in *.
  destruct (at_ s p) eqn:E; cbn [holds rt ev badm] in *; try exact I;
    repeat match goal with FX : true = true -> _ |- _ => specialize (FX eq_refl) | FX : false = true -> _ |- _ => clear FX end;
    revert IL; dif; intros IL;
    try (apply self_S; [exact I|exact Hp|..]; rewrite ?E; cbn [holds rt ev badm]; try reflexivity);
    try eqw.
  all: pose proof (cnt_nonneg rt ps (at_ s)) as CR; pose proof (cnt_nonneg ev ps (at_ s)) as CE.
  - (* lock *) rename B into B1. eapply mk_S; [exact I|exact Hp|apply s_lock; [exact S|specialize (CH eq_refl); lia]|..]; rewrite ?E; bz; try lia.
  - (* unlock *) assert (0 < cnt holds ps (at_ s)) by (eapply cnt_pos; [exact Hp|rewrite E; reflexivity]).
    eapply mk_S; [exact I|exact Hp|apply s_unlock; [exact S|lia]|..]; rewrite ?E; bz; try lia.
  - (* loading *)
    assert (T0 : get_status (word s) = NotLoaded) by (unfold NotLoaded, Loading, Loaded, Evicting in *; lia). rewrite T0 in *. bz_in RT. bz_in EV.
    eapply mk_S; [exact I|exact Hp|eapply s_status with (t' := Loading); [exact S|unfold Loading; lia]|..]; rewrite ?E; bz; try (unfold Loading; lia).
  - destruct FR as (F1 & _). rewrite F1. reflexivity.
  - apply negb_false_iff in FM. apply Z.eqb_eq in FM. rewrite FM in B. discriminate.
  - destruct FR as (F1 & _). rewrite F1. reflexivity.
  - apply negb_false_iff in FM. rewrite FM in *. discriminate.
  - destruct FR as (F1 & _). rewrite F1. reflexivity.
  - (* loaded *) destruct FR as (F1 & F2 & F3). rewrite F1 in *. bz_in RT. bz_in EV.
    eapply mk_S; [exact I|exact Hp|eapply s_loaded; exact S|..]; rewrite ?E; bz; try (unfold Loaded; lia).
  - eapply mk_S; [exact I|exact Hp|eapply s_scheduled; exact S|..]; rewrite ?E; bz; lia.
  - eapply mk_S; [exact I|exact Hp|eapply s_writing; exact S|..]; rewrite ?E; bz; lia.
  - eapply mk_S; [exact I|exact Hp|eapply s_written; exact S|..]; rewrite ?E; bz; lia.
  - eapply mk_S; [exact I|exact Hp|eapply s_not_written; exact S|..]; rewrite ?E; bz; lia.
  - (* evicting *) destruct (s_evictable _ _ _ _ _ _ S B0) as (T0 & L0 & D0 & W0). rewrite T0 in *. bz_in RT. bz_in EV.
    eapply mk_S; [exact I|exact Hp|eapply s_evict; exact S|..]; rewrite ?E, ?B0; bz; try (unfold Evicting; lia).
  - eapply mk_S; [exact I|exact Hp|eapply s_evict; exact S|..]; rewrite ?E, ?B0; bz; lia.
  - (* not loaded *) destruct FE as (F1 & F2). rewrite F1 in *. bz_in RT. bz_in EV.
    eapply mk_S; [exact I|exact Hp|eapply s_status with (t' := NotLoaded); [exact S|unfold NotLoaded; lia]|..]; rewrite ?E; bz; try (unfold NotLoaded; lia).
    intros ?. assert (X : 0 < cnt holds ps (at_ s)) by lia. specialize (H X). discriminate.
Qed.
Lemma step_S : forall s o, InvS s -> only ps o -> ~ repeats_load s o -> InvS (step s o).
Proof.
  intros s o I Hp NR. pose proof I as [R L T Q RT EV H M]. pose proof (shows_self _ R) as S.
  destruct o; cbn [step only repeats_load] in *; try (apply go_S; assumption); unfold setp, setw;
    destruct (at_ s p) eqn:E; try exact I; try congruence;
    try match goal with |- context [0 <? ?q] => destruct (Z.ltb_spec 0 q) end; try exact I;
    try (apply self_S; [exact I|exact Hp|..]; rewrite ?E; cbn [holds rt ev badm]; reflexivity).
  eapply mk_S; [exact I|exact Hp|exact S|..]; rewrite ?E; bz; try lia.
Qed.
Lemma run_S : forall ops s, InvS s -> Forall (only ps) ops -> never repeats_load s ops -> InvS (run step s ops).
Proof.
  induction ops as [|o ops IH]; intros s I F N; [exact I|]. inversion F; subst. destruct N as [N1 N2].
  apply (IH (step s o)); auto. apply step_S; auto.
Qed.

(* ---- contents, when in addition no upload is repeated or overlaps another ---- *)
Definition wa (x : pos) : bool := match x with WT0 | WTm _ => true | _ => false end.
Definition wrote (x : pos) : bool := match x with Held true | UnlV true _ => true | _ => false end.
(* an upload that will store the present contents, or be repeated *)
Definition cover (c : Z) (x : pos) : bool := match x with WTr | WTf0 | WTf _ => true | WTu d => d =? c | _ => false end.
(* an upload that will store older contents *)
Definition stale (c : Z) (x : pos) : bool := match x with WTu d => negb (d =? c) | _ => false end.
(* a download that does not bring the present contents *)
Definition badrt (f c : Z) (x : pos) : bool :=
  match x with RTw d => negb (d =? c) | RT1 | RTm _ | RT2 | RTl _ => negb (f =? c) | _ => false end.
Definition D (s : st) := flag (word s) DIRTY_FLAG.
Record InvD (s : st) : Prop := mkD {
  d_S : InvS s;
  d_q : 0 <= wq s;
  d_one : wq s + cnt wa ps (at_ s) + cnt uploading ps (at_ s) <= 1;
  d_w : b2z (flag (word s) WRITING_FLAG) = cnt uploading ps (at_ s);
  d_s : b2z (flag (word s) SCHEDULED_FOR_WRITE_FLAG) = wq s + cnt wa ps (at_ s);
  d_sd : flag (word s) SCHEDULED_FOR_WRITE_FLAG = true -> D s = true;
  d_file : get_status (word s) = Loaded -> file s = cur s;
  d_rem : (remote s = cur s /\ cnt (stale (cur s)) ps (at_ s) = 0) \/ D s = true \/ 0 < cnt wrote ps (at_ s) \/ 0 < cnt (cover (cur s)) ps (at_ s);
  d_out : get_status (word s) <> Loaded -> remote s = cur s /\ D s = false /\ cnt uploading ps (at_ s) = 0;
  d_rt : cnt (badrt (file s) (cur s)) ps (at_ s) = 0 }.

Lemma mk_D : forall s p f r c q1 q2 x w l t d wr sc, InvD s -> In p ps -> shows w l t d wr sc ->
  InvS (mkSt w f r c q1 q2 (upd (at_ s) p x)) ->
  0 <= q2 ->
  q2 + (cnt wa ps (at_ s) - b2z (wa (at_ s p)) + b2z (wa x)) + (cnt uploading ps (at_ s) - b2z (uploading (at_ s p)) + b2z (uploading x)) <= 1 ->
  b2z wr = cnt uploading ps (at_ s) - b2z (uploading (at_ s p)) + b2z (uploading x) ->
  b2z sc = q2 + (cnt wa ps (at_ s) - b2z (wa (at_ s p)) + b2z (wa x)) ->
  (sc = true -> d = true) ->
  (t = Loaded -> f = c) ->
  ((r = c /\ cnt (stale c) ps (at_ s) - b2z (stale c (at_ s p)) + b2z (stale c x) = 0) \/ d = true \/ 0 < cnt wrote ps (at_ s) - b2z (wrote (at_ s p)) + b2z (wrote x) \/ 0 < cnt (cover c) ps (at_ s) - b2z (cover c (at_ s p)) + b2z (cover c x)) ->
  (t <> Loaded -> r = c /\ d = false /\ cnt uploading ps (at_ s) - b2z (uploading (at_ s p)) + b2z (uploading x) = 0) ->
  cnt (badrt f c) ps (upd (at_ s) p x) = 0 ->
  InvD (mkSt w f r c q1 q2 (upd (at_ s) p x)).
Proof.
  intros s p f r c q1 q2 x w l t d wr sc I Hp S IS A1 A2 A3 A4 A5 A6 A7 A8 A9.
  destruct S as (S1 & S2 & S3 & S4 & S5 & S6).
  constructor; [exact IS|..]; unfold D; cbn [word at_ rq wq file remote cur]; rewrite ?S3, ?S4, ?S5, ?S6;
    [..|exact A9]; rewrite ?cnt_upd by assumption; assumption.
Qed.
(* only the position of [p] changes, to one alike *)
Lemma self_D : forall s p q1 x, InvD s -> In p ps ->
  InvS (mkSt (word s) (file s) (remote s) (cur s) q1 (wq s) (upd (at_ s) p x)) ->
  wa x = wa (at_ s p) -> uploading x = uploading (at_ s p) -> wrote x = wrote (at_ s p) ->
  (cover (cur s) (at_ s p) = true -> cover (cur s) x = true) ->
  badrt (file s) (cur s) x = false -> stale (cur s) x = false ->
  InvD (mkSt (word s) (file s) (remote s) (cur s) q1 (wq s) (upd (at_ s) p x)).
Proof.
  intros s p q1 x I Hp IS E1 E2 E3 E4 E5 E7. pose proof I as [IS0 A1 A2 A3 A4 A5 A6 A7 A8 A9]. pose proof IS0 as [R _ _ _ _ _ _ _].
  assert (E6 : badrt (file s) (cur s) (at_ s p) = false) by (eapply cnt_zero; eauto).
  eapply mk_D; [exact I|exact Hp|exact (shows_self _ R)|exact IS|..]; rewrite ?E1, ?E2, ?E3, ?Z.sub_add; try assumption.
  - destruct A7 as [[A7 B7]|[A7|[A7|A7]]]; [left; split; [exact A7|]|right; left; exact A7|do 2 right; left; exact A7|].
    { rewrite B7, E7, (cnt_zero _ _ _ _ B7 Hp). reflexivity. }
    do 3 right.
    clear - A7 E4. destruct (cover (cur s) (at_ s p)); [rewrite E4 by reflexivity; cbn [b2z]; lia|]. destruct (cover (cur s) x); cbn [b2z]; lia.
  - rewrite cnt_upd by assumption. rewrite E5, E6, A9. reflexivity.
Qed.
Lemma badrt_le : forall f c a, cnt (badrt f c) ps a <= cnt rt ps a.
Proof. intros. apply cnt_le. intros []; cbn; auto; discriminate. Qed.
Lemma cover_up : forall c a, cnt (cover c) ps a + cnt (stale c) ps a <= cnt uploading ps a.
Proof.
  intros c a. clear ND FEW. unfold cnt. induction ps as [|p l IH]; cbn [filter length]; [lia|].
  destruct (a p) eqn:E; cbn [cover stale uploading length]; try lia. match goal with |- context [?d =? c] => destruct (d =? c) end; cbn [negb length]; lia.
Qed.
Lemma wrote_holds : forall a, cnt wrote ps a <= cnt holds ps a.
Proof. intros. apply cnt_le. intros []; cbn; auto; discriminate. Qed.

Ltac bd := cbn [wa uploading wrote cover stale badrt holds rt ev]; change (b2z false) with 0; change (b2z true) with 1.
Lemma D_up : forall s p, InvD s -> In p ps -> uploading (at_ s p) = true ->
  get_status (word s) = Loaded /\ cnt uploading ps (at_ s) = 1 /\ wq s = 0 /\ cnt wa ps (at_ s) = 0.
Proof.
  intros s p I Hp E. pose proof (cnt_pos uploading ps (at_ s) p Hp E). pose proof (cnt_nonneg wa ps (at_ s)).
  destruct I. split; [|lia]. destruct (Z.eq_dec (get_status (word s)) Loaded) as [X|X]; [exact X|]. destruct (d_out0 X) as (_ & _ & ?). lia.
Qed.
Lemma D_wa : forall s p, InvD s -> In p ps -> wa (at_ s p) = true ->
  get_status (word s) = Loaded /\ cnt uploading ps (at_ s) = 0 /\ wq s = 0 /\ cnt wa ps (at_ s) = 1 /\ D s = true.
Proof.
  intros s p I Hp E. pose proof (cnt_pos wa ps (at_ s) p Hp E). pose proof (cnt_nonneg uploading ps (at_ s)).
  destruct I. assert (X : D s = true). { apply d_sd0. destruct (flag (word s) SCHEDULED_FOR_WRITE_FLAG); [reflexivity|]. cbn [b2z] in *. lia. }
  split; [|repeat split; auto; lia]. destruct (Z.eq_dec (get_status (word s)) Loaded) as [Y|Y]; [exact Y|]. destruct (d_out0 Y) as (_ & Z & _). congruence.
Qed.

Ltac alike := apply self_D; [assumption|assumption|assumption|..];
  match goal with E : at_ _ _ = _ |- _ => rewrite ?E end; cbn [wa uploading wrote cover stale badrt];
  first [reflexivity | assumption | exact (fun X => X) | (intros X; discriminate X) | (intros _; reflexivity)].
Ltac facts I Hp := let IS := fresh "IS" in
  pose proof I as [IS A1 A2 A3 A4 A5 A6 A7 A8 A9]; pose proof IS as [R L T Q RT EV H M].

Ltac li := lia.
Ltac mkd S0 := eapply mk_D; [eassumption|eassumption|exact S0|eassumption|..];
  match goal with E : at_ _ _ = _ |- _ => rewrite ?E end; bd.
Lemma go_D : forall s p, InvD s -> In p ps -> ~ repeats_upload ps s (Go p) -> InvD (go s p).
Proof.
  intros s p I Hp NU. pose proof (go_S s p (d_S s I) Hp) as IS'. facts I Hp. pose proof (shows_self _ R) as S.
  pose proof (cnt_nonneg wa ps (at_ s)) as N1. pose proof (cnt_nonneg uploading ps (at_ s)) as N2. pose proof (cnt_nonneg wrote ps (at_ s)) as N3.
  pose proof (cnt_nonneg holds ps (at_ s)) as N4. pose proof (cnt_nonneg (cover (cur s)) ps (at_ s)) as N5.
  pose proof (cover_up (cur s) (at_ s)) as N6. pose proof (wrote_holds (at_ s)) as N7. pose proof (cnt_nonneg rt ps (at_ s)) as N8.
  pose proof (D_up s p I Hp) as FU. pose proof (D_wa s p I Hp) as FW. pose proof (S_rt s p IS Hp) as FR. pose proof (S_ev s p IS Hp) as FE. pose proof (S_hold s p IS Hp) as FH.
  pose proof (cnt_zero _ ps (at_ s) p A9 Hp) as FB.
  assert (BZ : forall x, badrt (file s) (cur s) x = false -> cnt (badrt (file s) (cur s)) ps (upd (at_ s) p x) = 0)
    by (intros x Hx; rewrite cnt_upd by assumption; rewrite Hx, FB, A9; reflexivity).
  cbn [repeats_upload step] in NU.
  unfold go in IS', NU |- *. destruct (at_ s p) eqn:E; cbn [wa uploading holds rt ev badrt] in FU, FW, FR, FE, FH, FB;
    unfold cas, setp, setw in IS' |- *; try exact I; try alike;
    repeat match goal with FX : true = true -> _ |- _ => specialize (FX eq_refl) | FX : false = true -> _ |- _ => clear FX end.
  all: pose proof (cnt_nonneg (stale (cur s)) ps (at_ s)) as N9.
  - (* LockV *) destruct (get_status v =? Loaded) eqn:TV; [|alike]. destruct (Z.eqb_spec (word s) v); [|alike]. subst v.
    assert (CH : cnt holds ps (at_ s) + 1 <= Z.of_nat (length ps)).
    { pose proof (cnt_le_length holds ps (upd (at_ s) p (Held false))) as C'. rewrite cnt_upd in C' by assumption. rewrite E in C'. cbn in C'. lia. }
    assert (S' := s_lock _ _ _ _ _ _ S ltac:(lia)).
    mkd S'; rewrite ?Z.sub_0_r, ?Z.add_0_r; [exact A1|exact A2|exact A3|exact A4|exact A5|exact A6|exact A7|exact A8|apply BZ; reflexivity].
  - (* UnlV *) destruct (Z.eqb_spec (word s) v); [|destruct wrote0; alike]. subst v.
    assert (C0 : 0 < cnt holds ps (at_ s)) by (eapply cnt_pos; [exact Hp|rewrite E; reflexivity]).
    assert (S' := s_unlock _ _ _ _ _ _ wrote0 S ltac:(lia)).
    mkd S'; rewrite ?Z.sub_0_r, ?Z.add_0_r; [exact A1|exact A2|exact A3|exact A4|..|exact A6| | |apply BZ; reflexivity].
    + intros X. change (flag (word s) DIRTY_FLAG) with (D s). rewrite (A5 X). reflexivity.
    + destruct wrote0; [right; left; apply orb_true_r|]. rewrite orb_false_r. change (b2z false) with 0. rewrite ?Z.sub_0_r. exact A7.
    + intros X. contradiction.
  - (* LoadV *) destruct ((get_status v =? Loaded) || (get_status v =? Loading)) eqn:B1; [alike|]. destruct (get_status v =? Evicting) eqn:B2; [alike|].
    destruct (Z.eqb_spec (word s) v); [|alike]. subst v. apply orb_false_iff in B1 as [B1 B3]. apply Z.eqb_neq in B1.
    assert (S' := s_status _ _ _ _ _ _ Loading S ltac:(unfold Loading; lia)). pose proof (A8 B1) as O.
    mkd S'; rewrite ?Z.sub_0_r, ?Z.add_0_r; [exact A1|exact A2|exact A3|exact A4|exact A5|discriminate|exact A7|intros _; exact O|apply BZ; reflexivity].
  - (* RT0 *) destruct FR as (F1 & F2 & F3). destruct (A8 ltac:(rewrite F1; discriminate)) as (O1 & O2 & O3).
    apply self_D; [exact I|exact Hp|exact IS'|..]; rewrite ?E; bd; try reflexivity; [discriminate|]. rewrite O1, Z.eqb_refl. reflexivity.
  - (* RTw *) destruct FR as (F1 & F2 & F3). assert (d = cur s) by (apply negb_false_iff in FB; lia). subst d.
    pose proof (A8 ltac:(rewrite F1; discriminate)) as O.
    mkd S; rewrite ?Z.sub_0_r, ?Z.add_0_r; [exact A1|exact A2|exact A3|exact A4|exact A5|reflexivity|exact A7|intros _; exact O|].
    assert (B0 : cnt (badrt (cur s) (cur s)) ps (at_ s) <= cnt (badrt (file s) (cur s)) ps (at_ s)).
    { apply cnt_le. intros x. destruct x; cbn [badrt]; rewrite ?Z.eqb_refl; auto; discriminate. }
    pose proof (cnt_nonneg (badrt (cur s) (cur s)) ps (at_ s)).
    rewrite cnt_upd by assumption. rewrite E. cbn [badrt]. rewrite Z.eqb_refl. cbn [negb b2z]. lia.
  - (* RTm *) assert (get_status v = Loading) as TV.
    { pose proof (cnt_zero badm ps (at_ s) p M Hp) as FM. rewrite E in FM. cbn [badm] in FM. apply negb_false_iff in FM. lia. }
    rewrite TV in *. change (Loading =? Loaded) with false in *. change (Loading =? Loading) with true in *. cbn iota in *. alike.
  - (* RTl *) destruct FR as (F1 & F2 & F3). destruct (Z.eqb_spec (word s) v); [|alike]. subst v.
    pose proof (A8 ltac:(rewrite F1; discriminate)) as O.
    assert (S' := s_loaded _ _ _ _ _ _ S). mkd S'; rewrite ?Z.sub_0_r, ?Z.add_0_r; [exact A1|exact A2|exact A3|exact A4|exact A5| |exact A7|congruence|apply BZ; reflexivity].
    intros _. apply negb_false_iff in FB. lia.
  - (* SchedV *) destruct (negb (flag v DIRTY_FLAG) || flag v SCHEDULED_FOR_WRITE_FLAG) eqn:B1; [alike|].
    destruct (Z.eqb_spec (word s) v); [|alike]. subst v. apply orb_false_iff in B1 as [B1 B2]. apply negb_false_iff in B1.
    rewrite B2 in A4. change (b2z false) with 0 in A4.
    assert (U0 : cnt uploading ps (at_ s) = 0).
    { destruct (Z.eq_dec (cnt uploading ps (at_ s)) 0); [assumption|]. exfalso. apply NU. split; [eauto|]. split; [unfold number; fold (cnt uploading ps (at_ s)); lia|].
      cbn [wq]. lia. }
    assert (S' := s_scheduled _ _ _ _ _ _ S).
    mkd S'; rewrite ?Z.sub_0_r, ?Z.add_0_r; [clear - A1; lia|clear - A4 U0; lia|exact A3|clear - A4 U0; lia|intros _; exact B1|exact A6|right; left; exact B1| |apply BZ; reflexivity].
    intros X. destruct (A8 X) as (_ & Y & _). unfold D in Y. congruence.
  - (* WTm *) destruct FW as (F1 & F2 & F3 & F4 & F5). destruct (Z.eqb_spec (word s) v); [|alike]. subst v.
    assert (S' := s_writing _ _ _ _ _ _ S).
    mkd S'; rewrite ?Z.sub_0_r, ?Z.add_0_r; [exact A1|clear - F2 F3 F4; lia|clear - F2; lia|clear - F3 F4; lia|discriminate|exact A6|do 3 right; clear - N5; lia|congruence|apply BZ; reflexivity].
  - (* WTr *) destruct FU as (F1 & F2 & F3 & F4). apply self_D; [exact I|exact Hp|exact IS'|..]; rewrite ?E; bd; try reflexivity.
    + intros _. rewrite (A6 F1). apply Z.eqb_refl.
    + rewrite (A6 F1), Z.eqb_refl. reflexivity.
  - (* WTu *) destruct FU as (F1 & F2 & F3 & F4).
    mkd S; rewrite ?Z.sub_0_r, ?Z.add_0_r; [exact A1|clear - A2; lia|clear - A3; lia|exact A4|exact A5|exact A6| |congruence|apply BZ; reflexivity].
    destruct (Z.eqb_spec d (cur s)) as [X|X].
    + left. split; [exact X|]. change (b2z (negb true)) with 0.
      assert (0 < cnt (cover (cur s)) ps (at_ s)) by (eapply cnt_pos; [exact Hp|rewrite E; cbn; lia]). clear - N6 N9 F2 H0; lia.
    + assert (0 < cnt (stale (cur s)) ps (at_ s)) by (eapply cnt_pos; [exact Hp|rewrite E; cbn; lia]). right.
      destruct A7 as [[A7 B7]|[A7|[A7|A7]]]; [clear - B7 H0; lia|left; exact A7|right; left; exact A7|clear - A7 H0 N6 F2; lia].
  - (* WTd *) destruct FU as (F1 & F2 & F3 & F4). destruct (Z.eqb_spec (word s) v); [|alike]. subst v.
    assert (S' := s_written _ _ _ _ _ _ S).
    mkd S'; rewrite ?Z.sub_0_r, ?Z.add_0_r; [exact A1|clear - A2; lia|clear - F2; lia|exact A4|exact A5|exact A6|exact A7|congruence|apply BZ; reflexivity].
  - (* WTf *) destruct FU as (F1 & F2 & F3 & F4). destruct (Z.eqb_spec (word s) v); [|alike]. subst v.
    assert (S' := s_not_written _ _ _ _ _ _ S).
    mkd S'; rewrite ?Z.sub_0_r, ?Z.add_0_r; [exact A1|clear - A2; lia|clear - F2; lia|clear - F3 F4; lia|reflexivity|exact A6|right; left; reflexivity|congruence|apply BZ; reflexivity].
  - (* EvV *) destruct (Z.eqb_spec (word s) v); [|alike]. subst v. assert (S' := s_evict _ _ _ _ _ _ S).
    destruct (evictable (word s)) eqn:EB.
    + destruct (s_evictable _ _ _ _ _ _ S EB) as (T0 & L0 & D0 & W0). rewrite W0 in A3. change (b2z false) with 0 in A3.
      mkd S'; rewrite ?Z.sub_0_r, ?Z.add_0_r; [exact A1|exact A2|rewrite W0; exact A3|exact A4|exact A5|discriminate|exact A7| |apply BZ; reflexivity].
      intros _. split; [|split; [exact D0|symmetry; exact A3]].
      destruct A7 as [[A7 B7]|[A7|[A7|A7]]]; [exact A7|unfold D in A7; congruence|clear - A7 N7 L0 L; lia|clear - A7 A3 N6 N9; lia].
    + mkd S'; rewrite ?Z.sub_0_r, ?Z.add_0_r; [exact A1|exact A2|exact A3|exact A4|exact A5|exact A6|exact A7|exact A8|apply BZ; reflexivity].
  - (* EvZ *) destruct FE as (F1 & F2). pose proof (A8 ltac:(rewrite F1; discriminate)) as O.
    mkd S; rewrite ?Z.sub_0_r, ?Z.add_0_r; [exact A1|exact A2|exact A3|exact A4|exact A5|rewrite F1; discriminate|exact A7|intros _; exact O|].
    assert (B0 : cnt (badrt 0 (cur s)) ps (at_ s) = 0).
    { pose proof (badrt_le 0 (cur s) (at_ s)). pose proof (cnt_nonneg (badrt 0 (cur s)) ps (at_ s)). rewrite F1 in RT. bz_in RT. lia. }
    rewrite cnt_upd by assumption. rewrite E, B0. reflexivity.
  - (* EvN *) destruct FE as (F1 & F2). destruct (Z.eqb_spec (word s) v); [|alike]. subst v. pose proof (A8 ltac:(rewrite F1; discriminate)) as O.
    assert (S' := s_status _ _ _ _ _ _ NotLoaded S ltac:(unfold NotLoaded; lia)).
    mkd S'; rewrite ?Z.sub_0_r, ?Z.add_0_r; [exact A1|exact A2|exact A3|exact A4|exact A5|discriminate|exact A7|intros _; exact O|apply BZ; reflexivity].
Qed.
Lemma step_D : forall s o, InvD s -> only ps o -> ~ repeats_load s o -> ~ repeats_upload ps s o -> InvD (step s o).
Proof.
  intros s o I Hp NR NU. pose proof (step_S s o (d_S s I) Hp NR) as IS'. destruct o; cbn [step only] in *; try (apply go_D; assumption);
    unfold setp, setw in *; cbn [repeats_load repeats_upload] in NR, NU; destruct (at_ s p) eqn:E; try exact I; try (exfalso; auto; fail);
    try alike.
  - (* Write *) facts I Hp. pose proof (shows_self _ R) as S. assert (HL : get_status (word s) = Loaded) by (apply (S_hold s p IS Hp); rewrite E; reflexivity).
    pose proof (cnt_nonneg wrote ps (at_ s)) as N3.
    assert (N3' : 0 <= cnt wrote ps (at_ s) - b2z (wrote (Held wrote0))).
    { destruct wrote0; bd; [|lia]. assert (0 < cnt wrote ps (at_ s)) by (eapply cnt_pos; [exact Hp|rewrite E; reflexivity]). lia. }
    mkd S; rewrite ?Z.sub_0_r, ?Z.add_0_r; [exact A1|exact A2|exact A3|exact A4|exact A5|reflexivity| |congruence|].
    + do 2 right; left. clear - N3'. cbn [wrote] in N3'. lia.
    + assert (B0 : cnt (badrt x x) ps (at_ s) = 0).
      { pose proof (badrt_le x x (at_ s)). pose proof (cnt_nonneg (badrt x x) ps (at_ s)). rewrite HL in RT. bz_in RT. lia. }
      rewrite cnt_upd by assumption. rewrite E, B0. reflexivity.
  - (* PickRead *) destruct (0 <? rq s) eqn:B; [|exact I]. alike.
  - (* PickWrite *) destruct (Z.ltb_spec 0 (wq s)) as [B|B]; [|exact I]. facts I Hp. pose proof (shows_self _ R) as S.
    mkd S; rewrite ?Z.sub_0_r, ?Z.add_0_r; [clear - B; lia|clear - A2; lia|exact A3|clear - A4; lia|exact A5|exact A6|exact A7|exact A8|].
    rewrite cnt_upd by assumption. rewrite E, A9. reflexivity.
Qed.
Lemma run_D : forall ops s, InvD s -> Forall (only ps) ops -> never repeats_load s ops -> never (repeats_upload ps) s ops -> InvD (run step s ops).
Proof.
  induction ops as [|o ops IH]; intros s I F N N'; [exact I|]. inversion F; subst. destruct N as [N1 N2], N' as [N1' N2'].
  apply (IH (step s o)); auto. apply step_D; auto.
Qed.

Lemma start_S : forall w f r c, w = 0 \/ w = set_status 0 Loaded -> InvS (mkSt w f r c 0 0 (fun _ => Idle)).
Proof.
  intros w f r c H. assert (E : w = 0 \/ w = 524288) by (destruct H as [->| ->]; [left|right]; reflexivity).
  destruct E as [-> | ->]; constructor; cbn [word rq at_]; rewrite ?cnt_idle by reflexivity; vm_compute; repeat split; try reflexivity; try discriminate.
Qed.
Lemma start_D : forall s, (exists c, s = start_stored c) \/ s = start_new -> InvD s.
Proof.
  intros s [[c ->]| ->]; (constructor; [apply start_S; auto|..]); cbn [word wq at_ file cur remote start_stored start_new]; rewrite ?cnt_idle by reflexivity;
    try reflexivity; try (vm_compute; intros; repeat split; congruence); try (left; split; reflexivity).
  all: intros X; exfalso; apply X; reflexivity.
Qed.
End Processes.
