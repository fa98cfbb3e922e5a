(** Facts about ranges, locators and the workers of a parallel scan. *)
From Coq Require Import ZArith List Bool Lia ZifyBool Permutation.
From Verif Require Import Base ParScanModel ParScanSpec.
Import ListNotations.
Open Scope Z_scope.

Definition inr (lo hi : option Z) (k : Z) : Z := if inside (lo, hi) k then 1 else 0.

Lemma inr_nonneg : forall lo hi k, 0 <= inr lo hi k.
Proof. intros. unfold inr. destruct inside; lia. Qed.

Lemma times_app : forall a b k, times (a ++ b) k = times a k + times b k.
Proof. induction a as [|r a IH]; intros b k; cbn; [lia|]. rewrite IH. lia. Qed.

Lemma times_nonneg : forall a k, 0 <= times a k.
Proof. induction a as [|r a IH]; intros k; cbn; [lia|]. specialize (IH k). destruct inside; lia. Qed.

Lemma times_perm : forall a b k, Permutation a b -> times a k = times b k.
Proof. intros a b k H. induction H; cbn; lia. Qed.

Lemma ins_perm : forall e l, Permutation (ins e l) (e :: l).
Proof.
  intros e l. induction l as [|x t IH]; cbn; [reflexivity|].
  destruct (fst e <=? fst x); [reflexivity|].
  rewrite IH. apply perm_swap.
Qed.
Lemma sort_perm : forall l, Permutation (sort_dl l) l.
Proof.
  induction l as [|x t IH]; cbn; [reflexivity|].
  rewrite ins_perm. apply perm_skip. exact IH.
Qed.

(** The keys that the items from a locator on cover. *)
Definition from (t : left) (hi : option Z) (k : Z) : Z :=
  match t with Nothing => 0 | Items lo _ _ => inr lo hi k end.
Definition after (hi : option Z) (k : Z) : Z :=
  match hi with None => 0 | Some h => inr (Some h) None k end.

Lemma from_nonneg : forall t hi k, 0 <= from t hi k.
Proof. intros [|lo d r] hi k; cbn; [lia|apply inr_nonneg]. Qed.
Lemma after_nonneg : forall hi k, 0 <= after hi k.
Proof. intros [h|] k; cbn; [apply inr_nonneg|lia]. Qed.

Lemma ascends_below : forall rest lo hi, ascends lo rest hi = true -> below lo hi = true.
Proof.
  induction rest as [|[z d] t IH]; intros lo hi H; cbn in H; [exact H|].
  apply andb_true_iff in H. destruct H as [H1 H2]. specialize (IH _ _ H2).
  destruct lo as [x|], hi as [y|]; cbn in *; try reflexivity. lia.
Qed.

Lemma ascends_tail : forall z d t lo hi, ascends lo ((z, d) :: t) hi = true ->
  ascends (Some z) t hi = true.
Proof. intros z d t lo hi H. cbn in H. apply andb_true_iff in H. tauto. Qed.

Lemma tile : forall lo rest hi k, ascends lo rest hi = true ->
  inr lo hi k = inr lo (next_key rest hi) k + from (advance rest) hi k.
Proof.
  intros lo [|[z d] t] hi k H; cbn [next_key advance from]; [lia|].
  pose proof (ascends_tail _ _ _ _ _ H) as H2. apply ascends_below in H2.
  cbn in H. apply andb_true_iff in H. destruct H as [H _].
  unfold inr, inside. cbn [fst snd].
  destruct lo as [x|], hi as [y|]; cbn [below] in *;
    repeat match goal with |- context [?a <=? ?b] => destruct (Z.leb_spec a b)
                      | |- context [?a <? ?b] => destruct (Z.ltb_spec a b) end;
    cbn [andb]; lia.
Qed.

Lemma tile_open : forall lo hi k, below lo hi = true ->
  inr lo None k = inr lo hi k + after hi k.
Proof.
  intros lo [h|] k H; cbn [after]; [|lia].
  unfold inr, inside. cbn [fst snd].
  destruct lo as [x|]; cbn [below] in *;
    repeat match goal with |- context [?a <=? ?b] => destruct (Z.leb_spec a b)
                      | |- context [?a <? ?b] => destruct (Z.ltb_spec a b) end;
    cbn [andb]; lia.
Qed.

Lemma inr_wider : forall lo hi k, inr lo hi k <= inr None hi k.
Proof.
  intros lo hi k. unfold inr, inside. cbn [fst snd].
  destruct lo as [x|]; [|lia]. destruct (x <=? k); cbn [andb]; [lia|].
  match goal with |- context [if ?b then _ else _] => destruct b end; lia.
Qed.

(** What [locate] finds. *)
Lemma locate_spec : forall rest p lo d hi,
  ascends lo rest hi = true -> from_lo lo p = true -> upto_hi hi p = true ->
  let '(lo', d', rest') := locate p lo d rest in
  ascends lo' rest' hi = true /\ from_lo lo' p = true /\ upto_hi (next_key rest' hi) p = true.
Proof.
  induction rest as [|[z e] t IH]; intros p lo d hi A F U; cbn [locate].
  - auto.
  - destruct (Z.leb_spec z p).
    + apply IH; [apply (ascends_tail z e t lo), A|cbn; lia|exact U].
    + split; [exact A|]. split; [exact F|]. cbn. lia.
Qed.

Lemma advance_asc : forall rest lo hi, ascends lo rest hi = true ->
  match advance rest with Nothing => True | Items l _ r => ascends l r hi = true end.
Proof.
  intros [|[z e] t] lo hi H; cbn [advance]; [exact I|]. exact (ascends_tail _ _ _ _ _ H).
Qed.

Lemma eqb_opt_eq : forall a b, eqb_opt a b = true <-> a = b.
Proof.
  intros [x|] [y|]; cbn; split; intro H; try discriminate; auto.
  - apply Z.eqb_eq in H. congruence.
  - inversion H. apply Z.eqb_refl.
Qed.

(** Sums over the workers. *)
Fixpoint sumf (f : wstate -> Z) (l : list wstate) : Z :=
  match l with [] => 0 | x :: t => f x + sumf f t end.

Lemma sumf_nonneg : forall f l, (forall x, 0 <= f x) -> 0 <= sumf f l.
Proof. intros f l H. induction l as [|x t IH]; cbn; [lia|]. specialize (H x). lia. Qed.

Lemma sumf_set : forall f l n v, nth n l Done <> Done ->
  sumf f (set_nth l n v) = sumf f l - f (nth n l Done) + f v.
Proof.
  induction l as [|x t IH]; intros [|n] v H; cbn in *; try contradiction; [lia|].
  rewrite IH by exact H. lia.
Qed.

Lemma sumf_nth : forall f l n, (forall x, 0 <= f x) -> nth n l Done <> Done ->
  f (nth n l Done) <= sumf f l.
Proof.
  intros f l. induction l as [|x t IH]; intros [|n] P H; cbn in *; try contradiction.
  - pose proof (sumf_nonneg f t P). lia.
  - specialize (IH n P H). specialize (P x). lia.
Qed.

Lemma sumf_in : forall f l x, (forall y, 0 <= f y) -> In x l -> f x <= sumf f l.
Proof.
  intros f l x P. induction l as [|y t IH]; intros H; cbn in *; [contradiction|].
  pose proof (sumf_nonneg f t P). pose proof (P y). destruct H as [->|H]; [lia|].
  specialize (IH H). lia.
Qed.

Lemma sumf_zero : forall f l, (forall x, In x l -> f x = 0) -> sumf f l = 0.
Proof.
  intros f l. induction l as [|x t IH]; intros H; cbn; [reflexivity|].
  rewrite (H x) by (left; reflexivity). rewrite IH; [reflexivity|].
  intros y Hy. apply H. right. exact Hy.
Qed.

Lemma sumf_repeat : forall f n, f Idle = 0 -> sumf f (repeat Idle n) = 0.
Proof. intros f n H. induction n as [|n IH]; cbn; [reflexivity|]. rewrite H, IH. reflexivity. Qed.

Lemma set_nth_in : forall l n v x, In x (set_nth l n v) -> x = v \/ In x l.
Proof.
  induction l as [|y t IH]; intros [|n] v x H; cbn in *; auto.
  - destruct H as [H|H]; auto.
  - destruct H as [H|H]; auto. destruct (IH _ _ _ H); auto.
Qed.

Definition f_load (b : bool) (w : wstate) : Z :=
  match w with Loading c => if eqb b c then 1 else 0 | _ => 0 end.
Definition f_hold (w : wstate) : Z := match w with Holding _ _ _ _ => 1 | _ => 0 end.
Definition f_writ (w : wstate) : Z := match w with Writing _ _ => 1 | _ => 0 end.
Definition f_end (w : wstate) : Z := match w with AtEnd | Waited | Disk | Done => 1 | _ => 0 end.
Definition f_wait (w : wstate) : Z := match w with Waited | Disk | Done => 1 | _ => 0 end.
Definition f_disk (w : wstate) : Z := match w with Disk | Done => 1 | _ => 0 end.
Definition f_done (w : wstate) : Z := match w with Done => 1 | _ => 0 end.
Definition held (k : Z) (w : wstate) : Z :=
  match w with
  | Holding _ _ lo hi => inr lo hi k
  | Writing _ r => inr (fst r) (snd r) k
  | _ => 0
  end.

Lemma f_load_nn : forall b x, 0 <= f_load b x.
Proof. intros b []; cbn; try lia. destruct eqb; lia. Qed.
Lemma f_hold_nn : forall x, 0 <= f_hold x. Proof. intros []; cbn; lia. Qed.
Lemma f_writ_nn : forall x, 0 <= f_writ x. Proof. intros []; cbn; lia. Qed.
Lemma f_end_nn : forall x, 0 <= f_end x. Proof. intros []; cbn; lia. Qed.
Lemma f_wait_nn : forall x, 0 <= f_wait x. Proof. intros []; cbn; lia. Qed.
Lemma f_disk_nn : forall x, 0 <= f_disk x. Proof. intros []; cbn; lia. Qed.
Lemma f_done_nn : forall x, 0 <= f_done x. Proof. intros []; cbn; lia. Qed.
Lemma held_nn : forall k x, 0 <= held k x.
Proof. intros k []; cbn; try lia; apply inr_nonneg. Qed.

(** The slots: the shapes that occur. *)
Definition okv (st lm : bool) (pv : option Z) (t : left) (hi : option Z) : Prop :=
  match t with Nothing => st = false | Items lo _ rest => ascends lo rest hi = true /\ (st = true -> lo = pv) end.

Definition shape (first : bool) (c o : slot) : Prop :=
  match first, c with
  | false, Invalid => o = Invalid
  | false, Busy None => o = Invalid
  | true, Invalid => o = Invalid
  | true, Busy (Some p) => o = Invalid
  | true, Valid st lm pv t hi =>
      okv st lm pv t hi /\
      match o with
      | Invalid => True
      | Busy p => p = hi /\ hi <> None
      | Valid st' lm' pv' t' hi' => hi <> None /\ okv st' lm' pv' t' hi'
      end
  | _, _ => False
  end.

(** The keys nobody was given yet. *)
Definition rem (single first : bool) (c o : slot) (k : Z) : Z :=
  if single then 0 else
  match c with
  | Invalid => if first then 0 else 1
  | Busy p => inr p None k
  | Valid _ _ _ t hi =>
      from t hi k +
      match o with
      | Valid _ _ _ t' hi' => from t' hi' k + after hi' k
      | _ => after hi k
      end
  end.

Lemma rem_nonneg : forall si fi c o k, 0 <= rem si fi c o k.
Proof.
  intros si fi c o k. unfold rem. destruct si; [lia|].
  destruct c as [|p|st lm pv t hi]; [destruct fi; lia|apply inr_nonneg|].
  pose proof (from_nonneg t hi k). destruct o as [|p|st' lm' pv' t' hi'];
    pose proof (after_nonneg hi k); try lia.
  pose proof (from_nonneg t' hi' k). pose proof (after_nonneg hi' k). lia.
Qed.

Definition busy (v : slot) : bool := match v with Busy _ => true | _ => false end.

Definition F (f : wstate -> Z) (s : state) : Z := sumf f (s_ws s).
Definition remain (s : state) (k : Z) : Z :=
  rem (s_single s) (s_first s) (get s (s_cur s)) (get s (negb (s_cur s))) k.
Definition queued (s : state) (k : Z) : Z := times (map snd (skipn (s_ix s) (s_arr s))) k.
Definition total (s : state) (k : Z) : Z :=
  times (s_read s) k + F (held k) s + queued s k + remain s k.

Record Inv (s : state) : Prop := mkInv {
  v_shape : s_single s = false -> shape (s_first s) (get s (s_cur s)) (get s (negb (s_cur s)));
  v_load : forall b, F (f_load b) s = if negb (s_single s) && busy (get s b) then 1 else 0;
  v_ix : s_sorted s = false -> s_ix s = 0%nat /\ F f_disk s = 0;
  v_writers : s_writers s = F f_hold s
}.
