(** C53 for scans with a range condition: at most once is kept, but a scan
    by one participating process can leave out rows of the range. *)
From Coq Require Import ZArith List Bool Lia ZifyBool.
From Verif Require Import Base ParScanModel ParScanSpec ParScanProofs ParScanStepProofs
  ParScanTotalProofs ParScanRunProofs ParScanEndProofs ParRangeModel.
Import ListNotations.
Open Scope Z_scope.

(** The leftmost internal page is loaded only once, as the first page. *)
Definition gonce_step (s : gstate) (o : gop) : Prop :=
  match o with Plain o => once_step (g_s s) o | _ => True end.
Fixpoint gleftmost_once (g : cond) (s : gstate) (ops : list gop) : Prop :=
  match ops with
  | [] => True
  | o :: t => gonce_step s o /\ gleftmost_once g (gstep g s o) t
  end.

(** Every worker has finished or has stopped at a row past the range. *)
Definition gfinished (s : gstate) : Prop :=
  forall w, (w < length (s_ws (g_s s)))%nat -> worker (g_s s) w = Done \/ In w (g_stopped s).

Definition in_range (g : cond) (k : Z) : Prop :=
  match g_low g with None => True | Some l => l <= k end /\
  match g_high g with None => True | Some h => k <= h end.

Lemma drop_inv : forall s w v d kl lo hi, Inv s -> worker s w = Holding d kl lo hi ->
  f_hold v = 0 -> f_disk v = 0 -> (forall b, f_load b v = 0) -> forall l,
  Inv (setw (emit (addw s (-1)) l) w v).
Proof.
  intros s w v d kl lo hi [V L X W] E H1 H2 H3 l.
  assert (FS := fun f => F_set f s (setw (emit (addw s (-1)) l) w v) w _ v E ltac:(discriminate) eq_refl).
  constructor.
  - exact V.
  - intro b. rewrite FS, H3, (L b). change (get (setw (emit (addw s (-1)) l) w v) b) with (get s b).
    cbn [setw emit addw s_single f_load]. lia.
  - intro Q. destruct (X Q). split; [assumption|]. rewrite FS, H2. cbn [f_disk]. lia.
  - rewrite FS, H1. cbn [setw emit addw s_writers f_hold]. lia.
Qed.

Lemma drop_total : forall s w v d kl lo hi l k, worker s w = Holding d kl lo hi ->
  held k v = 0 -> times l k <= inr lo hi k ->
  total (setw (emit (addw s (-1)) l) w v) k <= total s k.
Proof.
  intros s w v d kl lo hi l k E H1 H2. unfold total.
  rewrite (F_set (held k) s (setw (emit (addw s (-1)) l) w v) w _ v E ltac:(discriminate) eq_refl).
  rewrite H1. cbn [setw emit addw s_read held]. rewrite times_app.
  unfold queued, remain, get. cbn. lia.
Qed.

Lemma emit_nil : forall s, emit s [] = s.
Proof. intros []. unfold emit. cbn. rewrite app_nil_r. reflexivity. Qed.

Lemma cut_le : forall g lo hi e k, reaches g hi = Some e -> times [(lo, Some e)] k <= inr lo hi k.
Proof.
  intros g lo hi e k H. unfold reaches in H. destruct (g_high g) as [h|]; [|discriminate].
  destruct (upto_hi hi (h + 1)) eqn:U; [|discriminate]. injection H as <-.
  unfold inr, times, inside. cbn [fst snd].
  destruct lo as [x|], hi as [y|]; cbn [upto_hi] in U;
    repeat match goal with |- context [?a <=? ?b] => destruct (Z.leb_spec a b)
                      | |- context [?a <? ?b] => destruct (Z.ltb_spec a b) end; cbn [andb]; lia.
Qed.

Lemma gstep_le : forall g s o k, Inv (g_s s) -> exact (g_s s) -> gonce_step s o ->
  Inv (g_s (gstep g s o)) /\ exact (g_s (gstep g s o)) /\
  total (g_s (gstep g s o)) k <= total (g_s s) k.
Proof.
  intros g s o k I X O.
  assert (SAME : Inv (g_s s) /\ exact (g_s s) /\ total (g_s s) k <= total (g_s s) k)
    by (repeat split; try apply I; try apply X; lia).
  assert (DROP : forall w d kl lo hi v l, worker (g_s s) w = Holding d kl lo hi ->
     (v = Idle \/ v = AtEnd) -> times l k <= inr lo hi k ->
     Inv (setw (emit (addw (g_s s) (-1)) l) w v) /\
     exact (setw (emit (addw (g_s s) (-1)) l) w v) /\
     total (setw (emit (addw (g_s s) (-1)) l) w v) k <= total (g_s s) k).
  { intros w d kl lo hi v l E Hv Hl. split; [|split].
    - apply (drop_inv (g_s s) w v d kl lo hi I E); destruct Hv as [-> | ->]; reflexivity.
    - destruct X as [X1 X2]. split; [|exact X2].
      eapply (hold_set eq (g_s s) _ w v X1); [reflexivity|].
      destruct Hv as [-> | ->]; discriminate.
    - apply (drop_total (g_s s) w v d kl lo hi l k E); [|exact Hl].
      destruct Hv as [-> | ->]; reflexivity. }
  destruct o as [o|w|w|w|w]; cbn [gstep].
  - destruct (stopped s (actor o) || negb (allowed g (g_s s) o)); [exact SAME|]. cbn [g_s].
    split; [apply step_inv, I|]. split; [apply exact_step; assumption|apply total_le; assumption].
  - destruct (stopped s w); [exact SAME|].
    destruct (worker (g_s s) w) as [| |d kl lo hi| | | | |] eqn:E; try exact SAME.
    destruct (before g hi); [|exact SAME]. cbn [g_s].
    rewrite <- (emit_nil (addw (g_s s) (-1))). apply (DROP w d kl lo hi); auto.
    cbn. apply inr_nonneg.
  - destruct (stopped s w); [exact SAME|].
    destruct (worker (g_s s) w) as [| |d kl lo hi| | | | |] eqn:E; try exact SAME.
    destruct (beyond g kl); [|exact SAME]. cbn [g_s].
    rewrite <- (emit_nil (addw (g_s s) (-1))). apply (DROP w d kl lo hi); auto.
    cbn. apply inr_nonneg.
  - destruct (stopped s w); [exact SAME|].
    destruct (worker (g_s s) w) as [| |[a| |] kl lo hi| | | | |] eqn:E; try exact SAME.
    destruct (reaches g hi) as [e|] eqn:R; [|exact SAME].
    destruct (before g hi || beyond g kl); [exact SAME|]. cbn [g_s].
    apply (DROP w InMem kl lo hi); auto. exact (cut_le g lo hi e k R).
  - destruct (stopped s w); [exact SAME|].
    destruct (worker (g_s s) w) eqn:E; try exact SAME.
    destruct (nth_error (s_arr (g_s s)) (s_ix (g_s s))) as [e|] eqn:N; [|exact SAME].
    destruct (reaches g (snd (snd e))) as [x|] eqn:R; [|exact SAME]. cbn [g_s].
    destruct I as [V L VX W].
    assert (D : 1 <= F f_disk (g_s s)) by (exact (F_at f_disk (g_s s) w _ f_disk_nn E ltac:(discriminate))).
    split; [|split].
    + constructor; [exact V|exact L| |exact W].
      cbn. intro Q. destruct (VX Q). lia.
    + exact X.
    + pose proof (cut_le g (fst (snd e)) (snd (snd e)) x k R) as CL.
      unfold total, queued, remain, F, get. cbn [emit set_arr s_read s_ws s_ix s_arr s_a s_b s_cur s_single s_first].
      rewrite times_app, (skipn_nth _ _ _ N). cbn [map times] in *. unfold inr in CL.
      rewrite <- surjective_pairing in CL. lia.
Qed.

Lemma grun_le : forall g ops s k, Inv (g_s s) -> exact (g_s s) -> gleftmost_once g s ops ->
  total (g_s (run (gstep g) s ops)) k <= total (g_s s) k.
Proof.
  intros g. induction ops as [|o t IH]; intros s k I X H; [cbn; lia|].
  destruct H as [H1 H2]. change (run (gstep g) s (o :: t)) with (run (gstep g) (gstep g s o) t).
  destruct (gstep_le g s o k I X H1) as [A [B C]]. specialize (IH _ k A B H2). lia.
Qed.

(** With any range condition, no row is returned twice unless the leftmost
    internal page is loaded again. *)
Theorem C53_range_at_most_once_partial : forall g n ops k,
  gleftmost_once g (ginit n) ops ->
  times (s_read (g_s (run (gstep g) (ginit n) ops))) k <= 1.
Proof.
  intros g n ops k H.
  pose proof (times_le_total (g_s (run (gstep g) (ginit n) ops)) k).
  pose proof (grun_le g ops (ginit n) k (init_inv n) (conj (init_hold eq n) (conj I I)) H).
  cbn [ginit g_s] in H1. rewrite init_total in H1. lia.
Qed.

(** Keys up to 15; the leaf below 10 is on disk, the one from 10 on is in
    memory.  The only process puts the on-disk leaf into the array, reads
    the other one, meets a row above 15 and ends: the rows of the on-disk
    leaf are not returned. *)
Definition stop_ops : list gop :=
  [ Plain (Look 0); Plain (Load 0 (mkImg None (OnDisk 5) [(10, InMem)] None));
    Plain (Look 0); Plain (Read 0 true); Plain (Write 0);
    Plain (Look 0); ReadStop 0 ].

Theorem C53_range_row_missed_refuted : exists g ops k,
  gleftmost_once g (ginit 1) ops /\ gfinished (run (gstep g) (ginit 1) ops) /\
  in_range g k /\ times (s_read (g_s (run (gstep g) (ginit 1) ops))) k = 0.
Proof.
  exists (mkCond None (Some 15)), stop_ops, 3. split; [|split; [|split]].
  - vm_compute. repeat split. intros b p E1 E. destruct b; discriminate.
  - intros w H.
    match type of H with (_ < ?n)%nat => replace n with 1%nat in H by (vm_compute; reflexivity) end.
    assert (C : w = 0%nat) by lia. subst w. vm_compute. auto.
  - split; [exact I|]. cbn. lia.
  - vm_compute. reflexivity.
Qed.

(** A range inside the table: the leaf before it is dropped, the one past
    it ends the handing out, and both leaves of the range are read. *)
Example C53_range_case :
  let g := mkCond (Some 8) (Some 15) in
  let ops := [ Plain (Look 0);
    Plain (Load 0 (mkImg None InMem [(4, OnDisk 9); (10, InMem); (20, InMem)] None));
    Plain (Look 0); Skip 0; Plain (Look 0); Plain (Read 0 true); Plain (Write 0);
    Plain (Look 1); Plain (Look 0); Past 0; ReadStop 1;
    Plain (Wait 0); Plain (Sort 0); Plain (Claim 0); Plain (Claim 0) ] in
  gleftmost_once g (ginit 2) ops /\ gfinished (run (gstep g) (ginit 2) ops) /\
  s_read (g_s (run (gstep g) (ginit 2) ops)) = [(Some 10, Some 16); (Some 4, Some 10)].
Proof.
  cbv zeta. split; [|split].
  - vm_compute. repeat split. intros b p E1 E. destruct b; discriminate.
  - intros w H.
    match type of H with (_ < ?n)%nat => replace n with 2%nat in H by (vm_compute; reflexivity) end.
    assert (C : w = 0%nat \/ w = 1%nat) by lia.
    destruct C as [-> | ->]; vm_compute; auto.
  - vm_compute. reflexivity.
Qed.

Print Assumptions C53_range_at_most_once_partial.
Print Assumptions C53_range_row_missed_refuted.
