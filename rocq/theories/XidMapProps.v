(** Properties C07 and C09, and the part of C11 about running transactions. *)
From Coq Require Import ZArith List Bool Lia.
From Verif Require Import Base XidMapModel XidMapSpec XidMapProofs.
Import ListNotations.
Open Scope Z_scope.

Definition reached (size : Z) (ops : list op) : st := run (step size) init ops.

(** A finished lookup of a transaction not older than the global horizon
    returned a status that was the recorded one at some moment between the call
    and the return. *)
Theorem C07_lookup_returns_recorded : forall size ops r x v, 0 < size ->
  rds (reached size ops) r = RDone x v -> G (reached size ops) <= x ->
  current_during (log (reached size ops)) r x v.
Proof.
  intros size ops r x v Hs E Hg.
  destruct (reach_inv_all size Hs ops) as (_ & HR & _). specialize (HR r).
  unfold reached in E. rewrite E in HR. cbn in HR. destruct HR as [_ [[_ K]|K]]; [|exact K].
  unfold reached in Hg. lia.
Qed.

(** For older transactions it may also answer "frozen"; those have all finished. *)
Theorem C07_lookup_of_old_transaction : forall size ops r x v, 0 < size ->
  rds (reached size ops) r = RDone x v ->
  current_during (log (reached size ops)) r x v \/
  (v = Frozen /\ x < G (reached size ops) /\ final (status x (log (reached size ops))) = true).
Proof.
  intros size ops r x v Hs E.
  destruct (reach_inv_all size Hs ops) as (H & HR & _). specialize (HR r).
  unfold reached in *. rewrite E in HR. cbn in HR. destruct HR as [B [[Ev K]|K]]; [right|left; exact K].
  split; [exact Ev|]. split; [exact K|]. apply (i_run _ _ H).
  destruct (i_b _ _ H) as (_ & _ & _ & B4 & B5 & _). lia.
Qed.

(** When no status is recorded for [x] during the lookup, the answer is exactly
    the recorded status. *)
Theorem C07_lookup_undisturbed : forall size ops r x v a b, 0 < size ->
  rds (reached size ops) r = RDone x v -> G (reached size ops) <= x ->
  log (reached size ops) = a ++ Beg r x :: b ->
  (forall y, ~ In (Beg r y) a) -> (forall w, ~ In (Rec x w) a) ->
  v = status x (log (reached size ops)).
Proof.
  intros size ops r x v a b Hs E Hg El Nb Nr.
  destruct (C07_lookup_returns_recorded size ops r x v Hs E Hg) as (u & d & c & E1 & N1 & Q).
  assert (Skip : forall l m, (forall w, ~ In (Rec x w) l) -> status x (l ++ m) = status x m).
  { induction l as [|e l IH]; intros m N; [reflexivity|]. cbn. rewrite IH by (intros w K; exact (N w (or_intror K))).
    destruct e; auto. destruct (Z.eqb_spec x0 x) as [->|]; [|reflexivity]. exfalso. apply (N v0). left. reflexivity. }
  assert (Eq : u ++ d = a).
  { rewrite El, app_assoc in E1. clear - E1 N1 Nb. revert a E1 Nb. induction (u ++ d) as [|e l IH]; intros a E Nb.
    - destruct a as [|f a]; [reflexivity|]. cbn in E. injection E as E _. exfalso. apply (Nb x). left. exact E.
    - destruct a as [|f a]; cbn in E.
      + injection E as E _. exfalso. apply (N1 x). left. congruence.
      + injection E as E1 E2. subst f. f_equal. apply IH.
        * intros y K. exact (N1 y (or_intror K)).
        * exact E2.
        * intros y K. exact (Nb y (or_intror K)). }
  assert (Eb : Beg r x :: b = Beg r x :: c).
  { apply (app_inv_head a). rewrite <- El, E1, app_assoc, Eq. reflexivity. }
  rewrite <- Q, El, Eb. rewrite (Skip a) by exact Nr. rewrite (Skip d); [reflexivity|].
  intros w K. apply (Nr w). rewrite <- Eq. apply in_or_app. right. exact K.
Qed.

(** A final status, once recorded, is never replaced. *)
Theorem C07_final_status_stays : forall size ops a b x, 0 < size ->
  log (reached size ops) = a ++ b -> final (status x b) = true ->
  status x (log (reached size ops)) = status x b.
Proof.
  intros size ops a b x Hs E F. destruct (reach_inv_all size Hs ops) as (H & _).
  exact (i_fin _ _ H a b x E F).
Qed.

(** The assertions of the code hold: whoever goes to the buffers finds the item
    already drained there (oxid.c:809, 913, 1719), a failed swap means the slot
    was drained (oxid.c:797), a successful one replaced a live status (786). *)
Theorem C07_assertions_hold : forall size ops, 0 < size -> let s := reached size ops in
  (forall p x, pcs s p = PStart4 x -> x < W s) /\
  (forall p x v, pcs s p = PSetB x v -> x < W s) /\
  (forall r x, rds s r = R4 x -> x < W s) /\
  (forall p x v old, pcs s p = PSet3 x v old -> old <> Frozen /\ (ring s (slot size x) <> old -> x < I s)).
Proof.
  intros size ops Hs. cbv zeta. unfold reached. destruct (reach_inv_all size Hs ops) as (H & HR & _).
  set (s := run (step size) init ops) in *.
  split; [|split; [|split]].
  - intros p x E. pose proof (i_ctx _ _ H p) as C. rewrite E in C. cbn in C. tauto.
  - intros p x v E. pose proof (i_ctx _ _ H p) as C. rewrite E in C. cbn in C. tauto.
  - intros r x E. pose proof (HR r) as C. rewrite E in C. cbn in C. lia.
  - intros p x v old E. pose proof (i_ctx _ _ H p) as C. rewrite E in C. cbn in C.
    destruct C as ([b C1] & C2 & C3). split; [congruence|]. intros N.
    destruct (Z_lt_ge_dec x (I s)) as [Q|Q]; [exact Q|]. exfalso. apply N. rewrite C3.
    apply (i_ring _ _ H). pose proof (inv_front _ _ H) as F.
    assert (x < W s + size - 1); [|lia].
    destruct (Z_lt_ge_dec x (W s + size - 1)) as [K|K]; [exact K|]. pose proof (i_high _ _ H x ltac:(lia)). congruence.
Qed.

(** No number is handed out twice. *)
Theorem C09_numbers_unique : forall size ops a p x b, 0 < size ->
  log (reached size ops) = a ++ Take p x :: b -> forall q, ~ In (Take q x) b.
Proof.
  intros size ops a p x b Hs E. destruct (takes size ops) as [_ H]. exact (H a p x b E).
Qed.

(** Two contexts never hold the same number. *)
Theorem C09_holders_distinct : forall size ops p q x, 0 < size ->
  number (pcs (reached size ops) p) = Some x -> number (pcs (reached size ops) q) = Some x -> p = q.
Proof. intros size ops p q x Hs. destruct (reach_inv_all size Hs ops) as (H & _). apply (i_dist _ _ H). Qed.

(** When a new transaction is let into the ring, its slot is empty and is not
    the slot of any transaction whose status has not been drained. *)
Theorem C09_slot_free : forall size ops p x, 0 < size -> let s := reached size ops in
  pcs s p = PStart x -> x < W s + size - 1 ->
  ring s (slot size x) = Frozen /\
  forall y, W s <= y -> status y (log s) <> Frozen -> slot size y <> slot size x.
Proof.
  intros size ops p x Hs s E Hx. destruct (reach_inv_all size Hs ops) as (H & _). fold (reached size ops) in H. fold s in H.
  pose proof (i_ctx _ _ H p) as C. rewrite E in C. cbn in C. pose proof (inv_front _ _ H) as F.
  assert (Nm : number (pcs s p) = Some x) by (rewrite E; reflexivity).
  pose proof (i_num _ _ H p x Nm) as Nx.
  assert (HI : I s <= x).
  { destruct (Z_lt_ge_dec x (I s)) as [K|K]; [|lia]. exfalso. apply (i_init _ _ H x); [lia|exact C]. }
  split.
  - rewrite (i_ring _ _ H) by lia. exact C.
  - intros y Hy Ny Q.
    assert (y < W s + size - 1).
    { destruct (Z_lt_ge_dec y (W s + size - 1)) as [K|K]; [exact K|]. exfalso. apply Ny. apply (i_high _ _ H). lia. }
    apply (slot_inj size Hs (W s)) in Q; [|lia|destruct (i_b _ _ H); lia]. subst y. apply Ny. exact C.
Qed.

(** The horizons never pass a transaction that has taken a number and has no
    final status: it keeps being reported as unfinished. *)
Theorem C11_horizon_below_running : forall size ops x, 0 < size ->
  running (reached size ops) x ->
  G (reached size ops) <= x /\ R (reached size ops) <= x.
Proof.
  intros size ops x Hs [B F]. destruct (reach_inv_all size Hs ops) as (H & _).
  unfold reached in *. destruct (i_b _ _ H) as (_ & _ & _ & B4 & B5 & _).
  assert (R (run (step size) init ops) <= x); [|lia].
  destruct (Z_lt_ge_dec x (R (run (step size) init ops))) as [K|K]; [|lia].
  pose proof (i_run _ _ H x ltac:(lia)). unfold sta in *. congruence.
Qed.

(** The horizons only move forward. *)
Theorem C11_horizons_monotone : forall size ops o, 0 < size ->
  G (reached size ops) <= G (step size (reached size ops) o) /\
  R (reached size ops) <= R (step size (reached size ops) o).
Proof.
  intros size ops o Hs. destruct (reach_inv_all size Hs ops) as (H & _).
  destruct (step_mono size _ o H) as (_ & _ & M1 & M2 & _). split; assumption.
Qed.

(** When no commit or abort is under way, runXmin is exactly the first
    transaction number without a final status. *)
Theorem C11_run_horizon_exact : forall size ops, 0 < size ->
  (forall p, pcs (reached size ops) p = PIdle \/ exists x, pcs (reached size ops) p = PRun x) ->
  final (status (R (reached size ops)) (log (reached size ops))) = false /\
  forall y, 0 <= y < R (reached size ops) -> final (status y (log (reached size ops))) = true.
Proof.
  intros size ops Hs Q. destruct (reach_inv_all size Hs ops) as (H & _ & HP). unfold reached in *. split.
  - destruct (final (status _ _)) eqn:F; [|reflexivity]. exfalso.
    destruct (HP F) as [p Pp]. unfold pusher in Pp.
    destruct (Q p) as [E|[x E]]; rewrite E in Pp; exact Pp.
  - exact (i_run _ _ H).
Qed.

Print Assumptions C07_lookup_returns_recorded.
Print Assumptions C07_lookup_of_old_transaction.
Print Assumptions C07_lookup_undisturbed.
Print Assumptions C07_final_status_stays.
Print Assumptions C07_assertions_hold.
Print Assumptions C09_numbers_unique.
Print Assumptions C09_holders_distinct.
Print Assumptions C09_slot_free.
Print Assumptions C11_horizon_below_running.
Print Assumptions C11_horizons_monotone.
Print Assumptions C11_run_horizon_exact.

(** A concrete run with a ring of 4: context 1 starts transaction 0, context 2
    starts 1 and is drained while it commits, so its commit goes through the
    buffers; lookup 9 of transaction 1 goes through the buffers and finds it. *)
Definition demo : list op :=
  [ OBegin 1; OInit 1; OChk 1; OBegin 2; OInit 2; OChk 2;
    OCommit 2 7; OReadOld 2; OChkI 2;
    OLock; ODrain 2; OExch; OExch; OCas 2; OFlush 2; ODrained; OUnlock;
    OWait 2; OBufW 2; OAdvRead 2;
    OLook 9 1; ORing 9; ORChk 9; ORWait 9; ORBuf 9; ORG 9 ].

Example demo_lookup : rds (reached 4 demo) 9 = RDone 1 (Normal 7) /\ G (reached 4 demo) = 0 /\ W (reached 4 demo) = 2.
Proof. vm_compute. auto. Qed.

Example demo_running : running (reached 4 demo) 0.
Proof. split; vm_compute; auto. split; congruence. Qed.

(** A third transaction may enter although the ring has wrapped. *)
Example demo_slot : let s := reached 4 (demo ++ [OBegin 3; OInit 3; OChk 3; OBegin 4; OInit 4; OChk 4; OBegin 5]) in
  pcs s 5 = PStart 4 /\ (4 <? W s + 4 - 1) = true /\ slot 4 4 = 0.
Proof. vm_compute. auto. Qed.

(** And after transaction 0 aborts, nothing is under way and the horizon is 2. *)
Example demo_quiet : let s := reached 4 (demo ++ [OAbort 1; OReadOld 1; OChkI 1; OWait 1; OBufW 1; OAdvRead 1; OAdvCas 1;
      ORing 1; ORChk 1; ORWait 1; ORBuf 1; ORG 1; OAdvFin 1; OAdvCas 1; ORing 1; ORChk 1; OAdvFin 1]) in
  R s = 2 /\ pcs s 1 = PIdle /\ pcs s 2 = PIdle.
Proof. vm_compute. auto. Qed.
