(** C08: a checkpoint flush makes every transaction status durable and loses none.

    The property holds for every schedule in which none of three situations arises
    (theorems ending in _partial), and each of the three alone breaks it (theorems
    ending in _refuted; DESIGN.md F3, F4, F10).  All three need the drained frontier
    to be inside a page. *)
From Coq Require Import ZArith List Bool Lia.
From Verif Require Import Base XidFlushModel XidFlushSpec XidFlushLemmas XidFlushProofs.
Import ListNotations.
Open Scope Z_scope.

Lemma run_haz : forall S N ops s, haz (run (step S N) s ops) = [] -> haz s = [].
Proof.
  intros S N ops. induction ops as [|o ops IH]; intros s H; [exact H|].
  apply (haz_mono S N s o). apply IH. exact H.
Qed.

Lemma run_Inv : forall S N, 0 < S -> 0 < N -> forall ops s,
  Inv S N s -> haz (run (step S N) s ops) = [] -> Inv S N (run (step S N) s ops).
Proof.
  intros S N HS HN ops. induction ops as [|o ops IH]; intros s H Hz; [exact H|].
  change (run (step S N) s (o :: ops)) with (run (step S N) (step S N s o) ops) in *.
  apply IH; auto. apply step_inv; auto. eapply run_haz. exact Hz.
Qed.

(** When fsync_xidmap_range returns, the durable copy of every status in the range is one
    that had not been superseded when the call began.  Missing from the full property:
    schedules with one of the three hazards. *)
Theorem C08_flush_durable_partial : forall S N w ops x,
  0 < S -> 0 < N ->
  let s := run (step S N) (init w) ops in
  haz s = [] -> returning s -> fa s <= x < fb s -> durable_ok s x.
Proof.
  intros S N w ops x HS HN s Hz Hr Hx Hn.
  assert (H : Inv S N s) by (apply run_Inv; [exact HS|exact HN|apply init_inv; exact HS|exact Hz]).
  pose proof (i_pass _ _ _ H) as P. unfold passok in P. unfold returning in Hr. rewrite Hr in P.
  apply P. split; auto.
Qed.

(** A status recorded before the call and not recorded again during it is exactly what is
    on disk afterwards. *)
Theorem C08_quiet_status_durable_partial : forall S N w ops x v,
  0 < S -> 0 < N ->
  let s := run (step S N) (init w) ops in
  haz s = [] -> returning s -> fa s <= x < fb s -> cand s x = [v] ->
  dur s x = v /\ fin s x = Some v.
Proof.
  intros S N w ops x v HS HN s Hz Hr Hx Hc.
  assert (Hn : cand s x <> []) by (rewrite Hc; discriminate).
  pose proof (C08_flush_durable_partial S N w ops x HS HN Hz Hr Hx Hn) as D. fold s in D.
  assert (H : Inv S N s) by (apply run_Inv; [exact HS|exact HN|apply init_inv; exact HS|exact Hz]).
  destruct (i_cand _ _ _ H x Hn) as [(f & Ef & Hf) _].
  rewrite Hc in *. destruct D as [D|[]]. destruct Hf as [Hf|[]]. subst. auto.
Qed.

(** No recorded status is lost from memory: at every point of every schedule, the status of a
    transaction with no recording in progress is the one recorded last. *)
Theorem C08_status_kept_partial : forall S N w ops x,
  0 < S -> 0 < N ->
  let s := run (step S N) (init w) ops in
  haz s = [] -> ini s x = true -> G s <= x -> pcs s x = RIdle -> x < W s \/ I s <= x ->
  mid S s (x / S) = false ->
  fin s x = Some (found S N s x).
Proof.
  intros S N w ops x HS HN s Hz Hi Hg Hp Hx Hm.
  assert (H : Inv S N s) by (apply run_Inv; [exact HS|exact HN|apply init_inv; exact HS|exact Hz]).
  pose proof (i_ord _ _ _ H) as (O1 & O2 & O3).
  unfold found. destruct (I s <=? x) eqn:E.
  - pose proof (i_ring _ _ _ H x Hi ltac:(lia)) as R. rewrite Hp in R. exact R.
  - pose proof (i_buf _ _ _ H x Hi ltac:(lia)) as B. rewrite Hp in B. unfold gbuf in B. unfold mid in Hm.
    destruct (fl s); auto. rewrite Hm in B. exact B.
Qed.

(** Storing a status completely: first store, dirty bit, re-check. *)
Definition put1 (x v : Z) : list op := [OInit x v; OMark x; ORe x].
Definition slow (x v : Z) : list op := [OSet x v; OWait x; OWr x].
Definition drain (m : Z) (pages : nat) : list op := ODrain m :: repeat ODPage pages ++ [ODEnd].
Definition flush1 (slots : nat) : list op := FPage :: repeat FSlot (slots + 1) ++ [FPut1; FPut2].
Definition finish (pages : nat) : list op := [FLoopEnd] ++ repeat FSyncPage pages ++ [FSyncEnd].

(** Hazard 1: a store into, or reload of, the page under flush (pages of 4, ring of 8). *)
Definition w_reload : list op :=
  put1 0 10 ++ put1 1 11 ++ put1 2 12 ++ put1 3 13 ++ drain 2 1 ++
  [OSet 0 20; OWait 0] ++
  [FBegin 0 4; FLock; FPage; OWr 0] ++ repeat FSlot 5 ++ [FPut1; FPut2] ++ finish 1 ++
  [FRet; FBegin 0 4; FLock; FPage] ++ finish 1.

Theorem C08_flush_durable_refuted_reload :
  let s := run (step 4 2) (init 0) w_reload in
  haz s = [HReload] /\ returning s /\ fa s <= 0 < fb s /\ ~ durable_ok s 0 /\
  (pcs s 0 = RIdle /\ fin s 0 = Some 20 /\ found 4 2 s 0 = 10).
Proof.
  cbv zeta. set (s := run _ _ _).
  assert (E : haz s = [HReload] /\ fl s = FDone /\ fa s = 0 /\ fb s = 4 /\ dur s 0 = 10 /\ cand s 0 = [20] /\
              pcs s 0 = RIdle /\ fin s 0 = Some 20 /\ found 4 2 s 0 = 10) by (vm_compute; repeat split).
  destruct E as (E1 & E2 & E3 & E4 & E5 & E6 & E7 & E8 & E9).
  repeat split; auto; try lia.
  unfold durable_ok. rewrite E5, E6. intros D. destruct D as [D|[]]; [discriminate|discriminate].
Qed.

(** Hazard 2: the ring's first and last page share one ring page and one dirty bit. *)
Definition w_share : list op :=
  put1 3 13 ++ put1 4 14 ++ put1 5 15 ++ put1 6 16 ++ put1 7 17 ++ put1 8 18 ++
  [FBegin 3 9; FLock] ++ flush1 4 ++ flush1 4 ++ finish 3.

Theorem C08_flush_durable_refuted_share :
  let s := run (step 4 2) (init 3) w_share in
  haz s = [HShare] /\ returning s /\ fa s <= 8 < fb s /\ ~ durable_ok s 8.
Proof.
  cbv zeta. set (s := run _ _ _).
  assert (E : haz s = [HShare] /\ fl s = FDone /\ fa s = 3 /\ fb s = 9 /\ dur s 8 = 0 /\ cand s 8 = [18]) by (vm_compute; repeat split).
  destruct E as (E1 & E2 & E3 & E4 & E5 & E6).
  repeat split; auto; try lia.
  unfold durable_ok. rewrite E5, E6. intros D. destruct D as [D|[]]; [discriminate|discriminate].
Qed.

(** Hazard 3: after a flush, a status of a drained transaction is recorded in the cache, and the
    next partial drain of the same page marks the cached page clean.  No concurrency needed. *)
Definition w_clean : list op :=
  put1 0 10 ++ put1 1 11 ++ put1 2 12 ++ put1 3 13 ++ drain 2 1 ++
  [FBegin 0 4; FLock] ++ flush1 4 ++ finish 1 ++ [FRet] ++
  slow 0 20 ++ drain 3 1 ++
  [FBegin 0 4; FLock; FPage] ++ finish 1.

Theorem C08_flush_durable_refuted_clean :
  let s := run (step 4 2) (init 0) w_clean in
  haz s = [HClean] /\ returning s /\ fa s <= 0 < fb s /\ ~ durable_ok s 0.
Proof.
  cbv zeta. set (s := run _ _ _).
  assert (E : haz s = [HClean] /\ fl s = FDone /\ fa s = 0 /\ fb s = 4 /\ dur s 0 = 10 /\ cand s 0 = [20]) by (vm_compute; repeat split).
  destruct E as (E1 & E2 & E3 & E4 & E5 & E6).
  repeat split; auto; try lia.
  unfold durable_ok. rewrite E5, E6. intros D. destruct D as [D|[]]; [discriminate|discriminate].
Qed.

(** A hazard-free run with a straddling page, a drained transaction re-recorded before the call,
    a recording during the call, an eviction, and the horizon moving. *)
Definition w_ok : list op :=
  put1 0 10 ++ put1 1 11 ++ put1 2 12 ++ put1 3 13 ++ put1 4 14 ++ drain 2 1 ++
  slow 1 21 ++ [OFast 1; OEvict 0] ++ [OSet 3 23; OCas 3] ++
  [FBegin 1 5; FLock; FPage; FSlot; OMark 3; ORe 3] ++ repeat FSlot 4 ++ [FPut1; FPut2] ++ flush1 4 ++ finish 2.

Example C08_hypotheses_met :
  let s := run (step 4 2) (init 0) w_ok in
  haz s = [] /\ returning s /\ (fa s, fb s) = (1, 5) /\
  map (fun x => (dur s x, cand s x)) [1; 2; 3; 4] = [(21, [21]); (12, [12]); (23, [13; 23]); (14, [14])] /\
  (pcs s 1 = RIdle /\ 1 < W s /\ ini s 1 = true /\ G s <= 1 /\ mid 4 s (1 / 4) = false).
Proof. vm_compute. repeat split; congruence. Qed.

Print Assumptions C08_flush_durable_partial.
Print Assumptions C08_quiet_status_durable_partial.
Print Assumptions C08_status_kept_partial.
Print Assumptions C08_flush_durable_refuted_reload.
Print Assumptions C08_flush_durable_refuted_share.
Print Assumptions C08_flush_durable_refuted_clean.
