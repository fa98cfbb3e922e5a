(** Properties C22 (page latch) and C23 (stale page references). *)
From Coq Require Import ZArith List Bool Lia.
From Coq Require Import ZifyBool ZifyNat.
From Verif Require Import Base LatchModel LatchSpec LatchProofs LatchQueue LatchSem.
Import ListNotations.
Open Scope Z_scope.

Lemma holds_holding : forall s p, holds s p <-> holding (pcs s p) = true.
Proof. intros. unfold holds. destruct (pcs s p); cbn; split; auto; try contradiction; discriminate. Qed.

(** At most one backend holds the latch, and the locked flag says whether one does. *)
Theorem C22_latch_exclusive : forall ops p q, let s := run step init ops in holds s p -> holds s q -> p = q.
Proof. intros ops p q s. rewrite !holds_holding. apply M_run. Qed.
Theorem C22_locked_flag : forall ops, let s := run step init ops in wl (wd s) = true <-> exists p, holds s p.
Proof.
  intros ops s. split.
  - intros L. destruct (m_own _ (M_run ops) L) as [p H]. exists p. apply holds_holding. auto.
  - intros [p H]. apply holds_holding in H. apply (m_lock _ (M_run ops) p H).
Qed.
(** While the page is open for reading, nobody changes its words: they are those of the last publication. *)
Theorem C22_open_page_is_published : forall ops, let s := run step init ops in
  live s = true -> wn (wd s) = false -> forall i, data s i = pub s (ver s) i.
Proof. intros ops s. apply M_run. Qed.
(** A copy that validated agrees with one publication, unless a 32-bit or 31-bit counter wrapped during the read. *)
Theorem C22_validated_copy : forall ops r, let s := run step init ops in In r (reads s) ->
  r_gen r < r_ref r + 2 ^ 31 -> r_v1 r < r_v0 r + 2 ^ 32 -> copy_of (r_img r) (pub s (r_v0 r)).
Proof.
  intros ops r s H A B. pose proof (m_log _ (M_run ops)) as F. rewrite Forall_forall in F. destruct (F r H) as (_ & _ & C). destruct (C A) as [_ D]. exact (D B).
Qed.

(** No wake-up is lost: when nobody can move, nobody wants the latch or waits for the page to
    become readable, and those who wait for a change see the count they wait to change. *)
Theorem C22_no_lost_wakeup : forall ops, let s := run step init ops in stuck s -> forall p,
  ~ wants_latch s p /\ ~ wants_read s p /\ (forall c, wants_change s p c -> wc (wd s) = c mod 2 ^ 12).
Proof.
  intros ops s St p. destruct (Q_run ops) as [M (N & R & P & Q)]. fold s in M, Q.
  assert (Nm : forall q, mid (pcs s q) = false).
  { intros q. destruct (St q) as [E|E]; [rewrite E; auto|]. unfold asleep in E. destruct (pcs s q); auto; contradiction. }
  assert (NP : forall q, P q = []).
  { intros q. pose proof (q_priv _ _ _ _ Q q) as H. destruct (St q) as [E|E]; [rewrite E in H; auto|].
    unfold asleep in E. destruct (pcs s q); auto; contradiction. }
  assert (NL : wl (wd s) = false).
  { destruct (wl (wd s)) eqn:L; auto. exfalso. destruct (m_own _ M L) as [q H]. destruct (St q) as [E|E]; [rewrite E in H; discriminate|].
    unfold asleep in E. destruct (pcs s q); try contradiction; discriminate. }
  destruct (q_plain _ _ _ _ Q Nm) as [-> _].
  assert (NU : forall q, waiting (pcs s q) = true -> stat s q <> WUp).
  { intros q W U. destruct (q_up _ _ _ _ Q q W U) as [H|(r & rel & w0 & nx & H)].
    - destruct (St q) as [E|E]; [rewrite E in W; discriminate|]. unfold asleep in E. destruct (pcs s q); try contradiction; lia.
    - destruct (St r) as [E|E]; [congruence|]. unfold asleep in E. rewrite H in E. contradiction. }
  assert (IN : forall q, waiting (pcs s q) = true -> In q N).
  { intros q W. destruct (q_all _ _ _ _ Q q W (NU q W)) as [H|[r H]]; [rewrite app_nil_r in H; auto|]. rewrite NP in H. contradiction. }
  split; [|split].
  - intros W. assert (L : lwait (pcs s p)) by (unfold wants_latch in W; unfold lwait; destruct (pcs s p); try contradiction; eauto).
    destruct (q_way _ _ _ _ Q NL) as [q O].
    { exists p. split; auto. apply IN. destruct L as (k & x & ->). auto. }
    destruct O as [((k & x & E) & _ & [[r H]|U])|[(k & x & E)|(k & x & w & E & _)]].
    + rewrite NP in H. contradiction.
    + apply (NU q); auto. rewrite E. auto.
    + destruct (St q) as [F|F]; [congruence|]. unfold asleep in F. rewrite E in F. contradiction.
    + destruct (St q) as [F|F]; [congruence|]. unfold asleep in F. rewrite E in F. contradiction.
  - unfold wants_read. intros W. destruct (pcs s p) eqn:E; try contradiction.
    pose proof (q_read _ _ _ _ Q p _ _ (IN p ltac:(rewrite E; auto)) E). congruence.
  - unfold wants_change. intros c W. destruct (pcs s p) eqn:E; try contradiction. subst c.
    pose proof (q_chg _ _ _ _ Q p _ _ (IN p ltac:(rewrite E; auto)) E) as C. unfold changed in C. lia.
Qed.
(** When nobody is unlocking, the wait list that starts in the page-state word contains each
    sleeping backend that has not been picked for wake-up, once. *)
Theorem C22_wait_list : forall ops, let s := run step init ops in (forall p, ~ holds s p) ->
  exists N, seg (nxt s) (wt (wd s)) N INV /\ NoDup N /\ (forall p, In p N -> waiting (pcs s p) = true /\ stat s p <> WUp) /\
    (forall p, waiting (pcs s p) = true -> stat s p <> WUp -> In p N \/ exists q, head (pcs s q) <> None).
Proof.
  intros ops s H. destruct (Q_run ops) as [M (N & R & P & Q)]. fold s in M, Q.
  assert (Nm : forall q, mid (pcs s q) = false).
  { intros q. destruct (mid (pcs s q)) eqn:E; auto. exfalso. apply (H q). apply holds_holding. apply mid_holding. auto. }
  destruct (q_plain _ _ _ _ Q Nm) as [-> Sg]. pose proof (q_nd _ _ _ _ Q) as ND. rewrite app_nil_r in ND. exists N.
  split; auto. split; auto. split.
  - intros p A. apply (wstat_waiting). apply (q_mem _ _ _ _ Q). rewrite app_nil_r. auto.
  - intros p A B. destruct (q_all _ _ _ _ Q p A B) as [C|[q C]]; [rewrite app_nil_r in C; auto|]. right. exists q.
    pose proof (q_priv _ _ _ _ Q q) as V. destruct (head (pcs s q)); [discriminate|]. rewrite V in C. contradiction.
Qed.

(** Semaphore posts from elsewhere survive as long as only plain latch requests and reads are used. *)
Theorem C22_posts_kept_partial : forall ops p, Forall basic ops -> posts_kept (run step init ops) p.
Proof.
  intros ops p F E. assert (Forall plain_op ops) by exact F. pose proof (s_cons _ (S_run ops H) p) as C. unfold due in C. rewrite E in C. cbn in C. lia.
Qed.
(** F15: lock_page_with_tuple leaves extraWaits at -1 after the first wait, so that a post
    absorbed during the second wait is not given back.  Backend 1 waits twice; a foreign post arrives in the second wait. *)
Definition take (p : Z) (k : kind) := [OLock p k; OState p; OCas p 0].
Definition queue (p : Z) := [OState p; OCas p 0].
Definition release (p : Z) (n : nat) := [OUnlock p false false; OState p; OWalk p n; OUCas p].
Definition wake1 (p : Z) := [OWake p; OUSem p].
Definition ops_tuple : list op :=
  take 0 KExcl ++ OLock 1 KIns :: queue 1 ++ release 0 5 ++ wake1 0 ++ [OWake 0] ++ take 2 KExcl ++ [OSem 1] ++ queue 1 ++
  [OPost 1; OSem 1] ++ release 2 5 ++ wake1 2 ++ [OWake 2; OSem 1] ++ queue 1 ++ release 1 5 ++ [OWake 1].
Theorem C22_posts_kept_refuted_tuple : exists ops p, ~ posts_kept (run step init ops) p.
Proof. exists ops_tuple, 1. unfold posts_kept. intros H. specialize (H ltac:(vm_compute; reflexivity)). vm_compute in H. discriminate. Qed.
(** F15: page_wait_for_changecount returns at once when the page has changed by the time it queues again, without
    giving back what it absorbed.  Backend 1 releases the page to wait for a change,
    absorbs a foreign post, is woken by an unlock that did not change the page, and finds the page changed on the second try. *)
Definition ops_relock : list op :=
  take 1 KExcl ++ [OUnlock 1 false true; OState 1; OWalk 1 5; OUCas 1; OWake 1] ++ queue 1 ++ [OPost 1; OSem 1] ++
  take 0 KExcl ++ release 0 5 ++ wake1 0 ++ [OWake 0; OSem 1; OState 1] ++
  take 0 KExcl ++ [OBlock 0] ++ release 0 5 ++ [OWake 0] ++ queue 1 ++ queue 1 ++ release 1 5 ++ [OWake 1].
Theorem C22_posts_kept_refuted_relock : exists ops p, Forall (fun o => match o with OLock _ KIns => False | _ => True end) ops /\ ~ posts_kept (run step init ops) p.
Proof.
  exists ops_relock, 1. split; [cbv; repeat constructor|]. unfold posts_kept. intros H. specialize (H ltac:(vm_compute; reflexivity)). vm_compute in H. discriminate.
Qed.

(** F14: relock_page does not wait once the page's change count has reached 4096. *)
Fixpoint rep {A} (n : nat) (l : list A) : list A := match n with O => [] | Datatypes.S n => l ++ rep n l end.
Definition bump : list op := [OTryLock 0; OBlock 0; OUnlock 0 false false; OState 0; OWalk 0 1; OUCas 0; OWake 0].
Definition view (s : state) (p : Z) : option (Z * Z * bool) :=
  match pcs s p with CHave w0 _ w => Some (wc w0, wc w, word_eqb w (wd s)) | _ => None end.
Theorem C22_relock_waits_refuted : exists ops p u, let s := run step init ops in
  view s p = Some (4096, 4096, true) /\ is_idle (match pcs (step s (OCas p u)) p with LTry _ _ => Idle | c => Held (wd s) end) = true.
Proof.
  exists (rep (Z.to_nat 4096) bump ++ [OTryLock 1; OUnlock 1 false true; OState 1; OWalk 1 1; OUCas 1; OWake 1; OState 1]), 1, 0.
  vm_compute. auto.
Qed.
(** F16: of several waiters the release picks the newest, not the oldest (comment at page_state.c:1073):
    backend 1 queued before backend 2, and backend 2 is woken. *)
Theorem C22_oldest_first_refuted : exists ops before, let s := run step init ops in let s0 := run step init before in
  wants_latch s0 1 /\ ~ wants_latch s0 2 /\ wants_latch s 1 /\ wants_latch s 2 /\ stat s 2 = WUp /\ stat s 1 = WExcl.
Proof.
  exists (take 0 KExcl ++ take 1 KExcl ++ take 2 KExcl ++ release 0 5 ++ [OWake 0]), (take 0 KExcl ++ take 1 KExcl).
  unfold wants_latch. vm_compute. auto 10.
Qed.

(** C23: a reference made at generation [a] of the slot and accepted at generation [b], by
    latching the page or by a validated copy, is accepted in the generation it was made in. *)
Theorem C23_latched_reference : forall ops a b, In (a, b) (checks (run step init ops)) -> b < a + 2 ^ 31 -> a = b.
Proof.
  intros ops a b H B. pose proof (m_chk _ (M_run ops)) as F. rewrite Forall_forall in F. destruct (F _ H) as [_ C]. cbn in C. symmetry. auto.
Qed.
Theorem C23_copied_reference : forall ops r, In r (reads (run step init ops)) -> r_gen r < r_ref r + 2 ^ 31 -> r_gen r = r_ref r.
Proof.
  intros ops r H B. pose proof (m_log _ (M_run ops)) as F. rewrite Forall_forall in F. destruct (F r H) as (_ & _ & C). apply C; auto.
Qed.
(** The generation word of the page is the number of evictions and frees of the slot, modulo 2^31;
    so after exactly 2^31 of them a stale reference is accepted. *)
Theorem C23_generation : forall ops, gen (run step init ops) = life (run step init ops) mod 2 ^ 31.
Proof. intros. apply M_run. Qed.

(** The hypotheses are met: a page is created, written and published; backend 3 copies two words
    of it; backend 5 starts a copy and the page changes under it, so that it waits, is woken and copies again;
    the slot is freed and the old reference is refused, both by copy and under latch. *)
Definition mk (p v : Z) := take p KExcl ++ [OBlock p; OReuse p; OWrite p 0 v; OWrite p 1 (v + 1)] ++ release p 9 ++ [OWake p].
Definition rd_ (p : Z) := [OState p; OCopy p 0; OCopy p 1; ORCheck p; ORGen p].
Definition ops_read : list op :=
  mk 0 10 ++ ORead 3 0 :: rd_ 3 ++ [ORead 5 0; OState 5; OCopy 5 0] ++ take 0 KExcl ++ [OCheck 0 0; OBlock 0; OWrite 0 0 20; OCopy 5 1; ORCheck 5; OState 5; OCas 5 0] ++
  [OWrite 0 1 21] ++ release 0 9 ++ wake1 0 ++ [OWake 0; OSem 5; OState 5; OCas 5 0] ++ rd_ 5 ++
  ORead 6 0 :: take 0 KExcl ++ [OBlock 0; OFree 0] ++ release 0 9 ++ [OWake 0] ++ rd_ 6 ++ take 7 KExcl ++ [OCheck 7 0] ++ [OState 7; OWalk 7 5; OUCas 7; OWake 7].
Example C22_C23_met : let s := run step init ops_read in
  map (fun r => (r_ref r, r_gen r, r_v0 r, r_v1 r, (r_img r 0, r_img r 1))) (reads s) = [(0, 0, 2, 2, (Some 20, Some 21)); (0, 0, 1, 1, (Some 10, Some 11))] /\
  checks s = [(0, 0)] /\ life s = 1 /\ map (fun p => is_idle (pcs s p)) [0; 3; 5; 6; 7] = [true; true; true; true; true].
Proof. vm_compute. auto. Qed.
(** A state in which nobody can move and two backends sleep in relock_page; and one where two sleepers remain after a
    release, because a woken backend is on its way. *)
Example C22_stuck_met : let s := run step init (rep 1 ([OTryLock 1; OUnlock 1 false true; OState 1; OWalk 1 5; OUCas 1; OWake 1] ++ queue 1)) in
  wants_change s 1 0 /\ asleep s 1 /\ stuck s.
Proof.
  split; [vm_compute; auto|]. split; [vm_compute; auto|]. intros p.
  destruct (Z.eq_dec p 1) as [->|n]; [right; vm_compute; auto|left]. cbn. rewrite !upd_other by auto. auto.
Qed.
Example C22_posts_met : let ops := take 0 KExcl ++ take 1 KExcl ++ [OPost 1; OSem 1] ++ release 0 5 ++ wake1 0 ++ [OWake 0; OSem 1] ++ queue 1 ++ release 1 5 ++ [OWake 1] in
  Forall basic ops /\ sem (run step init ops) 1 = 1%nat /\ fp (run step init ops) 1 = 1 /\ is_idle (pcs (run step init ops) 1) = true.
Proof. split; [cbv; repeat constructor|]. vm_compute. auto. Qed.

Print Assumptions C22_latch_exclusive.
Print Assumptions C22_locked_flag.
Print Assumptions C22_open_page_is_published.
Print Assumptions C22_validated_copy.
Print Assumptions C22_no_lost_wakeup.
Print Assumptions C22_wait_list.
Print Assumptions C22_posts_kept_partial.
Print Assumptions C22_posts_kept_refuted_tuple.
Print Assumptions C22_posts_kept_refuted_relock.
Print Assumptions C22_relock_waits_refuted.
Print Assumptions C22_oldest_first_refuted.
Print Assumptions C23_latched_reference.
Print Assumptions C23_copied_reference.
Print Assumptions C23_generation.
