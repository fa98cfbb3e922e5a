(** Property C32: a page frame is handed to one owner at a time, and the usage map is exact. *)
From Coq Require Import ZArith List Bool Lia.
From Verif Require Import Base UcmModel UcmSpec UcmProofs UcmLemmas UcmSearch.
Import ListNotations.
Open Scope Z_scope.

Lemma C32_setup : forall size, 0 < size -> exists D, geom_ok (estimate size) D /\ g_size (estimate size) = size.
Proof. exact estimate_ok. Qed.

(** Whatever the schedule, a page is not handed out again before it was returned. *)
Theorem C32_one_owner : forall size ops, 0 < size ->
  let g := estimate size in one_owner (log (run (step g) (init g) ops)).
Proof. intros size ops H g. destruct (estimate_ok size H) as [D [GO _]]. apply (owner_run g ops). Qed.
Print Assumptions C32_one_owner.

(** A page handed out was free at that moment: its owner and no one else holds it. *)
Theorem C32_hand_out_free : forall size s p b, 0 < size ->
  let g := estimate size in
  log (step g s (TryPage p b)) <> log s -> lev s b = FREE /\ lev (step g s (TryPage p b)) b = INVALID.
Proof.
  intros size s p b H g. cbn [step].
  destruct ((alloc s p =? 1) && in_pool g b && (lev s b =? FREE)) eqn:E; [|congruence].
  intros _. cbn [lev]. rewrite upd_same. apply andb_true_iff in E. destruct E as [_ E]. apply Z.eqb_eq in E. auto.
Qed.
Print Assumptions C32_hand_out_free.

(** When no update is under way every counter equals what it summarises. *)
Theorem C32_counters_exact : forall size ops, 0 < size ->
  let g := estimate size in let s := run (step g) (init g) ops in
  quiet s -> counters_exact g s.
Proof.
  intros size ops H g s Q. destruct (estimate_ok size H) as [D [GO _]].
  apply quiet_exact; [apply (SInv_run g D GO)|exact Q].
Qed.
Print Assumptions C32_counters_exact.

(** ... so a counter is non-zero exactly where a page of that level can be found below. *)
Theorem C32_descend_where_found : forall size ops, 0 < size ->
  let g := estimate size in let s := run (step g) (init g) ops in
  quiet s -> summary_exact g s.
Proof.
  intros size ops H g s Q. destruct (estimate_ok size H) as [D [GO _]].
  apply (exact_summary g D GO). apply quiet_exact; [apply (SInv_run g D GO)|exact Q].
Qed.
Print Assumptions C32_descend_where_found.

(** A process that took a page from its reservation always has a free page to find,
    in every state, even while other processes reserve, allocate and free. *)
Theorem C32_reservation_covered : forall size ops p, 0 < size ->
  let g := estimate size in let s := run (step g) (init g) ops in
  allocating s p -> exists b, 0 <= b < size /\ lev s b = FREE.
Proof.
  intros size ops p H g s A. destruct (estimate_ok size H) as [D [GO E]].
  destruct (alloc_has_free g D GO ops p A) as [b [Hb F]]. fold g in E. rewrite E in Hb. exists b. auto.
Qed.
Print Assumptions C32_reservation_covered.

(** ... and the search finds one when no update is under way. *)
Theorem C32_search_finds : forall size ops p, 0 < size ->
  let g := estimate size in let s := run (step g) (init g) ops in
  quiet s -> allocating s p ->
  exists fuel b, search g fuel (lev s) (word s) (search_init g) = Some b /\ 0 <= b < size /\ lev s b = FREE.
Proof.
  intros size ops p H g s Q A. destruct (estimate_ok size H) as [D [GO E]]. fold g in E.
  pose proof (search_finds g D GO s (quiet_exact g s (SInv_run g D GO ops) Q) (alloc_has_free g D GO ops p A)) as X.
  rewrite E in X. exact X.
Qed.
Print Assumptions C32_search_finds.

(** 500 pages: 15 non-leaf words and 34 leaf words; two processes take pages, one returns it. *)
Definition ex_ops : list op :=
  [Reserve 1 2; StartAlloc 1; TryPage 1 0; Apply 0; Apply 0; Reserve 2 1; StartAlloc 2; TryPage 2 0; TryPage 2 1;
   Init 1 0 2; Apply 0; Apply 0; Apply 0; Apply 0; Inc 0; Apply 0; Apply 0; FreePage 1 0; AddFreed; Apply 0; Apply 0; StartAlloc 1].
Example ex_geom : estimate 500 = mkGeom 500 49 15 225. Proof. vm_compute. reflexivity. Qed.
Example ex_state : let g := estimate 500 in let s := run (step g) (init g) ex_ops in
  (pends s, avail s, log s, map (fun l => nib (word s 15) l) [0; 2; 3; 7], alloc s 1, word s 0)
  = ([], 498, [Rel 1 0; Got 2 1; Got 1 0], [0; 0; 0; 14], 1, 15 * 16 ^ 7).
Proof. vm_compute. reflexivity. Qed.
Example ex_search : let g := estimate 500 in let s := run (step g) (init g) ex_ops in
  search g 10 (lev s) (word s) (search_init g) = Some 0.
Proof. vm_compute. reflexivity. Qed.
