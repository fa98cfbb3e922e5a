(** C44: CREATE INDEX CONCURRENTLY. *)
From Coq Require Import ZArith List Bool Lia Permutation.
From Verif Require Import Base CicModel CicSpec CicProofs.
Import ListNotations.
Open Scope Z_scope.

(** Whatever writers did and in whatever order the files are merged, no row of
    the table is missing from the index when it becomes valid. *)
Theorem C44_no_missing : forall ops dir,
  let s := run step init ops in covers (s_table s) (finished s dir).
Proof.
  intros ops dir s k pk E. unfold finished, cover. rewrite E. now rewrite Z.eqb_refl.
Qed.

(** Every captured change comes out of the merge once, and changes of the same
    index entry in the order they were made, including the ones written by
    rollbacks, for any number of writers and any reopening of files. *)
Theorem C44_order_kept : forall ops dir,
  let s := run step init ops in
  listing s dir ->
  Permutation (captured s dir) (map fst (merged s dir)) /\ kept_in_order (map fst (merged s dir)).
Proof.
  intros ops dir s L. split.
  - apply merges_perm. apply merged_merges.
  - apply ordered_kept. apply merged_ordered; [apply run_inv_all; exact init_inv|exact L].
Qed.

(** If replay used each entry's own payload, the index would be exact,
    provided no indexed column is updated once the build has started. *)
Theorem C44_exact_own_payload_partial : forall before ops dir,
  let s := run step (run step init before) ops in
  s_phase (run step init before) = Before -> Forall no_key_update ops ->
  s_phase s = Locked -> listing s dir -> exact (s_table s) (finished_own s dir).
Proof.
  intros before ops dir s B F P L. apply finished_own_exact; try assumption.
  - apply run_inv_all. apply run_inv_all. exact init_inv.
  - apply run_cnt; try assumption; [apply run_inv_all; exact init_inv|congruence|]. fold s. congruence.
Qed.

(** With the reader as it is, the same holds if at most one backend captured
    changes. *)
Theorem C44_exact_one_writer_partial : forall before ops dir,
  let s := run step (run step init before) ops in
  s_phase (run step init before) = Before -> Forall no_key_update ops -> one_writer s ->
  s_phase s = Locked -> listing s dir -> exact (s_table s) (finished s dir).
Proof.
  intros before ops dir s B F W P L. rewrite finished_one by assumption.
  apply (C44_exact_own_payload_partial before ops dir); assumption.
Qed.

(** The validation of a unique index (NULLS DISTINCT), fed in key order,
    refuses exactly when two entries collide. *)
Theorem C44_unique_check_partial : forall n l, Forall (fun a => length a = n) l -> in_key_order l ->
  (validate false None l = true <-> ~ has_duplicate false l).
Proof. intros n l F O. apply (validate_sound l None n F); [discriminate|exact O]. Qed.

(** ** Refutations *)

Definition two_rows : list op := [OBegin 1; OInsert 1 1 11; OInsert 1 2 22; OEnd 1].

(** Two sessions each delete one row after the build scan has read it.  The
    merge hands out one session's payload for both changes: the entry of the
    other row stays in the valid index. *)
Definition two_writers : list op :=
  two_rows ++ [OInstall; OScan 1; OScan 2; OBegin 1; ODelete 1 1; OEnd 1; OBegin 2; ODelete 2 2; OEnd 2; OBuilt; OLock].

Theorem C44_two_writers_refuted :
  let s := run step init two_writers in
  s_phase s = Locked /\ listing s [1; 2] /\ s_table s 1 = None /\ finished s [1; 2] 11 1 = true
  /\ ~ exact (s_table s) (finished s [1; 2]).
Proof.
  assert (F : finished (run step init two_writers) [1; 2] 11 1 = true) by (vm_compute; reflexivity).
  assert (T : s_table (run step init two_writers) 1 = None) by (vm_compute; reflexivity).
  split; [vm_compute; reflexivity|]. split; [|split; [exact T|split; [exact F|]]].
  - split; [repeat constructor; cbn; intuition discriminate|].
    apply spool_only; [intros p H; now elim H|]. unfold two_writers, two_rows. cbn [app].
    repeat (constructor; [cbn; auto|]). constructor.
  - intros E. apply E in F. congruence.
Qed.

(** One session inserts a row (captured), the build reads it, and after the
    load the same session updates its key, which goes to the tree directly.
    The captured insert is replayed on top: two entries for one row. *)
Definition direct_update : list op :=
  [OInstall; OBegin 1; OInsert 1 1 11; OScan 1; OBuilt; OUpdate 1 1 12; OEnd 1; OLock].

Theorem C44_update_refuted :
  let s := run step init direct_update in
  s_phase s = Locked /\ one_writer s /\ listing s [1] /\ s_table s 1 = Some 12
  /\ finished s [1] 12 1 = true /\ finished s [1] 11 1 = true /\ finished_own s [1] 11 1 = true.
Proof.
  split; [vm_compute; reflexivity|]. 
  assert (U : forall p, s_spool (run step init direct_update) p <> [] -> p = 1).
  { intros p H. assert (K : In p [1]); [|destruct K as [<-|[]]; reflexivity]. revert p H.
    apply spool_only; [intros p H; now elim H|]. unfold direct_update. repeat (constructor; [cbn; auto|]). constructor. }
  split; [intros p q Hp Hq; rewrite (U p Hp), (U q Hq); reflexivity|].
  split; [split; [repeat constructor; intros []|intros p Hp; left; now rewrite (U p Hp)]|].
  repeat split; vm_compute; reflexivity.
Qed.

(** NULLS NOT DISTINCT: a NULL next to a value is reported as a duplicate. *)
Theorem C44_nulls_not_distinct_refuted :
  let l := [[Some 5]; [None]] in
  in_key_order l /\ ~ has_duplicate true l /\ validate true None l = false.
Proof.
  split; [cbn; tauto|]. split; [|reflexivity].
  intros (l1 & a & l2 & b & l3 & E & S & _). subst b. destruct l1 as [|? l1].
  - cbn in E. injection E as Ea El. subst a. destruct l2 as [|? l2]; cbn in El; [discriminate El|].
    injection El as _ El. destruct l2; discriminate El.
  - cbn in E. injection E as _ El. destruct l1 as [|? l1]; cbn in El.
    + injection El as _ El. destruct l2; discriminate El.
    + injection El as _ El. destruct l1; discriminate El.
Qed.

(** The scan that feeds the validation visits leaves on disk by file offset:
    a duplicate across two leaves is missed and the unique index becomes
    valid. *)
Theorem C44_unique_scan_order_refuted :
  let leaves := [(Some 30, [[Some 1]; [Some 2]]); (Some 10, [[Some 2]; [Some 3]])] : list leaf in
  in_key_order (flat_map snd leaves) /\ has_duplicate false (flat_map snd leaves)
  /\ validate false None (scan_order leaves) = true.
Proof.
  cbv zeta. split; [cbn; repeat split; lia|]. split; [|vm_compute; reflexivity].
  exists [[Some 1]], [Some 2], [], [Some 2], [[Some 3]]. split; [reflexivity|]. split; [reflexivity|].
  intros _. constructor; [discriminate|constructor].
Qed.

(** ** The hypotheses are met *)

(** A session inserts, deletes an old row, rolls part of it back, and commits,
    while the scan runs in between. *)
Definition busy : list op :=
  [OInstall; OScan 1; OBegin 1; ODelete 1 1; OInsert 1 3 33; OScan 3; ODelete 1 2; OUndo 1; OInsert 1 4 44; OUndo 1; OReopen 1;
   OEnd 1; OBuilt; OBegin 1; ODelete 1 3; OInsert 1 5 55; OEnd 1; OLock].

Example C44_hypotheses_met :
  let s := run step (run step init two_rows) busy in
  s_phase (run step init two_rows) = Before /\ Forall no_key_update busy /\ one_writer s /\ s_phase s = Locked
  /\ listing s [1] /\ length (captured s [1]) = 8%nat /\ s_table s 1 = None /\ s_table s 2 = Some 22 /\ s_table s 5 = Some 55
  /\ s_tree s 33 3 = true /\ finished s [1] 33 3 = false.
Proof.
  split; [vm_compute; reflexivity|]. split; [unfold busy; repeat (constructor; [exact Logic.I|]); constructor|].
  assert (U : forall p, s_spool (run step (run step init two_rows) busy) p <> [] -> p = 1).
  { intros p H. assert (K : In p [1]); [|destruct K as [<-|[]]; reflexivity]. revert p H.
    apply spool_only; [|unfold busy; repeat (constructor; [cbn; auto|]); constructor].
    apply spool_only; [intros p H; now elim H|]. unfold two_rows. repeat (constructor; [cbn; auto|]). constructor. }
  split; [intros p q Hp Hq; rewrite (U p Hp), (U q Hq); reflexivity|]. split; [vm_compute; reflexivity|].
  split; [split; [repeat constructor; intros []|intros p Hp; left; now rewrite (U p Hp)]|].
  repeat split; vm_compute; reflexivity.
Qed.

(** Two writers whose rollback is written after a later writer's change has a
    position of its own. *)
Definition interleaved : list op :=
  two_rows ++ [OInstall; OBegin 1; OBegin 2; ODelete 1 1; ODelete 2 2; OUndo 1; OEnd 1; ODelete 2 1; OEnd 2; OBuilt; OLock].
Example C44_two_writers_own_payload_met :
  let s := run step init interleaved in
  s_phase s = Locked /\ map e_id (map fst (merged s [1; 2])) = [0; 2; 1; 3]
  /\ finished_own s [1; 2] 11 1 = false /\ finished_own s [1; 2] 22 2 = false.
Proof. repeat split; vm_compute; reflexivity. Qed.

Example C44_unique_met : in_key_order [[Some 1; Some 2]; [Some 1; None]; [Some 1; None]; [Some 4; Some 4]]
  /\ validate false None [[Some 1; Some 2]; [Some 1; None]; [Some 1; None]; [Some 4; Some 4]] = true.
Proof. split; [cbn; repeat split; lia|reflexivity]. Qed.

Print Assumptions C44_no_missing.
Print Assumptions C44_order_kept.
Print Assumptions C44_exact_own_payload_partial.
Print Assumptions C44_exact_one_writer_partial.
Print Assumptions C44_unique_check_partial.
Print Assumptions C44_two_writers_refuted.
Print Assumptions C44_update_refuted.
Print Assumptions C44_nulls_not_distinct_refuted.
Print Assumptions C44_unique_scan_order_refuted.
