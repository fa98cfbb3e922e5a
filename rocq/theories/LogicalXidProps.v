(** C10: logical transaction ids of concurrent holders are distinct. *)
From Coq Require Import ZArith List Bool Lia.
From Verif Require Import Base LogicalXidModel LogicalXidLemmas.
Import ListNotations.
Open Scope Z_scope.

(** orioledb.logical_xid_buffers is limited to 1..1024 (src/orioledb.c:805-816). *)
Definition valid_setting (guc : Z) : Prop := 1 <= guc <= 1024.

(** PostgreSQL's circular order of normal transaction ids (TransactionIdPrecedes):
    the signed 32-bit difference is negative. *)
Definition xid_precedes (a b : Z) : Prop := 2 ^ 31 <= (a - b) mod 2 ^ 32.

(** States reachable by any interleaving of any number of backends. *)
Definition reachable (guc : Z) (s : lst) : Prop := exists ops, s = run (lstep guc) linit ops.

(** In every reachable state no id is held twice: not by two backends, and not by
    two nesting levels of one backend. *)
Theorem C10_held_ids_distinct :
  forall guc s, valid_setting guc -> reachable guc s ->
  forall p q i j x,
    nth_error (held (l_bks s p)) i = Some x ->
    nth_error (held (l_bks s q)) j = Some x ->
    p = q /\ i = j.
Proof. exact held_ids_distinct. Qed.
Print Assumptions C10_held_ids_distinct.

(** Every held id is a normal 32-bit id, and a slot of the shared map is marked
    exactly when somebody holds the id of that slot: nothing leaks and nothing
    is given away twice. *)
Theorem C10_slots_exact :
  forall guc s, valid_setting guc -> reachable guc s ->
  (forall p x, In x (held (l_bks s p)) -> 3 <= x < 2 ^ 32) /\
  (forall m, 0 <= m < guc * 65536 ->
     (slot_taken s m = true <-> exists p x, In x (held (l_bks s p)) /\ x mod (guc * 65536) = m)).
Proof. exact slots_exact. Qed.
Print Assumptions C10_slots_exact.

(** A successful acquisition gives the backend an id which precedes RecentXmin
    and which nobody (including itself) held before; every other backend's ids
    are untouched. *)
Theorem C10_acquired_id_fresh_and_past :
  forall guc s p i bit n d xmin, valid_setting guc -> reachable guc s ->
  3 <= xmin < 2 ^ 32 ->
  l_pc (l_bks s p) = PTry i bit n d ->
  let s' := lstep guc s (LOr p xmin) in
  l_pc (l_bks s' p) = PIdle ->
  let x := l_cur (l_bks s' p) in
  xid_precedes x xmin /\ 3 <= x < 2 ^ 32 /\
  (forall q, ~ In x (held (l_bks s q))) /\
  In x (held (l_bks s' p)) /\
  (forall y, In y (held (l_bks s p)) -> In y (held (l_bks s' p))) /\
  (forall q, q <> p -> l_bks s' q = l_bks s q).
Proof. exact acquired_fresh_past. Qed.
Print Assumptions C10_acquired_id_fresh_and_past.

(** Ending a subtransaction that has its own id frees exactly that id's slot,
    restores the enclosing id, and touches no other backend. *)
Theorem C10_release_exact :
  forall guc s p subid outer rest, valid_setting guc -> reachable guc s ->
  l_pc (l_bks s p) = PIdle -> l_prev (l_bks s p) = (outer, subid) :: rest ->
  let x := l_cur (l_bks s p) in
  x <> 0 ->
  let s' := lstep guc s (LSubEnd p subid) in
  l_cur (l_bks s' p) = outer /\
  (forall m, 0 <= m < guc * 65536 ->
     slot_taken s' m = true <-> (slot_taken s m = true /\ m <> x mod (guc * 65536))) /\
  (forall q, q <> p -> l_bks s' q = l_bks s q).
Proof. exact release_exact. Qed.
Print Assumptions C10_release_exact.

(** Ending the transaction leaves the backend with no id, and keeps every id of
    the other backends reserved. *)
Theorem C10_xact_end_releases_all :
  forall guc s p, valid_setting guc -> reachable guc s ->
  l_pc (l_bks s p) = PIdle -> l_saved (l_bks s p) = [] ->
  let s' := lstep guc s (LXactEnd p) in
  held (l_bks s' p) = [] /\
  (forall q, q <> p -> l_bks s' q = l_bks s q) /\
  (forall q x, q <> p -> In x (held (l_bks s q)) -> slot_taken s' (x mod (guc * 65536)) = true) /\
  (forall x, In x (held (l_bks s p)) -> slot_taken s' (x mod (guc * 65536)) = false).
Proof. exact xact_end_releases. Qed.
Print Assumptions C10_xact_end_releases_all.

(** A race: backends 7 and 2055 (same starting word) both read the same free
    bit, both try to set it; the loser retries and gets the next slot.  Backend
    7 then opens a subtransaction. *)
Definition race : list lop :=
  [LStart 7 DCur; LStart 2055 DCur; LRead 7; LRead 2055; LOr 2055 100; LOr 7 100;
   LRead 7; LOr 7 100; LStart 7 (DSub 2); LRead 7; LOr 7 70000].

Example C10_race_result :
  let s := run (lstep 1) linit race in
  held (l_bks s 2055) = [4294836448] /\ held (l_bks s 7) = [65762; 4294836449].
Proof. vm_compute. split; reflexivity. Qed.

Example C10_race_reachable_try :
  let s := run (lstep 1) linit (firstn 5 race) in
  reachable 1 s /\ l_pc (l_bks s 7) = PTry 7 1 0 DCur.
Proof. split; [eexists; reflexivity|vm_compute; reflexivity]. Qed.

Example C10_release_case :
  let s := run (lstep 1) linit race in
  l_prev (l_bks s 7) = [(4294836449, 2)] /\ l_cur (l_bks s 7) = 65762 /\
  slot_taken s (65762 mod 65536) = true /\
  slot_taken (lstep 1 s (LSubEnd 7 2)) (65762 mod 65536) = false.
Proof. vm_compute. repeat split. Qed.
