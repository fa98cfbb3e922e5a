(** Property C16: a statement does not see its own changes; later statements do. *)
From Coq Require Import ZArith List Bool.
From Verif Require Import Base CommandModel CommandSpec CommandProofs.
Import ListNotations.
Open Scope Z_scope.

(** For every program (any interleaving of statements, including nested ones whose
    command ids go up and down again, with other allocations in between), looking
    up the tag of the i-th version gives exactly the command that wrote it. *)
Theorem C16_command_of_version_exact : forall ops l,
  let s := run cstep (cinit l) ops in
  Forall2 (fun loc c => c <> invalid_cid -> get_command (c_infos s) loc = Some c)
          (map fst (c_ver s)) (rev (writers 0 ops)).
Proof. exact lookup_all. Qed.

(** So a statement with command id [cid] sees a version of its own transaction iff
    a strictly smaller command wrote it. *)
Theorem C16_sees_own_iff_earlier_command : forall ops l cid,
  let s := run cstep (cinit l) ops in
  Forall2 (fun loc c => c <> invalid_cid -> (sees_own (c_infos s) cid loc = true <-> c < cid))
          (map fst (c_ver s)) (rev (writers 0 ops)).
Proof.
  intros ops l cid s. generalize (C16_command_of_version_exact ops l). cbv zeta. fold s.
  induction 1 as [|loc c ls cs H _ IH]; constructor; [|exact IH].
  intros Hc. unfold sees_own. rewrite (H Hc). apply Z.ltb_lt.
Qed.

(** A nested program: command 3 writes, a function it calls runs command 4, then
    command 3 writes again. *)
Definition nested_commands : list cop :=
  [COther 100; CSet 3; CInsert 64 32; CSet 4; CUpdate 64 32; COther 8; CSet 3; CInsertNoUndo 8;
   CGroupInsert 64; CSet 7; CInsertNoUndo 8; CUpdate 128 32].
Example nested_commands_result :
  let s := run cstep (cinit 1000) nested_commands in
  rev (writers 0 nested_commands) = [7; 7; 3; 3; 4; 3] /\
  map (fun v => get_command (c_infos s) (fst v)) (c_ver s) = map Some [7; 7; 3; 3; 4; 3] /\
  map (fun v => sees_own (c_infos s) 4 (fst v)) (c_ver s) = [false; false; true; true; false; true].
Proof. vm_compute. repeat split. Qed.

Print Assumptions C16_command_of_version_exact.
Print Assumptions C16_sees_own_iff_earlier_command.
