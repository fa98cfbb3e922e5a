(** Property C15: file cleanup never discards retained data. *)
From Coq Require Import ZArith List Bool.
From Verif Require Import Base UnlinkModel UnlinkSpec UnlinkProofs.
Import ListNotations.
Open Scope Z_scope.

(** No block holding an item of the checkpoint-retained range, or at or above the
    running-transaction horizon, is touched; for every range, block and file size. *)
Theorem C15_retained_blocks_untouched : forall sparse bpf ipb s cstart cend ckstart ckend trx i b,
  0 < bpf -> 0 < ipb -> retained ckstart ckend trx i -> in_block ipb i b ->
  kept s (unlink_unretained sparse bpf ipb s cstart cend ckstart ckend trx) b.
Proof. exact unlink_safe. Qed.

(** With sparse files, every block inside the cleaned range without a retained item
    is discarded, both from the file and from the cache. *)
Theorem C15_dead_blocks_discarded : forall bpf ipb s cstart cend ckstart ckend trx b,
  0 < bpf -> 0 < ipb ->
  cstart <= b * ipb -> (b + 1) * ipb <= cend ->
  (forall i, in_block ipb i b -> ~ retained ckstart ckend trx i) ->
  gone (unlink_unretained true bpf ipb s cstart cend ckstart ckend trx) b.
Proof. exact unlink_complete. Qed.

(** Without sparse files, the same for every wholly dead file of the range. *)
Theorem C15_dead_files_discarded : forall sparse bpf ipb s cstart cend ckstart ckend trx f b,
  0 < bpf -> 0 < ipb ->
  cstart <= f * bpf * ipb -> (f + 1) * bpf * ipb <= cend ->
  (forall i, f * bpf * ipb <= i < (f + 1) * bpf * ipb -> ~ retained ckstart ckend trx i) ->
  f * bpf <= b < (f + 1) * bpf ->
  gone (unlink_unretained sparse bpf ipb s cstart cend ckstart ckend trx) b.
Proof. exact unlink_complete_file. Qed.

(** The pair of calls made when the horizons move from (oldClean, [oldCkS, oldCkE))
    to (newMin, [newCkS, newCkE)): keeps what the new horizons retain ... *)
Theorem C15_horizon_move_keeps_retained : forall sparse bpf ipb s oldClean oldCkS oldCkE newCkS newCkE newMin i b,
  0 < bpf -> 0 < ipb -> retained newCkS newCkE newMin i -> in_block ipb i b ->
  kept s (cleanup_pair sparse bpf ipb s oldClean oldCkS oldCkE newCkS newCkE newMin) b.
Proof. exact pair_safe. Qed.

(** ... and discards every block that only the old horizons retained. *)
Theorem C15_horizon_move_discards_rest : forall bpf ipb s oldClean oldCkS oldCkE newCkS newCkE newMin b,
  0 < bpf -> 0 < ipb ->
  (forall i, in_block ipb i b -> ~ retained newCkS newCkE newMin i) ->
  (forall i, in_block ipb i b -> oldClean <= i) \/ (forall i, in_block ipb i b -> oldCkS <= i < oldCkE) ->
  gone (cleanup_pair true bpf ipb s oldClean oldCkS oldCkE newCkS newCkE newMin) b.
Proof. exact pair_complete. Qed.

(** Successive cleanups whose boundaries never fall strictly inside the last block
    of a file leave no file behind, with or without sparse files ... *)
Theorem C15_no_orphan_files : forall sparse bpf ipb bounds s from f b, 0 < bpf -> 0 < ipb ->
  ascending from bounds ->
  (forall e, In e (from :: bounds) -> ~ (((f + 1) * bpf - 1) * ipb < e < (f + 1) * bpf * ipb)) ->
  from < (f + 1) * bpf * ipb -> (f + 1) * bpf * ipb <= last bounds from ->
  f * bpf <= b < (f + 1) * bpf ->
  gone (cleanups sparse bpf ipb s from bounds) b.
Proof. exact cleanups_no_orphans. Qed.

(** ... but not in general (finding F7): a boundary strictly inside the last block of
    a file leaves that file behind for ever, contrary to the comment at
    o_buffers.c:623-625. *)
Theorem C15_no_orphan_files_unaligned_refuted :
  exists bpf ipb bounds s from f b, 0 < bpf /\ 0 < ipb /\ ascending from bounds /\
    from <= f * bpf * ipb /\ (f + 2) * bpf * ipb <= last bounds from /\
    f * bpf <= b < (f + 1) * bpf /\
    f_disk (cleanups false bpf ipb s from bounds) b = true.
Proof.
  exists 4, 8, [28; 64; 640], (mkFs (fun _ => true) (fun _ => false)), 0, 0, 0.
  vm_compute. repeat split; discriminate.
Qed.

(** The hypotheses are met: 4 blocks per file, 8 items per block, checkpoint range
    [40, 50), horizon 100, cleaning [3, 100). *)
Definition ex_fs := mkFs (fun _ => true) (fun b => b =? 5).
Example retained_example : retained 40 50 100 41 /\ in_block 8 41 5 /\
  map (f_disk (unlink_unretained true 4 8 ex_fs 3 100 40 50 100)) [0; 1; 4; 5; 6; 7; 8; 11; 12; 13] =
  [false; false; false; true; true; false; false; false; true; true].
Proof. vm_compute. repeat split; try discriminate; left; split; [discriminate|reflexivity]. Qed.
Example dead_example : forall i, in_block 8 i 8 -> ~ retained 40 50 100 i.
Proof. unfold in_block, retained. intros i H [H1|H1]; Lia.lia. Qed.
Example no_orphan_example : ascending 0 [5; 40; 41; 64] /\
  (forall e, In e [0; 5; 40; 41; 64] -> ~ ((0 + 1) * 4 - 1) * 8 < e < (0 + 1) * 4 * 8).
Proof. cbn. split; [Lia.lia|]. intros e H. repeat (destruct H as [<-|H]; [Lia.lia|]). contradiction. Qed.

Print Assumptions C15_retained_blocks_untouched.
Print Assumptions C15_dead_blocks_discarded.
Print Assumptions C15_dead_files_discarded.
Print Assumptions C15_horizon_move_keeps_retained.
Print Assumptions C15_horizon_move_discards_rest.
Print Assumptions C15_no_orphan_files.
Print Assumptions C15_no_orphan_files_unaligned_refuted.
