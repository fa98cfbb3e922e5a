(** Properties C30 and C31: the block cache is transparent. *)
From Coq Require Import ZArith List Bool Lia.
From Verif Require Import Base OBufModel OBufSpec OBufProofs OBufLemmas.
Import ListNotations.
Open Scope Z_scope.

(** Ordinary reads, writes and flushes by any number of processes, interleaved in any
    way, over any number of buffers: every read returns the last values written, and a
    finished flush has put every block of its range into the file. *)
Theorem C30_reads_see_last_writes : forall BS bpf G f0 ex ops, 0 < G -> files_ok bpf f0 ex ->
  forallb plain_op ops = true ->
  consistent BS f0 (log (run (step BS bpf G) (init f0 ex) ops)).
Proof. exact plain_consistent. Qed.

(** The same with the special options (missing_ok, mark_clean, direct page writes), when
    the callers keep their side of the contract. *)
Theorem C30_special_options : forall BS bpf G f0 ex l, 0 < G -> files_ok bpf f0 ex ->
  schedule_ok BS bpf G (init f0 ex) l ->
  consistent BS f0 (log (fold_left (exec BS bpf G) l (init f0 ex))).
Proof. exact cache_consistent. Qed.

(** When no one is working, the last values written are in the resident buffer, or in
    the file if the block is not resident. *)
Theorem C30_at_rest : forall BS bpf G f0 ex l k, 0 < G -> files_ok bpf f0 ex ->
  schedule_ok BS bpf G (init f0 ex) l -> 0 <= snd k ->
  let s := fold_left (exec BS bpf G) l (init f0 ex) in (forall p, pcs s p = Idle) ->
  agree BS (match find_slot G s k with Some n => s_data (slots s n) | None => file s k end) (content f0 (log s) k).
Proof. exact cache_file_or_buffer. Qed.

(** A call of any offset and size touches exactly its bytes. *)
Theorem C30_write_range : forall BS tag off size buf mok clean f, 0 < BS -> 0 <= off -> 0 < size ->
  let l := split BS tag off size buf true mok clean in
  forallb (valid_op BS) l = true /\
  (forall x, 0 <= x -> byte_at BS (content f (map ev_of l)) tag x =
     if (off <=? x) && (x <? off + size) then buf (x - off) else byte_at BS f tag x) /\
  (forall t x, t <> tag -> byte_at BS (content f (map ev_of l)) t x = byte_at BS f t x).
Proof. exact split_write. Qed.

Theorem C30_read_range : forall BS tag off size buf mok f, 0 < BS -> 0 <= off -> 0 < size ->
  let l := split BS tag off size buf false mok false in
  forallb (valid_op BS) l = true /\
  forall i, 0 <= i < size -> gather BS f l i = byte_at BS f tag (off + i).
Proof. exact split_read. Qed.

(** A sync of a byte range flushes every block and syncs every file it touches. *)
Theorem C30_sync_range : forall BS bpf from to x, 0 < BS -> 0 < bpf -> 0 <= from -> from <= x < to ->
  (fst (sync_blocks BS from to) <= x / BS <= snd (sync_blocks BS from to)) /\
  (fst (sync_files BS bpf from to) <= x / BS / bpf <= snd (sync_files BS bpf from to)).
Proof. exact sync_ranges. Qed.

(** C31.  A write is lost when another process, probing the same block with missing_ok,
    finds its file missing (finding F5): process 2 waits for the buffer that process 1 is
    loading; process 1 empties the buffer; process 2 then writes into a buffer that no
    longer stands for the block, and a later read does not see its value. *)
Definition ex_k : key := (0, 5).
Definition probe : bop := mkBop ex_k false 0 4 (fun _ => 0) true false.
Definition wr (v : Z) : bop := mkBop ex_k true 0 4 (fun _ => v) false false.
Definition rd : bop := mkBop ex_k false 0 4 (fun _ => 0) false false.
Definition st1 (p : Z) (n : nat) : list op := repeat (OStep p) n.
Definition ex_race : list op :=
  OStart 1 probe :: st1 1 9 ++ OStart 2 (wr 7) :: st1 2 1 ++ st1 1 1 ++ st1 2 2 ++ OStart 3 rd :: st1 3 12.

Theorem C31_write_survives_probe_refuted :
  exists ops, forallb (fun x => match x with ODirect _ _ _ => false | OStart _ o => negb (o_clean o) | _ => true end) ops = true /\
  let l := log (run (step 8 4 2) (init (fun _ _ => 0) (fun _ => false)) ops) in
  exists r, l = [EvMiss 1 ex_k; EvWrite 2 ex_k 0 4 (fun _ => 7); EvRead 3 ex_k 0 4 r] /\ r 0 = 0.
Proof.
  exists ex_race. split; [vm_compute; reflexivity|]. cbv zeta. eexists. split; [vm_compute; reflexivity|vm_compute; reflexivity].
Qed.

(** What does hold (part of C31): nothing is lost as long as no one waits for the buffer
    at the moment a probe finds the file missing.  Missing: the general case, which is
    false. *)
Theorem C31_write_survives_probe_partial : forall BS bpf G f0 ex l, 0 < G -> files_ok bpf f0 ex ->
  schedule_ok BS bpf G (init f0 ex) (map IOp l) ->
  consistent BS f0 (log (run (step BS bpf G) (init f0 ex) l)).
Proof.
  intros BS bpf G f0 ex l HG Hf Ho. rewrite <- fold_exec. exact (cache_consistent BS bpf G f0 ex (map IOp l) HG Hf Ho).
Qed.

(** The hypotheses are met, and the logs are not empty: with one group of four buffers,
    five blocks are written by two processes, flushed and read back after eviction. *)
Definition blk (b : Z) : key := (0, b).
Definition w_at (b v : Z) : bop := mkBop (blk b) true 1 2 (fun j => v + j) false false.
Definition r_at (b : Z) : bop := mkBop (blk b) false 0 4 (fun _ => 0) false false.
Definition ex_ops : list op :=
  OStart 1 (w_at 0 10) :: st1 1 16 ++ OStart 2 (w_at 1 20) :: st1 2 16 ++ OStart 1 (w_at 2 30) :: OStart 2 (w_at 3 40) ::
  st1 1 4 ++ st1 2 3 ++ st1 1 16 ++ st1 2 16 ++ OStart 1 (w_at 4 50) :: st1 1 16 ++ OStart 2 (r_at 0) :: st1 2 16 ++
  OFlush 3 0 0 9 :: st1 3 14 ++ OStart 1 (r_at 4) :: st1 1 16.
Definition show (e : event) : list Z :=
  match e with
  | EvRead p k off len r => [1; p; snd k; r 0; r 1; r 2; r 3]
  | EvWrite p k off len d => [2; p; snd k; d 0; d 1]
  | EvMiss p k => [3; p; snd k]
  | EvSync p t a b n0 f => [4; n0; f (blk 0) 1; f (blk 1) 2; f (blk 2) 1; f (blk 3) 1; f (blk 4) 1]
  end.
Example ex_plain : forallb plain_op ex_ops = true /\
  map show (log (run (step 8 4 1) (init (fun _ _ => 0) (fun _ => false)) ex_ops)) =
  [[2; 1; 0; 10; 11]; [2; 2; 1; 20; 21]; [2; 1; 2; 30; 31]; [2; 2; 3; 40; 41]; [2; 1; 4; 50; 51];
   [1; 2; 0; 0; 10; 11; 0]; [4; 6; 10; 21; 30; 40; 50]; [1; 1; 4; 0; 50; 51; 0]].
Proof. vm_compute. split; reflexivity. Qed.
Example ex_files : files_ok 4 (fun _ _ => 0) (fun _ => false).
Proof. intros k _ j. reflexivity. Qed.
(** A direct page write and a probe of a missing file that meet their obligations. *)
Example ex_special : schedule_ok 8 4 1 (init (fun _ _ => 0) (fun _ => false))
    (IDirect 1 (blk 2) (fun j => 60 + j) :: map IOp (OStart 1 (r_at 2) :: st1 1 16)) /\
  map show (log (fold_left (exec 8 4 1)
    (IDirect 1 (blk 2) (fun j => 60 + j) :: map IOp (OStart 1 (r_at 2) :: st1 1 16)) (init (fun _ _ => 0) (fun _ => false)))) =
  [[2; 1; 2; 60; 61]; [1; 1; 2; 60; 61; 62; 63]].
Proof.
  split; [|vm_compute; reflexivity]. split; [split; [cbn; lia|]; split; [reflexivity|intros q X; exact X]|].
  vm_compute. repeat split; intros; discriminate.
Qed.

Print Assumptions C30_reads_see_last_writes.
Print Assumptions C30_special_options.
Print Assumptions C30_at_rest.
Print Assumptions C30_write_range.
Print Assumptions C30_read_range.
Print Assumptions C30_sync_range.
Print Assumptions C31_write_survives_probe_refuted.
Print Assumptions C31_write_survives_probe_partial.
