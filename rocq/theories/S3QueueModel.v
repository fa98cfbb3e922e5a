(** The circular queue of tasks for the object-store workers, src/s3/queue.c.

    Locations and lengths count 4-byte words: every task length is a multiple of
    4 (the callers align it) and the buffer is a multiple of 1024 bytes.  The
    unit of interleaving is one access to a shared counter, to a length word, or
    to a task body (one memcpy or memset is one step).  Sleeping on a condition
    variable is a repeated test. *)
From Coq Require Import ZArith List Bool Lia.
From Coq Require Import ZifyBool.
From Verif Require Import Base.
Import ListNotations.
Open Scope Z_scope.

(* queue.c:47 *)
Definition LENGTH_ERASED_FLAG := 2 ^ 31.
(* queue.c:324 [taskLen & LENGTH_ERASED_FLAG], for a 32-bit length *)
Definition is_erased (v : Z) : bool := LENGTH_ERASED_FLAG <=? v.

(* Length of a task with its length word, queue.c:107. *)
Definition tot (d : list Z) : Z := 1 + Z.of_nat (length d).
Definition at_i (d : list Z) (i : Z) : Z := nth (Z.to_nat i) d 0.

(* memcpy and memset: [n] words at address [a] become [f 0], [f 1], ... *)
Definition blk (m : Z -> Z) (a n : Z) (f : Z -> Z) : Z -> Z := fun x => if (a <=? x) && (x <? a + n) then f (x - a) else m x.

(* Where a process is. *)
Inductive pos :=
| Idle
| PWait (l : Z) (d : list Z)     (* s3_queue_put_task, location taken, queue.c:112-124 *)
| PLen (l : Z) (d : list Z)      (* body copied, queue.c:152-157 *)
| K1 (pk : Z) | K2 (pk i : Z) | K3 (pk i er : Z) | K4 (pk n : Z) (* s3_queue_try_pick_task, queue.c:166-215 *)
| G (l : Z)                      (* picked, s3process_task begins, worker.c:996-999 *)
| W (l : Z) (d : list Z)         (* task copied out, being carried out *)
| E0 (l : Z) | E1 (l n : Z) | E2 (l n : Z) | E3 (l n : Z) | E4 (l : Z). (* s3_queue_erase_task, queue.c:266-330 *)

Record st := mkSt {
  ins : Z;              (* insertLocation *)
  pick : Z;             (* pickLocation *)
  erased : Z;           (* erasedLocation *)
  buf : Z -> Z;         (* s3_queue_buffer, addresses 0 .. Q-1 *)
  at_ : Z -> pos;
  (* What happened, for stating the properties; not in the code: *)
  task : Z -> option (list Z);   (* the task put at a location *)
  picked : list Z;               (* locations picked, latest first *)
  got : list (Z * list Z);       (* what workers copied out of the queue *)
  finished : list Z              (* tasks carried out *)
}.

Section Queue.
Variable Q : Z. (* s3_queue_size *)

(* queue.c:126-150: copy the body, in one piece or around the end. *)
Definition put_body (m : Z -> Z) (l : Z) (d : list Z) : Z -> Z :=
  let totallen := tot d in
  if l / Q =? (l + totallen - 1) / Q
  then blk m (l mod Q + 1) (Z.of_nat (length d)) (at_i d)
  else
    let firstChunkLen := Q - l mod Q in
    blk (blk m (l mod Q + 1) (firstChunkLen - 1) (at_i d))
        0 (totallen - firstChunkLen) (fun i => at_i d (firstChunkLen - 1 + i)).

(* queue.c:220-261: copy the body out.  [g] is what the fresh allocation holds.
   Around the end the first memcpy has source and destination exchanged, as
   written at queue.c:252-254: it copies the allocation into the buffer. *)
Definition read (m : Z -> Z) (a n : Z) : list Z := map (fun i => m (a + Z.of_nat i)) (seq 0 (Z.to_nat n)).
Definition get_task (m : Z -> Z) (l g : Z) : (Z -> Z) * list Z :=
  let taskLen := m (l mod Q) in
  if l / Q =? (l + taskLen - 1) / Q
  then (m, read m (l mod Q + 1) (taskLen - 1))
  else
    let firstChunkLen := Q - l mod Q in
    let m' := blk m (l mod Q + 1) (firstChunkLen - 1) (fun _ => g) in
    (m', repeat g (Z.to_nat (firstChunkLen - 1)) ++ read m' 0 (taskLen - firstChunkLen)).

(* queue.c:276-300: erase the body. *)
Definition wipe (m : Z -> Z) (l taskLen : Z) : Z -> Z :=
  if l / Q =? (l + taskLen - 1) / Q
  then blk m (l mod Q + 1) (taskLen - 1) (fun _ => 0)
  else
    let firstChunkLen := Q - l mod Q in
    blk (blk m (l mod Q + 1) (firstChunkLen - 1) (fun _ => 0)) 0 (taskLen - firstChunkLen) (fun _ => 0).

Definition setp (s : st) (p : Z) (x : pos) : st :=
  mkSt (ins s) (pick s) (erased s) (buf s) (upd (at_ s) p x) (task s) (picked s) (got s) (finished s).
Definition setb (s : st) (p : Z) (m : Z -> Z) (x : pos) : st :=
  mkSt (ins s) (pick s) (erased s) m (upd (at_ s) p x) (task s) (picked s) (got s) (finished s).

Inductive op :=
| Put (p : Z) (d : list Z)  (* begin s3_queue_put_task *)
| Pick (p : Z)              (* begin s3_queue_try_pick_task *)
| Go (p g : Z).             (* next step of [p]; [g] is the contents of fresh memory *)

Definition go (s : st) (p g : Z) : st :=
  match at_ s p with
  | Idle => s
  (* queue.c:118-122; body 126-150 *)
  | PWait l d => if l + tot d >? erased s + Q then s else setb s p (put_body (buf s) l d) (PLen l d)
  (* queue.c:157 *)
  | PLen l d => setb s p (upd (buf s) (l mod Q) (tot d)) Idle
  (* queue.c:176-202 *)
  | K1 pk => setp s p (K2 pk (ins s))
  | K2 pk i => setp s p (K3 pk i (erased s))
  | K3 pk i er =>
      if pk >=? i then setp s p Idle
      else if pk + 1 >=? er + Q then setp s p Idle
      else if buf s (pk mod Q) =? 0 then setp s p Idle
      else setp s p (K4 pk (buf s (pk mod Q)))
  (* queue.c:208-213 *)
  | K4 pk n =>
      if pick s =? pk
      then mkSt (ins s) (pk + n) (erased s) (buf s) (upd (at_ s) p (G pk)) (task s) (pk :: picked s) (got s) (finished s)
      else setp s p (K1 (pick s))
  | G l => let (m, d) := get_task (buf s) l g in
      mkSt (ins s) (pick s) (erased s) m (upd (at_ s) p (W l d)) (task s) (picked s) ((l, d) :: got s) (finished s)
  (* s3process_task ends, worker.c:586 *)
  | W l d => mkSt (ins s) (pick s) (erased s) (buf s) (upd (at_ s) p (E0 l)) (task s) (picked s) (got s) (l :: finished s)
  | E0 l => let n := buf s (l mod Q) in setb s p (wipe (buf s) l n) (E1 l n)
  (* queue.c:305 *)
  | E1 l n => setb s p (upd (buf s) (l mod Q) (n + LENGTH_ERASED_FLAG)) (E2 l n)
  (* queue.c:308-327 *)
  | E2 l n => if erased s =? l
      then mkSt (ins s) (pick s) (l + n) (buf s) (upd (at_ s) p (E3 l n)) (task s) (picked s) (got s) (finished s)
      else setp s p Idle
  | E3 l n => setb s p (upd (buf s) (l mod Q) 0) (E4 (l + n))
  | E4 l => let v := buf s (l mod Q) in
      if is_erased v then setp s p (E2 l (v - LENGTH_ERASED_FLAG)) else setp s p Idle
  end.

Definition step (s : st) (o : op) : st :=
  match o with
  | Put p d => match at_ s p with
      (* queue.c:112 *)
      | Idle => mkSt (ins s + tot d) (pick s) (erased s) (buf s) (upd (at_ s) p (PWait (ins s) d))
                     (upd (task s) (ins s) (Some d)) (picked s) (got s) (finished s)
      | _ => s end
  | Pick p => match at_ s p with Idle => setp s p (K1 (pick s)) | _ => s end
  | Go p g => go s p g
  end.

(* s3_queue_init_shmem, queue.c:67-91 *)
Definition init : st := mkSt 0 0 0 (fun _ => 0) (fun _ => Idle) (fun _ => None) [] [] [].
(* s3_queue_wait_for_location returns, queue.c:335-348 *)
Definition wait_returns (s : st) (loc : Z) : Prop := ~ erased s <= loc.
End Queue.
