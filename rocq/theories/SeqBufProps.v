(** Property C29: sequential file buffers are FIFO. *)
From Coq Require Import ZArith List Bool Lia.
From Verif Require Import Base SeqBufModel SeqBufSpec SeqBufProofs.
Import ListNotations.
Open Scope Z_scope.

(** Concurrent writers, any schedule: after finalisation the file holds, from the end
    of the header, exactly the values written, in the order of the buffer lock, and
    that is where the returned offset points; older bytes are untouched. *)
Theorem C29_writers : forall C d off hdr pg file ops f len r, sizes_ok C d hdr ->
  let s := run (wstep C d) (winit pg file off off hdr) ops in
  wfinalize C s = Some (f, len, r) ->
  holds d f (off + hdr) (map snd (w_log s)) /\
  (forall i, i < off -> f i = file i) /\
  r = off + hdr + d * Z.of_nat (length (w_log s)) /\ len = r /\ r = w_offset C s.
Proof.
  intros C d off hdr pg file ops f len r Hs s Hf.
  destruct (WI_run ops C d off hdr pg file Hs) as [own H]. exact (finalize_ok _ _ _ _ _ _ own _ _ _ Hs H Hf).
Qed.

(** The order of the lock respects the order of each process's own calls, and every
    call that returned is in it once: the values a process started to write are the
    ones it wrote followed by the one it is still writing. *)
Theorem C29_writers_program_order : forall C d off hdr pg file ops p, sizes_ok C d hdr ->
  let s := run (wstep C d) (winit pg file off off hdr) ops in
  by_proc p (w_beg s) = by_proc p (w_log s) ++ inflight (w_pc s p).
Proof.
  intros C d off hdr pg file ops p Hs s.
  destruct (WI_run ops C d off hdr pg file Hs) as [own H]. exact (wi_prog _ _ _ _ _ _ _ H p).
Qed.

(** Several sessions, each reopening the file where the previous one ended. *)
Theorem C29_reopened_writers : forall xs C d hdr fl f len vs, sizes_ok C d hdr -> xs <> [] ->
  sessions C d hdr fl xs = Some (f, len, vs) ->
  holds d f (snd fl + hdr) vs /\ (forall i, i < snd fl -> f i = fst fl i) /\
  len = snd fl + hdr + d * Z.of_nat (length vs).
Proof. intros xs C d hdr fl f len vs Hs Hne E. exact (sessions_ok xs C d hdr fl f len vs Hs E (or_introl Hne)). Qed.

(** Concurrent readers, any schedule: no panic; the k-th value handed out is the k-th
    value of the file (so none is lost, duplicated or torn), and the offset at which
    the file can be reopened is that of the next value. *)
Theorem C29_readers : forall ops C d off hdr pg file len num s vs, sizes_ok C d hdr -> 0 <= off ->
  rinit C pg file len off hdr num = Some s ->
  holds d file (off + hdr) vs -> 0 <= num <= Z.of_nat (length vs) ->
  off + hdr + d * Z.of_nat (length vs) <= len ->
  let s' := run (rstep C d) s ops in
  r_panic s' = false /\ (length (r_got s') <= Z.to_nat num)%nat /\
  (forall k p w, nth_error (r_got s') k = Some (p, w) -> exists v, nth_error vs k = Some v /\ same_value d w v) /\
  r_offset C s' = off + hdr + d * Z.of_nat (length (r_got s')).
Proof. exact readers_ok. Qed.

(** When the counter of remaining values is used up and no reader is at work, all have
    been handed out. *)
Theorem C29_readers_complete : forall ops C d off hdr pg file len num s, sizes_ok C d hdr -> 0 <= off -> 0 <= num ->
  rinit C pg file len off hdr num = Some s ->
  let s' := run (rstep C d) s ops in
  r_num s' = 0 -> (forall p, r_pc s' p = RIdle) -> Z.of_nat (length (r_got s')) = num.
Proof. exact readers_complete. Qed.

(** Round trip: what concurrent writers wrote over any number of sessions into a new
    file, concurrent readers get back in the same order. *)
Theorem C29_round_trip : forall xs C d hdr pg0 f len vs pg ops s, sizes_ok C d hdr -> xs <> [] ->
  sessions C d hdr (pg0, 0) xs = Some (f, len, vs) ->
  rinit C pg f len 0 hdr (Z.of_nat (length vs)) = Some s ->
  let s' := run (rstep C d) s ops in
  r_panic s' = false /\ (length (r_got s') <= length vs)%nat /\
  (forall k p w, nth_error (r_got s') k = Some (p, w) -> exists v, nth_error vs k = Some v /\ same_value d w v).
Proof. exact round_trip. Qed.

(** ... and a reader reopening the file at the offset where another stopped gets the rest. *)
Theorem C29_reader_reopened : forall ops1 ops2 C d hdr pg1 pg2 file len num1 num2 s1 s2 vs, sizes_ok C d hdr ->
  holds d file hdr vs -> hdr + d * Z.of_nat (length vs) <= len ->
  rinit C pg1 file len 0 hdr num1 = Some s1 -> 0 <= num1 <= Z.of_nat (length vs) ->
  let a := run (rstep C d) s1 ops1 in
  rinit C pg2 file len (r_offset C a) 0 num2 = Some s2 -> 0 <= num2 <= Z.of_nat (length vs - length (r_got a)) ->
  let b := run (rstep C d) s2 ops2 in
  r_panic b = false /\
  forall k p w, nth_error (r_got a ++ r_got b) k = Some (p, w) -> exists v, nth_error vs k = Some v /\ same_value d w v.
Proof. exact reader_reopened. Qed.

(** Opening never fails on such a file. *)
Theorem C29_open_succeeds : forall xs C d hdr pg0 f len vs pg num, sizes_ok C d hdr -> xs <> [] ->
  sessions C d hdr (pg0, 0) xs = Some (f, len, vs) -> exists s, rinit C pg f len 0 hdr num = Some s.
Proof. exact open_succeeds. Qed.

(** The hypotheses are met: chunks of 8 bytes, values of 4, a header of 4, two
    writers racing over the page switch, two sessions, two readers. *)
Definition val (x : Z) : bytes := fun j => x * 10 + j.
Definition blank : bool -> bytes := fun _ _ => 99.
Definition steps (ps : list Z) := map WStep ps.
Definition ex_w1 : list wop :=
  WBegin 1 (val 1) :: steps [1] ++ WBegin 1 (val 2) :: WBegin 2 (val 3) :: steps [1; 2; 2; 1; 1; 2; 1; 2; 1; 1; 2; 2] ++
  WBegin 3 (val 4) :: steps [3; 3; 3; 3; 3; 3].
Definition ex_w2 : list wop := WBegin 1 (val 5) :: steps [1] ++ WBegin 2 (val 6) :: steps [2] ++ WBegin 2 (val 7) :: steps [2; 2; 2; 2; 2].
Example ex_sizes : sizes_ok 8 4 4.
Proof. unfold sizes_ok. repeat split; try lia; [exists 2|exists 1]; lia. Qed.
Definition show_writers (C d hdr : Z) (xs : list ((bool -> bytes) * list wop)) :=
  match sessions C d hdr (fun _ => 77, 0) xs with
  | Some (f, len, vs) => Some (len, map f (map Z.of_nat (seq 0 (Z.to_nat len))), map (fun v => v 0) vs)
  | None => None
  end.
Example ex_sessions : show_writers 8 4 4 [(blank, ex_w1); (blank, ex_w2)] =
  Some (32, [99;99;99;99;10;11;12;13;20;21;22;23;30;31;32;33;40;41;42;43;50;51;52;53;60;61;62;63;70;71;72;73],
        [10; 20; 30; 40; 50; 60; 70]).
Proof. vm_compute. reflexivity. Qed.
Definition rsteps (ps : list Z) := map RStep ps.
Definition ex_r : list rop :=
  RBegin 1 :: RBegin 2 :: rsteps [1; 2; 2; 2; 2; 2] ++ RBegin 1 :: RBegin 3 :: rsteps [1; 3; 1; 3; 1; 1; 3; 1; 3; 3; 3; 3; 1; 3].
Example ex_readers :
  match sessions 8 4 4 (fun _ => 77, 0) [(blank, ex_w1); (blank, ex_w2)] with
  | Some (f, len, vs) =>
      match rinit 8 blank f len 0 4 (Z.of_nat (length vs)) with
      | Some s => let s' := run (rstep 8 4) s ex_r in
                  (r_panic s', map (fun x => (fst x, snd x 0)) (r_got s'), r_offset 8 s')
      | None => (true, [], 0)
      end
  | None => (true, [], 0)
  end = (false, [(1, 10); (2, 20); (1, 30); (3, 40)], 20).
Proof. vm_compute. reflexivity. Qed.

Print Assumptions C29_writers.
Print Assumptions C29_writers_program_order.
Print Assumptions C29_reopened_writers.
Print Assumptions C29_readers.
Print Assumptions C29_round_trip.
Print Assumptions C29_reader_reopened.
Print Assumptions C29_open_succeeds.
Print Assumptions C29_readers_complete.
