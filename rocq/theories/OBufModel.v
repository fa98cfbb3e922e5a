(** The block cache used for undo logs, the transaction status map and the rewind buffer.

    Models src/utils/o_buffers.c: open_file 113-142 (only whether the file exists),
    write_buffer_data 159-174, read_buffer 186-219, get_buffer 228-327, o_buffers_rw
    345-403, o_buffers_write_page_direct 444-474, o_buffers_flush 477-505 and the block
    arithmetic of o_buffers_sync 540-568.

    All lock-protected sections and every file read or write are separate steps, so
    schedules interleave exactly where the code can.  Lock queues are not modelled: a
    step that needs a lock simply does nothing while the lock is not available.
    LWLockAcquireOrWait on a buffer with a matching shadow tag (get_buffer 276-285) waits
    until no one holds the buffer exclusively.  I/O errors PANIC in the code and are
    outside the model; usage counters do not overflow.  A block of a file that was
    never written, or a file that does not exist, reads as zeros (213-216).
    o_buffers_wipe and unlinking are modelled in UnlinkModel.v. *)
From Coq Require Import ZArith List Bool.
From Verif Require Import Base.
Import ListNotations.
Open Scope Z_scope.

Definition bytes := Z -> Z.
Definition key := (Z * Z)%type.                          (* (tag, block number) *)
Definition key_eqb (a b : key) : bool := (fst a =? fst b) && (snd a =? snd b).

(** memcpy(&dst[loc], data, n). *)
Definition put (f : bytes) (loc n : Z) (data : bytes) : bytes :=
  fun i => if (loc <=? i) && (i <? loc + n) then data (i - loc) else f i.

Definition kupd {A} (f : key -> A) (k : key) (v : A) : key -> A :=
  fun x => if key_eqb x k then v else f x.

(** One block's share of an o_buffers_read / o_buffers_write call (371-396). *)
Record bop := mkBop {
  o_key : key;
  o_write : bool;
  o_off : Z;                                             (* copyOffset *)
  o_len : Z;                                             (* copySize *)
  o_dat : bytes;                                         (* source of a write *)
  o_mok : bool;                                          (* missing_ok *)
  o_clean : bool                                         (* mark_clean *)
}.

(** Ghost: what the exclusive owner of a buffer is doing with it. *)
Inductive phase := Ready | PEv (dirty : bool) (k : key) | PLd.

(** OBuffer 34-44; [s_key] = (tag, -1) is an empty buffer. *)
Record slot := mkSlot {
  s_key : key;
  s_shadow : key;
  s_use : Z;
  s_dirty : bool;
  s_data : bytes;
  s_ex : option Z;                                       (* bufferCtlLock: exclusive holder *)
  s_sh : list Z;                                         (* ... and shared holders *)
  s_ph : phase                                           (* ghost *)
}.

Inductive pc :=
| Idle
| Lookup (o : bop)                                       (* 242: about to take the group lock shared *)
| WaitS (o : bop) (n : Z)                                (* 249: found, group lock held shared *)
| Excl (o : bop)                                         (* 259: about to take the group lock exclusively *)
| Search (o : bop) (n vic vuse : Z)                      (* 262-294: group lock held exclusively *)
| WaitX (o : bop) (n : Z)                                (* 270 *)
| Victim (o : bop) (n : Z)                               (* 296 *)
| Evict (o : bop) (n : Z) (d : bool) (k : key)           (* 311: victim locked and retagged *)
| Load (o : bop) (n : Z)                                 (* 314 *)
| Have (o : bop) (n : Z) (ex : bool)                     (* get_buffer returned, 390-400 *)
| FAcq (n t a b n0 : Z)                                  (* o_buffers_flush, 493 *)
| FIO (n t a b n0 : Z)                                   (* 494-499 *)
| FClr (n t a b n0 : Z) (w : bool)                       (* 500-502 *)
| D1 (k : key) (d : bytes)                               (* o_buffers_write_page_direct 457 *)
| D2 (k : key) (d : bytes) (n : Z)                       (* 464-467 *)
| D3 (k : key) (d : bytes).                              (* 473 *)

(** Ghost: what happened, in the order it took effect. *)
Inductive event :=
| EvRead (p : Z) (k : key) (off len : Z) (r : bytes)
| EvWrite (p : Z) (k : key) (off len : Z) (d : bytes)
| EvMiss (p : Z) (k : key)                               (* a missing_ok call that found no file *)
| EvSync (p t a b n0 : Z) (f : key -> bytes).            (* a flush that began when the log had
                                                            n0 events is over; file contents now *)

Record st := mkSt {
  slots : Z -> slot;                                     (* buffer i of group g is number 4*g+i *)
  g_ex : Z -> option Z;                                  (* groupCtlLock *)
  g_sh : Z -> list Z;
  file : key -> bytes;                                   (* block contents on disk *)
  fex : key -> bool;                                     (* (tag, file number) exists *)
  pcs : Z -> pc;
  log : list event                                       (* ghost *)
}.

(** o_buffers_shmem_init 60-104; shared memory starts zeroed, so shadowTag and
    shadowBlockNum are 0. *)
Definition slot0 : slot := mkSlot (0, -1) (0, 0) 0 false (fun _ => 0) None [] Ready.
Definition init (f : key -> bytes) (ex : key -> bool) : st :=
  mkSt (fun _ => slot0) (fun _ => None) (fun _ => []) f ex (fun _ => Idle) [].

Definition set_pc (s : st) (p : Z) (c : pc) : st :=
  mkSt (slots s) (g_ex s) (g_sh s) (file s) (fex s) (upd (pcs s) p c) (log s).
Definition set_slot (s : st) (n : Z) (x : slot) : st :=
  mkSt (upd (slots s) n x) (g_ex s) (g_sh s) (file s) (fex s) (pcs s) (log s).
Definition set_gex (s : st) (g : Z) (x : option Z) : st :=
  mkSt (slots s) (upd (g_ex s) g x) (g_sh s) (file s) (fex s) (pcs s) (log s).
Definition set_gsh (s : st) (g : Z) (x : list Z) : st :=
  mkSt (slots s) (g_ex s) (upd (g_sh s) g x) (file s) (fex s) (pcs s) (log s).
Definition add_log (s : st) (e : event) : st :=
  mkSt (slots s) (g_ex s) (g_sh s) (file s) (fex s) (pcs s) (log s ++ [e]).

Section Cache.
Variables (BS : Z)        (* ORIOLEDB_BLCKSZ *)
          (bpf : Z)       (* blocks per file: singleFileSize / ORIOLEDB_BLCKSZ *)
          (G : Z).        (* groupsCount *)

Definition grp (k : key) : Z := snd k mod G.             (* 231 *)
Definition fileof (k : key) : key := (fst k, snd k / bpf).   (* 166, 193 *)

(** write_buffer_data 159-174: also creates the file. *)
Definition write_file (s : st) (k : key) (d : bytes) : st :=
  mkSt (slots s) (g_ex s) (g_sh s) (kupd (file s) k d) (kupd (fex s) (fileof k) true) (pcs s) (log s).
Definition create_file (s : st) (k : key) : st :=
  mkSt (slots s) (g_ex s) (g_sh s) (file s) (kupd (fex s) (fileof k) true) (pcs s) (log s).

Definition without (p : Z) (l : list Z) : list Z := filter (fun q => negb (q =? p)) l.

(** Taking and releasing bufferCtlLock. *)
Definition can_lock (x : slot) (ex : bool) : bool :=
  match s_ex x with
  | Some _ => false
  | None => if ex then (match s_sh x with [] => true | _ => false end) else true
  end.
Definition lock (x : slot) (ex : bool) (p : Z) : slot :=
  if ex then mkSlot (s_key x) (s_shadow x) (s_use x) (s_dirty x) (s_data x) (Some p) (s_sh x) (s_ph x)
  else mkSlot (s_key x) (s_shadow x) (s_use x) (s_dirty x) (s_data x) (s_ex x) (p :: s_sh x) (s_ph x).
Definition unlock (x : slot) (ex : bool) (p : Z) : slot :=
  if ex then mkSlot (s_key x) (s_shadow x) (s_use x) (s_dirty x) (s_data x) None (s_sh x) (s_ph x)
  else mkSlot (s_key x) (s_shadow x) (s_use x) (s_dirty x) (s_data x) (s_ex x) (without p (s_sh x)) (s_ph x).
Definition set_use (x : slot) (u : Z) : slot :=
  mkSlot (s_key x) (s_shadow x) u (s_dirty x) (s_data x) (s_ex x) (s_sh x) (s_ph x).
Definition set_data (x : slot) (d : bytes) (dirty : bool) : slot :=
  mkSlot (s_key x) (s_shadow x) (s_use x) dirty d (s_ex x) (s_sh x) (s_ph x).

(** The loop at 243-254 and 458-470. *)
Definition find_slot (s : st) (k : key) : option Z :=
  let g := grp k in
  find (fun n => key_eqb (s_key (slots s n)) k) [4 * g; 4 * g + 1; 4 * g + 2; 4 * g + 3].

Definition valid_op (o : bop) : bool :=
  (0 <=? snd (o_key o)) && (0 <=? o_off o) && (0 <? o_len o) && (o_off o + o_len o <=? BS).

Inductive op :=
| OStart (p : Z) (o : bop)
| OFlush (p t a b : Z)
| ODirect (p : Z) (k : key) (d : bytes)
| OStep (p : Z).

Definition step (s : st) (x : op) : st :=
  match x with
  | OStart p o =>
      match pcs s p with
      | Idle => if valid_op o then set_pc s p (Lookup o) else s
      | _ => s
      end
  | OFlush p t a b =>
      match pcs s p with
      | Idle => set_pc s p (FAcq 0 t a b (Z.of_nat (length (log s))))
      | _ => s
      end
  | ODirect p k d =>
      match pcs s p with
      | Idle => if 0 <=? snd k then set_pc s p (D1 k d) else s
      | _ => s
      end
  | OStep p =>
      match pcs s p with
      | Idle => s
      | Lookup o =>                                      (* 242-255 *)
          let g := grp (o_key o) in
          match g_ex s g with
          | Some _ => s
          | None =>
              match find_slot s (o_key o) with
              | Some n => set_pc (set_gsh s g (p :: g_sh s g)) p (WaitS o n)
              | None => set_pc s p (Excl o)
              end
          end
      | WaitS o n =>                                     (* 249-253 *)
          let g := grp (o_key o) in
          let x := slots s n in
          if can_lock x (o_write o)
          then set_pc (set_gsh (set_slot s n (set_use (lock x (o_write o) p) (s_use x + 1)))
                               g (without p (g_sh s g))) p (Have o n (o_write o))
          else s
      | Excl o =>                                        (* 259 *)
          let g := grp (o_key o) in
          match g_ex s g, g_sh s g with
          | None, [] => set_pc (set_gex s g (Some p)) p (Search o (4 * g) (4 * g) 0)
          | _, _ => s
          end
      | Search o n vic vu =>                             (* 262-294 *)
          let g := grp (o_key o) in
          if n =? 4 * g + 4 then set_pc s p (Victim o vic)
          else
            let x := slots s n in
            if key_eqb (s_key x) (o_key o) then set_pc s p (WaitX o n)
            else if key_eqb (s_shadow x) (o_key o) && negb (can_lock x false) then s
            else
              let pick := (n =? 4 * g) || (s_use x <? vu) in
              set_pc (set_slot s n (set_use x (s_use x / 2))) p
                     (Search o (n + 1) (if pick then n else vic) (if pick then s_use x else vu))
      | WaitX o n =>                                     (* 270-274 *)
          let g := grp (o_key o) in
          let x := slots s n in
          if can_lock x (o_write o)
          then set_pc (set_gex (set_slot s n (set_use (lock x (o_write o) p) (s_use x + 1))) g None)
                      p (Have o n (o_write o))
          else s
      | Victim o n =>                                    (* 295-309 *)
          let g := grp (o_key o) in
          let x := slots s n in
          if can_lock x true
          then set_pc (set_gex (set_slot s n (mkSlot (o_key o) (s_key x) 1 false (s_data x) (Some p) (s_sh x)
                                                     (PEv (s_dirty x) (s_key x)))) g None)
                      p (Evict o n (s_dirty x) (s_key x))
          else s
      | Evict o n d k =>                                 (* 311-312 *)
          let x := slots s n in
          let s1 := if d then write_file s k (s_data x) else s in
          set_pc (set_slot s1 n (mkSlot (s_key x) (s_shadow x) (s_use x) (s_dirty x) (s_data x)
                                        (s_ex x) (s_sh x) PLd)) p (Load o n)
      | Load o n =>                                      (* 314-326 *)
          let x := slots s n in
          if o_mok o && negb (fex s (fileof (o_key o)))
          then add_log (set_pc (set_slot s n (mkSlot (fst (s_key x), -1) (fst (s_shadow x), -1) (s_use x)
                                                     (s_dirty x) (fun _ => 0) None (s_sh x) Ready)) p Idle)
                       (EvMiss p (o_key o))
          else set_pc (set_slot (create_file s (o_key o)) n
                                (mkSlot (s_key x) (fst (s_shadow x), -1) (s_use x) (s_dirty x)
                                        (file s (o_key o)) (s_ex x) (s_sh x) Ready)) p (Have o n true)
      | Have o n ex =>                                   (* 390-400 *)
          let x := slots s n in
          if o_write o
          then add_log (set_pc (set_slot s n (unlock (set_data x (put (s_data x) (o_off o) (o_len o) (o_dat o))
                                                               (negb (o_clean o))) ex p)) p Idle)
                       (EvWrite p (o_key o) (o_off o) (o_len o) (o_dat o))
          else add_log (set_pc (set_slot s n (unlock x ex p)) p Idle)
                       (EvRead p (o_key o) (o_off o) (o_len o) (fun j => s_data x (o_off o + j)))
      | FAcq n t a b n0 =>                               (* 485-493 *)
          if n =? 4 * G then add_log (set_pc s p Idle) (EvSync p t a b n0 (file s))
          else
            let x := slots s n in
            if can_lock x false then set_pc (set_slot s n (lock x false p)) p (FIO n t a b n0) else s
      | FIO n t a b n0 =>                                (* 494-499 *)
          let x := slots s n in
          if s_dirty x && (fst (s_key x) =? t) && (a <=? snd (s_key x)) && (snd (s_key x) <=? b)
          then set_pc (write_file s (s_key x) (s_data x)) p (FClr n t a b n0 true)
          else set_pc s p (FClr n t a b n0 false)
      | FClr n t a b n0 w =>                             (* 500-502 *)
          let x := slots s n in
          set_pc (set_slot s n (unlock (if w then set_data x (s_data x) false else x) false p)) p
                 (FAcq (n + 1) t a b n0)
      | D1 k d =>                                        (* 457-471 *)
          let g := grp k in
          match g_ex s g with
          | Some _ => s
          | None =>
              match find_slot s k with
              | Some n => set_pc (set_gsh s g (p :: g_sh s g)) p (D2 k d n)
              | None => set_pc s p (D3 k d)
              end
          end
      | D2 k d n =>                                      (* 464-471 *)
          let x := slots s n in
          if can_lock x true
          then set_pc (set_gsh (set_slot s n (set_data x d false)) (grp k) (without p (g_sh s (grp k)))) p (D3 k d)
          else s
      | D3 k d =>                                        (* 473 *)
          add_log (set_pc (write_file s k d) p Idle) (EvWrite p k 0 BS d)
      end
  end.

(** o_buffers_rw 345-403: the blocks of a call and the part of each. *)
Fixpoint split_from (fuel : nat) (tag off size first last b : Z) (buf : bytes) (ptr : Z) (w mok clean : bool) : list bop :=
  match fuel with
  | O => []
  | S fuel' =>
      if last <? b then []
      else
        let copyOff := if b =? first then off mod BS else 0 in
        let copySize := if first =? last then size
                        else if b =? first then BS - off mod BS
                        else if b =? last then (off + size - 1) mod BS + 1
                        else BS in
        mkBop (tag, b) w copyOff copySize (fun j => buf (ptr + j)) mok clean
        :: split_from fuel' tag off size first last (b + 1) buf (ptr + copySize) w mok clean
  end.
Definition split (tag off size : Z) (buf : bytes) (w mok clean : bool) : list bop :=
  let first := off / BS in
  let last := (off + size - 1) / BS in
  split_from (Z.to_nat (last - first + 1)) tag off size first last first buf 0 w mok clean.

(** o_buffers_sync 548-562: block and file ranges. *)
Definition sync_blocks (from to : Z) : Z * Z :=
  (from / BS, if to mod BS =? 0 then to / BS - 1 else to / BS).
Definition sync_files (from to : Z) : Z * Z :=
  let S := bpf * BS in (from / S, if to mod S =? 0 then to / S - 1 else to / S).

End Cache.
