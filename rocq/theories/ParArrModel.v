(** The shared array of on-disk downlinks of a parallel scan and its growth
    (src/btree/scan.c:705-795, add_on_disk_downlink; the array is created
    in 2404-2434, init_btree_seq_scan).

    Simplified: an entry is an integer.  Taking an index and writing the
    entry at it is one operation: the index belongs to one worker, and the
    shared lock is held from the one to the other, so no growth comes in
    between.  A new segment begins with zeros.  The error for too many
    segments is not modelled. *)
From Coq Require Import ZArith List Bool Lia.
From Verif Require Import Base.
Import ListNotations.
Open Scope Z_scope.

Inductive phase :=
  | Rest
  | Try (e : Z)                  (* has an entry to add *)
  | Over (e idx : Z)             (* took an index past the end, holds the lock shared *)
  | Want (e idx : Z).            (* gave it back, waits for the lock exclusively *)

Record arr := mkArr {
  d_count : Z;                   (* downlinksCount *)
  d_alloc : Z;                   (* dsmAllocated *)
  d_cur : nat;                   (* dsmHandle *)
  d_segs : nat -> Z -> Z;        (* the segments *)
  d_ws : list (nat * phase);     (* the workers, each with the segment it is attached to *)
  d_log : list Z                 (* the entries whose addition returned *)
}.

Definition ainit (cap : Z) (n : nat) : arr :=
  mkArr 0 cap 0 (fun _ _ => 0) (repeat (O, Rest) n) [].

Fixpoint setn {A : Type} (l : list A) (n : nat) (v : A) : list A :=
  match l, n with
  | [], _ => []
  | _ :: t, O => v :: t
  | x :: t, S m => x :: setn t m v
  end.

Definition over (x : nat * phase) : bool :=
  match snd x with Over _ _ => true | _ => false end.

Inductive aop :=
  | Begin (w : nat) (e : Z)      (* the worker meets an on-disk downlink *)
  | Enter (w : nat)              (* lock shared, attach, take an index, write: 732-753 *)
  | Undo (w : nat)               (* give the index back, unlock: 755-757 *)
  | Grow (w : nat).              (* lock exclusively, grow if needed, unlock: 759-791 *)

Definition seg_set (f : nat -> Z -> Z) (h : nat) (g : Z -> Z) : nat -> Z -> Z :=
  fun x => if Nat.eqb x h then g else f x.

Definition astep (s : arr) (o : aop) : arr :=
  match o with
  | Begin w e =>
      match nth w (d_ws s) (O, Rest) with
      | (h, Rest) => mkArr (d_count s) (d_alloc s) (d_cur s) (d_segs s)
                           (setn (d_ws s) w (h, Try e)) (d_log s)
      | _ => s
      end
  | Enter w =>
      match nth w (d_ws s) (O, Rest) with
      | (_, Try e) =>
          let idx := d_count s in
          if idx <? d_alloc s
          then mkArr (idx + 1) (d_alloc s) (d_cur s)
                     (seg_set (d_segs s) (d_cur s) (upd (d_segs s (d_cur s)) idx e))
                     (setn (d_ws s) w (d_cur s, Rest)) (d_log s ++ [e])
          else mkArr (idx + 1) (d_alloc s) (d_cur s) (d_segs s)
                     (setn (d_ws s) w (d_cur s, Over e idx)) (d_log s)
      | _ => s
      end
  | Undo w =>
      match nth w (d_ws s) (O, Rest) with
      | (h, Over e idx) =>
          mkArr (d_count s - 1) (d_alloc s) (d_cur s) (d_segs s)
                (setn (d_ws s) w (h, Want e idx)) (d_log s)
      | _ => s
      end
  | Grow w =>
      match nth w (d_ws s) (O, Rest) with
      | (h, Want e idx) =>
          if existsb over (d_ws s) then s        (* the lock is held shared *)
          else if d_alloc s <=? idx
          then let new := S (d_cur s) in
               mkArr (d_count s) (d_alloc s * 2) new
                     (seg_set (d_segs s) new
                        (fun i => if (0 <=? i) && (i <? d_count s) then d_segs s h i else 0))
                     (setn (d_ws s) w (new, Try e)) (d_log s)
          else mkArr (d_count s) (d_alloc s) (d_cur s) (d_segs s)
                     (setn (d_ws s) w (h, Try e)) (d_log s)
      | _ => s
      end
  end.
