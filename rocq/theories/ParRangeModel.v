(** A parallel scan with a range condition on the key
    (src/tableam/index_scan.c:1208-1233,
    o_exec_parallel_idx_scan_new_seqscan; src/btree/scan.c:1507-1672,
    2012-2066, 2900-3037): the keys from [g_low] to [g_high], both
    inclusive, [None] for an open side.

    On top of the operations of the scan itself: a downlink before the
    range is dropped, a downlink past it ends the handing out for this
    worker, and a leaf row past it ends the scan of this worker.  Rows of a
    leaf are taken in key order.  Iterators do not test the range; a later
    test of every row (is_tuple_valid) drops what they return outside. *)
From Coq Require Import ZArith List Bool Lia.
From Verif Require Import Base ParScanModel.
Import ListNotations.
Open Scope Z_scope.

Record cond := mkCond { g_low : option Z; g_high : option Z }.

(** src/btree/scan.c:1507-1538, check_downlink_in_scan_range = -1: the
    high key of the downlink is below the range. *)
Definition before (g : cond) (hi : option Z) : bool :=
  match hi, g_low g with Some h, Some l => h <? l | _, _ => false end.

(** src/btree/scan.c:1507-1538, check_downlink_in_scan_range = 1: the low
    key of the downlink is above the range. *)
Definition beyond (g : cond) (klow : option Z) : bool :=
  match klow, g_high g with Some l, Some h => h <? l | _, _ => false end.

(** A page that can hold a row above the range
    (page_fully_in_scan_range, 1563-1596, is false for it). *)
Definition reaches (g : cond) (hi : option Z) : option Z :=
  match g_high g with
  | None => None
  | Some h => if upto_hi hi (h + 1) then Some (h + 1) else None
  end.

Inductive gop :=
  | Plain (o : op)
  | Skip (w : nat)          (* the downlink is before the range: 2043-2052 *)
  | Past (w : nat)          (* the downlink is past the range: 2053-2060 *)
  | ReadStop (w : nat)      (* a row of the leaf is past the range: 3025-3032 *)
  | ClaimStop (w : nat).    (* the same, the leaf was read from disk *)

Record gstate := mkG { g_s : state; g_stopped : list nat }.

Definition ginit (n : nat) : gstate := mkG (init n) [].

Definition actor (o : op) : nat :=
  match o with
  | Look w | Load w _ | LoadLeaf w | Read w _ | Write w | Wait w | Sort w | Claim w => w
  end.

Definition stopped (s : gstate) (w : nat) : bool := existsb (Nat.eqb w) (g_stopped s).

(** A downlink that is outside the range is not read. *)
Definition allowed (g : cond) (s : state) (o : op) : bool :=
  match o with
  | Read w _ =>
      match worker s w with
      | Holding _ klow _ hi => negb (before g hi) && negb (beyond g klow)
      | _ => true
      end
  | _ => true
  end.

Definition gstep (g : cond) (s : gstate) (o : gop) : gstate :=
  match o with
  | Plain o =>
      if stopped s (actor o) || negb (allowed g (g_s s) o) then s
      else mkG (step (g_s s) o) (g_stopped s)
  | Skip w =>
      if stopped s w then s else
      match worker (g_s s) w with
      | Holding _ _ _ hi =>
          if before g hi then mkG (setw (addw (g_s s) (-1)) w Idle) (g_stopped s) else s
      | _ => s
      end
  | Past w =>
      if stopped s w then s else
      match worker (g_s s) w with
      | Holding _ klow _ _ =>
          if beyond g klow then mkG (setw (addw (g_s s) (-1)) w AtEnd) (g_stopped s) else s
      | _ => s
      end
  | ReadStop w =>
      if stopped s w then s else
      match worker (g_s s) w with
      | Holding InMem klow lo hi =>
          match reaches g hi with
          | Some e =>
              if before g hi || beyond g klow then s
              else mkG (setw (emit (addw (g_s s) (-1)) [(lo, Some e)]) w Idle) (w :: g_stopped s)
          | None => s
          end
      | _ => s
      end
  | ClaimStop w =>
      if stopped s w then s else
      match worker (g_s s) w, nth_error (s_arr (g_s s)) (s_ix (g_s s)) with
      | Disk, Some e =>
          match reaches g (snd (snd e)) with
          | Some x =>
              mkG (emit (set_arr (g_s s) (s_arr (g_s s)) (S (s_ix (g_s s))) (s_sorted (g_s s)))
                        [(fst (snd e), Some x)]) (w :: g_stopped s)
          | None => s
          end
      | _, _ => s
      end
  end.
