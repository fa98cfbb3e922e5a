(** Model of reserving and allocating space in the undo ring
    (src/transam/undo.c:1578-1602, 1844-1973, 1976-2118, 2155-2240; the call of
    the background writer, src/workers/bgwriter.c:185-201).

    One undo log with a ring of [C] bytes and processes 0 .. n-1; one step per
    shared access, except for the sections under minUndoLocationsMutex, which are
    one step each.
    Simplifications: the minima published by update_min_undo_locations are chosen
    by the step among the values C12 allows (at most every reservation of a
    process that is allocating, and at most lastUsedLocation); the page writes of
    an eviction are C13's subject; a group insert moves the reservation of the
    waiter to the lock holder in one step (the waiter sleeps in between). *)
From Coq Require Import ZArith List Bool.
From Verif Require Import Base.
Import ListNotations.
Open Scope Z_scope.

(** Steps of reserve_undo_size_extended (undo.c:2026-2091); [w] =
    waitForUndoLocation, [m] = minProcReservedLocation as read. *)
Inductive pcs :=
| Idle
| Chk1 (w : bool)               (* :2029-2031 *)
| ChkRes (w : bool)             (* :2041-2052 *)
| Chk2 (w : bool) (m : Z)       (* :2055-2067 *)
| ChkWip (m : Z)                (* :2069-2070 *)
| WaitLk                        (* :2077-2078 *)
| EvLock (t m : Z) (bg : bool)  (* evict_undo_to_disk: wait for undoWriteLock, :1858-1866 *)
| EvMin (t m : Z) (bg : bool)   (* :1868-1907 *)
| EvWrite (t : Z) (bg : bool)   (* :1913-1972 *)
| Pinned (z : Z)                (* get_undo_record(size z): location reserved *)
| Filling (l z : Z).            (* record allocated *)

(** A reservation that has advanced advanceReservedLocation but is not yet
    known to fit: process, size, location + size. *)
Record pend := mkP { pp : Z; pz : Z; pub : Z }.

Record st := mkSt {
  lastu : Z;                 (* lastUsedLocation *)
  adv : Z;                   (* advanceReservedLocation *)
  wr : Z;                    (* writtenLocation *)
  wip : Z;                   (* writeInProgressLocation *)
  minR : Z;                  (* minProcReservedLocation *)
  minS : Z;                  (* minProcRetainLocation *)
  lock : option Z;           (* holder of undoWriteLock *)
  conf : Z -> Z;             (* reserved_undo_sizes, checked part *)
  pnd : list pend;           (* unchecked reservations, oldest first *)
  res : Z -> option Z;       (* reservedUndoLocation of allocating processes *)
  pc : Z -> pcs;
  (* for the specification only *)
  recs : list (Z * Z);       (* records allocated: location, size; newest first *)
  conf0 : Z -> Z;            (* space reserved when get_undo_record was entered *)
  tries : Z -> Z;            (* records skipped at the end of the ring since then *)
  panic : list (Z * Z);      (* the PANIC of :2167-2172: space then reserved, size *)
  asrt : bool;               (* no assertion of :1908, :1968, :2082, :2089 failed *)
}.

Definition set_pc (s : st) (p : Z) (c : pcs) : st :=
  mkSt (lastu s) (adv s) (wr s) (wip s) (minR s) (minS s) (lock s) (conf s) (pnd s) (res s) (upd (pc s) p c) (recs s) (conf0 s) (tries s) (panic s) (asrt s).
Definition set_conf (s : st) (p v : Z) : st :=
  mkSt (lastu s) (adv s) (wr s) (wip s) (minR s) (minS s) (lock s) (upd (conf s) p v) (pnd s) (res s) (pc s) (recs s) (conf0 s) (tries s) (panic s) (asrt s).
Definition set_pnd (s : st) (l : list pend) : st :=
  mkSt (lastu s) (adv s) (wr s) (wip s) (minR s) (minS s) (lock s) (conf s) l (res s) (pc s) (recs s) (conf0 s) (tries s) (panic s) (asrt s).
Definition set_adv (s : st) (v : Z) : st :=
  mkSt (lastu s) v (wr s) (wip s) (minR s) (minS s) (lock s) (conf s) (pnd s) (res s) (pc s) (recs s) (conf0 s) (tries s) (panic s) (asrt s).
Definition set_last (s : st) (v : Z) : st :=
  mkSt v (adv s) (wr s) (wip s) (minR s) (minS s) (lock s) (conf s) (pnd s) (res s) (pc s) (recs s) (conf0 s) (tries s) (panic s) (asrt s).
Definition set_w (s : st) (a b : Z) : st :=
  mkSt (lastu s) (adv s) a b (minR s) (minS s) (lock s) (conf s) (pnd s) (res s) (pc s) (recs s) (conf0 s) (tries s) (panic s) (asrt s).
Definition set_min (s : st) (r m : Z) : st :=
  mkSt (lastu s) (adv s) (wr s) (wip s) r m (lock s) (conf s) (pnd s) (res s) (pc s) (recs s) (conf0 s) (tries s) (panic s) (asrt s).
Definition set_lock (s : st) (o : option Z) : st :=
  mkSt (lastu s) (adv s) (wr s) (wip s) (minR s) (minS s) o (conf s) (pnd s) (res s) (pc s) (recs s) (conf0 s) (tries s) (panic s) (asrt s).
Definition set_res (s : st) (p : Z) (o : option Z) : st :=
  mkSt (lastu s) (adv s) (wr s) (wip s) (minR s) (minS s) (lock s) (conf s) (pnd s) (upd (res s) p o) (pc s) (recs s) (conf0 s) (tries s) (panic s) (asrt s).
Definition add_rec (s : st) (l z : Z) : st :=
  mkSt (lastu s) (adv s) (wr s) (wip s) (minR s) (minS s) (lock s) (conf s) (pnd s) (res s) (pc s) ((l, z) :: recs s) (conf0 s) (tries s) (panic s) (asrt s).
Definition set_panic (s : st) (c z : Z) : st :=
  mkSt (lastu s) (adv s) (wr s) (wip s) (minR s) (minS s) (lock s) (conf s) (pnd s) (res s) (pc s) (recs s) (conf0 s) (tries s) ((c, z) :: panic s) (asrt s).
Definition set_try (s : st) (p c k : Z) : st :=
  mkSt (lastu s) (adv s) (wr s) (wip s) (minR s) (minS s) (lock s) (conf s) (pnd s) (res s) (pc s) (recs s) (upd (conf0 s) p c) (upd (tries s) p k) (panic s) (asrt s).
Definition assert (s : st) (b : bool) : st :=
  mkSt (lastu s) (adv s) (wr s) (wip s) (minR s) (minS s) (lock s) (conf s) (pnd s) (res s) (pc s) (recs s) (conf0 s) (tries s) (panic s) (asrt s && b).

Definition mypend (s : st) (p : Z) : option pend := find (fun x => pp x =? p) (pnd s).
Definition others (s : st) (p : Z) : list pend := filter (fun x => negb (pp x =? p)) (pnd s).

(** The reservation of [p] is known to fit: reserve_undo_size_extended returns true. *)
Definition confirm (s : st) (p : Z) : st :=
  match mypend s p with
  | Some x => set_pc (set_conf (set_pnd s (others s p)) p (conf s p + pz x)) p Idle
  | None => set_pc s p Idle
  end.
(** ... or given back (undo.c:2046-2052, 2062-2067). *)
Definition giveback (s : st) (p : Z) : st :=
  match mypend s p with
  | Some x => set_pc (set_adv (set_pnd s (others s p)) (adv s - pz x)) p Idle
  | None => set_pc s p Idle
  end.

(** reserve_undo_size_extended, entry and fetch-and-add (undo.c:2021-2027). *)
Definition reserve (s : st) (p size : Z) (w : bool) : st :=
  match pc s p with
  | Idle =>
      if conf s p >=? size then s
      else let z := size - conf s p in
           set_pc (set_adv (set_pnd s (pnd s ++ [mkP p z (adv s + z)])) (adv s + z)) p (Chk1 w)
  | _ => s
  end.

(** The rest of reserve_undo_size_extended and evict_undo_to_disk.
    [r], [m]: the minima update_min_undo_locations publishes in :1868. *)
Definition rstep (C : Z) (s : st) (p : Z) : st :=
  match pc s p, mypend s p with
  | Chk1 w, Some x => if pub x <=? wr s + C then confirm s p else set_pc s p (ChkRes w)
  | ChkRes w, Some x =>
      if pub x <=? minR s + C then set_pc s p (Chk2 w (minR s))
      else if w then s else giveback s p
  | Chk2 w m, Some x =>
      if pub x <=? wr s + C then confirm s p
      else if w then set_pc s p (ChkWip m) else giveback s p
  | ChkWip m, Some x =>
      if pub x <=? wip s + C then set_pc s p WaitLk else set_pc s p (EvLock (pub x - C) m false)
  | WaitLk, Some x =>
      match lock s with
      | None => confirm (assert s (pub x <=? wr s + C)) p
      | Some _ => s
      end
  | _, _ => s
  end.

(** The values C12 lets update_min_undo_locations publish: at most every
    reservation of an allocating process, at most lastUsedLocation; the retain
    minimum does not go back. *)
Definition fits (n : nat) (s : st) (v : Z) : bool :=
  (v <=? lastu s) && forallb (fun p => match res s (Z.of_nat p) with Some l => v <=? l | None => true end) (seq 0 n).
Definition allowed (n : nat) (s : st) (r m : Z) : bool :=
  fits n s r && fits n s m && (minS s <=? m).

(** update_min_undo_locations without eviction (undo.c:2034; 672-690). *)
Definition update (n : nat) (s : st) (r m : Z) : st :=
  if allowed n s r m then
    let s1 := set_min s r m in
    match lock s with
    | None => if (wr s =? wip s) && (wr s <? m) then set_w s1 m m else s1
    | Some _ => s1
    end
  else s.

(** evict_undo_to_disk by [p] (undo.c:1844-1973). *)
Definition ev_done (C : Z) (s : st) (p : Z) (bg : bool) : st :=
  if bg then set_pc s p Idle
  else match mypend s p with
       | Some x => confirm (assert s (pub x <=? wr s + C)) p
       | None => set_pc s p Idle
       end.
Definition estep (C : Z) (n : nat) (s : st) (p r m0 : Z) : st :=
  match pc s p with
  | EvLock t m bg =>
      match lock s with
      | None => set_pc (set_lock s (Some p)) p (EvMin t m bg)
      | Some _ => if bg then set_pc s p Idle else s
      end
  | EvMin t m bg =>
      if allowed n s r m0 then
        let s1 := set_min s r m0 in
        if (t <=? m0) || (t <=? wr s) then
          let s2 := if wip s <? m0 then set_w s1 m0 m0 else s1 in
          ev_done C (set_lock s2 None) p bg
        else
          let t' := Z.min (Z.max t (wr s + C / 20)) m in
          set_pc (set_w (assert s1 (wip s <=? t')) (wr s) t') p (EvWrite t' bg)
      else s
  | EvWrite t bg =>
      ev_done C (set_lock (set_w (assert s (wr s <=? t)) t (wip s)) None) p bg
  | _ => s
  end.

(** The background writer's attempt (bgwriter.c:189-200). *)
Definition bg (s : st) (p t : Z) : st :=
  match pc s p with
  | Idle => if t <? minR s then set_pc s p (EvLock t (minR s) true) else s
  | _ => s
  end.

(** get_undo_record: set_my_reserved_location (C12) and then the loop; a record
    that would touch the end of the ring is skipped (undo.c:2155-2203).  A record is
    smaller than the ring (assertion of :2162). *)
Definition pin (C : Z) (s : st) (p size : Z) : st :=
  match pc s p with
  | Idle => if (0 <? size) && (size <? C) then
      set_pc (set_try (set_res s p (Some (lastu s))) p (conf s p) 0) p (Pinned size) else s
  | _ => s
  end.
Definition alloc (C : Z) (s : st) (p : Z) : st :=
  match pc s p with
  | Pinned z =>
      if conf s p <? z then set_panic (set_pc (set_res s p None) p Idle) (conf0 s p) z
      else
        let l := lastu s in
        let s1 := set_conf (set_last s (l + z)) p (conf s p - z) in
        if (l + z) mod C >? l mod C then set_pc (add_rec s1 l z) p (Filling l z)
        else set_try s1 p (conf0 s p) (tries s p + 1)
  | _ => s
  end.
(** release_reserved_undo_location (undo.c:2240-2246) *)
Definition unpin (s : st) (p : Z) : st :=
  match pc s p with
  | Filling _ _ => set_pc (set_res s p None) p Idle
  | _ => s
  end.
(** release_undo_size (undo.c:2216-2230) *)
Definition release (s : st) (p : Z) : st :=
  match pc s p with
  | Idle => set_conf (set_adv s (adv s - conf s p)) p 0
  | _ => s
  end.
(** steal_reserved_undo_size by [p], giveup_reserved_undo_size by [q] (undo.c:2094-2118) *)
Definition steal (s : st) (p q : Z) : st :=
  match pc s p, pc s q with
  | Idle, Idle => if p =? q then s else set_conf (set_conf s p (conf s p + conf s q)) q 0
  | _, _ => s
  end.

Inductive op :=
| Reserve (p size : Z) (w : bool) | RStep (p : Z) | Update (r m : Z) | EStep (p r m : Z) | Bg (p t : Z)
| Pin (p size : Z) | Alloc (p : Z) | Unpin (p : Z) | Release (p : Z) | Steal (p q : Z).

Definition inr (n : nat) (p : Z) : bool := (0 <=? p) && (p <? Z.of_nat n).

Definition step (C : Z) (n : nat) (s : st) (o : op) : st :=
  match o with
  | Reserve p z w => if inr n p && (0 <=? z) then reserve s p z w else s
  | RStep p => if inr n p then rstep C s p else s
  | Update r m => update n s r m
  | EStep p r m => if inr n p then estep C n s p r m else s
  | Bg p t => if inr n p then bg s p t else s
  | Pin p z => if inr n p then pin C s p z else s
  | Alloc p => if inr n p then alloc C s p else s
  | Unpin p => if inr n p then unpin s p else s
  | Release p => if inr n p then release s p else s
  | Steal p q => if inr n p && inr n q then steal s p q else s
  end.

(** Start-up: everything at the first location (undo.c:346-420). *)
Definition init (l : Z) : st :=
  mkSt l l l l l l None (fun _ => 0) [] (fun _ => None) (fun _ => Idle) [] (fun _ => 0) (fun _ => 0) [] true.
