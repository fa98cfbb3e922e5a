(** Model of how undo bytes move between the ring in shared memory, the block
    cache and the undo files (src/transam/undo.c:225-290, 1604-1973, 2123-2203,
    3216-3458; src/utils/o_buffers.c:228-473).

    One undo log; a location is a byte number, a value a byte.  Every shared
    access is one step, with these simplifications:
    - the space rules (lastUsedLocation <= writtenLocation + ring size) and the
      safety of the published minima (at most every record being filled, at most
      lastUsedLocation, at most the location of a writer that must exist) are
      guards here; they are theorems of UndoAllocProps.v (C14) and
      UndoRetProps.v (C12);
    - one page of an eviction is one step (test of the dirty bit and buffer
      write), as is the access to one page of the block cache (OBufModel.v has
      the protocol below);
    - the loop that marks the pages of one record dirty is one step;
    - the block cache holds any set of pages; a page is loaded only by an access
      to a drained location, and can be dropped at any time;
    - files never go missing; the removal of files is C15. *)
From Coq Require Import ZArith List Bool.
From Verif Require Import Base.
Import ListNotations.
Open Scope Z_scope.

(** undo_write_internal (undo.c:3360-3458) on [l, l+z) with bytes [b] (by location);
    [me] = must_exist; [m] = memoryUndoLocation. *)
Inductive wpc :=
| WIdle
| WRead (l z : Z) (b : Z -> Z) (me : bool)              (* :3381 *)
| WEven (l z : Z) (b : Z -> Z) (me : bool) (m : Z)      (* reservation published, :3392-3402 *)
| WChk (l z : Z) (b : Z -> Z) (me : bool) (m : Z)       (* :3405-3410 *)
| WMem (l z : Z) (b : Z -> Z) (me : bool) (m k : Z)     (* :3420-3422, bytes m..k-1 copied *)
| WMark (l z : Z) (b : Z -> Z) (me : bool) (m : Z)      (* :3423-3424 *)
| WFree (l z : Z) (b : Z -> Z) (me : bool) (m : Z)      (* :3428 *)
| WLow (l z : Z) (b : Z -> Z) (me : bool) (m : Z)       (* :3430-3442 *)
| WWr (l z : Z) (b : Z -> Z) (me : bool) (m c : Z).     (* :3445-3455, bytes below c written *)

(** undo_read / undo_read_if_exists (undo.c:3216-3340) of [l, l+z). *)
Inductive rpc :=
| RIdle
| RW1 (l z : Z)                                 (* :3222 *)
| RRing (l z w1 c : Z) (acc : Z -> Z)           (* :3231-3233, bytes below c copied *)
| RW2 (l z w1 : Z) (acc : Z -> Z)               (* :3237-3238 *)
| RBuf (l z c e : Z) (acc : Z -> Z)             (* :3239-3246, to read: [c, e) *)
| RChk (l z : Z) (acc : Z -> Z).                (* :3266, 3333 *)

(** flush_dirty_undo_range (undo.c:1680-1838): between two pages, copying a page into
    the staging buffer, and before the two halves of o_buffers_write_page_direct. *)
Inductive fpc :=
| FIdle
| FLoop (pos hi mr : Z)
| FCopy (pos hi mr k : Z) (loc : Z -> Z)
| FW1 (pos hi mr : Z) (loc : Z -> Z)
| FW2 (pos hi mr : Z) (loc : Z -> Z).

(** undoWriteLock; the eviction (undo.c:1844-1973): scanning reservations with
    writeInProgressChangeCount odd (next process [i], minimum so far [mr]), waiting for
    reservations below [t], writing the pages of [c, t). *)
Inductive lock :=
| LFree
| LFlush
| LScan (t m i mr : Z)
| LWait (t c i : Z)
| LPage (t c : Z).

(** Ghost: the situations in which bytes get lost (DESIGN.md F3, F4, F12, F13). *)
Inductive hazard :=
| HReload     (* a partly drained page is stored into or reloaded while the flush writes it *)
| HShare      (* the flush clears the dirty bit of a ring page that a newer page shares *)
| HClean      (* the eviction marks clean a cached page that has unwritten stores *)
| HGone.      (* an in-place write of undo no longer retained hits a reused ring cell *)

Record st := mk {
  ring : Z -> Z;
  bit : Z -> bool;
  wr : Z;  wip : Z;  lastu : Z;
  G : Z;                                  (* minProcRetainLocation *)
  cache : Z -> option ((Z -> Z) * bool);  (* by page: bytes (by location), dirty *)
  file : Z -> Z;                          (* by location *)
  lk : lock;
  opn : list (Z * Z * bool);              (* records being filled: location, size, marked dirty *)
  ws : Z -> wpc;
  rd : Z -> rpc;
  fl : fpc;
  (* ghosts, for the specification *)
  ini : Z -> bool;                        (* belongs to an allocated record *)
  val : Z -> Z;                           (* byte last stored at a location *)
  cand : Z -> Z -> list Z;                (* by reader and location: bytes [val] has had since the read began *)
  out : list (Z * Z * (Z -> Z) * (Z -> list Z));  (* completed reads: location, size, result, candidates *)
  haz : list hazard
}.

Section Model.
Variables (PS NP : Z) (n : Z).        (* page size, pages of the ring, max_procs *)
Definition C : Z := NP * PS.
Definition slot (x : Z) : Z := x mod C.
Definition rp (x : Z) : Z := (x mod C) / PS.       (* UNDO_PAGE_INDEX, undo.c:228-230 *)
Definition down (x : Z) : Z := x - x mod PS.
Definition up (x : Z) : Z := (x + PS - 1) / PS * PS.

Definition set_ring s v := mk v (bit s) (wr s) (wip s) (lastu s) (G s) (cache s) (file s) (lk s) (opn s) (ws s) (rd s) (fl s) (ini s) (val s) (cand s) (out s) (haz s).
Definition set_bit s v := mk (ring s) v (wr s) (wip s) (lastu s) (G s) (cache s) (file s) (lk s) (opn s) (ws s) (rd s) (fl s) (ini s) (val s) (cand s) (out s) (haz s).
Definition set_w s a b := mk (ring s) (bit s) a b (lastu s) (G s) (cache s) (file s) (lk s) (opn s) (ws s) (rd s) (fl s) (ini s) (val s) (cand s) (out s) (haz s).
Definition set_last s v := mk (ring s) (bit s) (wr s) (wip s) v (G s) (cache s) (file s) (lk s) (opn s) (ws s) (rd s) (fl s) (ini s) (val s) (cand s) (out s) (haz s).
Definition set_G s v := mk (ring s) (bit s) (wr s) (wip s) (lastu s) v (cache s) (file s) (lk s) (opn s) (ws s) (rd s) (fl s) (ini s) (val s) (cand s) (out s) (haz s).
Definition set_cache s q v := mk (ring s) (bit s) (wr s) (wip s) (lastu s) (G s) (upd (cache s) q v) (file s) (lk s) (opn s) (ws s) (rd s) (fl s) (ini s) (val s) (cand s) (out s) (haz s).
Definition set_file s v := mk (ring s) (bit s) (wr s) (wip s) (lastu s) (G s) (cache s) v (lk s) (opn s) (ws s) (rd s) (fl s) (ini s) (val s) (cand s) (out s) (haz s).
Definition set_lk s v := mk (ring s) (bit s) (wr s) (wip s) (lastu s) (G s) (cache s) (file s) v (opn s) (ws s) (rd s) (fl s) (ini s) (val s) (cand s) (out s) (haz s).
Definition set_opn s v := mk (ring s) (bit s) (wr s) (wip s) (lastu s) (G s) (cache s) (file s) (lk s) v (ws s) (rd s) (fl s) (ini s) (val s) (cand s) (out s) (haz s).
Definition set_ws s p c := mk (ring s) (bit s) (wr s) (wip s) (lastu s) (G s) (cache s) (file s) (lk s) (opn s) (upd (ws s) p c) (rd s) (fl s) (ini s) (val s) (cand s) (out s) (haz s).
Definition set_rd s p c := mk (ring s) (bit s) (wr s) (wip s) (lastu s) (G s) (cache s) (file s) (lk s) (opn s) (ws s) (upd (rd s) p c) (fl s) (ini s) (val s) (cand s) (out s) (haz s).
Definition set_fl s v := mk (ring s) (bit s) (wr s) (wip s) (lastu s) (G s) (cache s) (file s) (lk s) (opn s) (ws s) (rd s) v (ini s) (val s) (cand s) (out s) (haz s).
Definition set_ini s v := mk (ring s) (bit s) (wr s) (wip s) (lastu s) (G s) (cache s) (file s) (lk s) (opn s) (ws s) (rd s) (fl s) v (val s) (cand s) (out s) (haz s).
Definition set_cand s p v := mk (ring s) (bit s) (wr s) (wip s) (lastu s) (G s) (cache s) (file s) (lk s) (opn s) (ws s) (rd s) (fl s) (ini s) (val s) (upd (cand s) p v) (out s) (haz s).
Definition set_out s v := mk (ring s) (bit s) (wr s) (wip s) (lastu s) (G s) (cache s) (file s) (lk s) (opn s) (ws s) (rd s) (fl s) (ini s) (val s) (cand s) v (haz s).
Definition hit (s : st) (b : bool) (h : hazard) : st :=
  if b then mk (ring s) (bit s) (wr s) (wip s) (lastu s) (G s) (cache s) (file s) (lk s) (opn s) (ws s) (rd s) (fl s) (ini s) (val s) (cand s) (out s) (h :: haz s)
  else s.

(** Ghost: the bytes of [P] are now [d]; every read under way may see them. *)
Definition put (s : st) (P : Z -> bool) (d : Z -> Z) : st :=
  mk (ring s) (bit s) (wr s) (wip s) (lastu s) (G s) (cache s) (file s) (lk s) (opn s) (ws s) (rd s) (fl s) (ini s)
     (fun x => if P x then d x else val s x)
     (fun p x => if P x then d x :: cand s p x else cand s p x) (out s) (haz s).

Definition inr (a b x : Z) : bool := (a <=? x) && (x <? b).
Definition range_put (f : Z -> Z) (a b : Z) (d : Z -> Z) : Z -> Z := fun x => if inr a b x then d x else f x.
Definition page_put (f : Z -> Z) (q : Z) (d : Z -> Z) : Z -> Z := fun x => if x / PS =? q then d x else f x.
Definition page_of (s : st) (q : Z) : Z -> Z := match cache s q with Some (d, _) => d | None => file s end.
Definition cdirty (s : st) (q : Z) : bool := match cache s q with Some (_, b) => b | None => false end.

(** mark_undo_range_dirty (undo.c:249-264) *)
Definition mark (f : Z -> bool) (a b : Z) : Z -> bool :=
  fun r => if existsb (fun i => rp (down a + Z.of_nat i * PS) =? r) (seq 0 (Z.to_nat ((up b - down a) / PS))) then true else f r.

(** The reservation a writer has published (reservedUndoLocation). *)
Definition resv (c : wpc) : option Z :=
  match c with
  | WEven _ _ _ _ m | WChk _ _ _ _ m | WMem _ _ _ _ m _ | WMark _ _ _ _ m | WFree _ _ _ _ m => Some m
  | _ => None
  end.
Definition res_min (c : wpc) (v : Z) : Z := match resv c with Some m => Z.min m v | None => v end.
Definition res_ok (c : wpc) (t : Z) : bool := match resv c with Some m => t <=? m | None => true end.

Definition wloc (c : wpc) : option (Z * bool) :=
  match c with
  | WIdle => None
  | WRead l _ _ me | WEven l _ _ me _ | WChk l _ _ me _ | WMem l _ _ me _ _ | WMark l _ _ me _ | WFree l _ _ me _ | WLow l _ _ me _ | WWr l _ _ me _ _ => Some (l, me)
  end.

(** What C12 allows as minimum: [v] is not above a record being filled ... *)
Definition below_open (s : st) (v : Z) : bool := (v <=? lastu s) && forallb (fun r => v <=? fst (fst r)) (opn s).
(** ... and the retain minimum does not pass a writer that must find its record. *)
Definition floor_ok (s : st) (g : Z) : bool :=
  below_open s g && (G s <=? g) &&
  forallb (fun i => match wloc (ws s (Z.of_nat i)) with Some (l, true) => g <=? l | _ => true end) (seq 0 (Z.to_nat n)).

(** Is the flush between the dirty-bit test and the file write of page q?  (ghost) *)
Definition mid (s : st) (q : Z) : bool :=
  match fl s with
  | FCopy pos _ _ _ _ | FW1 pos _ _ _ | FW2 pos _ _ _ => pos / PS =? q
  | _ => false
  end.
Definition mid2 (s : st) (q : Z) : bool := match fl s with FW2 pos _ _ _ => pos / PS =? q | _ => false end.

Definition allini (s : st) (l z : Z) : bool := forallb (fun i => ini s (l + Z.of_nat i)) (seq 0 (Z.to_nat z)).

(** undo_write_internal, one step of writer p *)
Definition wstep (s : st) (p : Z) : st :=
  match ws s p with
  | WIdle => s
  (* :3381-3397 *)
  | WRead l z b me =>
      if l + z <=? wip s then set_ws s p (WLow l z b me (l + z))
      else set_ws s p (WEven l z b me (Z.max l (wip s)))
  (* :3402: writeInProgressChangeCount is odd during LScan *)
  | WEven l z b me m => match lk s with LScan _ _ _ _ => s | _ => set_ws s p (WChk l z b me m) end
  (* :3405-3410 *)
  | WChk l z b me m => if m <? wip s then set_ws s p (WRead l z b me) else set_ws s p (WMem l z b me m m)
  (* :3420-3422 *)
  | WMem l z b me m k =>
      if k <? l + z
      then hit (set_ws (put (set_ring s (upd (ring s) (slot k) (b k))) (Z.eqb k) b) p (WMem l z b me m (k + 1)))
               ((k <? wr s) && (k + C <? lastu s)) HGone
      else set_ws s p (WMark l z b me m)
  | WMark l z b me m => set_ws (set_bit s (mark (bit s) m (l + z))) p (WFree l z b me m)
  | WFree l z b me m => set_ws s p (if m =? l then WIdle else WLow l z b me m)
  (* :3436-3442 *)
  | WLow l z b me m =>
      if (m <=? wr s) || (match lk s with LFree => true | _ => false end) then set_ws s p (WWr l z b me m l) else s
  (* :3445-3455, one page *)
  | WWr l z b me m c =>
      if c <? m then
        let q := c / PS in
        let e := Z.min (q * PS + PS) m in
        hit (set_ws (put (set_cache s q (Some (range_put (page_of s q) c e b, true))) (inr c e) b) p (WWr l z b me m e))
            (mid s q) HReload
      else set_ws s p WIdle
  end.

(** undo_read, one step of reader p *)
Definition rstep (s : st) (p : Z) : st :=
  match rd s p with
  | RIdle => s
  | RW1 l z =>
      if wr s <? l + z then set_rd s p (RRing l z (wr s) (Z.max (wr s) l) (fun _ => 0))
      else set_rd s p (RBuf l z l (l + z) (fun _ => 0))
  | RRing l z w1 c acc =>
      if c <? l + z then set_rd s p (RRing l z w1 (c + 1) (upd acc c (ring s (slot c))))
      else set_rd s p (RW2 l z w1 acc)
  | RW2 l z w1 acc => set_rd s p (RBuf l z l (Z.min (l + z) (wr s)) acc)
  (* a byte of a page that is in the cache; see OLoad *)
  | RBuf l z c e acc =>
      if c <? e then
        match cache s (c / PS) with
        | Some (d, _) => set_rd s p (RBuf l z (c + 1) e (upd acc c (d c)))
        | None => s
        end
      else set_rd s p (RChk l z acc)
  (* UNDO_REC_EXISTS (include/transam/undo.h): otherwise false or PANIC *)
  | RChk l z acc =>
      if G s <=? l then set_rd (set_out s ((l, z, acc, cand s p) :: out s)) p RIdle
      else set_rd s p RIdle
  end.

Inductive op :=
| Alloc (z : Z) | Skip (z : Z) | Mark (l : Z) | Fill (x v : Z) | Close (l : Z)
| WBegin (p l z : Z) (b : Z -> Z) (me : bool) | WStep (p : Z)
| RBegin (p l z : Z) | RStep (p : Z)
| OLoad (q : Z) | OEvict (q : Z)
| EBegin (t m : Z) | EScan | ESet (g : Z) | EWait | EPage | EEnd | Update (g : Z)
| FBegin (a b mr : Z) | FLock | FUnlock | FPage | FByte | FPut1 | FPut2 | FEnd.

Definition step (s : st) (o : op) : st :=
  match o with
  (* get_undo_record: fetch-and-add (undo.c:2179-2190); space is C14 *)
  | Alloc z =>
      if (0 <? z) && (lastu s + z <=? wr s + C)
      then set_opn (set_last s (lastu s + z)) ((lastu s, z, false) :: opn s) else s
  (* ... a record skipped at the end of the ring *)
  | Skip z => if (0 <? z) && (lastu s + z <=? wr s + C) then set_last s (lastu s + z) else s
  (* undo.c:2198 *)
  | Mark l =>
      match find (fun r => fst (fst r) =? l) (opn s) with
      | Some (_, z, false) =>
          put (set_ini (set_bit (set_opn s (map (fun r => if (fst (fst r) =? l) && (snd (fst r) =? z) then (fst r, true) else r) (opn s)))
                                (mark (bit s) l (l + z)))
                       (fun x => inr l (l + z) x || ini s x))
              (inr l (l + z)) (fun x => ring s (slot x))
      | _ => s
      end
  (* the caller stores into the record *)
  | Fill x v =>
      if existsb (fun r => snd r && inr (fst (fst r)) (fst (fst r) + snd (fst r)) x) (opn s)
      then put (set_ring s (upd (ring s) (slot x) v)) (Z.eqb x) (fun _ => v) else s
  (* release_reserved_undo_location (undo.c:2240-2246) *)
  | Close l => set_opn s (filter (fun r => negb (fst (fst r) =? l)) (opn s))
  | WBegin p l z b me =>
      match ws s p with
      | WIdle => if inr 0 n p && (0 <? z) && allini s l z && (l + z <=? lastu s) && (if me then G s <=? l else true)
                 then set_ws s p (WRead l z b me) else s
      | _ => s
      end
  | WStep p => wstep s p
  | RBegin p l z =>
      match rd s p with
      | RIdle => if (0 <? z) && allini s l z then set_rd (set_cand s p (fun x => [val s x])) p (RW1 l z) else s
      | _ => s
      end
  | RStep p => rstep s p
  (* o_buffers.c:228-327 *)
  | OLoad q =>
      match cache s q with
      | None => if q * PS <? wr s then hit (set_cache s q (Some (file s, false))) (mid2 s q) HReload else s
      | Some _ => s
      end
  | OEvict q =>
      match cache s q with
      | None => s
      | Some (d, b) => set_cache (if b then set_file s (page_put (file s) q d) else s) q None
      end
  (* evict_undo_to_disk: lock; target <= minProcReservedLocation as read by the caller *)
  | EBegin t m =>
      match lk s with
      | LFree => if (t <=? m) && below_open s m then set_lk s (LScan t m 0 (lastu s)) else s
      | _ => s
      end
  (* update_min_undo_locations (undo.c:613-627) *)
  | EScan => match lk s with LScan t m i mr => if i <? n then set_lk s (LScan t m (i + 1) (res_min (ws s i) mr)) else s | _ => s end
  (* undo.c:1873-1917 *)
  | ESet g =>
      match lk s with
      | LScan t m i mr =>
          if (i =? n) && floor_ok s g then
            let s1 := set_G s g in
            if (t <=? g) || (t <=? wr s) then set_lk (if wip s <? g then set_w s1 g g else s1) LFree
            else
              let t' := Z.min (Z.max t (wr s + C / 20)) m in
              let c := Z.max g (wr s) in
              set_lk (set_w s1 (wr s) t') (if mr <? t' then LWait t' c 0 else LPage t' c)
          else s
      | _ => s
      end
  (* wait_for_reserved_location (undo.c:1184-1211) *)
  | EWait =>
      match lk s with
      | LWait t c i => if i <? n then (if res_ok (ws s i) t then set_lk s (LWait t c (i + 1)) else s) else set_lk s (LPage t c)
      | _ => s
      end
  (* undo.c:1936-1963 *)
  | EPage =>
      match lk s with
      | LPage t c =>
          if c <? t then
            let base := down c in
            let e := Z.min (base + PS) t in
            let full := (c =? base) && (e =? base + PS) in
            let dirty := bit s (rp c) in
            let s1 := set_lk (set_cache (set_bit s (if full then upd (bit s) (rp c) false else bit s))
                                        (c / PS) (Some (range_put (page_of s (c / PS)) c e (fun x => ring s (slot x)), dirty)))
                             (LPage t e) in
            hit s1 (negb dirty && cdirty s (c / PS)) HClean
          else s
      | _ => s
      end
  (* undo.c:1966-1972 *)
  | EEnd => match lk s with LPage t c => if t <=? c then set_lk (set_w s t (wip s)) LFree else s | _ => s end
  (* update_min_undo_locations outside evictions (undo.c:672-690) *)
  | Update g =>
      match lk s with
      | LScan _ _ _ _ => s
      | LFree => if floor_ok s g then (if wr s <? g then set_w (set_G s g) g g else set_G s g) else s
      | _ => if floor_ok s g then set_G s g else s
      end
  (* fsync_undo_range, undo.c:1726-1740 *)
  | FBegin a b mr =>
      match fl s with
      | FIdle =>
          if below_open s mr then
            let x0 := Z.max a (wr s) in
            if b <=? x0 then s else set_fl s (FLoop (down x0) (Z.min (up b) (down x0 + C)) mr)
          else s
      | _ => s
      end
  | FLock => match fl s, lk s with FLoop _ _ _, LFree => set_lk s LFlush | _, _ => s end
  | FUnlock => match fl s, lk s with FLoop _ _ _, LFlush => set_lk s LFree | _, _ => s end
  (* undo.c:1770-1812 *)
  | FPage =>
      match fl s, lk s with
      | FLoop pos hi mr, LFlush =>
          if pos <? hi then
            if pos + PS <=? wr s then set_fl s (FLoop (pos + PS) hi mr)
            else if (pos + PS <=? mr) && negb (bit s (rp pos)) then set_fl s (FLoop (pos + PS) hi mr)
            else
              let s1 := if pos + PS <=? mr then hit (set_bit s (upd (bit s) (rp pos) false)) (pos + C <? lastu s) HShare else s in
              if pos <? wr s then
                let s2 := match cache s (pos / PS) with Some _ => s1 | None => set_cache s1 (pos / PS) (Some (file s, false)) end in
                set_fl s2 (FCopy pos hi mr 0 (page_of s (pos / PS)))
              else set_fl s1 (FCopy pos hi mr 0 (fun _ => 0))
          else s
      | _, _ => s
      end
  (* undo.c:1813-1814: one byte; those below the frontier keep the preloaded value *)
  | FByte =>
      match fl s with
      | FCopy pos hi mr k loc =>
          if k <? PS
          then set_fl s (FCopy pos hi mr (k + 1) (if pos + k <? wr s then loc else upd loc (pos + k) (ring s (slot (pos + k)))))
          else set_fl s (FW1 pos hi mr loc)
      | _ => s
      end
  (* o_buffers.c:457-470 *)
  | FPut1 =>
      match fl s with
      | FW1 pos hi mr loc =>
          set_fl (match cache s (pos / PS) with Some _ => set_cache s (pos / PS) (Some (loc, false)) | None => s end) (FW2 pos hi mr loc)
      | _ => s
      end
  (* o_buffers.c:472 *)
  | FPut2 => match fl s with FW2 pos hi mr loc => set_fl (set_file s (page_put (file s) (pos / PS) loc)) (FLoop (pos + PS) hi mr) | _ => s end
  | FEnd => match fl s, lk s with FLoop pos hi _, LFlush => s | FLoop pos hi _, _ => if hi <=? pos then set_fl s FIdle else s | _, _ => s end
  end.

(** Start-up: an empty log at location l (checkpoint_shmem_init). *)
Definition init (l : Z) : st :=
  mk (fun _ => 0) (fun _ => false) l l l l (fun _ => None) (fun _ => 0) LFree [] (fun _ => WIdle) (fun _ => RIdle) FIdle
     (fun _ => false) (fun _ => 0) (fun _ _ => []) [] [].
End Model.
