(** Model of the page latch and of optimistic page reads: src/btree/page_state.c,
    src/btree/page_contents.c:try_copy_page and the generation counter of a page slot
    (include/orioledb.h:412-420, src/utils/page_pool.c:301-335, src/btree/io.c:2433,
    2448, src/btree/merge.c:254-257).

    One page slot and any number of backends.  Each atomic instruction on the page-state
    word, each access to the wait-list node of a backend that may race, each semaphore
    operation and each word of a page copy is one step.  The walk of the wait list by the
    unlocking backend is one step: only that backend changes the links of queued nodes.
    A backend waits on one page at a time; what an idle backend does with its node and
    semaphore elsewhere is arbitrary ([OOther], [OPost], [OTake]). *)
From Coq Require Import ZArith List Bool.
From Verif Require Import Base.
Import ListNotations.
Open Scope Z_scope.

(** PAGE_STATE_INVALID_PROCNO, include/btree/page_state.h:31 *)
Definition INV : Z := 0x3FFFF.

(** The page-state word (page_state.h:21-29; the bit layout is property C24): locked flag,
    no-read flag, 32-bit change count, usage count, procno at the tail of the wait list. *)
Record word := W { wl : bool; wn : bool; wc : Z; wu : Z; wt : Z }.
Definition word_eqb (a b : word) : bool :=
  Bool.eqb (wl a) (wl b) && Bool.eqb (wn a) (wn b) && (wc a =? wc b) && (wu a =? wu b) && (wt a =? wt b).

(** OPageWaiterShmemState.status *)
Inductive status := WExcl | WNon | WIns | WUp.
Definition is_non (x : status) : bool := match x with WNon => true | _ => false end.
Definition is_ins (x : status) : bool := match x with WIns => true | _ => false end.
Definition is_up (x : status) : bool := match x with WUp => true | _ => false end.
(** What a latch request queues as: lock_page 410 or lock_page_with_tuple 536. *)
Inductive kind := KExcl | KIns.
Definition kstat (k : kind) : status := match k with KExcl => WExcl | KIns => WIns end.

(** Program counters.  [x] counts absorbed semaphore posts (extraWaits). *)
Inductive pc :=
| Idle
| LTry (k : kind) (x : Z)                (* about to read the word: 139, 204 *)
| LHave (k : kind) (x : Z) (w : word)    (* about to compare-and-swap *)
| LWait (k : kind) (x : Z)               (* in PGSemaphoreLock: 434, 574 *)
| Held (w : word)                          (* my_locked_page_add: w = the remembered state *)
| UTry (sp rel : bool) (w0 : word)         (* unlock_page_internal 1006; rel: called by relock_page 735 *)
| UHave (sp rel : bool) (w0 w : word) (wk pt pp : Z) (ex : bool)  (* state w, wakeListHead, prevTail, prevTailPatch, exclusiveAlreadyWoken *)
| UCas (sp rel : bool) (w0 w : word) (wk : Z) (ex : bool) (nt : Z) (* list patched, newTail *)
| UWk (rel : bool) (w0 : word) (h : Z)     (* waking the private list: 1161 *)
| USem (rel : bool) (w0 : word) (h nx : Z) (* status set, semaphore to be posted *)
| CTry (w0 : word) (x : Z)               (* page_wait_for_changecount 680 *)
| CHave (w0 : word) (x : Z) (w : word)
| CWait (w0 : word) (x : Z)
| CUp (w0 : word) (x : Z)                (* woken: rereads the word, 709 *)
| RTry (l0 : Z)                            (* try_copy_page 155; l0: generation of the reference *)
| RCopy (l0 : Z) (w : word) (img : Z -> option Z) (v0 : Z)
| RGen (l0 : Z) (w : word) (img : Z -> option Z) (v0 : Z)  (* state2 checked, page change count not yet *)
| QTry (l0 : Z) (x : Z)                  (* page_wait_for_read_enable 629 *)
| QHave (l0 : Z) (x : Z) (w : word)
| QWait (l0 : Z) (x : Z).

(** A page copy reported as valid (ReadPageResultOK): the reference's generation, the
    words copied, ghost publication numbers at the start and at the end, ghost slot
    generation at the end. *)
Record rd := Rd { r_ref : Z; r_img : Z -> option Z; r_v0 : Z; r_v1 : Z; r_gen : Z }.

Record state := St {
  wd : word;               (* header->state *)
  gen : Z;                 (* header->pageChangeCount, 31 bits *)
  data : Z -> Z;           (* the other words of the page *)
  nxt : Z -> Z;            (* lockerStates[].next *)
  stat : Z -> status;      (* lockerStates[].status *)
  ins : Z -> bool;         (* lockerStates[].inserted *)
  sem : Z -> nat;          (* PGPROC semaphores *)
  pcs : Z -> pc;
  (* ghost *)
  life : Z;                (* generation without wrap-around *)
  live : bool;             (* the slot holds a tree page that references may lead to *)
  ver : Z;                 (* publications: unlocks after page_block_reads, without wrap-around *)
  pub : Z -> Z -> Z;       (* page content at each publication *)
  reads : list rd;         (* validated copies *)
  checks : list (Z * Z);   (* try_lock_page_and_check successes: generation of the reference, of the slot *)
  fp : Z -> Z;             (* semaphore posts from elsewhere minus those consumed elsewhere *)
  owe : Z -> list Z        (* backends that have marked this one awake but not yet posted its semaphore *)
}.

Definition init : state :=
  St (W false false 0 0 INV) 0 (fun _ => 0) (fun _ => INV) (fun _ => WUp) (fun _ => false) (fun _ => 0%nat) (fun _ => Idle)
     0 false 0 (fun _ _ => 0) [] [] (fun _ => 0) (fun _ => []).

Definition set_wd (s : state) (x : word) := St x (gen s) (data s) (nxt s) (stat s) (ins s) (sem s) (pcs s) (life s) (live s) (ver s) (pub s) (reads s) (checks s) (fp s) (owe s).
Definition set_gen (s : state) (g l : Z) (b : bool) := St (wd s) g (data s) (nxt s) (stat s) (ins s) (sem s) (pcs s) l b (ver s) (pub s) (reads s) (checks s) (fp s) (owe s).
Definition set_data (s : state) (d : Z -> Z) := St (wd s) (gen s) d (nxt s) (stat s) (ins s) (sem s) (pcs s) (life s) (live s) (ver s) (pub s) (reads s) (checks s) (fp s) (owe s).
Definition set_nxt (s : state) (n : Z -> Z) := St (wd s) (gen s) (data s) n (stat s) (ins s) (sem s) (pcs s) (life s) (live s) (ver s) (pub s) (reads s) (checks s) (fp s) (owe s).
Definition set_stat (s : state) (p : Z) (x : status) := St (wd s) (gen s) (data s) (nxt s) (upd (stat s) p x) (ins s) (sem s) (pcs s) (life s) (live s) (ver s) (pub s) (reads s) (checks s) (fp s) (owe s).
Definition set_ins (s : state) (p : Z) (b : bool) := St (wd s) (gen s) (data s) (nxt s) (stat s) (upd (ins s) p b) (sem s) (pcs s) (life s) (live s) (ver s) (pub s) (reads s) (checks s) (fp s) (owe s).
Definition set_sem (s : state) (p : Z) (n : nat) := St (wd s) (gen s) (data s) (nxt s) (stat s) (ins s) (upd (sem s) p n) (pcs s) (life s) (live s) (ver s) (pub s) (reads s) (checks s) (fp s) (owe s).
Definition set_pc (s : state) (p : Z) (c : pc) := St (wd s) (gen s) (data s) (nxt s) (stat s) (ins s) (sem s) (upd (pcs s) p c) (life s) (live s) (ver s) (pub s) (reads s) (checks s) (fp s) (owe s).
Definition set_pub (s : state) (v : Z) (f : Z -> Z -> Z) := St (wd s) (gen s) (data s) (nxt s) (stat s) (ins s) (sem s) (pcs s) (life s) (live s) v f (reads s) (checks s) (fp s) (owe s).
Definition add_read (s : state) (r : rd) := St (wd s) (gen s) (data s) (nxt s) (stat s) (ins s) (sem s) (pcs s) (life s) (live s) (ver s) (pub s) (r :: reads s) (checks s) (fp s) (owe s).
Definition add_check (s : state) (c : Z * Z) := St (wd s) (gen s) (data s) (nxt s) (stat s) (ins s) (sem s) (pcs s) (life s) (live s) (ver s) (pub s) (reads s) (c :: checks s) (fp s) (owe s).

Definition set_fp (s : state) (p z : Z) := St (wd s) (gen s) (data s) (nxt s) (stat s) (ins s) (sem s) (pcs s) (life s) (live s) (ver s) (pub s) (reads s) (checks s) (upd (fp s) p z) (owe s).
Definition set_owe (s : state) (p : Z) (l : list Z) := St (wd s) (gen s) (data s) (nxt s) (stat s) (ins s) (sem s) (pcs s) (life s) (live s) (ver s) (pub s) (reads s) (checks s) (fp s) (upd (owe s) p l).

(** O_PAGE_CHANGE_COUNT_INC, include/orioledb.h:412-420 *)
Definition inc_gen (g : Z) : Z := if 0x7FFFFFFF <=? g then 0 else g + 1.
(** The count of a reference made at generation [l] (low 31 bits of the downlink's upper half). *)
Definition ref_gen (l : Z) : Z := l mod 2 ^ 31.

(** page_wait_for_changecount takes the remembered state as uint32 (page_state.c:681), so
    that only the low 12 bits of its change count are compared with the current count. *)
Definition changed (w w0 : word) : bool := negb (wc w =? wc w0 mod 2 ^ 12).

(** The walk of unlock_page_internal, 1036-1079.  [n] bounds the iterations. *)
Definition should_wake (st : status) (inserted split : bool) : bool :=
  inserted || is_non st || (split && is_ins st).
Fixpoint walk (n : nat) (st : Z -> status) (insd : Z -> bool) (split ex : bool) (pt : Z)
    (nx : Z -> Z) (cur prev nt wk ec ecp : Z) : option ((Z -> Z) * Z * Z * Z * Z * Z) :=
  match n with
  | O => None
  | Datatypes.S n =>
    if cur =? pt then Some (nx, prev, nt, wk, ec, ecp)
    else if should_wake (st cur) (insd cur) split then
      let next := nx cur in
      let nt' := if prev =? INV then next else nt in
      let nx1 := if prev =? INV then nx else upd nx prev next in
      walk n st insd split ex pt (upd nx1 cur wk) next prev nt' cur ec ecp
    else if negb ex && (ec =? INV) then walk n st insd split ex pt nx (nx cur) cur nt wk cur prev
    else walk n st insd split ex pt nx (nx cur) cur nt wk ec ecp
  end.
(** 1081-1119: the exclusive waiter and the re-applied patch; gives the links, the new
    tail, the wake list and exclusiveAlreadyWoken. *)
Definition patch (ex : bool) (pt pp : Z) (r : (Z -> Z) * Z * Z * Z * Z * Z) : (Z -> Z) * Z * Z * bool :=
  let '(nx, prev, nt, wk, ec, ecp) := r in
  let '(nx, prev, nt, wk, ex) :=
    if negb (ec =? INV) && negb ex then
      let nt' := if ecp =? INV then nx ec else nt in
      let nx1 := if ecp =? INV then nx else upd nx ecp (nx ec) in
      (upd nx1 ec wk, (if prev =? ec then ecp else prev), nt', ec, true)
    else (nx, prev, nt, wk, ex) in
  if negb (pt =? pp) then
    if prev =? INV then (nx, pp, wk, ex) else (upd nx prev pp, nt, wk, ex)
  else (nx, nt, wk, ex).

(** get_waiters_with_tuples, 873-907: is [q] on the list that starts at [t]? *)
Fixpoint on_list (n : nat) (nx : Z -> Z) (t q : Z) : bool :=
  match n with O => false | Datatypes.S n => negb (t =? INV) && ((t =? q) || on_list n nx (nx t) q) end.

Definition lock_word (w : word) (u : Z) : word := W true (wn w) (wc w) u (wt w).
Definition tail_word (w : word) (u p : Z) : word := W (wl w) (wn w) (wc w) u p.
(** 1125-1142 *)
Definition unlock_word (w : word) (nt : Z) : word :=
  W false false (if wn w then (wc w + 1) mod 2 ^ 32 else wc w) (wu w) nt.

Inductive op :=
| OLock (p : Z) (k : kind) | OTryLock (p : Z) | OState (p : Z) | OCas (p u : Z) | OBail (p : Z) | OSem (p : Z)
| OBlock (p : Z) | OWrite (p i v : Z) | OMark (p q : Z) (n : nat) | OEvict (p : Z) | OFree (p : Z) | OReuse (p : Z) | OCheck (p l0 : Z)
| OUnlock (p : Z) (sp rel : bool) | OWalk (p : Z) (n : nat) | OUCas (p : Z) | OWake (p : Z) | OUSem (p : Z)
| ORead (p l0 : Z) | OCopy (p i : Z) | ORCheck (p : Z) | ORGen (p : Z)
| ORaw (i v : Z) | OUse (u : Z) | OOther (p nx : Z) (st : status) | OPost (p : Z) | OTake (p : Z).

Definition proc (p : Z) : bool := (0 <=? p) && (p <? INV).
Definition is_idle (c : pc) : bool := match c with Idle => true | _ => false end.
Definition holder_noread (s : state) (p : Z) : bool := match pcs s p with Held _ => wn (wd s) | _ => false end.
(** Put the node of [p] in front of the list seen in [w] (288-295 and the like). *)
Definition link (s : state) (p : Z) (w : word) (st : status) : state := set_stat (set_nxt s (upd (nxt s) p (wt w))) p st.

(** while (extraWaits-- > 0) PGSemaphoreUnlock(MyProc->sem) *)
Definition repost (s : state) (p x : Z) : state := set_sem s p (sem s p + Z.to_nat x).

Definition step (s : state) (o : op) : state :=
  match o with
  | OLock p k => if proc p && is_idle (pcs s p) then set_pc s p (LTry k 0) else s
  | OTryLock p => (* try_lock_page 755-778: fetch_or *)
      if proc p && is_idle (pcs s p) && negb (wl (wd s))
      then set_pc (set_wd s (lock_word (wd s) (wu (wd s)))) p (Held (lock_word (wd s) (wu (wd s)))) else s
  | OState p => (* pg_atomic_read_u64(&header->state) *)
      match pcs s p with
      | LTry k x => set_pc s p (LHave k x (wd s))
      | CTry w0 x => set_pc s p (CHave w0 x (wd s))
      | QTry l0 x => set_pc s p (QHave l0 x (wd s))
      | UTry sp rel w0 => set_pc s p (UHave sp rel w0 (wd s) INV INV INV false)
      | CUp w0 x => if changed (wd s) w0 then set_pc (repost s p x) p (LTry KExcl 0) else set_pc s p (CTry w0 x)
      | RTry l0 => if wn (wd s) then set_pc s p (QTry l0 0) else set_pc s p (RCopy l0 (wd s) (fun _ => None) (ver s))
      | _ => s
      end
  | OCas p u =>
      match pcs s p with
      | LHave k x w =>
          if wl w then
            let s := link s p w (kstat k) in
            if word_eqb (wd s) w then set_pc (set_wd s (tail_word w u p)) p (LWait k x) else set_pc s p (LHave k x (wd s))
          else
            if word_eqb (wd s) w then set_pc (match k with KExcl => repost (set_wd s (lock_word w u)) p x | KIns => set_wd s (lock_word w u) end) p (Held (lock_word w (wu w)))
            else set_pc s p (LHave k x (wd s))
      | CHave w0 x w =>
          if changed w w0 then set_pc s p (LTry KExcl 0)   (* 696: returns without re-posting *)
          else
            let s := link s p w WNon in
            if word_eqb (wd s) w then set_pc (set_wd s (tail_word w u p)) p (CWait w0 x) else set_pc s p (CHave w0 x (wd s))
      | QHave l0 x w =>
          if wn w then
            let s := link s p w WNon in
            if word_eqb (wd s) w then set_pc (set_wd s (tail_word w (wu w) p)) p (QWait l0 x) else set_pc s p (QHave l0 x (wd s))
          else set_pc (repost s p x) p (RTry l0)
      | _ => s
      end
  | OBail p => (* LockPageResultSplitDetected 217-251: only while the page is seen locked *)
      match pcs s p with LHave KIns x w => if wl w then set_pc s p Idle else s | _ => s end
  | OSem p => (* PGSemaphoreLock, then the status check *)
      match sem s p with
      | O => s
      | Datatypes.S m =>
        match pcs s p with
        | LWait k x =>
            let s := set_sem s p m in
            if is_up (stat s p) then
              match k with
              | KExcl => set_pc s p (LTry k x)
              | KIns => (* 582-585: while (extraWaits-- > 0) *)
                  let s := repost s p x in
                  if ins s p then set_pc (set_ins s p false) p Idle else set_pc s p (LTry k (Z.min x 0 - 1))
              end
            else set_pc s p (LWait k (x + 1))
        | CWait w0 x => let s := set_sem s p m in if is_up (stat s p) then set_pc s p (CUp w0 x) else set_pc s p (CWait w0 (x + 1))
        | QWait l0 x => let s := set_sem s p m in if is_up (stat s p) then set_pc s p (QTry l0 x) else set_pc s p (QWait l0 (x + 1))
        | _ => s
        end
      end
  | OBlock p => (* page_block_reads 813-871 *)
      match pcs s p with
      | Held w => if wn w then s else
          let w' := W (wl (wd s)) true (wc (wd s)) (wu (wd s)) (wt (wd s)) in set_pc (set_wd s w') p (Held w')
      | _ => s
      end
  | OWrite p i v => if holder_noread s p then set_data s (upd (data s) i v) else s
  | OMark p q n => (* mark_waiter_tuples_inserted 909-921 *)
      match pcs s p with Held _ => if on_list n (nxt s) (wt (wd s)) q && is_ins (stat s q) then set_ins s q true else s | _ => s end
  | OEvict p => (* io.c:2433, 2448 *)
      match pcs s p with Held _ => set_gen s (inc_gen (gen s)) (life s + 1) false | _ => s end
  | OFree p => (* page_pool.c:318-330 *)
      if holder_noread s p then set_gen s (inc_gen (gen s)) (life s + 1) false else s
  | OReuse p => (* init_new_btree_page, page_contents.c:417-455 *)
      if holder_noread s p then set_gen s (gen s) (life s) true else s
  | OCheck p l0 => (* try_lock_page_and_check 516-531, after the lock *)
      match pcs s p with
      | Held w => if (l0 <? life s) || ((l0 =? life s) && live s)
                  then if gen s =? ref_gen l0 then add_check s (l0, life s) else set_pc s p (UTry false false w)
                  else s
      | _ => s
      end
  | OUnlock p sp rel => match pcs s p with Held w => set_pc s p (UTry sp rel w) | _ => s end
  | OWalk p n =>
      match pcs s p with
      | UHave sp rel w0 w wk pt pp ex =>
          match walk n (stat s) (ins s) sp ex pt (nxt s) (wt w) INV (wt w) wk INV INV with
          | None => s
          | Some r => let '(nx, nt, wk, ex) := patch ex pt pp r in set_pc (set_nxt s nx) p (UCas sp rel w0 w wk ex nt)
          end
      | _ => s
      end
  | OUCas p =>
      match pcs s p with
      | UCas sp rel w0 w wk ex nt =>
          if word_eqb (wd s) w then
            let s1 := set_pc (set_wd s (unlock_word w nt)) p (UWk rel w0 wk) in
            if wn w then set_pub s1 (ver s + 1) (upd (pub s) (ver s + 1) (data s)) else s1
          else set_pc s p (UHave sp rel w0 (wd s) wk (wt w) nt ex)
      | _ => s
      end
  | OWake p =>
      match pcs s p with
      | UWk rel w0 h =>
          if h =? INV then set_pc s p (if rel then CTry w0 0 else Idle)
          else set_owe (set_pc (set_stat s h WUp) p (USem rel w0 h (nxt s h))) h (p :: owe s h)
      | _ => s
      end
  | OUSem p => match pcs s p with USem rel w0 h nx => set_owe (set_pc (set_sem s h (Datatypes.S (sem s h))) p (UWk rel w0 nx)) h (remove Z.eq_dec p (owe s h)) | _ => s end
  | ORead p l0 => (* a reference is to a live page of this or an earlier generation *)
      if proc p && is_idle (pcs s p) && (0 <=? l0) && ((l0 <? life s) || ((l0 =? life s) && live s)) then set_pc s p (RTry l0) else s
  | OCopy p i =>
      match pcs s p with RCopy l0 w img v0 => set_pc s p (RCopy l0 w (upd img i (Some (data s i))) v0) | _ => s end
  | ORCheck p => (* try_copy_page 197-201 *)
      match pcs s p with
      | RCopy l0 w img v0 =>
          if negb (wc w =? wc (wd s)) || wn (wd s) then set_pc s p (QTry l0 0) else set_pc s p (RGen l0 w img v0)
      | _ => s
      end
  | ORGen p => (* 203: O_PAGE_GET_CHANGE_COUNT(p) != pageChangeCount *)
      match pcs s p with
      | RGen l0 w img v0 =>
          if gen s =? ref_gen l0 then set_pc (add_read s (Rd l0 img v0 (ver s) (life s))) p Idle else set_pc s p Idle
      | _ => s
      end
  | ORaw i v => (* the slot is free or used for something else than a tree page *)
      if live s then s else set_data s (upd (data s) i v)
  | OUse u => set_wd s (W (wl (wd s)) (wn (wd s)) (wc (wd s)) u (wt (wd s)))   (* page_change_usage_count *)
  | OOther p nx st => if is_idle (pcs s p) then set_stat (set_nxt s (upd (nxt s) p nx)) p st else s
  | OPost p => set_fp (set_sem s p (Datatypes.S (sem s p))) p (fp s p + 1)
  | OTake p => match sem s p with O => s | Datatypes.S m => if is_idle (pcs s p) then set_fp (set_sem s p m) p (fp s p - 1) else s end
  end.
