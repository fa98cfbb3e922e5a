(** Logical transaction id allocator, src/transam/oxid.c. *)
From Coq Require Import ZArith List Bool.
From Verif Require Import Base.
Import ListNotations.
Open Scope Z_scope.

(** PostgreSQL TransactionId constants (access/transam.h): 32-bit unsigned. *)
Definition two32 : Z := 4294967296.
Definition MaxTransactionId : Z := two32 - 1.
Definition FirstNormalTransactionId : Z := 3.
Definition InvalidTransactionId : Z := 0.

(** TransactionIdRetreat (access/transam.h): decrement, skipping special ids. *)
Definition retreat (x : Z) : Z := if x <=? 3 then MaxTransactionId else x - 1.

(** oxid.c:464-465: itemsCount = logical_xid_buffers * (BLCKSZ / 4);
    divider = itemsCount * 32.  [guc] is orioledb.logical_xid_buffers. *)
Definition items_count (guc : Z) : Z := guc * 2048.
Definition divider (guc : Z) : Z := items_count guc * 32.

(** oxid.c:488: bit = (~value) & (value + 1), on uint32. *)
Definition free_bit (v : Z) : Z := Z.land (MaxTransactionId - v) ((v + 1) mod two32).

(** oxid.c:513-528: the id for slot [mynum] given RecentXmin.  All values are
    uint32; no intermediate expression below leaves the uint32 range for
    0 <= mynum < divider <= 2^26 (lemma [slot_xid_range]). *)
Definition slot_xid (d recentXmin mynum : Z) : Z :=
  let result := retreat recentXmin in
  let sub := if result mod d >? mynum
             then result mod d - mynum
             else result mod d + (d - mynum) in
  if result >=? FirstNormalTransactionId + sub
  then result - sub
  else (MaxTransactionId - MaxTransactionId mod d) - (d - mynum).

(** What the backend does with the id once it has one:
    [DCur]: get_current_oxid (oxid.c:1735) / ensure_current_logical_xid (598-611);
    [DSub subid]: assign_subtransaction_logical_xid (613-640). *)
Inductive dest := DCur | DSub (subid : Z).

(** Program counter of a backend inside acquire_logical_xid (482-511):
    [PScan i n d]: about to read word i, n full loops done;
    [PTry i bit d]: read done, about to fetch_or [bit] into word i. *)
Inductive lpc := PIdle | PScan (i nloops : Z) (d : dest) | PTry (i bit nloops : Z) (d : dest).

(** Backend-local state: logicalXidContext.xid (108), prevLogicalXids (145, last
    element = list head here), contexts saved by start_autonomous_transaction
    (undo.c:3121; the list length is autonomousNestingLevel).  useHeap only
    selects WAL records and is not modelled. *)
Record lbk := mkLbk { l_cur : Z; l_prev : list (Z * Z); l_saved : list Z; l_pc : lpc }.

Record lst := mkLst { l_words : Z -> Z;       (* logicalXidsShmemMap *)
                      l_bks : Z -> lbk }.

(** oxid_init_shmem:444-445, and all backends outside transactions. *)
Definition linit : lst := mkLst (fun _ => 0) (fun _ => mkLbk 0 [] [] PIdle).

Inductive lop :=
| LStart (p : Z) (d : dest)            (* enter acquire_logical_xid *)
| LRead (p : Z)                        (* 484-501 *)
| LOr (p : Z) (recentXmin : Z)         (* uint32; 505-528 and the caller's store *)
| LSubEnd (p : Z) (subid : Z)          (* oxid_subxact_callback 665-767 *)
| LXactEnd (p : Z)                     (* release_assigned_logical_xids 1863-1890 *)
| LAutoStart (p : Z)                   (* start_autonomous_transaction, undo.c:3112-3135 *)
| LAutoEnd (p : Z).                    (* abort_/finish_autonomous_transaction 3137-3215 *)

(** release_logical_xid (537-556). *)
Definition release_xid (guc x : Z) (words : Z -> Z) : Z -> Z :=
  if x =? InvalidTransactionId then words else
  let mynum := x mod divider guc in
  let w := mynum / 32 in
  upd words w (Z.land (words w) (MaxTransactionId - 2 ^ (mynum mod 32))).

Definition release_all (guc : Z) (xs : list Z) (words : Z -> Z) : Z -> Z :=
  fold_left (fun w x => release_xid guc x w) xs words.

Definition set_bk (s : lst) (p : Z) (b : lbk) : lst := mkLst (l_words s) (upd (l_bks s) p b).

(** Storing the new id: get_current_oxid assigns it to the (empty) context;
    assign_subtransaction_logical_xid pushes the old context first. *)
Definition deliver (b : lbk) (d : dest) (x : Z) : lbk :=
  match d with
  | DCur => mkLbk x (l_prev b) (l_saved b) PIdle
  | DSub sid => mkLbk x ((l_cur b, sid) :: l_prev b) (l_saved b) PIdle
  end.

(** Guard of entering the allocator: ensure_current_logical_xid and
    get_current_oxid only do so when there is no current id. *)
Definition may_start (b : lbk) (d : dest) : bool :=
  match l_pc b with
  | PIdle => match d with DCur => l_cur b =? InvalidTransactionId | DSub _ => true end
  | _ => false
  end.

(** One atomic step of one backend.  [pnum p mod items] is the starting word
    (466).  A step that is not enabled leaves the state unchanged. *)
Definition lstep (guc : Z) (s : lst) (o : lop) : lst :=
  match o with
  | LStart p d =>
      let b := l_bks s p in
      if may_start b d
      then set_bk s p (mkLbk (l_cur b) (l_prev b) (l_saved b) (PScan (p mod items_count guc) 0 d))
      else s
  | LRead p =>
      let b := l_bks s p in
      match l_pc b with
      | PScan i n d =>
          let bit := free_bit (l_words s i) in
          let pc' :=
            if bit =? 0
            then if i + 1 >=? items_count guc
                 then (* wrapped: give up after MAX_N_TRIES = 16 loops (495-498) *)
                   if n + 1 >? 16 then PIdle else PScan 0 (n + 1) d
                 else PScan (i + 1) n d
            else PTry i bit n d in
          set_bk s p (mkLbk (l_cur b) (l_prev b) (l_saved b) pc')
      | _ => s
      end
  | LOr p recentXmin =>
      let b := l_bks s p in
      match l_pc b with
      | PTry i bit n d =>
          let old := l_words s i in
          let words' := upd (l_words s) i (Z.lor old bit) in
          if Z.land old bit =? 0
          then let mynum := i * 32 + Z.log2_up bit in
               mkLst words' (upd (l_bks s) p (deliver b d
                              (slot_xid (divider guc) (recentXmin mod two32) mynum)))
          else mkLst words' (upd (l_bks s) p
                 (mkLbk (l_cur b) (l_prev b) (l_saved b) (PScan i n d)))
      | _ => s
      end
  | LSubEnd p subid =>
      let b := l_bks s p in
      match l_pc b, l_prev b with
      | PIdle, (x, sid) :: rest =>
          if (sid =? subid) && negb (l_cur b =? InvalidTransactionId)
          then mkLst (release_xid guc (l_cur b) (l_words s))
                     (upd (l_bks s) p (mkLbk x rest (l_saved b) PIdle))
          else s
      | _, _ => s
      end
  | LXactEnd p =>
      let b := l_bks s p in
      match l_pc b, l_saved b with
      | PIdle, [] =>
          mkLst (release_all guc (l_cur b :: map fst (l_prev b)) (l_words s))
                (upd (l_bks s) p (mkLbk InvalidTransactionId [] [] PIdle))
      | _, _ => s
      end
  | LAutoStart p =>
      let b := l_bks s p in
      match l_pc b with
      | PIdle => set_bk s p (mkLbk InvalidTransactionId (l_prev b) (l_cur b :: l_saved b) PIdle)
      | _ => s
      end
  | LAutoEnd p =>
      let b := l_bks s p in
      match l_pc b, l_saved b with
      | PIdle, x :: rest =>
          mkLst (release_xid guc (l_cur b) (l_words s))
                (upd (l_bks s) p (mkLbk x (l_prev b) rest PIdle))
      | _, _ => s
      end
  end.

(** Ids a backend holds: current context, contexts stacked by
    subtransactions, contexts saved around autonomous transactions. *)
Definition held (b : lbk) : list Z :=
  filter (fun x => negb (x =? InvalidTransactionId))
         (l_cur b :: map fst (l_prev b) ++ l_saved b).

(** A slot is marked as taken in the shared bitmap. *)
Definition slot_taken (s : lst) (m : Z) : bool := Z.testbit (l_words s (m / 32)) (m mod 32).
