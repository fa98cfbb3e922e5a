(** Undo stack of one transaction with subtransactions: src/transam/undo.c.
    One row-level undo log; an undo location is a position in the log [u_mem].
    Records of other transactions in the same log are [IOther].  Rows are
    abstracted to a map from row number to value: an undo record of a row change
    keeps the previous value and its abort callback puts it back (the real
    callbacks are modelled in RowModel.v).  A record whose type has
    callOnCommit = true (undo.c:141-172) carries an action number. *)
From Coq Require Import ZArith List Bool.
From Verif Require Import Base.
Import ListNotations.
Open Scope Z_scope.

Definition loc := option nat.   (* None = InvalidUndoLocation *)

(** UndoStackItem and its extensions (include/transam/undo.h): [prev] is
    header.prev. *)
Inductive item :=
| IOther
| IRow (k old : Z) (prev : loc)
| IAct (a : Z) (prev : loc) (onCommit : loc)            (* OnCommitUndoStackItem *)
| ISub (parent : Z) (prevSub : loc) (prev : loc)         (* SubXactUndoStackItem *)
| IBranch (longPath prevBranch prev : loc).              (* BranchUndoStackItem *)

Definition item_prev (it : item) : loc :=
  match it with
  | IOther => None
  | IRow _ _ p | IAct _ p _ | ISub _ _ p | IBranch _ _ p => p
  end.

Record ust := mkUst {
  u_mem : list item;        (* the undo log *)
  u_loc : loc;              (* sharedLocations->location *)
  u_branch : loc;           (* sharedLocations->branchLocation *)
  u_sub : loc;              (* sharedLocations->subxactLocation *)
  u_onc : loc;              (* sharedLocations->onCommitLocation *)
  u_min : option Z;         (* minParentSubId, None = InvalidSubTransactionId *)
  u_ret : bool;             (* have_retained_undo_location() *)
  u_db : Z -> Z;            (* rows *)
  u_stk : list Z;           (* PostgreSQL's open subtransaction ids, innermost first *)
  u_nextid : Z;             (* next SubTransactionId; the top transaction has id 1 *)
  u_done : option (list Z); (* Some acts: committed/aborted, acts = commit callbacks called *)
  u_fatal : bool            (* elog(FATAL, "subxact goes out of order") *)
}.

Definition uinit (db : Z -> Z) : ust :=
  mkUst [] None None None None None false db [] 2 None false.

Definition loc_eqb (a b : loc) : bool :=
  match a, b with
  | None, None => true
  | Some x, Some y => Nat.eqb x y
  | _, _ => false
  end.

Definition get_item (mem : list item) (l : nat) : item := nth l mem IOther.

(** Abort callback of an item. *)
Definition revert_item (it : item) (db : Z -> Z) : Z -> Z :=
  match it with IRow k old _ => upd db k old | _ => db end.

(** walk_undo_range (1319-1363) at stage Abort; result: location, rows, onCommit.
    [fuel] bounds the number of items visited; the log length suffices because
    prev links decrease. *)
Fixpoint walk_abort (fuel : nat) (mem : list item) (l to : loc) (db : Z -> Z) (onc : loc)
  : loc * (Z -> Z) * loc :=
  match fuel with
  | O => (l, db, onc)
  | S f =>
      match l with
      | None => (l, db, onc)
      | Some x =>
          if match to with Some t => Nat.ltb t x | None => true end then
            let it := get_item mem x in
            let db' := revert_item it db in
            let onc' := if loc_eqb onc l
                        then match it with IAct _ _ o => o | _ => onc end
                        else onc in
            walk_abort f mem (item_prev it) to db' onc'
          else (l, db, onc)
      end
  end.

(** walk_undo_range at stage Commit (1345-1349): follow onCommitLocation; the
    result is the list of actions called. *)
Fixpoint walk_commit (fuel : nat) (mem : list item) (l : loc) : list Z :=
  match fuel with
  | O => []
  | S f =>
      match l with
      | None => []
      | Some x => match get_item mem x with
                  | IAct a _ o => a :: walk_commit f mem o
                  | _ => []
                  end
      end
  end.

(** walk_undo_stack (1417-1497) with abortTrx = true.  [to = None] is the NULL
    toLocation (whole transaction); [Some t] adds a branch item
    (o_add_branch_undo_item 1290-1314) at the new end of the log. *)
Definition walk_stack_abort (s : ust) (to : option loc) : ust :=
  let t := match to with Some t => t | None => None end in
  let '(l, db, onc) := walk_abort (length (u_mem s)) (u_mem s) (u_loc s) t (u_db s) (u_onc s) in
  match to with
  | Some _ =>
      let b := Some (length (u_mem s)) in
      mkUst (u_mem s ++ [IBranch (u_loc s) (u_branch s) l]) b b (u_sub s) onc
            (u_min s) (u_ret s) db (u_stk s) (u_nextid s) (u_done s) (u_fatal s)
  | None =>
      mkUst (u_mem s) l (u_branch s) (u_sub s) onc
            (u_min s) (u_ret s) db (u_stk s) (u_nextid s) (u_done s) (u_fatal s)
  end.

(** search_for_undo_sub_location (2846-2906) with kind = UndoStackFull:
    None = FATAL, else (toLoc, toSubLoc). *)
Definition search_sub (mem : list item) (l : loc) (parent : Z) : option (loc * loc) :=
  match l with
  | None => None
  | Some x => match get_item mem x with
              | ISub p ps _ => if p =? parent then Some (l, ps) else None
              | _ => None
              end
  end.

Definition set_fatal (s : ust) : ust :=
  mkUst (u_mem s) (u_loc s) (u_branch s) (u_sub s) (u_onc s) (u_min s) (u_ret s) (u_db s)
        (u_stk s) (u_nextid s) (u_done s) true.
Definition set_sub (s : ust) (l : loc) : ust :=
  mkUst (u_mem s) (u_loc s) (u_branch s) l (u_onc s) (u_min s) (u_ret s) (u_db s)
        (u_stk s) (u_nextid s) (u_done s) (u_fatal s).
Definition set_stk (s : ust) (stk : list Z) (n : Z) : ust :=
  mkUst (u_mem s) (u_loc s) (u_branch s) (u_sub s) (u_onc s) (u_min s) (u_ret s) (u_db s)
        stk n (u_done s) (u_fatal s).

(** rollback_to_savepoint (2922-2958). *)
Definition rollback_to (s : ust) (parent : option Z) : ust :=
  match parent with
  | Some p =>
      match search_sub (u_mem s) (u_sub s) p with
      | None => set_fatal s
      | Some (tl, tsub) => set_sub (walk_stack_abort s (Some tl)) tsub
      end
  | None => set_sub (walk_stack_abort s (Some None)) None
  end.

(** add_subxact_undo_item (2813-2843) and 3019-3020. *)
Definition start_sub_undo (s : ust) (parent : Z) : ust :=
  if u_ret s then
    let x := Some (length (u_mem s)) in
    mkUst (u_mem s ++ [ISub parent (u_sub s) (u_loc s)]) x (u_branch s) x (u_onc s)
          (match u_min s with None => Some parent | m => m end)
          (u_ret s) (u_db s) (u_stk s) (u_nextid s) (u_done s) (u_fatal s)
  else s.

(** 3025-3028 with update_subxact_undo_location_on_commit (2961-2985). *)
Definition commit_sub_undo (s : ust) (parent : Z) : ust :=
  match u_min s with
  | Some m =>
      if m <=? parent then
        match search_sub (u_mem s) (u_sub s) parent with
        | None => set_fatal s
        | Some (_, tsub) => set_sub s tsub
        end
      else s
  | None => s
  end.

(** 3030-3056. *)
Definition abort_sub_undo (s : ust) (parent : Z) : ust :=
  let p := match u_min s with
           | Some m => if parent <? m then None else Some parent
           | None => None
           end in
  if u_ret s then rollback_to s p else s.

(** What the session does.  PostgreSQL turns SAVEPOINT into UStart, RELEASE s into
    UCommitSub for every level down to s, ROLLBACK TO s into UAbortSub for every
    level down to s followed by UStart; exception blocks of procedural languages
    use the same events. *)
Inductive uop :=
| UWrite (k v : Z)     (* change a row: get_undo_record + add_new_undo_stack_item 2249-2268 *)
| UAct (a : Z)         (* an item with a commit callback *)
| UOther               (* another backend's record in the same log *)
| URetain              (* first change in a different undo log *)
| UStart | UCommitSub | UAbortSub
| UCommit | UAbort.

Definition cur_id (stk : list Z) : Z := match stk with [] => 1 | x :: _ => x end.

Definition ustep (s : ust) (o : uop) : ust :=
  match u_done s with
  | Some _ => s
  | None =>
  if u_fatal s then s else
  match o with
  | UWrite k v =>
      let x := Some (length (u_mem s)) in
      mkUst (u_mem s ++ [IRow k (u_db s k) (u_loc s)]) x (u_branch s) (u_sub s) (u_onc s)
            (u_min s) true (upd (u_db s) k v) (u_stk s) (u_nextid s) None false
  | UAct a =>
      let x := Some (length (u_mem s)) in
      mkUst (u_mem s ++ [IAct a (u_loc s) (u_onc s)]) x (u_branch s) (u_sub s) x
            (u_min s) true (u_db s) (u_stk s) (u_nextid s) None false
  | UOther =>
      mkUst (u_mem s ++ [IOther]) (u_loc s) (u_branch s) (u_sub s) (u_onc s)
            (u_min s) (u_ret s) (u_db s) (u_stk s) (u_nextid s) None false
  | URetain =>
      mkUst (u_mem s) (u_loc s) (u_branch s) (u_sub s) (u_onc s)
            (u_min s) true (u_db s) (u_stk s) (u_nextid s) None false
  | UStart =>
      set_stk (start_sub_undo s (cur_id (u_stk s))) (u_nextid s :: u_stk s) (u_nextid s + 1)
  | UCommitSub =>
      match u_stk s with
      | [] => s
      | _ :: rest => set_stk (commit_sub_undo s (cur_id rest)) rest (u_nextid s)
      end
  | UAbortSub =>
      match u_stk s with
      | [] => s
      | _ :: rest => set_stk (abort_sub_undo s (cur_id rest)) rest (u_nextid s)
      end
  | UCommit =>                       (* on_commit_undo_stack, only at top level *)
      match u_stk s with
      | [] => let acts := walk_commit (length (u_mem s)) (u_mem s) (u_onc s) in
              mkUst (u_mem s) None None None None None false (u_db s) [] (u_nextid s) (Some acts) false
      | _ => s
      end
  | UAbort =>                        (* apply_undo_stack, undo.c:2752-2753; PostgreSQL aborts
                                        the whole stack of subtransactions at once *)
      let s1 := walk_stack_abort s None in
      mkUst (u_mem s1) None None None None None false (u_db s1) [] (u_nextid s) (Some []) false
  end
  end.
