(** What SAVEPOINT / RELEASE / ROLLBACK TO are supposed to do (property C04):
    a stack of saved states.  Independent of undo logs. *)
From Coq Require Import ZArith List Bool.
From Verif Require Import Base SavepointModel.
Import ListNotations.
Open Scope Z_scope.

(** Visible state of a transaction: rows, and the actions to run at commit
    (newest first). *)
Definition vstate := ((Z -> Z) * list Z)%type.

Record sst := mkSst {
  s_cur : vstate;                 (* current rows and pending commit actions *)
  s_saved : list vstate;          (* saved at each open savepoint, innermost first *)
  s_done : option (vstate)        (* final rows and actions that ran *)
}.

Definition sinit (db : Z -> Z) : sst := mkSst (db, []) [] None.

Definition sstep (db0 : Z -> Z) (s : sst) (o : uop) : sst :=
  match s_done s with
  | Some _ => s
  | None =>
  match o with
  | UWrite k v => mkSst (upd (fst (s_cur s)) k v, snd (s_cur s)) (s_saved s) None
  | UAct a => mkSst (fst (s_cur s), a :: snd (s_cur s)) (s_saved s) None
  | UOther | URetain => s
  | UStart => mkSst (s_cur s) (s_cur s :: s_saved s) None
  | UCommitSub => match s_saved s with [] => s | _ :: r => mkSst (s_cur s) r None end
  | UAbortSub => match s_saved s with [] => s | v :: r => mkSst v r None end
  | UCommit => match s_saved s with [] => mkSst (s_cur s) [] (Some (s_cur s)) | _ => s end
  | UAbort => mkSst (db0, []) [] (Some (db0, []))
  end
  end.

(** ** The class of programs for which the code is right

    Bookkeeping of a program alone (no undo log): open savepoint ids, whether the
    transaction has made a change yet, and the id of the (sub)transaction in which
    the first savepoint after the first change was opened. *)
Record pst := mkPst { p_stk : list Z; p_next : Z; p_wrote : bool; p_first : option Z }.
Definition pinit : pst := mkPst [] 2 false None.
Definition pstep (s : pst) (o : uop) : pst :=
  match o with
  | UWrite _ _ | UAct _ | URetain => mkPst (p_stk s) (p_next s) true (p_first s)
  | UStart => mkPst (p_next s :: p_stk s) (p_next s + 1) (p_wrote s)
                    (match p_first s with
                     | None => if p_wrote s then Some (cur_id (p_stk s)) else None
                     | f => f end)
  | UCommitSub | UAbortSub =>
      match p_stk s with [] => s | _ :: r => mkPst r (p_next s) (p_wrote s) (p_first s) end
  | _ => s
  end.

(** Rolling back the innermost savepoint is covered when it was opened at or
    inside the level of the first recorded savepoint, or when nothing was
    in effect when it was opened. *)
Definition abort_covered (db0 : Z -> Z) (p : pst) (s : sst) : Prop :=
  match p_stk p, s_saved s with
  | _ :: rest, v :: _ =>
      (exists f, p_first p = Some f /\ f <= cur_id rest) \/
      ((forall k, fst v k = db0 k) /\ snd v = [])
  | _, _ => True
  end.

Fixpoint covered (db0 : Z -> Z) (p : pst) (s : sst) (ops : list uop) : Prop :=
  match ops with
  | [] => True
  | o :: r => (o = UAbortSub -> s_done s = None -> abort_covered db0 p s) /\
              covered db0 (match s_done s with None => pstep p o | Some _ => p end) (sstep db0 s o) r
  end.
