(** What a crash is allowed to leave behind (property C34), in terms of what the
    clients did.  Independent of logs, undo records and recovery.

    A transaction has a stack of open savepoints; each open level collects the
    writes made inside it.  A write sets a row to a value, or removes it (None). *)
From Coq Require Import ZArith List Bool.
From Verif Require Import Base.
Import ListNotations.
Open Scope Z_scope.

Definition oxid := Z.
Definition key := Z.
Definition write := (key * option Z)%type.

Inductive cev :=
| CWrite (x : oxid) (k : key) (v : option Z)
| CSave (x : oxid)            (* SAVEPOINT *)
| CRelease (x : oxid)         (* RELEASE of the innermost savepoint *)
| CBack (x : oxid)            (* ROLLBACK of the innermost savepoint *)
| CCommit (x : oxid)
| CAbort (x : oxid).

Record cst := mkCst {
  c_fr : oxid -> list (list write);    (* levels, innermost first; writes newest first *)
  c_done : list (oxid * list write)    (* committed transactions, oldest first *)
}.

Definition cinit : cst := mkCst (fun _ => [[]]) [].

Definition cstep (c : cst) (e : cev) : cst :=
  match e with
  | CWrite x k v =>
      match c_fr c x with
      | f :: r => mkCst (upd (c_fr c) x (((k, v) :: f) :: r)) (c_done c)
      | [] => c
      end
  | CSave x => mkCst (upd (c_fr c) x ([] :: c_fr c x)) (c_done c)
  | CRelease x =>
      match c_fr c x with
      | f :: g :: r => mkCst (upd (c_fr c) x ((f ++ g) :: r)) (c_done c)
      | _ => c
      end
  | CBack x =>
      match c_fr c x with
      | f :: g :: r => mkCst (upd (c_fr c) x (g :: r)) (c_done c)
      | _ => c
      end
  | CCommit x => mkCst (upd (c_fr c) x [[]]) (c_done c ++ [(x, concat (c_fr c x))])
  | CAbort x => mkCst (upd (c_fr c) x [[]]) (c_done c)
  end.

Definition crun (h : list cev) : cst := fold_left cstep h cinit.

(** The newest write of a transaction to a row. *)
Fixpoint last_write (ws : list write) (k : key) : option (option Z) :=
  match ws with
  | [] => None
  | (k', v) :: r => if k' =? k then Some v else last_write r k
  end.

Definition apply_writes (ws : list write) (db : key -> option Z) : key -> option Z :=
  fun k => match last_write ws k with Some v => v | None => db k end.

(** Running the transactions selected by [D] one after the other, whole, in
    commit order. *)
Definition serial (D : oxid -> bool) (done : list (oxid * list write)) (db0 : key -> option Z)
  : key -> option Z :=
  fold_left (fun db t => if D (fst t) then apply_writes (snd t) db else db) done db0.
