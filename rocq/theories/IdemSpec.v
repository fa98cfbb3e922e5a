(** What a log means when every record in it takes effect exactly once: a transaction's
    writes appear, all at once, at its commit record. *)
From Coq Require Import ZArith List Bool.
From Verif Require Import Base.
Import ListNotations.
Open Scope Z_scope.

Definition oxid := Z.
Definition key := Z.

(** A log record: a row change ([None]: deletion) stamped with the row's version number
    within its transaction, a commit, an abort. *)
Inductive rec :=
| RMod (x : oxid) (k : key) (ver : Z) (v : option Z)
| RCommit (x : oxid)
| RAbort (x : oxid).

Record meaning := mkMeaning {
  m_db : key -> option Z;
  m_pend : oxid -> key -> option (option Z)
}.

Definition once_step (m : meaning) (r : rec) : meaning :=
  match r with
  | RMod x k _ v => mkMeaning (m_db m) (upd (m_pend m) x (upd (m_pend m x) k (Some v)))
  | RCommit x =>
      mkMeaning (fun k => match m_pend m x k with Some v => v | None => m_db m k end)
                (upd (m_pend m) x (fun _ => None))
  | RAbort x => mkMeaning (m_db m) (upd (m_pend m) x (fun _ => None))
  end.

Definition once (l : list rec) (k : key) : option Z :=
  m_db (fold_left once_step l (mkMeaning (fun _ => None) (fun _ _ => None))) k.

Definition has_commit (l : list rec) (x : oxid) : bool :=
  existsb (fun r => match r with RCommit y => y =? x | _ => false end) l.

(** The versions of a row that committed transactions made, newest first, each once. *)
Definition history (l : list rec) (k : key) : list (oxid * option Z) :=
  rev (flat_map (fun r => match r with
                          | RMod x k' _ v => if (k' =? k) && has_commit l x then [(x, v)] else []
                          | _ => []
                          end) l).
