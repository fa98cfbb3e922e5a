(** What a user is promised about row versions and row locks, in terms of the
    events of a history (what was written, granted, committed, rolled back),
    without chains, headers or undo. *)
From Coq Require Import ZArith List Bool.
From Verif Require Import Base RowModel.
Import ListNotations.
Open Scope Z_scope.

(** Uncommitted work of one transaction, newest first: writes with the command
    that made them, and savepoints. *)
Inductive pitem := PW (cid : Z) (v : option Z) | PM.
(** Row locks of one transaction, newest first, and savepoints. *)
Inductive hitem := HG (m : Z) | HM (l : Z).

Record spec := Sp {
  com : list (Z * option Z);      (* committed values with commit numbers, newest first *)
  pend : Z -> list pitem;
  hold : Z -> list hitem }.

Definition spec0 : spec := Sp [] (fun _ => []) (fun _ => []).

(** The part of a list below its newest savepoint. *)
Fixpoint pend_to_save (l : list pitem) : list pitem :=
  match l with [] => [] | PM :: r => r | PW _ _ :: r => pend_to_save r end.
Fixpoint hold_to_save (l : list hitem) : list hitem :=
  match l with [] => [] | HM _ :: r => r | HG _ :: r => hold_to_save r end.

Fixpoint last_write (l : list pitem) : option (option Z) :=
  match l with [] => None | PW _ v :: _ => Some v | PM :: r => last_write r end.

Definition spec_step (e : event) (s : spec) : spec :=
  match e with
  | EvWrite x cid v => Sp (com s) (upd (pend s) x (PW cid v :: pend s x)) (hold s)
  | EvGrant x m => Sp (com s) (pend s) (upd (hold s) x (HG m :: hold s x))
  | EvSave x l => Sp (com s) (upd (pend s) x (PM :: pend s x))
                     (upd (hold s) x (HM l :: hold s x))
  | EvRollTo x => Sp (com s) (upd (pend s) x (pend_to_save (pend s x)))
                     (upd (hold s) x (hold_to_save (hold s x)))
  | EvCommit x c => Sp (match last_write (pend s x) with
                        | Some v => (c, v) :: com s | None => com s end)
                       (upd (pend s) x []) (upd (hold s) x [])
  | EvAbort x => Sp (com s) (upd (pend s) x []) (upd (hold s) x [])
  end.

(** State after a history given newest event first. *)
Definition spec_of (h : list event) : spec := fold_right spec_step spec0 h.

Fixpoint own_version (cid : Z) (l : list pitem) : option (option Z) :=
  match l with
  | [] => None
  | PM :: r => own_version cid r
  | PW c v :: r => if c <? cid then Some v else own_version cid r
  end.

Fixpoint committed_before (csn : Z) (l : list (Z * option Z)) : option Z :=
  match l with
  | [] => None
  | (c, v) :: r => if c <? csn then v else committed_before csn r
  end.

(** The value transaction [x] must see under a snapshot taken at [csn] for its
    command [cid]: its own newest earlier write, or else the newest value
    committed before the snapshot; [None] when that is a deletion or when
    there is none. *)
Definition visible (s : spec) (x csn cid : Z) : option Z :=
  match own_version cid (pend s x) with
  | Some v => v
  | None => committed_before csn (com s)
  end.

(** Two lock modes (KeyShare 0, Share 1, NoKeyUpdate 2, Update 3) that two
    transactions may hold on one row at the same time: the PostgreSQL
    row-lock table. *)
Definition compatible (a b : Z) : Prop :=
  (a = 0 /\ b <= 2) \/ (b = 0 /\ a <= 2) \/ (a = 1 /\ b = 1).

Definition locks_ok (s : spec) : Prop :=
  forall x y m n, x <> y -> In (HG m) (hold s x) -> In (HG n) (hold s y) -> compatible m n.

(** Events of one transaction, and a history without them. *)
Definition owner (e : event) : Z :=
  match e with
  | EvWrite x _ _ | EvGrant x _ | EvSave x _ | EvRollTo x | EvCommit x _ | EvAbort x => x
  end.
Definition erase (x : Z) (h : list event) : list event :=
  filter (fun e => negb (owner e =? x)) h.

(** ** Conditions on chains *)

(** A lock mark of a committed transaction below some version, above a version
    that was not committed before the locker (finding F19): a reader takes it
    for a version. *)
Definition lock_shadow (T : Z -> txr) (l : list ent) : Prop :=
  exists a v b k d w r c,
    l = a ++ v :: b ++ k :: d ++ w :: r /\ elk v = false /\
    elk k = true /\ tst (T (ex k)) = Comm c /\
    Forall (fun e => elk e = true) d /\ elk w = false /\
    ~ (exists c', tst (T (ex w)) = Comm c' /\ c' <= c).

(** A lock of a transaction in progress. *)
Definition live_lock (T : Z -> txr) (e : ent) : Prop :=
  elk e = true /\ tst (T (ex e)) = InProg.

(** A header that denies having locks below it although a transaction in
    progress has one there (finding F20). *)
Definition flag_lost (T : Z -> txr) (l : list ent) : Prop :=
  exists a e b f, l = a ++ e :: b /\ ec e = false /\ In f b /\ live_lock T f.

(** A version of a finished transaction above a lock of a transaction in
    progress. *)
Definition buried_lock (T : Z -> txr) (l : list ent) : Prop :=
  exists a e b f, l = a ++ e :: b /\ elk e = false /\ tst (T (ex e)) <> InProg /\
                  In f b /\ live_lock T f.
