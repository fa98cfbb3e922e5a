(** What the users of a cached file part rely on. *)
From Coq Require Import ZArith List Bool.
From Verif Require Import Base S3PartModel.
Import ListNotations.
Open Scope Z_scope.

(* The processes that have the part locked. *)
Definition holds (x : pos) : bool := match x with Held _ | UnlV _ _ => true | _ => false end.
(* An upload of the part is running: its task is marked as begun and not yet as
   ended. *)
Definition uploading (x : pos) : bool :=
  match x with WTr | WTu _ | WTd0 | WTd _ | WTf0 | WTf _ => true | _ => false end.
Definition number (f : pos -> bool) (ps : list Z) (s : st) : Z :=
  Z.of_nat (length (filter (fun p => f (at_ s p)) ps)).

(* Every process that takes part. *)
Definition only (ps : list Z) (o : op) : Prop :=
  match o with Lock p | Write p _ | Unlock p | Load p | PickRead p | Schedule p | PickWrite p | Evict p | Go p | Fail p => In p ps end.

(* A download is repeated after the part was marked loaded. *)
Definition repeats_load (s : st) (o : op) : Prop :=
  match o with Fail p => at_ s p = RTdone | _ => False end.
(* An upload is repeated after it was marked as ended, or a second one is
   scheduled while one is running. *)
Definition repeats_upload (ps : list Z) (s : st) (o : op) : Prop :=
  match o with
  | Fail p => at_ s p = WTdone
  | Go p => (exists v, at_ s p = SchedV v) /\ 0 < number uploading ps s /\ wq s < wq (step s o)
  | _ => False
  end.
Fixpoint never (bad : st -> op -> Prop) (s : st) (ops : list op) : Prop :=
  match ops with [] => True | o :: rest => ~ bad s o /\ never bad (step s o) rest end.
