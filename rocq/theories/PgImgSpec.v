(** Vocabulary for C26: what the database held when a snapshot was taken, told by
    the writes, commits and aborts alone.  Nothing here refers to pages or to
    undo records. *)
From Coq Require Import ZArith List Bool Lia.
From Verif Require Import Base PgImgModel.
Import ListNotations.
Open Scope Z_scope.

(** The committed rows, the running transaction that has written a row and the
    value it gave, the finished transactions, and the rows each snapshot saw. *)
Record truth := mkTruth {
  t_db : Z -> option Z;
  t_own : Z -> option Z;
  t_new : Z -> option Z;
  t_fin : Z -> bool;
  t_snap : Z -> option (Z -> option Z) }.

Definition mine (t : truth) (o k : Z) : bool :=
  match t_own t k with Some o' => o' =? o | None => false end.

Definition tstep (t : truth) (a : op) : truth :=
  match a with
  | Write o k v =>
      (* a row another running transaction has written is locked *)
      if t_fin t o then t
      else if match t_own t k with None => true | Some o' => o' =? o end
      then mkTruth (t_db t) (upd (t_own t) k (Some o)) (upd (t_new t) k v) (t_fin t) (t_snap t)
      else t
  | Commit o =>
      if t_fin t o then t
      else mkTruth (fun k => if mine t o k then t_new t k else t_db t k)
             (fun k => if mine t o k then None else t_own t k) (t_new t) (upd (t_fin t) o true) (t_snap t)
  | Abort o =>
      if t_fin t o then t
      else mkTruth (t_db t) (fun k => if mine t o k then None else t_own t k) (t_new t)
             (upd (t_fin t) o true) (t_snap t)
  | Snap i _ =>
      match t_snap t i with
      | None => mkTruth (t_db t) (t_own t) (t_new t) (t_fin t) (upd (t_snap t) i (Some (t_db t)))
      | Some _ => t
      end
  | Drop i => mkTruth (t_db t) (t_own t) (t_new t) (t_fin t) (upd (t_snap t) i None)
  | _ => t
  end.

Definition empty : truth :=
  mkTruth (fun _ => None) (fun _ => None) (fun _ => None) (fun _ => false) (fun _ => None).

(** The rows the snapshot [i], in use after [ops], saw when it was taken. *)
Definition rows_of (ops : list op) (i : Z) : option (Z -> option Z) := t_snap (run tstep empty ops) i.

(** No merge during which the oldest running transaction changes. *)
Definition calm (ops : list op) : Prop :=
  forall p q r x1 x2 sq, In (Merge p q r x1 x2 sq) ops -> x1 = x2.
