(** What is claimed of the scan: how often the rows of a key are read. *)
From Coq Require Import ZArith List Bool.
From Verif Require Import Base ParScanModel.
Import ListNotations.
Open Scope Z_scope.

(** A key is in a range. *)
Definition inside (r : range) (k : Z) : bool :=
  match fst r with None => true | Some z => z <=? k end &&
  match snd r with None => true | Some z => k <? z end.

(** The number of times the rows of the key were read. *)
Fixpoint times (l : list range) (k : Z) : Z :=
  match l with
  | [] => 0
  | r :: t => (if inside r k then 1 else 0) + times t k
  end.

(** Every worker has finished. *)
Definition finished (s : state) : Prop := forall w, In w (s_ws s) -> w = Done.

(** No worker sorts the shared array while another has taken itself off
    the count of writers and has not added its downlink yet. *)
Definition quiet_step (s : state) (o : op) : Prop :=
  match o with
  | Sort w => worker s w = Waited -> s_sorted s = false ->
              forall a r, ~ In (Writing a r) (s_ws s)
  | _ => True
  end.
Fixpoint quiet (s : state) (ops : list op) : Prop :=
  match ops with
  | [] => True
  | o :: t => quiet_step s o /\ quiet (step s o) t
  end.

(** The leftmost internal page is loaded only once, as the first page. *)
Definition once_step (s : state) (o : op) : Prop :=
  match o with
  | Load w i =>
      forall b p, worker s w = Loading b -> get s b = Busy (Some p) -> im_lo i <> None
  | _ => True
  end.
Fixpoint leftmost_once (s : state) (ops : list op) : Prop :=
  match ops with
  | [] => True
  | o :: t => once_step s o /\ leftmost_once (step s o) t
  end.
