(** What the transaction-status map promises (properties C07, C09 and the
    status part of C11). *)
From Coq Require Import ZArith List Bool.
From Verif Require Import Base XidMapModel.
Import ListNotations.
Open Scope Z_scope.

(** The status most recently recorded for [x] in a log (newest first). *)
Fixpoint status (x : Z) (l : list ev) : csn :=
  match l with
  | [] => Frozen
  | Rec y v :: l' => if y =? x then v else status x l'
  | _ :: l' => status x l'
  end.

(** Lookup [r] of [x], started by the last [Beg r x] of the log, may return
    [v]: at some moment since then [v] was the recorded status of [x]. *)
Definition current_during (l : list ev) (r x : Z) (v : csn) : Prop :=
  exists after during before,
    l = after ++ during ++ Beg r x :: before /\
    (forall y, ~ In (Beg r y) (after ++ during)) /\
    status x (during ++ Beg r x :: before) = v.

(** The number a context has taken, if any. *)
Definition number (c : pc) : option Z :=
  match c with
  | PIdle => None
  | PStart x | PStart2 x | PStart3 x | PStart4 x | PRun x | PSet1 x _ | PSet2 x _ _
  | PSet3 x _ _ | PSet4 x _ | PSetW x _ | PSetB x _ | PAdv x | PAdvCas x _ | PAdvMap x _ => Some x
  end.

(** [x] was taken and has no final status yet. *)
Definition running (s : st) (x : Z) : Prop :=
  0 <= x < nextXid s /\ final (status x (log s)) = false.
