(* The order of index keys, as a user of the index sees it: columns are
   compared left to right, each ascending or descending, with NULLs before or
   after all values.  Nothing here refers to the model of the code. *)
From Coq Require Import ZArith List Bool.
From Verif Require Import Base.
Import ListNotations.
Open Scope Z_scope.

(* An index column: ascending or descending, NULLs first or last. *)
Record fld := mkF { asc : bool; nullfirst : bool }.

(* A column value; None is NULL. *)
Definition val := option Z.

(* Place of a value within its column: NULLs at one end, values in order. *)
Definition place (f : fld) (v : val) : Z * Z :=
  match v with
  | None => (if nullfirst f then -1 else 1, 0)
  | Some z => (0, if asc f then z else - z)
  end.

Definition plt (a b : Z * Z) : Prop := fst a < fst b \/ (fst a = fst b /\ snd a < snd b).

(* a sorts before b (keys of the same width as the index). *)
Fixpoint key_lt (fs : list fld) (a b : list val) : Prop :=
  match fs, a, b with
  | f :: fs', x :: a', y :: b' => plt (place f x) (place f y) \/ (place f x = place f y /\ key_lt fs' a' b')
  | _, _, _ => False
  end.

(* One column of a scan bound: nothing (unbounded) or a value to stay at or
   beyond (inclusive) or strictly beyond (exclusive). *)
Inductive cbound := CNone | CVal (incl : bool) (v : val).

(* Key t satisfies the lower bound b. *)
Fixpoint above (fs : list fld) (b : list cbound) (t : list val) : Prop :=
  match fs, b, t with
  | f :: fs', CNone :: _, _ => True
  | f :: fs', CVal incl v :: b', x :: t' =>
      plt (place f v) (place f x) \/ (place f v = place f x /\ incl = true /\ above fs' b' t')
  | _, _, _ => True
  end.

(* Key t satisfies the upper bound b. *)
Fixpoint below (fs : list fld) (b : list cbound) (t : list val) : Prop :=
  match fs, b, t with
  | f :: fs', CNone :: _, _ => True
  | f :: fs', CVal incl v :: b', x :: t' =>
      plt (place f x) (place f v) \/ (place f v = place f x /\ incl = true /\ below fs' b' t')
  | _, _, _ => True
  end.
