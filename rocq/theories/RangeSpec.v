(* Conditions of an index scan, in terms of SQL: which keys satisfy them. *)
From Coq Require Import ZArith List Bool.
From Verif Require Import Base KeySpec.
Import ListNotations.
Open Scope Z_scope.

Inductive sqlop := OLt | OLe | OEq | OGe | OGt.
Definition holds (op : sqlop) (x v : Z) : Prop :=
  match op with OLt => x < v | OLe => x <= v | OEq => x = v | OGe => x >= v | OGt => x > v end.

(* Columns are numbered from 0. *)
Inductive cond :=
| CCmp (col : nat) (op : sqlop) (v : Z)
| CNull (col : nat)
| CNotNull (col : nat)
| CIn (col : nat) (vs : list Z)
| CRow (gt incl : bool) (subs : list (nat * Z)).   (* (c1, c2, ...) > (v1, v2, ...), or >=, <, <= *)

Definition column (t : list val) (c : nat) : val := nth c t None.

Fixpoint row_holds (gt incl : bool) (subs : list (nat * Z)) (t : list val) : Prop :=
  match subs with
  | [] => incl = true
  | (c, v) :: rest =>
      exists x, column t c = Some x /\ ((if gt then x > v else x < v) \/ (x = v /\ row_holds gt incl rest t))
  end.

(* NULL satisfies no comparison. *)
Definition satisfies (t : list val) (c : cond) : Prop :=
  match c with
  | CCmp col op v => exists x, column t col = Some x /\ holds op x v
  | CNull col => column t col = None
  | CNotNull col => column t col <> None
  | CIn col vs => exists x, column t col = Some x /\ In x vs
  | CRow gt incl subs => row_holds gt incl subs t
  end.

(* A scan goes through the elements of the leading lists one at a time: pin
   replaces the i-th condition, i < p, if it is a list, by equality with its
   current element. *)
Fixpoint pin_from (i p : nat) (cur : nat -> nat) (cs : list cond) : list cond :=
  match cs with
  | [] => []
  | c :: cs' =>
      match c with
      | CIn col vs => if Nat.ltb i p then CCmp col OEq (nth (cur col) vs 0) else c
      | _ => c
      end :: pin_from (Datatypes.S i) p cur cs'
  end.
Definition pin := pin_from 0.

(* The column a condition is about (for a row comparison the first). *)
Definition cond_col (c : cond) : nat :=
  match c with
  | CCmp a _ _ | CNull a | CNotNull a | CIn a _ => a
  | CRow _ _ subs => match subs with [] => 0%nat | (a, _) :: _ => a end
  end.
Definition is_row (c : cond) : bool := match c with CRow _ _ _ => true | _ => false end.

(* Conditions as PostgreSQL hands them over: they are about existing columns; a
   column with an equality or a list has no other condition (apart from row
   comparisons); lists are not empty and sorted in the order of the column; row
   comparisons have columns. *)
Definition pins (c : cond) : bool := match c with CCmp _ OEq _ => true | CIn _ _ => true | _ => false end.
Definition sorted_for (f : fld) (vs : list Z) : Prop :=
  vs <> [] /\ forall i j, (i < j < length vs)%nat -> if asc f then nth i vs 0 <= nth j vs 0 else nth i vs 0 >= nth j vs 0.
Record well_formed (fs : list fld) (cs : list cond) : Prop := {
  w_alone : ForallOrdPairs (fun c d => pins c = true \/ pins d = true -> is_row c = false -> is_row d = false -> cond_col c <> cond_col d) cs;
  w_cols : forall c, In c cs -> is_row c = false -> (cond_col c < length fs)%nat;
  w_lists : forall a vs, In (CIn a vs) cs -> sorted_for (nth a fs (mkF true false)) vs;
  w_rows : forall gt incl subs, In (CRow gt incl subs) cs -> subs <> [] }.

(* The columns of a row comparison are all ascending or all descending. *)
Definition same_direction (fs : list fld) (c : cond) : Prop :=
  match c with
  | CRow _ _ subs => forall a v, In (a, v) subs -> asc (nth a fs (mkF true false)) = asc (nth (cond_col c) fs (mkF true false))
  | _ => True
  end.
