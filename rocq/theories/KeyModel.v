(* Model of the comparison of index keys: src/tableam/tree.c.

   Simplifications: the values of a column are integers in the order of the
   column's comparator (no cross-type comparators, no exclusion operators);
   included columns, which the comparisons skip (OIgnoreColumn,
   include/tableam/descr.h:265), are left out of the keys. *)
From Coq Require Import ZArith List Bool.
From Verif Require Import Base KeySpec.
Import ListNotations.
Open Scope Z_scope.

(* OBTreeValueBound (include/tableam/key_range.h:37-50): value and the flags
   NULL, UNBOUNDED, LOWER, UPPER, INCLUSIVE, and the type of the value. *)
Record vbound := mkB {
  b_value : Z; b_type : Z;
  b_null : bool; b_unb : bool; b_lower : bool; b_upper : bool; b_incl : bool }.

(* Kinds of search key, include/btree/btree.h:48-124. *)
Inductive bkind := KBound | KUniqueLower | KUniqueUpper.

(* A comparator: negative, zero or positive; src/utils/... o_call_comparator. *)
Definition o_call_comparator (a b : Z) : Z :=
  match a ?= b with Lt => -1 | Eq => 0 | Gt => 1 end.

(* cmp_inclusive, src/tableam/tree.c:572-581. *)
Definition cmp_inclusive (b : vbound) : Z :=
  if b_lower b then (if b_incl b then -1 else 1)
  else if b_upper b then (if b_incl b then 1 else -1)
  else 0.

(* cmp_inclusive2, src/tableam/tree.c:583-590. *)
Definition cmp_inclusive2 (b1 b2 : vbound) : Z := cmp_inclusive b1 - cmp_inclusive b2.

(* o_idx_cmp_range_key_to_value, src/tableam/tree.c:592-635. *)
Definition o_idx_cmp_range_key_to_value (b : vbound) (f : fld) (v : val) : Z :=
  match b_null b, v with
  | false, Some x =>
      let c := o_call_comparator (b_value b) x in
      let c := if asc f then c else - c in
      if (c =? 0) && negb (b_incl b) then cmp_inclusive b else c
  | true, None => if b_incl b then 0 else cmp_inclusive b
  | false, None => if nullfirst f then 1 else -1
  | true, Some _ => if nullfirst f then -1 else 1
  end.

(* One column of o_idx_cmp_tuples, src/tableam/tree.c:694-709. *)
Definition cmp_field (f : fld) (v1 v2 : val) : Z :=
  match v1, v2 with
  | Some x, Some y => let c := o_call_comparator x y in if asc f then c else - c
  | None, None => 0
  | None, Some _ => if nullfirst f then -1 else 1
  | Some _, None => if nullfirst f then 1 else -1
  end.

(* o_idx_cmp_tuples, src/tableam/tree.c:637-716. *)
Fixpoint o_idx_cmp_tuples (fs : list fld) (t1 t2 : list val) : Z :=
  match fs, t1, t2 with
  | f :: fs', v1 :: t1', v2 :: t2' =>
      let c := cmp_field f v1 v2 in
      if c =? 0 then o_idx_cmp_tuples fs' t1' t2' else c
  | _, _, _ => 0
  end.

(* The loop of o_idx_cmp_key_bound_to_tuple, src/tableam/tree.c:752-774. *)
Fixpoint cmp_bound_loop (fs : list fld) (b : list vbound) (t : list val) : Z :=
  match fs, b, t with
  | f :: fs', k :: b', v :: t' =>
      if b_unb k then (if b_lower k then -1 else 1)
      else let c := o_idx_cmp_range_key_to_value k f v in
           if c =? 0 then cmp_bound_loop fs' b' t' else c
  | _, _, _ => 0
  end.

(* o_idx_cmp_key_bound_to_tuple, src/tableam/tree.c:718-781.  nuniq is
   id->nUniqueFields; a BTreeKeyBound on a secondary index compares all
   columns of the key, the other kinds and a primary index the unique ones. *)
Definition o_idx_cmp_key_bound_to_tuple
    (fs : list fld) (nuniq : nat) (primary : bool) (k : bkind) (b : list vbound) (t : list val) : Z :=
  let n := match k with
           | KBound => if primary then nuniq else length fs
           | _ => nuniq
           end in
  let c := cmp_bound_loop (firstn n fs) b t in
  if c =? 0 then
    match k with KUniqueLower => -1 | KUniqueUpper => 1 | KBound => 0 end
  else c.

(* o_idx_cmp_value_bounds, src/tableam/tree.c:783-878: result and *equal. *)
Definition o_idx_cmp_value_bounds (b1 b2 : vbound) (f : fld) : Z * bool :=
  if negb (b_null b1 || b_unb b1) && negb (b_null b2 || b_unb b2) then
    let r := o_call_comparator (b_value b1) (b_value b2) in
    let r := if asc f then r else - r in
    if r =? 0 then (cmp_inclusive2 b1 b2, b_incl b1 && b_incl b2) else (r, false)
  else if b_unb b1 || b_unb b2 then
    if b_unb b1 && b_unb b2 then
      if Bool.eqb (b_lower b1) (b_lower b2) && Bool.eqb (b_upper b1) (b_upper b2) then (0, false)
      else (if b_lower b1 then -1 else 1, false)
    else if b_unb b1 then (if b_lower b1 then -1 else 1, false)
    else (if b_lower b2 then 1 else -1, false)
  else
    if b_null b1 && b_null b2 then (cmp_inclusive2 b1 b2, false)
    else if b_null b1 then (if nullfirst f then -1 else 1, false)
    else (if nullfirst f then 1 else -1, false).
