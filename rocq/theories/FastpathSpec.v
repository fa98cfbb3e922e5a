(* When the accelerated search may be used, in terms of the page and the key. *)
From Coq Require Import ZArith List Bool.
From Verif Require Import Base KeySpec KeyModel PageSearchModel PageSearchSpec FastpathModel FastpathProofs KeyProofs.
Import ListNotations.
Open Scope Z_scope.

(* The index: as many flags as columns; a primary index is unique on all. *)
Definition index_ok (ix : index) : Prop :=
  length (types ix) = length (fields ix) /\ length (floats ix) = length (fields ix) /\
  (nUniqueFields ix <= length (fields ix))%nat /\
  (isPrimary ix = true -> nUniqueFields ix = length (fields ix)).

(* The page says the truth about which of its keys are fixed-width (without
   NULLs); none of these keys is a NaN; its chunk high keys are in order up to
   the high key of the page; no chunk is empty. *)
Record page_ok (ix : index) (p : page (list val)) (fl : pflags) : Prop := {
  po_layout : layout p;
  po_sorted : sorted (klt (fields ix)) p;
  po_hikeys : forall c d, 0 <= c -> c < d -> d < (if rightmost fl then chunksCount p - 1 else chunksCount p) ->
     hikey p c = hikey p d \/ klt (fields ix) (hikey p c) (hikey p d);
  po_hk_fixed : hikeysFixed fl = true -> forall c, 0 <= c < (if rightmost fl then chunksCount p - 1 else chunksCount p) ->
     fixedkey (fields ix) (floats ix) (hikey p c);
  po_chunk_fixed : forall c, 0 <= c < chunksCount p -> chunkKeysFixed fl c = true ->
     forall i, (if leaf p then 0 else 1) <= i -> offset p c <= i -> i < offset p c + chunk_items p c ->
     fixedkey (fields ix) (floats ix) (item p i);
  po_dense : forall c, 0 <= c < chunksCount p -> 0 < chunk_items p c }.

(* No value of the search key is a NaN. *)
Definition key_not_nan (ix : index) (k : skey) : Prop :=
  match find_downlink_get_keys ix k with Some m => Forall mnn (cols m) | None => True end.

(* The search keys for which the accelerated search looks at all it should:
   - leftmost and rightmost;
   - tuples, when all columns of the index are unique columns (not so for a
     secondary unique index, whose keys end with the primary key);
   - bounds accepted by safe (FastpathProofs.v): values to be included,
     optionally an excluded last value of a lower bound, unbounded ascending
     columns; where the bound goes on after the unique columns it must be
     an upper bound that is unbounded there. *)
Definition covered (ix : index) (k : skey) : Prop :=
  match k with
  | KNone | KRightmost => True
  | KTuple _ t => length t = length (fields ix) /\ nUniqueFields ix = length (fields ix)
  | KB kd b => length b = length (fields ix) /\ Forall (fun c => b_lower c = negb (b_upper c)) b /\
               safe (nUniqueFields ix) (fields ix) kd b = true
  end.
