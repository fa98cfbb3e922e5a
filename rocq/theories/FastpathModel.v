(* Model of the accelerated search for fixed-width keys: src/btree/fastpath.c.

   Keys are those of KeyModel.v.  The memory of a chunk with fixed-width keys
   is the sequence of its keys (the layout checks of fastpath.c:534-549 and
   397-401 are the flags below).  A float column stores its values in the order
   of the integers, with the constant NaN above all others, as in PostgreSQL's
   order of floats.  Concurrent changes of the page, which make the code retry,
   are left out. *)
From Coq Require Import ZArith List Bool.
From Verif Require Import Base KeySpec KeyModel PageSearchModel.
Import ListNotations.
Open Scope Z_scope.

Definition NaN : Z := 2 ^ 80.

(* The operators ==, > and < of C on a column; on floats any comparison with a
   NaN is false. *)
Definition c_num (float : bool) (a b : Z) : bool := negb (float && ((a =? NaN) || (b =? NaN))).
Definition c_eq (float : bool) (a b : Z) : bool := c_num float a b && (a =? b).
Definition c_gt (float : bool) (a b : Z) : bool := c_num float a b && (a >? b).
Definition c_lt (float : bool) (a b : Z) : bool := c_num float a b && (a <? b).

(* int4_array_search and its siblings (oid, int8, float4, float8, tid),
   fastpath.c:585-800; they differ only in the comparison. *)
Fixpoint array_search_loop (n : nat) (float asc : bool) (key : Z) (col : Z -> Z) (i lower upper : Z) (lowerSet : bool) : Z * Z :=
  match n with
  | O => (if lowerSet then lower else upper, upper)
  | S n' =>
    let v := col i in
    if c_eq float v key && negb lowerSet then array_search_loop n' float asc key col (i + 1) i upper true
    else if (if asc then c_gt float v key else c_lt float v key) then (if lowerSet then lower else i, i)
    else array_search_loop n' float asc key col (i + 1) lower upper lowerSet
  end.
Definition array_search (float asc : bool) (key : Z) (col : Z -> Z) (lower upper : Z) : Z * Z :=
  array_search_loop (Z.to_nat (upper - lower)) float asc key col lower lower upper false.

(* One column of FastpathFindDownlinkMeta, include/btree/fastpath.h:44-56. *)
Inductive mflag := MValue | MFirst | MLast.
Record mcol := mkM { m_flag : mflag; m_value : Z; m_asc : bool; m_float : bool }.
Record meta := mkMeta { inclusive : bool; cols : list mcol }.

(* The narrowing loop, fastpath.c:406-418 and 554-566; row i lists the columns
   of the i-th key that are still to be looked at. *)
Fixpoint narrow (ms : list mcol) (row : Z -> list Z) (lower upper : Z) : Z * Z :=
  match ms with
  | [] => (lower, upper)
  | m :: ms' =>
    if lower <? upper then
      let '(lower', upper') :=
        match m_flag m with
        | MValue => array_search (m_float m) (m_asc m) (m_value m) (fun i => hd 0 (row i)) lower upper
        | MFirst => (lower, lower)
        | MLast => (upper, upper)
        end in
      narrow ms' (fun i => tl (row i)) lower' upper'
    else (lower, upper)
  end.

(* The fixed-width image of a key (it has no NULLs). *)
Definition raw (v : val) : Z := match v with Some z => z | None => 0 end.
Definition row_of (k : list val) : list Z := map raw k.

(* An index: its columns, which of them are floats, their types, the number of
   unique columns. *)
Record index := mkIdx { fields : list fld; floats : list bool; types : list Z; nUniqueFields : nat; isPrimary : bool }.

(* Search keys. *)
Inductive skey :=
| KNone | KRightmost
| KTuple (hikey : bool) (t : list val)     (* BTreeKeyLeafTuple, BTreeKeyNonLeafKey, BTreeKeyPageHiKey *)
| KB (k : bkind) (b : list vbound).

(* One column of find_downlink_get_keys for a bound, fastpath.c:226-273. *)
Definition bound_col (f : fld) (float : bool) (k : vbound) : mcol :=
  if b_unb k then mkM (if Bool.eqb (b_lower k) (asc f) then MFirst else MLast) 0 (asc f) float
  else if b_null k then mkM (if nullfirst f then MFirst else MLast) 0 (asc f) float
  else mkM MValue (b_value k) (asc f) float.

Fixpoint bound_cols (n : nat) (fs : list fld) (fl : list bool) (ty : list Z) (b : list vbound) : option (list mcol) :=
  match n, fs, fl, ty, b with
  | O, _, _, _, _ => Some []
  | S n', f :: fs', x :: fl', t :: ty', k :: b' =>
      if b_type k =? t then
        match bound_cols n' fs' fl' ty' b' with
        | Some r => Some (bound_col f x k :: r)
        | None => None
        end
      else None
  | _, _, _, _, _ => Some []
  end.

(* find_downlink_get_keys for a tuple, fastpath.c:305-343. *)
Definition tuple_col (f : fld) (float : bool) (v : val) : mcol :=
  match v with
  | None => mkM (if nullfirst f then MFirst else MLast) 0 (asc f) float
  | Some z => mkM MValue z (asc f) float
  end.
Fixpoint tuple_cols (n : nat) (fs : list fld) (fl : list bool) (t : list val) : list mcol :=
  match n, fs, fl, t with
  | S n', f :: fs', x :: fl', v :: t' => tuple_col f x v :: tuple_cols n' fs' fl' t'
  | _, _, _, _ => []
  end.

(* find_downlink_get_keys, fastpath.c:188-344 (a bound has as many columns as
   the key: the Assert at tree.c:920-921). *)
Definition find_downlink_get_keys (ix : index) (k : skey) : option meta :=
  let n := nUniqueFields ix in
  match k with
  | KNone => Some (mkMeta false (repeat (mkM MFirst 0 true false) n))
  | KRightmost => Some (mkMeta false (repeat (mkM MLast 0 true false) n))
  | KTuple h t => Some (mkMeta h (tuple_cols n (fields ix) (floats ix) t))
  | KB _ b => match bound_cols n (fields ix) (floats ix) (types ix) b with
              | Some c => Some (mkMeta false c)
              | None => None
              end
  end.

(* Flags of a page that decide whether the fast path applies. *)
Record pflags := mkFl { rightmost : bool; hikeysFixed : bool; chunkKeysFixed : Z -> bool }.

(* fastpath_find_chunk, fastpath.c:517-583; None is Slowpath. *)
Definition fastpath_find_chunk (p : page (list val)) (fl : pflags) (m : meta) : option Z :=
  if hikeysFixed fl then
    let count := if rightmost fl then chunksCount p - 1 else chunksCount p in
    let '(lower, upper) := narrow (cols m) (fun i => row_of (hikey p i)) 0 count in
    let idx := if inclusive m then lower else upper in
    if idx >=? count then None else Some idx
  else None.

Definition chunk_items (p : page (list val)) (c : Z) : Z :=
  if c <? chunksCount p - 1 then offset p (c + 1) - offset p c else itemsCount p - offset p c.

(* fastpath_find_downlink, fastpath.c:346-515: the locator (chunk and item
   offset) and the position of the item whose header is returned. *)
Definition fastpath_find_downlink (p : page (list val)) (fl : pflags) (m : meta) : option (Z * Z * Z) :=
  match fastpath_find_chunk p fl m with
  | None => None
  | Some c =>
    if negb (chunkKeysFixed fl c) then None else
    let items := chunk_items p c in
    let first := if c =? 0 then 1 else 0 in      (* keys stored before base *)
    let count := items - first in
    let '(lower, upper) := narrow (cols m) (fun i => row_of (item p (offset p c + first + i))) 0 count in
    let idx := if inclusive m then lower else upper in
    if c =? 0 then
      Some (0, idx, if idx =? 0 then offset p 0 else offset p 0 + 1 + (idx - 1))
    else if idx >? 0 then
      Some (c, idx - 1, offset p c + (idx - 1))
    else
      let c' := c - 1 in
      if negb (chunkKeysFixed fl c') then None else
      let items' := chunk_items p c' in
      let first' := if c' =? 0 then 1 else 0 in
      let count' := items' - first' in
      Some (c', items' - 1,
            if (c' =? 0) && (items' - 1 =? 0) then offset p c'
            else offset p c' + first' + (count' - 1))
  end.

(* The comparison the general search uses for the same key. *)
Definition general_cmp (ix : index) (k : skey) : list val -> Z :=
  match k with
  | KTuple _ t => o_idx_cmp_tuples (if isPrimary ix then firstn (nUniqueFields ix) (fields ix) else fields ix) t
  | KB kd b => o_idx_cmp_key_bound_to_tuple (fields ix) (nUniqueFields ix) (isPrimary ix) kd b
  | _ => fun _ => 0
  end.
Definition general_kind (k : skey) : kind := match k with KTuple true _ => KHiKey | _ => KPlain end.
Definition general_search (ix : index) (k : skey) : search (list val) :=
  match k with
  | KNone => SLeftmost
  | KRightmost => SRightmost
  | _ => SKey (general_cmp ix k) (general_kind k)
  end.
