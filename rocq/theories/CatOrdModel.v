(** The comparison functions of the system catalogs and the scans over them,
    src/catalog/sys_trees.c, o_sys_cache.c, o_tables.c, o_indices.c.
    Oids, numbers and LSNs are unsigned and held in Z. *)
From Coq Require Import ZArith List Bool Lia.
From Coq Require Import ZifyBool.
From Verif Require Import Base.
Import ListNotations.
Open Scope Z_scope.

Definition U32 := 2 ^ 32.
(* A value assigned to a C [int] or [int32]. *)
Definition to_int (z : Z) : Z := (z + 2 ^ 31) mod 2 ^ 32 - 2 ^ 31.
(* A sum in unsigned 32-bit arithmetic. *)
Definition u32_inc (z : Z) : Z := (z + 1) mod U32.

(* include/orioledb.h:273-281 *)
Record oids := mkOids { datoid : Z; reloid : Z; relnode : Z; spcoid : Z }.
(* SharedRootInfoKey, include/catalog/sys_trees.h:65-70 *)
Record rkey := mkR { r_dat : Z; r_node : Z; r_spc : Z }.
(* OTableChunkKey, sys_trees.h:81-86 *)
Record tkey := mkT { t_oids : oids; t_chunk : Z; t_ver : Z }.
(* OIndexChunkKey, sys_trees.h:101-107 *)
Record ikey := mkI { i_type : Z; i_oids : oids; i_chunk : Z; i_ver : Z }.
(* FreeTreeTuple, sys_trees.h:127-142 *)
Record ftup := mkF { f_off : Z; f_len : Z; f_ix : Z; f_dat : Z; f_node : Z }.

(* shared_root_info_key_cmp, sys_trees.c:932-957 *)
Definition shared_root_info_key_cmp (a b : rkey) : Z :=
  if r_dat a <? r_dat b then -1 else if r_dat b <? r_dat a then 1
  else if r_node a <? r_node b then -1 else if r_node b <? r_node a then 1
  else if r_spc a <? r_spc b then -1 else if r_spc b <? r_spc a then 1
  else 0.

(* o_table_chunk_cmp, sys_trees.c:994-1028.  A bound and a tuple carry the same key. *)
Definition o_table_chunk_cmp (a b : tkey) : Z :=
  if datoid (t_oids a) <? datoid (t_oids b) then -1 else if datoid (t_oids b) <? datoid (t_oids a) then 1
  else if relnode (t_oids a) <? relnode (t_oids b) then -1 else if relnode (t_oids b) <? relnode (t_oids a) then 1
  else if t_chunk a <? t_chunk b then -1 else if t_chunk b <? t_chunk a then 1
  else 0.

(* o_index_chunk_cmp, sys_trees.c:1099-1140 *)
Definition o_index_chunk_cmp (a b : ikey) : Z :=
  if negb (i_type a =? i_type b) then (if i_type a <? i_type b then -1 else 1)
  else if negb (datoid (i_oids a) =? datoid (i_oids b)) then (if datoid (i_oids a) <? datoid (i_oids b) then -1 else 1)
  else if negb (spcoid (i_oids a) =? spcoid (i_oids b)) then (if spcoid (i_oids a) <? spcoid (i_oids b) then -1 else 1)
  else if negb (relnode (i_oids a) =? relnode (i_oids b)) then (if relnode (i_oids a) <? relnode (i_oids b) then -1 else 1)
  else if negb (i_chunk a =? i_chunk b) then (if i_chunk a <? i_chunk b then -1 else 1)
  else 0.

(* free_tree_id_cmp, sys_trees.c:1199-1209 *)
Definition free_tree_id_cmp (a b : ftup) : Z :=
  if negb (f_ix a =? f_ix b) then (if f_ix a <? f_ix b then -1 else 1)
  else if negb (f_dat a =? f_dat b) then (if f_dat a <? f_dat b then -1 else 1)
  else if negb (f_node a =? f_node b) then (if f_node a <? f_node b then -1 else 1)
  else 0.
(* sys_trees.c:1218-1234 *)
Definition free_tree_off_len_cmp (a b : ftup) : Z :=
  if negb (free_tree_id_cmp a b =? 0) then free_tree_id_cmp a b
  else if negb (f_off a =? f_off b) then (if f_off a <? f_off b then -1 else 1)
  else 0.
(* sys_trees.c:1244-1263 *)
Definition free_tree_len_off_cmp (a b : ftup) : Z :=
  if negb (free_tree_id_cmp a b =? 0) then free_tree_id_cmp a b
  else if negb (f_len a =? f_len b) then (if f_len a <? f_len b then -1 else 1)
  else if negb (f_off a =? f_off b) then (if f_off a <? f_off b then -1 else 1)
  else 0.

(* TransactionIdPrecedes on normal transaction ids (PostgreSQL's transam.c):
   the sign of the 32-bit difference; o_sys_xid_undo_location_key_cmp,
   sys_trees.c:1317-1331. *)
Definition precedes (a b : Z) : bool := to_int (a - b) <? 0.
Definition xid_undo_location_cmp (a b : Z) : Z :=
  if precedes a b then -1 else if precedes b a then 1 else 0.

(** Keys of the catalog caches, include/catalog/o_sys_cache.h. *)
Inductive kval := KDatum (v : Z) | KName (bytes : list Z).
Record skey := mkS { s_dat : Z; s_lsn : Z; s_keys : list kval }.

(* strncmp over [n] bytes; beyond the end of a name there are zero bytes.  Only
   the sign of the result is used. *)
Fixpoint strncmp (n : nat) (a b : list Z) : Z :=
  match n with
  | O => 0
  | S n' =>
      let x := hd 0 a in let y := hd 0 b in
      if x <? y then -1 else if y <? x then 1
      else if x =? 0 then 0 else strncmp n' (tl a) (tl b)
  end.
Definition NAMEDATALEN : nat := 64.

(* o_sys_cache_key_cmp, o_sys_cache.c:2268-2299.  The difference of two Datums
   is assigned to an int. *)
Fixpoint o_sys_cache_key_cmp (nkeys : nat) (a b : list kval) : Z :=
  match nkeys, a, b with
  | S n, KName x :: a', KName y :: b' =>
      let cmp := strncmp NAMEDATALEN x y in if negb (cmp =? 0) then cmp else o_sys_cache_key_cmp n a' b'
  | S n, KDatum x :: a', KDatum y :: b' =>
      let cmp := to_int (x - y) in if negb (cmp =? 0) then cmp else o_sys_cache_key_cmp n a' b'
  | _, _, _ => 0
  end.

(* A comparison argument: a tuple or key of the tree, or a bound with a number
   of leading keys (OSysCacheBound). *)
Inductive sarg := STuple (k : skey) | SBound (k : skey) (nkeys : nat).
Definition sarg_key (a : sarg) : skey := match a with STuple k => k | SBound k _ => k end.

(* o_sys_cache_cmp, o_sys_cache.c:2346-2394; [N] is the number of keys of the cache. *)
Definition o_sys_cache_cmp (N : nat) (a b : sarg) : Z :=
  let nkeys := match b with SBound _ n => n | STuple _ => match a with SBound _ n => n | STuple _ => N end end in
  let lsn_cmp := match a, b with STuple _, STuple _ => true | _, _ => false end in
  let k1 := sarg_key a in let k2 := sarg_key b in
  if negb (s_dat k1 =? s_dat k2) then (if s_dat k1 <? s_dat k2 then -1 else 1)
  else
    let cmp := o_sys_cache_key_cmp nkeys (s_keys k1) (s_keys k2) in
    if negb (cmp =? 0) then cmp
    else if lsn_cmp && negb (s_lsn k1 =? s_lsn k2) then (if s_lsn k1 <? s_lsn k2 then -1 else 1)
    else 0.

(* OSysCacheToastChunkKey and OSysCacheToastKeyBound *)
Inductive targ := TTuple (k : skey) (chunk : Z) | TBound (k : skey) (chunk : Z) (lsn_cmp : bool).
(* o_sys_cache_toast_cmp, o_sys_cache.c:2541-2634: a bound that compares the LSN
   is handed on as a key, one that does not as a bound of all keys. *)
Definition o_sys_cache_toast_cmp (N : nat) (a b : targ) : Z :=
  let wrap (x : targ) := match x with TTuple k _ => STuple k | TBound k _ true => STuple k | TBound k _ false => SBound k N end in
  let chunk (x : targ) := match x with TTuple _ c => c | TBound _ c _ => c end in
  let r := o_sys_cache_cmp N (wrap a) (wrap b) in
  if negb (r =? 0) then r
  else if negb (chunk a =? chunk b) then (if chunk a <? chunk b then -1 else 1)
  else 0.

(** Next keys: the end of the chunks of one entry. *)
(* oTablesGetNextKey, o_tables.c:173-184 *)
Definition oTablesGetNextKey (k : tkey) : tkey :=
  mkT (mkOids (datoid (t_oids k)) (reloid (t_oids k)) (u32_inc (relnode (t_oids k))) (spcoid (t_oids k))) 0 (t_ver k).
(* oIndicesGetNextKey, o_indices.c:86-97 *)
Definition oIndicesGetNextKey (k : ikey) : ikey :=
  mkI (i_type k) (mkOids (datoid (i_oids k)) (reloid (i_oids k)) (u32_inc (relnode (i_oids k))) (spcoid (i_oids k))) 0 (i_ver k).
(* oSysCacheToastGetNextKey, o_sys_cache.c:1201-1222: [keys[nkeys - 1]++] *)
Fixpoint inc_last (ks : list kval) : list kval :=
  match ks with
  | [] => []
  | [KDatum v] => [KDatum (v + 1)]
  | k :: rest => k :: inc_last rest
  end.
Definition oSysCacheToastGetNextKey (k : skey) : targ := TBound (mkS (s_dat k) (s_lsn k) (inc_last (s_keys k))) 0 false.

(** Visiting every entry: position at the first chunk not below a bound, report
    it, move the bound to the next relation number.  [fuel] bounds the number
    of rounds. *)
(* o_btree_iterator_create with a bound, first fetch *)
Definition first_from {A} (cmp : A -> A -> Z) (L : list A) (b : A) : option A := find (fun c => cmp b c <=? 0) L.
(* o_tables_foreach_oids, o_tables.c:314-358; chunk_key.version is not set there *)
Fixpoint tables_foreach (fuel : nat) (L : list tkey) (b : tkey) : list oids :=
  match fuel with
  | O => []
  | S n => match first_from o_table_chunk_cmp L b with
      | None => []
      | Some c => t_oids c :: tables_foreach n L (oTablesGetNextKey (mkT (t_oids c) 0 (t_ver b)))
      end
  end.
Definition tables_start : tkey := mkT (mkOids 0 0 0 0) 0 0.
(* o_indices_foreach_oids, o_indices.c:2033-2101 *)
Fixpoint indices_foreach (fuel : nat) (L : list ikey) (b : ikey) : list (Z * oids) :=
  match fuel with
  | O => []
  | S n => match first_from o_index_chunk_cmp L b with
      | None => []
      | Some c => (i_type c, i_oids c) :: indices_foreach n L (oIndicesGetNextKey (mkI (i_type c) (i_oids c) 0 (i_ver b)))
      end
  end.
Definition indices_start : ikey := mkI 0 (mkOids 0 0 0 0) 0 (2 ^ 32 - 1).
