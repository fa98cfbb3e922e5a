(** Secondary indexes of a table under inserts, updates and deletes.
    Sources: src/indexam/handler.c:537-605 (append_rowid_values), 632-783
    (orioledb_aminsert), 785-960 (orioledb_amupdate), 962-1093
    (orioledb_amdelete); src/tableam/operations.c:2033-2080 (fill_key_bound),
    2084-2153 (o_update_secondary_index), 2157-2311 (overwrite, reinsert),
    2316-2390 (o_tbl_index_delete), 2458-2552 (o_tbl_index_insert), 3111-3141
    (is_keys_eq); src/catalog/o_indices.c:342-357 (find_existing_field),
    465-526 (add_index_fields), 528-603 (make_secondary_o_index);
    include/tuple/format.h:197-206 (o_has_nulls). *)
From Coq Require Import ZArith List Bool Lia.
From Verif Require Import Base.
Import ListNotations.
Open Scope Z_scope.

(** A row gives each column a value or NULL.  Columns are numbered; the value
    of an index expression counts as a column of its own.  Two columns of an
    index with the same number have the same operator class too. *)
Definition row : Type := Z -> option Z.

(** A secondary index: its columns (key columns first), how many are key
    columns, UNIQUE, NULLS NOT DISTINCT, and its predicate. *)
Record ixdef := mkIx { d_cols : list Z; d_nkey : nat; d_uniq : bool; d_nnd : bool; d_pred : row -> bool }.

(** The table: primary key columns, indexes, and for each column the class of
    values its comparison function calls equal.  A table without a primary key
    has the row's ctid as its only key column. *)
Record config := mkCfg { c_pk : list Z; c_ix : list ixdef; c_canon : Z -> Z -> Z }.

Definition entry : Type := list (option Z).
Record state := mkSt { s_rows : list row; s_ix : list (list entry) }.

Definition memz (x : Z) (l : list Z) : bool := existsb (Z.eqb x) l.
Fixpoint index_of (x : Z) (l : list Z) : Z :=
  match l with [] => 0 | y :: r => if y =? x then 0 else 1 + index_of x r end.

(** add_index_fields (o_indices.c:465-514): the index's own columns without
    repetitions, with the positions at which one was dropped... *)
Fixpoint add_fields (cols acc : list Z) (dups : list Z) : list Z * list Z :=
  match cols with
  | [] => (acc, dups)
  | c :: r => if memz c acc then add_fields r acc (dups ++ [Z.of_nat (length acc)]) else add_fields r (acc ++ [c]) dups
  end.
(** ... and then the primary key's columns that are not there yet. *)
Definition own_fields (d : ixdef) : list Z := fst (add_fields (d_cols d) [] []).
Definition dups (d : ixdef) : list Z := snd (add_fields (d_cols d) [] []).
Definition fields (c : config) (d : ixdef) : list Z := fst (add_fields (c_pk c) (own_fields d) []).
(** nUniqueFields of a unique index (o_indices.c:490-491, 589-590, 597-598). *)
Definition nuniq (d : ixdef) : nat := length (fst (add_fields (firstn (d_nkey d) (d_cols d)) [] [])).

(** * The values handed to the access method *)
(** FormIndexDatum (PostgreSQL): one value and one null flag for each column of
    the index, repeated columns included. *)
Definition vals_of (r : row) (cols : list Z) : Z -> Z :=
  fun i => match nth_error cols (Z.to_nat i) with Some c => match r c with Some v => v | None => 0 end | None => 0 end.
Definition nulls_of (r : row) (cols : list Z) : Z -> bool :=
  fun i => match nth_error cols (Z.to_nat i) with Some c => match r c with Some _ => false | None => true end | None => false end.

(** orioledb_aminsert removes the values of repeated columns (handler.c:721-754);
    the null flags stay where they are. *)
Fixpoint squeeze (n : nat) (i cur : Z) (du : list Z) (v : Z -> Z) : Z -> Z :=
  match n with
  | O => v
  | S k => match du with
           | x :: du' => if x =? cur then squeeze k (i + 1) cur du' v else squeeze k (i + 1) (cur + 1) du (upd v cur (v i))
           | [] => squeeze k (i + 1) (cur + 1) du (upd v cur (v i))
           end
  end.
Definition squeezed (d : ixdef) (v : Z -> Z) : Z -> Z :=
  match dups d with [] => v | du => squeeze (length (d_cols d)) 0 0 du v end.

(** append_rowid_values (handler.c:571-604): the columns of the row identifier
    are filled in from position nFields - nPrimaryFields on. *)
Fixpoint fill (pk : list Z) (fs : list Z) (from : Z) (r : row) (v : Z -> Z) (n : Z -> bool) : (Z -> Z) * (Z -> bool) :=
  match pk with
  | [] => (v, n)
  | p :: rest =>
      let a := index_of p fs in
      if from <=? a then fill rest fs from r (upd v a (match r p with Some x => x | None => 0 end)) (upd n a (match r p with Some _ => false | None => true end))
      else fill rest fs from r v n
  end.
Definition nf (c : config) (d : ixdef) : Z := Z.of_nat (length (fields c d)).
Definition append_rowid (c : config) (d : ixdef) (r : row) (v : Z -> Z) (n : Z -> bool) :=
  fill (c_pk c) (fields c d) (nf c d - Z.of_nat (length (c_pk c))) r v n.

(** o_form_tuple. *)
Definition form (c : config) (d : ixdef) (vn : (Z -> Z) * (Z -> bool)) : entry :=
  map (fun k => let i := Z.of_nat k in if snd vn i then None else Some (fst vn i)) (seq 0 (length (fields c d))).

(** The entry built by orioledb_aminsert, and by orioledb_amupdate and
    orioledb_amdelete. *)
Definition entry_ins (c : config) (d : ixdef) (r : row) : entry :=
  form c d (append_rowid c d r (squeezed d (vals_of r (d_cols d))) (nulls_of r (d_cols d))).
Definition entry_upd (c : config) (d : ixdef) (r : row) : entry :=
  form c d (append_rowid c d r (vals_of r (d_cols d)) (nulls_of r (d_cols d))).

(** * The index tree: keys are compared by the comparison functions *)
Definition veq (canon : Z -> Z) (a b : option Z) : bool :=
  match a, b with Some x, Some y => canon x =? canon y | None, None => true | _, _ => false end.
Fixpoint keq (canon : Z -> Z -> Z) (fs : list Z) (a b : entry) : bool :=
  match fs, a, b with
  | f :: fr, x :: ar, y :: br => veq (canon f) x y && keq canon fr ar br
  | _, _, _ => true
  end.
Definition oz_eqb (a b : option Z) : bool := match a, b with Some x, Some y => x =? y | None, None => true | _, _ => false end.
Fixpoint img_eqb (a b : entry) : bool :=
  match a, b with [], [] => true | x :: a', y :: b' => oz_eqb x y && img_eqb a' b' | _, _ => false end.
Definition has_nulls (e : entry) : bool := existsb (fun x => match x with None => true | _ => false end) e.

Definition tree_insert (c : config) (d : ixdef) (e : entry) (ix : list entry) : option (list entry) :=
  if existsb (keq (c_canon c) (fields c d) e) ix then None else Some (e :: ix).
(** o_btree_insert_unique: also refuses an entry with the same unique columns. *)
Definition tree_insert_unique (c : config) (d : ixdef) (e : entry) (ix : list entry) : option (list entry) :=
  if existsb (keq (c_canon c) (firstn (nuniq d) (fields c d)) e) ix then None else tree_insert c d e ix.
Definition tree_delete (c : config) (d : ixdef) (e : entry) (ix : list entry) : option (list entry) :=
  if existsb (keq (c_canon c) (fields c d) e) ix then Some (filter (fun x => negb (keq (c_canon c) (fields c d) e x)) ix) else None.

(** o_tbl_index_insert (operations.c:2535-2547). *)
Definition am_insert (c : config) (d : ixdef) (r : row) (ix : list entry) : option (list entry) :=
  let e := entry_ins c d r in
  if negb (d_uniq d) || (negb (d_nnd d) && has_nulls e) then tree_insert c d e ix else tree_insert_unique c d e ix.
(** o_update_secondary_index (operations.c:2084-2153). *)
Definition am_update (c : config) (d : ixdef) (o n : row) (ix : list entry) : option (list entry) :=
  let eo := entry_upd c d o in
  let en := entry_upd c d n in
  if img_eqb eo en && eqb (d_pred d o) (d_pred d n) then Some ix
  else match (if d_pred d o then tree_delete c d eo ix else Some ix) with
       | None => None
       | Some ix1 =>
           if d_pred d n then
             if negb (d_uniq d) || has_nulls en then tree_insert c d en ix1 else tree_insert_unique c d en ix1
           else Some ix1
       end.
(** o_tbl_index_delete (operations.c:2370-2388). *)
Definition am_delete (c : config) (d : ixdef) (r : row) (ix : list entry) : option (list entry) := tree_delete c d (entry_upd c d r) ix.

(** * Statements *)
Definition pkey (c : config) (r : row) : entry := map r (c_pk c).
Definition pkeq (c : config) (a b : entry) : bool := keq (c_canon c) (c_pk c) a b.

Fixpoint each (f : ixdef -> list entry -> option (list entry)) (ds : list ixdef) (ixs : list (list entry)) : option (list (list entry)) :=
  match ds, ixs with
  | d :: dr, ix :: ir => match f d ix, each f dr ir with Some ix', Some r => Some (ix' :: r) | _, _ => None end
  | _, _ => Some []
  end.

Inductive op := OInsert (r : row) | OUpdate (k : entry) (n : row) | ODelete (k : entry).

(** A statement that fails is rolled back. *)
Definition step (c : config) (s : state) (o : op) : state :=
  match o with
  | OInsert r =>
      if existsb (fun x => pkeq c (pkey c r) (pkey c x)) (s_rows s) then s
      else match each (fun d ix => if d_pred d r then am_insert c d r ix else Some ix) (c_ix c) (s_ix s) with
           | Some ixs => mkSt (r :: s_rows s) ixs
           | None => s
           end
  | OUpdate k n =>
      match find (fun x => pkeq c k (pkey c x)) (s_rows s) with
      | None => s
      | Some r =>
          let rest := filter (fun x => negb (pkeq c (pkey c r) (pkey c x))) (s_rows s) in
          if existsb (fun x => pkeq c (pkey c n) (pkey c x)) rest then s
          else match each (fun d ix => am_update c d r n ix) (c_ix c) (s_ix s) with
               | Some ixs => mkSt (n :: rest) ixs
               | None => s
               end
      end
  | ODelete k =>
      match find (fun x => pkeq c k (pkey c x)) (s_rows s) with
      | None => s
      | Some r =>
          match each (fun d ix => if d_pred d r then am_delete c d r ix else Some ix) (c_ix c) (s_ix s) with
          | Some ixs => mkSt (filter (fun x => negb (pkeq c (pkey c r) (pkey c x))) (s_rows s)) ixs
          | None => s
          end
      end
  end.

Definition init (c : config) : state := mkSt [] (map (fun _ => []) (c_ix c)).
