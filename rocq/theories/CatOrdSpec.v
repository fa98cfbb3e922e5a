(** What a comparison function of a catalog must be. *)
From Coq Require Import ZArith List Bool.
From Verif Require Import Base CatOrdModel.
Import ListNotations.
Open Scope Z_scope.

(* A total order on the keys that are [ok], where exactly the keys that are the
   [same] compare as equal. *)
Record total_order {A : Type} (ok : A -> Prop) (same : A -> A -> Prop) (cmp : A -> A -> Z) : Prop := {
  to_same : forall a b, ok a -> ok b -> (cmp a b = 0 <-> same a b);
  to_flip : forall a b, ok a -> ok b -> (cmp a b < 0 <-> 0 < cmp b a);
  to_trans : forall a b c, ok a -> ok b -> ok c -> cmp a b <= 0 -> cmp b c <= 0 -> cmp a c <= 0
}.
(* Such a function cannot be an order: three keys in a circle. *)
Definition circle {A : Type} (cmp : A -> A -> Z) (a b c : A) : Prop := cmp a b < 0 /\ cmp b c < 0 /\ cmp c a < 0.

(* Which tree, and which chunk of its description. *)
Definition same_root (a b : rkey) := r_dat a = r_dat b /\ r_node a = r_node b /\ r_spc a = r_spc b.
Definition same_table (a b : tkey) := datoid (t_oids a) = datoid (t_oids b) /\ relnode (t_oids a) = relnode (t_oids b).
Definition same_table_chunk (a b : tkey) := same_table a b /\ t_chunk a = t_chunk b.
Definition same_index (a b : ikey) :=
  i_type a = i_type b /\ datoid (i_oids a) = datoid (i_oids b) /\ spcoid (i_oids a) = spcoid (i_oids b) /\ relnode (i_oids a) = relnode (i_oids b).
Definition same_index_chunk (a b : ikey) := same_index a b /\ i_chunk a = i_chunk b.
Definition same_tree (a b : ftup) := f_ix a = f_ix b /\ f_dat a = f_dat b /\ f_node a = f_node b.

(* Tree identity as include/orioledb.h:273-281 puts it: the tablespace is part
   of it. *)
Definition other_tablespace (a b : oids) := spcoid a <> spcoid b.

(* A cache key: [types] says which keys are names; names are shorter than
   NAMEDATALEN and contain no zero byte; numbers lie in a window of 2^31. *)
Definition name_ok (l : list Z) := (length l < 64)%nat /\ Forall (fun b => 0 < b) l.
Definition kval_ok (lo : Z) (is_name : bool) (k : kval) : Prop :=
  match is_name, k with
  | true, KName l => name_ok l
  | false, KDatum v => lo <= v < lo + 2 ^ 31
  | _, _ => False
  end.
Definition skey_ok (lo : Z) (types : list bool) (k : skey) : Prop := Forall2 (kval_ok lo) types (s_keys k).
(* Same object, and same version of it. *)
Definition same_object (a b : skey) := s_dat a = s_dat b /\ s_keys a = s_keys b.
Definition same_entry (a b : skey) := same_object a b /\ s_lsn a = s_lsn b.
Definition same_prefix (n : nat) (a b : skey) := s_dat a = s_dat b /\ firstn n (s_keys a) = firstn n (s_keys b).

Fixpoint strictly_sorted {A} (cmp : A -> A -> Z) (l : list A) : Prop :=
  match l with
  | [] => True
  | a :: rest => Forall (fun b => cmp a b < 0) rest /\ strictly_sorted cmp rest
  end.
