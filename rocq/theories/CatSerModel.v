(** The byte form of table and index metadata in the system catalog.
    Sources: src/catalog/o_tables.c:2268-2590 (serialize_o_table_index,
    serialize_o_table, deserialize_o_table_index, datumRestoreSafe,
    deserialize_o_table); src/catalog/o_indices.c:758-1098 (o_serialize_string,
    o_deserialize_string_safe, o_serialize_node, o_deserialize_node_safe,
    serialize_o_index, deserialize_o_index); include/catalog/o_tables.h:29-148;
    include/catalog/o_indices.h:54-131. *)
From Coq Require Import ZArith List Bool Lia.
From Verif Require Import Base PageIoModel TupleFmtModel.
Import ListNotations.
Open Scope Z_scope.

(** Structure layouts, x86-64 (offsetof/sizeof of OTable, OTableIndex,
    OTableField, OTableIndexField and the stored part of OIndex). *)
Definition T_HDR : Z := 104.       (* offsetof(OTable, indices) *)
Definition X_HDR : Z := 872.       (* offsetof(OTableIndex, exprfields) *)
Definition F_SZ : Z := 92.         (* sizeof(OTableField) *)
Definition XF_SZ : Z := 24.        (* sizeof(OTableIndexField) *)
Definition I_HDR : Z := 184.       (* offsetof(OIndex, leafTableFields) - offsetof(OIndex, tableOids) *)
Definition oIndexExclusion : Z := 6.
Definition SYS_TREE_VERSION : Z := 1.
Definition STATE_VALID : Z := 0.

(** A field of a structure, read from its bytes. *)
Definition num (h : list Z) (off n : Z) : Z := unle (sub h off n).
Definition t_nfields h := num h 74 2.
Definition t_nindices h := num h 78 2.
Definition t_version h := num h 100 2.
Definition x_type h := num h 80 4.
Definition x_nkeyfields h := num h 94 1.
Definition x_nexprfields h := num h 864 1.
Definition f_byval h := num h 80 1.
Definition i_version h := num h 18 2.
Definition i_nleaf h := num h 108 2.
Definition i_nkey h := num h 114 2.

(** memcpy of [b] over the bytes of [h] from [off]. *)
Definition over (h : list Z) (off : Z) (b : list Z) : list Z :=
  sub h 0 off ++ b ++ skipn (Z.to_nat (off + zlen b)) h.

(** A missing-attribute value: pass-by-value word (8 bytes) or the bytes it
    points to (datumGetSize of them). *)
Inductive datum := DVal (b : list Z) | DRef (b : list Z).

Section Nodes.
(** Expression trees, nodeToString and stringToNode (PostgreSQL's). *)
Variable node : Type.
Variable nil_node : node.
Variable to_str : node -> list Z.
Variable of_str : list Z -> node.

(** OTableIndex: the part copied as it is, and what its pointers refer to. *)
Record oix := mkOix { x_hdr : list Z; x_expr : list (list Z); x_pred : node; x_predstr : option (list Z);
                      x_exprs : node; x_excl : list (list Z); x_imm : list Z }.
(** OTable. *)
Record otable := mkOT { t_hdr : list Z; t_idx : list oix; t_fields : list (list Z); t_miss : list (option datum) }.
(** OIndex: the identifying part (taken from the catalog key) and the rest. *)
Record oindex := mkOI { o_key : list Z * Z * Z; o_hdr : list Z; o_leaf : list (list Z); o_leafix : list (list Z);
                        o_pred : node; o_predstr : option (list Z); o_exprs : node; o_dups : node;
                        o_excl : list (list Z); o_imm : list Z; o_state : Z }.

(** * Writing *)
(** o_serialize_string (o_indices.c:758-765). *)
Definition ser_string (s : option (list Z)) : list Z :=
  match s with None => le 8 0 | Some b => le 8 (zlen b + 1) ++ b ++ [0] end.
(** o_serialize_node (o_indices.c:833-846); [pg] is PG_VERSION_NUM. *)
Definition ser_node (pg : Z) (n : node) : list Z :=
  le 4 pg ++ le 8 (zlen (to_str n) + 1) ++ to_str n ++ [0].
(** serialize_o_table_index (o_tables.c:2268-2288). *)
Definition ser_oix (pg : Z) (x : oix) : list Z :=
  x_hdr x ++ concat (x_expr x) ++ ser_node pg (x_pred x) ++ ser_string (x_predstr x) ++ ser_node pg (x_exprs x)
  ++ sub (x_hdr x) 76 4
  ++ (if x_type (x_hdr x) =? oIndexExclusion then concat (x_excl x) else [])
  ++ x_imm x.
(** datumSerialize (PostgreSQL), with the null flag [!am_present]. *)
Definition ser_datum (d : option datum) : list Z :=
  match d with
  | None => le 4 4294967294
  | Some (DVal b) => le 4 4294967295 ++ b
  | Some (DRef b) => le 4 (zlen b) ++ b
  end.
Definition ser_miss (d : option datum) : list Z :=
  (match d with None => [0] | Some _ => [1] end) ++ ser_datum d.
(** serialize_o_table (o_tables.c:2291-2337). *)
Definition ser_otable (pg : Z) (t : otable) : list Z :=
  t_hdr t ++ concat (map (ser_oix pg) (t_idx t)) ++ concat (t_fields t) ++ concat (map ser_miss (t_miss t)) ++ sub (t_hdr t) 12 4.
(** serialize_o_index (o_indices.c:922-963). *)
Definition ser_oindex (pg : Z) (i : oindex) : list Z :=
  o_hdr i ++ concat (o_leaf i) ++ concat (o_leafix i) ++ ser_node pg (o_pred i) ++ ser_string (o_predstr i)
  ++ ser_node pg (o_exprs i) ++ ser_node pg (o_dups i)
  ++ (if snd (fst (o_key i)) =? oIndexExclusion then concat (o_excl i) else [])
  ++ o_imm i ++ [o_state i].

(** * Reading: each step gets the rest of the data and fails when it is too
    short. *)
Definition P (A : Type) : Type := list Z -> option (A * list Z).
Definition ret {A} (a : A) : P A := fun l => Some (a, l).
Definition bind {A B} (p : P A) (f : A -> P B) : P B := fun l => match p l with Some (a, r) => f a r | None => None end.
Definition tk (n : Z) : P (list Z) := fun l => if n <=? zlen l then Some (sub l 0 n, skipn (Z.to_nat n) l) else None.
Fixpoint many {A} (n : nat) (p : P A) : P (list A) :=
  match n with O => ret [] | S k => bind p (fun a => bind (many k p) (fun r => ret (a :: r))) end.

(** The C string at the start of [l]. *)
Fixpoint cstr (l : list Z) : list Z :=
  match l with [] => [] | b :: r => if b =? 0 then [] else b :: cstr r end.

(** o_deserialize_string_safe (o_indices.c:794-816). *)
Definition p_string : P (option (list Z)) :=
  bind (tk 8) (fun h => if unle h =? 0 then ret None else bind (tk (unle h)) (fun b => ret (Some (cstr b)))).
(** o_deserialize_node_safe, o_node_version_compatible, o_node_str_is_empty
    (o_indices.c:849-919): the node and whether it was skipped although not
    empty. *)
Definition str_empty (s : list Z) : bool :=
  match s with [] => true | [60; 62] => true | _ => false end.
Definition p_node (pg : Z) : P (node * bool) :=
  bind (tk 4) (fun v => bind (tk 8) (fun h => bind (tk (unle h)) (fun b =>
    if unle v / 10000 =? pg / 10000 then ret (of_str (cstr b), false)
    else ret (nil_node, negb (str_empty (cstr b)))))).

(** deserialize_o_table_index (o_tables.c:2344-2421). *)
Definition p_oix (pg : Z) : P (oix * bool) :=
  bind (tk X_HDR) (fun h =>
  bind (many (Z.to_nat (x_nexprfields h)) (tk F_SZ)) (fun ef =>
  bind (p_node pg) (fun p =>
  bind p_string (fun ps =>
  bind (p_node pg) (fun e =>
  bind (tk 4) (fun sp =>
  let h' := over h 76 sp in
  bind (if x_type h' =? oIndexExclusion then many (Z.to_nat (x_nkeyfields h')) (tk 4) else ret []) (fun ex =>
  bind (tk 1) (fun im =>
  ret (mkOix h' ef (fst p) ps (fst e) ex im, snd p || snd e))))))))).

(** datumRestoreSafe (o_tables.c:2430-2482). *)
Definition p_datum : P (option datum) :=
  bind (tk 4) (fun h =>
    if unle h =? 4294967294 then ret None
    else if unle h =? 4294967295 then bind (tk 8) (fun b => ret (Some (DVal b)))
    else bind (tk (unle h)) (fun b => ret (Some (DRef b)))).
(** The value of an attribute is looked at only when am_present is set. *)
Definition p_miss : P (option datum) :=
  bind (tk 1) (fun pr => bind p_datum (fun d => ret (if unle pr =? 0 then None else d))).

(** deserialize_o_table (o_tables.c:2489-2592): the table and refresh_exprs. *)
Definition p_otable (pg : Z) : P (otable * bool) :=
  bind (tk T_HDR) (fun h =>
  bind (many (Z.to_nat (t_nindices h)) (p_oix pg)) (fun xs =>
  bind (many (Z.to_nat (t_nfields h)) (tk F_SZ)) (fun fs =>
  bind (many (Z.to_nat (t_nfields h)) p_miss) (fun ms =>
  bind (tk 4) (fun sp =>
  ret (mkOT (over h 12 sp) (map fst xs) fs ms, existsb snd xs)))))).
Definition deser_otable (pg : Z) (l : list Z) : option (otable * bool) :=
  match p_otable pg l with Some (t, []) => Some t | _ => None end.

(** deserialize_o_index (o_indices.c:970-1098); a wrong data_version raises
    FATAL, here no result. *)
Definition p_oindex (pg : Z) (key : list Z * Z * Z) : P (oindex * bool) :=
  bind (tk I_HDR) (fun h =>
  if negb (i_version h =? SYS_TREE_VERSION) then (fun _ => None) else
  bind (many (Z.to_nat (i_nleaf h)) (tk F_SZ)) (fun lf =>
  bind (many (Z.to_nat (i_nleaf h)) (tk XF_SZ)) (fun lx =>
  bind (p_node pg) (fun p =>
  bind p_string (fun ps =>
  bind (p_node pg) (fun e =>
  bind (p_node pg) (fun d =>
  bind (if snd (fst key) =? oIndexExclusion then many (Z.to_nat (i_nkey h)) (tk 4) else ret []) (fun ex =>
  bind (tk 1) (fun im =>
  ret (mkOI key h lf lx (fst p) ps (fst e) (fst d) ex im STATE_VALID, snd p || snd e || snd d)))))))))).
Definition with_state (i : oindex) (st : Z) : oindex :=
  mkOI (o_key i) (o_hdr i) (o_leaf i) (o_leafix i) (o_pred i) (o_predstr i) (o_exprs i) (o_dups i) (o_excl i) (o_imm i) st.
Definition deser_oindex (pg : Z) (key : list Z * Z * Z) (l : list Z) : option (oindex * bool) :=
  match p_oindex pg key l with
  | Some ((i, f), []) => Some (i, f)
  | Some ((i, f), [st]) => Some (with_state i st, f)
  | _ => None
  end.
End Nodes.
