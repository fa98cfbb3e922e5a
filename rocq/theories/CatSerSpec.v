(** Metadata as the server builds it: the counts in the structures agree with
    the arrays, and sizes fit the fields that hold them. *)
From Coq Require Import ZArith List Bool Lia.
From Verif Require Import Base PageIoModel TupleFmtModel CatSerModel.
Import ListNotations.
Open Scope Z_scope.

(** A C string that fits the length field. *)
Definition cstring (s : list Z) : Prop := (forall b, In b s -> b <> 0) /\ zlen s + 1 < 2 ^ 64.

(** What is assumed of nodeToString and stringToNode. *)
Definition nodes_print {node} (to_str : node -> list Z) : Prop := forall n, cstring (to_str n).
Definition nodes_read_back {node} (to_str : node -> list Z) (of_str : list Z -> node) : Prop := forall n, of_str (to_str n) = n.

Definition arrays_of (k : Z) (l : list (list Z)) : Prop := forall x, In x l -> zlen x = k.

Definition wf_datum (d : option datum) : Prop :=
  match d with
  | None => True
  | Some (DVal b) => zlen b = 8
  | Some (DRef b) => 0 < zlen b < 2 ^ 31
  end.

Section S.
Variable node : Type.
Definition wf_oix (x : oix node) : Prop :=
  zlen (x_hdr _ x) = X_HDR
  /\ arrays_of F_SZ (x_expr _ x) /\ x_nexprfields (x_hdr _ x) = Z.of_nat (length (x_expr _ x))
  /\ (forall s, x_predstr _ x = Some s -> cstring s)
  /\ (if x_type (x_hdr _ x) =? oIndexExclusion
      then arrays_of 4 (x_excl _ x) /\ x_nkeyfields (x_hdr _ x) = Z.of_nat (length (x_excl _ x))
      else x_excl _ x = [])
  /\ zlen (x_imm _ x) = 1.

Definition wf_otable (t : otable node) : Prop :=
  zlen (t_hdr _ t) = T_HDR
  /\ t_nindices (t_hdr _ t) = Z.of_nat (length (t_idx _ t)) /\ (forall x, In x (t_idx _ t) -> wf_oix x)
  /\ t_nfields (t_hdr _ t) = Z.of_nat (length (t_fields _ t)) /\ arrays_of F_SZ (t_fields _ t)
  /\ length (t_miss _ t) = length (t_fields _ t) /\ (forall d, In d (t_miss _ t) -> wf_datum d).

Definition wf_oindex (i : oindex node) : Prop :=
  zlen (o_hdr _ i) = I_HDR /\ i_version (o_hdr _ i) = SYS_TREE_VERSION
  /\ i_nleaf (o_hdr _ i) = Z.of_nat (length (o_leaf _ i)) /\ length (o_leafix _ i) = length (o_leaf _ i)
  /\ arrays_of F_SZ (o_leaf _ i) /\ arrays_of XF_SZ (o_leafix _ i)
  /\ (forall s, o_predstr _ i = Some s -> cstring s)
  /\ (if snd (fst (o_key _ i)) =? oIndexExclusion
      then arrays_of 4 (o_excl _ i) /\ i_nkey (o_hdr _ i) = Z.of_nat (length (o_excl _ i))
      else o_excl _ i = [])
  /\ zlen (o_imm _ i) = 1.

(** The same metadata without its expression trees. *)
Variable nil_node : node.
Definition bare_oix (x : oix node) : oix node :=
  mkOix _ (x_hdr _ x) (x_expr _ x) nil_node (x_predstr _ x) nil_node (x_excl _ x) (x_imm _ x).
Definition bare_otable (t : otable node) : otable node :=
  mkOT _ (t_hdr _ t) (map bare_oix (t_idx _ t)) (t_fields _ t) (t_miss _ t).
End S.

(** Servers of one major version. *)
Definition same_major (a b : Z) : Prop := a / 10000 = b / 10000.
(** [c] is [l] with at least one byte missing at the end. *)
Definition cut_short (c l : list Z) : Prop := exists d, d <> [] /\ l = c ++ d.
