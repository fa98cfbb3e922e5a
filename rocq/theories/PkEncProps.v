(** Property C43: primary keys map to bitmap keys monotonically and reversibly. *)
From Coq Require Import ZArith List Bool Lia ZifyBool.
From Verif Require Import Base PkEncModel PkEncSpec PkEncProofs.
Import ListNotations.
Open Scope Z_scope.

(** An encoded key of an eligible primary key always takes 24 bytes. *)
Theorem C43_key_width : forall ts vs, eligible ts = true -> valid_key ts vs -> length (encode_key ts vs) = FIXED_BYTES /\ bytes (encode_key ts vs).
Proof.
  intros ts vs E V. unfold eligible in E. apply andb_true_iff in E. destruct E as [_ E]. apply Nat.leb_le in E.
  unfold encode_key. rewrite app_length, repeat_length, cols_len by auto. split; [lia|].
  apply Forall_app. split.
  - apply Forall_forall. intros x H. apply repeat_spec in H. lia.
  - clear E. revert vs V. induction ts as [|t ts IH]; intros [|v vs] V; cbn in *; try tauto; [constructor|].
    destruct V. apply Forall_app. split; [apply encode_bytes; auto|apply IH; auto].
Qed.
(** Byte order of encoded keys is the order of the primary index; in particular keys get the same
    bytes exactly when they are equal in that order. *)
Theorem C43_order : forall ts a b, valid_key ts a -> valid_key ts b -> memcmp (encode_key ts a) (encode_key ts b) = cmp_key ts a b.
Proof.
  intros ts a b A B. unfold encode_key. rewrite memcmp_app by auto. rewrite memcmp_refl. apply cols_cmp; auto.
Qed.
Theorem C43_injective : forall ts a b, valid_key ts a -> valid_key ts b -> (encode_key ts a = encode_key ts b <-> cmp_key ts a b = Eq).
Proof.
  intros ts a b A B. rewrite <- C43_order by auto. split; [intros ->; apply memcmp_refl|apply memcmp_eq].
Qed.
(** Decoding gives a key equal to the original one, and the very same values unless a column is a
    float (where zeros and NaNs have several representations). *)
Theorem C43_decode : forall ts vs, valid_key ts vs ->
  let vs' := decode_key (encode_key ts vs) ts in
  cmp_key ts vs' vs = Eq /\ length vs' = length vs /\
  ((forall t, In t ts -> t <> TFloat4 /\ t <> TFloat8) -> vs' = vs).
Proof.
  intros ts vs V vs'. unfold vs', decode_key, encode_key. rewrite skipn_len_app by apply repeat_length.
  destruct (cols_decode ts vs V) as (A & B & C). split; [auto|split; [auto|]]. intro H. apply C. apply forallb_forall.
  intros t I. destruct (H t I). destruct t; auto; congruence.
Qed.
(** A float column comes back as the same number: the bits change only for NaN and minus zero. *)
Theorem C43_float_bits : forall b, (0 <= b < 2 ^ 64 -> nan 8 b = false -> b <> 2 ^ 63 -> decode_key (encode_key [TFloat8] [DZ b]) [TFloat8] = [DZ b]) /\
  (0 <= b < 2 ^ 32 -> nan 4 b = false -> b <> 2 ^ 31 -> decode_key (encode_key [TFloat4] [DZ b]) [TFloat4] = [DZ b]).
Proof.
  assert (G : forall w b, w = 4%nat \/ w = 8%nat -> 0 <= b < 2 ^ bits w -> nan w b = false -> b <> 2 ^ (bits w - 1) -> float_norm w b = b).
  { intros w b W R N Z. unfold float_norm. rewrite <- nan_eq, N, land_low by (auto; destruct W; subst; cbn; lia).
    destruct (Z.eqb_spec b 0); subst; cbn [orb]; auto. destruct (Z.eqb_spec b (2 ^ (bits w - 1))); auto; lia. }
  intro b. split; intros R N Z; unfold decode_key, encode_key; rewrite skipn_len_app by apply repeat_length; cbn [encode_cols decode_cols].
  - rewrite decode_encode by exact R. cbn [decode_cols]. rewrite (G 8%nat) by auto. auto.
  - rewrite decode_encode by exact R. cbn [decode_cols]. rewrite (G 4%nat) by auto. auto.
Qed.
(** The successor computed to continue after a key is the least key above it; there is none above the last. *)
Theorem C43_next_key : forall k k', bytes k -> length k' = length k -> bytes k' ->
  match next_key k with
  | Some n => memcmp k n = Lt /\ length n = length k /\ bytes n /\ (memcmp k k' = Lt <-> memcmp n k' <> Gt)
  | None => memcmp k k' <> Lt
  end.
Proof. exact next_spec. Qed.

(** Single int4 and int8 keys. *)
Theorem C43_int_order : forall t a b, t <> TID -> valid_one t a -> valid_one t b -> (val_get_uint64 a ?= val_get_uint64 b) = cmp_one a b.
Proof.
  intros t a b T A B. assert (P : 2 ^ 31 < 2 ^ 63) by lia.
  destruct t, a, b; cbn [valid_one] in *; try tauto; try congruence; unfold val_get_uint64, cmp_one;
  rewrite !i2u by lia; apply cmp_shift.
Qed.
Theorem C43_int_decode : forall t a, t <> TID -> valid_one t a -> 0 <= val_get_uint64 a < 2 ^ 64 /\ uint64_get_val (val_get_uint64 a) t = a.
Proof.
  intros t a T A. assert (P : 2 ^ 31 < 2 ^ 63) by lia.
  destruct t, a; cbn [valid_one] in *; try tauto; try congruence; unfold val_get_uint64, uint64_get_val;
  rewrite i2u by lia; (split; [lia|]); rewrite u2i by lia.
  - rewrite s32_small by lia. f_equal. lia.
  - f_equal. lia.
Qed.

(** Tables without a primary key use the row identifier.  What is missing: blocks from 65536 on. *)
Definition low_block (a : oval) : Prop := match a with VTid blk _ => blk < 65536 | _ => True end.
Theorem C43_tid_order_partial : forall a b, valid_one TID a -> valid_one TID b -> low_block a -> low_block b ->
  (val_get_uint64 a ?= val_get_uint64 b) = cmp_one a b /\ uint64_get_val (val_get_uint64 a) TID = a.
Proof.
  intros [|b1 o1] [|b2 o2]; cbn [valid_one low_block]; try tauto. intros A B LA LB. rewrite !tid_small by lia. split.
  - unfold cmp_one. destruct (Z.compare_spec b1 b2).
    + subst. rewrite !(Z.add_comm (b2 * 2 ^ 16)). apply cmp_shift.
    + apply Z.compare_lt_iff. lia.
    + apply Z.compare_gt_iff. lia.
  - unfold uint64_get_val. rewrite Z.shiftr_div_pow2 by lia. change 0xFFFF with (Z.ones 16). rewrite Z.land_ones by lia.
    rewrite (Z.add_comm (b1 * 2 ^ 16)), Z.div_add, Z.mod_add by lia. rewrite (Z.div_small o1), (Z.mod_small o1) by lia.
    rewrite Z.mod_small by lia. reflexivity.
Qed.
(** The code as it stands: two different row identifiers get the same bitmap key, and the key of a row
    decodes to another row.  A row gets identifier (65536, 1) after 65536 * 2047 insertions. *)
Theorem C43_tid_refuted : ~ (forall a b, valid_one TID a -> valid_one TID b ->
  (val_get_uint64 a ?= val_get_uint64 b) = cmp_one a b /\ uint64_get_val (val_get_uint64 a) TID = a).
Proof.
  intro H. destruct (H (VTid 65536 1) (VTid 0 1)) as [A _]; [vm_compute; intuition discriminate ..|]. vm_compute in A. discriminate.
Qed.
Theorem C43_tid_collision : forall blk off, 65536 <= blk < 2 ^ 32 -> 0 <= off < 2 ^ 16 ->
  val_get_uint64 (VTid blk off) = val_get_uint64 (VTid (blk mod 65536) off).
Proof.
  intros. unfold val_get_uint64. rewrite !Z.shiftl_mul_pow2 by lia. f_equal. f_equal.
  change (2 ^ 32) with (65536 * 2 ^ 16). rewrite !Z.mul_mod_distr_r by lia. rewrite Z.mod_mod by lia. auto.
Qed.

(** Concrete cases. *)
Definition ex_ts := [TInt4; TFloat8; TUuid].
Definition ex_ts2 := [TInt2; TFloat4; TBool; TMacaddr].
Definition ex_b := [DZ (-5); DZ 0xC0000000; DZ 1; DB [1; 2; 3; 4; 5; 255]].
Definition ex_c := [DZ (-5); DZ 0x80000000; DZ 0; DB [1; 2; 3; 4; 5; 255]].
Example ex_key : eligible ex_ts2 = true /\ eligible ex_ts = false /\ valid_key ex_ts2 ex_b /\ valid_key ex_ts2 ex_c /\ cmp_key ex_ts2 ex_b ex_c = Lt /\
  encode_key ex_ts2 ex_b = [0;0;0;0;0;0;0;0;0;0;0; 127;251; 63;255;255;255; 1; 1;2;3;4;5;255] /\
  decode_key (encode_key ex_ts2 ex_c) ex_ts2 = [DZ (-5); DZ 0; DZ 0; DB [1; 2; 3; 4; 5; 255]].
Proof.
  assert (BB : bytes [1; 2; 3; 4; 5; 255]) by (repeat constructor; lia).
  split; [reflexivity|]. split; [reflexivity|]. split; [cbn; repeat split; auto; lia|]. split; [cbn; repeat split; auto; lia|].
  vm_compute. auto.
Qed.
Example ex_float : cmp_float 8 0x3FF0000000000000 0x4000000000000000 = Lt /\ cmp_float 8 0xFFF0000000000000 0xBFF0000000000000 = Lt /\
  cmp_float 8 0x7FF0000000000000 0x7FF8000000000001 = Lt /\ cmp_float 8 0xFFF8000000000001 0x7FF8000000000000 = Eq /\ cmp_float 8 (2 ^ 63) 0 = Eq /\
  float_value 4 0x3F800000 = 2 ^ 149.
Proof. vm_compute. auto 10. Qed.
Example ex_int : valid_one I8 (VInt (- 2 ^ 63)) /\ val_get_uint64 (VInt (- 2 ^ 63)) = 0 /\ val_get_uint64 (VInt (-1)) = 2 ^ 63 - 1 /\
  val_get_uint64 (VInt (2 ^ 63 - 1)) = 2 ^ 64 - 1 /\ uint64_get_val 0 I8 = VInt (- 2 ^ 63) /\ uint64_get_val (val_get_uint64 (VInt (-7))) I4 = VInt (-7).
Proof. vm_compute. intuition discriminate. Qed.
Example ex_tid : valid_one TID (VTid 65536 1) /\ uint64_get_val (val_get_uint64 (VTid 65536 1)) TID = VTid 0 1 /\
  uint64_get_val (val_get_uint64 (VTid 65535 2047)) TID = VTid 65535 2047.
Proof. vm_compute. intuition discriminate. Qed.
Example ex_next : next_key [0; 1; 255; 255] = Some [0; 2; 0; 0] /\ next_key [255; 255] = None.
Proof. vm_compute. auto. Qed.

Print Assumptions C43_order.
Print Assumptions C43_decode.
Print Assumptions C43_next_key.
Print Assumptions C43_int_decode.
Print Assumptions C43_tid_order_partial.
