(** Property C24: packed words decode to what was encoded. *)
From Coq Require Import ZArith List Bool Lia.
From Coq Require Import ZifyBool.
From Verif Require Import Base PackedModel PackedSpec PackedProofs.
Import ListNotations.
Open Scope Z_scope.

Ltac lz := rewrite ?Z.land_0_r, ?Z.land_0_l, ?Z.lor_0_r, ?Z.lor_0_l.
Ltac rng := try lia; try (split; [lia|]; cbn; lia).
Ltac cl := repeat (first [rewrite cat_land by (rng) | rewrite cat_lor by (rng)]; lz).

Lemma u64_small : forall x, 0 <= x < 2 ^ 64 -> u64 x = x.
Proof. intros. apply Z.mod_small. auto. Qed.
Lemma u32_small : forall x, 0 <= x < 2 ^ 32 -> u32 x = x.
Proof. intros. apply Z.mod_small. auto. Qed.

Lemma holds_last : forall k v, 0 <= v < 2 ^ k -> holds v [(k, v)].
Proof. intros. split; auto. exists 0. split; [lia|reflexivity]. Qed.

(** In-memory downlinks and right links. *)
Lemma in_memory_word : forall b c, 0 <= b < 2 ^ 32 -> 0 <= c < 2 ^ 31 -> make_in_memory b c = cat 32 b (cat 31 c 0).
Proof.
  intros b c Hb Hc. unfold make_in_memory, shl64. rewrite !(u64_small b), !(u64_small c) by lia.
  rewrite shl_cat by lia. rewrite u64_small by (unfold cat; lia).
  rewrite (cat_0 32 b) at 1. rewrite cat_lor by lia. lz. rewrite <- (cat_0 31 c). auto.
Qed.
Theorem C24_in_memory_downlink : forall b c, 0 <= b < 2 ^ 32 -> 0 <= c < 2 ^ 31 ->
  let d := make_in_memory b c in
  holds d [(32, b); (31, c); (1, 0)] /\ dl_blkno d = b /\ dl_changecount d = c /\
  is_in_memory d = true /\ is_in_io d = false /\ is_on_disk d = false /\ d <> InvalidRightLink.
Proof.
  intros b c Hb Hc d. assert (E : d = cat 32 b (cat 31 c 0)) by (apply in_memory_word; auto).
  assert (M : is_in_memory d = true).
  { unfold is_in_memory. rewrite E. change DISK_BIT with (cat 32 0 (cat 31 0 1)). cl. auto. }
  assert (IO : is_in_io d = false).
  { unfold is_in_io. rewrite E. change IO_BUF_MASK with (cat 32 0 (cat 31 (2 ^ 31 - 1) 1)). cl. unfold cat.
    rewrite land_ones_id by lia. lia. }
  split; [rewrite E; apply (holds_cat _ _ _ _ _ eq_refl Hb); apply (holds_cat _ _ _ _ _ eq_refl Hc); apply holds_last; lia|].
  repeat split; auto.
  - unfold dl_blkno, u32. rewrite E. apply cat_mod; lia.
  - unfold dl_changecount. rewrite E, cat_shiftr by lia. rewrite <- cat_0. rewrite u32_small by lia. apply (land_ones_id 31); lia.
  - unfold is_on_disk. rewrite M. auto.
  - rewrite E. unfold cat, InvalidRightLink. lia.
Qed.

(** On-disk downlinks.  The bound excludes only the extents whose word would have all
    upper 32 bits set; see C24_extent_length for why it holds. *)
Theorem C24_on_disk_downlink : forall len off, 0 <= len < 2 ^ 15 - 1 -> 0 <= off < 2 ^ 48 ->
  let d := make_on_disk len off in
  holds d [(48, off); (15, len); (1, 1)] /\ dl_off d = off /\ dl_len d = len /\
  is_in_memory d = false /\ is_in_io d = false /\ is_on_disk d = true /\ d <> InvalidDiskDownlink.
Proof.
  intros len off Hl Ho d. assert (E : d = cat 48 off (cat 15 len 1)).
  { unfold d, make_on_disk, shl64. rewrite !(u64_small len), !(u64_small off) by lia. rewrite shl_cat by lia.
    rewrite u64_small by (unfold cat; lia). rewrite (cat_0 48 off) at 1. rewrite cat_lor by lia. lz.
    change DISK_BIT with (cat 48 0 (cat 15 0 1)). rewrite (cat_0 15 len) at 1. cl. auto. }
  assert (M : is_in_memory d = false).
  { unfold is_in_memory. rewrite E. change DISK_BIT with (cat 48 0 (cat 15 0 1)). cl. auto. }
  assert (IO : is_in_io d = false).
  { unfold is_in_io. rewrite E. change IO_BUF_MASK with (cat 48 (0xFFFF00000000) (cat 15 (2 ^ 15 - 1) 1)). cl.
    rewrite land_ones_id by lia. change (Z.land 1 1) with 1. unfold cat.
    pose proof (land_lt 48 off 0xFFFF00000000 ltac:(lia) Ho ltac:(lia)). lia. }
  split; [rewrite E; apply (holds_cat _ _ _ _ _ eq_refl Ho); apply (holds_cat _ _ _ len 1 eq_refl); [lia|]; apply holds_last; unfold cat; lia|].
  repeat split; auto.
  - unfold dl_off. rewrite E. change 0xFFFFFFFFFFFF with (cat 48 (2 ^ 48 - 1) 0). cl. rewrite land_ones_id by lia. symmetry. apply cat_0.
  - unfold dl_len. rewrite E. change 0x7FFF000000000000 with (cat 48 0 (cat 15 (2 ^ 15 - 1) 0)). cl.
    rewrite land_ones_id by lia. rewrite cat_shiftr by lia. rewrite <- cat_0. unfold u16. apply Z.mod_small. lia.
  - unfold is_on_disk. rewrite M, IO. auto.
  - rewrite E. unfold cat, InvalidDiskDownlink. lia.
Qed.

(** The length of an extent that a page of at most 8 kB (compressed or not) occupies fits. *)
Theorem C24_extent_length : forall sz, 0 < sz <= BLCKSZ -> 0 < FileExtentLen sz <= 17 /\ sz <= FileExtentLen sz * COMP_BLCKSZ.
Proof.
  intros sz H. unfold FileExtentLen, CompressedSize, BLCKSZ, COMP_BLCKSZ in *. destruct (Z.eqb_spec sz 8192).
  - subst. cbn. lia.
  - pose proof (Z.div_mod (sz + 16 + 512 - 1) 512 ltac:(lia)). pose proof (Z.mod_pos_bound (sz + 16 + 512 - 1) 512 ltac:(lia)). lia.
Qed.

(** Downlinks of pages being read or written. *)
Theorem C24_io_downlink : forall k, 0 <= k < 2 ^ 32 ->
  let d := make_io k in
  holds d [(32, k); (32, 2 ^ 32 - 1)] /\ dl_io_locknum d = k /\ is_in_io d = true /\ is_in_memory d = false /\ is_on_disk d = false.
Proof.
  intros k Hk d. assert (E : d = cat 32 k (cat 31 (2 ^ 31 - 1) 1)).
  { unfold d, make_io. rewrite u64_small by lia. rewrite (cat_0 32 k) at 1. change IO_BUF_MASK with (cat 32 0 (cat 31 (2 ^ 31 - 1) 1)). cl. auto. }
  assert (M : is_in_memory d = false).
  { unfold is_in_memory. rewrite E. change DISK_BIT with (cat 32 0 (cat 31 0 1)). cl. vm_compute. reflexivity. }
  assert (IO : is_in_io d = true).
  { unfold is_in_io. rewrite E. change IO_BUF_MASK with (cat 32 0 (cat 31 (2 ^ 31 - 1) 1)). cl. vm_compute. reflexivity. }
  split; [rewrite E; change (cat 31 (2 ^ 31 - 1) 1) with (2 ^ 32 - 1); apply (holds_cat _ _ _ _ _ eq_refl Hk); apply holds_last; unfold cat; lia|].
  repeat split; auto.
  - unfold dl_io_locknum. rewrite E. change 0xFFFFFFFF with (cat 32 (2 ^ 32 - 1) 0). cl. rewrite land_ones_id, <- cat_0 by lia. apply u32_small. auto.
  - unfold is_on_disk. rewrite M, IO. auto.
Qed.

(** Every word is exactly one of the three kinds. *)
Theorem C24_downlink_kinds : forall d, 0 <= d < 2 ^ 64 ->
  (is_in_memory d = true /\ is_in_io d = false /\ is_on_disk d = false) \/
  (is_in_memory d = false /\ is_in_io d = true /\ is_on_disk d = false) \/
  (is_in_memory d = false /\ is_in_io d = false /\ is_on_disk d = true).
Proof.
  intros d Hd. unfold is_on_disk. destruct (is_in_memory d) eqn:M; destruct (is_in_io d) eqn:I; auto.
  exfalso. unfold is_in_memory in M. unfold is_in_io in I. apply Z.eqb_eq in M. apply Z.eqb_eq in I.
  assert (X : Z.land (Z.land d IO_BUF_MASK) DISK_BIT = Z.land IO_BUF_MASK DISK_BIT) by (rewrite I; auto).
  rewrite <- Z.land_assoc in X. change (Z.land IO_BUF_MASK DISK_BIT) with DISK_BIT in X. rewrite M in X. discriminate.
Qed.

(** Distinct references have distinct words. *)
Theorem C24_downlinks_injective :
  (forall b c b' c', 0 <= b < 2 ^ 32 -> 0 <= c < 2 ^ 31 -> 0 <= b' < 2 ^ 32 -> 0 <= c' < 2 ^ 31 ->
     make_in_memory b c = make_in_memory b' c' -> b = b' /\ c = c') /\
  (forall l o l' o', 0 <= l < 2 ^ 15 - 1 -> 0 <= o < 2 ^ 48 -> 0 <= l' < 2 ^ 15 - 1 -> 0 <= o' < 2 ^ 48 ->
     make_on_disk l o = make_on_disk l' o' -> l = l' /\ o = o').
Proof.
  split.
  - intros b c b' c' H1 H2 H3 H4 E. destruct (C24_in_memory_downlink b c H1 H2) as (_ & A & B & _).
    destruct (C24_in_memory_downlink b' c' H3 H4) as (_ & A' & B' & _). rewrite E in *. split; congruence.
  - intros l o l' o' H1 H2 H3 H4 E. destruct (C24_on_disk_downlink l o H1 H2) as (_ & A & B & _).
    destruct (C24_on_disk_downlink l' o' H3 H4) as (_ & A' & B' & _). rewrite E in *. split; congruence.
Qed.

(** Row headers: transaction, lock mode and lock-only flag; the whole info fits the 61
    bits that the header gives it. *)
Theorem C24_xact_info : forall oxid mode lo, 0 <= oxid < 2 ^ 58 -> 0 <= mode <= 3 ->
  let x := make_xact_info oxid mode lo in
  holds x [(58, oxid); (2, mode); (1, if lo then 1 else 0)] /\ xi_oxid x = oxid /\ xi_mode x = mode /\ xi_lock_only x = lo /\ 0 <= x < 2 ^ 61.
Proof.
  intros o m lo Ho Hm x. assert (E : x = cat 58 o (cat 2 m (if lo then 1 else 0))).
  { unfold x, make_xact_info, shl64. rewrite !(u64_small o), !(u64_small m) by lia. rewrite shl_cat by lia.
    rewrite u64_small by (unfold cat; lia). rewrite (cat_0 58 o) at 1. rewrite cat_lor by lia. lz.
    replace (if lo then LOCK_ONLY_BIT else 0) with (cat 58 0 (cat 2 0 (if lo then 1 else 0))) by (destruct lo; reflexivity).
    rewrite (cat_0 2 m) at 1. cl. auto. }
  split; [rewrite E; apply (holds_cat _ _ _ _ _ eq_refl Ho); apply (holds_cat _ _ _ m _ eq_refl); [lia|]; apply holds_last; destruct lo; lia|].
  split; [|split; [|split; [|rewrite E; unfold cat; destruct lo; lia]]].
  - unfold xi_oxid. rewrite E. change LOCK_OXID_MASK with (cat 58 (2 ^ 58 - 1) 0). cl. rewrite land_ones_id by lia. symmetry. apply cat_0.
  - unfold xi_mode. rewrite E. change LOCK_MODE_MASK with (cat 58 0 (cat 2 (2 ^ 2 - 1) 0)). cl. rewrite land_ones_id by lia.
    rewrite cat_shiftr by lia. symmetry. apply cat_0.
  - unfold xi_lock_only. rewrite E. change LOCK_ONLY_BIT with (cat 58 0 (cat 2 0 1)). cl. destruct lo; auto.
Qed.

Lemma bitfield : forall fs, Forall (fun f => 0 <= fst f /\ 0 <= snd f < 2 ^ fst f) fs ->
  holds (pack fs) fs /\ unpack (map fst fs) (pack fs) = map snd fs.
Proof.
  intros fs F. pose proof (pack_holds fs F). split; auto. apply holds_unpack; auto.
  eapply Forall_impl; [|exact F]. cbn. tauto.
Qed.

(** The leaf tuple header, with the undo location possibly invalid (bit 61 set). *)
Theorem C24_leaf_tuple_header : forall oxid mode lo deleted chl undo fmt,
  0 <= oxid < 2 ^ 58 -> 0 <= mode <= 3 -> 0 <= deleted <= 3 -> 0 <= chl <= 1 -> 0 <= undo < 2 ^ 62 -> 0 <= fmt <= 3 ->
  unpack [61; 2; 1] (tuphdr1 (make_xact_info oxid mode lo) deleted chl) = [make_xact_info oxid mode lo; deleted; chl] /\
  unpack [62; 2] (tuphdr2 undo fmt) = [undo; fmt].
Proof.
  intros oxid mode lo del chl undo fmt H1 H2 H3 H4 H5 H6. destruct (C24_xact_info oxid mode lo H1 H2) as (_ & _ & _ & _ & R).
  split; [apply (bitfield [(61, make_xact_info oxid mode lo); (2, del); (1, chl)])|apply (bitfield [(62, undo); (2, fmt)])];
    repeat constructor; cbn; try lia.
Qed.
Theorem C24_undo_location : forall l, 0 <= l < 2 ^ 61 ->
  undo_valid l = true /\ undo_value l = l /\ undo_valid (Z.lor l InvalidUndoLocation) = false /\ undo_value (Z.lor l InvalidUndoLocation) = l.
Proof.
  intros l Hl. unfold undo_valid, undo_value. change InvalidUndoLocation with (cat 61 0 1). change 0x1FFFFFFFFFFFFFFF with (cat 61 (2 ^ 61 - 1) 0).
  rewrite (cat_0 61 l). cl. change (Z.land 1 1) with 1. rewrite land_ones_id by lia. repeat split; auto.
Qed.

(** Chunk descriptors of a page; page locations are multiples of four below 2^14. *)
Theorem C24_chunk_descriptor : forall loc off hk fixed fl,
  0 <= loc < 2 ^ 14 -> loc mod 4 = 0 -> 0 <= off < 2 ^ 10 -> 0 <= hk < 512 -> hk mod 4 = 0 -> 0 <= fixed <= 1 -> 0 <= fl <= 3 ->
  let d := chunk_desc (loc_get_short loc) off (loc_get_short hk) fixed fl in
  unpack [12; 10; 7; 1; 2] d = [loc_get_short loc; off; loc_get_short hk; fixed; fl] /\ 0 <= d < 2 ^ 32 /\
  short_get_loc (loc_get_short loc) = loc /\ short_get_loc (loc_get_short hk) = hk.
Proof.
  intros loc off hk fx fl H1 H2 H3 H4 H5 H6 H7 d. unfold loc_get_short, short_get_loc in *.
  pose proof (Z.div_mod loc 4 ltac:(lia)). pose proof (Z.div_mod hk 4 ltac:(lia)).
  assert (F : Forall (fun f => 0 <= fst f /\ 0 <= snd f < 2 ^ fst f) [(12, loc / 4); (10, off); (7, hk / 4); (1, fx); (2, fl)]) by (repeat constructor; cbn; lia).
  destruct (bitfield _ F) as [A B]. split; [exact B|]. split; [|lia].
  refine (holds_range _ _ _ A). repeat constructor; cbn; lia.
Qed.

Theorem C24_file_extent : forall len off, 0 <= len < 2 ^ 16 -> 0 <= off < 2 ^ 48 -> unpack [16; 48] (file_extent len off) = [len; off].
Proof. intros. apply (bitfield [(16, len); (48, off)]). repeat constructor; cbn; lia. Qed.
Theorem C24_s3_checkpoint_number : forall o c h, 0 <= o < 2 ^ 32 -> 0 <= c < 2 ^ 8 -> 0 <= h ->
  s3_chkp_num (o + 2 ^ 32 * (c + 2 ^ 8 * h)) = c.
Proof.
  intros o c h Ho Hc Hh. unfold s3_chkp_num. change (o + 2 ^ 32 * (c + 2 ^ 8 * h)) with (cat 32 o (cat 8 c h)).
  change 0xFF00000000 with (cat 32 0 (cat 8 (2 ^ 8 - 1) 0)). cl. rewrite land_ones_id by lia. rewrite cat_shiftr by lia. symmetry. apply cat_0.
Qed.

(** Page items: offset below 2^14 and one format flag. *)
Theorem C24_page_item : forall off f f', 0 <= off < 2 ^ 14 -> 0 <= f <= 1 -> 0 <= f' <= 1 ->
  let i := off + 2 ^ 14 * f in
  item_offset i = off /\ item_flags i = f /\ item_offset (item_set_flags i f') = off /\ item_flags (item_set_flags i f') = f'.
Proof.
  intros off f f' Ho Hf Hf' i. assert (E : i = cat 14 off f) by reflexivity.
  assert (A : forall g, item_offset (cat 14 off g) = off).
  { intros g. unfold item_offset. change 0x3FFF with (cat 14 (2 ^ 14 - 1) 0). cl. rewrite land_ones_id by lia. symmetry. apply cat_0. }
  assert (B : forall g, item_flags (cat 14 off g) = g) by (intros g; unfold item_flags; apply cat_shiftr; lia).
  assert (S : item_set_flags i f' = cat 14 off f').
  { unfold item_set_flags. rewrite E. change (Z.shiftl 1 14) with (cat 14 0 1). destruct (Z.eqb_spec f' 0) as [->|N].
    - change (Z.lnot (cat 14 0 1)) with (cat 14 (2 ^ 14 - 1) (-2)). cl. rewrite land_ones_id by lia.
      assert (f = 0 \/ f = 1) as [-> | ->] by lia; reflexivity.
    - cl. assert (f' = 1) by lia. subst. assert (f = 0 \/ f = 1) as [-> | ->] by lia; reflexivity. }
  rewrite S, E, !A, !B. auto.
Qed.

(** Transaction-status words: an unfinished transaction's word is recognised and gives
    back process, level and status; a commit sequence number is never taken for one. *)
Lemma bit01 : forall v, 0 <= v <= 1 -> Z.lor 0 v = v.
Proof. intros. apply Z.lor_0_l. Qed.
Theorem C24_csn_special : forall p l s, 0 <= p < 2 ^ 16 -> 0 <= l < 2 ^ 31 -> 0 <= s <= 1 ->
  let c := csn_make_special p l s in
  csn_is_special c = true /\ csn_procnum c = p /\ csn_level c = l /\ csn_status c = s /\
  csn_retained c = false /\ csn_load c = c.
Proof.
  intros p l s Hp Hl Hs c. assert (E : c = cat 1 s (cat 14 0 (cat 16 p (cat 31 l (cat 1 0 1))))).
  { unfold c, csn_make_special, shl64. rewrite !(u64_small p), !(u64_small l) by lia. rewrite !shl_cat by lia.
    rewrite !u64_small by (unfold cat; lia).
    change CSN_SPECIAL_BIT with (cat 1 0 (cat 14 0 (cat 16 0 (cat 31 0 (cat 1 0 1))))).
    replace (cat 15 0 p) with (cat 1 0 (cat 14 0 (cat 16 p (cat 31 0 (cat 1 0 0))))) by (unfold cat; lia).
    replace (cat 31 0 l) with (cat 1 0 (cat 14 0 (cat 16 0 (cat 31 l (cat 1 0 0))))) by (unfold cat; lia).
    rewrite (cat_0 1 s) at 1. cl. auto. }
  assert (Hs2 : s = 0 \/ s = 1) by lia.
  repeat split.
  - unfold csn_is_special. rewrite E. change CSN_SPECIAL_BIT with (cat 1 0 (cat 14 0 (cat 16 0 (cat 31 0 (cat 1 0 1))))). cl. reflexivity.
  - unfold csn_procnum. rewrite E. replace (cat 1 s (cat 14 0 (cat 16 p (cat 31 l (cat 1 0 1))))) with (cat 15 s (cat 16 p (cat 31 l (cat 1 0 1)))) by (unfold cat; lia).
    rewrite cat_shiftr by lia. change 0xFFFF with (cat 16 (2 ^ 16 - 1) 0). cl. rewrite land_ones_id by lia. symmetry. apply cat_0.
  - unfold csn_level. rewrite E. replace (cat 1 s (cat 14 0 (cat 16 p (cat 31 l (cat 1 0 1))))) with (cat 31 (s + 2 ^ 15 * p) (cat 32 l 1)) by (unfold cat; lia).
    rewrite cat_shiftr by lia. change 0xFFFFFFFF with (cat 32 (2 ^ 32 - 1) 0). cl. rewrite land_ones_id by lia. symmetry. apply cat_0.
  - unfold csn_status. rewrite E. change (Z.land (cat 1 s (cat 14 0 (cat 16 p (cat 31 l (cat 1 0 1))))) 1) with (Z.land (cat 1 s (cat 14 0 (cat 16 p (cat 31 l (cat 1 0 1))))) (cat 1 1 0)).
    cl. destruct Hs2 as [-> | ->]; reflexivity.
  - unfold csn_retained. rewrite E. change CSN_RETAINED with (cat 1 0 (cat 14 0 (cat 16 0 (cat 31 0 (cat 1 1 0))))). cl. reflexivity.
  - unfold csn_load. rewrite E. change (c_not CSN_RETAINED) with (cat 1 1 (cat 14 (2 ^ 14 - 1) (cat 16 (2 ^ 16 - 1) (cat 31 (2 ^ 31 - 1) (cat 1 0 1))))).
    cl. rewrite !land_ones_id by lia. destruct Hs2 as [-> | ->]; reflexivity.
Qed.
(** ... and a nesting level of 2^31 would be mistaken for the rewind flag and lost. *)
Theorem C24_csn_level_2_31_refuted : csn_level (csn_load (csn_make_special 0 (2 ^ 31) 0)) <> 2 ^ 31 /\ csn_retained (csn_make_special 0 (2 ^ 31) 0) = true.
Proof. vm_compute. split; [discriminate|auto]. Qed.
Theorem C24_csn_normal : forall csn rw, 0 <= csn < 2 ^ 62 ->
  csn_is_special csn = false /\ csn_is_special (csn_store csn rw) = false /\ csn_load (csn_store csn rw) = csn /\ csn_retained (csn_store csn rw) = rw.
Proof.
  intros csn rw H.
  assert (E : csn_store csn rw = cat 62 csn (cat 1 (if rw then 1 else 0) 0)).
  { unfold csn_store. replace (if rw then CSN_RETAINED else 0) with (cat 62 0 (cat 1 (if rw then 1 else 0) 0)) by (destruct rw; reflexivity).
    rewrite (cat_0 62 csn) at 1. cl. auto. }
  unfold csn_is_special, csn_load, csn_retained. rewrite E. change CSN_SPECIAL_BIT with (cat 62 0 (cat 1 0 1)).
  change (c_not CSN_RETAINED) with (cat 62 (2 ^ 62 - 1) (cat 1 0 1)). change CSN_RETAINED with (cat 62 0 (cat 1 1 0)).
  rewrite (cat_0 62 csn) at 1. assert (R : 0 <= (if rw then 1 else 0) < 2 ^ 1) by (destruct rw; lia). cl. rewrite land_ones_id by lia.
  destruct rw; repeat split; auto; symmetry; apply cat_0.
Qed.

(** The same for the WAL-pointer words of recovery: aligned pointers are never special. *)
Theorem C24_ptr_special : forall p l s, 0 <= p < 2 ^ 16 -> 0 <= l < 2 ^ 32 -> s = 0 \/ s = 2 ->
  let c := ptr_make_special p l s in
  ptr_is_special c = true /\ ptr_procnum c = p /\ ptr_level c = l /\ ptr_status c = s.
Proof.
  intros p l s Hp Hl Hs c. assert (E : c = cat 2 (1 + s) (cat 13 0 (cat 16 p l))).
  { unfold c, ptr_make_special, shl64. rewrite !(u64_small p), !(u64_small l) by lia. rewrite !shl_cat by lia.
    rewrite !u64_small by (unfold cat; lia).
    replace (Z.lor 1 (cat 15 0 p)) with (Z.lor (cat 2 1 (cat 13 0 (cat 16 0 0))) (cat 15 0 p)) by reflexivity.
    replace (cat 15 0 p) with (cat 2 0 (cat 13 0 (cat 16 p 0))) by (unfold cat; lia).
    replace (cat 31 0 l) with (cat 2 0 (cat 13 0 (cat 16 0 l))) by (unfold cat; lia).
    replace s with (cat 2 s 0) by (symmetry; apply cat_0). cl. unfold cat at 5. destruct Hs as [-> | ->]; reflexivity. }
  repeat split.
  - unfold ptr_is_special. rewrite E. replace 1 with (cat 2 1 0) at 2 by reflexivity. cl. destruct Hs as [-> | ->]; reflexivity.
  - unfold ptr_procnum. rewrite E. replace (cat 2 (1 + s) (cat 13 0 (cat 16 p l))) with (cat 15 (1 + s) (cat 16 p l)) by (unfold cat; lia).
    rewrite cat_shiftr by lia. change 0xFFFF with (cat 16 (2 ^ 16 - 1) 0). cl. rewrite land_ones_id by lia. symmetry. apply cat_0.
  - unfold ptr_level. rewrite E. replace (cat 2 (1 + s) (cat 13 0 (cat 16 p l))) with (cat 31 (1 + s + 2 ^ 15 * p) l) by (unfold cat; lia).
    rewrite cat_shiftr by lia. apply (land_ones_id 32); lia.
  - unfold ptr_status. rewrite E. replace 2 with (cat 2 2 0) at 2 by reflexivity. cl. destruct Hs as [-> | ->]; reflexivity.
Qed.
Theorem C24_ptr_aligned : forall a, 0 <= a -> ptr_is_special (ptr_align a) = false /\ a <= ptr_align a <= a + 1.
Proof.
  intros a Ha. unfold ptr_align, ptr_is_special. assert (E : Z.land a 1 = a mod 2) by (apply (Z.land_ones a 1); lia).
  rewrite E. pose proof (Z.mod_pos_bound a 2 ltac:(lia)). split; [|lia].
  replace (Z.land (a + a mod 2) 1) with ((a + a mod 2) mod 2) by (symmetry; apply (Z.land_ones _ 1); lia).
  rewrite Zplus_mod_idemp_r. replace (a + a) with (a * 2) by ring. rewrite Z.mod_mul by lia. auto.
Qed.

(** Page-state words: list tail, locked, no-read, change count, usage count. *)
Definition pst (t l n c u x : Z) : list (Z * Z) := [(18, t); (1, l); (1, n); (32, c); (4, u); (8, x)].
Lemma pst_cat : forall s t l n c u x, holds s (pst t l n c u x) ->
  s = cat 18 t (cat 1 l (cat 1 n (cat 32 c (cat 4 u (cat 8 x 0))))) /\
  0 <= t < 2 ^ 18 /\ 0 <= l < 2 ^ 1 /\ 0 <= n < 2 ^ 1 /\ 0 <= c < 2 ^ 32 /\ 0 <= u < 2 ^ 4 /\ 0 <= x < 2 ^ 8.
Proof.
  intros s t l n c u x H. cbn in H. destruct H as (A & h1 & -> & B & h2 & -> & D & h3 & -> & E & h4 & -> & F & h5 & -> & G & h6 & -> & ->).
  unfold cat. repeat split; lia.
Qed.
Lemma pst_holds : forall t l n c u x, 0 <= t < 2 ^ 18 -> 0 <= l < 2 ^ 1 -> 0 <= n < 2 ^ 1 -> 0 <= c < 2 ^ 32 -> 0 <= u < 2 ^ 4 -> 0 <= x < 2 ^ 8 ->
  holds (cat 18 t (cat 1 l (cat 1 n (cat 32 c (cat 4 u (cat 8 x 0)))))) (pst t l n c u x).
Proof. intros. unfold pst. repeat (eapply holds_cat; [reflexivity|auto|]). reflexivity. Qed.
Theorem C24_page_state_total : forall s, 0 <= s < 2 ^ 64 -> exists t l n c u x, holds s (pst t l n c u x).
Proof.
  intros s Hs. pose proof (holds_exists [18; 1; 1; 32; 4; 8] s ltac:(repeat constructor; lia) Hs) as H. cbn [combine unpack] in H.
  do 6 eexists. exact H.
Qed.
Theorem C24_page_state : forall s t l n c u x, holds s (pst t l n c u x) ->
  ps_tail s = t /\ ps_is_locked s = (l =? 1) /\ ps_read_blocked s = (n =? 1) /\ ps_usage s = u /\
  holds (ps_lock s) (pst t 1 n c u x) /\ holds (ps_block_read s) (pst t 1 1 c u x) /\
  (forall u', 0 <= u' < 16 -> holds (ps_set_usage s u') (pst t l n c u' x)) /\
  (forall t', 0 <= t' < 2 ^ 18 -> holds (ps_set_tail s t') (pst t' l n c u x)) /\
  (forall t', 0 <= t' < 2 ^ 18 -> holds (ps_unlock s t') (pst t' 0 0 (if n =? 1 then (c + 1) mod 2 ^ 32 else c) u x)).
Proof.
  intros s t l n c u x H. apply pst_cat in H. destruct H as (E & Ht & Hl & Hn & Hc & Hu & Hx).
  assert (L2 : l = 0 \/ l = 1) by lia. assert (N2 : n = 0 \/ n = 1) by lia.
  assert (RB : ps_read_blocked s = (n =? 1)).
  { unfold ps_read_blocked. rewrite E. change PS_NO_READ with (cat 18 0 (cat 1 0 (cat 1 1 (cat 32 0 (cat 4 0 (cat 8 0 0)))))). cl. destruct N2 as [-> | ->]; reflexivity. }
  split; [|split; [|split; [|split; [|split; [|split; [|split; [|split]]]]]]]; auto.
  - unfold ps_tail. rewrite E. change PS_TAIL_MASK with (cat 18 (2 ^ 18 - 1) 0). cl. rewrite land_ones_id by lia. symmetry. apply cat_0.
  - unfold ps_is_locked. rewrite E. change PS_LOCKED with (cat 18 0 (cat 1 1 (cat 1 0 (cat 32 0 (cat 4 0 (cat 8 0 0)))))). cl. destruct L2 as [-> | ->]; reflexivity.
  - unfold ps_usage. rewrite E. change PS_USAGE_MASK with (cat 18 0 (cat 1 0 (cat 1 0 (cat 32 0 (cat 4 (2 ^ 4 - 1) (cat 8 0 0)))))). cl.
    rewrite land_ones_id by lia. match goal with |- Z.shiftr ?a 52 = _ => replace a with (cat 52 0 u) by (unfold cat; lia) end.
    apply cat_shiftr; lia.
  - unfold ps_lock. rewrite E. change PS_LOCKED with (cat 18 0 (cat 1 1 (cat 1 0 (cat 32 0 (cat 4 0 (cat 8 0 0)))))). cl.
    replace (Z.lor l 1) with 1 by (destruct L2 as [-> | ->]; reflexivity). apply pst_holds; auto; lia.
  - unfold ps_block_read. rewrite E. change PS_LOCKED with (cat 18 0 (cat 1 1 (cat 1 0 (cat 32 0 (cat 4 0 (cat 8 0 0)))))).
    change PS_NO_READ with (cat 18 0 (cat 1 0 (cat 1 1 (cat 32 0 (cat 4 0 (cat 8 0 0)))))). cl.
    replace (Z.lor l 1) with 1 by (destruct L2 as [-> | ->]; reflexivity). cl. replace (Z.lor n 1) with 1 by (destruct N2 as [-> | ->]; reflexivity).
    apply pst_holds; auto; lia.
  - intros u' Hu'. unfold ps_set_usage, shl64. rewrite (u64_small u') by lia. rewrite shl_cat by lia. rewrite u64_small by (unfold cat; lia).
    replace (cat 52 0 u') with (cat 18 0 (cat 1 0 (cat 1 0 (cat 32 0 (cat 4 u' (cat 8 0 0)))))) by (unfold cat; lia). rewrite E.
    change (c_not PS_USAGE_MASK) with (cat 18 (2 ^ 18 - 1) (cat 1 (2 ^ 1 - 1) (cat 1 (2 ^ 1 - 1) (cat 32 (2 ^ 32 - 1) (cat 4 0 (cat 8 (2 ^ 8 - 1) 0)))))).
    cl. rewrite !land_ones_id by lia. cl. apply pst_holds; auto; lia.
  - intros t' Ht'. unfold ps_set_tail. rewrite E.
    change (c_not PS_TAIL_MASK) with (cat 18 0 (cat 1 (2 ^ 1 - 1) (cat 1 (2 ^ 1 - 1) (cat 32 (2 ^ 32 - 1) (cat 4 (2 ^ 4 - 1) (cat 8 (2 ^ 8 - 1) 0)))))).
    rewrite (cat_0 18 t') at 1. cl. rewrite !land_ones_id by lia. apply pst_holds; auto; lia.
  - intros t' Ht'. unfold ps_unlock. rewrite RB. cbv zeta.
    replace (Z.land s (c_not (Z.lor (Z.lor PS_TAIL_MASK PS_LOCKED) PS_NO_READ))) with (cat 18 0 (cat 1 0 (cat 1 0 (cat 32 c (cat 4 u (cat 8 x 0)))))).
    2: { rewrite E. change (c_not (Z.lor (Z.lor PS_TAIL_MASK PS_LOCKED) PS_NO_READ)) with (cat 18 0 (cat 1 0 (cat 1 0 (cat 32 (2 ^ 32 - 1) (cat 4 (2 ^ 4 - 1) (cat 8 (2 ^ 8 - 1) 0)))))).
         cl. rewrite !land_ones_id by lia. auto. }
    destruct (n =? 1).
    + change (c_not PS_CC_MASK) with (cat 18 (2 ^ 18 - 1) (cat 1 1 (cat 1 1 (cat 32 0 (cat 4 (2 ^ 4 - 1) (cat 8 (2 ^ 8 - 1) 0)))))).
      replace (Z.land (cat 18 0 (cat 1 0 (cat 1 0 (cat 32 c (cat 4 u (cat 8 x 0)))))) PS_CC_MASK) with (cat 20 0 c).
      2: { change PS_CC_MASK with (cat 18 0 (cat 1 0 (cat 1 0 (cat 32 (2 ^ 32 - 1) (cat 4 0 (cat 8 0 0)))))). cl. rewrite land_ones_id by lia. unfold cat. lia. }
      replace (cat 20 0 c + PS_CC_ONE) with (cat 20 0 (c + 1)) by (unfold cat, PS_CC_ONE; lia).
      rewrite u64_small by (unfold cat; lia).
      replace (Z.land (cat 20 0 (c + 1)) PS_CC_MASK) with (cat 18 0 (cat 1 0 (cat 1 0 (cat 32 ((c + 1) mod 2 ^ 32) (cat 4 0 (cat 8 0 0)))))).
      2: { change PS_CC_MASK with (cat 20 0 (2 ^ 32 - 1)). cl. replace (2 ^ 32 - 1) with (Z.ones 32) by reflexivity. rewrite Z.land_ones by lia. unfold cat. lia. }
      pose proof (Z.mod_pos_bound (c + 1) (2 ^ 32) ltac:(lia)).
      rewrite (cat_0 18 t') at 1. cl. rewrite !land_ones_id by lia. cl. apply pst_holds; auto; lia.
    + rewrite (cat_0 18 t') at 1. cl. apply pst_holds; auto; lia.
Qed.

(** Concrete, non-trivial words meet the hypotheses above. *)
Example C24_downlink_example :
  dl_blkno (make_in_memory 0x80000003 0x7FFFFFFE) = 0x80000003 /\ dl_changecount (make_in_memory 0x80000003 0x7FFFFFFE) = 0x7FFFFFFE /\
  dl_len (make_on_disk 17 0xABCDEF012345) = 17 /\ dl_off (make_on_disk 17 0xABCDEF012345) = 0xABCDEF012345.
Proof. vm_compute. auto. Qed.
(** The bound on the extent length is needed: an extent of length 2^15-1 high in the file
    would be read as a page in I/O. *)
Example C24_extent_bound_needed : is_in_io (make_on_disk (2 ^ 15 - 1) 0xFFFF00000000) = true.
Proof. vm_compute. auto. Qed.
Example C24_page_state_example : holds 0x0013FFFFFFF80005 (pst 5 0 1 0x3FFFFFFF 1 0) /\ holds (ps_unlock 0x001FFFFFFFFC0005 7) (pst 7 0 0 0 1 0).
Proof.
  split.
  - exact (pst_holds 5 0 1 0x3FFFFFFF 1 0 ltac:(lia) ltac:(lia) ltac:(lia) ltac:(lia) ltac:(lia) ltac:(lia)).
  - exact (pst_holds 7 0 0 0 1 0 ltac:(lia) ltac:(lia) ltac:(lia) ltac:(lia) ltac:(lia) ltac:(lia)).
Qed.

Print Assumptions C24_in_memory_downlink.
Print Assumptions C24_on_disk_downlink.
Print Assumptions C24_extent_length.
Print Assumptions C24_io_downlink.
Print Assumptions C24_downlink_kinds.
Print Assumptions C24_downlinks_injective.
Print Assumptions C24_xact_info.
Print Assumptions C24_leaf_tuple_header.
Print Assumptions C24_undo_location.
Print Assumptions C24_chunk_descriptor.
Print Assumptions C24_file_extent.
Print Assumptions C24_s3_checkpoint_number.
Print Assumptions C24_page_item.
Print Assumptions C24_csn_special.
Print Assumptions C24_csn_normal.
Print Assumptions C24_ptr_special.
Print Assumptions C24_ptr_aligned.
Print Assumptions C24_page_state_total.
Print Assumptions C24_page_state.
