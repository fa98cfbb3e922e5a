From Coq Require Import ZArith List Bool Lia ZifyBool.
From Verif Require Import Base PageIoModel PageIoSpec.
Import ListNotations.
Open Scope Z_scope.

(** * Lists *)
Lemma get_length : forall m off n, length (get m off n) = Z.to_nat n.
Proof. intros. unfold get. rewrite map_length, seq_length. reflexivity. Qed.

Lemma get_nth : forall m off n i, (i < Z.to_nat n)%nat -> nth i (get m off n) 0 = m (off + Z.of_nat i).
Proof.
  intros. unfold get.
  rewrite (nth_indep _ 0 (m (off + Z.of_nat 0))) by (rewrite map_length, seq_length; lia).
  rewrite (map_nth (fun i => m (off + Z.of_nat i))), seq_nth by lia. f_equal.
Qed.

Lemma nth_eq_list : forall (a b : list Z), length a = length b ->
  (forall i, (i < length a)%nat -> nth i a 0 = nth i b 0) -> a = b.
Proof. intros. apply (nth_ext a b 0 0); auto. Qed.

Lemma app_eq_len : forall (a b c d : list Z), a ++ b = c ++ d -> length a = length c -> a = c /\ b = d.
Proof.
  induction a; destruct c; cbn [app length]; intros d H L; try discriminate; auto.
  inversion H. destruct (IHa b c d H2 ltac:(lia)) as [-> ->]. auto.
Qed.

Lemma get_split : forall m off a b, 0 <= a -> 0 <= b -> get m off (a + b) = get m off a ++ get m (off + a) b.
Proof.
  intros. apply nth_eq_list.
  - rewrite app_length, !get_length. lia.
  - intros i Hi. rewrite get_length in Hi.
    destruct (Nat.ltb_spec i (Z.to_nat a)).
    + rewrite app_nth1 by (rewrite get_length; lia). rewrite !get_nth by lia. reflexivity.
    + rewrite app_nth2 by (rewrite get_length; lia). rewrite get_length. rewrite !get_nth by lia.
      f_equal. lia.
Qed.

Lemma get_ext : forall m m' off n, (forall a, off <= a < off + n -> m a = m' a) -> get m off n = get m' off n.
Proof.
  intros. unfold get. apply map_ext_in. intros i Hi. apply in_seq in Hi. apply H. lia.
Qed.

Lemma get_shift : forall m m' o o' n, (forall i, 0 <= i < n -> m (o + i) = m' (o' + i)) -> get m o n = get m' o' n.
Proof.
  intros. unfold get. apply map_ext_in. intros i Hi. apply in_seq in Hi. apply H. lia.
Qed.

Lemma get_put_same : forall m off l, get (put m off l) off (Z.of_nat (length l)) = l.
Proof.
  intros. apply nth_eq_list.
  - rewrite get_length. lia.
  - intros i Hi. rewrite get_length in Hi. rewrite get_nth by lia. unfold put.
    replace ((off <=? off + Z.of_nat i) && (off + Z.of_nat i <? off + Z.of_nat (length l))) with true by lia.
    f_equal. lia.
Qed.

Lemma put_app : forall m off a b x, put (put m off a) (off + Z.of_nat (length a)) b x = put m off (a ++ b) x.
Proof.
  intros. unfold put. rewrite app_length.
  destruct ((off + Z.of_nat (length a) <=? x) && (x <? off + Z.of_nat (length a) + Z.of_nat (length b))) eqn:E1.
  - replace ((off <=? x) && (x <? off + Z.of_nat (length a + length b))) with true by lia.
    rewrite app_nth2 by lia. f_equal. lia.
  - destruct ((off <=? x) && (x <? off + Z.of_nat (length a))) eqn:E2.
    + replace ((off <=? x) && (x <? off + Z.of_nat (length a + length b))) with true by lia.
      rewrite app_nth1 by lia. reflexivity.
    + replace ((off <=? x) && (x <? off + Z.of_nat (length a + length b))) with false by lia. reflexivity.
Qed.

Lemma put_ext : forall m m' off l x, m x = m' x -> put m off l x = put m' off l x.
Proof. intros. unfold put. destruct (_ && _); auto. Qed.

(** * Segments *)
Lemma gran_pos : forall cfg, 0 < gran cfg.
Proof. intros. unfold gran, PARTSZ, SEGSZ. destruct (c_s3 cfg); lia. Qed.

Lemma gran_div : forall cfg, exists k, 0 < k /\ SEGSZ = k * gran cfg.
Proof.
  intros. unfold gran. destruct (c_s3 cfg); [exists 1024|exists 1]; unfold SEGSZ, PARTSZ; lia.
Qed.

(** One stretch that does not pass a multiple of the granularity lies in one
    segment. *)
Lemma one_seg : forall cfg off i n, 0 <= off -> 0 <= i < n ->
  n <= gran cfg - off mod gran cfg ->
  (off + i) / SEGSZ = off / SEGSZ /\ (off + i) mod SEGSZ = off mod SEGSZ + i.
Proof.
  intros cfg off i n Ho Hi Hn.
  destruct (gran_div cfg) as [k [Hk E]]. pose proof (gran_pos cfg) as G.
  set (g := gran cfg) in *. clearbody g.
  pose proof (Z.div_mod off g ltac:(lia)) as D1. pose proof (Z.mod_pos_bound off g G) as B1.
  pose proof (Z.div_mod off SEGSZ ltac:(unfold SEGSZ; lia)) as D2.
  pose proof (Z.mod_pos_bound off SEGSZ ltac:(unfold SEGSZ; lia)) as B2.
  assert (L : off mod SEGSZ + i < SEGSZ).
  { assert (M : (off mod SEGSZ) mod g = off mod g).
    { rewrite D2 at 2. rewrite E at 2.
      replace (k * g * (off / SEGSZ) + off mod SEGSZ) with (off mod SEGSZ + (k * (off / SEGSZ)) * g) by ring.
      symmetry. apply Z_mod_plus_full. }
    pose proof (Z.div_mod (off mod SEGSZ) g ltac:(lia)) as D3.
    rewrite M in D3.
    assert (Q : (off mod SEGSZ) / g < k). { apply Z.div_lt_upper_bound; lia. }
    clear - Q D3 E Hi Hn G. nia. }
  assert (P : 0 < SEGSZ) by (unfold SEGSZ; lia).
  split.
  - symmetry. apply (Z.div_unique _ _ _ (off mod SEGSZ + i)); [lia|]. lia.
  - symmetry. apply (Z.mod_unique _ _ (off / SEGSZ)); [lia|]. lia.
Qed.

Lemma same_gran : forall g off n, 0 < g -> 0 <= off -> 0 < n -> (off + n) / g = off / g -> n < g - off mod g.
Proof.
  intros. pose proof (Z.div_mod off g ltac:(lia)). pose proof (Z.div_mod (off + n) g ltac:(lia)).
  pose proof (Z.mod_pos_bound (off + n) g ltac:(lia)). rewrite H2 in H4. lia.
Qed.

Lemma other_gran : forall g off n, 0 < g -> 0 <= off -> 0 < n -> (off + n) / g <> off / g -> g - off mod g <= n.
Proof.
  intros. pose proof (Z.div_mod off g ltac:(lia)). pose proof (Z.mod_pos_bound off g ltac:(lia)).
  destruct (Z.le_gt_cases (g - off mod g) n); auto. exfalso. apply H2.
  symmetry. apply (Z.div_unique _ _ _ (off mod g + n)); lia.
Qed.

(** The bytes of a tree's data as one address space. *)
Definition flin (cfg : config) (fs : Z -> Z -> Z -> Z) (f : Z) : Z -> Z :=
  fun a => fs f (a / SEGSZ) (a mod SEGSZ + shift_of cfg).
Definition lin (cfg : config) (d : disk) (f : Z) : Z -> Z :=
  if c_dev cfg then d_dev d else flin cfg (d_files d) f.

Lemma get_flin : forall cfg fs f off n, 0 <= off -> n <= gran cfg - off mod gran cfg ->
  get (fs f (off / SEGSZ)) (off mod SEGSZ + shift_of cfg) n = get (flin cfg fs f) off n.
Proof.
  intros. apply get_shift. intros i Hi. unfold flin.
  destruct (one_seg cfg off i n H Hi H0) as [E1 E2]. rewrite E1, E2. f_equal. lia.
Qed.

Lemma rloop_lin : forall fuel cfg fs f n off, 0 <= off -> n < Z.of_nat fuel ->
  smgr_rloop fuel cfg fs f n off = get (flin cfg fs f) off n.
Proof.
  induction fuel; intros cfg fs f n off Ho Hf.
  - assert (n < 0) by lia. cbn [smgr_rloop]. unfold get. replace (Z.to_nat n) with 0%nat by lia. reflexivity.
  - cbn [smgr_rloop]. destruct (Z.leb_spec n 0).
    { unfold get. replace (Z.to_nat n) with 0%nat by lia. reflexivity. }
    pose proof (gran_pos cfg) as G. pose proof (Z.mod_pos_bound off (gran cfg) G).
    destruct (Z.eqb_spec ((off + n) / gran cfg) (off / gran cfg)) as [E|E].
    + pose proof (same_gran (gran cfg) off n G Ho ltac:(lia) E). apply get_flin; lia.
    + pose proof (other_gran (gran cfg) off n G Ho ltac:(lia) E).
      rewrite IHfuel by lia. rewrite get_flin by lia. rewrite <- get_split by lia. f_equal. lia.
Qed.

Lemma smgr_read_lin : forall cfg d f n off, 0 <= off -> smgr_read cfg d f n off = get (lin cfg d f) off n.
Proof.
  intros. unfold smgr_read, lin. destruct (c_dev cfg); auto. apply rloop_lin; lia.
Qed.

Lemma seg_mul : forall q r, 0 <= r < SEGSZ -> (q * SEGSZ + r) / SEGSZ = q /\ (q * SEGSZ + r) mod SEGSZ = r.
Proof.
  intros. assert (0 < SEGSZ) by (unfold SEGSZ; lia). split.
  - symmetry. apply (Z.div_unique _ _ _ r); lia.
  - symmetry. apply (Z.mod_unique _ _ q); lia.
Qed.

Lemma put_flin : forall cfg fs f off l f' a, 0 <= off -> 0 <= a ->
  Z.of_nat (length l) <= gran cfg - off mod gran cfg ->
  flin cfg (file_put fs f (off / SEGSZ) (off mod SEGSZ + shift_of cfg) l) f' a =
  if f' =? f then put (flin cfg fs f) off l a else flin cfg fs f' a.
Proof.
  intros cfg fs f off l f' a Ho Ha Hl. unfold flin at 1, file_put.
  destruct (Z.eqb_spec f' f) as [->|N]; cbn [andb]; [|reflexivity].
  unfold put.
  destruct ((off <=? a) && (a <? off + Z.of_nat (length l))) eqn:E.
  - destruct (one_seg cfg off (a - off) (Z.of_nat (length l)) Ho ltac:(lia) Hl) as [E1 E2].
    replace (off + (a - off)) with a in * by lia. rewrite E1, E2, Z.eqb_refl.
    match goal with |- (if ?c then _ else _) = _ => replace c with true by lia end.
    f_equal. lia.
  - destruct (Z.eqb_spec (a / SEGSZ) (off / SEGSZ)) as [E1|E1]; [|reflexivity].
    match goal with |- (if ?c then _ else _) = _ => replace c with false end.
    { unfold flin. rewrite E1. reflexivity. }
    pose proof (Z.div_mod a SEGSZ ltac:(unfold SEGSZ; lia)).
    pose proof (Z.div_mod off SEGSZ ltac:(unfold SEGSZ; lia)).
    rewrite E1 in H. lia.
Qed.

Lemma flin_ext_put : forall cfg fs f off l a (m : Z -> Z), m a = flin cfg fs f a ->
  put (flin cfg fs f) off l a = put m off l a.
Proof. intros. apply put_ext. auto. Qed.

Lemma wloop_lin : forall fuel cfg fs f l off f' a, 0 <= off -> 0 <= a ->
  (length l < fuel)%nat ->
  flin cfg (smgr_wloop fuel cfg fs f l off) f' a =
  if f' =? f then put (flin cfg fs f) off l a else flin cfg fs f' a.
Proof.
  induction fuel; intros cfg fs f l off f' a Ho Ha Hf; [lia|].
  cbn [smgr_wloop]. set (n := Z.of_nat (length l)).
  destruct (Z.leb_spec n 0) as [L|L].
  { destruct l; [|subst n; cbn in L; lia]. destruct (Z.eqb_spec f' f) as [->|]; auto.
    unfold put. cbn [length]. replace ((off <=? a) && (a <? off + Z.of_nat 0)) with false by lia. auto. }
  pose proof (gran_pos cfg) as G. pose proof (Z.mod_pos_bound off (gran cfg) G).
  destruct (Z.eqb_spec ((off + n) / gran cfg) (off / gran cfg)) as [E|E].
  - pose proof (same_gran (gran cfg) off n G Ho ltac:(lia) E). apply put_flin; lia.
  - pose proof (other_gran (gran cfg) off n G Ho ltac:(lia) E).
    set (stp := gran cfg - off mod gran cfg) in *.
    assert (Lf : length (firstn (Z.to_nat stp) l) = Z.to_nat stp) by (rewrite firstn_length; lia).
    rewrite IHfuel; [|lia|lia|rewrite skipn_length; lia].
    assert (PF : forall x, 0 <= x -> forall f'', flin cfg (file_put fs f (off / SEGSZ) (off mod SEGSZ + shift_of cfg) (firstn (Z.to_nat stp) l)) f'' x =
                 if f'' =? f then put (flin cfg fs f) off (firstn (Z.to_nat stp) l) x else flin cfg fs f'' x).
    { intros. apply put_flin; try lia. }
    destruct (Z.eqb_spec f' f) as [->|N].
    + rewrite (flin_ext_put _ _ _ _ _ _ (put (flin cfg fs f) off (firstn (Z.to_nat stp) l))).
      2:{ rewrite PF, Z.eqb_refl by lia. reflexivity. }
      replace (off + stp) with (off + Z.of_nat (length (firstn (Z.to_nat stp) l))) by lia.
      rewrite put_app, firstn_skipn. reflexivity.
    + rewrite PF by lia. replace (f' =? f) with false by lia. reflexivity.
Qed.

Definition same_file (cfg : config) (f f' : Z) : bool := c_dev cfg || (f' =? f).

Lemma smgr_write_lin : forall cfg d f l off f' a, 0 <= off -> 0 <= a ->
  lin cfg (smgr_write cfg d f l off) f' a =
  if same_file cfg f f' then put (lin cfg d f) off l a else lin cfg d f' a.
Proof.
  intros. unfold lin, smgr_write, same_file. destruct (c_dev cfg) eqn:D; cbn [orb d_dev d_files]; auto.
  apply wloop_lin; lia.
Qed.

(** * Little-endian fields *)
Lemma le_length : forall n v, length (le n v) = n.
Proof. induction n; intros; cbn [le length]; auto. Qed.

Lemma unle_le : forall n v, 0 <= v < 256 ^ Z.of_nat n -> unle (le n v) = v.
Proof.
  induction n; intros v H.
  - cbn in H. cbn [le unle]. lia.
  - cbn [le unle]. rewrite Nat2Z.inj_succ, Z.pow_succ_r in H by lia.
    rewrite IHn. { pose proof (Z.div_mod v 256 ltac:(lia)). lia. }
    split; [apply Z.div_pos; lia|apply Z.div_lt_upper_bound; lia].
Qed.

Lemma sub_length : forall l a n, 0 <= a -> 0 <= n -> a + n <= Z.of_nat (length l) -> length (sub l a n) = Z.to_nat n.
Proof. intros. unfold sub. rewrite firstn_length, skipn_length. lia. Qed.

Lemma enc_length : forall h, length (enc_ohdr h) = 16%nat.
Proof. intros. unfold enc_ohdr. rewrite !app_length, !le_length. reflexivity. Qed.

Definition hdr_ok (h : ohdr) : Prop :=
  0 <= oh_chkp h < 2 ^ 32 /\ 0 <= oh_csize h < 2 ^ 16 /\ 0 <= oh_cver h < 256 /\
  0 <= oh_pver h < 256 /\ 0 <= oh_sum h < 2 ^ 16.

Lemma dec_enc : forall h r, hdr_ok h -> dec_ohdr (enc_ohdr h ++ r) = h.
Proof.
  intros h r (A & B & C & D & E). unfold dec_ohdr, enc_ohdr.
  assert (X : forall (a b : list Z), skipn (length a) (a ++ b) = b).
  { intros. rewrite skipn_app, Nat.sub_diag, skipn_all. reflexivity. }
  destruct h as [c s cv pv sm]; cbn [oh_chkp oh_csize oh_cver oh_pver oh_sum] in *.
  set (l4 := le 4 c). set (l2 := le 2 s). set (l1 := le 1 cv). set (l1' := le 1 pv). set (l2' := le 2 sm).
  assert (L4 : length l4 = 4%nat) by apply le_length. assert (L2 : length l2 = 2%nat) by apply le_length.
  assert (L1 : length l1 = 1%nat) by apply le_length. assert (L1' : length l1' = 1%nat) by apply le_length.
  assert (L2' : length l2' = 2%nat) by apply le_length.
  assert (U4 : unle l4 = c) by (apply unle_le; lia).
  assert (U2 : unle l2 = s) by (apply unle_le; lia).
  assert (U1 : unle l1 = cv) by (apply unle_le; lia).
  assert (U1' : unle l1' = pv) by (apply unle_le; lia).
  assert (U2' : unle l2' = sm) by (apply unle_le; lia).
  clearbody l4 l2 l1 l1' l2'.
  destruct l4 as [|a0 [|a1 [|a2 [|a3 [|]]]]]; try discriminate L4.
  destruct l2 as [|b0 [|b1 [|]]]; try discriminate L2.
  destruct l1 as [|c0 [|]]; try discriminate L1.
  destruct l1' as [|d0 [|]]; try discriminate L1'.
  destruct l2' as [|e0 [|e1 [|]]]; try discriminate L2'.
  unfold sub.
  change (Z.to_nat 0) with 0%nat; change (Z.to_nat 4) with 4%nat; change (Z.to_nat 2) with 2%nat;
  change (Z.to_nat 6) with 6%nat; change (Z.to_nat 1) with 1%nat; change (Z.to_nat 7) with 7%nat;
  change (Z.to_nat 8) with 8%nat. cbn [app firstn skipn]. rewrite U4, U2, U1, U1', U2'. reflexivity.
Qed.

Lemma dec_enc0 : forall h, hdr_ok h -> dec_ohdr (enc_ohdr h) = h.
Proof. intros. rewrite <- (app_nil_r (enc_ohdr h)). apply dec_enc. auto. Qed.

Lemma clear_enc : forall h r, clear_sum (enc_ohdr h ++ r) = enc_ohdr (mkOhdr (oh_chkp h) (oh_csize h) (oh_cver h) (oh_pver h) 0) ++ r.
Proof.
  intros. unfold clear_sum, enc_ohdr. cbn [oh_chkp oh_csize oh_cver oh_pver oh_sum].
  change (le 2 0) with [0; 0].
  generalize (le_length 4 (oh_chkp h)) (le_length 2 (oh_csize h)) (le_length 1 (oh_cver h)) (le_length 1 (oh_pver h)) (le_length 2 (oh_sum h)).
  generalize (le 4 (oh_chkp h)) (le 2 (oh_csize h)) (le 1 (oh_cver h)) (le 1 (oh_pver h)) (le 2 (oh_sum h)).
  intros l4 l2 l1 l1' l2' L4 L2 L1 L1' L2'.
  destruct l4 as [|a0 [|a1 [|a2 [|a3 [|]]]]]; try discriminate L4.
  destruct l2 as [|b0 [|b1 [|]]]; try discriminate L2.
  destruct l1 as [|c0 [|]]; try discriminate L1.
  destruct l1' as [|d0 [|]]; try discriminate L1'.
  destruct l2' as [|e0 [|e1 [|]]]; try discriminate L2'.
  unfold sub. change (Z.to_nat 0) with 0%nat; change (Z.to_nat 8) with 8%nat.
  cbn [app firstn skipn]. reflexivity.
Qed.

(** * Downlinks *)
Lemma high_zero : forall b k i, 0 <= b < 2 ^ k -> 0 <= k <= i -> Z.testbit b i = false.
Proof.
  intros. destruct (Z.eq_dec b 0) as [E|E]; [subst b; apply Z.testbit_0_l|].
  apply Z.bits_above_log2; [lia|].
  apply Z.log2_lt_pow2; [lia|]. apply Z.lt_le_trans with (2 ^ k); [lia|]. apply Z.pow_le_mono_r; lia.
Qed.

Lemma land_low : forall a b k, 0 <= k -> 0 <= b < 2 ^ k -> Z.land (Z.shiftl a k) b = 0.
Proof.
  intros. apply Z.bits_inj'. intros i Hi. rewrite Z.land_spec, Z.bits_0.
  destruct (Z.ltb_spec i k).
  - rewrite Z.shiftl_spec_low by lia. reflexivity.
  - rewrite (high_zero b k i) by lia. apply andb_false_r.
Qed.

Lemma lor_add : forall a b k, 0 <= k -> 0 <= b < 2 ^ k -> Z.lor (Z.shiftl a k) b = a * 2 ^ k + b.
Proof.
  intros. rewrite <- Z.lxor_lor by (apply land_low; auto).
  rewrite <- Z.add_nocarry_lxor by (apply land_low; auto).
  rewrite Z.shiftl_mul_pow2 by lia. reflexivity.
Qed.

Lemma mk_downlink_sum : forall e, 0 <= e_len e < 2 ^ 15 -> 0 <= e_off e < 2 ^ 48 ->
  mk_downlink e = 2 ^ 63 + e_len e * 2 ^ 48 + e_off e.
Proof.
  intros. unfold mk_downlink. rewrite lor_add by lia.
  rewrite Z.lor_comm. change (2 ^ 63) with (Z.shiftl 1 63) at 1. rewrite lor_add; lia.
Qed.

Lemma dl_off_mk : forall e, 0 <= e_len e < 2 ^ 15 -> 0 <= e_off e < 2 ^ 48 -> dl_off (mk_downlink e) = e_off e.
Proof.
  intros. rewrite mk_downlink_sum by auto. unfold dl_off.
  change 281474976710655 with (Z.ones 48). rewrite Z.land_ones by lia.
  replace (2 ^ 63 + e_len e * 2 ^ 48 + e_off e) with (e_off e + (2 ^ 15 + e_len e) * 2 ^ 48) by lia.
  rewrite Z_mod_plus_full. apply Z.mod_small; lia.
Qed.

Lemma dl_len_mk : forall e, 0 <= e_len e < 2 ^ 15 -> 0 <= e_off e < 2 ^ 48 -> dl_len (mk_downlink e) = e_len e.
Proof.
  intros. rewrite mk_downlink_sum by auto. unfold dl_len.
  change 9223090561878065152 with (Z.shiftl (Z.ones 15) 48).
  rewrite Z.shiftr_land. rewrite Z.shiftr_shiftl_l by lia. change (48 - 48) with 0. rewrite Z.shiftl_0_r.
  rewrite Z.land_ones by lia. rewrite Z.shiftr_div_pow2 by lia.
  replace (2 ^ 63 + e_len e * 2 ^ 48 + e_off e) with (e_off e + (2 ^ 15 + e_len e) * 2 ^ 48) by lia.
  rewrite Z_div_plus_full by lia. rewrite Z.div_small by lia.
  replace (0 + (2 ^ 15 + e_len e)) with (e_len e + 1 * 2 ^ 15) by lia.
  rewrite Z_mod_plus_full. apply Z.mod_small; lia.
Qed.

(** * One page: written, then read *)
Section Pages.
Set Default Proof Using "All".
Variable zc : list Z -> list Z.
Variable zd : list Z -> option (list Z).
Variable block_sum : list Z -> Z.

Notation psum := (page_sum block_sum).
Notation wpage := (write_page block_sum).
Notation rpage := (read_page zd block_sum).

Lemma psum_range : forall i s, 0 <= psum i s < 2 ^ 16.
Proof. intros. unfold page_sum. pose proof (Z.mod_pos_bound (block_sum (sub i 0 (csum_rows s * 128))) 65535 ltac:(lia)). lia. Qed.

(** The image that write_page_to_disk leaves in the file. *)
Definition wbody (cfg : config) (e : extent) (img : list Z) (size : Z) : list Z :=
  if negb (c_comp cfg) then sub img HDRSZ (BLCKSZ - HDRSZ)
  else if size =? BLCKSZ then sub (skipn (Z.to_nat HDRSZ) img) 0 (BLCKSZ - HDRSZ)
  else sub img 0 (e_len e * COMPSZ - HDRSZ).
Definition whdr0 (cfg : config) (chkp size : Z) : ohdr :=
  if negb (c_comp cfg) then mkOhdr chkp 0 0 PAGE_VERSION 0
  else mkOhdr chkp size COMPRESS_VERSION PAGE_VERSION 0.
Definition wlen (cfg : config) (e : extent) (size : Z) : Z :=
  if negb (c_comp cfg) then BLCKSZ else if size =? BLCKSZ then BLCKSZ else e_len e * COMPSZ.
Definition whdr (cfg : config) (e : extent) (chkp : Z) (img : list Z) (size : Z) : ohdr :=
  let h := whdr0 cfg chkp size in
  mkOhdr (oh_chkp h) (oh_csize h) (oh_cver h) (oh_pver h)
    (if c_sums cfg then psum (enc_ohdr h ++ wbody cfg e img size) (wlen cfg e size) else 0).
Definition wimage cfg e chkp img size : list Z :=
  enc_ohdr (whdr cfg e chkp img size) ++ wbody cfg e img size.

Lemma s3_off_pos : forall o, 0 <= s3_off o.
Proof. intros. unfold s3_off. apply Z.land_nonneg. lia. Qed.

Lemma pos_nonneg : forall cfg o, 0 <= o -> 0 <= ext_blk cfg o * blk_bytes cfg.
Proof.
  intros. unfold ext_blk, blk_bytes. pose proof (s3_off_pos o).
  destruct (c_s3 cfg), (c_comp cfg), (c_dev cfg); unfold COMPSZ, BLCKSZ; lia.
Qed.

Lemma write_lin : forall cfg d e chkp img size f' a, 0 <= e_off e -> 0 <= a ->
  lin cfg (wpage cfg d e chkp img size) f' a =
  if same_file cfg (ext_file cfg (e_off e)) f'
  then put (lin cfg d (ext_file cfg (e_off e))) (first_byte cfg e) (wimage cfg e chkp img size) a
  else lin cfg d f' a.
Proof.
  intros cfg d e chkp img size f' a He Ha.
  pose proof (pos_nonneg cfg (e_off e) He) as P.
  unfold write_page, wimage, whdr, whdr0, wbody, wlen, first_byte.
  destruct (c_comp cfg) eqn:C; cbn [negb]; cbn [oh_chkp oh_csize oh_cver oh_pver].
  - set (sm := if c_sums cfg then _ else _).
    set (f := ext_file cfg (e_off e)). set (pos := ext_blk cfg (e_off e) * blk_bytes cfg) in *.
    rewrite smgr_write_lin by (unfold HDRSZ; lia).
    set (hh := enc_ohdr (mkOhdr chkp size COMPRESS_VERSION PAGE_VERSION sm)).
    set (sm' := if c_sums cfg then _ else _).
    replace sm' with sm by (subst sm sm'; destruct (size =? BLCKSZ); reflexivity).
    destruct (same_file cfg f f') eqn:SF.
    + rewrite (put_ext _ (put (lin cfg d f) pos hh)).
      2:{ rewrite smgr_write_lin by lia. replace (same_file cfg f f) with true; [reflexivity|].
          unfold same_file. destruct (c_dev cfg); cbn [orb]; auto. symmetry. apply Z.eqb_refl. }
      replace (pos + HDRSZ) with (pos + Z.of_nat (length hh)) by (subst hh; rewrite enc_length; reflexivity).
      rewrite put_app. fold hh. destruct (size =? BLCKSZ); reflexivity.
    + rewrite smgr_write_lin by lia. rewrite SF. reflexivity.
  - rewrite smgr_write_lin by lia. reflexivity.
Qed.

(** Reading depends only on the bytes of the extent. *)
Definition ext_range (e : extent) : Prop := 0 < e_len e <= 16 /\ 0 <= e_off e < 281474976710655.

Lemma read_ext : forall cfg d d' e, ext_range e ->
  (forall a, first_byte cfg e <= a < first_byte cfg e + n_bytes cfg e ->
     lin cfg d (ext_file cfg (e_off e)) a = lin cfg d' (ext_file cfg (e_off e)) a) ->
  rpage cfg d (mk_downlink e) = rpage cfg d' (mk_downlink e).
Proof.
  intros cfg d d' e [R1 R2] H.
  pose proof (pos_nonneg cfg (e_off e) ltac:(lia)) as P.
  unfold read_page. rewrite dl_off_mk, dl_len_mk by lia.
  fold (first_byte cfg e). unfold first_byte in *.
  assert (S : forall o n, 0 <= o -> 0 <= n -> o + n <= n_bytes cfg e ->
    smgr_read cfg d (ext_file cfg (e_off e)) n (ext_blk cfg (e_off e) * blk_bytes cfg + o) =
    smgr_read cfg d' (ext_file cfg (e_off e)) n (ext_blk cfg (e_off e) * blk_bytes cfg + o)).
  { intros. rewrite !smgr_read_lin by lia. apply get_ext. intros. apply H. lia. }
  pose proof (fun n A B => S 0 n ltac:(lia) A B) as S0.
  set (pos := ext_blk cfg (e_off e) * blk_bytes cfg) in *. replace (pos + 0) with pos in S0 by lia.
  unfold n_bytes in *. destruct (c_comp cfg); cbn [negb].
  - destruct (Z.eqb_spec (e_len e) (BLCKSZ / COMPSZ)) as [E|E]; cbn [negb].
    + change (BLCKSZ / COMPSZ) with 16 in E. rewrite (S0 HDRSZ), (S HDRSZ (BLCKSZ - HDRSZ)) by (unfold HDRSZ, BLCKSZ; lia). reflexivity.
    + rewrite (S0 (e_len e * COMPSZ)) by (unfold COMPSZ; lia). reflexivity.
  - rewrite (S0 BLCKSZ) by (unfold BLCKSZ; lia). reflexivity.
Qed.

Lemma read_other : forall cfg d e e' chkp img size, ext_range e -> ext_range e' ->
  Z.of_nat (length (wimage cfg e' chkp img size)) = n_bytes cfg e' ->
  apart cfg e e' ->
  rpage cfg (wpage cfg d e' chkp img size) (mk_downlink e) = rpage cfg d (mk_downlink e).
Proof.
  intros cfg d e e' chkp img size R R' L A. apply read_ext; auto.
  intros a Ha. pose proof (pos_nonneg cfg (e_off e) ltac:(destruct R; lia)) as P.
  rewrite write_lin by (destruct R'; unfold first_byte in Ha; lia).
  destruct (same_file cfg (ext_file cfg (e_off e')) (ext_file cfg (e_off e))) eqn:SF; auto.
  unfold put. rewrite L.
  destruct A as [A|A].
  - exfalso. unfold in_file in A. unfold same_file in SF. destruct (c_dev cfg); [congruence|].
    cbn [orb] in SF. apply A. lia.
  - replace ((first_byte cfg e' <=? a) && (a <? first_byte cfg e' + n_bytes cfg e')) with false by lia.
    unfold lin. unfold same_file in SF. destruct (c_dev cfg); auto. cbn [orb] in SF.
    f_equal. lia.
Qed.

Lemma written_bytes : forall cfg d e chkp img size, ext_range e ->
  Z.of_nat (length (wimage cfg e chkp img size)) = n_bytes cfg e ->
  get (lin cfg (wpage cfg d e chkp img size) (ext_file cfg (e_off e))) (first_byte cfg e) (n_bytes cfg e)
  = wimage cfg e chkp img size.
Proof.
  intros. pose proof (pos_nonneg cfg (e_off e) ltac:(destruct H; lia)) as P.
  rewrite (get_ext _ (put (lin cfg d (ext_file cfg (e_off e))) (first_byte cfg e) (wimage cfg e chkp img size))).
  - rewrite <- H0. apply get_put_same.
  - intros a Ha. rewrite write_lin by (destruct H; unfold first_byte in Ha; lia).
    unfold same_file. rewrite Z.eqb_refl. rewrite orb_true_r. reflexivity.
Qed.

Lemma sub_app_l : forall (a b : list Z) n, 0 <= n <= Z.of_nat (length a) -> sub (a ++ b) 0 n = sub a 0 n.
Proof.
  intros. unfold sub. change (Z.to_nat 0) with 0%nat. cbn [skipn]. rewrite firstn_app.
  replace (Z.to_nat n - length a)%nat with 0%nat by lia. cbn [firstn]. apply app_nil_r.
Qed.

Lemma skipn_enc : forall h r, skipn (Z.to_nat HDRSZ) (enc_ohdr h ++ r) = r.
Proof.
  intros. change (Z.to_nat HDRSZ) with 16%nat. rewrite <- (enc_length h).
  rewrite skipn_app, Nat.sub_diag, skipn_all. reflexivity.
Qed.

Lemma file_len_range : forall sz, 0 <= sz <= 7664 -> 1 <= file_extent_len sz <= 15 /\ sz + 16 <= file_extent_len sz * 512 < sz + 16 + 512.
Proof.
  intros. unfold file_extent_len, compressed_size, BLCKSZ, HDRSZ, COMPSZ.
  replace (sz =? 8192) with false by lia.
  pose proof (Z.div_mod (sz + 16 + 512 - 1) 512 ltac:(lia)). pose proof (Z.mod_pos_bound (sz + 16 + 512 - 1) 512 ltac:(lia)).
  lia.
Qed.

(** The cases of get_write_img. *)
Lemma img_cases : forall cfg page junk,
  (c_comp cfg = false /\ get_write_img zc cfg page junk = (page, BLCKSZ)) \/
  (c_comp cfg = true /\ get_write_img zc cfg page junk = (page, BLCKSZ)) \/
  (c_comp cfg = true /\ Z.of_nat (length (zc page)) <= 7664 /\
   get_write_img zc cfg page junk = (zc page ++ junk, Z.of_nat (length (zc page)))).
Proof.
  intros. unfold get_write_img, BLCKSZ, COMPSZ, HDRSZ. destruct (c_comp cfg); auto.
  destruct (Z.of_nat (length (zc page)) >? 8192 - 512 - 16) eqn:E; auto.
  right. right. split; auto. split; auto. lia.
Qed.

Lemma img_size_indep : forall cfg page j1 j2, snd (get_write_img zc cfg page j1) = snd (get_write_img zc cfg page j2).
Proof. intros. unfold get_write_img. destruct (c_comp cfg); auto. destruct (_ >? _); auto. Qed.

Lemma fits_range : forall cfg page e, fits zc cfg page e -> ext_range e.
Proof.
  intros cfg page e [L O]. unfold ext_range, good_off in *. split; auto. rewrite L. unfold want_len.
  destruct (img_cases cfg page []) as [[C ->]|[[C ->]|[C [Z ->]]]]; rewrite C; cbn [snd]; try lia.
  - change (file_extent_len BLCKSZ) with 16. lia.
  - pose proof (file_len_range (Z.of_nat (length (zc page))) ltac:(lia)). lia.
Qed.

Lemma wimage_len : forall cfg page junk e chkp img size, fits zc cfg page e -> is_page page ->
  big_buffer zc page junk -> get_write_img zc cfg page junk = (img, size) ->
  Z.of_nat (length (wimage cfg e chkp img size)) = n_bytes cfg e.
Proof.
  intros cfg page junk e chkp img size [L O] P B E. unfold is_page, big_buffer in *. rewrite app_length in B.
  rewrite (img_size_indep cfg page [] junk), E in L. cbn [snd] in L.
  unfold wimage. rewrite app_length, enc_length. unfold wbody, n_bytes. unfold want_len in L.
  destruct (img_cases cfg page junk) as [[C E1]|[[C E1]|[C [Z E1]]]]; rewrite C in *; cbn [negb]; rewrite E in E1; inversion E1; subst img size.
  - rewrite sub_length by (unfold HDRSZ, BLCKSZ; lia). unfold HDRSZ, BLCKSZ. lia.
  - rewrite Z.eqb_refl. change (file_extent_len BLCKSZ) with 16 in L.
    rewrite sub_length by (rewrite ?skipn_length; unfold HDRSZ, BLCKSZ; lia). unfold HDRSZ, BLCKSZ; lia.
  - pose proof (file_len_range (Z.of_nat (length (zc page))) ltac:(lia)).
    replace (Z.of_nat (length (zc page)) =? BLCKSZ) with false by (unfold BLCKSZ; lia).
    rewrite sub_length by (rewrite ?app_length; unfold HDRSZ, COMPSZ; lia). unfold HDRSZ, COMPSZ. lia.
Qed.

Lemma whdr_ok : forall cfg e chkp img size, 0 <= chkp < 2 ^ 32 -> 0 <= size < 2 ^ 16 -> hdr_ok (whdr cfg e chkp img size).
Proof.
  intros. unfold hdr_ok, whdr, whdr0, COMPRESS_VERSION, PAGE_VERSION. cbn [oh_sum].
  pose proof (psum_range (enc_ohdr (if negb (c_comp cfg) then mkOhdr chkp 0 0 1 0 else mkOhdr chkp size 1 1 0) ++ wbody cfg e img size) (wlen cfg e size)).
  destruct (c_sums cfg), (c_comp cfg); cbn [negb oh_chkp oh_csize oh_cver oh_pver] in *; lia.
Qed.

Lemma sum_ok_written : forall cfg e chkp img size n,
  n = wlen cfg e size ->
  c_sums cfg && negb (sum_ok block_sum (whdr cfg e chkp img size) (wimage cfg e chkp img size) n) = false.
Proof.
  intros. subst n. destruct (c_sums cfg) eqn:S; [|reflexivity]. cbn [andb].
  unfold sum_ok, wimage. rewrite clear_enc.
  unfold whdr at 1 2 3 4. cbn [oh_chkp oh_csize oh_cver oh_pver].
  assert (X : mkOhdr (oh_chkp (whdr0 cfg chkp size)) (oh_csize (whdr0 cfg chkp size)) (oh_cver (whdr0 cfg chkp size)) (oh_pver (whdr0 cfg chkp size)) 0 = whdr0 cfg chkp size).
  { unfold whdr0. destruct (negb (c_comp cfg)); reflexivity. }
  rewrite X. unfold whdr. cbn [oh_sum]. rewrite S, Z.eqb_refl. reflexivity.
Qed.

Definition fresh (chkp : Z) (page : list Z) : list Z := mem_hdr chkp ++ skipn 16 page.

Lemma write_read : forall cfg d e chkp page junk img size, lossless zc zd ->
  fits zc cfg page e -> is_page page -> big_buffer zc page junk -> 0 <= chkp < 2 ^ 32 ->
  get_write_img zc cfg page junk = (img, size) ->
  rpage cfg (wpage cfg d e chkp img size) (mk_downlink e) = ROk (fresh chkp page).
Proof.
  intros cfg d e chkp page junk img size LL F P B K E.
  pose proof (fits_range _ _ _ F) as R.
  pose proof (wimage_len _ _ _ _ chkp _ _ F P B E) as WL.
  pose proof (written_bytes cfg d e chkp img size R WL) as WB.
  pose proof (pos_nonneg cfg (e_off e) ltac:(destruct R; lia)) as PN.
  assert (SZ : 0 <= size < 2 ^ 16 /\ fits zc cfg page e).
  { split; auto. destruct (img_cases cfg page junk) as [[C E1]|[[C E1]|[C [Z E1]]]]; rewrite E in E1; inversion E1; subst; unfold BLCKSZ; lia. }
  destruct SZ as [SZ _]. pose proof (whdr_ok cfg e chkp img size K SZ) as HO.
  unfold read_page. destruct R as [R1 R2]. rewrite dl_off_mk, dl_len_mk by lia.
  fold (first_byte cfg e). rewrite !smgr_read_lin by (unfold first_byte, HDRSZ; lia).
  set (d' := wpage cfg d e chkp img size) in *.
  destruct F as [L O]. rewrite (img_size_indep cfg page [] junk), E in L. cbn [snd] in L.
  unfold n_bytes, want_len in *.
  destruct (img_cases cfg page junk) as [[C E1]|[[C E1]|[C [Z E1]]]]; rewrite C in *; cbn [negb]; rewrite E in E1; injection E1 as E2 E3.
  - change 8192 with BLCKSZ in WB. rewrite WB. unfold wimage at 1. rewrite dec_enc by auto.
    replace (oh_pver (whdr cfg e chkp img size) =? PAGE_VERSION) with true by (unfold whdr, whdr0; rewrite C; reflexivity). cbn [negb].
    unfold wimage at 1. rewrite dec_enc by auto. 
    rewrite sum_ok_written by (unfold wlen; rewrite C; reflexivity).
    unfold wimage. rewrite dec_enc by auto. rewrite skipn_enc.
    unfold whdr at 1, whdr0 at 1. rewrite C. cbn [negb oh_chkp].
    unfold fresh, wbody. rewrite C. cbn [negb]. subst img. f_equal. f_equal. unfold sub.
    change (Z.to_nat HDRSZ) with 16%nat. 
    apply firstn_all2. rewrite skipn_length. unfold is_page in P. unfold BLCKSZ, HDRSZ. lia.
  - subst size. change (file_extent_len BLCKSZ) with 16 in L.
    replace (e_len e =? BLCKSZ / COMPSZ) with true by (change (BLCKSZ / COMPSZ) with 16; lia). cbn [negb].
    replace (e_len e * 512) with (HDRSZ + (BLCKSZ - HDRSZ)) in WB by (unfold HDRSZ, BLCKSZ; lia).
    rewrite get_split in WB by (unfold HDRSZ, BLCKSZ; lia).
    unfold wimage in WB.
    assert (X : get (lin cfg d' (ext_file cfg (e_off e))) (first_byte cfg e) HDRSZ = enc_ohdr (whdr cfg e chkp img BLCKSZ)
             /\ get (lin cfg d' (ext_file cfg (e_off e))) (first_byte cfg e + HDRSZ) (BLCKSZ - HDRSZ) = wbody cfg e img BLCKSZ).
    { apply app_eq_len in WB; [exact WB|]. rewrite get_length, enc_length. reflexivity. }
    destruct X as [X1 X2]. rewrite X1, X2.
    rewrite dec_enc0 by auto.
    replace (oh_pver (whdr cfg e chkp img BLCKSZ) =? PAGE_VERSION) with true by (unfold whdr, whdr0; rewrite C; reflexivity). cbn [negb].
    fold (wimage cfg e chkp img BLCKSZ).
    rewrite sum_ok_written by (unfold wlen; rewrite C; reflexivity).
    unfold whdr at 1, whdr0 at 1. rewrite C. cbn [negb oh_chkp].
    unfold fresh, wbody. rewrite C. cbn [negb]. rewrite Z.eqb_refl. subst img. f_equal. f_equal. unfold sub.
    change (Z.to_nat HDRSZ) with 16%nat.  change (Z.to_nat 0) with 0%nat.
    rewrite skipn_O. apply firstn_all2. rewrite skipn_length. unfold is_page in P. unfold BLCKSZ, HDRSZ. lia.
  - pose proof (file_len_range (Z.of_nat (length (zc page))) ltac:(lia)) as FL. rewrite <- E3 in FL.
    replace (e_len e =? BLCKSZ / COMPSZ) with false by (change (BLCKSZ / COMPSZ) with 16; lia). cbn [negb].
    change 512 with COMPSZ in WB. rewrite WB. unfold wimage at 1. rewrite dec_enc by auto.
    replace (oh_pver (whdr cfg e chkp img size) =? PAGE_VERSION) with true by (unfold whdr, whdr0; rewrite C; reflexivity). cbn [negb].
    unfold wimage at 1. rewrite dec_enc by auto.
    rewrite sum_ok_written by (unfold wlen; rewrite C; cbn [negb]; replace (size =? BLCKSZ) with false by (unfold BLCKSZ; lia); reflexivity).
    unfold wimage at 1. rewrite dec_enc by auto.
    replace (oh_cver (whdr cfg e chkp img size) =? COMPRESS_VERSION) with true by (unfold whdr, whdr0; rewrite C; reflexivity). cbn [negb].
    unfold wimage at 1 2. rewrite dec_enc by auto.
    unfold sub at 1. rewrite skipn_enc.
    replace (firstn (Z.to_nat (oh_csize (whdr cfg e chkp img size))) (wbody cfg e img size)) with (zc page).
    2:{ unfold whdr, whdr0. rewrite C. cbn [negb oh_csize]. unfold wbody. rewrite C. cbn [negb].
        replace (size =? BLCKSZ) with false by (unfold BLCKSZ; lia). unfold sub. change (Z.to_nat 0) with 0%nat. cbn [skipn].
        rewrite firstn_firstn. rewrite Nat.min_l by (rewrite L; unfold COMPSZ, HDRSZ; lia).
        subst img size. rewrite Nat2Z.id. rewrite firstn_app, Nat.sub_diag, firstn_all. cbn [firstn]. rewrite app_nil_r. reflexivity. }
    rewrite (LL page P). unfold wimage. rewrite dec_enc by auto.
    unfold whdr, whdr0. rewrite C. cbn [negb oh_chkp]. reflexivity.
Qed.

Lemma fresh_same : forall chkp page, is_page page -> 0 <= chkp < 2 ^ 32 -> same_page chkp page (fresh chkp page).
Proof.
  intros chkp page P K. unfold same_page, fresh, mem_hdr, is_page in *.
  change (le 8 0 ++ le 4 0 ++ le 4 chkp) with ([0;0;0;0;0;0;0;0;0;0;0;0] ++ le 4 chkp).
  split; [|split; [|split]].
  - rewrite !app_length, le_length, skipn_length. cbn [length]. lia.
  - intros i Hi. rewrite app_nth2 by (rewrite app_length, le_length; cbn [length]; lia).
    rewrite app_length, le_length. cbn [length]. rewrite <- (firstn_skipn 16 page) at 2.
    rewrite (app_nth2 (firstn 16 page)) by (rewrite firstn_length; lia). f_equal. rewrite firstn_length. lia.
  - intros i Hi. rewrite <- app_assoc. rewrite app_nth1 by (cbn [length]; lia).
    do 12 (destruct i as [|i]; [reflexivity|]). lia.
  - pose proof (unle_le 4 chkp ltac:(lia)) as U.
    generalize (le_length 4 chkp). intros L. destruct (le 4 chkp) as [|a [|b [|c [|dd [|]]]]]; try discriminate L.
    cbn [app nth]. cbn [unle] in U. lia.
Qed.

End Pages.
Unset Default Proof Using.

(** * A page over its life *)
Section Life.
Variable zc : list Z -> list Z.
Variable zd : list Z -> option (list Z).
Variable bs : list Z -> Z.
Variable cfg : config.
Hypothesis LL : lossless zc zd.

Definition pinv (s : pstate) (pc : list Z * Z) : Prop :=
  ext_range (p_ext s) /\ (c_comp cfg = false -> e_len (p_ext s) = 1) /\
  p_link s = mk_downlink (p_ext s) /\ p_chkp s = snd pc /\ 0 <= snd pc /\ is_page (fst pc) /\ snd pc < 2 ^ 32 /\
  read_page zd bs cfg (p_disk s) (p_link s) = ROk (fresh (snd pc) (fst pc)).

Lemma perform_new : forall s page junk chkp newoff, 0 <= p_chkp s ->
  allowed1 zc cfg s (PWrite page junk chkp newoff) ->
  (p_chkp s < chkp \/ (ext_range (p_ext s) /\ (c_comp cfg = false -> e_len (p_ext s) = 1) /\ p_link s = mk_downlink (p_ext s))) ->
  pinv (perform_io zc bs cfg s page junk chkp newoff) (page, chkp).
Proof using LL.
  intros s page junk chkp newoff N (P & B & K & G) O. unfold perform_io.
  destruct (get_write_img zc cfg page junk) as [img size] eqn:E.
  assert (SE : snd (get_write_img zc cfg page []) = size) by (rewrite (img_size_indep zc zd bs cfg page [] junk), E; reflexivity).
  assert (FF : fits zc cfg page (mkExt (want_len cfg size) newoff)).
  { split; cbn [e_len e_off]; auto. rewrite SE. reflexivity. }
  set (choice := if p_chkp s <? chkp then _ else _).
  assert (X : exists e dirty, choice = (e, dirty) /\ fits zc cfg page e /\ (dirty = false -> p_link s = mk_downlink e)).
  { subst choice. destruct (Z.ltb_spec (p_chkp s) chkp) as [L|L].
    - eexists _, _. split; [reflexivity|]. split; [auto|discriminate].
    - destruct O as [O|(R & U & LK)]; [lia|].
      destruct (c_comp cfg) eqn:C; cbn [negb].
      + destruct (Z.ltb_spec (e_len (p_ext s)) (want_len cfg size)) as [L1|L1].
        { eexists _, _. split; [reflexivity|]. split; [auto|discriminate]. }
        destruct (e_len (p_ext s) >? want_len cfg size) eqn:L2.
        { eexists _, _. split; [reflexivity|]. split; [|discriminate]. split; cbn [e_len e_off]; [rewrite SE; reflexivity|]. destruct R. unfold good_off. lia. }
        { eexists _, _. split; [reflexivity|]. split; [|auto]. split; cbn [e_len e_off]; [rewrite SE; lia|]. destruct R. unfold good_off. lia. }
      + eexists _, _. split; [reflexivity|]. split; [|auto]. split; [|destruct R; unfold good_off; lia].
        unfold want_len. rewrite C. auto. }
  destruct X as (e & dirty & -> & FE & DL). unfold pinv. cbn [p_disk p_ext p_chkp p_link fst snd].
  assert (LK : (if dirty then mk_downlink e else p_link s) = mk_downlink e) by (destruct dirty; auto).
  rewrite LK.
  split; [exact (fits_range zc zd bs cfg page e FE)|]. split.
  { intros C. destruct FE as [FL _]. rewrite FL. unfold want_len. rewrite C. reflexivity. }
  split; [auto|]. split. { destruct (Z.ltb_spec (p_chkp s) chkp); lia. }
  split; [lia|]. split; [auto|]. split; [lia|].
  apply (write_read zc zd bs cfg (p_disk s) e chkp page junk img size LL FE P B ltac:(lia) E).
Qed.

Lemma pinv_step : forall s pc o, pinv s pc -> allowed1 zc cfg s o -> pinv (pstep zc bs cfg s o) (last_write pc [o]).
Proof using LL.
  intros s [pg ck] o I A. destruct I as (R & U & LK & CK & N & P & K & RD). cbn [fst snd] in *.
  destruct o as [page junk chkp newoff|e chkp page junk]; cbn [pstep last_write].
  - apply perform_new; auto. lia.
  - destruct A as (P' & B' & K' & F' & AP).
    destruct (get_write_img zc cfg page junk) as [img size] eqn:E.
    unfold pinv. cbn [p_disk p_ext p_chkp p_link fst snd].
    split; [auto|]. split; [auto|]. split; [auto|]. split; [auto|]. split; [auto|]. split; [auto|]. split; [auto|].
    pose proof (read_other zc zd bs cfg (p_disk s) (p_ext s) e chkp img size R (fits_range zc zd bs cfg page e F')
      (wimage_len zc zd bs cfg page junk e chkp img size F' P' B' E) AP) as RO.
    rewrite LK. rewrite LK in RD. exact (eq_trans RO RD).
Qed.

Lemma pinv_run : forall l s pc, pinv s pc -> allowed zc bs cfg s l ->
  pinv (run (pstep zc bs cfg) s l) (last_write pc l).
Proof using LL.
  induction l as [|o l IH]; intros s pc I A; [exact I|].
  destruct A as [A1 A2]. change (run (pstep zc bs cfg) s (o :: l)) with (run (pstep zc bs cfg) (pstep zc bs cfg s o) l).
  replace (last_write pc (o :: l)) with (last_write (last_write pc [o]) l).
  - apply IH; auto. apply pinv_step; auto.
  - destruct o; reflexivity.
Qed.
End Life.

(** * CRC *)
Lemma crc_bit_lxor : forall x y, crc_bit (Z.lxor x y) = Z.lxor (crc_bit x) (crc_bit y).
Proof.
  intros. unfold crc_bit. rewrite Z.shiftr_lxor.
  replace (Z.odd (Z.lxor x y)) with (xorb (Z.odd x) (Z.odd y)) by (rewrite <- !Z.bit0_odd, Z.lxor_spec; reflexivity).
  set (a := Z.shiftr x 1). set (b := Z.shiftr y 1).
  destruct (Z.odd x), (Z.odd y); cbn [xorb]; rewrite ?Z.lxor_0_r.
  - rewrite (Z.lxor_comm b), Z.lxor_assoc, <- (Z.lxor_assoc POLY), Z.lxor_nilpotent, Z.lxor_0_l. reflexivity.
  - rewrite !Z.lxor_assoc. f_equal. apply Z.lxor_comm.
  - rewrite Z.lxor_assoc. reflexivity.
  - reflexivity.
Qed.

Lemma crc_bit_double : forall y, crc_bit (2 * y) = y.
Proof.
  intros. unfold crc_bit. rewrite Z.odd_mul. cbn [Z.odd andb]. rewrite Z.lxor_0_r.
  rewrite Z.shiftr_div_pow2 by lia. rewrite Z.mul_comm. apply Z.div_mul. lia.
Qed.

Lemma iter_lxor : forall n x y, iter_bit n (Z.lxor x y) = Z.lxor (iter_bit n x) (iter_bit n y).
Proof. induction n; intros; cbn [iter_bit]; auto. rewrite crc_bit_lxor. apply IHn. Qed.

Lemma iter_add : forall n m x, iter_bit (n + m) x = iter_bit m (iter_bit n x).
Proof. induction n; intros; cbn [iter_bit Nat.add]; auto. Qed.

Lemma iter_pow : forall n y, iter_bit n (y * 2 ^ Z.of_nat n) = y.
Proof.
  induction n; intros; cbn [iter_bit].
  - cbn. lia.
  - replace (y * 2 ^ Z.of_nat (S n)) with (2 * (y * 2 ^ Z.of_nat n)) by (rewrite Nat2Z.inj_succ, Z.pow_succ_r by lia; ring).
    rewrite crc_bit_double. apply IHn.
Qed.

Lemma lxor_range : forall k x y, 0 <= k -> 0 <= x < 2 ^ k -> 0 <= y < 2 ^ k -> 0 <= Z.lxor x y < 2 ^ k.
Proof.
  intros k x y K X Y. assert (N : 0 <= Z.lxor x y) by (apply Z.lxor_nonneg; lia). split; [exact N|].
  destruct (Z.eq_dec (Z.lxor x y) 0) as [E|E]; [rewrite E; apply Z.pow_pos_nonneg; lia|].
  apply Z.log2_lt_pow2; [lia|].
  pose proof (Z.log2_lxor x y ltac:(lia) ltac:(lia)).
  assert (Z.log2 x < k \/ k = 0) by (destruct (Z.eq_dec x 0); [subst; cbn; lia|left; apply Z.log2_lt_pow2; lia]).
  assert (Z.log2 y < k \/ k = 0) by (destruct (Z.eq_dec y 0); [subst; cbn; lia|left; apply Z.log2_lt_pow2; lia]).
  destruct (Z.eq_dec k 0) as [K0|K0]; [|lia].
  exfalso. subst k. cbn in X, Y. assert (x = 0) by lia. assert (y = 0) by lia. subst. apply E. reflexivity.
Qed.

Lemma crc_bit_range : forall x, 0 <= x < 2 ^ 32 -> 0 <= crc_bit x < 2 ^ 32.
Proof.
  intros. unfold crc_bit. apply lxor_range; [lia| |destruct (Z.odd x); unfold POLY; lia].
  rewrite Z.shiftr_div_pow2 by lia. split; [apply Z.div_pos; lia|]. apply Z.div_lt_upper_bound; lia.
Qed.

Lemma iter_range : forall n x, 0 <= x < 2 ^ 32 -> 0 <= iter_bit n x < 2 ^ 32.
Proof. induction n; intros; cbn [iter_bit]; auto. apply IHn, crc_bit_range. auto. Qed.

Lemma crc_bit_zero : forall x, 0 <= x < 2 ^ 32 -> crc_bit x = 0 -> x = 0.
Proof.
  intros x H E. unfold crc_bit in E. destruct (Z.odd x) eqn:O.
  - exfalso. apply (f_equal (fun z => Z.testbit z 31)) in E.
    rewrite Z.lxor_spec, Z.shiftr_spec, Z.bits_0 in E by lia.
    rewrite (high_zero x 32 (31 + 1)) in E by lia. discriminate E.
  - rewrite Z.lxor_0_r in E. rewrite Z.shiftr_div_pow2 in E by lia.
    pose proof (Z.div_mod x 2 ltac:(lia)). rewrite Zmod_odd, O in H0. change (2 ^ 1) with 2 in E. lia.
Qed.

Lemma iter_zero : forall n x, 0 <= x < 2 ^ 32 -> iter_bit n x = 0 -> x = 0.
Proof.
  induction n; intros; cbn [iter_bit] in *; auto.
  apply crc_bit_zero; auto. apply IHn; auto. apply crc_bit_range. auto.
Qed.

Lemma iter_inj : forall n x y, 0 <= x < 2 ^ 32 -> 0 <= y < 2 ^ 32 -> iter_bit n x = iter_bit n y -> x = y.
Proof.
  intros. apply Z.lxor_eq. apply (iter_zero n); [apply lxor_range; lia|].
  rewrite iter_lxor, H1. apply Z.lxor_nilpotent.
Qed.

Lemma unle_range : forall l, bytes l -> 0 <= unle l < 256 ^ Z.of_nat (length l).
Proof.
  induction 1; cbn [unle length]; [cbn; lia|].
  rewrite Nat2Z.inj_succ, Z.pow_succ_r by lia. lia.
Qed.

Lemma fold_crc : forall l s, bytes l -> fold_left crc_byte l s = iter_bit (8 * length l) (Z.lxor s (unle l)).
Proof.
  induction l as [|b l IH]; intros s B.
  - cbn [fold_left length unle]. rewrite Z.lxor_0_r. reflexivity.
  - inversion B; subst. cbn [fold_left unle length]. rewrite IH by auto.
    replace (8 * S (length l))%nat with (8 + 8 * length l)%nat by lia.
    rewrite iter_add. f_equal. unfold crc_byte.
    pose proof (unle_range l H2).
    replace (b + 256 * unle l) with (Z.lxor b (unle l * 2 ^ 8)).
    + rewrite <- Z.lxor_assoc. rewrite (iter_lxor 8 (Z.lxor s b)). f_equal.
      symmetry. exact (iter_pow 8 (unle l)).
    + rewrite Z.lxor_comm. rewrite <- Z.shiftl_mul_pow2 by lia.
      rewrite <- Z.add_nocarry_lxor by (apply land_low; lia).
      rewrite Z.shiftl_mul_pow2 by lia. lia.
Qed.

Lemma le_bytes : forall n v, bytes (le n v).
Proof. induction n; intros; cbn [le]; constructor. - apply Z.mod_pos_bound. lia. - apply IHn. Qed.

Lemma le_unle : forall l, bytes l -> le (length l) (unle l) = l.
Proof.
  induction 1; cbn [length le unle]; auto.
  rewrite Z.mul_comm, Z_mod_plus_full, Z.mod_small by lia.
  rewrite Z_div_plus_full, Z.div_small by lia. cbn [Z.add]. rewrite IHForall. reflexivity.
Qed.

Lemma unle_inj : forall a b, bytes a -> bytes b -> length a = length b -> unle a = unle b -> a = b.
Proof. intros. rewrite <- (le_unle a), <- (le_unle b) by auto. congruence. Qed.

Lemma crc_state_range : forall l s, bytes l -> 0 <= s < 2 ^ 32 -> 0 <= fold_left crc_byte l s < 2 ^ 32.
Proof.
  induction l; intros s B S; cbn [fold_left]; auto. inversion B; subst. apply IHl; auto.
  unfold crc_byte. apply iter_range. apply lxor_range; lia.
Qed.

(** A change of at most four adjacent bytes changes the final state. *)
Lemma crc_burst : forall x w w' y s, bytes (x ++ w ++ y) -> bytes w' -> 0 <= s < 2 ^ 32 ->
  length w = length w' -> (length w <= 4)%nat ->
  fold_left crc_byte (x ++ w ++ y) s = fold_left crc_byte (x ++ w' ++ y) s -> w = w'.
Proof.
  intros x w w' y s B B' S L4 L E. unfold bytes in B. rewrite !Forall_app in B. destruct B as (Bx & Bw & By).
  rewrite !fold_left_app in E. set (s1 := fold_left crc_byte x s) in *.
  assert (S1 : 0 <= s1 < 2 ^ 32) by (apply crc_state_range; auto). clearbody s1.
  assert (W : forall v, bytes v -> (length v <= 4)%nat -> 0 <= unle v < 2 ^ 32).
  { intros v Bv Lv. pose proof (unle_range v Bv). assert (256 ^ Z.of_nat (length v) <= 256 ^ 4) by (apply Z.pow_le_mono_r; lia).
    change (256 ^ 4) with (2 ^ 32) in H0. lia. }
  pose proof (W w Bw L) as Rw. pose proof (W w' B' ltac:(lia)) as Rw'.
  rewrite (fold_crc y) in E by auto. rewrite (fold_crc y) in E by auto.
  rewrite !(fold_crc w), !(fold_crc w') in E by auto.
  assert (E2 : Z.lxor (Z.lxor (iter_bit (8 * length w) (Z.lxor s1 (unle w))) (unle y)) (Z.lxor (iter_bit (8 * length w') (Z.lxor s1 (unle w'))) (unle y)) = 0).
  { apply (iter_zero (8 * length y)).
    - set (p := iter_bit _ _). set (q := iter_bit _ _).
      assert (0 <= p < 2 ^ 32) by (apply iter_range, lxor_range; lia).
      assert (0 <= q < 2 ^ 32) by (apply iter_range, lxor_range; lia).
      rewrite (Z.lxor_comm q), Z.lxor_assoc, <- (Z.lxor_assoc (unle y)), Z.lxor_nilpotent, Z.lxor_0_l.
      apply lxor_range; lia.
    - rewrite iter_lxor, E. apply Z.lxor_nilpotent. }
  rewrite (Z.lxor_comm (iter_bit (8 * length w') _)), Z.lxor_assoc, <- (Z.lxor_assoc (unle y)), Z.lxor_nilpotent, Z.lxor_0_l in E2.
  apply Z.lxor_eq in E2. rewrite <- L4 in E2.
  apply iter_inj in E2; [|apply lxor_range; lia|apply lxor_range; lia].
  apply unle_inj; auto.
  apply (f_equal (Z.lxor s1)) in E2. rewrite <- !Z.lxor_assoc, Z.lxor_nilpotent, !Z.lxor_0_l in E2. exact E2.
Qed.

(** The CRC stored after its data gives a constant final state. *)
Lemma crc_residue : forall a c, bytes a -> bytes c -> length c = 4%nat ->
  (crc32c a = unle c <-> fold_left crc_byte (a ++ c) 4294967295 = iter_bit 32 4294967295).
Proof.
  intros a c Ba Bc L. rewrite fold_left_app. unfold crc32c.
  pose proof (crc_state_range a 4294967295 Ba ltac:(lia)) as R.
  set (s := fold_left crc_byte a 4294967295) in *. clearbody s.
  rewrite fold_crc by auto. rewrite L. change (8 * 4)%nat with 32%nat.
  assert (Rc : 0 <= unle c < 2 ^ 32). { pose proof (unle_range c Bc). rewrite L in H. exact H. }
  split; intros H.
  - rewrite <- H, <- Z.lxor_assoc, Z.lxor_nilpotent, Z.lxor_0_l. reflexivity.
  - apply iter_inj in H; [|apply lxor_range; lia|lia].
    rewrite <- H, <- Z.lxor_assoc, Z.lxor_nilpotent, Z.lxor_0_l. reflexivity.
Qed.
