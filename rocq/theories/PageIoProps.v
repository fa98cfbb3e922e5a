(** * C50: pages and the control file survive the way to disk and back;
      C46 (addition): uploads scheduled by a write. *)
From Coq Require Import ZArith List Bool Lia ZifyBool.
From Verif Require Import Base PageIoModel PageIoSpec PageIoProofs.
Import ListNotations.
Open Scope Z_scope.

(** A page of the tree, from its first write on: whatever the sequence of its
    rewrites (in place, relocated by a new checkpoint, grown or shrunk by
    compression) and of writes of other pages elsewhere, following the downlink
    the parent holds gives the last page written, byte for byte. *)
Theorem C50_page_read_back : forall zc zd bs cfg s page junk chkp off l,
  lossless zc zd -> 0 <= p_chkp s < chkp ->
  allowed zc bs cfg s (PWrite page junk chkp off :: l) ->
  exists img,
    let s' := run (pstep zc bs cfg) s (PWrite page junk chkp off :: l) in
    let '(last, ck) := last_write (page, chkp) l in
    read_page zd bs cfg (p_disk s') (p_link s') = ROk img /\ same_page ck last img.
Proof.
  intros zc zd bs cfg s page junk chkp off l LL K A. destruct A as [A1 A2].
  change (run (pstep zc bs cfg) s (PWrite page junk chkp off :: l)) with
    (run (pstep zc bs cfg) (perform_io zc bs cfg s page junk chkp off) l).
  pose proof (perform_new zc zd bs cfg LL s page junk chkp off ltac:(lia) A1 ltac:(lia)) as I.
  pose proof (pinv_run zc zd bs cfg LL l _ _ I A2) as J.
  destruct (last_write (page, chkp) l) as [last ck].
  destruct J as (_ & _ & _ & _ & N & P & K2 & R). cbn [fst snd] in *.
  exists (fresh ck last). split; [exact R|]. apply fresh_same; auto.
Qed.
Print Assumptions C50_page_read_back.

(** One write, one read, any configuration. *)
Theorem C50_page_roundtrip : forall zc zd bs cfg d e chkp page junk,
  lossless zc zd -> is_page page -> big_buffer zc page junk -> 0 <= chkp < 2 ^ 32 ->
  fits zc cfg page e ->
  let '(img, size) := get_write_img zc cfg page junk in
  exists got, read_page zd bs cfg (write_page bs cfg d e chkp img size) (mk_downlink e) = ROk got /\
    same_page chkp page got.
Proof.
  intros. destruct (get_write_img zc cfg page junk) as [img size] eqn:E.
  exists (fresh chkp page). split.
  - apply (write_read zc zd bs cfg d e chkp page junk img size); auto.
  - apply fresh_same; auto.
Qed.
Print Assumptions C50_page_roundtrip.

(** The blocks asked for a page hold its header and its data, with less than a
    block to spare; a compressed page is never taken for a plain one. *)
Theorem C50_blocks_cover : forall zc cfg page,
  is_page page -> c_comp cfg = true ->
  let '(img, size) := get_write_img zc cfg page [] in
  let data := if size =? 8192 then 8192 - 16 else Z.of_nat (length (zc page)) in
  let len := want_len cfg size in
  len * 512 - 512 < 16 + data <= len * 512 /\ 1 <= len <= 16 /\ (len = 16 <-> img = page /\ size = 8192).
Proof.
  intros zc cfg page P C. unfold is_page in P.
  destruct (img_cases zc (fun _ => None) (fun _ => 0) cfg page []) as [[C' E]|[[_ E]|[_ [L E]]]]; rewrite E; try congruence.
  - unfold want_len. rewrite C. change (BLCKSZ =? 8192) with true. cbv iota.
    change (file_extent_len BLCKSZ) with 16. unfold BLCKSZ.
    split; [lia|]. split; [lia|]. split; auto.
  - replace (Z.of_nat (length (zc page)) =? 8192) with false by lia. cbv zeta.
    unfold want_len. rewrite C.
    pose proof (file_len_range (fun x => x) (fun _ => None) (fun _ => 0) (Z.of_nat (length (zc page))) ltac:(lia)).
    split; [lia|]. split; [lia|]. split; [lia|]. intros [_ X]. lia.
Qed.
Print Assumptions C50_blocks_cover.

(** The bytes of an extent as they are on disk. *)
Definition raw (cfg : config) (d : disk) (e : extent) : list Z :=
  smgr_read cfg d (ext_file cfg (e_off e)) (n_bytes cfg e) (first_byte cfg e).

(** With checksums on, whatever is on disk, an image is returned only if the
    checksum stored in it is that of its bytes. *)
Theorem C50_checksum_checked : forall zd bs cfg d e img,
  c_sums cfg = true -> 1 <= e_len e <= 16 -> good_off (e_off e) ->
  read_page zd bs cfg d (mk_downlink e) = ROk img ->
  page_sum bs (clear_sum (raw cfg d e)) (n_bytes cfg e) = unle (sub (raw cfg d e) 8 2).
Proof.
  intros zd bs cfg d e img S L G R. unfold good_off in G. unfold raw, n_bytes.
  pose proof (pos_nonneg (fun x => x) zd bs cfg (e_off e) ltac:(lia)) as P.
  unfold read_page in R. rewrite dl_off_mk, dl_len_mk in R by lia. rewrite S in R. cbn [andb] in R.
  fold (first_byte cfg e) in R. unfold sum_ok in R.
  destruct (c_comp cfg) eqn:C; cbn [negb] in R.
  - destruct (Z.eqb_spec (e_len e) (BLCKSZ / COMPSZ)) as [E|E]; cbn [negb] in R.
    + change (BLCKSZ / COMPSZ) with 16 in E. rewrite E.
      assert (X : smgr_read cfg d (ext_file cfg (e_off e)) (16 * 512) (first_byte cfg e) =
        smgr_read cfg d (ext_file cfg (e_off e)) HDRSZ (first_byte cfg e) ++
        smgr_read cfg d (ext_file cfg (e_off e)) (BLCKSZ - HDRSZ) (first_byte cfg e + HDRSZ)).
      { rewrite !smgr_read_lin by (unfold first_byte, HDRSZ; lia). rewrite <- get_split by (unfold HDRSZ, BLCKSZ; lia). reflexivity. }
      rewrite X. change (16 * 512) with BLCKSZ.
      set (hb := smgr_read cfg d (ext_file cfg (e_off e)) HDRSZ (first_byte cfg e)) in *.
      assert (LH : length hb = 16%nat). { subst hb. rewrite smgr_read_lin by (unfold first_byte; lia). rewrite get_length. reflexivity. }
      set (body := smgr_read cfg d (ext_file cfg (e_off e)) (BLCKSZ - HDRSZ) (first_byte cfg e + HDRSZ)) in *.
      destruct (negb (oh_pver (dec_ohdr hb) =? PAGE_VERSION)); [discriminate|].
      destruct (page_sum bs (clear_sum (hb ++ body)) BLCKSZ =? oh_sum (dec_ohdr hb)) eqn:Q; [|discriminate].
      apply Z.eqb_eq in Q. rewrite Q. unfold dec_ohdr. cbn [oh_sum]. f_equal.
      do 17 (destruct hb as [|? hb]; [discriminate LH || reflexivity|]). discriminate LH.
    + change 512 with COMPSZ. set (b := smgr_read cfg d (ext_file cfg (e_off e)) (e_len e * COMPSZ) (first_byte cfg e)) in *.
      destruct (negb (oh_pver (dec_ohdr b) =? PAGE_VERSION)); [discriminate|].
      destruct (page_sum bs (clear_sum b) (e_len e * COMPSZ) =? oh_sum (dec_ohdr b)) eqn:Q; [|discriminate].
      apply Z.eqb_eq in Q. exact Q.
  - change 8192 with BLCKSZ. set (b := smgr_read cfg d (ext_file cfg (e_off e)) BLCKSZ (first_byte cfg e)) in *.
    destruct (negb (oh_pver (dec_ohdr b) =? PAGE_VERSION)); [discriminate|].
    destruct (page_sum bs (clear_sum b) BLCKSZ =? oh_sum (dec_ohdr b)) eqn:Q; [|discriminate].
    apply Z.eqb_eq in Q. exact Q.
Qed.
Print Assumptions C50_checksum_checked.

(** ** The control file *)

Lemma sub_exact : forall (a b : list Z) n, Z.of_nat (length a) = n -> sub (a ++ b) 0 n = a.
Proof.
  intros. unfold sub. change (Z.to_nat 0) with 0%nat. rewrite skipn_O. subst n. rewrite Nat2Z.id.
  rewrite firstn_app, Nat.sub_diag, firstn_all, firstn_O. apply app_nil_r.
Qed.

(** What write_checkpoint_control wrote is accepted by the same server, with
    every field but the version stamp and the CRC as given. *)
Theorem C50_control_written : forall binver s3 pgver ctl file,
  bytes ctl -> Z.of_nat (length ctl) = 168 -> 0 <= pgver < 2 ^ 32 ->
  unle (sub ctl 12 4) = 2 -> unle (sub ctl 152 4) = binver ->
  (unle (sub ctl 156 1) <> 0 <-> s3 = true) ->
  exists got, read_control binver s3 (write_control pgver ctl file) = COk got /\
    Z.of_nat (length got) = 168 /\
    (forall i, Z.of_nat i < 160 -> nth i got 0 = nth i ctl 0) /\ unle (sub got 160 4) = pgver.
Proof.
  intros binver s3 pgver ctl file B L PV V BV M.
  set (c0 := sub ctl 0 160).
  assert (L0 : length c0 = 160%nat) by (subst c0; rewrite sub_length; lia).
  assert (CC : ctl = c0 ++ skipn 160 ctl) by (subst c0; unfold sub; change (Z.to_nat 0) with 0%nat; rewrite skipn_O; symmetry; apply firstn_skipn).
  assert (B0 : bytes c0) by (rewrite CC in B; apply Forall_app in B; tauto).
  set (c := c0 ++ le 4 pgver). set (st := c ++ le 4 (crc32c c)).
  assert (Lc : length c = 164%nat) by (subst c; rewrite app_length, le_length, L0; reflexivity).
  assert (Ls : length st = 168%nat) by (subst st; rewrite app_length, le_length, Lc; reflexivity).
  assert (Bc : bytes c) by (subst c; apply Forall_app; split; [auto|apply le_bytes]).
  assert (RC : 0 <= crc32c c < 256 ^ Z.of_nat 4).
  { unfold crc32c. change (256 ^ Z.of_nat 4) with (2 ^ 32). apply lxor_range; try lia. apply crc_state_range; [auto|lia]. }
  assert (GS : forall a n, 0 <= a -> 0 <= n -> a + n <= 160 -> sub st a n = sub ctl a n).
  { intros a n Ha Hn H. subst st c. rewrite CC. rewrite <- !app_assoc. unfold sub.
    rewrite !skipn_app. rewrite !firstn_app.
    replace (Z.to_nat n - length (skipn (Z.to_nat a) c0))%nat with 0%nat by (rewrite skipn_length; lia).
    rewrite !firstn_O. reflexivity. }
  exists st.
  assert (RD : read_control binver s3 (write_control pgver ctl file) = check_control binver s3 st).
  { unfold read_control, write_control. fold c0. unfold stamp_control. fold c0. fold c. fold st.
    cbv zeta. rewrite <- app_assoc. rewrite sub_exact by (rewrite Ls; reflexivity).
    rewrite Ls. reflexivity. }
  split; [|split; [lia|split]].
  - rewrite RD. unfold check_control.
    rewrite (GS 12 4), (GS 152 4), (GS 156 1) by lia. rewrite V, BV. change (2 =? CTL_VERSION) with true. cbn [negb].
    replace (sub st 0 CTL_CRC) with c by (subst st; rewrite sub_exact; [reflexivity|rewrite Lc; reflexivity]).
    replace (sub st CTL_CRC 4) with (le 4 (crc32c c)).
    2:{ subst st. unfold sub. rewrite skipn_app. rewrite skipn_all2 by (unfold CTL_CRC; lia). cbn [app].
        replace (Z.to_nat CTL_CRC - length c)%nat with 0%nat by (unfold CTL_CRC; lia). rewrite skipn_O.
        symmetry. apply firstn_all2. rewrite le_length. lia. }
    rewrite unle_le by auto. rewrite Z.eqb_refl. cbn [negb]. rewrite Z.eqb_refl. cbn [negb].
    destruct (Z.eqb_spec (unle (sub ctl 156 1)) 0) as [E0|E0]; destruct s3; cbn [negb Bool.eqb]; auto; exfalso; tauto || (apply M in E0; discriminate) || (destruct M; intuition congruence).
  - intros i Hi. subst st c. rewrite CC. rewrite <- app_assoc. rewrite !app_nth1 by lia. reflexivity.
  - subst st c. rewrite <- app_assoc. unfold sub. rewrite skipn_app, skipn_all2 by lia. cbn [app].
    replace (Z.to_nat 160 - length c0)%nat with 0%nat by lia. rewrite skipn_O.
    rewrite firstn_app, le_length. replace (Z.to_nat 4 - 4)%nat with 0%nat by lia. rewrite firstn_O, app_nil_r.
    rewrite firstn_all2 by (rewrite le_length; lia). apply unle_le. lia.
Qed.
Print Assumptions C50_control_written.

Lemma check_ok_residue : forall binver s3 c got, bytes c -> Z.of_nat (length c) = 168 ->
  check_control binver s3 c = COk got -> fold_left crc_byte c 4294967295 = iter_bit 32 4294967295.
Proof.
  intros binver s3 c got B L H. unfold check_control in H.
  destruct (negb (unle (sub c 12 4) =? CTL_VERSION)); [discriminate|].
  destruct (Z.eqb_spec (crc32c (sub c 0 CTL_CRC)) (unle (sub c CTL_CRC 4))) as [E|E]; [|discriminate].
  assert (S : c = sub c 0 CTL_CRC ++ sub c CTL_CRC 4).
  { unfold sub. change (Z.to_nat 0) with 0%nat. rewrite skipn_O.
    rewrite (firstn_all2 (skipn _ c)) by (rewrite skipn_length; unfold CTL_CRC; lia). symmetry. apply firstn_skipn. }
  rewrite S in B. apply Forall_app in B. destruct B as [B1 B2].
  rewrite S. apply crc_residue; auto. rewrite sub_length; unfold CTL_CRC; lia.
Qed.

(** Damage to at most four adjacent bytes of an accepted control file, the
    stored CRC included, is always noticed: the file is not accepted by any
    server and is not taken for a missing one. *)
Theorem C50_control_damage_rejected : forall binver s3 file got binver' s3' file' x,
  read_control binver s3 (Some file) = COk got ->
  bytes (sub file 0 168) -> bytes (sub file' 0 168) ->
  burst (sub file 0 168) (sub file' 0 168) ->
  read_control binver' s3' (Some file') <> COk x /\ read_control binver' s3' (Some file') <> CNone.
Proof.
  intros binver s3 file got binver' s3' file' x H B B' (p & w & w' & q & E & E' & Lw & L4 & NE).
  unfold read_control in *. change CTL_SIZE with 168 in *.
  assert (LL : length (sub file 0 168) = length (sub file' 0 168)) by (rewrite E, E', !app_length; lia).
  destruct (Z.eqb_spec (Z.of_nat (length (sub file 0 168))) 0) as [|Z0]; [discriminate|].
  destruct (Z.eqb_spec (Z.of_nat (length (sub file 0 168))) 168) as [L|]; [|discriminate]. cbn [negb] in H.
  rewrite LL in Z0, L. replace (Z.of_nat (length (sub file' 0 168)) =? 0) with false by lia.
  replace (Z.of_nat (length (sub file' 0 168)) =? 168) with true by lia. cbn [negb].
  split.
  - intros H'. apply NE. 
    apply check_ok_residue in H; [|auto|lia]. apply check_ok_residue in H'; [|auto|lia].
    rewrite E in H. rewrite E' in H'. rewrite E in B. rewrite E' in B'.
    assert (Bw : bytes w') by (unfold bytes in B'; rewrite !Forall_app in B'; tauto).
    exact (crc_burst p w w' q 4294967295 B Bw ltac:(lia) Lw L4 (eq_trans H (eq_sym H'))).
  - unfold check_control. repeat (match goal with |- (if ?b then _ else _) <> _ => destruct b; [discriminate|] end). discriminate.
Qed.
Print Assumptions C50_control_damage_rejected.

(** A control file cut short is rejected. *)
Theorem C50_control_truncated_rejected : forall binver s3 file n,
  0 < n < 168 -> n <= Z.of_nat (length file) ->
  read_control binver s3 (Some (sub file 0 n)) = CShort.
Proof.
  intros. unfold read_control. replace (sub (sub file 0 n) 0 CTL_SIZE) with (sub file 0 n).
  - rewrite sub_length by lia. replace (Z.of_nat (Z.to_nat n) =? 0) with false by lia.
    unfold CTL_SIZE. replace (Z.of_nat (Z.to_nat n) =? 168) with false by lia. reflexivity.
  - unfold sub at 2. change (Z.to_nat 0) with 0%nat. rewrite skipn_O. symmetry. apply firstn_all2.
    rewrite sub_length by lia. unfold CTL_SIZE. lia.
Qed.
Print Assumptions C50_control_truncated_rejected.

(** Only the server of the same format versions and mode accepts the file. *)
Theorem C50_control_versions : forall binver s3 file got,
  read_control binver s3 (Some file) = COk got ->
  unle (sub got 12 4) = 2 /\ unle (sub got 152 4) = binver /\ (unle (sub got 156 1) <> 0 <-> s3 = true).
Proof.
  intros binver s3 file got H. unfold read_control in H.
  destruct (_ =? 0); [discriminate|]. destruct (negb _); [discriminate|].
  unfold check_control in H.
  destruct (Z.eqb_spec (unle (sub (sub file 0 CTL_SIZE) 12 4)) CTL_VERSION) as [V|]; [|discriminate]. cbn [negb] in H.
  destruct (negb _); [discriminate|].
  destruct (Z.eqb_spec (unle (sub (sub file 0 CTL_SIZE) 152 4)) binver) as [BV|]; [|discriminate]. cbn [negb] in H.
  destruct (Bool.eqb (negb (unle (sub (sub file 0 CTL_SIZE) 156 1) =? 0)) s3) eqn:M; [|discriminate]. cbn [negb] in H.
  inversion H; subst got. split; [exact V|]. split; [exact BV|]. apply eqb_prop in M. destruct s3; split; intros; try lia; discriminate.
Qed.
Print Assumptions C50_control_versions.

(** REFUTED: not every damage is noticed. A control file cut to no bytes at all
    is taken for that of a cluster that never finished a checkpoint. *)
Theorem C50_refuted_emptied_control : exists binver s3 pgver ctl got,
  read_control binver s3 (write_control pgver ctl None) = COk got /\
  read_control binver s3 (Some []) = CNone.
Proof.
  exists 1, false, 170000, (repeat 0 12 ++ [2;0;0;0] ++ repeat 7 136 ++ [1;0;0;0] ++ [0;1;0;0] ++ repeat 0 8).
  eexists. split; vm_compute; reflexivity.
Qed.
Print Assumptions C50_refuted_emptied_control.

(** ** Object-store mode *)

(** REFUTED: in object-store mode the file of an extent is chosen by the low
    eight bits of its checkpoint's number. A page written by checkpoint 257 is
    put over a page of checkpoint 1, both at the first block their checkpoints
    gave out. *)
Definition s3cfg : config := mkCfg false true false false.
Theorem C50_refuted_s3_reuse : exists pa pb d,
  is_page pa /\ is_page pb /\
  let ea := s3_alloc s3cfg 0 1 8192 in
  let eb := s3_alloc s3cfg 0 257 8192 in
  let da := write_page (fun _ => 0) s3cfg d ea 1 pa 8192 in
  let db := write_page (fun _ => 0) s3cfg da eb 257 pb 8192 in
  mk_downlink ea <> mk_downlink eb /\
  (exists i, read_page Some (fun _ => 0) s3cfg da (mk_downlink ea) = ROk i /\ nth 100 i 0 = 1) /\
  (exists i, read_page Some (fun _ => 0) s3cfg db (mk_downlink ea) = ROk i /\ nth 100 i 0 = 2).
Proof.
  exists (repeat 1 (Z.to_nat 8192)), (repeat 2 (Z.to_nat 8192)), (mkDisk (fun _ _ _ => 0) (fun _ => 0)).
  split; [vm_compute; reflexivity|]. split; [vm_compute; reflexivity|].
  cbv zeta. split; [vm_compute; discriminate|]. split.
  - eexists. split; [vm_compute; reflexivity|vm_compute; reflexivity].
  - eexists. split; [vm_compute; reflexivity|vm_compute; reflexivity].
Qed.
Print Assumptions C50_refuted_s3_reuse.

(** In object-store mode a write that stays within one part schedules the
    upload of that part. Missing: writes over a part boundary, refuted below. *)
Theorem C46_written_part_uploaded_partial : forall amount off, 0 < amount -> 0 <= off ->
  (off + amount - 1) / 1048576 = off / 1048576 ->
  forall a, off <= a < off + amount -> In (a / 1048576) (scheduled amount off).
Proof.
  intros amount off A O E a Ha. unfold scheduled. left. unfold PARTSZ.
  assert (off / 1048576 <= a / 1048576) by (apply Z.div_le_mono; lia).
  assert (a / 1048576 <= (off + amount - 1) / 1048576) by (apply Z.div_le_mono; lia). lia.
Qed.
Print Assumptions C46_written_part_uploaded_partial.

(** REFUTED: a compressed image of three blocks, two of them at the end of a
    part: the body write puts bytes into the next part and schedules only the
    first one. *)
Theorem C46_refuted_second_part_not_uploaded :
  let off := 1048576 - 1024 + 16 in let amount := 3 * 512 - 16 in
  exists a, off <= a < off + amount /\ ~ In (a / 1048576) (scheduled amount off).
Proof.
  exists 1048576. split; [lia|]. vm_compute. intros [H|[]]. discriminate H.
Qed.
Print Assumptions C46_refuted_second_part_not_uploaded.

(** ** The hypotheses can be met *)
(** A lossless code that shortens some pages: run-length code of constant
    pages. *)
Definition const_page (p : list Z) : bool := forallb (fun b => b =? hd 0 p) p && (Z.of_nat (length p) =? 8192).
Definition rl_zc (p : list Z) : list Z := if const_page p then [hd 0 p] else 256 :: p.
Definition rl_zd (z : list Z) : option (list Z) :=
  match z with
  | [b] => Some (repeat b (Z.to_nat 8192))
  | _ :: p => Some p
  | [] => None
  end.
Example C50_lossless_example : lossless rl_zc rl_zd.
Proof.
  intros p P. unfold is_page in P. unfold rl_zc. destruct (const_page p) eqn:C.
  - cbn [rl_zd]. f_equal. unfold const_page in C. apply andb_true_iff in C. destruct C as [C _].
    rewrite forallb_forall in C. symmetry. replace (Z.to_nat 8192) with (length p) by lia.
    apply Forall_eq_repeat. apply Forall_forall. intros y Hy. apply C in Hy. lia.
  - destruct p; [cbn in P; lia|]. reflexivity.
Qed.

Definition cfg1 : config := mkCfg true false false true.
Definition pgA : list Z := repeat 5 (Z.to_nat 8192).
Definition pgB : list Z := 1 :: repeat 6 (Z.to_nat 8191).
Definition junk0 : list Z := repeat 77 (Z.to_nat 9000).
(** A compressed page grows to a plain one in the same checkpoint, and shrinks
    again in the next one. *)
Example C50_history_example :
  allowed rl_zc (fun l => fold_left Z.add l 0) cfg1
    (mkP (mkDisk (fun _ _ _ => 0) (fun _ => 0)) (mkExt 0 0) 0 0)
    [PWrite pgA junk0 3 2097151; POther (mkExt 1 2097152) 3 pgA junk0; PWrite pgB junk0 3 7; PWrite pgA junk0 3 9; PWrite pgB junk0 4 9].
Proof.
  assert (PA : is_page pgA) by (vm_compute; reflexivity).
  assert (PB : is_page pgB) by (vm_compute; reflexivity).
  assert (BA : big_buffer rl_zc pgA junk0) by (vm_compute; discriminate).
  assert (BB : big_buffer rl_zc pgB junk0) by (vm_compute; discriminate).
  assert (G : forall o, 0 <= o < 10000000 -> good_off o) by (unfold good_off; lia).
  cbn [allowed]. split; [split; [auto|split; [auto|split; [cbn [p_chkp]; lia|apply G; lia]]]|].
  assert (E1 : exists d, pstep rl_zc (fun l => fold_left Z.add l 0) cfg1 (mkP (mkDisk (fun _ _ _ => 0) (fun _ => 0)) (mkExt 0 0) 0 0) (PWrite pgA junk0 3 2097151)
     = mkP d (mkExt 1 2097151) 3 (mk_downlink (mkExt 1 2097151))).
  { cbn [pstep]. unfold perform_io. replace (get_write_img rl_zc cfg1 pgA junk0) with (rl_zc pgA ++ junk0, 1) by (vm_compute; reflexivity).
    eexists. reflexivity. }
  destruct E1 as [d ->].
  split. { split; [auto|split; [auto|split; [lia|split]]].
    - split; [vm_compute; reflexivity|apply G; cbn; lia].
    - cbn [p_ext]. right. left. vm_compute. discriminate. }
  assert (E2 : forall d0, exists d1, pstep rl_zc (fun l => fold_left Z.add l 0) cfg1 (mkP d0 (mkExt 1 2097151) 3 (mk_downlink (mkExt 1 2097151))) (POther (mkExt 1 2097152) 3 pgA junk0)
     = mkP d1 (mkExt 1 2097151) 3 (mk_downlink (mkExt 1 2097151))).
  { intros. cbn [pstep]. replace (get_write_img rl_zc cfg1 pgA junk0) with (rl_zc pgA ++ junk0, 1) by (vm_compute; reflexivity). eexists. reflexivity. }
  destruct (E2 d) as [d1 ->].
  split. { split; [auto|split; [auto|split; [cbn [p_chkp]; lia|apply G; lia]]]. }
  assert (E3 : forall d0, exists d1, pstep rl_zc (fun l => fold_left Z.add l 0) cfg1 (mkP d0 (mkExt 1 2097151) 3 (mk_downlink (mkExt 1 2097151))) (PWrite pgB junk0 3 7)
     = mkP d1 (mkExt 16 7) 3 (mk_downlink (mkExt 16 7))).
  { intros. cbn [pstep]. unfold perform_io. replace (get_write_img rl_zc cfg1 pgB junk0) with (pgB, BLCKSZ) by (vm_compute; reflexivity). eexists. reflexivity. }
  destruct (E3 d1) as [d2 ->].
  split. { split; [auto|split; [auto|split; [cbn [p_chkp]; lia|apply G; lia]]]. }
  assert (E4 : forall d0, exists d1, pstep rl_zc (fun l => fold_left Z.add l 0) cfg1 (mkP d0 (mkExt 16 7) 3 (mk_downlink (mkExt 16 7))) (PWrite pgA junk0 3 9)
     = mkP d1 (mkExt 1 7) 3 (mk_downlink (mkExt 1 7))).
  { intros. cbn [pstep]. unfold perform_io. replace (get_write_img rl_zc cfg1 pgA junk0) with (rl_zc pgA ++ junk0, 1) by (vm_compute; reflexivity). eexists. reflexivity. }
  destruct (E4 d2) as [d3 ->].
  split; [|exact Logic.I]. split; [auto|split; [auto|split; [cbn [p_chkp]; lia|apply G; lia]]].
Qed.

Example C50_control_example : exists got,
  read_control 9 true (write_control 170004 (repeat 1 12 ++ [2;0;0;0] ++ repeat 7 136 ++ [9;0;0;0] ++ [1;1;0;0] ++ repeat 0 8) (Some (repeat 3 (Z.to_nat 9000)))) = COk got.
Proof. eexists. vm_compute. reflexivity. Qed.

(** The CRC is the usual one: of the digits 1 to 9. *)
Example crc_check : crc32c [49;50;51;52;53;54;55;56;57] = 3808858755.
Proof. vm_compute. reflexivity. Qed.
