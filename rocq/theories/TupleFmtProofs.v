From Verif Require Import Base PageIoModel PageIoSpec PageIoProofs TupleFmtModel TupleFmtSpec.
From Coq Require Import ZArith List Bool Lia.
From Coq Require Import ZifyBool ZifyNat ZifyN.
Import ListNotations.
Open Scope Z_scope.

(** * Lists, bytes, alignment *)
Lemma zlen_app : forall a b, zlen (a ++ b) = zlen a + zlen b.
Proof. intros. unfold zlen. rewrite app_length. lia. Qed.
Lemma zlen_nn : forall a, 0 <= zlen a.
Proof. intros. unfold zlen. lia. Qed.
Lemma zlen_zeros : forall n, 0 <= n -> zlen (zeros n) = n.
Proof. intros. unfold zlen, zeros. rewrite repeat_length. lia. Qed.

Lemma byte_app : forall a b i, 0 <= i -> byte (a ++ b) (zlen a + i) = byte b i.
Proof.
  intros. unfold byte, zlen. rewrite app_nth2 by lia. f_equal. lia.
Qed.
Lemma byte_app0 : forall a b, byte (a ++ b) (zlen a) = byte b 0.
Proof. intros. rewrite <- (byte_app a b 0) by lia. f_equal. lia. Qed.
Lemma byte_app_l : forall a b i, 0 <= i < zlen a -> byte (a ++ b) i = byte a i.
Proof. intros. unfold byte, zlen in *. rewrite app_nth1 by lia. reflexivity. Qed.
Lemma skipn_zlen : forall (a b : list Z), skipn (Z.to_nat (zlen a)) (a ++ b) = b.
Proof.
  intros. unfold zlen. rewrite Nat2Z.id, skipn_app, skipn_all, Nat.sub_diag. reflexivity.
Qed.
Lemma sub_app : forall a b i n, 0 <= i -> sub (a ++ b) (zlen a + i) n = sub b i n.
Proof.
  intros. unfold sub, zlen. f_equal. rewrite skipn_app, skipn_all2 by lia. cbn [app]. f_equal. lia.
Qed.
Lemma sub_app0 : forall a b n, sub (a ++ b) (zlen a) n = sub b 0 n.
Proof. intros. rewrite <- (sub_app a b 0) by lia. f_equal. lia. Qed.
Lemma sub_app_l : forall a b i n, 0 <= i -> 0 <= n -> i + n <= zlen a -> sub (a ++ b) i n = sub a i n.
Proof.
  intros. unfold sub, zlen in *. rewrite skipn_app, firstn_app, skipn_length.
  replace (Z.to_nat n - (length a - Z.to_nat i))%nat with 0%nat by lia. cbn [firstn]. apply app_nil_r.
Qed.
Lemma sub_all : forall a, sub a 0 (zlen a) = a.
Proof. intros. unfold sub, zlen. rewrite Nat2Z.id. apply firstn_all. Qed.

Lemma align_facts : forall a x, 0 < a -> x <= align a x < x + a /\ (align a x) mod a = 0.
Proof.
  intros. unfold align. pose proof (Z.div_mod (x + a - 1) a ltac:(lia)).
  pose proof (Z.mod_pos_bound (x + a - 1) a ltac:(lia)). split.
  - split; nia.
  - apply Z_mod_mult.
Qed.
Lemma align_1 : forall x, align 1 x = x.
Proof. intros. unfold align. rewrite Z.div_1_r. lia. Qed.
Definition al_ok (a : Z) := a = 1 \/ a = 2 \/ a = 4 \/ a = 8.
Lemma align_shift : forall a h x, al_ok a -> h mod 8 = 0 -> align a (h + x) = h + align a x.
Proof.
  intros a h x A H. pose proof (Z.div_mod h 8 ltac:(lia)). rewrite H, Z.add_0_r in H0. rewrite H0.
  unfold align. destruct A as [->|[->|[->| ->]]].
  - rewrite !Z.div_1_r. lia.
  - replace (8 * (h / 8) + x + 2 - 1) with ((x + 2 - 1) + (4 * (h / 8)) * 2) by lia. rewrite Z.div_add by lia. lia.
  - replace (8 * (h / 8) + x + 4 - 1) with ((x + 4 - 1) + (2 * (h / 8)) * 4) by lia. rewrite Z.div_add by lia. lia.
  - replace (8 * (h / 8) + x + 8 - 1) with ((x + 8 - 1) + (h / 8) * 8) by lia. rewrite Z.div_add by lia. lia.
Qed.
Lemma al_pos : forall a, al_ok a -> 0 < a. Proof. unfold al_ok; lia. Qed.

Lemma nth_iota : forall n i, (i < Z.to_nat n)%nat -> nth i (iota n) 0 = Z.of_nat i.
Proof.
  intros. unfold iota. rewrite (nth_indep _ 0 (Z.of_nat 0)) by (rewrite map_length, seq_length; lia).
  rewrite map_nth, seq_nth by lia. f_equal.
Qed.
Lemma iota_length : forall n, length (iota n) = Z.to_nat n.
Proof. intros. unfold iota. rewrite map_length, seq_length. reflexivity. Qed.
Lemma in_iota : forall n i, In i (iota n) <-> 0 <= i < n.
Proof.
  intros. unfold iota. rewrite in_map_iff. split.
  - intros [k [<- K]]. apply in_seq in K. lia.
  - intros. exists (Z.to_nat i). rewrite in_seq. lia.
Qed.

Lemma unle_nn : forall l, bytes l -> 0 <= unle l.
Proof. induction 1; cbn [unle]; lia. Qed.
Lemma unle_lt4 : forall l, bytes l -> length l = 4%nat -> unle l < 4294967296.
Proof.
  intros l B L. destruct l as [|a [|b [|c [|e [|]]]]]; try discriminate.
  unfold bytes in B. cbn [unle]. rewrite Forall_forall in B.
  pose proof (B a ltac:(cbn [In]; auto)). pose proof (B b ltac:(cbn [In]; auto)).
  pose proof (B c ltac:(cbn [In]; auto)). pose proof (B e ltac:(cbn [In]; auto 6)). lia.
Qed.
Lemma land_ones' : forall x k, 0 <= k -> Z.land x (Z.ones k) = x mod 2 ^ k.
Proof. intros. apply Z.land_ones. auto. Qed.
Lemma land3 : forall x, Z.land x 3 = x mod 4.
Proof. intros. change 3 with (Z.ones 2). rewrite Z.land_ones by lia. reflexivity. Qed.
Lemma vs4 : forall m p, 0 <= unle (sub m p 4) < 4294967296 -> varsize_4b m p = unle (sub m p 4) / 4.
Proof.
  intros. unfold varsize_4b. change 1073741823 with (Z.ones 30). rewrite Z.land_ones by lia.
  rewrite Z.shiftr_div_pow2 by lia. change (2 ^ 2) with 4. apply Z.mod_small.
  change (2 ^ 30) with 1073741824.
  split; [apply Z.div_pos; lia| apply Z.div_lt_upper_bound; lia].
Qed.
Lemma vs1 : forall m p, 0 <= byte m p < 256 -> varsize_1b m p = byte m p / 2.
Proof.
  intros. unfold varsize_1b. change 127 with (Z.ones 7). rewrite Z.land_ones by lia.
  rewrite Z.shiftr_div_pow2 by lia. change (2 ^ 1) with 2. apply Z.mod_small.
  change (2 ^ 7) with 128. split; [apply Z.div_pos; lia| apply Z.div_lt_upper_bound; lia].
Qed.

(** * One column *)
Lemma strlen_cstr : forall s r, (forall x, In x s -> x <> 0) -> strlen ((s ++ [0]) ++ r) = Z.of_nat (length s).
Proof.
  induction s; intros r H; cbn [app strlen length].
  - reflexivity.
  - destruct (Z.eqb_spec a 0) as [E|N].
    + exfalso. apply (H a); [left; auto|auto].
    + rewrite IHs by (intros; apply H; right; auto). lia.
Qed.

(** The bytes [e] that stand for a non-null cell after [k] bytes of padding. *)
Record placed (a : att) (o : Z) (c : cell) (k : Z) (e : list Z) : Prop := {
  p_k : 0 <= k;
  p_ne : 0 < zlen e;
  p_fix : 0 < a_len a -> k = align (a_align a) o - o /\ zlen e = a_len a;
  p_cstr : a_len a = -2 -> k = 0 /\ byte e 0 <> 1 /\ (forall t, strlen (e ++ t) + 1 = zlen e);
  p_var : a_len a = -1 ->
          ((k = 0 /\ byte e 0 <> 0) \/ k = align (a_align a) o - o) /\
          (if byte e 0 =? 1 then zlen e = 12 else forall t, varsize_any (e ++ t) 0 = zlen e);
  p_dec : decode a e = cell_value a c }.

Lemma nth0_byte : forall b, byte b 0 = nth 0 b 0. Proof. reflexivity. Qed.

Lemma firstn_short : forall (l : list Z) n, n = Z.of_nat (length l) -> firstn (Z.to_nat n) l = l.
Proof. intros l n ->. rewrite Nat2Z.id. apply firstn_all. Qed.

Lemma wfv_short : forall b h p, bytes b -> b = h :: p -> Z.odd h = true -> h <> 1 -> Z.of_nat (length b) = h / 2 ->
  forall t, varsize_1b (b ++ t) 0 = zlen b /\ is_1b (b ++ t) 0 = true /\ byte (b ++ t) 0 = h.
Proof.
  intros b h p B -> O N L t. cbn [app]. assert (byte (h :: p ++ t) 0 = h) as E by reflexivity.
  assert (0 <= h < 256) by (inversion B; auto).
  split; [|split].
  - rewrite vs1; rewrite E; auto.
  - unfold is_1b. rewrite E. auto.
  - auto.
Qed.

Lemma mod4_even : forall x, x mod 4 = 0 \/ x mod 4 = 2 -> Z.odd x = false.
Proof.
  intros. rewrite Zodd_mod. pose proof (Z.div_mod x 4 ltac:(lia)).
  destruct (Zeq_bool (x mod 2) 1) eqn:E; auto. apply Zeq_bool_eq in E.
  exfalso. assert (x mod 2 = 0); [|lia].
  destruct H as [H|H]; rewrite H in H0; rewrite H0.
  - replace (4 * (x / 4) + 0) with (0 + (2 * (x/4)) * 2) by lia. rewrite Z.mod_add by lia. reflexivity.
  - replace (4 * (x / 4) + 2) with (0 + (2 * (x/4) + 1) * 2) by lia. rewrite Z.mod_add by lia. reflexivity.
Qed.

Lemma bytes_firstn : forall l n, bytes l -> bytes (firstn n l).
Proof.
  induction l; destruct n; cbn [firstn]; intros B; try constructor; inversion B; subst; auto.
  apply IHl. auto.
Qed.

Lemma wfv_long : forall b, bytes b -> 4 <= Z.of_nat (length b) -> unle (firstn 4 b) / 4 = Z.of_nat (length b) ->
  (nth 0 b 0 mod 4 = 0 \/ nth 0 b 0 mod 4 = 2) ->
  forall t, varsize_4b (b ++ t) 0 = zlen b /\ is_1b (b ++ t) 0 = false /\ is_4b_u (b ++ t) 0 = (nth 0 b 0 mod 4 =? 0).
Proof.
  intros b B L U M t.
  assert (byte (b ++ t) 0 = nth 0 b 0) as E by (rewrite byte_app_l by (unfold zlen; lia); reflexivity).
  assert (sub (b ++ t) 0 4 = firstn 4 b) as S4.
  { rewrite sub_app_l by (unfold zlen; lia). reflexivity. }
  split; [|split].
  - rewrite vs4; rewrite S4; [exact U|].
    pose proof (unle_nn (firstn 4 b) (bytes_firstn _ _ B)).
    pose proof (unle_lt4 (firstn 4 b) (bytes_firstn _ _ B) ltac:(rewrite firstn_length; lia)). lia.
  - unfold is_1b. rewrite E. apply mod4_even. auto.
  - unfold is_4b_u. rewrite E, land3. reflexivity.
Qed.

Lemma toast_decode : forall a c r s, a_len a = -1 -> 0 <= r < 2 ^ 31 -> 0 <= s < 2 ^ 31 ->
  decode a (toast_value c r s) = VToasted c r s.
Proof.
  intros a c r s La Hr Hs. unfold decode, toast_value. rewrite La.
  change (0 <? -1) with false. change (-1 =? -1) with true. cbv iota.
  change ([1; c; 0; 0] ++ le 4 r ++ le 4 s) with (1 :: [c;0;0] ++ le 4 r ++ le 4 s).
  cbv iota beta. change (1 =? 1) with true. cbv iota.
  change (1 :: [c;0;0] ++ le 4 r ++ le 4 s) with ([1;c;0;0] ++ (le 4 r ++ le 4 s)).
  assert (zlen (le 4 r) = 4) as L1 by (unfold zlen; rewrite le_length; reflexivity).
  assert (zlen (le 4 s) = 4) as L2 by (unfold zlen; rewrite le_length; reflexivity).
  f_equal.
  - pose proof (sub_app0 [1;c;0;0] (le 4 r ++ le 4 s) 4) as E. change (zlen [1;c;0;0]) with 4 in E. rewrite E.
    rewrite sub_app_l by lia. pose proof (sub_all (le 4 r)) as E2. rewrite L1 in E2. rewrite E2.
    apply unle_le. change (256 ^ Z.of_nat 4) with 4294967296. lia.
  - pose proof (sub_app [1;c;0;0] (le 4 r ++ le 4 s) 4 4 ltac:(lia)) as E. change (zlen [1;c;0;0] + 4) with 8 in E. rewrite E.
    pose proof (sub_app0 (le 4 r) (le 4 s) 4) as E1. rewrite L1 in E1. rewrite E1.
    pose proof (sub_all (le 4 s)) as E2. rewrite L2 in E2. rewrite E2.
    apply unle_le. change (256 ^ Z.of_nat 4) with 4294967296. lia.
Qed.

Lemma fill_placed : forall m a c, wf_att a -> wf_cell a c -> c <> CNull ->
  exists k e, fill_step m (a, c) = m ++ zeros k ++ e /\ placed a (zlen m) c k e.
Proof.
  intros m a c [A T] W N. pose proof (align_facts (a_align a) (zlen m) (al_pos _ A)) as [AF _].
  destruct c as [|b|c r s]; [contradiction| |].
  - destruct W as [B [WF [WV WC]]]. unfold fill_step.
    assert (0 < a_len a -> exists k e, put_aligned (a_align a) m (firstn (Z.to_nat (a_len a)) b) = m ++ zeros k ++ e /\
              placed a (zlen m) (CVal b) k e) as FX.
    { intros P. specialize (WF P). rewrite firstn_short by auto. unfold put_aligned.
      exists (align (a_align a) (zlen m) - zlen m), b. split; [reflexivity|].
      constructor; try lia.
      - unfold zlen; lia.
      - intros _. split; [reflexivity|unfold zlen; lia].
      - reflexivity. }
    destruct (a_byval a) eqn:BV.
    { apply FX. destruct T as [T|[[_ T]|[_ [T _]]]]; try discriminate. auto. }
    destruct (Z.eqb_spec (a_len a) (-1)) as [E|E].
    + destruct (WV E) as [(h & p & Eb & O & H1 & L)|[L4 [U M4]]].
      * destruct (wfv_short b h p B Eb O H1 L []) as [V1 [V2 V3]]. rewrite app_nil_r in V1, V2, V3.
        rewrite V2, V1. unfold zlen. rewrite firstn_short by auto.
        exists 0, b. split; [reflexivity|]. constructor; try lia.
        -- subst b. unfold zlen. cbn [length]. lia.
        -- intros _. rewrite V3. split; [left; split; [reflexivity|]; intros ->; discriminate|].
           destruct (Z.eqb_spec h 1); [contradiction|]. intros t. unfold varsize_any.
           destruct (wfv_short b h p B Eb O H1 L t) as [W1 [W2 _]]. rewrite W2. auto.
        -- reflexivity.
      * destruct (wfv_long b B L4 U M4 []) as [V1 [V2 V3]]. rewrite app_nil_r in V1, V2, V3. rewrite V2.
        destruct (a_pack a && can_make_short b) eqn:PS.
        -- apply andb_true_iff in PS. destruct PS as [_ PS]. unfold can_make_short in PS. rewrite V3, V1 in PS.
           apply andb_true_iff in PS. destruct PS as [PU PL]. apply Z.eqb_eq in PU. apply Z.leb_le in PL.
           unfold converted_short_size. rewrite V1. set (n := zlen b - 4 + 1) in *.
           assert (zlen (firstn (Z.to_nat (n - 1)) (skipn 4 b)) = n - 1) as LP.
           { unfold zlen. rewrite firstn_length, skipn_length. unfold n, zlen. unfold zlen in *. lia. }
           assert (firstn (Z.to_nat (n - 1)) (skipn 4 b) = skipn 4 b) as FP.
           { apply firstn_all2. rewrite skipn_length. unfold n, zlen. lia. }
           assert (1 <= n <= 127) as NB by (unfold n, zlen in *; lia).
           exists 0, ((2 * n + 1) :: firstn (Z.to_nat (n - 1)) (skipn 4 b)). split; [reflexivity|].
           assert (zlen ((2 * n + 1) :: firstn (Z.to_nat (n - 1)) (skipn 4 b)) = n) as LE.
           { change (2 * n + 1 :: firstn (Z.to_nat (n - 1)) (skipn 4 b)) with ([2 * n + 1] ++ firstn (Z.to_nat (n - 1)) (skipn 4 b)).
             rewrite zlen_app, LP. change (zlen [2 * n + 1]) with 1. lia. }
           constructor; try lia.
           ++ intros _. change (byte (2 * n + 1 :: firstn (Z.to_nat (n - 1)) (skipn 4 b)) 0) with (2 * n + 1).
              split; [left; lia|]. destruct (Z.eqb_spec (2 * n + 1) 1); [lia|]. intros t. unfold varsize_any.
              assert (byte ((2 * n + 1 :: firstn (Z.to_nat (n - 1)) (skipn 4 b)) ++ t) 0 = 2 * n + 1) as BB by reflexivity.
              unfold is_1b. rewrite BB. replace (Z.odd (2 * n + 1)) with true by (rewrite Z.odd_add_mul_2 || (replace (2*n+1) with (1 + 2*n) by lia; rewrite Z.odd_add_mul_2); reflexivity).
              rewrite vs1; rewrite BB; [|lia]. rewrite LE. replace (2 * n + 1) with (1 + n * 2) by lia.
              rewrite Z.div_add by lia. reflexivity.
           ++ unfold decode, cell_value, decode. rewrite E. change (0 <? -1) with false. change (-1 =? -1) with true. cbv iota.
              destruct (Z.eqb_spec (2 * n + 1) 1); [lia|].
              replace (Z.odd (2 * n + 1)) with true by (replace (2*n+1) with (1 + 2*n) by lia; rewrite Z.odd_add_mul_2; reflexivity).
              rewrite FP. destruct b as [|h p]; [cbn in L4; lia|]. cbn [nth] in PU.
              destruct (Z.eqb_spec h 1) as [->|_]; [discriminate|].
              rewrite (mod4_even h (or_introl PU)). rewrite PU. reflexivity.
        -- rewrite V1. unfold zlen. rewrite firstn_short by reflexivity. unfold put_aligned.
           exists (align (a_align a) (zlen m) - zlen m), b. split; [reflexivity|]. constructor; try lia.
           ++ unfold zlen; lia.
           ++ intros _. split; [right; reflexivity|]. rewrite nth0_byte.
              destruct (Z.eqb_spec (nth 0 b 0) 1) as [X|_].
              { rewrite X in M4. destruct M4; discriminate. }
              intros t. unfold varsize_any. destruct (wfv_long b B L4 U M4 t) as [W1 [W2 _]]. rewrite W2. auto.
           ++ reflexivity.
    + destruct (Z.eqb_spec (a_len a) (-2)) as [E2|E2].
      * destruct (WC E2) as (s & Eb & NZ & H1).
        pose proof (strlen_cstr s [] NZ) as SL. rewrite app_nil_r, <- Eb in SL. rewrite SL.
        rewrite firstn_short by (subst b; rewrite app_length; cbn [length]; lia).
        exists 0, b. split; [reflexivity|]. constructor; try lia.
        -- subst b. unfold zlen. rewrite app_length. cbn [length]. lia.
        -- intros _. split; [reflexivity|]. split.
           ++ unfold byte. destruct b; [cbn; lia|]. exact H1.
           ++ intros t. rewrite Eb. rewrite strlen_cstr by auto. unfold zlen. rewrite app_length. cbn [length]. lia.
        -- reflexivity.
      * apply FX. lia.
  - destruct W as [La [Hc [Hr Hs]]]. exists 0, (toast_value c r s). split; [reflexivity|].
    assert (zlen (toast_value c r s) = 12) as L12 by (unfold toast_value; rewrite !zlen_app; unfold zlen; rewrite !le_length; reflexivity).
    constructor; try lia.
    + intros _. change (byte (toast_value c r s) 0) with 1. split; [left; lia|]. cbv iota. exact L12.
    + apply toast_decode; auto.
Qed.

(** * Data area *)
Lemma fill_shift : forall H m a c, al_ok (a_align a) -> zlen H mod 8 = 0 ->
  fill_step (H ++ m) (a, c) = H ++ fill_step m (a, c).
Proof.
  intros H m a c A M.
  assert (forall b, put_aligned (a_align a) (H ++ m) b = H ++ put_aligned (a_align a) m b) as P.
  { intros b. unfold put_aligned. rewrite zlen_app, align_shift by auto. rewrite <- app_assoc.
    do 4 f_equal. lia. }
  unfold fill_step. destruct c as [|b|]; [reflexivity| |rewrite app_assoc; reflexivity].
  destruct (a_byval a); [apply P|]. destruct (a_len a =? -1).
  - destruct (is_1b b 0); [rewrite app_assoc; reflexivity|].
    destruct (a_pack a && can_make_short b); [rewrite app_assoc; reflexivity|apply P].
  - destruct (a_len a =? -2); [rewrite app_assoc; reflexivity|apply P].
Qed.

Lemma fill_shift_all : forall cols H m, zlen H mod 8 = 0 -> Forall (fun ac => al_ok (a_align (fst ac))) cols ->
  fold_left fill_step cols (H ++ m) = H ++ fold_left fill_step cols m.
Proof.
  induction cols as [|[a c] cols IH]; intros H m M F; cbn [fold_left]; [reflexivity|].
  inversion F; subst. rewrite fill_shift by auto. apply IH; auto.
Qed.

Lemma fill_grows1 : forall m ac, exists r, fill_step m ac = m ++ r.
Proof.
  intros m [a c]. unfold fill_step, put_aligned. destruct c as [|b|].
  - exists []. rewrite app_nil_r. auto.
  - destruct (a_byval a); [eexists; reflexivity|]. destruct (a_len a =? -1).
    + destruct (is_1b b 0); [eexists; reflexivity|]. destruct (a_pack a && can_make_short b); eexists; reflexivity.
    + destruct (a_len a =? -2); eexists; reflexivity.
  - eexists; reflexivity.
Qed.
Lemma fill_grows : forall cols m, exists r, fold_left fill_step cols m = m ++ r.
Proof.
  induction cols as [|ac cols IH]; intros m; cbn [fold_left].
  - exists []. rewrite app_nil_r. auto.
  - destruct (fill_grows1 m ac) as [r E]. rewrite E. destruct (IH (m ++ r)) as [r' E']. rewrite E'.
    exists (r ++ r'). rewrite app_assoc. auto.
Qed.

Definition data (cols : list (att * cell)) : list Z := fold_left fill_step cols [].
Lemma data_snoc : forall l ac, data (l ++ [ac]) = fill_step (data l) ac.
Proof. intros. unfold data. rewrite fold_left_app. reflexivity. Qed.

Definition wf_pair (ac : att * cell) : Prop := wf_att (fst ac) /\ wf_cell (fst ac) (snd ac).

Lemma size_step : forall m a c, wf_pair (a, c) -> data_size_step (zlen m) (a, c) = zlen (fill_step m (a, c)).
Proof.
  intros m a c [WA WC]. cbn [fst snd] in WA, WC. destruct c as [|b|c r s].
  - reflexivity.
  - destruct WA as [A T]. destruct WC as [B [WF [WV WS]]].
    pose proof (align_facts (a_align a) (zlen m) (al_pos _ A)) as [AF _].
    assert (forall x, zlen (put_aligned (a_align a) m x) = align (a_align a) (zlen m) + zlen x) as PA.
    { intros x. unfold put_aligned. rewrite !zlen_app, zlen_zeros by lia. lia. }
    unfold data_size_step, fill_step, packable.
    destruct T as [T|[[T BV]|[T [BV A1]]]].
    + destruct (Z.eqb_spec (a_len a) (-1)); [lia|]. destruct (Z.eqb_spec (a_len a) (-2)); [lia|]. cbn [andb].
      destruct (a_len a >? 0) eqn:G; [|lia]. specialize (WF T).
      rewrite firstn_short by auto. destruct (a_byval a); rewrite PA; unfold zlen; lia.
    + rewrite BV, T. change (-1 =? -1) with true. change (-1 >? 0) with false. cbn [andb]. cbv iota.
      destruct (WV T) as [(h & p & Eb & O & H1 & L)|[L4 [U M4]]].
      * destruct (wfv_short b h p B Eb O H1 L []) as [V1 [V2 V3]]. rewrite app_nil_r in V1, V2, V3.
        unfold varsize_any. rewrite V2, V1. rewrite (firstn_short b (zlen b)) by reflexivity.
        assert (can_make_short b = false) as CS.
        { unfold can_make_short, is_4b_u. rewrite V3, land3. rewrite Zodd_mod in O. apply Zeq_bool_eq in O.
          destruct (Z.eqb_spec (h mod 4) 0) as [X|]; [|reflexivity]. exfalso.
          pose proof (Z.div_mod h 4 ltac:(lia)). rewrite X in H. rewrite H in O.
          replace (4 * (h / 4) + 0) with (0 + (2 * (h/4)) * 2) in O by lia. rewrite Z.mod_add in O by lia. discriminate. }
        rewrite CS, andb_false_r, zlen_app. reflexivity.
      * destruct (wfv_long b B L4 U M4 []) as [V1 [V2 V3]]. rewrite app_nil_r in V1, V2, V3.
        unfold varsize_any. rewrite V2, V1. destruct (a_pack a && can_make_short b) eqn:PS.
        -- unfold converted_short_size. rewrite V1. rewrite zlen_app.
           change (2 * (zlen b - 4 + 1) + 1 :: firstn (Z.to_nat (zlen b - 4 + 1 - 1)) (skipn 4 b))
             with ([2 * (zlen b - 4 + 1) + 1] ++ firstn (Z.to_nat (zlen b - 4 + 1 - 1)) (skipn 4 b)).
           rewrite zlen_app. change (zlen [2 * (zlen b - 4 + 1) + 1]) with 1.
           unfold zlen. rewrite firstn_length, skipn_length. lia.
        -- rewrite (firstn_short b (zlen b)) by reflexivity. rewrite PA. reflexivity.
    + rewrite BV, T. change (-2 =? -1) with false. change (-2 =? -2) with true. change (-2 >? 0) with false. cbn [andb]. cbv iota.
      destruct (WS T) as (s & Eb & NZ & H1).
      pose proof (strlen_cstr s [] NZ) as SL. rewrite app_nil_r, <- Eb in SL. rewrite SL.
      rewrite firstn_short by (subst b; rewrite app_length; cbn [length]; lia).
      rewrite A1, align_1, zlen_app. subst b. unfold zlen at 3. rewrite app_length. cbn [length]. lia.
  - destruct WC as [La [Hc [Hr Hs]]]. unfold data_size_step, fill_step. rewrite zlen_app.
    assert (zlen (toast_value c r s) = 12) as -> by (unfold toast_value; rewrite !zlen_app; unfold zlen; rewrite !le_length; reflexivity).
    reflexivity.
Qed.

Lemma size_all : forall cols, Forall wf_pair cols -> compute_data_size cols = zlen (data cols).
Proof.
  induction cols as [|[a c] cols IH] using rev_ind; intros F; [reflexivity|].
  apply Forall_app in F. destruct F as [F1 F2]. inversion F2; subst.
  unfold compute_data_size in *. rewrite fold_left_app. cbn [fold_left]. rewrite data_snoc.
  rewrite IH by auto. apply size_step. auto.
Qed.

(** * Nominal offsets *)
Definition nomend (d : list att) (j : nat) : Z :=
  fold_left (fun o a => align (a_align a) o + a_len a) (firstn j d) 0.

Lemma firstn_snoc : forall {A} (l : list A) i x, nth_error l i = Some x -> firstn (Datatypes.S i) l = firstn i l ++ [x].
Proof.
  induction l; destruct i; cbn [nth_error firstn app]; intros x E; try discriminate.
  - inversion E. reflexivity.
  - f_equal. apply IHl. auto.
Qed.

Lemma nomend_S : forall d j a, nth_error d j = Some a -> nomend d (Datatypes.S j) = align (a_align a) (nomend d j) + a_len a.
Proof. intros. unfold nomend. rewrite (firstn_snoc d j a) by auto. rewrite fold_left_app. reflexivity. Qed.

Lemma ffs_spec : forall d n i len pre, i = Z.of_nat (length pre) -> len = nomend (pre ++ d) (length pre) ->
  Forall (fun a => 0 < a_len a) pre ->
  let s := ffs_loop d n i len in
  i <= sp_natts s <= i + Z.of_nat n /\ sp_natts s <= i + Z.of_nat (length d) /\
  sp_len s = nomend (pre ++ d) (Z.to_nat (sp_natts s)) /\
  (forall j a, Z.of_nat j < sp_natts s -> nth_error (pre ++ d) j = Some a -> 0 < a_len a) /\
  (sp_natts s < i + Z.of_nat n -> sp_natts s < i + Z.of_nat (length d) ->
     exists a, nth_error (pre ++ d) (Z.to_nat (sp_natts s)) = Some a /\ a_len a <= 0).
Proof.
  induction d as [|a d IH]; intros n i len pre Ei El F s.
  - assert (s = {| sp_natts := i; sp_len := len |}) as -> by (unfold s; destruct n; reflexivity).
    cbn [sp_natts sp_len length]. split; [lia|]. split; [lia|]. split; [subst i; rewrite Nat2Z.id; auto|]. split; [|lia].
    intros j b J E. rewrite app_nil_r in E. rewrite Forall_forall in F. apply F. eapply nth_error_In; eauto.
  - destruct n as [|n]; [|cbn [ffs_loop] in s; destruct (Z.leb_spec (a_len a) 0) as [L|L]].
    1,2: unfold s; cbn [ffs_loop sp_natts sp_len length]; split; [lia|]; split; [lia|]; 
      split; [subst i; rewrite Nat2Z.id; auto|]; split;
      [intros j b J E; rewrite nth_error_app1 in E by lia; rewrite Forall_forall in F; apply F; eapply nth_error_In; eauto|].
    + lia.
    + intros _ _. exists a. split; [|auto]. subst i. rewrite Nat2Z.id, nth_error_app2, Nat.sub_diag by lia. reflexivity.
    + pose proof (IH n (i + 1) (align (a_align a) len + a_len a) (pre ++ [a])) as Q.
      rewrite <- app_assoc in Q. cbn [app] in Q. fold s in Q. rewrite app_length in Q. cbn [length] in Q.
      destruct Q as (Q1 & Q2 & Q3 & Q4 & Q5).
      * lia.
      * rewrite Nat.add_1_r. rewrite (nomend_S (pre ++ a :: d) (length pre) a).
        -- rewrite El. reflexivity.
        -- rewrite nth_error_app2, Nat.sub_diag by lia. reflexivity.
      * apply Forall_app. split; auto.
      * cbn [length]. split; [lia|]. split; [lia|]. split; [auto|]. split; [auto|].
        intros X Y. apply Q5; lia.
Qed.

Lemma ffs_firstn : forall d k n i len, (n <= k)%nat -> ffs_loop (firstn k d) n i len = ffs_loop d n i len.
Proof.
  induction d as [|a d IH]; intros k n i len L.
  - rewrite firstn_nil. reflexivity.
  - destruct n as [|n]; [destruct k; reflexivity|]. destruct k as [|k]; [lia|]. cbn [firstn ffs_loop].
    destruct (a_len a <=? 0); [reflexivity|]. apply IH. lia.
Qed.

(** * One row *)
Set Default Proof Using "All".
Section Row.
Variable d : list att.
Variable cs : list cell.
Variable H : list Z.
Hypothesis WD : Forall wf_att d.
Hypothesis WL : (length cs <= length d)%nat.
Hypothesis WC : Forall wf_pair (combine d cs).
Hypothesis WH : zlen H mod 8 = 0.
Let cols := combine d cs.
Let M := H ++ data cols.

Definition allfix (i : nat) : Prop :=
  forall j, (j < i)%nat -> nth j cs CNull <> CNull /\ 0 < a_len (nth j d dflt_att).
Definition CI (ca : cache) : Prop :=
  forall j, 0 <= ca j -> 0 <= j /\ (forall k, (k < Z.to_nat j)%nat -> 0 < a_len (nth k d dflt_att)) /\
    ca j = align (a_align (att_of d j)) (nomend d (Z.to_nat j)) /\
    (a_len (att_of d j) = -1 -> ca j = nomend d (Z.to_nat j)).
Definition RI (r : reader) (i : nat) : Prop :=
  r_tp r = zlen H /\ r_attnum r = Z.of_nat i /\ r_off r = zlen (data (firstn i cols)) /\
  (r_slow r = false -> allfix i).

Lemma cols_nth : forall i, (i < length cs)%nat ->
  nth_error cols i = Some (nth i d dflt_att, nth i cs CNull).
Proof.
  unfold cols. clear - WL. revert cs WL. induction d as [|a l IH]; intros c L i Hi; cbn [length] in L.
  - lia.
  - destruct c as [|x c]; cbn [length] in *; [lia|]. destruct i; cbn [combine nth_error nth]; [reflexivity|].
    apply IH; lia.
Qed.

Lemma att_wf : forall i, (i < length cs)%nat -> wf_att (nth i d dflt_att).
Proof. intros. rewrite Forall_forall in WD. apply WD. apply nth_In. lia. Qed.
Lemma cell_wf : forall i, (i < length cs)%nat -> wf_cell (nth i d dflt_att) (nth i cs CNull).
Proof.
  intros i Hi. pose proof (cols_nth i Hi) as E. apply nth_error_In in E.
  rewrite Forall_forall in WC. apply WC in E. apply E.
Qed.

Lemma allfix_nom : forall i, (i <= length cs)%nat -> allfix i -> zlen (data (firstn i cols)) = nomend d i.
Proof.
  induction i; intros L A; [reflexivity|].
  rewrite (firstn_snoc cols i _ (cols_nth i ltac:(lia))). rewrite data_snoc.
  rewrite (nomend_S d i (nth i d dflt_att)) by (apply nth_error_nth'; lia).
  rewrite <- IHi by (try lia; intros j J; apply A; lia).
  destruct (A i ltac:(lia)) as [N P].
  destruct (fill_placed (data (firstn i cols)) _ _ (att_wf i ltac:(lia)) (cell_wf i ltac:(lia)) N) as (k & e & E & Pl).
  rewrite E, !zlen_app, zlen_zeros by apply (p_k _ _ _ _ _ Pl).
  destruct (p_fix _ _ _ _ _ Pl P) as [-> ->]. lia.
Qed.

(** Where column [i] lies. *)
Lemma locate : forall i, (i < length cs)%nat -> nth i cs CNull <> CNull ->
  exists k e rest, placed (nth i d dflt_att) (zlen (data (firstn i cols))) (nth i cs CNull) k e /\
    data (firstn (Datatypes.S i) cols) = data (firstn i cols) ++ zeros k ++ e /\
    M = (H ++ data (firstn i cols) ++ zeros k) ++ e ++ rest.
Proof.
  intros i Hi N.
  destruct (fill_placed (data (firstn i cols)) _ _ (att_wf i Hi) (cell_wf i Hi) N) as (k & e & E & Pl).
  pose proof (firstn_snoc cols i _ (cols_nth i Hi)) as FS.
  assert (data (firstn (Datatypes.S i) cols) = data (firstn i cols) ++ zeros k ++ e) as D1.
  { rewrite FS, data_snoc. auto. }
  destruct (fill_grows (skipn (Datatypes.S i) cols) (data (firstn (Datatypes.S i) cols))) as [rest R].
  exists k, e, rest. split; [auto|]. split; [auto|].
  unfold M. replace (data cols) with (data (firstn (Datatypes.S i) cols) ++ rest).
  - rewrite D1. rewrite <- !app_assoc. reflexivity.
  - rewrite <- R. unfold data. rewrite <- fold_left_app. rewrite firstn_skipn. reflexivity.
Qed.

Lemma at_place : forall a c o k e rest pre p, wf_att a -> placed a o c k e -> M = pre ++ e ++ rest -> p = zlen pre ->
  (if negb (a_byval a) && (a_len a <? 0) && is_toast_pointer M p then TOASTSZ else addlength_pointer a 0 M p) = zlen e.
Proof.
  intros a c o k e rest pre p [A T] P EM ->.
  assert (byte M (zlen pre) = byte e 0) as B0.
  { rewrite EM, byte_app0. apply byte_app_l. pose proof (p_ne _ _ _ _ _ P). lia. }
  unfold is_toast_pointer, addlength_pointer. rewrite B0.
  destruct T as [T|[[T BV]|[T [BV A1]]]].
  - replace (a_len a <? 0) with false by lia. rewrite andb_false_r. cbn [andb].
    replace (a_len a >? 0) with true by lia. destruct (p_fix _ _ _ _ _ P T). lia.
  - rewrite T, BV. change (-1 <? 0) with true. change (-1 >? 0) with false. change (-1 =? -1) with true. cbn [negb andb]. cbv iota.
    destruct (p_var _ _ _ _ _ P T) as [_ V]. destruct (byte e 0 =? 1).
    + unfold TOASTSZ. auto.
    + rewrite <- (V rest). rewrite Z.add_0_l. unfold varsize_any, is_1b, varsize_1b, varsize_4b.
      rewrite EM. rewrite byte_app0, sub_app0. reflexivity.
  - rewrite T, BV. destruct (p_cstr _ _ _ _ _ P T) as [_ [N1 SL]].
    change (-2 <? 0) with true. change (-2 >? 0) with false. change (-2 =? -1) with false. cbn [negb andb].
    destruct (Z.eqb_spec (byte e 0) 1); [contradiction|]. rewrite EM, skipn_zlen. rewrite <- (SL rest). lia.
Qed.

Lemma addlength_add : forall a o m p, addlength_pointer a o m p = o + addlength_pointer a 0 m p.
Proof. intros. unfold addlength_pointer. destruct (_ >? _); [lia|]. destruct (_ =? _); lia. Qed.

Lemma nth_att_of : forall i, att_of d (Z.of_nat i) = nth i d dflt_att.
Proof. intros. unfold att_of. rewrite Nat2Z.id. reflexivity. Qed.

Lemma CI_upd : forall ca i off, CI ca -> allfix i -> off = align (a_align (nth i d dflt_att)) (nomend d i) ->
  (a_len (nth i d dflt_att) = -1 -> off = nomend d i) -> CI (upd ca (Z.of_nat i) off).
Proof.
  intros ca i off C A E1 E2 j Hj. unfold upd in *. destruct (Z.eqb_spec j (Z.of_nat i)) as [Ej|N].
  - rewrite Ej. rewrite nth_att_of, Nat2Z.id. split; [lia|]. split; [|split; auto].
    intros k K. apply A. auto.
  - apply C. auto.
Qed.

Lemma fetch_ok : forall i k e rest, (i < length cs)%nat ->
  placed (nth i d dflt_att) (zlen (data (firstn i cols))) (nth i cs CNull) k e ->
  M = (H ++ data (firstn i cols) ++ zeros k) ++ e ++ rest ->
  fetch (nth i d dflt_att) M (zlen H + (zlen (data (firstn i cols)) + k)) = RVal e.
Proof.
  intros i k e rest Hi P EM. unfold fetch.
  assert (zlen H + (zlen (data (firstn i cols)) + k) = zlen (H ++ data (firstn i cols) ++ zeros k)) as EP.
  { rewrite !zlen_app, zlen_zeros by apply (p_k _ _ _ _ _ P). lia. }
  rewrite EP. rewrite (at_place _ _ _ _ _ _ _ _ (att_wf i Hi) P EM eq_refl).
  set (pre := H ++ data (firstn i cols) ++ zeros k) in *.
  pose proof (zlen_nn pre). pose proof (zlen_nn rest). pose proof (p_ne _ _ _ _ _ P).
  assert (zlen M = zlen pre + (zlen e + zlen rest)) as LM by (rewrite EM, !zlen_app; lia).
  rewrite LM.
  replace (0 <=? zlen pre) with true by lia. replace (zlen pre <? _) with true by lia.
  replace (zlen pre + zlen e <=? _) with true by lia. cbn [andb].
  rewrite EM, sub_app0, sub_app_l by lia. rewrite sub_all. reflexivity.
Qed.

Lemma cached_place : forall i k e c, placed (nth i d dflt_att) (nomend d i) c k e -> wf_att (nth i d dflt_att) ->
  forall ca, CI ca -> 0 <= ca (Z.of_nat i) -> ca (Z.of_nat i) = nomend d i + k.
Proof.
  intros i k e c P [A T] ca C G. destruct (C _ G) as (_ & _ & E & V). rewrite nth_att_of, Nat2Z.id in *.
  destruct T as [T|[[T BV]|[T [BV A1]]]].
  - destruct (p_fix _ _ _ _ _ P T). lia.
  - specialize (V T). destruct (p_var _ _ _ _ _ P T) as [[[-> _]| ->] _]; lia.
  - destruct (p_cstr _ _ _ _ _ P T) as [-> _]. rewrite A1, align_1 in E. lia.
Qed.

Lemma next_ok : forall ca r i, CI ca -> RI r i -> (i < length cs)%nat -> nth i cs CNull <> CNull ->
  let '(off, r', ca') := next_field_offset M ca r (nth i d dflt_att) in
  CI ca' /\ RI r' (Datatypes.S i) /\ r_natts r' = r_natts r /\ r_hasnulls r' = r_hasnulls r /\
  exists e, fetch (nth i d dflt_att) M (r_tp r + off) = RVal e /\
            decode (nth i d dflt_att) e = cell_value (nth i d dflt_att) (nth i cs CNull).
Proof.
  intros ca r i C (R1 & R2 & R3 & R4) Hi N.
  destruct (locate i Hi N) as (k & e & rest & P & D1 & EM).
  set (a := nth i d dflt_att) in *. set (o := zlen (data (firstn i cols))) in *.
  pose proof (p_k _ _ _ _ _ P) as K0.
  assert (r_slow r = false -> o = nomend d i) as NM.
  { intros S. apply allfix_nom; [lia|auto]. }
  assert (forall x, byte M (zlen H + o) = x -> k = 0 -> x = byte e 0) as BK0.
  { intros x <- ->. rewrite EM. replace (zlen H + o) with (zlen (H ++ data (firstn i cols) ++ zeros 0)).
    - rewrite byte_app0. apply byte_app_l. pose proof (p_ne _ _ _ _ _ P). lia.
    - rewrite !zlen_app. unfold o. change (zlen (zeros 0)) with 0. lia. }
  assert (0 < k -> byte M (zlen H + o) = 0) as BK1.
  { intros G. rewrite EM. replace ((H ++ data (firstn i cols) ++ zeros k) ++ e ++ rest)
      with ((H ++ data (firstn i cols)) ++ (zeros k ++ e ++ rest)) by (rewrite <- !app_assoc; reflexivity).
    replace (zlen H + o) with (zlen (H ++ data (firstn i cols))) by (rewrite zlen_app; reflexivity).
    rewrite byte_app0. rewrite byte_app_l by (rewrite zlen_zeros; lia).
    unfold byte, zeros. replace (Z.to_nat k) with (Datatypes.S (Z.to_nat (k - 1))) by lia. reflexivity. }
  pose proof (att_wf i Hi) as WA. fold a in WA.
  assert (exists sl ca', field_start M ca r a = (o + k, sl, ca') /\ CI ca' /\ (sl = false -> r_slow r = false)) as (sl & ca' & ET & C' & SL).
  { unfold field_start. rewrite R1, R2, R3. destruct (negb (r_slow r) && (0 <=? ca (Z.of_nat i))) eqn:Q1.
    - apply andb_true_iff in Q1. destruct Q1 as [Q1 Q2]. apply negb_true_iff in Q1. apply Z.leb_le in Q2.
      exists (r_slow r), ca. split; [|auto].
      assert (o = nomend d i) as EO by auto.
      assert (placed a (nomend d i) (nth i cs CNull) k e) as P' by (rewrite <- EO; exact P).
      rewrite (cached_place i k e (nth i cs CNull) P' WA ca C Q2). rewrite EO. reflexivity.
    - clear Q1. destruct WA as [A T'].
      destruct (Z.eqb_spec (a_len a) (-1)) as [E1|E1].
      + destruct (p_var _ _ _ _ _ P E1) as [V _].
        destruct (negb (r_slow r) && (o =? align (a_align a) o)) eqn:Q2.
        * apply andb_true_iff in Q2. destruct Q2 as [Q2 Q3]. apply negb_true_iff in Q2. apply Z.eqb_eq in Q3.
          assert (k = 0) as -> by (destruct V as [[? _]|?]; lia).
          exists (r_slow r), (upd ca (Z.of_nat i) o). rewrite Z.add_0_r. split; [reflexivity|]. split; [|auto].
          specialize (NM Q2). apply CI_upd; auto; fold a; rewrite <- NM; auto.
        * exists true, ca. split; [|split; [auto|discriminate]].
          unfold align_pointer. f_equal. f_equal.
          destruct V as [[-> NZ]|KE].
          -- rewrite (BK0 _ eq_refl eq_refl). destruct (Z.eqb_spec (byte e 0) 0); [contradiction|]. cbn [negb]. lia.
          -- destruct (Z.eq_dec k 0) as [K|K].
             ++ destruct (negb (byte M (zlen H + o) =? 0)); lia.
             ++ rewrite BK1 by lia. cbn [negb Z.eqb]. lia.
      + assert (align (a_align a) o = o + k) as AK.
        { destruct T' as [T'|[[T' _]|[T' [_ A1]]]].
          - destruct (p_fix _ _ _ _ _ P T'). lia.
          - contradiction.
          - destruct (p_cstr _ _ _ _ _ P T') as [-> _]. rewrite A1, align_1. lia. }
        rewrite AK. eexists _, _. split; [reflexivity|]. split; [|auto].
        destruct (r_slow r) eqn:S; cbn [negb]; [auto|]. specialize (NM eq_refl).
        apply CI_upd; auto; fold a; rewrite <- NM; [lia|contradiction]. }
  unfold next_field_offset. rewrite ET, R1, R2.
  assert (zlen H + (o + k) = zlen (H ++ data (firstn i cols) ++ zeros k)) as EP.
  { rewrite !zlen_app, zlen_zeros by lia. unfold o. lia. }
  split; [auto|]. split; [|split; [reflexivity|split; [reflexivity|]]].
  - unfold RI. cbn [r_tp r_attnum r_off r_slow]. split; [auto|]. split; [lia|]. split.
    + rewrite D1, !zlen_app, zlen_zeros by lia. fold o.
      pose proof (at_place _ _ _ _ _ _ _ _ WA P EM EP) as AP.
      destruct (negb (a_byval a) && (a_len a <? 0) && is_toast_pointer M (zlen H + (o + k))).
      * unfold TOASTSZ in *. lia.
      * rewrite addlength_add, AP. lia.
    + destruct (Z.leb_spec (a_len a) 0) as [G|G]; [discriminate|]. intros S j J.
      destruct (Nat.eq_dec j i) as [->|]; [fold a; auto|]. apply R4; [auto|lia].
  - exists e. split; [|apply (p_dec _ _ _ _ _ P)]. apply (fetch_ok i k e rest Hi P EM).
Qed.


(** ** Reading in order *)
Variable hn : bool.
Hypothesis NB : forall i, (i < length cs)%nat ->
  if hn then att_isnull M (Z.of_nat i) = is_null (nth i cs CNull) else nth i cs CNull <> CNull.

Definition RI2 (r : reader) (i : nat) : Prop :=
  r_attnum r = Z.of_nat i /\ r_natts r = Z.of_nat (length cs) /\ r_hasnulls r = hn /\
  ((i <= length cs)%nat -> RI r i).
Definition exp (i : nat) : value :=
  if (i <? length cs)%nat then cell_value (nth i d dflt_att) (nth i cs CNull) else default_value (nth i d dflt_att).

Lemma read_next_ok : forall ca r i, CI ca -> RI2 r i ->
  let '(v, r', ca') := read_next_field d M ca r in
  CI ca' /\ RI2 r' (Datatypes.S i) /\ res_value (nth i d dflt_att) v = exp i.
Proof.
  intros ca r i C (R1 & R2 & R3 & R4). unfold read_next_field. rewrite R1, R2, R3, nth_att_of.
  unfold exp. destruct (Z.leb_spec (Z.of_nat (length cs)) (Z.of_nat i)) as [L|L].
  - replace (i <? length cs)%nat with false by lia. unfold default_value.
    destruct (a_missing (nth i d dflt_att)); (split; [auto|]; split; [|reflexivity]);
      unfold RI2, skip_field; cbn [r_attnum r_natts r_hasnulls]; (split; [lia|]; split; [auto|]; split; [auto|lia]).
  - replace (i <? length cs)%nat with true by lia. specialize (R4 ltac:(lia)).
    destruct (hn && att_isnull M (Z.of_nat i)) eqn:Q.
    + apply andb_true_iff in Q. destruct Q as [Q1 Q2]. pose proof (NB i ltac:(lia)) as B. rewrite Q1 in B.
      rewrite B in Q2. destruct (nth i cs CNull) eqn:EN; try discriminate.
      split; [auto|]. split; [|reflexivity].
      unfold RI2, skip_field; cbn [r_attnum r_natts r_hasnulls]. split; [lia|]. split; [auto|]. split; [auto|]. intros _.
      destruct R4 as (P1 & P2 & P3 & P4). unfold RI. cbn [r_tp r_attnum r_off r_slow].
      split; [auto|]. split; [lia|]. split; [|discriminate].
      rewrite (firstn_snoc cols i _ (cols_nth i ltac:(lia))), data_snoc, EN. exact P3.
    + assert (nth i cs CNull <> CNull) as NN.
      { pose proof (NB i ltac:(lia)) as B. destruct hn; auto. cbn [andb] in Q. rewrite B in Q.
        intros X. rewrite X in Q. discriminate. }
      pose proof (next_ok ca r i C R4 ltac:(lia) NN) as X.
      destruct (next_field_offset M ca r (nth i d dflt_att)) as [[off r'] ca'].
      destruct X as (X1 & X2 & X3 & X4 & e & X5 & X6). split; [auto|]. split.
      * split; [apply X2|]. split; [congruence|]. split; [congruence|auto].
      * rewrite X5. exact X6.
Qed.

Lemma read_fields_ok : forall n ca r i, CI ca -> RI2 r i ->
  let '(vs, r', ca') := read_fields d M n ca r in
  CI ca' /\ length vs = n /\
  forall j, (j < n)%nat -> res_value (nth (i + j) d dflt_att) (nth j vs RNull) = exp (i + j).
Proof.
  induction n; intros ca r i C R; cbn [read_fields].
  - split; [auto|]. split; [reflexivity|lia].
  - pose proof (read_next_ok ca r i C R) as X. destruct (read_next_field d M ca r) as [[v r'] ca'].
    destruct X as (C' & R' & V). pose proof (IHn ca' r' (Datatypes.S i) C' R') as Y.
    destruct (read_fields d M n ca' r') as [[vs r''] ca'']. destruct Y as (C'' & L & F).
    split; [auto|]. split; [cbn [length]; auto|]. intros [|j] J.
    + rewrite Nat.add_0_r. exact V.
    + cbn [nth]. rewrite <- Nat.add_succ_comm. apply F. lia.
Qed.

(** ** A stored tuple with this layout *)
Variable sp : fspec.
Variable t : tuple.
Hypothesis TD : t_data t = M.
Hypothesis TF : if t_fixed t then hn = false /\ H = [] /\ sp_natts sp = Z.of_nat (length cs)
                else h_hasnulls M = hn /\ h_natts M = Z.of_nat (length cs) /\
                     zlen H = 8 + (if hn then MAXALIGN (BITMAPLEN (Z.of_nat (length cs))) else 0).

Lemma init_ok : RI2 (init_reader t sp) 0.
Proof.
  unfold init_reader. rewrite TD. pose proof TF as F.
  assert (forall r, r_tp r = zlen H -> r_off r = 0 -> r_attnum r = 0 -> r_slow r = false ->
            r_natts r = Z.of_nat (length cs) -> r_hasnulls r = hn -> RI2 r 0) as G.
  { intros r A1 A2 A3 A4 A5 A6. split; [auto|]. split; [auto|]. split; [auto|]. intros _.
    split; [auto|]. split; [auto|]. split; [rewrite A2; reflexivity|]. intros _ j J. lia. }
  destruct (t_fixed t).
  - destruct F as (F1 & F2 & F3). apply G; cbn; auto. rewrite F2. reflexivity.
  - destruct F as (F1 & F2 & F3). rewrite F1, F2. destruct hn; apply G; cbn [r_tp r_off r_attnum r_slow r_natts r_hasnulls]; auto;
      rewrite F3; unfold HSZ; lia.
Qed.

Lemma seq_ok : forall ca n, CI ca -> 0 <= n ->
  let '(vs, ca') := read_seq d sp ca t n in
  CI ca' /\ length vs = Z.to_nat n /\
  forall j, (j < Z.to_nat n)%nat -> res_value (nth j d dflt_att) (nth j vs RNull) = exp j.
Proof.
  intros ca n C N. unfold read_seq. rewrite TD.
  pose proof (read_fields_ok (Z.to_nat n) ca _ 0%nat C init_ok) as X.
  destruct (read_fields d M (Z.to_nat n) ca (init_reader t sp)) as [[vs r'] ca'].
  destruct X as (X1 & X2 & X3). split; [auto|]. split; [auto|]. intros j J. apply (X3 j J).
Qed.

Lemma hn_cases : hn = true \/ hn = false.
Proof. destruct hn; auto. Qed.

Lemma fx_cases : t_fixed t = true \/ t_fixed t = false.
Proof. clear. destruct (t_fixed t); auto. Qed.

Lemma slow_bits : forall i, 0 <= i ->
  Z.land (Z.lnot (byte M (HSZ + Z.shiftr i 3))) (Z.shiftl 1 (Z.land i 7) - 1) = 0 ->
  existsb (fun k => negb (byte M (HSZ + k) =? 255)) (iota (Z.shiftr i 3)) = false ->
  forall j, 0 <= j < i -> att_isnull M j = false.
Proof.
  intros i Hi S1 S2 j Hj. unfold att_isnull.
  assert (forall x, Z.land x 7 = x mod 8) as L7 by (intros; change 7 with (Z.ones 3); rewrite Z.land_ones by lia; reflexivity).
  assert (forall x, Z.shiftr x 3 = x / 8) as R3 by (intros; rewrite Z.shiftr_div_pow2 by lia; reflexivity).
  rewrite L7, R3 in *.
  pose proof (Z.mod_pos_bound j 8 ltac:(lia)) as MJ. pose proof (Z.mod_pos_bound i 8 ltac:(lia)) as MI.
  pose proof (Z.div_mod j 8 ltac:(lia)) as DJ. pose proof (Z.div_mod i 8 ltac:(lia)) as DI.
  assert (Z.testbit (byte M (HSZ + j / 8)) (j mod 8) = true) as TB.
  { destruct (Z.eq_dec (j / 8) (i / 8)) as [E|E].
    - rewrite E. assert (Z.testbit (Z.land (Z.lnot (byte M (HSZ + i / 8))) (Z.shiftl 1 (i mod 8) - 1)) (j mod 8) = false) as X
        by (rewrite S1; apply Z.testbit_0_l).
      rewrite Z.land_spec, Z.lnot_spec in X by lia.
      rewrite Z.shiftl_1_l in X. replace (2 ^ (i mod 8) - 1) with (Z.ones (i mod 8)) in X by (rewrite Z.ones_equiv; lia).
      rewrite Z.ones_spec_low in X by lia. rewrite andb_true_r in X. apply negb_false_iff in X. auto.
    - assert (byte M (HSZ + j / 8) = 255) as ->.
      { destruct (Z.eqb_spec (byte M (HSZ + j / 8)) 255) as [|X]; auto. exfalso.
        assert (existsb (fun k => negb (byte M (HSZ + k) =? 255)) (iota (i / 8)) = true) as Y; [|rewrite Y in S2; discriminate].
        apply existsb_exists. exists (j / 8). split.
        - apply in_iota. split; [apply Z.div_pos; lia|]. pose proof (Z.div_le_mono j i 8 ltac:(lia) ltac:(lia)). lia.
        - apply negb_true_iff. apply Z.eqb_neq. auto. }
      change 255 with (Z.ones 8). apply Z.ones_spec_low. lia. }
  apply Z.eqb_neq. intros Z0.
  assert (Z.testbit (Z.land (byte M (HSZ + j / 8)) (Z.shiftl 1 (j mod 8))) (j mod 8) = false) as X by (rewrite Z0; apply Z.testbit_0_l).
  rewrite Z.land_spec, TB in X. rewrite Z.shiftl_1_l, Z.pow2_bits_true in X by lia. discriminate.
Qed.

Lemma last_nth : forall (l : list res) x, last l x = nth (length l - 1) l x.
Proof.
  induction l; intros x; [reflexivity|]. destruct l; [reflexivity|].
  change (last (a :: r :: l) x) with (last (r :: l) x). rewrite IHl. cbn [length nth].
  replace (Datatypes.S (length l) - 0)%nat with (Datatypes.S (length l)) by lia.
  replace (Datatypes.S (length l) - 1)%nat with (length l) by lia. reflexivity.
Qed.

Lemma cached_fetch : forall ca i, CI ca -> (i < length cs)%nat -> nth i cs CNull <> CNull ->
  (forall j, (j < i)%nat -> nth j cs CNull <> CNull) -> 0 <= ca (Z.of_nat i) ->
  res_value (nth i d dflt_att) (fetch (nth i d dflt_att) M (zlen H + ca (Z.of_nat i))) = exp i.
Proof.
  intros ca i C Hi N NN G. destruct (locate i Hi N) as (k & e & rest & P & D1 & EM).
  assert (allfix i) as AF.
  { intros j J. split; [auto|]. destruct (C _ G) as (_ & F & _). rewrite Nat2Z.id in F. auto. }
  pose proof (allfix_nom i ltac:(lia) AF) as EN.
  assert (placed (nth i d dflt_att) (nomend d i) (nth i cs CNull) k e) as P' by (rewrite <- EN; exact P).
  rewrite (cached_place i k e (nth i cs CNull) P' (att_wf i Hi) ca C G). rewrite <- EN.
  rewrite (fetch_ok i k e rest Hi P EM). unfold exp. replace (i <? length cs)%nat with true by lia.
  apply (p_dec _ _ _ _ _ P).
Qed.

Lemma nocache_ok : forall ca i, CI ca -> (i < length cs)%nat -> nth i cs CNull <> CNull ->
  let '(v, ca') := nocachegetattr d sp ca t (Z.of_nat i) in
  CI ca' /\ res_value (nth i d dflt_att) v = exp i.
Proof.
  intros ca i C Hi N. unfold nocachegetattr. rewrite TD, nth_att_of.
  match goal with |- context [negb ?s && _] => set (slow := s) end.
  match goal with |- context [fetch _ M (?p + _)] => set (tp := p) end.
  assert (tp = zlen H) as ETP.
  { unfold tp. pose proof TF as F. destruct (t_fixed t).
    - destruct F as (_ & -> & _). reflexivity.
    - destruct F as (-> & -> & ->). destruct hn; unfold HSZ; lia. }
  assert (slow = false -> forall j, (j < i)%nat -> nth j cs CNull <> CNull) as NN.
  { intros ES j J. pose proof (NB j ltac:(lia)) as B. destruct hn_cases as [EH|EH]; rewrite EH in B; [|exact B].
    unfold slow in ES. pose proof TF as F. rewrite EH in F. destruct fx_cases as [EX|EX]; rewrite EX in F, ES; [destruct F; discriminate|].
    destruct F as (F1 & _). rewrite F1 in ES.
    destruct (Z.eqb_spec (Z.land (Z.lnot (byte M (HSZ + Z.shiftr (Z.of_nat i) 3))) (Z.shiftl 1 (Z.land (Z.of_nat i) 7) - 1)) 0) as [Q|]; [|discriminate].
    cbn [negb] in ES. pose proof (slow_bits (Z.of_nat i) ltac:(lia) Q ES (Z.of_nat j) ltac:(lia)) as Y.
    rewrite Y in B. intros X. rewrite X in B. discriminate. }
  destruct (negb slow && (0 <=? ca (Z.of_nat i))) eqn:Q.
  - apply andb_true_iff in Q. destruct Q as [Q1 Q2]. apply negb_true_iff in Q1. apply Z.leb_le in Q2.
    split; [auto|]. rewrite ETP. apply cached_fetch; auto.
  - pose proof (seq_ok ca (Z.of_nat i + 1) C ltac:(lia)) as X.
    destruct (read_seq d sp ca t (Z.of_nat i + 1)) as [vs ca']. destruct X as (X1 & X2 & X3). split; [auto|].
    rewrite last_nth, X2. replace (Z.to_nat (Z.of_nat i + 1) - 1)%nat with i by lia. apply X3. lia.
Qed.

Lemma fast_ok : forall ca i, CI ca -> (i < length cs)%nat ->
  let '(v, ca') := fastgetattr d sp ca t (Z.of_nat i) in
  CI ca' /\ res_value (nth i d dflt_att) v = exp i.
Proof.
  intros ca i C Hi. unfold fastgetattr. rewrite TD, nth_att_of. pose proof TF as F.
  pose proof (nocache_ok ca i C Hi) as NC.
  destruct fx_cases as [EX|EX]; rewrite EX in F |- *.
  - destruct F as (F1 & F2 & F3). replace (Z.of_nat i <? sp_natts sp) with true by lia.
    assert (forall j, (j < length cs)%nat -> nth j cs CNull <> CNull) as NN.
    { intros j J. pose proof (NB j J) as B. rewrite F1 in B. auto. }
    destruct (0 <=? ca (Z.of_nat i)) eqn:Q; [|apply NC; auto].
    split; [auto|]. pose proof (cached_fetch ca i C Hi (NN i Hi) ltac:(intros; apply NN; lia) ltac:(lia)) as X.
    replace (zlen H) with 0 in X by (rewrite F2; reflexivity). change (0 + ca (Z.of_nat i)) with (ca (Z.of_nat i)) in X. exact X.
  - destruct F as (F1 & F2 & F3). rewrite F1. destruct hn_cases as [EH|EH]; rewrite EH in F3 |- *; cbn [negb].
    + pose proof (NB i Hi) as B. rewrite EH in B. rewrite B. destruct (nth i cs CNull) eqn:EN; cbn [is_null].
      * split; [auto|]. unfold exp. replace (i <? length cs)%nat with true by lia. rewrite EN. reflexivity.
      * apply NC. discriminate.
      * apply NC. discriminate.
    + assert (forall j, (j < length cs)%nat -> nth j cs CNull <> CNull) as NN by (intros j J; pose proof (NB j J) as B; rewrite EH in B; exact B).
      destruct (0 <=? ca (Z.of_nat i)) eqn:Q; [|apply NC; auto].
      split; [auto|]. pose proof (cached_fetch ca i C Hi (NN i Hi) ltac:(intros; apply NN; lia) ltac:(lia)) as X.
      rewrite F3, Z.add_0_r in X. exact X.
Qed.

End Row.
Unset Default Proof Using.

(** * The null bitmap *)
Lemma fill_bits_spec : forall l k cur, 0 <= k <= 7 -> 0 <= cur < 2 ^ (k + 1) ->
  (forall i, (i < length l)%nat ->
     Z.testbit (nth (Z.to_nat ((k + 1 + Z.of_nat i) / 8)) (fill_bits (2 ^ k) cur l) 0) ((k + 1 + Z.of_nat i) mod 8)
     = negb (nth i l true)) /\
  (forall p, 0 <= p <= k -> Z.testbit (nth 0 (fill_bits (2 ^ k) cur l) 0) p = Z.testbit cur p) /\
  Z.of_nat (length (fill_bits (2 ^ k) cur l)) = 1 + (k + Z.of_nat (length l)) / 8.
Proof.
  induction l as [|n l IH]; intros k cur K C.
  - cbn [length fill_bits]. split; [lia|]. split; [reflexivity|]. rewrite Z.add_0_r, Z.div_small by lia. reflexivity.
  - assert (2 ^ k = 128 <-> k = 7) as K7.
    { split; [|intros ->; reflexivity]. intros E. change 128 with (2 ^ 7) in E. apply Z.pow_inj_r in E; lia. }
    cbn [fill_bits length]. destruct (Z.eqb_spec (2 ^ k) 128) as [E|E]; cbn [negb].
    + apply K7 in E. subst k. destruct (IH 0 (if n then 0 else 1) ltac:(lia) ltac:(change (2 ^ (0 + 1)) with 2; destruct n; lia)) as (A & B & D).
      change (2 ^ 0) with 1 in *. split; [|split].
      * intros i Hi. destruct i as [|i].
        -- cbn [Z.of_nat nth]. change ((7 + 1 + 0) / 8) with 1. change ((7 + 1 + 0) mod 8) with 0.
           change (Z.to_nat 1) with 1%nat. cbn [nth]. rewrite (B 0 ltac:(lia)). destruct n; reflexivity.
        -- cbn [nth]. rewrite <- (A i) by lia.
           replace (7 + 1 + Z.of_nat (Datatypes.S i)) with (0 + 1 + Z.of_nat i + 1 * 8) by lia.
           rewrite Z.mod_add, Z.div_add by lia. f_equal.
           assert (0 <= (0 + 1 + Z.of_nat i) / 8) by (apply Z.div_pos; lia).
           replace (Z.to_nat ((0 + 1 + Z.of_nat i) / 8 + 1)) with (Datatypes.S (Z.to_nat ((0 + 1 + Z.of_nat i) / 8))) by lia.
           reflexivity.
      * reflexivity.
      * cbn [length]. rewrite Nat2Z.inj_succ, D.
        replace (7 + Z.of_nat (Datatypes.S (length l))) with (0 + Z.of_nat (length l) + 1 * 8) by lia.
        rewrite Z.div_add by lia. lia.
    + assert (k < 7) by lia.
      replace (2 * 2 ^ k) with (2 ^ (k + 1)) by (rewrite Z.pow_add_r by lia; lia).
      assert (0 <= (if n then cur else Z.lor cur (2 ^ (k + 1))) < 2 ^ (k + 1 + 1)) as C'.
      { assert (2 ^ (k + 1 + 1) = 2 * 2 ^ (k + 1)) as -> by (rewrite (Z.pow_add_r 2 (k + 1) 1) by lia; lia).
        destruct n; [lia|]. split; [apply Z.lor_nonneg; lia|].
        rewrite <- Z.add_nocarry_lxor || idtac.
        assert (Z.lor cur (2 ^ (k + 1)) = cur + 2 ^ (k + 1)) as ->; [|lia].
        symmetry. rewrite Z.add_nocarry_lxor.
        - apply Z.bits_inj'. intros q Q. rewrite Z.lxor_spec, Z.lor_spec.
          rewrite Z.pow2_bits_eqb by lia. destruct (Z.eqb_spec (k + 1) q) as [<-|].
          + replace (Z.testbit cur (k + 1)) with false; [reflexivity|]. symmetry.
            rewrite Z.testbit_eqb by lia. rewrite Z.div_small by lia. reflexivity.
          + rewrite xorb_false_r, orb_false_r. reflexivity.
        - apply Z.bits_inj'. intros q Q. rewrite Z.land_spec, Z.bits_0.
          rewrite Z.pow2_bits_eqb by lia. destruct (Z.eqb_spec (k + 1) q) as [<-|]; [|apply andb_false_r].
          rewrite andb_true_r. rewrite Z.testbit_eqb by lia. rewrite Z.div_small by lia. reflexivity. }
      destruct (IH (k + 1) _ ltac:(lia) C') as (A & B & D). split; [|split].
      * intros i Hi. destruct i as [|i].
        -- cbn [nth]. rewrite Z.add_0_r. rewrite Z.div_small, Z.mod_small by lia. change (Z.to_nat 0) with 0%nat.
           rewrite (B (k + 1) ltac:(lia)). destruct n; cbn [negb].
           ++ rewrite Z.testbit_eqb by lia. rewrite Z.div_small by lia. reflexivity.
           ++ rewrite Z.lor_spec, Z.pow2_bits_true by lia. apply orb_true_r.
        -- cbn [nth]. rewrite <- (A i) by lia.
           replace (k + 1 + Z.of_nat (Datatypes.S i)) with (k + 1 + 1 + Z.of_nat i) by lia. reflexivity.
      * intros p P. rewrite (B p ltac:(lia)). destruct n; [reflexivity|].
        rewrite Z.lor_spec, Z.pow2_bits_eqb by lia. destruct (Z.eqb_spec (k + 1) p); [lia|]. apply orb_false_r.
      * rewrite D. f_equal. f_equal. lia.
Qed.

Lemma bitmap_spec : forall l,
  zlen (tl (fill_bits 128 0 l)) = BITMAPLEN (Z.of_nat (length l)) /\
  forall i, (i < length l)%nat ->
    Z.testbit (byte (tl (fill_bits 128 0 l)) (Z.of_nat i / 8)) (Z.of_nat i mod 8) = negb (nth i l true).
Proof.
  intros l. destruct (fill_bits_spec l 7 0 ltac:(lia) ltac:(cbn; lia)) as (A & _ & D). change (2 ^ 7) with 128 in *.
  assert (0 <= (7 + Z.of_nat (length l)) / 8) by (apply Z.div_pos; lia).
  destruct (fill_bits 128 0 l) as [|x bm] eqn:E; [cbn [length] in D; lia|]. cbn [tl length] in *. split.
  - unfold zlen, BITMAPLEN. rewrite Z.add_comm with (m := 7). lia.
  - intros i Hi. rewrite <- (A i Hi).
    replace (7 + 1 + Z.of_nat i) with (Z.of_nat i + 1 * 8) by lia. rewrite Z.mod_add, Z.div_add by lia.
    assert (0 <= Z.of_nat i / 8) by (apply Z.div_pos; lia).
    replace (Z.to_nat (Z.of_nat i / 8 + 1)) with (Datatypes.S (Z.to_nat (Z.of_nat i / 8))) by lia. reflexivity.
Qed.

Lemma isnull_bits : forall h bm r l i, zlen h = 8 -> bm = tl (fill_bits 128 0 l) -> (i < length l)%nat ->
  att_isnull (h ++ bm ++ r) (Z.of_nat i) = nth i l true.
Proof.
  intros h bm r l i Lh -> Hi. unfold att_isnull.
  change 7 with (Z.ones 3). rewrite Z.land_ones by lia. change (2 ^ 3) with 8.
  rewrite Z.shiftr_div_pow2 by lia. change (2 ^ 3) with 8. unfold HSZ.
  destruct (bitmap_spec l) as [L B]. specialize (B i Hi).
  assert (0 <= Z.of_nat i / 8) by (apply Z.div_pos; lia).
  pose proof (byte_app h (tl (fill_bits 128 0 l) ++ r) (Z.of_nat i / 8) ltac:(assumption)) as BA. rewrite Lh in BA. rewrite BA.
  rewrite byte_app_l.
  - pose proof (Z.mod_pos_bound (Z.of_nat i) 8 ltac:(lia)) as MB.
    set (x := byte (tl (fill_bits 128 0 l)) (Z.of_nat i / 8)) in *. set (j := Z.of_nat i mod 8) in *.
    rewrite Z.shiftl_1_l. destruct (nth i l true) eqn:EN; cbn [negb] in B.
    + apply Z.eqb_eq. apply Z.bits_inj'. intros q Q. rewrite Z.land_spec, Z.bits_0, Z.pow2_bits_eqb by lia.
      destruct (Z.eqb_spec j q) as [<-|]; [rewrite B; reflexivity|apply andb_false_r].
    + apply Z.eqb_neq. intros X. assert (Z.testbit (Z.land x (2 ^ j)) j = false) as Y by (rewrite X; apply Z.bits_0).
      rewrite Z.land_spec, B, Z.pow2_bits_true in Y by lia. discriminate.
  - rewrite L. unfold BITMAPLEN. split; [auto|].
    apply Z.div_lt_upper_bound; [lia|]. pose proof (Z.div_mod (Z.of_nat (length l) + 7) 8 ltac:(lia)).
    pose proof (Z.mod_pos_bound (Z.of_nat (length l) + 7) 8 ltac:(lia)). lia.
Qed.

(** * The header *)
Lemma zlen_le : forall n v, zlen (le n v) = Z.of_nat n.
Proof. intros. unfold zlen. rewrite le_length. reflexivity. Qed.
Lemma header_len : forall hn s n v, zlen (header hn s n v) = 8.
Proof. intros. unfold header. rewrite !zlen_app, !zlen_le. reflexivity. Qed.

Lemma header_read : forall hn s n v r, 0 <= s < 32768 -> 0 <= n < 65536 -> 0 <= v < 2 ^ 32 ->
  let m := header hn s n v ++ r in
  h_hasnulls m = hn /\ h_len m = s /\ h_natts m = n /\ h_version m = v.
Proof.
  intros hn s n v r Hs Hn Hv m.
  set (b := if hn then 1 else 0).
  assert (sub m 0 2 = le 2 (b + 2 * s)) as E1.
  { unfold m, header. rewrite <- !app_assoc. rewrite sub_app_l by (rewrite ?zlen_le; lia).
    change 2 with (Z.of_nat 2) at 3. rewrite <- (zlen_le 2 (b + 2 * s)). apply sub_all. }
  assert (sub m 2 2 = le 2 n) as E2.
  { unfold m, header. rewrite <- !app_assoc. pose proof (sub_app0 (le 2 (b + 2 * s)) (le 2 n ++ le 4 v ++ r) 2) as X.
    rewrite zlen_le in X. change (Z.of_nat 2) with 2 in X. unfold b in X. rewrite X.
    rewrite sub_app_l by (rewrite ?zlen_le; lia). pose proof (sub_all (le 2 n)) as Y. rewrite zlen_le in Y. exact Y. }
  assert (sub m 4 4 = le 4 v) as E3.
  { unfold m, header. rewrite <- !app_assoc. pose proof (sub_app (le 2 (b + 2 * s)) (le 2 n ++ le 4 v ++ r) 2 4 ltac:(lia)) as X.
    rewrite zlen_le in X. change (Z.of_nat 2 + 2) with 4 in X. unfold b in X. rewrite X.
    pose proof (sub_app0 (le 2 n) (le 4 v ++ r) 4) as X'. rewrite zlen_le in X'. change (Z.of_nat 2) with 2 in X'. rewrite X'.
    rewrite sub_app_l by (rewrite ?zlen_le; lia). pose proof (sub_all (le 4 v)) as Y. rewrite zlen_le in Y. exact Y. }
  unfold h_hasnulls, h_len, h_natts, h_version. rewrite E1, E2, E3.
  assert (0 <= b <= 1) by (unfold b; destruct hn; lia).
  rewrite !unle_le by (first [change (256 ^ Z.of_nat 2) with 65536; lia | change (256 ^ Z.of_nat 4) with 4294967296; change (2 ^ 32) with 4294967296 in Hv; lia]).
  split; [|split; [|split; reflexivity]].
  - rewrite Z.odd_add_mul_2. unfold b. destruct hn; reflexivity.
  - replace (b + 2 * s) with (b + s * 2) by lia. rewrite Z.div_add, Z.div_small by lia. lia.
Qed.

(** * Forming a row *)
Lemma map_iota_combine : forall (d : list att) (cs : list cell) (f : Z -> cell), length cs = length d ->
  (forall i, (i < length d)%nat -> f (Z.of_nat i) = nth i cs CNull) ->
  map (fun i => (att_of d i, f i)) (iota (Z.of_nat (length d))) = combine d cs.
Proof.
  intros d cs f L F. apply (nth_ext _ _ (att_of d 0, f 0) (dflt_att, CNull)).
  - rewrite map_length, iota_length, combine_length. lia.
  - rewrite map_length, iota_length. intros i Hi.
    rewrite (map_nth (fun i => (att_of d i, f i)) (iota (Z.of_nat (length d))) 0 i).
    rewrite nth_iota by lia. rewrite F by lia. rewrite combine_nth by auto. unfold att_of. rewrite Nat2Z.id. reflexivity.
Qed.

Definition bridge_ok (w : row) : Prop :=
  forall b, w_bridge w = Some b ->
     if b_pkey b then b_attnum b = (if w_iptr w then 2 else 1)
     else w_iptr w = None /\ 1 <= b_attnum b <= Z.of_nat (length (w_values w)).

Lemma off_same : forall w, bridge_ok w -> ctid_off_size (w_iptr w) (w_bridge w) = ctid_off_fill (w_iptr w) (w_bridge w).
Proof.
  intros w B. unfold ctid_off_size, ctid_off_fill, has_bridge_ctid. destruct (w_bridge w) as [b|] eqn:E; [|reflexivity].
  specialize (B b E). destruct (Z.eqb_spec (b_attnum b) 0) as [X|]; [|reflexivity]. cbn [negb andb].
  destruct (b_pkey b); [destruct (w_iptr w); lia|]. lia.
Qed.
Lemma off_idents : forall w, ctid_off_fill (w_iptr w) (w_bridge w) = Z.of_nat (idents w).
Proof.
  intros. unfold ctid_off_fill, idents. destruct (w_iptr w), (w_bridge w) as [b|]; try destruct (b_pkey b); reflexivity.
Qed.

Lemma nth_skip : forall {A} (l : list A) n i x, nth i (skipn n l) x = nth (n + i) l x.
Proof.
  induction l; intros n i x; destruct n; cbn [skipn Nat.add]; try reflexivity; [destruct i; reflexivity|apply IHl].
Qed.

Lemma col_ok : forall w i, bridge_ok w -> (i < length (columns w))%nat ->
  col (w_iptr w) (w_bridge w) (ctid_off_fill (w_iptr w) (w_bridge w)) (w_values w) (Z.of_nat i) = nth i (columns w) CNull.
Proof.
  intros w i B Hi. unfold col, columns, ctid_off_fill, has_bridge_ctid, cell_at in *.
  destruct (w_iptr w) as [t|] eqn:E1; destruct (w_bridge w) as [b|] eqn:E2; cbn [app] in *.
  - specialize (B b E2). rewrite E1 in B. destruct (b_pkey b).
    + rewrite B. change (2 =? 0) with false. cbn [negb andb].
      destruct i as [|[|i]].
      * reflexivity.
      * reflexivity.
      * replace (Z.of_nat (Datatypes.S (Datatypes.S i)) =? 0) with false by lia.
        replace (Z.of_nat (Datatypes.S (Datatypes.S i)) =? 2 - 1) with false by lia. cbn [nth]. f_equal. lia.
    + destruct B; congruence.
  - destruct i as [|i]; [reflexivity|]. replace (Z.of_nat (Datatypes.S i) =? 0) with false by lia. cbn [nth]. f_equal. lia.
  - specialize (B b E2). destruct (b_pkey b).
    + rewrite E1 in B. rewrite B. change (1 =? 0) with false. cbn [negb andb].
      destruct i as [|i]; [reflexivity|].
      replace (Z.of_nat (Datatypes.S i) =? 1 - 1) with false by lia. cbn [nth]. f_equal. lia.
    + destruct B as [_ B]. replace (b_attnum b =? 0) with false by lia. cbn [negb andb].
      destruct (Z.eqb_spec (Z.of_nat i) (b_attnum b - 1)) as [E|E].
      * rewrite app_nth2 by (rewrite firstn_length; lia). rewrite firstn_length.
        replace (i - Nat.min (Z.to_nat (b_attnum b - 1)) (length (w_values w)))%nat with 0%nat by lia. reflexivity.
      * replace (Z.to_nat (Z.of_nat i - (0 + 0))) with i by lia.
        destruct (Z_lt_le_dec (Z.of_nat i) (b_attnum b - 1)) as [L|L].
        -- rewrite app_nth1 by (rewrite firstn_length; lia).
           rewrite <- (firstn_skipn (Z.to_nat (b_attnum b - 1)) (w_values w)) at 1.
           rewrite app_nth1 by (rewrite firstn_length; lia). reflexivity.
        -- rewrite app_nth2 by (rewrite firstn_length; lia). rewrite firstn_length.
           replace (i - Nat.min (Z.to_nat (b_attnum b - 1)) (length (w_values w)))%nat
             with (Datatypes.S (i - Z.to_nat (b_attnum b))) by lia.
           cbn [nth]. rewrite nth_skip. f_equal. lia.
  - f_equal. lia.
Qed.

Lemma check_nulls_spec : forall sp off natts vs ver,
  let p := check_nulls sp off natts vs ver in
  (fst p = false -> forall i, off <= i < natts -> 0 <= i -> is_null (cell_at vs (i - off)) = false) /\
  (snd p = true -> fst p = false /\ ver = 0 /\ forall i, off <= i < natts -> 0 <= i -> i < sp_natts sp).
Proof.
  intros sp off natts vs ver.
  assert (forall l r, let p := fold_left (fun (r : bool * bool) i =>
               let '(hn, ff) := r in
               if i <? off then r
               else if is_null (cell_at vs (i - off)) then (true, false)
               else if sp_natts sp <=? i then (hn, false) else (hn, ff)) l r in
     (fst p = false -> fst r = false /\ forall i, In i l -> off <= i -> is_null (cell_at vs (i - off)) = false) /\
     (snd p = true -> snd r = true /\ forall i, In i l -> off <= i -> i < sp_natts sp /\ is_null (cell_at vs (i - off)) = false) /\
     (snd p = true -> fst r = false -> fst p = false)) as G.
  { induction l as [|x l IH]; intros [hn ff] p; cbn [fold_left] in p.
    - subst p. cbn [fst snd]. split; [|split]; auto; intros E; (split; [auto|]; intros i []).
    - match goal with p := fold_left _ l ?r |- _ => set (r1 := r) in p end.
      specialize (IH r1). cbv zeta in IH. fold p in IH. destruct IH as (I1 & I2 & I3).
      assert (fst r1 = false -> fst (hn, ff) = false /\ (off <= x -> is_null (cell_at vs (x - off)) = false)) as F1.
      { unfold r1. destruct (Z.ltb_spec x off); [cbn [fst]; intros; split; [auto|lia]|].
        destruct (is_null (cell_at vs (x - off))); [discriminate|]. destruct (sp_natts sp <=? x); cbn [fst]; auto. }
      assert (snd r1 = true -> snd (hn, ff) = true /\ fst r1 = fst (hn, ff) /\ (off <= x -> x < sp_natts sp /\ is_null (cell_at vs (x - off)) = false)) as F2.
      { unfold r1. destruct (Z.ltb_spec x off); [cbn [snd fst]; intros; split; [auto|split; [auto|lia]]|].
        destruct (is_null (cell_at vs (x - off))); [discriminate|]. destruct (Z.leb_spec (sp_natts sp) x); [discriminate|].
        cbn [fst snd]. auto. }
      split; [|split].
      + intros E. destruct (I1 E) as [J1 J2]. destruct (F1 J1) as [K1 K2]. split; [auto|].
        intros i [<-|Hi]; auto.
      + intros E. destruct (I2 E) as [J1 J2]. destruct (F2 J1) as (K1 & _ & K2). split; [auto|].
        intros i [<-|Hi]; auto.
      + intros E E2. destruct (I2 E) as [J1 _]. destruct (F2 J1) as (_ & K & _). apply I3; [auto|congruence]. }
  intros p. destruct (G (iota natts) (false, ver =? 0)) as (G1 & G2 & G3). fold (check_nulls sp off natts vs ver) in G1, G2, G3. fold p in G1, G2, G3.
  split.
  - intros E i Hi Hi0. destruct (G1 E) as [_ J]. apply J; [apply in_iota; lia|lia].
  - intros E. split; [apply G3; auto|]. destruct (G2 E) as [J1 J2]. cbn [snd] in J1. split; [lia|].
    intros i Hi Hi0. apply J2; [apply in_iota; lia|lia].
Qed.

Lemma combine_firstn_l : forall {A B} (l : list A) (c : list B), combine (firstn (length c) l) c = combine l c.
Proof. induction l; destruct c; cbn [length firstn combine]; auto. f_equal. auto. Qed.

Lemma nth_first : forall {A} (l : list A) n i x, (i < n)%nat -> nth i (firstn n l) x = nth i l x.
Proof. induction l; destruct n, i; cbn [firstn nth]; intros; auto; try lia. apply IHl. lia. Qed.

Lemma combine_wf : forall d cs, Forall wf_att d -> Forall2 wf_cell (firstn (length cs) d) cs -> Forall wf_pair (combine d cs).
Proof.
  induction d as [|a d IH]; intros [|c cs] W F; cbn [length firstn combine] in *; try constructor.
  - inversion W; inversion F; subst. split; auto.
  - inversion W; inversion F; subst. apply IH; auto.
Qed.

Lemma nonnull_cols : forall w, bridge_ok w ->
  (forall i, Z.of_nat (idents w) <= i < Z.of_nat (length (columns w)) -> 0 <= i ->
     is_null (cell_at (w_values w) (i - Z.of_nat (idents w))) = false) ->
  forall i, (i < length (columns w))%nat -> nth i (columns w) CNull <> CNull.
Proof.
  intros w B F i Hi. rewrite <- (col_ok w i B Hi). rewrite off_idents.
  assert (Z.of_nat i < Z.of_nat (idents w) \/ is_null (cell_at (w_values w) (Z.of_nat i - Z.of_nat (idents w))) = false) as Q.
  { destruct (Z_lt_le_dec (Z.of_nat i) (Z.of_nat (idents w))); [auto|]. right. apply F; lia. }
  assert (forall c, is_null c = false -> c <> CNull) as NN by (intros c E ->; discriminate).
  unfold col, has_bridge_ctid. unfold idents in *.
  destruct (w_iptr w) as [t|] eqn:E1; destruct (w_bridge w) as [b|] eqn:E2; cbn [app] in *.
  - specialize (B b E2). rewrite E1 in B. destruct (b_pkey b) eqn:PK; [|destruct B; discriminate].
    rewrite B. change (2 =? 0) with false. cbn [negb andb].
    destruct (Z.eqb_spec (Z.of_nat i) 0); [discriminate|]. destruct (Z.eqb_spec (Z.of_nat i) (2 - 1)); [discriminate|].
    destruct Q; [lia|auto].
  - destruct (Z.eqb_spec (Z.of_nat i) 0); [discriminate|]. destruct Q; [lia|auto].
  - specialize (B b E2). rewrite E1 in B. destruct (b_pkey b) eqn:PK.
    + rewrite B. change (1 =? 0) with false. cbn [negb andb].
      destruct (Z.eqb_spec (Z.of_nat i) (1 - 1)); [discriminate|]. destruct Q; [lia|auto].
    + destruct (negb (b_attnum b =? 0) && (Z.of_nat i =? b_attnum b - 1)); [discriminate|]. destruct Q; [lia|auto].
  - destruct Q; [lia|auto].
Qed.

Lemma maxalign_8 : forall x, (MAXALIGN x) mod 8 = 0 /\ x <= MAXALIGN x.
Proof. intros. unfold MAXALIGN. destruct (align_facts 8 x ltac:(lia)). lia. Qed.

(** What is stored for a row. *)
Record shape (d : list att) (init : Z) (w : row) (H : list Z) (hn : bool) : Prop := {
  sh_data : t_data (stored d init w) = H ++ data (combine d (columns w));
  sh_al : zlen H mod 8 = 0;
  sh_nb : forall i, (i < length (columns w))%nat ->
          if hn then att_isnull (H ++ data (combine d (columns w))) (Z.of_nat i) = is_null (nth i (columns w) CNull)
          else nth i (columns w) CNull <> CNull;
  sh_f : if t_fixed (stored d init w) then hn = false /\ H = [] /\
              sp_natts (fill_fixed_format_spec d init) = Z.of_nat (length (columns w)) /\ w_version w = 0
         else h_hasnulls (H ++ data (combine d (columns w))) = hn /\
              h_natts (H ++ data (combine d (columns w))) = Z.of_nat (length (columns w)) /\
              zlen H = 8 + (if hn then MAXALIGN (BITMAPLEN (Z.of_nat (length (columns w)))) else 0) /\
              h_len (H ++ data (combine d (columns w))) = zlen (H ++ data (combine d (columns w))) /\
              h_version (H ++ data (combine d (columns w))) = w_version w;
  sh_size : new_tuple_size (firstn (w_natts w) d) (fill_fixed_format_spec d init) (w_iptr w) (w_bridge w) (w_version w) (w_values w)
            = zlen (H ++ data (combine d (columns w)));
  sh_h : t_fixed (stored d init w) = false -> exists bm, H = header hn (zlen (H ++ data (combine d (columns w)))) (Z.of_nat (length (columns w))) (w_version w) ++ bm }.

Lemma form_shape : forall d init w, Forall wf_att d -> wf_row d init w -> exists H hn, shape d init w H hn.
Proof.
  intros d init w WD (W1 & W2 & W3 & W4 & W5 & W6 & W7 & W8 & W9).
  pose proof (combine_wf d (columns w) WD ltac:(rewrite W7; exact W8)) as WP.
  set (d' := firstn (w_natts w) d) in *.
  assert (length d' = length (columns w)) as LD by (unfold d'; rewrite firstn_length; lia).
  set (sp := fill_fixed_format_spec d' init) in *.
  assert (sp = fill_fixed_format_spec d init) as ES by (apply ffs_firstn; lia).
  pose proof (off_same w W5) as OS. pose proof (off_idents w) as OI.
  assert (combine d' (columns w) = combine d (columns w)) as EC by (unfold d'; rewrite <- W7; apply combine_firstn_l).
  assert (map (fun i => (att_of d' i, col (w_iptr w) (w_bridge w) (Z.of_nat (idents w)) (w_values w) i)) (iota (Z.of_nat (length d')))
          = combine d (columns w)) as EM.
  { rewrite <- EC. apply map_iota_combine; [lia|]. intros i Hi. rewrite <- OI. apply col_ok; auto. lia. }
  destruct (ffs_spec d (Z.to_nat init) 0 0 [] eq_refl eq_refl (Forall_nil _)) as (S1 & S2 & S3 & S4 & S5).
  cbn [app] in *. fold (fill_fixed_format_spec d init) in S1, S2, S3, S4, S5. rewrite <- ES in S1, S2, S3, S4, S5.
  unfold new_tuple_size in W9. rewrite OS, OI in W9.
  destruct (check_nulls_spec sp (Z.of_nat (idents w)) (Z.of_nat (length d')) (w_values w) (w_version w)) as [N1 N2].
  assert (t_fixed (stored d init w) = snd (check_nulls sp (Z.of_nat (idents w)) (Z.of_nat (length d')) (w_values w) (w_version w))) as EF.
  { unfold stored, form_tuple, tuple_fill. fold d'. fold sp. rewrite OI.
    destruct (check_nulls sp (Z.of_nat (idents w)) (Z.of_nat (length d')) (w_values w) (w_version w)) as [hn ff].
    destruct ff; reflexivity. }
  destruct (check_nulls sp (Z.of_nat (idents w)) (Z.of_nat (length d')) (w_values w) (w_version w)) as [hn ff] eqn:CN.
  cbn [fst snd] in *.
  assert (hn = false -> forall i, (i < length (columns w))%nat -> nth i (columns w) CNull <> CNull) as NN.
  { intros E. apply nonnull_cols; [auto|]. intros i Hi Hi0. apply N1; [auto|lia|lia]. }
  destruct ff.
  - destruct (N2 eq_refl) as (E1 & E2 & E3). subst hn. clear N1 N2.
    assert (sp_natts sp = Z.of_nat (length d')) as EN.
    { assert (sp_natts sp <= Z.of_nat (length d')) by lia.
      destruct (Nat.le_gt_cases (length d') (idents w)) as [L|L].
      - destruct (Z.eq_dec (sp_natts sp) (Z.of_nat (length d'))) as [|NE]; [auto|]. exfalso.
        destruct (W6 (Z.to_nat (sp_natts sp)) ltac:(lia)) as [Q1 Q2].
        destruct (S5 ltac:(lia) ltac:(lia)) as (a & Q3 & Q4). rewrite (nth_error_nth d _ dflt_att Q3) in Q2. lia.
      - specialize (E3 (Z.of_nat (length d') - 1) ltac:(lia) ltac:(lia)). lia. }
    exists [], false. constructor.
    + unfold stored, form_tuple, tuple_fill. fold d'. fold sp. rewrite OI, CN. cbn [negb t_data app].
      rewrite EN, EM. reflexivity.
    + reflexivity.
    + apply NN. reflexivity.
    + rewrite EF. cbn [app]. rewrite <- ES. split; [auto|]. split; [auto|]. split; [lia|auto].
    + rewrite <- ES. fold d'. unfold new_tuple_size. rewrite OS, OI, CN. cbn [negb app]. rewrite EN, EM. apply size_all. auto.
    + rewrite EF. discriminate.
  - cbn [negb] in W9. rewrite EM in W9. rewrite size_all in W9 by auto.
    set (n := Z.of_nat (length d')) in *.
    set (size := HSZ + (if hn then MAXALIGN (BITMAPLEN n) else 0) + zlen (data (combine d (columns w)))) in *.
    set (bm := if hn then tl (fill_bits 128 0 (map (fun ac : att * cell => is_null (snd ac)) (combine d (columns w)))) else []).
    set (pad := if hn then zeros (MAXALIGN (BITMAPLEN n) - zlen bm) else []).
    set (H := header hn size n (w_version w) ++ bm ++ pad).
    assert (length (map (fun ac : att * cell => is_null (snd ac)) (combine d (columns w))) = length (columns w)) as LN.
    { rewrite map_length, combine_length. lia. }
    assert (zlen (bm ++ pad) = if hn then MAXALIGN (BITMAPLEN n) else 0) as LB.
    { rewrite zlen_app. unfold bm, pad. destruct hn; [|reflexivity].
      destruct (bitmap_spec (map (fun ac : att * cell => is_null (snd ac)) (combine d (columns w)))) as [L _].
      rewrite LN in L. fold bm. unfold bm. rewrite L. rewrite zlen_zeros.
      - unfold n. rewrite LD. lia.
      - unfold n. rewrite LD. destruct (maxalign_8 (BITMAPLEN (Z.of_nat (length (columns w))))). lia. }
    assert (zlen H = 8 + (if hn then MAXALIGN (BITMAPLEN n) else 0)) as LH.
    { unfold H. rewrite zlen_app, header_len, LB. reflexivity. }
    assert (zlen H mod 8 = 0) as HM.
    { rewrite LH. destruct hn; [|reflexivity]. destruct (maxalign_8 (BITMAPLEN n)) as [X _].
      rewrite Z.add_mod, X by lia. reflexivity. }
    assert (t_data (stored d init w) = H ++ data (combine d (columns w))) as TD.
    { unfold stored, form_tuple, tuple_fill. fold d'. fold sp. rewrite OI. fold n. rewrite CN. cbn [negb t_data].
      unfold new_tuple_size. rewrite OS, OI. fold n. rewrite CN. cbn [negb]. rewrite EM, size_all by auto.
      fold size. fold bm. fold pad. fold H. unfold data.
      rewrite <- (app_nil_r H) at 1. apply fill_shift_all; [exact HM|].
      apply Forall_forall. intros ac I. rewrite Forall_forall in WP. destruct (WP ac I) as [[A _] _]. exact A. }
    assert (0 <= size < 32768) as SZ.
    { split; [|exact W9]. unfold size. pose proof (zlen_nn (data (combine d (columns w)))).
      destruct hn; [|unfold HSZ; lia]. pose proof (maxalign_8 (BITMAPLEN n)).
      assert (0 <= BITMAPLEN n) by (apply Z.div_pos; lia). unfold HSZ. lia. }
    assert (zlen (H ++ data (combine d (columns w))) = size) as LS.
    { rewrite zlen_app, LH. unfold size, HSZ. lia. }
    destruct (header_read hn size n (w_version w) ((bm ++ pad) ++ data (combine d (columns w))) SZ ltac:(lia) W4) as (R1 & R2 & R3 & R4).
    rewrite app_assoc in R1, R2, R3, R4. fold H in R1, R2, R3, R4.
    exists H, hn. constructor; auto.
    + intros i Hi. destruct hn; [|apply NN; auto].
      unfold H. rewrite <- !app_assoc. rewrite (isnull_bits _ bm _ (map (fun ac : att * cell => is_null (snd ac)) (combine d (columns w)))).
      * rewrite (nth_indep _ true (is_null (snd (dflt_att, CNull)))) by lia.
        rewrite (map_nth (fun ac : att * cell => is_null (snd ac))).
        f_equal. rewrite (nth_error_nth _ _ _ (cols_nth d (columns w) H WD ltac:(lia) WP HM i Hi)). reflexivity.
      * apply header_len.
      * reflexivity.
      * lia.
    + rewrite EF. split; [auto|]. split; [rewrite R3; unfold n; lia|]. split; [rewrite LH; unfold n; rewrite LD; reflexivity|].
      split; [congruence|auto].
    + rewrite LS, <- ES. fold d'. unfold new_tuple_size. rewrite OS, OI. fold n. rewrite CN. cbn [negb]. rewrite EM, size_all by auto. reflexivity.
    + intros _. exists (bm ++ pad). rewrite LS. unfold H, n. rewrite LD. reflexivity.
Qed.

(** How the stored bytes depend on the row version. *)
Definition with_version (w : row) (v : Z) : row :=
  {| w_natts := w_natts w; w_version := v; w_iptr := w_iptr w; w_bridge := w_bridge w; w_values := w_values w |}.

Lemma check_nulls_ver : forall sp off n vs, exists A B, (forall v, check_nulls sp off n vs v = (A, (v =? 0) && B)) /\
  (B = true -> A = false) /\
  (A = false -> n <= sp_natts sp -> B = true).
Proof.
  intros sp off n vs.
  set (f := fun (r : bool * bool) i =>
               let '(hn, ff) := r in
               if i <? off then r
               else if is_null (cell_at vs (i - off)) then (true, false)
               else if sp_natts sp <=? i then (hn, false) else (hn, ff)).
  assert (forall l A, exists A' B', (forall x, fold_left f l (A, x) = (A', x && B')) /\ (B' = true -> A' = A) /\
            (A = true -> A' = true) /\
            (A' = false -> (forall i, In i l -> i < sp_natts sp) -> B' = true)) as G.
  { induction l as [|i l IH]; intros A; cbn [fold_left].
    - exists A, true. split; [intros; rewrite andb_true_r; auto|]. auto.
    - unfold f at 2. destruct (i <? off).
      + destruct (IH A) as (A' & B' & I1 & I2 & I3 & I4). exists A', B'. split; [auto|]. split; [auto|]. split; [auto|].
        intros E F. apply I4; [auto|]. intros; apply F; right; auto.
      + destruct (is_null (cell_at vs (i - off))).
        * destruct (IH true) as (A' & B' & I1 & I2 & I3 & I4). exists A', false.
          split; [intros x; rewrite (I1 false), andb_false_r; reflexivity|]. split; [discriminate|]. split; [auto|].
          intros E. rewrite I3 in E by auto. discriminate.
        * destruct (IH A) as (A' & B' & I1 & I2 & I3 & I4). destruct (Z.leb_spec (sp_natts sp) i) as [L|L].
          -- exists A', false. split; [intros x; rewrite (I1 false), andb_false_r; reflexivity|]. split; [discriminate|]. split; [auto|].
             intros E F. specialize (F i (or_introl eq_refl)). lia.
          -- exists A', B'. split; [auto|]. split; [auto|]. split; [auto|].
             intros E F. apply I4; [auto|]. intros; apply F; right; auto. }
  destruct (G (iota n) false) as (A & B & G1 & G2 & G3 & G4). exists A, B.
  split; [intros v; apply G1|]. split; [intros; auto|]. intros E L. apply G4; [auto|]. intros i Hi. apply in_iota in Hi. lia.
Qed.

Lemma stored_form : forall d init w, Forall wf_att d -> wf_row d init w ->
  let sp := fill_fixed_format_spec d init in
  let D := data (combine d (columns w)) in
  let n := Z.of_nat (length (columns w)) in
  exists A B bm, (A = false -> bm = []) /\ (B = true -> A = false /\ sp_natts sp = n /\ sp_len sp = zlen D) /\
    (A = false -> sp_natts sp = n -> B = true) /\
    forall v, wf_row d init (with_version w v) ->
      (if (v =? 0) && B then True else 8 + zlen bm + zlen D < 32768) /\
      stored d init (with_version w v) =
        if (v =? 0) && B then {| t_fixed := true; t_data := D |}
        else {| t_fixed := false; t_data := header A (8 + zlen bm + zlen D) n v ++ bm ++ D |}.
Proof.
  intros d init w WD W sp D n. pose proof W as W0.
  destruct W as (W1 & W2 & W3 & W4 & W5 & W6 & W7 & W8 & W9).
  pose proof (combine_wf d (columns w) WD ltac:(rewrite W7; exact W8)) as WP.
  set (d' := firstn (w_natts w) d) in *.
  assert (length d' = length (columns w)) as LD by (unfold d'; rewrite firstn_length; lia).
  assert (fill_fixed_format_spec d' init = sp) as ES by (apply ffs_firstn; lia).
  pose proof (off_same w W5) as OS. pose proof (off_idents w) as OI.
  assert (combine d' (columns w) = combine d (columns w)) as EC by (unfold d'; rewrite <- W7; apply combine_firstn_l).
  assert (map (fun i => (att_of d' i, col (w_iptr w) (w_bridge w) (Z.of_nat (idents w)) (w_values w) i)) (iota n)
          = combine d (columns w)) as EM.
  { rewrite <- EC. unfold n. rewrite <- LD. apply map_iota_combine; [lia|]. intros i Hi. rewrite <- OI. apply col_ok; auto. lia. }
  destruct (ffs_spec d (Z.to_nat init) 0 0 [] eq_refl eq_refl (Forall_nil _)) as (S1 & S2 & S3 & S4 & S5).
  cbn [app] in *. fold (fill_fixed_format_spec d init) in S1, S2, S3, S4, S5. fold sp in S1, S2, S3, S4, S5.
  destruct (check_nulls_ver sp (Z.of_nat (idents w)) n (w_values w)) as (A & B & C1 & C2 & C3).
  set (bm0 := if A then tl (fill_bits 128 0 (map (fun ac : att * cell => is_null (snd ac)) (combine d (columns w)))) else []).
  set (bm := bm0 ++ (if A then zeros (MAXALIGN (BITMAPLEN n) - zlen bm0) else [])).
  exists A, B, bm.
  assert (B = true -> A = false /\ sp_natts sp = n) as BB.
  { intros E. split; [auto|].
    destruct (check_nulls_spec sp (Z.of_nat (idents w)) n (w_values w) 0) as [_ N2]. rewrite C1, E in N2. cbn in N2.
    destruct (N2 eq_refl) as (_ & _ & E3).
    assert (sp_natts sp <= n) by (unfold n; lia).
    destruct (Nat.le_gt_cases (length (columns w)) (idents w)) as [L|L].
    - destruct (Z.eq_dec (sp_natts sp) n) as [|NE]; [auto|]. exfalso. unfold n in *.
      destruct (W6 (Z.to_nat (sp_natts sp)) ltac:(lia)) as [Q1 Q2].
      destruct (S5 ltac:(lia) ltac:(lia)) as (a & Q3 & Q4). rewrite (nth_error_nth d _ dflt_att Q3) in Q2. lia.
    - unfold n in *. specialize (E3 (Z.of_nat (length (columns w)) - 1) ltac:(lia) ltac:(lia)). lia. }
  assert (zlen bm = if A then MAXALIGN (BITMAPLEN n) else 0) as LB.
  { unfold bm. rewrite zlen_app. unfold bm0. destruct A; [|reflexivity].
    destruct (bitmap_spec (map (fun ac : att * cell => is_null (snd ac)) (combine d (columns w)))) as [L _].
    rewrite map_length, combine_length in L. replace (Nat.min (length d) (length (columns w))) with (length (columns w)) in L by lia.
    fold n in L. rewrite L. rewrite zlen_zeros; [lia|]. destruct (maxalign_8 (BITMAPLEN n)). lia. }
  split; [|split; [|split]].
  - intros E. unfold bm, bm0. rewrite E. reflexivity.
  - intros E. destruct (BB E) as [E1 E2]. split; [auto|]. split; [auto|].
    rewrite S3, E2. unfold n. rewrite Nat2Z.id.
    rewrite <- (allfix_nom d (columns w) [] WD ltac:(lia) WP eq_refl (length (columns w)) ltac:(lia)).
    + rewrite firstn_all2; [reflexivity|]. rewrite combine_length. lia.
    + intros j J. split; [|apply (S4 j); [unfold n in *; lia|apply nth_error_nth'; lia]].
      revert j J. apply nonnull_cols; [auto|]. intros i Hi Hi0.
      destruct (check_nulls_spec sp (Z.of_nat (idents w)) n (w_values w) 0) as [N1 _]. rewrite C1 in N1. cbn [fst] in N1.
      apply N1; [auto|unfold n; lia|lia].
  - intros E1 E2. apply C3; [auto|lia].
  - intros v Wv. destruct Wv as (V1 & V2 & V3 & V4 & V5 & V6 & V7 & V8 & V9).
    cbn [w_natts w_version w_iptr w_bridge w_values with_version] in *. change (columns (with_version w v)) with (columns w) in *.
    fold d' in V9. rewrite ES in V9. unfold new_tuple_size in V9. rewrite OS, OI in V9. rewrite LD in V9. fold n in V9. rewrite C1 in V9.
    unfold stored, form_tuple, tuple_fill, new_tuple_size. cbn [w_natts w_version w_iptr w_bridge w_values with_version]. fold d'. rewrite ES.
    rewrite OS, OI, LD. fold n. rewrite C1.
    destruct ((v =? 0) && B) eqn:Q; cbn [negb] in *.
    + split; [auto|]. apply andb_true_iff in Q. destruct Q as [_ Q]. destruct (BB Q) as [_ EN]. rewrite EN, EM. reflexivity.
    + rewrite EM, size_all in V9 by auto. fold D in V9. unfold HSZ in *. rewrite <- LB in V9. split; [lia|].
      rewrite EM, size_all by auto. fold D. fold bm0. fold bm. rewrite <- LB. f_equal.
      rewrite (app_assoc _ bm D). unfold D at 3, data. rewrite <- (app_nil_r (header _ _ _ _ ++ bm)) at 1. apply fill_shift_all.
      * rewrite zlen_app, header_len, LB. destruct A; [|reflexivity]. destruct (maxalign_8 (BITMAPLEN n)) as [X _].
        rewrite Z.add_mod, X by lia. reflexivity.
      * apply Forall_forall. intros ac I. rewrite Forall_forall in WP. destruct (WP ac I) as [[AA _] _]. exact AA.
Qed.
