(** Splitting calls into blocks, and schedules without special options. *)
From Coq Require Import ZArith List Bool Lia.
From Coq Require Import ZifyBool ZifyNat.
From Verif Require Import Base OBufModel OBufSpec OBufProofs.
Import ListNotations.
Open Scope Z_scope.

(** ** o_buffers_rw *)
Lemma split_from_covers : forall fuel BS tag off size first last b buf ptr w mok clean,
  0 < BS -> 0 <= off -> 0 < size -> first = off / BS -> last = (off + size - 1) / BS ->
  first <= b <= last + 1 -> last + 1 - b <= Z.of_nat fuel ->
  let pos := Z.max off (Z.min (b * BS) (off + size)) in
  ptr = pos - off ->
  covers BS tag buf pos (off + size - pos) ptr (split_from BS fuel tag off size first last b buf ptr w mok clean).
Proof.
  induction fuel as [|fuel IH]; intros BS tag off size first last b buf ptr w mok clean HB Ho Hs Hf Hl Hb Hfu pos Hp.
  - assert (b = last + 1) by lia. subst b. cbn [split_from covers].
    pose proof (Z.div_mod (off + size - 1) BS ltac:(lia)) as D. pose proof (Z.mod_pos_bound (off + size - 1) BS HB).
    rewrite <- Hl in D. nia.
  - cbn [split_from].
    pose proof (Z.div_mod (off + size - 1) BS ltac:(lia)) as D1. pose proof (Z.mod_pos_bound (off + size - 1) BS HB) as M1.
    pose proof (Z.div_mod off BS ltac:(lia)) as D2. pose proof (Z.mod_pos_bound off BS HB) as M2.
    rewrite <- Hl in D1. rewrite <- Hf in D2.
    destruct (last <? b) eqn:E.
    + assert (b = last + 1) by lia. subst b. cbn [covers]. nia.
    + set (co := if b =? first then off mod BS else 0).
      set (cs := if first =? last then size else if b =? first then BS - off mod BS
                 else if b =? last then (off + size - 1) mod BS + 1 else BS).
      assert (Hpos : pos = if b =? first then off else b * BS).
      { unfold pos. destruct (Z.eqb_spec b first) as [->|N]; [nia|]. 
        assert (first + 1 <= b) by lia. nia. }
      assert (Hcs : 0 < cs /\ 0 <= co /\ co + cs <= BS /\ b * BS + co = pos /\
                    pos + cs = Z.max off (Z.min ((b + 1) * BS) (off + size))).
      { rewrite Hpos. clear Hpos Hp pos IH. unfold cs, co.
        destruct (Z.eqb_spec b first) as [E1|N1], (Z.eqb_spec first last) as [E2|N2], (Z.eqb_spec b last) as [E3|N3]; try lia;
          try (rewrite ?E1 in *); try (rewrite ?E2 in *); nia. }
      destruct Hcs as [C1 [C2 [C3 [C4 C5]]]].
      cbn [covers o_key o_off o_len o_dat fst snd]. split; [reflexivity|]. split; [exact C4|]. split; [exact C2|].
      split; [exact C1|]. split; [exact C3|]. split; [reflexivity|].
      specialize (IH BS tag off size first last (b + 1) buf (ptr + cs) w mok clean HB Ho Hs Hf Hl ltac:(lia) ltac:(lia)).
      cbv zeta in IH. rewrite <- C5 in IH. specialize (IH ltac:(lia)).
      replace (off + size - pos - cs) with (off + size - (pos + cs)) by lia. exact IH.
Qed.

Theorem split_covers : forall BS tag off size buf w mok clean, 0 < BS -> 0 <= off -> 0 < size ->
  covers BS tag buf off size 0 (split BS tag off size buf w mok clean).
Proof.
  intros BS tag off size buf w mok clean HB Ho Hs.
  assert (Hd : off / BS <= (off + size - 1) / BS) by (apply Z.div_le_mono; lia).
  pose proof (split_from_covers (Z.to_nat ((off + size - 1) / BS - off / BS + 1)) BS tag off size (off / BS)
    ((off + size - 1) / BS) (off / BS) buf 0 w mok clean HB Ho Hs eq_refl eq_refl ltac:(lia) ltac:(lia)) as X.
  cbv zeta in X.
  pose proof (Z.div_mod off BS ltac:(lia)) as D2. pose proof (Z.mod_pos_bound off BS HB) as M2.
  replace (Z.max off (Z.min (off / BS * BS) (off + size))) with off in X by nia.
  specialize (X ltac:(lia)). replace (off + size - off) with size in X by lia. exact X.
Qed.

Lemma covers_flags : forall fuel BS tag off size first last b buf ptr w mok clean o,
  In o (split_from BS fuel tag off size first last b buf ptr w mok clean) -> o_write o = w /\ o_mok o = mok /\ o_clean o = clean.
Proof.
  induction fuel as [|fuel IH]; intros BS tag off size first last b buf ptr w mok clean o H; cbn [split_from] in H; [contradiction|].
  destruct (last <? b); [contradiction|]. destruct H as [<-|H]; [auto|]. eapply IH; eauto.
Qed.

Lemma covers_valid : forall l BS tag buf off size ptr, 0 < BS -> 0 <= off -> covers BS tag buf off size ptr l ->
  forallb (valid_op BS) l = true.
Proof.
  induction l as [|o r IH]; intros BS tag buf off size ptr HB Ho H; [reflexivity|]. cbn [covers forallb] in *.
  destruct H as [H1 [H2 [H3 [H4 [H5 [H6 H7]]]]]]. rewrite (IH BS tag buf (off + o_len o) (size - o_len o) (ptr + o_len o) HB ltac:(lia) H7).
  unfold valid_op. assert (0 <= snd (o_key o)) by nia. lia.
Qed.

Definition ev_of (o : bop) : event := EvWrite 0 (o_key o) (o_off o) (o_len o) (o_dat o).

Lemma covers_write : forall l BS tag buf off size ptr f, 0 < BS -> 0 <= off -> covers BS tag buf off size ptr l ->
  0 <= size /\
  (forall x, 0 <= x -> byte_at BS (content f (map ev_of l)) tag x =
     if (off <=? x) && (x <? off + size) then buf (ptr + (x - off)) else byte_at BS f tag x) /\
  (forall t x, t <> tag -> byte_at BS (content f (map ev_of l)) t x = byte_at BS f t x).
Proof.
  induction l as [|o r IH]; intros BS tag buf off size ptr f HB Ho H; cbn [covers] in H.
  - subst size. split; [lia|]. split; [|reflexivity]. intros x Hx. replace ((off <=? x) && (x <? off + 0)) with false by lia. reflexivity.
  - destruct H as [H1 [H2 [H3 [H4 [H5 [H6 H7]]]]]].
    destruct (IH BS tag buf (off + o_len o) (size - o_len o) (ptr + o_len o) (apply_ev f (ev_of o)) HB ltac:(lia) H7) as [I0 [I1 I2]].
    split; [lia|]. split.
    + intros x Hx. cbn [map]. change (content f (ev_of o :: map ev_of r)) with (content (apply_ev f (ev_of o)) (map ev_of r)).
      rewrite I1 by exact Hx.
      pose proof (Z.div_mod x BS ltac:(lia)) as D. pose proof (Z.mod_pos_bound x BS HB) as M.
      destruct ((off + o_len o <=? x) && (x <? off + o_len o + (size - o_len o))) eqn:E.
      * replace ((off <=? x) && (x <? off + size)) with true by lia. f_equal. lia.
      * unfold byte_at. cbn [apply_ev ev_of]. unfold kupd.
        destruct (key_eqb (tag, x / BS) (o_key o)) eqn:Ek.
        -- apply key_eqb_spec in Ek. rewrite <- Ek in H2. cbn [snd] in H2. unfold put. rewrite <- Ek.
           destruct ((o_off o <=? x mod BS) && (x mod BS <? o_off o + o_len o)) eqn:E2.
           ++ replace ((off <=? x) && (x <? off + size)) with true by nia. rewrite H6. f_equal. nia.
           ++ replace ((off <=? x) && (x <? off + size)) with false by nia. reflexivity.
        -- replace ((off <=? x) && (x <? off + size)) with false; [reflexivity|].
           symmetry. apply not_true_is_false. intros T. apply key_eqb_false in Ek. apply Ek.
           assert (off <= x < off + o_len o) by lia.
           assert (x / BS = snd (o_key o)) by (symmetry; apply Z.div_unique with (x - snd (o_key o) * BS); lia).
           destruct (o_key o) as [a b]. cbn [fst snd] in *. congruence.
    + intros t x Ht. cbn [map]. change (content f (ev_of o :: map ev_of r)) with (content (apply_ev f (ev_of o)) (map ev_of r)).
      rewrite I2 by exact Ht. unfold byte_at. cbn [apply_ev ev_of]. rewrite kupd_other; [reflexivity|].
      intros E. apply Ht. rewrite <- H1, <- E. reflexivity.
Qed.

Lemma split_write : forall BS tag off size buf mok clean f, 0 < BS -> 0 <= off -> 0 < size ->
  let l := split BS tag off size buf true mok clean in
  forallb (valid_op BS) l = true /\
  (forall x, 0 <= x -> byte_at BS (content f (map ev_of l)) tag x =
     if (off <=? x) && (x <? off + size) then buf (x - off) else byte_at BS f tag x) /\
  (forall t x, t <> tag -> byte_at BS (content f (map ev_of l)) t x = byte_at BS f t x).
Proof.
  intros BS tag off size buf mok clean f HB Ho Hs l.
  pose proof (split_covers BS tag off size buf true mok clean HB Ho Hs) as H. fold l in H.
  split; [eapply covers_valid; eauto|]. apply (covers_write l BS tag buf off size 0 f HB Ho H).
Qed.

(** Reading: the i-th byte returned by the call is byte off+i of the file set. *)
Fixpoint gather (BS : Z) (f : key -> bytes) (l : list bop) (i : Z) : Z :=
  match l with
  | [] => 0
  | o :: r => if i <? o_len o then f (o_key o) (o_off o + i) else gather BS f r (i - o_len o)
  end.

Lemma covers_read : forall l BS tag buf off size ptr f, 0 < BS -> 0 <= off -> covers BS tag buf off size ptr l ->
  forall i, 0 <= i < size -> gather BS f l i = byte_at BS f tag (off + i).
Proof.
  induction l as [|o r IH]; intros BS tag buf off size ptr f HB Ho H i Hi; cbn [covers gather] in *; [lia|].
  destruct H as [H1 [H2 [H3 [H4 [H5 [H6 H7]]]]]]. destruct (i <? o_len o) eqn:E.
  - unfold byte_at. assert (D : (off + i) / BS = snd (o_key o)).
    { symmetry. apply Z.div_unique with (o_off o + i); lia. }
    assert (M : (off + i) mod BS = o_off o + i).
    { symmetry. apply Z.mod_unique with (snd (o_key o)); lia. }
    rewrite D, M, <- H1. destruct (o_key o); reflexivity.
  - rewrite (IH BS tag buf (off + o_len o) (size - o_len o) (ptr + o_len o) f HB ltac:(lia) H7) by lia. f_equal. lia.
Qed.

Lemma split_read : forall BS tag off size buf mok f, 0 < BS -> 0 <= off -> 0 < size ->
  let l := split BS tag off size buf false mok false in
  forallb (valid_op BS) l = true /\
  forall i, 0 <= i < size -> gather BS f l i = byte_at BS f tag (off + i).
Proof.
  intros BS tag off size buf mok f HB Ho Hs l.
  pose proof (split_covers BS tag off size buf false mok false HB Ho Hs) as H. fold l in H.
  split; [eapply covers_valid; eauto|]. apply (covers_read l BS tag buf off size 0 f HB Ho H).
Qed.

(** ** o_buffers_sync: every byte of the range is in a flushed block and a synced file. *)
Lemma sync_ranges : forall BS bpf from to x, 0 < BS -> 0 < bpf -> 0 <= from -> from <= x < to ->
  (fst (sync_blocks BS from to) <= x / BS <= snd (sync_blocks BS from to)) /\
  (fst (sync_files BS bpf from to) <= x / BS / bpf <= snd (sync_files BS bpf from to)).
Proof.
  assert (X : forall B from to x, 0 < B -> from <= x < to -> from / B <= x / B <= (if to mod B =? 0 then to / B - 1 else to / B)).
  { intros B from to x HB H. split; [apply Z.div_le_mono; lia|].
    pose proof (Z.div_mod x B ltac:(lia)). pose proof (Z.mod_pos_bound x B HB).
    pose proof (Z.div_mod to B ltac:(lia)). pose proof (Z.mod_pos_bound to B HB).
    destruct (Z.eqb_spec (to mod B) 0); nia. }
  intros BS bpf from to x HB Hb Hf H. split.
  - apply X; auto.
  - rewrite Z.div_div by lia. rewrite (Z.mul_comm BS bpf). apply X; [nia|exact H].
Qed.

(** ** Schedules without special options meet the callers' obligations *)
Definition plain_bop (o : bop) : Prop := o_mok o = false /\ o_clean o = false.
Definition plain_pc (c : pc) : Prop :=
  match c with
  | Lookup o | WaitS o _ | Excl o | Search o _ _ _ | WaitX o _ | Victim o _ | Evict o _ _ _ | Load o _ | Have o _ _ => plain_bop o
  | D1 _ _ | D2 _ _ _ | D3 _ _ => False
  | _ => True
  end.

Lemma plain_set : forall s p c, (forall q, plain_pc (pcs s q)) -> plain_pc c -> forall q, plain_pc (upd (pcs s) p c q).
Proof. intros s p c H Hc q. rewrite upd_if. destruct (q =? p); auto. Qed.

Lemma plain_step : forall BS bpf G s x, (forall q, plain_pc (pcs s q)) -> plain_op x = true ->
  forall q, plain_pc (pcs (step BS bpf G s x) q).
Proof.
  intros BS bpf G s x H Hx. destruct x as [p o|p t a b|p k d|p]; cbn [step plain_op] in *.
  - destruct (pcs s p); auto. destruct (valid_op BS o); auto. apply plain_set; auto. cbn. unfold plain_bop. lia.
  - destruct (pcs s p); auto. apply plain_set; cbn; auto.
  - discriminate.
  - pose proof (H p) as Hp. destruct (pcs s p) eqn:Ep; cbn [plain_pc] in Hp; auto; try contradiction.
    + destruct (g_ex s (grp G (o_key o))); auto. destruct (find_slot G s (o_key o)); apply plain_set; auto.
    + destruct (can_lock (slots s n) (o_write o)); auto. apply plain_set; auto.
    + destruct (g_ex s (grp G (o_key o))); auto. destruct (g_sh s (grp G (o_key o))); auto. apply plain_set; auto.
    + destruct (n =? 4 * grp G (o_key o) + 4); [apply plain_set; auto|].
      destruct (key_eqb (s_key (slots s n)) (o_key o)); [apply plain_set; auto|].
      destruct (key_eqb (s_shadow (slots s n)) (o_key o) && negb (can_lock (slots s n) false)); auto.
      apply plain_set; auto.
    + destruct (can_lock (slots s n) (o_write o)); auto. apply plain_set; auto.
    + destruct (can_lock (slots s n) true); auto. apply plain_set; auto.
    + destruct d; apply plain_set; auto.
    + destruct (o_mok o && negb (fex s (fileof bpf (o_key o)))); apply plain_set; cbn; auto.
    + destruct (o_write o); apply plain_set; cbn; auto.
    + destruct (n =? 4 * G); [apply plain_set; cbn; auto|]. destruct (can_lock (slots s n) false); auto. apply plain_set; cbn; auto.
    + destruct (s_dirty (slots s n) && (fst (s_key (slots s n)) =? t) && (a <=? snd (s_key (slots s n))) &&
                (snd (s_key (slots s n)) <=? b)); apply plain_set; cbn; auto.
    + apply plain_set; cbn; auto.
Qed.

Lemma plain_ok : forall ops BS bpf G s, (forall q, plain_pc (pcs s q)) -> forallb plain_op ops = true ->
  schedule_ok BS bpf G s (map IOp ops).
Proof.
  induction ops as [|x ops IH]; intros BS bpf G s H Ho; [exact I|]. cbn [forallb map schedule_ok] in *.
  apply andb_true_iff in Ho. destruct Ho as [Hx Ho]. split.
  - destruct x as [p o|p t a b|p k d|p]; cbn [step_ok plain_op] in *; auto; try discriminate.
    pose proof (H p) as Hp. destruct (pcs s p); cbn [plain_pc] in Hp; auto; unfold plain_bop in Hp; intros; destruct Hp; congruence.
  - apply IH; auto. cbn [exec]. apply plain_step; auto.
Qed.

Lemma fold_exec : forall ops BS bpf G s, fold_left (exec BS bpf G) (map IOp ops) s = run (step BS bpf G) s ops.
Proof. induction ops as [|x ops IH]; intros BS bpf G s; [reflexivity|]. cbn [map fold_left exec]. apply IH. Qed.

Theorem plain_consistent : forall BS bpf G f0 ex ops, 0 < G -> files_ok bpf f0 ex -> forallb plain_op ops = true ->
  consistent BS f0 (log (run (step BS bpf G) (init f0 ex) ops)).
Proof.
  intros BS bpf G f0 ex ops HG Hf Ho. rewrite <- fold_exec. apply cache_consistent; auto.
  apply plain_ok; auto. intros q. exact I.
Qed.
