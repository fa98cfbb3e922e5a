From Coq Require Import ZArith List Bool Lia.
From Coq Require Import ZifyBool ZifyNat ZifyN.
From Verif Require Import Base UnlinkModel UnlinkSpec.
Import ListNotations.
Open Scope Z_scope.

Lemma zrange_In : forall a b x, In x (zrange a b) <-> a <= x <= b.
Proof.
  intros. unfold zrange. rewrite in_map_iff. split.
  - intros [i [<- Hi]]. apply in_seq in Hi. lia.
  - intros H. exists (Z.to_nat (x - a)). split; [lia|]. apply in_seq. lia.
Qed.

(** b lies in file f. *)
Lemma div_file : forall bpf b f, 0 < bpf -> (b / bpf = f <-> f * bpf <= b < (f + 1) * bpf).
Proof.
  intros bpf b f H. assert (E := Z.div_mod b bpf ltac:(lia)). assert (M := Z.mod_pos_bound b bpf H).
  split; [intros <-; nia|]. intros Hb. symmetry. apply Z.div_unique with (b - f * bpf); nia.
Qed.

Definition covered_file (bpf first last b : Z) : bool :=
  (first <=? (b / bpf) * bpf) && ((b / bpf) * bpf + bpf - 1 <=? last).

Lemma unlink_one_disk : forall sparse bpf first last s f b, 0 < bpf ->
  f_disk (unlink_one sparse bpf first last s f) b =
  f_disk s b && negb ((b / bpf =? f) && (first <=? b) && (b <=? last) &&
                      (sparse || covered_file bpf first last b)).
Proof.
  intros sparse bpf first last s f b Hb. unfold unlink_one, covered_file.
  assert (E := Z.div_mod b bpf ltac:(lia)). assert (M := Z.mod_pos_bound b bpf Hb).
  assert (Hbm : b mod bpf = b - b / bpf * bpf) by lia.
  destruct (Z.eqb_spec (b / bpf) f) as [Ef|Ef].
  - subst f. set (q := b / bpf) in *.
    destruct (_ && _) eqn:C.
    + unfold unlink_file. cbn [f_disk]. fold q. rewrite Z.eqb_refl. cbn [negb andb].
      f_equal. f_equal. destruct sparse; cbn [orb]; lia.
    + destruct sparse; cbn [orb].
      * unfold punch. cbn [f_disk]. fold q. rewrite Z.eqb_refl, Hbm. cbn [andb]. f_equal. f_equal. lia.
      * cbn [andb]. replace (_ && _ && _) with false; [cbn; rewrite andb_true_r; reflexivity|]. lia.
  - cbn [andb negb]. rewrite andb_true_r.
    destruct (_ && _); [|destruct sparse; [|reflexivity]]; cbn [f_disk unlink_file punch];
      replace (b / bpf =? f) with false by lia; cbn [andb negb]; apply andb_true_r.
Qed.

Lemma unlink_one_dirty : forall sparse bpf first last s f, f_dirty (unlink_one sparse bpf first last s f) = f_dirty s.
Proof. intros. unfold unlink_one. destruct (_ && _); [reflexivity|]. destruct sparse; reflexivity. Qed.

Lemma fold_one : forall sparse bpf first last l s, 0 < bpf ->
  (forall b, f_disk (fold_left (unlink_one sparse bpf first last) l s) b =
     f_disk s b && negb (existsb (Z.eqb (b / bpf)) l && (first <=? b) && (b <=? last) &&
                         (sparse || covered_file bpf first last b))) /\
  f_dirty (fold_left (unlink_one sparse bpf first last) l s) = f_dirty s.
Proof.
  induction l as [|f l IH]; intros s Hb; cbn [fold_left existsb].
  - split; [|reflexivity]. intros b. cbn. rewrite andb_true_r. reflexivity.
  - destruct (IH (unlink_one sparse bpf first last s f) Hb) as [H1 H2]. split.
    + intros b. rewrite H1, unlink_one_disk by exact Hb.
      destruct (f_disk s b), (b / bpf =? f), (existsb (Z.eqb (b / bpf)) l), (first <=? b), (b <=? last),
        (sparse || covered_file bpf first last b); reflexivity.
    + rewrite H2. apply unlink_one_dirty.
Qed.

Lemma unlink_range_disk : forall sparse bpf s first last b, 0 < bpf ->
  f_disk (unlink_range sparse bpf s first last) b =
  f_disk s b && negb ((first <=? b) && (b <=? last) && (sparse || covered_file bpf first last b)).
Proof.
  intros sparse bpf s first last b Hb. unfold unlink_range. destruct (last <? first) eqn:E.
  - replace ((first <=? b) && (b <=? last)) with false by lia. cbn. rewrite andb_true_r. reflexivity.
  - destruct (fold_one sparse bpf first last (zrange (first / bpf) (last / bpf)) (wipe s first last) Hb) as [H1 _].
    rewrite H1. cbn [wipe f_disk]. f_equal. f_equal.
    destruct ((first <=? b) && (b <=? last)) eqn:R.
    + replace (existsb (Z.eqb (b / bpf)) (zrange (first / bpf) (last / bpf))) with true.
      * rewrite <- !andb_assoc, andb_true_l. rewrite !andb_assoc, R. reflexivity.
      * symmetry. apply existsb_exists. exists (b / bpf). split; [|apply Z.eqb_refl].
        apply zrange_In. split; apply Z.div_le_mono; lia.
    + cbn. destruct (existsb _ _); cbn; [rewrite R|]; reflexivity.
Qed.

Lemma unlink_range_dirty : forall sparse bpf s first last b, 0 < bpf ->
  f_dirty (unlink_range sparse bpf s first last) b =
  f_dirty s b && negb ((first <=? b) && (b <=? last)).
Proof.
  intros sparse bpf s first last b Hb. unfold unlink_range. destruct (last <? first) eqn:E.
  - replace ((first <=? b) && (b <=? last)) with false by lia. cbn. rewrite andb_true_r. reflexivity.
  - destruct (fold_one sparse bpf first last (zrange (first / bpf) (last / bpf)) (wipe s first last) Hb) as [_ H2].
    rewrite H2. reflexivity.
Qed.

Lemma range_keeps : forall sparse bpf s first last b, 0 < bpf -> ~ (first <= b <= last) ->
  kept s (unlink_range sparse bpf s first last) b.
Proof.
  intros. split; [rewrite unlink_range_disk|rewrite unlink_range_dirty]; auto;
    replace ((first <=? b) && (b <=? last)) with false by lia; cbn; apply andb_true_r.
Qed.

Lemma range_gone : forall sparse bpf s first last b, 0 < bpf -> first <= b <= last ->
  sparse = true \/ (first <= (b / bpf) * bpf /\ (b / bpf) * bpf + bpf - 1 <= last) ->
  gone (unlink_range sparse bpf s first last) b.
Proof.
  intros sparse bpf s first last b Hb Hr Hc. split.
  - rewrite unlink_range_disk by auto. replace ((first <=? b) && (b <=? last)) with true by lia.
    replace (sparse || covered_file bpf first last b) with true.
    + cbn. apply andb_false_r.
    + unfold covered_file. symmetry. apply orb_true_iff. destruct Hc as [->|Hc]; [auto|right; lia].
  - rewrite unlink_range_dirty by auto. replace ((first <=? b) && (b <=? last)) with true by lia.
    cbn. apply andb_false_r.
Qed.

Lemma range_gone_mono : forall sparse bpf s first last b, 0 < bpf -> gone s b ->
  gone (unlink_range sparse bpf s first last) b.
Proof.
  intros sparse bpf s first last b Hb [H1 H2]. split.
  - rewrite unlink_range_disk, H1; auto.
  - rewrite unlink_range_dirty, H2; auto.
Qed.

Lemma kept_trans : forall s s1 s2 b, kept s s1 b -> kept s1 s2 b -> kept s s2 b.
Proof. intros s s1 s2 b [A B] [C D]. split; congruence. Qed.
Lemma kept_refl : forall s b, kept s s b.
Proof. split; reflexivity. Qed.

Lemma ceil_le : forall x ipb b, 0 < ipb -> (x + ipb - 1) / ipb <= b -> x <= b * ipb.
Proof.
  intros x ipb b Hi H. assert (E := Z.div_mod (x + ipb - 1) ipb ltac:(lia)).
  assert (M := Z.mod_pos_bound (x + ipb - 1) ipb Hi). nia.
Qed.
Lemma le_ceil : forall x ipb b, 0 < ipb -> x <= b * ipb -> (x + ipb - 1) / ipb <= b.
Proof.
  intros x ipb b Hi H. apply Z.lt_succ_r. apply Z.div_lt_upper_bound; nia.
Qed.
Lemma floor_ge : forall x ipb b, 0 < ipb -> b <= x / ipb -> b * ipb <= x.
Proof. intros x ipb b Hi H. assert (E := Z.mul_div_le x ipb Hi). nia. Qed.
Lemma ge_floor : forall x ipb b, 0 < ipb -> b * ipb <= x -> b <= x / ipb.
Proof. intros x ipb b Hi H. apply Z.div_le_lower_bound; nia. Qed.

(** No block holding a retained item is touched. *)
Lemma unlink_safe : forall sparse bpf ipb s cstart cend ckstart ckend trx i b,
  0 < bpf -> 0 < ipb -> retained ckstart ckend trx i -> in_block ipb i b ->
  kept s (unlink_unretained sparse bpf ipb s cstart cend ckstart ckend trx) b.
Proof.
  intros sparse bpf ipb s cstart cend ckstart ckend trx i b Hb Hi Hr Hblk.
  unfold unlink_unretained, retained, in_block in *.
  destruct (cend <=? cstart) eqn:E0; [apply kept_refl|].
  set (rs := if ckstart <? ckend then Z.min ckstart trx else trx).
  assert (Hrs : rs <= i) by (unfold rs; destruct (ckstart <? ckend) eqn:E; lia).
  set (s1 := if cstart <? Z.min cend rs then _ else s).
  assert (K1 : kept s s1 b).
  { unfold s1. destruct (cstart <? Z.min cend rs) eqn:E1; [|apply kept_refl].
    apply range_keeps; [exact Hb|]. intros [_ Hl].
    assert (b + 1 <= Z.min cend rs / ipb) by lia. apply floor_ge in H; [|exact Hi]. lia. }
  destruct ((ckstart <? ckend) && (ckend <? trx)) eqn:E2; [|exact K1].
  destruct (Z.max cstart ckend <? Z.min cend trx) eqn:E3; [|exact K1].
  eapply kept_trans; [exact K1|]. apply range_keeps; [exact Hb|].
  intros [Hf Hl]. assert (b + 1 <= Z.min cend trx / ipb) by lia. apply floor_ge in H; [|exact Hi].
  assert (Hge : ckend <= b * ipb).
  { destruct (_ && _) eqn:E4 in Hf.
    - apply ceil_le; [exact Hi|]. lia.
    - apply ceil_le in Hf; [|exact Hi]. lia. }
  lia.
Qed.

Lemma lead_le : forall bpf x, 0 < bpf -> x / bpf * bpf <= x.
Proof. intros. assert (E := Z.mul_div_le x bpf H). lia. Qed.

(** Every wholly dead block of the cleaned range is gone (with hole punching). *)
Lemma unlink_complete : forall bpf ipb s cstart cend ckstart ckend trx b,
  0 < bpf -> 0 < ipb ->
  cstart <= b * ipb -> (b + 1) * ipb <= cend ->
  (forall i, in_block ipb i b -> ~ retained ckstart ckend trx i) ->
  gone (unlink_unretained true bpf ipb s cstart cend ckstart ckend trx) b.
Proof.
  intros bpf ipb s cstart cend ckstart ckend trx b Hb Hi H1 H2 Hn.
  assert (Htr : (b + 1) * ipb <= trx).
  { specialize (Hn ((b + 1) * ipb - 1)). unfold in_block, retained in Hn. nia. }
  assert (Hck : ckend <= ckstart \/ (b + 1) * ipb <= ckstart \/ ckend <= b * ipb).
  { destruct (Z.le_gt_cases ckend ckstart); [auto|]. right.
    destruct (Z.le_gt_cases ((b + 1) * ipb) ckstart); [auto|]. right.
    destruct (Z.le_gt_cases ckend (b * ipb)); [auto|]. exfalso.
    apply (Hn (Z.max ckstart (b * ipb))); unfold in_block, retained; nia. }
  unfold unlink_unretained. replace (cend <=? cstart) with false by nia.
  set (rs := if ckstart <? ckend then Z.min ckstart trx else trx).
  set (s1 := if cstart <? Z.min cend rs then _ else s).
  assert (D : (b + 1) * ipb <= rs \/ (ckstart < ckend /\ ckend < trx /\ ckend <= b * ipb)).
  { unfold rs. destruct (ckstart <? ckend) eqn:E; [|left; lia].
    destruct Hck as [?|[?|?]]; [lia|left; lia|]. right. nia. }
  destruct D as [D|[D1 [D2 D3]]].
  - assert (G1 : gone s1 b).
    { unfold s1. replace (cstart <? Z.min cend rs) with true by nia.
      apply range_gone; [exact Hb| |left; reflexivity]. split.
      - assert ((cstart + ipb - 1) / ipb <= b) by (apply le_ceil; auto).
        destruct (_ <=? _); [|assumption]. pose proof (lead_le bpf ((cstart + ipb - 1) / ipb) Hb). lia.
      - assert (b + 1 <= Z.min cend rs / ipb) by (apply ge_floor; lia). lia. }
    destruct ((ckstart <? ckend) && (ckend <? trx)); [|exact G1].
    destruct (Z.max cstart ckend <? Z.min cend trx); [|exact G1].
    apply range_gone_mono; auto.
  - replace ((ckstart <? ckend) && (ckend <? trx)) with true by lia.
    replace (Z.max cstart ckend <? Z.min cend trx) with true by nia.
    apply range_gone; [exact Hb| |left; reflexivity]. split.
    + assert ((Z.max cstart ckend + ipb - 1) / ipb <= b) by (apply le_ceil; lia).
      destruct (_ && _); [|assumption].
      pose proof (lead_le bpf ((Z.max cstart ckend + ipb - 1) / ipb) Hb). lia.
    + assert (b + 1 <= Z.min cend trx / ipb) by (apply ge_floor; lia). lia.
Qed.

(** Without hole punching: every wholly dead file of the cleaned range is gone. *)
Lemma unlink_complete_file : forall sparse bpf ipb s cstart cend ckstart ckend trx f b,
  0 < bpf -> 0 < ipb ->
  cstart <= f * bpf * ipb -> (f + 1) * bpf * ipb <= cend ->
  (forall i, f * bpf * ipb <= i < (f + 1) * bpf * ipb -> ~ retained ckstart ckend trx i) ->
  f * bpf <= b < (f + 1) * bpf ->
  gone (unlink_unretained sparse bpf ipb s cstart cend ckstart ckend trx) b.
Proof.
  intros sparse bpf ipb s cstart cend ckstart ckend trx f b Hb Hi H1 H2 Hn Hf.
  set (lo := f * bpf * ipb) in *. set (hi := (f + 1) * bpf * ipb) in *.
  assert (Hlh : lo < hi) by (unfold lo, hi; nia).
  assert (Htr : hi <= trx).
  { specialize (Hn (hi - 1)). unfold retained in Hn. lia. }
  assert (Hck : ckend <= ckstart \/ hi <= ckstart \/ ckend <= lo).
  { destruct (Z.le_gt_cases ckend ckstart); [auto|]. right.
    destruct (Z.le_gt_cases hi ckstart); [auto|]. right.
    destruct (Z.le_gt_cases ckend lo); [auto|]. exfalso.
    apply (Hn (Z.max ckstart lo)); unfold retained; lia. }
  assert (Hq : b / bpf = f) by (apply div_file; auto).
  unfold unlink_unretained. replace (cend <=? cstart) with false by lia.
  set (rs := if ckstart <? ckend then Z.min ckstart trx else trx).
  set (s1 := if cstart <? Z.min cend rs then _ else s).
  assert (D : hi <= rs \/ (ckstart < ckend /\ ckend < trx /\ ckend <= lo)).
  { unfold rs. destruct (ckstart <? ckend) eqn:E; [|left; lia].
    destruct Hck as [?|[?|?]]; [lia|left; lia|]. right. lia. }
  destruct D as [D|[D1 [D2 D3]]].
  - assert (G1 : gone s1 b).
    { unfold s1. replace (cstart <? Z.min cend rs) with true by lia.
      assert (A : (cstart + ipb - 1) / ipb <= f * bpf) by (apply le_ceil; auto).
      assert (B : (f + 1) * bpf <= Z.min cend rs / ipb) by (apply ge_floor; [exact Hi|fold hi; lia]).
      set (fb := if _ <=? _ then _ else _).
      assert (A' : fb <= f * bpf).
      { unfold fb. destruct (_ <=? _); [|exact A]. pose proof (lead_le bpf ((cstart + ipb - 1) / ipb) Hb). lia. }
      apply range_gone; [exact Hb|lia|right; rewrite Hq; lia]. }
    destruct ((ckstart <? ckend) && (ckend <? trx)); [|exact G1].
    destruct (Z.max cstart ckend <? Z.min cend trx); [|exact G1].
    apply range_gone_mono; auto.
  - replace ((ckstart <? ckend) && (ckend <? trx)) with true by lia.
    replace (Z.max cstart ckend <? Z.min cend trx) with true by lia.
    assert (A : (Z.max cstart ckend + ipb - 1) / ipb <= f * bpf) by (apply le_ceil; [exact Hi|fold lo; lia]).
    assert (B : (f + 1) * bpf <= Z.min cend trx / ipb) by (apply ge_floor; [exact Hi|fold hi; lia]).
    set (fb := if _ && _ then _ else _).
    assert (A' : fb <= f * bpf).
    { unfold fb. destruct (_ && _); [|exact A]. pose proof (lead_le bpf ((Z.max cstart ckend + ipb - 1) / ipb) Hb). lia. }
    apply range_gone; [exact Hb|lia|right; rewrite Hq; lia].
Qed.

Lemma unlink_gone_mono : forall sparse bpf ipb s cstart cend ckstart ckend trx b,
  0 < bpf -> gone s b -> gone (unlink_unretained sparse bpf ipb s cstart cend ckstart ckend trx) b.
Proof.
  intros. unfold unlink_unretained. destruct (_ <=? _); [assumption|].
  destruct (cstart <? Z.min cend _); destruct ((ckstart <? ckend) && (ckend <? trx));
    try destruct (Z.max cstart ckend <? Z.min cend trx); repeat apply range_gone_mono; auto.
Qed.

Lemma pair_safe : forall sparse bpf ipb s oc ocs oce ncs nce m i b,
  0 < bpf -> 0 < ipb -> retained ncs nce m i -> in_block ipb i b ->
  kept s (cleanup_pair sparse bpf ipb s oc ocs oce ncs nce m) b.
Proof.
  intros. unfold cleanup_pair. eapply kept_trans; eapply unlink_safe; eauto.
Qed.

Lemma pair_complete : forall bpf ipb s oc ocs oce ncs nce m b,
  0 < bpf -> 0 < ipb ->
  (forall i, in_block ipb i b -> ~ retained ncs nce m i) ->
  (forall i, in_block ipb i b -> oc <= i) \/ (forall i, in_block ipb i b -> ocs <= i < oce) ->
  gone (cleanup_pair true bpf ipb s oc ocs oce ncs nce m) b.
Proof.
  intros bpf ipb s oc ocs oce ncs nce m b Hb Hi Hn Ho. unfold cleanup_pair.
  assert (B1 : in_block ipb (b * ipb) b) by (unfold in_block; nia).
  assert (B2 : in_block ipb ((b + 1) * ipb - 1) b) by (unfold in_block; nia).
  destruct Ho as [Ho|Ho].
  - apply unlink_gone_mono; [exact Hb|]. apply unlink_complete; auto.
    specialize (Hn _ B2). unfold retained in Hn. lia.
  - pose proof (Ho _ B1). pose proof (Ho _ B2). apply unlink_complete; auto; lia.
Qed.

(** ** Successive cleanups with no checkpoint range *)
Fixpoint cleanups (sparse : bool) (bpf ipb : Z) (s : fs) (from : Z) (bounds : list Z) : fs :=
  match bounds with
  | [] => s
  | e :: r => cleanups sparse bpf ipb (unlink_unretained sparse bpf ipb s from e 0 0 e) e r
  end.
Fixpoint ascending (from : Z) (l : list Z) : Prop :=
  match l with [] => True | e :: r => from <= e /\ ascending e r end.

Lemma cleanups_gone_mono : forall sparse bpf ipb bounds s from b, 0 < bpf -> gone s b ->
  gone (cleanups sparse bpf ipb s from bounds) b.
Proof.
  induction bounds as [|e r IH]; intros; cbn; auto. apply IH; auto. apply unlink_gone_mono; auto.
Qed.

Lemma last_dflt : forall (l : list Z) x d d', last (x :: l) d = last (x :: l) d'.
Proof. induction l as [|y l IH]; intros; [reflexivity|]. cbn [last] in *. apply (IH y). Qed.

(** If no boundary falls strictly inside the last block of a file, no file wholly
    below the final boundary survives. *)
Lemma cleanups_no_orphans : forall sparse bpf ipb bounds s from f b, 0 < bpf -> 0 < ipb ->
  ascending from bounds ->
  (forall e, In e (from :: bounds) -> ~ (((f + 1) * bpf - 1) * ipb < e < (f + 1) * bpf * ipb)) ->
  from < (f + 1) * bpf * ipb -> (f + 1) * bpf * ipb <= last bounds from ->
  f * bpf <= b < (f + 1) * bpf ->
  gone (cleanups sparse bpf ipb s from bounds) b.
Proof.
  intros sparse bpf ipb bounds. induction bounds as [|e r IH]; intros s from f b Hb Hi Ha Hno Hf Hl Hbf.
  - cbn in Hl. lia.
  - cbn [cleanups]. destruct Ha as [Ha1 Ha2].
    destruct (Z.lt_ge_cases e ((f + 1) * bpf * ipb)) as [Hlt|Hge].
    + apply IH with (f := f); auto.
      * intros x Hx. apply Hno. right. exact Hx.
      * destruct r as [|z r]; [cbn in *; lia|]. change (last (e :: z :: r) from) with (last (z :: r) from) in Hl.
        rewrite (last_dflt r z e from). exact Hl.
    + apply cleanups_gone_mono; [exact Hb|].
      unfold unlink_unretained. replace (e <=? from) with false by lia. cbn [Z.ltb Z.compare andb].
      replace (from <? Z.min e e) with true by lia.
      specialize (Hno from (or_introl eq_refl)).
      assert (Hc : (from + ipb - 1) / ipb <= (f + 1) * bpf - 1).
      { apply le_ceil; [exact Hi|]. lia. }
      assert (Hc2 : (from + ipb - 1) / ipb / bpf <= f).
      { apply Z.lt_succ_r. apply Z.div_lt_upper_bound; lia. }
      set (lead := (from + ipb - 1) / ipb / bpf) in *.
      assert (He : (f + 1) * bpf <= e / ipb) by (apply ge_floor; lia).
      replace ((lead + 1) * bpf <=? e / ipb) with true by nia.
      replace (Z.min e e) with e by lia.
      assert (Hq : b / bpf = f) by (apply div_file; auto).
      apply range_gone; [exact Hb|nia|right; rewrite Hq; nia].
Qed.
