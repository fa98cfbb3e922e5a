(* C25: where it applies, the accelerated search of fixed-width keys selects
   the same child or chunk as the general search. *)
From Coq Require Import ZArith List Bool Lia ZifyBool.
From Verif Require Import Base KeySpec KeyModel KeyProofs PageSearchModel PageSearchSpec PageSearchProofs PageSearchProps
  FastpathModel FastpathProofs FastpathSpec.
Import ListNotations.
Open Scope Z_scope.

Definition cmp_of (ix : index) (k : skey) : list val -> Z :=
  match k with KNone => fun _ => -1 | KRightmost => fun _ => 1 | _ => general_cmp ix k end.
Definition tgt (k : skey) : Z := match general_kind k with KHiKey => 1 | KPlain => 0 end.

Lemma key_matches ix k m : index_ok ix -> covered ix k -> find_downlink_get_keys ix k = Some m ->
  (k = KNone \/ k = KRightmost -> (0 < nUniqueFields ix)%nat) ->
  inclusive m = (match general_kind k with KHiKey => true | KPlain => false end) /\
  (k <> KNone -> k <> KRightmost -> follows (cols m) (fields ix) (floats ix)) /\
  (forall r, fixedkey (fields ix) (floats ix) r -> (fcmp (cols m) (row_of r) >= tgt k <-> cmp_of ix k r >= tgt k)).
Proof.
  intros (O1 & O2 & O3 & O4) C E NZ. destruct k as [| |h t|kd b]; cbn [find_downlink_get_keys] in E.
  - injection E as <-. split; [reflexivity|]. split; [congruence|]. intros r FK. cbn.
    specialize (NZ (or_introl eq_refl)). destruct (nUniqueFields ix); [lia|]. cbn.
    destruct r as [|v r]; [destruct (fields ix), (floats ix); cbn in O2, O3, FK; try tauto; lia|]. cbn. lia.
  - injection E as <-. split; [reflexivity|]. split; [congruence|]. intros r FK. cbn.
    specialize (NZ (or_intror eq_refl)). destruct (nUniqueFields ix); [lia|]. cbn.
    destruct r as [|v r]; [destruct (fields ix), (floats ix); cbn in O2, O3, FK; try tauto; lia|]. cbn. lia.
  - injection E as <-. destruct C as [C1 C2]. split; [destruct h; reflexivity|]. split; [intros; apply tuple_cols_follows|].
    intros r FK. cbn [cols cmp_of general_cmp]. 
    replace (if isPrimary ix then firstn (nUniqueFields ix) (fields ix) else fields ix) with (fields ix)
      by (destruct (isPrimary ix); auto; rewrite C2, firstn_all; auto).
    pose proof (tuple_fcmp (nUniqueFields ix) (fields ix) (floats ix) t r ltac:(congruence) ltac:(congruence) FK) as S.
    unfold tgt. cbn. destruct h; lia.
  - destruct (bound_cols _ _ _ _ _) as [c|] eqn:EB; [|discriminate]. injection E as <-. destruct C as (C1 & C2 & C3).
    split; [reflexivity|]. split; [intros; eapply bound_cols_follows; eauto|].
    intros r FK. cbn [cols cmp_of general_cmp tgt general_kind].
    unfold o_idx_cmp_key_bound_to_tuple.
    apply (bound_fcmp_loop kd (nUniqueFields ix) (fields ix) (floats ix) (types ix) b r c); auto; try congruence.
    destruct kd; auto. destruct (isPrimary ix); auto.
Qed.

Lemma pick_spec ix k m rows count : index_ok ix -> covered ix k -> find_downlink_get_keys ix k = Some m ->
  (k = KNone \/ k = KRightmost -> (0 < nUniqueFields ix)%nat) ->
  Forall mnn (cols m) -> 0 <= count ->
  (forall i, 0 <= i < count -> fixedkey (fields ix) (floats ix) (rows i)) ->
  (forall i j, 0 <= i -> i < j -> j < count -> rows i = rows j \/ klt (fields ix) (rows i) (rows j)) ->
  let '(lower, upper) := narrow (cols m) (fun i => row_of (rows i)) 0 count in
  let idx := if inclusive m then lower else upper in
  0 <= idx <= count /\ (forall i, 0 <= i < idx -> cmp_of ix k (rows i) >= tgt k) /\
  (forall i, idx <= i < count -> cmp_of ix k (rows i) < tgt k).
Proof.
  intros IO C E NZ MN CN FX SO.
  destruct (key_matches ix k m IO C E NZ) as (K1 & K2 & K3).
  assert (FOL : forall i, 0 <= i < count -> (length (cols m) <= length (row_of (rows i)))%nat /\ rnn (cols m) (row_of (rows i))).
  { intros i Hi. destruct k as [| |h t|kd b].
    1,2: cbn in E; injection E as <-; cbn [cols]; destruct IO as (O1 & O2 & O3 & O4); specialize (FX i Hi);
      assert (length (rows i) = length (fields ix)) as LR;
      [ clear - FX; revert FX; generalize (fields ix) (floats ix) (rows i); induction l as [|f fs IH]; intros [|x fl] [|v r]; cbn; try tauto;
        intros [_ H]; f_equal; eauto
      | split; [unfold row_of; rewrite repeat_length, map_length; lia|]; generalize (nUniqueFields ix) (row_of (rows i)); clear;
        induction n as [|n IH]; intros [|x r]; cbn; auto; split; [unfold nn; discriminate|auto] ].
    all: eapply fixed_rnn; [apply K2; congruence|auto]. }
  assert (SOR : forall i j, 0 <= i -> i < j -> j < count -> k <> KNone -> k <> KRightmost -> rle (cols m) (row_of (rows i)) (row_of (rows j))).
  { intros i j H1 H2 H3 N1 N2. destruct (SO i j H1 H2 H3) as [->|(_ & _ & H)]; [apply eq_rle|].
    eapply klt_rle; [apply K2; auto| | |exact H]; apply FX; lia. }
  assert (k = KNone \/ k = KRightmost \/ (k <> KNone /\ k <> KRightmost)) as [KN|[KR|[N1 N2]]].
  { destruct k; auto; right; right; split; discriminate. }
  - subst k. cbn in E. injection E as <-. cbn [cols inclusive].
    specialize (NZ (or_introl eq_refl)). destruct (nUniqueFields ix) as [|n]; [lia|]. cbn [repeat narrow m_flag].
    destruct (0 <? count) eqn:EC.
    + rewrite narrow_empty. cbn. split; [lia|]. split; [lia|]. intros; unfold tgt; cbn; lia.
    + cbn. split; [lia|]. split; lia.
  - subst k. cbn in E. injection E as <-. cbn [cols inclusive].
    specialize (NZ (or_intror eq_refl)). destruct (nUniqueFields ix) as [|n]; [lia|]. cbn [repeat narrow m_flag].
    destruct (0 <? count) eqn:EC.
    + rewrite narrow_empty. cbn. split; [lia|]. split; intros; unfold tgt; cbn; lia.
    + cbn. split; [lia|]. split; lia.
  - pose proof (narrow_spec (cols m) (fun i => row_of (rows i)) 0 count ltac:(lia) MN FOL) as NS.
    specialize (NS ltac:(intros; apply SOR; auto)). cbn zeta in NS.
    destruct (narrow (cols m) _ 0 count) as [l u]. cbn [fst snd] in NS. destruct NS as (S1 & S2 & S3 & S4 & S5).
    cbn zeta. rewrite K1. unfold tgt in *. destruct (general_kind k) eqn:EK.
    + split; [lia|]. split; intros i Hi; specialize (K3 (rows i) (FX i ltac:(lia))).
      * specialize (S3 i ltac:(lia)). lia.
      * destruct (Z.lt_ge_cases i u); [specialize (S4 i ltac:(lia))|specialize (S5 i ltac:(lia))]; lia.
    + split; [lia|]. split; intros i Hi; specialize (K3 (rows i) (FX i ltac:(lia))).
      * destruct (Z.lt_ge_cases i l); [specialize (S3 i ltac:(lia))|specialize (S4 i ltac:(lia))]; lia.
      * specialize (S5 i ltac:(lia)). lia.
Qed.

Lemma general_agrees ix k : index_ok ix -> covered ix k -> k <> KNone -> k <> KRightmost ->
  agrees (klt (fields ix)) (general_cmp ix k).
Proof.
  intros (O1 & O2 & O3 & O4) C N1 N2. destruct k as [| |h t|kd b]; try congruence.
  - destruct C as [C1 C2]. cbn [general_cmp].
    replace (if isPrimary ix then firstn (nUniqueFields ix) (fields ix) else fields ix) with (fields ix)
      by (destruct (isPrimary ix); auto; rewrite C2, firstn_all; auto).
    intros a b H G. eapply tuples_agree; eauto.
  - destruct C as (C1 & C2 & C3). intros x y H G. cbn [general_cmp] in *. eapply bounds_agree; eauto.
Qed.

(* The chunk found by the accelerated search is the one of the general search. *)
Theorem C25_chunk_partial : forall ix p fl k m c,
  index_ok ix -> page_ok ix p fl -> covered ix k -> key_not_nan ix k ->
  k <> KNone -> k <> KRightmost ->
  find_downlink_get_keys ix k = Some m -> fastpath_find_chunk p fl m = Some c ->
  c = btree_page_binary_search_chunks p (general_cmp ix k) (general_kind k).
Proof.
  intros ix p fl k m c IO PO C NN N1 N2 E F. unfold fastpath_find_chunk in F.
  destruct (hikeysFixed fl) eqn:HF; [|discriminate].
  set (count := if rightmost fl then chunksCount p - 1 else chunksCount p) in *.
  pose proof (l_cc p (po_layout _ _ _ PO)) as CC.
  assert (0 <= count <= chunksCount p) by (unfold count; destruct (rightmost fl); lia).
  unfold key_not_nan in NN. rewrite E in NN.
  pose proof (pick_spec ix k m (hikey p) count IO C E ltac:(intros [?|?]; congruence) NN ltac:(lia)
     (po_hk_fixed _ _ _ PO HF) (po_hikeys _ _ _ PO)) as P.
  destruct (narrow (cols m) _ 0 count) as [l u]. cbn zeta in P.
  set (idx := if inclusive m then l else u) in *. destruct (idx >=? count) eqn:EI; [discriminate|]. injection F as <-.
  destruct P as (P1 & P2 & P3).
  assert (CO : cmp_of ix k = general_cmp ix k) by (destruct k; auto; congruence). rewrite CO in *.
  unfold btree_page_binary_search_chunks. change (match general_kind k with KHiKey => 1 | KPlain => 0 end) with (tgt k).
  destruct (chunks_loop_spec (list val) p (po_layout _ _ _ PO) (general_cmp ix k) (tgt k)
     (hikey_mono _ p (general_cmp ix k) (klt (fields ix)) (po_sorted _ _ _ PO) (general_agrees ix k IO C N1 N2) (tgt k)
        ltac:(unfold tgt; destruct (general_kind k); auto))
     (Z.to_nat (chunksCount p)) 0 (chunksCount p - 1) ltac:(lia) ltac:(lia) ltac:(lia) ltac:(lia) ltac:(lia)) as (R1 & R2 & R3).
  cbn zeta in *. set (r := chunks_loop _ p _ _ _ _) in *.
  destruct (Z.lt_trichotomy idx r) as [H1|[H1|H1]]; auto; exfalso.
  - specialize (R2 idx ltac:(lia)). specialize (P3 idx ltac:(lia)). lia.
  - specialize (R3 r ltac:(lia)). specialize (P2 r ltac:(lia)). lia.
Qed.

Lemma designates_same (p : page (list val)) l pos c o :
  layout p -> designates p l pos -> 0 <= c < chunksCount p -> 0 <= o < chunk_items p c -> offset p c + o = pos ->
  l_chunk l = c /\ l_item l = o.
Proof.
  intros L (D1 & D2 & D3 & D4 & D5) HC HO E.
  assert (l_chunk l = c).
  { destruct (Z.lt_trichotomy (l_chunk l) c) as [H|[H|H]]; auto; exfalso.
    - pose proof (off_le _ p L (l_chunk l + 1) c ltac:(lia) ltac:(lia)).
      replace (l_chunk l + 1 <? chunksCount p) with true in D4 by lia. lia.
    - pose proof (off_le _ p L (c + 1) (l_chunk l) ltac:(lia) ltac:(lia)).
      unfold chunk_items in HO. replace (c <? chunksCount p - 1) with true in HO by lia. lia. }
  subst c. split; auto. lia.
Qed.

(* The child found by the accelerated search is the one of the general search,
   and the returned child header is that of the found position. *)
Theorem C25_downlink_partial : forall ix p fl k m c o h,
  index_ok ix -> (0 < nUniqueFields ix)%nat -> page_ok ix p fl -> covered ix k -> key_not_nan ix k -> leaf p = false ->
  find_downlink_get_keys ix k = Some m -> fastpath_find_downlink p fl m = Some (c, o, h) ->
  let l := page_find_downlink p (general_search ix k) in
  c = l_chunk l /\ o = l_item l /\ h = get_offset p l.
Proof.
  intros ix p fl k m c o h IO NU PO C NN LF E F. unfold fastpath_find_downlink in F.
  destruct (fastpath_find_chunk p fl m) as [ch|] eqn:EC; [|discriminate].
  destruct (chunkKeysFixed fl ch) eqn:CF; [|discriminate]. cbn [negb] in F.
  pose proof (po_layout _ _ _ PO) as L. pose proof (l_cc p L) as CC.
  assert (NN' : Forall mnn (cols m)) by (unfold key_not_nan in NN; rewrite E in NN; auto).
  (* bounds of the chunk and what is known of the chunks' high keys *)
  assert (0 <= ch < (if rightmost fl then chunksCount p - 1 else chunksCount p) /\
     (forall d, 0 <= d < ch -> cmp_of ix k (hikey p d) >= tgt k) /\ cmp_of ix k (hikey p ch) < tgt k) as (CB & CA & CZ).
  { unfold fastpath_find_chunk in EC. destruct (hikeysFixed fl) eqn:HF; [|discriminate].
    set (count := if rightmost fl then chunksCount p - 1 else chunksCount p) in *.
    assert (0 <= count <= chunksCount p) by (unfold count; destruct (rightmost fl); lia).
    pose proof (pick_spec ix k m (hikey p) count IO C E ltac:(auto) NN' ltac:(lia)
     (po_hk_fixed _ _ _ PO HF) (po_hikeys _ _ _ PO)) as P.
    destruct (narrow (cols m) _ 0 count) as [l u]. cbn zeta in P.
    set (idx := if inclusive m then l else u) in *. destruct (idx >=? count) eqn:EI; [discriminate|]. injection EC as <-.
    destruct P as (P1 & P2 & P3). split; [lia|]. split; [auto|]. apply P3. lia. }
  assert (CB' : 0 <= ch < chunksCount p) by (destruct (rightmost fl); lia).
  pose proof (po_dense _ _ _ PO ch CB') as DN.
  pose proof (off_ic _ p L ch CB') as OI. pose proof (cend_le _ p L ch CB') as CE.
  assert (CIE : offset p ch + chunk_items p ch = cend _ p ch).
  { unfold chunk_items, cend. replace (ch + 1 <? chunksCount p) with (ch <? chunksCount p - 1) by lia. destruct (ch <? chunksCount p - 1); lia. }
  set (first := if ch =? 0 then 1 else 0) in *.
  assert (F01 : first = 0 \/ first = 1) by (unfold first; destruct (ch =? 0); auto).
  assert (OP : ch <> 0 -> 0 < offset p ch).
  { intros H. pose proof (l_inner p L LF). pose proof (off_le _ p L 1 ch). lia. }
  assert (O0 : offset p 0 = 0) by (apply (l_first p L)).
  pose proof (pick_spec ix k m (fun i => item p (offset p ch + first + i)) (chunk_items p ch - first) IO C E ltac:(auto) NN' ltac:(lia)) as P.
  assert (first <= offset p ch + first /\ 1 <= offset p ch + first) as [_ LO].
  { split; [lia|]. destruct (Z.eq_dec ch 0) as [->|N]; [unfold first; cbn; lia|]. specialize (OP N). lia. }
  specialize (P ltac:(intros i Hi; apply (po_chunk_fixed _ _ _ PO ch CB' CF); rewrite ?LF; lia)).
  specialize (P ltac:(intros i j H1 H2 H3; right; apply (s_items _ _ (po_sorted _ _ _ PO)); rewrite ?LF; lia)).
  destruct (narrow (cols m) _ 0 (chunk_items p ch - first)) as [lo up]. cbn zeta in P.
  set (idx := if inclusive m then lo else up) in *. destruct P as (P1 & P2 & P3).
  (* the chosen child, as a position *)
  set (pos := offset p ch + first + idx - 1).
  assert (0 <= pos < itemsCount p) as PB by lia.
  assert (POS : (pos = 0 \/ cmp_of ix k (item p pos) >= tgt k) /\ (forall i, pos < i < itemsCount p -> cmp_of ix k (item p i) < tgt k)).
  { assert (HIK : forall a b, klt (fields ix) a b -> cmp_of ix k b >= 0 -> cmp_of ix k a > 0).
    { destruct k; cbn [cmp_of]; try (intros; lia); apply (general_agrees ix); auto; congruence. }
    assert (T : tgt k = 0 \/ tgt k = 1) by (unfold tgt; destruct (general_kind k); auto).
    split.
    - destruct (Z.eq_dec idx 0) as [I0|I0].
      + destruct (Z.eq_dec pos 0) as [P0|P0]; [left; auto|].
        assert (C0 : ch <> 0) by (intros ->; apply P0; unfold pos, first; rewrite O0, I0; reflexivity).
        right. assert (first = 0) by (unfold first; destruct (ch =? 0) eqn:?; lia).
        assert (LT : klt (fields ix) (item p pos) (hikey p (ch - 1))).
        { apply (s_hikey_above _ _ (po_sorted _ _ _ PO)); rewrite ?LF; try lia. replace (ch - 1 + 1) with ch by lia. lia. }
        pose proof (CA (ch - 1) ltac:(lia)) as G. pose proof (HIK _ _ LT ltac:(lia)). lia.
      + right. specialize (P2 (idx - 1) ltac:(lia)). replace (offset p ch + first + (idx - 1)) with pos in P2 by (unfold pos; lia). auto.
    - intros i Hi. destruct (Z.lt_ge_cases i (cend _ p ch)) as [G|G].
      + specialize (P3 (i - offset p ch - first) ltac:(lia)).
        replace (offset p ch + first + (i - offset p ch - first)) with i in P3 by lia. auto.
      + assert (ch + 1 < chunksCount p /\ offset p (ch + 1) <= i) as [Q1 Q2].
        { unfold cend in G. destruct (ch + 1 <? chunksCount p) eqn:EE; lia. }
        destruct (s_hikey_below _ _ (po_sorted _ _ _ PO) ch i ltac:(lia) ltac:(lia) ltac:(lia) ltac:(lia)) as [EE|EE].
        * rewrite <- EE. auto.
        * destruct (Z.lt_ge_cases (cmp_of ix k (item p i)) 0) as [?|G1]; [lia|].
          pose proof (HIK _ _ EE ltac:(lia)). lia. }

  assert (GEN : designates p (page_find_downlink p (general_search ix k)) pos).
  { assert (k = KNone \/ k = KRightmost \/ (k <> KNone /\ k <> KRightmost)) as [KN|[KR|[N1 N2]]].
    { destruct k; auto; right; right; split; discriminate. }
    - subst k. cbn [general_search]. destruct POS as [[->|G] _]; [|unfold tgt in G; cbn in G; lia].
      apply (C17_ends (list val) p L). lia.
    - subst k. unfold tgt in CZ; cbn in CZ. lia.
    - assert (CO : cmp_of ix k = general_cmp ix k) by (destruct k; auto; congruence).
      assert (GS : general_search ix k = SKey (general_cmp ix k) (general_kind k)) by (destruct k; auto; congruence).
      rewrite GS, CO in *.
      destruct (C17_downlink (list val) (klt (fields ix)) p (general_cmp ix k) (general_kind k) L (po_sorted _ _ _ PO)
         (general_agrees ix k IO C N1 N2) LF) as [D (G1 & G2 & G3)]. cbn zeta in *.
      set (l := page_find_downlink p _) in *. set (q := get_offset p l) in *.
      assert (OK : forall x, (match general_kind k with KPlain => general_cmp ix k x >= 0 | KHiKey => general_cmp ix k x > 0 end) <-> general_cmp ix k x >= tgt k).
      { intros x. unfold tgt. destruct (general_kind k); lia. }
      destruct POS as [POS1 POS2].
      assert (q = pos) as <-; auto.
      destruct (Z.lt_trichotomy q pos) as [H|[H|H]]; auto; exfalso.
      + apply (G3 pos ltac:(lia)). apply OK. destruct POS1; [lia|auto].
      + specialize (POS2 q ltac:(lia)). destruct G2 as [G2|G2]; [lia|]. apply OK in G2. lia. }
  assert (GO : get_offset p (page_find_downlink p (general_search ix k)) = pos).
  { destruct GEN as (_ & _ & _ & _ & D). exact D. }
  cbn zeta. rewrite GO. unfold pos in *. subst first.
  destruct (ch =? 0) eqn:E0.
  - assert (ch = 0) by lia. subst ch. injection F as <- <- <-.
    destruct (designates_same p _ _ 0 idx L GEN ltac:(lia) ltac:(lia) ltac:(lia)) as [-> ->].
    split; [auto|]. split; [auto|]. destruct (idx =? 0) eqn:EE; lia.
  - destruct (idx >? 0) eqn:EI.
    + injection F as <- <- <-.
      destruct (designates_same p _ _ ch (idx - 1) L GEN ltac:(lia) ltac:(lia) ltac:(lia)) as [-> ->]. lia.
    + destruct (chunkKeysFixed fl (ch - 1)); cbn [negb] in F; [|discriminate]. injection F as <- <- <-.
      pose proof (po_dense _ _ _ PO (ch - 1) ltac:(lia)) as DN'.
      assert (CI' : offset p (ch - 1) + chunk_items p (ch - 1) = offset p ch).
      { unfold chunk_items. replace (ch - 1 <? chunksCount p - 1) with true by lia. replace (ch - 1 + 1) with ch by lia. lia. }
      destruct (designates_same p _ _ (ch - 1) (chunk_items p (ch - 1) - 1) L GEN ltac:(lia) ltac:(lia) ltac:(lia)) as [-> ->].
      split; [auto|]. split; [auto|].
      destruct (ch - 1 =? 0) eqn:E1; cbn [andb].
      * destruct (chunk_items p (ch - 1) - 1 =? 0) eqn:E2; lia.
      * lia.
Qed.

(* ---- the hypotheses are met ---- *)

(* An inner page with three chunks of two children each over a descending and
   an ascending column; all keys are fixed-width. *)
Definition fx_ix : index := mkIdx [mkF false false; mkF true false] [false; true] [23; 701] 2 true.
Definition fx_key (z : Z) : list val := [Some (- (z / 4)); Some (z mod 4)].
Definition fx_page : page (list val) :=
  mkPage false 6 3 (fun c => 2 * c) (fun c => fx_key (4 * c + 4)) (fun i => fx_key (2 * i)).
Definition fx_fl : pflags := mkFl false true (fun _ => true).

Lemma fx_klt a b : a < b -> klt (fields fx_ix) (fx_key a) (fx_key b).
Proof.
  intros H. unfold klt, fx_key; cbn. split; [reflexivity|]. split; [reflexivity|].
  pose proof (Z.div_mod a 4 ltac:(lia)). pose proof (Z.div_mod b 4 ltac:(lia)).
  pose proof (Z.mod_pos_bound a 4 ltac:(lia)). pose proof (Z.mod_pos_bound b 4 ltac:(lia)).
  destruct (Z.eq_dec (a / 4) (b / 4)) as [E|N].
  - right. split; [rewrite E; reflexivity|]. left. unfold plt; cbn. lia.
  - left. unfold plt; cbn. lia.
Qed.
Lemma fx_fixed z : fixedkey (fields fx_ix) (floats fx_ix) (fx_key z).
Proof.
  cbn. split; [eexists; split; [reflexivity|unfold nn; discriminate]|].
  split; [|exact Logic.I]. eexists; split; [reflexivity|]. intros _. pose proof (Z.mod_pos_bound z 4 ltac:(lia)). unfold NaN. lia.
Qed.
Lemma fx_page_ok : page_ok fx_ix fx_page fx_fl.
Proof.
  constructor.
  - constructor; cbn [fx_page leaf itemsCount chunksCount offset]; lia.
  - constructor; cbn [fx_page leaf itemsCount chunksCount offset hikey item]; intros.
    + apply fx_klt; lia.
    + apply fx_klt; lia.
    + destruct (Z.eq_dec (4 * c + 4) (2 * i)) as [->|N]; [left; reflexivity|right; apply fx_klt; lia].
    + right; apply fx_klt; lia.
  - cbn [fx_page fx_fl rightmost chunksCount hikey]. intros. right; apply fx_klt; lia.
  - intros _ c _. apply fx_fixed.
  - intros. apply fx_fixed.
  - intros c Hc. cbn in Hc. unfold chunk_items. cbn [fx_page chunksCount offset itemsCount]. destruct (c <? 3 - 1) eqn:E; lia.
Qed.
Lemma fx_index_ok : index_ok fx_ix.
Proof. repeat split; cbn; auto. Qed.

Definition fx_fast (k : skey) : option (Z * Z * Z) :=
  match find_downlink_get_keys fx_ix k with Some m => fastpath_find_downlink fx_page fx_fl m | None => None end.
(* a tuple, a high key, and the lower bound (col1 <= -1, col2 unbounded) *)
Definition fx_bound : list vbound := [mkB (-1) 23 false false true false true; mkB 0 701 false true true false true].
Example C25_example :
  index_ok fx_ix /\ page_ok fx_ix fx_page fx_fl /\
  (forall z, covered fx_ix (KTuple false (fx_key z)) /\ covered fx_ix (KTuple true (fx_key z))) /\
  covered fx_ix (KB KBound fx_bound) /\ key_not_nan fx_ix (KB KBound fx_bound) /\
  map (fun z => fx_fast (KTuple false (fx_key z))) [0; 2; 3; 4; 11] =
    [Some (0, 0, 0); Some (0, 1, 1); Some (0, 1, 1); Some (1, 0, 2); Some (2, 1, 5)] /\
  fx_fast (KTuple true (fx_key 4)) = Some (0, 1, 1) /\ fx_fast (KTuple true (fx_key 8)) = Some (1, 1, 3) /\
  fx_fast (KB KBound fx_bound) = Some (0, 1, 1) /\
  fx_fast KNone = Some (0, 0, 0) /\ fx_fast (KTuple false (fx_key 12)) = None.
Proof.
  split; [exact fx_index_ok|]. split; [exact fx_page_ok|]. split; [intros; repeat split|].
  split. { cbn. repeat split; repeat constructor. }
  split. { cbn. repeat constructor; unfold mnn, nn; cbn; intros; discriminate. }
  vm_compute. repeat split.
Qed.

(* ---- where the accelerated search selects another child ---- *)

(* One ascending column; the children start at -inf, k1 and k2; the page ends at k3. *)
Definition rf_page (k1 k2 k3 : list val) : page (list val) :=
  mkPage false 3 1 (fun _ => 0) (fun _ => k3) (fun i => if i =? 0 then [] else if i =? 1 then k1 else k2).
Definition child_fast (ix : index) (p : page (list val)) (k : skey) : option Z :=
  match find_downlink_get_keys ix k with
  | Some m => match fastpath_find_downlink p fx_fl m with Some (c, o, h) => Some (offset p c + o) | None => None end
  | None => None
  end.
Definition child_general (ix : index) (p : page (list val)) (k : skey) : Z :=
  get_offset p (page_find_downlink p (general_search ix k)).

(* (a) A float column, not the first, holding a NaN, which sorts after every
   number: for (1, 5) between (1, 0) and (1, NaN) the accelerated search goes
   to the child starting at (1, NaN). *)
Theorem C25_refuted_nan : exists ix p key,
  layout p /\ sorted (klt (fields ix)) p /\ In NaN (map raw (item p 2)) /\
  child_fast ix p (KTuple false key) = Some 2 /\ child_general ix p (KTuple false key) = 1 /\
  key_lt (fields ix) key (item p 2).
Proof.
  exists (mkIdx [mkF true false; mkF true false] [false; true] [23; 701] 2 true),
    (rf_page [Some 1; Some 0] [Some 1; Some NaN] [Some 2; Some 0]), [Some 1; Some 5].
  split; [constructor; cbn; lia|].
  split.
  { constructor; cbn [rf_page leaf itemsCount chunksCount offset hikey item]; intros; try lia.
    assert (i = 1 /\ j = 2) as [-> ->] by lia. cbn. repeat split. right; split; [reflexivity|]. left. unfold plt, NaN; cbn; lia. }
  split; [cbn; auto|]. split; [vm_compute; reflexivity|]. split; [vm_compute; reflexivity|].
  cbn. right; split; [reflexivity|]. left. unfold plt, NaN; cbn; lia.
Qed.

(* (b) A secondary unique index on (a), whose keys end with the primary key.
   The bound a >= 5 (also used for a = 5): with entries (5,1) in the child
   starting at (3,0) and (5,2) in the next, the accelerated search starts at
   the latter, past (5,1). *)
Definition sec_ix : index := mkIdx [mkF true false; mkF true false] [false; false] [23; 23] 1 false.
Theorem C25_refuted_unique_prefix : exists p b row,
  layout p /\ sorted (klt (fields sec_ix)) p /\
  above (fields sec_ix) (map plain b) row /\ key_lt (fields sec_ix) row (item p 2) /\
  child_fast sec_ix p (KB KBound b) = Some 2 /\ child_general sec_ix p (KB KBound b) = 1.
Proof.
  exists (rf_page [Some 3; Some 0] [Some 5; Some 2] [Some 9; Some 9]),
    [mkB 5 23 false false true false true; mkB 0 23 false true true false true], [Some 5; Some 1].
  split; [constructor; cbn; lia|].
  split.
  { constructor; cbn [rf_page leaf itemsCount chunksCount offset hikey item]; intros; try lia.
    assert (i = 1 /\ j = 2) as [-> ->] by lia. cbn. repeat split. left. unfold plt, NaN; cbn; lia. }
  split; [cbn; right; repeat split|]. split; [cbn; right; split; [reflexivity|left; unfold plt, NaN; cbn; lia]|].
  split; vm_compute; reflexivity.
Qed.

(* (c) An upper bound that excludes its value: a < 5 ends before 5, the
   accelerated search goes to the child starting at 5. *)
Definition one_ix : index := mkIdx [mkF true false] [false] [23] 1 true.
Theorem C25_refuted_upper_exclusive : exists p b,
  layout p /\ sorted (klt (fields one_ix)) p /\
  child_fast one_ix p (KB KBound b) = Some 2 /\ child_general one_ix p (KB KBound b) = 1.
Proof.
  exists (rf_page [Some 3] [Some 5] [Some 9]), [mkB 5 23 false false false true false].
  split; [constructor; cbn; lia|].
  split.
  { constructor; cbn [rf_page leaf itemsCount chunksCount offset hikey item]; intros; try lia.
    assert (i = 1 /\ j = 2) as [-> ->] by lia. cbn. repeat split. left. unfold plt, NaN; cbn; lia. }
  split; vm_compute; reflexivity.
Qed.

(* (d) A descending column after an equality: (a = 5, b unbounded below) with
   b descending; the accelerated search goes past all entries with a = 5. *)
Definition desc_ix : index := mkIdx [mkF true false; mkF false false] [false; false] [23; 23] 2 true.
Theorem C25_refuted_descending : exists p b row,
  layout p /\ sorted (klt (fields desc_ix)) p /\
  above (fields desc_ix) (map plain b) row /\ key_lt (fields desc_ix) row (item p 2) /\
  child_fast desc_ix p (KB KBound b) = Some 2 /\ child_general desc_ix p (KB KBound b) = 1.
Proof.
  exists (rf_page [Some 3; Some 0] [Some 5; Some 2] [Some 9; Some 9]),
    [mkB 5 23 false false true false true; mkB 0 23 false true true false true], [Some 5; Some 7].
  split; [constructor; cbn; lia|].
  split.
  { constructor; cbn [rf_page leaf itemsCount chunksCount offset hikey item]; intros; try lia.
    assert (i = 1 /\ j = 2) as [-> ->] by lia. cbn. repeat split. left. unfold plt, NaN; cbn; lia. }
  split; [cbn; right; repeat split|]. split; [cbn; right; split; [reflexivity|left; unfold plt, NaN; cbn; lia]|].
  split; vm_compute; reflexivity.
Qed.

Print Assumptions C25_chunk_partial.
Print Assumptions C25_downlink_partial.
Print Assumptions C25_refuted_nan.
Print Assumptions C25_refuted_unique_prefix.
Print Assumptions C25_refuted_upper_exclusive.
Print Assumptions C25_refuted_descending.
