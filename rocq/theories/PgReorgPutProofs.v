(** Proofs for C18: the chunks and keys of a page written anew. *)
From Coq Require Import ZArith List Bool Lia ZifyBool.
From Verif Require Import Base PgChunkModel PgChunkSpec PgChunkProofs PgChunkOpProofs PgReorgModel PgReorgSpec PgReorgProofs.
Import ListNotations.
Open Scope Z_scope.

Lemma bytes_rread : forall m r, bytes (rread m r) = rsize r.
Proof. intros m [f [s n|ws]]; unfold bytes, rread, rsize, rwords; cbn [snd]; rewrite ?rw_len; reflexivity. Qed.
Lemma total_map : forall m c, total (map (rread m) c) = rtotal c.
Proof. induction c; [reflexivity|]. cbn [map]. rewrite total_cons, rtotal_cons, IHc, bytes_rread. reflexivity. Qed.
Lemma count_map : forall m c, count (map (rread m) c) = len c.
Proof. intros. unfold count. rewrite map_length. reflexivity. Qed.
Lemma fine_ok : forall m r, fine r -> ok_item (rread m r).
Proof. intros m r F. unfold ok_item. rewrite bytes_rread. exact F. Qed.
Lemma fines_ok : forall m c, Forall fine c -> Forall ok_item (map (rread m) c).
Proof. induction 1; constructor; auto. apply fine_ok; auto. Qed.

Lemma dests_len : forall c a, length (dests a c) = length c.
Proof. induction c; intros; cbn; auto. Qed.
Lemma dests_snd : forall c a, map snd (dests a c) = c.
Proof. induction c; intros; cbn [dests map snd]; [reflexivity|]. rewrite IHc. reflexivity. Qed.
Lemma arr_words_len : forall c o, length (arr_words o c) = length c.
Proof. induction c; intros; cbn; auto. Qed.
Lemma arr_words_nth : forall X r Y o, nth (length X) (arr_words o (X ++ r :: Y)) 0 = w16 (with_flags (o + rtotal X) (fst r)).
Proof.
  induction X; intros; cbn [app arr_words length nth].
  - cbn [rtotal fold_right]. rewrite Z.add_0_r. reflexivity.
  - rewrite IHX, rtotal_cons. do 2 f_equal. lia.
Qed.
Lemma copy_out : forall a ws m x, x < a \/ a + 2 * len ws <= x -> copy_in a ws m x = m x.
Proof. intros. unfold copy_in. replace ((a <=? x) && (x <? a + 2 * len ws)) with false by lia. reflexivity. Qed.

Lemma put_chunk_ok : forall m0 c R m loc, let o := arr_sz (len c) in
  asc (loc + o + rtotal c) R -> ready m0 m (dests (loc + o) c ++ R) -> Forall fine c -> o + rtotal c < 16384 ->
  chunk_at (put_chunk loc (dests (loc + o) c) m) loc (map (rread m0) c) /\
  (forall a, a < loc \/ loc + o + rtotal c <= a -> put_chunk loc (dests (loc + o) c) m a = m a).
Proof.
  intros m0 c R m loc o A RD F B. unfold put_chunk. rewrite dests_len, dests_snd. fold o.
  pose proof (arr_facts (len c) ltac:(lia)) as AF. fold o in AF.
  set (m1 := copy_in loc (arr_words o c) m).
  assert (F1 : forall a, a < loc \/ loc + o <= a -> m1 a = m a).
  { intros a H. apply copy_out. rewrite arr_words_len. lia. }
  assert (RD1 : ready m0 m1 (dests (loc + o) c ++ R)).
  { apply (ready_ext m0 m m1 _ (loc + o)).
    - apply asc_dests. exact A.
    - exact RD.
    - intros a H. apply F1. lia. }
  destruct (put_items m0 c R m1 (loc + o) A RD1) as [I1 I2]. pose proof (rtotal_nn c).
  split; [|intros a H1; rewrite I2 by lia; apply F1; lia].
  intros X x Y E. apply map_eq_app in E. destruct E as (c1 & c2 & EC & E1 & E2).
  destruct c2 as [|r c2]; [discriminate|]. cbn [map] in E2. injection E2; intros EY EX. subst x X Y.
  rewrite !count_map, total_map. change array with arr_sz. fold o. split.
  - rewrite I2 by (rewrite EC, zl_app, zl_cons in AF; lia).
    unfold m1. rewrite (words_in m loc (arr_words o c) (len c1)) by (rewrite arr_words_len, EC, zl_app, zl_cons; lia).
    rewrite Nat2Z.id, EC, arr_words_nth. rewrite EC in F. apply Forall_app in F. destruct F as [_ F]. inversion F; subst.
    destruct H2 as [FL _]. rewrite with_flags_ok; auto.
    rewrite rtotal_app, rtotal_cons in B. pose proof (rtotal_nn c1). pose proof (rtotal_nn c2). pose proof (rsize_nn r). lia.
  - apply (I1 _ _ _ EC).
Qed.

Section Put.
Variables (m0 : mem) (mk : item -> item) (E : Z).
Definition kof (c : list ritem) : item := match c with r :: _ => mk (rread m0 r) | [] => (0, []) end.
Definition kk (cs : list (list ritem)) : Z := fold_right (fun c s => bytes (kof c) + s) 0 cs.

Lemma kk_nn : forall cs, 0 <= kk cs.
Proof. induction cs; cbn [kk fold_right]; [lia|]. fold (kk cs). pose proof (bytes_nn (kof a)). lia. Qed.
Lemma kk_cons : forall c t, kk (c :: t) = bytes (kof c) + kk t.
Proof. reflexivity. Qed.

Lemma asc_layout : forall cs a, asc a (flat_map snd (layout a cs)).
Proof.
  induction cs as [|c cs IH]; intros a; cbn [layout flat_map snd]; [exact I|].
  pose proof (arr_facts (len c) ltac:(lia)). apply asc_le with (lo := a + arr_sz (len c)); [|lia].
  apply asc_dests. apply IH.
Qed.

Lemma put_chunks_ok : forall cs m hp loc m' hp' ks,
  put_chunks mk false (layout loc cs) m hp = (m', hp', ks) ->
  ready m0 m (flat_map snd (layout loc cs)) -> Forall (fun c => c <> [] /\ Forall fine c) cs ->
  loc + cdata cs <= 8192 -> E <= loc -> 0 <= E -> hp + kk cs <= E ->
  hp' = hp + kk cs /\
  (forall A c C, cs = A ++ c :: C -> chunk_at m' (loc + cdata A) (map (rread m0) c) /\
     words m' (hp + kk A) (snd (kof c)) /\ nth_error ks (length A) = Some (hp + kk A, fst (kof c))) /\
  length ks = length cs /\
  (forall a, a < hp \/ hp' <= a -> a < loc \/ loc + cdata cs <= a -> m' a = m a).
Proof.
  induction cs as [|c t IH]; intros m hp loc m' hp' ks P RD F B L E0 HP.
  - cbn in P. injection P; intros; subst. cbn [kk fold_right]. split; [lia|]. split; [intros A c C Q; destruct A; discriminate|]. auto.
  - cbn [layout put_chunks] in P. cbn [layout flat_map snd] in RD. inversion F as [|? ? [NE FC] FT]; subst. clear F.
    rewrite cdata_cons in *. rewrite kk_cons in *.
    set (o := arr_sz (len c)) in *. set (m1 := put_chunk loc (dests (loc + o) c) m) in *.
    pose proof (arr_facts (len c) ltac:(lia)) as AF. fold o in AF. pose proof (rtotal_nn c). pose proof (cdata_nn t).
    pose proof (kk_nn t). pose proof (bytes_nn (kof c)).
    destruct (put_chunk_ok m0 c (flat_map snd (layout (loc + o + rtotal c) t)) m loc (asc_layout _ _) RD FC ltac:(fold o; lia)) as [CA FR].
    fold o m1 in CA, FR.
    destruct c as [|r c]; [congruence|].
    destruct (CA [] (rread m0 r) (map (rread m0) c) eq_refl) as [W1 W2].
    rewrite count_map in W1, W2. change array with arr_sz in W1, W2. fold o in W1, W2. cbn [count total fold_right length Z.of_nat] in W1, W2.
    replace (loc + 2 * 0) with loc in W1 by lia.
    inversion FC as [|? ? [FL _] _]; subst.
    assert (KE : first_key mk loc (dests (loc + o) (r :: c)) m1 = kof (r :: c)).
    { unfold first_key. rewrite W1. cbn [dests snd kof]. f_equal.
      destruct (off_flags (fst (rread m0 r)) (o + 0) FL ltac:(lia)) as [-> ->].
      replace (loc + (o + 0)) with (loc + o + 0) by lia.
      replace (rwords r) with (length (snd (rread m0 r))).
      - rewrite (read_words_eq _ _ _ W2). destruct (rread m0 r); reflexivity.
      - pose proof (bytes_rread m0 r) as Q. unfold bytes, rsize in Q. lia. }
    rewrite KE in P.
    destruct (put_chunks mk false (layout (loc + o + rtotal (r :: c)) t) (copy_in hp (snd (kof (r :: c))) m1)
                (hp + 2 * len (snd (kof (r :: c))))) as [[m2 hp2] ks2] eqn:P2.
    injection P; intros; subst m' hp' ks. clear P.
    set (kb := bytes (kof (r :: c))) in *. assert (KB : 2 * len (snd (kof (r :: c))) = kb) by reflexivity. rewrite KB in P2.
    set (mm := copy_in hp (snd (kof (r :: c))) m1) in *.
    assert (FK : forall a, a < hp \/ hp + kb <= a -> mm a = m1 a) by (intros a Ha; apply copy_out; rewrite KB; exact Ha).
    assert (RD2 : ready m0 mm (flat_map snd (layout (loc + o + rtotal (r :: c)) t))).
    { apply (ready_ext m0 m mm _ (loc + o + rtotal (r :: c))).
      - apply asc_layout.
      - intros d f s n I. apply (RD d f s n). apply in_or_app. right. exact I.
      - intros a Ha. rewrite FK by lia. apply FR. lia. }
    destruct (IH mm (hp + kb) (loc + o + rtotal (r :: c)) m2 hp2 ks2 P2 RD2 FT ltac:(lia) ltac:(lia) E0 ltac:(lia)) as (HQ & ALL & LN & FR2).
    split; [lia|]. split; [|split; [cbn [length]; rewrite LN; reflexivity|]].
    + intros A c' C EA. destruct A as [|a0 A]; cbn in EA; injection EA; intros; subst.
      * cbn [cdata kk fold_right length nth_error]. rewrite !Z.add_0_r. split; [|split; [|reflexivity]].
        -- eapply chunk_ext; [apply fines_ok; exact FC|exact CA|]. rewrite count_map, total_map. change array with arr_sz. fold o.
           intros a Ha. rewrite FR2 by lia. apply FK. lia.
        -- eapply words_ext; [apply words_in|]. rewrite KB. intros a Ha. apply FR2; lia.
      * rewrite cdata_cons, kk_cons. fold o kb. destruct (ALL _ _ _ eq_refl) as (Q1 & Q2 & Q3).
        cbn [length nth_error]. rewrite Q3.
        replace (loc + (o + rtotal (r :: c) + cdata A)) with (loc + o + rtotal (r :: c) + cdata A) by lia.
        replace (hp + (kb + kk A)) with (hp + kb + kk A) by lia. auto.
    + intros a H3 H4. rewrite FR2 by lia. rewrite FK by lia. apply FR. lia.
Qed.
End Put.
