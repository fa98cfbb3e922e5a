(** C21: a tree built from a sorted stream holds exactly the stream, its
    downlinks route every key to the page that holds it, and every page fits
    its block. *)
From Coq Require Import ZArith List Bool Lia Sorted ZifyBool.
From Verif Require Import Base BuildModel BuildSpec BuildProofs.
Import ListNotations.
Open Scope Z_scope.

Lemma build_runs : forall f ts, 40 <= f <= 100 -> Forall legal ts ->
  exists st st', put_all f [mkLev [] None] ts = Some st /\ close_all f st = Some st' /\ st <> [] /\ st' <> []
    /\ szinv (length st - 1) st' /\ flats st' = ts
    /\ build f ts = Some ((length st - 1 + (length st' - 1))%nat, l_items (last st' (mkLev [] None))).
Proof.
  intros f ts F L. destruct (put_all_sized f F ts _ szinv_start L ltac:(discriminate)) as [st [E [V N]]].
  destruct (closing_sized f F (length st - 1) st O) as [st' [E' [V' N']]]; auto.
  { destruct st; [congruence|cbn; lia]. }
  exists st, st'. cbn [Nat.add] in V'. repeat split; auto.
  - rewrite (closing_flats _ _ _ _ _ E'), (put_all_flats _ _ _ _ E). reflexivity.
  - unfold build. rewrite E. unfold close_all. rewrite E'. reflexivity.
Qed.

(** The build never fails (for fillfactors of 40 and up), and when the closing
    loop does not split the top page, the tree holds exactly the stream. *)
Theorem C21_contents_partial : forall f ts, 40 <= f <= 100 -> Forall legal ts -> top_page_kept f ts ->
  exists lvl root, build f ts = Some (lvl, root) /\ contents root = ts.
Proof.
  intros f ts F L K. destruct (build_runs f ts F L) as [st [st' [E [E' [N [N' [V [FL B]]]]]]]].
  eexists _, _. split; [exact B|]. pose proof (K st st' E E') as K1. destruct st' as [|p [|q up]]; try discriminate.
  cbn in FL |- *. exact FL.
Qed.

(** Whatever happens at closing, nothing is reordered, repeated or invented:
    the tree holds a prefix of the stream. *)
Theorem C21_prefix : forall f ts, 40 <= f <= 100 -> Forall legal ts ->
  exists lvl root rest, build f ts = Some (lvl, root) /\ ts = contents root ++ rest.
Proof.
  intros f ts F L. destruct (build_runs f ts F L) as [st [st' [E [E' [N [N' [V [FL B]]]]]]]].
  destruct (flats_last st' (mkLev [] None) N') as [rest R]. eexists _, _, rest. split; [exact B|]. rewrite <- R. auto.
Qed.

(** The separators. *)
Theorem C21_separators_partial : forall f ts, 40 <= f <= 100 -> Forall legal ts -> ascending ts -> top_page_kept f ts ->
  exists lvl root, build f ts = Some (lvl, root) /\ routed lvl true None None root.
Proof.
  intros f ts F L A K. destruct (build_runs f ts F L) as [st [st' [E [E' [N [N' [V [FL B]]]]]]]].
  eexists _, _. split; [exact B|]. pose proof (K st st' E E') as K1.
  assert (S0 : sinv O [mkLev [] None] None).
  { cbn. repeat split; auto. change (@nil item) with (map ILeaf []). constructor; constructor. }
  assert (V1 : sinv O st None).
  { apply (put_all_routed f ts [] [mkLev [] None] st); [exact A|reflexivity|exact S0| |discriminate|exact E].
    intros p up Ep Kp. injection Ep as <- <-. exfalso; apply Kp; reflexivity. }
  apply closing_routed with (1 := V1) in E'. cbn [Nat.add] in E'.
  destruct st' as [|p [|q up]]; try discriminate. cbn [length] in *. replace (length st - 1 + (1 - 1))%nat with (length st - 1)%nat by lia.
  destruct E' as [R [Hlo _]]. cbn in Hlo. cbn [last]. rewrite Hlo in R. exact R.
Qed.

(** Every page, at every level, fits its block together with its high key. *)
Theorem C21_page_sizes : forall f ts, 40 <= f <= 100 -> Forall legal ts ->
  exists lvl root, build f ts = Some (lvl, root) /\ page_sized lvl root.
Proof.
  intros f ts F L. destruct (build_runs f ts F L) as [st [st' [E [E' [N [N' [V [FL B]]]]]]]].
  eexists _, _. split; [exact B|]. destruct (szinv_last st' _ (mkLev [] None) N' V) as [V1 [V2 [V3 _]]].
  split; auto. rewrite reorg_none. exact V2.
Qed.

Definition big (n : nat) : list tup := map (fun i => mkT (Z.of_nat i) 0 2688 2688) (seq 1 n).
Lemma big_legal : forall n, Forall legal (big n).
Proof. intros n; unfold big. rewrite Forall_forall; intros t Ht. rewrite in_map_iff in Ht. destruct Ht as [i [<- _]]. unfold legal, MAXTUP; cbn. lia. Qed.

Lemma seq_keys : forall n a, StronglySorted Z.lt (map Z.of_nat (seq a n)).
Proof.
  induction n; intros a; cbn; constructor; auto. rewrite Forall_forall; intros x Hx. rewrite in_map_iff in Hx.
  destruct Hx as [i [<- Hi]]. apply in_seq in Hi. lia.
Qed.
Lemma big_ascending : forall n, ascending (big n).
Proof. intros n; unfold ascending, big. rewrite map_map. cbn. apply seq_keys. Qed.

(** Refuted in general: seven rows with keys of the largest size, at the
    default fillfactor.  The downlink put by the closing loop splits the top
    page; the right half is neither written nor linked and its row is gone. *)
Theorem C21_top_split_loses_rows_refuted :
  ascending (big 7) /\ Forall legal (big 7) /\ ~ top_page_kept 90 (big 7) /\
  exists lvl root, build 90 (big 7) = Some (lvl, root) /\ length (contents root) = 6%nat.
Proof.
  split; [apply big_ascending|]. split; [apply big_legal|]. split.
  - intros K. 
    assert (E : exists st st', put_all 90 [mkLev [] None] (big 7) = Some st /\ close_all 90 st = Some st' /\ length st' = 2%nat).
    { eexists _, _. split; [vm_compute; reflexivity|]. split; vm_compute; reflexivity. }
    destruct E as [st [st' [E1 [E2 E3]]]]. rewrite (K st st' E1 E2) in E3. discriminate.
  - eexists _, _. split; vm_compute; reflexivity.
Qed.

(** Refuted for low fillfactors: a 600-byte row does not go into an empty page
    at fillfactor 10, and a page with no row has no split location. *)
Theorem C21_low_fillfactor_refuted : legal (mkT 1 0 600 8) /\ build 10 [mkT 1 0 600 8] = None.
Proof. split; [unfold legal, MAXTUP; cbn; lia|vm_compute; reflexivity]. Qed.

(** Refuted for low fillfactors: with 300-byte keys every page holds one item,
    so each row adds levels; 40 rows pass the depth the stack array has room
    for (ORIOLEDB_MAX_DEPTH, 32). *)
Theorem C21_depth_refuted :
  let ts := map (fun i => mkT (Z.of_nat i) 0 304 300) (seq 1 40) in
  ascending ts /\ Forall legal ts /\ exists st, put_all 10 [mkLev [] None] ts = Some st /\ (32 < length st)%nat.
Proof.
  split; [unfold ascending; rewrite map_map; cbn; apply (seq_keys 40 1)|]. split.
  - rewrite Forall_forall; intros t Ht. rewrite in_map_iff in Ht. destruct Ht as [i [<- _]]. unfold legal, MAXTUP; cbn. lia.
  - eexists. split; [vm_compute; reflexivity|]. vm_compute. lia.
Qed.

(** The hypotheses are met by a three-level tree. *)
Example C21_hypotheses_met : 40 <= 90 <= 100 /\ Forall legal (big 18) /\ ascending (big 18) /\ top_page_kept 90 (big 18)
  /\ exists root, build 90 (big 18) = Some (2%nat, root).
Proof.
  split; [lia|]. split; [apply big_legal|]. split; [apply big_ascending|]. split.
  - intros st st' E1 E2.
    assert (Q : match put_all 90 [mkLev [] None] (big 18) with Some s => match close_all 90 s with Some s' => length s' | None => O end | None => O end = 1%nat) by (vm_compute; reflexivity).
    rewrite E1, E2 in Q. exact Q.
  - eexists; vm_compute; reflexivity.
Qed.

Print Assumptions C21_contents_partial.
Print Assumptions C21_prefix.
Print Assumptions C21_separators_partial.
Print Assumptions C21_page_sizes.
Print Assumptions C21_top_split_loses_rows_refuted.
Print Assumptions C21_low_fillfactor_refuted.
Print Assumptions C21_depth_refuted.
