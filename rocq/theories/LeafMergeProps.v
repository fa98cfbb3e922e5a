(** C54: the rows a sequential scan returns for one leaf. *)
From Coq Require Import ZArith List Bool Lia ZifyBool ZifyNat.
From Verif Require Import LeafMergeModel.
Import ListNotations.
Open Scope Z_scope.

(** Specification. *)

(** Strictly ascending, from [lo] on. *)
Fixpoint asc (lo : Z) (l : list Z) : Prop :=
  match l with [] => True | k :: t => lo <= k /\ asc (k + 1) t end.

Definition below (hi : option Z) (k : Z) : Prop :=
  match hi with None => True | Some h => k < h end.

Definition hist (pages : list hpage) : list (Z * option Z) := flat_map h_items pages.

(** The pages follow each other: what comes after a page lies at or above
    its high key, and they go on up to the high key of the leaf. *)
Fixpoint follow (lhi chi : option Z) (rest : list hpage) : Prop :=
  match chi with
  | None => rest = []
  | Some hh =>
      (forall x, In x (hist rest) -> hh <= fst x) /\
      match rest with
      | [] => exists lh, lhi = Some lh /\ lh <= hh
      | p :: r => follow lhi (h_hi p) r
      end
  end.

(** Row [v] with key [k] is due: the version in the leaf if it is our own
    or if the historical pages do not have the key; otherwise the version in
    the historical pages, inside the bounds of the leaf. *)
Definition due (lhi : option Z) (live : list litem) (hs : list (Z * option Z)) (k v : Z) : Prop :=
  (exists l, In l live /\ l_key l = k /\ l_row l = Some v /\
             (l_own l = true \/ ~ exists w, In (k, w) hs)) \/
  (In (k, Some v) hs /\ below lhi k /\ ~ exists l, In l live /\ l_key l = k /\ l_own l = true).

(** Proofs. *)

Lemma asc_ge : forall l lo k, asc lo l -> In k l -> lo <= k.
Proof.
  induction l as [|x t IH]; intros lo k A I; cbn in *; [contradiction|].
  destruct A as [A1 A2]. destruct I as [->|I]; [lia|]. specialize (IH _ _ A2 I). lia.
Qed.

Lemma asc_weak : forall l lo lo', asc lo l -> lo' <= lo -> asc lo' l.
Proof. intros [|x t] lo lo' A L; cbn in *; auto. destruct A. split; [lia|auto]. Qed.

Lemma asc_app_l : forall a b lo, asc lo (a ++ b) -> asc lo a.
Proof.
  induction a as [|x t IH]; intros b lo A; cbn in *; auto. destruct A as [A1 A2]. split; eauto.
Qed.

Lemma asc_emit : forall k r out lo, lo <= k -> asc (k + 1) (map fst out) ->
  asc lo (map fst (emit k r out)).
Proof.
  intros k [v|] out lo L A; cbn; [auto|]. apply (asc_weak _ (k + 1)); [exact A|lia].
Qed.

Lemma in_emit : forall k r out k' v, In (k', v) (emit k r out) <->
  (k' = k /\ r = Some v) \/ In (k', v) out.
Proof.
  intros k [w|] out k' v; cbn.
  - split; intros [H|H]; auto.
    + injection H as -> ->. auto.
    + destruct H as [-> H]. injection H as ->. auto.
  - split; [auto|]. intros [[_ H]|H]; [discriminate|auto].
Qed.

Definition good lo lhi live hs (r : list (Z * Z)) : Prop :=
  asc lo (map fst r) /\ forall k v, In (k, v) r <-> due lhi live hs k v.

(** History at or above the high key of the leaf does not matter. *)
Lemma good_cut : forall lo lhi live hs r,
  (forall l, In l live -> below lhi (l_key l)) ->
  (forall x, In x hs -> ~ below lhi (fst x)) ->
  good lo lhi live [] r -> good lo lhi live hs r.
Proof.
  intros lo lhi live hs r B C [G1 G2]. split; [exact G1|]. intros k v. rewrite G2. unfold due.
  split.
  - intros [(l & I & K & R & _)|[[] _]]. left. exists l. repeat split; auto. right.
    intros [w W]. apply (C _ W). cbn. rewrite <- K. auto.
  - intros [(l & I & K & R & _)|(I & Bk & _)].
    + left. exists l. repeat split; auto. right. intros [w []].
    + exfalso. exact (C _ I Bk).
Qed.

(** The leaf item comes first. *)
Lemma good_live : forall lo lhi l lt hs r,
  lo <= l_key l -> asc (l_key l + 1) (map l_key lt) ->
  (forall x, In x hs -> l_key l < fst x) ->
  good (l_key l + 1) lhi lt hs r -> good lo lhi (l :: lt) hs (emit (l_key l) (l_row l) r).
Proof.
  intros lo lhi l lt hs r L A H [G1 G2]. split; [apply asc_emit; auto|].
  intros k v. rewrite in_emit, G2. unfold due. split.
  - intros [[-> R]|[(l' & I & K & R & O)|(I & B & N)]].
    + left. exists l. repeat split; cbn; auto. right. intros [w W]. specialize (H _ W). cbn in H. lia.
    + left. exists l'. repeat split; cbn; auto.
    + right. repeat split; auto. intros (l' & [<-|I'] & K & O); [|eauto 6].
      specialize (H _ I). cbn in H. lia.
  - intros [(l' & [<-|I] & K & R & O)|(I & B & N)].
    + left. auto.
    + right. left. exists l'. auto.
    + right. right. repeat split; auto. intros (l' & I' & K & O). apply N. exists l'. cbn. auto.
Qed.

(** Both have the key; the leaf has our own version. *)
Lemma good_own : forall lo lhi l lt v0 t r,
  lo <= l_key l -> asc (l_key l + 1) (map l_key lt) -> asc (l_key l + 1) (map fst t) ->
  l_own l = true ->
  good (l_key l + 1) lhi lt t r ->
  good lo lhi (l :: lt) ((l_key l, v0) :: t) (emit (l_key l) (l_row l) r).
Proof.
  intros lo lhi l lt v0 t r L A At Ow [G1 G2]. split; [apply asc_emit; auto|].
  assert (KL : forall l', In l' lt -> l_key l < l_key l').
  { intros l' I. pose proof (asc_ge _ _ _ A (in_map l_key _ _ I)). lia. }
  assert (KT : forall x, In x t -> l_key l < fst x).
  { intros x I. pose proof (asc_ge _ _ _ At (in_map fst _ _ I)). lia. }
  intros k v. rewrite in_emit, G2. unfold due. split.
  - intros [[-> R]|[(l' & I & K & R & O)|(I & B & N)]].
    + left. exists l. repeat split; cbn; auto.
    + left. exists l'. repeat split; cbn; auto. destruct O as [O|O]; [auto|right].
      intros [w [W|W]]; [|eauto]. injection W as W1 W2. specialize (KL _ I). lia.
    + right. repeat split; cbn; auto. intros (l' & [<-|I'] & K & O); [|eauto 6].
      specialize (KT _ I). cbn in KT. lia.
  - intros [(l' & [<-|I] & K & R & O)|(I & B & N)].
    + left. auto.
    + right. left. exists l'. repeat split; auto. destruct O as [O|O]; [auto|right].
      intros [w W]. apply O. exists w. cbn. auto.
    + right. right. destruct I as [I|I].
      * injection I as I1 I2. exfalso. apply N. exists l. cbn. auto.
      * repeat split; auto. intros (l' & I' & K & O). apply N. exists l'. cbn. auto.
Qed.

(** Both have the key; the version in the leaf is not ours. *)
Lemma good_other : forall lo lhi l lt v0 t r,
  lo <= l_key l -> asc (l_key l + 1) (map l_key lt) -> asc (l_key l + 1) (map fst t) ->
  l_own l = false -> below lhi (l_key l) ->
  good (l_key l + 1) lhi lt t r ->
  good lo lhi (l :: lt) ((l_key l, v0) :: t) (emit (l_key l) v0 r).
Proof.
  intros lo lhi l lt v0 t r L A At Ow Bl [G1 G2]. split; [apply asc_emit; auto|].
  assert (KL : forall l', In l' lt -> l_key l < l_key l').
  { intros l' I. pose proof (asc_ge _ _ _ A (in_map l_key _ _ I)). lia. }
  assert (KT : forall x, In x t -> l_key l < fst x).
  { intros x I. pose proof (asc_ge _ _ _ At (in_map fst _ _ I)). lia. }
  intros k v. rewrite in_emit, G2. unfold due. split.
  - intros [[-> R]|[(l' & I & K & R & O)|(I & B & N)]].
    + right. repeat split; cbn; auto.
      * left. congruence.
      * intros (l' & [<-|I'] & K & O); [congruence|]. specialize (KL _ I'). lia.
    + left. exists l'. repeat split; cbn; auto. destruct O as [O|O]; [auto|right].
      intros [w [W|W]]; [|eauto]. injection W as W1 W2. specialize (KL _ I). lia.
    + right. repeat split; cbn; auto. intros (l' & [<-|I'] & K & O); [congruence|eauto 6].
  - intros [(l' & [<-|I] & K & R & O)|(I & B & N)].
    + exfalso. destruct O as [O|O]; [congruence|]. apply O. exists v0. left. congruence.
    + right. left. exists l'. repeat split; auto. destruct O as [O|O]; [auto|right].
      intros [w W]. apply O. exists w. cbn. auto.
    + destruct I as [I|I].
      * left. injection I as I1 I2. auto.
      * right. right. repeat split; auto. intros (l' & I' & K & O). apply N. exists l'. cbn. auto.
Qed.

(** The historical item comes first. *)
Lemma good_hist : forall lo lhi live k0 v0 t r,
  lo <= k0 -> asc (k0 + 1) (map l_key live) -> below lhi k0 ->
  good (k0 + 1) lhi live t r ->
  good lo lhi live ((k0, v0) :: t) (emit k0 v0 r).
Proof.
  intros lo lhi live k0 v0 t r L A Bl [G1 G2]. split; [apply asc_emit; auto|].
  assert (KL : forall l', In l' live -> k0 < l_key l').
  { intros l' I. pose proof (asc_ge _ _ _ A (in_map l_key _ _ I)). lia. }
  intros k v. rewrite in_emit, G2. unfold due. split.
  - intros [[-> R]|[(l' & I & K & R & O)|(I & B & N)]].
    + right. repeat split; cbn; auto.
      * left. congruence.
      * intros (l' & I' & K & O). specialize (KL _ I'). lia.
    + left. exists l'. repeat split; cbn; auto. destruct O as [O|O]; [auto|right].
      intros [w [W|W]]; [|eauto]. injection W as W1 W2. specialize (KL _ I). lia.
    + right. repeat split; cbn; auto.
  - intros [(l' & I & K & R & O)|(I & B & N)].
    + right. left. exists l'. repeat split; auto. destruct O as [O|O]; [auto|right].
      intros [w W]. apply O. exists w. cbn. auto.
    + destruct I as [I|I].
      * left. injection I as I1 I2. auto.
      * right. right. auto.
Qed.

Lemma merge_live : forall n lo lhi live,
  (length live < n)%nat -> asc lo (map l_key live) ->
  good lo lhi live [] (merge n lhi live false [] None []).
Proof.
  induction n as [|n IH]; intros lo lhi live N A; [lia|]. cbn [merge].
  destruct live as [|l lt].
  - split; [exact I|]. intros k v. unfold due. cbn. split; [contradiction|].
    intros [(l & [] & _)|([] & _)].
  - cbn in A. destruct A as [A1 A2]. apply good_live; auto.
    + intros x [].
    + apply IH; [cbn in N; lia|exact A2].
Qed.

Lemma merge_good : forall n lo lhi live cur chi rest,
  (length live + length cur + weight rest + 1 < n)%nat ->
  asc lo (map l_key live) -> asc lo (map fst (cur ++ hist rest)) ->
  (forall l, In l live -> below lhi (l_key l)) ->
  follow lhi chi rest ->
  good lo lhi live (cur ++ hist rest) (merge n lhi live true cur chi rest).
Proof.
  induction n as [|n IH]; intros lo lhi live cur chi rest N A Ah B F; [lia|]. cbn [merge].
  destruct cur as [|[k v] t].
  - cbn [app]. destruct chi as [hh|].
    + assert (F2 := F).
      destruct rest as [|p r]; cbn in F2; destruct F2 as [F1 F2].
      * destruct (at_or_past lhi hh); apply merge_live; cbn in N; auto; lia.
      * destruct (at_or_past lhi hh) eqn:E.
        -- apply good_cut; auto.
           ++ intros x I Bx. specialize (F1 x I). unfold at_or_past in E. unfold below in Bx.
              destruct lhi; [lia|discriminate].
           ++ apply merge_live; [lia|auto].
        -- change (hist (p :: r)) with (h_items p ++ hist r).
           apply IH; auto. cbn [weight length] in N. lia.
    + assert (R0 : rest = []) by (destruct rest; exact F). subst rest. apply merge_live; [cbn in N; lia|auto].
  - cbn [app map fst asc] in Ah. destruct Ah as [Ah1 Ah2].
    destruct live as [|l lt].
    + destruct (at_or_past lhi k) eqn:E.
      * apply good_cut; [intros l []| |apply merge_live; [cbn in *; lia|exact I]].
        intros x I Bx. assert (G : k <= fst x).
        { destruct I as [<-|I]; [cbn; lia|].
          pose proof (asc_ge _ _ _ Ah2 (in_map fst _ _ I)). lia. }
        unfold at_or_past in E. unfold below in Bx. destruct lhi; [lia|discriminate].
      * assert (Bk : below lhi k) by (unfold at_or_past in E; unfold below; destruct lhi; [lia|exact I]).
        cbn [app]. apply good_hist; [exact Ah1|exact I|exact Bk|].
        apply IH; [cbn in *; lia|exact I|exact Ah2|exact B|exact F].
    + cbn [map asc] in A. destruct A as [A1 A2].
      assert (Bl := B l (or_introl eq_refl)).
      assert (Bt : forall l', In l' lt -> below lhi (l_key l')) by (intros; apply B; cbn; auto).
      destruct (Z.ltb_spec (l_key l) k) as [Lt|Ge].
      * apply good_live; auto.
        -- intros x [<-|I]; [cbn; lia|]. pose proof (asc_ge _ _ _ Ah2 (in_map fst _ _ I)). lia.
        -- apply IH; auto; [cbn in *; lia|]. cbn [app map fst asc]. split; [lia|exact Ah2].
      * destruct (Z.eqb_spec k (l_key l)) as [->|Ne].
        -- cbn [app]. destruct (l_own l) eqn:Ow.
           ++ apply good_own; auto. apply IH; auto. cbn in *; lia.
           ++ apply good_other; auto. apply IH; auto. cbn in *; lia.
        -- assert (Bk : below lhi k) by (unfold below in *; destruct lhi; [lia|exact I]).
           assert (A' : asc (k + 1) (map l_key (l :: lt))) by (cbn [map asc]; split; [lia|exact A2]).
           cbn [app]. apply good_hist; [exact Ah1|exact A'|exact Bk|].
           apply IH; [cbn in *; lia|exact A'|exact Ah2|exact B|exact F].
Qed.

(** For every leaf and every sequence of historical pages that covers it:
    the rows come in strictly ascending order of their keys, so no key
    twice, and they are exactly those that are due. *)
Theorem C54_leaf_rows : forall lo lhi live pages,
  asc lo (map l_key live) -> (forall l, In l live -> below lhi (l_key l)) ->
  asc lo (map fst (hist pages)) ->
  match pages with [] => True | p :: r => follow lhi (h_hi p) r end ->
  asc lo (map fst (scan_leaf lhi live pages)) /\
  forall k v, In (k, v) (scan_leaf lhi live pages) <-> due lhi live (hist pages) k v.
Proof.
  intros lo lhi live pages A B Ah F. unfold scan_leaf. destruct pages as [|p r].
  - apply merge_live; [unfold turns; cbn; lia|exact A].
  - change (hist (p :: r)) with (h_items p ++ hist r).
    apply merge_good; auto. unfold turns. cbn [weight]. lia.
Qed.

(** A row of our own transaction is seen in its newest version although the
    historical page has an older one. *)
Corollary C54_own_write_seen : forall lo lhi live pages l v,
  asc lo (map l_key live) -> (forall l, In l live -> below lhi (l_key l)) ->
  asc lo (map fst (hist pages)) ->
  match pages with [] => True | p :: r => follow lhi (h_hi p) r end ->
  In l live -> l_own l = true -> l_row l = Some v ->
  In (l_key l, v) (scan_leaf lhi live pages).
Proof.
  intros lo lhi live pages l v A B Ah F I O R.
  apply (C54_leaf_rows lo lhi live pages A B Ah F). left. exists l. auto.
Qed.

(** A row that moved to another leaf, or was deleted, after the snapshot is
    still returned; a row of the next leaf is not. *)
Corollary C54_old_row_seen : forall lo lhi live pages k v,
  asc lo (map l_key live) -> (forall l, In l live -> below lhi (l_key l)) ->
  asc lo (map fst (hist pages)) ->
  match pages with [] => True | p :: r => follow lhi (h_hi p) r end ->
  (forall l, In l live -> l_key l <> k) -> In (k, Some v) (hist pages) ->
  (In (k, v) (scan_leaf lhi live pages) <-> below lhi k).
Proof.
  intros lo lhi live pages k v A B Ah F N I.
  rewrite (proj2 (C54_leaf_rows lo lhi live pages A B Ah F) k v). unfold due. split.
  - intros [(l & Il & K & _)|(_ & Bk & _)]; [exfalso; exact (N l Il K)|exact Bk].
  - intro Bk. right. repeat split; auto. intros (l & Il & K & _). exact (N l Il K).
Qed.

(** A leaf up to 50 whose place two pages had: 10 was deleted since, 20 is
    ours, 30 was changed by another transaction, 40 is newer than the
    snapshot; 60 belongs to the next leaf. *)
Definition live0 := [mkL 20 true (Some 201); mkL 30 false (Some 301); mkL 40 false None].
Definition pages0 := [mkH [(10, Some 100); (20, Some 200)] (Some 25);
                      mkH [(30, Some 300); (35, None); (60, Some 600)] None].

Example C54_case :
  scan_leaf (Some 50) live0 pages0 = [(10, 100); (20, 201); (30, 300)] /\
  asc 0 (map l_key live0) /\ asc 0 (map fst (hist pages0)) /\
  (forall l, In l live0 -> below (Some 50) (l_key l)) /\
  follow (Some 50) (Some 25) [mkH [(30, Some 300); (35, None); (60, Some 600)] None].
Proof.
  repeat split; cbn; try lia.
  - intros l [<-|[<-|[<-|[]]]]; cbn; lia.
  - intros x [<-|[<-|[<-|[]]]]; cbn; lia.
Qed.

Print Assumptions C54_leaf_rows.
