(** C55 for a leaf with a historical page. *)
From Coq Require Import ZArith List Bool Lia ZifyBool ZifyNat.
From Verif Require Import LeafMergeModel LeafMergeProps LeafBmHistModel.
Import ListNotations.
Open Scope Z_scope.

(** Nothing is lost or repeated among the keys of the bitmap; [due] is the
    specification of C54. *)
Definition goodb bm lo lhi live hs (r : list (Z * Z)) : Prop :=
  asc lo (map fst r) /\
  forall k v, In k bm -> (In (k, v) r <-> due lhi live hs k v).

Lemma goodb_of_good : forall bm lo lhi live hs r, good lo lhi live hs r -> goodb bm lo lhi live hs r.
Proof. intros bm lo lhi live hs r [G1 G2]. split; auto. Qed.

(** The steps of C54, for the keys of the bitmap: the rest of the output is
    replaced by one that is right for all keys. *)
Lemma due_ext : forall lhi live hs live' hs' k v,
  (forall l, l_key l = k -> (In l live <-> In l live')) ->
  (forall w, In (k, w) hs <-> In (k, w) hs') ->
  (due lhi live hs k v <-> due lhi live' hs' k v).
Proof.
  intros lhi live hs live' hs' k v L H. unfold due. split.
  - intros [(l & I & K & R & O)|(I & B & N)].
    + left. exists l. rewrite <- (L l K). repeat split; auto. destruct O as [O|O]; [auto|].
      right. intros [w W]. apply O. exists w. apply H. exact W.
    + right. rewrite <- (H (Some v)). repeat split; auto. intros (l & Il & K & O). apply N.
      exists l. rewrite (L l K). auto.
  - intros [(l & I & K & R & O)|(I & B & N)].
    + left. exists l. rewrite (L l K). repeat split; auto. destruct O as [O|O]; [auto|].
      right. intros [w W]. apply O. exists w. apply H. exact W.
    + right. rewrite (H (Some v)). repeat split; auto. intros (l & Il & K & O). apply N.
      exists l. rewrite <- (L l K). auto.
Qed.

Lemma ldrop_spec : forall nk l lo, asc lo (map l_key l) ->
  asc nk (map l_key (ldrop nk l)) /\ asc lo (map l_key (ldrop nk l)) /\
  (length (ldrop nk l) <= length l)%nat /\
  forall x, In x (ldrop nk l) <-> In x l /\ nk <= l_key x.
Proof.
  induction l as [|y t IH]; intros lo A; cbn in *; [intuition|]. destruct A as [A1 A2].
  destruct (IH _ A2) as (B1 & B2 & B3 & B4). destruct (Z.ltb_spec (l_key y) nk) as [L|G].
  - split; [exact B1|split; [|split; [lia|]]].
    + apply (asc_weak _ (l_key y + 1)); [exact B2|lia].
    + intro x. rewrite B4. split; [tauto|]. intros [[<-|I] Lx]; [lia|auto].
  - cbn [map asc length]. split; [auto|split; [auto|split; [lia|]]].
    intro x. split; [|intros [I _]; exact I]. intro I. split; [exact I|].
    destruct I as [<-|I]; [lia|]. pose proof (asc_ge _ _ _ A2 (in_map l_key _ _ I)). lia.
Qed.

Lemma hdrop_spec : forall nk (l : list hitem) lo, asc lo (map fst l) ->
  asc nk (map fst (hdrop nk l)) /\ asc lo (map fst (hdrop nk l)) /\
  (length (hdrop nk l) <= length l)%nat /\
  forall x, In x (hdrop nk l) <-> In x l /\ nk <= fst x.
Proof.
  induction l as [|y t IH]; intros lo A; cbn in *; [intuition|]. destruct A as [A1 A2].
  destruct (IH _ A2) as (B1 & B2 & B3 & B4). destruct (Z.ltb_spec (fst y) nk) as [L|G].
  - split; [exact B1|split; [|split; [lia|]]].
    + apply (asc_weak _ (fst y + 1)); [exact B2|lia].
    + intro x. rewrite B4. split; [tauto|]. intros [[<-|I] Lx]; [lia|auto].
  - cbn [map asc length]. split; [auto|split; [auto|split; [lia|]]].
    intro x. split; [|intros [I _]; exact I]. intro I. split; [exact I|].
    destruct I as [<-|I]; [lia|]. pose proof (asc_ge _ _ _ A2 (in_map fst _ _ I)). lia.
Qed.

Lemma next_some : forall bm b k nk, asc b bm -> next_wanted bm k = Some nk ->
  k <= nk /\ In nk bm /\ forall x, In x bm -> k <= x -> nk <= x.
Proof.
  induction bm as [|b t IH]; intros b0 k nk A H; cbn in *; [discriminate|].
  destruct A as [A1 A2]. destruct (Z.leb_spec k b) as [L|G].
  - injection H as <-. split; [exact L|split; [auto|]].
    intros x [<-|I] _; [lia|]. pose proof (asc_ge _ _ _ A2 I). lia.
  - destruct (IH _ _ _ A2 H) as (X & Y & W). split; [exact X|split; [auto|]].
    intros x [<-|I] Lx; [lia|auto].
Qed.

Lemma least_spec : forall rd live hs lo k, (forall x, rd x = x) ->
  asc lo (map l_key live) -> asc lo (map fst hs) -> least rd live hs = Some k ->
  (forall l, In l live -> k <= l_key l) /\ (forall x, In x hs -> k <= fst x) /\
  (lhit k live || hhit k hs = true).
Proof.
  intros rd live hs lo k R A Ah H.
  destruct live as [|l lt]; destruct hs as [|h ht]; cbn in H; try discriminate; injection H as <-;
    cbn [map asc] in A, Ah.
  - destruct Ah as [_ Ah]. split; [intros l []|split].
    + intros x [<-|I]; [lia|]. pose proof (asc_ge _ _ _ Ah (in_map fst _ _ I)). lia.
    + cbn. lia.
  - destruct A as [_ A]. split; [|split; [intros x []|]].
    + intros x [<-|I]; [lia|]. pose proof (asc_ge _ _ _ A (in_map l_key _ _ I)). lia.
    + cbn. lia.
  - destruct A as [_ A], Ah as [_ Ah]. rewrite R. destruct (Z.ltb_spec (fst h) (l_key l)) as [L|G].
    + split; [|split].
      * intros x [<-|I]; [lia|]. pose proof (asc_ge _ _ _ A (in_map l_key _ _ I)). lia.
      * intros x [<-|I]; [lia|]. pose proof (asc_ge _ _ _ Ah (in_map fst _ _ I)). lia.
      * cbn. lia.
    + split; [|split].
      * intros x [<-|I]; [lia|]. pose proof (asc_ge _ _ _ A (in_map l_key _ _ I)). lia.
      * intros x [<-|I]; [lia|]. pose proof (asc_ge _ _ _ Ah (in_map fst _ _ I)). lia.
      * cbn. lia.
Qed.

(** What apply_next_key keeps. *)
Record kept bm lo (live : list litem) (hs : list hitem) (live' : list litem) (hs' : list hitem) : Prop := mkK {
  k_al : asc lo (map l_key live');
  k_ah : asc lo (map fst hs');
  k_ll : (length live' <= length live)%nat;
  k_lh : (length hs' <= length hs)%nat;
  k_il : forall l, In l live' -> In l live;
  k_wl : forall l, In (l_key l) bm -> (In l live <-> In l live');
  k_wh : forall k w, In k bm -> (In (k, w) hs <-> In (k, w) hs')
}.

Lemma kept_trans : forall bm lo a b c d e f, kept bm lo a b c d -> kept bm lo c d e f -> kept bm lo a b e f.
Proof.
  intros bm lo a b c d e f [A1 A2 A3 A4 A5 A6 A7] [B1 B2 B3 B4 B5 B6 B7].
  constructor; auto; try lia.
  - intros l I. rewrite (A6 l I). auto.
  - intros k w I. rewrite (A7 k w I). auto.
Qed.

(** Where it stops: the leaf is done, or a wanted key is at one of the
    positions and nothing before it. *)
Definition stopped (bm : list Z) (live : list litem) (hs : list hitem) : Prop :=
  live = [] \/
  exists nk, In nk bm /\ (forall l, In l live -> nk <= l_key l) /\ (forall x, In x hs -> nk <= fst x) /\
             (lhit nk live || hhit nk hs = true).

Lemma apply_kept : forall n rd bm b lo live hs, (forall x, rd x = x) -> asc b bm ->
  (length live + length hs < n)%nat ->
  asc lo (map l_key live) -> asc lo (map fst hs) ->
  let (live', hs') := apply n rd bm live hs in
  kept bm lo live hs live' hs' /\ stopped bm live' hs'.
Proof.
  induction n as [|n IH]; intros rd bm b lo live hs R Ab N A Ah; [lia|]. cbn [apply].
  destruct (least rd live hs) as [k|] eqn:E.
  2:{ destruct live as [|l lt]; destruct hs as [|h ht]; cbn in E; try discriminate.
      split; [|left; reflexivity]. constructor; cbn; auto; tauto. }
  destruct (least_spec _ _ _ _ _ R A Ah E) as (M1 & M2 & M3).
  destruct (next_wanted bm k) as [nk|] eqn:Nx.
  - destruct (next_some _ _ _ _ Ab Nx) as (N1 & N2 & N3).
    destruct (ldrop_spec nk live lo A) as (L1 & L2 & L3 & L4).
    destruct (hdrop_spec nk hs lo Ah) as (H1 & H2 & H3 & H4).
    assert (KK : kept bm lo live hs (ldrop nk live) (hdrop nk hs)).
    { constructor; auto.
      - intros l I. apply L4 in I. tauto.
      - intros l I. rewrite L4. split; [|tauto]. intro Il. split; [exact Il|]. apply N3; [exact I|exact (M1 _ Il)].
      - intros k0 w I. rewrite H4. split; [|tauto]. intro Ix. split; [exact Ix|].
        apply N3; [exact I|exact (M2 _ Ix)]. }
    destruct (lhit nk (ldrop nk live) || hhit nk (hdrop nk hs)) eqn:Hit.
    + split; [exact KK|]. right. exists nk. split; [exact N2|split; [|split; [|exact Hit]]].
      * intros l I. apply L4 in I. tauto.
      * intros x I. apply H4 in I. tauto.
    + assert (Lt : (length (ldrop nk live) + length (hdrop nk hs) < length live + length hs)%nat).
      { assert (Kn : k < nk).
        { destruct (Z.eq_dec k nk) as [Ek|]; [|lia]. exfalso. subst nk.
          destruct live as [|l lt]; destruct hs as [|h ht]; cbn in M3, Hit; try discriminate;
            repeat match goal with
            | H : context [if ?a <? ?b then _ else _] |- _ => destruct (Z.ltb_spec a b)
            end; cbn in *; try lia;
            try (pose proof (M1 l (or_introl eq_refl))); try (pose proof (M2 h (or_introl eq_refl))); lia. }
        destruct live as [|l lt]; destruct hs as [|h ht]; cbn in M3; try discriminate; cbn [ldrop hdrop length].
        - destruct (Z.ltb_spec (fst h) nk); [|lia].
          cbn [map asc] in Ah. destruct (hdrop_spec nk ht _ (proj2 Ah)) as (_ & _ & X & _). lia.
        - destruct (Z.ltb_spec (l_key l) nk); [|lia].
          cbn [map asc] in A. destruct (ldrop_spec nk lt _ (proj2 A)) as (_ & _ & X & _). cbn. lia.
        - cbn [map asc] in A, Ah. destruct (ldrop_spec nk lt _ (proj2 A)) as (_ & _ & X & _).
          destruct (hdrop_spec nk ht _ (proj2 Ah)) as (_ & _ & Y & _).
          destruct (Z.ltb_spec (l_key l) nk); destruct (Z.ltb_spec (fst h) nk); cbn [length]; lia. }
      assert (Rec := IH rd bm b lo (ldrop nk live) (hdrop nk hs) R Ab ltac:(lia) L2 H2).
      destruct (ldrop nk live) as [|l' lt'] eqn:DL; destruct (hdrop nk hs) as [|h' ht'] eqn:DH.
      * split; [exact KK|left; reflexivity].
      * destruct (apply n rd bm [] (h' :: ht')) as [a c]. destruct Rec as [R1 R2].
        split; [exact (kept_trans _ _ _ _ _ _ _ _ KK R1)|exact R2].
      * destruct (apply n rd bm (l' :: lt') []) as [a c]. destruct Rec as [R1 R2].
        split; [exact (kept_trans _ _ _ _ _ _ _ _ KK R1)|exact R2].
      * destruct (apply n rd bm (l' :: lt') (h' :: ht')) as [a c]. destruct Rec as [R1 R2].
        split; [exact (kept_trans _ _ _ _ _ _ _ _ KK R1)|exact R2].
  - assert (NN : forall x, In x bm -> x < k).
    { intros x I. pose proof (find_none _ _ Nx x I) as F. cbn in F. lia. }
    split; [|left; reflexivity]. constructor; cbn; auto; try lia; try tauto.
    intros l I. split; [|tauto]. intro Il. specialize (M1 l Il). specialize (NN _ I). lia.
Qed.

Lemma go_kept : forall rd bm b lo live hs, (forall x, rd x = x) -> asc b bm ->
  asc lo (map l_key live) -> asc lo (map fst hs) ->
  let (live', hs') := go rd bm live hs in
  kept bm lo live hs live' hs' /\ stopped bm live' hs'.
Proof. intros. unfold go. eapply apply_kept; eauto. Qed.

(** A second run at a wanted key of the leaf changes nothing. *)
Lemma go_same : forall rd bm b l lt hs, (forall x, rd x = x) -> asc b bm -> In (l_key l) bm ->
  (forall x, In x hs -> l_key l < fst x) -> go rd bm (l :: lt) hs = (l :: lt, hs).
Proof.
  intros rd bm b l lt hs R Ab W H. unfold go. cbn [apply].
  assert (E : least rd (l :: lt) hs = Some (l_key l)).
  { destruct hs as [|h ht]; cbn; auto. rewrite R. specialize (H h (or_introl eq_refl)).
    replace (fst h <? l_key l) with false by lia. reflexivity. }
  rewrite E. destruct (next_wanted bm (l_key l)) as [nk|] eqn:Nx.
  - destruct (next_some _ _ _ _ Ab Nx) as (N1 & N2 & N3).
    assert (nk = l_key l) by (specialize (N3 _ W ltac:(lia)); lia). subst nk.
    cbn [ldrop]. replace (l_key l <? l_key l) with false by lia. cbn [lhit].
    rewrite Z.eqb_refl. cbn [orb].
    assert (D : hdrop (l_key l) hs = hs).
    { destruct hs as [|h ht]; cbn; auto. specialize (H h (or_introl eq_refl)).
      replace (fst h <? l_key l) with false by lia. reflexivity. }
    rewrite D. reflexivity.
  - pose proof (find_none _ _ Nx _ W) as F. cbn in F. lia.
Qed.

Lemma goodb_kept : forall bm lo lhi live hs live' hs' r,
  kept bm lo live hs live' hs' -> goodb bm lo lhi live' hs' r -> goodb bm lo lhi live hs r.
Proof.
  intros bm lo lhi live hs live' hs' r K [G1 G2]. split; [exact G1|].
  intros k v I. rewrite (G2 k v I). symmetry. apply due_ext.
  - intros l E. apply (k_wl _ _ _ _ _ _ K). rewrite E. exact I.
  - intro w. apply (k_wh _ _ _ _ _ _ K). exact I.
Qed.

(** A step that is right for an exact rest of the output is right for a
    rest that is exact on the bitmap. *)
Lemma lift : forall bm lo lhi live hs live' hs' k0 r0 r' r,
  lo <= k0 ->
  good lo lhi live hs (emit k0 r0 r') -> good (k0 + 1) lhi live' hs' r' ->
  goodb bm (k0 + 1) lhi live' hs' r -> goodb bm lo lhi live hs (emit k0 r0 r).
Proof.
  intros bm lo lhi live hs live' hs' k0 r0 r' r L [_ A2] [_ B2] [G1 G2].
  split; [apply asc_emit; auto|].
  intros k v I. rewrite <- A2, !in_emit, (G2 k v I), <- B2. reflexivity.
Qed.

Lemma exact_rest : forall lo lhi live (hs : list hitem),
  asc lo (map l_key live) -> asc lo (map fst hs) ->
  (forall l, In l live -> below lhi (l_key l)) -> exists r, good lo lhi live hs r.
Proof.
  intros lo lhi live hs A Ah B.
  exists (merge (length live + length hs + 3) lhi live true hs None []).
  assert (G : good lo lhi live (hs ++ hist []) (merge (length live + length hs + 3) lhi live true hs None [])).
  { apply merge_good; auto.
    - cbn [weight]. lia.
    - cbn. rewrite app_nil_r. exact Ah.
    - reflexivity. }
  cbn [hist flat_map] in G. rewrite app_nil_r in G. exact G.
Qed.

Lemma bmerge_live : forall n rd bm b lo lhi live, (forall x, rd x = x) -> asc b bm ->
  (length live < n)%nat -> asc lo (map l_key live) ->
  (forall l, In l live -> below lhi (l_key l)) ->
  goodb bm lo lhi live [] (bmerge n rd lhi bm live false []).
Proof.
  induction n as [|n IH]; intros rd bm b lo lhi live R Ab N A B; [lia|]. cbn [bmerge].
  destruct live as [|l0 lt0].
  - apply goodb_of_good. split; [exact I|]. intros k v. unfold due. cbn. split; [contradiction|].
    intros [(l & [] & _)|([] & _)].
  - pose proof (go_kept rd bm b lo (l0 :: lt0) [] R Ab A I) as K.
    destruct (go rd bm (l0 :: lt0) []) as [live1 hs1]. destruct K as [K _]. cbn [fst].
    assert (H0 : hs1 = []) by (pose proof (k_lh _ _ _ _ _ _ K) as X; destruct hs1; [reflexivity|cbn in X; lia]).
    subst hs1. apply (goodb_kept _ _ _ _ _ _ _ _ K).
    pose proof (k_al _ _ _ _ _ _ K) as A1. pose proof (k_ll _ _ _ _ _ _ K) as Ln.
    assert (B1 : forall l, In l live1 -> below lhi (l_key l)) by (intros l Il; apply B, (k_il _ _ _ _ _ _ K), Il).
    destruct live1 as [|x xt].
    + apply goodb_of_good. split; [exact I|]. intros k v. unfold due. cbn. split; [contradiction|].
      intros [(l & [] & _)|([] & _)].
    + cbn [map asc] in A1. destruct A1 as [A1 A2].
      assert (B2 : forall l, In l xt -> below lhi (l_key l)) by (intros; apply B1; cbn; auto).
      destruct (exact_rest (l_key x + 1) lhi xt [] A2 I B2) as [r' G'].
      apply (lift bm lo lhi (x :: xt) [] xt [] (l_key x) (l_row x) r'); auto.
      * apply good_live; auto. intros y [].
      * apply (IH rd bm b); auto. cbn in *. lia.
Qed.

Lemma bmerge_good : forall n rd bm b lo lhi live hs, (forall x, rd x = x) -> asc b bm ->
  (length live + length hs + 1 < n)%nat ->
  asc lo (map l_key live) -> asc lo (map fst hs) ->
  (forall l, In l live -> below lhi (l_key l)) ->
  goodb bm lo lhi live hs (bmerge n rd lhi bm live true hs).
Proof.
  induction n as [|n IH]; intros rd bm b lo lhi live hs R Ab N A Ah B; [lia|]. cbn [bmerge].
  destruct hs as [|h0 ht0].
  - apply (bmerge_live n rd bm b); auto. cbn in N. lia.
  - pose proof (go_kept rd bm b lo live (h0 :: ht0) R Ab A Ah) as K.
    destruct (go rd bm live (h0 :: ht0)) as [live1 hs1]. destruct K as [K St].
    apply (goodb_kept _ _ _ _ _ _ _ _ K).
    pose proof (k_al _ _ _ _ _ _ K) as A1. pose proof (k_ll _ _ _ _ _ _ K) as Ln.
    pose proof (k_ah _ _ _ _ _ _ K) as H1. pose proof (k_lh _ _ _ _ _ _ K) as Hn.
    assert (B1 : forall l, In l live1 -> below lhi (l_key l)) by (intros l Il; apply B, (k_il _ _ _ _ _ _ K), Il).
    clear K.
    destruct hs1 as [|[k v] t].
    + apply (IH rd bm b); auto. cbn in *. lia.
    + cbn [map asc fst] in H1. destruct H1 as [H1 H2].
      assert (KT : forall x, In x t -> k < fst x).
      { intros x Ix. pose proof (asc_ge _ _ _ H2 (in_map fst _ _ Ix)). lia. }
      destruct live1 as [|l lt].
      * destruct (at_or_past lhi k) eqn:E.
        -- apply goodb_of_good. apply good_cut; [intros l []| |].
           ++ intros x Ix Bx. assert (G : k <= fst x) by (destruct Ix as [<-|Ix]; [cbn; lia|specialize (KT x Ix); lia]).
              unfold at_or_past in E. unfold below in Bx. destruct lhi; [lia|discriminate].
           ++ replace (bmerge n rd lhi bm [] false []) with (@nil (Z * Z)) by (destruct n; reflexivity).
              split; [exact I|]. intros k' v'. unfold due. cbn. split; [contradiction|].
              intros [(l & [] & _)|([] & _)].
        -- assert (Bk : below lhi k) by (unfold at_or_past in E; unfold below; destruct lhi; [lia|exact I]).
           assert (B0 : forall l, In l (@nil litem) -> below lhi (l_key l)) by (intros l []).
           destruct (exact_rest (k + 1) lhi [] t I H2 B0) as [r' G'].
           apply (lift bm lo lhi [] ((k, v) :: t) [] t k v r'); auto.
           ++ apply good_hist; [exact H1|exact I|exact Bk|exact G'].
           ++ apply (IH rd bm b); [exact R|exact Ab|cbn in *; lia|exact I|exact H2|exact B0].
      * cbn [map asc] in A1. destruct A1 as [A1 A2].
        assert (Bl := B1 l (or_introl eq_refl)).
        assert (Bt : forall l', In l' lt -> below lhi (l_key l')) by (intros; apply B1; cbn; auto).
        destruct St as [St|(nk & S1 & S2 & S3 & S4)]; [discriminate|].
        specialize (S2 l (or_introl eq_refl)). specialize (S3 (k, v) (or_introl eq_refl)).
        cbn [lhit hhit fst] in S3, S4.
        destruct (Z.ltb_spec (l_key l) k) as [Lt|Ge]; cbn [orb].
        -- assert (nk = l_key l) by lia. subst nk.
           assert (KH : forall x, In x ((k, v) :: t) -> l_key l < fst x)
             by (intros x [<-|Ix]; [cbn; lia|specialize (KT x Ix); lia]).
           rewrite (go_same rd bm b l lt _ R Ab S1 KH).
           assert (H3 : asc (l_key l + 1) (map fst ((k, v) :: t))) by (cbn [map asc fst]; split; [lia|exact H2]).
           destruct (exact_rest (l_key l + 1) lhi lt _ A2 H3 Bt) as [r' G'].
           apply (lift bm lo lhi (l :: lt) ((k, v) :: t) lt ((k, v) :: t) (l_key l) (l_row l) r'); auto.
           ++ apply good_live; auto.
           ++ apply (IH rd bm b); auto. cbn in *. lia.
        -- destruct (Z.eqb_spec k (l_key l)) as [->|Ne]; cbn [andb].
           ++ destruct (exact_rest (l_key l + 1) lhi lt t A2 H2 Bt) as [r' G'].
              destruct (l_own l) eqn:Ow.
              ** assert (nk = l_key l) by lia. subst nk.
                 rewrite (go_same rd bm b l lt t R Ab S1 KT).
                 apply (lift bm lo lhi (l :: lt) ((l_key l, v) :: t) lt t (l_key l) (l_row l) r'); auto.
                 --- apply good_own; auto.
                 --- apply (IH rd bm b); auto. cbn in *. lia.
              ** apply (lift bm lo lhi (l :: lt) ((l_key l, v) :: t) lt t (l_key l) v r'); auto.
                 --- apply good_other; auto.
                 --- apply (IH rd bm b); auto. cbn in *. lia.
           ++ assert (Bk : below lhi k) by (unfold below in *; destruct lhi; [lia|exact I]).
              assert (A' : asc (k + 1) (map l_key (l :: lt))) by (cbn [map asc]; split; [lia|exact A2]).
              destruct (exact_rest (k + 1) lhi (l :: lt) t A' H2 B1) as [r' G'].
              apply (lift bm lo lhi (l :: lt) ((k, v) :: t) (l :: lt) t k v r'); auto.
              ** apply good_hist; auto.
              ** apply (IH rd bm b); auto. cbn in *. lia.
Qed.

(** If the key of a historical row is read right: of the keys of the bitmap
    exactly the rows due (C54) are returned, no key twice. *)
Theorem C55_bitmap_history_partial : forall rd b bm lo lhi live hs,
  (forall k, rd k = k) -> asc b bm ->
  asc lo (map l_key live) -> asc lo (map fst hs) ->
  (forall l, In l live -> below lhi (l_key l)) ->
  let r := bitmap_hist_leaf rd lhi bm live hs in
  asc lo (map fst r) /\
  forall k v, In k bm -> (In (k, v) r <-> due lhi live hs k v).
Proof.
  intros rd b bm lo lhi live hs R Ab A Ah B r. apply (bmerge_good _ rd bm b); auto. lia.
Qed.

(** A table whose first column is not its key: the row with key 3 has 100 in
    the first column.  It was deleted after the snapshot; the leaf begins
    with the row 5.  The scan takes 5 for the lesser key and never returns
    the row 3, although the bitmap has it. *)
Theorem C55_wanted_row_missed_refuted : exists rd bm live hs k v,
  asc 0 bm /\ asc 0 (map l_key live) /\ asc 0 (map fst hs) /\
  In k bm /\ due None live hs k v /\
  ~ In (k, v) (bitmap_hist_leaf rd None bm live hs).
Proof.
  exists (fun k => if k =? 3 then 100 else k), [3; 5], [mkL 5 false (Some 50)],
    [(3, Some 30); (5, Some 50)], 3, 30.
  split; [cbn; lia|]. split; [cbn; lia|]. split; [cbn; lia|]. split; [cbn; auto|]. split.
  - right. split; [cbn; auto|]. split; [exact I|]. intros (l & [<-|[]] & K & _). discriminate.
  - vm_compute. intuition discriminate.
Qed.

Example C55_history_case :
  bitmap_hist_leaf (fun k => k) (Some 50) [3; 20; 30; 45] live0
    [(3, Some 103); (10, Some 100); (20, Some 200); (30, Some 300); (45, Some 450)] =
    [(3, 103); (20, 201); (30, 300); (45, 450)].
Proof. vm_compute. reflexivity. Qed.

Print Assumptions C55_bitmap_history_partial.
Print Assumptions C55_wanted_row_missed_refuted.
