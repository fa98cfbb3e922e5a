(** C55: the rows a bitmap scan returns for one leaf. *)
From Coq Require Import ZArith List Bool Lia ZifyBool ZifyNat.
From Verif Require Import LeafBitmapModel.
Import ListNotations.
Open Scope Z_scope.

(** Specification. *)

Fixpoint asc (lo : Z) (l : list Z) : Prop :=
  match l with [] => True | k :: t => lo <= k /\ asc (k + 1) t end.

(** Chunks of a leaf: the items of a chunk lie below its high key, all later
    ones at or above it. *)
Fixpoint chunks_ok (cs : list chunk) : Prop :=
  match cs with
  | [] => True
  | c :: r =>
      (forall k, In k (c_items c) -> k < c_hi c) /\
      (forall k, In k (rows_of r) -> c_hi c <= k) /\ chunks_ok r
  end.

Definition wanted (bm : list Z) (k : Z) : bool := existsb (Z.eqb k) bm.

(** Proofs. *)

Lemma asc_ge : forall l lo k, asc lo l -> In k l -> lo <= k.
Proof.
  induction l as [|x t IH]; intros lo k A I; cbn in *; [contradiction|].
  destruct A as [A1 A2]. destruct I as [->|I]; [lia|]. specialize (IH _ _ A2 I). lia.
Qed.

Lemma asc_weak : forall l lo lo', asc lo l -> lo' <= lo -> asc lo' l.
Proof. intros [|x t] lo lo' A L; cbn in *; auto. destruct A. split; [lia|auto]. Qed.

Lemma drop_asc : forall l lo nk, asc lo l -> asc nk (drop nk l).
Proof.
  induction l as [|x t IH]; intros lo nk A; cbn in *; auto. destruct A as [A1 A2].
  destruct (Z.ltb_spec x nk); [eapply IH; eauto|]. cbn. auto.
Qed.

Lemma drop_all : forall a b nk, (forall k, In k a -> k < nk) -> drop nk (a ++ b) = drop nk b.
Proof.
  induction a as [|x t IH]; intros b nk H; cbn; auto.
  destruct (Z.ltb_spec x nk) as [L|G]; [apply IH; intros; apply H; cbn; auto|].
  specialize (H x (or_introl eq_refl)). lia.
Qed.

Lemma drop_app : forall a b nk, drop nk a <> [] -> drop nk (a ++ b) = drop nk a ++ b.
Proof.
  induction a as [|x t IH]; intros b nk H; cbn in *; [contradiction|].
  destruct (x <? nk); auto.
Qed.

Lemma drop_nil : forall a nk, drop nk a = [] -> forall k, In k a -> k < nk.
Proof.
  induction a as [|x t IH]; intros nk H k I; cbn in *; [contradiction|].
  destruct (Z.ltb_spec x nk); [|discriminate]. destruct I as [<-|I]; eauto.
Qed.

Lemma walk_rows : forall cs nk, rows_of (walk nk cs) = drop nk (rows_of cs).
Proof.
  induction cs as [|c r IH]; intro nk; cbn [walk]; auto.
  change (rows_of (c :: r)) with (c_items c ++ rows_of r).
  destruct (drop nk (c_items c)) as [|x t] eqn:E.
  - rewrite IH, drop_all; [reflexivity|]. apply drop_nil. exact E.
  - rewrite drop_app by (rewrite E; discriminate). rewrite E. reflexivity.
Qed.

Lemma skip_rows : forall cs nk, chunks_ok cs -> drop nk (rows_of (skip nk cs)) = drop nk (rows_of cs).
Proof.
  induction cs as [|c r IH]; intros nk O; auto. cbn [skip].
  destruct r as [|c' r']; auto. destruct (Z.leb_spec (c_hi c) nk) as [L|G]; auto.
  destruct O as (O1 & O2 & O3). rewrite (IH nk O3).
  change (rows_of (c :: c' :: r')) with (c_items c ++ rows_of (c' :: r')).
  rewrite drop_all; auto. intros k I. specialize (O1 k I). lia.
Qed.

Lemma skip_ok : forall cs nk, chunks_ok cs -> chunks_ok (skip nk cs).
Proof.
  induction cs as [|c r IH]; intros nk O; auto. cbn [skip].
  destruct r as [|c' r']; auto. destruct (c_hi c <=? nk); auto.
  apply IH. destruct O as (_ & _ & O). exact O.
Qed.

Lemma drop_in : forall l nk k, In k (drop nk l) -> In k l.
Proof.
  induction l as [|x t IH]; intros nk k I; cbn in *; auto.
  destruct (x <? nk); [right; eauto|exact I].
Qed.

Lemma walk_ok : forall cs nk, chunks_ok cs -> chunks_ok (walk nk cs).
Proof.
  induction cs as [|c r IH]; intros nk O; cbn [walk]; auto. destruct O as (O1 & O2 & O3).
  destruct (drop nk (c_items c)) as [|x t] eqn:E; auto.
  cbn [chunks_ok c_items c_hi]. split; [|split]; auto.
  intros k I. apply O1. apply (drop_in _ nk). rewrite E. exact I.
Qed.

Lemma item_rows : forall cs, item cs = hd_error (rows_of cs).
Proof.
  induction cs as [|c r IH]; auto. cbn [item].
  change (rows_of (c :: r)) with (c_items c ++ rows_of r). destruct (c_items c); auto.
Qed.

Lemma advance_rows : forall cs, rows_of (advance cs) = tl (rows_of cs).
Proof.
  induction cs as [|c r IH]; auto. cbn [advance].
  change (rows_of (c :: r)) with (c_items c ++ rows_of r). destruct (c_items c); auto.
Qed.

Lemma advance_ok : forall cs, chunks_ok cs -> chunks_ok (advance cs).
Proof.
  induction cs as [|c r IH]; intro O; auto. cbn [advance]. destruct O as (O1 & O2 & O3).
  destruct (c_items c) eqn:E; auto. cbn [chunks_ok c_items c_hi]. split; [|split]; auto.
  intros k I. apply O1. cbn. auto.
Qed.

Lemma drop_id : forall l k nk, hd_error l = Some k -> nk <= k -> drop nk l = l.
Proof.
  intros [|x t] k nk H L; cbn in *; auto. injection H as ->.
  destruct (Z.ltb_spec k nk); [lia|auto].
Qed.

Lemma adjust_rows : forall cs nk, chunks_ok cs -> rows_of (adjust nk cs) = drop nk (rows_of cs).
Proof.
  intros cs nk O. unfold adjust. rewrite item_rows.
  destruct (rows_of cs) as [|k t] eqn:E; cbn [hd_error].
  - rewrite E. reflexivity.
  - destruct (Z.leb_spec nk k) as [L|G].
    + rewrite E. symmetry. apply (drop_id _ k); auto.
    + rewrite walk_rows, skip_rows by exact O. rewrite E. reflexivity.
Qed.

Lemma adjust_ok : forall cs nk, chunks_ok cs -> chunks_ok (adjust nk cs).
Proof.
  intros cs nk O. unfold adjust. destruct (item cs); auto.
  destruct (nk <=? z); auto. apply walk_ok, skip_ok, O.
Qed.

Lemma wanted_in : forall bm k, wanted bm k = true <-> In k bm.
Proof.
  intros bm k. unfold wanted. rewrite existsb_exists. split.
  - intros (x & I & E). apply Z.eqb_eq in E. subst. exact I.
  - intro I. exists k. rewrite Z.eqb_refl. auto.
Qed.

Lemma next_some : forall bm lo k nk, asc lo bm -> next_wanted bm k = Some nk ->
  k <= nk /\ In nk bm /\ forall x, In x bm -> k <= x -> nk <= x.
Proof.
  induction bm as [|b t IH]; intros lo k nk A H; cbn in *; [discriminate|].
  destruct A as [A1 A2]. destruct (Z.leb_spec k b) as [L|G].
  - injection H as <-. split; [exact L|split; [auto|]].
    intros x [<-|I] _; [lia|]. pose proof (asc_ge _ _ _ A2 I). lia.
  - destruct (IH _ _ _ A2 H) as (X & Y & W). split; [exact X|split; [auto|]].
    intros x [<-|I] Lx; [lia|auto].
Qed.

Lemma next_none : forall bm k, next_wanted bm k = None -> forall x, In x bm -> x < k.
Proof.
  intros bm k H x I. pose proof (find_none _ _ H x I) as E. cbn in E. lia.
Qed.

(** Nothing wanted lies between [k] and the next wanted key. *)
Lemma filter_drop : forall bm l lo nk, asc lo l ->
  (forall x, In x bm -> lo <= x -> nk <= x) ->
  filter (wanted bm) (drop nk l) = filter (wanted bm) l.
Proof.
  intros bm. induction l as [|x t IH]; intros lo nk A H; cbn; auto. destruct A as [A1 A2].
  destruct (Z.ltb_spec x nk) as [L|G]; [|reflexivity].
  destruct (wanted bm x) eqn:E.
  - apply wanted_in in E. specialize (H x E A1). lia.
  - apply (IH (x + 1)); auto. intros y I Ly. apply H; [auto|lia].
Qed.

Lemma filter_none : forall bm l lo, asc lo l -> (forall x, In x bm -> x < lo) ->
  filter (wanted bm) l = [].
Proof.
  intros bm. induction l as [|x t IH]; intros lo A H; cbn; auto. destruct A as [A1 A2].
  destruct (wanted bm x) eqn:E.
  - apply wanted_in in E. specialize (H x E). lia.
  - apply (IH (x + 1)); auto. intros y I. specialize (H y I). lia.
Qed.

Lemma filter_asc : forall f l lo, asc lo l -> asc lo (filter f l).
Proof.
  intros f. induction l as [|x t IH]; intros lo A; cbn; auto. destruct A as [A1 A2].
  destruct (f x); cbn; [auto|]. apply (asc_weak _ (x + 1)); [auto|lia].
Qed.

Lemma filter_gt_asc : forall l lo k, asc lo l -> asc (k + 1) (filter (fun x => negb (x <=? k)) l).
Proof.
  induction l as [|x t IH]; intros lo k A; cbn; auto. destruct A as [A1 A2].
  destruct (Z.leb_spec x k) as [L|G]; cbn; [eauto|]. split; [lia|].
  apply filter_asc. exact A2.
Qed.

Lemma drop_len : forall l nk, (length (drop nk l) <= length l)%nat.
Proof. induction l as [|x t IH]; intro nk; cbn; auto. destruct (x <? nk); cbn; [specialize (IH nk)|]; lia. Qed.

(** What is left to return: [todo] holds the rows of the leaf after the last
    key processed that have not been passed over. *)
Lemma bwalk_good : forall n bm rows fails last cs lo b,
  (length (rows_of cs) < n)%nat -> asc b bm -> chunks_ok cs ->
  asc lo rows -> asc (match last with Some k => k + 1 | None => lo end) (rows_of cs) ->
  filter (wanted bm) (resume rows last) = filter (wanted bm) (rows_of cs) ->
  let r := bwalk n bm rows fails last cs in
  asc (match last with Some k => k + 1 | None => lo end) r /\
  filter (wanted bm) r = filter (wanted bm) (rows_of cs) /\
  (forallb negb fails = true -> r = filter (wanted bm) (rows_of cs)).
Proof.
  induction n as [|n IH]; intros bm rows fails last cs lo b N Ab O Ar Ac Eq; [lia|].
  cbv zeta. cbn [bwalk]. rewrite item_rows.
  destruct (rows_of cs) as [|k t] eqn:E; cbn [hd_error].
  - cbn. auto.
  - destruct (hd false fails) eqn:Fh.
    + split; [|split].
      * destruct last as [z|]; cbn [resume]; [eapply filter_gt_asc; eauto|exact Ar].
      * exact Eq.
      * destruct fails as [|f fs]; cbn in Fh; [discriminate|]. subst f. cbn. discriminate.
    + assert (Ft : forallb negb fails = true -> forallb negb (tl fails) = true).
      { destruct fails as [|f fs]; cbn; auto. intro H. apply andb_true_iff in H. tauto. }
      assert (Ak : asc k (k :: t)) by (cbn in Ac |- *; split; [lia|tauto]).
      assert (Lk : match last with Some k => k + 1 | None => lo end <= k) by (cbn in Ac; tauto).
      destruct (next_wanted bm k) as [nk|] eqn:Nx.
      * destruct (next_some _ _ _ _ Ab Nx) as (N1 & N2 & N3).
        assert (FD : filter (wanted bm) (drop nk (k :: t)) = filter (wanted bm) (k :: t))
          by (apply (filter_drop bm (k :: t) k nk Ak N3)).
        assert (RA : rows_of (adjust nk cs) = drop nk (k :: t)) by (rewrite adjust_rows, E by exact O; reflexivity).
        assert (OA := adjust_ok cs nk O).
        assert (AD := drop_asc (k :: t) k nk Ak).
        assert (LD := drop_len (k :: t) nk).
        rewrite item_rows, RA, <- FD.
        destruct (drop nk (k :: t)) as [|k' t'] eqn:D; cbn [hd_error].
        -- cbn. auto.
        -- destruct (Z.eqb_spec k' nk) as [->|Ne].
           ++ assert (RV : rows_of (advance (adjust nk cs)) = t') by (rewrite advance_rows, RA; reflexivity).
              cbn [asc] in AD. destruct AD as [_ AD].
              assert (W : wanted bm nk = true) by (apply wanted_in; exact N2).
              destruct (IH bm rows (tl fails) (Some nk) (advance (adjust nk cs)) lo b) as (G1 & G2 & G3); auto.
              ** rewrite RV. cbn [length] in *. lia.
              ** apply advance_ok, OA.
              ** rewrite RV. exact AD.
              ** rewrite RV. rewrite <- FD in Eq. cbn [filter] in Eq. rewrite W in Eq.
                 (* rows after nk among those still due *)
                 assert (R1 : filter (wanted bm) (resume rows (Some nk)) =
                              filter (fun x => negb (x <=? nk)) (filter (wanted bm) (resume rows last))).
                 { cbn [resume]. destruct last as [z|]; cbn [resume].
                   - clear - N1 Lk. induction rows as [|x xs IHx]; cbn; auto.
                     destruct (x <=? z) eqn:X1; destruct (x <=? nk) eqn:X2; cbn; try (exfalso; lia);
                       destruct (wanted bm x) eqn:X3; cbn; rewrite ?X2; cbn; rewrite ?IHx; auto.
                   - clear. induction rows as [|x xs IHx]; cbn; auto.
                     destruct (x <=? nk) eqn:X2; destruct (wanted bm x) eqn:X3; cbn;
                       rewrite ?X2, ?X3; cbn; rewrite ?IHx; auto. }
                 rewrite R1, Eq. cbn [filter]. replace (nk <=? nk) with true by lia. cbn [negb].
                 clear - AD. assert (H : forall x, In x (filter (wanted bm) t') -> nk < x).
                 { intros x I. apply filter_In in I. pose proof (asc_ge _ _ _ AD (proj1 I)). lia. }
                 induction (filter (wanted bm) t') as [|x xs IHx]; cbn; auto.
                 pose proof (H x (or_introl eq_refl)). replace (x <=? nk) with false by lia. cbn.
                 rewrite IHx; auto. intros y I. apply H. cbn. auto.
              ** rewrite RV in G2, G3. cbn [asc filter]. rewrite W. split; [|split].
                 --- split; [lia|exact G1].
                 --- rewrite G2. reflexivity.
                 --- intro Hf. rewrite (G3 (Ft Hf)). reflexivity.
           ++ assert (Kn : k < nk).
              { destruct (Z.eq_dec k nk) as [Ek|]; [|lia]. subst nk. cbn in D.
                destruct (Z.ltb_spec k k); [lia|]. congruence. }
              assert (LT : (length (drop nk (k :: t)) <= length t)%nat).
              { cbn. destruct (Z.ltb_spec k nk); [apply drop_len|lia]. }
              rewrite D in LT.
              destruct (IH bm rows (tl fails) last (adjust nk cs) lo b) as (G1 & G2 & G3); auto.
              ** rewrite RA. cbn [length] in *. lia.
              ** rewrite RA. apply (asc_weak _ nk); [exact AD|lia].
              ** rewrite RA, FD. exact Eq.
              ** rewrite RA in G2, G3. auto.
      * assert (F0 : filter (wanted bm) (k :: t) = [])
          by (apply (filter_none bm (k :: t) k Ak); apply next_none; exact Nx).
        rewrite F0. cbn. auto.
Qed.

(** For every leaf, bitmap and sequence of failing chunk loads: the rows
    come in strictly ascending order, so no row twice; every row of the
    bitmap is among them; and if no load fails there is nothing else. *)
Theorem C55_bitmap_leaf_rows : forall lo b bm fails cs,
  asc b bm -> chunks_ok cs -> asc lo (rows_of cs) ->
  let r := bitmap_leaf bm fails cs in
  asc lo r /\
  (forall k, In k (rows_of cs) -> In k bm -> In k r) /\
  (forall k, In k r -> In k bm -> In k (rows_of cs)) /\
  (forallb negb fails = true -> forall k, In k r <-> In k (rows_of cs) /\ In k bm).
Proof.
  intros lo b bm fails cs Ab O A r.
  destruct (bwalk_good (S (length (rows_of cs))) bm (rows_of cs) fails None cs lo b) as (G1 & G2 & G3); auto.
  fold (bitmap_leaf bm fails cs) in G1, G2, G3. fold r in G1, G2, G3. clearbody r.
  split; [exact G1|split; [|split]].
  - intros k I W. apply wanted_in in W.
    assert (F : In k (filter (wanted bm) r)) by (rewrite G2; apply filter_In; auto).
    apply filter_In in F. tauto.
  - intros k I W. apply wanted_in in W.
    assert (F : In k (filter (wanted bm) (rows_of cs))) by (rewrite <- G2; apply filter_In; auto).
    apply filter_In in F. tauto.
  - intros Hf k. rewrite (G3 Hf), filter_In, wanted_in. reflexivity.
Qed.

(** Three chunks; the load fails after two rows were returned. *)
Definition cs0 := [mkC [1; 3; 5] 8; mkC [8; 9] 12; mkC [14; 20; 21] 30].

Example C55_case :
  bitmap_leaf [3; 7; 9; 20; 40] [] cs0 = [3; 9; 20] /\
  bitmap_leaf [3; 7; 9; 20; 40] [false; false; false; true] cs0 = [3; 9; 14; 20; 21] /\
  asc 0 (rows_of cs0) /\ chunks_ok cs0 /\ asc 0 [3; 7; 9; 20; 40].
Proof.
  split; [vm_compute; reflexivity|]. split; [vm_compute; reflexivity|].
  split; [cbn; lia|]. split; [|cbn; lia].
  cbn. repeat split; intros; lia.
Qed.

Print Assumptions C55_bitmap_leaf_rows.
