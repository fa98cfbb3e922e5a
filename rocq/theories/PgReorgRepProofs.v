(** Proofs for C18: a page written anew represents the items given. *)
From Coq Require Import ZArith List Bool Lia ZifyBool.
From Verif Require Import Base PgChunkModel PgChunkSpec PgChunkProofs PgChunkOpProofs PgChunkRunProofs.
From Verif Require Import PgReorgModel PgReorgSpec PgReorgProofs PgReorgPutProofs.
Import ListNotations.
Open Scope Z_scope.

Lemma good_ok : forall x, good x = true -> ok_item x.
Proof.
  intros x G. unfold good in G. unfold ok_item. apply andb_true_iff in G. destruct G as [G1 G2].
  split; [unfold flag01 in G1; lia|]. unfold even8 in G2. unfold bytes.
  assert (N : (length (snd x) mod 4 = 0)%nat) by lia.
  assert (M : zl (snd x) mod 4 = 0) by (change 4 with (Z.of_nat 4); rewrite <- Nat2Z.inj_mod; lia).
  assert (1 <= zl (snd x)) by lia. clear - M H. split; dlia.
Qed.

Lemma good_fine : forall m r, good (rread m r) = true -> fine r.
Proof. intros m r G. apply good_ok in G. unfold ok_item in G. rewrite bytes_rread in G. exact G. Qed.

Section Groups.
Variables (m0 : mem) (mk : item -> item) (hk : item).

Fixpoint rgroups (cs : list (list ritem)) : list group :=
  match cs with
  | [] => []
  | c :: t => (map (rread m0) c, match t with [] => hk | d :: _ => kof m0 mk d end) :: rgroups t
  end.

Lemma rg_len : forall cs, length (rgroups cs) = length cs.
Proof. induction cs; cbn; auto. Qed.
Lemma rg_items : forall cs, items (rgroups cs) = map (rread m0) (concat cs).
Proof. induction cs; [reflexivity|]. cbn [rgroups items flat_map concat fst]. fold (items (rgroups cs)). rewrite IHcs, map_app. reflexivity. Qed.
Lemma rg_cnt : forall cs, cnt (rgroups cs) = len (concat cs).
Proof. induction cs; [reflexivity|]. cbn [rgroups concat]. rewrite cnt_cons, IHcs, zl_app. cbn [fst]. rewrite count_map. reflexivity. Qed.
Lemma rg_data : forall cs, data_bytes (rgroups cs) = cdata cs.
Proof.
  induction cs; [reflexivity|]. cbn [rgroups]. rewrite data_cons, cdata_cons, IHcs. unfold group_bytes. cbn [fst].
  rewrite count_map, total_map. reflexivity.
Qed.
Lemma rg_keys : forall t c, keys_sz (rgroups (c :: t)) = kk m0 mk t + bytes hk.
Proof.
  induction t as [|d t IH]; intros c.
  - cbn [rgroups keys_sz fold_right snd kk]. lia.
  - change (rgroups (c :: d :: t)) with ((map (rread m0) c, kof m0 mk d) :: rgroups (d :: t)).
    rewrite keys_cons, IH, kk_cons. cbn [snd]. lia.
Qed.

Lemma rg_split : forall cs A g C, rgroups cs = A ++ g :: C -> exists A' c C', cs = A' ++ c :: C' /\ length A' = length A /\
  fst g = map (rread m0) c /\ snd g = match C' with [] => hk | d :: _ => kof m0 mk d end /\
  cnt A = len (concat A') /\ data_bytes A = cdata A' /\ keys_sz A = kk m0 mk (tl (A' ++ [c])).
Proof.
  induction cs as [|c0 t IH]; intros A g C E; [destruct A; discriminate|].
  cbn [rgroups] in E. destruct A as [|a A].
  - cbn in E. injection E; intros E1 E2. subst g. exists [], c0, t. cbn. auto 10.
  - cbn in E. injection E; intros E1 E2. destruct (IH _ _ _ E1) as (A' & c & C' & ET & L & F & S & N & D & K).
    exists (c0 :: A'), c, C'. rewrite ET. cbn [app length]. repeat split; auto.
    + rewrite cnt_cons, N. cbn [concat]. rewrite zl_app, <- E2. cbn [fst]. rewrite count_map. reflexivity.
    + rewrite data_cons, cdata_cons, D, <- E2. unfold group_bytes. cbn [fst]. rewrite count_map, total_map. reflexivity.
    + rewrite keys_cons, K, <- E2, ET. cbn [snd tl]. destruct A' as [|a' A']; cbn [app tl kk fold_right]; lia.
Qed.

Lemma rg_keyed : forall t c, Forall (fun c => c <> []) t -> keyed mk hk (rgroups (c :: t)).
Proof.
  induction t as [|d t IH]; intros c F; [reflexivity|]. inversion F; subst.
  change (rgroups (c :: d :: t)) with ((map (rread m0) c, kof m0 mk d) :: rgroups (d :: t)).
  specialize (IH d H2). cbn [keyed]. destruct d as [|r d]; [congruence|].
  change (rgroups ((r :: d) :: t)) with ((rread m0 r :: map (rread m0) d, match t with [] => hk | e :: _ => kof m0 mk e end) :: rgroups t) in *.
  split; [reflexivity|exact IH].
Qed.

Lemma kk_app : forall a b, kk m0 mk (a ++ b) = kk m0 mk a + kk m0 mk b.
Proof. induction a; intros; [reflexivity|]. cbn [app]. rewrite !kk_cons, IHa. lia. Qed.
End Groups.

Lemma mkdescs_nth : forall cs A' c C' off a kss h f dflt, cs = A' ++ c :: C' -> nth_error kss (length A') = Some (h, f) ->
  nth (length A') (mkdescs off (layout a cs) kss) dflt = mkd (short (a + cdata A')) (off + len (concat A')) (short h) f.
Proof.
  induction cs as [|c0 t IH]; intros A' c C' off a kss h f dflt E N; [destruct A'; discriminate|].
  destruct A' as [|a0 A']; cbn in E; injection E; intros; subst.
  - destruct kss as [|[h0 f0] kss]; [discriminate|]. cbn in N. injection N; intros; subst.
    cbn [layout mkdescs length nth cdata fold_right concat Z.of_nat]. rewrite !Z.add_0_r. reflexivity.
  - destruct kss as [|[h0 f0] kss]; [discriminate|]. cbn in N.
    cbn [layout mkdescs length nth]. rewrite (IH A' c C' _ _ kss h f dflt eq_refl N). rewrite cdata_cons, dests_len. cbn [concat]. rewrite zl_app.
    f_equal; [f_equal|]; lia.
Qed.

Lemma cdata_arrs : forall cs, cdata cs = arrs cs + rtotal (concat cs).
Proof.
  induction cs; [reflexivity|]. cbn [cdata arrs fold_right concat]. fold (cdata cs) (arrs cs). rewrite IHcs, rtotal_app. lia.
Qed.
Lemma arrs_mod : forall cs, arrs cs mod 8 = 0.
Proof.
  induction cs; [reflexivity|]. cbn [arrs fold_right]. fold (arrs cs). pose proof (arr_facts (len a) ltac:(lia)). clear - IHcs H. dlia.
Qed.
Lemma hkeys_kk : forall m0 mk t, hkeys (fun y => 2 * len (snd (mk (rread m0 y)))) t = kk m0 mk t.
Proof. induction t; [reflexivity|]. cbn [hkeys kk fold_right]. fold (hkeys (fun y => 2 * len (snd (mk (rread m0 y)))) t) (kk m0 mk t). rewrite IHt. destruct a; reflexivity. Qed.

Lemma chunks_ok : forall mk p its ws, (pg_lim p = 256 \/ pg_lim p = 512) -> (2 * len ws) mod 8 = 0 ->
  Forall (fun r => fine r) its -> (forall x, 8 <= bytes (mk x)) -> fits_all p its ws = true ->
  (pg_right p = true -> ws = []) -> (pg_right p = false -> 8 <= 2 * len ws) ->
  exists c t, chunks mk p its ws = c :: t /\ concat (c :: t) = its /\ Forall (fun c => c <> []) t /\
    descs_end (1 + len t) + kk (pg_m p) mk t + 2 * len ws <= area p ws /\
    descs_end (1 + len t) + kk (pg_m p) mk t < 512 /\ area p ws + cdata (c :: t) <= 8192.
Proof.
  intros mk p its ws HL H8 F K FI HR HN. unfold chunks. unfold fits_all, blcksz in FI. set (e := area p ws) in *.
  assert (EE : e = Z.max (pg_lim p) (64 + 2 * len ws)) by reflexivity. change (descs_end 1) with 64.
  assert (E8 : e mod 8 = 0).
  { rewrite EE. destruct (Z.max_spec (pg_lim p) (64 + 2 * len ws)) as [[_ ->]|[_ ->]]; [clear - H8; dlia|destruct HL as [-> | ->]; reflexivity]. }
  destruct its as [|x r].
  - exists [], []. split; [reflexivity|]. split; [reflexivity|]. split; [constructor|].
    change (descs_end (1 + len (@nil (list ritem)))) with 64. cbn [kk fold_right cdata].
    change (arr_sz (len (@nil ritem))) with 0 in *. cbn [rtotal fold_right] in *. lia.
  - set (its := x :: r) in *. set (hl := e - (64 + 2 * len ws)).
    set (hfree := if pg_right p && (e =? 512) && (4 <=? hl) then hl - 4 else hl).
    set (dl := blcksz - e - rtotal its - arr_sz (len its)).
    assert (F2 : Forall (fun r => 8 <= rsize r) ([x] ++ r)).
    { change ([x] ++ r) with its. apply Forall_forall. intros y I. rewrite Forall_forall in F. apply (F y I). }
    destruct (choose_ok (fun y => 2 * len (snd (mk (rread (pg_m p) y)))) (rtotal its) hfree dl r [x] 1 hl dl)
      as (c & t & E & _ & CC & NN & HK & (w & wl & W1 & W2 & W3) & (cl & L1 & L2 & L3)); auto.
    { intros y. apply (K (rread (pg_m p) y)). }
    { discriminate. }
    { lia. }
    { unfold hl. lia. }
    { unfold dl, blcksz. lia. }
    exists c, t. split; [exact E|]. split; [exact CC|]. split; [inversion NN; auto|].
    rewrite hkeys_kk in HK, L1. change ([x] ++ r) with its in *.
    assert (D1 : descs_end 1 = 64) by reflexivity. rewrite D1 in HK.
    pose proof (kk_nn (pg_m p) mk t) as KN.
    split; [unfold hl in HK; lia|]. split.
    + assert (C : (64 + 2 * len ws <= pg_lim p) \/ e = 64 + 2 * len ws) by lia.
      destruct (pg_right p) eqn:R.
      * specialize (HR eq_refl). subst ws. cbn [length Z.of_nat] in *.
        assert (C2 : e = pg_lim p) by lia. destruct HL as [HL|HL]; [unfold hl in HK; lia|].
        assert (HF : hfree = 444).
        { unfold hfree, hl. rewrite C2, HL. reflexivity. }
        rewrite HF in L1.
        assert (T : 0 <= rtotal its) by apply rtotal_nn.
        assert (X : kk (pg_m p) mk t + 4 * len t < 444) by nia.
        assert (Y : descs_end (1 + len t) <= 64 + 4 * len t) by (unfold descs_end, ma, desc_at; clear; dlia). lia.
      * specialize (HN eq_refl). unfold hl in HK. destruct C as [C|C]; lia.
    + rewrite cdata_arrs, CC. unfold dl, blcksz in W1.
      pose proof (arrs_mod (c :: t)) as AM. pose proof (arr_facts (len its) ltac:(lia)) as (A1 & A2 & A3 & _).
      assert (T8 : rtotal its mod 8 = 0).
      { clear - F. induction F as [|y l [_ [FY _]] FF IH]; [reflexivity|]. rewrite rtotal_cons. dlia. }
      assert (AQ : exists q, arr_sz (len its) = 8 * q /\ 2 * len its <= 8 * q <= 2 * len its + 6).
      { exists (arr_sz (len its) / 8). unfold arr_sz, ma. clear. dlia. }
      destruct AQ as (q & Q1 & Q2). rewrite Q1 in *.
      clear - W1 W2 W3 AM E8 T8 Q2. dlia.
Qed.
