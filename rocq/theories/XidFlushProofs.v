(** Invariants of the status-map flush: the steps of the flush itself. *)
From Coq Require Import ZArith List Bool Lia.
From Coq Require Import ZifyBool ZifyNat.
From Verif Require Import Base XidFlushModel XidFlushSpec XidFlushLemmas.
Import ListNotations.
Open Scope Z_scope.

Section Proofs.
Variables (S N : Z).
Hypothesis HS : 0 < S.
Hypothesis HN : 0 < N.

Notation step := (step S N).
Notation slot := (slot S N).
Notation rp := (rp S N).
Notation C := (C S N).
Notation Inv := (Inv S N).
Notation okv := (okv S N).
Notation flok := (flok S).
Notation midok := (midok S N).
Notation passok := (passok S).
Notation FC := (FC S).
Notation gbuf := (gbuf S).
Notation copied := (copied S N).
Notation w2 := (w2 S).

Notation i_ord := (i_ord S N).
Notation i_lk := (i_lk S N).
Notation i_fl := (i_fl S N).
Notation i_act := (i_act S N).
Notation i_ini := (i_ini S N).
Notation i_page := (i_page S N).
Notation i_pc := (i_pc S N).
Notation i_fin := (i_fin S N).
Notation i_nini := (i_nini S N).
Notation i_slow := (i_slow S N).
Notation i_ring := (i_ring S N).
Notation i_buf := (i_buf S N).
Notation i_clean := (i_clean S N).
Notation i_dirty := (i_dirty S N).
Notation i_mid := (i_mid S N).
Notation i_cand := (i_cand S N).
Notation i_pass := (i_pass S N).

Ltac fr H := first [ exact (i_ord _ H) | exact (i_lk _ H) | exact (i_fl _ H) | exact (i_act _ H) | exact (i_ini _ H)
  | exact (i_page _ H) | exact (i_pc _ H) | exact (i_fin _ H) | exact (i_nini _ H) | exact (i_slow _ H) | exact (i_ring _ H)
  | exact (i_buf _ H) | exact (i_clean _ H) | exact (i_dirty _ H) | exact (i_mid _ H) | exact (i_cand _ H) | exact (i_pass _ H) ].

Lemma begin_inv : forall s a b, Inv s -> fl s = FIdle -> G s <= a -> a < b ->
  Inv (mk (ring s) (bit s) (W s) (I s) (G s) (cache s) (file s) (dur s) (ini s) (lk s) (pcs s)
         (if b <=? Z.max a (W s) then FSync (a / S) else FLoop (down S (Z.max a (W s))) (Z.min (up S b) (down S (Z.max a (W s)) + C)))
         a b (fin s) (fun x => match fin s x with Some f => f :: pend (pcs s x) | None => [] end) (haz s)).
Proof.
  intros s a b H EF Ha Hab.
  set (s' := mk _ _ _ _ _ _ _ _ _ _ _ _ _ _ _ _ _).
  set (lo := down S (Z.max a (W s))) in *. set (hi := Z.min (up S b) (lo + C)) in *.
  pose proof (down_eq S HS (Z.max a (W s))) as DE. pose proof (div_bounds S HS (Z.max a (W s))) as DB.
  fold lo in DE.
  assert (EF' : (b <= Z.max a (W s) /\ fl s' = FSync (a / S)) \/ fl s' = FLoop lo hi).
  { cbn. destruct (b <=? Z.max a (W s)) eqn:E; [left|right]; auto. split; auto. lia. }
  assert (GB : forall y, gbuf s' y = gbuf s y).
  { intros y. unfold XidFlushLemmas.gbuf. rewrite EF. destruct EF' as [[_ ->]| ->]; reflexivity. }
  assert (MID : forall q, mid S s' q = false) by (intros q; unfold mid; destruct EF' as [[_ ->]| ->]; reflexivity).
  assert (MID0 : forall q, mid S s q = false) by (intros q; unfold mid; rewrite EF; reflexivity).
  constructor; try fr H.
  - unfold XidFlushLemmas.flok. destruct EF' as [[_ ->]| ->]; auto. rewrite DE, Z.mul_comm. apply Z.mod_mul. lia.
  - intros _. cbn. lia.
  - intros x Hx. destruct (i_nini _ H x Hx) as [A B]. split; [exact A|]. cbn. rewrite A. reflexivity.
  - intros x Hi Hc. rewrite GB. apply (i_buf _ H); auto.
  - intros x d Hi Hc Hca _. apply (i_clean _ H x d); auto. unfold XidFlushLemmas.w2. rewrite EF. reflexivity.
  - intros x Hi Hc. rewrite MID. pose proof (i_dirty _ H x Hi Hc) as D. rewrite MID0 in D. exact D.
  - unfold XidFlushLemmas.midok. destruct EF' as [[_ ->]| ->]; exact Logic.I.
  - intros x Hn. cbn in *. destruct (fin s x) as [f|] eqn:E; [|congruence]. split.
    + exists f. cbn. auto.
    + intros v Hv. cbn. auto.
  - unfold XidFlushLemmas.passok.
    destruct EF' as [[Hb ->]| ->].
    + split.
      * intros x [[Hx1 Hx2] _]. cbn in *. right. lia.
      * intros x [[Hx1 Hx2] _] Hq. cbn in *. pose proof (div_le S HS a x Hx1). lia.
    + split.
      * intros x [[Hx1 Hx2] _] Hl. cbn in *. right. lia.
      * intros x [[Hx1 Hx2] Hn]. cbn in Hx1, Hx2. left.
        assert (Hi : ini s x = true).
        { destruct (ini s x) eqn:E; auto. destruct (i_nini _ H x E) as [A _]. exfalso. apply Hn. cbn. rewrite A. reflexivity. }
        pose proof (i_page _ H x Hi). unfold hi, XidFlushModel.C, up.
        pose proof (div_bounds S HS (b + S - 1)). pose proof (div_bounds S HS x).
        assert (W s / S <= Z.max a (W s) / S) by (apply div_le; lia).
        assert (x < S * (W s / S + N)) by nia. nia.
Qed.

Lemma lock_inv : forall s l, Inv s -> (exists pos hi, fl s = FLoop pos hi) ->
  (lk s = LFree /\ l = LFlush) \/ (lk s = LFlush /\ l = LFree) -> Inv (set_lk s l).
Proof.
  intros s l H (pos & hi & EF) Hl.
  assert (EC : cur (set_lk s l) = cur s) by (unfold cur; cbn; destruct Hl as [[-> ->]|[-> ->]]; reflexivity).
  pose proof (i_lk _ H) as L.
  constructor; try fr H; try (rewrite EC; fr H).
  - cbn. destruct Hl as [[E ->]|[E ->]]; rewrite E in L; exact L.
  - unfold XidFlushLemmas.flok. cbn. pose proof (i_fl _ H) as F. unfold XidFlushLemmas.flok in F. rewrite EF in *. exact F.

Qed.

(** Moving the flush between states that are not in the middle of a page. *)
Lemma setfl_inv : forall s c, Inv s ->
  (match fl s with FLoop _ _ | FSync _ | FIdle | FDone => True | _ => False end) ->
  (match c with FLoop pos _ => pos mod S = 0 | FSync _ | FIdle | FDone => True | _ => False end) ->
  (fl s = FIdle -> c = FIdle) ->
  passok (set_fl s c) ->
  Inv (set_fl s c).
Proof.
  intros s c H Hs Hc Hid P.
  assert (GB : forall y, gbuf (set_fl s c) y = gbuf s y).
  { intros y. unfold XidFlushLemmas.gbuf. cbn. destruct c; try contradiction; destruct (fl s); try contradiction; reflexivity. }
  assert (MID : forall q, mid S (set_fl s c) q = false) by (intros q; unfold mid; cbn; destruct c; try contradiction; reflexivity).
  assert (MID0 : forall q, mid S s q = false) by (intros q; unfold mid; destruct (fl s); try contradiction; reflexivity).
  constructor; try fr H; try exact P.
  - unfold XidFlushLemmas.flok. cbn. destruct c; try contradiction; auto.
  - intros A. apply (i_act _ H). cbn in A. unfold flush_active in *. destruct (fl s); auto. cbn in A.
    rewrite (Hid eq_refl) in A. exact A.
  - intros x Hi Hcu. rewrite GB. apply (i_buf _ H); auto.
  - intros x d Hi Hcu Hca _. apply (i_clean _ H x d); auto. unfold XidFlushLemmas.w2. destruct (fl s); try contradiction; reflexivity.
  - intros x Hi Hcu. rewrite MID. pose proof (i_dirty _ H x Hi Hcu) as D. rewrite MID0 in D. exact D.
  - unfold XidFlushLemmas.midok. cbn. destruct c; try contradiction; exact Logic.I.
Qed.

Lemma skip_inv : forall s pos hi, Inv s -> fl s = FLoop pos hi -> lk s = LFlush ->
  pos + S <= W s \/ bit s (rp pos) = false -> Inv (set_fl s (FLoop (pos + S) hi)).
Proof.
  intros s pos hi H EF EL Hsk.
  pose proof (i_fl _ H) as F. unfold XidFlushLemmas.flok in F. rewrite EF in F.
  pose proof (i_pass _ H) as P. unfold XidFlushLemmas.passok in P. rewrite EF in P.
  assert (EC : cur s = W s) by (unfold cur; rewrite EL; reflexivity).
  apply setfl_inv; auto; try (rewrite EF; auto; discriminate).
  - rewrite Z.add_mod, F, Z.mod_same by lia. reflexivity.
  - unfold XidFlushLemmas.passok. cbn. destruct P as [P1 P2]. split; [|exact P2].
    intros x Hx Hl. destruct (Z_lt_dec x pos) as [E|E]; [apply (P1 x Hx E)|].
    destruct (Z_lt_dec x (W s)) as [E1|E1]; [right; auto|]. left.
    destruct Hsk as [Hsk|Hsk]; [lia|].
    destruct Hx as [Hr Hn]. change (cand s x <> []) in Hn.
    pose proof (cand_ini _ _ _ _ H Hn) as Hi.
    assert (Ep : x / S = pos / S) by (apply page_range; auto; lia).
    destruct (i_dirty _ H x Hi ltac:(lia)) as [D|[D|[D1 D2]]].
    + rewrite (rp_eq S N HS HN x), Ep, <- (rp_eq S N HS HN pos) in D. congruence.
    + unfold mid in D. rewrite EF in D. discriminate.
    + split.
      * apply (okv_cand S N s x); auto. lia.
      * intros d b Hd. apply (okv_cand S N s x); auto; [lia|]. eapply D2. exact Hd.
Qed.


(** Entering a page: the dirty bit is cleared. *)
Lemma enter_inv : forall s pos hi loc, Inv s -> fl s = FLoop pos hi -> lk s = LFlush -> W s < pos + S ->
  pos < down S (W s) + C ->
  (forall x, ini s x = true -> x / S = pos / S -> G s <= x < W s -> bufok (pcs s x) (fin s x) (loc x)) ->
  Inv (set_fl (set_bit s (rp pos) false) (FCopy pos hi 0 loc)).
Proof.
  intros s pos hi loc H EF EL HW HW2 Hloc.
  set (s' := set_fl (set_bit s (rp pos) false) (FCopy pos hi 0 loc)).
  pose proof (i_fl _ H) as F. unfold XidFlushLemmas.flok in F. rewrite EF in F.
  pose proof (i_pass _ H) as P. unfold XidFlushLemmas.passok in P. rewrite EF in P.
  pose proof (i_ord _ H) as (O1 & O2 & O3).
  pose proof (mult_div S HS pos F) as MD. pose proof (down_eq S HS (W s)) as DW. pose proof (div_bounds S HS (W s)) as DB.
  assert (EC : cur s = W s) by (unfold cur; rewrite EL; reflexivity).
  assert (GB : forall y, gbuf s' y = gbuf s y) by (intros y; unfold XidFlushLemmas.gbuf; cbn; rewrite EF; reflexivity).
  constructor; try fr H.
  - unfold XidFlushLemmas.flok. cbn. repeat split; auto; lia.
  - intros _. apply (i_act _ H). unfold flush_active. rewrite EF. reflexivity.
  - intros x Hi Hc. rewrite GB. apply (i_buf _ H); auto.
  - intros x d Hi Hc Hca _. apply (i_clean _ H x d); auto. unfold XidFlushLemmas.w2. rewrite EF. reflexivity.
  - intros x Hi Hc. change (cur s') with (cur s) in Hc. change (ini s' x) with (ini s x) in Hi.
    destruct (Z.eq_dec (x / S) (pos / S)) as [E|E].
    + right. left. unfold mid. cbn. lia.
    + destruct (i_dirty _ H x Hi Hc) as [D|[D|D]].
      * left. cbn. rewrite upd_other; [exact D|]. intros ER. apply E.
        apply (rp_page S N HS HN (W s)); auto; [eapply live_page; eauto; lia|].
        unfold XidFlushModel.C in HW2. split; nia.
      * unfold mid in D. rewrite EF in D. discriminate.
      * right. right. exact D.
  - unfold XidFlushLemmas.midok. cbn. intros x Hi Hp. split; [apply Hloc; auto|].
    intros. assert (pos <= x < pos + S) by (apply page_range; auto). lia.
  - unfold XidFlushLemmas.passok. cbn. exact P.
Qed.

Lemma slot_inv : forall s pos hi k loc, Inv s -> fl s = FCopy pos hi k loc -> k < S ->
  Inv (set_fl s (FCopy pos hi (k + 1)
         (if (pos <? W s) && (pos + k <? W s) then loc else upd loc (pos + k) (ring s (slot (pos + k)))))).
Proof.
  intros s pos hi k loc H EF Hk.
  set (loc' := if _ : bool then _ else _).
  set (s' := set_fl s (FCopy pos hi (k + 1) loc')).
  pose proof (i_fl _ H) as F. unfold XidFlushLemmas.flok in F. rewrite EF in F. destruct F as (F1 & F2 & F3 & F4).
  pose proof (i_pass _ H) as P. unfold XidFlushLemmas.passok in P. rewrite EF in P.
  pose proof (i_mid _ H) as M. unfold XidFlushLemmas.midok in M. rewrite EF in M.
  assert (EC : cur s = W s) by (unfold cur; rewrite F2; reflexivity).
  assert (GB : forall y, gbuf s' y = gbuf s y) by (intros y; unfold XidFlushLemmas.gbuf; cbn; rewrite EF; reflexivity).
  constructor; try fr H.
  - unfold XidFlushLemmas.flok. cbn. repeat split; auto; lia.
  - intros _. apply (i_act _ H). unfold flush_active. rewrite EF. reflexivity.
  - intros x Hi Hc. rewrite GB. apply (i_buf _ H); auto.
  - intros x d Hi Hc Hca _. apply (i_clean _ H x d); auto. unfold XidFlushLemmas.w2. rewrite EF. reflexivity.
  - intros x Hi Hc. replace (mid S s' (x / S)) with (mid S s (x / S)) by (unfold mid; rewrite EF; reflexivity).
    apply (i_dirty _ H x Hi Hc).
  - unfold XidFlushLemmas.midok. cbn. intros x Hi Hp. destruct (M x Hi Hp) as [M1 M2].
    assert (LX : x <> pos + k -> loc' x = loc x).
    { intros Hne. unfold loc'. destruct ((pos <? W s) && (pos + k <? W s)); auto. apply upd_other. auto. }
    split.
    + intros Hg. destruct (Z.eq_dec x (pos + k)) as [E|E]; [|rewrite LX by auto; auto].
      unfold loc'. rewrite (proj2 (andb_true_iff _ _)); [apply M1; exact Hg|]. lia.
    + intros Hw Hl. destruct (Z.eq_dec x (pos + k)) as [E|E].
      * assert (EL : loc' x = ring s (slot x)).
        { unfold loc'. replace ((pos <? W s) && (pos + k <? W s)) with false by lia. subst x. apply upd_same. }
        split.
        -- right. left. exact EL.
        -- intros Hn. change (cand s' x) with (cand s x) in *. rewrite EL. apply (ring_cand S N); auto. lia.
      * destruct (M2 Hw ltac:(lia)) as [A B]. split; rewrite LX by auto; [exact A|exact B].
  - unfold XidFlushLemmas.passok. cbn. exact P.
Qed.

Lemma copydone_inv : forall s pos hi k loc, Inv s -> fl s = FCopy pos hi k loc -> S <= k ->
  Inv (set_fl s (FW1 pos hi loc)).
Proof.
  intros s pos hi k loc H EF Hk.
  set (s' := set_fl s (FW1 pos hi loc)).
  pose proof (i_fl _ H) as F. unfold XidFlushLemmas.flok in F. rewrite EF in F. destruct F as (F1 & F2 & F3 & F4).
  pose proof (i_pass _ H) as P. unfold XidFlushLemmas.passok in P. rewrite EF in P.
  pose proof (i_mid _ H) as M. unfold XidFlushLemmas.midok in M. rewrite EF in M.
  assert (GB : forall y, gbuf s' y = gbuf s y) by (intros y; unfold XidFlushLemmas.gbuf; cbn; rewrite EF; reflexivity).
  constructor; try fr H.
  - unfold XidFlushLemmas.flok. cbn. auto.
  - intros _. apply (i_act _ H). unfold flush_active. rewrite EF. reflexivity.
  - intros x Hi Hc. rewrite GB. apply (i_buf _ H); auto.
  - intros x d Hi Hc Hca _. apply (i_clean _ H x d); auto. unfold XidFlushLemmas.w2. rewrite EF. reflexivity.
  - intros x Hi Hc. replace (mid S s' (x / S)) with (mid S s (x / S)) by (unfold mid; rewrite EF; reflexivity).
    apply (i_dirty _ H x Hi Hc).
  - unfold XidFlushLemmas.midok. cbn. intros x Hi Hp. destruct (M x Hi Hp) as [M1 M2]. split; [exact M1|].
    intros Hw. assert (pos <= x < pos + S) by (apply page_range; auto). apply M2; auto. lia.
  - unfold XidFlushLemmas.passok. cbn. exact P.
Qed.

Lemma put1_inv : forall s pos hi loc, Inv s -> fl s = FW1 pos hi loc ->
  Inv (set_fl (match cache s (pos / S) with Some _ => set_cache s (pos / S) (Some (loc, false)) | None => s end) (FW2 pos hi loc)).
Proof.
  intros s pos hi loc H EF.
  set (s' := set_fl _ _).
  pose proof (i_fl _ H) as F. unfold XidFlushLemmas.flok in F. rewrite EF in F. destruct F as (F1 & F2 & F3).
  pose proof (i_pass _ H) as P. unfold XidFlushLemmas.passok in P. rewrite EF in P.
  pose proof (i_mid _ H) as M. unfold XidFlushLemmas.midok in M. rewrite EF in M.
  assert (EC : cur s = W s) by (unfold cur; rewrite F2; reflexivity).
  assert (OTHER : ring s' = ring s /\ bit s' = bit s /\ W s' = W s /\ I s' = I s /\ G s' = G s /\ file s' = file s /\ ini s' = ini s /\
                  lk s' = lk s /\ pcs s' = pcs s /\ fa s' = fa s /\ fb s' = fb s /\ fin s' = fin s /\ cand s' = cand s).
  { unfold s'. destruct (cache s (pos / S)); cbn; repeat split; reflexivity. }
  destruct OTHER as (R1 & R2 & R3 & R4 & R5 & R6 & R7 & R8 & R9 & R10 & R11 & R12 & R13).
  assert (CO : forall q, q <> pos / S -> cache s' q = cache s q).
  { intros q Hq. unfold s'. destruct (cache s (pos / S)); cbn; auto. apply upd_other. auto. }
  assert (CQ : forall d b, cache s' (pos / S) = Some (d, b) -> d = loc /\ b = false).
  { intros d b. unfold s'. destruct (cache s (pos / S)) eqn:E; cbn.
    - rewrite upd_same. intros E1. injection E1 as <- <-. auto.
    - congruence. }
  assert (EFL : fl s' = FW2 pos hi loc) by (unfold s'; destruct (cache s (pos / S)); reflexivity).
  assert (ECU : cur s' = cur s) by (unfold cur; rewrite R8, R3; reflexivity).
  assert (OK : forall y z, okv s y z -> okv s' y z) by (intros y z; unfold XidFlushLemmas.okv; rewrite R1, R9, R12; auto).
  assert (FCC : forall y, y < pos -> FC s y -> FC s' y).
  { intros y Hy [A B]. unfold XidFlushLemmas.FC. rewrite R6, R13. split; [exact A|]. intros d b.
    rewrite CO; [apply B|]. intros E. apply (page_range S HS pos y F1) in E. lia. }
  constructor; rewrite ?ECU, ?R1, ?R2, ?R3, ?R4, ?R5, ?R6, ?R7, ?R8, ?R9, ?R10, ?R11, ?R12, ?R13; try fr H.
  - unfold XidFlushLemmas.flok. rewrite EFL, R8, R3. auto.
  - intros _. apply (i_act _ H). unfold flush_active. rewrite EF. reflexivity.
  - intros x Hi Hc. unfold XidFlushLemmas.gbuf. rewrite EFL.
    pose proof (i_buf _ H x Hi Hc) as B. unfold XidFlushLemmas.gbuf in B. rewrite EF in B.
    destruct (Z.eqb_spec (pos / S) (x / S)) as [E|E].
    + destruct (M x Hi (eq_sym E)) as [M1 _]. apply M1. rewrite <- EC. exact Hc.
    + unfold page_of. rewrite CO by auto. rewrite R6. exact B.
  - intros x d Hi Hc Hca Hw. unfold XidFlushLemmas.w2 in Hw. rewrite EFL in Hw.
    rewrite CO in Hca by lia. apply (i_clean _ H x d); auto. unfold XidFlushLemmas.w2. rewrite EF. reflexivity.
  - intros x Hi Hc. replace (mid S s' (x / S)) with (mid S s (x / S)) by (unfold mid; rewrite EF, EFL; reflexivity).
    destruct (i_dirty _ H x Hi Hc) as [D|[D|[D1 D2]]]; auto.
    destruct (mid S s (x / S)) eqn:EM; auto. right. right. split; [apply OK; auto|].
    intros d b. unfold mid in EM. rewrite EF in EM. rewrite CO by lia. intros Hd. apply OK. eapply D2; eauto.
  - unfold XidFlushLemmas.midok. rewrite EFL. split; [|exact CQ].
    intros x Hi Hp Hw. rewrite R7 in Hi. rewrite R3 in Hw. destruct (M x Hi Hp) as [_ M2]. destruct (M2 Hw) as [A B].
    unfold XidFlushLemmas.copied. rewrite R2, R13. split; [|exact B]. destruct A as [A|A]; [left; exact A|right; apply OK; exact A].
  - unfold XidFlushLemmas.passok. rewrite EFL. rewrite R3. destruct P as [P1 P2].
    assert (GG : forall y, goal s' y -> goal s y) by (intros y; unfold goal; rewrite R10, R11, R13; auto).
    split.
    + intros x Hx Hl. destruct (P1 x (GG x Hx) Hl) as [A|A]; [left; apply FCC; auto|right; exact A].
    + intros x Hx. apply P2. auto.
Qed.

Lemma put2_inv : forall s pos hi loc, Inv s -> fl s = FW2 pos hi loc ->
  Inv (set_fl (set_file s (page_put S (file s) (pos / S) loc)) (FLoop (pos + S) hi)).
Proof.
  intros s pos hi loc H EF.
  set (s' := set_fl _ _).
  pose proof (i_fl _ H) as F. unfold XidFlushLemmas.flok in F. rewrite EF in F. destruct F as (F1 & F2 & F3).
  pose proof (i_pass _ H) as P. unfold XidFlushLemmas.passok in P. rewrite EF in P.
  pose proof (i_mid _ H) as M. unfold XidFlushLemmas.midok in M. rewrite EF in M. destruct M as [M1 M2].
  assert (EC : cur s = W s) by (unfold cur; rewrite F2; reflexivity).
  assert (FI : forall x, x / S = pos / S -> file s' x = loc x) by (intros x E; apply page_put_in; exact E).
  assert (FO : forall x, x / S <> pos / S -> file s' x = file s x) by (intros x E; apply page_put_out; exact E).
  assert (PI : forall x, x / S = pos / S -> page_of s' (x / S) x = loc x).
  { intros x E. unfold page_of. rewrite E. cbn. destruct (cache s (pos / S)) as [[d b]|] eqn:E1.
    - destruct (M2 d b eq_refl) as [-> _]. reflexivity.
    - apply FI. exact E. }
  constructor; try fr H.
  - unfold XidFlushLemmas.flok. cbn. rewrite Z.add_mod, F1, Z.mod_same by lia. reflexivity.
  - intros _. apply (i_act _ H). unfold flush_active. rewrite EF. reflexivity.
  - intros x Hi Hc. pose proof (i_buf _ H x Hi Hc) as B. unfold XidFlushLemmas.gbuf in *. rewrite EF in B. change (fl s') with (FLoop (pos + S) hi). cbv iota.
    destruct (Z.eqb_spec (pos / S) (x / S)) as [E|E].
    + rewrite PI by auto. exact B.
    + replace (page_of s' (x / S) x) with (page_of s (x / S) x); [exact B|]. unfold page_of. change (cache s') with (cache s).
      destruct (cache s (x / S)) as [[d b]|]; auto. symmetry. apply FO. auto.
  - intros x d Hi Hc Hca _. change (cache s' (x / S)) with (cache s (x / S)) in Hca.
    destruct (Z.eq_dec (x / S) (pos / S)) as [E|E].
    + left. rewrite FI by auto. rewrite E in Hca. destruct (M2 _ _ Hca) as [-> _]. reflexivity.
    + rewrite FO by auto. apply (i_clean _ H x d); auto. unfold XidFlushLemmas.w2. rewrite EF. lia.
  - intros x Hi Hc. change (cur s') with (cur s) in Hc. change (ini s' x) with (ini s x) in Hi.
    destruct (Z.eq_dec (x / S) (pos / S)) as [E|E].
    + destruct (M1 x Hi E ltac:(lia)) as [[A|A] _]; [left; exact A|right; right]. split.
      * rewrite FI by auto. exact A.
      * intros d b. change (cache s' (x / S)) with (cache s (x / S)). rewrite E. intros Hd.
        destruct (M2 _ _ Hd) as [-> _]. exact A.
    + rewrite FO by auto. destruct (i_dirty _ H x Hi Hc) as [D|[D|D]]; [left; exact D| |right; right; exact D].
      unfold mid in D. rewrite EF in D. lia.
  - exact Logic.I.
  - unfold XidFlushLemmas.passok. change (fl s') with (FLoop (pos + S) hi). cbv iota. destruct P as [P1 P2]. split; [|exact P2].
    intros x Hx Hl. change (W s') with (W s).
    destruct (Z_lt_dec x pos) as [E|E].
    + destruct (P1 x Hx E) as [[A B]|A]; [left|right; exact A].
      assert (x / S <> pos / S) by (intros E1; apply (page_range S HS pos x F1) in E1; lia).
      split; [rewrite FO by auto; exact A|exact B].
    + destruct (Z_lt_dec x (W s)) as [E1|E1]; [right; exact E1|left].
      destruct Hx as [Hr Hn]. change (cand s x <> []) in Hn.
      pose proof (cand_ini _ _ _ _ H Hn) as Hi.
      assert (Ep : x / S = pos / S) by (apply page_range; auto; lia).
      destruct (M1 x Hi Ep ltac:(lia)) as [_ A]. split.
      * rewrite FI by auto. apply A. exact Hn.
      * intros d b. change (cache s' (x / S)) with (cache s (x / S)). rewrite Ep. intros Hd.
        destruct (M2 _ _ Hd) as [-> _]. apply A. exact Hn.
Qed.

Lemma syncpage_inv : forall s q, Inv s -> fl s = FSync q ->
  Inv (set_fl (match cache s q with
               | Some (d, true) => set_cache (set_file s (page_put S (file s) q d)) q (Some (d, false))
               | _ => s
               end) (FSync (q + 1))).
Proof.
  intros s q H EF.
  set (s1 := match cache s q with Some (d, true) => _ | _ => s end).
  assert (H1 : Inv s1).
  { unfold s1. destruct (cache s q) as [[d [|]]|] eqn:E; auto.
    apply chg_inv; auto.
    - intros x Hx. apply page_put_out. auto.
    - intros x Hx. right. exists d, true. split; auto. apply page_put_in. auto.
    - intros d' b' E1 x Hx. injection E1 as <- <-. right. eauto.
    - intros x Hx. left. unfold page_of. rewrite E. reflexivity.
    - intros d' E1 x Hx. injection E1 as <-. left. apply page_put_in. auto.
    - unfold XidFlushLemmas.w2. rewrite EF. discriminate. }
  assert (EF1 : fl s1 = FSync q) by (unfold s1; destruct (cache s q) as [[d [|]]|]; cbn; auto).
  assert (CL : cdirty s1 q = false).
  { unfold cdirty, s1. destruct (cache s q) as [[d [|]]|] eqn:E; cbn; rewrite ?upd_same, ?E; auto. }
  apply setfl_inv; auto; try (rewrite EF1; auto; discriminate).
  pose proof (i_pass _ H1) as P. unfold XidFlushLemmas.passok in *. rewrite EF1 in P. cbn. destruct P as [P1 P2].
  split; [exact P1|].
  intros x Hx Hq. destruct (Z_lt_dec (x / S) q) as [E|E]; [apply P2; auto|].
  assert (Eq : x / S = q) by lia.
  destruct (P1 x Hx) as [A|A]; [exact A|].
  destruct Hx as [Hr Hn]. change (cand s1 x <> []) in Hn. cbn in Hr.
  pose proof (cand_ini _ _ _ _ H1 Hn) as Hi. pose proof (i_ord _ H1) as (O1 & O2 & O3).
  pose proof (i_act _ H1 ltac:(unfold flush_active; rewrite EF1; reflexivity)).
  pose proof (i_buf _ H1 x Hi ltac:(lia)) as B. unfold XidFlushLemmas.gbuf in B. rewrite EF1 in B.
  apply (bufok_cand S N) in B; auto.
  unfold page_of in B. unfold cdirty in CL.
  change (FC s1 x). unfold XidFlushLemmas.FC. rewrite Eq in *.
  destruct (cache s1 q) as [[d b]|] eqn:E1.
  - subst b. split; [|intros d' b' E2; injection E2 as <- <-; exact B].
    destruct (i_clean _ H1 x d Hi ltac:(lia)) as [E2|[E2 E3]].
    + rewrite Eq. exact E1.
    + unfold XidFlushLemmas.w2. rewrite EF1. reflexivity.
    + rewrite E2. exact B.
    + destruct (i_cand _ H1 x Hn) as [(f & Ef & Hf) _]. destruct E3 as [E3|E3]; [congruence|].
      rewrite Ef in E3. injection E3 as ->. exact Hf.
  - split; [exact B|discriminate].
Qed.

Lemma syncend_inv : forall s q, Inv s -> fl s = FSync q -> (fb s - 1) / S < q ->
  Inv (set_fl (mk (ring s) (bit s) (W s) (I s) (G s) (cache s) (file s) (range_put (dur s) (fa s) (fb s) (file s))
                  (ini s) (lk s) (pcs s) (fl s) (fa s) (fb s) (fin s) (cand s) (haz s)) FDone).
Proof.
  intros s q H EF Hq.
  set (s1 := mk _ _ _ _ _ _ _ _ _ _ _ _ _ _ _ _ _).
  pose proof (i_pass _ H) as P. unfold XidFlushLemmas.passok in P. rewrite EF in P. destruct P as [P1 P2].
  assert (H1 : Inv s1).
  { constructor; try fr H. unfold XidFlushLemmas.passok. cbn. rewrite EF. split; [exact P1|exact P2]. }
  apply setfl_inv; auto; cbn; try (rewrite EF; auto; discriminate).
  unfold XidFlushLemmas.passok. cbn. intros x Hx. pose proof Hx as [Hr Hn]. cbn in Hr, Hn.
  unfold range_put. rewrite (proj2 (andb_true_iff _ _)) by lia.
  apply (P2 x Hx). assert (x / S <= (fb s - 1) / S) by (apply div_le; lia). lia.
Qed.

Lemma hit_haz : forall s b h, haz (hit s b h) = [] -> b = false /\ hit s b h = s.
Proof. intros s b h. unfold hit. destruct b; cbn; intros E; [discriminate|auto]. Qed.

Lemma haz_mono : forall s o, haz (step s o) = [] -> haz s = [].
Proof.
  intros s o. destruct o; unfold XidFlushModel.step;
    repeat match goal with
    | |- context [match ?x with _ => _ end] => destruct x eqn:?
    end; cbn; unfold hit; auto;
    repeat match goal with
    | |- context [if ?x then _ else _] => destruct x eqn:?
    end; cbn; auto; try discriminate;
    repeat match goal with
    | |- context [match ?x with _ => _ end] => destruct x eqn:?
    end; cbn; auto; try discriminate.
Qed.


Lemma step_inv : forall s o, Inv s -> haz (step s o) = [] -> Inv (step s o).
Proof.
  intros s o H Hz.
  pose proof (i_ord _ H) as (O1 & O2 & O3).
  destruct o; unfold XidFlushModel.step in *.
  - (* OInit *)
    destruct (pcs s x) eqn:Ep; auto.
    destruct (negb (ini s x) && (W s <=? x) && (x <? W s + C - 1) && (I s <=? x)) eqn:Eg; auto.
    apply hit_haz in Hz. destruct Hz as [Hb ->].
    assert (Ei : ini s x = false) by (destruct (ini s x); auto; cbn in Eg; lia).
    pose proof (addcand_inv S N s x v H) as H1.
    change (set_pc (add_cand (set_ini (set_ring S N s x v) x) x v) x (RMark v))
      with (set_pc (set_ini (set_ring S N (add_cand s x v) x v) x) x (RMark v)).
    apply store_inv; auto.
    + change (cur (add_cand s x v)) with (cur s). lia.
    + cbn. pose proof (down_eq S HS (W s)). unfold XidFlushModel.C in Hb. apply Z.div_lt_upper_bound; nia.
  - (* OSet *)
    destruct (pcs s x) eqn:Ep; auto.
    destruct (ini s x && (G s <=? x)) eqn:Eg; auto.
    assert (Ei : ini s x = true) by lia.
    pose proof (addcand_inv S N s x v H) as H1.
    change (add_cand (set_pc s x (if I s <=? x then RCas v else RSlow v)) x v)
      with (set_pc (add_cand s x v) x (if I s <=? x then RCas v else RSlow v)).
    assert (RI : cur s <= x -> fin s x = Some (ring s (slot x))).
    { intros Hc. pose proof (i_ring _ H x Ei Hc) as R. rewrite Ep in R. exact R. }
    assert (PV : forall w, w = v -> cand (add_cand s x v) x <> [] -> In w (cand (add_cand s x v) x)).
    { intros w -> Hn. cbn in *. rewrite upd_same in *. destruct (cand s x); [congruence|left; reflexivity]. }
    assert (COND : forall c, (c = RCas v /\ I s <= x) \/ (c = RSlow v /\ x < I s) -> Inv (set_pc (add_cand s x v) x c)).
    { intros c Hcc. apply setpc_inv; auto.
      + intros _. cbn. split; [auto|lia].
      + intros ->. destruct Hcc as [[? _]|[? _]]; discriminate.
      + intros w. destruct Hcc as [[-> ?]|[-> ?]]; (split; intros E; [|]; try discriminate). cbn. auto.
      + intros _ Hc. destruct Hcc as [[-> ?]|[-> ?]]; cbn; auto.
      + intros y _ Hc Hb. change (pcs (add_cand s x v) x) with (pcs s x) in Hb. rewrite Ep in Hb. cbn in Hb.
        destruct Hcc as [[-> ?]|[-> ?]]; cbn; auto.
      + change (pcs (add_cand s x v) x) with (pcs s x). rewrite Ep. discriminate.
      + intros w. change (pcs (add_cand s x v) x) with (pcs s x). rewrite Ep. discriminate.
      + intros w Hw. apply PV. destruct Hcc as [[-> ?]|[-> ?]]; cbn in Hw; destruct Hw as [Hw|[]]; auto. }
    destruct (I s <=? x) eqn:EI; apply COND; [left|right]; split; auto; lia.
  - (* OCas *)
    destruct (pcs s x) eqn:Ep; auto.
    destruct (i_pc _ H x ltac:(rewrite Ep; discriminate)) as [Hi Hg].
    destruct (cur s <=? x) eqn:Ec.
    + apply store_inv; auto; [lia|]. apply (i_page _ H); auto.
    + apply setpc_inv; auto.
      * discriminate.
      * intros w. split; [intros _; lia|discriminate].
      * intros _ Hc. lia.
      * intros y _ _ Hb. rewrite Ep in Hb. cbn in *. auto.
      * rewrite Ep. intros w Hw. discriminate.
      * intros w Hw Hn. apply (i_cand _ H x Hn). rewrite Ep. exact Hw.
  - (* OMark *)
    destruct (pcs s x) eqn:Ep; auto.
    destruct (i_pc _ H x ltac:(rewrite Ep; discriminate)) as [Hi Hg].
    pose proof (setbit_inv S N s (rp x) H) as H1.
    apply setpc_inv; auto.
    + discriminate.
    + intros w; split; discriminate.
    + intros _ Hc. pose proof (i_ring _ H x Hi Hc) as R. rewrite Ep in R. exact R.
    + intros y _ _ Hb. change (pcs (set_bit s (rp x) true) x) with (pcs s x) in Hb. rewrite Ep in Hb. exact Hb.
    + intros w _. left. cbn. apply upd_same.
    + intros w Hw Hn. apply (i_cand _ H x Hn). rewrite Ep. exact Hw.
  - (* ORe *)
    destruct (pcs s x) eqn:Ep; auto.
    destruct (i_pc _ H x ltac:(rewrite Ep; discriminate)) as [Hi Hg].
    destruct (I s <=? x) eqn:EI.
    + change (set_fin (set_pc s x RIdle) x v) with (set_pc (set_fin s x v) x RIdle).
      assert (Hc0 : cur s <= x) by lia.
      pose proof (setfin_inv S N HS s x v H Ep Hc0) as H1.
      apply setpc_inv; auto.
      * intros _ _. cbn. rewrite upd_same. discriminate.
      * intros w; split; discriminate.
      * intros _ _. cbn. rewrite upd_same. pose proof (i_ring _ H x Hi Hc0) as R. rewrite Ep in R. cbn in R. congruence.
      * intros y _ Hc. change (cur (set_fin s x v)) with (cur s) in Hc. lia.
      * change (cur (set_fin s x v)) with (cur s). lia.
      * change (pcs (set_fin s x v) x) with (pcs s x). rewrite Ep. discriminate.
      * cbn. tauto.
    + apply setpc_inv; auto.
      * discriminate.
      * intros w. split; [intros _; lia|discriminate].
      * intros _ Hc. pose proof (i_ring _ H x Hi Hc) as R. rewrite Ep in R. cbn in *. auto.
      * intros y _ _ Hb. rewrite Ep in Hb. exact Hb.
      * rewrite Ep. discriminate.
      * intros w Hw Hn. apply (i_cand _ H x Hn). rewrite Ep. exact Hw.
  - (* OWait *)
    destruct (pcs s x) eqn:Ep; auto.
    destruct (i_pc _ H x ltac:(rewrite Ep; discriminate)) as [Hi Hg].
    destruct ((x <? W s) || match lk s with LFree => true | _ => false end) eqn:Eg; auto.
    apply setpc_inv; auto.
    + discriminate.
    + intros w. split; [discriminate|]. intros _.
      pose proof (proj1 (i_slow _ H x v) Ep). pose proof (i_lk _ H) as L. destruct (lk s); lia.
    + intros _ Hc. pose proof (i_ring _ H x Hi Hc) as R. rewrite Ep in R. exact R.
    + intros y _ _ Hb. rewrite Ep in Hb. exact Hb.
    + rewrite Ep. discriminate.
    + intros w Hw Hn. apply (i_cand _ H x Hn). rewrite Ep. exact Hw.
  - (* OWr *)
    destruct (pcs s x) eqn:Ep; auto.
    cbv zeta in *. apply hit_haz in Hz. destruct Hz as [Hb ->]. apply wr_inv; auto.
  - (* OLoad *)
    destruct (cache s q) eqn:E; auto. apply hit_haz in Hz. destruct Hz as [Hb ->]. apply load_inv; auto.
  - (* OEvict *)
    destruct (cache s q) as [[d b]|] eqn:E; auto. apply evict_inv; auto.
  - (* ODrain *)
    destruct (lk s) eqn:E; auto.
    destruct ((W s <? m) && (m <=? W s + C) && occupied s (W s) (Z.to_nat (m - W s))) eqn:Eg; auto.
    apply drain_inv; auto; lia.
  - (* ODPage *)
    destruct (lk s) eqn:E; auto. destruct (c <? m) eqn:Ec; auto. cbv zeta in *.
    apply hit_haz in Hz. destruct Hz as [Hb ->]. apply dpage_inv; auto. lia.
  - (* ODEnd *)
    destruct (lk s) eqn:E; auto. destruct (Z.eqb_spec c m) as [->|]; auto. apply dend_inv; auto.
  - (* OFast *)
    destruct (lk s) eqn:E; auto.
    destruct ((W s =? I s) && (W s <? g) && occupied s (W s) (Z.to_nat (g - W s)) && quiet s (G s) (Z.to_nat (g - G s)) && (if flush_active s then g <=? fa s else true)) eqn:Eg; auto.
    apply andb_prop in Eg. destruct Eg as [Eg E1]. apply andb_prop in Eg. destruct Eg as [Eg E2].
    apply andb_prop in Eg. destruct Eg as [Eg E3].
    apply fast_inv; auto; [lia|]. intros A. rewrite A in E1. lia.
  - (* FBegin *)
    destruct (fl s) eqn:E; auto. destruct ((G s <=? a) && (a <? b)) eqn:Eg; auto. cbv zeta.
    apply begin_inv; auto; lia.
  - (* FLock *)
    destruct (fl s) eqn:E; auto. destruct (lk s) eqn:E1; auto. apply lock_inv; eauto.
  - (* FUnlock *)
    destruct (fl s) eqn:E; auto. destruct (lk s) eqn:E1; auto. apply lock_inv; eauto.
  - (* FPage *)
    destruct (fl s) eqn:E; auto. destruct (lk s) eqn:E1; auto. destruct (pos <? hi) eqn:E2; auto.
    destruct (pos + S <=? W s) eqn:E3; [apply skip_inv; auto; left; lia|].
    destruct (bit s (rp pos)) eqn:E4; cbn [negb] in *; [|apply skip_inv; auto].
    cbv zeta in *.
    assert (Hb : (down S (W s) + C <=? pos) = false).
    { destruct (down S (W s) + C <=? pos) eqn:E5; auto. exfalso. unfold hit in Hz.
      destruct (pos <? W s); cbn in Hz; [destruct (cache s (pos / S)); cbn in Hz|]; discriminate. }
    rewrite Hb in *. cbn [hit] in *.
    destruct (pos <? W s) eqn:E5.
    + destruct (cache s (pos / S)) as [[d b]|] eqn:E6.
      * apply enter_inv; auto; try lia.
        intros x Hi Hx Hg. pose proof (i_buf _ H x Hi) as B. unfold XidFlushLemmas.gbuf in B. rewrite E in B.
        rewrite <- Hx. apply B. lia.
      * assert (H1 : Inv (set_cache s (pos / S) (Some (file s, false)))).
        { apply load_inv; auto. unfold mid. rewrite E. reflexivity. }
        change (set_cache (set_bit s (rp pos) false) (pos / S) (Some (file s, false)))
          with (set_bit (set_cache s (pos / S) (Some (file s, false))) (rp pos) false).
        apply enter_inv; auto; try (cbn; lia).
        intros x Hi Hx Hg. pose proof (i_buf _ H x Hi) as B. unfold XidFlushLemmas.gbuf in B. rewrite E in B.
        rewrite <- Hx. apply B. cbn in Hg. lia.
    + apply enter_inv; auto; try lia.
      intros x Hi Hx Hg. exfalso. pose proof (i_fl _ H) as F. unfold XidFlushLemmas.flok in F. rewrite E in F.
      apply (page_range S HS pos x F) in Hx. lia.
  - (* FSlot *)
    destruct (fl s) eqn:E; auto. destruct (k <? S) eqn:E1.
    + apply slot_inv; auto. lia.
    + eapply copydone_inv; eauto. lia.
  - (* FPut1 *)
    destruct (fl s) eqn:E; auto. apply put1_inv; auto.
  - (* FPut2 *)
    destruct (fl s) eqn:E; auto. apply put2_inv; auto.
  - (* FLoopEnd *)
    destruct (fl s) eqn:E; auto. destruct (hi <=? pos) eqn:E1; auto.
    pose proof (i_pass _ H) as P. unfold XidFlushLemmas.passok in P. rewrite E in P. destruct P as [P1 P2].
    assert (PP : forall s1, fa s1 = fa s -> fb s1 = fb s -> cand s1 = cand s -> file s1 = file s -> cache s1 = cache s -> W s1 = W s ->
      passok (set_fl s1 (FSync (fa s / S)))).
    { intros s1 R1 R2 R3 R4 R5 R6. unfold XidFlushLemmas.passok. cbn.
      assert (GG : forall x, goal (set_fl s1 (FSync (fa s / S))) x -> goal s x) by (intros x; unfold goal; cbn; rewrite R1, R2, R3; auto).
      split.
      - intros x Hx. rewrite R6. apply GG in Hx. destruct (P2 x Hx) as [A|A]; [|right; exact A].
        destruct (P1 x Hx ltac:(lia)) as [B|B]; [left|right; exact B].
        unfold XidFlushLemmas.FC in *. cbn. rewrite R3, R4, R5. exact B.
      - intros x [[Hx _] _] Hq. cbn in Hx. rewrite R1 in Hx. pose proof (div_le S HS _ _ Hx). lia. }
    destruct (lk s) eqn:E2.
    + apply setfl_inv; auto; try (rewrite E; auto; discriminate).
    + apply setfl_inv; auto; try (cbn; rewrite E; auto; discriminate). apply lock_inv; eauto.
    + apply setfl_inv; auto; try (rewrite E; auto; discriminate).
  - (* FSyncPage *)
    destruct (fl s) eqn:E; auto. destruct (q <=? (fb s - 1) / S); auto. apply syncpage_inv; auto.
  - (* FSyncEnd *)
    destruct (fl s) eqn:E; auto. destruct ((fb s - 1) / S <? q) eqn:E1; auto. rewrite <- E. apply (syncend_inv s q); auto. lia.
  - (* FRet *)
    destruct (fl s) eqn:E; auto. apply setfl_inv; auto; try (rewrite E; auto; discriminate). exact Logic.I.
Qed.

End Proofs.
