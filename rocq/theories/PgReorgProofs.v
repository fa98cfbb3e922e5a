(** Proofs for C18: the choice of chunks, and the moves. *)
From Coq Require Import ZArith List Bool Lia ZifyBool.
From Verif Require Import Base PgChunkModel PgChunkSpec PgChunkProofs PgChunkOpProofs PgReorgModel PgReorgSpec.
Import ListNotations.
Open Scope Z_scope.

Definition fine (r : ritem) : Prop := (fst r = 0 \/ fst r = 1) /\ rsize r mod 8 = 0 /\ 8 <= rsize r.

Lemma rtotal_app : forall a b, rtotal (a ++ b) = rtotal a + rtotal b.
Proof. induction a; intros; cbn [app rtotal fold_right]; [reflexivity|]. fold (rtotal (a0 ++ b)). rewrite IHa. fold (rtotal a0). lia. Qed.
Lemma rtotal_cons : forall x b, rtotal (x :: b) = rsize x + rtotal b.
Proof. reflexivity. Qed.
Lemma cdata_app : forall a b, cdata (a ++ b) = cdata a + cdata b.
Proof. induction a; intros; cbn [app cdata fold_right]; [reflexivity|]. fold (cdata (a0 ++ b)). rewrite IHa. fold (cdata a0). lia. Qed.
Lemma cdata_cons : forall x b, cdata (x :: b) = arr_sz (len x) + rtotal x + cdata b.
Proof. reflexivity. Qed.
Lemma rsize_nn : forall r, 0 <= rsize r.
Proof. intros. unfold rsize. lia. Qed.
Lemma rtotal_nn : forall l, 0 <= rtotal l.
Proof. induction l; cbn [rtotal fold_right]; [lia|]. fold (rtotal l). pose proof (rsize_nn a). lia. Qed.
Lemma arr_facts : forall n, 0 <= n -> 2 * n <= arr_sz n /\ arr_sz n <= 2 * n + 7 /\ arr_sz n mod 8 = 0 /\ 0 <= arr_sz n.
Proof. intros. rewrite arr_array. apply array_facts; auto. Qed.
Lemma cdata_nn : forall l, 0 <= cdata l.
Proof.
  induction l; cbn [cdata fold_right]; [lia|]. fold (cdata l). pose proof (rtotal_nn a).
  pose proof (arr_facts (len a) ltac:(lia)). lia.
Qed.

(** The keys made for all but the first chunk. *)
Definition hkey (ks : ritem -> Z) (c : list ritem) : Z := match c with x :: _ => ks x | [] => 0 end.
Definition hkeys (ks : ritem -> Z) (cs : list (list ritem)) : Z := fold_right (fun c s => hkey ks c + s) 0 cs.
Definition arrs (cs : list (list ritem)) : Z := fold_right (fun c s => arr_sz (len c) + s) 0 cs.

Lemma choose_ok : forall ks tot hfree dfree rest cur j hl dl,
  (forall x, 8 <= ks x) -> cur <> [] -> Forall (fun r => 8 <= rsize r) (cur ++ rest) -> 1 <= j -> 0 <= hl -> 0 <= dl ->
  exists c t, choose ks tot hfree dfree cur j hl dl rest = c :: t /\
    (exists x u, c = hd x cur :: u) /\
    concat (c :: t) = cur ++ rest /\ Forall (fun c => c <> []) (c :: t) /\
    descs_end (j + len t) - descs_end j + hkeys ks t <= hl /\
    (exists w wl, 0 <= w <= dl /\ 0 <= wl <= 6 /\ arrs (c :: t) = 2 * len (cur ++ rest) + w + wl) /\
    (exists cl, (hkeys ks t + 4 * len t) * tot <= cl * hfree /\ 0 <= cl /\ cl + 8 <= rtotal (cur ++ rest)).
Proof.
  intros ks tot hfree dfree rest. induction rest as [|x r IH]; intros cur j hl dl K NE F J H D; cbn [choose]; cbv zeta.
  - exists cur, []. destruct cur as [|y cur]; [congruence|]. rewrite app_nil_r.
    repeat split.
    + exists y, cur. reflexivity.
    + cbn [concat]. apply app_nil_r.
    + constructor; [discriminate|constructor].
    + cbn [hkeys fold_right length Z.of_nat]. replace (j + 0) with j by lia. lia.
    + exists 0, (waste (len (y :: cur))). unfold waste. cbn [arrs fold_right].
      assert (WW : 0 <= arr_sz (len (y :: cur)) - 2 * len (y :: cur) <= 6) by (unfold arr_sz, ma; dlia). lia.
    + exists 0. cbn [hkeys fold_right length Z.of_nat]. rewrite app_nil_r in F. inversion F; subst. rewrite rtotal_cons. pose proof (rtotal_nn cur). lia.
  - destruct (_ && _) eqn:Q.
    + set (hd' := ks x + (descs_end (j + 1) - descs_end j)) in *. set (dd := waste (len cur)) in *.
      assert (F2 : Forall (fun r => 8 <= rsize r) ([x] ++ r)) by (apply Forall_app in F; apply F).
      destruct (IH [x] (j + 1) (hl - hd') (dl - dd) K ltac:(discriminate) F2 ltac:(lia) ltac:(lia) ltac:(lia))
        as (c & t & E & (y & u & EC) & CC & NN & HK & (w & wl & W1 & W2 & W3) & (cl & L1 & L2 & L3)).
      cbn [hd] in EC. rewrite E. exists cur, (c :: t).
      assert (DN : 0 <= dd) by (unfold dd, waste; pose proof (arr_facts (len cur) ltac:(lia)); lia).
      repeat split.
      * destruct cur as [|z cur]; [congruence|]. exists z, cur. reflexivity.
      * cbn [concat] in *. rewrite CC. reflexivity.
      * constructor; auto.
      * cbn [hkeys fold_right]. fold (hkeys ks t). replace (hkey ks c) with (ks x) by (rewrite EC; reflexivity).
        rewrite zl_cons. replace (j + (1 + len t)) with (j + 1 + len t) by lia. unfold hd' in *. lia.
      * exists (dd + w), wl. split; [lia|]. split; [lia|]. cbn [arrs fold_right] in *. fold (arrs t) in *.
        rewrite W3, !zl_app. unfold dd, waste. cbn [length]. lia.
      * assert (RC : 8 <= rtotal cur).
        { destruct cur as [|z cur]; [congruence|]. inversion F; subst. rewrite rtotal_cons. pose proof (rtotal_nn cur). lia. }
        exists (rtotal cur + cl). rewrite rtotal_app in L3 |- *.
        replace (rtotal (x :: r)) with (rtotal [x] + rtotal r) by (rewrite !rtotal_cons; cbn; lia).
        split; [|lia].
        cbn [hkeys fold_right]. fold (hkeys ks t). replace (hkey ks c) with (ks x) by (rewrite EC; reflexivity).
        rewrite zl_cons. assert (Q1 : (ks x + 4) * tot <= rtotal cur * hfree) by lia. nia.
    + assert (NE2 : cur ++ [x] <> []) by (destruct cur; discriminate).
      assert (F2 : Forall (fun r => 8 <= rsize r) ((cur ++ [x]) ++ r)) by (rewrite <- app_assoc; exact F).
      destruct (IH (cur ++ [x]) j hl dl K NE2 F2 J H D) as (c & t & E & (y & u & EC) & REST).
      exists c, t. split; [exact E|]. rewrite <- app_assoc in REST. split; [|exact REST].
      destruct cur as [|z cur]; [congruence|]. exists z, u. exact EC.
Qed.

(* ------------------------------------------------- the moves *)

Fixpoint asc (lo : Z) (l : list (Z * ritem)) : Prop :=
  match l with [] => True | (d, r) :: t => lo <= d /\ asc (d + rsize r) t end.

Lemma asc_in : forall l lo d r, asc lo l -> In (d, r) l -> lo <= d.
Proof.
  induction l as [|[d0 r0] l IH]; intros lo d r A I; [contradiction|]. destruct A as [A1 A2]. destruct I as [I|I].
  - injection I; intros; subst. exact A1.
  - specialize (IH _ _ _ A2 I). pose proof (rsize_nn r0). lia.
Qed.
Lemma asc_le : forall l lo lo', asc lo l -> lo' <= lo -> asc lo' l.
Proof. destruct l as [|[d r] l]; cbn; intros; auto. destruct H. split; [lia|auto]. Qed.

(** Each item of the page is where it must be read. *)
Definition ready (m0 m : mem) (l : list (Z * ritem)) : Prop :=
  forall d f s n, In (d, (f, Pg s n)) l ->
    (s <= d -> words m d (read_words m0 s n)) /\ (d < s -> words m s (read_words m0 s n)).

Lemma ready_ext : forall m0 m m' l lo, asc lo l -> ready m0 m l -> (forall a, lo <= a -> m' a = m a) -> ready m0 m' l.
Proof.
  intros m0 m m' l lo A R E d f s n I. destruct (R _ _ _ _ I) as [R1 R2]. pose proof (asc_in _ _ _ _ A I).
  split; intros H1; eapply words_ext; eauto; intros x Hx; apply E; lia.
Qed.

Lemma rw_len : forall m a n, length (read_words m a n) = n.
Proof. intros. unfold read_words. rewrite map_length, seq_length. reflexivity. Qed.
Lemma rw_words : forall m a n, words m a (read_words m a n).
Proof.
  intros m a n j J. rewrite rw_len in J. unfold read_words.
  rewrite nth_indep with (d' := m (a + 2 * Z.of_nat 0)) by (rewrite map_length, seq_length; lia).
  rewrite (map_nth (fun j => m (a + 2 * Z.of_nat j))), seq_nth by lia. f_equal. lia.
Qed.

Lemma order_in : forall l a f s n, in_order a l = true -> In (f, Pg s n) l -> a <= s.
Proof.
  induction l as [|[f0 [s0 n0|ws]] l IH]; intros a f s n O I; [contradiction| |]; cbn [in_order] in O.
  - destruct I as [I|I]; [injection I; intros; subst; lia|]. assert (O2 : in_order (s0 + 2 * Z.of_nat n0) l = true) by lia.
    specialize (IH _ _ _ _ O2 I). lia.
  - destruct I as [I|I]; [discriminate|]. eauto.
Qed.

Lemma pass1_ok : forall m0 l lo a, asc lo l -> in_order a (map snd l) = true ->
  ready m0 (fold_right fwd m0 l) l /\
  (forall x, (forall d f s n, In (d, (f, Pg s n)) l -> s < d -> x < d \/ d + 2 * Z.of_nat n <= x) ->
             fold_right fwd m0 l x = m0 x).
Proof.
  intros m0. induction l as [|[d [f sr]] l IH]; intros lo a A O; [split; [intros ? ? ? ? []|reflexivity]|].
  cbn [fold_right]. destruct A as [A1 A2]. cbn [map snd] in O.
  assert (O2 : exists a', in_order a' (map snd l) = true) by (destruct sr; cbn [in_order] in O; eexists; [|exact O]; apply andb_true_iff in O; apply O).
  destruct O2 as [a' O2]. destruct (IH _ _ A2 O2) as [R F]. clear IH. set (m1 := fold_right fwd m0 l) in *.
  destruct sr as [s n|ws].
  - unfold fwd. cbn [snd fst]. change (rsize (f, Pg s n)) with (2 * Z.of_nat n) in A2.
    assert (O3 : in_order (s + 2 * Z.of_nat n) (map snd l) = true) by (cbn [in_order] in O; lia).
    destruct (s <? d) eqn:Q.
    + split.
      * intros d' f' s' n' [I|I].
        -- injection I; intros; subst d' f' s' n'. split; [|lia]. intros _ j J. rewrite rw_len in J.
           unfold move. replace ((d <=? d + 2 * j) && (d + 2 * j <? d + 2 * Z.of_nat n)) with true by lia.
           replace (d + 2 * j - d + s) with (s + 2 * j) by lia. rewrite F.
           ++ apply rw_words. rewrite rw_len. lia.
           ++ intros d2 f2 s2 n2 I2 _. pose proof (asc_in _ _ _ _ A2 I2). lia.
        -- apply (ready_ext m0 m1 _ l _ A2 R) with (d := d') (f := f'); auto. intros x Hx. unfold move.
           replace ((d <=? x) && (x <? d + 2 * Z.of_nat n)) with false by lia. reflexivity.
      * intros x Hx. unfold move. pose proof (Hx d f s n (or_introl eq_refl) ltac:(lia)).
        replace ((d <=? x) && (x <? d + 2 * Z.of_nat n)) with false by lia. apply F. intros. eapply Hx; eauto. right; eauto.
    + split.
      * intros d' f' s' n' [I|I]; [|apply (R _ _ _ _ I)].
        injection I; intros; subst d' f' s' n'. split.
        -- intros H1. replace d with s by lia. eapply words_ext; [apply rw_words|]. rewrite rw_len. intros x Hx. apply F.
           intros d2 f2 s2 n2 I2 _. pose proof (asc_in _ _ _ _ A2 I2). lia.
        -- intros H1. eapply words_ext; [apply rw_words|]. rewrite rw_len. intros x Hx. apply F.
           intros d2 f2 s2 n2 I2 H2. left. assert (I3 : In (f2, Pg s2 n2) (map snd l)) by (apply (in_map snd) in I2; exact I2).
           pose proof (order_in _ _ _ _ _ O3 I3). lia.
      * intros x Hx. apply F. intros. eapply Hx; eauto. right; eauto.
  - unfold fwd. cbn [snd fst]. split.
    + intros d' f' s' n' [I|I]; [discriminate|]. apply (R _ _ _ _ I).
    + intros x Hx. apply F. intros. eapply Hx; eauto. right; eauto.
Qed.

Lemma asc_dests : forall c lo R, asc (lo + rtotal c) R -> asc lo (dests lo c ++ R).
Proof.
  induction c as [|r c IH]; intros lo R A; cbn [dests app].
  - cbn in A. eapply asc_le; eauto. lia.
  - cbn [asc]. split; [lia|]. apply IH. rewrite rtotal_cons in A. eapply asc_le; eauto. lia.
Qed.

Lemma put_items : forall m0 c R m lo, asc (lo + rtotal c) R -> ready m0 m (dests lo c ++ R) ->
  (forall X r Y, c = X ++ r :: Y -> words (fold_left bwd (dests lo c) m) (lo + rtotal X) (snd (rread m0 r))) /\
  (forall a, a < lo \/ lo + rtotal c <= a -> fold_left bwd (dests lo c) m a = m a).
Proof.
  intros m0. induction c as [|r c IH]; intros R m lo A RD; cbn [dests fold_left].
  - split; [intros X r Y E; destruct X; discriminate|reflexivity].
  - rewrite rtotal_cons in *. set (m1 := bwd m (lo, r)).
    assert (F1 : forall a, a < lo \/ lo + rsize r <= a -> m1 a = m a).
    { intros a H. unfold m1, bwd. cbn [snd fst]. destruct r as [f [s n|ws]]; cbn [snd].
      - destruct (lo <? s); auto. unfold move. change (rsize (f, Pg s n)) with (2 * Z.of_nat n) in H.
        replace ((lo <=? a) && (a <? lo + 2 * Z.of_nat n)) with false by lia. reflexivity.
      - unfold copy_in. change (rsize (f, Ext ws)) with (2 * len ws) in H.
        replace ((lo <=? a) && (a <? lo + 2 * len ws)) with false by lia. reflexivity. }
    assert (W1 : words m1 lo (snd (rread m0 r))).
    { unfold m1, bwd. cbn [snd fst]. destruct r as [f [s n|ws]]; cbn [snd rread].
      - destruct (RD lo f s n (or_introl eq_refl)) as [R1 R2]. destruct (lo <? s) eqn:Q.
        + specialize (R2 ltac:(lia)). intros j J. rewrite rw_len in J. unfold move.
          replace ((lo <=? lo + 2 * j) && (lo + 2 * j <? lo + 2 * Z.of_nat n)) with true by lia.
          replace (lo + 2 * j - lo + s) with (s + 2 * j) by lia. apply R2. rewrite rw_len. lia.
        + apply R1. lia.
      - apply words_in. }
    assert (A2 : asc (lo + rsize r + rtotal c) R) by (eapply asc_le; eauto; lia).
    assert (RD2 : ready m0 m1 (dests (lo + rsize r) c ++ R)).
    { apply (ready_ext m0 m m1 _ (lo + rsize r)).
      - apply asc_dests; auto.
      - intros d f s n I. apply (RD d f s n). cbn [dests app]. right. exact I.
      - intros a H. apply F1. lia. }
    destruct (IH R m1 (lo + rsize r) A2 RD2) as [I1 I2].
    pose proof (rsize_nn r). pose proof (rtotal_nn c).
    split.
    + intros X r' Y E. destruct X as [|x X]; cbn in E; injection E; intros; subst.
      * cbn [rtotal fold_right]. rewrite Z.add_0_r. eapply words_ext; [exact W1|]. intros a Ha. apply I2.
        assert (2 * len (snd (rread m0 r')) = rsize r').
        { unfold rread, rsize, rwords. destruct r' as [f [s n|ws]]; cbn [snd]; rewrite ?rw_len; lia. }
        lia.
      * rewrite rtotal_cons. replace (lo + (rsize x + rtotal X)) with (lo + rsize x + rtotal X) by lia. apply (I1 _ _ _ eq_refl).
    + intros a H1. rewrite I2 by lia. apply F1. lia.
Qed.
