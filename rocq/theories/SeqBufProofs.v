From Coq Require Import ZArith List Bool Lia Znumtheory.
From Coq Require Import ZifyBool ZifyNat ZifyN.
From Verif Require Import Base SeqBufModel SeqBufSpec.
Import ListNotations.
Open Scope Z_scope.

Arguments by_proc : simpl never.

Definition inflight (c : wpc) : list bytes :=
  match c with WIdle => [] | WTry v | WOpen _ v | WWait _ v | WIO v | WSet v => [v] end.

(** Where byte [a] of the stream currently is. *)
Definition wbyte (C : Z) (s : wst) (u : bool) (a : Z) : Z :=
  if C * w_fpn s <=? a then w_pg s (w_cur s) (a - C * w_fpn s)
  else if u && (C * (w_fpn s - 1) <=? a) then w_pg s (negb (w_cur s)) (a - C * (w_fpn s - 1))
  else w_file s (w_off s + a).

Definition owner_ok (s : wst) (own : option (Z * bool)) : Prop :=
  w_busy s = match own with Some _ => true | None => false end /\
  (forall p, match w_pc s p with
             | WIO _ => own = Some (p, true)
             | WSet _ => own = Some (p, false)
             | _ => forall b, own <> Some (p, b)
             end).

Definition unwritten (own : option (Z * bool)) : bool :=
  match own with Some (_, true) => true | _ => false end.

Record WI (C d off hdr : Z) (file0 : bytes) (s : wst) (own : option (Z * bool)) : Prop := mkWI {
  wi_off : w_off s = off;
  wi_fpn : 0 <= w_fpn s /\ (w_busy s = true -> 1 <= w_fpn s);
  wi_loc : 0 <= w_loc s <= C /\ (d | w_loc s);
  wi_pos : C * w_fpn s + w_loc s = hdr + d * Z.of_nat (length (w_log s));
  wi_own : owner_ok s own;
  wi_data : forall k x, nth_error (w_log s) k = Some x -> forall j, 0 <= j < d ->
              wbyte C s (unwritten own) (hdr + Z.of_nat k * d + j) = snd x j;
  wi_wait : forall p, match w_pc s p with
              | WOpen f _ | WWait f _ => f <= w_fpn s /\ (f = w_fpn s -> w_loc s = C)
              | _ => True end;
  wi_below : forall i, i < off -> w_file s i = file0 i;
  wi_len : w_len s = off + C * (w_fpn s - if unwritten own then 1 else 0);
  wi_prog : forall p, by_proc p (w_beg s) = by_proc p (w_log s) ++ inflight (w_pc s p)
}.

Lemma by_proc_app : forall p a b, by_proc p (a ++ b) = by_proc p a ++ by_proc p b.
Proof. intros. unfold by_proc. rewrite filter_app, map_app. reflexivity. Qed.
Lemma by_proc_one : forall p q v, by_proc p [(q, v)] = if q =? p then [v] else [].
Proof. intros. unfold by_proc. cbn. destruct (q =? p); reflexivity. Qed.

Lemma upd_pc_cases : forall (A : Type) (f : Z -> A) p c q, upd f p c q = if q =? p then c else f q.
Proof. intros. unfold upd. destruct (q =? p); reflexivity. Qed.

(** Changing only where one process is, neither from nor to an I/O state. *)
Lemma WI_move : forall C d off hdr file0 s own p c,
  WI C d off hdr file0 s own ->
  match w_pc s p with WIO _ | WSet _ => False | _ => True end ->
  match c with
  | WIO _ | WSet _ => False
  | WOpen f _ | WWait f _ => f <= w_fpn s /\ (f = w_fpn s -> w_loc s = C)
  | _ => True end ->
  inflight c = inflight (w_pc s p) ->
  WI C d off hdr file0 (set_wpc s p c) own.
Proof.
  intros C d off hdr file0 s own p c [H1 H2 H3 H4 [H5a H5b] H6 H7 H8 H9 H10] Hp Hc Hi.
  constructor; cbn; auto.
  - split; [exact H5a|]. intros q. cbn. rewrite upd_pc_cases. destruct (Z.eqb_spec q p) as [->|].
    + specialize (H5b p). destruct (w_pc s p), c; try contradiction; auto.
    + apply H5b.
  - intros q. rewrite upd_pc_cases. destruct (Z.eqb_spec q p) as [->|]; [|apply H7].
    destruct c; auto; contradiction.
  - intros q. rewrite upd_pc_cases. destruct (Z.eqb_spec q p) as [->|]; [|apply H10].
    rewrite H10, Hi. reflexivity.
Qed.

Lemma WI_switch : forall C d off hdr file0 s own p v,
  0 < C ->
  WI C d off hdr file0 s own -> w_busy s = false -> w_loc s = C ->
  match w_pc s p with WIO _ | WSet _ => False | _ => True end ->
  inflight (w_pc s p) = [v] ->
  WI C d off hdr file0 (wswitch s p v) (Some (p, true)).
Proof.
  intros C d off hdr file0 s own p v HC [H1 H2 H3 H4 [H5a H5b] H6 H7 H8 H9 H10] Hb Hl Hp Hi.
  rewrite Hb in H5a. destruct own as [[? ?]|]; [discriminate|]. cbn [unwritten] in *.
  constructor; cbn [wswitch w_off w_fpn w_busy w_loc w_log w_pc w_file w_len w_beg w_pg w_cur unwritten]; auto; try lia.
  - split; [lia|]. apply Z.divide_0_r.
  - split; [reflexivity|]. intros q. cbn. rewrite upd_pc_cases. destruct (Z.eqb_spec q p) as [->|]; [reflexivity|].
    specialize (H5b q). destruct (w_pc s q); try discriminate H5b; intros b [= E1 E2]; congruence.
  - intros k x Hk j Hj. specialize (H6 k x Hk j Hj). rewrite <- H6. unfold wbyte.
    cbn [wswitch w_off w_fpn w_busy w_loc w_log w_pc w_file w_len w_beg w_pg w_cur].
    assert (Hlt : (k < length (w_log s))%nat) by (apply nth_error_Some; congruence).
    assert (hdr + Z.of_nat k * d + j < C * (w_fpn s + 1)) by nia.
    replace (C * (w_fpn s + 1) <=? hdr + Z.of_nat k * d + j) with false by lia.
    rewrite negb_involutive. replace (w_fpn s + 1 - 1) with (w_fpn s) by lia. cbn [andb].
    destruct (C * w_fpn s <=? hdr + Z.of_nat k * d + j); reflexivity.
  - intros q. rewrite upd_pc_cases. destruct (Z.eqb_spec q p) as [->|]; [exact I|].
    specialize (H7 q). destruct (w_pc s q); auto; split; try lia; intros; lia.
  - intros q. rewrite upd_pc_cases. destruct (Z.eqb_spec q p) as [->|]; [|apply H10].
    rewrite H10, Hi. reflexivity.
Qed.

Lemma div_le_full : forall C d l, 0 < d -> (d | C) -> (d | l) -> l <= C -> C < l + d -> l = C.
Proof.
  intros C d l Hd [a Ha] [b Hb] H1 H2. subst. assert (b <= a) by nia. assert (a < b + 1) by nia. nia.
Qed.

Lemma WI_step : forall C d off hdr file0 s own o,
  sizes_ok C d hdr ->
  WI C d off hdr file0 s own -> exists own', WI C d off hdr file0 (wstep C d s o) own'.
Proof.
  intros C d off hdr file0 s own o [Sd [HC0 [SdC [Sdh Sh]]]] H.
  pose proof H as [H1 H2 H3 H4 [H5a H5b] H6 H7 H8 H9 H10].
  destruct o as [p v|p]; cbn [wstep].
  - destruct (w_pc s p) eqn:Ep; eauto. exists own. constructor; cbn; auto.
    + split; [exact H5a|]. intros q. cbn. rewrite upd_pc_cases. destruct (Z.eqb_spec q p) as [->|]; [|apply H5b].
      specialize (H5b p). rewrite Ep in H5b. exact H5b.
    + intros q. rewrite upd_pc_cases. destruct (Z.eqb_spec q p) as [->|]; [exact I|apply H7].
    + intros q. rewrite upd_pc_cases, by_proc_app, by_proc_one, H10.
      rewrite (Z.eqb_sym p q). destruct (Z.eqb_spec q p) as [->|]; [rewrite Ep|]; cbn; rewrite ?app_nil_r; reflexivity.
  - destruct (w_pc s p) eqn:Ep; eauto.
    + (* WTry *)
      destruct (w_loc s + d <=? C) eqn:El.
      * exists own. constructor; cbn [w_off w_fpn w_busy w_loc w_log w_pc w_file w_len w_beg w_pg w_cur]; auto.
        -- destruct H3 as [H3a H3b]. split; [lia|]. apply Z.divide_add_r; [exact H3b|apply Z.divide_refl].
        -- rewrite app_length. cbn. lia.
        -- split; [exact H5a|]. intros q. cbn. rewrite upd_pc_cases. destruct (Z.eqb_spec q p) as [->|]; [|apply H5b].
           specialize (H5b p). rewrite Ep in H5b. exact H5b.
        -- intros k x Hk j Hj. unfold wbyte. cbn [w_fpn w_pg w_cur w_file w_off].
           destruct (Nat.lt_ge_cases k (length (w_log s))) as [Hlt|Hge].
           ++ rewrite nth_error_app1 in Hk by exact Hlt. rewrite <- (H6 k x Hk j Hj). unfold wbyte.
              destruct (C * w_fpn s <=? hdr + Z.of_nat k * d + j) eqn:E1.
              ** unfold upd_page. rewrite Bool.eqb_reflx. unfold put.
                 replace ((w_loc s <=? hdr + Z.of_nat k * d + j - C * w_fpn s) &&
                          (hdr + Z.of_nat k * d + j - C * w_fpn s <? w_loc s + d)) with false; [reflexivity|].
                 symmetry. apply andb_false_iff. left. apply Z.leb_gt. nia.
              ** unfold upd_page. destruct (w_cur s); reflexivity.
           ++ assert (k = length (w_log s)).
              { assert (HK : (k < length (w_log s ++ [(p, v)]))%nat) by (apply nth_error_Some; congruence).
                rewrite app_length in HK. cbn in HK. lia. }
              subst k. rewrite nth_error_app2, Nat.sub_diag in Hk by lia. injection Hk as <-.
              cbn [snd]. replace (C * w_fpn s <=? hdr + Z.of_nat (length (w_log s)) * d + j) with true by lia.
              unfold upd_page. rewrite Bool.eqb_reflx. unfold put.
              replace ((w_loc s <=? hdr + Z.of_nat (length (w_log s)) * d + j - C * w_fpn s) &&
                       (hdr + Z.of_nat (length (w_log s)) * d + j - C * w_fpn s <? w_loc s + d)) with true by lia.
              f_equal. lia.
        -- intros q. rewrite upd_pc_cases. destruct (Z.eqb_spec q p) as [->|]; [exact I|].
           specialize (H7 q). destruct (w_pc s q); auto; split; try lia; intros; lia.
        -- intros q. rewrite upd_pc_cases, by_proc_app, by_proc_one, H10.
           rewrite (Z.eqb_sym p q). destruct (Z.eqb_spec q p) as [->|]; [rewrite Ep|]; cbn; rewrite ?app_nil_r; reflexivity.
      * exists own. apply WI_move; auto; rewrite ?Ep; auto. split; [lia|]. intros _.
        destruct H3 as [H3a H3b]. apply (div_le_full C d (w_loc s)); auto; lia.
    + (* WOpen *)
      destruct (negb (w_fpn s =? fpn)) eqn:E1.
      * exists own. apply WI_move; auto; rewrite ?Ep; auto.
      * specialize (H7 p). rewrite Ep in H7.
        destruct (w_busy s) eqn:Eb.
        -- exists own. apply WI_move; auto; rewrite ?Ep; auto.
        -- exists (Some (p, true)). eapply WI_switch; eauto; rewrite ?Ep; auto. apply H7. lia.
    + (* WWait *)
      destruct (w_busy s) eqn:Eb; [eauto|].
      destruct (negb (w_fpn s =? fpn)) eqn:E1.
      * exists own. apply WI_move; auto; rewrite ?Ep; auto.
      * specialize (H7 p). rewrite Ep in H7.
        exists (Some (p, true)). eapply WI_switch; eauto; rewrite ?Ep; auto. apply H7. lia.
    + (* WIO *)
      pose proof (H5b p) as Ho. rewrite Ep in Ho. subst own. cbn [unwritten] in *.
      exists (Some (p, false)). constructor; cbn [w_off w_fpn w_busy w_loc w_log w_pc w_file w_len w_beg w_pg w_cur unwritten]; auto.
      * split; [exact H5a|]. intros q. cbn. rewrite upd_pc_cases. destruct (Z.eqb_spec q p) as [->|]; [reflexivity|].
        specialize (H5b q). destruct (w_pc s q); try (intros b [= E1 E2]; congruence); congruence.
      * intros k x Hk j Hj. rewrite <- (H6 k x Hk j Hj). unfold wbyte.
        cbn [w_off w_fpn w_busy w_loc w_log w_pc w_file w_len w_beg w_pg w_cur andb].
        set (a := hdr + Z.of_nat k * d + j). assert (0 <= a) by (unfold a; nia).
        destruct (C * w_fpn s <=? a) eqn:E1; [reflexivity|]. unfold put.
        destruct (C * (w_fpn s - 1) <=? a) eqn:E2.
        -- replace ((C * (w_fpn s - 1) + w_off s <=? w_off s + a) && (w_off s + a <? C * (w_fpn s - 1) + w_off s + C)) with true by lia.
           f_equal. lia.
        -- replace ((C * (w_fpn s - 1) + w_off s <=? w_off s + a) && (w_off s + a <? C * (w_fpn s - 1) + w_off s + C)) with false by lia.
           reflexivity.
      * intros q. rewrite upd_pc_cases. destruct (Z.eqb_spec q p) as [->|]; [exact I|apply H7].
      * intros i Hi. unfold put. rewrite H8 by exact Hi.
        destruct H2 as [H2 H2b]. rewrite H5a in H2b. specialize (H2b eq_refl).
        replace ((C * (w_fpn s - 1) + w_off s <=? i) && (i <? C * (w_fpn s - 1) + w_off s + C)) with false; [reflexivity|].
        symmetry. apply andb_false_iff. left. apply Z.leb_gt. nia.
      * nia.
      * intros q. rewrite upd_pc_cases. destruct (Z.eqb_spec q p) as [->|]; [|apply H10].
        rewrite H10, Ep. reflexivity.
    + (* WSet *)
      pose proof (H5b p) as Ho. rewrite Ep in Ho. subst own. cbn [unwritten] in *.
      exists None. constructor; cbn [w_off w_fpn w_busy w_loc w_log w_pc w_file w_len w_beg w_pg w_cur unwritten]; auto.
      * split; [lia|discriminate].
      * split; [reflexivity|]. intros q. cbn. rewrite upd_pc_cases. destruct (Z.eqb_spec q p) as [->|]; [discriminate|].
        specialize (H5b q). destruct (w_pc s q); try discriminate; congruence.
      * intros q. rewrite upd_pc_cases. destruct (Z.eqb_spec q p) as [->|]; [exact I|apply H7].
      * intros q. rewrite upd_pc_cases. destruct (Z.eqb_spec q p) as [->|]; [|apply H10].
        rewrite H10, Ep. reflexivity.
Qed.

Lemma WI_init : forall C d off hdr pg file, sizes_ok C d hdr ->
  WI C d off hdr file (winit pg file off off hdr) None.
Proof.
  intros C d off hdr pg file [Sd [HC0 [SdC [Sdh Sh]]]]. constructor; cbn [winit w_off w_fpn w_busy w_loc w_log w_pc w_file w_len w_beg w_pg w_cur unwritten length]; auto; try lia.
  - split; [reflexivity|]. cbn. intros p b. discriminate.
  - intros [|k] x Hk; discriminate.
Qed.

Lemma WI_run : forall ops C d off hdr pg file, sizes_ok C d hdr ->
  exists own, WI C d off hdr file (run (wstep C d) (winit pg file off off hdr) ops) own.
Proof.
  intros ops C d off hdr pg file Hs.
  apply (run_inv _ _ (wstep C d) (fun s => exists own, WI C d off hdr file s own)).
  - intros s o [own H]. eapply WI_step; eauto.
  - exists None. apply WI_init. exact Hs.
Qed.

Lemma finalize_ok : forall C d off hdr file0 s own f len r, sizes_ok C d hdr ->
  WI C d off hdr file0 s own -> wfinalize C s = Some (f, len, r) ->
  holds d f (off + hdr) (map snd (w_log s)) /\
  (forall i, i < off -> f i = file0 i) /\
  r = off + hdr + d * Z.of_nat (length (w_log s)) /\ len = r /\ r = w_offset C s.
Proof.
  intros C d off hdr file0 s own f len r [Sd [HC0 [SdC [Sdh Sh]]]] [H1 H2 H3 H4 [H5a H5b] H6 H7 H8 H9 H10] Hf.
  unfold wfinalize in Hf. destruct (w_busy s) eqn:Eb; [discriminate|].
  destruct own as [[? ?]|]; [discriminate|]. cbn [unwritten] in *.
  injection Hf as Hf <- <-. subst f. split; [|split; [|split; [|split]]].
  - intros k v Hk j Hj. rewrite nth_error_map in Hk. destruct (nth_error (w_log s) k) as [x|] eqn:Ek; [|discriminate].
    injection Hk as <-. rewrite <- (H6 k x Ek j Hj). unfold wbyte, put. cbn [andb].
    assert (Hlt : (k < length (w_log s))%nat) by (apply nth_error_Some; congruence).
    set (a := hdr + Z.of_nat k * d + j). assert (a < C * w_fpn s + w_loc s) by (unfold a; nia).
    replace (off + hdr + Z.of_nat k * d + j) with (off + a) by (unfold a; lia).
    destruct (C * w_fpn s <=? a) eqn:E1.
    + replace ((C * w_fpn s + w_off s <=? off + a) && (off + a <? C * w_fpn s + w_off s + w_loc s)) with true by lia.
      f_equal. lia.
    + replace ((C * w_fpn s + w_off s <=? off + a) && (off + a <? C * w_fpn s + w_off s + w_loc s)) with false by lia.
      f_equal. lia.
  - intros i Hi. unfold put.
    replace ((C * w_fpn s + w_off s <=? i) && (i <? C * w_fpn s + w_off s + w_loc s)) with false by nia.
    apply H8. exact Hi.
  - lia.
  - destruct (0 <? w_loc s) eqn:E; lia.
  - unfold w_offset. lia.
Qed.

(** ** Readers *)
Definition page_ok (C : Z) (s : rst) (c : bool) (n : Z) : Prop :=
  forall i, 0 <= i < C -> r_off s + C * n + i < r_len s -> r_pg s c i = r_file s (r_off s + C * n + i).

Definition rowner_ok (s : rst) (own : option (Z * bool)) : Prop :=
  r_busy s = match own with Some _ => true | None => false end /\
  (forall p, match r_pc s p with
             | RIO => own = Some (p, true)
             | RSet => own = Some (p, false)
             | _ => forall b, own <> Some (p, b)
             end).

Record RI (C d off hdr : Z) (file : bytes) (len num : Z) (s : rst) (own : option (Z * bool)) : Prop := mkRI {
  ri_const : r_off s = off /\ r_file s = file /\ r_len s = len;
  ri_fpn : 0 <= r_fpn s;
  ri_loc : 0 <= r_loc s <= C /\ (d | r_loc s);
  ri_pos : C * r_fpn s + r_loc s = hdr + d * Z.of_nat (length (r_got s));
  ri_own : rowner_ok s own;
  ri_cur : page_ok C s (r_cur s) (r_fpn s);
  ri_nxt : unwritten own = false -> page_ok C s (negb (r_cur s)) (r_fpn s + 1);
  ri_free : r_free s = Z.max 0 (len - off - C * (r_fpn s + if unwritten own then 1 else 2));
  ri_got : forall k x, nth_error (r_got s) k = Some x -> forall j, 0 <= j < d ->
             off + hdr + Z.of_nat k * d + j < len -> snd x j = file (off + hdr + Z.of_nat k * d + j);
  ri_wait : forall p, match r_pc s p with
              | ROpen f | RWait f => f <= r_fpn s /\ (f = r_fpn s -> r_loc s = C)
              | _ => True end;
  ri_num : 0 <= r_num s /\ exists fl, NoDup fl /\ (forall p, In p fl <-> r_pc s p <> RIdle) /\
             r_num s + Z.of_nat (length fl) + Z.of_nat (length (r_got s)) = num;
  ri_panic : r_panic s = false
}.

Lemma RI_init : forall C d off hdr pg file len num s, sizes_ok C d hdr -> 0 <= off -> 0 <= num ->
  rinit C pg file len off hdr num = Some s -> RI C d off hdr file len num s None.
Proof.
  intros C d off hdr pg file len num s [Sd [HC0 [SdC [Sdh Sh]]]] Ho Hn E.
  unfold rinit in E. destruct ((len <? hdr) || (len <? off)) eqn:E0; [discriminate|].
  assert (Num : 0 <= num /\ exists fl : list Z, NoDup fl /\ (forall p : Z, In p fl <-> RIdle <> RIdle) /\
             num + Z.of_nat (length fl) + Z.of_nat (length (@nil (Z * bytes))) = num).
  { split; [exact Hn|]. exists []. split; [constructor|]. split; [intros p; cbn; intuition congruence|]. cbn. lia. }
  destruct (((len =? 0) || (len - off =? 0)) && (hdr =? 0)) eqn:E1; injection E as <-.
  - constructor; cbn [r_off r_file r_len r_fpn r_loc r_got r_pc r_num r_panic r_cur r_pg r_free unwritten length negb]; auto; try lia.
    + split; [reflexivity|]. cbn. discriminate.
    + intros i Hi Hl. cbn in Hl. lia.
    + intros _ i Hi Hl. cbn in Hl. lia.
    all: try (intros [|k] x Hk; discriminate).
  - constructor; cbn [r_off r_file r_len r_fpn r_loc r_got r_pc r_num r_panic r_cur r_pg r_free unwritten length negb]; auto; try lia.
    + split; [reflexivity|]. cbn. discriminate.
    + intros i Hi Hl. cbn in *.
      replace ((0 <=? i) && (i <? (if C <? len - off then C else len - off))) with true
        by (destruct (C <? len - off) eqn:Q; lia). f_equal. lia.
    + intros _ i Hi Hl. cbn in *.
      replace (C <? len - off) with true by lia.
      replace ((0 <=? i) && (i <? (if C <? len - off - C then C else len - off - C))) with true
        by (destruct (C <? len - off - C) eqn:Q; lia). f_equal. lia.
    + destruct (C <? len - off) eqn:Q; [destruct (C <? len - off - C) eqn:Q2|]; lia.
    + intros [|k] x Hk; discriminate.
Qed.

Lemma fl_move : forall (pc : Z -> rpc) fl p c, NoDup fl -> (forall q, In q fl <-> pc q <> RIdle) ->
  pc p <> RIdle -> c <> RIdle -> forall q, In q fl <-> upd pc p c q <> RIdle.
Proof.
  intros pc fl p c Hd Hf Hp Hc q. rewrite upd_pc_cases. destruct (Z.eqb_spec q p) as [->|]; [|apply Hf].
  rewrite Hf. tauto.
Qed.

Lemma fl_add : forall (pc : Z -> rpc) fl p c, NoDup fl -> (forall q, In q fl <-> pc q <> RIdle) ->
  pc p = RIdle -> c <> RIdle -> NoDup (p :: fl) /\ forall q, In q (p :: fl) <-> upd pc p c q <> RIdle.
Proof.
  intros pc fl p c Hd Hf Hp Hc. split.
  - constructor; [|exact Hd]. rewrite Hf. tauto.
  - intros q. rewrite upd_pc_cases. cbn. destruct (Z.eqb_spec q p) as [->|]; [tauto|]. rewrite Hf. intuition congruence.
Qed.

Lemma fl_del : forall (pc : Z -> rpc) fl p, NoDup fl -> (forall q, In q fl <-> pc q <> RIdle) ->
  pc p <> RIdle -> exists fl', NoDup fl' /\ (forall q, In q fl' <-> upd pc p RIdle q <> RIdle) /\
    length fl = S (length fl').
Proof.
  intros pc fl p Hd Hf Hp. assert (Hin : In p fl) by (apply Hf; exact Hp).
  apply in_split in Hin. destruct Hin as [a [b ->]]. exists (a ++ b).
  split; [eapply NoDup_remove_1; eauto|]. split.
  - intros q. rewrite upd_pc_cases. destruct (Z.eqb_spec q p) as [->|].
    + split; [|congruence]. intros Hq. exfalso. eapply NoDup_remove_2; eauto.
    + rewrite <- Hf. rewrite !in_app_iff. cbn. intuition congruence.
  - rewrite !app_length. cbn. lia.
Qed.

Ltac rcbn := cbn [r_off r_file r_len r_fpn r_loc r_got r_pc r_num r_panic r_cur r_pg r_free r_busy set_rpc rswitch].

Lemma RI_move : forall C d off hdr file len num s own p c,
  RI C d off hdr file len num s own ->
  match r_pc s p with RIdle | RIO | RSet => False | _ => True end ->
  match c with
  | RIdle | RIO | RSet => False
  | ROpen f | RWait f => f <= r_fpn s /\ (f = r_fpn s -> r_loc s = C)
  | _ => True end ->
  RI C d off hdr file len num (set_rpc s p c) own.
Proof.
  intros C d off hdr file len num s own p c [H1 H2 H3 H4 [H5a H5b] H6 H7 H8 H9 H10 H11 H12] Hp Hc.
  constructor; rcbn; auto.
  - split; [exact H5a|]. intros q. rcbn. rewrite upd_pc_cases. destruct (Z.eqb_spec q p) as [->|].
    + specialize (H5b p). destruct (r_pc s p), c; try contradiction; auto.
    + apply H5b.
  - intros q. rewrite upd_pc_cases. destruct (Z.eqb_spec q p) as [->|]; [|apply H10].
    destruct c; auto; contradiction.
  - destruct H11 as [H11 [fl [F1 [F2 F3]]]]. split; [exact H11|]. exists fl. split; [exact F1|]. split; [|exact F3].
    apply fl_move; auto; destruct (r_pc s p), c; try contradiction; discriminate.
Qed.

Lemma RI_switch : forall C d off hdr file len num s own p, 0 < C ->
  RI C d off hdr file len num s own -> r_busy s = false -> r_loc s = C ->
  match r_pc s p with RIdle | RIO | RSet => False | _ => True end ->
  RI C d off hdr file len num (rswitch s p) (Some (p, true)).
Proof.
  intros C d off hdr file len num s own p HC [H1 H2 H3 H4 [H5a H5b] H6 H7 H8 H9 H10 H11 H12] Hb Hl Hp.
  rewrite Hb in H5a. destruct own as [[? ?]|]; [discriminate|]. cbn [unwritten] in *.
  constructor; rcbn; cbn [unwritten]; auto; try lia.
  - split; [lia|]. apply Z.divide_0_r.
  - split; [reflexivity|]. intros q. rcbn. rewrite upd_pc_cases. destruct (Z.eqb_spec q p) as [->|]; [reflexivity|].
    specialize (H5b q). destruct (r_pc s q); try discriminate H5b; intros b [= E1 E2]; congruence.
  - intros q. rewrite upd_pc_cases. destruct (Z.eqb_spec q p) as [->|]; [exact I|].
    specialize (H10 q). destruct (r_pc s q); auto; split; try lia; intros; lia.
  - destruct H11 as [H11 [fl [F1 [F2 F3]]]]. split; [exact H11|]. exists fl. split; [exact F1|]. split; [|exact F3].
    apply fl_move; auto; [|discriminate]. destruct (r_pc s p); try contradiction; discriminate.
Qed.

Lemma RI_step : forall C d off hdr file len num s own o, sizes_ok C d hdr ->
  RI C d off hdr file len num s own -> exists own', RI C d off hdr file len num (rstep C d s o) own'.
Proof.
  intros C d off hdr file len num s own o [Sd [HC0 [SdC [Sdh Sh]]]] H.
  pose proof H as [[H1a [H1b H1c]] H2 H3 H4 [H5a H5b] H6 H7 H8 H9 H10 H11 H12].
  destruct o as [p|p]; cbn [rstep].
  - destruct (r_pc s p) eqn:Ep; eauto. destruct (0 <? r_num s) eqn:E; [|eauto].
    exists own. constructor; rcbn; auto.
    + split; [exact H5a|]. intros q. rcbn. rewrite upd_pc_cases. destruct (Z.eqb_spec q p) as [->|]; [|apply H5b].
      specialize (H5b p). rewrite Ep in H5b. exact H5b.
    + intros q. rewrite upd_pc_cases. destruct (Z.eqb_spec q p) as [->|]; [exact I|apply H10].
    + destruct H11 as [H11 [fl [F1 [F2 F3]]]]. split; [lia|]. exists (p :: fl).
      destruct (fl_add (r_pc s) fl p RTry F1 F2 Ep ltac:(discriminate)) as [G1 G2].
      split; [exact G1|]. split; [exact G2|]. cbn [length]. lia.
  - destruct (r_pc s p) eqn:Ep; eauto.
    + destruct (r_loc s + d <=? C) eqn:El.
      * exists own. constructor; rcbn; auto.
        -- destruct H3 as [H3a H3b]. split; [lia|]. apply Z.divide_add_r; [exact H3b|apply Z.divide_refl].
        -- rewrite app_length. cbn. lia.
        -- split; [exact H5a|]. intros q. rcbn. rewrite upd_pc_cases. destruct (Z.eqb_spec q p) as [->|]; [|apply H5b].
           specialize (H5b p). rewrite Ep in H5b. exact H5b.
        -- intros k x Hk j Hj Hln. destruct (Nat.lt_ge_cases k (length (r_got s))) as [Hlt|Hge].
           ++ rewrite nth_error_app1 in Hk by exact Hlt. apply (H9 k x Hk j Hj Hln).
           ++ assert (k = length (r_got s)).
              { assert (HK : (k < length (r_got s ++ [(p, fun j0 => r_pg s (r_cur s) (r_loc s + j0)%Z)]))%nat)
                  by (apply nth_error_Some; congruence).
                rewrite app_length in HK. cbn in HK. lia. }
              subst k. rewrite nth_error_app2, Nat.sub_diag in Hk by lia. injection Hk as <-. cbn [snd].
              rewrite (H6 (r_loc s + j)); [|lia|lia]. rewrite H1b. f_equal. lia.
        -- intros q. rewrite upd_pc_cases. destruct (Z.eqb_spec q p) as [->|]; [exact I|].
           specialize (H10 q). destruct (r_pc s q); auto; split; try lia; intros; lia.
        -- destruct H11 as [H11 [fl [F1 [F2 F3]]]]. split; [exact H11|].
           destruct (fl_del (r_pc s) fl p F1 F2 ltac:(congruence)) as [fl' [G1 [G2 G3]]].
           exists fl'. split; [exact G1|]. split; [exact G2|]. rewrite app_length. cbn [length]. lia.
      * exists own. apply RI_move; auto; rewrite ?Ep; auto. split; [lia|]. intros _.
        destruct H3 as [H3a H3b]. apply (div_le_full C d (r_loc s)); auto; lia.
    + destruct (negb (r_fpn s =? fpn)) eqn:E1.
      * exists own. apply RI_move; auto; rewrite ?Ep; auto.
      * specialize (H10 p). rewrite Ep in H10. destruct (r_busy s) eqn:Eb.
        -- exists own. apply RI_move; auto; rewrite ?Ep; auto.
        -- exists (Some (p, true)). eapply RI_switch; eauto; rewrite ?Ep; auto. apply H10. lia.
    + destruct (r_busy s) eqn:Eb; [eauto|]. destruct (negb (r_fpn s =? fpn)) eqn:E1.
      * exists own. apply RI_move; auto; rewrite ?Ep; auto.
      * specialize (H10 p). rewrite Ep in H10.
        exists (Some (p, true)). eapply RI_switch; eauto; rewrite ?Ep; auto. apply H10. lia.
    + pose proof (H5b p) as Ho. rewrite Ep in Ho. subst own. cbn [unwritten] in *.
      exists (Some (p, false)).
      assert (Own : forall q, match upd (r_pc s) p RSet q with
             | RIO => Some (p, false) = Some (q, true)
             | RSet => Some (p, false) = Some (q, false)
             | _ => forall b, Some (p, false) <> Some (q, b) end).
      { intros q. rewrite upd_pc_cases. destruct (Z.eqb_spec q p) as [->|]; [reflexivity|].
        specialize (H5b q). destruct (r_pc s q); try (intros b [= E1 E2]; congruence); congruence. }
      assert (Wt : forall q, match upd (r_pc s) p RSet q with
              | ROpen f | RWait f => f <= r_fpn s /\ (f = r_fpn s -> r_loc s = C)
              | _ => True end).
      { intros q. rewrite upd_pc_cases. destruct (Z.eqb_spec q p) as [->|]; [exact I|apply H10]. }
      assert (Num : 0 <= r_num s /\ exists fl, NoDup fl /\ (forall q, In q fl <-> upd (r_pc s) p RSet q <> RIdle) /\
             r_num s + Z.of_nat (length fl) + Z.of_nat (length (r_got s)) = num).
      { destruct H11 as [H11 [fl [F1 [F2 F3]]]]. split; [exact H11|]. exists fl. split; [exact F1|]. split; [|exact F3].
        apply fl_move; auto; [congruence|discriminate]. }
      destruct (0 <? r_free s) eqn:Ef.
      * constructor; rcbn; cbn [unwritten]; auto.
        -- split; [exact H5a|exact Own].
        -- intros i Hi Hln. rcbn. unfold upd_page. replace (Bool.eqb (r_cur s) (negb (r_cur s))) with false
             by (destruct (r_cur s); reflexivity). apply H6; auto.
        -- intros _ i Hi Hln. rcbn. unfold upd_page. rewrite Bool.eqb_reflx. unfold chunk. cbn in Hln.
           replace ((0 <=? i) && (i <? Z.min C (r_len s - (C * (r_fpn s + 1) + r_off s)))) with true by lia.
           f_equal. lia.
        -- lia.
        -- rewrite H12. lia.
      * constructor; rcbn; cbn [unwritten]; auto; try lia.
        -- split; [exact H5a|exact Own].
        -- intros _ i Hi Hln. cbn in Hln. lia.
    + pose proof (H5b p) as Ho. rewrite Ep in Ho. subst own. cbn [unwritten] in *.
      exists None. constructor; rcbn; cbn [unwritten]; auto.
      * split; [reflexivity|]. intros q. rcbn. rewrite upd_pc_cases. destruct (Z.eqb_spec q p) as [->|]; [discriminate|].
        specialize (H5b q). destruct (r_pc s q); try discriminate; congruence.
      * intros q. rewrite upd_pc_cases. destruct (Z.eqb_spec q p) as [->|]; [exact I|apply H10].
      * destruct H11 as [H11 [fl [F1 [F2 F3]]]]. split; [exact H11|]. exists fl. split; [exact F1|]. split; [|exact F3].
        apply fl_move; auto; [congruence|discriminate].
Qed.

Lemma RI_run : forall ops C d off hdr pg file len num s, sizes_ok C d hdr -> 0 <= off -> 0 <= num ->
  rinit C pg file len off hdr num = Some s ->
  exists own, RI C d off hdr file len num (run (rstep C d) s ops) own.
Proof.
  intros ops C d off hdr pg file len num s Hs Ho Hn E.
  apply (run_inv _ _ (rstep C d) (fun s => exists own, RI C d off hdr file len num s own)).
  - intros s' o [own H]. eapply RI_step; eauto.
  - exists None. eapply RI_init; eauto.
Qed.

(** Readers of a file that holds [vs] get them in order, each exactly once. *)
Lemma readers_ok : forall ops C d off hdr pg file len num s vs, sizes_ok C d hdr -> 0 <= off ->
  rinit C pg file len off hdr num = Some s ->
  holds d file (off + hdr) vs -> 0 <= num <= Z.of_nat (length vs) ->
  off + hdr + d * Z.of_nat (length vs) <= len ->
  let s' := run (rstep C d) s ops in
  r_panic s' = false /\ (length (r_got s') <= Z.to_nat num)%nat /\
  (forall k p w, nth_error (r_got s') k = Some (p, w) -> exists v, nth_error vs k = Some v /\ same_value d w v) /\
  r_offset C s' = off + hdr + d * Z.of_nat (length (r_got s')).
Proof.
  intros ops C d off hdr pg file len num s vs Hs Ho Er Hh Hn Hlen s'.
  destruct (RI_run ops C d off hdr pg file len num s Hs Ho ltac:(lia) Er) as [own H]. fold s' in H.
  destruct Hs as [Sd [HC0 [SdC [Sdh Sh]]]].
  destruct H as [[H1a [H1b H1c]] H2 H3 H4 [H5a H5b] H6 H7 H8 H9 H10 [H11 [fl [F1 [F2 F3]]]] H12].
  assert (Hl : (length (r_got s') <= Z.to_nat num)%nat) by lia.
  split; [exact H12|]. split; [exact Hl|]. split.
  - intros k p w Hk.
    assert (Hlt : (k < length (r_got s'))%nat) by (apply nth_error_Some; congruence).
    destruct (nth_error vs k) as [v|] eqn:Ev.
    + exists v. split; [reflexivity|]. intros j Hj.
      rewrite <- (Hh k v Ev j Hj). specialize (H9 k (p, w) Hk j Hj). cbn [snd] in H9. apply H9. nia.
    + apply nth_error_None in Ev. lia.
  - unfold r_offset. lia.
Qed.

Lemma holds_app : forall d f start a b, holds d f start a ->
  holds d f (start + d * Z.of_nat (length a)) b -> holds d f start (a ++ b).
Proof.
  intros d f start a b Ha Hb k v Hk j Hj. destruct (Nat.lt_ge_cases k (length a)) as [Hlt|Hge].
  - rewrite nth_error_app1 in Hk by exact Hlt. apply Ha; auto.
  - rewrite nth_error_app2 in Hk by exact Hge. rewrite <- (Hb _ _ Hk j Hj). f_equal. rewrite Nat2Z.inj_sub by exact Hge. lia.
Qed.

Lemma sessions_ok : forall xs C d hdr fl f len vs, sizes_ok C d hdr ->
  sessions C d hdr fl xs = Some (f, len, vs) -> (xs <> [] \/ hdr = 0) ->
  holds d f (snd fl + hdr) vs /\ (forall i, i < snd fl -> f i = fst fl i) /\
  len = snd fl + hdr + d * Z.of_nat (length vs).
Proof.
  induction xs as [|x r IH]; intros C d hdr fl f len vs Hs E Hne; cbn [sessions] in E.
  - injection E as <- <- <-. destruct Hne as [Hne|Hne]; [congruence|]. split; [|split; [auto|cbn; lia]].
    intros [|k] v Hk; discriminate.
  - unfold session in E.
    set (s := run (wstep C d) (winit (fst x) (fst fl) (snd fl) (snd fl) hdr) (snd x)) in *.
    destruct (wfinalize C s) as [[[f1 len1] r1]|] eqn:Ef; [|discriminate].
    destruct (WI_run (snd x) C d (snd fl) hdr (fst x) (fst fl) Hs) as [own HW]. fold s in HW.
    destruct (finalize_ok C d (snd fl) hdr (fst fl) s own f1 len1 r1 Hs HW Ef) as [A1 [A2 [A3 [A4 _]]]].
    destruct (sessions C d 0 (f1, len1) r) as [[[f2 len2] vs2]|] eqn:Es; [|discriminate].
    injection E as <- <- <-.
    assert (Hs0 : sizes_ok C d 0).
    { destruct Hs as [Sd [HC0 [SdC [Sdh Sh]]]]. repeat split; auto; try lia. apply Z.divide_0_r. }
    destruct (IH C d 0 (f1, len1) f2 len2 vs2 Hs0 Es (or_intror eq_refl)) as [B1 [B2 B3]].
    cbn [fst snd] in *. split; [|split].
    + apply holds_app.
      * intros k v Hk j Hj. rewrite <- (A1 k v Hk j Hj). apply B2.
        assert (Hlt : (k < length (map snd (w_log s)))%nat) by (apply nth_error_Some; congruence).
        rewrite map_length in Hlt. nia.
      * rewrite map_length. replace (snd fl + hdr + d * Z.of_nat (length (w_log s))) with (len1 + 0) by lia. exact B1.
    + intros i Hi. rewrite B2; [apply A2; exact Hi|].
      destruct Hs as [Sd [HC0 [SdC [Sdh Sh]]]]. nia.
    + rewrite app_length, map_length. nia.
Qed.

Lemma round_trip : forall xs C d hdr pg0 f len vs pg ops s, sizes_ok C d hdr -> xs <> [] ->
  sessions C d hdr (pg0, 0) xs = Some (f, len, vs) ->
  rinit C pg f len 0 hdr (Z.of_nat (length vs)) = Some s ->
  let s' := run (rstep C d) s ops in
  r_panic s' = false /\ (length (r_got s') <= length vs)%nat /\
  (forall k p w, nth_error (r_got s') k = Some (p, w) -> exists v, nth_error vs k = Some v /\ same_value d w v).
Proof.
  intros xs C d hdr pg0 f len vs pg ops s Hs Hne E Er s'.
  destruct (sessions_ok xs C d hdr (pg0, 0) f len vs Hs E (or_introl Hne)) as [A [_ B]]. cbn [fst snd] in *.
  destruct (readers_ok ops C d 0 hdr pg f len (Z.of_nat (length vs)) s vs Hs ltac:(lia) Er A ltac:(lia) ltac:(lia))
    as [R1 [R2 [R3 _]]].
  fold s' in R1, R2, R3. split; [exact R1|]. split; [lia|exact R3].
Qed.

Lemma open_succeeds : forall xs C d hdr pg0 f len vs pg num, sizes_ok C d hdr -> xs <> [] ->
  sessions C d hdr (pg0, 0) xs = Some (f, len, vs) -> exists s, rinit C pg f len 0 hdr num = Some s.
Proof.
  intros xs C d hdr pg0 f len vs pg num Hs Hne E.
  destruct (sessions_ok xs C d hdr (pg0, 0) f len vs Hs E (or_introl Hne)) as [_ [_ B]]. cbn [fst snd] in *.
  destruct Hs as [Sd [HC0 [SdC [Sdh Sh]]]].
  unfold rinit. replace ((len <? hdr) || (len <? 0)) with false by nia.
  destruct (((len =? 0) || (len - 0 =? 0)) && (hdr =? 0)); eexists; reflexivity.
Qed.

Lemma reader_reopened : forall ops1 ops2 C d hdr pg1 pg2 file len num1 num2 s1 s2 vs, sizes_ok C d hdr ->
  holds d file hdr vs -> hdr + d * Z.of_nat (length vs) <= len ->
  rinit C pg1 file len 0 hdr num1 = Some s1 -> 0 <= num1 <= Z.of_nat (length vs) ->
  let a := run (rstep C d) s1 ops1 in
  rinit C pg2 file len (r_offset C a) 0 num2 = Some s2 -> 0 <= num2 <= Z.of_nat (length vs - length (r_got a)) ->
  let b := run (rstep C d) s2 ops2 in
  r_panic b = false /\
  forall k p w, nth_error (r_got a ++ r_got b) k = Some (p, w) -> exists v, nth_error vs k = Some v /\ same_value d w v.
Proof.
  intros ops1 ops2 C d hdr pg1 pg2 file len num1 num2 s1 s2 vs Hs Hh Hlen E1 Hn1 a E2 Hn2 b.
  destruct (readers_ok ops1 C d 0 hdr pg1 file len num1 s1 vs Hs ltac:(lia) E1 Hh Hn1 ltac:(lia)) as [_ [A2 [A3 A4]]].
  fold a in A2, A3, A4.
  assert (La : (length (r_got a) <= length vs)%nat) by lia.
  destruct Hs as [Sd [HC0 [SdC [Sdh Sh]]]].
  assert (Hs0 : sizes_ok C d 0) by (repeat split; auto; try lia; apply Z.divide_0_r).
  assert (Hsk : holds d file (r_offset C a + 0) (skipn (length (r_got a)) vs)).
  { intros k v Hk j Hj. rewrite A4.
    rewrite <- (Hh (length (r_got a) + k)%nat v); [f_equal; rewrite Nat2Z.inj_add; lia| |exact Hj].
    rewrite <- (firstn_skipn (length (r_got a)) vs). rewrite nth_error_app2; rewrite firstn_length_le by exact La; [|lia].
    rewrite <- Hk. f_equal. lia. }
  destruct (readers_ok ops2 C d (r_offset C a) 0 pg2 file len num2 s2 (skipn (length (r_got a)) vs) Hs0) as [B1 [B2 [B3 _]]]; auto.
  - nia.
  - rewrite skipn_length. lia.
  - rewrite skipn_length. rewrite A4. nia.
  - fold b in B1, B2, B3. split; [exact B1|].
    intros k p w Hk. destruct (Nat.lt_ge_cases k (length (r_got a))) as [Hlt|Hge].
    + rewrite nth_error_app1 in Hk by exact Hlt. eapply A3; eauto.
    + rewrite nth_error_app2 in Hk by exact Hge. destruct (B3 _ _ _ Hk) as [v [V1 V2]].
      exists v. split; [|exact V2].
      rewrite <- (firstn_skipn (length (r_got a)) vs). rewrite nth_error_app2; rewrite firstn_length_le by exact La; [|lia].
      exact V1.
Qed.

Lemma readers_complete : forall ops C d off hdr pg file len num s, sizes_ok C d hdr -> 0 <= off -> 0 <= num ->
  rinit C pg file len off hdr num = Some s ->
  let s' := run (rstep C d) s ops in
  r_num s' = 0 -> (forall p, r_pc s' p = RIdle) -> Z.of_nat (length (r_got s')) = num.
Proof.
  intros ops C d off hdr pg file len num s Hs Ho Hn Er s' H0 Hi.
  destruct (RI_run ops C d off hdr pg file len num s Hs Ho Hn Er) as [own H]. fold s' in H.
  destruct (ri_num _ _ _ _ _ _ _ _ _ H) as [_ [fl [_ [F2 F3]]]].
  destruct fl as [|x fl]; [cbn [length] in F3; lia|].
  exfalso. apply (proj1 (F2 x) (or_introl eq_refl)). apply Hi.
Qed.
