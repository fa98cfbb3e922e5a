(** Invariants behind C26. *)
From Coq Require Import ZArith List Bool Lia.
From Verif Require Import Base PgImgModel PgImgSpec.
Import ListNotations.
Open Scope Z_scope.

(* ------------------------------------------------------------ items *)

Fixpoint srt (it : items) : Prop :=
  match it with [] => True | i :: r => (forall j, In j r -> fst i < fst j) /\ srt r end.

Definition nokey (it : items) (k : Z) : Prop := forall i, In i it -> fst i <> k.

Lemma look_nokey : forall it k, nokey it k -> look it k = [].
Proof.
  induction it as [|[k' l] r IH]; intros k N; cbn; auto.
  destruct (Z.eqb_spec k' k) as [E|E].
  - exfalso. apply (N (k', l)); cbn; auto.
  - apply IH. intros i Hi. apply N. cbn. auto.
Qed.

Lemma look_key : forall it k, look it k <> [] -> exists i, In i it /\ fst i = k.
Proof.
  induction it as [|[k' l] r IH]; intros k N; cbn in *; [congruence|].
  destruct (Z.eqb_spec k' k) as [E|E].
  - exists (k', l). auto.
  - destruct (IH k N) as (i & Hi & Hk). exists i. auto.
Qed.

Lemma look_filter : forall f it k, look (filter (fun i => f (fst i)) it) k = if f k then look it k else [].
Proof.
  intros f it k. induction it as [|[k' l] r IH]; cbn; [destruct (f k); auto|].
  destruct (f k') eqn:F; cbn; destruct (Z.eqb_spec k' k) as [E|E]; subst; auto.
  - rewrite F. auto.
  - rewrite F in *. exact IH.
Qed.

Lemma look_below : forall b it k, look (below b it) k = if k <? b then look it k else [].
Proof. intros. unfold below. apply (look_filter (fun x => x <? b)). Qed.

Lemma look_from : forall b it k, look (from b it) k = if b <=? k then look it k else [].
Proof. intros. unfold from. apply (look_filter (fun x => b <=? x)). Qed.

Lemma look_app_l : forall a b k, nokey b k -> look (a ++ b) k = look a k.
Proof.
  induction a as [|[k' l] r IH]; intros b k N; cbn.
  - apply look_nokey. exact N.
  - destruct (k' =? k); auto.
Qed.

Lemma look_app_r : forall a b k, nokey a k -> look (a ++ b) k = look b k.
Proof.
  induction a as [|[k' l] r IH]; intros b k N; cbn; auto.
  destruct (Z.eqb_spec k' k) as [E|E].
  - exfalso. apply (N (k', l)); cbn; auto.
  - apply IH. intros i Hi. apply N. cbn. auto.
Qed.

Lemma srt_filter : forall f it, srt it -> srt (filter f it).
Proof.
  intros f it. induction it as [|i r IH]; intros H; cbn; auto.
  destruct H as [H1 H2]. destruct (f i); cbn; auto.
  split; auto. intros j Hj. apply filter_In in Hj. apply H1. tauto.
Qed.

Lemma srt_app : forall a b, srt a -> srt b -> (forall i j, In i a -> In j b -> fst i < fst j) -> srt (a ++ b).
Proof.
  induction a as [|i r IH]; intros b Ha Hb H; cbn; auto.
  destruct Ha as [H1 H2]. split.
  - intros j Hj. apply in_app_or in Hj. destruct Hj as [Hj|Hj]; auto. apply H; cbn; auto.
  - apply IH; auto. intros x y Hx Hy. apply H; cbn; auto.
Qed.

Lemma look_kept : forall st x r it k, srt it ->
  look (kept st x r it) k = if goes st x r (k, look it k) then [] else look it k.
Proof.
  intros st x r it k. unfold kept. induction it as [|[k' l] t IH]; intros H; cbn [filter look]; auto.
  destruct H as [H1 H2].
  destruct (Z.eqb_spec k' k) as [E|E].
  - subst k'. change (goes st x r (k, l)) with (goes st x r (k, l)).
    destruct (goes st x r (k, l)) eqn:G; cbn [negb].
    + apply look_nokey. intros i Hi. apply filter_In in Hi. destruct Hi as [Hi _].
      specialize (H1 _ Hi). cbn in H1. lia.
    + cbn [look]. rewrite Z.eqb_refl. reflexivity.
  - destruct (negb (goes st x r (k', l))); cbn [look].
    + destruct (Z.eqb_spec k' k); [contradiction|]. auto.
    + auto.
Qed.

Lemma push_in : forall it k w i, In i (push it k w) -> fst i = k \/ exists j, In j it /\ fst j = fst i.
Proof.
  induction it as [|[k' l] r IH]; intros k w i H; cbn in H.
  - destruct H as [<-|[]]. cbn. auto.
  - destruct (Z.eqb_spec k' k) as [E|E].
    + destruct H as [<-|H]; cbn; auto. right. exists i. cbn. auto.
    + destruct (k <? k').
      * destruct H as [<-|H]; cbn; auto. right. exists i. auto.
      * destruct H as [<-|H]; [right; exists (k', l); cbn; auto|].
        destruct (IH _ _ _ H) as [E2|(j & Hj & Ej)]; auto. right. exists j. cbn. auto.
Qed.

Lemma srt_push : forall it k w, srt it -> srt (push it k w).
Proof.
  induction it as [|[k' l] r IH]; intros k w H; cbn.
  - split; auto. intros j [].
  - destruct H as [H1 H2]. destruct (Z.eqb_spec k' k) as [E|E]; [split; auto|].
    destruct (Z.ltb_spec k k') as [L|L].
    + split; [|split; auto]. cbn. intros j [<-|Hj]; cbn; [lia|]. specialize (H1 _ Hj). cbn in H1. lia.
    + split; auto. cbn. intros j Hj. apply push_in in Hj. destruct Hj as [E2|(i & Hi & Ei)]; [lia|].
      specialize (H1 _ Hi). cbn in H1. lia.
Qed.

Lemma look_push : forall it k w k', srt it ->
  look (push it k w) k' = if k' =? k then w :: look it k else look it k'.
Proof.
  induction it as [|[q l] r IH]; intros k w k' H; cbn [push look].
  - rewrite Z.eqb_sym. destruct (k' =? k) eqn:E; auto.
  - destruct H as [H1 H2]. destruct (Z.eqb_spec q k) as [E|E].
    + subst q. cbn [look]. destruct (Z.eqb_spec k' k) as [E2|E2].
      * subst. rewrite Z.eqb_refl. auto.
      * destruct (Z.eqb_spec k k'); [congruence|]. auto.
    + destruct (Z.ltb_spec k q) as [L|L]; cbn [look].
      * destruct (Z.eqb_spec k' k) as [E2|E2].
        -- subst. rewrite Z.eqb_refl. f_equal. symmetry. apply look_nokey.
           intros i Hi. specialize (H1 _ Hi). cbn in H1. lia.
        -- destruct (Z.eqb_spec k k'); [congruence|]. auto.
      * rewrite IH by auto. destruct (Z.eqb_spec k' k) as [E2|E2].
        -- subst. destruct (Z.eqb_spec q k); [contradiction|]. auto.
        -- auto.
Qed.

Lemma unver_in : forall o it i, In i (unver o it) -> exists j, In j it /\ fst j = fst i.
Proof.
  intros o it i H. unfold unver in H. apply filter_In in H. destruct H as [H _].
  apply in_map_iff in H. destruct H as (j & <- & Hj). exists j. auto.
Qed.

Lemma srt_unver : forall o it, srt it -> srt (unver o it).
Proof.
  intros o it H. unfold unver. apply srt_filter. induction it as [|i r IH]; cbn; auto.
  destruct H as [H1 H2]. split; auto. intros j Hj. apply in_map_iff in Hj.
  destruct Hj as (x & <- & Hx). cbn. auto.
Qed.

Lemma look_unver : forall o it k, srt it ->
  look (unver o it) k = filter (fun w => negb (fst w =? o)) (look it k).
Proof.
  intros o it k. induction it as [|[k' l] r IH]; intros H; cbn; auto.
  destruct H as [H1 H2]. specialize (IH H2).
  change (filter (fun i : Z * list ver => match snd i with [] => false | _ :: _ => true end)
    (map (fun i : Z * list ver => (fst i, filter (fun w : Z * option Z => negb (fst w =? o)) (snd i))) r))
    with (unver o r).
  destruct (Z.eqb_spec k' k) as [E|E].
  - subst k'. destruct (filter (fun w => negb (fst w =? o)) l) eqn:F; cbn; rewrite ?Z.eqb_refl; auto.
    apply look_nokey. intros i Hi. apply unver_in in Hi. destruct Hi as (j & Hj & Ej).
    specialize (H1 _ Hj). cbn in H1. lia.
  - destruct (filter (fun w => negb (fst w =? o)) l) eqn:F; cbn; auto.
    destruct (Z.eqb_spec k' k); [contradiction|]. auto.
Qed.

(* ------------------------------------------------------------ chains *)

Definition within (P : page) : Prop := forall i, In i (p_it P) -> covers P (fst i) = true.
Definition cov (P : page) (k : Z) : Prop := covers P k = true.

Definition above (lo : option Z) (k : Z) : Prop := match lo with None => True | Some a => a <= k end.
Definition under (hi : option Z) (k : Z) : Prop := match hi with None => True | Some b => k < b end.
Definition hle (hi : option Z) (s : Z) : Prop := match hi with None => False | Some h => h <= s end.
Definition ohle (h' h : option Z) : Prop := match h with None => True | Some b => hle h' b end.

Lemma cov_iff : forall P k, cov P k <-> above (p_lo P) k /\ under (p_hi P) k.
Proof.
  intros P k. unfold cov, covers, inb, above, under.
  destruct (p_lo P), (p_hi P); rewrite andb_true_iff; lia.
Qed.

Inductive OK (vs : list ver -> option Z) (h : Z -> option Z) (recs : Z -> option rec) (c ret : Z)
  : items -> (Z -> Prop) -> option Z -> option (option Z) -> Z -> Z -> Prop :=
| ok_here : forall it (R : Z -> Prop) hi lw n u,
    n < c -> (forall k, R k -> vs (look it k) = h k) -> OK vs h recs c ret it R hi lw n u
| ok_full : forall it (R : Z -> Prop) hi lw n u P,
    c <= n -> ret <= u -> recs u = Some (RFull P) -> p_ul P < u ->
    (forall k, R k -> cov P k) -> within P ->
    OK vs h recs c ret (p_it P) (cov P) (p_hi P) (Some (p_lo P)) (p_csn P) (p_ul P) ->
    OK vs h recs c ret it R hi lw n u
| ok_merge : forall it (R : Z -> Prop) hi lw n u A B b,
    c <= n -> ret <= u -> recs u = Some (RMerge A B) -> p_ul A < u -> p_ul B < u ->
    p_hi A = Some b -> p_lo B = Some b ->
    (forall k, R k -> k < b -> cov A k) -> (forall k, R k -> b <= k -> cov B k) ->
    within A -> within B ->
    OK vs h recs c ret (p_it A) (cov A) (p_hi A) (Some (p_lo A)) (p_csn A) (p_ul A) ->
    OK vs h recs c ret (p_it B) (cov B) (p_hi B) (Some (p_lo B)) (p_csn B) (p_ul B) ->
    OK vs h recs c ret it R hi lw n u
| ok_sleft : forall it (R : Z -> Prop) hi lw n u s n0 u0,
    c <= n -> ret <= u -> recs u = Some (RSplitDiff s n0 u0) -> u0 < u ->
    hle hi s ->
    OK vs h recs c ret it R hi lw n0 u0 ->
    OK vs h recs c ret it R hi lw n u
| ok_sright : forall it (R : Z -> Prop) hi lw n u s n0 u0,
    c <= n -> ret <= u -> recs u = Some (RSplitDiff s n0 u0) -> u0 < u ->
    (forall k, R k -> s <= k) -> (forall l, lw = Some l -> l = Some s) ->
    OK vs h recs c ret it R hi None n0 u0 ->
    OK vs h recs c ret it R hi lw n u
| ok_mdiff : forall it (R : Z -> Prop) hi lw n u b ln lu rn ru,
    c <= n -> ret <= u -> recs u = Some (RMergeDiff b ln lu rn ru) -> lu < u -> ru < u ->
    (forall l, lw = Some l -> above l b) ->
    OK vs h recs c ret it (fun k => R k /\ k < b) (Some b) lw ln lu ->
    OK vs h recs c ret it (fun k => R k /\ b <= k) hi (Some (Some b)) rn ru ->
    OK vs h recs c ret it R hi lw n u.

Lemma ohle_refl : forall h, ohle h h.
Proof. intros [h|]; cbn; auto. lia. Qed.

Lemma OK_mono : forall vs h recs c ret it R hi lw n u,
  OK vs h recs c ret it R hi lw n u ->
  forall vs' recs',
  (forall l, vs' l = vs l) ->
  (forall u r, ret <= u -> recs u = Some r -> recs' u = Some r) ->
  forall it' (R' : Z -> Prop) hi' lw',
  (forall k, R' k -> R k) -> (forall k, R' k -> vs (look it' k) = vs (look it k)) ->
  ohle hi' hi -> (lw' = lw \/ lw' = None) ->
  OK vs' h recs' c ret it' R' hi' lw' n u.
Proof.
  intros vs h recs c ret it R hi lw n u H vs' recs' Ev Er.
  induction H as
    [it R hi lw n u Hn He
    |it R hi lw n u P Hn Hu Hr Hl HR Hw H1 IH1
    |it R hi lw n u A B b Hn Hu Hr Ha Hb Eh El HA HB WA WB H1 IH1 H2 IH2
    |it R hi lw n u s n0 u0 Hn Hu Hr Hl Hs H1 IH1
    |it R hi lw n u s n0 u0 Hn Hu Hr Hl Hs Hlw H1 IH1
    |it R hi lw n u b ln lu rn ru Hn Hu Hr Hl1 Hl2 Hlw H1 IH1 H2 IH2];
    intros it' R' hi' lw' HR' He' Hh' Hlw'.
  - apply ok_here; auto. intros k Hk. rewrite Ev, He' by auto. auto.
  - eapply ok_full; eauto. apply IH1; auto using ohle_refl.
  - eapply ok_merge; eauto.
    + apply IH1; auto using ohle_refl.
    + apply IH2; auto using ohle_refl.
  - eapply ok_sleft; eauto. destruct hi as [x|]; cbn in *; [|tauto].
    destruct hi' as [y|]; cbn in *; [lia|tauto].
  - eapply ok_sright; eauto.
    intros l El. destruct Hlw' as [E|E]; subst; [auto|discriminate].
  - eapply ok_mdiff; eauto.
    + intros l El. destruct Hlw' as [E|E]; subst; [auto|discriminate].
    + apply IH1; auto using ohle_refl; cbn; intros k [Hk1 Hk2]; auto.
    + apply IH2; auto; cbn; intros k [Hk1 Hk2]; auto.
Qed.

Lemma OK_here_inv : forall vs h recs c ret it R hi lw n u,
  OK vs h recs c ret it R hi lw n u -> n < c -> forall k, R k -> vs (look it k) = h k.
Proof. intros until u. intros H L. inv H; auto; lia. Qed.

Lemma OK_loc : forall vs h recs c ret it R hi lw n u,
  OK vs h recs c ret it R hi lw n u -> c <= n -> ret <= u.
Proof. intros until u. intros H L. inv H; auto; lia. Qed.

(** Where a reader's answer starts and ends. *)
Definition starts (q : kind) (k : Z) : Prop := match q with KKey a => a <= k | KNone => True | _ => False end.
Definition ends (q : kind) (k : Z) : Prop := match q with KHi a => k < a | KRight => True | _ => False end.

Definition lows (q : kind) (R : Z -> Prop) : Prop :=
  forall k, starts q k -> exists j, j <= k /\ starts q j /\ R j.
Definition fw (q : kind) (R : Z -> Prop) (hi : option Z) : Prop :=
  forall k, starts q k -> under hi k -> R k.
Definition tops (q : kind) (R : Z -> Prop) : Prop :=
  forall k, ends q k -> exists j, k <= j /\ ends q j /\ R j.
(** [acc] is the reported low key, [lv] the live page's, [lw] the current one's. *)
Definition bw (q : kind) (lv acc : option Z) (lw : option (option Z)) (R : Z -> Prop) : Prop :=
  match acc with
  | Some a => ends q a /\ forall k, a <= k -> ends q k -> R k
  | None => (forall k, above lv k -> ends q k -> R k) /\
            exists l, lw = Some l /\ forall k, above l k -> ends q k -> R k
  end.

Lemma lows_sub : forall q (R R' : Z -> Prop), lows q R -> (forall k, R k -> R' k) -> lows q R'.
Proof. intros q R R' H S k Hk. destruct (H k Hk) as (j & A & B & C). exists j. auto. Qed.
Lemma tops_sub : forall q (R R' : Z -> Prop), tops q R -> (forall k, R k -> R' k) -> tops q R'.
Proof. intros q R R' H S k Hk. destruct (H k Hk) as (j & A & B & C). exists j. auto. Qed.

Lemma lows_left : forall q R b, wants_right q b = false -> lows q R -> lows q (fun k => R k /\ k < b).
Proof.
  intros q R b W H k Hk.
  destruct (H (Z.min k (b - 1))) as (j & A & B & C).
  - destruct q; cbn in *; auto; lia.
  - exists j. split; [lia|]. split; auto. split; auto. lia.
Qed.
Lemma lows_right : forall q R b, wants_right q b = true -> lows q R -> lows q (fun k => R k /\ b <= k).
Proof.
  intros q R b W H k Hk. destruct (H k Hk) as (j & A & B & C). exists j. split; auto. split; auto. split; auto.
  destruct q; cbn in *; try lia; try tauto; try discriminate.
Qed.
Lemma tops_left : forall q R b, wants_right q b = false -> tops q R -> tops q (fun k => R k /\ k < b).
Proof.
  intros q R b W H k Hk. destruct (H k Hk) as (j & A & B & C). exists j. split; auto. split; auto. split; auto.
  destruct q; cbn in *; try lia; try tauto; try discriminate.
Qed.
Lemma tops_right : forall q R b, wants_right q b = true -> tops q R -> tops q (fun k => R k /\ b <= k).
Proof.
  intros q R b W H k Hk.
  destruct (H (Z.max k b)) as (j & A & B & C).
  - destruct q; cbn in *; auto; lia.
  - exists j. split; [lia|]. split; auto. split; auto. lia.
Qed.
Lemma ends_left : forall q b k, wants_right q b = false -> ends q k -> k < b.
Proof. intros q b k W E. destruct q; cbn in *; try lia; try tauto; try discriminate. Qed.
Lemma starts_right : forall q b k, wants_right q b = true -> starts q k -> b <= k.
Proof. intros q b k W E. destruct q; cbn in *; try lia; try tauto; try discriminate. Qed.

Lemma fw_cov : forall q P R, lows q R -> (forall k, R k -> cov P k) -> fw q (cov P) (p_hi P).
Proof.
  intros q P R L S k Hs Hu. destruct (L k Hs) as (j & A & B & C). apply S in C.
  apply cov_iff in C. apply cov_iff. split; auto. destruct C as [C _].
  destruct (p_lo P); cbn in *; auto. lia.
Qed.
Lemma bw_cov : forall q P R, tops q R -> (forall k, R k -> cov P k) ->
  forall k, above (p_lo P) k -> ends q k -> cov P k.
Proof.
  intros q P R L S k Ha He. destruct (L k He) as (j & A & B & C). apply S in C.
  apply cov_iff in C. apply cov_iff. split; auto. destruct C as [_ C].
  destruct (p_hi P); cbn in *; auto. lia.
Qed.

Lemma within_look : forall P k, within P -> look (p_it P) k <> [] -> cov P k.
Proof. intros P k W N. apply look_key in N. destruct N as (i & Hi & <-). apply W. exact Hi. Qed.

Lemma tighter_none : forall a, tighter a None = a.
Proof. reflexivity. Qed.

Lemma walk_ok : forall vs h recs c ret it R hi lw n u,
  OK vs h recs c ret it R hi lw n u -> 0 <= ret -> c <= n ->
  forall q lv D lo id wd N,
  p_hi D = hi -> (forall k, R k -> look (p_it D) k = look it k) ->
  (forall k, look (p_it D) k <> [] -> R k) -> (forall k, R k -> under hi k) ->
  (Z.to_nat u < N)%nat ->
  exists sn, walk N recs c q D u lo id wd = Some sn /\
  exists R' : Z -> Prop,
    (forall k, R' k -> vs (look (p_it (v_pg sn)) k) = h k) /\
    (forall k, look (p_it (v_pg sn)) k <> [] -> R' k) /\
    (lows q R -> lows q R') /\
    (v_wide sn = false -> lows q R -> fw q R hi -> fw q R' (p_hi (v_pg sn))) /\
    ((exists k, ends q k) -> tops q R -> bw q lv lo lw R ->
       match v_lo sn with
       | Some a => ends q a /\ forall k, a <= k -> ends q k -> R' k
       | None => forall k, above lv k -> ends q k -> R' k
       end) /\
    (v_wide sn = false -> wd = false).
Proof.
  intros vs h recs c ret it R hi lw n u H Hret.
  induction H as
    [it R hi lw n u Hn He
    |it R hi lw n u P Hn Hu Hr Hl HR Hw H1 IH1
    |it R hi lw n u A B b Hn Hu Hr Ha Hb Eh El HA HB WA WB H1 IH1 H2 IH2
    |it R hi lw n u s n0 u0 Hn Hu Hr Hl Hs H1 IH1
    |it R hi lw n u s n0 u0 Hn Hu Hr Hl Hs Hlw H1 IH1
    |it R hi lw n u b ln lu rn ru Hn Hu Hr Hl1 Hl2 Hlw H1 IH1 H2 IH2];
    intros Hc q lv D lo id wd N EhD Elk Hsup Hund HN; try lia.
  all: destruct N as [|N]; [lia|]; cbn [walk]; rewrite Hr; cbv zeta.
  - (* full *)
    cbn [get_page k_pg k_left k_lo k_diff k_wide]. rewrite tighter_none, orb_false_r.
    assert (Bw : tops q R -> bw q lv lo lw R -> bw q lv lo (Some (p_lo P)) (cov P)).
    { intros T Bq. unfold bw in *. destruct lo as [a|].
      - destruct Bq as [B1 B2]. split; auto.
      - destruct Bq as [B1 _]. split; auto. exists (p_lo P). split; auto.
        intros k. apply (bw_cov q P R T HR). }
    destruct (Z.leb_spec c (p_csn P)) as [L|L].
    + pose proof (OK_loc _ _ _ _ _ _ _ _ _ _ _ H1 L) as HL.
        destruct (IH1 L q lv P lo
                 (match id with Some _ => id | None => None end) wd N eq_refl
                 (fun k _ => eq_refl) (fun k Hk => within_look P k Hw Hk)
                 (fun k Hk => proj2 (proj1 (cov_iff P k) Hk)) ltac:(lia))
        as (sn & W & R' & C1 & C2 & C3 & C4 & C5 & C6).
      exists sn. split; [exact W|]. exists R'. repeat (split; [solve [auto]|]).
      split; [intros L1; apply C3; apply (lows_sub q R); auto|].
      split; [intros Wd L1 F1; apply C4; auto; [apply (lows_sub q R); auto|apply (fw_cov q P R); auto]|].
      split; auto. intros X T Bq. apply C5; auto. apply (tops_sub q R); auto.
    + eexists. split; [reflexivity|]. cbn [v_pg v_lo v_wide]. exists (cov P).
      split; [intros k Hk; apply (OK_here_inv _ _ _ _ _ _ _ _ _ _ _ H1); auto|].
      split; [intros k Hk; apply within_look; auto|].
      split; [intros L1; apply (lows_sub q R); auto|].
      split; [intros _ L1 _; apply (fw_cov q P R); auto|].
      split; auto. intros X T Bq. specialize (Bw T Bq). unfold bw in Bw. destruct lo; tauto.
  - (* full merge *)
    cbn [get_page k_pg k_left k_lo k_diff k_wide]. rewrite Eh.
    destruct (wants_right q b) eqn:W; cbn [k_pg k_left k_lo k_diff k_wide]; rewrite orb_false_r.
    + (* right *)
      assert (SB : forall k, R k /\ b <= k -> cov B k) by (intros k [X Y]; auto).
      assert (Bw : (exists k, ends q k) -> tops q R -> bw q lv lo lw R ->
                bw q lv (tighter lo (Some b)) (Some (p_lo B)) (cov B) /\ tighter lo (Some b) <> None).
      { intros [k0 Hk0] T Bq. pose proof (tops_right q R b W T) as T'.
        destruct (T' k0 Hk0) as (j & J1 & J2 & [J3 J4]).
        assert (Eb : ends q b) by (destruct q; cbn in *; auto; lia).
        assert (I : forall k, b <= k -> ends q k -> cov B k).
        { intros k Hk He. apply (bw_cov q B _ T' SB); auto. rewrite El. cbn. auto. }
        unfold bw in *. destruct lo as [a|]; cbn [tighter].
        - destruct Bq as [B1 B2]. destruct (Z.ltb_spec a b) as [Lab|Lab]; (split; [split; auto|discriminate]).
          intros k Hk He. apply I; auto. lia.
        - split; [split; auto|discriminate]. }
      destruct (Z.leb_spec c (p_csn B)) as [L|L].
      * pose proof (OK_loc _ _ _ _ _ _ _ _ _ _ _ H2 L) as HL.
        destruct (IH2 L q lv B (tighter lo (Some b))
                 (match id with Some _ => id | None => None end) wd N eq_refl
                 (fun k _ => eq_refl) (fun k Hk => within_look B k WB Hk)
                 (fun k Hk => proj2 (proj1 (cov_iff B k) Hk)) ltac:(lia))
          as (sn & Wk & R' & C1 & C2 & C3 & C4 & C5 & C6).
        exists sn. split; [exact Wk|]. exists R'. repeat (split; [solve [auto]|]).
        split; [intros L1; apply C3; apply (lows_sub q (fun k => R k /\ b <= k)); auto using lows_right|].
        split; [intros Wd L1 F1; apply C4; auto;
                [apply (lows_sub q (fun k => R k /\ b <= k))|apply (fw_cov q B (fun k => R k /\ b <= k))];
                auto using lows_right|].
        split; auto. intros X T Bq. apply C5; auto; [apply (tops_sub q (fun k => R k /\ b <= k)); auto using tops_right|apply Bw; auto].
      * eexists. split; [reflexivity|]. cbn [v_pg v_lo v_wide]. exists (cov B).
        split; [intros k Hk; apply (OK_here_inv _ _ _ _ _ _ _ _ _ _ _ H2); auto|].
        split; [intros k Hk; apply within_look; auto|].
        split; [intros L1; apply (lows_sub q (fun k => R k /\ b <= k)); auto using lows_right|].
        split; [intros _ L1 _; apply (fw_cov q B (fun k => R k /\ b <= k)); auto using lows_right|].
        split; auto. intros X T Bq. destruct (Bw X T Bq) as [Bw1 Bw2]. unfold bw in Bw1. destruct (tighter lo (Some b)); [tauto|congruence].
    + (* left *)
      rewrite tighter_none.
      assert (SA : forall k, R k /\ k < b -> cov A k) by (intros k [X Y]; auto).
      assert (Bw : tops q R -> bw q lv lo lw R -> bw q lv lo (Some (p_lo A)) (cov A)).
      { intros T Bq. pose proof (tops_left q R b W T) as T'.
        unfold bw in *. destruct lo as [a|].
        - destruct Bq as [B1 B2]. split; auto. intros k Hk He. apply SA. split; auto.
          apply (ends_left q); auto.
        - destruct Bq as [B1 _]. split.
          + intros k Hk He. apply SA. split; auto. apply (ends_left q); auto.
          + exists (p_lo A). split; auto. intros k. apply (bw_cov q A _ T' SA). }
      destruct (Z.leb_spec c (p_csn A)) as [L|L].
      * pose proof (OK_loc _ _ _ _ _ _ _ _ _ _ _ H1 L) as HL.
        destruct (IH1 L q lv A lo
                 (match id with Some _ => id | None => None end) wd N eq_refl
                 (fun k _ => eq_refl) (fun k Hk => within_look A k WA Hk)
                 (fun k Hk => proj2 (proj1 (cov_iff A k) Hk)) ltac:(lia))
          as (sn & Wk & R' & C1 & C2 & C3 & C4 & C5 & C6).
        exists sn. split; [exact Wk|]. exists R'. repeat (split; [solve [auto]|]).
        split; [intros L1; apply C3; apply (lows_sub q (fun k => R k /\ k < b)); auto using lows_left|].
        split; [intros Wd L1 F1; apply C4; auto;
                [apply (lows_sub q (fun k => R k /\ k < b))|apply (fw_cov q A (fun k => R k /\ k < b))];
                auto using lows_left|].
        split; auto. intros X T Bq. apply C5; auto. apply (tops_sub q (fun k => R k /\ k < b)); auto using tops_left.
      * eexists. split; [reflexivity|]. cbn [v_pg v_lo v_wide]. exists (cov A).
        split; [intros k Hk; apply (OK_here_inv _ _ _ _ _ _ _ _ _ _ _ H1); auto|].
        split; [intros k Hk; apply within_look; auto|].
        split; [intros L1; apply (lows_sub q (fun k => R k /\ k < b)); auto using lows_left|].
        split; [intros _ L1 _; apply (fw_cov q A (fun k => R k /\ k < b)); auto using lows_left|].
        split; auto. intros X T Bq. specialize (Bw T Bq). unfold bw in Bw. destruct lo; tauto.
  - (* differential split, left *)
    unfold get_page, split_half. rewrite EhD.
    assert (Er : (match hi with Some h0 => s <? h0 | None => true end) = false).
    { destruct hi; cbn in Hs; [lia|tauto]. }
    rewrite Er. cbn [negb k_pg k_left k_lo k_diff k_wide]. rewrite tighter_none, orb_false_r.
    destruct (Z.leb_spec c n0) as [L|L]; cbn [p_csn p_ul]; replace (c <=? n0) with (c <=? n0) by auto.
    + destruct (c <=? n0) eqn:Q; [|lia].
      pose proof (OK_loc _ _ _ _ _ _ _ _ _ _ _ H1 L) as HL.
        destruct (IH1 L q lv (mkPage (p_it D) (p_lo D) hi n0 u0) lo
                 (match id with Some _ => id | None => Some (u, true) end) wd N)
        as (sn & Wk & Rest); auto; try lia.
      exists sn. split; [exact Wk|exact Rest].
    + destruct (c <=? n0) eqn:Q; [lia|].
      eexists. split; [reflexivity|]. cbn [v_pg v_lo v_wide p_it p_hi]. exists R.
      split; [intros k Hk; rewrite Elk by auto; apply (OK_here_inv _ _ _ _ _ _ _ _ _ _ _ H1); auto|].
      split; [auto|]. split; [auto|]. split; [auto|]. split; auto.
      intros X T Bq. unfold bw in Bq. destruct lo; tauto.
  - (* differential split, right *)
    unfold get_page, split_half. rewrite EhD.
    set (rt := match hi with Some h0 => s <? h0 | None => true end).
    cbn [k_pg k_left k_lo k_diff k_wide p_csn p_ul]. rewrite orb_false_r.
    assert (Bw : (exists k, ends q k) -> tops q R -> bw q lv lo lw R ->
             bw q lv (tighter lo (if rt then Some s else None)) None R /\
             tighter lo (if rt then Some s else None) <> None).
    { intros [k0 Hk0] T Bq. destruct (T k0 Hk0) as (j & J1 & J2 & J3).
      pose proof (Hs j J3) as Y1. pose proof (Hund j J3) as Y2.
      assert (X : rt = true).
      { unfold rt. destruct hi as [x|]; auto. cbn in Y2. lia. }
      assert (Es : ends q s).
      { destruct q; cbn in *; auto. lia. }
      rewrite X. unfold bw in *. destruct lo as [a|]; cbn [tighter].
      - destruct Bq as [B1 B2]. assert (s <= a) by (apply Hs; apply B2; auto; lia).
        replace (a <? s) with false by lia. split; [split; auto|discriminate].
      - destruct Bq as [B1 (l & E & B2)]. specialize (Hlw l E). subst l. cbn in B2.
        split; [split; auto|discriminate]. }
    destruct (Z.leb_spec c n0) as [L|L].
    + pose proof (OK_loc _ _ _ _ _ _ _ _ _ _ _ H1 L) as HL.
        destruct (IH1 L q lv (mkPage (p_it D) (p_lo D) hi n0 u0) (tighter lo (if rt then Some s else None))
                 (match id with Some _ => id | None => Some (u, negb rt) end) wd N)
        as (sn & Wk & R' & C1 & C2 & C3 & C4 & C5 & C6); auto; try lia.
      exists sn. split; [exact Wk|]. exists R'.
      split; [auto|]. split; [auto|]. split; [auto|]. split; [auto|]. split; auto.
      intros X T Bq. apply C5; auto. apply Bw; auto.
    + eexists. split; [reflexivity|]. cbn [v_pg v_lo v_wide p_it p_hi]. exists R.
      split; [intros k Hk; rewrite Elk by auto; apply (OK_here_inv _ _ _ _ _ _ _ _ _ _ _ H1); auto|].
      split; [auto|]. split; [auto|]. split; [auto|]. split; auto.
      intros X T Bq. destruct (Bw X T Bq) as [Bw1 Bw2]. unfold bw in Bw1.
      destruct (tighter lo (if rt then Some s else None)); [tauto|congruence].
  - (* differential merge *)
    unfold get_page, merge_half.
    destruct (wants_right q b) eqn:W; cbn [k_pg k_left k_lo k_diff k_wide p_csn p_ul].
    + (* right *)
      rewrite orb_false_r.
      assert (Bw : (exists k, ends q k) -> tops q R -> bw q lv lo lw R ->
                bw q lv (tighter lo (Some b)) (Some (Some b)) (fun k => R k /\ b <= k) /\
                tighter lo (Some b) <> None).
      { intros [k0 Hk0] T Bq. destruct (tops_right q R b W T k0 Hk0) as (j & J1 & J2 & [J3 J4]).
        assert (Eb : ends q b) by (destruct q; cbn in *; auto; lia).
        unfold bw in *. destruct lo as [a|]; cbn [tighter].
        - destruct Bq as [B1 B2]. destruct (Z.ltb_spec a b) as [Lab|Lab]; (split; [split; auto|discriminate]).
          + intros k Hk He. split; auto. apply B2; auto. lia.
          + intros k Hk He. split; [auto|lia].
        - destruct Bq as [B1 (l & E & B2)]. specialize (Hlw l E).
          split; [split; auto|discriminate]. intros k Hk He. split; auto. apply B2; auto.
          destruct l; cbn in *; auto. lia. }
      assert (Lk : forall k, R k /\ b <= k -> look (from b (p_it D)) k = look it k).
      { intros k [K1 K2]. rewrite look_from. replace (b <=? k) with true by lia. auto. }
      assert (Sp : forall k, look (from b (p_it D)) k <> [] -> R k /\ b <= k).
      { intros k Hk. rewrite look_from in Hk. destruct (Z.leb_spec b k); [split; auto|congruence]. }
      destruct (Z.leb_spec c rn) as [L|L].
      * pose proof (OK_loc _ _ _ _ _ _ _ _ _ _ _ H2 L) as HL.
        destruct (IH2 L q lv (mkPage (from b (p_it D)) (Some b) (p_hi D) rn ru) (tighter lo (Some b))
                 (match id with Some _ => id | None => Some (u, false) end) wd N)
          as (sn & Wk & R' & C1 & C2 & C3 & C4 & C5 & C6); auto; try lia.
        { intros k [K1 K2]. auto. }
        exists sn. split; [exact Wk|]. exists R'.
        split; [auto|]. split; [auto|]. split; [intros L1; apply C3; apply lows_right; auto|].
        split.
        { intros Wd L1 F1. apply C4; auto; [apply lows_right; auto|].
          intros k K1 K2. split; [auto|]. apply (starts_right q); auto. }
        split; auto. intros X T Bq. apply C5; auto; [apply tops_right; auto|apply Bw; auto].
      * eexists. split; [reflexivity|]. cbn [v_pg v_lo v_wide p_it p_hi]. exists (fun k => R k /\ b <= k).
        split; [intros k Hk; rewrite Lk by auto; apply (OK_here_inv _ _ _ _ _ _ _ _ _ _ _ H2); auto|].
        split; [auto|]. split; [intros L1; apply lows_right; auto|].
        split.
        { intros Wd L1 F1 k K1 K2. rewrite EhD in K2. split; [auto|]. apply (starts_right q); auto. }
        split; auto. intros X T Bq. destruct (Bw X T Bq) as [Bw1 Bw2]. unfold bw in Bw1.
        destruct (tighter lo (Some b)); [tauto|congruence].
    + (* left *)
      rewrite tighter_none.
      assert (Bw : bw q lv lo lw R -> bw q lv lo lw (fun k => R k /\ k < b)).
      { intros Bq. unfold bw in *. destruct lo as [a|].
        - destruct Bq as [B1 B2]. split; auto. intros k Hk He. split; auto. apply (ends_left q); auto.
        - destruct Bq as [B1 (l & E & B2)]. split.
          + intros k Hk He. split; auto. apply (ends_left q); auto.
          + exists l. split; auto. intros k Hk He. split; auto. apply (ends_left q); auto. }
      assert (Lk : forall k, R k /\ k < b -> look (below b (p_it D)) k = look it k).
      { intros k [K1 K2]. rewrite look_below. replace (k <? b) with true by lia. auto. }
      assert (Sp : forall k, look (below b (p_it D)) k <> [] -> R k /\ k < b).
      { intros k Hk. rewrite look_below in Hk. destruct (Z.ltb_spec k b); [split; auto|congruence]. }
      assert (Fw : match p_hi D with Some h0 => h0 <? b | None => false end = false ->
                   fw q R hi -> fw q (fun k => R k /\ k < b) (Some b)).
      { rewrite EhD. intros E F k K1 K2. cbn in K2. split; auto. apply F; auto.
        destruct hi; cbn; auto. lia. }
      destruct (Z.leb_spec c ln) as [L|L].
      * pose proof (OK_loc _ _ _ _ _ _ _ _ _ _ _ H1 L) as HL.
        destruct (IH1 L q lv (mkPage (below b (p_it D)) (p_lo D) (Some b) ln lu) lo
                 (match id with Some _ => id | None => Some (u, true) end)
                 (wd || match p_hi D with Some h0 => h0 <? b | None => false end) N)
          as (sn & Wk & R' & C1 & C2 & C3 & C4 & C5 & C6); auto; try lia.
        { intros k [K1 K2]. auto. }
        exists sn. split; [exact Wk|]. exists R'.
        split; [auto|]. split; [auto|]. split; [intros L1; apply C3; apply lows_left; auto|].
        split.
        { intros Wd L1 F1. apply C4; auto; [apply lows_left; auto|].
          apply Fw; auto. specialize (C6 Wd). apply orb_false_iff in C6. tauto. }
        split.
        { intros X T Bq. apply C5; auto. apply tops_left; auto. }
        intros Wd. specialize (C6 Wd). apply orb_false_iff in C6. tauto.
      * eexists. split; [reflexivity|]. cbn [v_pg v_lo v_wide p_it p_hi]. exists (fun k => R k /\ k < b).
        split; [intros k Hk; rewrite Lk by auto; apply (OK_here_inv _ _ _ _ _ _ _ _ _ _ _ H1); auto|].
        split; [auto|]. split; [intros L1; apply lows_left; auto|].
        split.
        { intros Wd L1 F1. apply orb_false_iff in Wd. apply Fw; tauto. }
        split.
        { intros X T Bq. specialize (Bw Bq). unfold bw in Bw. destruct lo; tauto. }
        intros Wd. apply orb_false_iff in Wd. tauto.
Qed.
