(** The key bitmap operations as set operations. *)
From Coq Require Import ZArith List Bool Lia ZifyBool ZifyNat.
From Verif Require Import Base PkEncModel PkEncSpec PkEncProofs KeyBmModel KeyBmSpec KeyBmLemmas.
Import ListNotations.
Open Scope Z_scope.

Notation zfind := (find Z.compare).
Notation zset := (set Z.compare).
Notation zsrt := (srt Z.compare).

Definition good (e : Z * chunk) : Prop := 0 <= fst e < 2 ^ 54 /\ wfc (snd e) /\ exists o, 0 <= o < 1024 /\ bit (snd e) o = true.
Record Inv (b : bm) : Prop := {
  i_srt : zsrt (keys (tree b));
  i_good : Forall good (tree b);
  i_fin : finalized b = true -> chunks b = keys (tree b)
}.
Definition has (b : bm) (v : Z) : Prop := 0 <= v /\ exists c, zfind (v / 1024) (tree b) = Some c /\ bit c (v mod 1024) = true.

Lemma split_v : forall v, 0 <= v -> Z.shiftr v 10 = v / 1024 /\ Z.land v LOW_MASK = v mod 1024.
Proof. intros. split; [rewrite Z.shiftr_div_pow2 by lia; auto|]. unfold LOW_MASK. change 1023 with (Z.ones 10). rewrite Z.land_ones by lia. auto. Qed.
Lemma v_div : forall v, u64ok v -> 0 <= v / 1024 < 2 ^ 54 /\ 0 <= v mod 1024 < 1024.
Proof.
  unfold u64ok. intros v V. split; [split; [apply Z.div_pos; lia|apply Z.div_lt_upper_bound; [lia|]; change (1024 * 2 ^ 54) with (2 ^ 64); lia]|apply Z.mod_pos_bound; lia].
Qed.
Lemma v_eq : forall a b, a / 1024 = b / 1024 -> a mod 1024 = b mod 1024 -> a = b.
Proof. intros a b D M. rewrite (Z.div_mod a 1024), (Z.div_mod b 1024) by lia. lia. Qed.
Lemma v_of : forall k o, 0 <= o < 1024 -> (k * 1024 + o) / 1024 = k /\ (k * 1024 + o) mod 1024 = o.
Proof. intros. split; [rewrite Z.add_comm, Z.div_add, Z.div_small by lia; lia|rewrite Z.add_comm, Z.mod_add, Z.mod_small by lia; lia]. Qed.
Lemma has_u64 : forall b v, Inv b -> has b v -> u64ok v.
Proof.
  intros b v I (V & c & F & B). apply (find_in _ _ _ Zeq) in F. pose proof (i_good _ I) as G. rewrite Forall_forall in G. destruct (G _ F) as (R & _). cbn in R.
  unfold u64ok. pose proof (Z.div_mod v 1024 ltac:(lia)). pose proof (Z.mod_pos_bound v 1024 ltac:(lia)). change (2 ^ 64) with (1024 * 2 ^ 54). lia.
Qed.
Lemma good_find : forall b k c, Inv b -> zfind k (tree b) = Some c -> 0 <= k < 2 ^ 54 /\ wfc c /\ exists o, 0 <= o < 1024 /\ bit c o = true.
Proof. intros b k c I F. apply (find_in _ _ _ Zeq) in F. pose proof (i_good _ I) as G. rewrite Forall_forall in G. exact (G _ F). Qed.

Lemma test_has : forall b v, Inv b -> 0 <= v -> test b v = true <-> has b v.
Proof.
  intros b v I V. unfold test, has. destruct (split_v v V) as [-> ->]. destruct (zfind (v / 1024) (tree b)) as [c|] eqn:E.
  - destruct (good_find _ _ _ I E) as (_ & W & _). rewrite test_bit_eq by (auto; apply Z.mod_pos_bound; lia). split; [eauto|]. intros (_ & c' & F & B). inv F. auto.
  - split; [discriminate|]. intros (_ & c' & F & B). discriminate.
Qed.

Lemma set_good : forall k c t, good (k, c) -> Forall good t -> Forall good (zset k c t).
Proof.
  induction t as [|[x w] t IH]; intros G F; cbn; [constructor; auto|]. inv F. destruct (k ?= x) eqn:E.
  - apply Zeq in E. subst. constructor; auto.
  - constructor; auto.
  - constructor; auto.
Qed.
Lemma set_inv : forall b k c, Inv b -> good (k, c) -> Inv (mkBm (zset k c (tree b)) (chunks b) false).
Proof.
  intros b k c I G. constructor; cbn.
  - apply (srt_set _ _ _ Zeq Zopp Ztr). apply I.
  - apply set_good; auto. apply I.
  - discriminate.
Qed.
Definition addv (b : bm) (v : Z) : bm :=
  mkBm (zset (v / 1024) (set_bit (match zfind (v / 1024) (tree b) with Some e => e | None => empty_chunk end) (v mod 1024)) (tree b)) (chunks b) false.
Lemma insert_addv : forall b v, 0 <= v -> insert b v = addv b v.
Proof. intros b v V. unfold insert, addv. destruct (split_v v V) as [-> ->]. destruct (zfind (v / 1024) (tree b)); auto. Qed.
Lemma cur_wf : forall b k, Inv b -> wfc (match zfind k (tree b) with Some e => e | None => empty_chunk end).
Proof. intros b k I. destruct (zfind k (tree b)) eqn:E; [apply (good_find _ _ _ I E)|apply empty_wf]. Qed.
Lemma addv_inv : forall b v, Inv b -> u64ok v -> Inv (addv b v).
Proof.
  intros b v I V. destruct (v_div v V) as [D M]. apply set_inv; auto. split; [cbn; lia|]. cbn [snd].
  pose proof (cur_wf b (v / 1024) I) as W. split; [apply set_bit_wf; auto|]. exists (v mod 1024). split; [auto|]. rewrite set_bit_bit by auto. rewrite Z.eqb_refl. auto.
Qed.
Lemma addv_has : forall b v x, Inv b -> u64ok v -> has (addv b v) x <-> x = v \/ has b x.
Proof.
  intros b v x I V. destruct (v_div v V) as [D M]. unfold has, addv; cbn [tree]. pose proof (cur_wf b (v / 1024) I) as W.
  destruct (Z.eq_dec (x / 1024) (v / 1024)) as [E|E].
  - rewrite E, (find_set_same _ _ _ Zeq). assert (Mx : 0 <= x mod 1024 < 1024) by (apply Z.mod_pos_bound; lia). split.
    + intros (P & c & F & B). inv F. rewrite set_bit_bit in B by auto. apply orb_true_iff in B. destruct B as [B|B].
      * left. apply Z.eqb_eq in B. apply v_eq; auto.
      * right. split; auto. destruct (zfind (v / 1024) (tree b)) eqn:Q; [eauto|]. rewrite empty_bit in B. discriminate.
    + intros [->|(P & c & F & B)].
      * split; [destruct V; auto|]. eexists. split; [eauto|]. rewrite set_bit_bit, Z.eqb_refl by auto. auto.
      * split; auto. eexists. split; [eauto|]. rewrite set_bit_bit by auto. rewrite F in *. rewrite B. apply orb_true_r.
  - rewrite (find_set_other _ _ _ Zeq) by auto. split; [auto|]. intros [->|H]; [congruence|auto].
Qed.
Lemma emit_spec : forall b v, Inv b -> u64ok v -> (snd (emit b v) = true <-> ~ has b v) /\ Inv (fst (emit b v)) /\ (forall x, has (fst (emit b v)) x <-> x = v \/ has b x).
Proof.
  intros b v I V. destruct (v_div v V) as [D M]. assert (V0 : 0 <= v) by apply V. pose proof (addv_inv b v I V) as AI. pose proof (fun x => addv_has b v x I V) as AH.
  pose proof (test_has b v I V0) as TH. unfold emit, test, addv in *. destruct (split_v v V0) as [-> ->]. rewrite (proj1 (split_v v V0)), (proj2 (split_v v V0)) in TH. destruct (zfind (v / 1024) (tree b)) as [e|] eqn:E.
  - destruct (test_bit e (v mod 1024)); cbn [fst snd].
    + split; [|split; [auto|]]. { split; [discriminate|]. intros N. exfalso. apply N. apply TH. auto. }
      intros x. split; auto. intros [->|H]; auto. apply TH. auto.
    + split; [|auto]. split; [|auto]. intros _ H. apply TH in H. discriminate.
  - cbn [fst snd]. split; [|auto]. split; [|auto]. intros _ H. apply TH in H. discriminate.
Qed.

(** Union and intersection. *)
Definition tinv (t : list (Z * chunk)) : Prop := zsrt (keys t) /\ Forall good t.
Definition thas (t : list (Z * chunk)) (v : Z) : Prop := 0 <= v /\ exists c, zfind (v / 1024) t = Some c /\ bit c (v mod 1024) = true.
Lemma mk_inv : forall t ch, tinv t -> Inv (mkBm t ch false).
Proof. intros t ch [A B]. constructor; cbn; auto. discriminate. Qed.
Lemma union_step_ok : forall t k c, tinv t -> good (k, c) -> tinv (union_step t (k, c)) /\
  forall v, thas (union_step t (k, c)) v <-> thas t v \/ (0 <= v /\ v / 1024 = k /\ bit c (v mod 1024) = true).
Proof.
  intros t k c [S G] (R & W & o & O & B). cbn [fst snd] in *. unfold union_step. cbn [fst snd].
  destruct (zfind k t) as [a|] eqn:F.
  - assert (GA : good (k, a)) by (apply (find_in _ _ _ Zeq) in F; rewrite Forall_forall in G; auto). destruct GA as (_ & WA & _). cbn [snd] in WA.
    assert (GN : good (k, map2 Z.lor a c)).
    { split; [auto|]. cbn [snd]. split; [apply map2_wf; auto using lor_256|]. exists o. split; auto. rewrite lor_bit, B by auto. apply orb_true_r. }
    split. { split; [apply (srt_set _ _ _ Zeq Zopp Ztr); auto|apply set_good; auto]. }
    intros v. unfold thas. destruct (Z.eq_dec (v / 1024) k) as [E|E].
    + rewrite E, (find_set_same _ _ _ Zeq). assert (M : 0 <= v mod 1024 < 1024) by (apply Z.mod_pos_bound; lia). split.
      * intros (P & c' & Q & Bc). inv Q. rewrite lor_bit in Bc by auto. apply orb_true_iff in Bc. destruct Bc; [left|right]; eauto.
      * intros [(P & c' & Q & Bc)|(P & _ & Bc)]; (split; [auto|]); eexists; (split; [eauto|]); rewrite lor_bit by auto.
        -- rewrite F in Q. inv Q. rewrite Bc. auto.
        -- rewrite Bc. apply orb_true_r.
    + rewrite (find_set_other _ _ _ Zeq) by auto. intuition.
  - split. { split; [apply (srt_set _ _ _ Zeq Zopp Ztr); auto|apply set_good; auto]. split; [auto|]. cbn. eauto. }
    intros v. unfold thas. destruct (Z.eq_dec (v / 1024) k) as [E|E].
    + rewrite E, (find_set_same _ _ _ Zeq), F. split.
      * intros (P & c' & Q & Bc). inv Q. auto.
      * intros [(P & c' & Q & Bc)|(P & _ & Bc)]; [discriminate|]. eauto.
    + rewrite (find_set_other _ _ _ Zeq) by auto. intuition.
Qed.
Lemma union_steps : forall l t, tinv t -> Forall good l -> tinv (fold_left union_step l t) /\
  forall v, thas (fold_left union_step l t) v <-> thas t v \/ (0 <= v /\ exists c, In (v / 1024, c) l /\ bit c (v mod 1024) = true).
Proof.
  induction l as [|[k c] l IH]; intros t T G; cbn [fold_left]. { split; auto. intros v. split; auto. intros [H|(_ & c & [] & _)]; auto. }
  inv G. destruct (union_step_ok t k c T H1) as [A B]. destruct (IH _ A H2) as [C D]. split; auto. intros v. rewrite D, B. split.
  - intros [[H|(P & E & Bc)]|(P & c' & I & Bc)]; auto; right; (split; [auto|]).
    + exists c. subst k. split; [left|]; auto.
    + exists c'. split; [right|]; auto.
  - intros [H|(P & c' & [I|I] & Bc)]; auto; [|eauto 6]. inv I. auto.
Qed.
Lemma union_spec : forall a b, Inv a -> Inv b -> Inv (union a b) /\ forall x, has (union a b) x <-> has a x \/ has b x.
Proof.
  intros a b A B. unfold union. destruct (union_steps (tree b) (tree a)) as [T H]; [split; apply A|apply B|].
  split; [apply mk_inv; auto|]. intros x. unfold has at 1. cbn [tree]. fold (thas (fold_left union_step (tree b) (tree a)) x). rewrite H. unfold has, thas.
  split; (intros [Q|(P & c & F & Bc)]; [left; auto|right; split; [auto|]; exists c; split; auto]).
  - apply (in_find _ _ _ Zeq Zopp); auto. apply B.
  - apply (find_in _ _ _ Zeq); auto.
Qed.

Lemma and_keys : forall bt t, keys (map (and_entry bt) t) = keys t.
Proof. intros. unfold keys. rewrite map_map. apply map_ext. intros [k c]. unfold and_entry. destruct (zfind _ bt); auto. Qed.
Lemma and_find : forall bt k t, zfind k (map (and_entry bt) t) = match zfind k t with Some c => Some (snd (and_entry bt (k, c))) | None => None end.
Proof.
  induction t as [|[x c] t IH]; cbn; auto. unfold and_entry at 1. cbn [fst snd].
  destruct (k ?= x) eqn:E.
  - apply Zeq in E. subst x. unfold and_entry. cbn [fst snd]. destruct (zfind k bt); cbn; rewrite Z.compare_refl; auto.
  - destruct (zfind x bt); cbn; rewrite E; auto.
  - destruct (zfind x bt); cbn; rewrite E; auto.
Qed.
Lemma intersect_spec : forall a b, Inv a -> Inv b -> Inv (intersect a b) /\ forall x, has (intersect a b) x <-> has a x /\ has b x.
Proof.
  intros a b A B. unfold intersect. set (gone := map fst (filter (is_gone (tree b)) (tree a))). set (t0 := map (and_entry (tree b)) (tree a)).
  assert (S0 : zsrt (keys t0)) by (unfold t0; rewrite and_keys; apply A).
  destruct (dels _ _ _ Zeq Zopp gone t0 S0) as (S1 & D1 & D2 & D3). set (t1 := fold_left _ gone t0) in *.
  assert (GI : forall k, In k gone <-> exists c, zfind k (tree a) = Some c /\ is_gone (tree b) (k, c) = true).
  { intros k. unfold gone. rewrite in_map_iff. split.
    - intros ([k' c] & E & I). cbn in E. subst k'. apply filter_In in I. destruct I as [I G]. exists c. split; auto. apply (in_find _ _ _ Zeq Zopp); auto. apply A.
    - intros (c & F & G). exists (k, c). split; auto. apply filter_In. split; auto. apply (find_in _ _ _ Zeq); auto. }
  assert (F1 : forall k c, zfind k t1 = Some c -> exists ca cb, zfind k (tree a) = Some ca /\ zfind k (tree b) = Some cb /\ c = map2 Z.land ca cb /\ all_zero c = false).
  { intros k c F. assert (N : ~ In k gone). { intro H. rewrite D2 in F by auto. discriminate. }
    rewrite D3 in F by auto. unfold t0 in F. rewrite and_find in F. destruct (zfind k (tree a)) as [ca|] eqn:Ea; [|discriminate].
    unfold and_entry in F. cbn [fst snd] in F. destruct (zfind k (tree b)) as [cb|] eqn:Eb.
    - inv F. exists ca, cb. repeat split; auto. destruct (all_zero (map2 Z.land ca cb)) eqn:AZ; auto. exfalso. apply N. apply GI. exists ca. split; auto.
      unfold is_gone. cbn. rewrite Eb. auto.
    - exfalso. apply N. apply GI. exists ca. split; auto. unfold is_gone. cbn. rewrite Eb. auto. }
  assert (T1 : tinv t1).
  { split; auto. apply Forall_forall. intros [k c] I. apply (in_find _ _ _ Zeq Zopp) in I; auto. destruct (F1 _ _ I) as (ca & cb & Fa & Fb & -> & AZ).
    destruct (good_find _ _ _ A Fa) as (R & Wa & _). destruct (good_find _ _ _ B Fb) as (_ & Wb & _). split; [auto|]. cbn [snd].
    assert (W : wfc (map2 Z.land ca cb)) by (apply map2_wf; auto using land_256). split; [auto|].
    unfold all_zero in AZ. apply not_true_iff_false in AZ.
    destruct (find_next_spec _ 0 W ltac:(lia)) as [P Q]. destruct (Z_lt_le_dec (find_next_offset (map2 Z.land ca cb) 0) 0) as [L|L].
    - exfalso. apply AZ. apply (all_zero_spec _ W). intros off O. apply (Q L). lia.
    - destruct (P L) as (P1 & P2 & _). exists (find_next_offset (map2 Z.land ca cb) 0). split; [lia|auto]. }
  split; [apply mk_inv; auto|]. intros x. unfold has. cbn [tree]. split.
  - intros (P & c & F & Bc). destruct (F1 _ _ F) as (ca & cb & Fa & Fb & -> & AZ).
    destruct (good_find _ _ _ A Fa) as (R & Wa & _). destruct (good_find _ _ _ B Fb) as (_ & Wb & _).
    rewrite land_bit in Bc by (auto; apply Z.mod_pos_bound; lia). apply andb_true_iff in Bc. destruct Bc. eauto 8.
  - intros [(P & ca & Fa & Ba) (_ & cb & Fb & Bb)]. split; auto.
    destruct (good_find _ _ _ A Fa) as (R & Wa & _). destruct (good_find _ _ _ B Fb) as (_ & Wb & _).
    assert (M : 0 <= x mod 1024 < 1024) by (apply Z.mod_pos_bound; lia).
    assert (BB : bit (map2 Z.land ca cb) (x mod 1024) = true) by (rewrite land_bit, Ba, Bb; auto).
    exists (map2 Z.land ca cb). split; auto. rewrite D3.
    + unfold t0. rewrite and_find, Fa. unfold and_entry. cbn. rewrite Fb. auto.
    + intro H. apply GI in H. destruct H as (c & F & G). rewrite Fa in F. inv F. unfold is_gone in G. cbn in G. rewrite Fb in G.
      rewrite all_zero_spec in G by (apply map2_wf; auto using land_256). rewrite G in BB by auto. discriminate.
Qed.

(** Finalisation only fills the cache. *)
Lemma finalize_inv : forall b, Inv b -> Inv (finalize b) /\ tree (finalize b) = tree b /\ chunks (finalize b) = keys (tree b) /\ forall x, has (finalize b) x <-> has b x.
Proof.
  intros b I. unfold finalize. destruct (finalized b) eqn:E.
  - split; [auto|split; [auto|split; [apply I; auto|intuition]]].
  - split; [|split; [auto|split; [auto|]]]. { constructor; cbn; auto; apply I. } intros x. unfold has. cbn. intuition.
Qed.
Lemma suffix : forall b t, Inv b -> let ks := skipn (lb (keys (tree b)) t) (keys (tree b)) in zsrt ks /\ forall k, In k ks <-> In k (keys (tree b)) /\ t <= k.
Proof.
  intros b t I ks. unfold ks, lb. destruct (lb_skipn _ _ Zeq Zopp Ztr 0 (keys (tree b)) t (i_srt _ I)) as [A _]. split.
  - apply srt_skipn. apply I.
  - intros k. rewrite A. split; intros [X Y]; (split; [auto|]).
    + destruct (Z.compare_spec k t); try lia. congruence.
    + intro Z. assert (k < t) by exact Z. lia.
Qed.

Lemma next_loop_spec : forall b p, Inv b -> 0 <= p -> forall ks, zsrt ks -> (forall k, In k ks -> In k (keys (tree b)) /\ p / 1024 <= k) ->
  least (fun v => has b v /\ In (v / 1024) ks) p (next_loop (tree b) ks (p / 1024) (p mod 1024)).
Proof.
  intros b p I P. induction ks as [|k ks IH]; intros S H; cbn [next_loop]. { cbn. intros y [_ []]. }
  destruct S as [S1 S2]. destruct (H k (or_introl eq_refl)) as [K1 K2]. destruct (find_keys _ _ _ Zeq _ _ K1) as [c F]. rewrite F.
  destruct (good_find _ _ _ I F) as (KR & W & _). assert (PM : 0 <= p mod 1024 < 1024) by (apply Z.mod_pos_bound; lia).
  assert (PD := Z.div_mod p 1024 ltac:(lia)). set (st := if k =? p / 1024 then p mod 1024 else 0).
  assert (ST : 0 <= st < 1024) by (unfold st; destruct (k =? p / 1024); lia).
  destruct (find_next_spec c st W ST) as [A B]. set (n := find_next_offset c st) in *. rewrite Z.shiftl_mul_pow2 by lia. change (2 ^ 10) with 1024.
  destruct (Z.leb_spec 0 n) as [L|L].
  - destruct (A L) as (A1 & A2 & A3). destruct (v_of k n ltac:(lia)) as [V1 V2]. unfold least. split; [|split].
    + split; [|rewrite V1; left; auto]. split; [lia|]. exists c. rewrite V1, V2. auto.
    + unfold st in A1. destruct (Z.eqb_spec k (p / 1024)); lia.
    + intros y [(Y & cy & Fy & By) Iy] Py. pose proof (Z.div_mod y 1024 ltac:(lia)) as YD. assert (YM : 0 <= y mod 1024 < 1024) by (apply Z.mod_pos_bound; lia).
      destruct Iy as [Iy|Iy].
      * rewrite <- Iy in Fy, YD. rewrite F in Fy. injection Fy as <-. destruct (Z_lt_le_dec (y mod 1024) n); [|lia]. rewrite A3 in By; [discriminate|].
        unfold st. destruct (Z.eqb_spec k (p / 1024)); lia.
      * assert (k < y / 1024) by exact (S1 _ Iy). lia.
  - specialize (IH S2 (fun x Hx => H x (or_intror Hx))).
    assert (NK : forall y, has b y -> k = y / 1024 -> p <= y -> False).
    { intros y (Y & cy & Fy & By) E Py. rewrite <- E in Fy. rewrite F in Fy. inv Fy. assert (YM : 0 <= y mod 1024 < 1024) by (apply Z.mod_pos_bound; lia).
      pose proof (Z.div_mod y 1024 ltac:(lia)) as YD. rewrite (B L) in By; [discriminate|]. unfold st. destruct (Z.eqb_spec (y / 1024) (p / 1024)); lia. }
    destruct (next_loop (tree b) ks (p / 1024) (p mod 1024)) as [x|]; unfold least in *.
    + destruct IH as ((X1 & X2) & X3 & X4). split; [split; [auto|right; auto]|]. split; [auto|]. intros y [Y1 [Y2|Y2]] Y3; [exfalso; eauto|apply X4; auto].
    + intros y [Y1 [Y2|Y2]] Y3; [eauto|apply (IH y); auto].
Qed.
Lemma has_key : forall b v, has b v -> In (v / 1024) (keys (tree b)).
Proof. intros b v (_ & c & F & _). eapply (find_some_keys _ _ _ Zeq); eauto. Qed.
Lemma get_next_spec : forall b p, Inv b -> u64ok p -> Inv (fst (get_next b p)) /\ (forall x, has (fst (get_next b p)) x <-> has b x) /\ least (has b) p (snd (get_next b p)).
Proof.
  intros b p I [P _]. unfold get_next. cbn zeta. destruct (split_v p P) as [-> ->]. destruct (finalize_inv b I) as (FI & FT & FC & FH). cbn [fst snd].
  split; [auto|]. split; [auto|]. rewrite FT, FC. destruct (suffix b (p / 1024) I) as [S K].
  pose proof (next_loop_spec b p I P _ S (fun k H => proj1 (K k) H)) as L. revert L.
  destruct (next_loop _ _ _ _) as [x|]; unfold least.
  - intros ((X1 & X2) & X3 & X4). split; [auto|]. split; [auto|]. intros y Y1 Y2. apply X4; auto. split; auto. apply K. split; [apply has_key; auto|]. apply Z.div_le_mono; lia.
  - intros X y Y1 Y2. apply (X y); auto. split; auto. apply K. split; [apply has_key; auto|]. apply Z.div_le_mono; lia.
Qed.

Lemma range_loop_spec : forall b low high, Inv b -> 0 <= low < high -> forall ks, zsrt ks -> (forall k, In k ks -> In k (keys (tree b)) /\ low / 1024 <= k) ->
  range_loop (tree b) ks low high (low / 1024) ((high - 1) / 1024) = true <-> exists v, low <= v < high /\ has b v /\ In (v / 1024) ks.
Proof.
  intros b low high I P. induction ks as [|k ks IH]; intros S H; cbn [range_loop]. { split; [discriminate|]. intros (v & _ & _ & []). }
  destruct S as [S1 S2]. destruct (H k (or_introl eq_refl)) as [K1 K2]. destruct (find_keys _ _ _ Zeq _ _ K1) as [c F]. rewrite F.
  destruct (good_find _ _ _ I F) as (KR & W & _).
  assert (LM : 0 <= low mod 1024 < 1024) by (apply Z.mod_pos_bound; lia). assert (HM : 0 <= (high - 1) mod 1024 < 1024) by (apply Z.mod_pos_bound; lia).
  assert (LD := Z.div_mod low 1024 ltac:(lia)). assert (HD := Z.div_mod (high - 1) 1024 ltac:(lia)).
  destruct (Z.ltb_spec ((high - 1) / 1024) k) as [G|G].
  - split; [discriminate|]. intros (v & R & Hv & Iv). pose proof (Z.div_le_mono v (high - 1) 1024 ltac:(lia) ltac:(lia)).
    destruct Iv as [Iv|Iv]; [lia|]. assert (k < v / 1024) by exact (S1 _ Iv). lia.
  - specialize (IH S2 (fun x Hx => H x (or_intror Hx))).
    rewrite (proj2 (split_v low ltac:(lia))), (proj2 (split_v (high - 1) ltac:(lia))).
    destruct (bits_off (low mod 1024) ltac:(lia)) as [-> _]. destruct (bits_off ((high - 1) mod 1024) ltac:(lia)) as [-> _].
    destruct (bits_off low ltac:(lia)) as [_ ->]. destruct (bits_off (high - 1) ltac:(lia)) as [_ ->].
    assert (L8 : low mod 8 = (low mod 1024) mod 8) by (rewrite (Z.mod_eq low 1024) by lia; replace (low - 1024 * (low / 1024)) with (low + (- 128 * (low / 1024)) * 8) by lia; rewrite Z.mod_add by lia; auto).
    assert (H8 : (high - 1) mod 8 = ((high - 1) mod 1024) mod 8) by (rewrite (Z.mod_eq (high - 1) 1024) by lia; replace (high - 1 - 1024 * ((high - 1) / 1024)) with (high - 1 + (- 128 * ((high - 1) / 1024)) * 8) by lia; rewrite Z.mod_add by lia; auto).
    rewrite L8, H8. set (lo := low mod 1024) in *. set (hi := (high - 1) mod 1024) in *.
    destruct (off_div lo LM) as [D1 M1]. destruct (off_div hi HM) as [D2 M2].
    set (a := if k =? low / 1024 then lo else 0). set (z := if k =? (high - 1) / 1024 then hi else 1023).
    match goal with |- (if scan_bytes 129 c ?x ?y ?w ?s ?e then _ else _) = true <-> _ =>
      pose proof (scan_spec c W x w (a mod 8) (z mod 8) s e) as SP end.
    assert (AR : 0 <= a < 1024) by (unfold a; destruct (k =? low / 1024); lia). assert (ZR : 0 <= z < 1024) by (unfold z; destruct (k =? (high - 1) / 1024); lia).
    assert (SP' : scan_bytes 129 c (if k =? low / 1024 then lo / 8 else 0) (if k =? low / 1024 then lo / 8 else 0) (if k =? (high - 1) / 1024 then hi / 8 else 127)
       (if k =? low / 1024 then Z.shiftl 255 (lo mod 8) mod 256 else 255) (if k =? (high - 1) / 1024 then Z.shiftr 255 (7 - hi mod 8) else 255) = true <-> exists o, a <= o <= z /\ bit c o = true).
    { assert (EA : (if k =? low / 1024 then lo / 8 else 0) = a / 8) by (unfold a; destruct (k =? low / 1024); auto).
      assert (EZ : (if k =? (high - 1) / 1024 then hi / 8 else 127) = z / 8) by (unfold z; destruct (k =? (high - 1) / 1024); auto).
      rewrite EA, EZ in *. destruct (off_div a AR) as [Da Ma]. destruct (off_div z ZR) as [Dz Mz].
      rewrite SP; try lia.
      - pose proof (Z.div_mod a 8 ltac:(lia)). pose proof (Z.div_mod z 8 ltac:(lia)). split; intros (o & O); exists o; [destruct O as (O1 & O2 & O3)|destruct O as (O2 & O3)]; repeat split; auto; lia.
      - intros j J. unfold a. destruct (k =? low / 1024); [apply start_mask; lia|]. rewrite bits_255 by lia. change (0 mod 8) with 0. destruct (Z.ltb_spec j 8), (Z.leb_spec 0 j); auto; lia.
      - intros j J. unfold z. destruct (k =? (high - 1) / 1024); [apply end_mask; lia|]. rewrite bits_255 by lia. change (1023 mod 8) with 7. destruct (Z.ltb_spec j 8), (Z.leb_spec j 7); auto; lia. }
    clear SP. destruct (scan_bytes 129 c _ _ _ _ _) eqn:E.
    + split; [|auto]. intros _. destruct (proj1 SP' eq_refl) as (o & O & B). destruct (v_of k o ltac:(lia)) as [V1 V2]. exists (k * 1024 + o).
      split; [|split; [split; [lia|]; exists c; rewrite V1, V2; auto|left; auto]].
      unfold a, z in O. destruct (Z.eqb_spec k (low / 1024)), (Z.eqb_spec k ((high - 1) / 1024)); lia.
    + rewrite IH. split; intros (v & R & Hv & Iv).
      * exists v. repeat split; auto; try apply R; try apply Hv. right; auto.
      * exists v. split; [auto|]. split; [auto|]. destruct Iv as [Iv|Iv]; auto. exfalso.
        destruct Hv as (V0 & cv & Fv & Bv). rewrite <- Iv in Fv. rewrite F in Fv. inv Fv. assert (VM : 0 <= v mod 1024 < 1024) by (apply Z.mod_pos_bound; lia).
        pose proof (Z.div_mod v 1024 ltac:(lia)). assert (false = true); [|discriminate]. apply SP'. exists (v mod 1024). split; auto.
        unfold a, z. destruct (Z.eqb_spec (v / 1024) (low / 1024)), (Z.eqb_spec (v / 1024) ((high - 1) / 1024)); lia.
Qed.
Lemma range_spec : forall b low high, Inv b -> 0 <= low -> let r := range_is_valid b low high in
  Inv (fst r) /\ (forall x, has (fst r) x <-> has b x) /\ (snd r = true <-> exists v, low <= v < high /\ has b v).
Proof.
  intros b low high I L. unfold range_is_valid. destruct (Z.leb_spec high low) as [G|G].
  { cbn. split; [auto|]. split; [intuition|]. split; [discriminate|]. intros (v & R & _). lia. }
  cbn zeta. destruct (split_v low L) as [-> _]. destruct (split_v (high - 1) ltac:(lia)) as [-> _]. destruct (finalize_inv b I) as (FI & FT & FC & FH). cbn [fst snd].
  split; [auto|]. split; [auto|]. rewrite FT, FC. destruct (suffix b (low / 1024) I) as [S K].
  rewrite (range_loop_spec b low high I ltac:(lia) _ S (fun k H => proj1 (K k) H)). split; intros (v & R & Hv); exists v; [tauto|].
  split; [auto|]. split; [auto|]. apply K. split; [apply has_key; auto|]. apply Z.div_le_mono; lia.
Qed.
Lemma empty_spec : forall b, Inv b -> is_empty b = true <-> forall v, ~ has b v.
Proof.
  intros b I. unfold is_empty, has. destruct (tree b) as [|[k c] t] eqn:E.
  - split; auto. intros _ v (_ & c & F & _). discriminate.
  - split; [discriminate|]. intros H. exfalso. pose proof (i_good _ I) as G. rewrite E in G. inv G. destruct H2 as (R & W & o & O & B). cbn in *.
    destruct (v_of k o O) as [V1 V2]. apply (H (k * 1024 + o)). split; [lia|]. exists c. rewrite V1, V2, Z.compare_refl. auto.
Qed.

(** ** All sequences of calls *)
Lemma create_inv : Inv create.
Proof. constructor; cbn; auto; discriminate. Qed.
Lemma create_has : forall x, ~ has create x.
Proof. intros x (_ & c & F & _). discriminate. Qed.
Definition J (s : Z -> bm) (m : sets) : Prop := forall i, Inv (s i) /\ forall x, has (s i) x <-> m i x.
Lemma J_step : forall s m o, okop o -> J s m -> J (step s o) (sstep m o).
Proof.
  intros s m o O H k.
  assert (U : forall i b, Inv b -> (forall x, has b x <-> (if k =? i then sstep m o k x else has b x)) -> (k <> i -> forall x, sstep m o k x <-> m k x) ->
     Inv (upd s i b k) /\ forall x, has (upd s i b k) x <-> sstep m o k x).
  { intros i b Ib Hb N. destruct (Z.eqb_spec k i).
    - subst. rewrite upd_same. auto.
    - rewrite upd_other by auto. split; [apply H|]. intros x. rewrite N by auto. apply H. }
  destruct o; cbn [step okop] in *; apply U;
  try (intros N x; cbn [sstep]; destruct (Z.eqb_spec k i); [contradiction|]; tauto).
  - rewrite insert_addv by apply O. apply addv_inv; auto. apply H.
  - intros x. cbn [sstep]. destruct (Z.eqb_spec k i); [|tauto]. rewrite insert_addv, addv_has by (auto; try apply O; apply H). rewrite (proj2 (H i) x). tauto.
  - apply emit_spec; auto. apply H.
  - intros x. cbn [sstep]. destruct (Z.eqb_spec k i); [|tauto]. rewrite (proj2 (proj2 (emit_spec (s i) v (proj1 (H i)) O))). rewrite (proj2 (H i) x). tauto.
  - apply union_spec; apply H.
  - intros x. cbn [sstep]. destruct (Z.eqb_spec k i); [|tauto]. rewrite (proj2 (union_spec (s i) (s j) (proj1 (H i)) (proj1 (H j)))). rewrite (proj2 (H i) x), (proj2 (H j) x). tauto.
  - apply intersect_spec; apply H.
  - intros x. cbn [sstep]. destruct (Z.eqb_spec k i); [|tauto]. rewrite (proj2 (intersect_spec (s i) (s j) (proj1 (H i)) (proj1 (H j)))). rewrite (proj2 (H i) x), (proj2 (H j) x). tauto.
  - apply range_spec; [apply H|apply O].
  - intros x. cbn [sstep]. destruct (Z.eqb_spec k i); [|tauto]. subst. destruct (range_spec (s i) lo hi (proj1 (H i)) (proj1 (proj1 O))) as (_ & R & _). rewrite R. apply H.
  - apply get_next_spec; [apply H|apply O].
  - intros x. cbn [sstep]. destruct (Z.eqb_spec k i); [|tauto]. subst. destruct (get_next_spec (s i) p (proj1 (H i)) O) as (_ & R & _). rewrite R. apply H.
  - apply create_inv.
  - intros x. cbn [sstep]. destruct (Z.eqb_spec k i); [|tauto]. split; [intro Q; apply (create_has x Q)|contradiction].
Qed.
Lemma J_run : forall ops, Forall okop ops -> J (run step init ops) (members ops).
Proof.
  unfold members, run. intros ops. assert (J0 : J init (fun _ _ => False)). { intros i. split; [apply create_inv|]. intros x. split; [apply create_has|contradiction]. }
  revert J0. generalize init, (fun (_ _ : Z) => False). induction ops as [|o ops IH]; intros s m J0 F; cbn; auto. inv F. apply IH; auto. apply J_step; auto.
Qed.
