(** Byte-level round trips for C33. *)
From Coq Require Import ZArith List Bool Lia.
From Coq Require Import ZifyBool ZifyNat.
From Verif Require Import Base WalModel WalSpec.
Import ListNotations.
Open Scope Z_scope.

Lemma le_length : forall w v, length (le w v) = w.
Proof. induction w; intros v; cbn; auto. Qed.

Lemma of_le_le : forall w v, 0 <= v < 2 ^ (8 * Z.of_nat w) -> of_le (le w v) = v.
Proof.
  induction w as [|w IH]; intros v H.
  - change (8 * Z.of_nat 0) with 0 in H. rewrite Z.pow_0_r in H. cbn. lia.
  - cbn [le of_le].
    replace (8 * Z.of_nat (S w)) with (8 + 8 * Z.of_nat w) in H by lia.
    rewrite Z.pow_add_r in H by lia. change (2 ^ 8) with 256 in H.
    rewrite IH.
    + pose proof (Z.div_mod v 256). lia.
    + split; [apply Z.div_pos; lia|]. apply Z.div_lt_upper_bound; lia.
Qed.

Lemma raw_app : forall a t, raw (length a) (a ++ t) = Ok a t.
Proof.
  intros a t. unfold raw. rewrite app_length.
  destruct (Nat.ltb_spec (length a + length t) (length a)); [lia|].
  rewrite firstn_app, skipn_app, Nat.sub_diag, firstn_all, skipn_all. cbn.
  rewrite app_nil_r. reflexivity.
Qed.

Lemma raw_app_n : forall n a t, length a = n -> raw n (a ++ t) = Ok a t.
Proof. intros n a t <-. apply raw_app. Qed.

Lemma num_le : forall w v t,
  0 <= v < 2 ^ (8 * Z.of_nat w) -> num w (le w v ++ t) = Ok v t.
Proof.
  intros w v t H. unfold num. rewrite (raw_app_n w) by apply le_length.
  cbn [bind]. rewrite of_le_le; auto.
Qed.

Lemma rangeb_ok : forall w v,
  rangeb (Z.of_nat w) v = true -> 0 <= v < 2 ^ (8 * Z.of_nat w).
Proof. intros w v H. unfold rangeb in H. lia. Qed.

Lemma nums_fields : forall l t,
  forallb (fun p => rangeb (Z.of_nat (fst p)) (snd p)) l = true ->
  nums (map fst l) (fields l ++ t) = Ok (map snd l) t.
Proof.
  induction l as [|[w v] l IH]; intros t H; cbn [map fst snd fields nums].
  - reflexivity.
  - cbn [forallb] in H. apply andb_true_iff in H. destruct H as [H1 H2].
    rewrite <- app_assoc. rewrite num_le by (apply rangeb_ok; exact H1).
    cbn [bind]. rewrite IH by exact H2. reflexivity.
Qed.

(** One record. *)
Definition fits_rr (rr : Z) (r : wrec) : Prop :=
  match r with
  | RMod1 6 _ _ => rr <> rr_full
  | RMod2 6 _ _ _ _ => rr = rr_full
  | _ => True
  end.

Lemma andb_all : forall a b, a && b = true -> a = true /\ b = true.
Proof. intros a b H. apply andb_true_iff in H. exact H. Qed.

Ltac ands :=
  repeat match goal with
  | H : _ && _ = true |- _ => apply andb_all in H; destruct H
  end.

Ltac bools :=
  repeat match goal with
  | H : _ && _ = true |- _ => apply andb_all in H; destruct H
  | H : _ || _ = true |- _ => apply orb_true_iff in H; destruct H
  | H : (_ =? _) = true |- _ => apply Z.eqb_eq in H; subst
  end.

Ltac nf l :=
  let H := fresh in
  assert (H := nums_fields l); cbn [map fst snd] in H; rewrite H; clear H;
  [ cbn [bind]
  | cbn [forallb fst snd];
    repeat match goal with |- _ && _ = true => apply andb_true_intro; split end;
    first [assumption | reflexivity | idtac] ].

Lemma range_len : forall A (d : list A),
  (Z.of_nat (length d) <? 65536) = true -> rangeb 2 (Z.of_nat (length d)) = true.
Proof. intros A d H. unfold rangeb. change (2 ^ (8 * 2)) with 65536. lia. Qed.

Lemma parse_modify_1 : forall rr t ff d r,
  wf_rec (RMod1 t ff d) = true -> fits_rr rr (RMod1 t ff d) ->
  parse_modify rr t ((fields [(1%nat, ff); (2%nat, Z.of_nat (length d))] ++ d) ++ r)
  = Ok (RMod1 t ff d) r.
Proof.
  intros rr t ff d r W F. cbn [wf_rec] in W.
  assert (E : (t =? 15) || ((t =? 6) && (rr =? rr_full)) = false).
  { bools; auto. cbn in F. destruct (Z.eqb_spec rr rr_full); auto. contradiction. }
  unfold parse_modify. rewrite E. rewrite <- app_assoc.
  apply andb_all in W. destruct W as [W Wl]. apply andb_all in W. destruct W as [_ Wf].
  apply range_len in Wl.
  nf [(1%nat, ff); (2%nat, Z.of_nat (length d))].
  rewrite Nat2Z.id. rewrite raw_app. reflexivity.
Qed.

Lemma parse_modify_2 : forall rr t f1 f2 d1 d2 r,
  wf_rec (RMod2 t f1 f2 d1 d2) = true -> fits_rr rr (RMod2 t f1 f2 d1 d2) ->
  parse_modify rr t ((fields [(1%nat, f1); (1%nat, f2); (2%nat, Z.of_nat (length d1));
                       (2%nat, Z.of_nat (length d2))] ++ d1 ++ d2) ++ r)
  = Ok (RMod2 t f1 f2 d1 d2) r.
Proof.
  intros rr t f1 f2 d1 d2 r W F. cbn [wf_rec] in W.
  assert (E : (t =? 15) || ((t =? 6) && (rr =? rr_full)) = true).
  { bools; auto. cbn in F. subst. reflexivity. }
  unfold parse_modify. rewrite E. rewrite <- !app_assoc.
  apply andb_all in W. destruct W as [W W2]. apply andb_all in W. destruct W as [W W1].
  apply andb_all in W. destruct W as [W Wf2]. apply andb_all in W. destruct W as [_ Wf1].
  apply range_len in W1. apply range_len in W2.
  nf [(1%nat, f1); (1%nat, f2); (2%nat, Z.of_nat (length d1)); (2%nat, Z.of_nat (length d2))].
  rewrite !Nat2Z.id. rewrite raw_app. cbn [bind]. rewrite raw_app. reflexivity.
Qed.

Lemma parse_enc : forall rr r, wf_rec r = true -> fits_rr rr r ->
  exists tag pl, enc_rec r = tag :: pl
  /\ forall t, parse_rec wal_version rr tag (pl ++ t) = Ok r t.
Proof.
  intros rr r W F.
  destruct r; cbn [enc_rec]; eexists; eexists; split; try reflexivity; intros t0;
    cbn [wf_rec] in W.
  - apply andb_all in W. destruct W as [W ?]. apply andb_all in W. destruct W.
    unfold parse_rec. change (1 =? 1) with true. change (17 <=? wal_version) with true.
    cbv iota. nf [(8%nat, oxid); (4%nat, lxid); (4%nat, hxid)]. reflexivity.
  - apply andb_all in W. destruct W.
    destruct commit; unfold parse_rec; cbn [Z.eqb Pos.eqb orb];
      nf [(8%nat, xmin); (8%nat, csn)]; reflexivity.
  - ands.
    unfold parse_rec. cbn [Z.eqb Pos.eqb orb].
    change (17 <=? wal_version) with true. change (19 <=? wal_version) with true. cbv iota.
    change (fields [(1%nat, ty); (4%nat, dat); (4%nat, rel); (4%nat, node); (8%nat, xmin);
      (8%nat, csn); (4%nat, cid); (4%nat, ver); (4%nat, bver); (4%nat, spc)])
      with (fields ([(1%nat, ty); (4%nat, dat); (4%nat, rel); (4%nat, node)])
            ++ fields ([(8%nat, xmin); (8%nat, csn); (4%nat, cid); (4%nat, ver); (4%nat, bver)])
            ++ fields [(4%nat, spc)]).
    rewrite <- !app_assoc.
    nf [(1%nat, ty); (4%nat, dat); (4%nat, rel); (4%nat, node)].
    nf [(8%nat, xmin); (8%nat, csn); (4%nat, cid); (4%nat, ver); (4%nat, bver)].
    cbn [fields]. rewrite app_nil_r. rewrite num_le; [reflexivity|].
    apply rangeb_ok. assumption.
  - assert (P := parse_modify_1 rr tag ff d t0 W F).
    assert (T : tag = 5 \/ tag = 6 \/ tag = 7) by lia.
    unfold parse_rec. destruct T as [T|[T|T]]; subst tag; exact P.
  - assert (P := parse_modify_2 rr tag ff1 ff2 d1 d2 t0 W F).
    assert (T : tag = 6 \/ tag = 15) by lia.
    unfold parse_rec. destruct T as [T|T]; subst tag; exact P.
  - ands.
    unfold parse_rec. cbn [Z.eqb Pos.eqb orb].
    nf [(4%nat, dat); (4%nat, rel); (4%nat, old); (4%nat, new)]. reflexivity.
  - ands.
    unfold parse_rec. cbn [Z.eqb Pos.eqb orb].
    nf [(4%nat, psub); (4%nat, lxid); (4%nat, plxid)]. reflexivity.
  - ands.
    unfold parse_rec. cbn [Z.eqb Pos.eqb orb]. change (17 <=? wal_version) with true. cbv iota.
    nf [(4%nat, psub); (8%nat, xmin); (8%nat, csn)]. reflexivity.
  - ands.
    unfold parse_rec. cbn [Z.eqb Pos.eqb orb]. change (18 <=? wal_version) with true. cbv iota.
    change (fields [(4%nat, xid); (8%nat, xmin); (8%nat, csn); (1%nat, if sub then 1 else 0)])
      with (fields [(4%nat, xid); (8%nat, xmin); (8%nat, csn)]
            ++ fields [(1%nat, if sub then 1 else 0)]).
    rewrite <- app_assoc.
    nf [(4%nat, xid); (8%nat, xmin); (8%nat, csn)].
    cbn [fields]. rewrite app_nil_r. rewrite num_le; [destruct sub; reflexivity|].
    destruct sub; cbn; lia.
  - ands.
    unfold parse_rec. cbn [Z.eqb Pos.eqb orb].
    nf [(4%nat, dat); (4%nat, rel); (4%nat, node)]. reflexivity.
  - unfold parse_rec. cbn [Z.eqb Pos.eqb orb]. apply Nat.eqb_eq in W.
    rewrite raw_app_n by exact W. reflexivity.
  - ands.
    unfold parse_rec. cbn [Z.eqb Pos.eqb orb].
    nf [(4%nat, top); (4%nat, sub)]. reflexivity.
  - ands.
    unfold parse_rec. cbn [Z.eqb Pos.eqb orb].
    nf [(1%nat, c); (4%nat, ix)]. reflexivity.
  - ands.
    unfold parse_rec. cbn [Z.eqb Pos.eqb orb].
    nf [(4%nat, db); (4%nat, src); (4%nat, dst)]. reflexivity.
  - apply andb_all in W; destruct W as [W ?]. apply andb_all in W; destruct W as [W ?].
    assert (T : tag = 20 \/ tag = 21) by lia. clear W.
    unfold parse_rec. destruct T as [T|T]; subst tag; cbn [Z.eqb Pos.eqb orb];
      nf [(4%nat, src); (4%nat, dst)]; reflexivity.
  - do 6 (apply andb_all in W; destruct W as [W ?]).
    assert (T : tag = 22 \/ tag = 23 \/ tag = 24) by lia. clear W.
    unfold parse_rec. destruct T as [T|[T|T]]; subst tag; cbn [Z.eqb Pos.eqb orb];
      nf [(4%nat, dat); (4%nat, rel); (4%nat, node); (4%nat, trel); (4%nat, tnode); (4%nat, ver)];
      reflexivity.
Qed.

Lemma announced_fits : forall rr r rs,
  announced rr (r :: rs) <-> fits_rr rr r /\ announced (next_rr rr r) rs.
Proof.
  intros rr r rs. destruct r; cbn [announced fits_rr next_rr]; tauto.
Qed.

(** More fuel than the input is long never matters. *)
Lemma parse_rec_shrinks : forall v rr tag bs r rest,
  parse_rec v rr tag bs = Ok r rest -> (length rest <= length bs)%nat.
Proof.
  assert (RAW : forall n bs a r, raw n bs = Ok a r -> (length r <= length bs)%nat).
  { intros n bs a r. unfold raw. destruct (length bs <? n)%nat; intros H; inversion H.
    rewrite skipn_length. lia. }
  assert (NUM : forall n bs a r, num n bs = Ok a r -> (length r <= length bs)%nat).
  { intros n bs a r. unfold num. destruct (raw n bs) eqn:E; cbn; intros H; inversion H; subst.
    eapply RAW; eauto. }
  assert (NUMS : forall ns bs a r, nums ns bs = Ok a r -> (length r <= length bs)%nat).
  { induction ns as [|n ns IH]; intros bs a r; cbn [nums].
    - intros H; inversion H; auto.
    - destruct (num n bs) eqn:E; cbn [bind]; try discriminate.
      destruct (nums ns rest) eqn:E2; cbn [bind]; try discriminate.
      intros H; inversion H; subst. apply NUM in E. apply IH in E2. lia. }
  intros v rr tag bs r rest H. unfold parse_rec, parse_modify in H.
  repeat match type of H with
  | (if ?c then _ else _) = _ => destruct c
  | bind (nums ?n ?b) _ = _ =>
      destruct (nums n b) eqn:?; cbn [bind] in H; try discriminate
  | bind (num ?n ?b) _ = _ =>
      destruct (num n b) eqn:?; cbn [bind] in H; try discriminate
  | bind (raw ?n ?b) _ = _ =>
      destruct (raw n b) eqn:?; cbn [bind] in H; try discriminate
  | match ?l with nil => _ | cons _ _ => _ end = _ => destruct l; try discriminate
  end; try discriminate; inversion H; subst; clear H;
  repeat match goal with
  | E : nums _ _ = Ok _ _ |- _ => apply NUMS in E
  | E : num _ _ = Ok _ _ |- _ => apply NUM in E
  | E : raw _ _ = Ok _ _ |- _ => apply RAW in E
  end; lia.
Qed.

Lemma parse_body_fuel : forall f1 f2 v rr bs,
  (length bs <= f1)%nat -> (length bs <= f2)%nat ->
  parse_body f1 v rr bs = parse_body f2 v rr bs.
Proof.
  induction f1 as [|f1 IH]; intros f2 v rr bs H1 H2.
  - destruct bs; [|cbn in H1; lia]. destruct f2; reflexivity.
  - destruct bs as [|tag bs]; [destruct f2; reflexivity|].
    destruct f2 as [|f2]; [cbn in H2; lia|].
    cbn [parse_body length] in *.
    destruct (parse_rec v rr tag bs) eqn:E; auto.
    apply parse_rec_shrinks in E.
    rewrite (IH f2) by lia. reflexivity.
Qed.

(** A well formed prefix is parsed record by record, whatever follows. *)
Lemma parse_body_app : forall rs rr t f,
  forallb wf_rec rs = true -> announced rr rs ->
  (length (flat_map enc_rec rs ++ t) <= f)%nat ->
  parse_body f wal_version rr (flat_map enc_rec rs ++ t) =
    let '(rs', st) := parse_body (length t) wal_version (fold_left next_rr rs rr) t in
    (rs ++ rs', st).
Proof.
  induction rs as [|r rs IH]; intros rr t f W A L.
  - cbn [flat_map app fold_left] in *.
    rewrite (parse_body_fuel f (length t)) by lia.
    destruct (parse_body (length t) wal_version rr t); reflexivity.
  - apply announced_fits in A. destruct A as [A1 A2].
    cbn [forallb] in W. apply andb_all in W. destruct W as [W1 W2].
    destruct (parse_enc rr r W1 A1) as [tag [pl [E P]]].
    cbn [flat_map fold_left app] in *. rewrite E in *. cbn [app] in *.
    destruct f as [|f]; [cbn in L; lia|].
    cbn [parse_body]. rewrite <- app_assoc. rewrite P.
    rewrite IH; auto.
    + destruct (parse_body (length t) wal_version (fold_left next_rr rs (next_rr rr r)) t).
      reflexivity.
    + cbn [length] in L. rewrite <- app_assoc in L. rewrite app_length in L. lia.
Qed.

Lemma parse_body_records : forall rs,
  forallb wf_rec rs = true -> announced rr_default rs ->
  parse_body (length (flat_map enc_rec rs)) wal_version rr_default (flat_map enc_rec rs)
  = (rs, PDone).
Proof.
  intros rs W A.
  assert (P := parse_body_app rs rr_default [] (length (flat_map enc_rec rs)) W A).
  rewrite app_nil_r in P. rewrite P by lia. cbn. rewrite app_nil_r. reflexivity.
Qed.

(** The header. *)
Lemma hdr_range : forall h, wf_hdr h = true ->
  (forall t x, h_xact h = Some (t, x) -> rangeb 8 t = true /\ rangeb 4 x = true)
  /\ (forall i l, h_origin h = Some (i, l) -> rangeb 2 i = true /\ rangeb 8 l = true).
Proof.
  intros h W. unfold wf_hdr in W. apply andb_all in W. destruct W as [W1 W2]. split.
  - intros t x E. rewrite E in W1. apply andb_all in W1. auto.
  - intros i l E. rewrite E in W2. apply andb_all in W2. auto.
Qed.

Lemma parse_container_body : forall h body, wf_hdr h = true ->
  parse_container (enc_container h body) =
    let '(rs, st) := parse_body (length body) wal_version rr_default body in
    (Some h, rs, st).
Proof.
  intros h body W. apply hdr_range in W. destruct W as [W1 W2].
  destruct h as [x o]. cbn [h_xact h_origin] in *.
  unfold enc_container. cbn [h_xact h_origin].
  unfold parse_container.
  change (le 2 wal_version) with [19; 0]. cbn [app].
  change (first_version <=? 19) with true. cbv iota.
  assert (N : forall t, num 2 (19 :: 0 :: t) = Ok 19 t).
  { intros t. exact (num_le 2 19 t ltac:(cbn; lia)). }
  rewrite N. change (19 >? wal_version) with false. change (17 <=? 19) with true. cbv iota.
  assert (N1 : forall v t, 0 <= v < 256 -> num 1 (v :: t) = Ok v t).
  { intros v t Hv. assert (Q := num_le 1 v t ltac:(cbn; lia)).
    cbn [le app] in Q. rewrite Z.mod_small in Q by lia. exact Q. }
  destruct x as [[t1 x1]|]; destruct o as [[i1 l1]|];
    rewrite N1 by lia; cbn [Z.add];
    repeat match goal with
    | |- context [Z.testbit ?a ?b] =>
        let z := eval vm_compute in (Z.testbit a b) in change (Z.testbit a b) with z
    end; cbv iota.
  - destruct (W1 _ _ eq_refl). destruct (W2 _ _ eq_refl).
    rewrite <- ?app_assoc.
    nf [(8%nat, t1); (4%nat, x1)]. nf [(2%nat, i1); (8%nat, l1)]. reflexivity.
  - destruct (W1 _ _ eq_refl). rewrite ?app_nil_l, <- ?app_assoc.
    nf [(8%nat, t1); (4%nat, x1)]. reflexivity.
  - destruct (W2 _ _ eq_refl). rewrite ?app_nil_l, <- ?app_assoc.
    nf [(2%nat, i1); (8%nat, l1)]. reflexivity.
  - reflexivity.
Qed.

(** Parsers only look forward: an answer other than EOF does not change
    when more bytes follow. *)
Definition mono {A} (p : list Z -> res A) : Prop :=
  forall bs t, match p bs with
               | Ok a r => p (bs ++ t) = Ok a (r ++ t)
               | Bad => p (bs ++ t) = Bad
               | Eof => True
               end.

Lemma mono_raw : forall n, mono (raw n).
Proof.
  intros n bs t. unfold raw. destruct (Nat.ltb_spec (length bs) n); auto.
  rewrite app_length. destruct (Nat.ltb_spec (length bs + length t) n); [lia|].
  rewrite firstn_app, skipn_app.
  replace (n - length bs)%nat with 0%nat by lia. cbn. rewrite app_nil_r. reflexivity.
Qed.

Lemma mono_bind : forall A B (p : list Z -> res A) (k : A -> list Z -> res B),
  mono p -> (forall a, mono (k a)) -> mono (fun bs => bind (p bs) k).
Proof.
  intros A B p k Hp Hk bs t. specialize (Hp bs t).
  destruct (p bs) as [a r| |] eqn:E; cbn [bind]; auto.
  - rewrite Hp. cbn [bind]. apply Hk.
  - rewrite Hp. reflexivity.
Qed.

Lemma mono_ok : forall A (a : A), mono (fun bs => Ok a bs).
Proof. intros A a bs t. reflexivity. Qed.
Lemma mono_bad : forall A, mono (fun _ => @Bad A).
Proof. intros A bs t. reflexivity. Qed.

Lemma mono_num : forall n, mono (num n).
Proof.
  intros n. unfold num. apply mono_bind; [apply mono_raw|]. intros a. apply mono_ok.
Qed.

Lemma mono_nums : forall ns, mono (nums ns).
Proof.
  induction ns as [|n ns IH]; cbn [nums].
  - apply mono_ok.
  - apply (mono_bind _ _ (num n)); [apply mono_num|]. intros a.
    apply (mono_bind _ _ (nums ns)); [exact IH|]. intros b. apply mono_ok.
Qed.

Lemma mono_if : forall A (c : bool) (p q : list Z -> res A),
  mono p -> mono q -> mono (fun bs => if c then p bs else q bs).
Proof. intros A c p q Hp Hq. destruct c; auto. Qed.

Ltac mono_tac :=
  repeat first
  [ apply mono_if
  | apply mono_bad
  | apply mono_ok
  | apply (mono_bind _ _ (nums _)); [apply mono_nums | intros ?]
  | apply (mono_bind _ _ (num _)); [apply mono_num | intros ?]
  | apply (mono_bind _ _ (raw _)); [apply mono_raw | intros ?]
  | match goal with
    | |- mono (fun _ => match ?l with nil => _ | cons _ _ => _ end) => destruct l
    end ].

Lemma mono_parse_rec : forall v rr tag, mono (parse_rec v rr tag).
Proof.
  intros v rr tag. unfold parse_rec, parse_modify. mono_tac.
Qed.

(** Any proper prefix of a record is reported as cut short. *)
Lemma parse_prefix_eof : forall rr r tag pl p q,
  wf_rec r = true -> fits_rr rr r ->
  enc_rec r = tag :: pl -> pl = p ++ q -> q <> [] ->
  parse_rec wal_version rr tag p = Eof.
Proof.
  intros rr r tag pl p q W F E D NQ.
  destruct (parse_enc rr r W F) as [tag' [pl' [E' P]]].
  rewrite E in E'. inversion E'; subst tag' pl'. clear E'.
  specialize (P []). rewrite app_nil_r in P.
  pose proof (mono_parse_rec wal_version rr tag p q) as M.
  destruct (parse_rec wal_version rr tag p) as [a rest| |] eqn:R; auto.
  - rewrite D in P. rewrite M in P. inversion P as [[H1 H2]].
    apply app_eq_nil in H2. destruct H2; contradiction.
  - rewrite D in P. rewrite M in P. discriminate.
Qed.

(** A list of records cut anywhere: whole records, then nothing or a
    partial record. *)
Lemma cut_records : forall rs n, (n <= length (flat_map enc_rec rs))%nat ->
  exists k rest, (k <= length rs)%nat
    /\ firstn n (flat_map enc_rec rs) = flat_map enc_rec (firstn k rs) ++ rest
    /\ (rest = [] \/ exists r q, nth_error rs k = Some r /\ enc_rec r = rest ++ q
                     /\ rest <> [] /\ q <> []).
Proof.
  induction rs as [|r rs IH]; intros n L.
  - exists 0%nat, []. cbn in *. split; [lia|]. destruct n; auto.
  - cbn [flat_map] in *. rewrite app_length in L.
    destruct (le_lt_dec (length (enc_rec r)) n) as [G|G].
    + destruct (IH (n - length (enc_rec r))%nat) as [k [rest [K1 [K2 K3]]]]; [lia|].
      exists (Datatypes.S k), rest. split; [cbn; lia|]. split.
      * rewrite firstn_app, firstn_all2 by lia. rewrite K2.
        cbn [firstn flat_map]. rewrite app_assoc. reflexivity.
      * exact K3.
    + exists 0%nat, (firstn n (enc_rec r)). split; [lia|]. split.
      * rewrite firstn_app. replace (n - length (enc_rec r))%nat with 0%nat by lia.
        cbn. rewrite app_nil_r. reflexivity.
      * destruct n as [|n]; [left; reflexivity|]. right.
        exists r, (skipn (Datatypes.S n) (enc_rec r)). split; [reflexivity|].
        split; [symmetry; apply firstn_skipn|]. split.
        -- intros E. apply (f_equal (@length Z)) in E. rewrite firstn_length in E. cbn [length] in E. lia.
        -- intros E. apply (f_equal (@length Z)) in E. rewrite skipn_length in E. cbn [length] in E. lia.
Qed.

Lemma announced_split : forall a rr b,
  announced rr (a ++ b) <-> announced rr a /\ announced (fold_left next_rr a rr) b.
Proof.
  induction a as [|r a IH]; intros rr b.
  - cbn. tauto.
  - rewrite <- app_comm_cons. rewrite !announced_fits. cbn [fold_left]. rewrite IH. tauto.
Qed.

Lemma parse_body_cut : forall rs n,
  forallb wf_rec rs = true -> announced rr_default rs ->
  (n <= length (flat_map enc_rec rs))%nat ->
  exists k, (k <= length rs)%nat
  /\ fst (parse_body n wal_version rr_default (firstn n (flat_map enc_rec rs))) = firstn k rs
  /\ (snd (parse_body n wal_version rr_default (firstn n (flat_map enc_rec rs))) = PDone
        /\ firstn n (flat_map enc_rec rs) = flat_map enc_rec (firstn k rs)
      \/ snd (parse_body n wal_version rr_default (firstn n (flat_map enc_rec rs))) = PEof
        /\ firstn n (flat_map enc_rec rs) <> flat_map enc_rec (firstn k rs)).
Proof.
  intros rs n W A L.
  destruct (cut_records rs n L) as [k [rest [K1 [K2 K3]]]].
  exists k. split; [exact K1|].
  assert (LEN : length (firstn n (flat_map enc_rec rs)) = n) by (rewrite firstn_length; lia).
  rewrite K2 in *.
  assert (WK : forallb wf_rec (firstn k rs) = true /\ announced rr_default (firstn k rs)
               /\ announced (fold_left next_rr (firstn k rs) rr_default) (skipn k rs)
               /\ forallb wf_rec (skipn k rs) = true).
  { rewrite <- (firstn_skipn k rs) in W, A. rewrite forallb_app in W.
    apply andb_all in W. apply announced_split in A. tauto. }
  destruct WK as [WK [AK [AS WS]]].
  rewrite (parse_body_app (firstn k rs)) by (auto; lia).
  destruct K3 as [K3|[r [q [N [E [NR NQ]]]]]].
  - subst rest. cbn. rewrite !app_nil_r. auto.
  - destruct rest as [|tag p]; [contradiction|].
    assert (SK : exists tl, skipn k rs = r :: tl).
    { clear -N. revert k N. induction rs as [|a l IH]; intros [|k] N; cbn in *; try discriminate.
      - inversion N. eauto.
      - apply IH. exact N. }
    destruct SK as [tl SK]. rewrite SK in AS, WS.
    apply announced_fits in AS. destruct AS as [F _].
    cbn [forallb] in WS. apply andb_all in WS. destruct WS as [WR _].
    cbn [parse_body length].
    rewrite (parse_prefix_eof _ r tag (p ++ q) p q WR F); auto.
    cbn. rewrite app_nil_r. split; [reflexivity|]. right. split; [reflexivity|].
    intros X. apply (f_equal (@length Z)) in X. rewrite app_length in X. cbn in X. lia.
Qed.
