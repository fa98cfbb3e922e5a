(** C33: what replay reads from the row-level WAL is what was written. *)
From Coq Require Import ZArith List Bool Lia.
From Coq Require Import ZifyBool ZifyNat.
From Verif Require Import Base WalModel WalSpec WalLemmas WalProofs.
Import ListNotations.
Open Scope Z_scope.

(** Reading a container gives back its header and exactly its records,
    for every mix of record kinds, tuple bytes and header flags. *)
Theorem C33_roundtrip : forall h rs,
  wf_hdr h = true -> forallb wf_rec rs = true -> announced rr_default rs ->
  parse_container (container h rs) = (Some h, rs, PDone).
Proof.
  intros h rs H W A. unfold container. rewrite parse_container_body by exact H.
  rewrite parse_body_records by auto. reflexivity.
Qed.

(** Different contents never share an encoding. *)
Theorem C33_unambiguous : forall h rs h' rs',
  wf_hdr h = true -> forallb wf_rec rs = true -> announced rr_default rs ->
  wf_hdr h' = true -> forallb wf_rec rs' = true -> announced rr_default rs' ->
  container h rs = container h' rs' -> h = h' /\ rs = rs'.
Proof.
  intros h rs h' rs' H W A H' W' A' E.
  pose proof (C33_roundtrip h rs H W A) as P.
  pose proof (C33_roundtrip h' rs' H' W' A') as P'.
  rewrite E, P' in P. inversion P. auto.
Qed.

Definition hdr_len (h : hdr) : nat :=
  (3 + (match h_xact h with Some _ => 12 | None => 0 end)
   + (match h_origin h with Some _ => 10 | None => 0 end))%nat.

Lemma container_len : forall h b, length (enc_container h b) = (hdr_len h + length b)%nat.
Proof.
  intros h b. unfold enc_container, hdr_len.
  destruct (h_xact h) as [[t x]|], (h_origin h) as [[i l]|];
    rewrite ?app_length, ?le_length, ?fields_length; cbn [length map fst fold_right]; lia.
Qed.

Lemma cut_body : forall h b n, (hdr_len h <= n)%nat ->
  firstn n (enc_container h b) = enc_container h (firstn (n - hdr_len h) b).
Proof.
  intros h b n H.
  set (p := le 2 wal_version
    ++ [ (match h_xact h with Some _ => 1 | None => 0 end)
         + (match h_origin h with Some _ => 2 | None => 0 end) ]
    ++ (match h_xact h with Some (t, x) => fields [(8, t); (4, x)]%nat | None => [] end)
    ++ (match h_origin h with Some (i, l) => fields [(2, i); (8, l)]%nat | None => [] end)).
  assert (E : forall q, enc_container h q = p ++ q).
  { intros q. unfold enc_container, p. rewrite <- !app_assoc. reflexivity. }
  assert (L : length p = hdr_len h).
  { pose proof (container_len h []) as X. rewrite E, app_length in X. cbn [length] in X. lia. }
  rewrite !E, firstn_app, L, (firstn_all2 p) by lia. reflexivity.
Qed.

Lemma cut_header : forall h b n, (n < hdr_len h)%nat ->
  parse_container (firstn n (enc_container h b)) = (None, [], PEof).
Proof.
  intros [x o] b n H. unfold hdr_len in H. cbn [h_xact h_origin] in H.
  unfold enc_container. cbn [h_xact h_origin].
  destruct x as [[t1 x1]|], o as [[i1 l1]|];
    do 25 (destruct n as [|n]; [first [exfalso; lia | reflexivity]|]); exfalso; lia.
Qed.

(** A container cut anywhere delivers a prefix of its records; unless the
    cut fell exactly between two records, the reader reports it. *)
Theorem C33_truncated : forall h rs n,
  wf_hdr h = true -> forallb wf_rec rs = true -> announced rr_default rs ->
  (n <= length (container h rs))%nat ->
  exists k hd st, (k <= length rs)%nat
  /\ parse_container (firstn n (container h rs)) = (hd, firstn k rs, st)
  /\ (st = PDone /\ hd = Some h /\ firstn n (container h rs) = container h (firstn k rs)
      \/ st = PEof /\ firstn n (container h rs) <> container h (firstn k rs)).
Proof.
  intros h rs n H W A L. unfold container in *.
  destruct (le_lt_dec (hdr_len h) n) as [G|G].
  - rewrite container_len in L. rewrite cut_body by exact G.
    set (m := (n - hdr_len h)%nat) in *.
    rewrite parse_container_body by exact H.
    destruct (parse_body_cut rs m W A) as [k [K1 [K2 K3]]]; [lia|].
    replace (length (firstn m (flat_map enc_rec rs))) with m by (rewrite firstn_length; lia).
    destruct (parse_body m wal_version rr_default (firstn m (flat_map enc_rec rs))) as [q st].
    cbn [fst snd] in *. exists k, (Some h), st. split; auto. split; [rewrite K2; auto|].
    destruct K3 as [[K3 K4]|[K3 K4]].
    + left. rewrite K4. auto.
    + right. split; auto. intros X. apply K4.
      unfold enc_container in X. apply app_inv_head in X. apply app_inv_head in X.
      apply app_inv_head in X. apply app_inv_head in X. exact X.
  - exists 0%nat, None, PEof. rewrite cut_header by exact G. cbn [firstn].
    split; [lia|]. split; [reflexivity|]. right. split; auto.
    intros X. apply (f_equal (@length Z)) in X. rewrite container_len in X.
    rewrite firstn_length in X. lia.
Qed.

(** A record kind this release does not know is reported, after the
    records before it were delivered. *)
Theorem C33_unknown_kind : forall h rs tag junk,
  wf_hdr h = true -> forallb wf_rec rs = true -> announced rr_default rs ->
  tag <= 0 \/ 24 < tag ->
  parse_container (enc_container h (flat_map enc_rec rs ++ tag :: junk))
  = (Some h, rs, PBadType).
Proof.
  intros h rs tag junk H W A T. rewrite parse_container_body by exact H.
  rewrite parse_body_app by (auto; lia). cbn [parse_body length].
  assert (B : parse_rec wal_version (fold_left next_rr rs rr_default) tag junk = Bad).
  { unfold parse_rec.
    repeat match goal with
    | |- (if ?c then _ else _) = Bad =>
        let E := fresh in destruct c eqn:E; [exfalso; lia|]
    end. reflexivity. }
  rewrite B. rewrite app_nil_r. reflexivity.
Qed.

(** A container of a newer format version delivers nothing.  (A version
    whose low byte is under 16 would be taken for the unversioned format;
    the next such version is 256.) *)
Theorem C33_newer_version : forall v rest,
  wal_version < v < 65536 -> 16 <= v mod 256 ->
  parse_container (le 2 v ++ rest) = (None, [], PBadVersion).
Proof.
  intros v rest V M. unfold parse_container.
  assert (N := num_le 2 v rest ltac:(cbn; unfold wal_version in V; lia)).
  remember (le 2 v ++ rest) as bs eqn:E.
  assert (B : exists t, bs = (v mod 256) :: t) by (subst; cbn; eauto).
  destruct B as [t B]. rewrite B. rewrite <- B.
  replace (first_version <=? v mod 256) with true by (unfold first_version; lia).
  rewrite N. replace (v >? wal_version) with true by (unfold wal_version in *; lia).
  reflexivity.
Qed.

(** The session's calls, in order, are what replay delivers: every row
    change, of its transaction, relation and replica identity, with its
    bytes; the only records that may be missing are those discarded at the
    end of a transaction that changed no row.  Missing for the full
    property: the hazard of [C33_refuted]. *)
Theorem C33_writer_partial : forall ops,
  no_hazard lw0 ops ->
  let s := run step lw0 ops in
  filter is_change (logged s ++ pending s) = filter is_change (history lw0 ops)
  /\ subseq (logged s ++ pending s) (history lw0 ops).
Proof.
  intros ops NH s. destruct (run_K ops lw0 [] [] K0 NH) as [rs HK].
  change ([] ++ history lw0 ops) with (history lw0 ops) in HK.
  fold s in HK. unfold logged. rewrite (pending_records s rs) by apply (k_j _ _ _ HK).
  split; [apply (k_chg _ _ _ HK)|apply (k_sub _ _ _ HK)].
Qed.

(** Calls that neither end a transaction nor start another. *)
Definition within (x : op) : bool :=
  match x with
  | OMod _ _ _ _ _ _ _ | OBridge _ _ _ _ _ _ | OPlain _ _ | OCic _ _ | ORbSp _ _
  | OSwitch _ _ _ | OFlush _ => true
  | _ => false
  end.

Lemma flush_if_stays : forall s e n,
  w_mat s = true -> w_mat (flush_if s e n) = true /\ w_cur (flush_if s e n) = w_cur s.
Proof.
  intros s e n M. unfold flush_if. destruct (buf_len s + n + reserved s >? buffer_size); auto.
Qed.

Lemma add_xid_if_stays : forall s e,
  w_mat s = true -> w_mat (add_xid_if s e) = true /\ w_cur (add_xid_if s e) = w_cur s.
Proof.
  intros s e M. unfold add_xid_if. destruct (w_cx s); auto. destruct (w_cur s) eqn:C; auto.
Qed.

Lemma announce_stays : forall s e rl rr a b c,
  w_mat (announce s e rl rr a b c) = w_mat s /\ w_cur (announce s e rl rr a b c) = w_cur s.
Proof.
  intros s e rl rr a b c. unfold announce. destruct (same_rel s rl); auto.
  destruct (rr =? rr_default); auto.
Qed.

Lemma within_stays : forall s x, within x = true -> w_mat s = true ->
  w_mat (step s x) = true /\ w_cur (step s x) = w_cur s /\ hazard s x = false.
Proof.
  intros s x W M.
  assert (HZ : hazard s x = false).
  { unfold hazard. destruct (enabled s x); auto. destruct x; auto; discriminate. }
  unfold step. destruct (enabled s x); auto.
  destruct x; try discriminate; cbn [exec].
  - rewrite add_modify_eq.
    match goal with |- context [flush_if s e ?n] => generalize n end. intros n.
    destruct (flush_if_stays s e n M) as [M1 C1].
    destruct (add_xid_if_stays _ e M1) as [M2 C2].
    destruct (announce_stays (add_xid_if (flush_if s e n) e) e rl rr ver bver spc) as [M3 C3].
    cbn [set_mat put w_mat w_cur]. rewrite C3, C2, C1. auto.
  - rewrite add_bridge_eq.
    match goal with |- context [flush_if s e ?n] => generalize n end. intros n.
    destruct (flush_if_stays s e n M) as [M1 C1].
    destruct (add_xid_if_stays _ e M1) as [M2 C2].
    destruct (announce_stays (add_xid_if (flush_if s e n) e) e rl rr_default ver bver spc) as [M3 C3].
    cbn [put w_mat w_cur]. rewrite M3, C3, C2, C1. auto.
  - unfold add_plain. destruct (flush_if_stays s e (size r) M) as [M1 C1].
    destruct (add_xid_if_stays _ e M1) as [M2 C2]. cbn [put w_mat w_cur]. rewrite C2, C1. auto.
  - unfold add_cic, add_plain. destruct (flush_if_stays s e (size r) M) as [M1 C1].
    destruct (add_xid_if_stays _ e M1) as [M2 C2].
    cbn [set_rel put w_mat w_cur]. rewrite C2, C1. auto.
  - unfold add_rb_sp. cbv zeta.
    generalize (size (RRbSp psub (e_xmin e) (e_csn e))). intros n.
    destruct (flush_if_stays (set_cx s false) e n M) as [M1 C1].
    destruct (add_xid_if_stays _ e M1) as [M2 C2].
    cbn [set_cx flush put w_mat w_cur]. rewrite C2, C1. auto.
  - unfold add_switch. destruct (w_csw s); auto.
    destruct (flush_if_stays (set_csw s true) e 9 M) as [M1 C1].
    cbn [put w_mat w_cur]. rewrite M1, C1. auto.
  - auto.
Qed.

Lemma within_run : forall mid s, forallb within mid = true -> w_mat s = true ->
  w_mat (run step s mid) = true /\ w_cur (run step s mid) = w_cur s /\ no_hazard s mid.
Proof.
  induction mid as [|x mid IH]; intros s W M; [cbn; auto|].
  cbn [forallb] in W. apply andb_all in W. destruct W as [W1 W2].
  destruct (within_stays s x W1 M) as [A [B C]].
  destruct (IH (step s x) W2 A) as [D [E F]].
  change (run step s (x :: mid)) with (run step (step s x) mid).
  rewrite E, B. cbn [no_hazard]. auto.
Qed.

Lemma no_hazard_app : forall a s b,
  no_hazard s (a ++ b) <-> no_hazard s a /\ no_hazard (run step s a) b.
Proof.
  induction a as [|x a IH]; intros s b; cbn [app no_hazard].
  - cbn. tauto.
  - rewrite IH. change (run step s (x :: a)) with (run step (step s x) a). tauto.
Qed.

(** A transaction that changed a row always gets its end logged: once the
    call that ends it returns, the log contains every row change made so
    far and, last, the commit or rollback of that very transaction. *)
Theorem C33_end_logged_partial : forall pre e r rl rr ver bver spc mid e' commit fb,
  no_hazard lw0 pre ->
  let s := run step lw0 pre in
  let change := OMod e r rl rr ver bver spc in
  enabled s change = true -> forallb within mid = true ->
  let s2 := run step (step s change) mid in
  let s3 := step s2 (OFinish e' commit fb) in
  env_okb e' = true ->
  (exists l, logged s3 =
     l ++ [mkEv (w_cur s) None rr_default (RFinish commit (e_xmin e') (e_csn e'))])
  /\ filter is_change (logged s3)
     = filter is_change (history lw0 (pre ++ change :: mid ++ [OFinish e' commit fb])).
Proof.
  intros pre e r rl rr ver bver spc mid e' commit fb NH s change EN WI s2 s3 EE.
  assert (CU : exists o, w_cur s = Some o).
  { cbn [change enabled] in EN. ands. apply has_cur_some. assumption. }
  destruct CU as [o CU].
  assert (S1 : w_mat (step s change) = true /\ w_cur (step s change) = Some o).
  { unfold step. rewrite EN. cbn [change exec]. rewrite add_modify_eq. split; [reflexivity|].
    match goal with |- context [flush_if s e ?n] => generalize n end. intros n.
    cbn [set_mat put w_cur].
    rewrite (proj2 (announce_stays (add_xid_if (flush_if s e n) e) e rl rr ver bver spc)).
    assert (C2 : w_cur (add_xid_if (flush_if s e n) e) = w_cur (flush_if s e n)).
    { unfold add_xid_if. destruct (w_cx (flush_if s e n)); auto.
      destruct (w_cur (flush_if s e n)) eqn:Q; auto. }
    assert (C1 : w_cur (flush_if s e n) = w_cur s).
    { unfold flush_if. destruct (buf_len s + n + reserved s >? buffer_size); auto. }
    congruence. }
  destruct S1 as [M1 C1].
  destruct (within_run mid (step s change) WI M1) as [M2 [C2 N2]]. fold s2 in M2, C2.
  rewrite C1 in C2.
  assert (NA : no_hazard lw0 (pre ++ change :: mid)).
  { apply no_hazard_app. split; auto. cbn [no_hazard]. split; [|exact N2].
    unfold hazard. cbn [change]. apply andb_false_r. }
  assert (R : run step lw0 (pre ++ change :: mid) = s2).
  { rewrite run_app. reflexivity. }
  destruct (run_K (pre ++ change :: mid) lw0 [] [] K0 NA) as [rs HK].
  rewrite R in HK. change ([] ++ ?x) with x in HK.
  assert (EF : enabled s2 (OFinish e' commit fb) = true).
  { cbn [enabled]. unfold has_cur. rewrite C2. exact EE. }
  assert (L3 : logged s3 = total s2 rs
     ++ [mkEv (Some o) None rr_default (RFinish commit (e_xmin e') (e_csn e'))]).
  { unfold s3, step. rewrite EF. cbn [exec]. rewrite C2.
    destruct (finish_mat s2 rs _ e' o commit fb false HK EE C2 M2) as [T _].
    rewrite total_nil in T. exact T. }
  split.
  - exists (total s2 rs). rewrite CU. exact L3.
  - rewrite L3, filter_app, (k_chg _ _ _ HK).
    replace (pre ++ change :: mid ++ [OFinish e' commit fb])
      with ((pre ++ change :: mid) ++ [OFinish e' commit fb])
      by (rewrite <- app_assoc; reflexivity).
    assert (HA : forall a q b, history q (a ++ b) = history q a ++ history (run step q a) b).
    { induction a as [|y a IH]; intros q b; cbn [app history]; auto.
      rewrite IH, app_assoc. reflexivity. }
    rewrite (HA (pre ++ change :: mid) lw0 [OFinish e' commit fb]), filter_app, R. cbn [history]. rewrite EF. cbn [asked]. rewrite C2.
    reflexivity.
Qed.

(** Every container ever written held at most a full buffer. *)
Definition log_ok (s : lw) : Prop :=
  Forall (fun c => Z.of_nat (length c) <= buffer_size + 25) (w_log s).

Lemma flush_log : forall s e b, buf_len s <= buffer_size -> log_ok s -> log_ok (flush s e b).
Proof.
  intros s e b L H. unfold log_ok. cbn [flush w_log]. apply Forall_app. split; [exact H|].
  constructor; [|constructor]. rewrite container_len. unfold hdr_len. unfold buf_len in L.
  destruct (h_xact _), (h_origin _); lia.
Qed.

Lemma flush_if_log : forall s e n,
  buf_len s <= buffer_size -> log_ok s -> log_ok (flush_if s e n).
Proof.
  intros s e n L H. unfold flush_if.
  destruct (buf_len s + n + reserved s >? buffer_size); auto. apply flush_log; auto.
Qed.

Lemma add_xid_if_log : forall s e, w_log (add_xid_if s e) = w_log s.
Proof. intros s e. unfold add_xid_if. destruct (w_cx s); auto. destruct (w_cur s); auto. Qed.

Lemma announce_log : forall s e rl rr a b c, w_log (announce s e rl rr a b c) = w_log s.
Proof.
  intros s e rl rr a b c. unfold announce. destruct (same_rel s rl); auto.
  destruct (rr =? rr_default); auto.
Qed.

Lemma fits_len : forall s, fits s -> buf_len s <= buffer_size.
Proof. intros s F. unfold fits, reserved, xid_size in F. destruct (w_cx s); lia. Qed.

Lemma reserved_nonneg : forall s, 0 <= reserved s.
Proof. intros s. unfold reserved, xid_size. destruct (w_cx s); lia. Qed.

Lemma finish_log : forall s e o c fb a, fits s -> log_ok s -> log_ok (finish s e o c fb a).
Proof.
  intros s e o c fb a F H. unfold finish. destruct (negb (w_mat s)); [exact H|].
  set (n := 17 + (if c && fb then 1 else 0)).
  assert (N : 0 <= n /\ n + xid_size <= buffer_size)
    by (unfold n, xid_size, buffer_size; destruct (c && fb); lia).
  destruct N as [N0 N1]. cbv zeta.
  pose proof (flush_if_log s e n (fits_len s F) H) as L1.
  destruct (flush_if_room s e n N0 N1) as [R _].
  set (s1 := flush_if s e n) in *.
  change (log_ok (flush (add_finish (if w_cx s1 then s1 else add_xid s1 e o) e c fb) e (negb a))).
  set (s2 := if w_cx s1 then s1 else add_xid s1 e o).
  assert (R2 : buf_len s2 + reserved s2 <= buf_len s1 + reserved s1 /\ w_log s2 = w_log s1).
  { unfold s2. destruct (w_cx s1) eqn:CX; [split; [lia|reflexivity]|]. split; [|reflexivity].
    apply add_xid_room. exact CX. }
  destruct R2 as [R2 R3]. pose proof (reserved_nonneg s2) as P2.
  apply flush_log.
  - unfold add_finish.
    change (buf_len (set_csw ?q false)) with (buf_len q).
    rewrite put_len, size_finish. unfold n in R.
    destruct (c && fb); [rewrite put_len, size_feedback|]; lia.
  - unfold log_ok, add_finish. destruct (c && fb); cbn [set_csw put w_log]; rewrite R3; exact L1.
Qed.

Lemma joint_log : forall s e o x sub, fits s -> log_ok s -> log_ok (joint s e o x sub).
Proof.
  intros s e o x sub F H. unfold joint. cbv zeta.
  assert (N1 : 22 + xid_size <= buffer_size) by (unfold xid_size, buffer_size; lia).
  pose proof (flush_if_log s e 22 (fits_len s F) H) as L1.
  destruct (flush_if_room s e 22 ltac:(lia) N1) as [R _].
  set (s1 := flush_if s e 22) in *.
  set (s2 := if w_cx s1 then s1 else add_xid s1 e o).
  assert (R2 : buf_len s2 + reserved s2 <= buf_len s1 + reserved s1 /\ w_log s2 = w_log s1).
  { unfold s2. destruct (w_cx s1) eqn:CX; [split; [lia|reflexivity]|]. split; [|reflexivity].
    apply add_xid_room. exact CX. }
  destruct R2 as [R2 R3]. pose proof (reserved_nonneg s2) as P2.
  assert (L2 : log_ok s2) by (unfold log_ok; rewrite R3; exact L1).
  pose proof (flush_if_log s2 e 22 ltac:(lia) L2) as L3.
  destruct (flush_if_room s2 e 22 ltac:(lia) N1) as [R4 _].
  set (s3 := flush_if s2 e 22) in *.
  pose proof (add_xid_if_room s3 e) as R5. pose proof (reserved_nonneg (add_xid_if s3 e)) as P5.
  set (r := RJoint x (e_xmin e) (e_csn e) sub).
  change (log_ok (flush (set_csw (put (add_xid_if s3 e) r) false) e false)).
  apply flush_log.
  - change (buf_len (set_csw ?q false)) with (buf_len q).
    rewrite put_len. unfold r. rewrite size_joint. lia.
  - unfold log_ok. cbn [set_csw put w_log]. rewrite add_xid_if_log. exact L3.
Qed.

Lemma step_log : forall s x, fits s -> log_ok s -> log_ok (step s x).
Proof.
  intros s x F H. pose proof (fits_len s F) as L.
  unfold step. destruct (enabled s x) eqn:EN; auto.
  destruct x; cbn [exec enabled] in *; auto.
  - rewrite add_modify_eq. unfold log_ok. cbn [set_mat put w_log].
    rewrite announce_log, add_xid_if_log. apply flush_if_log; auto.
  - rewrite add_bridge_eq. unfold log_ok. cbn [put w_log].
    rewrite announce_log, add_xid_if_log. apply flush_if_log; auto.
  - unfold log_ok, add_plain. cbn [put w_log]. rewrite add_xid_if_log. apply flush_if_log; auto.
  - unfold log_ok, add_cic, add_plain. cbn [set_rel put w_log].
    rewrite add_xid_if_log. apply flush_if_log; auto.
  - unfold add_rb_sp. cbv zeta.
    set (r := RRbSp psub (e_xmin e) (e_csn e)).
    assert (SZ : size r = 21) by apply size_rbsp.
    assert (N1 : size r + xid_size <= buffer_size) by (rewrite SZ; unfold xid_size, buffer_size; lia).
    pose proof (flush_if_log (set_cx s false) e (size r) L H) as L1.
    destruct (flush_if_room (set_cx s false) e (size r) ltac:(lia) N1) as [R _].
    set (s1 := flush_if (set_cx s false) e (size r)) in *.
    pose proof (add_xid_if_room s1 e) as R5. pose proof (reserved_nonneg (add_xid_if s1 e)) as P5.
    change (log_ok (flush (put (add_xid_if s1 e) r) e false)).
    apply flush_log.
    + rewrite put_len. lia.
    + unfold log_ok. cbn [put w_log]. rewrite add_xid_if_log. exact L1.
  - unfold add_switch. destruct (w_csw s); auto. unfold log_ok. cbn [put w_log].
    apply (flush_if_log (set_csw s true)); auto.
  - destruct (w_cur s) as [o|]; auto. exact (finish_log s e o commit fb false F H).
  - destruct (w_cur s) as [o|]; auto.
    destruct sub; [exact (joint_log s e o xid true F H)|exact (joint_log s e o xid false F H)].
  - apply flush_log; auto.
  - destruct (buf_len s =? 0); [exact H|exact (flush_log s e false L H)].
  - destruct (w_saved s) as [|[o m] rest]; auto.
    destruct (w_cur s) as [a|]; [exact (finish_log s e a commit fb true F H)|exact H].
Qed.

(** The local buffer of 8192 bytes is never overrun, whatever the calls:
    neither now nor when any of the containers was written (a container is
    the buffer after a header of at most 25 bytes). *)
Theorem C33_buffer_bound : forall ops,
  Z.of_nat (length (w_buf (run step lw0 ops))) <= 8192
  /\ Forall (fun c => Z.of_nat (length c) <= 8192 + 25) (w_log (run step lw0 ops)).
Proof.
  intros ops.
  assert (F : fits (run step lw0 ops) /\ log_ok (run step lw0 ops)).
  { apply (run_inv _ _ step (fun s => fits s /\ log_ok s)).
    - intros s x [A B]. split; [apply step_fits|apply step_log]; auto.
    - split; [unfold fits, buf_len, reserved; cbn; discriminate|constructor]. }
  destruct F as [F G]. split; [apply (fits_len _ F)|exact G].
Qed.

(* ------------------------------------------------------------------ *)
(** ** Concrete cases *)

Definition ex_env : env := mkEnv 11 12 13 14 0 777 (Some (5, 900)).
Definition ex_rel : relid := (0, 5, 16384, 16390).
Definition ex_rel2 : relid := (0, 5, 16500, 16501).

Definition ex_hdr : hdr := mkHdr (Some (123456789, 42)) (Some (3, 99999)).
Definition ex_recs : list wrec :=
  [ RXid 100 7 8; RRel 0 5 16384 16390 90 91 3 1 4294967295 1663; RRri 102 0;
    RMod1 5 0 [1; 2; 3]; RMod2 6 0 1 [4; 5] [6; 7; 8]; RSave 1 9 7;
    RRel 0 5 16500 16501 90 91 3 1 4294967295 1663; RMod1 6 0 [9]; RMod2 15 0 0 [1] [2];
    RRbSp 1 2 3; RJoint 55 1 2 true; RBridge [1; 2; 3; 4; 5; 6]; RLock; RUnlock 5 1 2 3;
    RTrunc 1 2 3; RSwitch 4 5; RDbCopy 1 2 3; RDbCreate 20 1 2; RCic 24 1 2 3 4 5 6;
    RFeedback; RFinish true 90 92 ].

Example ex_recs_meet :
  wf_hdr ex_hdr = true /\ forallb wf_rec ex_recs = true /\ announced rr_default ex_recs.
Proof.
  vm_compute. repeat first [apply conj | exact Logic.I | reflexivity | discriminate].
Qed.

Example ex_newer : wal_version < 20 < 65536 /\ 16 <= 20 mod 256.
Proof. vm_compute. repeat split; congruence. Qed.

(** Two transactions, an autonomous one in between, two relations, a
    savepoint, a rollback to it. *)
Definition ex_ops : list op :=
  [ OBegin 100; OMod ex_env (RMod1 5 0 [1; 2]) ex_rel rr_default 1 0 1663;
    OPlain ex_env (RSave 1 2 3);
    OMod ex_env (RMod2 6 0 0 [3] [4; 5]) ex_rel2 rr_full 1 0 1663;
    OAutoStart ex_env; OBegin 101;
    OMod ex_env (RMod1 7 0 [9]) ex_rel rr_default 1 0 1663; OAutoEnd ex_env true false;
    OMod ex_env (RMod1 7 0 [8]) ex_rel rr_default 1 0 1663;
    ORbSp ex_env 1; OFinish ex_env true true;
    OBegin 102; OFinish ex_env false false;
    OBegin 103; OMod ex_env (RMod1 5 0 [1]) ex_rel2 rr_default 1 0 1663;
    OJoint ex_env 77 false ].

Example ex_ops_clean : no_hazard lw0 ex_ops.
Proof. vm_compute. repeat first [apply conj | exact Logic.I | reflexivity]. Qed.

Example ex_ops_work :
  map ev_oxid (logged (run step lw0 ex_ops)) =
    [Some 100; Some 100; Some 100; Some 101; Some 101; Some 100; Some 100; Some 100;
     Some 103; Some 103].
Proof. vm_compute. reflexivity. Qed.

Example ex_end_enabled :
  enabled (run step lw0 [OBegin 100]) (OMod ex_env (RMod1 5 0 [1; 2]) ex_rel rr_default 1 0 1663)
  = true /\ env_okb ex_env = true.
Proof. vm_compute. auto. Qed.

(** The hazard: transaction 100 only sets a savepoint and ends with
    nothing to log; the row that transaction 101 inserts and commits in
    the same session reaches the log without any transaction. *)
Definition bad_ops : list op :=
  [ OBegin 100; OPlain ex_env (RSave 1 2 3); OFinish ex_env true false;
    OBegin 101; OMod ex_env (RMod1 5 0 [1; 2]) ex_rel rr_default 1 0 1663;
    OFinish ex_env true false ].

Theorem C33_refuted : exists ops,
  let s := run step lw0 ops in
  filter is_change (history lw0 ops) = [mkEv (Some 101) (Some ex_rel) rr_default (RMod1 5 0 [1; 2])]
  /\ filter is_change (logged s ++ pending s)
     = [mkEv None (Some ex_rel) rr_default (RMod1 5 0 [1; 2])].
Proof. exists bad_ops. vm_compute. split; reflexivity. Qed.

Print Assumptions C33_roundtrip.
Print Assumptions C33_unambiguous.
Print Assumptions C33_truncated.
Print Assumptions C33_unknown_kind.
Print Assumptions C33_newer_version.
Print Assumptions C33_writer_partial.
Print Assumptions C33_end_logged_partial.
Print Assumptions C33_buffer_bound.
Print Assumptions C33_refuted.
