From Coq Require Import ZArith List Bool Lia ZifyBool.
From Verif Require Import Base KeySpec KeyModel KeyProofs PageSearchModel PageSearchSpec PageSearchProofs FastpathModel.
Import ListNotations.
Open Scope Z_scope.

Definition sv (asc : bool) (v : Z) : Z := if asc then v else - v.
Definition nn (float : bool) (v : Z) : Prop := float = true -> v <> NaN.

Lemma c_eq_nn (fl : bool) (a b : Z) : nn fl a -> nn fl b -> c_eq fl a b = (a =? b).
Proof.
  unfold nn, c_eq, c_num. intros Ha Hb. destruct fl; cbn [negb andb]; auto.
  specialize (Ha eq_refl). specialize (Hb eq_refl).
  replace (a =? NaN) with false by lia. replace (b =? NaN) with false by lia. reflexivity.
Qed.
Lemma c_cmp_nn (fl asc : bool) (a b : Z) : nn fl a -> nn fl b -> (if asc then c_gt fl a b else c_lt fl a b) = (sv asc a >? sv asc b).
Proof.
  unfold nn, c_gt, c_lt, c_num, sv. intros Ha Hb.
  assert (negb (fl && ((a =? NaN) || (b =? NaN))) = true) as ->.
  { destruct fl; auto. specialize (Ha eq_refl). specialize (Hb eq_refl). replace (a =? NaN) with false by lia. replace (b =? NaN) with false by lia. auto. }
  destruct asc; cbn; lia.
Qed.

Lemma as_loop_spec (fl asc : bool) (key : Z) (col : Z -> Z) : nn fl key -> forall n i lower upper lowerSet lo,
  lo <= i -> upper = i + Z.of_nat n ->
  (forall j, lo <= j < upper -> nn fl (col j)) ->
  (forall j k, lo <= j -> j < k -> k < upper -> sv asc (col j) <= sv asc (col k)) ->
  (lowerSet = false -> forall j, lo <= j < i -> sv asc (col j) < sv asc key) ->
  (lowerSet = true -> lo <= lower < i /\ (forall j, lo <= j < lower -> sv asc (col j) < sv asc key) /\
                      (forall j, lower <= j < i -> sv asc (col j) = sv asc key)) ->
  let r := array_search_loop n fl asc key col i lower upper lowerSet in
  lo <= fst r <= snd r /\ snd r <= upper /\
  (forall j, lo <= j < fst r -> sv asc (col j) < sv asc key) /\
  (forall j, fst r <= j < snd r -> sv asc (col j) = sv asc key) /\
  (forall j, snd r <= j < upper -> sv asc (col j) > sv asc key).
Proof.
  intros NK. induction n as [|n IH]; intros i lower upper ls lo H1 H2 NN SO A B; cbn [array_search_loop].
  - cbn zeta. replace i with upper in * by lia.
    destruct ls; cbn [fst snd].
    + specialize (B eq_refl) as (B1 & B2 & B3). repeat split; try lia; auto.
    + specialize (A eq_refl). repeat split; try lia; auto.
  - assert (NI : nn fl (col i)) by (apply NN; lia).
    cbn zeta. rewrite c_eq_nn, c_cmp_nn by auto.
    destruct ((col i =? key) && negb ls) eqn:E.
    + apply (IH (i + 1) i upper true lo); try lia; auto.
      intros _. destruct ls; [cbn in E; lia|]. specialize (A eq_refl).
      split; [lia|]. split; [auto|]. intros j Hj. replace j with i by lia. f_equal. lia.
    + destruct (sv asc (col i) >? sv asc key) eqn:E2.
      * assert (forall j, i <= j < upper -> sv asc (col j) > sv asc key) as G.
        { intros j Hj. destruct (Z.eq_dec i j) as [<-|N]; [lia|]. specialize (SO i j ltac:(lia) ltac:(lia) ltac:(lia)). lia. }
        destruct ls; cbn [fst snd].
        -- specialize (B eq_refl) as (B1 & B2 & B3). repeat split; try lia; auto.
        -- specialize (A eq_refl). repeat split; try lia; auto.
      * apply (IH (i + 1) lower upper ls lo); try lia; auto.
        -- intros LS j Hj. destruct (Z.eq_dec j i) as [->|N]; [|apply A; auto; lia].
           subst ls. cbn in E. assert (col i <> key) by lia. unfold sv in *. destruct asc; lia.
        -- intros LS. specialize (B LS) as (B1 & B2 & B3). split; [lia|]. split; auto.
           intros j Hj. destruct (Z.eq_dec j i) as [->|N]; [|apply B3; lia].
           specialize (SO lower i ltac:(lia) ltac:(lia) ltac:(lia)). rewrite (B3 lower) in SO by lia. lia.
Qed.

(* the meaning of the prepared key *)
Fixpoint fcmp (ms : list mcol) (r : list Z) : Z :=
  match ms, r with
  | m :: ms', v :: r' =>
    match m_flag m with
    | MFirst => -1
    | MLast => 1
    | MValue => let c := o_call_comparator (sv (m_asc m) (m_value m)) (sv (m_asc m) v) in
                if c =? 0 then fcmp ms' r' else c
    end
  | _, _ => 0
  end.
Fixpoint rle (ms : list mcol) (a b : list Z) : Prop :=
  match ms, a, b with
  | m :: ms', x :: a', y :: b' => sv (m_asc m) x < sv (m_asc m) y \/ (x = y /\ rle ms' a' b')
  | _, _, _ => True
  end.
Fixpoint rnn (ms : list mcol) (r : list Z) : Prop :=
  match ms, r with
  | m :: ms', x :: r' => nn (m_float m) x /\ rnn ms' r'
  | _, _ => True
  end.
Definition mnn (m : mcol) : Prop := m_flag m = MValue -> nn (m_float m) (m_value m).

Lemma sv_inj a x y : sv a x = sv a y -> x = y.
Proof. unfold sv. destruct a; lia. Qed.

Lemma narrow_empty : forall ms row lo, narrow ms row lo lo = (lo, lo).
Proof. destruct ms; intros; cbn; auto. rewrite Z.ltb_irrefl. auto. Qed.

Lemma narrow_spec : forall ms row lo up, lo <= up ->
  Forall mnn ms ->
  (forall i, lo <= i < up -> (length ms <= length (row i))%nat /\ rnn ms (row i)) ->
  (forall i j, lo <= i -> i < j -> j < up -> rle ms (row i) (row j)) ->
  let r := narrow ms row lo up in
  lo <= fst r <= snd r /\ snd r <= up /\
  (forall i, lo <= i < fst r -> fcmp ms (row i) > 0) /\
  (forall i, fst r <= i < snd r -> fcmp ms (row i) = 0) /\
  (forall i, snd r <= i < up -> fcmp ms (row i) < 0).
Proof.
  induction ms as [|m ms IH]; intros row lo up H F NN SO; cbn [narrow].
  { cbn. repeat split; try lia; auto. }
  inversion F as [|? ? Fm Fms]; subst.
  destruct (lo <? up) eqn:E.
  2:{ cbn zeta. cbn [fst snd]. repeat split; lia. }
  assert (forall i, lo <= i < up -> exists v r, row i = v :: r) as SH.
  { intros i Hi. destruct (NN i Hi) as [L _]. destruct (row i) as [|v r]; [cbn in L; lia|eauto]. }
  destruct (m_flag m) eqn:EF.
  - (* a value *)
    pose proof (as_loop_spec (m_float m) (m_asc m) (m_value m) (fun i => hd 0 (row i)) (Fm EF)
      (Z.to_nat (up - lo)) lo lo up false lo ltac:(lia) ltac:(lia)) as AS.
    specialize (AS ltac:(intros j Hj; destruct (SH j Hj) as (v & r & Er); pose proof (proj2 (NN j Hj)) as Q; rewrite Er in Q |- *; cbn in Q |- *; tauto)).
    specialize (AS ltac:(intros j k Hj Hk Hl; destruct (SH j ltac:(lia)) as (v & r & Er); destruct (SH k ltac:(lia)) as (v' & r' & Er');
       pose proof (SO j k Hj Hk Hl) as Q; rewrite Er, Er' in Q |- *; cbn in Q |- *; destruct Q as [Q|[-> _]]; lia)).
    specialize (AS ltac:(intros; lia) ltac:(discriminate)). cbn zeta in AS.
    unfold array_search. destruct (array_search_loop _ _ _ _ _ _ _ _ _) as [l u]. cbn [fst snd] in AS.
    destruct AS as (A1 & A2 & A3 & A4 & A5).
    assert (HD : forall j, lo <= j < up -> forall v r, row j = v :: r -> hd 0 (row j) = v) by (intros j Hj v r ->; auto).
    specialize (IH (fun i => tl (row i)) l u ltac:(lia) Fms).
    specialize (IH ltac:(intros i Hi; destruct (SH i ltac:(lia)) as (v & r & Er); pose proof (NN i ltac:(lia)) as Q; rewrite Er in Q |- *; cbn in Q |- *; split; [lia|tauto])).
    specialize (IH ltac:(intros j k Hj Hk Hl; destruct (SH j ltac:(lia)) as (v & r & Er); destruct (SH k ltac:(lia)) as (v' & r' & Er');
       pose proof (SO j k ltac:(lia) Hk ltac:(lia)) as Q; pose proof (A4 j ltac:(lia)) as Q1; pose proof (A4 k ltac:(lia)) as Q2;
       rewrite Er, Er' in *; cbn in Q, Q1, Q2 |- *; destruct Q as [Q|[-> Q]]; [lia|auto])).
    cbn zeta in IH. destruct (narrow ms _ l u) as [l' u']. cbn [fst snd] in *.
    destruct IH as (I1 & I2 & I3 & I4 & I5).
    assert (forall i, lo <= i < up -> fcmp (m :: ms) (row i) =
       let c := o_call_comparator (sv (m_asc m) (m_value m)) (sv (m_asc m) (hd 0 (row i))) in if c =? 0 then fcmp ms (tl (row i)) else c) as FC.
    { intros i Hi. destruct (SH i Hi) as (v & r & ->). cbn [fcmp hd tl]. rewrite EF. reflexivity. }
    repeat split; try lia.
    + intros i Hi. rewrite FC by lia. cbn zeta.
      destruct (Z.lt_ge_cases i l) as [C|C].
      * specialize (A3 i ltac:(lia)). destruct (occ (sv (m_asc m) (m_value m)) (sv (m_asc m) (hd 0 (row i)))) as [[-> ?]|[[-> ?]|[-> ?]]]; cbn; lia.
      * specialize (A4 i ltac:(lia)). specialize (I3 i ltac:(lia)). destruct (occ (sv (m_asc m) (m_value m)) (sv (m_asc m) (hd 0 (row i)))) as [[-> ?]|[[-> ?]|[-> ?]]]; cbn; lia.
    + intros i Hi. rewrite FC by lia. cbn zeta.
      specialize (A4 i ltac:(lia)). specialize (I4 i ltac:(lia)). destruct (occ (sv (m_asc m) (m_value m)) (sv (m_asc m) (hd 0 (row i)))) as [[-> ?]|[[-> ?]|[-> ?]]]; cbn; lia.
    + intros i Hi. rewrite FC by lia. cbn zeta.
      destruct (Z.lt_ge_cases i u) as [C|C].
      * specialize (A4 i ltac:(lia)). specialize (I5 i ltac:(lia)). destruct (occ (sv (m_asc m) (m_value m)) (sv (m_asc m) (hd 0 (row i)))) as [[-> ?]|[[-> ?]|[-> ?]]]; cbn; lia.
      * specialize (A5 i ltac:(lia)). destruct (occ (sv (m_asc m) (m_value m)) (sv (m_asc m) (hd 0 (row i)))) as [[-> ?]|[[-> ?]|[-> ?]]]; cbn; lia.
  - rewrite narrow_empty. cbn zeta. cbn [fst snd]. repeat split; try lia.
    intros i Hi. destruct (SH i ltac:(lia)) as (v & r & ->). cbn. rewrite EF. lia.
  - rewrite narrow_empty. cbn zeta. cbn [fst snd]. repeat split; try lia.
    intros i Hi. destruct (SH i ltac:(lia)) as (v & r & ->). cbn. rewrite EF. lia.
Qed.

(* ---- keys without NULLs and NaNs ---- *)
Fixpoint fixedkey (fs : list fld) (fl : list bool) (k : list val) : Prop :=
  match fs, fl, k with
  | [], _, [] => True
  | f :: fs', x :: fl', v :: k' => (exists z, v = Some z /\ nn x z) /\ fixedkey fs' fl' k'
  | _, _, _ => False
  end.

(* the prepared columns follow the index's columns *)
Fixpoint follows (ms : list mcol) (fs : list fld) (fl : list bool) : Prop :=
  match ms, fs, fl with
  | [], _, _ => True
  | m :: ms', f :: fs', x :: fl' => m_asc m = asc f /\ m_float m = x /\ follows ms' fs' fl'
  | _, _, _ => False
  end.

Lemma fixed_rnn : forall ms fs fl k, follows ms fs fl -> fixedkey fs fl k -> (length ms <= length (row_of k))%nat /\ rnn ms (row_of k).
Proof.
  induction ms as [|m ms IH]; intros [|f fs] [|x fl] [|v k]; cbn; try tauto; try (split; [lia|auto]).
  intros (A & B & C) ((z & -> & N) & D). destruct (IH fs fl k C D) as [I1 I2]. unfold row_of in *. split; [lia|]. split; auto.
  rewrite B. auto.
Qed.

Lemma klt_rle : forall ms fs fl a b, follows ms fs fl -> fixedkey fs fl a -> fixedkey fs fl b -> key_lt fs a b -> rle ms (row_of a) (row_of b).
Proof.
  induction ms as [|m ms IH]; intros [|f fs] [|x fl] [|u a] [|v b]; cbn; try tauto.
  intros (A & B & C) ((z & -> & _) & D) ((z' & -> & _) & D') [H|[H H']].
  - left. unfold plt in H. cbn in H. unfold sv. rewrite A. cbn [raw]. destruct (asc f); lia.
  - right. cbn in *. split. { injection H as H. destruct (asc f); lia. } eapply (IH fs fl); eauto.
Qed.
Lemma eq_rle : forall ms r, rle ms r r.
Proof. induction ms as [|m ms IH]; intros [|x r]; cbn; auto. Qed.

Lemma tuple_cols_follows : forall n fs fl t, follows (tuple_cols n fs fl t) fs fl.
Proof.
  induction n as [|n IH]; intros [|f fs] [|x fl] [|v t]; cbn; auto.
  destruct v; cbn; auto.
Qed.
Lemma bound_cols_follows : forall n fs fl ty b r, bound_cols n fs fl ty b = Some r -> follows r fs fl.
Proof.
  induction n as [|n IH]; intros [|f fs] [|x fl] [|t ty] [|k b] r; cbn; intros E; try (injection E as <-; exact Logic.I).
  destruct (b_type k =? t); [|discriminate]. destruct (bound_cols n fs fl ty b) eqn:E2; [|discriminate].
  injection E as <-. cbn. unfold bound_col. destruct (b_unb k), (b_null k); cbn; eauto.
Qed.

(* ---- the prepared key compares as the search key does ---- *)
Lemma tuple_fcmp : forall n fs fl t r, length fs = n -> length t = n -> fixedkey fs fl r ->
  Z.sgn (fcmp (tuple_cols n fs fl t) (row_of r)) = Z.sgn (o_idx_cmp_tuples fs t r).
Proof.
  induction n as [|n IH]; intros [|f fs] [|x fl] [|u t] [|v r]; cbn [length]; intros L1 L2; try discriminate; try (cbn; tauto).
  intros ((z & -> & N) & D). cbn [tuple_cols fcmp row_of map o_idx_cmp_tuples raw].
  specialize (IH fs fl t r ltac:(lia) ltac:(lia) D).
  destruct u as [u|]; cbn [tuple_col m_flag m_asc m_value cmp_field].
  - assert (o_call_comparator (sv (asc f) u) (sv (asc f) z) = if asc f then o_call_comparator u z else - o_call_comparator u z) as ->.
    { unfold sv. destruct (asc f); auto. destruct (occ (- u) (- z)) as [[-> ?]|[[-> ?]|[-> ?]]], (occ u z) as [[-> ?]|[[-> ?]|[-> ?]]]; lia. }
    set (c := if asc f then _ else _). destruct (c =? 0); auto.
  - destruct (nullfirst f); reflexivity.
Qed.

(* the bounds for which the accelerated search is right; m is the number of
   columns it looks at *)
Fixpoint safe (m : nat) (fs : list fld) (kd : bkind) (b : list vbound) : bool :=
  match m, fs, b with
  | S m', f :: fs', k :: b' =>
      if b_unb k then asc f
      else if b_incl k then safe m' fs' kd b'
      else b_lower k && match m' with O => true | _ => false end
  | _, _, _ =>
      match kd with
      | KUniqueLower => false
      | KUniqueUpper => true
      | KBound => match b with k :: _ => b_unb k && negb (b_lower k) | [] => true end
      end
  end.

Lemma range_val k f z : b_lower k = negb (b_upper k) -> b_null k = false ->
  o_idx_cmp_range_key_to_value k f (Some z) =
  let c := o_call_comparator (sv (asc f) (b_value k)) (sv (asc f) z) in
  if (c =? 0) && negb (b_incl k) then (if b_lower k then 1 else -1) else c.
Proof.
  intros D N. unfold o_idx_cmp_range_key_to_value. rewrite N. unfold cmp_inclusive, sv.
  destruct (asc f); cbn zeta.
  - destruct (_ && _) eqn:E; auto. assert (b_incl k = false) as -> by lia. rewrite D. destruct (b_upper k); auto.
  - assert (- o_call_comparator (b_value k) z = o_call_comparator (- b_value k) (- z)) as ->.
    { destruct (occ (- b_value k) (- z)) as [[-> ?]|[[-> ?]|[-> ?]]], (occ (b_value k) z) as [[-> ?]|[[-> ?]|[-> ?]]]; lia. }
    destruct (_ && _) eqn:E; auto. assert (b_incl k = false) as -> by lia. rewrite D. destruct (b_upper k); auto.
Qed.

Lemma bound_fcmp_loop kd : forall m fs fl ty b r ms n,
  bound_cols m fs fl ty b = Some ms -> (m <= length fs)%nat -> length b = length fs -> length ty = length fs ->
  (match kd with KBound => n = length fs | _ => n = m end) ->
  Forall (fun k => b_lower k = negb (b_upper k)) b -> fixedkey fs fl r -> safe m fs kd b = true ->
  (fcmp ms (row_of r) >= 0 <->
   (let c := cmp_bound_loop (firstn n fs) b r in
    if c =? 0 then match kd with KUniqueLower => -1 | KUniqueUpper => 1 | KBound => 0 end else c) >= 0).
Proof.
  induction m as [|m IH]; intros fs fl ty b r ms n E LM LB LT NE F FK SA.
  { cbn in E. injection E as <-. assert (fcmp [] (row_of r) = 0) as -> by (destruct (row_of r); auto).
    cbn [safe] in SA. destruct kd.
    - subst n. rewrite firstn_all. destruct fs as [|f fs], b as [|k b], r as [|v r]; cbn in LB; try discriminate; cbn; try lia.
      apply andb_prop in SA as [S1 S2]. rewrite S1. destruct (b_lower k); [discriminate|]. cbn. lia.
    - discriminate.
    - subst n. cbn. lia. }
  destruct fs as [|f fs]; [cbn in LM; lia|].
  destruct b as [|k b]; [discriminate|]. destruct ty as [|t ty]; [discriminate|].
  destruct fl as [|x fl], r as [|v r]; try (cbn in FK; tauto).
  cbn [bound_cols] in E. destruct (b_type k =? t); [|discriminate].
  destruct (bound_cols m fs fl ty b) as [ms'|] eqn:E2; [|discriminate]. injection E as <-.
  cbn in FK. destruct FK as ((z & -> & NZ) & FK).
  inversion F as [|? ? Fk Fb]; subst.
  assert (exists n', n = Datatypes.S n' /\ match kd with KBound => n' = length fs | _ => n' = m end) as (n' & -> & NE').
  { destruct kd; subst n; cbn [length]; eauto. }
  cbn [firstn cmp_bound_loop row_of map raw fcmp]. cbn [safe] in SA. unfold bound_col at 1.
  cbn in LM, LB, LT.
  specialize (IH fs fl ty b r ms' n' E2 ltac:(lia) ltac:(lia) ltac:(lia) NE' Fb FK).
  destruct (b_unb k) eqn:EU.
  { cbn [m_flag]. rewrite SA. destruct (b_lower k); cbn; lia. }
  destruct (b_null k) eqn:EN.
  { cbn [m_flag]. unfold o_idx_cmp_range_key_to_value. rewrite EN. unfold bound_col. rewrite EU, EN. cbn [m_flag]. destruct (nullfirst f); cbn; lia. }
  unfold bound_col. rewrite EU, EN. cbn [m_flag m_asc m_value].
  rewrite range_val by auto. cbn zeta in *.
  set (c := o_call_comparator _ _) in *.
  destruct (c =? 0) eqn:EC; cbn [andb].
  - destruct (b_incl k) eqn:EI; cbn [negb].
    + assert (c = 0) as -> by lia. cbn [Z.eqb]. apply IH. auto.
    + apply andb_prop in SA as [S1 S2]. rewrite S1. cbn.
      destruct m as [|m]; [|discriminate]. cbn in E2. injection E2 as <-.
      change (map raw r) with (row_of r). assert (fcmp [] (row_of r) = 0) as -> by (destruct (row_of r); auto). lia.
  - rewrite EC. cbn. destruct (c =? 0) eqn:EC'; lia.
Qed.
