(* C39: the key range of a scan covers exactly the qualifying keys. *)
From Coq Require Import ZArith List Bool Lia ZifyBool Arith.
From Verif Require Import Base KeySpec KeyModel KeyProofs RangeSpec RangeModel RangeProofs.
Import ListNotations.
Open Scope Z_scope.

Lemma att_col fs c : att fs c = cond_col c.
Proof. destruct c; reflexivity. Qed.
Lemma wf_of fs cs : well_formed fs cs -> wf fs cs.
Proof.
  intros [A B C D]. constructor.
  - clear B C D. induction A as [|c l F FO IH]; constructor; auto.
    eapply Forall_impl; [|exact F]. intros d H. unfold apart. rewrite !att_col. exact H.
  - intros c. rewrite att_col. apply B.
  - exact C.
  - exact D.
Qed.
Lemma uniform_of fs cs : (forall c, In c cs -> same_direction fs c) ->
  forall gt incl subs, In (CRow gt incl subs) cs -> uniform fs subs.
Proof. intros H gt incl subs I. exact (H _ I). Qed.

(* What the code computes for a list of conditions: number of leading exact
   conditions, range, emptiness, exactness. *)
Definition code_prefix fs cs := o_get_num_prefix_exact_keys (map (prep fs) cs).
Definition code_range fs cs cur := fst (fst (o_key_data_to_key_range fs (code_prefix fs cs) cur (map (prep fs) cs))).
Definition code_empty fs cs cur := snd (fst (o_key_data_to_key_range fs (code_prefix fs cs) cur (map (prep fs) cs))).
Definition code_exact fs cs cur := snd (o_key_data_to_key_range fs (code_prefix fs cs) cur (map (prep fs) cs)).
(* t lies between the bounds that the tree is searched with. *)
Definition between fs cs cur (t : list val) : Prop :=
  above fs (map plain (low_bound fs (code_range fs cs cur))) t /\ below fs (map plain (high_bound fs (code_range fs cs cur))) t.

Lemma code_parts fs cs cur :
  let r := keys_loop fs (code_prefix fs cs) cur 0 (map (prep fs) cs) r_init in
  code_range fs cs cur = r /\ code_empty fs cs cur = fst (final_loop fs r 0 true) /\ code_exact fs cs cur = snd (final_loop fs r 0 true).
Proof.
  cbn zeta. unfold code_range, code_empty, code_exact, o_key_data_to_key_range.
  destruct (final_loop _ _ _ _). auto.
Qed.

(* Every key that satisfies all conditions is in the range. *)
Theorem C39_complete : forall fs cs cur t,
  well_formed fs cs -> (forall c, In c cs -> same_direction fs c) -> length t = length fs ->
  (forall c, In c (pin (code_prefix fs cs) cur cs) -> satisfies t c) ->
  code_empty fs cs cur = false /\ between fs cs cur t.
Proof.
  intros fs cs cur t W U L M. destruct (code_parts fs cs cur) as (E1 & E2 & E3). unfold between. rewrite E1, E2.
  destruct (range_covers fs cs cur (wf_of _ _ W) (uniform_of _ _ U) t L M) as ([A B] & V & F). auto.
Qed.

(* A range reported as exact contains only keys that satisfy all conditions
   (row comparisons aside). *)
Theorem C39_exact_partial : forall fs cs cur t,
  well_formed fs cs -> (forall c, In c cs -> is_row c = false) -> length t = length fs ->
  code_exact fs cs cur = true -> between fs cs cur t ->
  forall c, In c (pin (code_prefix fs cs) cur cs) -> satisfies t c.
Proof.
  intros fs cs cur t W NR L E B. destruct (code_parts fs cs cur) as (E1 & E2 & E3). rewrite E3 in E. unfold between in B. rewrite E1 in B.
  exact (exact_sound fs cs cur (wf_of _ _ W) t L NR E B).
Qed.

(* An empty range is reported only if no key satisfies all conditions. *)
Theorem C39_empty : forall fs cs cur t,
  well_formed fs cs -> (forall c, In c cs -> same_direction fs c) -> length t = length fs ->
  code_empty fs cs cur = true -> exists c, In c (pin (code_prefix fs cs) cur cs) /\ ~ satisfies t c.
Proof.
  intros fs cs cur t W U L E.
  assert (D : forall c, satisfies t c \/ ~ satisfies t c).
  { intros [a op v|a|a|a vs|gt incl subs]; cbn.
    - destruct (column t a) as [x|]; [|right; intros (x & H & _); discriminate].
      assert (holds op x v \/ ~ holds op x v) as [H|H] by (destruct op; cbn; lia); [left; eauto|right; intros (y & Q & G); congruence].
    - destruct (column t a); auto. right. discriminate.
    - destruct (column t a); auto. left. discriminate.
    - destruct (column t a) as [x|]; [|right; intros (x & H & _); discriminate].
      destruct (in_dec Z.eq_dec x vs); [left; eauto|right; intros (y & Q & G); congruence].
    - induction subs as [|[c v] rest IH]; cbn. { destruct incl; auto. }
      destruct (column t c) as [x|]; [|right; intros (x & H & _); discriminate].
      assert ((if gt then x > v else x < v) \/ ~ (if gt then x > v else x < v)) as [H|H] by (destruct gt; lia).
      { left. eauto. }
      destruct (Z.eq_dec x v) as [->|N].
      + destruct IH as [IH|IH]; [left; exists v; auto|right]. intros (y & Q & [G|[_ G]]); injection Q as <-; auto.
      + right. intros (y & Q & [G|[G _]]); injection Q as <-; auto. }
  set (l := pin _ _ _). assert ((exists c, In c l /\ ~ satisfies t c) \/ (forall c, In c l -> satisfies t c)) as [H|H]; auto.
  { clear -D. induction l as [|c l IH]; [right; intros c []|]. destruct (D c) as [H|H]; [|left; exists c; split; [left; auto|auto]].
    destruct IH as [(d & I & N)|IH]; [left; exists d; split; [right; auto|auto]|right]. intros d [<-|I]; auto. }
  exfalso. destruct (C39_complete fs cs cur t W U L H). congruence.
Qed.

(* Range and filter together: the scan of one range returns a key of the tree
   iff it satisfies all conditions. *)
Theorem C39_scan_partial : forall fs cs cur t,
  well_formed fs cs -> length t = length fs ->
  (forall c, In c cs -> is_row c = false) \/ ((forall c, In c cs -> same_direction fs c) /\ code_exact fs cs cur = false) ->
  scan_returns fs (map (prep fs) cs) cur t = true <->
  (forall c, In c (pin (code_prefix fs cs) cur cs) -> satisfies t c).
Proof.
  intros fs cs cur t W L H.
  assert (U : forall c, In c cs -> same_direction fs c).
  { destruct H as [H|[H _]]; auto. intros c I. specialize (H c I). destruct c; try discriminate; exact Logic.I. }
  destruct (code_parts fs cs cur) as (E1 & E2 & E3).
  unfold scan_returns. change (o_get_num_prefix_exact_keys (map (prep fs) cs)) with (code_prefix fs cs).
  unfold code_range, code_empty, code_exact in *.
  destruct (o_key_data_to_key_range fs (code_prefix fs cs) cur (map (prep fs) cs)) as [[r em] ex]. cbn [fst snd] in *.
  assert (SL : forall j, shl (r_low r j)) by (intros; rewrite E1; apply (r_shl fs cs cur (wf_of _ _ W))).
  assert (SH : forall j, shh (r_high r j)) by (intros; rewrite E1; apply (r_shh fs cs cur (wf_of _ _ W))).
  assert (CL : (o_idx_cmp_key_bound_to_tuple fs (length fs) false KBound (low_bound fs r) t <=? 0) = true <-> above fs (map plain (low_bound fs r)) t).
  { rewrite <- above_code; auto.
    - unfold o_idx_cmp_key_bound_to_tuple. rewrite firstn_all. destruct (_ =? 0) eqn:Q; lia.
    - unfold low_bound. apply Forall_forall. intros b I. apply in_map_iff in I. destruct I as (j & <- & _). apply SL.
    - unfold low_bound. rewrite map_length, seq_length. auto. }
  assert (CH : (o_idx_cmp_key_bound_to_tuple fs (length fs) false KBound (high_bound fs r) t >=? 0) = true <-> below fs (map plain (high_bound fs r)) t).
  { rewrite <- below_code; auto.
    - unfold o_idx_cmp_key_bound_to_tuple. rewrite firstn_all. destruct (_ =? 0) eqn:Q; lia.
    - unfold high_bound. apply Forall_forall. intros b I. apply in_map_iff in I. destruct I as (j & <- & _). apply SH.
    - unfold high_bound. rewrite map_length, seq_length. auto. }
  split.
  - destruct em; [discriminate|]. intros G. rewrite !andb_true_iff in G. destruct G as ((G1 & G2) & G3).
    apply CL in G1. apply CH in G2. apply orb_true_iff in G3.
    assert (IR : in_range fs cs cur t). { unfold in_range. fold (code_prefix fs cs). rewrite <- E1. auto. }
    destruct ex eqn:EX.
    + destruct H as [NR|[_ H]]; [|congruence].
      refine (exact_sound fs cs cur (wf_of _ _ W) t L NR _ IR). auto.
    + destruct G3 as [G3|G3]; [discriminate|].
      refine (range_sound fs cs cur (wf_of _ _ W) (uniform_of _ _ U) t L IR _). fold (code_prefix fs cs). rewrite <- E1. auto.
  - intros M. destruct (range_covers fs cs cur (wf_of _ _ W) (uniform_of _ _ U) t L M) as ([A B] & V & F).
    fold (code_prefix fs cs) in *. rewrite <- E1 in *. rewrite E2, F. rewrite V, orb_true_r, andb_true_r.
    apply andb_true_iff. split; [apply CL; auto|apply CH; auto].
Qed.

(* Going through the elements of the leading lists reaches every key: the
   conditions hold iff they hold for some choice of elements. *)
Theorem C39_lists : forall fs cs t, well_formed fs cs ->
  (forall c, In c cs -> satisfies t c) <->
  exists cur, (forall a vs, In (CIn a vs) cs -> (cur a < length vs)%nat) /\ forall c, In c (pin (code_prefix fs cs) cur cs) -> satisfies t c.
Proof.
  intros fs cs t W. set (p := code_prefix fs cs). split.
  - intros H.
    set (pos := fix pos x (vs : list Z) : nat := match vs with [] => 0%nat | v :: vs' => if x =? v then 0%nat else Datatypes.S (pos x vs') end).
    assert (PS : forall x vs, In x vs -> (pos x vs < length vs)%nat /\ nth (pos x vs) vs 0 = x).
    { intros x vs. induction vs as [|v vs IH]; intros I; [destruct I|]. cbn. destruct (x =? v) eqn:E.
      - split; [lia|lia].
      - destruct I as [I|I]; [lia|]. destruct (IH I). split; [lia|auto]. }
    set (arr := fun a => match find (fun c => match c with CIn b _ => Nat.eqb a b | _ => false end) cs with Some (CIn _ vs) => vs | _ => [] end).
    exists (fun a => pos (match column t a with Some x => x | None => 0 end) (arr a)).
    assert (AR : forall a vs, In (CIn a vs) cs -> arr a = vs).
    { intros a vs I. unfold arr. destruct (find _ cs) as [d|] eqn:F.
      - destruct (find_some _ _ F) as [I2 B]. destruct d; try discriminate. apply Nat.eqb_eq in B. subst col.
        (* two lists on one column are the same condition *)
        destruct (In_nth_error _ _ I) as [m Em], (In_nth_error _ _ I2) as [n En].
        assert (Q : forall (l : list cond) m n c d, ForallOrdPairs (fun c d => pins c = true \/ pins d = true -> is_row c = false -> is_row d = false -> cond_col c <> cond_col d) l ->
            nth_error l m = Some c -> nth_error l n = Some d -> (m < n)%nat -> pins c = true -> is_row c = false -> is_row d = false -> cond_col c <> cond_col d).
        { clear. induction l as [|e l IH]; intros [|m] [|n] c d FO Em En Lt P1 R1 R2; cbn in *; try discriminate; try lia;
            inversion FO as [|? ? F1 F2]; subst; rewrite Forall_forall in F1.
          - injection Em as ->. apply F1; auto. eapply nth_error_In; eauto.
          - eapply (IH m n); eauto. lia. }
        destruct (Nat.lt_trichotomy m n) as [G|[G|G]].
        + exfalso. apply (Q cs m n _ _ (w_alone _ _ W) Em En G); auto.
        + subst n. congruence.
        + exfalso. apply (Q cs n m _ _ (w_alone _ _ W) En Em G); auto.
      - exfalso. pose proof (find_none _ _ F _ I) as G. cbn in G. rewrite Nat.eqb_refl in G. discriminate. }
    split.
    + intros a vs I. rewrite (AR a vs I). destruct (H _ I) as (x & -> & J). apply PS; auto.
    + intros c' I. apply pin_from_nth in I. destruct I as (j & c & E & ->). pose proof (nth_error_In _ _ E) as I.
      specialize (H c I). destruct c; auto. cbn [Nat.add]. destruct (Nat.ltb j p); auto.
      cbn. destruct H as (x & EX & J). rewrite (AR _ _ I), EX. exists x. split; auto. symmetry. apply PS; auto.
  - intros (cur & B & M) c I. destruct (In_nth_error _ _ I) as [j E].
    assert (G : satisfies t (match c with CIn col vs => if Nat.ltb (0 + j) p then CCmp col OEq (nth (cur col) vs 0) else c | _ => c end)).
    { apply M. apply pin_from_nth. exists j, c. auto. }
    destruct c as [| | |a vs|]; auto. destruct (Nat.ltb (0 + j) p); auto. destruct G as (x & EX & ->). exists (nth (cur a) vs 0). split; auto.
    apply nth_In. apply (B a vs I).
Qed.

(* Moving on to other elements: the range updated in place is the range made
   from scratch. *)
Arguments updn : simpl never.
Arguments Nat.ltb : simpl never.
Lemma updn_same {A} (g : nat -> A) i a : updn g i a i = a.
Proof. unfold updn. rewrite Nat.eqb_refl. auto. Qed.
Lemma updn_other {A} (g : nat -> A) i j a : j <> i -> updn g i a j = g j.
Proof. intros. unfold updn. destruct (Nat.eqb_spec j i); congruence. Qed.

Lemma update_other fs p cur cs : forall i r a, (forall c, In c cs -> is_row c = true \/ pins c = false \/ cond_col c <> a) ->
  r_low (update_loop p cur i (map (prep fs) cs) r) a = r_low r a /\ r_high (update_loop p cur i (map (prep fs) cs) r) a = r_high r a.
Proof.
  induction cs as [|c cs IH]; intros i r a H; cbn [map update_loop]; auto.
  set (r' := match sk_arg (prep fs c) with AArray _ => _ | _ => _ end).
  destruct (IH (Datatypes.S i) r' a ltac:(intros; apply H; right; auto)) as [-> ->].
  unfold r'. specialize (H c (or_introl eq_refl)). destruct c as [| | |b vs|]; cbn; auto.
  destruct (Nat.ltb i p); auto. cbn. destruct H as [H|[H|H]]; try discriminate. cbn in H.
  rewrite !updn_other by auto. auto.
Qed.

Theorem C39_update : forall fs cs cur cur', well_formed fs cs ->
  let p := code_prefix fs cs in
  let r := code_range fs cs cur in
  let r' := o_key_data_update_array_key_range p cur' (map (prep fs) cs) r in
  forall a, plain (r_low r' a) = plain (r_low (code_range fs cs cur') a) /\ plain (r_high r' a) = plain (r_high (code_range fs cs cur') a).
Proof.
  intros fs cs cur cur' W. cbn zeta. pose proof (wf_of _ _ W) as WF.
  destruct (code_parts fs cs cur) as (-> & _ & _). destruct (code_parts fs cs cur') as (-> & _ & _).
  set (p := code_prefix fs cs). unfold o_key_data_update_array_key_range.
  assert (PB : (p <= length cs)%nat).
  { unfold p, code_prefix, o_get_num_prefix_exact_keys. generalize 0%nat. clear. induction cs as [|c cs IH]; intros k; cbn; [lia|].
    destruct (_ && _); [|lia]. specialize (IH (Datatypes.S k)). lia. }
  intros a.
  (* is the column one of a leading list? *)
  assert (D : (exists j vs, nth_error cs j = Some (CIn a vs) /\ (j < p)%nat) \/ (forall j vs, nth_error cs j = Some (CIn a vs) -> (p <= j)%nat)).
  { clear -p. revert p. generalize (code_prefix fs cs). clear. induction cs as [|c cs IH]; intros p.
    - right. intros j vs E. destruct j; discriminate.
    - destruct p as [|p]; [right; intros; lia|]. destruct (IH p) as [(j & vs & E & L)|H].
      + left. exists (Datatypes.S j), vs. split; [auto|lia].
      + destruct c as [| | |b vs|].
        4:{ destruct (Nat.eq_dec a b) as [<-|N]; [left; exists 0%nat, vs; split; [auto|lia]|]. right. intros [|j] ws E; cbn in E; [congruence|]. specialize (H j ws E). lia. }
        all: right; intros [|j] ws E; cbn in E; [congruence|]; specialize (H j ws E); lia. }
  assert (KL : forall cu j vs, nth_error cs j = Some (CIn a vs) -> (j < p)%nat ->
      r_low (keys_loop fs p cu 0 (map (prep fs) cs) r_init) a = eqlow (nth (cu a) vs 0) /\
      r_high (keys_loop fs p cu 0 (map (prep fs) cs) r_init) a = eqhigh (nth (cu a) vs 0)).
  { intros cu j vs E L. destruct (lone_pinned fs p cu cs 0 r_init j (CIn a vs) (wf_apart _ _ WF) E eq_refl L eq_refl eq_refl) as [R1 R2].
    cbn zeta in R1, R2. unfold att in R1, R2. cbn [prep sk_att] in R1, R2. rewrite R1, R2.
    unfold clow, chigh. cbn [prep sk_att sk_arg Nat.add]. replace (Nat.ltb j p) with true by (symmetry; apply Nat.ltb_lt; auto). auto. }
  destruct D as [(j & vs & E & L)|D].
  - destruct (KL cur' j vs E L) as [-> ->].
    assert (U : forall l i r j, ForallOrdPairs (apart fs) l -> nth_error l j = Some (CIn a vs) -> (i + j < p)%nat ->
       r_low (update_loop p cur' i (map (prep fs) l) r) a = o_fill true (nth (cur' a) vs 0) (r_low r a) /\
       r_high (update_loop p cur' i (map (prep fs) l) r) a = o_fill true (nth (cur' a) vs 0) (r_high r a)).
    { clear. induction l as [|c l IH]; intros i r [|j] FO E L; cbn in E; try discriminate; inversion FO as [|? ? F1 F2]; subst; rewrite Forall_forall in F1; cbn [map update_loop].
      - injection E as ->.
        match goal with |- context [update_loop p cur' (Datatypes.S i) _ ?x] => destruct (update_other fs p cur' l (Datatypes.S i) x a) as [-> ->] end.
        { intros c I. destruct (is_row c) eqn:R; auto. right. right. rewrite <- (att_col fs). intros EE. apply (F1 c I); auto. }
        cbn. replace (Nat.ltb i p) with true by (symmetry; apply Nat.ltb_lt; lia). cbn. rewrite !updn_same. auto.
      - rewrite Nat.add_succ_r in L.
        match goal with |- context [update_loop p cur' (Datatypes.S i) _ ?x] => destruct (IH (Datatypes.S i) x j F2 E ltac:(lia)) as [-> ->]; assert (r_low x a = r_low r a /\ r_high x a = r_high r a) as [-> ->]; auto end.
        pose proof (F1 _ (nth_error_In _ _ E)) as AP. unfold apart in AP. rewrite !att_col in AP.
        destruct c as [| | |b ws|]; cbn; auto. destruct (Nat.ltb i p); auto. cbn. rewrite !updn_other; auto; intros ->; apply AP; auto. }
    destruct (U cs 0%nat (keys_loop fs p cur 0 (map (prep fs) cs) r_init) j (wf_apart _ _ WF) E L) as [-> ->].
    destruct (KL cur j vs E L) as [-> ->]. auto.
  - (* not touched by the update; and its bounds do not depend on the elements *)
    assert (U : forall l i r, (forall j vs, nth_error l j = Some (CIn a vs) -> (p <= i + j)%nat) ->
       r_low (update_loop p cur' i (map (prep fs) l) r) a = r_low r a /\ r_high (update_loop p cur' i (map (prep fs) l) r) a = r_high r a).
    { clear. induction l as [|c l IH]; intros i r H; cbn [map update_loop]; auto.
      match goal with |- context [update_loop p cur' (Datatypes.S i) _ ?x] => destruct (IH (Datatypes.S i) x) as [-> ->] end.
      { intros j vs E. specialize (H (Datatypes.S j) vs E). lia. }
      destruct c as [| | |b ws|]; cbn; auto. destruct (Nat.ltb i p) eqn:LT; auto. apply Nat.ltb_lt in LT. cbn.
      destruct (Nat.eq_dec a b) as [<-|N]; [specialize (H 0%nat ws eq_refl); lia|]. rewrite !updn_other by auto. auto. }
    destruct (U cs 0%nat (keys_loop fs p cur 0 (map (prep fs) cs) r_init) D) as [-> ->].
    assert (K : forall l i r r', (forall j vs, nth_error l j = Some (CIn a vs) -> (p <= i + j)%nat) ->
       r_low r a = r_low r' a -> r_high r a = r_high r' a ->
       r_low (keys_loop fs p cur i (map (prep fs) l) r) a = r_low (keys_loop fs p cur' i (map (prep fs) l) r') a /\
       r_high (keys_loop fs p cur i (map (prep fs) l) r) a = r_high (keys_loop fs p cur' i (map (prep fs) l) r') a).
    { clear. induction l as [|c l IH]; intros i r r' H E1 E2; cbn [map keys_loop]; auto.
      assert (ST : r_low (key_step fs p cur r i (prep fs c)) a = r_low (key_step fs p cur' r' i (prep fs c)) a /\
                   r_high (key_step fs p cur r i (prep fs c)) a = r_high (key_step fs p cur' r' i (prep fs c)) a).
      { destruct (Nat.eq_dec (att fs c) a) as [EA|N].
        2:{ destruct (key_step_other fs p cur r i c a (or_intror N)) as [-> ->]. destruct (key_step_other fs p cur' r' i c a (or_intror N)) as [-> ->]. auto. }
        destruct (is_row c) eqn:R.
        { destruct (key_step_other fs p cur r i c a (or_introl R)) as [-> ->]. destruct (key_step_other fs p cur' r' i c a (or_introl R)) as [-> ->]. auto. }
        destruct (is_arr c) eqn:A.
        - destruct c as [| | |b ws|]; try discriminate. unfold att in EA. cbn in EA. subst b.
          specialize (H 0%nat ws eq_refl). unfold key_step. cbn [prep sk_att sk_arg].
          replace (Nat.ltb i p) with false by (symmetry; apply Nat.ltb_ge; lia).
          assert (o_key_range_is_unbounded r a = o_key_range_is_unbounded r' a) as <- by (unfold o_key_range_is_unbounded; rewrite E1, E2; auto).
          destruct (o_key_range_is_unbounded r a); cbn; rewrite ?updn_same; auto.
        - rewrite !key_step_plain by auto. cbn [r_low r_high]. rewrite EA, E1, E2.
          assert (clow fs p cur i c = clow fs p cur' i c /\ chigh fs p cur i c = chigh fs p cur' i c) as [-> ->].
          { destruct c; try discriminate; split; reflexivity. }
          split; [destruct (_ >=? 0)|destruct (_ <=? 0)]; rewrite ?updn_same; auto. }
      destruct ST as [S1 S2]. apply IH; auto. intros j vs E. specialize (H (Datatypes.S j) vs E). lia. }
    destruct (K cs 0%nat r_init r_init D eq_refl eq_refl) as [-> ->]. auto.
Qed.

(* ---- the hypotheses are met ---- *)

(* a IN (1, 3) AND b > 5 AND c IS NOT NULL AND (b, b) < (9, 0); b is descending
   with NULLs first. *)
Definition e_fs : list fld := [mkF true false; mkF false true; mkF true false].
Definition e_cs : list cond := [CIn 0 [1; 3]; CCmp 1 OGt 5; CNotNull 2; CRow false false [(1%nat, 9); (1%nat, 0)]].
Example C39_example :
  well_formed e_fs e_cs /\ (forall c, In c e_cs -> same_direction e_fs c) /\
  code_prefix e_fs e_cs = 1%nat /\ code_exact e_fs e_cs (fun _ => 1%nat) = false /\ code_empty e_fs e_cs (fun _ => 1%nat) = false /\
  map (scan_returns e_fs (map (prep e_fs) e_cs) (fun _ => 1%nat))
    [[Some 3; Some 7; Some 0]; [Some 1; Some 7; Some 0]; [Some 3; Some 5; Some 0]; [Some 3; None; Some 0]; [Some 3; Some 7; None]; [Some 3; Some 9; Some 0]]
  = [true; false; false; false; false; false].
Proof.
  split.
  { constructor.
    - repeat constructor; cbn; intros; try discriminate; try lia.
    - intros c [<-|[<-|[<-|[<-|[]]]]]; cbn; lia.
    - intros a vs [E|[E|[E|[E|[]]]]]; try discriminate. injection E as <- <-. split; [discriminate|]. cbn. intros i j H.
      assert (i = 0%nat /\ j = 1%nat) as [-> ->] by lia. cbn. lia.
    - intros gt incl subs [E|[E|[E|[E|[]]]]]; try discriminate. injection E as <- <- <-. discriminate. }
  split. { intros c [<-|[<-|[<-|[<-|[]]]]]; cbn; auto. intros a v [E|[E|[]]]; injection E as <- _; reflexivity. }
  vm_compute. repeat split.
Qed.
(* an exact one and an empty one *)
Example C39_example_exact :
  let fs := [mkF true false; mkF false false] in
  code_exact fs [CCmp 0 OEq 4; CIn 1 [7]] (fun _ => 0%nat) = true /\
  code_empty fs [CCmp 0 OGt 4; CCmp 0 OLt 2] (fun _ => 0%nat) = true /\
  code_empty fs [CNull 1; CNotNull 1] (fun _ => 0%nat) = true.
Proof. vm_compute. repeat split. Qed.

(* ---- where it fails ---- *)

(* A row comparison over columns of different directions, (a, b) > (1, 2) with
   b descending: (1, 5) satisfies it and is not returned, (1, 0) does not and is. *)
Theorem C39_refuted_mixed_row : exists fs cs t t',
  well_formed fs cs /\ length t = length fs /\ length t' = length fs /\
  (forall c, In c cs -> satisfies t c) /\ scan_returns fs (map (prep fs) cs) (fun _ => 0%nat) t = false /\
  (exists c, In c cs /\ ~ satisfies t' c) /\ scan_returns fs (map (prep fs) cs) (fun _ => 0%nat) t' = true.
Proof.
  exists [mkF true false; mkF false false], [CRow true false [(0%nat, 1); (1%nat, 2)]], [Some 1; Some 5], [Some 1; Some 0].
  split.
  { constructor.
    - repeat constructor.
    - intros c [<-|[]]; discriminate.
    - intros a vs [E|[]]; discriminate.
    - intros gt incl subs [E|[]]. injection E as <- <- <-. discriminate. }
  split; [reflexivity|]. split; [reflexivity|].
  split. { intros c [<-|[]]. cbn. exists 1. split; [auto|]. right. split; [auto|]. exists 5. split; [auto|]. left. lia. }
  split; [vm_compute; reflexivity|].
  split; [|vm_compute; reflexivity].
  eexists. split; [left; reflexivity|]. cbn. intros (x & E & H). injection E as <-. destruct H as [H|[_ (y & E & H)]]; [lia|].
  injection E as <-. destruct H as [H|[H _]]; lia.
Qed.

(* A row comparison beside equalities on all columns is not checked:
   a = 1 AND b = 2 AND (a, b) > (3, 4) returns (1, 2). *)
Theorem C39_refuted_row_exact : exists fs cs t,
  well_formed fs cs /\ (forall c, In c cs -> same_direction fs c) /\ length t = length fs /\
  (exists c, In c cs /\ ~ satisfies t c) /\ scan_returns fs (map (prep fs) cs) (fun _ => 0%nat) t = true.
Proof.
  exists [mkF true false; mkF true false], [CCmp 0 OEq 1; CCmp 1 OEq 2; CRow true false [(0%nat, 3); (1%nat, 4)]], [Some 1; Some 2].
  split.
  { constructor.
    - repeat constructor; cbn; intros; try discriminate; try lia.
    - intros c [<-|[<-|[<-|[]]]]; cbn; lia.
    - intros a vs [E|[E|[E|[]]]]; discriminate.
    - intros gt incl subs [E|[E|[E|[]]]]; try discriminate. injection E as <- <- <-. discriminate. }
  split. { intros c [<-|[<-|[<-|[]]]]; cbn; auto. intros a v [E|[E|[]]]; injection E as <- _; reflexivity. }
  split; [reflexivity|]. split; [|vm_compute; reflexivity].
  eexists. split; [right; right; left; reflexivity|]. cbn. intros (x & E & H). injection E as <-. destruct H as [H|[H _]]; lia.
Qed.

Print Assumptions C39_complete.
Print Assumptions C39_exact_partial.
Print Assumptions C39_empty.
Print Assumptions C39_scan_partial.
Print Assumptions C39_lists.
Print Assumptions C39_update.
Print Assumptions C39_refuted_mixed_row.
Print Assumptions C39_refuted_row_exact.
