(** Invariants of the rewind queue. *)
From Coq Require Import ZArith List Bool Lia.
From Coq Require Import ZifyBool.
From Verif Require Import Base RewindModel RewindSpec.
Import ListNotations.
Open Scope Z_scope.

Lemma LEN_val : LEN = 68. Proof. reflexivity. Qed.

Lemma nitems_pos : forall t, 1 <= nitems t.
Proof.
  intros t. unfold nitems, SUBS.
  destruct (Z.of_nat (length (t_subs t)) =? 0) eqn:E; [lia|].
  pose proof (Z.div_pos (Z.of_nat (length (t_subs t)) - 1) 25). lia.
Qed.

Lemma mod_inj : forall n a b e, 0 < n -> e <= a < e + n -> e <= b < e + n -> a mod n = b mod n -> a = b.
Proof.
  intros n a b e Hn Ha Hb E.
  pose proof (Z.div_mod a n ltac:(lia)). pose proof (Z.div_mod b n ltac:(lia)).
  assert (n * (a / n - b / n) = a - b) by nia.
  assert (a / n - b / n = 0) by nia. nia.
Qed.

Lemma mod_step : forall n a, 0 < n -> (a + n) mod n = a mod n.
Proof. intros n a H. replace (a + n) with (a + 1 * n) by lia. apply Z.mod_add. lia. Qed.

(** The transactions in the queue follow one another without gaps. *)
Fixpoint chain (from : Z) (l : list (Z * tx)) (upto : Z) : Prop :=
  match l with
  | [] => from = upto
  | x :: r => fst x = from /\ chain (from + nitems (snd x)) r upto
  end.

Lemma chain_le : forall l a b, chain a l b -> a <= b.
Proof.
  induction l as [|x l IH]; intros a b H; cbn in H; [lia|].
  destruct H as [H1 H2]. apply IH in H2. pose proof (nitems_pos (snd x)). lia.
Qed.

Lemma chain_snoc : forall l a b t, chain a l b -> chain a (l ++ [(b, t)]) (b + nitems t).
Proof.
  induction l as [|x l IH]; intros a b t H; cbn in *.
  - subst. split; reflexivity.
  - destruct H as [H1 H2]. split; [exact H1|]. apply IH. exact H2.
Qed.

Lemma chain_in : forall l a b x, chain a l b -> In x l ->
  a <= fst x /\ fst x + nitems (snd x) <= b.
Proof.
  induction l as [|y l IH]; intros a b x H Hi; [inversion Hi|].
  destruct H as [H1 H2]. pose proof (chain_le _ _ _ H2). destruct Hi as [E|Hi].
  - subst y. lia.
  - pose proof (nitems_pos (snd y)). specialize (IH _ _ _ H2 Hi). lia.
Qed.

Lemma chain_disjoint : forall l a b x y, chain a l b -> In x l -> In y l -> fst x <> fst y ->
  fst x + nitems (snd x) <= fst y \/ fst y + nitems (snd y) <= fst x.
Proof.
  induction l as [|z l IH]; intros a b x y H Hx Hy N; [inversion Hx|].
  destruct H as [H1 H2].
  destruct Hx as [Ex|Hx]; destruct Hy as [Ey|Hy].
  - subst. contradiction.
  - subst z. pose proof (chain_in _ _ _ _ H2 Hy). lia.
  - subst z. pose proof (chain_in _ _ _ _ H2 Hx). lia.
  - exact (IH _ _ _ _ H2 Hx Hy N).
Qed.

Lemma chain_same : forall l a b x y, chain a l b -> In x l -> In y l -> fst x = fst y -> x = y.
Proof.
  induction l as [|z l IH]; intros a b x y H Hx Hy N; [inversion Hx|].
  destruct H as [H1 H2]. pose proof (nitems_pos (snd z)).
  destruct Hx as [Ex|Hx]; destruct Hy as [Ey|Hy].
  - congruence.
  - subst z. pose proof (chain_in _ _ _ _ H2 Hy). lia.
  - subst z. pose proof (chain_in _ _ _ _ H2 Hx). lia.
  - exact (IH _ _ _ _ H2 Hx Hy N).
Qed.

Lemma chain_find : forall l a b p, chain a l b -> a <= p < b ->
  exists x, In x l /\ fst x <= p < fst x + nitems (snd x).
Proof.
  induction l as [|x l IH]; intros a b p H Hp; cbn in H; [lia|].
  destruct H as [H1 H2].
  destruct (Z_lt_le_dec p (a + nitems (snd x))) as [L|L].
  - exists x. split; [left; reflexivity|lia].
  - destruct (IH _ _ p H2 ltac:(lia)) as [y [Y1 Y2]]. exists y. split; [right; exact Y1|exact Y2].
Qed.

(** ** Where the items are *)
Record qok (n : Z) (add comp disk hist : Z -> item) (af e r c : Z) : Prop := {
  qo1 : 0 <= c; qo2 : c <= r; qo3 : r <= e; qo4 : e <= af; qo5 : r - c <= n;
  qo7 : (e - r) mod LEN = 0;
  qfill : forall p, 0 <= p < af -> hist p <> Empty;
  qlim : forall p, hist p <> Empty -> 0 <= p <= e + n - 2;
  qadd : forall p, e <= p < e + n -> add (p mod n) = hist p;
  qdisk : forall p, r <= p < e -> disk p = hist p;
  qcomp : forall p, c <= p < r -> comp (p mod n) = hist p
}.

Section Queue.
Variable n : Z.
Hypothesis Hn : LEN <= n.

Lemma n_pos : 0 < n. Proof. rewrite LEN_val in Hn. lia. Qed.

Lemma qok_af : forall add comp disk hist af e r c,
  qok n add comp disk hist af e r c -> af <= e + n - 1.
Proof.
  intros add comp disk hist af e r c Q. pose proof n_pos.
  destruct (Z_le_gt_dec af (e + n - 1)) as [L|L]; [exact L|exfalso].
  pose proof (qo1 _ _ _ _ _ _ _ _ _ Q). pose proof (qo2 _ _ _ _ _ _ _ _ _ Q). pose proof (qo3 _ _ _ _ _ _ _ _ _ Q).
  pose proof (qfill _ _ _ _ _ _ _ _ _ Q (e + n - 1) ltac:(lia)) as F.
  apply (qlim _ _ _ _ _ _ _ _ _ Q) in F. lia.
Qed.

(** Moving one item between the rings. *)
Lemma qok_move : forall add comp disk hist af e c,
  qok n add comp disk hist af e e c -> e - c < n -> e < af ->
  qok n (upd add (e mod n) Empty) (upd comp (e mod n) (add (e mod n))) disk hist af (e + 1) (e + 1) c.
Proof.
  intros add comp disk hist af e c Q H1 H2. pose proof n_pos as NP.
  destruct Q as [Q1 Q2 Q3 Q4 Q5 Q7 QF QL QA QD QC].
  assert (QL' : forall p, hist p <> Empty -> 0 <= p <= e + 1 + n - 2).
  { intros p Hp. apply QL in Hp. lia. }
  constructor; try assumption; try lia.
  - rewrite Z.sub_diag. reflexivity.
  - intros p Hp. unfold upd. destruct (p mod n =? e mod n) eqn:E.
    + assert (p = e + n).
      { apply Z.eqb_eq in E. destruct (Z.eq_dec p (e + n)) as [|Ne]; [assumption|exfalso].
        pose proof (mod_inj n p e e NP ltac:(lia) ltac:(lia) E). lia. }
      subst p. destruct (hist (e + n)) eqn:Hh; [reflexivity| |]; exfalso;
        assert (hist (e + n) <> Empty) as F by congruence; apply QL in F; lia.
    + apply QA. destruct (Z.eq_dec p (e + n)) as [Ne|]; [|lia].
      subst p. rewrite mod_step in E by lia. rewrite Z.eqb_refl in E. discriminate.
  - intros p Hp. unfold upd. destruct (p mod n =? e mod n) eqn:E.
    + apply Z.eqb_eq in E. rewrite (mod_inj n p e c NP ltac:(lia) ltac:(lia) E).
      apply QA. lia.
    + apply QC. destruct (Z.eq_dec p e) as [Ne|]; [subst; rewrite Z.eqb_refl in E; discriminate|lia].
Qed.

(** Reading a block back from the file. *)
Lemma qok_read : forall add comp disk hist af e r c,
  qok n add comp disk hist af e r c -> r < e -> LEN <= n - (r - c) ->
  let start := r mod n in
  let to_end := n - start in
  qok n add
    (if to_end <? LEN then
       read_range disk (read_range disk comp start r to_end) 0 (r + to_end) (LEN - to_end)
     else read_range disk comp start r LEN) disk hist af e (r + LEN) c.
Proof.
  intros add comp disk hist af e r c Q H1 H2 start to_end. pose proof n_pos as NP.
  destruct Q as [Q1 Q2 Q3 Q4 Q5 Q7 QF QL QA QD QC].
  assert (Hge : r + LEN <= e).
  { rewrite LEN_val in *. pose proof (Z.div_mod (e - r) 68 ltac:(lia)). lia. }
  assert (HL : LEN = 68) by reflexivity.
  pose proof (Z.mod_pos_bound r n NP) as Hs. fold start in Hs.
  assert (C : forall p, c <= p < r + LEN ->
    (if to_end <? LEN then
       read_range disk (read_range disk comp start r to_end) 0 (r + to_end) (LEN - to_end)
     else read_range disk comp start r LEN) (p mod n) = if p <? r then comp (p mod n) else disk p).
  { intros p Hp. pose proof (Z.mod_pos_bound p n NP) as Hx.
    (* the cell of position p relative to the cell of r *)
    assert (Cell : r <= p -> p mod n = if start + (p - r) <? n then start + (p - r) else start + (p - r) - n).
    { intros Hr. unfold start. destruct (r mod n + (p - r) <? n) eqn:E.
      - symmetry. apply (Z.mod_unique_pos _ _ (r / n)); [lia|].
        pose proof (Z.div_mod r n ltac:(lia)). lia.
      - symmetry. apply (Z.mod_unique_pos _ _ (r / n + 1)); [lia|].
        pose proof (Z.div_mod r n ltac:(lia)). nia. }
    assert (Old : p < r -> start + LEN <= p mod n + (if p mod n <? start then n else 0)
                          /\ p mod n <> start).
    { intros Hr.
      assert (Hc2 : p mod n = if start - (r - p) >=? 0 then start - (r - p) else start - (r - p) + n).
      { unfold start. destruct (r mod n - (r - p) >=? 0) eqn:E.
        - symmetry. apply (Z.mod_unique_pos _ _ (r / n)); [lia|].
          pose proof (Z.div_mod r n ltac:(lia)). lia.
        - symmetry. apply (Z.mod_unique_pos _ _ (r / n - 1)); [lia|].
          pose proof (Z.div_mod r n ltac:(lia)). nia. }
      rewrite Hc2. destruct (start - (r - p) >=? 0) eqn:E.
      - destruct (start - (r - p) <? start) eqn:E2; lia.
      - destruct (start - (r - p) + n <? start) eqn:E2; lia. }
    destruct (p <? r) eqn:Epr.
    - specialize (Old ltac:(lia)). destruct Old as [O1 O2]. unfold read_range.
      destruct (to_end <? LEN) eqn:Et.
      + destruct ((0 <=? p mod n) && (p mod n <? 0 + (LEN - to_end))) eqn:Ea.
        { destruct (p mod n <? start) eqn:Eb; lia. }
        destruct ((start <=? p mod n) && (p mod n <? start + to_end)) eqn:Eb; [|reflexivity].
        destruct (p mod n <? start) eqn:Ec; lia.
      + destruct ((start <=? p mod n) && (p mod n <? start + LEN)) eqn:Eb; [|reflexivity].
        destruct (p mod n <? start) eqn:Ec; lia.
    - specialize (Cell ltac:(lia)). unfold read_range. rewrite Cell.
      destruct (start + (p - r) <? n) eqn:E.
      + destruct (to_end <? LEN) eqn:Et.
        * replace ((0 <=? start + (p - r)) && (start + (p - r) <? 0 + (LEN - to_end))) with false by lia.
          replace ((start <=? start + (p - r)) && (start + (p - r) <? start + to_end)) with true by lia.
          f_equal. lia.
        * replace ((start <=? start + (p - r)) && (start + (p - r) <? start + LEN)) with true by lia.
          f_equal. lia.
      + replace (to_end <? LEN) with true by lia.
        replace ((0 <=? start + (p - r) - n) && (start + (p - r) - n <? 0 + (LEN - to_end))) with true by lia.
        f_equal. lia. }
  constructor; try assumption; try lia.
  - intros p Hp. apply QD. lia.
  - intros p Hp. rewrite (C p Hp). destruct (p <? r) eqn:E; [apply QC; lia|apply QD; lia].
Qed.

(** Removing dead blocks. *)
Lemma qok_punch : forall add comp disk hist af e r c,
  qok n add comp disk hist af e r c ->
  qok n add comp (fun p => if p * SZ <? (r * SZ / BLK - 1 + 1) * BLK then Empty else disk p) hist af e r c.
Proof.
  intros add comp disk hist af e r c Q.
  destruct Q as [Q1 Q2 Q3 Q4 Q5 Q7 QF QL QA QD QC].
  constructor; try assumption.
  intros p Hp. replace (p * SZ <? (r * SZ / BLK - 1 + 1) * BLK) with false; [apply QD; exact Hp|].
  symmetry. apply Z.ltb_ge. unfold SZ, BLK.
  pose proof (Z.mul_div_le (r * 120) 8192 ltac:(lia)). lia.
Qed.

(** Writing a block to the file. *)
Lemma qok_write : forall add comp disk hist af e r c cf,
  c_n cf = n ->
  qok n add comp disk hist af e r c -> e + LEN <= af ->
  let start := e mod n in
  let to_end := n - start in
  qok n (clean_range cf add e) comp
    (if to_end <? LEN then
       write_range (write_range disk add start e to_end) add 0 (e + to_end) (LEN - to_end)
     else write_range disk add start e LEN) hist af (e + LEN) r c.
Proof.
  intros add comp disk hist af e r c cf Hcf Q H1 start to_end. pose proof n_pos as NP.
  pose proof (qok_af _ _ _ _ _ _ _ _ Q) as AFl.
  destruct Q as [Q1 Q2 Q3 Q4 Q5 Q7 QF QL QA QD QC].
  assert (HL : LEN = 68) by reflexivity.
  pose proof (Z.mod_pos_bound e n NP) as Hs. fold start in Hs.
  assert (Cell : forall p, e <= p < e + n -> p mod n = if start + (p - e) <? n then start + (p - e) else start + (p - e) - n).
  { intros p Hr. unfold start. destruct (e mod n + (p - e) <? n) eqn:E.
    - symmetry. apply (Z.mod_unique_pos _ _ (e / n)); [lia|].
      pose proof (Z.div_mod e n ltac:(lia)). lia.
    - symmetry. apply (Z.mod_unique_pos _ _ (e / n + 1)); [lia|].
      pose proof (Z.div_mod e n ltac:(lia)). nia. }
  assert (QL' : forall p, hist p <> Empty -> 0 <= p <= e + LEN + n - 2).
  { intros p Hp. apply QL in Hp. lia. }
  constructor; try assumption; try lia.
  - intros p Hp. unfold clean_range. rewrite Hcf.
    pose proof (Z.mod_pos_bound p n NP) as Hx.
    replace ((0 <=? p mod n) && (p mod n <? n)) with true by lia. cbn [andb].
    rewrite Zminus_mod_idemp_l.
    destruct (Z_lt_le_dec p (e + n)) as [L|L].
    + rewrite Z.mod_small by lia. replace (p - e <? LEN) with false by lia. apply QA. lia.
    + replace ((p - e) mod n) with (p - e - n).
      2:{ apply (Z.mod_unique_pos _ _ 1); lia. }
      replace (p - e - n <? LEN) with true by lia.
      destruct (hist p) eqn:Hh; [reflexivity| |]; exfalso;
        assert (hist p <> Empty) as F by congruence; apply QL in F; lia.
  - intros p Hp. destruct (Z_lt_le_dec p e) as [L|L].
    + unfold write_range. destruct (to_end <? LEN) eqn:Et.
      * replace ((e + to_end <=? p) && (p <? e + to_end + (LEN - to_end))) with false by lia.
        replace ((e <=? p) && (p <? e + to_end)) with false by lia. apply QD. lia.
      * replace ((e <=? p) && (p <? e + LEN)) with false by lia. apply QD. lia.
    + rewrite <- (QA p) by lia. rewrite (Cell p) by lia. unfold write_range.
      destruct (to_end <? LEN) eqn:Et.
      * destruct (start + (p - e) <? n) eqn:E.
        -- replace ((e + to_end <=? p) && (p <? e + to_end + (LEN - to_end))) with false by lia.
           replace ((e <=? p) && (p <? e + to_end)) with true by lia. reflexivity.
        -- replace ((e + to_end <=? p) && (p <? e + to_end + (LEN - to_end))) with true by lia.
           f_equal. lia.
      * replace (start + (p - e) <? n) with true by lia.
        replace ((e <=? p) && (p <? e + LEN)) with true by lia. reflexivity.
Qed.

(** Filling an item. *)
Lemma qok_fill : forall add comp disk hist af e r c pos it,
  qok n add comp disk hist af e r c -> hist pos = Empty -> it <> Empty ->
  0 <= pos -> pos <= e + n - 2 -> 
  qok n (upd add (pos mod n) it) comp disk (upd hist pos it) af e r c.
Proof.
  intros add comp disk hist af e r c pos it Q Hh Hi H0 Hl. pose proof n_pos as NP.
  destruct Q as [Q1 Q2 Q3 Q4 Q5 Q7 QF QL QA QD QC].
  assert (Haf : af <= pos).
  { destruct (Z_lt_le_dec pos af) as [L|L]; [|exact L]. exfalso. exact (QF pos ltac:(lia) Hh). }
  assert (O : forall p, p < af -> upd hist pos it p = hist p).
  { intros p Hp. apply upd_other. lia. }
  constructor; try assumption.
  - intros p Hp. rewrite O by lia. apply QF. exact Hp.
  - intros p Hp. unfold upd in Hp. destruct (p =? pos) eqn:E; [lia|]. apply QL. exact Hp.
  - intros p Hp. unfold upd. destruct (p mod n =? pos mod n) eqn:E; destruct (p =? pos) eqn:E2.
    + reflexivity.
    + apply Z.eqb_eq in E. pose proof (mod_inj n p pos e NP ltac:(lia) ltac:(lia) E). lia.
    + apply Z.eqb_eq in E2. subst. rewrite Z.eqb_refl in E. discriminate.
    + apply QA. exact Hp.
  - intros p Hp. rewrite O by lia. apply QD. exact Hp.
  - intros p Hp. rewrite O by lia. apply QC. exact Hp.
Qed.

(** addPosFilledUpto moves over a filled item. *)
Lemma qok_bump : forall add comp disk hist af e r c,
  qok n add comp disk hist af e r c -> hist af <> Empty ->
  qok n add comp disk hist (af + 1) e r c.
Proof.
  intros add comp disk hist af e r c Q H.
  destruct Q as [Q1 Q2 Q3 Q4 Q5 Q7 QF QL QA QD QC].
  constructor; try assumption; try lia.
  intros p Hp. destruct (Z.eq_dec p af) as [E|E]; [subst; exact H|apply QF; lia].
Qed.

(** The worker completes the oldest item. *)
Lemma qok_done : forall add comp disk hist af e r c,
  qok n add comp disk hist af e r c -> c < r ->
  qok n add (upd comp (c mod n) Empty) disk hist af e r (c + 1).
Proof.
  intros add comp disk hist af e r c Q H. pose proof n_pos as NP.
  destruct Q as [Q1 Q2 Q3 Q4 Q5 Q7 QF QL QA QD QC].
  constructor; try assumption; try lia.
  intros p Hp. rewrite upd_other; [apply QC; lia|].
  intros E. pose proof (mod_inj n p c c NP ltac:(lia) ltac:(lia) E). lia.
Qed.

End Queue.

(** [qok] of a state *)
Definition Q (c : cfg) (s : st) : Prop :=
  qok (c_n c) (s_add s) (s_comp s) (s_disk s) (s_hist s) (s_af s) (s_e s) (s_r s) (s_c s).

(** What moving items leaves alone. *)
Definition same (s s' : st) : Prop :=
  s_ar s' = s_ar s /\ s_af s' = s_af s /\ s_c s' = s_c s /\ s_co s' = s_co s /\
  s_procs s' = s_procs s /\ s_wpc s' = s_wpc s /\ s_top s' = s_top s /\ s_live s' = s_live s /\
  s_mpr s' = s_mpr s /\ s_mrr s' = s_mrr s /\ s_db s' = s_db s /\ s_ulog s' = s_ulog s /\
  s_commits s' = s_commits s /\ s_resv s' = s_resv s /\ s_hist s' = s_hist s /\ s_done s' = s_done s.

Lemma same_refl : forall s, same s s.
Proof. intros s. unfold same. intuition. Qed.

Lemma same_trans : forall a b d, same a b -> same b d -> same a d.
Proof. unfold same. intros a b d H1 H2. intuition congruence. Qed.

Lemma fast_ok : forall c fuel upto s, LEN <= c_n c -> Q c s -> upto <= s_af s ->
  Q c (fast_move c fuel upto s) /\ same s (fast_move c fuel upto s)
  /\ s_e s <= s_e (fast_move c fuel upto s) /\ s_r s <= s_r (fast_move c fuel upto s).
Proof.
  intros c fuel. induction fuel as [|f IH]; intros upto s Hn I Hu; cbn [fast_move].
  - split; [exact I|]. split; [apply same_refl|]. lia.
  - destruct ((s_r s =? s_e s) && (s_r s - s_c s <? c_n c) && (s_e s <? upto)) eqn:E.
    2:{ split; [exact I|]. split; [apply same_refl|]. lia. }
    assert (E1 : s_r s = s_e s) by lia.
    match goal with |- context [fast_move c f upto ?x] => set (s1 := x) end.
    assert (Q c s1) as I1.
    { unfold Q, s1. cbn. unfold Q in I. rewrite E1 in *.
      apply (qok_move (c_n c) Hn _ _ _ _ _ _ _ I); lia. }
    destruct (IH upto s1 Hn I1 ltac:(cbn; lia)) as [A [B [D F]]].
    split; [exact A|]. split; [|cbn in D, F; lia].
    eapply same_trans; [|exact B]. unfold same, s1. cbn. intuition.
Qed.

Lemma punch_ok : forall c s, LEN <= c_n c -> Q c s -> Q c (punch s) /\ same s (punch s) /\ s_e (punch s) = s_e s /\ s_r (punch s) = s_r s.
Proof.
  intros c s Hn I. split.
  - unfold Q, punch. cbn. apply (qok_punch (c_n c) Hn). exact I.
  - split; [unfold same, punch; cbn; intuition|]. split; reflexivity.
Qed.

Lemma restore_ok : forall c s, LEN <= c_n c -> Q c s ->
  Q c (restore c s) /\ same s (restore c s) /\ s_e s <= s_e (restore c s) /\ s_r s <= s_r (restore c s)
  /\ (s_c s < s_af s -> s_c s < s_r (restore c s)).
Proof.
  intros c s Hn I. unfold restore.
  match goal with |- context [punch ?x] => set (s1 := x) end.
  assert (H : Q c s1 /\ same s s1 /\ s_e s <= s_e s1 /\ s_r s <= s_r s1 /\ (s_c s < s_af s -> s_c s < s_r s1)).
  { unfold s1. destruct ((s_r s <? s_e s) && (LEN <=? c_n c - (s_r s - s_c s))) eqn:E.
    - split.
      + unfold Q. cbn. apply (qok_read (c_n c) Hn); [exact I|lia|lia].
      + split; [unfold same; cbn; intuition|]. cbn.
        pose proof (qo2 _ _ _ _ _ _ _ _ _ I). lia.
    - destruct (fast_ok c (Z.to_nat (c_n c)) (s_af s) s Hn I ltac:(lia)) as [A [B [D F]]].
      split; [exact A|]. split; [exact B|]. split; [exact D|]. split; [exact F|].
      intros Hc. pose proof (qo2 _ _ _ _ _ _ _ _ _ I) as C1. pose proof (qo3 _ _ _ _ _ _ _ _ _ I) as C2.
      destruct (Z_lt_le_dec (s_c s) (s_r s)) as [L|L]; [lia|].
      assert (s_r s = s_c s) as EC by lia.
      pose proof LEN_val as LV.
      assert (s_r s = s_e s) as ER by lia.
      destruct (Z.to_nat (c_n c)) as [|f] eqn:Ef; [lia|].
      cbn [fast_move].
      replace ((s_r s =? s_e s) && (s_r s - s_c s <? c_n c) && (s_e s <? s_af s)) with true by lia.
      match goal with |- context [fast_move c f _ ?x] => set (s2 := x) end.
      assert (Q c s2) as I2.
      { unfold Q, s2. cbn. unfold Q in I. rewrite ER in *.
        apply (qok_move (c_n c) Hn _ _ _ _ _ _ _ I); lia. }
      destruct (fast_ok c f (s_af s) s2 Hn I2 ltac:(cbn; lia)) as [_ [_ [_ F2]]]. cbn in F2. lia. }
  destruct H as [A [B [D [F G]]]]. destruct (punch_ok c s1 Hn A) as [A1 [B1 [D1 F1]]].
  split; [exact A1|]. split; [eapply same_trans; eassumption|]. rewrite D1, F1. auto.
Qed.

Lemma evict_ok : forall c af s, LEN <= c_n c -> Q c s -> af <= s_af s ->
  Q c (evict c af s) /\ same s (evict c af s) /\ s_e s <= s_e (evict c af s) /\ s_r s <= s_r (evict c af s).
Proof.
  intros c af s Hn I Ha. unfold evict.
  destruct ((s_r s =? s_e s) && (s_r s - s_c s <? c_n c) && (s_e s <=? af)) eqn:E.
  - apply fast_ok; assumption.
  - destruct (s_e s + LEN <? af) eqn:E2.
    + split.
      * unfold Q. cbn. apply (qok_write (c_n c) Hn); [reflexivity|exact I|lia].
      * split; [unfold same; cbn; intuition|]. cbn. lia.
    + split; [exact I|]. split; [apply same_refl|]. lia.
Qed.

(** ** The committing backends *)
Definition pr_ok (n : Z) (hist : Z -> item) (e af : Z) (resv : list (Z * tx)) (pr : proc) : Prop :=
  let a := p_start pr in
  let m := nitems (p_tx pr) in
  match p_pc pr with
  | Idle | Active | Committed => True
  | Space => In (a, p_tx pr) resv /\ (forall j, 0 <= j < m -> hist (a + j) = Empty)
  | SpaceEv free af0 =>
      In (a, p_tx pr) resv /\ (forall j, 0 <= j < m -> hist (a + j) = Empty)
      /\ free <= n - (a + m - e) /\ af0 <= af
  | Fill k =>
      In (a, p_tx pr) resv /\ 0 <= k < m /\ a + m <= e + n - 1
      /\ (forall j, 0 <= j < k -> hist (a + j) <> Empty)
      /\ (forall j, k <= j < m -> hist (a + j) = Empty)
  | BCas cur => In (a, p_tx pr) resv /\ (forall j, 0 <= j < m -> hist (a + j) <> Empty) /\ hist cur <> Empty
  | BTag cur => In (a, p_tx pr) resv /\ (forall j, 0 <= j < m -> hist (a + j) <> Empty) /\ 0 <= cur <= af
  end.

Definition inside (pr : proc) : Prop :=
  match p_pc pr with Idle | Active | Committed => False | _ => True end.

Lemma inside_in : forall n hist e af resv pr, pr_ok n hist e af resv pr -> inside pr ->
  In (p_start pr, p_tx pr) resv.
Proof.
  intros n hist e af resv pr H I. unfold pr_ok, inside in *.
  destruct (p_pc pr); try contradiction; tauto.
Qed.

Lemma pr_ok_mono : forall n hist e e' af af' resv resv' pr,
  pr_ok n hist e af resv pr -> e <= e' -> af <= af' -> incl resv resv' ->
  pr_ok n hist e' af' resv' pr.
Proof.
  intros n hist e e' af af' resv resv' pr H He Ha Hi. unfold pr_ok in *.
  destruct (p_pc pr) as [| | | |free af0|k|cur|cur]; try exact Logic.I.
  - destruct H as [H1 H2]. split; [apply Hi; exact H1|exact H2].
  - destruct H as [H1 [H2 [H3 H4]]]. split; [apply Hi; exact H1|]. split; [exact H2|]. lia.
  - destruct H as [H1 [H2 [H3 H4]]]. split; [apply Hi; exact H1|]. split; [exact H2|]. split; [lia|exact H4].
  - destruct H as [H1 H2]. split; [apply Hi; exact H1|exact H2].
  - destruct H as [H1 [H2 H3]]. split; [apply Hi; exact H1|]. split; [exact H2|]. lia.
Qed.

Lemma pr_ok_fill : forall n hist e af resv pr pos it,
  pr_ok n hist e af resv pr -> it <> Empty ->
  (inside pr -> pos < p_start pr \/ p_start pr + nitems (p_tx pr) <= pos) ->
  pr_ok n (upd hist pos it) e af resv pr.
Proof.
  intros n hist e af resv pr pos it H Hi D. unfold pr_ok, inside in *.
  assert (X : (pos < p_start pr \/ p_start pr + nitems (p_tx pr) <= pos) ->
     forall j, 0 <= j < nitems (p_tx pr) -> upd hist pos it (p_start pr + j) = hist (p_start pr + j)).
  { intros Y j Hj. apply upd_other. lia. }
  assert (Z' : forall x, hist x <> Empty -> upd hist pos it x <> Empty).
  { intros x Hx. unfold upd. destruct (x =? pos); assumption. }
  destruct (p_pc pr) as [| | | |free af0|k|cur|cur]; try exact Logic.I; specialize (X (D Logic.I)).
  - destruct H as [H1 H2]. split; [exact H1|]. intros j Hj. rewrite X by exact Hj. apply H2. exact Hj.
  - destruct H as [H1 [H2 H3]]. split; [exact H1|]. split; [|exact H3].
    intros j Hj. rewrite X by exact Hj. apply H2. exact Hj.
  - destruct H as [H1 [H2 [H3 [H4 H5]]]]. split; [exact H1|]. split; [exact H2|]. split; [exact H3|].
    split; intros j Hj; rewrite X by lia; [apply H4|apply H5]; exact Hj.
  - destruct H as [H1 [H2 H3]]. split; [exact H1|]. split; [|apply Z'; exact H3].
    intros j Hj. rewrite X by exact Hj. apply H2. exact Hj.
  - destruct H as [H1 [H2 H3]]. split; [exact H1|]. split; [|exact H3].
    intros j Hj. rewrite X by exact Hj. apply H2. exact Hj.
Qed.

Definition owner (p : Z) (pr : proc) : Prop :=
  inside pr /\ p_start pr <= p < p_start pr + nitems (p_tx pr).
Definition not_tag (pr : proc) : Prop := match p_pc pr with BTag _ => False | _ => True end.

Record Inv (c : cfg) (s : st) : Prop := {
  iq : Q c s;
  ich : chain 0 (s_resv s) (s_ar s);
  ipr : forall q, pr_ok (c_n c) (s_hist s) (s_e s) (s_af s) (s_resv s) (s_procs s q);
  idis : forall q q', inside (s_procs s q) -> inside (s_procs s q') ->
           p_start (s_procs s q) = p_start (s_procs s q') -> q = q';
  iitem : forall x k, In x (s_resv s) -> 0 <= k < nitems (snd x) ->
           s_hist s (fst x + k) = Empty \/ exists r w, s_hist s (fst x + k) = item_at (snd x) r w k;
  ibound : forall p, s_hist s p <> Empty -> 0 <= p < s_ar s;
  iw : s_wpc s = W1 -> s_c s < s_r s;
  isubq : forall q, t_xid (p_tx (s_procs s q)) = 0 -> t_subs (p_tx (s_procs s q)) = [];
  isubr : forall x, In x (s_resv s) -> t_xid (snd x) = 0 -> t_subs (snd x) = [];
  iown : forall p, 0 <= p < s_ar s -> s_hist s p = Empty -> exists q, owner p (s_procs s q);
  iprog : s_hist s (s_af s) <> Empty -> exists q,
            (owner (s_af s) (s_procs s q) /\ not_tag (s_procs s q))
            \/ p_pc (s_procs s q) = BTag (s_af s)
            \/ p_pc (s_procs s q) = BCas (s_af s)
}.

Lemma inv_af : forall c s, Inv c s -> s_af s <= s_ar s.
Proof.
  intros c s I. destruct (Z_le_gt_dec (s_af s) (s_ar s)) as [L|L]; [exact L|exfalso].
  pose proof (chain_le _ _ _ (ich _ _ I)).
  pose proof (qfill _ _ _ _ _ _ _ _ _ (iq _ _ I) (s_ar s) ltac:(lia)) as F.
  apply (ibound _ _ I) in F. lia.
Qed.

Lemma inv_init : forall c, LEN <= c_n c -> Inv c init.
Proof.
  intros c Hn. pose proof LEN_val as LV. constructor; cbn; try tauto; try lia; try discriminate.
  - unfold Q. constructor; cbn; try lia; try tauto.
Qed.

(** Steps that change only the queue's place of items. *)
Lemma inv_q : forall c s s', Inv c s -> Q c s' -> same s s' -> s_e s <= s_e s' -> s_r s <= s_r s' -> Inv c s'.
Proof.
  intros c s s' I Hq Hs He Hr.
  destruct Hs as [S1 [S2 [S3 [S4 [S5 [S6 [S7 [S8 [S9 [S10 [S11 [S12 [S13 [S14 [S15 S16]]]]]]]]]]]]]]].
  destruct I as [I1 I2 I3 I4 I5 I6 I7 I8 I9 I11 I10].
  constructor; unfold owner; rewrite ?S1, ?S2, ?S3, ?S5, ?S6, ?S14, ?S15 in *; try assumption.
  - intros q. eapply pr_ok_mono; [apply I3| | |apply incl_refl]; lia.
  - intros W. specialize (I7 W). lia.
Qed.

Lemma inv_wpc : forall c s w, Inv c s -> (w = W1 -> s_c s < s_r s) -> Inv c (set_wpc s w).
Proof.
  intros c s w I Hw. destruct I as [I1 I2 I3 I4 I5 I6 I7 I8 I9 I11 I10].
  constructor; cbn; try assumption.
Qed.

(** Steps that change one backend. *)
Lemma inv_pc : forall c s p k, Inv c s ->
  pr_ok (c_n c) (s_hist s) (s_e s) (s_af s) (s_resv s)
        (mkProc k (p_tx (s_procs s p)) (p_start (s_procs s p))) ->
  inside (s_procs s p) ->
  inside (mkProc k (p_tx (s_procs s p)) (p_start (s_procs s p))) ->
  not_tag (mkProc k (p_tx (s_procs s p)) (p_start (s_procs s p))) ->
  (p_pc (s_procs s p) <> BTag (s_af s) \/ k = BCas (s_af s)) ->
  (p_pc (s_procs s p) <> BCas (s_af s)) ->
  Inv c (set_pc s p k).
Proof.
  intros c s p k I Hok Hin Hin' Hnt H1 H2. destruct I as [I1 I2 I3 I4 I5 I6 I7 I8 I9 I11 I10].
  constructor; cbn; try assumption.
  - intros q. unfold upd. destruct (q =? p) eqn:E; [exact Hok|apply I3].
  - intros q q'. unfold upd. destruct (q =? p) eqn:E; destruct (q' =? p) eqn:E'; intros A B D.
    + lia.
    + cbn in D. apply Z.eqb_eq in E. rewrite E. apply I4; assumption.
    + cbn in D. apply Z.eqb_eq in E'. rewrite E'. apply I4; assumption.
    + apply I4; assumption.
  - intros q. unfold upd. destruct (q =? p); [cbn|]; apply I8.
  - intros x Hx Hh. destruct (I11 x Hx Hh) as [q [O1 O2]]. exists q. unfold upd.
    destruct (q =? p) eqn:E; [|split; assumption].
    apply Z.eqb_eq in E. subst q. split; [exact Hin'|exact O2].
  - intros L. specialize (I10 L). destruct I10 as [q Hq].
    exists q. unfold upd. destruct (q =? p) eqn:E; [|exact Hq].
    apply Z.eqb_eq in E. subst q. destruct Hq as [[[O1 O2] O3]|[B|B]].
    + left. split; [split; [exact Hin'|exact O2]|exact Hnt].
    + destruct H1 as [H1|H1]; [contradiction|]. right. right. exact H1.
    + contradiction.
Qed.

Lemma inside_pc : forall pr, inside pr -> p_pc pr <> Idle /\ p_pc pr <> Active /\ p_pc pr <> Committed.
Proof. intros pr H. unfold inside in H. destruct (p_pc pr); try contradiction; repeat split; discriminate. Qed.

Lemma nonempty_item : forall t r w k, item_at t r w k <> Empty.
Proof. intros t r w k. unfold item_at. destruct (k =? 0); discriminate. Qed.


(** A backend leaves or stays outside. *)
Lemma inv_leave : forall c s p pr' top live db ulog commits,
  Inv c s -> ~ inside pr' ->
  (t_xid (p_tx pr') = 0 -> t_subs (p_tx pr') = []) ->
  (inside (s_procs s p) ->
     (forall j, 0 <= j < nitems (p_tx (s_procs s p)) -> s_hist s (p_start (s_procs s p) + j) <> Empty) /\
     (s_hist s (s_af s) <> Empty ->
        ~ (owner (s_af s) (s_procs s p) /\ not_tag (s_procs s p)) /\
        p_pc (s_procs s p) <> BTag (s_af s) /\ p_pc (s_procs s p) <> BCas (s_af s))) ->
  Inv c (mkSt (s_add s) (s_comp s) (s_disk s) (s_ar s) (s_af s) (s_e s) (s_r s) (s_c s) (s_co s)
              (upd (s_procs s) p pr') (s_wpc s) top live (s_mpr s) (s_mrr s) db ulog commits
              (s_resv s) (s_hist s) (s_done s)).
Proof.
  intros c s p pr' top live db ulog commits I Hout Hsub Hl.
  destruct I as [I1 I2 I3 I4 I5 I6 I7 I8 I9 I11 I10].
  constructor; cbn; try assumption.
  - intros q. unfold upd. destruct (q =? p) eqn:E; [|apply I3].
    unfold pr_ok. unfold inside in Hout. destruct (p_pc pr'); try exact Logic.I; exfalso; apply Hout; exact Logic.I.
  - intros q q'. unfold upd. destruct (q =? p) eqn:E; destruct (q' =? p) eqn:E'; intros A B D; try contradiction.
    apply I4; assumption.
  - intros q. unfold upd. destruct (q =? p); [exact Hsub|apply I8].
  - intros x Hx Hh. destruct (I11 x Hx Hh) as [q [O1 O2]]. exists q. unfold upd.
    destruct (q =? p) eqn:E; [exfalso|split; assumption].
    apply Z.eqb_eq in E. subst q. destruct (Hl O1) as [F _].
    apply (F (x - p_start (s_procs s p)) ltac:(lia)).
    replace (p_start (s_procs s p) + (x - p_start (s_procs s p))) with x by lia. exact Hh.
  - intros L. destruct (I10 L) as [q Hq]. exists q. unfold upd.
    destruct (q =? p) eqn:E; [exfalso|exact Hq].
    apply Z.eqb_eq in E. subst q.
    assert (Ins : inside (s_procs s p)).
    { destruct Hq as [[[O _] _]|[O|O]]; [exact O| |]; unfold inside; rewrite O; exact Logic.I. }
    destruct (Hl Ins) as [_ F]. specialize (F L). tauto.
Qed.

Lemma inv_step : forall c s o, LEN <= c_n c -> Inv c s -> Inv c (step c s o).
Proof.
  intros c s o Hn I. pose proof LEN_val as LV. pose proof (inv_af _ _ I) as AFR.
  pose proof (qok_af (c_n c) Hn _ _ _ _ _ _ _ _ (iq _ _ I)) as AFE.
  assert (B4 : 0 <= s_c s /\ s_c s <= s_r s /\ s_r s <= s_e s /\ s_e s <= s_af s).
  { pose proof (iq _ _ I) as K. repeat split; [apply (qo1 _ _ _ _ _ _ _ _ _ K)|apply (qo2 _ _ _ _ _ _ _ _ _ K)|apply (qo3 _ _ _ _ _ _ _ _ _ K)|apply (qo4 _ _ _ _ _ _ _ _ _ K)]. }
  destruct o as [p t|p|p|p|p got|p now|p|m| |now| ]; cbn [step].
  - (* OStart *)
    destruct (t_oxid t <? 0); [exact I|].
    destruct (p_pc (s_procs s p)) eqn:Ep; try exact I.
    apply inv_leave; [exact I|intro X; exact X| |].
    + cbn. intros X. rewrite X. reflexivity.
    + intros Ins. unfold inside in Ins. rewrite Ep in Ins. contradiction.
  - (* OCommit *)
    destruct (p_pc (s_procs s p)) eqn:Ep; try exact I.
    apply inv_leave; [exact I|intro X; exact X| |].
    + cbn. apply (isubq _ _ I).
    + intros Ins. unfold inside in Ins. rewrite Ep in Ins. contradiction.
  - (* OReserve *)
    destruct (p_pc (s_procs s p)) eqn:Ep; try exact I.
    pose proof (isubq _ _ I p) as Hsub.
    set (t := p_tx (s_procs s p)) in *. pose proof (nitems_pos t) as NP.
    assert (Hst : forall q, inside (s_procs s q) -> p_start (s_procs s q) < s_ar s).
    { intros q Hq. pose proof (inside_in _ _ _ _ _ _ (ipr _ _ I q) Hq) as In1.
      pose proof (chain_in _ _ _ _ (ich _ _ I) In1) as C1. cbn in C1.
      pose proof (nitems_pos (p_tx (s_procs s q))). lia. }
    pose proof (chain_le _ _ _ (ich _ _ I)) as AR0.
    destruct I as [I1 I2 I3 I4 I5 I6 I7 I8 I9 I11 I10].
    assert (HE : forall j, 0 <= j -> s_hist s (s_ar s + j) = Empty).
    { intros j Hj. destruct (s_hist s (s_ar s + j)) eqn:Hh; [reflexivity| |]; exfalso;
        assert (s_hist s (s_ar s + j) <> Empty) as F by congruence; apply I6 in F; lia. }
    constructor; cbn; try assumption.
    + apply chain_snoc. exact I2.
    + intros q. unfold upd. destruct (q =? p) eqn:E.
      * unfold pr_ok. cbn. split; [apply in_or_app; right; left; reflexivity|].
        intros j Hj. apply HE. lia.
      * eapply pr_ok_mono; [apply I3|lia|lia|apply incl_appl; apply incl_refl].
    + intros q q'. unfold upd. destruct (q =? p) eqn:E; destruct (q' =? p) eqn:E'; intros A B D; cbn in *.
      * lia.
      * specialize (Hst q' B). lia.
      * specialize (Hst q A). lia.
      * apply I4; assumption.
    + intros x k Hx Hk. apply in_app_or in Hx. destruct Hx as [Hx|[Hx|[]]].
      * apply I5; assumption.
      * subst x. cbn. left. apply HE. lia.
    + intros x Hx. apply I6 in Hx. lia.
    + intros q. unfold upd. destruct (q =? p); [cbn; exact Hsub|apply I8].
    + intros x Hx. apply in_app_or in Hx. destruct Hx as [Hx|[Hx|[]]]; [apply I9; exact Hx|].
      subst x. cbn. exact Hsub.
    + intros x Hx Hh. destruct (Z_lt_le_dec x (s_ar s)) as [L|L].
      * destruct (I11 x ltac:(lia) Hh) as [q [O1 O2]]. exists q. unfold upd.
        destruct (q =? p) eqn:E; [|split; assumption].
        apply Z.eqb_eq in E. subst q. unfold inside in O1. rewrite Ep in O1. contradiction.
      * exists p. rewrite upd_same. split; [exact Logic.I|cbn; lia].
    + intros L. destruct (I10 L) as [q Hq]. exists q. unfold upd.
      destruct (q =? p) eqn:E; [exfalso|exact Hq].
      apply Z.eqb_eq in E. subst q. unfold owner, inside in Hq. rewrite Ep in Hq.
      destruct Hq as [[[O _] _]|[O|O]]; [exact O|discriminate|discriminate].
  - (* OSpace *)
    destruct (p_pc (s_procs s p)) eqn:Ep; try exact I.
    pose proof (ipr _ _ I p) as P. unfold pr_ok in P. rewrite Ep in P.
    apply inv_pc; [exact I| | | | | |].
    + unfold pr_ok. cbn. destruct P as [P1 P2]. split; [exact P1|]. split; [exact P2|]. lia.
    + unfold inside. rewrite Ep. exact Logic.I.
    + exact Logic.I.
    + exact Logic.I.
    + left. rewrite Ep. discriminate.
    + rewrite Ep. discriminate.
  - (* OEvict *)
    destruct (p_pc (s_procs s p)) as [| | | |free af|k|cur|cur] eqn:Ep; try exact I.
    pose proof (ipr _ _ I p) as P. unfold pr_ok in P. rewrite Ep in P.
    destruct P as [P1 [P2 [P3 P4]]].
    set (s1 := if wants_evict c free && got then evict c af s else s).
    assert (H1 : Inv c s1 /\ same s s1 /\ s_e s <= s_e s1).
    { unfold s1. destruct (wants_evict c free && got).
      - destruct (evict_ok c af s Hn (iq _ _ I) P4) as [A [B [D F]]].
        split; [eapply inv_q; eassumption|]. split; assumption.
      - split; [exact I|]. split; [apply same_refl|lia]. }
    destruct H1 as [I1 [S1 E1]].
    destruct S1 as [_ [S2 [_ [_ [S5 [_ [_ [_ [_ [_ [_ [_ [_ [S14 [S15 _]]]]]]]]]]]]]]].
    apply inv_pc; [exact I1| | | | | |]; rewrite ?S5, ?S2, ?S14, ?S15.
    + unfold pr_ok. cbn. destruct (1 <=? free) eqn:Ef.
      * split; [exact P1|]. pose proof (nitems_pos (p_tx (s_procs s p))). split; [lia|]. split; [lia|].
        split; [intros j Hj; lia|exact P2].
      * split; assumption.
    + unfold inside. rewrite Ep. exact Logic.I.
    + unfold inside. destruct (1 <=? free); exact Logic.I.
    + unfold not_tag. destruct (1 <=? free); exact Logic.I.
    + left. rewrite Ep. discriminate.
    + rewrite Ep. discriminate.
  - (* OFill *)
    destruct (p_pc (s_procs s p)) as [| | | |free af|k|cur|cur] eqn:Ep; try exact I.
    pose proof (ipr _ _ I p) as P. unfold pr_ok in P. rewrite Ep in P.
    destruct P as [P1 [P2 [P3 [P4 P5]]]].
    set (t := p_tx (s_procs s p)) in *. set (a := p_start (s_procs s p)) in *.
    set (it := item_at t (s_mpr s) now k).
    assert (Hit : it <> Empty) by apply nonempty_item.
    pose proof (chain_in _ _ _ _ (ich _ _ I) P1) as C1. cbn in C1.
    assert (Insp : inside (s_procs s p)) by (unfold inside; rewrite Ep; exact Logic.I).
    pose proof (isubq _ _ I p) as Hsub. fold t in Hsub.
    assert (Dis : forall q, q <> p -> inside (s_procs s q) ->
              a + k < p_start (s_procs s q) \/ p_start (s_procs s q) + nitems (p_tx (s_procs s q)) <= a + k).
    { intros q Nq Iq. pose proof (inside_in _ _ _ _ _ _ (ipr _ _ I q) Iq) as In2.
      assert (Ne : fst (a, t) <> fst (p_start (s_procs s q), p_tx (s_procs s q))).
      { intros X. cbn in X. apply Nq. symmetry. apply (idis _ _ I); assumption. }
      destruct (chain_disjoint _ _ _ _ _ (ich _ _ I) P1 In2 Ne) as [L|L]; cbn in L |- *; lia. }
    destruct I as [I1 I2 I3 I4 I5 I6 I7 I8 I9 I11 I10].
    set (pr' := mkProc (if k + 1 =? nitems t then BCas a else Fill (k + 1)) t a).
    assert (Ins' : inside pr') by (unfold inside, pr'; cbn; destruct (k + 1 =? nitems t); exact Logic.I).
    assert (Nt' : not_tag pr') by (unfold not_tag, pr'; cbn; destruct (k + 1 =? nitems t); exact Logic.I).
    constructor; cbn; fold pr'; try assumption.
    + unfold Q. cbn. apply (qok_fill (c_n c) Hn); [exact I1|apply P5; lia|exact Hit|lia|lia].
    + intros q. unfold upd at 2. destruct (q =? p) eqn:E.
      * unfold pr_ok, pr'. cbn. destruct (k + 1 =? nitems t) eqn:Ek.
        -- split; [exact P1|]. split.
           ++ intros j Hj. unfold upd. destruct (a + j =? a + k) eqn:Ej; [exact Hit|]. apply P4. lia.
           ++ unfold upd. destruct (a =? a + k) eqn:Ej; [exact Hit|].
              replace a with (a + 0) by lia. apply P4. lia.
        -- split; [exact P1|]. split; [lia|]. split; [exact P3|]. split.
           ++ intros j Hj. unfold upd. destruct (a + j =? a + k) eqn:Ej; [exact Hit|]. apply P4. lia.
           ++ intros j Hj. unfold upd. destruct (a + j =? a + k) eqn:Ej; [lia|]. apply P5. lia.
      * apply pr_ok_fill; [apply I3|exact Hit|]. intros Iq. apply Dis; [lia|exact Iq].
    + intros q q'. unfold upd. destruct (q =? p) eqn:E; destruct (q' =? p) eqn:E'; intros A B D.
      * lia.
      * cbn in D. apply Z.eqb_eq in E. rewrite E. apply I4; assumption.
      * cbn in D. apply Z.eqb_eq in E'. rewrite E'. apply I4; assumption.
      * apply I4; assumption.
    + intros x j Hx Hj. unfold upd. destruct (fst x + j =? a + k) eqn:E; [|apply I5; assumption].
      right. exists (s_mpr s), now.
      assert (x = (a, t)).
      { destruct (Z.eq_dec (fst x) a) as [Ea|Ea]; [apply (chain_same _ _ _ _ _ I2 Hx P1); exact Ea|exfalso].
        destruct (chain_disjoint _ _ _ _ _ I2 Hx P1 Ea) as [L|L]; cbn in L; lia. }
      subst x. cbn in E |- *. unfold it. f_equal. lia.
    + intros x Hx. unfold upd in Hx. destruct (x =? a + k) eqn:E; [lia|]. apply I6. exact Hx.
    + intros q. unfold upd. destruct (q =? p); [exact Hsub|apply I8].
    + intros x Hx Hh. unfold upd in Hh. destruct (x =? a + k) eqn:E; [contradiction|].
      destruct (I11 x Hx Hh) as [q [O1 O2]]. exists q. unfold upd.
      destruct (q =? p) eqn:Eq; [|split; assumption].
      apply Z.eqb_eq in Eq. subst q. split; [exact Ins'|exact O2].
    + intros L. destruct (Z.eq_dec (s_af s) (a + k)) as [Ea|Ea].
      * exists p. rewrite upd_same. left. split; [split; [exact Ins'|unfold pr'; cbn; lia]|exact Nt'].
      * rewrite upd_other in L by exact Ea. destruct (I10 L) as [q Hq]. exists q. unfold upd.
        destruct (q =? p) eqn:Eq; [|exact Hq].
        apply Z.eqb_eq in Eq. subst q. destruct Hq as [[[O1 O2] O3]|[O|O]]; [|congruence|congruence].
        left. split; [split; [exact Ins'|exact O2]|exact Nt'].
  - (* OBump *)
    destruct (p_pc (s_procs s p)) as [| | | |free af|k|cur|cur] eqn:Ep; try exact I.
    + pose proof (ipr _ _ I p) as P. unfold pr_ok in P. rewrite Ep in P. destruct P as [P1 [P2 P3]].
      destruct (s_af s =? cur) eqn:Ec.
      * apply Z.eqb_eq in Ec. rewrite <- Ec in *.
        pose proof (isubq _ _ I p) as Hsub.
        pose proof (chain_in _ _ _ _ (ich _ _ I) P1) as C1. cbn in C1.
        destruct I as [I1 I2 I3 I4 I5 I6 I7 I8 I9 I11 I10].
        constructor; cbn; try assumption.
        -- unfold Q. cbn. apply qok_bump; [exact I1|exact P3].
        -- intros q. unfold upd. destruct (q =? p) eqn:E.
           ++ unfold pr_ok. cbn. split; [exact P1|]. split; [exact P2|]. lia.
           ++ eapply pr_ok_mono; [apply I3|lia|lia|apply incl_refl].
        -- intros q q'. unfold upd. destruct (q =? p) eqn:E; destruct (q' =? p) eqn:E'; intros A B D.
           ++ lia.
           ++ cbn in D. apply Z.eqb_eq in E. rewrite E. apply I4; [unfold inside; rewrite Ep; exact Logic.I|exact B|exact D].
           ++ cbn in D. apply Z.eqb_eq in E'. rewrite E'. apply I4; [exact A|unfold inside; rewrite Ep; exact Logic.I|exact D].
           ++ apply I4; assumption.
        -- intros q. unfold upd. destruct (q =? p); [cbn; exact Hsub|apply I8].
        -- intros x Hx Hh. destruct (I11 x Hx Hh) as [q [O1 O2]]. exists q. unfold upd.
           destruct (q =? p) eqn:E; [|split; assumption].
           apply Z.eqb_eq in E. subst q. split; [exact Logic.I|exact O2].
        -- intros L. exists p. rewrite upd_same. right. left. reflexivity.
      * destruct ((p_start (s_procs s p) <=? s_af s) && (s_af s <? p_start (s_procs s p) + nitems (p_tx (s_procs s p)))) eqn:Er.
        -- apply inv_pc; [exact I| | | | | |].
           ++ unfold pr_ok. cbn. split; [exact P1|]. split; [exact P2|].
              replace (s_af s) with (p_start (s_procs s p) + (s_af s - p_start (s_procs s p))) by lia. apply P2. lia.
           ++ unfold inside. rewrite Ep. exact Logic.I.
           ++ exact Logic.I.
           ++ exact Logic.I.
           ++ right. reflexivity.
           ++ rewrite Ep. intros X. inversion X. lia.
        -- apply inv_leave; [exact I|intro X; exact X|cbn; apply (isubq _ _ I)|].
           intros _. split; [exact P2|]. intros _. rewrite Ep. split; [|split; [discriminate|]].
           ++ intros [[_ O2] _]. lia.
           ++ intros X. inversion X. lia.
    + pose proof (ipr _ _ I p) as P. unfold pr_ok in P. rewrite Ep in P. destruct P as [P1 [P2 P3]].
      assert (Hcur : s_add s (cur mod c_n c) <> Empty -> s_hist s cur <> Empty).
      { intros Hx. pose proof (iq _ _ I) as K. destruct (Z_lt_le_dec cur (s_af s)) as [L|L].
        - apply (qfill _ _ _ _ _ _ _ _ _ K). lia.
        - rewrite <- (qadd _ _ _ _ _ _ _ _ _ K); [exact Hx|lia]. }
      assert (Stay : s_add s (cur mod c_n c) <> Empty -> Inv c (set_pc s p (BCas cur))).
      { intros Hx. apply inv_pc; [exact I| | | | | |].
        - unfold pr_ok. cbn. split; [exact P1|]. split; [exact P2|]. apply Hcur. exact Hx.
        - unfold inside. rewrite Ep. exact Logic.I.
        - exact Logic.I.
        - exact Logic.I.
        - rewrite Ep. destruct (Z.eq_dec cur (s_af s)) as [E|E]; [right; congruence|left; congruence].
        - rewrite Ep. discriminate. }
      destruct (s_add s (cur mod c_n c)) eqn:Ea; [|apply Stay; discriminate|apply Stay; discriminate].
      apply inv_leave; [exact I|intro X; exact X|cbn; apply (isubq _ _ I)|].
      intros _. split; [exact P2|]. intros Hh. rewrite Ep. split; [|split; [|discriminate]].
      * intros [_ O]. unfold not_tag in O. rewrite Ep in O. exact O.
      * intros X. inversion X as [X1]. rewrite X1 in Ea.
        rewrite (qadd _ _ _ _ _ _ _ _ _ (iq _ _ I)) in Ea by lia. contradiction.
  - (* ORetain *)
    destruct ((s_mpr s <=? m) && (m <=? s_top s) && forallb (fun l => m <=? l) (s_live s)); [|exact I].
    destruct I as [I1 I2 I3 I4 I5 I6 I7 I8 I9 I11 I10]. constructor; cbn; assumption.
  - (* OWTop *)
    destruct (s_wpc s) eqn:Ew; try exact I.
    destruct (s_c s <? s_af s) eqn:Ec; [|exact I].
    destruct (s_r s <=? s_c s) eqn:Er.
    + destruct (restore_ok c s Hn (iq _ _ I)) as [A [B [D [F G]]]].
      apply inv_wpc; [eapply inv_q; eassumption|]. intros _.
      destruct B as [_ [_ [S3 _]]]. rewrite S3. apply G. lia.
    + apply inv_wpc; [exact I|]. intros _. lia.
  - (* OWDecide *)
    destruct (s_wpc s) eqn:Ew; try exact I.
    pose proof (iw _ _ I Ew) as Hc.
    assert (Fin : forall co mrr, Inv c
      (mkSt (s_add s) (upd (s_comp s) (s_c s mod c_n c) Empty) (s_disk s)
                 (s_ar s) (s_af s) (s_e s) (s_r s) (s_c s + 1) co
                 (s_procs s) W2 (s_top s) (s_live s) (s_mpr s) mrr (s_db s) (s_ulog s)
                 (s_commits s) (s_resv s) (s_hist s)
                 (s_done s ++ [(s_c s, s_comp s (s_c s mod c_n c), now, s_af s - s_c s)]))).
    { intros co mrr. destruct I as [I1 I2 I3 I4 I5 I6 I7 I8 I9 I11 I10].
      constructor; cbn; try assumption; [|discriminate].
      unfold Q. cbn. apply (qok_done (c_n c) Hn); [exact I1|exact Hc]. }
    destruct (s_comp s (s_c s mod c_n c)) as [|oxid xid nsub loc retain time|oxid nsub l].
    + apply Fin.
    + destruct ((c_maxage c <=? now - time) || (c_maxt c <? s_af s - s_c s)).
      * destruct (oxid =? 0); apply Fin.
      * apply inv_wpc; [exact I|discriminate].
    + apply Fin.
  - (* OWRest *)
    destruct (s_wpc s) eqn:Ew; try exact I.
    destruct (restore_ok c s Hn (iq _ _ I)) as [A [B [D [F G]]]].
    apply inv_wpc; [eapply inv_q; eassumption|discriminate].
Qed.

Lemma inv_run : forall c ops, LEN <= c_n c -> Inv c (run (step c) init ops).
Proof.
  intros c ops Hn. apply run_inv; [intros s o; apply inv_step; exact Hn|apply inv_init; exact Hn].
Qed.

(** ** The backward walk *)
Section Walk.
Variable hist : Z -> item.
Variable stop : Z -> Z -> Z -> bool.

Record dl := mkDl { l_nsub : Z; l_cnt : Z; l_got : bool; l_subs : list Z }.

Fixpoint rl (fuel : nat) (pos : Z) (d : dl) : list undone :=
  match fuel with
  | O => []
  | Datatypes.S f =>
      match hist pos with
      | Subx _ n l =>
          let cnt0 := if l_nsub d =? 0 then n else l_cnt d in
          let acc0 := if l_nsub d =? 0 then [] else l_subs d in
          let '(acc, cnt) := gather (Z.to_nat SUBS) l cnt0 acc0 in
          rl f (pos - 1)
            (mkDl (if l_nsub d =? 0 then n else l_nsub d) cnt (if cnt =? 0 then true else l_got d) acc)
      | Main oxid xid _ loc _ time =>
          if stop oxid xid time then []
          else mkUndone oxid xid (if negb (xid =? 0) && l_got d then l_subs d else []) loc
               :: rl f (pos - 1)
                    (if negb (xid =? 0) && l_got d then mkDl 0 (l_cnt d) false [] else d)
      | Empty => mkUndone 0 0 [] 0 :: rl f (pos - 1) d
      end
  end.

Definition clean (d : dl) : Prop := l_nsub d = 0 /\ l_got d = false.

Lemma skipn_cons : forall (l : list Z) k, (k < length l)%nat -> skipn k l = nth k l 0 :: skipn (Datatypes.S k) l.
Proof.
  induction l as [|x l IH]; intros k H; cbn in H; [lia|].
  destruct k as [|k]; [reflexivity|]. cbn [skipn nth]. rewrite IH by lia. reflexivity.
Qed.

Lemma nth_skipn : forall (l : list Z) b k, nth k (skipn b l) 0 = nth (b + k) l 0.
Proof.
  induction l as [|x l IH]; intros b k; [rewrite skipn_nil; destruct (b + k)%nat; destruct k; reflexivity|].
  destruct b as [|b]; [reflexivity|]. cbn [skipn plus nth]. apply IH.
Qed.

Lemma nth_firstn : forall (l : list Z) n k, (k < n)%nat -> nth k (firstn n l) 0 = nth k l 0.
Proof.
  induction l as [|x l IH]; intros n k H; [rewrite firstn_nil; reflexivity|].
  destruct n as [|n]; [lia|]. destruct k as [|k]; [reflexivity|]. cbn [firstn nth]. apply IH. lia.
Qed.

Lemma gather_ok : forall S b fuel cnt,
  0 <= b -> b mod 25 = 0 -> b < cnt <= b + 25 -> cnt <= b + Z.of_nat fuel ->
  cnt <= Z.of_nat (length S) ->
  gather fuel (firstn (Z.to_nat SUBS) (skipn (Z.to_nat b) S)) cnt (skipn (Z.to_nat cnt) S)
  = (skipn (Z.to_nat b) S, b).
Proof.
  intros S b fuel. induction fuel as [|f IH]; intros cnt Hb Hm Hc Hf Hl; [lia|].
  cbn [gather]. change ((cnt - 1) mod SUBS) with ((cnt - 1) mod 25).
  assert (M : (cnt - 1) mod 25 = cnt - 1 - b).
  { symmetry. apply (Z.mod_unique_pos _ _ (b / 25)); [lia|]. pose proof (Z.div_mod b 25 ltac:(lia)). lia. }
  rewrite M.
  assert (E : nth (Z.to_nat (cnt - 1 - b)) (firstn (Z.to_nat SUBS) (skipn (Z.to_nat b) S)) 0
              :: skipn (Z.to_nat cnt) S = skipn (Z.to_nat (cnt - 1)) S).
  { rewrite nth_firstn by (unfold SUBS; lia). rewrite nth_skipn.
    rewrite (skipn_cons S (Z.to_nat (cnt - 1))) by lia. f_equal; [f_equal; lia|]. f_equal. lia. }
  rewrite E. destruct (cnt - 1 =? 0) eqn:E0.
  - assert (b = 0) by lia. subst b. assert (cnt = 1) by lia. subst cnt. reflexivity.
  - destruct (cnt - 1 - b =? 0) eqn:E1.
    + assert (cnt - 1 = b) as X by lia. rewrite X. reflexivity.
    + apply IH; lia.
Qed.

Lemma item_sub : forall t r w k, k <> 0 ->
  item_at t r w k = Subx (t_oxid t) (Z.of_nat (length (t_subs t)))
                      (firstn (Z.to_nat SUBS) (skipn (Z.to_nat (SUBS * (k - 1))) (t_subs t))).
Proof. intros t r w k H. unfold item_at. replace (k =? 0) with false by lia. reflexivity. Qed.

(** Only subtransaction items: nothing is undone. *)
Lemma rl_subs : forall fuel pos d,
  (forall p, pos - Z.of_nat fuel < p <= pos -> exists o n l, hist p = Subx o n l) ->
  rl fuel pos d = [].
Proof.
  induction fuel as [|f IH]; intros pos d H; [reflexivity|].
  cbn [rl]. destruct (H pos ltac:(lia)) as [o [n [l E]]]. rewrite E.
  destruct (gather (Z.to_nat SUBS) l (if l_nsub d =? 0 then n else l_cnt d)
             (if l_nsub d =? 0 then [] else l_subs d)) as [acc cnt].
  apply IH. intros p Hp. apply H. lia.
Qed.

(** The subtransaction items of one transaction, from item [k] down to 1. *)
Lemma rl_block : forall t a r w, (forall k, 0 <= k < nitems t -> exists r w, hist (a + k) = item_at t r w k) ->
  hist a = item_at t r w 0 ->
  (t_xid t = 0 -> t_subs t = []) ->
  forall k f d, (Z.of_nat k < nitems t) ->
  let n := Z.of_nat (length (t_subs t)) in
  (Z.of_nat k = nitems t - 1 /\ clean d) \/
  (Z.of_nat k < nitems t - 1 /\ l_nsub d = n /\ l_cnt d = 25 * Z.of_nat k
   /\ l_subs d = skipn (Z.to_nat (25 * Z.of_nat k)) (t_subs t) /\ (l_got d = true <-> k = 0%nat)) ->
  exists d', clean d' /\
  rl (Datatypes.S k + f) (a + Z.of_nat k) d =
  if stop (t_oxid t) (t_xid t) w then [] else whole t :: rl f (a - 1) d'.
Proof.
  intros t a r w Hi H0 Hx. induction k as [|k IH]; intros f d Hk n Hd.
  - cbn [plus rl]. change (Z.of_nat 0) with 0 in *. rewrite Z.add_0_r, H0. unfold item_at. cbn [Z.eqb].
    destruct Hd as [[Hd1 [Hd2 Hd3]]|[Hd1 [Hd2 [Hd3 [Hd4 Hd5]]]]].
    + rewrite Hd3, Bool.andb_false_r. exists d. split; [split; assumption|].
      assert (t_subs t = []) as Es.
      { unfold nitems in Hd1. destruct (t_subs t) as [|x l]; [reflexivity|exfalso].
        cbn [length] in Hd1. replace (Z.of_nat (Datatypes.S (length l)) =? 0) with false in Hd1 by lia.
        unfold SUBS in Hd1. pose proof (Z.div_pos (Z.of_nat (Datatypes.S (length l)) - 1) 25). lia. }
      unfold whole. rewrite Es. reflexivity.
    + assert (l_got d = true) as G by (apply Hd5; reflexivity). rewrite G, Bool.andb_true_r.
      assert (Nx : t_xid t <> 0).
      { intros X. apply Hx in X. unfold n in *. rewrite X in *. unfold nitems in Hd1. rewrite X in Hd1. cbn in Hd1. lia. }
      replace (negb (t_xid t =? 0)) with true by lia. rewrite Hd4. cbn [Z.mul Z.to_nat skipn].
      exists (mkDl 0 (l_cnt d) false []). split; [split; reflexivity|]. reflexivity.
  - cbn [plus rl]. destruct (Hi (Z.of_nat (Datatypes.S k)) ltac:(lia)) as [r' [w' E]]. rewrite E.
    rewrite item_sub by lia. fold n.
    set (b := 25 * Z.of_nat k).
    replace (SUBS * (Z.of_nat (Datatypes.S k) - 1)) with b by (unfold SUBS, b; lia).
    assert (Nn : n <> 0).
    { intros X. unfold nitems in Hk. fold n in Hk. rewrite X in Hk. cbn in Hk. lia. }
    assert (Hm : nitems t = 2 + (n - 1) / 25).
    { unfold nitems. fold n. replace (n =? 0) with false by lia. reflexivity. }
    pose proof (Z.div_mod (n - 1) 25 ltac:(lia)) as DM. pose proof (Z.mod_pos_bound (n - 1) 25 ltac:(lia)) as MB.
    assert (Bm : b mod 25 = 0) by (unfold b; rewrite Z.mul_comm; apply Z.mod_mul; lia).
    assert (G : exists cnt0, (if l_nsub d =? 0 then n else l_cnt d) = cnt0 /\
                (if l_nsub d =? 0 then [] else l_subs d) = skipn (Z.to_nat cnt0) (t_subs t) /\
                b < cnt0 <= b + 25 /\ cnt0 <= n).
    { destruct Hd as [[Hd1 [Hd2 Hd3]]|[Hd1 [Hd2 [Hd3 [Hd4 Hd5]]]]].
      - rewrite Hd2. cbn [Z.eqb]. exists n. split; [reflexivity|]. split.
        + symmetry. apply skipn_all2. unfold n. lia.
        + split; [|lia]. unfold b. rewrite Hm in Hd1. lia.
      - rewrite Hd2. replace (n =? 0) with false by lia. exists (l_cnt d). split; [reflexivity|].
        rewrite Hd3. split; [exact Hd4|]. unfold b. split; [lia|]. rewrite Hm in Hd1. lia. }
    destruct G as [cnt0 [G1 [G2 [G3 G4]]]]. rewrite G1, G2.
    rewrite (gather_ok (t_subs t) b (Z.to_nat SUBS) cnt0) by (unfold SUBS, n, b in *; lia).
    replace (a + Z.of_nat (Datatypes.S k) - 1) with (a + Z.of_nat k) by lia.
    apply (IH f); [lia|]. right. cbn [l_nsub l_cnt l_subs l_got].
    split; [lia|]. split.
    { destruct Hd as [[_ [Hd2 _]]|[_ [Hd2 _]]]; rewrite Hd2; [reflexivity|].
      replace (n =? 0) with false by lia. reflexivity. }
    split; [reflexivity|]. split; [reflexivity|].
    destruct (b =? 0) eqn:Eb.
    + split; [intros _; unfold b in Eb; lia|reflexivity].
    + split; [|intros X; unfold b in Eb; lia].
      intros G. exfalso. destruct Hd as [[_ [_ Hd3]]|[_ [_ [_ [_ Hd5]]]]]; [congruence|].
      apply Hd5 in G. discriminate.
Qed.

Lemma chain_snoc_inv : forall l x a b, chain a (l ++ [x]) b -> chain a l (fst x) /\ b = fst x + nitems (snd x).
Proof.
  induction l as [|y l IH]; intros x a b H; cbn in *.
  - destruct H as [H1 H2]. split; [symmetry; exact H1|lia].
  - destruct H as [H1 H2]. destruct (IH _ _ _ H2) as [A B]. split; [split; assumption|exact B].
Qed.

Lemma rev_filter : forall A (f : A -> bool) l, rev (filter f l) = filter f (rev l).
Proof.
  intros A f. induction l as [|x l IH]; [reflexivity|]. cbn [filter rev].
  rewrite filter_app. cbn [filter]. destruct (f x).
  - cbn [rev]. rewrite IH. reflexivity.
  - rewrite IH. rewrite app_nil_r. reflexivity.
Qed.

Lemma filter_all_false : forall A (f : A -> bool) l, (forall x, In x l -> f x = false) -> filter f l = [].
Proof.
  intros A f. induction l as [|x l IH]; intros H; [reflexivity|]. cbn [filter].
  rewrite (H x) by (left; reflexivity). apply IH. intros y Hy. apply H. right. exact Hy.
Qed.

Lemma rl_all : forall l b c d, chain 0 l b -> 0 <= c <= b -> clean d ->
  (forall x k, In x l -> 0 <= k < nitems (snd x) -> exists r w, hist (fst x + k) = item_at (snd x) r w k) ->
  (forall x, In x l -> t_xid (snd x) = 0 -> t_subs (snd x) = []) ->
  rl (Z.to_nat (b - c)) (b - 1) d =
  map (fun x => whole (snd x))
    (take_while (fun x => negb (stop (t_oxid (snd x)) (t_xid (snd x))
                                     (match hist (fst x) with Main _ _ _ _ _ time => time | _ => 0 end)))
       (rev (filter (fun x => c <=? fst x) l))).
Proof.
  induction l as [|x l IH] using rev_ind; intros b c d Hc Hb Hd Hi Hx.
  - cbn in Hc. subst b. replace (0 - c) with 0 by lia. reflexivity.
  - destruct (chain_snoc_inv _ _ _ _ Hc) as [C1 C2]. pose proof (nitems_pos (snd x)) as NP.
    rewrite filter_app, rev_app_distr. cbn [filter].
    destruct (c <=? fst x) eqn:E.
    + cbn [rev app take_while].
      destruct (Hi x 0 ltac:(apply in_or_app; right; left; reflexivity) ltac:(lia)) as [r [w H0]].
      rewrite Z.add_0_r in H0.
      destruct (rl_block (snd x) (fst x) r w) with (k := Z.to_nat (nitems (snd x) - 1)) (f := Z.to_nat (fst x - c)) (d := d)
        as [d' [D1 D2]].
      * intros k Hk. apply Hi; [apply in_or_app; right; left; reflexivity|exact Hk].
      * exact H0.
      * apply Hx. apply in_or_app. right. left. reflexivity.
      * lia.
      * left. split; [lia|exact Hd].
      * replace (Z.to_nat (b - c)) with (Datatypes.S (Z.to_nat (nitems (snd x) - 1)) + Z.to_nat (fst x - c))%nat by lia.
        replace (b - 1) with (fst x + Z.of_nat (Z.to_nat (nitems (snd x) - 1))) by lia.
        rewrite D2. rewrite H0. unfold item_at. cbn [Z.eqb].
        destruct (stop (t_oxid (snd x)) (t_xid (snd x)) w); cbn [negb]; [reflexivity|].
        cbn [map]. f_equal. apply IH; [exact C1|lia|exact D1| |].
        -- intros y k Hy Hk. apply Hi; [apply in_or_app; left; exact Hy|exact Hk].
        -- intros y Hy. apply Hx. apply in_or_app. left. exact Hy.
    + cbn [rev app]. rewrite filter_all_false.
      2:{ intros y Hy. pose proof (chain_in _ _ _ _ C1 Hy). pose proof (nitems_pos (snd y)). lia. }
      cbn [rev take_while map]. apply rl_subs. intros p Hp.
      destruct (Hi x (p - fst x) ltac:(apply in_or_app; right; left; reflexivity) ltac:(lia)) as [r [w Hh]].
      rewrite item_sub in Hh by lia. replace (fst x + (p - fst x)) with p in Hh by lia. eauto.
Qed.

End Walk.

(** Where the walk reads: ring, file, ring. *)
Lemma walk_reads : forall c s stop fuel pos d, Q c s -> LEN <= c_n c ->
  (Z.of_nat fuel <= pos + 1 - s_c s) -> pos < s_af s ->
  (s_e s <= pos -> d_k d = 0) ->
  (s_r s <= pos < s_e s -> d_k d = 0 \/ d_base d + d_k d = pos + 1) ->
  rewind_loop c s stop fuel pos d =
  rl (s_hist s) stop fuel pos (mkDl (d_nsub d) (d_cnt d) (d_got d) (d_subs d)).
Proof.
  intros c s stop fuel. induction fuel as [|f IH]; intros pos d I Hn Hf Hp H1 H2; [reflexivity|].
  pose proof (qok_af (c_n c) Hn _ _ _ _ _ _ _ _ I) as AFE.
  cbn [rewind_loop rl].
  assert (Hread : exists d1,
    (if s_e s <=? pos then (s_add s (pos mod c_n c), d)
        else if s_r s <=? pos then
          let '(base, k) := if d_k d =? 0 then (pos - LEN + 1, LEN) else (d_base d, d_k d) in
          (s_disk s (base + (k - 1)), mkD base (k - 1) (d_nsub d) (d_cnt d) (d_got d) (d_subs d))
        else (s_comp s (pos mod c_n c), d)) = (s_hist s pos, d1)
    /\ d_nsub d1 = d_nsub d /\ d_cnt d1 = d_cnt d /\ d_got d1 = d_got d /\ d_subs d1 = d_subs d
    /\ (s_e s <= pos - 1 -> d_k d1 = 0)
    /\ (s_r s <= pos - 1 < s_e s -> d_k d1 = 0 \/ d_base d1 + d_k d1 = pos - 1 + 1)).
  { destruct (s_e s <=? pos) eqn:E1.
    - exists d. rewrite (qadd _ _ _ _ _ _ _ _ _ I) by lia.
      split; [reflexivity|]. split; [reflexivity|]. split; [reflexivity|]. split; [reflexivity|]. split; [reflexivity|].
      split; [intros _; apply H1; lia|]. intros X. left. apply H1. lia.
    - destruct (s_r s <=? pos) eqn:E2.
      + destruct (d_k d =? 0) eqn:Ek.
        * eexists. split; [|split; [|split; [|split; [|split]]]]; [| | | | |].
          -- rewrite <- (qdisk _ _ _ _ _ _ _ _ _ I pos) by lia.
             replace (pos - LEN + 1 + (LEN - 1)) with pos by lia. reflexivity.
          -- reflexivity.
          -- reflexivity.
          -- reflexivity.
          -- reflexivity.
          -- cbn [d_k d_base]. split; [lia|]. intros _. right. lia.
        * destruct (H2 ltac:(lia)) as [X|X]; [lia|].
          eexists. split; [|split; [|split; [|split; [|split]]]]; [| | | | |].
          -- rewrite <- (qdisk _ _ _ _ _ _ _ _ _ I pos) by lia.
             replace (d_base d + (d_k d - 1)) with pos by lia. reflexivity.
          -- reflexivity.
          -- reflexivity.
          -- reflexivity.
          -- reflexivity.
          -- cbn [d_k d_base]. split; [lia|]. intros _. right. lia.
      + exists d. rewrite (qcomp _ _ _ _ _ _ _ _ _ I) by lia.
        split; [reflexivity|]. split; [reflexivity|]. split; [reflexivity|]. split; [reflexivity|]. split; [reflexivity|].
        split; lia. }
  destruct Hread as [d1 [R0 [R1 [R2 [R3 [R4 [R5 R6]]]]]]]. rewrite R0.
  cbn [l_nsub l_cnt l_got l_subs]. rewrite <- R1, <- R2, <- R3, <- R4.
  destruct (s_hist s pos) as [|oxid xid nsub loc retain time|oxid nsub l].
  - f_equal. rewrite IH; [reflexivity|exact I|exact Hn|lia|lia|exact R5|exact R6].
  - destruct (stop oxid xid time); [reflexivity|]. f_equal.
    destruct (negb (xid =? 0) && d_got d1).
    + rewrite IH; [reflexivity|exact I|exact Hn|lia|lia|exact R5|exact R6].
    + rewrite IH; [reflexivity|exact I|exact Hn|lia|lia|exact R5|exact R6].
  - destruct (gather (Z.to_nat SUBS) l (if d_nsub d1 =? 0 then nsub else d_cnt d1)
               (if d_nsub d1 =? 0 then [] else d_subs d1)) as [acc cnt].
    rewrite IH; [reflexivity|exact I|exact Hn|lia|lia|exact R5|exact R6].
Qed.

Lemma rewind_is : forall c s stop, LEN <= c_n c -> Inv c s -> s_af s = s_ar s ->
  do_rewind c s stop = map whole (must_undo s stop).
Proof.
  intros c s stop Hn I Ha. unfold do_rewind.
  pose proof (iq _ _ I) as K.
  pose proof (qo1 _ _ _ _ _ _ _ _ _ K). pose proof (qo2 _ _ _ _ _ _ _ _ _ K).
  pose proof (qo3 _ _ _ _ _ _ _ _ _ K). pose proof (qo4 _ _ _ _ _ _ _ _ _ K).
  rewrite walk_reads; [|exact K|exact Hn|lia|lia|reflexivity|intros _; left; reflexivity].
  cbn [d_nsub d_cnt d_got d_subs].
  rewrite (rl_all (s_hist s) stop (s_resv s) (s_af s) (s_c s)).
  - unfold must_undo, kept, stamp. rewrite map_map. reflexivity.
  - rewrite Ha. apply (ich _ _ I).
  - lia.
  - split; reflexivity.
  - intros x k Hx Hk. destruct (iitem _ _ I x k Hx Hk) as [E|E]; [exfalso|exact E].
    pose proof (chain_in _ _ _ _ (ich _ _ I) Hx).
    apply (qfill _ _ _ _ _ _ _ _ _ K (fst x + k)); [lia|exact E].
  - apply (isubr _ _ I).
Qed.

(** ** When nobody is adding, everything reserved is readable *)
Lemma settled : forall c s, Inv c s -> (forall q, outside (s_procs s q)) -> s_af s = s_ar s.
Proof.
  intros c s I H. pose proof (inv_af _ _ I) as L.
  destruct (Z.eq_dec (s_af s) (s_ar s)) as [E|E]; [exact E|exfalso].
  pose proof (iq _ _ I) as K.
  pose proof (qo1 _ _ _ _ _ _ _ _ _ K). pose proof (qo2 _ _ _ _ _ _ _ _ _ K).
  pose proof (qo3 _ _ _ _ _ _ _ _ _ K). pose proof (qo4 _ _ _ _ _ _ _ _ _ K).
  assert (No : forall q, ~ inside (s_procs s q)).
  { intros q. unfold inside. destruct (H q) as [X|[X|X]]; rewrite X; tauto. }
  destruct (s_hist s (s_af s)) eqn:Hh.
  - destruct (iown _ _ I (s_af s) ltac:(lia) Hh) as [q [O _]]. exact (No q O).
  - destruct (iprog _ _ I) as [q [[[O _] _]|[O|O]]]; [congruence|exact (No q O)| |];
      apply (No q); unfold inside; rewrite O; exact Logic.I.
  - destruct (iprog _ _ I) as [q [[[O _] _]|[O|O]]]; [congruence|exact (No q O)| |];
      apply (No q); unfold inside; rewrite O; exact Logic.I.
Qed.

(** ** What the worker completes *)
Definition passed (c : cfg) (e : Z * item * Z * Z) : Prop :=
  match e with
  | (_, Main _ _ _ _ _ time, now, len) => c_maxage c <= now - time \/ c_maxt c < len
  | _ => True
  end.

Record Inv2 (c : cfg) (s : st) : Prop := {
  dall : forall p, 0 <= p < s_c s -> exists now len, In (p, s_hist s p, now, len) (s_done s);
  dpass : Forall (passed c) (s_done s);
  dco : forall p o x n l r w, 0 <= p < s_c s -> s_hist s p = Main o x n l r w -> o <= s_co s;
  dco0 : 0 <= s_co s;
  dox : forall q, 0 <= t_oxid (p_tx (s_procs s q))
}.

Lemma inv2_init : forall c, Inv2 c init.
Proof. intros c. constructor; cbn; try (intros; lia). constructor. Qed.

Lemma inv2_same : forall c s s', Inv2 c s -> same s s' -> Inv2 c s'.
Proof.
  intros c s s' I Hs.
  destruct Hs as [S1 [S2 [S3 [S4 [S5 [S6 [S7 [S8 [S9 [S10 [S11 [S12 [S13 [S14 [S15 S16]]]]]]]]]]]]]]].
  destruct I as [D1 D2 D3 D4 D5].
  constructor; rewrite ?S3, ?S4, ?S5, ?S15, ?S16 in *; assumption.
Qed.

Lemma inv2_procs : forall c s ar procs w top live mpr db ulog commits resv af add comp disk e r mrr,
  Inv2 c s -> (forall q, 0 <= t_oxid (p_tx (procs q))) ->
  Inv2 c (mkSt add comp disk ar af e r (s_c s) (s_co s) procs w top live mpr mrr db ulog commits resv (s_hist s) (s_done s)).
Proof.
  intros c s ar procs w top live mpr db ulog commits resv af add comp disk e r mrr I H.
  destruct I as [D1 D2 D3 D4 D5]. constructor; cbn; assumption.
Qed.

Lemma inv2_step : forall c s o, LEN <= c_n c -> Inv c s -> Inv2 c s -> Inv2 c (step c s o).
Proof.
  intros c s o Hn I J. pose proof (dox _ _ J) as Hox.
  assert (U : forall p pr, 0 <= t_oxid (p_tx pr) -> forall q, 0 <= t_oxid (p_tx (upd (s_procs s) p pr q))).
  { intros p pr H q. unfold upd. destruct (q =? p); [exact H|apply Hox]. }
  destruct o as [p t|p|p|p|p got|p now|p|m| |now| ]; cbn [step].
  - destruct (t_oxid t <? 0) eqn:Et; [exact J|]. destruct (p_pc (s_procs s p)); try exact J.
    apply inv2_procs; [exact J|]. apply U. cbn. lia.
  - destruct (p_pc (s_procs s p)); try exact J. apply inv2_procs; [exact J|]. apply U. cbn. apply Hox.
  - destruct (p_pc (s_procs s p)); try exact J. apply inv2_procs; [exact J|]. apply U. cbn. apply Hox.
  - destruct (p_pc (s_procs s p)); try exact J. unfold set_pc. apply inv2_procs; [exact J|]. apply U. cbn. apply Hox.
  - destruct (p_pc (s_procs s p)) as [| | | |free af|k|cur|cur] eqn:Ep; try exact J.
    pose proof (ipr _ _ I p) as P. unfold pr_ok in P. rewrite Ep in P. destruct P as [P1 [P2 [P3 P4]]].
    assert (J1 : Inv2 c (if wants_evict c free && got then evict c af s else s)).
    { destruct (wants_evict c free && got); [|exact J].
      destruct (evict_ok c af s Hn (iq _ _ I) P4) as [_ [B _]]. eapply inv2_same; eassumption. }
    unfold set_pc. apply inv2_procs; [exact J1|]. intros q. unfold upd.
    destruct (q =? p); [cbn|]; apply (dox _ _ J1).
  - destruct (p_pc (s_procs s p)) as [| | | |free af|k|cur|cur] eqn:Ep; try exact J.
    pose proof (ipr _ _ I p) as P. unfold pr_ok in P. rewrite Ep in P.
    destruct P as [P1 [P2 [P3 [P4 P5]]]].
    assert (Hh : forall x, 0 <= x < s_c s ->
      upd (s_hist s) (p_start (s_procs s p) + k) (item_at (p_tx (s_procs s p)) (s_mpr s) now k) x = s_hist s x).
    { intros x Hx. apply upd_other. intros E. specialize (P5 k ltac:(lia)). rewrite <- E in P5.
      pose proof (iq _ _ I) as K. pose proof (qo2 _ _ _ _ _ _ _ _ _ K). pose proof (qo3 _ _ _ _ _ _ _ _ _ K).
      pose proof (qo4 _ _ _ _ _ _ _ _ _ K). apply (qfill _ _ _ _ _ _ _ _ _ K x); [lia|exact P5]. }
    destruct J as [D1 D2 D3 D4 D5]. constructor; cbn; try assumption.
    + intros x Hx. rewrite (Hh x Hx). apply D1. exact Hx.
    + intros x o0 x0 n0 l0 r0 w0 Hx Hm. rewrite (Hh x Hx) in Hm. specialize (D3 _ _ _ _ _ _ _ Hx Hm).
      destruct ((k =? 0) && (s_co s =? 0)) eqn:E; [|exact D3]. specialize (Hox p). lia.
    + destruct ((k =? 0) && (s_co s =? 0)); [apply Hox|exact D4].
    + apply U. cbn. apply Hox.
  - destruct (p_pc (s_procs s p)) as [| | | |free af|k|cur|cur] eqn:Ep; try exact J.
    + destruct (s_af s =? cur); [|destruct ((p_start (s_procs s p) <=? s_af s) && (s_af s <? p_start (s_procs s p) + nitems (p_tx (s_procs s p))))].
      * unfold set_pc, set_af. cbn [s_add s_comp s_disk s_ar s_af s_e s_r s_c s_co s_procs s_wpc s_top s_live s_mpr s_mrr s_db s_ulog s_commits s_resv s_hist s_done].
        apply inv2_procs; [exact J|]. apply U. cbn. apply Hox.
      * unfold set_pc. apply inv2_procs; [exact J|]. apply U. cbn. apply Hox.
      * apply inv2_procs; [exact J|]. apply U. cbn. apply Hox.
    + destruct (s_add s (cur mod c_n c)); unfold set_pc; (apply inv2_procs; [exact J|]; apply U; cbn; apply Hox).
  - destruct ((s_mpr s <=? m) && (m <=? s_top s) && forallb (fun l => m <=? l) (s_live s)); [|exact J].
    unfold set_mpr. apply inv2_procs; [exact J|exact Hox].
  - destruct (s_wpc s); try exact J. destruct (s_c s <? s_af s); [|exact J].
    destruct (s_r s <=? s_c s).
    + destruct (restore_ok c s Hn (iq _ _ I)) as [_ [B _]]. pose proof (inv2_same _ _ _ J B) as J1.
      unfold set_wpc. apply inv2_procs; [exact J1|apply (dox _ _ J1)].
    + unfold set_wpc. apply inv2_procs; [exact J|exact Hox].
  - destruct (s_wpc s) eqn:Ew; try exact J.
    pose proof (iw _ _ I Ew) as Hc. pose proof (iq _ _ I) as K.
    pose proof (qcomp _ _ _ _ _ _ _ _ _ K (s_c s) ltac:(lia)) as HC. rewrite HC.
    pose proof (qo1 _ _ _ _ _ _ _ _ _ K) as C0.
    assert (Fin : forall co mrr, s_co s <= co ->
      passed c (s_c s, s_hist s (s_c s), now, s_af s - s_c s) ->
      (forall o x n l r w, s_hist s (s_c s) = Main o x n l r w -> o <= co) ->
      Inv2 c
      (mkSt (s_add s) (upd (s_comp s) (s_c s mod c_n c) Empty) (s_disk s)
                 (s_ar s) (s_af s) (s_e s) (s_r s) (s_c s + 1) co
                 (s_procs s) W2 (s_top s) (s_live s) (s_mpr s) mrr (s_db s) (s_ulog s)
                 (s_commits s) (s_resv s) (s_hist s)
                 (s_done s ++ [(s_c s, s_hist s (s_c s), now, s_af s - s_c s)]))).
    { intros co mrr H1 H2 H3. destruct J as [D1 D2 D3 D4 D5]. constructor; cbn; try assumption.
      - intros p Hp. destruct (Z.eq_dec p (s_c s)) as [E|E].
        + subst p. exists now, (s_af s - s_c s). apply in_or_app. right. left. reflexivity.
        + destruct (D1 p ltac:(lia)) as [n1 [l1 X]]. exists n1, l1. apply in_or_app. left. exact X.
      - apply Forall_app. split; [exact D2|]. constructor; [exact H2|constructor].
      - intros p o x n l r w Hp Hm. destruct (Z.eq_dec p (s_c s)) as [E|E].
        + subst p. apply (H3 _ _ _ _ _ _ Hm).
        + specialize (D3 p _ _ _ _ _ _ ltac:(lia) Hm). lia.
      - lia. }
    destruct (s_hist s (s_c s)) as [|oxid xid nsub loc retain time|oxid nsub l] eqn:Eh.
    + apply Fin; [lia|exact Logic.I|discriminate].
    + destruct ((c_maxage c <=? now - time) || (c_maxt c <? s_af s - s_c s)) eqn:Ex.
      * assert (PS : passed c (s_c s, Main oxid xid nsub loc retain time, now, s_af s - s_c s)) by (cbn; lia).
        destruct (oxid =? 0) eqn:Eo.
        -- apply Fin; [lia|exact PS|]. intros o x n l r w X. inversion X. subst. pose proof (dco0 _ _ J). lia.
        -- apply Fin; [lia|exact PS|]. intros o x n l r w X. inversion X. subst. lia.
      * unfold set_wpc. apply inv2_procs; [exact J|exact Hox].
    + apply Fin; [lia|exact Logic.I|discriminate].
  - destruct (s_wpc s); try exact J.
    destruct (restore_ok c s Hn (iq _ _ I)) as [_ [B _]]. pose proof (inv2_same _ _ _ J B) as J1.
    unfold set_wpc. apply inv2_procs; [exact J1|apply (dox _ _ J1)].
Qed.

Lemma inv2_run : forall c ops, LEN <= c_n c ->
  Inv c (run (step c) init ops) /\ Inv2 c (run (step c) init ops).
Proof.
  intros c ops Hn. apply (run_inv _ _ (step c) (fun s => Inv c s /\ Inv2 c s)).
  - intros s o [A B]. split; [apply inv_step; assumption|apply inv2_step; assumption].
  - split; [apply inv_init; exact Hn|apply inv2_init].
Qed.

Lemma main_at : forall c s x, Inv c s -> In x (s_resv s) -> s_hist s (fst x) <> Empty ->
  exists r, s_hist s (fst x) =
    Main (t_oxid (snd x)) (t_xid (snd x)) (Z.of_nat (length (t_subs (snd x)))) (t_loc (snd x)) r (stamp s (fst x)).
Proof.
  intros c s x I Hx Hh. pose proof (nitems_pos (snd x)).
  destruct (iitem _ _ I x 0 Hx ltac:(lia)) as [E|[r [w E]]]; rewrite Z.add_0_r in E; [contradiction|].
  exists r. unfold stamp. rewrite E. unfold item_at. reflexivity.
Qed.

(** ** Rows and undo records *)
Record Inv3 (s : st) : Prop := {
  edb : s_db s = rows_of (s_commits s);
  eul : forall x, In x (s_resv s) -> 0 <= t_loc (snd x) < s_top s /\ s_ulog s (t_loc (snd x)) = t_writes (snd x);
  epr : forall q, p_pc (s_procs s q) <> Idle ->
          0 <= t_loc (p_tx (s_procs s q)) < s_top s
          /\ s_ulog s (t_loc (p_tx (s_procs s q))) = t_writes (p_tx (s_procs s q))
          /\ In (t_loc (p_tx (s_procs s q))) (s_live s);
  edis : forall q q', p_pc (s_procs s q) <> Idle -> p_pc (s_procs s q') <> Idle ->
          t_loc (p_tx (s_procs s q)) = t_loc (p_tx (s_procs s q')) -> q = q';
  empr : s_mpr s <= s_top s /\ (forall l, In l (s_live s) -> s_mpr s <= l);
  etop : 0 <= s_top s
}.

Lemma inv3_init : Inv3 init.
Proof.
  constructor; cbn.
  - reflexivity.
  - intros x [].
  - intros q H. contradiction.
  - intros q q' H. contradiction.
  - split; [lia|intros l []].
  - lia.
Qed.

Lemma inv3_keep : forall s s', Inv3 s ->
  s_db s' = s_db s -> s_commits s' = s_commits s -> s_resv s' = s_resv s -> s_top s' = s_top s ->
  s_ulog s' = s_ulog s -> s_live s' = s_live s -> s_mpr s' = s_mpr s ->
  (forall q, p_tx (s_procs s' q) = p_tx (s_procs s q) /\ (p_pc (s_procs s' q) <> Idle -> p_pc (s_procs s q) <> Idle)) ->
  Inv3 s'.
Proof.
  intros s s' I E1 E2 E3 E4 E5 E6 E7 H. destruct I as [A1 A2 A3 A4 A5 A6].
  constructor; rewrite ?E1, ?E2, ?E3, ?E4, ?E5, ?E6, ?E7; try assumption.
  - intros q Hq. destruct (H q) as [T P]. rewrite T. apply A3. apply P. exact Hq.
  - intros q q' Hq Hq' E. destruct (H q) as [T P]. destruct (H q') as [T' P']. rewrite T, T' in E.
    apply A4; [apply P; exact Hq|apply P'; exact Hq'|exact E].
Qed.

Lemma inv3_same : forall s s', Inv3 s -> same s s' -> Inv3 s'.
Proof.
  intros s s' I Hs.
  destruct Hs as [S1 [S2 [S3 [S4 [S5 [S6 [S7 [S8 [S9 [S10 [S11 [S12 [S13 [S14 [S15 S16]]]]]]]]]]]]]]].
  apply (inv3_keep s s' I); try assumption. intros q. rewrite S5. split; [reflexivity|tauto].
Qed.

Lemma inv3_setpc : forall s p k, Inv3 s -> p_pc (s_procs s p) <> Idle -> Inv3 (set_pc s p k).
Proof.
  intros s p k I H. apply (inv3_keep s _ I); try reflexivity.
  intros q. cbn. unfold upd. destruct (q =? p) eqn:E; [|split; [reflexivity|tauto]].
  apply Z.eqb_eq in E. subst q. cbn. split; [reflexivity|intros _; exact H].
Qed.

Lemma inv3_finish : forall s p, Inv3 s -> p_pc (s_procs s p) <> Idle ->
  Inv3 (mkSt (s_add s) (s_comp s) (s_disk s) (s_ar s) (s_af s) (s_e s) (s_r s) (s_c s) (s_co s)
             (upd (s_procs s) p (mkProc Idle (p_tx (s_procs s p)) (p_start (s_procs s p)))) (s_wpc s)
             (s_top s) (remove Z.eq_dec (t_loc (p_tx (s_procs s p))) (s_live s)) (s_mpr s) (s_mrr s) (s_db s) (s_ulog s)
             (s_commits s) (s_resv s) (s_hist s) (s_done s)).
Proof.
  intros s p I Hp. destruct I as [A1 A2 A3 A4 A5 A6]. constructor; cbn; try assumption.
  - intros q. unfold upd. destruct (q =? p) eqn:E; cbn; [intros X; contradiction|].
    intros Hq. destruct (A3 q Hq) as [B1 [B2 B3]]. split; [exact B1|]. split; [exact B2|].
    apply in_in_remove; [|exact B3]. intros X. apply (A4 q p Hq Hp) in X. lia.
  - intros q q'. unfold upd. destruct (q =? p) eqn:E; destruct (q' =? p) eqn:E'; cbn; try (intros; contradiction).
    apply A4.
  - destruct A5 as [B1 B2]. split; [exact B1|]. intros l Hl. apply in_remove in Hl. apply B2. tauto.
Qed.

Lemma rows_snoc : forall l t, rows_of (l ++ [t]) = apply_tx (rows_of l) t.
Proof. intros l t. unfold rows_of. rewrite fold_left_app. reflexivity. Qed.

Lemma inv3_step : forall c s o, LEN <= c_n c -> Inv c s -> Inv3 s -> Inv3 (step c s o).
Proof.
  intros c s o Hn I J.
  destruct o as [p t|p|p|p|p got|p now|p|m| |now| ]; cbn [step].
  - destruct (t_oxid t <? 0); [exact J|]. destruct (p_pc (s_procs s p)) eqn:Ep; try exact J.
    destruct J as [A1 A2 A3 A4 A5 A6]. constructor; cbn; try assumption.
    + intros x Hx. destruct (A2 x Hx) as [B1 B2]. split; [lia|]. rewrite upd_other by lia. exact B2.
    + intros q. destruct (Z.eq_dec q p) as [E|E].
      * subst q. rewrite !upd_same. cbn. intros _. split; [lia|]. rewrite ?upd_same. split; [reflexivity|left; reflexivity].
      * rewrite !(upd_other _ (s_procs s) p _ q) by exact E.
        intros Hq. destruct (A3 q Hq) as [B1 [B2 B3]]. split; [lia|].
        split; [|right; exact B3]. rewrite upd_other by lia. exact B2.
    + intros q q'. unfold upd. destruct (q =? p) eqn:E; destruct (q' =? p) eqn:E'; cbn.
      * lia.
      * intros _ Hq X. destruct (A3 q' Hq) as [B1 _]. lia.
      * intros Hq _ X. destruct (A3 q Hq) as [B1 _]. lia.
      * apply A4.
    + destruct A5 as [B1 B2]. split; [lia|]. intros l [Hl|Hl]; [lia|apply B2; exact Hl].
    + lia.
  - destruct (p_pc (s_procs s p)) eqn:Ep; try exact J.
    destruct J as [A1 A2 A3 A4 A5 A6]. constructor; cbn; try assumption.
    + change (apply_tx (s_db s) (p_tx (s_procs s p)) = rows_of (s_commits s ++ [p_tx (s_procs s p)])).
      rewrite rows_snoc, <- A1. reflexivity.
    + intros q. unfold upd. destruct (q =? p) eqn:E; cbn; [|apply A3].
      intros _. apply Z.eqb_eq in E. subst q. apply A3. rewrite Ep. discriminate.
    + intros q q'. unfold upd. destruct (q =? p) eqn:E; destruct (q' =? p) eqn:E'; cbn.
      * lia.
      * intros _ Hq X. apply Z.eqb_eq in E. subst q. apply A4; [rewrite Ep; discriminate|exact Hq|exact X].
      * intros Hq _ X. apply Z.eqb_eq in E'. subst q'. apply A4; [exact Hq|rewrite Ep; discriminate|exact X].
      * apply A4.
  - destruct (p_pc (s_procs s p)) eqn:Ep; try exact J.
    destruct J as [A1 A2 A3 A4 A5 A6]. constructor; cbn; try assumption.
    + intros x Hx. apply in_app_or in Hx. destruct Hx as [Hx|[Hx|[]]]; [apply A2; exact Hx|].
      subst x. cbn. destruct (A3 p ltac:(rewrite Ep; discriminate)) as [B1 [B2 B3]]. split; assumption.
    + intros q. unfold upd. destruct (q =? p) eqn:E; cbn; [|apply A3].
      intros _. apply Z.eqb_eq in E. subst q. apply A3. rewrite Ep. discriminate.
    + intros q q'. unfold upd. destruct (q =? p) eqn:E; destruct (q' =? p) eqn:E'; cbn.
      * lia.
      * intros _ Hq X. apply Z.eqb_eq in E. subst q. apply A4; [rewrite Ep; discriminate|exact Hq|exact X].
      * intros Hq _ X. apply Z.eqb_eq in E'. subst q'. apply A4; [exact Hq|rewrite Ep; discriminate|exact X].
      * apply A4.
  - destruct (p_pc (s_procs s p)) eqn:Ep; try exact J. apply inv3_setpc; [exact J|rewrite Ep; discriminate].
  - destruct (p_pc (s_procs s p)) as [| | | |free af|k|cur|cur] eqn:Ep; try exact J.
    pose proof (ipr _ _ I p) as P. unfold pr_ok in P. rewrite Ep in P. destruct P as [P1 [P2 [P3 P4]]].
    assert (J1 : same s (if wants_evict c free && got then evict c af s else s)).
    { destruct (wants_evict c free && got); [|apply same_refl].
      destruct (evict_ok c af s Hn (iq _ _ I) P4) as [_ [B _]]. exact B. }
    apply inv3_setpc; [eapply inv3_same; eassumption|].
    destruct J1 as [_ [_ [_ [_ [S5 _]]]]]. rewrite S5, Ep. discriminate.
  - destruct (p_pc (s_procs s p)) as [| | | |free af|k|cur|cur] eqn:Ep; try exact J.
    apply (inv3_keep s _ J); try reflexivity.
    intros q. cbn. unfold upd. destruct (q =? p) eqn:E; [|split; [reflexivity|tauto]].
    apply Z.eqb_eq in E. subst q. cbn. split; [reflexivity|]. rewrite Ep. discriminate.
  - destruct (p_pc (s_procs s p)) as [| | | |free af|k|cur|cur] eqn:Ep; try exact J.
    + destruct (s_af s =? cur); [|destruct ((p_start (s_procs s p) <=? s_af s) && (s_af s <? p_start (s_procs s p) + nitems (p_tx (s_procs s p))))].
      * apply inv3_setpc; [|cbn; rewrite Ep; discriminate].
        apply (inv3_keep s _ J); try reflexivity. intros q. split; [reflexivity|tauto].
      * apply inv3_setpc; [exact J|rewrite Ep; discriminate].
      * apply inv3_finish; [exact J|rewrite Ep; discriminate].
    + destruct (s_add s (cur mod c_n c)); [apply inv3_finish|apply inv3_setpc|apply inv3_setpc];
        solve [exact J|rewrite Ep; discriminate].
  - destruct ((s_mpr s <=? m) && (m <=? s_top s) && forallb (fun l => m <=? l) (s_live s)) eqn:E; [|exact J].
    apply andb_true_iff in E. destruct E as [E1 E2]. rewrite forallb_forall in E2.
    destruct J as [A1 A2 A3 A4 A5 A6]. constructor; cbn; try assumption.
    split; [lia|]. intros l Hl. specialize (E2 l Hl). lia.
  - destruct (s_wpc s); try exact J. destruct (s_c s <? s_af s); [|exact J].
    destruct (s_r s <=? s_c s).
    + destruct (restore_ok c s Hn (iq _ _ I)) as [_ [B _]]. pose proof (inv3_same _ _ J B) as J1.
      apply (inv3_keep _ _ J1); try reflexivity. intros q. split; [reflexivity|tauto].
    + apply (inv3_keep _ _ J); try reflexivity. intros q. split; [reflexivity|tauto].
  - destruct (s_wpc s) eqn:Ew; try exact J.
    destruct (s_comp s (s_c s mod c_n c)) as [|oxid xid nsub loc retain time|oxid nsub l];
      [|destruct ((c_maxage c <=? now - time) || (c_maxt c <? s_af s - s_c s)); [destruct (oxid =? 0)|]|];
      (apply (inv3_keep _ _ J); try reflexivity; intros q; split; [reflexivity|tauto]).
  - destruct (s_wpc s); try exact J.
    destruct (restore_ok c s Hn (iq _ _ I)) as [_ [B _]]. pose proof (inv3_same _ _ J B) as J1.
    apply (inv3_keep _ _ J1); try reflexivity. intros q. split; [reflexivity|tauto].
Qed.

Lemma inv3_run : forall c ops, LEN <= c_n c -> Inv3 (run (step c) init ops).
Proof.
  intros c ops Hn.
  assert (Inv c (run (step c) init ops) /\ Inv3 (run (step c) init ops)) as [_ H]; [|exact H].
  apply (run_inv _ _ (step c) (fun s => Inv c s /\ Inv3 s)).
  - intros s o [A B]. split; [apply inv_step; assumption|apply inv3_step with (c := c); assumption].
  - split; [apply inv_init; exact Hn|apply inv3_init].
Qed.

(** ** Undoing a transaction takes its writes away *)
Definition eqdb (a b : Z -> list (Z * Z)) : Prop := forall k, a k = b k.

Lemma push_ext : forall o a b w, eqdb a b -> eqdb (push o a w) (push o b w).
Proof. intros o a b w H k. unfold push, upd. rewrite (H (fst w)). destruct (k =? fst w); [reflexivity|apply H]. Qed.

Lemma unpush_ext : forall o a b w, eqdb a b -> eqdb (unpush o a w) (unpush o b w).
Proof.
  intros o a b w H k. unfold unpush. rewrite (H (fst w)). destruct (b (fst w)) as [|[o' v] rest]; [apply H|].
  destruct (o' =? o); [|apply H]. unfold upd. destruct (k =? fst w); [reflexivity|apply H].
Qed.

Lemma fold_unpush_ext : forall o ws a b, eqdb a b -> eqdb (fold_left (unpush o) ws a) (fold_left (unpush o) ws b).
Proof.
  intros o ws. induction ws as [|w ws IH]; intros a b H; [exact H|]. cbn. apply IH. apply unpush_ext. exact H.
Qed.

Lemma unpush_push : forall o a w, eqdb (unpush o (push o a w) w) a.
Proof.
  intros o a w k. unfold unpush, push. rewrite upd_same. rewrite Z.eqb_refl. unfold upd.
  destruct (k =? fst w) eqn:E; [|reflexivity]. apply Z.eqb_eq in E. rewrite E. reflexivity.
Qed.

Lemma undo_writes : forall o ws a, eqdb (fold_left (unpush o) (rev ws) (fold_left (push o) ws a)) a.
Proof.
  intros o ws. induction ws as [|w ws IH] using rev_ind; intros a; [intros k; reflexivity|].
  rewrite fold_left_app. cbn [fold_left]. rewrite rev_app_distr. cbn [rev app fold_left].
  intros k. rewrite <- (IH a k). apply fold_unpush_ext. apply unpush_push.
Qed.

Lemma undo_ext : forall s u a b, eqdb a b -> eqdb (undo_entry s a u) (undo_entry s b u).
Proof.
  intros s u a b H. unfold undo_entry. destruct (u_oxid u =? 0); [exact H|]. apply fold_unpush_ext. exact H.
Qed.

Lemma fold_undo_ext : forall s us a b, eqdb a b -> eqdb (fold_left (undo_entry s) us a) (fold_left (undo_entry s) us b).
Proof.
  intros s us. induction us as [|u us IH]; intros a b H; [exact H|]. cbn. apply IH. apply undo_ext. exact H.
Qed.

Lemma undo_apply : forall s t a, s_ulog s (t_loc t) = t_writes t ->
  eqdb (undo_entry s (apply_tx a t) (whole t)) a.
Proof.
  intros s t a H. unfold undo_entry, apply_tx, whole. cbn. rewrite H.
  destruct (t_oxid t =? 0); [intros k; reflexivity|]. apply undo_writes.
Qed.

Lemma undo_suffix : forall s suf pre,
  (forall t, In t suf -> s_ulog s (t_loc t) = t_writes t) ->
  eqdb (fold_left (undo_entry s) (map whole (rev suf)) (rows_of (pre ++ suf))) (rows_of pre).
Proof.
  intros s suf. induction suf as [|t suf IH] using rev_ind; intros pre H.
  - rewrite app_nil_r. intros k. reflexivity.
  - rewrite rev_app_distr. cbn [rev app map fold_left]. rewrite app_assoc, rows_snoc.
    intros k. rewrite <- (IH pre).
    + apply fold_undo_ext. apply undo_apply. apply H. apply in_or_app. right. left. reflexivity.
    + intros x Hx. apply H. apply in_or_app. left. exact Hx.
Qed.

Lemma take_while_prefix : forall A (f : A -> bool) l, exists r, l = take_while f l ++ r.
Proof.
  intros A f. induction l as [|x l [r IH]]; [exists []; reflexivity|].
  cbn. destruct (f x); [exists r; cbn; congruence|exists (x :: l); reflexivity].
Qed.

Lemma kept_suffix : forall l a b c, chain a l b ->
  l = filter (fun x => fst x <? c) l ++ filter (fun x => c <=? fst x) l.
Proof.
  induction l as [|x l IH]; intros a b c H; [reflexivity|].
  destruct H as [H1 H2]. cbn [filter]. destruct (fst x <? c) eqn:E.
  - replace (c <=? fst x) with false by lia. cbn [app]. f_equal. eapply IH. exact H2.
  - replace (c <=? fst x) with true by lia.
    rewrite (filter_all_false _ (fun y => fst y <? c)).
    + cbn [app]. f_equal. rewrite (IH _ _ c H2) at 1.
      rewrite (filter_all_false _ (fun y => fst y <? c)); [reflexivity|].
      intros y Hy. pose proof (chain_in _ _ _ _ H2 Hy). pose proof (nitems_pos (snd x)). lia.
    + intros y Hy. pose proof (chain_in _ _ _ _ H2 Hy). pose proof (nitems_pos (snd x)). lia.
Qed.

(** ** The undo records of queued transactions are kept *)
Record Inv4 (s : st) : Prop := {
  fhist : forall p o x n l r w, s_hist s p = Main o x n l r w -> r <= s_mpr s
     /\ (forall y, In y (s_resv s) -> p <= fst y -> r <= t_loc (snd y))
     /\ (forall q, p_pc (s_procs s q) = Active \/ p_pc (s_procs s q) = Committed -> r <= t_loc (p_tx (s_procs s q)));
  fmrr : s_mrr s <= s_mpr s
     /\ (forall y, In y (s_resv s) -> s_c s <= fst y -> s_mrr s <= t_loc (snd y))
     /\ (forall q, p_pc (s_procs s q) = Active \/ p_pc (s_procs s q) = Committed -> s_mrr s <= t_loc (p_tx (s_procs s q)))
}.

Lemma inv4_init : Inv4 init.
Proof.
  constructor; cbn.
  - discriminate.
  - split; [lia|]. split; [tauto|]. intros q [H|H]; discriminate.
Qed.

Lemma inv4_keep : forall s s', Inv4 s -> s_hist s' = s_hist s -> s_mpr s' = s_mpr s -> s_resv s' = s_resv s ->
  s_mrr s' = s_mrr s -> s_c s' = s_c s ->
  (forall q, p_tx (s_procs s' q) = p_tx (s_procs s q) /\
     (p_pc (s_procs s' q) = Active \/ p_pc (s_procs s' q) = Committed ->
      p_pc (s_procs s q) = Active \/ p_pc (s_procs s q) = Committed)) -> Inv4 s'.
Proof.
  intros s s' [A1 A2] E1 E2 E3 E4 E5 H. constructor; rewrite ?E1, ?E2, ?E3, ?E4, ?E5.
  - intros p o x n l r w Hh. destruct (A1 _ _ _ _ _ _ _ Hh) as [B1 [B2 B3]].
    split; [exact B1|]. split; [exact B2|]. intros q Hq. destruct (H q) as [T P]. rewrite T. apply B3. apply P. exact Hq.
  - destruct A2 as [B1 [B2 B3]].
    split; [exact B1|]. split; [exact B2|]. intros q Hq. destruct (H q) as [T P]. rewrite T. apply B3. apply P. exact Hq.
Qed.

Lemma inv4_same : forall s s', Inv4 s -> same s s' -> Inv4 s'.
Proof.
  intros s s' I Hs.
  destruct Hs as [S1 [S2 [S3 [S4 [S5 [S6 [S7 [S8 [S9 [S10 [S11 [S12 [S13 [S14 [S15 S16]]]]]]]]]]]]]]].
  apply (inv4_keep s s' I); try assumption. intros q. rewrite S5. split; [reflexivity|tauto].
Qed.

Lemma inv4_setpc : forall s p k, Inv4 s -> k <> Active -> k <> Committed -> Inv4 (set_pc s p k).
Proof.
  intros s p k I H1 H2. apply (inv4_keep s _ I); try reflexivity.
  intros q. cbn. unfold upd. destruct (q =? p) eqn:E; [|split; [reflexivity|tauto]].
  apply Z.eqb_eq in E. subst q. cbn. split; [reflexivity|intros [X|X]; contradiction].
Qed.

Lemma inv4_step : forall c s o, LEN <= c_n c -> Inv c s -> Inv3 s -> in_time s o -> Inv4 s -> Inv4 (step c s o).
Proof.
  intros c s o Hn I E3 Ht J.
  destruct o as [p t|p|p|p|p got|p now|p|m| |now| ]; cbn [step].
  - destruct (t_oxid t <? 0); [exact J|]. destruct (p_pc (s_procs s p)) eqn:Ep; try exact J.
    pose proof (empr _ E3) as [M1 M2]. destruct J as [A1 A2]. constructor; cbn.
    + intros x o y n l r w Hh. destruct (A1 _ _ _ _ _ _ _ Hh) as [B1 [B2 B3]].
      split; [exact B1|]. split; [exact B2|]. intros q. unfold upd. destruct (q =? p); cbn; [lia|apply B3].
    + destruct A2 as [B1 [B2 B3]].
      split; [exact B1|]. split; [exact B2|]. intros q. unfold upd. destruct (q =? p); cbn; [lia|apply B3].
  - destruct (p_pc (s_procs s p)) eqn:Ep; try exact J.
    apply (inv4_keep s _ J); try reflexivity. intros q. cbn. unfold upd.
    destruct (q =? p) eqn:E; [|split; [reflexivity|tauto]].
    apply Z.eqb_eq in E. subst q. cbn. split; [reflexivity|]. intros _. left. exact Ep.
  - destruct (p_pc (s_procs s p)) eqn:Ep; try exact J.
    destruct J as [A1 A2]. constructor; cbn.
    + intros x o y n l r w Hh. destruct (A1 _ _ _ _ _ _ _ Hh) as [B1 [B2 B3]].
      split; [exact B1|]. split.
      * intros z Hz Hp. apply in_app_or in Hz. destruct Hz as [Hz|[Hz|[]]]; [apply B2; assumption|].
        subst z. cbn. apply B3. right. exact Ep.
      * intros q. unfold upd. destruct (q =? p); cbn; [intros [X|X]; discriminate|apply B3].
    + destruct A2 as [B1 [B2 B3]]. split; [exact B1|]. split.
      * intros z Hz Hp. apply in_app_or in Hz. destruct Hz as [Hz|[Hz|[]]]; [apply B2; assumption|].
        subst z. cbn. apply B3. right. exact Ep.
      * intros q. unfold upd. destruct (q =? p); cbn; [intros [X|X]; discriminate|apply B3].
  - destruct (p_pc (s_procs s p)) eqn:Ep; try exact J. apply inv4_setpc; [exact J|discriminate|discriminate].
  - destruct (p_pc (s_procs s p)) as [| | | |free af|k|cur|cur] eqn:Ep; try exact J.
    pose proof (ipr _ _ I p) as P. unfold pr_ok in P. rewrite Ep in P. destruct P as [P1 [P2 [P3 P4]]].
    assert (J1 : same s (if wants_evict c free && got then evict c af s else s)).
    { destruct (wants_evict c free && got); [|apply same_refl].
      destruct (evict_ok c af s Hn (iq _ _ I) P4) as [_ [B _]]. exact B. }
    apply inv4_setpc; [eapply inv4_same; eassumption| |]; destruct (1 <=? free); discriminate.
  - destruct (p_pc (s_procs s p)) as [| | | |free af|k|cur|cur] eqn:Ep; try exact J.
    pose proof (empr _ E3) as [M1 M2].
    cbn in Ht. rewrite Ep in Ht.
    destruct J as [A1 A2].
    assert (Pr : forall q, p_pc (upd (s_procs s) p
        (mkProc (if k + 1 =? nitems (p_tx (s_procs s p)) then BCas (p_start (s_procs s p)) else Fill (k + 1))
           (p_tx (s_procs s p)) (p_start (s_procs s p))) q) = Active \/
        p_pc (upd (s_procs s) p
        (mkProc (if k + 1 =? nitems (p_tx (s_procs s p)) then BCas (p_start (s_procs s p)) else Fill (k + 1))
           (p_tx (s_procs s p)) (p_start (s_procs s p))) q) = Committed ->
        q <> p /\ (p_pc (s_procs s q) = Active \/ p_pc (s_procs s q) = Committed)).
    { intros q. unfold upd. destruct (q =? p) eqn:E.
      - cbn. destruct (k + 1 =? nitems (p_tx (s_procs s p))); intros [X|X]; discriminate.
      - intros X. split; [lia|exact X]. }
    constructor; cbn.
    + intros x o y n l r w Hh.
      assert (Old : s_hist s x = Main o y n l r w -> r <= s_mpr s /\
        (forall z, In z (s_resv s) -> x <= fst z -> r <= t_loc (snd z)) /\
        (forall q, p_pc (upd (s_procs s) p
        (mkProc (if k + 1 =? nitems (p_tx (s_procs s p)) then BCas (p_start (s_procs s p)) else Fill (k + 1))
           (p_tx (s_procs s p)) (p_start (s_procs s p))) q) = Active \/
        p_pc (upd (s_procs s) p
        (mkProc (if k + 1 =? nitems (p_tx (s_procs s p)) then BCas (p_start (s_procs s p)) else Fill (k + 1))
           (p_tx (s_procs s p)) (p_start (s_procs s p))) q) = Committed ->
           r <= t_loc (p_tx (upd (s_procs s) p
        (mkProc (if k + 1 =? nitems (p_tx (s_procs s p)) then BCas (p_start (s_procs s p)) else Fill (k + 1))
           (p_tx (s_procs s p)) (p_start (s_procs s p))) q)))).
      { intros Hh'. destruct (A1 _ _ _ _ _ _ _ Hh') as [B1 [B2 B3]]. split; [exact B1|]. split; [exact B2|].
        intros q Hq. destruct (Pr q Hq) as [N Hq']. rewrite upd_other by exact N. apply B3. exact Hq'. }
      unfold upd in Hh at 1. destruct (x =? p_start (s_procs s p) + k) eqn:E; [|apply Old; exact Hh].
      unfold item_at in Hh. destruct (k =? 0) eqn:Ek; [|discriminate].
      inversion Hh as [[X1 X2 X3 X4 X5 X6]]. split; [lia|]. split.
      * intros z Hz Hx. apply M2. apply Ht; [f_equal; lia|exact Hz|lia].
      * intros q Hq. destruct (Pr q Hq) as [N Hq']. rewrite upd_other by exact N. apply M2.
        apply (epr _ E3). destruct Hq' as [Y|Y]; rewrite Y; discriminate.
    + destruct A2 as [B1 [B2 B3]]. split; [exact B1|]. split; [exact B2|].
      intros q Hq. destruct (Pr q Hq) as [N Hq']. rewrite upd_other by exact N. apply B3. exact Hq'.
  - destruct (p_pc (s_procs s p)) as [| | | |free af|k|cur|cur] eqn:Ep; try exact J.
    + destruct (s_af s =? cur); [|destruct ((p_start (s_procs s p) <=? s_af s) && (s_af s <? p_start (s_procs s p) + nitems (p_tx (s_procs s p))))].
      * apply inv4_setpc; [|discriminate|discriminate].
        apply (inv4_keep s _ J); try reflexivity. intros q. split; [reflexivity|tauto].
      * apply inv4_setpc; [exact J|discriminate|discriminate].
      * apply (inv4_keep s _ J); try reflexivity. intros q. cbn. unfold upd.
        destruct (q =? p) eqn:E; [|split; [reflexivity|tauto]].
        apply Z.eqb_eq in E. subst q. cbn. split; [reflexivity|intros [X|X]; discriminate].
    + destruct (s_add s (cur mod c_n c)).
      * apply (inv4_keep s _ J); try reflexivity. intros q. cbn. unfold upd.
        destruct (q =? p) eqn:E; [|split; [reflexivity|tauto]].
        apply Z.eqb_eq in E. subst q. cbn. split; [reflexivity|intros [X|X]; discriminate].
      * apply inv4_setpc; [exact J|discriminate|discriminate].
      * apply inv4_setpc; [exact J|discriminate|discriminate].
  - destruct ((s_mpr s <=? m) && (m <=? s_top s) && forallb (fun l => m <=? l) (s_live s)) eqn:E; [|exact J].
    destruct J as [A1 A2]. constructor; cbn.
    + intros x o y n l r w Hh. destruct (A1 _ _ _ _ _ _ _ Hh) as [B1 [B2 B3]].
      split; [lia|]. split; assumption.
    + destruct A2 as [B1 [B2 B3]]. split; [lia|]. split; assumption.
  - destruct (s_wpc s); try exact J. destruct (s_c s <? s_af s); [|exact J].
    destruct (s_r s <=? s_c s).
    + destruct (restore_ok c s Hn (iq _ _ I)) as [_ [B _]]. pose proof (inv4_same _ _ J B) as J1.
      apply (inv4_keep _ _ J1); try reflexivity. intros q. split; [reflexivity|tauto].
    + apply (inv4_keep _ _ J); try reflexivity. intros q. split; [reflexivity|tauto].
  - destruct (s_wpc s) eqn:Ew; try exact J.
    pose proof (iw _ _ I Ew) as Hc. pose proof (iq _ _ I) as K.
    pose proof (qcomp _ _ _ _ _ _ _ _ _ K (s_c s) ltac:(lia)) as HC. rewrite HC.
    destruct J as [A1 A2].
    assert (Fin : forall co mrr,
       mrr = s_mrr s \/ (exists o x n l w, s_hist s (s_c s) = Main o x n l mrr w) ->
       Inv4 (mkSt (s_add s) (upd (s_comp s) (s_c s mod c_n c) Empty) (s_disk s)
                 (s_ar s) (s_af s) (s_e s) (s_r s) (s_c s + 1) co
                 (s_procs s) W2 (s_top s) (s_live s) (s_mpr s) mrr (s_db s) (s_ulog s)
                 (s_commits s) (s_resv s) (s_hist s)
                 (s_done s ++ [(s_c s, s_hist s (s_c s), now, s_af s - s_c s)]))).
    { intros co mrr H. constructor; cbn; [exact A1|].
      destruct H as [H|[o [x [n [l [w H]]]]]].
      - subst mrr. destruct A2 as [B1 [B2 B3]]. split; [exact B1|]. split; [|exact B3].
        intros y Hy Hp. apply B2; [exact Hy|lia].
      - destruct (A1 _ _ _ _ _ _ _ H) as [B1 [B2 B3]]. split; [exact B1|]. split; [|exact B3].
        intros y Hy Hp. apply B2; [exact Hy|lia]. }
    destruct (s_hist s (s_c s)) as [|oxid xid nsub loc retain time|oxid nsub l] eqn:Eh.
    + apply Fin. left. reflexivity.
    + destruct ((c_maxage c <=? now - time) || (c_maxt c <? s_af s - s_c s)).
      * destruct (oxid =? 0); apply Fin; [left; reflexivity|right; eauto 10].
      * apply (inv4_keep s); try reflexivity; [constructor; assumption|]. intros q. split; [reflexivity|tauto].
    + apply Fin. left. reflexivity.
  - destruct (s_wpc s); try exact J.
    destruct (restore_ok c s Hn (iq _ _ I)) as [_ [B _]]. pose proof (inv4_same _ _ J B) as J1.
    apply (inv4_keep _ _ J1); try reflexivity. intros q. split; [reflexivity|tauto].
Qed.

Lemma inv4_run : forall c ops s, LEN <= c_n c -> Inv c s -> Inv3 s -> Inv4 s -> all_in_time c s ops ->
  Inv4 (run (step c) s ops).
Proof.
  intros c ops. induction ops as [|o ops IH]; intros s Hn I E J H; [exact J|].
  destruct H as [H1 H2]. change (run (step c) s (o :: ops)) with (run (step c) (step c s o) ops).
  apply IH; [exact Hn|apply inv_step; assumption|apply inv3_step with (c := c); assumption| |exact H2].
  apply inv4_step; assumption.
Qed.

Lemma take_while_all : forall A (f : A -> bool) l, (forall x, In x l -> f x = true) -> take_while f l = l.
Proof.
  intros A f l. induction l as [|x l IH]; intros H; [reflexivity|]. cbn. rewrite H by (left; reflexivity).
  f_equal. apply IH. intros y Hy. apply H. right. exact Hy.
Qed.

Lemma take_while_app_stop : forall A (f : A -> bool) l x r, f x = false -> take_while f (l ++ x :: r) = take_while f l.
Proof.
  intros A f l x r H. induction l as [|y l IH]; cbn; [rewrite H; reflexivity|].
  destruct (f y); [f_equal; exact IH|reflexivity].
Qed.

Lemma filter_all_true : forall A (f : A -> bool) l, (forall x, In x l -> f x = true) -> filter f l = l.
Proof.
  intros A f l. induction l as [|x l IH]; intros H; [reflexivity|]. cbn. rewrite H by (left; reflexivity).
  f_equal. apply IH. intros y Hy. apply H. right. exact Hy.
Qed.

(** Walking back over growing identifiers finds exactly the large ones. *)
Lemma walk_ids : forall l k, ids_grow l ->
  take_while (fun t => k <=? t_oxid t) (rev l) = rev (filter (fun t => k <=? t_oxid t) l).
Proof.
  induction l as [|t l IH]; intros k H; [reflexivity|]. destruct H as [H1 [H2 H3]].
  cbn [rev filter]. destruct (k <=? t_oxid t) eqn:E.
  - rewrite take_while_all.
    + cbn [rev]. f_equal. f_equal. symmetry. apply filter_all_true. rewrite Forall_forall in H2.
      intros u Hu. specialize (H2 u Hu). cbn in H2. lia.
    + rewrite Forall_forall in H2. intros u Hu. apply in_app_or in Hu. destruct Hu as [Hu|[Hu|[]]].
      * apply in_rev in Hu. specialize (H2 u Hu). cbn in H2. lia.
      * subst u. exact E.
  - rewrite take_while_app_stop by exact E. apply IH. exact H3.
Qed.

Lemma ids_split : forall l k, ids_grow l ->
  l = filter (fun t => t_oxid t <? k) l ++ filter (fun t => k <=? t_oxid t) l.
Proof.
  induction l as [|t l IH]; intros k H; [reflexivity|]. destruct H as [H1 [H2 H3]]. cbn [filter].
  destruct (t_oxid t <? k) eqn:E.
  - replace (k <=? t_oxid t) with false by lia. cbn [app]. f_equal. apply IH. exact H3.
  - replace (k <=? t_oxid t) with true by lia. rewrite Forall_forall in H2.
    rewrite (filter_all_false _ (fun y => t_oxid y <? k)).
    + cbn [app]. f_equal. symmetry. apply filter_all_true.
      intros u Hu. specialize (H2 u Hu). cbn in H2. lia.
    + intros u Hu. specialize (H2 u Hu). cbn in H2. lia.
Qed.

Lemma ids_pos : forall l t, ids_grow l -> In t l -> 0 < t_oxid t.
Proof.
  induction l as [|x l IH]; intros t H Ht; [contradiction|]. destruct H as [H1 [H2 H3]].
  destruct Ht as [Ht|Ht]; [subst; exact H1|apply IH; assumption].
Qed.

Lemma take_while_map : forall A B (g : A -> B) f l,
  map g (take_while (fun x => f (g x)) l) = take_while f (map g l).
Proof.
  intros A B g f l. induction l as [|x l IH]; [reflexivity|]. cbn. destruct (f (g x)); [cbn; f_equal; exact IH|reflexivity].
Qed.

Lemma take_while_ext : forall A (f g : A -> bool) l, (forall x, In x l -> f x = g x) -> take_while f l = take_while g l.
Proof.
  intros A f g l. induction l as [|x l IH]; intros H; [reflexivity|]. cbn. rewrite H by (left; reflexivity).
  destruct (g x); [f_equal|reflexivity]. apply IH. intros y Hy. apply H. right. exact Hy.
Qed.

(** A backend that needs more room than the ring has waits for ever. *)
Lemma waits : forall c s o p, LEN <= c_n c -> Inv c s -> waiting (s_procs s p) ->
  c_n c <= nitems (p_tx (s_procs s p)) ->
  waiting (s_procs (step c s o) p) /\ p_tx (s_procs (step c s o) p) = p_tx (s_procs s p).
Proof.
  intros c s o p Hn I W Hm.
  pose proof (iq _ _ I) as K. pose proof (ipr _ _ I p) as P.
  assert (In (p_start (s_procs s p), p_tx (s_procs s p)) (s_resv s)) as Hin.
  { eapply inside_in; [exact P|]. unfold inside, waiting in *. destruct (p_pc (s_procs s p)); tauto. }
  pose proof (chain_in _ _ _ _ (ich _ _ I) Hin) as Hst. cbn [fst] in Hst.
  assert (forall j, 0 <= j < nitems (p_tx (s_procs s p)) -> s_hist s (p_start (s_procs s p) + j) = Empty) as Hemp.
  { unfold pr_ok, waiting in *. destruct (p_pc (s_procs s p)); tauto. }
  assert (s_e s <= p_start (s_procs s p)) as He.
  { pose proof (qo4 _ _ _ _ _ _ _ _ _ K).
    destruct (Z_le_gt_dec (s_af s) (p_start (s_procs s p))) as [L|L]; [lia|exfalso].
    pose proof (nitems_pos (p_tx (s_procs s p))).
    apply (qfill _ _ _ _ _ _ _ _ _ K (p_start (s_procs s p)) ltac:(lia)).
    specialize (Hemp 0 ltac:(lia)). rewrite Z.add_0_r in Hemp. exact Hemp. }
  assert (Oth : forall r q, q <> p -> waiting (upd (s_procs s) q r p) /\ p_tx (upd (s_procs s) q r p) = p_tx (s_procs s p)).
  { intros r q N. rewrite upd_other by (intros X; apply N; symmetry; exact X). split; [exact W|reflexivity]. }
  assert (Same : waiting (s_procs s p) /\ p_tx (s_procs s p) = p_tx (s_procs s p)) by (split; [exact W|reflexivity]).
  destruct o as [q t|q|q|q|q got|q now|q|m| |now| ]; cbn [step].
  - destruct (t_oxid t <? 0); [exact Same|]. destruct (p_pc (s_procs s q)) eqn:Ep; try exact Same. cbn.
    apply Oth. intros X. subst q. unfold waiting in W. rewrite Ep in W. exact W.
  - destruct (p_pc (s_procs s q)) eqn:Ep; try exact Same. cbn.
    apply Oth. intros X. subst q. unfold waiting in W. rewrite Ep in W. exact W.
  - destruct (p_pc (s_procs s q)) eqn:Ep; try exact Same. cbn.
    apply Oth. intros X. subst q. unfold waiting in W. rewrite Ep in W. exact W.
  - destruct (p_pc (s_procs s q)) eqn:Ep; try exact Same. cbn.
    destruct (Z.eq_dec q p) as [X|X]; [|apply Oth; exact X]. subst q. rewrite upd_same. split; [exact Logic.I|reflexivity].
  - destruct (p_pc (s_procs s q)) as [| | | |free af|k|cur|cur] eqn:Ep; try exact Same.
    assert (S5 : s_procs (if wants_evict c free && got then evict c af s else s) = s_procs s).
    { destruct (wants_evict c free && got); [|reflexivity].
      pose proof (ipr _ _ I q) as Pq. unfold pr_ok in Pq. rewrite Ep in Pq. destruct Pq as [P1 [P2 [P3 P4]]].
      destruct (evict_ok c af s Hn K P4) as [_ [B _]].
      destruct B as [_ [_ [_ [_ [S5 _]]]]]. exact S5. }
    cbn. rewrite S5. destruct (Z.eq_dec q p) as [X|X]; [|apply Oth; exact X]. subst q. rewrite upd_same.
    unfold pr_ok in P. rewrite Ep in P. destruct P as [P1 [P2 [P3 P4]]].
    replace (1 <=? free) with false by lia. split; [exact Logic.I|reflexivity].
  - destruct (p_pc (s_procs s q)) as [| | | |free af|k|cur|cur] eqn:Ep; try exact Same. cbn.
    apply Oth. intros X. subst q. unfold waiting in W. rewrite Ep in W. exact W.
  - destruct (p_pc (s_procs s q)) as [| | | |free af|k|cur|cur] eqn:Ep; try exact Same.
    + assert (N : q <> p). { intros X. subst q. unfold waiting in W. rewrite Ep in W. exact W. }
      destruct (s_af s =? cur); [|destruct ((p_start (s_procs s q) <=? s_af s) && (s_af s <? p_start (s_procs s q) + nitems (p_tx (s_procs s q))))];
        cbn; apply Oth; exact N.
    + assert (N : q <> p). { intros X. subst q. unfold waiting in W. rewrite Ep in W. exact W. }
      destruct (s_add s (cur mod c_n c)); cbn; apply Oth; exact N.
  - destruct ((s_mpr s <=? m) && (m <=? s_top s) && forallb (fun l => m <=? l) (s_live s)); exact Same.
  - destruct (s_wpc s); try exact Same. destruct (s_c s <? s_af s); [|exact Same].
    destruct (s_r s <=? s_c s); [|exact Same].
    destruct (restore_ok c s Hn K) as [_ [B _]]. destruct B as [_ [_ [_ [_ [S5 _]]]]].
    change (s_procs (set_wpc (restore c s) W1)) with (s_procs (restore c s)). rewrite S5. exact Same.
  - destruct (s_wpc s) eqn:Ew; try exact Same.
    destruct (s_comp s (s_c s mod c_n c)) as [|oxid xid nsub loc retain time|oxid nsub l];
      [|destruct ((c_maxage c <=? now - time) || (c_maxt c <? s_af s - s_c s)); [destruct (oxid =? 0)|]|]; exact Same.
  - destruct (s_wpc s); try exact Same.
    destruct (restore_ok c s Hn K) as [_ [B _]]. destruct B as [_ [_ [_ [_ [S5 _]]]]].
    change (s_procs (set_wpc (restore c s) W0)) with (s_procs (restore c s)). rewrite S5. exact Same.
Qed.
