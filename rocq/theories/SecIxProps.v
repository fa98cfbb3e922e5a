(** C41: secondary indexes agree with the table; and the part of C40 about one
    statement after another. *)
From Coq Require Import ZArith List Bool Lia Permutation.
From Verif Require Import Base SecIxModel SecIxSpec SecIxProofs.
Import ListNotations.
Open Scope Z_scope.

(** After any sequence of inserts, updates and deletes each index holds exactly
    one entry for each row that satisfies its predicate, with that row's
    values, and nothing else.  Partial: no column may appear twice in an index,
    see the refutations below. *)
Theorem C41_indexes_agree_partial : forall c s i d ix, no_repeats c -> reachable c s ->
  nth_error (c_ix c) i = Some d -> nth_error (s_ix s) i = Some ix -> agrees c d (s_rows s) ix.
Proof.
  intros c s i d ix N R H1 H2. destruct (Inv_reach c s N R) as [_ F].
  revert i H1 H2. induction F as [|d0 ix0 ds ixs I F IH]; intros [|i] H1 H2; cbn in *; try discriminate.
  - inversion H1; inversion H2; subst. apply I.
  - eapply IH; eassumption.
Qed.
Print Assumptions C41_indexes_agree_partial.

(** There is always one set of entries for each index. *)
Theorem C41_every_index_maintained : forall c s, no_repeats c -> reachable c s -> length (s_ix s) = length (c_ix c).
Proof. intros c s N R. destruct (Inv_reach c s N R) as [_ F]. induction F; cbn; congruence. Qed.
Print Assumptions C41_every_index_maintained.

(** A delete never fails for lack of an index entry. *)
Theorem C41_delete_succeeds_partial : forall c s r, no_repeats c -> reachable c s -> In r (s_rows s) ->
  Permutation (s_rows s) (r :: s_rows (step c s (ODelete (map r (c_pk c))))).
Proof.
  intros c s r N R H. destruct (Inv_reach c s N R) as [DR F]. destruct N as [NP ND].
  cbn [step]. change (map r (c_pk c)) with (pkey c r). rewrite (find_self c _ r DR H).
  destruct (each_some (fun d ix => if d_pred d r then am_delete c d r ix else Some ix) (c_ix c) (s_ix s) _ F) as [ixs ->].
  - intros d ix Hd [A _]. destruct (d_pred d r) eqn:PR; [|eexists; reflexivity].
    unfold am_delete. rewrite (entry_upd_ok c d r NP (ND d Hd)). eapply delete_found; eauto.
  - cbn. apply perm_others; assumption.
Qed.
Print Assumptions C41_delete_succeeds_partial.

(** An update that keeps the primary key apart from other rows' never fails for
    lack of an index entry, if no index is unique. *)
Theorem C41_update_succeeds_partial : forall c s r n, no_repeats c -> reachable c s -> In r (s_rows s) ->
  (forall d, In d (c_ix c) -> d_uniq d = false) ->
  (forall x, In x (s_rows s) -> rows_equal_on c (c_pk c) n x -> x = r) ->
  exists rest, Permutation (s_rows s) (r :: rest) /\ s_rows (step c s (OUpdate (map r (c_pk c)) n)) = n :: rest.
Proof.
  intros c s r n N R H U X. destruct (Inv_reach c s N R) as [DR F]. destruct N as [NP ND].
  exists (others c r (s_rows s)). split; [apply perm_others; assumption|].
  assert (FR : forall x, In x (others c r (s_rows s)) -> ~ rows_equal_on c (c_pk c) n x).
  { intros x Hx Q. unfold others in Hx. apply filter_In in Hx as [Hx K]. rewrite (X x Hx Q) in K.
    assert (pkeq c (pkey c r) (pkey c r) = true) as E by (apply pkeq_iff; apply req_refl). rewrite E in K. discriminate. }
  cbn [step]. change (map r (c_pk c)) with (pkey c r). rewrite (find_self c _ r DR H).
  cbv zeta. change (filter (fun x => negb (pkeq c (pkey c r) (pkey c x))) (s_rows s)) with (others c r (s_rows s)).
  rewrite (no_conflict c n _ FR).
  destruct (each_some (fun d ix => am_update c d r n ix) (c_ix c) (s_ix s) _ F) as [ixs ->]; [|reflexivity].
  intros d ix Hd I. unfold am_update. rewrite (entry_upd_ok c d r NP (ND d Hd)), (entry_upd_ok c d n NP (ND d Hd)). cbv zeta.
  destruct (img_eqb _ _ && _); [eexists; reflexivity|].
  assert (exists ix1, (if d_pred d r then tree_delete c d (map r (stored c d)) ix else Some ix) = Some ix1 /\ agrees c d (others c r (s_rows s)) ix1) as (ix1 & -> & A1).
  { destruct (d_pred d r) eqn:PR.
    - destruct (delete_found c d _ ix r NP (ND d Hd) (proj1 I) H PR) as [ix1 E]. exists ix1. split; [exact E|].
      exact (proj1 (delete_ok c d NP (ND d Hd) _ _ _ _ DR H PR I E)).
    - exists ix. split; [reflexivity|]. exact (proj1 (skip_delete c d NP (ND d Hd) _ _ _ DR H PR I)). }
  destruct (d_pred d n); [|eexists; reflexivity]. rewrite (U d Hd). cbn.
  eapply insert_free; eauto.
Qed.
Print Assumptions C41_update_succeeds_partial.

(** An insert of a row with a new primary key succeeds if no index is unique. *)
Theorem C41_insert_succeeds_partial : forall c s r, no_repeats c -> reachable c s ->
  (forall d, In d (c_ix c) -> d_uniq d = false) ->
  (forall x, In x (s_rows s) -> ~ rows_equal_on c (c_pk c) r x) ->
  s_rows (step c s (OInsert r)) = r :: s_rows s.
Proof.
  intros c s r N R U X. destruct (Inv_reach c s N R) as [DR F]. destruct N as [NP ND].
  cbn [step]. rewrite (no_conflict c r _ X).
  destruct (each_some (fun d ix => if d_pred d r then am_insert c d r ix else Some ix) (c_ix c) (s_ix s) _ F) as [ixs ->]; [|reflexivity].
  intros d ix Hd I. destruct (d_pred d r); [|eexists; reflexivity].
  unfold am_insert. rewrite (entry_ins_ok c d r NP (ND d Hd)), (U d Hd). cbn. eapply insert_free; [assumption | auto | exact (proj1 I) | exact X].
Qed.
Print Assumptions C41_insert_succeeds_partial.

(** C40, primary key: no two rows of a table have the same primary key. *)
Theorem C40_primary_key_unique : forall c s l1 a l2 b l3, reachable c s -> s_rows s = l1 ++ a :: l2 ++ b :: l3 ->
  ~ rows_equal_on c (c_pk c) a b.
Proof.
  intros c s l1 a l2 b l3 R E. pose proof (pkdist_reach c s R) as D. rewrite E in D. clear E.
  induction l1 as [|x l1 IH]; cbn in D; destruct D as [D1 D2].
  - apply D1. apply in_or_app. right. left. reflexivity.
  - exact (IH D2).
Qed.
Print Assumptions C40_primary_key_unique.

(** C40, unique index, one statement after another: two rows that satisfy the
    predicate and agree in the key columns are one row.  Partial: the rows must
    have no NULL in any column the index stores, see below. *)
Theorem C40_unique_index_partial : forall c s d a b, no_repeats c -> reachable c s ->
  In d (c_ix c) -> d_uniq d = true -> (d_nkey d <= length (d_cols d))%nat ->
  In a (s_rows s) -> In b (s_rows s) -> d_pred d a = true -> d_pred d b = true ->
  (forall x, In x (stored c d) -> a x <> None /\ b x <> None) ->
  rows_equal_on c (firstn (d_nkey d) (d_cols d)) a b -> a = b.
Proof.
  intros c s d a b N R Hd U L Ha Hb Pa Pb NN E. destruct (Inv_reach c s N R) as [DR F]. destruct N as [NP ND].
  assert (exists ix, ixinv c (s_rows s) d ix) as (ix & A & Q).
  { clear - F Hd. induction F; [destruct Hd|]. destruct Hd as [<- | Hd]; [eexists; eassumption | auto]. }
  assert (IN : forall r, In r (s_rows s) -> d_pred d r = true -> In (ent c d r) ix).
  { intros r Hr Pr. eapply Permutation_in; [apply Permutation_sym; exact A|]. apply in_map_iff. exists r. split; [reflexivity | apply filter_In; auto]. }
  specialize (Q U (ent c d a) (ent c d b) (IN a Ha Pa) (IN b Hb Pb)).
  apply (pkdist_eq c (s_rows s) a b DR Ha Hb). intros p Hp.
  assert (X : ent c d a = ent c d b).
  { apply Q; [apply has_nulls_ent; apply NN | apply has_nulls_ent; apply NN | apply uniq_keq; auto]. }
  rewrite (map_ent_eq a b _ p X (pk_in_stored c d p Hp)). apply veq_refl.
Qed.
Print Assumptions C40_unique_index_partial.

(** * Cases *)
Definition mkrow (l : list (option Z)) : row := fun i => nth (Z.to_nat i) l None.
Definition all_rows : row -> bool := fun _ => true.
Definition cfg (cols : list Z) (nkey : nat) (uq nnd : bool) : config := mkCfg [0] [mkIx cols nkey uq nnd all_rows] (fun _ x => x).

(** An index on (c1, c1, c2): an update of c2 leaves the old value in the index. *)
Theorem C41_refuted_repeated_column_update :
  exists s i d ix, let c := cfg [1; 1; 2] 3 false false in
    reachable c s /\ nth_error (c_ix c) i = Some d /\ nth_error (s_ix s) i = Some ix /\
    map (fun r => map r [0; 1; 2]) (s_rows s) = [[Some 1; Some 5; Some 7]] /\
    ix = [[Some 5; Some 6; Some 1]].
Proof.
  exists (run (step (cfg [1; 1; 2] 3 false false)) (init (cfg [1; 1; 2] 3 false false))
            [OInsert (mkrow [Some 1; Some 5; Some 6]); OUpdate [Some 1] (mkrow [Some 1; Some 5; Some 7])]), O.
  eexists. eexists. cbv zeta. split; [eexists; reflexivity|]. vm_compute. repeat split; reflexivity.
Qed.
Print Assumptions C41_refuted_repeated_column_update.

(** The same index: a row cannot be deleted. *)
Theorem C41_refuted_repeated_column_delete :
  exists s r, let c := cfg [1; 1; 2] 3 false false in
    reachable c s /\ In r (s_rows s) /\ step c s (ODelete (map r (c_pk c))) = s.
Proof.
  exists (run (step (cfg [1; 1; 2] 3 false false)) (init (cfg [1; 1; 2] 3 false false)) [OInsert (mkrow [Some 1; Some 5; Some 6])]),
    (mkrow [Some 1; Some 5; Some 6]).
  cbv zeta. split; [eexists; reflexivity|]. split; [left; reflexivity | reflexivity].
Qed.
Print Assumptions C41_refuted_repeated_column_delete.

(** The same index: the NULL of c2 is stored as a value. *)
Theorem C41_refuted_repeated_column_null :
  exists s ix, let c := cfg [1; 1; 2] 3 false false in
    reachable c s /\ nth_error (s_ix s) 0 = Some ix /\
    map (fun r => map r [0; 1; 2]) (s_rows s) = [[Some 1; Some 5; None]] /\ ix = [[Some 5; Some 0; Some 1]].
Proof.
  exists (run (step (cfg [1; 1; 2] 3 false false)) (init (cfg [1; 1; 2] 3 false false)) [OInsert (mkrow [Some 1; Some 5; None])]).
  eexists. cbv zeta. split; [eexists; reflexivity|]. vm_compute. repeat split; reflexivity.
Qed.
Print Assumptions C41_refuted_repeated_column_null.

(** UNIQUE (c1) INCLUDE (c2): two rows with the same c1 are accepted when c2 is
    NULL. *)
Theorem C40_refuted_include_null :
  exists s, let c := cfg [1; 2] 1 true false in
    reachable c s /\ map (fun r => map r [0; 1; 2]) (s_rows s) = [[Some 2; Some 5; None]; [Some 1; Some 5; None]].
Proof.
  exists (run (step (cfg [1; 2] 1 true false)) (init (cfg [1; 2] 1 true false))
            [OInsert (mkrow [Some 1; Some 5; None]); OInsert (mkrow [Some 2; Some 5; None])]).
  cbv zeta. split; [eexists; reflexivity | vm_compute; reflexivity].
Qed.
Print Assumptions C40_refuted_include_null.

(** UNIQUE NULLS NOT DISTINCT (c1): an update makes a second row with a NULL,
    which an insert would refuse. *)
Theorem C40_refuted_nulls_not_distinct_update :
  exists s, let c := cfg [1] 1 true true in
    reachable c s /\ map (fun r => map r [0; 1]) (s_rows s) = [[Some 2; None]; [Some 1; None]] /\
    step c s (OInsert (mkrow [Some 3; None])) = s.
Proof.
  exists (run (step (cfg [1] 1 true true)) (init (cfg [1] 1 true true))
            [OInsert (mkrow [Some 1; None]); OInsert (mkrow [Some 2; Some 5]); OUpdate [Some 2] (mkrow [Some 2; None])]).
  cbv zeta. split; [eexists; reflexivity|]. split; [vm_compute; reflexivity | reflexivity].
Qed.
Print Assumptions C40_refuted_nulls_not_distinct_update.

(** The hypotheses are met: a partial index with an included key column, a
    unique index, and a comparison that ignores the last digit. *)
Definition ex : config :=
  mkCfg [0; 3] [mkIx [1; 0; 2] 2 false false (fun r => match r 2 with Some v => 0 <? v | None => true end); mkIx [2] 1 true false all_rows] (fun _ x => x / 10).
Definition ex_ops : list op :=
  [OInsert (mkrow [Some 10; Some 20; Some 30; Some 40]); OInsert (mkrow [Some 20; None; Some (-5); Some 40]);
   OInsert (mkrow [Some 20; Some 1; Some 31; Some 50]);
   OUpdate [Some 11; Some 42] (mkrow [Some 12; Some 21; Some 35; Some 41]); ODelete [Some 29; Some 40];
   OInsert (mkrow [Some 20; None; None; Some 70])].
Example ex_no_repeats : no_repeats ex.
Proof.
  split.
  - repeat constructor; cbn; intuition lia.
  - intros d [<- | [<- | []]]; repeat constructor; cbn; intuition lia.
Qed.
Example ex_result : s_ix (run (step ex) (init ex) ex_ops) =
    [[[None; Some 20; None; Some 70]; [Some 21; Some 12; Some 35; Some 41]]; [[None; Some 20; Some 70]; [Some 35; Some 12; Some 41]]] /\
  map (fun r => map r [0; 1; 2; 3]) (s_rows (run (step ex) (init ex) ex_ops)) =
    [[Some 20; None; None; Some 70]; [Some 12; Some 21; Some 35; Some 41]].
Proof. vm_compute. split; reflexivity. Qed.
