(** Property C42: key bitmaps are exact sets. *)
From Coq Require Import ZArith List Bool Lia Sorted ZifyBool ZifyNat.
From Verif Require Import Base PkEncModel PkEncSpec PkEncProofs KeyBmModel KeyBmSpec KeyBmLemmas KeyBmProofs KeyBmFixed.
Import ListNotations.
Open Scope Z_scope.

(** After any calls on any number of bitmaps, each contains exactly the keys inserted, unions and intersections included. *)
Theorem C42_exact : forall ops i v, Forall okop ops -> u64ok v -> test (run step init ops i) v = true <-> members ops i v.
Proof. intros ops i v O V. destruct (J_run ops O i) as [I H]. rewrite <- H. apply test_has; auto. apply V. Qed.
(** Test-and-set reports a key as new exactly when it was not there. *)
Theorem C42_emit : forall ops i v, Forall okop ops -> u64ok v -> snd (emit (run step init ops i) v) = true <-> ~ members ops i v.
Proof. intros ops i v O V. destruct (J_run ops O i) as [I H]. rewrite <- H. apply emit_spec; auto. Qed.
Theorem C42_empty : forall ops i, Forall okop ops -> is_empty (run step init ops i) = true <-> forall v, ~ members ops i v.
Proof. intros ops i O. destruct (J_run ops O i) as [I H]. rewrite empty_spec by auto. split; intros E v; specialize (E v); rewrite H in *; auto. Qed.
(** A range is reported empty exactly when it is. *)
Theorem C42_range : forall ops i low high, Forall okop ops -> u64ok low ->
  snd (range_is_valid (run step init ops i) low high) = true <-> exists v, low <= v < high /\ members ops i v.
Proof.
  intros ops i low high O L. destruct (J_run ops O i) as [I H]. destruct (range_spec (run step init ops i) low high I (proj1 L)) as (_ & _ & R).
  rewrite R. split; intros (v & A & B); exists v; (split; [auto|]); apply H; auto.
Qed.
(** A step returns the least member at or after the given key. *)
Theorem C42_next : forall ops i p, Forall okop ops -> u64ok p -> least (members ops i) p (snd (get_next (run step init ops i) p)).
Proof.
  intros ops i p O P. destruct (J_run ops O i) as [I H]. destruct (get_next_spec (run step init ops i) p I P) as (_ & _ & R). revert R. unfold least.
  destruct (snd _); [intros (A & B & C); split; [apply H; auto|split; [auto|]]; intros y Y; apply C; apply H; auto|intros R y Y; apply R; apply H; auto].
Qed.

(** Stepping from the start visits all members, each once, in ascending order. *)
Lemma walk_spec : forall n b pos, Inv b -> (forall p, pos = Some p -> u64ok p) -> 2 ^ 64 - (match pos with Some p => p + 1 | None => 0 end) <= Z.of_nat n ->
  StronglySorted Z.lt (walk n b pos) /\ forall x, In x (walk n b pos) <-> has b x /\ (match pos with Some p => p + 1 | None => 0 end) <= x.
Proof.
  induction n as [|n IH]; intros b pos I P F.
  { cbn [walk]. split; [constructor|]. intros x. split; [intros []|]. intros [H L]. pose proof (has_u64 b x I H) as U. unfold u64ok in U. lia. }
  cbn [walk]. set (q := match pos with Some p => p + 1 | None => 0 end) in *.
  assert (E : (q = 2 ^ 64 /\ scan_next b pos false = (b, None)) \/ (u64ok q /\ scan_next b pos false = get_next b q)).
  { unfold scan_next, q. destruct pos as [p|]; [|right; split; [unfold u64ok; lia|auto]]. specialize (P p eq_refl). unfold u64ok in *. unfold UINT64_MAX.
    destruct (Z.eqb_spec p (2 ^ 64 - 1)); [left; split; [lia|auto]|right; split; [lia|auto]]. }
  destruct E as [[Q ->]|[Q ->]].
  - split; [constructor|]. intros x. split; [intros []|]. intros [H L]. pose proof (has_u64 b x I H) as U. unfold u64ok in U. lia.
  - destruct (get_next_spec b q I Q) as (I' & H' & L'). destruct (get_next b q) as [b' [x|]]; cbn [fst snd] in *; unfold least in L'.
    + destruct L' as (X1 & X2 & X3). pose proof (has_u64 b x I X1) as U.
      destruct (IH b' (Some x) I') as [S M]. { intros p E. inv E. auto. } { unfold u64ok in U. lia. }
      split.
      * constructor; auto. apply Forall_forall. intros y Y. apply M in Y. lia.
      * intros y. cbn [In]. rewrite M, H'. split.
        -- intros [<-|[Y1 Y2]]; [auto|]. split; auto. lia.
        -- intros [Y1 Y2]. destruct (Z.eq_dec x y); auto. right. split; auto. specialize (X3 y Y1 Y2). lia.
    + split; [constructor|]. intros y. split; [intros []|]. intros [Y1 Y2]. apply (L' y Y1 Y2).
Qed.
Theorem C42_walk : forall ops i, Forall okop ops -> exists n0, forall n, (n0 <= n)%nat ->
  StronglySorted Z.lt (walk n (run step init ops i) None) /\ forall x, In x (walk n (run step init ops i) None) <-> members ops i x.
Proof.
  intros ops i O. destruct (J_run ops O i) as [I H]. exists (Z.to_nat (2 ^ 64)). intros n L.
  destruct (walk_spec n (run step init ops i) None I) as [S M]. { discriminate. } { apply Nat2Z.inj_le in L. rewrite Z2Nat.id in L by lia. lia. }
  split; auto. intros x. rewrite M, H. split; [tauto|]. intros X. split; auto. apply H in X. destruct X. auto.
Qed.

(** The scan asks whether a page with given key bounds may hold wanted rows; the page holds keys from [low]
    (or from the start of the tree) up to but not including [high] (or to the end of the tree). *)
Definition on_page (low high : option Z) (v : Z) : Prop :=
  (match low with Some l => l <= v | None => True end) /\ (match high with Some h => v < h | None => True end).
(** What is missing: the key 2^64-1 on the rightmost page. *)
Theorem C51_page_skip_partial : forall ops i low high v, Forall okop ops -> (forall l, low = Some l -> u64ok l) ->
  members ops i v -> on_page low high v -> (high = None -> v <> 2 ^ 64 - 1) -> page_may_match (run step init ops i) low high = true.
Proof.
  intros ops i low high v O L M [P1 P2] N. unfold page_may_match. apply C42_range; auto.
  - destruct low; [auto|unfold u64ok; lia].
  - exists v. split; auto. destruct (J_run ops O i) as [I H]. apply H in M. pose proof (has_u64 _ _ I M) as U. unfold u64ok in U. unfold UINT64_MAX.
    destruct low, high; try specialize (N eq_refl); lia.
Qed.
(** A wanted row with the greatest key, for instance bigint 2^63-1, is skipped with its page. *)
Theorem C51_page_skip_refuted : ~ (forall ops i low high v, Forall okop ops -> (forall l, low = Some l -> u64ok l) ->
  members ops i v -> on_page low high v -> page_may_match (run step init ops i) low high = true).
Proof.
  intro H. specialize (H [Insert 0 (2 ^ 64 - 1)] 0 (Some (2 ^ 63)) None (2 ^ 64 - 1)).
  assert (page_may_match (run step init [Insert 0 (2 ^ 64 - 1)] 0) (Some (2 ^ 63)) None = false) by (vm_compute; auto).
  rewrite H in H0; [discriminate| | | |].
  - repeat constructor; cbn; lia.
  - intros l E. inv E. unfold u64ok. lia.
  - cbn. auto.
  - split; [lia|auto].
Qed.
(** The same key is [val_get_uint64] of a legal bigint. *)
Example greatest_key : valid_one I8 (VInt (2 ^ 63 - 1)) /\ val_get_uint64 (VInt (2 ^ 63 - 1)) = 2 ^ 64 - 1.
Proof. vm_compute. intuition discriminate. Qed.
(** Skipping a page never loses a wanted row otherwise, and a page kept holds a wanted key. *)
Theorem C51_page_kept : forall ops i low high, Forall okop ops -> (forall l, low = Some l -> u64ok l) ->
  page_may_match (run step init ops i) low high = true -> exists v, members ops i v /\ on_page low high v.
Proof.
  intros ops i low high O L H. unfold page_may_match in H. apply C42_range in H; auto.
  - destruct H as (v & R & M). exists v. split; auto. unfold on_page. destruct low, high; (split; [lia || auto|lia || auto]).
  - destruct low; [auto|unfold u64ok; lia].
Qed.

(** Fixed-key mode. *)
Theorem C42_fixed_exact : forall ops i k, ftest (run fstep finit ops i) k = true <-> fmembers ops i k.
Proof. intros ops i k. destruct (FJ_run ops i) as [I H]. rewrite <- H. apply ftest_has. Qed.
Theorem C42_fixed_emit : forall ops i k, snd (femit (run fstep finit ops i) k) = true <-> ~ fmembers ops i k.
Proof. intros ops i k. destruct (FJ_run ops i) as [I H]. rewrite <- H. apply femit_ok. auto. Qed.
Theorem C42_fixed_empty : forall ops i, fis_empty (run fstep finit ops i) = true <-> forall k, ~ fmembers ops i k.
Proof. intros ops i. destruct (FJ_run ops i) as [I H]. rewrite fempty_ok by auto. split; intros E v; specialize (E v); rewrite H in *; auto. Qed.
Theorem C42_fixed_range : forall ops i low high, snd (frange_is_valid (run fstep finit ops i) low high) = true <->
  exists k, fmembers ops i k /\ memcmp low k <> Gt /\ memcmp k high = Lt.
Proof.
  intros ops i low high. destruct (FJ_run ops i) as [I H]. destruct (frange_ok (run fstep finit ops i) low high I) as (_ & _ & R). rewrite R.
  split; intros (v & A & B); exists v; (split; [|auto]); apply H; auto.
Qed.
Theorem C42_fixed_next : forall ops i p, fleast (fmembers ops i) p (snd (fget_next (run fstep finit ops i) p)).
Proof.
  intros ops i p. destruct (FJ_run ops i) as [I H]. destruct (fget_next_ok (run fstep finit ops i) p I) as (_ & _ & R). revert R. unfold fleast.
  destruct (snd _); [intros (A & B & C); split; [apply H; auto|split; [auto|]]; intros y Y; apply C; apply H; auto|intros R y Y; apply R; apply H; auto].
Qed.
(** Continuing strictly after a key: the least greater member (all keys have the length of the position). *)
Theorem C42_fixed_step : forall ops i p, bytes p -> (forall k, fmembers ops i k -> bytes k /\ length k = length p) ->
  match snd (fscan_next (run fstep finit ops i) (Some p) false) with
  | Some x => fmembers ops i x /\ memcmp p x = Lt /\ (forall y, fmembers ops i y -> memcmp p y = Lt -> memcmp x y <> Gt)
  | None => forall y, fmembers ops i y -> memcmp p y <> Lt
  end.
Proof.
  intros ops i p B K. unfold fscan_next. destruct (next_key p) as [q|] eqn:E.
  - assert (N : forall y, fmembers ops i y -> memcmp p y = Lt <-> memcmp q y <> Gt).
    { intros y Y. destruct (K y Y) as [Y1 Y2]. pose proof (next_spec p y B Y2 Y1) as N. rewrite E in N. apply N. }
    pose proof (C42_fixed_next ops i q) as L. destruct (snd (fget_next _ q)) as [x|]; unfold fleast in L.
    + destruct L as (A & C & D). split; [auto|]. split; [apply N; auto|]. intros y Y1 Y2. apply D; auto. apply N; auto.
    + intros y Y1 Y2. apply N in Y2; auto.
  - intros y Y. destruct (K y Y) as [Y1 Y2]. pose proof (next_spec p y B Y2 Y1) as N. rewrite E in N. apply N.
Qed.
(** An all-0xFF key is skipped on the rightmost page in this mode. *)
Theorem C51_fixed_page_skip_refuted : ~ (forall ops i k, fmembers ops i k -> bytes k -> length k = 24%nat -> fpage_may_match (run fstep finit ops i) None None = true).
Proof.
  intro H. specialize (H [FInsert 0 (repeat 255 24)] 0 (repeat 255 24)).
  assert (fpage_may_match (run fstep finit [FInsert 0 (repeat 255 24)] 0) None None = false) by (vm_compute; auto).
  rewrite H in H0; [discriminate| | |].
  - cbn. auto.
  - repeat constructor; lia.
  - reflexivity.
Qed.
Theorem C51_fixed_page_skip_partial : forall ops i low high k, fmembers ops i k -> bytes k -> length k = 24%nat ->
  (match low with Some l => memcmp l k <> Gt | None => True end) -> (match high with Some h => memcmp k h = Lt | None => k <> repeat 255 24 end) ->
  fpage_may_match (run fstep finit ops i) low high = true.
Proof.
  intros ops i low high k M B L P1 P2. unfold fpage_may_match. apply C42_fixed_range. exists k. split; auto. split.
  - destruct low; auto. clear - B L. rewrite <- L. clear L. induction B; [discriminate|]. cbn [length repeat memcmp]. destruct (Z.compare_spec 0 x); [auto|discriminate|lia].
  - destruct high; auto. rewrite <- L in *. clear - B P2. induction B; [cbn in P2; congruence|]. cbn [length repeat memcmp] in *. destruct (Z.compare_spec x 255); [|auto|lia]. subst. apply IHB. congruence.
Qed.

(** Concrete cases. *)
Definition ex_ops := [Insert 0 5; Insert 0 1024; Emit 0 (2 ^ 64 - 1); Insert 1 1024; Insert 1 7; Next 1 0; Union 2 0; Union 2 1; Intersect 0 1; Insert 2 3000; Range 2 6 7].
Example ex_ok : Forall okop ex_ops. Proof. repeat constructor; cbn; lia. Qed.
Example ex_walk : walk 10 (run step init ex_ops 2) None = [5; 7; 1024; 3000; 2 ^ 64 - 1] /\ walk 10 (run step init ex_ops 0) None = [1024] /\
  snd (range_is_valid (run step init ex_ops 2) 6 7) = false /\ snd (range_is_valid (run step init ex_ops 2) 8 1025) = true /\
  snd (range_is_valid (run step init ex_ops 2) 1025 3000) = false /\ snd (emit (run step init ex_ops 0) 5) = true /\ is_empty (run step init (ex_ops ++ [Intersect 0 3]) 0) = true.
Proof. vm_compute. auto 10. Qed.
Definition ex_fops := [FInsert 0 [1; 2]; FInsert 0 [0; 255]; FInsert 1 [1; 2]; FInsert 1 [9; 9]; FUnion 2 0; FUnion 2 1; FIntersect 0 1].
Example ex_fixed : snd (fscan_next (run fstep finit ex_fops 2) (Some [0; 255]) false) = Some [1; 2] /\ snd (fscan_next (run fstep finit ex_fops 2) (Some [9; 9]) false) = None /\
  snd (frange_is_valid (run fstep finit ex_fops 2) [1; 3] [9; 9]) = false /\ ftest (run fstep finit ex_fops 0) [0; 255] = false /\ fmembers ex_fops 0 [1; 2].
Proof. repeat split; try (vm_compute; reflexivity); cbn; auto. Qed.

Print Assumptions C42_exact.
Print Assumptions C42_walk.
Print Assumptions C42_range.
Print Assumptions C42_fixed_step.
Print Assumptions C51_page_skip_refuted.
