(** C19 and C20 for one tree whose pages split, merge and grow between any two
    page reads of any search. *)
From Coq Require Import ZArith List Bool Lia.
From Coq Require Import ZifyBool.
From Verif Require Import Base BtrModel BtrSpec BtrProofs BtrRunProofs.
Import ListNotations.
Open Scope Z_scope.

Lemma log_at : forall later e r, log_ok (later ++ e :: r) -> log_ok (e :: r).
Proof. induction later as [|x l IH]; cbn [app]; intros e r H; auto. destruct H as [_ H]. auto. Qed.

(** C19: a lookup returns what the last write of its key left, in every
    interleaving with other searches, writes and page changes. *)
Theorem C19_lookup : forall ops later k r before,
  t_log (run step init ops) = later ++ EFind k r :: before -> r = value before k.
Proof.
  intros ops later k r before E. pose proof (ti_log _ (TI_run ops)) as H. rewrite E in H. apply log_at in H. apply H.
Qed.

Section Shape.
Variable t : tree.
Hypothesis T : TI t.
Local Notation pg := (t_pg t).
Local Notation rt := (t_rt t).

Lemma below_live : forall p d q, below pg p d q -> pg_live (pg p) = true ->
  pg_live (pg q) = true /\ pg_level (pg q) = pg_level (pg p) - Z.of_nat d.
Proof.
  pose proof (ti_pi _ T) as P. intros p d q Hb. induction Hb; intros L.
  - split; auto. lia.
  - destruct (dn_fst _ _ P p L H) as (A & _ & B & _). destruct (IHHb A). split; auto. lia.
  - destruct (dn_in _ _ P p k c L H) as (_ & _ & _ & A & _ & B & _). destruct (IHHb A). split; auto. lia.
Qed.

(** The range of a child lies in the range of its parent. *)
Lemma child_within : forall p c lo k, pg_live (pg p) = true -> child pg (pg p) c lo -> 0 < pg_level (pg p) ->
  (lo = pg_lo (pg p) \/ exists l, lo = Some l /\ lt_opt (pg_lo (pg p)) (Some l) /\ lt_opt (Some l) (pg_hi (pg p))) ->
  covers (KAt k) (pg (fst c)) = true -> covers (KAt k) (pg p) = true.
Proof.
  pose proof (ti_pi _ T) as P. intros p c lo k L (C1 & C2 & C3 & C4) V LO CK.
  pose proof (rng _ _ P p L) as W. pose proof (lv _ _ P p L) as LV.
  assert (LO' : match pg_lo (pg p), lo with Some a, Some b => a <= b | Some _, None => False | None, _ => True end).
  { destruct LO as [->|(l & -> & X & _)]; unfold lt_opt in *; destruct (pg_lo (pg p)); auto; lia. }
  apply cov_at in CK. rewrite C4 in CK. apply cov_at. split; [destruct (pg_lo (pg p)), lo; auto; lia|].
  destruct (pg_hi (pg p)) as [h|] eqn:HI; auto. destruct (Z_lt_le_dec k h) as [|GE]; auto. exfalso.
  (* the page right of the parent *)
  destruct (ex _ _ P (pg_level (pg p)) (KAt h) LV) as (p' & Q1 & Q2 & Q3). apply cov_at in Q3.
  assert (NE : p' <> p) by (intros ->; rewrite HI in Q3; lia).
  assert (LP : pg_lo (pg p') = Some h).
  { destruct (pg_lo (pg p')) as [a|] eqn:Ea.
    - destruct (Z.eq_dec a h) as [->|N]; auto. exfalso. apply NE. apply (uq _ _ P p' p (KHi h)); auto; apply cov_hi; rewrite ?Ea, ?HI.
      + split; [lia|]. destruct (pg_hi (pg p')); auto. lia.
      + split; [|lia]. unfold lt_opt in W. destruct (pg_lo (pg p)); auto.
    - exfalso. apply NE. apply (uq _ _ P p' p (KHi h)); auto; apply cov_hi; rewrite ?Ea, ?HI.
      + split; auto. destruct (pg_hi (pg p')); auto. lia.
      + split; [|lia]. unfold lt_opt in W. destruct (pg_lo (pg p)); auto. }
  destruct (dn_fst _ _ P p' Q1 ltac:(lia)) as (D1 & D2 & D3 & D4). rewrite LP in D4.
  assert (fst c = fst (pg_first (pg p'))).
  { apply (uq _ _ P _ _ (KAt h)); auto; [lia| |]; apply cov_at.
    - rewrite C4. split; [|destruct (pg_hi (pg (fst c))); auto; lia].
      destruct LO as [->|(l & -> & _ & X)]; [|cbn in X; lia]. unfold lt_opt in W. destruct (pg_lo (pg p)); auto. lia.
    - rewrite D4. split; [lia|]. pose proof (rng _ _ P _ D1) as W'. rewrite D4 in W'. exact W'. }
  rewrite H, D4 in C4. subst lo. destruct LO as [E|(l & E & _ & X)].
  - rewrite <- E in W. cbn in W. lia.
  - injection E as ->. cbn in X. lia.
Qed.

Lemma below_within : forall p d q k, below pg p d q -> pg_live (pg p) = true -> covers (KAt k) (pg q) = true -> covers (KAt k) (pg p) = true.
Proof.
  pose proof (ti_pi _ T) as P. intros p d q k Hb. induction Hb; intros L C; auto.
  - pose proof (dn_fst _ _ P p L H) as D. eapply child_within; [exact L|exact D|auto|auto|]. apply IHHb; auto. apply D.
  - destruct (dn_in _ _ P p k0 c L H) as (D0 & D1 & D2 & D3). eapply child_within; [exact L|exact D3|auto| |].
    + right. exists k0. auto.
    + apply IHHb; auto. apply D3.
Qed.

(** A child ends before the next downlink. *)
Lemma child_before : forall p c lo k k2 c2, pg_live (pg p) = true -> child pg (pg p) c lo -> In (k2, c2) (pg_downs (pg p)) ->
  match lo with None => True | Some l => l < k2 end -> covers (KAt k) (pg (fst c)) = true -> k < k2.
Proof.
  pose proof (ti_pi _ T) as P. intros p c lo k k2 c2 L (C1 & C2 & C3 & C4) I2 LT CK.
  destruct (dn_in _ _ P p k2 c2 L I2) as (_ & _ & _ & D1 & D2 & D3 & D4).
  destruct (Z_lt_le_dec k k2) as [|GE]; auto. exfalso. apply cov_at in CK. rewrite C4 in CK.
  assert (E : fst c = fst c2).
  { apply (uq _ _ P _ _ (KAt k2)); auto; [lia| |]; apply cov_at.
    - rewrite C4. split; [destruct lo; auto; lia|]. destruct (pg_hi (pg (fst c))); auto. lia.
    - rewrite D4. split; [lia|]. pose proof (rng _ _ P _ D1) as W. rewrite D4 in W. exact W. }
  rewrite E, D4 in C4. subst lo. lia.
Qed.
End Shape.

(** C19: the leaves hold exactly the rows of the map: a row found below the
    root is the current one, and the current row of a key is in a leaf. *)
Theorem C19_rows_sound : forall ops d p k v, let t := run step init ops in
  below (t_pg t) (t_rt t) d p -> In (k, v) (pg_items (t_pg t p)) -> value (t_log t) k = Some v.
Proof.
  intros ops d p k v t B I. pose proof (TI_run ops) as T. fold t in T. pose proof (ti_pi _ T) as P.
  destruct (below_live t T _ _ _ B (r_live _ _ P)) as [L _]. destruct (it_in _ _ P p k v L I) as [V C].
  apply (ti_cont _ T p k L V C). auto.
Qed.
Theorem C19_rows_complete : forall ops k v, let t := run step init ops in
  value (t_log t) k = Some v -> exists p, pg_live (t_pg t p) = true /\ pg_level (t_pg t p) = 0 /\ In (k, v) (pg_items (t_pg t p)) /\
    (forall q w, pg_live (t_pg t q) = true -> In (k, w) (pg_items (t_pg t q)) -> q = p).
Proof.
  intros ops k v t E. pose proof (TI_run ops) as T. fold t in T. pose proof (ti_pi _ T) as P.
  pose proof (lv _ _ P _ (r_live _ _ P)) as LV. destruct (ex _ _ P 0 (KAt k)) as (p & L & V & C); [lia|]. exists p. split; auto. split; auto.
  split; [apply (ti_cont _ T p k L V C); auto|]. intros q w Lq I. destruct (it_in _ _ P q k w Lq I) as [Vq Cq].
  apply (uq _ _ P q p (KAt k)); auto. congruence.
Qed.

(** C19: balanced: all leaves are at the same depth, and rows are in leaves. *)
Theorem C19_balanced : forall ops, let t := run step init ops in exists h : nat,
  forall d p, below (t_pg t) (t_rt t) d p -> (d <= h)%nat /\ (pg_level (t_pg t p) = 0 <-> d = h) /\
    (pg_items (t_pg t p) <> [] -> d = h).
Proof.
  intros ops t. pose proof (TI_run ops) as T. fold t in T. pose proof (ti_pi _ T) as P.
  pose proof (lv _ _ P _ (r_live _ _ P)) as LV. exists (Z.to_nat (pg_level (t_pg t (t_rt t)))). intros d p B.
  destruct (below_live t T _ _ _ B (r_live _ _ P)) as [L E]. pose proof (lv _ _ P p L) as LP. split; [lia|]. split; [lia|].
  intros N. destruct (pg_items (t_pg t p)) as [|[k v] l] eqn:EI; [congruence|].
  destruct (it_in _ _ P p k v L) as [V _]; [rewrite EI; left; auto|]. lia.
Qed.

(** C19: separators: rows below a downlink are not left of its key, and left of
    the key of every later downlink; rows below the first child are left of all. *)
Theorem C19_separators : forall ops d p k c d' q x v, let t := run step init ops in
  below (t_pg t) (t_rt t) d p -> In (k, c) (pg_downs (t_pg t p)) ->
  below (t_pg t) (fst c) d' q -> In (x, v) (pg_items (t_pg t q)) ->
  k <= x /\ (forall k2 c2, In (k2, c2) (pg_downs (t_pg t p)) -> k < k2 -> x < k2) /\
  (match pg_hi (t_pg t p) with Some h => x < h | None => True end).
Proof.
  intros ops d p k c d' q x v t B I B' IX. pose proof (TI_run ops) as T. fold t in T. pose proof (ti_pi _ T) as P.
  destruct (below_live t T _ _ _ B (r_live _ _ P)) as [L E].
  destruct (dn_in _ _ P p k c L I) as (V & D1 & D2 & D3). pose proof D3 as (C1 & C2 & C3 & C4).
  destruct (below_live t T _ _ _ B' C1) as [Lq _]. destruct (it_in _ _ P q x v Lq IX) as [_ Cq].
  pose proof (below_within t T _ _ _ x B' C1 Cq) as CC. split; [|split].
  - apply cov_at in CC. rewrite C4 in CC. tauto.
  - intros k2 c2 I2 LT. eapply (child_before t T p c (Some k) x k2 c2); eauto.
  - assert (CP : covers (KAt x) (t_pg t p) = true) by (apply (child_within t T p c (Some k)); auto; right; exists k; auto).
    apply cov_at in CP. tauto.
Qed.
Theorem C19_separators_first : forall ops d p d' q x v, let t := run step init ops in
  below (t_pg t) (t_rt t) d p -> 0 < pg_level (t_pg t p) ->
  below (t_pg t) (fst (pg_first (t_pg t p))) d' q -> In (x, v) (pg_items (t_pg t q)) ->
  forall k2 c2, In (k2, c2) (pg_downs (t_pg t p)) -> x < k2.
Proof.
  intros ops d p d' q x v t B V B' IX k2 c2 I2. pose proof (TI_run ops) as T. fold t in T. pose proof (ti_pi _ T) as P.
  destruct (below_live t T _ _ _ B (r_live _ _ P)) as [L E].
  pose proof (dn_fst _ _ P p L V) as D3. pose proof D3 as (C1 & C2 & C3 & C4).
  destruct (below_live t T _ _ _ B' C1) as [Lq _]. destruct (it_in _ _ P q x v Lq IX) as [_ Cq].
  pose proof (below_within t T _ _ _ x B' C1 Cq) as CC. eapply (child_before t T p _ (pg_lo (t_pg t p)) x k2 c2); eauto.
  destruct (dn_in _ _ P p k2 c2 L I2) as (_ & D1 & _). unfold lt_opt in D1. destruct (pg_lo (t_pg t p)); auto.
Qed.

(** C20: a forward scan, whatever splits and merges happen between its page
    loads: rows in order, each key once, only keys asked for, and for every key
    asked for the answer that was right at some moment of the scan. *)
Theorem C20_forward_scan : forall ops later s from til out haz r,
  t_log (run step init ops) = later ++ EEnd s true from til out haz :: r ->
  exists during before, r = during ++ EBegin s :: before /\ ~ In (EBegin s) during /\ answer true from til out during before.
Proof.
  intros ops later s from til out haz r E. pose proof (ti_log _ (TI_run ops)) as H. rewrite E in H. apply log_at in H. apply H. auto.
Qed.

(** C20 for backward scans, except in the two cases refuted below (the last
    component of the record says that one of them occurred): the search had to
    retry after it had noted a low key, or a scan with a commit number as its
    snapshot came to a page that does not end at the low key it came from. *)
Theorem C20_backward_scan_partial : forall ops later s from til out r,
  t_log (run step init ops) = later ++ EEnd s false from til out false :: r ->
  exists during before, r = during ++ EBegin s :: before /\ ~ In (EBegin s) during /\ answer false from til out during before.
Proof.
  intros ops later s from til out r E. pose proof (ti_log _ (TI_run ops)) as H. rewrite E in H. apply log_at in H. apply H. auto.
Qed.

Lemma value_quiet : forall a b k, quiet a -> value (a ++ b) k = value b k.
Proof.
  induction a as [|e a IH]; intros b k Q; auto. assert (Q' : quiet a) by (intros x X; apply Q; right; auto).
  specialize (Q e (or_introl eq_refl)). destruct e; try contradiction; cbn; auto.
Qed.

(** When nobody writes during the scan its rows are exactly those of the range,
    whatever the pages do. *)
Theorem C20_exact_when_quiet : forall fwd from til out during before,
  answer fwd from til out during before -> quiet during ->
  asc (if fwd then map fst out else rev (map fst out)) /\
  forall k v, In (k, v) out <-> wanted fwd from til k /\ value before k = Some v.
Proof.
  intros fwd from til out during before (A & B & C) Q. split; auto. intros k v.
  assert (G : wanted fwd from til k -> (In (k, v) out <-> value before k = Some v)).
  { intros W. destruct (C k W) as (l & e & E & V). rewrite (V v). rewrite value_quiet; [tauto|].
    intros x X. apply Q. rewrite E. apply in_app_iff. auto. }
  split; [intros I; pose proof (B k v I) as W; split; auto; apply G; auto|]. intros [W V]. apply G; auto.
Qed.

(** * Cases *)
Definition puts (l : list Z) : list op := flat_map (fun k => [OPut 0 k (k + 1); OStep 0]) l.
(* Six rows, the root grown to two leaves. *)
Definition two_leaves : list op := puts [10; 20; 30; 40; 50; 60] ++ [ORoot 1 2 40].
Definition scanned (t : tree) : list (list Z * bool) :=
  flat_map (fun e => match e with EEnd _ _ _ _ out haz => [(map fst out, haz)] | _ => [] end) (t_log t).

(** A search that arrives on a split leaf follows the right link; a lookup
    started before the split and one after agree with the map. *)
Example C19_case : exists l, t_log (run step init (two_leaves ++
    [OFind 1 60; OStep 1; OSplit 2 3 50; OStep 1; OPut 2 60 99; OStep 2; OStep 2; OStep 2; OStep 1; ODown 0 2; OClear 0 2;
     ODel 2 50; OStep 2; OStep 2; OFind 1 50; OStep 1; OStep 1]))
  = EFind 50 None :: EDel 50 :: EFind 60 (Some 99) :: EPut 60 99 :: l.
Proof. vm_compute. eexists. reflexivity. Qed.
Example C19_deep : exists d p, let t := run step init (two_leaves ++ [ORoot 5 6 40]) in
  below (t_pg t) (t_rt t) d p /\ In (40, 41) (pg_items (t_pg t p)) /\ d = 2%nat.
Proof.
  exists 2%nat, 2. cbv zeta. split; [|vm_compute; auto].
  eapply below_down with (k := 40) (c := (6, 0)); [vm_compute; auto|].
  eapply below_first; [vm_compute; reflexivity|]. vm_compute. apply below_here.
Qed.

(** A forward scan during which the leaf ahead splits, then merges back and a
    row is written; a backward scan during which the next leaf splits. *)
Example C20_forward_case : scanned (run step init (two_leaves ++
    [OScan 1 true (Some 20) (Some (60, false)) true; OStep 1; OStep 1; OSplit 2 3 50; OStep 1; ODown 0 2; OClear 0 2; OMerge 0 1 2;
     OPut 2 55 1; OStep 2; OStep 2; OStep 1; OStep 1; OStep 1])) = [([20; 30; 40; 50; 55], false)].
Proof. vm_compute. reflexivity. Qed.
Example C20_backward_case : scanned (run step init (two_leaves ++
    [OScan 1 false None None true; OStep 1; OStep 1; OSplit 1 3 20; ODown 0 1; OClear 0 1; OStep 1; OStep 1; OStep 1; OStep 1]))
  = [([60; 50; 40; 30; 20; 10], false)].
Proof. vm_compute. reflexivity. Qed.

(** F65: a backward scan whose snapshot is a commit number has returned the
    right leaf; the leaf is then merged into its left neighbour, where no page
    image is kept; the scan returns its rows again. *)
Theorem C20_refuted_backward_after_merge : exists ops later s out haz r,
  t_log (run step init ops) = later ++ EEnd s false None None out haz :: r /\
  map fst out = [60; 50; 40; 60; 50; 40; 30; 20; 10] /\ exists before, r = EBegin s :: before.
Proof.
  exists (two_leaves ++ [OScan 1 false None None true; OStep 1; OStep 1; OMerge 0 1 2; OStep 1; OStep 1; OStep 1]).
  eexists [], 1, _, _, _. split; [vm_compute; reflexivity|]. split; [reflexivity|]. eexists. reflexivity.
Qed.

(** F66: splits only.  The search for the last leaf follows a right link, and
    the leaf it comes to is split and linked before it is read.  The search
    retries from the parent, but the low key noted on the way stays in force:
    the scan goes on left of it and row 50 is never returned. *)
Theorem C20_refuted_backward_lost_row : exists ops later s out haz r,
  t_log (run step init ops) = later ++ EEnd s false None None out haz :: r /\
  map fst out = [60; 40; 30; 20; 10] /\ value r 50 = Some 51 /\ (forall p l q, ~ In (OMerge p l q) ops).
Proof.
  exists (two_leaves ++ [OScan 1 false None None false; OStep 1; OSplit 2 3 50; OStep 1; OSplit 3 4 60; ODown 0 3; OClear 0 3;
    OStep 1; OStep 1; OStep 1; ODown 0 2; OClear 0 2; OStep 1; OStep 1; OStep 1; OStep 1]).
  eexists [], 1, _, _, _. split; [vm_compute; reflexivity|]. split; [reflexivity|]. split; [reflexivity|].
  intros p l q I. vm_compute in I. repeat (destruct I as [I|I]; [discriminate|]). exact I.
Qed.

Print Assumptions C19_lookup.
Print Assumptions C19_rows_sound.
Print Assumptions C19_rows_complete.
Print Assumptions C19_balanced.
Print Assumptions C19_separators.
Print Assumptions C19_separators_first.
Print Assumptions C20_forward_scan.
Print Assumptions C20_backward_scan_partial.
Print Assumptions C20_exact_when_quiet.
Print Assumptions C20_refuted_backward_after_merge.
Print Assumptions C20_refuted_backward_lost_row.
