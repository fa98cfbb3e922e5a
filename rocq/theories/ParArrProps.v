(** C53, the array of on-disk downlinks: with no more workers than entries
    in its first segment every entry added is found again at its place;
    with more workers one can be lost. *)
From Coq Require Import ZArith List Bool Lia ZifyBool ZifyNat.
From Verif Require Import Base ParArrModel.
Import ListNotations.
Open Scope Z_scope.

Fixpoint nover (l : list (nat * phase)) : Z :=
  match l with [] => 0 | x :: t => (if over x then 1 else 0) + nover t end.

Lemma nover_bounds : forall l, 0 <= nover l <= Z.of_nat (length l).
Proof. induction l as [|x t IH]; cbn [nover length]; [lia|]. destruct (over x); lia. Qed.

Lemma nover_set : forall l w v, snd (nth w l (O, Rest)) <> Rest ->
  nover (setn l w v) = nover l - (if over (nth w l (O, Rest)) then 1 else 0) + (if over v then 1 else 0).
Proof.
  induction l as [|x t IH]; intros [|w] v H; cbn in H; try contradiction; cbn [setn nover nth]; [lia|].
  rewrite IH by exact H. lia.
Qed.

Lemma nover_set0 : forall l w h e, nth w l (O, Rest) = (h, Rest) ->
  nover (setn l w (h, Try e)) = nover l.
Proof.
  induction l as [|x t IH]; intros [|w] h e H; cbn in H |- *; auto.
  - subst x. reflexivity.
  - rewrite (IH w h e H). reflexivity.
Qed.

Lemma nover_lt : forall l w e h, nth w l (O, Rest) = (h, Try e) -> nover l < Z.of_nat (length l).
Proof.
  induction l as [|x t IH]; intros [|w] e h H; cbn [nth] in H; try discriminate.
  - subst x. cbn [nover length over snd]. pose proof (nover_bounds t). lia.
  - cbn [nover length]. specialize (IH w e h H). destruct (over x); lia.
Qed.

Lemma nover_none : forall l, existsb over l = false -> nover l = 0.
Proof.
  induction l as [|x t IH]; intro H; cbn in *; [reflexivity|].
  apply orb_false_iff in H. destruct H as [H1 H2]. rewrite H1, IH by exact H2. reflexivity.
Qed.

Lemma setn_len : forall A (l : list A) w v, length (setn l w v) = length l.
Proof. induction l as [|x t IH]; intros [|w] v; cbn; auto. Qed.

Lemma setn_in : forall A (l : list A) w v x, In x (setn l w v) -> x = v \/ In x l.
Proof.
  induction l as [|y t IH]; intros [|w] v x H; cbn in *; auto.
  - destruct H; auto.
  - destruct H as [H|H]; auto. destruct (IH _ _ _ H); auto.
Qed.

Lemma nth_in_rest : forall l w x, nth w l (O, Rest) = x -> snd x <> Rest -> In x l.
Proof.
  intros l w x H N. destruct (nth_in_or_default w l (O, Rest)) as [I|I].
  - rewrite H in I. exact I.
  - rewrite H in I. exfalso. apply N. rewrite I. reflexivity.
Qed.

Record AInv (cap : Z) (n : nat) (s : arr) : Prop := mkAI {
  a_len : length (d_ws s) = n;
  a_alloc : cap <= d_alloc s;
  a_count : d_count s = Z.of_nat (length (d_log s)) + nover (d_ws s);
  a_fit : Z.of_nat (length (d_log s)) <= d_alloc s;
  a_full : 0 < nover (d_ws s) -> Z.of_nat (length (d_log s)) = d_alloc s;
  a_seg : forall i, (i < length (d_log s))%nat -> d_segs s (d_cur s) (Z.of_nat i) = nth i (d_log s) 0;
  a_idx : forall h e idx, In (h, Over e idx) (d_ws s) \/ In (h, Want e idx) (d_ws s) ->
    idx < d_alloc s \/ (h = d_cur s /\ idx < d_alloc s + Z.of_nat n)
}.

Lemma ainit_inv : forall cap n, 0 <= cap -> AInv cap n (ainit cap n).
Proof.
  intros cap n C. assert (Z0 : nover (repeat (O, Rest) n) = 0).
  { induction n as [|n IH]; cbn; [reflexivity|]. exact IH. }
  constructor; cbn; rewrite ?Z0; try lia.
  - apply repeat_length.
  - intros h e idx [H|H]; apply repeat_spec in H; discriminate.
Qed.

Lemma astep_inv : forall cap n s o, Z.of_nat n <= cap -> AInv cap n s -> AInv cap n (astep s o).
Proof.
  intros cap n s o C I. assert (II := I). destruct I as [L A K Fi Fu Sg Ix].
  assert (IDX : forall w v, (forall h e idx, v = (h, Over e idx) \/ v = (h, Want e idx) ->
     idx < d_alloc s \/ (h = d_cur s /\ idx < d_alloc s + Z.of_nat n)) ->
     forall h e idx, In (h, Over e idx) (setn (d_ws s) w v) \/ In (h, Want e idx) (setn (d_ws s) w v) ->
     idx < d_alloc s \/ (h = d_cur s /\ idx < d_alloc s + Z.of_nat n)).
  { intros w v Hv h e idx [H|H]; apply setn_in in H; destruct H as [H|H].
    - apply (Hv h e idx). left. symmetry. exact H.
    - apply (Ix h e idx). left. exact H.
    - apply (Hv h e idx). right. symmetry. exact H.
    - apply (Ix h e idx). right. exact H. }
  destruct o as [w e|w|w|w]; cbn [astep].
  - destruct (nth w (d_ws s) (O, Rest)) as [h [|e0|e0 idx|e0 idx]] eqn:E; try exact II.
    pose proof (nover_set0 (d_ws s) w h e E) as N.
    constructor; cbn; rewrite ?setn_len, ?N; auto.
    apply IDX. intros h' e' idx [H|H]; discriminate.
  - destruct (nth w (d_ws s) (O, Rest)) as [h [|e|e0 idx|e0 idx]] eqn:E; try exact II.
    assert (NR : snd (nth w (d_ws s) (O, Rest)) <> Rest) by (rewrite E; discriminate).
    pose proof (nover_lt (d_ws s) w e h E) as NL. pose proof (nover_bounds (d_ws s)) as NB.
    destruct (Z.ltb_spec (d_count s) (d_alloc s)) as [Lt|Ge].
    + assert (N0 : nover (d_ws s) = 0) by (destruct (Z.eq_dec (nover (d_ws s)) 0); lia).
      pose proof (nover_set (d_ws s) w (d_cur s, Rest) NR) as N. rewrite E in N. cbn in N.
      constructor; cbn [d_ws d_alloc d_count d_log d_segs d_cur]; rewrite ?setn_len, ?app_length; auto.
      * cbn [length]. lia.
      * cbn [length]. lia.
      * intro P. lia.
      * intros i Hi. cbn [length] in Hi. unfold seg_set. rewrite Nat.eqb_refl.
        destruct (Nat.eq_dec i (length (d_log s))) as [->|Ne].
        -- replace (Z.of_nat (length (d_log s))) with (d_count s) by lia.
           rewrite upd_same, app_nth2, Nat.sub_diag by lia. reflexivity.
        -- rewrite upd_other by lia. rewrite app_nth1 by lia. apply Sg. lia.
      * apply IDX. intros h' e' idx [H|H]; discriminate.
    + pose proof (nover_set (d_ws s) w (d_cur s, Over e (d_count s)) NR) as N. rewrite E in N. cbn in N.
      constructor; cbn [d_ws d_alloc d_count d_log d_segs d_cur]; rewrite ?setn_len; auto.
      * lia.
      * intro P. destruct (Z.eq_dec (nover (d_ws s)) 0); [lia|]. apply Fu. lia.
      * apply IDX. intros h' e' idx [H|H]; [|discriminate]. injection H as <- <- <-.
        right. split; [reflexivity|]. lia.
  - destruct (nth w (d_ws s) (O, Rest)) as [h [|e|e idx|e idx]] eqn:E; try exact II.
    assert (NR : snd (nth w (d_ws s) (O, Rest)) <> Rest) by (rewrite E; discriminate).
    pose proof (nover_set (d_ws s) w (h, Want e idx) NR) as N. rewrite E in N. cbn in N.
    constructor; cbn [d_ws d_alloc d_count d_log d_segs d_cur]; rewrite ?setn_len; auto.
    + lia.
    + intro P. apply Fu. lia.
    + apply IDX. intros h' e' idx' [H|H]; [discriminate|]. injection H as <- <- <-.
      apply (Ix h e idx). left. exact (nth_in_rest _ _ _ E ltac:(discriminate)).
  - destruct (nth w (d_ws s) (O, Rest)) as [h [|e|e idx|e idx]] eqn:E; try exact II.
    assert (NR : snd (nth w (d_ws s) (O, Rest)) <> Rest) by (rewrite E; discriminate).
    destruct (existsb over (d_ws s)) eqn:Ov; [exact II|].
    pose proof (nover_none _ Ov) as N0.
    assert (HI := Ix h e idx (or_intror (nth_in_rest _ _ _ E ltac:(discriminate)))).
    destruct (Z.leb_spec (d_alloc s) idx) as [Le|Gt].
    + destruct HI as [HI|[-> HI]]; [lia|].
      pose proof (nover_set (d_ws s) w (S (d_cur s), Try e) NR) as N. rewrite E in N. cbn in N.
      constructor; cbn [d_ws d_alloc d_count d_log d_segs d_cur]; rewrite ?setn_len; auto; try lia.
      * intros i Hi. unfold seg_set. rewrite Nat.eqb_refl.
        replace ((0 <=? Z.of_nat i) && (Z.of_nat i <? d_count s)) with true by lia.
        apply Sg. exact Hi.
      * intros h' e' idx' H. left.
        assert (O : In (h', Over e' idx') (d_ws s) \/ In (h', Want e' idx') (d_ws s)).
        { destruct H as [H|H]; apply setn_in in H; destruct H as [H|H]; try discriminate; auto. }
        destruct (Ix h' e' idx' O) as [X|[_ X]]; lia.
    + pose proof (nover_set (d_ws s) w (h, Try e) NR) as N. rewrite E in N. cbn in N.
      constructor; cbn [d_ws d_alloc d_count d_log d_segs d_cur]; rewrite ?setn_len; auto; try lia.
      apply IDX. intros h' e' idx' [H|H]; discriminate.
Qed.

Lemma arun_inv : forall cap n ops, 0 <= cap -> Z.of_nat n <= cap ->
  AInv cap n (run astep (ainit cap n) ops).
Proof.
  intros cap n ops C N. apply run_inv; [|apply ainit_inv; exact C].
  intros s o. apply astep_inv. exact N.
Qed.

(** The entries of the current segment, as the disk phase reads them. *)
Definition entries (s : arr) : list Z :=
  map (fun i => d_segs s (d_cur s) (Z.of_nat i)) (seq 0 (length (d_log s))).

(** With no more workers than the first segment has entries (at least 16),
    whatever the schedule: all additions that returned are in the array,
    in order and inside its segment, and the array ends with them when no worker is in between. *)
Theorem C53_array_keeps_entries_partial : forall cap n ops,
  0 <= cap -> Z.of_nat n <= cap ->
  let s := run astep (ainit cap n) ops in
  entries s = d_log s /\
  Z.of_nat (length (d_log s)) <= d_alloc s /\
  Z.of_nat (length (d_log s)) <= d_count s /\
  (existsb over (d_ws s) = false -> d_count s = Z.of_nat (length (d_log s))).
Proof.
  intros cap n ops C N s. assert (I : AInv cap n s) by exact (arun_inv cap n ops C N).
  destruct I as [L A K Fi Fu Sg Ix]. clearbody s.
  split; [|split; [exact Fi|split]].
  - unfold entries. apply (nth_ext _ _ 0 0).
    + rewrite map_length, seq_length. reflexivity.
    + intros i Hi. rewrite map_length, seq_length in Hi.
      rewrite (nth_indep _ 0 ((fun i => d_segs s (d_cur s) (Z.of_nat i)) 0%nat))
        by (rewrite map_length, seq_length; exact Hi).
      rewrite (map_nth (fun i => d_segs s (d_cur s) (Z.of_nat i))), seq_nth by exact Hi. cbn [plus]. apply Sg. exact Hi.
  - pose proof (nover_bounds (d_ws s)). lia.
  - intro O. rewrite K, (nover_none _ O). lia.
Qed.

(** 18 workers, a first segment of 16 entries, filled.  17 workers take the
    indexes 16 to 32 and give them back; the first of them grows the array
    to 32 and adds its entry; the last one, with index 32, grows it again
    and copies from the segment it is still attached to, the first one. *)
Definition many_ops : list aop :=
  flat_map (fun i => [Begin 0 (100 + Z.of_nat i); Enter 0]) (seq 0 16) ++
  flat_map (fun w => [Begin w (200 + Z.of_nat w); Enter w]) (seq 1 17) ++
  map Undo (seq 1 17) ++
  [Grow 1; Enter 1; Grow 17].

Theorem C53_array_entry_lost_refuted : exists n ops,
  let s := run astep (ainit 16 n) ops in
  existsb over (d_ws s) = false /\
  In 201 (d_log s) /\ ~ In 201 (map (fun i => d_segs s (d_cur s) (Z.of_nat i)) (seq 0 100)).
Proof.
  exists 18%nat, many_ops. cbv zeta. split; [|split].
  - vm_compute. reflexivity.
  - vm_compute. tauto.
  - vm_compute. intuition discriminate.
Qed.

(** Three workers, a segment of three entries, five additions. *)
Example C53_array_case :
  let s := run astep (ainit 3 3)
    [Begin 0 7; Begin 1 8; Begin 2 9; Enter 1; Enter 0; Enter 2; Begin 0 5; Begin 1 6;
     Enter 0; Enter 1; Undo 1; Undo 0; Grow 1; Enter 1; Grow 0; Enter 0] in
  entries s = [8; 7; 9; 6; 5] /\ d_count s = 5 /\ d_alloc s = 6.
Proof. vm_compute. auto. Qed.

Print Assumptions C53_array_keeps_entries_partial.
Print Assumptions C53_array_entry_lost_refuted.
