(* C17: searching a page finds the first item not below the key, or the last
   child not above it, however the items are spread over the page's chunks. *)
From Coq Require Import ZArith List Bool Lia ZifyBool.
From Verif Require Import Base KeySpec KeyModel KeyProofs PageSearchModel PageSearchSpec PageSearchProofs.
Import ListNotations.
Open Scope Z_scope.

(* In a leaf: the position found is that of the first item not below the key,
   and the locator designates that item unless all items are below. *)
Theorem C17_leaf : forall (K : Type) (lt : K -> K -> Prop) (p : page K) (cmp : K -> Z),
  layout p -> sorted lt p -> agrees lt cmp -> leaf p = true ->
  let l := page_find_item p (SKey cmp KPlain) in
  first_not_below p cmp (get_offset p l) /\
  (get_offset p l < itemsCount p -> designates p l (get_offset p l)) /\
  (get_offset p l = itemsCount p -> locator_is_valid l = false).
Proof.
  intros K lt p cmp L SO AG LF. cbn zeta. cbn [page_find_item].
  destruct (search_spec K p L cmp lt SO AG KPlain ltac:(auto)) as (W & I & B & _ & A1 & A2).
  cbn zeta in *. rewrite LF in *.
  pose proof W as (_ & W2 & _).
  destruct (find_real_spec K p L (Z.to_nat (chunksCount p)) _ W ltac:(lia) I) as (F1 & F2 & F3 & F4).
  unfold page_locator_find_real_item. rewrite F2. split; [|split; auto].
  split; [auto|]. split.
  - intros i Hi. pose proof (A1 i). lia.
  - intros i Hi. pose proof (A2 i). lia.
Qed.

(* In an inner page: the child found is the last whose key is not above the
   search key (strictly below it, when looking for a page by its high key). *)
Theorem C17_downlink : forall (K : Type) (lt : K -> K -> Prop) (p : page K) (cmp : K -> Z) (k : kind),
  layout p -> sorted lt p -> agrees lt cmp -> leaf p = false ->
  let l := page_find_downlink p (SKey cmp k) in
  designates p l (get_offset p l) /\
  last_child p (fun x => match k with KPlain => cmp x >= 0 | KHiKey => cmp x > 0 end) (get_offset p l).
Proof.
  intros K lt p cmp k L SO AG LF. cbn zeta. cbn [page_find_downlink].
  destruct (search_spec K p L cmp lt SO AG k ltac:(congruence)) as (W & I & B & P & A1 & A2).
  cbn zeta in *. rewrite LF in *. specialize (P eq_refl).
  destruct (prev_spec K p L _ W I) as [[_ D] _]; [lia|]. cbn zeta in D.
  destruct (des_wl K p L _ _ D) as (_ & _ & E & R).
  unfold get_offset. rewrite E. split; [auto|]. split; [auto|].
  set (pos := offset p _ + l_item _) in *. split.
  - destruct (Z.eq_dec pos 1) as [->|N]; [left; lia|right].
    specialize (A1 (pos - 1) ltac:(lia) ltac:(lia)). destruct k; lia.
  - intros i Hi G. specialize (A2 i ltac:(lia) ltac:(lia)). destruct k; lia.
Qed.

(* The leftmost and the rightmost child or item. *)
Theorem C17_ends : forall (K : Type) (p : page K), layout p -> 0 < itemsCount p ->
  designates p (page_find_downlink p SLeftmost) 0 /\
  designates p (page_find_downlink p SRightmost) (itemsCount p - 1) /\
  designates p (page_find_item p SLeftmost) 0 /\
  designates p (page_find_item p SRightmost) (itemsCount p - 1) /\
  get_offset p (locator_tail p) = itemsCount p.
Proof.
  intros K p L H. cbn [page_find_downlink page_find_item].
  pose proof (item_fill_spec K p L 0 ltac:(lia)).
  destruct (item_fill_back_spec K p L (itemsCount p - 1) ltac:(lia)) as (_ & _ & D).
  destruct (item_fill_back_spec K p L (itemsCount p) ltac:(lia)) as (_ & T & _).
  specialize (D ltac:(lia)). repeat (split; auto).
Qed.

(* Stepping to the neighbour. *)
Theorem C17_next : forall (K : Type) (p : page K) l pos, layout p -> designates p l pos ->
  (snd (locator_next p l) = true <-> pos + 1 < itemsCount p) /\
  (pos + 1 < itemsCount p -> designates p (fst (locator_next p l)) (pos + 1)) /\
  (pos + 1 = itemsCount p -> locator_is_valid (fst (locator_next p l)) = false).
Proof. intros K p l pos L D. apply (next_spec K p L l pos D). Qed.
Theorem C17_prev : forall (K : Type) (p : page K) l pos, layout p -> designates p l pos ->
  (0 < pos -> snd (locator_prev p l) = true /\ designates p (fst (locator_prev p l)) (pos - 1)) /\
  (pos = 0 -> snd (locator_prev p l) = false /\ locator_is_valid (fst (locator_prev p l)) = false).
Proof.
  intros K p l pos L D. destruct (des_wl K p L _ _ D) as (W & I & E & _). rewrite <- E.
  apply (prev_spec K p L l W). lia.
Qed.

(* Walking over a page visits every item once, in order. *)
Theorem C17_foreach : forall (K : Type) (p : page K), layout p -> 0 < itemsCount p ->
  forall n, itemsCount p <= Z.of_nat n ->
  foreach n p (locator_first p) = map Z.of_nat (seq 0 (Z.to_nat (itemsCount p))).
Proof.
  intros K p L H n Hn. unfold locator_first.
  rewrite (foreach_spec K p L n _ 0 (item_fill_spec K p L 0 ltac:(lia)) ltac:(lia)).
  rewrite Z.sub_0_r. apply map_ext. intros; lia.
Qed.

(* ---- with the comparison functions of an index ---- *)

(* Keys of an index with columns fs, in the order of the index. *)
Definition ordered (fs : list fld) (p : page (list val)) : Prop := sorted (klt fs) p.

(* A key is found in a leaf iff it is there. *)
Theorem C17_found_iff_present : forall fs (p : page (list val)) (key : list val),
  layout p -> ordered fs p -> leaf p = true -> length key = length fs ->
  (forall i, 0 <= i < itemsCount p -> length (item p i) = length fs) ->
  let l := page_find_item p (SKey (o_idx_cmp_tuples fs key) KPlain) in
  (exists i, 0 <= i < itemsCount p /\ item p i = key) <->
  (get_offset p l < itemsCount p /\ designates p l (get_offset p l) /\ item p (get_offset p l) = key).
Proof.
  intros fs p key L SO LF LK WD. cbn zeta.
  destruct (C17_leaf (list val) (klt fs) p (o_idx_cmp_tuples fs key) L SO (tuples_agree fs key LK) LF) as ((B & A1 & A2) & D & _).
  cbn zeta in *. set (l := page_find_item p _) in *. set (pos := get_offset p l) in *.
  split.
  - intros (i & Hi & E).
    assert (SELF : o_idx_cmp_tuples fs key key = 0).
    { destruct (tup_cmp_spec fs key key LK LK) as [[_ H]|[[H _]|[_ H]]]; auto; destruct (key_lt_irrefl _ _ H). }
    assert (pos <= i). { destruct (Z.lt_ge_cases i pos); auto. specialize (A1 i ltac:(lia)). rewrite E, SELF in A1. lia. }
    split; [lia|]. split; [apply D; lia|].
    destruct (Z.eq_dec pos i) as [->|N]; auto.
    exfalso. pose proof (s_items (klt fs) p SO pos i) as LT. rewrite LF in LT. specialize (LT ltac:(lia) ltac:(lia) ltac:(lia)).
    specialize (A2 pos ltac:(lia)).
    pose proof (tuples_agree fs key LK _ _ LT) as G. rewrite E, SELF in G. lia.
  - intros (H1 & H2 & H3). exists pos. split; [lia|auto].
Qed.

(* A scan started at a lower bound starts with the first item within it. *)
Theorem C17_lower_bound : forall fs nuniq (p : page (list val)) (b : list vbound),
  layout p -> ordered fs p -> leaf p = true -> length b = length fs ->
  Forall (fun k => b_lower k = true /\ b_upper k = false) b ->
  (forall i, 0 <= i < itemsCount p -> length (item p i) = length fs) ->
  let l := page_find_item p (SKey (o_idx_cmp_key_bound_to_tuple fs nuniq false KBound b) KPlain) in
  forall i, 0 <= i < itemsCount p -> (get_offset p l <= i <-> above fs (map plain b) (item p i)).
Proof.
  intros fs nuniq p b L SO LF LB F WD. cbn zeta.
  assert (F' : Forall (fun k => b_lower k = negb (b_upper k)) b).
  { eapply Forall_impl; [|exact F]. intros a [-> ->]; auto. }
  destruct (C17_leaf (list val) (klt fs) p (o_idx_cmp_key_bound_to_tuple fs nuniq false KBound b) L SO
     (bounds_agree fs nuniq false KBound b F' LB ltac:(discriminate)) LF) as ((B & A1 & A2) & _ & _).
  cbn zeta in *. set (pos := get_offset p _) in *. intros i Hi.
  rewrite <- (above_code fs b (item p i) F (WD i Hi) LB).
  unfold o_idx_cmp_key_bound_to_tuple in A1, A2. rewrite firstn_all in A1, A2.
  split.
  - intros H. specialize (A2 i ltac:(lia)). destruct (cmp_bound_loop fs b (item p i) =? 0) eqn:E; lia.
  - intros H. destruct (Z.lt_ge_cases i pos) as [G|G]; auto. specialize (A1 i ltac:(lia)).
    destruct (cmp_bound_loop fs b (item p i) =? 0) eqn:E; lia.
Qed.

(* ---- the hypotheses are met ---- *)

(* Three chunks, the second empty; keys 10, 20, ..., 50 over one column. *)
Definition ex_key (z : Z) : list val := [Some z].
Definition ex_leaf : page (list val) :=
  mkPage true 5 3 (fun c => if c =? 0 then 0 else 2) (fun c => ex_key 30) (fun i => ex_key (10 * (i + 1))).
Definition ex_f : list fld := [mkF true false].
Lemma ex_layout : layout ex_leaf.
Proof.
  constructor; cbn; try lia; try discriminate. intros c H1 H2. destruct (c =? 0) eqn:E; destruct (c + 1 =? 0) eqn:E2; lia.
Qed.
Lemma ex_klt a b : a < b -> klt ex_f (ex_key a) (ex_key b).
Proof. intros H. unfold klt, ex_f, ex_key; cbn. repeat split. left. unfold plt; cbn. lia. Qed.
Lemma ex_ordered : ordered ex_f ex_leaf.
Proof.
  constructor; cbn [leaf itemsCount chunksCount offset hikey item ex_leaf]; intros.
  - apply ex_klt. lia.
  - apply ex_klt. destruct (c + 1 =? 0) eqn:E; lia.
  - destruct (c + 1 =? 0) eqn:E; [lia|]. destruct (Z.eq_dec i 2) as [->|N]; [left; reflexivity|right; apply ex_klt; lia].
  - left; auto.
Qed.
Example C17_example :
  layout ex_leaf /\ ordered ex_f ex_leaf /\
  map (fun z => get_offset ex_leaf (page_find_item ex_leaf (SKey (o_idx_cmp_tuples ex_f (ex_key z)) KPlain)))
      [5; 10; 11; 20; 25; 30; 31; 50; 51] = [0; 0; 1; 1; 2; 2; 3; 4; 5] /\
  foreach 9 ex_leaf (locator_first ex_leaf) = [0; 1; 2; 3; 4].
Proof. split; [apply ex_layout|]. split; [apply ex_ordered|]. split; vm_compute; reflexivity. Qed.

Definition ex_inner : page (list val) :=
  mkPage false 5 3 (fun c => if c =? 0 then 0 else if c =? 1 then 2 else 4) (fun c => if c =? 0 then ex_key 30 else ex_key 50) (fun i => ex_key (10 * (i + 1))).
Example C17_example_inner :
  layout ex_inner /\ ordered ex_f ex_inner /\
  map (fun z => get_offset ex_inner (page_find_downlink ex_inner (SKey (o_idx_cmp_tuples ex_f (ex_key z)) KPlain)))
      [5; 10; 19; 20; 29; 30; 49; 50; 99] = [0; 0; 0; 1; 1; 2; 3; 4; 4] /\
  map (fun z => get_offset ex_inner (page_find_downlink ex_inner (SKey (o_idx_cmp_tuples ex_f (ex_key z)) KHiKey)))
      [20; 30; 50; 51] = [0; 1; 3; 4].
Proof.
  split. { constructor; cbn; try lia. intros c H1 H2. destruct (c =? 0) eqn:E, (c + 1 =? 0) eqn:E2, (c + 1 =? 1) eqn:E3, (c =? 1) eqn:E4; lia. }
  split.
  { constructor; cbn [leaf itemsCount chunksCount offset hikey item ex_inner]; intros.
    - apply ex_klt. lia.
    - destruct (c =? 0) eqn:E; apply ex_klt; destruct (c + 1 =? 0) eqn:E2, (c + 1 =? 1) eqn:E3; lia.
    - destruct (c =? 0) eqn:E, (c + 1 =? 0) eqn:E2, (c + 1 =? 1) eqn:E3; try lia.
      + destruct (Z.eq_dec i 2) as [->|N]; [left; reflexivity|right; apply ex_klt; lia].
      + destruct (Z.eq_dec i 4) as [->|N]; [left; reflexivity|right; apply ex_klt; lia].
    - destruct (c =? 0) eqn:E, (d =? 0) eqn:E2; try lia. right. apply ex_klt; lia. }
  split; vm_compute; reflexivity.
Qed.
(* bounds: (v >= 20, pk unbounded) on a two-column key, descending second column *)
Example C17_bound_example :
  Forall (fun k => b_lower k = true /\ b_upper k = false)
    [mkB 20 23 false false true false true; mkB 0 0 false true true false false] /\
  above [mkF true false; mkF false true] (map plain [mkB 20 23 false false true false true; mkB 0 0 false true true false false]) [Some 20; None].
Proof. split; [repeat constructor|]. cbn. right. repeat split. Qed.

Print Assumptions C17_leaf.
Print Assumptions C17_downlink.
Print Assumptions C17_ends.
Print Assumptions C17_next.
Print Assumptions C17_prev.
Print Assumptions C17_foreach.
Print Assumptions C17_found_iff_present.
Print Assumptions C17_lower_bound.
