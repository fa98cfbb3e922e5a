(** Proofs for C18: the items of a page as the input of btree_page_reorg. *)
From Coq Require Import ZArith List Bool Lia ZifyBool.
From Verif Require Import Base PgChunkModel PgChunkSpec PgChunkProofs PgChunkOpProofs PgChunkRunProofs PgChunkPageProofs.
From Verif Require Import PgReorgModel PgReorgSpec PgReorgProofs PgReorgPutProofs PgReorgRepProofs PgReorgMainProofs.
Import ListNotations.
Open Scope Z_scope.

Lemma own_read : forall p, map (rread (pg_m p)) (own p) = items (contents p).
Proof.
  intros p. unfold own, contents, items. rewrite !flat_map_concat_map, concat_map, !map_map. f_equal.
  apply map_ext. intros c. rewrite map_map. apply map_ext. reflexivity.
Qed.

Fixpoint own_its (a : Z) (l : list item) : list ritem :=
  match l with [] => [] | x :: t => (fst x, Pg a (length (snd x))) :: own_its (a + bytes x) t end.
Fixpoint own_gs (a : Z) (l : list group) : list (list ritem) :=
  match l with [] => [] | g :: t => own_its (a + array (count (fst g))) (fst g) :: own_gs (a + group_bytes g) t end.

Lemma own_its_split : forall l a X x Y, own_its a l = X ++ x :: Y -> exists P y Q, l = P ++ y :: Q /\ length P = length X /\
  x = (fst y, Pg (a + total P) (length (snd y))).
Proof.
  induction l as [|z l IH]; intros a X x Y E; [destruct X; discriminate|]. destruct X as [|w X]; cbn in E; injection E; intros E1 E2.
  - exists [], z, l. subst x. cbn [total fold_right]. rewrite Z.add_0_r. auto.
  - destruct (IH _ _ _ _ E1) as (P & y & Q & -> & L & ->). exists (z :: P), y, Q. cbn [length app]. rewrite total_cons.
    split; [reflexivity|]. split; [lia|]. rewrite Z.add_assoc. reflexivity.
Qed.
Lemma own_gs_split : forall l a X x Y, own_gs a l = X ++ x :: Y -> exists P g Q, l = P ++ g :: Q /\ length P = length X /\
  x = own_its (a + data_bytes P + array (count (fst g))) (fst g).
Proof.
  induction l as [|z l IH]; intros a X x Y E; [destruct X; discriminate|]. destruct X as [|w X]; cbn in E; injection E; intros E1 E2.
  - exists [], z, l. subst x. cbn [data_bytes fold_right]. rewrite Z.add_0_r. auto.
  - destruct (IH _ _ _ _ E1) as (P & y & Q & -> & L & ->). exists (z :: P), y, Q. cbn [length app]. rewrite data_cons.
    split; [reflexivity|]. split; [lia|]. rewrite Z.add_assoc. reflexivity.
Qed.
Lemma own_its_len : forall l a, length (own_its a l) = length l.
Proof. induction l; intros; cbn; auto. Qed.
Lemma own_gs_len : forall l a, length (own_gs a l) = length l.
Proof. induction l; intros; cbn; auto. Qed.

Lemma own_eq : forall p G st, Rep p G st -> own p = concat (own_gs st G).
Proof.
  intros p G st R. unfold own. rewrite flat_map_concat_map. f_equal.
  apply (@map_seq_eq (list ritem)).
  - rewrite own_gs_len, (r_cc _ _ _ R). apply Nat2Z.id.
  - intros X x Y E. destruct (own_gs_split _ _ _ _ _ E) as (A & g & C & EG & <- & ->).
    rewrite (at_n _ _ _ _ _ _ R EG). apply (@map_seq_eq ritem).
    + rewrite own_its_len. apply Nat2Z.id.
    + intros U u V EU. destruct (own_its_split _ _ _ _ _ EU) as (P & y & Q & EI & <- & ->). cbv zeta.
      destruct (it_word _ _ _ _ _ _ R EG _ _ _ EI) as (_ & W1 & W2 & _). unfold count in W1 at 1, W2.
      rewrite W1, W2. pose proof (it_size _ _ _ _ _ _ R EG _ _ _ EI) as S. unfold count in S. rewrite S.
      rewrite (at_loc _ _ _ _ _ _ R EG). f_equal. f_equal; [lia|]. unfold bytes. dlia.
Qed.

Lemma order_le : forall l a b, in_order a l = true -> b <= a -> in_order b l = true.
Proof.
  induction l as [|[f [s n|ws]] l IH]; intros a b O L; cbn [in_order] in *; auto; [lia|eauto].
Qed.
Lemma own_its_order : forall l a R, in_order (a + total l) R = true -> in_order a (own_its a l ++ R) = true.
Proof.
  induction l as [|x l IH]; intros a R O; cbn [own_its app in_order].
  - cbn in O. eapply order_le; eauto. lia.
  - rewrite total_cons in O. replace (a <=? a) with true by lia. cbn [andb]. change (2 * Z.of_nat (length (snd x))) with (bytes x).
    apply IH. eapply order_le; eauto. lia.
Qed.
Lemma own_order : forall l a, in_order a (concat (own_gs a l)) = true.
Proof.
  induction l as [|g l IH]; intros a; [reflexivity|]. cbn [own_gs concat].
  pose proof (array_facts (count (fst g)) ltac:(unfold count; lia)).
  apply order_le with (a := a + array (count (fst g))); [|lia]. apply own_its_order.
  eapply order_le; [apply IH|]. unfold group_bytes. lia.
Qed.

Lemma ok_good : forall x, ok_item x -> good x = true.
Proof.
  intros x (F & M & B). unfold good, flag01, even8, bytes in *.
  assert (M4 : (length (snd x) mod 4 = 0)%nat).
  { assert (X : zl (snd x) mod 4 = 0) by (clear - M; dlia). change 4 with (Z.of_nat 4) in X. rewrite <- Nat2Z.inj_mod in X. lia. }
  rewrite M4. assert (1 <= length (snd x))%nat by lia. lia.
Qed.

Lemma ok_items : forall p G st, Rep p G st -> Forall ok_item (items G).
Proof.
  intros p G st R. pose proof (r_ok _ _ _ R) as F. clear R. induction F as [|g G [O _] F IH]; [constructor|].
  cbn [items flat_map]. apply Forall_app. split; auto.
Qed.

Lemma own_given : forall mk p G st, Rep p G st -> G <> [] -> (forall x, good (mk x) = true) ->
  given mk p (own p) (key_at p (pg_cc p - 1)).
Proof.
  intros mk p G st R NE K. split; [|split; [|split]]; auto.
  - rewrite (own_eq _ _ _ R). eapply order_le; [apply own_order|]. pose proof (r_st _ _ _ R). lia.
  - assert (F : Forall ok_item (map (rread (pg_m p)) (own p))) by (rewrite own_read, (Rep_contents _ _ _ R); apply (ok_items _ _ _ R)).
    rewrite Forall_map in F. eapply Forall_impl; [|exact F]. intros r O. apply ok_good. exact O.
  - destruct (r_last _ _ _ R) as [H|(A & g & E & B)]; [left; exact H|right].
    assert (E2 : G = A ++ g :: []) by exact E.
    replace (pg_cc p - 1) with (zl A) by (rewrite (r_cc _ _ _ R), E, zl_app; cbn [length]; lia).
    rewrite (Rep_key _ _ _ _ _ _ R E2). apply ok_good. 
    destruct (at_ok _ _ _ _ _ _ R E2) as (_ & (_ & F & M) & _). split; [exact F|]. split; [exact M|exact B].
Qed.
