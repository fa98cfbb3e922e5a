(** Proofs about the byte form of metadata. *)
From Coq Require Import ZArith List Bool Lia ZifyBool.
From Verif Require Import Base PageIoModel PageIoSpec PageIoProofs TupleFmtModel TupleFmtProofs CatSerModel CatSerSpec.
Import ListNotations.
Open Scope Z_scope.

(** [p] reads exactly [c], giving [a], and needs all of it. *)
Definition exact_p {A} (p : P A) (c : list Z) (a : A) : Prop :=
  (forall r, p (c ++ r) = Some (a, r)) /\ (forall c1 c2, c = c1 ++ c2 -> c2 <> [] -> p c1 = None).

Lemma ex_ret : forall A (a : A), exact_p (ret a) [] a.
Proof.
  intros A a. split; [intros r; reflexivity|]. intros c1 c2 E N. symmetry in E. apply app_eq_nil in E. destruct E; contradiction.
Qed.
Lemma ex_tk : forall n c, zlen c = n -> exact_p (tk n) c c.
Proof.
  intros n c <-. split.
  - intros r. unfold tk. rewrite zlen_app. pose proof (zlen_nn r). replace (zlen c <=? zlen c + zlen r) with true by lia.
    rewrite skipn_zlen. rewrite (sub_app_l c r 0 (zlen c)) by (pose proof (zlen_nn c); lia). rewrite sub_all. reflexivity.
  - intros c1 c2 -> N. unfold tk. rewrite zlen_app. destruct c2; [contradiction|].
    replace (zlen c1 + zlen (z :: c2) <=? zlen c1) with false; [reflexivity|]. unfold zlen; cbn [length]; lia.
Qed.
Lemma app_cut : forall (ca cb c1 c2 : list Z), ca ++ cb = c1 ++ c2 ->
  (exists d, d <> [] /\ ca = c1 ++ d) \/ (exists c1', c1 = ca ++ c1' /\ cb = c1' ++ c2).
Proof.
  induction ca as [|x ca IH]; intros cb c1 c2 E.
  - right. exists c1. auto.
  - destruct c1 as [|y c1]; [left; exists (x :: ca); split; [discriminate|reflexivity]|].
    cbn in E. injection E as <- E. destruct (IH cb c1 c2 E) as [[d [N ->]]|[c1' [-> ->]]].
    + left. exists d. auto.
    + right. exists c1'. auto.
Qed.
Lemma ex_bind : forall A B (p : P A) (f : A -> P B) ca cb a b, exact_p p ca a -> exact_p (f a) cb b -> exact_p (bind p f) (ca ++ cb) b.
Proof.
  intros A B p f ca cb a b [P1 P2] [F1 F2]. split.
  - intros r. unfold bind. rewrite <- app_assoc, P1. apply F1.
  - intros c1 c2 E N. unfold bind. destruct (app_cut _ _ _ _ E) as [[d [D ->]]|[c1' [-> ->]]].
    + rewrite (P2 c1 d eq_refl D). reflexivity.
    + rewrite P1. apply (F2 c1' c2); auto.
Qed.
Lemma ex_bind_ret : forall A B (p : P A) (f : A -> B) ca a, exact_p p ca a -> exact_p (bind p (fun x => ret (f x))) ca (f a).
Proof. intros A B p f ca a H. rewrite <- (app_nil_r ca). eapply ex_bind; [exact H|apply ex_ret]. Qed.
Lemma ex_many : forall A (p : P A) (cs : list (list Z)) (xs : list A), Forall2 (exact_p p) cs xs -> exact_p (many (length xs) p) (concat cs) xs.
Proof.
  intros A p cs xs H. induction H; cbn [many length concat]; [apply ex_ret|].
  apply ex_bind with (a := y); auto. apply (ex_bind_ret _ _ _ (fun r => y :: r)). exact IHForall2.
Qed.
Lemma ex_arrays : forall k l, arrays_of k l -> exact_p (many (length l) (tk k)) (concat l) l.
Proof.
  intros k l H. apply ex_many. induction l as [|x l IH]; constructor.
  - apply ex_tk. apply H. left; reflexivity.
  - apply IH. intros y Hy; apply H; right; exact Hy.
Qed.
Lemma ex_if : forall A (c : bool) (p q : P A) x y a, (if c then exact_p p x a else exact_p q y a) -> exact_p (if c then p else q) (if c then x else y) a.
Proof. intros A [] p q x y a H; exact H. Qed.

Lemma zlen_le : forall n v, zlen (le n v) = Z.of_nat n.
Proof. intros. unfold zlen. rewrite le_length. reflexivity. Qed.
Lemma ex_le : forall n v, exact_p (tk (Z.of_nat n)) (le n v) (le n v).
Proof. intros. apply ex_tk. apply zlen_le. Qed.

Lemma cstr_app : forall s r, (forall b, In b s -> b <> 0) -> cstr (s ++ 0 :: r) = s.
Proof.
  induction s as [|x s IH]; intros r H; [reflexivity|]. cbn [app cstr]. replace (x =? 0) with false by (pose proof (H x (or_introl eq_refl)); lia).
  f_equal. apply IH. intros b Hb; apply H; right; exact Hb.
Qed.
Lemma cstr_one : forall s, (forall b, In b s -> b <> 0) -> cstr (s ++ [0]) = s.
Proof. intros; apply cstr_app; auto. Qed.

Lemma ex_string : forall s, (forall b, s = Some b -> cstring b) -> exact_p p_string (ser_string s) s.
Proof.
  intros s H. unfold p_string. destruct s as [b|]; cbn [ser_string].
  - destruct (H b eq_refl) as [NZ L]. pose proof (zlen_nn b). eapply ex_bind; [apply (ex_le 8)|].
    rewrite unle_le by (change (256 ^ Z.of_nat 8) with (2 ^ 64); lia). replace (zlen b + 1 =? 0) with false by lia.
    rewrite <- (app_nil_r (b ++ [0])). eapply ex_bind; [apply ex_tk; rewrite zlen_app; reflexivity|]. rewrite cstr_one by auto. apply ex_ret.
  - rewrite <- (app_nil_r (le 8 0)). eapply ex_bind; [apply (ex_le 8)|]. rewrite unle_le by (change (256 ^ Z.of_nat 8) with (2 ^ 64); lia).
    cbn [Z.eqb]. apply ex_ret.
Qed.

Lemma over_same : forall h off n, 0 <= off -> 0 <= n -> off + n <= zlen h -> over h off (sub h off n) = h.
Proof.
  intros h off n H1 H2 H3. unfold over.
  assert (zlen (sub h off n) = n) as L. { unfold zlen in *. rewrite sub_length by lia. lia. }
  rewrite L. unfold sub. cbn [Z.to_nat skipn]. replace (Z.to_nat (off + n)) with (Z.to_nat off + Z.to_nat n)%nat by lia.
  assert (E : skipn (Z.to_nat off + Z.to_nat n) h = skipn (Z.to_nat n) (skipn (Z.to_nat off) h)).
  { clear. generalize (Z.to_nat off) as a. intros a. revert h. induction a; intros h; [reflexivity|]. destruct h; [cbn; rewrite !skipn_nil; reflexivity|]. cbn. apply IHa. }
  rewrite E, firstn_skipn. apply firstn_skipn.
Qed.

Section Nodes.
Variable node : Type.
Variable nil_node : node.
Variable to_str : node -> list Z.
Variable of_str : list Z -> node.
Hypothesis PRINT : nodes_print to_str.

(** What a server of version [pg'] sees of a node written by [pg]. *)
Definition seen (pg pg' : Z) (n : node) : node * bool :=
  if pg / 10000 =? pg' / 10000 then (of_str (to_str n), false) else (nil_node, negb (str_empty (to_str n))).

Lemma ex_node : forall pg pg' n, 0 <= pg < 2 ^ 32 -> exact_p (p_node node nil_node of_str pg') (ser_node node to_str pg n) (seen pg pg' n).
Proof.
  intros pg pg' n H. destruct (PRINT n) as [NZ L]. pose proof (zlen_nn (to_str n)). unfold p_node, ser_node.
  eapply ex_bind; [apply (ex_le 4)|]. eapply ex_bind; [apply (ex_le 8)|].
  rewrite (unle_le 8) by (change (256 ^ Z.of_nat 8) with (2 ^ 64); lia). rewrite (unle_le 4) by (change (256 ^ Z.of_nat 4) with (2 ^ 32); lia).
  rewrite <- (app_nil_r (to_str n ++ [0])). eapply ex_bind; [apply ex_tk; rewrite zlen_app; reflexivity|].
  rewrite cstr_one by auto. unfold seen. destruct (pg / 10000 =? pg' / 10000); apply ex_ret.
Qed.

Definition seen_oix (pg pg' : Z) (x : oix node) : oix node * bool :=
  (mkOix _ (x_hdr _ x) (x_expr _ x) (fst (seen pg pg' (x_pred _ x))) (x_predstr _ x) (fst (seen pg pg' (x_exprs _ x))) (x_excl _ x) (x_imm _ x),
   snd (seen pg pg' (x_pred _ x)) || snd (seen pg pg' (x_exprs _ x))).

Lemma ex_oix : forall pg pg' x, 0 <= pg < 2 ^ 32 -> wf_oix node x -> exact_p (p_oix node nil_node of_str pg') (ser_oix node to_str pg x) (seen_oix pg pg' x).
Proof.
  intros pg pg' x H [W1 [W2 [W3 [W4 [W5 W6]]]]]. unfold p_oix, ser_oix.
  eapply ex_bind; [apply ex_tk; exact W1|]. rewrite W3, Nat2Z.id.
  eapply ex_bind; [apply ex_arrays; exact W2|].
  eapply ex_bind; [apply ex_node; exact H|].
  eapply ex_bind; [apply ex_string; exact W4|].
  eapply ex_bind; [apply ex_node; exact H|].
  eapply ex_bind; [apply ex_tk; unfold zlen in *; rewrite sub_length; unfold X_HDR in *; lia|].
  cbv zeta. rewrite over_same by (unfold X_HDR in *; lia).
  eapply ex_bind.
  - apply ex_if with (a := x_excl _ x). destruct (x_type (x_hdr node x) =? oIndexExclusion).
    + destruct W5 as [A B]. rewrite B, Nat2Z.id. apply ex_arrays; exact A.
    + rewrite W5. apply ex_ret.
  - rewrite <- (app_nil_r (x_imm node x)). eapply ex_bind; [apply ex_tk; exact W6|]. rewrite ?app_nil_r. apply ex_ret.
Qed.

Lemma ex_datum : forall d, wf_datum d -> exact_p p_datum (ser_datum d) d.
Proof.
  intros d W. unfold p_datum. destruct d as [[b|b]|]; cbn [ser_datum wf_datum] in *.
  - eapply ex_bind; [apply (ex_le 4)|]. rewrite unle_le by (change (256 ^ Z.of_nat 4) with (2 ^ 32); lia). cbn [Z.eqb Pos.eqb].
    rewrite <- (app_nil_r b). eapply ex_bind; [apply ex_tk; exact W|]. rewrite app_nil_r. apply ex_ret.
  - eapply ex_bind; [apply (ex_le 4)|]. rewrite unle_le by (change (256 ^ Z.of_nat 4) with (2 ^ 32); lia).
    replace (zlen b =? 4294967294) with false by lia. replace (zlen b =? 4294967295) with false by lia.
    rewrite <- (app_nil_r b) at 2. eapply ex_bind; [apply ex_tk; reflexivity|]. apply ex_ret.
  - rewrite <- (app_nil_r (le 4 4294967294)). eapply ex_bind; [apply (ex_le 4)|]. rewrite unle_le by (change (256 ^ Z.of_nat 4) with (2 ^ 32); lia).
    cbn [Z.eqb Pos.eqb]. apply ex_ret.
Qed.
Lemma ex_miss : forall d, wf_datum d -> exact_p p_miss (ser_miss d) d.
Proof.
  intros d W. unfold p_miss, ser_miss.
  eapply ex_bind; [apply ex_tk; destruct d; reflexivity|]. rewrite <- (app_nil_r (ser_datum d)). eapply ex_bind; [apply ex_datum; exact W|].
  destruct d; cbn; apply ex_ret.
Qed.

Lemma Forall2_map_l : forall A B C (f : A -> B) (R : B -> C -> Prop) (g : A -> C) l, (forall x, In x l -> R (f x) (g x)) -> Forall2 R (map f l) (map g l).
Proof. intros A B C f R g l. induction l; intros H; cbn; constructor; [apply H; left; reflexivity|apply IHl; intros; apply H; right; auto]. Qed.

Definition seen_otable (pg pg' : Z) (t : otable node) : otable node * bool :=
  (mkOT _ (t_hdr _ t) (map (fun x => fst (seen_oix pg pg' x)) (t_idx _ t)) (t_fields _ t) (t_miss _ t),
   existsb (fun x => snd (seen_oix pg pg' x)) (t_idx _ t)).

Lemma ex_otable : forall pg pg' t, 0 <= pg < 2 ^ 32 -> wf_otable node t ->
  exact_p (p_otable node nil_node of_str pg') (ser_otable node to_str pg t) (seen_otable pg pg' t).
Proof.
  intros pg pg' t H [W1 [W2 [W3 [W4 [W5 [W6 W7]]]]]]. unfold p_otable, ser_otable.
  eapply ex_bind; [apply ex_tk; exact W1|]. rewrite W2, W4, !Nat2Z.id.
  eapply ex_bind.
  { assert (length (t_idx _ t) = length (map (seen_oix pg pg') (t_idx _ t))) as -> by (rewrite map_length; reflexivity).
    apply ex_many. apply Forall2_map_l. intros x Hx. apply ex_oix; auto. }
  eapply ex_bind; [apply ex_arrays; exact W5|].
  eapply ex_bind.
  { rewrite <- W6. assert (E : length (t_miss _ t) = length (map (fun d => d) (t_miss _ t))) by (rewrite map_length; reflexivity).
    rewrite E. apply ex_many. apply Forall2_map_l. intros d Hd. apply ex_miss; auto. }
  rewrite <- (app_nil_r (sub _ _ _)).
  eapply ex_bind; [apply ex_tk; unfold zlen in *; rewrite sub_length; unfold T_HDR in *; lia|].
  rewrite over_same by (unfold T_HDR in *; lia). unfold seen_otable.
  assert (E1 : map fst (map (seen_oix pg pg') (t_idx node t)) = map (fun x => fst (seen_oix pg pg' x)) (t_idx node t)) by (rewrite map_map; reflexivity).
  assert (E2 : existsb snd (map (seen_oix pg pg') (t_idx node t)) = existsb (fun x => snd (seen_oix pg pg' x)) (t_idx node t)).
  { generalize (t_idx node t) as l. clear. induction l; cbn [map existsb]; [reflexivity|rewrite IHl; reflexivity]. }
  rewrite E1, E2, map_id. apply ex_ret.
Qed.

Definition seen_oindex (pg pg' : Z) (i : oindex node) : oindex node * bool :=
  (mkOI _ (o_key _ i) (o_hdr _ i) (o_leaf _ i) (o_leafix _ i) (fst (seen pg pg' (o_pred _ i))) (o_predstr _ i)
     (fst (seen pg pg' (o_exprs _ i))) (fst (seen pg pg' (o_dups _ i))) (o_excl _ i) (o_imm _ i) STATE_VALID,
   snd (seen pg pg' (o_pred _ i)) || snd (seen pg pg' (o_exprs _ i)) || snd (seen pg pg' (o_dups _ i))).

Definition ser_oindex0 (pg : Z) (i : oindex node) : list Z :=
  o_hdr _ i ++ concat (o_leaf _ i) ++ concat (o_leafix _ i) ++ ser_node _ to_str pg (o_pred _ i) ++ ser_string (o_predstr _ i)
  ++ ser_node _ to_str pg (o_exprs _ i) ++ ser_node _ to_str pg (o_dups _ i)
  ++ (if snd (fst (o_key _ i)) =? oIndexExclusion then concat (o_excl _ i) else [])
  ++ o_imm _ i.
Lemma ser_oindex_eq : forall pg i, ser_oindex _ to_str pg i = ser_oindex0 pg i ++ [o_state _ i].
Proof. intros. unfold ser_oindex, ser_oindex0. rewrite <- !app_assoc. reflexivity. Qed.

Lemma ex_oindex : forall pg pg' i, 0 <= pg < 2 ^ 32 -> wf_oindex node i ->
  exact_p (p_oindex node nil_node of_str pg' (o_key _ i)) (ser_oindex0 pg i) (seen_oindex pg pg' i).
Proof.
  intros pg pg' i H [W1 [W2 [W3 [W4 [W5 [W6 [W7 [W8 W9]]]]]]]]. unfold p_oindex, ser_oindex0.
  eapply ex_bind; [apply ex_tk; exact W1|]. rewrite W2, Z.eqb_refl. cbn [negb]. rewrite W3, Nat2Z.id.
  eapply ex_bind; [apply ex_arrays; exact W5|].
  eapply ex_bind; [rewrite <- W4; apply ex_arrays; exact W6|].
  eapply ex_bind; [apply ex_node; exact H|].
  eapply ex_bind; [apply ex_string; exact W7|].
  eapply ex_bind; [apply ex_node; exact H|].
  eapply ex_bind; [apply ex_node; exact H|].
  eapply ex_bind.
  - apply ex_if with (a := o_excl _ i). destruct (snd (fst (o_key node i)) =? oIndexExclusion).
    + destruct W8 as [A B]. rewrite B, Nat2Z.id. apply ex_arrays; exact A.
    + rewrite W8. apply ex_ret.
  - rewrite <- (app_nil_r (o_imm node i)). eapply ex_bind; [apply ex_tk; exact W9|]. rewrite ?app_nil_r. apply ex_ret.
Qed.
End Nodes.
