(** Proofs about the catalog comparison functions. *)
From Coq Require Import ZArith List Bool Lia.
From Coq Require Import ZifyBool.
From Verif Require Import Base CatOrdModel CatOrdSpec.
Import ListNotations.
Open Scope Z_scope.

(* Lexicographic order of lists of numbers of one length. *)
Fixpoint lex (a b : list Z) : Z :=
  match a, b with
  | x :: a', y :: b' => if x <? y then -1 else if y <? x then 1 else lex a' b'
  | _, _ => 0
  end.
Lemma lex_refl : forall a, lex a a = 0.
Proof. induction a as [|x a IH]; [reflexivity|]. cbn [lex]. rewrite !Z.ltb_irrefl. exact IH. Qed.
Lemma lex_eq : forall a b, length a = length b -> (lex a b = 0 <-> a = b).
Proof.
  induction a as [|x a IH]; intros [|y b] L; cbn [lex length] in *; try discriminate; [tauto|].
  destruct (Z.ltb_spec x y); [split; [discriminate|intro E; inversion E; lia]|].
  destruct (Z.ltb_spec y x); [split; [discriminate|intro E; inversion E; lia]|].
  rewrite IH by lia. assert (x = y) by lia. subst. split; [intros ->; reflexivity|intro E; inversion E; reflexivity].
Qed.
Lemma lex_flip : forall a b, lex b a = - lex a b.
Proof.
  induction a as [|x a IH]; intros [|y b]; cbn [lex]; try reflexivity.
  destruct (Z.ltb_spec x y), (Z.ltb_spec y x); try lia; auto.
Qed.
Lemma lex_trans : forall a b c, length a = length b -> length b = length c -> lex a b <= 0 -> lex b c <= 0 -> lex a c <= 0.
Proof.
  induction a as [|x a IH]; intros [|y b] [|z c] L1 L2; cbn [lex length] in *; try discriminate; try lia.
  intros H1 H2. destruct (Z.ltb_spec x y), (Z.ltb_spec y x), (Z.ltb_spec y z), (Z.ltb_spec z y), (Z.ltb_spec x z), (Z.ltb_spec z x); try lia.
  apply (IH b c); lia.
Qed.

Lemma lex_app : forall a b a' b', length a = length a' -> lex (a ++ b) (a' ++ b') = if lex a a' =? 0 then lex b b' else lex a a'.
Proof.
  induction a as [|x a IH]; intros b [|y a'] b' L; cbn [app lex length] in *; try discriminate; [reflexivity|].
  destruct (x <? y); [reflexivity|]. destruct (y <? x); [reflexivity|]. apply IH. lia.
Qed.

Lemma sgn_cases : forall z, (Z.sgn z = 0 <-> z = 0) /\ (Z.sgn z < 0 <-> z < 0) /\ (0 < Z.sgn z <-> 0 < z) /\ (Z.sgn z <= 0 <-> z <= 0).
Proof. intro z. destruct (Z.sgn_spec z) as [[H ->]|[[H ->]|[H ->]]]; lia. Qed.

Lemma total_of_lex : forall A (ok : A -> Prop) same cmp (f : A -> list Z) n,
  (forall a, ok a -> length (f a) = n) ->
  (forall a b, ok a -> ok b -> Z.sgn (cmp a b) = lex (f a) (f b)) ->
  (forall a b, ok a -> ok b -> (f a = f b <-> same a b)) -> total_order ok same cmp.
Proof.
  intros A ok same cmp f n L S E. constructor.
  - intros a b Ha Hb. rewrite <- E by assumption. rewrite <- lex_eq by (rewrite !L; auto). rewrite <- S by assumption.
    pose proof (sgn_cases (cmp a b)). tauto.
  - intros a b Ha Hb. pose proof (sgn_cases (cmp a b)) as X. pose proof (sgn_cases (cmp b a)) as Y.
    pose proof (lex_flip (f a) (f b)) as F. rewrite <- !S in F by assumption. lia.
  - intros a b c Ha Hb Hc H1 H2. pose proof (sgn_cases (cmp a b)). pose proof (sgn_cases (cmp b c)). pose proof (sgn_cases (cmp a c)).
    pose proof (lex_trans (f a) (f b) (f c) ltac:(rewrite !L; auto) ltac:(rewrite !L; auto)) as T.
    rewrite <- !S in T by assumption. lia.
Qed.

Ltac cmp_tac := repeat (match goal with
   | |- context [?a =? ?b] => destruct (Z.eqb_spec a b)
   | |- context [?a <? ?b] => destruct (Z.ltb_spec a b) end; cbn [negb]; try lia; try reflexivity).

Definition rf (a : rkey) := [r_dat a; r_node a; r_spc a].
Definition tf (a : tkey) := [datoid (t_oids a); relnode (t_oids a); t_chunk a].
Definition if_ (a : ikey) := [i_type a; datoid (i_oids a); spcoid (i_oids a); relnode (i_oids a); i_chunk a].

Lemma root_lex : forall a b, Z.sgn (shared_root_info_key_cmp a b) = lex (rf a) (rf b).
Proof. intros a b. unfold shared_root_info_key_cmp, rf. cbn [lex]. cmp_tac. Qed.
Lemma table_lex : forall a b, Z.sgn (o_table_chunk_cmp a b) = lex (tf a) (tf b).
Proof. intros a b. unfold o_table_chunk_cmp, tf. cbn [lex]. cmp_tac. Qed.
Lemma index_lex : forall a b, Z.sgn (o_index_chunk_cmp a b) = lex (if_ a) (if_ b).
Proof. intros a b. unfold o_index_chunk_cmp, if_. cbn [lex]. cmp_tac. Qed.
Definition ff (a : ftup) := [f_ix a; f_dat a; f_node a].
Lemma id_lex : forall a b, Z.sgn (free_tree_id_cmp a b) = lex (ff a) (ff b).
Proof. intros a b. unfold free_tree_id_cmp, ff. cbn [lex]. cmp_tac. Qed.
Lemma off_lex : forall a b, Z.sgn (free_tree_off_len_cmp a b) = lex (ff a ++ [f_off a]) (ff b ++ [f_off b]).
Proof.
  intros a b. rewrite lex_app by reflexivity. rewrite <- id_lex. unfold free_tree_off_len_cmp.
  destruct (sgn_cases (free_tree_id_cmp a b)) as [Z0 _]. destruct (Z.eqb_spec (free_tree_id_cmp a b) 0) as [E|N]; cbn [negb].
  - rewrite E. cbn [Z.sgn Z.eqb lex]. cmp_tac.
  - rewrite (proj2 (Z.eqb_neq _ _)) by tauto. reflexivity.
Qed.
Lemma len_lex : forall a b, Z.sgn (free_tree_len_off_cmp a b) = lex (ff a ++ [f_len a; f_off a]) (ff b ++ [f_len b; f_off b]).
Proof.
  intros a b. rewrite lex_app by reflexivity. rewrite <- id_lex. unfold free_tree_len_off_cmp.
  destruct (sgn_cases (free_tree_id_cmp a b)) as [Z0 _]. destruct (Z.eqb_spec (free_tree_id_cmp a b) 0) as [E|N]; cbn [negb].
  - rewrite E. cbn [Z.sgn Z.eqb lex]. cmp_tac.
  - rewrite (proj2 (Z.eqb_neq _ _)) by tauto. reflexivity.
Qed.

(** Cache keys as lists of numbers: a name is its bytes, padded with zeros. *)
Definition pad (l : list Z) : list Z := map (fun i => nth i l 0) (seq 0 64).
Definition kf (k : kval) : list Z := match k with KDatum v => [v] | KName l => pad l end.
Definition klen (is_name : bool) : nat := if is_name then 64%nat else 1%nat.

Lemma to_int_small : forall z, - 2 ^ 31 <= z < 2 ^ 31 -> to_int z = z.
Proof. intros z H. unfold to_int. rewrite Z.mod_small by lia. lia. Qed.

Definition padn (n : nat) (l : list Z) : list Z := map (fun i => nth i l 0) (seq 0 n).
Lemma padn_S : forall n l, padn (S n) l = hd 0 l :: padn n (tl l).
Proof.
  intros n l. unfold padn. cbn [seq map]. f_equal; [destruct l; reflexivity|].
  rewrite <- seq_shift, map_map. apply map_ext. intro i. destruct l; [destruct i; reflexivity|reflexivity].
Qed.
Lemma hd_pos : forall l, Forall (fun b => 0 < b) l -> 0 <= hd 0 l /\ (hd 0 l = 0 -> l = []).
Proof. intros [|x l] F; cbn; [split; [lia|auto]|]. inversion F; subst. split; lia. Qed.
Lemma tl_pos : forall l, Forall (fun b => 0 < b) l -> Forall (fun b => 0 < b) (tl l).
Proof. intros [|x l] F; cbn; [constructor|]. inversion F; assumption. Qed.
Lemma strncmp_lex : forall n a b, Forall (fun b => 0 < b) a -> Forall (fun b => 0 < b) b ->
  Z.sgn (strncmp n a b) = lex (padn n a) (padn n b).
Proof.
  induction n as [|n IH]; intros a b Fa Fb; [reflexivity|]. rewrite !padn_S. cbn [strncmp lex].
  destruct (Z.ltb_spec (hd 0 a) (hd 0 b)); [reflexivity|]. destruct (Z.ltb_spec (hd 0 b) (hd 0 a)); [reflexivity|].
  destruct (Z.eqb_spec (hd 0 a) 0) as [E|N]; [|apply IH; apply tl_pos; assumption].
  rewrite (proj2 (hd_pos a Fa) E), (proj2 (hd_pos b Fb)) by lia. cbn [tl]. rewrite lex_refl. reflexivity.
Qed.
Lemma padn_inj : forall n a b, (length a <= n)%nat -> (length b <= n)%nat -> Forall (fun b => 0 < b) a -> Forall (fun b => 0 < b) b ->
  padn n a = padn n b -> a = b.
Proof.
  induction n as [|n IH]; intros a b La Lb Fa Fb E; [destruct a, b; cbn in *; try lia; reflexivity|].
  rewrite !padn_S in E. injection E as E1 E2.
  destruct a as [|x a], b as [|y b]; cbn [hd tl length] in *; auto.
  - inversion Fb; subst. lia.
  - inversion Fa; subst. lia.
  - inversion Fa; inversion Fb; subst. f_equal. apply IH; auto; lia.
Qed.

Lemma kf_len : forall lo t k, kval_ok lo t k -> length (kf k) = klen t.
Proof. intros lo [] [] H; cbn in *; try contradiction; reflexivity. Qed.
Lemma kf_inj : forall lo t a b, kval_ok lo t a -> kval_ok lo t b -> kf a = kf b -> a = b.
Proof.
  intros lo [] [] [] H1 H2 E; cbn [kval_ok kf] in *; try contradiction.
  - f_equal. destruct H1, H2. eapply padn_inj; [| |eassumption|eassumption|exact E]; lia.
  - congruence.
Qed.

Definition ksf (ks : list kval) : list Z := flat_map kf ks.
Lemma ksf_len : forall lo types ks, Forall2 (kval_ok lo) types ks -> length (ksf ks) = list_sum (map klen types).
Proof.
  intros lo types ks F. induction F as [|t k types ks H F IH]; [reflexivity|]. cbn. rewrite app_length, (kf_len _ _ _ H). f_equal. exact IH.
Qed.
Lemma ksf_inj : forall lo types a b, Forall2 (kval_ok lo) types a -> Forall2 (kval_ok lo) types b -> ksf a = ksf b -> a = b.
Proof.
  intros lo types a b F. revert b. induction F as [|t k types a H F IH]; intros b G E; inversion G; subst; [reflexivity|].
  cbn in E. assert (L : length (kf k) = length (kf y)) by (rewrite (kf_len lo t k), (kf_len lo t y); auto).
  assert (X : kf k = kf y /\ flat_map kf a = flat_map kf l').
  { split.
    - apply (f_equal (firstn (length (kf k)))) in E. rewrite firstn_app, firstn_all, Nat.sub_diag, app_nil_r in E.
      rewrite L in E. rewrite firstn_app, firstn_all, Nat.sub_diag, app_nil_r in E. exact E.
    - apply (f_equal (skipn (length (kf k)))) in E. rewrite skipn_app, skipn_all, Nat.sub_diag in E.
      rewrite L in E. rewrite skipn_app, skipn_all, Nat.sub_diag in E. exact E. }
  destruct X as [X1 X2]. f_equal; [eapply kf_inj; eauto|apply IH; assumption].
Qed.

Lemma key_cmp_lex : forall lo n types a b, Forall2 (kval_ok lo) types a -> Forall2 (kval_ok lo) types b ->
  Z.sgn (o_sys_cache_key_cmp n a b) = lex (ksf (firstn n a)) (ksf (firstn n b)).
Proof.
  intros lo n types a b F. revert n b. induction F as [|t k types a H F IH]; intros n b G; inversion G; subst.
  - destruct n; reflexivity.
  - destruct n as [|n]; [reflexivity|]. cbn [firstn ksf flat_map].
    rewrite lex_app by (rewrite (kf_len lo t k), (kf_len lo t y); auto).
    destruct t, k, y; cbn [kval_ok kf] in *; try contradiction; cbn [o_sys_cache_key_cmp].
    + pose proof (strncmp_lex 64 bytes bytes0 (proj2 H) (proj2 H2)) as S.
      change (padn 64 bytes) with (pad bytes) in S. change (padn 64 bytes0) with (pad bytes0) in S.
      fold NAMEDATALEN in S. destruct (sgn_cases (strncmp NAMEDATALEN bytes bytes0)) as [Z0 _].
      rewrite <- S. destruct (Z.eqb_spec (strncmp NAMEDATALEN bytes bytes0) 0) as [E|N]; cbn [negb].
      * rewrite E. cbn [Z.sgn Z.eqb]. apply IH. assumption.
      * rewrite (proj2 (Z.eqb_neq _ _)) by tauto. reflexivity.
    + rewrite to_int_small by lia. cbn [lex].
      destruct (Z.eqb_spec (v - v0) 0) as [E|N]; cbn [negb].
      * destruct (Z.ltb_spec v v0); [lia|]. destruct (Z.ltb_spec v0 v); [lia|]. cbn. apply IH. assumption.
      * destruct (Z.ltb_spec v v0); [|destruct (Z.ltb_spec v0 v); [|lia]]; cbn; lia.
Qed.

Lemma firstn_ok : forall lo types ks n, Forall2 (kval_ok lo) types ks -> Forall2 (kval_ok lo) (firstn n types) (firstn n ks).
Proof. intros lo types ks n F. revert n. induction F; intros [|n]; cbn; constructor; auto. Qed.

Lemma F2_len : forall A B (R : A -> B -> Prop) l m, Forall2 R l m -> length l = length m.
Proof. intros A B R l m F. induction F; cbn; congruence. Qed.

(* The list of numbers an entry is compared by. *)
Definition sf (k : skey) : list Z := s_dat k :: ksf (s_keys k) ++ [s_lsn k].
Definition sfp (n : nat) (k : skey) : list Z := s_dat k :: ksf (firstn n (s_keys k)).

Lemma sys_lex : forall lo types a b, skey_ok lo types a -> skey_ok lo types b ->
  Z.sgn (o_sys_cache_cmp (length types) (STuple a) (STuple b)) = lex (sf a) (sf b).
Proof.
  intros lo types a b Ha Hb. unfold o_sys_cache_cmp, sf. cbn [sarg_key lex andb].
  destruct (Z.eqb_spec (s_dat a) (s_dat b)) as [E|N]; cbn [negb].
  - destruct (Z.ltb_spec (s_dat a) (s_dat b)); [lia|]. destruct (Z.ltb_spec (s_dat b) (s_dat a)); [lia|].
    rewrite lex_app by (rewrite !(ksf_len lo types) by assumption; reflexivity).
    pose proof (key_cmp_lex lo (length types) types _ _ Ha Hb) as K.
    assert (La : length types = length (s_keys a)) by (eapply F2_len; eauto).
    assert (Lb : length types = length (s_keys b)) by (eapply F2_len; eauto).
    rewrite (firstn_all2 (s_keys a)), (firstn_all2 (s_keys b)) in K by lia. rewrite <- K.
    destruct (sgn_cases (o_sys_cache_key_cmp (length types) (s_keys a) (s_keys b))) as [Z0 _].
    destruct (Z.eqb_spec (o_sys_cache_key_cmp (length types) (s_keys a) (s_keys b)) 0) as [E'|N']; cbn [negb].
    + rewrite E'. cbn [Z.sgn Z.eqb lex]. cmp_tac.
    + rewrite (proj2 (Z.eqb_neq _ _)) by tauto. reflexivity.
  - destruct (Z.ltb_spec (s_dat a) (s_dat b)); [reflexivity|]. destruct (Z.ltb_spec (s_dat b) (s_dat a)); [reflexivity|lia].
Qed.

Lemma sys_bound_lex : forall lo types n a b, skey_ok lo types a -> skey_ok lo types b ->
  Z.sgn (o_sys_cache_cmp (length types) (STuple a) (SBound b n)) = lex (sfp n a) (sfp n b) /\
  Z.sgn (o_sys_cache_cmp (length types) (SBound b n) (STuple a)) = lex (sfp n b) (sfp n a).
Proof.
  intros lo types n a b Ha Hb. unfold o_sys_cache_cmp, sfp. cbn [sarg_key lex andb].
  rewrite <- (key_cmp_lex lo n types _ _ Ha Hb), <- (key_cmp_lex lo n types _ _ Hb Ha).
  split; [set (c := o_sys_cache_key_cmp n (s_keys a) (s_keys b))|set (c := o_sys_cache_key_cmp n (s_keys b) (s_keys a))];
    cmp_tac; rewrite ?e0; reflexivity.
Qed.

(** Visiting every entry *)
Lemma find_first : forall A (cmp : A -> A -> Z) M b c, strictly_sorted cmp M -> find (fun c => cmp b c <=? 0) M = Some c ->
  In c M /\ cmp b c <= 0 /\ forall x, In x M -> cmp b x <= 0 -> x = c \/ cmp c x < 0.
Proof.
  intros A cmp.
  induction M as [|a M IH]; intros b c S F; [discriminate F|]. cbn [find] in F. destruct S as [S1 S2].
  destruct (Z.leb_spec (cmp b a) 0) as [H|H].
  - injection F as <-. split; [left; reflexivity|]. split; [exact H|]. intros x [->|Hx] _; [auto|].
    right. rewrite Forall_forall in S1. auto.
  - destruct (IH _ _ S2 F) as [I [B X]]. split; [right; exact I|]. split; [exact B|].
    intros x [->|Hx] Hb; [lia|]. auto.
Qed.
Lemma filter_lt : forall A M (f g : A -> bool) c, (forall x, In x M -> g x = true -> f x = true) -> In c M -> f c = true -> g c = false ->
  (length (filter g M) < length (filter f M))%nat.
Proof.
  intro A.
  assert (LE : forall M (f g : A -> bool), (forall x, In x M -> g x = true -> f x = true) -> (length (filter g M) <= length (filter f M))%nat).
  { induction M as [|a M IH]; intros f g H; [cbn; lia|]. cbn [filter]. specialize (IH f g ltac:(intros; apply H; [right|]; assumption)).
    destruct (g a) eqn:Ga; [rewrite (H a (or_introl eq_refl) Ga); cbn; lia|]. destruct (f a); cbn; lia. }
  induction M as [|a M IH]; intros f g c H I F N; [destruct I|]. cbn [filter].
  assert (H' : forall x, In x M -> g x = true -> f x = true) by (intros; apply H; [right|]; assumption).
  destruct I as [->|I].
  - rewrite F, N. pose proof (LE M f g H'). cbn. lia.
  - specialize (IH f g c H' I F N). destruct (g a) eqn:Ga; [rewrite (H a (or_introl eq_refl) Ga); cbn; lia|]. destruct (f a); cbn; lia.
Qed.

Section Foreach.
Variables (A G : Type) (cmp : A -> A -> Z) (grp : A -> G) (next : A -> A -> A) (L : list A).
Hypothesis GDEC : forall a b : G, {a = b} + {a <> b}.
Hypothesis SORT : strictly_sorted cmp L.
Hypothesis TR : forall b c x, In c L -> In x L -> cmp b c <= 0 -> cmp c x <= 0 -> cmp b x <= 0.
Hypothesis NEXT : forall b c x, In c L -> In x L -> (cmp (next b c) x <= 0 <-> cmp c x <= 0 /\ grp x <> grp c).

Fixpoint gforeach (fuel : nat) (b : A) : list A :=
  match fuel with
  | O => []
  | S n => match first_from cmp L b with None => [] | Some c => c :: gforeach n (next b c) end
  end.
Definition rest (b : A) : list A := filter (fun c => cmp b c <=? 0) L.

Lemma gforeach_all : forall fuel b, (length (rest b) < fuel)%nat ->
  NoDup (map grp (gforeach fuel b)) /\ (forall c, In c (gforeach fuel b) -> In c L /\ cmp b c <= 0) /\
  (forall x, In x L -> cmp b x <= 0 -> In (grp x) (map grp (gforeach fuel b))).
Proof using SORT TR NEXT GDEC.
  induction fuel as [|n IH]; intros b LT; [lia|]. cbn [gforeach].
  destruct (first_from cmp L b) as [c|] eqn:F; unfold first_from in F.
  - destruct (find_first _ _ _ _ _ SORT F) as [I [B X]].
    assert (SM : (length (rest (next b c)) < length (rest b))%nat).
    { apply (filter_lt _ _ _ _ c); [|exact I| |].
      - intros x Ix H. apply Z.leb_le. apply Z.leb_le in H. destruct (proj1 (NEXT b c x I Ix) H) as [H1 _]. exact (TR b c x I Ix B H1).
      - apply Z.leb_le. exact B.
      - apply Z.leb_gt. destruct (Z_lt_le_dec 0 (cmp (next b c) c)) as [H|H]; [exact H|].
        destruct (proj1 (NEXT b c c I I) H) as [_ H']. contradiction. }
    destruct (IH (next b c) ltac:(lia)) as [ND [IN CV]]. cbn [map]. split; [|split].
    + constructor; [|exact ND]. intro C. apply in_map_iff in C. destruct C as [x [E Hx]]. destruct (IN _ Hx) as [Ix Cx].
      destruct (proj1 (NEXT b c x I Ix) Cx) as [_ N]. exact (N E).
    + intros x [<-|Hx]; [auto|]. destruct (IN _ Hx) as [Ix Cx]. split; [exact Ix|].
      destruct (proj1 (NEXT b c x I Ix) Cx) as [H1 _]. exact (TR b c x I Ix B H1).
    + intros x Ix Hx. destruct (X x Ix Hx) as [->|Lc]; [left; reflexivity|].
      destruct (GDEC (grp x) (grp c)) as [E|N]; [left; symmetry; exact E|right].
      apply CV; [exact Ix|]. apply (NEXT b c x I Ix). split; [lia|exact N].
  - split; [constructor|]. split; [intros c []|]. intros x Ix Hx. exfalso.
    pose proof (find_none _ _ F x Ix) as N. cbn in N. lia.
Qed.
End Foreach.
