(** Proofs for property C38. *)
From Coq Require Import List ZArith Bool Lia Sorted.
From Coq Require Import ZifyBool.
From Verif Require Import Base ToastModel ToastSpec.
Import ListNotations.
Open Scope Z_scope.

(** * Keys *)

Lemma kcmp_eq : forall k1 k2, kcmp k1 k2 = Eq <-> k1 = k2.
Proof.
  intros [[p1 a1] c1] [[p2 a2] c2]. unfold kcmp.
  destruct (Z.compare_spec p1 p2); destruct (Z.compare_spec a1 a2);
    destruct (Z.compare_spec c1 c2); split; intros E; inv E; try lia; subst;
    reflexivity.
Qed.

Lemma keqb_spec : forall k1 k2, keqb k1 k2 = true <-> k1 = k2.
Proof.
  intros. unfold keqb. rewrite <- kcmp_eq. destruct (kcmp k1 k2); split; congruence.
Qed.

Lemma keqb_refl : forall k, keqb k k = true.
Proof. intros. apply keqb_spec. reflexivity. Qed.

Definition klt (k1 k2 : ckey) : Prop := kcmp k1 k2 = Lt.

Lemma klt_def : forall p1 a1 c1 p2 a2 c2,
  klt (p1, a1, c1) (p2, a2, c2) <->
  p1 < p2 \/ (p1 = p2 /\ (a1 < a2 \/ (a1 = a2 /\ c1 < c2))).
Proof.
  intros. unfold klt, kcmp.
  destruct (Z.compare_spec p1 p2); destruct (Z.compare_spec a1 a2);
    destruct (Z.compare_spec c1 c2); split; intros; try lia; try congruence;
    reflexivity.
Qed.

Lemma klt_trans : forall a b c, klt a b -> klt b c -> klt a c.
Proof.
  intros [[p1 a1] c1] [[p2 a2] c2] [[p3 a3] c3]. rewrite !klt_def. lia.
Qed.

Lemma klt_irrefl : forall a, ~ klt a a.
Proof. intros [[p a] c]. rewrite klt_def. lia. Qed.

Lemma kgt : forall a b, kcmp a b = Gt -> klt b a.
Proof.
  intros [[p1 a1] c1] [[p2 a2] c2]. rewrite klt_def. unfold kcmp.
  destruct (Z.compare_spec p1 p2); destruct (Z.compare_spec a1 a2);
    destruct (Z.compare_spec c1 c2); intros E; try discriminate E; lia.
Qed.

Lemma kltb_klt : forall a b, kltb a b = true <-> klt a b.
Proof. intros. unfold kltb, klt. destruct (kcmp a b); split; congruence. Qed.

Lemma in_range_spec : forall p a i k,
  in_range (p, a, i) k = true <-> exists j, k = (p, a, j) /\ i <= j \/
     (exists j, k = (p, a + 1, j) /\ j < 0).
Proof.
  intros p a i [[p' a'] c']. unfold in_range, next_key.
  rewrite andb_true_iff, negb_true_iff, kltb_klt, klt_def.
  split.
  - intros [N L].
    assert (H : ~ klt (p', a', c') (p, a, i)).
    { rewrite <- kltb_klt, N. congruence. }
    rewrite klt_def in H. exists c'.
    destruct (Z.eq_dec a' a) as [->|Na].
    + left. split; [repeat f_equal; lia|lia].
    + right. exists c'. split; [repeat f_equal; lia|lia].
  - intros [j [[E L]|[j' [E L]]]]; inv E.
    + split; [|lia]. destruct (kltb (p, a, j) (p, a, i)) eqn:K; [|reflexivity].
      apply kltb_klt, klt_def in K. lia.
    + split; [|lia].
      destruct (kltb (p, a + 1, j') (p, a, i)) eqn:K; [|reflexivity].
      apply kltb_klt, klt_def in K. lia.
Qed.

(** * Trees *)

Definition kord (x y : ckey * chain) : Prop := klt (fst x) (fst y).
Definition sorted (t : tree) : Prop := StronglySorted kord t.

(** Chunk numbers are not negative. *)
Definition nonneg (t : tree) : Prop :=
  forall p a i c, In ((p, a, i), c) t -> 0 <= i.

Lemma sorted_unique : forall t k c1 c2,
  sorted t -> In (k, c1) t -> In (k, c2) t -> c1 = c2.
Proof.
  induction t as [|[k' c'] t IH]; intros k c1 c2 So I1 I2; [contradiction|].
  inv So. destruct I1 as [E1|I1], I2 as [E2|I2].
  - congruence.
  - inv E1. rewrite Forall_forall in H2. apply H2 in I2.
    unfold kord in I2. cbn [fst] in I2. destruct (klt_irrefl _ I2).
  - inv E2. rewrite Forall_forall in H2. apply H2 in I1.
    unfold kord in I1. cbn [fst] in I1. destruct (klt_irrefl _ I1).
  - eauto.
Qed.

Lemma lookup_in : forall t k c,
  sorted t -> In (k, c) t -> lookup t k = c.
Proof.
  intros t k c So Hi. unfold lookup.
  destruct (find (fun kc => keqb (fst kc) k) t) as [[k' c']|] eqn:F.
  - apply find_some in F. destruct F as [I' E]. apply keqb_spec in E.
    cbn [fst snd] in *. subst k'. eapply sorted_unique; eauto.
  - exfalso. apply (find_none _ _ F) in Hi. cbn [fst] in Hi.
    rewrite keqb_refl in Hi. discriminate.
Qed.

Lemma lookup_some : forall t k,
  lookup t k <> [] -> In (k, lookup t k) t.
Proof.
  intros t k. unfold lookup.
  destruct (find (fun kc => keqb (fst kc) k) t) as [[k' c']|] eqn:F; [|congruence].
  apply find_some in F. destruct F as [I' E]. apply keqb_spec in E.
  cbn [fst snd] in *. subst k'. auto.
Qed.

Lemma in_put : forall t k c x,
  In x (put t k c) -> x = (k, c) \/ In x t.
Proof.
  induction t as [|[k' c'] t IH]; cbn [put]; intros k c x H.
  - destruct H as [<-|[]]. auto.
  - destruct (kcmp k k').
    + destruct H as [<-|H]; [auto|right; right; auto].
    + destruct H as [<-|H]; auto.
    + destruct H as [<-|H]; [right; left; auto|].
      destruct (IH _ _ _ H) as [->|?]; [auto|right; right; auto].
Qed.

Lemma sorted_put : forall t k c, sorted t -> sorted (put t k c).
Proof.
  induction t as [|[k' c'] t IH]; intros k c So; cbn [put].
  - constructor; constructor.
  - inv So. destruct (kcmp k k') eqn:K.
    + apply kcmp_eq in K. subst k'. constructor; auto.
    + constructor; [constructor; auto|].
      constructor; [exact K|]. rewrite Forall_forall in *.
      intros x Hx. apply H2 in Hx. unfold kord in *. cbn [fst] in *.
      eapply klt_trans; eauto.
    + constructor; [apply IH; auto|]. rewrite Forall_forall in *.
      intros x Hx. apply in_put in Hx. destruct Hx as [->|Hx].
      * unfold kord. cbn [fst]. apply kgt. exact K.
      * auto.
Qed.

Lemma lookup_cons : forall k' c' t k,
  lookup ((k', c') :: t) k = if keqb k' k then c' else lookup t k.
Proof. intros. unfold lookup. cbn [find fst]. destruct (keqb k' k); reflexivity. Qed.

Lemma lookup_put : forall t k c k0,
  sorted t -> lookup (put t k c) k0 = if keqb k k0 then c else lookup t k0.
Proof.
  induction t as [|[k' c'] t IH]; intros k c k0 So; cbn [put].
  - rewrite lookup_cons. reflexivity.
  - inv So. destruct (kcmp k k') eqn:K.
    + apply kcmp_eq in K. subst k'. rewrite !lookup_cons.
      destruct (keqb k k0); reflexivity.
    + rewrite lookup_cons. reflexivity.
    + rewrite !lookup_cons, IH by auto.
      destruct (keqb k' k0) eqn:E; [|reflexivity].
      destruct (keqb k k0) eqn:E'; [|reflexivity].
      apply keqb_spec in E, E'. subst. 
      assert (kcmp k0 k0 = Eq) by (apply kcmp_eq; reflexivity). congruence.
Qed.

Lemma nonneg_put : forall t p a i c,
  nonneg t -> 0 <= i -> nonneg (put t (p, a, i) c).
Proof.
  intros t p a i c N H p' a' i' c' Hi. apply in_put in Hi.
  destruct Hi as [E|Hi]; [inv E; auto|eauto].
Qed.

(** Changing the chains but not the keys. *)
Section MapTree.
Variable f : ckey -> chain -> chain.
Hypothesis fnil : forall k, f k [] = [].

Definition mapt (t : tree) : tree := map (fun kc => (fst kc, f (fst kc) (snd kc))) t.

Lemma sorted_mapt : forall t, sorted t -> sorted (mapt t).
Proof using.
  clear. induction t as [|[k c] t IH]; intros So; [constructor|].
  inv So. unfold mapt. cbn [map fst snd]. constructor; [apply IH; auto|].
  rewrite Forall_forall in *. intros x Hx. apply in_map_iff in Hx.
  destruct Hx as [y [<- Hy]]. apply H2 in Hy. exact Hy.
Qed.

Lemma nonneg_mapt : forall t, nonneg t -> nonneg (mapt t).
Proof using.
  clear. intros t N p a i c Hi. apply in_map_iff in Hi. destruct Hi as [[k c'] [E Hi]].
  cbn [fst snd] in E. inv E. eauto.
Qed.

Lemma lookup_mapt : forall t k, lookup (mapt t) k = f k (lookup t k).
Proof using f fnil.
  induction t as [|[k' c'] t IH]; intros k.
  - unfold lookup. cbn. rewrite fnil. reflexivity.
  - unfold mapt. cbn [map fst snd]. rewrite !lookup_cons. fold (mapt t).
    destruct (keqb k' k) eqn:E; [apply keqb_spec in E; subst; reflexivity|].
    apply IH.
Qed.
End MapTree.

Definition delf (tx : Z) (lo : ckey) (k : ckey) (c : chain) : chain :=
  if in_range lo k then del_entry tx c else c.

Lemma del_chunks_mapt : forall tx lo t,
  del_chunks tx lo t = mapt (delf tx lo) t.
Proof.
  intros. unfold del_chunks, mapt, delf. apply map_ext. intros [k c].
  cbn [fst snd]. destruct (in_range lo k); reflexivity.
Qed.

Lemma delf_nil : forall tx lo k, delf tx lo k [] = [].
Proof. intros. unfold delf. destruct (in_range lo k); reflexivity. Qed.

Definition abf (tx : Z) (k : ckey) (c : chain) : chain :=
  filter (fun e => negb (e_tx e =? tx)) c.

(** * The chunks returned by an iteration *)

(** Chunks of a value by number. *)
Definition shows (look : Z -> option bytes) (l : list (Z * bytes)) : Prop :=
  StronglySorted (fun x y => fst x < fst y) l /\
  (forall i d, In (i, d) l <-> 0 <= i /\ look i = Some d).

Definition vis (f : chain -> option bytes) (p a : Z) (t : tree)
  : list (Z * bytes) :=
  flat_map (fun kc => match f (snd kc) with
                      | Some d => [(snd (fst kc), d)]
                      | None => []
                      end)
           (filter (fun kc => in_range (p, a, 0) (fst kc)) t).

Lemma in_vis : forall f p a t i d,
  nonneg t ->
  In (i, d) (vis f p a t) <->
  0 <= i /\ exists c, In ((p, a, i), c) t /\ f c = Some d.
Proof.
  intros f p a t i d N. unfold vis. rewrite in_flat_map. split.
  - intros [[k c] [H1 H2]]. apply filter_In in H1. destruct H1 as [Ht Hr].
    cbn [fst snd] in *. apply in_range_spec in Hr.
    destruct Hr as [j [[-> Lj]|[j' [-> Lj]]]].
    + destruct (f c) eqn:F; [|contradiction]. destruct H2 as [E|[]].
      cbn [snd] in E. inv E. split; [auto|]. eauto.
    + apply N in Ht. lia.
  - intros [Li [c [Ht F]]]. exists ((p, a, i), c). split.
    + apply filter_In. split; [auto|]. cbn [fst].
      apply in_range_spec. exists i. left. split; [reflexivity|auto].
    + cbn [fst snd]. rewrite F. left. reflexivity.
Qed.

Lemma vis_sorted : forall f p a t,
  sorted t -> nonneg t ->
  StronglySorted (fun x y => fst x < fst y) (vis f p a t).
Proof.
  intros f p a. induction t as [|[k c] t IH]; intros So N; [constructor|].
  inv So. assert (N' : nonneg t) by (intros p' a' i' c' Hi; apply (N p' a' i' c'); right; auto).
  specialize (IH H1 N'). unfold vis. cbn [filter fst].
  destruct (in_range (p, a, 0) k) eqn:R; [|exact IH].
  cbn [flat_map fst snd]. destruct (f c) as [d|] eqn:F; [|exact IH].
  cbn [app]. constructor; [exact IH|]. rewrite Forall_forall.
  intros [i d'] Hi. fold (vis f p a t) in Hi. apply in_vis in Hi; [|auto].
  destruct Hi as [Li [c' [Ht F']]]. rewrite Forall_forall in H2.
  apply H2 in Ht. unfold kord in Ht. cbn [fst snd] in *.
  apply in_range_spec in R. destruct R as [j [[-> Lj]|[j' [-> Lj]]]];
    apply klt_def in Ht; cbn [snd]; lia.
Qed.

Lemma vis_shows : forall f p a t,
  sorted t -> nonneg t -> f [] = None ->
  shows (fun i => f (lookup t (p, a, i))) (vis f p a t).
Proof.
  intros f p a t So N Fn. split; [apply vis_sorted; auto|].
  intros i d. rewrite in_vis by auto. split.
  - intros [Li [c [Hi F]]]. split; [auto|].
    rewrite (lookup_in _ _ _ So Hi). exact F.
  - intros [Li F]. split; [auto|]. exists (lookup t (p, a, i)).
    split; [|exact F]. apply lookup_some. intros E. rewrite E in F. congruence.
Qed.

(** A sorted listing whose first numbers are known. *)
Lemma shows_prefix : forall ds n l,
  StronglySorted (fun x y : Z * bytes => fst x < fst y) l ->
  (forall i d, In (i, d) l -> n <= i) ->
  (forall j d, nth_error ds j = Some d ->
     forall d', In (n + Z.of_nat j, d') l <-> d' = d) ->
  exists l', map snd l = ds ++ map snd l' /\
    (forall i d, In (i, d) l' <-> In (i, d) l /\ n + Z.of_nat (length ds) <= i).
Proof.
  induction ds as [|d ds IH]; intros n l So Lo Hn.
  - exists l. split; [reflexivity|]. intros i d. cbn [length]. split.
    + intros H. split; [auto|]. apply Lo in H. lia.
    + tauto.
  - destruct l as [|[i0 d0] l].
    { destruct (Hn 0%nat d eq_refl d) as [_ H]. destruct (H eq_refl). }
    inv So. rewrite Forall_forall in H2.
    assert (i0 = n).
    { destruct (Hn 0%nat d eq_refl d) as [_ H]. specialize (H eq_refl).
      replace (n + Z.of_nat 0) with n in H by lia.
      destruct H as [E|H]; [congruence|].
      apply H2 in H. cbn [fst] in H.
      assert (n <= i0) by (apply (Lo i0 d0); left; reflexivity). lia. }
    subst i0.
    assert (d0 = d).
    { apply (Hn 0%nat d eq_refl d0). left. f_equal. lia. }
    subst d0.
    destruct (IH (n + 1) l H1) as [l' [E Hl']].
    + intros i d' Hi. apply H2 in Hi. cbn [fst] in Hi. lia.
    + intros j d' Hj d''. specialize (Hn (S j) d' Hj d'').
      replace (n + Z.of_nat (S j)) with (n + 1 + Z.of_nat j) in Hn by lia.
      rewrite <- Hn. split; [intros; right; auto|].
      intros [E|H]; [|auto]. inv E. lia.
    + exists l'. split; [cbn [map snd app]; rewrite E; reflexivity|].
      intros i d'. rewrite Hl'. cbn [length]. split.
      * intros [Hi L]. split; [right; auto|lia].
      * intros [[E'|Hi] L]; [inv E'; lia|]. split; [auto|lia].
Qed.

Lemma iterate_vis : forall cs rd p a t,
  iterate cs rd (p, a, 0) t =
  map snd (vis (fun c => option_map e_data (seen cs rd c)) p a t).
Proof.
  intros. unfold iterate, vis.
  induction (filter (fun kc => in_range (p, a, 0) (fst kc)) t) as [|[k c] l IH];
    [reflexivity|].
  cbn [flat_map fst snd]. rewrite map_app, IH.
  destruct (seen cs rd c); reflexivity.
Qed.

Lemma get_any_vis : forall p a t,
  get_any (p, a, 0) t = concat (map snd (vis cur p a t)).
Proof.
  intros. unfold get_any, vis.
  induction (filter (fun kc => in_range (p, a, 0) (fst kc)) t) as [|[k c] l IH];
    [reflexivity|].
  cbn [flat_map fst snd]. rewrite map_app, concat_app, IH.
  destruct (cur c); cbn [map concat snd]; rewrite ?app_nil_r; reflexivity.
Qed.

(** * Pieces *)

Lemma split_concat : forall f m v,
  (1 <= m)%nat -> (length v <= f)%nat -> concat (split f m v) = v.
Proof.
  induction f as [|f IH]; intros m v Hm L.
  - destruct v; [reflexivity|cbn in L; lia].
  - destruct v as [|x v]; [reflexivity|].
    cbn [split concat]. rewrite IH.
    + apply firstn_skipn.
    + auto.
    + rewrite skipn_length. cbn [length] in *. lia.
Qed.

Lemma chunks_concat : forall m v, (1 <= m)%nat -> concat (chunks m v) = v.
Proof. intros. apply split_concat; auto. Qed.

Lemma split_fuel : forall f1 f2 m v,
  (1 <= m)%nat -> (length v <= f1)%nat -> (length v <= f2)%nat ->
  split f1 m v = split f2 m v.
Proof.
  induction f1 as [|f1 IH]; intros f2 m v Hm L1 L2.
  - destruct v; [|cbn in L1; lia]. destruct f2; reflexivity.
  - destruct v as [|x v]; [destruct f2; reflexivity|].
    destruct f2 as [|f2]; [cbn in L2; lia|].
    cbn [split]. f_equal. apply IH; auto; rewrite skipn_length;
      cbn [length] in *; lia.
Qed.

Lemma chunks_cons : forall m v,
  (1 <= m)%nat -> v <> [] ->
  chunks m v = firstn m v :: chunks m (skipn m v).
Proof.
  intros m v Hm Hv. unfold chunks. destruct v as [|x v]; [congruence|].
  cbn [length split]. f_equal. apply split_fuel; auto; rewrite skipn_length;
    cbn [length]; lia.
Qed.

Lemma chunks_nil : forall m, chunks m [] = [].
Proof. reflexivity. Qed.

Lemma chunks_nonempty : forall m v, v <> [] -> chunks m v <> [].
Proof. intros m [|x v] H; [congruence|]. unfold chunks. cbn. congruence. Qed.

Lemma get_loop_chunks : forall n m size v acc rest,
  (length v <= n)%nat -> (1 <= m)%nat ->
  (length acc + length v = size)%nat ->
  (rest = [] \/ (length v mod m)%nat <> 0%nat) ->
  get_loop m size acc (chunks m v ++ rest) = Some (acc ++ v).
Proof.
  induction n as [|n IH]; intros m size v acc rest Ln Hm L R.
  - destruct v; [|cbn in Ln; lia]. rewrite chunks_nil. cbn [app length] in *.
    destruct R as [->|R].
    + cbn [get_loop]. rewrite app_nil_r.
      replace (Nat.eqb (length acc) size) with true; [reflexivity|].
      symmetry. apply Nat.eqb_eq. lia.
    + rewrite Nat.mod_0_l in R; lia.
  - destruct v as [|x v].
    { apply (IH m size [] acc rest); auto. cbn. lia. }
    set (u := x :: v) in *. assert (Hu : u <> []) by (subst u; congruence).
    clearbody u. rewrite chunks_cons by auto. cbn [app get_loop].
    pose proof (firstn_length m u) as FL. pose proof (skipn_length m u) as SL.
    assert (Hl : (1 <= length u)%nat) by (destruct u; [congruence|cbn; lia]).
    replace (Nat.ltb size (length acc + length (firstn m u))) with false
      by (symmetry; apply Nat.ltb_ge; lia).
    destruct (Nat.ltb_spec (length (firstn m u)) m) as [Lt|Ge].
    + assert (length u < m)%nat by lia.
      rewrite firstn_all2 by lia.
      replace (Nat.eqb (length (acc ++ u)) size) with true; [reflexivity|].
      symmetry. apply Nat.eqb_eq. rewrite app_length. lia.
    + rewrite IH.
      * rewrite <- app_assoc, firstn_skipn. reflexivity.
      * lia.
      * auto.
      * rewrite app_length. lia.
      * destruct R as [R|R]; [auto|right].
        rewrite SL. assert (m <= length u)%nat by lia.
        replace (length u) with ((length u - m) + 1 * m)%nat in R by lia.
        rewrite Nat.mod_add in R by lia. exact R.
Qed.

(** A leftover chunk after a value of whole pieces makes the read fail. *)
Lemma get_loop_leftover : forall n m size v acc d rest,
  (length v <= n)%nat -> (1 <= m)%nat ->
  (length acc + length v = size)%nat ->
  (length v mod m)%nat = 0%nat -> d <> [] ->
  get_loop m size acc (chunks m v ++ d :: rest) = None.
Proof.
  induction n as [|n IH]; intros m size v acc d rest Ln Hm L R Hd.
  - destruct v; [|cbn in Ln; lia]. rewrite chunks_nil. cbn [app length get_loop] in *.
    replace (Nat.ltb size (length acc + length d)) with true; [reflexivity|].
    symmetry. apply Nat.ltb_lt. destruct d; [congruence|cbn [length]; lia].
  - destruct v as [|x v].
    { apply (IH m size [] acc d rest); auto. cbn. lia. }
    set (u := x :: v) in *. assert (Hu : u <> []) by (subst u; congruence).
    clearbody u. rewrite chunks_cons by auto. cbn [app get_loop].
    pose proof (firstn_length m u) as FL. pose proof (skipn_length m u) as SL.
    assert (Hl : (1 <= length u)%nat) by (destruct u; [congruence|cbn; lia]).
    replace (Nat.ltb size (length acc + length (firstn m u))) with false
      by (symmetry; apply Nat.ltb_ge; lia).
    destruct (Nat.ltb_spec (length (firstn m u)) m) as [Lt|Ge].
    + assert (length u < m)%nat by lia. rewrite Nat.mod_small in R by lia. lia.
    + apply IH; auto.
      * lia.
      * rewrite app_length. lia.
      * rewrite SL. assert (m <= length u)%nat by lia.
        replace (length u) with ((length u - m) + 1 * m)%nat in R by lia.
        rewrite Nat.mod_add in R by lia. exact R.
Qed.

(** * Chains *)

Definition live (c : chain) : chain := filter (fun e => negb (e_del e)) c.

(** A deleted version lies directly over the live version it deleted. *)
Fixpoint wfc (cs : Z -> option Z) (c : chain) : Prop :=
  match c with
  | [] => True
  | e :: r =>
      wfc cs r /\
      (e_del e = true ->
       match r with
       | [] => False
       | e' :: _ =>
           e_del e' = false /\ e_ver e' = e_ver e /\ e_data e' = e_data e /\
           (e_tx e' = e_tx e \/
            exists n', cs (e_tx e') = Some n' /\
              forall n, cs (e_tx e) = Some n -> n' < n)
       end)
  end.

Lemma seen_live : forall cs rd c,
  wfc cs c ->
  option_map e_data (seen cs rd c) = option_map e_data (seen cs rd (live c)).
Proof.
  intros cs rd. induction c as [|e c IH]; intros W; [reflexivity|].
  destruct W as [Wc We]. specialize (IH Wc). unfold live. cbn [filter].
  destruct (e_del e) eqn:De; cbn [negb].
  - fold (live c). specialize (We eq_refl).
    destruct c as [|e' c]; [contradiction|].
    destruct We as [D' [V [Dt T]]].
    rewrite <- IH. clear IH.
    cbn [seen]. destruct rd as [s|tx w].
    + destruct (cs (e_tx e)) as [n|] eqn:Ce; [|reflexivity].
      destruct (Z.ltb_spec n s) as [Ls|]; [|reflexivity].
      assert (X : exists n', cs (e_tx e') = Some n' /\ n' < s).
      { destruct T as [->|[n' [C' L]]]; [eauto|]. exists n'. split; [auto|].
        specialize (L n eq_refl). lia. }
      destruct X as [n' [-> L']]. apply Z.ltb_lt in L'. rewrite L'.
      cbn. congruence.
    + destruct (cs (e_tx e)) as [n|] eqn:Ce.
      * assert (X : exists n', cs (e_tx e') = Some n').
        { destruct T as [->|[n' [C' L]]]; eauto. }
        destruct X as [n' ->]. cbn. congruence.
      * destruct ((e_tx e =? tx) && (e_ver e <=? w)) eqn:B; [|reflexivity].
        destruct T as [E|[n' [-> _]]]; [|cbn; congruence].
        rewrite E, V, Ce, B. cbn. congruence.
  - fold (live c). cbn [seen].
    destruct rd as [s|tx w].
    + destruct (cs (e_tx e)); [destruct (_ <? _)|]; auto.
    + destruct (cs (e_tx e)); [reflexivity|].
      destruct ((_ =? _) && _); auto.
Qed.

Definition headdel (c : chain) : Prop :=
  match c with e :: _ => e_del e = true | [] => True end.

Lemma cur_none : forall c, cur c = None <-> headdel c.
Proof.
  intros [|e c]; cbn; [tauto|]. destruct (e_del e); split; congruence.
Qed.

Lemma live_del : forall tx c, live (del_entry tx c) = live c.
Proof.
  intros tx [|e c]; [reflexivity|]. unfold del_entry.
  destruct (e_del e) eqn:D; [reflexivity|]. unfold live. cbn [filter e_del negb].
  reflexivity.
Qed.

Lemma headdel_del : forall tx c, headdel (del_entry tx c).
Proof.
  intros tx [|e c]; cbn; [auto|]. destruct (e_del e) eqn:D; cbn; auto.
Qed.

Lemma live_ins : forall tx w d sp c c',
  ins_entry tx w d sp c = Some c' -> live c' = Ent tx w false d :: live c.
Proof.
  intros tx w d sp [|e c] c' E; cbn in E.
  - inv E. reflexivity.
  - destruct (e_del e) eqn:D; cbn in E; [|discriminate].
    destruct (e_tx e =? tx); [destruct (sp || needs_undo e w)|]; inv E;
      unfold live; cbn [filter e_del negb]; rewrite D; reflexivity.
Qed.

Lemma ins_ok : forall tx w d sp c,
  headdel c -> exists c', ins_entry tx w d sp c = Some c'.
Proof.
  intros tx w d sp [|e c] H; cbn in *; [eauto|]. rewrite H. cbn [negb].
  destruct (e_tx e =? tx); [destruct (sp || needs_undo e w)|]; eauto.
Qed.

Lemma ins_head : forall tx w d sp c c',
  ins_entry tx w d sp c = Some c' -> cur c' = Some d.
Proof.
  intros tx w d sp [|e c] c' E; cbn in E.
  - inv E. reflexivity.
  - destruct (e_del e) eqn:D; cbn in E; [|discriminate].
    destruct (e_tx e =? tx); [destruct (sp || needs_undo e w)|]; inv E; reflexivity.
Qed.

Lemma wfc_ins : forall cs tx w d sp c c',
  wfc cs c -> ins_entry tx w d sp c = Some c' -> wfc cs c'.
Proof.
  intros cs tx w d sp [|e c] c' W E; cbn in E.
  - inv E. cbn. split; [auto|congruence].
  - destruct (e_del e) eqn:D; cbn in E; [|discriminate].
    assert (W' : wfc cs c) by (apply W).
    destruct (e_tx e =? tx); [destruct (sp || needs_undo e w)|]; inv E;
      (split; [assumption|cbn; congruence]).
Qed.

(** Entries of the chain are of the transaction or committed. *)
Definition okc (cs : Z -> option Z) (tx : Z) (c : chain) : Prop :=
  match c with
  | [] => True
  | e :: _ => e_tx e = tx \/ exists n, cs (e_tx e) = Some n
  end.

Lemma wfc_del : forall cs tx c,
  wfc cs c -> cs tx = None -> okc cs tx c -> wfc cs (del_entry tx c).
Proof.
  intros cs tx [|e c] W N O; [exact W|]. unfold del_entry.
  destruct (e_del e) eqn:D; [exact W|]. split; [exact W|].
  cbn [e_del e_ver e_data e_tx]. intros _.
  split; [exact D|]. split; [reflexivity|]. split; [reflexivity|].
  destruct O as [O|[n O]]; [left; exact O|right].
  exists n. split; [exact O|]. intros n' E. congruence.
Qed.

Lemma wfc_commit : forall cs nxt tx c,
  cs tx = None -> (forall t n, cs t = Some n -> n < nxt) ->
  wfc cs c -> wfc (upd cs tx (Some nxt)) c.
Proof.
  intros cs nxt tx c N B. induction c as [|e c IH]; [auto|].
  intros [Wc We]. split; [auto|]. intros D. specialize (We D).
  destruct c as [|e' c]; [contradiction|].
  destruct We as [D' [V [Dt T]]]. split; [auto|]. split; [auto|]. split; [auto|].
  destruct T as [T|[n' [C' L]]]; [auto|right]. exists n'. split.
  - rewrite upd_other; [auto|]. intros Ex. rewrite Ex in C'. congruence.
  - intros n Hn. unfold upd in Hn. destruct (Z.eqb_spec (e_tx e) tx) as [E|E].
    + inv Hn. eauto.
    + eauto.
Qed.

Lemma wfc_abort : forall cs tx c,
  cs tx = None -> wfc cs c -> wfc cs (filter (fun e => negb (e_tx e =? tx)) c).
Proof.
  intros cs tx c N. induction c as [|e c IH]; [auto|].
  intros [Wc We]. specialize (IH Wc). cbn [filter].
  destruct (Z.eqb_spec (e_tx e) tx) as [E|E]; cbn [negb]; [exact IH|].
  split; [exact IH|]. intros D. specialize (We D).
  destruct c as [|e' c]; [contradiction|].
  destruct We as [D' [V [Dt T]]]. cbn [filter].
  destruct (Z.eqb_spec (e_tx e') tx) as [E'|E']; cbn [negb].
  - exfalso. destruct T as [T|[n' [C' _]]]; congruence.
  - auto.
Qed.

Lemma live_filter : forall f c, live (filter f c) = filter f (live c).
Proof.
  intros f. unfold live. induction c as [|e c IH]; [reflexivity|].
  cbn [filter]. destruct (f e) eqn:F; cbn [filter]; destruct (negb (e_del e)) eqn:D;
    cbn [filter]; rewrite ?F, ?D, IH; reflexivity.
Qed.

(** * Cells: one chunk number of one column of one row *)

Definition rchunk (m : nat) (a i : Z) (r : rowver) : option bytes :=
  if r_del r then None
  else match r_val r a with
       | Some v => nth_error (chunks m v) (Z.to_nat i)
       | None => None
       end.

Definition cchunk (m : nat) (a i : Z) (l : list rowver) : option bytes :=
  match l with r :: _ => rchunk m a i r | [] => None end.

Definition contrib (m : nat) (a i : Z) (r : rowver) : chain :=
  if r_new r a then
    match rchunk m a i r with
    | Some d => [Ent (r_tx r) (r_ver r) false d]
    | None => []
    end
  else [].

Definition live_of (m : nat) (a i : Z) (l : list rowver) : chain :=
  flat_map (contrib m a i) l.

Lemma live_of_app : forall m a i l1 l2,
  live_of m a i (l1 ++ l2) = live_of m a i l1 ++ live_of m a i l2.
Proof. intros. apply flat_map_app. Qed.

Lemma live_of_lacks : forall m a i l,
  Forall (fun r => rchunk m a i r = None) l -> live_of m a i l = [].
Proof.
  intros m a i l F. induction F as [|r l H F IH]; [reflexivity|].
  unfold live_of. cbn [flat_map]. unfold contrib. rewrite H.
  destruct (r_new r a); exact IH.
Qed.

Lemma contrib_tx : forall m a i r e, In e (contrib m a i r) -> e_tx e = r_tx r.
Proof.
  intros m a i r e. unfold contrib. destruct (r_new r a); [|contradiction].
  destruct (rchunk m a i r); [|contradiction]. intros [<-|[]]. reflexivity.
Qed.

Lemma live_of_filter : forall m a i tx l,
  live_of m a i (filter (fun r => negb (r_tx r =? tx)) l) =
  filter (fun e => negb (e_tx e =? tx)) (live_of m a i l).
Proof.
  intros m a i tx. induction l as [|r l IH]; [reflexivity|].
  unfold live_of in *. cbn [filter flat_map]. rewrite filter_app.
  assert (X : filter (fun e => negb (e_tx e =? tx)) (contrib m a i r) =
              if r_tx r =? tx then [] else contrib m a i r).
  { unfold contrib. destruct (r_new r a); [|destruct (_ =? _); reflexivity].
    destruct (rchunk m a i r); [|destruct (_ =? _); reflexivity].
    cbn [filter e_tx]. destruct (_ =? _); reflexivity. }
  rewrite X. destruct (r_tx r =? tx); cbn [negb]; [exact IH|].
  cbn [flat_map]. rewrite IH. reflexivity.
Qed.

(** The versions of a row. *)
Definition above (cs : Z -> option Z) (r r' : rowver) : Prop :=
  (r_tx r = r_tx r' -> r_ver r' <= r_ver r /\ (r_del r = false -> r_ver r' < r_ver r)) /\
  (r_tx r <> r_tx r' ->
   exists n', cs (r_tx r') = Some n' /\
     forall n, cs (r_tx r) = Some n -> n' < n).

Fixpoint rowsok (cs : Z -> option Z) (attrs : list Z) (l : list rowver) : Prop :=
  match l with
  | [] => True
  | r :: l' =>
      rowsok cs attrs l' /\
      (forall r', In r' l' -> above cs r r') /\
      (forall a, r_new r a = false -> r_del r = false -> r_val r a = cur_val l' a) /\
      (r_del r = true -> forall a, r_new r a = false) /\
      (forall a, ~ In a attrs -> r_val r a = None) /\
      (forall a, r_val r a <> Some [])
  end.

Record cellok (cs : Z -> option Z) (hor : Z) (m : nat) (a i : Z)
    (l : list rowver) (c : chain) : Prop := {
  ck_wf : wfc cs c;
  ck_live : exists l1 l2, l = l1 ++ l2 /\ live c = live_of m a i l1 /\
      (l2 = [] \/ exists l1' r n, l1 = l1' ++ [r] /\ cs (r_tx r) = Some n /\
                    n < hor /\ rchunk m a i r = None);
  ck_cur : headdel c <-> cchunk m a i l = None;
  ck_gone : match c with
            | d :: _ => e_del d = true ->
                exists l1 r l2, l = l1 ++ r :: l2 /\ r_tx r = e_tx d /\
                  Forall (fun r => rchunk m a i r = None) (l1 ++ [r])
            | [] => True
            end;
  ck_tx : forall e, In e c -> (exists n, cs (e_tx e) = Some n) \/
                              (exists r, In r l /\ r_tx r = e_tx e)
}.

(** ** A reader finds the chunk of the version it holds *)

(** The version which stored the chunk of [r]. *)
Lemma writer : forall cs attrs m a i r l d,
  rowsok cs attrs (r :: l) -> rchunk m a i r = Some d ->
  exists lk r0 l0, r :: l = lk ++ r0 :: l0 /\
    (forall x, In x lk -> r_new x a = false /\ rchunk m a i x = Some d) /\
    r_new r0 a = true /\ rchunk m a i r0 = Some d.
Proof.
  intros cs attrs m a i r l d. revert r.
  induction l as [|r1 l IH]; intros r [Ol [Ab [Kp [Dn _]]]] C.
  - destruct (r_new r a) eqn:N.
    + exists [], r, []. split; [reflexivity|]. split; [intros x []|auto].
    + exfalso. unfold rchunk in C. destruct (r_del r) eqn:D; [discriminate|].
      rewrite (Kp a N eq_refl) in C. cbn in C. discriminate.
  - destruct (r_new r a) eqn:N.
    + exists [], r, (r1 :: l). split; [reflexivity|]. split; [intros x []|auto].
    + assert (C1 : rchunk m a i r1 = Some d).
      { unfold rchunk in C |- *. destruct (r_del r) eqn:D; [discriminate|].
        rewrite (Kp a N eq_refl) in C. cbn [cur_val] in C.
        destruct (r_del r1); [discriminate|exact C]. }
      destruct (IH r1 Ol C1) as [lk [r0 [l0 [E [Hk [N0 C0]]]]]].
      exists (r :: lk), r0, l0. split; [cbn [app]; rewrite E; reflexivity|].
      split; [|auto]. intros x [<-|Hx]; auto.
Qed.

Lemma rowsok_app : forall cs attrs l1 l2,
  rowsok cs attrs (l1 ++ l2) -> rowsok cs attrs l2.
Proof.
  induction l1 as [|r l1 IH]; intros l2 H; [exact H|]. apply IH, H.
Qed.

Lemma rowsok_above : forall cs attrs l1 r l2 x,
  rowsok cs attrs (l1 ++ r :: l2) -> In x l1 -> above cs x r.
Proof.
  induction l1 as [|y l1 IH]; intros r l2 x H Hx; [contradiction|].
  destruct Hx as [->|Hx].
  - apply H. apply in_or_app. right. left. reflexivity.
  - eapply IH; [apply H|exact Hx].
Qed.

Lemma live_of_in : forall m a i l e,
  In e (live_of m a i l) -> exists r, In r l /\ In e (contrib m a i r).
Proof. intros m a i l e H. apply in_flat_map in H. exact H. Qed.

Lemma seen_skip : forall cs rd c1 c2,
  (forall e c, In e c1 -> seen cs rd (e :: c) = seen cs rd c) ->
  seen cs rd (c1 ++ c2) = seen cs rd c2.
Proof.
  intros cs rd c1 c2 H. induction c1 as [|e c1 IH]; [reflexivity|].
  cbn [app]. rewrite H by (left; reflexivity). apply IH.
  intros e' c He. apply H. right. exact He.
Qed.

Lemma app_cmp : forall A (l1 : list A) x l2 k1 k2,
  l1 ++ x :: l2 = k1 ++ k2 ->
  (exists t, k1 = l1 ++ x :: t /\ l2 = t ++ k2) \/
  (exists t, k2 = t ++ x :: l2 /\ l1 = k1 ++ t).
Proof.
  intros A. induction l1 as [|y l1 IH]; intros x l2 k1 k2 E.
  - destruct k1 as [|z k1]; cbn [app] in E.
    + right. exists []. split; [auto|reflexivity].
    + left. inv E. exists k1. split; reflexivity.
  - destruct k1 as [|z k1]; cbn [app] in E.
    + right. exists (y :: l1). split; [auto|reflexivity].
    + inv E. destruct (IH _ _ _ _ H1) as [[t [-> ->]]|[t [-> ->]]].
      * left. exists t. split; reflexivity.
      * right. exists t. split; reflexivity.
Qed.

Lemma holds_split : forall cs rd l r,
  holds cs rd l r -> exists l1 l2, l = l1 ++ r :: l2 /\
    match rd with
    | RCsn s => committed_before cs (r_tx r) s /\
                forall r', In r' l1 -> ~ committed_before cs (r_tx r') s
    | ROwn tx w => r_tx r = tx /\ r_ver r = w /\ cs tx = None
    end.
Proof.
  intros cs [s|tx w] l r [D H].
  - destruct H as [l1 [l2 [E [H1 H2]]]]. eauto.
  - destruct H as [Hi H]. apply in_split in Hi. destruct Hi as [l1 [l2 E]]. eauto.
Qed.

Lemma reader_chunk : forall cs attrs hor m a i l c rd r d,
  rowsok cs attrs l -> cellok cs hor m a i l c ->
  in_use hor rd -> holds cs rd l r -> rchunk m a i r = Some d ->
  option_map e_data (seen cs rd c) = Some d.
Proof.
  intros cs attrs hor m a i l c rd r d RO CK U HD RC.
  rewrite seen_live by apply CK.
  destruct (holds_split _ _ _ _ HD) as [l1 [l2 [E H]]].
  assert (Dr : r_del r = false) by apply HD. clear HD.
  subst l.
  destruct (writer _ _ _ _ _ _ _ _ (rowsok_app _ _ _ _ RO) RC)
    as [lk [r0 [l0 [Ek [Hk [N0 C0]]]]]].
  destruct (ck_live _ _ _ _ _ _ _ CK) as [k1 [k2 [Ec [El Cut]]]].
  rewrite Ek, app_assoc in Ec.
  assert (W : exists t, k1 = (l1 ++ lk) ++ r0 :: t).
  { destruct (app_cmp _ _ _ _ _ _ Ec) as [[t [X _]]|[t [X Y]]]; [eauto|].
    exfalso. destruct Cut as [->|[k1' [rc [n [Ek1 [Cn [Ln Lk]]]]]]].
    { destruct t; discriminate X. }
    subst k1. rewrite <- app_assoc in Y. cbn [app] in Y.
    (* rc lies in l1 ++ lk *)
    destruct (app_cmp _ k1' rc t l1 lk (eq_sym Y)) as [[t' [Z1 Z2]]|[t' [Z1 Z2]]].
    - (* rc above r *)
      assert (Irc : In rc l1) by (rewrite Z1; apply in_or_app; right; left; reflexivity).
      assert (Ab := rowsok_above _ _ _ _ _ _ RO Irc).
      destruct rd as [s|tx w].
      + destruct H as [_ H]. apply (H _ Irc). exists n. split; [exact Cn|].
        cbn in U. lia.
      + destruct H as [H1 [H2 H3]]. destruct Ab as [_ Ab].
        destruct (Z.eq_dec (r_tx rc) (r_tx r)) as [Et|Et]; [congruence|].
        destruct (Ab Et) as [n' [X' _]]. congruence.
    - assert (Irc : In rc lk) by (rewrite Z1; apply in_or_app; right; left; reflexivity).
      apply Hk in Irc. destruct Irc as [_ Irc]. congruence. }
  destruct W as [t Ek1].
  assert (El' : live c = live_of m a i l1 ++
                Ent (r_tx r0) (r_ver r0) false d :: live_of m a i t).
  { rewrite El, Ek1, <- app_assoc, live_of_app, live_of_app.
    replace (live_of m a i lk) with (@nil entry).
    - cbn [app]. unfold live_of at 2. cbn [flat_map].
      unfold contrib at 1. rewrite N0, C0. reflexivity.
    - symmetry. clear - Hk. induction lk as [|x lk IH]; [reflexivity|].
      unfold live_of. cbn [flat_map]. unfold contrib at 1.
      destruct (Hk x (or_introl eq_refl)) as [-> _]. cbn [app].
      apply IH. intros y Hy. apply Hk. right. exact Hy. }
  rewrite El', seen_skip.
  - (* the writer's entry is taken *)
    assert (A0 : r0 = r \/ above cs r r0).
    { destruct lk as [|x lk]; cbn [app] in Ek; inversion Ek; [left; auto|right].
      subst x. apply rowsok_app in RO. rewrite Ek in RO.
      apply (rowsok_above cs attrs (r :: lk) r0 l0 r); [exact RO|left; auto]. }
    cbn [seen e_tx e_ver e_data]. destruct rd as [s|tx w].
    + destruct H as [[n [Hn Ln]] _].
      assert (X : exists n0, cs (r_tx r0) = Some n0 /\ n0 < s).
      { destruct A0 as [->|[A1 A2]]; [eauto|].
        destruct (Z.eq_dec (r_tx r) (r_tx r0)) as [Et|Et].
        - rewrite <- Et. eauto.
        - destruct (A2 Et) as [n' [X1 X2]]. exists n'. split; [auto|].
          specialize (X2 n Hn). lia. }
      destruct X as [n0 [-> Ls]]. apply Z.ltb_lt in Ls. rewrite Ls. reflexivity.
    + destruct H as [H1 [H2 H3]].
      destruct (cs (r_tx r0)) as [n0|] eqn:C00; [reflexivity|].
      assert (X : r_tx r0 = tx /\ r_ver r0 <= w).
      { destruct A0 as [->|[A1 A2]]; [split; [auto|lia]|].
        destruct (Z.eq_dec (r_tx r) (r_tx r0)) as [Et|Et].
        - specialize (A1 Et). split; [congruence|lia].
        - destruct (A2 Et) as [n' [X1 _]]. congruence. }
      destruct X as [X1 X2]. rewrite X1, Z.eqb_refl. apply Z.leb_le in X2.
      rewrite X2. reflexivity.
  - intros e c0 He. apply live_of_in in He. destruct He as [x [Hx He]].
    assert (Hs := rowsok_above _ _ _ _ _ _ RO Hx).
    cbn [seen]. rewrite (contrib_tx _ _ _ _ _ He).
    destruct rd as [s|tx w].
    + destruct H as [_ H]. specialize (H x Hx).
      destruct (cs (r_tx x)) as [n|] eqn:Cx; [|reflexivity].
      destruct (Z.ltb_spec n s); [|reflexivity].
      exfalso. apply H. exists n. auto.
    + destruct H as [H1 [H2 H3]]. destruct Hs as [A1 A2].
      destruct (Z.eq_dec (r_tx x) (r_tx r)) as [Et|Et].
      2:{ destruct (A2 Et) as [n' [X1 _]]. congruence. }
      rewrite Et, H1, H3, Z.eqb_refl. cbn [andb].
      unfold contrib in He. destruct (r_new x a) eqn:Nx; [|contradiction].
      destruct (rchunk m a i x) eqn:Rx; [|contradiction].
      destruct He as [<-|[]]. cbn [e_ver].
      assert (Dx : r_del x = false).
      { unfold rchunk in Rx. destruct (r_del x); [discriminate|reflexivity]. }
      destruct (A1 Et) as [_ A3]. specialize (A3 Dx).
      destruct (Z.leb_spec (r_ver x) w); [lia|reflexivity].
Qed.

(** ** The tree after writing one column *)

Definition cell_write (m : nat) (tx w : Z) (sp : bool) (old new : option bytes)
    (i : Z) (c : chain) : option chain :=
  if keeps old new then Some c
  else match new with
       | Some v => match nth_error (chunks m v) (Z.to_nat i) with
                   | Some d => ins_entry tx w d sp (del_entry tx c)
                   | None => Some (del_entry tx c)
                   end
       | None => Some (del_entry tx c)
       end.

Lemma del_headdel : forall tx c, headdel c -> del_entry tx c = c.
Proof. intros tx [|e c] H; [reflexivity|]. cbn in *. rewrite H. reflexivity. Qed.

Lemma keqb_cell : forall p a i p' a' i',
  keqb (p, a, i) (p', a', i') = (p =? p') && (a =? a') && (i =? i').
Proof.
  intros. destruct (keqb (p, a, i) (p', a', i')) eqn:K.
  - apply keqb_spec in K. inv K. rewrite !Z.eqb_refl. reflexivity.
  - symmetry. apply not_true_is_false. intros H.
    apply andb_true_iff in H. destruct H as [H H3].
    apply andb_true_iff in H. destruct H as [H1 H2].
    apply Z.eqb_eq in H1, H2, H3. subst. rewrite keqb_refl in K. discriminate.
Qed.

Lemma in_range_cell : forall p a p' a' i,
  0 <= i -> in_range (p, a, 0) (p', a', i) = (p' =? p) && (a' =? a).
Proof.
  intros p a p' a' i Hi. destruct (in_range (p, a, 0) (p', a', i)) eqn:R.
  - apply in_range_spec in R. destruct R as [j [[E L]|[j' [E L]]]]; inv E.
    + rewrite !Z.eqb_refl. reflexivity.
    + lia.
  - symmetry. apply not_true_is_false. intros H.
    apply andb_true_iff in H. destruct H as [H1 H2].
    apply Z.eqb_eq in H1, H2. subst.
    assert (X : in_range (p, a, 0) (p, a, i) = true).
    { apply in_range_spec. exists i. left. auto. }
    congruence.
Qed.

Lemma ins_chunks_spec : forall ds tx w p a i sp t,
  sorted t -> nonneg t -> 0 <= i ->
  (forall j, i <= j -> headdel (lookup t (p, a, j))) ->
  exists t', ins_chunks tx w p a i sp ds t = Some t' /\ sorted t' /\ nonneg t' /\
    (forall p' a' j, (p' <> p \/ a' <> a \/ j < i) ->
       lookup t' (p', a', j) = lookup t (p', a', j)) /\
    (forall j, i <= j ->
       match nth_error ds (Z.to_nat (j - i)) with
       | Some d => ins_entry tx w d (sp j) (lookup t (p, a, j)) =
                   Some (lookup t' (p, a, j))
       | None => lookup t' (p, a, j) = lookup t (p, a, j)
       end).
Proof.
  induction ds as [|d ds IH]; intros tx w p a i sp t So N Hi Hd.
  - exists t. cbn [ins_chunks]. split; [reflexivity|]. split; [auto|].
    split; [auto|]. split; [auto|]. intros j Hj.
    destruct (Z.to_nat (j - i)); reflexivity.
  - cbn [ins_chunks].
    destruct (ins_ok tx w d (sp i) _ (Hd i ltac:(lia))) as [c Hc]. rewrite Hc.
    destruct (IH tx w p a (i + 1) sp (put t (p, a, i) c)) as
      [t' [E [So' [N' [Ho Hin]]]]].
    + apply sorted_put; auto.
    + apply nonneg_put; auto.
    + lia.
    + intros j Hj. rewrite lookup_put by auto. rewrite keqb_cell.
      destruct (Z.eqb_spec i j); [lia|]. rewrite andb_false_r. apply Hd. lia.
    + exists t'. split; [exact E|]. split; [auto|]. split; [auto|]. split.
      * intros p' a' j Hj. rewrite Ho by lia. rewrite lookup_put by auto.
        rewrite keqb_cell.
        destruct ((p =? p') && (a =? a') && (i =? j)) eqn:K; [lia|reflexivity].
      * intros j Hj. destruct (Z.eq_dec j i) as [->|Nj].
        -- replace (Z.to_nat (i - i)) with 0%nat by lia. cbn [nth_error].
           rewrite Ho by lia. rewrite lookup_put, keqb_refl by auto. exact Hc.
        -- specialize (Hin j ltac:(lia)).
           replace (Z.to_nat (j - i)) with (S (Z.to_nat (j - (i + 1)))) by lia.
           cbn [nth_error]. rewrite lookup_put in Hin by auto.
           rewrite keqb_cell in Hin.
           destruct (Z.eqb_spec i j); [lia|]. rewrite andb_false_r in Hin.
           exact Hin.
Qed.

Lemma lookup_del : forall tx p a t p' a' j,
  0 <= j ->
  lookup (del_chunks tx (p, a, 0) t) (p', a', j) =
  if (p' =? p) && (a' =? a) then del_entry tx (lookup t (p', a', j))
  else lookup t (p', a', j).
Proof.
  intros. rewrite del_chunks_mapt, lookup_mapt by apply delf_nil.
  unfold delf. rewrite in_range_cell by auto. reflexivity.
Qed.

Lemma write_col_spec : forall m tx w p a sp old new t,
  sorted t -> nonneg t ->
  (old = None -> forall j, 0 <= j -> headdel (lookup t (p, a, j))) ->
  exists t', write_col m tx w p a sp old new t = Some t' /\
    sorted t' /\ nonneg t' /\
    (forall p' a' j, 0 <= j -> (p' <> p \/ a' <> a) ->
       lookup t' (p', a', j) = lookup t (p', a', j)) /\
    (forall j, 0 <= j ->
       cell_write m tx w (sp j) old new j (lookup t (p, a, j)) =
       Some (lookup t' (p, a, j))).
Proof.
  intros m tx w p a sp old new t So N Hd. unfold write_col, cell_write.
  destruct (keeps old new).
  { exists t. auto 10. }
  set (t1 := match old with Some _ => del_chunks tx (p, a, 0) t | None => t end).
  assert (S1 : sorted t1).
  { destruct old; subst t1; [rewrite del_chunks_mapt; apply sorted_mapt|]; auto. }
  assert (N1 : nonneg t1).
  { destruct old; subst t1; [rewrite del_chunks_mapt; apply nonneg_mapt|]; auto. }
  assert (L1 : forall j, 0 <= j -> lookup t1 (p, a, j) = del_entry tx (lookup t (p, a, j))).
  { intros j Hj. destruct old; subst t1.
    - rewrite lookup_del, !Z.eqb_refl by auto. reflexivity.
    - rewrite del_headdel; auto. }
  assert (O1 : forall p' a' j, 0 <= j -> (p' <> p \/ a' <> a) ->
            lookup t1 (p', a', j) = lookup t (p', a', j)).
  { intros p' a' j Hj H. destruct old; subst t1; [|reflexivity].
    rewrite lookup_del by auto.
    destruct ((p' =? p) && (a' =? a)) eqn:K; [lia|reflexivity]. }
  clearbody t1. destruct new as [v|].
  - destruct (ins_chunks_spec (chunks m v) tx w p a 0 sp t1) as
      [t' [E [S' [N' [Ho Hi]]]]]; auto; [lia| |].
    { intros j Hj. rewrite L1 by auto. apply headdel_del. }
    exists t'. split; [exact E|]. split; [auto|]. split; [auto|]. split.
    + intros p' a' j Hj H. rewrite Ho by lia. auto.
    + intros j Hj. specialize (Hi j Hj). rewrite Z.sub_0_r, L1 in Hi by auto.
      destruct (nth_error (chunks m v) (Z.to_nat j)); [exact Hi|congruence].
  - exists t1. split; [reflexivity|]. split; [auto|]. split; [auto|].
    split; [auto|]. intros j Hj. rewrite L1 by auto. reflexivity.
Qed.

Lemma write_cols_spec : forall m tx w p sp old new l t,
  NoDup l -> sorted t -> nonneg t ->
  (forall a, old a = None -> forall j, 0 <= j -> headdel (lookup t (p, a, j))) ->
  exists t', write_cols m tx w p sp old new l t = Some t' /\
    sorted t' /\ nonneg t' /\
    (forall p' a j, 0 <= j -> (p' <> p \/ ~ In a l) ->
       lookup t' (p', a, j) = lookup t (p', a, j)) /\
    (forall a j, 0 <= j -> In a l ->
       cell_write m tx w (sp a j) (old a) (new a) j (lookup t (p, a, j)) =
       Some (lookup t' (p, a, j))).
Proof.
  intros m tx w p sp old new. induction l as [|a l IH]; intros t ND So N Hd.
  - exists t. cbn [write_cols]. split; [reflexivity|]. split; [auto|].
    split; [auto|]. split; [auto|]. intros a j _ [].
  - inv ND. cbn [write_cols].
    destruct (write_col_spec m tx w p a (sp a) (old a) (new a) t So N (Hd a))
      as [t1 [E1 [S1 [N1 [O1 I1]]]]].
    rewrite E1.
    (* the other columns of the row are as before *)
    assert (D1 : forall a', In a' l -> old a' = None ->
              forall j, 0 <= j -> headdel (lookup t1 (p, a', j))).
    { intros a' Ha' Ho j Hj. rewrite O1; auto.
      right. intros ->. contradiction. }
    assert (IH' : forall t0, sorted t0 -> nonneg t0 ->
      (forall a0, In a0 l -> old a0 = None ->
         forall j, 0 <= j -> headdel (lookup t0 (p, a0, j))) ->
      exists t', write_cols m tx w p sp old new l t0 = Some t' /\
        sorted t' /\ nonneg t' /\
        (forall p' a j, 0 <= j -> (p' <> p \/ ~ In a l) ->
           lookup t' (p', a, j) = lookup t0 (p', a, j)) /\
        (forall a j, 0 <= j -> In a l ->
           cell_write m tx w (sp a j) (old a) (new a) j (lookup t0 (p, a, j)) =
           Some (lookup t' (p, a, j)))).
    { clear - H2. induction l as [|b l IHl]; intros t0 S0 N0 D0.
      - exists t0. cbn [write_cols]. split; [reflexivity|]. split; [auto|].
        split; [auto|]. split; [auto|]. intros a' j _ [].
      - inv H2. cbn [write_cols].
        destruct (write_col_spec m tx w p b (sp b) (old b) (new b) t0 S0 N0)
          as [t2 [E2 [S2 [N2 [O2 I2]]]]].
        { intros Ho j Hj. apply D0; auto. left. reflexivity. }
        rewrite E2. destruct (IHl H3 t2 S2 N2) as [t' [E' [S' [N' [O' I']]]]].
        { intros a0 Ha0 Ho j Hj. rewrite O2; auto.
          - apply D0; auto. right. exact Ha0.
          - right. intros ->. contradiction. }
        exists t'. split; [exact E'|]. split; [auto|]. split; [auto|]. split.
        + intros p' a0 j Hj H. rewrite O'; [apply O2; auto|auto|].
          * destruct H as [H|H]; [auto|right]. intros ->. apply H. left. reflexivity.
          * destruct H as [H|H]; [auto|right]. intros Hi. apply H. right. exact Hi.
        + intros a0 j Hj [<-|Ha0].
          * rewrite (O' p b j Hj (or_intror H1)). apply I2. exact Hj.
          * rewrite <- (O2 p a0 j Hj); [apply I'; auto|].
            right. intros ->. contradiction. }
    destruct (IH' t1 S1 N1 D1) as [t' [E' [S' [N' [O' I']]]]].
    exists t'. split; [exact E'|]. split; [auto|]. split; [auto|]. split.
    + intros p' a0 j Hj H. rewrite O'; [apply O1; auto|auto|].
      * destruct H as [H|H]; [auto|right]. intros ->. apply H. left. reflexivity.
      * destruct H as [H|H]; [auto|right]. intros Hi. apply H. right. exact Hi.
    + intros a0 j Hj [<-|Ha0].
      * rewrite (O' p a j Hj (or_intror H1)). apply I1. exact Hj.
      * rewrite <- (O1 p a0 j Hj); [apply I'; auto|].
        right. intros ->. contradiction.
Qed.

Lemma remove_cols_spec : forall tx p old l t,
  sorted t -> nonneg t ->
  sorted (remove_cols tx p old l t) /\ nonneg (remove_cols tx p old l t) /\
  (forall p' a j, 0 <= j ->
     lookup (remove_cols tx p old l t) (p', a, j) =
     if (p' =? p) && existsb (Z.eqb a) l &&
        match old a with Some _ => true | None => false end
     then del_entry tx (lookup t (p', a, j)) else lookup t (p', a, j)).
Proof.
  intros tx p old. induction l as [|a l IH]; intros t So N; cbn [remove_cols fold_left].
  - split; [auto|]. split; [auto|]. intros. cbn [existsb].
    rewrite andb_false_r. reflexivity.
  - set (t1 := match old a with Some _ => del_chunks tx (p, a, 0) t | None => t end).
    assert (S1 : sorted t1).
    { destruct (old a); subst t1; [rewrite del_chunks_mapt; apply sorted_mapt|]; auto. }
    assert (N1 : nonneg t1).
    { destruct (old a); subst t1; [rewrite del_chunks_mapt; apply nonneg_mapt|]; auto. }
    destruct (IH t1 S1 N1) as [S' [N' L']]. unfold remove_cols in S', N', L'.
    split; [exact S'|]. split; [exact N'|].
    intros p' a' j Hj. rewrite L' by auto. cbn [existsb].
    assert (Lk : lookup t1 (p', a', j) =
       if (p' =? p) && (a' =? a) && match old a with Some _ => true | None => false end
       then del_entry tx (lookup t (p', a', j)) else lookup t (p', a', j)).
    { subst t1. destruct (old a).
      - rewrite lookup_del by auto. rewrite andb_true_r. reflexivity.
      - rewrite andb_false_r. reflexivity. }
    rewrite Lk. destruct (Z.eqb_spec a' a) as [->|Na].
    + rewrite andb_true_r. cbn [orb]. rewrite andb_true_r.
      destruct (p' =? p); [|cbn [andb]; reflexivity].
      cbn [andb]. destruct (old a); [|rewrite andb_false_r; reflexivity].
      rewrite andb_true_r. destruct (existsb (Z.eqb a) l); [|reflexivity].
      apply del_headdel, headdel_del.
    + cbn [orb]. rewrite andb_false_r. cbn [andb]. reflexivity.
Qed.

(** ** Cells after each operation *)

Lemma beqb_eq : forall u v, beqb u v = true -> u = v.
Proof.
  induction u as [|x u IH]; intros [|y v] H; cbn in H; try discriminate; auto.
  apply andb_true_iff in H. destruct H as [H1 H2]. apply Z.eqb_eq in H1.
  subst. f_equal. auto.
Qed.

Lemma beqb_refl : forall u, beqb u u = true.
Proof. induction u; cbn; [reflexivity|]. rewrite Z.eqb_refl. auto. Qed.

Lemma keeps_eq : forall old new, keeps old new = true -> old = new.
Proof.
  intros [u|] [v|] H; cbn in H; try discriminate; auto.
  apply beqb_eq in H. congruence.
Qed.

Lemma cchunk_cur : forall m a i l,
  cchunk m a i l = match cur_val l a with
                   | Some v => nth_error (chunks m v) (Z.to_nat i)
                   | None => None
                   end.
Proof.
  intros m a i [|r l]; [reflexivity|]. cbn [cchunk cur_val].
  unfold rchunk. destruct (r_del r); reflexivity.
Qed.

(** Every version of the row is of [tx] or committed. *)
Lemma may_all : forall cs attrs tx l r,
  rowsok cs attrs l -> may_write cs tx l = true -> In r l ->
  r_tx r = tx \/ exists n, cs (r_tx r) = Some n.
Proof.
  intros cs attrs tx [|r0 l] r O M Hi; [contradiction|].
  unfold may_write in M. destruct (cs tx) eqn:N; [discriminate|].
  assert (H0 : r_tx r0 = tx \/ exists n, cs (r_tx r0) = Some n).
  { apply orb_true_iff in M. destruct M as [M|M]; [left; lia|right].
    destruct (cs (r_tx r0)); [eauto|discriminate]. }
  destruct Hi as [<-|Hi]; [exact H0|].
  destruct O as [_ [Ab _]]. specialize (Ab r Hi). destruct Ab as [_ Ab].
  destruct (Z.eq_dec (r_tx r0) (r_tx r)) as [E|E].
  - rewrite <- E. exact H0.
  - destruct (Ab E) as [n [X _]]. eauto.
Qed.

Lemma may_none : forall cs tx l, may_write cs tx l = true -> cs tx = None.
Proof. intros cs tx l. unfold may_write. destruct (cs tx); congruence. Qed.

Lemma cell_okc : forall cs attrs hor m a i tx l c,
  rowsok cs attrs l -> may_write cs tx l = true ->
  cellok cs hor m a i l c -> okc cs tx c.
Proof.
  intros cs attrs hor m a i tx l c O M CK. destruct c as [|e c]; [exact Logic.I|].
  cbn. destruct (ck_tx _ _ _ _ _ _ _ CK e (or_introl eq_refl)) as [[n H]|[r [Hr E]]];
    [eauto|].
  rewrite <- E. eapply may_all; eauto.
Qed.

Lemma in_del : forall tx c e, In e (del_entry tx c) -> e_tx e = tx \/ In e c.
Proof.
  intros tx [|e0 c] e H; [contradiction|]. unfold del_entry in H.
  destruct (e_del e0); [auto|]. destruct H as [<-|H]; auto.
Qed.

Lemma in_ins : forall tx w d sp c c' e,
  ins_entry tx w d sp c = Some c' -> In e c' -> e_tx e = tx \/ In e c.
Proof.
  intros tx w d sp [|e0 c] c' e E H; cbn in E.
  - inv E. destruct H as [<-|[]]. auto.
  - destruct (e_del e0); cbn in E; [|discriminate].
    destruct (e_tx e0 =? tx); [destruct (sp || needs_undo e0 w)|]; inv E;
      (destruct H as [<-|H]; [left; reflexivity|right]); auto. right; auto.
Qed.

Lemma push_live : forall cs hor m a i r l c c1,
  cellok cs hor m a i l c -> live c1 = contrib m a i r ++ live c ->
  exists l1 l2, r :: l = l1 ++ l2 /\ live c1 = live_of m a i l1 /\
      (l2 = [] \/ exists l1' r n, l1 = l1' ++ [r] /\ cs (r_tx r) = Some n /\
                    n < hor /\ rchunk m a i r = None).
Proof.
  intros cs hor m a i r l c c1 CK E.
  destruct (ck_live _ _ _ _ _ _ _ CK) as [l1 [l2 [El [Lv Cut]]]].
  exists (r :: l1), l2. split; [cbn [app]; congruence|]. split.
  - rewrite E, Lv. reflexivity.
  - destruct Cut as [->|[l1' [rc [n [-> H]]]]]; [auto|right].
    exists (r :: l1'), rc, n. split; [reflexivity|exact H].
Qed.

Lemma push_gone : forall cs attrs hor m a i tx r l c,
  rowsok cs attrs l -> may_write cs tx l = true ->
  cellok cs hor m a i l c -> r_tx r = tx -> rchunk m a i r = None ->
  cellok cs hor m a i (r :: l) (del_entry tx c).
Proof.
  intros cs attrs hor m a i tx r l c RO MW CK Et RC.
  pose proof (cell_okc _ _ _ _ _ _ _ _ _ RO MW CK) as OK.
  constructor.
  - apply wfc_del; [apply CK|eapply may_none; eauto|exact OK].
  - eapply push_live; [exact CK|]. rewrite live_del.
    unfold contrib. rewrite RC. destruct (r_new r a); reflexivity.
  - cbn [cchunk]. rewrite RC. split; [auto|]. intros _. apply headdel_del.
  - destruct c as [|e c]; [exact Logic.I|]. unfold del_entry.
    destruct (e_del e) eqn:De.
    + intros _. pose proof (ck_gone _ _ _ _ _ _ _ CK) as G. cbn beta iota in G.
      destruct (G De) as [l1 [r1 [l2 [El [E1 F]]]]].
      exists (r :: l1), r1, l2. split; [cbn [app]; congruence|].
      split; [exact E1|]. cbn [app]. constructor; auto.
    + intros _. exists [], r, l. split; [reflexivity|]. split; [exact Et|].
      cbn [app]. constructor; auto.
  - intros e He. apply in_del in He. destruct He as [He|He].
    + right. exists r. split; [left; auto|congruence].
    + destruct (ck_tx _ _ _ _ _ _ _ CK e He) as [H|[r' [H1 H2]]]; [auto|right].
      exists r'. split; [right; auto|auto].
Qed.

Lemma push_write : forall cs attrs hor m a i tx w img sp new l c c',
  rowsok cs attrs l -> may_write cs tx l = true ->
  cellok cs hor m a i l c ->
  cell_write m tx w sp (cur_val l a) (new a) i c = Some c' ->
  cellok cs hor m a i
    (RV tx w false img new (fun a => negb (keeps (cur_val l a) (new a))) :: l) c'.
Proof.
  intros cs attrs hor m a i tx w img sp new l c c' RO MW CK E.
  set (r := RV tx w false img new (fun a => negb (keeps (cur_val l a) (new a)))).
  unfold cell_write in E.
  destruct (keeps (cur_val l a) (new a)) eqn:K.
  - inv E. pose proof (keeps_eq _ _ K) as Ek.
    assert (RC : rchunk m a i r = cchunk m a i l).
    { rewrite cchunk_cur, Ek. reflexivity. }
    assert (Cb : contrib m a i r = []).
    { unfold contrib. subst r. cbn [r_new]. rewrite K. reflexivity. }
    constructor.
    + apply CK.
    + eapply push_live; [exact CK|]. rewrite Cb. reflexivity.
    + cbn [cchunk]. rewrite RC. apply CK.
    + destruct c' as [|e c']; [exact Logic.I|]. intros De.
      pose proof (ck_gone _ _ _ _ _ _ _ CK) as G. cbn beta iota in G.
      destruct (G De) as [l1 [r1 [l2 [El [E1 F]]]]].
      exists (r :: l1), r1, l2. split; [cbn [app]; congruence|].
      split; [exact E1|]. cbn [app]. constructor; auto.
      rewrite RC. apply (ck_cur _ _ _ _ _ _ _ CK). exact De.
    + intros e He. destruct (ck_tx _ _ _ _ _ _ _ CK e He) as [H|[r' [H1 H2]]]; [auto|right].
      exists r'. split; [right; auto|auto].
  - destruct (new a) as [v|] eqn:Nw.
    + destruct (nth_error (chunks m v) (Z.to_nat i)) as [d|] eqn:Nth.
      * assert (RC : rchunk m a i r = Some d).
        { unfold rchunk. subst r. cbn [r_del r_val]. rewrite Nw. exact Nth. }
        pose proof (ins_head _ _ _ _ _ _ E) as Hh.
        constructor.
        -- eapply wfc_ins; [|exact E].
           apply wfc_del; [apply CK|eapply may_none; eauto|eapply cell_okc; eauto].
        -- eapply push_live; [exact CK|]. rewrite (live_ins _ _ _ _ _ _ E), live_del.
           unfold contrib. rewrite RC. subst r. cbn [r_new]. rewrite Nw, K.
           reflexivity.
        -- cbn [cchunk]. rewrite RC. rewrite <- cur_none, Hh. split; congruence.
        -- destruct c' as [|e c']; [exact Logic.I|]. intros De.
           cbn [cur] in Hh. rewrite De in Hh. discriminate.
        -- intros e He. destruct (in_ins _ _ _ _ _ _ _ E He) as [Et|He'].
           ++ right. exists r. split; [left; auto|]. subst r. cbn [r_tx]. auto.
           ++ apply in_del in He'. destruct He' as [Et|He'].
              ** right. exists r. split; [left; auto|]. subst r. cbn [r_tx]. auto.
              ** destruct (ck_tx _ _ _ _ _ _ _ CK e He') as [H|[r' [H1 H2]]]; [auto|right].
                 exists r'. split; [right; auto|auto].
      * inv E. eapply push_gone; eauto.
        unfold rchunk. subst r. cbn [r_del r_val]. rewrite Nw. exact Nth.
    + inv E. eapply push_gone; eauto.
      unfold rchunk. subst r. cbn [r_del r_val]. rewrite Nw. reflexivity.
Qed.

Lemma rowsok_push : forall cs attrs tx r l,
  rowsok cs attrs l -> may_write cs tx l = true -> r_tx r = tx ->
  (r_del r = false -> r_ver r = new_ver tx l) ->
  (r_del r = true -> exists r0 l0, l = r0 :: l0 /\ r_ver r = r_ver r0) ->
  forall r', In r' l -> above cs r r'.
Proof.
  intros cs attrs tx r l O M Et V1 V2 r' Hi.
  pose proof (may_none _ _ _ M) as Nn.
  assert (TOP : forall r0 l0, l = r0 :: l0 -> r_tx r' = tx ->
            r_tx r0 = tx /\ r_ver r' <= r_ver r0).
  { intros r0 l0 -> E. destruct Hi as [->|Hi]; [split; [auto|lia]|].
    destruct O as [_ [Ab _]]. destruct (Ab r' Hi) as [A1 A2].
    destruct (Z.eq_dec (r_tx r0) (r_tx r')) as [E0|E0].
    - split; [congruence|]. apply A1. exact E0.
    - destruct (A2 E0) as [n [X _]]. congruence. }
  split.
  - intros E. rewrite Et in E. destruct l as [|r0 l0]; [contradiction|].
    destruct (TOP r0 l0 eq_refl (eq_sym E)) as [T1 T2].
    destruct (r_del r) eqn:D.
    + destruct (V2 eq_refl) as [r1 [l1 [El Ev]]]. inv El.
      split; [lia|congruence].
    + rewrite (V1 eq_refl). cbn [new_ver]. rewrite T1, Z.eqb_refl.
      split; [lia|intros _; lia].
  - intros E. destruct (may_all _ _ _ _ _ O M Hi) as [X|[n X]]; [congruence|].
    exists n. split; [exact X|]. intros n' Hn'. congruence.
Qed.

(** ** Removing the versions of a transaction *)

Definition ftx (tx : Z) (l : list rowver) := filter (fun r => negb (r_tx r =? tx)) l.

Lemma ftx_id : forall tx l,
  (forall r, In r l -> r_tx r <> tx) -> ftx tx l = l.
Proof.
  intros tx. induction l as [|r l IH]; intros H; [reflexivity|].
  unfold ftx in *. cbn [filter]. destruct (Z.eqb_spec (r_tx r) tx) as [E|E].
  - exfalso. apply (H r); [left; auto|auto].
  - cbn [negb]. f_equal. apply IH. intros r' Hr. apply H. right. exact Hr.
Qed.

Lemma abf_id : forall tx k c,
  (forall e, In e c -> e_tx e <> tx) -> abf tx k c = c.
Proof.
  intros tx k. induction c as [|r l IH]; intros H; [reflexivity|].
  unfold abf in *. cbn [filter]. destruct (Z.eqb_spec (e_tx r) tx) as [E|E].
  - exfalso. apply (H r); [left; auto|auto].
  - cbn [negb]. f_equal. apply IH. intros r' Hr. apply H. right. exact Hr.
Qed.

(** The versions of a transaction in progress are on top. *)
Lemma rowsok_top : forall cs attrs tx r l,
  rowsok cs attrs (r :: l) -> cs tx = None -> r_tx r <> tx ->
  forall r', In r' (r :: l) -> r_tx r' <> tx.
Proof.
  intros cs attrs tx r l O N E r' [<-|Hi]; [exact E|].
  destruct O as [_ [Ab _]]. destruct (Ab r' Hi) as [_ A2].
  intros E'. destruct (Z.eq_dec (r_tx r) (r_tx r')) as [X|X]; [congruence|].
  destruct (A2 X) as [n [Y _]]. congruence.
Qed.

Lemma rowsok_ftx : forall cs attrs tx l,
  rowsok cs attrs l -> cs tx = None -> rowsok cs attrs (ftx tx l).
Proof.
  intros cs attrs tx l O N. induction l as [|r l IH]; [exact Logic.I|].
  destruct (Z.eq_dec (r_tx r) tx) as [E|E].
  - unfold ftx. cbn [filter]. rewrite E, Z.eqb_refl. cbn [negb]. apply IH, O.
  - rewrite ftx_id; [exact O|]. eapply rowsok_top; eauto.
Qed.

(** Transactions in progress do not share a row. *)
Lemma one_writer : forall cs attrs tx tx' l r,
  rowsok cs attrs l -> cs tx = None -> cs tx' = None -> tx <> tx' ->
  In r l -> r_tx r = tx -> forall r', In r' l -> r_tx r' <> tx'.
Proof.
  intros cs attrs tx tx' [|r0 l] r O N N' D Hi E; [contradiction|].
  assert (r_tx r0 = tx).
  { destruct (Z.eq_dec (r_tx r0) tx) as [X|X]; [exact X|].
    exfalso. exact (rowsok_top cs attrs tx r0 l O N X r Hi E). }
  apply (rowsok_top cs attrs tx' r0 l O N'). congruence.
Qed.

Definition cell2 cs hor m a i l c : Prop :=
  cellok cs hor m a i l c /\
  forall tx, cs tx = None ->
    cellok cs hor m a i (ftx tx l) (filter (fun e => negb (e_tx e =? tx)) c).

Lemma cell_no_tx : forall cs hor m a i l c tx,
  cellok cs hor m a i l c -> cs tx = None ->
  (forall r, In r l -> r_tx r <> tx) ->
  filter (fun e => negb (e_tx e =? tx)) c = c.
Proof.
  intros cs hor m a i l c tx CK N H. apply (abf_id tx (0, 0, 0)).
  intros e He E. destruct (ck_tx _ _ _ _ _ _ _ CK e He) as [[n X]|[r [X Y]]].
  - congruence.
  - apply (H r X). congruence.
Qed.

(** When the writer's own entries are removed, nothing changed. *)
Lemma abf_del : forall tx c,
  filter (fun e => negb (e_tx e =? tx)) (del_entry tx c) =
  filter (fun e => negb (e_tx e =? tx)) c.
Proof.
  intros tx [|e c]; [reflexivity|]. unfold del_entry.
  destruct (e_del e); [reflexivity|]. cbn [filter e_tx].
  rewrite Z.eqb_refl. reflexivity.
Qed.

Lemma abf_ins : forall tx w d sp c c',
  ins_entry tx w d sp c = Some c' ->
  filter (fun e => negb (e_tx e =? tx)) c' =
  filter (fun e => negb (e_tx e =? tx)) c.
Proof.
  intros tx w d sp [|e c] c' E; cbn in E.
  - inv E. cbn [filter e_tx]. rewrite Z.eqb_refl. reflexivity.
  - destruct (e_del e); cbn in E; [|discriminate].
    destruct (Z.eqb_spec (e_tx e) tx) as [Et|Et];
      [destruct (sp || needs_undo e w)|]; inv E; cbn [filter e_tx];
      rewrite ?Z.eqb_refl; cbn [negb]; reflexivity.
Qed.

Lemma abf_write : forall m tx w sp old new i c c',
  cell_write m tx w sp old new i c = Some c' ->
  filter (fun e => negb (e_tx e =? tx)) c' =
  filter (fun e => negb (e_tx e =? tx)) c.
Proof.
  intros m tx w sp old new i c c' E. unfold cell_write in E.
  destruct (keeps old new); [inv E; reflexivity|].
  destruct new as [v|]; [|inv E; apply abf_del].
  destruct (nth_error (chunks m v) (Z.to_nat i)); [|inv E; apply abf_del].
  rewrite (abf_ins _ _ _ _ _ _ E). apply abf_del.
Qed.

(** A push by [tx] keeps the second half. *)
Lemma cell2_push : forall cs attrs hor m a i tx r l c c',
  rowsok cs attrs l -> may_write cs tx l = true -> r_tx r = tx ->
  cell2 cs hor m a i l c -> cellok cs hor m a i (r :: l) c' ->
  filter (fun e => negb (e_tx e =? tx)) c' =
  filter (fun e => negb (e_tx e =? tx)) c ->
  cell2 cs hor m a i (r :: l) c'.
Proof.
  intros cs attrs hor m a i tx r l c c' O M Et [C1 C2] CK F. split; [exact CK|].
  intros tx' N'. destruct (Z.eq_dec tx' tx) as [->|D].
  - rewrite F. unfold ftx. cbn [filter]. rewrite Et, Z.eqb_refl. cbn [negb].
    apply C2. exact N'.
  - assert (X : forall r', In r' (r :: l) -> r_tx r' <> tx').
    { intros r' [<-|Hi]; [congruence|].
      destruct (may_all _ _ _ _ _ O M Hi) as [X|[n X]]; congruence. }
    rewrite ftx_id by exact X. rewrite (cell_no_tx _ _ _ _ _ _ _ _ CK N' X).
    exact CK.
Qed.

Lemma cellok_commit : forall cs nxt hor m a i tx l c,
  cs tx = None -> (forall t n, cs t = Some n -> n < nxt) ->
  cellok cs hor m a i l c -> cellok (upd cs tx (Some nxt)) hor m a i l c.
Proof.
  intros cs nxt hor m a i tx l c N B CK.
  assert (P : forall t n, cs t = Some n -> upd cs tx (Some nxt) t = Some n).
  { intros t n H. rewrite upd_other; [exact H|]. intros ->. congruence. }
  constructor.
  - apply wfc_commit; auto. apply CK.
  - destruct (ck_live _ _ _ _ _ _ _ CK) as [l1 [l2 [E [L Cut]]]].
    exists l1, l2. split; [exact E|]. split; [exact L|].
    destruct Cut as [->|[l1' [r [n [E1 [X Y]]]]]]; [auto|right].
    exists l1', r, n. split; [exact E1|]. split; [auto|exact Y].
  - apply CK.
  - apply CK.
  - intros e He. destruct (ck_tx _ _ _ _ _ _ _ CK e He) as [[n X]|X]; [left|auto].
    exists n. auto.
Qed.

Lemma rowsok_commit : forall cs nxt attrs tx l,
  cs tx = None -> (forall t n, cs t = Some n -> n < nxt) ->
  rowsok cs attrs l -> rowsok (upd cs tx (Some nxt)) attrs l.
Proof.
  intros cs nxt attrs tx l N B. induction l as [|r l IH]; [auto|].
  intros [O [Ab R]]. split; [auto|]. split; [|exact R].
  intros r' Hi. destruct (Ab r' Hi) as [A1 A2]. split; [exact A1|].
  intros E. destruct (A2 E) as [n' [X Y]]. exists n'. split.
  - rewrite upd_other; [exact X|]. intros Ex. rewrite Ex in X. congruence.
  - intros n Hn. unfold upd in Hn.
    destruct (Z.eqb_spec (r_tx r) tx) as [E'|E']; [|auto].
    inv Hn. eauto.
Qed.

Lemma cellok_horizon : forall cs hor hor' m a i l c,
  hor <= hor' -> cellok cs hor m a i l c -> cellok cs hor' m a i l c.
Proof.
  intros cs hor hor' m a i l c L CK. constructor; try apply CK.
  destruct (ck_live _ _ _ _ _ _ _ CK) as [l1 [l2 [E [Lv Cut]]]].
  exists l1, l2. split; [exact E|]. split; [exact Lv|].
  destruct Cut as [->|[l1' [r [n [E1 [X [Y Z]]]]]]]; [auto|right].
  exists l1', r, n. split; [exact E1|]. split; [auto|]. split; [lia|exact Z].
Qed.

Lemma cellok_clean : forall cs hor m a i l d c n,
  cellok cs hor m a i l (d :: c) -> e_del d = true ->
  cs (e_tx d) = Some n -> n < hor -> cellok cs hor m a i l [].
Proof.
  intros cs hor m a i l d c n CK D C L. constructor.
  - exact Logic.I.
  - destruct (ck_gone _ _ _ _ _ _ _ CK D) as [l1 [r [l2 [E [Et F]]]]].
    exists (l1 ++ [r]), l2. split; [rewrite <- app_assoc; exact E|]. split.
    + rewrite live_of_lacks by exact F. reflexivity.
    + right. exists l1, r, n. split; [reflexivity|]. split; [congruence|].
      split; [exact L|]. rewrite Forall_forall in F. apply F.
      apply in_or_app. right. left. reflexivity.
  - split; [|cbn; auto]. intros _. apply (ck_cur _ _ _ _ _ _ _ CK). exact D.
  - exact Logic.I.
  - intros e [].
Qed.

Lemma cell2_clean : forall cs hor m a i l d c n,
  cell2 cs hor m a i l (d :: c) -> e_del d = true ->
  cs (e_tx d) = Some n -> n < hor -> cell2 cs hor m a i l [].
Proof.
  intros cs hor m a i l d c n [C1 C2] D C L. split.
  - eapply cellok_clean; eauto.
  - intros tx N. specialize (C2 tx N). cbn [filter] in *.
    destruct (Z.eqb_spec (e_tx d) tx) as [E|E]; [congruence|].
    cbn [negb] in C2. eapply cellok_clean; eauto.
Qed.

Lemma filter_comm : forall A (f g : A -> bool) l,
  filter f (filter g l) = filter g (filter f l).
Proof.
  intros A f g. induction l as [|x l IH]; [reflexivity|].
  cbn [filter]. destruct (f x) eqn:F, (g x) eqn:G; cbn [filter];
    rewrite ?F, ?G, IH; reflexivity.
Qed.

Lemma filter_idem : forall A (f : A -> bool) l, filter f (filter f l) = filter f l.
Proof.
  intros A f. induction l as [|x l IH]; [reflexivity|].
  cbn [filter]. destruct (f x) eqn:F; cbn [filter]; rewrite ?F, IH; reflexivity.
Qed.

Lemma cell2_abort : forall cs attrs hor m a i l c tx,
  rowsok cs attrs l -> cs tx = None -> cell2 cs hor m a i l c ->
  cell2 cs hor m a i (ftx tx l) (filter (fun e => negb (e_tx e =? tx)) c).
Proof.
  intros cs attrs hor m a i l c tx O N [C1 C2]. split; [auto|].
  intros tx' N'. destruct (Z.eq_dec tx' tx) as [->|D].
  - unfold ftx. rewrite !filter_idem. apply C2. exact N.
  - destruct (existsb (fun r => r_tx r =? tx) l) eqn:X.
    + apply existsb_exists in X. destruct X as [r [Hi E]]. apply Z.eqb_eq in E.
      pose proof (one_writer _ _ _ _ _ _ O N N' (not_eq_sym D) Hi E) as W.
      unfold ftx. rewrite filter_comm.
      rewrite (filter_comm entry). fold (ftx tx' l). rewrite ftx_id by exact W.
      rewrite (cell_no_tx _ _ _ _ _ _ _ _ C1 N' W). apply C2. exact N.
    + assert (W : forall r, In r l -> r_tx r <> tx).
      { intros r Hi E. assert (Y : existsb (fun r => r_tx r =? tx) l = true).
        { apply existsb_exists. exists r. split; [auto|]. apply Z.eqb_eq. auto. }
        congruence. }
      rewrite (ftx_id tx l) by exact W. rewrite (cell_no_tx _ _ _ _ _ _ _ _ C1 N W).
      apply C2. exact N'.
Qed.

(** * The invariant *)

Section Inv.
Variable attrs : list Z.
Variable msize : Z -> Z -> nat.
Hypothesis ND : NoDup attrs.
Hypothesis SP : same_pieces msize.
Hypothesis MP : forall p x, (1 <= msize p x)%nat.

Record invst (s : state) : Prop := {
  iv_rows : forall p, rowsok (cs s) attrs (rows s p);
  iv_cells : forall p a i, 0 <= i ->
    cell2 (cs s) (hor s) (msize p 0) a i (rows s p) (lookup (tr s) (p, a, i));
  iv_sorted : sorted (tr s);
  iv_nonneg : nonneg (tr s);
  iv_csn : forall t n, cs s t = Some n -> n < nxt s;
  iv_ok : failed s = false
}.

Lemma inv_init : invst init.
Proof using.
  constructor; cbn.
  - intros p. exact Logic.I.
  - intros p a i Hi. unfold lookup. cbn. split.
    + constructor; cbn; try tauto.
      exists [], []. split; [reflexivity|]. split; [reflexivity|]. left. reflexivity.
    + intros tx _. cbn. constructor; cbn; try tauto.
      exists [], []. split; [reflexivity|]. split; [reflexivity|]. left. reflexivity.
  - constructor.
  - intros p a i c [].
  - intros t n H. discriminate.
  - reflexivity.
Qed.

Lemma cur_val_none : forall cs l a,
  rowsok cs attrs l -> ~ In a attrs -> cur_val l a = None.
Proof using.
  clear. intros cs [|r l] a O H; [reflexivity|]. cbn [cur_val].
  destruct (r_del r); [reflexivity|]. apply O. exact H.
Qed.

Lemma cur_nonempty : forall cs l a, rowsok cs attrs l -> cur_val l a <> Some [].
Proof using.
  clear. intros cs [|r l] a O; [discriminate|]. cbn [cur_val].
  destruct (r_del r); [discriminate|]. apply O.
Qed.

Lemma headdel_none : forall s p a j,
  invst s -> 0 <= j -> cur_val (rows s p) a = None ->
  headdel (lookup (tr s) (p, a, j)).
Proof using.
  clear. intros s p a j I Hj H. destruct (iv_cells s I p a j Hj) as [C _].
  apply (ck_cur _ _ _ _ _ _ _ C). rewrite cchunk_cur, H. reflexivity.
Qed.

Lemma inv_write : forall s tx p img vals sp,
  invst s -> invst (do_write attrs msize s tx p img vals sp).
Proof using ND SP MP.
  intros s tx p img vals sp I. unfold do_write.
  destruct (may_write (cs s) tx (rows s p)) eqn:M; [|exact I].
  set (new := fun a => if existsb (Z.eqb a) attrs then norm (vals a) else None).
  set (w := new_ver tx (rows s p)).
  destruct (write_cols_spec (msize p img) tx w p sp (cur_val (rows s p)) new
              attrs (tr s) ND (iv_sorted s I) (iv_nonneg s I)) as
    [t' [E [So' [N' [Ho Hi]]]]].
  { intros a H j Hj. apply headdel_none; auto. }
  rewrite E. rewrite (SP p img 0) in Hi.
  assert (Nn : forall a, ~ In a attrs -> new a = None).
  { intros a Ha. subst new. cbn beta.
    destruct (existsb (Z.eqb a) attrs) eqn:X; [|reflexivity].
    apply existsb_exists in X. destruct X as [x [X1 X2]]. apply Z.eqb_eq in X2.
    subst x. contradiction. }
  set (r := RV tx w false img new
              (fun a => negb (keeps (cur_val (rows s p) a) (new a)))).
  constructor; cbn [set_rows rows tr cs nxt hor failed]; try apply I; auto.
  - intros p'. unfold upd. destruct (Z.eqb_spec p' p) as [->|Np]; [|apply I].
    split; [apply I|]. split.
    { eapply rowsok_push; [apply I|exact M|reflexivity| |]; cbn [r r_del r_ver].
      - reflexivity.
      - discriminate. }
    split.
    { intros a Hn _. subst r. cbn [r_new r_val] in *.
      apply negb_false_iff in Hn. symmetry. apply keeps_eq. exact Hn. }
    split; [cbn; discriminate|]. split; [exact Nn|].
    intros a. subst r. cbn [r_val]. subst new. cbn beta.
    destruct (existsb (Z.eqb a) attrs); [|discriminate].
    destruct (vals a) as [[|x v]|]; cbn; discriminate.
  - intros p' a i Hi0. unfold upd. destruct (Z.eqb_spec p' p) as [->|Np].
    + assert (CW : cell_write (msize p 0) tx w (sp a i) (cur_val (rows s p) a)
                     (new a) i (lookup (tr s) (p, a, i)) = Some (lookup t' (p, a, i))).
      { destruct (in_dec Z.eq_dec a attrs) as [Ia|Na]; [auto|].
        rewrite Ho by auto. unfold cell_write.
        rewrite (cur_val_none (cs s) (rows s p) a (iv_rows s I p) Na), (Nn a Na).
        reflexivity. }
      pose proof (iv_cells s I p a i Hi0) as C2.
      eapply cell2_push; [apply I|exact M|reflexivity|exact C2| |].
      * eapply push_write; [apply I|exact M|apply C2|exact CW].
      * eapply abf_write. exact CW.
    + rewrite Ho by auto. apply I. exact Hi0.
Qed.

Lemma inv_delete : forall s tx p, invst s -> invst (do_delete attrs s tx p).
Proof using.
  clear. intros s tx p I. unfold do_delete.
  destruct (rows s p) as [|r0 l] eqn:Er; [exact I|].
  destruct (may_write (cs s) tx (r0 :: l) && negb (r_del r0)) eqn:G; [|exact I].
  apply andb_true_iff in G. destruct G as [M D]. apply negb_true_iff in D.
  rewrite <- Er in *.
  destruct (remove_cols_spec tx p (cur_val (rows s p)) attrs (tr s)
              (iv_sorted s I) (iv_nonneg s I)) as [S' [N' L']].
  constructor; cbn [set_rows rows tr cs nxt hor failed]; try apply I; auto.
  - intros p'. unfold upd. destruct (Z.eqb_spec p' p) as [->|Np]; [|apply I].
    split; [apply I|]. split.
    { eapply rowsok_push; [apply I|exact M|reflexivity| |]; cbn [r_del r_ver].
      - discriminate.
      - intros _. exists r0, l. auto. }
    split; [cbn; discriminate|]. split; [reflexivity|].
    split; [reflexivity|discriminate].
  - intros p' a i Hi0. unfold upd. rewrite L' by auto.
    destruct (Z.eqb_spec p' p) as [->|Np].
    + pose proof (iv_cells s I p a i Hi0) as C2.
      assert (X : (if true && existsb (Z.eqb a) attrs &&
                     match cur_val (rows s p) a with Some _ => true | None => false end
                  then del_entry tx (lookup (tr s) (p, a, i))
                  else lookup (tr s) (p, a, i)) =
                  del_entry tx (lookup (tr s) (p, a, i))).
      { cbn [andb]. destruct (cur_val (rows s p) a) eqn:Cv.
        - rewrite andb_true_r. destruct (existsb (Z.eqb a) attrs) eqn:Ex; [reflexivity|].
          exfalso. rewrite (cur_val_none (cs s)) in Cv; [discriminate|apply I|].
          intros Ha. assert (Y : existsb (Z.eqb a) attrs = true).
          { apply existsb_exists. exists a. split; [auto|apply Z.eqb_refl]. }
          congruence.
        - rewrite andb_false_r. symmetry. apply del_headdel.
          apply headdel_none; auto. }
      rewrite X. eapply cell2_push; [apply I|exact M|reflexivity|exact C2| |].
      * eapply push_gone; [apply I|exact M|apply C2|reflexivity|reflexivity].
      * apply abf_del.
    + cbn [andb]. apply I. exact Hi0.
Qed.

Lemma inv_commit : forall s tx, invst s -> invst (do_commit s tx).
Proof using.
  clear. intros s tx I. unfold do_commit. destruct (cs s tx) eqn:N; [exact I|].
  constructor; cbn [rows tr cs nxt hor failed]; try apply I; auto.
  - intros p. apply rowsok_commit; auto; apply I.
  - intros p a i Hi. destruct (iv_cells s I p a i Hi) as [C1 C2]. split.
    + apply cellok_commit; auto. apply I.
    + intros tx' N'. unfold upd in N'. destruct (Z.eqb_spec tx' tx) as [E|E]; [discriminate|].
      apply cellok_commit; auto. apply I.
  - intros t n H. unfold upd in H. destruct (Z.eqb_spec t tx) as [E|E].
    + inv H. lia.
    + apply (iv_csn s I) in H. lia.
Qed.

Lemma inv_abort : forall s tx, invst s -> invst (do_abort s tx).
Proof using.
  clear. intros s tx I. unfold do_abort. destruct (cs s tx) eqn:N; [exact I|].
  change (map (fun kc => (fst kc, filter (fun e => negb (e_tx e =? tx)) (snd kc))) (tr s))
    with (mapt (abf tx) (tr s)).
  constructor; cbn [rows tr cs nxt hor failed]; try apply I; auto.
  - intros p. apply rowsok_ftx; auto. apply I.
  - intros p a i Hi. rewrite lookup_mapt by reflexivity.
    eapply cell2_abort; [apply I|exact N|]. apply I. exact Hi.
  - apply sorted_mapt. apply I.
  - apply nonneg_mapt. apply I.
Qed.

Lemma inv_clean : forall s k, invst s -> invst (do_clean s k).
Proof using.
  clear. intros s k I. unfold do_clean.
  destruct (lookup (tr s) k) as [|d c] eqn:L; [exact I|].
  destruct (e_del d) eqn:D; [|exact I].
  destruct (cs s (e_tx d)) as [n|] eqn:C; [|exact I].
  destruct (Z.ltb_spec n (hor s)) as [H|H]; [|exact I].
  destruct k as [[p a] i].
  assert (Hi : 0 <= i).
  { apply (iv_nonneg s I p a i (d :: c)). rewrite <- L. apply lookup_some.
    rewrite L. discriminate. }
  constructor; cbn [rows tr cs nxt hor failed]; try apply I; auto.
  - intros p' a' i' Hi'. rewrite lookup_put by apply I. rewrite keqb_cell.
    destruct ((p =? p') && (a =? a') && (i =? i')) eqn:K; [|apply I; exact Hi'].
    assert (p' = p /\ a' = a /\ i' = i) as [-> [-> ->]] by lia.
    eapply cell2_clean; eauto. rewrite <- L. apply I. exact Hi.
  - apply sorted_put. apply I.
  - apply nonneg_put; [apply I|exact Hi].
Qed.

Lemma inv_step : forall s o, invst s -> invst (step attrs msize s o).
Proof using ND SP MP.
  intros s [tx p img vals sp|tx p|tx|tx|h|k] I; cbn [step].
  - apply inv_write; auto.
  - apply inv_delete; auto.
  - apply inv_commit; auto.
  - apply inv_abort; auto.
  - constructor; cbn [rows tr cs nxt hor failed]; try apply I.
    intros p a i Hi. destruct (iv_cells s I p a i Hi) as [C1 C2].
    split; [|intros tx N]; (apply (cellok_horizon _ (hor s)); [lia|auto]).
  - apply inv_clean; auto.
Qed.

Lemma inv_run : forall ops, invst (run (step attrs msize) init ops).
Proof using ND SP MP.
  intros. apply run_inv; [exact inv_step|exact inv_init].
Qed.

(** * Reading *)

Lemma read_chunks : forall s rd p r a v,
  invst s -> in_use (hor s) rd -> holds (cs s) rd (rows s p) r ->
  r_val r a = Some v ->
  forall j d, nth_error (chunks (msize p 0) v) j = Some d ->
    option_map e_data (seen (cs s) rd (lookup (tr s) (p, a, Z.of_nat j))) = Some d.
Proof using.
  clear. intros s rd p r a v I U H V j d N.
  eapply (reader_chunk (cs s) attrs (hor s) (msize p 0) a (Z.of_nat j) (rows s p)
           _ rd r d);
    [apply I|apply (iv_cells s I); lia|exact U|exact H|].
  unfold rchunk. destruct H as [-> _]. rewrite V, Nat2Z.id. exact N.
Qed.

(** What the iteration of the read returns: the pieces of the value, then
    whatever is left behind them. *)
Lemma iterate_eq : forall s rd p r a v,
  invst s -> in_use (hor s) rd -> holds (cs s) rd (rows s p) r ->
  r_val r a = Some v ->
  exists rest, iterate (cs s) rd (p, a, 0) (tr s) =
    chunks (msize p 0) v ++ map snd rest /\
    (forall i d, In (i, d) rest <->
       Z.of_nat (length (chunks (msize p 0) v)) <= i /\
       option_map e_data (seen (cs s) rd (lookup (tr s) (p, a, i))) = Some d).
Proof using.
  clear. intros s rd p r a v I U H V.
  pose proof (read_chunks s rd p r a v I U H V) as RC.
  destruct (vis_shows (fun c => option_map e_data (seen (cs s) rd c)) p a (tr s)
              (iv_sorted s I) (iv_nonneg s I) eq_refl) as [So Hin].
  rewrite iterate_vis.
  destruct (shows_prefix (chunks (msize p 0) v) 0 _ So) as [rest [E R]].
  - intros i d Hi. apply Hin in Hi. apply Hi.
  - intros j d Hj d'. rewrite Hin. rewrite Z.add_0_l, (RC j d Hj).
    split; [intros [_ X]; congruence|]. intros ->. split; [lia|reflexivity].
  - exists rest. split; [exact E|]. intros i d. rewrite R, Hin.
    rewrite Z.add_0_l. split; [tauto|]. intros [L X]. split; [split; [lia|exact X]|exact L].
Qed.

End Inv.

(** * Updates of the system trees *)

Lemma upd_loop_spec : forall ds tx w p a i t,
  sorted t -> nonneg t -> 0 <= i ->
  sorted (upd_loop tx w p a i ds t) /\ nonneg (upd_loop tx w p a i ds t) /\
  (forall p' a' j, 0 <= j -> (p' <> p \/ a' <> a) ->
     lookup (upd_loop tx w p a i ds t) (p', a', j) = lookup t (p', a', j)) /\
  (forall j, 0 <= j < i ->
     lookup (upd_loop tx w p a i ds t) (p, a, j) = lookup t (p, a, j)) /\
  (forall j, i <= j ->
     cur (lookup (upd_loop tx w p a i ds t) (p, a, j)) = nth_error ds (Z.to_nat (j - i))).
Proof.
  induction ds as [|d ds IH]; intros tx w p a i t So N Hi; cbn [upd_loop].
  - rewrite del_chunks_mapt. split; [apply sorted_mapt; auto|].
    split; [apply nonneg_mapt; auto|].
    assert (R : forall p' a' j, 0 <= j ->
      in_range (p, a, i) (p', a', j) = (p' =? p) && (a' =? a) && (i <=? j)).
    { intros p' a' j Hj. destruct (in_range (p, a, i) (p', a', j)) eqn:R.
      - apply in_range_spec in R. destruct R as [j0 [[E L]|[j' [E L]]]]; inv E; lia.
      - symmetry. apply not_true_is_false. intros H.
        assert (p' = p /\ a' = a /\ i <= j) as [-> [-> L]] by lia.
        assert (X : in_range (p, a, i) (p, a, j) = true).
        { apply in_range_spec. exists j. left. auto. }
        congruence. }
    split; [|split].
    + intros p' a' j Hj H. rewrite lookup_mapt by apply delf_nil. unfold delf.
      rewrite R by auto. destruct ((p' =? p) && (a' =? a) && (i <=? j)) eqn:K; [lia|reflexivity].
    + intros j Hj. rewrite lookup_mapt by apply delf_nil. unfold delf.
      rewrite R by lia. destruct ((p =? p) && (a =? a) && (i <=? j)) eqn:K; [lia|reflexivity].
    + intros j Hj. rewrite lookup_mapt by apply delf_nil. unfold delf.
      rewrite R by lia. destruct ((p =? p) && (a =? a) && (i <=? j)) eqn:K; [|lia].
      replace (nth_error (@nil bytes) (Z.to_nat (j - i))) with (@None bytes)
        by (destruct (Z.to_nat (j - i)); reflexivity).
      apply cur_none, headdel_del.
  - set (t1 := put t (p, a, i) (Ent tx w false d :: lookup t (p, a, i))).
    assert (L1 : forall p' a' j, lookup t1 (p', a', j) =
              if (p =? p') && (a =? a') && (i =? j)
              then Ent tx w false d :: lookup t (p, a, i) else lookup t (p', a', j)).
    { intros. subst t1. rewrite lookup_put by auto. rewrite keqb_cell. reflexivity. }
    destruct (IH tx w p a (i + 1) t1) as [S' [N' [Ho [Hb Ha]]]].
    + apply sorted_put; auto.
    + apply nonneg_put; auto.
    + lia.
    + split; [exact S'|]. split; [exact N'|]. split; [|split].
      * intros p' a' j Hj H. rewrite Ho by auto. rewrite L1.
        destruct ((p =? p') && (a =? a') && (i =? j)) eqn:K; [lia|reflexivity].
      * intros j Hj. rewrite Hb by lia. rewrite L1.
        destruct ((p =? p) && (a =? a) && (i =? j)) eqn:K; [lia|reflexivity].
      * intros j Hj. destruct (Z.eq_dec j i) as [->|Nj].
        -- rewrite Hb by lia. rewrite L1, !Z.eqb_refl.
           replace (Z.to_nat (i - i)) with 0%nat by lia. reflexivity.
        -- rewrite Ha by lia.
           replace (Z.to_nat (j - i)) with (Datatypes.S (Z.to_nat (j - (i + 1)))) by lia.
           reflexivity.
Qed.

(** When the live chunks are exactly the pieces, they make up the value. *)
Lemma get_any_exact : forall m p a t v,
  (1 <= m)%nat -> sorted t -> nonneg t ->
  (forall j, 0 <= j -> cur (lookup t (p, a, j)) = nth_error (chunks m v) (Z.to_nat j)) ->
  get_any (p, a, 0) t = v.
Proof.
  intros m p a t v Hm So N H. rewrite get_any_vis.
  destruct (vis_shows cur p a t So N eq_refl) as [Ss Hin].
  destruct (shows_prefix (chunks m v) 0 _ Ss) as [rest [E R]].
  - intros i d Hi. apply Hin in Hi. apply Hi.
  - intros j d Hj d'. rewrite Hin, Z.add_0_l, H, Nat2Z.id, Hj by lia.
    split; [intros [_ X]; congruence|]. intros ->. split; [lia|reflexivity].
  - assert (rest = []).
    { destruct rest as [|[i d] rest]; [reflexivity|].
      assert (Hi : In (i, d) ((i, d) :: rest)) by (left; reflexivity).
      apply R in Hi. destruct Hi as [Hi L]. apply Hin in Hi. destruct Hi as [Li X].
      rewrite H in X by auto. assert (Y : nth_error (chunks m v) (Z.to_nat i) <> None) by congruence.
      apply nth_error_Some in Y. lia. }
    subst rest. rewrite E. cbn [map]. rewrite app_nil_r. apply chunks_concat. exact Hm.
Qed.
