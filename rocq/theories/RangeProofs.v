From Coq Require Import ZArith List Bool Lia ZifyBool Arith.
From Verif Require Import Base KeySpec KeyModel KeyProofs RangeSpec RangeModel.
Import ListNotations.
Open Scope Z_scope.

(* ---- bounds as cuts of the column ---- *)
Definition cutt : Type := Z * Z * Z.
Definition clt (a b : cutt) : Prop :=
  let '(a1, a2, a3) := a in let '(b1, b2, b3) := b in
  a1 < b1 \/ (a1 = b1 /\ (a2 < b2 \/ (a2 = b2 /\ a3 < b3))).
Definition cut (f : fld) (b : vbound) : cutt :=
  if b_unb b then ((if b_lower b then -2 else 2), 0, 0)
  else let '(c, v) := place f (if b_null b then None else Some (b_value b)) in (c, v, cmp_inclusive b).
Definition pt (f : fld) (x : val) : cutt := let '(c, v) := place f x in (c, v, 0).
Definition lo f b x := clt (cut f b) (pt f x).
Definition hi f b x := clt (pt f x) (cut f b).

Lemma clt_trans a b c : clt a b -> clt b c -> clt a c.
Proof. destruct a as [[? ?] ?], b as [[? ?] ?], c as [[? ?] ?]. cbn. lia. Qed.
Lemma clt_ntrans a b c : ~ clt b a -> clt b c -> clt a c.
Proof. destruct a as [[? ?] ?], b as [[? ?] ?], c as [[? ?] ?]. cbn. lia. Qed.
Lemma clt_ntrans2 a b c : clt a b -> ~ clt c b -> clt a c.
Proof. destruct a as [[? ?] ?], b as [[? ?] ?], c as [[? ?] ?]. cbn. lia. Qed.
Lemma clt_dec a b : clt a b \/ ~ clt a b.
Proof. destruct a as [[? ?] ?], b as [[? ?] ?]. cbn. lia. Qed.

Definition dir (b : vbound) := b_lower b = negb (b_upper b).
Ltac bounds b := let v := fresh "v" in let ty := fresh "ty" in let nu := fresh "nu" in let un := fresh "un" in
  let l := fresh "l" in let u := fresh "u" in let ic := fresh "ic" in destruct b as [v ty nu un l u ic].

Lemma cmp_bounds_spec f b1 b2 : dir b1 -> dir b2 ->
  (fst (o_idx_cmp_value_bounds b1 b2 f) < 0 <-> clt (cut f b1) (cut f b2)) /\
  (fst (o_idx_cmp_value_bounds b1 b2 f) > 0 <-> clt (cut f b2) (cut f b1)).
Proof.
  unfold dir. bounds b1. bounds b2. cbn. intros -> ->.
  unfold o_idx_cmp_value_bounds, cut, cmp_inclusive2, cmp_inclusive, place. cbn.
  destruct f as [as_ nf]. cbn.
  destruct (occ v v0) as [[E H]|[[E H]|[E H]]];
  destruct nu, nu0, un, un0; cbn; rewrite ?E; destruct u, u0, as_, nf, ic, ic0; cbn; lia.
Qed.

(* ---- one column ---- *)
Definition shl (b : vbound) := b_lower b = true /\ b_upper b = false.
Definition shh (b : vbound) := b_lower b = false /\ b_upper b = true.
Definition isval (b : vbound) := b_unb b = false /\ b_null b = false.
Record colinv (f : fld) (low high : vbound) (D : val -> Prop) : Prop := {
  ci_l : shl low; ci_h : shh high;
  ci_d : forall x, lo f low x /\ hi f high x <-> D x;
  ci_n : isval low \/ isval high -> forall x, D x -> x <> None }.

Lemma shl_dir b : shl b -> dir b. Proof. intros [A B]; unfold dir; rewrite A, B; auto. Qed.
Lemma shh_dir b : shh b -> dir b. Proof. intros [A B]; unfold dir; rewrite A, B; auto. Qed.

Definition mlow f l1 l2 := if fst (o_idx_cmp_value_bounds l1 l2 f) >=? 0 then l1 else l2.
Definition mhigh f h1 h2 := if fst (o_idx_cmp_value_bounds h1 h2 f) <=? 0 then h1 else h2.

Lemma mlow_ok f l1 l2 x : shl l1 -> shl l2 -> lo f (mlow f l1 l2) x <-> lo f l1 x /\ lo f l2 x.
Proof.
  intros S1 S2. pose proof (cmp_bounds_spec f l1 l2 (shl_dir _ S1) (shl_dir _ S2)) as [C1 C2].
  unfold mlow, lo. destruct (_ >=? 0) eqn:E.
  - split; [|tauto]. intros H. split; auto. eapply clt_ntrans; [|exact H]. rewrite <- C1. lia.
  - split; [|tauto]. intros H. split; auto. eapply clt_trans; [|exact H]. apply C1. lia.
Qed.
Lemma mhigh_ok f h1 h2 x : shh h1 -> shh h2 -> hi f (mhigh f h1 h2) x <-> hi f h1 x /\ hi f h2 x.
Proof.
  intros S1 S2. pose proof (cmp_bounds_spec f h1 h2 (shh_dir _ S1) (shh_dir _ S2)) as [C1 C2].
  unfold mhigh, hi. destruct (_ <=? 0) eqn:E.
  - split; [|tauto]. intros H. split; auto. eapply clt_ntrans2; [exact H|]. rewrite <- C2. lia.
  - split; [|tauto]. intros H. split; auto. eapply clt_trans; [exact H|]. apply C2. lia.
Qed.
Lemma colinv_merge f l1 h1 D1 l2 h2 D2 : colinv f l1 h1 D1 -> colinv f l2 h2 D2 ->
  colinv f (mlow f l1 l2) (mhigh f h1 h2) (fun x => D2 x /\ D1 x).
Proof.
  intros [A1 A2 A3 A4] [B1 B2 B3 B4]. constructor.
  - unfold mlow; destruct (_ >=? 0); auto.
  - unfold mhigh; destruct (_ <=? 0); auto.
  - intros x. rewrite mlow_ok, mhigh_ok, <- A3, <- B3 by auto. tauto.
  - intros V x [H2 H1].
    assert (isval l1 \/ isval h1 \/ isval l2 \/ isval h2) as Q.
    { unfold mlow, mhigh in V. destruct (_ >=? 0), (_ <=? 0); tauto. }
    destruct Q as [Q|[Q|[Q|Q]]]; [apply A4|apply A4|apply B4|apply B4]; auto.
Qed.

(* ---- the bounds made from one condition ---- *)
Definition fle (f : fld) (a b : Z) : Prop := if asc f then a <= b else a >= b.
Definition hull (p : nat) (cur : nat -> nat) (i : nat) (f : fld) (c : cond) (x : val) : Prop :=
  match c with
  | CCmp _ op v => exists z, x = Some z /\ holds op z v
  | CNull _ => x = None
  | CNotNull _ => x <> None
  | CIn a vs => if Nat.ltb i p then x = Some (nth (cur a) vs 0)
                else exists z, x = Some z /\ fle f (hd 0 vs) z /\ fle f z (last vs 0)
  | CRow _ _ _ => True
  end.
Definition is_arr (c : cond) : bool := match c with CIn _ _ => true | _ => false end.
Definition att (fs : list fld) (c : cond) := sk_att (prep fs c).
Definition colf (fs : list fld) (a : nat) := nth a fs dfl.

(* low' and high' of a condition that is not a row comparison *)
Definition clow (fs : list fld) (p : nat) (cur : nat -> nat) (i : nat) (c : cond) : vbound :=
  let k := prep fs c in
  let '(low, _, setLow, _) := by_strategy (colf fs (sk_att k)) k in
  o_fill setLow (match sk_arg k with AVal v => v | AArray vs => if Nat.ltb i p then nth (cur (sk_att k)) vs 0 else hd 0 vs | _ => 0 end) low.
Definition chigh (fs : list fld) (p : nat) (cur : nat -> nat) (i : nat) (c : cond) : vbound :=
  let k := prep fs c in
  let '(_, high, _, setHigh) := by_strategy (colf fs (sk_att k)) k in
  o_fill setHigh (match sk_arg k with AVal v => v | AArray vs => if Nat.ltb i p then nth (cur (sk_att k)) vs 0 else last vs 0 | _ => 0 end) high.

Ltac colcase := split; [intros [? ?]|intros ?]; try lia.

Lemma cond_bounds fs p cur i c : is_row c = false ->
  colinv (colf fs (att fs c)) (clow fs p cur i c) (chigh fs p cur i c) (hull p cur i (colf fs (att fs c)) c).
Proof.
  intros NR. unfold att, clow, chigh.
  destruct c as [a op v|a|a|a vs|]; try discriminate; cbn [prep sk_att sk_arg]; set (f := colf fs a); change (nth a fs dfl) with f;
    unfold by_strategy; cbn [sk_strategy sk_arg].
  - unfold fixs. destruct f as [as_ nf]. cbn [asc nullfirst].
    destruct as_, nf, op; cbn; (constructor; [split; reflexivity|split; reflexivity| |]);
    try (intros [[? ?]|[? ?]]; cbn in *; try discriminate; intros x (z & -> & _); discriminate);
    (intros [x|]; unfold lo, hi, cut, pt, place, cmp_inclusive, hull; cbn;
     [split; [intros H; exists x; split; [reflexivity|cbn; lia]|intros (z & E & H); injection E as <-; cbn in H; lia]
     |split; [intros H; exfalso; lia|intros (z & E & _); discriminate]]).
  - destruct f as [as_ nf]. constructor; cbn; [split; reflexivity|split; reflexivity| |].
    + intros [x|]; unfold lo, hi, cut, pt, place, cmp_inclusive; cbn; destruct nf; cbn; (split; [intros; try discriminate; try reflexivity; lia|intros H; try discriminate; lia]).
    + intros [[_ E]|[_ E]]; discriminate.
  - destruct f as [as_ nf]. destruct nf; cbn; (constructor; [split; reflexivity|split; reflexivity| |]).
    1,3: intros [x|]; unfold lo, hi, cut, pt, place, cmp_inclusive; cbn; (split; [intros; try discriminate; lia|intros H; try congruence; lia]).
    all: intros [[? ?]|[? ?]]; cbn in *; discriminate.
  - destruct f as [as_ nf]. unfold hull, fle. destruct (Nat.ltb i p); generalize (hd 0 vs) (last vs 0) (nth (cur a) vs 0); intros h0 l0 n0.
   all:
    constructor; cbn; [split; reflexivity|split; reflexivity| |].
    + intros [x|]; unfold lo, hi, cut, pt, place, cmp_inclusive; cbn.
      * destruct as_; cbn; (split; [intros; f_equal; lia|intros H; injection H as H; lia]).
      * destruct nf; cbn; (split; [lia|discriminate]).
    + intros _ x H. congruence.
    + intros [x|]; unfold lo, hi, cut, pt, place, cmp_inclusive; cbn.
      * destruct as_; cbn; (split; [intros; exists x; split; [reflexivity|lia]|intros (z & E & H); injection E as <-; lia]).
      * destruct nf; cbn; (split; [lia|intros (z & E & _); discriminate]).
    + intros _ x (z & -> & _). discriminate.
Qed.

Lemma key_step_plain fs p cur r i c : is_row c = false -> is_arr c = false ->
  let a := att fs c in
  key_step fs p cur r i (prep fs c) =
  mkR (if fst (o_idx_cmp_value_bounds (clow fs p cur i c) (r_low r a) (colf fs a)) >=? 0 then updn (r_low r) a (clow fs p cur i c) else r_low r)
      (if fst (o_idx_cmp_value_bounds (chigh fs p cur i c) (r_high r a) (colf fs a)) <=? 0 then updn (r_high r) a (chigh fs p cur i c) else r_high r)
      (r_lrows r) (r_hrows r).
Proof.
  intros R A. cbn zeta. unfold key_step, clow, chigh, att, colf. destruct (by_strategy _ _) as [[[l h] sl] sh].
  destruct c; try discriminate; reflexivity.
Qed.
Lemma key_step_arr fs p cur r i c : is_arr c = true ->
  let a := att fs c in
  r_low r a = minus_inf -> r_high r a = plus_inf ->
  key_step fs p cur r i (prep fs c) = mkR (updn (r_low r) a (clow fs p cur i c)) (updn (r_high r) a (chigh fs p cur i c)) (r_lrows r) (r_hrows r).
Proof.
  intros A. cbn zeta. destruct c; try discriminate. unfold att. cbn [prep sk_att]. intros E1 E2.
  unfold key_step, clow, chigh. cbn [prep sk_att sk_arg]. unfold o_key_range_is_unbounded. rewrite E1, E2. cbn. reflexivity.
Qed.
Lemma key_step_row fs p cur r i c : is_row c = true ->
  r_low (key_step fs p cur r i (prep fs c)) = r_low r /\ r_high (key_step fs p cur r i (prep fs c)) = r_high r.
Proof.
  intros A. destruct c; try discriminate. unfold key_step. cbn [prep sk_arg sk_att].
  destruct (by_strategy _ _) as [[[l h] sl] sh]. auto.
Qed.
Lemma key_step_other fs p cur r i c a : is_row c = true \/ att fs c <> a ->
  r_low (key_step fs p cur r i (prep fs c)) a = r_low r a /\ r_high (key_step fs p cur r i (prep fs c)) a = r_high r a.
Proof.
  intros [H|H]; [destruct (key_step_row fs p cur r i c H) as [-> ->]; auto|].
  destruct (is_row c) eqn:R; [destruct (key_step_row fs p cur r i c R) as [-> ->]; auto|].
  assert (U : forall (g : nat -> vbound) b, updn g (att fs c) b a = g a).
  { intros g b. unfold updn. destruct (Nat.eqb_spec a (att fs c)); congruence. }
  destruct (is_arr c) eqn:A.
  - destruct c; try discriminate. unfold att in *. unfold key_step. cbn [prep sk_att sk_arg] in *.
    destruct (by_strategy _ _) as [[[l h] sl] sh]. destruct (o_key_range_is_unbounded r col); [|auto].
    destruct sl, sh; cbn; rewrite ?U; auto.
  - rewrite key_step_plain by auto. cbn zeta. cbn [r_low r_high].
    destruct (_ >=? 0), (_ <=? 0); rewrite ?U; auto.
Qed.

(* Conditions that leave no room for others on their column: equalities and
   lists (PostgreSQL drops or merges the others). *)
Definition lone (c : cond) : bool := match c with CCmp _ OEq _ => true | CIn _ _ => true | _ => false end.
Definition apart (fs : list fld) (c d : cond) : Prop :=
  lone c = true \/ lone d = true -> is_row c = false -> is_row d = false -> att fs c <> att fs d.

Lemma untouched fs p cur cs : forall i r a,
  (forall c, In c cs -> is_row c = true \/ att fs c <> a) ->
  r_low (keys_loop fs p cur i (map (prep fs) cs) r) a = r_low r a /\
  r_high (keys_loop fs p cur i (map (prep fs) cs) r) a = r_high r a.
Proof.
  induction cs as [|c cs IH]; intros i r a H; cbn; auto.
  destruct (IH (Datatypes.S i) (key_step fs p cur r i (prep fs c)) a ltac:(intros; apply H; right; auto)) as [-> ->].
  apply key_step_other. apply H. left; auto.
Qed.

Definition allhull fs p cur i cs a x : Prop :=
  forall j c, nth_error cs j = Some c -> is_row c = false -> att fs c = a -> hull p cur (i + j) (colf fs a) c x.

Lemma allhull_cons fs p cur i c cs a x :
  allhull fs p cur i (c :: cs) a x <->
  (is_row c = false -> att fs c = a -> hull p cur i (colf fs a) c x) /\ allhull fs p cur (Datatypes.S i) cs a x.
Proof.
  unfold allhull. split.
  - intros H. split; [intros; specialize (H 0%nat c eq_refl); rewrite Nat.add_0_r in H; auto|].
    intros j d E. specialize (H (Datatypes.S j) d E). rewrite Nat.add_succ_r in H. auto.
  - intros [H1 H2] [|j] d E; cbn in E.
    + injection E as <-. rewrite Nat.add_0_r. auto.
    + specialize (H2 j d E). rewrite Nat.add_succ_r. auto.
Qed.

Lemma colinv_ext f l h D D' : colinv f l h D -> (forall x, D x <-> D' x) -> colinv f l h D'.
Proof.
  intros [A B C E] H. constructor; auto.
  - intros x. rewrite <- H. auto.
  - intros V x HD. apply E; auto. apply H; auto.
Qed.

Lemma keys_loop_inv fs p cur cs : forall i r D,
  (forall a, colinv (colf fs a) (r_low r a) (r_high r a) (D a)) ->
  ForallOrdPairs (apart fs) cs ->
  (forall c, In c cs -> is_arr c = true -> r_low r (att fs c) = minus_inf /\ r_high r (att fs c) = plus_inf) ->
  forall a, let r' := keys_loop fs p cur i (map (prep fs) cs) r in
  colinv (colf fs a) (r_low r' a) (r_high r' a) (fun x => D a x /\ allhull fs p cur i cs a x).
Proof.
  induction cs as [|c cs IH]; intros i r D CI AP AR a; cbn zeta.
  - cbn. eapply colinv_ext; [apply CI|]. intros x. split; [|tauto]. intros H. split; auto. intros j c E. destruct j; discriminate.
  - cbn [map keys_loop]. inversion AP as [|? ? AP1 AP2]; subst. rewrite Forall_forall in AP1.
    set (r1 := key_step fs p cur r i (prep fs c)).
    set (D1 := fun b x => D b x /\ (is_row c = false -> att fs c = b -> hull p cur i (colf fs b) c x)).
    assert (CI1 : forall b, colinv (colf fs b) (r_low r1 b) (r_high r1 b) (D1 b)).
    { intros b. unfold r1, D1. destruct (is_row c) eqn:R.
      { destruct (key_step_row fs p cur r i c R) as [-> ->]. eapply colinv_ext; [apply CI|]. intros x. split; [|tauto]. intros; split; auto. congruence. }
      destruct (Nat.eq_dec (att fs c) b) as [<-|N].
      2:{ destruct (key_step_other fs p cur r i c b) as [-> ->]; [auto|]. eapply colinv_ext; [apply CI|]. intros x. split; [|tauto]. intros; split; auto. congruence. }
      pose proof (cond_bounds fs p cur i c R) as CB.
      destruct (is_arr c) eqn:A.
      - destruct (AR c (or_introl eq_refl) A) as [E1 E2].
        rewrite key_step_arr by auto. cbn [r_low r_high]. unfold updn. rewrite Nat.eqb_refl.
        eapply colinv_ext; [exact CB|]. intros x. split; [|intros [_ H]; auto].
        intros H. split; [|auto]. pose proof (ci_d _ _ _ _ (CI (att fs c)) x) as G. rewrite E1, E2 in G. apply G.
        unfold lo, hi, cut, pt, place; cbn. destruct x; cbn; [lia|destruct (nullfirst _); lia].
      - rewrite key_step_plain by auto. cbn [r_low r_high].
        eapply colinv_ext.
        + replace ((if _ >=? 0 then updn (r_low r) _ _ else r_low r) (att fs c))
             with (mlow (colf fs (att fs c)) (clow fs p cur i c) (r_low r (att fs c))).
          2:{ unfold mlow. destruct (_ >=? 0); auto. unfold updn. rewrite Nat.eqb_refl. auto. }
          replace ((if _ <=? 0 then updn (r_high r) _ _ else r_high r) (att fs c))
             with (mhigh (colf fs (att fs c)) (chigh fs p cur i c) (r_high r (att fs c))).
          2:{ unfold mhigh. destruct (_ <=? 0); auto. unfold updn. rewrite Nat.eqb_refl. auto. }
          eapply colinv_merge; [exact CB|apply CI].
        + intros x. cbn. tauto. }
    assert (AR1 : forall d, In d cs -> is_arr d = true -> r_low r1 (att fs d) = minus_inf /\ r_high r1 (att fs d) = plus_inf).
    { intros d Hd A. destruct (AR d (or_intror Hd) A) as [<- <-]. unfold r1. apply key_step_other.
      destruct (is_row c) eqn:R; auto. right. apply (AP1 d Hd); auto.
      - right. destruct d; try discriminate; reflexivity.
      - destruct d; try discriminate; reflexivity. }
    specialize (IH (Datatypes.S i) r1 D1 CI1 AP2 AR1 a). cbn zeta in IH.
    eapply colinv_ext; [exact IH|]. intros x. unfold D1. rewrite allhull_cons. tauto.
Qed.

Lemma init_inv f : colinv f minus_inf plus_inf (fun _ => True).
Proof.
  constructor; [split; reflexivity|split; reflexivity| |intros [[E _]|[E _]]; discriminate].
  intros x. unfold lo, hi, cut, pt, place; cbn. destruct x; cbn; [lia|destruct (nullfirst f); lia].
Qed.

Lemma range_inv fs p cur cs : ForallOrdPairs (apart fs) cs -> forall a,
  let r := keys_loop fs p cur 0 (map (prep fs) cs) r_init in
  colinv (colf fs a) (r_low r a) (r_high r a) (allhull fs p cur 0 cs a).
Proof.
  intros AP a. cbn zeta.
  pose proof (keys_loop_inv fs p cur cs 0 r_init (fun _ _ => True) ltac:(intros; apply init_inv) AP ltac:(auto) a) as H.
  cbn zeta in H. eapply colinv_ext; [exact H|]. intros; tauto.
Qed.

(* ---- the tree bounds and the columns ---- *)
Lemma lo_plain f b x : shl b -> lo f b x <->
  match plain b with CNone => True | CVal incl v => plt (place f v) (place f x) \/ (place f v = place f x /\ incl = true) end.
Proof.
  intros [S1 S2]. unfold lo, cut, pt, plain. destruct (b_unb b).
  - rewrite S1. destruct x; cbn; [|destruct (nullfirst f)]; lia.
  - unfold cmp_inclusive. rewrite S1. destruct (place f (if b_null b then _ else _)) as [c v], (place f x) as [c' v'].
    unfold plt; cbn. destruct (b_incl b); cbn.
    + split; [|intros [H|[H _]]; [|injection H as -> ->]; lia].
      intros H. destruct (Z.eq_dec c c') as [->|]; [destruct (Z.eq_dec v v') as [->|]|]; [right; auto|left; lia|left; lia].
    + split; [intros; left; lia|]. intros [H|[_ H]]; [lia|discriminate].
Qed.
Lemma hi_plain f b x : shh b -> hi f b x <->
  match plain b with CNone => True | CVal incl v => plt (place f x) (place f v) \/ (place f v = place f x /\ incl = true) end.
Proof.
  intros [S1 S2]. unfold hi, cut, pt, plain. destruct (b_unb b).
  - rewrite S1. destruct x; cbn; [|destruct (nullfirst f)]; lia.
  - unfold cmp_inclusive. rewrite S1, S2. destruct (place f (if b_null b then _ else _)) as [c v], (place f x) as [c' v'].
    unfold plt; cbn. destruct (b_incl b); cbn.
    + split; [|intros [H|[H _]]; [|injection H as -> ->]; lia].
      intros H. destruct (Z.eq_dec c c') as [->|]; [destruct (Z.eq_dec v v') as [->|]|]; [right; auto|left; lia|left; lia].
    + split; [intros; left; lia|]. intros [H|[_ H]]; [lia|discriminate].
Qed.

(* columns satisfied one by one are within the tree bounds *)
Lemma cols_above fs : forall (g : nat -> vbound) k t, (forall j, shl (g j)) -> length t = length fs ->
  (forall j, (j < length fs)%nat -> lo (nth j fs dfl) (g (k + j)%nat) (column t j)) ->
  above fs (map plain (map g (seq k (length fs)))) t.
Proof.
  induction fs as [|f fs IH]; intros g k [|x t] SH L H; cbn in L; try discriminate; cbn [length seq map above]; auto.
  pose proof (H 0%nat ltac:(cbn; lia)) as H0. cbn [nth column] in H0. rewrite Nat.add_0_r in H0. apply lo_plain in H0; auto.
  destruct (plain (g k)) as [|incl v]; auto.
  destruct H0 as [H0|[H0 HI]]; [left; auto|right]. split; [auto|]. split; [auto|].
  apply IH; auto. intros j Hj. specialize (H (Datatypes.S j) ltac:(cbn; lia)). cbn [nth] in H.
  replace (Datatypes.S k + j)%nat with (k + Datatypes.S j)%nat by lia. exact H.
Qed.
Lemma cols_below fs : forall (g : nat -> vbound) k t, (forall j, shh (g j)) -> length t = length fs ->
  (forall j, (j < length fs)%nat -> hi (nth j fs dfl) (g (k + j)%nat) (column t j)) ->
  below fs (map plain (map g (seq k (length fs)))) t.
Proof.
  induction fs as [|f fs IH]; intros g k [|x t] SH L H; cbn in L; try discriminate; cbn [length seq map below]; auto.
  pose proof (H 0%nat ltac:(cbn; lia)) as H0. cbn [nth column] in H0. rewrite Nat.add_0_r in H0. apply hi_plain in H0; auto.
  destruct (plain (g k)) as [|incl v]; auto.
  destruct H0 as [H0|[H0 HI]]; [left; auto|right]. split; [auto|]. split; [auto|].
  apply IH; auto. intros j Hj. specialize (H (Datatypes.S j) ltac:(cbn; lia)). cbn [nth] in H.
  replace (Datatypes.S k + j)%nat with (k + Datatypes.S j)%nat by lia. exact H.
Qed.

(* conversely, up to the first column that is not pinned *)
Definition eqlow (v : Z) : vbound := mkB v 0 false false true false true.
Definition eqhigh (v : Z) : vbound := mkB v 0 false false false true true.
Lemma pinned_cols fs : forall (g h : nat -> vbound) k p t, (forall j, shl (g j)) -> (forall j, shh (h j)) -> length t = length fs ->
  (forall j, (j < p)%nat -> exists v, plain (g (k + j)%nat) = CVal true v /\ plain (h (k + j)%nat) = CVal true v) ->
  above fs (map plain (map g (seq k (length fs)))) t -> below fs (map plain (map h (seq k (length fs)))) t ->
  forall j, (j <= p)%nat -> (j < length fs)%nat -> lo (nth j fs dfl) (g (k + j)%nat) (column t j) /\ hi (nth j fs dfl) (h (k + j)%nat) (column t j).
Proof.
  induction fs as [|f fs IH]; intros g h k p [|x t] SG SH L P A B j J1 J2; cbn in L, J2; try discriminate; try lia.
  cbn [length seq map above below] in A, B.
  assert (lo f (g k) x /\ hi f (h k) x) as [L0 H0].
  { split.
    - apply lo_plain; auto. destruct (plain (g k)); auto. destruct A as [A|(A1 & A2 & _)]; auto.
    - apply hi_plain; auto. destruct (plain (h k)); auto. destruct B as [B|(B1 & B2 & _)]; auto. }
  destruct j as [|j]; [cbn; rewrite Nat.add_0_r; auto|].
  destruct p as [|p]; [lia|].
  destruct (P 0%nat ltac:(lia)) as (v & E1 & E2). rewrite Nat.add_0_r in E1, E2.
  assert (above fs (map plain (map g (seq (Datatypes.S k) (length fs)))) t /\ below fs (map plain (map h (seq (Datatypes.S k) (length fs)))) t) as [A' B'].
  { rewrite E1 in A. rewrite E2 in B.
    destruct A as [A|(A1 & A2 & A3)], B as [B|(B1 & B2 & B3)]; auto; exfalso.
    - apply (plt_irrefl (place f x)). eapply plt_trans; eauto.
    - rewrite B1 in A. apply (plt_irrefl _ A).
    - rewrite A1 in B. apply (plt_irrefl _ B). }
  pose proof (IH g h (Datatypes.S k) p t SG SH ltac:(lia)) as G.
  specialize (G ltac:(intros i Hi; destruct (P (Datatypes.S i) ltac:(lia)) as (w & W); exists w; replace (Datatypes.S k + i)%nat with (k + Datatypes.S i)%nat by lia; exact W) A' B' j ltac:(lia) ltac:(lia)).
  cbn [nth]. replace (k + Datatypes.S j)%nat with (Datatypes.S k + j)%nat by lia. exact G.
Qed.

(* ---- one column of the filter ---- *)
Lemma col_valid_spec f low high D x : colinv f low high D -> col_valid f low high x = true <-> D x.
Proof.
  intros CI. pose proof (ci_l _ _ _ _ CI) as SL. pose proof (ci_h _ _ _ _ CI) as SH.
  rewrite <- (ci_d _ _ _ _ CI). rewrite lo_plain, hi_plain by auto.
  pose proof (range_cmp_spec low f x (shl_dir _ SL)) as R1. pose proof (range_cmp_spec high f x (shh_dir _ SH)) as R2.
  cbn zeta in R1, R2. pose proof (ci_n _ _ _ _ CI) as NN.
  assert (LOW : plain low <> CNone -> (negb (o_idx_cmp_range_key_to_value low f x >? 0) = true <->
      match plain low with CNone => True | CVal incl v => plt (place f v) (place f x) \/ (place f v = place f x /\ incl = true) end)).
  { intros NP. unfold plain in *. destruct (b_unb low); [congruence|]. destruct SL as [S1 S2]. rewrite S1 in R1.
    set (q := place f _) in *. set (c := o_idx_cmp_range_key_to_value low f x) in *.
    destruct R1 as [[H1 H2]|[[H1 H2]|[H1 H2]]].
    - split; [auto|lia].
    - split; [lia|]. intros [G|[G _]]; [destruct (plt_irrefl q); eapply plt_trans; eauto|rewrite G in H2; destruct (plt_irrefl _ H2)].
    - destruct (b_incl low); split; auto; try lia. intros [G|[_ G]]; [rewrite H1 in G; destruct (plt_irrefl _ G)|discriminate]. }
  assert (HIGH : plain high <> CNone -> (negb (o_idx_cmp_range_key_to_value high f x <? 0) = true <->
      match plain high with CNone => True | CVal incl v => plt (place f x) (place f v) \/ (place f v = place f x /\ incl = true) end)).
  { intros NP. unfold plain in *. destruct (b_unb high); [congruence|]. destruct SH as [S1 S2]. rewrite S1 in R2.
    set (q := place f (if b_null high then _ else _)) in *. set (c := o_idx_cmp_range_key_to_value high f x) in *.
    destruct R2 as [[H1 H2]|[[H1 H2]|[H1 H2]]].
    - split; [lia|]. intros [G|[G _]]; [destruct (plt_irrefl q); eapply plt_trans; eauto|rewrite G in H2; destruct (plt_irrefl _ H2)].
    - split; [auto|lia].
    - destruct (b_incl high); split; auto; try lia. intros [G|[_ G]]; [rewrite H1 in G; destruct (plt_irrefl _ G)|discriminate]. }
  unfold col_valid. set (isn := match x with None => true | Some _ => false end).
  assert (NN' : isval low \/ isval high -> (match plain low with CNone => True | CVal incl v => plt (place f v) (place f x) \/ (place f v = place f x /\ incl = true) end) ->
     (match plain high with CNone => True | CVal incl v => plt (place f x) (place f v) \/ (place f v = place f x /\ incl = true) end) -> isn = false).
  { intros V A B. unfold isn. destruct x; auto. exfalso. apply (ci_n _ _ _ _ CI V None); auto. apply (ci_d _ _ _ _ CI).
    rewrite lo_plain, hi_plain by auto. auto. }
  unfold isval in NN'.
  assert (PL : plain low <> CNone <-> b_unb low = false) by (unfold plain; destruct (b_unb low); split; congruence).
  assert (PH : plain high <> CNone <-> b_unb high = false) by (unfold plain; destruct (b_unb high); split; congruence).
  set (PLOW := match plain low with CNone => True | CVal incl v => _ end) in *.
  set (PHIGH := match plain high with CNone => True | CVal incl v => _ end) in *.
  assert (TL : b_unb low = true -> PLOW) by (intros E; unfold PLOW, plain; rewrite E; auto).
  assert (TH : b_unb high = true -> PHIGH) by (intros E; unfold PHIGH, plain; rewrite E; auto).
  clearbody PLOW PHIGH. clear R1 R2 NN.
  destruct (b_unb low) eqn:U1, (b_unb high) eqn:U2; cbn [orb].
  - split; auto.
  - destruct HIGH as [HA HB]; [apply PH; auto|]. destruct (b_null high) eqn:N2; cbn [negb andb].
    + split; [intros H; split; auto|tauto].
    + split.
      * intros H. apply andb_true_iff in H. split; [auto|apply HA; tauto].
      * intros [A B]. rewrite (NN' ltac:(auto) A B). cbn. auto.
  - destruct LOW as [LA LB]; [apply PL; auto|]. rewrite andb_true_r. destruct (b_null low) eqn:N2; cbn [negb andb].
    + split; [intros H; split; auto|tauto].
    + split.
      * intros H. apply andb_true_iff in H. split; [apply LA; tauto|auto].
      * intros [A B]. rewrite (NN' ltac:(auto) A B). cbn. auto.
  - destruct LOW as [LA LB]; [apply PL; auto|]. destruct HIGH as [HA HB]; [apply PH; auto|].
    split.
    + intros H. apply andb_true_iff in H. destruct H as [H1 H2]. apply andb_true_iff in H1, H2. split; [apply LA; tauto|apply HA; tauto].
    + intros [A B]. rewrite (LB A), (HB B), !andb_true_r.
      destruct (b_null low) eqn:N1, (b_null high) eqn:N2; cbn [negb andb]; auto; rewrite (NN' ltac:(auto) A B); auto.
Qed.

(* ---- the final loop ---- *)
Lemma equals_spec f l h : snd (o_idx_cmp_value_bounds l h f) = true -> exists v, plain l = CVal true (Some v) /\ plain h = CVal true (Some v).
Proof.
  unfold o_idx_cmp_value_bounds, plain. bounds l. bounds h. cbn.
  destruct (occ v v0) as [[E H]|[[E H]|[E H]]]; destruct nu, nu0, un, un0; cbn; rewrite ?E; destruct (asc f); cbn; try discriminate;
    destruct l, u, l0, u0, ic, ic0; cbn; try discriminate; intros _; exists v; subst; auto.
Qed.
Lemma final_spec fs r : (forall j, shl (r_low r j)) -> (forall j, shh (r_high r j)) -> forall k ex,
  (fst (final_loop fs r k ex) = true -> exists j, (j < length fs)%nat /\ forall x, ~ (lo (nth j fs dfl) (r_low r (k + j)%nat) x /\ hi (nth j fs dfl) (r_high r (k + j)%nat) x)) /\
  (snd (final_loop fs r k ex) = true -> ex = true /\ fst (final_loop fs r k ex) = false /\
     forall j, (j < length fs)%nat -> exists v, plain (r_low r (k + j)%nat) = CVal true (Some v) /\ plain (r_high r (k + j)%nat) = CVal true (Some v)).
Proof.
  intros SL SH. induction fs as [|f fs IH]; intros k ex; cbn [final_loop].
  - cbn. split; [discriminate|]. intros ->. repeat split; auto. intros j Hj. lia.
  - pose proof (cmp_bounds_spec f (r_low r k) (r_high r k) (shl_dir _ (SL k)) (shh_dir _ (SH k))) as [C1 C2].
    pose proof (equals_spec f (r_low r k) (r_high r k)) as EQ.
    destruct (o_idx_cmp_value_bounds (r_low r k) (r_high r k) f) as [c e]. cbn [fst snd] in *.
    destruct (c >=? 0) eqn:E.
    + cbn. split; [|discriminate]. intros _. exists 0%nat. split; [lia|]. rewrite Nat.add_0_r. cbn [nth]. intros x [H1 H2].
      assert (clt (cut f (r_low r k)) (cut f (r_high r k))) as G by (eapply clt_trans; eauto). rewrite <- C1 in G. lia.
    + specialize (IH (Datatypes.S k) (ex && e)). destruct IH as [I1 I2]. split.
      * intros H. destruct (I1 H) as (j & J1 & J2). exists (Datatypes.S j). split; [cbn; lia|]. cbn [nth].
        replace (k + Datatypes.S j)%nat with (Datatypes.S k + j)%nat by lia. exact J2.
      * intros H. destruct (I2 H) as (J1 & J2 & J3). apply andb_true_iff in J1. destruct J1 as [-> ->].
        split; [auto|]. split; [auto|]. intros [|j] Hj; cbn in Hj.
        -- rewrite Nat.add_0_r. auto.
        -- replace (k + Datatypes.S j)%nat with (Datatypes.S k + j)%nat by lia. apply J3. lia.
Qed.

(* ---- row comparisons ---- *)
Definition rlow fs (c : cond) : list (list (nat * vbound)) :=
  match c with
  | CRow _ _ subs => let '(low, _, sl, _) := by_strategy (colf fs (att fs c)) (prep fs c) in if sl then [row_bounds sl low subs] else []
  | _ => []
  end.
Definition rhigh fs (c : cond) : list (list (nat * vbound)) :=
  match c with
  | CRow _ _ subs => let '(_, high, _, sh) := by_strategy (colf fs (att fs c)) (prep fs c) in if sh then [row_bounds sh high subs] else []
  | _ => []
  end.
Lemma rows_loop fs p cur cs : forall i r,
  r_lrows (keys_loop fs p cur i (map (prep fs) cs) r) = r_lrows r ++ flat_map (rlow fs) cs /\
  r_hrows (keys_loop fs p cur i (map (prep fs) cs) r) = r_hrows r ++ flat_map (rhigh fs) cs.
Proof.
  induction cs as [|c cs IH]; intros i r; cbn [map keys_loop flat_map]. { rewrite !app_nil_r. auto. }
  destruct (IH (Datatypes.S i) (key_step fs p cur r i (prep fs c))) as [-> ->].
  assert (r_lrows (key_step fs p cur r i (prep fs c)) = r_lrows r ++ rlow fs c /\ r_hrows (key_step fs p cur r i (prep fs c)) = r_hrows r ++ rhigh fs c) as [-> ->].
  { destruct c as [a op v|a|a|a vs|gt incl subs]; unfold key_step, rlow, rhigh, att; cbn [prep sk_att sk_arg];
      destruct (by_strategy _ _) as [[[l h] sl] sh]; cbn [r_lrows r_hrows]; rewrite ?app_nil_r; auto.
    - destruct (o_key_range_is_unbounded _ _); auto.
    - unfold colf. destruct sl, sh; rewrite ?app_nil_r; auto. }
  rewrite <- !app_assoc. auto.
Qed.

Definition uniform (fs : list fld) (subs : list (nat * Z)) : Prop :=
  forall c v, In (c, v) subs -> asc (colf fs c) = asc (colf fs (match subs with [] => 0%nat | (c, _) :: _ => c end)).

Lemma value_rows fs gt incl t low s : forall subs (d : bool), subs <> [] -> (forall c v, In (c, v) subs -> asc (colf fs c) = d) ->
  low = Bool.eqb gt d ->
  row_key_tuple_is_valid fs (row_bounds s (if low then lower_b false incl else upper_b false incl) subs) t low = true <->
  row_holds gt incl subs t.
Proof.
  induction subs as [|[c v] subs IH]; intros d N U E; [congruence|]. clear N.
  cbn [row_bounds row_key_tuple_is_valid row_holds].
  set (b := o_fill true v _).
  assert (B : b = mkB v 0 false false low (negb low) (match subs with [] => incl | _ => true end)).
  { unfold b, o_fill. destruct subs, low; reflexivity. }
  rewrite B. clear B b. cbn [b_unb b_null].
  pose proof (U c v (or_introl eq_refl)) as UC. unfold colf in UC.
  destruct (column t c) as [x|]; cbn [negb andb orb].
  2:{ split; [discriminate|]. intros (z & E2 & _). discriminate. }
  unfold o_idx_cmp_range_key_to_value. cbn [b_null b_value b_incl]. rewrite UC. unfold cmp_inclusive. cbn [b_lower b_upper b_incl].
  destruct subs as [|s2 subs'].
  - cbn [row_bounds row_key_tuple_is_valid andb negb]. rewrite andb_false_r.
    destruct (occ v x) as [[-> H]|[[-> H]|[-> H]]]; subst low; destruct gt, d, incl; cbn;
    (split; [intros G; first [discriminate|exists x; split; [reflexivity|]; first [left; lia|right; split; [lia|reflexivity]|lia]]
            |intros (z & EZ & G); injection EZ as <-; destruct G as [G|[G1 G2]]; try discriminate; try reflexivity; lia]).
  - remember (s2 :: subs') as rest. assert (RN : rest <> []) by (subst; discriminate).
    assert (MM : (match row_bounds s (if low then lower_b false incl else upper_b false incl) rest with [] => false | _ => true end) = true).
    { subst rest. destruct s2. reflexivity. }
    rewrite MM. specialize (IH d RN ltac:(intros; apply (U c0 v0); right; auto) E).
    cbn [negb]. rewrite andb_false_r.
    destruct (occ v x) as [[-> H]|[[-> H]|[-> H]]].
    + destruct gt, d, low; cbn in E; try discriminate; cbn;
      (split; [intros G; first [discriminate|exists x; split; [reflexivity|left; lia]]|intros (z & EZ & G); injection EZ as <-; destruct G as [G|[G _]]; [try reflexivity; lia|lia]]).
    + subst x. replace (if d then 0 else - 0) with 0 by (destruct d; auto). cbn.
      replace (if low then false else false) with false by (destruct low; auto). cbn.
      rewrite IH. split; [intros G; exists v; split; [reflexivity|right; auto]|].
      intros (z & EZ & G). injection EZ as <-. destruct G as [G|[_ G]]; [destruct gt; lia|auto].
    + destruct gt, d, low; cbn in E; try discriminate; cbn;
      (split; [intros G; first [discriminate|exists x; split; [reflexivity|left; lia]]|intros (z & EZ & G); injection EZ as <-; destruct G as [G|[G _]]; [try reflexivity; lia|lia]]).
Qed.

Lemma null_rows fs t low s c v subs x : column t c = Some x -> nullfirst (colf fs c) = low ->
  row_key_tuple_is_valid fs (row_bounds s (if low then lower_b true false else upper_b true false) ((c, v) :: subs)) t low = true.
Proof.
  intros X N. cbn [row_bounds row_key_tuple_is_valid]. set (b := o_fill true v _).
  assert (B : b_unb b = false /\ b_null b = true) by (unfold b, o_fill; destruct subs, low; auto). destruct B as [B1 B2].
  rewrite B1, B2, X. cbn [negb andb orb]. unfold o_idx_cmp_range_key_to_value. rewrite B2. unfold colf in N. rewrite N.
  destruct low; cbn; destruct subs as [|[c2 v2] subs']; reflexivity.
Qed.

Lemma row_spec fs t gt incl subs : subs <> [] -> uniform fs subs ->
  ((forallb (fun rk => row_key_tuple_is_valid fs rk t true) (rlow fs (CRow gt incl subs)) = true /\
    forallb (fun rk => row_key_tuple_is_valid fs rk t false) (rhigh fs (CRow gt incl subs)) = true) <-> row_holds gt incl subs t).
Proof.
  intros N U. destruct subs as [|[c0 v0] rest]; [congruence|]. unfold uniform in U. cbn iota in U.
  unfold rlow, rhigh, att. cbn [prep sk_att]. set (f := colf fs c0). change (nth c0 fs dfl) with f.
  set (subs := (c0, v0) :: rest) in *.
  pose proof (fun low s => value_rows fs gt incl t low s subs (asc f) N U) as V.
  pose proof (fun low s x => null_rows fs t low s c0 v0 rest x) as NR.
  assert (HX : row_holds gt incl subs t -> exists x, column t c0 = Some x) by (intros (x & H & _); eauto).
  unfold by_strategy, fixs. cbn [sk_strategy sk_arg].
  change (nullfirst (colf fs c0)) with (nullfirst f) in NR.
  destruct f as [as_ nf]. cbn [asc nullfirst] in *. change ((c0, v0) :: rest) with subs in NR.
  destruct gt, incl, as_, nf; cbn [commute forallb andb negb];
  cbn [negb]; rewrite ?andb_true_r;
  first [ specialize (V true true eq_refl) | specialize (V false true eq_refl) ]; cbn iota in V; rewrite <- V;
  (split; [tauto|]); intros H; (split; auto); try reflexivity;
  apply V in H; destruct (HX H) as [x X];
  first [exact (NR true true x X eq_refl) | exact (NR false true x X eq_refl)].
Qed.

(* ---- membership ---- *)
Definition in_order (f : fld) (vs : list Z) : Prop :=
  vs <> [] /\ forall i j, (i < j < length vs)%nat -> fle f (nth i vs 0) (nth j vs 0).

Lemma bsearch_spec f vs x : in_order f vs -> forall n lo hi, 0 <= lo -> hi < Z.of_nat (length vs) -> hi - lo + 1 <= Z.of_nat n ->
  bsearch n f vs x lo hi = true <-> exists i, lo <= i <= hi /\ nth (Z.to_nat i) vs 0 = x.
Proof.
  intros [_ SO]. induction n as [|n IH]; intros l h L H B; cbn [bsearch].
  - split; [discriminate|]. intros (i & Hi & _). lia.
  - destruct (l <=? h) eqn:E. 2:{ split; [discriminate|]. intros (i & Hi & _). lia. }
    set (mid := l + (h - l) / 2). assert (l <= mid <= h) as M.
    { unfold mid. pose proof (Z.div_pos (h - l) 2 ltac:(lia) ltac:(lia)). pose proof (Z.div_le_upper_bound (h - l) 2 (h - l) ltac:(lia) ltac:(lia)). lia. }
    clearbody mid. set (m := nth (Z.to_nat mid) vs 0) in *.
    assert (LE : forall i j, 0 <= i -> i <= j -> j < Z.of_nat (length vs) -> fle f (nth (Z.to_nat i) vs 0) (nth (Z.to_nat j) vs 0)).
    { intros i j H1 H2 H3. destruct (Z.eq_dec i j) as [->|]; [unfold fle; destruct (asc f); lia|]. apply SO. lia. }
    destruct (occ x m) as [[-> H0]|[[-> H0]|[-> H0]]].
    + destruct (asc f) eqn:A; cbn.
      * rewrite IH by lia. split; intros (i & Hi & G); exists i; (split; [|auto]); try lia.
        destruct (Z.lt_ge_cases i mid); [lia|]. specialize (LE mid i ltac:(lia) ltac:(lia) ltac:(lia)). unfold fle in LE. rewrite A in LE. subst m. lia.
      * rewrite IH by lia. split; intros (i & Hi & G); exists i; (split; [|auto]); try lia.
        destruct (Z.lt_ge_cases mid i); [lia|]. specialize (LE i mid ltac:(lia) ltac:(lia) ltac:(lia)). unfold fle in LE. rewrite A in LE. subst m. lia.
    + replace ((if asc f then 0 else - 0) =? 0) with true by (destruct (asc f); auto). split; [|auto]. intros _. exists mid. split; [lia|auto].
    + destruct (asc f) eqn:A; cbn.
      * rewrite IH by lia. split; intros (i & Hi & G); exists i; (split; [|auto]); try lia.
        destruct (Z.lt_ge_cases mid i); [lia|]. specialize (LE i mid ltac:(lia) ltac:(lia) ltac:(lia)). unfold fle in LE. rewrite A in LE. subst m. lia.
      * rewrite IH by lia. split; intros (i & Hi & G); exists i; (split; [|auto]); try lia.
        destruct (Z.lt_ge_cases i mid); [lia|]. specialize (LE mid i ltac:(lia) ltac:(lia) ltac:(lia)). unfold fle in LE. rewrite A in LE. subst m. lia.
Qed.
Lemma member_spec f vs x : in_order f vs -> array_member f vs (Some x) = true <-> In x vs.
Proof.
  intros SO. unfold array_member. rewrite bsearch_spec by (auto; lia). split.
  - intros (i & Hi & <-). apply nth_In. lia.
  - intros H. destruct (In_nth _ _ 0 H) as (n & Hn & E). exists (Z.of_nat n). rewrite Nat2Z.id. split; [lia|auto].
Qed.
Lemma last_nth {A} (l : list A) d : last l d = nth (length l - 1) l d.
Proof. induction l as [|a l IH]; auto. destruct l as [|b l]; auto. change (last (a :: b :: l) d) with (last (b :: l) d). rewrite IH. cbn. rewrite Nat.sub_0_r. reflexivity. Qed.
Lemma in_hull f vs x : in_order f vs -> In x vs -> fle f (hd 0 vs) x /\ fle f x (last vs 0).
Proof.
  intros [N SO] H. destruct (In_nth _ _ 0 H) as (n & Hn & <-). rewrite last_nth.
  replace (hd 0 vs) with (nth 0 vs 0) by (destruct vs; auto).
  assert (R : forall a, fle f a a) by (intros; unfold fle; destruct (asc f); lia).
  split; [destruct (Nat.eq_dec n 0) as [->|]; auto; apply SO; lia|].
  destruct (Nat.eq_dec n (length vs - 1)) as [->|]; auto. apply SO; lia.
Qed.

(* ---- the leading equalities ---- *)
Lemma prefix_spec fs cs : forall k j, (j < num_prefix_from k (map (prep fs) cs))%nat ->
  exists c, nth_error cs j = Some c /\ att fs c = (k + j)%nat /\ lone c = true.
Proof.
  induction cs as [|c cs IH]; intros k j H; cbn [map num_prefix_from] in H; [lia|].
  destruct (Nat.eqb (sk_att (prep fs c)) k) eqn:E; cbn [andb] in H; [|lia]. apply Nat.eqb_eq in E.
  assert (lone c = true) as LC.
  { destruct c as [a op v|a|a|a vs|gt incl subs]; cbn in H |- *; auto; try lia.
    - destruct op; auto; unfold fixs in H; destruct (asc _); cbn in H; lia.
    - destruct (nullfirst _); lia.
    - unfold fixs in H; destruct (asc _), gt, incl; cbn in H; lia. }
  destruct (match sk_strategy (prep fs c) with SEq => _ | _ => _ end); [|lia].
  destruct j as [|j]; [exists c; unfold att; rewrite Nat.add_0_r; auto|].
  destruct (IH (Datatypes.S k) j ltac:(lia)) as (d & D1 & D2 & D3). exists d. split; [auto|]. split; [lia|auto].
Qed.

Lemma lone_bounds fs p cur i c : lone c = true -> (is_arr c = true -> (i < p)%nat) ->
  exists v, clow fs p cur i c = eqlow v /\ chigh fs p cur i c = eqhigh v.
Proof.
  intros L A. unfold clow, chigh. destruct c as [a op v|a|a|a vs|]; try discriminate.
  - destruct op; try discriminate. cbn [prep sk_att sk_arg]. unfold by_strategy, fixs. cbn [sk_strategy sk_arg strat_of].
    destruct (asc _); cbn; exists v; split; reflexivity.
  - cbn [prep sk_att sk_arg]. unfold by_strategy. cbn [sk_strategy sk_arg].
    specialize (A eq_refl). replace (Nat.ltb i p) with true by (symmetry; apply Nat.ltb_lt; auto). cbn. eexists; split; reflexivity.
Qed.

Lemma lone_pinned fs p cur cs : forall i r j c, ForallOrdPairs (apart fs) cs ->
  nth_error cs j = Some c -> lone c = true -> (i + j < p)%nat ->
  r_low r (att fs c) = minus_inf -> r_high r (att fs c) = plus_inf ->
  let r' := keys_loop fs p cur i (map (prep fs) cs) r in
  r_low r' (att fs c) = clow fs p cur (i + j) c /\ r_high r' (att fs c) = chigh fs p cur (i + j) c.
Proof.
  induction cs as [|d cs IH]; intros i r [|j] c AP E LC P R1 R2; cbn in E; try discriminate; cbn zeta; cbn [map keys_loop];
    inversion AP as [|? ? AP1 AP2]; subst; rewrite Forall_forall in AP1.
  - injection E as ->. assert (NR : is_row c = false) by (destruct c; try discriminate; auto).
    rewrite Nat.add_0_r in *.
    destruct (untouched fs p cur cs (Datatypes.S i) (key_step fs p cur r i (prep fs c)) (att fs c)) as [-> ->].
    { intros d Hd. destruct (is_row d) eqn:RD; auto. right. intros EE. apply (AP1 d Hd ltac:(auto) NR RD). auto. }
    destruct (is_arr c) eqn:A.
    + rewrite key_step_arr by auto. cbn [r_low r_high]. unfold updn. rewrite Nat.eqb_refl. auto.
    + rewrite key_step_plain by auto. cbn [r_low r_high]. rewrite R1, R2.
      destruct (lone_bounds fs p cur i c LC ltac:(congruence)) as (v & -> & ->).
      cbn. unfold updn. rewrite Nat.eqb_refl. auto.
  - assert (NR : is_row c = false) by (destruct c; try discriminate; auto).
    rewrite Nat.add_succ_r in *. change (Datatypes.S (i + j)) with (Datatypes.S i + j)%nat in *.
    destruct (key_step_other fs p cur r i d (att fs c)) as [K1 K2].
    { destruct (is_row d) eqn:RD; auto. right. apply (AP1 c (nth_error_In _ _ E) ltac:(auto)); auto. }
    apply IH; auto; congruence.
Qed.

(* ---- whole scans ---- *)
Record wf (fs : list fld) (cs : list cond) : Prop := {
  wf_apart : ForallOrdPairs (apart fs) cs;
  wf_cols : forall c, In c cs -> is_row c = false -> (att fs c < length fs)%nat;
  wf_in : forall a vs, In (CIn a vs) cs -> in_order (colf fs a) vs;
  wf_rows : forall gt incl subs, In (CRow gt incl subs) cs -> subs <> [] }.

Definition matches (fs : list fld) (cur : nat -> nat) (p : nat) (cs : list cond) (t : list val) : Prop :=
  forall c, In c (pin p cur cs) -> satisfies t c.

Lemma pin_from_nth p cur cs : forall i c', In c' (pin_from i p cur cs) <->
  exists j c, nth_error cs j = Some c /\ c' = (match c with CIn col vs => if Nat.ltb (i + j) p then CCmp col OEq (nth (cur col) vs 0) else c | _ => c end).
Proof.
  induction cs as [|c cs IH]; intros i c'; cbn [pin_from].
  - split; [intros []|]. intros (j & c & E & _). destruct j; discriminate.
  - split.
    + intros [H|H].
      * exists 0%nat, c. split; [auto|]. rewrite Nat.add_0_r. auto.
      * apply IH in H. destruct H as (j & d & E & H). exists (Datatypes.S j), d. split; [auto|]. rewrite Nat.add_succ_r. auto.
    + intros ([|j] & d & E & H); cbn in E.
      * injection E as <-. rewrite Nat.add_0_r in H. left. auto.
      * right. apply IH. exists j, d. split; [auto|]. rewrite Nat.add_succ_r in H. auto.
Qed.

(* satisfying one condition, by columns *)
Lemma sat_hull fs p cur i c t : is_row c = false ->
  (forall a vs, c = CIn a vs -> in_order (colf fs a) vs) ->
  satisfies t (match c with CIn col vs => if Nat.ltb i p then CCmp col OEq (nth (cur col) vs 0) else c | _ => c end) <->
  (hull p cur i (colf fs (att fs c)) c (column t (att fs c)) /\
   (match c with CIn a vs => if Nat.leb p i then array_member (colf fs a) vs (column t a) else true | _ => true end) = true).
Proof.
  intros NR IO. destruct c as [a op v|a|a|a vs|]; try discriminate; unfold att; cbn [prep sk_att hull satisfies]; try tauto.
  specialize (IO a vs eq_refl).
  destruct (Nat.ltb i p) eqn:E.
  - apply Nat.ltb_lt in E. replace (Nat.leb p i) with false by (symmetry; apply Nat.leb_gt; auto).
    cbn [satisfies holds]. split; [intros (x & -> & ->); auto|]. intros [-> _]. eauto.
  - apply Nat.ltb_ge in E. replace (Nat.leb p i) with true by (symmetry; apply Nat.leb_le; auto).
    cbn [satisfies]. split.
    + intros (x & -> & H). split; [|apply member_spec; auto]. exists x. split; [auto|]. apply in_hull; auto.
    + intros [(x & -> & _) H]. exists x. split; [auto|]. apply (member_spec (colf fs a)); auto.
Qed.

Lemma arrays_valid_spec fs p cs t : forall i, arrays_valid fs p i (map (prep fs) cs) t = true <->
  forall j c, nth_error cs j = Some c -> (match c with CIn a vs => if Nat.leb p (i + j) then array_member (colf fs a) vs (column t a) else true | _ => true end) = true.
Proof.
  induction cs as [|c cs IH]; intros i; cbn [map arrays_valid].
  - split; [|auto]. intros _ j c E. destruct j; discriminate.
  - rewrite andb_true_iff, IH. split.
    + intros [H1 H2] [|j] d E; cbn in E.
      * injection E as <-. rewrite Nat.add_0_r. destruct c; auto.
      * specialize (H2 j d E). rewrite Nat.add_succ_r. exact H2.
    + intros H. split.
      * specialize (H 0%nat c eq_refl). rewrite Nat.add_0_r in H. destruct c; auto.
      * intros j d E. specialize (H (Datatypes.S j) d E). rewrite Nat.add_succ_r in H. exact H.
Qed.

Section Scan.
Variable fs : list fld.
Variable cs : list cond.
Variable cur : nat -> nat.
Hypothesis W : wf fs cs.
Hypothesis UR : forall gt incl subs, In (CRow gt incl subs) cs -> uniform fs subs.
Let p := o_get_num_prefix_exact_keys (map (prep fs) cs).
Let r := keys_loop fs p cur 0 (map (prep fs) cs) r_init.

Lemma r_inv a : colinv (colf fs a) (r_low r a) (r_high r a) (allhull fs p cur 0 cs a).
Proof. apply (range_inv fs p cur cs (wf_apart _ _ W)). Qed.
Lemma r_shl j : shl (r_low r j). Proof. apply (ci_l _ _ _ _ (r_inv j)). Qed.
Lemma r_shh j : shh (r_high r j). Proof. apply (ci_h _ _ _ _ (r_inv j)). Qed.

Lemma rows_spec t :
  (forallb (fun rk => row_key_tuple_is_valid fs rk t true) (r_lrows r) = true /\
   forallb (fun rk => row_key_tuple_is_valid fs rk t false) (r_hrows r) = true) <->
  (forall gt incl subs, In (CRow gt incl subs) cs -> row_holds gt incl subs t).
Proof.
  destruct (rows_loop fs p cur cs 0 r_init) as [R1 R2]. change (keys_loop _ _ _ _ _ _) with r in R1, R2. rewrite R1, R2. cbn [r_init r_lrows r_hrows app].
  assert (forall c, In c cs -> (forall gt incl subs, c = CRow gt incl subs -> subs <> [] /\ uniform fs subs)) as RW.
  { intros c Hc gt incl subs ->. split; [eapply (wf_rows _ _ W); eauto|eapply UR; eauto]. }
  clear R1 R2 W UR r p. induction cs as [|c l IH]; cbn [flat_map].
  - cbn. split; [intros _ gt incl subs []|auto].
  - rewrite !forallb_app, !andb_true_iff. specialize (IH ltac:(intros d Hd; apply (RW d); right; exact Hd)).
    assert (H : (forallb (fun rk => row_key_tuple_is_valid fs rk t true) (rlow fs c) = true /\ forallb (fun rk => row_key_tuple_is_valid fs rk t false) (rhigh fs c) = true) <->
       (forall gt incl subs, c = CRow gt incl subs -> row_holds gt incl subs t)).
    { destruct c as [a op v|a|a|a vs|gt incl subs]; try (cbn; split; [intros _ ? ? ? E; discriminate|auto]).
      destruct (RW _ (or_introl eq_refl) gt incl subs eq_refl) as [N U]. rewrite row_spec by auto.
      split; [intros H ? ? ? E; injection E as <- <- <-; auto|intros H; auto]. }
    split.
    + intros [[A1 A2] [B1 B2]] gt incl subs [E|I].
      * apply H; auto.
      * apply IH; auto.
    + intros G. destruct H as [_ H]. destruct (H ltac:(intros; apply G; left; auto)). destruct IH as [_ IH]. destruct (IH ltac:(intros; apply G; right; auto)). auto.
Qed.

Lemma matches_spec t : matches fs cur p cs t <->
  (forall a, allhull fs p cur 0 cs a (column t a)) /\
  (forall gt incl subs, In (CRow gt incl subs) cs -> row_holds gt incl subs t) /\
  arrays_valid fs p 0 (map (prep fs) cs) t = true.
Proof.
  unfold matches, pin. rewrite arrays_valid_spec. split.
  - intros H.
    assert (G : forall j c, nth_error cs j = Some c -> satisfies t (match c with CIn col vs => if Nat.ltb j p then CCmp col OEq (nth (cur col) vs 0) else c | _ => c end)).
    { intros j c E. apply H. apply pin_from_nth. exists j, c. auto. }
    split; [|split].
    + intros a j c E R <-. specialize (G j c E). apply (sat_hull fs) in G; auto. { apply G. }
      intros a vs ->. eapply (wf_in _ _ W). eapply nth_error_In; eauto.
    + intros gt incl subs I. destruct (In_nth_error _ _ I) as [j E]. apply (G j _ E).
    + intros j c E. cbn [Nat.add]. specialize (G j c E). destruct (is_row c) eqn:R; [destruct c; try discriminate; auto|].
      apply (sat_hull fs) in G; auto. { apply G. }
      intros a vs ->. eapply (wf_in _ _ W). eapply nth_error_In; eauto.
  - intros (H1 & H2 & H3) c' I. apply pin_from_nth in I. destruct I as (j & c & E & ->). cbn [Nat.add] in *.
    destruct (is_row c) eqn:R.
    + destruct c; try discriminate. apply H2. eapply nth_error_In; eauto.
    + apply (sat_hull fs); auto.
      * intros a vs ->. eapply (wf_in _ _ W). eapply nth_error_In; eauto.
      * split; [apply (H1 _ j c E R eq_refl)|apply (H3 j c E)].
Qed.

Definition in_range (t : list val) : Prop :=
  above fs (map plain (low_bound fs r)) t /\ below fs (map plain (high_bound fs r)) t.

Lemma range_covers t : length t = length fs -> matches fs cur p cs t ->
  in_range t /\ is_tuple_valid fs p r (map (prep fs) cs) t = true /\ fst (final_loop fs r 0 true) = false.
Proof.
  intros L M. apply matches_spec in M. destruct M as (M1 & M2 & M3).
  assert (C : forall j, lo (colf fs j) (r_low r j) (column t j) /\ hi (colf fs j) (r_high r j) (column t j)).
  { intros j. apply (ci_d _ _ _ _ (r_inv j)). auto. }
  split; [split|split].
  - apply cols_above; auto. { apply r_shl. } intros j Hj. apply C.
  - apply cols_below; auto. { apply r_shh. } intros j Hj. apply C.
  - unfold is_tuple_valid. rewrite !andb_true_iff. repeat split; auto; try (apply rows_spec; auto).
    apply forallb_forall. intros j Hj. apply (col_valid_spec _ _ _ _ _ (r_inv j)). auto.
  - destruct (fst (final_loop fs r 0 true)) eqn:E; auto. exfalso.
    destruct (final_spec fs r r_shl r_shh 0 true) as [F _]. destruct (F E) as (j & Hj & G). apply (G (column t j)). apply C.
Qed.

Lemma pinned j : (j < p)%nat -> exists v, plain (r_low r j) = CVal true v /\ plain (r_high r j) = CVal true v.
Proof.
  intros H. destruct (prefix_spec fs cs 0 j H) as (c & E & A & LC). cbn in A.
  destruct (lone_pinned fs p cur cs 0 r_init j c (wf_apart _ _ W) E LC H eq_refl eq_refl) as [R1 R2].
  cbn zeta in R1, R2. change (keys_loop _ _ _ _ _ _) with r in R1, R2. rewrite A in *.
  destruct (lone_bounds fs p cur (0 + j) c LC ltac:(auto)) as (v & B1 & B2).
  exists (Some v). rewrite R1, R2, B1, B2. auto.
Qed.

Lemma cols_hull t : length t = length fs -> (forall j, (j < length fs)%nat -> lo (colf fs j) (r_low r j) (column t j) /\ hi (colf fs j) (r_high r j) (column t j)) ->
  forall a, allhull fs p cur 0 cs a (column t a).
Proof.
  intros L C a j c E R A. pose proof (wf_cols _ _ W c (nth_error_In _ _ E) R) as B. rewrite A in B.
  apply (ci_d _ _ _ _ (r_inv a)) with (x := column t a) in C; [|auto]. apply (C j c E R A).
Qed.

Lemma range_sound t : length t = length fs -> in_range t -> is_tuple_valid fs p r (map (prep fs) cs) t = true ->
  matches fs cur p cs t.
Proof.
  intros L [A B] V. unfold is_tuple_valid in V. rewrite !andb_true_iff in V. destruct V as (((V1 & V2) & V3) & V4).
  apply matches_spec. split; [|split; [apply rows_spec; auto|auto]].
  apply cols_hull; auto. intros j Hj. destruct (Nat.le_gt_cases j p) as [G|G].
  - apply (pinned_cols fs (r_low r) (r_high r) 0 p t r_shl r_shh L); auto. intros i Hi. apply pinned; auto.
  - apply (ci_d _ _ _ _ (r_inv j)). apply (col_valid_spec _ _ _ _ _ (r_inv j)).
    rewrite forallb_forall in V1. apply V1. apply in_seq. lia.
Qed.

Lemma exact_sound t : length t = length fs -> (forall c, In c cs -> is_row c = false) ->
  snd (final_loop fs r 0 true) = true -> in_range t -> matches fs cur p cs t.
Proof.
  intros L NR E [A B]. destruct (final_spec fs r r_shl r_shh 0 true) as [_ F]. destruct (F E) as (_ & _ & PN). cbn [Nat.add] in PN.
  assert (C : forall j, (j < length fs)%nat -> lo (colf fs j) (r_low r j) (column t j) /\ hi (colf fs j) (r_high r j) (column t j)).
  { intros j Hj. apply (pinned_cols fs (r_low r) (r_high r) 0 (length fs - 1) t r_shl r_shh L); auto; try lia.
    intros i Hi. destruct (PN i ltac:(lia)) as (v & V). exists (Some v). exact V. }
  pose proof (cols_hull t L C) as H.
  apply matches_spec. split; [auto|]. split. { intros gt incl subs I. specialize (NR _ I). discriminate. }
  apply arrays_valid_spec. intros j c Ec. destruct c as [| | |a vs|]; auto. cbn [Nat.add]. destruct (Nat.leb p j) eqn:LE; auto.
  apply Nat.leb_le in LE.
  pose proof (H a j _ Ec eq_refl eq_refl) as HU. cbn [hull Nat.add] in HU.
  replace (Nat.ltb j p) with false in HU by (symmetry; apply Nat.ltb_ge; auto).
  destruct HU as (x & EX & HL). rewrite EX.
  pose proof (wf_in _ _ W a vs (nth_error_In _ _ Ec)) as IO. apply member_spec; auto.
  pose proof (wf_cols _ _ W _ (nth_error_In _ _ Ec) eq_refl) as BA. unfold att in BA. cbn in BA.
  (* any element satisfies the column's bounds, which hold for one value only *)
  destruct (PN a BA) as (v & P1 & P2).
  assert (ALL : forall y, allhull fs p cur 0 cs a (Some y) -> y = v).
  { intros y HY. apply (ci_d _ _ _ _ (r_inv a)) in HY. destruct HY as [Y1 Y2].
    apply lo_plain in Y1; [|apply r_shl]. apply hi_plain in Y2; [|apply r_shh]. rewrite P1 in Y1. rewrite P2 in Y2.
    assert (place (colf fs a) (Some v) = place (colf fs a) (Some y)) as PE.
    { destruct Y1 as [Y1|[Y1 _]]; auto. destruct Y2 as [Y2|[Y2 _]]; auto. exfalso. apply (plt_irrefl (place (colf fs a) (Some y))). eapply plt_trans; eauto. }
    apply place_inj in PE. congruence. }
  assert (x = v) as ->. { apply ALL. rewrite <- EX. apply H. }
  assert (hd 0 vs = v) as <-.
  { apply ALL. intros j' c' Ec' R' A'.
    assert (j' = j) as ->.
    { destruct (Nat.eq_dec j' j); auto. exfalso. 
      assert (Q : forall (l : list cond) m n c d, ForallOrdPairs (apart fs) l -> nth_error l m = Some c -> nth_error l n = Some d -> (m < n)%nat -> apart fs c d).
      { clear. induction l as [|e l IH]; intros [|m] [|n] c d FO Em En Lt; cbn in *; try discriminate; try lia;
          inversion FO as [|? ? F1 F2]; subst; rewrite Forall_forall in F1.
        - injection Em as ->. apply F1. eapply nth_error_In; eauto.
        - eapply (IH m n); eauto. lia. }
      destruct (Nat.lt_ge_cases j' j).
      - apply (Q cs j' j c' (CIn a vs) (wf_apart _ _ W) Ec' Ec ltac:(lia)); auto.
      - apply (Q cs j j' (CIn a vs) c' (wf_apart _ _ W) Ec Ec' ltac:(lia)); auto. }
    assert (c' = CIn a vs) as -> by congruence. cbn [hull Nat.add].
    replace (Nat.ltb j p) with false by (symmetry; apply Nat.ltb_ge; auto).
    exists (hd 0 vs). split; [auto|]. apply in_hull; auto. destruct IO as [N _]. destruct vs; [congruence|left; auto]. }
  destruct IO as [N _]. destruct vs; [congruence|left; auto].
Qed.
End Scan.
